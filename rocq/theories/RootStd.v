(** * Standard form of ternary roots (roots.py:497-532) *)
From Coq Require Import Bool List Arith Lia Ring Field.
From Verif Require Import OrdField Base RootUv RootUvFacts.
Import ListNotations.

Section Facts.
Variable K : OrdField.
Local Open Scope of_scope.
Add Field Kf : (F_field K).
Implicit Types a b c x y z : K.

(** Side conditions of [field]. *)
Ltac fin3 := repeat split; ffold K; first [assumption | apply flt_neq0; solve [fpos]].

(** ** Specification *)
Definition rotations (t r : K * K * K) : Prop :=
  let '(x, y, z) := t in r = (x, y, z) \/ r = (y, z, x) \/ r = (z, x, y).
(** The first coordinate is the largest one, the second one too if it occurs twice. *)
Definition leading (r : K * K * K) : Prop := let '(x, y, z) := r in y <= x /\ z < x.

Lemma max3_ge x y z : x <= max3 x y z /\ y <= max3 x y z /\ z <= max3 x y z.
Proof.
  unfold max3. destruct (fltb x y) eqn:E1; [apply fltb_lt, flt_le in E1|apply fltb_ge in E1].
  - destruct (fltb y z) eqn:E2; [apply fltb_lt, flt_le in E2|apply fltb_ge in E2].
    + repeat split; [exact (fle_trans K _ _ _ E1 E2)|exact E2|apply fle_refl].
    + repeat split; [exact E1|apply fle_refl|exact E2].
  - destruct (fltb x z) eqn:E2; [apply fltb_lt, flt_le in E2|apply fltb_ge in E2].
    + repeat split; [exact E2|exact (fle_trans K _ _ _ E1 E2)|apply fle_refl].
    + repeat split; [apply fle_refl|exact E1|exact E2].
Qed.
Lemma max3_in x y z : max3 x y z = x \/ max3 x y z = y \/ max3 x y z = z.
Proof. unfold max3. destruct (fltb x y); [destruct (fltb y z)|destruct (fltb x z)]; tauto. Qed.

Lemma lt_of_le_ne x y : x <= y -> x <> y -> x < y.
Proof. intros H Hn. apply (flt_not_le K). intro H'. apply Hn. exact (fle_antisym K _ _ H H'). Qed.

(** The choice made by the two loops. *)
Definition pick (sym : bool) x y z : K * K * K :=
  let m := max3 x y z in
  if negb sym then
    if feqb x m then (x, y, z) else if feqb y m then (y, z, x) else if feqb z m then (z, x, y) else (x, y, z)
  else
    if feqb x m && fltb z m then (x, y, z) else if feqb y m && fltb x m then (y, z, x)
    else if feqb z m && fltb y m then (z, x, y) else (x, y, z).

Lemma pick_ok x y z : r_centered x y z = false ->
  rotations (x, y, z) (pick (r_symmetric x y z) x y z) /\ leading (pick (r_symmetric x y z) x y z).
Proof.
  intro Hc. destruct (max3_ge x y z) as (Hx & Hy & Hz). pose proof (max3_in x y z) as Hin.
  assert (Hc' : ~ (x = y /\ x = z)) by (rewrite <- centered_iff; congruence).
  unfold pick. set (m := max3 x y z) in *. clearbody m.
  destruct (r_symmetric x y z) eqn:Es; cbn [negb].
  - (* some two coordinates are equal *)
    destruct (feqb x m) eqn:E1; [apply feqb_eq in E1|apply feqb_neq in E1].
    + destruct (fltb z m) eqn:F1; cbn [andb].
      * apply fltb_lt in F1. subst x. split; [left; reflexivity|split; assumption].
      * apply fltb_ge in F1. assert (Ez : z = m) by (exact (fle_antisym K _ _ Hz F1)).
        destruct (feqb y m) eqn:E2; [apply feqb_eq in E2; exfalso; apply Hc'; split; congruence|].
        apply feqb_neq in E2. cbn [andb].
        assert (E3 : feqb z m = true) by (apply feqb_eq; exact Ez). rewrite E3.
        assert (F3 : fltb y m = true) by (apply fltb_lt, lt_of_le_ne; assumption). rewrite F3. cbn [andb].
        split; [right; right; reflexivity|]. apply fltb_lt in F3. subst z. split; assumption.
    + cbn [andb]. assert (Fx : fltb x m = true) by (apply fltb_lt, lt_of_le_ne; assumption). rewrite Fx.
      destruct (feqb y m) eqn:E2; [apply feqb_eq in E2|apply feqb_neq in E2]; cbn [andb].
      * apply fltb_lt in Fx. subst y. split; [right; left; reflexivity|split; assumption].
      * assert (Ez : z = m) by (destruct Hin as [H|[H|H]]; congruence).
        assert (E3 : feqb z m = true) by (apply feqb_eq; exact Ez). rewrite E3.
        assert (F3 : fltb y m = true) by (apply fltb_lt, lt_of_le_ne; assumption). rewrite F3. cbn [andb].
        split; [right; right; reflexivity|]. apply fltb_lt in F3. subst z. split; assumption.
  - unfold r_symmetric in Es. rewrite !orb_false_iff, !feqb_neq in Es. destruct Es as [[N1 N2] N3].
    destruct (feqb x m) eqn:E1; [apply feqb_eq in E1; subst m|apply feqb_neq in E1].
    + split; [left; reflexivity|split; [assumption|apply lt_of_le_ne; assumption]].
    + destruct (feqb y m) eqn:E2; [apply feqb_eq in E2; subst m|apply feqb_neq in E2].
      * split; [right; left; reflexivity|split; [assumption|apply lt_of_le_ne; assumption]].
      * assert (Ez : m = z) by (destruct Hin as [H|[H|H]]; congruence).
        assert (E3 : feqb z m = true) by (apply feqb_eq; congruence). rewrite E3. subst m.
        split; [right; right; reflexivity|split; [assumption|apply lt_of_le_ne; assumption]].
Qed.

Lemma leading_unique x y z r r' : rotations (x, y, z) r -> rotations (x, y, z) r' -> leading r -> leading r' -> r = r'.
Proof.
  assert (C : forall p q : K, p <= q -> q < p -> False) by (intros p q H1 H2; apply (flt_not_le K) in H2; contradiction).
  intros H H' L L'.
  destruct H as [ -> | [ -> | -> ] ]; destruct H' as [ -> | [ -> | -> ] ]; try reflexivity;
    destruct L as [L1 L2]; destruct L' as [L1' L2']; exfalso; eauto.
Qed.

Lemma div_eq (s x y : K) : s <> 0 -> (x / s = y / s <-> x = y).
Proof.
  intro Hs. split; [|congruence]. intro E. replace x with (x / s * s) by (field; exact Hs).
  rewrite E. field. exact Hs.
Qed.
Lemma centered_div s a b c : s <> 0 -> r_centered (a / s) (b / s) (c / s) = r_centered a b c.
Proof. intro Hs. apply eq_true_iff_eq. rewrite !centered_iff, !div_eq by exact Hs. tauto. Qed.
Lemma symmetric_div s a b c : s <> 0 -> r_symmetric (a / s) (b / s) (c / s) = r_symmetric a b c.
Proof.
  intro Hs. apply eq_true_iff_eq. unfold r_symmetric. rewrite !orb_true_iff, !feqb_eq, !div_eq by exact Hs. tauto.
Qed.

Definition third a b c : K := (a + b + c) / (1 + 1 + 1).
Lemma third_nz a b c : a + b + c <> 0 -> third a b c <> 0.
Proof.
  intros H E. apply H. transitivity (third a b c * (1 + 1 + 1)); [unfold third; field; fin3|]. rewrite E. ring.
Qed.
(** The root scaled to the sum three. *)
Definition scaled (r : K * K * K) : K * K * K :=
  let '(a, b, c) := r in (a / third a b c, b / third a b c, c / third a b c).

Lemma standardize_pick a b c : r_centered a b c = false -> a + b + c <> 0 ->
  standardize true (a, b, c) =
  let '(x, y, z) := scaled (a, b, c) in pick (r_symmetric x y z) x y z.
Proof.
  intros Hc Hs. unfold standardize, scaled. rewrite Hc. fold (third a b c).
  rewrite symmetric_div by (apply third_nz; exact Hs). reflexivity.
Qed.

Lemma scaled_centre a : a <> 0 -> scaled (a, a, a) = (1, 1, 1).
Proof.
  intro Ha. assert (E : third a a a = a) by (unfold third; field; fin3).
  unfold scaled. rewrite E. assert (E1 : a / a = 1) by (field; exact Ha). rewrite E1. reflexivity.
Qed.
Lemma centre_nz a : a + a + a <> 0 -> a <> 0.
Proof. intros H ->. apply H. ring. Qed.

Lemma standardize_plain a b c : a + b + c <> 0 -> standardize false (a, b, c) = scaled (a, b, c).
Proof.
  intro Hs. unfold standardize. destruct (r_centered a b c) eqn:Hc; [|reflexivity].
  apply centered_iff in Hc. destruct Hc as [<- <-]. symmetry. apply scaled_centre, centre_nz. exact Hs.
Qed.
Lemma standardize_cyc a b c : a + b + c <> 0 ->
  rotations (scaled (a, b, c)) (standardize true (a, b, c)) /\
  (~ (a = b /\ a = c) -> leading (standardize true (a, b, c))).
Proof.
  intro Hs. destruct (r_centered a b c) eqn:Hc.
  - unfold standardize. rewrite Hc. apply centered_iff in Hc. split; [|tauto]. destruct Hc as [<- <-].
    rewrite scaled_centre by (apply centre_nz; exact Hs). left. reflexivity.
  - rewrite standardize_pick by assumption. unfold scaled.
    destruct (pick_ok (a / third a b c) (b / third a b c) (c / third a b c)) as [H1 H2].
    + rewrite centered_div by (apply third_nz; exact Hs). exact Hc.
    + split; [exact H1|intros _; exact H2].
Qed.

Lemma scaled_sum a b c : a + b + c <> 0 -> let '(x, y, z) := scaled (a, b, c) in x + y + z = 1 + 1 + 1.
Proof.
  intro Hs. pose proof (third_nz a b c Hs) as Ht. unfold scaled.
  transitivity ((a + b + c) / third a b c); [field; exact Ht|].
  transitivity (third a b c * (1 + 1 + 1) / third a b c); [|field; exact Ht].
  f_equal. unfold third. field. fin3.
Qed.

Lemma scaled_mul (t a b c : K) : t <> 0 -> a + b + c <> 0 -> scaled (t * a, t * b, t * c) = scaled (a, b, c).
Proof.
  intros Ht Hs. pose proof (third_nz a b c Hs) as Hn.
  assert (E : third (t * a) (t * b) (t * c) = t * third a b c) by (unfold third; field; fin3).
  unfold scaled. rewrite E.
  assert (P : forall w : K, t * w / (t * third a b c) = w / third a b c) by (intro w; field; split; assumption).
  rewrite !P. reflexivity.
Qed.
Lemma scaled_rot a b c : scaled (b, c, a) = let '(x, y, z) := scaled (a, b, c) in (y, z, x).
Proof. unfold scaled. assert (E : third b c a = third a b c) by (unfold third; f_equal; ring). rewrite E. reflexivity. Qed.

(** Scaled or rotated roots have one standard form. *)
Lemma standardize_orbit (t a b c : K) : t <> 0 -> a + b + c <> 0 ->
  standardize true (t * b, t * c, t * a) = standardize true (a, b, c) /\
  standardize true (t * a, t * b, t * c) = standardize true (a, b, c).
Proof.
  intros Ht Hs.
  assert (Hs1 : t * b + t * c + t * a <> 0) by (replace (t * b + t * c + t * a) with (t * (a + b + c)) by ring; apply fmul_neq0; assumption).
  assert (Hs2 : t * a + t * b + t * c <> 0) by (replace (t * a + t * b + t * c) with (t * (a + b + c)) by ring; apply fmul_neq0; assumption).
  assert (Inj : forall p q, t * p = t * q -> p = q).
  { intros p q E. replace p with (t * p / t) by (field; exact Ht). rewrite E. field. exact Ht. }
  destruct (r_centered a b c) eqn:Hc.
  - assert (C1 : r_centered (t * b) (t * c) (t * a) = true) by (apply centered_iff in Hc; apply centered_iff; destruct Hc as [<- <-]; auto).
    assert (C2 : r_centered (t * a) (t * b) (t * c) = true) by (apply centered_iff in Hc; apply centered_iff; destruct Hc as [<- <-]; auto).
    unfold standardize. rewrite Hc, C1, C2. auto.
  - assert (Hn : ~ (a = b /\ a = c)) by (rewrite <- centered_iff; congruence).
    destruct (standardize_cyc a b c Hs) as [R L]. specialize (L Hn).
    destruct (standardize_cyc (t * b) (t * c) (t * a) Hs1) as [R1 L1].
    destruct (standardize_cyc (t * a) (t * b) (t * c) Hs2) as [R2 L2].
    assert (L1' := L1 ltac:(intros [H1 H2]; apply Inj in H1; apply Inj in H2; apply Hn; split; congruence)).
    assert (L2' := L2 ltac:(intros [H1 H2]; apply Inj in H1; apply Inj in H2; apply Hn; split; congruence)).
    rewrite scaled_mul in R1, R2 by (try exact Ht; try exact Hs; replace (b + c + a) with (a + b + c) by ring; exact Hs).
    rewrite scaled_rot in R1. destruct (scaled (a, b, c)) as [[x y] z]. split.
    + apply (leading_unique x y z); try assumption. unfold rotations in *. tauto.
    + apply (leading_unique x y z); assumption.
Qed.

(** ** The formulas in the documentation of the class (roots.py:581-593) *)
Lemma border_uv (u : K) : u <> 0 -> uv_of u 0 1 = Some (u, 1 / u).
Proof.
  intro Hu. unfold uv_of.
  assert (E1 : r_centered u 0 1 = false).
  { destruct (r_centered u 0 1) eqn:E; [|reflexivity]. apply centered_iff in E. destruct E; contradiction. }
  assert (E2 : r_corner u 0 1 = false).
  { destruct (r_corner u 0 1) eqn:E; [|reflexivity]. apply corner_iff in E. exfalso.
    destruct E as [[H _]|[[_ H]|[H _]]]; [contradiction|exact (fneq10 K H)|exact (fneq10 K H)]. }
  rewrite E1, E2. cbv zeta.
  replace (u*u*0*0 + 0*0*1*1 + 1*1*u*u - u*0*1 * (u + 0 + 1)) with (u * u) by ring.
  replace (u*0*0*0 + 0*1*1*1 + 1*u*u*u - u*0*1 * (u + 0 + 1)) with (u * u * u) by ring.
  replace (u*u*u*0 + 0*0*0*1 + 1*1*1*u - u*0*1 * (u + 0 + 1)) with u by ring.
  f_equal. f_equal; field; exact Hu.
Qed.

Lemma ratio_equation a b c (u v : K) : c <> 0 -> uv_of a b c = Some (u, v) ->
  (b / c * u - v) * (a / c) = b / c * (b / c) + b / c * (u - v) - 1.
Proof.
  intros Hc E.
  assert (E1 : uv_of b c a = Some (u, v)).
  { rewrite <- E. unfold uv_of.
    assert (C1 : r_centered b c a = r_centered a b c).
    { apply eq_true_iff_eq. rewrite !centered_iff. split; intros [H1 H2]; split; congruence. }
    assert (C2 : r_corner b c a = r_corner a b c).
    { apply eq_true_iff_eq. rewrite !corner_iff. tauto. }
    rewrite C1, C2. destruct (r_centered a b c); [reflexivity|]. destruct (r_corner a b c); [reflexivity|].
    cbv zeta. f_equal. f_equal; f_equal; ring. }
  apply uv_equation in E1.
  assert (E2 : (b * u - c * v) * a = b*b + b*c * (u - v) - c*c).
  { replace (b*b + b*c * (u - v) - c*c) with ((b*b - c*c + u * (b*c - b*a) + v * (c*a - b*c)) + (b * u - c * v) * a) by ring.
    rewrite E1. ring. }
  transitivity ((b * u - c * v) * a / (c * c)); [field; exact Hc|]. rewrite E2. field. exact Hc.
Qed.

Lemma ratio_cubic a b c (u v : K) : a <> 0 -> b <> 0 -> c <> 0 -> a + b + c <> 0 -> uv_of a b c = Some (u, v) ->
  u*v <> 1 /\
  let t := b / c in
  let x := ((v - u) * (u*v + u + v - (1 + 1)) + u*u*u + 1) / (1 - u*v) in
  let y := ((v - u) * (u*v + u + v - (1 + 1)) - v*v*v - 1) / (1 - u*v) in
  t*t*t + x * (t*t) + y * t - 1 = 0.
Proof.
  intros Ha Hb Hc Hp E. destruct (uv_known K a b c u v Hp E) as [_ Hk _ Hr H12 H21 _].
  set (k := ker_of u v) in *. set (p := a + b + c) in *. clearbody k p.
  assert (Er : u*v - 1 = a*b*c / (p*p*p) * (k*k)).
  { transitivity ((u*v - 1) / (k*k) * (k*k)); [field; exact Hk|]. rewrite Hr. field. exact Hp. }
  assert (Hr0 : u*v - 1 <> 0).
  { rewrite Er. apply fmul_neq0; [|apply fmul_neq0; exact Hk]. intro H.
    assert (H0 : a*b*c = 0).
    { transitivity (a*b*c / (p*p*p) * (p*p*p)); [field; exact Hp|]. rewrite H. ring. }
    revert H0. apply fmul_neq0; [apply fmul_neq0; assumption|assumption]. }
  split; [intro H; apply Hr0; rewrite H; ring|]. cbv zeta.
  assert (E12 : (v - u) * (u*v + u + v - (1 + 1)) + u*u*u + 1 = (a*b*b + b*c*c + c*a*a) / (p*p*p) * (k*k)).
  { transitivity (((v - u) * (u*v + u + v - (1 + 1)) + u*u*u + 1) / (k*k) * (k*k)); [field; exact Hk|]. rewrite H12. field. exact Hp. }
  assert (E21 : (v - u) * (u*v + u + v - (1 + 1)) - v*v*v - 1 = - ((a*a*b + b*b*c + c*c*a) / (p*p*p) * (k*k))).
  { transitivity (- (((u - v) * (u*v + u + v - (1 + 1)) + v*v*v + 1) / (k*k) * (k*k))); [field; exact Hk|]. rewrite H21. field. exact Hp. }
  replace (1 - u*v) with (- (u*v - 1)) by ring. rewrite E12, E21, Er. field. repeat split; ffold K; try assumption.
  intro H. assert (H0 : a*b*c * (k*k) = 0) by (transitivity (- - (a*b*c * (k*k))); [ring|]; rewrite H; ring).
  revert H0. apply fmul_neq0; [apply fmul_neq0; [apply fmul_neq0|]|apply fmul_neq0]; assumption.
Qed.
End Facts.
Arguments rotations {K}. Arguments leading {K}. Arguments scaled {K}.
