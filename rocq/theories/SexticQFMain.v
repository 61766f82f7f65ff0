(** * Symmetric sextics, quadratic form method: the answers *)
From Coq Require Import Bool List Arith Lia ZArith Ring Field.
From Verif Require Import OrdField Base Congruence Perm Poly PolyId PolyOps Coeff Expr CertLimit TriPoly Monomials Univariate UnivariateLemmas StructUtils.
From Verif Require TernaryQuad.
From Verif Require Import SymDiv DenseSym DenseSymFacts DenseSymAxis DenseSymMain DenseSymTop Septic SepticFacts SepticMain SepticTop SexticQF SexticQFFacts.
Import ListNotations.

Section Main.
Variable K : OrdField.
Local Open Scope of_scope.
Add Field Kf : (F_field K).
Implicit Types (x y t rem ker A B C : K) (e : ex K) (r : option K).

(** ** The border *)
Definition suv_of x y : K := (fbin 2 - fbin 2 * y) / (x - 1).
Definition puv_of x y : K := (fbin 2 * x + y - fbin 2) / (x - 1).
Definition type0_ok x y ker (s : sol0 (K := K)) : Prop := forall e real, s = Ok (Some (e, real)) ->
  exact6 K real e (fun A B C => F6 K x y A B C + ker * D6 K A B C) /\ def6 K real e.

(** the identity of the border for the form itself *)
Lemma border_F6 x y ker (m : K) A B C : x - 1 <> 0 -> let suv := suv_of x y in let puv := puv_of x y in b_bad suv puv m = false ->
  (F6 K x y A B C + ker * D6 K A B C) * Q6 K (1, b_phi suv puv m) A B C =
  (x - 1) ^ 2 * ev (pt3 A B C) (b_solution suv puv m)
  + (x - 1) ^ 2 * b_final suv puv m * (puv ^ 2 * ((A * B + B * C + C * A) * D6 K A B C) + (2 - m) * R1 K suv puv A B C)
  + (ker - b_ker x y suv puv m) * D6 K A B C * Q6 K (1, b_phi suv puv m) A B C.
Proof.
  intros N suv puv Hb. destruct (not_bad K _ _ _ Hb) as (N1 & N2 & N3). pose proof (border_id K suv puv m A B C N1 N2 N3) as I.
  rewrite (F6_R0 K x y A B C N). fold (suv_of x y) (puv_of x y). fold suv puv. unfold b_ker.
  set (w := b_w suv puv m) in *. set (Q := Q6 K (1, b_phi suv puv m) A B C) in *. set (S := ev _ _) in *. set (R := R0 K suv puv A B C) in *.
  set (D := D6 K A B C) in *. set (f := b_final suv puv m) in *. set (R' := R1 K suv puv A B C) in *. clearbody w Q S R D f R' puv.
  transitivity ((x - 1) ^ 2 * ((R - w * D) * Q) + (ker - - (w * (x - 1) ^ 2 + (x ^ 2 - x * y + y ^ 2 - y))) * D * Q); [cbn [fpow]; ring|].
  rewrite I. cbn [fpow]. ring.
Qed.

(** the contract of the root finder: rational roots are roots, isolating intervals are intervals *)
Definition broot_ok (suv puv : K) (b : broot) : Prop :=
  match b with Exact m => b_det1 suv puv m = 0 | Approx _ ps => forall m1 m2, In (m1, m2) ps -> m1 <= m2 end.
Definition roots_ok (roots : K -> K -> res (list (broot (K := K)))) : Prop :=
  forall suv puv rs, roots suv puv = Ok rs -> forall b, In b rs -> broot_ok suv puv b.

Lemma phi_ok (v : K) : - (1) <= v -> 0 <= 1 + v.
Proof. intro H. apply (proj1 (fle_sub _ _)) in H. replace (1 + v) with (v - - (1)) by ring. exact H. Qed.
Lemma final_zero (suv puv m : K) : b_det1 suv puv m = 0 -> b_bad suv puv m = false -> b_final suv puv m = 0.
Proof.
  intros H Hb. destruct (not_bad K _ _ _ Hb) as (N1 & N2 & N3). unfold b_final, b_denom. rewrite H. cbn [fbin fpow]. field. repeat match goal with |- _ /\ _ => split end;
    first [exact N1 | exact N2 | exact N3].
Qed.

Lemma weights (f1 f2 m1 m2 : K) : m1 <= m2 -> ((m1 <=? fbin 2) && (fbin 2 <=? m2))%bool = false -> f1 <> 0 ->
  (((f1 <? 0) && (f2 <? 0)) || ((0 <? f1) && (0 <? f2)))%bool = false ->
  let v1 := f1 * (fbin 2 - m1) in let v2 := f2 * (fbin 2 - m2) in v1 - v2 <> 0 /\ 0 <= - v2 / (v1 - v2) /\ 0 <= v1 / (v1 - v2).
Proof.
  intros Hm H2 Hf Hs v1 v2.
  assert (S : exists k1 k2 : K, 0 < k1 /\ 0 < k2 /\ ((fbin 2 - m1 = k1 /\ fbin 2 - m2 = k2) \/ (fbin 2 - m1 = - k1 /\ fbin 2 - m2 = - k2))).
  { destruct (m1 <=? fbin 2) eqn:E1.
    - cbn [andb] in H2. apply fleb_gt in H2. exists (fbin 2 - m1), (fbin 2 - m2). assert (X : 0 < fbin 2 - m2) by (apply (proj1 (flt_sub _ _)), H2).
      split; [|split; [exact X|left; split; reflexivity]]. apply (proj1 (flt_sub _ _)). eapply (fle_lt_trans K); [exact Hm|exact H2].
    - apply fleb_gt in E1. exists (m1 - fbin 2), (m2 - fbin 2). split; [apply (proj1 (flt_sub _ _)), E1|]. split; [apply (proj1 (flt_sub _ _)); eapply (flt_le_trans K); [exact E1|exact Hm]|].
      right. split; ring. }
  assert (G : forall g1 g2 k1 k2 : K, 0 < g1 -> g2 <= 0 -> 0 < k1 -> 0 < k2 -> 0 < g1 * k1 - g2 * k2 /\ 0 <= - (g2 * k2)).
  { intros g1 g2 k1 k2 A1 A2 A3 A4. assert (X : 0 <= - (g2 * k2)).
    { replace (- (g2 * k2)) with ((0 - g2) * k2) by ring. apply fmul_nonneg; [apply (proj1 (fle_sub _ _)), A2|exact (flt_le A4)]. }
    split; [|exact X]. replace (g1 * k1 - g2 * k2) with (g1 * k1 + - (g2 * k2)) by ring. apply fadd_pos_l; [apply fmul_pos; assumption|exact X]. }
  assert (V : (0 < v1 - v2 /\ 0 <= - v2 /\ 0 <= v1) \/ (0 < - (v1 - v2) /\ 0 <= v2 /\ 0 <= - v1)).
  { destruct S as (k1 & k2 & P1 & P2 & S). apply orb_false_iff in Hs. destruct Hs as [Hs1 Hs2].
    destruct (0 <? f1) eqn:F1.
    - cbn [andb] in Hs2. apply fltb_lt in F1. apply fltb_ge in Hs2. destruct (G f1 f2 k1 k2 F1 Hs2 P1 P2) as [Ga Gb].
      assert (Gc : 0 <= f1 * k1) by (apply flt_le, fmul_pos; assumption).
      unfold v1, v2. destruct S as [[-> ->]|[-> ->]].
      + left. split; [exact Ga|split; assumption].
      + right. split; [replace (- (f1 * - k1 - f2 * - k2)) with (f1 * k1 - f2 * k2) by ring; exact Ga|]. split; [replace (f2 * - k2) with (- (f2 * k2)) by ring; exact Gb|].
        replace (- (f1 * - k1)) with (f1 * k1) by ring. exact Gc.
    - apply fltb_ge in F1. assert (F1' : f1 < 0). { apply (flt_le_neq K). split; assumption. }
      assert (Z1 : f1 <? 0 = true) by (apply fltb_lt; exact F1'). rewrite Z1 in Hs1. cbn [andb] in Hs1. apply fltb_ge in Hs1.
      assert (N1 : 0 < - f1) by (replace (- f1) with (0 - f1) by ring; apply (proj1 (flt_sub _ _)), F1').
      assert (N2 : - f2 <= 0) by (apply (proj2 (fle_sub _ _)); replace (0 - - f2) with f2 by ring; exact Hs1).
      destruct (G (- f1) (- f2) k1 k2 N1 N2 P1 P2) as [Ga Gb].
      assert (Gc : 0 <= - f1 * k1) by (apply flt_le, fmul_pos; assumption).
      unfold v1, v2. destruct S as [[-> ->]|[-> ->]].
      + right. split; [replace (- (f1 * k1 - f2 * k2)) with (- f1 * k1 - - f2 * k2) by ring; exact Ga|]. split; [replace (f2 * k2) with (- (- f2 * k2)) by ring; exact Gb|].
        replace (- (f1 * k1)) with (- f1 * k1) by ring. exact Gc.
      + left. split; [replace (f1 * - k1 - f2 * - k2) with (- f1 * k1 - - f2 * k2) by ring; exact Ga|]. split; [replace (- (f2 * - k2)) with (- (- f2 * k2)) by ring; exact Gb|].
        replace (f1 * - k1) with (- f1 * k1) by ring. exact Gc. }
  destruct V as [(A1 & A2 & A3)|(A1 & A2 & A3)].
  - split; [exact (flt_neq0 A1)|]. split; apply fdiv_nonneg; assumption.
  - assert (N : v1 - v2 <> 0) by (intro X; apply (flt_neq0 A1); rewrite X; ring). split; [exact N|]. split.
    + replace (- v2 / (v1 - v2)) with (v2 / (- (v1 - v2))) by (field; split; [exact N|]; exact (flt_neq0 A1)). apply fdiv_nonneg; assumption.
    + replace (v1 / (v1 - v2)) with (- v1 / (- (v1 - v2))) by (field; split; [exact N|]; exact (flt_neq0 A1)). apply fdiv_nonneg; assumption.
Qed.

Lemma b_pairs_ok x y ker ps : x - 1 <> 0 -> (forall m1 m2, In (m1, m2) ps -> m1 <= m2) -> type0_ok x y ker (b_pairs x y (suv_of x y) (puv_of x y) ker ps).
Proof.
  intros N. induction ps as [|[m1 m2] ps IH]; intros Hps e real; cbn [b_pairs]; [intro H; congruence|].
  assert (Hps' : forall m1 m2, In (m1, m2) ps -> m1 <= m2) by (intros; apply Hps; right; assumption).
  specialize (IH Hps' e real). assert (Hm : m1 <= m2) by (apply Hps; left; reflexivity). clear Hps Hps'.
  set (suv := suv_of x y) in *. set (puv := puv_of x y) in *.
  destruct ((m1 <=? fbin 2) && (fbin 2 <=? m2))%bool eqn:H2; [exact IH|].
  destruct (b_bad suv puv m1 || b_bad suv puv m2)%bool eqn:Hb; [intro H; congruence|]. apply orb_false_iff in Hb. destruct Hb as [Hb1 Hb2].
  destruct (b_valid suv puv m1 && b_valid suv puv m2)%bool eqn:Hv; cbn [negb]; [|exact IH]. apply andb_true_iff in Hv. destruct Hv as [Hv1 Hv2].
  destruct (_ || _)%bool eqn:Hs in |- *; [exact IH|].
  destruct (b_solution_ok K _ _ _ Hv1) as (M1 & D1 & Ph1). destruct (b_solution_ok K _ _ _ Hv2) as (M2 & D2 & Ph2).
  set (f1 := b_final suv puv m1) in *. set (f2 := b_final suv puv m2) in *.
  set (w1 := if f1 =? 0 then 1 else _). set (w2 := if f1 =? 0 then 0 else _).
  assert (W : 0 <= w1 /\ 0 <= w2 /\ w1 + w2 = 1 /\ f1 * w1 * (2 - m1) + f2 * w2 * (2 - m2) = 0).
  { unfold w1, w2. destruct (f1 =? 0) eqn:Ef.
    - apply feqb_eq in Ef. rewrite Ef. repeat split; [apply f1_nonneg|apply fle_refl|ring|ring].
    - apply (feqb_neq K) in Ef. destruct (weights f1 f2 m1 m2 Hm H2 Ef Hs) as (V0 & V1 & V2). repeat split; [exact V1|exact V2| |].
      + field. exact V0.
      + replace (2 - m1) with (fbin 2 - m1) by (cbn [fbin]; ring). replace (2 - m2) with (fbin 2 - m2) by (cbn [fbin]; ring).
        clear V1 V2. revert V0. generalize (fbin 2 - m1) (fbin 2 - m2) f1 f2. clear. intros a b c d V0. field. exact V0. }
  clearbody w1 w2. destruct W as (W1 & W2 & W3 & W4).
  set (ph1 := b_phi suv puv m1) in *. set (ph2 := b_phi suv puv m2) in *. set (k1 := b_ker x y suv puv m1). set (k2 := b_ker x y suv puv m2). cbv zeta.
  destruct ((- (1) <=? ph1 * w1 + ph2 * w2) && _ && _)%bool eqn:Hc; [|exact IH]. rewrite !andb_true_iff in Hc. destruct Hc as [[Hc1 Hc2] Hc3].
  set (phw := ph1 * w1 + ph2 * w2) in *.
  destruct (TernaryQuad.common_quadratic _ _) as [q|] eqn:Eq; [|intro H; congruence].
  destruct (TernaryQuad.common_quadratic 1 _) as [d|] eqn:Ed; [|intro H; congruence].
  destruct (quad_ok K _ _ _ Eq) as (Dq & Vq & Mq & _). destruct (quad_ok K _ _ _ Ed) as (Dd & Vd & Md & _).
  apply fleb_le in Hc1. intro H. apply pair_inj in H. destruct H as [<- <-]. destruct (sqp6_ok K) as (Ms & Ds & Vs).
  split; [split|].
  - cbn [manifest negb]. rewrite M1, M2, Mq, Md, (manifest_mono _ Ms). cbn [andb]. rewrite !andb_true_r, andb_true_iff. split; apply fleb_le; apply fmul_nonneg; try assumption; apply sqr2.
  - intros A B C D. assert (Q0 : Q6 K (1, phw) A B C <> 0) by (rewrite <- Vd; destruct D as (_ & _ & D); exact D).
    cbn [ev]. rewrite Vq, Vd, Vs. pose proof (border_F6 x y ker m1 A B C N Hb1) as I1. pose proof (border_F6 x y ker m2 A B C N Hb2) as I2.
    fold suv puv in I1, I2. fold f1 ph1 k1 in I1. fold f2 ph2 k2 in I2.
    set (S1 := ev (pt3 A B C) (b_solution suv puv m1)) in *. set (S2 := ev (pt3 A B C) (b_solution suv puv m2)) in *. set (R := R1 K suv puv A B C) in *.
    set (X := F6 K x y A B C + ker * D6 K A B C) in *. set (D' := D6 K A B C) in *.
    assert (E : X * Q6 K (1, phw) A B C = w1 * (X * Q6 K (1, ph1) A B C) + w2 * (X * Q6 K (1, ph2) A B C)).
    { unfold Q6, phw. cbn [fst snd]. transitivity (X * ((w1 + w2) * (A * A + B * B + C * C) + (ph1 * w1 + ph2 * w2) * (A * B + B * C + C * A))); [rewrite W3; ring|ring]. }
    rewrite I1, I2 in E. apply (f_equal (fun v => v / Q6 K (1, phw) A B C)) in E. transitivity (X * Q6 K (1, phw) A B C / Q6 K (1, phw) A B C); [|field; exact Q0].
    rewrite E. f_equal. unfold Q6. cbn [fst snd]. clearbody S1 S2 R X D' f1 f2 k1 k2 ph1 ph2 phw suv puv. clear E I1 I2 Vq Vd Q0 D IH.
    match goal with |- ?l = ?rr => transitivity (rr - (x - 1) ^ 2 * R * (f1 * w1 * (2 - m1) + f2 * w2 * (2 - m2)) + (w1 + w2 - 1) * ker * (A * A + B * B + C * C) * D' - (w1 + w2 - 1) * ker * (A * A + B * B + C * C) * D') end; [|rewrite W4; ring].
    assert (W5 : w1 = 1 - w2) by (rewrite <- W3; ring). rewrite W5. cbn [fpow]. ring.
  - intros A B C O. cbn [defined]. assert (Q0 : ev (pt3 A B C) d <> 0).
    { rewrite Vd. apply flt_neq0. apply (Q6_pos K false); cbn [fst snd]; [apply f1_pos|apply phi_ok, Hc1|discriminate|exact O]. }
    pose proof (Dq (pt3 A B C)). pose proof (Dd (pt3 A B C)). pose proof (D1 (pt3 A B C)). pose proof (D2 (pt3 A B C)). pose proof (Ds (pt3 A B C)). tauto.
Qed.

Lemma b_roots_ok x y ker rs : x - 1 <> 0 -> (forall b, In b rs -> broot_ok (suv_of x y) (puv_of x y) b) -> type0_ok x y ker (b_roots x y (suv_of x y) (puv_of x y) ker rs).
Proof.
  intros N. induction rs as [|b rs IH]; intros Hrs; cbn [b_roots]; [intros e real H; congruence|].
  assert (Hrs' : forall b, In b rs -> broot_ok (suv_of x y) (puv_of x y) b) by (intros; apply Hrs; right; assumption).
  specialize (IH Hrs'). pose proof (Hrs b (or_introl eq_refl)) as Hb0. clear Hrs Hrs'.
  destruct b as [m|[|] ps]; [|apply b_pairs_ok; [exact N|exact Hb0]|exact IH]. cbn [broot_ok] in Hb0.
  set (suv := suv_of x y) in *. set (puv := puv_of x y) in *.
  destruct (m =? fbin 2); [intros e real H; congruence|]. destruct (b_bad suv puv m) eqn:Hb; [intros e real H; congruence|].
  destruct (b_valid suv puv m && (b_ker x y suv puv m <=? ker))%bool eqn:Hv; [|exact IH]. apply andb_true_iff in Hv. destruct Hv as [Hv Hk]. apply fleb_le in Hk. apply (proj1 (fle_sub _ _)) in Hk.
  destruct (b_solution_ok K _ _ _ Hv) as (M1 & D1 & Ph1).
  destruct (TernaryQuad.common_quadratic 1 _) as [d|] eqn:Ed; [|intros e real H; congruence]. destruct (quad_ok K _ _ _ Ed) as (Dd & Vd & Md & _).
  intros e real H. apply pair_inj in H. destruct H as [<- <-]. destruct (sqp6_ok K) as (Ms & Ds & Vs).
  split; [split|].
  - cbn [manifest negb]. rewrite M1, Md, (manifest_mono _ Ms). cbn [andb]. rewrite !andb_true_r, andb_true_iff. split; apply fleb_le; [apply sqr2|exact Hk].
  - intros A B C D. assert (Q0 : Q6 K (1, b_phi suv puv m) A B C <> 0) by (rewrite <- Vd; destruct D as [(_ & _ & _ & D) _]; exact D).
    cbn [ev]. rewrite Vd, Vs. pose proof (border_F6 x y ker m A B C N Hb) as I1. fold suv puv in I1. rewrite (final_zero _ _ _ Hb0 Hb) in I1.
    set (Q := Q6 K _ A B C) in *. set (S1 := ev (pt3 A B C) (b_solution suv puv m)) in *.
    set (X := F6 K x y A B C + ker * D6 K A B C) in *. set (D' := D6 K A B C) in *. transitivity (X * Q / Q); [|field; exact Q0]. rewrite I1.
    clearbody Q S1 X D'. field. exact Q0.
  - intros A B C O. cbn [defined]. assert (Q0 : ev (pt3 A B C) d <> 0).
    { rewrite Vd. apply flt_neq0. apply (Q6_pos K false); cbn [fst snd]; [apply f1_pos|apply phi_ok, Ph1|discriminate|exact O]. }
    pose proof (Dd (pt3 A B C)). pose proof (D1 (pt3 A B C)). pose proof (Ds (pt3 A B C)). tauto.
Qed.

Lemma S_border_ok roots x y ker : roots_ok roots -> type0_ok x y ker (S_border roots x y ker).
Proof.
  intros Hr. unfold S_border. destruct (x =? 1) eqn:Ex; [intros e real H; congruence|]. apply (feqb_neq K) in Ex.
  assert (N : x - 1 <> 0) by (intro X; apply Ex, (fsub_eq0 K), X). fold (suv_of x y) (puv_of x y).
  destruct ((puv_of x y =? 0) && (suv_of x y <=? fbin 4))%bool eqn:E.
  - apply andb_true_iff in E. destruct E as [E1 E2]. apply feqb_eq in E1. apply fleb_le in E2. intros e real H.
    destruct (S_degen_ok K x y ker e real N E1 E2 H) as (-> & G). exact G.
  - destruct (roots (suv_of x y) (puv_of x y)) as [rs|er] eqn:Er; [|intros e real H; congruence]. apply b_roots_ok; [exact N|]. intros b Hb. exact (Hr _ _ _ Er b Hb).
Qed.
Lemma S_square_type x y ker : type0_ok x y ker (S_square x y ker).
Proof. intros e real H. destruct (S_square_ok K x y ker e real H) as (-> & E & D). split; [exact E|]. intros A B C _. apply D. Qed.
Lemma S_trivial_type x y ker : type0_ok x y ker (S_trivial x y ker).
Proof. intros e real H. destruct (S_trivial_ok K x y ker e real H) as (-> & E & D). split; [exact E|]. intros A B C _. apply D. Qed.

(** ** The wrapped solvers; [fine] tells whether 1/(8*u2) is harmless *)
Definition fine rem r : Prop := r = None -> rem = 0.
Definition nonneg6 (real : bool) (f : K -> K -> K -> K) : Prop := forall A B C, off_diagonal K real A B C -> 0 <= f A B C.
Definition answer6 (real : bool) e (f : K -> K -> K -> K) rem r : Prop := exact6 K real e f /\ nonneg6 real f /\ (fine rem r -> def6 K real e).

Lemma form6_diag c0 x y ker t rem r A : form6 K c0 x y ker t rem r A A A = 0.
Proof. unfold form6, rest6, F6, T6, R6, D6, xyform, cyc3. destruct r; cbn [fpow]; field; fnz. Qed.
Lemma eq_diag A B C : {A = B /\ B = C} + {~ (A = B /\ B = C)}.
Proof. destruct (feq_dec K A B), (feq_dec K B C); [left; split; assumption|right; tauto..]. Qed.

Lemma wrap0_ok f x y c0 ker t rem r e real : 0 < c0 -> 0 <= t -> 0 <= rem -> type0_ok x y (ker / c0) (f x y (ker / c0)) ->
  wrap0 f x y c0 ker t rem r = Ok (Some (e, real)) -> answer6 real e (form6 K c0 x y ker t rem r) rem r.
Proof.
  intros Hc Ht Hr Hf. unfold wrap0. destruct (f x y (ker / c0)) as [[[s fl]|]|] eqn:Ef; [|intro H; congruence..].
  destruct (Hf s fl eq_refl) as [(Ms & Vs) Ds]. destruct (rem_poly_ok K rem r Hr) as (Mr & Dr & Vr). intro H. apply pair_inj in H. destruct H as [<- <-].
  assert (C0 : c0 <> 0) by exact (flt_neq0 Hc). assert (T4 : 0 <= t / fbin 4) by (apply fdiv_nonneg; [exact Ht|apply fbin_pos]).
  set (e := (EC c0 * s + _ + _)%E).
  assert (EX : exact6 K fl e (form6 K c0 x y ker t rem r)).
  { split.
    - unfold e. cbn [manifest csum cprod tprod erename rot3 Nat.even orb]. rewrite Ms. assert (Mr' : manifest (negb fl) (rem_poly rem r) = true) by (destruct fl; [exact Mr|apply manifest_mono, Mr]). rewrite Mr'.
      rewrite !andb_true_r, !andb_true_iff. repeat split; apply fleb_le; [exact (flt_le Hc)|exact T4|apply fdiv_nonneg; [exact (flt_le (fbin_pos K 1))|apply fbin_pos]].
    - intros A B C [[[_ D1] _] _]. unfold e. cbn [ev]. rewrite (Vs A B C D1), Vr. unfold form6, rest6. set (F := F6 K x y A B C). set (D' := D6 K A B C). set (R := R6 K r A B C). clearbody F D' R.
      unfold T6, cyc3. cbn [csum cprod tprod erename rot3 ev pt3 fbin fpow]. field. repeat split; first [assumption | fnz]. }
  assert (DF : def6 K fl e).
  { intros A B C O. pose proof (Ds A B C O). pose proof (Dr (pt3 A B C)). unfold e. cbn [defined csum cprod tprod erename rot3]. tauto. }
  split; [exact EX|]. split; [|intros _; exact DF].
  intros A B C O. destruct EX as [M V]. rewrite <- (V A B C (DF A B C O)). apply (manifest_nonneg (negb fl)); [|exact (DF A B C O)|exact M].
  intros Hf' i. destruct fl; [discriminate|]. destruct O as [_ [Q|(Q1 & Q2 & Q3)]]; [discriminate|]. apply pt3_nonneg; apply flt_le; assumption.
Qed.

(** *** merging *)
Lemma fmul_pos_cancel_nonneg (k v : K) : 0 < k -> 0 <= k * v -> 0 <= v.
Proof. intros H1 H2. replace v with (k * v / k) by (field; exact (flt_neq0 H1)). apply fdiv_nonneg; assumption. Qed.
Lemma merge_ok x y c0 ker t rem r p1 c m s e real : 0 < c0 -> 0 < fst m -> 0 <= fst m + snd m -> snd m < 2 * fst m ->
  manifest false p1 = true -> (forall env, defined env p1) -> (forall A B C, F6 K x y A B C * Q6 K m A B C = ev (pt3 A B C) p1 + Q6 K c A B C * D6 K A B C) ->
  rem_ok K t rem r m s ->
  merge_terms (p1 * EC c0)%E (fst c * c0) (snd c * c0) (fst s) (fst (snd s)) (snd (snd s)) ker m = Ok (Some (e, real)) ->
  exact6 K real e (form6 K c0 x y ker t rem r) /\ nonneg6 real (form6 K c0 x y ker t rem r) /\ ((forall env, defined env (fst s)) -> def6 K real e).
Proof.
  intros Hc P1 P2 P3 M1 D1 I1 (S & SN & M2 & V2 & I2). unfold merge_terms. destruct (fst m + snd m <? 0); [intro H; congruence|].
  set (k1 := fst c * c0 + fst (snd s) + fst m * ker). set (k2 := snd c * c0 + snd (snd s) + snd m * ker).
  destruct ((0 <=? k1) && (0 <=? k1 + k2))%bool eqn:Ek; [|intro H; congruence]. apply andb_true_iff in Ek. destruct Ek as [Ek1 Ek2]. apply fleb_le in Ek1. apply fleb_le in Ek2.
  destruct (quad0 k1 k2) as [q|] eqn:Eq; [|intro H; congruence]. destruct (TernaryQuad.common_quadratic (fst m) (snd m)) as [mf|] eqn:Em; [|intro H; congruence].
  destruct (quad0_ok K _ _ _ Eq) as (Dq & Vq & Mq & Rq). destruct (quad_ok K _ _ _ Em) as (Dm & Vm & Mm & Rm). rewrite <- surjective_pairing in Vm.
  intro H. apply pair_inj in H. destruct H as [<- Hreal]. destruct (sqp6_ok K) as (Ms & Ds & Vs).
  set (G := form6 K c0 x y ker t rem r).
  assert (ID : forall A B C, G A B C * Q6 K m A B C = ev (pt3 A B C) p1 * c0 + S A B C + Q6 K (k1, k2) A B C * D6 K A B C).
  { intros A B C. unfold G, form6. transitivity (c0 * (F6 K x y A B C * Q6 K m A B C) + ker * D6 K A B C * Q6 K m A B C + rest6 K t rem r A B C * Q6 K m A B C); [ring|].
    rewrite I1, I2. unfold Q6, k1, k2. cbn [fst snd]. ring. }
  assert (R2 : real = true -> k2 <= 2 * k1).
  { intro R. rewrite R in Hreal. apply andb_true_iff in Hreal. destruct Hreal as [X _]. apply fleb_le in X. cbn [fbin] in X. replace (2 * k1) with (2 * 1 * k1) by ring. exact X. }
  split; [split|split].
  - cbn [manifest]. destruct real; cbn [negb].
    + rewrite M1, M2, (Rq (R2 eq_refl)), Ms, (Rm P1 (flt_le P3)). cbn [andb]. rewrite !andb_true_r. apply fleb_le. exact (flt_le Hc).
    + rewrite (manifest_mono _ M1), (manifest_mono _ M2), Mq, (manifest_mono _ Ms), Mm. cbn [andb]. rewrite !andb_true_r. apply fleb_le. exact (flt_le Hc).
  - intros A B C D. assert (Q0 : Q6 K m A B C <> 0) by (rewrite <- Vm; destruct D as (_ & _ & D); exact D). destruct D as [[[_ Dp] _] _].
    cbn [ev]. rewrite Vq, Vm, Vs, (V2 A B C Dp), <- ID. field. exact Q0.
  - intros A B C O. pose proof (Q6_pos K real m A B C P1 P2 (fun _ => P3) O) as Q0. apply (fmul_pos_cancel_nonneg (Q6 K m A B C)); [exact Q0|]. replace (Q6 K m A B C * G A B C) with (G A B C * Q6 K m A B C) by ring. rewrite ID.
    apply fadd_nonneg; [apply fadd_nonneg; [apply fmul_nonneg; [|exact (flt_le Hc)]|apply SN]|apply fmul_nonneg; [|apply D6_nonneg]].
    + apply (manifest_nonneg false); [discriminate|apply D1|exact M1].
    + apply (Q6_nonneg K real); cbn [fst snd]; [exact Ek1|exact Ek2|exact R2|]. destruct O as [_ [->|(O1 & O2 & O3)]]; [left; reflexivity|right; repeat split; apply flt_le; assumption].
  - intros Dp A B C O. cbn [defined]. assert (Q0 : ev (pt3 A B C) mf <> 0) by (rewrite Vm; apply flt_neq0; exact (Q6_pos K real m A B C P1 P2 (fun _ => P3) O)).
    pose proof (Dp (pt3 A B C)). pose proof (D1 (pt3 A B C)). pose proof (Dq (pt3 A B C)). pose proof (Dm (pt3 A B C)). pose proof (Ds (pt3 A B C)). tauto.
Qed.

Lemma merge_flag p1 (c1 c2 : K) p2 (d1 d2 ker : K) (m : K * K) e real : merge_terms p1 c1 c2 p2 d1 d2 ker m = Ok (Some (e, real)) ->
  real = ((c2 + d2 + snd m * ker <=? fbin 2 * (c1 + d1 + fst m * ker)) && (snd m <=? fbin 2 * fst m))%bool.
Proof.
  unfold merge_terms. destruct (_ <? 0); [intro H; congruence|]. destruct (_ && _)%bool; [|intro H; congruence].
  destruct (quad0 _ _); [|intro H; congruence]. destruct (TernaryQuad.common_quadratic _ _); [|intro H; congruence]. intro H. congruence.
Qed.
Lemma merge_same p1 (c1 c2 : K) p2 p3 (d1 d2 ker : K) (m : K * K) s : merge_terms p1 c1 c2 p2 d1 d2 ker m = Ok None -> merge_terms p1 c1 c2 p3 d1 d2 ker m = Ok (Some s) -> False.
Proof.
  unfold merge_terms. destruct (_ <? 0); [intros H1 H2; congruence|]. destruct (_ && _)%bool; [|intros H1 H2; congruence].
  destruct (quad0 _ _); [|intros H1 H2; congruence]. destruct (TernaryQuad.common_quadratic _ _); intros H1 H2; congruence.
Qed.
Lemma wrap1_ok f x y c0 ker t rem r e real : 0 < c0 -> 0 <= t -> 0 <= rem -> type1_ok K x y (f x y) ->
  wrap1 f x y c0 ker t rem r = Ok (Some (e, real)) -> answer6 real e (form6 K c0 x y ker t rem r) rem r.
Proof.
  intros Hc Ht Hr Hf. unfold wrap1. destruct (f x y) as [[[[p1 c] m]|]|]; [|intro H; congruence..]. destruct (Hf p1 c m eq_refl) as (P1 & P2 & P3 & M1 & D1 & I1). destruct c as [c1 c2].
  cbn [wrap1_loop]. destruct (rem_regular t rem r m) as [[s|]|] eqn:Er; [|unfold rem_regular in Er; destruct (is_std m); [|destruct (TernaryQuad.common_quadratic _ _)]; congruence|intro H; congruence].
  destruct (rem_regular_ok K t rem r m s Ht Hr P1 P2 P3 Er) as (Ok1 & Z1 & Df1).
  pose proof (fun e real => merge_ok x y c0 ker t rem r p1 (c1, c2) m s e real Hc P1 P2 P3 M1 D1 I1 Ok1) as G1. cbn [fst snd] in G1.
  destruct s as [p2 [c21 c22]]. cbn [fst snd] in *. destruct (merge_terms _ _ _ p2 c21 c22 _ _) as [[[s1 [|]]|]|] eqn:E1; [| | |intro H; congruence].
  - intro H. apply pair_inj in H. destruct H as [<- <-]. destruct (G1 s1 true eq_refl) as (X1 & X2 & X3). split; [exact X1|]. split; [exact X2|]. intros _. exact (X3 Df1).
  - destruct (G1 s1 false eq_refl) as (X1 & X2 & X3). assert (A1 : answer6 false s1 (form6 K c0 x y ker t rem r) rem r) by (split; [exact X1|split; [exact X2|intros _; exact (X3 Df1)]]).
    destruct (rem_sos t rem r m) as [[s|]|] eqn:Es; [|intro H; apply pair_inj in H; destruct H as [<- <-]; exact A1|intro H; congruence].
    destruct (rem_sos_ok K t rem r m s Ht Hr Es) as (Ok2 & Z2 & Df2).
    pose proof (fun e real => merge_ok x y c0 ker t rem r p1 (c1, c2) m s e real Hc P1 P2 P3 M1 D1 I1 Ok2) as G2. cbn [fst snd] in G2.
    destruct s as [p3 [c31 c32]]. cbn [fst snd] in *. destruct (merge_terms _ _ _ p3 c31 c32 _ _) as [[[s2 [|]]|]|] eqn:E2; intro H; try congruence.
    + apply pair_inj in H. destruct H as [<- <-]. destruct (G2 s2 true eq_refl) as (Y1 & Y2 & Y3). split; [exact Y1|]. split; [exact Y2|]. intros Fi. apply Y3. apply Df2.
      * intro Zr. specialize (Z2 Zr). assert (Z : c31 = c21 /\ c32 = c22) by (split; congruence). destruct Z as [-> ->].
        pose proof (merge_flag _ _ _ _ _ _ _ _ _ _ E1) as F1. pose proof (merge_flag _ _ _ _ _ _ _ _ _ _ E2) as F2. congruence.
      * intro Hn. specialize (Fi Hn). specialize (Z2 Fi). assert (Z : c31 = c21 /\ c32 = c22) by (split; congruence). destruct Z as [-> ->].
        pose proof (merge_flag _ _ _ _ _ _ _ _ _ _ E1) as F1. pose proof (merge_flag _ _ _ _ _ _ _ _ _ _ E2) as F2. congruence.
  - destruct (rem_sos t rem r m) as [[s|]|] eqn:Es; [|intro H; congruence..].
    destruct (rem_sos_ok K t rem r m s Ht Hr Es) as (Ok2 & Z2 & Df2).
    pose proof (fun e real => merge_ok x y c0 ker t rem r p1 (c1, c2) m s e real Hc P1 P2 P3 M1 D1 I1 Ok2) as G2. cbn [fst snd] in G2.
    destruct s as [p3 [c31 c32]]. cbn [fst snd] in *. destruct (merge_terms _ _ _ p3 c31 c32 _ _) as [[[s2 fl]|]|] eqn:E2; [| |intro H; congruence].
    + assert (A2 : answer6 fl s2 (form6 K c0 x y ker t rem r) rem r).
      { destruct (G2 s2 fl eq_refl) as (Y1 & Y2 & Y3). split; [exact Y1|]. split; [exact Y2|]. intros Fi. apply Y3. apply Df2.
        - intro Zr. specialize (Z2 Zr). assert (Z : c31 = c21 /\ c32 = c22) by (split; congruence). destruct Z as [-> ->]. exact (merge_same _ _ _ _ _ _ _ _ _ _ E1 E2).
        - intro Hn. specialize (Fi Hn). specialize (Z2 Fi). assert (Z : c31 = c21 /\ c32 = c22) by (split; congruence). destruct Z as [-> ->]. exact (merge_same _ _ _ _ _ _ _ _ _ _ E1 E2). }
      destruct fl; intro H; apply pair_inj in H; destruct H as [<- <-]; exact A2.
    + intro H. congruence.
Qed.
End Main.
