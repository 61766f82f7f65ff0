(** * Approximation of ternary roots: triples/utils/roots/roots.py:543-577

    Exact arithmetic over an ordered field. *)
From Coq Require Import Bool List Arith Lia Ring Field.
From Verif Require Import OrdField Base RootUv RootUvFacts.
Import ListNotations.

Section Model.
Variable K : OrdField.
Local Open Scope of_scope.
(** [tolerance] and [approximate_tolerance], roots.py:543. *)
Variables tol atol : K.
(** [rationalize(x, rounding=.1, reliable=False)], roots.py:573: any function, since its value is only
    accepted when it is close. *)
Variable rat : K -> K.

(** roots.py:548-550, [n]. *)
Definition near (t x y : K) : bool := fltb (rabs (x - y)) t.

(** roots.py:557, one coordinate. *)
Definition drop (x : K) : K := if near tol x 0 then 0 else x.

(** roots.py:565-570, the body of the loop for the coordinates [perm[0], perm[1], perm[2]]; [None] for a
    division by zero. *)
Definition rn_step (r : K * K * K) : option (K * K * K) :=
  let '(x, y, z) := r in
  if near tol x y then (if feqb x 0 then None else Some (1, 1, z / x))
  else if near tol x 0 then (if feqb y 0 then None else Some (x, 1, z / y))
  else Some (x, y, z).
(** roots.py:563-564: the next permutation. *)
Definition rn_rot (r : K * K * K) : K * K * K := let '(x, y, z) := r in (y, z, x).
(** roots.py:563-570. Three rotations restore the order of the coordinates. *)
Definition rn_loop (r : K * K * K) : option (K * K * K) :=
  match rn_step r with
  | None => None
  | Some r1 => match rn_step (rn_rot r1) with
    | None => None
    | Some r2 => match rn_step (rn_rot r2) with None => None | Some r3 => Some (rn_rot r3) end
    end
  end.

(** roots.py:572-575, one coordinate. *)
Definition snap (x : K) : K := if near atol (rat x) x then rat x else x.

(** roots.py:558, one summand of the number of nonzero coordinates. *)
Definition nz (x : K) : nat := if feqb x 0 then O else S O.
(** roots.py:560, one coordinate. *)
Definition unit_of (x : K) : K := if feqb x 0 then 0 else 1.

(** roots.py:543-577, [approximate]; [None] for a division by zero. *)
Definition approximate (a b c : K) : option (K * K * K) :=
  let s := (a + b + c) / (1 + 1 + 1) in
  if feqb s 0 then None else
  let '(x, y, z) := (a / s, b / s, c / s) in
  if near tol x y && near tol y z && near tol x z then Some (1, 1, 1) else
  let '(x, y, z) := (drop x, drop y, drop z) in
  if Nat.eqb (nz x + nz y + nz z) 1 then Some (unit_of x, unit_of y, unit_of z) else
  match rn_loop (x, y, z) with
  | None => None
  | Some (p, q, r) => Some (snap p, snap q, snap r)
  end.
End Model.
Arguments near {K}. Arguments drop {K}. Arguments rn_step {K}. Arguments rn_rot {K}. Arguments rn_loop {K}.
Arguments snap {K}. Arguments nz {K}. Arguments unit_of {K}. Arguments approximate {K}.

(** ** Specification: closeness as a proposition, and the coordinates scaled to the sum 3. *)
Section Spec.
Variable K : OrdField.
Local Open Scope of_scope.
Definition is_close (t x y : K) : Prop := - t < x - y /\ x - y < t.
Definition to_sum3 (a b c x : K) : K := (1 + 1 + 1) * x / (a + b + c).
End Spec.
Arguments is_close {K}. Arguments to_sum3 {K}.

Section Facts.
Variable K : OrdField.
Local Open Scope of_scope.
Add Field Kf : (F_field K).
Implicit Types a b c x y z t p q r tol atol : K.

Lemma near_iff t x y : near t x y = true <-> is_close t x y.
Proof.
  unfold near, is_close, rabs. rewrite fltb_lt. destruct (fltb (x - y) 0) eqn:E.
  - apply fltb_lt in E. split.
    + intro H. split.
      * apply flt_sub. apply flt_sub in H. replace (x - y - - t) with (t - - (x - y)) by ring. exact H.
      * apply flt_trans with 0; [exact E|]. apply flt_trans with (- (x - y)); [|exact H].
        apply flt_sub. apply flt_sub in E. replace (- (x - y) - 0) with (0 - (x - y)) by ring. exact E.
    + intros [H _]. apply flt_sub. apply flt_sub in H. replace (t - - (x - y)) with (x - y - - t) by ring. exact H.
  - apply fltb_ge in E. split; [|intros [_ H]; exact H]. intro H. split; [|exact H].
    apply flt_le_trans with 0; [|exact E]. apply flt_sub. replace (0 - - t) with t by ring.
    exact (fle_lt_trans K _ _ _ E H).
Qed.
Lemma near_false t x y : near t x y = false <-> ~ is_close t x y.
Proof.
  rewrite <- near_iff. destruct (near t x y); split; intro H; try reflexivity; try discriminate.
  exfalso; apply H; reflexivity.
Qed.

Lemma near_refl t x : 0 < t -> near t x x = true.
Proof.
  intro Ht. apply near_iff. split; apply flt_sub.
  - replace (x - x - - t) with t by ring. exact Ht.
  - replace (t - (x - x)) with t by ring. exact Ht.
Qed.
Lemma near_sym t x y : near t x y = near t y x.
Proof.
  apply eq_true_iff_eq. rewrite !near_iff. unfold is_close. split; intros [H1 H2]; split; apply flt_sub.
  - apply flt_sub in H2. replace (y - x - - t) with (t - (x - y)) by ring. exact H2.
  - apply flt_sub in H1. replace (t - (y - x)) with (x - y - - t) by ring. exact H1.
  - apply flt_sub in H2. replace (x - y - - t) with (t - (y - x)) by ring. exact H2.
  - apply flt_sub in H1. replace (t - (x - y)) with (y - x - - t) by ring. exact H1.
Qed.

Lemma snap_close atol (rat : K -> K) x : 0 < atol -> is_close atol (snap atol rat x) x.
Proof.
  intro Ht. unfold snap. destruct (near atol (rat x) x) eqn:E; [apply near_iff; exact E|].
  apply near_iff, near_refl, Ht.
Qed.
Lemma snap_fix atol (rat : K -> K) x : rat x = x -> snap atol rat x = x.
Proof. intro H. unfold snap. rewrite H. destruct (near _ _ _); reflexivity. Qed.

Lemma third a b c x : a + b + c <> 0 -> x / ((a + b + c) / (1 + 1 + 1)) = to_sum3 a b c x.
Proof. intro H. unfold to_sum3. field. repeat split; ffold K; first [exact H | apply flt_neq0; solve [fpos]]. Qed.

Lemma s_neq0 a b c : a + b + c <> 0 -> feqb ((a + b + c) / (1 + 1 + 1)) 0 = false.
Proof.
  intro H. apply feqb_neq. intro E. apply H. transitivity ((a + b + c) / (1 + 1 + 1) * (1 + 1 + 1)).
  - field. repeat split; ffold K; apply flt_neq0; solve [fpos].
  - rewrite E. ring.
Qed.

Lemma drop_far tol x : near tol x 0 = false -> drop tol x = x.
Proof. intro H. unfold drop. rewrite H. reflexivity. Qed.
Lemma drop_near tol x : near tol x 0 = true -> drop tol x = 0.
Proof. intro H. unfold drop. rewrite H. reflexivity. Qed.
Lemma far_neq0 tol x : 0 < tol -> near tol x 0 = false -> x <> 0.
Proof. intros Ht H E. subst. rewrite near_refl in H by exact Ht. discriminate. Qed.
Lemma nz_far tol x : 0 < tol -> near tol x 0 = false -> nz x = 1%nat.
Proof. intros Ht H. unfold nz. rewrite (proj2 (feqb_neq K x 0) (far_neq0 tol x Ht H)). reflexivity. Qed.
Lemma drop_cases tol x : 0 < tol -> (drop tol x = 0 /\ nz (drop tol x) = O) \/ (near tol (drop tol x) 0 = false /\ drop tol x <> 0 /\ nz (drop tol x) = 1%nat).
Proof.
  intro Ht. unfold drop. destruct (near tol x 0) eqn:E.
  - left. split; [reflexivity|]. unfold nz. rewrite (proj2 (feqb_eq K 0 0) eq_refl). reflexivity.
  - right. split; [exact E|]. split; [exact (far_neq0 tol x Ht E)|exact (nz_far tol x Ht E)].
Qed.

(** ** Centre and corners *)
Lemma approximate_centre tol atol (rat : K -> K) a b c : a + b + c <> 0 ->
  is_close tol (to_sum3 a b c a) (to_sum3 a b c b) -> is_close tol (to_sum3 a b c b) (to_sum3 a b c c) ->
  is_close tol (to_sum3 a b c a) (to_sum3 a b c c) -> approximate tol atol rat a b c = Some (1, 1, 1).
Proof.
  intros Hs H1 H2 H3. unfold approximate. cbv zeta. rewrite (s_neq0 a b c Hs), !third by exact Hs.
  apply near_iff in H1, H2, H3. rewrite H1, H2, H3. reflexivity.
Qed.

(** ** Roots away from the border and the axes *)
Lemma approximate_generic tol atol (rat : K -> K) a b c : 0 < tol -> 0 < atol -> a + b + c <> 0 ->
  let x := to_sum3 a b c a in let y := to_sum3 a b c b in let z := to_sum3 a b c c in
  ~ is_close tol x 0 -> ~ is_close tol y 0 -> ~ is_close tol z 0 ->
  ~ is_close tol x y -> ~ is_close tol y z -> ~ is_close tol z x ->
  exists p q r, approximate tol atol rat a b c = Some (p, q, r) /\
    is_close atol p x /\ is_close atol q y /\ is_close atol r z.
Proof.
  intros Ht Ha Hs x y z X Y Z XY YZ ZX. apply near_false in X, Y, Z, XY, YZ, ZX.
  unfold approximate. cbv zeta. rewrite (s_neq0 a b c Hs), !third by exact Hs. fold x y z.
  rewrite XY. cbn [andb]. rewrite !drop_far by assumption.
  rewrite !(nz_far tol) by assumption. cbn [Nat.eqb Nat.add].
  unfold rn_loop, rn_step, rn_rot. rewrite XY, X, YZ, Y, ZX, Z.
  eexists. eexists. eexists. split; [reflexivity|]. split; [|split]; apply snap_close; exact Ha.
Qed.

(** ** The loop on the border and on the axes *)
(** Specification: [f] maps a triple and its rotations to another one and its rotations. *)
Definition on_rotations (f : K * K * K -> option (K * K * K)) (r r' : K * K * K) : Prop :=
  f r = Some r' /\ f (rn_rot r) = Some (rn_rot r') /\ f (rn_rot (rn_rot r)) = Some (rn_rot (rn_rot r')).

Lemma near10 tol : 0 < tol -> tol <= 1 -> near tol 1 0 = false.
Proof.
  intros H0 H1. apply near_false. intros [_ H]. replace (1 - 0) with (1 : K) in H by ring.
  exact (flt_irrefl K 1 (flt_le_trans K _ _ _ H H1)).
Qed.
Lemma feqb10 : feqb (1 : K) 0 = false. Proof. apply feqb_neq, fneq10. Qed.

Lemma div_self x : x <> 0 -> x / x = 1. Proof. intro; field; assumption. Qed.
Lemma div_one x : x / 1 = x. Proof. field. apply fneq10. Qed.

Lemma loop_border tol x y : 0 < tol -> tol <= 1 ->
  near tol x 0 = false -> near tol y 0 = false -> near tol (y / x) 0 = false ->
  exists w1 w2 w3,
    (rn_loop tol (0, x, y) = Some (0, 1, w1) /\ rn_loop tol (x, y, 0) = Some (1, w2, 0) /\
     rn_loop tol (y, 0, x) = Some (w3, 0, 1)) /\
    forall w, In w [w1; w2; w3] -> w = y / x \/ (w = 1 /\ (near tol (y / x) 1 = true \/ near tol x y = true)).
Proof.
  intros T0 T1 X Y R0.
  assert (X' : near tol 0 x = false) by (rewrite near_sym; exact X).
  assert (Y' : near tol 0 y = false) by (rewrite near_sym; exact Y).
  assert (R0' : near tol 0 (y / x) = false) by (rewrite near_sym; exact R0).
  assert (N : near tol (0 : K) 0 = true) by (apply near_refl; exact T0).
  assert (Hx : x <> 0) by (apply (far_neq0 tol); assumption).
  assert (Ex : feqb x 0 = false) by (apply feqb_neq; exact Hx).
  assert (E0 : 0 / x = 0) by (field; exact Hx).
  assert (T : near tol (1 : K) 0 = false) by (apply near10; assumption).
  assert (T' : near tol (0 : K) 1 = false) by (rewrite near_sym; exact T).
  assert (L1 : rn_loop tol (0, x, y) = Some (0, 1, if near tol (y / x) 1 then 1 else y / x)).
  { rewrite (near_sym tol (y / x) 1).
    unfold rn_loop, rn_step, rn_rot. repeat (first [rewrite X' | rewrite N | rewrite Ex]; cbv iota beta).
    destruct (near tol 1 (y / x)) eqn:E; repeat (first [rewrite feqb10 | rewrite div_one | rewrite T | rewrite R0]; cbv iota beta); reflexivity. }
  assert (L3 : rn_loop tol (y, 0, x) = Some (if near tol (y / x) 1 then 1 else y / x, 0, 1)).
  { rewrite (near_sym tol (y / x) 1).
    unfold rn_loop, rn_step, rn_rot. repeat (first [rewrite Y | rewrite X' | rewrite N | rewrite Ex]; cbv iota beta).
    destruct (near tol 1 (y / x)) eqn:E; repeat (first [rewrite feqb10 | rewrite div_one | rewrite T]; cbv iota beta); reflexivity. }
  assert (L2 : rn_loop tol (x, y, 0) = Some (1, if near tol x y then 1 else y / x, 0)).
  { unfold rn_loop, rn_step, rn_rot. destruct (near tol x y) eqn:E;
    repeat (first [rewrite X | rewrite Y | rewrite X' | rewrite N | rewrite Ex | rewrite E0 | rewrite feqb10 | rewrite div_one | rewrite T | rewrite T']; cbv iota beta); reflexivity. }
  eexists. eexists. eexists. split; [split; [exact L1|split; [exact L2|exact L3]]|].
  intros w [<- | [<- | [<- | []]]]; destruct (near tol (y / x) 1); destruct (near tol x y); tauto.
Qed.

(** On the axis x = y. *)
Lemma loop_axis tol x z : 0 < tol -> tol <= 1 ->
  near tol x 0 = false -> near tol x z = false -> near tol (z / x) 1 = false ->
  (z = 0 \/ near tol z 0 = false) ->
  on_rotations (rn_loop tol) (x, x, z) (1, 1, z / x).
Proof.
  intros T0 T1 X XZ R1 Hz.
  assert (X' : near tol 0 x = false) by (rewrite near_sym; exact X).
  assert (ZX : near tol z x = false) by (rewrite near_sym; exact XZ).
  assert (R1' : near tol 1 (z / x) = false) by (rewrite near_sym; exact R1).
  assert (N : near tol (0 : K) 0 = true) by (apply near_refl; exact T0).
  assert (Hx : x <> 0) by (apply (far_neq0 tol); assumption).
  assert (Ex : feqb x 0 = false) by (apply feqb_neq; exact Hx).
  assert (T : near tol (1 : K) 0 = false) by (apply near10; assumption).
  assert (T' : near tol (0 : K) 1 = false) by (rewrite near_sym; exact T).
  assert (NX : near tol x x = true) by (apply near_refl; exact T0).
  assert (N1 : near tol (1 : K) 1 = true) by (apply near_refl; exact T0).
  destruct Hz as [-> | Z].
  - assert (E0 : 0 / x = 0) by (field; exact Hx). rewrite E0 in *.
    assert (E1 : 0 / 1 = (0:K)) by apply div_one.
    unfold on_rotations, rn_loop, rn_step, rn_rot.
    repeat (first [rewrite X | rewrite X' | rewrite E0 | rewrite E1 | rewrite NX | rewrite N1 | rewrite N | rewrite Ex | rewrite T | rewrite T'
      | rewrite feqb10 | rewrite (div_self x Hx) | rewrite div_one]; cbv iota beta).
    repeat split; reflexivity.
  - unfold on_rotations, rn_loop, rn_step, rn_rot.
    repeat (first [rewrite X | rewrite X' | rewrite XZ | rewrite ZX | rewrite R1 | rewrite R1' | rewrite Z | rewrite NX | rewrite N1 | rewrite N | rewrite Ex | rewrite T | rewrite T'
      | rewrite feqb10 | rewrite (div_self x Hx) | rewrite div_one]; cbv iota beta).
    destruct (near tol (z / x) 0);
    repeat (first [rewrite R1 | rewrite R1' | rewrite feqb10 | rewrite div_one]; cbv iota beta);
    repeat split; reflexivity.
Qed.

(** Near the axis x = y. *)
Lemma loop_axis_near tol x x' z : 0 < tol -> tol <= 1 -> near tol x x' = true ->
  near tol x 0 = false -> near tol x' 0 = false -> near tol z 0 = false ->
  near tol x z = false -> near tol x' z = false -> near tol (z / x) 1 = false ->
  on_rotations (rn_loop tol) (x, x', z) (1, 1, z / x).
Proof.
  intros T0 T1 XX X X' Z XZ XZ' R1.
  assert (ZX : near tol z x = false) by (rewrite near_sym; exact XZ).
  assert (R1' : near tol 1 (z / x) = false) by (rewrite near_sym; exact R1).
  assert (Ex : feqb x 0 = false) by (apply feqb_neq, (far_neq0 tol); assumption).
  assert (T : near tol (1 : K) 0 = false) by (apply near10; assumption).
  unfold on_rotations, rn_loop, rn_step, rn_rot.
  repeat (first [rewrite XX | rewrite X | rewrite X' | rewrite XZ | rewrite XZ' | rewrite ZX | rewrite R1 | rewrite R1' | rewrite Z | rewrite Ex | rewrite T]; cbv iota beta).
  destruct (near tol (z / x) 0);
  repeat (first [rewrite feqb10 | rewrite div_one]; cbv iota beta);
  repeat split; reflexivity.
Qed.
End Facts.
Arguments on_rotations {K}.
