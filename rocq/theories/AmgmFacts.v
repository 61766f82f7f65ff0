(** * Facts about the AM-GM solver: the local inequality (lemmas for Amgm.v) *)
From Coq Require Import Bool List Arith Lia ZArith Ring Field Znumtheory.
From Verif Require Import OrdField Base Perm Poly PolyId Coeff Expr CertLimit TriPoly Univariate.
From Verif Require Import DenseSym DenseSymAxis Amgm AmgmQuot.
From Verif Require Sparse.
Import ListNotations.

(** ** Lines of lattice points *)
Section Lines.
Local Open Scope Z_scope.
Lemma mon3_eta (m : mon3) : m = (mx m, my m, mz m).
Proof. destruct m as [[x y] z]. reflexivity. Qed.
Lemma meq_spec m n : meq m n = true <-> m = n.
Proof.
  unfold meq. rewrite !andb_true_iff, !Z.eqb_eq. destruct m as [[x y] z], n as [[x' y'] z']. unfold mx, my, mz. cbn [fst snd]. split.
  - intros [[-> ->] ->]. reflexivity.
  - intro H. inversion H. auto.
Qed.
(** two vectors on a line through the origin *)
Definition par (v w : mon3) : Prop := mx v * my w = my v * mx w /\ my v * mz w = mz v * my w /\ mz v * mx w = mx v * mz w.
(** the lattice points lie on a line *)
Definition col (p q r : mon3) : Prop := par (msub q p) (msub r q).
Definition mscale (k : Z) (m : mon3) : mon3 := (k * mx m, k * my m, k * mz m).

Lemma collinear_col p q r : mdeg p = mdeg q -> mdeg q = mdeg r -> is_collinear p q r = true -> col p q r.
Proof.
  unfold is_collinear, col, par, msub, mdeg. rewrite Z.eqb_eq.
  destruct p as [[p0 p1] p2], q as [[q0 q1] q2], r as [[r0 r1] r2]. unfold mx, my, mz. cbn [fst snd].
  intros H1 H2 H. assert (p2 = q0 + q1 + q2 - p0 - p1) by lia. assert (r2 = q0 + q1 + q2 - r0 - r1) by lia. subst p2 r2.
  repeat split; nia.
Qed.

Lemma sub_add p m : p = (mx m + mx (msub p m), my m + my (msub p m), mz m + mz (msub p m)).
Proof. destruct p as [[x y] z], m as [[x' y'] z']. unfold msub, mx, my, mz. cbn [fst snd]. apply f_equal2; [apply f_equal2|]; lia. Qed.
Lemma mscale_abs k m : 0 <= k -> mnorm (mscale k m) = k * mnorm m.
Proof. intro H. unfold mnorm, mscale, mx, my, mz. cbn [fst snd]. rewrite !Z.abs_mul, (Z.abs_eq k H). ring. Qed.

(** the reduced lengths and the step of [local_ineq] *)
Lemma steps v1 v2 : par v1 v2 -> 0 < mdot v1 v2 ->
  let g := Z.gcd (mnorm v1) (mnorm v2) in
  let d1 := mnorm v1 / g in let d2 := mnorm v2 / g in
  0 < d1 /\ 0 < d2 /\ Z.gcd d1 d2 = 1 /\ v1 = mscale d1 (mdivz v2 d2) /\ v2 = mscale d2 (mdivz v2 d2).
Proof.
  intros P D g d1 d2.
  assert (S1 : forall i, i = mx \/ i = my \/ i = mz -> mdot v1 v1 * i v2 = mdot v1 v2 * i v1).
  { destruct v1 as [[x1 y1] z1], v2 as [[x2 y2] z2]. destruct P as (P1 & P2 & P3). unfold mdot, mx, my, mz in *. cbn [fst snd] in *.
    intros i [-> | [-> | ->]]; cbn [fst snd].
    - transitivity (x1 * x1 * x2 + y1 * (y1 * x2) + z1 * (z1 * x2)); [ring|]. rewrite <- P1, P3. ring.
    - transitivity (x1 * (x1 * y2) + y1 * y1 * y2 + z1 * (z1 * y2)); [ring|]. rewrite P1, <- P2. ring.
    - transitivity (x1 * (x1 * z2) + y1 * (y1 * z2) + z1 * z1 * z2); [ring|]. rewrite P2, <- P3. ring. }
  set (s := mdot v1 v1) in *. set (t := mdot v1 v2) in *.
  assert (Hs : 0 < s).
  { assert (0 <= s). { unfold s, mdot. nia. } 
    destruct (Z.eq_dec s 0) as [E|E]; [|lia]. exfalso. unfold s, mdot in E.
    assert (mx v1 = 0) by nia. assert (my v1 = 0) by nia. assert (mz v1 = 0) by nia. unfold t, mdot in D. rewrite H0, H1, H2 in D. lia. }
  assert (Hn : s * mnorm v2 = t * mnorm v1).
  { unfold mnorm. rewrite !Z.mul_add_distr_l. rewrite <- (Z.abs_eq s) at 1 2 3 by lia. rewrite <- (Z.abs_eq t) by lia.
    rewrite <- !Z.abs_mul. rewrite !S1 by auto. reflexivity. }
  assert (N1 : 0 < mnorm v1).
  { unfold mnorm. destruct (Z.eq_dec (mx v1) 0) as [E1|], (Z.eq_dec (my v1) 0) as [E2|], (Z.eq_dec (mz v1) 0) as [E3|]; try lia.
    exfalso. unfold s, mdot in Hs. rewrite E1, E2, E3 in Hs. lia. }
  assert (N2 : 0 < mnorm v2) by nia.
  assert (G : 0 < g) by (unfold g; pose proof (Z.gcd_nonneg (mnorm v1) (mnorm v2)); assert (Z.gcd (mnorm v1) (mnorm v2) <> 0) by (intro E; apply Z.gcd_eq_0_l in E; lia); lia).
  assert (E1 : mnorm v1 = g * d1) by (apply Z.div_exact; [lia|]; apply Z.mod_divide; [lia|apply Z.gcd_divide_l]).
  assert (E2 : mnorm v2 = g * d2) by (apply Z.div_exact; [lia|]; apply Z.mod_divide; [lia|apply Z.gcd_divide_r]).
  assert (D1 : 0 < d1) by nia. assert (D2 : 0 < d2) by nia.
  assert (C : Z.gcd d1 d2 = 1).
  { assert (X : g * Z.gcd d1 d2 = g * 1). { rewrite <- Z.gcd_mul_mono_l_nonneg by lia. rewrite <- E1, <- E2. unfold g. lia. } apply Z.mul_cancel_l in X; lia. }
  split; [exact D1|]. split; [exact D2|]. split; [exact C|].
  assert (Q : forall i, i = mx \/ i = my \/ i = mz -> d2 * i v1 = d1 * i v2).
  { intros i Hi. specialize (S1 i Hi).
    assert (X : (s * g) * (d2 * i v1) = (s * g) * (d1 * i v2)).
    { transitivity ((s * mnorm v2) * i v1); [rewrite E2; ring|]. rewrite Hn, E1. transitivity (g * d1 * (t * i v1)); [ring|]. rewrite <- S1. ring. }
    apply Z.mul_cancel_l in X; [exact X|nia]. }
  assert (V : forall i, i = mx \/ i = my \/ i = mz -> i v2 = d2 * (i v2 / d2) /\ i v1 = d1 * (i v2 / d2)).
  { intros i Hi. specialize (Q i Hi).
    assert (X : (d2 | i v2)).
    { apply (Gauss d2 d1); [exists (i v1); lia|]. apply Zgcd_1_rel_prime. rewrite Z.gcd_comm. exact C. }
    assert (Y : i v2 = d2 * (i v2 / d2)) by (apply Z.div_exact; [lia|]; apply Z.mod_divide; [lia|exact X]).
    split; [exact Y|]. assert (Z : d2 * i v1 = d2 * (d1 * (i v2 / d2))). { rewrite Q. rewrite Y at 1. ring. } apply Z.mul_cancel_l in Z; lia. }
  split.
  - transitivity (mx v1, my v1, mz v1); [apply mon3_eta|]. change (mscale d1 (mdivz v2 d2)) with (d1 * (mx v2 / d2), d1 * (my v2 / d2), d1 * (mz v2 / d2)).
    apply f_equal2; [apply f_equal2|]; apply V; auto.
  - transitivity (mx v2, my v2, mz v2); [apply mon3_eta|]. change (mscale d2 (mdivz v2 d2)) with (d2 * (mx v2 / d2), d2 * (my v2 / d2), d2 * (mz v2 / d2)).
    apply f_equal2; [apply f_equal2|]; apply V; auto.
Qed.

(** the intersection lies on both lines *)
Lemma intersection_on p1 p2 p3 p4 p : mdeg p1 = mdeg p2 -> mdeg p3 = mdeg p1 -> mdeg p4 = mdeg p1 ->
  integer_intersection p1 p2 p3 p4 = Some p ->
  mdeg p = mdeg p1 /\ is_collinear p1 p2 p = true /\ is_collinear p3 p4 p = true.
Proof.
  unfold integer_intersection.
  destruct p1 as [[a1 b1] c1], p2 as [[a2 b2] c2], p3 as [[a3 b3] c3], p4 as [[a4 b4] c4].
  unfold mdeg, is_collinear, mx, my, mz. cbn [fst snd].
  set (det := a1 * b3 - a1 * b4 - b1 * a3 + b1 * a4 - a2 * b3 + a2 * b4 + b2 * a3 - b2 * a4).
  set (n0 := a1*b2*a3 - a1*b2*a4 - a1*a3*b4 + a1*b3*a4 - b1*a2*a3 + b1*a2*a4 + a2*a3*b4 - a2*b3*a4).
  set (n1 := a1*b2*b3 - a1*b2*b4 - b1*a2*b3 + b1*a2*b4 - b1*a3*b4 + b1*b3*a4 + b2*a3*b4 - b2*b3*a4).
  intros H1 H2 H3.
  destruct (Z.eqb_spec det 0) as [|D]; [discriminate|]. destruct (Z.eqb_spec (n0 mod det) 0) as [M0|]; [|discriminate].
  destruct (Z.eqb_spec (n1 mod det) 0) as [M1|]; [|discriminate]. cbn [orb negb]. intro E. inversion E; subst p. cbn [fst snd].
  apply Z.div_exact in M0; [|exact D]. apply Z.div_exact in M1; [|exact D].
  split; [lia|]. rewrite !Z.eqb_eq. set (x := n0 / det) in *. set (y := n1 / det) in *.
  split; (assert (X : forall k, det * k = 0 -> k = 0) by (intros k Hk; apply Z.mul_eq_0 in Hk; destruct Hk; [contradiction|assumption])); apply X.
  - transitivity (det * (a1 * b2 - a2 * b1) + (det * x) * (b1 - b2) + (det * y) * (a2 - a1)); [ring|]. rewrite <- M0, <- M1. unfold det, n0, n1. ring.
  - transitivity (det * (a3 * b4 - a4 * b3) + (det * x) * (b3 - b4) + (det * y) * (a4 - a3)); [ring|]. rewrite <- M0, <- M1. unfold det, n0, n1. ring.
Qed.
Lemma mdeg_next m : mdeg (mnext m) = mdeg m.
Proof. unfold mdeg, mnext, mx, my, mz. cbn [fst snd]. lia. Qed.
Lemma mcycle_deg m p : In p (mcycle m) -> mdeg p = mdeg m.
Proof. intros [<- |[<- |[<- |[]]]]; rewrite ?mdeg_next; reflexivity. Qed.
Lemma mcycle_trans m p : In p (mcycle m) -> In m (mcycle p).
Proof.
  destruct m as [[x y] z]. intros [<- |[<- |[<- |[]]]]; unfold mcycle, mnext, mx, my, mz; cbn [fst snd In]; tauto.
Qed.
End Lines.

(** ** Values *)
Section Values.
Variable K : OrdField.
Local Open Scope of_scope.
Add Field Kf : (F_field K).

Definition zp (x : K) (k : Z) : K := if (0 <=? k)%Z then x ^ Z.to_nat k else 1 / x ^ Z.to_nat (- k).
Lemma zp_neq0 x k : x <> 0 -> zp x k <> 0.
Proof.
  intro H. unfold zp. destruct (0 <=? k)%Z; [apply fpow_neq0, H|]. pose proof (fpow_neq0 K x (Z.to_nat (- k)) H) as N.
  intro E. apply (fneq10 K). transitivity (1 / x ^ Z.to_nat (- k) * x ^ Z.to_nat (- k)); [field; fnz|]. rewrite E. ring.
Qed.
Lemma zp_succ x k : x <> 0 -> zp x (k + 1) = zp x k * x.
Proof.
  intro H. unfold zp. destruct (Z.leb_spec 0 k), (Z.leb_spec 0 (k + 1)); try lia.
  - replace (Z.to_nat (k + 1)) with (S (Z.to_nat k)) by lia. cbn [fpow]. ring.
  - assert (k = -1)%Z by lia. subst k. change (Z.to_nat (-1 + 1)) with 0%nat. change (Z.to_nat (- -1)) with 1%nat. cbn [fpow]. field. fnz.
  - replace (Z.to_nat (- k)) with (S (Z.to_nat (- (k + 1)))) by lia. cbn [fpow].
    pose proof (fpow_neq0 K x (Z.to_nat (- (k + 1))) H) as N. field. fnz.
Qed.
Lemma zp_add_nat x k n : x <> 0 -> zp x (k + Z.of_nat n) = zp x k * x ^ n.
Proof.
  intro H. induction n as [|n IH]; [cbn [fpow]; rewrite Z.add_0_r; ring|].
  rewrite Nat2Z.inj_succ. replace (k + Z.succ (Z.of_nat n))%Z with (k + Z.of_nat n + 1)%Z by lia. rewrite zp_succ, IH by exact H. cbn [fpow]. ring.
Qed.
Lemma zp_add x i j : x <> 0 -> zp x (i + j) = zp x i * zp x j.
Proof.
  intro H. destruct (Z.leb_spec 0 j) as [Hj|Hj].
  - replace j with (Z.of_nat (Z.to_nat j)) at 1 by lia. rewrite zp_add_nat by exact H. f_equal. unfold zp. destruct (Z.leb_spec 0 j); [reflexivity|lia].
  - pose proof (zp_add_nat x (i + j) (Z.to_nat (- j)) H) as E. replace (i + j + Z.of_nat (Z.to_nat (- j)))%Z with i in E by lia. rewrite E.
    unfold zp at 3. destruct (Z.leb_spec 0 j); [lia|]. pose proof (fpow_neq0 K x (Z.to_nat (- j)) H) as N. field. fnz.
Qed.
Lemma zp_mul x k n : x <> 0 -> zp x (Z.of_nat n * k) = zp x k ^ n.
Proof.
  intro H. induction n as [|n IH]; [reflexivity|]. rewrite Nat2Z.inj_succ. replace (Z.succ (Z.of_nat n) * k)%Z with (k + Z.of_nat n * k)%Z by lia.
  rewrite zp_add, IH by exact H. reflexivity.
Qed.
Lemma zp_nat x n : zp x (Z.of_nat n) = x ^ n.
Proof. unfold zp. destruct (Z.leb_spec 0 (Z.of_nat n)); [|lia]. rewrite Nat2Z.id. reflexivity. Qed.
Lemma zp_pos x k : 0 < x -> 0 < zp x k.
Proof. intro H. unfold zp. destruct (0 <=? k)%Z; [apply fpow_pos, H|]. apply fdiv_pos; [apply f1_pos|apply fpow_pos, H]. Qed.

(** the value of a monomial and of its cyclic sum *)
Definition mval (A B C : K) (m : mon3) : K := zp A (mx m) * zp B (my m) * zp C (mz m).
Definition cval (A B C : K) (m : mon3) : K := mval A B C m + mval B C A m + mval C A B m.
Definition nz (A B C : K) : Prop := A <> 0 /\ B <> 0 /\ C <> 0.
Lemma nz_rot A B C : nz A B C -> nz B C A.
Proof. unfold nz. tauto. Qed.

Lemma ev_ezpow env (e : ex K) k : ev env (ezpow e k) = zp (ev env e) k.
Proof. unfold ezpow, zp. destruct (0 <=? k)%Z; reflexivity. Qed.
Lemma ev_emon A B C m : ev (pt3 A B C) (emon m) = mval A B C m.
Proof. unfold emon, mval. cbn [ev]. rewrite !ev_ezpow. reflexivity. Qed.
(** expressions in a, b, c only *)
Fixpoint three (e : ex K) : Prop :=
  match e with
  | EC _ => True
  | EX i => (i < 3)%nat
  | EAdd x y | ESub x y | EMul x y | EDiv x y => three x /\ three y
  | EPow x _ => three x
  end.
Lemma three_rot e : three e -> three (erename rot3 e).
Proof. induction e; cbn; try tauto. intro H. destruct i as [|[|[|i]]]; cbn; lia. Qed.
Lemma ev_rot A B C e : three e -> ev (pt3 A B C) (erename rot3 e) = ev (pt3 B C A) e.
Proof.
  induction e; cbn; intro H; try (destruct H; rewrite IHe1, IHe2 by assumption; reflexivity); try reflexivity.
  - destruct i as [|[|[|i]]]; [reflexivity..|lia].
  - rewrite IHe by exact H. reflexivity.
Qed.
Lemma defined_rot A B C e : three e -> (defined (pt3 A B C) (erename rot3 e) <-> defined (pt3 B C A) e).
Proof.
  induction e; cbn; intro H; try tauto; try (destruct H; rewrite IHe1, IHe2 by assumption; try rewrite ev_rot by assumption; tauto).
Qed.
Lemma ev_csum A B C e : three e -> ev (pt3 A B C) (csum e) = ev (pt3 A B C) e + ev (pt3 B C A) e + ev (pt3 C A B) e.
Proof. intro H. unfold csum. cbn [ev]. rewrite !ev_rot by auto using three_rot. reflexivity. Qed.
Lemma ev_cprod A B C e : three e -> ev (pt3 A B C) (cprod e) = ev (pt3 A B C) e * ev (pt3 B C A) e * ev (pt3 C A B) e.
Proof. intro H. unfold cprod. cbn [ev]. rewrite !ev_rot by auto using three_rot. reflexivity. Qed.
Lemma defined_csum A B C e : three e -> (defined (pt3 A B C) (csum e) <-> defined (pt3 A B C) e /\ defined (pt3 B C A) e /\ defined (pt3 C A B) e).
Proof. intro H. unfold csum. cbn [defined]. rewrite !defined_rot by auto using three_rot. tauto. Qed.
Lemma defined_cprod A B C e : three e -> (defined (pt3 A B C) (cprod e) <-> defined (pt3 A B C) e /\ defined (pt3 B C A) e /\ defined (pt3 C A B) e).
Proof. intro H. unfold cprod. cbn [defined]. rewrite !defined_rot by auto using three_rot. tauto. Qed.
Lemma three_csum e : three e -> three (csum e).
Proof. intro H. unfold csum. cbn. auto using three_rot. Qed.
Lemma three_cprod e : three e -> three (cprod e).
Proof. intro H. unfold cprod. cbn. auto using three_rot. Qed.
Lemma three_ezpow e k : three e -> three (ezpow e k).
Proof. intro H. unfold ezpow. destruct (0 <=? k)%Z; cbn; auto. Qed.
Lemma three_emon m : three (emon m).
Proof. unfold emon. cbn [three]. repeat split; apply three_ezpow; cbn; lia. Qed.
Lemma manifest_ezpow (e : ex K) k : manifest true e = true -> manifest true (ezpow e k) = true.
Proof.
  intro H. unfold ezpow. destruct (0 <=? k)%Z; cbn [manifest]; rewrite H, orb_true_r; [reflexivity|].
  apply andb_true_intro. split; [apply f1_nonneg|reflexivity].
Qed.
Lemma manifest_emon m : manifest true (emon m : ex K) = true.
Proof. unfold emon. cbn [manifest]. rewrite !manifest_ezpow by reflexivity. reflexivity. Qed.
Lemma defined_ezpow env (e : ex K) k : defined env e -> ev env e <> 0 -> defined env (ezpow e k).
Proof.
  intros H N. unfold ezpow. destruct (0 <=? k)%Z; cbn [defined]; [exact H|]. split; [exact I|]. split; [exact H|]. cbn [ev]. apply fpow_neq0, N.
Qed.
Lemma defined_emon A B C m : nz A B C -> defined (pt3 A B C) (emon m).
Proof. intros (H1 & H2 & H3). unfold emon. cbn [defined]. repeat split; apply defined_ezpow; cbn; auto. Qed.

Lemma mval_add A B C (m n p : mon3) : nz A B C -> p = (mx m + mx n, my m + my n, mz m + mz n)%Z -> mval A B C p = mval A B C m * mval A B C n.
Proof. intros (H1 & H2 & H3) ->. unfold mval, mx, my, mz. cbn [fst snd]. rewrite !zp_add by assumption. ring. Qed.
Lemma mval_scale A B C m n : nz A B C -> mval A B C (mscale (Z.of_nat n) m) = mval A B C m ^ n.
Proof.
  intros (H1 & H2 & H3). unfold mval. change (mx (mscale (Z.of_nat n) m)) with (Z.of_nat n * mx m)%Z.
  change (my (mscale (Z.of_nat n) m)) with (Z.of_nat n * my m)%Z. change (mz (mscale (Z.of_nat n) m)) with (Z.of_nat n * mz m)%Z.
  rewrite !zp_mul by assumption. rewrite !fpow_mul_l. reflexivity.
Qed.
Lemma cval_next A B C m : cval A B C (mnext m) = cval A B C m.
Proof. unfold cval, mval, mnext, mx, my, mz. cbn [fst snd]. ring. Qed.
Lemma cval_cycle A B C m p : In p (mcycle m) -> cval A B C p = cval A B C m.
Proof. intros [<- |[<- |[<- |[]]]]; rewrite ?cval_next; reflexivity. Qed.

(** ** What the pieces of a certificate must be: an expression in a, b, c whose value at the
    points without a zero coordinate is [f], manifestly non-negative, and defined at all
    positive points *)
Definition certifies (e : ex K) (f : K -> K -> K -> K) : Prop :=
  three e /\ manifest true e = true /\
  (forall A B C, nz A B C -> defined (pt3 A B C) e -> ev (pt3 A B C) e = f A B C) /\
  (forall A B C, 0 < A -> 0 < B -> 0 < C -> defined (pt3 A B C) e).
Lemma certifies_ext e f g : (forall A B C, nz A B C -> f A B C = g A B C) -> certifies e f -> certifies e g.
Proof. intros H (H1 & H2 & H3 & H4). repeat split; auto. intros A B C N D. rewrite H3, H by assumption. reflexivity. Qed.
Lemma certifies_add e1 e2 f g : certifies e1 f -> certifies e2 g -> certifies (e1 + e2)%E (fun A B C => f A B C + g A B C).
Proof.
  intros (H1 & H2 & H3 & H4) (H1' & H2' & H3' & H4'). split; [cbn; auto|]. split; [cbn; rewrite H2, H2'; reflexivity|]. split.
  - intros A B C N [D D']. cbn [ev]. rewrite H3, H3' by assumption. reflexivity.
  - intros A B C HA HB HC. cbn. auto.
Qed.
Lemma certifies_scale (k : K) e f : 0 <= k -> certifies e f -> certifies (EC k * e)%E (fun A B C => k * f A B C).
Proof.
  intros Hk (H1 & H2 & H3 & H4). split; [cbn; auto|]. split; [cbn; rewrite Hk, H2; reflexivity|]. split.
  - intros A B C N [_ D]. cbn [ev]. rewrite H3 by assumption. reflexivity.
  - intros A B C HA HB HC. cbn. auto.
Qed.
Lemma certifies_mul_const (k : K) e f : 0 <= k -> certifies e f -> certifies (e * EC k)%E (fun A B C => f A B C * k).
Proof.
  intros Hk (H1 & H2 & H3 & H4). split; [cbn; auto|]. split; [cbn; rewrite Hk, H2; reflexivity|]. split.
  - intros A B C N [D _]. cbn [ev]. rewrite H3 by assumption. reflexivity.
  - intros A B C HA HB HC. cbn. auto.
Qed.
Lemma certifies_div_const (k : K) e f : 0 < k -> certifies e f -> certifies (e / EC k)%E (fun A B C => f A B C / k).
Proof.
  intros Hk (H1 & H2 & H3 & H4). split; [cbn; auto|]. split; [cbn; rewrite (flt_le Hk), H2; reflexivity|]. split.
  - intros A B C N (D & _). cbn [ev]. rewrite H3 by assumption. reflexivity.
  - intros A B C HA HB HC. cbn. split; [auto|]. split; [exact I|]. apply flt_neq0, Hk.
Qed.
Lemma certifies_cmon m : certifies (csum (emon m)) (fun A B C => cval A B C m).
Proof.
  split; [apply three_csum, three_emon|]. split; [apply manifest_csum, manifest_emon|]. split.
  - intros A B C N _. rewrite ev_csum by apply three_emon. rewrite !ev_emon. reflexivity.
  - intros A B C HA HB HC. apply defined_csum; [apply three_emon|]. apply flt_neq0 in HA, HB, HC. repeat split; apply defined_emon; repeat split; assumption.
Qed.

(** ** The univariate inequality *)
Lemma ev_eupoly env l e : ev env (eupoly l e) = ueval l (ev env e : K).
Proof.
  unfold eupoly. rewrite Sparse.ev_esum, map_map. cbn [ev fst snd].
  assert (X : forall s, fsum (map (fun t : nat * K => snd t * ev env e ^ fst t) (combine (seq s (length l)) l)) = ev env e ^ s * ueval l (ev env e)).
  { induction l as [|k l IH]; intro s; cbn [length seq combine map].
    - cbn. ring.
    - change (fsum (?x :: ?r)) with (x + fsum r). rewrite IH. cbn [fst snd fpow ueval]. ring. }
  rewrite X. cbn [fpow]. ring.
Qed.
Lemma esum_prop (P : ex K -> Prop) l : P (EC 0) -> (forall x y, P x -> P y -> P (x + y)%E) -> (forall e, In e l -> P e) -> P (Sparse.esum l).
Proof. intros H0 Ha H. unfold Sparse.esum. induction l as [|x l IH]; [exact H0|]. cbn [fold_right]. apply Ha; [apply H; left; reflexivity|]. apply IH. intros e He. apply H. right. exact He. Qed.
Lemma eupoly_three l e : three e -> three (eupoly l e).
Proof.
  intro H. unfold eupoly. apply esum_prop; [exact I|cbn; auto|]. intros x Hx. apply in_map_iff in Hx. destruct Hx as [t [<- _]]. cbn. auto.
Qed.
Lemma eupoly_defined env l (e : ex K) : defined env e -> defined env (eupoly l e).
Proof.
  intro H. unfold eupoly. apply esum_prop; [exact I|cbn; auto|]. intros x Hx. apply in_map_iff in Hx. destruct Hx as [t [<- _]]. cbn. auto.
Qed.
Lemma eupoly_manifest l (e : ex K) : (forall k, In k l -> 0 <= k) -> manifest true e = true -> manifest true (eupoly l e) = true.
Proof.
  intros Hl H. unfold eupoly. apply esum_prop; [apply fle_refl|cbn; intros x y -> ->; reflexivity|].
  intros x Hx. apply in_map_iff in Hx. destruct Hx as [[i k] [<- Hi]]. apply in_combine_r in Hi. cbn [manifest fst snd].
  rewrite H, orb_true_r, andb_true_r. apply Hl, Hi.
Qed.
Lemma syn2_spec f : forall q r1 r0, syn2 f = (q, (r1, r0)) -> forall x : K, ueval f x = (x * x - 1) * ueval q x + (r1 * x + r0).
Proof.
  induction f as [|k f IH]; intros q r1 r0 H x; cbn [syn2] in H.
  - assert (q = []) by congruence. assert (r1 = 0) by congruence. assert (r0 = 0) by congruence. subst. cbn. ring.
  - destruct (syn2 f) as [q' [s1 s0]] eqn:E. apply pair_equal_spec in H. destruct H as [<- H]. apply pair_equal_spec in H. destruct H as [<- <-].
    cbn [ueval]. rewrite (IH q' s1 s0 eq_refl x). ring.
Qed.
Lemma div_sq2_spec f q : div_sq2 f = Some q -> forall x : K, ueval f x = (x * x - 1) * (x * x - 1) * ueval q x.
Proof.
  unfold div_sq2. destruct (syn2 f) as [q1 [r1 r0]] eqn:E1. destruct ((r1 =? 0) && (r0 =? 0))%bool eqn:B; [|discriminate].
  destruct (syn2 q1) as [q2 [s1 s0]] eqn:E2. destruct ((s1 =? 0) && (s0 =? 0))%bool eqn:B'; [|discriminate]. intros H x. assert (q2 = q) by congruence. subst q2.
  apply andb_prop in B, B'. destruct B as [R1 R0], B' as [S1 S0]. apply feqb_eq in R1, R0, S1, S0. subst.
  rewrite (syn2_spec f q1 0 0 E1), (syn2_spec q1 q 0 0 E2). ring.
Qed.
Lemma f2_value d1 d2 (x : K) : (0 < d1)%nat -> (0 < d2)%nat ->
  ueval (f2_of d1 d2) x = ueval (f1_of d1 d2) x - fnat (d1 + d2) / 2 * ((x - 1) * (x - 1)) * x ^ pred d1.
Proof.
  intros H1 H2. rewrite f2_map, f1_map, !usum_map. cbn [Nat.add]. pose proof (two_neq0 K) as N2.
  transitivity (bsum (S (d1 + d2)) (fun i => f1c K d1 d2 i * x ^ i) - bsum (S (d1 + d2)) (fun i => f2s K d1 d2 i * x ^ i)).
  { rewrite <- bsum_sub. apply bsum_ext. intros i _. ring. }
  f_equal.
  transitivity (bsum (S (d1 + d2)) (fun i => (if Nat.eqb i (S d1) then fnat (d1 + d2) / 2 * x ^ i else 0)
       + (if Nat.eqb i d1 then - fnat (d1 + d2) * x ^ i else 0) + (if Nat.eqb i (pred d1) then fnat (d1 + d2) / 2 * x ^ i else 0))).
  - apply bsum_ext. intros i _. unfold f2s.
    destruct (Nat.eqb_spec i (S d1)), (Nat.eqb_spec i d1), (Nat.eqb_spec i (pred d1)); try lia; ring.
  - rewrite !bsum_add. rewrite (bsum_single K _ (S d1)), (bsum_single K _ d1), (bsum_single K _ (pred d1)); try lia.
    + rewrite !Nat.eqb_refl. destruct d1 as [|e]; [lia|]. cbn [pred fpow]. field. fnz.
    + intros i _ Hi. destruct (Nat.eqb_spec i (pred d1)); [contradiction|reflexivity].
    + intros i _ Hi. destruct (Nat.eqb_spec i d1); [contradiction|reflexivity].
    + intros i _ Hi. destruct (Nat.eqb_spec i (S d1)); [contradiction|reflexivity].
Qed.
Lemma f1sol_spec d1 d2 (e : ex K) : (0 < d1)%nat -> (0 < d2)%nat -> Nat.gcd d1 d2 = 1%nat -> exists s, f1sol d1 d2 e = Some s /\
  (forall env, ev env s = fnat d1 * ev env e ^ (d1 + d2) - fnat (d1 + d2) * ev env e ^ d1 + fnat d2) /\
  (manifest true e = true -> manifest true s = true) /\ (three e -> three s) /\ (forall env, defined env e -> defined env s).
Proof.
  intros H1 H2 G. pose proof (two_neq0 K) as N2. unfold f1sol. destruct (Nat.odd (d1 + d2)) eqn:O.
  - rewrite (div_f1 K d1 d2 H1 H2). replace ((0 : K) =? 0) with true by (symmetry; apply feqb_eq; reflexivity). cbn [andb]. eexists. split; [reflexivity|].
    split; [|split; [|split]].
    + intro env. cbn [ev]. rewrite ev_eupoly. destruct (div_sq1_spec K _ _ _ _ (div_f1 K d1 d2 H1 H2)) as [_ V].
      rewrite <- f1_value by assumption. rewrite V. cbn [fpow]. ring.
    + intro M. cbn [manifest]. rewrite eupoly_manifest; [reflexivity| |exact M]. intros k Hk. apply in_map_iff in Hk. destruct Hk as [i [<- _]]. apply F2_nonneg.
    + intro T. cbn [three]. split; [apply eupoly_three, T|]. auto.
    + intros env D. cbn [defined]. split; [apply eupoly_defined, D|]. auto.
  - assert (O' : Nat.odd d1 = true /\ Nat.odd d2 = true).
    { rewrite Nat.odd_add in O. destruct (Nat.odd d1) eqn:O1, (Nat.odd d2) eqn:O2; try discriminate; [split; reflexivity|exfalso].
      rewrite <- Nat.negb_even in *. apply negb_false_iff in O1, O2. apply Nat.even_spec in O1, O2. destruct O1 as [u Eu], O2 as [v Ev].
      assert (X : Nat.divide 2 1).
      { rewrite <- G. apply Nat.gcd_greatest; [exists u|exists v]; lia. }
      destruct X as [k Hk]. lia. }
    destruct O' as [O1 O2]. rewrite (div_f2 K d1 d2 O1 O2). eexists. split; [reflexivity|].
    split; [|split; [|split]].
    + intro env. cbn [ev]. rewrite ev_eupoly. pose proof (div_sq2_spec _ _ (div_f2 K d1 d2 O1 O2) (ev env e)) as V. rewrite f2_value, f1_value in V by assumption.
      set (X := ev env e) in *. set (Q := ueval _ X) in *.
      transitivity ((X * X - 1) * (X * X - 1) * Q + fnat (d1 + d2) / 2 * ((X - 1) * (X - 1)) * X ^ pred d1); [cbn [fpow]; ring|]. rewrite <- V. ring.
    + intro M. cbn [manifest]. rewrite eupoly_manifest; [| |exact M].
      * cbn [Nat.even orb andb]. rewrite M, orb_true_r, !andb_true_r. apply fdiv_nonneg; [apply fnat_nonneg|apply f2_pos].
      * intros k Hk. apply in_map_iff in Hk. destruct Hk as [i [<- _]]. apply G2_nonneg.
    + intro T. cbn [three]. split; [split; [apply eupoly_three, T|tauto]|tauto].
    + intros env D. cbn [defined]. split; [split; [apply eupoly_defined, D|tauto]|tauto].
Qed.

(** ** The local inequality *)
Lemma local_spec m1 p m2 s x y : col m1 p m2 -> local_ineq m1 p m2 = Some (s, x, y) ->
  (0 < x)%nat /\ (0 < y)%nat /\
  certifies s (fun A B C => fnat x * cval A B C m1 - fnat (x + y) * cval A B C p + fnat y * cval A B C m2).
Proof.
  unfold local_ineq, col. set (v1 := msub p m1). set (v2 := msub m2 p). intro P.
  destruct (Z.ltb_spec 0 (mdot v1 v2)) as [D|]; [|discriminate].
  destruct (steps v1 v2 P D) as (D1 & D2 & G & E1 & E2).
  set (g := Z.gcd (mnorm v1) (mnorm v2)) in *. set (k1 := (mnorm v1 / g)%Z) in *. set (k2 := (mnorm v2 / g)%Z) in *.
  set (w := mdivz v2 k2) in *. 
  assert (G' : Nat.gcd (Z.to_nat k1) (Z.to_nat k2) = 1%nat).
  { set (n1 := Z.to_nat k1). set (n2 := Z.to_nat k2). assert (X1 : k1 = Z.of_nat n1) by (unfold n1; lia). assert (X2 : k2 = Z.of_nat n2) by (unfold n2; lia).
    rewrite X1, X2 in G. enough (Z.gcd (Z.of_nat n1) (Z.of_nat n2) = Z.of_nat (Nat.gcd n1 n2)) by lia.
    destruct (Nat.gcd_divide n1 n2) as [[u Hu] [v Hv]].
    apply Z.gcd_unique; [lia| | |].
    - exists (Z.of_nat u). rewrite <- Nat2Z.inj_mul. congruence.
    - exists (Z.of_nat v). rewrite <- Nat2Z.inj_mul. congruence.
    - intros q Hq1 Hq2. pose proof (Z.gcd_greatest _ _ _ Hq1 Hq2) as Hq. rewrite G in Hq. destruct Hq as [r Hr]. exists (r * Z.of_nat (Nat.gcd n1 n2))%Z.
      transitivity (Z.of_nat (Nat.gcd n1 n2) * (r * q))%Z; [rewrite <- Hr; ring|ring]. }
  rewrite Z2Nat.id by lia. fold w.
  destruct (f1sol_spec (Z.to_nat k1) (Z.to_nat k2) (emon w)) as (f & Ef & Vf & Mf & Tf & Df); [lia|lia|exact G'|].
  rewrite Ef. intro H. assert (Hs : s = csum (emon m1 * f)%E) by congruence. assert (Hx : x = Z.to_nat k2) by congruence. assert (Hy : y = Z.to_nat k1) by congruence. clear H.
  split; [lia|]. split; [lia|]. subst s.
  assert (T : three (emon m1 * f)%E) by (cbn; split; [apply three_emon|apply Tf, three_emon]).
  assert (Pv : forall A B C, nz A B C -> mval A B C p = mval A B C m1 * mval A B C w ^ y).
  { intros A B C N. rewrite <- mval_scale by exact N. apply mval_add; [exact N|]. rewrite Hy, Z2Nat.id by lia. rewrite <- E1. apply sub_add. }
  assert (Mv : forall A B C, nz A B C -> mval A B C m2 = mval A B C m1 * mval A B C w ^ (y + x)).
  { intros A B C N. rewrite fpow_add. transitivity (mval A B C p * mval A B C w ^ x); [|rewrite Pv by exact N; ring].
    rewrite <- mval_scale by exact N. apply mval_add; [exact N|]. rewrite Hx, Z2Nat.id by lia. rewrite <- E2. apply sub_add. }
  split; [apply three_csum, T|]. split; [|split].
  - apply manifest_csum. cbn [manifest]. rewrite manifest_emon, Mf by apply manifest_emon. reflexivity.
  - intros A B C N _. rewrite ev_csum by exact T. cbn [ev]. rewrite !ev_emon, !Vf, !ev_emon. unfold cval. rewrite <- Hx, <- Hy.
    rewrite !Pv, !Mv by (try exact N; try (apply nz_rot, N); apply nz_rot, nz_rot, N). rewrite (Nat.add_comm x y). ring.
  - intros A B C HA HB HC. apply defined_csum; [exact T|]. apply flt_neq0 in HA, HB, HC.
    assert (Dd : forall X Y Z, nz X Y Z -> defined (pt3 X Y Z) (emon m1 * f)%E) by (intros X Y Z N; cbn; split; [apply defined_emon, N|apply Df, defined_emon, N]).
    repeat split; apply Dd; repeat split; assumption.
Qed.
End Values.
