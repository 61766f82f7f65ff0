(** * The recursion of the AM-GM solver ends, without an exception (lemmas for Amgm.v) *)
From Coq Require Import Bool List Arith Lia ZArith Ring Field.
From Verif Require Import OrdField Base Perm Poly PolyId PolyOps Coeff Expr CertLimit TriPoly Univariate.
From Verif Require Import DenseSym Amgm AmgmQuot AmgmFacts AmgmSolve AmgmMain.
Import ListNotations.

Section Hull.
Local Open Scope Z_scope.
(** the point is a convex combination of the rotations *)
Definition hull (m o : mon3) : Prop := exists a b c D, 0 < D /\ 0 <= a /\ 0 <= b /\ 0 <= c /\ D = a + b + c /\
  D * mx o = a * mx m + b * my m + c * mz m /\ D * my o = a * my m + b * mz m + c * mx m /\ D * mz o = a * mz m + b * mx m + c * my m.
Lemma wdet_neg m : 0 < mdeg m -> is_center m = false -> wdet m < 0.
Proof.
  intros T E. assert (N : ~ (mx m = my m /\ my m = mz m)) by (unfold is_center in E; rewrite <- !Z.eqb_eq, <- andb_true_iff, E; discriminate).
  unfold wdet, mdeg in *. set (u := mx m) in *. set (v := my m) in *. set (w := mz m) in *.
  assert (X : 2 * (3 * u * v * w - (u * u * u + v * v * v + w * w * w)) = - ((u + v + w) * ((u - v) * (u - v) + (v - w) * (v - w) + (w - u) * (w - u)))) by ring.
  assert (Y : 0 < (u - v) * (u - v) + (v - w) * (v - w) + (w - u) * (w - u)).
  { pose proof (Z.square_nonneg (u - v)). pose proof (Z.square_nonneg (v - w)). pose proof (Z.square_nonneg (w - u)).
    assert (Q : forall t, t <> 0 -> 0 < t * t) by (intros t Ht; nia).
    assert (u - v <> 0 \/ v - w <> 0) as [Z|Z] by lia; apply Q in Z; lia. }
  nia.
Qed.
Lemma rshift_total m o : mdeg m = mdeg o -> 0 < mdeg m -> exists b, rshift m o = Ok b.
Proof.
  intros H T. unfold rshift. rewrite H, Z.eqb_refl. cbn [negb]. destruct (is_center m) eqn:E; [eauto|].
  pose proof (wdet_neg m T E). destruct (Z.eqb_spec (wdet m) 0); [lia|]. destruct (wnum m o) as [[na nb] nc]. eauto.
Qed.
Lemma rshift_hull m o : 0 < mdeg m -> rshift m o = Ok true -> hull m o.
Proof.
  intros T R. pose proof (rshift_deg _ _ _ R) as H. unfold rshift in R. rewrite H, Z.eqb_refl in R. cbn [negb] in R. destruct (is_center m) eqn:E.
  - apply Ok_inj in R. unfold is_center in E, R. rewrite andb_true_iff, !Z.eqb_eq in E, R. unfold mdeg in H. exists 1, 0, 0, 1. lia.
  - pose proof (wdet_neg m T E) as D. destruct (Z.eqb_spec (wdet m) 0); [lia|]. unfold wnum in R.
    set (na := mx o * _ + _ + _) in R. set (nb := mx o * (mz m * mx m - my m * my m) + _ + _) in R. set (nc := mx o * (mx m * my m - mz m * mz m) + _ + _) in R.
    apply Ok_inj in R. rewrite !andb_true_iff, !Z.leb_le in R. destruct R as [[Ra Rb] Rc].
    assert (na <= 0) by nia. assert (nb <= 0) by nia. assert (nc <= 0) by nia. exists (- na), (- nb), (- nc), (- wdet m).
    split; [lia|]. split; [lia|]. split; [lia|]. split; [lia|]. unfold mdeg in H.
    assert (W : mz o = mx m + my m + mz m - mx o - my o) by lia.
    unfold na, nb, nc, wdet. split; [rewrite W; ring|]. split; [|split]; ring.
Qed.
Lemma min_aux a b c D t p q r : 0 < D -> 0 <= a -> 0 <= b -> 0 <= c -> D = a + b + c -> D * t = a * p + b * q + c * r -> t <= p -> p < q -> p < r ->
  b = 0 /\ c = 0 /\ a = D.
Proof.
  intros HD Ha Hb Hc -> E T Q R. assert (X : b * (q - p) + c * (r - p) <= 0).
  { assert ((a + b + c) * t <= (a + b + c) * p) by nia. lia. }
  assert (0 <= b * (q - p)) by nia. assert (0 <= c * (r - p)) by nia. assert (b * (q - p) = 0) by lia. assert (c * (r - p) = 0) by lia. nia.
Qed.
Lemma in_cycle m o : (mx o = mx m /\ my o = my m /\ mz o = mz m) \/ (mx o = my m /\ my o = mz m /\ mz o = mx m) \/ (mx o = mz m /\ my o = mx m /\ mz o = my m) -> In o (mcycle m).
Proof.
  unfold mcycle. cbn [In]. intros [(H1 & H2 & H3)|[(H1 & H2 & H3)|(H1 & H2 & H3)]]; [left|right; left|right; right; left]; apply mon3_ext; unfold mnext, mx, my, mz in *; cbn [fst snd] in *; congruence.
Qed.
(** a point of the hull with a coordinate equal to the only least one of a vertex is a vertex *)
Lemma unique_min m o k : hull m o ->
  (mx m = k /\ k < my m /\ k < mz m) \/ (my m = k /\ k < mx m /\ k < mz m) \/ (mz m = k /\ k < mx m /\ k < my m) ->
  mx o <= k \/ my o <= k \/ mz o <= k -> In o (mcycle m).
Proof.
  intros (a & b & c & D & HD & Ha & Hb & Hc & S & E1 & E2 & E3) M O. apply in_cycle.
  set (u := mx m) in *. set (v := my m) in *. set (w := mz m) in *. set (x := mx o) in *. set (y := my o) in *. set (z := mz o) in *. clearbody u v w x y z.
  assert (F : (a = D /\ b = 0 /\ c = 0) \/ (b = D /\ a = 0 /\ c = 0) \/ (c = D /\ a = 0 /\ b = 0)).
  { destruct M as [(M1 & M2 & M3)|[(M1 & M2 & M3)|(M1 & M2 & M3)]]; destruct O as [O|[O|O]].
    - pose proof (min_aux a b c D x u v w). lia.
    - pose proof (min_aux c a b D y u v w). lia.
    - pose proof (min_aux b a c D z u w v). lia.
    - pose proof (min_aux b a c D x v u w). lia.
    - pose proof (min_aux a b c D y v w u). lia.
    - pose proof (min_aux c a b D z v w u). lia.
    - pose proof (min_aux c a b D x w u v). lia.
    - pose proof (min_aux b a c D y w v u). lia.
    - pose proof (min_aux a b c D z w u v). lia. }
  destruct F as [(-> & -> & ->)|[(-> & -> & ->)|(-> & -> & ->)]]; [left|right; left|right; right]; repeat split; nia.
Qed.
Lemma hull_min m o k : hull m o -> k <= mx m -> k <= my m -> k <= mz m -> k <= mx o /\ k <= my o /\ k <= mz o.
Proof.
  intros (a & b & c & D & HD & Ha & Hb & Hc & S & E1 & E2 & E3) H1 H2 H3.
  assert (X : forall t p q r, D * t = a * p + b * q + c * r -> k <= p -> k <= q -> k <= r -> k <= t).
  { intros t p q r E P Q R. assert (D * k <= D * t) by (rewrite E, S; nia). nia. }
  split; [|split]; eapply X; eassumption.
Qed.

(** ** The target *)
Definition tgt (n : mon3) (d : Z) : mon3 := if mz n <? my n then (mx n + mz n - d, my n, d) else (mx n + my n - d, d, mz n).
Lemma target_tgt m1 m2 : spiral2_target m1 m2 = tgt (mstd m1) (mmin m2).
Proof. reflexivity. Qed.
Lemma tgt_deg n d : mdeg (tgt n d) = mdeg n.
Proof. unfold tgt, mdeg. destruct (mz n <? my n); unfold mx, my, mz; cbn [fst snd]; lia. Qed.
Lemma mstd_strict x y z : y < x -> z < x -> mstd (x, y, z) = (x, y, z).
Proof.
  intros H1 H2. unfold mstd, mmax. destruct (mlt (x, y, z) (mnext (x, y, z))) eqn:E1; [apply mlt_spec in E1; unfold mnext, mx, my, mz in E1; cbn [fst snd] in E1; lia|].
  destruct (mlt (x, y, z) (mnext (mnext (x, y, z)))) eqn:E2; [apply mlt_spec in E2; unfold mnext, mx, my, mz in E2; cbn [fst snd] in E2; lia|]. reflexivity.
Qed.
Lemma mstd_flat t d : d <= t -> mstd (t, d, d) = (t, d, d).
Proof. intro H. destruct (Z.eq_dec t d) as [->|]; [|apply mstd_strict; lia]. unfold mstd, mmax. change (mnext (d, d, d)) with (d, d, d). change (mnext (d, d, d)) with (d, d, d). destruct (mlt (d, d, d) (d, d, d)); destruct (mlt _ _); reflexivity. Qed.
Lemma mmin_spec m : (mmin m <= mx m /\ mmin m <= my m /\ mmin m <= mz m) /\ (mmin m = mx m \/ mmin m = my m \/ mmin m = mz m).
Proof. unfold mmin. lia. Qed.
Lemma tgt_flat t d : tgt (t, d, d) d = (t, d, d).
Proof. unfold tgt, mx, my, mz. cbn [fst snd]. rewrite Z.ltb_irrefl. f_equal. f_equal. lia. Qed.
Lemma tgt_std m : mstd m = m -> tgt m (mmin m) = m.
Proof.
  intro E. pose proof (mstd_max m) as [H1 H2]. rewrite E in *. destruct m as [[x y] z]. unfold tgt, mmin, mx, my, mz in *. cbn [fst snd] in *.
  destruct (Z.ltb_spec z y); f_equal; try f_equal; lia.
Qed.
End Hull.

Section Total.
Variable K : OrdField.
Notation solve := (amgm_solve (K := K)).
Definition okk {T} (r : res T) : Prop := exists o, r = Ok o.

Lemma local_total m1 p m2 : col m1 p m2 -> (0 < mdot (msub p m1) (msub m2 p))%Z -> exists s x y, local_ineq (K := K) m1 p m2 = Some (s, x, y).
Proof.
  unfold local_ineq, col. set (v1 := msub p m1). set (v2 := msub m2 p). intros P D.
  destruct (Z.ltb_spec 0 (mdot v1 v2)) as [_|]; [|lia].
  destruct (steps v1 v2 P D) as (D1 & D2 & G & E1 & E2).
  set (g := Z.gcd (mnorm v1) (mnorm v2)) in *. set (k1 := (mnorm v1 / g)%Z) in *. set (k2 := (mnorm v2 / g)%Z) in *.
  assert (G' : Nat.gcd (Z.to_nat k1) (Z.to_nat k2) = 1%nat).
  { set (n1 := Z.to_nat k1). set (n2 := Z.to_nat k2). assert (X1 : k1 = Z.of_nat n1) by (unfold n1; lia). assert (X2 : k2 = Z.of_nat n2) by (unfold n2; lia).
    rewrite X1, X2 in G. enough (Z.gcd (Z.of_nat n1) (Z.of_nat n2) = Z.of_nat (Nat.gcd n1 n2)) by lia.
    destruct (Nat.gcd_divide n1 n2) as [[u Hu] [v Hv]].
    apply Z.gcd_unique; [lia| | |].
    - exists (Z.of_nat u). rewrite <- Nat2Z.inj_mul. congruence.
    - exists (Z.of_nat v). rewrite <- Nat2Z.inj_mul. congruence.
    - intros q Hq1 Hq2. pose proof (Z.gcd_greatest _ _ _ Hq1 Hq2) as Hq. rewrite G in Hq. destruct Hq as [r Hr]. exists (r * Z.of_nat (Nat.gcd n1 n2))%Z.
      transitivity (Z.of_nat (Nat.gcd n1 n2) * (r * q))%Z; [rewrite <- Hr; ring|ring]. }
  rewrite Z2Nat.id by lia.
  destruct (f1sol_spec K (Z.to_nat k1) (Z.to_nat k2) (emon (mdivz v2 k2))) as (f & Ef & _); [lia|lia|exact G'|]. rewrite Ef. eauto.
Qed.
Lemma circ_total m1 m2 : mdeg m1 = mdeg m2 -> okk (solve_circumscribing (K := K) m1 m2).
Proof.
  intro D. unfold solve_circumscribing, is_circumscribing. rewrite D, Z.eqb_refl. cbn [negb]. unfold okk.
  destruct (find _ (mcycle m2)) as [p|]; [destruct (local_ineq m1 p (mnext m1)) as [[[s x] y]|]; [eauto|]|];
    (destruct (find _ (mcycle m1)) as [q|]; [|eauto]; destruct (local_ineq q m2 (mnext m2)) as [[[s x] y]|]; [eauto|]; destruct (local_ineq q (mnext m2) m2) as [[[s x] y]|]; eauto).
Qed.
Lemma loop_total {T} (body : T -> res (option (option (ex K)))) l rest : (forall t, In t l -> okk (body t)) -> okk rest -> okk (loop body l rest).
Proof.
  intros Hb Hr. induction l as [|t l IH]; [exact Hr|]. cbn [loop]. destruct (Hb t (or_introl eq_refl)) as [o ->]. destruct o as [o|]; [exists o; reflexivity|].
  apply IH. intros t' Ht. apply Hb. right. exact Ht.
Qed.
Lemma spiral1_total m1 m2 : mdeg m1 = mdeg m2 -> okk (solve_spiral1 (K := K) m1 m2).
Proof.
  intro D. unfold solve_spiral1. apply loop_total; [|apply loop_total; [|apply loop_total; [|exists None; reflexivity]]].
  - intros p1 I1. pose proof (mcycle_deg _ _ I1) as D1. unfold spiral1_a. destruct (integer_intersection _ _ _ _) as [p|] eqn:E; [|exists None; reflexivity].
    destruct (intersection_on m1 p1 (mnext m1) (mnext (mnext m1)) p) as (Dp & C1 & _); [congruence|rewrite ?mdeg_next; reflexivity..|exact E|].
    destruct (_ <? _)%Z; [|exists None; reflexivity]. destruct (circ_total m1 p) as [o ->]; [congruence|].
    destruct (local_ineq m1 p1 p) as [[[s x] y]|], o; eexists; reflexivity.
  - intros [p1 p2] I. apply in_perms2 in I. destruct I as [I1 I2]. unfold spiral1_b. pose proof (mcycle_deg _ _ I1) as D1. pose proof (mcycle_deg _ _ I2) as D2.
    destruct (integer_intersection _ _ _ _) as [p|] eqn:E; [|exists None; reflexivity].
    destruct (intersection_on m1 p1 (mnext m1) p2 p) as (Dp & C1 & _); [congruence|rewrite ?mdeg_next; reflexivity|congruence|exact E|].
    assert (Cc : col m1 p1 p) by (apply collinear_col; [congruence|congruence|exact C1]).
    destruct (Z.ltb_spec 0 (mdot (msub m1 p1) (msub p1 p))) as [X|X].
    + destruct (local_total m1 p1 p Cc) as (s & x & y & ->).
      { revert X. unfold mdot, msub, mx, my, mz. cbn [fst snd]. lia. }
      destruct (is_center p).
      * destruct (solve_center m1 p); eexists; reflexivity.
      * destruct (circ_total m1 p) as [[o|] ->]; [congruence| |]; eexists; reflexivity.
    + destruct (circ_total m1 p) as [o ->]; [congruence|]. destruct (circ_total p p1) as [o' ->]; [congruence|]. destruct o, o'; eexists; reflexivity.
  - intros [p1 p2] I. apply in_combs2 in I. destruct I as [I1 I2]. unfold spiral1_c. pose proof (mcycle_deg _ _ I1) as D1. pose proof (mcycle_deg _ _ I2) as D2.
    destruct (integer_intersection _ _ _ _) as [p|] eqn:E; [|exists None; reflexivity].
    destruct (intersection_on m1 (mnext m1) p1 p2 p) as (Dp & C1 & _); [rewrite ?mdeg_next; reflexivity|congruence|congruence|exact E|].
    destruct (_ <? _)%Z; [|exists None; reflexivity]. destruct (circ_total p p1) as [o ->]; [congruence|].
    destruct (local_ineq m1 p (mnext m1)) as [[[s x] y]|], o; eexists; reflexivity.
Qed.

(** ** One call *)
Lemma step_rec f m1 m2 : mdeg m1 = mdeg m2 -> (0 < mdeg m2)%Z ->
  (forall v, v = tgt (mstd m1) (mmin m2) -> v <> m2 -> rshift (mstd m1) v = Ok true -> rshift v m2 = Ok true -> okk (solve f (mstd m1) v) /\ okk (solve f v m2)) ->
  okk (solve (S f) m1 m2).
Proof.
  intros D T H. cbn [amgm_solve]. destruct (solve_center m1 m2) as [s|]; [eexists; reflexivity|].
  destruct (circ_total m1 m2 D) as [[o|] ->]; [eexists; reflexivity|]. destruct (spiral1_total m1 m2 D) as [[o|] ->]; [eexists; reflexivity|].
  unfold solve_spiral2. rewrite target_tgt. set (v := tgt _ _) in *. pose proof (tgt_deg (mstd m1) (mmin m2)) as Dv. fold v in Dv.
  pose proof (mcycle_deg _ _ (mstd_cycle m1)) as Dn.
  destruct (_ && _)%bool eqn:B; [|eexists; reflexivity]. apply andb_prop in B. destruct B as [_ B]. apply negb_true_iff in B.
  destruct (rshift_total (mstd m1) v) as [[] R1]; [congruence|rewrite Dn, D; exact T| |]; rewrite R1; [|eexists; reflexivity].
  destruct (rshift_total v m2) as [[] R2]; [congruence|rewrite Dv, Dn, D; exact T| |]; rewrite R2; [|eexists; reflexivity].
  destruct (H v eq_refl) as [[o1 ->] [o2 ->]]; [|exact R1|exact R2|destruct o1, o2; eexists; reflexivity].
  intro E. apply meq_spec in E. congruence.
Qed.
Lemma step_stop f m1 m2 : mdeg m1 = mdeg m2 -> (0 < mdeg m2)%Z -> tgt (mstd m1) (mmin m2) = m2 -> okk (solve (S f) m1 m2).
Proof. intros D T E. apply step_rec; try assumption. intros v -> N. contradiction. Qed.
Lemma step_circ f m1 m2 s : solve_circumscribing (K := K) m1 m2 = Ok (Some s) -> okk (solve (S f) m1 m2).
Proof. intros E. cbn [amgm_solve]. destruct (solve_center m1 m2); [eexists; reflexivity|]. rewrite E. eexists. reflexivity. Qed.
(** from the flat monomial to one on its edges *)
Lemma step_edge f m2 t : t = (mdeg m2 - 2 * mmin m2)%Z -> ~ In m2 (mcycle (t, mmin m2, mmin m2)) -> okk (solve (S f) (t, mmin m2, mmin m2) m2).
Proof.
  intros Et N. destruct (mmin_spec m2) as [(L1 & L2 & L3) L]. set (d := mmin m2) in *. clearbody d.
  enough (exists s, solve_circumscribing (K := K) (t, d, d) m2 = Ok (Some s)) as [s Hs] by exact (step_circ f _ _ s Hs).
  unfold solve_circumscribing, is_circumscribing. assert (Dt : mdeg (t, d, d) = mdeg m2) by (unfold mdeg at 1, mx, my, mz; cbn [fst snd]; lia).
  rewrite Dt, Z.eqb_refl. cbn [negb]. change (mnext (t, d, d)) with (d, d, t).
  assert (Hin : forall p, In p (mcycle m2) -> (d <= mx p /\ d <= my p /\ d <= mz p /\ mdeg p = mdeg m2)%Z).
  { intros p I. rewrite (mcycle_deg _ _ I). destruct I as [<- |[<- |[<- |[]]]]; unfold mnext, mx, my, mz in *; cbn [fst snd]; lia. }
  assert (Hc : forall p, In p (mcycle m2) -> ~ In p (mcycle (t, d, d))).
  { intros p I J. apply N. apply mcycle_trans in I. destruct J as [<- |[<- |[<- |[]]]]; destruct I as [<- |[<- |[<- |[]]]]; unfold mcycle, mnext, mx, my, mz; cbn [fst snd In]; tauto. }
  assert (T3 : (d < t)%Z).
  { destruct (Z.lt_ge_cases d t) as [|G]; [assumption|exfalso]. apply N. apply in_cycle. left. unfold mdeg in Et. unfold mx, my, mz in *. cbn [fst snd]. lia. }
  assert (Ex : exists p, In p (mcycle m2) /\ my p = d).
  { destruct L as [L|[L|L]]; [exists (mnext (mnext m2))|exists m2|exists (mnext m2)]; (split; [unfold mcycle; cbn [In]; tauto|]); symmetry; exact L. }
  destruct (find (fun p => is_collinear (t, d, d) p (d, d, t)) (mcycle m2)) as [p|] eqn:F.
  - apply find_some in F. destruct F as [I Hp]. unfold is_collinear in Hp. apply Z.eqb_eq in Hp. change (mx (t, d, d)) with t in Hp. change (my (t, d, d)) with d in Hp. change (mx (d, d, t)) with d in Hp. change (my (d, d, t)) with d in Hp.
    assert (Yp : my p = d) by nia. destruct (Hin p I) as (P1 & P2 & P3 & P4). specialize (Hc p I).
    assert (X1 : mx p <> d). { intro E. apply Hc, in_cycle. right. left. unfold mdeg in P4, Et. unfold mx, my, mz in *. cbn [fst snd]. lia. }
    assert (X3 : mz p <> d). { intro E. apply Hc, in_cycle. left. unfold mdeg in P4, Et. unfold mx, my, mz in *. cbn [fst snd]. lia. }
    assert (Ez : mz p = (t + d - mx p)%Z) by (unfold mdeg in *; lia). destruct p as [[e g] h].
    change (mx (e, g, h)) with e in *. change (my (e, g, h)) with g in *. change (mz (e, g, h)) with h in *. subst g h.
    destruct (local_total (t, d, d) (e, d, t + d - e)%Z (d, d, t)) as (s & x & y & Hs).
    + unfold col, par, msub, mx, my, mz. cbn [fst snd]. repeat split; ring.
    + unfold mdot, msub, mx, my, mz. cbn [fst snd].
      match goal with |- (0 < ?q)%Z => replace q with (2 * ((e - d) * (t - e)))%Z by ring end.
      assert (0 < (e - d) * (t - e))%Z by nia. lia.
    + rewrite Hs. eexists. reflexivity.
  - exfalso. destruct Ex as (p & I & Yp). apply (find_none _ _ F) in I. unfold is_collinear in I. apply Z.eqb_neq in I. apply I.
    rewrite Yp. unfold mx at 1 3, my. cbn [fst snd]. ring.
Qed.

Ltac proj := unfold mx, my, mz; cbn [fst snd].
Ltac projin H := unfold mx, my, mz in H; cbn [fst snd] in H.
(** the first recursive call: from n to its target *)
Lemma first_call f n d : mstd n = n -> (0 < mdeg n)%Z -> (3 * d <= mdeg n)%Z -> okk (solve (S (S f)) n (tgt n d)).
Proof.
  intros En T H3. pose proof (mstd_max n) as [X1 X2]. rewrite En in X1, X2. pose proof (tgt_deg n d) as Dv.
  destruct n as [[x y] z]. change (mx (x, y, z)) with x in *. change (my (x, y, z)) with y in *. change (mz (x, y, z)) with z in *.
  assert (ET : mdeg (x, y, z) = (x + y + z)%Z) by reflexivity.
  destruct (Z.lt_ge_cases z y) as [Hzy|Hzy].
  - assert (Tg : forall e, tgt (x, y, z) e = (x + z - e, y, e)%Z) by (intro e; unfold tgt; proj; destruct (Z.ltb_spec z y); [reflexivity|lia]).
    rewrite Tg in *. set (p := (x + z - d)%Z) in *. set (v := (p, y, d)) in *.
    assert (Mv : mmin v = Z.min (Z.min p y) d) by reflexivity.
    destruct (Z.lt_ge_cases y d) as [Hy|Hy].
    + assert (Em : mmin v = y) by lia.
      apply step_rec; [congruence|lia|]. rewrite En, Em, Tg. intros u Eu N R1 R2.
      assert (Fu : u = (mdeg v - 2 * mmin v, mmin v, mmin v)%Z) by (rewrite Eu, Em; f_equal; f_equal; lia).
      assert (Mu : mmin u = y) by (rewrite Eu; unfold mmin; proj; lia).
      split.
      * apply step_stop; [exact (rshift_deg _ _ _ R1)|rewrite <- (rshift_deg _ _ _ R1); exact T|]. rewrite En, Mu, Tg. symmetry. exact Eu.
      * rewrite Fu. apply step_edge; [reflexivity|]. rewrite Em. unfold v.
        intros [H|[H|[H|[]]]]; unfold mnext in H; projin H; apply pair_equal_spec in H; destruct H as [H H']; apply pair_equal_spec in H; lia.
    + destruct (Z.lt_ge_cases p d) as [Hp|Hp].
      * assert (Em : mmin v = p) by lia. apply step_rec; [congruence|lia|]. rewrite En, Em, Tg. intros u Eu N R1 R2. exfalso.
        assert (Fu : u = (d, y, p)) by (rewrite Eu; f_equal; f_equal; unfold p; lia).
        assert (I : In v (mcycle u)).
        { apply (unique_min u v p); [apply rshift_hull; [rewrite (rshift_deg _ _ _ R2); lia|exact R2]| |].
          - right. right. rewrite Fu. proj. lia.
          - left. unfold v. proj. lia. }
        rewrite Fu in I. unfold v in I. destruct I as [H|[H|[H|[]]]]; unfold mnext in H; projin H; apply pair_equal_spec in H; destruct H as [H H']; apply pair_equal_spec in H; lia.
      * apply step_stop; [congruence|lia|]. assert (Em : mmin v = d) by lia. rewrite En, Em, Tg. reflexivity.
  - assert (Tg : forall e, tgt (x, y, z) e = (x + y - e, e, z)%Z) by (intro e; unfold tgt; proj; destruct (Z.ltb_spec z y); [lia|reflexivity]).
    rewrite Tg in *. set (p := (x + y - d)%Z) in *. set (v := (p, d, z)) in *.
    assert (Mv : mmin v = Z.min (Z.min p d) z) by reflexivity.
    destruct (Z.lt_ge_cases z d) as [Hy|Hy].
    + assert (Em : mmin v = z) by lia.
      apply step_rec; [congruence|lia|]. rewrite En, Em, Tg. intros u Eu N R1 R2.
      assert (Fu : u = (mdeg v - 2 * mmin v, mmin v, mmin v)%Z) by (rewrite Eu, Em; f_equal; f_equal; lia).
      assert (Mu : mmin u = z) by (rewrite Eu; unfold mmin; proj; lia).
      split.
      * apply step_stop; [exact (rshift_deg _ _ _ R1)|rewrite <- (rshift_deg _ _ _ R1); exact T|]. rewrite En, Mu, Tg. symmetry. exact Eu.
      * rewrite Fu. apply step_edge; [reflexivity|]. rewrite Em. unfold v.
        intros [H|[H|[H|[]]]]; unfold mnext in H; projin H; apply pair_equal_spec in H; destruct H as [H H']; apply pair_equal_spec in H; lia.
    + destruct (Z.lt_ge_cases p d) as [Hp|Hp].
      * assert (Em : mmin v = p) by lia. apply step_rec; [congruence|lia|]. rewrite En, Em, Tg. intros u Eu N R1 R2. exfalso.
        assert (Fu : u = (d, p, z)) by (rewrite Eu; f_equal; f_equal; unfold p; lia).
        assert (I : In v (mcycle u)).
        { apply (unique_min u v p); [apply rshift_hull; [rewrite (rshift_deg _ _ _ R2); lia|exact R2]| |].
          - right. left. rewrite Fu. proj. lia.
          - left. unfold v. proj. lia. }
        rewrite Fu in I. unfold v in I. destruct I as [H|[H|[H|[]]]]; unfold mnext in H; projin H; apply pair_equal_spec in H; destruct H as [H H']; apply pair_equal_spec in H; lia.
      * apply step_stop; [congruence|lia|]. assert (Em : mmin v = d) by lia. rewrite En, Em, Tg. reflexivity.
Qed.
(** the second: from a monomial with an exponent equal to the least one of m2 *)
Lemma second_call f v m2 : mstd m2 = m2 -> (0 < mdeg m2)%Z -> rshift v m2 = Ok true ->
  mx v = mmin m2 \/ my v = mmin m2 \/ mz v = mmin m2 -> okk (solve (S (S f)) v m2).
Proof.
  intros E2 T R Hv. pose proof (rshift_deg _ _ _ R) as Dv. assert (Hh : hull v m2) by (apply rshift_hull; [lia|exact R]).
  destruct (mmin_spec m2) as [(L1 & L2 & L3) L]. set (d := mmin m2) in *.
  set (t := (mdeg m2 - 2 * d)%Z). assert (Ht : (d <= t)%Z) by (unfold t, mdeg; lia).
  set (u := (t, d, d)). assert (Eu : mstd u = u) by (apply mstd_flat, Ht). assert (Mu : mmin u = d) by (unfold u, mmin; proj; lia).
  assert (Du : mdeg u = mdeg m2) by (unfold u, mdeg at 1; proj; unfold t; lia).
  (* when the target is u *)
  assert (Go : tgt (mstd v) d = u -> okk (solve (S (S f)) v m2)).
  { intro Tg. apply step_rec; [exact Dv|exact T|]. fold d. rewrite Tg. intros w -> N R1 R2. split.
    - apply step_stop; [rewrite (mcycle_deg _ _ (mstd_cycle v)); congruence|rewrite Du; exact T|]. rewrite mstd_idem, Mu. exact Tg.
    - apply step_edge; [reflexivity|]. intro I. apply mstd_cyc in I. rewrite E2 in I. apply N. rewrite I. symmetry. exact Eu. }
  (* when v is a rotation of m2 *)
  assert (Rot : In m2 (mcycle v) -> okk (solve (S (S f)) v m2)).
  { intro I. apply step_stop; [exact Dv|exact T|]. rewrite <- (mstd_cyc _ _ I), E2. apply tgt_std, E2. }
  assert (Fl : In v (mcycle u) -> okk (solve (S (S f)) v m2)) by (intro I; apply Go; rewrite (mstd_cyc _ _ I), Eu; apply tgt_flat).
  assert (Hm : (mx m2 <= d \/ my m2 <= d \/ mz m2 <= d)%Z) by lia.
  assert (Dt : (mx v + my v + mz v = t + 2 * d)%Z) by (unfold t; unfold mdeg at 1 in Dv; lia).
  (* rotate so that the exponent d is the last *)
  assert (Gen : forall p q, In v (mcycle (p, q, d)) -> (p + q = t + d)%Z -> okk (solve (S (S f)) v m2)).
  { intros p q I Hpq. pose proof (mstd_cyc _ _ I) as Sv.
    assert (Hin : (p < d)%Z \/ (q < d)%Z \/ (p = d \/ q = d) \/ (d < p /\ d < q)%Z) by lia.
    destruct Hin as [Hp|[Hq|[He|[Hp Hq]]]].
    - apply Go. rewrite Sv. assert (Es : mstd (p, q, d) = (q, d, p)). { rewrite <- mstd_next. unfold mnext. proj. apply mstd_strict; lia. }
      rewrite Es. unfold tgt. proj. destruct (Z.ltb_spec p d); [|lia]. unfold u. f_equal. f_equal. lia.
    - apply Go. rewrite Sv. rewrite mstd_strict by lia. unfold tgt. proj. destruct (Z.ltb_spec d q); [lia|]. unfold u. f_equal. f_equal. lia.
    - apply Fl. assert (J : In (p, q, d) (mcycle u)).
      { destruct He as [-> | ->]; [replace q with t by lia|replace p with t by lia]; unfold u, mcycle, mnext; proj; cbn [In]; tauto. }
      destruct J as [J|[J|[J|[]]]]; rewrite <- J in I; unfold mcycle, mnext in *; projin I; proj; cbn [In] in *; intuition congruence.
    - apply Rot. apply (unique_min v m2 d Hh); [|exact Hm].
      destruct I as [<- |[<- |[<- |[]]]]; unfold mnext; proj; lia. }
  destruct v as [[x y] z]. projin Hv. projin Dt. destruct Hv as [H|[H|H]].
  - apply (Gen y z); [|lia]. rewrite <- H. unfold mcycle, mnext. proj. cbn [In]. tauto.
  - apply (Gen z x); [|lia]. rewrite <- H. unfold mcycle, mnext. proj. cbn [In]. tauto.
  - apply (Gen x y); [|lia]. rewrite <- H. left. reflexivity.
Qed.
Theorem amgm_solve_total f m1 m2 : mdeg m1 = mdeg m2 -> (0 < mdeg m2)%Z -> mstd m2 = m2 -> okk (solve (S (S (S f))) m1 m2).
Proof.
  intros D T E2. apply step_rec; [exact D|exact T|]. intros v -> N R1 R2.
  pose proof (mcycle_deg _ _ (mstd_cycle m1)) as Dn. split.
  - apply first_call; [apply mstd_idem|lia|]. rewrite Dn, D. pose proof (mmin_spec m2). unfold mdeg. lia.
  - apply second_call; [exact E2|exact T|exact R2|]. unfold tgt. destruct (mz (mstd m1) <? my (mstd m1))%Z; proj; tauto.
Qed.
Theorem amgm3_total f c1 m1 c2 m2 : mdeg m1 = mdeg m2 -> (0 < mdeg m2)%Z -> mstd m1 = m1 -> mstd m2 = m2 -> okk (amgm3 (K := K) (S (S (S f))) c1 m1 c2 m2).
Proof.
  intros D T E1 E2. unfold amgm3.
  assert (M : forall c1 m1 c2 m2, mdeg m1 = mdeg m2 -> (0 < mdeg m2)%Z -> mstd m2 = m2 -> okk (amgm_main (K := K) (S (S (S f))) c1 m1 c2 m2)).
  { clear. intros c1 m1 c2 m2 D T E. unfold amgm_main. destruct (amgm_solve_total f m1 m2 D T E) as [[o|] ->]; eexists; reflexivity. }
  destruct (_ && _)%bool; [eexists; reflexivity|]. destruct (_ && _)%bool; [eexists; reflexivity|]. destruct (fleb 0 (c1 + c2)%F); [|eexists; reflexivity].
  destruct (rshift_total m2 m1) as [b1 R1]; [congruence|exact T|]. destruct (rshift_total m1 m2) as [b2 R2]; [congruence|rewrite D; exact T|]. rewrite R1, R2.
  destruct (fleb 0 c2), b1, (fleb 0 c1), b2; try (eexists; reflexivity); apply M; try assumption; congruence || (rewrite D; exact T).
Qed.
Theorem sparse_amgm_total f swap (p : poly K) d : homdeg d p -> (0 < d)%nat -> wf 3 p -> okk (sparse_amgm (S (S (S f))) swap p).
Proof.
  intros Hd Pd [Hn Hl]. unfold sparse_amgm. destruct (Nat.ltb 6 (length p)); [eexists; reflexivity|].
  set (L := mdedup (map (fun m => mstd (key3 m)) (keys p))).
  assert (HL : forall m, In m L -> mstd m = m /\ mdeg m = Z.of_nat d).
  { intros m Hm. unfold L in Hm. rewrite mdedup_in, in_map_iff in Hm. destruct Hm as [k [<- Hk]]. split; [apply mstd_idem|]. rewrite (mcycle_deg _ _ (mstd_cycle _)).
    pose proof (Hl k Hk) as Lk. pose proof (Hd k Hk) as Dk. destruct k as [|i [|j [|l [|]]]]; try discriminate. unfold key3, mdeg. proj. cbn [nth]. cbn [list_sum fold_right] in Dk. lia. }
  assert (HP : L <> [] -> coeff_degree p = d).
  { intro N. destruct p as [|[k c] p]; [exfalso; apply N; reflexivity|]. unfold coeff_degree. cbn [map fst]. apply Hd. left. reflexivity. }
  clearbody L. destruct L as [|m1 [|m2 [|m3 L]]]; try (eexists; reflexivity).
  - destruct (HL m1 (or_introl eq_refl)) as [E1 D1]. rewrite HP by discriminate.
    assert (E2 : mstd (Z.of_nat d, 0, 0)%Z = (Z.of_nat d, 0, 0)%Z) by (apply mstd_strict; lia).
    assert (D2 : mdeg (Z.of_nat d, 0, 0)%Z = Z.of_nat d) by (unfold mdeg; proj; lia).
    destruct swap; apply amgm3_total; try assumption; lia.
  - destruct (HL m1 (or_introl eq_refl)) as [E1 D1]. destruct (HL m2 (or_intror (or_introl eq_refl))) as [E2 D2].
    destruct swap; apply amgm3_total; try assumption; lia.
Qed.
End Total.

(** ** Answers in terms of values *)
Section Answers.
Variable K : OrdField.
Local Open Scope of_scope.
Lemma certified_answer (p : poly K) d e : wf 3 p -> homdeg d p -> certifies K e (fun A B C => peval (pt3 A B C) p) ->
  (forall A B C, A <> 0 -> B <> 0 -> C <> 0 -> defined (pt3 A B C) e -> ev (pt3 A B C) e = peval (pt3 A B C) p) /\
  (forall A B C, 0 < A -> 0 < B -> 0 < C -> defined (pt3 A B C) e) /\
  (forall A B C, 0 <= A -> 0 <= B -> 0 <= C -> defined (pt3 A B C) e -> 0 <= ev (pt3 A B C) e) /\
  (forall A B C, 0 <= A -> 0 <= B -> 0 <= C -> 0 <= peval (pt3 A B C) p).
Proof.
  intros W Hd Hc. pose proof Hc as (_ & Hm & Hv & Hdef). split; [|split; [|split]].
  - intros A B C HA HB HC D. apply Hv; [repeat split; assumption|exact D].
  - exact Hdef.
  - intros A B C HA HB HC D. apply (manifest_nonneg true); [|exact D|exact Hm]. intros _. apply pt3_nonneg; assumption.
  - exact (certified_orthant K p d e W Hd Hc).
Qed.
Lemma amgm_answer fuel swap (p : poly K) d e :
  wf 3 p -> homdeg d p -> is_cyclic 3 [[1; 2; 0]]%nat p = true -> ~ pure_power K p -> sparse_amgm fuel swap p = Ok (Some e) ->
  (forall A B C, A <> 0 -> B <> 0 -> C <> 0 -> defined (pt3 A B C) e -> ev (pt3 A B C) e = peval (pt3 A B C) p) /\
  (forall A B C, 0 < A -> 0 < B -> 0 < C -> defined (pt3 A B C) e) /\
  (forall A B C, 0 <= A -> 0 <= B -> 0 <= C -> defined (pt3 A B C) e -> 0 <= ev (pt3 A B C) e) /\
  (forall A B C, 0 <= A -> 0 <= B -> 0 <= C -> 0 <= peval (pt3 A B C) p).
Proof. intros W Hd Hc Hp H. apply (certified_answer p d e W Hd). apply (sparse_amgm_spec K fuel swap p e W (is_cyclic_poly K p W Hc) Hp H). Qed.
Lemma sparse_answer quad cubic quart fuel swap (p : poly K) d e :
  answer_ok K quad 2 -> answer_ok K cubic 3 -> answer_ok K quart 4 ->
  wf 3 p -> homdeg d p -> is_cyclic 3 [[1; 2; 0]]%nat p = true -> ~ ((4 < d)%nat /\ pure_power K p) ->
  sos_struct_sparse quad cubic quart fuel swap p = Ok (Some e) ->
  (forall A B C, A <> 0 -> B <> 0 -> C <> 0 -> defined (pt3 A B C) e -> ev (pt3 A B C) e = peval (pt3 A B C) p) /\
  (forall A B C, 0 < A -> 0 < B -> 0 < C -> defined (pt3 A B C) e) /\
  (forall A B C, 0 <= A -> 0 <= B -> 0 <= C -> defined (pt3 A B C) e -> 0 <= ev (pt3 A B C) e) /\
  (forall A B C, 0 <= A -> 0 <= B -> 0 <= C -> 0 <= peval (pt3 A B C) p).
Proof.
  intros Q2 Q3 Q4 W Hd Hc Hp H. apply (certified_answer p d e W Hd).
  apply (sos_struct_sparse_spec K quad cubic quart fuel swap p d e Q2 Q3 Q4 W Hd (is_cyclic_poly K p W Hc) Hp H).
Qed.
Lemma local_ineq_answer m1 p m2 :
  mdeg m1 = mdeg p -> mdeg p = mdeg m2 -> is_collinear m1 p m2 = true -> (0 < mdot (msub p m1) (msub m2 p))%Z ->
  exists (s : ex K) x y, local_ineq m1 p m2 = Some (s, x, y) /\ (0 < x)%nat /\ (0 < y)%nat /\
    (forall A B C, A <> 0 -> B <> 0 -> C <> 0 -> defined (pt3 A B C) s ->
       ev (pt3 A B C) s = fnat x * cval K A B C m1 - fnat (x + y) * cval K A B C p + fnat y * cval K A B C m2) /\
    (forall A B C, 0 < A -> 0 < B -> 0 < C -> defined (pt3 A B C) s /\ 0 <= ev (pt3 A B C) s).
Proof.
  intros D1 D2 Cl Dt. pose proof (collinear_col m1 p m2 D1 D2 Cl) as Cc. destruct (local_total K m1 p m2 Cc Dt) as (s & x & y & E). exists s, x, y.
  destruct (local_spec K m1 p m2 s x y Cc E) as (Hx & Hy & (_ & Hm & Hv & Hd)). split; [exact E|]. split; [exact Hx|]. split; [exact Hy|]. split.
  - intros A B C HA HB HC Df. apply Hv; [repeat split; assumption|exact Df].
  - intros A B C HA HB HC. pose proof (Hd A B C HA HB HC) as Df. split; [exact Df|]. apply (manifest_nonneg true); [|exact Df|exact Hm]. intros _. apply pt3_nonneg; apply flt_le; assumption.
Qed.
Lemma doubled_answer fuel swap (p : poly K) d :
  wf 3 p -> homdeg d p -> (0 < d)%nat -> is_cyclic 3 [[1; 2; 0]]%nat p = true -> pure_power K p -> p <> [] -> (length p <= 6)%nat ->
  0 <= coef p [d; 0; 0]%nat ->
  exists e, sparse_amgm fuel swap p = Ok (Some e) /\
    forall A B C, A <> 0 -> B <> 0 -> C <> 0 -> defined (pt3 A B C) e -> ev (pt3 A B C) e = 2 * peval (pt3 A B C) p.
Proof.
  intros W Hd Pd Hc Hp Ne Len Hv. pose proof (pure_power_spec K fuel swap p d W Hd Pd (is_cyclic_poly K p W Hc) Hp Ne Len) as S0.
  apply fleb_le in Hv. rewrite Hv in S0. destruct S0 as (e & E & (_ & _ & V & _)). exists e. split; [exact E|]. intros A B C HA HB HC D. apply V; [repeat split; assumption|exact D].
Qed.
End Answers.
