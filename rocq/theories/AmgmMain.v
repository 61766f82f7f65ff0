(** * The AM-GM solver on polynomials (lemmas for Amgm.v) *)
From Coq Require Import Bool List Arith Lia ZArith Ring Field Permutation.
From Verif Require Import OrdField Base Perm Poly PolyId PolyOps Coeff Expr CertLimit TriPoly Univariate.
From Verif Require Import DenseSym Amgm AmgmQuot AmgmFacts AmgmSolve.
From Verif Require Sparse.
Import ListNotations.

Section Orbits.
Local Open Scope Z_scope.
Lemma mlt_spec m n : mlt m n = true <-> mx m < mx n \/ mx m = mx n /\ (my m < my n \/ my m = my n /\ mz m < mz n).
Proof. unfold mlt. rewrite !orb_true_iff, !andb_true_iff, !orb_true_iff, !andb_true_iff, !Z.ltb_lt, !Z.eqb_eq. tauto. Qed.
Lemma mlt_false m n : mlt m n = false <-> ~ (mx m < mx n \/ mx m = mx n /\ (my m < my n \/ my m = my n /\ mz m < mz n)).
Proof. rewrite <- mlt_spec. destruct (mlt m n); split; intro H; try reflexivity; try discriminate; try intro; try discriminate. exfalso. apply H. reflexivity. Qed.
Lemma mnext3 m : mnext (mnext (mnext m)) = m.
Proof. destruct m as [[x y] z]. reflexivity. Qed.
Lemma mon3_ext m n : mx m = mx n -> my m = my n -> mz m = mz n -> m = n.
Proof. rewrite (mon3_eta m), (mon3_eta n). unfold mx, my, mz. cbn [fst snd]. intros -> -> ->. reflexivity. Qed.
(** the largest rotation is unique *)
Lemma mstd_next m : mstd (mnext m) = mstd m.
Proof.
  unfold mstd. rewrite mnext3. unfold mmax.
  destruct (mlt m (mnext m)) eqn:E1, (mlt (mnext m) (mnext (mnext m))) eqn:E2;
    [rewrite ?E1, ?E2|destruct (mlt (mnext m) m) eqn:E3|destruct (mlt (mnext (mnext m)) m) eqn:E3, (mlt m (mnext (mnext m))) eqn:E4|
     destruct (mlt (mnext m) m) eqn:E3, (mlt m (mnext (mnext m))) eqn:E4];
    repeat match goal with H : mlt _ _ = true |- _ => apply mlt_spec in H | H : mlt _ _ = false |- _ => apply mlt_false in H end.
  all: try (destruct (mlt (mnext (mnext m)) m) eqn:E5; [apply mlt_spec in E5|apply mlt_false in E5]).
  all: destruct m as [[x y] z]; unfold mnext, mx, my, mz in *; cbn [fst snd] in *; apply mon3_ext; unfold mx, my, mz; cbn [fst snd]; lia.
Qed.
Lemma mstd_cyc m p : In p (mcycle m) -> mstd p = mstd m.
Proof. intros [<- |[<- |[<- |[]]]]; rewrite ?mstd_next; reflexivity. Qed.
Lemma mstd_idem m : mstd (mstd m) = mstd m.
Proof. apply mstd_cyc, mstd_cycle. Qed.
Lemma mstd_std m n : mstd m = n -> In m (mcycle n).
Proof. intros <-. apply mcycle_trans, mstd_cycle. Qed.

(** the distinct rotations *)
Definition orbit (m : mon3) : list mon3 := if is_center m then [m] else mcycle m.
Lemma center_next m : is_center m = true -> mnext m = m.
Proof. unfold is_center. rewrite andb_true_iff, !Z.eqb_eq. intros [H1 H2]. apply mon3_ext; unfold mnext, mx, my, mz in *; cbn [fst snd] in *; congruence. Qed.
Lemma orbit_in m p : In p (orbit m) <-> In p (mcycle m).
Proof.
  unfold orbit. destruct (is_center m) eqn:E; [|reflexivity]. unfold mcycle. rewrite !center_next by (rewrite ?center_next; exact E). cbn [In]. tauto.
Qed.
Lemma orbit_nodup m : NoDup (orbit m).
Proof.
  unfold orbit. destruct (is_center m) eqn:E; [repeat constructor; intros []|].
  assert (N : ~ (mx m = my m /\ my m = mz m)) by (unfold is_center in E; rewrite <- !Z.eqb_eq, <- andb_true_iff, E; discriminate).
  unfold mcycle. destruct m as [[x y] z]. unfold mnext, mx, my, mz in *. cbn [fst snd] in *.
  repeat constructor; cbn [In]; intro H; repeat (destruct H as [H|H]; [apply pair_equal_spec in H; destruct H as [H1 H2]; apply pair_equal_spec in H1; lia|]); contradiction.
Qed.
Lemma orbit_disjoint m n p : mstd m <> mstd n -> In p (orbit m) -> ~ In p (orbit n).
Proof. rewrite !orbit_in. intros H H1 H2. apply H. rewrite <- (mstd_cyc _ _ H1), <- (mstd_cyc _ _ H2). reflexivity. Qed.

Definition nneg (m : mon3) : Prop := 0 <= mx m /\ 0 <= my m /\ 0 <= mz m.
Lemma nneg_cyc m p : In p (mcycle m) -> nneg m -> nneg p.
Proof. intros [<- |[<- |[<- |[]]]] (H1 & H2 & H3); unfold nneg, mnext, mx, my, mz in *; cbn [fst snd]; auto. Qed.
Lemma key_of_inj m n : nneg m -> nneg n -> key_of m = key_of n -> m = n.
Proof. unfold key_of, nneg. intros H1 H2 H. inversion H. apply mon3_ext; lia. Qed.
Lemma key3_nneg m : nneg (key3 m).
Proof. unfold nneg, key3, mx, my, mz. cbn [fst snd]. lia. Qed.
Lemma key_of_key3 m : length m = 3%nat -> key_of (key3 m) = m.
Proof.
  destruct m as [|i [|j [|k [|]]]]; try discriminate. intros _. unfold key_of, key3, mx, my, mz. cbn [nth fst snd]. rewrite !Nat2Z.id. reflexivity.
Qed.
Lemma mdedup_in l m : In m (mdedup l) <-> In m l.
Proof.
  induction l as [|n l IH]; [reflexivity|]. cbn [mdedup]. destruct (existsb (meq n) l) eqn:E.
  - rewrite IH. cbn [In]. split; [auto|]. intros [<- |H]; [|exact H]. apply existsb_exists in E. destruct E as [k [H1 H2]]. apply meq_spec in H2. subst k. exact H1.
  - cbn [In]. rewrite IH. reflexivity.
Qed.
Lemma mdedup_nodup l : NoDup (mdedup l).
Proof.
  induction l as [|n l IH]; [constructor|]. cbn [mdedup]. destruct (existsb (meq n) l) eqn:E; [exact IH|]. constructor; [|exact IH].
  rewrite mdedup_in. intro H. rewrite (proj2 (existsb_exists _ _)) in E; [discriminate|]. exists n. split; [exact H|]. apply meq_spec. reflexivity.
Qed.
End Orbits.

Section Main.
Variable K : OrdField.
Local Open Scope of_scope.
Add Field Kf : (F_field K).
Notation certifies := (certifies K).
Notation cval := (cval K).

(** ** Specification: a cyclic polynomial *)
Definition cyclic_poly (p : poly K) : Prop := forall i j k, coef p [i; j; k]%nat = coef p [j; k; i]%nat.
(** the only monomial is a power of one variable *)
Definition pure_power (p : poly K) : Prop := forall m, In m (keys p) -> exists d, In (key3 m) (mcycle (d, 0, 0)%Z).

Lemma meval_key A B C m : nneg m -> meval (pt3 A B C) (key_of m) = mval K A B C m.
Proof.
  intros (H1 & H2 & H3). unfold key_of, mval. rewrite !meval_cons, meval_nil. cbn [pt3].
  rewrite <- (Z2Nat.id (mx m) H1) at 2. rewrite <- (Z2Nat.id (my m) H2) at 2. rewrite <- (Z2Nat.id (mz m) H3) at 2. rewrite !zp_nat. ring.
Qed.
Lemma coef_cyc p m q : cyclic_poly p -> In q (mcycle m) -> coef p (key_of q) = coef p (key_of m).
Proof.
  intros H. destruct m as [[x y] z]. intros [<- |[<- |[<- |[]]]]; unfold key_of, mnext, mx, my, mz; cbn [fst snd]; [reflexivity|rewrite <- H; reflexivity|rewrite <- H, <- H; reflexivity].
Qed.
Lemma three_neq0 : (3 : K) <> 0.
Proof. apply flt_neq0. replace (3 : K) with (2 + 1 : K) by ring. apply fadd_pos; [apply f2_pos|apply f1_pos]. Qed.
Lemma mval_cyc A B C m : mval K A B C (mnext m) = mval K C A B m.
Proof. unfold mval, mnext, mx, my, mz. cbn [fst snd]. ring. Qed.
Lemma orbit_sum p m A B C : cyclic_poly p -> nneg m ->
  fsum (map (fun k => coef p k * meval (pt3 A B C) k) (map key_of (orbit m))) = getv p m * cval A B C m.
Proof.
  intros Hc Hm. rewrite map_map. rewrite (fsum_map_ext K _ (fun q => coef p (key_of m) * mval K A B C q)).
  2: { intros q Hq. apply orbit_in in Hq. rewrite (coef_cyc p m q Hc Hq), meval_key by (apply (nneg_cyc m); assumption). reflexivity. }
  unfold orbit, getv, AmgmFacts.cval. destruct (is_center m) eqn:E.
  - cbn [map]. change (fsum [?x]) with (x + 0). pose proof (center_next _ E) as N. rewrite <- (mval_cyc A B C m), <- (mval_cyc B C A m), N.
    assert (E2 : mval K B C A m = mval K A B C m) by (rewrite <- (mval_cyc B C A m), N; reflexivity). rewrite E2. field. apply three_neq0.
  - unfold mcycle. cbn [map fsum fold_right]. rewrite !mval_cyc. ring.
Qed.
Lemma two_orbits p m1 m2 A B C : wf 3 p -> cyclic_poly p -> nneg m1 -> nneg m2 -> mstd m1 <> mstd m2 ->
  (forall k, In k (keys p) -> mstd (key3 k) = mstd m1 \/ mstd (key3 k) = mstd m2) ->
  peval (pt3 A B C) p = getv p m1 * cval A B C m1 + getv p m2 * cval A B C m2.
Proof.
  intros [Hn Hl] Hc H1 H2 Hd Hk.
  assert (X : forall m q, nneg m -> In q (orbit m) -> nneg q) by (intros m q Hm Hq; apply orbit_in in Hq; exact (nneg_cyc m q Hq Hm)).
  rewrite (peval_over K (pt3 A B C) p (map key_of (orbit m1) ++ map key_of (orbit m2)) Hn).
  - rewrite map_app, fsum_app, !orbit_sum by assumption. reflexivity.
  - rewrite <- map_app.
    assert (Y : forall l, NoDup l -> (forall q, In q l -> nneg q) -> NoDup (map key_of l)).
    { induction l as [|q l IH]; intros N P; [constructor|]. cbn [map]. inversion N; subst. constructor.
      - intro I. apply in_map_iff in I. destruct I as [r [E I]]. apply key_of_inj in E; [subst r; contradiction|apply P; right; exact I|apply P; left; reflexivity].
      - apply IH; [assumption|]. intros r Hr. apply P. right. exact Hr. }
    apply Y.
    + assert (Z : forall l1 l2 : list mon3, NoDup l1 -> NoDup l2 -> (forall q, In q l1 -> ~ In q l2) -> NoDup (l1 ++ l2)).
      { induction l1 as [|q l1 IH]; intros l2 N1 N2 D; [exact N2|]. cbn [app]. inversion N1; subst. constructor.
        - rewrite in_app_iff. intros [I|I]; [contradiction|]. exact (D q (or_introl eq_refl) I).
        - apply IH; try assumption. intros r Hr. apply D. right. exact Hr. }
      apply Z; [apply orbit_nodup|apply orbit_nodup|]. intros q. apply orbit_disjoint, Hd.
    + intros q Hq. apply in_app_iff in Hq. destruct Hq as [Hq|Hq]; [apply (X m1)|apply (X m2)]; assumption.
  - intros k I. rewrite <- (key_of_key3 k (Hl k I)). rewrite <- map_app. apply in_map. apply in_app_iff. rewrite !orbit_in.
    assert (W : forall m, mstd (key3 k) = mstd m -> In (key3 k) (mcycle m)).
    { intros m E. pose proof (mstd_std _ _ E) as I1. pose proof (mstd_cycle m) as I2. apply mcycle_trans in I1. 
      destruct m as [[x y] z], (key3 k) as [[x' y'] z'].
      destruct I2 as [I2|[I2|[I2|[]]]]; destruct I1 as [I1|[I1|[I1|[]]]]; rewrite <- I1 in I2; unfold mcycle, mnext, mx, my, mz in *; cbn [fst snd In] in *;
        apply pair_equal_spec in I2; destruct I2 as [I2 I3]; apply pair_equal_spec in I2; destruct I2 as [I2 I4]; subst; tauto. }
    destruct (Hk k I) as [E|E]; [left|right]; apply W, E.
Qed.

(** the two monomials of [_sos_struct_sparse_amgm] *)
Lemma sparse_amgm_spec fuel swap p e : wf 3 p -> cyclic_poly p -> ~ pure_power p ->
  sparse_amgm fuel swap p = Ok (Some e) -> certifies e (fun A B C => peval (pt3 A B C) p).
Proof.
  intros W Hc Hp. unfold sparse_amgm. destruct (Nat.ltb 6 (length p)); [discriminate|].
  set (L := mdedup (map (fun m => mstd (key3 m)) (keys p))).
  assert (HL : forall m, In m L <-> exists k, In k (keys p) /\ mstd (key3 k) = m).
  { intro m. unfold L. rewrite mdedup_in, in_map_iff. split; intros [k [H1 H2]]; exists k; tauto. }
  assert (HN : NoDup L) by apply mdedup_nodup. clearbody L.
  assert (M : forall m1 m2, nneg m1 -> nneg m2 -> mstd m1 <> mstd m2 -> (forall k, In k (keys p) -> mstd (key3 k) = mstd m1 \/ mstd (key3 k) = mstd m2) ->
    (if swap then amgm3 fuel (getv p m2) m2 (getv p m1) m1 else amgm3 fuel (getv p m1) m1 (getv p m2) m2) = Ok (Some e) ->
    certifies e (fun A B C => peval (pt3 A B C) p)).
  { intros m1 m2 N1 N2 D Hk H. destruct swap; apply amgm3_spec in H; revert H; apply certifies_ext; intros A B C _;
      rewrite (two_orbits p m1 m2 A B C W Hc N1 N2 D Hk); ring. }
  assert (S1 : forall m, In m L -> mstd m = m /\ nneg m).
  { intros m Hm. apply HL in Hm. destruct Hm as [k [_ <-]]. split; [apply mstd_idem|]. apply (nneg_cyc (key3 k)); [apply mstd_cycle|apply key3_nneg]. }
  destruct L as [|m1 [|m2 [|m3 L]]]; try discriminate.
  - destruct (S1 m1 (or_introl eq_refl)) as [E1 N1]. apply M; [exact N1| | |].
    + unfold nneg, mx, my, mz. cbn [fst snd]. lia.
    + intro E. apply Hp. intros k Hk. exists (Z.of_nat (coeff_degree p)). set (d := Z.of_nat (coeff_degree p)) in *.
      assert (In (mstd (key3 k)) [m1]) as [I|[]] by (apply HL; exists k; auto).
      assert (E' : mstd (key3 k) = (d, 0, 0)%Z).
      { rewrite <- I, <- E1, E. unfold mstd, mmax, mlt, mnext, mx, my, mz. cbn [fst snd]. assert (0 <= d)%Z by (unfold d; lia).
        destruct (Z.ltb_spec d 0); [lia|]. destruct (Z.eqb_spec d 0) as [-> |]; [reflexivity|]. cbn. destruct (Z.ltb_spec d 0); [lia|]. destruct (Z.eqb_spec d 0); [lia|]. reflexivity. }
      apply mstd_std, E'.
    + intros k Hk. left. rewrite E1. assert (In (mstd (key3 k)) [m1]) as [I|[]] by (apply HL; exists k; auto). symmetry. exact I.
  - destruct (S1 m1 (or_introl eq_refl)) as [E1 N1]. destruct (S1 m2 (or_intror (or_introl eq_refl))) as [E2 N2]. apply M; [exact N1|exact N2| |].
    + rewrite E1, E2. intro E. inversion HN; subst. apply H1. left. reflexivity.
    + intros k Hk. rewrite E1, E2. assert (In (mstd (key3 k)) [m1; m2]) as [I|[I|[]]] by (apply HL; exists k; auto); [left|right]; symmetry; exact I.
Qed.

Lemma is_cyclic_poly p : wf 3 p -> is_cyclic 3 [[1; 2; 0]]%nat p = true -> cyclic_poly p.
Proof.
  intros W H i j k. unfold is_cyclic in H. cbn [Nat.eqb forallb length negb] in H. rewrite andb_true_r in H.
  assert (P : is_perm 3 [1; 2; 0]%nat). { unfold is_perm. cbn [seq]. apply (perm_trans (l' := [1; 0; 2]%nat)); [apply perm_skip, perm_swap|apply perm_swap]. }
  apply (proj1 (support_check K 3 _ p P W)) in H. symmetry. exact (H [i; j; k]%nat eq_refl).
Qed.

(** non-negativity on the whole orthant *)
Lemma certified_orthant p d e : wf 3 p -> homdeg d p -> certifies e (fun A B C => peval (pt3 A B C) p) ->
  forall A B C, 0 <= A -> 0 <= B -> 0 <= C -> 0 <= peval (pt3 A B C) p.
Proof.
  intros W Hd (_ & Hm & Hv & Hdef) A B C HA HB HC.
  rewrite (peval_tri K d p A B C W Hd).
  apply (nonneg_where_defined K e (fun x => tri_poly d (cfp p) (x 0%nat) (x 1%nat) (x 2%nat)) (pt3 1 1 1) (pt3 A B C)).
  - intros x y. apply tri_poly_poly.
  - intros x y E. rewrite !E. reflexivity.
  - apply Hdef; apply f1_pos.
  - intros t T0 T1 D.
    assert (P : forall X : K, 0 <= X -> 0 < X + t * (1 - X)).
    { intros X HX. replace (X + t * (1 - X)) with ((1 - t) * X + t) by ring. apply fadd_pos_r; [|exact T0]. apply fmul_nonneg; [|exact HX]. apply (proj1 (fle_sub _ _)) in T1. exact T1. }
    set (X := seg K (pt3 A B C) (pt3 1 1 1) t 0) in *. set (Y := seg K (pt3 A B C) (pt3 1 1 1) t 1) in *. set (Z := seg K (pt3 A B C) (pt3 1 1 1) t 2) in *.
    assert (PX : 0 < X) by (apply P, HA). assert (PY : 0 < Y) by (apply P, HB). assert (PZ : 0 < Z) by (apply P, HC).
    rewrite <- (peval_tri K d p X Y Z W Hd). rewrite <- (Hv X Y Z).
    + apply (manifest_nonneg true); [|apply Hdef; assumption|exact Hm]. intros _. apply pt3_nonneg; apply flt_le; assumption.
    + repeat split; apply flt_neq0; assumption.
    + apply Hdef; assumption.
Qed.

(** ** A single power is doubled *)
Lemma pure_power_spec fuel swap p d : wf 3 p -> homdeg d p -> (0 < d)%nat -> cyclic_poly p -> pure_power p -> p <> [] -> (length p <= 6)%nat ->
  if 0 <=? coef p [d; 0; 0]%nat
  then exists e, sparse_amgm fuel swap p = Ok (Some e) /\ certifies e (fun A B C => 2 * peval (pt3 A B C) p)
  else sparse_amgm fuel swap p = Ok None.
Proof.
  intros W Hd Pd Hc Hp Ne Len. unfold sparse_amgm. destruct (Nat.ltb_spec 6 (length p)); [lia|]. set (D := Z.of_nat d).
  assert (Hk : forall k, In k (keys p) -> mstd (key3 k) = (D, 0, 0)%Z).
  { intros k Ik. destruct (Hp k Ik) as [e I]. pose proof (mcycle_deg _ _ I) as Dg. rewrite (mstd_cyc _ _ I).
    pose proof (proj2 W k Ik) as Lk. pose proof (Hd k Ik) as Dk. destruct k as [|i [|j [|l [|]]]]; try discriminate. cbn [list_sum fold_right] in Dk.
    unfold mdeg, key3, mx, my, mz in Dg. cbn [fst snd nth] in Dg. assert (e = D) by (unfold D; lia). subst e.
    unfold mstd, mmax, mlt, mnext, mx, my, mz. cbn [fst snd]. assert (0 < D)%Z by (unfold D; lia).
    destruct (Z.ltb_spec D 0); [lia|]. destruct (Z.eqb_spec D 0); [lia|]. cbn. destruct (Z.ltb_spec D 0); [lia|]. destruct (Z.eqb_spec D 0); [lia|]. reflexivity. }
  assert (HL : mdedup (map (fun m => mstd (key3 m)) (keys p)) = [(D, 0, 0)%Z]).
  { assert (X : forall m, In m (mdedup (map (fun m => mstd (key3 m)) (keys p))) -> m = (D, 0, 0)%Z).
    { intros m I. rewrite mdedup_in, in_map_iff in I. destruct I as [k [<- I]]. apply Hk, I. }
    pose proof (mdedup_nodup (map (fun m => mstd (key3 m)) (keys p))) as N.
    assert (Y : In (D, 0, 0)%Z (mdedup (map (fun m => mstd (key3 m)) (keys p)))).
    { destruct p as [|[k c] p]; [contradiction|]. rewrite mdedup_in. apply in_map_iff. exists k. split; [apply Hk|]; left; reflexivity. }
    destruct (mdedup _) as [|x [|y l]]; [destruct Y|rewrite (X x) by (left; reflexivity); reflexivity|].
    exfalso. inversion N; subst. apply H2. left. rewrite (X x), (X y); [reflexivity|right; left; reflexivity|left; reflexivity]. }
  rewrite HL. assert (Cd : coeff_degree p = d) by (destruct p as [|[k c] p]; [contradiction|]; apply Hd; left; reflexivity). rewrite Cd. fold D.
  assert (Ev : getv p (D, 0, 0)%Z = coef p [d; 0; 0]%nat).
  { unfold getv, is_center, key_of, mx, my, mz. cbn [fst snd]. destruct (Z.eqb_spec D 0); [unfold D in *; lia|]. cbn [andb]. unfold D. rewrite Nat2Z.id. reflexivity. }
  rewrite Ev. set (v := coef p [d; 0; 0]%nat) in *.
  assert (Vp : forall A B C, peval (pt3 A B C) p = v * cval A B C (D, 0, 0)%Z).
  { intros A B C. rewrite <- Ev.
    rewrite (two_orbits p (D, 0, 0)%Z (D + 1, 0, 0)%Z A B C W Hc).
    - assert (E0 : getv p (D + 1, 0, 0)%Z = 0).
      { unfold getv, is_center, key_of, mx, my, mz. cbn [fst snd]. destruct (Z.eqb_spec (D + 1) 0); [unfold D in *; lia|]. cbn [andb]. apply coef_notin. intro I.
        apply Hd in I. cbn [list_sum fold_right] in I. unfold D in I. lia. }
      rewrite E0. ring.
    - unfold nneg, mx, my, mz. cbn [fst snd]. unfold D. lia.
    - unfold nneg, mx, my, mz. cbn [fst snd]. unfold D. lia.
    - intro E. assert (Z1 : mdeg (mstd (D, 0, 0)%Z) = mdeg (mstd (D + 1, 0, 0)%Z)) by (rewrite E; reflexivity).
      rewrite !(mcycle_deg _ _ (mstd_cycle _)) in Z1. unfold mdeg, mx, my, mz in Z1. cbn [fst snd] in Z1. lia.
    - intros k I. left. rewrite (Hk k I). rewrite <- (Hk k I). rewrite mstd_idem. reflexivity. }
  assert (Sw : forall r : res (option (ex K)), (if swap then r else r) = r) by (intro r; destruct swap; reflexivity). rewrite Sw.
  unfold amgm3. destruct (0 <=? v) eqn:Pv; cbn [andb].
  - eexists. split; [reflexivity|]. apply fleb_le in Pv.
    eapply certifies_ext; [|apply certifies_add; apply certifies_scale; [exact Pv|apply certifies_cmon|exact Pv|apply certifies_cmon]].
    intros A B C _. cbv beta. rewrite Vp. ring.
  - assert (X : v <? 0 = true) by (apply fltb_lt; exact Pv). rewrite X. reflexivity.
Qed.

(** ** [sos_struct_sparse] *)
Definition answer_ok (s : poly K -> res (option (ex K))) (d : nat) : Prop := forall p e, wf 3 p -> homdeg d p -> cyclic_poly p -> s p = Ok (Some e) ->
  certifies e (fun A B C => peval (pt3 A B C) p).
Lemma sos_struct_sparse_spec quad cubic quart fuel swap p d e : answer_ok quad 2 -> answer_ok cubic 3 -> answer_ok quart 4 ->
  wf 3 p -> homdeg d p -> cyclic_poly p -> ~ ((4 < d)%nat /\ pure_power p) ->
  sos_struct_sparse quad cubic quart fuel swap p = Ok (Some e) -> certifies e (fun A B C => peval (pt3 A B C) p).
Proof.
  intros Q2 Q3 Q4 W Hd Hc Hp. unfold sos_struct_sparse. destruct (Nat.ltb 6 (length p)); [discriminate|].
  assert (E : p = [] \/ coeff_degree p = d) by (destruct p as [|[k c] p]; [left; reflexivity|right; apply Hd; left; reflexivity]).
  assert (Hd' : homdeg (coeff_degree p) p) by (destruct E as [-> | ->]; [intros m []|exact Hd]).
  assert (Hp' : (4 < coeff_degree p)%nat -> ~ pure_power p).
  { intros G P. destruct E as [-> |E]; [cbn in G; lia|]. rewrite E in G. apply Hp. split; assumption. }
  clear E Hd Hp. destruct (coeff_degree p) as [|[|[|[|[|n]]]]] eqn:Dg.
  - intro H. destruct (0 <=? coef p [0; 0; 0]%nat) eqn:P; [|discriminate]. assert (Es : EC (coef p [0; 0; 0]%nat) = e) by congruence. subst e.
    apply fleb_le in P. split; [exact I|]. split; [exact P|]. split; [|intros; exact I]. intros A B C _ _. cbn [ev].
    rewrite (peval_over K _ p [[0; 0; 0]%nat] (proj1 W)).
    + cbn [map fsum fold_right]. rewrite !meval_cons, meval_nil. cbn [pt3 fpow]. ring.
    + repeat constructor. intros [].
    + intros m Hm. left. pose proof (proj2 W m Hm) as L. pose proof (Hd' m Hm) as S0. destruct m as [|i [|j [|k [|]]]]; try discriminate. cbn [list_sum fold_right] in S0. f_equal; [|f_equal; [|f_equal]]; lia.
  - intro H. destruct (0 <=? coef p [1; 0; 0]%nat) eqn:P; [|discriminate]. assert (Es : (EC (coef p [1; 0; 0]%nat) * csum (EX 0))%E = e) by congruence. subst e.
    apply fleb_le in P. split; [cbn; repeat split; lia|]. split; [cbn [manifest]; rewrite manifest_csum by reflexivity; rewrite P; reflexivity|]. split; [|intros; cbn; tauto].
    intros A B C _ _. cbn [ev]. rewrite ev_csum by (cbn; lia). cbn [ev pt3].
    rewrite (peval_over K _ p [[1; 0; 0]; [0; 1; 0]; [0; 0; 1]]%nat (proj1 W)).
    + cbn [map fsum fold_right]. rewrite !meval_cons, !meval_nil. cbn [pt3 fpow]. rewrite (Hc 0 0 1)%nat, (Hc 0 1 0)%nat. ring.
    + repeat constructor; cbn; intuition discriminate.
    + intros m Hm. pose proof (proj2 W m Hm) as L. pose proof (Hd' m Hm) as S0. destruct m as [|i [|j [|k [|]]]]; try discriminate. cbn [list_sum fold_right] in S0.
      assert (i = 1 /\ j = 0 /\ k = 0 \/ i = 0 /\ j = 1 /\ k = 0 \/ i = 0 /\ j = 0 /\ k = 1)%nat as [(-> & -> & ->)|[(-> & -> & ->)|(-> & -> & ->)]] by lia; cbn; tauto.
  - apply Q2; assumption.
  - apply Q3; assumption.
  - apply Q4; assumption.
  - apply sparse_amgm_spec; try assumption. apply Hp'. lia.
Qed.
End Main.
