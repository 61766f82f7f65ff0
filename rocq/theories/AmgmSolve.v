(** * The AM-GM solver returns certificates (lemmas for Amgm.v) *)
From Coq Require Import Bool List Arith Lia ZArith Ring Field.
From Verif Require Import OrdField Base Perm Poly PolyId Coeff Expr CertLimit TriPoly Univariate.
From Verif Require Import DenseSym Amgm AmgmQuot AmgmFacts.
From Verif Require Sparse.
Import ListNotations.

Section Geometry.
Local Open Scope Z_scope.
Lemma collinear_swap p q r : is_collinear p q r = true -> is_collinear q p r = true.
Proof. unfold is_collinear. rewrite !Z.eqb_eq. lia. Qed.
Lemma collinear_rot p q r : is_collinear p q r = true -> is_collinear q r p = true.
Proof. unfold is_collinear. rewrite !Z.eqb_eq. lia. Qed.
Lemma circ_found m o p : is_circumscribing m o = Ok (Some p) ->
  mdeg m = mdeg o /\ In p (mcycle o) /\ is_collinear m p (mnext m) = true.
Proof.
  unfold is_circumscribing. destruct (Z.eqb_spec (mdeg m) (mdeg o)) as [E|]; [|discriminate]. cbn [negb]. intro H. apply Ok_inj in H.
  apply find_some in H. destruct H as [H1 H2]. auto.
Qed.
Lemma mstd_cycle m : In (mstd m) (mcycle m).
Proof.
  unfold mstd, mmax. destruct (mlt m (mnext m)); destruct (mlt _ (mnext (mnext m))); unfold mcycle; cbn [In]; tauto.
Qed.
Lemma mlt_x m n : mlt m n = true -> mx m <= mx n.
Proof. unfold mlt. rewrite orb_true_iff, andb_true_iff, Z.ltb_lt, Z.eqb_eq. lia. Qed.
Lemma mlt_x' m n : mlt m n = false -> mx n <= mx m.
Proof. unfold mlt. rewrite orb_false_iff, Z.ltb_ge. lia. Qed.
Lemma mstd_max m : my (mstd m) <= mx (mstd m) /\ mz (mstd m) <= mx (mstd m).
Proof.
  unfold mstd, mmax. destruct m as [[x y] z]. unfold mnext, mx, my, mz. cbn [fst snd].
  destruct (mlt (x, y, z) (y, z, x)) eqn:E1.
  - apply mlt_x in E1. destruct (mlt (y, z, x) (z, x, y)) eqn:E2; [apply mlt_x in E2|apply mlt_x' in E2]; unfold mx in *; cbn [fst snd] in *; lia.
  - apply mlt_x' in E1. destruct (mlt (x, y, z) (z, x, y)) eqn:E2; [apply mlt_x in E2|apply mlt_x' in E2]; unfold mx in *; cbn [fst snd] in *; lia.
Qed.
Lemma rshift_deg m o b : rshift m o = Ok b -> mdeg m = mdeg o.
Proof. unfold rshift. destruct (Z.eqb_spec (mdeg m) (mdeg o)); [auto|discriminate]. Qed.
End Geometry.

Section Solve.
Variable K : OrdField.
Local Open Scope of_scope.
Add Field Kf : (F_field K).
Notation certifies := (certifies K).
Notation cval := (cval K).
Definition diff (m1 m2 : mon3) : K -> K -> K -> K := fun A B C => cval A B C m1 - cval A B C m2.

Lemma fnat_nz n : (0 < n)%nat -> (fnat n : K) <> 0.
Proof. exact (fnat_neq0 K n). Qed.

Lemma circumscribing_spec m1 m2 s : solve_circumscribing m1 m2 = Ok (Some s) -> certifies s (diff m1 m2).
Proof.
  unfold solve_circumscribing. destruct (is_circumscribing m1 m2) as [o1|] eqn:E1; [|discriminate].
  set (first := match o1 with Some p => _ | None => None end). intro H.
  destruct first as [s'|] eqn:F.
  - assert (s' = s) by congruence. subst s'. clear H. destruct o1 as [p|]; [|discriminate]. unfold first in F.
    destruct (local_ineq m1 p (mnext m1)) as [[[t x] y]|] eqn:L; [|discriminate].
    destruct (circ_found _ _ _ E1) as (D & Ip & Cp).
    assert (Cc : col m1 p (mnext m1)). { apply collinear_col; [|rewrite mdeg_next|exact Cp]; rewrite (mcycle_deg _ _ Ip); congruence. }
    destruct (local_spec K _ _ _ _ _ _ Cc L) as (Hx & Hy & Ct). assert (Es : s = (t / EC (fnat (x + y)))%E) by congruence. subst s.
    eapply certifies_ext; [|apply certifies_div_const; [apply fnat_pos; lia|exact Ct]]. intros A B C N. cbv beta. unfold diff.
    rewrite cval_next, (cval_cycle K A B C m2 p Ip). rewrite fnat_add. field. rewrite <- fnat_add. apply fnat_nz. lia.
  - destruct (is_circumscribing m2 m1) as [[p|]|] eqn:E2; try discriminate.
    destruct (circ_found _ _ _ E2) as (D & Ip & Cp). pose proof (mcycle_deg _ _ Ip) as Dp.
    destruct (local_ineq p m2 (mnext m2)) as [[[t x] y]|] eqn:L.
    + assert (Cc : col p m2 (mnext m2)). { apply collinear_col; [congruence|rewrite mdeg_next; reflexivity|apply collinear_swap, Cp]. }
      destruct (local_spec K _ _ _ _ _ _ Cc L) as (Hx & Hy & Ct). assert (Es : s = (t / EC (fnat x))%E) by congruence. subst s.
      eapply certifies_ext; [|apply certifies_div_const; [apply fnat_pos; lia|exact Ct]]. intros A B C N. cbv beta. unfold diff.
      rewrite cval_next, (cval_cycle K A B C m1 p Ip). rewrite fnat_add. field. apply fnat_nz. lia.
    + destruct (local_ineq p (mnext m2) m2) as [[[t x] y]|] eqn:L'; [|discriminate].
      assert (Cc : col p (mnext m2) m2). { apply collinear_col; [rewrite mdeg_next; congruence|apply mdeg_next|apply collinear_rot, Cp]. }
      destruct (local_spec K _ _ _ _ _ _ Cc L') as (Hx & Hy & Ct). assert (Es : s = (t / EC (fnat x))%E) by congruence. subst s.
      eapply certifies_ext; [|apply certifies_div_const; [apply fnat_pos; lia|exact Ct]]. intros A B C N. cbv beta. unfold diff.
      rewrite cval_next, (cval_cycle K A B C m1 p Ip). rewrite fnat_add. field. apply fnat_nz. lia.
Qed.

Lemma to_axis_spec m1 v v2 s : col m1 v v2 -> In v2 (mcycle v) -> to_axis m1 v v2 = Some s -> certifies s (diff m1 v).
Proof.
  intros Cc I2. unfold to_axis. destruct (meq m1 v) eqn:Q.
  - apply meq_spec in Q. subst v. intro H. assert (Es : s = (EC 0 / EC 1)%E) by congruence. subst s.
    eapply certifies_ext; [|apply certifies_div_const; [apply f1_pos|]].
    2: { split; [exact I|]. split; [apply fle_refl|]. split; [|intros; exact I]. intros A B C _ _. cbn [ev]. exact (eq_refl ((fun _ _ _ => 0 : K) A B C)). }
    intros A B C N. cbv beta. unfold diff. field. apply fneq10.
  - destruct (local_ineq m1 v v2) as [[[t x] y]|] eqn:L; [|discriminate]. intro H. assert (Es : s = (t / EC (fnat x))%E) by congruence. subst s.
    destruct (local_spec K _ _ _ _ _ _ Cc L) as (Hx & Hy & Ct).
    eapply certifies_ext; [|apply certifies_div_const; [apply fnat_pos; lia|exact Ct]]. intros A B C N. cbv beta. unfold diff.
    rewrite (cval_cycle K A B C v v2 I2). rewrite fnat_add. field. apply fnat_nz. lia.
Qed.

Notation ea := (EX 0 : ex K). Notation eb := (EX 1 : ex K). Notation ec := (EX 2 : ex K).
Ltac three := repeat match goal with
  | |- three _ (csum _) => apply three_csum
  | |- three _ (cprod _) => apply three_cprod
  | |- three _ (ezpow _ _) => apply three_ezpow
  | |- three _ _ => progress cbn [three]
  | |- _ /\ _ => split
  | |- True => exact I
  | |- (_ < _)%nat => lia
  end.
Ltac mf := repeat match goal with
  | |- manifest _ (csum _) = true => apply manifest_csum
  | |- manifest _ (cprod _) = true => apply manifest_cprod
  | |- manifest _ (ezpow _ _) = true => apply manifest_ezpow
  | |- manifest _ _ = true => progress cbn [manifest Nat.even orb]
  | |- (_ && _)%bool = true => apply andb_true_intro; split
  | |- true = true => reflexivity
  | |- fleb 0 2 = true => exact (flt_le (f2_pos K))
  end.
Lemma center_part1 d r s : s = (d - r)%Z ->
  certifies (cprod (ezpow ea r) * csum (ezpow ea s) * csum ((ezpow ea s - ezpow eb s) ^ 2) / EC 2)%E (diff (3*d-2*r, r, r)%Z (d, d, d)).
Proof.
  intros ->. set (s := (d - r)%Z). pose proof (two_neq0 K) as N2.
  split; [three|]. split; [|split].
  - mf.
  - intros A B C (HA & HB & HC) _. cbn [ev]. rewrite ev_cprod, !ev_csum by three. cbn [ev]. rewrite !ev_ezpow. cbn [ev pt3]. unfold diff, AmgmFacts.cval, mval, mx, my, mz. cbn [fst snd].
    replace (3 * d - 2 * r)%Z with (r + (s + s + s))%Z by (unfold s; lia). replace d with (r + s)%Z by (unfold s; lia). rewrite !zp_add by assumption.
    set (X := zp K A s). set (Y := zp K B s). set (Z := zp K C s). cbn [fpow]. field. fnz.
  - intros A B C HA HB HC. apply flt_neq0 in HA, HB, HC. cbn [defined]. rewrite defined_cprod, !defined_csum by three. cbn [defined].
    repeat split; try apply defined_ezpow; cbn; auto.
Qed.
Lemma center_part2 d r s : s = (d - r)%Z ->
  certifies (cprod (ezpow ea r) * csum (ezpow ea s * (ezpow ea s + EC 2 * ezpow ec s) * (ezpow eb s - ezpow ec s) ^ 2) / (EC 2 * csum (ezpow ea s)))%E
    (diff (2*d-r, d, r)%Z (d, d, d)).
Proof.
  intros ->. set (s := (d - r)%Z). pose proof (two_neq0 K) as N2.
  split; [three|]. split; [|split].
  - mf.
  - intros A B C (HA & HB & HC) (_ & _ & D). cbn [ev] in D |- *. rewrite ev_csum in D by three. rewrite ev_cprod, !ev_csum by three. cbn [ev] in *. rewrite !ev_ezpow in *. cbn [ev pt3] in *.
    unfold diff, AmgmFacts.cval, mval, mx, my, mz. cbn [fst snd].
    replace (2 * d - r)%Z with (r + (s + s))%Z by (unfold s; lia). replace d with (r + s)%Z by (unfold s; lia). rewrite !zp_add by assumption.
    set (X := zp K A s) in *. set (Y := zp K B s) in *. set (Z := zp K C s) in *. cbn [fpow]. field. split; [|fnz]. intro E. apply D. rewrite E. ring.
  - intros A B C HA HB HC. pose proof (flt_neq0 HA) as NA. pose proof (flt_neq0 HB) as NB. pose proof (flt_neq0 HC) as NC.
    cbn [defined]. rewrite defined_cprod, !defined_csum by three. cbn [defined ev]. rewrite ev_csum by three. cbn [ev]. rewrite !ev_ezpow. cbn [ev pt3].
    split; [|split; [|]]. 1, 2: repeat split; try apply defined_ezpow; cbn; auto.
    apply fmul_neq0; [exact N2|]. apply flt_neq0. apply fadd_pos; [apply fadd_pos|]; apply zp_pos; assumption.
Qed.
Lemma center_part3 d r s : s = (d - r)%Z ->
  certifies (cprod (ezpow ea r) * csum (ezpow ea s * (ezpow ea s + EC 2 * ezpow eb s) * (ezpow eb s - ezpow ec s) ^ 2) / (EC 2 * csum (ezpow ea s)))%E
    (diff (2*d-r, r, d)%Z (d, d, d)).
Proof.
  intros ->. set (s := (d - r)%Z). pose proof (two_neq0 K) as N2.
  split; [three|]. split; [|split].
  - mf.
  - intros A B C (HA & HB & HC) (_ & _ & D). cbn [ev] in D |- *. rewrite ev_csum in D by three. rewrite ev_cprod, !ev_csum by three. cbn [ev] in *. rewrite !ev_ezpow in *. cbn [ev pt3] in *.
    unfold diff, AmgmFacts.cval, mval, mx, my, mz. cbn [fst snd].
    replace (2 * d - r)%Z with (r + (s + s))%Z by (unfold s; lia). replace d with (r + s)%Z by (unfold s; lia). rewrite !zp_add by assumption.
    set (X := zp K A s) in *. set (Y := zp K B s) in *. set (Z := zp K C s) in *. cbn [fpow]. field. split; [|fnz]. intro E. apply D. rewrite E. ring.
  - intros A B C HA HB HC. pose proof (flt_neq0 HA) as NA. pose proof (flt_neq0 HB) as NB. pose proof (flt_neq0 HC) as NC.
    cbn [defined]. rewrite defined_cprod, !defined_csum by three. cbn [defined ev]. rewrite ev_csum by three. cbn [ev]. rewrite !ev_ezpow. cbn [ev pt3].
    split; [|split; [|]]. 1, 2: repeat split; try apply defined_ezpow; cbn; auto.
    apply fmul_neq0; [exact N2|]. apply flt_neq0. apply fadd_pos; [apply fadd_pos|]; apply zp_pos; assumption.
Qed.
Lemma center_part4 d r s : s = (r - d)%Z ->
  certifies (cprod (ezpow ea (3*d-2*r)) * csum (ezpow ea s * ezpow eb s) * csum (ezpow ea (2*s) * (ezpow eb s - ezpow ec s) ^ 2) / EC 2)%E
    (diff (r, r, 3*d-2*r)%Z (d, d, d)).
Proof.
  intros ->. set (s := (r - d)%Z). set (q := (3 * d - 2 * r)%Z). pose proof (two_neq0 K) as N2.
  split; [three|]. split; [|split].
  - mf.
  - intros A B C (HA & HB & HC) _. cbn [ev]. rewrite ev_cprod, !ev_csum by three. cbn [ev]. rewrite !ev_ezpow. cbn [ev pt3]. unfold diff, AmgmFacts.cval, mval, mx, my, mz. cbn [fst snd].
    replace r with (q + (s + s + s))%Z by (unfold s, q; lia). replace d with (q + (s + s))%Z by (unfold s, q; lia). replace (2 * s)%Z with (s + s)%Z by lia.
    rewrite !zp_add by assumption.
    set (X := zp K A s). set (Y := zp K B s). set (Z := zp K C s). cbn [fpow]. field. fnz.
  - intros A B C HA HB HC. apply flt_neq0 in HA, HB, HC. cbn [defined]. rewrite defined_cprod, !defined_csum by three. cbn [defined].
    repeat split; try apply defined_ezpow; cbn; auto.
Qed.
Lemma diff_trans e1 e2 m1 v m2 : certifies e1 (diff m1 v) -> certifies e2 (diff v m2) -> certifies (e1 + e2)%E (diff m1 m2).
Proof.
  intros H1 H2. eapply certifies_ext; [|apply (certifies_add K _ _ _ _ H1 H2)]. intros A B C _. cbv beta. unfold diff. ring.
Qed.
Lemma diff_cycle e m1 m1' m2 : In m1' (mcycle m1) -> certifies e (diff m1' m2) -> certifies e (diff m1 m2).
Proof. intros H. apply certifies_ext. intros A B C _. unfold diff. rewrite (cval_cycle K A B C m1 m1' H). reflexivity. Qed.
Lemma diff_cycle_r e m1 m2' m2 : In m2' (mcycle m2) -> certifies e (diff m1 m2') -> certifies e (diff m1 m2).
Proof. intros H. apply certifies_ext. intros A B C _. unfold diff. rewrite (cval_cycle K A B C m2 m2' H). reflexivity. Qed.

Lemma local_none m1 v v2 : (mdot (msub v m1) (msub v2 v) <= 0)%Z -> local_ineq (K := K) m1 v v2 = None.
Proof. intro H. unfold local_ineq. destruct (Z.ltb_spec 0 (mdot (msub v m1) (msub v2 v))); [lia|reflexivity]. Qed.

Lemma center_spec m1 m2 s : mdeg m1 = mdeg m2 -> solve_center m1 m2 = Some s -> certifies s (diff m1 m2).
Proof.
  unfold solve_center. intro D. destruct (is_center m2) eqn:Ec; [|discriminate]. cbn [negb].
  unfold is_center in Ec. apply andb_prop in Ec. rewrite !Z.eqb_eq in Ec. destruct Ec as [C1 C2].
  set (d := mx m2) in *. assert (Em2 : m2 = (d, d, d)) by (rewrite (mon3_eta m2); fold d; congruence).
  pose proof (mstd_max m1) as MX. pose proof (mstd_cycle m1) as MC. pose proof (mcycle_deg _ _ MC) as MD.
  set (n := mstd m1) in *. assert (DT : (mx n + my n + mz n = 3 * d)%Z). { change (mdeg n = 3 * d)%Z. rewrite MD, D. unfold mdeg. rewrite <- C2, <- C1. fold d. lia. }
  assert (En : n = (mx n, my n, mz n)) by apply mon3_eta.
  intro H. apply (diff_cycle s m1 n m2 MC). rewrite Em2. clearbody d. clear Em2 C1 C2 D m2.
  set (x := mx n) in *. set (y := my n) in *. set (z := mz n) in *. assert (Ex : x = (3 * d - y - z)%Z) by lia.
  clearbody x y z.
  destruct ((y <? d)%Z && (z <? d)%Z)%bool eqn:Q1.
  - apply andb_prop in Q1. rewrite !Z.ltb_lt in Q1. destruct Q1 as [Y Z].
    assert (X : forall r v v2, v = (3 * d - 2 * r, r, r)%Z -> (v2 = (r, 3 * d - 2 * r, r) /\ z = r \/ v2 = (r, r, 3 * d - 2 * r) /\ y = r)%Z ->
      (match to_axis n v v2 with None => None | Some s1 => Some (s1 + cprod (ezpow ea r) * csum (ezpow ea (d - r)) * csum ((ezpow ea (d - r) - ezpow eb (d - r)) ^ 2) / EC 2)%E end) = Some s ->
      certifies s (diff n (d, d, d)%Z)).
    { intros r v v2 Ev E2 F. destruct (to_axis n v v2) as [s1|] eqn:A1; [|discriminate]. 
      assert (Es : s = (s1 + cprod (ezpow ea r) * csum (ezpow ea (d - r)) * csum ((ezpow ea (d - r) - ezpow eb (d - r)) ^ 2) / EC 2)%E) by congruence. subst s.
      apply (diff_trans _ _ n v).
      - apply (to_axis_spec n v v2); [| |exact A1].
        + rewrite En, Ev. rewrite Ex. destruct E2 as [[-> <-]|[-> <-]]; unfold col, par, msub, mx, my, mz; cbn [fst snd]; repeat split; ring.
        + rewrite Ev. destruct E2 as [[-> _]|[-> _]]; unfold mcycle, mnext, mx, my, mz; cbn [fst snd In]; tauto.
      - rewrite Ev. apply center_part1. reflexivity. }
    destruct (y <=? z)%Z.
    + apply (X z _ _ eq_refl) in H; [exact H|left; split; reflexivity].
    + apply (X y _ _ eq_refl) in H; [exact H|right; split; reflexivity].
  - destruct (Z.eqb_spec y d) as [Yd|Yd].
    + assert (Es := f_equal (fun o => match o with Some t => t | None => s end) H). cbn beta iota in Es. rewrite <- Es.
      rewrite En, Yd. replace x with (2 * d - z)%Z by lia. apply center_part2. reflexivity.
    + destruct (Z.eqb_spec z d) as [Zd|Zd].
      * assert (Es := f_equal (fun o => match o with Some t => t | None => s end) H). cbn beta iota in Es. rewrite <- Es.
        rewrite En, Zd. replace x with (2 * d - y)%Z by lia. apply center_part3. reflexivity.
      * destruct (Z.ltb_spec d y) as [Yl|Yl].
        -- destruct (to_axis n (y, y, 3 * d - 2 * y)%Z (3 * d - 2 * y, y, y)%Z) as [s1|] eqn:A1; [|discriminate].
           assert (Es := f_equal (fun o => match o with Some t => t | None => s end) H). cbn beta iota in Es. rewrite <- Es.
           apply (diff_trans _ _ n (y, y, 3 * d - 2 * y)%Z); [|apply center_part4; reflexivity].
           apply (to_axis_spec _ _ _ _) with (3 := A1).
           ++ rewrite En, Ex. unfold col, par, msub, mx, my, mz; cbn [fst snd]; repeat split; ring.
           ++ unfold mcycle, mnext, mx, my, mz; cbn [fst snd In]; tauto.
        -- exfalso. assert (Zl : (d < z)%Z) by (apply andb_false_iff in Q1; rewrite !Z.ltb_ge in Q1; lia).
           unfold to_axis in H. rewrite local_none in H.
           ++ destruct (meq n (z, z, 3 * d - 2 * z)%Z) eqn:Q; [|discriminate]. apply meq_spec in Q. rewrite En in Q.
              assert (y = z) by congruence. lia.
           ++ rewrite En. unfold mdot, msub, mx, my, mz. cbn [fst snd]. nia.
Qed.

(** ** Spirals *)
Lemma in_perms2 m p q : In (p, q) (perms2 m) -> In p (mcycle m) /\ In q (mcycle m).
Proof. unfold perms2, mcycle. cbn [In]. intros H. repeat (destruct H as [H|H]; [apply pair_equal_spec in H; destruct H as [<- <-]; tauto|]). contradiction. Qed.
Lemma in_combs2 m p q : In (p, q) (combs2 m) -> In p (mcycle m) /\ In q (mcycle m).
Proof. unfold combs2, mcycle. cbn [In]. intros H. repeat (destruct H as [H|H]; [apply pair_equal_spec in H; destruct H as [<- <-]; tauto|]). contradiction. Qed.
Lemma loop_spec {T} (P : ex K -> Prop) body (l : list T) rest s :
  (forall t o, In t l -> body t = Ok (Some (Some o)) -> P o) -> (rest = Ok (Some s) -> P s) -> loop body l rest = Ok (Some s) -> P s.
Proof.
  intros Hb Hr. induction l as [|t l IH]; [exact Hr|]. cbn [loop]. destruct (body t) as [[o|]|] eqn:E.
  - intro H. apply Ok_inj in H. subst o. apply (Hb t); [left; reflexivity|exact E].
  - apply IH. intros t' o Ht. apply Hb. right. exact Ht.
  - discriminate.
Qed.
Lemma mix_spec m1 p1 p m2 s1 x y s2 : col m1 p1 p -> In p1 (mcycle m2) -> local_ineq m1 p1 p = Some (s1, x, y) -> certifies s2 (diff m1 p) ->
  certifies (mix s1 x y s2) (diff m1 m2) /\ certifies ((s1 + s2 * EC (fnat y)) / EC (fnat (x + y)))%E (diff m1 m2).
Proof.
  intros Cc I1 L H2. destruct (local_spec K _ _ _ _ _ _ Cc L) as (Hx & Hy & H1).
  assert (Hxy : (0 : K) < fnat (x + y)) by (apply fnat_pos; lia). assert (Hy0 : (0 : K) <= fnat y) by apply fnat_nonneg.
  pose proof (flt_neq0 Hxy) as N. 
  split.
  - unfold mix. eapply certifies_ext; [|apply certifies_add; apply certifies_div_const; [exact Hxy|exact H1|exact Hxy|apply certifies_mul_const; [exact Hy0|exact H2]]].
    intros A B C _. cbv beta. unfold diff. rewrite (cval_cycle K A B C m2 p1 I1). rewrite fnat_add in *. field. exact N.
  - eapply certifies_ext; [|apply certifies_div_const; [exact Hxy|apply certifies_add; [exact H1|apply certifies_mul_const; [exact Hy0|exact H2]]]].
    intros A B C _. cbv beta. unfold diff. rewrite (cval_cycle K A B C m2 p1 I1). rewrite fnat_add in *. field. exact N.
Qed.
Ltac getsome H := match type of H with Ok (Some (Some ?e)) = Ok (Some (Some ?o)) => assert (e = o) by congruence; subst o; clear H end.

Lemma spiral1_a_spec m1 m2 p1 s : mdeg m1 = mdeg m2 -> In p1 (mcycle m2) -> spiral1_a m1 p1 = Ok (Some (Some s)) -> certifies s (diff m1 m2).
Proof.
  intros D I1. unfold spiral1_a. pose proof (mcycle_deg _ _ I1) as D1. destruct (integer_intersection _ _ _ _) as [p|] eqn:E; [|discriminate].
  destruct (intersection_on m1 p1 (mnext m1) (mnext (mnext m1)) p) as (Dp & C1 & _); [congruence|rewrite ?mdeg_next; reflexivity..|exact E|].
  destruct (_ <? _)%Z; [|discriminate]. destruct (solve_circumscribing m1 p) as [sol2|] eqn:S2; [|discriminate].
  destruct (local_ineq m1 p1 p) as [[[s1 x] y]|] eqn:L; [|discriminate]. destruct sol2 as [s2|]; [|discriminate]. intro H. getsome H.
  apply (mix_spec m1 p1 p m2); try assumption; [apply collinear_col; [congruence|congruence|exact C1]|apply circumscribing_spec, S2].
Qed.
Lemma spiral1_b_spec m1 m2 pp s : mdeg m1 = mdeg m2 -> In pp (perms2 m2) -> spiral1_b m1 pp = Ok (Some (Some s)) -> certifies s (diff m1 m2).
Proof.
  destruct pp as [p1 p2]. intros D I. apply in_perms2 in I. destruct I as [I1 I2]. unfold spiral1_b. pose proof (mcycle_deg _ _ I1) as D1. pose proof (mcycle_deg _ _ I2) as D2.
  destruct (integer_intersection _ _ _ _) as [p|] eqn:E; [|discriminate].
  destruct (intersection_on m1 p1 (mnext m1) p2 p) as (Dp & C1 & _); [congruence|rewrite ?mdeg_next; reflexivity|congruence|exact E|].
  assert (Cc : col m1 p1 p) by (apply collinear_col; [congruence|congruence|exact C1]).
  destruct (_ <? _)%Z.
  - destruct (is_center p).
    + destruct (solve_center m1 p) as [s2|] eqn:S2; [|discriminate]. destruct (local_ineq m1 p1 p) as [[[s1 x] y]|] eqn:L; [|discriminate]. intro H. getsome H.
      apply (mix_spec m1 p1 p m2); try assumption. apply center_spec; [congruence|exact S2].
    + destruct (solve_circumscribing m1 p) as [sol2|] eqn:S2; [|discriminate].
      destruct (local_ineq m1 p1 p) as [[[s1 x] y]|] eqn:L; [|discriminate]. destruct sol2 as [s2|]; [|discriminate]. intro H. getsome H.
      apply (mix_spec m1 p1 p m2); try assumption. apply circumscribing_spec, S2.
  - destruct (solve_circumscribing m1 p) as [[s1|]|] eqn:S1; try discriminate.
    + destruct (solve_circumscribing p p1) as [[s2|]|] eqn:S2; try discriminate. intro H. getsome H.
      apply (diff_cycle_r _ m1 p1 m2 I1). apply (diff_trans _ _ m1 p); apply circumscribing_spec; assumption.
    + destruct (solve_circumscribing p p1) as [[s2|]|] eqn:S2; discriminate.
Qed.
Lemma spiral1_c_spec m1 m2 pp s : mdeg m1 = mdeg m2 -> In pp (combs2 m2) -> spiral1_c m1 pp = Ok (Some (Some s)) -> certifies s (diff m1 m2).
Proof.
  destruct pp as [p1 p2]. intros D I. apply in_combs2 in I. destruct I as [I1 I2]. unfold spiral1_c. pose proof (mcycle_deg _ _ I1) as D1. pose proof (mcycle_deg _ _ I2) as D2.
  destruct (integer_intersection _ _ _ _) as [p|] eqn:E; [|discriminate].
  destruct (intersection_on m1 (mnext m1) p1 p2 p) as (Dp & C1 & _); [rewrite ?mdeg_next; reflexivity|congruence|congruence|exact E|].
  assert (Cc : col m1 p (mnext m1)) by (apply collinear_col; [congruence|rewrite mdeg_next; congruence|apply collinear_rot, collinear_swap, C1]).
  destruct (_ <? _)%Z; [|discriminate]. destruct (solve_circumscribing p p1) as [sol2|] eqn:S2; [|discriminate].
  destruct (local_ineq m1 p (mnext m1)) as [[[s1 x] y]|] eqn:L; [|discriminate]. destruct sol2 as [s2|]; [|discriminate]. intro H. getsome H.
  destruct (local_spec K _ _ _ _ _ _ Cc L) as (Hx & Hy & H1). assert (Hxy : (0 : K) < fnat (x + y)) by (apply fnat_pos; lia). pose proof (flt_neq0 Hxy) as N. 
  apply (diff_cycle_r _ m1 p1 m2 I1). apply (diff_trans _ _ m1 p); [|apply circumscribing_spec, S2].
  eapply certifies_ext; [|apply certifies_div_const; [exact Hxy|exact H1]].
  intros A B C _. cbv beta. unfold diff. rewrite cval_next. rewrite fnat_add in *. field. exact N.
Qed.
Lemma spiral1_spec m1 m2 s : mdeg m1 = mdeg m2 -> solve_spiral1 m1 m2 = Ok (Some s) -> certifies s (diff m1 m2).
Proof.
  intro D. unfold solve_spiral1. apply (loop_spec (fun s => certifies s (diff m1 m2))); [intros t o I; apply spiral1_a_spec; assumption|].
  apply (loop_spec (fun s => certifies s (diff m1 m2))); [intros t o I; apply spiral1_b_spec; assumption|].
  apply (loop_spec (fun s => certifies s (diff m1 m2))); [intros t o I; apply spiral1_c_spec; assumption|discriminate].
Qed.
Theorem amgm_solve_spec fuel : forall m1 m2 s, mdeg m1 = mdeg m2 -> amgm_solve fuel m1 m2 = Ok (Some s) -> certifies s (diff m1 m2).
Proof.
  induction fuel as [|fuel IH]; intros m1 m2 s D; [discriminate|]. cbn [amgm_solve].
  destruct (solve_center m1 m2) as [s0|] eqn:E1.
  { intro H. assert (s0 = s) by congruence. subst s0. apply center_spec; assumption. }
  destruct (solve_circumscribing m1 m2) as [[s0|]|] eqn:E2; try discriminate.
  { intro H. assert (s0 = s) by congruence. subst s0. apply circumscribing_spec; assumption. }
  destruct (solve_spiral1 m1 m2) as [[s0|]|] eqn:E3; try discriminate.
  { intro H. assert (s0 = s) by congruence. subst s0. apply spiral1_spec; assumption. }
  unfold solve_spiral2. destruct (_ && _)%bool; [|discriminate]. set (v := spiral2_target m1 m2).
  pose proof (mstd_cycle m1) as MC. pose proof (mcycle_deg _ _ MC) as MD.
  destruct (rshift (mstd m1) v) as [[]|] eqn:R1; try discriminate. destruct (rshift v m2) as [[]|] eqn:R2; try discriminate.
  apply rshift_deg in R1, R2.
  destruct (amgm_solve fuel (mstd m1) v) as [[s1|]|] eqn:A1; try discriminate.
  - destruct (amgm_solve fuel v m2) as [[s2|]|] eqn:A2; try discriminate. intro H.
    assert (Es : (s1 + s2)%E = s) by congruence. subst s.
    apply (diff_cycle _ m1 (mstd m1) m2 MC). apply (diff_trans _ _ _ v); apply IH; assumption.
  - destruct (amgm_solve fuel v m2) as [[s2|]|]; discriminate.
Qed.
(** [AMGM3.solve] *)
Theorem amgm3_spec fuel c1 m1 c2 m2 s : amgm3 fuel c1 m1 c2 m2 = Ok (Some s) ->
  certifies s (fun A B C => c1 * cval A B C m1 + c2 * cval A B C m2).
Proof.
  assert (M : forall c1 m1 c2 m2, 0 <= c1 -> 0 <= c1 + c2 -> rshift m1 m2 = Ok true -> amgm_main fuel c1 m1 c2 m2 = Ok (Some s) ->
    certifies s (fun A B C => c1 * cval A B C m1 + c2 * cval A B C m2)).
  { clear. intros c1 m1 c2 m2 P1 P2 R. unfold amgm_main. destruct (amgm_solve fuel m1 m2) as [[t|]|] eqn:E; try discriminate. intro H.
    apply rshift_deg in R. apply amgm_solve_spec in E; [|exact R].
    assert (Es : (EC c1 * t + EC (c1 + c2) * csum (emon m2))%E = s) by congruence. subst s.
    eapply certifies_ext; [|apply certifies_add; apply certifies_scale; [exact P1|exact E|exact P2|apply certifies_cmon]].
    intros A B C _. cbv beta. unfold diff. ring. }
  unfold amgm3. destruct (0 <=? c1) eqn:P1; destruct (0 <=? c2) eqn:P2; cbn [andb].
  - apply fleb_le in P1, P2. intro H. assert (Es : (EC c1 * csum (emon m1) + EC c2 * csum (emon m2))%E = s) by congruence. subst s.
    apply certifies_add; apply certifies_scale; try assumption; apply certifies_cmon.
  - destruct (_ && _)%bool; [discriminate|]. destruct (0 <=? c1 + c2) eqn:P; [|discriminate]. apply fleb_le in P1, P.
    destruct (rshift m1 m2) as [[]|] eqn:R; try discriminate. apply M; assumption.
  - destruct (_ && _)%bool; [discriminate|]. destruct (0 <=? c1 + c2) eqn:P; [|discriminate]. apply fleb_le in P2, P.
    destruct (rshift m2 m1) as [[]|] eqn:R; try discriminate. intro H.
    eapply certifies_ext; [|apply (M c2 m2 c1 m1 P2); [|exact R|exact H]].
    + intros A B C _. cbv beta. ring.
    + replace (c2 + c1) with (c1 + c2) by ring. exact P.
  - destruct (_ && _)%bool; [discriminate|]. destruct (0 <=? c1 + c2); discriminate.
Qed.
End Solve.
