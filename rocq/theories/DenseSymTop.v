(** * Dense symmetric ternary forms: centring, recursion and totality *)
From Coq Require Import Bool List Arith Lia ZArith Ring Field Permutation.
From Verif Require Import OrdField Base Perm Poly PolyId PolyOps Coeff Expr CertLimit TriPoly Monomials Univariate UnivariateLemmas.
From Verif Require Acute AcuteFacts Sparse TernaryTables.
From Verif Require Import SymDiv DenseSym DenseSymFacts DenseSymAxis DenseSymMain.
Import ListNotations.

Section Top.
Variable K : OrdField.
Local Open Scope of_scope.
Add Field Kf : (F_field K).
Implicit Types (p q : poly K) (e : ex K) (f : list K).

(** ** Centring *)
Lemma dset_value (x : nat -> K) p k v : NoDup (keys p) -> peval x (dset p k v) = peval x p + (v - coef p k) * meval x k.
Proof.
  induction p as [|[k' v'] p IH]; intro ND.
  - cbn [dset]. rewrite peval_cons. unfold coef. cbn [dget]. change (peval x []) with (0 : K). ring.
  - cbn [dset keys map] in *. inversion ND as [|? ? Hn ND']; subst. destruct (meqb k k') eqn:E.
    + rewrite !peval_cons. unfold coef. cbn [dget]. rewrite E. apply meqb_eq in E. subst k'. ring.
    + rewrite !peval_cons, IH by exact ND'. unfold coef. cbn [dget]. rewrite E. ring.
Qed.
Lemma dset_wf p k v : wf 3 p -> length k = 3%nat -> wf 3 (dset p k v).
Proof. intros [N L] Hk. split; [apply dset_NoDup, N|]. intros m Hm. apply dset_keys_in in Hm. destruct Hm as [->|Hm]; auto. Qed.
Lemma dset_hom d p k v : homdeg d p -> list_sum k = d -> homdeg d (dset p k v).
Proof. intros H Hk m Hm. apply dset_keys_in in Hm. destruct Hm as [->|Hm]; auto. Qed.
Lemma dset_zero_coef p k k2 : coef p k2 = 0 -> coef (dset p k 0) k2 = 0.
Proof.
  intro H. unfold coef in *. destruct (mon_dec k2 k) as [->|N]; [rewrite dget_dset_same; reflexivity|]. rewrite dget_dset_other by exact N. exact H.
Qed.
Lemma dset_zero_value x p k : NoDup (keys p) -> coef p k = 0 -> peval x (dset p k 0) = peval x p.
Proof. intros N H. rewrite dset_value by exact N. rewrite H. ring. Qed.

Lemma sub_key_spec w k p p1 d : wf 3 p -> homdeg d p -> sub_key w k p = Ok p1 ->
  wf 3 p1 /\ homdeg d p1 /\ forall x, peval x p1 = peval x p - w * meval x k.
Proof.
  intros W H. unfold sub_key. destruct (dget p k) as [v|] eqn:E; [|discriminate]. intro X. apply Ok_inj in X. subst p1.
  assert (Hin : In k (keys p)) by (apply dget_in in E; apply in_map_iff; exists (k, v); auto).
  split; [apply dset_wf; [exact W|apply W, Hin]|]. split; [apply dset_hom; [exact H|apply H, Hin]|].
  intro x. rewrite dset_value by apply W. unfold coef. rewrite E. ring.
Qed.

Lemma center_cases d : exists i j k, TernaryTables.center_key d = (i, j, k) /\ (i + j + k = d)%nat /\ (i = j \/ j = k) /\ ((d mod 3 = 0)%nat -> i = j /\ j = k).
Proof.
  pose proof (TernaryTables.center_key_deg d) as Hd. unfold TernaryTables.center_key in *.
  do 3 eexists. split; [reflexivity|]. split; [exact Hd|].
  destruct (2 <=? d mod 3)%nat eqn:E2; destruct (d mod 3 =? 0)%nat eqn:E0; rewrite ?Nat.leb_le, ?Nat.leb_gt, ?Nat.eqb_eq, ?Nat.eqb_neq in *; lia.
Qed.
Definition msum3 (i j k : nat) (A B C : K) : K :=
  A ^ i * B ^ j * C ^ k + A ^ j * B ^ k * C ^ i + A ^ k * B ^ i * C ^ j.
Lemma meval3 (A B C : K) i j k : meval (pt3 A B C) [i; j; k] = A ^ i * B ^ j * C ^ k.
Proof. rewrite !meval_cons, meval_nil. cbn. ring. Qed.

Lemma center_input_spec p p' i j k : symform K p -> TernaryTables.center_key (total_degree p) = (i, j, k) -> center_input p = Ok p' ->
  symform K p' /\ homdeg (total_degree p) p' /\
  forall A B C, peval (pt3 A B C) p' = peval (pt3 A B C) p - Acute.poly111 p / 3 * msum3 i j k A B C.
Proof.
  intros G Ec. pose proof (symform_total K p G) as Hd. destruct G as (W & _ & Gc & Gs). unfold center_input, center_list. rewrite Ec.
  set (w := Acute.poly111 p / 3). destruct (center_cases (total_degree p)) as (i' & j' & k' & Ec' & Hs & Hij & _).
  rewrite Ec in Ec'. apply pair_equal_spec in Ec'. destruct Ec' as [Ec' <-]. apply pair_equal_spec in Ec'. destruct Ec' as [<- <-].
  set (d := total_degree p) in *. cbn [rot_list].
  set (p0 := match dget p [i; j; k] with Some _ => p | None => dset (dset (dset p [i; j; k] 0) [j; k; i] 0) [k; i; j] 0 end).
  assert (P0 : wf 3 p0 /\ homdeg d p0 /\ forall x, peval x p0 = peval x p).
  { unfold p0. destruct (dget p [i; j; k]) as [v|] eqn:E; [split; [exact W|split; [exact Hd|reflexivity]]|].
    pose proof (cyclic_of_values K p W Gc) as Cy. assert (Z1 : coef p [i; j; k] = 0) by (unfold coef; rewrite E; reflexivity).
    assert (Z2 : coef p [j; k; i] = 0) by (rewrite <- Z1; symmetry; apply (Cy i j k)).
    assert (Z3 : coef p [k; i; j] = 0) by (rewrite <- Z2; symmetry; apply (Cy j k i)).
    assert (W1 : wf 3 (dset p [i; j; k] 0)) by (apply dset_wf; [exact W|reflexivity]).
    assert (W2 : wf 3 (dset (dset p [i; j; k] 0) [j; k; i] 0)) by (apply dset_wf; [exact W1|reflexivity]).
    split; [apply dset_wf; [exact W2|reflexivity]|]. split.
    - repeat apply dset_hom; [exact Hd| | |]; unfold list_sum; cbn [fold_right]; lia.
    - intro x. rewrite dset_zero_value; [|apply W2|repeat apply dset_zero_coef; exact Z3].
      rewrite dset_zero_value; [|apply W1|apply dset_zero_coef; exact Z2]. apply dset_zero_value; [apply W|exact Z1]. }
  destruct P0 as (W0 & D0 & V0).
  destruct (sub_key w [i; j; k] p0) as [p1|] eqn:E1; [|discriminate]. destruct (sub_key_spec _ _ _ _ d W0 D0 E1) as (W1 & D1 & V1).
  destruct (sub_key w [j; k; i] p1) as [p2|] eqn:E2; [|discriminate]. destruct (sub_key_spec _ _ _ _ d W1 D1 E2) as (W2 & D2 & V2).
  intro E3. destruct (sub_key_spec _ _ _ _ d W2 D2 E3) as (W3 & D3 & V3).
  assert (V : forall A B C, peval (pt3 A B C) p' = peval (pt3 A B C) p - w * msum3 i j k A B C).
  { intros A B C. rewrite V3, V2, V1, V0, !meval3. unfold msum3. ring. }
  split; [|split; [exact D3|exact V]]. split; [exact W3|]. split; [exists d; exact D3|]. split; intros A B C; rewrite !V.
  - rewrite (Gc A B C). unfold msum3. ring.
  - rewrite (Gs A B C). f_equal. f_equal. unfold msum3. destruct Hij as [E|E]; rewrite E; ring.
Qed.

(** no [KeyError] when no coefficient is stored as 0 *)
Lemma sub_key_total w k p : In k (keys p) -> exists p1, sub_key w k p = Ok p1 /\ forall m, In m (keys p) -> In m (keys p1).
Proof.
  intro H. unfold sub_key. destruct (dget p k) as [v|] eqn:E; [|apply dget_none in E; contradiction].
  eexists. split; [reflexivity|]. intros m Hm. apply dset_keys_in. right. exact Hm.
Qed.
Lemma nz_key p k : coef p k <> 0 -> In k (keys p).
Proof. intro H. destruct (in_dec mon_dec k (keys p)) as [I|N]; [exact I|]. exfalso. apply H, coef_notin, N. Qed.
Lemma center_input_total p : symform K p -> nz K p -> exists p', center_input p = Ok p'.
Proof.
  intros (W & _ & Gc & _) N. unfold center_input, center_list. destruct (TernaryTables.center_key (total_degree p)) as [[i j] k]. cbn [rot_list].
  set (w := Acute.poly111 p / 3).
  set (p0 := match dget p [i; j; k] with Some _ => p | None => dset (dset (dset p [i; j; k] 0) [j; k; i] 0) [k; i; j] 0 end).
  assert (I : In [i; j; k] (keys p0) /\ In [j; k; i] (keys p0) /\ In [k; i; j] (keys p0)).
  { unfold p0. destruct (dget p [i; j; k]) as [v|] eqn:E.
    - assert (I1 : In [i; j; k] (keys p)) by (apply dget_in in E; apply in_map_iff; exists ([i; j; k], v); auto).
      pose proof (cyclic_of_values K p W Gc) as Cy. pose proof (N _ I1) as N1. split; [exact I1|].
      assert (N2 : coef p [j; k; i] <> 0) by (rewrite <- (Cy i j k : coef p [i; j; k] = coef p [j; k; i]); exact N1).
      split; apply nz_key; [exact N2|]. rewrite <- (Cy j k i : coef p [j; k; i] = coef p [k; i; j]). exact N2.
    - repeat split; repeat (apply dset_keys_in; (left; reflexivity) || right). }
  destruct I as (I1 & I2 & I3).
  destruct (sub_key_total w _ _ I1) as (p1 & -> & K1). destruct (sub_key_total w _ _ (K1 _ I2)) as (p2 & -> & K2).
  destruct (sub_key_total w _ _ (K2 _ (K1 _ I3))) as (p3 & -> & _). eauto.
Qed.

Lemma centered_exact solver p e :
  (forall q s, symform K q -> coeff_degree q = coeff_degree p -> solver q = Ok (Some s) -> cert K q s) ->
  symform K p -> (1 <= coeff_degree p)%nat -> centered solver p = Ok (Some e) -> cert K p e.
Proof.
  intros HS G Hpos. unfold centered. destruct (Acute.poly111 p <? 0) eqn:Eb; [discriminate|]. set (bias := Acute.poly111 p) in *.
  assert (B0 : 0 <= bias) by (apply fltb_ge, Eb).
  destruct (center_input p) as [p'|] eqn:Ei; [|discriminate]. destruct (solver p') as [[s|]|] eqn:Es; try discriminate.
  destruct (center_cases (total_degree p)) as (i & j & k & Ec & Hs & Hij & H3). rewrite Ec.
  destruct (center_input_spec p p' i j k G Ec Ei) as (G' & D' & V'). fold bias in V'.
  assert (Ed : coeff_degree p' = coeff_degree p).
  { rewrite (symform_same K p G). destruct (homdeg_coeff_degree K _ p' D') as [E|E]; [|exact E]. exfalso.
    assert (Hin : In [k; i; j] (keys p')).
    { revert Ei. unfold center_input, center_list. rewrite Ec. cbn [rot_list].
      destruct (sub_key _ [i; j; k] _) as [p1|]; [|discriminate]. destruct (sub_key _ [j; k; i] p1) as [p2|]; [|discriminate].
      unfold sub_key. destruct (dget p2 [k; i; j]); [|discriminate]. intro X. apply Ok_inj in X. rewrite <- X. apply dset_keys_in. left. reflexivity. }
    rewrite E in Hin. destruct Hin. }
  destruct (HS p' s G' Ed Es) as (X1 & X2 & A0 & B1 & C0 & HA & HB & HC & Hne & HD0).
  assert (B3 : 0 <= bias / 3) by (apply fdiv_nonneg; [exact B0|fpos]).
  set (t := if Nat.eqb (total_degree p mod 3) 0 then (EC bias * cprod (EX 0 ^ i))%E else (EC (bias / 3) * csum (EX 0 ^ i * EX 1 ^ j * EX 2 ^ k))%E).
  assert (HT : (forall A B C, ev (pt3 A B C) t = bias / 3 * msum3 i j k A B C) /\ manifest true t = true /\ divfree K t = true).
  { unfold t. destruct (Nat.eqb (total_degree p mod 3) 0) eqn:E3.
    - apply Nat.eqb_eq in E3. destruct (H3 E3) as [<- <-]. split; [|split].
      + intros A B C. unfold msum3. cbn [ev cprod erename rot3 pt3]. field. fnz.
      + cbn [manifest cprod erename]. unfold fle in B0. rewrite B0, orb_true_r. reflexivity.
      + reflexivity.
    - split; [|split].
      + intros A B C. unfold msum3. cbn [ev csum erename rot3 pt3]. ring.
      + cbn [manifest csum erename]. unfold fle in B3. rewrite B3, !orb_true_r. reflexivity.
      + reflexivity. }
  destruct HT as (VT & MT & DT).
  intro H. assert (e = EAdd s t). { apply Ok_inj in H. unfold t. destruct (Nat.eqb (total_degree p mod 3) 0); congruence. } subst e. clear H.
  split; [|split].
  - intros A B C [Ds _]. cbn [ev]. rewrite (X1 A B C Ds), VT, V'. ring.
  - intros A B C PA PB PC [Ds Dt]. cbn [ev]. apply fadd_nonneg; [apply X2; assumption|apply manifest_value; assumption].
  - exists A0, B1, C0. split; [exact HA|]. split; [exact HB|]. split; [exact HC|]. split; [exact Hne|]. split; [exact HD0|]. apply divfree_defined, DT.
Qed.

Variable uni : list K -> res (option (wsos K * wsos K)).
Variable ternary : poly K -> res (option (ex K)).
Variable pdiv : poly K -> poly K.
Variable ffloor : K -> Z.

(** ** Exactness of the recursion *)
Lemma dense_exact fuel : uni_ok K uni -> ternary_ok K ternary -> pdiv_ok K pdiv ->
  forall p e, symform K p -> dense uni ternary pdiv ffloor fuel p = Ok (Some e) -> cert K p e.
Proof.
  intros U T PD. induction fuel as [|fuel IH]; intros p e G; [discriminate|]. cbn [dense].
  destruct (trivial_additive p) as [t|] eqn:Et.
  - intro H. apply Ok_inj in H. assert (t = e) by congruence. subst t.
    destruct G as (W & Hd & Gc & Gs). destruct (trivial_exact K p e W Hd (cyclic_of_values K p W Gc) Et) as (V & M & D).
    split; [intros; apply V|]. split; [intros; apply manifest_value; assumption|].
    exists 0, 1, 0. repeat split; try apply fle_refl; try apply f1_nonneg; [intro X; apply (fneq10 K); symmetry; exact X|apply divfree_defined, D].
  - destruct (Nat.ltb (coeff_degree p) 8) eqn:E8; [apply T, G|]. apply Nat.ltb_ge in E8.
    destruct (centered (liftfree_for_six pdiv ffloor (dense uni ternary pdiv ffloor fuel)) p) as [[x|]|] eqn:E1; try discriminate.
    + intro H. apply Ok_inj in H. assert (x = e) by congruence. subst x. revert E1. apply centered_exact; [|exact G|lia].
      intros q s Gq _. apply (liftfree_exact K pdiv ffloor PD); [exact IH|exact Gq].
    + apply centered_exact; [|exact G|lia]. intros q s Gq _. apply (lift_exact K uni pdiv U PD); [exact IH|exact Gq].
Qed.

Lemma symmetric_symform p d : wf 3 p -> homdeg d p -> is_cyclic 3 [[1; 2; 0]; [1; 0; 2]]%nat p = true -> symform K p.
Proof.
  intros W Hd H. assert (P1 : is_perm 3 [1; 2; 0]%nat) by exact (Permutation.Permutation_app_comm [1; 2]%nat [0]%nat).
  assert (P2 : is_perm 3 [1; 0; 2]%nat) by (apply perm_swap).
  assert (HP : forall h, In h [[1; 2; 0]; [1; 0; 2]]%nat -> is_perm 3 h) by (intros h [<-|[<-|[]]]; assumption).
  pose proof (proj1 (is_cyclic_spec K 3 _ p W HP) H) as I.
  assert (I1 : invariant_under [1; 2; 0]%nat p) by (apply I, gen_in; left; reflexivity).
  assert (I2 : invariant_under [1; 0; 2]%nat p) by (apply I, gen_in; right; left; reflexivity).
  split; [exact W|]. split; [exists d; exact Hd|]. split; intros A B C.
  - rewrite <- (I1 (pt3 A B C)), (peval_pt3 K _ p W). reflexivity.
  - rewrite <- (I2 (pt3 A B C)), (peval_pt3 K _ p W). reflexivity.
Qed.

(** ** Totality *)
Definition uni_total : Prop := forall f, exists o, uni f = Ok o /\ forall pq, o = Some pq ->
  forall k v, In (k, v) (fst pq) \/ In (k, v) (snd pq) -> k <> 0 -> udeg v <> None.
Definition ternary_total : Prop := forall p, exists o, ternary p = Ok o.
Lemma proof_terms_total d ld (w : wsos K) : (forall k v, In (k, v) w -> k <> 0 -> udeg v <> None) -> exists l, proof_terms d ld w = Ok l.
Proof.
  induction w as [|[k v] w IH]; intro H; [exists []; reflexivity|]. cbn [proof_terms].
  destruct IH as [l ->]; [intros k' v' Hin; apply H; right; exact Hin|].
  destruct (k =? 0) eqn:E; [eauto|]. apply feqb_neq in E. destruct (udeg v) eqn:Ev; [eauto|]. exfalso. exact (H k v (or_introl eq_refl) E Ev).
Qed.
Lemma hom_proof_total d (pq : wsos K * wsos K) : (forall k v, In (k, v) (fst pq) \/ In (k, v) (snd pq) -> k <> 0 -> udeg v <> None) -> exists l, hom_proof d pq = Ok l.
Proof.
  intro H. unfold hom_proof, hom_part. destruct (proof_terms_total d 0 (fst pq)) as [l1 ->]; [intros; eapply H; eauto|].
  destruct (proof_terms_total d 1 (snd pq)) as [l2 ->]; [intros; eapply H; eauto|]. eauto.
Qed.
Lemma lifted_total d f : uni_total -> exists o, lifted uni d f = Ok o.
Proof.
  intro U. unfold lifted. destruct (all_nonneg f); [eauto|]. destruct (U f) as ([pq|] & -> & H); [|eauto].
  destruct (hom_proof_total d pq (H pq eq_refl)) as [l ->]. eauto.
Qed.
Definition rec_total (b : nat) (rec : poly K -> res (option (ex K))) : Prop :=
  forall p, symform K p -> nz K p -> (coeff_degree p < b)%nat -> exists o, rec p = Ok o.
Lemma quotient_degree q D b : (forall m, In m (keys q) -> (list_sum m + 6 = D)%nat) -> (D < b + 6)%nat -> (0 < b)%nat -> (coeff_degree q < b)%nat.
Proof.
  intros H H1 H2. assert (Hd : homdeg (D - 6) q) by (intros m Hm; specialize (H m Hm); lia).
  destruct (homdeg_coeff_degree K _ q Hd) as [->|E]; [exact H2|]. destruct q as [|t q]; [exact H2|].
  specialize (H (fst t) (or_introl eq_refl)). lia.
Qed.
Lemma lift_total b rec p : uni_ok K uni -> uni_total -> pdiv_ok K pdiv -> symform K p -> (coeff_degree p <= b)%nat -> rec_total b rec ->
  exists o, lift_for_six uni pdiv rec p = Ok o.
Proof.
  intros U UT PD G Hb HR. unfold lift_for_six. set (d := coeff_degree p) in *. destruct (Nat.ltb d 8) eqn:E8; [eauto|]. apply Nat.ltb_ge in E8.
  pose proof (symform_degree K p G) as Hd. fold d in Hd.
  destruct (div_sq1 (axis d p)) as [f [u v]] eqn:Ed. destruct ((u =? 0) && (v =? 0))%bool eqn:E0; cbn [negb]; [|eauto].
  apply andb_prop in E0. destruct E0 as [U0 V0]. apply feqb_eq in U0, V0. subst u v.
  destruct (bad_signs f); [eauto|].
  destruct (div_sq1_spec K _ _ _ _ Ed) as [Lf Vf]. assert (La : length (axis d p) = S d) by (unfold axis; rewrite map_length, seq_length; reflexivity).
  destruct (lifted_total (d - 2) f UT) as [[l|] El]; rewrite El; [|eauto].
  destruct (lifted_spec K uni U (d - 2) f l ltac:(lia) ltac:(lia) El) as (Hl & Vl & Bl & Ml).
  set (s1 := csum (l * tail)%E). set (P := padd (pmul p (expand lift_mul)) (pneg (expand s1))).
  assert (HT : HD K (d - 2 + 4) (l * tail)%E) by (apply HD_mul; [exact Hl|apply tail_HD]).
  assert (SX : symex K (d + 2) s1).
  { apply (symex_eq K (d - 2 + 4)); [lia|]. apply symex_csum; [exact HT|]. intros A B C. cbn [ev]. rewrite (Bl A B C), (tail_bc K A B C). reflexivity. }
  destruct (lift_mul_spec K) as (SM & MM & VM).
  destruct (diff_form K d 2 p lift_mul s1 G Hd SM SX) as (GP & DP & VP). fold P in GP, DP, VP.
  assert (AX : forall x, peval (pt3 x 1 1) P = 0).
  { intro x. rewrite VP. unfold s1. rewrite (tail_axis K l (d - 2) x Hl), Vl, VM. rewrite <- (axis_value K d p x (proj1 G) Hd), Vf. field. fnz. }
  destruct (reduce_step K pdiv PD (d + 2) P GP DP AX) as (Gq & Nq & Dq & _).
  destruct (HR (pdiv P) Gq Nq (quotient_degree _ _ b Dq ltac:(lia) ltac:(lia))) as [[s|] ->]; eauto.
Qed.
Lemma ord4_total b rec p div2 : pdiv_ok K pdiv -> symform K p -> p = [] \/ (4 <= coeff_degree p)%nat ->
  (forall g, div2 = Some g -> (length g <= S (coeff_degree p - 4))%nat /\
     forall x, peval (pt3 x 1 1) p = (x - 1) * (x - 1) * ((x - 1) * (x - 1)) * ueval g x) ->
  (coeff_degree p <= b)%nat -> (0 < b)%nat -> rec_total b rec ->
  exists o, liftfree_ord4 pdiv rec p div2 = Ok o.
Proof.
  intros PD G H4 Hg Hb Hb0 HR. unfold liftfree_ord4. set (d := coeff_degree p) in *. pose proof (symform_degree K p G) as Hd. fold d in Hd.
  destruct (match div2 with Some f => Some f | None => div_fourth1 (axis d p) end) as [f|] eqn:Eo; [|eauto].
  destruct (bad_signs f); [eauto|]. destruct (all_nonneg f) eqn:En; [|eauto].
  assert (La : length (axis d p) = S d) by (unfold axis; rewrite map_length, seq_length; reflexivity).
  assert (F : (length f <= S (d - 4))%nat /\ forall x, peval (pt3 x 1 1) p = (x - 1) * (x - 1) * ((x - 1) * (x - 1)) * ueval f x).
  { destruct div2 as [g|].
    - assert (g = f) by congruence. subst g. apply Hg. reflexivity.
    - destruct (div_fourth1_spec K _ _ Eo) as [L V]. split; [lia|]. intro x. rewrite <- (axis_value K d p x (proj1 G) Hd). apply V. }
  destruct F as [Lf Vf]. set (l := hom_axis (d - 4) f). destruct (hom_axis_spec K (d - 4) f) as (A1 & A2 & A3 & A4). fold l in A1, A2, A3, A4.
  specialize (A1 Lf). set (D := (d - 4 + 4)%nat).
  assert (HD4 : homdeg D p).
  { destruct H4 as [E|H4]; [rewrite E; intros m []|]. unfold D. replace (d - 4 + 4)%nat with d by lia. exact Hd. }
  set (s1 := csum (l * tail)%E). set (P := padd p (pneg (expand s1))).
  assert (SX : symex K D s1).
  { apply symex_csum; [apply HD_mul; [exact A1|apply tail_HD]|]. intros A B C. cbn [ev]. rewrite (A3 A B C), (tail_bc K A B C). reflexivity. }
  destruct (diff_form1 K D p s1 G HD4 SX) as (GP & DP & VP). fold P in GP, DP, VP.
  assert (AX : forall x, peval (pt3 x 1 1) P = 0).
  { intro x. rewrite VP. unfold s1. rewrite (tail_axis K l (d - 4) x A1), A2, Vf. ring. }
  destruct (reduce_step K pdiv PD D P GP DP AX) as (Gq & Nq & Dq & _).
  destruct (HR (pdiv P) Gq Nq (quotient_degree _ _ b Dq ltac:(unfold D; lia) Hb0)) as [[s|] ->]; eauto.
Qed.
Lemma liftfree_total b rec p : pdiv_ok K pdiv -> symform K p -> (coeff_degree p <= b)%nat -> rec_total b rec ->
  exists o, liftfree_for_six pdiv ffloor rec p = Ok o.
Proof.
  intros PD G Hb HR. unfold liftfree_for_six. set (d := coeff_degree p) in *. destruct (Nat.ltb d 6) eqn:E6; [eauto|]. apply Nat.ltb_ge in E6.
  pose proof (symform_degree K p G) as Hd. fold d in Hd. assert (La : length (axis d p) = S d) by (unfold axis; rewrite map_length, seq_length; reflexivity).
  destruct (div_sq1 (axis d p)) as [f [u0 v0]] eqn:Ed. destruct ((u0 =? 0) && (v0 =? 0))%bool eqn:E0; cbn [negb]; [|eauto].
  apply andb_prop in E0. destruct E0 as [U0 V0]. apply feqb_eq in U0, V0. subst u0 v0.
  destruct (div_sq1_spec K _ _ _ _ Ed) as [Lf Vf].
  destruct (div_sq1 f) as [g [u v]] eqn:Eg. destruct (div_sq1_spec K _ _ _ _ Eg) as [Lg Vg].
  destruct ((u =? 0) && (v =? 0))%bool eqn:E1.
  { apply andb_prop in E1. destruct E1 as [U1 V1]. apply feqb_eq in U1, V1. subst u v.
    apply (ord4_total b rec p (Some g) PD G); [right; fold d; lia| |exact Hb|lia|exact HR]. intros g' Eq. assert (g = g') by congruence. subst g'. fold d. split; [lia|].
    intro x. rewrite <- (axis_value K d p x (proj1 G) Hd), Vf, Vg. ring. }
  destruct ((u + v <=? 0) || (u <? 0))%bool; [eauto|].
  destruct ((choose_n ffloor d u v <=? Z.of_nat (d - 3)) && (0 <=? choose_n ffloor d u v))%Z eqn:En; cbn [negb]; [|eauto].
  set (n := Z.to_nat (choose_n ffloor d u v)). apply andb_prop in En. destruct En as [N1 N2]. apply Z.leb_le in N1, N2.
  set (u2 := u - (u + v) * fnat n). set (v2 := v + (u + v) * fnat n).
  destruct ((0 <=? u2) && (0 <=? v2))%bool eqn:E2; cbn [negb]; [|eauto]. apply andb_prop in E2. destruct E2 as [U2 V2].
  destruct (subtractor_total K d n u2 v2) as [[s0|] Es]; rewrite Es; [|eauto].
  destruct (subtractor_good K d n u2 v2 s0 ltac:(subst n; lia) U2 V2 Es) as [SX MX].
  destruct (diff_form1 K d p s0 G Hd SX) as (GP & DP & VP). set (P := padd p (pneg (expand s0))) in *.
  assert (H4 : P = [] \/ (4 <= coeff_degree P)%nat /\ coeff_degree P = d) by (destruct (homdeg_coeff_degree K d P DP) as [E|E]; [left; exact E|right; lia]).
  destruct (ord4_total b rec P None PD GP) as [[s|] ->]; eauto; try discriminate; [tauto| |lia].
  destruct H4 as [->|[_ ->]]; [apply Nat.le_0_l|exact Hb].
Qed.
Lemma centered_total solver p : symform K p -> nz K p -> (1 <= coeff_degree p)%nat ->
  (forall q, symform K q -> coeff_degree q = coeff_degree p -> exists o, solver q = Ok o) -> exists o, centered solver p = Ok o.
Proof.
  intros G N Hpos HS. unfold centered. destruct (Acute.poly111 p <? 0); [eauto|].
  destruct (center_input_total p G N) as [p' Ei]. rewrite Ei. destruct (center_cases (total_degree p)) as (i & j & k & Ec & Hs & Hij & H3).
  destruct (center_input_spec p p' i j k G Ec Ei) as (G' & D' & V').
  assert (Ed : coeff_degree p' = coeff_degree p).
  { rewrite (symform_same K p G). destruct (homdeg_coeff_degree K _ p' D') as [E|E]; [|exact E]. exfalso.
    assert (Hin : In [k; i; j] (keys p')).
    { revert Ei. unfold center_input, center_list. rewrite Ec. cbn [rot_list].
      destruct (sub_key _ [i; j; k] _) as [p1|]; [|discriminate]. destruct (sub_key _ [j; k; i] p1) as [p2|]; [|discriminate].
      unfold sub_key. destruct (dget p2 [k; i; j]); [|discriminate]. intro X. apply Ok_inj in X. rewrite <- X. apply dset_keys_in. left. reflexivity. }
    rewrite E in Hin. destruct Hin. }
  destruct (HS p' G' Ed) as [[s|] ->]; [rewrite Ec|]; eauto.
Qed.
Lemma dense_total fuel : uni_ok K uni -> uni_total -> ternary_total -> pdiv_ok K pdiv -> rec_total fuel (dense uni ternary pdiv ffloor fuel).
Proof.
  intros U UT TT PD. induction fuel as [|fuel IH]; intros p G N Hf; [lia|]. cbn [dense].
  destruct (trivial_additive p) as [t|]; [eauto|]. destruct (Nat.ltb (coeff_degree p) 8) eqn:E8; [apply TT|]. apply Nat.ltb_ge in E8.
  destruct (centered_total (liftfree_for_six pdiv ffloor (dense uni ternary pdiv ffloor fuel)) p G N ltac:(lia)) as [[x|] ->]; [|eauto|].
  - intros q Gq Eq. apply (liftfree_total fuel); [exact PD|exact Gq|lia|exact IH].
  - apply centered_total; [exact G|exact N|lia|]. intros q Gq Eq. apply (lift_total fuel); [exact U|exact UT|exact PD|exact Gq|lia|exact IH].
Qed.
End Top.
