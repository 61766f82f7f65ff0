(** * SDPSOS: the certificate from a solution of the grouped system (SdpSos.v) *)
From Coq Require Import Bool List Arith Lia Permutation Sorted Ring Field.
From Verif Require Import OrdField Base Congruence LinSolve LinSep LinSep_props Perm Poly PolyId PolyOps Partitions Shared Monomials MonomialsLemmas Coeff ClearSym SdpSos SdpSosFacts SdpSosCert SdpSosGroups.
Import ListNotations.

Section Exact.
Variable K : OrdField.
Local Open Scope of_scope.
Add Field Kf : (F_field K).
Variable n : nat.
Variable G : list (list nat).
Variable gens : list (list nat).
Variable order : list nat -> list nat.
Hypothesis HG : is_group n G.
Hypothesis Hgens : forall p, In p G <-> generated n gens p.
Hypothesis HO : order_ok order.

Lemma poly_over (F : list nat -> K) (p : poly K) L :
  NoDup (keys p) -> NoDup L -> (forall m, In m (keys p) -> In m L) ->
  fsum (map (fun t => snd t * F (fst t)) p) = fsum (map (fun m => coef p m * F m) L).
Proof.
  revert L. induction p as [|[k c] p IH]; intros L Hp HL Hin.
  - cbn. symmetry. apply fsum_map_0. intros m _. cbn. ring.
  - cbn in Hp. inversion Hp as [|y l Hk Hp']; subst.
    assert (HkL : In k L) by (apply Hin; left; reflexivity).
    destruct (in_split k L HkL) as [L1 [L2 ->]].
    assert (Hp2 : Permutation (L1 ++ k :: L2) (k :: L1 ++ L2)) by (apply Permutation_sym, Permutation_middle).
    rewrite (OrdField.fsum_perm _ _ _ (Permutation_map _ Hp2)).
    assert (HL' : NoDup (k :: L1 ++ L2)) by (eapply Permutation_NoDup; eassumption).
    inversion HL' as [|y l HkL' HL'']; subst.
    cbn [map fsum fst snd]. unfold coef at 1. cbn [dget]. rewrite meqb_refl. f_equal.
    rewrite (IH (L1 ++ L2)); [|exact Hp'|exact HL''|].
    + apply (fsum_map_ext K). intros m Hm. unfold coef. cbn [dget]. destruct (meqb_spec m k) as [->|]; [contradiction|].
      destruct (meqb_spec k m) as [->|]; [contradiction|]. reflexivity.
    + intros m Hm. destruct (Permutation_in _ Hp2 (Hin m (or_intror Hm))) as [<-|X]; [contradiction|exact X].
Qed.
Lemma NoDup_map_in {A B} (h : A -> B) l : (forall a b, In a l -> In b l -> h a = h b -> a = b) -> NoDup l -> NoDup (map h l).
Proof.
  intros Hi Hl. induction Hl as [|a l Ha Hl IH]; cbn [map]; constructor.
  - intro I. apply in_map_iff in I. destruct I as (b & E & Hb). apply Ha. rewrite (Hi a b); [exact Hb|left; reflexivity|right; exact Hb|congruence].
  - apply IH. intros x y Hx Hy. apply Hi; right; assumption.
Qed.
Lemma madd_comm a : forall b, madd a b = madd b a.
Proof. induction a as [|x a IH]; intros [|y b]; cbn [madd]; try reflexivity. rewrite IH, Nat.add_comm. reflexivity. Qed.
Lemma nth_madd a : forall b i, length a = length b -> nth i (madd a b) 0%nat = (nth i a 0 + nth i b 0)%nat.
Proof.
  induction a as [|x a IH]; intros [|y b] i H; cbn in H; try discriminate; cbn [madd].
  - destruct i; reflexivity.
  - destruct i; cbn [nth]; [reflexivity|]. apply IH. congruence.
Qed.
Lemma act_madd p a b : length a = length b -> act 0%nat p (madd a b) = madd (act 0%nat p a) (act 0%nat p b).
Proof.
  intro H. unfold act. induction p as [|i p IH]; [reflexivity|]. cbn [map madd]. rewrite nth_madd by exact H. f_equal. exact IH.
Qed.
Lemma cnt_act_l m t p : length m = n -> In p G -> cnt G (act 0%nat p m) t = cnt G m t.
Proof.
  intros Hm Hp. unfold cnt.
  rewrite (Permutation_length (filter_perm (fun r => meqb (act 0%nat r m) t) _ _ (Permutation_sym (translate_r_perm n G HG p Hp)))).
  rewrite filter_map_length. f_equal. apply filter_ext_in. intros r Hr.
  rewrite (act_comp 0%nat n r p m (g_perm n G HG r Hr) (is_perm_length n p (g_perm n G HG p Hp))). reflexivity.
Qed.
Lemma std_count_act d m p : length m = n -> list_sum m = d -> In p G -> std_count n G d (act 0%nat p m) = std_count n G d m.
Proof.
  intros Hm Hd Hp. pose proof (g_perm n G HG p Hp) as Pp.
  destruct (std_count_spec n G HG d m Hm Hd) as (s & E & Hs & En).
  destruct (std_count_spec n G HG d (act 0%nat p m)) as (s' & E' & Hs' & En').
  { rewrite act_length. apply is_perm_length, Pp. }
  { rewrite <- Hd. apply (act_sum n); assumption. }
  rewrite (standard_invariant n G HG m p Hm Hp) in *. rewrite cnt_act_l in E' by assumption. rewrite E, E'. do 2 f_equal.
  apply (proj1 (NoDup_nth _ []) (inv_monoms_NoDup n G true d)); [exact Hs'|exact Hs|congruence].
Qed.
(** the contribution of a monomial *)
Definition contrib (d r : nat) (m : list nat) : K :=
  match std_count n G d m with (Some s, v) => if (s =? r)%nat then fnat v else 0 | (None, _) => 0 end.
Lemma entry_contrib d r c : entry n G d r c = fsum (map (fun t => snd t * contrib d r (madd (fst t) (col_shift c))) (col_poly c)).
Proof.
  unfold entry. apply (fsum_map_ext K). intros t _. unfold contrib. destruct (std_count n G d (madd (fst t) (col_shift c))) as [[s|] v]; [|ring].
  destruct (s =? r)%nat; ring.
Qed.
Lemma entry_act d r (g : poly K) w w' p : wf n g -> (forall m, In m (keys g) -> (list_sum m + list_sum w)%nat = d) -> coef_sym K n G g -> length w = n -> In p G ->
  w' = act 0%nat p w ->
  fsum (map (fun t => snd t * contrib d r (madd (fst t) w')) g) = fsum (map (fun t => snd t * contrib d r (madd (fst t) w)) g).
Proof.
  intros Hw Hd Hs Lw Hp ->. pose proof (g_perm n G HG p Hp) as Pp.
  destruct g as [|t0 g0] eqn:Eg; [reflexivity|]. rewrite <- Eg in *. set (e := (d - list_sum w)%nat).
  assert (Hk : forall m, In m (keys g) -> In m (base_monoms n true e)).
  { intros m Hm. apply base_monoms_in. split; [apply Hw, Hm|]. specialize (Hd m Hm). unfold e. lia. }
  assert (De : (e + list_sum w)%nat = d).
  { assert (I : In (fst t0) (keys g)) by (rewrite Eg; left; reflexivity). specialize (Hd _ I). unfold e. lia. }
  rewrite (poly_over (fun m => contrib d r (madd m (act 0%nat p w))) g (base_monoms n true e) (proj1 Hw) (base_monoms_nodup n true e) Hk).
  rewrite (poly_over (fun m => contrib d r (madd m w)) g (base_monoms n true e) (proj1 Hw) (base_monoms_nodup n true e) Hk).
  assert (PP : Permutation (map (act 0%nat p) (base_monoms n true e)) (base_monoms n true e)).
  { apply NoDup_Permutation_bis.
    - apply NoDup_map_in; [|apply base_monoms_nodup]. intros a b Ha Hb E.
      apply base_monoms_in in Ha. apply base_monoms_in in Hb.
      assert (X : forall m, length m = n -> act 0%nat (pinv p) (act 0%nat p m) = m).
      { intros m Hm. apply (act_inv n G HG); [apply (pinv_in n G p HG Hp)|exact Hp|apply (pinv_l n p Pp)|exact Hm]. }
      rewrite <- (X a (proj1 Ha)), <- (X b (proj1 Hb)), E. reflexivity.
    - rewrite map_length. lia.
    - intros m Hm. apply in_map_iff in Hm. destruct Hm as (a & <- & Ha). apply base_monoms_act; assumption. }
  rewrite <- (OrdField.fsum_perm K _ _ (Permutation_map (fun m => coef g m * contrib d r (madd m (act 0%nat p w))) PP)), map_map.
  apply (fsum_map_ext K). intros m Hm. apply base_monoms_in in Hm. destruct Hm as [Lm Sm]. rewrite (Hs p m Hp Lm). f_equal.
  rewrite <- act_madd by congruence. unfold contrib. rewrite std_count_act; [reflexivity| | |exact Hp].
  - rewrite madd_length; congruence.
  - rewrite madd_sum by congruence. rewrite Sm. exact De.
Qed.

Lemma gram_index d k' g u w : forall ineqs k, In (Gram k' g u w) (gram_loop (K := K) n d k ineqs) -> (k <= k')%nat /\ nth (k' - k) ineqs [] = g.
Proof.
  induction ineqs as [|h r IH]; intros k H; [destruct H|]. cbn [gram_loop] in H. apply in_app_or in H. destruct H as [H|H].
  - apply gram_in in H. destruct H as (a & b & E & _). injection E as -> -> _ _. rewrite Nat.sub_diag. split; [lia|reflexivity].
  - destruct (IH (S k) H) as [L E]. split; [lia|]. replace (k' - k)%nat with (S (k' - S k)) by lia. exact E.
Qed.
Lemma mult_index d k' g u : forall eqs k, In (Mult k' g u) (mult_loop (K := K) n d k eqs) -> (k <= k')%nat /\ nth (k' - k) eqs [] = g.
Proof.
  induction eqs as [|h r IH]; intros k H; [destruct H|]. cbn [mult_loop] in H. apply in_app_or in H. destruct H as [H|H].
  - apply in_map_iff in H. destruct H as (a & E & _). injection E as -> -> _. rewrite Nat.sub_diag. split; [lia|reflexivity].
  - destruct (IH (S k) H) as [L E]. split; [lia|]. replace (k' - k)%nat with (S (k' - S k)) by lia. exact E.
Qed.
Lemma gram_shapes d ineqs eqs k g u w : In (Gram k g u w) (columns (K := K) n d ineqs eqs) -> In (Gram k g u w) (gram_loop n d 0 ineqs) /\ length u = n /\ length w = n.
Proof.
  intro H. apply in_app_or in H. destruct H as [H|H].
  - split; [exact H|]. apply gram_loop_in in H. destruct H as (k0 & g0 & u0 & w0 & E & _ & Hu & Hw). injection E as -> -> -> ->.
    apply base_monoms_in in Hu. apply base_monoms_in in Hw. tauto.
  - exfalso. apply mult_loop_in in H. destruct H as (? & ? & ? & E & _). discriminate.
Qed.
Lemma mult_shapes d ineqs eqs k g u : In (Mult k g u) (columns (K := K) n d ineqs eqs) -> In (Mult k g u) (mult_loop n d 0 (low d eqs)) /\ length u = n.
Proof.
  intro H. apply in_app_or in H. destruct H as [H|H].
  - exfalso. apply gram_loop_in in H. destruct H as (? & ? & ? & ? & E & _). discriminate.
  - split; [exact H|]. apply mult_loop_in in H. destruct H as (k0 & g0 & u0 & E & _ & Hu). injection E as -> -> ->. apply base_monoms_in in Hu. tauto.
Qed.
Lemma entry_rel d r ineqs eqs c c' : (forall c, In c (columns n d ineqs eqs) -> col_ok K n d c) ->
  In c (columns n d ineqs eqs) -> In c' (columns n d ineqs eqs) -> rel K G c c' -> entry n G d r c = entry n G d r c'.
Proof.
  intros HC Hc Hc' R. destruct (HC c Hc) as (Cw & Cl & Cd). rewrite !entry_contrib.
  destruct c as [k g u w|k g u], c' as [k' g' u' w'|k' g' u']; cbn [rel] in R; try contradiction; cbn [col_poly col_shift] in *.
  - destruct R as [<- R]. apply gram_shapes in Hc. apply gram_shapes in Hc'. destruct Hc as (Hc & Lu & Lw), Hc' as (Hc' & _ & _).
    apply gram_index in Hc. apply gram_index in Hc'. assert (g' = g) by (destruct Hc, Hc'; congruence). subst g'.
    destruct R as [[S (p & Hp & [[-> ->]|[-> ->]])]|(_ & _ & [[-> ->]|[-> ->]])].
    + symmetry. apply (entry_act d r g (madd u w) _ p); [exact Cw|exact Cd|apply (symm_coef K n G HG); assumption|exact Cl|exact Hp|].
      rewrite act_madd by congruence. reflexivity.
    + symmetry. apply (entry_act d r g (madd u w) _ p); [exact Cw|exact Cd|apply (symm_coef K n G HG); assumption|exact Cl|exact Hp|].
      rewrite act_madd by congruence. apply madd_comm.
    + reflexivity.
    + rewrite (madd_comm w u). reflexivity.
  - destruct R as (<- & S & (p & Hp & ->)). apply mult_shapes in Hc. apply mult_shapes in Hc'. destruct Hc as (Hc & Lu), Hc' as (Hc' & _).
    apply mult_index in Hc. apply mult_index in Hc'. assert (g' = g) by (destruct Hc, Hc'; congruence). subst g'.
    symmetry. apply (entry_act d r g u _ p); [exact Cw|exact Cd|apply (symm_coef K n G HG); assumption|exact Lu|exact Hp|reflexivity].
Qed.
(** ** Every monomial is reached *)
Definition reachable (f : poly K) (ineqs : list (poly K)) : Prop :=
  forall m, coef f m <> 0 -> exists m0 c, In [(m0, c)] ineqs /\ c <> 0 /\ forall i, (nth i m0 0 <= nth i m 0)%nat.
Lemma split_sum : forall (l : list nat) a b, list_sum l = (a + b)%nat ->
  exists u w, l = madd u w /\ length u = length l /\ length w = length l /\ list_sum u = a /\ list_sum w = b.
Proof.
  induction l as [|x l IH]; intros a b H.
  - cbn in H. exists [], []. split; [reflexivity|]. split; [reflexivity|]. split; [reflexivity|]. cbn. lia.
  - rewrite list_sum_cons in H. destruct (IH (a - Nat.min x a)%nat (b - (x - Nat.min x a))%nat) as (u & w & E & L1 & L2 & S1 & S2); [lia|].
    exists (Nat.min x a :: u), ((x - Nat.min x a)%nat :: w). split; [|split; [cbn [length]; lia|split; [cbn [length]; lia|]]].
    + cbn [madd]. rewrite <- E. f_equal. lia.
    + rewrite !list_sum_cons. lia.
Qed.
Lemma sub_mono : forall m0 m : list nat, length m0 = length m -> (forall i, (nth i m0 0 <= nth i m 0)%nat) -> exists r, m = madd m0 r /\ length r = length m.
Proof.
  induction m0 as [|a m0 IH]; intros [|b m] L H; cbn in L; try discriminate.
  - exists []. auto.
  - destruct (IH m) as (r & E & Lr); [congruence|intro i; apply (H (S i))|]. exists ((b - a)%nat :: r). cbn [madd length]. split; [|lia].
    rewrite <- E. f_equal. pose proof (H 0%nat) as H0. cbn [nth] in H0. lia.
Qed.
Lemma reached f ineqs eqs s : let d := total_degree f in
  wf n f -> is_hom f = true -> (forall g, In g ineqs -> wf n g) -> existsb (bad_ineq d) ineqs = false -> reachable f ineqs ->
  (s < length (inv_monoms G n true d))%nat -> coef f (nth s (inv_monoms G n true d) []) <> 0 ->
  exists c, In c (columns n d ineqs eqs) /\ entry n G d s c <> 0.
Proof.
  intros d Wf Hf Hw B HR Hs Nz. set (m := nth s (inv_monoms G n true d) []) in *.
  destruct (HR m Nz) as (m0 & c & Hg & Nc & Le).
  assert (Im : In m (keys f)) by (destruct (in_dec mon_dec m (keys f)) as [I|I]; [exact I|exfalso; apply Nz, coef_notin, I]).
  assert (Lm : length m = n) by (apply Wf, Im). assert (L0 : length m0 = n) by (apply (Hw _ Hg); left; reflexivity).
  pose proof (is_hom_keys K f Hf m Im) as Sm. fold d in Sm.
  assert (TD : total_degree [(m0, c)] = list_sum m0) by (unfold total_degree; cbn [fold_right fst]; lia).
  assert (BG : bad_ineq d [(m0, c)] = false).
  { destruct (bad_ineq d [(m0, c)]) eqn:E; [|reflexivity]. rewrite <- B. symmetry. apply existsb_exists. eexists. split; [exact Hg|exact E]. }
  unfold bad_ineq in BG. apply orb_false_elim in BG. destruct BG as [B1 B2]. apply Nat.ltb_ge in B1. apply negb_false_iff, Nat.eqb_eq in B2. rewrite TD in B1, B2.
  destruct (sub_mono m0 m) as (r & Er & Lr); [congruence|exact Le|].
  assert (Sr : list_sum r = (d - list_sum m0)%nat) by (assert (X := f_equal list_sum Er); rewrite madd_sum in X by congruence; lia).
  destruct (split_sum r ((d - list_sum m0) / 2) ((d - list_sum m0) / 2)) as (u & w & Eu & Lu & Lw & Su & Sw).
  { rewrite Sr. pose proof (Nat.div_mod (d - list_sum m0) 2). lia. }
  assert (VU : forall t, length t = n -> list_sum t = ((d - list_sum m0) / 2)%nat -> In t (gram_vec n d [(m0, c)])).
  { intros t Lt St. unfold gram_vec. apply base_monoms_in. rewrite TD. auto. }
  assert (EX : forall l k, In [(m0, c)] l -> exists k', In (Gram k' [(m0, c)] u w) (gram_loop n d k l)).
  { induction l as [|h l IH]; intros k H; [destruct H|]. cbn [gram_loop]. destruct H as [->|H].
    - exists k. apply in_or_app. left. unfold gram_cols. apply in_flat_map. exists u. split; [apply VU; congruence|]. apply in_map, VU; congruence.
    - destruct (IH (S k) H) as [k' I]. exists k'. apply in_or_app. right. exact I. }
  destruct (EX ineqs 0%nat Hg) as [k I]. exists (Gram k [(m0, c)] u w). split; [apply in_or_app; left; exact I|].
  unfold entry. cbn [col_poly col_shift map fsum fst snd]. rewrite <- Eu, <- Er.
  destruct (std_count_spec n G HG d m Lm Sm) as (s' & E & Hs' & En). rewrite E.
  assert (ST : standard_monom G m = m).
  { assert (J : In m (inv_monoms G n true d)) by (apply nth_In, Hs). apply inv_monoms_in in J. apply J. }
  assert (s' = s) by (apply (proj1 (NoDup_nth _ []) (inv_monoms_NoDup n G true d)); [exact Hs'|exact Hs|rewrite En, ST; reflexivity]). subst s'.
  rewrite Nat.eqb_refl. pose proof (cnt_pos n G HG m Lm) as P. intro Z.
  assert (Z' : fnat (cnt G m (standard_monom G m)) * c = 0) by (rewrite <- Z; ring).
  apply (fmul_eq0 K) in Z'. destruct Z' as [Z'|Z']; [|exact (Nc Z')].
  pose proof (fnat_pos K (cnt G m (standard_monom G m)) P) as Q. rewrite Z' in Q. exact (flt_irrefl K 0 Q).
Qed.

(** ** The solutions of the equations *)
Definition coupled (f : poly K) (ineqs eqs : list (poly K)) : Prop :=
  is_separated (length (columns n (total_degree f) ineqs eqs)) (coeff_rows n G (total_degree f) ineqs eqs) = false.
Lemma construct_checks f ineqs eqs x0 V : wf n f -> construct n G gens order f ineqs eqs = Ok (x0, V) ->
  let d := total_degree f in
  is_hom f = true /\ symm K G f /\ (forall g, In g (ineqs ++ eqs) -> is_hom g = true) /\
  existsb (bad_ineq d) ineqs = false /\ existsb (fun h => (d <? total_degree h)%nat) eqs = false /\
  solve_csr (length (columns n d ineqs eqs)) (coeff_rows n G d ineqs eqs) (map (coef f) (inv_monoms G n true d)) (equal_entries n G gens order d ineqs eqs) = Ok (x0, V).
Proof.
  intros Wf H d. unfold construct in H. destruct (is_hom f) eqn:H1; cbn [negb] in H; [|discriminate].
  destruct (is_sym n gens f) eqn:H2; cbn [negb] in H; [|discriminate].
  destruct (forallb is_hom eqs) eqn:H3; cbn [negb andb] in H; [|discriminate].
  destruct (forallb is_hom ineqs) eqn:H4; cbn [negb andb] in H; [|discriminate].
  rewrite (arraylize_spec K n G true f (proj1 Wf)) in H. fold d in H. unfold form_sdp in H.
  destruct (existsb (bad_ineq d) ineqs) eqn:H5; [discriminate|].
  destruct (negb (rows_found n G d (columns n d ineqs eqs))); [discriminate|].
  destruct (solve_csr _ _ _ _) as [r|e] eqn:H6; [|discriminate].
  destruct (existsb (fun h => (d <? total_degree h)%nat) eqs) eqn:H7; [discriminate|]. apply Ok_inj in H. subst r.
  rewrite forallb_forall in H3, H4. split; [reflexivity|]. split; [apply (is_sym_spec K n G gens HG Hgens f Wf), H2|].
  split; [intros g Hg; apply in_app_or in Hg; destruct Hg; auto|]. auto.
Qed.
Lemma construct_solves f ineqs eqs x0 V : let d := total_degree f in
  wf n f -> (forall g, In g (ineqs ++ eqs) -> wf n g) ->
  coupled f ineqs eqs \/ reachable f ineqs ->
  construct n G gens order f ineqs eqs = Ok (x0, V) ->
  exists free, (forall row, In row V -> length row = free) /\ length x0 = length (columns n d ineqs eqs) /\ length V = length x0 /\
    forall y : list K, length y = free -> equal_on (equal_entries n G gens order d ineqs eqs) (point x0 V y) /\ forall s, (s < length (inv_monoms G n true d))%nat ->
      dotv (length (columns n d ineqs eqs)) (map (entry n G d s) (columns n d ineqs eqs)) (point x0 V y) = coef f (nth s (inv_monoms G n true d) []).
Proof.
  intros d Wf Hw HR H. destruct (construct_checks f ineqs eqs x0 V Wf H) as (H1 & H2 & H3 & H4 & H5 & H6). fold d in H4, H5, H6.
  pose proof (equal_entries_groups_ok K n G gens order HG Hgens HO d ineqs eqs Hw H4) as GO.
  assert (LA : length (coeff_rows n G d ineqs eqs) = length (map (coef f) (inv_monoms G n true d))) by (unfold coeff_rows; rewrite !map_length, seq_length; reflexivity).
  assert (COK : forall c, In c (columns n d ineqs eqs) -> col_ok K n d c).
  { apply columns_ok; [|exact H4]. intros g Hg. split; [apply Hw, Hg|apply H3, Hg]. }
  assert (AP : forall y : list K, length x0 = length (columns n d ineqs eqs) -> affine_point (length (columns n d ineqs eqs)) x0 V y (point x0 V y)).
  { intros y L. split; [unfold point; rewrite vtab_length; exact L|]. intros i Hi. unfold point. rewrite vget_vtab by (rewrite L; exact Hi). reflexivity. }
  assert (FIN : forall X, solves (length (columns n d ineqs eqs)) (coeff_rows n G d ineqs eqs) (map (coef f) (inv_monoms G n true d)) X ->
     forall s, (s < length (inv_monoms G n true d))%nat -> dotv (length (columns n d ineqs eqs)) (map (entry n G d s) (columns n d ineqs eqs)) X = coef f (nth s (inv_monoms G n true d) [])).
  { intros X [_ F] s Hs.
    assert (P : forall (A : list (list K)) (b : list K) s, Forall2 (fun row bi => dotv (length (columns n d ineqs eqs)) row X = bi) A b -> (s < length A)%nat ->
       dotv (length (columns n d ineqs eqs)) (nth s A []) X = vget b s).
    { clear. intros A b s F. revert s. induction F; intros s Hs; [cbn in Hs; lia|]. destruct s; [exact H|]. cbn in Hs. apply IHF. lia. }
    pose proof (P _ _ s F) as Q. rewrite (vget_map K _ []) in Q by exact Hs. rewrite <- Q by (rewrite LA, map_length; exact Hs).
    unfold coeff_rows. rewrite nth_indep with (d' := map (entry n G d 0) (columns n d ineqs eqs)) by (rewrite map_length, seq_length; exact Hs).
    rewrite (map_nth (fun r => map (entry n G d r) (columns n d ineqs eqs))), seq_nth by exact Hs. reflexivity. }
  destruct (is_separated (length (columns n d ineqs eqs)) (coeff_rows n G d ineqs eqs)) eqn:ES.
  - destruct HR as [HR|HR]; [unfold coupled in HR; fold d in HR; congruence|].
    destruct (column_separated_partial K _ _ _ _ x0 V GO LA) as (L1 & L2 & free & F1 & F2 & _).
    + intros row g k k' Hrow Hg Hk Hk'. apply in_map_iff in Hrow. destruct Hrow as (r & <- & _).
      pose proof (equal_entries_blk K n G gens order HG Hgens HO d ineqs eqs Hw H4) as BL.
      pose proof (b_range _ _ _ _ _ BL g k Hg Hk) as Rk. apply (b_mem _ _ _ _ _ BL g k k' Hg Hk) in Hk'. destruct Hk' as [Rk' R]. rewrite !Nat.sub_0_r in R.
      rewrite !(vget_map K _ (Mult 0 [] [])) by lia.
      apply entry_rel with ineqs eqs; [exact COK|apply nth_In; lia|apply nth_In; lia|exact R].
    + intros i Hi Z. rewrite LA, map_length in Hi. rewrite (vget_map K _ []) by exact Hi.
      destruct (feq_dec K (coef f (nth i (inv_monoms G n true d) [])) 0) as [E|E]; [exact E|]. exfalso.
      destruct (reached f ineqs eqs i Wf H1 (fun g Hg => Hw g (in_or_app _ _ _ (or_introl Hg))) H4 HR Hi E) as (c & Hc & Ne). fold d in Hc, Ne.
      destruct (In_nth _ _ (Mult 0 [] []) Hc) as (j & Hj & Ej). apply Ne. rewrite <- (Z j Hj). unfold mget, coeff_rows.
      rewrite nth_indep with (d' := map (entry n G d 0) (columns n d ineqs eqs)) by (rewrite map_length, seq_length; exact Hi).
      rewrite (map_nth (fun r => map (entry n G d r) (columns n d ineqs eqs))), seq_nth by exact Hi.
      change (nth j ?l 0) with (vget l j). rewrite (vget_map K _ (Mult 0 [] [])) by exact Hj. rewrite Ej. reflexivity.
    + exact ES.
    + exact H6.
    + exists free. split; [exact F1|]. split; [exact L1|]. split; [congruence|]. intros y Hy. destruct (F2 (point x0 V y) y Hy (AP y L1)) as [Q1 Q2]. split; [exact Q2|]. apply FIN, Q1.
  - destruct (csr_general_complete K _ _ _ _ x0 V GO LA ES H6) as (L1 & L2 & free & F1 & F2 & _).
    exists free. split; [exact F1|]. split; [exact L1|]. split; [congruence|]. intros y Hy.
    destruct (proj2 (F2 (point x0 V y)) (ex_intro _ y (conj Hy (AP y L1)))) as [Q1 Q2]. split; [exact Q2|]. apply FIN, Q1.
Qed.
(** ** C29 *)
Lemma sdpsos_exact f ineqs eqs x0 V y decs iexprs eexprs : let d := total_degree f in
  wf n f -> (forall g, In g (ineqs ++ eqs) -> wf n g) -> distinct K ineqs -> distinct K eqs ->
  exprs_ok K n iexprs -> exprs_ok K n eexprs ->
  coupled f ineqs eqs \/ reachable f ineqs ->
  construct n G gens order f ineqs eqs = Ok (x0, V) ->
  (forall row, In row V -> length row = length y) ->
  Forall2 (fun gM Us => exact_dec K (snd gM) (fst Us) (snd Us)) (gram_matrices n d ineqs (point x0 V y)) decs ->
  exists cert, as_solution n G d ineqs eqs x0 V y decs iexprs eexprs = Ok cert /\
    (forall x, cert x = peval x f) /\
    (forall x, (forall g p, In g ineqs -> In p G -> 0 <= peval (fun i => x (nth i p 0%nat)) g) ->
       (forall h p, In h eqs -> In p G -> peval (fun i => x (nth i p 0%nat)) h = 0) -> 0 <= cert x).
Proof.
  intros d Wf Hw D1 D2 E1 E2 HR H Hy F. destruct (construct_checks f ineqs eqs x0 V Wf H) as (H1 & H2 & H3 & H4 & H5 & H6). fold d in H4, H5, H6.
  destruct (construct_solves f ineqs eqs x0 V Wf Hw HR H) as (free & F1 & L1 & L2 & F2). fold d in F2, L1.
  apply (certificate_value K n G HG f ineqs eqs (point x0 V y) decs iexprs eexprs); try assumption.
  - apply (symm_coef K n G HG); assumption.
  - intros g Hg. split; [apply Hw, Hg|apply H3, Hg].
  - intros s Hs. destruct V as [|row V'].
    + (* no column at all *)
      assert (x0 = []) by (destruct x0; [reflexivity|discriminate]). subst x0. exact (proj2 (F2 (repeat 0 free) (repeat_length _ _)) s Hs).
    + apply F2; [|exact Hs]. rewrite <- (Hy row (or_introl eq_refl)). apply F1. left. reflexivity.
Qed.

(** ** The Gram matrices are symmetric *)
Lemma cut_blocks d X gs : forall ineqs pre start k, length pre = start ->
  forall g M, In (g, M) (cut X start (map (fun g => (g, length (gram_vec n d g))) ineqs)) ->
  In g ineqs /\ length M = length (gram_vec n d g) /\
  exists k' st, forall i j, (i < length (gram_vec n d g))%nat -> (j < length (gram_vec n d g))%nat ->
    mget M i j = vget X (st + (i * length (gram_vec n d g) + j)) /\
    (st + (i * length (gram_vec n d g) + j) < length (pre ++ gram_loop n d k ineqs ++ gs))%nat /\
    nth (st + (i * length (gram_vec n d g) + j)) (pre ++ gram_loop (K := K) n d k ineqs ++ gs) (Mult 0 [] []) = Gram k' g (nth i (gram_vec n d g) []) (nth j (gram_vec n d g) []).
Proof.
  induction ineqs as [|h r IH]; intros pre start k Hp g M H; [destruct H|]. cbn [map cut] in H. destruct H as [E|H].
  - apply pair_equal_spec in E. destruct E as [-> E]. split; [left; reflexivity|]. rewrite <- E. split; [apply mtab_rows|].
    exists k, start. intros i j Hi Hj. rewrite mget_mtab by assumption. split; [reflexivity|]. cbn [gram_loop].
    assert (L : (i * length (gram_vec n d g) + j < length (gram_cols n d k g))%nat) by (rewrite gram_cols_length; nia).
    split; [rewrite !app_length; lia|]. rewrite app_nth2 by lia. replace (start + (i * length (gram_vec n d g) + j) - length pre)%nat with (i * length (gram_vec n d g) + j)%nat by lia.
    rewrite <- app_assoc, app_nth1 by exact L. apply (nth_grid K (Gram k g) (gram_vec n d g) j Hj (gram_vec n d g) i Hi).
  - destruct (IH (pre ++ gram_cols n d k h) (start + length (gram_vec n d h) * length (gram_vec n d h))%nat (S k)) with (g := g) (M := M) as (H1 & H2 & k' & st & H3).
    + rewrite app_length, gram_cols_length, Hp. reflexivity.
    + exact H.
    + split; [right; exact H1|]. split; [exact H2|]. exists k', st. intros i j Hi Hj. specialize (H3 i j Hi Hj). cbn [gram_loop]. rewrite <- !app_assoc in H3. rewrite <- app_assoc. exact H3.
Qed.
Lemma gram_symmetric f ineqs eqs x0 V y : let d := total_degree f in
  wf n f -> (forall g, In g (ineqs ++ eqs) -> wf n g) -> distinct K ineqs -> coupled f ineqs eqs \/ reachable f ineqs ->
  construct n G gens order f ineqs eqs = Ok (x0, V) -> (forall row, In row V -> length row = length y) ->
  forall g M, In (g, M) (gram_matrices n d ineqs (point x0 V y)) ->
  In g ineqs /\ length M = length (gram_vec n d g) /\ symmetric (length M) M /\
  (symm K G g -> forall i j i' j' p, (i < length M)%nat -> (j < length M)%nat -> (i' < length M)%nat -> (j' < length M)%nat -> In p G ->
     nth i' (gram_vec n d g) [] = act 0%nat p (nth i (gram_vec n d g) []) -> nth j' (gram_vec n d g) [] = act 0%nat p (nth j (gram_vec n d g) []) -> mget M i' j' = mget M i j).
Proof.
  intros d Wf Hw D1 HR H Hy g M HM. destruct (construct_checks f ineqs eqs x0 V Wf H) as (_ & _ & _ & H4 & H5 & _). fold d in H4, H5.
  destruct (construct_solves f ineqs eqs x0 V Wf Hw HR H) as (free & F1 & L1 & L2 & F2). fold d in F2, L1.
  unfold gram_matrices in HM. rewrite splits_id in HM by exact D1.
  destruct (cut_blocks d (point x0 V y) (mult_loop n d 0 (low d eqs)) ineqs [] 0%nat 0%nat eq_refl g M HM) as (Hg & LM & k' & st & B). cbn [app] in B.
  change (gram_loop n d 0 ineqs ++ mult_loop n d 0 (low d eqs)) with (columns n d ineqs eqs) in B.
  split; [exact Hg|]. split; [exact LM|].
  destruct V as [|row V'].
  { assert (x0 = []) by (destruct x0; [reflexivity|discriminate]). subst x0.
    assert (Z : length (gram_vec n d g) = 0%nat).
    { destruct (length (gram_vec n d g)) eqn:E; [reflexivity|]. exfalso. destruct (B 0%nat 0%nat) as (_ & B2 & _); [lia|lia|]. rewrite <- L1 in B2. cbn in B2. lia. }
    rewrite LM, Z. split; [intros i j Hi; lia|intros _ i j i' j' p Hi; lia]. }
  assert (Ly : length y = free) by (rewrite <- (Hy row (or_introl eq_refl)); apply F1; left; reflexivity).
  destruct (F2 y Ly) as [EQ _].
  pose proof (equal_entries_blk K n G gens order HG Hgens HO d ineqs eqs Hw H4) as BL.
  assert (SAME : forall a b, (a < length (columns n d ineqs eqs))%nat -> (b < length (columns n d ineqs eqs))%nat ->
     rel K G (nth a (columns n d ineqs eqs) (Mult 0 [] [])) (nth b (columns n d ineqs eqs) (Mult 0 [] [])) -> vget (point x0 (row :: V') y) a = vget (point x0 (row :: V') y) b).
  { intros a b Ha Hb R. destruct (b_cover _ _ _ _ _ BL a b Ha Hb R) as (gr & Hgr & Ia). cbn [Nat.add] in Ia. apply (EQ gr a b Hgr Ia).
    apply (b_mem _ _ _ _ _ BL gr a b Hgr Ia). rewrite !Nat.sub_0_r. split; [lia|exact R]. }
  assert (Ln : forall i, (i < length (gram_vec n d g))%nat -> length (nth i (gram_vec n d g) []) = n).
  { intros i Hi. apply (base_len n ((d - total_degree g) / 2)). apply nth_In, Hi. }
  rewrite LM. split.
  - intros i j Hi Hj. destruct (B i j Hi Hj) as (B1 & B2 & B3). destruct (B j i Hj Hi) as (C1 & C2 & C3). rewrite B1, C1.
    destruct (Nat.eq_dec i j) as [->|Nij]; [reflexivity|]. apply SAME; [exact B2|exact C2|]. rewrite B3, C3. cbn [rel]. split; [reflexivity|].
    destruct (is_sym n gens g) eqn:Es.
    + left. split; [apply (is_sym_spec K n G gens HG Hgens g); [apply Hw, in_or_app; left; exact Hg|exact Es]|].
      exists (pid n). split; [apply (g_id n G HG)|]. right. rewrite !act_id by (apply Ln; assumption). auto.
    + right. split; [intro S; apply (is_sym_spec K n G gens HG Hgens g) in S; [congruence|apply Hw, in_or_app; left; exact Hg]|]. split; [|auto].
      intro E. apply Nij. apply (proj1 (NoDup_nth _ []) (base_monoms_nodup n true ((d - total_degree g) / 2))); assumption.
  - intros S i j i' j' p Hi Hj Hi' Hj' Hp Ei Ej. destruct (B i j Hi Hj) as (B1 & B2 & B3). destruct (B i' j' Hi' Hj') as (C1 & C2 & C3). rewrite B1, C1.
    symmetry. apply SAME; [exact B2|exact C2|]. rewrite B3, C3, Ei, Ej. cbn [rel]. split; [reflexivity|]. left. split; [exact S|]. exists p. auto.
Qed.
(** ** Positive semidefinite matrices give a certificate *)
Lemma cong_rows m : forall (M U : list (list K)) w, cong_loop m M = Some (U, w) -> forall r, In r U -> length r = m.
Proof.
  induction m as [|[|m] IH]; intros M U w H r Hr.
  - discriminate.
  - cbn in H. destruct (mget M 0 0 <? 0); inversion H; subst. destruct Hr as [<-|[]]. reflexivity.
  - rewrite cong_loop_SS in H. cbv zeta in H. destruct (0 <? mget M 0 0).
    + destruct (cong_loop (S m) _) as [[U' S']|] eqn:E; [|discriminate]. inversion H; subst. destruct Hr as [<-|Hr].
      * cbn [length]. rewrite vtab_length. reflexivity.
      * apply in_map_iff in Hr. destruct Hr as (a & <- & Ha). cbn [length]. f_equal. apply (IH _ _ _ E a Ha).
    + destruct (mget M 0 0 <? 0); [discriminate|]. destruct (existsb _ _); [discriminate|].
      destruct (cong_loop (S m) _) as [[U' S']|] eqn:E; [|discriminate]. inversion H; subst. destruct Hr as [<-|Hr].
      * apply vtab_length.
      * apply in_map_iff in Hr. destruct Hr as (a & <- & Ha). cbn [length]. f_equal. apply (IH _ _ _ E a Ha).
Qed.
Lemma congruence_exact_dec (M : list (list K)) U w : symmetric (length M) M -> congruence M = Ok (Some (U, w)) -> exact_dec K M U w.
Proof.
  intros HS H. destruct (congruence_sound_lemma K M U w HS H) as (LU & Lw & C & P & _). apply congruence_ok in H. destruct H as [_ H].
  split; [congruence|]. split; [apply (cong_rows _ _ _ _ H)|]. split; [rewrite LU; exact C|].
  intros c Hc. destruct (In_nth w c 0 Hc) as (i & Hi & <-). apply P. congruence.
Qed.
Lemma base_nonempty e : (1 <= n)%nat -> base_monoms n true e <> [].
Proof.
  intros Hn E. destruct n as [|m] eqn:En; [lia|].
  assert (I : In (e :: repeat 0%nat m) (base_monoms (S m) true e)); [|rewrite E in I; destruct I].
  apply base_monoms_in. split; [cbn [length]; rewrite repeat_length; reflexivity|]. rewrite list_sum_cons, list_sum_zeros. lia.
Qed.
Lemma psd_decompositions f ineqs eqs x0 V y : let d := total_degree f in
  (1 <= n)%nat -> wf n f -> (forall g, In g (ineqs ++ eqs) -> wf n g) -> distinct K ineqs -> coupled f ineqs eqs \/ reachable f ineqs ->
  construct n G gens order f ineqs eqs = Ok (x0, V) -> (forall row, In row V -> length row = length y) ->
  (forall g M, In (g, M) (gram_matrices n d ineqs (point x0 V y)) -> psd (length M) M) ->
  exists decs, Forall2 (fun gM Us => congruence (snd gM) = Ok (Some Us)) (gram_matrices n d ineqs (point x0 V y)) decs /\
    Forall2 (fun gM Us => exact_dec K (snd gM) (fst Us) (snd Us)) (gram_matrices n d ineqs (point x0 V y)) decs.
Proof.
  intros d Hn Wf Hw D1 HR H Hy HP. pose proof (gram_symmetric f ineqs eqs x0 V y Wf Hw D1 HR H Hy) as HS. fold d in HS.
  assert (Q : forall g M, In (g, M) (gram_matrices n d ineqs (point x0 V y)) -> M <> [] /\ symmetric (length M) M /\ psd (length M) M).
  { intros g M I. destruct (HS g M I) as (_ & LM & S & _). split; [|split; [exact S|apply (HP g M I)]].
    intro E. subst M. apply (base_nonempty ((d - total_degree g) / 2) Hn). apply length_zero_iff_nil. symmetry. exact LM. }
  clear HS HP. induction (gram_matrices n d ineqs (point x0 V y)) as [|[g M] l IH]; [exists []; split; constructor|].
  destruct IH as (decs & F1 & F2); [intros g' M' I; apply (Q g'); right; exact I|].
  destruct (Q g M (or_introl eq_refl)) as (Ne & S & P).
  destruct (cong_loop (length M) M) as [[U w]|] eqn:E.
  - assert (C : congruence M = Ok (Some (U, w))) by (rewrite congruence_nonempty, E by exact Ne; reflexivity).
    exists ((U, w) :: decs). split; constructor; try assumption. cbn [fst snd]. apply congruence_exact_dec; assumption.
  - exfalso. assert (C : congruence M = Ok None) by (rewrite congruence_nonempty, E by exact Ne; reflexivity).
    apply (congruence_none_lemma K M Ne S) in C. destruct C as (x & L). apply (flt_not_le K) in L. apply L, P.
Qed.
End Exact.
