(** * Null spaces of roots: the functions of Manifold.v *)
From Coq Require Import Bool List Arith Lia Permutation Ring Field.
From Verif Require Import OrdField Base Congruence LinSolve LinSep Perm Poly PolyId PolyOps Partitions Shared Monomials MonomialsLemmas Coeff ClearSym SdpSos SdpSosFacts SdpSosCert SdpSosGroups SdpSosExact SdpTransform CertLimit Manifold ManifoldSets ManifoldTaylor ManifoldMain.
Import ListNotations.

Section Facts.
Variable K : OrdField.
Local Open Scope of_scope.
Add Field Kf : (F_field K).
Variable n : nat.
Variable G : list (list nat).
Hypothesis HG : is_group n G.

Lemma vget_act p (r : list K) k : (k < length p)%nat -> vget (act (0 : K) p r) k = vget r (nth k p 0%nat).
Proof. intro H. unfold vget. apply act_nth, H. Qed.
Lemma peval_act p (r : list K) g : In p G -> wf n g -> peval (vget (act (0 : K) p r)) g = peval (fun i => vget r (nth i p 0%nat)) g.
Proof.
  intros Hp Hg. apply (peval_ext_len K n); [exact Hg|]. intros i Hi. apply vget_act. rewrite (is_perm_length n p (g_perm n G HG p Hp)). exact Hi.
Qed.
Lemma feasible_admissible (r : list K) ineqs eqs p : (forall g, In g (ineqs ++ eqs) -> wf n g) -> feasible G r ineqs eqs = true -> In p G ->
  admissible G ineqs eqs (vget (act (0 : K) p r)).
Proof.
  intros Hw H Hp q Hq. unfold feasible in H. rewrite forallb_forall in H.
  pose proof (g_perm n G HG q Hq) as Pq. pose proof (is_perm_length n p (g_perm n G HG p Hp)) as Lp.
  specialize (H (act (0 : K) (pcomp q p) r)). destruct (andb_prop _ _ (H (in_map (fun p => act (0 : K) p r) _ _ (g_mul n G HG q p Hq Hp)))) as [H1 H2]. clear H.
  rewrite forallb_forall in H1, H2. rewrite <- (act_comp (0 : K) n q p r Pq Lp) in H1, H2. split.
  - intros g Hg. rewrite <- (peval_act q (act (0 : K) p r) g Hq) by (apply Hw, in_or_app; left; exact Hg). apply fleb_le, H1, Hg.
  - intros h Hh. rewrite <- (peval_act q (act (0 : K) p r) h Hq) by (apply Hw, in_or_app; right; exact Hh). apply feqb_eq, H2, Hh.
Qed.
Lemma root_act f p (r : list K) : wf n f -> symm K G f -> In p G -> peval (vget r) f = 0 -> peval (vget (act (0 : K) p r)) f = 0.
Proof. intros Wf Sf Hp Z. rewrite (peval_act p r f Hp Wf), (Sf p Hp). exact Z. Qed.
(** the vectors of the permuted roots *)
Lemma meval_act p (r : list K) m : In p G -> length m = n -> meval (vget (act (0 : K) p r)) (act 0%nat p m) = meval (vget r) m.
Proof.
  intros Hp Hm. pose proof (g_perm n G HG p Hp) as Pp.
  transitivity (meval (fun i => vget r (nth i p 0%nat)) (act 0%nat p m)).
  - unfold meval. apply (fprod_map_ext K). intros k Hk. apply in_seq in Hk. rewrite act_length in Hk. rewrite vget_act by lia. reflexivity.
  - rewrite (meval_perm K n) by (try exact Pp; rewrite act_length; apply (is_perm_length n p Pp)). f_equal.
    apply (act_inv n G HG); [apply (pinv_in n G p HG Hp)|exact Hp|apply (pinv_l n p Pp)|exact Hm].
Qed.
Lemma combine_keys {A B} (l : list A) (F : A -> B) : combine l (map F l) = map (fun m => (m, F m)) l.
Proof. induction l as [|a l IH]; [reflexivity|]. cbn [map combine]. rewrite IH. reflexivity. Qed.
Lemma permute_plain (r : list K) e : permute_vec K n G true (plain_vec n r e) e
  = Ok (map (fun p => map (fun m => meval (vget (act (0 : K) p r)) m) (base_monoms n true e)) G).
Proof.
  set (mons := base_monoms n true e). set (P := map (fun m => (m, meval (vget r) m)) mons : poly K).
  assert (KP : keys P = mons) by (unfold P, keys; rewrite map_map; cbn [fst]; apply map_id).
  assert (WP : wf n P).
  { split; rewrite KP; [apply base_monoms_nodup|]. intros m Hm. apply base_monoms_in in Hm. apply Hm. }
  assert (CP : forall m, In m mons -> coef P m = meval (vget r) m).
  { intros m Hm. apply (coef_in K P m); [apply WP|]. unfold P. apply in_map_iff. exists m. split; [reflexivity|exact Hm]. }
  assert (E : plain_vec n r e = map (coef P) (base_monoms n true e)) by (apply map_ext_in; intros m Hm; symmetry; apply CP, Hm).
  rewrite E, (permute_vec_spec K n G true HG P e WP). f_equal. apply map_ext_in. intros p Hp. apply map_ext_in. intros m Hm.
  pose proof (g_perm n G HG p Hp) as Pp. assert (Lm : length m = n) by (apply base_monoms_in in Hm; apply Hm).
  assert (Em : act 0%nat p (act 0%nat (pinv p) m) = m).
  { apply (act_inv n G HG); [exact Hp|apply (pinv_in n G p HG Hp)|apply (pinv_r n p Pp)|exact Lm]. }
  assert (L' : length (act 0%nat (pinv p) m) = n) by (rewrite act_length; apply (is_perm_length n), pinv_is_perm, Pp).
  rewrite <- Em at 1. rewrite (reorder_coef K n p P _ Pp WP L'), CP.
  - rewrite <- (meval_act p r _ Hp L'), Em. reflexivity.
  - apply (base_monoms_act n true); [apply pinv_is_perm, Pp|exact Hm].
Qed.

Section Cert.
Variable f : poly K.
Hypothesis Wf : wf n f.
Hypothesis Sf : symm K G f.
Variables ineqs eqs : list (poly K).
Hypothesis Hw : forall g, In g (ineqs ++ eqs) -> wf n g.
Variable Ms : list (poly K * list (list K)).
Hypothesis HM : gram_blocks n (total_degree f) ineqs Ms.
Hypothesis HI : gram_certificate n G f eqs Ms.
Notation vec g := (gram_vec n (total_degree f) g).
Notation Hw1 := (fun g H => Hw g (in_or_app _ _ _ (or_introl H))).
(** what is asked of a root *)
Definition good_root (r : root K) : Prop := length (coords r) = n /\ peval (vget (coords r)) f = 0 /\
  (rational r = true -> feasible G (coords r) ineqs eqs = true -> forall p i, In p G -> (i < n)%nat ->
     is_binary (coords r) = true -> peval (vget (act (0 : K) p (coords r))) (pdiff i f) = 0 -> inward G ineqs eqs (act (0 : K) p (coords r)) i).
Lemma distinct_values_in (l : list K) : (forall a, In a (distinct_values l) <-> In a l) /\ NoDup (distinct_values l).
Proof.
  induction l as [|x l [IH1 IH2]]; [split; [tauto|constructor]|]. cbn [distinct_values]. destruct (existsb (feqb x) l) eqn:E.
  - split; [|exact IH2]. intro a. rewrite IH1. cbn. apply existsb_exists in E. destruct E as (y & Hy & E). apply feqb_eq in E. subst y. split; [tauto|]. intros [<-|H]; tauto.
  - split.
    + intro a. cbn. rewrite IH1. tauto.
    + constructor; [|exact IH2]. rewrite IH1. intro I. assert (T : existsb (feqb x) l = true) by (apply existsb_exists; exists x; split; [exact I|apply feqb_eq; reflexivity]). congruence.
Qed.
Lemma is_binary_act p (r : list K) : In p G -> length r = n -> is_binary (act (0 : K) p r) = is_binary r.
Proof.
  intros Hp Hr. unfold is_binary. f_equal. apply Permutation_length, NoDup_Permutation; try apply distinct_values_in.
  intro a. rewrite !(proj1 (distinct_values_in _)). pose proof (g_perm n G HG p Hp) as Pp. split; intro H.
  - unfold act in H. apply in_map_iff in H. destruct H as (i & <- & Hi). apply nth_In. rewrite Hr. apply (Permutation_in _ Pp) in Hi. apply in_seq in Hi. lia.
  - destruct (In_nth _ _ 0 H) as (k & Hk & <-). unfold act. apply (in_map (fun i => nth i r 0)). apply (Permutation_in _ (Permutation_sym Pp)). apply in_seq. lia.
Qed.
Lemma root_space_kills r gM s : good_root r -> feasible G (coords r) ineqs eqs = true -> In gM Ms ->
  fst gM <> [] -> (forall t, In t (fst gM) -> snd t <> 0) -> root_space n G f r (fst gM) = Ok s ->
  forall w, In w s -> length w = length (vec (fst gM)) /\ mat_kills (length (vec (fst gM))) (snd gM) (vget w).
Proof.
  intros (Lr & Zr & Hd) Fr I Ne Nz H w Hin. unfold root_space in H.
  assert (EXT : forall (u : list nat -> K) l, mat_kills (length (vec (fst gM))) (snd gM) (fun k => u (nth k (vec (fst gM)) [])) -> l = map u (vec (fst gM)) ->
     length l = length (vec (fst gM)) /\ mat_kills (length (vec (fst gM))) (snd gM) (vget l)).
  { intros u l Hk ->. split; [apply map_length|]. intros a Ha. rewrite <- (Hk a Ha). apply bsum_ext. intros b Hb. f_equal. apply (vget_map K), Hb. }
  destruct (rational r && is_monomial (fst gM))%bool eqn:C.
  - apply andb_prop in C. destruct C as [C1 C2]. apply Ok_inj in H. subst s. apply in_flat_map in Hin. destruct Hin as (r' & Hr' & Hin).
    apply in_map_iff in Hr'. destruct Hr' as (p & <- & Hp). apply in_map_iff in Hin. destruct Hin as (o & <- & Ho).
    destruct gM as [g M]. cbn [fst snd] in *. destruct g as [|[m c] [|t g]]; [congruence| |discriminate C2].
    apply (EXT (as_vec_entry n (act (0 : K) p (coords r)) o)); [|reflexivity].
    apply (nonvanishing_orders_kill K n G HG f Wf ineqs eqs Hw1 Ms HM HI (act (0 : K) p (coords r))) with (c := c).
    + apply root_act; assumption.
    + apply feasible_admissible; assumption.
    + intros HB i Hi D. apply Hd; try assumption. rewrite is_binary_act in HB by assumption. exact HB.
    + exact I.
    + apply (Nz (m, c)). left. reflexivity.
    + exact Ho.
  - rewrite permute_plain in H. apply Ok_inj in H. subst s. unfold permuted in Hin.
    assert (CM : forall (A B C : Type) (u : A -> B) (v : A -> C) l, combine (map u l) (map v l) = map (fun a => (u a, v a)) l).
    { clear. intros A B C u v l. induction l as [|a l IH]; [reflexivity|]. cbn [map combine]. rewrite IH. reflexivity. }
    rewrite CM in Hin. apply in_flat_map in Hin. destruct Hin as ([r' col] & Hp & Hin). apply in_map_iff in Hp. destruct Hp as (p & E & Hp).
    apply pair_equal_spec in E. destruct E as [<- <-]. cbn [fst snd] in Hin.
    destruct (_ || _)%bool eqn:T in Hin; [|destruct Hin]. destruct Hin as [<-|[]].
    apply (EXT (fun m => meval (vget (act (0 : K) p (coords r))) m)); [|reflexivity].
    apply (zero_kills K n G HG f ineqs eqs Hw1 Ms HM HI).
    + apply root_act; assumption.
    + apply feasible_admissible; assumption.
    + exact I.
    + apply orb_prop in T. destruct T as [T|T].
      * apply andb_prop in T. destruct T as [T T3]. apply andb_prop in T. destruct T as [T1 T2].
        destruct gM as [g M]. cbn [fst snd] in *. destruct g as [|[m c] [|t g]]; [congruence| |discriminate T1].
        rewrite forallb_forall in T3. unfold peval. cbn [map fst snd]. change (fsum (?a :: [])) with (a + 0).
        intro Q. assert (Q' : c * meval (vget (act (0 : K) p (coords r))) m = 0) by (etransitivity; [|exact Q]; ring).
        revert Q'. apply (fmul_neq0 K); [apply (Nz (m, c)); left; reflexivity|]. apply meval_neq0. intros k Hk _.
        assert (Lm : length m = n) by (destruct (HM _ I) as (J & _); apply (Hw1 _ J); left; reflexivity).
        pose proof (g_perm n G HG p Hp) as Pp.
        assert (Hk' : (k < length p)%nat) by (rewrite (is_perm_length n p Pp); lia).
        rewrite vget_act by exact Hk'. assert (J : In (vget (coords r) (nth k p 0%nat)) (coords r)).
        { apply nth_In. rewrite Lr. assert (J : In (nth k p 0%nat) (seq 0 n)) by (apply (Permutation_in _ Pp), nth_In, Hk'). apply in_seq in J. lia. }
        apply T3, negb_true_iff, (feqb_neq K) in J. exact J.
      * apply negb_true_iff, (feqb_neq K) in T. exact T.
Qed.
Lemma from_roots_kills gM : In gM Ms -> fst gM <> [] -> (forall t, In t (fst gM) -> snd t <> 0) ->
  forall roots s, (forall r, In r roots -> good_root r) -> from_roots n G f roots (fst gM) ineqs eqs = Ok s ->
  forall w, In w s -> length w = length (vec (fst gM)) /\ mat_kills (length (vec (fst gM))) (snd gM) (vget w).
Proof.
  intros I Ne Nz. induction roots as [|r roots IH]; intros s Hr H w Hin; cbn [from_roots] in H; [apply Ok_inj in H; subst s; destruct Hin|].
  destruct (feasible G (coords r) ineqs eqs) eqn:F.
  - destruct (root_space n G f r (fst gM)) as [s1|] eqn:E1; [|discriminate]. destruct (from_roots n G f roots (fst gM) ineqs eqs) as [s2|] eqn:E2; [|discriminate].
    apply Ok_inj in H. subst s. apply in_app_or in Hin. destruct Hin as [Hin|Hin].
    + apply (root_space_kills r gM s1); try assumption. apply Hr. left. reflexivity.
    + apply (IH s2); [intros; apply Hr; right; assumption|reflexivity|exact Hin].
  - apply (IH s); [intros; apply Hr; right; assumption|exact H|exact Hin].
Qed.
Lemma nullspaces_kill gs roots l : (forall r, In r roots -> good_root r) -> nullspaces n G f roots gs ineqs eqs = Ok l ->
  map fst l = gs /\
  forall gM S, In gM Ms -> fst gM <> [] -> (forall t, In t (fst gM) -> snd t <> 0) -> In (fst gM, S) l -> forall w, In w S ->
    length w = length (vec (fst gM)) /\ mat_kills (length (vec (fst gM))) (snd gM) (vget w).
Proof.
  intro Hr. revert l. induction gs as [|g gs IH]; intros l H; cbn [nullspaces] in H; [apply Ok_inj in H; subst l; split; [reflexivity|intros gM T _ _ _ []]|].
  destruct (nullspace n G f roots g ineqs eqs) as [s|] eqn:E1; [|discriminate]. destruct (nullspaces n G f roots gs ineqs eqs) as [l'|] eqn:E2; [|discriminate].
  apply Ok_inj in H. subst l. destruct (IH l' eq_refl) as [I1 I2]. split; [cbn [map fst]; rewrite I1; reflexivity|].
  intros gM T I Ne Nz [E|J]; [|exact (I2 gM T I Ne Nz J)]. apply pair_equal_spec in E. destruct E as [-> <-].
  unfold nullspace in E1. destruct (_ =? _)%nat; [|discriminate]. apply (from_roots_kills gM I Ne Nz roots s Hr E1).
Qed.
End Cert.

(** ** Every solution of the equations is such a certificate *)
Lemma gram_sum_value x X dd : forall ineqs start k,
  gram_sum K n (fun c => col_value K G c x) X dd start k ineqs
  = fsum (map (fun gM => fsum (map (fun p => gram_value n dd gM (fun i => x (nth i p 0%nat))) G))
              (cut X start (map (fun g => (g, length (gram_vec n dd g))) ineqs))).
Proof.
  induction ineqs as [|g l IH]; intros start k; [reflexivity|]. cbn [gram_sum map cut]. cbv zeta. change (fsum (?a :: ?b)) with (a + fsum b). rewrite IH. f_equal.
  clear IH. set (v := gram_vec n dd g). unfold gram_value. cbn [fst snd]. fold v. unfold col_value, lift. cbn [col_poly col_shift].
  clear HG. induction G as [|p L IHL].
  - cbn [map]. change (fsum []) with (0 : K). apply (bsum_all0 K). intros; apply (bsum_all0 K); intros; ring.
  - cbn [map]. change (fsum (?a :: ?b)) with (a + fsum b). rewrite <- IHL. unfold qform. rewrite <- bsum_mul_l, <- bsum_add. apply bsum_ext. intros a Ha.
    rewrite <- bsum_mul_l, <- bsum_add. apply bsum_ext. intros b Hb. change (fsum (?a :: ?b)) with (a + fsum b). rewrite mget_mtab by assumption.
    rewrite madd_meval; [ring|].
    assert (LN : forall c, (c < length v)%nat -> length (nth c v []) = n) by (intros c Hc; apply (base_monoms_in n true ((dd - total_degree g) / 2)), nth_In, Hc).
    rewrite !LN by assumption. reflexivity.
Qed.
Lemma mult_sum_zero x X dd : forall eqs start k, (forall h p, In h eqs -> In p G -> peval (fun i => x (nth i p 0%nat)) h = 0) ->
  mult_sum K n (fun c => col_value K G c x) X dd start k eqs = 0.
Proof.
  induction eqs as [|h l IH]; intros start k H; [reflexivity|]. cbn [mult_sum]. cbv zeta. rewrite IH by (intros; apply H; [right; assumption|assumption]).
  rewrite (bsum_all0 K); [ring|]. intros a Ha. unfold col_value, lift. cbn [col_poly col_shift]. rewrite (fsum_map_0 K); [ring|].
  intros p Hp. rewrite H; [ring|left; reflexivity|exact Hp].
Qed.

Section Construct.
Variable gens : list (list nat).
Variable order : list nat -> list nat.
Hypothesis Hgens : forall p, In p G <-> generated n gens p.
Hypothesis HO : order_ok order.
Lemma construct_certificate f ineqs eqs x0 V y :
  wf n f -> (forall g, In g (ineqs ++ eqs) -> wf n g) -> distinct K ineqs ->
  coupled K n G f ineqs eqs \/ reachable K f ineqs ->
  construct n G gens order f ineqs eqs = Ok (x0, V) -> (forall row, In row V -> length row = length y) ->
  gram_certificate n G f eqs (gram_matrices n (total_degree f) ineqs (point x0 V y)).
Proof.
  intros Wf Hw D1 HR H Hy x Hx. destruct (construct_checks K n G gens order HG Hgens f ineqs eqs x0 V Wf H) as (H1 & H2 & H3 & H4 & H5 & H6).
  destruct (construct_solves K n G gens order HG Hgens HO f ineqs eqs x0 V Wf Hw HR H) as (free & F1 & L1 & L2 & F2).
  unfold gram_matrices. rewrite splits_id by exact D1. rewrite <- (gram_sum_value x (point x0 V y) (total_degree f) ineqs 0 0).
  transitivity (bsum (length (columns n (total_degree f) ineqs eqs)) (fun j => vget (point x0 V y) j * col_value K G (nth j (columns n (total_degree f) ineqs eqs) (Mult 0 [] [])) x)).
  - symmetry. apply (combination_value K n G HG (total_degree f)); [exact Wf|apply is_hom_keys, H1|apply (symm_coef K n G HG); assumption| |].
    + apply columns_ok; [|exact H4]. intros g Hg. split; [apply Hw, Hg|apply H3, Hg].
    + intros s Hs. destruct V as [|row V'].
      * assert (x0 = []) by (destruct x0; [reflexivity|discriminate]). subst x0. exact (proj2 (F2 (repeat 0 free) (repeat_length _ _)) s Hs).
      * apply F2; [|exact Hs]. rewrite <- (Hy row (or_introl eq_refl)). apply F1. left. reflexivity.
  - rewrite columns_sum by (apply low_all, H5). rewrite (mult_sum_zero x _ _ eqs) by exact Hx. ring.
Qed.
Lemma construct_blocks f ineqs eqs x0 V y :
  wf n f -> (forall g, In g (ineqs ++ eqs) -> wf n g) -> distinct K ineqs ->
  coupled K n G f ineqs eqs \/ reachable K f ineqs ->
  construct n G gens order f ineqs eqs = Ok (x0, V) -> (forall row, In row V -> length row = length y) ->
  (forall g M, In (g, M) (gram_matrices n (total_degree f) ineqs (point x0 V y)) -> psd (length M) M) ->
  gram_blocks n (total_degree f) ineqs (gram_matrices n (total_degree f) ineqs (point x0 V y)).
Proof.
  intros Wf Hw D1 HR H Hy HP [g M] I. cbn [fst snd].
  destruct (gram_symmetric K n G gens order HG Hgens HO f ineqs eqs x0 V y Wf Hw D1 HR H Hy g M I) as (Hg & LM & S & _).
  specialize (HP g M I). rewrite LM in HP, S. auto.
Qed.
End Construct.

(** ** Monomial constraints on the orthant *)
Definition monomial_constraints (ineqs : list (poly K)) : Prop := forall g, In g ineqs -> exists m c, g = [(m, c)] /\ 0 < c.
Lemma meval_nonneg (x : nat -> K) m : (forall k, (k < length m)%nat -> 0 <= x k) -> 0 <= meval x m.
Proof. intro H. unfold meval. apply fprod_nonneg. intros v Hv. apply in_map_iff in Hv. destruct Hv as (k & <- & Hk). apply in_seq in Hk. apply fpow_nonneg, H. lia. Qed.
Lemma orthant_inward ineqs (r : list K) i : (forall g, In g ineqs -> wf n g) -> monomial_constraints ineqs -> length r = n -> (forall a, In a r -> 0 <= a) -> (i < n)%nat -> inward G ineqs [] r i.
Proof.
  intros Hw Hm Lr Hr Hi. exists 1. split; [apply f1_pos|]. intros t T1 _ p Hp. split; [|intros h []].
  intros g Hg. destruct (Hm g Hg) as (m & c & -> & Hc). pose proof (proj2 (Hw _ Hg) m (or_introl eq_refl)) as Lm.
  unfold peval. cbn [map fst snd]. change (fsum (?a :: [])) with (a + 0). apply fadd_nonneg; [|apply fle_refl]. apply fmul_nonneg; [apply flt_le, Hc|].
  pose proof (g_perm n G HG p Hp) as Pp.
  apply meval_nonneg. intros k Hk.
  assert (J : In (nth k p 0%nat) (seq 0 n)) by (apply (Permutation_in _ Pp), nth_In; rewrite (is_perm_length n p Pp); lia). apply in_seq in J.
  assert (P : forall j, (j < n)%nat -> 0 <= vget r j) by (intros j Hj; apply Hr, nth_In; lia).
  destruct (_ =? _)%nat; [apply fadd_nonneg; [apply P, Hi|exact T1]|apply P; lia].
Qed.
(** ** [_findroot_binary] *)
Lemma binary_points_in k b : In b (binary_points k) <-> length b = k /\ forall e, In e b -> e = 0%nat \/ e = 1%nat.
Proof.
  revert b. induction k as [|k IH]; intro b; cbn [binary_points].
  - split; [intros [<-|[]]; split; [reflexivity|intros e []]|]. intros [L _]. left. destruct b; [reflexivity|discriminate].
  - rewrite in_app_iff, !in_map_iff. split.
    + intros [(c & <- & Hc)|(c & <- & Hc)]; apply IH in Hc; destruct Hc as [L H]; (split; [cbn; lia|]); intros e [<-|He]; auto.
    + intros [L H]. destruct b as [|e b]; [discriminate|]. cbn in L. destruct (H e (or_introl eq_refl)) as [-> | ->]; [left|right]; exists b; (split; [reflexivity|]); apply IH; (split; [lia|]); intros e He; apply H; right; exact He.
Qed.
Lemma dedup_in l b : In b (dedup l) <-> In b l.
Proof.
  induction l as [|a l IH]; [tauto|]. cbn [dedup]. destruct (existsb (meqb a) l) eqn:E.
  - rewrite IH. apply existsb_exists in E. destruct E as (x & Hx & E). apply meqb_eq in E. subst x. cbn. split; [tauto|]. intros [<-|H]; tauto.
  - cbn. rewrite IH. tauto.
Qed.
Lemma findroot_binary_in f r : wf n f -> symm K G f -> In r (findroot_binary n G f) ->
  rational r = true /\ length (coords r) = n /\ peval (vget (coords r)) f = 0 /\ (forall a, In a (coords r) -> a = 0 \/ a = 1) /\ exists a, In a (coords r) /\ a <> 0.
Proof.
  intros Wf Sf H. unfold findroot_binary in H. apply in_map_iff in H. destruct H as (b & <- & H). cbn [rational coords]. split; [reflexivity|].
  apply filter_In in H. destruct H as [H Nb]. apply dedup_in, in_map_iff in H. destruct H as (b0 & <- & H). apply filter_In in H. destruct H as [H Z].
  apply feqb_eq in Z. apply binary_points_in in H. destruct H as [L0 H0].
  pose proof (standard_in_orbit n G HG b0) as O. unfold permute in O. apply in_map_iff in O. destruct O as (p & Ep & Hp). rewrite <- Ep in *.
  pose proof (g_perm n G HG p Hp) as Pp. pose proof (is_perm_length n p Pp) as Lp.
  assert (IN : forall e, In e (act 0%nat p b0) -> In e b0).
  { intros e He. unfold act in He. apply in_map_iff in He. destruct He as (i & <- & Hi). apply nth_In. rewrite L0. apply (Permutation_in _ Pp) in Hi. apply in_seq in Hi. lia. }
  split; [rewrite map_length, act_length; exact Lp|]. split; [|split].
  - etransitivity; [|exact Z]. rewrite <- (Sf p Hp (fun i => fnat (nth i b0 0%nat))). apply (peval_ext_len K n); [exact Wf|]. intros i Hi.
    unfold vget. rewrite nth_indep with (d' := fnat 0%nat) by (rewrite map_length, act_length, Lp; exact Hi). rewrite (map_nth (fun k => fnat k)). f_equal. apply act_nth. rewrite Lp. exact Hi.
  - intros a Ha. apply in_map_iff in Ha. destruct Ha as (e & <- & He). destruct (H0 e (IN e He)) as [-> | ->]; [left; reflexivity|right; cbn [fnat]; ring].
  - apply negb_true_iff in Nb. assert (EX : existsb (fun e => negb (e =? 0)%nat) (act 0%nat p b0) = true).
    { destruct (existsb (fun e => negb (e =? 0)%nat) (act 0%nat p b0)) eqn:E; [reflexivity|]. exfalso.
      assert (Q : act 0%nat p b0 = repeat 0%nat n).
      { apply nth_list_ext; [rewrite act_length, repeat_length; exact Lp|]. intro k. rewrite nth_repeat.
        destruct (Nat.lt_ge_cases k (length (act 0%nat p b0))) as [Lk|Lk]; [|apply nth_overflow, Lk].
        destruct (Nat.eq_dec (nth k (act 0%nat p b0) 0%nat) 0%nat) as [Z0|Z0]; [exact Z0|]. exfalso.
        assert (T : existsb (fun e => negb (e =? 0)%nat) (act 0%nat p b0) = true); [|congruence].
        apply existsb_exists. eexists. split; [apply nth_In, Lk|]. apply negb_true_iff, Nat.eqb_neq, Z0. }
      rewrite Q, meqb_refl in Nb. discriminate. }
    apply existsb_exists in EX. destruct EX as (e & He & Ne). apply negb_true_iff, Nat.eqb_neq in Ne. exists (fnat e). split; [apply (in_map (fun k => fnat k)), He|].
    destruct e; [congruence|]. intro Q. pose proof (fnat_pos K (S e) ltac:(lia)) as P. rewrite Q in P. exact (flt_irrefl K 0 P).
Qed.
Lemma findroot_binary_complete f b : wf n f -> symm K G f -> length b = n -> (forall e, In e b -> e = 0%nat \/ e = 1%nat) ->
  (exists e, In e b /\ e <> 0%nat) -> peval (fun i => fnat (nth i b 0%nat)) f = (0 : K) ->
  exists p r, In p G /\ In r (findroot_binary n G f) /\ coords r = map (fun k => fnat k) (act 0%nat p b).
Proof.
  intros Wf Sf Lb Hb (e & He & Ne) Z. pose proof (standard_in_orbit n G HG b) as O. unfold permute in O. apply in_map_iff in O. destruct O as (p & Ep & Hp).
  exists p, (Root (map (fun k => fnat k) (act 0%nat p b)) true). split; [exact Hp|]. split; [|reflexivity].
  unfold findroot_binary. apply (in_map (fun b => Root (map (fun k => fnat k) b) true)). apply filter_In. split.
  - apply dedup_in. rewrite Ep. apply in_map. apply filter_In. split; [apply binary_points_in; auto|apply feqb_eq, Z].
  - apply negb_true_iff. destruct (meqb _ _) eqn:E; [|reflexivity]. exfalso. apply meqb_eq in E. apply Ne.
    destruct (In_nth _ _ 0%nat He) as (k & Hk & <-).
    assert (Q : act 0%nat (pinv p) (act 0%nat p b) = b) by (apply (act_inv n G HG); [apply (pinv_in n G p HG Hp)|exact Hp|apply (pinv_l n p (g_perm n G HG p Hp))|exact Lb]).
    rewrite E in Q. rewrite <- Q. destruct (Nat.lt_ge_cases k (length (pinv p))) as [L|L].
    + rewrite act_nth by exact L. apply nth_repeat.
    + apply nth_overflow. rewrite act_length. exact L.
Qed.
(** ** The fuel of the loop over the derivatives suffices *)
Lemma pdiff_degree i (p : poly K) : (total_degree p <> 0)%nat -> (forall m, In m (keys p) -> (i < length m)%nat) -> (total_degree (pdiff i p) < total_degree p)%nat.
Proof.
  intros H Hl. assert (Q : forall (q : poly K) D, (forall m, In m (keys q) -> (list_sum m <= D)%nat) -> (total_degree q <= D)%nat).
  { clear. induction q as [|[m c] q IH]; intros D Hd; [cbn; lia|]. unfold total_degree. cbn [fold_right fst].
    pose proof (Hd m (or_introl eq_refl)). pose proof (IH D (fun m' H' => Hd m' (or_intror H'))) as X. unfold total_degree in X. lia. }
  assert (Q' : forall (q : poly K) m, In m (keys q) -> (list_sum m <= total_degree q)%nat).
  { clear. induction q as [|[m c] q IH]; intros m' I; [destruct I|]; destruct I as [<-|I]; unfold total_degree; cbn [fold_right fst]; [lia|]. pose proof (IH m' I) as X. unfold total_degree in X. lia. }
  assert (X : (total_degree (pdiff i p) <= pred (total_degree p))%nat); [|lia]. apply Q. intros m Hm. unfold keys, pdiff in Hm. apply in_map_iff in Hm.
  destruct Hm as ([m1 c1] & <- & Hm). apply in_flat_map in Hm. destruct Hm as ([m2 c2] & H2 & Hm). cbn [fst snd] in *.
  destruct (Nat.eqb_spec (nth i m2 0%nat) 0%nat) as [E|E]; [destruct Hm|]. destruct Hm as [E2|[]]. apply pair_equal_spec in E2. destruct E2 as [<- _].
  pose proof (Q' p m2 (in_map fst _ _ H2)) as Q2. specialize (Hl m2 (in_map fst _ _ H2)).
  assert (DS : forall (l : list nat) j, (j < length l)%nat -> (nth j l 0 <> 0)%nat -> S (list_sum (dec l j)) = list_sum l).
  { clear. unfold dec. induction l as [|a l IH]; intros [|j] Hj Ne; cbn [length] in Hj; try lia; cbn [nth lset list_sum fold_right] in *.
    - unfold list_sum. cbn [fold_right]. lia.
    - specialize (IH j ltac:(lia) Ne). unfold list_sum in *. cbn [fold_right]. lia. }
  specialize (DS m2 i Hl E). lia.
Qed.
Lemma orders_loop_enough i (r : list K) k : (i < n)%nat -> forall fuel j (p : poly K), (forall m, In m (keys p) -> length m = n) -> (total_degree p < fuel)%nat ->
  orders_loop n (fuel + k) i j p r = orders_loop n fuel i j p r.
Proof.
  intro Hi. induction fuel as [|fuel IH]; intros j p Hl H; [lia|]. cbn [Nat.add orders_loop].
  destruct (Nat.eqb_spec (total_degree p) 0%nat) as [E|E]; [reflexivity|]. cbn [negb andb]. destruct (peval (root_at r) p =? 0); [|reflexivity]. f_equal. apply IH.
  - apply pdiff_lengths, Hl.
  - pose proof (pdiff_degree i p E (fun m Hm => eq_ind_r (fun x => (i < x)%nat) Hi (Hl m Hm))). lia.
Qed.
End Facts.

(** ** Rational coordinates of an algebraic vector (roots.py:21-35) *)
Section Coordinates.
Variables K L : OrdField.
Local Open Scope of_scope.
Add Field KfL : (F_field L).
(** an embedding of the field of the coefficients *)
Definition embedding (phi : K -> L) : Prop := phi 0 = 0 /\ (forall x y, phi (x + y) = phi x + phi y) /\ (forall x y, phi (x * y) = phi x * phi y).
(** numbers independent over the smaller field *)
Definition independent (phi : K -> L) (k : nat) (e : nat -> L) : Prop := forall c : nat -> K, bsum k (fun j => phi (c j) * e j) = 0 -> forall j, (j < k)%nat -> c j = 0.
Lemma phi_bsum phi N (h : nat -> K) : embedding phi -> phi (bsum N h) = bsum N (fun i => phi (h i)).
Proof. intros (H0 & H1 & _). induction N as [|N IH]; [exact H0|]. cbn [bsum]. rewrite H1, IH. reflexivity. Qed.
Lemma coordinates_killed phi k e N (M : list (list K)) (c : nat -> nat -> K) : embedding phi -> independent phi k e ->
  (forall a, (a < N)%nat -> bsum N (fun b => phi (mget M a b) * bsum k (fun j => phi (c j b) * e j)) = 0) ->
  forall j, (j < k)%nat -> mat_kills N M (c j).
Proof.
  intros Hp Hi H j Hj a Ha. apply (Hi (fun j => bsum N (fun b => mget M a b * c j b))); [|exact Hj].
  rewrite <- (H a Ha). transitivity (bsum k (fun j => bsum N (fun b => phi (mget M a b) * phi (c j b) * e j))).
  - apply bsum_ext. intros i Hi'. rewrite (phi_bsum phi N _ Hp), <- bsum_mul_r. apply bsum_ext. intros b Hb. rewrite (proj2 (proj2 Hp)). reflexivity.
  - rewrite bsum_swap. apply bsum_ext. intros b Hb. rewrite <- bsum_mul_l. apply bsum_ext. intros; ring.
Qed.
End Coordinates.
