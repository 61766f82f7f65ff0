(** * Borders of a sparse cyclic form *)
From Coq Require Import Bool List Arith Lia ZArith Ring Field Permutation Sorted.
From Verif Require Import OrdField Base Perm Poly PolyId Monomials PolyOps Coeff Expr CertLimit TriPoly Univariate UnivariateLemmas.
From Verif Require Import Schur SchurFacts Amgm AmgmFacts AmgmQuot AmgmMain Heur.
From Verif Require Sparse.
Import ListNotations.

Section Facts.
Variable K : OrdField.
Local Open Scope of_scope.
Add Field Kf : (F_field K).
Implicit Types p l : poly K.

(** ** Sorting *)
Lemma insert_desc_perm t l : Permutation (t :: l) (insert_desc t l).
Proof.
  induction l as [|u l IH]; [reflexivity|]. cbn [insert_desc]. destruct (lex_cmp (fst t) (fst u)); try reflexivity.
  eapply perm_trans; [apply perm_swap|]. apply perm_skip. exact IH.
Qed.
Lemma sort_desc_perm p : Permutation p (sort_desc p).
Proof. induction p as [|t p IH]; [reflexivity|]. cbn [sort_desc]. eapply perm_trans; [apply perm_skip, IH|apply insert_desc_perm]. Qed.
Definition desc (t u : list nat * K) : Prop := lex_cmp (fst t) (fst u) = Gt.
Lemma insert_desc_sorted t l : ~ In (fst t) (keys l) -> StronglySorted desc l -> StronglySorted desc (insert_desc t l).
Proof.
  intros N H. induction H as [|u l S1 IH F]; [repeat constructor|]. cbn [insert_desc]. cbn [keys map In] in N.
  destruct (lex_cmp (fst t) (fst u)) eqn:E.
  - apply lex_cmp_eq in E. exfalso. apply N. left. symmetry. exact E.
  - constructor.
    + apply IH. intro Q. apply N. right. exact Q.
    + apply (Permutation_Forall (insert_desc_perm t l)). constructor; [|exact F]. unfold desc. rewrite lex_cmp_sym, E. reflexivity.
  - constructor; [constructor; assumption|]. constructor; [exact E|]. rewrite Forall_forall in *. intros w Hw. unfold desc.
    apply (lex_cmp_trans _ (fst u)); [exact E|apply F, Hw].
Qed.
Lemma sort_desc_sorted p : NoDup (keys p) -> StronglySorted desc (sort_desc p).
Proof.
  induction p as [|t p IH]; intro N; [constructor|]. cbn [sort_desc]. cbn [keys map] in N. inversion N as [|? ? N1 N2]; subst.
  apply insert_desc_sorted; [|apply IH, N2]. intro Q. apply N1. unfold keys in *.
  apply (Permutation_in (l := map fst (sort_desc p))); [apply Permutation_map, Permutation_sym, sort_desc_perm|exact Q].
Qed.

(** ** Borders *)
Definition bent (t : list nat * K) : nat * K := (k2 t, snd t).
Lemma take_first_prefix i l : (forall t, In t l -> snd t <> 0) ->
  exists pre post, l = pre ++ post /\ (forall t, In t pre -> k1 t = i) /\ take_first i l = map bent pre.
Proof.
  induction l as [|t l IH]; intro N.
  - exists [], []. repeat split. intros t [].
  - cbn [take_first]. destruct (Nat.eqb_spec (k1 t) i) as [E|E].
    + destruct (snd t =? 0) eqn:Z; [apply feqb_eq in Z; exfalso; apply (N t); [left; reflexivity|exact Z]|].
      destruct IH as (pre & post & E1 & E2 & E3); [intros u Hu; apply N; right; exact Hu|].
      exists (t :: pre), post. split; [rewrite E1; reflexivity|]. split; [intros u [<- |Hu]; [exact E|apply E2, Hu]|].
      cbn [map]. rewrite E3. reflexivity.
    + exists [], (t :: l). repeat split. intros u [].
Qed.
Lemma border2_prefix i l : (forall t, In t l -> snd t <> 0) ->
  exists pre post, l = pre ++ post /\ (forall t, In t pre -> k1 t = i) /\ border2 i l = map bent pre.
Proof. apply take_first_prefix. Qed.
Lemma border1_suffix l : (forall t, In t l -> snd t <> 0) ->
  exists pre suf, l = pre ++ suf /\ (forall t, In t suf -> k1 t = 0%nat) /\ border1 l = map bent suf.
Proof.
  intro N. destruct (take_first_prefix 0 (rev l)) as (pre & post & E1 & E2 & E3); [intros t Ht; apply N, in_rev; exact Ht|].
  exists (rev post), (rev pre). split; [rewrite <- rev_app_distr, <- E1, rev_involutive; reflexivity|]. split.
  - intros t Ht. apply E2, in_rev. exact Ht.
  - unfold border1. rewrite E3, map_rev. reflexivity.
Qed.

Lemma sorted_app {T} (R : T -> T -> Prop) (l1 l2 : list T) : StronglySorted R (l1 ++ l2) -> StronglySorted R l1 /\ StronglySorted R l2.
Proof.
  induction l1 as [|x l1 IH]; cbn [app]; intro H; [split; [constructor|exact H]|]. inversion H as [|? ? H1 H2]; subst.
  destruct (IH H1) as [S1 S2]. split; [|exact S2]. constructor; [exact S1|]. apply Forall_app in H2. apply H2.
Qed.
Definition key_ok (d : nat) (t : list nat * K) : Prop := exists i j k, fst t = [i; j; k] /\ (i + j + k = d)%nat.
Lemma desc_second d t u : key_ok d t -> key_ok d u -> k1 t = k1 u -> desc t u -> (k2 u < k2 t)%nat.
Proof.
  intros (i & j & k & E & S1) (i' & j' & k' & E' & S2). unfold desc, k1, k2. rewrite E, E'. cbn [nth]. intros -> H.
  cbn [lex_cmp] in H. rewrite (proj2 (Nat.compare_eq_iff i' i') eq_refl) in H.
  destruct (Nat.compare_spec j j') as [Q|Q|Q]; [|discriminate|exact Q]. subst j'. assert (k = k') by lia. subst k'.
  rewrite (proj2 (Nat.compare_eq_iff k k) eq_refl) in H. discriminate.
Qed.
Definition below (x y : nat * K) : Prop := (fst y < fst x)%nat.
Lemma border_sorted d i pre : (forall t, In t pre -> k1 t = i /\ key_ok d t) -> StronglySorted desc pre -> StronglySorted below (map bent pre).
Proof.
  intros H Hs. induction Hs as [|t pre S1 IH F]; [constructor|]. cbn [map]. constructor.
  - apply IH. intros u Hu. apply H. right. exact Hu.
  - rewrite Forall_forall in *. intros y Hy. apply in_map_iff in Hy. destruct Hy as [u [<- Hu]]. unfold below, bent. cbn [fst].
    destruct (H t (or_introl eq_refl)) as [E1 O1], (H u (or_intror Hu)) as [E2 O2]. apply (desc_second d); try assumption; [congruence|apply F, Hu].
Qed.
Lemma below_nodup (l : list (nat * K)) : StronglySorted below l -> NoDup (map fst l).
Proof.
  intro H. induction H as [|x l S1 IH F]; [constructor|]. cbn [map]. constructor; [|exact IH].
  intro Q. apply in_map_iff in Q. destruct Q as [y [E Hy]]. rewrite Forall_forall in F. specialize (F y Hy). unfold below in F. lia.
Qed.

(** ** The polynomial in one variable *)
Lemma bsum_find n (l : list (nat * K)) (f : nat -> K) : NoDup (map fst l) -> (forall t, In t l -> (fst t < n)%nat) ->
  bsum n (fun i => (match find (fun t => Nat.eqb (fst t) i) l with Some t => snd t | None => 0 end) * f i) = fsum (map (fun t => snd t * f (fst t)) l).
Proof.
  induction l as [|t l IH]; intros N H.
  - cbn [find map]. rewrite (bsum_ext K n _ (fun _ => 0)) by (intros; ring). rewrite bsum_all0; [reflexivity|intros; reflexivity].
  - cbn [map] in N. inversion N as [|? ? N1 N2]; subst.
    rewrite (bsum_ext K n _ (fun i => (if Nat.eqb (fst t) i then snd t * f i else 0) +
      (match find (fun t => Nat.eqb (fst t) i) l with Some t => snd t | None => 0 end) * f i)).
    + rewrite bsum_add, IH; [|exact N2|intros u Hu; apply H; right; exact Hu]. cbn [map].
      change (fsum (snd t * f (fst t) :: map (fun t0 : nat * K => snd t0 * f (fst t0)) l)) with (snd t * f (fst t) + fsum (map (fun t0 : nat * K => snd t0 * f (fst t0)) l)).
      f_equal. rewrite (bsum_single K n (fst t)); [rewrite Nat.eqb_refl; reflexivity|apply H; left; reflexivity|].
      intros j Hj N'. destruct (Nat.eqb_spec (fst t) j) as [Q|_]; [congruence|reflexivity].
    + intros i Hi. cbn [find]. destruct (Nat.eqb_spec (fst t) i) as [Q|Q]; [|ring].
      destruct (find (fun t0 => Nat.eqb (fst t0) i) l) as [u|] eqn:F; [|ring]. apply find_some in F. destruct F as [F1 F2]. apply Nat.eqb_eq in F2.
      exfalso. apply N1. rewrite Q, <- F2. apply in_map. exact F1.
Qed.
Lemma border_poly_value d (l : list (nat * K)) x : NoDup (map fst l) -> (forall t, In t l -> (fst t <= d)%nat) ->
  ueval (border_poly d l) x = fsum (map (fun t => snd t * x ^ fst t) l).
Proof.
  intros N H. unfold border_poly, from_dict. rewrite usum_map. apply (bsum_find (S d) l (fun i => x ^ i) N). intros t Ht. specialize (H t Ht). lia.
Qed.
Lemma wexpr_value w e env : ev env (wexpr w e : ex K) = weval w (ev env e).
Proof.
  unfold wexpr, weval. rewrite Sparse.ev_esum, map_map. apply fsum_map_ext. intros t _. cbn [ev]. rewrite ev_eupoly. cbn [fpow]. ring.
Qed.
Lemma uexpr_value pq f e env : proves K pq f -> ev env (uexpr pq e : ex K) = ueval f (ev env e).
Proof. intros (_ & _ & E). unfold uexpr. cbn [ev]. rewrite !wexpr_value, E. reflexivity. Qed.
Lemma wexpr_prop (P : ex K -> Prop) w e : P (EC 0) -> (forall x y, P x -> P y -> P (x + y)%E) ->
  (forall t, In t w -> P (EC (fst t) * eupoly (snd t) e ^ 2)%E) -> P (wexpr w e).
Proof.
  intros H0 H1 H2. unfold wexpr. apply esum_prop; [exact H0|exact H1|]. intros x Hx. apply in_map_iff in Hx. destruct Hx as [t [<- Ht]]. apply H2, Ht.
Qed.
Lemma uexpr_three pq e : three K e -> three K (uexpr pq e).
Proof.
  intro H. assert (Q : forall w, three K (wexpr w e)).
  { intro w. apply wexpr_prop; [exact I|cbn; auto|]. intros t _. cbn [three]. split; [exact I|]. apply eupoly_three, H. }
  unfold uexpr. cbn [three]. auto.
Qed.
Lemma uexpr_defined env pq (e : ex K) : defined env e -> defined env (uexpr pq e).
Proof.
  intro H. assert (Q : forall w, defined env (wexpr w e)).
  { intro w. apply wexpr_prop; [exact I|cbn; auto|]. intros t _. cbn [defined]. split; [exact I|]. apply eupoly_defined, H. }
  unfold uexpr. cbn [defined]. auto.
Qed.
Lemma uexpr_manifest pq f (e : ex K) : proves K pq f -> manifest true e = true -> manifest true (uexpr pq e) = true.
Proof.
  intros (P1 & P2 & _) H. assert (Q : forall w, wnonneg K w -> manifest true (wexpr w e) = true).
  { intros w Hw. apply wexpr_prop; [apply fle_refl|cbn [manifest]; intros x y -> ->; reflexivity|].
    intros t Ht. cbn [manifest Nat.even orb]. rewrite andb_true_r. apply fleb_le, Hw, Ht. }
  unfold uexpr. cbn [manifest]. rewrite (Q _ P1), (Q _ P2), H. reflexivity.
Qed.

(** ** All monomials in the orbits of a border *)
Definition rot (m : list nat) : list nat := match m with [i; j; k] => [j; k; i] | _ => m end.
Definition orb (m : list nat) : list (list nat) := [m; rot m; rot (rot m)].
Lemma nodup_flat {T U} (f : T -> list U) (l : list T) : (forall x, In x l -> NoDup (f x)) -> NoDup l ->
  (forall x y z, In x l -> In y l -> In z (f x) -> In z (f y) -> x = y) -> NoDup (flat_map f l).
Proof.
  induction l as [|x l IH]; intros H1 N H2; [constructor|]. cbn [flat_map]. inversion N as [|? ? N1 N2]; subst.
  apply NoDup_app_i; [apply H1; left; reflexivity|apply IH; [intros; apply H1; right; assumption|exact N2|intros; apply (H2 x0 y z); try right; assumption]|].
  intros z Hz Hz'. apply in_flat_map in Hz'. destruct Hz' as [y [Hy Hz']]. apply N1.
  rewrite (H2 x y z (or_introl eq_refl) (or_intror Hy) Hz Hz'). exact Hy.
Qed.

Lemma NoDup_map_inv' {T U} (f : T -> U) (g : U -> T) (l : list T) : NoDup l -> (forall x, In x l -> g (f x) = x) -> NoDup (map f l).
Proof.
  induction l as [|x l IH]; intros N H; [constructor|]. inversion N as [|? ? N1 N2]; subst. cbn [map]. constructor.
  - intro Q. apply in_map_iff in Q. destruct Q as [y [E Hy]]. apply N1. rewrite <- (H x (or_introl eq_refl)), <- E, (H y (or_intror Hy)). exact Hy.
  - apply IH; [exact N2|]. intros y Hy. apply H. right. exact Hy.
Qed.

Section Form.
Variables (p : poly K) (d : nat).
Hypothesis (W : wf 3 p) (Hd : homdeg d p) (Hc : cyclic_poly K p) (Nz : forall t, In t p -> snd t <> 0).

Lemma key3_form m : In m (keys p) -> exists i j k, m = [i; j; k] /\ (i + j + k = d)%nat.
Proof.
  intro H. pose proof (Hd m H) as Hs. destruct W as [_ Wl]. specialize (Wl m H). destruct m as [|i [|j [|k [|? ?]]]]; try discriminate Wl.
  exists i, j, k. split; [reflexivity|]. cbn in Hs. lia.
Qed.
Lemma coef_nz m : In m (keys p) <-> coef p m <> 0.
Proof.
  split.
  - intros H E. apply in_map_iff in H. destruct H as [[m' v] [<- Ht]]. destruct W as [N _]. cbn [fst] in E. rewrite (coef_in K p m' v N Ht) in E. apply (Nz _ Ht). exact E.
  - intro H. destruct (in_dec (list_eq_dec Nat.eq_dec) m (keys p)) as [Q|Q]; [exact Q|]. exfalso. apply H, coef_notin, Q.
Qed.
Lemma coef_rot m : In m (keys p) -> coef p (rot m) = coef p m.
Proof. intro H. destruct (key3_form m H) as (i & j & k & -> & _). symmetry. apply Hc. Qed.
Lemma rot_key m : In m (keys p) -> In (rot m) (keys p).
Proof. intro H. apply coef_nz. rewrite coef_rot by exact H. apply coef_nz, H. Qed.
Lemma rot3 m : In m (keys p) -> rot (rot (rot m)) = m.
Proof. intro H. destruct (key3_form m H) as (i & j & k & -> & _). reflexivity. Qed.
Lemma meval_rot m (A B C : K) : In m (keys p) -> meval (pt3 A B C) (rot m) = meval (pt3 C A B) m.
Proof. intro H. destruct (key3_form m H) as (i & j & k & -> & _). cbn [rot]. rewrite !(meval3 K). cbn [pt3]. ring. Qed.
Lemma value_rot (A B C : K) : peval (pt3 A B C) p = peval (pt3 B C A) p.
Proof.
  destruct W as [N _]. rewrite (peval_over K (pt3 B C A) p (map rot (keys p)) N).
  - rewrite (peval_over K (pt3 A B C) p (keys p) N N) by auto. rewrite map_map. apply fsum_map_ext. intros m Hm. rewrite coef_rot, meval_rot by exact Hm. reflexivity.
  - apply NoDup_map_inv' with (g := fun m => rot (rot m)); [exact N|exact rot3].
  - intros m Hm. apply in_map_iff. exists (rot (rot m)). split; [apply rot3, Hm|apply rot_key, rot_key, Hm].
Qed.

Definition three_rot (A B C : K) (m : list nat) : K := meval (pt3 A B C) m + meval (pt3 B C A) m + meval (pt3 C A B) m.
Lemma orbits_value (L : list (list nat)) (A B C : K) : (forall m, In m L -> In m (keys p)) -> NoDup (flat_map orb L) -> (length L * 3 = length p)%nat ->
  peval (pt3 A B C) p = fsum (map (fun m => coef p m * three_rot A B C m) L).
Proof.
  intros HL N Hlen. destruct W as [Np _].
  assert (I : incl (flat_map orb L) (keys p)).
  { intros z Hz. apply in_flat_map in Hz. destruct Hz as [m [Hm Hz]]. specialize (HL m Hm). destruct Hz as [<- |[<- |[<- |[]]]]; repeat apply rot_key; exact HL. }
  assert (I' : incl (keys p) (flat_map orb L)).
  { apply NoDup_length_incl; [exact N| |exact I]. unfold keys. rewrite map_length, <- Hlen. clear. induction L as [|x L IH]; [reflexivity|].
    cbn [flat_map]. rewrite app_length. cbn [orb length] in *. lia. }
  rewrite (peval_over K (pt3 A B C) p (flat_map orb L) Np N I'), flat_map_concat_map, concat_map, map_map, <- flat_map_concat_map, fsum_flat_map. apply fsum_map_ext. intros m Hm.
  specialize (HL m Hm). cbn [orb map fsum fold_right]. unfold three_rot.
  rewrite (coef_rot (rot m)), (coef_rot m), (meval_rot (rot m)), (meval_rot m) by (try apply rot_key; exact HL).
  rewrite (meval_rot m) by exact HL. ring.
Qed.
End Form.
End Facts.
