(** * A polynomial that vanishes everywhere over an ordered field is zero

    Specification level fact used to translate between coefficients and values. *)
From Coq Require Import Bool List Arith Lia Permutation Ring Field.
From Verif Require Import OrdField Base Perm Poly.
Import ListNotations.

Section PolyId.
Variable K : OrdField.
Local Open Scope of_scope.
Add Field Kf : (F_field K).

Fixpoint ueval (l : list K) (x : K) : K := match l with [] => 0 | c :: l' => c + x * ueval l' x end.
Fixpoint sdiv (l : list K) (r : K) : list K :=
  match l with [] => [] | _ :: l' => match l' with [] => [] | _ => ueval l' r :: sdiv l' r end end.

Lemma sdiv_spec l r x : ueval l x = (x - r) * ueval (sdiv l r) x + ueval l r.
Proof.
  induction l as [|c l IH]; [cbn; ring|]. destruct l as [|c' l']; [cbn; ring|].
  change (sdiv (c :: c' :: l') r) with (ueval (c' :: l') r :: sdiv (c' :: l') r).
  change (ueval (c :: c' :: l') x) with (c + x * ueval (c' :: l') x).
  change (ueval (c :: c' :: l') r) with (c + r * ueval (c' :: l') r).
  change (ueval (ueval (c' :: l') r :: sdiv (c' :: l') r) x) with (ueval (c' :: l') r + x * ueval (sdiv (c' :: l') r) x).
  rewrite IH. ring.
Qed.
Lemma sdiv_length l r : length (sdiv l r) = pred (length l).
Proof.
  induction l as [|c l IH]; [reflexivity|]. destruct l as [|c' l']; [reflexivity|].
  change (sdiv (c :: c' :: l') r) with (ueval (c' :: l') r :: sdiv (c' :: l') r).
  cbn [length]. rewrite IH. cbn. reflexivity.
Qed.
Lemma sdiv_zero l r : ueval l r = 0 -> (forall c, In c (sdiv l r) -> c = 0) -> forall c, In c l -> c = 0.
Proof.
  induction l as [|c l IH]; intros H1 H2 c0 Hc; [destruct Hc|].
  destruct l as [|c' l'].
  - destruct Hc as [<-|[]]. cbn in H1. rewrite <- H1. ring.
  - change (sdiv (c :: c' :: l') r) with (ueval (c' :: l') r :: sdiv (c' :: l') r) in H2.
    assert (H3 : ueval (c' :: l') r = 0) by (apply H2; left; reflexivity).
    assert (H4 : forall c, In c (c' :: l') -> c = 0) by (apply IH; [exact H3|intros c1 Hc1; apply H2; right; exact Hc1]).
    destruct Hc as [<-|Hc]; [|apply H4; exact Hc].
    change (ueval (c :: c' :: l') r) with (c + r * ueval (c' :: l') r) in H1. rewrite H3 in H1.
    rewrite <- H1. ring.
Qed.

Lemma roots_zero n : forall l pts, (length l <= n)%nat -> length pts = n -> NoDup pts ->
  (forall x, In x pts -> ueval l x = 0) -> forall c, In c l -> c = 0.
Proof.
  induction n as [|n IH]; intros l pts Hl Hpts Hnd H c Hc.
  - destruct l; [destruct Hc|cbn in Hl; lia].
  - destruct pts as [|r pts]; [discriminate|]. apply NoDup_cons_iff in Hnd. destruct Hnd as [Hr Hnd].
    assert (Hr0 : ueval l r = 0) by (apply H; left; reflexivity).
    revert c Hc. apply (sdiv_zero l r Hr0). apply (IH _ pts).
    + rewrite sdiv_length. lia.
    + cbn in Hpts. lia.
    + exact Hnd.
    + intros x Hx. assert (Hx0 : ueval l x = 0) by (apply H; right; exact Hx).
      rewrite (sdiv_spec l r x), Hr0 in Hx0.
      assert (E : (x - r) * ueval (sdiv l r) x = 0) by (rewrite <- Hx0; ring).
      apply fmul_eq0 in E. destruct E as [E|E]; [|exact E]. apply fsub_eq0 in E. subst. contradiction.
Qed.

Lemma fnat_inj i j : (fnat i : K) = fnat j -> i = j.
Proof.
  assert (Hlt : forall i j, (i < j)%nat -> (fnat i : K) <> fnat j).
  { intros a b Hab E. replace b with (a + (b - a))%nat in E by lia. rewrite fnat_add in E.
    apply (fnat_neq0 K (b - a)); [lia|].
    assert (E2 : fnat (b - a) = (fnat a + fnat (b - a)) - (fnat a : K)) by ring. rewrite E2, <- E. ring. }
  intro E. destruct (Nat.lt_trichotomy i j) as [H|[H|H]]; [|exact H|].
  - exfalso. apply (Hlt i j H E).
  - exfalso. apply (Hlt j i H). symmetry. exact E.
Qed.

Lemma ueval_zero l : (forall x, ueval l x = 0) -> forall c, In c l -> c = 0.
Proof.
  intro H. apply (roots_zero (length l) l (map (fun i => fnat i) (seq 0 (length l)))).
  - lia.
  - rewrite map_length, seq_length. reflexivity.
  - apply FinFun.Injective_map_NoDup; [intros i j; apply fnat_inj|apply seq_NoDup].
  - intros x _. apply H.
Qed.

(** slices by the exponent of the first variable *)
Definition slice (e : nat) (p : poly K) : poly K :=
  map (fun t => (tl (fst t), snd t)) (filter (fun t => Nat.eqb (hd 0%nat (fst t)) e) p).
Definition maxe (p : poly K) : nat := fold_right (fun t d => Nat.max (hd 0%nat (fst t)) d) 0%nat p.

Lemma maxe_ge p t : In t p -> (hd 0%nat (fst t) <= maxe p)%nat.
Proof. induction p as [|a p IH]; intros H; [destruct H|]. cbn. destruct H as [<-|H]; [lia|]. apply IH in H. unfold maxe in H. lia. Qed.

Lemma ueval_map (f : nat -> K) D : forall s x,
  ueval (map f (seq s D)) x = fsum (map (fun e => x ^ (e - s) * f e) (seq s D)).
Proof.
  induction D as [|D IH]; intros s x; [reflexivity|]. cbn [seq map ueval fsum]. rewrite IH.
  rewrite Nat.sub_diag. cbn [fpow]. rewrite <- fsum_map_mul_l.
  f_equal; [ring|]. apply fsum_map_ext. intros e He. apply in_seq in He.
  replace (e - s)%nat with (S (e - S s)) by lia. cbn [fpow]. ring.
Qed.

Lemma peval_slices n (x : nat -> K) p : (forall m, In m (keys p) -> length m = S n) ->
  forall D, (maxe p < D)%nat ->
  peval x p = ueval (map (fun e => peval (fun i => x (S i)) (slice e p)) (seq 0 D)) (x 0%nat).
Proof.
  intros Hlen D HD. rewrite ueval_map.
  transitivity (fsum (map (fun t => fsum (map (fun e => if Nat.eqb (hd 0%nat (fst t)) e then x 0%nat ^ e * (snd t * meval (fun i => x (S i)) (tl (fst t))) else 0) (seq 0 D))) p)).
  - unfold peval. apply fsum_map_ext. intros t Ht. rewrite <- bsum_fsum.
    assert (Hb : (hd 0%nat (fst t) < D)%nat) by (apply maxe_ge in Ht; lia).
    transitivity (bsum D (fun e => if Nat.eqb e (hd 0%nat (fst t)) then x 0%nat ^ e * (snd t * meval (fun i => x (S i)) (tl (fst t))) else 0)).
    + rewrite (bsum_single K D (hd 0%nat (fst t))).
      * rewrite Nat.eqb_refl.
        assert (Hl : length (fst t) = S n) by (apply Hlen, in_map, Ht).
        destruct (fst t) as [|e m]; [discriminate|]. cbn [hd tl]. rewrite meval_cons. ring.
      * exact Hb.
      * intros i _ Hi. destruct (Nat.eqb_spec i (hd 0%nat (fst t))); [contradiction|reflexivity].
    + apply bsum_ext. intros i _. rewrite Nat.eqb_sym. reflexivity.
  - rewrite fsum_swap. apply fsum_map_ext. intros e _. rewrite Nat.sub_0_r.
    unfold peval, slice. rewrite map_map. cbn [fst snd]. rewrite fsum_filter.
    rewrite <- fsum_map_mul_l. apply fsum_map_ext. intros t _.
    destruct (Nat.eqb (hd 0%nat (fst t)) e); ring.
Qed.

Lemma slice_keys n e p m : (forall m, In m (keys p) -> length m = S n) ->
  (In m (keys (slice e p)) <-> In (e :: m) (keys p)).
Proof.
  intro Hlen. unfold keys, slice. rewrite map_map. cbn [fst]. rewrite !in_map_iff. split.
  - intros [t [E H]]. apply filter_In in H. destruct H as [H1 H2]. apply Nat.eqb_eq in H2.
    exists t. split; [|exact H1]. assert (Hl : length (fst t) = S n) by (apply Hlen, in_map, H1).
    destruct (fst t) as [|a r]; [discriminate|]. cbn in *. congruence.
  - intros [t [E H]]. exists t. rewrite E. split; [reflexivity|]. apply filter_In. split; [exact H|].
    rewrite E. apply Nat.eqb_refl.
Qed.
Lemma slice_coef n e p m : (forall m, In m (keys p) -> length m = S n) -> coef (slice e p) m = coef p (e :: m).
Proof.
  intro Hlen. unfold coef.
  enough (E : dget (slice e p) m = dget p (e :: m)) by (rewrite E; reflexivity).
  unfold slice. induction p as [|[k c] p IH]; [reflexivity|].
  assert (Hk : length k = S n) by (apply Hlen; left; reflexivity).
  assert (IH' := IH (fun m Hm => Hlen m (or_intror Hm))).
  cbn [filter fst dget]. destruct k as [|a r]; [discriminate|]. cbn [hd].
  change (meqb (e :: m) (a :: r)) with (Nat.eqb e a && meqb m r)%bool.
  rewrite (Nat.eqb_sym e a). destruct (Nat.eqb a e); cbn [andb].
  - cbn [map dget fst snd tl]. destruct (meqb m r); [reflexivity|]. exact IH'.
  - exact IH'.
Qed.
Lemma slice_wf n e p : wf (S n) p -> wf n (slice e p).
Proof.
  intros [Hnd Hlen]. split.
  - induction p as [|[k c] p IH]; [constructor|]. cbn in Hnd. apply NoDup_cons_iff in Hnd. destruct Hnd as [Hk Hnd].
    assert (Hlen' : forall m, In m (keys p) -> length m = S n) by (intros m Hm; apply Hlen; right; exact Hm).
    specialize (IH Hnd Hlen'). assert (Hkl : length k = S n) by (apply Hlen; left; reflexivity).
    unfold slice. cbn [filter fst]. destruct (Nat.eqb_spec (hd 0%nat k) e) as [E|E]; [|exact IH].
    cbn [map keys fst]. constructor; [|exact IH].
    intro Hin. apply (slice_keys n e p (tl k) Hlen') in Hin. apply Hk. destruct k as [|a r]; [discriminate|]. cbn in *. subst. exact Hin.
  - intros m Hm. apply (slice_keys n e p m Hlen) in Hm. apply Hlen in Hm. cbn in Hm. lia.
Qed.

Theorem peval_zero n : forall p, wf n p -> (forall x : nat -> K, peval x p = 0) -> forall m, coef p m = 0.
Proof.
  induction n as [|n IH]; intros p Hp H m.
  - destruct (in_dec mon_dec m (keys p)) as [Hin|Hin]; [|apply coef_notin; exact Hin].
    destruct Hp as [Hnd Hlen]. assert (Hm : m = []) by (apply Hlen in Hin; destruct m; [reflexivity|discriminate]). subst m.
    specialize (H (fun _ => 0)). destruct p as [|[k c] p]; [destruct Hin|].
    assert (k = []) by (specialize (Hlen k (or_introl eq_refl)); destruct k; [reflexivity|discriminate]). subst k.
    destruct p as [|[k' c'] p].
    + cbn in H. unfold coef. cbn. rewrite <- H. ring.
    + exfalso. assert (k' = []) by (specialize (Hlen k' (or_intror (or_introl eq_refl))); destruct k'; [reflexivity|discriminate]).
      subst k'. cbn in Hnd. inversion Hnd as [|x l Hx]. apply Hx. left. reflexivity.
  - destruct (in_dec mon_dec m (keys p)) as [Hin|Hin]; [|apply coef_notin; exact Hin].
    pose proof (proj2 Hp m Hin) as Hl. destruct m as [|e m]; [discriminate|].
    rewrite <- (slice_coef n) by apply Hp.
    apply IH; [apply slice_wf; exact Hp|]. intro x.
    set (D := S (Nat.max e (maxe p))).
    assert (HU : forall x0, ueval (map (fun e => peval x (slice e p)) (seq 0 D)) x0 = 0).
    { intro x0. rewrite <- (H (fun i => match i with O => x0 | S j => x j end)).
      rewrite (peval_slices n _ p (proj2 Hp) D) by (unfold D; lia). reflexivity. }
    apply (ueval_zero _ HU). apply in_map_iff. exists e. split; [reflexivity|]. apply in_seq. unfold D. lia.
Qed.

(** difference of two polynomials, as dictionaries *)
Definition padd_term (p : poly K) (m : list nat) (c : K) : poly K := dset p m (coef p m + c).
Definition psub (p q : poly K) : poly K := fold_left (fun a t => padd_term a (fst t) (- snd t)) q p.

Lemma padd_term_coef p m c m' : coef (padd_term p m c) m' = if meqb m' m then coef p m + c else coef p m'.
Proof.
  unfold padd_term. unfold coef at 1. destruct (meqb_spec m' m) as [->|Hne].
  - rewrite dget_dset_same. reflexivity.
  - rewrite dget_dset_other by exact Hne. reflexivity.
Qed.
Lemma padd_term_wf n p m c : wf n p -> length m = n -> wf n (padd_term p m c).
Proof.
  intros [H1 H2] Hm. split; [apply dset_NoDup; exact H1|]. intros k Hk. apply dset_keys_in in Hk.
  destruct Hk as [->|Hk]; [exact Hm|apply H2; exact Hk].
Qed.
Lemma psub_coef q : forall p m, NoDup (keys q) -> coef (psub p q) m = coef p m - coef q m.
Proof.
  induction q as [|[k c] q IH]; intros p m Hq; [change (psub p []) with p; change (coef [] m) with (0:K); ring|].
  cbn in Hq. apply NoDup_cons_iff in Hq. destruct Hq as [Hk Hq].
  unfold psub. cbn [fold_left fst snd]. fold (psub (padd_term p k (- c)) q). rewrite IH by exact Hq.
  rewrite padd_term_coef.
  assert (Ec : coef ((k, c) :: q) m = if meqb m k then c else coef q m) by (unfold coef; cbn [dget]; destruct (meqb m k); reflexivity).
  rewrite Ec. destruct (meqb_spec m k) as [->|Hne].
  - rewrite (coef_notin K q k Hk). ring.
  - reflexivity.
Qed.
Lemma psub_wf n q : forall p, wf n p -> (forall m, In m (keys q) -> length m = n) -> wf n (psub p q).
Proof.
  induction q as [|[k c] q IH]; intros p Hp Hq; [exact Hp|]. unfold psub. cbn [fold_left fst snd].
  apply IH; [apply padd_term_wf; [exact Hp|apply Hq; left; reflexivity]|]. intros m Hm. apply Hq. right. exact Hm.
Qed.

Lemma peval_combine (x : nat -> K) p q r : NoDup (keys p) -> NoDup (keys q) -> NoDup (keys r) ->
  (forall m, coef r m = coef p m - coef q m) -> peval x r = peval x p - peval x q.
Proof.
  intros Hp Hq Hr H. set (L := nodup mon_dec (keys p ++ keys q ++ keys r)).
  assert (HL : NoDup L) by apply NoDup_nodup.
  rewrite (peval_over K x p L), (peval_over K x q L), (peval_over K x r L); try assumption.
  - rewrite <- fsum_map_sub. apply fsum_map_ext. intros m _. rewrite H. ring.
  - intros m Hm. apply nodup_In. rewrite !in_app_iff. tauto.
  - intros m Hm. apply nodup_In. rewrite !in_app_iff. tauto.
  - intros m Hm. apply nodup_In. rewrite !in_app_iff. tauto.
Qed.

Theorem peval_inj n p q : wf n p -> wf n q -> (forall x : nat -> K, peval x p = peval x q) -> forall m, coef p m = coef q m.
Proof.
  intros Hp Hq H m. apply fsub_eq0. rewrite <- psub_coef by apply Hq.
  apply (peval_zero n); [apply psub_wf; [exact Hp|apply Hq]|].
  intro x. rewrite (peval_combine x p q).
  - rewrite H. ring.
  - apply Hp.
  - apply Hq.
  - apply (psub_wf n q p Hp (proj2 Hq)).
  - intro m'. apply psub_coef. apply Hq.
Qed.

(** renaming the variables of a polynomial by a permutation *)
Definition prename (g : list nat) (p : poly K) : poly K := map (fun t => (act 0%nat (pinv g) (fst t), snd t)) p.
Lemma prename_peval n g p (x : nat -> K) : is_perm n g -> (forall m, In m (keys p) -> length m = n) ->
  peval x (prename g p) = peval (fun i => x (nth i g 0%nat)) p.
Proof.
  intros Hg Hlen. unfold peval, prename. rewrite map_map. apply fsum_map_ext. intros t Ht. cbn [fst snd].
  f_equal. symmetry. apply (meval_perm K n); [exact Hg|]. apply Hlen, in_map, Ht.
Qed.
Lemma pinv_is_perm n g : is_perm n g -> is_perm n (pinv g).
Proof.
  intro Hg. pose proof (is_perm_length n g Hg) as Hl. unfold is_perm. apply NoDup_Permutation_bis.
  - apply (NoDup_map_inv (fun i => nth i g 0%nat)).
    change (map (fun i => nth i g 0%nat) (pinv g)) with (pcomp (pinv g) g). rewrite (pinv_l n g Hg). apply seq_NoDup.
  - unfold pinv. rewrite map_length, !seq_length. lia.
  - intros i Hi. unfold pinv in Hi. apply in_map_iff in Hi. destruct Hi as [j [<- Hj]]. apply in_seq.
    apply in_seq in Hj. assert (Hin : In j g) by (apply (Permutation_in (l := seq 0 n)); [apply Permutation_sym; exact Hg|apply in_seq; lia]).
    destruct (find_pos_nth j g Hin) as [H _]. lia.
Qed.
Lemma act_pinv_l n g m : is_perm n g -> length m = n -> act 0%nat (pinv g) (act 0%nat g m) = m.
Proof.
  intros Hg Hm. rewrite (act_comp 0%nat n); [|apply pinv_is_perm; exact Hg|apply is_perm_length; exact Hg].
  rewrite (pinv_l n g Hg). apply act_id. exact Hm.
Qed.
Lemma act_pinv_r n g m : is_perm n g -> length m = n -> act 0%nat g (act 0%nat (pinv g) m) = m.
Proof.
  intros Hg Hm. rewrite (act_comp 0%nat n); [|exact Hg|apply is_perm_length, pinv_is_perm; exact Hg].
  rewrite (pinv_r n g Hg). apply act_id. exact Hm.
Qed.
Lemma prename_wf n g p : is_perm n g -> wf n p -> wf n (prename g p).
Proof.
  intros Hg [Hnd Hlen]. split.
  - unfold keys, prename. rewrite map_map. cbn [fst].
    apply (NoDup_map_inv (act 0%nat g)). rewrite map_map.
    rewrite map_ext_in with (g := fst); [exact Hnd|]. intros t Ht. apply (act_pinv_r n); [exact Hg|apply Hlen, in_map, Ht].
  - intros m Hm. unfold keys, prename in Hm. rewrite map_map in Hm. apply in_map_iff in Hm. destruct Hm as [t [<- _]].
    cbn. rewrite act_length. apply is_perm_length, pinv_is_perm, Hg.
Qed.
Lemma prename_coef n g p m : is_perm n g -> wf n p -> length m = n -> coef (prename g p) m = coef p (act 0%nat g m).
Proof.
  intros Hg [_ Hlen] Hm. unfold coef.
  enough (E : dget (prename g p) m = dget p (act 0%nat g m)) by (rewrite E; reflexivity).
  unfold prename. induction p as [|[k c] p IH]; [reflexivity|].
  cbn [map dget fst snd]. assert (Hk : length k = n) by (apply Hlen; left; reflexivity).
  rewrite IH by (intros m' Hm'; apply Hlen; right; exact Hm').
  destruct (meqb_spec m (act 0%nat (pinv g) k)) as [E1|E1]; destruct (meqb_spec (act 0%nat g m) k) as [E2|E2]; try reflexivity.
  - exfalso. apply E2. rewrite E1. apply (act_pinv_r n g k Hg Hk).
  - exfalso. apply E1. rewrite <- E2. symmetry. apply (act_pinv_l n); assumption.
Qed.

(** Invariance of values under a renaming of the variables is invariance of coefficients. *)
Theorem rename_invariant_iff n g p : is_perm n g -> wf n p ->
  ((forall x : nat -> K, peval (fun i => x (nth i g 0%nat)) p = peval x p)
   <-> forall m, length m = n -> coef p (act 0%nat g m) = coef p m).
Proof.
  intros Hg Hp. split.
  - intros H m Hm. rewrite <- (prename_coef n g p m Hg Hp Hm). apply (peval_inj n); [apply prename_wf; assumption|exact Hp|].
    intro x. rewrite (prename_peval n) by (try exact Hg; apply Hp). apply H.
  - intros H x. rewrite <- (prename_peval n) by (try exact Hg; apply Hp). apply coef_ext_peval.
    + apply (prename_wf n g p Hg Hp).
    + apply Hp.
    + intro m. destruct (Nat.eq_dec (length m) n) as [Hm|Hm].
      * rewrite (prename_coef n g p m Hg Hp Hm). apply H. exact Hm.
      * rewrite !coef_notin; [reflexivity| |].
        -- intro Hin. apply Hm. apply (proj2 Hp). exact Hin.
        -- intro Hin. apply Hm. apply (proj2 (prename_wf n g p Hg Hp)). exact Hin.
Qed.
End PolyId.
