(** * Extraction of factors keeps homogeneity and symmetry
    (triples/core/structsos/sparse.py:19-56, 129-152; the functions are modelled in Sparse.v) *)
From Coq Require Import Bool List Arith Lia Ring Field Permutation.
From Verif Require Import OrdField Base Poly Perm PolyId Coeff Congruence Expr Sparse.
Import ListNotations.

Section Sym.
Variable K : OrdField.
Local Open Scope of_scope.
Add Field Kf : (F_field K).
Implicit Types p q : poly K.

Definition homog (N : nat) p : Prop := forall m, In m (keys p) -> list_sum m = N.
Definition nonzero p : Prop := forall m c, In (m, c) p -> c <> 0.
(** The polynomials a solver for the group generated by [gens] is meant for. *)
Record class (n : nat) (gens : list (list nat)) p : Prop := {
  cl_wf : wf n p;
  cl_nz : nonzero p;
  cl_hom : exists N, homog N p;
  cl_inv : forall g, In g gens -> coef_inv K n g p }.

Lemma filter_nonzero p : nonzero p -> filter (fun t => negb (snd t =? 0)) p = p.
Proof.
  intro H. induction p as [|[m c] p IH]; [reflexivity|]. cbn [filter snd].
  destruct (c =? 0) eqn:E; cbn [negb].
  - apply feqb_eq in E. exfalso. apply (H m c (or_introl eq_refl) E).
  - f_equal. apply IH. intros m' c' Hin. apply (H m' c'). right. exact Hin.
Qed.

Lemma map_keys_inv n g p (f : list nat -> list nat) : is_perm n g -> wf n p -> nonzero p -> coef_inv K n g p ->
  wf n (map (fun t => (f (fst t), snd t)) p) ->
  (forall k, In k (keys p) -> act 0%nat g (f k) = f (act 0%nat g k)) ->
  coef_inv K n g (map (fun t => (f (fst t), snd t)) p).
Proof.
  intros Hg [Hnd Hlen] Hnz Hi [Hnd' Hlen'] Hf. apply (support_check K n g _ Hg (Logic.conj Hnd' Hlen')).
  apply forallb_forall. intros t' Ht'. apply in_map_iff in Ht'. destruct Ht' as [[k c] [<- Hin]]. cbn [fst snd].
  assert (Hk : In k (keys p)) by (apply in_map_iff; exists (k, c); auto).
  rewrite (Hf k Hk). apply feqb_eq. apply coef_in; [exact Hnd'|].
  assert (E : coef p (act 0%nat g k) = c) by (rewrite Hi by (apply Hlen, Hk); apply coef_in; assumption).
  apply in_map_iff. exists (act 0%nat g k, c). split; [reflexivity|].
  destruct (in_dec mon_dec (act 0%nat g k) (keys p)) as [Ha|Ha].
  - apply in_map_iff in Ha. destruct Ha as [[k' c'] [Ek Ha]]. cbn [fst] in Ek. subst k'.
    rewrite (coef_in K p _ _ Hnd Ha) in E. subst c'. exact Ha.
  - rewrite (coef_notin K p _ Ha) in E. exfalso. apply (Hnz k c Hin). auto.
Qed.

Lemma key_act n g p k : wf n p -> nonzero p -> coef_inv K n g p -> In k (keys p) -> In (act 0%nat g k) (keys p).
Proof.
  intros [Hnd Hlen] Hnz Hi Hk. destruct (in_dec mon_dec (act 0%nat g k) (keys p)) as [Ha|Ha]; [exact Ha|exfalso].
  pose proof (Hi k (Hlen k Hk)) as E. rewrite (coef_notin K p _ Ha) in E.
  apply in_map_iff in Hk. destruct Hk as [[k' c] [Ek Hin]]. cbn [fst] in Ek. subst k'.
  rewrite (coef_in K p _ _ Hnd Hin) in E. apply (Hnz k c Hin). auto.
Qed.

Lemma minexp_glb ms : forall d i v, (v <= d)%nat -> (forall m, In m ms -> (v <= nth i m 0)%nat) -> (v <= minexp ms d i)%nat.
Proof.
  intros d i v Hd Hm. destruct (minexp_attained ms d i) as [E|[m [H1 H2]]]; [lia|]. rewrite <- H2. apply Hm, H1.
Qed.

Lemma cancel_abc_class n gens p : (forall g, In g gens -> is_perm n g) -> class n gens p -> class n gens (snd (cancel_abc n p)).
Proof.
  intros Hg [Hwf Hnz [N Hh] Hi]. destruct (cancel_abc_wf K n p Hwf) as [Hw' _].
  unfold cancel_abc in *. destruct p as [|t0 p0] eqn:Ep; [cbn [snd]; split; auto; exists N; exact Hh|].
  rewrite <- Ep in *. clear Ep t0 p0.
  assert (Hlen := proj2 Hwf).
  pose proof (cancel_loop_spec n (keys p) Hlen (repeat (coeff_degree p + 1)%nat n) (repeat_length _ _)) as H.
  destruct (cancel_loop _ _) as [r|]; cbn [snd] in *; [|split; auto; exists N; exact Hh].
  rewrite (filter_nonzero p Hnz) in *. destruct H as [Hr H].
  assert (Hd : forall i, (i < n)%nat -> (nth i (repeat (coeff_degree p + 1)%nat n) 0 = coeff_degree p + 1)%nat).
  { intros i Hlt. rewrite nth_indep with (d' := (coeff_degree p + 1)%nat) by (rewrite repeat_length; exact Hlt). apply nth_repeat. }
  assert (Hact : forall g, In g gens -> act 0%nat g r = r).
  { intros g Hin. pose proof (Hg g Hin) as Hp. pose proof (is_perm_length n g Hp) as Hgl.
    assert (Hle : forall i, (i < n)%nat -> (nth (nth i g 0) r 0 <= nth i r 0)%nat).
    { intros i Hlt. pose proof (is_perm_nth n g i Hp Hlt) as Hgi. rewrite (H i Hlt), (H _ Hgi), (Hd i Hlt), (Hd _ Hgi).
      apply minexp_glb; [apply minexp_le|]. intros m Hm.
      (* m = act g m' with m' = act (pinv g) m a key *)
      set (m' := act 0%nat (pinv g) m).
      assert (Hm' : In m' (keys p)).
      { apply (key_act n (pinv g) p m Hwf Hnz); [|exact Hm]. apply coef_inv_pinv; [exact Hp|apply Hi, Hin]. }
      replace (nth i m 0%nat) with (nth (nth i g 0%nat) m' 0%nat); [apply minexp_le_in, Hm'|].
      assert (E : act 0%nat g m' = m) by (apply (act_pinv_r n); [exact Hp|apply Hlen, Hm]).
      rewrite <- (act_nth 0%nat g m' i) by lia. rewrite E. reflexivity. }
    apply (nth_ext_eq 0%nat); [rewrite act_length; congruence|]. intros i Hlt. rewrite act_length in Hlt.
    rewrite act_nth by exact Hlt. rewrite Hgl in Hlt.
    assert (HS : list_sum (act 0%nat g r) = list_sum r).
    { assert (P : Permutation (act 0%nat g r) r) by (apply (act_perm 0%nat n); assumption).
      clear - P. unfold list_sum. induction P; cbn [fold_right]; lia. }
    (* pointwise <= with equal sums *)
    assert (Hpt : forall (u v : list nat), length u = length v -> (forall j, (j < length u)%nat -> (nth j u 0 <= nth j v 0)%nat) ->
              list_sum u = list_sum v -> u = v).
    { clear. unfold list_sum. induction u as [|x u IH]; intros [|y v] L Hle Hs; try discriminate; [reflexivity|].
      cbn [fold_right] in Hs. pose proof (Hle 0%nat ltac:(cbn; lia)) as H0. cbn [nth] in H0.
      assert (Hle' : forall j, (j < length u)%nat -> (nth j u 0 <= nth j v 0)%nat) by (intros j Hj; apply (Hle (S j)); cbn; lia).
      assert (Hs' : (fold_right Nat.add 0 u <= fold_right Nat.add 0 v)%nat).
      { clear - Hle' L. cbn in L. injection L as L. revert v L Hle'. induction u as [|z u IH]; intros [|w v] L H; try discriminate; [lia|].
        cbn [fold_right]. pose proof (H 0%nat ltac:(cbn; lia)). cbn [nth] in *. cbn in L. injection L as L.
        specialize (IH v L ltac:(intros j Hj; apply (H (S j)); cbn; lia)). lia. }
      f_equal; [lia|]. apply IH; [cbn in L; lia|exact Hle'|lia]. }
    assert (E : act 0%nat g r = r).
    { apply Hpt; [rewrite act_length; congruence| |exact HS]. intros j Hj. rewrite act_length in Hj. rewrite act_nth by exact Hj.
      apply Hle. lia. }
    rewrite <- (act_nth 0%nat g r i) by lia. rewrite E. reflexivity. }
  split; [exact Hw'| | |].
  - intros m c Hin. apply in_map_iff in Hin. destruct Hin as [[k c'] [E Hin]]. injection E as _ <-. apply (Hnz k c' Hin).
  - exists (N - list_sum r)%nat. intros m Hm. unfold keys in Hm. rewrite map_map in Hm. cbn [fst] in Hm.
    apply in_map_iff in Hm. destruct Hm as [[k c] [<- Hin]]. cbn [fst].
    assert (Hk : In k (keys p)) by (apply in_map_iff; exists (k, c); auto).
    assert (Hs : (list_sum (zip_with Nat.sub k r) + list_sum r = list_sum k)%nat).
    { assert (G : forall i, (i < n)%nat -> (nth i r 0 <= nth i k 0)%nat) by (intros i Hlt; rewrite (H i Hlt); apply minexp_le_in, Hk).
      pose proof (Hlen k Hk) as L. clear - G L Hr. unfold list_sum. revert k r L Hr G. induction n as [|n' IH]; intros [|x k] [|y r] L Hr G; try discriminate; [reflexivity|].
      cbn [zip_with fold_right]. cbn in L, Hr. pose proof (G 0%nat ltac:(lia)). cbn [nth] in *.
      specialize (IH k r ltac:(lia) ltac:(lia) ltac:(intros i Hi; apply (G (S i)); lia)). lia. }
    rewrite (Hh k Hk) in Hs. lia.
  - intros g Hin. apply (map_keys_inv n g p (fun m => zip_with Nat.sub m r)); auto. intros k Hk.
    pose proof (is_perm_length n g (Hg g Hin)) as Hgl. pose proof (Hlen k Hk) as Hkl.
    apply (nth_ext_eq 0%nat).
    + rewrite act_length, zip_with_length; rewrite act_length; congruence.
    + intros i Hlt. rewrite act_length in Hlt. rewrite act_nth by exact Hlt. rewrite Hgl in Hlt.
      pose proof (is_perm_nth n g i (Hg g Hin) Hlt) as Hgi.
      rewrite zip_with_nth; [|congruence|rewrite Hkl; exact Hgi].
      rewrite zip_with_nth; [|rewrite act_length; congruence|rewrite act_length; lia].
      rewrite act_nth by lia. f_equal. rewrite <- (act_nth 0%nat g r i) by lia. rewrite (Hact g Hin). reflexivity.
Qed.

Lemma cancel_k_class n gens p : (forall g, In g gens -> is_perm n g) -> class n gens p -> class n gens (snd (cancel_k p)).
Proof.
  intros Hg [Hwf Hnz [N Hh] Hi]. pose proof (cancel_k_wf K n p Hwf) as Hw'.
  unfold cancel_k in *. destruct p as [|t0 p0] eqn:Ep; [cbn [snd]; split; auto; exists N; exact Hh|].
  rewrite <- Ep in *. clear Ep t0 p0.
  pose proof (gcd_loop_spec (concat (keys p)) 0) as H.
  destruct (gcd_loop (concat (keys p)) 0) as [[|d]|]; cbn [snd] in *; try (split; auto; exists N; exact Hh).
  rewrite (filter_nonzero p Hnz) in *. destruct H as [Hdiv _]. set (D := S d) in *. assert (HD : D <> 0%nat) by discriminate. clearbody D.
  split; [exact Hw'| | |].
  - intros m c Hin. apply in_map_iff in Hin. destruct Hin as [[k c'] [E Hin]]. injection E as _ <-. apply (Hnz k c' Hin).
  - exists (N / D)%nat. intros m Hm. unfold keys in Hm. rewrite map_map in Hm. cbn [fst] in Hm.
    apply in_map_iff in Hm. destruct Hm as [[k c] [<- Hin]]. cbn [fst].
    assert (Hk : In k (keys p)) by (apply in_map_iff; exists (k, c); auto).
    rewrite <- (Hh k Hk). assert (Hu : forall u, In u k -> Nat.divide D u) by (intros u Hu; apply Hdiv; apply (concat_keys_in K p k); assumption).
    clear - HD Hu. unfold list_sum. 
    assert (E : (fold_right Nat.add 0 k = fold_right Nat.add 0 (map (fun i => i / D) k) * D)%nat).
    { induction k as [|u k IH]; [reflexivity|]. cbn [map fold_right]. rewrite IH at 1 by (intros v Hv; apply Hu; right; exact Hv).
      destruct (Hu u (or_introl eq_refl)) as [w ->]. rewrite Nat.div_mul by exact HD. lia. }
    rewrite E, Nat.div_mul by exact HD. reflexivity.
  - intros g Hin. apply (map_keys_inv n g p (map (fun i => Nat.div i D))); auto. intros k Hk.
    unfold act. rewrite map_map. apply map_ext. intro i.
    rewrite <- (Nat.div_0_l D HD) at 1. exact (map_nth (fun i => Nat.div i D) k 0%nat i).
Qed.

(** Soundness of a solver on a class of polynomials, and of [sos_struct_common] built on it *)
Definition sound_on (C : poly K -> Prop) n (s : solver) : Prop :=
  forall q b e, C q -> s q b = Returns (Some e) -> certifies (orthant n) q e.

Lemma wrapped_sound_on C n l : (forall s, In (Some s) l -> sound_on C n s) -> sound_on C n (wrapped_solver l).
Proof.
  intros H q b e Hq E. apply wrapped_first in E. destruct E as [l1 [s [l2 [-> [E _]]]]].
  refine (H s _ q b e Hq E). apply in_or_app. right. left. reflexivity.
Qed.

(** No variable divides the polynomial. *)
Definition reduced n q : Prop := q = [] \/ forall i, (i < n)%nat -> exists m, In m (keys q) /\ nth i m 0%nat = 0%nat.

Lemma cancel_abc_reduced n p : class n [] p -> reduced n (snd (cancel_abc n p)).
Proof.
  intros [Hwf Hnz _ _]. destruct p as [|t p']; [left; reflexivity|]. right. apply cancel_abc_maximal; [exact Hwf|discriminate|exact Hnz].
Qed.
Lemma no_factor_reduced n p : wf n p -> existsb (fun i => Nat.ltb 0 i) (fst (cancel_abc n p)) = false -> reduced n p.
Proof.
  intros [Hnd Hlen] H. destruct p as [|[k0 c0] p'] eqn:Ep; [left; reflexivity|]. right. intros i Hi. rewrite <- Ep in *.
  assert (Hk0 : In k0 (keys p)) by (rewrite Ep; left; reflexivity).
  assert (Hz : minexp (keys p) (coeff_degree p + 1) i = 0%nat).
  { unfold cancel_abc in H. rewrite Ep in H. rewrite <- Ep in H.
    pose proof (cancel_loop_spec n (keys p) Hlen (repeat (coeff_degree p + 1)%nat n) (repeat_length _ _)) as HL.
    assert (Hd : (nth i (repeat (coeff_degree p + 1)%nat n) 0 = coeff_degree p + 1)%nat).
    { rewrite nth_indep with (d' := (coeff_degree p + 1)%nat) by (rewrite repeat_length; exact Hi). apply nth_repeat. }
    destruct (cancel_loop _ _) as [r|]; cbn [fst] in H.
    - destruct HL as [Hr HL]. specialize (HL i Hi). rewrite Hd in HL. rewrite <- HL.
      destruct (nth i r 0%nat) eqn:E; [reflexivity|exfalso].
      assert (HT : existsb (fun i => Nat.ltb 0 i) r = true); [|congruence].
      apply existsb_exists. exists (nth i r 0%nat). split; [apply nth_In; lia|]. rewrite E. reflexivity.
    - specialize (HL i Hi). rewrite Hd in HL. exact HL. }
  destruct (minexp_attained (keys p) (coeff_degree p + 1)%nat i) as [E|[m [Hm E]]]; [lia|].
  exists m. split; [exact Hm|congruence].
Qed.
Lemma cancel_k_reduced n p : nonzero p -> reduced n p -> reduced n (snd (cancel_k p)).
Proof.
  intros Hnz [-> |H]; [left; reflexivity|]. unfold cancel_k. destruct p as [|t0 p0] eqn:Ep; [left; reflexivity|].
  rewrite <- Ep in *. destruct (gcd_loop (concat (keys p)) 0) as [[|d]|]; cbn [snd]; try (right; exact H).
  right. intros i Hi. destruct (H i Hi) as [m [Hm E]]. rewrite (filter_nonzero p Hnz).
  exists (map (fun j => Nat.div j (S d)) m). split.
  - unfold keys. rewrite map_map. cbn [fst]. apply in_map_iff in Hm. destruct Hm as [t [<- Ht]].
    apply in_map_iff. exists t. split; [reflexivity|exact Ht].
  - change (Nat.div 0 (S d)) with 0%nat. rewrite <- (Nat.div_0_l (S d)) by discriminate.
    rewrite (map_nth (fun j => Nat.div j (S d)) m 0%nat i), E. apply Nat.div_0_l. discriminate.
Qed.
Lemma class_nil n gens p : class n gens p -> class n [] p.
Proof. intros [A B C D]. split; auto. intros g []. Qed.

Lemma extract_on n gens p s real e : (forall g, In g gens -> is_perm n g) -> class n gens p ->
  sound_on (fun q => class n gens q /\ reduced n q) n s ->
  sos_struct_extract_factors n p s real = Returns (Some e) -> certifies (orthant n) p e.
Proof.
  intros Hg Hc Hs H. pose proof (cl_wf _ _ _ Hc) as Hwf. destruct (cancel_abc_wf K n p Hwf) as [Hw1 Hl].
  pose proof (cancel_abc_class n gens p Hg Hc) as C1. pose proof (cancel_k_class n gens p Hg Hc) as C2.
  pose proof (cancel_abc_reduced n p (class_nil _ _ _ Hc)) as R1.
  unfold sos_struct_extract_factors in H. rewrite (surjective_pairing (cancel_abc n p)) in H.
  destruct (existsb (fun i => Nat.ltb 0 i) (fst (cancel_abc n p))) eqn:Ex.
  - destruct (s (snd (cancel_abc n p)) _) as [[e0|]| | |] eqn:E0; try discriminate. injection H as <-.
    intros x Hx [_ Hd]. destruct (Hs _ _ _ (Logic.conj C1 R1) E0 x Hx Hd) as [E P].
    cbn [ev]. rewrite ev_emonom, E, <- cancel_abc_identity by exact Hwf.
    split; [reflexivity|]. rewrite (cancel_abc_identity K n p x Hwf), <- E. apply fmul_nonneg; [|exact P].
    apply meval_orthant. rewrite Hl. exact Hx.
  - pose proof (no_factor_reduced n p Hwf Ex) as R. pose proof (cancel_k_reduced n p (cl_nz _ _ _ Hc) R) as R2.
    rewrite (surjective_pairing (cancel_k p)) in H.
    destruct (Nat.ltb 1 (fst (cancel_k p))).
    + destruct (s (snd (cancel_k p)) _) as [[e0|]| | |] eqn:E0; try discriminate. injection H as <-.
      intros x Hx Hd. apply defined_epow in Hd. rewrite ev_epow.
      destruct (Hs _ _ _ (Logic.conj C2 R2) E0 (fun i => x i ^ fst (cancel_k p))) as [E P]; [|exact Hd|].
      * intros i Hi. apply fpow_nonneg, Hx, Hi.
      * split; [|exact P]. rewrite E, <- cancel_k_identity. reflexivity.
    + apply (Hs _ _ _ (Logic.conj Hc R) H).
Qed.

Lemma homog_coeff_degree p : (exists N, homog N p) -> p = [] \/ homog (coeff_degree p) p.
Proof.
  intros [N H]. destruct p as [|[k c] p]; [left; reflexivity|right].
  intros m Hm. rewrite (H m Hm). symmetry. cbn. apply H. left. reflexivity.
Qed.

Lemma degree_solver_on n gens table : (0 < n)%nat ->
  (forall d s, In (d, s) table -> sound_on (fun q => (class n gens q /\ reduced n q) /\ homog d q) n s) ->
  sound_on (fun q => class n gens q /\ reduced n q) n (degree_specified_solver n table true).
Proof.
  intros Hn Ht q b e [Hc Hr]. unfold degree_specified_solver. cbv zeta. pose proof (cl_wf _ _ _ Hc) as Hq.
  assert (Hh : homog (coeff_degree q) q).
  { destruct (homog_coeff_degree q (cl_hom _ _ _ Hc)) as [-> |H]; [intros m []|exact H]. }
  assert (Hdeg : deg_le (coeff_degree q) q) by (intros m Hm; rewrite (Hh m Hm); lia).
  destruct (table_get table (coeff_degree q)) as [s|] eqn:E.
  { apply table_get_in in E. intro H. apply (Ht _ s E q b e); [exact (Logic.conj (Logic.conj Hc Hr) Hh)|exact H]. }
  destruct (Nat.eqb (coeff_degree q) 1).
  - intro H. injection H as H. apply linear_orthant; assumption.
  - destruct (Nat.eqb_spec (coeff_degree q) 2) as [E2|]; [|discriminate]. rewrite E2 in Hdeg.
    destruct (quadratic_total K n q Hq Hdeg) as [[e0 [-> [H1 [H2 H3]]]]|[-> _]]; [|discriminate].
    intro H. injection H as <-. intros x _ Hd. split; [apply H1|apply manifest_false_nonneg; assumption].
Qed.
End Sym.
