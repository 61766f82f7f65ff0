(** * Round trips of [MonomialManager.arraylize] and [invarraylize] *)
From Coq Require Import Bool List Arith Lia Permutation Ring Field.
From Verif Require Import OrdField Base Perm Poly PolyId Partitions Monomials Coeff.
Import ListNotations.

Section S.
Variable K : OrdField.
Local Open Scope of_scope.
Add Field Kf : (F_field K).
Variable n : nat.
Variable G : list (list nat).
Variable hom : bool.
Hypothesis HG : is_group n G.
Implicit Types p : poly K.

Lemma coef_bad_length p m : wf n p -> length m <> n -> coef p m = 0.
Proof. intros [_ H] Hm. apply coef_notin. intro Hin. apply Hm, H, Hin. Qed.

Lemma sym_coef p : wf n p -> (forall g, In g G -> invariant_under g p) -> coef_sym K n G p.
Proof.
  intros Hp H g m Hg Hm.
  exact (proj1 (rename_invariant_iff K n g p (g_perm n G HG g Hg) Hp) (H g Hg) m Hm).
Qed.

Lemma total_degree_homog p d : (forall m, In m (keys p) -> list_sum m = d) -> p <> [] -> total_degree p = d.
Proof.
  induction p as [|[k c] p IH]; intros Hd Hne; [congruence|].
  unfold total_degree. cbn [fold_right fst]. fold (total_degree p).
  pose proof (Hd k (or_introl eq_refl)) as Hk. destruct p as [|t p].
  - cbn. lia.
  - rewrite IH; [lia| |discriminate]. intros m Hm. apply Hd. right. exact Hm.
Qed.

Lemma covered_of p : (hom = true -> exists d, forall m, In m (keys p) -> list_sum m = d) -> covered K hom (total_degree p) p.
Proof.
  intros H m Hm. destruct hom eqn:E.
  - destruct (H eq_refl) as [d Hd]. rewrite (Hd m Hm). symmetry. apply total_degree_homog; [exact Hd|].
    intro Ep. rewrite Ep in Hm. destruct Hm.
  - apply total_degree_ge. exact Hm.
Qed.

Lemma coef_standard p m : wf n p -> coef_sym K n G p -> length m = n -> coef p (standard_monom G m) = coef p m.
Proof.
  intros Hp Hs Hm. pose proof (standard_in_orbit n G HG m) as H. apply in_map_iff in H. destruct H as [g [<- Hg]].
  apply Hs; assumption.
Qed.

Lemma roundtrip_gen p q (f : list nat -> K) :
  wf n p -> (hom = true -> exists d, forall m, In m (keys p) -> list_sum m = d) ->
  (forall m, length m = n -> f (standard_monom G m) = f m) ->
  (forall m, length m = n -> (forall g, In g G -> coef p (act 0%nat g m) = 0) -> f m = 0) ->
  invarraylize G n hom n (map f (inv_monoms G n hom (total_degree p))) (total_degree p) = Ok q ->
  wf n q /\ forall m, length m = n -> coef q m = f m.
Proof.
  intros Hp Hh Hf Hz Hq.
  destruct (invarraylize_spec K n G hom HG (map f (inv_monoms G n hom (total_degree p))) (total_degree p)) as [q' [Hq' [Hwf [_ Hc]]]].
  { apply map_length. }
  rewrite Hq' in Hq. apply Ok_inj in Hq. subst q'. split; [exact Hwf|]. intros m Hm. rewrite (Hc m Hm).
  destruct (index_of (standard_monom G m) (inv_monoms G n hom (total_degree p))) as [i|] eqn:E.
  - apply index_of_some in E. destruct E as [Hi E]. rewrite (vget_map K _ []) by exact Hi. rewrite E. apply Hf. exact Hm.
  - symmetry. apply Hz; [exact Hm|]. intros g Hg. apply index_of_none in E.
    apply coef_notin. intro Hin. apply E.
    rewrite <- (standard_invariant n G HG m g Hm Hg).
    apply standard_in_monoms; [exact HG|apply Hp; exact Hin|]. apply (covered_of p Hh). exact Hin.
Qed.

Lemma id_act m : length m = n -> act 0%nat (pid n) m = m.
Proof. apply act_id. Qed.

Lemma arraylize_roundtrip_lemma p :
  wf n p -> (forall g, In g G -> invariant_under g p) ->
  (hom = true -> exists d, forall m, In m (keys p) -> list_sum m = d) ->
  exists v q, arraylize G n hom false n p = Ok v /\
              invarraylize G n hom n v (total_degree p) = Ok q /\
              forall m, coef q m = coef p m.
Proof.
  intros Hp Hs Hh. exists (map (coef p) (inv_monoms G n hom (total_degree p))).
  destruct (invarraylize_spec K n G hom HG (map (coef p) (inv_monoms G n hom (total_degree p))) (total_degree p)) as [q [Hq [Hwf _]]].
  { apply map_length. }
  exists q. split; [apply arraylize_spec, Hp|]. split; [exact Hq|].
  pose proof (sym_coef p Hp Hs) as Hcs.
  destruct (roundtrip_gen p q (coef p) Hp Hh) as [_ H].
  - intros m Hm. apply coef_standard; assumption.
  - intros m Hm Hz. rewrite <- (id_act m Hm). apply Hz. apply (g_id n G HG).
  - exact Hq.
  - intro m. destruct (Nat.eq_dec (length m) n) as [Hm|Hm]; [apply H; exact Hm|].
    rewrite !coef_bad_length by assumption. reflexivity.
Qed.

Lemma invarraylize_sym_lemma (v : list K) d q : length v = length (inv_monoms G n hom d) ->
  invarraylize G n hom n v d = Ok q -> wf n q /\ forall g, In g G -> invariant_under g q.
Proof.
  intros Hv Hq. destruct (invarraylize_spec K n G hom HG v d Hv) as [q' [Hq' [Hwf [_ Hc]]]].
  rewrite Hq' in Hq. apply Ok_inj in Hq. subst q'. split; [exact Hwf|]. intros g Hg.
  refine (proj2 (rename_invariant_iff K n g q (g_perm n G HG g Hg) Hwf) _). intros m Hm.
  rewrite !Hc; [|exact Hm|rewrite act_length; apply is_perm_length, (g_perm n G HG); exact Hg].
  rewrite (standard_invariant n G HG m g Hm Hg). reflexivity.
Qed.

Lemma invarraylize_roundtrip_lemma (v : list K) d q : length v = length (inv_monoms G n hom d) ->
  invarraylize G n hom n v d = Ok q -> total_degree q = d -> arraylize G n hom false n q = Ok v.
Proof.
  intros Hv Hq Hd. destruct (invarraylize_spec K n G hom HG v d Hv) as [q' [Hq' [Hwf [_ Hc]]]].
  rewrite Hq' in Hq. apply Ok_inj in Hq. subst q'.
  rewrite arraylize_spec by apply Hwf. rewrite Hd. f_equal. apply list_vget_ext.
  - rewrite map_length. congruence.
  - intros i Hi. rewrite map_length in Hi. rewrite (vget_map K _ []) by exact Hi.
    set (s := nth i (inv_monoms G n hom d) []).
    assert (Hs : In s (inv_monoms G n hom d)) by (apply nth_In; exact Hi).
    rewrite Hc by (apply (inv_monoms_length n G hom HG d); exact Hs).
    apply inv_monoms_in in Hs. destruct Hs as [_ ->]. unfold s.
    rewrite index_of_nth; [reflexivity|apply inv_monoms_NoDup|exact Hi].
Qed.

(** when the top-degree part is non-zero the polynomial has the full degree; in particular for a
    homogeneous manager and a non-zero vector *)
Lemma invarraylize_degree_hom (v : list K) d q : hom = true -> length v = length (inv_monoms G n hom d) ->
  invarraylize G n hom n v d = Ok q -> (exists c, In c v /\ c <> 0) -> total_degree q = d.
Proof.
  intros Hh Hv Hq [c [Hc Hnz]]. destruct (invarraylize_spec K n G hom HG v d Hv) as [q' [Hq' [Hwf [Hz Hcf]]]].
  rewrite Hq' in Hq. apply Ok_inj in Hq. subst q'.
  assert (Hdeg : forall m, In m (keys q) -> list_sum m = d).
  { intros m Hm. pose proof (proj2 Hwf m Hm) as Hl.
    assert (Hne : coef q m <> 0).
    { apply in_map_iff in Hm. destruct Hm as [[m' c'] [E Hin]]. cbn in E. subst m'.
      rewrite (coef_in K q m c' (proj1 Hwf) Hin). apply (Hz m c' Hin). }
    rewrite (Hcf m Hl) in Hne. destruct (index_of (standard_monom G m) (inv_monoms G n hom d)) as [i|] eqn:E; [|congruence].
    apply index_of_some in E. destruct E as [Hi E].
    assert (Hin : In (standard_monom G m) (inv_monoms G n hom d)) by (rewrite <- E; apply nth_In; exact Hi).
    apply inv_monoms_in in Hin. destruct Hin as [Hin _]. apply generate_partitions_in in Hin. rewrite Hh in Hin.
    destruct Hin as [_ Hin]. rewrite <- Hin. symmetry.
    apply (permute_sum n G HG); [exact Hl|apply (standard_in_orbit n G HG)]. }
  apply total_degree_homog; [exact Hdeg|]. intro Eq.
  destruct (In_nth v c 0 Hc) as [i [Hi Ei]].
  assert (Hin : In (nth i (inv_monoms G n hom d) []) (inv_monoms G n hom d)) by (apply nth_In; congruence).
  pose proof (inv_monoms_length n G hom HG d _ Hin) as Hl.
  pose proof (Hcf _ Hl) as H. apply inv_monoms_in in Hin. rewrite (proj2 Hin) in H.
  rewrite index_of_nth in H; [|apply inv_monoms_NoDup|congruence].
  rewrite Eq in H. cbn in H. apply Hnz. rewrite <- Ei. symmetry. exact H.
Qed.

Lemma expand_value_lemma p :
  wf n p -> (hom = true -> exists d, forall m, In m (keys p) -> list_sum m = d) ->
  exists v q, arraylize G n hom true n p = Ok v /\
              invarraylize G n hom n v (total_degree p) = Ok q /\
              forall x : nat -> K, peval x q = fsum (map (fun g => peval (fun i => x (nth i g 0%nat)) p) G).
Proof.
  intros Hp Hh. set (f := fun s => fsum (map (fun g => coef p (act 0%nat g s)) G)).
  exists (map f (inv_monoms G n hom (total_degree p))).
  destruct (invarraylize_spec K n G hom HG (map f (inv_monoms G n hom (total_degree p))) (total_degree p)) as [q [Hq [Hwf _]]].
  { apply map_length. }
  exists q. split; [apply arraylize_expand_spec; assumption|]. split; [exact Hq|].
  assert (Hfs : forall m h, In h G -> length m = n -> f (act 0%nat h m) = f m).
  { intros m h Hh' Hm. unfold f.
    transitivity (fsum (map (fun g => coef p (act 0%nat g m)) (map (fun r => pcomp r h) G))).
    - rewrite map_map. apply fsum_map_ext. intros g Hg. f_equal.
      apply (act_comp 0%nat n); [apply (g_perm n G HG); exact Hg|apply is_perm_length, (g_perm n G HG); exact Hh'].
    - apply fsum_perm, Permutation_map. apply (translate_r_perm n G HG). exact Hh'. }
  destruct (roundtrip_gen p q f Hp Hh) as [_ H].
  - intros m Hm. pose proof (standard_in_orbit n G HG m) as Ho. apply in_map_iff in Ho. destruct Ho as [g [<- Hg]]. apply Hfs; assumption.
  - intros m Hm Hz. unfold f. apply fsum_map_0. intros g Hg. apply Hz. exact Hg.
  - exact Hq.
  - intro x.
    set (L := nodup mon_dec (keys q ++ flat_map (fun g => keys (prename K g p)) G)).
    assert (HL : NoDup L) by apply NoDup_nodup.
    assert (Hpg : forall g, In g G -> wf n (prename K g p)) by (intros g Hg; apply prename_wf; [apply (g_perm n G HG); exact Hg|exact Hp]).
    rewrite (peval_over K x q L); [|apply Hwf|exact HL|intros m Hm; apply nodup_In, in_or_app; left; exact Hm].
    transitivity (fsum (map (fun g => fsum (map (fun m => coef (prename K g p) m * meval x m) L)) G)).
    + rewrite fsum_swap. apply fsum_map_ext. intros m Hm.
      assert (Hml : length m = n).
      { apply nodup_In in Hm. apply in_app_or in Hm. destruct Hm as [Hm|Hm]; [apply Hwf; exact Hm|].
        apply in_flat_map in Hm. destruct Hm as [g [Hg Hm]]. apply (Hpg g Hg). exact Hm. }
      rewrite (H m Hml). unfold f. rewrite <- fsum_map_mul_r. apply fsum_map_ext. intros g Hg.
      rewrite (prename_coef K n g p m) by (try assumption; apply (g_perm n G HG); exact Hg). reflexivity.
    + apply fsum_map_ext. intros g Hg. rewrite <- (peval_over K x (prename K g p) L).
      * apply (prename_peval K n); [apply (g_perm n G HG); exact Hg|apply Hp].
      * apply Hpg. exact Hg.
      * exact HL.
      * intros m Hm. apply nodup_In, in_or_app. right. apply in_flat_map. exists g. split; assumption.
Qed.
End S.

(** the cache never changes what is returned *)
Fixpoint run_register (G : list (list nat)) (n : nat) (hom : bool) cache (ops : list nat) : list (list (list nat)) :=
  match ops with
  | [] => []
  | d :: ops' => let (v, cache') := register_cached G n hom cache d in v :: run_register G n hom cache' ops'
  end.
Lemma run_register_spec G n hom ops : forall cache,
  (forall d v, In (d, v) cache -> v = inv_monoms G n hom d) ->
  run_register G n hom cache ops = map (inv_monoms G n hom) ops.
Proof.
  induction ops as [|d ops IH]; intros cache Hc; [reflexivity|]. cbn [run_register map]. unfold register_cached.
  destruct (find (fun e => Nat.eqb (fst e) d) cache) as [[d' v]|] eqn:E.
  - apply find_some in E. destruct E as [E1 E2]. apply Nat.eqb_eq in E2. cbn in E2. subst d'.
    rewrite (Hc d v E1). f_equal. apply IH. exact Hc.
  - f_equal. apply IH. intros d' v' [E'|H']; [inversion E'; reflexivity|]. apply Hc. exact H'.
Qed.
