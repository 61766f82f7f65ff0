(** * The elementary symmetric polynomials are algebraically independent *)
From Coq Require Import Bool List Arith Lia ZArith Ring Field Permutation.
From Verif Require Import OrdField Base Perm Poly PolyId PolyOps Expr TriPoly Pqr PqrSym.
From Verif Require Shared.
Import ListNotations.

Section Facts.
Variable K : OrdField.
Local Open Scope of_scope.
Add Field Kf : (F_field K).
Implicit Types (x : nat -> K) (p f : poly K).

Definition reindex (P : list nat -> bool) (h : list nat -> list nat) p : poly K := map (fun t => (h (fst t), snd t)) (filter (fun t => P (fst t)) p).
Lemma reindex_keys P h k p m : (forall u, P u = true -> k (h u) = u) -> In m (keys (reindex P h p)) -> exists u, m = h u /\ P u = true /\ In u (keys p).
Proof.
  intros _ H. unfold keys, reindex in H. rewrite map_map in H. apply in_map_iff in H. destruct H as (t & <- & H). apply filter_In in H. destruct H as [H1 H2].
  exists (fst t). split; [reflexivity|]. split; [exact H2|apply in_map, H1].
Qed.
Lemma reindex_coef P h k p m : (forall u, P u = true -> k (h u) = u) -> P (k m) = true -> h (k m) = m -> coef (reindex P h p) m = coef p (k m).
Proof.
  intros Hk Pm Hm. unfold coef. enough (E : dget (reindex P h p) m = dget p (k m)) by (rewrite E; reflexivity).
  unfold reindex. induction p as [|[u c] p IH]; [reflexivity|]. cbn [filter fst dget]. destruct (P u) eqn:Eu.
  - cbn [map dget fst snd]. rewrite IH. destruct (meqb_spec m (h u)) as [->|N].
    + rewrite (Hk u Eu), meqb_refl. reflexivity.
    + destruct (meqb_spec (k m) u) as [E|]; [|reflexivity]. exfalso. apply N. rewrite <- E, Hm. reflexivity.
  - rewrite IH. destruct (meqb_spec (k m) u) as [E|]; [|reflexivity]. congruence.
Qed.
Lemma reindex_wf P h k n n' p : (forall u, P u = true -> k (h u) = u) -> (forall u, P u = true -> length u = n -> length (h u) = n') -> wf n p -> wf n' (reindex P h p).
Proof.
  intros Hk Hl [N L]. split.
  - clear L. induction p as [|[u c] p IH]; [constructor|]. cbn in N. apply NoDup_cons_iff in N. destruct N as [N1 N2]. unfold reindex. cbn [filter fst]. destruct (P u) eqn:Eu; [|exact (IH N2)].
    cbn [map keys fst]. constructor; [|exact (IH N2)]. intro H. destruct (reindex_keys P h k p (h u) Hk H) as (v & E & Pv & Hv). apply N1.
    rewrite <- (Hk u Eu), E, (Hk v Pv). exact Hv.
  - intros m H. destruct (reindex_keys P h k p m Hk H) as (u & -> & Pu & Hu). apply Hl; [exact Pu|apply L, Hu].
Qed.
Definition low0 (u : list nat) : bool := match u with [] => false | _ => Nat.eqb (last u 0%nat) 0 end.
Definition high (u : list nat) : bool := negb (Nat.eqb (last u 0%nat) 0).
Definition declast (u : list nat) : list nat := removelast u ++ [pred (last u 0%nat)].
Lemma low0_inv u : low0 u = true -> removelast u ++ [0%nat] = u.
Proof.
  destruct u as [|e u]; [discriminate|]. unfold low0. intro H. apply Nat.eqb_eq in H. rewrite <- H at 1. symmetry. apply app_removelast_last. discriminate.
Qed.
Lemma high_inv u : high u = true -> bump_last (declast u) = u.
Proof.
  intro H. unfold high in H. destruct u as [|e u]; [discriminate|]. unfold declast. rewrite bump_last_app. destruct (Nat.eqb_spec (last (e :: u) 0%nat) 0) as [|N]; [discriminate|].
  rewrite Nat.succ_pred by exact N. symmetry. apply app_removelast_last. discriminate.
Qed.
Lemma split_val n p (y : nat -> K) : wf (S n) p -> peval y p = peval y (reindex low0 (@removelast nat) p) + y n * peval y (reindex high declast p).
Proof.
  intros [_ L]. induction p as [|[u c] p IH]; [unfold reindex; cbn [filter map]; rewrite !peval_nil; ring|].
  rewrite peval_cons, IH by (intros m Hm; apply L; right; exact Hm).
  assert (Lu : length u = S n) by (apply L; left; reflexivity). unfold reindex. cbn [filter fst].
  destruct (exists_last (l := u)) as (v & e & ->); [intros ->; discriminate|]. rewrite app_length in Lu. cbn in Lu. assert (Lv : length v = n) by lia.
  assert (E1 : low0 (v ++ [e]) = Nat.eqb e 0) by (unfold low0; destruct (v ++ [e]) eqn:E; [destruct v; discriminate|]; rewrite <- E, last_last; reflexivity).
  assert (E2 : high (v ++ [e]) = negb (Nat.eqb e 0)) by (unfold high; rewrite last_last; reflexivity). rewrite E1, E2, meval_snoc, Lv.
  destruct (Nat.eqb_spec e 0) as [->|N]; cbn [negb map fst snd].
  - rewrite removelast_last, !peval_cons. cbn [fpow]. ring.
  - unfold declast at 2. rewrite removelast_last, last_last, !peval_cons, meval_snoc, Lv. destruct e as [|e]; [contradiction|]. cbn [pred fpow]. ring.
Qed.
Lemma zero_val p (y : nat -> K) : NoDup (keys p) -> (forall m, coef p m = 0) -> peval y p = 0.
Proof.
  intros N Z. rewrite (coef_ext_peval K y p []); [apply peval_nil|exact N|constructor|]. exact Z.
Qed.
Lemma cancel_prodx n p : wf n p -> (forall x, prodx K n x * peval x p = 0) -> forall m, coef p m = 0.
Proof.
  intros W H m. set (P := reindex (fun _ => true) (map S) p).
  assert (Hk : forall u : list nat, true = true -> map pred (map S u) = u) by (intros u _; rewrite map_map; apply map_id).
  assert (WP : wf n P) by (apply (reindex_wf _ _ (map pred) n n p Hk); [intros u _ Hu; rewrite map_length; exact Hu|exact W]).
  assert (Z : forall m, coef P m = 0).
  { apply (peval_zero K n P WP). intro x. rewrite <- (H x). unfold P, reindex, peval. rewrite map_map, <- fsum_map_mul_l. cbn [fst snd].
    transitivity (fsum (map (fun t : list nat * K => snd t * meval x (map S (fst t))) p)); [f_equal; f_equal; clear; induction p as [|t p IH]; [reflexivity|cbn [filter]; rewrite IH; reflexivity]|].
    apply fsum_map_ext. intros t Ht. rewrite (meval_S K n x (fst t)) by (apply W, in_map, Ht). ring. }
  pose proof (Z (map S m)) as Zm. unfold P in Zm. rewrite (reindex_coef _ _ (map pred) p (map S m) Hk eq_refl) in Zm; [|rewrite (map_map S pred); cbn [pred]; rewrite map_id; reflexivity].
  rewrite (map_map S pred) in Zm. cbn [pred] in Zm. rewrite map_id in Zm. exact Zm.
Qed.
Lemma removelast_len (u : list nat) n : length u = S n -> length (removelast u) = n.
Proof. intro H. destruct (exists_last (l := u)) as (v & e & ->); [intros ->; discriminate|]. rewrite removelast_last. rewrite app_length in H. cbn in H. lia. Qed.

Theorem esym_indep n : forall M f, wf n f -> tdeg K M f -> (forall x, peval (epoint n x) f = 0) -> forall m, coef f m = 0.
Proof.
  induction n as [|n IHn].
  - intros M f W _ H. apply (peval_zero K 0 f W). intro x. rewrite <- (H x). apply (Shared.peval_ext_len K 0); [exact W|]. intros i Hi. lia.
  - induction M as [M IHM] using lt_wf_ind. intros f W T H.
    set (fa := reindex low0 (@removelast nat) f). set (fb := reindex high declast f).
    assert (Wa : wf n fa). { apply (reindex_wf _ _ (fun u => u ++ [0%nat]) (S n) n f low0_inv); [intros u _; apply removelast_len|exact W]. }
    assert (Wb : wf (S n) fb). { apply (reindex_wf _ _ bump_last (S n) (S n) f high_inv); [|exact W]. intros u _ Hu. unfold declast. rewrite app_length, (removelast_len u n Hu). cbn. lia. }
    assert (Za : forall m, coef fa m = 0).
    { apply (IHn M fa Wa).
      - intros m Hm. destruct (reindex_keys _ _ (fun u => u ++ [0%nat]) f m low0_inv Hm) as (u & -> & Pu & Hu). specialize (T u Hu). rewrite <- (low0_inv u Pu), list_sum_app in T. lia.
      - intro x. pose proof (H (scons K 0 x)) as E. rewrite (split_val n f _ W) in E. fold fa in E. rewrite (epoint_0 K n x n) in E. unfold epoint at 2 in E.
        rewrite (esl_over K _ (S n)) in E by (rewrite map_length, seq_length; lia).
        rewrite (Shared.peval_ext_len K n fa (epoint (S n) (scons K 0 x)) (epoint n x) Wa) in E by (intros i _; apply epoint_0). rewrite <- E. ring. }
    assert (Zb : forall m, coef fb m = 0).
    { destruct M as [|M].
      - intro m. apply coef_notin. intro Hm. destruct (reindex_keys _ _ _ f m high_inv Hm) as (u & -> & Pu & Hu). specialize (T u Hu). unfold high in Pu.
        destruct (exists_last (l := u)) as (v & e & ->); [intros ->; discriminate|]. rewrite last_last in Pu. rewrite list_sum_app in T. cbn in T. destruct e; [discriminate|lia].
      - apply (IHM M (Nat.lt_succ_diag_r M) fb Wb).
        + intros m Hm. destruct (reindex_keys _ _ _ f m high_inv Hm) as (u & -> & Pu & Hu). specialize (T u Hu). unfold high in Pu.
          destruct (exists_last (l := u)) as (v & e & ->); [intros ->; discriminate|]. unfold declast. rewrite removelast_last, last_last in *. rewrite list_sum_app in *. cbn in *. destruct e; [discriminate|]. cbn [pred]. lia.
        + destruct (ecomp_spec K (S n) 0 fb) as (_ & C2 & C3). intro x. rewrite <- C3. apply zero_val; [apply C2|].
          apply (cancel_prodx (S n) _ C2). intro y. rewrite C3, <- epoint_last. pose proof (H y) as E. rewrite (split_val n f _ W) in E. fold fa fb in E.
          rewrite (zero_val fa _ (proj1 Wa) Za) in E. rewrite <- E. ring. }
    intro m. destruct (in_dec mon_dec m (keys f)) as [Hin|]; [|apply coef_notin; assumption]. pose proof (proj2 W m Hin) as Lm.
    destruct (exists_last (l := m)) as (v & e & ->); [intros ->; discriminate|]. destruct e as [|e].
    + rewrite <- (reindex_coef low0 (@removelast nat) (fun u => u ++ [0%nat]) f v low0_inv); [apply Za| |apply removelast_last].
      unfold low0. destruct (v ++ [0%nat]) eqn:E; [destruct v; discriminate|]. rewrite <- E, last_last. reflexivity.
    + rewrite <- (bump_last_app v e). rewrite <- (reindex_coef high declast bump_last f (v ++ [e]) high_inv); [apply Zb| |].
      * unfold high. rewrite bump_last_app, last_last. reflexivity.
      * rewrite bump_last_app. unfold declast. rewrite removelast_last, last_last. reflexivity.
Qed.
Definition maxdeg (f : poly K) : nat := fold_right (fun t d => Nat.max (list_sum (fst t)) d) 0%nat f.
Lemma maxdeg_tdeg f : tdeg K (maxdeg f) f.
Proof.
  intros m Hm. unfold keys in Hm. apply in_map_iff in Hm. destruct Hm as (t & <- & Ht). induction f as [|u f IH]; [destruct Ht|]. unfold maxdeg. cbn [fold_right]. fold (maxdeg f).
  destruct Ht as [->|Ht]; [lia|specialize (IH Ht); lia].
Qed.
Theorem esym_unique n f f' : wf n f -> wf n f' -> (forall x, peval (epoint n x) f = peval (epoint n x) f') -> forall m, coef f m = coef f' m.
Proof.
  intros W W' H. destruct (sub_full K n f f' W W') as (D1 & D2).
  assert (V : forall x, peval (epoint n x) (padd f (pneg f')) = 0) by (intro x; rewrite D2, H; ring).
  pose proof (esym_indep n _ _ D1 (maxdeg_tdeg _) V) as Z.
  intro m. apply (peval_inj K n f f' W W'). intro x. pose proof (zero_val _ x (proj1 D1) Z) as E. rewrite D2 in E. apply fsub_eq0. exact E.
Qed.
End Facts.
