(** * Products of polynomials
    sympy's [Poly.__mul__] and [Poly.__pow__] on sparse polynomials: like terms are collected and
    zero coefficients dropped. *)
From Coq Require Import Bool List Arith Lia Ring Field Permutation.
From Verif Require Import OrdField Base Perm Poly Monomials.
Import ListNotations.

Section Ops.
Context {K : OrdField}.
Local Open Scope of_scope.
(** product of monomials *)
Fixpoint madd (a b : list nat) : list nat :=
  match a, b with x :: a', y :: b' => (x + y)%nat :: madd a' b' | _, _ => [] end.
Definition add_term (p : poly K) (t : list nat * K) : poly K := dset p (fst t) (coef p (fst t) + snd t).
Definition clean (p : poly K) : poly K := filter (fun t => negb (snd t =? 0)) p.
Definition padd (p q : poly K) : poly K := clean (fold_left add_term q p).
Definition pmul (p q : poly K) : poly K :=
  clean (fold_left add_term (flat_map (fun t => map (fun u => (madd (fst t) (fst u), snd t * snd u)) q) p) []).
Definition pone (n : nat) : poly K := [(repeat 0%nat n, 1)].
Fixpoint ppow (n : nat) (p : poly K) (e : nat) : poly K := match e with O => pone n | S k => pmul p (ppow n p k) end.
Definition pneg (p : poly K) : poly K := map (fun t => (fst t, - snd t)) p.
(** every monomial has degree [d] *)
Definition homdeg (d : nat) (p : poly K) : Prop := forall m, In m (keys p) -> list_sum m = d.
End Ops.

Section Facts.
Variable K : OrdField.
Local Open Scope of_scope.
Add Field Kf_pops : (F_field K).
Implicit Types p q : poly K.

Lemma madd_length a : forall b, length a = length b -> length (madd a b) = length a.
Proof. induction a as [|x a IH]; intros [|y b] H; try discriminate; [reflexivity|]. cbn in *. f_equal. apply IH. congruence. Qed.
Lemma madd_sum a : forall b, length a = length b -> list_sum (madd a b) = (list_sum a + list_sum b)%nat.
Proof. induction a as [|x a IH]; intros [|y b] H; try discriminate; [reflexivity|]. cbn in *. rewrite IH by congruence. unfold list_sum. lia. Qed.
Lemma madd_meval a : forall (x : nat -> K) b, length a = length b -> meval x (madd a b) = meval x a * meval x b.
Proof.
  induction a as [|u a IH]; intros x [|v b] H; try discriminate; [rewrite !meval_nil; ring|].
  cbn [madd]. rewrite !meval_cons, IH by (cbn in H; congruence). rewrite fpow_add. ring.
Qed.

Lemma peval_nil (x : nat -> K) : peval x ([] : poly K) = 0.
Proof. reflexivity. Qed.
Lemma peval_cons (x : nat -> K) m c p : peval x ((m, c) :: p) = c * meval x m + peval x p.
Proof. reflexivity. Qed.
Lemma peval_app (x : nat -> K) p q : peval x (p ++ q) = peval x p + peval x q.
Proof. unfold peval. rewrite map_app, fsum_app. reflexivity. Qed.
Lemma add_term_eval (x : nat -> K) p t : NoDup (keys p) -> peval x (add_term p t) = peval x p + snd t * meval x (fst t).
Proof.
  destruct t as [m c]. unfold add_term. cbn [fst snd]. induction p as [|[k v] p IH]; intro Hn.
  - cbn [dset coef dget]. unfold coef. cbn [dget]. rewrite peval_cons, !peval_nil. ring.
  - cbn in Hn. inversion_clear Hn as [|? ? Hk Hn']. cbn [dset]. unfold coef. cbn [dget]. destruct (meqb_spec m k) as [->|Hne].
    + rewrite !peval_cons. ring.
    + rewrite !peval_cons. unfold coef in IH. rewrite (IH Hn'). ring.
Qed.
Lemma add_term_wf n p t : wf n p -> length (fst t) = n -> wf n (add_term p t).
Proof.
  intros [H1 H2] Hl. unfold add_term. split; [apply dset_NoDup, H1|]. intros m Hm. apply dset_keys_in in Hm. destruct Hm as [->|Hm]; [exact Hl|exact (H2 m Hm)].
Qed.
Lemma fold_add_eval (x : nat -> K) n l : forall p, wf n p -> (forall t, In t l -> length (fst t) = n) ->
  wf n (fold_left add_term l p) /\ peval x (fold_left add_term l p) = peval x p + peval x l.
Proof.
  induction l as [|[m c] l IH]; intros p Hp Hl; [split; [exact Hp|cbn [fold_left]; rewrite peval_nil; ring]|]. cbn [fold_left].
  destruct (IH (add_term p (m, c))) as [H1 H2]; [apply add_term_wf; [exact Hp|apply Hl; left; reflexivity]|intros; apply Hl; right; assumption|].
  split; [exact H1|]. rewrite H2, add_term_eval by apply Hp. rewrite peval_cons. cbn [fst snd]. ring.
Qed.
Lemma fold_add_keys l : forall p m, In m (keys (fold_left add_term l p)) -> In m (keys p) \/ In m (map fst l).
Proof.
  induction l as [|t l IH]; intros p m H; [left; exact H|]. cbn [fold_left] in H. apply IH in H. destruct H as [H|H]; [|right; right; exact H].
  unfold add_term in H. apply dset_keys_in in H. destruct H as [->|H]; [right; left; reflexivity|left; exact H].
Qed.
Lemma clean_eval (x : nat -> K) p : peval x (clean p) = peval x p.
Proof.
  induction p as [|[m c] p IH]; [reflexivity|]. unfold clean. cbn [filter snd]. destruct (c =? 0) eqn:E; cbn [negb]; rewrite peval_cons.
  - apply feqb_eq in E. subst c. fold (clean p). rewrite IH. ring.
  - rewrite peval_cons. fold (clean p). rewrite IH. reflexivity.
Qed.
Lemma clean_keys p m : In m (keys (clean p)) -> In m (keys p).
Proof. unfold keys, clean. intro H. apply in_map_iff in H. destruct H as (t & <- & H). apply filter_In in H. apply in_map, H. Qed.
Lemma clean_wf n p : wf n p -> wf n (clean p).
Proof.
  intros [H1 H2]. split; [|intros m Hm; exact (H2 m (clean_keys p m Hm))].
  unfold keys, clean in *. clear H2. induction p as [|[m c] p IH]; [constructor|]. cbn in H1. inversion_clear H1 as [|? ? Hm Hn]. cbn [filter].
  destruct (negb (snd (m, c) =? 0)); [|exact (IH Hn)]. cbn [map fst]. constructor; [|exact (IH Hn)]. intro H. apply Hm.
  apply in_map_iff in H. destruct H as (t & E & H). apply filter_In in H. rewrite <- E. apply in_map, H.
Qed.

Lemma pmul_spec n p q : wf n p -> wf n q -> wf n (pmul p q) /\ (forall x : nat -> K, peval x (pmul p q) = peval x p * peval x q) /\
  (forall d e, homdeg d p -> homdeg e q -> homdeg (d + e) (pmul p q)).
Proof.
  intros Hp Hq. unfold pmul. set (l := flat_map _ p).
  assert (Hl : forall t, In t l -> exists m1 m2, In m1 (keys p) /\ In m2 (keys q) /\ fst t = madd m1 m2).
  { intros t Ht. unfold l in Ht. apply in_flat_map in Ht. destruct Ht as (a & Ha & Ht). apply in_map_iff in Ht. destruct Ht as (b & <- & Hb).
    exists (fst a), (fst b). cbn [fst]. split; [apply in_map, Ha|split; [apply in_map, Hb|reflexivity]]. }
  assert (Hll : forall t, In t l -> length (fst t) = n).
  { intros t Ht. destruct (Hl t Ht) as (m1 & m2 & H1 & H2 & ->). rewrite madd_length; [apply Hp, H1|]. rewrite (proj2 Hp _ H1), (proj2 Hq _ H2). reflexivity. }
  assert (H0 : wf n ([] : poly K)) by (split; [constructor|intros m []]).
  split; [apply clean_wf; apply (fold_add_eval (fun _ => 0) n l [] H0 Hll)|]. split.
  - intro x. rewrite clean_eval, (proj2 (fold_add_eval x n l [] H0 Hll)). unfold l. clear l Hl Hll.
    transitivity (peval x (flat_map (fun t => map (fun u => (madd (fst t) (fst u), snd t * snd u)) q) p)); [rewrite peval_nil; ring|].
    destruct Hp as [_ Hp]. induction p as [|[m c] p IH]; [cbn [flat_map]; rewrite !peval_nil; ring|]. cbn [flat_map]. rewrite peval_app, IH by (intros m' Hm'; apply Hp; right; exact Hm').
    rewrite peval_cons. assert (Hm : length m = n) by (apply Hp; left; reflexivity).
    assert (E : peval x (map (fun u => (madd (fst (m, c)) (fst u), snd (m, c) * snd u)) q) = c * meval x m * peval x q).
    { destruct Hq as [_ Hq]. clear - Hq Hm. induction q as [|[k v] q IH]; [cbn [map]; rewrite !peval_nil; ring|]. cbn [map fst snd] in *. rewrite !peval_cons.
      rewrite IH by (intros m' Hm'; apply Hq; right; exact Hm'). rewrite madd_meval; [ring|]. rewrite Hm. symmetry. apply Hq. left. reflexivity. }
    rewrite E. ring.
  - intros d e Hd He m Hm. apply clean_keys in Hm. apply fold_add_keys in Hm. destruct Hm as [[]|Hm]. apply in_map_iff in Hm. destruct Hm as (t & <- & Ht).
    destruct (Hl t Ht) as (m1 & m2 & H1 & H2 & ->). rewrite madd_sum; [rewrite (Hd _ H1), (He _ H2); reflexivity|].
    rewrite (proj2 Hp _ H1), (proj2 Hq _ H2). reflexivity.
Qed.
Lemma meval_zeros (x : nat -> K) n : meval x (repeat 0%nat n) = 1.
Proof. revert x. induction n as [|n IH]; intro x; [reflexivity|]. cbn [repeat]. rewrite meval_cons, IH. cbn. ring. Qed.
Lemma list_sum_zeros n : list_sum (repeat 0%nat n) = 0%nat.
Proof. induction n; cbn; auto. Qed.
Lemma mono_spec n (m : list nat) (c : K) : length m = n -> wf n [(m, c)] /\ (forall x : nat -> K, peval x [(m, c)] = c * meval x m) /\ homdeg (list_sum m) [(m, c)].
Proof.
  intro H. split; [split; [repeat constructor; intros []|intros k [<-|[]]; exact H]|]. split; [intro x; rewrite peval_cons, peval_nil; ring|].
  intros k [<-|[]]. reflexivity.
Qed.
Lemma pone_spec n : wf n (pone n : poly K) /\ (forall x : nat -> K, peval x (pone n) = 1) /\ homdeg 0 (pone n : poly K).
Proof.
  unfold pone. destruct (mono_spec n (repeat 0%nat n) 1 (repeat_length _ _)) as (H1 & H2 & H3). split; [exact H1|split].
  - intro x. rewrite H2, meval_zeros. ring.
  - rewrite list_sum_zeros in H3. exact H3.
Qed.
Lemma ppow_spec n p e : wf n p -> wf n (ppow n p e) /\ (forall x : nat -> K, peval x (ppow n p e) = peval x p ^ e) /\ (forall d, homdeg d p -> homdeg (e * d) (ppow n p e)).
Proof.
  intro Hp. induction e as [|e (H1 & H2 & H3)]; cbn [ppow].
  - destruct (pone_spec n) as (Ha & Hb & Hc). split; [exact Ha|split; [exact Hb|intros; exact Hc]].
  - destruct (pmul_spec n p (ppow n p e) Hp H1) as (Ha & Hb & Hc). split; [exact Ha|split].
    + intro x. rewrite Hb, H2. reflexivity.
    + intros d Hd. cbn [Nat.mul]. apply Hc; [exact Hd|apply H3, Hd].
Qed.
Lemma pneg_spec n p : wf n p -> wf n (pneg p) /\ (forall x : nat -> K, peval x (pneg p) = - peval x p) /\ (forall d, homdeg d p -> homdeg d (pneg p)).
Proof.
  intro Hp. assert (E : keys (pneg p) = keys p) by (unfold keys, pneg; rewrite map_map; reflexivity).
  split; [unfold wf; rewrite E; exact Hp|]. split; [|intros d Hd m Hm; rewrite E in Hm; exact (Hd m Hm)].
  intro x. clear. induction p as [|[m c] p IH]; [cbn [pneg map]; rewrite !peval_nil; ring|]. cbn [pneg map fst snd]. rewrite !peval_cons. unfold pneg in IH. rewrite IH. ring.
Qed.
Lemma homdeg_total d p : homdeg d p -> p = [] \/ total_degree p = d.
Proof.
  intro H. destruct p as [|t p]; [left; reflexivity|right].
  assert (Ht : list_sum (fst t) = d) by (apply H; left; reflexivity).
  assert (Hp : forall q, homdeg d q -> (total_degree q <= d)%nat).
  { clear. induction q as [|u q IH]; intro Hq; [cbn; lia|]. unfold total_degree. cbn [fold_right]. fold (total_degree q).
    assert (list_sum (fst u) = d) by (apply Hq; left; reflexivity). assert (homdeg d q) by (intros m Hm; apply Hq; right; exact Hm). specialize (IH H0). lia. }
  unfold total_degree. cbn [fold_right]. fold (total_degree p). assert (homdeg d p) by (intros m Hm; apply H; right; exact Hm). specialize (Hp p H0). lia.
Qed.
End Facts.
