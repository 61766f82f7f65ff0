(** * Polynomials as dictionaries from exponent tuples to coefficients *)
From Coq Require Import Bool List Arith Lia Permutation Ring Field.
From Verif Require Import OrdField Base Perm.
Import ListNotations.

Fixpoint meqb (s t : list nat) : bool :=
  match s, t with
  | [], [] => true
  | x :: s', y :: t' => (Nat.eqb x y && meqb s' t')%bool
  | _, _ => false
  end.
Lemma meqb_eq s : forall t, meqb s t = true <-> s = t.
Proof.
  induction s as [|x s IH]; destruct t as [|y t]; cbn; split; intro H; try congruence; try reflexivity.
  - apply andb_true_iff in H. destruct H as [H1 H2]. apply Nat.eqb_eq in H1. apply IH in H2. congruence.
  - inversion H; subst. rewrite Nat.eqb_refl. apply IH. reflexivity.
Qed.
Lemma meqb_refl s : meqb s s = true. Proof. apply meqb_eq. reflexivity. Qed.
Lemma meqb_neq s t : meqb s t = false <-> s <> t.
Proof. rewrite <- meqb_eq. destruct (meqb s t); split; intros; congruence. Qed.
Lemma meqb_spec s t : reflect (s = t) (meqb s t).
Proof. apply iff_reflect. symmetry. apply meqb_eq. Qed.
Lemma mon_dec (s t : list nat) : {s = t} + {s <> t}.
Proof. apply (list_eq_dec Nat.eq_dec). Qed.

(** Python dictionaries with tuple keys: insertion ordered, one entry per key. *)
Definition dict (V : Type) : Type := list (list nat * V).
Fixpoint dget {V} (d : dict V) (k : list nat) : option V :=
  match d with [] => None | (k', v) :: d' => if meqb k k' then Some v else dget d' k end.
Fixpoint dset {V} (d : dict V) (k : list nat) (v : V) : dict V :=
  match d with
  | [] => [(k, v)]
  | (k', v') :: d' => if meqb k k' then (k', v) :: d' else (k', v') :: dset d' k v
  end.
Definition keys {V} (d : dict V) : list (list nat) := map fst d.

Section Dict.
Context {V : Type}.
Implicit Types d : dict V.

Lemma dget_in d k v : dget d k = Some v -> In (k, v) d.
Proof.
  induction d as [|[k' v'] d IH]; cbn; [discriminate|].
  destruct (meqb_spec k k') as [->|Hne]; intro H; [inversion H; left; reflexivity|right; auto].
Qed.
Lemma dget_none d k : dget d k = None <-> ~ In k (keys d).
Proof.
  induction d as [|[k' v'] d IH]; cbn; [tauto|].
  destruct (meqb_spec k k') as [->|Hne]; [split; [discriminate|tauto]|].
  rewrite IH. split; intros H; [intros [E|E]; [congruence|tauto]|tauto].
Qed.
Lemma dget_some_of_in d k v : NoDup (keys d) -> In (k, v) d -> dget d k = Some v.
Proof.
  induction d as [|[k' v'] d IH]; cbn; [tauto|]. intros Hnd [E|H].
  - inversion E; subst. rewrite meqb_refl. reflexivity.
  - inversion Hnd as [|x l Hx Hl]; subst. destruct (meqb_spec k k') as [->|Hne]; [|auto].
    exfalso. apply Hx. apply in_map_iff. exists (k', v). auto.
Qed.
Lemma dget_dset_same d k v : dget (dset d k v) k = Some v.
Proof.
  induction d as [|[k' v'] d IH]; cbn; [rewrite meqb_refl; reflexivity|].
  destruct (meqb_spec k k') as [->|Hne]; cbn.
  - rewrite meqb_refl. reflexivity.
  - destruct (meqb_spec k k'); [contradiction|exact IH].
Qed.
Lemma dget_dset_other d k k2 v : k2 <> k -> dget (dset d k v) k2 = dget d k2.
Proof.
  intro H. induction d as [|[k' v'] d IH]; cbn.
  - destruct (meqb_spec k2 k); [contradiction|reflexivity].
  - destruct (meqb_spec k k') as [->|Hne]; cbn.
    + destruct (meqb_spec k2 k'); [contradiction|reflexivity].
    + destruct (meqb_spec k2 k'); [reflexivity|exact IH].
Qed.
Lemma dset_keys_in d k v x : In x (keys (dset d k v)) <-> x = k \/ In x (keys d).
Proof.
  destruct (mon_dec x k) as [->|Hne].
  - split; [tauto|]. intros _. destruct (dget (dset d k v) k) eqn:E.
    + apply dget_in in E. apply in_map_iff. eexists; split; [|exact E]. reflexivity.
    + rewrite dget_dset_same in E. discriminate.
  - destruct (in_dec mon_dec x (keys (dset d k v))) as [H1|H1];
    destruct (in_dec mon_dec x (keys d)) as [H2|H2]; try tauto; exfalso.
    + apply H2. destruct (dget d x) eqn:E.
      * apply dget_in in E. apply in_map_iff. eexists; split; [|exact E]. reflexivity.
      * rewrite <- (dget_dset_other d k x v Hne) in E. apply dget_none in E. contradiction.
    + apply H1. destruct (dget (dset d k v) x) eqn:E.
      * apply dget_in in E. apply in_map_iff. eexists; split; [|exact E]. reflexivity.
      * rewrite (dget_dset_other d k x v Hne) in E. apply dget_none in E. contradiction.
Qed.
Lemma dset_NoDup d k v : NoDup (keys d) -> NoDup (keys (dset d k v)).
Proof.
  induction d as [|[k' v'] d IH]; cbn; intro H; [repeat constructor; intros []|].
  inversion H as [|x l Hx Hl]; subst. destruct (meqb_spec k k') as [->|Hne]; cbn.
  - constructor; assumption.
  - constructor; [|apply IH; exact Hl]. intro Hin. apply dset_keys_in in Hin. destruct Hin; [congruence|contradiction].
Qed.
End Dict.

Section Eval.
Context {K : OrdField}.
Local Open Scope of_scope.

Definition poly : Type := dict K.
(** coefficient of a monomial, 0 when absent (sympy [coeff_monomial], [Coeff.__call__]) *)
Definition coef (p : poly) (m : list nat) : K := match dget p m with Some c => c | None => 0 end.

(** value of the monomial x_0^m_0 ... x_(n-1)^m_(n-1) *)
Definition meval (x : nat -> K) (m : list nat) : K :=
  fprod (map (fun i => x i ^ nth i m 0%nat) (seq 0 (length m))).
(** value of a polynomial *)
Definition peval (x : nat -> K) (p : poly) : K := fsum (map (fun t => snd t * meval x (fst t)) p).

(** well formed: one entry per monomial, all of [n] exponents *)
Definition wf (n : nat) (p : poly) : Prop := NoDup (keys p) /\ forall m, In m (keys p) -> length m = n.
End Eval.
Arguments poly : clear implicits.

Section EvalProofs.
Variable K : OrdField.
Local Open Scope of_scope.
Add Field Kf : (F_field K).
Implicit Types p : poly K.

(** Sum over a complete list of monomials *)
Lemma peval_over (x : nat -> K) p L :
  NoDup (keys p) -> NoDup L -> (forall m, In m (keys p) -> In m L) ->
  peval x p = fsum (map (fun m => coef p m * meval x m) L).
Proof.
  revert L. induction p as [|[k c] p IH]; intros L Hp HL Hin.
  - cbn. symmetry. apply fsum_map_0. intros m _. cbn. ring.
  - cbn in Hp. inversion Hp as [|y l Hk Hp']; subst.
    assert (HkL : In k L) by (apply Hin; left; reflexivity).
    destruct (in_split k L HkL) as [L1 [L2 ->]].
    assert (Hp2 : Permutation (L1 ++ k :: L2) (k :: L1 ++ L2)) by (apply Permutation_sym, Permutation_middle).
    rewrite (fsum_perm _ _ _ (Permutation_map _ Hp2)).
    assert (HL' : NoDup (k :: L1 ++ L2)) by (eapply Permutation_NoDup; eassumption).
    inversion HL' as [|y l HkL' HL'']; subst.
    cbn [map fsum]. unfold peval. cbn [map fsum fst snd].
    unfold coef at 1. cbn [dget]. rewrite meqb_refl. f_equal.
    change (fsum (map (fun t => snd t * meval x (fst t)) p)) with (peval x p).
    rewrite (IH (L1 ++ L2)); [|exact Hp'|exact HL''|].
    + apply fsum_map_ext. intros m Hm. f_equal. unfold coef. cbn [dget].
      destruct (meqb_spec m k) as [->|]; [contradiction|reflexivity].
    + intros m Hm. assert (H : In m (L1 ++ k :: L2)) by (apply Hin; right; exact Hm).
      apply (Permutation_in _ Hp2) in H. destruct H as [<-|H]; [contradiction|exact H].
Qed.

Lemma coef_ext_peval (x : nat -> K) p1 p2 :
  NoDup (keys p1) -> NoDup (keys p2) -> (forall m, coef p1 m = coef p2 m) -> peval x p1 = peval x p2.
Proof.
  intros H1 H2 H. set (L := nodup mon_dec (keys p1 ++ keys p2)).
  rewrite (peval_over x p1 L), (peval_over x p2 L); try assumption.
  - apply fsum_map_ext. intros m _. rewrite H. reflexivity.
  - apply NoDup_nodup.
  - intros m Hm. apply nodup_In, in_or_app. right. exact Hm.
  - apply NoDup_nodup.
  - intros m Hm. apply nodup_In, in_or_app. left. exact Hm.
Qed.

Lemma coef_notin p m : ~ In m (keys p) -> coef p m = 0.
Proof. intro H. unfold coef. apply dget_none in H. rewrite H. reflexivity. Qed.

Lemma coef_in p k c : NoDup (keys p) -> In (k, c) p -> coef p k = c.
Proof. intros H Hin. unfold coef. rewrite (dget_some_of_in p k c H Hin). reflexivity. Qed.

Lemma fprod_map_seq_shift n (f : nat -> K) :
  fprod (map f (seq 1 n)) = fprod (map (fun i => f (S i)) (seq 0 n)).
Proof. rewrite <- seq_shift, map_map. reflexivity. Qed.

Lemma meval_cons (x : nat -> K) e m : meval x (e :: m) = x 0%nat ^ e * meval (fun i => x (S i)) m.
Proof.
  unfold meval. cbn [length seq map fprod nth]. f_equal. rewrite fprod_map_seq_shift. reflexivity.
Qed.
Lemma meval_nil (x : nat -> K) : meval x [] = 1.
Proof. reflexivity. Qed.

(** permuting the variables permutes the exponents *)
Lemma meval_perm n (x : nat -> K) g m : is_perm n g -> length m = n ->
  meval (fun i => x (nth i g 0%nat)) m = meval x (act 0%nat (pinv g) m).
Proof.
  intros Hg Hm. unfold meval. rewrite act_length. unfold pinv at 2. rewrite map_length, seq_length.
  rewrite (is_perm_length n g Hg), Hm.
  transitivity (fprod (map (fun j => x j ^ nth j (act 0%nat (pinv g) m) 0%nat) g)).
  - assert (E : g = map (fun i => nth i g 0%nat) (seq 0 n)).
    { rewrite <- (is_perm_length n g Hg). symmetry. apply (act_id 0%nat (length g) g). reflexivity. }
    transitivity (fprod (map (fun j => x j ^ nth j (act 0%nat (pinv g) m) 0%nat)
                           (map (fun i => nth i g 0%nat) (seq 0 n)))); [|rewrite <- E; reflexivity].
    rewrite map_map. apply fprod_map_ext. intros i Hi. apply in_seq in Hi.
    f_equal. rewrite act_nth.
    + change (nth i m 0%nat = nth (nth (nth i g 0%nat) (pinv g) 0%nat) m 0%nat).
      f_equal. rewrite <- (act_nth 0%nat g (pinv g)) by (rewrite (is_perm_length n g Hg); lia).
      change (act 0%nat g (pinv g)) with (pcomp g (pinv g)). rewrite (pinv_r n g Hg). unfold pid.
      rewrite seq_nth by lia. reflexivity.
    + unfold pinv. rewrite map_length, seq_length, (is_perm_length n g Hg).
      apply is_perm_nth; [exact Hg|lia].
  - apply fprod_perm. apply Permutation_map. exact Hg.
Qed.
End EvalProofs.
