(** * Permutations and permutation groups acting on tuples

    sympy's [Permutation] in array form on [n] points is the list of images.
    [perm(seq)] is the list [seq[perm[i]]] (used in triples/utils/monomials.py:162
    and throughout), and [(p*q)[i] = q[p[i]]].  A [PermutationGroup] is
    modelled by the list of its elements. *)
From Coq Require Import Bool List Arith Lia Permutation.
Import ListNotations.

Definition act {A} (d : A) (p : list nat) (m : list A) : list A := map (fun i => nth i m d) p.
Definition pcomp (p q : list nat) : list nat := act 0 p q.
Definition pid (n : nat) : list nat := seq 0 n.

Definition is_perm (n : nat) (p : list nat) : Prop := Permutation p (seq 0 n).

(** The elements of a permutation group of degree [n], each listed once. *)
Record is_group (n : nat) (G : list (list nat)) : Prop := {
  g_perm : forall p, In p G -> is_perm n p;
  g_nodup : NoDup G;
  g_id : In (pid n) G;
  g_mul : forall p q, In p G -> In q G -> In (pcomp p q) G;
  g_inv : forall p, In p G -> exists q, In q G /\ pcomp p q = pid n /\ pcomp q p = pid n
}.

Lemma is_perm_length n p : is_perm n p -> length p = n.
Proof. intro H. apply Permutation_length in H. rewrite seq_length in H. exact H. Qed.
Lemma is_perm_bound n p i : is_perm n p -> In i p -> i < n.
Proof. intros H Hi. apply (Permutation_in _ H) in Hi. apply in_seq in Hi. lia. Qed.
Lemma is_perm_nth n p i : is_perm n p -> i < n -> nth i p 0 < n.
Proof.
  intros H Hi. apply (is_perm_bound n p); [exact H|]. apply nth_In. rewrite (is_perm_length n p H). exact Hi.
Qed.
Lemma is_perm_nodup n p : is_perm n p -> NoDup p.
Proof. intro H. apply Permutation_sym in H. eapply Permutation_NoDup; [exact H|apply seq_NoDup]. Qed.

Lemma act_length {A} (d : A) p m : length (act d p m) = length p.
Proof. apply map_length. Qed.
Lemma act_nth {A} (d : A) p m i : i < length p -> nth i (act d p m) d = nth (nth i p 0) m d.
Proof.
  intro H. unfold act.
  rewrite nth_indep with (d' := nth 0 m d) by (rewrite map_length; exact H).
  change (nth 0 m d) with ((fun i => nth i m d) 0). apply (map_nth (fun i => nth i m d)).
Qed.
Lemma nth_ext_eq {A} (d : A) l1 l2 :
  length l1 = length l2 -> (forall i, i < length l1 -> nth i l1 d = nth i l2 d) -> l1 = l2.
Proof. intros H1 H2. apply nth_ext with (d := d) (d' := d); assumption. Qed.

Lemma act_id {A} (d : A) n m : length m = n -> act d (pid n) m = m.
Proof.
  intro H. apply nth_ext_eq with (d := d).
  - rewrite act_length. unfold pid. rewrite seq_length. congruence.
  - intros i Hi. rewrite act_length in Hi. unfold pid in Hi. rewrite seq_length in Hi.
    rewrite act_nth by (unfold pid; rewrite seq_length; exact Hi).
    unfold pid. rewrite seq_nth by exact Hi. reflexivity.
Qed.

Lemma act_comp {A} (d : A) n p q m : is_perm n p -> length q = n ->
  act d p (act d q m) = act d (pcomp p q) m.
Proof.
  intros Hp Hq. unfold pcomp, act at 1 3. rewrite map_map || idtac.
  unfold act at 2. rewrite map_map. apply map_ext_in. intros i Hi.
  apply act_nth. apply (is_perm_bound n p) in Hi; [lia|exact Hp].
Qed.

Lemma act_perm {A} (d : A) n p m : is_perm n p -> length m = n -> Permutation (act d p m) m.
Proof.
  intros Hp Hm. rewrite <- (act_id d n m Hm) at 2. unfold act. apply Permutation_map. exact Hp.
Qed.

Section Group.
Variable n : nat.
Variable G : list (list nat).
Hypothesis HG : is_group n G.

Lemma act_inv {A} (d : A) p q m :
  In p G -> In q G -> pcomp p q = pid n -> length m = n -> act d p (act d q m) = m.
Proof.
  intros Hp Hq E Hm. rewrite (act_comp d n).
  - rewrite E. apply act_id. exact Hm.
  - apply (g_perm n G HG). exact Hp.
  - apply is_perm_length. apply (g_perm n G HG). exact Hq.
Qed.

Lemma pcomp_assoc p q r : In p G -> In q G -> In r G -> pcomp p (pcomp q r) = pcomp (pcomp p q) r.
Proof.
  intros Hp Hq Hr. unfold pcomp at 1 2 3. apply (act_comp 0 n).
  - apply (g_perm n G HG). exact Hp.
  - apply is_perm_length, (g_perm n G HG). exact Hq.
Qed.
Lemma pcomp_id_l p : In p G -> pcomp (pid n) p = p.
Proof. intro Hp. apply (act_id 0 n). apply is_perm_length, (g_perm n G HG). exact Hp. Qed.
Lemma pcomp_id_r p : In p G -> pcomp p (pid n) = p.
Proof.
  intro Hp. unfold pcomp, act. rewrite <- (map_id p) at 2. apply map_ext_in. intros i Hi.
  unfold pid. rewrite seq_nth; [reflexivity|]. eapply is_perm_bound; [apply (g_perm n G HG); exact Hp|exact Hi].
Qed.

(** left and right translations permute the elements of the group *)
Lemma translate_r_perm p : In p G -> Permutation (map (fun r => pcomp r p) G) G.
Proof.
  intro Hp. apply NoDup_Permutation_bis.
  - destruct (g_inv n G HG p Hp) as [q [Hq [E1 E2]]].
    apply (NoDup_map_inv (fun r => pcomp r q)).
    rewrite map_map. rewrite map_ext_in with (g := fun r => r).
    + rewrite map_id. apply (g_nodup n G HG).
    + intros r Hr. rewrite <- pcomp_assoc by assumption. rewrite E1. apply pcomp_id_r. exact Hr.
  - rewrite map_length. lia.
  - intros r Hr. apply in_map_iff in Hr. destruct Hr as [s [<- Hs]]. apply (g_mul n G HG); assumption.
Qed.

Lemma translate_l_perm p : In p G -> Permutation (map (fun r => pcomp p r) G) G.
Proof.
  intro Hp. apply NoDup_Permutation_bis.
  - destruct (g_inv n G HG p Hp) as [q [Hq [E1 E2]]].
    apply (NoDup_map_inv (fun r => pcomp q r)).
    rewrite map_map. rewrite map_ext_in with (g := fun r => r).
    + rewrite map_id. apply (g_nodup n G HG).
    + intros r Hr. rewrite pcomp_assoc by assumption. rewrite E2. apply pcomp_id_l. exact Hr.
  - rewrite map_length. lia.
  - intros r Hr. apply in_map_iff in Hr. destruct Hr as [s [<- Hs]]. apply (g_mul n G HG); assumption.
Qed.

Lemma inverse_unique p q r : In p G -> In q G -> In r G ->
  pcomp p q = pid n -> pcomp r p = pid n -> q = r.
Proof.
  intros Hp Hq Hr E1 E2. rewrite <- (pcomp_id_l q Hq), <- E2, <- pcomp_assoc by assumption.
  rewrite E1. apply pcomp_id_r. exact Hr.
Qed.
End Group.

(** The inverse as a function on array forms. *)
Fixpoint find_pos (x : nat) (l : list nat) : nat :=
  match l with [] => 0 | y :: l' => if Nat.eqb x y then 0 else S (find_pos x l') end.
Definition pinv (p : list nat) : list nat := map (fun i => find_pos i p) (seq 0 (length p)).

Lemma find_pos_nth x l : In x l -> find_pos x l < length l /\ nth (find_pos x l) l 0 = x.
Proof.
  induction l as [|y l IH]; intro H; [destruct H|]. cbn.
  destruct (Nat.eqb_spec x y) as [->|Hne]; [split; [lia|reflexivity]|].
  destruct H as [H|H]; [congruence|]. apply IH in H. split; [lia|]. apply H.
Qed.
Lemma find_pos_of_nth l i : NoDup l -> i < length l -> find_pos (nth i l 0) l = i.
Proof.
  intros Hnd Hi. assert (Hin : In (nth i l 0) l) by (apply nth_In; exact Hi).
  destruct (find_pos_nth _ _ Hin) as [H1 H2].
  eapply NoDup_nth; eassumption.
Qed.

Lemma nth_map_seq {A} (f : nat -> A) n i d : i < n -> nth i (map f (seq 0 n)) d = f i.
Proof.
  intro H. rewrite nth_indep with (d' := f 0) by (rewrite map_length, seq_length; exact H).
  rewrite map_nth, seq_nth by exact H. reflexivity.
Qed.

Lemma pinv_r n p : is_perm n p -> pcomp p (pinv p) = pid n.
Proof.
  intro Hp. pose proof (is_perm_length n p Hp) as Hl.
  apply nth_ext_eq with (d := 0); unfold pcomp, pid; rewrite act_length; [rewrite seq_length; exact Hl|].
  intros i Hi. rewrite act_nth by exact Hi. rewrite seq_nth by lia.
  unfold pinv. rewrite nth_map_seq by (rewrite Hl; apply is_perm_nth; [exact Hp|lia]). apply find_pos_of_nth; [eapply is_perm_nodup; exact Hp|exact Hi].
Qed.
Lemma pinv_l n p : is_perm n p -> pcomp (pinv p) p = pid n.
Proof.
  intro Hp. pose proof (is_perm_length n p Hp) as Hl.
  apply nth_ext_eq with (d := 0); unfold pcomp, pid; rewrite act_length; [unfold pinv; rewrite map_length; rewrite !seq_length; exact Hl|].
  intros i Hi. rewrite act_nth by exact Hi.
  unfold pinv in *. rewrite map_length, seq_length in Hi.
  rewrite nth_map_seq by exact Hi. rewrite seq_nth by lia. cbn [plus].
  apply find_pos_nth. apply (Permutation_in (l := seq 0 n)); [apply Permutation_sym; exact Hp|].
  apply in_seq. lia.
Qed.

Lemma pinv_in n G p : is_group n G -> In p G -> In (pinv p) G.
Proof.
  intros HG Hp. destruct (g_inv n G HG p Hp) as [q [Hq [E1 E2]]].
  assert (Hpp : is_perm n p) by (apply (g_perm n G HG); exact Hp).
  replace (pinv p) with q; [exact Hq|].
  (* q = q * (p * pinv p) = pinv p *)
  assert (Hlen : length (pinv p) = n) by (unfold pinv; rewrite map_length, seq_length; apply is_perm_length; exact Hpp).
  assert (Hqp : is_perm n q) by (apply (g_perm n G HG); exact Hq).
  rewrite <- (pcomp_id_r n G HG q Hq). rewrite <- (pinv_r n p Hpp).
  unfold pcomp at 1 2. rewrite (act_comp 0 n) by (try exact Hqp; apply is_perm_length; exact Hpp).
  rewrite E2. apply act_id. exact Hlen.
Qed.

Lemma pinv_perm_list n G : is_group n G -> Permutation (map pinv G) G.
Proof.
  intro HG. apply NoDup_Permutation_bis.
  - apply (NoDup_map_inv pinv). rewrite map_map.
    rewrite map_ext_in with (g := fun r => r); [rewrite map_id; apply (g_nodup n G HG)|].
    intros p Hp. pose proof (pinv_in n G p HG Hp) as Hi. pose proof (pinv_in n G _ HG Hi) as Hii.
    symmetry. apply (inverse_unique n G HG (pinv p)); try assumption.
    + apply pinv_l. apply (g_perm n G HG). exact Hp.
    + apply pinv_l. apply (g_perm n G HG). exact Hi.
  - rewrite map_length. lia.
  - intros r Hr. apply in_map_iff in Hr. destruct Hr as [s [<- Hs]]. eapply pinv_in; eassumption.
Qed.
