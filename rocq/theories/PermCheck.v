(** * Deciding that a concrete list is a permutation group (for examples) *)
From Coq Require Import Bool List Arith Lia Permutation.
From Verif Require Import Perm Poly.
Import ListNotations.

Definition mem (x : list nat) (l : list (list nat)) : bool := existsb (meqb x) l.
Fixpoint nodupb (l : list (list nat)) : bool := match l with [] => true | x :: l' => (negb (mem x l') && nodupb l')%bool end.
Definition permb (n : nat) (p : list nat) : bool :=
  (Nat.eqb (length p) n && forallb (fun i => existsb (Nat.eqb i) p) (seq 0 n))%bool.
Definition group_check (n : nat) (G : list (list nat)) : bool :=
  (forallb (permb n) G && nodupb G && mem (pid n) G
   && forallb (fun p => forallb (fun q => mem (pcomp p q) G) G) G
   && forallb (fun p => existsb (fun q => meqb (pcomp p q) (pid n) && meqb (pcomp q p) (pid n)) G) G)%bool.

Lemma mem_in x l : mem x l = true <-> In x l.
Proof.
  unfold mem. rewrite existsb_exists. split.
  - intros [y [H E]]. apply meqb_eq in E. subst. exact H.
  - intro H. exists x. split; [exact H|apply meqb_refl].
Qed.
Lemma nodupb_spec l : nodupb l = true -> NoDup l.
Proof.
  induction l as [|x l IH]; cbn; intro H; constructor; apply andb_true_iff in H; destruct H as [H1 H2].
  - intro Hin. apply mem_in in Hin. rewrite Hin in H1. discriminate.
  - apply IH. exact H2.
Qed.
Lemma permb_spec n p : permb n p = true -> is_perm n p.
Proof.
  unfold permb. intro H. apply andb_true_iff in H. destruct H as [H1 H2]. apply Nat.eqb_eq in H1.
  rewrite forallb_forall in H2. unfold is_perm. apply Permutation_sym. apply NoDup_Permutation_bis.
  - apply seq_NoDup.
  - rewrite seq_length. lia.
  - intros i Hi. specialize (H2 i Hi). apply existsb_exists in H2. destruct H2 as [j [Hj E]]. apply Nat.eqb_eq in E. subst. exact Hj.
Qed.
Lemma group_check_sound n G : group_check n G = true -> is_group n G.
Proof.
  unfold group_check. rewrite !andb_true_iff. intros [[[[H1 H2] H3] H4] H5]. rewrite forallb_forall in H1, H4, H5. constructor.
  - intros p Hp. apply permb_spec, H1, Hp.
  - apply nodupb_spec, H2.
  - apply mem_in, H3.
  - intros p q Hp Hq. specialize (H4 p Hp). rewrite forallb_forall in H4. apply mem_in, H4, Hq.
  - intros p Hp. specialize (H5 p Hp). apply existsb_exists in H5. destruct H5 as [q [Hq E]].
    apply andb_true_iff in E. destruct E as [E1 E2]. apply meqb_eq in E1. apply meqb_eq in E2. exists q. auto.
Qed.
