(** * C20, C21: [congruence] is sound and complete *)
From Coq Require Import Bool List Arith Lia QArith Qcanon.
From Verif Require Import OrdField Base Congruence.
Import ListNotations.
Local Open Scope of_scope.

(** C20: exact decomposition, non-negative weights, upper triangular factor. *)
Theorem congruence_sound (K : OrdField) (M U : list (list K)) (Sv : list K) :
  symmetric (length M) M ->
  congruence M = Ok (Some (U, Sv)) ->
  length U = length M /\ length Sv = length M /\
  (forall i j, (i < length M)%nat -> (j < length M)%nat ->
     mget M i j = bsum (length M) (fun k => mget U k i * vget Sv k * mget U k j)) /\
  (forall i, (i < length M)%nat -> 0 <= vget Sv i) /\
  (forall i j, (i < length M)%nat -> (j < i)%nat -> mget U i j = 0).
Proof. exact (congruence_sound_lemma K M U Sv). Qed.
Print Assumptions congruence_sound.

(** C20: the weighted sum of squares printed from (U, S) is the quadratic form of M. *)
Theorem congruence_sum_of_squares (K : OrdField) (M U : list (list K)) (Sv : list K) (x : nat -> K) :
  symmetric (length M) M ->
  congruence M = Ok (Some (U, Sv)) ->
  bsum (length M) (fun i => bsum (length M) (fun j => x i * mget M i j * x j))
  = bsum (length M) (fun k => vget Sv k *
      (bsum (length M) (fun i => mget U k i * x i) * bsum (length M) (fun i => mget U k i * x i))).
Proof. exact (congruence_sos_lemma K M U Sv x). Qed.
Print Assumptions congruence_sum_of_squares.

(** C21: [None] is returned exactly for the matrices that are not PSD. *)
Theorem congruence_none_iff_not_psd (K : OrdField) (M : list (list K)) :
  M <> [] -> symmetric (length M) M ->
  (congruence M = Ok None <->
   exists x : nat -> K,
     bsum (length M) (fun i => bsum (length M) (fun j => x i * mget M i j * x j)) < 0).
Proof. exact (congruence_none_lemma K M). Qed.
Print Assumptions congruence_none_iff_not_psd.

(** C21: the call never raises on a non-empty matrix. *)
Theorem congruence_total (K : OrdField) (M : list (list K)) :
  M <> [] -> exists r, congruence M = Ok r.
Proof. intro H. exact (ex_intro _ _ (congruence_nonempty K M H)). Qed.
Print Assumptions congruence_total.

(** Non-vacuity: a singular PSD matrix with a zero pivot, and an indefinite one. *)
Definition ex_psd : list (list QcOF) :=
  [[q 4 1; q 2 1; q 2 1]; [q 2 1; q 1 1; q 1 1]; [q 2 1; q 1 1; q 5 1]].
Definition ex_indef : list (list QcOF) := [[q 0 1; q 1 1]; [q 1 1; q 5 1]].

Example ex_psd_sym : symmetric 3 ex_psd.
Proof.
  intros i j Hi Hj.
  do 3 (destruct i as [|i]; [do 3 (destruct j as [|j]; [reflexivity|]); lia|]). lia.
Qed.
Example ex_psd_some :
  match congruence ex_psd with
  | Ok (Some (U, Sv)) =>
      forallb (fun p => qc_eqb (fst p) (snd p)) (combine (concat U) [q 1 1; q 1 2; q 1 2; q 0 1; q 0 1; q 0 1; q 0 1; q 0 1; q 1 1])
      && forallb (fun p => qc_eqb (fst p) (snd p)) (combine Sv [q 4 1; q 0 1; q 4 1])
  | _ => false
  end = true.
Proof. vm_compute. reflexivity. Qed.
Example ex_indef_sym : symmetric 2 ex_indef.
Proof.
  intros i j Hi Hj.
  do 2 (destruct i as [|i]; [do 2 (destruct j as [|j]; [reflexivity|]); lia|]). lia.
Qed.
Example ex_indef_none : congruence ex_indef = Ok None.
Proof. vm_compute. reflexivity. Qed.
