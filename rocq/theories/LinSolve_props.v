(** * C23: general linear systems *)
From Coq Require Import Bool List Arith Lia ZArith.
From Verif Require Import OrdField Base LinSolve.
Import ListNotations.
Local Open Scope of_scope.

(** Every vector [x0 + V y] solves the system, every solution has this form,
    and the parameter is determined by the solution. *)
Theorem solve_linear_complete (K : OrdField) n (A : list (list K)) (b x0 : list K) (V : list (list K)) :
  length A = length b -> Forall (fun row => length row = n) A ->
  solve_linear n A b = Ok (x0, V) ->
  length x0 = n /\ length V = n /\
  exists f, (forall row, In row V -> length row = f) /\
    (forall x, solves n A b x <-> exists y : list K, length y = f /\ affine_point n x0 V y x) /\
    (forall x (y y' : list K), length y = f -> length y' = f ->
       affine_point n x0 V y x -> affine_point n x0 V y' x -> y = y').
Proof.
  intros HL HF E. pose proof (solve_linear_spec K n A b HL HF) as H. rewrite E in H. exact H.
Qed.
Print Assumptions solve_linear_complete.

(** The only exception is ValueError, raised exactly for inconsistent systems. *)
Theorem solve_linear_error_iff (K : OrdField) n (A : list (list K)) (b : list K) :
  length A = length b -> Forall (fun row => length row = n) A ->
  (solve_linear n A b = Err ValueError <-> forall x, ~ solves n A b x) /\
  (forall er, solve_linear n A b = Err er -> er = ValueError).
Proof.
  intros HL HF. pose proof (solve_linear_spec K n A b HL HF) as H. destruct (solve_linear n A b) as [[x0 V]|er].
  - destruct H as (H0 & H1 & f & H2 & H3 & _). split; [|discriminate]. split; [discriminate|].
    intro N. exfalso. apply (N (vtab n (fun i => vget x0 i + dotv f (nth i V []) (repeat 0 f)))).
    apply H3. exists (repeat 0 f). rewrite repeat_length. split; [reflexivity|]. split; [apply vtab_length|].
    intros i Hi. rewrite vget_vtab by exact Hi. rewrite repeat_length. reflexivity.
  - destruct H as [-> H]. split; [split; auto|]. intros er E. congruence.
Qed.
Print Assumptions solve_linear_error_iff.

(** Two equations, three unknowns, one free parameter; the dependent pair of
    equations with contradicting right-hand sides is rejected. *)
Example solve_linear_cases :
  (exists x0 V, solve_linear (K := QcOF) 3 [[1; 1; 1]; [1; 2; 4]] [3; 1] = Ok (x0, V) /\
     map (@length QcOF) V = [1%nat; 1%nat; 1%nat]) /\
  solve_linear (K := QcOF) 2 [[1; 2]; [2; 4]] [1; 3] = Err ValueError /\
  (exists x0 V, solve_linear (K := QcOF) 2 [[1; 2]; [2; 4]] [1; 2] = Ok (x0, V)) /\
  (exists x0 V, solve_linear (K := QcOF) 2 [[0; 2]; [2; 4]] [1; 2] = Ok (x0, V) /\
     map (@length QcOF) V = [0%nat; 0%nat]).
Proof.
  split; [|split; [vm_compute; reflexivity|split]]; eexists; eexists; try split; vm_compute; reflexivity.
Qed.
