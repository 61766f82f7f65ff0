(** * C22: int64 matrix products *)
From Coq Require Import Bool List Arith Lia ZArith.
From Verif Require Import OrdField Base Int64.
Import ListNotations.
Local Open Scope of_scope.

(** [A0 = q1 * A] and [B0 = q2 * B] are the matrices handed to [matmul], [A]
    and [B] their primitive integer parts.  Unless an entry is -2^63 the
    result is the exact product in the requested shape, whichever path is
    taken. *)
Theorem matmul_correct (K : OrdField) r n c (q1 : K) (A : list (list Z)) (q2 : K) (B : list (list Z)) (shape : nat * nat) :
  no_min A -> no_min B ->
  matmul r n c q1 A q2 B (zscale q1 A) (zscale q2 B) shape
  = reshape (fst shape) (snd shape) (concat (mprod r n c (zscale q1 A) (zscale q2 B))).
Proof. exact (matmul_exact K r n c q1 A q2 B shape). Qed.
Print Assumptions matmul_correct.

(** In the natural shape this is the product itself. *)
Theorem matmul_correct_entries (K : OrdField) r n c (q1 : K) (A : list (list Z)) (q2 : K) (B : list (list Z)) i j :
  no_min A -> no_min B -> (i < r)%nat -> (j < c)%nat ->
  mget (matmul r n c q1 A q2 B (zscale q1 A) (zscale q2 B) (r, c)) i j
  = bsum n (fun k => mget (zscale q1 A) i k * mget (zscale q2 B) k j).
Proof.
  intros NA NB Hi Hj. rewrite (matmul_exact K r n c q1 A q2 B (r, c) NA NB). cbn [fst snd]. unfold mprod. rewrite reshape_concat.
  apply mget_mtab; assumption.
Qed.
Print Assumptions matmul_correct_entries.

Theorem matmul_multiple_correct (K : OrdField) N n m (q1 : K) (A : list (list Z)) (q2 : K) (B : list (list Z)) :
  no_min A -> no_min B ->
  matmul_multiple N n m q1 A q2 B (zscale q1 A) (zscale q2 B)
  = map (fun i => concat (mprod n n m (reshape n n (nth i (zscale q1 A) [])) (zscale q2 B))) (seq 0 N).
Proof. exact (matmul_multiple_exact K N n m q1 A q2 B). Qed.
Print Assumptions matmul_multiple_correct.

Theorem bilinear_multiple_correct (K : OrdField) N n m (q1 : K) (A : list (list Z)) (q2 : K) (U : list (list Z)) :
  (0 < n)%nat -> (0 < m)%nat -> no_min A -> no_min U ->
  bilinear_multiple N n m q1 A q2 U (zscale q1 A) (zscale q2 U)
  = Ok (map (fun i => concat (mprod m n m (mtrans n m (zscale q2 U))
         (mprod n n m (reshape n n (nth i (zscale q1 A) [])) (zscale q2 U)))) (seq 0 N)).
Proof. exact (bilinear_multiple_exact K N n m q1 A q2 U). Qed.
Print Assumptions bilinear_multiple_correct.

(** The guard lets -2^63 through: abs(-2^63) is negative in int64, so the
    bound is computed from the other entries and the product wraps. *)
Theorem matmul_int64_min_refuted :
  exists (A B : list (list Z)),
    matmul 1 2 1 (q 1 1) A (q 1 1) B (zscale (q 1 1) A) (zscale (q 1 1) B) (1, 1)%nat
    <> mprod 1 2 1 (zscale (q 1 1) A) (zscale (q 1 1) B).
Proof.
  exists [[(- 2 ^ 63)%Z; 1%Z]], [[(-1)%Z]; [1%Z]]. intro H.
  apply (f_equal (fun M => mget M 0 0)) in H. apply (f_equal (fun x : QcOF => fltb x (q 0 1))) in H.
  vm_compute in H. discriminate.
Qed.
Print Assumptions matmul_int64_min_refuted.

(** A column space with no columns makes the product raise. *)
Theorem bilinear_multiple_empty_refuted (K : OrdField) N n (q1 : K) A q2 U A0 U0 :
  (0 < N)%nat -> bilinear_multiple N n 0 q1 A q2 U A0 U0 = Err ValueError.
Proof. intro H. unfold bilinear_multiple. destruct N; [lia|]. cbn [Nat.eqb]. rewrite orb_true_r. reflexivity. Qed.
Print Assumptions bilinear_multiple_empty_refuted.

(** ** Cases meeting the hypotheses *)
Example matmul_case :
  no_min [[1; -2]; [3; 4]]%Z /\ matmul_guard 2 [[1; -2]; [3; 4]]%Z [[5]; [-6]]%Z = true /\
  mm64 2 2 1 [[1; -2]; [3; 4]]%Z [[5]; [-6]]%Z = [[17]; [-9]]%Z.
Proof.
  split; [|vm_compute; split; reflexivity].
  intros r z [<-|[<-|[]]]; cbn; intros [<-|[<-|[]]]; discriminate.
Qed.
(** The slow path is taken at the boundary. *)
Example matmul_boundary : matmul_guard 1 [[2 ^ 62]]%Z [[2]]%Z = false /\ matmul_guard 1 [[2 ^ 62 - 1]]%Z [[2]]%Z = true.
Proof. vm_compute. split; reflexivity. Qed.
