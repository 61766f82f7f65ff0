(** * C25: vector layouts of symmetric matrices *)
From Coq Require Import Bool List Arith Lia ZArith.
From Verif Require Import OrdField Base LinSolve Mat2Vec.
Import ListNotations.
Local Open Scope of_scope.

(** The two length functions are inverse in both modes. *)
Theorem lengths_inverse n m : length_of_mat (length_of_vec n m) m = n.
Proof. exact (length_of_mat_vec n m). Qed.
Print Assumptions lengths_inverse.

(** Mode DIRECT: any square matrix survives the round trip. *)
Theorem direct_mat_vec_mat (K : OrdField) n (S : list (list K)) :
  square K n S -> vec2mat (mat2vec n S DIRECT) DIRECT = Ok S.
Proof. exact (direct_roundtrip K n S). Qed.
Print Assumptions direct_mat_vec_mat.

Theorem direct_vec_mat_vec (K : OrdField) n (v : list K) :
  length v = length_of_vec n DIRECT ->
  exists S, vec2mat (PMat v) DIRECT = Ok S /\ square K n S /\ mat2vec n S DIRECT = PMat v.
Proof.
  intro HL. destruct (vec2mat (PMat v) DIRECT) as [S|er] eqn:E.
  - exists S. split; [reflexivity|]. apply (direct_roundtrip_back K v n S E). exact HL.
  - exfalso. apply vec2mat_error in E. destruct E as (_ & _ & H). apply (H n). exact HL.
Qed.
Print Assumptions direct_vec_mat_vec.

(** A vector is rejected exactly when its length is not a square. *)
Theorem direct_rejects (K : OrdField) (v : list K) er :
  vec2mat (PMat v) DIRECT = Err er -> er = ValueError /\ forall n, length v <> length_of_vec n DIRECT.
Proof. intro E. apply vec2mat_error in E. destruct E as (_ & -> & H). split; [reflexivity|exact H]. Qed.
Print Assumptions direct_rejects.

(** The upper triangular layout, read as a list: a square matrix is recovered
    exactly when it is symmetric; a vector of triangular length is always
    recovered, from a symmetric matrix. *)
Theorem upper_mat_vec_mat (K : OrdField) n (S : list (list K)) :
  square K n S -> (from_upper (upper_vec n S) = S <-> symmetric K n S).
Proof. exact (upper_roundtrip K n S). Qed.
Print Assumptions upper_mat_vec_mat.

Theorem upper_vec_mat_vec (K : OrdField) n (v : list K) :
  length v = length_of_vec n UPPER ->
  upper_vec n (from_upper v) = v /\ symmetric K n (from_upper v) /\ square K n (from_upper v).
Proof. exact (upper_roundtrip_back K n v). Qed.
Print Assumptions upper_vec_mat_vec.

(** Through the public pair of functions mode UPPER never works: [mat2vec]
    returns a generator and [vec2mat] asks for its shape. *)
Theorem upper_api_refuted (K : OrdField) n (S : list (list K)) :
  vec2mat (mat2vec n S UPPER) UPPER = Err OtherError.
Proof. reflexivity. Qed.
Print Assumptions upper_api_refuted.

(** Mode UPPER accepts vectors of any length: the fourth entry is dropped,
    a missing third one becomes zero. *)
Theorem upper_length_refuted : forall a b c d : QcOF,
  vec2mat (PMat [a; b; c; d]) UPPER = vec2mat (PMat [a; b; c]) UPPER /\
  vec2mat (PMat [a; b]) UPPER = vec2mat (PMat [a; b; 0]) UPPER.
Proof. intros. split; reflexivity. Qed.
Print Assumptions upper_length_refuted.

(** [S_from_y] evaluates the affine family entry by entry. *)
Theorem S_from_y_affine (K : OrdField) n (x0 : list K) space (y : list K) :
  length x0 = length_of_vec n DIRECT ->
  exists S, S_from_y x0 space y = Ok S /\ square K n S /\
    forall i j, (i < n)%nat -> (j < n)%nat ->
      mget S i j = vget x0 (i * n + j) + dotv (length y) (nth (i * n + j) space []) y.
Proof.
  intro HL. destruct (S_from_y_ok K x0 space y n HL) as [S E]. exists S. split; [exact E|]. apply (S_from_y_entry K x0 space y n S HL E).
Qed.
Print Assumptions S_from_y_affine.

Example mat2vec_cases :
  square QcOF 3 [[1; 2; 3]; [2; 4; 0]; [3; 0; 1]] /\ symmetric QcOF 3 [[1; 2; 3]; [2; 4; 0]; [3; 0; 1]] /\
  upper_vec (K := QcOF) 3 [[1; 2; 3]; [2; 4; 0]; [3; 0; 1]] = [1; 2; 3; 4; 0; 1] /\
  from_upper (K := QcOF) [1; 2; 3; 4; 0; 1] = [[1; 2; 3]; [2; 4; 0]; [3; 0; 1]] /\
  vec2mat (K := QcOF) (PMat [1; 2; 3; 4; 0]) DIRECT = Err ValueError.
Proof.
  repeat split; try reflexivity.
  - intros r [<-|[<-|[<-|[]]]]; reflexivity.
  - intros [|[|[|i]]] [|[|[|j]]] Hi Hj; try lia; reflexivity.
Qed.
