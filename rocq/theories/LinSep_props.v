(** * C24: column separated and compressed linear systems *)
From Coq Require Import Bool List Arith Lia ZArith.
From Verif Require Import OrdField Base LinSolve LinSep.
Import ListNotations.
Local Open Scope of_scope.

(** A system in which some column has two non-zero entries: the answer
    parametrises exactly the solutions that are constant on the groups. *)
Theorem csr_general_complete (K : OrdField) n groups (A : list (list K)) (b x0 : list K) (V : list (list K)) :
  groups_ok n groups -> length A = length b -> is_separated n A = false ->
  solve_csr n A b groups = Ok (x0, V) ->
  length x0 = n /\ length V = n /\
  exists f, (forall row, In row V -> length row = f) /\
    (forall x, solves n A b x /\ equal_on groups x <-> exists y : list K, length y = f /\ affine_point n x0 V y x) /\
    (forall x (y y' : list K), length y = f -> length y' = f ->
       affine_point n x0 V y x -> affine_point n x0 V y' x -> y = y').
Proof.
  intros G L S E. pose proof (csr_general_spec K n groups G A b L S) as H. rewrite E in H. exact H.
Qed.
Print Assumptions csr_general_complete.

Theorem csr_general_error_iff (K : OrdField) n groups (A : list (list K)) (b : list K) :
  groups_ok n groups -> length A = length b -> is_separated n A = false ->
  (solve_csr n A b groups = Err ValueError <-> forall x, ~ (solves n A b x /\ equal_on groups x)) /\
  (forall er, solve_csr n A b groups = Err er -> er = ValueError).
Proof.
  intros G L S. pose proof (csr_general_spec K n groups G A b L S) as H. destruct (solve_csr n A b groups) as [[x0 V]|er].
  - destruct H as (H0 & H1 & f & H2 & H3 & _). split; [|discriminate]. split; [discriminate|].
    intro N. exfalso. apply (N (vtab n (fun i => vget x0 i + dotv f (nth i V []) (repeat 0 f)))).
    apply H3. exists (repeat 0 f). rewrite repeat_length. split; [reflexivity|]. split; [apply vtab_length|].
    intros i Hi. rewrite vget_vtab by exact Hi. rewrite repeat_length. reflexivity.
  - destruct H as [-> H]. split; [split; auto|]. intros er E. congruence.
Qed.
Print Assumptions csr_general_error_iff.

(** A column separated system: if every group has one coefficient in each row
    and every zero row has right-hand side zero, then every returned vector is
    a solution; if moreover every column has a non-zero entry, every solution
    that is constant on the groups is returned, for exactly one parameter. *)
Theorem column_separated_partial (K : OrdField) n groups (A : list (list K)) (b x0 : list K) (V : list (list K)) :
  groups_ok n groups -> length A = length b ->
  (forall row g k k', In row A -> In g groups -> In k g -> In k' g -> vget row k = vget row k') ->
  (forall i, (i < length A)%nat -> (forall j, (j < n)%nat -> mget A i j = 0) -> vget b i = 0) ->
  is_separated n A = true ->
  solve_csr n A b groups = Ok (x0, V) ->
  length x0 = n /\ length V = n /\
  exists f, (forall row, In row V -> length row = f) /\
    (forall x y, length y = f -> affine_point n x0 V y x -> solves n A b x /\ equal_on groups x) /\
    ((forall j, (j < n)%nat -> exists i, (i < length A)%nat /\ mget A i j <> 0) ->
      forall x, solves n A b x -> equal_on groups x -> exists y : list K, length y = f /\ affine_point n x0 V y x) /\
    (forall x (y y' : list K), length y = f -> length y' = f ->
       affine_point n x0 V y x -> affine_point n x0 V y' x -> y = y').
Proof.
  intros G L C Z S E. unfold solve_csr in E. rewrite S in E. apply Ok_inj in E.
  pose proof (column_separated_spec K n groups G A b L (fun row H g k k' => C row g k k' H) S) as H.
  rewrite E in H. apply H. intros i Hi Ei. apply Z; [exact Hi|]. intros j Hj.
  destruct (feq_dec K (mget A i j) 0) as [Q|Q]; [exact Q|]. exfalso.
  assert (X : In j (row_cols n (nth i A []))) by (apply row_cols_in; auto). rewrite Ei in X. destruct X.
Qed.
Print Assumptions column_separated_partial.

(** ** What fails without these conditions *)
(** A zero row with a non-zero right-hand side goes unnoticed: the system
    [x = 1, 0 = 1] is "solved". *)
Theorem column_separated_zero_row_refuted : exists (A : list (list QcOF)) b x0 V,
  solve_csr 1 A b [] = Ok (x0, V) /\ forall x, ~ solves 1 A b x.
Proof.
  exists [[1]; [0]], [1; 1]. eexists. eexists. split; [vm_compute; reflexivity|].
  intros x [_ F]. inversion F as [|? ? ? ? _ F']; subst. inversion F' as [|? ? ? ? H _]; subst.
  unfold dotv in H. rewrite (bsum_all0 QcOF) in H; [discriminate H|]. intros k Hk. replace k with 0%nat by lia.
  exact (Qcanon.Qcmult_0_l (vget x 0)).
Qed.
Print Assumptions column_separated_zero_row_refuted.

(** A zero column gets no direction: [x = 1] in the unknowns [x, z] has the
    solution [(1, 1)], which is not returned. *)
Theorem column_separated_zero_column_refuted : exists (A : list (list QcOF)) b x0 V,
  solve_csr 2 A b [] = Ok (x0, V) /\ solves 2 A b [1; 1] /\ forall y : list QcOF, ~ affine_point 2 x0 V y [1; 1].
Proof.
  exists [[1; 0]], [1]. eexists. eexists. split; [vm_compute; reflexivity|]. split.
  - split; [reflexivity|]. constructor; [|constructor]. vm_compute. reflexivity.
  - intros y [_ H]. specialize (H 1%nat ltac:(lia)). unfold dotv in H. cbn [nth] in H.
    rewrite (bsum_all0 QcOF) in H; [discriminate H|]. intros i _.
    destruct i; exact (Qcanon.Qcmult_0_l _).
Qed.
Print Assumptions column_separated_zero_column_refuted.

(** Different coefficients inside a group: for [x + 2 z = 3] with [x = z] the
    answer is [x = z = 3/2], which is not a solution. *)
Theorem column_separated_group_refuted : exists (A : list (list QcOF)) b groups x0 V,
  groups_ok 2 groups /\ solve_csr 2 A b groups = Ok (x0, V) /\ V = [[]; []] /\ ~ solves 2 A b x0.
Proof.
  exists [[1; 2]], [3], [[0%nat; 1%nat]]. eexists. eexists. split; [|split; [vm_compute; reflexivity|split; [reflexivity|]]].
  - split.
    + intros g [<-|[]]. discriminate.
    + intros g [<-|[]]. repeat constructor; cbn; intuition lia.
    + intros g k [<-|[]] [<-|[<-|[]]]; lia.
    + intros g g' k [<-|[]] [<-|[]] _ _. reflexivity.
  - intros [_ F]. inversion F as [|? ? ? ? H _]; subst. vm_compute in H. discriminate H.
Qed.
Print Assumptions column_separated_group_refuted.

(** Both paths on concrete systems: [x0 + x1 + 2 x2 = 4, 3 x3 = 6] with
    [x0 = x1] has the direction (2, 2, -2, 0); adding [x0 + x3 = 5] couples the
    rows and fixes the answer. *)
Example solve_csr_cases :
  let out (r : res (list QcOF * list (list QcOF))) := match r with Ok (x0, V) => Some (map Qcanon.this x0, map (map Qcanon.this) V) | Err _ => None end in
  groups_ok 4 [[0; 1]]%nat /\
  out (solve_csr (K := QcOF) 4 [[1; 1; 2; 0]; [0; 0; 0; 3]] [4; q 6 1] [[0; 1]]%nat)
  = out (Ok ([2; 2; 0; 2], [[2]; [2]; [- (2)]; [0]])) /\
  is_separated (K := QcOF) 4 [[1; 1; 2; 0]; [0; 0; 0; 3]; [1; 0; 0; 1]] = false /\
  out (solve_csr (K := QcOF) 4 [[1; 1; 2; 0]; [0; 0; 0; 3]; [1; 0; 0; 1]] [4; q 6 1; q 5 1] [[0; 1]]%nat)
  = out (Ok ([3; 3; - (1); 2], [[]; []; []; []])).
Proof.
  split; [|split; [vm_compute; reflexivity|split; vm_compute; reflexivity]]. split.
  - intros g [<-|[]]. discriminate.
  - intros g [<-|[]]. repeat constructor; cbn; intuition lia.
  - intros g k [<-|[]] [<-|[<-|[]]]; lia.
  - intros g g' k [<-|[]] [<-|[]] _ _. reflexivity.
Qed.
