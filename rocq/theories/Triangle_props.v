(** * Properties of the coefficient triangle (C62) *)
From Coq Require Import Bool List Arith ZArith Lia Sorting.
From Verif Require Import OrdField Base Poly Triangle.
Import ListNotations.
Local Open Scope of_scope.

(** C62.  For a homogeneous polynomial of degree d in a, b, c, with the terms in sympy's order, row
    i of the triangle lists the coefficients of a^(d-i) b^i, a^(d-i) b^(i-1) c, ..., a^(d-i) c^i. *)
Theorem triangle_exact_partial (K : OrdField) d (p : poly K) :
  (forall m, In m (keys p) -> length m = 3%nat /\ list_sum m = d) -> StronglySorted mlexgt (keys p) ->
  coefficient_triangle K d p = flat_map (fun i => map (fun j => coef p [d - i; i - j; j]%nat) (seq 0 (S i))) (seq 0 (S d)).
Proof. exact (triangle_lemma K d p). Qed.
Print Assumptions triangle_exact_partial.

Example triangle_case : let p : poly QcOF := [([2;0;0]%nat, q 1 1); ([1;0;1]%nat, - q 2 1); ([0;1;1]%nat, q 3 1)] in
  (forall m, In m (keys p) -> length m = 3%nat /\ list_sum m = 2%nat) /\ StronglySorted mlexgt (keys p) /\
  map (fun x => Qcanon.this x) (coefficient_triangle QcOF 2 p) = map (fun z => QArith_base.Qmake z 1) [1; 0; -2; 0; 3; 0]%Z.
Proof.
  cbv zeta. split; [intros m H; cbn in H; intuition; subst; reflexivity|]. split; [|vm_compute; reflexivity].
  repeat constructor; unfold mlexgt; cbn; lia.
Qed.

(** Without homogeneity a coefficient can be lost: for a*c + a the coefficient of a appears nowhere. *)
Theorem triangle_nonhomogeneous_refuted : exists (p : poly QcOF) d, StronglySorted mlexgt (keys p) /\
  (forall m, In m (keys p) -> length m = 3%nat /\ (list_sum m <= d)%nat) /\ coef p [1;0;0]%nat = q 5 1 /\ ~ In (q 5 1) (coefficient_triangle QcOF d p).
Proof.
  exists [([1;0;1]%nat, q 1 1); ([1;0;0]%nat, q 5 1)], 2%nat. split; [repeat constructor; unfold mlexgt; cbn; lia|].
  split; [intros m H; cbn in H; intuition; subst; cbn; lia|]. split; [reflexivity|].
  intro H. apply (in_map (fun x : QcOF => Qcanon.this x)) in H. vm_compute in H. intuition discriminate.
Qed.
Print Assumptions triangle_nonhomogeneous_refuted.
