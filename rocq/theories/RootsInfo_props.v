(** * C91: information on roots (rootsinfo.py:14-163) *)
From Coq Require Import Bool List Arith QArith Qcanon.
From Verif Require Import OrdField Base RootUv RootsInfo.
Import ListNotations.
Local Open Scope of_scope.

(** [nonborder_roots] are the strict roots without a zero, [nontrivial_roots] those whose coordinates are
    moreover distinct. *)
Theorem rootsinfo_selections_exact : forall (K : OrdField) (o : info K) (r : list K),
  (In r (nonborder_roots o) <-> In r (i_strict o) /\ ~ In 0 r) /\
  (In r (nontrivial_roots o) <-> In r (i_strict o) /\ ~ In 0 r /\ NoDup r).
Proof. intros K o r. exact (conj (nonborder_roots_iff K o r) (nontrivial_roots_iff K o r)). Qed.
Print Assumptions rootsinfo_selections_exact.

(** [filter_tangents] keeps exactly the tangents that are small at all normalised nontrivial roots (the
    documentation says that these are removed), and a second call changes nothing. *)
Theorem filter_tangents_exact : forall (K : OrdField) (tol : K) (o : info K) (ts : list (tangent K)),
  (forall t, In t (filter_tangents tol o ts) <->
     In t ts /\ forall r, In r (i_strict o) -> ~ In 0 r -> NoDup r -> rabs (t (norm_r r)) < tol) /\
  filter_tangents tol o (filter_tangents tol o ts) = filter_tangents tol o ts.
Proof. intros K tol o ts. exact (conj (filter_tangents_in K tol o ts) (filter_tangents_idem K tol o ts)). Qed.
Print Assumptions filter_tangents_exact.

(** The roots are scaled so that the mean of the absolute values is 1. The test does not depend on their
    scaling, and a homogeneous tangent that is zero at all
    nontrivial roots is kept. *)
Theorem filter_tangents_homogeneous : forall (K : OrdField),
  (forall r : list K, r <> [] -> ~ In 0 r -> fsum (map rabs (norm_r r)) = fnat (length r)) /\
  (forall (k : K) r, 0 < k -> ~ In 0 r -> norm_r (map (fmul k) r) = norm_r r) /\
  forall (d : nat) (tol : K) (o : info K) ts t, 0 < tol -> (forall (k : K) s, t (map (fmul k) s) = k ^ d * t s) ->
    In t ts -> (forall r, In r (i_strict o) -> ~ In 0 r -> NoDup r -> t r = 0) -> In t (filter_tangents tol o ts).
Proof. intro K. exact (conj (norm_r_average K) (conj (norm_r_scale K) (homogeneous_kept K))). Qed.
Print Assumptions filter_tangents_homogeneous.

(** If the strict roots are among the roots, [normal_roots] are the roots that are not strict, also after the
    approximation of both ... *)
Theorem normal_roots_exact_partial : forall (K : OrdField) (approx : list K -> list K) (tol : K) roots strict ts b g,
  incl strict roots ->
  let o := rootsinfo_init approx tol roots strict ts b g in
  forall r, In r (normal_roots o) <-> In r (i_roots o) /\ ~ In r (i_strict o).
Proof. exact init_normal. Qed.
Print Assumptions normal_roots_exact_partial.

(** ... otherwise strict roots are reported as normal. *)
Theorem normal_roots_strict_refuted :
  let o := rootsinfo_init (fun r : list QcOF => r) (q 1 1000000) [] [[q 1 1; q 2 1; q 3 1]] [] true None in
  In [q 1 1; q 2 1; q 3 1] (normal_roots o) /\ In [q 1 1; q 2 1; q 3 1] (i_strict o).
Proof. cbv zeta. split; left; reflexivity. Qed.
Print Assumptions normal_roots_strict_refuted.

(** By default ([with_tangents=False]) the tangents given to the constructor are discarded. *)
Theorem rootsinfo_tangents_refuted : forall (K : OrdField) (approx : list K -> list K) (tol : K) roots strict (ts : list (tangent K)) b,
  i_tangents (rootsinfo_init approx tol roots strict ts b None) = [].
Proof. reflexivity. Qed.
Print Assumptions rootsinfo_tangents_refuted.

(** ** The hypotheses can be met *)
(** With the nontrivial strict root (1, 2, 3) the tangent a + b - c is kept and a - b removed; (1, 1, 0) and
    (2, 2, 1) are not considered. *)
Example filter_tangents_example :
  let o := Info [] [[q 1 1; q 1 1; q 0 1]; [q 1 1; q 2 1; q 3 1]; [q 2 1; q 2 1; q 1 1]] [] : info QcOF in
  let lin (x y z : QcOF) := fun r : list QcOF => x * nth 0 r 0 + y * nth 1 r 0 + z * nth 2 r 0 in
  length (nontrivial_roots o) = 1%nat /\ length (nonborder_roots o) = 2%nat /\
  map (fun t => this (t [q 5 1; q 0 1; q 1 1])) (filter_tangents (q 1 1000000) o [lin (q 1 1) (q (-1) 1) (q 0 1); lin (q 1 1) (q 1 1) (q (-1) 1)])
  = [4 # 1]%Q.
Proof. vm_compute. repeat split; reflexivity. Qed.

Example normal_roots_example :
  let o := rootsinfo_init (fun r : list QcOF => r) (q 1 1000000) [[q 1 1; q 2 1]; [q 3 1; q 4 1]] [[q 3 1; q 4 1]] [] true None in
  map (map (fun x : QcOF => this x)) (normal_roots o) = [[1 # 1; 2 # 1]]%Q.
Proof. vm_compute. reflexivity. Qed.
