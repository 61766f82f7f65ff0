(** * C88: coordinates (u, v), cyclic sums and standard form of ternary roots *)
From Coq Require Import Bool List Arith Lia QArith Qcanon.
From Verif Require Import OrdField Base RootUv RootUvFacts RootStd.
Import ListNotations.
Local Open Scope of_scope.

(** Every root with nonzero sum has coordinates unless two of its entries are zero, and from them
    [cyclic_sum] computes the sum of the rotations of any monomial, scaled to a + b + c = 1. *)
Theorem root_cyclic_sum_exact : forall (K : OrdField) (a b c : K), a + b + c <> 0 ->
  ~ ((a = 0 /\ b = 0) \/ (b = 0 /\ c = 0) \/ (c = 0 /\ a = 0)) ->
  exists u v, uv_of a b c = Some (u, v) /\
    forall i j k, cyclic_sum u v i j k =
      (a ^ i * b ^ j * c ^ k + b ^ i * c ^ j * a ^ k + c ^ i * a ^ j * b ^ k) / (a + b + c) ^ (i + j + k).
Proof.
  intros K a b c Hp Hk. destruct (uv_some K a b c Hp Hk) as (u & v & E). exists u, v. split; [exact E|].
  intros i j k. exact (cyclic_sum_ok K a b c u v i j k Hp E).
Qed.
Print Assumptions root_cyclic_sum_exact.

(** The polynomial of [poly] has the scaled entries as its three roots. *)
Theorem root_poly_exact : forall (K : OrdField) (a b c u v : K), a + b + c <> 0 -> uv_of a b c = Some (u, v) ->
  forall t : K, t*t*t - t*t + fst (cubic u v) * t - snd (cubic u v) =
    (t - a / (a + b + c)) * (t - b / (a + b + c)) * (t - c / (a + b + c)).
Proof. exact cubic_factors. Qed.
Print Assumptions root_poly_exact.

(** The equation in the documentation of the class. *)
Theorem root_uv_equation : forall (K : OrdField) (a b c u v : K), uv_of a b c = Some (u, v) ->
  a*a - b*b + u * (a*b - a*c) + v * (b*c - a*b) = 0.
Proof. exact uv_equation. Qed.
Print Assumptions root_uv_equation.

(** [from_uv] is a right inverse of [uv] wherever the cubic has three roots in the field. *)
Theorem root_from_uv_exact : forall (K : OrdField) (roots : K -> K -> K * K * K) (u v : K),
  (let q := (u + v - 1) / ker_of u v in let r := (u*v - 1) / (ker_of u v * ker_of u v) in
   let '(a, b, c) := roots q r in a + b + c = 1 /\ a*b + b*c + c*a = q /\ a*b*c = r) ->
  ~ (u = - (1) /\ v = - (1)) ->
  let '(a, b, c) := from_uv roots u v in a + b + c = 1 /\ uv_of a b c = Some (u, v).
Proof. exact from_uv_ok. Qed.
Print Assumptions root_from_uv_exact.

(** Corners have no finite coordinates, although their cyclic sums exist. *)
Theorem root_corner_sums_refuted : forall (K : OrdField) (a : K) (n : nat), a <> 0 ->
  uv_of a 0 0 = None /\ csum a 0 0 (S n) 0 0 = 1.
Proof. exact corner_csum. Qed.
Print Assumptions root_corner_sums_refuted.

(** [standardize()] scales to the sum three; with [cyc=True] the result is a rotation of that whose
    first entry is the largest one, the second one being as large if the largest occurs twice. *)
Theorem standardize_exact : forall (K : OrdField) (a b c : K), a + b + c <> 0 ->
  let s := (a + b + c) / (1 + 1 + 1) in
  standardize false (a, b, c) = (a / s, b / s, c / s) /\
  rotations (a / s, b / s, c / s) (standardize true (a, b, c)) /\
  (~ (a = b /\ a = c) -> let '(x, y, z) := standardize true (a, b, c) in y <= x /\ z < x).
Proof.
  intros K a b c Hs. destruct (standardize_cyc K a b c Hs) as [R L].
  exact (conj (standardize_plain K a b c Hs) (conj R L)).
Qed.
Print Assumptions standardize_exact.

(** Multiples and rotations of a root have the same standard form, so that duplicates are recognised. *)
Theorem standardize_orbit_invariant : forall (K : OrdField) (t a b c : K), t <> 0 -> a + b + c <> 0 ->
  standardize true (t * b, t * c, t * a) = standardize true (a, b, c) /\
  standardize true (t * a, t * b, t * c) = standardize true (a, b, c).
Proof. exact standardize_orbit. Qed.
Print Assumptions standardize_orbit_invariant.

(** The documentation of the class: for uv = 1 the root (u, 0, 1); otherwise the equation of a/c and the
    cubic of b/c, with a sign of y corrected ... *)
Theorem root_documented_formulas_partial : forall (K : OrdField),
  (forall u : K, u <> 0 -> uv_of u 0 1 = Some (u, 1 / u)) /\
  forall a b c u v : K, a <> 0 -> b <> 0 -> c <> 0 -> a + b + c <> 0 -> uv_of a b c = Some (u, v) ->
    (b / c * u - v) * (a / c) = b / c * (b / c) + b / c * (u - v) - 1 /\
    u*v <> 1 /\
    let t := b / c in
    let x := ((v - u) * (u*v + u + v - (1 + 1)) + u*u*u + 1) / (1 - u*v) in
    let y := ((v - u) * (u*v + u + v - (1 + 1)) - v*v*v - 1) / (1 - u*v) in
    t*t*t + x * (t*t) + y * t - 1 = 0.
Proof.
  intro K. split; [exact (border_uv K)|]. intros a b c u v Ha Hb Hc Hp E.
  exact (conj (ratio_equation K a b c u v Hc E) (ratio_cubic K a b c u v Ha Hb Hc Hp E)).
Qed.
Print Assumptions root_documented_formulas_partial.

(** ... because with the y of the documentation, (u - v)(uv + u + v - 2) - v^3 - 1 over 1 - uv, b/c is not
    a root. *)
Theorem root_documented_cubic_refuted : exists a b c u v : QcOF,
  a <> 0 /\ b <> 0 /\ c <> 0 /\ a + b + c <> 0 /\ uv_of a b c = Some (u, v) /\
  let t := b / c in
  let x := ((v - u) * (u*v + u + v - (1 + 1)) + u*u*u + 1) / (1 - u*v) in
  let y := ((u - v) * (u*v + u + v - (1 + 1)) - v*v*v - 1) / (1 - u*v) in
  t*t*t + x * (t*t) + y * t - 1 <> 0.
Proof.
  exists (q 3 1), (q 1 1), (q 2 1). eexists. eexists.
  split; [intro H; apply (f_equal this) in H; vm_compute in H; discriminate|].
  split; [intro H; apply (f_equal this) in H; vm_compute in H; discriminate|].
  split; [intro H; apply (f_equal this) in H; vm_compute in H; discriminate|].
  split; [intro H; apply (f_equal this) in H; vm_compute in H; discriminate|].
  split; [reflexivity|]. intros t x y H. apply (f_equal this) in H. vm_compute in H. discriminate.
Qed.
Print Assumptions root_documented_cubic_refuted.

(** ** The hypotheses can be met *)
(** The root (1, 2, 3). *)
Example root_example : exists u v : QcOF, uv_of (q 1 1) (q 2 1) (q 3 1) = Some (u, v) /\
  this (cyclic_sum u v 2 1 0) = (23 # 216)%Q /\ this (cyclic_sum u v 4 2 1) = (53 # 46656)%Q.
Proof. eexists. eexists. split; [reflexivity|]. split; vm_compute; reflexivity. Qed.
(** Its coordinates lead back to a multiple of it. *)
Example from_uv_example : forall u v : QcOF, uv_of (q 1 1) (q 2 1) (q 3 1) = Some (u, v) ->
  let '(x, y, z) := from_uv (fun _ _ => (q 3 6, q 2 6, q 1 6)) u v in
  (this x, this y, this z) = (1 # 6, 1 # 3, 1 # 2)%Q.
Proof. intros u v E. injection E as <- <-. vm_compute. reflexivity. Qed.
(** Two rotations of a root with a double maximum. *)
Example standardize_example :
  let st := fun r : QcOF * QcOF * QcOF => let '(x, y, z) := standardize true r in (this x, this y, this z) in
  st (q 2 1, q 1 1, q 2 1) = (6 # 5, 6 # 5, 3 # 5)%Q /\ st (q 4 1, q 4 1, q 2 1) = (6 # 5, 6 # 5, 3 # 5)%Q.
Proof. vm_compute. split; reflexivity. Qed.
