(** * C87: grids of values and their local minima *)
From Coq Require Import Bool List Arith Lia.
From Verif Require Import OrdField Base Poly Grid GridMain.
Import ListNotations.

(** Within the limits the grid lists every point of the triangle (simplex) once, with the exact value. *)
Theorem grid_values_exact (K : OrdField) : forall nv (p : poly K) size h,
  size <= size_limit -> poly_in nv degree_limit p ->
  exists g, render nv p size h = Ok g /\ g_nvars g = nv /\ NoDup (g_coor g) /\
    (forall c, In c (g_coor g) <-> length c = nv /\ list_sum c = size) /\
    g_value g = map (value_at p) (g_coor g).
Proof. exact (grid_values K). Qed.
Print Assumptions grid_values_exact.

(** Without the cyclic shortcut the search finds exactly the strict minima of the grid. *)
Theorem local_minima_exact (K : OrdField) : forall (p : poly K) size h g flt,
  size <= size_limit -> poly_in 3 degree_limit p -> render 3 p size h = Ok g ->
  exists l, local_minima g flt false = Ok l /\ NoDup l /\
    (forall c, In c l -> exists i j k, c = [i; j; k]) /\
    forall i j k, In [i; j; k] l <-> grid_min p size i j k /\ (flt = true -> i <> j /\ j <> k /\ i <> k).
Proof. exact (minima_exact K). Qed.
Print Assumptions local_minima_exact.

(** With it, for polynomials that do not change under rotation and every size, the answer consists of
    the nontrivial strict minima whose last coordinate is the largest... *)
Theorem local_minima_cyclic_exact (K : OrdField) : forall (p : poly K) size h g,
  size <= size_limit -> poly_in 3 degree_limit p -> rotation_invariant p -> render 3 p size h = Ok g ->
  exists l, local_minima g true true = Ok l /\ NoDup l /\
    (forall c, In c l -> exists i j k, c = [i; j; k]) /\
    forall i j k, In [i; j; k] l <-> grid_min p size i j k /\ i <> j /\ i < k /\ j < k.
Proof. exact (minima_cyclic K). Qed.
Print Assumptions local_minima_cyclic_exact.

(** ... so of the three rotations of a nontrivial minimum exactly one is reported. *)
Theorem local_minima_one_rotation (K : OrdField) : forall (p : poly K) size h g,
  size <= size_limit -> poly_in 3 degree_limit p -> rotation_invariant p -> render 3 p size h = Ok g ->
  exists l, local_minima g true true = Ok l /\
    forall i j k, grid_min p size i j k -> i <> j -> j <> k -> i <> k ->
      (In [i; j; k] l /\ ~ In [j; k; i] l /\ ~ In [k; i; j] l) \/
      (~ In [i; j; k] l /\ In [j; k; i] l /\ ~ In [k; i; j] l) \/
      (~ In [i; j; k] l /\ ~ In [j; k; i] l /\ In [k; i; j] l).
Proof. exact (minima_one_rotation K). Qed.
Print Assumptions local_minima_one_rotation.

(** Beyond the limits the search answers nothing, whatever the polynomial. *)
Theorem local_minima_beyond_limits (K : OrdField) : forall (p : poly K) size h flt cyc d t,
  size_limit < size \/ (In t p /\ list_sum (fst t) = d /\ degree_limit < d) ->
  exists g, render 3 p size h = Ok g /\ local_minima g flt cyc = Ok [].
Proof. exact (minima_large K). Qed.
Print Assumptions local_minima_beyond_limits.

(** Without the filter the cyclic shortcut loses the centre: on every grid whose size is divisible by
    three there is a rotation invariant polynomial with a strict minimum there that is not reported. *)
Theorem local_minima_centre_refuted (K : OrdField) : forall m h,
  1 <= m -> 3 * m <= size_limit ->
  exists (p : poly K) g l, poly_in 3 degree_limit p /\ rotation_invariant p /\ render 3 p (3 * m) h = Ok g /\
    local_minima g false true = Ok l /\ grid_min p (3 * m) m m m /\ ~ In [m; m; m] l.
Proof. exact (centre_lost K). Qed.
Print Assumptions local_minima_centre_refuted.

(** The heat map takes row [r], entry [j] from the point [(n - r - j, j, r)]. *)
Theorem heatmap_index_exact : forall n r j, r + j <= n ->
  nth (color_index r j) (grid_coor 3 n) [] = [n - r - j; j; r].
Proof. exact GridFacts.color_index_point. Qed.
Print Assumptions heatmap_index_exact.

(** ** The hypotheses can be met *)
(** -2 (a^3 b + b^3 c + c^3 a) - (a^3 c + b^3 a + c^3 b) - 3 a b c (a + b + c) on the grid of size 6
    has the three rotations of (2, 1, 3) as nontrivial minima. *)
Example grid_quartic :
  let p : poly QcOF :=
    let x : QcOF := fopp f1 in let y : QcOF := fadd x x in let z : QcOF := fadd x y in
    [([3; 1; 0], y); ([3; 0; 1], x); ([2; 1; 1], z); ([1; 3; 0], x); ([1; 2; 1], z); ([1; 1; 2], z);
     ([1; 0; 3], y); ([0; 3; 1], y); ([0; 1; 3], x)] in
  let go cyc := match render 3 p 6 true with Ok g => local_minima g true cyc | Err e => Err e end in
  go true = Ok [[2; 1; 3]] /\ go false = Ok [[3; 2; 1]; [2; 1; 3]; [1; 3; 2]].
Proof. vm_compute. split; reflexivity. Qed.
(** a^2 + b^2 + c^2 has a minimum at the centre of the grid of size 3, which the shortcut loses. *)
Example grid_squares :
  let go cyc := match render 3 (squares QcOF) 3 true with Ok g => local_minima g false cyc | Err e => Err e end in
  go false = Ok [[1; 1; 1]] /\ go true = Ok [].
Proof. vm_compute. split; reflexivity. Qed.
Example grid_squares_in : poly_in 3 degree_limit (squares QcOF) /\ rotation_invariant (squares QcOF).
Proof. split; [apply squares_in|apply squares_rot]. Qed.
