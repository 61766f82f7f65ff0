(** * Coordinates (u, v) of ternary roots: triples/utils/roots/roots.py:354-532

    Exact arithmetic over an ordered field; algebraic numbers are elements of it. The cache of
    [cyclic_sum] only stores results and is not modelled. *)
From Coq Require Import Bool List Arith Lia Ring Field.
From Verif Require Import OrdField Base.
Import ListNotations.

Section Model.
Variable K : OrdField.
Local Open Scope of_scope.
Implicit Types a b c u v : K.

(** roots.py:75-77, [is_corner]: at least two coordinates are zero. *)
Definition r_corner a b c : bool :=
  (feqb a 0 && feqb b 0) || (feqb b 0 && feqb c 0) || (feqb c 0 && feqb a 0).
(** roots.py:83-85, [is_symmetric]. *)
Definition r_symmetric a b c : bool := feqb a b || feqb b c || feqb c a.
(** roots.py:87-90, [is_centered]. *)
Definition r_centered a b c : bool := feqb a b && feqb a c.

(** roots.py:358-374, [TernaryMixin.__init__]; [None] for [(oo, oo)]. *)
Definition uv_of a b c : option (K * K) :=
  if r_centered a b c then Some (1 + 1, 1 + 1)
  else if r_corner a b c then None
  else
    let sa2b2 := a*a*b*b + b*b*c*c + c*c*a*a in
    let sa2bc := a*b*c * (a + b + c) in
    let sab3 := a*b*b*b + b*c*c*c + c*a*a*a in
    let sa3b := a*a*a*b + b*b*b*c + c*c*c*a in
    Some ((sab3 - sa2bc) / (sa2b2 - sa2bc), (sa3b - sa2bc) / (sa2b2 - sa2bc)).

(** roots.py:376-377, [_ker]. *)
Definition ker_of u v : K := u*u - u*v + v*v + u + v + 1.

(** roots.py:470-493, the table for exponents below three after the exchange of roots.py:449-450. *)
Definition cs_small u v (i j : nat) : K :=
  let k := ker_of u v in
  let s11 := (u + v - 1) / k in
  match (if Nat.eqb i 0 then (j, i) else (i, j)) with
  | (O, O) => 1 + 1 + 1
  | (S O, O) => 1
  | (S O, S O) => s11
  | (S O, S (S O)) => ((v - u) * (u*v + u + v - (1 + 1)) + u*u*u + 1) / (k*k)
  | (S (S O), O) => 1 - (1 + 1) * s11
  | (S (S O), S O) => ((u - v) * (u*v + u + v - (1 + 1)) + v*v*v + 1) / (k*k)
  | (S (S O), S (S O)) => (u*u + v*v - (1 + 1) * (u + v) + (1 + 1 + 1)) / (k*k)
  | _ => 0
  end.

(** roots.py:417-423, [poly]: the coefficients (q, r) of x^3 - x^2 + q x - r. *)
Definition cubic u v : K * K :=
  (cs_small u v 1 1, (u*v - 1) / (ker_of u v * ker_of u v) * cs_small u v 0 0 / (1 + 1 + 1)).

(** [a**i % mod_poly], roots.py:461-462: coefficients of 1, x, x^2 of the remainder of x^n. *)
Fixpoint xpow_rem (q r : K) (n : nat) : K * K * K :=
  match n with
  | O => (1, 0, 0)
  | S n' => let '(c0, c1, c2) := xpow_rem q r n' in (r * c2, c0 - q * c2, c1 + c2)
  end.
Definition coeff3 (t : K * K * K) (i : nat) : K :=
  match t, i with (x, _, _), O => x | (_, x, _), S O => x | (_, _, x), _ => x end.

(** roots.py:443-493 for a monomial with a zero exponent. Simplification: the terms with coefficient
    zero, which sympy omits, are added as well. *)
Definition cs_min0 u v (i j k : nat) : K :=
  let '(i1, j1) :=
    if negb (Nat.eqb k 0) then (if Nat.eqb j 0 then (k, i) else (j, k)) else (i, j) in
  let '(i2, j2) := if Nat.eqb i1 0 then (j1, i1) else (i1, j1) in
  if Nat.leb 3 (Nat.max i (Nat.max j k)) then
    let '(q, r) := cubic u v in
    let A := xpow_rem q r i2 in let B := xpow_rem q r j2 in
    fsum (map (fun x => fsum (map (fun y => coeff3 A x * coeff3 B y * cs_small u v x y) [0; 1; 2]%nat)) [0; 1; 2]%nat)
  else cs_small u v i2 j2.
(** roots.py:425-493, [cyclic_sum]. *)
Definition cyclic_sum u v (i j k : nat) : K :=
  let m := Nat.min i (Nat.min j k) in
  if Nat.leb 1 m then ((u*v - 1) / (ker_of u v * ker_of u v)) ^ m * cs_min0 u v (i - m) (j - m) (k - m)
  else cs_min0 u v i j k.

(** [abs]. *)
Definition rabs (x : K) : K := if fltb x 0 then - x else x.
(** roots.py:380-405, [from_uv]. [roots] stands for [all_roots] and [nroots], given the coefficients
    (q, r) of x^3 - x^2 + q x - r. A corner has no finite coordinates; the comparison with them is
    then a comparison of infinities, which is false. *)
Definition from_uv (roots : K -> K -> K * K * K) u v : K * K * K :=
  let k := ker_of u v in
  let '(a, b, c) := roots ((u + v - 1) / k) ((u*v - 1) / (k*k)) in
  match uv_of a b c with
  | None => (a, b, c)
  | Some (u', v') =>
      if fltb (rabs (v' - u) + rabs (u' - v)) (rabs (u' - u) + rabs (v' - v)) then (c, b, a) else (a, b, c)
  end.

(** [max] of three numbers: the first of the largest ones. *)
Definition max3 a b c : K := let m := if fltb a b then b else a in if fltb m c then c else m.
(** roots.py:497-532, [standardize]. *)
Definition standardize (cyc : bool) (r : K * K * K) : K * K * K :=
  let '(a, b, c) := r in
  if r_centered a b c then (1, 1, 1)
  else
    let s := (a + b + c) / (1 + 1 + 1) in
    let '(x, y, z) := (a / s, b / s, c / s) in
    if cyc then
      let m := max3 x y z in
      if negb (r_symmetric a b c) then
        if feqb x m then (x, y, z) else if feqb y m then (y, z, x) else if feqb z m then (z, x, y) else (x, y, z)
      else
        if feqb x m && fltb z m then (x, y, z) else if feqb y m && fltb x m then (y, z, x)
        else if feqb z m && fltb y m then (z, x, y) else (x, y, z)
    else (x, y, z).
End Model.
Arguments r_corner {K}. Arguments r_symmetric {K}. Arguments r_centered {K}. Arguments uv_of {K}.
Arguments ker_of {K}. Arguments cs_small {K}. Arguments cubic {K}. Arguments xpow_rem {K}.
Arguments coeff3 {K}. Arguments cs_min0 {K}. Arguments cyclic_sum {K}. Arguments from_uv {K}.
Arguments rabs {K}. Arguments max3 {K}. Arguments standardize {K}.
