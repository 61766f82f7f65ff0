(** * Nonic forms (triples/core/structsos/ternary/nonic.py) and the two symmetric sextics they are
    reduced to (sextic_symmetric.py:413-649) *)
From Coq Require Import Bool List Arith Lia ZArith.
From Verif Require Import OrdField Base Perm Poly PolyId PolyOps Coeff Expr TriPoly.
From Verif Require TernaryQuad TernaryTables PivotProve.
From Verif Require Import Septic.
Import ListNotations.

Section Model.
Context {K : OrdField}.
Local Open Scope of_scope.

Let a : ex K := EX 0.
Let b : ex K := EX 1.
Let c : ex K := EX 2.
Local Notation N n := (fbin n%positive) (only parsing).

(** the denominator of a number ([as_numer_denom()[1]]) and the rational factor of an expression
    ([expand().together().as_coeff_Mul()[0]]): sympy's choice *)
Variable den : K -> K.
Variable cont : ex K -> K.
(** [_structural_sos_3vars_cyclic] (ternary/solver.py), called on other forms *)
Variable rec : poly K -> res (option (ex K)).
(** a rational square root of a rational number ([sp.sqrt] followed by the test [isinstance(x, sp.Rational)]) *)
Variable rsqrt : K -> option K.

Definition sum_y : list K -> list (ex K) -> ex K := TernaryQuad.sum_y.
Definition schurinv6 : ex K := match TernaryTables.schurinv 6 with Some e => e | None => EC 0 end.
Definition amgm_or0 d1 d2 : ex K := match TernaryTables.amgm d1 d2 with Some e => e | None => EC 0 end.

(** [_sos_struct_sextic_hexagram_symmetric] (sextic_symmetric.py:413-552) from its four
    coefficients. [radsimp] keeps values and is omitted. When x + y + 1 = 0 the code divides by
    zero: with x <> 0 the number u is [zoo], the weights are 1/2, 1, 0, 0 and the last one, which is
    negative since the trivial case did not answer, so the code goes on; with x = 0 all is [nan], whose
    comparison raises [TypeError]. *)
Definition hexagram_trivial (c33 c41 c32 c222 : K) : list K :=
  let x := if c41 <? c33 then c41 else c33 in
  [x; c33 - x; c41 - x; c32 + x + c33 + c41; (c33 + c41 + c32 * N 2) * N 3 + c222].
Definition hexagram_square (k1 k2 k3 k4 k5 k6 k7 k8 : K) : ex K :=
  csum (c * (EC k1 * a ^ 3 * b + EC k2 * a ^ 2 * b ^ 2 + EC k3 * a ^ 2 * b * c + EC k4 * a ^ 2 * c ^ 2 + EC k5 * a * b ^ 3
             + EC k6 * a * b ^ 2 * c + EC k7 * a * b * c ^ 2 + EC k8 * b ^ 2 * c ^ 2) ^ 2)%E.
Definition hexagram_last (c33 c41 c32 c222 : K) : res (option (ex K)) :=
  if c33 =? 0 then Ok None
  else
    let x := c41 / c33 in
    let y := - c32 / c33 in
    let z := c222 / c33 in
    let z0 := x ^ 2 + x * y + y ^ 2 / N 3 - y + (y + N 3) ^ 3 / (N 27 * x) in
    if ((0 <? x) && (0 <=? N 3 * x + y + N 3) && (z0 <=? z))%bool then
      let ker := N 324 * x * (N 27 * x ^ 3 + N 27 * x ^ 2 * y + N 81 * x ^ 2 + N 9 * x * y ^ 2 - N 189 * x * y + N 81 * x + y ^ 3
                              + N 9 * y ^ 2 + N 27 * y + N 27) in
      if 0 <? ker then
        let w1 := - (N 9 * x ^ 2 + N 6 * x * y - N 306 * x + y ^ 2 + N 6 * y + N 9) / ker in
        if 0 <? w1 then
          let w2 := 1 / ker in
          let phi2 := N 36 * x ^ 2 + N 15 * x * y - N 117 * x + y ^ 2 + N 6 * y + N 9 in
          let phi1 := N 9 * x ^ 2 + N 6 * x * y - N 117 * x + y ^ 2 + N 15 * y + N 36 in
          let mult := (csum a * csum (a * b))%E in
          Ok (Some (sum_y [w1 * c33; w2 * c33; (z - z0) * c33]%F
            [hexagram_square (- N 9 * x ^ 2 - N 3 * x * y + N 18 * x) (- N 9 * x ^ 2 + N 9 * x + y ^ 2 - N 9) (N 9 * x ^ 2 + N 3 * x * y - N 3 * y - N 9)
               (- N 18 * x + N 3 * y + N 9) (- N 9 * x ^ 2 - N 3 * x * y + N 18 * x) (N 9 * x ^ 2 + N 3 * x * y - N 3 * y - N 9)
               (N 9 * x ^ 2 - N 9 * x - y ^ 2 + N 9) (- N 18 * x + N 3 * y + N 9);
             hexagram_square (- N 3 * phi1 * x) (- N 3 * phi1 * x + phi1 * y + N 3 * phi1 - N 3 * phi2)
               (- N 3 * phi1 * x + phi1 * y + N 3 * phi1 + N 3 * phi2 * x + phi2 * y - N 3 * phi2) (- N 3 * phi2) (- N 3 * phi1 * x)
               (- N 3 * phi1 * x + phi1 * y + N 3 * phi1 + N 3 * phi2 * x + phi2 * y - N 3 * phi2)
               (- N 3 * phi1 * x + N 3 * phi2 * x + phi2 * y - N 3 * phi2) (- N 3 * phi2);
             mult * cprod (a ^ 2)] / mult)%E)
        else Ok None
      else Ok None
    else Ok None.
Definition hexagram_parabola (c33 c41 c32 c222 : K) : res (option (ex K)) :=
  if c41 =? 0 then hexagram_last c33 c41 c32 c222
  else
    let x := c33 / c41 in
    let y := c32 / c41 in
    if (1 + x + y) ^ 2 <=? x then
      if x + y + 1 =? 0 then if x =? 0 then Err TypeError else hexagram_last c33 c41 c32 c222
      else
        let u := (y + 1) / (x + y + 1) in
        let w2 := x / (u - 1) ^ 2 in
        let w1 := 1 - w2 in
        let r := den u in
        let ys := [w1 / N 2; w1; w2 / r ^ 2 / N 2; w2 / r ^ 2; ((c33 + c41 + c32 * N 2) + c222 / N 3) / c41 * N 3] in
        if existsb (fun v => v <? 0) ys then hexagram_last c33 c41 c32 c222
        else
          Ok (Some (sum_y (map (fun v => v * c41)%F ys)
            [csum ((b - c) ^ 2 * (b + c - a) ^ 2) * cprod a;
             csum (b * c * (b - c) ^ 2) * cprod a;
             csum ((b - c) ^ 2 * (EC r * b + EC r * c - EC (r * u) * a) ^ 2) * cprod a;
             csum (a * (b - c) ^ 2 * (EC (r * (1 - u)) * a * b + EC (r * (1 - u)) * a * c + EC (r * u) * b * c) ^ 2);
             csum a * cprod (a ^ 2)] / csum a)%E)
    else hexagram_last c33 c41 c32 c222.
Definition hexagram_symmetric (c33 c41 c32 c222 : K) : res (option (ex K)) :=
  if ((c33 <? 0) || (c41 <? 0))%bool then Ok None
  else
    let y := hexagram_trivial c33 c41 c32 c222 in
    if forallb (fun v => 0 <=? v) y then
      Ok (Some (sum_y y
        [csum (a * b * (a - c) ^ 2 * (b - c) ^ 2); schurinv6; schur3 * cprod a; csum (a * (b - c) ^ 2) * cprod a; cprod (a ^ 2)]%E))
    else hexagram_parabola c33 c41 c32 c222.

(** [_sos_struct_sextic_tree] (sextic_symmetric.py:555-649) from its four coefficients. Division by
    zero: coeff6 = 0 with a negative coefficient, and u + v + 4 = 0, make a [zoo] (or [nan]) whose
    comparison raises [TypeError]. *)
Definition tree_point (t : K) : ex K :=
  if ((t =? N 2) || (t =? - (1)))%bool then (EC (1 / N 2) * csum a ^ 2 * csum ((b - c) ^ 4))%E
  else
    let p := den t in
    let q := t * p in
    (EC (1 / (N 2 * p ^ 3)) * match TernaryQuad.common_quadratic p q with Some e => e | None => EC 0 end
       * csum ((a - b) ^ 2 * (EC p * a + EC p * b - EC q * c) ^ 2))%E.
Definition tree_regular (c6 u v rem t : K) : option (ex K) :=
  let s1 := u - (t ^ 3 - N 3 * t) in
  let s2 := v + N 3 * t * (t - 1) in
  if ((- (1) <=? t) && (0 <=? s1) && (0 <=? s2))%bool then
    Some (sum_y [c6; c6 * s1 / N 2; c6 * s2 / N 2; rem]%F
      [tree_point t; csum (a * b) * csum (a ^ 2 * (b - c) ^ 2); csum a * csum ((a - b) ^ 2) * cprod a; cprod (a ^ 2)]%E)
  else None.
Fixpoint first_some {X Y} (f : X -> option Y) (l : list X) : option Y :=
  match l with [] => None | x :: l' => match f x with Some y => Some y | None => first_some f l' end end.
Definition tree_det (u v : K) : K := N 27 * u ^ 2 + N 27 * u * v + N 54 * u + v ^ 3 + N 18 * v ^ 2 + N 54 * v.
Definition sextic_tree (c6 c33 c41 c222 : K) : res (option (ex K)) :=
  let rem := c222 + (c6 + c41 + c33) * N 3 in
  if ((rem <? 0) || (c6 <? 0))%bool then Ok None
  else if ((c6 =? 0) && (0 <=? c33) && (0 <=? c41))%bool then
    Ok (Some (EC (c33 / N 2) * csum (a * b) * csum (a ^ 2 * (b - c) ^ 2)
              + EC (c41 / N 2) * cprod a * csum ((a - b) ^ 2) * csum a + EC rem * cprod (a ^ 2))%E)
  else if c6 =? 0 then Err TypeError
  else
    let u := c33 / c6 in
    let v := c41 / c6 in
    if u <? - N 2 then Ok None
    else if (negb (v =? - N 6) && negb (u =? N 2))%bool then
      let t := - (N 3 * u + v) / (v + N 6) in
      let rest := match first_some (tree_regular c6 u v rem) (N 2 :: 1 :: (if t <=? N 2 then [1 - t] else [])) with
                  | Some e => Ok (Some e) | None => Ok None end in
      if - (1) <=? t then
        if u + v + N 4 =? 0 then Err TypeError
        else
          let w1 := tree_det u v / (N 27 * (u - N 2) * (u + v + N 4)) in
          let w2 := 1 - w1 in
          if ((0 <=? w1) && (w1 <=? 1))%bool then
            Ok (Some (EC (c6 * w1) * tree_point (N 2) + EC (c6 * w2) * tree_point t + EC rem * cprod (a ^ 2))%E)
          else rest
      else rest
    else Ok (first_some (tree_regular c6 u v rem) [N 2; 1]).

(** [rationalize_func(poly, validation, validation_initial, direction)] (structsos/utils.py:102-160)
    for a polynomial and a direction +1 or -1: [CRat t] is a rational root, [CNum ts] the rational
    numbers tried near an irrational root whose numerical value passes [validation_initial]. *)
Inductive cand := CRat (t : K) | CNum (ts : list K).
Fixpoint try_near (f : K -> K) (up : bool) (valid : K -> res bool) (ts : list K) : res (option K) :=
  match ts with
  | [] => Ok None
  | t :: ts' =>
      if (if up then 0 <=? f t else f t <=? 0) then
        match valid t with
        | Err x => Err x
        | Ok true => Ok (Some t)
        | Ok false => try_near f up valid ts'
        end
      else try_near f up valid ts'
  end.
Fixpoint rat_func (f : K -> K) (up : bool) (valid : K -> res bool) (cs : list cand) : res (option K) :=
  match cs with
  | [] => Ok None
  | CRat t :: cs' =>
      match valid t with
      | Err x => Err x
      | Ok true => Ok (Some t)
      | Ok false => rat_func f up valid cs'
      end
  | CNum ts :: cs' =>
      match try_near f up valid ts with
      | Err x => Err x
      | Ok (Some t) => Ok (Some t)
      | Ok None => rat_func f up valid cs'
      end
  end.
(** the roots found, as a function of the polynomial (its values) *)
Variable roots : (K -> K) -> list cand.

Definition hexagon_edge : ex K := csum (a * (a * b - c ^ 2) ^ 2 * (a * c - b ^ 2) ^ 2)%E.

(** [_sos_struct_nonic_symmetric_tree] (nonic.py:50-134) *)
Definition tree_coeffs (w c6 c33 c411 x : K) : K * K * K :=
  (c6 - (- N 3 * x ^ 2 + N 3 * x - N 3), c33 - (- N 3 * w - N 6 * x ^ 2 + N 6 * x + N 3), c411 - (- N 3 * w + N 18 * x ^ 2 - N 18 * x)).
Definition tree_valid (w c6 c33 c411 x : K) : bool :=
  match tree_coeffs w c6 c33 c411 x with
  | (c6', c33', c411') =>
      if c6' <? 0 then false
      else if ((c6' =? 0) && (0 <=? c33') && (0 <=? c411'))%bool then true
      else if 0 <? c6' then
        let u := c33' / c6' in
        let v := c411' / c6' in
        if ((N 2 <=? u) && (- N 6 <=? v))%bool then true
        else if - (1) <=? u then
          let det := tree_det u v in
          (((- N 6 <=? v) && (det <=? 0)) || ((v <? - N 6) && (0 <=? det)))%bool
        else false
      else false
  end.
Definition tree_func (x : K) : ex K :=
  if x =? N 2 then (EC (N 2) * csum a ^ 2 * csum (a ^ 2 - b * c) ^ 2)%E
  else
    let q := den x in
    let p := x * q in
    (EC (1 / q) * csum (EC q * a ^ 2 + EC p * b * c) * csum ((a - b) ^ 2 * (a + b - EC x * c) ^ 2))%E.
Definition tree_eq (w x : K) : K := - x ^ 3 + N 3 * x - 1 + w.
Definition nonic_tree (is_rational : bool) (p : poly K) : res (option (ex K)) :=
  let cf := cfp p in
  let c0 := (cf 9 0 0)%nat in
  if c0 <=? 0 then Ok None
  else
    let w := (cf 6 3 0)%nat / c0 in
    let c6 := (cf 7 1 1)%nat / c0 in
    let c33 := (cf 4 4 1)%nat / c0 in
    let c411 := (cf 5 2 2)%nat / c0 in
    if w <? - (1) then Ok None
    else if negb is_rational then Ok None
    else
      match rat_func (tree_eq w) true (fun x => Ok (tree_valid w c6 c33 c411 x)) (roots (tree_eq w)) with
      | Err x => Err x
      | Ok None => Ok None
      | Ok (Some x) =>
          match tree_coeffs w c6 c33 c411 x with
          | (c6', c33', c411') =>
              let solution := (EC (c0 / N 4) * csum a * csum ((a - b) ^ 2) * tree_func x + EC (c0 * tree_eq w x) * hexagon_edge)%E in
              let poly111 := N 3 * c0 * (1 + N 2 * w + c6 + c33 + c411) + (cf 3 3 3)%nat in
              if poly111 <? 0 then Ok None
              else
                match sextic_tree (c6' * c0) (c33' * c0) (c411' * c0) ((- (c6' * c0) - c33' * c0 - c411' * c0) * N 3 + poly111) with
                | Ok (Some e) => Ok (Some (solution + e * cprod a)%E)
                | r => r
                end
          end
      end.

(** [_sos_struct_nonic_hexagon_symmetric] (nonic.py:137-218). [solution.doit().cancel()]: the two
    expressions of [CommonExpr.amgm] are the polynomials s(a^2c - abc) and s(a^2b - abc). *)
Definition hexagon_coeffs (c42 c33 c411 c321 r : K) : K * K * K :=
  let diff := - N 12 * r - N 2 * c42 in
  (c33 - diff, c411 - diff, c321 - (N 9 * r ^ 2 + N 18 * r + N 2 * c42)).
Definition hexagon_valid (c42 c33 c411 c321 r : K) : bool :=
  if c42 + N 6 * r + N 3 <? 0 then false
  else
    match hexagon_coeffs c42 c33 c411 c321 r with
    | (x, y, z) =>
        if ((x <? 0) || (y <? 0))%bool then false
        else ((0 <=? x + y + z) || (0 <=? x * y - (x + y + z) ^ 2))%bool
    end.
Definition hexagon_det (c42 c33 c411 c321 r : K) : K :=
  match hexagon_coeffs c42 c33 c411 c321 r with (x, y, z) => x * y - (x + y + z) ^ 2 end.
Definition hexagon_solution (c0 c42 r : K) (am1 am2 : ex K) : ex K :=
  (EC c0 * csum (a * b * (b - EC r * c)) ^ 2 * am1 + EC c0 * csum (a * c * (c - EC r * b)) ^ 2 * am2
   + EC (c0 * (c42 + N 6 * r + N 3)) * cprod a * cprod ((a - b) ^ 2))%E.
Definition poly111 (p : poly K) : K := fsum (map snd p).
Definition is_zero (p : poly K) : bool := forallb (fun t => snd t =? 0) p.
Definition hexagon_rest (is_rational : bool) (p : poly K) (c0 c42 c33 c411 c321 : K) : res (option (ex K)) :=
  if negb is_rational then Ok None
  else
    let f := hexagon_det c42 c33 c411 c321 in
    match rat_func f true (fun r => Ok (hexagon_valid c42 c33 c411 c321 r)) (roots f) with
    | Err x => Err x
    | Ok None => Ok None
    | Ok (Some r) =>
        let solution := hexagon_solution c0 c42 r (amgm_or0 (2, 0, 1) (1, 1, 1))%nat (amgm_or0 (2, 1, 0) (1, 1, 1))%nat in
        let rest := padd p (pneg (expand (hexagon_solution c0 c42 r (csum (a ^ 2 * c - a * b * c)) (csum (a ^ 2 * b - a * b * c))))) in
        if is_zero rest then Ok (Some solution)
        else match rec rest with
             | Ok (Some e) => Ok (Some (solution + e)%E)
             | r => r
             end
    end.
Definition nonic_hexagon (is_rational : bool) (p : poly K) : res (option (ex K)) :=
  let cf := cfp p in
  let c0 := (cf 6 3 0)%nat in
  if c0 <=? 0 then Ok None
  else
    let c42 := (cf 5 3 1)%nat / c0 in
    let c33 := (cf 4 4 1)%nat / c0 in
    let c411 := (cf 5 2 2)%nat / c0 in
    let c321 := (cf 4 3 2)%nat / c0 in
    let x := c33 + N 3 + N 2 * c42 in
    let y := c411 + N 3 + N 2 * c42 in
    let z := c321 - N 2 * c42 in
    if ((0 <=? c42) && (0 <=? x) && (0 <=? y) && ((0 <=? x + y + z) || (0 <=? x * y - (x + y + z) ^ 2)))%bool then
      match hexagram_symmetric (x * c0) (y * c0) (z * c0) ((- (y * c0) - x * c0 - z * c0 * N 2) * N 3 + poly111 p) with
      | Err e => Err e
      | Ok (Some e) => Ok (Some (EC c0 * hexagon_edge + EC (c0 * c42) * cprod a * cprod ((a - b) ^ 2) + cprod a * e)%E)
      | Ok None => hexagon_rest is_rational p c0 c42 c33 c411 c321
      end
    else hexagon_rest is_rational p c0 c42 c33 c411 c321.

(** [poly.div(abc)[0]]: the terms divisible by abc, divided *)
Definition div_abc (p : poly K) : poly K :=
  map (fun t => (map pred (fst t), snd t)) (filter (fun t => forallb (fun e => Nat.ltb 0 e) (fst t)) p).
(** [inverse_substitution(expr, factor_degree=1)] (ternary/utils.py:40-80): a, b, c become bc, ca, ab
    and the result is divided by abc; the extraction of common factors keeps the value. *)
Definition inverse_substitution1 (e : ex K) : ex K :=
  (PivotProve.esubst (fun i => match i with O => b * c | 1%nat => c * a | _ => a * b end) e / cprod a)%E.

(** [_sos_struct_nonic_hexagram_symmetric] (nonic.py:221-344) *)
Definition hex_coeffs (c1 c2 c3 c4 c5 c6 z : K) : K * K * K * K :=
  let w := c3 + N 4 * (c1 + c2) + N 6 * z in
  (w, c4 - (- N 2 * w + N 6 * c2 + N 8 * z), c5 - (- N 2 * w + N 6 * c1 + N 8 * z), c6 - N 2 * w).
Definition hex_valid (c1 c2 c3 c4 c5 c6 z : K) : bool :=
  ((0 <=? z) && (z ^ 2 <=? c1 * c2) &&
   match hex_coeffs c1 c2 c3 c4 c5 c6 z with
   | (w, c4', c5', c6') =>
       if ((w <? 0) || (c4' <? 0) || (c5' <? 0))%bool then false
       else if c4' =? 0 then 0 <=? c5' + c6'
       else if c5' =? 0 then 0 <=? c4' + c6'
       else ((c4' + c5' + c6') ^ 2 <=? c4' * c5') || (0 <=? c4' + c5' + c6')
   end)%bool.
Definition hex_target : ex K := (EC (N 3) * a ^ 4 * b ^ 2 - EC (N 4) * a ^ 4 * b * c + EC (N 3) * a ^ 4 * c ^ 2 - EC (N 4) * a ^ 3 * b ^ 3 + EC (N 2) * a ^ 2 * b ^ 2 * c ^ 2)%E.
Definition nonic_hexagram (p : poly K) : res (option (ex K)) :=
  let cf := cfp p in
  let c1 := (cf 5 4 0)%nat in let c2 := (cf 6 2 1)%nat in let c3 := (cf 5 3 1)%nat in
  let c4 := (cf 4 4 1)%nat in let c5 := (cf 5 2 2)%nat in let c6 := (cf 4 3 2)%nat in
  if ((c1 <? 0) || (c2 <? 0))%bool then Ok None
  else if c1 =? 0 then
    match rec (div_abc p) with
    | Ok (Some e) => Ok (Some (cprod a * e)%E)
    | r => r
    end
  else if c2 =? 0 then
    match rec (expand (csum (EC c1 * a ^ 5 * (b + c) + EC c3 * a ^ 4 * (b ^ 2 + c ^ 2) + EC c5 * a ^ 3 * b ^ 3 + EC c4 * a ^ 4 * b * c + EC c6 * a ^ 3 * b * c * (b + c))
                       + EC ((cf 3 3 3)%nat) * a ^ 2 * b ^ 2 * c ^ 2)%E) with
    | Ok (Some e) => Ok (Some (inverse_substitution1 e))
    | r => r
    end
  else
    let f := fun z => z ^ 2 - c1 * c2 in
    match rat_func f false (fun z => Ok (hex_valid c1 c2 c3 c4 c5 c6 z)) (roots f) with
    | Err x => Err x
    | Ok None => Ok None
    | Ok (Some z) =>
        match hex_coeffs c1 c2 c3 c4 c5 c6 z with
        | (w, c4', c5', c6') =>
            match hexagram_symmetric c4' c5' c6' ((cf 3 3 3)%nat + N 6 * w + N 12 * z) with
            | Err x => Err x
            | Ok None => Ok None
            | Ok (Some h) =>
                let ratio := z / c2 in
                let c2r := c2 * ratio ^ 2 in
                if N 4 * c2 * ratio <=? w then
                  Ok (Some (EC c2 * csum (c * (a - b) ^ 4 * (a * b - EC ratio * c ^ 2) ^ 2)
                            + EC (w - N 4 * c2 * ratio) * cprod ((a - b) ^ 2) * cprod a
                            + EC (c1 - c2r) * csum (c ^ 5 * (a - b) ^ 4) + h * cprod a)%E)
                else if 0 <=? w then
                  let p1 := (a * b * (a - b) ^ 4 - EC ratio * hex_target)%E in
                  let k := cont p1 in
                  let multiplier := csum (a * b * (a - b) ^ 4)%E in
                  let p2 := (EC w * cprod a * multiplier + EC c2r * cprod ((a - b) ^ 2) * csum a * csum (a * b)
                             + EC (c2r / N 4) * cprod a * csum ((a - b) ^ 2) * csum (a ^ 2 * (b - c) ^ 2))%E in
                  let l := cont p2 in
                  Ok (Some (sum_y [k ^ 2 * c2; c1 - c2r; l; 1]%F
                    [cprod a * csum (EC (1 / k) * p1) ^ 2; multiplier * csum (c ^ 5 * (a - b) ^ 4);
                     cprod ((a - b) ^ 2) * (EC (1 / l) * p2); h * multiplier * cprod a] / multiplier)%E)
                else Ok None
            end
        end
    end.

(** [_sos_struct_nonic_gear] (nonic.py:347-493). A quotient by zero is [zoo], or [nan] for 0/0;
    [_compute_params] gives x = nan when z = 0. *)
Inductive weight := WVal (w : K) | WNan | WZoo.
Definition wdiv (n d : K) : weight := if d =? 0 then if n =? 0 then WNan else WZoo else WVal (n / d).
Definition vertex := (K * K * K * (K * K * K))%type.
Definition gear_params (c2 c42 c33 c24 c41 c32 c23 z : K) : option vertex :=
  if z =? 0 then None
  else
    let w := c2 - z ^ 2 in
    let c41' := c41 + N 3 * w in
    let c32' := c32 + N 4 * w in
    let c23' := c23 - N 6 * w in
    let v := c24 / N 2 - z in
    let u := 1 - c42 / N 2 / z in
    let frac0 := - (- N 3 * u ^ 2 - N 2 * u * z + N 6 * u + N 3 * v ^ 2 + N 6 * v * z - N 2 * v - (c32' - c23') + N 2 * z ^ 2 - N 2) in
    let frac1 := N 6 * (u + v + z - 1) in
    let fin := fun x =>
      Some ((u, v, x), (c41' - (N 2 * u * z + v ^ 2 + N 2 * v * z - N 2 * x * z + z ^ 2),
                        c33 - (u ^ 2 - N 2 * u - N 2 * v - N 2 * x + 1),
                        c32' - (- N 2 * u ^ 2 - N 2 * u * v + N 2 * u * x - N 2 * u * z + N 4 * u + v ^ 2 + N 4 * v * x + N 2 * v * z + x ^ 2
                                + N 4 * x * z - N 2 * x - N 2))) in
    if frac1 =? 0 then
      if frac0 =? 0 then fin (match rsqrt (- u - v + 1) with Some s => 1 - v + s | None => 1 - v end)
      else None
    else fin (frac0 / frac1).
Definition mix (w x y : K) : K := w * x + (1 - w) * y.
Definition check_weight (n1 n2 : K * K * K) (w : weight) : res bool :=
  match w with
  | WNan => Ok false
  | WZoo => Err TypeError
  | WVal w =>
      if negb ((0 <=? w) && (w <=? 1)) then Ok false
      else
        match n1, n2 with
        | (x1, y1, z1), (x2, y2, z2) =>
            let x := mix w x1 x2 in let y := mix w y1 y2 in let z := mix w z1 z2 in
            if ((x <? 0) || (y <? 0))%bool then Ok false
            else Ok ((0 <=? x + y + z) || ((x + y + z) ^ 2 <=? x * y))%bool
        end
  end.
Fixpoint first_weight (n1 n2 : K * K * K) (ws : list weight) : res (option K) :=
  match ws with
  | [] => Ok None
  | w :: ws' =>
      match check_weight n1 n2 w with
      | Err x => Err x
      | Ok true => Ok (match w with WVal w => Some w | _ => None end)
      | Ok false => first_weight n1 n2 ws'
      end
  end.
Definition search_weight (v1 v2 : option vertex) : res (option K) :=
  match v1, v2 with
  | Some (_, (x1, y1, z1)), Some (_, (x2, y2, z2)) =>
      let g := x1 + y1 + z1 in
      let h := x2 + y2 + z2 in
      first_weight (x1, y1, z1) (x2, y2, z2)
        [WVal 0; WVal 1; wdiv x2 (x2 - x1); wdiv y2 (y2 - y1);
         wdiv (N 2 * g * h - N 2 * h ^ 2 - x1 * y2 - x2 * y1 + N 2 * y1 * y2)
              (N 2 * (- g ^ 2 + N 2 * g * h - h ^ 2 + x1 * x2 - x1 * y2 - x2 * y1 + y1 * y2))]
  | _, _ => Ok None
  end.
Definition gear_ker (z : K) (v : K * K * K) : ex K :=
  match v with
  | (u, v, x) =>
      (b * (EC z * (a ^ 2 - b ^ 2) + EC x * (a * b - a * c) + EC u * (b * c - a * b)) + a ^ 2 * c - b ^ 2 * c + EC v * (a ^ 2 * b - a * b * c))%E
  end.
Definition gear_direct (p : poly K) : res (option (ex K)) :=
  let cf := cfp p in
  if (((cf 4 5 0)%nat =? 0) || ((cf 6 2 1)%nat =? 0))%bool then Ok None
  else
    let c1 := (cf 4 5 0)%nat in
    let c2 := (cf 6 2 1)%nat / c1 in let c42 := (cf 5 3 1)%nat / c1 in let c33 := (cf 4 4 1)%nat / c1 in let c24 := (cf 3 5 1)%nat / c1 in
    let c41 := (cf 5 2 2)%nat / c1 in let c32 := (cf 4 3 2)%nat / c1 in let c23 := (cf 3 4 2)%nat / c1 in
    if ((c1 <? 0) || (c2 <? 0))%bool then Ok None
    else
      let params := gear_params c2 c42 c33 c24 c41 c32 c23 in
      let valid := fun z =>
        if ((0 <=? z) && (z ^ 2 <=? c2))%bool then
          match search_weight (params z) (params (- z)) with Err x => Err x | Ok None => Ok false | Ok (Some _) => Ok true end
        else Ok false in
      let f := fun z => z ^ 2 - c2 in
      match rat_func f false valid (roots f) with
      | Err x => Err x
      | Ok None => Ok None
      | Ok (Some z) =>
          match search_weight (params z) (params (- z)), params z, params (- z) with
          | Ok (Some w), Some (q1, (x1, y1, z1)), Some (q2, (x2, y2, z2)) =>
              let c41' := mix w x1 x2 in let c33' := mix w y1 y2 in let c32' := mix w z1 z2 in
              match hexagram_symmetric c33' c41' c32' ((- c41' - c33' - c32' * N 2) * N 3 + poly111 p / c1) with
              | Err x => Err x
              | Ok None => Ok None
              | Ok (Some h) =>
                  let k1 := cont (gear_ker z q1) in
                  let k2 := cont (gear_ker (- z) q2) in
                  Ok (Some (sum_y [k1 ^ 2 * w * c1; k2 ^ 2 * (1 - w) * c1; (c2 - z ^ 2) * c1; c1]%F
                    [csum (a * c ^ 2 * (EC (1 / k1) * gear_ker z q1) ^ 2); csum (a * c ^ 2 * (EC (1 / k2) * gear_ker (- z) q2) ^ 2);
                     csum (a * b ^ 2 * c ^ 2 * (a - b) ^ 4); h * cprod a]%E))
              end
          | _, _, _ => Err TypeError
          end
      end.
(** [coeff.reflect()] (utils/expression/coeff.py:117-129) and [reflect_expression]
    (ternary/utils.py:21-37), which exchanges b and c inside every cyclic sum: on the expanded sums
    this is the exchange of b and c up to the order of the terms. The recursive call is on a
    form that passes the first test, or the recursion does not end ([RecursionError]). *)
Definition reflect_poly (p : poly K) : poly K :=
  map (fun t => (match fst t with [i; j; k] => [j; i; k] | m => m end, snd t)) p.
Definition swap_bc (i : nat) : nat := match i with 0 => 0 | 1 => 2 | _ => 1 end%nat.
Definition gear_ready (p : poly K) : bool := (((cfp p 5 4 0)%nat =? 0) && ((cfp p 6 1 2)%nat =? 0))%bool.
Definition nonic_gear (p : poly K) : res (option (ex K)) :=
  if gear_ready p then gear_direct p
  else if gear_ready (reflect_poly p) then
    match gear_direct (reflect_poly p) with
    | Ok (Some e) => Ok (Some (erename swap_bc e))
    | r => r
    end
  else Err OtherError.

(** [sos_struct_nonic] (nonic.py:11-47) *)
Definition all_zero9 (p : poly K) (l : list (nat * nat * nat)) : bool :=
  forallb (fun t => match t with (i, j, k) => cfp p i j k =? 0 end) l.
Definition all_sym9 (p : poly K) (l : list (nat * nat * nat)) : bool :=
  forallb (fun t => match t with (i, j, k) => cfp p i j k =? cfp p j i k end) l.
Definition nonic_last (is_rational : bool) (p : poly K) : res (option (ex K)) :=
  if (all_zero9 p [(8,1,0);(7,2,0);(5,4,0);(5,0,4);(8,0,1);(7,0,2);(6,2,1);(6,1,2);(5,3,1);(5,1,3);(4,3,2);(4,2,3)]%nat
      && (0 <? (cfp p 9 0 0)%nat) && all_sym9 p [(9,0,0);(6,3,0)]%nat)%bool
  then nonic_tree is_rational p else Ok None.
Definition nonic_second (is_rational : bool) (p : poly K) : res (option (ex K)) :=
  if (all_zero9 p [(6,2,1);(2,6,1);(5,4,0);(4,5,0)]%nat && all_sym9 p [(6,0,3);(5,3,1);(4,3,2)]%nat)%bool
  then nonic_hexagon is_rational p else nonic_last is_rational p.
Definition sos_struct_nonic (is_rational : bool) (p : poly K) : res (option (ex K)) :=
  if all_zero9 p [(9,0,0);(8,1,0);(7,2,0);(2,7,0);(7,1,1)]%nat then
    if all_zero9 p [(6,3,0);(3,6,0);(1,8,0)]%nat then
      if all_sym9 p [(5,4,0);(6,2,1);(5,3,1);(4,3,2)]%nat then nonic_hexagram p
      else if ((((cfp p 5 4 0)%nat =? 0) && ((cfp p 6 1 2)%nat =? 0)) || (((cfp p 4 5 0)%nat =? 0) && ((cfp p 6 2 1)%nat =? 0)))%bool then nonic_gear p
      else nonic_second is_rational p
    else nonic_second is_rational p
  else nonic_last is_rational p.
End Model.
Arguments cand : clear implicits.
