(** * Symmetric sextics: the quadratic form method (triples/core/structsos/ternary/sextic_symmetric.py:1338-1885) *)
From Coq Require Import Bool List Arith Lia ZArith.
From Verif Require Import OrdField Base Perm Poly PolyId PolyOps Coeff Expr TriPoly Monomials Univariate StructUtils.
From Verif Require TernaryQuad.
From Verif Require Import DenseSym Septic.
Import ListNotations.

Section Model.
Context {K : OrdField}.
Local Open Scope of_scope.

Let a : ex K := EX 0.
Let b : ex K := EX 1.
Let c : ex K := EX 2.
Local Notation N n := (fbin n%positive) (only parsing).
(** [expand] and [together] do not change the value and are omitted; a constant factor is kept on
    its own side. *)
(** [CyclicProduct((a-b)**2)] *)
Definition sqp6 : ex K := cprod ((a - b) ^ 2)%E.

(** ** Solvers of type 0: F + ker p(a-b)^2; the flag 0 (on R) is [true], 1 (on R+) is [false],
    [(None, 2)] is [None] *)
Definition sol0 := res (option (ex K * bool)).
(** [_F_square] (lines 1447-1464) *)
Definition S_square (x y ker : K) : sol0 :=
  if ((x + y =? N 5 / N 3) && negb (x =? 1))%bool then
    let z := N 2 * (N 3 * x - N 2) / N 3 / (x - 1) in
    let ker2 := (- N 3) * (x - 1) * (N 9 * x - N 5) / N 4 in
    if ker2 <=? ker then
      let p0 := (EC (N 2) * a ^ 3 - EC (z + 1) * b * c ^ 2 - EC (z + 1) * b ^ 2 * c + EC (N 2 * z) * a * b * c)%E in
      Ok (Some ((EC ((x - 1) ^ 2 / N 4) * csum p0 ^ 2 + EC (ker - ker2) * sqp6)%E, true))
    else Ok None
  else Ok None.
(** [_F_trivial] (lines 1466-1482) *)
Definition S_trivial (x y ker : K) : sol0 :=
  if N 1 / N 3 <=? ker then
    let p1 := (EC (N 3 * x - N 3) * a ^ 2 + EC (N 3 * y - N 4) * a * b + EC (N 3 * y - N 2) * a * c + EC (N 3 * x - N 3) * b ^ 2
        + EC (N 3 * y - N 2) * b * c + EC (N 3 * x - 1) * c ^ 2)%E in
    let p1 := if x <? 1 then (EC (- (1)) * p1)%E else p1 in
    Ok (Some ((EC (N 1 / N 18) * csum ((a - b) ^ 2 * p1 ^ 2) + EC (ker - N 1 / N 3) * sqp6)%E, true))
  else Ok None.

(** ** Solvers of type 1: p1, (c1, c2), multiplier *)
Definition sol1 := res (option (ex K * (K * K) * (K * K))).
(** [_F_regular] (lines 1484-1494) *)
Definition S_regular (x y : K) : sol1 :=
  let p1 := (EC (N 2) * csum (a ^ 2 * (EC (x - 1) * a ^ 2 + EC (y - x) * a * b + EC (y - x) * a * c + EC ((N 2 * x - y) / N 2) * b ^ 2
      + EC ((N 2 * x - y) / N 2) * c ^ 2 - EC (x + y - 1) * b * c)) ^ 2)%E in
  Ok (Some (p1, (0, N 2), (N 2, - N 2))).
(** [_F_sos2] (lines 1496-1533); for x = 1, z is [zoo] or [nan], then c1 is [nan] and the comparison
    in [_merge_remainder_terms] raises *)
Definition S_sos2_at (x y z : K) : ex K * (K * K) * (K * K) :=
  let h := ((a - b) * (EC (- N 3) * a ^ 3 + a ^ 2 * b * EC z - EC (N 3) * a ^ 2 * b - a ^ 2 * c * EC z
      + a * b ^ 2 * EC z - EC (N 3) * a * b ^ 2 - EC (N 4) * a * b * c * EC z - EC (N 6) * a * b * c + EC (N 3) * a * c ^ 2 * EC z
      + EC (N 9) * a * c ^ 2 - EC (N 3) * b ^ 3 - b ^ 2 * c * EC z + EC (N 3) * b * c ^ 2 * EC z + EC (N 9) * b * c ^ 2 - EC (N 2) * c ^ 3 * EC z
      + EC x * (EC (N 3) * a ^ 3 - a ^ 2 * b * EC z - a ^ 2 * b + a ^ 2 * c * EC z - EC (N 2) * a ^ 2 * c - a * b ^ 2 * EC z - a * b ^ 2
      + EC (N 4) * a * b * c * EC z + EC (N 16) * a * b * c - EC (N 3) * a * c ^ 2 * EC z - EC (N 9) * a * c ^ 2 + EC (N 3) * b ^ 3
      + b ^ 2 * c * EC z - EC (N 2) * b ^ 2 * c - EC (N 3) * b * c ^ 2 * EC z - EC (N 9) * b * c ^ 2 + EC (N 2) * c ^ 3 * EC z + EC (N 2) * c ^ 3)
      + EC y * (EC (N 4) * a ^ 2 * b + EC (N 2) * a ^ 2 * c + EC (N 4) * a * b ^ 2 - EC (N 4) * a * b * c - EC (N 3) * a * c ^ 2
      + EC (N 2) * b ^ 2 * c - EC (N 3) * b * c ^ 2 - EC (N 2) * c ^ 3)))%E in
  let c1 := N 20 * x ^ 2 - x * y - N 30 * x - y ^ 2 + N 3 * y + z ^ 2 * (- x ^ 2 + N 2 * x - 1) + z * (x ^ 2 + N 2 * x * y - N 4 * x - N 2 * y
      + N 3) + N 9 in
  let c2 := N 16 * x ^ 2 + N 28 * x * y - N 48 * x - N 8 * y ^ 2 - N 6 * y + z ^ 2 * (x ^ 2 - N 2 * x + 1) + z * (N 8 * x ^ 2
      + N 7 * x * y - N 20 * x - N 7 * y + N 12) + N 21 in
  ((EC (N 1 / N 9) * csum (h ^ 2))%E, (N 2 * c1 / N 3, N 2 * c2 / N 3), (N 2, - N 2)).
Definition S_sos2 (z_type : bool) (x y : K) : sol1 :=
  if x =? 1 then Err TypeError
  else Ok (Some (S_sos2_at x y (if z_type then (x + N 2 * y - N 3) / (N 2 * (x - 1)) else (- (N 2 * x + y - N 2)) / (N 2 * (x - 1))))).
(** [_F_alternative] (lines 1560-1590) *)
Definition S_alternative (z x y : K) : sol1 :=
  let w := x + y - 1 in
  if w <? N 2 / N 3 then Ok None
  else
    let h1 := (EC (N 3) * a ^ 2 * EC (x - 1) * EC w + EC (N 3) * a * (b + c) * EC (x ^ 2 + N 2 * x * y - N 4 * x + y ^ 2 - N 3 * y + N 3)
        + b * c * EC (N 3 * x * y + N 3 * y ^ 2 - N 9 * y + N 4))%E in
    let h2 := (a ^ 2 * EC (x - y + 1) + a * (b + c) * EC (N 2 * y - N 2) + EC z * (a - b) * (a - c) + (b ^ 2 + c ^ 2) * EC (x - 1))%E in
    let c1 := ((- N 3) * x - N 3 * y + N 5) * z ^ 2 + ((- N 6) * x ^ 2 + N 4 * x + N 6 * y ^ 2 - N 16 * y + N 10) * z
        + N 6 * x ^ 2 * y - N 7 * x ^ 2 + N 3 * x * y ^ 2 - N 14 * x * y + N 10 * x - N 3 * y ^ 3 + N 11 * y ^ 2 - N 12 * y + N 5 in
    let c2 := ((- N 6) * x * y - N 6 * y ^ 2 + N 10 * y) * z - N 2 * x ^ 2 + N 6 * x * y ^ 2 - N 8 * x * y + N 2 * x + N 6 * y ^ 3 - N 19 * y ^ 2
        + N 14 * y in
    let p1 := (EC (1 / w ^ 2 / N 18) * csum ((a - b) ^ 2) * csum (a * h1) ^ 2 + EC ((N 3 * x
        + N 3 * y - N 5) / w ^ 2) * csum (a ^ 2 * (b - c) ^ 2 * h2 ^ 2))%E in
    Ok (Some (p1, (c1 / w ^ 2, c2 / w ^ 2), (1, (N 2 * x + N 2 * y - N 4) / w))).

(** ** The remaining terms *)
(** [rem_poly] (lines 1592-1594): that of Septic.v *)
Definition tprod : ex K := cprod ((a + b - EC (N 2) * c) ^ 2)%E.
Definition is_std (m : K * K) : bool := ((fst m =? N 2) && (snd m =? - N 2))%bool.
(** [_rem_regular] (lines 1596-1607) *)
Definition rem_regular (t rem : K) (r : option K) (m : K * K) : res (option (ex K * (K * K))) :=
  if is_std m then
    Ok (Some ((EC (t / N 4) * csum ((a - b) ^ 2) * tprod + EC (N 2) * csum (a ^ 2 - a * b) ^ 2 * rem_poly rem r)%E, (0, 0)))
  else
    match TernaryQuad.common_quadratic (fst m) (snd m) with
    | None => Err TypeError
    | Some p0 => Ok (Some ((EC (t / N 4) * p0 * tprod + csum ((a - b) ^ 2) / EC (N 2) * p0 * rem_poly rem r)%E, (0, 0)))
    end.
(** [_rem_sos] (lines 1609-1632); 1/(8*u2) is a quotient of expressions, undefined for u2 = 0, where
    sympy returns [zoo] *)
Definition rem_sos (t rem : K) (r : option K) (m : K * K) : res (option (ex K * (K * K))) :=
  if negb (is_std m) then Ok None
  else
    let u2 := match r with None => 0 | Some r => rem * N 2 end in
    let uv := match r with None => 0 | Some r => rem * r * N 2 end in
    let v2 := match r with None => rem * N 2 | Some r => rem * r ^ 2 * N 2 end in
    let h := (EC (N 2 * u2) * (a ^ 2 - a * b + a * c + b ^ 2 + b * c) + EC uv * (EC (N 3) * a * b + a * c + b * c + c ^ 2))%E in
    let p21 := csum ((a - b) ^ 2 * (a + b - EC (N 2) * c) ^ 2 * h ^ 2)%E in
    let p2 := (EC (t / N 4) * csum ((a - b) ^ 2) * tprod + EC (N 1) / EC (N 8 * u2) * p21)%E in
    let c1 := (- (N 3 * v2 - N 24 * u2 + N 6 * uv)) / N 4 in
    let c2 := (- N 9) * (N 4 * u2 - N 4 * uv + v2) / N 4 + N 2 * c1 in
    Ok (Some (p2, (c1, c2))).

(** [CommonExpr.quadratic] as used below: for two zero coefficients sympy simplifies the product to 0 *)
Definition quad0 (x y : K) : option (ex K) := if ((x =? 0) && (y =? 0))%bool then Some (EC 0) else TernaryQuad.common_quadratic x y.
(** [_merge_remainder_terms] (lines 1634-1665) *)
Definition merge_terms (p1 : ex K) (c11 c12 : K) (p2 : ex K) (c21 c22 ker : K) (m : K * K) : sol0 :=
  if fst m + snd m <? 0 then Ok None
  else
    let c1 := c11 + c21 + fst m * ker in
    let c2 := c12 + c22 + snd m * ker in
    if ((0 <=? c1) && (0 <=? c1 + c2))%bool then
      match quad0 c1 c2, TernaryQuad.common_quadratic (fst m) (snd m) with
      | Some q, Some mf => Ok (Some (((p1 + p2 + q * sqp6) / mf)%E, ((c2 <=? N 2 * c1) && (snd m <=? N 2 * fst m))%bool))
      | _, _ => Err TypeError
      end
    else Ok None.

(** [_wrap_F] (lines 1667-1708) *)
Definition wrap0 (f : K -> K -> K -> sol0) (x y coeff0 ker t rem : K) (r : option K) : sol0 :=
  match f x y (ker / coeff0) with
  | Ok (Some (s, flag)) =>
      Ok (Some ((EC coeff0 * s + EC (t / N 4) * tprod + EC (N 1 / N 2) * csum ((a - b) ^ 2) * rem_poly rem r)%E, flag))
  | o => o
  end.
(** the loop over the two ways to write the remaining terms; [first] is the first solution on R+ *)
Fixpoint wrap1_loop (p1 : ex K) (c1 c2 : K) (m : K * K) (ker : K) (rs : list (res (option (ex K * (K * K))))) (first : option (ex K)) : sol0 :=
  match rs with
  | [] => Ok (match first with Some s => Some (s, false) | None => None end)
  | Err x :: _ => Err x
  | Ok None :: rs' => wrap1_loop p1 c1 c2 m ker rs' first
  | Ok (Some (p2, (c21, c22))) :: rs' =>
      match merge_terms p1 c1 c2 p2 c21 c22 ker m with
      | Err x => Err x
      | Ok (Some (s, true)) => Ok (Some (s, true))
      | Ok (Some (s, false)) => wrap1_loop p1 c1 c2 m ker rs' (match first with Some s' => Some s' | None => Some s end)
      | Ok None => wrap1_loop p1 c1 c2 m ker rs' first
      end
  end.
Definition wrap1 (f : K -> K -> sol1) (x y coeff0 ker t rem : K) (r : option K) : sol0 :=
  match f x y with
  | Err e => Err e
  | Ok None => Ok None
  | Ok (Some (p1, (c1, c2), m)) =>
      wrap1_loop (p1 * EC coeff0)%E (c1 * coeff0) (c2 * coeff0) m ker [rem_regular t rem r m; rem_sos t rem r m] None
  end.

(** ** [_F_tighter_bound_border] (lines 1710-1843) *)
(** A root of det1 as given by nroots: a rational root, or an irrational one. For an irrational root
    the code works with a floating point number: whether it passes the tests is arbitrary here, and
    so are the intervals (m1, m2) around it obtained by refinement, except for m1 <= m2. *)
Inductive broot := Exact (m : K) | Approx (accepted : bool) (pairs : list (K * K)).

Definition b_det1 (suv puv m : K) : K := (- N 2) * m ^ 3 + (suv + N 7) * m ^ 2 - N 4 * (suv + 1) * m + puv ^ 2 + N 4 * (suv - 1).
Definition b_det2 (suv puv m : K) : K := N 4 * m ^ 3 - (N 4 * suv + N 7) * m ^ 2 + ((suv + N 4) ^ 2 + N 2 * puv - N 20) * m
    + (puv - N 2) ^ 2 - N 2 * suv ^ 2.
Definition b_denom (suv puv m : K) : K := (m + puv - N 2) ^ 2 * (suv - N 2 * m - 1).
(** a zero denominator makes phi [zoo] or [nan], and the comparison raises *)
Definition b_bad (suv puv m : K) : bool := ((m =? N 2) || (m + puv =? N 2) || (suv - N 2 * m - 1 =? 0))%bool.
Definition b_phi (suv puv m : K) : K := - puv ^ 2 * b_det2 suv puv m / (m - N 2) / b_denom suv puv m - m.
Definition b_final (suv puv m : K) : K := b_det1 suv puv m * b_det2 suv puv m / (m - N 2) ^ 2 / b_denom suv puv m.
Definition b_w (suv puv m : K) : K := (m ^ 3 - (suv + 1) * m ^ 2 + (suv + puv - N 3) * m + (puv - 1) ^ 2 + N 2 * suv + 1) / (m - N 2).
Definition b_ker (x y suv puv m : K) : K := - (b_w suv puv m * (x - 1) ^ 2 + (x ^ 2 - x * y + y ^ 2 - y)).
Definition b_rest (suv puv m : K) : K := b_phi suv puv m - (m - N 2) * (suv - N 2 * m) / (m + puv - N 2).
Definition b_valid (suv puv m : K) : bool :=
  ((- (1) <=? b_phi suv puv m) && ((m - N 2) * (suv - N 2 * m) / (m + puv - N 2) <=? b_phi suv puv m))%bool.
(** [_solve_border] (lines 1782-1803) with [with_tail] and [with_frac] false *)
Definition b_solution (suv puv m : K) : ex K :=
  let l1 := (- m ^ 2 + (puv + 1) * m - puv * (suv + 1) + N 2) / (m + puv - N 2) in
  let l2 := ((1 - N 2 * puv) * m ^ 2 + (puv * (suv + 1) - 1) * m + puv - N 2) / (m + puv - N 2) in
  let l3 := (N 2 * (puv + suv) * m ^ 2 - (puv * (suv - 1) + (suv + N 2) ^ 2 - N 2) * m + (puv - N 2) ^ 2 + N 2 * suv ^ 2) / (m + puv - N 2) in
  let l4 := ((N 2 * puv - 1) * m - puv * (suv + 1) + N 2) / (m + puv - N 2) in
  let g := ((a ^ 2 - EC m * a * b + b ^ 2) * (a + b) + EC l1 * c * (a ^ 2 + b ^ 2) + EC l2 * c ^ 2 * (a + b) + EC l3 * a * b * c + EC l4 * c ^ 3)%E in
  let h := (a ^ 2 - EC m * a * b + b ^ 2 + EC (puv + suv - 1 - m) * c ^ 2 - EC (suv - m) * c * (a + b))%E in
  (csum ((a - b) ^ 2 * g ^ 2) / EC (N 2) + EC (b_rest suv puv m) * csum (a * b * (a - b) ^ 2 * h ^ 2))%E.
(** the degenerate case (lines 1755-1767) *)
Definition S_degen (x y u ker : K) : sol0 :=
  let extra := x ^ 2 - x * y + y ^ 2 - y - (x - 1) ^ 2 * (N 3 * u - N 5) + ker in
  if extra <? 0 then Ok None
  else
    let g := ((a - b) ^ 2 + EC (N 2 - u) * (a + b) * c - EC (N 3 - u) * c ^ 2)%E in
    let h := ((b + c - a) * (b + c - EC (u + 1) * a) - EC u * (a - c) * (a - b))%E in
    let r := (x - 1) ^ 2 in
    let s := (EC (r / N 4) * csum (a * (a - b) * (a - c) * (EC (N 2) * a - EC u * b - EC u * c)) ^ 2
        + EC (r * (1 - u / N 4)) * csum (a * b * (a - b) ^ 2 * g ^ 2) + EC (r * (1 - u / N 4) / N 2) * csum (a ^ 2 * (b - c) ^ 2 * h ^ 2))%E in
    match TernaryQuad.common_quadratic 1 (- u / N 4) with
    | Some q => Ok (Some ((s / q + EC extra * sqp6)%E, false))
    | None => Err TypeError
    end.
(** the loop over the intervals (lines 1814-1842) *)
Fixpoint b_pairs (x y suv puv ker : K) (ps : list (K * K)) : sol0 :=
  match ps with
  | [] => Ok None
  | (m1, m2) :: ps' =>
      if ((m1 <=? N 2) && (N 2 <=? m2))%bool then b_pairs x y suv puv ker ps'
      else if (b_bad suv puv m1 || b_bad suv puv m2)%bool then Err TypeError
      else if negb (b_valid suv puv m1 && b_valid suv puv m2) then b_pairs x y suv puv ker ps'
      else
        let f1 := b_final suv puv m1 in
        let f2 := b_final suv puv m2 in
        if (((f1 <? 0) && (f2 <? 0)) || ((0 <? f1) && (0 <? f2)))%bool then b_pairs x y suv puv ker ps'
        else
          let v1 := f1 * (N 2 - m1) in
          let v2 := f2 * (N 2 - m2) in
          let w1 := if f1 =? 0 then 1 else - v2 / (v1 - v2) in
          let w2 := if f1 =? 0 then 0 else v1 / (v1 - v2) in
          let phiw := b_phi suv puv m1 * w1 + b_phi suv puv m2 * w2 in
          let k1 := b_ker x y suv puv m1 in
          let k2 := b_ker x y suv puv m2 in
          let kw1 := k1 * w1 + k2 * w2 in
          let kw2 := b_phi suv puv m1 * (ker - k1) * w1 + b_phi suv puv m2 * (ker - k2) * w2 in
          let fw := f1 * w1 + f2 * w2 in
          let kt := kw2 + fw * puv ^ 2 * (x - 1) ^ 2 in
          if ((- (1) <=? phiw) && (kw1 <=? ker) && (0 <=? ker - kw1 + kt))%bool then
            match TernaryQuad.common_quadratic (ker - kw1) kt, TernaryQuad.common_quadratic 1 phiw with
            | Some q, Some d =>
                Ok (Some (((EC (w1 * (x - 1) ^ 2) * b_solution suv puv m1 + EC (w2 * (x - 1) ^ 2) * b_solution suv puv m2 + q * sqp6) / d)%E, false))
            | _, _ => Err TypeError
            end
          else b_pairs x y suv puv ker ps'
  end.
(** the loop over the roots (lines 1770-1780) and the two cases *)
Fixpoint b_roots (x y suv puv ker : K) (rs : list broot) : sol0 :=
  match rs with
  | [] => Ok None
  | Approx false _ :: rs' => b_roots x y suv puv ker rs'
  | Approx true ps :: _ => b_pairs x y suv puv ker ps
  | Exact m :: rs' =>
      if m =? N 2 then Ok None
      else if b_bad suv puv m then Err TypeError
      else if (b_valid suv puv m && (b_ker x y suv puv m <=? ker))%bool then
        match TernaryQuad.common_quadratic 1 (b_phi suv puv m) with
        | Some d => Ok (Some ((EC ((x - 1) ^ 2) * (b_solution suv puv m / d) + EC (ker - b_ker x y suv puv m) * sqp6)%E, false))
        | None => Err TypeError
        end
      else b_roots x y suv puv ker rs'
  end.
(** for x = 1 the solvers before this one raise, so that the quotients are not reached *)
Definition S_border (roots : K -> K -> res (list broot)) (x y ker : K) : sol0 :=
  let suv := (N 2 - N 2 * y) / (x - 1) in
  let puv := (N 2 * x + y - N 2) / (x - 1) in
  if x =? 1 then Err TypeError
  else if ((puv =? 0) && (suv <=? N 4))%bool then S_degen x y suv ker
  else
    match roots suv puv with
    | Err e => Err e
    | Ok rs => b_roots x y suv puv ker rs
    end.

(** ** [solve] (lines 1845-1884) *)
Fixpoint pick (ss : list sol0) (first : option (ex K)) : res (option (ex K)) :=
  match ss with
  | [] => Ok first
  | Err x :: _ => Err x
  | Ok (Some (s, true)) :: _ => Ok (Some s)
  | Ok (Some (s, false)) :: ss' => pick ss' (match first with Some s' => Some s' | None => Some s end)
  | Ok None :: ss' => pick ss' first
  end.
(** [findz] is [_F_alternative_find_z] with z_type 0: any number *)
Definition sextic_solve (findz : K -> K -> K -> res K) (roots : K -> K -> res (list broot)) (coeff0 x y ker t rem : K) (r : option K) : res (option (ex K)) :=
  if coeff0 =? 0 then Err TypeError
  else
    match findz x y (ker / coeff0) with
    | Err e => Err e
    | Ok z0 =>
        let w0 f := wrap0 f x y coeff0 ker t rem r in
        let w1 f := wrap1 f x y coeff0 ker t rem r in
        pick [w0 S_square; w0 S_trivial; w1 S_regular; w1 (S_sos2 false); w1 (S_sos2 true); w1 (S_alternative z0); w1 (S_alternative (- x - 1));
              w0 (S_border roots)] None
    end.

(** [_sos_struct_sextic_symmetric_quadratic_form] (lines 1338-1424); coeff0 = 0 (the quartic is zero,
    or its weight s vanishes and x, y are [nan]) makes [_F_trivial] compare [zoo] or [nan], which
    raises *)
Definition sextic_ker (c420 t coeff0 x y rem : K) (r : option K) : K :=
  c420 - (- (N 3 / N 4) * t + coeff0 * (N 3 * x ^ 2 - N 2 * x * y - N 2 * x + y ^ 2)) - rem * match r with None => 1 | Some r => r ^ 2 - N 2 * r
      + N 3 end.
Definition sextic_quadratic (uni : list K -> res (option (wsos K * wsos K))) (findz : K -> K -> K -> res K) (roots : K -> K -> res (list broot))
    (p : poly K) : res (option (ex K)) :=
  match div_sq1 (axis 6 p) with
  | (sym, (u, v)) =>
      if negb ((u =? 0) && (v =? 0)) then Ok None
      else
        match restructure uni sym with
        | Err e => Err e
        | Ok RNone => Ok None
        | Ok RNan => Err TypeError
        | Ok (RSome t coeff0 x y rem r) => sextic_solve findz roots coeff0 x y (sextic_ker (coef p [4; 2; 0]%nat) t coeff0 x y rem r) t rem r
        end
  end.
End Model.
