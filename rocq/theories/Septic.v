(** * Symmetric septics (triples/core/structsos/ternary/septic_symmetric.py)
    and the rewriting of a quartic on the symmetric axis (sextic_symmetric.py:40-96) *)
From Coq Require Import Bool List Arith Lia ZArith.
From Verif Require Import OrdField Base Perm Poly PolyId PolyOps Coeff Expr TriPoly Monomials Univariate StructUtils.
From Verif Require TernaryQuad TernaryTables TernaryCubic.
From Verif Require Import DenseSym.
Import ListNotations.

Section Model.
Context {K : OrdField}.
Local Open Scope of_scope.

Let a : ex K := EX 0.
Let b : ex K := EX 1.
Let c : ex K := EX 2.

(** an integer constant of the source *)
Fixpoint fbin (p : positive) : K :=
  match p with
  | xH => 1
  | xO q => (1 + 1) * fbin q
  | xI q => 1 + (1 + 1) * fbin q
  end.
Local Notation N n := (fbin n%positive) (only parsing).

(** ** [_restructure_quartic_polynomial] (sextic_symmetric.py:40-96) *)
(** The result: the six numbers; [RNan] when s = 0, where the code divides 0 by 0 and returns [nan]
    for x and y (with non-negative weights s = 0 makes x and y zero too); [RNone] for [None]. The
    last number is [None] for [oo]. *)
Inductive restructured :=
| RNone
| RNan
| RSome (t s x y rem : K) (r : option K).
(** the numbers k1, k2, k3 of a part u a^2 + v a + w (lines 67-68) *)
Definition k1 (part : list K) : K := (N 4 * vget part 2 + vget part 1 - N 2 * vget part 0) / N 2.
Definition k2 (part : list K) : K := (N 2 * vget part 2 + vget part 1 - N 2 * vget part 0) / N 2.
Definition k3 (part : list K) : K := N 2 * vget part 2 - vget part 0.
Definition ksum (g h : list K -> K) (w : wsos K) : K := fsum (map (fun t => fst t * (g (snd t) * h (snd t))) w).
Definition restructure (uni : list K -> res (option (wsos K * wsos K))) (f : list K) : res restructured :=
  if forallb (fun v => v =? 0) f then Ok (RSome 0 0 0 0 0 (Some 0))
  else
    match uni f with
    | Err e => Err e
    | Ok None => Ok RNone
    | Ok (Some (w, _ :: _)) => Ok RNone
    | Ok (Some (w, [])) =>
        let s := ksum k1 k1 w in
        let x := ksum k1 k2 w in
        let y := ksum k1 k3 w in
        let m0 := ksum k2 k2 w in
        let p0 := N 2 * ksum k2 k3 w in
        let n0 := ksum k3 k3 w in
        if s =? 0 then Ok RNan
        else
          let m := m0 - x ^ 2 / s in
          let p := p0 - N 2 * x * y / s in
          let n := N 2 * m0 + n0 - (N 2 * x ^ 2 + y ^ 2) / s in
          if ((n =? N 3 * m) && (p =? - N 2 * m))%bool then Ok (RSome m s (x / s) (y / s) 0 (Some 0))
          else
            let t := (- N 2 * m ^ 2 + m * n - p ^ 2 / N 4) / (n + p - m) in
            if t <? 0 then Ok RNone
            else if m =? t then
              let rem := n - N 3 * t in
              if rem <? 0 then Ok RNone else Ok (RSome t s (x / s) (y / s) rem None)
            else Ok (RSome t s (x / s) (y / s) (m - t) (Some ((p + N 2 * t) / (m - t) / N 2)))
    end.

(** ** The class [_septic_sym_axis]: each solver returns an expression and the number [ker_coeff]
    ([(None, oo)] is [None]). [expand] and [together] do not change the value and are omitted. *)
Definition sqp : ex K := cprod ((a - b) ^ 2)%E.
(** [CommonExpr.schur(3)] *)
Definition schur3 : ex K := match TernaryTables.schur 3 with Some e => e | None => EC 0 end.

(** [_F_regular] (septic_symmetric.py:155-160) *)
Definition F_regular (x y : K) : res (option (ex K * K)) :=
  let f1 := (EC (x - 1) * a ^ 5 + EC (y - x) * a ^ 4 * (b + c) + EC (1 - y) * a ^ 3 * (b ^ 2 + c ^ 2) + EC (N 3 * x - y - 1) * a ^ 3 * b * c
      + EC (y - N 2 * x) * a ^ 2 * b ^ 2 * c)%E in
  Ok (Some ((csum f1 ^ 2 + cprod a * csum a * sqp) / schur3, 0%F))%E.

(** [_F_square] (septic_symmetric.py:162-172) *)
Definition F_square (x y : K) : res (option (ex K * K)) :=
  if x + y =? N 5 / N 3 then
    let p1 := (EC (N 3 * (x - 1)) * a - EC ((N 3 * x - 1) / N 2) * b - EC ((N 3 * x - 1) / N 2) * c)%E in
    Ok (Some ((csum (a * (a - b) ^ 2 * (a - c) ^ 2 * p1 ^ 2) / EC (N 9))%E, (- (x - 1)) * (N 9 * x - N 13) / N 12))
  else Ok None.

(** the remainder term of [_F_sos] and [_G_sos] (septic_symmetric.py:192-199, 343-350): [ker_coeff] and [rem] *)
Definition sos_rem (c1 c2 : K) : K * ex K :=
  if c2 <=? N 2 * c1 then ((- (c1 + c2)) / N 3, (EC ((N 2 * c1 - c2) / N 6) * csum ((a - b) ^ 2))%E)
  else (- c1, (EC (c2 - N 2 * c1) * csum (a * b))%E).

(** [_F_sos] (septic_symmetric.py:173-206); with z_type = 1 and x = 1, z is [zoo] and the solver gives up *)
Definition F_sos_at (x y z : K) : ex K * K :=
  let p1 := (EC (N 3 * x - N 3) * a ^ 3 + EC (N 4 * x + N 3 * y - N 6) * a ^ 2 * b + EC ((- N 4) * x + N 3 * y) * a ^ 2 * c + EC (N 4 * x
      + N 3 * y - N 6) * a * b ^ 2 + EC ((- N 4) * x + N 3 * y) * a * b * c + EC (N 6 * x - N 3 * y) * a * c ^ 2 + EC (N 3 * x - N 3) * b ^ 3
      + EC ((- N 4) * x + N 3 * y) * b ^ 2 * c + EC (N 6 * x - N 3 * y) * b * c ^ 2 + EC (N 3 - N 5 * x) * c ^ 3)%E in
  let c1 := (- x ^ 2) / N 3 - N 2 * x * z + N 2 * z in
  let c2 := (- N 2) * x ^ 2 / N 3 + N 2 * x * z - N 2 * y * z - z ^ 2 + N 2 * z in
  let p2 := (a * b * EC (- x + y + z - 1) + c ^ 2 * EC z + (a * c + b * c) * EC (x + y - z - 1) + (a ^ 2 + b ^ 2) * EC (x - 1))%E in
  let (ker, rem) := sos_rem c1 c2 in
  (((csum ((a - b) ^ 2 * p1 ^ 2) / EC (N 18) + csum (a * b * (a - b) ^ 2 * p2 ^ 2) + rem * sqp) / csum a)%E, ker).
Definition F_sos (z_type : bool) (x y : K) : res (option (ex K * K)) :=
  if z_type then if x =? 1 then Ok None else Ok (Some (F_sos_at x y ((- x ^ 2) / (N 6 * (x - 1)))))
  else Ok (Some (F_sos_at x y (N 2 - y))).

(** [_F_border] (septic_symmetric.py:208-263): the degenerate case, the two lifted cases *)
Definition F_border_ker (x y : K) : K := - (N 2 * x + y - N 3) ^ 2.
Definition F_border0 (x y : K) : ex K :=
  let p1 := (EC (x - 1) * a ^ 3 + EC (1 - x) * a ^ 2 * b + EC (x + N 2 * y - N 3) * a ^ 2 * c + EC (1 - x) * a * b ^ 2 + EC (N 8 * x
      + N 5 * y - N 12) * a * b * c + EC ((- N 5) * x - N 4 * y + N 9) * a * c ^ 2 + EC (x - 1) * b ^ 3 + EC (x + N 2 * y - N 3) * b ^ 2 * c
      + EC ((- N 5) * x - N 4 * y + N 9) * b * c ^ 2 + EC (N 3 * x + N 2 * y - N 5) * c ^ 3)%E in
  let p2 := (a * b * EC (N 2 - N 2 * x) + c ^ 2 * EC (- x - y + N 3) + (a * c + b * c) * EC (N 2 * x + N 2 * y - N 4) + (a ^ 2
      + b ^ 2) * EC (x - 1))%E in
  ((csum ((a - b) ^ 2 * p1 ^ 2) / EC (N 2) + csum (a * b * (a - b) ^ 2 * p2 ^ 2)) / csum a)%E.
Definition F_border_det1 (x y : K) : K := (N 72 * x ^ 3 + N 108 * x ^ 2 * y - N 300 * x ^ 2 + N 54 * x * y ^ 2 - N 318 * x * y + N 434 * x
    + N 9 * y ^ 3 - N 84 * y ^ 2 + N 243 * y - N 218) / (N 2 * (x - 1)).
Definition F_border_p1 (x y : K) : ex K := (a ^ 4 * EC (x - 1) + a ^ 3 * b * EC (N 2 * x + N 2 * y - N 4) + a ^ 3 * c * EC (N 3 - N 3 * x)
    + a ^ 2 * b ^ 2 * EC ((- N 2) * x - N 2 * y + N 6) + a ^ 2 * b * c * EC (x + y - N 3) + a ^ 2 * c ^ 2 * EC (N 3 * x - N 3)
    + a * b ^ 3 * EC (N 2 * x + N 2 * y - N 4) + a * b ^ 2 * c * EC (x + y - N 3) + a * b * c ^ 2 * EC ((- N 4) * x - N 4 * y + N 8)
    + a * c ^ 3 * EC (1 - x) + b ^ 4 * EC (x - 1) + b ^ 3 * c * EC (N 3 - N 3 * x) + b ^ 2 * c ^ 2 * EC (N 3 * x - N 3) + b * c ^ 3 * EC (1 - x))%E.
Definition F_border_p2 (x y : K) : ex K := ((a - c) * (b - c) * (EC (x + y - N 2) * a ^ 2 + EC ((- N 4) * x - N 3 * y + N 6) * a * b
    + EC (1 - y) * a * c + EC (x + y - N 2) * b ^ 2 + EC (1 - y) * b * c + EC (1 - x) * c ^ 2))%E.
Definition F_border1 (x y : K) : option (ex K) :=
  let det := F_border_det1 x y in
  let u := (y - 1) / (N 4 * (x - 1)) in
  match quadratic_weighting u u 1 with
  | Some ws =>
      if 0 <=? det then
        let qw := Sparse.esum (map (fun w => (EC (fst w) * csum (c * (EC (fst (snd w)) * F_border_p1 x y
            + EC (snd (snd w)) * F_border_p2 x y) ^ 2))%E) ws) in
        match TernaryQuad.common_quadratic 1 (N 2 * u - 1) with
        | Some m => Some ((qw + EC det * cprod a * sqp) / m)%E
        | None => None
        end
      else None
  | None => None
  end.
(** a [Coeff] of the multiplier (line 261); Coeff gives 0 for the rotations, which the solver does not read *)
Definition mult_cf (u : K) (i j k : nat) : K :=
  match i, j, k with
  | 3, 0, 0 => 1%F
  | 2, 1, 0 | 1, 2, 0 => (u - 1)%F
  | 1, 1, 1 => (N 3 - N 6 * u)%F
  | _, _, _ => 0%F
  end%nat.
Definition F_border_det2 (x y : K) : K := (N 6 * x + N 3 * y - N 8) * (N 6 * x ^ 2 + N 9 * x * y - N 20 * x + N 3 * y ^ 2 - N 15 * y
    + N 17) / (x - 1).
Definition F_border_u (x y : K) : K := (N 2 * x + y - N 3) / (N 2 * (x - 1)).
Definition F_border_num2 (x y : K) : ex K :=
  let u := F_border_u x y in
  let p1 := (a ^ 2 * EC (x - 1) + a * b * EC (y - 1) + a * c * EC (y - 1) + b ^ 2 * EC (- x - y + N 2) + b * c * EC (N 4 * x + N 3 * y - N 6)
      + c ^ 2 * EC (- x - y + N 2))%E in
  ((EC u * csum (a ^ 2 * (a - b) ^ 2 * (a - c) ^ 2 * p1 ^ 2) + EC u * csum (a * (b + c) * (a - b) ^ 2 * (a - c) ^ 2 * p1 ^ 2)
      + EC (1 - u) * csum (a * (a - b) * (a - c) * (EC (x - 1) * a ^ 2 + EC (y - 1) * (a * b + a * c) + EC (N 2 * x + y - N 2) * b * c)) ^ 2)
      + EC (F_border_det2 x y) * sqp * csum a * cprod a)%E.
Definition F_border2 (x y : K) : res (option (ex K)) :=
  let u := F_border_u x y in
  if (negb (x =? 1) && (0 <=? F_border_det2 x y) && (0 <=? u) && (u <=? 1))%bool then
    match TernaryCubic.cubic_symmetric (mult_cf u) with
    | Some m => Ok (Some (F_border_num2 x y / m)%E)
    | None => Err TypeError
    end
  else Ok None.
Definition F_border (x y : K) : res (option (ex K * K)) :=
  if ((y =? 1) || (N 2 * x + y - N 3 =? 0))%bool then Ok (Some (F_border0 x y, F_border_ker x y))
  else
    match (if (negb (x =? 1) && (0 <=? (y - 1) * (N 16 * x - y - N 15)))%bool then F_border1 x y else None) with
    | Some e => Ok (Some (e, F_border_ker x y))
    | None =>
        match F_border2 x y with
        | Ok (Some e) => Ok (Some (e, F_border_ker x y))
        | Ok None => Ok None
        | Err er => Err er
        end
    end.

(** [_G_trivial] (septic_symmetric.py:277-285) *)
Definition G_trivial (x y : K) : res (option (ex K * K)) :=
  let p1 := (a ^ 2 * EC (x - 1) + a * b * EC y + a * c * EC y + b ^ 2 * EC (x - 1) + b * c * EC (y - N 2) + c ^ 2 * EC (x - 1))%E in
  Ok (Some (csum (a * (b - c) ^ 2 * p1 ^ 2)%E, 0)).

(** [_G_border] (septic_symmetric.py:287-307) *)
Definition G_border (x y : K) : res (option (ex K * K)) :=
  let ker := (- N 4) * (x - 1) * (N 2 * x + y - N 2) in
  if 0 <=? ker then Ok None
  else if 0 <=? (y - 1) * (N 2 * x + y - N 2) then
    let p1 := (EC (x - 1) * a ^ 2 + EC ((- N 4) * x - y + N 4) * a * c + EC (x - 1) * b ^ 2 + EC ((- N 4) * x - y + N 4) * b * c
        + EC (x - 1) * c ^ 2 + EC (N 4 * x + N 3 * y - N 6) * a * b)%E in
    let p2 := (EC (N 4 * (x - 1) * (N 2 * x + y - N 2)) * csum (a * b * (a - b) ^ 2) + EC (N 8 * (y - 1) * (N 2 * x
        + y - N 2)) * csum (a ^ 2 * (b - c) ^ 2))%E in
    Ok (Some ((csum (c * (a - b) ^ 2 * p1 ^ 2) + p2 * cprod a)%E, ker))
  else Ok None.

(** [_G_sos] (septic_symmetric.py:309-357) with zw_type = 1, the only type used by [solve] *)
Definition G_sos_at (x y z w c1 c2 : K) : ex K * K :=
  let p1 := (a ^ 2 * EC (w + x - y + 1) + a * b * EC (- w + N 2 * y - N 2) + a * c * EC (- w + N 2 * y - N 2) + b ^ 2 * EC (x - 1) + b * c * EC w
      + c ^ 2 * EC (x - 1))%E in
  let p2 := (a * b * EC (- x + y + z - 1) + c ^ 2 * EC z + (a * c + b * c) * EC (x + y - z - 1) + (a ^ 2 + b ^ 2) * EC (x - 1))%E in
  let (ker, rem) := sos_rem c1 c2 in
  (((csum (a * b * (a - b) ^ 2 * p2 ^ 2) + EC (N 2) * csum (a ^ 2 * (b - c) ^ 2 * p1 ^ 2) + rem * sqp) / csum a)%E, ker).
Definition G_c1 (x y z w : K) : K := (- N 2) * w ^ 2 - N 4 * w * x + N 4 * w * y - N 4 * w + N 2 * x ^ 2
    + N 4 * x * y - N 2 * x * z - N 8 * x - N 2 * y ^ 2 + N 4 * y + N 2 * z - N 2.
Definition G_c2 (x y z w : K) : K := (- N 4) * w * y - x ^ 2 + N 2 * x * y + N 2 * x * z - N 2 * x + N 4 * y ^ 2 - N 2 * y * z - N 6 * y - z ^ 2
    + N 2 * z - 1.
Definition G_sos (x y : K) : res (option (ex K * K)) :=
  let z := N 2 - y in
  let w := - x - 1 in
  let c1 := G_c1 x y z w in
  let c2 := G_c2 x y z w in
  let c := (c1 + c2) / N 3 in
  let best := N 4 * y * (x - 1) in
  if (if c <? c1 then c else c1) <=? best then
    Ok (Some (G_sos_at x y (x - N 2 * y + 1) (y - N 2 * x) best (N 8 * y * (x - 1))))
  else Ok (Some (G_sos_at x y z w c1 c2)).

(** [rem_poly] (septic_symmetric.py:359-361) *)
Definition rem_poly (rem : K) (r : option K) : ex K :=
  match r with
  | Some r => (EC rem * csum (a ^ 2 + EC r * a * b) ^ 2)%E
  | None => (EC rem * csum (a * b) ^ 2)%E
  end.

(** [solve] (septic_symmetric.py:363-399) *)
Definition F_solvers (x y : K) : list (res (option (ex K * K))) :=
  [F_square x y; F_sos false x y; F_sos true x y; F_border x y; F_regular x y].
Definition G_solvers (x y : K) : list (res (option (ex K * K))) := [G_trivial x y; G_border x y; G_sos x y].
Fixpoint solve_g (f_coeff g_coeff ker ker1 : K) (pf : ex K) (gs : list (res (option (ex K * K)))) : res (option (ex K)) :=
  match gs with
  | [] => Ok None
  | Err x :: _ => Err x
  | Ok None :: gs' => solve_g f_coeff g_coeff ker ker1 pf gs'
  | Ok (Some (pg, ker2)) :: gs' =>
      let rem := ker - f_coeff * ker1 - g_coeff * ker2 in
      if 0 <=? rem then Ok (Some (EC f_coeff * pf + EC g_coeff * pg + EC rem * csum a * sqp)%E)
      else solve_g f_coeff g_coeff ker ker1 pf gs'
  end.
Fixpoint solve_f (f_coeff g_coeff ker : K) (fs gs : list (res (option (ex K * K)))) : res (option (ex K)) :=
  match fs with
  | [] => Ok None
  | Err x :: _ => Err x
  | Ok None :: fs' => solve_f f_coeff g_coeff ker fs' gs
  | Ok (Some (pf, ker1)) :: fs' =>
      match solve_g f_coeff g_coeff ker ker1 pf gs with
      | Ok None => solve_f f_coeff g_coeff ker fs' gs
      | r => r
      end
  end.
Definition septic_solve (f_coeff fx fy g_coeff gx gy ker : K) : res (option (ex K)) :=
  solve_f f_coeff g_coeff ker (F_solvers fx fy) (G_solvers gx gy).

(** [_sos_struct_septic_symmetric_quadratic_form] (septic_symmetric.py:26-124); [uni] is
    [prove_univariate(..., return_raw=True)]: the weighted squares of the two parts (multipliers 1
    and a). Unpacking the [None] of the quartic raises [TypeError]. *)
Definition sumsq (w : wsos K) : list K :=
  fold_right (fun t acc => uadd (uscale (fst t) (umul (snd t) (snd t))) acc) [] w.
Definition f_rem_ker (r : option K) : K := match r with Some r => (r - 1) ^ 2 | None => 1 end.
Definition g_rem_ker (r : option K) : K := match r with Some r => N 2 * r + 1 | None => 0 end.
Definition ker_coeff (c520 ft f fx fy frem : K) (fr : option K) (gt g gx gy grem : K) (gr : option K) : K :=
  c520 - f * (fx - fy) ^ 2 - g * (gx ^ 2 + N 2 * gx * gy - N 2 * gx - N 2 * gy + 1)
  - (N 13 / N 4 * ft - N 4 * gt) - frem * f_rem_ker fr - grem * g_rem_ker gr.
Definition quadratic_form (uni : list K -> res (option (wsos K * wsos K))) (p : poly K) : res (option (ex K)) :=
  match div_sq1 (axis 7 p) with
  | (sym, (u, v)) =>
      if negb ((u =? 0) && (v =? 0)) then Ok None
      else
        match uni sym with
        | Err x => Err x
        | Ok None => Ok None
        | Ok (Some (w0, w1)) =>
            match restructure uni (sumsq w1) with
            | Err x => Err x
            | Ok RNone => Err TypeError
            | Ok rf =>
                match restructure uni (uscale (1 / N 2) (sumsq w0)) with
                | Err x => Err x
                | Ok RNone => Err TypeError
                | Ok rg =>
                    match rf, rg with
                    | RSome ft f fx fy frem fr, RSome gt g gx gy grem gr =>
                        let ker := ker_coeff (coef p [5; 2; 0]%nat) ft f fx fy frem fr gt g gx gy grem gr in
                        match septic_solve f fx fy g gx gy ker with
                        | Ok (Some s) =>
                            Ok (Some (s + csum (a * (EC 2 * a - b - c) ^ 2 * (EC (ft / N 4) * (a - b) ^ 2 * (a - c) ^ 2 + EC gt * (b - c) ^ 4))
                                      + rem_poly frem fr * schur3 + rem_poly grem gr * csum (a * (b - c) ^ 2))%E)
                        | r => r
                        end
                    | _, _ => Ok None
                    end
                end
            end
        end
  end.

(** [sos_struct_septic_symmetric] (septic_symmetric.py:14-23); [liftfree] is
    [sos_struct_liftfree_for_six], [is_rational] is [coeff.is_rational] *)
Definition sos_struct_septic_symmetric (liftfree : poly K -> res (option (ex K))) (uni : list K -> res (option (wsos K * wsos K)))
    (is_rational : bool) (p : poly K) : res (option (ex K)) :=
  if negb (forallb (fun t => match t with (i, j, k) => coef p [i; j; k] =? coef p [j; i; k] end)
                   [(6, 1, 0); (5, 2, 0); (4, 3, 0); (4, 2, 1)]%nat) then Ok None
  else
    match liftfree p with
    | Ok None => if is_rational then quadratic_form uni p else Ok None
    | r => r
    end.
End Model.
