(** * AM-GM for sparse cyclic ternary forms (triples/core/structsos/ternary/sparse.py:1-419) *)
From Coq Require Import Bool List Arith Lia ZArith.
From Verif Require Import OrdField Base Perm Poly Coeff Expr TriPoly Univariate.
From Verif Require Import DenseSym.
From Verif Require Sparse.
Import ListNotations.

(** [CoeffMonom] (sparse.py:56-160): a triple of integers. *)
Definition mon3 : Type := (Z * Z * Z)%type.

Section Monom.
Local Open Scope Z_scope.
Definition mx (m : mon3) : Z := fst (fst m).
Definition my (m : mon3) : Z := snd (fst m).
Definition mz (m : mon3) : Z := snd m.
(** [degree], [norm], [next], [cycle], subtraction, [dot] (sparse.py:65-115) *)
Definition mdeg (m : mon3) : Z := mx m + my m + mz m.
Definition mnorm (m : mon3) : Z := Z.abs (mx m) + Z.abs (my m) + Z.abs (mz m).
Definition mnext (m : mon3) : mon3 := (my m, mz m, mx m).
Definition mcycle (m : mon3) : list mon3 := [m; mnext m; mnext (mnext m)].
Definition msub (m n : mon3) : mon3 := (mx m - mx n, my m - my n, mz m - mz n).
Definition mdot (m n : mon3) : Z := mx m * mx n + my m * my n + mz m * mz n.
Definition meq (m n : mon3) : bool := (mx m =? mx n) && (my m =? my n) && (mz m =? mz n).
(** [__floordiv__] by an integer (sparse.py:83-85): Python's floor division is [Z.div] *)
Definition mdivz (m : mon3) (k : Z) : mon3 := (mx m / k, my m / k, mz m / k).
(** order of tuples, and [std] (sparse.py:94-96): the largest rotation *)
Definition mlt (m n : mon3) : bool :=
  (mx m <? mx n) || ((mx m =? mx n) && ((my m <? my n) || ((my m =? my n) && (mz m <? mz n)))).
Definition mmax (m n : mon3) : mon3 := if mlt m n then n else m.
Definition mstd (m : mon3) : mon3 := mmax (mmax m (mnext m)) (mnext (mnext m)).
(** [is_center], [is_collinear], [integer_intersection] (sparse.py:116-133) *)
Definition is_center (m : mon3) : bool := (mx m =? my m) && (my m =? mz m).
Definition is_collinear (p1 p2 p3 : mon3) : bool :=
  mx p1 * (my p2 - my p3) + mx p2 * (my p3 - my p1) + mx p3 * (my p1 - my p2) =? 0.
Definition integer_intersection (p1 p2 p3 p4 : mon3) : option mon3 :=
  let p10 := mx p1 in let p11 := my p1 in let p20 := mx p2 in let p21 := my p2 in
  let p30 := mx p3 in let p31 := my p3 in let p40 := mx p4 in let p41 := my p4 in
  let det := p10*p31 - p10*p41 - p11*p30 + p11*p40 - p20*p31 + p20*p41 + p21*p30 - p21*p40 in
  let p50 := p10*p21*p30 - p10*p21*p40 - p10*p30*p41 + p10*p31*p40 - p11*p20*p30 + p11*p20*p40 + p20*p30*p41 - p20*p31*p40 in
  let p51 := p10*p21*p31 - p10*p21*p41 - p11*p20*p31 + p11*p20*p41 - p11*p30*p41 + p11*p31*p40 + p21*p30*p41 - p21*p31*p40 in
  if (det =? 0) || negb (p50 mod det =? 0) || negb (p51 mod det =? 0) then None
  else Some (p50 / det, p51 / det, mdeg p1 - p50 / det - p51 / det).
(** numerators and denominator of [weight] (sparse.py:139-148), for a monomial that is not the
    center *)
Definition wdet (m : mon3) : Z :=
  let u := mx m in let v := my m in let w := mz m in 3*u*v*w - (u*u*u + v*v*v + w*w*w).
Definition wnum (m point : mon3) : Z * Z * Z :=
  let u := mx m in let v := my m in let w := mz m in
  let x := mx point in let y := my point in let z := mz point in
  (x*(v*w-u*u) + y*(w*u-v*v) + z*(u*v-w*w),
   x*(w*u-v*v) + y*(u*v-w*w) + z*(v*w-u*u),
   x*(u*v-w*w) + y*(v*w-u*u) + z*(w*u-v*v)).
(** [__rshift__] (sparse.py:157-161). A quotient by zero is sympy's [zoo] or [nan], whose
    comparison is a [TypeError]. *)
Definition rshift (m o : mon3) : res bool :=
  if negb (mdeg m =? mdeg o) then Err ValueError
  else if is_center m then Ok (is_center o)
  else
    let det := wdet m in
    if det =? 0 then Err TypeError
    else match wnum m o with
         | (na, nb, nc) => Ok ((0 <=? na * det) && (0 <=? nb * det) && (0 <=? nc * det))
         end.
(** [is_circumscribing] (sparse.py:149-156) *)
Definition is_circumscribing (m o : mon3) : res (option mon3) :=
  if negb (mdeg m =? mdeg o) then Err ValueError
  else Ok (find (fun p => is_collinear m p (mnext m)) (mcycle o)).
(** [min(m2)] (sparse.py:378) *)
Definition mmin (m : mon3) : Z := Z.min (Z.min (mx m) (my m)) (mz m).
End Monom.

Section Model.
Context {K : OrdField}.
Local Open Scope of_scope.

Let a : ex K := EX 0.
Let b : ex K := EX 1.
Let c : ex K := EX 2.

(** an integer as a number, and a power with an integer exponent *)
Definition fZ (k : Z) : K := if (0 <=? k)%Z then fnat (Z.to_nat k) else - fnat (Z.to_nat (- k)).
Definition ezpow (e : ex K) (k : Z) : ex K :=
  if (0 <=? k)%Z then (e ^ Z.to_nat k)%E else (EC 1 / e ^ Z.to_nat (- k))%E.
(** [as_monom] (sparse.py:108-109) *)
Definition emon (m : mon3) : ex K := (ezpow a (mx m) * ezpow b (my m) * ezpow c (mz m))%E.

(** a polynomial in one variable as an expression, with [subs(x, e)] done *)
Definition eupoly (l : list K) (e : ex K) : ex K :=
  Sparse.esum (map (fun t => (EC (snd t) * e ^ fst t)%E) (combine (seq 0 (length l)) l)).
(** division by x^2 - 1: quotient and remainder r1 x + r0 *)
Fixpoint syn2 (f : list K) : list K * (K * K) :=
  match f with
  | [] => ([], (0, 0))
  | k :: f' => let '(q, (r1, r0)) := syn2 f' in (r1 :: q, (r0, k + r1))
  end.
(** [divmod(f2, Poly([1,0,-2,0,1], x))] (sparse.py:242): the quotient when the remainder is
    zero, by two divisions by x^2 - 1 *)
Definition div_sq2 (f : list K) : option (list K) :=
  match syn2 f with
  | (q, (r1, r0)) =>
      if ((r1 =? 0) && (r0 =? 0))%bool then
        match syn2 q with
        | (q', (s1, s0)) => if ((s1 =? 0) && (s0 =? 0))%bool then Some q' else None
        end
      else None
  end.
(** a polynomial given by a dictionary with distinct keys below [n] *)
Definition from_dict (n : nat) (d : list (nat * K)) : list K :=
  map (fun i => match find (fun t => Nat.eqb (fst t) i) d with Some t => snd t | None => 0 end) (seq 0 n).
Definition usub (f g : list K) : list K := map (fun t => fst t - snd t) (combine f g).
(** f1 and f2 (sparse.py:231,240) *)
Definition f1_of (d1 d2 : nat) : list K :=
  from_dict (S (d1 + d2)) [((d1 + d2)%nat, fnat d1); (d1, - fnat (d1 + d2)); (0%nat, fnat d2)].
Definition f2_of (d1 d2 : nat) : list K :=
  usub (f1_of d1 d2)
       (from_dict (S (d1 + d2)) [(S d1, fnat (d1 + d2) / 2); (d1, - fnat (d1 + d2)); (pred d1, fnat (d1 + d2) / 2)]).
(** f1sol (sparse.py:234-244), with x replaced by [e] *)
Definition f1sol (d1 d2 : nat) (e : ex K) : option (ex K) :=
  if Nat.odd (d1 + d2) then
    match div_sq1 (f1_of d1 d2) with
    | (q, (u, v)) => if ((u =? 0) && (v =? 0))%bool then Some (eupoly q e * (e - EC 1) ^ 2)%E else None
    end
  else
    match div_sq2 (f2_of d1 d2) with
    | Some q => Some (eupoly q e * (e ^ 2 - EC 1) ^ 2 + EC (fnat (d1 + d2) / 2) * (e - EC 1) ^ 2 * e ^ pred d1)%E
    | None => None
    end.
(** [AMGM3.local_ineq] (sparse.py:207-249): the expression and its two integers. [together()]
    keeps the value and is not modelled, so the expression may have powers of a, b, c in its
    denominators that sympy cancels. *)
Definition local_ineq (m1 p m2 : mon3) : option (ex K * nat * nat) :=
  let v1 := msub p m1 in
  let v2 := msub m2 p in
  if (0 <? mdot v1 v2)%Z then
    let g := Z.gcd (mnorm v1) (mnorm v2) in
    let d1 := Z.to_nat (mnorm v1 / g) in
    let d2 := Z.to_nat (mnorm v2 / g) in
    match f1sol d1 d2 (emon (mdivz v2 (Z.of_nat d2))) with
    | Some s => Some (csum (emon m1 * s)%E, d2, d1)
    | None => None
    end
  else None.

Definition answer : Type := res (option (ex K)).

(** [_solve_circumscribing] (sparse.py:251-266) *)
Definition solve_circumscribing (m1 m2 : mon3) : answer :=
  match is_circumscribing m1 m2 with
  | Err x => Err x
  | Ok o1 =>
      let first := match o1 with
                   | Some p => match local_ineq m1 p (mnext m1) with
                               | Some (s, x, y) => Some (s / EC (fnat (x + y)))%E
                               | None => None
                               end
                   | None => None
                   end in
      match first with
      | Some s => Ok (Some s)
      | None =>
          match is_circumscribing m2 m1 with
          | Err x => Err x
          | Ok None => Ok None
          | Ok (Some p) =>
              match local_ineq p m2 (mnext m2) with
              | Some (s, x, _) => Ok (Some (s / EC (fnat x))%E)
              | None =>
                  match local_ineq p (mnext m2) m2 with
                  | Some (s, x, _) => Ok (Some (s / EC (fnat x))%E)
                  | None => Ok None
                  end
              end
          end
      end
  end.

(** the two-step part of [_solve_center] (sparse.py:284-291, 311-316): s(m1 - v) *)
Definition to_axis (m1 v v2 : mon3) : option (ex K) :=
  if meq m1 v then Some (EC 0 / EC 1)%E
  else match local_ineq m1 v v2 with
       | Some (s, x, _) => Some (s / EC (fnat x))%E
       | None => None
       end.
(** [_solve_center] (sparse.py:268-319) *)
Definition solve_center (m1 m2 : mon3) : option (ex K) :=
  if negb (is_center m2) then None
  else
    let d := mx m2 in
    let m1 := mstd m1 in
    if ((my m1 <? d) && (mz m1 <? d))%Z%bool then
      let '(r, v, v2) :=
        if (my m1 <=? mz m1)%Z
        then let r := mz m1 in (r, (3*d-2*r, r, r)%Z, (r, 3*d-2*r, r)%Z)
        else let r := my m1 in (r, (3*d-2*r, r, r)%Z, (r, r, 3*d-2*r)%Z) in
      match to_axis m1 v v2 with
      | None => None
      | Some s1 =>
          let x := ezpow a (d - r) in
          let y := ezpow b (d - r) in
          Some (s1 + cprod (ezpow a r) * csum x * csum ((x - y) ^ 2) / EC 2)%E
      end
    else if (my m1 =? d)%Z then
      let r := mz m1 in
      let s := (d - r)%Z in
      Some (cprod (ezpow a r) * csum (ezpow a s * (ezpow a s + EC 2 * ezpow c s) * (ezpow b s - ezpow c s) ^ 2)
            / (EC 2 * csum (ezpow a s)))%E
    else if (mz m1 =? d)%Z then
      let r := my m1 in
      let s := (d - r)%Z in
      Some (cprod (ezpow a r) * csum (ezpow a s * (ezpow a s + EC 2 * ezpow b s) * (ezpow b s - ezpow c s) ^ 2)
            / (EC 2 * csum (ezpow a s)))%E
    else
      let '(r, v, v2) :=
        if (d <? my m1)%Z
        then let r := my m1 in (r, (r, r, 3*d-2*r)%Z, (3*d-2*r, r, r)%Z)
        else let r := mz m1 in (r, (r, r, 3*d-2*r)%Z, (r, 3*d-2*r, r)%Z) in
      match to_axis m1 v v2 with
      | None => None
      | Some s1 =>
          let s := (r - d)%Z in
          Some (s1 + cprod (ezpow a (3*d-2*r)) * csum (ezpow a s * ezpow b s)
                     * csum (ezpow a (2*s) * (ezpow b s - ezpow c s) ^ 2) / EC 2)%E
      end.

(** first answer of a loop; an exception ends it. [Ok None] of the body is "next iteration",
    [Ok (Some o)] is "return o". *)
Fixpoint loop {T} (body : T -> res (option (option (ex K)))) (l : list T) (rest : answer) : answer :=
  match l with
  | [] => rest
  | t :: l' => match body t with
               | Err x => Err x
               | Ok (Some o) => Ok o
               | Ok None => loop body l' rest
               end
  end.
Definition mix (s1 : ex K) (x y : nat) (s2 : ex K) : ex K :=
  (s1 / EC (fnat (x + y)) + s2 * EC (fnat y) / EC (fnat (x + y)))%E.
(** the three loops of [_solve_spiral1] (sparse.py:321-370). [merge_cyc_sums] keeps the value.
    When [local_ineq] gives nothing for a central intersection, [sol1[0]] is a [TypeError]. *)
Definition spiral1_a (m1 : mon3) (p1 : mon3) : res (option (option (ex K))) :=
  let nex := mnext m1 in
  match integer_intersection m1 p1 nex (mnext nex) with
  | None => Ok None
  | Some p =>
      if (0 <? mdot (msub m1 p1) (msub p1 p))%Z then
        let sol1 := local_ineq m1 p1 p in
        match solve_circumscribing m1 p with
        | Err x => Err x
        | Ok sol2 =>
            match sol1, sol2 with
            | Some (s1, x, y), Some s2 => Ok (Some (Some (mix s1 x y s2)))
            | _, _ => Ok None
            end
        end
      else Ok None
  end.
Definition spiral1_b (m1 : mon3) (pp : mon3 * mon3) : res (option (option (ex K))) :=
  let (p1, p2) := pp in
  match integer_intersection m1 p1 (mnext m1) p2 with
  | None => Ok None
  | Some p =>
      if (0 <? mdot (msub m1 p1) (msub p1 p))%Z then
        let sol1 := local_ineq m1 p1 p in
        if is_center p then
          match solve_center m1 p with
          | Some s2 => match sol1 with
                       | Some (s1, x, y) => Ok (Some (Some (mix s1 x y s2)))
                       | None => Err TypeError
                       end
          | None => Ok (Some None)
          end
        else
          match solve_circumscribing m1 p with
          | Err x => Err x
          | Ok sol2 =>
              match sol1, sol2 with
              | Some (s1, x, y), Some s2 => Ok (Some (Some ((s1 + s2 * EC (fnat y)) / EC (fnat (x + y)))%E))
              | _, _ => Ok None
              end
          end
      else
        match solve_circumscribing m1 p with
        | Err x => Err x
        | Ok sol1 =>
            match solve_circumscribing p p1 with
            | Err x => Err x
            | Ok sol2 =>
                match sol1, sol2 with
                | Some s1, Some s2 => Ok (Some (Some (s1 + s2)%E))
                | _, _ => Ok None
                end
            end
        end
  end.
Definition spiral1_c (m1 : mon3) (pp : mon3 * mon3) : res (option (option (ex K))) :=
  let (p1, p2) := pp in
  let nex := mnext m1 in
  match integer_intersection m1 nex p1 p2 with
  | None => Ok None
  | Some p =>
      if (0 <? mdot (msub m1 p) (msub p nex))%Z then
        let sol1 := local_ineq m1 p nex in
        match solve_circumscribing p p1 with
        | Err x => Err x
        | Ok sol2 =>
            match sol1, sol2 with
            | Some (s1, x, y), Some s2 => Ok (Some (Some (s1 / EC (fnat (x + y)) + s2)%E))
            | _, _ => Ok None
            end
        end
      else Ok None
  end.
(** [permutations(m2.cycle(), 2)] and [combinations(m2.cycle(), 2)] in the order of itertools *)
Definition perms2 (m : mon3) : list (mon3 * mon3) :=
  let n := mnext m in let o := mnext n in [(m, n); (m, o); (n, m); (n, o); (o, m); (o, n)].
Definition combs2 (m : mon3) : list (mon3 * mon3) :=
  let n := mnext m in let o := mnext n in [(m, n); (m, o); (n, o)].
Definition solve_spiral1 (m1 m2 : mon3) : answer :=
  loop (spiral1_a m1) (mcycle m2) (loop (spiral1_b m1) (perms2 m2) (loop (spiral1_c m1) (combs2 m2) (Ok None))).

(** [_solve_spiral2] (sparse.py:372-386); [rec] is [_solve]. The tests are evaluated from left to
    right. *)
Definition spiral2_target (m1 m2 : mon3) : mon3 :=
  let m1 := mstd m1 in
  let d := mmin m2 in
  if (mz m1 <? my m1)%Z then (mx m1 + mz m1 - d, my m1, d)%Z else (mx m1 + my m1 - d, d, mz m1)%Z.
Definition solve_spiral2 (rec : mon3 -> mon3 -> answer) (m1 m2 : mon3) : answer :=
  let v := spiral2_target m1 m2 in
  let m1 := mstd m1 in
  if ((0 <=? mx v)%Z && negb (meq v m2))%bool then
    match rshift m1 v with
    | Err x => Err x
    | Ok false => Ok None
    | Ok true =>
        match rshift v m2 with
        | Err x => Err x
        | Ok false => Ok None
        | Ok true =>
            match rec m1 v with
            | Err x => Err x
            | Ok o1 => match rec v m2 with
                       | Err x => Err x
                       | Ok o2 => match o1, o2 with
                                  | Some s1, Some s2 => Ok (Some (s1 + s2)%E)
                                  | _, _ => Ok None
                                  end
                       end
            end
        end
    end
  else Ok None.

(** [_solve] (sparse.py:189-198) with a bound on the recursion depth; exceeding it is Python's
    [RecursionError] *)
Fixpoint amgm_solve (fuel : nat) (m1 m2 : mon3) : answer :=
  match fuel with
  | O => Err OtherError
  | S fuel' =>
      match solve_center m1 m2 with
      | Some s => Ok (Some s)
      | None =>
          match solve_circumscribing m1 m2 with
          | Err x => Err x
          | Ok (Some s) => Ok (Some s)
          | Ok None =>
              match solve_spiral1 m1 m2 with
              | Err x => Err x
              | Ok (Some s) => Ok (Some s)
              | Ok None => solve_spiral2 (amgm_solve fuel') m1 m2
              end
          end
      end
  end.

(** [AMGM3.solve] (sparse.py:167-188) *)
Definition amgm_main (fuel : nat) (c1 : K) (m1 : mon3) (c2 : K) (m2 : mon3) : answer :=
  match amgm_solve fuel m1 m2 with
  | Err x => Err x
  | Ok None => Ok None
  | Ok (Some s) => Ok (Some (EC c1 * s + EC (c1 + c2) * csum (emon m2))%E)
  end.
Definition amgm3 (fuel : nat) (c1 : K) (m1 : mon3) (c2 : K) (m2 : mon3) : answer :=
  if ((0 <=? c1) && (0 <=? c2))%bool then Ok (Some (EC c1 * csum (emon m1) + EC c2 * csum (emon m2))%E)
  else if ((c1 <? 0) && (c2 <? 0))%bool then Ok None
  else if 0 <=? c1 + c2 then
    match (if 0 <=? c2 then rshift m2 m1 else Ok false) with
    | Err x => Err x
    | Ok true => amgm_main fuel c2 m2 c1 m1
    | Ok false =>
        match (if 0 <=? c1 then rshift m1 m2 else Ok false) with
        | Err x => Err x
        | Ok true => amgm_main fuel c1 m1 c2 m2
        | Ok false => Ok None
        end
    end
  else Ok None.

(** [_sos_struct_sparse_amgm] (sparse.py:388-419) on the dictionary of the terms. The order of the
    list made from a set is arbitrary: [swap] exchanges the two monomials. *)
Definition key3 (m : list nat) : mon3 :=
  (Z.of_nat (nth 0 m 0%nat), Z.of_nat (nth 1 m 0%nat), Z.of_nat (nth 2 m 0%nat)).
Definition key_of (m : mon3) : list nat := [Z.to_nat (mx m); Z.to_nat (my m); Z.to_nat (mz m)].
Fixpoint mdedup (l : list mon3) : list mon3 :=
  match l with
  | [] => []
  | m :: l' => if existsb (meq m) l' then mdedup l' else m :: mdedup l'
  end.
Definition getv (p : poly K) (m : mon3) : K := if is_center m then coef p (key_of m) / 3 else coef p (key_of m).
Definition sparse_amgm (fuel : nat) (swap : bool) (p : poly K) : answer :=
  if Nat.ltb 6 (length p) then Ok None
  else
    let monoms := mdedup (map (fun m => mstd (key3 m)) (keys p)) in
    let monoms := match monoms with [m] => [m; (Z.of_nat (coeff_degree p), 0, 0)%Z] | _ => monoms end in
    match monoms with
    | [m1; m2] => if swap then amgm3 fuel (getv p m2) m2 (getv p m1) m1 else amgm3 fuel (getv p m1) m1 (getv p m2) m2
    | _ => Ok None
    end.
(** [sos_struct_sparse] (sparse.py:14-48); the solvers of degree 2, 3 and 4 are parameters *)
Definition sos_struct_sparse (quad cubic quart : poly K -> answer) (fuel : nat) (swap : bool) (p : poly K) : answer :=
  if Nat.ltb 6 (length p) then Ok None
  else match coeff_degree p with
       | 0%nat => let v := coef p [0; 0; 0]%nat in Ok (if 0 <=? v then Some (EC v) else None)
       | 1%nat => let v := coef p [1; 0; 0]%nat in Ok (if 0 <=? v then Some (EC v * csum a)%E else None)
       | 2%nat => quad p
       | 3%nat => cubic p
       | 4%nat => quart p
       | _ => sparse_amgm fuel swap p
       end.
(** the same as one of the solvers tried by [sos_struct_common] (solver.py:52-57); it ignores [real] *)
Definition sparse_solver (quad cubic quart : poly K -> answer) (fuel : nat) (swap : bool) : Sparse.solver (K := K) :=
  fun p _ => match sos_struct_sparse quad cubic quart fuel swap p with Ok o => Sparse.Returns o | Err x => Sparse.Raises x end.
End Model.
