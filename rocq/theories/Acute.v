(** * Acute triangles (triples/core/structsos/constrained/acute.py)

    Certificates contain the marks [F(a)], [F(b)], [F(c)] of the constraints
    b^2+c^2-a^2 >= 0, c^2+a^2-b^2 >= 0, a^2+b^2-c^2 >= 0: here the variables 3, 4, 5. *)
From Coq Require Import Bool List Arith Lia Ring Field.
From Verif Require Import OrdField Base Perm Poly PolyId PolyOps Coeff Expr CertLimit TriPoly Congruence Monomials TernaryQuad TernaryCubic TernaryQuartic.
Import ListNotations.

Section Model.
Context {K : OrdField}.
Local Open Scope of_scope.

Let a : ex K := EX 0.
Let b : ex K := EX 1.
Let c : ex K := EX 2.
Let Fa : ex K := EX 3.
Let Fb : ex K := EX 4.
Let Fc : ex K := EX 5.
Let n_ (n : nat) : K := fnat n.

(** The rotation a -> b -> c of the symbols acts on the marks too: [CyclicSum(F(a)*a)] is
    F(a)*a + F(b)*b + F(c)*c (triples/utils/expression/cyclic.py:53-65, 197-220). *)
Definition rot6 (i : nat) : nat :=
  match i with 0 => 1 | 1 => 2 | 2 => 0 | 3 => 4 | 4 => 5 | 5 => 3 | _ => i end%nat.
Definition csumF (e : ex K) : ex K := EAdd (EAdd e (erename rot6 e)) (erename rot6 (erename rot6 e)).
Definition cprodF (e : ex K) : ex K := EMul (EMul e (erename rot6 e)) (erename rot6 (erename rot6 e)).

(** The ternary solvers return expressions in a, b, c only; this renaming is the identity on them. *)
Definition emb (e : ex K) : ex K := erename (fun i => Nat.min i 2) e.

(** [_constrained_acute_quadratic] (acute.py:76-86) *)
Definition acute_quadratic (cf : nat -> nat -> nat -> K) : option (ex K) :=
  let c2 := (cf 2 0 0)%nat in let c1 := (cf 1 1 0)%nat in
  if ((0 <=? c2) && (0 <=? c2 + c1))%bool then option_map emb (common_quadratic c2 c1)
  else if ((c2 <? 0) && (0 <=? c1 + 2 * c2))%bool then
    Some (EC (c1 / 2) * (csumF (Fa * a) + EC (n_ 6) * cprodF a) / csumF a + EC (c2 + c1 / 2) * csumF (a ^ 2))%E
  else None.

(** *** Quartics (acute.py:244-308) *)
Definition quad_cf (va2 vab vac vb2 vbc vc2 : K) (i j k : nat) : K :=
  match i, j, k with
  | 2, 0, 0 => va2 | 1, 1, 0 => vab | 1, 0, 1 => vac | 0, 2, 0 => vb2 | 0, 1, 1 => vbc | 0, 0, 2 => vc2
  | _, _, _ => 0%F
  end%nat.

(** [_solve_quad] (acute.py:262-268) *)
Definition solve_quad (va2 vab vac vbc vb2 vc2 : K) : option (ex K) :=
  match sos_struct_acyclic_quadratic (quad_cf va2 vab vac vb2 vbc vc2) with
  | Some s => Some (csumF (Fa * emb s))%E
  | None => None
  end.

(** the first part (acute.py:255-297) *)
Definition acute_quartic_first (c400 c310 c220 c301 c211 : K) : option (ex K) :=
  if 0 <=? c220 then
    let va2 := c220 / 2 in
    let vac := (c310 + c211) / 2 in
    let vab := (c301 + c211) / 2 in
    let vbc := (c310 + c301) / 2 in
    let s1 := if 0 <? va2 then vab ^ 2 / (4 * va2) else 0 in
    let s2 := if 0 <? va2 then vac ^ 2 / (4 * va2) else 0 in
    let sq := solve_quad va2 vab vac vbc in
    match (if 0 <? va2 then sq ((va2 + c400 + s1 - s2) / 2) ((va2 + c400 - s1 + s2) / 2) else None) with
    | Some s => Some s
    | None =>
        if ((0 <=? vab) && (0 <=? vac))%bool then sq ((va2 + c400) / 2) ((va2 + c400) / 2)
        else if 0 <=? vbc then
          if 0 <=? vac then sq (va2 + c400) 0 else sq 0 (va2 + c400)
        else if negb (va2 =? 0) then
          if 0 <=? vac then sq ((va2 + c400 - s2) / 2) ((va2 + c400 + s2) / 2)
          else sq ((va2 + c400 + s1) / 2) ((va2 + c400 - s1) / 2)
        else None
    end
  else None.

(** the coefficients of [CyclicSum((b**2+c**2-a**2)*(a-b)*(a-c))] (acute.py:304) *)
Definition cfB (i j k : nat) : K :=
  match i, j, k with
  | 4, 0, 0 | 0, 4, 0 | 0, 0, 4 => (- (1))%F
  | 3, 1, 0 | 1, 0, 3 | 0, 3, 1 | 1, 3, 0 | 3, 0, 1 | 0, 1, 3 => 1%F
  | 2, 2, 0 | 2, 0, 2 | 0, 2, 2 => 2%F
  | 2, 1, 1 | 1, 2, 1 | 1, 1, 2 => (- (3))%F
  | _, _, _ => 0%F
  end%nat.

Section Oracles.
(** [sos_struct_quartic], [sos_struct_cubic], [sos_struct_sextic] (structsos/ternary), the first two
    modelled in TernaryQuartic.v and TernaryCubic.v *)
Variables (quartic cubic sextic : (nat -> nat -> nat -> K) -> res (option (ex K))).

(** [_constrained_acute_quartic] (acute.py:244-308) *)
Definition acute_quartic (cf : nat -> nat -> nat -> K) : res (option (ex K)) :=
  let c400 := (cf 4 0 0)%nat in let c310 := (cf 3 1 0)%nat in let c220 := (cf 2 2 0)%nat in
  let c301 := (cf 3 0 1)%nat in let c211 := (cf 2 1 1)%nat in
  if c400 + c310 + c220 + c301 + c211 <? 0 then Ok None
  else
    match acute_quartic_first c400 c310 c220 c301 c211 with
    | Some s => Ok (Some s)
    | None =>
        let x := (c220 + c310 + c301) / 4 in
        if 0 <=? x then
          match quartic (fun i j k => cf i j k - x * cfB i j k) with
          | Ok (Some s) =>
              Ok (Some (emb s + EC (2 * x) * csumF (Fa * (EC 2 * a + b + c) * (a - b) ^ 2 * (a - c) ^ 2)
                          / (csumF (a * (b + c - EC 2 * a) ^ 2) + csumF (a * (b - c) ^ 2)))%E)
          | Ok None => Ok None
          | Err x => Err x
          end
        else Ok None
    end.

(** *** Cubics (acute.py:89-242) *)
(** [_solve_trivial] (acute.py:121-126) *)
Definition solve_trivial (t : K) : ex K := (csumF (Fa * a) + EC (t - 1) * csumF (a * (b - c) ^ 2))%E.

(** [_solve_parabola] (acute.py:127-139); the numerical factor that [together().as_coeff_Mul()]
    takes out of the sum is left inside *)
Definition solve_parabola (t : K) : ex K :=
  if t =? 1 then ((EC (n_ 8) * cprodF (a ^ 2) + cprodF Fa) / (csumF a * csumF (a ^ 2)))%E
  else
    (EC (1 / (- t ^ 2 + 2 * t + n_ 7)) *
     ((csumF (EC (t - 1) * a ^ 3 + EC (t - 1) * a ^ 2 * b + EC (t - 1) * a ^ 2 * c - EC (n_ 8 / 3) * a * b * c)) ^ 2
      + EC (n_ 8) * cprodF Fa) / (csumF a * csumF (a ^ 2)))%E.

(** [_solve_bottom] (acute.py:140-159); [t = 1] makes the quotient [1/(t-1)**2] infinite in sympy *)
Definition bottom_original (t : K) : ex K :=
  csum (EC (- (1)) * a ^ 3 + EC t * a ^ 2 * (b + c) + EC (1 - 2 * t) * a * b * c)%E.
Definition bottom_multiplier (t : K) : ex K := csum (a ^ 3 + EC ((n_ 8 - 2 * t) / 3) * a * b * c)%E.
Definition bottom_square (t : K) : ex K :=
  (EC (1 / (t - 1) ^ 2 / 4) * (csum ((b + c - EC (2 * t - 2) * a) * (a - b) * (a - c))) ^ 2)%E.
Definition bottom_ker (t : K) : ex K := (csumF (Fb * Fc * (b - c) ^ 2) + bottom_square t)%E.
Definition bottom_ker2 (t : K) : ex K :=
  (csum ((a ^ 2 + b ^ 2 - c ^ 2) * (c ^ 2 + a ^ 2 - b ^ 2) * (b - c) ^ 2) + bottom_square t)%E.
Definition bottom_rem (t : K) : poly K :=
  expand (bottom_original t * bottom_multiplier t - bottom_ker2 t)%E.
Definition solve_bottom (t : K) : res (option (ex K)) :=
  if 2 <=? t then
    Ok (Some ((EC (n_ 9) * csumF (Fb * Fc * (b - c) ^ 2) + EC 4 * (csumF (a * (EC 2 * a ^ 2 - b ^ 2 - c ^ 2))) ^ 2)
              / (EC 2 * csumF a * csumF (a ^ 2)) + EC (t - 2) * csumF (a * (b - c) ^ 2))%E)
  else if t =? 1 then Err OtherError
  else
    match sextic (cfp (bottom_rem t)) with
    | Ok (Some s) => Ok (Some ((emb s + bottom_ker t) / bottom_multiplier t)%E)
    | Ok None => Ok None
    | Err x => Err x
    end.

(** [_get_ux_w] (acute.py:204-215). [None]: the denominator [ux2(t)] is zero ([oo, 0]), or another
    denominator is ([zoo], which the comparisons that follow refuse) *)
Definition get_ux_w (x y t : K) : option (K * K) :=
  let ux1 := (- (3) * x + y - 3) * t ^ 2 + (n_ 22 * x - 2 * y + n_ 6) * t + (n_ 21 * x + n_ 9 * y - n_ 27) in
  let ux2 := (- n_ 6 * x - y - n_ 6) * t ^ 2 + (n_ 12 * x + 2 * y + n_ 28) * t + (n_ 42 * x + n_ 7 * y - n_ 54) in
  if ux2 =? 0 then None
  else
    let d := t ^ 2 - 2 * t - n_ 7 in
    if d =? 0 then None
    else
      let ux := ux1 / ux2 in
      let xt := - (t ^ 2 - 2 * t + n_ 9) / d in
      if negb (ux =? xt) then Some (ux, (ux - x) / (ux - xt))
      else
        let uy := 3 - n_ 6 * ux in
        let yt := n_ 16 * t / d in
        if uy =? yt then None else Some (ux, (uy - y) / (uy - yt)).

(** [_validation] (acute.py:216-218) *)
Definition acute_validation (x y t : K) : bool :=
  match get_ux_w x y t with
  | None => false
  | Some (ux, w) => (1 <=? (ux - 1) ^ 2 * 2) && (0 <=? w) && (w <=? 1)
  end.

(** the end of [get_sol] (acute.py:232-238) *)
Definition acute_last (x y t : K) : res (option (ex K)) :=
  match get_ux_w x y t with
  | None => Err OtherError
  | Some (ux, w) =>
      if ((0 <=? w) && (w <=? 1))%bool then
        match solve_bottom ux with
        | Ok (Some s) => Ok (Some (EC w * solve_parabola t + EC (1 - w) * s)%E)
        | Ok None => Ok None
        | Err e => Err e
        end
      else Ok None
  end.

(** [get_sol] (acute.py:162-238). [tsq] stands for [2*sqrt(2)-1], [cands] for the candidates of
    [rationalize_func], [rational] for the test that x and y are Rational. *)
Definition get_sol (rational : bool) (tsq : K) (cands : list K) (x y : K) : res (option (ex K)) :=
  if x <? 1 then Ok None
  else if 0 <=? n_ 6 * x + y - n_ 6 then Ok (Some (solve_trivial x + EC (n_ 6 * x + y - n_ 6) * cprodF a)%E)
  else if x =? 1 then
    if - (2) <=? y then Ok (Some (solve_parabola 1 + EC (y + 2) * cprodF a)%E) else Ok None
  else
    let first :=
      if 0 <? n_ 6 * x + y - 4 then
        let t := (n_ 8 * x + y - n_ 6) / (n_ 6 * x + y - 4) in
        let w1 := (t - x) / (t - 1) in
        if ((0 <=? w1) && (w1 <=? 1))%bool
        then Some (EC w1 * csumF (Fa * a ^ 2) / csumF a + EC (1 - w1) * solve_trivial t)%E else None
      else None in
    match first with
    | Some s => Ok (Some s)
    | None =>
        if n_ 6 * x + y <? 3 then Ok None
        else
          let disc := n_ 14 * x ^ 2 - 4 * x * y - 4 * x - y ^ 2 + 4 * y - 2 in
          if disc <? 0 then Ok None
          else
            let second :=
              if negb (x + y + 1 =? 0) then
                let t := (n_ 9 - n_ 7 * x + y) / (x + y + 1) in
                if t ^ 2 - 2 * t - n_ 7 <? 0 then
                  let xt := - (t ^ 2 - 2 * t + n_ 9) / (t ^ 2 - 2 * t - n_ 7) in
                  let w1 := (xt - x) / (xt - 1) in
                  if ((0 <=? w1) && (w1 <=? 1))%bool
                  then Some (EC w1 * solve_parabola 1 + EC (1 - w1) * solve_parabola t)%E else None
                else None
              else None in
            match second with
            | Some s => Ok (Some s)
            | None =>
                if disc =? 0 then acute_last x y tsq
                else if acute_validation x y 1 then acute_last x y 1
                else match rationalize_func cands (acute_validation x y) with
                     | Some t => acute_last x y t
                     | None =>
                         if rational then Ok None
                         else if acute_validation x y tsq then acute_last x y tsq else Ok None
                     end
            end
    end.

(** [coeff.as_poly(a,b,c) * (a+b+c)] (acute.py:113) through coefficients *)
Definition cf_lift (cf : nat -> nat -> nat -> K) (i j k : nat) : K :=
  match i with O => 0 | S i' => cf i' j k end + match j with O => 0 | S j' => cf i j' k end
  + match k with O => 0 | S k' => cf i j k' end.

(** [_constrained_acute_cubic] (acute.py:89-242) *)
Definition acute_cubic (rational : bool) (tsq : K) (cands : list K) (cf : nat -> nat -> nat -> K) : res (option (ex K)) :=
  let c300 := (cf 3 0 0)%nat in let c210 := (cf 2 1 0)%nat in let c120 := (cf 1 2 0)%nat in let c111 := (cf 1 1 1)%nat in
  if negb (c210 =? c120) then
    match acute_quartic (cf_lift cf) with
    | Ok (Some s) => Ok (Some (s / csumF a)%E)
    | r => r
    end
  else if 0 <=? c300 then
    match cubic cf with Ok (Some s) => Ok (Some (emb s)) | r => r end
  else
    match get_sol rational tsq cands (c210 / - c300) (c111 / - c300) with
    | Ok (Some s) => Ok (Some (EC (- c300) * s)%E)
    | r => r
    end.

(** *** Symmetric polynomials of any degree (acute.py:311-380) *)
Variables (rational : bool) (tsq : K) (cands : list K).

(** [SOLVERS[degree](coeff, F)] *)
Definition acute_by_degree (d : nat) (p : poly K) : res (option (ex K)) :=
  if Nat.eqb d 2 then Ok (acute_quadratic (cfp p))
  else if Nat.eqb d 3 then acute_cubic rational tsq cands (cfp p)
  else if Nat.eqb d 4 then acute_quartic (cfp p)
  else Ok None.

(** [_structural_sos_3vars_cyclic] (structsos/ternary/solver.py) on a polynomial *)
Variable ternary : poly K -> res (option (ex K)).
(** The part of the lift that proposes a certificate of the symmetric axis: the divisions of the
    axis by (a-1)^2 and 2-a^2, [prove_univariate] and [_homogenize_sym_proof] (acute.py:356-370).
    [None] when one of them fails. *)
Variable lifted_sym : poly K -> res (option (ex K)).
(** [Poly.div] in a, b, c *)
Variable pdiv : poly K -> poly K -> poly K * poly K.

(** [coeff.poly111()]: the value at (1,1,1) *)
Definition poly111 (p : poly K) : K := peval (fun _ => 1) p.

Definition prodF2 : ex K := cprod (b ^ 2 + c ^ 2 - a ^ 2)%E.

(** [_constrained_acute_trivial_uncentered] (acute.py:311-327) *)
Definition trivial_uncentered (p : poly K) : res (option (ex K)) :=
  let d := total_degree p in
  if Nat.ltb d 6 then Ok None
  else
    let v := poly111 p in
    if v <=? 0 then Ok None
    else
      let rem := padd p (pneg (expand (prodF2 * csum (a ^ (d - 6)) * EC (v / 3))%E)) in
      match ternary rem with
      | Ok (Some s) => Ok (Some (emb s + cprodF Fa * csumF (a ^ (d - 6)) * EC (v / 3))%E)
      | r => r
      end.

(** [sym_axis(coeff)] (ternary/dense_symmetric.py:66-72): the coefficients of f(a,1,1), ascending *)
Definition sym_axis (p : poly K) : list K :=
  map (fun i => fsum (map snd (filter (fun t => Nat.eqb (nth 0 (fst t) 0%nat) i) p))) (seq 0 (S (total_degree p))).
Definition all_zero (l : list K) : bool := forallb (fun v => v =? 0) l.

Definition sq_prod : ex K := cprod ((a - b) ^ 2)%E.
Definition lift_mult : ex K :=
  (EC (1 / n_ 6) * csum ((a ^ 3 - a ^ 2 * c + a * b ^ 2 - a * c ^ 2 - EC 2 * b ^ 3 + b ^ 2 * c + c ^ 3) ^ 2))%E.

(** [_constrained_acute_dense_symmetric] and [_constrained_acute_lift_for_six] (acute.py:329-380),
    mutually recursive; the recursion does not lower the degree, so it may not end: [fuel] bounds
    it and running out is an error. When the symmetric axis is zero, acute.py:350 divides
    [sym] (which is zero), not the polynomial, by the product: the recursive call gets the zero
    polynomial. *)
Fixpoint dense_symmetric (fuel : nat) (p : poly K) : res (option (ex K)) :=
  match fuel with
  | O => Err OtherError
  | S fuel =>
      let d := total_degree p in
      if Nat.eqb d 0 then Ok (Some (EC 0))
      else if (Nat.eqb d 2 || Nat.eqb d 3 || Nat.eqb d 4)%bool then acute_by_degree d p
      else
        match (if Nat.leb 6 d then trivial_uncentered p else Ok None) with
        | Err x => Err x
        | Ok (Some s) => Ok (Some s)
        | Ok None =>
            if all_zero (sym_axis p) then
              match dense_symmetric fuel [] with
              | Ok (Some s) => Ok (Some (s * cprodF ((a - b) ^ 2))%E)
              | r => r
              end
            else
              match lifted_sym p with
              | Ok (Some l) =>
                  let np := padd (pmul p (expand lift_mult))
                                 (pneg (expand (csum ((a - b) ^ 2 * (a - c) ^ 2 * emb l) * prodF2)%E)) in
                  match pdiv np (expand sq_prod) with
                  | (q, []) =>
                      match dense_symmetric fuel q with
                      | Ok (Some s) =>
                          Ok (Some ((s * cprodF ((a - b) ^ 2)
                                     + csumF ((a - b) ^ 2 * (a - c) ^ 2 * emb l) * cprodF Fa) / emb lift_mult)%E)
                      | r => r
                      end
                  | _ => Ok None
                  end
              | r => r
              end
        end
  end.

(** no step of the run answers a constant polynomial or a zero symmetric axis *)
Fixpoint regular_run (fuel : nat) (p : poly K) : bool :=
  match fuel with
  | O => false
  | S fuel =>
      let d := total_degree p in
      if Nat.eqb d 0 then match p with [] => true | _ => false end
      else if (Nat.eqb d 2 || Nat.eqb d 3 || Nat.eqb d 4)%bool then true
      else
        match (if Nat.leb 6 d then trivial_uncentered p else Ok None) with
        | Ok None =>
            if all_zero (sym_axis p) then false
            else
              match lifted_sym p with
              | Ok (Some l) =>
                  regular_run fuel (fst (pdiv (padd (pmul p (expand lift_mult))
                                 (pneg (expand (csum ((a - b) ^ 2 * (a - c) ^ 2 * emb l) * prodF2)%E))) (expand sq_prod)))
              | _ => true
              end
        | _ => true
        end
  end.

(** [_extract_nonnegative_exprs] with the marks accepted by [extra_checker], followed by the
    replacement of the marks (acute.py:56-72), reduced to its decision: the marks 3, 4, 5 are
    non-negative, the variable [i] is when a constraint of the form k*x_i >= 0 is given
    ([pos i]); the extraction itself is modelled in Extract.v. *)
Fixpoint manifest_by (ok : nat -> bool) (e : ex K) : bool :=
  match e with
  | EC k => 0 <=? k
  | EX i => ok i
  | ESub _ _ => false
  | EAdd x y | EMul x y | EDiv x y => manifest_by ok x && manifest_by ok y
  | EPow x n => Nat.even n || manifest_by ok x
  end.
Definition acute_marks (pos : nat -> bool) (i : nat) : bool := if Nat.ltb i 3 then pos i else Nat.ltb i 6.

(** [constrained_acute] (acute.py:19-72). [has_cons]: the three constraints are present. The
    equality constraints play no part. *)
Definition constrained_acute (fuel : nat) (has_cons : bool) (pos : nat -> bool) (n : nat) (p : poly K) : res (option (ex K)) :=
  if negb (Nat.eqb n 3) then Ok None
  else if negb has_cons then Ok None
  else
    let d := total_degree p in
    if negb (forallb (fun t => Nat.eqb (list_sum (fst t)) d) p && is_cyclic 3 [[1; 2; 0]%nat] p) then Ok None
    else
      let r := if is_cyclic 3 [[1; 2; 0]; [1; 0; 2]]%nat p then dense_symmetric fuel p else acute_by_degree d p in
      match r with
      | Ok (Some e) => if manifest_by (acute_marks pos) e then Ok (Some e) else Ok None
      | r => r
      end.
End Oracles.

(** The point (a, b, c) with the values of the marks *)
Definition acp (A B C : K) (i : nat) : K :=
  match i with
  | 0 => A | 1 => B | 2 => C
  | 3 => (B * B + C * C - A * A)%F | 4 => (C * C + A * A - B * B)%F | 5 => (A * A + B * B - C * C)%F
  | _ => 0%F
  end%nat.

End Model.
