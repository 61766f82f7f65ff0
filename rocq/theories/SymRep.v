(** * SymmetricSOS in three variables (triples/core/symsos/) *)
From Coq Require Import Bool List Arith ZArith Lia Ring Field.
From Verif Require Import OrdField Base Perm Poly PolyId PolyOps Coeff Monomials Expr CertLimit CertExact TriPoly Univariate Halfspace Bivariate PivotProve Cyclic CyclicRw Extract.
Import ListNotations.

Section Model.
Context {K : OrdField}.
Local Open Scope of_scope.
Local Notation n_ k := (fnat (K := K) k).

(** ** The change of variables on a polynomial in p, q, r
    [pp] is [poly_pqr], the polynomial in the elementary symmetric polynomials (basic.py:13-16). *)
(** d[0] + 2*d[1] + 3*d[2] (symmetric.py:39, 215) *)
Definition weight (m : list nat) : nat := (nth 0 m 0 + 2 * nth 1 m 0 + 3 * nth 2 m 0)%nat.
Definition pqr_degree (pp : poly K) : nat := match pp with [] => 0%nat | t :: _ => weight (fst t) end.
(** [poly_pqr.subs(p, 1).as_poly(q, r)] (symmetric.py:43, 219) *)
Definition dehom (pp : poly K) : poly K :=
  clean (fold_left add_term (map (fun t => ([nth 1 (fst t) 0; nth 2 (fst t) 0]%nat, snd t)) pp) []).
(** [poly_qr.homogenize(p)(Q, R, P)] (symmetric.py:45-49, 221-225) *)
Definition compose (pq : poly K) (h : nat) (Q R P : ex K) : ex K :=
  fold_right (fun t acc => (EC (snd t) * (Q ^ nth 0 (fst t) 0%nat * R ^ nth 1 (fst t) 0%nat * P ^ (h - list_sum (fst t))) + acc)%E) (EC 0) pq.

(** [extract_factor] (basic.py:44-81); [pdiv] is [divmod]. The loop is cut after [fuel] rounds. *)
Section Extract_factor.
Variable pdiv : poly K -> poly K -> poly K * poly K.
Fixpoint extract_loop (fuel : nat) (p f : poly K) (points : list (nat -> K)) : nat * poly K :=
  match fuel with
  | O => (0%nat, p)
  | S n =>
      if negb (forallb (fun x => peval x p =? 0) points) then (0%nat, p)
      else let (qt, rm) := pdiv p f in
           match rm with
           | [] => let (k, r) := extract_loop n qt f points in (S k, r)
           | _ => (0%nat, p)
           end
  end.
Definition extract_factor (fuel : nat) (p f : poly K) (points : list (nat -> K)) : nat * poly K :=
  match p with [] => (0%nat, p) | _ => extract_loop fuel p f points end.

(** the new variables x, y, z of the numerator *)
Local Notation x := (EX 0). Local Notation y := (EX 1). Local Notation z := (EX 2).

(** A representation: numerator, exponent of p, exponent of w in the denominator *)
Definition rep : Type := (poly K * Z * Z)%type.

(** [SymmetricPositive._transform_pqr] with [return_poly=True] (symmetric.py:34-73) *)
Definition pos_Q : ex K := (y * ((x + y) * (EC 4 * x + y) + z))%E.
Definition pos_R : ex K := (x * y ^ 2)%E.
Definition pos_P : ex K := (z * (x + EC 4 * y) + EC 4 * (x + y) ^ 3)%E.
Definition pos_w : ex K := ((y - EC 2 * x) ^ 2 + z)%E.
Definition transform_pos (fuel : nat) (pp : poly K) : rep :=
  let d := pqr_degree pp in
  let pq := dehom pp in
  let h := total_degree pq in
  let num := expand (compose pq h pos_Q pos_R pos_P) in
  let (m, num') := extract_factor fuel num (expand pos_w) [pt3 2 1 (- (n_ 9))] in
  (num', (3 * Z.of_nat h - Z.of_nat d)%Z, (Z.of_nat h - Z.of_nat m)%Z).

(** [_symmetric_real_3vars] with [return_poly=True] (symmetric.py:211-254) *)
Definition real_Q : ex K := (EC (n_ 9) * x * (x ^ 2 - y ^ 2 - z))%E.
Definition real_R : ex K := (x ^ 3 + (EC 2 * y - EC 3 * x) * (y ^ 2 + z))%E.
Definition real_P : ex K := (EC (n_ 27) * x ^ 3)%E.
Definition real_w : ex K := (y ^ 2 + z)%E.
(** division by the largest power of x (symmetric.py:237-243) *)
Definition min_x (p : poly K) : nat :=
  match p with [] => 0%nat | t :: p' => fold_right (fun u m => Nat.min (nth 0 (fst u) 0%nat) m) (nth 0 (fst t) 0%nat) p' end.
Definition shift_x (k : nat) (p : poly K) : poly K :=
  map (fun t => (match fst t with [] => [] | i :: m => (i - k)%nat :: m end, snd t)) p.
Definition transform_real (fuel : nat) (pp : poly K) : rep :=
  let d := pqr_degree pp in
  let pq := dehom pp in
  let h := total_degree pq in
  let num := expand (EC (1 / n_ 27 ^ h) * compose pq h real_Q real_R real_P)%E in
  let mx := min_x num in
  let num1 := shift_x mx num in
  let (m, num') := extract_factor fuel num1 (expand real_w) [pt3 3 2 (- (4))] in
  (num', (3 * Z.of_nat h - Z.of_nat d - Z.of_nat mx)%Z, (3 * Z.of_nat h - Z.of_nat mx - 3 * Z.of_nat m)%Z).
End Extract_factor.

(** ** Back to the original variables
    The symbols a, b, c are 0, 1, 2; the new symbols ([Dummy]) are 3, 4, 5. *)
Local Notation cx := (cx K).
Definition cs (e : cx) : cx := CCyc OpSum e [0;1;2]%nat C3.
Definition cp (e : cx) : cx := CCyc OpProd e [0;1;2]%nat C3.
Definition csub (u v : cx) : cx := CAdd [u; CMul [CNum (- (1)); v]].
Local Notation a := (CSym (K := K) 0). Local Notation b := (CSym (K := K) 1). Local Notation c := (CSym (K := K) 2).
Definition c_p : cx := cs a.
(** Σ(a-b)^2 *)
Definition c_S : cx := cs (CPow (csub a b) 2).
(** Σ(b-c)^2(b+c-a)^2 + 2Σbc(b-c)^2, Σa(b-c)^2, abc, Π(a-b)^2 *)
Definition c_A : cx := CAdd [cs (CMul [CPow (csub b c) 2; CPow (csub (CAdd [b; c]) a) 2]); CMul [CNum 2; cs (CMul [b; c; CPow (csub b c) 2])]].
Definition c_Y : cx := cs (CMul [a; CPow (csub b c) 2]).
Definition c_r : cx := cp a.
Definition c_D : cx := cp (CPow (csub a b) 2).

(** [SymmetricPositive.get_inv_dict] (symmetric.py:79-89) *)
Definition inv_pos (s : nat) : cx :=
  match s with
  | 3%nat => CMul [c_A; CNum (1 / 2); CPow c_p (-1)]
  | 4%nat => c_Y
  | 5%nat => CMul [c_D; CPow c_p 3; CPow c_r (-1)]
  | _ => CSym s
  end.
(** [SymmetricReal.get_inv_dict] (symmetric.py:169-179) *)
Definition inv_real (s : nat) : cx :=
  match s with
  | 3%nat => CMul [c_p; c_S; CNum (1 / 2)]
  | 4%nat => CMul [cp (csub (csub (CMul [CNum 2; a]) b) c); CNum (1 / 2)]
  | 5%nat => CMul [CNum (n_ 27 / 4); c_D]
  | _ => CSym s
  end.

(** an expression in the new symbols, written in the original ones ([xreplace]) *)
Fixpoint csubst (s : nat -> cx) (e : ex K) : cx :=
  match e with
  | EC k => CNum k
  | EX i => s i
  | EAdd u v => CAdd [csubst s u; csubst s v]
  | ESub u v => csub (csubst s u) (csubst s v)
  | EMul u v => CMul [csubst s u; csubst s v]
  | EDiv u v => CMul [csubst s u; CPow (csubst s v) (-1)]
  | EPow u n => CPow (csubst s u) (Z.of_nat n)
  end.
(** [numerator / denominator] (symsos.py:79) with [denominator = p0**p_degree * w0**w_degree]
    (symmetric.py:65-71, 250-252); sympy distributes the integer powers over the factors of w0 and
    collects the powers of p0 *)
Definition sol_pos (num : ex K) (pd wd : Z) : cx :=
  CMul [csubst inv_pos num; CPow (CNum 2) wd; CPow c_A (- wd); CPow c_p (wd - pd); CPow c_Y (- (2 * wd)); CPow c_r wd].
Definition sol_real (num : ex K) (pd wd : Z) : cx :=
  CMul [csubst inv_real num; CPow (CNum 2) wd; CPow c_S (- wd); CPow c_p (- pd)].

(** ** SymmetricSOS *)
(** the symbol of a constraint c*s with c >= 0 ([_nonnegative_vars], symsos.py:13-21) as an index *)
Definition linear_var (p : poly K) : option nat :=
  match p with
  | [(m, k)] => if (Nat.eqb (list_sum m) 1 && (0 <=? k))%bool then Some (find_pos 1 m) else None
  | _ => None
  end.
Definition nonneg_index (ps : list (poly K)) (i : nat) : bool :=
  existsb (fun p => match linear_var p with Some j => Nat.eqb i j | None => false end) ps.
(** the constraints that are monomials in one symbol, with the recorded expression (symsos.py:92-96) *)
Definition single_var (m : list nat) : option nat :=
  match filter (fun i => negb (Nat.eqb (nth i m 0%nat) 0)) (seq 0 (length m)) with [i] => Some i | _ => None end.
Definition vcons (ineqs : list (poly K * ((nat -> K) -> K))) : list (@vcon K) :=
  flat_map (fun pv => match fst pv with
    | [(m, k)] => match single_var m, 0 <=? k with
                  | Some i, true => [{| v_sym := i; v_deg := nth i m 0%nat; v_lc := k; v_val := snd pv |}]
                  | _, _ => []
                  end
    | _ => []
    end) ineqs.

Section Solver.
Variable uni : bool -> list K -> res (option (wsos K * wsos K)).
Variable fl : poly K -> K * list (poly K * nat).
Variable hom_sym : nat -> nat.
(** [divmod] of polynomials, [pqr_sym] (sympy's [symmetrize]) *)
Variable pdiv : poly K -> poly K -> poly K * poly K.
Variable pqr : poly K -> poly K.
Variable fuel : nat.
(** the name of the mark and the check of expanded cyclic sums, see Extract.v *)
Variable g : nat.
Variable ok : cx -> bool.

Definition is_sym3 (p : poly K) : bool := Coeff.is_cyclic 3 [[1;2;0]; [1;0;2]]%nat p.
Definition transform (positive : bool) (p : poly K) : rep :=
  if positive then transform_pos pdiv fuel (pqr p) else transform_real pdiv fuel (pqr p).
(** the new symbols taken as non-negative: those of the transformed symmetric constraints
    ([sym_transform], representation.py:105-120) and the defaults (symmetric.py:91-98, 196-201) *)
Definition new_nonneg (positive : bool) (ineqs : list (poly K * ((nat -> K) -> K))) (s : nat) : bool :=
  let nums := map (fun pv => fst (fst (transform positive (fst pv)))) (filter (fun pv => is_sym3 (fst pv)) ineqs) in
  (match s with
   | 3 | 4 => positive
   | 5 => true
   | _ => false
   end%nat
   || match s with 3 | 4 | 5 => nonneg_index nums (s - 3) | _ => false end%nat)%bool.

(** one pass of the loop over the methods (symsos.py:72-109) *)
Definition try_method (p : poly K) (ineqs : list (poly K * ((nat -> K) -> K))) (positive : bool) : res (option ((nat -> K) -> K)) :=
  let '(num, pd, wd) := transform positive p in
  match prove_by_pivoting uni fl (new_nonneg positive ineqs) hom_sym [3;4;5]%nat num with
  | Err e => Err e
  | Ok None => Ok None
  | Ok (Some s) => Ok (finish noI g ok (vcons ineqs) (if positive then sol_pos s pd wd else sol_real s pd wd))
  end.
(** [SymmetricSOS] (symsos.py:24-110) for three generators with rational coefficients *)
Definition symmetric_sos (p : poly K) (ineqs : list (poly K * ((nat -> K) -> K))) : res (option ((nat -> K) -> K)) :=
  if negb (is_homog p && is_sym3 p) then Ok None
  else
    match try_method p ineqs false with
    | Err e => Err e
    | Ok (Some v) => Ok (Some v)
    | Ok None =>
        if forallb (nonneg_index (map fst ineqs)) [0;1;2]%nat then try_method p ineqs true else Ok None
    end.
End Solver.
End Model.
