(** * The heuristic method for sparse cyclic forms
    (triples/core/structsos/ternary/sparse.py:438-484 and 655-825) *)
From Coq Require Import Bool List Arith Lia ZArith.
From Verif Require Import OrdField Base Perm Poly Monomials PolyOps Coeff Expr Univariate Schur Amgm.
From Verif Require Sparse.
Import ListNotations.

Section Model.
Context {K : OrdField}.
Local Open Scope of_scope.

Let a : ex K := EX 0.
Let b : ex K := EX 1.
Let c : ex K := EX 2.

(** The dictionary of a [Coeff] is sorted in decreasing order: by [Poly.terms] and by
    [Coeff.__operator__] (coeff.py:200). The order of [coeff.coeffs.items()] is restored here by a
    sort, because the other parts of the model do not keep it. *)
Fixpoint insert_desc (t : list nat * K) (l : poly K) : poly K :=
  match l with
  | [] => [t]
  | u :: l' => match lex_cmp (fst t) (fst u) with Lt => u :: insert_desc t l' | _ => t :: u :: l' end
  end.
Fixpoint sort_desc (p : poly K) : poly K := match p with [] => [] | t :: p' => insert_desc t (sort_desc p') end.

(** a key as three numbers *)
Definition k1 (t : list nat * K) : nat := nth 0 (fst t) 0%nat.
Definition k2 (t : list nat * K) : nat := nth 1 (fst t) 0%nat.

(** the two borders (sparse.py:693-706): entries of [l] up to the first one with another first
    exponent, without zero coefficients *)
Fixpoint take_first (i : nat) (l : poly K) : list (nat * K) :=
  match l with
  | [] => []
  | t :: l' => if Nat.eqb (k1 t) i then (if snd t =? 0 then take_first i l' else (k2 t, snd t) :: take_first i l') else []
  end.
Definition border1 (l : poly K) : list (nat * K) := rev (take_first 0 (rev l)).
Definition border2 (i0 : nat) (l : poly K) : list (nat * K) := take_first i0 l.

(** [sp.Poly.from_dict(dict(border), gens = (x,))] (sparse.py:719), degree at most [d] *)
Definition border_poly (d : nat) (l : list (nat * K)) : list K := from_dict (S d) l.
(** [_raw_to_expr] (pivoting/univariate.py:577-591) with [x] replaced by [e] *)
Definition wexpr (w : wsos K) (e : ex K) : ex K := Sparse.esum (map (fun t => EC (fst t) * eupoly (snd t) e ^ 2)%E w).
Definition uexpr (pq : wsos K * wsos K) (e : ex K) : ex K := (wexpr (fst pq) e + e * wexpr (snd pq) e)%E.

(** External parts: [sos_struct_dense_symmetric] (DenseSym.v), [_structural_sos_3vars_cyclic] with its
    wrapper (see [separate] below) and [prove_univariate] (Univariate.v). *)
Variable dense : poly K -> res (option (ex K)).
Variable rec : poly K -> res (option (ex K)).
Variable uni : list K -> res (option (wsos K * wsos K)).

(** all coefficients on a border (sparse.py:714-728); [together] keeps the value and is omitted *)
Definition border_answer (d : nat) (border : list (nat * K)) (wrap : wsos K * wsos K -> ex K) : res (option (ex K)) :=
  match uni (border_poly d border) with
  | Err x => Err x
  | Ok None => Ok None
  | Ok (Some pq) => Ok (Some (csum (wrap pq)))
  end.
Definition border1_expr (d : nat) (pq : wsos K * wsos K) : ex K := (uexpr pq (a / b) * b ^ d)%E.
Definition border2_expr (d i0 : nat) (pq : wsos K * wsos K) : ex K := (uexpr pq (b / c) * a ^ i0 * c ^ (d - i0))%E.

(** the gaps (sparse.py:738-756); [None] stands for -1. The borders are decreasing, so that the
    subtractions of natural numbers are exact. *)
Definition gaps (l : list (nat * K)) (target : nat) : option (nat * nat) :=
  if Nat.leb 3 (length l) then
    let t0 := fst (nth 0 l (0%nat, 0)) in
    let t1 := fst (nth 1 l (0%nat, 0)) in
    let t2 := fst (nth (length l - 2) l (0%nat, 0)) in
    if Nat.eqb (t1 + t2) target then Some (t0 - t1, t0 - t2)%nat else None
  else Some (0, 0)%nat.

(** the forms to be subtracted, in the order in which they are tried, each with its expression
    (sparse.py:759-805) *)
Definition try_p (n r m s : nat) (v : K) : poly K * ex K := (pnrms_coeff n r m s v, pnrms_expr n r m s v).
Definition try_h (n : Z) (m r : nat) (v : K) : poly K * ex K := (hnmr_coeff n m r v, hnmr_expr n m r v).
Definition tries_both (g1 g2 : nat * nat) (c0 : K) : list (poly K * ex K) :=
  let r := fst g2 in let s := snd g2 in
  [try_p (r + fst g1) r (s + snd g1) s c0; try_p (r + snd g1) r (s + fst g1) s c0].
Definition tries_first (d t0 : nat) (c0 : K) (r : nat) : list (poly K * ex K) :=
  let n := (Z.of_nat t0 - 2 * Z.of_nat r)%Z in
  let m := (d - t0)%nat in
  (if ((0 <=? n) && (Z.of_nat m <=? n + Z.of_nat r))%Z then [try_h n m r (if Nat.eqb m 0 then c0 / 2 else c0)] else []) ++
  (if (Nat.ltb r m && (Z.of_nat m <? n + Z.of_nat r)%Z)%bool then [try_p (2 * r) r (Z.to_nat n) (m - r) c0] else []).
Definition tries_second (d t0 : nat) (c0 : K) (r : nat) : list (poly K * ex K) :=
  let n := (Z.of_nat d - Z.of_nat t0 - Z.of_nat r)%Z in
  let m := (2 * Z.of_nat t0 - Z.of_nat d)%Z in
  if ((0 <=? n) && (0 <=? m))%Z then [try_h (- n) (Z.to_nat m) r (if (m =? 0)%Z then c0 / 2 else c0)] else [].
Definition tries (d t0 i0 : nat) (c0 : K) (b1 b2 : list (nat * K)) : list (poly K * ex K) :=
  match gaps b1 d, gaps b2 (d - i0) with
  | Some g1, Some g2 =>
      match Nat.eqb (fst g1) 0, Nat.eqb (fst g2) 0 with
      | false, false => tries_both g1 g2 c0
      | false, true => flat_map (tries_first d t0 c0) [fst g1; snd g1]
      | true, false => flat_map (tries_second d t0 c0) [fst g2; snd g2]
      | true, true => []
      end
  | _, _ => []
  end.
Fixpoint run_tries (p : poly K) (l : list (poly K * ex K)) : res (option (ex K)) :=
  match l with
  | [] => Ok None
  | (f, e) :: l' =>
      match rec (coeff_sub p f) with
      | Err x => Err x
      | Ok (Some s) => Ok (Some (s + e)%E)
      | Ok None => run_tries p l'
      end
  end.

(** the symmetric hexagon (sparse.py:731-806) *)
Definition hexagon (d i0 : nat) (p : poly K) (b1 b2 : list (nat * K)) : res (option (ex K)) :=
  match b1 with
  | [] => Err IndexError
  | (t0, c0) :: _ =>
      let (t1, c1) := last b1 (t0, c0) in
      if ((c0 <? 0) || (c1 <? 0))%bool then Ok None
      else if (Nat.eqb (t0 + t1) d && (c0 =? c1) && Nat.eqb i0 t0 && Nat.leb (length b1) 4 && Nat.leb (length b2) 4)%bool
      then run_tries p (tries d t0 i0 c0 b1 b2)
      else Ok None
  end.
Definition middle (d : nat) (l : list (nat * K)) : bool :=
  match l with [(t, _)] => Nat.eqb (t * 2) d | _ => false end.

(** [sos_struct_heuristic] (sparse.py:655-808) *)
Definition after_dense (d : nat) (p : poly K) : res (option (ex K)) :=
  if negb (coef p [d; 0; 0]%nat =? 0) then Ok None
  else
    let l := sort_desc p in
    match l with
    | [] => Err IndexError
    | t :: _ =>
        let z := last l t in
        if ((snd t <? 0) || (snd z <? 0) || negb (Nat.eqb (k1 z) 0))%bool then Ok None
        else
          let i0 := k1 t in
          let b1 := border1 l in
          let b2 := border2 i0 l in
          if middle d b1 then Ok None
          else if Nat.eqb (length b1 * 3) (length p) then border_answer d b1 (border1_expr d)
          else if Nat.eqb (length b2 * 3) (length p) then border_answer d b2 (border2_expr d i0)
          else hexagon d i0 p b1 b2
    end.
Definition sos_struct_heuristic (p : poly K) : res (option (ex K)) :=
  let d := coeff_degree p in
  if Nat.leb d 6 then Ok None
  else match dense p with
       | Ok None => after_dense d p
       | r => r
       end.

(** ** The wrapper of the recursion (sparse.py:436-484)
    Expressions are seen as sums, products and powers of opaque parts; [SCyc k] is
    [CyclicProduct(a**k)] ([CyclicProduct(a)] for k = 1). *)
Inductive sexpr : Type :=
| SOther (v : (nat -> K) -> K)
| SCyc (k : Z)
| SPow (x : sexpr) (n : Z)
| SMul (l : list sexpr)
| SAdd (l : list sexpr).
(** sympy drops factors 1 and writes a product of one factor as this factor *)
Definition sone (x : sexpr) : bool := match x with SMul [] => true | _ => false end.
Definition smul (l : list sexpr) : sexpr := match filter (fun x => negb (sone x)) l with [x] => x | l' => SMul l' end.
Definition spow (x : sexpr) (n : Z) : sexpr := if sone x then x else SPow x n.
(** [_extract_cyclic_prod] (sparse.py:443-464) *)
Fixpoint extract (x : sexpr) : Z * sexpr :=
  match x with
  | SCyc k => (k, SMul [])
  | SPow x n => let (d, r) := extract x in ((d * n)%Z, spow r n)
  | SMul l => (fold_right Z.add 0%Z (map fst (map extract l)), smul (map snd (map extract l)))
  | _ => (0%Z, x)
  end.
(** [_new_recursion] (sparse.py:466-478) *)
Definition separate (x : sexpr) : sexpr :=
  let (d, r) := extract x in
  match r with
  | SAdd l => SAdd (map (fun y => smul [SCyc (d + fst (extract y)); snd (extract y)]) l)
  | _ => x
  end.
(** value and denominators of such an expression *)
Fixpoint sval (env : nat -> K) (x : sexpr) : K :=
  match x with
  | SOther v => v env
  | SCyc k => let y := env 0%nat * env 1%nat * env 2%nat in if (0 <=? k)%Z then y ^ Z.to_nat k else 1 / y ^ Z.to_nat (- k)
  | SPow x n => let y := sval env x in if (0 <=? n)%Z then y ^ Z.to_nat n else 1 / y ^ Z.to_nat (- n)
  | SMul l => fprod (map (sval env) l)
  | SAdd l => fsum (map (sval env) l)
  end.
Fixpoint sdef (env : nat -> K) (x : sexpr) : Prop :=
  match x with
  | SOther _ | SCyc _ => True
  | SPow x n => sdef env x /\ ((n < 0)%Z -> sval env x <> 0)
  | SMul l | SAdd l => fold_right and True (map (sdef env) l)
  end.
End Model.
