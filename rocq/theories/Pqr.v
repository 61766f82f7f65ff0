(** * Symmetric and cyclic polynomials in p, q, r (triples/utils/expression/pqr.py) *)
From Coq Require Import Bool List Arith Lia ZArith.
From Verif Require Import OrdField Base Perm Poly PolyId PolyOps Expr TriPoly Septic.
Import ListNotations.

Section Model.
Context {K : OrdField}.
Local Open Scope of_scope.

(** [sp.symmetrize(expr, gens, formal=True)] (pqr.py:48): for [n] generators the polynomial in the formal
    symbols (s1, ..., sn) and the remainder; the [rule] lists the symbols in order *)
Variable symmetrize : nat -> poly K -> poly K * poly K.
(** [Poly.div] (pqr.py:89): quotient and remainder *)
Variable div : poly K -> poly K -> poly K * poly K.

(** [g != 0] (pqr.py:49) and [is_zero] (pqr.py:92) *)
Definition pzero (p : poly K) : bool := forallb (fun t => snd t =? 0) p.
(** [pqr_sym] (pqr.py:13-53); [n] is the number of generators and [symbols] the number of the
    symbols given. The result is a polynomial in the symbols, in the given order. *)
Definition pqr_sym (n : nat) (symbols : option nat) (p : poly K) : res (poly K) :=
  match symbols with
  | None => if Nat.eqb n 3 then let (f, g) := symmetrize n p in if pzero g then Ok f else Err ValueError else Err ValueError
  | Some k => if Nat.eqb n k then let (f, g) := symmetrize n p in if pzero g then Ok f else Err ValueError else Err ValueError
  end.
(** [sp.Poly.new(poly.reorder(b,a,c).rep,a,b,c)] (pqr.py:88-89) *)
Definition swap_ab (p : poly K) : poly K := map (fun t => (match fst t with [i; j; k] => [j; i; k] | m => m end, snd t)) p.
(** [/2] (pqr.py:88-89) *)
Definition half (p : poly K) : poly K := map (fun t => (fst t, snd t / (1 + 1))) p.
(** [((a-b)*(b-c)*(c-a)).as_poly(a,b,c)] (pqr.py:90) *)
Definition alternant : poly K := expand ((EX 0 - EX 1) * (EX 1 - EX 2) * (EX 2 - EX 0))%E.
(** [pqr_cyc] (pqr.py:56-98). Unpacking a list of symbols of another length than three raises
    [ValueError] (pqr.py:87). *)
Definition pqr_cyc (n : nat) (symbols : option nat) (p : poly K) : res (poly K * poly K) :=
  if negb (Nat.eqb n 3) then Err ValueError
  else if match symbols with Some k => negb (Nat.eqb k 3) | None => false end then Err ValueError
  else
    let f0 := half (padd p (swap_ab p)) in
    let (quo, rem) := div (half (padd p (pneg (swap_ab p)))) alternant in
    if negb (pzero rem) then Err ValueError
    else
      match pqr_sym 3 (Some 3%nat) f0 with
      | Err e => Err e
      | Ok s0 => match pqr_sym 3 (Some 3%nat) quo with Err e => Err e | Ok s1 => Ok (s0, s1) end
      end.
(** [pqr_ker] (pqr.py:101-108); the symbols p, q, r are the variables 0, 1, 2 *)
Definition pqr_ker : ex K :=
  let p := EX 0 in let q := EX 1 in let r := EX 2 in
  (EC (- fbin 4) * p ^ 3 * r + p ^ 2 * q ^ 2 + EC (fbin 18) * p * q * r - EC (fbin 4) * q ^ 3 - EC (fbin 27) * r ^ 2)%E.
End Model.

(** ** Specification: the elementary symmetric functions *)
Section Spec.
Context {K : OrdField}.
Local Open Scope of_scope.
Fixpoint esl (l : list K) (k : nat) : K :=
  match k with
  | O => 1
  | S k' => match l with [] => 0 | x :: l' => esl l' k + x * esl l' k' end
  end.
(** the point (e1, ..., en) at x *)
Definition epoint (n : nat) (x : nat -> K) (i : nat) : K := esl (map x (seq 0 n)) (S i).
Definition symmetric (n : nat) (p : poly K) : Prop :=
  forall g, is_perm n g -> forall x : nat -> K, peval (fun i => x (nth i g 0%nat)) p = peval x p.
(** what is used of [sp.symmetrize] *)
Definition symmetrize_ok (symmetrize : nat -> poly K -> poly K * poly K) (n : nat) : Prop :=
  forall p, wf n p -> wf n (fst (symmetrize n p)) /\ wf n (snd (symmetrize n p)) /\
    (forall x : nat -> K, peval x p = peval (epoint n x) (fst (symmetrize n p)) + peval x (snd (symmetrize n p))) /\
    (symmetric n p -> forall x : nat -> K, peval x (snd (symmetrize n p)) = 0).
(** what is used of [Poly.div] *)
Definition div_ok (div : poly K -> poly K -> poly K * poly K) (d : poly K) : Prop :=
  forall p, wf 3 p -> wf 3 (fst (div p d)) /\ wf 3 (snd (div p d)) /\
    (forall x : nat -> K, peval x p = peval x (fst (div p d)) * peval x d + peval x (snd (div p d))) /\
    ((exists s, wf 3 s /\ forall x : nat -> K, peval x p = peval x s * peval x d) -> forall x : nat -> K, peval x (snd (div p d)) = 0).
End Spec.
