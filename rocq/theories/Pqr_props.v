(** * Properties of the representations in p, q, r (C81) *)
From Coq Require Import Bool List Arith ZArith QArith Qcanon.
From Verif Require Import OrdField Base Perm Poly PolyOps Expr TriPoly Pqr PqrSym PqrUniq PqrDiv PqrMain.
Import ListNotations.
Local Open Scope of_scope.

(** The answer of [pqr_sym] is the polynomial in the elementary symmetric functions, and the only one. *)
Theorem pqr_sym_exact (K : OrdField) (sy : nat -> poly K -> poly K * poly K) n symbols (p f : poly K) :
  symmetrize_ok sy n -> wf n p -> pqr_sym sy n symbols p = Ok f ->
  wf n f /\ (forall x : nat -> K, peval x p = peval (epoint n x) f) /\
  forall f', wf n f' -> (forall x : nat -> K, peval x p = peval (epoint n x) f') -> forall m, coef f m = coef f' m.
Proof. exact (pqr_sym_ok K sy n symbols p f). Qed.
Print Assumptions pqr_sym_exact.

(** It answers exactly the symmetric polynomials with as many symbols as variables, otherwise it raises ValueError. *)
Theorem pqr_sym_answers_iff (K : OrdField) (sy : nat -> poly K -> poly K * poly K) n symbols (p : poly K) :
  symmetrize_ok sy n -> wf n p ->
  ((exists f, pqr_sym sy n symbols p = Ok f) <-> match symbols with None => n = 3%nat | Some k => n = k end /\ symmetric n p) /\
  ((exists f, pqr_sym sy n symbols p = Ok f) \/ pqr_sym sy n symbols p = Err ValueError).
Proof. exact (pqr_sym_answers K sy n symbols p). Qed.
Print Assumptions pqr_sym_answers_iff.

(** The answer of [pqr_cyc]: P = f(p,q,r) + (a-b)(b-c)(c-a) g(p,q,r), and the pair is unique. *)
Theorem pqr_cyc_exact (K : OrdField) (sy : nat -> poly K -> poly K * poly K) dv n symbols (p f g : poly K) :
  symmetrize_ok sy 3 -> div_ok dv alternant -> wf n p -> pqr_cyc sy dv n symbols p = Ok (f, g) ->
  (forall A B C : K, let P := pt3 (A + B + C) (A * B + B * C + C * A) (A * B * C) in
     peval (pt3 A B C) p = peval P f + (A - B) * (B - C) * (C - A) * peval P g) /\
  (forall f' g', wf 3 f' -> wf 3 g' ->
     (forall A B C : K, let P := pt3 (A + B + C) (A * B + B * C + C * A) (A * B * C) in
        peval (pt3 A B C) p = peval P f' + (A - B) * (B - C) * (C - A) * peval P g') ->
     (forall m, coef f m = coef f' m) /\ forall m, coef g m = coef g' m).
Proof.
  intros Hs Hd W H. destruct (pqr_cyc_ok K sy dv Hs Hd n symbols p f g W H) as (_ & Wf & Wg & V). split; [exact V|].
  intros f' g' Wf' Wg' V'. apply (pair_unique K f g f' g' Wf Wg Wf' Wg'). intros A B C. exact (eq_trans (eq_sym (V A B C)) (V' A B C)).
Qed.
Print Assumptions pqr_cyc_exact.

(** It answers exactly the cyclic polynomials in three variables, otherwise it raises ValueError. *)
Theorem pqr_cyc_answers_iff (K : OrdField) (sy : nat -> poly K -> poly K * poly K) dv n symbols (p : poly K) :
  symmetrize_ok sy 3 -> div_ok dv alternant -> wf n p ->
  ((exists s, pqr_cyc sy dv n symbols p = Ok s) <->
     (n = 3%nat /\ match symbols with None => True | Some k => k = 3%nat end) /\ forall A B C : K, peval (pt3 A B C) p = peval (pt3 B C A) p) /\
  ((exists s, pqr_cyc sy dv n symbols p = Ok s) \/ pqr_cyc sy dv n symbols p = Err ValueError).
Proof. intros Hs Hd. exact (pqr_cyc_answers K sy dv Hs Hd n symbols p). Qed.
Print Assumptions pqr_cyc_answers_iff.

(** [pqr_ker] is the square of the alternating product. *)
Theorem pqr_ker_exact (K : OrdField) (A B C : K) :
  ev (pt3 (A + B + C) (A * B + B * C + C * A) (A * B * C)) pqr_ker = ((A - B) * (B - C) * (C - A)) ^ 2.
Proof. exact (pqr_ker_val K A B C). Qed.
Print Assumptions pqr_ker_exact.

(** The two functions of sympy that the hypotheses describe exist, for every number of variables: the
    reduction of symmetric polynomials and the division by the alternating product. *)
Theorem pqr_hypotheses_met (K : OrdField) : (forall n, symmetrize_ok (symmetrize_ref (K := K)) n) /\ div_ok (div_ref (K := K)) alternant.
Proof. split; [exact (symmetrize_ref_ok K)|exact (div_ref_ok K)]. Qed.
Print Assumptions pqr_hypotheses_met.

(** Non-vacuity: a^2 b + b^2 c + c^2 a = (pq - 3r)/2 - (a-b)(b-c)(c-a)/2, and a^2 b alone is refused. *)
Definition ex_cyc : poly QcOF := [([2; 1; 0]%nat, q 1 1); ([0; 2; 1]%nat, q 1 1); ([1; 0; 2]%nat, q 1 1)].
Definition same_coefs (f : poly QcOF) (l : list (list nat * QcOF)) : bool :=
  (Nat.eqb (length f) (length l) && forallb (fun t => feqb (coef f (fst t)) (snd t)) l)%bool.
Example pqr_cyc_example :
  match pqr_cyc symmetrize_ref div_ref 3 None ex_cyc with
  | Ok (f, g) => (same_coefs f [([1; 1; 0]%nat, q 1 2); ([0; 0; 1]%nat, q (-3) 2)] && same_coefs g [([0; 0; 0]%nat, q (-1) 2)])%bool
  | Err _ => false
  end = true.
Proof. vm_compute. reflexivity. Qed.
Example pqr_cyc_refused : pqr_cyc symmetrize_ref div_ref 3 None ([([2; 1; 0]%nat, q 1 1)] : poly QcOF) = Err ValueError.
Proof. vm_compute. reflexivity. Qed.
(** with four variables: x1^2 + ... + x4^2 = s1^2 - 2 s2 *)
Example pqr_sym_example :
  match pqr_sym symmetrize_ref 4 (Some 4%nat) ([([2; 0; 0; 0]%nat, q 1 1); ([0; 2; 0; 0]%nat, q 1 1); ([0; 0; 2; 0]%nat, q 1 1); ([0; 0; 0; 2]%nat, q 1 1)] : poly QcOF) with
  | Ok f => same_coefs f [([2; 0; 0; 0]%nat, q 1 1); ([0; 1; 0; 0]%nat, q (-2) 1)]
  | Err _ => false
  end = true.
Proof. vm_compute. reflexivity. Qed.
