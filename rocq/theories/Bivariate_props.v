(** * C47: homogeneous polynomials in two variables *)
From Coq Require Import Bool List Arith Lia ZArith QArith Qcanon.
From Verif Require Import OrdField Base Perm Poly PolyId Coeff Expr Halfspace Univariate UnivariateLemmas Bivariate.
Import ListNotations.
Local Open Scope of_scope.

(** C47, one factor.  For every univariate prover that is exact, every constraint set and every
    homogeneous polynomial, the certificate has the value of the polynomial and is non-negative at
    every point where the constraints hold.  With at least one kept bound and positive degree it is
    defined at all of these points: the exponents of the denominators cancel. *)
Theorem bivariate_factor_exact (K : OrdField) (uni : bool -> list K -> res (option (wsos K * wsos K))) d (p : poly K) (ineqs : list (poly K * ex K)) (x : nat -> K) e :
  (forall half f w1 w2, uni half f = Ok (Some (w1, w2)) ->
     (forall t, In t w1 -> 0 <= fst t) /\ (forall t, In t w2 -> 0 <= fst t) /\
     forall y, ueval f y = weval w1 y + (if half then y * weval w2 y else 0)) ->
  wf 2 p -> (forall m, In m (keys p) -> list_sum m = d) ->
  (forall g s, In (g, s) ineqs -> wf 2 g /\ (is_linear2 g = true -> coef g [0;0]%nat = 0)) ->
  (forall g s, In (g, s) ineqs -> defined x s /\ ev x s = peval x g) ->
  biv_linear uni d p ineqs = Ok (Some e) ->
  (stored (hs_run (bounds ineqs)) <> [] -> (0 < d)%nat -> defined x e) /\
  (defined x e -> ev x e = peval x p /\ ((forall g s, In (g, s) ineqs -> 0 <= peval x g) -> 0 <= ev x e)).
Proof. exact (fun Hu => biv_linear_lemma K uni Hu d p ineqs x e). Qed.
Print Assumptions bivariate_factor_exact.

(** C47: the product over the factors. *)
Theorem structural_2vars_exact (K : OrdField) (uni : bool -> list K -> res (option (wsos K * wsos K))) (fl : K * list (poly K * nat)) (p : poly K) (ineqs : list (poly K * ex K)) e :
  (forall half f w1 w2, uni half f = Ok (Some (w1, w2)) ->
     (forall t, In t w1 -> 0 <= fst t) /\ (forall t, In t w2 -> 0 <= fst t) /\
     forall y, ueval f y = weval w1 y + (if half then y * weval w2 y else 0)) ->
  (forall x, peval x p = fst fl * OrdField.fprod (map (fun fm => peval x (fst fm) ^ snd fm) (snd fl))) ->
  (forall (f : poly K) m, In (f, m) (snd fl) -> wf 2 f /\ forall k, In k (keys f) -> list_sum k = hom_order f) ->
  (forall g s, In (g, s) ineqs -> wf 2 g /\ (is_linear2 g = true -> coef g [0;0]%nat = 0)) ->
  structural_sos_2vars uni fl ineqs = Ok (Some e) ->
  forall x, (forall g s, In (g, s) ineqs -> defined x s /\ ev x s = peval x g) ->
  defined x e -> ev x e = peval x p /\ ((forall g s, In (g, s) ineqs -> 0 <= peval x g) -> 0 <= ev x e).
Proof. exact (fun Hu => structural_2vars_lemma K uni Hu fl p ineqs e). Qed.
Print Assumptions structural_2vars_exact.

(** C47: the answer is defined off the line where the second variable vanishes. *)
Theorem structural_2vars_is_defined (K : OrdField) (uni : bool -> list K -> res (option (wsos K * wsos K))) (fl : K * list (poly K * nat)) (ineqs : list (poly K * ex K)) e :
  (forall half f w1 w2, uni half f = Ok (Some (w1, w2)) ->
     (forall t, In t w1 -> 0 <= fst t) /\ (forall t, In t w2 -> 0 <= fst t) /\
     forall y, ueval f y = weval w1 y + (if half then y * weval w2 y else 0)) ->
  (forall (f : poly K) m, In (f, m) (snd fl) -> wf 2 f /\ (forall k, In k (keys f) -> list_sum k = hom_order f) /\ (0 < hom_order f)%nat) ->
  (forall g s, In (g, s) ineqs -> wf 2 g /\ (is_linear2 g = true -> coef g [0;0]%nat = 0)) ->
  structural_sos_2vars uni fl ineqs = Ok (Some e) ->
  forall x, (forall g s, In (g, s) ineqs -> defined x s /\ ev x s = peval x g) -> x 1%nat <> 0 -> defined x e.
Proof. exact (fun Hu => structural_2vars_defined K uni Hu fl ineqs e). Qed.
Print Assumptions structural_2vars_is_defined.

(** C47 with the univariate prover of the code, under the size condition of C44 (missing: without
    that condition the univariate prover itself is wrong, see [prove_univariate_exact_refuted]). *)
Theorem structural_2vars_exact_partial (K : OrdField) rds num ufl (fl : K * list (poly K * nat)) (p : poly K) (ineqs : list (poly K * ex K)) e :
  (forall g x, ueval g x = fst (ufl g) * OrdField.fprod (map (fun gm => ueval (fst gm) x ^ snd gm) (snd (ufl g)))) ->
  (forall g h m, In (h, m) (snd (ufl g)) -> aligned K rds (num h) h) ->
  (forall x, peval x p = fst fl * OrdField.fprod (map (fun fm => peval x (fst fm) ^ snd fm) (snd fl))) ->
  (forall (f : poly K) m, In (f, m) (snd fl) -> wf 2 f /\ forall k, In k (keys f) -> list_sum k = hom_order f) ->
  (forall g s, In (g, s) ineqs -> wf 2 g /\ (is_linear2 g = true -> coef g [0;0]%nat = 0)) ->
  structural_sos_2vars (uni_of K rds num ufl) fl ineqs = Ok (Some e) ->
  forall x, (forall g s, In (g, s) ineqs -> defined x s /\ ev x s = peval x g) ->
  defined x e -> ev x e = peval x p /\ ((forall g s, In (g, s) ineqs -> 0 <= peval x g) -> 0 <= ev x e).
Proof.
  exact (fun Hf Ha => structural_2vars_lemma K _ (uni_of_exact K rds num ufl Hf Ha) fl p ineqs e).
Qed.
Print Assumptions structural_2vars_exact_partial.

(** ** Failures *)
Definition z (n : Z) : QcOF := q n 1.
(** Two opposite constraints make the determinant 0, and the substitution divides by it
    (bivariate.py:178); the model raises, whatever polynomial is asked for. *)
Theorem bivariate_opposite_raises (uni : bool -> list QcOF -> res (option (wsos QcOF * wsos QcOF))) d (p : poly QcOF) :
  biv_linear uni d p [([([1;0]%nat, z 1)], EX 0); ([([1;0]%nat, z (-1))], EMul (EC (z (-1))) (EX 0))] = Err ZeroDivisionError.
Proof. reflexivity. Qed.
Print Assumptions bivariate_opposite_raises.

(** ** Concrete cases *)
Definition lin_ab : poly QcOF := [([1;0], z 1); ([0;1], z 1)]%nat.
Definition quad_ab : poly QcOF := [([2;0], z 1); ([1;1], z (-1)); ([0;2], z 1)]%nat.
Definition a_pos : poly QcOF := [([1;0], z 1)]%nat.
Definition b_pos : poly QcOF := [([0;1], z 1)]%nat.
Definition found (r : res (option (ex QcOF))) : bool := match r with Ok (Some _) => true | _ => false end.
(** a^3 + b^3 = (a + b)(a^2 - ab + b^2) with a, b >= 0, no constraint for the second factor alone, and
    (a + b)(a^2 - ab + b^2) with a + b >= 0 *)
Example cube_two_bounds : found (structural_sos_2vars (uni_small QcOF) (z 1, [(lin_ab, 1%nat); (quad_ab, 1%nat)]) [(a_pos, EX 0); (b_pos, EX 1)]) = true.
Proof. vm_compute. reflexivity. Qed.
Example quad_no_bound : found (structural_sos_2vars (uni_small QcOF) (z 1, [(quad_ab, 1%nat)]) []) = true.
Proof. vm_compute. reflexivity. Qed.
Example negative_factor : found (structural_sos_2vars (uni_small QcOF) (z (-1), [(popp quad_ab, 3%nat)]) [(a_pos, EX 0)]) = true.
Proof. vm_compute. reflexivity. Qed.
Example small_prover_exact : forall half f w1 w2, uni_small QcOF half f = Ok (Some (w1, w2)) ->
  (forall t, In t w1 -> 0 <= fst t) /\ (forall t, In t w2 -> 0 <= fst t) /\
  forall y, ueval f y = weval w1 y + (if half then y * weval w2 y else 0).
Proof. exact (uni_small_exact QcOF). Qed.
Example hypotheses_met : forall g s, In (g, s) [(a_pos, EX 0); (b_pos, EX (K := QcOF) 1)] ->
  wf 2 g /\ (is_linear2 g = true -> coef g [0;0]%nat = 0).
Proof.
  intros g s [E|[E|[]]]; inversion E; subst; (split; [split; [repeat constructor; intros []|intros m [<-|[]]; reflexivity]|reflexivity]).
Qed.
