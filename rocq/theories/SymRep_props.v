(** * C31, C69: symmetric representations and SymmetricSOS *)
From Coq Require Import Bool List Arith Lia ZArith QArith Qcanon.
From Verif Require Import OrdField Base Poly PolyId PolyOps Expr Univariate Halfspace Bivariate PivotProve Cyclic CyclicRw Extract TriPoly SymRep SymRepFacts SymRepCert.
Import ListNotations.
Local Open Scope of_scope.

(** ** C31
    [pdiv] is the division with remainder, [pp] the form of the polynomial [p] in the elementary symmetric
    polynomials. *)
Definition division (K : OrdField) (pdiv : poly K -> poly K -> poly K * poly K) : Prop :=
  forall f g, Poly.wf 3 f -> Poly.wf 3 g -> Poly.wf 3 (fst (pdiv f g)) /\
  forall x, peval x f = peval x (fst (pdiv f g)) * peval x g + peval x (snd (pdiv f g)).
Definition elementary_form (K : OrdField) (pp p : poly K) : Prop :=
  Poly.wf 3 pp /\ (exists d, forall m, In m (keys pp) -> (nth 0 m 0 + 2 * nth 1 m 0 + 3 * nth 2 m 0)%nat = d) /\
  forall a b c : K, peval (pt3 (a + b + c) (a * b + b * c + c * a) (a * b * c)) pp = peval (pt3 a b c) p.

(** method 'real': the numerator at the new variables is the polynomial times the denominator *)
Theorem real_representation (K : OrdField) pdiv fuel (pp p num : poly K) pd wd :
  division K pdiv -> elementary_form K pp p -> transform_real pdiv fuel pp = (num, pd, wd) ->
  forall a b c : K,
  let s := a + b + c in
  let w := ((a - b) ^ 2 + (b - c) ^ 2 + (c - a) ^ 2) / 2 in
  s <> 0 -> (a - b) ^ 2 + (b - c) ^ 2 + (c - a) ^ 2 <> 0 ->
  peval (pt3 (s * w) ((2 * a - b - c) * (2 * b - c - a) * (2 * c - a - b) / 2) (fnat 27 / 4 * ((a - b) * (b - c) * (c - a)) ^ 2)) num
  = zpow s pd * zpow w wd * peval (pt3 a b c) p.
Proof. exact (real_identity K pdiv fuel pp p num pd wd). Qed.
Print Assumptions real_representation.

(** method 'positive' *)
Theorem positive_representation (K : OrdField) pdiv fuel (pp p num : poly K) pd wd :
  division K pdiv -> elementary_form K pp p -> transform_pos pdiv fuel pp = (num, pd, wd) ->
  forall a b c : K,
  let s := a + b + c in
  let x := a * (a - b) * (a - c) + b * (b - c) * (b - a) + c * (c - a) * (c - b) in
  let y := a * (b - c) ^ 2 + b * (c - a) ^ 2 + c * (a - b) ^ 2 in
  s <> 0 -> a * b * c <> 0 -> x <> 0 -> y <> 0 ->
  peval (pt3 x y (((a - b) * (b - c) * (c - a)) ^ 2 * s ^ 3 / (a * b * c))) num
  = zpow s pd * zpow (x * y ^ 2 / (a * b * c)) wd * peval (pt3 a b c) p.
Proof. exact (pos_identity K pdiv fuel pp p num pd wd). Qed.
Print Assumptions positive_representation.

(** The expressions put in for the new variables have these values, and those with a default constraint
    are non-negative: z at every real point, all three at every positive point. *)
Theorem inverse_substitution_values (K : OrdField) (r : nat -> K) :
  let a := r 0%nat in let b := r 1%nat in let c := r 2%nat in
  let s := a + b + c in
  let D := ((a - b) * (b - c) * (c - a)) ^ 2 in
  let Sc := a * (a - b) * (a - c) + b * (b - c) * (b - a) + c * (c - a) * (c - b) in
  (cev noI (inv_real 3) r = s * (((a - b) ^ 2 + (b - c) ^ 2 + (c - a) ^ 2) / 2) /\
   cev noI (inv_real 4) r = (2 * a - b - c) * (2 * b - c - a) * (2 * c - a - b) / 2 /\
   cev noI (inv_real 5) r = fnat 27 / 4 * D /\ 0 <= cev noI (inv_real 5) r) /\
  (s <> 0 -> a * b * c <> 0 ->
   cev noI (inv_pos 3) r = Sc /\ cev noI (inv_pos 4) r = a * (b - c) ^ 2 + b * (c - a) ^ 2 + c * (a - b) ^ 2 /\
   cev noI (inv_pos 5) r = D * s ^ 3 / (a * b * c)) /\
  (0 < a -> 0 < b -> 0 < c -> 0 <= cev noI (inv_pos 3) r /\ 0 <= cev noI (inv_pos 4) r /\ 0 <= cev noI (inv_pos 5) r).
Proof. exact (inverse_values K r). Qed.
Print Assumptions inverse_substitution_values.

(** The certificate built from any exact proof [s] of the numerator equals the polynomial at every point
    where none of its denominators vanishes. *)
Theorem symmetric_certificate_exact (K : OrdField) pdiv fuel (pp p num : poly K) pd wd (s : ex K) nn g (positive : bool) :
  division K pdiv -> elementary_form K pp p -> Poly.wf 3 p ->
  (if positive then transform_pos pdiv fuel pp else transform_real pdiv fuel pp) = (num, pd, wd) ->
  (forall r : nat -> K,
    (defined r s -> ev r s = peval (fun i => r (nth i [3;4;5]%nat 0%nat)) num /\ ((forall i, In i [3;4;5]%nat -> nn i = true -> 0 <= r i) -> 0 <= ev r s)) /\
    ((forall i, In i [3;4;5]%nat -> r i <> 0) -> defined r s)) ->
  forall r : nat -> K, let sol := if positive then sol_pos s pd wd else sol_real s pd wd in
  mdef noI g r r sol -> cev noI sol r = peval r p.
Proof. exact (certificate_exact K pdiv fuel pp p num pd wd s nn g positive). Qed.
Print Assumptions symmetric_certificate_exact.

(** ** C69 *)
(** SymmetricSOS. The oracles are the univariate prover, the factorisation of binary forms, the division and
    the elementary form of the goal; [g], [ok], [fuel], [hom_sym] are arbitrary.  Hypothesis on the constraints:
    the recorded expressions have the values of the constraints, and those that are monomials in a single
    symbol are linear.  Then the answer is the goal and is non-negative at every admissible point where no
    denominator can vanish, and the goal is non-negative at every admissible point.
    Missing for the full claim: non-linear monomial constraints (refuted below). *)
Theorem symmetric_sos_sound_partial (K : OrdField) uni fl hom_sym pdiv pqr fuel g ok (p : poly K) ineqs v :
  uni_exact K uni -> factors_forms K fl -> division K pdiv -> Poly.wf 3 p -> elementary_form K (pqr p) p ->
  (forall q w, In (q, w) ineqs ->
    (forall r, w r = peval r q) /\ (forall m k, In (m, k) q -> k <> 0) /\
    (forall m k i, q = [(m, k)] -> single_var m = Some i -> nth i m 0%nat = 1%nat)) ->
  symmetric_sos uni fl hom_sym pdiv pqr fuel g ok p ineqs = Ok (Some v) ->
  (forall r : nat -> K,
     let a := r 0%nat in let b := r 1%nat in let c := r 2%nat in
     a + b + c <> 0 -> (2 * a - b - c) * (2 * b - c - a) * (2 * c - a - b) <> 0 -> (a - b) * (b - c) * (c - a) <> 0 -> a * b * c <> 0 ->
     a * (a - b) * (a - c) + b * (b - c) * (b - a) + c * (c - a) * (c - b) <> 0 ->
     a * (b - c) ^ 2 + b * (c - a) ^ 2 + c * (a - b) ^ 2 <> 0 ->
     (forall q w, In (q, w) ineqs -> 0 <= peval r q) -> v r = peval r p /\ 0 <= v r) /\
  (forall r : nat -> K, (forall q w, In (q, w) ineqs -> 0 <= peval r q) -> 0 <= peval r p).
Proof. exact (symmetric_sos_spec K uni fl hom_sym pdiv pqr fuel g ok p ineqs v). Qed.
Print Assumptions symmetric_sos_sound_partial.

(** The test that selects 'positive': the variables it accepts are non-negative wherever the constraints hold. *)
Theorem nonnegative_vars_sound (K : OrdField) (ps : list (poly K)) (r : nat -> K) i :
  (forall q, In q ps -> 0 <= peval r q) -> (forall q m k, In q ps -> In (m, k) q -> length m = 3%nat /\ k <> 0) ->
  nonneg_index ps i = true -> 0 <= r i.
Proof. exact (nonneg_index_sound K ps r i). Qed.
Print Assumptions nonnegative_vars_sound.
Example nonnegative_vars_case : nonneg_index (K := QcOF) [[([0;1;0]%nat, q 3 1)]; [([1;0;0]%nat, q (-2) 1)]] 1 = true
  /\ nonneg_index (K := QcOF) [[([0;1;0]%nat, q 3 1)]; [([1;0;0]%nat, q (-2) 1)]] 0 = false.
Proof. split; vm_compute; reflexivity. Qed.

(** With no constraints, the new variables taken as non-negative are non-negative: at every real point for 'real',
    at every positive point for 'positive'. *)
Theorem new_variable_signs_sound (K : OrdField) pdiv pqr fuel (positive : bool) s (r : nat -> K) :
  (positive = true -> 0 < r 0%nat /\ 0 < r 1%nat /\ 0 < r 2%nat) ->
  new_nonneg (K := K) pdiv pqr fuel positive [] s = true -> 0 <= cev noI (if positive then inv_pos s else inv_real s) r.
Proof. exact (new_nonneg_default K pdiv pqr fuel positive s r). Qed.
Print Assumptions new_variable_signs_sound.
Example new_variable_signs_case :
  map (new_nonneg (K := QcOF) (fun a _ => (a, [])) (fun a => a) 0 false []) [3;4;5]%nat = [false; false; true] /\
  map (new_nonneg (K := QcOF) (fun a _ => (a, [])) (fun a => a) 0 true []) [3;4;5]%nat = [true; true; true].
Proof. split; reflexivity. Qed.

(** Whatever the oracles do, an answer is given only for homogeneous symmetric polynomials. *)
Theorem symmetric_sos_answers_symmetric_forms (K : OrdField) uni fl hom_sym pdiv pqr fuel g ok (p : poly K) ineqs v : Poly.wf 3 p ->
  symmetric_sos uni fl hom_sym pdiv pqr fuel g ok p ineqs = Ok (Some v) ->
  (exists d, forall m, In m (keys p) -> list_sum m = d) /\
  (forall a b c : K, peval (pt3 b c a) p = peval (pt3 a b c) p) /\ (forall a b c : K, peval (pt3 b a c) p = peval (pt3 a b c) p).
Proof. exact (symmetric_sos_domain K uni fl hom_sym pdiv pqr fuel g ok p ineqs v). Qed.
Print Assumptions symmetric_sos_answers_symmetric_forms.

(** ** Concrete cases *)
Definition var (i : nat) : poly QcOF * ((nat -> QcOF) -> QcOF) := ([(map (fun j => if Nat.eqb i j then 1 else 0)%nat [0;1;2]%nat, 1)], fun r => r i).
Definition solve (q : poly QcOF) (pp p : poly QcOF) ineqs :=
  symmetric_sos (uni_small QcOF) (fl_one QcOF) (fun _ => 99%nat) (pdiv_known QcOF q) (fun _ => pp) 5 7 (fun _ => true) p ineqs.
Definition value_at (a : res (option ((nat -> QcOF) -> QcOF))) (r : nat -> QcOF) : option Q :=
  match a with Ok (Some v) => Some (this (v r)) | _ => None end.
Definition p124 : nat -> QcOF := pt3 1 2 4.
Definition xmon : poly QcOF := [([1;0;0]%nat, 1)].
Definition onep : poly QcOF := [([0;0;0]%nat, 1)].
(** Schur's inequality of degree three, by 'positive': the numerator is x. Without the constraints no answer *)
Example schur_solved : value_at (solve xmon (schur_pqr QcOF) (schur QcOF) [var 0; var 1; var 2]) p124 = Some (23 # 1)%Q.
Proof. vm_compute. reflexivity. Qed.
Example schur_unsolved : value_at (solve xmon (schur_pqr QcOF) (schur QcOF) [var 0; var 1]) p124 = None.
Proof. vm_compute. reflexivity. Qed.
(** a^2+b^2+c^2-ab-bc-ca by 'real' *)
Example dist2_solved : value_at (solve onep (dist2_pqr QcOF) (dist2 QcOF) []) p124 = Some (7 # 1)%Q.
Proof. vm_compute. reflexivity. Qed.
Example oracles_meet_hypotheses :
  division QcOF (pdiv_known QcOF xmon) /\ elementary_form QcOF (schur_pqr QcOF) (schur QcOF) /\ Poly.wf 3 (schur QcOF) /\
  uni_exact QcOF (uni_small QcOF) /\ factors_forms QcOF (fl_one QcOF).
Proof.
  split; [apply (pdiv_known_exact QcOF xmon); apply (keys3 QcOF); [reflexivity|repeat constructor; intros []]|].
  split; [exact (schur_exact QcOF)|]. split; [exact (schur_wf QcOF)|]. exact (conj (uni_small_exact QcOF) (fl_one_forms QcOF)).
Qed.

(** ** Refutations *)
(** The constraints a^3 >= 0, b^3 >= 0, c^3 >= 0 give for the goal a + b + c the answer a^3 + b^3 + c^3
    (symsos.py:94 does not look at the degree of the monomial): 73 instead of 7 at (1, 2, 4). *)
Definition cube (i : nat) : poly QcOF * ((nat -> QcOF) -> QcOF) := ([(map (fun j => if Nat.eqb i j then 3 else 0)%nat [0;1;2]%nat, 1)], fun r => r i ^ 3).
Theorem symmetric_sos_cube_constraints_refuted :
  value_at (solve onep (sum1_pqr QcOF) (sum1 QcOF) [cube 0; cube 1; cube 2]) p124 = Some (73 # 1)%Q /\
  this (peval p124 (sum1 QcOF)) = (7 # 1)%Q.
Proof. split; vm_compute; reflexivity. Qed.
Print Assumptions symmetric_sos_cube_constraints_refuted.
(** The denominator of 'real' is not non-negative (representation.py:33-35 says it is): for a + b + c it is
    (a + b + c)^(-1) *)
Theorem real_denominator_sign_refuted :
  (match transform_real (pdiv_known QcOF onep) 5 (sum1_pqr QcOF) with (num, pd, wd) => (length num, pd, wd) end) = (1%nat, (-1)%Z, 0%Z) /\
  fltb (zpow (1 + 2 + - (4) : QcOF) (-1) * zpow (((1 - 2) ^ 2 + (2 + 4) ^ 2 + (- (4) - 1) ^ 2) / 2) 0) 0 = true.
Proof. split; vm_compute; reflexivity. Qed.
Print Assumptions real_denominator_sign_refuted.
(** For the same reason a symmetric constraint gives a wrong sign to a new variable: from
    (a+b+c)(2a-b-c)(2b-c-a)(2c-a-b) >= 0 the variable y is taken as non-negative, but at (-1, -2, -4) the constraint
    holds and y = -10 *)
Theorem constraint_transform_sign_refuted :
  new_nonneg (pdiv_known QcOF [([0;1;0]%nat, 2)]) (fun _ => sumT_pqr QcOF) 5 false [(sumT QcOF, fun r => peval r (sumT QcOF))] 4 = true /\
  fltb (peval (pt3 (- (1)) (- (2)) (- (4))) (sumT QcOF)) 0 = false /\
  fltb (cev noI (inv_real 4) (pt3 (- (1)) (- (2)) (- (4)) : nat -> QcOF)) 0 = true.
Proof. repeat split; vm_compute; reflexivity. Qed.
Print Assumptions constraint_transform_sign_refuted.
