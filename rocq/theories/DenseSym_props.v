(** * C71: dense symmetric ternary forms *)
From Coq Require Import Bool List Arith Lia ZArith QArith Qcanon Qround.
From Verif Require Import OrdField Base Perm Poly PolyId PolyOps Coeff Expr CertLimit TriPoly Monomials Univariate UnivariateLemmas.
From Verif Require Sparse.
From Verif Require Import SymDiv DenseSym DenseSymFacts DenseSymAxis DenseSymMain DenseSymTop DenseSymSub.
Import ListNotations.
Local Open Scope of_scope.


(** A returned certificate is the form wherever it is defined, is non-negative on the orthant, and
    therefore the form is non-negative on the whole orthant. The three contracts speak about the
    external parts: a univariate proof proves its polynomial, a certificate of a symmetric form of
    degree less than 8 is one, and the division is exact on the multiples of the divisor. *)
Theorem dense_symmetric_exact (K : OrdField) (uni : list K -> res (option (wsos K * wsos K))) (ternary : poly K -> res (option (ex K)))
    (pdiv : poly K -> poly K) (ffloor : K -> Z) (p : poly K) d e :
  uni_ok K uni -> ternary_ok K ternary -> pdiv_ok K pdiv ->
  wf 3 p -> homdeg d p -> sos_struct_dense_symmetric uni ternary pdiv ffloor p = Ok (Some e) ->
  (forall A B C, defined (pt3 A B C) e -> ev (pt3 A B C) e = peval (pt3 A B C) p) /\
  (forall A B C, 0 <= A -> 0 <= B -> 0 <= C -> defined (pt3 A B C) e -> 0 <= ev (pt3 A B C) e) /\
  (forall A B C, 0 <= A -> 0 <= B -> 0 <= C -> 0 <= peval (pt3 A B C) p).
Proof. exact (dense_symmetric_spec K uni ternary pdiv ffloor p d e). Qed.
Print Assumptions dense_symmetric_exact.

(** No exception is raised and the recursion ends, for every symmetric form without stored zeros. *)
Theorem dense_symmetric_total (K : OrdField) (uni : list K -> res (option (wsos K * wsos K))) (ternary : poly K -> res (option (ex K)))
    (pdiv : poly K -> poly K) (ffloor : K -> Z) (p : poly K) d :
  uni_ok K uni -> uni_total K uni -> ternary_total K ternary -> pdiv_ok K pdiv ->
  wf 3 p -> homdeg d p -> (forall m, In m (keys p) -> coef p m <> 0) ->
  exists o, sos_struct_dense_symmetric uni ternary pdiv ffloor p = Ok o.
Proof. exact (dense_symmetric_ends K uni ternary pdiv ffloor p d). Qed.
Print Assumptions dense_symmetric_total.

(** The claim of the docstring: two symmetric forms of the same degree with the same symmetric axis
    f(a,1,1) differ by a multiple of (a-b)^2 (b-c)^2 (c-a)^2. *)
Theorem equal_axis_difference (K : OrdField) (p1 p2 : poly K) d :
  wf 3 p1 -> wf 3 p2 -> homdeg d p1 -> homdeg d p2 ->
  is_cyclic 3 [[1; 2; 0]; [1; 0; 2]]%nat p1 = true -> is_cyclic 3 [[1; 2; 0]; [1; 0; 2]]%nat p2 = true ->
  (forall x, peval (pt3 x 1 1) p1 = peval (pt3 x 1 1) p2) ->
  exists q, wf 3 q /\ forall A B C,
    peval (pt3 A B C) p1 = peval (pt3 A B C) p2 + peval (pt3 A B C) q * ((A - B) * (A - B) * ((B - C) * (B - C)) * ((C - A) * (C - A))).
Proof. exact (equal_axis K p1 p2 d). Qed.
Print Assumptions equal_axis_difference.

(** The comments of [_subtractor1] and [_subtractor2]: non-negative on the orthant, and congruent
    modulo (a-b)^2 (b-c)^2 (c-a)^2 to s(a^n b^m c^m (a-b)(a-c)) and s(a^n b^m c^m (a-b)(a-c)(b+c)/2). *)
Theorem subtractor1_sound (K : OrdField) n m (e : ex K) : subtractor1 n m = Some e ->
  (forall A B C, 0 <= A -> 0 <= B -> 0 <= C -> 0 <= ev (pt3 A B C) e) /\
  exists q : poly K, wf 3 q /\ forall A B C, ev (pt3 A B C) e =
    (A ^ n * B ^ m * C ^ m * (A - B) * (A - C) + B ^ n * C ^ m * A ^ m * (B - C) * (B - A) + C ^ n * A ^ m * B ^ m * (C - A) * (C - B))
    + peval (pt3 A B C) q * ((A - B) * (A - B) * ((B - C) * (B - C)) * ((C - A) * (C - A))).
Proof. exact (subtractor1_comment K n m e). Qed.
Print Assumptions subtractor1_sound.
Theorem subtractor2_sound (K : OrdField) n m :
  (forall A B C : K, 0 <= A -> 0 <= B -> 0 <= C -> 0 <= ev (pt3 A B C) (subtractor2 n m)) /\
  exists q : poly K, wf 3 q /\ forall A B C, ev (pt3 A B C) (subtractor2 n m) =
    (A ^ n * B ^ m * C ^ m * (A - B) * (A - C) * ((B + C) / 2) + B ^ n * C ^ m * A ^ m * (B - C) * (B - A) * ((C + A) / 2)
     + C ^ n * A ^ m * B ^ m * (C - A) * (C - B) * ((A + B) / 2))
    + peval (pt3 A B C) q * ((A - B) * (A - B) * ((B - C) * (B - C)) * ((C - A) * (C - A))).
Proof. exact (subtractor2_comment K n m). Qed.
Print Assumptions subtractor2_sound.

(** The comment on the subtraction: whatever the exponent n, what remains is a multiple of (a-1)^4
    on the axis. The axis of the form is (a-1)^2 ((a-1)^2 g + u a + v). *)
Theorem subtraction_reaches_order_four (K : OrdField) d n u v (e : ex K) :
  subtractor d n (u - (u + v) * fnat n) (v + (u + v) * fnat n) = Ok (Some e) ->
  exists g, forall x, ev (pt3 x 1 1) e = (x - 1) * (x - 1) * (u * x + v + (x - 1) * (x - 1) * ueval g x).
Proof. exact (subtractor_order4 K d n u v e). Qed.
Print Assumptions subtraction_reaches_order_four.
(** so that the test for order four that follows never fails *)
Theorem order_four_test_passes (K : OrdField) (p : poly K) d n u v g f (s0 : ex K) :
  wf 3 p -> homdeg d p -> is_cyclic 3 [[1; 2; 0]; [1; 0; 2]]%nat p = true -> coeff_degree p = d -> (n + 3 <= d)%nat ->
  div_sq1 (axis d p) = (f, (0, 0) : K * K) -> div_sq1 f = (g, (u, v)) ->
  0 <= u - (u + v) * fnat n -> 0 <= v + (u + v) * fnat n ->
  subtractor d n (u - (u + v) * fnat n) (v + (u + v) * fnat n) = Ok (Some s0) ->
  exists h, div_fourth1 (axis (coeff_degree (padd p (pneg (expand s0)))) (padd p (pneg (expand s0)))) = Some h.
Proof. exact (fun W Hd E => after_subtraction K p d n u v g f s0 (symmetric_symform K p d W Hd E)). Qed.
Print Assumptions order_four_test_passes.

(** ** Cases *)
(** the division contract is met by the exact division of SymDiv.v *)
Example div6_meets_contract (K : OrdField) : pdiv_ok K (div6 K).
Proof. exact (div6_exact K). Qed.

Definition ca : ex QcOF := EX 0. Definition cb : ex QcOF := EX 1. Definition cc : ex QcOF := EX 2.
Definition uni0 : list QcOF -> res (option (wsos QcOF * wsos QcOF)) := fun _ => Ok None.
Definition ter0 : poly QcOF -> res (option (ex QcOF)) := fun _ => Ok None.
Definition qfl (x : QcOF) : Z := Qfloor (x : Qc).
(** s(a^4 (a-b)^2 (a-c)^2) + p(a-b)^2 s(a^2): order four, one division *)
Definition form1 : poly QcOF := expand (csum (ca ^ 4 * (ca - cb) ^ 2 * (ca - cc) ^ 2) + cprod ((ca - cb) ^ 2) * csum (ca ^ 2))%E.
(** s(a^4 b c (a-b)(a-c)): a subtraction first *)
Definition form2 : poly QcOF := expand (csum (ca ^ 4 * cb * cc * (ca - cb) * (ca - cc)))%E.
Definition answers (p : poly QcOF) : bool :=
  match sos_struct_dense_symmetric uni0 ter0 (div6 QcOF) qfl p with Ok (Some _) => true | _ => false end.
Definition lift_answers (p : poly QcOF) : bool :=
  match lift_for_six uni0 (div6 QcOF) (dense uni0 ter0 (div6 QcOF) qfl 9) p with Ok (Some _) => true | _ => false end.
Example dense_case :
  (forallb (fun t => Nat.eqb (list_sum (fst t)) 8) form1 && existsb (fun t => snd t <? 0) form1 && answers form1 &&
   forallb (fun t => Nat.eqb (list_sum (fst t)) 8) form2 && existsb (fun t => snd t <? 0) form2 && answers form2 && lift_answers form2)%bool = true.
Proof. vm_compute. reflexivity. Qed.
Example contracts_case : uni_ok QcOF uni0 /\ uni_total QcOF uni0 /\ ternary_ok QcOF ter0 /\ ternary_total QcOF ter0.
Proof.
  split; [discriminate|]. split; [intro f; exists None; split; [reflexivity|discriminate]|]. split; [discriminate|]. intro p. exists None. reflexivity.
Qed.
(** s(a^4 b c (a-b)(a-c)) is non-negative on the orthant *)
Example form2_nonneg A B C : 0 <= A -> 0 <= B -> 0 <= C -> 0 <= peval (pt3 A B C) form2.
Proof.
  assert (X : answers form2 = true) by (vm_compute; reflexivity). unfold answers in X.
  destruct (sos_struct_dense_symmetric uni0 ter0 (div6 QcOF) qfl form2) as [[e|]|] eqn:E; try discriminate X.
  destruct contracts_case as (U & _ & T & _). destruct (expand_spec QcOF (csum (ca ^ 4 * cb * cc * (ca - cb) * (ca - cc)))%E eq_refl) as (W & _ & D).
  exact (proj2 (proj2 (dense_symmetric_exact QcOF uni0 ter0 (div6 QcOF) qfl form2 8 e U T (div6_meets_contract QcOF) W (D 8%nat eq_refl) E)) A B C).
Qed.
(** the hypotheses of [order_four_test_passes] for that form: n = 3, u = 4, v = -3 *)
Definition order4_bool : bool :=
  match div_sq1 (axis 8 form2) with
  | (f, (u0, v0)) => match div_sq1 f with
                     | (_, (u, v)) => (u0 =? 0) && (v0 =? 0) && (u =? 4) && (v =? - (3)) &&
                         match subtractor 8 3 (u - (u + v) * fnat 3) (v + (u + v) * fnat 3) with Ok (Some _) => true | _ => false end
                     end
  end%bool.
Example order4_case : order4_bool = true.
Proof. vm_compute. reflexivity. Qed.
