(** * C74: the forms subtracted by the heuristic method *)
From Coq Require Import Bool List Arith Lia ZArith QArith Qcanon.
From Verif Require Import OrdField Base Perm Poly PolyOps Expr CertLimit Schur SchurFacts SchurExpr.
Import ListNotations.
Local Open Scope of_scope.

(** [Pnrms.coeff] is the table of coefficients of v s(a^n(b^r-c^r)) s(a^m(b^s-c^s)), for all exponents. *)
Theorem pnrms_coeff_exact (K : OrdField) n r m s (v : K) :
  wf 3 (pnrms_coeff n r m s v) /\ homdeg (n + r + m + s) (pnrms_coeff n r m s v) /\
  forall A B C, peval (pt3 A B C) (pnrms_coeff n r m s v) =
    v * ((A ^ n * (B ^ r - C ^ r) + B ^ n * (C ^ r - A ^ r) + C ^ n * (A ^ r - B ^ r))
         * (A ^ m * (B ^ s - C ^ s) + B ^ m * (C ^ s - A ^ s) + C ^ m * (A ^ s - B ^ s))).
Proof. exact (let (W, H) := pnrms_coeff_spec K n r m s v in let (D, E) := H in conj W (conj D (fun A B C => E (pt3 A B C)))). Qed.
Print Assumptions pnrms_coeff_exact.
Example pnrms_case : length (pnrms_coeff 4 2 3 1 (1 : QcOF)) = 30%nat /\ homdeg 10 (pnrms_coeff 4 2 3 1 (1 : QcOF)).
Proof. split; [vm_compute; reflexivity|apply (pnrms_coeff_spec QcOF 4 2 3 1)]. Qed.

(** [Hnmr.coeff] is the table of coefficients of H(n,m,r), in both forms. *)
Theorem hnmr_coeff_exact (K : OrdField) (n : Z) m r (v A B C : K) :
  wf 3 (hnmr_coeff n m r v) /\
  peval (pt3 A B C) (hnmr_coeff n m r v) =
    if (0 <=? n)%Z then
      v * (A ^ Z.to_nat n * (B ^ m + C ^ m) * (A ^ r - B ^ r) * (A ^ r - C ^ r)
           + B ^ Z.to_nat n * (C ^ m + A ^ m) * (B ^ r - C ^ r) * (B ^ r - A ^ r)
           + C ^ Z.to_nat n * (A ^ m + B ^ m) * (C ^ r - A ^ r) * (C ^ r - B ^ r))
    else
      v * (B ^ Z.to_nat (- n) * C ^ Z.to_nat (- n) * (B ^ m + C ^ m) * (A ^ r - B ^ r) * (A ^ r - C ^ r)
           + C ^ Z.to_nat (- n) * A ^ Z.to_nat (- n) * (C ^ m + A ^ m) * (B ^ r - C ^ r) * (B ^ r - A ^ r)
           + A ^ Z.to_nat (- n) * B ^ Z.to_nat (- n) * (A ^ m + B ^ m) * (C ^ r - A ^ r) * (C ^ r - B ^ r)).
Proof. exact (hnmr_coeff_answer K n m r v A B C). Qed.
Print Assumptions hnmr_coeff_exact.

(** The table of quotients: every entry times (b-a)(c-b)(a-c) is s(a^n(b^r-c^r)), and every entry
    is a sum of non-negative terms on the orthant. *)
Theorem half_side_exact (K : OrdField) n r (e : ex K) : half_side n r = Some e ->
  (0 < r < n)%nat /\ manifest true e = true /\ (forall env, defined env e) /\
  forall A B C, ev (pt3 A B C) e * ((B - A) * (C - B) * (A - C)) = A ^ n * (B ^ r - C ^ r) + B ^ n * (C ^ r - A ^ r) + C ^ n * (A ^ r - B ^ r).
Proof. exact (half_side_spec K n r e). Qed.
Print Assumptions half_side_exact.
Example half_side_case : exists e : ex QcOF, half_side 7 4 = Some e.
Proof. eexists. reflexivity. Qed.

(** [Pnrms.as_expr] has the value of the polynomial of [Pnrms.coeff] everywhere. *)
Theorem pnrms_expr_exact (K : OrdField) n r m s (v A B C : K) :
  defined (pt3 A B C) (pnrms_expr n r m s v) /\ ev (pt3 A B C) (pnrms_expr n r m s v) = peval (pt3 A B C) (pnrms_coeff n r m s v).
Proof. exact (pnrms_expr_answer K n r m s v A B C). Qed.
Print Assumptions pnrms_expr_exact.

(** The form is non-negative on the orthant when n >= r and m >= s. *)
Theorem pnrms_nonneg (K : OrdField) n r m s (v A B C : K) : (r <= n)%nat -> (s <= m)%nat -> 0 <= v -> 0 <= A -> 0 <= B -> 0 <= C ->
  0 <= peval (pt3 A B C) (pnrms_coeff n r m s v).
Proof. exact (pnrms_nonneg_answer K n r m s v A B C). Qed.
Print Assumptions pnrms_nonneg.

(** [Hnmr.as_expr] has the value of the polynomial of [Hnmr.coeff] where it is defined, which is the
    case at all positive points with a, b, c not all equal; the exception is m = r = 2n with n >= 2.
    Full claim: the same without the exception, which is false by [hnmr_expr_refuted]. *)
Theorem hnmr_expr_exact_partial (K : OrdField) n m r (v A B C : K) : ~ ((2 <= n)%Z /\ m = r /\ Z.of_nat r = (2 * n)%Z) ->
  (defined (pt3 A B C) (hnmr_expr n m r v) -> ev (pt3 A B C) (hnmr_expr n m r v) = peval (pt3 A B C) (hnmr_coeff n m r v)) /\
  (0 < A -> 0 < B -> 0 < C -> ~ (A = B /\ B = C) -> defined (pt3 A B C) (hnmr_expr n m r v)).
Proof. exact (hnmr_expr_answer K n m r v A B C). Qed.
Print Assumptions hnmr_expr_exact_partial.
Example hnmr_case : ~ ((2 <= 3)%Z /\ 1%nat = 1%nat /\ Z.of_nat 1 = (2 * 3)%Z) /\ ~ (q 1 1 = q 2 1 /\ q 2 1 = q 3 1).
Proof. split; [lia|]. intros [H _]. discriminate H. Qed.

(** In that case the expression and the table differ at (2, 1, 1), for all exponents and all v <> 0. *)
Theorem hnmr_expr_refuted (K : OrdField) n m r (v : K) : (2 <= n)%Z -> m = r -> Z.of_nat r = (2 * n)%Z -> v <> 0 ->
  defined (pt3 2 1 1) (hnmr_expr n m r v) /\ ev (pt3 2 1 1) (hnmr_expr n m r v) <> peval (pt3 2 1 1) (hnmr_coeff n m r v).
Proof. exact (hnmr_expr_wrong K n m r v). Qed.
Print Assumptions hnmr_expr_refuted.
Example hnmr_refuted_case : (2 <= 2)%Z /\ Z.of_nat 4 = (2 * 2)%Z /\ (1 : QcOF) <> 0.
Proof. repeat split; try lia. discriminate. Qed.

(** H(n,m,r) is non-negative on the orthant when n <= 0 or n + r >= m. *)
Theorem hnmr_nonneg_orthant (K : OrdField) n m r (v A B C : K) : (n <= 0 \/ Z.of_nat m <= n + Z.of_nat r)%Z ->
  0 <= v -> 0 <= A -> 0 <= B -> 0 <= C -> 0 <= peval (pt3 A B C) (hnmr_coeff n m r v).
Proof. exact (hnmr_nonneg_answer K n m r v A B C). Qed.
Print Assumptions hnmr_nonneg_orthant.
(** the condition cannot be dropped: H(1,8,1) is negative somewhere on the orthant *)
Example hnmr_condition : ~ (0 <= peval (pt3 (q 5 1) (q 4 1) (q 0 1)) (hnmr_coeff 1 8 1 (1 : QcOF))).
Proof. vm_compute. discriminate. Qed.

(** The recursion identity of the documentation, for all exponents with n >= r and m >= 2r. *)
Theorem hnmr_recursion (K : OrdField) n m r (A B C : K) : (r <= n)%nat -> (2 * r <= m)%nat ->
  peval (pt3 A B C) (hnmr_coeff (Z.of_nat n) m r 1) =
  peval (pt3 A B C) (pnrms_coeff (2 * r) r n (m - r) 1) + A ^ r * B ^ r * C ^ r * peval (pt3 A B C) (hnmr_coeff (Z.of_nat (n - r)) (m - 2 * r) r 1).
Proof. exact (hnmr_recursion_answer K n m r A B C). Qed.
Print Assumptions hnmr_recursion.
