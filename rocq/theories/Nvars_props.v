(** * C49: symmetric quartics in any number of variables *)
From Coq Require Import Bool List Arith Lia ZArith QArith Qcanon Permutation Factorial.
From Verif Require Import OrdField Base Perm Poly Coeff Expr Nvars.
Import ListNotations.
Local Open Scope of_scope.

(** The sum written [SymmetricSum] runs once over each of the n! permutations. *)
Theorem symmetric_group_complete (n : nat) :
  NoDup (sym_group n) /\ length (sym_group n) = fact n /\ forall g, In g (sym_group n) <-> is_perm n g.
Proof. exact (sym_group_spec n). Qed.
Print Assumptions symmetric_group_complete.

(** C49: for every number of variables, every homogeneous quartic and every answer of the search for
    parameters, an expression returned by the solver is a visible sum of squares (no sign of the
    variables is used), has no zero denominator and equals the polynomial at every point. *)
Theorem nvars_quartic_sound (K : OrdField) n (p : poly K) region e :
  wf n p -> (forall m, In m (keys p) -> list_sum m = 4%nat) ->
  nvars_quartic n p region = Ok (Some e) ->
  manifest false e = true /\ forall x, defined x e /\ ev x e = peval x p.
Proof. exact (nvars_lemma K n p region e). Qed.
Print Assumptions nvars_quartic_sound.

(** C49: hence the polynomial is not negative anywhere. *)
Theorem nvars_quartic_nonneg (K : OrdField) n (p : poly K) region e :
  wf n p -> (forall m, In m (keys p) -> list_sum m = 4%nat) ->
  nvars_quartic n p region = Ok (Some e) -> forall x, 0 <= peval x p.
Proof. exact (nvars_nonneg_lemma K n p region e). Qed.
Print Assumptions nvars_quartic_nonneg.

(** C49: the identity behind it, for all parameters q1, q3, u and all power sums. *)
Theorem nvars_parameters_exact (K : OrdField) n (c4 c3 c22 c21 c1 q1 q3 u P1 P2 P3 P4 : K) : (4 <= n)%nat ->
  let N := fnat n in let m := nv_m n in let xx := nv_x n c4 q1 in let y := nv_y n c4 c22 q1 q3 u in
  let v := nv_v n c1 q3 in let r := nv_r n c4 c3 c22 c21 c1 q1 q3 u in let q2 := nv_q2 n c4 c3 c22 c21 c1 q1 q3 in
  let al := xx - 2 * r - u + 2 * v in let be := 2 * y - 4 * r + 2 * v in
  let ga := 2 * r * P1 - 2 * v * P1 in let de := u * P2 + v * P1 ^ 2 - v * P2 in
  let e2 := (P1 ^ 2 - P2) / 2 in
  m * (2 * al * N * P4 + 2 * (be - 2 * al) * P3 * P1 + (2 * al - 2 * be) * P2 ^ 2
       + 2 * ga * N * P3 - 2 * ga * P1 * P2 + 2 * de * N * P2 - 2 * de * P1 ^ 2)
  + (q1 * P2 ^ 2 + 2 * q2 * P2 * e2 + q3 * e2 ^ 2)
  = c4 * P4 + c3 * (P3 * P1 - P4) + c22 * ((P2 ^ 2 - P4) / 2)
  + c21 * ((P2 * P1 ^ 2 - 2 * P3 * P1 - P2 ^ 2 + 2 * P4) / 2)
  + c1 * ((P1 ^ 4 - 2 * 3 * P1 ^ 2 * P2 + 3 * P2 ^ 2 + 2 * 4 * P1 * P3 - 2 * 3 * P4) / (2 * 3 * 4)).
Proof. exact (param_identity K n c4 c3 c22 c21 c1 q1 q3 u P1 P2 P3 P4). Qed.
Print Assumptions nvars_parameters_exact.

(** The solver never raises. *)
Theorem nvars_quartic_total (K : OrdField) n (p : poly K) region : exists o, nvars_quartic n p region = Ok o.
Proof. exact (nvars_total_lemma K n p region). Qed.
Print Assumptions nvars_quartic_total.

(** Non-vacuity: a^4+b^4+c^4+d^4, with the parameters q1 = 1/4, q3 = 0. *)
Definition pow4 (c : QcOF) : poly QcOF :=
  [([4;0;0;0], q 1 1); ([0;4;0;0], q 1 1); ([0;0;4;0], q 1 1); ([0;0;0;4], q 1 1); ([0;0;0;0], c)]%nat.
Definition quarter (k : nat) : option (QcOF * QcOF) := Some (q 1 4, q 0 1).
Definition found (r : res (option (ex QcOF))) : bool := match r with Ok (Some _) => true | _ => false end.
Example nvars_case : found (nvars_quartic 4 (firstn 4 (pow4 (q 0 1))) quarter) = true.
Proof. vm_compute. reflexivity. Qed.
Example nvars_case_hom : forall m, In m (keys (firstn 4 (pow4 (q 0 1)))) -> list_sum m = 4%nat.
Proof. intros m [<-|[<-|[<-|[<-|[]]]]]; reflexivity. Qed.

(** Without homogeneity the claim is false: the function tests the degree and the symmetry only
    (nvars.py:12), so a^4+b^4+c^4+d^4-1, negative at 0, gets a certificate. *)
Theorem nvars_inhomogeneous_refuted :
  wf 4 (pow4 (q (-1) 1)) /\ (exists e, nvars_quartic 4 (pow4 (q (-1) 1)) quarter = Ok (Some e)) /\
  peval (fun _ => q 0 1) (pow4 (q (-1) 1)) < 0.
Proof.
  refine (conj _ (conj _ _)).
  - split; [|intros m [<-|[<-|[<-|[<-|[<-|[]]]]]]; reflexivity].
    repeat (constructor; [cbn; intuition discriminate|]). constructor.
  - destruct (nvars_quartic 4 (pow4 (q (-1) 1)) quarter) as [[e|]|x] eqn:E; [exists e; reflexivity| |];
      apply (f_equal found) in E; vm_compute in E; discriminate.
  - apply fltb_lt. vm_compute. reflexivity.
Qed.
Print Assumptions nvars_inhomogeneous_refuted.
