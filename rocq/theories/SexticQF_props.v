(** * C77: symmetric sextics by the quadratic form method *)
From Coq Require Import Bool List Arith Lia ZArith QArith Qcanon Ring Field.
From Verif Require Import OrdField Base Congruence Perm Poly PolyId PolyOps Coeff Expr CertLimit TriPoly Monomials Univariate UnivariateLemmas StructUtils.
From Verif Require Import SymDiv DenseSym DenseSymFacts DenseSymAxis DenseSymMain DenseSymTop Septic SepticFacts SepticMain SepticTop.
From Verif Require Import SexticQF SexticQFFacts SexticQFMain SexticForm SexticQFTop.
Import ListNotations.
Local Open Scope of_scope.

(** The answer of the method is the form wherever it is defined and it is a manifestly non-negative
    expression on the orthant; the form is non-negative on the orthant. [findz] is any choice of the
    parameter z, [roots] any list of exact roots of the cubic and of ordered intervals. *)
Theorem sextic_quadratic_exact : forall (K : OrdField) uni findz roots (p : poly K) e,
  uni_ok K uni -> roots_ok K roots -> wf 3 p -> homdeg 6 p -> cyclic3 (cfp p) ->
  (coef p [5; 1; 0] = coef p [1; 5; 0] /\ coef p [4; 2; 0] = coef p [2; 4; 0] /\ coef p [3; 2; 1] = coef p [2; 3; 1])%nat ->
  sextic_quadratic uni findz roots p = Ok (Some e) ->
  (forall A B C, defined (pt3 A B C) e -> ev (pt3 A B C) e = peval (pt3 A B C) p) /\
  manifest true e = true /\
  (forall A B C, 0 <= A -> 0 <= B -> 0 <= C -> 0 <= peval (pt3 A B C) p).
Proof. exact quadratic6_exact. Qed.
Print Assumptions sextic_quadratic_exact.

(** The answer is defined at every positive point with two different coordinates, provided the
    rewriting of the quartic does not give a remainder with r infinite. *)
Theorem sextic_quadratic_defined_partial : forall (K : OrdField) uni findz roots (p : poly K) e,
  uni_ok K uni -> roots_ok K roots -> wf 3 p -> homdeg 6 p -> cyclic3 (cfp p) ->
  (coef p [5; 1; 0] = coef p [1; 5; 0] /\ coef p [4; 2; 0] = coef p [2; 4; 0] /\ coef p [3; 2; 1] = coef p [2; 3; 1])%nat ->
  sextic_quadratic uni findz roots p = Ok (Some e) ->
  (forall t c0 x y rem, restructure uni (fst (div_sq1 (axis 6 p))) = Ok (RSome t c0 x y rem None) -> rem = 0) ->
  forall A B C, 0 < A -> 0 < B -> 0 < C -> ~ (A = B /\ B = C) -> defined (pt3 A B C) e.
Proof. exact quadratic6_defined. Qed.
Print Assumptions sextic_quadratic_defined_partial.

(** When the weight of p(a-b)^2 is at least a third of that of F, or x + y = 5/3 and it is at least
    -3(x-1)(9x-5)/4 of it, the method answers, with a certificate on all of R^3. *)
Theorem sextic_quadratic_real : forall (K : OrdField) uni findz roots (p : poly K) sym t c0 x y rem r,
  uni_ok K uni -> wf 3 p -> homdeg 6 p -> cyclic3 (cfp p) ->
  (coef p [5; 1; 0] = coef p [1; 5; 0] /\ coef p [4; 2; 0] = coef p [2; 4; 0] /\ coef p [3; 2; 1] = coef p [2; 3; 1])%nat ->
  div_sq1 (axis 6 p) = (sym, (0, 0)) -> restructure uni sym = Ok (RSome t c0 x y rem r) -> c0 <> 0 ->
  (forall u v w, exists z0, findz u v w = Ok z0) ->
  let ker := sextic_ker (coef p [4; 2; 0]%nat) t c0 x y rem r in
  c0 / 3 <= ker \/ (3 * (x + y) = fbin 5 /\ x <> 1 /\ - (3) * c0 * (x - 1) * (fbin 9 * x - fbin 5) <= 4 * ker) ->
  exists e, sextic_quadratic uni findz roots p = Ok (Some e) /\ manifest false e = true /\
    forall A B C, defined (pt3 A B C) e /\ ev (pt3 A B C) e = peval (pt3 A B C) p.
Proof. exact quadratic6_real. Qed.
Print Assumptions sextic_quadratic_real.

(** The identity of the docstring: every symmetric sextic whose values at (z, 1, 1) are (z-1)^2 times
    the rewritten quartic is c0 F + (t/4) p(a+b-2c)^2 + rem s(a^2-ab) s(a^2+rab)^2 + ker p(a-b)^2, and
    ker is the number computed from the coefficient of a^4 b^2. *)
Theorem sextic_quadratic_identity : forall (K : OrdField) uni (p : poly K) sym t c0 x y rem r,
  uni_ok K uni -> wf 3 p -> homdeg 6 p -> cyclic3 (cfp p) ->
  (coef p [5; 1; 0] = coef p [1; 5; 0] /\ coef p [4; 2; 0] = coef p [2; 4; 0] /\ coef p [3; 2; 1] = coef p [2; 3; 1])%nat ->
  div_sq1 (axis 6 p) = (sym, (0, 0)) -> restructure uni sym = Ok (RSome t c0 x y rem r) ->
  0 <= t /\ 0 <= c0 /\ 0 <= rem /\
  forall A B C, peval (pt3 A B C) p = form6 K c0 x y (sextic_ker (coef p [4; 2; 0]%nat) t c0 x y rem r) t rem r A B C.
Proof. intros K uni p sym t c0 x y rem r. apply sextic_form. Qed.
Print Assumptions sextic_quadratic_identity.

(** Two symmetric sextics with the same values at (z, 1, 1) differ by the multiple of p(a-b)^2 given
    by their coefficients of a^4 b^2. *)
Theorem sextic_axis_determines : forall (K : OrdField) (p q : poly K),
  wf 3 p -> homdeg 6 p -> symform K p -> wf 3 q -> homdeg 6 q -> symform K q ->
  (forall z, peval (pt3 z 1 1) p = peval (pt3 z 1 1) q) ->
  forall A B C, peval (pt3 A B C) p - peval (pt3 A B C) q
    = (coef p [4; 2; 0]%nat - coef q [4; 2; 0]%nat) * ((A - B) * (B - C) * (C - A)) ^ 2.
Proof. exact axis6_determines. Qed.
Print Assumptions sextic_axis_determines.

(** For x = 1 and 0 <= ker < c0/3 the third solver finds a certificate, but the fourth divides by
    zero and the search raises: the certificate found is lost. *)
Theorem sextic_quadratic_keeps_solution_refuted : forall (K : OrdField) findz roots (c0 y ker t : K) (r : option K),
  0 < c0 -> 0 <= ker -> ker < c0 / 3 -> (forall u v w, exists z0, findz u v w = Ok z0) ->
  (exists e, wrap1 S_regular 1 y c0 ker t 0 r = Ok (Some (e, false))) /\ sextic_solve findz roots c0 1 y ker t 0 r = Err TypeError.
Proof. exact x1_raises. Qed.
Print Assumptions sextic_quadratic_keeps_solution_refuted.

(** ** Cases *)
Definition va : ex QcOF := EX 0. Definition vb : ex QcOF := EX 1. Definition vc : ex QcOF := EX 2.
Definition f0_expr : ex QcOF := csum (va ^ 6 + va ^ 5 * vb + va ^ 5 * vc + va ^ 4 * vb * vc - EC 2 * va ^ 3 * vb ^ 2 * vc - EC 2 * va ^ 3 * vb * vc ^ 2)%E.
(** F_{x,y} + k p(a-b)^2 + w s(a^2-ab) s(ab)^2 *)
Definition sext_expr (x y k w : QcOF) : ex QcOF :=
  let g := csum (EC x * va ^ 2 + EC y * va * vb)%E in
  (f0_expr - EC 2 * csum (va ^ 4 - va ^ 2 * vb * vc) * g + csum (va ^ 2 - va * vb) * g ^ 2
   + EC k * cprod ((va - vb) ^ 2) + EC w * csum (va ^ 2 - va * vb) * csum (va * vb) ^ 2)%E.
Fixpoint leqb (l m : list QcOF) : bool := match l, m with [], [] => true | x :: l, y :: m => (x =? y) && leqb l m | _, _ => false end.
Lemma leqb_eq l m : leqb l m = true -> l = m.
Proof.
  revert m. induction l as [|x l IH]; intros [|y m]; cbn; try discriminate; [reflexivity|]. intro H. apply andb_prop in H. destruct H as [H1 H2].
  apply feqb_eq in H1. rewrite H1, (IH m H2). reflexivity.
Qed.
Section Cases.
Variable K : OrdField.
Add Field Kf : (F_field K).
Lemma squares_case (z w : K) :
  ueval [4 + 4 + 1 + w; 4 * w; 4 + 2 + 4 * w; 0; 1] z = 1 * (ueval [3; 0; 1] z * ueval [3; 0; 1] z) + (w * (ueval [1; 2; 0] z * ueval [1; 2; 0] z) + 0) + z * 0.
Proof. rewrite !ueval_cons. change (ueval [] z) with (0 : K). ring. Qed.
Lemma sext_cyclic_case (x y k w P Q R : K) :
  let s (f : ex K) := csum f in let a : ex K := EX 0 in let b : ex K := EX 1 in let c : ex K := EX 2 in
  let g := csum (EC x * a ^ 2 + EC y * a * b)%E in
  let e := (csum (a ^ 6 + a ^ 5 * b + a ^ 5 * c + a ^ 4 * b * c - EC 2 * a ^ 3 * b ^ 2 * c - EC 2 * a ^ 3 * b * c ^ 2)
   - EC 2 * csum (a ^ 4 - a ^ 2 * b * c) * g + csum (a ^ 2 - a * b) * g ^ 2
   + EC k * cprod ((a - b) ^ 2) + EC w * csum (a ^ 2 - a * b) * csum (a * b) ^ 2)%E in
  ev (pt3 P Q R) e = ev (pt3 Q R P) e.
Proof. cbv zeta. cbn [csum cprod erename rot3 ev pt3 fpow]. ring. Qed.
Lemma sext_swap_case (x y k w P Q R : K) :
  let s (f : ex K) := csum f in let a : ex K := EX 0 in let b : ex K := EX 1 in let c : ex K := EX 2 in
  let g := csum (EC x * a ^ 2 + EC y * a * b)%E in
  let e := (csum (a ^ 6 + a ^ 5 * b + a ^ 5 * c + a ^ 4 * b * c - EC 2 * a ^ 3 * b ^ 2 * c - EC 2 * a ^ 3 * b * c ^ 2)
   - EC 2 * csum (a ^ 4 - a ^ 2 * b * c) * g + csum (a ^ 2 - a * b) * g ^ 2
   + EC k * cprod ((a - b) ^ 2) + EC w * csum (a ^ 2 - a * b) * csum (a * b) ^ 2)%E in
  ev (pt3 P Q R) e = ev (pt3 Q P R) e.
Proof. cbv zeta. cbn [csum cprod erename rot3 ev pt3 fpow]. ring. Qed.
Lemma sext_axis_case (x y k k' w z : K) :
  let s (f : ex K) := csum f in let a : ex K := EX 0 in let b : ex K := EX 1 in let c : ex K := EX 2 in
  let g := csum (EC x * a ^ 2 + EC y * a * b)%E in
  let e k := (csum (a ^ 6 + a ^ 5 * b + a ^ 5 * c + a ^ 4 * b * c - EC 2 * a ^ 3 * b ^ 2 * c - EC 2 * a ^ 3 * b * c ^ 2)
   - EC 2 * csum (a ^ 4 - a ^ 2 * b * c) * g + csum (a ^ 2 - a * b) * g ^ 2
   + EC k * cprod ((a - b) ^ 2) + EC w * csum (a ^ 2 - a * b) * csum (a * b) ^ 2)%E in
  ev (pt3 z 1 1) (e k) = ev (pt3 z 1 1) (e k').
Proof. cbv zeta. cbn [csum cprod erename rot3 ev pt3 fpow]. ring. Qed.
End Cases.
(** a prover that knows (z^2+3)^2 + w (2z+1)^2 *)
Definition uni3 (w : QcOF) (f : list QcOF) : res (option (wsos QcOF * wsos QcOF)) :=
  if leqb f [4 + 4 + 1 + w; 4 * w; 4 + 2 + 4 * w; 0; 1] then Ok (Some ([(1, [3; 0; 1]); (w, [1; 2; 0])], [])) else Ok None.
Example uni3_ok w : 0 <= w -> uni_ok QcOF (uni3 w).
Proof.
  intros Hw f pq. unfold uni3. destruct (leqb f _) eqn:E; [|intro H; congruence]. intro H. apply Ok_inj in H.
  match type of H with Some ?t = _ => assert (X : t = pq) by congruence end. subst pq. apply leqb_eq in E. subst f. split; [|split]; cbn [fst snd].
  - intros u [<-|[<-|[]]]; [apply (f1_nonneg QcOF)|exact Hw].
  - intros u [].
  - intro z. rewrite !weval_cons, !weval_nil. exact (squares_case QcOF z w).
Qed.
Definition no_roots (suv puv : QcOF) : res (list (broot (K := QcOF))) := Ok [].
Example no_roots_ok : roots_ok QcOF no_roots.
Proof. intros suv puv rs H b Hb. apply Ok_inj in H. subst rs. destruct Hb. Qed.
Definition any_z (u v w : QcOF) : res QcOF := Ok 0.
Definition answer (w k : QcOF) : res (option (ex QcOF)) := sextic_quadratic (uni3 w) any_z no_roots (expand (sext_expr 2 1 k w)).
(** the hypotheses on the form *)
Example sext_form_ok (k w : QcOF) : let p := expand (sext_expr 2 1 k w) in wf 3 p /\ homdeg 6 p /\ cyclic3 (cfp p).
Proof.
  cbv zeta. destruct (expand_spec QcOF (sext_expr 2 1 k w) eq_refl) as (W & V & D). split; [exact W|]. split; [exact (D 6%nat eq_refl)|].
  apply cyclic_of_values; [exact W|]. intros P Q R. rewrite !V. exact (sext_cyclic_case QcOF 2 1 k w P Q R).
Qed.
(** F_{2,1}: a certificate without division by zero *)
Definition answers1 : bool := match answer 0 0 with Ok (Some e) => manifest true e && negb (div0 QcOF e) | _ => false end.
Example sextic_case : answers1 = true.
Proof. vm_compute. reflexivity. Qed.
Example sextic_case_nonneg A B C : 0 <= A -> 0 <= B -> 0 <= C -> 0 <= peval (pt3 A B C) (expand (sext_expr 2 1 0 0)).
Proof.
  pose proof sextic_case as X. unfold answers1, answer in X. destruct (sextic_quadratic (uni3 0) any_z no_roots (expand (sext_expr 2 1 0 0))) as [[e|]|] eqn:E; try discriminate X.
  destruct (sext_form_ok 0 0) as (W & D & Cy).
  refine (proj2 (proj2 (sextic_quadratic_exact QcOF (uni3 0) any_z no_roots _ e (uni3_ok 0 (fle_refl QcOF 0)) no_roots_ok W D Cy _ E)) A B C).
  repeat split; apply feqb_eq; vm_compute; reflexivity.
Qed.
(** F_{2,1} + p(a-b)^2: a certificate on R^3 *)
Definition answers2 : bool := match answer 0 1 with Ok (Some e) => manifest false e | _ => false end.
Example sextic_case_real : answers2 = true.
Proof. vm_compute. reflexivity. Qed.

(** The answer can contain a division by zero and then be defined nowhere: F_{2,1} + (1/5) p(a-b)^2
    + (1/5) s(a^2-ab) s(ab)^2, whose quartic is (z^2+3)^2 + (2z+1)^2/5. *)
Definition nan_case : bool := match answer (q 1 5) (q 1 5) with Ok (Some e) => div0 QcOF e | _ => false end.
Lemma nan_case_true : nan_case = true.
Proof. vm_compute. reflexivity. Qed.
Theorem sextic_quadratic_defined_refuted :
  exists (K : OrdField) uni findz roots (p : poly K) e,
    uni_ok K uni /\ roots_ok K roots /\ wf 3 p /\ homdeg 6 p /\ cyclic3 (cfp p) /\
    (coef p [5; 1; 0] = coef p [1; 5; 0] /\ coef p [4; 2; 0] = coef p [2; 4; 0] /\ coef p [3; 2; 1] = coef p [2; 3; 1])%nat /\
    sextic_quadratic uni findz roots p = Ok (Some e) /\ forall env, ~ defined env e.
Proof.
  pose proof nan_case_true as X. unfold nan_case in X. destruct (answer (q 1 5) (q 1 5)) as [[e|]|] eqn:E; try discriminate X.
  destruct (sext_form_ok (q 1 5) (q 1 5)) as (W & D & Cy).
  exists QcOF, (uni3 (q 1 5)), any_z, no_roots, (expand (sext_expr 2 1 (q 1 5) (q 1 5))), e. split; [apply uni3_ok; apply fleb_le; vm_compute; reflexivity|].
  split; [exact no_roots_ok|]. split; [exact W|]. split; [exact D|]. split; [exact Cy|]. split; [repeat split; apply feqb_eq; vm_compute; reflexivity|]. split; [exact E|].
  intro env. apply div0_undefined. exact X.
Qed.
Print Assumptions sextic_quadratic_defined_refuted.

(** s(a^4 ...) with x = 1, y = 0: the lost certificate for c0 = 4, ker = 1 *)
Example lost_case : sextic_solve any_z no_roots (4 : QcOF) 1 0 1 0 0 (Some 0) = Err TypeError.
Proof.
  apply (fun h1 h2 h3 h4 => proj2 (sextic_quadratic_keeps_solution_refuted QcOF any_z no_roots 4 0 1 0 (Some 0) h1 h2 h3 h4)).
  - apply fltb_lt. vm_compute. reflexivity.
  - apply fleb_le. vm_compute. reflexivity.
  - apply fltb_lt. vm_compute. reflexivity.
  - intros u v w. exists 0. reflexivity.
Qed.
(** two symmetric forms with the same axis *)
Example axis_determines_case A B C : 
  peval (pt3 A B C) (expand (sext_expr 2 1 1 0)) - peval (pt3 A B C) (expand (sext_expr 2 1 0 0))
  = (coef (expand (sext_expr 2 1 1 0)) [4; 2; 0]%nat - coef (expand (sext_expr 2 1 0 0)) [4; 2; 0]%nat) * ((A - B) * (B - C) * (C - A)) ^ 2.
Proof.
  assert (S : forall k, symform QcOF (expand (sext_expr 2 1 k 0))).
  { intro k. destruct (expand_spec QcOF (sext_expr 2 1 k 0) eq_refl) as (W & V & D). split; [exact W|]. split; [exists 6%nat; exact (D 6%nat eq_refl)|]. split.
    - intros P Q R. rewrite !V. exact (sext_cyclic_case QcOF 2 1 k 0 P Q R).
    - intros P Q R. rewrite !V. exact (sext_swap_case QcOF 2 1 k 0 P Q R). }
  destruct (sext_form_ok 1 0) as (W1 & D1 & _). destruct (sext_form_ok 0 0) as (W0 & D0 & _).
  refine (sextic_axis_determines QcOF _ _ W1 D1 (S 1) W0 D0 (S 0) _ A B C).
  intro z. rewrite (proj1 (proj2 (expand_spec QcOF (sext_expr 2 1 1 0) eq_refl))), (proj1 (proj2 (expand_spec QcOF (sext_expr 2 1 0 0) eq_refl))).
  exact (sext_axis_case QcOF 2 1 1 0 0 z).
Qed.
