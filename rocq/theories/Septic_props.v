(** * C76: symmetric septics *)
From Coq Require Import Bool List Arith Lia ZArith QArith Qcanon Ring Field.
From Verif Require Import OrdField Base Congruence Perm Poly PolyId PolyOps Coeff Expr CertLimit TriPoly Monomials Univariate UnivariateLemmas StructUtils.
From Verif Require Sparse TernaryQuad TernaryTables TernaryCubic.
From Verif Require Import SymDiv DenseSym DenseSymFacts DenseSymAxis DenseSymMain DenseSymTop Septic SepticFacts SepticForm SepticMain SepticTop.
Import ListNotations.
Local Open Scope of_scope.

(** The quadratic form method: its answer is the form wherever it is defined, it is a manifestly
    non-negative expression on the orthant, it is defined at every positive point with two different
    coordinates, and so the form is non-negative on the orthant. *)
Theorem septic_quadratic_exact : forall (K : OrdField) uni (p : poly K) e,
  uni_ok K uni -> wf 3 p -> homdeg 7 p -> cyclic3 (cfp p) ->
  (coef p [6; 1; 0] = coef p [1; 6; 0] /\ coef p [5; 2; 0] = coef p [2; 5; 0] /\ coef p [4; 3; 0] = coef p [3; 4; 0] /\ coef p [4; 2; 1] = coef p [2; 4; 1])%nat ->
  quadratic_form uni p = Ok (Some e) ->
  (forall A B C, defined (pt3 A B C) e -> ev (pt3 A B C) e = peval (pt3 A B C) p) /\
  manifest true e = true /\
  (forall A B C, 0 < A -> 0 < B -> 0 < C -> ~ (A = B /\ B = C) -> defined (pt3 A B C) e) /\
  (forall A B C, 0 <= A -> 0 <= B -> 0 <= C -> 0 <= peval (pt3 A B C) p).
Proof.
  intros K uni p e U W Hd Hc Hs H. pose proof (quadratic_exact K uni p e U W Hd Hc Hs H) as Q. pose proof (fcert_cert K p e Q) as C. destruct Q as (M & V & D).
  split; [exact V|]. split; [exact M|]. split; [exact D|]. exact (cert_nonneg K 7 p e W Hd C).
Qed.
Print Assumptions septic_quadratic_exact.

(** The solver itself, with the centred lifting-free method first *)
Theorem septic_symmetric_exact : forall (K : OrdField) uni pdiv ffloor rec israt (p : poly K) e,
  uni_ok K uni -> pdiv_ok K pdiv -> rec_ok K rec -> wf 3 p -> homdeg 7 p -> cyclic3 (cfp p) -> (1 <= coeff_degree p)%nat ->
  sos_struct_septic_symmetric (centered (liftfree_for_six pdiv ffloor rec)) uni israt p = Ok (Some e) ->
  (forall A B C, defined (pt3 A B C) e -> ev (pt3 A B C) e = peval (pt3 A B C) p) /\
  (forall A B C, 0 <= A -> 0 <= B -> 0 <= C -> defined (pt3 A B C) e -> 0 <= ev (pt3 A B C) e) /\
  (forall A B C, 0 <= A -> 0 <= B -> 0 <= C -> 0 <= peval (pt3 A B C) p).
Proof. exact septic_centered. Qed.
Print Assumptions septic_symmetric_exact.

(** It raises only when the univariate prover raises, or (TypeError, unpacking [None]) when that
    prover does not write some sum of squares as squares alone. *)
Theorem septic_quadratic_raises : forall (K : OrdField) uni (p : poly K) (x : exn),
  uni_ok K uni -> wf 3 p -> homdeg 7 p -> quadratic_form uni p = Err x ->
  (exists f, uni f = Err x) \/
  (x = TypeError /\ exists (f : list K) w, (forall t, In t w -> 0 <= fst t) /\ (forall z, ueval f z = weval w z) /\ forall w', uni f <> Ok (Some (w', []))).
Proof. exact quadratic_raises. Qed.
Print Assumptions septic_quadratic_raises.

(** Two symmetric septics with the same values at (z, 1, 1) differ by the multiple of
    s(a) p(a-b)^2 given by their coefficients of a^5 b^2. *)
Theorem septic_axis_determines : forall (K : OrdField) (p q : poly K),
  wf 3 p -> homdeg 7 p -> symform K p -> wf 3 q -> homdeg 7 q -> symform K q ->
  (forall z, peval (pt3 z 1 1) p = peval (pt3 z 1 1) q) ->
  forall A B C, peval (pt3 A B C) p - peval (pt3 A B C) q
    = (coef p [5; 2; 0]%nat - coef q [5; 2; 0]%nat) * ((A + B + C) * ((A - B) * (B - C) * (C - A)) ^ 2).
Proof. exact axis_determines. Qed.
Print Assumptions septic_axis_determines.

(** The rewriting of a quartic: the three weights are non-negative and the identity of the
    docstring holds. *)
Theorem restructure_quartic_exact : forall (K : OrdField) uni (f : list K) t s x y rem r,
  uni_ok K uni -> length f = 5%nat -> restructure uni f = Ok (RSome t s x y rem r) ->
  0 <= t /\ 0 <= s /\ 0 <= rem /\
  forall z, ueval f z = t * (z - 1) ^ 4 + s * ((x - 1) * (z * z) - (2 - 2 * y) * z + (2 * x + y - 2)) ^ 2
    + rem * match r with Some r => z * z + 2 * r * z + r + 2 | None => 2 * z + 1 end ^ 2.
Proof.
  intros K uni f t s x y rem r U L H. apply (restructure_spec K uni f t s x y rem r U); [exists f; split; [exact L|reflexivity]|exact H].
Qed.
Print Assumptions restructure_quartic_exact.

(** ** A case: the septic with axis z (z-1)^2 (z^2+3)^2 and coefficient 1 at a^5 b^2 *)
Definition ca : ex QcOF := EX 0. Definition cb : ex QcOF := EX 1. Definition cc : ex QcOF := EX 2.
Definition cyc (e : ex QcOF) : ex QcOF := csum e.
Definition sep_expr : ex QcOF :=
  (cyc (ca ^ 7) - cyc (ca ^ 6 * (cb + cc)) + cyc (ca ^ 5 * (cb ^ 2 + cc ^ 2)) + EC (4 + 1) * cyc (ca ^ 5 * cb * cc)
   - cyc (ca ^ 4 * (cb ^ 3 + cc ^ 3)) - EC (4 + 1) * cyc (ca ^ 4 * (cb ^ 2 * cc + cb * cc ^ 2)) + EC (4 + 4 + 3) * cyc (ca ^ 3 * cb ^ 3 * cc)
   - EC (4 + 1) * cyc (ca ^ 3 * cb ^ 2 * cc ^ 2))%E.
Definition sep_form : poly QcOF := expand sep_expr.
Fixpoint leqb (l m : list QcOF) : bool := match l, m with [], [] => true | x :: l, y :: m => (x =? y) && leqb l m | _, _ => false end.
Lemma leqb_eq l m : leqb l m = true -> l = m.
Proof.
  revert m. induction l as [|x l IH]; intros [|y m]; cbn; try discriminate; [reflexivity|]. intro H. apply andb_prop in H. destruct H as [H1 H2].
  apply feqb_eq in H1. rewrite H1, (IH m H2). reflexivity.
Qed.
(** a prover that knows two polynomials *)
Definition uni1 (f : list QcOF) : res (option (wsos QcOF * wsos QcOF)) :=
  if leqb f [0; 4 + 4 + 1; 0; 4 + 2; 0; 1] then Ok (Some ([], [(1, [3; 0; 1])]))
  else if leqb f [4 + 4 + 1; 0; 4 + 2; 0; 1] then Ok (Some ([(1, [3; 0; 1])], []))
  else Ok None.
Section SquareCase.
Variable K : OrdField.
Add Field Kf : (F_field K).
Lemma square_case (z : K) :
  ueval [4 + 4 + 1; 0; 4 + 2; 0; 1] z = 1 * (ueval [3; 0; 1] z * ueval [3; 0; 1] z) + 0 /\
  ueval [0; 4 + 4 + 1; 0; 4 + 2; 0; 1] z = 0 + z * (1 * (ueval [3; 0; 1] z * ueval [3; 0; 1] z) + 0).
Proof. rewrite !ueval_cons. change (ueval [] z) with (0 : K). split; ring. Qed.
Lemma plus_zero_case (u z : K) : u + 0 = u + 0 + z * 0.
Proof. ring. Qed.
Lemma cyc_value_case (P Q R : K) :
  let s (f : ex K) := csum f in let a : ex K := EX 0 in let b : ex K := EX 1 in let c : ex K := EX 2 in
  let e := (s (a ^ 7) - s (a ^ 6 * (b + c)) + s (a ^ 5 * (b ^ 2 + c ^ 2)) + EC (4 + 1) * s (a ^ 5 * b * c)
   - s (a ^ 4 * (b ^ 3 + c ^ 3)) - EC (4 + 1) * s (a ^ 4 * (b ^ 2 * c + b * c ^ 2)) + EC (4 + 4 + 3) * s (a ^ 3 * b ^ 3 * c)
   - EC (4 + 1) * s (a ^ 3 * b ^ 2 * c ^ 2))%E in
  ev (pt3 P Q R) e = ev (pt3 Q R P) e.
Proof. cbv zeta. cbn [csum erename rot3 ev pt3 fpow]. ring. Qed.
End SquareCase.
Example uni1_ok : uni_ok QcOF uni1.
Proof.
  intros f pq. unfold uni1. set (l1 := [0; 4 + 4 + 1; 0; 4 + 2; 0; 1]). set (l2 := [4 + 4 + 1; 0; 4 + 2; 0; 1]).
  destruct (leqb f l1) eqn:E1; [|destruct (leqb f l2) eqn:E2; [|intro H; congruence]];
  intro H; apply Ok_inj in H; match type of H with Some ?t = _ => assert (X : t = pq) by congruence end; subst pq;
  [apply leqb_eq in E1; subst f l1|apply leqb_eq in E2; subst f l2]; (split; [|split]); cbn [fst snd];
  try (intros t []; fail); try (intros t [<-|[]]; apply (f1_nonneg QcOF)).
  all: try (intros t Ht; destruct Ht; fail).
  - intro z. exact (proj2 (square_case QcOF z)).
  - intro z. pose proof (proj1 (square_case QcOF z)) as X. rewrite X, weval_cons, !weval_nil. apply plus_zero_case.
Qed.
Definition septic_answers : bool := match quadratic_form uni1 sep_form with Ok (Some _) => true | _ => false end.
Example septic_case : septic_answers = true.
Proof. vm_compute. reflexivity. Qed.
(** the form is non-negative although several of its coefficients are negative *)
Example sep_form_nonneg A B C : 0 <= A -> 0 <= B -> 0 <= C -> 0 <= peval (pt3 A B C) sep_form.
Proof.
  pose proof septic_case as X. unfold septic_answers in X. destruct (quadratic_form uni1 sep_form) as [[e|]|] eqn:E; try discriminate X.
  destruct (expand_spec QcOF sep_expr eq_refl) as (W & V & D).
  assert (Cy : cyclic3 (cfp sep_form)).
  { apply cyclic_of_values; [exact W|]. intros P Q R. unfold sep_form. rewrite !V. unfold sep_expr, cyc. apply cyc_value_case. }
  refine (proj2 (proj2 (proj2 (septic_quadratic_exact QcOF uni1 sep_form e uni1_ok W (D 7%nat eq_refl) Cy _ E))) A B C).
  repeat split; apply feqb_eq; vm_compute; reflexivity.
Qed.
(** the TypeError does occur: a prover that does not prove the square (z^2+3)^2 *)
Definition uni2 (f : list QcOF) : res (option (wsos QcOF * wsos QcOF)) :=
  if leqb f [0; 4 + 4 + 1; 0; 4 + 2; 0; 1] then Ok (Some ([], [(1, [3; 0; 1])])) else Ok None.
Definition septic_fails : bool := match quadratic_form uni2 sep_form with Err TypeError => true | _ => false end.
Example septic_raises_case : septic_fails = true.
Proof. vm_compute. reflexivity. Qed.
