(** * C73: AM-GM for sparse cyclic ternary forms *)
From Coq Require Import Bool List Arith Lia ZArith QArith Qcanon.
From Verif Require Import OrdField Base Perm Poly PolyId PolyOps Coeff Expr CertLimit TriPoly Univariate.
From Verif Require Sparse.
From Verif Require Import DenseSym Amgm AmgmFacts AmgmSolve AmgmMain AmgmTotal.
Import ListNotations.
Local Open Scope of_scope.

(** A returned certificate has the value of the form at every point without a zero coordinate where
    it is defined, it is defined at all positive points, it is non-negative on the orthant, and
    therefore the form is non-negative on the whole orthant. The only excluded forms are the
    multiples of s(a^d). The fuel and the order of the set of monomials are arbitrary. *)
Theorem amgm_exact_partial (K : OrdField) fuel swap (p : poly K) d e :
  wf 3 p -> homdeg d p -> is_cyclic 3 [[1; 2; 0]]%nat p = true -> ~ pure_power K p ->
  sparse_amgm fuel swap p = Ok (Some e) ->
  (forall A B C, A <> 0 -> B <> 0 -> C <> 0 -> defined (pt3 A B C) e -> ev (pt3 A B C) e = peval (pt3 A B C) p) /\
  (forall A B C, 0 < A -> 0 < B -> 0 < C -> defined (pt3 A B C) e) /\
  (forall A B C, 0 <= A -> 0 <= B -> 0 <= C -> defined (pt3 A B C) e -> 0 <= ev (pt3 A B C) e) /\
  (forall A B C, 0 <= A -> 0 <= B -> 0 <= C -> 0 <= peval (pt3 A B C) p).
Proof. exact (amgm_answer K fuel swap p d e). Qed.
Print Assumptions amgm_exact_partial.

(** [sos_struct_sparse], with any solvers of degrees 2, 3 and 4 whose answers are certificates *)
Theorem sos_struct_sparse_exact_partial (K : OrdField) (quad cubic quart : poly K -> res (option (ex K))) fuel swap (p : poly K) d e :
  answer_ok K quad 2 -> answer_ok K cubic 3 -> answer_ok K quart 4 ->
  wf 3 p -> homdeg d p -> is_cyclic 3 [[1; 2; 0]]%nat p = true -> ~ ((4 < d)%nat /\ pure_power K p) ->
  sos_struct_sparse quad cubic quart fuel swap p = Ok (Some e) ->
  (forall A B C, A <> 0 -> B <> 0 -> C <> 0 -> defined (pt3 A B C) e -> ev (pt3 A B C) e = peval (pt3 A B C) p) /\
  (forall A B C, 0 < A -> 0 < B -> 0 < C -> defined (pt3 A B C) e) /\
  (forall A B C, 0 <= A -> 0 <= B -> 0 <= C -> defined (pt3 A B C) e -> 0 <= ev (pt3 A B C) e) /\
  (forall A B C, 0 <= A -> 0 <= B -> 0 <= C -> 0 <= peval (pt3 A B C) p).
Proof. exact (sparse_answer K quad cubic quart fuel swap p d e). Qed.
Print Assumptions sos_struct_sparse_exact_partial.

(** The recursion between [_solve] and [_solve_spiral2] is at most three calls deep, and no
    exception is raised, for every form of positive degree. *)
Theorem amgm_total (K : OrdField) fuel swap (p : poly K) d :
  wf 3 p -> homdeg d p -> (0 < d)%nat -> exists o, sparse_amgm (3 + fuel) swap p = Ok o.
Proof. exact (fun W Hd Pd => sparse_amgm_total K fuel swap p d Hd Pd W). Qed.
Print Assumptions amgm_total.

(** One local inequality: for lattice points in this order on a line, x s(m1) - (x + y) s(p) + y s(m2)
    is certified with positive integers x, y, for all lengths of the two segments. *)
Theorem local_ineq_exact (K : OrdField) m1 p m2 :
  mdeg m1 = mdeg p -> mdeg p = mdeg m2 -> is_collinear m1 p m2 = true -> (0 < mdot (msub p m1) (msub m2 p))%Z ->
  exists (s : ex K) x y, local_ineq m1 p m2 = Some (s, x, y) /\ (0 < x)%nat /\ (0 < y)%nat /\
    (forall A B C, A <> 0 -> B <> 0 -> C <> 0 -> defined (pt3 A B C) s ->
       ev (pt3 A B C) s = fnat x * cval K A B C m1 - fnat (x + y) * cval K A B C p + fnat y * cval K A B C m2) /\
    (forall A B C, 0 < A -> 0 < B -> 0 < C -> defined (pt3 A B C) s /\ 0 <= ev (pt3 A B C) s).
Proof. exact (local_ineq_answer K m1 p m2). Qed.
Print Assumptions local_ineq_exact.

(** The excluded forms: a non-negative multiple of s(a^d) gets a certificate of its double. *)
Theorem amgm_pure_power_doubled (K : OrdField) fuel swap (p : poly K) d :
  wf 3 p -> homdeg d p -> (0 < d)%nat -> is_cyclic 3 [[1; 2; 0]]%nat p = true -> pure_power K p -> p <> [] -> (length p <= 6)%nat ->
  0 <= coef p [d; 0; 0]%nat ->
  exists e, sparse_amgm fuel swap p = Ok (Some e) /\
    forall A B C, A <> 0 -> B <> 0 -> C <> 0 -> defined (pt3 A B C) e -> ev (pt3 A B C) e = 2 * peval (pt3 A B C) p.
Proof. exact (doubled_answer K fuel swap p d). Qed.
Print Assumptions amgm_pure_power_doubled.

(** ** Cases *)
Definition orb (c : QcOF) (i j k : nat) : poly QcOF := [([i; j; k], c); ([k; i; j], c); ([j; k; i], c)]%nat.
Definition sparse0 (p : poly QcOF) : res (option (ex QcOF)) := Ok None.
Definition gives (p : poly QcOF) : bool :=
  match sparse_amgm 3 false p with Ok (Some _) => true | _ => false end.
(** the form abc s(a^5) through [sos_struct_common]: the factor abc is removed first, the answer is
    worth 6 at (1, 1, 1) where the form is worth 3 *)
Definition abc_a5 : poly QcOF := orb 1 6 1 1.
Definition doubled : bool :=
  match Sparse.sos_struct_common 3 abc_a5 [Some (sparse_solver sparse0 sparse0 sparse0 3 false)] true with
  | Sparse.Returns (Some e) => (ev (pt3 1 1 1) e =? fnat 6) && (peval (pt3 1 1 1) abc_a5 =? fnat 3)
  | _ => false
  end%bool.
Theorem sparse_certificate_refuted :
  exists (p : poly QcOF) e, wf 3 p /\ homdeg 8 p /\ is_cyclic 3 [[1; 2; 0]]%nat p = true /\
    Sparse.sos_struct_common 3 p [Some (sparse_solver sparse0 sparse0 sparse0 3 false)] true = Sparse.Returns (Some e) /\
    ev (pt3 1 1 1) e <> peval (pt3 1 1 1) p.
Proof.
  assert (B : doubled = true) by (vm_compute; reflexivity). unfold doubled in B.
  destruct (Sparse.sos_struct_common 3 abc_a5 _ true) as [[e|]| | |] eqn:E; try discriminate B.
  apply andb_prop in B. destruct B as [B1 B2]. apply feqb_eq in B1, B2. exists abc_a5, e.
  split; [|split; [|split; [vm_compute; reflexivity|split; [exact E|]]]].
  - split; [repeat constructor; cbn; intuition discriminate|]. intros m [<- |[<- |[<- |[]]]]; reflexivity.
  - intros m [<- |[<- |[<- |[]]]]; reflexivity.
  - rewrite B1, B2. intro H. assert (X : (fnat 6 : QcOF) =? fnat 3 = true) by (apply feqb_eq; exact H). vm_compute in X. discriminate X.
Qed.
Print Assumptions sparse_certificate_refuted.

(** each way of finding a proof: a common edge, the center in four positions, the two spirals and
    the recursion; and a single orbit *)
Example amgm_cases :
  (gives (orb 1 5 0 0 ++ orb (- (1)) 3 2 0) && gives (orb 1 5 0 1 ++ orb (- (1)) 3 2 1) &&
   gives (orb 1 4 1 1 ++ [([2; 2; 2]%nat, - (3))]) && gives (orb 1 4 2 0 ++ [([2; 2; 2]%nat, - (3))]) &&
   gives (orb 1 4 0 2 ++ [([2; 2; 2]%nat, - (3))]) && gives (orb 1 3 3 0 ++ [([2; 2; 2]%nat, - (3))]) &&
   gives (orb 1 4 1 0 ++ orb (- (1)) 2 2 1) && gives (orb 1 6 1 0 ++ orb (- (1)) 3 3 1) && gives (orb 1 6 1 0 ++ orb (- (1)) 3 2 2) &&
   gives (orb 2 3 2 0))%bool = true.
Proof. vm_compute. reflexivity. Qed.
(** s(a^4 b) >= abc s(ab) *)
Definition form1 : poly QcOF := orb 1 4 1 0 ++ orb (- (1)) 2 2 1.
Example form1_hyps : wf 3 form1 /\ homdeg 5 form1 /\ is_cyclic 3 [[1; 2; 0]]%nat form1 = true /\ ~ pure_power QcOF form1.
Proof.
  split; [|split; [|split; [vm_compute; reflexivity|]]].
  - split; [repeat constructor; cbn; intuition discriminate|]. intros m I. cbn in I. intuition subst; reflexivity.
  - intros m I. cbn in I. intuition subst; reflexivity.
  - intro H. destruct (H [4; 1; 0]%nat (or_introl eq_refl)) as [d [I|[I|[I|[]]]]]; vm_compute in I; discriminate I.
Qed.
Example form1_nonneg A B C : 0 <= A -> 0 <= B -> 0 <= C -> 0 <= peval (pt3 A B C) form1.
Proof.
  assert (X : gives form1 = true) by (vm_compute; reflexivity). unfold gives in X. destruct form1_hyps as (W & D & Cy & Np).
  destruct (sparse_amgm 3 false form1) as [[e|]|] eqn:E; try discriminate X.
  exact (proj2 (proj2 (proj2 (amgm_exact_partial QcOF 3 false form1 5 e W D Cy Np E))) A B C).
Qed.
Example sparse_contracts : answer_ok QcOF sparse0 2 /\ answer_ok QcOF sparse0 3 /\ answer_ok QcOF sparse0 4.
Proof. repeat split; discriminate. Qed.
(** s(a^6) - 2 s(a^4 b^2) + s(a^2 b^4) up to a factor: the points (6,0,0), (4,2,0), (0,6,0) *)
Example local_case : (is_collinear (6, 0, 0) (4, 2, 0) (0, 6, 0) && (0 <? mdot (msub (4, 2, 0) (6, 0, 0)) (msub (0, 6, 0) (4, 2, 0))))%Z%bool = true.
Proof. reflexivity. Qed.
(** s(a^5) itself *)
Example pure_case : pure_power QcOF (orb 1 5 0 0) /\ gives (orb 1 5 0 0) = true.
Proof.
  split; [|vm_compute; reflexivity]. intros m I. exists 5%Z. cbn in I. intuition subst; vm_compute; tauto.
Qed.
