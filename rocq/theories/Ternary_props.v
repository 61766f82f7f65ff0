(** * C37, C38, C39, C41, C42: ternary certificates *)
From Coq Require Import Bool List Arith Lia ZArith.
From Verif Require Import OrdField Base Congruence Expr CertLimit TernaryQuad TernaryTables TernaryCubic.
Import ListNotations.
Local Open Scope of_scope.

(** ** C37: cyclic quadratics *)
Theorem cyclic_quadratic_sound (K : OrdField) (cf : nat -> nat -> nat -> K) (e : ex K) :
  cyclic3 cf -> sos_struct_quadratic cf = Some e ->
  (forall env, defined env e) /\
  (forall A B C, ev (pt3 A B C) e = tri_poly 2 cf A B C) /\
  manifest true e = true /\
  ((cf 1 1 0)%nat <= 2 * (cf 2 0 0)%nat -> forall A B C, 0 <= ev (pt3 A B C) e).
Proof. exact (sos_struct_quadratic_sound K cf e). Qed.
Print Assumptions cyclic_quadratic_sound.

Theorem cyclic_quadratic_none (K : OrdField) (cf : nat -> nat -> nat -> K) : cyclic3 cf ->
  (sos_struct_quadratic cf = None <->
   exists A B C, 0 <= A /\ 0 <= B /\ 0 <= C /\ tri_poly 2 cf A B C < 0).
Proof. exact (sos_struct_quadratic_none K cf). Qed.
Print Assumptions cyclic_quadratic_none.

(** ** C38: copositive quadratic forms *)
Theorem acyclic_quadratic_sound (K : OrdField) (cf : nat -> nat -> nat -> K) (e : ex K) :
  sos_struct_acyclic_quadratic cf = Some e ->
  (forall env, defined env e) /\ (forall A B C, ev (pt3 A B C) e = tri_poly 2 cf A B C) /\ manifest true e = true.
Proof. exact (acyclic_sound_lemma K cf e). Qed.
Print Assumptions acyclic_quadratic_sound.

(** A certificate is found for every copositive form. *)
Theorem acyclic_quadratic_complete (K : OrdField) (cf : nat -> nat -> nat -> K) :
  (forall A B C, 0 <= A -> 0 <= B -> 0 <= C -> 0 <= tri_poly 2 cf A B C) ->
  exists e, sos_struct_acyclic_quadratic cf = Some e.
Proof. exact (acyclic_copositive_some K cf). Qed.
Print Assumptions acyclic_quadratic_complete.

(** ** C39: cyclic cubics *)
Theorem cyclic_cubic_sound (K : OrdField) (rational : bool) (cands : list K) (cf : nat -> nat -> nat -> K) (e : ex K) :
  cyclic3 cf -> sos_struct_cubic rational cands cf = Ok (Some e) ->
  (forall A B C, defined (pt3 A B C) e -> ev (pt3 A B C) e = tri_poly 3 cf A B C) /\
  (forall A B C, 0 < A -> 0 < B -> 0 < C -> defined (pt3 A B C) e) /\
  (rational = true -> manifest true e = true) /\
  (forall A B C, 0 <= A -> 0 <= B -> 0 <= C -> 0 <= tri_poly 3 cf A B C).
Proof. exact (sos_struct_cubic_sound_lemma K rational cands cf e). Qed.
Print Assumptions cyclic_cubic_sound.

(** The answer [None] is given only for cubics that are negative somewhere,
    whatever candidates the numerical search proposes. *)
Theorem cyclic_cubic_none (K : OrdField) (rational : bool) (cands : list K) (cf : nat -> nat -> nat -> K) :
  cyclic3 cf -> sos_struct_cubic rational cands cf = Ok None ->
  exists A B C, 0 <= A /\ 0 <= B /\ 0 <= C /\ tri_poly 3 cf A B C < 0.
Proof. exact (sos_struct_cubic_complete_lemma K rational cands cf). Qed.
Print Assumptions cyclic_cubic_none.

(** ** C41: tables *)
Theorem schur_table (K : OrdField) (n : nat) (e : ex K) : schur n = Some e ->
  manifest true e = true /\
  forall A B C, defined (pt3 A B C) e ->
    ev (pt3 A B C) e = A ^ (n - 2) * (A - B) * (A - C) + B ^ (n - 2) * (B - C) * (B - A) + C ^ (n - 2) * (C - A) * (C - B).
Proof. intro H. exact (conj (schur_manifest K n e H) (fun A B C => schur_sound K n e A B C H)). Qed.
Print Assumptions schur_table.

(** The entries other than n = 2 are right. *)
Theorem schurinv_table_partial (K : OrdField) (n : nat) (e : ex K) : (n <> 2)%nat -> schurinv n = Some e ->
  manifest true e = true /\
  forall A B C, defined (pt3 A B C) e ->
    ev (pt3 A B C) e = (B * C) ^ ((n - 2) / 2) * (A - B) * (A - C) + (C * A) ^ ((n - 2) / 2) * (B - C) * (B - A)
                       + (A * B) ^ ((n - 2) / 2) * (C - A) * (C - B).
Proof. intros N H. exact (conj (schurinv_manifest K n e H) (fun A B C => schurinv_sound K n e A B C N H)). Qed.
Print Assumptions schurinv_table_partial.

(** The entry n = 2 is not. *)
Theorem schurinv_2_refuted :
  ~ (forall (K : OrdField) (e : ex K) (A B C : K), schurinv 2 = Some e ->
      ev (pt3 A B C) e = (A - B) * (A - C) + (B - C) * (B - A) + (C - A) * (C - B)).
Proof. exact schurinv_2_wrong. Qed.
Print Assumptions schurinv_2_refuted.

Theorem amgm_table (K : OrdField) (i1 j1 k1 i2 j2 k2 : nat) (e : ex K) :
  amgm (i1, j1, k1) (i2, j2, k2) = Some e ->
  manifest true e = true /\
  forall A B C, defined (pt3 A B C) e ->
    ev (pt3 A B C) e =
      (A ^ i1 * B ^ j1 * C ^ k1 + B ^ i1 * C ^ j1 * A ^ k1 + C ^ i1 * A ^ j1 * B ^ k1)
      - (A ^ i2 * B ^ j2 * C ^ k2 + B ^ i2 * C ^ j2 * A ^ k2 + C ^ i2 * A ^ j2 * B ^ k2).
Proof. intro H. exact (conj (amgm_manifest K _ _ e H) (fun A B C => amgm_sound K _ _ e A B C H)). Qed.
Print Assumptions amgm_table.

(** ** C42: uncentred polynomials *)
Theorem handle_uncentered_input (K : OrdField) (d : nat) (cf : nat -> nat -> nat -> K) :
  cyclic3 cf ->
  cyclic3 (uncentered_input d cf) /\ tri_poly d (uncentered_input d cf) 1 1 1 = 0.
Proof. intro H. exact (conj (uncentered_input_cyclic K d cf H) (uncentered_input_111 K d cf)). Qed.
Print Assumptions handle_uncentered_input.

Theorem handle_uncentered_exact (K : OrdField) (solver : (nat -> nat -> nat -> K) -> option (ex K))
    (d : nat) (cf : nat -> nat -> nat -> K) (e : ex K) :
  handle_uncentered solver d cf = Some e ->
  0 <= tri_poly d cf 1 1 1 /\
  exists sol, solver (uncentered_input d cf) = Some sol /\
   (forall env, defined env e <-> defined env sol) /\
   (forall A B C, ev (pt3 A B C) sol = tri_poly d (uncentered_input d cf) A B C ->
                  ev (pt3 A B C) e = tri_poly d cf A B C) /\
   (manifest true sol = true -> manifest true e = true).
Proof. exact (handle_uncentered_sound K solver d cf e). Qed.
Print Assumptions handle_uncentered_exact.

(** [None] only if the polynomial is negative at (1,1,1) or the solver gave up on the centred one. *)
Theorem handle_uncentered_none (K : OrdField) (solver : (nat -> nat -> nat -> K) -> option (ex K))
    (d : nat) (cf : nat -> nat -> nat -> K) :
  handle_uncentered solver d cf = None ->
  tri_poly d cf 1 1 1 < 0 \/ solver (uncentered_input d cf) = None.
Proof. exact (handle_uncentered_none_lemma K solver d cf). Qed.
Print Assumptions handle_uncentered_none.

(** ** Non-vacuity *)
Definition cf_cubic (m p q' r : QcOF) : nat -> nat -> nat -> QcOF := fun i j k =>
  match i, j, k with
  | 3, 0, 0 | 0, 3, 0 | 0, 0, 3 => m
  | 2, 1, 0 | 0, 2, 1 | 1, 0, 2 => p
  | 1, 2, 0 | 0, 1, 2 | 2, 0, 1 => q'
  | 1, 1, 1 => r
  | _, _, _ => q 0 1
  end%nat.
Definition cf_quadratic (x y : QcOF) : nat -> nat -> nat -> QcOF := fun i j k =>
  match i, j, k with
  | 2, 0, 0 | 0, 2, 0 | 0, 0, 2 => x
  | 1, 1, 0 | 0, 1, 1 | 1, 0, 1 => y
  | _, _, _ => q 0 1
  end%nat.
Example cf_cubic_cyclic m p q' r : cyclic3 (cf_cubic m p q' r).
Proof.
  intros i j k. do 4 (destruct i as [|i]; [do 4 (destruct j as [|j]; [do 4 (destruct k as [|k]; [reflexivity|]); reflexivity|]); do 4 (destruct k as [|k]; [reflexivity|]); reflexivity|]).
  do 4 (destruct j as [|j]; [do 4 (destruct k as [|k]; [reflexivity|]); reflexivity|]); do 4 (destruct k as [|k]; [reflexivity|]); reflexivity.
Qed.
Example cf_quadratic_cyclic x y : cyclic3 (cf_quadratic x y).
Proof.
  intros i j k. do 3 (destruct i as [|i]; [do 3 (destruct j as [|j]; [do 3 (destruct k as [|k]; [reflexivity|]); reflexivity|]); do 3 (destruct k as [|k]; [reflexivity|]); reflexivity|]).
  do 3 (destruct j as [|j]; [do 3 (destruct k as [|k]; [reflexivity|]); reflexivity|]); do 3 (destruct k as [|k]; [reflexivity|]); reflexivity.
Qed.
Definition is_some {A} (o : option A) : bool := match o with Some _ => true | None => false end.
Definition ok_some {A} (o : res (option A)) : bool := match o with Ok (Some _) => true | _ => false end.
Definition ok_none {A} (o : res (option A)) : bool := match o with Ok None => true | _ => false end.

Example quad_cases :
  is_some (sos_struct_quadratic (cf_quadratic (q 1 1) (q (-1) 2))) = true /\
  is_some (sos_struct_quadratic (cf_quadratic (q 1 1) (q 5 1))) = true /\
  is_some (sos_struct_quadratic (cf_quadratic (q 1 1) (q (-2) 1))) = false.
Proof. vm_compute. repeat split. Qed.

(** A copositive form that is neither PSD nor has non-negative entries only. *)
Definition cf_cop : nat -> nat -> nat -> QcOF := fun i j k =>
  match i, j, k with
  | 2, 0, 0 | 0, 2, 0 | 0, 0, 2 => q 1 1
  | 1, 1, 0 => q (-2) 1 | 0, 1, 1 => q (-2) 1 | 1, 0, 1 => q 3 1
  | _, _, _ => q 0 1
  end%nat.
Example acyclic_cases :
  is_some (sos_struct_acyclic_quadratic cf_cop) = true /\
  is_some (sos_struct_acyclic_quadratic (cf_quadratic (q 1 1) (q (-2) 1))) = false.
Proof. vm_compute. repeat split. Qed.

(** One cubic for each branch of the dispatcher: symmetric, degenerate,
    parabola, lifted, irrational, and one that is negative somewhere. *)
Example cubic_cases :
  ok_some (sos_struct_cubic true [] (cf_cubic (q 1 1) (q (-1) 1) (q (-1) 1) (q 3 1))) = true /\
  ok_some (sos_struct_cubic true [] (cf_cubic (q 0 1) (q 1 1) (q 2 1) (q (-9) 1))) = true /\
  ok_some (sos_struct_cubic true [] (cf_cubic (q 1 1) (q 1 1) (q (-2) 1) (q 0 1))) = true /\
  ok_some (sos_struct_cubic true [q 6 5; q 3 2] (cf_cubic (q 1 1) (q (-13) 5) (q 1 1) (q 9 5))) = true /\
  ok_some (sos_struct_cubic false [] (cf_cubic (q 1 1) (q (-13) 5) (q 1 1) (q 9 5))) = true /\
  ok_none (sos_struct_cubic true [] (cf_cubic (q 1 1) (q (-3) 1) (q 1 1) (q 100 1))) = true.
Proof. vm_compute. repeat split. Qed.
Example table_cases :
  is_some (@schur QcOF 5) = true /\ is_some (@schurinv QcOF 6) = true /\
  is_some (@amgm QcOF (1,2,0)%nat (1,1,1)%nat) = true.
Proof. vm_compute. repeat split. Qed.
Example uncentered_cases :
  is_some (handle_uncentered sos_struct_quadratic 2 (cf_quadratic (q 1 1) (q 3 2))) = true.
Proof. vm_compute. reflexivity. Qed.
