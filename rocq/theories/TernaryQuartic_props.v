(** * C40: cyclic ternary quartics *)
From Coq Require Import Bool List Arith Lia ZArith.
From Verif Require Import OrdField Base Expr CertLimit TernaryCubic TernaryQuartic.
Import ListNotations.
Local Open Scope of_scope.

(** Whatever roots and rational approximations the numerical steps propose, a
    returned certificate equals the quartic wherever it is defined, it is
    defined whenever a + b + c <> 0, and it is built from non-negative pieces. *)
Theorem cyclic_quartic_sound (K : OrdField) (irr rational : bool) (ugcd : option K) (cands xs : list K)
    (approx : K -> list K) (cf : nat -> nat -> nat -> K) (e : ex K) :
  cyclic3 cf -> sos_struct_quartic irr rational ugcd cands xs approx cf = Ok (Some e) ->
  (forall A B C, defined (pt3 A B C) e -> ev (pt3 A B C) e = tri_poly 4 cf A B C) /\
  (forall A B C, A + B + C <> 0 -> defined (pt3 A B C) e) /\
  manifest true e = true /\
  (forall A B C, 0 <= A -> 0 <= B -> 0 <= C -> 0 <= tri_poly 4 cf A B C).
Proof. exact (sos_struct_quartic_sound_lemma K irr rational ugcd cands xs approx cf e). Qed.
Print Assumptions cyclic_quartic_sound.

(** No input makes the solver raise. *)
Theorem cyclic_quartic_total (K : OrdField) (irr rational : bool) (ugcd : option K) (cands xs : list K)
    (approx : K -> list K) (cf : nat -> nat -> nat -> K) :
  exists r, sos_struct_quartic irr rational ugcd cands xs approx cf = Ok r.
Proof. exact (sos_struct_quartic_total K irr rational ugcd cands xs approx cf). Qed.
Print Assumptions cyclic_quartic_total.

(** The core branch proves the quartic at all real points. *)
Theorem quartic_core_everywhere (K : OrdField) (f : q4 K) (e : ex K) :
  qm f <> 0 -> quartic_core f = Ok (Some e) ->
  (forall env, defined env e) /\ (forall A B C, ev (pt3 A B C) e = q4_value K f A B C) /\ manifest false e = true.
Proof. exact (quartic_core_real K f e). Qed.
Print Assumptions quartic_core_everywhere.

(** The answer [None] is right when the coefficient of a^4 is not positive,
    when the value at (1,1,1) is negative and when
    3m(m+n) >= p^2+pq+q^2.  Missing: the remaining case, where [None] also
    means that no numerical candidate was good enough. *)
Theorem cyclic_quartic_none_partial (K : OrdField) (irr rational : bool) (ugcd : option K) (cands xs : list K)
    (approx : K -> list K) (cf : nat -> nat -> nat -> K) :
  cyclic3 cf ->
  ((cf 4 0 0)%nat <= 0 \/ (cf 4 0 0)%nat + (cf 3 1 0)%nat + (cf 2 2 0)%nat + (cf 1 3 0)%nat + (cf 2 1 1)%nat < 0
   \/ 0 <= 3 * (cf 4 0 0)%nat * ((cf 4 0 0)%nat + (cf 2 2 0)%nat)
       - ((cf 3 1 0)%nat ^ 2 + (cf 3 1 0)%nat * (cf 1 3 0)%nat + (cf 1 3 0)%nat ^ 2)) ->
  sos_struct_quartic irr rational ugcd cands xs approx cf = Ok None -> orthant_negative 4 cf.
Proof. exact (sos_struct_quartic_none_lemma K irr rational ugcd cands xs approx cf). Qed.
Print Assumptions cyclic_quartic_none_partial.

(** ** Cases meeting the hypotheses *)
Definition cf_quartic (m p n q' r : QcOF) : nat -> nat -> nat -> QcOF := fun i j k =>
  match i, j, k with
  | 4, 0, 0 | 0, 4, 0 | 0, 0, 4 => m
  | 3, 1, 0 | 0, 3, 1 | 1, 0, 3 => p
  | 2, 2, 0 | 0, 2, 2 | 2, 0, 2 => n
  | 1, 3, 0 | 0, 1, 3 | 3, 0, 1 => q'
  | 2, 1, 1 | 1, 2, 1 | 1, 1, 2 => r
  | _, _, _ => q 0 1
  end%nat.
Example cf_quartic_cyclic m p n q' r : cyclic3 (cf_quartic m p n q' r).
Proof.
  intros i j k. do 5 (destruct i as [|i]; [do 5 (destruct j as [|j]; [do 5 (destruct k as [|k]; [reflexivity|]); reflexivity|]); do 5 (destruct k as [|k]; [reflexivity|]); reflexivity|]).
  do 5 (destruct j as [|j]; [do 5 (destruct k as [|k]; [reflexivity|]); reflexivity|]); do 5 (destruct k as [|k]; [reflexivity|]); reflexivity.
Qed.
Definition ok4 {A} (o : res (option A)) : bool := match o with Ok (Some _) => true | _ => false end.
Definition none4 {A} (o : res (option A)) : bool := match o with Ok None => true | _ => false end.
Definition run4 irr cands xs m p n q' r := sos_struct_quartic (K := QcOF) irr true None cands xs (fun _ => []) (cf_quartic m p n q' r).
(** Vasile's inequality (core), the border case, the biased case, a real
    uncentred one, the search for x, a degenerate one; a failing one. *)
Example quartic_cases :
  ok4 (run4 true [] [] (q 1 1) (q (-3) 1) (q 2 1) (q 0 1) (q 0 1)) = true /\
  ok4 (run4 true [] [] (q 1 1) (q (-2) 1) (q (-1) 1) (q 2 1) (q 0 1)) = true /\
  ok4 (run4 false [q 1 1; q 2 1] [] (q 1 1) (q (-3) 1) (q 1 4) (q 3 1) (q (-5) 4)) = true /\
  ok4 (run4 true [] [] (q 1 1) (q (-3) 1) (q 4 1) (q (-2) 1) (q 2 9)) = true /\
  ok4 (run4 true [] [q 1 1; q 2 1; q 3 1; q 4 1] (q 1 1) (q (-3) 1) (q 7 2) (q (-2) 1) (q 5 1)) = true /\
  ok4 (run4 true [] [] (q 0 1) (q 1 1) (q (-2) 1) (q 1 1) (q 0 1)) = true /\
  none4 (run4 true [] [] (q 0 1) (q 1 1) (q (-3) 1) (q 1 1) (q 1 1)) = true.
Proof. vm_compute. repeat split. Qed.
