(** * Properties of the generic structural solvers (C35, C36) *)
From Coq Require Import Bool List Arith ZArith Lia.
From Verif Require Import OrdField Base Poly Expr Coeff Congruence Sparse.
Import ListNotations.
Local Open Scope of_scope.

(** C35.  [sos_struct_linear]: what it returns equals the polynomial at every point, is
    non-negative on the non-negative orthant, and None is returned for a polynomial of degree at
    most one only when it is negative somewhere on the orthant. *)
Theorem struct_linear_exact (K : OrdField) n (p : poly K) : (0 < n)%nat -> wf n p ->
  match sos_struct_linear n p with
  | Some e => (forall x, ev x e = peval x p) /\ manifest true e = true /\ certifies (orthant n) p e /\ deg_le 1 p
  | None => deg_le 1 p -> exists x, orthant n x /\ peval x p < 0
  end.
Proof.
  intros Hn Hp. destruct (sos_struct_linear n p) as [e|] eqn:E.
  - destruct (linear_value K n p e Hn Hp E) as [A [B C]]. exact (Logic.conj A (Logic.conj B (Logic.conj (linear_orthant K n p e Hn Hp E) C))).
  - intro Hd. exact (linear_none K n p Hn Hp Hd E).
Qed.
Print Assumptions struct_linear_exact.

(** whether a call returned an expression; evaluating this does not print the expression *)
Ltac returned t := let H := fresh in
  assert (H : match t with Some _ => true | None => false end = true) by (vm_compute; reflexivity);
  destruct t as [?e|]; [eexists; reflexivity|discriminate H].
Ltac returned_ok t := let H := fresh in
  assert (H : match t with Ok (Some _) => true | _ => false end = true) by (vm_compute; reflexivity);
  destruct t as [[?e|]|]; [eexists; reflexivity|discriminate H|discriminate H].
Ltac returned_out t := let H := fresh in
  assert (H : match t with Returns (Some _) => true | _ => false end = true) by (vm_compute; reflexivity);
  destruct t as [[?e|]| | |]; [eexists; reflexivity|discriminate H|discriminate H|discriminate H|discriminate H].

Example struct_linear_case :
  let p : poly QcOF := [([1;0;0]%nat, q 2 1); ([0;0;1]%nat, q 1 3); ([0;0;0]%nat, q 5 1)] in
  wf 3 p /\ deg_le 1 p /\ (exists e, sos_struct_linear 3 p = Some e) /\
  sos_struct_linear 3 [([1;0;0]%nat, q 2 1); ([0;1;0]%nat, - q 1 3)] = None.
Proof.
  cbv zeta. split; [split; [repeat constructor; cbn; intuition discriminate|intros m H; cbn in H; intuition; subst; reflexivity]|].
  split; [intros m H; cbn in H; intuition; subst; cbn; lia|]. split; [match goal with |- exists e, ?t = Some e => returned t end|vm_compute; reflexivity].
Qed.

(** C35.  [sos_struct_quadratic] on a polynomial of degree at most two never raises; it returns a
    sum of non-negative multiples of squares equal to the polynomial exactly when the polynomial
    is non-negative everywhere. *)
Theorem struct_quadratic_exact (K : OrdField) n (p : poly K) : wf n p -> deg_le 2 p ->
  exists r, sos_struct_quadratic n p = Ok r /\
    (match r with
     | Some e => (forall x, ev x e = peval x p) /\ manifest false e = true /\ forall x, defined x e
     | None => exists x, peval x p < 0
     end) /\
    ((exists e, r = Some e) <-> forall x, 0 <= peval x p).
Proof.
  intros Hp Hd. destruct (quadratic_total K n p Hp Hd) as [[e [H1 [H2 [H3 H4]]]]|[H1 H2]].
  - exists (Some e). split; [exact H1|]. split; [exact (Logic.conj H2 (Logic.conj H3 H4))|]. split; [|intros _; exists e; reflexivity].
    intros _ x. rewrite <- H2. apply manifest_false_nonneg; auto.
  - exists None. split; [exact H1|]. split; [exact H2|]. split; [intros [e He]; discriminate|].
    intro H. destruct H2 as [x Hx]. exfalso. exact (proj1 (flt_not_le K _ _) Hx (H x)).
Qed.
Print Assumptions struct_quadratic_exact.

Example struct_quadratic_case :
  let p : poly QcOF := [([2;0]%nat, q 1 1); ([1;1]%nat, - q 2 1); ([0;2]%nat, q 3 1); ([1;0]%nat, q 1 1); ([0;0]%nat, q 1 2)] in
  wf 2 p /\ deg_le 2 p /\ (exists e, sos_struct_quadratic 2 p = Ok (Some e)) /\
  sos_struct_quadratic 2 [([2;0]%nat, q 1 1); ([1;1]%nat, - q 3 1); ([0;2]%nat, q 2 1)] = Ok None.
Proof.
  cbv zeta. split; [split; [repeat constructor; cbn; intuition discriminate|intros m H; cbn in H; intuition; subst; reflexivity]|].
  split; [intros m H; cbn in H; intuition; subst; cbn; lia|]. split; [match goal with |- exists e, ?t = Ok (Some e) => returned_ok t end|vm_compute; reflexivity].
Qed.

(** The degree is not checked: on a cubic the exponents beyond two are dropped, and the returned
    expression has another value.  (The four-variable cubic solver calls it so.) *)
Theorem struct_quadratic_cubic_refuted :
  exists (p : poly QcOF) e (x : nat -> QcOF), wf 2 p /\ sos_struct_quadratic 2 p = Ok (Some e) /\ ev x e <> peval x p.
Proof.
  set (p := [([2;1]%nat, q 1 1)] : poly QcOF). set (x := fun _ : nat => q 2 1).
  assert (C : match sos_struct_quadratic 2 p with Ok (Some e) => negb (ev x e =? peval x p) | _ => false end = true) by (vm_compute; reflexivity).
  destruct (sos_struct_quadratic 2 p) as [[e|]|] eqn:E; [|discriminate C|discriminate C].
  exists p, e, x. split; [split; [repeat constructor; cbn; tauto|intros m [<-|[]]; reflexivity]|]. split; [exact E|].
  intro H. rewrite H in C. rewrite (proj2 (feqb_eq QcOF _ _) eq_refl) in C. discriminate C.
Qed.
Print Assumptions struct_quadratic_cubic_refuted.

(** C36.  Extraction of monomial factors and common exponents, and the trial of several solvers in
    turn, keep certificates on the orthant, whatever the value of [real]. *)
Theorem struct_common_orthant (K : OrdField) n (p : poly K) solvers real e : wf n p ->
  (forall s, In (Some s) solvers -> sound_orthant K n s) ->
  sos_struct_common n p solvers real = Returns (Some e) -> certifies (orthant n) p e.
Proof. intros Hp Hs H. exact (extract_orthant K n p _ real e Hp (wrapped_sound_orthant K n solvers Hs) H). Qed.
Print Assumptions struct_common_orthant.

(** C36.  On all real points it keeps certificates when the monomial factor is a square. *)
Theorem struct_common_real_partial (K : OrdField) n (p : poly K) solvers e : wf n p ->
  (forall s, In (Some s) solvers -> sound_orthant K n s /\ sound_real K n s) ->
  forallb Nat.even (fst (cancel_abc n p)) = true ->
  sos_struct_common n p solvers true = Returns (Some e) -> certifies (fun _ => True) p e.
Proof.
  intros Hp Hs. exact (extract_real K n p _ e Hp (wrapped_sound_orthant K n solvers (fun s H => proj1 (Hs s H)))
    (wrapped_sound_real K n solvers (fun s H => proj2 (Hs s H)))).
Qed.
Print Assumptions struct_common_real_partial.

(** the answer is the one of the first solver that has one *)
Theorem struct_common_first (K : OrdField) (l : list (option (@solver K))) p b e : wrapped_solver l p b = Returns (Some e) ->
  exists l1 s l2, l = l1 ++ Some s :: l2 /\ s p b = Returns (Some e) /\
    forall s', In (Some s') l1 -> s' p b = Returns None \/ s' p b = Unsolvable.
Proof. exact (wrapped_first K l p b e). Qed.
Print Assumptions struct_common_first.

(** the solver by degree: with sound entries in its table it is sound on the orthant; the degree
    of the first entry may only be used for homogeneous polynomials *)
Theorem degree_solver_sound_partial (K : OrdField) n table hom (p : poly K) b e : (0 < n)%nat -> wf n p ->
  (forall d s, In (d, s) table -> sound_orthant K n s) -> (hom = true -> deg_le (coeff_degree p) p) ->
  degree_specified_solver n table hom p b = Returns (Some e) -> certifies (orthant n) p e.
Proof. intros Hn Hp Ht Hh. exact (degree_solver_orthant K n table hom Hn Ht p b e Hp Hh). Qed.
Print Assumptions degree_solver_sound_partial.

Example struct_common_case :
  let p : poly QcOF := [([4;2]%nat, q 1 1); ([2;4]%nat, q 1 1); ([2;2]%nat, q 3 1)] in
  let s : @solver QcOF := degree_specified_solver 2 [] false in
  wf 2 p /\ forallb Nat.even (fst (cancel_abc 2 p)) = true /\
  sound_orthant QcOF 2 s /\ (exists e, sos_struct_common 2 p [None; Some s] true = Returns (Some e)).
Proof.
  cbv zeta. split; [split; [repeat constructor; cbn; intuition discriminate|intros m H; cbn in H; intuition; subst; reflexivity]|].
  split; [vm_compute; reflexivity|]. split; [|match goal with |- exists e, ?t = Returns (Some e) => returned_out t end].
  intros p b e Hp. apply degree_solver_sound_partial; [lia|exact Hp|intros d s []|discriminate].
Qed.

(** With [real=True] an odd factor is still pulled out: for x*y^3 + x^3*y and a solver that is
    sound for all real points, the product x*y*(x^2+y^2) is returned as the answer for real x, y. *)
Theorem struct_common_real_refuted :
  exists (p : poly QcOF) s e (x : nat -> QcOF), wf 2 p /\ sound_orthant QcOF 2 s /\ sound_real QcOF 2 s /\
    sos_struct_common 2 p [Some s] true = Returns (Some e) /\ defined x e /\ ev x e < 0.
Proof.
  set (p := [([3;1]%nat, q 1 1); ([1;3]%nat, q 1 1)] : poly QcOF).
  set (x := fun i : nat => match i with O => q 1 1 | _ => - q 1 1 end : QcOF).
  set (s := (fun p _ => if Nat.leb (total_degree p) 2 then match sos_struct_quadratic 2 p with Ok r => Returns r | Err e => Raises e end else Returns None) : @solver QcOF).
  assert (HS : forall (D : (nat -> QcOF) -> Prop) (p : poly QcOF) e, wf 2 p -> (if Nat.leb (total_degree p) 2 then match sos_struct_quadratic 2 p with Ok r => Returns r | Err e => Raises e end else Returns None) = Returns (Some e) -> certifies D p e).
  { clear. intros D p e Hp. destruct (Nat.leb_spec (total_degree p) 2) as [Hd|]; [|discriminate].
    destruct (struct_quadratic_exact QcOF 2 p Hp) as [r [-> [Hr _]]]; [apply total_degree_le; exact Hd|].
    intro H. injection H as ->. destruct Hr as [A [B C]]. intros x _ _. split; [apply A|apply manifest_false_nonneg; auto]. }
  assert (C : match sos_struct_common 2 p [Some s] true with Returns (Some e) => (ev x e <? 0) | _ => false end = true) by (vm_compute; reflexivity).
  assert (Cd : match sos_struct_common 2 p [Some s] true with Returns (Some e) => definedb x e | _ => false end = true) by (vm_compute; reflexivity).
  destruct (sos_struct_common 2 p [Some s] true) as [[e|]| | |] eqn:E; try discriminate C.
  exists p, s, e, x.
  split; [split; [repeat constructor; cbn; intuition discriminate|intros m H; cbn in H; intuition; subst; reflexivity]|].
  split; [intros r b e' Hp H; exact (HS _ r e' Hp H)|]. split; [intros r b e' Hp _ H; exact (HS _ r e' Hp H)|].
  split; [exact E|]. split; [apply definedb_defined; exact Cd|apply fltb_lt; exact C].
Qed.
Print Assumptions struct_common_real_refuted.

(** Reading the degree from the first entry of a non-homogeneous polynomial selects the wrong
    solver: x + x^2*y is taken for linear, which it is not, and the fallback answers None although
    the polynomial is non-negative on the orthant; with a quadratic first entry the value is wrong. *)
Theorem degree_solver_nonhomogeneous_refuted :
  exists (p : poly QcOF) e (x : nat -> QcOF), wf 2 p /\ degree_specified_solver 2 [] true p None = Returns (Some e) /\
    orthant 2 x /\ defined x e /\ ev x e <> peval x p.
Proof.
  set (p := [([2;0]%nat, q 1 1); ([2;1]%nat, q 1 1)] : poly QcOF). set (x := fun _ : nat => q 2 1).
  assert (C : match degree_specified_solver 2 [] true p None with Returns (Some e) => negb (ev x e =? peval x p) | _ => false end = true) by (vm_compute; reflexivity).
  assert (Cd : match degree_specified_solver 2 [] true p None with Returns (Some e) => definedb x e | _ => false end = true) by (vm_compute; reflexivity).
  destruct (degree_specified_solver 2 [] true p None) as [[e|]| | |] eqn:E; try discriminate C.
  exists p, e, x.
  split; [split; [repeat constructor; cbn; intuition discriminate|intros m H; cbn in H; intuition; subst; reflexivity]|].
  split; [exact E|]. split; [intros i _; apply fleb_le; vm_compute; reflexivity|]. split; [apply definedb_defined; exact Cd|].
  intro H. rewrite H in C. rewrite (proj2 (feqb_eq QcOF _ _) eq_refl) in C. discriminate C.
Qed.
Print Assumptions degree_solver_nonhomogeneous_refuted.
