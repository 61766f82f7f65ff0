(** * Properties of the four-variable solvers (C43, C65, C66) *)
From Coq Require Import Bool List Arith ZArith Lia.
From Verif Require Import OrdField Base Poly Perm Coeff Expr Sparse SparseSym Quarternary QuarternaryFacts QuarternaryQuartic QuarternarySolve.
Import ListNotations.
Local Open Scope of_scope.

(** C43.  The solver of symmetric cubics decides them: it returns an expression exactly when the
    polynomial is non-negative on the non-negative orthant, and the expression equals the
    polynomial wherever its denominator does not vanish, which includes the open orthant; it is a
    sum of products of non-negative terms. *)
Theorem quarternary_cubic_symmetric_decides (K : OrdField) (p : poly K) : wf 4 p -> homog K 3 p -> sym4 K p ->
  ((exists e, cubic4_symmetric p = Some e) <-> forall x, orthant 4 x -> 0 <= peval x p) /\
  (forall e, cubic4_symmetric p = Some e ->
     (forall x, defined x e -> ev x e = peval x p) /\
     (forall x, (forall i, (i < 4)%nat -> 0 < x i) -> defined x e) /\ manifest true e = true).
Proof.
  intros Hw Hh Hs. split.
  - split; [intros [e He] x Hx; exact (cubic4_symmetric_some K p e x Hw Hh Hs He Hx)|].
    intro H. destruct (cubic4_symmetric p) as [e|] eqn:E; [exists e; reflexivity|exfalso].
    destruct (cubic4_symmetric_none K p Hw Hh Hs E) as [x [Hx Hn]]. exact (proj1 (flt_not_le K _ _) Hn (H x Hx)).
  - intros e He. split; [intros x Hd; exact (cubic4_symmetric_exact K p e x Hw Hh Hs He Hd)|].
    split; [intros x Hx; exact (cubic4_symmetric_defined K p e x He Hx)|exact (cubic4_symmetric_manifest K p e He)].
Qed.
Print Assumptions quarternary_cubic_symmetric_decides.

(** C43.  The solver of cubics that are symmetric in a, b, c: exact when the coefficient of a b^2
    vanishes and that of a b c does not (neither is checked, see below). [cands] is whatever the
    numerical search proposes; non-negative proposals give a sum of non-negative terms. *)
Theorem quarternary_cubic_partial_exact_partial (K : OrdField) cands (p : poly K) e : wf 4 p -> homog K 3 p -> cyclic3_1 K p ->
  coef p [1;2;0;0]%nat = 0 -> coef p [1;1;1;0]%nat <> 0 -> cubic4_partial cands p = Ok (Some e) ->
  (forall x, defined x e -> ev x e = peval x p) /\ ((forall v, In v cands -> 0 <= v) -> manifest true e = true).
Proof.
  intros Hw Hh Hs H12 Hm He. split; [intros x Hd; exact (cubic4_partial_exact K cands p e x Hw Hh Hs H12 Hm He Hd)|].
  intro Hv. exact (cubic4_partial_manifest K cands p e Hm Hv He).
Qed.
Print Assumptions quarternary_cubic_partial_exact_partial.

(** C65.  The solver of cyclic quartics: its answer equals the polynomial at every real point, is
    defined everywhere and a sum of non-negative terms on the orthant, whatever the numerical
    search proposes. *)
Theorem quarternary_quartic_exact (K : OrdField) ts (p : poly K) e : wf 4 p -> homog K 4 p -> cyclic4 K p ->
  quartic4_real ts p = Some e ->
  (forall x, ev x e = peval x p) /\ (forall x, defined x e) /\ manifest true e = true.
Proof.
  intros Hw Hh Hs He. split; [intro x; exact (quartic4_real_exact K ts p e x Hw Hh Hs He)|].
  split; [intro x; exact (quartic4_defined K ts p e x He)|exact (quartic4_manifest K ts p e He)].
Qed.
Print Assumptions quarternary_quartic_exact.

(** C66.  The whole four-variable search: for a homogeneous polynomial that is cyclic in its four
    variables, the answer is a certificate on the orthant. *)
Theorem quarternary_search_cyclic (K : OrdField) cands ts (p : poly K) e N : wf 4 p -> nonzero K p -> homog K N p ->
  coef_inv K 4 [1;2;3;0]%nat p -> solve4 cands ts p = Returns (Some e) -> certifies (orthant 4) p e.
Proof.
  intros Hw Hn Hh Hi. apply (solve4_sym K cands ts p e N Hw Hn Hh).
  apply (is_cyclic_of_inv K p [1;2;3;0]%nat); auto. left. reflexivity.
Qed.
Print Assumptions quarternary_search_cyclic.

(** C66.  It is one too for polynomials unchanged by the exchange of a and b, if the proposals are
    non-negative.  (The dispatcher only tests the rotation of a, b, c, see the refutations.) *)
Theorem quarternary_search_swap_partial (K : OrdField) cands ts (p : poly K) e N : wf 4 p -> nonzero K p -> homog K N p ->
  coef_inv K 4 [1;0;2;3]%nat p -> (forall q v, In v (cands q) -> 0 <= v) ->
  solve4 cands ts p = Returns (Some e) -> certifies (orthant 4) p e.
Proof. exact (solve4_abc K cands ts p e N). Qed.
Print Assumptions quarternary_search_swap_partial.

(** ** Cases *)
Ltac returned t := let H := fresh in
  assert (H : match t with Some _ => true | None => false end = true) by (vm_compute; reflexivity);
  destruct t as [?e|]; [eexists; reflexivity|discriminate H].
Ltac returned_ok t := let H := fresh in
  assert (H : match t with Ok (Some _) => true | _ => false end = true) by (vm_compute; reflexivity);
  destruct t as [[?e|]|]; [eexists; reflexivity|discriminate H|discriminate H].
Ltac returned_out t := let H := fresh in
  assert (H : match t with Returns (Some _) => true | _ => false end = true) by (vm_compute; reflexivity);
  destruct t as [[?e|]| | |]; [eexists; reflexivity|discriminate H|discriminate H|discriminate H|discriminate H].

Lemma nonzero_check (p : poly QcOF) : forallb (fun t => negb (snd t =? 0)) p = true -> nonzero QcOF p.
Proof.
  intros N m c H E. rewrite forallb_forall in N. specialize (N _ H). cbn [snd] in N. rewrite E in N. discriminate N.
Qed.
(** all monomials with the exponents of [m] in any order *)
Definition orbit_sum (m : list (list nat)) (c : QcOF) : poly QcOF := map (fun k => (k, c)) m.
Definition cubes := [[3;0;0;0];[0;3;0;0];[0;0;3;0];[0;0;0;3]]%nat.
Definition triples4 := [[1;1;1;0];[1;1;0;1];[1;0;1;1];[0;1;1;1]]%nat.
(** a^3 + b^3 + c^3 + d^3 - (abc + abd + acd + bcd) *)
Definition cubic_case : poly QcOF := orbit_sum cubes (q 1 1) ++ orbit_sum triples4 (- q 1 1).
Example quarternary_cubic_case :
  wf 4 cubic_case /\ homog QcOF 3 cubic_case /\ is_cyclic 4 gens_sym cubic_case = true /\
  (exists e, cubic4_symmetric cubic_case = Some e) /\
  cubic4_symmetric (orbit_sum cubes (q 1 1) ++ orbit_sum triples4 (- q 2 1)) = None.
Proof.
  split; [split; [repeat constructor; cbn; intuition discriminate|intros m H; cbn in H; intuition; subst; reflexivity]|].
  split; [intros m H; cbn in H; intuition; subst; reflexivity|]. split; [vm_compute; reflexivity|].
  split; [match goal with |- exists e, ?t = Some e => returned t end|vm_compute; reflexivity].
Qed.

(** d^3 + 2abc + d(a^2 + b^2 + c^2 - 2ab - 2bc - 2ca), an example of the source, with 1/2 proposed *)
Definition partial_case : poly QcOF :=
  [([0;0;0;3]%nat, q 1 1); ([1;1;1;0]%nat, q 2 1); ([2;0;0;1]%nat, q 1 1); ([0;2;0;1]%nat, q 1 1); ([0;0;2;1]%nat, q 1 1);
   ([1;1;0;1]%nat, - q 2 1); ([0;1;1;1]%nat, - q 2 1); ([1;0;1;1]%nat, - q 2 1)].
Example quarternary_partial_case :
  wf 4 partial_case /\ homog QcOF 3 partial_case /\ nonzero QcOF partial_case /\ is_cyclic 4 gens_abc partial_case = true /\
  coef_inv QcOF 4 [1;0;2;3]%nat partial_case /\
  (exists e, cubic4_partial [q 1 2] partial_case = Ok (Some e)) /\
  (exists e, solve4 (fun _ => [q 1 2]) (fun _ => []) partial_case = Returns (Some e)).
Proof.
  assert (W : wf 4 partial_case) by (split; [repeat constructor; cbn; intuition discriminate|intros m H; cbn in H; intuition; subst; reflexivity]).
  split; [exact W|]. split; [intros m H; cbn in H; intuition; subst; reflexivity|].
  split; [apply nonzero_check; vm_compute; reflexivity|]. split; [vm_compute; reflexivity|].
  split. { apply (support_check QcOF 4); [apply (perm4 [1;0;2;3]%nat); right; left; reflexivity|exact W|vm_compute; reflexivity]. }
  split; [match goal with |- exists e, ?t = Ok (Some e) => returned_ok t end|match goal with |- exists e, ?t = Returns (Some e) => returned_out t end].
Qed.

(** the sum of the monomials in the orbits under rotation of a, b, c, d *)
Definition cyc_poly (l : list (list nat * QcOF)) : poly QcOF :=
  flat_map (fun t => map (fun k => (k, snd t))
    (nodup (list_eq_dec Nat.eq_dec) (map (fun g => act 0%nat g (fst t)) [[0;1;2;3];[1;2;3;0];[2;3;0;1];[3;0;1;2]]%nat))) l.
(** s(26a2b2+90a2bc-36a2bd+65a2c2-108a2cd-37abcd), an example of the source, and s(a4)-s(a3b) *)
Definition fluorite_case := cyc_poly [([2;2;0;0]%nat, q 26 1); ([2;1;1;0]%nat, q 90 1); ([2;1;0;1]%nat, - q 36 1);
  ([2;0;2;0]%nat, q 130 1); ([2;0;1;1]%nat, - q 108 1); ([1;1;1;1]%nat, - q 148 1)].
Definition quartic_case := cyc_poly [([4;0;0;0]%nat, q 1 1); ([3;1;0;0]%nat, - q 1 1)].
Example quarternary_quartic_case :
  wf 4 fluorite_case /\ homog QcOF 4 fluorite_case /\ is_cyclic 4 gens_cyc fluorite_case = true /\
  (exists e, quartic4_real [] fluorite_case = Some e) /\
  wf 4 quartic_case /\ homog QcOF 4 quartic_case /\ nonzero QcOF quartic_case /\ coef_inv QcOF 4 [1;2;3;0]%nat quartic_case /\
  (exists e, quartic4_real [q 2 1] quartic_case = Some e) /\
  (exists e, solve4 (fun _ => []) (fun _ => [q 2 1]) quartic_case = Returns (Some e)).
Proof.
  assert (W0 : wf 4 fluorite_case).
  { split; [|intros m H; vm_compute in H; intuition; subst; reflexivity].
    let l := eval vm_compute in (keys fluorite_case) in change (NoDup l). repeat constructor; cbn; intuition discriminate. }
  assert (W : wf 4 quartic_case) by (split; [repeat constructor; vm_compute; intuition discriminate|intros m H; vm_compute in H; intuition; subst; reflexivity]).
  split; [exact W0|].
  split; [intros m H; vm_compute in H; intuition; subst; reflexivity|]. split; [vm_compute; reflexivity|].
  split; [match goal with |- exists e, ?t = Some e => returned t end|]. split; [exact W|].
  split; [intros m H; vm_compute in H; intuition; subst; reflexivity|].
  split; [apply nonzero_check; vm_compute; reflexivity|].
  split. { apply (support_check QcOF 4); [apply (perm4 [1;2;3;0]%nat); left; reflexivity|exact W|vm_compute; reflexivity]. }
  split; [match goal with |- exists e, ?t = Some e => returned t end|match goal with |- exists e, ?t = Returns (Some e) => returned_out t end].
Qed.

(** ** What fails: polynomials cyclic but not symmetric in a, b, c
    For ab^2 + bc^2 + ca^2 + d(a^2 + b^2 + c^2) the coefficient of abc is zero and
    [sos_struct_quadratic] is called on the cubic (cubic.py:75-76); for
    abc + d^3 + ab^2 + bc^2 + ca^2 the coefficient of ab^2 is never read. Both polynomials are
    non-negative on the orthant, but the answers are not equal to them. *)
Definition bad1 : poly QcOF :=
  [([1;2;0;0]%nat, q 1 1); ([0;1;2;0]%nat, q 1 1); ([2;0;1;0]%nat, q 1 1);
   ([2;0;0;1]%nat, q 1 1); ([0;2;0;1]%nat, q 1 1); ([0;0;2;1]%nat, q 1 1)].
Definition bad2 : poly QcOF :=
  [([1;1;1;0]%nat, q 1 1); ([0;0;0;3]%nat, q 1 1);
   ([1;2;0;0]%nat, q 1 1); ([0;1;2;0]%nat, q 1 1); ([2;0;1;0]%nat, q 1 1)].
Theorem quarternary_search_refuted :
  forall p, In p [bad1; bad2] ->
  wf 4 p /\ homog QcOF 3 p /\
  exists e x, solve4 (fun _ => [q 0 1]) (fun _ => []) p = Returns (Some e) /\
    (forall i, 0 < x i) /\ defined x e /\ ev x e <> peval x p.
Proof.
  set (x := fun _ : nat => q 2 1).
  assert (G : forall p : poly QcOF,
    match solve4 (fun _ => [q 0 1]) (fun _ => []) p with
    | Returns (Some e) => definedb x e && negb (ev x e =? peval x p) | _ => false end = true ->
    exists e x, solve4 (fun _ => [q 0 1]) (fun _ => []) p = Returns (Some e) /\
      (forall i : nat, 0 < x i) /\ defined x e /\ ev x e <> peval x p).
  { intros p C. destruct (solve4 (fun _ => [q 0 1]) (fun _ => []) p) as [[e|]| | |]; try discriminate C.
    rewrite andb_true_iff in C. destruct C as [C1 C2]. exists e, x. split; [reflexivity|].
    split; [intros i; apply fltb_lt; vm_compute; reflexivity|]. split; [apply definedb_defined; exact C1|].
    intro H. rewrite H, (proj2 (feqb_eq QcOF _ _) eq_refl) in C2. discriminate C2. }
  intros p [<-|[<-|[]]].
  - split; [split; [repeat constructor; cbn; intuition discriminate|intros m H; cbn in H; intuition; subst; reflexivity]|].
    split; [intros m H; cbn in H; intuition; subst; reflexivity|]. apply G. vm_compute. reflexivity.
  - split; [split; [repeat constructor; cbn; intuition discriminate|intros m H; cbn in H; intuition; subst; reflexivity]|].
    split; [intros m H; cbn in H; intuition; subst; reflexivity|]. apply G. vm_compute. reflexivity.
Qed.
Print Assumptions quarternary_search_refuted.
