(** * Properties of the removal of unrelated symbols (C51) *)
From Coq Require Import Bool List Arith ZArith Lia.
From Verif Require Import OrdField Base FreeSyms.
Import ListNotations.
Local Open Scope of_scope.

(** C51.  The kept symbols are those connected to a symbol of the goal through a chain of
    constraints. *)
Theorem clear_free_symbols_active n poly ineqs eqs : poly <> [] -> bounded n (poly :: ineqs ++ eqs) ->
  forall x, In x (active_gens n poly ineqs eqs) <-> (x < n)%nat /\ exists y, In y poly /\ connected (poly :: ineqs ++ eqs) x y.
Proof. exact (active_gens_spec n poly ineqs eqs). Qed.
Print Assumptions clear_free_symbols_active.

(** C51.  The reduced problem: every feasible point stays feasible, the goal and the kept
    constraints use kept symbols only, and for a feasible problem the goal is non-negative on the
    points allowed by the kept constraints iff it is on those allowed by all. *)
Theorem clear_free_symbols_problem (K : OrdField) n (poly : @sympoly K) ineqs eqs act ki ke : fst poly <> [] ->
  bounded n (fst poly :: map fst ineqs ++ map fst eqs) ->
  depends poly -> (forall p, In p ineqs \/ In p eqs -> depends p) ->
  clear_free_symbols n poly ineqs eqs = (act, ki, ke) ->
  (forall x, feasible ineqs eqs x -> feasible ki ke x) /\
  (forall p, p = poly \/ In p ki \/ In p ke -> forall x, In x (fst p) -> In x act) /\
  ((exists x, feasible ineqs eqs x) ->
   ((forall x, feasible ki ke x -> 0 <= snd poly x) <-> (forall x, feasible ineqs eqs x -> 0 <= snd poly x))).
Proof. exact (clear_problem n poly ineqs eqs act ki ke). Qed.
Print Assumptions clear_free_symbols_problem.

Ltac destruct_ors := repeat match goal with H : _ \/ _ |- _ => destruct H | H : False |- _ => destruct H end.

(** goal in x0, constraints linking x0-x2, x2-x3, and x1-x4 *)
Example clear_case :
  let poly : @sympoly QcOF := ([0]%nat, fun x => x 0%nat) in
  let ineqs : list (@sympoly QcOF) := [([0;2]%nat, fun x => x 0%nat - x 2%nat); ([1;4]%nat, fun x => x 1%nat + x 4%nat)] in
  let eqs : list (@sympoly QcOF) := [([2;3]%nat, fun x => x 2%nat - x 3%nat * x 3%nat)] in
  fst poly <> [] /\ bounded 5 (fst poly :: map fst ineqs ++ map fst eqs) /\ depends poly /\
  (forall p, In p ineqs \/ In p eqs -> depends p) /\ (exists x, feasible ineqs eqs x) /\
  fst (fst (clear_free_symbols 5 poly ineqs eqs)) = [0;2;3]%nat /\
  length (snd (fst (clear_free_symbols 5 poly ineqs eqs))) = 1%nat.
Proof.
  cbv zeta. split; [discriminate|]. split; [intros p x Hp Hx; cbn in Hp; destruct_ors; subst; cbn in Hx; destruct_ors; subst; lia|].
  split; [intros x y H; apply H; left; reflexivity|].
  split. { intros p Hp x y H. cbn in Hp. intuition; subst; cbn in *; repeat rewrite H by auto; reflexivity. }
  split. { exists (fun _ => (0 : QcOF)). split; intros p Hp; cbn in Hp; intuition; subst; cbn; try (vm_compute; discriminate); vm_compute; reflexivity. }
  split; vm_compute; reflexivity.
Qed.

(** For a goal without symbols the first generator is kept, and so are the constraints on it, with
    generators that are not kept. *)
Theorem clear_free_symbols_constant_refuted :
  exists (poly : @sympoly QcOF) ineqs act ki ke, depends poly /\ (forall p, In p ineqs -> depends p) /\
    bounded 2 (fst poly :: map fst ineqs) /\ clear_free_symbols 2 poly ineqs [] = (act, ki, ke) /\
    exists p x, In p ki /\ In x (fst p) /\ ~ In x act.
Proof.
  exists ([], fun _ => q 1 1), [([0;1]%nat, fun x => x 0%nat - x 1%nat)]. do 3 eexists.
  split; [intros x y _; reflexivity|]. split; [intros p [<-|[]] x y H; cbn; rewrite !H by (cbn; auto); reflexivity|].
  split; [intros p x Hp Hx; cbn in Hp; destruct_ors; subst; cbn in Hx; destruct_ors; lia|]. split; [reflexivity|].
  eexists. exists 1%nat. split; [left; reflexivity|]. split; [right; left; reflexivity|]. cbn. intuition discriminate.
Qed.
Print Assumptions clear_free_symbols_constant_refuted.

(** Without a feasible point the two problems differ: a goal that holds vacuously need not hold
    for the reduced problem, since the infeasible part was removed. *)
Theorem clear_free_symbols_infeasible_refuted :
  exists (poly : @sympoly QcOF) ineqs act ki ke, fst poly <> [] /\ depends poly /\ (forall p, In p ineqs -> depends p) /\
    bounded 2 (fst poly :: map fst ineqs) /\ clear_free_symbols 2 poly ineqs [] = (act, ki, ke) /\
    (forall x, feasible ineqs [] x -> 0 <= snd poly x) /\ ~ (forall x, feasible ki ke x -> 0 <= snd poly x).
Proof.
  exists ([0]%nat, fun x => x 0%nat), [([1]%nat, fun x => x 1%nat); ([1]%nat, fun x => - x 1%nat - q 1 1)]. do 3 eexists.
  split; [discriminate|]. split; [intros x y H; cbn; apply H; left; reflexivity|].
  split; [intros p Hp x y H; cbn in Hp; intuition; subst; cbn in *; rewrite H by auto; reflexivity|].
  split; [intros p x Hp Hx; cbn in Hp; destruct_ors; subst; cbn in Hx; destruct_ors; lia|]. split; [reflexivity|]. split.
  - intros x [H _]. exfalso. assert (A := H _ (or_introl eq_refl)). assert (B := H _ (or_intror (or_introl eq_refl))). cbn [snd] in A, B.
    assert (C := fadd_nonneg QcOF _ _ A B).
    apply (proj1 (flt_not_le QcOF (- q 1 1) 0)); [vm_compute; reflexivity|].
    rewrite <- (sub_cancel QcOF (x 1%nat) (q 1 1)). exact C.
  - intro H. assert (A := H (fun _ => - q 1 1)). cbn [snd] in A. revert A. intro A.
    apply (proj1 (flt_not_le QcOF (- q 1 1) 0)); [vm_compute; reflexivity|]. apply A. split; intros p [].
Qed.
Print Assumptions clear_free_symbols_infeasible_refuted.
