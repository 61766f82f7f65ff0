(** * C70: the generators of the quadratic module *)
From Coq Require Import Bool List Arith Lia ZArith QArith Qcanon.
From Verif Require Import OrdField Base Perm Poly PolyOps Shared Monomials SdpSos SdpQmodule.
Import ListNotations.
Local Open Scope of_scope.

(** [c] is a selection of [l], in the order of [l] and without repetition of positions. *)
Inductive selection {A} : list A -> list A -> Prop :=
| sel_nil : selection [] []
| sel_skip a c l : selection c l -> selection c (a :: l)
| sel_take a c l : selection c l -> selection (a :: c) (a :: l).
Lemma selection_sub {A} (c l : list A) : selection c l <-> sub c l.
Proof. split; induction 1; constructor; assumption. Qed.
(** every monomial has degree at most one *)
Definition linear {K : OrdField} (p : poly K) : Prop := forall t, In t p -> (list_sum (fst t) <= 1)%nat.
Lemma linear_iff {K : OrdField} (p : poly K) : is_linear p = true <-> linear p.
Proof. unfold is_linear, linear. rewrite forallb_forall. split; intros H t Ht; [apply Nat.leb_le, H, Ht|apply Nat.leb_le, H, Ht]. Qed.

(** Each generator is the product of different linear constraints and at most one other constraint, its expression has
    the value of its polynomial, and it is non-negative wherever the constraints are. *)
Theorem qmodule_generators_sound (K : OrdField) n f (ineqs : list (cons_item (K := K))) triv p ls :
  (forall i, In i ineqs -> wf n (fst i) /\ forall x, snd i x = peval x (fst i)) -> p <> PNone ->
  qmodule_list n f ineqs triv p = Ok ls -> forall l i, In l ls -> In i l ->
  (exists lin oth, selection lin (filter (fun c : cons_item => is_linear (fst c)) ineqs) /\
     (oth = [] \/ exists o, oth = [o] /\ In o ineqs /\ ~ linear (fst o)) /\
     forall x, peval x (fst i) = fprod (map (fun c : cons_item => peval x (fst c)) (lin ++ oth))) /\
  wf n (fst i) /\ (forall x, snd i x = peval x (fst i)) /\
  forall x, (forall c, In c ineqs -> 0 <= peval x (fst c)) -> 0 <= snd i x.
Proof.
  intros HI Hp H l i Hl Hi. pose proof (qmodule_sound K n f ineqs triv p ls HI Hp H l i Hl Hi) as Q.
  pose proof (fun x => from_nonneg K n ineqs i x Q) as NN. destruct Q as (c & r & Hs & Hr & (W & E & P)).
  split; [|split; [exact W|split; [exact E|intros x Hx; rewrite E; apply NN, Hx]]]. exists c, r. split; [apply selection_sub, Hs|]. split; [|exact P].
  destruct Hr as [->|(j & Hj & ->)]; [left; reflexivity|]. right. exists j. split; [reflexivity|]. apply filter_In in Hj. destruct Hj as [Hj Nl]. split; [exact Hj|].
  intro C. apply linear_iff in C. apply negb_true_iff in Nl. congruence.
Qed.
Print Assumptions qmodule_generators_sound.

(** Every product of linear constraints with 1 or another constraint is listed, provided its degree is at most that of
    the polynomial and of the same parity. *)
Theorem qmodule_generators_complete (K : OrdField) n (f : poly K) ineqs triv lin o :
  (forall i, In i ineqs -> wf n (fst i) /\ forall x, snd i x = peval x (fst i)) ->
  selection lin (filter (fun c : cons_item => is_linear (fst c)) ineqs) -> lin <> [] ->
  (o = one_item n \/ (In o ineqs /\ ~ linear (fst o))) ->
  let m := fold_left mul_item lin (one_item n) in
  (total_degree (fst m) + total_degree (fst o) <= total_degree f)%nat ->
  ((total_degree f - (total_degree (fst m) + total_degree (fst o))) mod 2 = 0)%nat ->
  exists l, qmodule_list n f ineqs triv PLinear = Ok [l] /\ In (mul_item m o) l.
Proof.
  intros HI Hs Hne Ho m Hd He. apply (qmodule_complete K n f ineqs triv lin o HI); [apply selection_sub, Hs|exact Hne| |].
  - destruct Ho as [->|[Ho Nl]]; [left; reflexivity|right]. unfold other_part. apply filter_In. split; [exact Ho|]. apply negb_true_iff.
    destruct (is_linear (fst o)) eqn:E; [|reflexivity]. exfalso. apply Nl, linear_iff, E.
  - unfold degree_ok. fold m. apply andb_true_intro. split; [apply Nat.leb_le, Hd|apply Nat.eqb_eq, He].
Qed.
Print Assumptions qmodule_generators_complete.

(** The progressive search ends with the list of the direct one. *)
Theorem qmodule_progressive_ends_linear (K : OrdField) n (f : poly K) ineqs triv :
  exists l ls, qmodule_list n f ineqs triv PLinear = Ok [l] /\ qmodule_list n f ineqs triv PProgressive = Ok ls /\ ls <> [] /\ last ls [] = l.
Proof. exact (qmodule_progressive_last K n f ineqs triv). Qed.
Print Assumptions qmodule_progressive_ends_linear.

(** Constraints a, b and 1 - type items for a quartic in two variables: the lists of generators *)
Definition va : cons_item (K := QcOF) := ([([1;0]%nat, q 1 1)], fun x => x 0%nat).
Definition vb : cons_item (K := QcOF) := ([([0;1]%nat, q 1 1)], fun x => x 1%nat).
Definition vab : cons_item (K := QcOF) := ([([1;1]%nat, q 1 1)], fun x => fmul (x 0%nat) (x 1%nat)).
Definition quartic : poly QcOF := [([4;0]%nat, q 1 1); ([0;4]%nat, q 1 1)].
Definition monos (r : res (list (list (cons_item (K := QcOF))))) : list (list (list (list nat))) :=
  match r with Ok ls => map (map (fun i : cons_item => keys (fst i))) ls | Err _ => [] end.
Example qmodule_case :
  monos (qmodule_list 2 quartic [va; vb; vab] true PProgressive) =
    [[[[0;0]]; [[1;1]]]; [[[0;0]]; [[1;1]]; [[1;1]]; [[2;2]]]]%nat /\
  monos (qmodule_list 2 quartic [va; vb; vab] true PLinear) = [[[[0;0]]; [[1;1]]; [[1;1]]; [[2;2]]]]%nat.
Proof. vm_compute. split; reflexivity. Qed.
(** The list above has the generator ab twice: [clear_polys_by_symmetry] removes it only for a non-trivial group. *)
Theorem qmodule_generators_distinct_refuted :
  match qmodule_list 2 quartic [va; vb; vab] true PLinear with Ok [[_; i; j; _]] => peqb QcOF (fst i) (fst j) = true | _ => False end.
Proof. vm_compute. reflexivity. Qed.
Print Assumptions qmodule_generators_distinct_refuted.
(** [preordering='none'] with the default trivial constraint raises a TypeError for every input. *)
Theorem qmodule_none_refuted (K : OrdField) n (f : poly K) ineqs : qmodule_list n f ineqs true PNone = Err TypeError.
Proof. reflexivity. Qed.
Print Assumptions qmodule_none_refuted.
