(** * Properties of the drivers (C12, C13, C48, C59) *)
From Coq Require Import Bool List Arith ZArith Lia.
From Verif Require Import OrdField Base Poly Expr PermCheck Sparse Sparse_props FreeSyms Driver.
Import ListNotations.

(** C12.  [sum_of_squares] calls the methods in order with their configurations; a solution is the
    one of the first method that has one, all methods before it found nothing and none after it is
    called; None means that every method was called and found nothing; an exception is a KeyError
    for the first unknown name reached, or comes from the method called last. *)
Theorem sum_of_squares_first (Cfg Prob Sol : Type) (empty : Cfg) (method_of : nat -> option (Cfg -> Prob -> res (option Sol)))
    ORDER CONFIGS p order configs :
  let (r, calls) := sum_of_squares Cfg Prob Sol empty method_of ORDER CONFIGS p order configs in
  let order := match order with Some o => o | None => ORDER end in
  let cs := match configs with Some c => c | None => CONFIGS end in
  let nothing := finds_nothing Cfg Prob Sol empty method_of cs p in
  let call := fun m => (m, cfg_get Cfg empty cs m) in
  match r with
  | Ok (Some s) => exists l1 m l2 f, order = l1 ++ m :: l2 /\ Forall nothing l1 /\
      method_of m = Some f /\ f (cfg_get Cfg empty cs m) p = Ok (Some s) /\ calls = map call (l1 ++ [m])
  | Ok None => Forall nothing order /\ calls = map call order
  | Err e => exists l1 m l2, order = l1 ++ m :: l2 /\ Forall nothing l1 /\
      ((method_of m = None /\ e = KeyError /\ calls = map call l1) \/
       (exists f, method_of m = Some f /\ f (cfg_get Cfg empty cs m) p = Err e /\ calls = map call (l1 ++ [m])))
  end.
Proof. exact (sos_loop_spec Cfg Prob Sol empty method_of _ _ p). Qed.
Print Assumptions sum_of_squares_first.

(** three methods: the first finds nothing, the second succeeds, the third would raise, and name 9
    is unknown but never reached *)
Example sum_of_squares_case :
  let m := fun k : nat => match k with
    | 0 => Some (fun (_ _ : nat) => Ok (None : option nat)) | 1 => Some (fun c p => Ok (Some (c + p)))
    | 2 => Some (fun _ _ => Err ValueError) | _ => None end in
  sum_of_squares nat nat nat 0 m [0;1;2] [(1, 7)] 5 None None = (Ok (Some 12), [(0, 0); (1, 7)]) /\
  sum_of_squares nat nat nat 0 m [0;1;2] [] 5 (Some [0;1;9]) None = (Ok (Some 5), [(0, 0); (1, 0)]) /\
  sum_of_squares nat nat nat 0 m [0;1;2] [] 5 (Some [0;9;1]) None = (Err KeyError, [(0, 0)]) /\
  sum_of_squares nat nat nat 0 m [0;1;2] [] 5 (Some [0;2;1]) None = (Err ValueError, [(0, 0); (2, 0)]) /\
  sum_of_squares nat nat nat 0 m [0;1;2] [] 5 (Some [0;0]) None = (Ok None, [(0, 0); (0, 0)]).
Proof. repeat split. Qed.

Section C13.
Variables Text PolyT Sol : Type.
Variable strip : Text -> Text.
Variable is_empty : Text -> bool.
Variable parse : Text -> res (option PolyT).
Variable deg : PolyT -> res nat.
Variable solve : PolyT -> res (option Sol).
Variable is_equal : Sol -> bool.
Variables (isdir ends_csv : path -> bool) (stamp sos_prefix underscore getcwd : path).
Notation multiple := (sum_of_squares_multiple Text PolyT Sol strip is_empty parse deg solve is_equal isdir ends_csv stamp sos_prefix underscore getcwd).

(** C13.  With [ignore_errors] (the default) and no saving there is exactly one record for every
    non-blank string and every polynomial of the input, in order, each describing that problem
    alone, also when parsing or solving raises.  Missing: the degree must be computable for every
    polynomial that is read (see the refutation), and other objects in the list are dropped. *)
Theorem batch_records_partial items : degrees_known Text PolyT strip parse deg items ->
  exists probs rs, probs = filter (fun i => keep_item Text PolyT is_empty (strip_item Text PolyT strip i)) items /\
    (forall i, In i probs <-> In i items /\ is_problem Text PolyT strip is_empty i) /\
    multiple true items SaveNo None = Ok (rs, None) /\
    Forall2 (describes Text PolyT Sol parse deg solve is_equal) (map (strip_item Text PolyT strip) probs) rs.
Proof. exact (batch_records Text PolyT Sol strip is_empty parse deg solve is_equal isdir ends_csv stamp sos_prefix underscore getcwd items). Qed.

(** C59.  Saving: the records computed are returned when there is at least one and the name of the
    file has a directory part; saving never alters them. *)
Theorem batch_saved_partial items s source rs : multiple true items SaveNo None = Ok (rs, None) -> rs <> [] ->
  (exists f, file_name isdir ends_csv stamp sos_prefix underscore getcwd s source = Ok (Some f) /\ dirname f <> []) \/ s = SaveNo ->
  exists f, multiple true items s source = Ok (rs, f).
Proof. exact (batch_saved Text PolyT Sol strip is_empty parse deg solve is_equal isdir ends_csv stamp sos_prefix underscore getcwd items s source rs). Qed.
End C13.
Print Assumptions batch_records_partial.
Print Assumptions batch_saved_partial.

(** texts and polynomials are numbers; 0 is blank, 1 does not parse, 2 has no solution, 3 makes the
    solver raise, 4 is solved inexactly, 5 exactly *)
Definition toy (deg : nat -> res nat) := sum_of_squares_multiple nat nat nat (fun t => t) (Nat.eqb 0)
  (fun t => if Nat.eqb t 1 then Err ValueError else Ok (Some t)) deg
  (fun p => match p with 2 => Ok None | 3 => Err OtherError | _ => Ok (Some p) end) (Nat.eqb 5)
  (fun _ => false) (fun _ => true) [46] [115] [95] [47; 104].
Example batch_case :
  degrees_known nat nat (fun t => t) (fun t => if Nat.eqb t 1 then Err ValueError else Ok (Some t)) Ok [IStr 5; IStr 1; IOther; IPoly 3; IStr 0; IStr 2; IPoly 4] /\
  match toy Ok true [IStr 5; IStr 1; IOther; IPoly 3; IStr 0; IStr 2; IPoly 4] SaveTrue None with
  | Ok (rs, f) => map (r_status nat nat nat) rs = [Success; Invalid; ErrorS; Fail; Inaccurate] /\ f = Some [47; 104; 47; 115; 46]
  | Err _ => False
  end.
Proof. split; [intros i p _ _; exists p; reflexivity|vm_compute; split; reflexivity]. Qed.

(** A polynomial without a degree, as given by [return_type='text'], aborts the whole batch: the
    degree is taken outside the [try]. *)
Theorem batch_isolation_refuted :
  exists items, In (IStr 5) items /\
    toy (fun p => if Nat.eqb p 4 then Err TypeError else Ok p) true items SaveNo None = Err TypeError.
Proof. exists [IStr 5; IStr 4]. split; [left; reflexivity|reflexivity]. Qed.
Print Assumptions batch_isolation_refuted.

(** Relative file names without a directory lose all results after the work is done: problems read
    from "p" with the default [save_result=True], and results saved to "r". So does an input
    without problems. *)
Theorem batch_saved_refuted :
  (exists items, toy Ok true items SaveTrue (Some [112]) = Err OtherError /\ exists rs, rs <> [] /\ toy Ok true items SaveNo None = Ok (rs, None)) /\
  (exists items, toy Ok true items (SaveTo [114]) None = Err OtherError) /\
  toy Ok true [IStr 0] SaveTrue None = Err KeyError.
Proof.
  split; [|split; [exists [IStr 5]; reflexivity|reflexivity]].
  exists [IStr 5]. split; [reflexivity|]. eexists. split; [|reflexivity]. discriminate.
Qed.
Print Assumptions batch_saved_refuted.

Local Open Scope of_scope.
(** C48.  With sound solvers for two, three, four variables and so on, a structural solution of a
    goal that is not a single monomial certifies it at every point allowed by the constraints; with
    none, at every real point.  Missing: single monomials, see below. *)
Theorem structural_certifies_partial (K : OrdField) (s2 s3 s4 nq qd co : @subsolver K) n p ineqs eqs e : wf n p ->
  sub_sound s2 -> sub_sound s3 -> sub_sound s4 -> sub_sound nq -> sub_sound qd -> sub_sound co ->
  is_monomial p = false -> StructuralSOS s2 s3 s4 nq qd co n p ineqs eqs = Some e ->
  certifies (feasible ineqs eqs) p e.
Proof. exact (dispatch_sound s2 s3 s4 nq qd co n p ineqs eqs e). Qed.
Print Assumptions structural_certifies_partial.

(** C48.  A single monomial is returned unchanged; it is non-negative on the orthant, and
    everywhere only when its exponents are even. *)
Theorem structural_monomial_partial (K : OrdField) (s2 s3 s4 nq qd co : @subsolver K) n p ineqs eqs e : wf n p ->
  is_monomial p = true -> StructuralSOS s2 s3 s4 nq qd co n p ineqs eqs = Some e ->
  (forall x, ev x e = peval x p) /\ (forall x, orthant n x -> 0 <= peval x p) /\
  (forallb (fun m => forallb Nat.even m) (keys p) = true -> forall x, 0 <= peval x p).
Proof. exact (dispatch_monomial s2 s3 s4 nq qd co n p ineqs eqs e). Qed.
Print Assumptions structural_monomial_partial.

(** the quadratic solver as a subsolver, on a quadratic form in four variables *)
Definition quad_sub : @subsolver QcOF := fun _ p _ _ =>
  if Nat.leb (total_degree p) 2 then
    if (nodupb (keys p) && forallb (fun m => Nat.eqb (length m) 4) (keys p))%bool then
      match sos_struct_quadratic 4 p with Ok r => r | Err _ => None end else None
  else None.
Definition no_sub : @subsolver QcOF := fun _ _ _ _ => None.
Example structural_case :
  let p : poly QcOF := [([2;0;0;0]%nat, q 1 1); ([1;1;0;0]%nat, - q 1 1); ([0;2;0;0]%nat, q 1 1); ([0;0;1;1]%nat, q 1 1); ([0;0;2;0]%nat, q 1 1); ([0;0;0;2]%nat, q 1 1)] in
  wf 4 p /\ sub_sound no_sub /\ sub_sound quad_sub /\ is_monomial p = false /\
  match StructuralSOS no_sub no_sub no_sub no_sub quad_sub no_sub 4 p [] [] with Some _ => true | None => false end = true.
Proof.
  cbv zeta. split; [split; [repeat constructor; cbn; intuition discriminate|intros m H; cbn in H; intuition; subst; reflexivity]|].
  split; [intros act p ki ke e H; discriminate|].
  split; [clear; intros act p ki ke e H; unfold quad_sub in H|split; [reflexivity|vm_compute; reflexivity]].
  destruct (Nat.leb_spec (total_degree p) 2) as [Hd|]; [|discriminate].
  destruct (nodupb (keys p) && _)%bool eqn:C; [|discriminate]. rewrite andb_true_iff, forallb_forall in C. destruct C as [C1 C2].
  destruct (struct_quadratic_exact QcOF 4 p) as [r [E [Hr _]]].
  - split; [apply nodupb_spec, C1|]. intros m Hm. apply Nat.eqb_eq, C2, Hm.
  - apply total_degree_le, Hd.
  - rewrite E in H. subst r. destruct Hr as [A [B D]]. intros x _ _. split; [apply A|apply manifest_false_nonneg; auto].
Qed.

(** x*y without constraints is "certified" by itself, and is negative at (1, -1). *)
Theorem structural_certifies_refuted :
  exists (p : poly QcOF) e (x : nat -> QcOF), wf 2 p /\ (forall s : @subsolver QcOF, StructuralSOS s s s s s s 2 p [] [] = Some e) /\
    peval x p < 0.
Proof.
  exists [([1;1]%nat, q 1 1)]. eexists. exists (fun i => match i with O => q 1 1 | _ => - q 1 1 end).
  split; [split; [repeat constructor; cbn; tauto|intros m [<-|[]]; reflexivity]|].
  split; [intro s; reflexivity|apply fltb_lt; vm_compute; reflexivity].
Qed.
Print Assumptions structural_certifies_refuted.
