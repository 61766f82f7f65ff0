(** * Properties of the reverse polyblock approximation (C85) *)
From Coq Require Import Bool List Arith ZArith QArith Qcanon.
From Verif Require Import OrdField Base MonoOpt MonoOptFacts MonoOptMain.
Import ListNotations.
Local Open Scope of_scope.

(** The box [a <= p <= b], increasing functions on it, the contract [solver_ok] of the root solver
    with tolerance [eps] and the feasible points are defined in MonoOptFacts.v. *)

(** Whatever the choices, the number of iterations and the outcome: a reported point lies in the
    box, satisfies [g <= 0] exactly and [h >= -eps], and the reported value is its value. *)
Theorem rpa_point_feasible : forall (K : OrdField) (f g h : list K -> K) sup_fg sup_h
    (rtol eps tol : K) (a b : list K) choose max_iter cbv r x,
  length b = length a -> ple K a b ->
  increasing K a b f -> increasing K a b g -> increasing K a b h ->
  solver_ok K f g h sup_fg sup_h eps a b -> 0 <= eps -> 0 <= tol -> 0 < rtol ->
  rpa_monotonic f g h sup_fg sup_h rtol tol choose max_iter a b cbv = Ok r ->
  r_x r = Some x ->
  (length x = length a /\ ple K a x /\ ple K x b) /\ g x <= 0 /\ - eps <= h x /\ r_f r = Some (f x).
Proof.
  exact (fun K f g h sfg sh rtol eps tol a b choose m cbv r x L A F G H S E T R Q X =>
    proj1 (rpa_facts K f g h sfg sh rtol eps tol a b L A F G H S E T R choose m cbv r Q) x X).
Qed.
Print Assumptions rpa_point_feasible.

(** Converged, and no vertex dropped only by [np.all(z >= a)]: the value is optimal up to [tol];
    with no point reported nothing feasible is below the given bound (nothing at all if it is
    infinite). Missing: the same without the condition on dropped vertices, which is refuted below. *)
Theorem rpa_optimal_partial : forall (K : OrdField) (f g h : list K -> K) sup_fg sup_h
    (rtol eps tol : K) (a b : list K) choose max_iter cbv r y,
  length b = length a -> ple K a b ->
  increasing K a b f -> increasing K a b g -> increasing K a b h ->
  solver_ok K f g h sup_fg sup_h eps a b -> 0 <= eps -> 0 <= tol -> 0 < rtol ->
  rpa_monotonic f g h sup_fg sup_h rtol tol choose max_iter a b cbv = Ok r ->
  r_conv r = true -> r_lost r = false ->
  (length y = length a /\ ple K a y /\ ple K y b) -> g y <= 0 -> 0 <= h y ->
  match r_x r with
  | Some x => f x <= f y + tol
  | None => match cbv with None => False | Some c => c <= f y end
  end.
Proof.
  exact (fun K f g h sfg sh rtol eps tol a b choose m cbv r y L A F G H S E T R Q C N B1 B2 B3 =>
    proj2 (rpa_facts K f g h sfg sh rtol eps tol a b L A F G H S E T R choose m cbv r Q) C N y
      (conj B1 (conj B2 B3))).
Qed.
Print Assumptions rpa_optimal_partial.

(** In one variable the condition always holds: a converged answer is optimal. *)
Theorem rpa_optimal_one_variable : forall (K : OrdField) (f g h : list K -> K) sup_fg sup_h
    (rtol eps tol : K) (a b : list K) choose max_iter cbv r y,
  length a = 1%nat -> length b = 1%nat -> ple K a b ->
  increasing K a b f -> increasing K a b g -> increasing K a b h ->
  solver_ok K f g h sup_fg sup_h eps a b -> 0 <= eps -> 0 <= tol -> 0 < rtol ->
  rpa_monotonic f g h sup_fg sup_h rtol tol choose max_iter a b cbv = Ok r ->
  r_conv r = true ->
  (length y = length a /\ ple K a y /\ ple K y b) -> g y <= 0 -> 0 <= h y ->
  match r_x r with
  | Some x => f x <= f y + tol
  | None => match cbv with None => False | Some c => c <= f y end
  end.
Proof.
  exact (fun K f g h sfg sh rtol eps tol a b choose m cbv r y La Lb A F G H S E T R Q C B1 B2 B3 =>
    proj2 (rpa_facts K f g h sfg sh rtol eps tol a b (eq_trans Lb (eq_sym La)) A F G H S E T R choose m cbv r Q) C
      (one_not_lost K f g h sfg sh rtol tol choose m a b cbv r La Lb Q) y
      (conj B1 (conj B2 B3))).
Qed.
Print Assumptions rpa_optimal_one_variable.

(** With no iteration allowed the call raises, unless the corners show infeasibility. *)
Theorem rpa_no_iterations_raises : forall (K : OrdField) (f g h : list K -> K) sup_fg sup_h
    (rtol tol : K) (a b : list K) choose r,
  rpa_monotonic f g h sup_fg sup_h rtol tol choose 0 a b None = Ok r ->
  0 < g a \/ h b < 0.
Proof. exact no_iterations. Qed.
Print Assumptions rpa_no_iterations_raises.

(** Refuted: a converged answer of the code need not be optimal. The solver used here is exact on
    every segment it answers. Minimise [step1 x + step2 y] over [x + y >= 1] in the unit square:
    the code reports 4, but the feasible point (1/4, 3/4) has value 1. *)
Theorem rpa_converged_optimal_refuted :
  exists r v (y : list QcOF),
    let a := [0; 0] in let b := [1; 1] in
    increasing QcOF a b (ex_f QcOF) /\ increasing QcOF a b (ex_g QcOF) /\
    increasing QcOF a b (ex_h QcOF) /\
    solver_ok QcOF (ex_f QcOF) (ex_g QcOF) (ex_h QcOF) (ex_sup QcOF) (ex_sup_h QcOF) 0 a b /\
    rpa_monotonic (ex_f QcOF) (ex_g QcOF) (ex_h QcOF) (ex_sup QcOF) (ex_sup_h QcOF)
      (1 / fnat 1000) (1 / fnat 10) (fun _ => O) 10 a b None = Ok r /\
    r_conv r = true /\ r_f r = Some v /\
    (length y = length a /\ ple QcOF a y /\ ple QcOF y b) /\
    ex_g QcOF y <= 0 /\ 0 <= ex_h QcOF y /\ ex_f QcOF y + (1 + 1) < v.
Proof. exact bad_run. Qed.
Print Assumptions rpa_converged_optimal_refuted.

(** Non-vacuity: with the objective [x + y] and [tol = 1/2] the run converges, drops nothing and
    reports (1/2, 1/2) with value 1. *)
Example rpa_case :
  (match rpa_monotonic (sum2 QcOF) (ex_g QcOF) (ex_h QcOF) (lazy_sup QcOF) (ex_sup_h QcOF)
      (1 / fnat 1000) (1 / fnat 2) (fun _ => O) 10 [0; 0] [1; 1] None with
   | Ok r => Some (option_map (map this) (r_x r), option_map this (r_f r), r_iter r, r_conv r, r_lost r)
   | Err _ => None
   end) = Some (Some [1 # 2; 1 # 2]%Q, Some (1 # 1)%Q, 2%nat, true, false).
Proof. vm_compute. reflexivity. Qed.
Example rpa_case_hypotheses :
  increasing QcOF [0; 0] [1; 1] (sum2 QcOF) /\ increasing QcOF [0; 0] [1; 1] (ex_g QcOF) /\
  increasing QcOF [0; 0] [1; 1] (ex_h QcOF) /\
  solver_ok QcOF (sum2 QcOF) (ex_g QcOF) (ex_h QcOF) (lazy_sup QcOF) (ex_sup_h QcOF) 0 [0; 0] [1; 1] /\
  ple QcOF [0; 0] [1; 1].
Proof.
  exact (conj (sum2_inc _ _ _) (conj (ex_g_inc _ _ _) (conj (ex_h_inc _ _ _) (conj (ex_good _ _ _) (unit_box _))))).
Qed.
