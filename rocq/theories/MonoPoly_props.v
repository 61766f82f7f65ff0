(** * Properties of rpa_gmop, poly_as_dm and rpa_polyopt (C86) *)
From Coq Require Import Bool List Arith ZArith QArith Qcanon.
From Verif Require Import OrdField Base Perm Poly PolyOps MonoOpt MonoOptFacts MonoPoly MonoPolyFacts MonoPolyMain.
Import ListNotations.
Local Open Scope of_scope.

(** The two polynomials of [poly_as_dm(poly, a)] have the difference [poly] ... *)
Theorem poly_as_dm_difference : forall (K : OrdField) shift (p : poly K) (a x : list K),
  shift_ok K shift -> length x = length a ->
  pat (fst (poly_as_dm shift p (Some a))) x - pat (snd (poly_as_dm shift p (Some a))) x = pat p x.
Proof. exact (fun K shift p a x => dm_sub K shift p a x). Qed.
Print Assumptions poly_as_dm_difference.
Theorem poly_as_dm_difference_none : forall (K : OrdField) shift (p : poly K) (x : list K),
  pat (fst (poly_as_dm shift p None)) x - pat (snd (poly_as_dm shift p None)) x = pat p x.
Proof. exact (fun K shift p x => dm_sub_none K shift p x). Qed.
Print Assumptions poly_as_dm_difference_none.
(** ... and both increase on [x >= min(a, 0)]. *)
Theorem poly_as_dm_monotone : forall (K : OrdField) shift (p : poly K) (a x y : list K),
  shift_ok K shift -> length x = length a -> length y = length a ->
  (forall i, (i < length a)%nat -> fmin (vget0 a i) 0 <= vget0 x i) -> ple K x y ->
  pat (fst (poly_as_dm shift p (Some a))) x <= pat (fst (poly_as_dm shift p (Some a))) y /\
  pat (snd (poly_as_dm shift p (Some a))) x <= pat (snd (poly_as_dm shift p (Some a))) y.
Proof. exact (fun K shift p a x y => dm_inc K shift p a x y). Qed.
Print Assumptions poly_as_dm_monotone.
(** There is a shift with the contract. *)
Example shift_contract_met (K : OrdField) : shift_ok K (shift1 K).
Proof. exact (shift1_ok K). Qed.
(** x^2 - x above -1 is ((x+1)^2 + 2) - 3 (x+1): values 6 - 6 = 0 at 1. *)
Example poly_as_dm_case :
  let d := poly_as_dm (shift1 QcOF) [([2%nat], 1); ([1%nat], - (1))] (Some [- (1)]) in
  (this (pat (fst d) [1]), this (pat (snd d) [1]), this (pat (fst d) [0]), this (pat (snd d) [0])) =
  (6 # 1, 6 # 1, 3 # 1, 3 # 1)%Q.
Proof. vm_compute. reflexivity. Qed.

(** [rpa_gmop]: a reported point lies in the box, satisfies [g_i - h_i <= eps] and the value
    reported is [f1 - f2] there. *)
Theorem gmop_point_feasible : forall (K : OrdField) (f1 f2 : list K -> K) gh (a b : list K)
    sup_fg sup_h (rtol eps tol : K) choose max_iter cbv r x,
  length b = length a -> ple K a b -> increasing K a b f1 -> increasing K a b f2 ->
  (forall c, In c gh -> increasing K a b (fst c) /\ increasing K a b (snd c)) ->
  solver_ok K (bigF (length a) f1) (bigG (length a) gh) (bigH (length a) f2 gh) sup_fg sup_h eps
    (low f2 gh a b) (high f2 gh a b) ->
  0 <= eps -> 0 <= tol -> 0 < rtol ->
  rpa_gmop sup_fg sup_h rtol tol choose max_iter f1 f2 gh a b cbv = Ok r -> r_x r = Some x ->
  (length x = length a /\ ple K a x /\ ple K x b) /\
  (forall c, In c gh -> fst c x - snd c x <= eps) /\ r_f r = Some (f1 x - f2 x).
Proof.
  exact (fun K f1 f2 gh a b sfg sh rtol eps tol choose m cbv r x L A F G C S E T R Q X =>
    proj1 (gmop_facts K f1 f2 gh a b L A F G C sfg sh rtol eps tol S E T R choose m cbv r Q) x X).
Qed.
Print Assumptions gmop_point_feasible.

(** Converged and no vertex dropped only by [np.all(z >= a)] (see C85): optimal up to [tol + eps]. *)
Theorem gmop_optimal_partial : forall (K : OrdField) (f1 f2 : list K -> K) gh (a b : list K)
    sup_fg sup_h (rtol eps tol : K) choose max_iter cbv r y,
  length b = length a -> ple K a b -> increasing K a b f1 -> increasing K a b f2 ->
  (forall c, In c gh -> increasing K a b (fst c) /\ increasing K a b (snd c)) ->
  solver_ok K (bigF (length a) f1) (bigG (length a) gh) (bigH (length a) f2 gh) sup_fg sup_h eps
    (low f2 gh a b) (high f2 gh a b) ->
  0 <= eps -> 0 <= tol -> 0 < rtol ->
  rpa_gmop sup_fg sup_h rtol tol choose max_iter f1 f2 gh a b cbv = Ok r ->
  r_conv r = true -> r_lost r = false ->
  (length y = length a /\ ple K a y /\ ple K y b) -> (forall c, In c gh -> fst c y - snd c y <= 0) ->
  match r_x r with
  | Some x => f1 x - f2 x <= f1 y - f2 y + (tol + eps)
  | None => match cbv with None => False | Some c => c <= f1 y - f2 y end
  end.
Proof.
  exact (fun K f1 f2 gh a b sfg sh rtol eps tol choose m cbv r y L A F G C S E T R Q V N B Y =>
    proj2 (gmop_facts K f1 f2 gh a b L A F G C sfg sh rtol eps tol S E T R choose m cbv r Q) V N y B Y).
Qed.
Print Assumptions gmop_optimal_partial.

(** [rpa_polyopt], when the constraints leave a box [a' <= b']: a reported point lies in the given
    box, the value reported is the value of [f] there, inequalities hold up to [eps] and equations
    up to [eqtol + eps]. Missing: constraints without the first generator, and boxes that the
    constraints make empty; both are refuted below. *)
Theorem polyopt_point_partial : forall (K : OrdField) shift sup_fg sup_h (rtol eps tol eqtol : K)
    n f ineqs eqs (a b : list K) cbv choose max_iter a' b' gh r x,
  let d := poly_as_dm shift f (Some a') in
  (0 < n)%nat -> shift_ok K shift -> (forall p, In p ineqs \/ In p eqs -> wfp K n p) ->
  length a = n -> length b = n ->
  collect shift n (all_ineqs n ineqs eqs eqtol) a b [] = Some (a', b', gh) -> ple K a' b' ->
  solver_ok K (bigF n (pat (fst d))) (bigG n gh) (bigH n (pat (snd d)) gh) sup_fg sup_h eps
    (low (pat (snd d)) gh a' b') (high (pat (snd d)) gh a' b') ->
  0 <= eps -> 0 <= tol -> 0 < rtol -> 0 <= eqtol ->
  rpa_polyopt sup_fg sup_h rtol tol choose max_iter shift n f ineqs eqs a b eqtol cbv = Ok r ->
  r_x r = Some x ->
  (length x = length a /\ ple K a x /\ ple K x b) /\ r_f r = Some (pat f x) /\
  (forall p, In p ineqs -> (0 < deg0 p)%nat -> - eps <= pat p x) /\
  (forall p, In p eqs -> (0 < deg0 p)%nat -> - (eqtol + eps) <= pat p x /\ pat p x <= eqtol + eps).
Proof.
  exact (fun K shift sfg sh rtol eps tol eqtol n f ineqs eqs a b cbv choose m a' b' gh r x
           Hn Sh W La Lb C B S E T R Q X Ex =>
    proj1 (polyopt_facts K shift sfg sh rtol eps tol eqtol n f ineqs eqs a b cbv choose m a' b' gh r
             Hn Sh W La Lb C B S E T R Q X) x Ex).
Qed.
Print Assumptions polyopt_point_partial.

(** Converged and nothing lost: optimal among all points of the box satisfying the constraints. *)
Theorem polyopt_optimal_partial : forall (K : OrdField) shift sup_fg sup_h (rtol eps tol eqtol : K)
    n f ineqs eqs (a b : list K) cbv choose max_iter a' b' gh r y,
  let d := poly_as_dm shift f (Some a') in
  (0 < n)%nat -> shift_ok K shift -> (forall p, In p ineqs \/ In p eqs -> wfp K n p) ->
  length a = n -> length b = n ->
  collect shift n (all_ineqs n ineqs eqs eqtol) a b [] = Some (a', b', gh) -> ple K a' b' ->
  solver_ok K (bigF n (pat (fst d))) (bigG n gh) (bigH n (pat (snd d)) gh) sup_fg sup_h eps
    (low (pat (snd d)) gh a' b') (high (pat (snd d)) gh a' b') ->
  0 <= eps -> 0 <= tol -> 0 < rtol -> 0 <= eqtol ->
  rpa_polyopt sup_fg sup_h rtol tol choose max_iter shift n f ineqs eqs a b eqtol cbv = Ok r ->
  r_conv r = true -> r_lost r = false ->
  (length y = length a /\ ple K a y /\ ple K y b) ->
  (forall p, In p ineqs -> 0 <= pat p y) -> (forall p, In p eqs -> pat p y = 0) ->
  match r_x r with
  | Some x => pat f x <= pat f y + (tol + eps)
  | None => match cbv with None => False | Some c => c <= pat f y end
  end.
Proof. exact polyopt_optimal_eq. Qed.
Print Assumptions polyopt_optimal_partial.

(** Refuted: a constraint in which the first generator does not occur is ignored or taken for a
    negative constant, because [degree()] is the degree in the first generator. The constraint
    [y - 1 >= 0] changes no result, whatever the problem and the solvers ... *)
Theorem polyopt_constraint_ignored_refuted : forall (K : OrdField) sup_fg sup_h (rtol tol : K) choose
    max_iter shift n f ineqs eqs a b eqtol cbv,
  (forall u v, pat (y_ge_1 K) [u; v] = v - 1) /\
  rpa_polyopt sup_fg sup_h rtol tol choose max_iter shift n f (y_ge_1 K :: ineqs) eqs a b eqtol cbv =
  rpa_polyopt sup_fg sup_h rtol tol choose max_iter shift n f ineqs eqs a b eqtol cbv.
Proof. exact (fun K _ _ _ _ _ _ _ _ _ _ _ _ _ _ _ => conj (y_ge_1_pat K) (y_ge_1_skipped K _ _ _ _ _ _ _ _ _ _ _ _ _ _ _)). Qed.
Print Assumptions polyopt_constraint_ignored_refuted.
(** ... and with [1 - y >= 0] every problem is reported as infeasible, with converged=True. *)
Theorem polyopt_feasible_rejected_refuted : forall (K : OrdField) sup_fg sup_h (rtol tol : K) choose
    max_iter shift n f ineqs eqs a b eqtol cbv,
  (forall u v, pat (y_le_1 K) [u; v] = 1 - v) /\
  rpa_polyopt sup_fg sup_h rtol tol choose max_iter shift n f (y_le_1 K :: ineqs) eqs a b eqtol cbv =
  Ok (Res None None 1 true a b false).
Proof. exact (fun K _ _ _ _ _ _ _ _ _ _ _ _ _ _ _ => conj (y_le_1_pat K) (y_le_1_stops K _ _ _ _ _ _ _ _ _ _ _ _ _ _ _)). Qed.
Print Assumptions polyopt_feasible_rejected_refuted.

(** Refuted: contradictory bounds are not noticed. Minimising [x] with [x - 2 >= 0] and
    [1 - x >= 0] gives a converged answer [x = 2]; all line functions of the run vanish at their
    end, where [_find_sup] answers 1. *)
Theorem polyopt_empty_box_refuted : exists r : result QcOF,
  rpa_polyopt (one_fg QcOF) (one_h QcOF) (1 / fnat 1000) (1 / fnat 10) (fun _ => O) 10 (shift1 QcOF) 1
    (px QcOF 1 0) [px QcOF 1 (- (1 + 1)); px QcOF (- (1)) 1] [] [- fnat 10] [fnat 10] 0 None = Ok r /\
  r_conv r = true /\ r_x r = Some [1 + 1].
Proof. exact empty_run_answers. Qed.
Print Assumptions polyopt_empty_box_refuted.

(** Non-vacuity: minimise x^2 over [-1, 1] with 2x - 1 >= 0. The box becomes [1/2, 1]. *)
Example polyopt_case :
  (match rpa_polyopt (one_fg QcOF) (one_h QcOF) (1 / fnat 1000) (1 / fnat 10) (fun _ => O) 10 (shift1 QcOF) 1
    (pxx QcOF) [px QcOF (1 + 1) (- (1))] [] [- (1)] [1] 0 None with
   | Ok r => Some (option_map (map this) (r_x r), option_map this (r_f r), r_conv r, r_lost r, map this (r_a r))
   | Err _ => None
   end) = Some (Some [1 # 2]%Q, Some (1 # 4)%Q, true, false, [1 # 2]%Q).
Proof. vm_compute. reflexivity. Qed.
(** The solver of this run meets its contract on every problem of this kind. *)
Example one_solver_contract (K : OrdField) n (f1 f2 : list K -> K) a b :
  length a = n -> length b = n -> (forall x, f2 x = 0) ->
  solver_ok K (bigF n f1) (bigG n []) (bigH n f2 []) (one_fg K) (one_h K) 0 (low f2 [] a b) (high f2 [] a b).
Proof. exact (one_solver_ok K n f1 f2 a b). Qed.
