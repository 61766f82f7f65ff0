(** * Properties of square_perturbation, cancel_denominator and the conics (C83, C84) *)
From Coq Require Import Bool List Arith ZArith QArith Qcanon Lia.
From Verif Require Import OrdField Base Expr RatCurve.
Import ListNotations.
Local Open Scope of_scope.

(** ** C83 *)

(** For different positive [a], [b] the generator runs to its end, yields at least [times - 1]
    values, and each value [t] lies in [0, min(a, b)) and makes [(a-t)/(b-t)] a square. The
    starting guess, a float computation, may be any natural number. *)
Theorem square_perturbation_exact (K : OrdField) (isq : nat) (a b : K) (times : nat) :
  0 < a -> 0 < b -> a <> b ->
  exists ts, square_perturbation isq a b times = Ok ts /\
    (times - 1 <= length ts <= times)%nat /\
    forall t, In t ts ->
      0 <= t /\ t < a /\ t < b /\ exists w, w <> 0 /\ a - t = w * w * (b - t).
Proof. exact (square_perturbation_ok K isq a b times). Qed.
Print Assumptions square_perturbation_exact.

(** [(5 - 6/11)/(2 - 6/11)] is the square of 7/4. *)
Example square_perturbation_example :
  match square_perturbation (K := QcOF) 1 (q 5 1) (q 2 1) 2 with
  | Ok ts => map this ts
  | Err _ => []
  end = [6 # 11; 54 # 1595]%Q.
Proof. vm_compute. reflexivity. Qed.

(** Refuted for equal arguments, whose quotient 1 is a square: the first comparison raises. *)
Theorem square_perturbation_equal_refuted (K : OrdField) (a : K) (n : nat) :
  0 < a -> square_perturbation 1 a a (S n) = Err TypeError.
Proof. exact (square_perturbation_equal K a n). Qed.
Print Assumptions square_perturbation_equal_refuted.

(** [try_perturbations]: if the solver is exact on [poly - t * perturbation], the answer is exact
    for [poly], and it is non-negative where the perturbation and the solver's answers are. *)
Theorem try_perturbations_exact (K : OrdField) (isq : nat) (p q : K)
  (solve : K -> option (ex K)) (pert : ex K) (times : nat) (f : (nat -> K) -> K) (e : ex K) :
  0 < p -> 0 < q -> p <> q ->
  (forall t e', solve t = Some e' -> forall x, ev x e' = f x - t * ev x pert) ->
  try_perturbations isq p q solve pert times = Ok (Some e) ->
  (forall x, ev x e = f x) /\
  (forall x, 0 <= ev x pert -> (forall t e', solve t = Some e' -> 0 <= ev x e') -> 0 <= ev x e).
Proof. exact (try_perturbations_ok K isq p q solve pert times f e). Qed.
Print Assumptions try_perturbations_exact.

Example try_perturbations_example :
  let pert : ex QcOF := EPow (EX 0) 2 in
  let solve := fun t : QcOF => Some (EMul (ESub (EC (q 5 1)) (EC t)) (EPow (EX 0) 2)) in
  (forall t e', solve t = Some e' -> forall x, ev x e' = q 5 1 * ev x (EPow (EX 0) 2) - t * ev x pert) /\
  match try_perturbations 1 (q 5 1) (q 2 1) solve pert 2 with Ok (Some _) => true | _ => false end
    = true.
Proof.
  split.
  - intros t e' H x. injection H as <-. exact (sub_distr QcOF (q 5 1) t (ev x (EPow (EX 0) 2))).
  - vm_compute. reflexivity.
Qed.

(** [cancel_denominator] of at least two reduced fractions is a positive-denominator fraction
    [p/q] of which every entry is an integer multiple ... *)
Theorem cancel_denominator_divides (nums : list (Z * Z)) (p q : Z) :
  (2 <= length nums)%nat ->
  (forall n d, In (n, d) nums -> (0 < d)%Z /\ Z.gcd n d = 1%Z) ->
  cancel_denominator nums = (p, q) ->
  forall n d, In (n, d) nums -> exists k, (n * q = k * (d * p))%Z.
Proof. exact (cancel_divides nums p q). Qed.
Print Assumptions cancel_denominator_divides.

(** ... and it is the greatest such: a multiple of every other [u/v] with this property. *)
Theorem cancel_denominator_greatest (nums : list (Z * Z)) (p q u v : Z) :
  (2 <= length nums)%nat ->
  (forall n d, In (n, d) nums -> (0 < d)%Z /\ Z.gcd n d = 1%Z) ->
  cancel_denominator nums = (p, q) -> Z.gcd u v = 1%Z ->
  (forall n d, In (n, d) nums -> exists k, (n * v = k * (d * u))%Z) ->
  exists k, (p * v = k * (q * u))%Z.
Proof. exact (cancel_greatest nums p q u v). Qed.
Print Assumptions cancel_denominator_greatest.

(** It is zero only if all entries are. *)
Theorem cancel_denominator_nonzero (nums : list (Z * Z)) (p q : Z) :
  (2 <= length nums)%nat -> cancel_denominator nums = (p, q) -> p = 0%Z ->
  forall n d, In (n, d) nums -> n = 0%Z.
Proof. exact (cancel_zero_iff nums p q). Qed.
Print Assumptions cancel_denominator_nonzero.

Example cancel_denominator_example :
  cancel_denominator [(4, 3); (6, 5); (0, 1)]%Z = (2, 15)%Z.
Proof. vm_compute. reflexivity. Qed.

(** Refuted for a single fraction: the answer is 1, and 1/2 is no multiple of it. *)
Theorem cancel_denominator_single_refuted :
  cancel_denominator [(1, 2)]%Z = (1, 1)%Z /\ ~ exists k, (1 * 1 = k * (2 * 1))%Z.
Proof. split; [reflexivity|]. intros [k E]. lia. Qed.
Print Assumptions cancel_denominator_single_refuted.

(** ** C84 *)

(** With a point given, the parametrisation stays on the curve ... *)
Theorem curve_parametrisation_exact (K : OrdField) (f : conic K) (x0 y0 : K)
  (param : K -> option (K * K)) (t x y : K) :
  curve_at_point f x0 y0 = Ok param -> param t = Some (x, y) ->
  c20 f * x * x + c11 f * x * y + c02 f * y * y + c10 f * x + c01 f * y + c00 f = 0 /\
  y - y0 = t * (x - x0).
Proof.
  unfold curve_at_point. destruct (feqb (cval f x0 y0) 0) eqn:E; [|discriminate].
  intros H. apply Ok_inj in H. subst param.
  exact (secant_on_curve K f x0 y0 t x y (proj1 (feqb_eq K _ _) E)).
Qed.
Print Assumptions curve_parametrisation_exact.

(** ... reaches every other point of the curve that is not on the vertical line through the given
    one, unless the curve contains the whole line through both ... *)
Theorem curve_parametrisation_complete (K : OrdField) (f : conic K) (x0 y0 : K)
  (param : K -> option (K * K)) (x y : K) :
  curve_at_point f x0 y0 = Ok param -> cval f x y = 0 -> x <> x0 ->
  param ((y - y0) / (x - x0)) = Some (x, y) \/
  (forall u, cval f u ((y - y0) / (x - x0) * (u - x0) + y0) = 0).
Proof.
  unfold curve_at_point. destruct (feqb (cval f x0 y0) 0) eqn:E; [|discriminate].
  intros H. apply Ok_inj in H. subst param.
  exact (secant_complete K f x0 y0 x y (proj1 (feqb_eq K _ _) E)).
Qed.
Print Assumptions curve_parametrisation_complete.

(** ... and exists exactly when the given point is on the curve. *)
Theorem curve_parametrisation_iff (K : OrdField) (f : conic K) (x0 y0 : K) :
  (exists param, curve_at_point f x0 y0 = Ok param) <-> cval f x0 y0 = 0.
Proof.
  unfold curve_at_point. destruct (feqb (cval f x0 y0) 0) eqn:E.
  - split; [intros _; exact (proj1 (feqb_eq K _ _) E)|intros _; eexists; reflexivity].
  - split; [intros [? H]; discriminate H|intro H]. exfalso. exact (proj1 (feqb_neq K _ _) E H).
Qed.
Print Assumptions curve_parametrisation_iff.

(** The circle from (1, 0): slope 1/2 gives (-3/5, -4/5). *)
Example curve_parametrisation_example :
  let circle : conic QcOF := Conic (q 1 1) 0 (q 1 1) 0 0 (q (-1) 1) in
  match curve_at_point circle (q 1 1) 0 with
  | Ok param => option_map (fun p => (this (fst p), this (snd p))) (param (q 1 2))
  | Err _ => None
  end = Some (- 3 # 5, - 4 # 5)%Q.
Proof. vm_compute. reflexivity. Qed.

(** Without a point: what is found lies on the curve, provided [core], [sqrt] and [diop_DN] keep
    their promises. *)
Theorem curve_point_exact (K : OrdField) (dn : conic K -> dn_answers K) (f : conic K) (x y : K) :
  dn_ok f (dn f) -> curve_point dn f = Ok (CDict x y) ->
  c20 f * x * x + c11 f * x * y + c02 f * y * y + c10 f * x + c01 f * y + c00 f = 0.
Proof. exact (curve_point_ok K dn f x y). Qed.
Print Assumptions curve_point_exact.

(** 4x^2 + 4y^2 - 8 = 0 is divided by 4: [u^2 + v^2 - 2 = 0] has the solution (1, 1). *)
Example curve_point_example :
  let f : conic QcOF := Conic (q 4 1) 0 (q 4 1) 0 0 (q (-8) 1) in
  let o := DN (q 4 1) (q 1 1) (q 1 1) (q (-2) 1) (q 1 1) (q 1 1) (q 1 1) [(q 1 1, q 1 1)] in
  dn_ok f o /\
  match curve_point (fun _ => o) f with
  | Ok (CDict x y) => Some (this x, this y)
  | _ => None
  end = Some (1, 1)%Q.
Proof.
  split; [|vm_compute; reflexivity]. unfold dn_ok.
  do 4 (split; [intro H; apply (f_equal this) in H; vm_compute in H; discriminate H|]).
  do 3 (split; [apply Qc_is_canon; vm_compute; reflexivity|]).
  intros u v [H|[]]. injection H as <- <-. apply Qc_is_canon. vm_compute. reflexivity.
Qed.

(** Refuted: a parabola raises [IndexError], and a curve linear in x gets a tuple, not a
    dictionary. *)
Theorem curve_point_shape_refuted :
  curve_point (fun _ => DN (q 1 1) (q 1 1) (q 1 1) (q 1 1) (q 1 1) (q 1 1) (q 1 1) [])
    (Conic (q 1 1) 0 0 0 (q 1 1) 0 : conic QcOF) = Err IndexError /\
  curve_point (fun _ => DN (q 1 1) (q 1 1) (q 1 1) (q 1 1) (q 1 1) (q 1 1) (q 1 1) [])
    (Conic 0 (q 1 1) 0 0 0 (q (-1) 1) : conic QcOF) = Ok CTuple.
Proof. exact (conj eq_refl eq_refl). Qed.
Print Assumptions curve_point_shape_refuted.

(** A point returned by [common_region_of_conics] lies in every region, whatever the external
    solvers answer. *)
Theorem common_region_exact (K : OrdField) (ask : conic K -> conic K -> pair_answers K)
  (polys : list (conic K)) (x y : K) :
  common_region ask polys = Ok (Some (x, y)) ->
  forall f, In f polys ->
    0 <= c20 f * x * x + c11 f * x * y + c02 f * y * y + c10 f * x + c01 f * y + c00 f.
Proof. exact (common_region_ok K ask polys x y). Qed.
Print Assumptions common_region_exact.

(** A negative constant gives no answer. *)
Theorem common_region_negative_constant (K : OrdField)
  (ask : conic K -> conic K -> pair_answers K) (polys : list (conic K)) (f : conic K) :
  In f polys -> constant f = true -> c00 f < 0 -> common_region ask polys = Ok None.
Proof. exact (common_region_const K ask polys f). Qed.
Print Assumptions common_region_negative_constant.

(** Without a condition, or with nonnegative constants only, the answer is the origin. *)
Theorem common_region_only_constants (K : OrdField)
  (ask : conic K -> conic K -> pair_answers K) (polys : list (conic K)) :
  (forall f, In f polys -> constant f = true /\ 0 <= c00 f) -> common_region ask polys = Ok (Some (0, 0)).
Proof. exact (common_region_constants K ask polys). Qed.
Print Assumptions common_region_only_constants.

Example common_region_only_constants_met : forall f, In f [Conic 0 0 0 0 0 (q 2 1) : conic QcOF] ->
  constant f = true /\ 0 <= c00 f.
Proof. intros f [<- | []]. exact (conj eq_refl eq_refl). Qed.

(** Two conics with a common line always get a point. *)
Theorem common_region_common_line (K : OrdField) (ask : conic K -> conic K -> pair_answers K)
  (f1 f2 : conic K) :
  constant f1 = false -> constant f2 = false ->
  pa_gdeg (ask (reg f1) (reg f2)) = 1%nat ->
  ~ (pa_ga (ask (reg f1) (reg f2)) = 0 /\ pa_gb (ask (reg f1) (reg f2)) = 0) ->
  (forall f, In f [f1; f2] ->
     exists p q r, forall x y, cval f x y =
       (pa_ga (ask (reg f1) (reg f2)) * x + pa_gb (ask (reg f1) (reg f2)) * y +
        pa_gc (ask (reg f1) (reg f2))) * (p * x + q * y + r)) ->
  exists p, common_region ask [f1; f2] = Ok (Some p).
Proof. exact (common_region_line K ask f1 f2). Qed.
Print Assumptions common_region_common_line.

Example common_region_line_example :
  let f1 : conic QcOF := Conic (q 1 1) 0 0 0 0 (q (-1) 1) in
  let f2 : conic QcOF := Conic 0 (q 1 1) 0 0 (q (-1) 1) 0 in
  let ask := fun _ _ => PA [] 1 (q 1 1) 0 (q (-1) 1) (Ok CNothing) [] [] in
  match common_region ask [f1; f2] with
  | Ok (Some p) => Some (this (fst p), this (snd p))
  | _ => None
  end = Some (1, 0)%Q.
Proof. vm_compute. reflexivity. Qed.

(** Refuted: for proportional conics whose centre fails, the dictionary of
    [rationalize_quadratic_curve] is unpacked as a point and the call raises [TypeError], here for
    x^2 + y^2 >= 1 asked twice, which (1, 0) satisfies. *)
Theorem common_region_proportional_refuted :
  let f : conic QcOF := Conic (q 1 1) 0 (q 1 1) 0 0 (q (-1) 1) in
  let ask := fun _ _ => PA [(0, 0); (0, 0)] 2 0 0 0 (Ok (CDict (q 1 1) 0)) [(q 1 1, 0)] [] in
  common_region ask [f; f] = Err TypeError /\ 0 <= cval f (q 1 1) 0.
Proof. exact (conj eq_refl eq_refl). Qed.
Print Assumptions common_region_proportional_refuted.
