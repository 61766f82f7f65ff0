(** * Squares, conics and secants: triples/utils/roots/rationalize.py (second part) *)
From Coq Require Import Bool List Arith ZArith QArith Lia Ring Field.
From Verif Require Import OrdField Base Expr.
Import ListNotations.

Section Model.
Variable K : OrdField.
Local Open Scope of_scope.

(** ** square_perturbation (rationalize.py:243-266) *)

(** rationalize.py:253-266, the loop, with [hi], [lo] the larger and the smaller of [a], [b]
    (the two branches of the code are the same up to this exchange). [first] is [i = 0]. A value
    [z*z = 1] gives [t = nan] or [zoo], whose comparison with 0 raises. The generator is run to
    its end: an exception after some values counts as an exception. *)
Fixpoint square_loop (hi lo : K) (times : nat) (first : bool) (z : K) : res (list K) :=
  match times with
  | O => Ok []
  | S k =>
      let z := if negb first || feqb z 1 then (z + hi / lo / z) / (1 + 1) else z in
      if feqb (z * z) 1 then Err TypeError
      else
        let t := (hi - z * z * lo) / (1 - z * z) in
        match square_loop hi lo k false z with
        | Err e => Err e
        | Ok ts => if fltb t 0 || fltb lo t then Ok ts else Ok (t :: ts)
        end
  end.

(** rationalize.py:243-266. [isq] is [int((a/b)**0.5)], a float computation: any natural
    number. Dividing by zero gives [zoo] or [nan], which [int] refuses. *)
Definition square_perturbation (isq : nat) (a b : K) (times : nat) : res (list K) :=
  let '(hi, lo) := if fltb b a then (a, b) else (b, a) in
  if feqb lo 0 then Err TypeError
  else square_loop hi lo times true (fnat (Nat.max 1 isq)).

(** ternary/utils.py:82-99, [try_perturbations]: [solve t] is the answer of the recursive solver
    for [poly - t * perturbation]. *)
Fixpoint try_ts (solve : K -> option (ex K)) (pert : ex K) (ts : list K) : option (ex K) :=
  match ts with
  | [] => None
  | t :: ts' =>
      match solve t with
      | Some e => Some (EAdd e (EMul (EC t) pert))
      | None => try_ts solve pert ts'
      end
  end.
Definition try_perturbations (isq : nat) (p q : K) (solve : K -> option (ex K)) (pert : ex K)
  (times : nat) : res (option (ex K)) :=
  match square_perturbation isq p q times with
  | Err e => Err e
  | Ok ts => Ok (try_ts solve pert ts)
  end.

(** ** Conics *)

(** [c20 x^2 + c11 x y + c02 y^2 + c10 x + c01 y + c00]. *)
Record conic : Type := Conic { c20 : K; c11 : K; c02 : K; c10 : K; c01 : K; c00 : K }.
Definition cval (f : conic) (x y : K) : K :=
  c20 f * x * x + c11 f * x * y + c02 f * y * y + c10 f * x + c01 f * y + c00 f.

(** rationalize.py:370-374 at a value [t] of the parameter: the coefficients of [x^2] and of [x]
    after [y -> t*(x-x_)+y_]; [None] where the parametrisation has a pole. *)
Definition sec2 (f : conic) (t : K) : K := c20 f + c11 f * t + c02 f * t * t.
Definition sec1 (f : conic) (x0 y0 t : K) : K :=
  c11 f * (y0 - t * x0) + (1 + 1) * c02 f * t * (y0 - t * x0) + c10 f + c01 f * t.
Definition secant (f : conic) (x0 y0 t : K) : option (K * K) :=
  if feqb (sec2 f t) 0 then None
  else let x := - sec1 f x0 y0 t / sec2 f t - x0 in Some (x, t * (x - x0) + y0).

(** rationalize.py:318-325 and 366-374 with a point given. The leading coefficient as a
    polynomial in the parameter is [sec2]; for a curve that is not quadratic
    ([c20 = c11 = c02 = 0]) the code divides other coefficients and is not modelled. *)
Definition curve_at_point (f : conic) (x0 y0 : K) : res (K -> option (K * K)) :=
  if feqb (cval f x0 y0) 0 then Ok (secant f x0 y0) else Err ValueError.

(** Answers of the external functions in rationalize.py:346-363: [cancel_denominator], [core] of
    the three integers (with the signs of line 354), the three square roots, and [diop_DN]. *)
Record dn_answers : Type := DN {
  dn_r : K; dn_t : K; dn_b : K; dn_c : K; dn_sc : K; dn_sa : K; dn_sb : K; dn_sols : list (K * K) }.

(** rationalize.py:332-345: the completed squares: [a (x - x0(y))^2 + b (y - y0)^2 + c]. [None]
    when [curve_y] is not quadratic: reading its coefficient [2] raises. *)
Definition norm_sign (f : conic) : conic :=
  if fltb (c20 f) 0 then Conic (- c20 f) (- c11 f) (- c02 f) (- c10 f) (- c01 f) (- c00 f) else f.
Definition cy2 (f : conic) : K := - c11 f * c11 f / (1 + 1 + 1 + 1) / c20 f + c02 f.
Definition cy1 (f : conic) : K := - (1 + 1) * c11 f * c10 f / (1 + 1 + 1 + 1) / c20 f + c01 f.
Definition cy0 (f : conic) : K := - c10 f * c10 f / (1 + 1 + 1 + 1) / c20 f + c00 f.

(** What rationalize_quadratic_curve returns: nothing, a dictionary with a point, or a tuple
    (rationalize.py:327-329, not a dictionary) for a curve linear in x. *)
Inductive curve_answer : Type := CNothing | CDict (x y : K) | CTuple.

(** rationalize.py:326-367 with [one_point = True] and no point given. The degree in x below 1 and
    a curve [c20 = 0] are those of [curve.degree()]; for degree 0 the code reads a coefficient
    that does not exist. The sign change of line 348 never applies ([a] is positive by line 332 and
    [r] is positive). *)
Definition curve_point (dn : conic -> dn_answers) (f : conic) : res curve_answer :=
  if feqb (c20 f) 0 then
    if feqb (c11 f) 0 && feqb (c10 f) 0 then Err IndexError else Ok CTuple
  else
    let g := norm_sign f in
    if feqb (cy2 g) 0 then Err IndexError
    else
      let y0 := - cy1 g / (1 + 1) / cy2 g in
      let o := dn f in
      match dn_sols o with
      | [] => Ok CNothing
      | (u, v) :: _ =>
          let y := v * dn_sc o / dn_sb o + y0 in
          let x := u * dn_sc o / dn_sa o + - (c11 g * y + c10 g) / (1 + 1) / c20 g in
          Ok (CDict x y)
      end.

(** What the external functions promise: with [a, b, c] the coefficients of the completed squares
    divided by [r] and multiplied by [t], [sa^2 = a], [sb^2 b_ = b], [sc^2 c_ = c], and
    [diop_DN(-b_, -c_)] solves [u^2 + b_ v^2 + c_ = 0]. *)
Definition cconst (f : conic) : K := - cy1 f * cy1 f / (1 + 1 + 1 + 1) / cy2 f + cy0 f.
Definition dn_ok (f : conic) (o : dn_answers) : Prop :=
  let g := norm_sign f in
  dn_r o <> 0 /\ dn_t o <> 0 /\ dn_sa o <> 0 /\ dn_sb o <> 0 /\
  dn_sa o * dn_sa o = c20 g / dn_r o * dn_t o /\
  dn_sb o * dn_sb o * dn_b o = cy2 g / dn_r o * dn_t o /\
  dn_sc o * dn_sc o * dn_c o = cconst g / dn_r o * dn_t o /\
  (forall u v, In (u, v) (dn_sols o) -> u * u + dn_b o * v * v + dn_c o = 0).

(** ** common_region_of_conics (rationalize.py:377-486) *)

(** A candidate yielded by [_common_region_of_two_conics]. The symbols of the polynomials carry no
    assumptions, so that a dictionary of a point, unpacked as its keys, makes the comparison
    [p(x, y) >= 0] undecided. *)
Inductive cand : Type := Pt (x y : K) | NoPt | DictPt.

(** What the external solvers give for two conics: the finite centres, the greatest common
    divisor (its degree and, in degree 1, its coefficients), the answer of
    [rationalize_quadratic_curve], the points on the three lines and the points near the
    intersections. *)
Record pair_answers : Type := PA {
  pa_centres : list (K * K);
  pa_gdeg : nat; pa_ga : K; pa_gb : K; pa_gc : K;
  pa_curve : res curve_answer;
  pa_axes : list (K * K);
  pa_inters : list (K * K) }.

Definition both_ok (f1 f2 : conic) (p : K * K) : bool :=
  fleb 0 (cval f1 (fst p) (snd p)) && fleb 0 (cval f2 (fst p) (snd p)).
Definition as_pt (p : K * K) : cand := Pt (fst p) (snd p).

(** rationalize.py:424-435: the candidates of a common factor. *)
Definition gcd_cands (o : pair_answers) : res (list cand) :=
  match pa_gdeg o with
  | 2%nat => match pa_curve o with
             | Err e => Err e
             | Ok CNothing => Ok [NoPt]
             | Ok _ => Ok [DictPt]
             end
  | 1%nat => Ok ((if feqb (pa_gb o) 0 then [] else [Pt 0 (- pa_gc o / pa_gb o)]) ++
                 (if feqb (pa_ga o) 0 then [] else [Pt (- pa_gc o / pa_ga o) 0]))
  | _ => Ok []
  end.

(** rationalize.py:404-474: the candidates of two conics in order. The generator is lazy: the
    candidates before a failing part come first. *)
Inductive stream : Type := SNil | SCons (c : cand) (s : stream) | SErr (e : exn).
Fixpoint sapp (l : list cand) (s : stream) : stream :=
  match l with [] => s | c :: l' => SCons c (sapp l' s) end.
Definition pair_cands (f1 f2 : conic) (o : pair_answers) : stream :=
  sapp (map as_pt (filter (both_ok f1 f2) (pa_centres o)))
    match gcd_cands o with
    | Err e => SErr e
    | Ok l => sapp (l ++ map as_pt (filter (both_ok f1 f2) (pa_axes o ++ pa_inters o))) SNil
    end.

(** rationalize.py:484-489, the loop over the candidates of one pair. *)
Fixpoint scan (polys : list conic) (s : stream) : res (option (K * K)) :=
  match s with
  | SNil => Ok None
  | SErr e => Err e
  | SCons NoPt s' => scan polys s'
  | SCons DictPt _ => Err TypeError
  | SCons (Pt x y) s' =>
      if forallb (fun f => fleb 0 (cval f x y)) polys then Ok (Some (x, y)) else scan polys s'
  end.

(** rationalize.py:482-489: the pairs [i < j] in order. *)
Fixpoint scan_pairs (polys : list conic) (pairs : list (conic * conic))
  (ask : conic -> conic -> pair_answers) : res (option (K * K)) :=
  match pairs with
  | [] => Ok None
  | (f1, f2) :: ps =>
      match scan polys (pair_cands f1 f2 (ask f1 f2)) with
      | Ok None => scan_pairs polys ps ask
      | r => r
      end
  end.
Fixpoint pairs_of (l : list conic) : list (conic * conic) :=
  match l with
  | [] => []
  | f :: l' => map (fun g => (f, g)) l' ++ pairs_of l'
  end.

Definition czero : conic := Conic 0 0 0 0 0 0.
Definition constant (f : conic) : bool :=
  feqb (c20 f) 0 && feqb (c11 f) 0 && feqb (c02 f) 0 && feqb (c10 f) 0 && feqb (c01 f) 0.
Definition fabs (x : K) : K := if fltb x 0 then - x else x.

(** rationalize.py:476-480, [_reg]: divide by the sum of the absolute values of the
    coefficients. *)
Definition weight (f : conic) : K :=
  fabs (c20 f) + fabs (c11 f) + fabs (c02 f) + fabs (c10 f) + fabs (c01 f) + fabs (c00 f).
Definition reg (f : conic) : conic :=
  if feqb (weight f) 0 then f
  else let w := weight f in
       Conic (c20 f / w) (c11 f / w) (c02 f / w) (c10 f / w) (c01 f / w) (c00 f / w).

(** rationalize.py:377-489. The assertions on the generators are not modelled: a conic is given by
    its coefficients in x and y. *)
Definition common_region (ask : conic -> conic -> pair_answers) (polys : list conic)
  : res (option (K * K)) :=
  if existsb (fun f => constant f && fltb (c00 f) 0) polys then Ok None
  else
    match filter (fun f => negb (constant f)) polys with
    | [] => Ok (Some (0, 0))
    | l =>
        let l := match l with [f] => [f; czero] | _ => l end in
        let l := map reg l in
        scan_pairs l (pairs_of l) ask
    end.

End Model.
Arguments Conic {K}. Arguments c20 {K}. Arguments c11 {K}. Arguments c02 {K}. Arguments c10 {K}.
Arguments c01 {K}. Arguments c00 {K}. Arguments cval {K}. Arguments secant {K}.
Arguments sec2 {K}. Arguments sec1 {K}. Arguments norm_sign {K}. Arguments cy2 {K}.
Arguments cy1 {K}. Arguments cy0 {K}. Arguments cconst {K}. Arguments CNothing {K}.
Arguments CDict {K}. Arguments CTuple {K}. Arguments Pt {K}. Arguments NoPt {K}.
Arguments DictPt {K}. Arguments SNil {K}. Arguments SCons {K}. Arguments SErr {K}.
Arguments weight {K}. Arguments reg {K}. Arguments constant {K}. Arguments fabs {K}.
Arguments square_loop {K}. Arguments square_perturbation {K}. Arguments try_perturbations {K}.
Arguments try_ts {K}. Arguments curve_at_point {K}. Arguments curve_point {K}. Arguments dn_ok {K}.
Arguments common_region {K}. Arguments scan {K}. Arguments scan_pairs {K}. Arguments pairs_of {K}.
Arguments pair_cands {K}. Arguments gcd_cands {K}. Arguments both_ok {K}. Arguments as_pt {K}.
Arguments sapp {K}. Arguments czero {K}. Arguments PA {K}. Arguments DN {K}.
Arguments dn_r {K}. Arguments dn_t {K}. Arguments dn_b {K}. Arguments dn_c {K}. Arguments dn_sc {K}.
Arguments dn_sa {K}. Arguments dn_sb {K}. Arguments dn_sols {K}.
Arguments pa_centres {K}. Arguments pa_gdeg {K}. Arguments pa_ga {K}. Arguments pa_gb {K}.
Arguments pa_gc {K}. Arguments pa_curve {K}. Arguments pa_axes {K}. Arguments pa_inters {K}.

(** ** cancel_denominator (rationalize.py:269-281)

    The rational entries of the list as reduced fractions (numerator, denominator);
    [as_numer_denom] of a rational is the reduced fraction with positive denominator. [sp.gcd],
    [sp.lcm] are those of the integers. *)
Definition cancel_denominator (nums : list (Z * Z)) : Z * Z :=
  match nums with
  | [] | [_] => (1, 1)%Z
  | x :: l => (fold_left Z.gcd (map fst l) (fst x), fold_left Z.lcm (map snd l) (snd x))
  end.

Section Facts.
Variable K : OrdField.
Local Open Scope of_scope.
Add Field Kf : (F_field K).

(** ** Squares *)

Lemma newton_facts (r z : K) : 1 < r -> 0 < z ->
  0 < (z + r / z) / (1 + 1) /\ r <= ((z + r / z) / (1 + 1)) * ((z + r / z) / (1 + 1)).
Proof.
  intros Hr Hz.
  pose proof (f2_neq0 K) as H2. pose proof (flt_neq0 Hz) as Hzn.
  assert (Hr0 : 0 < r) by (exact (flt_trans K _ _ _ (f1_pos K) Hr)).
  split.
  - apply fdiv_pos; [|exact (f2_pos K)]. apply fadd_pos; [exact Hz|]. apply fdiv_pos; assumption.
  - apply fle_sub.
    replace ((z + r / z) / (1 + 1) * ((z + r / z) / (1 + 1)) - r)
      with (((z - r / z) / (1 + 1)) * ((z - r / z) / (1 + 1))) by (field; auto).
    apply fsqr_nonneg.
Qed.

Lemma sq1 (z : K) : 0 < z -> z * z = 1 -> z = 1.
Proof.
  intros Hz H. assert (H0 : (z - 1) * (z + 1) = 0) by (replace ((z - 1) * (z + 1)) with (z * z - 1) by ring; rewrite H; ring).
  apply fmul_eq0 in H0. destruct H0 as [H0|H0]; [apply fsub_eq0; exact H0|].
  exfalso. apply (@flt_neq0 K (z + 1)); [|exact H0]. apply fadd_pos; [exact Hz|apply f1_pos].
Qed.

Lemma ratio_gt1 (hi lo : K) : 0 < lo -> lo < hi -> 1 < hi / lo.
Proof.
  intros Hl Hh. apply flt_sub. replace (hi / lo - 1) with ((hi - lo) / lo) by (field; exact (flt_neq0 Hl)).
  apply fdiv_pos; [|exact Hl]. apply (proj1 (flt_sub lo hi)). exact Hh.
Qed.

(** What a yielded value is. *)
Definition square_shift (hi lo t : K) : Prop :=
  0 <= t /\ t < lo /\ exists z, z <> 0 /\ hi - t = z * z * (lo - t).

Lemma shift_ok (hi lo z : K) : 0 < lo -> lo < hi -> 0 < z -> z * z <> 1 ->
  0 <= (hi - z * z * lo) / (1 - z * z) -> (hi - z * z * lo) / (1 - z * z) <= lo ->
  square_shift hi lo ((hi - z * z * lo) / (1 - z * z)).
Proof.
  intros Hl Hh Hz Hn H0 H1.
  assert (Hd : 1 - z * z <> 0) by (intro E; apply Hn; symmetry; apply fsub_eq0; exact E).
  set (t := (hi - z * z * lo) / (1 - z * z)) in *.
  assert (E : hi - t = z * z * (lo - t)) by (unfold t; field; exact Hd).
  clearbody t. split; [exact H0|]. split.
  - apply flt_le_neq. split; [exact H1|]. intro Et.
    assert (hi = lo).
    { apply fsub_eq0. rewrite Et in E. rewrite E. ring. }
    apply (flt_irrefl K lo). rewrite <- H at 2. exact Hh.
  - exists z. split; [exact (flt_neq0 Hz)|exact E].
Qed.

Lemma newton_yields (hi lo z : K) : 0 < lo -> lo < hi -> hi / lo <= z * z ->
  z * z <> 1 /\ 0 <= (hi - z * z * lo) / (1 - z * z) /\ (hi - z * z * lo) / (1 - z * z) <= lo.
Proof.
  intros Hl Hh Hz. pose proof (ratio_gt1 _ _ Hl Hh) as Hr.
  assert (Hz1 : 1 < z * z) by (exact (flt_le_trans K _ _ _ Hr Hz)).
  assert (Hp : 0 < z * z - 1) by (apply (proj1 (flt_sub _ _)); exact Hz1).
  assert (Hpn := flt_neq0 Hp).
  assert (Hd : 1 - z * z <> 0).
  { intro E. apply Hpn. replace (z * z - 1) with (- (1 - z * z)) by ring. rewrite E. ring. }
  assert (Hln := flt_neq0 Hl).
  split; [|split].
  - intro E. apply Hpn. rewrite E. ring.
  - replace ((hi - z * z * lo) / (1 - z * z)) with (lo * (z * z - hi / lo) / (z * z - 1))
      by (field; repeat split; assumption).
    apply fdiv_nonneg; [|exact Hp]. apply fmul_nonneg; [exact (flt_le Hl)|].
    apply (proj1 (fle_sub _ _)). exact Hz.
  - apply fle_sub.
    replace (lo - (hi - z * z * lo) / (1 - z * z)) with ((hi - lo) / (z * z - 1))
      by (field; repeat split; assumption).
    apply fdiv_nonneg; [|exact Hp]. apply (proj1 (fle_sub _ _)). exact (flt_le Hh).
Qed.

Lemma square_loop_later (hi lo : K) n z : 0 < lo -> lo < hi -> 0 < z ->
  exists ts, square_loop hi lo n false z = Ok ts /\ length ts = n /\
    forall t, In t ts -> square_shift hi lo t.
Proof.
  intros Hl Hh. revert z. induction n as [|n IH]; intros z Hz; cbn [square_loop negb orb].
  - exists []. split; [reflexivity|]. split; [reflexivity|]. intros t [].
  - pose proof (newton_facts (hi / lo) z (ratio_gt1 _ _ Hl Hh) Hz) as (P & R).
    set (w := (z + hi / lo / z) / (1 + 1)) in *. clearbody w.
    pose proof (newton_yields hi lo w Hl Hh R) as (N & A & B).
    rewrite (proj2 (feqb_neq K _ _) N). destruct (IH w P) as (ts & -> & L & S).
    rewrite (proj2 (fltb_ge K _ _) A), (proj2 (fltb_ge K _ _) B). cbn [orb].
    eexists. split; [reflexivity|]. split; [cbn; rewrite L; reflexivity|].
    intros t [<-|Ht]; [|exact (S t Ht)]. apply shift_ok; assumption.
Qed.

Lemma square_loop_first (hi lo : K) n z : 0 < lo -> lo < hi -> 0 < z ->
  exists ts, square_loop hi lo n true z = Ok ts /\ (n - 1 <= length ts <= n)%nat /\
    forall t, In t ts -> square_shift hi lo t.
Proof.
  intros Hl Hh Hz. destruct n as [|n]; cbn [square_loop negb orb].
  - exists []. split; [reflexivity|]. split; [cbn; lia|]. intros t [].
  - destruct (feqb z 1) eqn:E1.
    + pose proof (newton_facts (hi / lo) z (ratio_gt1 _ _ Hl Hh) Hz) as (P & R).
      set (w := (z + hi / lo / z) / (1 + 1)) in *. clearbody w.
      pose proof (newton_yields hi lo w Hl Hh R) as (N & A & B).
      rewrite (proj2 (feqb_neq K _ _) N). destruct (square_loop_later hi lo n w Hl Hh P) as (ts & -> & L & S).
      rewrite (proj2 (fltb_ge K _ _) A), (proj2 (fltb_ge K _ _) B). cbn [orb].
      eexists. split; [reflexivity|]. split; [cbn; lia|].
      intros t [<-|Ht]; [|exact (S t Ht)]. apply shift_ok; assumption.
    + apply feqb_neq in E1.
      assert (N : z * z <> 1) by (intro E; apply E1; apply sq1; assumption).
      rewrite (proj2 (feqb_neq K _ _) N). destruct (square_loop_later hi lo n z Hl Hh Hz) as (ts & -> & L & S).
      destruct (fltb ((hi - z * z * lo) / (1 - z * z)) 0) eqn:Ea; cbn [orb].
      { exists ts. split; [reflexivity|]. split; [lia|exact S]. }
      destruct (fltb lo ((hi - z * z * lo) / (1 - z * z))) eqn:Eb.
      { exists ts. split; [reflexivity|]. split; [lia|exact S]. }
      eexists. split; [reflexivity|]. split; [cbn; lia|].
      intros t [<-|Ht]; [|exact (S t Ht)]. apply shift_ok; try assumption; apply fltb_ge; assumption.
Qed.

Lemma square_perturbation_ok isq (a b : K) n : 0 < a -> 0 < b -> a <> b ->
  exists ts, square_perturbation isq a b n = Ok ts /\ (n - 1 <= length ts <= n)%nat /\
    forall t, In t ts -> 0 <= t /\ t < a /\ t < b /\ exists w, w <> 0 /\ a - t = w * w * (b - t).
Proof.
  intros Ha Hb Hn. unfold square_perturbation.
  assert (Hz : 0 < (fnat (Nat.max 1 isq) : K)) by (apply fnat_pos; lia).
  destruct (fltb b a) eqn:E.
  - apply fltb_lt in E. rewrite (proj2 (feqb_neq K _ _) (flt_neq0 Hb)).
    destruct (square_loop_first a b n _ Hb E Hz) as (ts & -> & L & S).
    exists ts. split; [reflexivity|]. split; [exact L|]. intros t Ht.
    destruct (S t Ht) as (T0 & T1 & z & Z0 & Z1). split; [exact T0|].
    split; [exact (flt_trans K _ _ _ T1 E)|]. split; [exact T1|]. exists z. split; assumption.
  - apply fltb_ge in E. assert (E' : a < b) by (apply flt_le_neq; split; assumption).
    rewrite (proj2 (feqb_neq K _ _) (flt_neq0 Ha)).
    destruct (square_loop_first b a n _ Ha E' Hz) as (ts & -> & L & S).
    exists ts. split; [reflexivity|]. split; [exact L|]. intros t Ht.
    destruct (S t Ht) as (T0 & T1 & z & Z0 & Z1). split; [exact T0|].
    split; [exact T1|]. split; [exact (flt_trans K _ _ _ T1 E')|].
    exists (/ z). split; [apply finv_neq0; exact Z0|]. rewrite Z1. field. exact Z0.
Qed.

(** Equal arguments raise when the initial guess is 1 (as it is for an exact square root). *)
Lemma square_perturbation_equal (a : K) n : 0 < a ->
  square_perturbation 1 a a (S n) = Err TypeError.
Proof.
  intro Ha. unfold square_perturbation.
  rewrite (proj2 (fltb_ge K a a) (fle_refl K a)), (proj2 (feqb_neq K _ _) (flt_neq0 Ha)).
  cbn [square_loop negb orb]. change (Nat.max 1 1) with 1%nat.
  assert (E1 : (fnat 1 : K) = 1) by (cbn; ring). rewrite E1.
  rewrite (proj2 (feqb_eq K 1 1) eq_refl).
  assert (E2 : (1 + a / a / 1) / (1 + 1) = (1 : K)) by (field; repeat split; first [exact (flt_neq0 Ha) | exact (f2_neq0 K) | exact (fneq10 K)]).
  rewrite E2. assert (E3 : (1 : K) * 1 = 1) by ring. rewrite E3.
  rewrite (proj2 (feqb_eq K 1 1) eq_refl). reflexivity.
Qed.

Lemma try_ts_some (solve : K -> option (ex K)) pert ts e :
  try_ts solve pert ts = Some e ->
  exists t e', In t ts /\ solve t = Some e' /\ e = EAdd e' (EMul (EC t) pert).
Proof.
  induction ts as [|t ts IH]; cbn [try_ts]; [discriminate|].
  destruct (solve t) as [e'|] eqn:E.
  - intro H. injection H as <-. exists t, e'. split; [left; reflexivity|]. split; [exact E|reflexivity].
  - intro H. destruct (IH H) as (u & e' & A & B & C). exists u, e'. split; [right; exact A|]. split; assumption.
Qed.

Lemma try_perturbations_ok isq (p q : K) solve pert times (f : (nat -> K) -> K) e :
  0 < p -> 0 < q -> p <> q ->
  (forall t e', solve t = Some e' -> forall x, ev x e' = f x - t * ev x pert) ->
  try_perturbations isq p q solve pert times = Ok (Some e) ->
  (forall x, ev x e = f x) /\
  (forall x, 0 <= ev x pert -> (forall t e', solve t = Some e' -> 0 <= ev x e') -> 0 <= ev x e).
Proof.
  intros Hp Hq Hn Hs. unfold try_perturbations.
  destruct (square_perturbation_ok isq p q times Hp Hq Hn) as (ts & -> & _ & S).
  intro H. apply Ok_inj in H. destruct (try_ts_some _ _ _ _ H) as (t & e' & A & B & ->).
  split.
  - intro x. cbn [ev]. rewrite (Hs t e' B x). ring.
  - intros x P Q. cbn [ev]. apply fadd_nonneg; [exact (Q t e' B)|].
    apply fmul_nonneg; [exact (proj1 (S t A))|exact P].
Qed.

Lemma sub_distr (a t y : K) : (a - t) * y = a * y - t * y.
Proof. ring. Qed.

(** ** Secants *)

Lemma secant_on_curve f (x0 y0 t x y : K) : cval f x0 y0 = 0 ->
  secant f x0 y0 t = Some (x, y) -> cval f x y = 0 /\ y - y0 = t * (x - x0).
Proof.
  intros H0. unfold secant. destruct (feqb (sec2 f t) 0) eqn:E; [discriminate|].
  apply feqb_neq in E. intro H. injection H as Hx Hy.
  assert (Hs : sec2 f t * (x + x0) + sec1 f x0 y0 t = 0) by (rewrite <- Hx; field; exact E).
  assert (Hy2 : y = t * (x - x0) + y0) by (rewrite <- Hy, Hx; reflexivity).
  clear Hx Hy. split; [|rewrite Hy2; ring].
  replace (cval f x y) with ((sec2 f t * (x + x0) + sec1 f x0 y0 t) * (x - x0) + cval f x0 y0).
  - rewrite Hs, H0. ring.
  - rewrite Hy2. unfold cval, sec2, sec1. ring.
Qed.

Lemma secant_complete f (x0 y0 x y : K) : cval f x0 y0 = 0 -> cval f x y = 0 -> x <> x0 ->
  secant f x0 y0 ((y - y0) / (x - x0)) = Some (x, y) \/
  (forall u, cval f u ((y - y0) / (x - x0) * (u - x0) + y0) = 0).
Proof.
  intros H0 H1 Hn.
  assert (Hd : x - x0 <> 0) by (intro E; apply Hn; apply fsub_eq0; exact E).
  set (t := (y - y0) / (x - x0)).
  assert (Hy : y = t * (x - x0) + y0) by (unfold t; field; exact Hd). clearbody t.
  assert (G : forall u, cval f u (t * (u - x0) + y0) =
     (sec2 f t * (u + x0) + sec1 f x0 y0 t) * (u - x0) + cval f x0 y0).
  { intro u. unfold cval, sec2, sec1. ring. }
  assert (Hs : sec2 f t * (x + x0) + sec1 f x0 y0 t = 0).
  { pose proof (G x) as Gx. rewrite <- Hy, H1, H0 in Gx.
    assert (Z : (sec2 f t * (x + x0) + sec1 f x0 y0 t) * (x - x0) = 0) by (rewrite Gx; ring).
    apply fmul_eq0 in Z. destruct Z as [Z|Z]; [exact Z|contradiction]. }
  unfold secant. destruct (feqb (sec2 f t) 0) eqn:E.
  - right. intro u. apply feqb_eq in E. rewrite G, H0. rewrite E in *.
    replace (sec1 f x0 y0 t) with (0 : K); [ring|]. rewrite <- Hs. ring.
  - left. apply feqb_neq in E.
    assert (Hx : - sec1 f x0 y0 t / sec2 f t - x0 = x).
    { replace (sec1 f x0 y0 t) with (- (sec2 f t * (x + x0))); [field; exact E|].
      apply fsub_eq0.
      replace (- (sec2 f t * (x + x0)) - sec1 f x0 y0 t)
        with (- (sec2 f t * (x + x0) + sec1 f x0 y0 t)) by ring. rewrite Hs. ring. }
    rewrite Hx, <- Hy. reflexivity.
Qed.

Lemma norm_sign_val f (x y : K) : cval f x y = 0 <-> cval (norm_sign f) x y = 0.
Proof.
  unfold norm_sign. destruct (fltb (c20 f) 0); [|tauto].
  assert (E : cval (Conic (- c20 f) (- c11 f) (- c02 f) (- c10 f) (- c01 f) (- c00 f)) x y = - cval f x y)
    by (unfold cval; cbn; ring).
  rewrite E. split; intro H.
  - rewrite H. ring.
  - replace (cval f x y) with (- - cval f x y) by ring. rewrite H. ring.
Qed.
Lemma norm_sign_lead f : c20 f <> (0 : K) -> c20 (norm_sign f) <> 0.
Proof.
  intro H. unfold norm_sign. destruct (fltb (c20 f) 0); [|exact H]. cbn. intro E. apply H.
  replace (c20 f) with (- - c20 f) by ring. rewrite E. ring.
Qed.

Lemma completed (g : conic K) x y : c20 g <> 0 -> cy2 g <> 0 ->
  cval g x y = c20 g * ((x - - (c11 g * y + c10 g) / (1 + 1) / c20 g) * (x - - (c11 g * y + c10 g) / (1 + 1) / c20 g))
     + cy2 g * ((y - - cy1 g / (1 + 1) / cy2 g) * (y - - cy1 g / (1 + 1) / cy2 g)) + cconst g.
Proof.
  intros H1 H2. pose proof (f2_neq0 K) as T2.
  assert (T4 : (1 + 1 + 1 + 1 : K) <> 0) by fnz.
  assert (E : cval g x y = c20 g * ((x - - (c11 g * y + c10 g) / (1 + 1) / c20 g) * (x - - (c11 g * y + c10 g) / (1 + 1) / c20 g))
     + (cy2 g * y * y + cy1 g * y + cy0 g)).
  { unfold cval, cy2, cy1, cy0. field. repeat split; first [assumption | fnz]. }
  rewrite E. unfold cconst. set (a2 := cy2 g) in *. set (a1 := cy1 g). set (a0 := cy0 g).
  clearbody a2 a1 a0. field. repeat split; first [assumption | fnz].
Qed.

Lemma curve_point_ok dn f (x y : K) : dn_ok f (dn f) ->
  curve_point dn f = Ok (CDict x y) -> cval f x y = 0.
Proof.
  unfold curve_point, dn_ok. intros (Hr & Ht & Ha & Hb & Ea & Eb & Ec & Es).
  destruct (feqb (c20 f) 0) eqn:E; [destruct (_ && _); discriminate|]. apply feqb_neq in E.
  pose proof (norm_sign_lead f E) as L.
  destruct (feqb (cy2 (norm_sign f)) 0) eqn:E2; [discriminate|]. apply feqb_neq in E2.
  destruct (dn_sols (dn f)) as [|[u v] l]; [discriminate|].
  pose proof (Es u v (or_introl eq_refl)) as Euv.
  intro H. apply Ok_inj in H. injection H as Hx Hy.
  apply norm_sign_val. rewrite completed by assumption.
  set (g := norm_sign f) in *. clearbody g. set (o := dn f) in *. clearbody o.
  set (X := - (c11 g * y + c10 g) / (1 + 1) / c20 g).
  assert (Px : x - X = u * dn_sc o / dn_sa o).
  { rewrite <- Hx. unfold X. rewrite <- Hy. ring. }
  assert (Py : y - - cy1 g / (1 + 1) / cy2 g = v * dn_sc o / dn_sb o) by (rewrite <- Hy; ring).
  rewrite Px, Py. clear Px Py Hx Hy X.
  assert (A : c20 g = dn_sa o * dn_sa o * dn_r o / dn_t o) by (rewrite Ea; field; split; assumption).
  assert (B : cy2 g = dn_sb o * dn_sb o * dn_b o * dn_r o / dn_t o) by (rewrite Eb; field; split; assumption).
  assert (C : cconst g = dn_sc o * dn_sc o * dn_c o * dn_r o / dn_t o) by (rewrite Ec; field; split; assumption).
  rewrite A, B, C.
  transitivity ((u * u + dn_b o * v * v + dn_c o) * (dn_sc o * dn_sc o * dn_r o / dn_t o)).
  - field. repeat split; assumption.
  - rewrite Euv. ring.
Qed.

(** ** Regions *)

Lemma scan_some (polys : list (conic K)) s x y :
  scan polys s = Ok (Some (x, y)) -> forall f, In f polys -> 0 <= cval f x y.
Proof.
  induction s as [|c s IH|e]; cbn [scan]; [discriminate| |discriminate].
  destruct c as [u v| |]; [|exact IH|discriminate].
  destruct (forallb _ polys) eqn:E; [|exact IH].
  intros H f Hf. apply Ok_inj in H. injection H as <- <-.
  rewrite forallb_forall in E. apply fleb_le. exact (E f Hf).
Qed.
Lemma scan_pairs_some (polys : list (conic K)) ps ask x y :
  scan_pairs polys ps ask = Ok (Some (x, y)) -> forall f, In f polys -> 0 <= cval f x y.
Proof.
  induction ps as [|[f1 f2] ps IH]; cbn [scan_pairs]; [discriminate|].
  destruct (scan polys _) as [[[u v]|]|e] eqn:E; [|exact IH|discriminate].
  intro H. apply Ok_inj in H. injection H as -> ->. exact (scan_some _ _ _ _ E).
Qed.

Lemma fabs_nonneg (x : K) : 0 <= fabs x.
Proof.
  unfold fabs. destruct (fltb x 0) eqn:E; [apply fltb_lt in E; apply fopp_nonneg; exact (flt_le E)|].
  apply fltb_ge in E. exact E.
Qed.
Lemma weight_nonneg (f : conic K) : 0 <= weight f.
Proof. unfold weight. repeat apply fadd_nonneg; apply fabs_nonneg. Qed.

Lemma reg_sign f (x y : K) : 0 <= cval (reg f) x y <-> 0 <= cval f x y.
Proof.
  unfold reg. destruct (feqb (weight f) 0) eqn:E; [tauto|]. apply feqb_neq in E.
  assert (W : 0 < weight f) by (apply flt_le_neq; split; [apply weight_nonneg|apply not_eq_sym; exact E]).
  set (w := weight f) in *. clearbody w.
  assert (Hc : cval (Conic (c20 f / w) (c11 f / w) (c02 f / w) (c10 f / w) (c01 f / w) (c00 f / w)) x y = cval f x y / w)
    by (unfold cval; cbn [c20 c11 c02 c10 c01 c00]; field; exact E).
  rewrite Hc. split; intro H.
  - replace (cval f x y) with (cval f x y / w * w) by (field; exact E).
    apply fmul_nonneg; [exact H|exact (flt_le W)].
  - apply fdiv_nonneg; assumption.
Qed.

Lemma constant_val f (x y : K) : constant f = true -> cval f x y = c00 f.
Proof.
  unfold constant. rewrite !andb_true_iff, !feqb_eq. intros ((((A & B) & C) & D) & E).
  unfold cval. rewrite A, B, C, D, E. ring.
Qed.

Definition padded (l : list (conic K)) : list (conic K) := match l with [f] => [f; czero] | _ => l end.
Lemma padded_in l f : In f l -> In f (padded l).
Proof. destruct l as [|g [|h l]]; cbn; tauto. Qed.

Lemma common_region_ok ask (polys : list (conic K)) x y :
  common_region ask polys = Ok (Some (x, y)) -> forall f, In f polys -> 0 <= cval f x y.
Proof.
  unfold common_region. destruct (existsb _ polys) eqn:Ec; [discriminate|].
  intros H f Hf.
  assert (Hconst : constant f = true -> 0 <= cval f x y).
  { intro C. rewrite (constant_val _ _ _ C). apply fltb_ge.
    destruct (fltb (c00 f) 0) eqn:E; [|reflexivity]. exfalso.
    assert (X : existsb (fun f => constant f && fltb (c00 f) 0) polys = true).
    { apply existsb_exists. exists f. split; [exact Hf|]. rewrite C, E. reflexivity. }
    congruence. }
  destruct (constant f) eqn:C; [exact (Hconst eq_refl)|].
  assert (Hin : In f (filter (fun f => negb (constant f)) polys)) by (apply filter_In; split; [exact Hf|rewrite C; reflexivity]).
  destruct (filter (fun f => negb (constant f)) polys) as [|g l] eqn:El; [destruct Hin|].
  change (match l with [] => [g; czero] | _ :: _ => g :: l end) with (padded (g :: l)) in H.
  pose proof (scan_pairs_some _ _ _ _ _ H (reg f)) as P. apply reg_sign. apply P.
  apply in_map. apply padded_in. exact Hin.
Qed.

(** Two conics with a common line: every point of the line will do. *)
Lemma scan_found (polys : list (conic K)) l s x y :
  (forall c, In c l -> exists u v, c = Pt u v) -> In (Pt x y) l ->
  (forall f, In f polys -> 0 <= cval f x y) ->
  exists p, scan polys (sapp l s) = Ok (Some p).
Proof.
  induction l as [|c l IH]; intros Hl Hin Hp; [destruct Hin|].
  destruct (Hl c (or_introl eq_refl)) as (u & v & ->). cbn [sapp scan].
  destruct (forallb (fun f => fleb 0 (cval f u v)) polys) eqn:E; [eexists; reflexivity|].
  apply IH; [intros c Hc; apply Hl; right; exact Hc| |exact Hp].
  destruct Hin as [Hin|Hin]; [|exact Hin]. exfalso. injection Hin as -> ->.
  assert (X : forallb (fun f => fleb 0 (cval f x y)) polys = true).
  { apply forallb_forall. intros f Hf. apply fleb_le. exact (Hp f Hf). }
  congruence.
Qed.
Lemma sapp_app (l1 l2 : list (cand K)) s : sapp (l1 ++ l2) s = sapp l1 (sapp l2 s).
Proof. induction l1 as [|c l1 IH]; cbn; [reflexivity|]. rewrite IH. reflexivity. Qed.

(** [a x + b y + c] divides the conic. *)
Definition line_divides (a b c : K) (f : conic K) : Prop :=
  exists p q r, forall x y, cval f x y = (a * x + b * y + c) * (p * x + q * y + r).

Lemma pair_line (f1 f2 : conic K) o :
  pa_gdeg o = 1%nat -> ~ (pa_ga o = 0 /\ pa_gb o = 0) ->
  line_divides (pa_ga o) (pa_gb o) (pa_gc o) f1 -> line_divides (pa_ga o) (pa_gb o) (pa_gc o) f2 ->
  exists p, scan [f1; f2] (pair_cands f1 f2 o) = Ok (Some p).
Proof.
  intros Hd Hab (p1 & q1 & r1 & D1) (p2 & q2 & r2 & D2).
  unfold pair_cands, gcd_cands. rewrite Hd.
  rewrite <- sapp_app.
  assert (Q : forall x y, pa_ga o * x + pa_gb o * y + pa_gc o = 0 ->
     forall f, In f [f1; f2] -> 0 <= cval f x y).
  { intros x y E f [<-|[<-|[]]]; [rewrite D1|rewrite D2]; rewrite E;
    match goal with |- 0 <= 0 * ?w => replace (0 * w) with (0 : K) by ring end; apply fle_refl. }
  set (line := (if feqb (pa_gb o) 0 then [] else _) ++ _).
  assert (HP : forall c, In c (map as_pt (filter (both_ok f1 f2) (pa_centres o)) ++ line ++
      map as_pt (filter (both_ok f1 f2) (pa_axes o ++ pa_inters o))) -> exists u v, c = Pt u v).
  { intros c Hc. rewrite !in_app_iff, !in_map_iff in Hc.
    destruct Hc as [([u v] & <- & _)|[Hc|([u v] & <- & _)]]; [exists u, v; reflexivity| |exists u, v; reflexivity].
    unfold line in Hc. rewrite in_app_iff in Hc.
    destruct (feqb (pa_gb o) 0), (feqb (pa_ga o) 0); cbn in Hc;
      repeat match goal with H : _ \/ _ |- _ => destruct H end; subst; try contradiction; eauto. }
  destruct (feqb (pa_gb o) 0) eqn:Eb.
  - apply feqb_eq in Eb. destruct (feqb (pa_ga o) 0) eqn:Ea.
    + apply feqb_eq in Ea. tauto.
    + apply feqb_neq in Ea.
      eapply (scan_found _ _ SNil (- pa_gc o / pa_ga o) 0 HP).
      * apply in_or_app. right. apply in_or_app. left. left. reflexivity.
      * apply Q. rewrite Eb. field. exact Ea.
  - apply feqb_neq in Eb.
    eapply (scan_found _ _ SNil 0 (- pa_gc o / pa_gb o) HP).
    + apply in_or_app. right. apply in_or_app. left. left. reflexivity.
    + apply Q. field. exact Eb.
Qed.

Lemma line_divides_reg a b c f : line_divides a b c f -> line_divides a b c (reg f).
Proof.
  intros (p & q & r & D). unfold reg. destruct (feqb (weight f) 0) eqn:E; [exists p, q, r; exact D|].
  apply feqb_neq in E. set (w := weight f) in *. clearbody w.
  exists (p / w), (q / w), (r / w). intros x y.
  transitivity (cval f x y / w).
  - unfold cval. cbn [c20 c11 c02 c10 c01 c00]. field. exact E.
  - rewrite D. field. exact E.
Qed.

Lemma common_region_line ask (f1 f2 : conic K) :
  constant f1 = false -> constant f2 = false ->
  pa_gdeg (ask (reg f1) (reg f2)) = 1%nat ->
  ~ (pa_ga (ask (reg f1) (reg f2)) = 0 /\ pa_gb (ask (reg f1) (reg f2)) = 0) ->
  (forall f, In f [f1; f2] -> line_divides (pa_ga (ask (reg f1) (reg f2)))
      (pa_gb (ask (reg f1) (reg f2))) (pa_gc (ask (reg f1) (reg f2))) f) ->
  exists p, common_region ask [f1; f2] = Ok (Some p).
Proof.
  intros C1 C2 Hd Hab Hdiv. unfold common_region. cbn [existsb filter]. rewrite C1, C2. cbn [negb andb orb].
  cbn [map pairs_of app scan_pairs].
  destruct (pair_line (reg f1) (reg f2) _ Hd Hab
    (line_divides_reg _ _ _ _ (Hdiv f1 (or_introl eq_refl)))
    (line_divides_reg _ _ _ _ (Hdiv f2 (or_intror (or_introl eq_refl))))) as (p & E).
  rewrite E. exists p. reflexivity.
Qed.

(** No answer for a negative constant; the origin when nothing is asked. *)
Lemma common_region_const ask (polys : list (conic K)) f :
  In f polys -> constant f = true -> c00 f < 0 -> common_region ask polys = Ok None.
Proof.
  intros Hf C N. unfold common_region.
  replace (existsb _ polys) with true; [reflexivity|]. symmetry. apply existsb_exists.
  exists f. split; [exact Hf|]. rewrite C. cbn. apply fltb_lt. exact N.
Qed.

Lemma common_region_constants ask (polys : list (conic K)) :
  (forall f, In f polys -> constant f = true /\ 0 <= c00 f) -> common_region ask polys = Ok (Some (0, 0)).
Proof.
  intro H. unfold common_region.
  replace (existsb _ polys) with false.
  - replace (filter _ polys) with (@nil (conic K)); [reflexivity|]. symmetry.
    induction polys as [|f l IH]; [reflexivity|]. cbn [filter]. destruct (H f (or_introl eq_refl)) as [C _].
    rewrite C. cbn [negb]. apply IH. intros g Hg. apply H. right. exact Hg.
  - symmetry. apply not_true_iff_false. intro E. apply existsb_exists in E. destruct E as (f & Hf & E).
    apply andb_true_iff in E. destruct E as [_ E]. apply fltb_lt, flt_not_le in E. apply E. apply H. exact Hf.
Qed.

(** Proportional conics whose centres fail: the call raises. *)
Lemma common_region_same_raises ask (f1 f2 : conic K) x y :
  constant f1 = false -> constant f2 = false ->
  filter (both_ok (reg f1) (reg f2)) (pa_centres (ask (reg f1) (reg f2))) = [] ->
  pa_gdeg (ask (reg f1) (reg f2)) = 2%nat ->
  pa_curve (ask (reg f1) (reg f2)) = Ok (CDict x y) ->
  common_region ask [f1; f2] = Err TypeError.
Proof.
  intros C1 C2 Hc Hd Hp. unfold common_region. cbn [existsb filter]. rewrite C1, C2. cbn [negb andb orb].
  cbn [map pairs_of app scan_pairs]. unfold pair_cands. rewrite Hc. unfold gcd_cands. rewrite Hd, Hp.
  reflexivity.
Qed.

End Facts.

(** ** cancel_denominator *)

Lemma fold_gcd_div l : forall g, (fold_left Z.gcd l g | g)%Z /\ forall x, In x l -> (fold_left Z.gcd l g | x)%Z.
Proof.
  induction l as [|y l IH]; intro g; cbn [fold_left].
  - split; [apply Z.divide_refl|intros x []].
  - destruct (IH (Z.gcd g y)) as [A B]. split.
    + exact (Z.divide_trans _ _ _ A (Z.gcd_divide_l g y)).
    + intros x [<-|Hx]; [exact (Z.divide_trans _ _ _ A (Z.gcd_divide_r g y))|exact (B x Hx)].
Qed.
Lemma fold_gcd_greatest l : forall g d, (d | g)%Z -> (forall x, In x l -> (d | x)%Z) ->
  (d | fold_left Z.gcd l g)%Z.
Proof.
  induction l as [|y l IH]; intros g d H Hl; cbn [fold_left]; [exact H|].
  apply IH; [|intros x Hx; apply Hl; right; exact Hx].
  apply Z.gcd_greatest; [exact H|apply Hl; left; reflexivity].
Qed.
Lemma fold_lcm_mult l : forall g, (g | fold_left Z.lcm l g)%Z /\ forall x, In x l -> (x | fold_left Z.lcm l g)%Z.
Proof.
  induction l as [|y l IH]; intro g; cbn [fold_left].
  - split; [apply Z.divide_refl|intros x []].
  - destruct (IH (Z.lcm g y)) as [A B]. split.
    + exact (Z.divide_trans _ _ _ (Z.divide_lcm_l g y) A).
    + intros x [<-|Hx]; [exact (Z.divide_trans _ _ _ (Z.divide_lcm_r g y) A)|exact (B x Hx)].
Qed.
Lemma fold_lcm_least l : forall g m, (g | m)%Z -> (forall x, In x l -> (x | m)%Z) ->
  (fold_left Z.lcm l g | m)%Z.
Proof.
  induction l as [|y l IH]; intros g m H Hl; cbn [fold_left]; [exact H|].
  apply IH; [|intros x Hx; apply Hl; right; exact Hx].
  apply Z.lcm_least; [exact H|apply Hl; left; reflexivity].
Qed.

(** Reduced fractions with positive denominators. *)
Definition reduced (nums : list (Z * Z)) : Prop :=
  forall n d, In (n, d) nums -> (0 < d)%Z /\ Z.gcd n d = 1%Z.

Lemma cancel_divides nums p q : (2 <= length nums)%nat -> reduced nums ->
  cancel_denominator nums = (p, q) ->
  forall n d, In (n, d) nums -> exists k, (n * q = k * (d * p))%Z.
Proof.
  intros L R H n d Hin. destruct nums as [|[n0 d0] [|x l]]; cbn [length] in L; try lia.
  unfold cancel_denominator in H. injection H as Hp Hq. cbn [fst snd] in Hp, Hq.
  destruct (fold_gcd_div (fst x :: map fst l) n0) as [A0 A].
  destruct (fold_lcm_mult (snd x :: map snd l) d0) as [B0 B].
  cbn [fold_left] in A0, A, B0, B. rewrite Hp in A0, A. rewrite Hq in B0, B.
  assert (Pn : (p | n)%Z).
  { destruct Hin as [E|Hin]; [injection E as <- <-; exact A0|].
    apply A. change n with (fst (n, d)). exact (in_map fst (x :: l) _ Hin). }
  assert (Pd : (d | q)%Z).
  { destruct Hin as [E|Hin]; [injection E as <- <-; exact B0|].
    apply B. change d with (snd (n, d)). exact (in_map snd (x :: l) _ Hin). }
  destruct Pn as [a ->]. destruct Pd as [b ->]. exists (a * b)%Z. ring.
Qed.

Lemma cancel_greatest nums p q u v : (2 <= length nums)%nat -> reduced nums ->
  cancel_denominator nums = (p, q) -> Z.gcd u v = 1%Z ->
  (forall n d, In (n, d) nums -> exists k, (n * v = k * (d * u))%Z) ->
  exists k, (p * v = k * (q * u))%Z.
Proof.
  intros L R H G Hall. destruct nums as [|[n0 d0] [|x l]]; cbn [length] in L; try lia.
  unfold cancel_denominator in H. injection H as Hp Hq. cbn [fst snd] in Hp, Hq.
  assert (Hn : forall n d, In (n, d) ((n0, d0) :: x :: l) -> (u | n)%Z /\ (d | v)%Z).
  { intros n d Hin. destruct (Hall n d Hin) as [k E]. destruct (R n d Hin) as [_ C]. split.
    - apply (Z.gauss u v n); [|exact G]. exists (k * d)%Z. rewrite Z.mul_comm, E. ring.
    - apply (Z.gauss d n v); [|rewrite Z.gcd_comm; exact C]. exists (k * u)%Z. rewrite E. ring. }
  assert (Pu : (u | p)%Z).
  { rewrite <- Hp. apply (fold_gcd_greatest (fst x :: map fst l) n0 u).
    - exact (proj1 (Hn n0 d0 (or_introl eq_refl))).
    - intros y Hy. change (fst x :: map fst l) with (map fst (x :: l)) in Hy. apply in_map_iff in Hy.
      destruct Hy as ([n d] & <- & Hin). exact (proj1 (Hn n d (or_intror Hin))). }
  assert (Pv : (q | v)%Z).
  { rewrite <- Hq. apply (fold_lcm_least (snd x :: map snd l) d0 v).
    - exact (proj2 (Hn n0 d0 (or_introl eq_refl))).
    - intros y Hy. change (snd x :: map snd l) with (map snd (x :: l)) in Hy. apply in_map_iff in Hy.
      destruct Hy as ([n d] & <- & Hin). exact (proj2 (Hn n d (or_intror Hin))). }
  destruct Pu as [a ->]. destruct Pv as [b ->]. exists (a * b)%Z. ring.
Qed.

Lemma cancel_zero_iff nums p q : (2 <= length nums)%nat ->
  cancel_denominator nums = (p, q) -> p = 0%Z -> forall n d, In (n, d) nums -> n = 0%Z.
Proof.
  intros L H Hp0 n d Hin. destruct nums as [|[n0 d0] [|x l]]; cbn [length] in L; try lia.
  unfold cancel_denominator in H. injection H as Hp Hq. cbn [fst snd] in Hp.
  destruct (fold_gcd_div (fst x :: map fst l) n0) as [A0 A].
  cbn [fold_left] in A0, A. rewrite Hp, Hp0 in A0, A. apply Z.divide_0_l.
  destruct Hin as [E|Hin]; [injection E as <- <-; exact A0|].
  apply A. change n with (fst (n, d)). exact (in_map fst (x :: l) _ Hin).
Qed.
