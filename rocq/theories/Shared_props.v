(** * Properties of the preparation of problems (C14, C15, C16, C63, C64) *)
From Coq Require Import Bool List Arith ZArith Lia Permutation.
From Verif Require Import OrdField Base Perm PermCheck Poly PolyId Monomials Shared Wrapper ClearSym.
Import ListNotations.
Local Open Scope of_scope.

(** ** C14. Standard forms of constraints.
    [factored K c l] is the given polynomial [c * prod q^d]. *)

(** Where no repeated factor vanishes the new inequality is equivalent to the old one and the
    recorded expression has the value of the new polynomial. *)
Theorem std_ineq_keeps_feasible (K : OrdField) c (l : list (fac K * nat)) (e : fac K) x :
  c <> 0 -> (forall q d, In (q, d) l -> (2 <= d)%nat -> q x <> 0) ->
  (0 <= fst (std_ineq K c l e) x <-> 0 <= factored K c l x) /\
  (e x = factored K c l x -> snd (std_ineq K c l e) x = fst (std_ineq K c l e) x).
Proof. exact (std_ineq_spec K c l e x). Qed.
Print Assumptions std_ineq_keeps_feasible.

(** Everywhere the new inequality implies the old one. *)
Theorem std_ineq_stronger (K : OrdField) c (l : list (fac K * nat)) (e : fac K) x :
  c <> 0 -> 0 <= fst (std_ineq K c l e) x -> 0 <= factored K c l x.
Proof. exact (std_ineq_implies K c l e x). Qed.
Print Assumptions std_ineq_stronger.

Definition fa : fac QcOF := fun x => x 0%nat.
Definition fb : fac QcOF := fun x => x 1%nat.
Example std_ineq_case : let l := [(fa, 2%nat); (fb, 3%nat)] in let x := fun i : nat => if Nat.eqb i 0 then q 2 1 else q 1 3 in
  (forall g d, In (g, d) l -> (2 <= d)%nat -> g x <> 0) /\
  Qcanon.this (fst (std_ineq QcOF (- q 5 1) l (factored QcOF (- q 5 1) l)) x) = QArith_base.Qmake (-1) 3 /\
  Qcanon.this (snd (std_ineq QcOF (- q 5 1) l (factored QcOF (- q 5 1) l)) x) = QArith_base.Qmake (-1) 3.
Proof.
  cbv zeta. split; [|split; vm_compute; reflexivity].
  intros g d [H|[H|[]]] _; injection H as <- <-; intro C; apply (f_equal (fun x : QcOF => Qcanon.this x)) in C; vm_compute in C; discriminate.
Qed.

(** Where a repeated factor vanishes the feasible set can shrink: [- a^2 b >= 0] holds at (0, 1),
    its standard form [- b >= 0] does not. *)
Theorem std_ineq_feasible_refuted : exists c (l : list (fac QcOF * nat)) e x,
  c <> 0 /\ 0 <= factored QcOF c l x /\ ~ 0 <= fst (std_ineq QcOF c l e) x.
Proof.
  exists (- (1)), [(fa, 2%nat); (fb, 1%nat)], (fun _ => 0), (fun i : nat => if Nat.eqb i 0 then 0 else 1).
  split; [intro C; apply (f_equal (fun x : QcOF => Qcanon.this x)) in C; vm_compute in C; discriminate|]. split.
  - apply fleb_le. vm_compute. reflexivity.
  - intro C. apply fleb_le in C. vm_compute in C. discriminate.
Qed.
Print Assumptions std_ineq_feasible_refuted.

(** Equations: the zero set is kept everywhere; the radicand of the recorded expression is the
    [M]-th power of the product of the factors. *)
Theorem std_eq_keeps_zeros (K : OrdField) c (l : list (fac K * nat)) (e : fac K) M ret e' x :
  c <> 0 -> (forall q d, In (q, d) l -> (1 <= d)%nat) -> std_eq K c l e = Ok (M, ret, e') ->
  (ret x = 0 <-> factored K c l x = 0) /\
  (e x = factored K c l x -> (e' x = ret x ^ M \/ e' x = (- ret x) ^ M)).
Proof. exact (std_eq_final K c l e M ret e' x). Qed.
Print Assumptions std_eq_keeps_zeros.

Example std_eq_case : exists M ret e', std_eq QcOF (q 2 1) [(fa, 2%nat); (fb, 1%nat)] (factored QcOF (q 2 1) [(fa, 2%nat); (fb, 1%nat)]) = Ok (M, ret, e') /\ M = 2%nat.
Proof. do 3 eexists. split; reflexivity. Qed.

(** The recorded expression is the nonnegative root of that radicand when [M] is even, so it need not
    equal the new polynomial: for [a^2 = 0] at a = -1 the polynomial is -1, the root is 1. *)
Theorem std_eq_expression_refuted : exists (l : list (fac QcOF * nat)) ret e' (x : nat -> QcOF) (r : QcOF),
  std_eq QcOF 1 l (factored QcOF 1 l) = Ok (2%nat, ret, e') /\ 0 <= r /\ r ^ 2 = e' x /\ r <> ret x.
Proof.
  exists [(fa, 2%nat)]. do 2 eexists. exists (fun _ => - (1)), 1. split; [reflexivity|].
  split; [apply fleb_le; vm_compute; reflexivity|]. split; [apply Qcanon.Qc_is_canon; vm_compute; reflexivity|].
  intro C. apply (f_equal (fun x : QcOF => Qcanon.this x)) in C. vm_compute in C. discriminate.
Qed.
Print Assumptions std_eq_expression_refuted.

(** An equation without factors (a nonzero constant) is a [TypeError]. *)
Theorem std_eq_constant_refuted (K : OrdField) c (e : fac K) : std_eq K c [] e = Err TypeError.
Proof. reflexivity. Qed.
Print Assumptions std_eq_constant_refuted.

(** ** C15. Inferred symmetry *)
(** Every generator of the inferred group is a permutation of the generators of the polynomials. *)
Theorem inferred_generators_valid (K : OrdField) n (lists : list (list (poly K))) h v :
  In v (identify_symmetry_from_lists K n lists h) -> Permutation v (seq 0 n).
Proof. exact (identify_gens_perm K n lists h v). Qed.
Print Assumptions inferred_generators_valid.

(** For every group whose elements are products of the inferred generators: the goal keeps its values
    and the feasible set is kept when the coordinates of a point are permuted by an element. *)
Theorem inferred_symmetry_true (K : OrdField) n (goal : poly K) ineqs eqs h G :
  wf n goal -> (forall p, In p ineqs \/ In p eqs -> wf n p) ->
  is_group n G -> (forall g, In g G -> products n (identify_symmetry_from_lists K n [[goal]; ineqs; eqs] h) g) ->
  forall g, In g G -> forall x : nat -> K,
  peval (fun i => x (nth i g 0%nat)) goal = peval x goal /\
  (((forall p, In p ineqs -> 0 <= peval x p) /\ (forall p, In p eqs -> peval x p = 0)) <->
   ((forall p, In p ineqs -> 0 <= peval (fun i => x (nth i g 0%nat)) p) /\ (forall p, In p eqs -> peval (fun i => x (nth i g 0%nat)) p = 0))).
Proof. exact (identify_problem K n goal ineqs eqs h G). Qed.
Print Assumptions inferred_symmetry_true.

(** Each list of constraints is mapped into itself: the constraint with renamed variables is in it. *)
Theorem inferred_symmetry_permutes (K : OrdField) n (lists : list (list (poly K))) h g l :
  products n (identify_symmetry_from_lists K n lists h) g -> In l lists -> (forall p, In p l -> wf n p) ->
  forall p, In p l -> exists p', In p' l /\ forall x : nat -> K, peval (fun i => x (nth i g 0%nat)) p' = peval x p.
Proof. exact (identify_values K n lists h g l). Qed.
Print Assumptions inferred_symmetry_permutes.

(** a^2+b^2+c^2-ab-bc-ca with a, b, c >= 0 is found symmetric; a^2 b + b^2 c + c^2 a only cyclic;
    with a*t and b*t the homogenising variable is kept apart *)
Definition sq3 : poly QcOF := [([2;0;0]%nat, 1); ([0;2;0]%nat, 1); ([0;0;2]%nat, 1); ([1;1;0]%nat, - (1)); ([0;1;1]%nat, - (1)); ([1;0;1]%nat, - (1))].
Definition cyc3 : poly QcOF := [([2;1;0]%nat, 1); ([0;2;1]%nat, 1); ([1;0;2]%nat, 1)].
Definition vars3 : list (poly QcOF) := [[([1;0;0]%nat, 1)]; [([0;1;0]%nat, 1)]; [([0;0;1]%nat, 1)]].
Example inferred_case :
  identify_symmetry_from_lists QcOF 3 [[sq3]; vars3; []] false = [[1;2;0]; [1;0;2]]%nat /\
  identify_symmetry_from_lists QcOF 3 [[cyc3]; vars3; []] false = [[1;2;0]]%nat /\
  identify_symmetry_from_lists QcOF 3 [[[([1;0;0]%nat, 1); ([0;1;0]%nat, 1); ([0;0;1]%nat, q 2 1)]]; []; []] true = [[1;0;2]; [1;0;2]]%nat /\
  products 3 [[1;2;0]]%nat [2;0;1]%nat /\ is_group 3 [[0;1;2];[1;2;0];[2;0;1]]%nat.
Proof.
  split; [vm_compute; reflexivity|]. split; [vm_compute; reflexivity|]. split; [vm_compute; reflexivity|]. split.
  - change [2;0;1]%nat with (pcomp (pcomp (pid 3) [1;2;0]%nat) [1;2;0]%nat).
    apply prod_mul; [apply prod_mul; [apply prod_id|left; reflexivity]|left; reflexivity].
  - apply group_check_sound. vm_compute. reflexivity.
Qed.

(** ** C16. Homogenisation *)
Theorem homogenise_homogeneous (K : OrdField) n (p : poly K) : wf n p ->
  wf (S n) (homogenize K p) /\ forall m, In m (keys (homogenize K p)) -> list_sum m = total_degree p.
Proof. exact (fun H => conj (homogenize_wf K n p H) (homogenize_degree K p)). Qed.
Print Assumptions homogenise_homogeneous.

(** setting the new variable to one gives back the polynomial *)
Theorem homogenise_dehomogenise (K : OrdField) n (p : poly K) x : wf n p -> x n = 1 -> peval x (homogenize K p) = peval x p.
Proof. exact (homogenize_one K n p x). Qed.
Print Assumptions homogenise_dehomogenise.

Theorem homogenise_scaling (K : OrdField) n (p : poly K) x : wf n p -> x n <> 0 ->
  peval x (homogenize K p) = x n ^ total_degree p * peval (fun i => x i / x n) p.
Proof. exact (homogenize_scaled K n p x). Qed.
Print Assumptions homogenise_scaling.

(** A certificate of the homogenised problem is one of the given problem: at every point, with the new
    variable set to one, the homogenised goal has the value of the goal and the homogenised constraints
    hold exactly if the given ones do. *)
Theorem homogenised_problem_certifies (K : OrdField) flag n (goal : poly K) ineqs eqs goal' ineqs' eqs' :
  wf n goal -> (forall p, In p ineqs \/ In p eqs -> wf n p) ->
  homogenize_problem K flag n goal ineqs eqs = (goal', ineqs', eqs', true) -> forall x : nat -> K,
  let y := fun i => if Nat.eqb i n then 1 else x i in
  peval y goal' = peval x goal /\
  (((forall p, In p ineqs -> 0 <= peval x p) /\ (forall p, In p eqs -> peval x p = 0)) <->
   ((forall p, In p ineqs' -> 0 <= peval y p) /\ (forall p, In p eqs' -> peval y p = 0))).
Proof. exact (homogenize_problem_eval K flag n goal ineqs eqs goal' ineqs' eqs'). Qed.
Print Assumptions homogenised_problem_certifies.

(** Nothing is lost where the new variable is positive. *)
Theorem homogenised_problem_faithful (K : OrdField) flag n (goal : poly K) ineqs eqs goal' ineqs' eqs' :
  wf n goal -> (forall p, In p ineqs \/ In p eqs -> wf n p) ->
  homogenize_problem K flag n goal ineqs eqs = (goal', ineqs', eqs', true) -> forall y : nat -> K, 0 < y n ->
  let x := fun i => y i / y n in
  (0 <= peval y goal' <-> 0 <= peval x goal) /\
  (((forall p, In p ineqs' -> 0 <= peval y p) /\ (forall p, In p eqs' -> peval y p = 0)) <->
   ((forall p, In p ineqs -> 0 <= peval x p) /\ (forall p, In p eqs -> peval x p = 0))).
Proof. exact (homogenize_problem_scaled K flag n goal ineqs eqs goal' ineqs' eqs'). Qed.
Print Assumptions homogenised_problem_faithful.

(** The problem is left alone exactly when it is homogeneous or homogenisation is not asked for. *)
Theorem homogenised_only_if_needed (K : OrdField) flag n (goal : poly K) ineqs eqs goal' ineqs' eqs' b :
  homogenize_problem K flag n goal ineqs eqs = (goal', ineqs', eqs', b) ->
  (b = true <-> flag = true /\ ~ forall p, In p (goal :: ineqs ++ eqs) -> forall t, In t p -> list_sum (fst t) = total_degree p) /\
  (b = false -> goal' = goal /\ ineqs' = ineqs /\ eqs' = eqs).
Proof. exact (homogenize_problem_flag K flag n goal ineqs eqs goal' ineqs' eqs' b). Qed.
Print Assumptions homogenised_only_if_needed.

Example homogenise_case :
  let goal : poly QcOF := [([2;0]%nat, 1); ([0;1]%nat, - (1)); ([0;0]%nat, q 3 1)] in
  wf 2 goal /\
  homogenize_problem QcOF true 2 goal [[([1;0]%nat, 1)]] [] =
    ([([2;0;0]%nat, 1); ([0;1;1]%nat, - (1)); ([0;0;2]%nat, q 3 1)], [[([1;0;0]%nat, 1)]; [([0;0;1]%nat, 1)]], [], true).
Proof.
  cbv zeta. split; [|reflexivity]. split; [repeat constructor; cbn; intuition discriminate|].
  intros m H. cbn in H. intuition; subst; reflexivity.
Qed.

(** ** C63. Masked constraints *)
(** Each constraint is masked by a function of symbols; replacing the mask gives back the recorded
    expression. *)
Theorem masks_unmask (K : OrdField) (E : Type) n G (cons : list (poly K * E)) dt inv : is_group n G ->
  (forall g e, In (g, e) cons -> wf n g) -> get_dicts K E n G cons = Ok (dt, inv) ->
  (forall g e g' e', In (g, e) cons -> In (g', e') cons -> (forall m, coef g m = coef g' m) -> e = e') ->
  forall g e, In (g, e) cons -> exists v, rep_get K dt g = Some v /\ mask_get inv v = Some e.
Proof. exact (fun HG Hwf => get_dicts_roundtrip K E n G HG cons Hwf dt inv). Qed.
Print Assumptions masks_unmask.

(** Masks respect the symmetry: permuting the symbols of the mask of a constraint gives the mask of the
    constraint with permuted variables. *)
Theorem masks_equivariant (K : OrdField) (E : Type) n G (cons : list (poly K * E)) dt inv : is_group n G ->
  (forall g e, In (g, e) cons -> wf n g) -> get_dicts K E n G cons = Ok (dt, inv) ->
  forall g e, In (g, e) cons -> exists k a, rep_get K dt g = Some (k, a) /\
  forall s, In s G -> exists g' e', mask_get inv (k, map (fun i => nth i s 0%nat) a) = Some e' /\
    In (g', e') cons /\ forall x : nat -> K, peval x g' = peval (fun i => x (nth i s 0%nat)) g.
Proof. exact (fun HG Hwf => get_dicts_spec K E n G HG cons Hwf dt inv). Qed.
Print Assumptions masks_equivariant.

(** The only error is [ValueError], raised exactly when the constraints are not symmetric. *)
Theorem masks_error_iff (K : OrdField) (E : Type) n G (cons : list (poly K * E)) : is_group n G ->
  (forall g e, In (g, e) cons -> wf n g) ->
  (get_dicts K E n G cons = Err ValueError <->
   exists g e s, In (g, e) cons /\ In s G /\
   forall g' e', In (g', e') cons -> ~ forall x : nat -> K, peval x g' = peval (fun i => x (nth i s 0%nat)) g) /\
  (forall r, get_dicts K E n G cons = Err r -> r = ValueError).
Proof. exact (fun HG Hwf => get_dicts_error_iff K E n G HG cons Hwf). Qed.
Print Assumptions masks_error_iff.

(** a, b, c >= 0 and a+b, b+c, c+a >= 0 under the cyclic group: two function symbols *)
Example masks_case :
  let lin (u v w : QcOF) : poly QcOF := filter (fun t => negb (feqb (snd t) 0)) [([1;0;0]%nat, u); ([0;1;0]%nat, v); ([0;0;1]%nat, w)] in
  let cons := [(lin 1 0 0, 10%nat); (lin 0 1 0, 11%nat); (lin 1 1 0, 12%nat); (lin 0 0 1, 13%nat); (lin 0 1 1, 14%nat); (lin 1 0 1, 15%nat)] in
  let G := [[0;1;2];[1;2;0];[2;0;1]]%nat in
  match get_dicts QcOF nat 3 G cons with
  | Ok (dt, inv) => rep_get QcOF dt (lin 1 0 1) = Some (1%nat, [2; 0]%nat) /\ mask_get inv (1%nat, [2; 0]%nat) = Some 15%nat
                    /\ mask_get inv (1%nat, [0; 1]%nat) = Some 12%nat /\ mask_get inv (0%nat, [2]%nat) = Some 13%nat
  | Err _ => False
  end /\ get_dicts QcOF nat 3 G [(lin 1 0 0, 10%nat); (lin 0 1 0, 11%nat)] = Err ValueError.
Proof. cbv zeta. split; vm_compute; repeat split. Qed.

(** ** C64. One polynomial per orbit *)
(** The columns of [permute_vec] are the vectors of the polynomial with permuted variables. *)
Theorem permute_vec_exact (K : OrdField) n G hom (p : poly K) d : is_group n G -> wf n p ->
  exists cols, permute_vec K n G hom (map (coef p) (base_monoms n hom d)) d = Ok cols /\ length cols = length G /\
  forall i g, nth_error G i = Some g -> exists p', nth_error cols i = Some (map (coef p') (base_monoms n hom d)) /\
    wf n p' /\ forall x : nat -> K, peval (fun i => x (nth i g 0%nat)) p' = peval x p.
Proof. exact (permute_vec_values K n G hom p d). Qed.
Print Assumptions permute_vec_exact.

(** Every polynomial is, up to a permutation of the group, one of the kept polynomials; all kept ones
    were given. *)
Theorem clear_polys_covers (K : OrdField) n G hom polys out : is_group n G -> (2 <= n)%nat ->
  (forall p, In p polys -> wf n p /\ (forall t, In t p -> snd t <> 0) /\ (hom = true -> is_homogeneous K p = true)) ->
  clear_polys K n G hom (vmax K) false polys = Ok out ->
  (forall p, In p out -> In p polys) /\
  (forall p, In p polys -> exists p' g, In p' out /\ In g G /\ forall x : nat -> K, peval x p' = peval (fun i => x (nth i g 0%nat)) p).
Proof. exact (clear_polys_covers_lemma K n G hom polys out). Qed.
Print Assumptions clear_polys_covers.

(** No two kept polynomials are in one orbit. *)
Theorem clear_polys_minimal (K : OrdField) n G hom polys out : is_group n G ->
  (forall p, In p polys -> wf n p /\ (forall t, In t p -> snd t <> 0) /\ (hom = true -> is_homogeneous K p = true)) ->
  clear_polys K n G hom (vmax K) false polys = Ok out ->
  forall i j p p' g, nth_error out i = Some p -> nth_error out j = Some p' -> In g G ->
    (forall x : nat -> K, peval x p' = peval (fun i => x (nth i g 0%nat)) p) -> i = j.
Proof. exact (clear_polys_minimal_lemma K n G hom polys out). Qed.
Print Assumptions clear_polys_minimal.

Theorem clear_polys_total (K : OrdField) n G hom polys : is_group n G -> (forall p, In p polys -> wf n p) ->
  exists out, clear_polys K n G hom (vmax K) false polys = Ok out.
Proof. exact (fun HG => clear_polys_ok K n G hom (vmax K) HG polys). Qed.
Print Assumptions clear_polys_total.

Example clear_polys_case :
  let v i : poly QcOF := [(map (fun j => if Nat.eqb i j then 1%nat else 0%nat) [0;1;2]%nat, 1)] in
  let G := [[0;1;2];[1;2;0];[2;0;1]]%nat in
  match clear_polys QcOF 3 G true (vmax QcOF) false [v 0%nat; cyc3; v 2%nat; sq3] with
  | Ok out => map (fun p => map fst p) out = map (fun p => map fst p) [v 2%nat; cyc3; sq3] | Err _ => False end.
Proof. vm_compute. reflexivity. Qed.

(** With a homogeneous manager terms of lower degree are ignored, so polynomials of different orbits can
    be identified: of a^2 + a and a^2 + b only the second is kept. *)
Theorem clear_polys_nonhomogeneous_refuted : exists (p1 p2 : poly QcOF) G, is_group 2 G /\ wf 2 p1 /\ wf 2 p2 /\
  match clear_polys QcOF 2 G true (vmax QcOF) false [p1; p2] with
  | Ok out => length out = 1%nat /\ forall g p, In g G -> In p out -> ~ forall x : nat -> QcOF, peval x p = peval (fun i => x (nth i g 0%nat)) p1
  | Err _ => False end.
Proof.
  exists [([2;0]%nat, 1); ([1;0]%nat, 1)], [([2;0]%nat, 1); ([0;1]%nat, 1)], [[0;1];[1;0]]%nat.
  split; [apply group_check_sound; vm_compute; reflexivity|].
  split; [split; [repeat constructor; cbn; intuition discriminate|intros m H; cbn in H; intuition; subst; reflexivity]|].
  split; [split; [repeat constructor; cbn; intuition discriminate|intros m H; cbn in H; intuition; subst; reflexivity]|].
  match goal with |- match ?t with _ => _ end => assert (E : t = Ok [[([2;0]%nat, 1); ([0;1]%nat, 1)]]) by reflexivity; rewrite E end.
  split; [reflexivity|]. intros g p [<-|[<-|[]]] [<-|[]] C.
  - specialize (C (fun i => if Nat.eqb i 0 then 1 else 0)). apply (f_equal (fun x : QcOF => Qcanon.this x)) in C. vm_compute in C. discriminate.
  - specialize (C (fun i => if Nat.eqb i 0 then q 2 1 else 0)). apply (f_equal (fun x : QcOF => Qcanon.this x)) in C. vm_compute in C. discriminate.
Qed.
Print Assumptions clear_polys_nonhomogeneous_refuted.
