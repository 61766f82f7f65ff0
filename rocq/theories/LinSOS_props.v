(** * Properties of linear SOS (C18, C19, C67, C68) *)
From Coq Require Import Bool List Arith ZArith Lia Permutation.
From Verif Require Import OrdField Base Perm PermCheck Poly Monomials PolyOps DegreeComb LinSOS LinSolution LinBasis.
Import ListNotations.
Local Open Scope of_scope.

(** ** C18. Correction of the numerical answer.
    [as_poly b] is the polynomial of a member of the program; [parted]: the [num] multipliers come last;
    [good d]: the polynomials have [n] variables and degree [d] (or are zero); [combination] is the sum of
    the weighted cyclic sums. Whatever the numbers [y] are, a reported success is an exact identity. *)
Theorem linear_correction_exact (K : OrdField) (G : list (list nat)) (n : nat) (hom : bool) (B : Type) (as_poly : B -> poly K) d ism lusolve y bs num y' bs' :
  is_group n G -> honest K lusolve -> length y = length bs -> parted B ism bs num -> (0 < num)%nat -> (forall b, In b bs -> good K n hom B as_poly d b) ->
  linear_correction G n hom B as_poly lusolve y bs num = Ok (y', bs', true) ->
  length y' = length bs' /\ (forall b, In b bs' -> In b bs) /\
  (forall x, fsum (map (fun t => fst t * cyc K G (fun z => peval z (as_poly (snd t))) x) (combine y' bs')) = 0) /\
  multiplier_sum K B ism y' bs' = 1.
Proof. intro HG. exact (linear_correction_lemma K G n hom HG B as_poly d ism lusolve y bs num y' bs'). Qed.
Print Assumptions linear_correction_exact.

Theorem linear_correction_positive_partial (K : OrdField) (G : list (list nat)) (n : nat) (hom : bool) (B : Type) (as_poly : B -> poly K) lusolve y bs num y' bs' :
  (forall u, In u y -> 0 <= u) -> linear_correction G n hom B as_poly lusolve y bs num = Ok (y', bs', true) -> forall u, In u y' -> 0 < u.
Proof. exact (linear_correction_nonneg K G n hom B as_poly lusolve y bs num y' bs'). Qed.
Print Assumptions linear_correction_positive_partial.

Definition G2 : list (list nat) := [[0; 1]; [1; 0]]%nat.
Lemma G2_group : is_group 2 G2.
Proof. apply group_check_sound. vm_compute. reflexivity. Qed.
(** [ab + (a-b)^2 = f] with [f = a^2 - ab + b^2], the last member is [- f] *)
Definition bs1 : list (poly QcOF) := [[([1; 1]%nat, 1)]; [([2; 0]%nat, 1); ([0; 2]%nat, 1); ([1; 1]%nat, - (2))]; [([2; 0]%nat, - (1)); ([1; 1]%nat, 1); ([0; 2]%nat, - (1))]].
Definition ism1 (p : poly QcOF) : bool := match p with [(_, c); _; _] => c <? 0 | _ => false end.
Example linear_correction_case : parted (poly QcOF) ism1 bs1 1 /\ (forall b, In b bs1 -> good QcOF 2 true (poly QcOF) (fun p => p) 2 b) /\
  match linear_correction G2 2 true (poly QcOF) (fun p => p) (fun _ _ => None) [1; 1; 1] bs1 1 with Ok (_, _, b) => b | Err _ => false end = true /\
  match linear_correction G2 2 true (poly QcOF) (fun p => p) (fun _ _ => None) [1; q 1 2; 1] bs1 1 with Ok (_, _, b) => b | Err _ => true end = false.
Proof.
  split; [|split; [|split; vm_compute; reflexivity]].
  - exists (firstn 2 bs1), (skipn 2 bs1). split; [reflexivity|]. split; [reflexivity|].
    split; intros b Hb; vm_compute in Hb; repeat (destruct Hb as [<-|Hb]; [vm_compute; reflexivity|]); destruct Hb.
  - intros b Hb. unfold bs1 in Hb. repeat (destruct Hb as [<-|Hb]; [split; [split|right; split; [vm_compute; reflexivity|]]|]); try destruct Hb; try (unfold covered);
      try (intros m Hm; cbn in Hm; repeat (destruct Hm as [<-|Hm]; [reflexivity|]); destruct Hm); cbn; repeat constructor; cbn; intuition discriminate.
Qed.

(** The first branch (correction.py:85-86) does not look at the signs: a negative answer of the solver is
    reported as a success although the polynomial [- a^2] is negative. *)
Theorem linear_correction_sign_refuted : exists (bs : list (poly QcOF)) ism y y' bs',
  parted (poly QcOF) ism bs 1 /\ (forall b, In b bs -> good QcOF 2 true (poly QcOF) (fun p => p) 2 b) /\
  linear_correction G2 2 true (poly QcOF) (fun p => p) (fun _ _ => None) y bs 1 = Ok (y', bs', true) /\ exists u, In u y' /\ u < 0.
Proof.
  exists [[([2; 0]%nat, 1)]; [([2; 0]%nat, 1); ([1; 1]%nat, 0)]], (fun p => match p with [_] => false | _ => true end), [- (1); 1].
  destruct (linear_correction G2 2 true (poly QcOF) (fun p => p) (fun _ _ => None) [- (1); 1] [[([2; 0]%nat, 1)]; [([2; 0]%nat, 1); ([1; 1]%nat, 0)]] 1) as [[[y' bs'] b]|e] eqn:E.
  - exists y', bs'. split; [|split; [|split]].
    + exists [[([2; 0]%nat, 1)]], [[([2; 0]%nat, 1); ([1; 1]%nat, 0)]]. split; [reflexivity|]. split; [reflexivity|]. split; intros p [<-|[]]; reflexivity.
    + intros p Hp. repeat (destruct Hp as [<-|Hp]; [split; [split|right; split; [vm_compute; reflexivity|]]|]); try destruct Hp; try (unfold covered);
        try (intros m Hm; cbn in Hm; repeat (destruct Hm as [<-|Hm]; [reflexivity|]); destruct Hm); cbn; repeat constructor; cbn; intuition discriminate.
    + destruct b; [reflexivity|exfalso]. apply (f_equal (fun r => match r with Ok (_, _, b) => b | Err _ => false end)) in E. vm_compute in E. discriminate.
    + assert (Ey : existsb (fun u => u <? 0) y' = true).
      { apply (f_equal (fun r => match r with Ok (y, _, _) => existsb (fun u => u <? 0) y | Err _ => false end)) in E. rewrite <- E. vm_compute. reflexivity. }
      apply existsb_exists in Ey. destruct Ey as (u & Hu & Hlt). exists u. split; [exact Hu|apply fltb_lt, Hlt].
  - exfalso. apply (f_equal (fun r => match r with Ok _ => true | Err _ => false end)) in E. vm_compute in E. discriminate.
Qed.
Print Assumptions linear_correction_sign_refuted.

(** ** C19. Assembling the certificate.
    [sv] is the value of an expression, [val] of the masked constraints. The answer is a quotient whose
    numerator and denominator are, up to a common positive factor, the weighted cyclic sums of the
    members and of the multipliers. *)
Theorem assembly_keeps_value (K : OrdField) (G : list (list nat)) (val : nat -> (nat -> K) -> K) content iters cx collect dup ineqs eqs y (basis : list (lbasis K)) :
  content_ok K G val content -> eqs_ok K G val eqs -> (forall b, In b basis -> basis_ok K b) ->
  exists N D r, collect_constraints content iters cx collect dup ineqs eqs y basis = SDiv N D /\ 0 < r /\
    forall x, sv G val x N * r = fsum (map (fun t => match snd t with LMult _ => 0 | b => fst t * cyc K G (fun z => sv G val z (as_expr b)) x end) (combine y basis)) /\
              sv G val x D * r = cyc K G (fun z => fsum (map (fun t => match snd t with LMult m => fst t * sv G val z m | _ => 0 end) (combine y basis))) x.
Proof. exact (assemble_parts' K G val content iters cx collect dup ineqs eqs y basis). Qed.
Print Assumptions assembly_keeps_value.

(** With the odd exponents turned into constraints and the exact correction before it: the certificate
    is [N / D] with [N = f * D] everywhere. *)
Theorem linear_certificate_exact (K : OrdField) (G : list (list nat)) (val : nat -> (nat -> K) -> K) (n : nat) (hom : bool) f d lusolve content cx dup ineqs lin eqs y basis num e :
  is_group n G -> honest K lusolve -> content_ok K G val content -> eqs_ok K G val eqs ->
  (forall j lc a x, In (j, lc, a) lin -> val a x = lc * x j) ->
  (forall b, In b basis -> member_ok K G val n hom f d b) -> length y = length basis -> parted (member K) (is_mult K) basis num -> (0 < num)%nat ->
  invariant K G f -> finish G n hom lusolve content cx dup ineqs lin eqs y basis num = Ok (Some e) ->
  exists N D, e = SDiv N D /\ (forall x, sv G val x N = f x * sv G val x D) /\
    exists y' basis' r, 0 < r /\ length y' = length basis' /\ (forall b, In b basis' -> In b basis) /\ multiplier_sum K (member K) (is_mult K) y' basis' = 1 /\
      ((forall u, In u y -> 0 <= u) -> forall u, In u y' -> 0 < u) /\
      (forall x, sv G val x D * r = cyc K G (mult_value K G val y' (map mb basis')) x) /\
      (forall x, sv G val x N * r = fsum (map (fun t => fst t * cyc K G (fun z => sv G val z (as_expr (snd t))) x) (others K y' (map mb basis')))).
Proof. exact (finish_short K G val n hom f d lusolve content cx dup ineqs lin eqs y basis num e). Qed.
Print Assumptions linear_certificate_exact.

(** ** C67. The products of constraints, the multipliers and the generated members
    have the value of their expressions, the right degree, and are non-negative on the feasible set [F]. *)
Theorem qmodule_sound (K : OrdField) (G : list (list nat)) (val : nat -> (nat -> K) -> K) (n : nat) (F : (nat -> K) -> Prop) degree allnn none cs c :
  (forall c, In c cs -> pair_ok K G val n c /\ forall x, F x -> 0 <= sv G val x (stan (snd c))) ->
  In c (qmodule n degree allnn none cs) ->
  wf n (fst c) /\ (exists d, homdeg d (fst c)) /\ (forall x, peval x (fst c) = sv G val x (stan (snd c))) /\ forall x, F x -> 0 <= peval x (fst c).
Proof. exact (qmodule_sound_lemma K G val n F degree allnn none cs c). Qed.
Print Assumptions qmodule_sound.

Theorem multipliers_sound (K : OrdField) (G : list (list nat)) (val : nat -> (nat -> K) -> K) (n : nat) (F : (nat -> K) -> Prop) ineqs n_plus m :
  (2 <= n)%nat -> (forall c, In c ineqs -> con_ok K val n c /\ forall x, F x -> 0 <= val (snd c) x) ->
  In m (multipliers n ineqs n_plus) ->
  wf n (fst m) /\ homdeg n_plus (fst m) /\ (forall x, peval x (fst m) = sv G val x (snd m)) /\ forall x, F x -> 0 <= sv G val x (snd m).
Proof. intro Hn. exact (multipliers_spec K G val n F Hn ineqs n_plus m). Qed.
Print Assumptions multipliers_sound.

Theorem basis_sound (K : OrdField) (G : list (list nat)) (val : nat -> (nat -> K) -> K) (n : nat) (F : (nat -> K) -> Prop) fuel degree order tangents ineqs eqs bs b :
  (2 <= n)%nat -> (forall c, In c tangents -> pair_ok K G val n c /\ forall x, F x -> 0 <= sv G val x (stan (snd c))) ->
  (forall c, In c ineqs -> con_ok K val n c /\ forall x, F x -> 0 <= val (snd c) x) ->
  (forall c, In c eqs -> con_ok K val n c /\ forall x, F x -> val (snd c) x = 0) ->
  prepare_basis n fuel (all_nonnegative n ineqs) degree order tangents eqs = Some bs -> In b bs ->
  wf n (mpoly b) /\ homdeg degree (mpoly b) /\ (forall x, peval x (mpoly b) = sv G val x (as_expr (mb b))) /\ forall x, F x -> 0 <= peval x (mpoly b).
Proof. exact (basis_sound_lemma K G val n F fuel degree order tangents ineqs eqs bs b). Qed.
Print Assumptions basis_sound.

(** ** C68. A round of [LinearSOS] from the problem to the certificate.
    [clear_*] only drop entries; [linprog] returns a non-negative vector of the right length (nothing
    else is assumed of it); constraints are homogeneous of positive degree and the masks have their
    values; the feasible set is closed under the group. Then the answer is [N / D] with [N = f D], both
    non-negative on the feasible set, and [D] is positive where all candidate multipliers are. *)
Theorem linear_sos_sound (K : OrdField) (G : list (list nat)) (val : nat -> (nat -> K) -> K) (n : nat) cl lusolve content cx cyclic dup none fuel order f df ineqs eqs tangents n_plus linprog e :
  (2 <= n)%nat -> is_group n G -> honest K lusolve -> content_ok K G val content ->
  (forall bs, length (linprog bs) = length bs /\ forall u, In u (linprog bs) -> 0 <= u) ->
  (forall l, incl (clear_t cl l) l) -> (forall l, incl (clear_m cl l) l) -> (forall l, incl (clear_e cl l) l) ->
  NoDup (map snd (clear_e cl eqs)) ->
  (forall c, In c eqs -> cyclic (fst c) = true -> invariant K G (fun x => peval x (fst c))) ->
  wf n f -> homdeg df f -> f <> [] -> invariant K G (fun x => peval x f) ->
  (forall c, In c (ineqs ++ eqs) -> con_ok K val n c) ->
  (forall c, In c tangents -> pair_ok K G val n c /\ forall x, feasible K ineqs eqs x -> 0 <= peval x (fst c)) ->
  (forall g x, In g G -> feasible K ineqs eqs x -> feasible K ineqs eqs (fun i => x (nth i g 0%nat))) ->
  linear_sos_round G n cl lusolve content cx cyclic dup none fuel order f ineqs eqs tangents n_plus linprog = Some (Ok (Some e)) ->
  exists N D, e = SDiv N D /\ (forall x, sv G val x N = peval x f * sv G val x D) /\
    (forall x, feasible K ineqs eqs x -> 0 <= sv G val x N /\ 0 <= sv G val x D) /\
    (forall x, feasible K ineqs eqs x -> (forall g m, In g G -> In m (multipliers n ineqs n_plus) -> 0 < sv G val (fun i => x (nth i g 0%nat)) (snd m)) -> 0 < sv G val x D).
Proof. intros Hn HG. exact (round_lemma K G val n Hn HG cl lusolve content cx cyclic dup none fuel order f df ineqs eqs tangents n_plus linprog e). Qed.
Print Assumptions linear_sos_sound.

(** [a^2 - a b + b^2] for [a, b >= 0]: all hypotheses hold and a certificate comes out. *)
Definition excl : clears QcOF := {| clear_t := fun l => l; clear_e := fun l => l; clear_m := fun l => l |}.
Definition exlp (bs : list (member QcOF)) : list QcOF :=
  map (fun b => if is_mult QcOF b then 1 else match mpoly b with [(m, _)] => if list_eq_dec Nat.eq_dec m [1; 1]%nat then q 1 2 else 0 | _ => 1 end) bs.
Definition exround := linear_sos_round (exG) 2 excl (fun _ _ => None) (fun e => ((1 : QcOF), e)) (fun _ => 1%Z) (fun _ => false) false false 100 2 (exf QcOF) (exc QcOF) [] [] 0 exlp.
Example linear_sos_case : exists e N D, exround = Some (Ok (Some e)) /\ e = SDiv N D /\
  (forall x, sv exG (exval QcOF) x N = peval x (exf QcOF) * sv exG (exval QcOF) x D) /\
  (forall x, feasible QcOF (exc QcOF) [] x -> 0 <= sv exG (exval QcOF) x N /\ 0 < sv exG (exval QcOF) x D).
Proof.
  destruct exround as [[[e|]|err]|] eqn:E.
  2,3,4: exfalso; apply (f_equal (fun r => match r with Some (Ok (Some _)) => true | _ => false end)) in E; vm_compute in E; discriminate.
  exists e.
  destruct (linear_sos_sound QcOF exG (exval QcOF) 2 excl (fun _ _ => None) (fun e => ((1 : QcOF), e)) (fun _ => 1%Z) (fun _ => false) false false 100 2 (exf QcOF) 2 (exc QcOF) [] [] 0 exlp e)
    as (N & D & H1 & H2 & H3 & H4); try exact E.
  - lia.
  - exact G2_group.
  - intros A b x C. discriminate.
  - intro e0. split; [apply f1_pos|]. intro x. cbn [fst snd]. symmetry. apply Qcanon.Qcmult_1_l.
  - intro bs. unfold exlp. split; [apply map_length|]. intros u Hu. apply in_map_iff in Hu. destruct Hu as (b & <- & _).
    destruct (is_mult QcOF b); [apply f1_nonneg|]. destruct (mpoly b) as [|[m c] [|]]; try apply f1_nonneg. destruct (list_eq_dec _ _ _); apply fleb_le; vm_compute; reflexivity.
  - intro l. apply incl_refl.
  - intro l. apply incl_refl.
  - intro l. apply incl_refl.
  - constructor.
  - intros c [].
  - apply exf_wf.
  - apply exf_wf.
  - discriminate.
  - apply exf_inv.
  - intros c Hc. rewrite app_nil_r in Hc. exact (exc_ok QcOF c Hc).
  - intros c [].
  - exact (exc_closed QcOF).
  - exists N, D. split; [reflexivity|]. split; [exact H1|]. split; [exact H2|]. intros x Hx. split; [exact (proj1 (H3 x Hx))|]. apply (H4 x Hx).
    intros g m _ Hm. assert (Em : multipliers 2 (exc QcOF) 0 = [(pone 2, sprod (map (fun t => SPow (SA (snd (fst t))) (snd t)) (combine (exc QcOF) [0; 0]%nat)))]) by reflexivity.
    rewrite Em in Hm. destruct Hm as [<-|[]]. apply fltb_lt. vm_compute. reflexivity.
Qed.
