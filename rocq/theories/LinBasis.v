(** * Linear SOS: the members of the linear program
    Models [_get_signs_of_vars], [_get_qmodule_list], [_prepare_basis] (triples/core/linsos/linsos.py),
    the generation of bases (triples/core/linsos/basis.py) and of multipliers
    (triples/core/linsos/updegree.py). Problems are homogeneous ([homogenize=True], linsos.py:252). *)
From Coq Require Import Bool List Arith Lia Ring Field Permutation ZArith.
From Verif Require Import OrdField Base Perm Poly Partitions Monomials PolyOps DegreeComb LinSOS LinSolution.
Import ListNotations.

Section Model.
Context {K : OrdField}.
Local Open Scope of_scope.
Variable n : nat.

(** a polynomial with the expression standing for it, in the form of a product *)
Definition pair := (poly K * tangent K)%type.

(** ** Products of expressions: sympy collects powers of equal bases *)
Fixpoint add_power (b : factor) (e : nat) (l : list arg) : list arg :=
  match l with
  | [] => [(b, e)]
  | (b', e') :: l' => if factor_dec b b' then (b', (e' + e)%nat) :: l' else (b', e') :: add_power b e l'
  end.
Definition tprod (s t : tangent K) : tangent K :=
  {| tcoef := tcoef s * tcoef t; targs := fold_left (fun l a => add_power (fst a) (snd a) l) (targs t) (targs s) |}.
Definition tone : tangent K := {| tcoef := 1; targs := [] |}.
Definition tatom (a : nat) : tangent K := {| tcoef := 1; targs := [(FAtom a, 1%nat)] |}.

(** ** Kinds of polynomials *)
Fixpoint first_nonzero (m : list nat) : nat := match m with O :: m' => S (first_nonzero m') | _ => 0%nat end.
(** [is_monomial] and [total_degree() == 1]: the variable and [LC()] *)
Definition mono1 (p : poly K) : option (nat * K) :=
  match p with
  | [(m, c)] => if Nat.eqb (list_sum m) 1 then Some (first_nonzero m, c) else None
  | _ => None
  end.
(** [is_linear]: no term of degree above 1 *)
Definition is_linear (p : poly K) : bool := forallb (fun t => Nat.leb (list_sum (fst t)) 1) p.

(** ** [_get_signs_of_vars] (linsos.py:176-185) and [all_nonnegative] (357): a variable counts when the
    last constraint that is a monomial in it has a positive coefficient. A constraint is a polynomial
    with the number of the atom standing for it. *)
Definition var_positive (ineqs : list (poly K * nat)) (i : nat) : bool :=
  fold_left (fun s c => match mono1 (fst c) with Some (j, lc) => if Nat.eqb i j then 0 <? lc else s | None => s end) ineqs false.
Definition all_nonnegative (ineqs : list (poly K * nat)) : bool := forallb (var_positive ineqs) (seq 0 n).
(** the constraints read by [_odd_basis_to_even] (linsos.py:189-191) *)
Definition lin_constraints (ineqs : list (poly K * nat)) : list (nat * K * nat) :=
  flat_map (fun c => match mono1 (fst c) with Some (j, lc) => [(j, lc, snd c)] | None => [] end) ineqs.

(** ** [_get_qmodule_list] (linsos.py:203-248). All polynomials are homogeneous here, so
    [homogeneous_order] is the total degree; an unknown preordering (ValueError) is left out. *)
Fixpoint combos {A} (k : nat) (l : list A) : list (list A) :=
  match k, l with
  | O, _ => [[]]
  | S _, [] => []
  | S k', x :: l' => map (cons x) (combos k' l') ++ combos k l'
  end.
Definition qmodule (degree : nat) (allnn none : bool) (cons_ : list pair) : list pair :=
  let monomials := filter (fun c => match mono1 (fst c) with Some (_, lc) => 0 <=? lc | None => false end) cons_ in
  let rest := filter (fun c => negb (match mono1 (fst c) with Some (_, lc) => 0 <=? lc | None => false end)) cons_ in
  let linear0 := filter (fun c => is_linear (fst c)) rest in
  let nonlin := (pone n, tone) :: filter (fun c => negb (is_linear (fst c))) rest in
  let linear := if allnn then linear0 else monomials ++ linear0 in
  if none then linear ++ nonlin
  else nonlin ++ flat_map (fun k => flat_map (fun comb =>
         let mul := fold_left (fun m c => pmul m (fst c)) comb (pone n) in
         let e := fold_left (fun m c => tprod m (snd c)) comb tone in
         if Nat.ltb degree (total_degree mul) then []
         else flat_map (fun c => if Nat.leb (total_degree mul + total_degree (fst c)) degree
                                 then [(pmul mul (fst c), tprod e (snd c))] else []) nonlin)
       (combos k linear)) (seq 1 (length linear)).

(** ** Quadratic differences (basis.py:361-486) *)
Definition inds : list (nat * nat) := flat_map (fun i => map (fun j => (i, j)) (seq (S i) (n - S i))) (seq 0 n).
Definition mon (f : nat -> nat) : list nat := map f (seq 0 n).
Definition diff_sq (i j : nat) : poly K :=
  [(mon (fun k => if Nat.eqb k i then 2 else 0)%nat, 1); (mon (fun k => if Nat.eqb k j then 2 else 0)%nat, 1);
   (mon (fun k => if Nat.eqb k i || Nat.eqb k j then 1 else 0)%nat, - (2))].
(** [_compute_power_with_cache] (basis.py:409-418); the recursion lowers one entry at a time *)
Fixpoint compute (fuel : nat) (cache : dict (poly K)) (power : list nat) : poly K * dict (poly K) :=
  match dget cache power with
  | Some p => (p, cache)
  | None =>
      match fuel with
      | O => ([], cache)
      | S k => let i := first_nonzero power in
               let reduced := repeat 0%nat i ++ (nth i power 0 - 1)%nat :: skipn (S i) power in
               let '(p, cache') := compute k cache reduced in
               let r := pmul (nth i (map (fun ij => diff_sq (fst ij) (snd ij)) inds) []) p in
               (r, dset cache' power r)
      end
  end.
Fixpoint compute_all (cache : dict (poly K)) (powers : list (list nat)) : list (poly K) :=
  match powers with
  | [] => []
  | p :: l => let '(r, cache') := compute (S (list_sum p)) cache p in r :: compute_all cache' l
  end.
(** [_get_cross_exprs_and_polys_of_quad_diff] (basis.py:430-486); the lru cache is not modelled *)
Definition cross_expr (t : tangent K) (power : list nat) : tangent K :=
  fold_left (fun t u => if Nat.eqb (snd u) 0 then t else tprod t {| tcoef := 1; targs := [(FDiff (fst (fst u)) (snd (fst u)), (2 * snd u)%nat)] |})
            (combine inds power) t.
Definition cross (fuel : nat) (order : nat) (c : pair) : option (list pair) :=
  match degree_combinations (repeat 2%nat (length inds)) order false fuel with
  | None => None
  | Some powers => Some (combine (compute_all [(repeat 0%nat (length inds), fst c)] powers) (map (cross_expr (snd c)) powers))
  end.

(** ** [generate] (basis.py:134-150) and [generate_quad_diff] (152-229); [step] is 2 for
    [LinearBasisTangentEven]; the objects built are always [LinearBasisTangent] *)
Definition new_member (powers : list nat) (c : pair) : member K :=
  {| mb := LTan false powers (snd c); mpoly := pmul [(powers, 1)] (fst c) |}.
Definition generate (fuel step degree : nat) (c : pair) : option (list (member K)) :=
  let td := total_degree (fst c) in
  if Nat.ltb degree td || negb (Nat.eqb ((degree - td) mod step) 0) then Some []
  else match degree_combinations (repeat step n) (degree - td) true fuel with
       | None => None
       | Some combs => Some (map (fun a => new_member (map (fun i => (i * step)%nat) a) c) combs)
       end.
Fixpoint concat_opt {A} (l : list (option (list A))) : option (list A) :=
  match l with
  | [] => Some []
  | None :: _ => None
  | Some a :: l' => match concat_opt l' with None => None | Some b => Some (a ++ b) end
  end.
Definition generate_quad_diff (fuel step degree order : nat) (c : pair) : option (list (member K)) :=
  match cross fuel (Nat.min order (degree - total_degree (fst c))) c with
  | None => None
  | Some cs => concat_opt (map (generate fuel step degree) cs)
  end.
(** [__neg__] (basis.py:107-108) *)
Definition neg_member (b : member K) : member K :=
  match mb b with
  | LTan ev p t => {| mb := LTan ev p {| tcoef := - tcoef t; targs := targs t |}; mpoly := pneg (mpoly b) |}
  | _ => b
  end.
(** [_prepare_basis] (linsos.py:88-173), without user-given bases, the limit on their number and the
    floating point arrays *)
Definition prepare_basis (fuel : nat) (allnn : bool) (degree order : nat) (tangents : list pair) (eqs : list (poly K * nat)) : option (list (member K)) :=
  match concat_opt (map (generate_quad_diff fuel (if allnn then 1 else 2) degree order) tangents) with
  | None => None
  | Some l => match concat_opt (map (fun c => match generate_quad_diff fuel 1 degree 0 (fst c, tatom (snd c)) with
                                              | None => None
                                              | Some b => Some (b ++ map neg_member b) end) eqs) with
              | None => None
              | Some l' => Some (l ++ l')
              end
  end.

(** ** [_get_multipliers] (updegree.py:107-144) before the removal of symmetric copies;
    [quadratic_difference] (basis.py:314-328) sorts the symbols by name, which is not modelled *)
Definition multipliers (ineqs : list (poly K * nat)) (n_plus : nat) : list (poly K * sx K) :=
  let lin := filter (fun c => is_linear (fst c)) ineqs in
  let base :=
    if Nat.eqb n_plus 2 then
      map (fun ij => (diff_sq (fst ij) (snd ij), SPow (sfac (FDiff (fst ij) (snd ij))) 2)) inds
      ++ map (fun ab => match ab with [a; b] => (pmul (fst a) (fst b), SMul (SA (snd a)) (SA (snd b))) | _ => (pone n, SC 1) end) (combos 2 lin)
    else map (fun power =>
           (fold_left (fun m t => if Nat.eqb (snd t) 0 then m else pmul m (ppow n (fst (fst t)) (snd t))) (combine lin power) (pone n),
            sprod (map (fun t => SPow (SA (snd (fst t))) (snd t)) (combine lin power)))) (generate_partitions (length lin) n_plus true) in
  let squares :=
    if Nat.ltb 2 n_plus && Nat.even n_plus then
      map (fun power => ([(map (fun p => p * 2)%nat power, 1)], sprod (map (fun t => SPow (SX (fst t)) (snd t * 2)) (combine (seq 0 n) power))))
          (generate_partitions n (n_plus / 2) true)
    else [] in
  base ++ squares.
Definition mult_member (f : poly K) (m : poly K * sx K) : member K :=
  {| mb := LMult (snd m); mpoly := pmul f (pneg (fst m)) |}.
End Model.

(** ** One round of [_LinearSOS] (linsos.py:328-430) with [n_plus] extra degrees
    [clear_t], [clear_e], [clear_m] are [clear_polys_by_symmetry] on the three lists (linsos.py:365-366,
    updegree.py:142), [cyclic] is [is_cyclic] of the equation's polynomial (solution.py:232). [linprog] is
    the linear program with its answer rationalised (linsos.py:394-416). The user's tangents and those of the roots are
    [tangents]; a constraint equal to a tangent is kept twice, where the code keeps the constraint.
    None: the enumeration needs more fuel. *)
Record clears (K : OrdField) := {
  clear_t : list (@pair K) -> list (@pair K);
  clear_e : list (poly K * nat) -> list (poly K * nat);
  clear_m : list (poly K * sx K) -> list (poly K * sx K) }.
Arguments clear_t {K}. Arguments clear_e {K}. Arguments clear_m {K}.
Definition linear_sos_round {K : OrdField} (G : list (list nat)) (n : nat) (cl : clears K)
    (lusolve : list (list K) -> list K -> option (list K)) (content : sx K -> K * sx K) (complexity : arg -> Z) (cyclic : poly K -> bool)
    (dup none : bool) (fuel order : nat) (f : poly K) (ineqs eqs : list (poly K * nat)) (tangents : list (@pair K)) (n_plus : nat) (linprog : list (member K) -> list K)
  : option (res (option (sx K))) :=
  let allnn := all_nonnegative n ineqs in
  let ts := clear_t cl (qmodule n (total_degree f) allnn none (tangents ++ map (fun c => (fst c, tatom (snd c))) ineqs)) in
  let es := clear_e cl eqs in
  let ms := map (mult_member f) (clear_m cl (multipliers n ineqs n_plus)) in
  match ms with
  | [] => Some (Ok None)
  | _ =>
      match prepare_basis n fuel allnn (total_degree f + n_plus) order ts es with
      | None => None
      | Some [] => Some (Ok None)
      | Some basis => Some (finish G n true lusolve content complexity dup (map snd ineqs) (lin_constraints ineqs)
                              (map (fun c => (snd c, cyclic (fst c))) es) (linprog (basis ++ ms)) (basis ++ ms) (length ms))
      end
  end.

(** ** Lemmas *)
Section Facts.
Variable K : OrdField.
Local Open Scope of_scope.
Add Field Kf_basis : (F_field K).
Variable G : list (list nat).
Variable val : nat -> (nat -> K) -> K.
Variable n : nat.
Local Notation sv := (sv G val).
Local Notation vprod := (vprod K).

(** *** products *)
Lemma add_power_value x b e l : vprod (map (fun a => sv x (sarg a)) (add_power b e l)) = fpow (sv x (sfac b)) e * vprod (map (fun a => sv x (sarg a)) l).
Proof.
  induction l as [|[b' e'] l IH]; cbn [add_power map].
  - rewrite !vprod_cons, sv_sarg. reflexivity.
  - destruct (factor_dec b b') as [<-|]; cbn [map]; rewrite !vprod_cons, !sv_sarg; cbn [fst snd].
    + rewrite fpow_add. ring.
    + rewrite IH. ring.
Qed.
Lemma add_power_in b e l u : In u (map fst (add_power b e l)) -> u = b \/ In u (map fst l).
Proof.
  induction l as [|[b' e'] l IH]; cbn [add_power map].
  - intros [<-|[]]. left. reflexivity.
  - destruct (factor_dec b b') as [<-|]; cbn [map fst].
    + tauto.
    + intros [<-|H]; [right; left; reflexivity|]. destruct (IH H); [left; assumption|right; right; assumption].
Qed.
Lemma add_power_nodup b e l : NoDup (map fst l) -> NoDup (map fst (add_power b e l)).
Proof.
  induction l as [|[b' e'] l IH]; intro H; cbn [add_power map].
  - repeat constructor. intros [].
  - cbn [map fst] in H. inversion_clear H as [|? ? Hn Hd]. destruct (factor_dec b b') as [<-|Hne]; cbn [map fst]; constructor; auto.
    intro H. apply add_power_in in H. destruct H; [congruence|contradiction].
Qed.
Lemma add_power_pos b e l : (1 <= e)%nat -> (forall b0 e0, In (b0, e0) l -> (1 <= e0)%nat) -> forall b0 e0, In (b0, e0) (add_power b e l) -> (1 <= e0)%nat.
Proof.
  intros He. induction l as [|[b' e'] l IH]; intros Hl b0 e0; cbn [add_power].
  - intros [E|[]]. injection E as <- <-. exact He.
  - assert (Hl' : forall b0 e0, In (b0, e0) l -> (1 <= e0)%nat) by (intros b1 e1 Hi; exact (Hl b1 e1 (or_intror Hi))).
    destruct (factor_dec b b') as [<-|Hne]; intros [E|H]; try (injection E as <- <-).
    + lia.
    + exact (Hl' _ _ H).
    + exact (Hl b' e' (or_introl eq_refl)).
    + exact (IH Hl' _ _ H).
Qed.
Lemma tprod_value x s t : sv x (stan (tprod s t)) = sv x (stan s) * sv x (stan t).
Proof.
  rewrite !sv_stan. unfold tprod. cbn [tcoef targs].
  assert (E : forall lt ls, vprod (map (fun a => sv x (sarg a)) (fold_left (fun l a => add_power (fst a) (snd a) l) lt ls))
     = vprod (map (fun a => sv x (sarg a)) ls) * vprod (map (fun a => sv x (sarg a)) lt)).
  { induction lt as [|[b e] lt IH]; intro ls; cbn [fold_left map]; [change (vprod []) with (1 : K); ring|].
    rewrite IH. cbn [fst snd]. rewrite add_power_value, vprod_cons, sv_sarg. cbn [fst snd]. ring. }
  rewrite E. ring.
Qed.
Lemma tprod_ok s t : bases_ok K s -> bases_ok K t -> bases_ok K (tprod s t).
Proof.
  intros [S1 S2] [_ T2]. unfold tprod, bases_ok. cbn [targs].
  assert (E : forall lt ls, (forall b0 e0, In (b0, e0) lt -> (1 <= e0)%nat) -> NoDup (map fst ls) -> (forall b0 e0, In (b0, e0) ls -> (1 <= e0)%nat) ->
     NoDup (map fst (fold_left (fun l a => add_power (fst a) (snd a) l) lt ls)) /\
     forall b0 e0, In (b0, e0) (fold_left (fun l a => add_power (fst a) (snd a) l) lt ls) -> (1 <= e0)%nat).
  { induction lt as [|[b e] lt IH]; intros ls Ht Hn Hp; cbn [fold_left]; [split; assumption|]. cbn [fst snd]. apply IH.
    - intros b0 e0 Hi. exact (Ht b0 e0 (or_intror Hi)).
    - apply add_power_nodup, Hn.
    - apply add_power_pos; [exact (Ht b e (or_introl eq_refl))|exact Hp]. }
  apply E; assumption.
Qed.
Lemma tone_value x : sv x (stan (tone : tangent K)) = 1.
Proof. rewrite sv_stan. cbn [tone tcoef targs map]. change (vprod []) with (1 : K). ring. Qed.
Lemma tone_ok : bases_ok K tone.
Proof. split; [constructor|intros ? ? []]. Qed.
Lemma tatom_value x a : sv x (stan (tatom a : tangent K)) = val a x.
Proof. rewrite sv_stan. cbn [tatom tcoef targs map]. rewrite vprod_cons, sv_sarg. cbn [fst snd sfac LinSolution.sv fpow]. change (vprod []) with (1 : K). ring. Qed.
Lemma tatom_ok a : bases_ok K (tatom a).
Proof. split; [repeat constructor; intros []|]. intros b e [E|[]]. injection E as <- <-. lia. Qed.

(** *** polynomials with their expressions *)
Definition pair_ok (c : @pair K) : Prop :=
  wf n (fst c) /\ (exists d, homdeg d (fst c)) /\ bases_ok K (snd c) /\ forall x, peval x (fst c) = sv x (stan (snd c)).
Lemma pair_one : pair_ok (pone n, tone).
Proof.
  destruct (pone_spec K n) as (H1 & H2 & H3). split; [exact H1|]. split; [exists 0%nat; exact H3|]. split; [exact tone_ok|].
  intro x. cbn [fst snd]. rewrite H2, tone_value. reflexivity.
Qed.
Lemma pair_mul a b : pair_ok a -> pair_ok b -> pair_ok (pmul (fst a) (fst b), tprod (snd a) (snd b)).
Proof.
  intros (A1 & (da & A2) & A3 & A4) (B1 & (db & B2) & B3 & B4). destruct (pmul_spec K n (fst a) (fst b) A1 B1) as (H1 & H2 & H3).
  split; [exact H1|]. split; [exists (da + db)%nat; apply H3; assumption|]. split; [apply tprod_ok; assumption|].
  intro x. cbn [fst snd]. rewrite H2, tprod_value, A4, B4. reflexivity.
Qed.

Lemma first_nonzero_meval m : list_sum m = 1%nat -> forall x : nat -> K, meval x m = x (first_nonzero m).
Proof.
  induction m as [|e m IH]; intros H x; [discriminate|]. rewrite meval_cons. change (list_sum (e :: m)) with (e + list_sum m)%nat in H.
  destruct e as [|[|e]]; [|assert (Hm : list_sum m = 0%nat) by lia|lia].
  - cbn [first_nonzero fpow]. rewrite IH by exact H. ring.
  - cbn [first_nonzero fpow]. assert (Ez : m = repeat 0%nat (length m)).
    { clear - Hm. induction m as [|e m IH]; [reflexivity|]. change (list_sum (e :: m)) with (e + list_sum m)%nat in Hm. cbn [length repeat].
      rewrite <- IH by lia. f_equal. lia. }
    rewrite Ez, meval_zeros. ring.
Qed.
Lemma mono1_spec p j lc : mono1 p = Some (j, lc) -> forall x : nat -> K, peval x p = lc * x j.
Proof.
  unfold mono1. destruct p as [|[m c] [|? ?]]; try discriminate. destruct (Nat.eqb_spec (list_sum m) 1) as [E|E]; [|discriminate].
  intros H x. injection H as <- <-. rewrite peval_cons, peval_nil, first_nonzero_meval by exact E. ring.
Qed.

Section Feasible.
Variable F : (nat -> K) -> Prop.
Definition nonneg_on (e : sx K) : Prop := forall x, F x -> 0 <= sv x e.
Definition pair_good (c : @pair K) : Prop := pair_ok c /\ nonneg_on (stan (snd c)).
Lemma good_one : pair_good (pone n, tone).
Proof. split; [exact pair_one|]. intros x _. cbn [snd]. rewrite tone_value. apply f1_nonneg. Qed.
Lemma good_mul a b : pair_good a -> pair_good b -> pair_good (pmul (fst a) (fst b), tprod (snd a) (snd b)).
Proof.
  intros [A1 A2] [B1 B2]. split; [apply pair_mul; assumption|]. intros x Hx. cbn [snd]. rewrite tprod_value.
  apply fmul_nonneg; [exact (A2 x Hx)|exact (B2 x Hx)].
Qed.
Lemma combos_in {A} (l : list A) : forall k s a, In s (combos k l) -> In a s -> In a l.
Proof.
  induction l as [|u l IH]; intros [|k] s a Hs Ha; cbn in Hs.
  - destruct Hs as [<-|[]]. destruct Ha.
  - destruct Hs.
  - destruct Hs as [<-|[]]. destruct Ha.
  - apply in_app_or in Hs. destruct Hs as [Hs|Hs].
    + apply in_map_iff in Hs. destruct Hs as (s' & <- & Hs). destruct Ha as [<-|Ha]; [left; reflexivity|right; exact (IH k s' a Hs Ha)].
    + right. exact (IH (S k) s a Hs Ha).
Qed.
Lemma qmodule_good degree allnn none cs c : (forall c, In c cs -> pair_good c) -> In c (qmodule n degree allnn none cs) -> pair_good c.
Proof.
  intros Hcs. unfold qmodule.
  set (monomials := filter (fun c => match mono1 (fst c) with Some (_, lc) => 0 <=? lc | None => false end) cs).
  set (rest := filter (fun c => negb (match mono1 (fst c) with Some (_, lc) => 0 <=? lc | None => false end)) cs).
  set (linear0 := filter (fun c => is_linear (fst c)) rest).
  set (nonlin := (pone n, tone) :: filter (fun c => negb (is_linear (fst c))) rest).
  set (linear := if allnn then linear0 else monomials ++ linear0). cbv zeta.
  assert (Hl : forall c, In c linear -> pair_good c).
  { intros c0 H. unfold linear in H. assert (H' : In c0 (monomials ++ linear0)) by (destruct allnn; [apply in_or_app; right; exact H|exact H]).
    apply Hcs. apply in_app_or in H'. destruct H' as [H'|H'].
    - apply filter_In in H'. tauto.
    - apply filter_In in H'. destruct H' as [H' _]. apply filter_In in H'. tauto. }
  assert (Hn : forall c, In c nonlin -> pair_good c).
  { intros c0 [<-|H]; [exact good_one|]. apply filter_In in H. destruct H as [H _]. apply filter_In in H. apply Hcs. tauto. }
  destruct none; intro H; apply in_app_or in H; destruct H as [H|H]; auto.
  apply in_flat_map in H. destruct H as (k & _ & H). apply in_flat_map in H. destruct H as (s & Hs & H).
  destruct (Nat.ltb degree _); [destruct H|]. apply in_flat_map in H. destruct H as (u & Hu & H).
  destruct (Nat.leb _ degree); [|destruct H]. destruct H as [<-|[]].
  assert (E : forall s (m : poly K) (e : tangent K), (forall a, In a s -> pair_good a) -> pair_good (m, e) ->
     pair_good (fold_left (fun m c => pmul m (fst c)) s m, fold_left (fun m c => tprod m (snd c)) s e)).
  { induction s0 as [|a s0 IH]; intros m e Ha Hm; [exact Hm|]. cbn [fold_left]. apply IH; [intros b Hb; apply Ha; right; exact Hb|].
    exact (good_mul (m, e) a Hm (Ha a (or_introl eq_refl))). }
  exact (good_mul (_, _) u (E s (pone n) tone (fun a Ha => Hl a (combos_in linear k s a Hs Ha)) good_one) (Hn u Hu)).
Qed.

(** *** quadratic differences *)
Lemma inds_lt i j : In (i, j) (inds n) -> (i < j < n)%nat.
Proof.
  unfold inds. intro H. apply in_flat_map in H. destruct H as (i' & Hi & H). apply in_map_iff in H. destruct H as (j' & E & Hj).
  injection E as <- <-. apply in_seq in Hi. apply in_seq in Hj. lia.
Qed.
Lemma meval_mon (x : nat -> K) f : meval x (mon n f) = OrdField.fprod (map (fun k => x k ^ f k) (seq 0 n)).
Proof.
  unfold meval, mon. rewrite map_length, seq_length. f_equal. apply map_ext_in. intros k Hk. apply in_seq in Hk. f_equal.
  rewrite (nth_indep _ 0%nat (f 0%nat)) by (rewrite map_length, seq_length; lia). rewrite map_nth, seq_nth by lia. reflexivity.
Qed.
Lemma fprod_one (h : nat -> K) i m : (forall k, k <> i -> h k = 1) -> forall o, OrdField.fprod (map h (seq o m)) = if Nat.leb o i && Nat.ltb i (o + m) then h i else 1.
Proof.
  intros Hh. induction m as [|m IH]; intro o.
  - cbn [seq map]. destruct (Nat.leb_spec o i), (Nat.ltb_spec i (o + 0)); cbn [andb]; try reflexivity. lia.
  - cbn [seq map]. change (OrdField.fprod (h o :: map h (seq (S o) m))) with (h o * OrdField.fprod (map h (seq (S o) m))). rewrite IH.
    destruct (Nat.eq_dec o i) as [->|E].
    + destruct (Nat.leb_spec (S i) i); [lia|]. cbn [andb]. destruct (Nat.leb_spec i i); [|lia]. destruct (Nat.ltb_spec i (i + S m)); [|lia]. cbn [andb]. ring.
    + rewrite (Hh o E). destruct (Nat.leb_spec (S o) i), (Nat.leb_spec o i), (Nat.ltb_spec i (S o + m)), (Nat.ltb_spec i (o + S m)); cbn [andb]; try lia; ring.
Qed.
Lemma fprod_mul (h g : nat -> K) l : OrdField.fprod (map (fun k => h k * g k) l) = OrdField.fprod (map h l) * OrdField.fprod (map g l).
Proof.
  induction l as [|a l IH]; cbn [map]; [change (OrdField.fprod []) with (1 : K); ring|].
  change (OrdField.fprod (h a * g a :: map (fun k => h k * g k) l)) with (h a * g a * OrdField.fprod (map (fun k => h k * g k) l)). rewrite IH.
  change (OrdField.fprod (h a :: map h l)) with (h a * OrdField.fprod (map h l)). change (OrdField.fprod (g a :: map g l)) with (g a * OrdField.fprod (map g l)). ring.
Qed.
Lemma meval_single (x : nat -> K) i e : (i < n)%nat -> meval x (mon n (fun k => if Nat.eqb k i then e else 0)%nat) = x i ^ e.
Proof.
  intro Hi. rewrite meval_mon, (fprod_one _ i).
  - cbn [Nat.leb andb Nat.add]. destruct (Nat.ltb_spec i n); [|lia]. rewrite Nat.eqb_refl. reflexivity.
  - intros k Hk. destruct (Nat.eqb_spec k i); [congruence|reflexivity].
Qed.
Lemma sum_ite i e m : forall o, list_sum (map (fun k => if Nat.eqb k i then e else 0)%nat (seq o m)) = if Nat.leb o i && Nat.ltb i (o + m) then e else 0%nat.
Proof.
  induction m as [|m IH]; intro o.
  - cbn [seq map]. destruct (Nat.leb_spec o i), (Nat.ltb_spec i (o + 0)); cbn [andb list_sum fold_right]; lia.
  - cbn [seq map]. change (list_sum (?a :: ?l)) with (a + list_sum l)%nat. rewrite IH.
    destruct (Nat.eqb_spec o i); destruct (Nat.leb_spec (S o) i), (Nat.leb_spec o i), (Nat.ltb_spec i (S o + m)), (Nat.ltb_spec i (o + S m)); cbn [andb]; lia.
Qed.
Lemma list_sum_map_add {A} (f g : A -> nat) l : list_sum (map (fun a => f a + g a)%nat l) = (list_sum (map f l) + list_sum (map g l))%nat.
Proof. induction l as [|a l IH]; [reflexivity|]. cbn [map]. change (list_sum (?a :: ?l)) with (a + list_sum l)%nat. rewrite IH. cbn. lia. Qed.
Lemma diff_sq_spec i j : (i < j < n)%nat -> wf n (diff_sq n i j : poly K) /\ homdeg 2 (diff_sq n i j : poly K) /\
  forall x : nat -> K, peval x (diff_sq n i j) = (x i - x j) * (x i - x j).
Proof.
  intro H. unfold diff_sq.
  set (mi := mon n (fun k => if Nat.eqb k i then 2 else 0)%nat). set (mj := mon n (fun k => if Nat.eqb k j then 2 else 0)%nat).
  set (mij := mon n (fun k => if Nat.eqb k i || Nat.eqb k j then 1 else 0)%nat).
  assert (Nm : forall f k, (k < n)%nat -> nth k (mon n f) 0%nat = f k).
  { intros f k Hk. unfold mon. rewrite (nth_indep _ 0%nat (f 0%nat)) by (rewrite map_length, seq_length; lia). rewrite map_nth, seq_nth by lia. reflexivity. }
  assert (Hii : Nat.eqb i i = true) by apply Nat.eqb_refl. assert (Hjj : Nat.eqb j j = true) by apply Nat.eqb_refl.
  assert (Hij : Nat.eqb i j = false) by (apply Nat.eqb_neq; lia). assert (Hji : Nat.eqb j i = false) by (apply Nat.eqb_neq; lia).
  assert (D1 : mi <> mj).
  { intro E. pose proof (Nm (fun k => if Nat.eqb k i then 2 else 0)%nat i ltac:(lia)) as E1. pose proof (Nm (fun k => if Nat.eqb k j then 2 else 0)%nat i ltac:(lia)) as E2.
    fold mi in E1. fold mj in E2. rewrite E, E2 in E1. rewrite Hii, Hij in E1. discriminate. }
  assert (D2 : mi <> mij).
  { intro E. pose proof (Nm (fun k => if Nat.eqb k i then 2 else 0)%nat i ltac:(lia)) as E1. pose proof (Nm (fun k => if Nat.eqb k i || Nat.eqb k j then 1 else 0)%nat i ltac:(lia)) as E2.
    fold mi in E1. fold mij in E2. rewrite E, E2 in E1. rewrite Hii in E1. discriminate. }
  assert (D3 : mj <> mij).
  { intro E. pose proof (Nm (fun k => if Nat.eqb k j then 2 else 0)%nat j ltac:(lia)) as E1. pose proof (Nm (fun k => if Nat.eqb k i || Nat.eqb k j then 1 else 0)%nat j ltac:(lia)) as E2.
    fold mj in E1. fold mij in E2. rewrite E, E2 in E1. rewrite Hjj, orb_true_r in E1. discriminate. }
  assert (Eij : forall k, (if Nat.eqb k i || Nat.eqb k j then 1 else 0)%nat = ((if Nat.eqb k i then 1 else 0) + (if Nat.eqb k j then 1 else 0))%nat).
  { intro k. destruct (Nat.eqb_spec k i), (Nat.eqb_spec k j); try reflexivity. lia. }
  split; [|split].
  - split.
    + cbn [keys map fst]. repeat constructor; cbn; intuition congruence.
    + intros m [<-|[<-|[<-|[]]]]; cbn [fst]; unfold mi, mj, mij, mon; rewrite map_length, seq_length; reflexivity.
  - intros m [<-|[<-|[<-|[]]]]; cbn [fst].
    + unfold mi, mon. rewrite sum_ite. cbn [Nat.leb andb Nat.add]. destruct (Nat.ltb_spec i n); [reflexivity|lia].
    + unfold mj, mon. rewrite sum_ite. cbn [Nat.leb andb Nat.add]. destruct (Nat.ltb_spec j n); [reflexivity|lia].
    + unfold mij, mon. rewrite (map_ext _ _ Eij), list_sum_map_add, !sum_ite. cbn [Nat.leb andb Nat.add].
      destruct (Nat.ltb_spec i n); [|lia]. destruct (Nat.ltb_spec j n); [reflexivity|lia].
  - intro x. rewrite !peval_cons, peval_nil. unfold mi, mj. rewrite !meval_single by lia.
    assert (Em : meval x mij = x i * x j).
    { unfold mij. rewrite meval_mon, (map_ext _ (fun k => (if Nat.eqb k i then x k else 1) * (if Nat.eqb k j then x k else 1))).
      - rewrite fprod_mul, (fprod_one (fun k => if Nat.eqb k i then x k else 1) i), (fprod_one (fun k => if Nat.eqb k j then x k else 1) j).
        + cbn [Nat.leb andb Nat.add]. destruct (Nat.ltb_spec i n); [|lia]. destruct (Nat.ltb_spec j n); [|lia]. rewrite Hii, Hjj. reflexivity.
        + intros k Hk. destruct (Nat.eqb_spec k j); [congruence|reflexivity].
        + intros k Hk. destruct (Nat.eqb_spec k i); [congruence|reflexivity].
      - intro k. destruct (Nat.eqb_spec k i), (Nat.eqb_spec k j); cbn [orb fpow]; try ring. lia. }
    rewrite Em. cbn [fpow]. ring.
Qed.

(** value of a product of quadratic differences *)
Definition qd (x : nat -> K) (L : list (nat * nat)) (power : list nat) : K :=
  vprod (map (fun u => ((x (fst (fst u)) - x (snd (fst u))) * (x (fst (fst u)) - x (snd (fst u)))) ^ snd u) (combine L power)).
Lemma qd_cons x i j L e power : qd x ((i, j) :: L) (e :: power) = ((x i - x j) * (x i - x j)) ^ e * qd x L power.
Proof. reflexivity. Qed.
Lemma qd_zeros x L m : qd x L (repeat 0%nat m) = 1.
Proof.
  revert m. induction L as [|u L IH]; intros [|m]; try reflexivity. unfold qd. cbn [repeat combine map]. rewrite vprod_cons. unfold qd in IH.
  rewrite IH. cbn [snd fpow]. ring.
Qed.
Lemma first_nonzero_lower (power : list nat) : (0 < list_sum power)%nat -> let i := first_nonzero power in
  let reduced := repeat 0%nat i ++ (nth i power 0 - 1)%nat :: skipn (S i) power in
  (i < length power)%nat /\ length reduced = length power /\ list_sum power = S (list_sum reduced) /\
  forall x L, length L = length power -> forall d, qd x L power = (x (fst (nth i L d)) - x (snd (nth i L d))) * (x (fst (nth i L d)) - x (snd (nth i L d))) * qd x L reduced.
Proof.
  cbv zeta. induction power as [|e power IH]; intro H; [cbn in H; lia|]. change (list_sum (e :: power)) with (e + list_sum power)%nat in H. destruct e as [|e].
  - destruct (IH ltac:(lia)) as (I1 & I2 & I3 & I4). cbn [first_nonzero].
    change (skipn (S (S (first_nonzero power))) (0%nat :: power)) with (skipn (S (first_nonzero power)) power). cbn [nth repeat app length].
    split; [lia|]. split; [f_equal; exact I2|]. split.
    + change (list_sum (0%nat :: ?l)) with (list_sum l). exact I3.
    + intros x [|[a b] L] HL d; [discriminate|]. injection HL as HL. rewrite !qd_cons. cbn [nth]. rewrite (I4 x L HL d). change (fpow ?u 0) with (1 : K). ring.
  - cbn [first_nonzero nth skipn repeat app length]. rewrite Nat.sub_succ, Nat.sub_0_r.
    split; [lia|]. split; [reflexivity|]. split; [reflexivity|].
    intros x [|[a b] L] HL d; [discriminate|]. rewrite !qd_cons. cbn [nth fst snd]. change (?u ^ S e) with (u * u ^ e). ring.
Qed.

Section Cache.
Variable p0 : poly K.
Variable d0 : nat.
Hypothesis P0 : wf n p0.
Hypothesis D0 : homdeg d0 p0.
Definition entry_ok (power : list nat) (p : poly K) : Prop :=
  wf n p /\ homdeg (2 * list_sum power + d0) p /\ forall x, peval x p = peval x p0 * qd x (inds n) power.
Definition cache_ok (cache : dict (poly K)) : Prop :=
  (exists p, dget cache (repeat 0%nat (length (inds n))) = Some p) /\
  forall k p, length k = length (inds n) -> dget cache k = Some p -> entry_ok k p.
Lemma sum_zero_repeat (l : list nat) : list_sum l = 0%nat -> l = repeat 0%nat (length l).
Proof.
  induction l as [|e l IH]; [reflexivity|]. change (list_sum (e :: l)) with (e + list_sum l)%nat. intro H. cbn [length repeat]. rewrite <- IH by lia. f_equal. lia.
Qed.
Lemma cache_start : cache_ok [(repeat 0%nat (length (inds n)), p0)].
Proof.
  split.
  - exists p0. cbn [dget]. destruct (meqb _ _) eqn:E; [reflexivity|]. rewrite (proj2 (meqb_eq _ _) eq_refl) in E. discriminate.
  - intros k p Hk H. cbn [dget] in H. destruct (meqb k _) eqn:E; [|discriminate]. injection H as <-. apply meqb_eq in E. subst k.
    split; [exact P0|]. split; [rewrite list_sum_zeros; exact D0|]. intro x. rewrite qd_zeros. ring.
Qed.
Lemma compute_spec fuel : forall cache power, (list_sum power < fuel)%nat -> length power = length (inds n) -> cache_ok cache ->
  entry_ok power (fst (compute n fuel cache power)) /\ cache_ok (snd (compute n fuel cache power)).
Proof.
  induction fuel as [|fuel IH]; intros cache power Hf Hl Hc; [lia|]. cbn [compute].
  destruct (dget cache power) as [p|] eqn:E; [split; [exact (proj2 Hc power p Hl E)|exact Hc]|].
  assert (Hpos : (0 < list_sum power)%nat).
  { destruct (Nat.eq_dec (list_sum power) 0) as [Ez|]; [|lia]. apply sum_zero_repeat in Ez. rewrite Hl in Ez. destruct Hc as [[p Hp] _]. congruence. }
  destruct (first_nonzero_lower power Hpos) as (I1 & I2 & I3 & I4). cbv zeta in *.
  set (i := first_nonzero power) in *. set (reduced := repeat 0%nat i ++ (nth i power 0 - 1)%nat :: skipn (S i) power) in *.
  destruct (compute n fuel cache reduced) as [p cache'] eqn:EC.
  destruct (IH cache reduced ltac:(lia) ltac:(congruence) Hc) as [(W & D & V) Hc']. rewrite EC in W, D, V, Hc'. cbn [fst snd] in *.
  assert (En : nth i (map (fun ij => diff_sq n (fst ij) (snd ij)) (inds n)) ([] : poly K) = diff_sq n (fst (nth i (inds n) (0, 0)%nat)) (snd (nth i (inds n) (0, 0)%nat))).
  { etransitivity; [apply (nth_indep _ _ (diff_sq n 0 0)); rewrite map_length; lia|].
    exact (map_nth (fun ij => diff_sq n (fst ij) (snd ij)) (inds n) (0, 0)%nat i). }
  rewrite En. destruct (nth i (inds n) (0, 0)%nat) as [a b] eqn:Eab.
  assert (Hab : (a < b < n)%nat) by (apply inds_lt; rewrite <- Eab; apply nth_In; lia). cbn [fst snd].
  destruct (diff_sq_spec a b Hab) as (W' & D' & V'). destruct (pmul_spec K n (diff_sq n a b) p W' W) as (Wr & Vr & Dr).
  assert (Hr : entry_ok power (pmul (diff_sq n a b) p)).
  { split; [exact Wr|]. split.
    - replace (2 * list_sum power + d0)%nat with (2 + (2 * list_sum reduced + d0))%nat by lia. apply Dr; assumption.
    - intro x. rewrite Vr, V', V, (I4 x (inds n) ltac:(congruence) (0, 0)%nat), Eab. cbn [fst snd]. ring. }
  split; [exact Hr|]. split.
  - destruct Hc' as [[q Hq] _]. destruct (list_eq_dec Nat.eq_dec (repeat 0%nat (length (inds n))) power) as [<-|Hne].
    + eexists. apply dget_dset_same.
    + exists q. rewrite dget_dset_other by exact Hne. exact Hq.
  - intros k q Hk Hq. destruct (list_eq_dec Nat.eq_dec k power) as [->|Hne].
    + rewrite dget_dset_same in Hq. injection Hq as <-. exact Hr.
    + rewrite dget_dset_other in Hq by exact Hne. exact (proj2 Hc' k q Hk Hq).
Qed.
Lemma compute_all_in {B} (f : list nat -> B) powers : forall cache p t, (forall a, In a powers -> length a = length (inds n)) -> cache_ok cache ->
  In (p, t) (combine (compute_all n cache powers) (map f powers)) -> exists power, In power powers /\ entry_ok power p /\ t = f power.
Proof.
  induction powers as [|a powers IH]; intros cache p t Hl Hc H; [destruct H|]. cbn [compute_all] in H.
  destruct (compute n (S (list_sum a)) cache a) as [r cache'] eqn:E.
  destruct (compute_spec (S (list_sum a)) cache a ltac:(lia) (Hl a (or_introl eq_refl)) Hc) as [He Hc']. rewrite E in He, Hc'. cbn [fst snd] in *.
  cbn [map combine] in H. destruct H as [H|H].
  - injection H as <- <-. exists a. split; [left; reflexivity|]. split; [exact He|reflexivity].
  - destruct (IH cache' p t (fun b Hb => Hl b (or_intror Hb)) Hc' H) as (power & H1 & H2). exists power. split; [right; exact H1|exact H2].
Qed.
End Cache.

Lemma diff_factor_value x i j e : sv x (stan ({| tcoef := 1; targs := [(FDiff i j, (2 * e)%nat)] |} : tangent K)) = ((x i - x j) * (x i - x j)) ^ e.
Proof.
  rewrite sv_stan. cbn [tcoef targs map]. rewrite vprod_cons, sv_sarg. cbn [fst snd sfac LinSolution.sv]. change (vprod []) with (1 : K).
  replace (x i + - (1) * x j) with (x i - x j) by ring. generalize (x i - x j). intro u.
  replace (2 * e)%nat with (e + e)%nat by lia. rewrite fpow_add, fpow_mul_l. ring.
Qed.
Lemma cross_expr_spec t power : bases_ok K t -> bases_ok K (cross_expr n t power) /\ forall x, sv x (stan (cross_expr n t power)) = sv x (stan t) * qd x (inds n) power.
Proof.
  unfold cross_expr, qd. generalize (combine (inds n) power). intro l. revert t. induction l as [|[[i j] e] l IH]; intros t Ht; cbn [fold_left map].
  - split; [exact Ht|]. intro x. change (vprod []) with (1 : K). ring.
  - destruct (Nat.eqb_spec (snd (i, j, e)) 0) as [E|E]; cbn [fst snd] in *.
    + subst e. destruct (IH t Ht) as [I1 I2]. split; [exact I1|]. intro x. rewrite I2, vprod_cons. cbn [fpow]. ring.
    + destruct (IH (tprod t {| tcoef := 1; targs := [(FDiff i j, (2 * e)%nat)] |})) as [I1 I2].
      { apply tprod_ok; [exact Ht|]. split; [repeat constructor; intros []|]. intros b e0 [E0|[]]. injection E0 as <- <-. lia. }
      split; [exact I1|]. intro x. rewrite I2, tprod_value, diff_factor_value, vprod_cons. ring.
Qed.
Lemma qd_nonneg x L power : 0 <= qd x L power.
Proof.
  unfold qd. induction (combine L power) as [|u l IH]; [apply f1_nonneg|]. cbn [map]. rewrite vprod_cons. apply fmul_nonneg; [|exact IH].
  apply fpow_nonneg. apply fsqr_nonneg.
Qed.
Lemma cross_good fuel order c cs u : pair_good c -> cross n fuel order c = Some cs -> In u cs -> pair_good u.
Proof.
  intros [(W & (d & D) & B & V) Hn] H Hu. unfold cross in H. destruct (degree_combinations _ order false fuel) as [powers|] eqn:E; [|discriminate].
  injection H as <-. destruct u as [p t].
  assert (Hl : forall a, In a powers -> length a = length (inds n)).
  { intros a Ha. rewrite (degree_combinations_length _ _ _ _ _ _ E Ha). apply repeat_length. }
  destruct (compute_all_in (fst c) d _ powers _ p t Hl (cache_start (fst c) d W D) Hu) as (power & _ & (W' & D' & V') & ->).
  destruct (cross_expr_spec (snd c) power B) as [B' E']. split.
  - split; [exact W'|]. split; [eexists; exact D'|]. split; [exact B'|]. intro x. cbn [fst snd]. rewrite V', E', V. reflexivity.
  - intros x Hx. cbn [snd]. rewrite E'. apply fmul_nonneg; [exact (Hn x Hx)|apply qd_nonneg].
Qed.

(** *** generation of members *)
Hypothesis Hn : (2 <= n)%nat.
Definition tan_ok (d : nat) (b : member K) : Prop :=
  wf n (mpoly b) /\ homdeg d (mpoly b) /\
  exists p t, mb b = LTan false p t /\ bases_ok K t /\ length p = n /\ forall x, peval x (mpoly b) = sv x (as_expr (mb b)).
Lemma concat_opt_in {A} (l : list (option (list A))) : forall r a, concat_opt l = Some r -> In a r -> exists s, In (Some s) l /\ In a s.
Proof.
  induction l as [|[s|] l IH]; intros r a H Ha; cbn in H.
  - injection H as <-. destruct Ha.
  - destruct (concat_opt l) as [t|]; [|discriminate]. injection H as <-. apply in_app_or in Ha. destruct Ha as [Ha|Ha].
    + exists s. split; [left; reflexivity|exact Ha].
    + destruct (IH t a eq_refl Ha) as (s' & H1 & H2). exists s'. split; [right; exact H1|exact H2].
  - discriminate.
Qed.
Lemma smono_meval x p : sv x (smono p) = meval x p.
Proof.
  unfold smono. rewrite smono_value.
  assert (E : forall p o, vprod (map (fun t : nat * nat => x (fst t) ^ snd t) (combine (seq o (length p)) p)) = meval (fun i => x (o + i)%nat) p).
  { induction p0 as [|e p0 IH]; intro o; [reflexivity|]. cbn [length seq combine map fst snd]. rewrite vprod_cons, IH, meval_cons, Nat.add_0_r. f_equal.
    unfold meval. f_equal. apply map_ext. intro i. rewrite Nat.add_succ_comm. reflexivity. }
  exact (E p 0%nat).
Qed.
Lemma wdeg_repeat s a : forall m, length a = m -> wdeg a (repeat s m) = (s * list_sum a)%nat.
Proof.
  induction a as [|u a IH]; intros m Hm; subst m; [cbn; lia|]. cbn [length repeat wdeg].
  change (list_sum (?a :: ?l)) with (a + list_sum l)%nat. rewrite IH by reflexivity. lia.
Qed.
Lemma list_sum_scale s a : list_sum (map (fun i => i * s)%nat a) = (s * list_sum a)%nat.
Proof. induction a as [|u a IH]; [cbn; lia|]. cbn [map]. change (list_sum (?a :: ?l)) with (a + list_sum l)%nat. rewrite IH. lia. Qed.
Lemma pmul_nil_r (p : poly K) : pmul p [] = [].
Proof. unfold pmul. induction p as [|[m c] p IH]; [reflexivity|]. cbn [flat_map map app]. exact IH. Qed.
Lemma generate_spec fuel st degree c bs b : pair_ok c -> (0 < st)%nat -> generate n fuel st degree c = Some bs -> In b bs ->
  tan_ok degree b /\ exists p, mb b = LTan false p (snd c) /\ length p = n /\ (forall e, In e p -> exists k, e = (k * st)%nat).
Proof.
  intros (W & (d & D) & B & V) Hst H Hb. unfold generate in H.
  destruct (Nat.ltb degree (total_degree (fst c)) || _) eqn:E0; [injection H as <-; destruct Hb|].
  apply orb_false_iff in E0. destruct E0 as [E0 _]. apply Nat.ltb_ge in E0.
  destruct (degree_combinations _ _ true fuel) as [combs|] eqn:E; [|discriminate]. injection H as <-.
  apply in_map_iff in Hb. destruct Hb as (a & <- & Ha).
  destruct (degree_combinations_in (repeat st n) _ true fuel combs a ltac:(rewrite repeat_length; exact Hn) ltac:(intros u Hu; apply repeat_spec in Hu; subst; exact Hst) E Ha) as [Hl Hw].
  rewrite repeat_length in Hl. rewrite wdeg_repeat in Hw by exact Hl.
  set (p := map (fun i => (i * st)%nat) a). assert (Hp : length p = n) by (unfold p; rewrite map_length; exact Hl).
  assert (Hs : list_sum p = (degree - total_degree (fst c))%nat) by (unfold p; rewrite list_sum_scale; exact Hw).
  destruct (mono_spec K n p 1 Hp) as (M1 & M2 & M3). destruct (pmul_spec K n [(p, 1)] (fst c) M1 W) as (P1 & P2 & P3).
  unfold new_member. split.
  - split; [exact P1|]. split.
    + cbn [mpoly]. destruct (homdeg_total K d (fst c) D) as [Ez|Ed].
      * rewrite Ez, pmul_nil_r. intros m [].
      * rewrite Ed in *. replace degree with (list_sum p + d)%nat by lia. apply P3; assumption.
    + exists p, (snd c). split; [reflexivity|]. split; [exact B|]. split; [exact Hp|]. intro x. cbn [mpoly mb as_expr LinSolution.sv]. rewrite P2, M2, smono_meval, V. fold (sv x (stan (snd c))). ring.
  - exists p. split; [reflexivity|]. split; [exact Hp|]. intros e He. apply in_map_iff in He. destruct He as (k & <- & _). exists k. reflexivity.
Qed.
Lemma meval_nonneg_even (x : nat -> K) p : (forall e, In e p -> exists k, e = (k * 2)%nat) -> 0 <= meval x p.
Proof.
  revert x. induction p as [|e p IH]; intros x H; [change (0 <= (1 : K)); apply f1_nonneg|]. rewrite meval_cons. apply fmul_nonneg.
  - destruct (H e (or_introl eq_refl)) as [k ->]. apply fpow_even_nonneg. rewrite Nat.even_mul. apply orb_true_r.
  - apply IH. intros; apply H; right; assumption.
Qed.
Lemma meval_nonneg (x : nat -> K) p : (forall i, (i < length p)%nat -> 0 <= x i) -> 0 <= meval x p.
Proof.
  revert x. induction p as [|e p IH]; intros x H; [change (0 <= (1 : K)); apply f1_nonneg|]. rewrite meval_cons. apply fmul_nonneg.
  - apply fpow_nonneg, H. cbn; lia.
  - apply IH. intros i Hi. apply H. cbn; lia.
Qed.
Lemma generate_quad_diff_spec fuel (allnn : bool) degree order c bs b : pair_good c -> (allnn = true -> forall x i, F x -> (i < n)%nat -> 0 <= x i) ->
  generate_quad_diff n fuel (if allnn then 1 else 2) degree order c = Some bs -> In b bs -> tan_ok degree b /\ nonneg_on (as_expr (mb b)).
Proof.
  intros Hc Hnn H Hb. unfold generate_quad_diff in H. destruct (cross n fuel _ c) as [cs|] eqn:EC; [|discriminate].
  destruct (concat_opt_in _ _ _ H Hb) as (s & Hs & Hbs). apply in_map_iff in Hs. destruct Hs as (u & Eu & Hu).
  destruct (cross_good _ _ _ _ u Hc EC Hu) as [Hu1 Hu2].
  destruct (generate_spec fuel (if allnn then 1 else 2)%nat degree u s b Hu1 ltac:(destruct allnn; lia) Eu Hbs) as [T (p & Ep & Lp & Pp)]. split; [exact T|].
  intros x Hx. rewrite Ep. cbn [as_expr LinSolution.sv]. fold (sv x (smono p)). fold (sv x (stan (snd u))). rewrite smono_meval. apply fmul_nonneg; [|exact (Hu2 x Hx)].
  destruct allnn.
  - apply meval_nonneg. intros i Hi. apply (Hnn eq_refl x i Hx). lia.
  - apply meval_nonneg_even, Pp.
Qed.
(** members made from an equality constraint vanish on the feasible set *)
Lemma cross_pair fuel order c cs u : pair_ok c -> cross n fuel order c = Some cs -> In u cs ->
  pair_ok u /\ forall x, sv x (stan (snd c)) = 0 -> sv x (stan (snd u)) = 0.
Proof.
  intros (W & (d & D) & B & V) H Hu. unfold cross in H. destruct (degree_combinations _ order false fuel) as [powers|] eqn:E; [|discriminate].
  injection H as <-. destruct u as [p t].
  assert (Hl : forall a, In a powers -> length a = length (inds n)).
  { intros a Ha. rewrite (degree_combinations_length _ _ _ _ _ _ E Ha). apply repeat_length. }
  destruct (compute_all_in (fst c) d _ powers _ p t Hl (cache_start (fst c) d W D) Hu) as (power & _ & (W' & D' & V') & ->).
  destruct (cross_expr_spec (snd c) power B) as [B' E']. split.
  - split; [exact W'|]. split; [eexists; exact D'|]. split; [exact B'|]. intro x. cbn [fst snd]. rewrite V', E', V. reflexivity.
  - intros x Hx. cbn [snd]. rewrite E', Hx. ring.
Qed.
Lemma generate_eq_spec fuel degree c bs b : pair_ok c -> generate_quad_diff n fuel 1 degree 0 c = Some bs -> In b (bs ++ map neg_member bs) ->
  tan_ok degree b /\ forall x, sv x (stan (snd c)) = 0 -> sv x (as_expr (mb b)) = 0.
Proof.
  intros Hc H Hb. unfold generate_quad_diff in H. destruct (cross n fuel _ c) as [cs|] eqn:EC; [|discriminate].
  assert (HB : forall b, In b bs -> tan_ok degree b /\ forall x, sv x (stan (snd c)) = 0 -> sv x (as_expr (mb b)) = 0).
  { intros b0 Hb0. destruct (concat_opt_in _ _ _ H Hb0) as (s & Hs & Hbs). apply in_map_iff in Hs. destruct Hs as (u & Eu & Hu).
    destruct (cross_pair _ _ _ _ u Hc EC Hu) as [Hu1 Hu2].
    destruct (generate_spec fuel 1 degree u s b0 Hu1 ltac:(lia) Eu Hbs) as [T (p & Ep & Lp & Pp)]. split; [exact T|].
    intros x Hx. rewrite Ep. cbn [as_expr LinSolution.sv]. fold (sv x (smono p)). fold (sv x (stan (snd u))). rewrite (Hu2 x Hx). ring. }
  apply in_app_or in Hb. destruct Hb as [Hb|Hb]; [exact (HB b Hb)|]. apply in_map_iff in Hb. destruct Hb as (b0 & <- & Hb0).
  destruct (HB b0 Hb0) as [(T1 & T2 & p & t & Eb & T3 & T4 & T5) T6]. destruct (pneg_spec K n (mpoly b0) T1) as (N1 & N2 & N3).
  unfold neg_member. rewrite Eb in *. cbn [mpoly mb].
  assert (Ev : forall x, sv x (as_expr (LTan false p {| tcoef := - tcoef t; targs := targs t |})) = - sv x (as_expr (LTan false p t))).
  { intro x. cbn [as_expr LinSolution.sv stan tcoef targs]. ring. }
  split.
  - split; [exact N1|]. split; [exact (N3 degree T2)|]. exists p, {| tcoef := - tcoef t; targs := targs t |}.
    split; [reflexivity|]. split; [exact T3|]. split; [exact T4|]. intro x. cbn [mpoly mb]. rewrite N2, Ev, T5. reflexivity.
  - intros x Hx. rewrite Ev, (T6 x Hx). ring.
Qed.

(** *** the constraints *)
Definition con_ok (c : poly K * nat) : Prop :=
  wf n (fst c) /\ (exists d, (0 < d)%nat /\ homdeg d (fst c)) /\ forall x, val (snd c) x = peval x (fst c).
Lemma con_pair c : con_ok c -> pair_ok (fst c, tatom (snd c)).
Proof.
  intros (W & (d & _ & D) & V). split; [exact W|]. split; [exists d; exact D|]. split; [apply tatom_ok|]. intro x. cbn [fst snd]. rewrite tatom_value, V. reflexivity.
Qed.
Lemma prepare_basis_spec fuel allnn degree order tangents eqs bs b :
  (forall c, In c tangents -> pair_good c) -> (forall c, In c eqs -> con_ok c /\ forall x, F x -> val (snd c) x = 0) ->
  (allnn = true -> forall x i, F x -> (i < n)%nat -> 0 <= x i) ->
  prepare_basis n fuel allnn degree order tangents eqs = Some bs -> In b bs -> tan_ok degree b /\ nonneg_on (as_expr (mb b)).
Proof.
  intros Ht He Hnn H Hb. unfold prepare_basis in H. destruct (concat_opt (map _ tangents)) as [l|] eqn:E1; [|discriminate].
  destruct (concat_opt (map _ eqs)) as [l'|] eqn:E2; [|discriminate]. injection H as <-. apply in_app_or in Hb. destruct Hb as [Hb|Hb].
  - destruct (concat_opt_in _ _ _ E1 Hb) as (s & Hs & Hbs). apply in_map_iff in Hs. destruct Hs as (c & Ec & Hc).
    exact (generate_quad_diff_spec fuel allnn degree order c s b (Ht c Hc) Hnn Ec Hbs).
  - destruct (concat_opt_in _ _ _ E2 Hb) as (s & Hs & Hbs). apply in_map_iff in Hs. destruct Hs as (c & Ec & Hc).
    destruct (generate_quad_diff n fuel 1 degree 0 _) as [l0|] eqn:E3; [|discriminate]. injection Ec as <-.
    destruct (He c Hc) as [Hc1 Hc2]. destruct (generate_eq_spec fuel degree _ l0 b (con_pair c Hc1) E3 Hbs) as [T Z]. split; [exact T|].
    intros x Hx. rewrite (Z x); [apply fle_refl|]. cbn [snd]. rewrite tatom_value. exact (Hc2 x Hx).
Qed.
Lemma var_positive_spec (ineqs : list (poly K * nat)) i : var_positive ineqs i = true ->
  exists c (lc : K), In c ineqs /\ mono1 (fst c) = Some (i, lc) /\ 0 < lc.
Proof.
  unfold var_positive.
  assert (E : forall (l : list (poly K * nat)) s, fold_left (fun s c => match mono1 (fst c) with Some (j, lc) => if Nat.eqb i j then (0 : K) <? lc else s | None => s end) l s = true ->
    s = true \/ exists (c : poly K * nat) (lc : K), In c l /\ mono1 (fst c) = Some (i, lc) /\ 0 < lc).
  { induction l as [|c l IH]; intros s H; [left; exact H|]. cbn [fold_left] in H. destruct (IH _ H) as [Hs|(c' & lc & H1 & H2)].
    - destruct (mono1 (fst c)) as [[j lc]|] eqn:Em; [|left; exact Hs]. destruct (Nat.eqb_spec i j) as [<-|]; [|left; exact Hs].
      right. exists c, lc. split; [left; reflexivity|]. split; [exact Em|]. apply fltb_lt, Hs.
    - right. exists c', lc. split; [right; exact H1|exact H2]. }
  intro H. destruct (E ineqs false H) as [H0|H0]; [discriminate|exact H0].
Qed.
Lemma all_nonnegative_spec ineqs : (forall c, In c ineqs -> con_ok c /\ forall x, F x -> 0 <= val (snd c) x) ->
  all_nonnegative n ineqs = true -> forall x i, F x -> (i < n)%nat -> 0 <= x i.
Proof.
  intros Hi H x i Hx Hlt. unfold all_nonnegative in H. rewrite forallb_forall in H. specialize (H i ltac:(apply in_seq; lia)).
  destruct (var_positive_spec _ _ H) as (c & lc & Hc & Em & Hlc). destruct (Hi c Hc) as [(_ & _ & V) Hp].
  specialize (Hp x Hx). rewrite V, (mono1_spec _ _ _ Em x) in Hp.
  replace (x i) with (lc * x i / lc) by (field; exact (flt_neq0 Hlc)). apply fdiv_nonneg; assumption.
Qed.

(** *** multipliers *)
Definition mult_ok (d : nat) (m : poly K * sx K) : Prop :=
  wf n (fst m) /\ homdeg d (fst m) /\ (forall x, peval x (fst m) = sv x (snd m)) /\ nonneg_on (snd m).
Lemma linear_deg1 c : con_ok c -> is_linear (fst c) = true -> homdeg 1 (fst c).
Proof.
  intros (_ & (d & Hd & D) & _) Hl m Hm. unfold is_linear in Hl. rewrite forallb_forall in Hl.
  apply in_map_iff in Hm. destruct Hm as (t & <- & Ht). specialize (Hl t Ht). apply Nat.leb_le in Hl.
  rewrite (D (fst t)) in * by (apply in_map; exact Ht). lia.
Qed.
Lemma combos2 {A} (l : list A) s : In s (combos 2 l) -> exists a b, s = [a; b] /\ In a l /\ In b l.
Proof.
  assert (H1 : forall (l : list A) s, In s (combos 1 l) -> exists b, s = [b] /\ In b l).
  { induction l0 as [|u l0 IH]; intros s0 H; cbn in H; [destruct H|]. apply in_app_or in H. destruct H as [H|H].
    - apply in_map_iff in H. destruct H as (s' & <- & H). destruct l0; cbn in H; destruct H as [<-|[]]; exists u; split; try reflexivity; left; reflexivity.
    - destruct (IH s0 H) as (b & H0 & H0'). exists b. split; [exact H0|right; exact H0']. }
  induction l as [|u l IH]; intro H; [destruct H|]. cbn [combos] in H. apply in_app_or in H. destruct H as [H|H].
  - apply in_map_iff in H. destruct H as (s' & <- & H). destruct (H1 l s' H) as (b & -> & Hb). exists u, b. split; [reflexivity|]. split; [left; reflexivity|right; exact Hb].
  - destruct (IH H) as (a & b & E & Ha & Hb). exists a, b. split; [exact E|]. split; right; assumption.
Qed.
Lemma multipliers_spec ineqs n_plus m : (forall c, In c ineqs -> con_ok c /\ forall x, F x -> 0 <= val (snd c) x) ->
  In m (multipliers n ineqs n_plus) -> mult_ok n_plus m.
Proof.
  intros Hi. unfold multipliers. cbv zeta. set (lin := filter (fun c => is_linear (fst c)) ineqs).
  assert (HL : forall c, In c lin -> wf n (fst c) /\ homdeg 1 (fst c) /\ (forall x, val (snd c) x = peval x (fst c)) /\ forall x, F x -> 0 <= val (snd c) x).
  { intros c Hc. apply filter_In in Hc. destruct Hc as [Hc Hl]. destruct (Hi c Hc) as [Ho Hp]. split; [exact (proj1 Ho)|].
    split; [exact (linear_deg1 c Ho Hl)|]. split; [exact (proj2 (proj2 Ho))|exact Hp]. }
  clearbody lin. intro H. apply in_app_or in H. destruct H as [H|H].
  - destruct (Nat.eqb_spec n_plus 2) as [->|Hne].
    + apply in_app_or in H. destruct H as [H|H].
      * apply in_map_iff in H. destruct H as ([i j] & <- & Hij). apply inds_lt in Hij. cbn [fst snd]. destruct (diff_sq_spec i j Hij) as (W & D & V).
        split; [exact W|]. split; [exact D|]. split.
        -- intro x. cbn [fst snd]. rewrite V. cbn [sfac LinSolution.sv fpow]. ring.
        -- intros x _. cbn [snd sfac LinSolution.sv]. apply fpow_even_nonneg. reflexivity.
      * apply in_map_iff in H. destruct H as (s & <- & Hs). destruct (combos2 lin s Hs) as (a & b & -> & Ha & Hb).
        destruct (HL a Ha) as (A1 & A2 & A3 & A4). destruct (HL b Hb) as (B1 & B2 & B3 & B4). destruct (pmul_spec K n (fst a) (fst b) A1 B1) as (P1 & P2 & P3).
        split; [exact P1|]. split; [exact (P3 1%nat 1%nat A2 B2)|]. split.
        -- intro x. cbn [fst snd LinSolution.sv]. rewrite P2, A3, B3. reflexivity.
        -- intros x Hx. cbn [snd LinSolution.sv]. apply fmul_nonneg; auto.
    + apply in_map_iff in H. destruct H as (power & <- & Hp). apply generate_partitions_in in Hp. destruct Hp as [Hl Hs]. clear Hne.
      assert (E : forall L (power : list nat) acc dacc, (forall c, In c L -> In c lin) -> length power = length L -> wf n acc -> homdeg dacc acc ->
        let r := fold_left (fun m t => if Nat.eqb (snd t) 0 then m else pmul m (ppow n (fst (fst t)) (snd t))) (combine L power) acc in
        wf n r /\ homdeg (dacc + list_sum power) r /\
        forall x, peval x r = peval x acc * sv x (sprod (map (fun t => SPow (SA (snd (fst t))) (snd t)) (combine L power)))).
      { cbv zeta. induction L as [|c L IH]; intros [|e p] acc dacc HLs HLen Wa Da; try discriminate.
        - cbn [combine fold_left map]. split; [exact Wa|]. split; [change (list_sum []) with 0%nat; rewrite Nat.add_0_r; exact Da|].
          intro x. change (sv x (sprod [])) with (1 : K). ring.
        - cbn [combine fold_left map fst snd]. injection HLen as HLen. destruct (HL c (HLs c (or_introl eq_refl))) as (C1 & C2 & C3 & _).
          change (list_sum (e :: p)) with (e + list_sum p)%nat. destruct (Nat.eqb_spec e 0) as [->|Hne].
          + destruct (IH p acc dacc (fun u Hu => HLs u (or_intror Hu)) HLen Wa Da) as (I1 & I2 & I3). split; [exact I1|]. split; [exact I2|].
            intro x. rewrite I3. cbn [sprod fold_right LinSolution.sv fpow]. unfold sprod. ring.
          + destruct (ppow_spec K n (fst c) e C1) as (Q1 & Q2 & Q3). destruct (pmul_spec K n acc (ppow n (fst c) e) Wa Q1) as (P1 & P2 & P3).
            assert (Hd : homdeg (dacc + e) (pmul acc (ppow n (fst c) e))).
            { apply P3; [exact Da|]. specialize (Q3 1%nat C2). rewrite Nat.mul_1_r in Q3. exact Q3. }
            destruct (IH p _ (dacc + e)%nat (fun u Hu => HLs u (or_intror Hu)) HLen P1 Hd) as (I1 & I2 & I3).
            split; [exact I1|]. split; [rewrite Nat.add_assoc; exact I2|].
            intro x. rewrite I3, P2, Q2. cbn [sprod fold_right LinSolution.sv]. unfold sprod. rewrite C3. ring. }
      destruct (pone_spec K n) as (O1 & O2 & O3).
      destruct (E lin power (pone n) 0%nat (fun c Hc => Hc) Hl O1 O3) as (R1 & R2 & R3). cbv zeta in *.
      split; [exact R1|]. split; [cbn [fst]; rewrite <- Hs; exact R2|]. split.
      * intro x. cbn [fst snd]. rewrite R3, O2. ring.
      * intros x Hx. cbn [snd]. rewrite sv_sprod, map_map. clear - HL Hx.
        assert (Hc : forall t, In t (combine lin power) -> In (fst t) lin) by (intros [u v] Ht; exact (in_combine_l _ _ _ _ Ht)).
        induction (combine lin power) as [|t l IH]; [apply f1_nonneg|]. cbn [map]. rewrite vprod_cons. apply fmul_nonneg.
        -- cbn [LinSolution.sv]. apply fpow_nonneg. exact (proj2 (proj2 (proj2 (HL (fst t) (Hc t (or_introl eq_refl))))) x Hx).
        -- apply IH. intros; apply Hc; right; assumption.
  - destruct (Nat.ltb 2 n_plus && Nat.even n_plus) eqn:Ev; [|destruct H]. apply andb_true_iff in Ev. destruct Ev as [_ Ev].
    apply in_map_iff in H. destruct H as (power & <- & Hp). apply generate_partitions_in in Hp. destruct Hp as [Hl Hs].
    destruct (mono_spec K n (map (fun p => p * 2)%nat power) 1 ltac:(rewrite map_length; exact Hl)) as (M1 & M2 & M3).
    assert (Ex : forall x, sv x (sprod (map (fun t => SPow (SX (fst t)) (snd t * 2)) (combine (seq 0 n) power))) = meval x (map (fun p => p * 2)%nat power)).
    { intro x. rewrite <- smono_meval. unfold smono. rewrite map_length, Hl. f_equal. f_equal. clear.
      generalize (seq 0 n). revert n. intros _ l. revert power. induction l as [|i l IH]; intros [|e p]; try reflexivity. cbn [combine map fst snd]. f_equal. apply IH. }
    split; [exact M1|]. split.
    + cbn [fst]. replace n_plus with (list_sum (map (fun p => p * 2)%nat power)); [exact M3|]. rewrite list_sum_scale, Hs.
      apply Nat.even_spec in Ev. destruct Ev as [k ->]. replace (2 * k / 2)%nat with k by (rewrite (Nat.mul_comm 2 k), Nat.div_mul by lia; reflexivity). reflexivity.
    + split; [intro x; cbn [fst snd]; rewrite M2, Ex; ring|]. intros x _. cbn [snd]. rewrite Ex. apply meval_nonneg_even.
      intros e He. apply in_map_iff in He. destruct He as (k & <- & _). exists k. reflexivity.
Qed.
End Feasible.

(** *** One round *)
Hypothesis Hn : (2 <= n)%nat.
Hypothesis HG : is_group n G.
Definition feasible (ineqs eqs : list (poly K * nat)) (x : nat -> K) : Prop :=
  (forall c, In c ineqs -> 0 <= peval x (fst c)) /\ (forall c, In c eqs -> peval x (fst c) = 0).
Lemma tan_member f d b : tan_ok d b -> member_ok K G val n true f d b.
Proof.
  intros (W & D & p & t & E & B & L & V). split.
  - split; [exact W|]. destruct (homdeg_total K d (mpoly b) D) as [Ez|Ed]; [left; exact Ez|right; split; [exact Ed|exact D]].
  - rewrite E in *. split; [exact B|]. split; [exact L|exact V].
Qed.
Lemma mult_member_ok F f df d m : wf n f -> homdeg df f -> mult_ok F d m -> member_ok K G val n true (fun x => peval x f) (df + d) (mult_member f m).
Proof.
  intros W D (M1 & M2 & M3 & _). destruct (pneg_spec K n (fst m) M1) as (N1 & N2 & N3). destruct (pmul_spec K n f (pneg (fst m)) W N1) as (P1 & P2 & P3).
  split.
  - split; [exact P1|]. cbn [mpoly mult_member]. pose proof (P3 df d D (N3 d M2)) as H. destruct (homdeg_total K _ _ H) as [Ez|Ed]; [left; exact Ez|right; split; [exact Ed|exact H]].
  - cbn [mb mult_member]. intro x. cbn [mpoly mult_member]. rewrite P2, N2, M3. ring.
Qed.
Lemma cyc_nonneg f x : (forall g, In g G -> 0 <= f (fun i => x (nth i g 0%nat))) -> 0 <= cyc K G f x.
Proof. intro H. unfold cyc. apply fsum_nonneg. intros u Hu. apply in_map_iff in Hu. destruct Hu as (g & <- & Hg). exact (H g Hg). Qed.

Lemma round_lemma cl lusolve content cx cyclic dup none fuel order f df ineqs eqs tangents n_plus linprog e :
  honest K lusolve -> content_ok K G val content ->
  (forall bs, length (linprog bs) = length bs /\ forall u, In u (linprog bs) -> 0 <= u) ->
  (forall l, incl (clear_t cl l) l) -> (forall l, incl (clear_m cl l) l) -> (forall l, incl (clear_e cl l) l) ->
  NoDup (map snd (clear_e cl eqs)) ->
  (forall c, In c eqs -> cyclic (fst c) = true -> invariant K G (fun x => peval x (fst c))) ->
  wf n f -> homdeg df f -> f <> [] -> invariant K G (fun x => peval x f) ->
  (forall c, In c (ineqs ++ eqs) -> con_ok c) ->
  (forall c, In c tangents -> pair_ok c /\ forall x, feasible ineqs eqs x -> 0 <= peval x (fst c)) ->
  (forall g x, In g G -> feasible ineqs eqs x -> feasible ineqs eqs (fun i => x (nth i g 0%nat))) ->
  linear_sos_round G n cl lusolve content cx cyclic dup none fuel order f ineqs eqs tangents n_plus linprog = Some (Ok (Some e)) ->
  exists N D, e = SDiv N D /\ (forall x, sv x N = peval x f * sv x D) /\
    (forall x, feasible ineqs eqs x -> 0 <= sv x N /\ 0 <= sv x D) /\
    (forall x, feasible ineqs eqs x -> (forall g m, In g G -> In m (multipliers n ineqs n_plus) -> 0 < sv (fun i => x (nth i g 0%nat)) (snd m)) -> 0 < sv x D).
Proof.
  intros Hh Hct Hlp Ct Cm Ce Nd Hcy W D Hnz Hinv Hcon Htan HF H. unfold linear_sos_round in H. cbv zeta in H.
  set (F := feasible ineqs eqs) in *.
  assert (Hineq : forall c, In c ineqs -> con_ok c /\ forall x, F x -> 0 <= val (snd c) x).
  { intros c Hc. assert (Ho : con_ok c) by (apply Hcon, in_or_app; left; exact Hc). split; [exact Ho|]. intros x [Hx _]. rewrite (proj2 (proj2 Ho)). exact (Hx c Hc). }
  assert (Heq : forall c, In c eqs -> con_ok c /\ forall x, F x -> val (snd c) x = 0).
  { intros c Hc. assert (Ho : con_ok c) by (apply Hcon, in_or_app; right; exact Hc). split; [exact Ho|]. intros x [_ Hx]. rewrite (proj2 (proj2 Ho)). exact (Hx c Hc). }
  set (ts := clear_t cl (qmodule n (total_degree f) (all_nonnegative n ineqs) none (tangents ++ map (fun c => (fst c, tatom (snd c))) ineqs))) in *.
  set (es := clear_e cl eqs) in *. set (ml := clear_m cl (multipliers n ineqs n_plus)) in *.
  assert (Hts : forall c, In c ts -> pair_good F c).
  { intros c Hc. apply Ct in Hc. revert Hc. apply qmodule_good. intros c0 Hc0. apply in_app_or in Hc0. destruct Hc0 as [Hc0|Hc0].
    - destruct (Htan c0 Hc0) as [Ho Hp]. split; [exact Ho|]. intros x Hx. destruct Ho as (_ & _ & _ & V). rewrite <- V. exact (Hp x Hx).
    - apply in_map_iff in Hc0. destruct Hc0 as (k & <- & Hk). destruct (Hineq k Hk) as [Ho Hp]. split; [exact (con_pair k Ho)|].
      intros x Hx. cbn [snd]. rewrite tatom_value. exact (Hp x Hx). }
  assert (Hml : forall m, In m ml -> mult_ok F n_plus m) by (intros m Hm; apply Cm in Hm; exact (multipliers_spec F Hn ineqs n_plus m Hineq Hm)).
  destruct (map (mult_member f) ml) as [|m0 ms0] eqn:Ems; [discriminate|]. rewrite <- Ems in H.
  assert (Hlen : (0 < length (map (mult_member f) ml))%nat) by (rewrite Ems; cbn; lia). clear Ems m0 ms0.
  destruct (prepare_basis n fuel (all_nonnegative n ineqs) (total_degree f + n_plus) order ts es) as [basis|] eqn:EB; [|discriminate].
  assert (Ed : total_degree f = df) by (destruct (homdeg_total K df f D); [contradiction|assumption]). rewrite Ed in EB.
  assert (Hb : forall b, In b basis -> tan_ok (df + n_plus) b /\ nonneg_on F (as_expr (mb b))).
  { intros b. apply (prepare_basis_spec F Hn fuel (all_nonnegative n ineqs) (df + n_plus) order ts es basis b Hts).
    - intros c Hc. apply Ce in Hc. exact (Heq c Hc).
    - exact (all_nonnegative_spec F Hn ineqs Hineq).
    - exact EB. }
  assert (H' : finish G n true lusolve content cx dup (map snd ineqs) (lin_constraints ineqs) (map (fun c => (snd c, cyclic (fst c))) es)
             (linprog (basis ++ map (mult_member f) ml)) (basis ++ map (mult_member f) ml) (length (map (mult_member f) ml)) = Ok (Some e)).
  { destruct basis; [discriminate|]. congruence. }
  clear H EB. destruct (Hlp (basis ++ map (mult_member f) ml)) as [Ly Py].
  assert (Hmem : forall b, In b (basis ++ map (mult_member f) ml) -> member_ok K G val n true (fun x => peval x f) (df + n_plus) b).
  { intros b Hi. apply in_app_or in Hi. destruct Hi as [Hi|Hi].
    - exact (tan_member _ _ b (proj1 (Hb b Hi))).
    - apply in_map_iff in Hi. destruct Hi as (m & <- & Hm). exact (mult_member_ok F f df n_plus m W D (Hml m Hm)). }
  assert (Hpart : parted (member K) (is_mult K) (basis ++ map (mult_member f) ml) (length (map (mult_member f) ml))).
  { exists basis, (map (mult_member f) ml). split; [reflexivity|]. split; [reflexivity|]. split.
    - intros b Hi. destruct (Hb b Hi) as [(_ & _ & p & t & E & _) _]. unfold is_mult. rewrite E. reflexivity.
    - intros b Hi. apply in_map_iff in Hi. destruct Hi as (m & <- & _). reflexivity. }
  assert (Heqs : eqs_ok K G val (map (fun c => (snd c, cyclic (fst c))) es)).
  { split; [rewrite map_map; exact Nd|]. intros a Ha. apply in_map_iff in Ha. destruct Ha as (c & E & Hc). injection E as <- Ec. apply Ce in Hc.
    destruct (Heq c Hc) as [(_ & _ & V) _]. intros g x Hg. rewrite !V. exact (Hcy c Hc Ec g x Hg). }
  assert (Hlin : forall j lc a x, In (j, lc, a) (lin_constraints ineqs) -> val a x = lc * x j).
  { intros j lc a x Hi. unfold lin_constraints in Hi. apply in_flat_map in Hi. destruct Hi as (c & Hc & Hi).
    destruct (mono1 (fst c)) as [[j' lc']|] eqn:Em; [|destruct Hi]. destruct Hi as [E|[]]. injection E as <- <- <-.
    rewrite (proj2 (proj2 (proj1 (Hineq c Hc)))). exact (mono1_spec _ _ _ Em x). }
  destruct (finish_lemma K G val n true HG _ _ lusolve content cx dup _ _ _ _ _ _ e Hh Hct Heqs Hlin Hmem Ly Hpart Hlen Hinv H')
    as (N & Dn & y' & basis' & r & E & HND & Hr & Hl' & Hin & Hsum & Hpos & HD & HN).
  specialize (Hpos Py). exists N, Dn. split; [exact E|]. split; [exact HND|].
  assert (Hget : forall t, In t (combine y' (map mb basis')) -> 0 < fst t /\ exists b, In b basis' /\ snd t = mb b).
  { intros [u v] Ht. split; [exact (Hpos u (in_combine_l _ _ _ _ Ht))|]. apply in_combine_r in Ht. apply in_map_iff in Ht. destruct Ht as (b & <- & Hbi). exists b. split; [exact Hbi|reflexivity]. }
  assert (Hscale : forall v, 0 <= v * r -> 0 <= v).
  { intros v Hv. replace v with (v * r / r) by (field; exact (flt_neq0 Hr)). apply fdiv_nonneg; assumption. }
  split.
  - intros x Hx. split; apply Hscale.
    + rewrite HN. apply fsum_nonneg. intros u Hu. apply in_map_iff in Hu. destruct Hu as (t & <- & Ht). unfold others in Ht. apply filter_In in Ht. destruct Ht as [Ht Hk].
      destruct (Hget t Ht) as [P (b & Hbi & Eb)]. apply fmul_nonneg; [exact (flt_le P)|]. apply cyc_nonneg. intros g Hg. rewrite Eb in *.
      apply Hin in Hbi. apply in_app_or in Hbi. destruct Hbi as [Hbi|Hbi].
      * apply (proj2 (Hb b Hbi)). exact (HF g x Hg Hx).
      * apply in_map_iff in Hbi. destruct Hbi as (m & <- & _). discriminate.
    + rewrite HD. apply cyc_nonneg. intros g Hg. unfold mult_value. apply fsum_nonneg. intros u Hu. apply in_map_iff in Hu. destruct Hu as (t & <- & Ht).
      destruct (Hget t Ht) as [P (b & Hbi & Eb)]. rewrite Eb. apply Hin in Hbi. apply in_app_or in Hbi. destruct Hbi as [Hbi|Hbi].
      * destruct (Hb b Hbi) as [(_ & _ & p & tg & Eb' & _) _]. rewrite Eb'. apply fle_refl.
      * apply in_map_iff in Hbi. destruct Hbi as (m & <- & Hm). cbn [mb mult_member]. apply fmul_nonneg; [exact (flt_le P)|].
        apply (proj2 (proj2 (proj2 (Hml m Hm)))). exact (HF g x Hg Hx).
  - intros x Hx Hall.
    assert (Hmv : forall g, In g G -> 0 < mult_value K G val y' (map mb basis') (fun i => x (nth i g 0%nat))).
    { intros g Hg.
      assert (Hsome : exists u b, In (u, b) (combine y' basis') /\ is_mult K b = true).
      { unfold multiplier_sum in Hsum. destruct (filter (fun t => is_mult K (snd t)) (combine y' basis')) as [|[u b] l] eqn:Ef.
        - exfalso. cbn in Hsum. exact (fneq10 K (eq_sym Hsum)).
        - exists u, b. assert (Hi : In (u, b) (filter (fun t => is_mult K (snd t)) (combine y' basis'))) by (rewrite Ef; left; reflexivity).
          apply filter_In in Hi. exact Hi. }
      destruct Hsome as (u & b & Hub & Hm). unfold mult_value.
      assert (Ec : combine y' (map mb basis') = map (fun t => (fst t, mb (snd t))) (combine y' basis')).
      { clear. revert y'. induction basis' as [|b l IH]; intros [|u y']; try reflexivity. cbn. f_equal. apply IH. }
      rewrite Ec, map_map. cbn [fst snd].
      assert (Hterm : forall t, In t (combine y' basis') -> (is_mult K (snd t) = true -> 0 < match mb (snd t) with LMult m => fst t * sv (fun i => x (nth i g 0%nat)) m | _ => 0 end) /\
                0 <= match mb (snd t) with LMult m => fst t * sv (fun i => x (nth i g 0%nat)) m | _ => 0 end).
      { intros [u0 b0] Ht. cbn [fst snd]. pose proof (Hpos u0 (in_combine_l _ _ _ _ Ht)) as P. apply in_combine_r in Ht. apply Hin in Ht. apply in_app_or in Ht. destruct Ht as [Ht|Ht].
        - destruct (Hb b0 Ht) as [(_ & _ & p & tg & Eb' & _) _]. unfold is_mult. rewrite Eb'. split; [discriminate|apply fle_refl].
        - apply in_map_iff in Ht. destruct Ht as (m & <- & Hmm). cbn [mb mult_member].
          assert (Hp : 0 < u0 * sv (fun i => x (nth i g 0%nat)) (snd m)) by (apply fmul_pos; [exact P|apply Hall; [exact Hg|apply Cm, Hmm]]).
          split; [intros _; exact Hp|exact (flt_le Hp)]. }
      revert Hterm Hub. clear - Hm. generalize (combine y' basis'). intros l Hterm Hub. induction l as [|t l IH]; [destruct Hub|]. cbn [map].
      change (fsum (?a :: ?l)) with (a + fsum l). destruct Hub as [->|Hub].
      - apply fadd_pos_l.
        + exact (proj1 (Hterm (u, b) (or_introl eq_refl)) Hm).
        + apply fsum_nonneg. intros v Hv. apply in_map_iff in Hv. destruct Hv as (t & <- & Ht). exact (proj2 (Hterm t (or_intror Ht))).
      - apply fadd_pos_r; [exact (proj2 (Hterm t (or_introl eq_refl)))|]. apply IH; [intros t' Ht'; exact (Hterm t' (or_intror Ht'))|exact Hub]. }
    assert (HDr : 0 < sv x Dn * r).
    { rewrite HD. unfold cyc. pose proof (g_id _ _ HG) as Hid. clear - Hmv Hid. revert Hmv Hid. generalize (mult_value K G val y' (map mb basis')). intro mv. generalize G as G0. intros [|g0 G0] Hmv Hid.
      - destruct Hid.
      - cbn [map]. change (fsum (?a :: ?l)) with (a + fsum l). apply fadd_pos_l; [exact (Hmv g0 (or_introl eq_refl))|].
        apply fsum_nonneg. intros v Hv. apply in_map_iff in Hv. destruct Hv as (g & <- & Hg). exact (flt_le (Hmv g (or_intror Hg))). }
    replace (sv x Dn) with (sv x Dn * r / r) by (field; exact (flt_neq0 Hr)). apply fdiv_pos; assumption.
Qed.
End Facts.

(** ** Forms used by the properties *)
Section Forms.
Variable K : OrdField.
Local Open Scope of_scope.
Add Field Kf_forms : (F_field K).

Lemma assemble_parts' (G : list (list nat)) (val : nat -> (nat -> K) -> K) content iters cx collect dup ineqs eqs y (basis : list (lbasis K)) :
  content_ok K G val content -> eqs_ok K G val eqs -> (forall b, In b basis -> basis_ok K b) ->
  exists N D r, collect_constraints content iters cx collect dup ineqs eqs y basis = SDiv N D /\ 0 < r /\
    forall x, sv G val x N * r = fsum (map (fun t => match snd t with LMult _ => 0 | b => fst t * cyc K G (fun z => sv G val z (as_expr b)) x end) (combine y basis)) /\
              sv G val x D * r = cyc K G (fun z => fsum (map (fun t => match snd t with LMult m => fst t * sv G val z m | _ => 0 end) (combine y basis))) x.
Proof.
  intros H1 H2 H3. destruct (assemble_parts K G val content iters cx collect dup ineqs eqs y basis H1 H2 H3) as (N & D & r & E & Hr & H).
  exists N, D, r. split; [exact E|]. split; [exact Hr|]. intro x. destruct (H x) as [HN HD]. split; [|exact HD]. rewrite HN. unfold others. clear.
  induction (combine y basis) as [|[u b] l IH]; [reflexivity|]. cbn [map filter snd fst]. change (fsum (?a :: ?l)) with (a + fsum l). rewrite <- IH.
  destruct b; cbn [map fst snd]; try reflexivity. ring.
Qed.

Lemma finish_short (G : list (list nat)) (val : nat -> (nat -> K) -> K) (n : nat) (hom : bool) f d lusolve content cx dup ineqs lin eqs y basis num e :
  is_group n G -> honest K lusolve -> content_ok K G val content -> eqs_ok K G val eqs ->
  (forall j lc a x, In (j, lc, a) lin -> val a x = lc * x j) ->
  (forall b, In b basis -> member_ok K G val n hom f d b) -> length y = length basis -> parted (member K) (is_mult K) basis num -> (0 < num)%nat ->
  invariant K G f -> finish G n hom lusolve content cx dup ineqs lin eqs y basis num = Ok (Some e) ->
  exists N D, e = SDiv N D /\ (forall x, sv G val x N = f x * sv G val x D) /\
    exists y' basis' r, 0 < r /\ length y' = length basis' /\ (forall b, In b basis' -> In b basis) /\ multiplier_sum K (member K) (is_mult K) y' basis' = 1 /\
      ((forall u, In u y -> 0 <= u) -> forall u, In u y' -> 0 < u) /\
      (forall x, sv G val x D * r = cyc K G (mult_value K G val y' (map mb basis')) x) /\
      (forall x, sv G val x N * r = fsum (map (fun t => fst t * cyc K G (fun z => sv G val z (as_expr (snd t))) x) (others K y' (map mb basis')))).
Proof.
  intros HG Hh Hc He Hlin Hb Hl Hp Hn Hf H.
  destruct (finish_lemma K G val n hom HG f d lusolve content cx dup ineqs lin eqs y basis num e Hh Hc He Hlin Hb Hl Hp Hn Hf H)
    as (N & D & y' & basis' & r & H1 & H2 & H3 & H4 & H5 & H6 & H7 & H8 & H9).
  exists N, D. split; [exact H1|]. split; [exact H2|]. exists y', basis', r. tauto.
Qed.

Lemma qmodule_sound_lemma (G : list (list nat)) (val : nat -> (nat -> K) -> K) (n : nat) (F : (nat -> K) -> Prop) degree allnn none cs c :
  (forall c, In c cs -> pair_ok K G val n c /\ forall x, F x -> 0 <= sv G val x (stan (snd c))) ->
  In c (qmodule n degree allnn none cs) ->
  wf n (fst c) /\ (exists d, homdeg d (fst c)) /\ (forall x, peval x (fst c) = sv G val x (stan (snd c))) /\ forall x, F x -> 0 <= peval x (fst c).
Proof.
  intros Hcs Hc. destruct (qmodule_good K G val n F degree allnn none cs c Hcs Hc) as [(W & D & _ & V) N].
  split; [exact W|]. split; [exact D|]. split; [exact V|]. intros x Hx. rewrite V. exact (N x Hx).
Qed.

Lemma basis_sound_lemma (G : list (list nat)) (val : nat -> (nat -> K) -> K) (n : nat) (F : (nat -> K) -> Prop) fuel degree order tangents ineqs eqs bs b :
  (2 <= n)%nat -> (forall c, In c tangents -> pair_ok K G val n c /\ forall x, F x -> 0 <= sv G val x (stan (snd c))) ->
  (forall c, In c ineqs -> con_ok K val n c /\ forall x, F x -> 0 <= val (snd c) x) ->
  (forall c, In c eqs -> con_ok K val n c /\ forall x, F x -> val (snd c) x = 0) ->
  prepare_basis n fuel (all_nonnegative n ineqs) degree order tangents eqs = Some bs -> In b bs ->
  wf n (mpoly b) /\ homdeg degree (mpoly b) /\ (forall x, peval x (mpoly b) = sv G val x (as_expr (mb b))) /\ forall x, F x -> 0 <= peval x (mpoly b).
Proof.
  intros Hn Ht Hi He H Hb.
  destruct (prepare_basis_spec K G val n F Hn fuel _ degree order tangents eqs bs b Ht He (all_nonnegative_spec K val n F Hn ineqs Hi) H Hb) as [(W & D & p & t & _ & _ & _ & V) N].
  split; [exact W|]. split; [exact D|]. split; [exact V|]. intros x Hx. rewrite V. exact (N x Hx).
Qed.

(** *** a small problem: [a^2 - a b + b^2] with [a >= 0, b >= 0] *)
Definition exf : poly K := [([2; 0]%nat, 1); ([1; 1]%nat, - (1)); ([0; 2]%nat, 1)].
Definition exc : list (poly K * nat) := [([([1; 0]%nat, 1)], 0%nat); ([([0; 1]%nat, 1)], 1%nat)].
Definition exval (a : nat) (x : nat -> K) : K := x a.
Definition exG : list (list nat) := [[0; 1]; [1; 0]]%nat.
Lemma exf_wf : wf 2 exf /\ homdeg 2 exf.
Proof.
  split; [split|].
  - cbn. repeat constructor; cbn; intuition discriminate.
  - intros m Hm. cbn in Hm. repeat (destruct Hm as [<-|Hm]; [reflexivity|]). destruct Hm.
  - intros m Hm. cbn in Hm. repeat (destruct Hm as [<-|Hm]; [reflexivity|]). destruct Hm.
Qed.
Lemma exf_inv : invariant K exG (fun x => peval x exf).
Proof.
  intros g x [<-|[<-|[]]]; unfold exf; rewrite !peval_cons, !peval_nil; rewrite !meval_cons; change (@meval K ?x []) with (1 : K); cbn [nth fpow]; ring.
Qed.
Lemma exc_ok c : In c exc -> con_ok K exval 2 c.
Proof.
  intros [<-|[<-|[]]]; (split; [split; [cbn; repeat constructor; intros []|intros m [<-|[]]; reflexivity]|]); (split; [exists 1%nat; split; [lia|intros m [<-|[]]; reflexivity]|]);
    intro x; cbn [fst snd]; rewrite !peval_cons, !peval_nil, !meval_cons; change (@meval K ?x []) with (1 : K); unfold exval; cbn [fpow]; ring.
Qed.
Lemma exc_closed g x : In g exG -> feasible K exc [] x -> feasible K exc [] (fun i => x (nth i g 0%nat)).
Proof.
  intros Hg [H _]. split; [|intros c []].
  assert (H0 := H _ (or_introl eq_refl)). assert (H1 := H _ (or_intror (or_introl eq_refl))). cbn [fst] in H0, H1.
  rewrite <- (proj2 (proj2 (exc_ok _ (or_introl eq_refl)))) in H0. rewrite <- (proj2 (proj2 (exc_ok _ (or_intror (or_introl eq_refl))))) in H1.
  intros c Hc. rewrite <- (proj2 (proj2 (exc_ok c Hc))). destruct Hg as [<-|[<-|[]]]; destruct Hc as [<-|[<-|[]]]; cbn [snd] in *; unfold exval in *; cbn [nth]; assumption.
Qed.
End Forms.
