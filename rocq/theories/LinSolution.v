(** * Linear SOS: assembling the certificate
    Models triples/core/linsos/solution.py, [to_even] of triples/core/linsos/basis.py and
    [_odd_basis_to_even] of triples/core/linsos/linsos.py. *)
From Coq Require Import Bool List Arith Lia Ring Field Permutation ZArith.
From Verif Require Import OrdField Base Poly Perm Monomials LinSOS.
Import ListNotations.

(** Certificates: constants, variables, opaque atoms (the masked constraints [G(a,b,c)] and other
    indivisible factors), sums, products, powers, quotients, and [CyclicSum] over the group of the
    problem (monomials.py:275-287, cyclic.py:411-645). Sympy's automatic rewriting and [together],
    which keep values, are not modelled. *)
Inductive sx (K : OrdField) : Type :=
| SC (k : K) | SX (i : nat) | SA (a : nat)
| SAdd (s t : sx K) | SMul (s t : sx K) | SDiv (s t : sx K) | SPow (s : sx K) (n : nat) | SCyc (s : sx K).
Arguments SC {K} k. Arguments SX {K} i. Arguments SA {K} a.
Arguments SAdd {K} s t. Arguments SMul {K} s t. Arguments SDiv {K} s t. Arguments SPow {K} s n. Arguments SCyc {K} s.

(** an indivisible factor: a variable, a difference of variables or an atom *)
Inductive factor := FVar (i : nat) | FDiff (i j : nat) | FAtom (a : nat).
Definition factor_dec (a b : factor) : {a = b} + {a <> b}.
Proof. decide equality; apply Nat.eq_dec. Defined.
(** one argument of a product: a power of a factor *)
Definition arg := (factor * nat)%type.
Definition arg_dec (a b : arg) : {a = b} + {a <> b}.
Proof. decide equality; [apply Nat.eq_dec|apply factor_dec]. Defined.

Section Model.
Context {K : OrdField}.
Local Open Scope of_scope.
Variable G : list (list nat).
Variable val : nat -> (nat -> K) -> K.

(** value of a certificate at a point *)
Fixpoint sv (x : nat -> K) (e : sx K) : K :=
  match e with
  | SC k => k
  | SX i => x i
  | SA a => val a x
  | SAdd s t => sv x s + sv x t
  | SMul s t => sv x s * sv x t
  | SDiv s t => sv x s / sv x t
  | SPow s m => fpow (sv x s) m
  | SCyc s => cyc K G (fun z => sv z s) x
  end.

(** A product as sympy keeps it: a number and the list of its other arguments ([as_coeff_mul],
    [Mul.args]). *)
Record tangent := { tcoef : K; targs : list arg }.

Definition sfac (b : factor) : sx K := match b with FVar i => SX i | FDiff i j => SAdd (SX i) (SMul (SC (- (1))) (SX j)) | FAtom a => SA a end.
Definition sarg (a : arg) : sx K := SPow (sfac (fst a)) (snd a).
Definition sprod (l : list (sx K)) : sx K := fold_right SMul (SC 1) l.
Definition ssum (l : list (sx K)) : sx K := fold_right SAdd (SC 0) l.
Definition stan (t : tangent) : sx K := SMul (SC (tcoef t)) (sprod (map sarg (targs t))).
(** [Mul( *[s**p for s, p in zip(symbols, powers)])] (solution.py:133,135, basis.py:104) *)
Definition smono (powers : list nat) : sx K := sprod (map (fun t => SPow (SX (fst t)) (snd t)) (combine (seq 0 (length powers)) powers)).

(** the classes of bases: [LinearBasisMultiplier] (updegree.py:11-40, its multiplier),
    [LinearBasisTangent] and [LinearBasisTangentEven] (basis.py:89-236; [even] tells the class), any other (basis.py:79-87) *)
Inductive lbasis :=
| LMult (m : sx K)
| LTan (even : bool) (powers : list nat) (t : tangent)
| LOther (e : sx K).

(** [as_expr] (basis.py:86-87, 103-104); a multiplier's is not used by the assembly *)
Definition as_expr (b : lbasis) : sx K :=
  match b with
  | LMult m => m
  | LTan _ p t => SMul (smono p) (stan t)
  | LOther e => e
  end.

(** ** [to_even] (basis.py:111-121), [_odd_basis_to_even] (linsos.py:187-200) *)
(** multiplying a product by [c * b]: sympy collects powers of equal bases *)
Fixpoint add_factor (b : factor) (l : list arg) : list arg :=
  match l with
  | [] => [(b, 1%nat)]
  | (b', e) :: l' => if factor_dec b b' then (b', S e) :: l' else (b', e) :: add_factor b l'
  end.
Definition tmul (t : tangent) (cb : K * factor) : tangent :=
  {| tcoef := tcoef t * fst cb; targs := add_factor (snd cb) (targs t) |}.
(** the mapping (linsos.py:188-192): for every symbol the expression standing for it; a later
    constraint overrides an earlier one. A constraint is given as (variable, leading coefficient,
    atom) when it is a monomial of degree 1, other constraints are skipped. *)
Definition mapping (nv : nat) (lin : list (nat * K * nat)) : list (K * factor) :=
  map (fun i => fold_left (fun m c => let '(j, lc, a) := c in
                             if Nat.eqb i j && (0 <? lc) then (1 / lc, FAtom a) else m) lin (1, FVar i)) (seq 0 nv).
Definition to_even (mp : list (K * factor)) (powers : list nat) (t : tangent) : lbasis :=
  let rem := map (fun d => d mod 2)%nat powers in
  let ev := map (fun t => fst t - snd t)%nat (combine powers rem) in
  LTan true ev (fold_left tmul (map snd (filter (fun t => negb (Nat.eqb (fst t) 0)) (combine rem mp))) t).
Definition odd_basis_to_even (mp : list (K * factor)) (basis : list lbasis) : list lbasis :=
  map (fun b => match b with LTan false p t => to_even mp p t | _ => b end) basis.

(** ** [_collect_multipliers] (solution.py:152-200); [content] is [as_content_primitive] *)
Definition collect_multipliers (content : sx K -> K * sx K) (y : list K) (basis : list lbasis) : sx K * list (K * lbasis) :=
  let mults := flat_map (fun t => match snd t with LMult m => [SMul (SC (fst t)) m] | _ => [] end) (combine y basis) in
  let rest := filter (fun t => match snd t with LMult _ => false | _ => true end) (combine y basis) in
  let '(r, m) := content (ssum mults) in
  (SCyc m, map (fun t => (fst t / r, snd t)) rest).

(** ** [has_eq] (solution.py:112-124) *)
Fixpoint has_eq_args (eqs : list nat) (before after : list arg) : option (nat * list arg) :=
  match after with
  | [] => None
  | (b, e) :: l =>
      match b with
      | FAtom a => if existsb (Nat.eqb a) eqs
                   then Some (a, before ++ l ++ (if Nat.leb 2 e then [(b, e - 1)%nat] else []))
                   else has_eq_args eqs (before ++ [(b, e)]) l
      | _ => has_eq_args eqs (before ++ [(b, e)]) l
      end
  end.
(** simplification: the number in front is kept apart, as it never is a constraint *)
Definition has_eq (eqs : list nat) (t : tangent) : option (nat * sx K) :=
  match has_eq_args eqs [] (targs t) with
  | None => None
  | Some (a, rest) => Some (a, stan {| tcoef := tcoef t; targs := rest |})
  end.

(** ** [_collect_eq_constraints] (solution.py:203-239): [eqs] are the equality constraints with the
    answer of [is_cyclic] for their polynomials *)
Definition collect_eq (eqs : list (nat * bool)) (terms : list (nat * sx K)) : sx K :=
  ssum (map (fun k : nat * bool => let v := ssum (map snd (filter (fun t : nat * sx K => Nat.eqb (fst t) (fst k)) terms)) in
                      if snd k then SMul (SA (fst k)) (SCyc v) else SCyc (SMul (SA (fst k)) v)) eqs).

(** ** [_collect_ineq_constraints] (solution.py:298-396) *)
(** step 1 (351-357) *)
Definition norm_pair (te : tangent * sx K) : tangent * sx K :=
  let '(t, e) := te in
  if tcoef t <? 0 then ({| tcoef := 1; targs := [] |}, SMul (stan t) e)
  else if tcoef t =? 1 then te
  else ({| tcoef := 1; targs := targs t |}, SMul (SC (tcoef t)) e).
(** step 3 (371-375) *)
Definition degrees_row (factors : list arg) (t : tangent) : list nat :=
  map (fun f => count_occ arg_dec (targs t) f) factors.
Fixpoint row_ge (row v : list nat) : bool :=
  match row, v with a :: row', b :: v' => Nat.leb b a && row_ge row' v' | _, _ => true end.
(** [_generate_01_vectors] (242-253), in the order of [combinations] *)
Fixpoint vectors01 (m nz : nat) : list (list nat) :=
  match nz, m with
  | O, _ => [repeat 0%nat m]
  | S _, O => []
  | S k, S m' => map (cons 1%nat) (vectors01 m' k) ++ map (cons 0%nat) (vectors01 m' nz)
  end.
(** [_solve_optimal_factor] (255-273) *)
Definition reward (A : list (list nat)) (c : list Z) (v : list nat) : Z :=
  ((Z.of_nat (length (filter (fun row => row_ge row v) A)) - 1)
   * fold_right Z.add 0 (map (fun t => Z.of_nat (fst t) * snd t) (combine v c)))%Z.
Definition solve_optimal_factor (m : nat) (A : list (list nat)) (c : list Z) (nz : nat) : list nat :=
  snd (fold_left (fun best v => if (fst best <? reward A c v)%Z then (reward A c v, v) else best)
        (flat_map (vectors01 m) (seq 1 (Nat.min nz m))) (0%Z, repeat 0%nat m)).
(** [_solve_optimal_factor_recursively] (275-296). The rows travel with their terms; the bound on
    the number of rounds is a parameter (1000 in the code). *)
Fixpoint groups {T} (fuel m : nat) (c : list Z) (rows : list (list nat * T)) : list (list nat * list (list nat * T)) :=
  match fuel with
  | O => [(repeat 0%nat m, rows)]
  | S k => let v := solve_optimal_factor m (map fst rows) c 5 in
           let inn := filter (fun r => row_ge (fst r) v) rows in
           let out := filter (fun r => negb (row_ge (fst r) v)) rows in
           if negb (existsb (fun b => negb (Nat.eqb b 0)) v) || negb (existsb (fun r => row_ge (fst r) v) rows)
           then [(repeat 0%nat m, rows)]
           else (v, inn) :: groups k m c out
  end.
Definition fprod (sel : list bool) (factors : list arg) : sx K :=
  sprod (map (fun t => sarg (snd t)) (filter (fun t => fst t) (combine sel factors))).
Definition nonzero (v : list nat) : list bool := map (fun b => negb (Nat.eqb b 0)) v.
(** step 5 (381-396) *)
Definition emit_group (factors : list arg) (g : list nat * list (list nat * (tangent * sx K))) : list (sx K) :=
  let '(v, rows) := g in
  if existsb (fun b => negb (Nat.eqb b 0)) v then
    [SCyc (SMul (fprod (nonzero v) factors)
             (ssum (map (fun r => SMul (fprod (map (fun t => Nat.ltb (snd t) (fst t)) (combine (fst r) v)) factors) (snd (snd r))) rows)))]
  else map (fun r => SCyc (SMul (stan (fst (snd r))) (snd (snd r)))) rows.
Definition collect_ineq (iters : nat) (complexity : arg -> Z) (ineqs : list nat) (pairs : list (tangent * sx K)) : sx K :=
  let pairs' := map norm_pair pairs in
  let factors := nodup arg_dec (map (fun a => (FAtom a, 1%nat)) ineqs
                                ++ flat_map (fun te => if tcoef (fst te) <? 0 then [] else targs (fst te)) pairs) in
  ssum (flat_map (emit_group factors)
          (groups iters (length factors) (map complexity factors) (map (fun te => (degrees_row factors (fst te), te)) pairs'))).

(** ** [_collect_constraints] (solution.py:73-148). [dup] tells whether two constraints have the
    same expression (104). *)
Definition collect_constraints (content : sx K -> K * sx K) (iters : nat) (complexity : arg -> Z) (collect dup : bool)
    (ineqs : list nat) (eqs : list (nat * bool)) (y : list K) (basis : list lbasis) : sx K :=
  let '(multiplier, rest) := collect_multipliers content y basis in
  if negb collect || dup
  then SDiv (ssum (map (fun t => SCyc (SMul (SC (fst t)) (as_expr (snd t)))) rest)) multiplier
  else
    let nontangent := flat_map (fun t => match snd t with
                        | LTan _ _ _ => []
                        | b => [SCyc (SMul (SC (fst t)) (as_expr b))] end) rest in
    let eq_terms := flat_map (fun t => match snd t with
                        | LTan _ p tg => match has_eq (map fst eqs) tg with
                                         | Some (a, e) => [(a, SMul (SMul (SC (fst t)) e) (smono p))]
                                         | None => [] end
                        | _ => [] end) rest in
    let ineq_terms := flat_map (fun t => match snd t with
                        | LTan _ p tg => match has_eq (map fst eqs) tg with
                                         | Some _ => []
                                         | None => [(tg, SMul (SC (fst t)) (smono p))] end
                        | _ => [] end) rest in
    SDiv (SAdd (SAdd (ssum nontangent) (collect_ineq iters complexity ineqs ineq_terms)) (collect_eq eqs eq_terms)) multiplier.
End Model.
Arguments tangent K : clear implicits.
Arguments lbasis K : clear implicits.

(** ** The end of [_LinearSOS] (linsos.py:417-430, with [allow_numer = 0])
    A member of the basis with the polynomial its [as_poly] returns. *)
Record member (K : OrdField) := { mb : lbasis K; mpoly : poly K }.
Arguments mb {K}. Arguments mpoly {K}.
Definition finish {K : OrdField} (G : list (list nat)) (n : nat) (hom : bool)
    (lusolve : list (list K) -> list K -> option (list K)) (content : sx K -> K * sx K) (complexity : arg -> Z)
    (dup : bool) (ineqs : list nat) (lin : list (nat * K * nat)) (eqs : list (nat * bool))
    (y : list K) (basis : list (member K)) (num : nat) : res (option (sx K)) :=
  match linear_correction G n hom (member K) mpoly lusolve y basis num with
  | Err e => Err e
  | Ok (_, _, false) => Ok None
  | Ok (y', basis', true) =>
      Ok (Some (collect_constraints content 1000 complexity true dup ineqs eqs y' (odd_basis_to_even (mapping n lin) (map mb basis'))))
  end.

(** ** Lemmas *)
Section Facts.
Variable K : OrdField.
Local Open Scope of_scope.
Add Field Kf_sol : (F_field K).
Variable G : list (list nat).
Variable val : nat -> (nat -> K) -> K.
Local Notation sv := (sv G val).
Local Notation cyc := (cyc K G).

Lemma sv_ssum x l : sv x (ssum l) = fsum (map (sv x) l).
Proof. induction l as [|e l IH]; [reflexivity|]. cbn. unfold ssum in IH. rewrite IH. reflexivity. Qed.
Definition vprod (l : list K) : K := fold_right fmul 1 l.
Lemma sv_sprod x l : sv x (sprod l) = vprod (map (sv x) l).
Proof. induction l as [|e l IH]; [reflexivity|]. cbn. unfold sprod in IH. rewrite IH. reflexivity. Qed.
Lemma vprod_cons u l : vprod (u :: l) = u * vprod l.
Proof. reflexivity. Qed.
Lemma vprod_app a b : vprod (a ++ b) = vprod a * vprod b.
Proof. induction a as [|u a IH]; [change (vprod []) with (1 : K); cbn [app]; ring|]. cbn [app]. rewrite !vprod_cons, IH. ring. Qed.
Lemma vprod_perm a b : Permutation a b -> vprod a = vprod b.
Proof. induction 1; [reflexivity|rewrite !vprod_cons; congruence|rewrite !vprod_cons; ring|congruence]. Qed.

Lemma cyc_ext f h x : (forall z, f z = h z) -> cyc f x = cyc h x.
Proof. intro H. unfold LinSOS.cyc. apply fsum_map_ext. intros; apply H. Qed.
Lemma cyc_add f h x : cyc (fun z => f z + h z) x = cyc f x + cyc h x.
Proof. unfold LinSOS.cyc. apply fsum_map_add. Qed.
Lemma cyc_scale c f x : cyc (fun z => c * f z) x = c * cyc f x.
Proof. unfold LinSOS.cyc. apply fsum_map_mul_l. Qed.
Lemma cyc_zero x : cyc (fun _ => 0) x = 0.
Proof. unfold LinSOS.cyc. apply fsum_map_0. reflexivity. Qed.
Lemma cyc_fsum {A} (f : A -> (nat -> K) -> K) l x : cyc (fun z => fsum (map (fun a => f a z) l)) x = fsum (map (fun a => cyc (f a) x) l).
Proof.
  induction l as [|a l IH]; cbn; [apply cyc_zero|]. unfold fsum in *. cbn. rewrite <- IH. apply cyc_add.
Qed.
Definition invariant (f : (nat -> K) -> K) : Prop := forall g x, In g G -> f (fun i => x (nth i g 0%nat)) = f x.
Lemma sv_stan x t : sv x (stan t) = tcoef t * vprod (map (fun a => sv x (sarg a)) (targs t)).
Proof. cbn. rewrite sv_sprod, map_map. reflexivity. Qed.

Lemma sv_sarg x a : sv x (sarg a) = fpow (sv x (sfac (fst a))) (snd a).
Proof. reflexivity. Qed.

(** *** equality constraints *)
Lemma has_eq_args_spec eqs x : forall after before a rest, (forall b e, In (b, e) after -> (1 <= e)%nat) ->
  has_eq_args eqs before after = Some (a, rest) ->
  In a eqs /\ vprod (map (fun u => sv x (sarg u)) (before ++ after)) = val a x * vprod (map (fun u => sv x (sarg u)) rest).
Proof.
  induction after as [|[b e] l IH]; intros before a rest He H; [discriminate|]. cbn in H.
  assert (Hl : forall b0 e0, In (b0, e0) l -> (1 <= e0)%nat) by (intros b0 e0 Hi; exact (He b0 e0 (or_intror Hi))).
  assert (Hstep : has_eq_args eqs (before ++ [(b, e)]) l = Some (a, rest) ->
    In a eqs /\ vprod (map (fun u => sv x (sarg u)) (before ++ (b, e) :: l)) = val a x * vprod (map (fun u => sv x (sarg u)) rest)).
  { intro H'. destruct (IH _ _ _ Hl H') as [H1 H2]. rewrite <- app_assoc in H2. exact (Logic.conj H1 H2). }
  destruct b as [i|i j|a']; [exact (Hstep H)|exact (Hstep H)|]. destruct (existsb (Nat.eqb a') eqs) eqn:Ee; [|exact (Hstep H)].
  injection H as <- <-. apply existsb_exists in Ee. destruct Ee as (k & Hk & Ek). apply Nat.eqb_eq in Ek. subst k.
  split; [exact Hk|]. specialize (He _ _ (or_introl eq_refl)).
  rewrite !map_app, !vprod_app. cbn [map]. rewrite vprod_cons, sv_sarg. cbn [fst snd sfac LinSolution.sv].
  destruct e as [|[|e]]; [lia| |].
  - cbn [Nat.leb map]. cbn [fpow]. change (vprod []) with (1 : K). ring.
  - cbn [Nat.leb map Nat.sub]. rewrite vprod_cons, sv_sarg. cbn [fst snd sfac LinSolution.sv]. change (vprod []) with (1 : K).
    cbn [fpow]. ring.
Qed.
Definition args_ok (t : tangent K) : Prop := NoDup (targs t) /\ forall b e, In (b, e) (targs t) -> (1 <= e)%nat.
Lemma has_eq_spec eqs t a e : args_ok t -> has_eq eqs t = Some (a, e) ->
  In a eqs /\ forall x, sv x (stan t) = val a x * sv x e.
Proof.
  intros [_ Hok] H. unfold has_eq in H. destruct (has_eq_args eqs [] (targs t)) as [[a' rest]|] eqn:E; [|discriminate].
  injection H as <- <-. split; [exact (proj1 (has_eq_args_spec eqs (fun _ => 0) _ _ _ _ Hok E))|]. intro x.
  destruct (has_eq_args_spec eqs x _ _ _ _ Hok E) as [_ H]. rewrite !sv_stan. cbn [tcoef targs]. cbn [app] in H. rewrite H. ring.
Qed.

Lemma group_by_key (h : nat * sx K -> K) (ks : list nat) (terms : list (nat * sx K)) : NoDup ks -> (forall t, In t terms -> In (fst t) ks) ->
  fsum (map (fun k => fsum (map h (filter (fun t => Nat.eqb (fst t) k) terms))) ks) = fsum (map h terms).
Proof.
  intros Hn. induction terms as [|t terms IH]; intro Hin.
  - cbn. apply fsum_map_0. reflexivity.
  - transitivity (fsum (map (fun k => (if Nat.eqb (fst t) k then h t else 0) + fsum (map h (filter (fun t => Nat.eqb (fst t) k) terms))) ks)).
    { apply fsum_map_ext. intros k _. cbn [filter]. destruct (Nat.eqb (fst t) k); [reflexivity|]. unfold fsum. ring. }
    rewrite fsum_map_add, IH by (intros; apply Hin; right; assumption). unfold fsum at 3. cbn [map fold_right]. fold (fsum (map h terms)). f_equal.
    assert (Ht : In (fst t) ks) by (apply Hin; left; reflexivity). clear - Hn Ht.
    induction Hn as [|k ks Hk Hn IH]; [destruct Ht|]. cbn [map]. unfold fsum. cbn [fold_right]. fold (fsum (map (fun k => if Nat.eqb (fst t) k then h t else 0) ks)).
    destruct (Nat.eqb_spec (fst t) k) as [E|E].
    + rewrite fsum_map_0; [ring|]. intros k' Hk'. destruct (Nat.eqb_spec (fst t) k'); [congruence|reflexivity].
    + destruct Ht as [Ht|Ht]; [congruence|]. rewrite IH by exact Ht. ring.
Qed.

Lemma cyc_pull f h x : invariant f -> cyc (fun z => f z * h z) x = f x * cyc h x.
Proof.
  intro Hi. unfold LinSOS.cyc. rewrite <- fsum_map_mul_l. apply fsum_map_ext. intros g Hg. rewrite (Hi g x Hg). reflexivity.
Qed.

Definition eqs_ok (eqs : list (nat * bool)) : Prop :=
  NoDup (map fst eqs) /\ forall a, In (a, true) eqs -> invariant (val a).

Lemma collect_eq_value eqs terms x : eqs_ok eqs -> (forall t, In t terms -> In (fst t) (map fst eqs)) ->
  sv x (collect_eq eqs terms) = fsum (map (fun t => cyc (fun z => val (fst t) z * sv z (snd t)) x) terms).
Proof.
  intros [Hn Hi] Hin. unfold collect_eq. rewrite sv_ssum, map_map.
  rewrite <- (group_by_key (fun t => cyc (fun z => val (fst t) z * sv z (snd t)) x) (map fst eqs) terms Hn Hin), map_map.
  apply fsum_map_ext. intros [k fl] Hk. cbn [fst snd].
  assert (E : cyc (fun z => val k z * sv z (ssum (map snd (filter (fun t => Nat.eqb (fst t) k) terms)))) x =
    fsum (map (fun t => cyc (fun z => val (fst t) z * sv z (snd t)) x) (filter (fun t => Nat.eqb (fst t) k) terms))).
  { rewrite <- (cyc_fsum (fun t z => val (fst t) z * sv z (snd t))). apply cyc_ext. intro z. rewrite sv_ssum, map_map, <- fsum_map_mul_l.
    apply fsum_map_ext. intros t Ht. apply filter_In in Ht. destruct Ht as [_ Ht]. apply Nat.eqb_eq in Ht. rewrite Ht. reflexivity. }
  destruct fl; [|exact E]. cbn [LinSolution.sv]. rewrite <- E. symmetry. apply cyc_pull. exact (Hi k Hk).
Qed.

(** *** inequality constraints *)
Lemma norm_pair_spec te : args_ok (fst te) -> args_ok (fst (norm_pair te)) /\ tcoef (fst (norm_pair te)) = 1 /\
  (forall x, sv x (stan (fst (norm_pair te))) * sv x (snd (norm_pair te)) = sv x (stan (fst te)) * sv x (snd te)) /\
  (forall a, In a (targs (fst (norm_pair te))) -> (tcoef (fst te) <? 0) = false /\ In a (targs (fst te))).
Proof.
  destruct te as [t e]. intro Hok. unfold norm_pair. cbn [fst snd] in *. destruct (tcoef t <? 0) eqn:E0; cbn [fst snd].
  - split; [split; [constructor|intros ? ? []]|]. split; [reflexivity|]. split; [|intros ? []].
    intro x. rewrite !sv_stan. cbn [tcoef targs map LinSolution.sv]. rewrite sv_stan. change (vprod []) with (1 : K). ring.
  - destruct (tcoef t =? 1) eqn:E1; cbn [fst snd].
    + apply feqb_eq in E1. split; [exact Hok|split; [exact E1|split; [reflexivity|]]]. intros a Ha. split; [reflexivity|exact Ha].
    + split; [exact Hok|split; [reflexivity|split]].
      * intro x. rewrite !sv_stan. cbn [tcoef targs LinSolution.sv]. ring.
      * intros a Ha. split; [reflexivity|exact Ha].
Qed.

Lemma vectors01_length m : forall nz v, In v (vectors01 m nz) -> length v = m.
Proof.
  induction m as [|m IH]; intros [|nz] v H; cbn in H.
  - destruct H as [<-|[]]. reflexivity.
  - destruct H.
  - destruct H as [<-|[]]. cbn. rewrite repeat_length. reflexivity.
  - apply in_app_iff in H. destruct H as [H|H]; apply in_map_iff in H; destruct H as (u & <- & Hu); cbn; f_equal; eapply IH; exact Hu.
Qed.
Lemma solve_optimal_factor_length m A c nz : length (solve_optimal_factor m A c nz) = m.
Proof.
  unfold solve_optimal_factor.
  assert (H : forall v, In v (flat_map (vectors01 m) (seq 1 (Nat.min nz m))) -> length v = m).
  { intros v Hv. apply in_flat_map in Hv. destruct Hv as (k & _ & Hv). exact (vectors01_length _ _ _ Hv). }
  revert H. generalize (flat_map (vectors01 m) (seq 1 (Nat.min nz m))) as l.
  assert (H0 : length (snd (0%Z, repeat 0%nat m)) = m) by apply repeat_length.
  revert H0. generalize (0%Z, repeat 0%nat m) as best. intros best H0 l. revert best H0.
  induction l as [|v l IH]; intros best H0 H; [exact H0|]. cbn [fold_left]. apply IH; [|intros; apply H; right; assumption].
  destruct (fst best <? reward A c v)%Z; [apply H; left; reflexivity|exact H0].
Qed.

(** all groups together are the rows, and a row is at least the selection of its group *)
Lemma groups_spec {T} fuel m c : forall (rows : list (list nat * T)),
  Permutation (flat_map snd (groups fuel m c rows)) rows /\
  (forall v rs, In (v, rs) (groups fuel m c rows) -> length v = m /\ forall r, In r rs -> row_ge (fst r) v = true \/ v = repeat 0%nat m).
Proof.
  induction fuel as [|fuel IH]; intros rows; cbn [groups].
  - split; [cbn; rewrite app_nil_r; apply Permutation_refl|]. intros v rs [E|[]]. injection E as <- <-.
    split; [apply repeat_length|]. intros; right; reflexivity.
  - set (v := solve_optimal_factor m (map fst rows) c 5).
    destruct (negb (existsb (fun b => negb (Nat.eqb b 0)) v) || negb (existsb (fun r => row_ge (fst r) v) rows)).
    + split; [cbn; rewrite app_nil_r; apply Permutation_refl|]. intros v' rs [E|[]]. injection E as <- <-.
      split; [apply repeat_length|]. intros; right; reflexivity.
    + destruct (IH (filter (fun r => negb (row_ge (fst r) v)) rows)) as [H1 H2]. split.
      * cbn [flat_map snd]. rewrite H1. clear. generalize v as w. intro w. induction rows as [|r rows IH]; [constructor|]. cbn.
        destruct (row_ge (fst r) w); cbn; [constructor; exact IH|]. apply Permutation_sym, Permutation_cons_app, Permutation_sym, IH.
      * intros v' rs [E|Hi]; [|exact (H2 v' rs Hi)]. injection E as <- <-. split; [apply solve_optimal_factor_length|].
        intros r Hr. left. apply filter_In in Hr. exact (proj2 Hr).
Qed.

(** the arguments of a product, picked from the list of all factors *)
Lemma fprod_nil x sel : sv x (fprod sel []) = 1.
Proof. unfold fprod. destruct sel; reflexivity. Qed.
Lemma fprod_cons x s sel a l : sv x (fprod (s :: sel) (a :: l)) = (if s then sv x (sarg a) else 1) * sv x (fprod sel l).
Proof. unfold fprod. destruct s; cbn [combine filter fst map snd]; [reflexivity|]. ring. Qed.
Lemma row_split x l (deg v : list nat) : length deg = length l -> length v = length l -> (forall d, In d deg -> (d <= 1)%nat) ->
  row_ge deg v = true ->
  sv x (fprod (nonzero v) l) * sv x (fprod (map (fun t => Nat.ltb (snd t) (fst t)) (combine deg v)) l) = sv x (fprod (nonzero deg) l).
Proof.
  revert deg v. induction l as [|a l IH]; intros [|d deg] [|u v] L1 L2 Hd Hr; try discriminate.
  - rewrite !fprod_nil. ring.
  - cbn [row_ge] in Hr. apply andb_true_iff in Hr. destruct Hr as [Hu Hr]. apply Nat.leb_le in Hu.
    unfold nonzero in *. cbn [map combine fst snd]. rewrite !fprod_cons.
    rewrite <- (IH deg v) by (try (cbn in *; congruence); intros; apply Hd; right; assumption).
    specialize (Hd d (or_introl eq_refl)).
    destruct d as [|[|d]]; [|destruct u as [|[|u]]; [| |lia]|lia]; [assert (u = 0)%nat by lia; subst u|..]; cbn [Nat.eqb negb Nat.ltb Nat.leb]; ring.
Qed.
Lemma count_le1 (l : list arg) a : NoDup l -> (count_occ arg_dec l a <= 1)%nat.
Proof. intro H. apply (proj1 (NoDup_count_occ arg_dec l) H). Qed.
Lemma fprod_row x l (t : tangent K) : NoDup l -> NoDup (targs t) -> incl (targs t) l ->
  sv x (fprod (nonzero (degrees_row l t)) l) = vprod (map (fun a => sv x (sarg a)) (targs t)).
Proof.
  intros Hl Ht Hi. transitivity (vprod (map (fun a => sv x (sarg a)) (filter (fun a => negb (Nat.eqb (count_occ arg_dec (targs t) a) 0)) l))).
  - clear Hl Hi Ht. unfold degrees_row, nonzero. induction l as [|a l IH]; [reflexivity|].
    cbn [map]. rewrite fprod_cons, IH. cbn [filter]. destruct (Nat.eqb (count_occ arg_dec (targs t) a) 0); cbn [negb]; [ring|]. reflexivity.
  - apply vprod_perm, Permutation_map. apply NoDup_Permutation; [apply NoDup_filter, Hl|exact Ht|]. intro a. rewrite filter_In. split.
    + intros [_ H]. apply (count_occ_In arg_dec). destruct (count_occ arg_dec (targs t) a); [discriminate|lia].
    + intro H. split; [exact (Hi a H)|]. apply (count_occ_In arg_dec) in H. destruct (count_occ arg_dec (targs t) a); [lia|reflexivity].
Qed.

Lemma fsum_flat_map_perm {A B} (f : A -> list B) (h : B -> K) (l : list A) : fsum (map h (flat_map f l)) = fsum (map (fun a => fsum (map h (f a))) l).
Proof. induction l as [|a l IH]; [reflexivity|]. cbn [flat_map map]. rewrite map_app, fsum_app, IH. reflexivity. Qed.

Lemma collect_ineq_value iters cx ineqs pairs x : (forall te, In te pairs -> args_ok (fst te)) ->
  sv x (collect_ineq iters cx ineqs pairs) = fsum (map (fun te => cyc (fun z => sv z (stan (fst te)) * sv z (snd te)) x) pairs).
Proof.
  intro Hok. unfold collect_ineq.
  set (l := nodup arg_dec _). set (rows := map (fun te => (degrees_row l (fst te), te)) (map norm_pair pairs)).
  assert (Hl : NoDup l) by apply NoDup_nodup.
  destruct (groups_spec iters (length l) (map cx l) rows) as [Hp Hg].
  rewrite sv_ssum. rewrite fsum_flat_map_perm.
  transitivity (fsum (map (fun r => cyc (fun z => sv z (stan (fst (snd r))) * sv z (snd (snd r))) x) rows)).
  2:{ unfold rows. rewrite !map_map. apply fsum_map_ext. intros te Hte. cbn [snd]. apply cyc_ext. intro z.
      apply (norm_pair_spec te (Hok te Hte)). }
  rewrite <- (fsum_perm K _ _ (Permutation_map _ Hp)), fsum_flat_map_perm. apply fsum_map_ext. intros [v rs] Hvr. cbn [snd].
  destruct (Hg v rs Hvr) as [Lv Hge]. unfold emit_group.
  destruct (existsb (fun b => negb (Nat.eqb b 0)) v) eqn:Ev.
  2:{ rewrite map_map. apply fsum_map_ext. intros r _. reflexivity. }
  cbn [map]. unfold fsum at 1. cbn [fold_right LinSolution.sv]. rewrite <- (cyc_fsum (fun r z => sv z (stan (fst (snd r))) * sv z (snd (snd r)))).
  transitivity (cyc (fun z => sv z (fprod (nonzero v) l) * sv z (ssum (map (fun r => SMul (fprod (map (fun t => Nat.ltb (snd t) (fst t)) (combine (fst r) v)) l) (snd (snd r))) rs))) x); [ring|].
  apply cyc_ext. intro z. rewrite sv_ssum, map_map, <- fsum_map_mul_l. apply fsum_map_ext. intros r Hr.
  assert (Hrow : In r rows).
  { apply (Permutation_in _ Hp). apply in_flat_map. exists (v, rs). split; assumption. }
  unfold rows in Hrow. apply in_map_iff in Hrow. destruct Hrow as (te & <- & Hte). apply in_map_iff in Hte. destruct Hte as (te0 & <- & Hte0).
  cbn [fst snd]. destruct (norm_pair_spec te0 (Hok te0 Hte0)) as ([Hnd _] & Hc1 & _ & Hin).
  assert (Hinc : incl (targs (fst (norm_pair te0))) l).
  { intros a Ha. destruct (Hin a Ha) as [H0 Ha0]. unfold l. apply nodup_In, in_app_iff. right. apply in_flat_map. exists te0. split; [exact Hte0|]. rewrite H0. exact Ha0. }
  destruct (Hge _ Hr) as [Hr1|Hr0].
  - cbn [LinSolution.sv fst]. rewrite sv_stan, Hc1, <- (fprod_row z l _ Hl Hnd Hinc).
    cbn [fst] in Hr1. rewrite <- (row_split z l (degrees_row l (fst (norm_pair te0))) v); [ring|apply map_length|exact Lv| |exact Hr1].
    intros d Hd. apply in_map_iff in Hd. destruct Hd as (a & <- & _). apply count_le1, Hnd.
  - subst v. exfalso. apply existsb_exists in Ev. destruct Ev as (b & Hb & Hb0). apply repeat_spec in Hb. subst b. discriminate.
Qed.

(** *** The whole assembly *)
Definition basis_ok (b : lbasis K) : Prop := match b with LTan _ _ t => args_ok t | _ => True end.
Definition content_ok (content : sx K -> K * sx K) : Prop :=
  forall e, 0 < fst (content e) /\ forall x, sv x e = fst (content e) * sv x (snd (content e)).
(** the sum over the members that are not multipliers *)
Definition others (y : list K) (basis : list (lbasis K)) : list (K * lbasis K) :=
  filter (fun t => match snd t with LMult _ => false | _ => true end) (combine y basis).
(** the sum of the multipliers *)
Definition mult_value (y : list K) (basis : list (lbasis K)) (x : nat -> K) : K :=
  fsum (map (fun t => match snd t with LMult m => fst t * sv x m | _ => 0 end) (combine y basis)).

Lemma collect_rest_value iters cx collect dup ineqs eqs (rest : list (K * lbasis K)) (m : sx K) x :
  eqs_ok eqs -> (forall t, In t rest -> basis_ok (snd t)) ->
  sv x (if negb collect || dup
    then SDiv (ssum (map (fun t => SCyc (SMul (SC (fst t)) (as_expr (snd t)))) rest)) m
    else
    let nontangent := flat_map (fun t => match snd t with
                        | LTan _ _ _ => []
                        | b => [SCyc (SMul (SC (fst t)) (as_expr b))] end) rest in
    let eq_terms := flat_map (fun t => match snd t with
                        | LTan _ p tg => match has_eq (map fst eqs) tg with
                                         | Some (a, e) => [(a, SMul (SMul (SC (fst t)) e) (smono p))]
                                         | None => [] end
                        | _ => [] end) rest in
    let ineq_terms := flat_map (fun t => match snd t with
                        | LTan _ p tg => match has_eq (map fst eqs) tg with
                                         | Some _ => []
                                         | None => [(tg, SMul (SC (fst t)) (smono p))] end
                        | _ => [] end) rest in
    SDiv (SAdd (SAdd (ssum nontangent) (collect_ineq iters cx ineqs ineq_terms)) (collect_eq eqs eq_terms)) m)
  = fsum (map (fun t => fst t * cyc (fun z => sv z (as_expr (snd t))) x) rest) / sv x m.
Proof.
  intros He Hok. destruct (negb collect || dup).
  - cbn [LinSolution.sv]. rewrite sv_ssum, map_map. f_equal. apply fsum_map_ext. intros t _. cbn [LinSolution.sv]. apply cyc_scale.
  - cbv zeta. cbn [LinSolution.sv]. f_equal. rewrite collect_ineq_value, collect_eq_value; [|exact He| |].
    + rewrite sv_ssum. clear He. induction rest as [|t rest IH]; [cbn; ring|]. cbn [flat_map].
      rewrite !map_app, !fsum_app. cbn [map]. unfold fsum at 7. cbn [fold_right]. fold (fsum (map (fun t => fst t * cyc (fun z => sv z (as_expr (snd t))) x) rest)).
      rewrite <- IH by (intros; apply Hok; right; assumption). specialize (Hok t (or_introl eq_refl)).
      destruct t as [v b]; cbn [fst snd] in *. destruct b as [mm|ev p tg|e].
      * cbn [map]. unfold fsum. cbn [fold_right LinSolution.sv]. rewrite cyc_scale. ring.
      * destruct (has_eq (map fst eqs) tg) as [[a e]|] eqn:Eh.
        -- destruct (has_eq_spec _ _ _ _ Hok Eh) as [_ Hv]. cbn [map fst snd]. unfold fsum. cbn [fold_right].
           rewrite <- cyc_scale. rewrite (cyc_ext (fun z => val a z * sv z (SMul (SMul (SC v) e) (smono p))) (fun z => v * sv z (as_expr (LTan ev p tg)))); [ring|].
           intro z. cbn [as_expr LinSolution.sv]. rewrite Hv. ring.
        -- cbn [map fst snd]. unfold fsum. cbn [fold_right]. rewrite <- cyc_scale.
           rewrite (cyc_ext (fun z => sv z (stan tg) * sv z (SMul (SC v) (smono p))) (fun z => v * sv z (as_expr (LTan ev p tg)))); [ring|].
           intro z. cbn [as_expr LinSolution.sv]. ring.
      * cbn [map]. unfold fsum. cbn [fold_right LinSolution.sv]. rewrite cyc_scale. ring.
    + intros u Hu. apply in_flat_map in Hu. destruct Hu as ([v b] & Ht & Hu). cbn [snd fst] in Hu. destruct b as [|ev p tg|]; try destruct Hu.
      destruct (has_eq (map fst eqs) tg) as [[a e]|] eqn:Eh; [|destruct Hu]. destruct Hu as [<-|[]]. cbn [fst].
      exact (proj1 (has_eq_spec _ _ _ _ (Hok _ Ht) Eh)).
    + intros u Hu. apply in_flat_map in Hu. destruct Hu as ([v b] & Ht & Hu). cbn [snd fst] in Hu. destruct b as [|ev p tg|]; try destruct Hu.
      destruct (has_eq (map fst eqs) tg) as [[a e]|] eqn:Eh; [destruct Hu|]. destruct Hu as [<-|[]]. cbn [fst]. exact (Hok _ Ht).
Qed.

Lemma assemble_parts content iters cx collect dup ineqs eqs y basis :
  content_ok content -> eqs_ok eqs -> (forall b, In b basis -> basis_ok b) ->
  exists N D r, collect_constraints content iters cx collect dup ineqs eqs y basis = SDiv N D /\ 0 < r /\
    forall x, sv x N * r = fsum (map (fun t => fst t * cyc (fun z => sv z (as_expr (snd t))) x) (others y basis)) /\
              sv x D * r = cyc (mult_value y basis) x.
Proof.
  intros Hc He Hok. unfold collect_constraints, collect_multipliers.
  set (ms := flat_map _ (combine y basis)).
  assert (Em : forall z, sv z (ssum ms) = mult_value y basis z).
  { intro z. rewrite sv_ssum. unfold ms, mult_value. induction (combine y basis) as [|[v b] l IH]; [reflexivity|].
    cbn [flat_map snd map]. rewrite map_app, fsum_app, IH. unfold fsum. destruct b; cbn [map fold_right fst snd LinSolution.sv]; ring. }
  destruct (Hc (ssum ms)) as [Hr Hv]. destruct (content (ssum ms)) as [r m] eqn:Ec. cbn [fst snd] in Hr, Hv.
  assert (Hr0 : r <> 0) by (apply flt_neq0; exact Hr).
  assert (Hrest : forall t, In t (map (fun t => (fst t / r, snd t)) (others y basis)) -> basis_ok (snd t)).
  { intros t Ht. apply in_map_iff in Ht. destruct Ht as ([v b] & <- & Ht). apply filter_In in Ht. cbn [snd]. apply Hok. exact (in_combine_r _ _ _ _ (proj1 Ht)). }
  pose proof (fun x => collect_rest_value iters cx collect dup ineqs eqs _ (SC 1) x He Hrest) as Hval. revert Hval. cbv zeta.
  fold (others y basis). intro Hval.
  assert (Hsum : forall x, fsum (map (fun t => fst t * cyc (fun z => sv z (as_expr (snd t))) x) (map (fun t => (fst t / r, snd t)) (others y basis))) * r
     = fsum (map (fun t => fst t * cyc (fun z => sv z (as_expr (snd t))) x) (others y basis))).
  { intro x. rewrite map_map, <- fsum_map_mul_r. apply fsum_map_ext. intros t _. cbn [fst snd]. field. exact Hr0. }
  assert (HD : forall x, sv x (SCyc m) * r = cyc (mult_value y basis) x).
  { intro x. cbn [LinSolution.sv]. transitivity (r * cyc (fun z => sv z m) x); [ring|].
    rewrite <- cyc_scale. apply cyc_ext. intro z. rewrite <- Em. symmetry. apply Hv. }
  destruct (negb collect || dup); eexists; eexists; exists r; (split; [reflexivity|split; [exact Hr|]]); intro x; (split; [|exact (HD x)]);
    rewrite <- Hsum; f_equal; specialize (Hval x); cbn [LinSolution.sv] in Hval |- *.
  - transitivity (sv x (ssum (map (fun t => SCyc (SMul (SC (fst t)) (as_expr (snd t)))) (map (fun t => (fst t / r, snd t)) (others y basis)))) / 1); [field; apply fneq10|].
    rewrite Hval. field. apply fneq10.
  - match type of Hval with ?a / 1 = ?b / 1 => transitivity (a / 1); [field; apply fneq10|]; rewrite Hval; field; apply fneq10 end.
Qed.

(** *** [to_even] *)
Lemma add_factor_value x b l : vprod (map (fun a => sv x (sarg a)) (add_factor b l)) = sv x (sfac b) * vprod (map (fun a => sv x (sarg a)) l).
Proof.
  induction l as [|[b' e] l IH]; cbn [add_factor map].
  - rewrite vprod_cons, sv_sarg. cbn [fst snd fpow]. ring.
  - destruct (factor_dec b b') as [<-|]; cbn [map]; rewrite !vprod_cons, ?IH, !sv_sarg; cbn [fst snd fpow]; ring.
Qed.
Lemma add_factor_in b l u : In u (map fst (add_factor b l)) -> u = b \/ In u (map fst l).
Proof.
  induction l as [|[b' e] l IH]; cbn [add_factor map].
  - intros [<-|[]]. left. reflexivity.
  - destruct (factor_dec b b') as [<-|]; cbn [map fst].
    + tauto.
    + intros [<-|H]; [right; left; reflexivity|]. destruct (IH H); [left; assumption|right; right; assumption].
Qed.
(** no base occurs twice among the arguments *)
Definition bases_ok (t : tangent K) : Prop := NoDup (map fst (targs t)) /\ forall b e, In (b, e) (targs t) -> (1 <= e)%nat.
Lemma bases_args t : bases_ok t -> args_ok t.
Proof. intros [H1 H2]. split; [exact (NoDup_map_inv _ _ H1)|exact H2]. Qed.
Lemma tmul_ok t cb : bases_ok t -> bases_ok (tmul t cb).
Proof.
  destruct cb as [c b]. intros [H1 H2]. unfold tmul. split; cbn [targs fst snd].
  - clear H2. induction (targs t) as [|[b' e] l IH]; cbn [add_factor map].
    + repeat constructor. intros [].
    + cbn [map fst] in H1. inversion_clear H1 as [|? ? Hn Hd]. destruct (factor_dec b b') as [<-|Hne]; cbn [map fst]; constructor; auto.
      intro H. apply add_factor_in in H. destruct H; [congruence|contradiction].
  - clear H1. induction (targs t) as [|[b' e] l IH]; cbn [add_factor].
    + intros b0 e0 [E|[]]. injection E as <- <-. lia.
    + assert (Hl : forall b0 e0, In (b0, e0) l -> (1 <= e0)%nat) by (intros b0 e0 Hi; exact (H2 b0 e0 (or_intror Hi))).
      destruct (factor_dec b b') as [<-|Hne]; intros b0 e0 [E|H]; try (injection E as <- <-).
      * lia.
      * exact (Hl _ _ H).
      * exact (H2 b' e (or_introl eq_refl)).
      * exact (IH Hl _ _ H).
Qed.
Lemma tmul_value x t cb : sv x (stan (tmul t cb)) = sv x (stan t) * (fst cb * sv x (sfac (snd cb))).
Proof. rewrite !sv_stan. unfold tmul. cbn [tcoef targs]. rewrite add_factor_value. ring. Qed.

(** the mapping stands for the variables *)
Definition mapping_ok (mp : list (K * factor)) : Prop := forall i x, (i < length mp)%nat -> forall d, fst (nth i mp d) * sv x (sfac (snd (nth i mp d))) = x i.
Lemma mapping_length nv (lin : list (nat * K * nat)) : length (mapping nv lin) = nv.
Proof. unfold mapping. rewrite map_length, seq_length. reflexivity. Qed.
Lemma mapping_spec nv (lin : list (nat * K * nat)) : (forall j lc a x, In (j, lc, a) lin -> val a x = lc * x j) -> mapping_ok (mapping nv lin).
Proof.
  intros H i x Hi d. rewrite mapping_length in Hi. unfold mapping.
  set (f := fun i => fold_left (fun m c => let '(j, lc, a) := c in if Nat.eqb i j && (0 <? lc) then (1 / lc, FAtom a) else m) lin (1, FVar i)).
  rewrite nth_indep with (d' := f 0%nat) by (rewrite map_length, seq_length; exact Hi). rewrite map_nth, seq_nth by exact Hi. cbn [Nat.add].
  unfold f. assert (H0 : fst ((1 : K), FVar i) * sv x (sfac (snd ((1 : K), FVar i))) = x i) by (cbn; ring).
  revert H0. generalize ((1 : K), FVar i) as m. clear - H. induction lin as [|[[j lc] a] l IH]; intros m Hm; [exact Hm|]. cbn [fold_left].
  apply IH; [intros; apply H; right; assumption|]. destruct (Nat.eqb_spec i j) as [<-|]; [|exact Hm]. destruct (0 <? lc) eqn:E; [|exact Hm].
  cbn. rewrite (H _ _ _ x (or_introl eq_refl)). apply fltb_lt in E. field. apply flt_neq0. exact E.
Qed.

Lemma smono_value x p : forall o, sv x (sprod (map (fun t => SPow (SX (fst t)) (snd t)) (combine (seq o (length p)) p)))
  = vprod (map (fun t => fpow (x (fst t)) (snd t)) (combine (seq o (length p)) p)).
Proof. intro o. rewrite sv_sprod, map_map. reflexivity. Qed.

Lemma to_even_value mp p t x : mapping_ok mp -> length mp = length p -> sv x (as_expr (to_even mp p t)) = sv x (as_expr (LTan false p t)).
Proof.
  intros Hm Hl. unfold to_even. cbn [as_expr LinSolution.sv]. unfold smono. rewrite !smono_value.
  set (sel := map snd _).
  assert (Hf : forall l t, sv x (stan (fold_left tmul l t)) = sv x (stan t) * vprod (map (fun cb => fst cb * sv x (sfac (snd cb))) l)).
  { clear. induction l as [|cb l IH]; intro t; [change (vprod (map _ [])) with (1 : K); cbn [fold_left]; ring|].
    cbn [fold_left map]. rewrite IH, tmul_value, vprod_cons. ring. }
  rewrite Hf.
  transitivity (vprod (map (fun t => fpow (x (fst t)) (snd t)) (combine (seq 0 (length (map (fun t => fst t - snd t)%nat (combine p (map (fun d => d mod 2)%nat p)))))
     (map (fun t => fst t - snd t)%nat (combine p (map (fun d => d mod 2)%nat p))))) * vprod (map (fun cb => fst cb * sv x (sfac (snd cb))) sel) * sv x (stan t)); [ring|].
  f_equal. unfold sel. clear sel Hf.
  assert (Hgen : forall p o mp, length mp = length p ->
    (forall i d, (i < length mp)%nat -> fst (nth i mp d) * sv x (sfac (snd (nth i mp d))) = x (o + i)%nat) ->
    vprod (map (fun t => fpow (x (fst t)) (snd t)) (combine (seq o (length (map (fun t => fst t - snd t)%nat (combine p (map (fun d => d mod 2)%nat p)))))
     (map (fun t => fst t - snd t)%nat (combine p (map (fun d => d mod 2)%nat p))))) *
    vprod (map (fun cb => fst cb * sv x (sfac (snd cb))) (map snd (filter (fun t => negb (Nat.eqb (fst t) 0)) (combine (map (fun d => d mod 2)%nat p) mp))))
    = vprod (map (fun t => fpow (x (fst t)) (snd t)) (combine (seq o (length p)) p))).
  2:{ apply Hgen; [exact Hl|]. intros i d Hi. apply Hm. exact Hi. }
  clear. induction p as [|d p IH]; intros o mp Hl Hm.
  - destruct mp; [|discriminate]. change ((1 : K) * 1 = 1). ring.
  - destruct mp as [|cb mp]; [discriminate|]. cbn [map combine length seq fst snd].
    rewrite !vprod_cons. cbn [fst snd].
    assert (Htl : forall i d0, (i < length mp)%nat -> fst (nth i mp d0) * sv x (sfac (snd (nth i mp d0))) = x (S o + i)%nat).
    { intros i d0 Hi. specialize (Hm (S i) d0 ltac:(cbn; lia)). cbn [nth] in Hm. rewrite Hm. f_equal. lia. }
    assert (Hh : fst cb * sv x (sfac (snd cb)) = x o).
    { specialize (Hm 0%nat cb ltac:(cbn; lia)). cbn [nth] in Hm. rewrite Hm. f_equal. lia. }
    assert (Hl' : length mp = length p) by (cbn in Hl; congruence).
    rewrite <- (IH (S o) mp Hl' Htl).
    assert (Hd : fpow (x o) d = fpow (x o) (d - d mod 2) * (if Nat.eqb (d mod 2) 0 then 1 else x o)).
    { pose proof (Nat.mod_upper_bound d 2 ltac:(lia)). pose proof (Nat.mod_le d 2 ltac:(lia)). destruct (d mod 2) as [|[|k]] eqn:E; [| |lia]; cbn [Nat.eqb].
      - rewrite Nat.sub_0_r. ring.
      - destruct d as [|d]; [discriminate|]. replace (S d - 1)%nat with d by lia. cbn [fpow]. ring. }
    rewrite Hd. cbn [filter fst]. destruct (Nat.eqb (d mod 2) 0); cbn [negb map snd]; [ring|]. rewrite vprod_cons, Hh. ring.
Qed.
Lemma to_even_ok mp p t : bases_ok t -> exists p' t', to_even mp p t = LTan true p' t' /\ bases_ok t' /\ length p' = length p.
Proof.
  intro H. unfold to_even. eexists; eexists. split; [reflexivity|]. split.
  - generalize (map snd (filter (fun t => negb (Nat.eqb (fst t) 0)) (combine (map (fun d => d mod 2)%nat p) mp))) as l. intro l. revert t H.
    induction l as [|cb l IH]; intros t H; [exact H|]. cbn [fold_left]. apply IH, tmul_ok, H.
  - rewrite map_length, combine_length, map_length. lia.
Qed.

(** *** The whole *)
Section Finish.
Variable n : nat.
Variable hom : bool.
Hypothesis HG : is_group n G.

Definition member_ok (f : (nat -> K) -> K) (d : nat) (b : member K) : Prop :=
  good K n hom (member K) mpoly d b /\
  match mb b with
  | LMult m => forall x, peval x (mpoly b) = - (f x * sv x m)
  | LTan _ p t => bases_ok t /\ length p = n /\ forall x, peval x (mpoly b) = sv x (as_expr (mb b))
  | LOther e => forall x, peval x (mpoly b) = sv x e
  end.
Definition is_mult (b : member K) : bool := match mb b with LMult _ => true | _ => false end.

Lemma odd_basis_expr mp b : mapping_ok mp -> length mp = n -> (match b with LTan _ p t => bases_ok t /\ length p = n | _ => True end) ->
  let b' := match b with LTan false p t => to_even mp p t | _ => b end in
  basis_ok b' /\ (forall m, b = LMult m <-> b' = LMult m) /\ forall x, sv x (as_expr b') = sv x (as_expr b).
Proof.
  intros Hm Hl Hb. destruct b as [m|[|] p t|e]; cbv zeta.
  - split; [exact I|split; [tauto|reflexivity]].
  - split; [apply bases_args, Hb|split; [tauto|reflexivity]].
  - destruct Hb as [Hb Hp]. split; [|split; [|intro x; apply to_even_value; [exact Hm|congruence]]].
    + destruct (to_even_ok mp p t Hb) as (p' & t' & E & Ho & _). rewrite E. apply bases_args, Ho.
    + intro m. split; [discriminate|]. unfold to_even. discriminate.
  - split; [exact I|split; [tauto|reflexivity]].
Qed.

Lemma finish_lemma f d lusolve content cx dup ineqs lin eqs y basis num e :
  honest K lusolve -> content_ok content -> eqs_ok eqs -> (forall j lc a x, In (j, lc, a) lin -> val a x = lc * x j) ->
  (forall b, In b basis -> member_ok f d b) -> length y = length basis -> parted (member K) is_mult basis num -> (0 < num)%nat ->
  invariant f -> finish G n hom lusolve content cx dup ineqs lin eqs y basis num = Ok (Some e) ->
  exists N D y' basis' r, e = SDiv N D /\ (forall x, sv x N = f x * sv x D) /\ 0 < r /\
    length y' = length basis' /\ (forall b, In b basis' -> In b basis) /\ multiplier_sum K (member K) is_mult y' basis' = 1 /\
    ((forall u, In u y -> 0 <= u) -> forall u, In u y' -> 0 < u) /\
    (forall x, sv x D * r = cyc (mult_value y' (map mb basis')) x) /\
    (forall x, sv x N * r = fsum (map (fun t => fst t * cyc (fun z => sv z (as_expr (snd t))) x) (others y' (map mb basis')))).
Proof.
  intros Hh Hc He Hlin Hb Hl Hp Hn Hf H. unfold finish in H.
  destruct (linear_correction G n hom (member K) mpoly lusolve y basis num) as [[[y' basis'] [|]]|err] eqn:EL; try discriminate.
  assert (Hg : forall b, In b basis -> good K n hom (member K) mpoly d b) by (intros b Hi; exact (proj1 (Hb b Hi))).
  destruct (linear_correction_lemma K G n hom HG (member K) mpoly d is_mult lusolve y basis num y' basis' Hh Hl Hp Hn Hg EL) as (Hl' & Hin & Hcomb & Hsum).
  pose proof (mapping_spec n lin Hlin) as Hm. set (mp := mapping n lin) in *.
  assert (Hmp : length mp = n) by apply mapping_length.
  assert (E : e = collect_constraints content 1000 cx true dup ineqs eqs y' (odd_basis_to_even mp (map mb basis'))) by congruence. clear H.
  assert (Hpre : forall b, In b (map mb basis') -> match b with LTan _ p t => bases_ok t /\ length p = n | _ => True end).
  { intros b Hi. apply in_map_iff in Hi. destruct Hi as (c & <- & Hi). destruct (Hb c (Hin c Hi)) as [_ Hk]. destruct (mb c); try exact I. tauto. }
  assert (Hbo : forall b, In b (odd_basis_to_even mp (map mb basis')) -> basis_ok b).
  { intros b Hi. unfold odd_basis_to_even in Hi. apply in_map_iff in Hi. destruct Hi as (c & <- & Hi). apply (odd_basis_expr mp c Hm Hmp (Hpre c Hi)). }
  destruct (assemble_parts content 1000 cx true dup ineqs eqs y' _ Hc He Hbo) as (N & D & r & EN & Hr & Hval).
  assert (Hsame : (forall x, mult_value y' (odd_basis_to_even mp (map mb basis')) x = mult_value y' (map mb basis') x) /\
     (forall x, fsum (map (fun t => fst t * cyc (fun z => sv z (as_expr (snd t))) x) (others y' (odd_basis_to_even mp (map mb basis'))))
              = fsum (map (fun t => fst t * cyc (fun z => sv z (as_expr (snd t))) x) (others y' (map mb basis'))))).
  { clear - Hpre Hm Hmp. unfold mult_value, others, odd_basis_to_even. revert y'. induction (map mb basis') as [|b l IH]; intro y'.
    - split; intro; reflexivity.
    - destruct y' as [|u y']; [split; intro; reflexivity|].
      assert (Hpre' : forall b, In b l -> match b with LTan _ p t => bases_ok t /\ length p = n | _ => True end) by (intros; apply Hpre; right; assumption).
      destruct (IH Hpre' y') as [I1 I2]. destruct (odd_basis_expr mp b Hm Hmp (Hpre b (or_introl eq_refl))) as (_ & Hmu & Hex). cbv zeta in *.
      set (b' := match b with LTan false p t => to_even mp p t | _ => b end) in *.
      cbn [map combine]. split; intro x.
      + cbn [map fst snd]. unfold fsum in *. cbn [fold_right]. rewrite (I1 x). f_equal. unfold b'. destruct b as [m|[|] p t|e0]; reflexivity.
      + assert (Hcy : cyc (fun z => sv z (as_expr b')) x = cyc (fun z => sv z (as_expr b)) x) by (apply cyc_ext; exact Hex).
        destruct b as [m|[|] p t|e0]; unfold b' in Hcy; cbn [filter snd]; [exact (I2 x)| | |];
          try (change (match to_even mp p t with LMult _ => false | _ => true end) with true; cbv iota);
          cbn [map fst snd]; unfold fsum in *; cbn [fold_right]; rewrite (I2 x); try rewrite Hcy; reflexivity. }
  destruct Hsame as [S1 S2].
  exists N, D, y', basis', r. split; [congruence|].
  assert (HD : forall x, sv x D * r = cyc (mult_value y' (map mb basis')) x).
  { intro x. rewrite (proj2 (Hval x)). apply cyc_ext. exact S1. }
  assert (HN : forall x, sv x N * r = fsum (map (fun t => fst t * cyc (fun z => sv z (as_expr (snd t))) x) (others y' (map mb basis')))).
  { intro x. rewrite (proj1 (Hval x)). apply S2. }
  split; [|split; [exact Hr|split; [exact Hl'|split; [exact Hin|split; [exact Hsum|split; [|split; [exact HD|exact HN]]]]]]].
  2:{ intros Hy. exact (linear_correction_nonneg K G n hom (member K) mpoly lusolve y basis num y' basis' Hy EL). }
  intro x. assert (Hr0 : r <> 0) by (apply flt_neq0; exact Hr).
  assert (Hid : fsum (map (fun t => fst t * cyc (fun z => sv z (as_expr (snd t))) x) (others y' (map mb basis'))) = f x * cyc (mult_value y' (map mb basis')) x).
  { rewrite <- (cyc_pull f _ x Hf).
    specialize (Hcomb x). unfold combination in Hcomb.
    assert (Hsub : fsum (map (fun t => fst t * cyc (fun z => sv z (as_expr (snd t))) x) (others y' (map mb basis'))) - cyc (fun z => f z * mult_value y' (map mb basis') z) x = 0).
    2:{ apply fsub_eq0. exact Hsub. }
    assert (E0 : cyc (fun z => f z * 0) x = 0).
    { rewrite (cyc_ext (fun z => f z * 0) (fun _ => 0)) by (intro; ring). apply cyc_zero. }
    rewrite <- Hcomb. clear - Hb Hin E0. unfold others, mult_value. revert y'. induction basis' as [|b l IH]; intro y'.
    - destruct y'; change (0 - cyc (fun z => f z * 0) x = 0); rewrite E0; ring.
    - destruct y' as [|u y']; [change (0 - cyc (fun z => f z * 0) x = 0); rewrite E0; ring|].
      assert (Hin' : forall b, In b l -> In b basis) by (intros; apply Hin; right; assumption).
      specialize (IH Hin' y'). destruct (Hb b (Hin b (or_introl eq_refl))) as [_ Hk].
      assert (Ec : cyc (fun z => f z * fsum (map (fun t => match snd t with LMult m => fst t * sv z m | _ => 0 end) (combine (u :: y') (map mb (b :: l))))) x
        = cyc (fun z => f z * (match mb b with LMult m => u * sv z m | _ => 0 end)) x
          + cyc (fun z => f z * fsum (map (fun t => match snd t with LMult m => fst t * sv z m | _ => 0 end) (combine y' (map mb l)))) x).
      { rewrite <- cyc_add. apply cyc_ext. intro z. cbn [map combine fst snd]. unfold fsum. cbn [fold_right]. ring. }
      rewrite Ec. cbn [map combine filter fst snd]. unfold fsum in *. cbn [fold_right]. rewrite <- IH. clear IH Ec.
      destruct (mb b) as [m|ev p t|e0] eqn:Em; cbn [map fold_right fst snd].
      + rewrite (cyc_ext (fun z => peval z (mpoly b)) (fun z => - (1) * (f z * sv z m))) by (intro z; rewrite Hk; ring). rewrite cyc_scale.
        rewrite (cyc_ext (fun z => f z * (u * sv z m)) (fun z => u * (f z * sv z m))) by (intro; ring). rewrite cyc_scale. ring.
      + rewrite E0.
        rewrite (cyc_ext (fun z => peval z (mpoly b)) (fun z => sv z (as_expr (LTan ev p t)))) by (intro z; apply Hk). ring.
      + rewrite E0.
        rewrite (cyc_ext (fun z => peval z (mpoly b)) (fun z => sv z e0)) by (intro z; apply Hk). cbn [as_expr]. ring. }
  assert (Eq : sv x N * r = (f x * sv x D) * r) by (rewrite HN, Hid, <- HD; ring).
  transitivity (sv x N * r / r); [field; exact Hr0|]. rewrite Eq. field. exact Hr0.
Qed.
End Finish.
End Facts.
