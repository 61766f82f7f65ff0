(** * [prove_by_pivoting] (triples/core/symsos/basic.py:85-151) *)
From Coq Require Import Bool List Arith Lia Ring Field.
From Verif Require Import OrdField Base Poly PolyOps Expr Univariate Halfspace Bivariate.
Import ListNotations.

Section Model.
Context {K : OrdField}.
Local Open Scope of_scope.

(** ** Polynomials in a list of generators
    A polynomial in the generators [gens] (symbols are numbers) has exponent vectors of the length of
    [gens]; its value at an assignment [r] of the symbols is [peval (at_gens gens r) p]. *)
Definition at_gens (gens : list nat) (r : nat -> K) (i : nat) : K := r (nth i gens 0%nat).
Definition remove_at {A} (i : nat) (l : list A) : list A := firstn i l ++ skipn (S i) l.
(** [poly.degree(gen)] (basic.py:97, 121) for a non-zero polynomial *)
Definition degree_in (i : nat) (p : poly K) : nat := fold_right (fun t m => Nat.max (nth i (fst t) 0%nat) m) 0%nat p.
(** the terms of [poly.as_poly(gen)] (basic.py:127, 131): the exponents of the generator in descending
    order and the coefficient of each as a polynomial in the other generators (basic.py:132,
    [coeff.as_poly(rest_gens)]) *)
Definition exps (i : nat) (p : poly K) : list nat :=
  filter (fun k => existsb (fun t => Nat.eqb (nth i (fst t) 0%nat) k) p) (rev (seq 0 (S (degree_in i p)))).
Definition coeff_in (i k : nat) (p : poly K) : poly K :=
  map (fun t => (remove_at i (fst t), snd t)) (filter (fun t => Nat.eqb (nth i (fst t) 0%nat) k) p).
(** [poly.as_poly( *rest_gens)] when the generator does not occur (basic.py:126) *)
Definition drop_gen (i : nat) (p : poly K) : poly K := map (fun t => (remove_at i (fst t), snd t)) p.
(** [poly.total_degree() <= 0] (basic.py:91) *)
Definition is_const (p : poly K) : bool := forallb (fun t => Nat.eqb (list_sum (fst t)) 0) p.
(** [poly.is_homogeneous] *)
Definition is_homog (p : poly K) : bool :=
  match p with [] => true | t :: _ => forallb (fun u => Nat.eqb (list_sum (fst u)) (list_sum (fst t))) p end.
(** [Poly.homogenize] with a new generator at the end (basic.py:105) *)
Definition homogenize1 (p : poly K) : poly K :=
  let d := degree_in 0 p in map (fun t => ([nth 0 (fst t) 0%nat; (d - nth 0 (fst t) 0)%nat], snd t)) p.

(** [sorted(priority, key=lambda _: _[:2])] (basic.py:121-122): indices of the generators, a stable sort
    by the pair (degree, is_nonnegative) *)
Definition before (nn : nat -> bool) (gens : list nat) (p : poly K) (i j : nat) : bool :=
  let di := degree_in i p in let dj := degree_in j p in
  (Nat.ltb di dj || (Nat.eqb di dj && (negb (nn (nth i gens 0%nat)) || nn (nth j gens 0%nat))))%bool.
Fixpoint insert (le : nat -> nat -> bool) (i : nat) (l : list nat) : list nat :=
  match l with [] => [i] | j :: l' => if le i j then i :: l else j :: insert le i l' end.
Definition priority (nn : nat -> bool) (gens : list nat) (p : poly K) : list nat :=
  fold_right (insert (before nn gens p)) [] (seq 0 (length gens)).

(** substitution of expressions for the variables ([xreplace]) *)
Fixpoint esubst (s : nat -> ex K) (e : ex K) : ex K :=
  match e with
  | EC k => EC k
  | EX i => s i
  | EAdd x y => EAdd (esubst s x) (esubst s y)
  | ESub x y => ESub (esubst s x) (esubst s y)
  | EMul x y => EMul (esubst s x) (esubst s y)
  | EDiv x y => EDiv (esubst s x) (esubst s y)
  | EPow x n => EPow (esubst s x) n
  end.

Section Solver.
(** the univariate prover, the factorisation of forms in two variables, the set of symbols known to be
    non-negative and the symbol [Symbol('_' + gen.name)] *)
Variable uni : bool -> list K -> res (option (wsos K * wsos K)).
Variable fl : poly K -> K * list (poly K * nat).
Variable nn : nat -> bool.
Variable hom_sym : nat -> nat.

(** the constraints handed to the bivariate solver (basic.py:107-110); its two variables are numbered 0
    and 1 *)
Definition biv_constraints (g0 g1 : nat) : list (poly K * ex K) :=
  (if nn g0 then [([([1;0]%nat, 1)], EX 0)] else []) ++ (if nn g1 then [([([0;1]%nat, 1)], EX 1)] else []).
Definition biv_call (p : poly K) (g0 g1 : nat) (s0 s1 : ex K) : res (option (ex K)) :=
  match structural_sos_2vars uni (fl p) (biv_constraints g0 g1) with
  | Err e => Err e
  | Ok None => Ok None
  | Ok (Some s) => Ok (Some (esubst (fun i => match i with O => s0 | _ => s1 end) s))
  end.

Section Loops.
Variable rec : list nat -> poly K -> res (option (ex K)).
(** the loop over the terms (basic.py:130-139) *)
Fixpoint try_terms (i g : nat) (rest : list nat) (p : poly K) (ks : list nat) : res (option (list (ex K))) :=
  match ks with
  | [] => Ok (Some [])
  | k :: ks' =>
      match rec rest (coeff_in i k p) with
      | Err e => Err e
      | Ok None => Ok None
      | Ok (Some s) =>
          match try_terms i g rest p ks' with
          | Ok (Some l) => Ok (Some (EMul s (EPow (EX g) k) :: l))
          | r => r
          end
      end
  end.
(** the loop over the generators (basic.py:123-150); the branches for degree 2, 3 and 4 are empty *)
Fixpoint try_gens (gens : list nat) (p : poly K) (is_ : list nat) : res (option (ex K)) :=
  match is_ with
  | [] => Ok None
  | i :: is' =>
      let g := nth i gens 0%nat in
      let rest := remove_at i gens in
      if Nat.eqb (degree_in i p) 0 then rec rest (drop_gen i p)
      else if (nn g || forallb Nat.even (exps i p))%bool then
        match try_terms i g rest p (exps i p) with
        | Err e => Err e
        | Ok (Some l) => Ok (Some (fold_right EAdd (EC 0) l))
        | Ok None => try_gens gens p is'
        end
      else try_gens gens p is'
  end.
End Loops.

(** the function itself; the recursion removes a generator each time, so [fuel] is the number of
    generators (see [prove_fuel]) *)
Fixpoint prove (fuel : nat) (gens : list nat) (p : poly K) : res (option (ex K)) :=
  let n := length gens in
  if is_const p then
    let c := coef p (repeat 0%nat n) in if 0 <=? c then Ok (Some (EC c)) else Ok None
  else if existsb (fun i => negb (nn (nth i gens 0%nat)) && Nat.odd (degree_in i p)) (seq 0 n) then Ok None
  else if Nat.eqb n 1 then
    let g := nth 0 gens 0%nat in biv_call (homogenize1 p) g (hom_sym g) (EX g) (EC 1)
  else if (Nat.eqb n 2 && is_homog p)%bool then
    let g0 := nth 0 gens 0%nat in let g1 := nth 1 gens 0%nat in biv_call p g0 g1 (EX g0) (EX g1)
  else match fuel with
       | O => Ok None
       | S f => try_gens (prove f) gens p (priority nn gens p)
       end.
Definition prove_by_pivoting (gens : list nat) (p : poly K) : res (option (ex K)) := prove (length gens) gens p.
End Solver.
End Model.

Section Facts.
Variable K : OrdField.
Local Open Scope of_scope.
Add Field Kf : (F_field K).

Lemma Some_inj {A} (x y : A) : Some x = Some y -> x = y.
Proof. congruence. Qed.
Lemma esubst_ev (r : nat -> K) s e : ev r (esubst s e) = ev (fun i => ev r (s i)) e.
Proof. induction e; cbn [esubst ev]; congruence. Qed.
Lemma esubst_defined (r : nat -> K) s e : defined r (esubst s e) -> defined (fun i => ev r (s i)) e.
Proof. induction e; cbn [esubst defined]; try tauto. rewrite esubst_ev. tauto. Qed.
Lemma esubst_defined_back (r : nat -> K) s e : (forall i, defined r (s i)) -> defined (fun i => ev r (s i)) e -> defined r (esubst s e).
Proof. intro Hs. induction e; cbn [esubst defined]; try tauto; [intros _; apply Hs|]. rewrite esubst_ev. tauto. Qed.

(** ** Removing a generator *)
Lemma remove_at_length {A} i (l : list A) : (i < length l)%nat -> length (remove_at i l) = (length l - 1)%nat.
Proof. intro H. unfold remove_at. rewrite app_length, firstn_length, skipn_length. lia. Qed.
Lemma at_gens_S g gens (r : nat -> K) i : at_gens (g :: gens) r (S i) = at_gens gens r i.
Proof. reflexivity. Qed.
Lemma meval_remove (r : nat -> K) : forall i gens m, length m = length gens -> (i < length gens)%nat ->
  meval (at_gens gens r) m = r (nth i gens 0%nat) ^ nth i m 0%nat * meval (at_gens (remove_at i gens) r) (remove_at i m).
Proof.
  induction i as [|i IH]; intros [|g gens] [|k m] L H; cbn in L, H; try lia.
  - rewrite meval_cons. unfold remove_at. cbn [firstn skipn app nth]. f_equal.
  - rewrite meval_cons. unfold remove_at in *. cbn [firstn app nth].
    change (skipn (S (S i)) (k :: m)) with (skipn (S i) m). change (skipn (S (S i)) (g :: gens)) with (skipn (S i) gens).
    rewrite meval_cons. change (at_gens (g :: gens) r 0%nat) with (r g).
    change (at_gens (g :: firstn i gens ++ skipn (S i) gens) r 0%nat) with (r g).
    change (fun i0 => at_gens (g :: gens) r (S i0)) with (at_gens gens r).
    change (fun i0 => at_gens (g :: firstn i gens ++ skipn (S i) gens) r (S i0)) with (at_gens (firstn i gens ++ skipn (S i) gens) r).
    rewrite (IH gens m) by lia. ring.
Qed.

Definition wfg (gens : list nat) (p : poly K) : Prop := forall m, In m (keys p) -> length m = length gens.
Lemma wfg_cons gens t (p : poly K) : wfg gens (t :: p) <-> length (fst t) = length gens /\ wfg gens p.
Proof.
  unfold wfg, keys. cbn [map]. split.
  - intro H. split; [apply H; left; reflexivity|]. intros m Hm. apply H. right. exact Hm.
  - intros [H1 H2] m [<-|Hm]; auto.
Qed.
Lemma coeff_in_wfg i k gens (p : poly K) : (i < length gens)%nat -> wfg gens p -> wfg (remove_at i gens) (coeff_in i k p).
Proof.
  intros Hi H m Hm. unfold keys, coeff_in in Hm. rewrite map_map in Hm. apply in_map_iff in Hm. destruct Hm as [t [<- Ht]].
  apply filter_In in Ht. cbn [fst]. rewrite !remove_at_length; try assumption; rewrite (H (fst t)); try reflexivity; try exact Hi;
  unfold keys; apply in_map; tauto.
Qed.
Lemma drop_gen_wfg i gens (p : poly K) : (i < length gens)%nat -> wfg gens p -> wfg (remove_at i gens) (drop_gen i p).
Proof.
  intros Hi H m Hm. unfold keys, drop_gen in Hm. rewrite map_map in Hm. apply in_map_iff in Hm. destruct Hm as [t [<- Ht]].
  cbn [fst]. rewrite !remove_at_length; try assumption; rewrite (H (fst t)); try reflexivity; try exact Hi;
  unfold keys; apply in_map; tauto.
Qed.
Lemma degree_in_ge i (p : poly K) t : In t p -> (nth i (fst t) 0 <= degree_in i p)%nat.
Proof. induction p as [|u p IH]; intros []; cbn [degree_in fold_right]; [subst; lia|]. specialize (IH H). unfold degree_in in IH. lia. Qed.
Lemma peval_consp (x : nat -> K) t (p : poly K) : peval x (t :: p) = snd t * meval x (fst t) + peval x p.
Proof. reflexivity. Qed.
Lemma drop_gen_value i gens (p : poly K) (r : nat -> K) : (i < length gens)%nat -> wfg gens p -> degree_in i p = 0%nat ->
  peval (at_gens (remove_at i gens) r) (drop_gen i p) = peval (at_gens gens r) p.
Proof.
  intros Hi. induction p as [|t p IH]; intros H Hd; [reflexivity|]. apply wfg_cons in H. destruct H as [L H].
  cbn [degree_in fold_right] in Hd. unfold drop_gen. cbn [map]. rewrite !peval_consp. cbn [fst snd].
  change (map (fun u => (remove_at i (fst u), snd u)) p) with (drop_gen i p).
  rewrite IH by (try exact H; unfold degree_in; lia). rewrite (meval_remove r i gens (fst t) L Hi).
  replace (nth i (fst t) 0%nat) with 0%nat by lia. cbn [fpow]. ring.
Qed.

(** the polynomial from its coefficients in one generator *)
Lemma coeff_in_nil i k : coeff_in i k ([] : poly K) = [].
Proof. reflexivity. Qed.
Lemma coeff_in_cons i k t (p : poly K) : coeff_in i k (t :: p) =
  if Nat.eqb (nth i (fst t) 0%nat) k then (remove_at i (fst t), snd t) :: coeff_in i k p else coeff_in i k p.
Proof. unfold coeff_in. cbn [filter]. destruct (Nat.eqb (nth i (fst t) 0%nat) k); reflexivity. Qed.
Lemma fsum_pick (f : nat -> K) k ks : NoDup ks -> fsum (map (fun j => if Nat.eqb k j then f j else 0) ks) = if existsb (Nat.eqb k) ks then f k else 0.
Proof.
  induction 1 as [|j ks Hj Hn IH]; [reflexivity|]. cbn [map fsum existsb]. rewrite IH.
  destruct (Nat.eqb k j) eqn:E.
  - apply Nat.eqb_eq in E. subst j. cbn [orb]. replace (existsb (Nat.eqb k) ks) with false; [ring|].
    symmetry. apply not_true_is_false. intro F. apply existsb_exists in F. destruct F as [x [Hx E]]. apply Nat.eqb_eq in E. subst. contradiction.
  - cbn [orb]. ring.
Qed.
Lemma by_coeffs i gens (p : poly K) (r : nat -> K) ks : (i < length gens)%nat -> wfg gens p -> NoDup ks ->
  (forall t, In t p -> In (nth i (fst t) 0%nat) ks) ->
  peval (at_gens gens r) p = fsum (map (fun k => peval (at_gens (remove_at i gens) r) (coeff_in i k p) * r (nth i gens 0%nat) ^ k) ks).
Proof.
  intros Hi. induction p as [|t p IH]; intros H Hn Hin.
  - unfold peval. cbn. symmetry. apply fsum_map_0. intros k _. cbn. ring.
  - apply wfg_cons in H. destruct H as [L H]. rewrite peval_consp, (IH H Hn) by (intros u Hu; apply Hin; right; exact Hu).
    rewrite (meval_remove r i gens (fst t) L Hi).
    transitivity (fsum (map (fun k => (if Nat.eqb (nth i (fst t) 0%nat) k then snd t * meval (at_gens (remove_at i gens) r) (remove_at i (fst t)) * r (nth i gens 0%nat) ^ k else 0)
      + peval (at_gens (remove_at i gens) r) (coeff_in i k p) * r (nth i gens 0%nat) ^ k) ks)).
    + rewrite fsum_map_add. f_equal. rewrite (fsum_pick (fun k => snd t * meval (at_gens (remove_at i gens) r) (remove_at i (fst t)) * r (nth i gens 0%nat) ^ k)) by exact Hn.
      assert (E : existsb (Nat.eqb (nth i (fst t) 0%nat)) ks = true).
      { apply existsb_exists. exists (nth i (fst t) 0%nat). split; [apply Hin; left; reflexivity|apply Nat.eqb_refl]. }
      rewrite E. ring.
    + apply fsum_map_ext. intros k _. rewrite coeff_in_cons. destruct (Nat.eqb (nth i (fst t) 0%nat) k); [rewrite peval_consp; cbn [fst snd]; ring|ring].
Qed.
Lemma exps_nodup i (p : poly K) : NoDup (exps i p).
Proof. apply NoDup_filter, NoDup_rev, seq_NoDup. Qed.
Lemma exps_in i (p : poly K) t : In t p -> In (nth i (fst t) 0%nat) (exps i p).
Proof.
  intro H. unfold exps. apply filter_In. split.
  - rewrite <- in_rev. apply in_seq. pose proof (degree_in_ge i p t H). lia.
  - apply existsb_exists. exists t. split; [exact H|apply Nat.eqb_refl].
Qed.

(** ** The constant case and the homogenisation *)
Lemma meval_const (x : nat -> K) m : list_sum m = 0%nat -> meval x m = 1 /\ m = repeat 0%nat (length m).
Proof.
  revert x. induction m as [|k m IH]; intros x H; [split; [reflexivity|reflexivity]|]. change (k + list_sum m = 0)%nat in H. assert (k = 0%nat) by lia. subst.
  destruct (IH (fun i => x (S i))) as [E1 E2]; [lia|]. rewrite meval_cons, E1. split; [cbn [fpow]; ring|]. cbn. f_equal. exact E2.
Qed.
Lemma const_value gens (p : poly K) (x : nat -> K) : NoDup (keys p) -> wfg gens p -> is_const p = true -> peval x p = coef p (repeat 0%nat (length gens)).
Proof.
  intros Hn Hw Hc. destruct p as [|t p]; [reflexivity|].
  assert (A : forall u, In u (t :: p) -> fst u = repeat 0%nat (length gens) /\ meval x (fst u) = 1).
  { intros u Hu. unfold is_const in Hc. rewrite forallb_forall in Hc. specialize (Hc u Hu). apply Nat.eqb_eq in Hc.
    destruct (meval_const x (fst u) Hc) as [E1 E2]. split; [|exact E1]. rewrite E2. f_equal. apply Hw. unfold keys. apply in_map, Hu. }
  assert (p = []).
  { destruct p as [|u p]; [reflexivity|exfalso]. inversion Hn; subst. apply H1. left.
    rewrite (proj1 (A u (or_intror (or_introl eq_refl)))). symmetry. apply A. left. reflexivity. }
  subst p. rewrite peval_consp. destruct (A t (or_introl eq_refl)) as [E1 E2]. rewrite E2. unfold coef, dget.
  destruct t as [m c]. cbn [fst snd] in *. subst m. rewrite (proj2 (meqb_eq _ _)) by reflexivity. unfold peval. cbn. ring.
Qed.

Lemma homogenize1_value (p : poly K) (x : nat -> K) g (r : nat -> K) : wfg [g] p -> x 0%nat = r g -> x 1%nat = 1 ->
  peval x (homogenize1 p) = peval (at_gens [g] r) p.
Proof.
  intros Hw E0 E1. unfold homogenize1. cbv zeta. generalize (degree_in 0 p). intro d. unfold peval. rewrite map_map. f_equal.
  apply map_ext_in. intros t Ht. cbn [fst snd]. assert (L : length (fst t) = 1%nat) by (apply Hw; unfold keys; apply in_map, Ht).
  destruct (fst t) as [|k [|]]; try discriminate. rewrite !meval_cons, !meval_nil. cbn [nth].
  rewrite E0, E1, fpow_1. change (at_gens [g] r 0%nat) with (r g). ring.
Qed.
Lemma homogenize1_homog (p : poly K) g : wfg [g] p -> homog2 K (degree_in 0 p) (homogenize1 p).
Proof.
  intros Hw m Hm. unfold keys, homogenize1 in Hm. cbv zeta in Hm. rewrite map_map in Hm. apply in_map_iff in Hm. destruct Hm as [t [<- Ht]].
  cbn [fst]. pose proof (degree_in_ge 0 p t Ht) as G.
  change (nth 0 (fst t) 0 + ((degree_in 0 p - nth 0 (fst t) 0) + 0) = degree_in 0 p)%nat. lia.
Qed.
Lemma homogenize1_wf (p : poly K) g : NoDup (keys p) -> wfg [g] p -> wf 2 (homogenize1 p).
Proof.
  intros Hn Hw. split.
  - unfold homogenize1. cbv zeta. generalize (degree_in 0 p). intro d. unfold keys in *. rewrite map_map. cbn [fst].
    clear - Hn Hw. induction p as [|t p IH]; [constructor|]. cbn [map] in *. inversion Hn; subst.
    apply wfg_cons in Hw. destruct Hw as [L Hw]. constructor; [|apply IH; assumption].
    intro F. apply in_map_iff in F. destruct F as [u [E Hu]]. apply H1. apply in_map_iff. exists u. split; [|exact Hu].
    assert (Lu : length (fst u) = 1%nat) by (apply Hw; apply in_map, Hu).
    destruct (fst t) as [|a [|]]; try discriminate. destruct (fst u) as [|b [|]]; try discriminate. cbn [nth] in E. inversion E. reflexivity.
  - intros m Hm. unfold keys, homogenize1 in Hm. cbv zeta in Hm. rewrite map_map in Hm. apply in_map_iff in Hm. destruct Hm as [t [<- Ht]]. reflexivity.
Qed.
Lemma is_homog_spec (p : poly K) : is_homog p = true -> exists d, homog2 K d p.
Proof.
  destruct p as [|t p]; intro H; [exists 0%nat; intros m []|]. exists (list_sum (fst t)). intros m Hm. unfold is_homog in H. rewrite forallb_forall in H.
  unfold keys in Hm. apply in_map_iff in Hm. destruct Hm as [u [<- Hu]]. apply Nat.eqb_eq, H, Hu.
Qed.

(** distinct monomials stay distinct *)
Lemma remove_at_inj i (m m' : list nat) : length m = length m' -> (i < length m)%nat -> nth i m 0%nat = nth i m' 0%nat -> remove_at i m = remove_at i m' -> m = m'.
Proof.
  revert m m'. induction i as [|i IH]; intros [|a m] [|b m'] L H E1 E2; cbn in L, H; try lia.
  - cbn in *. congruence.
  - unfold remove_at in *. cbn [firstn nth app] in *. change (skipn (S (S i)) (a :: m)) with (skipn (S i) m) in E2.
    change (skipn (S (S i)) (b :: m')) with (skipn (S i) m') in E2. inversion E2; subst. f_equal. apply IH; try assumption; lia.
Qed.
Lemma coeff_in_nodup i k gens (p : poly K) : (i < length gens)%nat -> wfg gens p -> NoDup (keys p) -> NoDup (keys (coeff_in i k p)).
Proof.
  intros Hi. induction p as [|t p IH]; intros H Hn; [constructor|]. apply wfg_cons in H. destruct H as [L H]. cbn [keys map] in Hn. inversion Hn; subst.
  rewrite coeff_in_cons. destruct (Nat.eqb (nth i (fst t) 0%nat) k) eqn:E; [|apply IH; assumption].
  unfold keys at 1. cbn [map fst]. constructor; [|apply IH; assumption].
  intro F. apply in_map_iff in F. destruct F as [u [E1 Hu]]. unfold coeff_in in Hu. apply in_map_iff in Hu. destruct Hu as [v [<- Hv]].
  apply filter_In in Hv. destruct Hv as [Hv Ek]. cbn [fst] in E1. apply H2. apply in_map_iff. exists v. split; [|exact Hv].
  apply Nat.eqb_eq in E, Ek. apply (remove_at_inj i); [rewrite L; apply H; unfold keys; apply in_map, Hv| |congruence|exact E1].
  rewrite (H (fst v)); [exact Hi|unfold keys; apply in_map, Hv].
Qed.
Lemma drop_gen_coeff i (p : poly K) : degree_in i p = 0%nat -> drop_gen i p = coeff_in i 0 p.
Proof.
  induction p as [|t p IH]; intro H; [reflexivity|]. cbn [degree_in fold_right] in H. rewrite coeff_in_cons.
  replace (nth i (fst t) 0%nat) with 0%nat by lia. cbn [Nat.eqb]. rewrite <- IH by (unfold degree_in; lia). reflexivity.
Qed.
Lemma insert_in le i l j : In j (insert le i l) <-> j = i \/ In j l.
Proof. induction l as [|x l IH]; cbn; [intuition|]. destruct (le i x); cbn; rewrite ?IH; intuition. Qed.
Lemma priority_in nn gens (p : poly K) i : In i (priority nn gens p) -> (i < length gens)%nat.
Proof.
  unfold priority. intro H. assert (In i (seq 0 (length gens))); [|apply in_seq in H0; lia]. revert H. generalize (seq 0 (length gens)). intro l.
  induction l as [|x l IH]; cbn; [tauto|]. rewrite insert_in. intuition.
Qed.

(** ** Soundness *)
Section Sound.
Variable uni : bool -> list K -> res (option (wsos K * wsos K)).
Variable fl : poly K -> K * list (poly K * nat).
Variable nn : nat -> bool.
Variable hom_sym : nat -> nat.
Hypothesis Huni : uni_exact K uni.
(** the factor list of a form in two variables: the product is the form, the factors are forms of
    positive degree *)
Definition factors_forms : Prop := forall (p : poly K) d, wf 2 p -> homog2 K d p ->
  (forall x, peval x p = fst (fl p) * OrdField.fprod (map (fun fm => peval x (fst fm) ^ snd fm) (snd (fl p)))) /\
  (forall (f : poly K) m, In (f, m) (snd (fl p)) -> wf 2 f /\ homog2 K (hom_order f) f /\ (0 < hom_order f)%nat).
Hypothesis Hfl : factors_forms.

Definition answers (gens : list nat) (p : poly K) (e : ex K) : Prop := forall r,
  (defined r e -> ev r e = peval (at_gens gens r) p /\ ((forall g, In g gens -> nn g = true -> 0 <= r g) -> 0 <= ev r e)) /\
  ((forall g, In g gens -> r g <> 0) -> defined r e).

Lemma biv_constraints_wf g0 g1 : constraints_wf K (biv_constraints nn g0 g1).
Proof.
  intros g e H. unfold biv_constraints in H. apply in_app_or in H.
  destruct H as [H|H]; [destruct (nn g0)|destruct (nn g1)]; try (destruct H; fail); (destruct H as [H|H]; [|destruct H]); inversion H; subst;
  (split; [split; [repeat constructor; intros []|intros m [<-|[]]; reflexivity]|reflexivity]).
Qed.
Lemma biv_constraints_hold g0 g1 (x : nat -> K) : constraints_hold K x (biv_constraints nn g0 g1).
Proof.
  intros g e H. unfold biv_constraints in H. apply in_app_or in H.
  destruct H as [H|H]; [destruct (nn g0)|destruct (nn g1)]; try (destruct H; fail); (destruct H as [H|H]; [|destruct H]); inversion H; subst;
  (split; [exact I|]); rewrite peval_consp; cbn [fst snd]; rewrite !meval_cons, meval_nil; cbn [ev fpow]; unfold peval; cbn; ring.
Qed.
Lemma biv_constraints_nn g0 g1 (x : nat -> K) : (nn g0 = true -> 0 <= x 0%nat) -> (nn g1 = true -> 0 <= x 1%nat) ->
  constraints_nn K x (biv_constraints nn g0 g1).
Proof.
  intros H0 H1 g e H. destruct (biv_constraints_hold g0 g1 x g e H) as [_ <-]. unfold biv_constraints in H. apply in_app_or in H.
  destruct H as [H|H]; [destruct (nn g0)|destruct (nn g1)]; try (destruct H; fail); (destruct H as [H|H]; [|destruct H]); inversion H; subst; cbn [ev]; auto.
Qed.

Lemma biv_call_lemma (p : poly K) d g0 g1 s0 s1 e : wf 2 p -> homog2 K d p -> biv_call uni fl nn p g0 g1 s0 s1 = Ok (Some e) ->
  forall r, defined r s0 -> defined r s1 ->
  (defined r e -> ev r e = peval (fun i => ev r (match i with O => s0 | _ => s1 end)) p /\
     ((nn g0 = true -> 0 <= ev r s0) -> (nn g1 = true -> 0 <= ev r s1) -> 0 <= ev r e)) /\
  (ev r s1 <> 0 -> defined r e).
Proof.
  intros Wp Hp He r D0 D1. unfold biv_call in He.
  destruct (structural_sos_2vars uni (fl p) (biv_constraints nn g0 g1)) as [[s|]|] eqn:E; try discriminate.
  apply Ok_inj, Some_inj in He. subst e. destruct (Hfl p d Wp Hp) as [F1 F2]. split.
  - intro Hd. apply esubst_defined in Hd. rewrite esubst_ev.
    destruct (structural_2vars_lemma K uni Huni (fl p) p _ s F1 (fun f m H => let (a, b) := F2 f m H in conj a (proj1 b)) (biv_constraints_wf g0 g1) E
      (fun i => ev r (match i with O => s0 | _ => s1 end)) (biv_constraints_hold g0 g1 _) Hd) as [V1 V2].
    split; [exact V1|]. intros N0 N1. apply V2. apply biv_constraints_nn; assumption.
  - intro Hz. apply esubst_defined_back; [intros [|i]; assumption|].
    apply (structural_2vars_defined K uni Huni (fl p) _ s F2 (biv_constraints_wf g0 g1) E); [apply biv_constraints_hold|exact Hz].
Qed.

Lemma try_terms_lemma rec i gens (p : poly K) :
  (i < length gens)%nat -> wfg gens p -> NoDup (keys p) ->
  (forall gens' q e, wfg gens' q -> NoDup (keys q) -> rec gens' q = Ok (Some e) -> answers gens' q e) ->
  forall ks l, try_terms rec i (nth i gens 0%nat) (remove_at i gens) p ks = Ok (Some l) ->
  forall r, let e := fold_right EAdd (EC 0) l in
  (defined r e -> ev r e = fsum (map (fun k => peval (at_gens (remove_at i gens) r) (coeff_in i k p) * r (nth i gens 0%nat) ^ k) ks) /\
     ((forall g, In g gens -> nn g = true -> 0 <= r g) -> (nn (nth i gens 0%nat) || forallb Nat.even ks)%bool = true -> 0 <= ev r e)) /\
  ((forall g, In g gens -> r g <> 0) -> defined r e).
Proof.
  intros Hi Hw Hn Hrec.
  assert (Hsub : forall g, In g (remove_at i gens) -> In g gens).
  { intros g Hg. unfold remove_at in Hg. apply in_app_or in Hg. rewrite <- (firstn_skipn i gens). apply in_or_app.
    destruct Hg as [Hg|Hg]; [left; exact Hg|right]. destruct (skipn i gens) as [|y q] eqn:E.
    - exfalso. assert (length (skipn i gens) = 0%nat) by (rewrite E; reflexivity). rewrite skipn_length in H. lia.
    - change (S i) with (1 + i)%nat in Hg. assert (S1 : skipn (1 + i) gens = q); [|rewrite S1 in Hg; right; exact Hg].
      clear - E. revert gens E. induction i as [|i IH]; intros gens E; cbn in E; [subst; reflexivity|]. destruct gens; [discriminate|]. apply IH, E. }
  induction ks as [|k ks IH]; intros l H r; cbn [try_terms] in H.
  - apply Ok_inj, Some_inj in H. subst l. cbn. split; [|intros _; exact I]. intros _. split; [reflexivity|intros _ _; apply fle_refl].
  - destruct (rec (remove_at i gens) (coeff_in i k p)) as [[s|]|] eqn:E; try discriminate.
    destruct (try_terms rec i (nth i gens 0%nat) (remove_at i gens) p ks) as [[l'|]|] eqn:E2; try discriminate.
    apply Ok_inj, Some_inj in H. subst l. cbv zeta. cbn [fold_right defined ev map fsum].
    destruct (Hrec _ _ _ (coeff_in_wfg i k gens p Hi Hw) (coeff_in_nodup i k gens p Hi Hw Hn) E r) as [A1 A2].
    destruct (IH l' eq_refl r) as [B1 B2]. cbv zeta in B1, B2. split.
    + intros [[Ds _] Dl]. destruct (A1 Ds) as [A3 A4]. destruct (B1 Dl) as [B3 B4]. split; [rewrite A3, B3; reflexivity|].
      intros N E3. assert (E4 : (nn (nth i gens 0%nat) || forallb Nat.even ks)%bool = true).
      { cbn [forallb] in E3. destruct (nn (nth i gens 0%nat)); [reflexivity|]. cbn [orb] in *. apply andb_prop in E3. apply E3. }
      apply fadd_nonneg; [|apply B4; assumption]. apply fmul_nonneg; [apply A4; intros g Hg; apply N, Hsub, Hg|].
      destruct (nn (nth i gens 0%nat)) eqn:En; [apply fpow_nonneg, N; [apply nth_In; exact Hi|exact En]|].
      apply fpow_even_nonneg. cbn [orb forallb] in E3. apply andb_prop in E3. apply E3.
    + intro N. split; [split; [apply A2; intros g Hg; apply N, Hsub, Hg|exact I]|apply B2, N].
Qed.

Lemma try_gens_lemma rec gens (p : poly K) : wfg gens p -> NoDup (keys p) ->
  (forall gens' q e, wfg gens' q -> NoDup (keys q) -> rec gens' q = Ok (Some e) -> answers gens' q e) ->
  forall is_ e, (forall i, In i is_ -> (i < length gens)%nat) -> try_gens nn rec gens p is_ = Ok (Some e) -> answers gens p e.
Proof.
  intros Hw Hn Hrec. induction is_ as [|i is' IH]; intros e Hi He; cbn [try_gens] in He; [discriminate|]. cbv zeta in He.
  assert (Li : (i < length gens)%nat) by (apply Hi; left; reflexivity).
  assert (Hi' : forall j, In j is' -> (j < length gens)%nat) by (intros j Hj; apply Hi; right; exact Hj).
  assert (Hsub : forall g, In g (remove_at i gens) -> In g gens).
  { intros g Hg. unfold remove_at in Hg. apply in_app_or in Hg. rewrite <- (firstn_skipn (S i) gens). apply in_or_app.
    destruct Hg as [Hg|Hg]; [left|right; exact Hg]. clear - Hg. revert gens Hg. induction i as [|i IH]; intros gens Hg; [destruct Hg|].
    destruct gens as [|a gens]; [destruct Hg|]. cbn [firstn] in *. destruct Hg as [<-|Hg]; [left; reflexivity|right; apply IH, Hg]. }
  destruct (Nat.eqb (degree_in i p) 0) eqn:Ed.
  - apply Nat.eqb_eq in Ed. intro r.
    assert (N0 : NoDup (keys (drop_gen i p))) by (rewrite (drop_gen_coeff i p Ed); apply (coeff_in_nodup i 0 gens); assumption).
    destruct (Hrec _ _ _ (drop_gen_wfg i gens p Li Hw) N0 He r) as [A1 A2]. rewrite (drop_gen_value i gens p r Li Hw Ed) in A1.
    split; [|intro N; apply A2; intros g Hg; apply N, Hsub, Hg].
    intro D. destruct (A1 D) as [A3 A4]. split; [exact A3|]. intro N. apply A4. intros g Hg. apply N, Hsub, Hg.
  - destruct (nn (nth i gens 0%nat) || forallb Nat.even (exps i p))%bool eqn:Ee; [|apply IH; assumption].
    destruct (try_terms rec i (nth i gens 0%nat) (remove_at i gens) p (exps i p)) as [[l|]|] eqn:Et; try discriminate; [|apply IH; assumption].
    apply Ok_inj, Some_inj in He. subst e. intro r.
    destruct (try_terms_lemma rec i gens p Li Hw Hn Hrec _ _ Et r) as [T1 T2]. cbv zeta in T1, T2.
    rewrite (by_coeffs i gens p r (exps i p) Li Hw (exps_nodup i p) (exps_in i p)). split; [|exact T2].
    intro D. destruct (T1 D) as [T3 T4]. split; [exact T3|]. intro N. apply T4; [exact N|exact Ee].
Qed.

Lemma prove_lemma fuel : forall gens (p : poly K) e, wfg gens p -> NoDup (keys p) -> prove uni fl nn hom_sym fuel gens p = Ok (Some e) -> answers gens p e.
Proof.
  induction fuel as [|fuel IH]; intros gens p e Hw Hn He.
  all: cbn [prove] in He; cbv zeta in He; destruct (is_const p) eqn:Ec.
  1,3: destruct (0 <=? coef p (repeat 0%nat (length gens))) eqn:E0; [|discriminate]; apply Ok_inj, Some_inj in He; subst e;
    intro r; split; [|intros _; exact I]; intros _; split; [symmetry; apply (const_value gens); assumption|intros _; exact E0].
  all: destruct (existsb _ (seq 0 (length gens))); [discriminate|].
  all: destruct (Nat.eqb (length gens) 1) eqn:E1.
  1,3: apply Nat.eqb_eq in E1; destruct gens as [|g [|]]; try discriminate; cbn [nth] in He; intro r;
    destruct (biv_call_lemma _ _ _ _ _ _ _ (homogenize1_wf p g Hn Hw) (homogenize1_homog p g Hw) He r I I) as [B1 B2]; cbn [ev] in B1, B2;
    (split; [|intros _; apply B2, fneq10]); intro D; destruct (B1 D) as [B3 B4];
    (split; [rewrite B3; apply homogenize1_value; [exact Hw|reflexivity|reflexivity]|]); intro N; apply B4; [apply N; left; reflexivity|intros _; apply f1_nonneg].
  all: destruct (Nat.eqb (length gens) 2 && is_homog p)%bool eqn:E2.
  1,3: apply andb_prop in E2; destruct E2 as [E2 E3]; apply Nat.eqb_eq in E2; destruct gens as [|g0 [|g1 [|]]]; try discriminate; cbn [nth] in He;
    destruct (is_homog_spec p E3) as [d Hd]; intro r;
    destruct (biv_call_lemma p d _ _ _ _ _ (conj Hn Hw) Hd He r I I) as [B1 B2]; cbn [ev] in B1, B2;
    (split; [|intros N; apply B2, N; right; left; reflexivity]); intro D; destruct (B1 D) as [B3 B4];
    (split; [rewrite B3|intro N; apply B4; [apply N; left; reflexivity|apply N; right; left; reflexivity]]).
  1,2: unfold peval; f_equal; apply map_ext_in; intros t Ht; f_equal; assert (L : length (fst t) = 2%nat) by (apply Hw; unfold keys; apply in_map, Ht);
    destruct (fst t) as [|i [|j [|]]]; try discriminate; rewrite !meval_cons, !meval_nil; reflexivity.
  - discriminate.
  - apply (try_gens_lemma (prove uni fl nn hom_sym fuel) gens p Hw Hn) with (is_ := priority nn gens p); [intros; eapply IH; eassumption|apply priority_in|exact He].
Qed.

(** the number of generators is enough fuel *)
Lemma try_terms_ext rec rec' i g rest (p : poly K) ks : (forall q, rec rest q = rec' rest q) -> try_terms rec i g rest p ks = try_terms rec' i g rest p ks.
Proof. intro H. induction ks as [|k ks IH]; [reflexivity|]. cbn [try_terms]. rewrite H, IH. reflexivity. Qed.
Lemma try_gens_ext rec rec' gens (p : poly K) is_ : (forall i q, In i is_ -> rec (remove_at i gens) q = rec' (remove_at i gens) q) ->
  try_gens nn rec gens p is_ = try_gens nn rec' gens p is_.
Proof.
  induction is_ as [|i is' IH]; intro H; [reflexivity|]. cbn [try_gens]. cbv zeta.
  rewrite (try_terms_ext rec rec') by (intro q; apply H; left; reflexivity).
  rewrite (H i) by (left; reflexivity). rewrite IH by (intros j q Hj; apply H; right; exact Hj). reflexivity.
Qed.
Lemma prove_fuel n : forall m gens (p : poly K), (length gens <= n)%nat -> (length gens <= m)%nat ->
  prove uni fl nn hom_sym n gens p = prove uni fl nn hom_sym m gens p.
Proof.
  induction n as [|n IH]; intros m gens p Hn Hm.
  - destruct gens; [|cbn in Hn; lia]. destruct m; [reflexivity|]. cbn [prove length seq existsb Nat.eqb andb].
    destruct (is_const p); [reflexivity|]. reflexivity.
  - destruct m as [|m].
    + destruct gens; [|cbn in Hm; lia]. cbn [prove length seq existsb Nat.eqb andb]. destruct (is_const p); reflexivity.
    + cbn [prove]. destruct (is_const p); [reflexivity|]. destruct (existsb _ _); [reflexivity|]. destruct (Nat.eqb _ 1); [reflexivity|].
      destruct (Nat.eqb _ 2 && _)%bool; [reflexivity|]. apply try_gens_ext. intros i q Hi. apply priority_in in Hi.
      apply IH; rewrite remove_at_length by exact Hi; lia.
Qed.
End Sound.

(** a trivial factorisation meets the specification *)
Definition fl_one (p : poly K) : K * list (poly K * nat) :=
  if is_const p then (coef p [0;0]%nat, []) else (1, [(p, 1%nat)]).
Lemma fl_one_forms : factors_forms fl_one.
Proof.
  intros p d [Hn Hw] Hd. unfold fl_one. destruct (is_const p) eqn:E.
  - cbn [fst snd map]. split; [|intros f m []]. intro x. rewrite (const_value [0;1]%nat p x Hn Hw E). cbn. ring.
  - cbn [fst snd map]. split; [intro x; cbn; ring|]. intros f m [F|[]]. inversion F; subst f m. split; [split; assumption|].
    destruct p as [|[k c] p]; [discriminate|].
    assert (Ek : list_sum k = d) by (apply Hd; left; reflexivity).
    assert (Eh : hom_order ((k, c) :: p) = d) by exact Ek.
    split; [rewrite Eh; exact Hd|]. rewrite Eh. destruct d; [exfalso|lia].
    assert (is_const ((k, c) :: p) = true); [|congruence]. unfold is_const. apply forallb_forall. intros t Ht. apply Nat.eqb_eq, Hd.
    unfold keys. apply in_map, Ht.
Qed.
End Facts.
