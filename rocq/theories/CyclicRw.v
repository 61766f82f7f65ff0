(** * Replacing and rewriting in cyclic expressions (triples/utils/expression/cyclic.py) *)
From Coq Require Import Bool List Arith ZArith Lia Ring Field Permutation.
From Verif Require Import OrdField Base Perm LinSep Cyclic.
Import ListNotations.

Section Model.
Context {K : OrdField}.
Local Open Scope of_scope.

(** [base_func] (cyclic.py:454, 576) *)
Definition cbase (o : cop) (l : list (cx K)) : cx K := match o with OpSum => CAdd l | OpProd => CMul l end.
(** [doit(deep=False)] (cyclic.py:213-220) and [_func_perm] (67-72) *)
Definition cdoit (o : cop) (e : cx K) (syms : list nat) (G : list (list nat)) : cx K := cbase o (map (fun p => raw_rep (tr syms p) e) G).

(** A rule is a dictionary from symbols; rules with other keys are not modelled. *)
Definition rule := list (nat * cx K).
Fixpoint lookup (ru : rule) (s : nat) : option (cx K) :=
  match ru with [] => None | (k, v) :: ru' => if (s =? k)%nat then Some v else lookup ru' s end.
Definition apply_rule (ru : rule) (s : nat) : cx K := match lookup ru s with Some v => v | None => CSym s end.

(** sympy's [xreplace] of an expression: all symbols at once.  Inner cyclic
    expressions are taken by the fallback [_fallback_xreplace]
    (cyclic.py:286-296): expand, then replace. *)
Fixpoint xrep (f : nat -> cx K) (e : cx K) : cx K :=
  match e with
  | CNum k => CNum k
  | CSym x => f x
  | CAdd l => CAdd (map (xrep f) l)
  | CMul l => CMul (map (xrep f) l)
  | CPow e n => CPow (xrep f e) n
  | CFun g l => CFun g (map (xrep f) l)
  | CCyc o e syms G => cbase o (map (fun p => xrep (fun s => f (tr syms p s)) e) G)
  end.

Definition inb (s : nat) (l : list nat) : bool := existsb (Nat.eqb s) l.
(** [changed_vars] (cyclic.py:325-331) *)
Definition changed (ru : rule) (syms : list nat) : list nat :=
  filter (fun s => inb s (map fst ru) || existsb (fun kv => inb s (cfs (snd kv))) ru) syms.
Definition is_sym (e : cx K) : bool := match e with CSym _ => true | _ => false end.
Definition new_sym (ru : rule) (s : nat) : nat := match lookup ru s with Some (CSym v) => v | _ => s end.
Fixpoint nodupb (l : list nat) : bool := match l with [] => true | x :: l' => negb (inb x l') && nodupb l' end.
(** Case A (cyclic.py:333-345) *)
Definition case_a (ru : rule) (syms : list nat) : bool :=
  forallb (fun s => match lookup ru s with Some v => is_sym v | None => false end) (changed ru syms) &&
  forallb (fun kv => inb (fst kv) (changed ru syms) || (negb (inb (fst kv) syms) && disjoint (cfs (snd kv)) syms)) ru &&
  nodupb (map (new_sym ru) syms).
(** [_is_perm_invariant_dict] on the generators (cyclic.py:85-96) with
    [_is_same_dict] (72-81); [same] is the comparison after [signsimp] *)
Definition invariant (same : cx K -> cx K -> bool) (ru : rule) (syms : list nat) (gens : list (list nat)) : bool :=
  forallb (fun p => forallb (fun kv => match lookup ru (tr syms p (fst kv)) with
                                       | Some w => same (raw_rep (tr syms p) (snd kv)) w
                                       | None => false end) ru) gens.
(** indices moved onto by the group, fixing subgroups (cyclic.py:357-371) *)
Definition ch_inds (ru : rule) (syms : list nat) : list nat :=
  filter (fun i => inb (nth i syms 0%nat) (changed ru syms)) (seq 0 (length syms)).
Definition orbit (n : nat) (G : list (list nat)) (l : list nat) : list nat :=
  filter (fun i => existsb (fun p => existsb (fun c => nth c p 0%nat =? i)%nat l) G) (seq 0 n).
Definition stabilizer (G : list (list nat)) (l : list nat) : list (list nat) :=
  filter (fun p => forallb (fun i => nth i p 0%nat =? i)%nat l) G.

(** [_xreplace] (cyclic.py:285-391).  [mk] is the constructor.  In the last
    branch the cyclic expressions are over all symbols with the stabiliser;
    the code removes the fixed symbols first ([_project_perm_group] 98-122),
    which changes no translation. *)
Section XReplace.
Variable same : cx K -> cx K -> bool.
Variable mk : cop -> cx K -> list nat -> list (list nat) -> cx K.
Definition xreplace (o : cop) (e : cx K) (syms : list nat) (G gens : list (list nat)) (ru : rule) : cx K :=
  let f := apply_rule ru in
  let fallback := cbase o (map (fun p => xrep (fun s => f (tr syms p s)) e) G) in
  if disjoint (map fst ru) (cfs (CCyc o e syms G)) then CCyc o e syms G
  else if forallb (fun kv => match snd kv with CSym v => (v =? fst kv)%nat | _ => false end) ru then mk o (xrep f e) syms G
  else
    let ch := changed ru syms in
    match ch with
    | [] => mk o (xrep f e) syms G
    | _ =>
      if case_a ru syms then mk o (xrep f e) (map (new_sym ru) syms) G
      else if invariant same ru syms gens then mk o (xrep f e) syms G
      else if (length syms - 1 <=? length ch)%nat then fallback
      else
        let ci := orbit (length syms) G (ch_inds ru syms) in
        let ui := filter (fun i => negb (inb i ci)) (seq 0 (length syms)) in
        if (length ui <? 2)%nat then fallback
        else
          let stab := stabilizer G ci in
          if (length stab <=? 1)%nat then fallback
          else cbase o (map (fun u => CCyc o (xrep f (raw_rep (tr syms u) e)) syms stab) (stabilizer G ui))
    end.
End XReplace.

(** [_get_rewriting_replacement] (cyclic.py:889-946) on one cyclic expression;
    [iszero] is [signsimp(...) == 0] and [T] is [coset_transversal]. *)
Section Rewrite.
Variable cmp : cx K -> cx K -> bool.
Variable iszero : cx K -> bool.
Variable mk : cop -> cx K -> list nat -> list (list nat) -> cx K.
Definition memb (p : list nat) (G : list (list nat)) : bool := existsb (list_eqb p) G.
Definition subgroup (A B : list (list nat)) : bool := forallb (fun p => memb p B) A.
Definition rewrite_node (o : cop) (e : cx K) (syms : list nat) (G : list (list nat)) (symbols : list nat) (H T : list (list nat)) : cx K :=
  if negb (list_eqb syms symbols) then cdoit o e syms G
  else if subgroup G H && subgroup H G then CCyc o e syms G
  else if subgroup G H then
    let m := fnat (length H / length G) in
    match o with
    | OpSum =>
        if iszero (CAdd [CMul [CNum m; cdoit o e syms G]; CMul [CNum (- (1)); cdoit o e syms H]])
        then CMul [mk o e syms H; CNum (finv m)]
        else cdoit o e syms G
    | OpProd => cdoit o e syms G
    end
  else if subgroup H G then
    let pick ex := fold_left (fun best p => let e2 := raw_rep (tr syms p) best in if cmp best e2 then e2 else best) H ex in
    mk o (cbase o (map (fun t => pick (raw_rep (tr syms t) e)) T)) syms H
  else cdoit o e syms G.
End Rewrite.
End Model.

Section Proofs.
Variable K : OrdField.
Local Open Scope of_scope.
Add Field Kf2 : (F_field K).
Variable I : nat -> list K -> K.
Notation ev := (cev I).
Implicit Types (e : cx K) (r : nat -> K) (o : cop).

Lemma cbase_value {A} o (g : A -> cx K) (l : list A) r : ev (cbase o (map g l)) r = big o l (fun x => ev (g x) r).
Proof. destruct o; cbn [cbase cev]; induction l as [|x l IH]; cbn; [reflexivity|rewrite IH; reflexivity|reflexivity|rewrite IH; reflexivity]. Qed.
Lemma cdoit_value o e syms G r : wf K e -> good o syms G -> ev (cdoit o e syms G) r = ev (CCyc o e syms G) r.
Proof.
  intros W (ND & HG & _). unfold cdoit. rewrite cbase_value. cbn [cev]. apply big_ext. intros p Hp. apply raw_rep_value; [|exact W].
  intros a b. apply (tr_inj (length syms)); auto. apply (g_perm _ _ HG), Hp.
Qed.
(** the meaning of replacing symbols: evaluate where the symbols have the new values *)
Lemma xrep_value e : forall f r, ev (xrep f e) r = ev e (fun s => ev (f s) r).
Proof.
  induction e as [k|s|l IH|l IH|e n IH|g l IH|o e syms G IH] using cx_ind'; intros f r; cbn [xrep]; try (rewrite cbase_value); cbn [cev]; try reflexivity.
  - induction IH as [|x l Hx _ IHl]; cbn; [reflexivity|]. rewrite Hx, IHl. reflexivity.
  - induction IH as [|x l Hx _ IHl]; cbn; [reflexivity|]. rewrite Hx, IHl. reflexivity.
  - rewrite IH. reflexivity.
  - f_equal. rewrite map_map. induction IH as [|x l Hx _ IHl]; cbn; [reflexivity|]. rewrite Hx, IHl. reflexivity.
  - apply big_ext. intros p _. apply IH.
Qed.
Lemma cbase_wf o l : Forall (wf K) l -> wf K (cbase o l).
Proof. intro H. destruct o; cbn [cbase wf]; rewrite wf_all; exact H. Qed.
Lemma Forall_map_wf {A} (g : A -> cx K) l : (forall x, In x l -> wf K (g x)) -> Forall (wf K) (map g l).
Proof. intro H. apply Forall_forall. intros y Hy. apply in_map_iff in Hy. destruct Hy as (x & <- & Hx). auto. Qed.
Lemma xrep_wf e : forall f, (forall s, wf K (f s)) -> wf K (xrep f e).
Proof.
  induction e as [k|s|l IH|l IH|e n IH|g l IH|o e syms G IH] using cx_ind'; intros f Hf; cbn [xrep wf]; auto.
  1,2,3: rewrite wf_all; apply Forall_map_wf; intros x Hx; exact (proj1 (Forall_forall _ _) IH x Hx f Hf).
  apply cbase_wf, Forall_map_wf. intros p _. apply IH. auto.
Qed.

(** *** Lists *)
Lemma inb_In s l : inb s l = true <-> In s l.
Proof. apply ex_In. Qed.
Lemma nodupb_spec l : nodupb l = true -> NoDup l.
Proof.
  induction l as [|x l IH]; cbn; [constructor|]. rewrite andb_true_iff, negb_true_iff. intros [H1 H2]. constructor; [|apply IH, H2]. rewrite <- inb_In, H1. discriminate.
Qed.
Lemma disjoint_false a b s : In s a -> In s b -> disjoint a b = false.
Proof. intros Ha Hb. destruct (disjoint a b) eqn:E; [|reflexivity]. destruct (disjoint_spec _ _ E s Ha Hb). Qed.
Lemma lookup_in (ru : @rule K) s v : lookup ru s = Some v -> In (s, v) ru.
Proof.
  induction ru as [|[k w] ru IH]; cbn; [discriminate|]. destruct (Nat.eqb_spec s k) as [->|]; [intro E; injection E as <-; left; reflexivity|intro E; right; apply IH, E].
Qed.
Lemma lookup_none (ru : @rule K) s : lookup ru s = None <-> ~ In s (map fst ru).
Proof.
  induction ru as [|[k w] ru IH]; cbn; [tauto|]. destruct (Nat.eqb_spec s k) as [->|N]; [split; [discriminate|intro H; exfalso; apply H; left; reflexivity]|]. rewrite IH. split; [intros H [E|Q]; [congruence|auto]|tauto].
Qed.
Lemma lookup_key (ru : @rule K) s v : NoDup (map fst ru) -> In (s, v) ru -> lookup ru s = Some v.
Proof.
  induction ru as [|[k w] ru IH]; cbn; [tauto|]. intros ND [E|H]; [injection E as -> ->; rewrite Nat.eqb_refl; reflexivity|]. inversion ND; subst.
  destruct (Nat.eqb_spec s k) as [->|N]; [|apply IH; assumption]. exfalso. apply H2. apply in_map_iff. exists (k, v). auto.
Qed.
Lemma changed_key (ru : @rule K) syms s : In s syms -> ~ In s (changed ru syms) -> ~ In s (map fst ru) /\ forall k v, In (k, v) ru -> ~ In s (cfs v).
Proof.
  intros Hs H. unfold changed in H. rewrite filter_In, orb_true_iff, inb_In, existsb_exists in H. split; [tauto|]. intros k v Hkv Q. apply H. split; [exact Hs|]. right. exists (k, v). split; [exact Hkv|]. apply inb_In, Q.
Qed.

(** *** Value after replacement, the specification *)
Definition xspec o e syms G (ru : @rule K) r : K := ev (CCyc o e syms G) (fun s => ev (apply_rule ru s) r).
Definition sound_mk (mk : cop -> cx K -> list nat -> list (list nat) -> cx K) : Prop :=
  forall o e syms G, wf K e -> good o syms G -> forall r, ev (mk o e syms G) r = ev (CCyc o e syms G) r.

(** new names that are not among the summation symbols do not occur in what replaces the other symbols *)
Definition no_capture (ru : @rule K) e syms : Prop :=
  forall s, In s (cfs e) -> ~ In s syms -> forall a, In a syms -> ~ In (new_sym ru a) syms -> ~ In (new_sym ru a) (cfs (apply_rule ru s)).
Definition no_capture_all (ru : @rule K) e syms : Prop :=
  forall s, In s (cfs e) -> ~ In s syms -> forall a, In a syms -> ~ In (new_sym ru a) (cfs (apply_rule ru s)).
Lemma no_capture_case_a (ru : @rule K) e syms :
  forallb (fun kv => inb (fst kv) (changed ru syms) || (negb (inb (fst kv) syms) && disjoint (cfs (snd kv)) syms)) ru = true ->
  no_capture ru e syms -> no_capture_all ru e syms.
Proof.
  intros A NC s Hs Hn a Ha. destruct (in_dec Nat.eq_dec (new_sym ru a) syms) as [Q|Q]; [|exact (NC s Hs Hn a Ha Q)].
  intro C. unfold apply_rule in C. destruct (lookup ru s) as [v|] eqn:E.
  - apply lookup_in in E. rewrite forallb_forall in A. specialize (A _ E). cbn [fst snd] in A.
    apply orb_true_iff in A. destruct A as [A|A].
    + apply inb_In in A. unfold changed in A. apply filter_In in A. exact (Hn (proj1 A)).
    + apply andb_true_iff in A. exact (disjoint_spec _ _ (proj2 A) _ C Q).
  - destruct C as [C|[]]. apply Hn. rewrite C. exact Q.
Qed.
Lemma rename_exact o e syms G (ru : @rule K) r : NoDup syms -> is_group (length syms) G -> NoDup (map (new_sym ru) syms) ->
  (forall s, In s syms -> apply_rule ru s = CSym (new_sym ru s)) -> no_capture_all ru e syms ->
  ev (CCyc o (xrep (apply_rule ru) e) (map (new_sym ru) syms) G) r = xspec o e syms G ru r.
Proof.
  intros ND HG NDn HS NC. unfold xspec. cbn [cev]. apply big_ext. intros p Hp. rewrite xrep_value. apply ev_ext. intros s Hs.
  pose proof (g_perm _ _ HG p Hp) as Pp. destruct (in_dec Nat.eq_dec s syms) as [H|H].
  - rewrite (HS s H), (HS (tr syms p s)) by (apply (tr_in (length syms)); auto). cbn [cev]. f_equal.
    destruct (In_nth_ex syms s H) as (i & Hi & <-). rewrite (tr_nth (length syms) syms) by auto.
    rewrite <- !(map_nth (new_sym ru)). apply (tr_nth (length syms)); auto. apply map_length.
  - rewrite (tr_out syms p s H). apply ev_ext. intros s' Hs'. rewrite tr_out; [reflexivity|]. intro Q. apply in_map_iff in Q. destruct Q as (a & <- & Ha). exact (NC s Hs H a Ha Hs').
Qed.
Lemma fallback_exact o e syms G (ru : @rule K) r : ev (cbase o (map (fun p => xrep (fun s => apply_rule ru (tr syms p s)) e) G)) r = xspec o e syms G ru r.
Proof. unfold xspec. cbn [cev]. rewrite cbase_value. apply big_ext. intros p _. apply xrep_value. Qed.

(** *** Case B *)
Inductive generated (n : nat) (gens : list (list nat)) : list nat -> Prop :=
| gen_id : generated n gens (pid n)
| gen_step p g : generated n gens p -> In g gens -> generated n gens (pcomp p g).
Lemma generated_perm n gens p : (forall g, In g gens -> is_perm n g) -> generated n gens p -> is_perm n p.
Proof.
  intro H. induction 1 as [|p g _ IH Hg]; [apply is_perm_pid|]. unfold is_perm. apply Permutation_trans with g; [|apply H, Hg]. apply (act_perm 0%nat n); [exact IH|apply is_perm_length, H, Hg].
Qed.
Definition equivariant (ru : @rule K) syms p : Prop := forall s r, ev (apply_rule ru (tr syms p s)) r = ev (apply_rule ru s) (fun x => r (tr syms p x)).
Lemma invariant_equivariant same (ru : @rule K) syms gens p : NoDup syms -> NoDup (map fst ru) -> (forall k v, In (k, v) ru -> wf K v) ->
  (forall a b, same a b = true -> forall r, ev a r = ev b r) ->
  is_perm (length syms) p -> In p gens -> invariant same ru syms gens = true -> equivariant ru syms p.
Proof.
  intros ND NDk W HS Pp Hp HI s r. unfold invariant in HI. rewrite forallb_forall in HI. specialize (HI p Hp). rewrite forallb_forall in HI.
  assert (INJ : forall a b, tr syms p a = tr syms p b -> a = b) by (intros a b; apply (tr_inj (length syms)); auto).
  destruct (in_dec Nat.eq_dec s (map fst ru)) as [H|H].
  - apply in_map_iff in H. destruct H as ([k v] & E & Hkv). cbn in E. subst k. specialize (HI _ Hkv). cbn [fst snd] in HI.
    unfold apply_rule. rewrite (lookup_key ru s v NDk Hkv). destruct (lookup ru (tr syms p s)) as [w|]; [|discriminate].
    rewrite <- (HS _ _ HI r). apply raw_rep_value; [exact INJ|exact (W s v Hkv)].
  - assert (H2 : ~ In (tr syms p s) (map fst ru)).
    { intro Q. apply H. assert (PP : Permutation (map (tr syms p) (map fst ru)) (map fst ru)).
      { apply NoDup_Permutation_bis; [apply map_nodup; auto|rewrite (map_length (tr syms p)); apply le_n|]. intros x Hx. apply in_map_iff in Hx. destruct Hx as (k & <- & Hk). apply in_map_iff in Hk. destruct Hk as ([k' v] & E & Hkv). cbn in E. subst k'.
        specialize (HI _ Hkv). cbn [fst] in HI. destruct (lookup ru (tr syms p k)) as [w|] eqn:EL; [|discriminate]. apply lookup_in in EL. apply in_map_iff. exists (tr syms p k, w). auto. }
      apply (Permutation_in _ (Permutation_sym PP)) in Q. apply in_map_iff in Q. destruct Q as (k & E & Hk). rewrite (INJ _ _ (eq_sym E)). exact Hk. }
    unfold apply_rule. rewrite (proj2 (lookup_none ru s) H), (proj2 (lookup_none ru (tr syms p s)) H2). reflexivity.
Qed.
Lemma equivariant_generated (ru : @rule K) syms gens p : NoDup syms -> (forall g, In g gens -> is_perm (length syms) g) ->
  (forall g, In g gens -> equivariant ru syms g) -> generated (length syms) gens p -> equivariant ru syms p.
Proof.
  intros ND HP HE. induction 1 as [|p g Gp IH Hg]; intros s r.
  - rewrite (tr_id (length syms)) by auto. apply ev_same. intro x. rewrite (tr_id (length syms)) by auto. reflexivity.
  - pose proof (generated_perm _ _ _ HP Gp) as Pp. rewrite <- (tr_comp (length syms)) by auto. rewrite (HE g Hg), IH. apply ev_same. intro x. f_equal. apply (tr_comp (length syms)); auto.
Qed.
Lemma equivariant_exact o e syms G (ru : @rule K) r : (forall p, In p G -> equivariant ru syms p) -> ev (CCyc o (xrep (apply_rule ru) e) syms G) r = xspec o e syms G ru r.
Proof. intro H. unfold xspec. cbn [cev]. apply big_ext. intros p Hp. rewrite xrep_value. apply ev_same. intro s. symmetry. apply (H p Hp). Qed.

(** *** The partial branch *)
Definition splits (A B G : list (list nat)) : Prop := Permutation (flat_map (fun u => map (pcomp u) A) B) G.
Lemma partial_exact o e syms G (ru : @rule K) A B r : NoDup syms -> is_group (length syms) G -> wf K e ->
  (forall p, In p A -> In p G) -> (forall p, In p B -> In p G) -> (forall p, In p A -> equivariant ru syms p) -> splits A B G ->
  ev (cbase o (map (fun u => CCyc o (xrep (apply_rule ru) (raw_rep (tr syms u) e)) syms A) B)) r = xspec o e syms G ru r.
Proof.
  intros ND HG W HA HB HE HS. unfold xspec. rewrite cbase_value. cbn [cev]. rewrite <- (big_perm _ o _ _ _ HS), big_flat. apply big_ext. intros u Hu. rewrite big_map. apply big_ext. intros p Hp.
  pose proof (g_perm _ _ HG u (HB u Hu)) as Pu. pose proof (g_perm _ _ HG p (HA p Hp)) as Pp.
  rewrite xrep_value, raw_rep_value; [|intros a b; apply (tr_inj (length syms)); auto|exact W]. apply ev_same. intro s.
  rewrite <- (tr_comp (length syms)) by auto. symmetry. apply (HE p Hp).
Qed.
Lemma pcomp_nth n p q i : is_perm n p -> (i < n)%nat -> nth i (pcomp p q) 0%nat = nth (nth i p 0%nat) q 0%nat.
Proof. intros Hp Hi. unfold pcomp. apply act_nth. rewrite (is_perm_length n p Hp). exact Hi. Qed.
Lemma orbit_closed n G l : is_group n G -> (forall c, In c l -> (c < n)%nat) -> forall p i, In p G -> In i (orbit n G l) -> In (nth i p 0%nat) (orbit n G l).
Proof.
  intros HG Hl p i Hp Hi. unfold orbit in *. rewrite filter_In, existsb_exists in *. destruct Hi as (Hi & g & Hg & E). apply existsb_exists in E. destruct E as (c & Hc & E). apply Nat.eqb_eq in E. apply in_seq in Hi.
  split; [apply in_seq; split; [lia|]; cbn; apply (is_perm_nth n); [apply (g_perm _ _ HG), Hp|lia]|].
  exists (pcomp g p). split; [apply (g_mul _ _ HG); assumption|]. apply existsb_exists. exists c. split; [exact Hc|]. apply Nat.eqb_eq.
  rewrite (pcomp_nth n) by (apply (g_perm _ _ HG) || apply Hl; assumption). rewrite E. reflexivity.
Qed.
Lemma stabilizer_in G l p : In p (stabilizer G l) <-> In p G /\ forall i, In i l -> nth i p 0%nat = i.
Proof. unfold stabilizer. rewrite filter_In, forallb_forall. split; intros [H1 H2]; split; auto; intros i Hi; apply Nat.eqb_eq, H2, Hi. Qed.
Lemma nth_ext_perm n p q : is_perm n p -> is_perm n q -> (forall i, (i < n)%nat -> nth i p 0%nat = nth i q 0%nat) -> p = q.
Proof. intros Hp Hq H. apply (nth_ext _ _ 0%nat 0%nat); [rewrite (is_perm_length n p Hp), (is_perm_length n q Hq); reflexivity|]. rewrite (is_perm_length n p Hp). exact H. Qed.
(** the two stabilisers meet in the identity, so counting decides whether they split the group *)
Lemma splits_count n G ci : is_group n G -> (forall p i, In p G -> In i ci -> In (nth i p 0%nat) ci) -> (forall i, In i ci -> (i < n)%nat) ->
  let ui := filter (fun i => negb (inb i ci)) (seq 0 n) in
  (length (stabilizer G ci) * length (stabilizer G ui) = length G)%nat -> splits (stabilizer G ci) (stabilizer G ui) G.
Proof.
  intros HG HC HB ui L. unfold splits. set (A := stabilizer G ci) in *. set (B := stabilizer G ui) in *.
  assert (PG := g_perm _ _ HG).
  assert (HA : forall p, In p A -> In p G) by (intros p Hp; apply stabilizer_in in Hp; tauto).
  assert (HB' : forall p, In p B -> In p G) by (intros p Hp; apply stabilizer_in in Hp; tauto).
  assert (UI : forall i, In i ui <-> (i < n)%nat /\ ~ In i ci) by (intro i; unfold ui; rewrite filter_In, in_seq, negb_true_iff, <- not_true_iff_false, inb_In; split; intros [Q1 Q2]; (split; [lia|exact Q2])).
  assert (UC : forall p i, In p G -> In i ui -> In (nth i p 0%nat) ui).
  { intros p i Hp Hi. apply UI in Hi. destruct Hi as [Hi Ni]. apply UI. split; [apply (is_perm_nth n); auto|]. intro Q.
    destruct (g_inv _ _ HG p Hp) as (pi & Hpi & E1 & E2). apply Ni. pose proof (HC pi _ Hpi Q) as R. rewrite <- (pcomp_nth n) in R by auto. rewrite E1 in R. unfold pid in R. rewrite seq_nth in R by exact Hi. exact R. }
  assert (ND : NoDup (flat_map (fun u => map (pcomp u) A) B)).
  { assert (NA : NoDup A) by (apply NoDup_filter, (g_nodup _ _ HG)). assert (NB : NoDup B) by (apply NoDup_filter, (g_nodup _ _ HG)).
    assert (DET : forall u v a b, In u B -> In v B -> In a A -> In b A -> pcomp u a = pcomp v b -> u = v /\ a = b).
    { intros u v a b Hu Hv Ha Hb E.
      assert (E' : forall i, (i < n)%nat -> nth (nth i u 0%nat) a 0%nat = nth (nth i v 0%nat) b 0%nat) by (intros i Hi; rewrite <- !(pcomp_nth n) by auto; rewrite E; reflexivity).
      pose proof (proj1 (stabilizer_in G ui u) Hu) as [_ Fu]. pose proof (proj1 (stabilizer_in G ui v) Hv) as [_ Fv]. pose proof (proj1 (stabilizer_in G ci a) Ha) as [_ Fa]. pose proof (proj1 (stabilizer_in G ci b) Hb) as [_ Fb].
      split; apply (nth_ext_perm n); auto; intros i Hi; destruct (in_dec Nat.eq_dec i ci) as [C|C].
      - specialize (E' i Hi). rewrite Fa, Fb in E' by auto. exact E'.
      - rewrite Fu, Fv by (apply UI; auto). reflexivity.
      - rewrite Fa, Fb by assumption. reflexivity.
      - specialize (E' i Hi). rewrite Fu, Fv in E' by (apply UI; auto). exact E'. }
    apply NoDup_flat_map; [|exact NB|].
    - intros u Hu. clear - NA DET Hu. assert (Q : forall L, (forall x, In x L -> In x A) -> NoDup L -> NoDup (map (pcomp u) L)); [|apply Q; auto].
      induction L as [|a L IH]; intros HL N; cbn; constructor; inversion N; subst.
      + intro Q. apply in_map_iff in Q. destruct Q as (b & E & Hb). destruct (DET u u a b) as [_ ->]; auto; [apply HL; left; reflexivity|apply HL; right; exact Hb].
      + apply IH; [intros; apply HL; right; assumption|assumption].
    - intros u v z Hu Hv H1 H2. apply in_map_iff in H1, H2. destruct H1 as (a & <- & Ha). destruct H2 as (b & E & Hb). symmetry in E. apply (DET u v a b Hu Hv Ha Hb E). }
  apply NoDup_Permutation_bis; [exact ND| |].
  - rewrite <- L. clear. induction B as [|u B IH]; cbn [flat_map length]; [lia|]. rewrite app_length, map_length. lia.
  - intros z Hz. apply in_flat_map in Hz. destruct Hz as (u & Hu & Hz). apply in_map_iff in Hz. destruct Hz as (a & <- & Ha). apply (g_mul _ _ HG); auto.
Qed.

(** *** [_xreplace] as a whole *)
Definition changed_inds (ru : @rule K) syms G : list nat := orbit (length syms) G (ch_inds ru syms).
Definition unchanged_inds (ru : @rule K) syms G : list nat := filter (fun i => negb (inb i (changed_inds ru syms G))) (seq 0 (length syms)).
Lemma ch_inds_bound (ru : @rule K) syms c : In c (ch_inds ru syms) -> (c < length syms)%nat.
Proof. unfold ch_inds. rewrite filter_In, in_seq. lia. Qed.
Lemma orbit_bound n G l i : In i (orbit n G l) -> (i < n)%nat.
Proof. unfold orbit. rewrite filter_In, in_seq. lia. Qed.
Lemma orbit_incl n G l c : is_group n G -> (c < n)%nat -> In c l -> In c (orbit n G l).
Proof.
  intros HG Hc H. unfold orbit. rewrite filter_In, in_seq, existsb_exists. split; [lia|]. exists (pid n). split; [apply (g_id _ _ HG)|]. apply existsb_exists. exists c. split; [exact H|]. apply Nat.eqb_eq. unfold pid. apply seq_nth, Hc.
Qed.
(** an element fixing the changed indices commutes with the rule *)
Lemma stab_equivariant (ru : @rule K) syms G p : NoDup syms -> is_group (length syms) G -> In p (stabilizer G (changed_inds ru syms G)) -> equivariant ru syms p.
Proof.
  intros ND HG Hp. apply stabilizer_in in Hp. destruct Hp as [Hp HF]. pose proof (g_perm _ _ HG p Hp) as Pp.
  assert (FIX : forall s, In s (changed ru syms) -> tr syms p s = s).
  { intros s Hs. assert (Q : In s syms) by (apply filter_In in Hs; tauto). destruct (In_nth_ex syms s Q) as (i & Hi & E). rewrite <- E, (tr_nth (length syms)) by auto. f_equal. apply HF.
    apply (orbit_incl _ _ _ _ HG Hi). unfold ch_inds. rewrite filter_In, in_seq, inb_In, E. split; [lia|exact Hs]. }
  assert (KEY : forall s, In s (map fst ru) -> tr syms p s = s).
  { intros s Hs. destruct (in_dec Nat.eq_dec s syms) as [H|H]; [|apply tr_out, H]. apply FIX. unfold changed. rewrite filter_In. split; [exact H|]. rewrite (proj2 (inb_In s (map fst ru)) Hs). reflexivity. }
  assert (VAL : forall k v s, In (k, v) ru -> In s (cfs v) -> tr syms p s = s).
  { intros k v s Hkv Hs. destruct (in_dec Nat.eq_dec s syms) as [H|H]; [|apply tr_out, H]. apply FIX. unfold changed. rewrite filter_In, orb_true_iff, existsb_exists. split; [exact H|]. right. exists (k, v). split; [exact Hkv|]. apply inb_In, Hs. }
  intros s r. unfold apply_rule. destruct (lookup ru s) as [v|] eqn:E.
  - rewrite KEY, E by (apply lookup_in in E; apply in_map_iff; exists (s, v); auto). apply ev_ext. intros x Hx. rewrite (VAL s v x (lookup_in _ _ _ E) Hx). reflexivity.
  - destruct (lookup ru (tr syms p s)) as [v|] eqn:E2; [|reflexivity]. exfalso. apply lookup_none in E. apply E.
    assert (HK : In (tr syms p s) (map fst ru)) by (apply lookup_in in E2; apply in_map_iff; exists (tr syms p s, v); auto).
    pose proof (KEY _ HK) as Q. apply (tr_inj (length syms)) in Q; auto. rewrite Q in HK. exact HK.
Qed.
Section Whole.
Variable same : cx K -> cx K -> bool.
Variable mk : cop -> cx K -> list nat -> list (list nat) -> cx K.
Hypothesis HSame : forall a b, same a b = true -> forall r, ev a r = ev b r.
Hypothesis HMk : sound_mk mk.
Lemma xreplace_exact o e syms G gens (ru : @rule K) r :
  wf K e -> good o syms G -> NoDup (map fst ru) -> (forall k v, In (k, v) ru -> wf K v) ->
  (forall g, In g gens -> In g G) -> (forall p, In p G -> generated (length syms) gens p) ->
  (case_a ru syms = true -> no_capture ru e syms) ->
  (length (stabilizer G (changed_inds ru syms G)) * length (stabilizer G (unchanged_inds ru syms G)) = length G)%nat ->
  ev (xreplace same mk o e syms G gens ru) r = xspec o e syms G ru r.
Proof.
  intros W HGd NDk WV Hgens Hgen HCap HSplit. pose proof HGd as (ND & HG & HL). unfold xreplace.
  assert (WR : forall s, wf K (apply_rule ru s)) by (intro s; unfold apply_rule; destruct (lookup ru s) as [v|] eqn:E; [exact (WV s v (lookup_in _ _ _ E))|exact Logic.I]).
  pose proof (xrep_wf e (apply_rule ru) WR) as WX.
  destruct (disjoint (map fst ru) (cfs (CCyc o e syms G))) eqn:D.
  { unfold xspec. apply ev_ext. intros s Hs. unfold apply_rule. rewrite (proj2 (lookup_none ru s)); [reflexivity|]. intro Q. exact (disjoint_spec _ _ D s Q Hs). }
  destruct (forallb (fun kv => match snd kv with CSym v => (v =? fst kv)%nat | _ => false end) ru) eqn:ID.
  { rewrite (HMk o _ syms G WX HGd). apply equivariant_exact. intros p Hp s r'. rewrite forallb_forall in ID.
    assert (Q : forall s, apply_rule ru s = CSym s).
    { intro x. unfold apply_rule. destruct (lookup ru x) as [v|] eqn:E; [|reflexivity]. apply lookup_in in E. specialize (ID _ E). cbn [fst snd] in ID. destruct v; try discriminate. apply Nat.eqb_eq in ID. subst. reflexivity. }
    rewrite !Q. reflexivity. }
  cbv zeta. destruct (changed ru syms) as [|c ch] eqn:EC.
  { rewrite (HMk o _ syms G WX HGd). apply equivariant_exact. intros p Hp.
    assert (K1 : forall s, In s syms -> ~ In s (map fst ru) /\ forall k v, In (k, v) ru -> ~ In s (cfs v)) by (intros s Hs; apply (changed_key ru syms s Hs); rewrite EC; tauto).
    intros s r'. pose proof (g_perm _ _ HG p Hp) as Pp. destruct (in_dec Nat.eq_dec s syms) as [H|H].
    - unfold apply_rule. rewrite (proj2 (lookup_none ru s) (proj1 (K1 s H))), (proj2 (lookup_none ru (tr syms p s))); [reflexivity|]. apply K1. apply (tr_in (length syms)); auto.
    - rewrite (tr_out syms p s H). apply ev_ext. intros x Hx. unfold apply_rule in Hx. destruct (lookup ru s) as [v|] eqn:E.
      + rewrite tr_out; [reflexivity|]. intro Q. exact (proj2 (K1 x Q) s v (lookup_in _ _ _ E) Hx).
      + destruct Hx as [<-|[]]. rewrite (tr_out syms p s H). reflexivity. }
  rewrite <- EC.
  destruct (case_a ru syms) eqn:CA.
  { pose proof (HCap eq_refl) as NC0. unfold case_a in CA. rewrite !andb_true_iff in CA. destruct CA as [[A1 A2] A3]. pose proof (no_capture_case_a ru e syms A2 NC0) as NC. rewrite forallb_forall in A1. apply nodupb_spec in A3.
    rewrite HMk; [|exact WX|split; [exact A3|rewrite map_length; auto]]. apply rename_exact; auto.
    intros s Hs. unfold apply_rule, new_sym. destruct (in_dec Nat.eq_dec s (changed ru syms)) as [Q|Q].
    - specialize (A1 s Q). destruct (lookup ru s) as [v|]; [|discriminate]. destruct v; try discriminate. reflexivity.
    - rewrite (proj2 (lookup_none ru s)); [reflexivity|]. apply (changed_key ru syms s Hs Q). }
  destruct (invariant same ru syms gens) eqn:IV.
  { rewrite (HMk o _ syms G WX HGd). apply equivariant_exact. intros p Hp. apply (equivariant_generated ru syms gens p ND); [intros g Hg; apply (g_perm _ _ HG), Hgens, Hg| |apply Hgen, Hp].
    intros g Hg. apply (invariant_equivariant same ru syms gens); auto. apply (g_perm _ _ HG), Hgens, Hg. }
  destruct (length syms - 1 <=? length (changed ru syms))%nat; [apply fallback_exact|].
  fold (changed_inds ru syms G). fold (unchanged_inds ru syms G). destruct (length (unchanged_inds ru syms G) <? 2)%nat; [apply fallback_exact|].
  destruct (length (stabilizer G (changed_inds ru syms G)) <=? 1)%nat; [apply fallback_exact|].
  apply (partial_exact o e syms G ru); auto.
  - intros p Hp. apply stabilizer_in in Hp. tauto.
  - intros p Hp. apply stabilizer_in in Hp. tauto.
  - intros p Hp. apply (stab_equivariant ru syms G); auto.
  - apply (splits_count (length syms)); auto; [intros p i Hp Hi; apply orbit_closed; auto; apply ch_inds_bound|intros i Hi; apply orbit_bound in Hi; exact Hi].
Qed.
End Whole.

(** a transitive group has no partial branch *)
Definition transitive (n : nat) (G : list (list nat)) : Prop := forall i j, (i < n)%nat -> (j < n)%nat -> exists p, In p G /\ nth i p 0%nat = j.
Lemma filter_none {A} (t : A -> bool) l : (forall x, In x l -> t x = false) -> filter t l = [].
Proof. induction l as [|x l IH]; cbn; [reflexivity|]. intro H. rewrite H by (left; reflexivity). apply IH. intros; apply H; right; assumption. Qed.
Lemma filter_all {A} (t : A -> bool) l : (forall x, In x l -> t x = true) -> filter t l = l.
Proof. induction l as [|x l IH]; cbn; [reflexivity|]. intro H. rewrite H by (left; reflexivity). f_equal. apply IH. intros; apply H; right; assumption. Qed.
Lemma orbit_nil n G : orbit n G [] = [].
Proof. unfold orbit. apply filter_none. intros i _. induction G; cbn; auto. Qed.
Lemma transitive_count (ru : @rule K) syms G : NoDup syms -> is_group (length syms) G -> transitive (length syms) G ->
  (length (stabilizer G (changed_inds ru syms G)) * length (stabilizer G (unchanged_inds ru syms G)) = length G)%nat.
Proof.
  intros ND HG HT. unfold unchanged_inds. destruct (changed_inds ru syms G) as [|i0 ci] eqn:E.
  - assert (S1 : stabilizer G [] = G) by (apply filter_all; reflexivity). rewrite S1.
    assert (S2 : stabilizer G (filter (fun i => negb (inb i [])) (seq 0 (length syms))) = [pid (length syms)] \/ True) by (right; exact Logic.I).
    (* only the identity fixes everything *)
    assert (Q : Permutation (stabilizer G (filter (fun i => negb (inb i [])) (seq 0 (length syms)))) [pid (length syms)]).
    { apply NoDup_Permutation; [apply NoDup_filter, (g_nodup _ _ HG)|repeat constructor; intros []|]. intro p. rewrite stabilizer_in. split.
      - intros [Hp HF]. left. apply (nth_ext_perm (length syms)); [apply is_perm_pid|apply (g_perm _ _ HG), Hp|]. intros i Hi. unfold pid. rewrite seq_nth by exact Hi. symmetry. apply HF. apply filter_In. split; [apply in_seq; lia|reflexivity].
      - intros [<-|[]]. split; [apply (g_id _ _ HG)|]. intros i Hi. apply filter_In in Hi. destruct Hi as [Hi _]. apply in_seq in Hi. unfold pid. apply seq_nth. lia. }
    rewrite (Permutation_length Q). cbn. lia.
  - assert (ALL : forall i, (i < length syms)%nat -> In i (changed_inds ru syms G)).
    { intros i Hi. assert (H0 : In i0 (changed_inds ru syms G)) by (rewrite E; left; reflexivity). assert (B0 := orbit_bound _ _ _ _ H0).
      destruct (HT i0 i B0 Hi) as (p & Hp & <-). apply orbit_closed; auto. apply ch_inds_bound. }
    rewrite <- E.
    assert (U : filter (fun i => negb (inb i (changed_inds ru syms G))) (seq 0 (length syms)) = []) by (apply filter_none; intros i Hi; apply in_seq in Hi; rewrite negb_false_iff; apply inb_In, ALL; lia).
    rewrite U. assert (S1 : stabilizer G [] = G) by (apply filter_all; reflexivity). rewrite S1.
    assert (Q : Permutation (stabilizer G (changed_inds ru syms G)) [pid (length syms)]).
    { apply NoDup_Permutation; [apply NoDup_filter, (g_nodup _ _ HG)|repeat constructor; intros []|]. intro p. rewrite stabilizer_in. split.
      - intros [Hp HF]. left. apply (nth_ext_perm (length syms)); [apply is_perm_pid|apply (g_perm _ _ HG), Hp|]. intros i Hi. unfold pid. rewrite seq_nth by exact Hi. symmetry. apply HF, ALL, Hi.
      - intros [<-|[]]. split; [apply (g_id _ _ HG)|]. intros i Hi. apply orbit_bound in Hi. unfold pid. apply seq_nth, Hi. }
    rewrite (Permutation_length Q). cbn. lia.
Qed.

(** *** Rewriting to another group *)
(** a transversal of right cosets (which is what sympy computes) does when it
    commutes with the subgroup as a set *)
Lemma splits_right A T G : Permutation (flat_map (fun t => map (fun h => pcomp h t) A) T) G ->
  (forall t, In t T -> Permutation (map (pcomp t) A) (map (fun h => pcomp h t) A)) -> splits A T G.
Proof.
  intros H N. unfold splits. apply Permutation_trans with (2 := H). clear H. induction T as [|t T IH]; cbn; [constructor|]. apply Permutation_app; [apply N; left; reflexivity|apply IH; intros; apply N; right; assumption].
Qed.
Section Rw.
Variable cmp : cx K -> cx K -> bool.
Variable iszero : cx K -> bool.
Variable mk : cop -> cx K -> list nat -> list (list nat) -> cx K.
Hypothesis HZero : forall a, iszero a = true -> forall r, ev a r = 0.
Hypothesis HMk : sound_mk mk.
Lemma memb_In p G : memb p G = true <-> In p G.
Proof.
  unfold memb. rewrite existsb_exists. split; [intros (x & Hx & E); apply list_eqb_eq in E; subst; exact Hx|]. intro H. exists p. split; [exact H|]. clear. induction p as [|x p IH]; cbn; [reflexivity|]. rewrite Nat.eqb_refl. exact IH.
Qed.
Lemma subgroup_incl A B : subgroup A B = true -> forall p, In p A -> In p B.
Proof. unfold subgroup. rewrite forallb_forall. intros H p Hp. apply memb_In, H, Hp. Qed.
Lemma pick_ok o ex syms H : NoDup syms -> is_group (length syms) H -> wf K ex ->
  let b := fold_left (fun best p => let e2 := raw_rep (tr syms p) best in if cmp best e2 then e2 else best) H ex in
  wf K b /\ forall r, gsum K I o b syms H r = gsum K I o ex syms H r.
Proof.
  intros ND HH W. assert (Q : forall l best, (forall p, In p l -> In p H) -> wf K best ->
    let b := fold_left (fun best p => let e2 := raw_rep (tr syms p) best in if cmp best e2 then e2 else best) l best in
    wf K b /\ forall r, gsum K I o b syms H r = gsum K I o best syms H r).
  { induction l as [|p l IH]; intros best HL WB; cbn; [auto|]. assert (Hp : In p H) by (apply HL; left; reflexivity).
    assert (INJ : forall a b, tr syms p a = tr syms p b -> a = b) by (intros a b; apply (tr_inj (length syms)); auto; apply (g_perm _ _ HH), Hp).
    destruct (cmp best (raw_rep (tr syms p) best)); [|apply IH; auto; intros; apply HL; right; assumption].
    destruct (IH (raw_rep (tr syms p) best)) as [I1 I2]; [intros; apply HL; right; assumption|apply raw_rep_wf; assumption|]. split; [exact I1|]. intro r. rewrite I2.
    apply (gsum_translate K I o best _ syms H p); auto. intro r'. apply raw_rep_value; assumption. }
  apply Q; auto.
Qed.
Lemma rewrite_node_exact o e syms G symbols H T r :
  wf K e -> good o syms G -> (syms = symbols -> good o syms H) ->
  (subgroup H G = true -> (forall t, In t T -> In t G) /\ splits H T G) ->
  ev (rewrite_node cmp iszero mk o e syms G symbols H T) r = ev (CCyc o e syms G) r.
Proof.
  intros W HGd HHd HT. pose proof HGd as (ND & HG & HL). unfold rewrite_node.
  destruct (list_eqb syms symbols) eqn:ES; cbn [negb]; [|apply cdoit_value; assumption]. apply list_eqb_eq in ES. specialize (HHd ES). clear ES symbols.
  destruct (subgroup G H && subgroup H G); [reflexivity|]. destruct (subgroup G H) eqn:SG.
  - destruct o; [|apply cdoit_value; assumption].
    match goal with |- context [if iszero ?z then _ else _] => destruct (iszero z) eqn:Z; [|apply cdoit_value; assumption]; pose proof (HZero z Z r) as Q end.
    assert (LE : (0 < length G <= length H)%nat).
    { assert (length G <= length H)%nat by (apply NoDup_incl_length; [apply (g_nodup _ _ HG)|exact (subgroup_incl _ _ SG)]). split; [|assumption]. pose proof (g_id _ _ HG) as Hid. destruct G; [destruct Hid|cbn; lia]. }
    assert (NZ : fnat (length H / length G) <> (0 : K)).
    { apply fnat_neq0. apply Nat.div_str_pos. lia. }
    set (m := fnat (length H / length G)) in *. cbn [cev fold_right] in Q |- *. rewrite !cdoit_value in Q by assumption.
    rewrite (HMk OpSum e syms H W HHd). set (vG := ev (CCyc OpSum e syms G) r) in *. set (vH := ev (CCyc OpSum e syms H) r) in *.
    assert (Q2 : vH = m * vG) by (apply fsub_eq0; transitivity (- (m * (vG * 1) * 1 + (- (1) * (vH * 1) * 1 + 0))); [ring|]; match type of Q with ?x = 0 => replace (m * (vG * 1) * 1 + (- (1) * (vH * 1) * 1 + 0)) with x by ring end; rewrite Q; ring).
    rewrite Q2. change (m * vG * (/ m * 1) = vG). field. exact NZ.
  - destruct (subgroup H G) eqn:SH; [|apply cdoit_value; assumption]. destruct (HT eq_refl) as [HTG HTS]. destruct HHd as (_ & HH & HLH).
    assert (PK : forall t, In t T -> let b := fold_left (fun best p => let e2 := raw_rep (tr syms p) best in if cmp best e2 then e2 else best) H (raw_rep (tr syms t) e) in
       wf K b /\ forall r, gsum K I o b syms H r = gsum K I o (raw_rep (tr syms t) e) syms H r).
    { intros t Ht. apply pick_ok; auto. apply raw_rep_wf; [|exact W]. intros a b. apply (tr_inj (length syms)); auto. apply (g_perm _ _ HG), HTG, Ht. }
    rewrite HMk; [|apply cbase_wf, Forall_map_wf; intros t Ht; exact (proj1 (PK t Ht))|split; auto].
    cbn [cev]. transitivity (big o H (fun p => big o T (fun t => ev (fold_left (fun best p => let e2 := raw_rep (tr syms p) best in if cmp best e2 then e2 else best) H (raw_rep (tr syms t) e)) (fun s => r (tr syms p s)))));
      [apply big_ext; intros p _; apply cbase_value|].
    rewrite big_swap, <- (big_perm _ o _ _ _ HTS), big_flat. apply big_ext. intros t Ht.
    transitivity (gsum K I o (raw_rep (tr syms t) e) syms H r); [exact (proj2 (PK t Ht) r)|]. unfold gsum. rewrite big_map. apply big_ext. intros p Hp.
    pose proof (g_perm _ _ HG t (HTG t Ht)) as Pt. pose proof (g_perm _ _ HH p Hp) as Pp.
    rewrite raw_rep_value; [|intros a b; apply (tr_inj (length syms)); auto|exact W]. apply ev_same. intro s. f_equal. apply (tr_comp (length syms)); auto.
Qed.
End Rw.
End Proofs.

(** ** Specification: the cyclic sum over all group elements *)
Section Spec.
Variable K : OrdField.
Local Open Scope of_scope.
(** [f] moves the i-th symbol to the p(i)-th and keeps all others *)
Definition moves (syms p : list nat) (f : nat -> nat) : Prop :=
  (forall i, (i < length syms)%nat -> f (nth i syms 0%nat) = nth (nth i p 0%nat) syms 0%nat) /\ (forall s, ~ In s syms -> f s = s).
(** values of an expression at the permuted points, given by any functions that move the symbols *)
Definition orbit_sum (I : nat -> list K -> K) (e : cx K) (syms : list nat) (G : list (list nat)) (r : nat -> K) (v : K) : Prop :=
  forall F : list nat -> nat -> nat, (forall p, In p G -> moves syms p (F p)) -> v = fsum (map (fun p => cev I e (fun s => r (F p s))) G).
Definition orbit_prod (I : nat -> list K -> K) (e : cx K) (syms : list nat) (G : list (list nat)) (r : nat -> K) (v : K) : Prop :=
  forall F : list nat -> nat -> nat, (forall p, In p G -> moves syms p (F p)) -> v = fold_right fmul 1 (map (fun p => cev I e (fun s => r (F p s))) G).
Lemma tr_moves syms p : NoDup syms -> is_perm (length syms) p -> moves syms p (tr syms p).
Proof. intros ND Hp. split; [intros i Hi; apply (tr_nth (length syms)); auto|intros s Hs; apply tr_out, Hs]. Qed.
Lemma moves_tr syms p f : NoDup syms -> is_perm (length syms) p -> moves syms p f -> forall s, f s = tr syms p s.
Proof.
  intros ND Hp [H1 H2] s. destruct (in_dec Nat.eq_dec s syms) as [H|H].
  - destruct (In_nth_ex syms s H) as (i & Hi & <-). rewrite H1 by exact Hi. symmetry. apply (tr_nth (length syms)); auto.
  - rewrite H2 by exact H. symmetry. apply tr_out, H.
Qed.
Lemma gsum_spec I o e syms G r : NoDup syms -> is_group (length syms) G ->
  match o with OpSum => orbit_sum I e syms G r (gsum K I o e syms G r) | OpProd => orbit_prod I e syms G r (gsum K I o e syms G r) end.
Proof.
  intros ND HG. unfold gsum. pose proof (g_perm _ _ HG) as PG.
  assert (Q : forall F : list nat -> nat -> nat, (forall p, In p G -> moves syms p (F p)) ->
    big o G (fun p => cev I e (fun s => r (tr syms p s))) = big o G (fun p => cev I e (fun s => r (F p s)))).
  { intros F HF. apply big_ext. intros p Hp. apply ev_same. intro s. f_equal. symmetry. apply moves_tr; auto. }
  destruct o; intros F HF; rewrite (Q F HF); clear; induction G as [|p G IH]; cbn; try reflexivity; rewrite <- IH; reflexivity.
Qed.
End Spec.

(** ** Concrete expressions *)
Definition S3 : list (list nat) := [[0;1;2];[0;2;1];[1;0;2];[1;2;0];[2;0;1];[2;1;0]]%nat.
Definition C3 : list (list nat) := [[0;1;2];[1;2;0];[2;0;1]]%nat.
(** the group generated by (0 1 2 3)(4 5) *)
Definition G42 : list (list nat) := [[0;1;2;3;4;5];[1;2;3;0;5;4];[2;3;0;1;4;5];[3;0;1;2;5;4]]%nat.
Definition noI {K : OrdField} (f : nat) (l : list K) : K := 0%F.
Definition never {K : OrdField} (a b : cx K) : bool := false.
