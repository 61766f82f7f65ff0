(** * Model of [MonomialManager] (triples/utils/monomials.py:49-273) *)
From Coq Require Import Bool List Arith Lia Permutation Ring Field.
From Verif Require Import OrdField Base Perm Poly Partitions.
Import ListNotations.

(** Python's comparison of tuples. *)
Fixpoint lex_cmp (s t : list nat) : comparison :=
  match s, t with
  | [], [] => Eq
  | [], _ => Lt
  | _, [] => Gt
  | x :: s', y :: t' => match Nat.compare x y with Eq => lex_cmp s' t' | c => c end
  end.
(** Python's [max] of a list of tuples: the first maximal element; [[]] for the empty
    list (Python raises, but a group is never empty). *)
Definition lex_max (l : list (list nat)) : list nat :=
  match l with
  | [] => []
  | x :: l' => fold_left (fun m y => match lex_cmp y m with Gt => y | _ => m end) l' x
  end.

Section Manager.
Variable G : list (list nat).      (** elements of the permutation group *)
Variable nvars : nat.
Variable hom : bool.               (** [_is_homogeneous] *)

(** [permute] (monomials.py:158-162) *)
Definition permute (m : list nat) : list (list nat) := map (fun p => act 0 p m) G.
(** [standard_monom] (monomials.py:164-172) *)
Definition standard_monom (m : list nat) : list nat := lex_max (permute m).
(** [is_standard_monom] (monomials.py:174-181) *)
Definition is_standard_monom (m : list nat) : bool := meqb m (standard_monom m).
(** [_register_monoms] / [inv_monoms] (monomials.py:102-125), without the cache *)
Definition inv_monoms (degree : nat) : list (list nat) :=
  filter is_standard_monom (generate_partitions nvars degree hom).
End Manager.

(** [dict_monoms] (monomials.py:110, 115-119): position of a monomial in the list. *)
Fixpoint index_of (m : list nat) (l : list (list nat)) : option nat :=
  match l with
  | [] => None
  | x :: l' => if meqb m x then Some 0 else match index_of m l' with Some i => Some (S i) | None => None end
  end.

Fixpoint lset {A} (l : list A) (i : nat) (v : A) : list A :=
  match l, i with
  | [], _ => []
  | _ :: l', O => v :: l'
  | x :: l', S i' => x :: lset l' i' v
  end.

(** The cache [_monoms] (monomials.py:62, 102-113): registering a degree twice reads the table. *)
Definition register_cached (G : list (list nat)) (nvars : nat) (hom : bool)
  (cache : list (nat * list (list nat))) (degree : nat) : list (list nat) * list (nat * list (list nat)) :=
  match find (fun e => Nat.eqb (fst e) degree) cache with
  | Some (_, v) => (v, cache)
  | None => let v := inv_monoms G nvars hom degree in (v, (degree, v) :: cache)
  end.

Section Arraylize.
Context {K : OrdField}.
Local Open Scope of_scope.
Variable G : list (list nat).
Variable nvars : nat.
Variable hom : bool.

(** [rep.total_degree()]: 0 for the zero polynomial *)
Definition total_degree (p : poly K) : nat := fold_right (fun t d => Nat.max (list_sum (fst t)) d) 0%nat p.

(** [_arraylize_list] (monomials.py:214-231). [pvars] is the number of generators of the
    polynomial; a mismatch evaluates [len] of an int, a [TypeError] (monomials.py:208-212).
    The zero polynomial is the empty dictionary (sympy lists one zero term for it; storing
    that zero does not change the array). *)
Definition arraylize (expand_cyc : bool) (pvars : nat) (p : poly K) : res (list K) :=
  if negb (Nat.eqb pvars nvars) then Err TypeError
  else
    let monoms := inv_monoms G nvars hom (total_degree p) in
    let zero := map (fun _ => 0) monoms in
    Ok (if negb expand_cyc then
          fold_left (fun arr t => match index_of (fst t) monoms with
                                  | Some v => lset arr v (snd t)
                                  | None => arr
                                  end) p zero
        else
          fold_left (fun arr t =>
            fold_left (fun arr m2 => match index_of m2 monoms with
                                     | Some v => lset arr v (vget arr v + snd t)
                                     | None => arr
                                     end) (permute G (fst t)) arr) p zero).

(** [invarraylize] (monomials.py:263-273); [Poly(dict)] drops zero coefficients. *)
Definition invarraylize (ngens : nat) (array : list K) (degree : nat) : res (poly K) :=
  if negb (Nat.eqb ngens nvars) then Err ValueError
  else
    let terms := fold_left (fun d cm => fold_left (fun d m2 => dset d m2 (fst cm)) (permute G (snd cm)) d)
                           (combine array (inv_monoms G nvars hom degree)) [] in
    Ok (filter (fun t => negb (snd t =? 0)) terms).
End Arraylize.

(** ** Proofs *)

Lemma lex_cmp_eq s : forall t, lex_cmp s t = Eq <-> s = t.
Proof.
  induction s as [|x s IH]; destruct t as [|y t]; cbn; split; intro H; try discriminate; try reflexivity.
  - destruct (Nat.compare x y) eqn:E; try discriminate. apply Nat.compare_eq in E. apply IH in H. congruence.
  - inversion H; subst. rewrite Nat.compare_refl. apply IH. reflexivity.
Qed.
Lemma lex_cmp_sym s : forall t, lex_cmp t s = CompOpp (lex_cmp s t).
Proof.
  induction s as [|x s IH]; destruct t as [|y t]; cbn; try reflexivity.
  rewrite (Nat.compare_antisym x y). destruct (Nat.compare x y); cbn; try reflexivity. apply IH.
Qed.
Lemma lex_cmp_trans s : forall t u, lex_cmp s t = Gt -> lex_cmp t u = Gt -> lex_cmp s u = Gt.
Proof.
  induction s as [|x s IH]; destruct t as [|y t]; destruct u as [|z u]; cbn; try discriminate; try reflexivity.
  destruct (Nat.compare_spec x y) as [E1|E1|E1]; destruct (Nat.compare_spec y z) as [E2|E2|E2];
  intros H1 H2; try discriminate; subst.
  - rewrite Nat.compare_refl. eapply IH; eassumption.
  - rewrite (proj2 (Nat.compare_gt_iff y z)) by lia. reflexivity.
  - rewrite (proj2 (Nat.compare_gt_iff x z)) by lia. reflexivity.
  - rewrite (proj2 (Nat.compare_gt_iff x z)) by lia. reflexivity.
Qed.
Definition lex_ge s t := lex_cmp s t <> Lt.
Lemma lex_ge_refl s : lex_ge s s.
Proof. unfold lex_ge. rewrite (proj2 (lex_cmp_eq s s) eq_refl). discriminate. Qed.
Lemma lex_ge_antisym s t : lex_ge s t -> lex_ge t s -> s = t.
Proof.
  unfold lex_ge. intros H1 H2. rewrite (lex_cmp_sym s t) in H2. destruct (lex_cmp s t) eqn:E; cbn in *; try congruence.
  apply lex_cmp_eq. exact E.
Qed.
Lemma lex_ge_trans s t u : lex_ge s t -> lex_ge t u -> lex_ge s u.
Proof.
  unfold lex_ge. intros H1 H2. destruct (lex_cmp s t) eqn:E1; try congruence.
  - apply lex_cmp_eq in E1. subst. exact H2.
  - destruct (lex_cmp t u) eqn:E2; try congruence.
    + apply lex_cmp_eq in E2. subst. rewrite E1. discriminate.
    + rewrite (lex_cmp_trans s t u E1 E2). discriminate.
Qed.
Lemma lex_ge_total s t : lex_ge s t \/ lex_ge t s.
Proof.
  unfold lex_ge. rewrite (lex_cmp_sym s t). destruct (lex_cmp s t); cbn; [left|right|left]; discriminate.
Qed.

Lemma lex_max_fold l : forall x,
  let r := fold_left (fun m y => match lex_cmp y m with Gt => y | _ => m end) l x in
  (r = x \/ In r l) /\ lex_ge r x /\ forall y, In y l -> lex_ge r y.
Proof.
  induction l as [|a l IH]; intro x; cbn.
  - split; [left; reflexivity|]. split; [apply lex_ge_refl|intros y []].
  - destruct (IH (match lex_cmp a x with Gt => a | _ => x end)) as [H1 [H2 H3]]. cbn in H1, H2, H3.
    set (r := fold_left _ l _) in *.
    assert (Hax : lex_ge (match lex_cmp a x with Gt => a | _ => x end) a
               /\ lex_ge (match lex_cmp a x with Gt => a | _ => x end) x
               /\ ((match lex_cmp a x with Gt => a | _ => x end) = a \/ (match lex_cmp a x with Gt => a | _ => x end) = x)).
    { destruct (lex_cmp a x) eqn:E.
      - apply lex_cmp_eq in E. subst. repeat split; try apply lex_ge_refl. auto.
      - repeat split; try apply lex_ge_refl; auto. unfold lex_ge. rewrite (lex_cmp_sym a x), E. discriminate.
      - repeat split; try apply lex_ge_refl; auto. unfold lex_ge. rewrite E. discriminate. }
    destruct Hax as [Ha [Hx Hor]]. split; [|split].
    + destruct H1 as [->|H1]; [|auto]. destruct Hor as [->| ->]; auto.
    + eapply lex_ge_trans; eassumption.
    + intros y [<-|Hy]; [eapply lex_ge_trans; eassumption|]. apply H3. exact Hy.
Qed.

Lemma lex_max_in l : l <> [] -> In (lex_max l) l.
Proof.
  destruct l as [|x l]; [congruence|]. intros _. destruct (lex_max_fold l x) as [[H|H] _]; cbn; [left; congruence|right; exact H].
Qed.
Lemma lex_max_ge l y : In y l -> lex_ge (lex_max l) y.
Proof.
  destruct l as [|x l]; [intros []|]. destruct (lex_max_fold l x) as [_ [H1 H2]].
  intros [<-|H]; [exact H1|apply H2; exact H].
Qed.
Lemma lex_max_set l1 l2 : l1 <> [] -> (forall y, In y l1 <-> In y l2) -> lex_max l1 = lex_max l2.
Proof.
  intros Hne H. assert (Hne2 : l2 <> []).
  { destruct l1 as [|x l1]; [congruence|]. intro E. subst l2. destruct (proj1 (H x)). left. reflexivity. }
  apply lex_ge_antisym; apply lex_max_ge; apply H, lex_max_in; assumption.
Qed.

Section GroupFacts.
Variable n : nat.
Variable G : list (list nat).
Hypothesis HG : is_group n G.
Local Notation act := (act 0).

Lemma G_nonempty : G <> [].
Proof. intro E. pose proof (g_id n G HG) as H. rewrite E in H. destruct H. Qed.
Lemma permute_nonempty m : permute G m <> [].
Proof. unfold permute. pose proof G_nonempty. destruct G; [congruence|discriminate]. Qed.
Lemma permute_length m m' : In m' (permute G m) -> length m' = n.
Proof.
  intro H. apply in_map_iff in H. destruct H as [p [<- Hp]].
  rewrite act_length. apply is_perm_length, (g_perm n G HG), Hp.
Qed.
Lemma permute_self m : length m = n -> In m (permute G m).
Proof.
  intro H. apply in_map_iff. exists (pid n). split; [apply act_id; exact H|apply (g_id n G HG)].
Qed.

Lemma orbit_same m p : length m = n -> In p G ->
  forall y, In y (permute G (act p m)) <-> In y (permute G m).
Proof.
  intros Hm Hp y. assert (Hpl : length p = n) by (apply is_perm_length, (g_perm n G HG), Hp).
  unfold permute. rewrite !in_map_iff. split.
  - intros [r [<- Hr]]. exists (pcomp r p). split; [|apply (g_mul n G HG); assumption].
    symmetry. apply (act_comp 0 n); [apply (g_perm n G HG); exact Hr|exact Hpl].
  - intros [r [<- Hr]]. pose proof (pinv_in n G p HG Hp) as Hi.
    exists (pcomp r (pinv p)). split; [|apply (g_mul n G HG); assumption].
    rewrite (act_comp 0 n); [|apply (g_perm n G HG), (g_mul n G HG); assumption|exact Hpl].
    rewrite <- (pcomp_assoc n G HG r (pinv p) p) by assumption. rewrite (pinv_l n p) by (apply (g_perm n G HG); exact Hp).
    rewrite (pcomp_id_r n G HG r) by assumption. reflexivity.
Qed.

Lemma standard_in_orbit m : In (standard_monom G m) (permute G m).
Proof. apply lex_max_in, permute_nonempty. Qed.
Lemma standard_invariant m p : length m = n -> In p G -> standard_monom G (act p m) = standard_monom G m.
Proof.
  intros Hm Hp. unfold standard_monom. apply lex_max_set; [apply permute_nonempty|].
  apply orbit_same; assumption.
Qed.
Lemma standard_length m : length (standard_monom G m) = n.
Proof. eapply permute_length. apply standard_in_orbit. Qed.
Lemma standard_idem m : length m = n -> standard_monom G (standard_monom G m) = standard_monom G m.
Proof.
  intro Hm. pose proof (standard_in_orbit m) as H. apply in_map_iff in H. destruct H as [p [E Hp]].
  rewrite <- E at 1. apply standard_invariant; assumption.
Qed.
Lemma is_standard_iff m : is_standard_monom G m = true <-> m = standard_monom G m.
Proof. unfold is_standard_monom. apply meqb_eq. Qed.
Lemma standard_orbit_iff m m' : length m = n -> length m' = n ->
  (In m' (permute G m) <-> standard_monom G m' = standard_monom G m).
Proof.
  intros Hm Hm'. split.
  - intro H. apply in_map_iff in H. destruct H as [p [<- Hp]]. apply standard_invariant; assumption.
  - intro H. pose proof (standard_in_orbit m') as H1. rewrite H in H1. apply in_map_iff in H1.
    destruct H1 as [p [E Hp]].
    pose proof (standard_in_orbit m) as H2. rewrite <- E in H2.
    pose proof (pinv_in n G p HG Hp) as Hi.
    apply in_map_iff in H2. destruct H2 as [r [E2 Hr]].
    apply in_map_iff. exists (pcomp (pinv p) r). split; [|apply (g_mul n G HG); assumption].
    rewrite <- (act_comp 0 n).
    + rewrite E2. rewrite (act_comp 0 n).
      * rewrite (pinv_l n p) by (apply (g_perm n G HG); exact Hp). apply act_id. exact Hm'.
      * apply (g_perm n G HG). exact Hi.
      * apply is_perm_length, (g_perm n G HG), Hp.
    + apply (g_perm n G HG). exact Hi.
    + apply is_perm_length, (g_perm n G HG), Hr.
Qed.
Lemma permute_sum m m' : length m = n -> In m' (permute G m) -> list_sum m' = list_sum m.
Proof.
  intros Hm H. apply in_map_iff in H. destruct H as [p [<- Hp]].
  assert (Hperm : Permutation (act p m) m) by (apply act_perm with (n := n); [apply (g_perm n G HG); exact Hp|exact Hm]).
  clear - Hperm. induction Hperm; try reflexivity; try (rewrite !list_sum_cons; lia). lia.
Qed.
End GroupFacts.

Lemma index_of_some m l i : index_of m l = Some i -> i < length l /\ nth i l [] = m.
Proof.
  revert i. induction l as [|x l IH]; cbn; intros i H; [discriminate|].
  destruct (meqb_spec m x) as [->|Hne]; [inversion H; subst; split; [lia|reflexivity]|].
  destruct (index_of m l) as [j|]; [|discriminate]. inversion H; subst.
  destruct (IH j eq_refl). split; [lia|assumption].
Qed.
Lemma index_of_none m l : index_of m l = None <-> ~ In m l.
Proof.
  induction l as [|x l IH]; cbn; [tauto|].
  destruct (meqb_spec m x) as [->|Hne]; [split; [discriminate|tauto]|].
  destruct (index_of m l) as [j|].
  - split; [discriminate|]. intro H. exfalso. apply H. right.
    destruct (in_dec mon_dec m l) as [Hi|Hi]; [exact Hi|]. apply IH in Hi. discriminate.
  - split; [|reflexivity]. intros _ [E|E]; [congruence|]. apply IH in E; [exact E|reflexivity].
Qed.
Lemma index_of_nth l i : NoDup l -> i < length l -> index_of (nth i l []) l = Some i.
Proof.
  intros Hnd Hi. destruct (index_of (nth i l []) l) as [j|] eqn:E.
  - apply index_of_some in E. destruct E as [E1 E2]. f_equal. eapply NoDup_nth; eassumption.
  - apply index_of_none in E. exfalso. apply E. apply nth_In. exact Hi.
Qed.

Section ArrProofs.
Variable K : OrdField.
Local Open Scope of_scope.
Add Field Kf : (F_field K).

Lemma lset_length {A} (l : list A) i v : length (lset l i v) = length l.
Proof. revert i. induction l as [|x l IH]; intros [|i]; cbn; try reflexivity. f_equal. apply IH. Qed.
Lemma vget_lset (l : list K) i v j : (i < length l)%nat ->
  vget (lset l i v) j = if Nat.eqb j i then v else vget l j.
Proof.
  revert i j. induction l as [|x l IH]; intros [|i] [|j] H; cbn in *; try lia; try reflexivity.
  apply IH. lia.
Qed.

Section Fixed.
Variable n : nat.
Variable G : list (list nat).
Variable hom : bool.
Hypothesis HG : is_group n G.

Lemma inv_monoms_in d m :
  In m (inv_monoms G n hom d) <->
  (In m (generate_partitions n d hom) /\ standard_monom G m = m).
Proof.
  unfold inv_monoms. rewrite filter_In, is_standard_iff.
  split; intros [H1 H2]; split; auto.
Qed.
Lemma inv_monoms_NoDup d : NoDup (inv_monoms G n hom d).
Proof. apply NoDup_filter, generate_partitions_NoDup. Qed.

(** entries of the array without expansion *)
Lemma arr_fold (M : list (list nat)) (p : poly K) : NoDup M -> NoDup (keys p) ->
  forall arr, length arr = length M -> forall i, (i < length M)%nat ->
  let r := fold_left (fun arr t => match index_of (fst t) M with
                                   | Some v => lset arr v (snd t)
                                   | None => arr end) p arr in
  length r = length M /\
  vget r i = match dget p (nth i M []) with Some c => c | None => vget arr i end.
Proof.
  intros HM. induction p as [|[k c] p IH]; intros Hp arr Hl i Hi; cbn [fold_left fst snd dget].
  - split; [exact Hl|reflexivity].
  - cbn in Hp. inversion Hp as [|x l Hk Hp']; subst.
    destruct (index_of k M) as [v|] eqn:E.
    + apply index_of_some in E. destruct E as [Hv E].
      destruct (IH Hp' (lset arr v c) ltac:(rewrite lset_length; exact Hl) i Hi) as [H1 H2].
      split; [exact H1|]. cbn zeta in H2. rewrite H2.
      rewrite vget_lset by lia.
      destruct (meqb_spec (nth i M []) k) as [Ek|Ek].
      * assert (i = v) by (apply (proj1 (NoDup_nth M []) HM i v Hi Hv); congruence). subst v.
        rewrite Nat.eqb_refl. rewrite Ek. apply dget_none in Hk. rewrite Hk. reflexivity.
      * destruct (Nat.eqb_spec i v) as [->|]; [congruence|reflexivity].
    + apply index_of_none in E. destruct (IH Hp' arr Hl i Hi) as [H1 H2]. split; [exact H1|].
      cbn zeta in H2. rewrite H2. destruct (meqb_spec (nth i M []) k) as [Ek|Ek]; [|reflexivity].
      exfalso. apply E. rewrite <- Ek. apply nth_In. exact Hi.
Qed.
Lemma arr_fold_length (M : list (list nat)) (p : poly K) :
  forall arr, length (fold_left (fun arr t => match index_of (fst t) M with
                                   | Some v => lset arr v (snd t)
                                   | None => arr end) p arr) = length arr.
Proof.
  induction p as [|[k c] p IH]; intro arr; cbn; [reflexivity|]. rewrite IH.
  destruct (index_of k M); [apply lset_length|reflexivity].
Qed.

Lemma list_vget_ext (l1 l2 : list K) :
  length l1 = length l2 -> (forall i, (i < length l1)%nat -> vget l1 i = vget l2 i) -> l1 = l2.
Proof. intros H1 H2. apply nth_ext_eq with (d := 0); assumption. Qed.

Lemma vget_map {A} (f : A -> K) (d : A) l i : (i < length l)%nat -> vget (map f l) i = f (nth i l d).
Proof.
  intro H. unfold vget. rewrite nth_indep with (d' := f d) by (rewrite map_length; exact H). apply map_nth.
Qed.

Lemma arraylize_spec (p : poly K) : NoDup (keys p) ->
  arraylize G n hom false n p = Ok (map (coef p) (inv_monoms G n hom (total_degree p))).
Proof.
  intro Hp. unfold arraylize. rewrite Nat.eqb_refl. cbn [negb]. f_equal.
  set (M := inv_monoms G n hom (total_degree p)).
  apply list_vget_ext.
  - rewrite arr_fold_length, !map_length. reflexivity.
  - intros i Hi. rewrite arr_fold_length, map_length in Hi.
    destruct (arr_fold M p (inv_monoms_NoDup _) Hp (map (fun _ => 0) M) (map_length _ _) i Hi) as [_ H].
    cbn zeta in H. rewrite H. rewrite (vget_map _ []) by exact Hi. rewrite (vget_map _ []) by exact Hi. reflexivity.
Qed.

(** entries with expansion *)
Definition ind (b : bool) (c : K) : K := if b then c else 0.
Lemma exp_fold_inner (M : list (list nat)) c L : NoDup M ->
  forall arr, length arr = length M -> forall i, (i < length M)%nat ->
  let r := fold_left (fun arr m2 => match index_of m2 M with
                                    | Some v => lset arr v (vget arr v + c)
                                    | None => arr end) L arr in
  length r = length M /\
  vget r i = vget arr i + fsum (map (fun m2 => ind (meqb m2 (nth i M [])) c) L).
Proof.
  intro HM. induction L as [|m L IH]; intros arr Hl i Hi; cbn [fold_left map fsum].
  - split; [exact Hl|]. cbn. ring.
  - destruct (index_of m M) as [v|] eqn:E.
    + apply index_of_some in E. destruct E as [Hv E].
      destruct (IH (lset arr v (vget arr v + c)) ltac:(rewrite lset_length; exact Hl) i Hi) as [H1 H2].
      split; [exact H1|]. cbn zeta in H2. rewrite H2. rewrite vget_lset by lia.
      destruct (Nat.eqb_spec i v) as [->|Hne].
      * rewrite E, meqb_refl. cbn [ind]. ring.
      * destruct (meqb_spec m (nth i M [])) as [Ek|Ek].
        -- exfalso. apply Hne. apply (proj1 (NoDup_nth M []) HM i v Hi Hv); congruence.
        -- cbn [ind]. ring.
    + apply index_of_none in E. destruct (IH arr Hl i Hi) as [H1 H2]. split; [exact H1|].
      cbn zeta in H2. rewrite H2. destruct (meqb_spec m (nth i M [])) as [Ek|Ek]; [|cbn [ind]; ring].
      exfalso. apply E. rewrite Ek. apply nth_In. exact Hi.
Qed.

Lemma exp_fold (M : list (list nat)) (p : poly K) : NoDup M ->
  forall arr, length arr = length M -> forall i, (i < length M)%nat ->
  let r := fold_left (fun arr t =>
            fold_left (fun arr m2 => match index_of m2 M with
                                     | Some v => lset arr v (vget arr v + snd t)
                                     | None => arr
                                     end) (permute G (fst t)) arr) p arr in
  length r = length M /\
  vget r i = vget arr i + fsum (map (fun t => fsum (map (fun m2 => ind (meqb m2 (nth i M [])) (snd t)) (permute G (fst t)))) p).
Proof.
  intro HM. induction p as [|[k c] p IH]; intros arr Hl i Hi; cbn [fold_left map fsum fst snd].
  - split; [exact Hl|]. ring.
  - destruct (exp_fold_inner M c (permute G k) HM arr Hl i Hi) as [H1 H2]. cbn zeta in H1, H2.
    destruct (IH _ H1 i Hi) as [H3 H4]. cbn zeta in H3, H4. split; [exact H3|]. cbn zeta. rewrite H4, H2. ring.
Qed.

Lemma act_eq_iff g m s : In g G -> length m = n -> length s = n ->
  (act 0%nat g m = s <-> m = act 0%nat (pinv g) s).
Proof.
  intros Hg Hm Hs. pose proof (pinv_in n G g HG Hg) as Hi.
  assert (Hgp : is_perm n g) by (apply (g_perm n G HG); exact Hg).
  split.
  - intros <-. symmetry. apply (act_inv n G HG); try assumption. apply pinv_l. exact Hgp.
  - intros ->. apply (act_inv n G HG); try assumption. apply pinv_r. exact Hgp.
Qed.

Lemma coef_as_sum (p : poly K) s : NoDup (keys p) -> coef p s = fsum (map (fun t => ind (meqb (fst t) s) (snd t)) p).
Proof.
  induction p as [|[k c] p IH]; intro Hp; [reflexivity|].
  cbn in Hp. inversion Hp as [|x l Hk Hp']; subst. cbn [map fsum fst snd].
  unfold coef. cbn [dget]. destruct (meqb_spec s k) as [->|Hne].
  - rewrite meqb_refl. cbn [ind]. rewrite <- (IH Hp').
    rewrite coef_notin by exact Hk. ring.
  - change (match dget p s with Some c0 => c0 | None => 0 end) with (coef p s). rewrite (IH Hp').
    destruct (meqb_spec k s); [congruence|]. cbn [ind]. ring.
Qed.

Lemma exp_entry (p : poly K) s : wf n p -> length s = n ->
  fsum (map (fun t => fsum (map (fun m2 => ind (meqb m2 s) (snd t)) (permute G (fst t)))) p)
  = fsum (map (fun g => coef p (act 0%nat g s)) G).
Proof.
  intros [Hp Hlen] Hs.
  transitivity (fsum (map (fun t => fsum (map (fun g => ind (meqb (fst t) (act 0%nat (pinv g) s)) (snd t)) G)) p)).
  - apply fsum_map_ext. intros [k c] Hin. cbn [fst snd]. unfold permute. rewrite map_map.
    apply fsum_map_ext. intros g Hg.
    assert (Hk : length k = n) by (apply Hlen; apply in_map_iff; exists (k, c); auto).
    pose proof (act_eq_iff g k s Hg Hk Hs) as E.
    destruct (meqb_spec (act 0%nat g k) s), (meqb_spec k (act 0%nat (pinv g) s)); tauto || reflexivity.
  - rewrite fsum_swap.
    transitivity (fsum (map (fun g => coef p (act 0%nat g s)) (map pinv G))).
    + rewrite map_map. apply fsum_map_ext. intros g Hg. symmetry. apply coef_as_sum. exact Hp.
    + apply fsum_perm, Permutation_map. eapply pinv_perm_list. exact HG.
Qed.

Lemma inv_monoms_length d m : In m (inv_monoms G n hom d) -> length m = n.
Proof. intro H. apply inv_monoms_in in H. destruct H as [_ <-]. apply (standard_length n G HG). Qed.

Lemma arraylize_expand_spec (p : poly K) : wf n p ->
  arraylize G n hom true n p =
  Ok (map (fun s => fsum (map (fun g => coef p (act 0%nat g s)) G)) (inv_monoms G n hom (total_degree p))).
Proof.
  intro Hp. unfold arraylize. rewrite Nat.eqb_refl. cbn [negb]. f_equal.
  set (M := inv_monoms G n hom (total_degree p)).
  assert (HM : NoDup M) by apply inv_monoms_NoDup.
  assert (Hall : forall i, (i < length M)%nat -> length (fold_left (fun arr t =>
            fold_left (fun arr m2 => match index_of m2 M with
                                     | Some v => lset arr v (vget arr v + snd t)
                                     | None => arr
                                     end) (permute G (fst t)) arr) p (map (fun _ => 0) M)) = length M).
  { intros i Hi. apply (exp_fold M p HM (map (fun _ => 0) M) (map_length _ _) i Hi). }
  destruct M as [|s0 M0] eqn:EM.
  - cbn. clear. match goal with |- fold_left ?f _ _ = _ => set (F := f) end.
    assert (H : forall (q : poly K), fold_left F q [] = []).
    { induction q as [|t q IH]; [reflexivity|]. cbn [fold_left]. unfold F at 2. cbn.
      replace (fold_left (fun arr (_ : list nat) => arr) (permute G (fst t)) []) with (@nil K); [exact IH|].
      generalize (permute G (fst t)). intro l. induction l; cbn; auto. }
    apply H.
  - rewrite <- EM in *. apply list_vget_ext.
    + rewrite (Hall 0%nat) by (rewrite EM; cbn; lia). rewrite map_length. reflexivity.
    + intros i Hi. rewrite (Hall 0%nat) in Hi by (rewrite EM; cbn; lia).
      destruct (exp_fold M p HM (map (fun _ => 0) M) (map_length _ _) i Hi) as [_ H]. cbn zeta in H. rewrite H.
      rewrite (vget_map _ []) by exact Hi. rewrite (vget_map _ []) by exact Hi.
      rewrite exp_entry; [ring|exact Hp|].
      apply (inv_monoms_length (total_degree p)). apply nth_In. exact Hi.
Qed.

(** the rebuilt polynomial *)
Fixpoint look (k : list nat) (L : list (K * list nat)) : option K :=
  match L with [] => None | (c, s) :: L' => if meqb k s then Some c else look k L' end.

Lemma inv_inner (c : K) L : forall (d : poly K) m,
  dget (fold_left (fun d m2 => dset d m2 c) L d) m = if in_dec mon_dec m L then Some c else dget d m.
Proof.
  induction L as [|x L IH]; intros d m; [reflexivity|]. cbn [fold_left]. rewrite IH.
  destruct (in_dec mon_dec m L) as [H|H]; destruct (in_dec mon_dec m (x :: L)) as [H'|H']; try reflexivity.
  - exfalso. apply H'. right. exact H.
  - destruct H' as [->|H']; [|contradiction]. apply dget_dset_same.
  - apply dget_dset_other. intro E. apply H'. left. congruence.
Qed.
Lemma inv_inner_nodup (c : K) L : forall (d : poly K), NoDup (keys d) -> NoDup (keys (fold_left (fun d m2 => dset d m2 c) L d)).
Proof. induction L as [|x L IH]; intros d H; [exact H|]. cbn [fold_left]. apply IH, dset_NoDup, H. Qed.
Lemma inv_outer_nodup L : forall (d : poly K), NoDup (keys d) ->
  NoDup (keys (fold_left (fun d cm => fold_left (fun d m2 => dset d m2 (fst cm)) (permute G (snd cm)) d) L d)).
Proof. induction L as [|x L IH]; intros d H; [exact H|]. cbn [fold_left]. apply IH, inv_inner_nodup, H. Qed.

Lemma inv_outer (L : list (K * list nat)) : NoDup (map snd L) -> 
  (forall s, In s (map snd L) -> length s = n /\ standard_monom G s = s) ->
  forall (d : poly K) m, length m = n ->
  dget (fold_left (fun d cm => fold_left (fun d m2 => dset d m2 (fst cm)) (permute G (snd cm)) d) L d) m
  = match look (standard_monom G m) L with Some c => Some c | None => dget d m end.
Proof.
  induction L as [|[c s] L IH]; intros Hnd Hs d m Hm; [reflexivity|]. cbn [fold_left fst snd look].
  cbn in Hnd. apply NoDup_cons_iff in Hnd. destruct Hnd as [Hx Hnd'].
  rewrite IH; [|exact Hnd'|intros s' Hs'; apply Hs; right; exact Hs'|exact Hm]. rewrite inv_inner.
  destruct (Hs s (or_introl eq_refl)) as [Hsl Hst].
  pose proof (standard_orbit_iff n G HG s m Hsl Hm) as Hiff. rewrite Hst in Hiff.
  destruct (meqb_spec (standard_monom G m) s) as [E|E].
  - assert (look (standard_monom G m) L = None) as ->.
    { rewrite E. clear - Hx. induction L as [|[c' s'] L IH]; [reflexivity|]. cbn.
      destruct (meqb_spec s s') as [->|]; [exfalso; apply Hx; left; reflexivity|]. apply IH. intro H. apply Hx. right. exact H. }
    destruct (in_dec mon_dec m (permute G s)); tauto || reflexivity.
  - destruct (look (standard_monom G m) L); [reflexivity|].
    destruct (in_dec mon_dec m (permute G s)); tauto || reflexivity.
Qed.
Lemma inv_outer_len (L : list (K * list nat)) : forall (d : poly K),
  (forall m, In m (keys d) -> length m = n) ->
  forall m, In m (keys (fold_left (fun d cm => fold_left (fun d m2 => dset d m2 (fst cm)) (permute G (snd cm)) d) L d)) -> length m = n.
Proof.
  induction L as [|[c s] L IH]; intros d Hd m Hm; [apply Hd; exact Hm|]. cbn [fold_left fst snd] in Hm.
  revert Hm. apply IH. clear - Hd HG. intros m Hm.
  assert (Hperm : forall m', In m' (permute G s) -> length m' = n) by (intros m' H'; eapply permute_length; eassumption).
  revert Hperm d Hd Hm. generalize (permute G s) as P. induction P as [|y P IH]; intros HP d Hd Hm; [apply Hd; exact Hm|].
  cbn [fold_left] in Hm. eapply IH; [intros m' H'; apply HP; right; exact H'| |exact Hm].
  intros m1 Hm1. apply dset_keys_in in Hm1. destruct Hm1 as [->|Hm1]; [apply HP; left; reflexivity|apply Hd; exact Hm1].
Qed.

Lemma look_combine k (v : list K) (M : list (list nat)) : length v = length M ->
  look k (combine v M) = match index_of k M with Some i => Some (vget v i) | None => None end.
Proof.
  revert M. induction v as [|c v IH]; intros [|s M] H; cbn in *; try discriminate; [reflexivity|].
  destruct (meqb k s); [reflexivity|]. rewrite IH by lia. destruct (index_of k M); reflexivity.
Qed.
Lemma combine_snd (v : list K) (M : list (list nat)) : length v = length M -> map snd (combine v M) = M.
Proof. revert M. induction v as [|c v IH]; intros [|s M] H; cbn in *; try discriminate; [reflexivity|]. f_equal. apply IH. lia. Qed.

Lemma filter_nz_keys (p : poly K) m : In m (keys (filter (fun t => negb (snd t =? 0)) p)) -> In m (keys p).
Proof.
  unfold keys. rewrite !in_map_iff. intros [t [E H]]. apply filter_In in H. exists t. tauto.
Qed.
Lemma filter_nz_nodup (p : poly K) : NoDup (keys p) -> NoDup (keys (filter (fun t => negb (snd t =? 0)) p)).
Proof.
  induction p as [|[k c] p IH]; cbn; intro H; [constructor|]. inversion H as [|x l Hx Hl]; subst.
  destruct (c =? 0); cbn; [apply IH; exact Hl|]. constructor; [|apply IH; exact Hl].
  intro Hin. apply Hx. apply filter_nz_keys. exact Hin.
Qed.
Lemma filter_nz_coef (p : poly K) m : NoDup (keys p) -> coef (filter (fun t => negb (snd t =? 0)) p) m = coef p m.
Proof.
  induction p as [|[k c] p IH]; cbn [filter snd]; intro H; [reflexivity|].
  cbn in H. inversion H as [|x l Hx Hl]; subst.
  destruct (c =? 0) eqn:E; cbn [negb].
  - rewrite IH by exact Hl. apply feqb_eq in E. subst c. unfold coef. cbn [dget].
    destruct (meqb_spec m k) as [->|]; [|reflexivity].
    apply dget_none in Hx. rewrite Hx. reflexivity.
  - unfold coef. cbn [dget]. destruct (meqb m k); [reflexivity|]. apply IH. exact Hl.
Qed.

Lemma invarraylize_spec (v : list K) d : length v = length (inv_monoms G n hom d) ->
  exists p, invarraylize G n hom n v d = Ok p /\ wf n p /\
   (forall m c, In (m, c) p -> c <> 0) /\
   forall m, length m = n ->
     coef p m = match index_of (standard_monom G m) (inv_monoms G n hom d) with Some i => vget v i | None => 0 end.
Proof.
  intro Hl. unfold invarraylize. rewrite Nat.eqb_refl. cbn [negb].
  set (M := inv_monoms G n hom d) in *. match goal with |- context [fold_left ?f (combine v M) ?e] => set (T := fold_left f (combine v M) e) end.
  assert (HT : NoDup (keys T)) by (apply inv_outer_nodup; constructor).
  exists (filter (fun t => negb (snd t =? 0)) T). split; [reflexivity|]. split; [|split].
  - split; [apply filter_nz_nodup, HT|]. intros m Hm. apply filter_nz_keys in Hm.
    eapply inv_outer_len; [|exact Hm]. intros m' [].
  - intros m c H. apply filter_In in H. destruct H as [_ H]. cbn in H. apply negb_true_iff, feqb_neq in H. exact H.
  - intros m Hm. rewrite filter_nz_coef by exact HT. unfold coef, T. rewrite inv_outer.
    + rewrite look_combine by exact Hl. destruct (index_of _ M); reflexivity.
    + rewrite combine_snd by exact Hl. apply inv_monoms_NoDup.
    + rewrite combine_snd by exact Hl. intros s Hs. split; [eapply inv_monoms_length; exact Hs|]. apply inv_monoms_in in Hs. tauto.
    + exact Hm.
Qed.

(** Symmetry under the group: every element fixes the value of the polynomial. As a statement
    on coefficients: *)
Definition coef_sym (p : poly K) : Prop := forall g m, In g G -> length m = n -> coef p (act 0%nat g m) = coef p m.

(** all monomials of the polynomial are covered by the manager at its total degree *)
Definition covered (d : nat) (p : poly K) : Prop :=
  forall m, In m (keys p) -> if hom then list_sum m = d else (list_sum m <= d)%nat.

Lemma total_degree_ge (p : poly K) m : In m (keys p) -> (list_sum m <= total_degree p)%nat.
Proof.
  induction p as [|[k c] p IH]; intro H; [destruct H|]. unfold total_degree; cbn [fold_right fst]. fold (total_degree p).
  destruct H as [E|H]; [cbn in E; subst; lia|]. apply IH in H. lia.
Qed.
Lemma covered_nonhom (p : poly K) : hom = false -> covered (total_degree p) p.
Proof. intros E m Hm. rewrite E. apply total_degree_ge. exact Hm. Qed.

Lemma standard_in_monoms d m : length m = n -> (if hom then list_sum m = d else (list_sum m <= d)%nat) ->
  In (standard_monom G m) (inv_monoms G n hom d).
Proof.
  intros Hm Hd. apply inv_monoms_in. split; [|apply (standard_idem n G HG); exact Hm].
  apply generate_partitions_in. 
  assert (E : list_sum (standard_monom G m) = list_sum m).
  { apply (permute_sum n G HG); [exact Hm|apply (standard_in_orbit n G HG)]. }
  rewrite E. repeat split; try assumption; try (apply (standard_length n G HG)).
Qed.
End Fixed.
End ArrProofs.
