(** * Model of [Coeff] (triples/utils/expression/coeff.py) and of the symmetry tests of
    triples/utils/polytools.py *)
From Coq Require Import Bool List Arith Lia Permutation ZArith Ring Field.
From Verif Require Import OrdField Base Perm Poly PolyId.
Import ListNotations.

(** ** Specification: the group generated by a list of permutations of [n] points *)
Inductive generated (n : nat) (gens : list (list nat)) : list nat -> Prop :=
| gen_in g : In g gens -> generated n gens g
| gen_id : generated n gens (pid n)
| gen_mul g h : generated n gens g -> generated n gens h -> generated n gens (pcomp g h)
| gen_inv g : generated n gens g -> generated n gens (pinv g).

Section Coeff.
Context {K : OrdField}.
Local Open Scope of_scope.

(** Specification: the polynomial function is unchanged when x_i is replaced by x_{g(i)} *)
Definition invariant_under (g : list nat) (p : poly K) : Prop :=
  forall x : nat -> K, peval (fun i => x (nth i g 0%nat)) p = peval x p.

(** [Coeff.is_cyclic] (coeff.py:64-96); [perms] is the list of generators of the group, or the
    single permutation, or the list passed by the caller. *)
Definition is_cyclic (nvars : nat) (perms : list (list nat)) (p : poly K) : bool :=
  if Nat.eqb nvars 1 then true
  else forallb (fun perm =>
         if negb (Nat.eqb (length perm) nvars) then false
         else forallb (fun kv => coef p (act 0%nat perm (fst kv)) =? snd kv) p) perms.

(** [verify_is_symmetric] (polytools.py:147-159): three variables, the swap of the first two. *)
Definition verify_is_symmetric (p : poly K) : bool :=
  forallb (fun kv => coef p (act 0%nat [1; 0; 2]%nat (fst kv)) =? snd kv) p.

(** [verify_hom_cyclic] with [fast=False] (polytools.py:68-144), three generators.
    [coeffs[i*t+j]] is the coefficient of a^i b^j c^(n-i-j); since every monomial has degree [n]
    by then, the table is modelled by the dictionary itself. [terms()] of the zero polynomial is
    one zero term, so its [n] is 0. *)
Definition verify_hom_cyclic (p : poly K) : bool * bool :=
  let n := match p with [] => 0%nat | t :: _ => list_sum (fst t) end in
  if negb (forallb (fun t => Nat.eqb (list_sum (fst t)) n) p) then (false, false)
  else
    let i0 := Z.to_nat ((Z.of_nat n - 1) / 3 + 1) in
    (true,
     forallb (fun i =>
       forallb (fun j =>
         let k := (n - i - j)%nat in
         let u := coef p [i; j; k] in
         let v := coef p [j; k; n - j - k]%nat in
         let w := coef p [k; i; n - k - i]%nat in
         (u =? v) && (u =? w))%bool
         (seq (n - 2 * i) (Nat.min (i + 1) (n - i + 1) - (n - 2 * i))))
       (seq i0 (n + 1 - i0))).

(** [Coeff.degree] (coeff.py:159-167): the degree of the first key only *)
Definition coeff_degree (p : poly K) : nat := match p with [] => 0%nat | (k, _) :: _ => list_sum k end.

Fixpoint zip_with {A B C} (f : A -> B -> C) (l1 : list A) (l2 : list B) : list C :=
  match l1, l2 with x :: l1', y :: l2' => f x y :: zip_with f l1' l2' | _, _ => [] end.

(** loop of [Coeff.cancel_abc] (coeff.py:230-233): [None] is the early return *)
Fixpoint cancel_loop (monoms : list (list nat)) (common : list nat) : option (list nat) :=
  match monoms with
  | [] => Some common
  | m :: ms => let common' := zip_with Nat.min common m in
               if forallb (fun e => Nat.eqb e 0) common' then None else cancel_loop ms common'
  end.
(** [Coeff.cancel_abc] (coeff.py:220-238) *)
Definition cancel_abc (nvars : nat) (p : poly K) : list nat * poly K :=
  match p with
  | [] => (repeat 0%nat nvars, p)
  | _ => match cancel_loop (keys p) (repeat (coeff_degree p + 1)%nat nvars) with
         | None => (repeat 0%nat nvars, p)
         | Some common =>
             (common, map (fun t => (zip_with Nat.sub (fst t) common, snd t)) (filter (fun t => negb (snd t =? 0)) p))
         end
  end.

(** loop of [Coeff.cancel_k] (coeff.py:251-255), flattened over all exponents: [None] is the
    early return with d = 1 *)
Fixpoint gcd_loop (es : list nat) (d : nat) : option nat :=
  match es with
  | [] => Some d
  | u :: es' => let d' := Nat.gcd d u in if Nat.eqb d' 1 then None else gcd_loop es' d'
  end.
(** [Coeff.cancel_k] (coeff.py:241-263) *)
Definition cancel_k (p : poly K) : nat * poly K :=
  match p with
  | [] => (1%nat, p)
  | _ => match gcd_loop (concat (keys p)) 0 with
         | None => (1%nat, p)
         | Some O => (0%nat, p)
         | Some d => (d, map (fun t => (map (fun i => Nat.div i d) (fst t), snd t)) (filter (fun t => negb (snd t =? 0)) p))
         end
  end.

Fixpoint dict_del (p : poly K) (k : list nat) : poly K :=
  match p with [] => [] | (k', v) :: p' => if meqb k k' then p' else (k', v) :: dict_del p' k end.
(** [Coeff.__operator__] (coeff.py:191-203) for an operation [op]; the final sort of the
    dictionary only changes the order of the entries and is omitted. *)
Definition coeff_operator (op : K -> K -> K) (p q : poly K) : poly K :=
  fold_left (fun acc t =>
    let v1 := coef p (fst t) in
    let v3 := op v1 (snd t) in
    if ((v3 =? 0) && negb (v1 =? 0))%bool then dict_del acc (fst t)
    else if negb (v3 =? 0) then dset acc (fst t) v3 else acc) q p.
Definition coeff_add := coeff_operator fadd.
Definition coeff_sub := coeff_operator fsub.
End Coeff.

(** ** Proofs *)
Section CoeffProofs.
Variable K : OrdField.
Local Open Scope of_scope.
Add Field Kf : (F_field K).
Implicit Types p : poly K.

Lemma generated_perm n gens g : (forall h, In h gens -> is_perm n h) -> generated n gens g -> is_perm n g.
Proof.
  intros H Hg. induction Hg as [g Hg| |g h _ IH1 _ IH2|g _ IH].
  - apply H. exact Hg.
  - apply Permutation_refl.
  - unfold pcomp. unfold is_perm. eapply Permutation_trans; [apply act_perm with (n := n); [exact IH1|apply is_perm_length; exact IH2]|exact IH2].
  - apply pinv_is_perm. exact IH.
Qed.

Definition coef_inv (n : nat) (g : list nat) p : Prop := forall m, length m = n -> coef p (act 0%nat g m) = coef p m.

Lemma support_check n g p : is_perm n g -> wf n p ->
  (forallb (fun kv => coef p (act 0%nat g (fst kv)) =? snd kv) p = true <-> coef_inv n g p).
Proof.
  intros Hg [Hnd Hlen]. rewrite forallb_forall. split.
  - intros H m Hm.
    assert (Hk : forall k, In k (keys p) -> coef p (act 0%nat g k) = coef p k).
    { intros k Hk. apply in_map_iff in Hk. destruct Hk as [[k' c] [E Hin]]. cbn in E. subst k'.
      specialize (H _ Hin). cbn in H. apply feqb_eq in H. rewrite H. symmetry. apply coef_in; assumption. }
    destruct (in_dec mon_dec m (keys p)) as [Hin|Hin]; [apply Hk; exact Hin|].
    rewrite (coef_notin K p m Hin).
    destruct (feq_dec K (coef p (act 0%nat g m)) 0) as [E|E]; [exact E|exfalso].
    set (S := filter (fun k => negb (coef p k =? 0)) (keys p)).
    assert (HS : NoDup S) by (apply NoDup_filter; exact Hnd).
    assert (HSin : forall k, In k S <-> coef p k <> 0).
    { intro k. unfold S. rewrite filter_In, negb_true_iff, feqb_neq. split; [tauto|]. intro H1. split; [|exact H1].
      destruct (in_dec mon_dec k (keys p)) as [H2|H2]; [exact H2|]. rewrite (coef_notin K p k H2) in H1. congruence. }
    assert (Hinj : forall k1 k2, length k1 = n -> length k2 = n -> act 0%nat g k1 = act 0%nat g k2 -> k1 = k2).
    { intros k1 k2 H1 H2 E12. rewrite <- (act_pinv_l n g k1 Hg H1), E12. apply (act_pinv_l n); assumption. }
    assert (HSk : forall k, In k S -> In k (keys p)) by (intros k Hk'; apply filter_In in Hk'; tauto).
    assert (Himg : NoDup (map (act 0%nat g) S)).
    { apply (NoDup_map_inv (act 0%nat (pinv g))). rewrite map_map.
      rewrite map_ext_in with (g := fun k => k); [rewrite map_id; exact HS|].
      intros k Hk'. apply (act_pinv_l n); [exact Hg|apply Hlen, HSk, Hk']. }
    assert (Hincl : incl (map (act 0%nat g) S) S).
    { intros k Hk'. apply in_map_iff in Hk'. destruct Hk' as [k0 [<- Hk0]]. apply HSin.
      rewrite Hk by (apply HSk; exact Hk0). apply HSin. exact Hk0. }
    assert (Hperm : Permutation (map (act 0%nat g) S) S).
    { apply NoDup_Permutation_bis; [exact Himg|rewrite map_length; lia|exact Hincl]. }
    apply HSin in E. apply (Permutation_in _ (Permutation_sym Hperm)) in E.
    apply in_map_iff in E. destruct E as [k [E Hk']].
    assert (k = m) by (apply Hinj; [apply Hlen, HSk, Hk'|exact Hm|exact E]). subst k.
    apply Hin, HSk, Hk'.
  - intros H [k c] Hin. cbn. apply feqb_eq. rewrite H.
    + apply coef_in; assumption.
    + apply Hlen. apply in_map_iff. exists (k, c). auto.
Qed.

Lemma coef_inv_mul n g h p : is_perm n g -> is_perm n h -> coef_inv n g p -> coef_inv n h p -> coef_inv n (pcomp g h) p.
Proof.
  intros Hg Hh H1 H2 m Hm. rewrite <- (act_comp 0%nat n); [|exact Hg|apply is_perm_length; exact Hh].
  rewrite H1; [apply H2; exact Hm|]. rewrite act_length. apply is_perm_length. exact Hh.
Qed.
Lemma coef_inv_pinv n g p : is_perm n g -> coef_inv n g p -> coef_inv n (pinv g) p.
Proof.
  intros Hg H m Hm. rewrite <- (H (act 0%nat (pinv g) m)).
  - rewrite (act_pinv_r n) by assumption. reflexivity.
  - rewrite act_length. apply is_perm_length, pinv_is_perm. exact Hg.
Qed.

Lemma generated_inv n gens p : (forall h, In h gens -> is_perm n h) ->
  (forall h, In h gens -> coef_inv n h p) -> forall g, generated n gens g -> coef_inv n g p.
Proof.
  intros Hp H g Hg. induction Hg as [g Hg| |g h Hg IH1 Hh IH2|g Hg IH].
  - apply H. exact Hg.
  - intros m Hm. rewrite act_id by exact Hm. reflexivity.
  - apply coef_inv_mul; try assumption; eapply generated_perm; eassumption.
  - apply coef_inv_pinv; [eapply generated_perm; eassumption|exact IH].
Qed.

Lemma perm1 g : is_perm 1 g -> g = [0%nat].
Proof.
  intro H. pose proof (is_perm_length 1 g H) as Hl. destruct g as [|a [|]]; try discriminate.
  f_equal. pose proof (is_perm_bound 1 [a] a H (or_introl eq_refl)). lia.
Qed.

Lemma is_cyclic_spec n gens p : wf n p -> (forall h, In h gens -> is_perm n h) ->
  (is_cyclic n gens p = true <-> forall g, generated n gens g -> invariant_under g p).
Proof.
  intros Hp Hg.
  assert (Hone : n = 1%nat -> forall g, generated n gens g -> coef_inv n g p).
  { intros -> g Hgg. apply (generated_perm 1 gens g Hg) in Hgg. apply perm1 in Hgg. subst g.
    intros m Hm. destruct m as [|a [|]]; try discriminate. reflexivity. }
  assert (Hiff : is_cyclic n gens p = true <-> forall g, generated n gens g -> coef_inv n g p).
  { unfold is_cyclic. destruct (Nat.eqb_spec n 1) as [E|E].
    - split; [intros _; apply Hone; exact E|reflexivity].
    - rewrite forallb_forall. split.
      + intro H. apply generated_inv; [exact Hg|]. intros h Hh. apply support_check; [apply Hg; exact Hh|exact Hp|].
        specialize (H h Hh). rewrite (is_perm_length n h (Hg h Hh)), Nat.eqb_refl in H. exact H.
      + intros H h Hh. rewrite (is_perm_length n h (Hg h Hh)), Nat.eqb_refl. cbn [negb].
        apply (support_check n); [apply Hg; exact Hh|exact Hp|]. apply H. apply gen_in. exact Hh. }
  rewrite Hiff. split; intros H g Hgg; pose proof (generated_perm n gens g Hg Hgg) as Hgp.
  - exact (proj2 (rename_invariant_iff K n g p Hgp Hp) (H g Hgg)).
  - exact (proj1 (rename_invariant_iff K n g p Hgp Hp) (H g Hgg)).
Qed.

(** *** verify_is_symmetric *)
Lemma verify_is_symmetric_spec p : wf 3 p ->
  (verify_is_symmetric p = true <-> invariant_under [1; 0; 2]%nat p).
Proof.
  intro Hp. assert (Hg : is_perm 3 [1; 0; 2]%nat) by (apply perm_swap).
  unfold verify_is_symmetric. rewrite (support_check 3 _ p Hg Hp). symmetry. exact (rename_invariant_iff K 3 _ p Hg Hp).
Qed.

(** *** verify_hom_cyclic *)
Lemma hc_div n : (3 * Z.to_nat ((Z.of_nat n - 1) / 3 + 1) >= n /\ 3 * Z.to_nat ((Z.of_nat n - 1) / 3 + 1) < n + 3)%nat.
Proof.
  pose proof (Z.div_mod (Z.of_nat n - 1) 3 ltac:(lia)) as H. pose proof (Z.mod_pos_bound (Z.of_nat n - 1) 3 ltac:(lia)).
  lia.
Qed.

Lemma verify_hom_cyclic_spec p : wf 3 p -> 
  (fst (verify_hom_cyclic p) = true <-> exists d, forall m, In m (keys p) -> list_sum m = d) /\
  (verify_hom_cyclic p = (true, true) <->
     (exists d, forall m, In m (keys p) -> list_sum m = d) /\ invariant_under [1; 2; 0]%nat p).
Proof.
  intro Hp.
  set (n := match p with [] => 0%nat | t :: _ => list_sum (fst t) end).
  assert (Hhom : forallb (fun t => Nat.eqb (list_sum (fst t)) n) p = true <-> exists d, forall m, In m (keys p) -> list_sum m = d).
  { rewrite forallb_forall. split.
    - intro H. exists n. intros m Hm. apply in_map_iff in Hm. destruct Hm as [t [<- Ht]]. apply Nat.eqb_eq. apply H. exact Ht.
    - intros [d Hd] t Ht. apply Nat.eqb_eq. rewrite (Hd (fst t)) by (apply in_map; exact Ht).
      unfold n. destruct p as [|t0 p']; [destruct Ht|]. symmetry. apply Hd. left. reflexivity. }
  assert (Hg : is_perm 3 [1; 2; 0]%nat).
  { unfold is_perm. cbn. apply Permutation_sym. eapply perm_trans; [apply perm_swap|]. apply perm_skip, perm_swap. }
  unfold verify_hom_cyclic. fold n.
  destruct (forallb (fun t => Nat.eqb (list_sum (fst t)) n) p) eqn:Eh; cbn [negb fst].
  2: { split; split; intro H; try discriminate.
       - apply Hhom in H. discriminate.
       - destruct H as [H _]. apply Hhom in H. discriminate. }
  pose proof (proj1 Hhom eq_refl) as Hd. split; [split; [intros _; exact Hd|reflexivity]|].
  assert (Hcyc : invariant_under [1;2;0]%nat p <-> coef_inv 3 [1;2;0]%nat p) by (exact (rename_invariant_iff K 3 _ p Hg Hp)).
  rewrite Hcyc. pose proof (hc_div n) as Hdiv.
  set (i0 := Z.to_nat ((Z.of_nat n - 1) / 3 + 1)) in *.
  match goal with |- (true, ?b) = _ <-> _ => assert (Hb : b = true <-> coef_inv 3 [1;2;0]%nat p) end.
  2: { split; intro H; [inversion H as [H1]; split; [exact Hd|apply Hb; exact H1]|f_equal; apply Hb, H]. }
  rewrite forallb_forall. split.
  - intros H m Hm.
    (* coefficients outside degree n vanish *)
    assert (Hz : forall m', list_sum m' <> n -> coef p m' = 0).
    { intros m' Hm'. apply coef_notin. intro Hin. apply Hm'. rewrite forallb_forall in Eh.
      apply in_map_iff in Hin. destruct Hin as [t [<- Ht]]. apply Nat.eqb_eq, Eh, Ht. }
    destruct m as [|a [|b [|c [|]]]]; try discriminate Hm. cbn [act map nth].
    destruct (Nat.eq_dec (a + b + c) n) as [E|E].
    2: { rewrite !Hz; [reflexivity| |]; cbn; lia. }
    assert (Hmain : forall i j, (j <= i -> n - i - j <= i -> i + j <= n ->
               coef p [i; j; n - i - j] = coef p [j; n - i - j; i] /\ coef p [i; j; n - i - j] = coef p [n - i - j; i; j])%nat).
    { intros i j H1 H2 H3. assert (Hi : In i (seq i0 (n + 1 - i0))) by (apply in_seq; lia).
      specialize (H i Hi). rewrite forallb_forall in H.
      assert (Hj : In j (seq (n - 2 * i) (Nat.min (i + 1) (n - i + 1) - (n - 2 * i)))) by (apply in_seq; lia).
      specialize (H j Hj). cbn zeta in H. apply andb_true_iff in H. destruct H as [Hu Hv].
      apply feqb_eq in Hu. apply feqb_eq in Hv.
      replace (n - j - (n - i - j))%nat with i in Hu by lia.
      replace (n - (n - i - j) - i)%nat with j in Hv by lia. split; assumption. }
    destruct (le_lt_dec b a) as [Hab|Hab]; destruct (le_lt_dec c a) as [Hac|Hac].
    + destruct (Hmain a b Hab ltac:(lia) ltac:(lia)) as [H1 H2]. replace (n - a - b)%nat with c in * by lia. congruence.
    + destruct (Hmain c a ltac:(lia) ltac:(lia) ltac:(lia)) as [H1 H2]. replace (n - c - a)%nat with b in * by lia. congruence.
    + destruct (Hmain b c ltac:(lia) ltac:(lia) ltac:(lia)) as [H1 H2]. replace (n - b - c)%nat with a in * by lia. congruence.
    + destruct (le_lt_dec b c) as [Hbc|Hbc].
      * destruct (Hmain c a ltac:(lia) ltac:(lia) ltac:(lia)) as [H1 H2]. replace (n - c - a)%nat with b in * by lia. congruence.
      * destruct (Hmain b c ltac:(lia) ltac:(lia) ltac:(lia)) as [H1 H2]. replace (n - b - c)%nat with a in * by lia. congruence.
  - intros H i Hi. apply in_seq in Hi. rewrite forallb_forall. intros j Hj. apply in_seq in Hj.
    cbn zeta. apply andb_true_iff.
    assert (E1 : (n - j - (n - i - j))%nat = i) by lia. assert (E2 : (n - (n - i - j) - i)%nat = j) by lia.
    rewrite E1, E2.
    pose proof (H [i; j; n - i - j]%nat eq_refl) as H1. cbn [act map nth] in H1.
    pose proof (H [n - i - j; i; j]%nat eq_refl) as H2. cbn [act map nth] in H2.
    split; apply feqb_eq; congruence.
Qed.

(** *** cancel_abc *)
Lemma zip_with_length {A B C} (f : A -> B -> C) l1 l2 : length l1 = length l2 -> length (zip_with f l1 l2) = length l1.
Proof. revert l2. induction l1; intros [|]; cbn; intros; try discriminate; [reflexivity|]. f_equal. apply IHl1. lia. Qed.
Lemma zip_with_nth (f : nat -> nat -> nat) l1 l2 i : length l1 = length l2 -> (i < length l1)%nat ->
  nth i (zip_with f l1 l2) 0%nat = f (nth i l1 0%nat) (nth i l2 0%nat).
Proof.
  revert l2 i. induction l1 as [|a l1 IH]; intros [|b l2] [|i]; cbn; intros; try lia; try reflexivity. apply IH; lia.
Qed.

Definition minexp (ms : list (list nat)) (d i : nat) : nat := fold_left (fun c m => Nat.min c (nth i m 0%nat)) ms d.
Lemma minexp_le ms : forall d i, (minexp ms d i <= d)%nat.
Proof. induction ms as [|m ms IH]; intros d i; cbn; [lia|]. specialize (IH (Nat.min d (nth i m 0%nat)) i). unfold minexp in *. lia. Qed.
Lemma minexp_le_in ms : forall d i m, In m ms -> (minexp ms d i <= nth i m 0)%nat.
Proof.
  induction ms as [|a ms IH]; intros d i m H; [destruct H|]. cbn. destruct H as [->|H].
  - pose proof (minexp_le ms (Nat.min d (nth i m 0%nat)) i). unfold minexp in *. lia.
  - apply IH. exact H.
Qed.
Lemma minexp_attained ms : forall d i, minexp ms d i = d \/ exists m, In m ms /\ nth i m 0%nat = minexp ms d i.
Proof.
  induction ms as [|a ms IH]; intros d i; [left; reflexivity|]. change (minexp (a :: ms) d i) with (minexp ms (Nat.min d (nth i a 0%nat)) i).
  destruct (IH (Nat.min d (nth i a 0%nat)) i) as [E|[m [H1 H2]]].
  - destruct (Nat.le_ge_cases d (nth i a 0%nat)) as [H|H].
    + left. lia.
    + right. exists a. split; [left; reflexivity|]. lia.
  - right. exists m. split; [right; exact H1|exact H2].
Qed.

Lemma cancel_loop_spec n ms : (forall m, In m ms -> length m = n) -> forall common, length common = n ->
  match cancel_loop ms common with
  | Some r => length r = n /\ forall i, (i < n)%nat -> nth i r 0%nat = minexp ms (nth i common 0%nat) i
  | None => forall i, (i < n)%nat -> minexp ms (nth i common 0%nat) i = 0%nat
  end.
Proof.
  induction ms as [|m ms IH]; intros Hlen common Hc; [cbn; auto|].
  cbn [cancel_loop]. assert (Hm : length m = n) by (apply Hlen; left; reflexivity).
  assert (Hz : length (zip_with Nat.min common m) = n) by (rewrite zip_with_length; congruence).
  destruct (forallb _ _) eqn:E.
  - intros i Hi. rewrite forallb_forall in E.
    assert (E0 : nth i (zip_with Nat.min common m) 0%nat = 0%nat).
    { apply Nat.eqb_eq. apply E. apply nth_In. rewrite Hz. exact Hi. }
    rewrite zip_with_nth in E0 by congruence. cbn [minexp fold_left].
    pose proof (minexp_le ms (Nat.min (nth i common 0%nat) (nth i m 0%nat)) i) as H. unfold minexp in *. cbn. lia.
  - assert (Hlen' : forall m0, In m0 ms -> length m0 = n) by (intros m0 H0; apply Hlen; right; exact H0).
    specialize (IH Hlen' _ Hz). destruct (cancel_loop ms _) as [r|].
    + destruct IH as [IH1 IH2]. split; [exact IH1|]. intros i Hi. rewrite (IH2 i Hi). rewrite zip_with_nth by congruence. reflexivity.
    + intros i Hi. specialize (IH i Hi). rewrite zip_with_nth in IH by congruence. exact IH.
Qed.

Lemma meval_split n (x : nat -> K) : forall m c, length m = n -> length c = n -> (forall i, (i < n)%nat -> (nth i c 0 <= nth i m 0)%nat) ->
  meval x m = meval x c * meval x (zip_with Nat.sub m c).
Proof.
  revert x. induction n as [|n IH]; intros x m c Hm Hc Hle.
  - destruct m; [|discriminate]. destruct c; [|discriminate]. cbn. ring.
  - destruct m as [|a m]; [discriminate|]. destruct c as [|b c]; [discriminate|]. cbn [zip_with]. rewrite !meval_cons.
    rewrite (IH _ m c) by (cbn in *; try lia; intros i Hi; apply (Hle (S i)); lia).
    assert (Hab : (b <= a)%nat) by (apply (Hle 0%nat); lia).
    replace a with (b + (a - b))%nat at 1 by lia. rewrite fpow_add. ring.
Qed.

Lemma peval_filter_nz (x : nat -> K) p : peval x (filter (fun t => negb (snd t =? 0)) p) = peval x p.
Proof.
  induction p as [|[k c] p IH]; [reflexivity|]. cbn [filter snd]. destruct (c =? 0) eqn:E; cbn [negb].
  - apply feqb_eq in E. subst c. unfold peval in *. cbn [map fsum fst snd]. rewrite IH. ring.
  - unfold peval in *. cbn [map fsum]. rewrite IH. reflexivity.
Qed.

Lemma meval_zero n (x : nat -> K) : meval x (repeat 0%nat n) = 1.
Proof.
  revert x. induction n as [|n IH]; intro x; [reflexivity|]. cbn [repeat]. rewrite meval_cons. rewrite IH. cbn. ring.
Qed.

Lemma cancel_abc_identity n p (x : nat -> K) : wf n p ->
  peval x p = meval x (fst (cancel_abc n p)) * peval x (snd (cancel_abc n p)).
Proof.
  intros [Hnd Hlen]. unfold cancel_abc. destruct p as [|t0 p0] eqn:Ep; [cbn; ring|]. rewrite <- Ep in *. clear Ep.
  pose proof (cancel_loop_spec n (keys p) Hlen (repeat (coeff_degree p + 1)%nat n) (repeat_length _ _)) as H.
  destruct (cancel_loop _ _) as [r|]; cbn [fst snd].
  - destruct H as [Hr H]. rewrite <- (peval_filter_nz x p). unfold peval. rewrite map_map. cbn [fst snd].
    rewrite <- fsum_map_mul_l. apply fsum_map_ext. intros t Ht. apply filter_In in Ht. destruct Ht as [Ht _].
    assert (Hk : In (fst t) (keys p)) by (apply in_map; exact Ht).
    rewrite (meval_split n x (fst t) r (Hlen _ Hk) Hr); [ring|].
    intros i Hi. rewrite (H i Hi). apply minexp_le_in. exact Hk.
  - rewrite meval_zero. ring.
Qed.

(** no variable divides what is left, provided every stored coefficient is non-zero and the
    degree of the first term is not exceeded by a common exponent (true for homogeneous
    polynomials and whenever the first term has the largest degree) *)
Lemma cancel_abc_maximal n p : wf n p -> p <> [] -> (forall m c, In (m, c) p -> c <> 0) ->
  forall i, (i < n)%nat -> exists m, In m (keys (snd (cancel_abc n p))) /\ nth i m 0%nat = 0%nat.
Proof.
  intros [Hnd Hlen] Hne Hnz i Hi. unfold cancel_abc.
  destruct p as [|[k0 c0] p0] eqn:Ep; [congruence|]. rewrite <- Ep in *.
  pose proof (cancel_loop_spec n (keys p) Hlen (repeat (coeff_degree p + 1)%nat n) (repeat_length _ _)) as H.
  assert (Hd : (nth i (repeat (coeff_degree p + 1)%nat n) 0 = coeff_degree p + 1)%nat).
  { rewrite nth_indep with (d' := (coeff_degree p + 1)%nat) by (rewrite repeat_length; exact Hi). apply nth_repeat. }
  assert (Hk0 : In k0 (keys p)) by (rewrite Ep; left; reflexivity).
  assert (Hlt : forall D, (minexp (keys p) D i <= coeff_degree p)%nat).
  { intro D. pose proof (minexp_le_in (keys p) D i k0 Hk0).
    assert (nth i k0 0%nat <= list_sum k0)%nat.
    { clear. revert i. induction k0 as [|a k IH]; intros [|i]; cbn; try lia. specialize (IH i). unfold list_sum in IH. lia. }
    assert (coeff_degree p = list_sum k0) by (rewrite Ep; reflexivity). lia. }
  destruct (minexp_attained (keys p) (coeff_degree p + 1)%nat i) as [E|[m [Hm E]]].
  { specialize (Hlt (coeff_degree p + 1)%nat). lia. }
  destruct (cancel_loop _ _) as [r|]; cbn [snd].
  - destruct H as [Hr H]. exists (zip_with Nat.sub m r). split.
    + unfold keys. rewrite map_map. cbn [fst]. apply in_map_iff in Hm. destruct Hm as [[m' c] [Em Hin]]. cbn in Em. subst m'.
      apply in_map_iff. exists (m, c). split; [reflexivity|]. apply filter_In. split; [exact Hin|].
      cbn. apply negb_true_iff, feqb_neq. apply (Hnz m c Hin).
    + rewrite zip_with_nth; [|rewrite (Hlen m Hm); congruence|rewrite (Hlen m Hm); exact Hi].
      rewrite (H i Hi), Hd. lia.
  - exists m. split; [exact Hm|]. rewrite E. specialize (H i Hi). rewrite Hd in H. exact H.
Qed.

(** *** cancel_k *)
Lemma gcd_loop_spec es : forall d,
  match gcd_loop es d with
  | Some g => (forall u, In u es -> Nat.divide g u) /\ Nat.divide g d /\
              (forall k, Nat.divide k d -> (forall u, In u es -> Nat.divide k u) -> Nat.divide k g)
  | None => forall k, Nat.divide k d -> (forall u, In u es -> Nat.divide k u) -> k = 1%nat
  end.
Proof.
  induction es as [|u es IH]; intro d; cbn [gcd_loop].
  - split; [intros u []|]. split; [apply Nat.divide_refl|]. intros k H _. exact H.
  - destruct (Nat.eqb_spec (Nat.gcd d u) 1) as [E|E].
    + intros k H1 H2. apply Nat.divide_1_r. rewrite <- E. apply Nat.gcd_greatest; [exact H1|apply H2; left; reflexivity].
    + specialize (IH (Nat.gcd d u)). destruct (gcd_loop es (Nat.gcd d u)) as [g|].
      * destruct IH as [H1 [H2 H3]]. split; [|split].
        -- intros v [<-|Hv]; [eapply Nat.divide_trans; [exact H2|apply Nat.gcd_divide_r]|apply H1; exact Hv].
        -- eapply Nat.divide_trans; [exact H2|apply Nat.gcd_divide_l].
        -- intros k Hk Hall. apply H3; [apply Nat.gcd_greatest; [exact Hk|apply Hall; left; reflexivity]|].
           intros v Hv. apply Hall. right. exact Hv.
      * intros k Hk Hall. apply IH; [apply Nat.gcd_greatest; [exact Hk|apply Hall; left; reflexivity]|].
        intros v Hv. apply Hall. right. exact Hv.
Qed.

Lemma meval_powk (x : nat -> K) d : d <> 0%nat -> forall m, (forall u, In u m -> Nat.divide d u) ->
  meval x m = meval (fun i => x i ^ d) (map (fun i => Nat.div i d) m).
Proof.
  intros Hd m. revert x. induction m as [|a m IH]; intros x H; [reflexivity|]. cbn [map]. rewrite !meval_cons.
  rewrite (IH (fun i => x (S i))) by (intros u Hu; apply H; right; exact Hu).
  f_equal. rewrite <- fpow_mul. f_equal. destruct (H a (or_introl eq_refl)) as [q ->]. rewrite Nat.div_mul by exact Hd. lia.
Qed.

Lemma concat_keys_in p m u : In m (keys p) -> In u m -> In u (concat (keys p)).
Proof. intros H1 H2. apply in_concat. exists m. auto. Qed.

Lemma meval_allzero (x y : nat -> K) m : (forall u, In u m -> u = 0%nat) -> meval x m = meval y m.
Proof.
  revert x y. induction m as [|a m IH]; intros x y H; [reflexivity|]. rewrite !meval_cons.
  rewrite (H a (or_introl eq_refl)). rewrite (IH (fun i => x (S i)) (fun i => y (S i))) by (intros u Hu; apply H; right; exact Hu). reflexivity.
Qed.

Lemma cancel_k_identity p (x : nat -> K) : peval x p = peval (fun i => x i ^ fst (cancel_k p)) (snd (cancel_k p)).
Proof.
  unfold cancel_k. destruct p as [|t0 p0] eqn:Ep; [reflexivity|]. rewrite <- Ep in *. clear Ep.
  assert (Hone : peval x p = peval (fun i => x i ^ 1) p).
  { unfold peval. apply fsum_map_ext. intros t _. f_equal. unfold meval. apply fprod_map_ext. intros i _. cbn [fpow]. f_equal. ring. }
  pose proof (gcd_loop_spec (concat (keys p)) 0) as H. destruct (gcd_loop (concat (keys p)) 0) as [[|d]|]; cbn [fst snd].
  - unfold peval. apply fsum_map_ext. intros t Ht. f_equal. apply meval_allzero. intros u Hu.
    destruct H as [H _]. apply Nat.divide_0_l. apply H. apply (concat_keys_in p (fst t)); [apply in_map; exact Ht|exact Hu].
  - rewrite <- (peval_filter_nz x p). unfold peval. rewrite map_map. cbn [fst snd]. apply fsum_map_ext. intros t Ht. f_equal.
    apply filter_In in Ht. destruct Ht as [Ht _].
    apply meval_powk; [lia|]. intros u Hu. destruct H as [H _]. apply H. apply (concat_keys_in p (fst t)); [apply in_map; exact Ht|exact Hu].
  - exact Hone.
Qed.

Lemma cancel_k_greatest p k : p <> [] ->
  (forall m u, In m (keys p) -> In u m -> Nat.divide k u) ->
  Nat.divide k (fst (cancel_k p)).
Proof.
  intros Hne Hk. unfold cancel_k. destruct p as [|t0 p0] eqn:Ep; [congruence|]. rewrite <- Ep in *. clear Ep.
  assert (Hall : forall u, In u (concat (keys p)) -> Nat.divide k u).
  { intros u Hu. apply in_concat in Hu. destruct Hu as [m [H1 H2]]. eapply Hk; eassumption. }
  pose proof (gcd_loop_spec (concat (keys p)) 0) as H. destruct (gcd_loop (concat (keys p)) 0) as [[|d]|]; cbn [fst].
  - apply Nat.divide_0_r.
  - destruct H as [_ [_ H]]. apply H; [apply Nat.divide_0_r|exact Hall].
  - rewrite (H k (Nat.divide_0_r k) Hall). apply Nat.divide_refl.
Qed.

(** *** addition and subtraction *)
Lemma dict_del_get p k k' : NoDup (keys p) -> dget (dict_del p k) k' = if meqb k' k then None else dget p k'.
Proof.
  induction p as [|[k0 v] p IH]; intro H; cbn; [destruct (meqb k' k); reflexivity|].
  cbn in H. apply NoDup_cons_iff in H. destruct H as [H1 H2].
  destruct (meqb_spec k k0) as [->|Hne].
  - destruct (meqb_spec k' k0) as [E0|E0]; [rewrite E0; apply dget_none; exact H1|reflexivity].
  - cbn. rewrite IH by exact H2. destruct (meqb_spec k' k0) as [E0|]; [|reflexivity].
    destruct (meqb_spec k' k); [congruence|reflexivity].
Qed.
Lemma dict_del_keys p k x : In x (keys (dict_del p k)) -> In x (keys p).
Proof.
  induction p as [|[k0 v] p IH]; cbn; [tauto|]. destruct (meqb k k0); cbn; [tauto|]. intros [H|H]; [tauto|]. right. apply IH. exact H.
Qed.
Lemma dict_del_nodup p k : NoDup (keys p) -> NoDup (keys (dict_del p k)).
Proof.
  induction p as [|[k0 v] p IH]; cbn; intro H; [constructor|]. apply NoDup_cons_iff in H. destruct H as [H1 H2].
  destruct (meqb k k0); [exact H2|]. cbn. constructor; [|apply IH; exact H2]. intro Hin. apply H1. eapply dict_del_keys. exact Hin.
Qed.

Lemma coeff_operator_coef op p q : op 0 0 = 0 -> NoDup (keys p) -> NoDup (keys q) ->
  NoDup (keys (coeff_operator op p q)) /\
  forall m, coef (coeff_operator op p q) m = match dget q m with Some c => op (coef p m) c | None => coef p m end.
Proof.
  intros Hop Hp Hq. unfold coeff_operator.
  set (F := fun (acc : poly K) (t : list nat * K) => _).
  assert (Hgen : forall l acc, NoDup (keys l) -> NoDup (keys acc) -> (forall m, In m (keys l) -> coef acc m = coef p m) ->
    NoDup (keys (fold_left F l acc)) /\
    forall m, coef (fold_left F l acc) m = match dget l m with Some c => op (coef p m) c | None => coef acc m end).
  { induction l as [|[k c] l IH]; intros acc Hl Hacc Hag; [split; [exact Hacc|reflexivity]|].
    cbn in Hl. apply NoDup_cons_iff in Hl. destruct Hl as [Hk Hl]. cbn [fold_left].
    assert (HF : NoDup (keys (F acc (k, c))) /\ forall m, coef (F acc (k, c)) m = if meqb m k then op (coef p k) c else coef acc m).
    { unfold F. cbn [fst snd]. destruct (op (coef p k) c =? 0) eqn:E3; cbn [andb negb].
      - apply feqb_eq in E3. rewrite E3. destruct (coef p k =? 0) eqn:E1; cbn [negb].
        + split; [exact Hacc|]. intro m. destruct (meqb_spec m k) as [->|]; [|reflexivity].
          rewrite Hag by (left; reflexivity). apply feqb_eq. exact E1.
        + split; [apply dict_del_nodup; exact Hacc|]. intro m. unfold coef at 1. rewrite dict_del_get by exact Hacc.
          destruct (meqb m k); reflexivity.
      - split; [apply dset_NoDup; exact Hacc|]. intro m. unfold coef at 1. destruct (meqb_spec m k) as [->|Hne].
        + rewrite dget_dset_same. reflexivity.
        + rewrite dget_dset_other by exact Hne. reflexivity. }
    destruct HF as [HF1 HF2].
    destruct (IH (F acc (k, c)) Hl HF1) as [H1 H2].
    - intros m Hm. rewrite HF2. destruct (meqb_spec m k) as [->|]; [contradiction|]. apply Hag. right. exact Hm.
    - split; [exact H1|]. intro m. rewrite H2, HF2. cbn [dget]. destruct (meqb_spec m k) as [->|]; [|reflexivity].
      apply dget_none in Hk. rewrite Hk. reflexivity. }
  apply Hgen; [exact Hq|exact Hp|reflexivity].
Qed.

Lemma coeff_sub_peval p q (x : nat -> K) : NoDup (keys p) -> NoDup (keys q) -> peval x (coeff_sub p q) = peval x p - peval x q.
Proof.
  intros Hp Hq. destruct (coeff_operator_coef fsub p q) as [H1 H2]; [ring|exact Hp|exact Hq|].
  apply peval_combine; try assumption. intro m. unfold coeff_sub. rewrite H2.
  assert (Eq : coef q m = match dget q m with Some c => c | None => 0 end) by reflexivity. rewrite Eq.
  destruct (dget q m); [reflexivity|ring].
Qed.
Lemma coeff_add_peval p q (x : nat -> K) : NoDup (keys p) -> NoDup (keys q) -> peval x (coeff_add p q) = peval x p + peval x q.
Proof.
  intros Hp Hq. destruct (coeff_operator_coef fadd p q) as [H1 H2]; [ring|exact Hp|exact Hq|].
  assert (E : peval x p = peval x (coeff_add p q) - peval x q).
  { apply peval_combine; try assumption. intro m. unfold coeff_add. rewrite H2.
    assert (Eq : coef q m = match dget q m with Some c => c | None => 0 end) by reflexivity. rewrite Eq.
    destruct (dget q m); ring. }
  rewrite E. ring.
Qed.
End CoeffProofs.
