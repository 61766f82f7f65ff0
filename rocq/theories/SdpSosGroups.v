(** * SDPSOS: the groups of equal entries are orbits (SdpSos.v) *)
From Coq Require Import Bool List Arith Lia Permutation Sorted Ring Field.
From Verif Require Import OrdField Base Congruence LinSolve LinSep Perm Poly PolyId PolyOps Partitions Shared Monomials MonomialsLemmas Coeff ClearSym SdpSos SdpSosFacts SdpSosCert.
Import ListNotations.

(** ** Families of groups over consecutive columns *)
Section Blocks.
Context {A : Type}.
Variable da : A.
Variable rel : A -> A -> Prop.
Record blk (cs : list A) (off : nat) (gs : list (list nat)) : Prop := {
  b_ne : forall g, In g gs -> g <> [];
  b_nodup : forall g, In g gs -> NoDup g;
  b_range : forall g k, In g gs -> In k g -> off <= k < off + length cs;
  b_mem : forall g k k', In g gs -> In k g -> (In k' g <-> off <= k' < off + length cs /\ rel (nth (k - off) cs da) (nth (k' - off) cs da));
  b_disj : forall g g' k, In g gs -> In g' gs -> In k g -> In k g' -> g = g';
  b_cover : forall a b, a < length cs -> b < length cs -> rel (nth a cs da) (nth b cs da) -> exists g, In g gs /\ In (off + a) g
}.
Lemma blk_nil cs off : (forall a b, In a cs -> In b cs -> ~ rel a b) -> blk cs off [].
Proof.
  intro H. split; [intros g []|intros g []|intros g k []|intros g k k' []|intros g g' k []|].
  intros a b Ha Hb R. exfalso. apply (H (nth a cs da) (nth b cs da)); try apply nth_In; assumption.
Qed.
Lemma blk_app cs1 cs2 off g1 g2 : (forall a b, In a cs1 -> In b cs2 -> ~ rel a b /\ ~ rel b a) ->
  blk cs1 off g1 -> blk cs2 (off + length cs1) g2 -> blk (cs1 ++ cs2) off (g1 ++ g2).
Proof.
  intros HX B1 B2.
  assert (R1 : forall g k, In g g1 -> In k g -> off <= k < off + length cs1) by apply (b_range _ _ _ B1).
  assert (R2 : forall g k, In g g2 -> In k g -> off + length cs1 <= k < off + length cs1 + length cs2) by apply (b_range _ _ _ B2).
  split.
  - intros g Hg. apply in_app_or in Hg. destruct Hg; [apply (b_ne _ _ _ B1)|apply (b_ne _ _ _ B2)]; assumption.
  - intros g Hg. apply in_app_or in Hg. destruct Hg; [apply (b_nodup _ _ _ B1)|apply (b_nodup _ _ _ B2)]; assumption.
  - intros g k Hg Hk. rewrite app_length. apply in_app_or in Hg. destruct Hg as [Hg|Hg]; [specialize (R1 g k Hg Hk)|specialize (R2 g k Hg Hk)]; lia.
  - intros g k k' Hg Hk. rewrite app_length. apply in_app_or in Hg. destruct Hg as [Hg|Hg].
    + pose proof (R1 g k Hg Hk) as Rk. rewrite (app_nth1 cs1 cs2 da (n := k - off)) by lia. rewrite (b_mem _ _ _ B1 g k k' Hg Hk). split.
      * intros [Rk' R]. rewrite app_nth1 by lia. split; [lia|exact R].
      * intros [Rk' R]. destruct (Nat.lt_ge_cases k' (off + length cs1)) as [L|L].
        -- rewrite app_nth1 in R by lia. split; [lia|exact R].
        -- exfalso. rewrite app_nth2 in R by lia. destruct (HX (nth (k - off) cs1 da) (nth (k' - off - length cs1) cs2 da)) as [X Y]; [apply nth_In; lia|apply nth_In; lia|contradiction].
    + pose proof (R2 g k Hg Hk) as Rk. rewrite (app_nth2 cs1 cs2 da (n := k - off)) by lia. rewrite (b_mem _ _ _ B2 g k k' Hg Hk).
      replace (k - (off + length cs1)) with (k - off - length cs1) by lia. split.
      * intros [Rk' R]. rewrite app_nth2 by lia. replace (k' - (off + length cs1)) with (k' - off - length cs1) in R by lia. split; [lia|exact R].
      * intros [Rk' R]. destruct (Nat.lt_ge_cases k' (off + length cs1)) as [L|L].
        -- exfalso. rewrite app_nth1 in R by lia. destruct (HX (nth (k' - off) cs1 da) (nth (k - off - length cs1) cs2 da)) as [X Y]; [apply nth_In; lia|apply nth_In; lia|contradiction].
        -- rewrite app_nth2 in R by lia. replace (k' - (off + length cs1)) with (k' - off - length cs1) by lia. split; [lia|exact R].
  - intros g g' k Hg Hg' Hk Hk'. apply in_app_or in Hg. apply in_app_or in Hg'. destruct Hg as [Hg|Hg], Hg' as [Hg'|Hg'].
    + apply (b_disj _ _ _ B1 g g' k); assumption.
    + specialize (R1 g k Hg Hk). specialize (R2 g' k Hg' Hk'). lia.
    + specialize (R2 g k Hg Hk). specialize (R1 g' k Hg' Hk'). lia.
    + apply (b_disj _ _ _ B2 g g' k); assumption.
  - intros a b Ha Hb R. rewrite app_length in *. destruct (Nat.lt_ge_cases a (length cs1)) as [La|La], (Nat.lt_ge_cases b (length cs1)) as [Lb|Lb].
    + rewrite !app_nth1 in R by lia. destruct (b_cover _ _ _ B1 a b La Lb R) as [g [H1 H2]]. exists g. split; [apply in_or_app; left; exact H1|exact H2].
    + exfalso. rewrite app_nth1, app_nth2 in R by lia. destruct (HX (nth a cs1 da) (nth (b - length cs1) cs2 da)) as [X Y]; [apply nth_In; lia|apply nth_In; lia|contradiction].
    + exfalso. rewrite app_nth2, app_nth1 in R by lia. destruct (HX (nth b cs1 da) (nth (a - length cs1) cs2 da)) as [X Y]; [apply nth_In; lia|apply nth_In; lia|contradiction].
    + rewrite !app_nth2 in R by lia. destruct (b_cover _ _ _ B2 (a - length cs1) (b - length cs1)) as [g [H1 H2]]; [lia|lia|exact R|].
      exists g. split; [apply in_or_app; right; exact H1|]. replace (off + a) with (off + length cs1 + (a - length cs1)) by lia. exact H2.
Qed.
End Blocks.

(** a set of integers as a list *)
Definition order_ok (order : list nat -> list nat) : Prop :=
  (forall l, NoDup (order l)) /\ (forall l k, In k (order l) <-> In k l) /\
  (forall l l', (forall k, In k l <-> In k l') -> order l = order l').

Section Groups.
Variable K : OrdField.
Variable n : nat.
Variable G : list (list nat).
Variable gens : list (list nat).
Variable order : list nat -> list nat.
Hypothesis HG : is_group n G.
Hypothesis Hgens : forall p, In p G <-> generated n gens p.
Hypothesis HO : order_ok order.

Definition symm (g : poly K) : Prop := forall p, In p G -> invariant_under p g.
Lemma gens_perm h : In h gens -> is_perm n h.
Proof. intro H. apply (g_perm n G HG), Hgens, gen_in, H. Qed.
Lemma is_sym_spec g : wf n g -> (is_sym n gens g = true <-> symm g).
Proof.
  intro Hw. unfold is_sym, symm. rewrite (is_cyclic_spec K n gens g Hw gens_perm). split; intros H p Hp; apply H, Hgens, Hp.
Qed.
Lemma symm_coef g : wf n g -> symm g -> coef_sym K n G g.
Proof. intros Hw H p m Hp Hm. exact (proj1 (rename_invariant_iff K n p g (g_perm n G HG p Hp) Hw) (H p Hp) m Hm). Qed.

(** ** Orbits of pairs *)
Definition orb1 (u u' : list nat) : Prop := exists p, In p G /\ u' = act 0 p u.
Definition orb2 (u w u' w' : list nat) : Prop :=
  exists p, In p G /\ ((u' = act 0 p u /\ w' = act 0 p w) \/ (u' = act 0 p w /\ w' = act 0 p u)).
Lemma orb2_refl u w : length u = n -> length w = n -> orb2 u w u w.
Proof. intros Hu Hw. exists (pid n). split; [apply (g_id n G HG)|]. left. rewrite !act_id by assumption. auto. Qed.
Lemma orb2_sym u w u' w' : length u = n -> length w = n -> orb2 u w u' w' -> orb2 u' w' u w.
Proof.
  intros Hu Hw (p & Hp & H). pose proof (pinv_in n G p HG Hp) as Hi. exists (pinv p). split; [exact Hi|].
  assert (E : forall m, length m = n -> act 0 (pinv p) (act 0 p m) = m).
  { intros m Hm. apply (act_inv n G HG); [exact Hi|exact Hp|apply (pinv_l n p (g_perm n G HG p Hp))|exact Hm]. }
  destruct H as [[-> ->]|[-> ->]]; rewrite !E by assumption; auto.
Qed.
Lemma orb2_trans u w u' w' u'' w'' : orb2 u w u' w' -> orb2 u' w' u'' w'' -> orb2 u w u'' w''.
Proof.
  intros (p & Hp & H) (r & Hr & H'). exists (pcomp r p). split; [apply (g_mul n G HG); assumption|].
  pose proof (is_perm_length n p (g_perm n G HG p Hp)) as Lp. pose proof (g_perm n G HG r Hr) as Pr.
  destruct H as [[-> ->]|[-> ->]], H' as [[-> ->]|[-> ->]]; rewrite !(act_comp 0 n r p) by assumption; auto.
Qed.
Lemma orb1_sym u u' : length u = n -> orb1 u u' -> orb1 u' u.
Proof. intros Hu (p & Hp & E). destruct (orb2_sym u u u' u' Hu Hu) as (r & Hr & H); [exists p; auto|]. exists r. split; [exact Hr|]. destruct H as [[E' _]|[E' _]]; exact E'. Qed.
Lemma orb1_trans u u' u'' : orb1 u u' -> orb1 u' u'' -> orb1 u u''.
Proof.
  intros (p & Hp & E) (r & Hr & E'). destruct (orb2_trans u u u' u' u'' u'') as (s & Hs & H); [exists p; auto|exists r; auto|].
  exists s. split; [exact Hs|]. destruct H as [[H _]|[H _]]; exact H.
Qed.

(** ** A list of monomials closed under the group, in decreasing order *)
Section Vec.
Variable v : list (list nat).
Hypothesis Vlen : forall m, In m v -> length m = n.
Hypothesis Vact : forall m p, In m v -> In p G -> In (act 0 p m) v.
Hypothesis Vsort : StronglySorted lex_gt v.
Notation s := (length v).
Lemma Vnd : NoDup v.
Proof. apply sorted_NoDup, Vsort. Qed.
Lemma nth_len i : i < s -> length (nth i v []) = n.
Proof. intro H. apply Vlen, nth_In, H. Qed.
Lemma nth_inj i j : i < s -> j < s -> nth i v [] = nth j v [] -> i = j.
Proof. intros Hi Hj. apply (proj1 (NoDup_nth v []) Vnd); assumption. Qed.
Lemma index_act i p : i < s -> In p G -> exists i2, index_of (act 0 p (nth i v [])) v = Some i2 /\ i2 < s /\ nth i2 v [] = act 0 p (nth i v []).
Proof.
  intros Hi Hp. destruct (index_of (act 0 p (nth i v [])) v) as [i2|] eqn:E.
  - exists i2. split; [reflexivity|]. apply index_of_some, E.
  - exfalso. apply index_of_none in E. apply E, Vact; [apply nth_In, Hi|exact Hp].
Qed.
Lemma lex_gt_cmp a : forall b, lex_gt a b -> lex_cmp a b = Gt.
Proof. intros b H. induction H; cbn; [rewrite (proj2 (Nat.compare_gt_iff x y)) by lia; reflexivity|rewrite Nat.compare_refl; exact IHlex_gt]. Qed.
Lemma sort_nth i j : i < j -> j < s -> lex_cmp (nth i v []) (nth j v []) = Gt.
Proof.
  clear Vlen Vact. intros Hij Hj. apply lex_gt_cmp. revert i j Hij Hj. induction Vsort as [|a l Hs IH F]; intros i j Hij Hj; [cbn in Hj; lia|].
  destruct j as [|j]; [lia|]. cbn [length] in Hj. destruct i as [|i]; cbn [nth].
  - apply (proj1 (Forall_forall _ _) F). apply nth_In. lia.
  - apply IH; [exact Hs|lia|lia].
Qed.
(** every pair has a representative with a standard first component before the second one *)
Lemma pair_rep a b : a < s -> b < s -> exists i j, i <= j /\ j < s /\ is_standard_monom G (nth i v []) = true /\
  orb2 (nth i v []) (nth j v []) (nth a v []) (nth b v []).
Proof.
  assert (W : forall a b, a < s -> b < s -> exists i j, i < s /\ j < s /\ nth i v [] = standard_monom G (nth a v []) /\ orb2 (nth a v []) (nth b v []) (nth i v []) (nth j v [])).
  { intros a' b' Ha Hb. pose proof (standard_in_orbit n G HG (nth a' v [])) as I. apply in_map_iff in I. destruct I as (p & E & Hp).
    destruct (index_act a' p Ha Hp) as (i & _ & Hi & Ei). destruct (index_act b' p Hb Hp) as (j & _ & Hj & Ej).
    exists i, j. split; [exact Hi|]. split; [exact Hj|]. split; [congruence|]. exists p. auto. }
  assert (ST : forall i a', a' < s -> nth i v [] = standard_monom G (nth a' v []) -> is_standard_monom G (nth i v []) = true).
  { intros i a' Ha E. unfold is_standard_monom. rewrite E, (standard_idem n G HG) by (apply nth_len, Ha). apply meqb_refl. }
  intros Ha Hb. destruct (W a b Ha Hb) as (i & j & Hi & Hj & Ei & R). destruct (Nat.le_gt_cases i j) as [L|L].
  - exists i, j. split; [exact L|]. split; [exact Hj|]. split; [apply (ST i a); assumption|]. apply orb2_sym; [apply nth_len, Ha|apply nth_len, Hb|exact R].
  - destruct (W b a Hb Ha) as (i' & j' & Hi' & Hj' & Ei' & R'). destruct (Nat.le_gt_cases i' j') as [L'|L'].
    + exists i', j'. split; [exact L'|]. split; [exact Hj'|]. split; [apply (ST i' b); assumption|].
      apply orb2_sym in R'; [|apply nth_len, Hb|apply nth_len, Ha]. destruct R' as (p & Hp & H). exists p. split; [exact Hp|]. tauto.
    + exfalso.
      assert (M : forall k c, k < s -> c < s -> orb1 (nth c v []) (nth k v []) -> lex_ge (standard_monom G (nth c v [])) (nth k v [])).
      { intros k c Hk Hc (p & Hp & E). rewrite E. apply lex_max_ge. unfold permute. apply (in_map (fun p => act 0 p (nth c v []))), Hp. }
      assert (C : forall k c, k < s -> c < s -> orb1 (nth a v []) (nth k v []) \/ orb1 (nth b v []) (nth k v []) -> True) by auto.
      pose proof (sort_nth j i L Hi) as C1. pose proof (sort_nth j' i' L' Hi') as C2.
      (* v_j is an image of v_b or v_i is; in both cases the maxima contradict the order *)
      assert (B1 : lex_ge (standard_monom G (nth b v [])) (nth j v []) \/ (lex_ge (standard_monom G (nth a v [])) (nth j v []))).
      { destruct R as (p & Hp & [[_ E]|[_ E]]); [left|right]; (apply M; [exact Hj|assumption|exists p; auto]). }
      assert (B2 : lex_ge (standard_monom G (nth a v [])) (nth j' v []) \/ lex_ge (standard_monom G (nth b v [])) (nth j' v [])).
      { destruct R' as (p & Hp & [[_ E]|[_ E]]); [left|right]; (apply M; [exact Hj'|assumption|exists p; auto]). }
      rewrite Ei in C1. rewrite Ei' in C2. unfold lex_ge in *.
      assert (T : forall x y, lex_cmp x y = Gt -> lex_cmp y x = Lt) by (intros x y E; rewrite (lex_cmp_sym x y), E; reflexivity).
      destruct B1 as [B1|B1]; [|apply B1, T, C1].
      destruct B2 as [B2|B2]; [|apply B2, T, C2].
      assert (D1 : lex_cmp (standard_monom G (nth b v [])) (standard_monom G (nth a v [])) = Gt).
      { destruct (lex_cmp (standard_monom G (nth b v [])) (nth j v [])) eqn:E; [apply lex_cmp_eq in E; rewrite E; exact C1|congruence|eapply lex_cmp_trans; eassumption]. }
      assert (D2 : lex_cmp (standard_monom G (nth a v [])) (standard_monom G (nth b v [])) = Gt).
      { destruct (lex_cmp (standard_monom G (nth a v [])) (nth j' v [])) eqn:E; [apply lex_cmp_eq in E; rewrite E; exact C2|congruence|eapply lex_cmp_trans; eassumption]. }
      apply T in D1. congruence.
Qed.
Lemma cell_inj i j i' j' : j < s -> j' < s -> i * s + j = i' * s + j' -> i = i' /\ j = j'.
Proof. intros Hj Hj' E. assert (i = i') by nia. subst. lia. Qed.
Lemma cell_lt i j : i < s -> j < s -> i * s + j < s * s.
Proof. nia. Qed.
Lemma cell_split k : k < s * s -> exists i j, i < s /\ j < s /\ k = i * s + j.
Proof.
  intro H. assert (Z : s <> 0) by nia. exists (k / s), (k mod s). split; [apply Nat.div_lt_upper_bound; nia|]. split; [apply Nat.mod_upper_bound, Z|].
  rewrite Nat.mul_comm. apply Nat.div_mod, Z.
Qed.
(** the cells of the pairs in the orbit of a pair *)
Lemma pair_cells off i j k : i < s -> j < s ->
  (In k ([i * s + j + off; j * s + i + off] ++
         flat_map (fun p => match index_of (act 0 p (nth i v [])) v, index_of (act 0 p (nth j v [])) v with
                            | Some i2, Some j2 => [i2 * s + j2 + off; j2 * s + i2 + off]
                            | _, _ => []
                            end) G)
   <-> exists a b, a < s /\ b < s /\ k = a * s + b + off /\ orb2 (nth i v []) (nth j v []) (nth a v []) (nth b v [])).
Proof.
  intros Hi Hj. rewrite in_app_iff, in_flat_map. split.
  - intros [[<-|[<-|[]]]|(p & Hp & H)].
    + exists i, j. split; [exact Hi|]. split; [exact Hj|]. split; [reflexivity|]. apply orb2_refl; apply nth_len; assumption.
    + exists j, i. split; [exact Hj|]. split; [exact Hi|]. split; [reflexivity|]. exists (pid n). split; [apply (g_id n G HG)|]. right.
      rewrite !act_id by (apply nth_len; assumption). auto.
    + destruct (index_act i p Hi Hp) as (i2 & E1 & L1 & N1). destruct (index_act j p Hj Hp) as (j2 & E2 & L2 & N2). rewrite E1, E2 in H.
      destruct H as [<-|[<-|[]]]; [exists i2, j2|exists j2, i2]; (split; [assumption|]; split; [assumption|]; split; [reflexivity|]; exists p; auto).
  - intros (a & b & Ha & Hb & -> & p & Hp & H). right. exists p. split; [exact Hp|].
    destruct (index_act i p Hi Hp) as (i2 & E1 & L1 & N1). destruct (index_act j p Hj Hp) as (j2 & E2 & L2 & N2). rewrite E1, E2.
    destruct H as [[Ea Eb]|[Ea Eb]].
    + left. f_equal. f_equal; [|apply nth_inj; congruence]. f_equal. apply nth_inj; congruence.
    + right. left. f_equal. f_equal; [|apply nth_inj; congruence]. f_equal. apply nth_inj; congruence.
Qed.
Lemma single_cells off i k : i < s ->
  (In k ((i + off) :: flat_map (fun p => match index_of (act 0 p (nth i v [])) v with Some i2 => [i2 + off] | None => [] end) G)
   <-> exists a, a < s /\ k = a + off /\ orb1 (nth i v []) (nth a v [])).
Proof.
  intros Hi. cbn [In]. rewrite in_flat_map. split.
  - intros [<-|(p & Hp & H)].
    + exists i. split; [exact Hi|]. split; [reflexivity|]. exists (pid n). split; [apply (g_id n G HG)|]. rewrite act_id by (apply nth_len; assumption). reflexivity.
    + destruct (index_act i p Hi Hp) as (i2 & E1 & L1 & N1). rewrite E1 in H. destruct H as [<-|[]]. exists i2. split; [exact L1|]. split; [reflexivity|]. exists p. auto.
  - intros (a & Ha & -> & p & Hp & E). right. exists p. split; [exact Hp|].
    destruct (index_act i p Hi Hp) as (i2 & E1 & L1 & N1). rewrite E1. left. f_equal. apply nth_inj; congruence.
Qed.
End Vec.

Lemma sorted_filter {A} (R : A -> A -> Prop) (h : A -> bool) l : StronglySorted R l -> StronglySorted R (filter h l).
Proof.
  induction 1 as [|a l H IH F]; cbn [filter]; [constructor|]. destruct (h a); [|exact IH]. constructor; [exact IH|].
  apply Forall_forall. intros b Hb. apply filter_In in Hb. apply (proj1 (Forall_forall _ _) F), Hb.
Qed.
Lemma base_sorted e : StronglySorted lex_gt (base_monoms n true e).
Proof. apply sorted_filter, generate_partitions_sorted. Qed.
Lemma base_len e m : In m (base_monoms n true e) -> length m = n.
Proof. intro H. apply base_monoms_in in H. apply H. Qed.
Lemma base_act e m p : In m (base_monoms n true e) -> In p G -> In (act 0 p m) (base_monoms n true e).
Proof. intros H Hp. apply base_monoms_act; [apply (g_perm n G HG), Hp|exact H]. Qed.

(** ** The relation between columns *)
Definition rel (c c' : col (K := K)) : Prop :=
  match c, c' with
  | Gram k g u w, Gram k' _ u' w' =>
      k = k' /\ ((symm g /\ orb2 u w u' w') \/ (~ symm g /\ u <> w /\ ((u' = u /\ w' = w) \/ (u' = w /\ w' = u))))
  | Mult k h u, Mult k' _ u' => k = k' /\ symm h /\ orb1 u u'
  | _, _ => False
  end.
Notation dc := (Mult 0 [] []).
Lemma nth_grid (h : list nat -> list nat -> col (K := K)) v j : j < length v -> forall w i, i < length w ->
  nth (i * length v + j) (flat_map (fun u => map (h u) v) w) dc = h (nth i w []) (nth j v []).
Proof.
  intros Hj w. induction w as [|u w IH]; intros i Hi; [cbn in Hi; lia|]. cbn [flat_map]. destruct i as [|i].
  - cbn [Nat.mul Nat.add nth]. rewrite app_nth1 by (rewrite map_length; exact Hj).
    rewrite nth_indep with (d' := h u []) by (rewrite map_length; exact Hj). rewrite map_nth. reflexivity.
  - cbn [length] in Hi. rewrite app_nth2 by (rewrite map_length; lia). rewrite map_length.
    replace (S i * length v + j - length v) with (i * length v + j) by lia. rewrite IH by lia. reflexivity.
Qed.
Lemma gram_blk d off k g : wf n g -> blk dc rel (gram_cols n d k g) off (gram_groups n G gens order d off g).
Proof.
  intro Hw. unfold gram_groups. set (v := gram_vec n d g).
  assert (Vl : forall m, In m v -> length m = n) by apply base_len.
  assert (Va : forall m p, In m v -> In p G -> In (act 0 p m) v) by apply base_act.
  assert (Vs : StronglySorted lex_gt v) by apply base_sorted.
  assert (LC : length (gram_cols n d k g) = length v * length v) by apply gram_cols_length.
  assert (NC : forall i j, i < length v -> j < length v -> nth (i * length v + j) (gram_cols n d k g) dc = Gram k g (nth i v []) (nth j v [])).
  { intros i j Hi Hj. exact (nth_grid (Gram k g) v j Hj v i Hi). }
  destruct (is_sym n gens g) eqn:Es; cbn [negb].
  - apply (is_sym_spec g Hw) in Es.
    assert (GR : forall gr, In gr (flat_map (fun i => if is_standard_monom G (nth i v []) then
        map (fun j => order ([i * length v + j + off; j * length v + i + off] ++
               flat_map (fun p => match index_of (act 0 p (nth i v [])) v, index_of (act 0 p (nth j v [])) v with
                                  | Some i2, Some j2 => [i2 * length v + j2 + off; j2 * length v + i2 + off]
                                  | _, _ => [] end) G)) (seq i (length v - i)) else []) (seq 0 (length v))) <->
      exists i j, i <= j /\ j < length v /\ is_standard_monom G (nth i v []) = true /\
        gr = order ([i * length v + j + off; j * length v + i + off] ++
               flat_map (fun p => match index_of (act 0 p (nth i v [])) v, index_of (act 0 p (nth j v [])) v with
                                  | Some i2, Some j2 => [i2 * length v + j2 + off; j2 * length v + i2 + off]
                                  | _, _ => [] end) G)).
    { intro gr. rewrite in_flat_map. split.
      - intros (i & Hi & H). apply in_seq in Hi. destruct (is_standard_monom G (nth i v [])) eqn:E; [|destruct H].
        apply in_map_iff in H. destruct H as (j & <- & Hj). apply in_seq in Hj. exists i, j. split; [lia|]. split; [lia|]. auto.
      - intros (i & j & Hij & Hj & E & ->). exists i. split; [apply in_seq; lia|]. rewrite E. apply in_map_iff. exists j. split; [reflexivity|]. apply in_seq. lia. }
    match goal with |- blk _ _ _ _ ?X => set (gs := X) in * end.
    assert (CELL : forall i j, i < length v -> j < length v -> forall x, In x (order ([i * length v + j + off; j * length v + i + off] ++
               flat_map (fun p => match index_of (act 0 p (nth i v [])) v, index_of (act 0 p (nth j v [])) v with
                                  | Some i2, Some j2 => [i2 * length v + j2 + off; j2 * length v + i2 + off]
                                  | _, _ => [] end) G)) <-> exists a b, a < length v /\ b < length v /\ x = a * length v + b + off /\ orb2 (nth i v []) (nth j v []) (nth a v []) (nth b v [])).
    { intros i j Hi Hj x. rewrite (proj1 (proj2 HO)). apply (pair_cells v Vl Va Vs); assumption. }
    split.
    + intros gr Hg E. apply GR in Hg. destruct Hg as (i & j & Hij & Hj & _ & ->).
      assert (X : In (i * length v + j + off) []); [|destruct X]. rewrite <- E. apply (CELL i j); [lia|exact Hj|].
      exists i, j. split; [lia|]. split; [exact Hj|]. split; [reflexivity|]. apply orb2_refl; apply (nth_len v Vl); lia.
    + intros gr Hg. apply GR in Hg. destruct Hg as (i & j & _ & _ & _ & ->). apply (proj1 HO).
    + intros gr x Hg Hx. apply GR in Hg. destruct Hg as (i & j & Hij & Hj & _ & ->). apply (CELL i j) in Hx; [|lia|exact Hj].
      destruct Hx as (a & b & Ha & Hb & -> & _). rewrite LC. pose proof (cell_lt v a b Ha Hb). lia.
    + intros gr x x' Hg Hx. apply GR in Hg. destruct Hg as (i & j & Hij & Hj & _ & ->). assert (Hi : i < length v) by lia.
      apply (CELL i j Hi Hj) in Hx. destruct Hx as (a & b & Ha & Hb & -> & R).
      rewrite (CELL i j Hi Hj). replace (a * length v + b + off - off) with (a * length v + b) by lia. rewrite (NC a b Ha Hb). split.
      * intros (a' & b' & Ha' & Hb' & -> & R'). rewrite LC. pose proof (cell_lt v a' b' Ha' Hb'). split; [lia|].
        replace (a' * length v + b' + off - off) with (a' * length v + b') by lia. rewrite (NC a' b' Ha' Hb'). cbn [rel]. split; [reflexivity|]. left. split; [exact Es|].
        apply orb2_trans with (nth i v []) (nth j v []); [|exact R']. apply orb2_sym; [apply (nth_len v Vl), Hi|apply (nth_len v Vl), Hj|exact R].
      * rewrite LC. intros [Hr R']. destruct (cell_split v (x' - off)) as (a' & b' & Ha' & Hb' & E'); [lia|]. rewrite E' in R'. rewrite (NC a' b' Ha' Hb') in R'.
        exists a', b'. split; [exact Ha'|]. split; [exact Hb'|]. split; [lia|]. cbn [rel] in R'. destruct R' as [_ [[_ R']|[N _]]]; [|contradiction].
        apply orb2_trans with (nth a v []) (nth b v []); assumption.
    + intros g1 g2 x Hg1 Hg2 H1 H2. apply GR in Hg1. apply GR in Hg2.
      destruct Hg1 as (i & j & Hij & Hj & _ & ->). destruct Hg2 as (i' & j' & Hij' & Hj' & _ & ->).
      assert (Hi : i < length v) by lia. assert (Hi' : i' < length v) by lia.
      apply (CELL i j Hi Hj) in H1. apply (CELL i' j' Hi' Hj') in H2.
      destruct H1 as (a & b & Ha & Hb & Ex & R1). destruct H2 as (a' & b' & Ha' & Hb' & Ex' & R2).
      destruct (cell_inj v a b a' b' Hb Hb') as [-> ->]; [lia|].
      assert (RR : orb2 (nth i v []) (nth j v []) (nth i' v []) (nth j' v [])).
      { apply orb2_trans with (nth a' v []) (nth b' v []); [exact R1|]. apply orb2_sym; [apply (nth_len v Vl), Hi'|apply (nth_len v Vl), Hj'|exact R2]. }
      apply (proj2 (proj2 HO)). intro y. rewrite !(pair_cells v Vl Va Vs) by assumption.
      split; intros (c & e & Hc & He & Ey & R); exists c, e; (split; [exact Hc|]; split; [exact He|]; split; [exact Ey|]).
      * apply orb2_trans with (nth i v []) (nth j v []); [|exact R]. apply orb2_sym; [apply (nth_len v Vl), Hi|apply (nth_len v Vl), Hj|exact RR].
      * apply orb2_trans with (nth i' v []) (nth j' v []); assumption.
    + intros x y Hx _ _. rewrite LC in Hx. destruct (cell_split v x Hx) as (a & b & Ha & Hb & ->).
      destruct (pair_rep v Vl Va Vs a b Ha Hb) as (i & j & Hij & Hj & St & R). eexists. split; [apply GR; exists i, j; split; [exact Hij|]; split; [exact Hj|]; split; [exact St|reflexivity]|].
      apply (CELL i j); [lia|exact Hj|]. exists a, b. split; [exact Ha|]. split; [exact Hb|]. split; [lia|exact R].
  - assert (Es' : ~ symm g) by (intro H; apply (is_sym_spec g Hw) in H; congruence). clear Es.
    assert (GR : forall gr, In gr (flat_map (fun i => map (fun j => [i * length v + j + off; j * length v + i + off]) (seq (S i) (length v - S i))) (seq 0 (length v))) <->
      exists i j, i < j /\ j < length v /\ gr = [i * length v + j + off; j * length v + i + off]).
    { intro gr. rewrite in_flat_map. split.
      - intros (i & Hi & H). apply in_seq in Hi. apply in_map_iff in H. destruct H as (j & <- & Hj). apply in_seq in Hj. exists i, j. split; [lia|]. split; [lia|reflexivity].
      - intros (i & j & Hij & Hj & ->). exists i. split; [apply in_seq; lia|]. apply in_map_iff. exists j. split; [reflexivity|]. apply in_seq. lia. }
    match goal with |- blk _ _ _ _ ?X => set (gs := X) in * end.
    assert (NI : forall i j, i < length v -> j < length v -> nth i v [] = nth j v [] -> i = j) by (intros i j; apply (nth_inj v Vs)).
    split.
    + intros gr Hg E. apply GR in Hg. destruct Hg as (i & j & _ & _ & ->). discriminate.
    + intros gr Hg. apply GR in Hg. destruct Hg as (i & j & Hij & Hj & ->). constructor; [|constructor; [intros []|constructor]].
      intros [E|[]]. destruct (cell_inj v j i i j); lia.
    + intros gr x Hg Hx. apply GR in Hg. destruct Hg as (i & j & Hij & Hj & ->). rewrite LC.
      pose proof (cell_lt v i j ltac:(lia) Hj). pose proof (cell_lt v j i Hj ltac:(lia)). destruct Hx as [<-|[<-|[]]]; lia.
    + intros gr x x' Hg Hx. apply GR in Hg. destruct Hg as (i & j & Hij & Hj & ->). assert (Hi : i < length v) by lia. rewrite LC.
      pose proof (cell_lt v i j Hi Hj). pose proof (cell_lt v j i Hj Hi).
      assert (Dij : nth i v [] <> nth j v []) by (intro E; apply (NI i j Hi Hj) in E; lia).
      assert (Main : forall a b, a < length v -> b < length v -> ((a = i /\ b = j) \/ (a = j /\ b = i)) ->
        (In x' [i * length v + j + off; j * length v + i + off] <-> off <= x' < off + length v * length v /\ rel (nth (a * length v + b) (gram_cols n d k g) dc) (nth (x' - off) (gram_cols n d k g) dc))).
      { intros a b Ha Hb Hab. rewrite (NC a b Ha Hb). split.
        - intros [<-|[<-|[]]]; (split; [lia|]);
            [replace (i * length v + j + off - off) with (i * length v + j) by lia; rewrite (NC i j Hi Hj)
            |replace (j * length v + i + off - off) with (j * length v + i) by lia; rewrite (NC j i Hj Hi)];
            cbn [rel]; (split; [reflexivity|]; right; split; [exact Es'|]); destruct Hab as [[-> ->]|[-> ->]]; auto.
        - intros [Hr R]. destruct (cell_split v (x' - off)) as (a' & b' & Ha' & Hb' & E'); [lia|]. rewrite E', (NC a' b' Ha' Hb') in R. cbn [rel] in R.
          destruct R as [_ [[C _]|(_ & _ & [[E1 E2]|[E1 E2]])]]; [contradiction| |]; apply NI in E1; try assumption; apply NI in E2; try assumption; subst a' b'; cbn [In];
            destruct Hab as [[-> ->]|[-> ->]]; lia. }
      destruct Hx as [<-|[<-|[]]].
      * replace (i * length v + j + off - off) with (i * length v + j) by lia. apply Main; auto.
      * replace (j * length v + i + off - off) with (j * length v + i) by lia. apply Main; auto.
    + intros g1 g2 x Hg1 Hg2 H1 H2. apply GR in Hg1. apply GR in Hg2.
      destruct Hg1 as (i & j & Hij & Hj & ->). destruct Hg2 as (i' & j' & Hij' & Hj' & ->).
      assert (i = i' /\ j = j') as [-> ->]; [|reflexivity].
      destruct H1 as [E1|[E1|[]]], H2 as [E2|[E2|[]]];
        [destruct (cell_inj v i j i' j')|destruct (cell_inj v i j j' i')|destruct (cell_inj v j i i' j')|destruct (cell_inj v j i j' i')]; lia.
    + intros x y Hx Hy R. rewrite LC in Hx, Hy. destruct (cell_split v x Hx) as (a & b & Ha & Hb & ->). destruct (cell_split v y Hy) as (a' & b' & Ha' & Hb' & ->).
      rewrite (NC a b Ha Hb), (NC a' b' Ha' Hb') in R. cbn [rel] in R. destruct R as [_ [[C _]|(_ & N & _)]]; [contradiction|].
      destruct (Nat.lt_total a b) as [L|[->|L]]; [|congruence|].
      * exists [a * length v + b + off; b * length v + a + off]. split; [apply GR; exists a, b; auto|]. left. lia.
      * exists [b * length v + a + off; a * length v + b + off]. split; [apply GR; exists b, a; auto|]. right. left. lia.
Qed.
Lemma mult_blk d off k h : wf n h -> blk dc rel (map (Mult k h) (mult_vec n d h)) off (mult_groups n G gens order d off h).
Proof.
  intro Hw. unfold mult_groups. set (v := mult_vec n d h).
  assert (Vl : forall m, In m v -> length m = n) by apply base_len.
  assert (Va : forall m p, In m v -> In p G -> In (act 0 p m) v) by apply base_act.
  assert (Vs : StronglySorted lex_gt v) by apply base_sorted.
  assert (LC : length (map (Mult k h) v) = length v) by apply map_length.
  assert (NC : forall i, i < length v -> nth i (map (Mult k h) v) dc = Mult k h (nth i v [])).
  { intros i Hi. rewrite nth_indep with (d' := Mult k h []) by (rewrite LC; exact Hi). apply map_nth. }
  destruct (is_sym n gens h) eqn:Es; cbn [negb].
  2:{ apply blk_nil. intros a b Ha Hb. apply in_map_iff in Ha. apply in_map_iff in Hb. destruct Ha as (u & <- & _). destruct Hb as (w & <- & _). cbn [rel].
      intros (_ & H & _). apply (is_sym_spec h Hw) in H. congruence. }
  apply (is_sym_spec h Hw) in Es.
  match goal with |- blk _ _ _ _ ?X => set (gs := X) in * end.
  set (cells := fun i => (i + off) :: flat_map (fun p => match index_of (act 0 p (nth i v [])) v with Some i2 => [i2 + off] | None => [] end) G).
  assert (GR : forall gr, In gr gs <-> exists i, i < length v /\ is_standard_monom G (nth i v []) = true /\ gr = order (cells i)).
  { intro gr. unfold gs. rewrite in_flat_map. split.
    - intros (i & Hi & H). apply in_seq in Hi. destruct (is_standard_monom G (nth i v [])) eqn:E; [|destruct H]. destruct H as [<-|[]]. exists i. split; [lia|]. auto.
    - intros (i & Hi & E & ->). exists i. split; [apply in_seq; lia|]. rewrite E. left. reflexivity. }
  assert (CELL : forall i, i < length v -> forall x, In x (order (cells i)) <-> exists a, a < length v /\ x = a + off /\ orb1 (nth i v []) (nth a v [])).
  { intros i Hi x. rewrite (proj1 (proj2 HO)). apply (single_cells v Vl Va Vs); assumption. }
  assert (RF : forall i, i < length v -> orb1 (nth i v []) (nth i v [])).
  { intros i Hi. exists (pid n). split; [apply (g_id n G HG)|]. rewrite act_id by (apply (nth_len v Vl), Hi). reflexivity. }
  split.
  - intros gr Hg E. apply GR in Hg. destruct Hg as (i & Hi & _ & ->).
    assert (X : In (i + off) []); [|destruct X]. rewrite <- E. apply (CELL i Hi). exists i. auto.
  - intros gr Hg. apply GR in Hg. destruct Hg as (i & _ & _ & ->). apply (proj1 HO).
  - intros gr x Hg Hx. apply GR in Hg. destruct Hg as (i & Hi & _ & ->). apply (CELL i Hi) in Hx. destruct Hx as (a & Ha & -> & _). rewrite LC. lia.
  - intros gr x x' Hg Hx. apply GR in Hg. destruct Hg as (i & Hi & _ & ->). apply (CELL i Hi) in Hx. destruct Hx as (a & Ha & -> & R).
    rewrite (CELL i Hi). rewrite Nat.add_sub, (NC a Ha). split.
    + intros (a' & Ha' & -> & R'). rewrite LC, Nat.add_sub, (NC a' Ha'). split; [lia|]. cbn [rel]. split; [reflexivity|]. split; [exact Es|].
      apply orb1_trans with (nth i v []); [|exact R']. apply orb1_sym; [apply (nth_len v Vl), Hi|exact R].
    + rewrite LC. intros [Hr R']. rewrite (NC (x' - off)) in R' by lia. cbn [rel] in R'. exists (x' - off). split; [lia|]. split; [lia|].
      apply orb1_trans with (nth a v []); [exact R|apply R'].
  - intros g1 g2 x Hg1 Hg2 H1 H2. apply GR in Hg1. apply GR in Hg2. destruct Hg1 as (i & Hi & _ & ->). destruct Hg2 as (i' & Hi' & _ & ->).
    apply (CELL i Hi) in H1. apply (CELL i' Hi') in H2. destruct H1 as (a & Ha & -> & R1). destruct H2 as (a' & Ha' & E & R2). assert (a = a') by lia. subst a'.
    assert (RR : orb1 (nth i v []) (nth i' v [])) by (apply orb1_trans with (nth a v []); [exact R1|apply orb1_sym; [apply (nth_len v Vl), Hi'|exact R2]]).
    apply (proj2 (proj2 HO)). intro y. unfold cells. rewrite !(single_cells v Vl Va Vs) by assumption.
    split; intros (c & Hc & Ey & R); exists c; (split; [exact Hc|]; split; [exact Ey|]).
    + apply orb1_trans with (nth i v []); [|exact R]. apply orb1_sym; [apply (nth_len v Vl), Hi|exact RR].
    + apply orb1_trans with (nth i' v []); assumption.
  - intros a b Ha _ _. rewrite LC in Ha. pose proof (standard_in_orbit n G HG (nth a v [])) as I. apply in_map_iff in I. destruct I as (p & E & Hp).
    destruct (index_act v Va a p Ha Hp) as (i & _ & Hi & Ei). exists (order (cells i)). split.
    + apply GR. exists i. split; [exact Hi|]. split; [|reflexivity]. unfold is_standard_monom. rewrite Ei, E, (standard_idem n G HG) by (apply (nth_len v Vl), Ha). apply meqb_refl.
    + apply (CELL i Hi). exists a. split; [exact Ha|]. split; [lia|]. apply orb1_sym; [apply (nth_len v Vl), Ha|]. exists p. auto.
Qed.
Lemma gram_loop_blk d : forall ineqs off k, (forall g, In g ineqs -> wf n g) ->
  blk dc rel (gram_loop n d k ineqs) off (gram_groups_loop n G gens order d off ineqs).
Proof.
  induction ineqs as [|g r IH]; intros off k H; cbn [gram_loop gram_groups_loop]; [apply blk_nil; intros ? ? []|].
  rewrite <- (gram_cols_length K n d k g). apply blk_app; [|apply gram_blk, H; left; reflexivity|apply IH; intros; apply H; right; assumption].
  intros a b Ha Hb. apply gram_in in Ha. destruct Ha as (u & w & -> & _).
  assert (X : forall ineqs k', In b (gram_loop n d k' ineqs) -> exists k2 g2 u2 w2, b = Gram k2 g2 u2 w2 /\ k' <= k2).
  { clear. induction ineqs as [|g r IH]; intros k' H; [destruct H|]. cbn [gram_loop] in H. apply in_app_or in H. destruct H as [H|H].
    - apply gram_in in H. destruct H as (u & w & -> & _). exists k', g, u, w. auto.
    - destruct (IH _ H) as (k2 & g2 & u2 & w2 & -> & L). exists k2, g2, u2, w2. split; [reflexivity|lia]. }
  destruct (X r (S k) Hb) as (k2 & g2 & u2 & w2 & -> & L). cbn [rel]. split; intros [E _]; lia.
Qed.
Lemma mult_loop_blk d : forall eqs off k, (forall g, In g eqs -> wf n g) ->
  blk dc rel (mult_loop n d k eqs) off (mult_groups_loop n G gens order d off eqs).
Proof.
  induction eqs as [|g r IH]; intros off k H; cbn [mult_loop mult_groups_loop]; [apply blk_nil; intros ? ? []|].
  rewrite <- (map_length (Mult k g) (mult_vec n d g)). apply blk_app; [|apply mult_blk, H; left; reflexivity|apply IH; intros; apply H; right; assumption].
  intros a b Ha Hb. apply in_map_iff in Ha. destruct Ha as (u & <- & _).
  assert (X : forall eqs k', In b (mult_loop n d k' eqs) -> exists k2 g2 u2, b = Mult k2 g2 u2 /\ k' <= k2).
  { clear. induction eqs as [|g r IH]; intros k' H; [destruct H|]. cbn [mult_loop] in H. apply in_app_or in H. destruct H as [H|H].
    - apply in_map_iff in H. destruct H as (u & <- & _). exists k', g, u. auto.
    - destruct (IH _ H) as (k2 & g2 & u2 & -> & L). exists k2, g2, u2. split; [reflexivity|lia]. }
  destruct (X r (S k) Hb) as (k2 & g2 & u2 & -> & L). cbn [rel]. split; intros [E _]; lia.
Qed.
Lemma equal_entries_blk d (ineqs eqs : list (poly K)) : (forall g, In g (ineqs ++ eqs) -> wf n g) -> existsb (bad_ineq d) ineqs = false ->
  blk dc rel (columns n d ineqs eqs) 0 (equal_entries n G gens order d ineqs eqs).
Proof.
  intros H B. unfold columns, equal_entries. cbv zeta.
  assert (E : filter (fun g => negb (bad_ineq d g)) ineqs = ineqs).
  { clear H. induction ineqs as [|g r IH]; [reflexivity|]. cbn [existsb filter] in *. apply orb_false_elim in B. destruct B as [-> B]. cbn [negb]. rewrite IH by exact B. reflexivity. }
  rewrite E. rewrite <- (gram_loop_length K n d ineqs 0). apply (blk_app dc rel (gram_loop n d 0 ineqs) (mult_loop n d 0 (low d eqs)) 0).
  - intros a b Ha Hb. apply gram_loop_in in Ha. apply mult_loop_in in Hb. destruct Ha as (k & g & u & w & -> & _). destruct Hb as (k' & h & u' & -> & _). cbn [rel]. auto.
  - apply gram_loop_blk. intros; apply H, in_or_app; auto.
  - apply mult_loop_blk. intros h Hh. apply filter_In in Hh. apply H, in_or_app. right. apply Hh.
Qed.
Lemma equal_entries_groups_ok d (ineqs eqs : list (poly K)) : (forall g, In g (ineqs ++ eqs) -> wf n g) -> existsb (bad_ineq d) ineqs = false ->
  groups_ok (length (columns n d ineqs eqs)) (equal_entries n G gens order d ineqs eqs).
Proof.
  intros H B. pose proof (equal_entries_blk d ineqs eqs H B) as X. split.
  - apply (b_ne _ _ _ _ _ X).
  - apply (b_nodup _ _ _ _ _ X).
  - intros g k Hg Hk. pose proof (b_range _ _ _ _ _ X g k Hg Hk). lia.
  - apply (b_disj _ _ _ _ _ X).
Qed.
Lemma entry_listed d (ineqs eqs : list (poly K)) a : (forall g, In g (ineqs ++ eqs) -> wf n g) -> existsb (bad_ineq d) ineqs = false ->
  a < length (columns n d ineqs eqs) ->
  ((exists g, In g (equal_entries n G gens order d ineqs eqs) /\ In a g) <->
   match nth a (columns n d ineqs eqs) dc with Gram _ g u w => symm g \/ u <> w | Mult _ h _ => symm h end).
Proof.
  intros H B La. pose proof (equal_entries_blk d ineqs eqs H B) as X.
  assert (OK : forall c, In c (columns n d ineqs eqs) -> match c with Gram _ g u w => length u = n /\ length w = n /\ wf n g | Mult _ h u => length u = n /\ wf n h end).
  { intros c Hc. unfold columns in Hc. apply in_app_or in Hc. destruct Hc as [Hc|Hc].
    - apply gram_loop_in in Hc. destruct Hc as (k & g & u & w & -> & Hg & Hu & Hw). split; [apply (base_len _ _ Hu)|]. split; [apply (base_len _ _ Hw)|]. apply H, in_or_app. auto.
    - apply mult_loop_in in Hc. destruct Hc as (k & h & u & -> & Hh & Hu). apply filter_In in Hh. split; [apply (base_len _ _ Hu)|]. apply H, in_or_app. right. apply Hh. }
  specialize (OK _ (nth_In _ dc La)). split.
  - intros (g & Hg & Ha). pose proof (proj1 (b_mem _ _ _ _ _ X g a a Hg Ha) Ha) as [_ R]. rewrite Nat.sub_0_r in R.
    destruct (nth a (columns n d ineqs eqs) dc) as [k p u w|k p u]; cbn [rel] in R; tauto.
  - intro S. destruct (b_cover _ _ _ _ _ X a a La La) as (g & Hg & Ha); [|exists g; auto].
    destruct (nth a (columns n d ineqs eqs) dc) as [k p u w|k p u]; cbn [rel].
    + destruct OK as (Lu & Lw & Wp). split; [reflexivity|]. destruct (is_sym n gens p) eqn:E.
      * left. split; [apply (proj1 (is_sym_spec p Wp)); exact E|]. apply orb2_refl; assumption.
      * right. assert (N : ~ symm p) by (intro C; apply (proj2 (is_sym_spec p Wp)) in C; congruence). split; [exact N|]. split; [tauto|auto].
    + split; [reflexivity|]. split; [exact S|]. exists (pid n). split; [apply (g_id n G HG)|]. rewrite act_id by (exact (proj1 OK)). reflexivity.
Qed.
End Groups.
