(** * Lemmas about the text parser *)
From Coq Require Import Bool List Arith NArith ZArith Lia Ring Field.
From Verif Require Import OrdField Base Perm Text.
Import ListNotations.
Local Open Scope N_scope.

(** ** Completion *)
(** [t] is [s] with operators inserted *)
Inductive ins : str -> str -> Prop :=
| ins_nil : ins [] []
| ins_same c s t : ins s t -> ins (c :: s) (c :: t)
| ins_op o s t : o = STAR \/ o = CARET -> ins s t -> ins s (o :: t).

Lemma complete_ins sci ps pc s : forall k, ins s (complete_loop sci ps pc k s).
Proof.
  induction s as [|c s IH]; intro k; [constructor|]. cbn [complete_loop]. destruct k; [|constructor; apply IH].
  destruct s as [|d s']; [constructor; constructor|].
  assert (A : forall k, ins (c :: d :: s') (c :: complete_loop sci ps pc k (d :: s'))) by (intro; constructor; apply IH).
  assert (B : forall o k, o = STAR \/ o = CARET -> ins (c :: d :: s') (c :: o :: complete_loop sci ps pc k (d :: s'))) by (intros; constructor; constructor; auto).
  repeat match goal with |- context [if ?b then _ else _] => destruct b end; auto.
Qed.

(** what is put between two characters *)
Definition glue (c d : N) : str :=
  if is_digit c then if (d =? LP) || is_alpha d then [STAR] else []
  else if (c =? RP) || is_alpha c then if (d =? LP) || is_alpha d then [STAR] else if is_digit d then [CARET] else []
  else [].
Notation comp ps pc := (complete_loop false ps pc 0).

Lemma comp_step ps pc c d s : root_at ps pc (c :: d :: s) = false ->
  comp ps pc (c :: d :: s) = c :: glue c d ++ comp ps pc (d :: s).
Proof.
  intro H. change (comp ps pc (c :: d :: s)) with
    (if is_digit c then
        if (d =? LP) || (is_alpha d && not_sci false d) then c :: STAR :: comp ps pc (d :: s) else c :: comp ps pc (d :: s)
      else if (c =? RP) || (is_alpha c && not_sci false c) then
        if root_at ps pc (c :: d :: s) then c :: complete_loop false ps pc 4 (d :: s)
        else if (d =? LP) || is_alpha d then c :: STAR :: comp ps pc (d :: s)
        else if is_digit d then c :: CARET :: comp ps pc (d :: s)
        else c :: comp ps pc (d :: s)
      else c :: comp ps pc (d :: s)).
  rewrite H. unfold glue, not_sci. cbn [andb negb]. rewrite !andb_true_r.
  repeat match goal with |- context [if ?b then _ else _] => destruct b end; reflexivity.
Qed.

Lemma prefix_app w s : prefix w (w ++ s) = true.
Proof. induction w as [|a w IH]; [reflexivity|]. cbn. rewrite N.eqb_refl. exact IH. Qed.
Lemma prefix_inv w s : prefix w s = true -> exists t, s = w ++ t.
Proof.
  revert s. induction w as [|a w IH]; intros s H; [exists s; reflexivity|]. destruct s as [|b s]; [discriminate|].
  cbn in H. rewrite andb_true_iff in H. destruct H as [H1 H2]. apply N.eqb_eq in H1. destruct (IH _ H2) as [t Ht].
  exists t. cbn. congruence.
Qed.
Lemma prefix_ext w s t : prefix w s = true -> prefix w (s ++ t) = true.
Proof. intro H. destruct (prefix_inv _ _ H) as [u ->]. rewrite <- app_assoc. apply prefix_app. Qed.

Lemma comp_root ps pc w t : (ps = true /\ w = wSQRT) \/ (pc = true /\ w = wCBRT) -> comp ps pc (w ++ t) = w ++ comp ps pc t.
Proof.
  intros [[-> ->]|[-> ->]].
  - reflexivity.
  - change (wCBRT ++ t) with (99 :: 98 :: (114 :: 116 :: 40 :: t)).
    change (comp ps true (99 :: 98 :: 114 :: 116 :: 40 :: t)) with
      (if root_at ps true (99 :: 98 :: 114 :: 116 :: 40 :: t) then 99 :: 98 :: 114 :: 116 :: 40 :: comp ps true t
       else 99 :: STAR :: comp ps true (98 :: 114 :: 116 :: 40 :: t)).
    assert (E : root_at ps true (99 :: 98 :: 114 :: 116 :: 40 :: t) = true) by (destruct ps; reflexivity).
    rewrite E. reflexivity.
Qed.
Lemma root_inv ps pc s : root_at ps pc s = true -> exists w t, s = w ++ t /\ ((ps = true /\ w = wSQRT) \/ (pc = true /\ w = wCBRT)).
Proof.
  unfold root_at. rewrite orb_true_iff, !andb_true_iff. intros [[H1 H2]|[H1 H2]]; destruct (prefix_inv _ _ H2) as [t ->]; eexists _, t; (split; [reflexivity|]); auto.
Qed.

(** adjacent characters: nothing is missing between them, or they belong to a root sign *)
Definition tight ps pc (s : str) : Prop := forall u c d w, s = u ++ c :: d :: w ->
  glue c d = [] \/ exists u' r w', s = u' ++ r ++ w' /\ ((ps = true /\ r = wSQRT) \/ (pc = true /\ r = wCBRT)) /\
                    (List.length u' <= List.length u <= List.length u' + 3)%nat.

Lemma glue_op o d : o = STAR \/ o = CARET -> glue o d = [].
Proof. intros [->| ->]; reflexivity. Qed.
Lemma glue_to o c : o = STAR \/ o = CARET -> glue c o = [].
Proof. intros [->| ->]; unfold glue; destruct (is_digit c), ((c =? RP) || is_alpha c); reflexivity. Qed.
Lemma glue_cases c d : glue c d = [] \/ exists o, glue c d = [o] /\ (o = STAR \/ o = CARET).
Proof.
  unfold glue. repeat match goal with |- context [if ?b then _ else _] => destruct b end; auto; right; eexists; eauto.
Qed.
Lemma tight_cons ps pc c s : (forall d s', s = d :: s' -> glue c d = []) -> tight ps pc s -> tight ps pc (c :: s).
Proof.
  intros H T u a b w E. destruct u as [|x u].
  - injection E as -> E. left. eapply H. exact E.
  - injection E as <- E. destruct (T _ _ _ _ E) as [G|[u' [r [w' [E' [R L]]]]]]; [left; exact G|right].
    exists (c :: u'), r, w'. split; [cbn; rewrite E'; reflexivity|]. split; [exact R|cbn; lia].
Qed.
Lemma tight_root ps pc r s : (ps = true /\ r = wSQRT) \/ (pc = true /\ r = wCBRT) -> tight ps pc s -> tight ps pc (r ++ s).
Proof.
  intros R T.
  assert (E5 : exists a0 a1 a2 a3, r = [a0; a1; a2; a3; LP]) by (destruct R as [[_ ->]|[_ ->]]; do 4 eexists; reflexivity).
  destruct E5 as [a0 [a1 [a2 [a3 ->]]]]. intros u c d w E. cbn [app] in E.
  destruct u as [|x0 [|x1 [|x2 [|x3 u]]]].
  1-4: right; exists [], [a0; a1; a2; a3; LP], s; split; [reflexivity|]; split; [exact R|cbn; lia].
  injection E as _ _ _ _ E. assert (T' : tight ps pc (LP :: s)) by (apply tight_cons; [reflexivity|exact T]).
  destruct (T' _ _ _ _ E) as [G|[u' [r' [w' [E' [R' L]]]]]]; [left; exact G|right].
  exists (a0 :: a1 :: a2 :: a3 :: u'), r', w'. split; [cbn [app]; rewrite <- E'; reflexivity|]. split; [exact R'|cbn; lia].
Qed.
Lemma comp_hd ps pc c s : exists t, comp ps pc (c :: s) = c :: t.
Proof.
  cbn [complete_loop]. destruct s as [|d s]; [eexists; reflexivity|].
  repeat match goal with |- context [if ?b then _ else _] => destruct b end; eexists; reflexivity.
Qed.
Lemma comp_tight ps pc s : tight ps pc (comp ps pc s).
Proof.
  remember (List.length s) as n eqn:En. revert s En. induction n as [n IH] using lt_wf_ind. intros s ->.
  destruct s as [|c s]; [intros u a b w E; destruct u; discriminate|].
  destruct s as [|d s]; [intros u a b w E; destruct u as [|? [|? ?]]; discriminate|].
  destruct (root_at ps pc (c :: d :: s)) eqn:R.
  - destruct (root_inv _ _ _ R) as [w [t [E Hw]]]. rewrite E, (comp_root _ _ _ _ Hw). apply tight_root; [exact Hw|].
    apply (IH (List.length t)); [|reflexivity]. rewrite E, app_length. destruct Hw as [[_ ->]|[_ ->]]; cbn; lia.
  - rewrite (comp_step _ _ _ _ _ R).
    assert (T : tight ps pc (comp ps pc (d :: s))) by (apply (IH (List.length (d :: s))); [cbn; lia|reflexivity]).
    destruct (comp_hd ps pc d s) as [t Et].
    destruct (glue_cases c d) as [G|[o [G Ho]]]; rewrite G; cbn [app].
    + apply tight_cons; [|exact T]. intros d' s' E. rewrite Et in E. injection E as <- _. exact G.
    + apply tight_cons; [intros d' s' E; injection E as <- _; apply glue_to, Ho|].
      apply tight_cons; [intros d' s' E; apply glue_op, Ho|exact T].
Qed.

(** completion of completed text changes nothing *)
Lemma root_comp ps pc c d s : root_at ps pc (c :: d :: s) = false -> root_at ps pc (c :: glue c d ++ comp ps pc (d :: s)) = false.
Proof.
  intro R. destruct (root_at ps pc (c :: glue c d ++ comp ps pc (d :: s))) eqn:R'; [|reflexivity]. exfalso.
  destruct (root_inv _ _ _ R') as [w [t [E Hw]]]. destruct (comp_hd ps pc d s) as [t' Et]. rewrite Et in E.
  assert (H2 : exists a b l, w = a :: b :: l /\ glue a b = [STAR] /\ b <> STAR /\ b <> CARET).
  { destruct Hw as [[_ ->]|[_ ->]]; do 3 eexists; (split; [reflexivity|]); (split; [reflexivity|]); split; discriminate. }
  destruct H2 as [a [b [l [-> [G [N1 N2]]]]]]. destruct (glue_cases c d) as [G'|[o [G' Ho]]]; rewrite G' in E; cbn in E.
  - injection E as -> -> _. congruence.
  - injection E as -> -> _. destruct Ho; contradiction.
Qed.
Lemma comp_idem ps pc s : comp ps pc (comp ps pc s) = comp ps pc s.
Proof.
  remember (List.length s) as n eqn:En. revert s En. induction n as [n IH] using lt_wf_ind. intros s ->.
  destruct s as [|c s]; [reflexivity|]. destruct s as [|d s]; [reflexivity|].
  destruct (root_at ps pc (c :: d :: s)) eqn:R.
  - destruct (root_inv _ _ _ R) as [w [t [E Hw]]]. rewrite E, (comp_root _ _ _ _ Hw), (comp_root _ _ _ _ Hw). f_equal.
    apply (IH (List.length t)); [|reflexivity]. rewrite E, app_length. destruct Hw as [[_ ->]|[_ ->]]; cbn; lia.
  - pose proof (root_comp _ _ _ _ _ R) as R'. rewrite (comp_step _ _ _ _ _ R).
    assert (IH' : comp ps pc (comp ps pc (d :: s)) = comp ps pc (d :: s)) by (apply (IH (List.length (d :: s))); [cbn; lia|reflexivity]).
    destruct (comp_hd ps pc d s) as [t Et]. rewrite Et in *.
    destruct (glue_cases c d) as [G|[o [G Ho]]]; rewrite G in *; cbn [app] in *.
    + rewrite (comp_step _ _ _ _ _ R'), G, IH'. reflexivity.
    + rewrite (comp_step _ _ _ _ _ R'), (glue_to _ _ Ho). cbn [app]. f_equal.
      rewrite comp_step; [rewrite (glue_op _ _ Ho), IH'; reflexivity|].
      unfold root_at. destruct Ho as [-> | ->]; cbn; rewrite !andb_false_r; reflexivity.
Qed.
Lemma ins_nospace s t : nospace s = s -> ins s t -> nospace t = t.
Proof.
  unfold nospace. intros H J. induction J as [|c s t J IH|o s t Ho J IH]; [reflexivity| |].
  - cbn in *. destruct (c =? SPACE); cbn in *; [|injection H as H; rewrite (IH H); reflexivity].
    exfalso. apply (f_equal (@List.length N)) in H. cbn in H.
    assert (forall l : str, (List.length (filter (fun c => negb (c =? SPACE)%N) l) <= List.length l)%nat) as L
      by (induction l as [|x l IHl]; cbn; [lia|destruct (negb _); cbn; lia]).
    specialize (L s). lia.
  - cbn. destruct Ho as [-> | ->]; cbn; rewrite (IH H); reflexivity.
Qed.
Lemma nospace_idem s : nospace (nospace s) = nospace s.
Proof. unfold nospace. induction s as [|c s IH]; [reflexivity|]. cbn. destruct (negb _) eqn:E; cbn; rewrite ?E, IH; reflexivity. Qed.

(** ** Completion of printed expressions *)
Definition last_of (s : str) : N := last s 0.
Definition end_char (c : N) : bool := is_digit c || is_alpha c || (c =? RP).
Definition start_char (c : N) : bool := is_alpha c || (c =? LP).
(** every letter s begins a root sign *)
Inductive rclosed : str -> Prop :=
| rc_nil : rclosed []
| rc_char c s : c <> cS -> rclosed s -> rclosed (c :: s)
| rc_root s : rclosed s -> rclosed (wSQRT ++ s).
Lemma rclosed_app a b : rclosed a -> rclosed b -> rclosed (a ++ b).
Proof.
  intros Ha Hb. induction Ha as [|c s Hc Hs IH|s Hs IH]; [exact Hb|constructor; assumption|].
  rewrite <- app_assoc. apply rc_root, IH.
Qed.
Notation cmp := (complete_loop false true false 0).
Lemma root_nonS c s : c <> cS -> root_at true false (c :: s) = false.
Proof. intro H. unfold root_at. change (prefix wSQRT (c :: s)) with ((cS =? c) && prefix (tl wSQRT) s). apply not_eq_sym, N.eqb_neq in H. rewrite H. reflexivity. Qed.

Lemma cmp_app a b : rclosed a -> a <> [] -> b <> [] -> cmp (a ++ b) = cmp a ++ glue (last_of a) (hd 0 b) ++ cmp b.
Proof.
  intros Ha Na Nb. induction Ha as [|c s Hc Hs IH|s Hs IH]; [congruence| |].
  - destruct s as [|d s].
    + destruct b as [|e b]; [congruence|]. cbn [app]. rewrite comp_step by (apply root_nonS, Hc). reflexivity.
    + change ((c :: d :: s) ++ b) with (c :: d :: (s ++ b)).
      rewrite !comp_step by (apply root_nonS, Hc). change (d :: s ++ b) with ((d :: s) ++ b). rewrite IH by discriminate.
      change (last_of (c :: d :: s)) with (last_of (d :: s)). cbn [app]. rewrite <- !app_assoc. reflexivity.
  - rewrite <- app_assoc, !(comp_root true false wSQRT _ ltac:(left; split; reflexivity)), <- app_assoc. f_equal.
    destruct s as [|d s].
    + cbn [app complete_loop]. reflexivity.
    + rewrite IH by discriminate. replace (last_of (wSQRT ++ d :: s)) with (last_of (d :: s)) by reflexivity. reflexivity.
Qed.

Lemma num_ok_all ds : num_ok ds = true -> (forall c, In c ds -> is_digit c = true) /\ ds <> [].
Proof.
  unfold num_ok. rewrite andb_true_iff, forallb_forall. intros [H1 H2]. split; [exact H1|]. destruct ds; [discriminate|discriminate].
Qed.
Lemma last_in (l : str) : l <> [] -> In (last_of l) l.
Proof.
  induction l as [|c l IH]; [congruence|]. intros _. destruct l as [|d l]; [left; reflexivity|].
  right. apply IH. discriminate.
Qed.
Lemma last_app (a b : str) : b <> [] -> last_of (a ++ b) = last_of b.
Proof.
  intro H. unfold last_of. induction a as [|c a IH]; [reflexivity|]. cbn [app]. rewrite <- IH.
  destruct (a ++ b) eqn:E; [apply app_eq_nil in E; tauto|reflexivity].
Qed.
Lemma hd_app (a b : str) : a <> [] -> hd 0 (a ++ b) = hd 0 a.
Proof. destruct a; [congruence|reflexivity]. Qed.

Lemma digit_not_alpha c : is_digit c = true -> is_alpha c = false.
Proof. unfold is_digit, is_alpha. rewrite andb_true_iff, !N.leb_le. intros [H1 H2]. apply andb_false_iff. left. apply N.leb_gt. lia. Qed.
Lemma digit_facts c : is_digit c = true -> c <> cS /\ c <> LP /\ c <> RP /\ c <> cP /\ c <> SPACE.
Proof. unfold is_digit, cS, LP, RP, cP, SPACE. rewrite andb_true_iff, !N.leb_le. lia. Qed.
Lemma alpha_facts c : is_alpha c = true -> c <> LP /\ c <> RP /\ c <> SPACE /\ is_digit c = false.
Proof.
  unfold is_digit, is_alpha, LP, RP, SPACE. rewrite andb_true_iff, !N.leb_le. intros [H1 H2]. repeat split; try lia.
  apply andb_false_iff. right. apply N.leb_gt. lia.
Qed.
Lemma var_ok_iff c : var_ok c = true <-> is_alpha c = true /\ c <> cS /\ c <> cP.
Proof.
  unfold var_ok. rewrite !andb_true_iff, !negb_true_iff, !N.eqb_neq. tauto.
Qed.
Lemma glue_digits ds : (forall c, In c ds -> is_digit c = true) -> cmp ds = ds.
Proof.
  induction ds as [|c ds IH]; [reflexivity|]. intro H. destruct ds as [|d ds]; [reflexivity|].
  rewrite comp_step by (apply root_nonS, digit_facts, H; left; reflexivity).
  rewrite IH by (intros; apply H; right; assumption). unfold glue. rewrite (H c) by (left; reflexivity).
  assert (D : is_digit d = true) by (apply H; right; left; reflexivity).
  rewrite (digit_not_alpha _ D). destruct (digit_facts _ D) as [_ [L _]]. apply N.eqb_neq in L. rewrite L. reflexivity.
Qed.
Lemma rclosed_noS s : (forall c, In c s -> c <> cS) -> rclosed s.
Proof. induction s as [|c s IH]; intro H; [constructor|constructor; [apply H; left; reflexivity|apply IH; intros; apply H; right; assumption]]. Qed.

Lemma print_facts full e : forall l, ok l e = true -> plain e = true ->
  rclosed (print full e) /\ print full e <> [] /\ end_char (last_of (print full e)) = true /\
  ((1 <= l)%nat -> is_digit (hd 0 (print full e)) = true \/ start_char (hd 0 (print full e)) = true) /\
  ((2 <= l)%nat -> starts_num e = false -> start_char (hd 0 (print full e)) = true) /\
  ((3 <= l)%nat -> is_num e = false -> is_alpha (last_of (print full e)) = true \/ last_of (print full e) = RP).
Proof.
  assert (NS : forall c x, In c x -> (forall c, In c x -> is_digit c = true) -> c <> cS)
    by (intros c x Hc Hx; apply digit_facts, Hx, Hc).
  induction e as [ds|c|e IH|p e IH|e IH|cr e IH ds|a IHa b IHb|o a IHa b IHb|e IH]; intros l Hok Hpl; cbn [ok plain print] in *;
    try discriminate.
  - apply num_ok_all in Hok. destruct Hok as [H1 H2].
    split; [apply rclosed_noS; intros c Hc; exact (NS c ds Hc H1)|]. split; [exact H2|].
    split; [unfold end_char; rewrite (H1 _ (last_in _ H2)); reflexivity|].
    split; [intros _; left; destruct ds; [congruence|apply H1; left; reflexivity]|]. split; intros; discriminate.
  - apply var_ok_iff in Hok. destruct Hok as [H1 [H2 H3]]. split; [constructor; [exact H2|constructor]|]. split; [discriminate|].
    cbn. unfold end_char, start_char. rewrite H1, orb_true_r. repeat split; auto.
  - destruct (IH _ Hok Hpl) as [H1 _]. split.
    { constructor; [discriminate|]. apply rclosed_app; [exact H1|]. constructor; [discriminate|constructor]. }
    split; [discriminate|]. change (LP :: print full e ++ [RP]) with ((LP :: print full e) ++ [RP]).
    rewrite last_app by discriminate. cbn. repeat split; auto.
  - destruct (IH _ Hok Hpl) as [H1 _]. split.
    { apply rc_root. apply rclosed_app; [exact H1|]. constructor; [discriminate|constructor]. }
    split; [discriminate|]. rewrite app_assoc, last_app by discriminate. cbn. repeat split; auto.
  - rewrite !andb_true_iff in Hok. destruct Hok as [[[Hl H3] Hn] _]. apply num_ok_all in Hn. destruct Hn as [N1 N2].
    destruct (IH _ H3 Hpl) as [I1 [I2 [I3 [I4 [I5 I6]]]]]. apply Nat.leb_le in Hl.
    split. { apply rclosed_app; [exact I1|]. apply rclosed_app; [destruct (cr || full); [constructor; [discriminate|constructor]|constructor]|].
             apply rclosed_noS; intros c Hc; exact (NS c ds Hc N1). }
    split; [intro E; apply app_eq_nil in E; tauto|]. rewrite app_assoc, last_app by exact N2. rewrite <- app_assoc, hd_app by exact I2.
    split; [unfold end_char; rewrite (N1 _ (last_in _ N2)); reflexivity|]. split; [intro; apply I4; lia|].
    split; [intros _ H; apply I5; [lia|]; destruct e; cbn in *; congruence|intro; lia].
  - rewrite !andb_true_iff in Hok. rewrite andb_true_iff in Hpl. destruct Hok as [[[Hl Ha] Hb] Hn], Hpl as [Pa Pb]. apply Nat.leb_le in Hl.
    destruct (IHa _ Ha Pa) as [A1 [A2 [A3 [A4 _]]]], (IHb _ Hb Pb) as [B1 [B2 [B3 _]]].
    split. { apply rclosed_app; [exact A1|]. apply rclosed_app; [destruct full; [constructor; [discriminate|constructor]|constructor]|exact B1]. }
    split; [intro E; apply app_eq_nil in E; tauto|]. rewrite app_assoc, last_app by exact B2. rewrite <- app_assoc, hd_app by exact A2.
    split; [exact B3|]. split; [intro; apply A4; lia|]. split; intro; lia.
  - rewrite andb_true_iff in Hpl. destruct Hpl as [Pa Pb].
    assert (Q : exists la lb, ok la a = true /\ ok lb b = true /\ (l <= la)%nat /\ (l <= 1)%nat).
    { destruct o; rewrite !andb_true_iff, Nat.leb_le in Hok; destruct Hok as [[Hl Ha] Hb]; do 2 eexists; repeat split; try exact Ha; try exact Hb; lia. }
    destruct Q as [la [lb [Ha [Hb [L1 L2]]]]]. destruct (IHa _ Ha Pa) as [A1 [A2 [A3 [A4 _]]]], (IHb _ Hb Pb) as [B1 [B2 [B3 _]]].
    split. { apply rclosed_app; [exact A1|]. constructor; [destruct o; discriminate|exact B1]. }
    split; [intro E; apply app_eq_nil in E; tauto|].
    rewrite last_app by discriminate. change (opc o :: print full b) with ([opc o] ++ print full b).
    rewrite last_app by exact B2. rewrite hd_app by exact A2. split; [exact B3|]. split; [intro; apply A4; lia|]. split; intro; lia.
  - rewrite !andb_true_iff, Nat.leb_le in Hok. destruct Hok as [Hl H1]. destruct (IH _ H1 Hpl) as [I1 [I2 [I3 _]]].
    split; [constructor; [discriminate|exact I1]|]. split; [discriminate|].
    change (MINUS :: print full e) with ([MINUS] ++ print full e). rewrite last_app by exact I2. split; [exact I3|]. repeat split; intro; lia.
Qed.

Lemma glue_into c d : is_digit d = false -> start_char d = false -> glue c d = [].
Proof.
  unfold glue, start_char. intros H1 H2. rewrite orb_false_iff in H2. destruct H2 as [H2 H3]. rewrite H1, H2, H3. cbn.
  destruct (is_digit c), ((c =? RP) || is_alpha c); reflexivity.
Qed.
Lemma glue_from c d : end_char c = false -> glue c d = [].
Proof. unfold glue, end_char. rewrite !orb_false_iff. intros [[H1 H2] H3]. rewrite H1, H2, H3. reflexivity. Qed.
Lemma glue_star c d : end_char c = true -> start_char d = true -> glue c d = [STAR].
Proof.
  unfold glue, end_char, start_char. intros H1 H2. rewrite orb_comm in H2. rewrite H2. destruct (is_digit c); [reflexivity|].
  cbn in H1. rewrite orb_comm in H1. rewrite H1. reflexivity.
Qed.
Lemma glue_caret c d : is_alpha c = true \/ c = RP -> is_digit d = true -> glue c d = [CARET].
Proof.
  intros H1 H2. assert (D : is_digit c = false) by (destruct H1 as [H1| ->]; [apply alpha_facts, H1|reflexivity]).
  unfold glue. rewrite D. assert (E : (c =? RP) || is_alpha c = true) by (destruct H1 as [H1| ->]; [rewrite H1, orb_true_r; reflexivity|reflexivity]).
  rewrite E, (digit_not_alpha _ H2), H2. destruct (digit_facts _ H2) as [_ [L _]]. apply N.eqb_neq in L. rewrite L. reflexivity.
Qed.

Lemma hd_in (l : str) : l <> [] -> In (hd 0 l) l.
Proof. destruct l; [congruence|left; reflexivity]. Qed.
Lemma cmp_op o s : end_char o = false -> o <> cS -> s <> [] -> cmp (o :: s) = o :: cmp s.
Proof.
  intros H1 H2 H3. change (o :: s) with ([o] ++ s). rewrite cmp_app; [|constructor; [exact H2|constructor]|discriminate|exact H3].
  change (last_of [o]) with o. rewrite (glue_from _ _ H1). reflexivity.
Qed.
Lemma cmp_close s : rclosed s -> s <> [] -> cmp (s ++ [RP]) = cmp s ++ [RP].
Proof. intros H1 H2. rewrite cmp_app by (auto; discriminate). rewrite glue_into by reflexivity. reflexivity. Qed.

Lemma completion_print e : forall l, ok l e = true -> plain e = true -> cmp (print false e) = print true e.
Proof.
  induction e as [ds|c|e IH|p e IH|e IH|cr e IH ds|a IHa b IHb|o a IHa b IHb|e IH]; intros l Hok Hpl; cbn [ok plain] in *;
    try discriminate.
  - apply glue_digits. apply num_ok_all in Hok. tauto.
  - reflexivity.
  - destruct (print_facts false e _ Hok Hpl) as [F1 [F2 _]]. cbn [print].
    rewrite cmp_op; [|reflexivity|discriminate|destruct (print false e); discriminate]. rewrite (cmp_close _ F1 F2), (IH _ Hok Hpl). reflexivity.
  - destruct (print_facts false e _ Hok Hpl) as [F1 [F2 _]]. cbn [print].
    rewrite (comp_root true false wSQRT _ ltac:(left; split; reflexivity)), (cmp_close _ F1 F2), (IH _ Hok Hpl). reflexivity.
  - rewrite !andb_true_iff in Hok. destruct Hok as [[[Hl H3] Hn] Hc]. apply num_ok_all in Hn. destruct Hn as [N1 N2].
    destruct (print_facts false e _ H3 Hpl) as [F1 [F2 [F3 [_ [_ F6]]]]]. cbn [print].
    destruct cr; cbn [orb app].
    + rewrite cmp_app by (auto; discriminate). cbn [hd]. rewrite glue_into by reflexivity.
      rewrite cmp_op by (auto; discriminate). rewrite (glue_digits _ N1), (IH _ H3 Hpl). reflexivity.
    + rewrite cmp_app by (auto; discriminate). cbn in Hc. rewrite negb_true_iff in Hc.
      rewrite (glue_caret _ _ (F6 ltac:(lia) Hc) (N1 _ (hd_in _ N2))), (glue_digits _ N1), (IH _ H3 Hpl). reflexivity.
  - rewrite !andb_true_iff in Hok. rewrite andb_true_iff in Hpl. destruct Hok as [[[Hl Ha] Hb] Hn], Hpl as [Pa Pb]. rewrite negb_true_iff in Hn.
    destruct (print_facts false a _ Ha Pa) as [A1 [A2 [A3 _]]], (print_facts false b _ Hb Pb) as [B1 [B2 [_ [_ [B5 _]]]]].
    cbn [print app]. rewrite (cmp_app _ _ A1 A2 B2), (IHa _ Ha Pa), (IHb _ Hb Pb), (glue_star _ _ A3 (B5 ltac:(lia) Hn)). reflexivity.
  - rewrite andb_true_iff in Hpl. destruct Hpl as [Pa Pb].
    assert (Q : exists la lb, ok la a = true /\ ok lb b = true).
    { destruct o; rewrite !andb_true_iff in Hok; destruct Hok as [[Hl Ha] Hb]; eauto. }
    destruct Q as [la [lb [Ha Hb]]].
    destruct (print_facts false a _ Ha Pa) as [A1 [A2 _]], (print_facts false b _ Hb Pb) as [B1 [B2 _]].
    cbn [print]. rewrite cmp_app by (auto; discriminate). cbn [hd]. rewrite glue_into by (destruct o; reflexivity).
    rewrite cmp_op; [|destruct o; reflexivity|destruct o; discriminate|exact B2]. rewrite (IHa _ Ha Pa), (IHb _ Hb Pb). reflexivity.
  - rewrite !andb_true_iff in Hok. destruct Hok as [Hl H1]. destruct (print_facts false e _ H1 Hpl) as [_ [F2 _]].
    cbn [print]. rewrite cmp_op; [|reflexivity|discriminate|exact F2]. rewrite (IH _ H1 Hpl). reflexivity.
Qed.

(** ** Expansion of macros *)
Section Exp.
Variable names : list N.
Variable perms : list (list nat).
Notation loop := (expand_loop names perms).
Notation xt := (xtext names perms).

Definition inert (c : N) : Prop := c <> cS /\ c <> cP /\ c <> LP /\ c <> RP.
Lemma loop_inert w : (forall c, In c w -> inert c) -> forall done rest par depth begin,
  loop done (w ++ rest) par depth begin = loop (done ++ w) rest par depth begin.
Proof.
  induction w as [|c w IH]; intros H done rest par depth begin; [rewrite app_nil_r; reflexivity|].
  destruct (H c ltac:(left; reflexivity)) as [H1 [H2 [H3 H4]]]. cbn [app expand_loop].
  rewrite (proj2 (N.eqb_neq _ _) H1), (proj2 (N.eqb_neq _ _) H2), (proj2 (N.eqb_neq _ _) H3), (proj2 (N.eqb_neq _ _) H4). cbn [andb orb].
  rewrite IH by (intros; apply H; right; assumption). rewrite <- app_assoc. reflexivity.
Qed.
Lemma loop_open done rest par depth begin : loop done (LP :: rest) par depth begin = loop (done ++ [LP]) rest (par + 1)%Z depth begin.
Proof. reflexivity. Qed.
Lemma loop_close done rest par d depth begin : (d =? par - 1)%Z = false ->
  loop done (RP :: rest) par (d :: depth) begin = loop (done ++ [RP]) rest (par - 1)%Z (d :: depth) begin.
Proof. intro H. cbn [expand_loop]. rewrite H. reflexivity. Qed.
Lemma loop_sqrt done rest par depth begin : loop done (wSQRT ++ rest) par depth begin = loop (done ++ wSQRT) rest (par + 1)%Z depth begin.
Proof.
  change (wSQRT ++ rest) with (cS :: ([113; 114; 116] ++ LP :: rest)).
  change (loop done (cS :: ([113; 114; 116] ++ LP :: rest)) par depth begin) with (loop (done ++ [cS]) ([113; 114; 116] ++ LP :: rest) par depth begin).
  rewrite loop_inert, loop_open by (intros c [<-|[<-|[<-|[]]]]; repeat split; discriminate). rewrite <- !app_assoc. reflexivity.
Qed.
Lemma digit_inert c : is_digit c = true -> inert c.
Proof. intro H. destruct (digit_facts _ H) as [H1 [H2 [H3 [H4 _]]]]. repeat split; assumption. Qed.
Lemma var_inert c : var_ok c = true -> inert c.
Proof. intro H. apply var_ok_iff in H. destruct H as [H1 [H2 H3]]. destruct (alpha_facts _ H1) as [H4 [H5 _]]. repeat split; assumption. Qed.
Lemma ok_nonempty e : forall l, ok l e = true -> print false e <> [].
Proof.
  induction e as [ds|c|e IH|p e IH|e IH|cr e IH ds|a IHa b IHb|o a IHa b IHb|e IH]; intros l H; cbn [ok print] in *; try discriminate.
  - apply num_ok_all in H. tauto.
  - rewrite !andb_true_iff in H. destruct H as [[[_ H] _] _]. intro E. apply app_eq_nil in E. exact (IH _ H (proj1 E)).
  - rewrite !andb_true_iff in H. destruct H as [[[_ H] _] _]. intro E. apply app_eq_nil in E. exact (IHa _ H (proj1 E)).
  - intro E. apply app_eq_nil in E. destruct E; discriminate.
Qed.
Lemma nth_len {A} (l : list A) x r d : nth (List.length l) (l ++ x :: r) d = x.
Proof. rewrite app_nth2, Nat.sub_diag; [reflexivity|lia]. Qed.
Lemma firstn_len {A} (l r : list A) : firstn (List.length l) (l ++ r) = l.
Proof. rewrite firstn_app, Nat.sub_diag, firstn_all. apply app_nil_r. Qed.
Lemma skipn_len {A} (l r : list A) : skipn (List.length l) (l ++ r) = r.
Proof. rewrite skipn_app, Nat.sub_diag, skipn_all. reflexivity. Qed.
Lemma skipn_Slen {A} (l : list A) x r : skipn (S (List.length l)) (l ++ x :: r) = r.
Proof.
  replace (S (List.length l)) with (List.length (l ++ [x])) by (rewrite app_length; cbn; lia).
  replace (l ++ x :: r) with ((l ++ [x]) ++ r) by (rewrite <- app_assoc; reflexivity). apply skipn_len.
Qed.

Lemma loop_print e : forall l done rest par d depth begin, ok l e = true -> (d < par)%Z ->
  loop done (print false e ++ rest) par (d :: depth) begin = loop (done ++ xt e) rest par (d :: depth) begin.
Proof.
  induction e as [ds|c|e IH|p e IH|e IH|cr e IH ds|a IHa b IHb|o a IHa b IHb|e IH];
    intros l done rest par d depth begin Hok Hd; cbn [ok print xtext] in *.
  - apply loop_inert. intros c Hc. apply digit_inert. apply num_ok_all in Hok. apply Hok, Hc.
  - apply (loop_inert [c]). intros x [<-|[]]. apply var_inert, Hok.
  - cbn [app]. rewrite loop_open, <- app_assoc. rewrite (IH _ _ _ _ _ _ _ Hok) by lia. cbn [app].
    rewrite loop_close by (apply Z.eqb_neq; lia). replace (par + 1 - 1)%Z with par by lia. rewrite <- !app_assoc. reflexivity.
  - set (m := if p then cP else cS).
    assert (M : loop done ((m :: LP :: print false e ++ [RP]) ++ rest) par (d :: depth) begin =
                loop (done ++ [m]) (LP :: print false e ++ [RP] ++ rest) par (par :: d :: depth) (List.length done :: begin)).
    { cbn [app]. rewrite <- app_assoc. cbn [app].
      assert (T : ((m =? cS) && (4 <=? List.length (m :: LP :: print false e ++ RP :: rest))%nat && negb (prefix kSQRT (m :: LP :: print false e ++ RP :: rest))) || (m =? cP) = true).
      { unfold m. destruct p; [rewrite N.eqb_refl, orb_true_r; reflexivity|].
        assert (L : (4 <=? List.length (cS :: LP :: print false e ++ RP :: rest))%nat = true).
        { apply Nat.leb_le. pose proof (ok_nonempty _ _ Hok) as NE. destruct (print false e); [congruence|].
          cbn [List.length app]. rewrite app_length. cbn. lia. }
        rewrite L. reflexivity. }
      cbn [expand_loop]. rewrite T. reflexivity. }
    rewrite M, loop_open. rewrite (IH _ _ _ _ _ _ _ Hok) by lia. cbn [app expand_loop].
    replace (par + 1 - 1)%Z with par by lia. rewrite Z.eqb_refl.
    assert (E1 : ((done ++ [m]) ++ [LP]) ++ xt e = done ++ m :: LP :: xt e) by (rewrite <- !app_assoc; reflexivity).
    rewrite E1, firstn_len, skipn_Slen, nth_len. reflexivity.
  - rewrite <- !app_assoc. cbn [app]. rewrite loop_sqrt. rewrite (IH _ _ _ _ _ _ _ Hok) by lia. cbn [app].
    rewrite loop_close by (apply Z.eqb_neq; lia). replace (par + 1 - 1)%Z with par by lia. rewrite <- !app_assoc. reflexivity.
  - rewrite !andb_true_iff in Hok. destruct Hok as [[[Hl H3] Hn] _]. apply num_ok_all in Hn. destruct Hn as [N1 _].
    rewrite <- app_assoc. rewrite (IH _ _ _ _ _ _ _ H3 Hd). rewrite orb_false_r, loop_inert; [rewrite <- !app_assoc; reflexivity|].
    intros c Hc. apply in_app_or in Hc. destruct Hc as [Hc|Hc]; [|apply digit_inert, N1, Hc].
    destruct cr; [|contradiction]. destruct Hc as [<-|[]]. repeat split; discriminate.
  - rewrite !andb_true_iff in Hok. destruct Hok as [[[Hl Ha] Hb] _]. cbn [app]. rewrite <- app_assoc.
    rewrite (IHa _ _ _ _ _ _ _ Ha Hd), (IHb _ _ _ _ _ _ _ Hb Hd), <- app_assoc. reflexivity.
  - assert (Q : exists la lb, ok la a = true /\ ok lb b = true).
    { destruct o; rewrite !andb_true_iff in Hok; destruct Hok as [[Hl Ha] Hb]; eauto. }
    destruct Q as [la [lb [Ha Hb]]]. rewrite <- app_assoc. rewrite (IHa _ _ _ _ _ _ _ Ha Hd).
    change ((opc o :: print false b) ++ rest) with ([opc o] ++ (print false b ++ rest)).
    rewrite loop_inert by (intros c [<-|[]]; destruct o; repeat split; discriminate).
    rewrite (IHb _ _ _ _ _ _ _ Hb Hd), <- !app_assoc. reflexivity.
  - rewrite !andb_true_iff in Hok. destruct Hok as [_ H1].
    change ((MINUS :: print false e) ++ rest) with ([MINUS] ++ (print false e ++ rest)).
    rewrite loop_inert by (intros c [<-|[]]; repeat split; discriminate).
    rewrite (IH _ _ _ _ _ _ _ H1 Hd), <- !app_assoc. reflexivity.
Qed.
Lemma expansion_print e l : ok l e = true -> expansion names perms (print false e) = Ok (xt e).
Proof.
  intro H. unfold expansion. rewrite <- (app_nil_r (print false e)). rewrite (loop_print _ _ _ _ _ _ _ _ H) by lia. reflexivity.
Qed.

(** ** The expanded text *)
Definition names_ok : Prop := (forall c, In c names -> var_ok c = true /\ ~ In c kSQRT) /\
  (forall p, In p perms -> is_perm (List.length names) p) /\ perms <> [].
Hypothesis Hn : names_ok.

Lemma index_lt c i : index_of c names = Some i -> (i < List.length names)%nat /\ In c names.
Proof.
  clear. revert i. induction names as [|x l IH]; intros i H; [discriminate|]. cbn in H.
  destruct (c =? x) eqn:E; [injection H as <-; apply N.eqb_eq in E; subst; split; [cbn; lia|left; reflexivity]|].
  destruct (index_of c l) as [j|]; [|discriminate]. cbn in H. injection H as <-. destruct (IH j eq_refl). split; [cbn; lia|right; assumption].
Qed.
Lemma trc_names p c : In p perms -> (trc names p c = c /\ ~ In c names) \/ (In c names /\ In (trc names p c) names).
Proof.
  intro Hp. unfold trc. destruct (index_of c names) as [i|] eqn:E.
  - right. destruct (index_lt _ _ E) as [L I]. split; [exact I|]. apply nth_In. destruct Hn as [_ [P _]].
    pose proof (P _ Hp) as Q. unfold is_perm in Q.
    assert (L' : (i < List.length p)%nat) by (rewrite (Permutation.Permutation_length Q), seq_length; exact L).
    pose proof (Permutation.Permutation_in _ Q (nth_In p 0%nat L')) as R. apply in_seq in R. lia.
  - left. split; [reflexivity|]. clear -E. revert E. induction names as [|x l IH]; [auto|]. cbn. destruct (c =? x) eqn:E; [discriminate|].
    destruct (index_of c l) eqn:F; [discriminate|]. intros _ [->|H]; [rewrite N.eqb_refl in E; discriminate|exact (IH eq_refl H)].
Qed.
Lemma trc_fix p c : In p perms -> ~ (var_ok c = true /\ ~ In c kSQRT) -> trc names p c = c.
Proof. intros Hp H. destruct (trc_names p c Hp) as [[E _]|[I _]]; [exact E|]. destruct Hn as [A _]. exfalso. exact (H (A _ I)). Qed.
Lemma trc_var p c : In p perms -> var_ok c = true -> var_ok (trc names p c) = true.
Proof. intros Hp H. destruct (trc_names p c Hp) as [[E _]|[_ I]]; [rewrite E; exact H|]. apply (proj1 Hn), I. Qed.
Lemma digit_not_var c : is_digit c = true -> var_ok c = false.
Proof. intro H. unfold var_ok. rewrite (digit_not_alpha _ H). reflexivity. Qed.
Lemma translate_digits p ds : In p perms -> (forall c, In c ds -> is_digit c = true) -> translate names p ds = ds.
Proof.
  intros Hp H. unfold translate. rewrite (map_ext_in _ (fun c => c)); [apply map_id|]. intros c Hc. apply trc_fix; [exact Hp|].
  rewrite (digit_not_var _ (H _ Hc)). intros [E _]. discriminate.
Qed.
Lemma translate_app p a b : translate names p (a ++ b) = translate names p a ++ translate names p b.
Proof. apply map_app. Qed.
Lemma translate_root p : In p perms -> translate names p wSQRT = wSQRT.
Proof.
  intro Hp. unfold translate. rewrite (map_ext_in _ (fun c => c)); [apply map_id|]. intros c Hc. apply trc_fix; [exact Hp|].
  intros [V NI]. change wSQRT with (kSQRT ++ [LP]) in Hc. apply in_app_or in Hc. destruct Hc as [Hc|[<-|[]]]; [exact (NI Hc)|discriminate].
Qed.
Lemma trc_op p c : In p perms -> var_ok c = false -> trc names p c = c.
Proof. intros Hp H. apply trc_fix; [exact Hp|]. rewrite H. intros [E _]. discriminate. Qed.

Lemma translate_print p e : In p perms -> forall l, ok l e = true -> plain e = true ->
  translate names p (print false e) = print false (rename names p e) /\ ok l (rename names p e) = true /\ plain (rename names p e) = true /\
  is_num (rename names p e) = is_num e /\ starts_num (rename names p e) = starts_num e.
Proof.
  intro Hp. induction e as [ds|c|e IH|b e IH|e IH|cr e IH ds|a IHa b IHb|o a IHa b IHb|e IH]; intros l Hok Hpl;
    cbn [ok plain print rename is_num starts_num] in *; try discriminate.
  - apply num_ok_all in Hok as H. rewrite translate_digits by tauto. auto.
  - cbn. rewrite (trc_var _ _ Hp Hok). auto.
  - destruct (IH _ Hok Hpl) as [I1 [I2 [I3 _]]]. cbn. rewrite (trc_op _ LP Hp eq_refl). fold (translate names p (print false e ++ [RP])).
    rewrite translate_app, I1. cbn. rewrite (trc_op _ RP Hp eq_refl). auto.
  - destruct (IH _ Hok Hpl) as [I1 [I2 [I3 _]]]. rewrite translate_app, (translate_root _ Hp), translate_app, I1. cbn.
    rewrite (trc_op _ RP Hp eq_refl). auto.
  - rewrite !andb_true_iff in Hok. destruct Hok as [[[Hl H3] Hd] Hc]. destruct (IH _ H3 Hpl) as [I1 [I2 [I3 [I4 _]]]].
    apply num_ok_all in Hd as N1. rewrite !translate_app, I1, (translate_digits _ ds) by tauto. rewrite !andb_true_iff, I4.
    split; [|tauto]. do 2 f_equal. destruct cr; [|reflexivity]. cbn. rewrite (trc_op _ CARET Hp eq_refl). reflexivity.
  - rewrite !andb_true_iff in Hok. rewrite andb_true_iff in Hpl. destruct Hok as [[[Hl Ha] Hb] Hc], Hpl as [Pa Pb].
    destruct (IHa _ Ha Pa) as [A1 [A2 [A3 _]]], (IHb _ Hb Pb) as [B1 [B2 [B3 [_ B4]]]]. cbn [app].
    rewrite translate_app, A1, B1, !andb_true_iff, B4. tauto.
  - rewrite andb_true_iff in Hpl. destruct Hpl as [Pa Pb].
    rewrite translate_app. change (opc o :: print false b) with ([opc o] ++ print false b). rewrite translate_app.
    assert (E : translate names p [opc o] = [opc o]) by (cbn; rewrite trc_op; [reflexivity|exact Hp|destruct o; reflexivity]). rewrite E.
    destruct o; rewrite !andb_true_iff in Hok; destruct Hok as [[Hl Ha] Hb]; destruct (IHa _ Ha Pa) as [A1 [A2 [A3 _]]], (IHb _ Hb Pb) as [B1 [B2 [B3 _]]];
      rewrite A1, B1, !andb_true_iff; cbn [app print]; tauto.
  - rewrite !andb_true_iff in Hok. destruct Hok as [Hl H1]. destruct (IH _ H1 Hpl) as [I1 [I2 [I3 _]]].
    change (MINUS :: print false e) with ([MINUS] ++ print false e). rewrite translate_app, I1, !andb_true_iff. cbn. rewrite (trc_op _ MINUS Hp eq_refl). auto.
Qed.

Lemma nospace_app a b : nospace (a ++ b) = nospace a ++ nospace b.
Proof. apply filter_app. Qed.
Lemma space_facts p c : In p perms -> (trc names p c =? SPACE) = (c =? SPACE).
Proof.
  intro Hp. destruct (trc_names p c Hp) as [[E _]|[I1 I2]]; [rewrite E; reflexivity|].
  assert (Q : forall d, In d names -> d <> SPACE).
  { intros d Hd. apply (proj1 Hn) in Hd. destruct Hd as [V _]. apply var_ok_iff in V. apply alpha_facts, V. }
  rewrite (proj2 (N.eqb_neq _ _) (Q _ I1)), (proj2 (N.eqb_neq _ _) (Q _ I2)). reflexivity.
Qed.
Lemma nospace_translate p s : In p perms -> nospace (translate names p s) = translate names p (nospace s).
Proof.
  intro Hp. unfold nospace, translate. induction s as [|c s IH]; [reflexivity|]. cbn [map filter]. rewrite (space_facts _ _ Hp).
  destruct (negb (c =? SPACE)); cbn [map]; rewrite IH; reflexivity.
Qed.
Lemma nospace_digits ds : (forall c, In c ds -> is_digit c = true) -> nospace ds = ds.
Proof.
  unfold nospace. induction ds as [|c ds IH]; [reflexivity|]. intro H. cbn.
  destruct (digit_facts c (H c ltac:(left; reflexivity))) as [_ [_ [_ [_ L]]]]. apply N.eqb_neq in L. rewrite L. cbn. rewrite IH; [reflexivity|].
  intros; apply H; right; assumption.
Qed.

Lemma chain_print o l : forall x, print false (fold_left (TBin o) l x) = print false x ++ concat (map (fun t => opc o :: print false t) l).
Proof.
  induction l as [|y l IH]; intro x; [cbn; rewrite app_nil_r; reflexivity|]. cbn [fold_left map concat]. rewrite IH.
  cbn [print]. rewrite <- app_assoc. reflexivity.
Qed.
Lemma nospace_join sep c (l : list str) : nospace sep = [c] ->
  nospace (join sep l) = match l with [] => [] | x :: l' => nospace x ++ concat (map (fun t => c :: nospace t) l') end.
Proof.
  intro H. destruct l as [|x l]; [reflexivity|]. revert x. induction l as [|y l IH]; intro x; [cbn; rewrite app_nil_r; reflexivity|].
  change (join sep (x :: y :: l)) with (x ++ sep ++ join sep (y :: l)). rewrite !nospace_app, IH, H. cbn [map concat app]. reflexivity.
Qed.
Lemma chain_ok o l x : (forall y, In y (x :: l) -> forall m, ok m y = true) ->
  forall n, match o with Badd | Bsub => n = 0%nat | _ => (n <= 1)%nat end -> ok n (fold_left (TBin o) l x) = true.
Proof.
  induction l as [|y l IH] using rev_ind; intros H n Hon; [apply H; left; reflexivity|]. rewrite fold_left_app. cbn [fold_left].
  assert (A : forall n, match o with Badd | Bsub => n = 0%nat | _ => (n <= 1)%nat end -> ok n (fold_left (TBin o) l x) = true).
  { apply IH. intros z [Hz|Hz] m; apply H; [left; exact Hz|right; apply in_or_app; left; exact Hz]. }
  assert (B : forall m, ok m y = true) by (intro m; apply H; right; apply in_or_app; right; left; reflexivity).
  destruct o; cbn [ok]; rewrite !andb_true_iff, Nat.leb_le; (split; [split; [lia|apply A; lia]|apply B]).
Qed.
Lemma chain_plain o l x : (forall y, In y (x :: l) -> plain y = true) -> plain (fold_left (TBin o) l x) = true.
Proof.
  induction l as [|y l IH] using rev_ind; intro H; [apply H; left; reflexivity|]. rewrite fold_left_app. cbn [fold_left plain].
  rewrite IH; [apply H; right; apply in_or_app; right; left; reflexivity|].
  intros z [Hz|Hz]; apply H; [left; exact Hz|right; apply in_or_app; left; exact Hz].
Qed.
Notation xe := (xexp names perms).
Lemma xexp_facts e : forall l, ok l e = true ->
  nospace (xt e) = print false (xe e) /\ ok l (xe e) = true /\ plain (xe e) = true /\ is_num (xe e) = is_num e /\ starts_num (xe e) = starts_num e.
Proof.
  induction e as [ds|c|e IH|b e IH|e IH|cr e IH ds|a IHa b IHb|o a IHa b IHb|e IH]; intros l Hok;
    cbn [ok plain print xtext xexp is_num starts_num] in *.
  - apply num_ok_all in Hok as H. rewrite nospace_digits by tauto. auto.
  - apply var_ok_iff in Hok as H. destruct (alpha_facts _ (proj1 H)) as [_ [_ [E _]]]. cbn. rewrite (proj2 (N.eqb_neq _ _) E). auto.
  - destruct (IH _ Hok) as [I1 [I2 [I3 _]]]. change (LP :: xt e ++ [RP]) with ([LP] ++ xt e ++ [RP]). rewrite !nospace_app, I1. auto.
  - destruct (IH _ Hok) as [I1 [I2 [I3 _]]].
    pose proof (proj2 (proj2 Hn)) as NE.
    assert (R : forall y, In y (map (fun s => TPar (rename names s (xe e))) perms) -> (forall m, ok m y = true) /\ plain y = true).
    { intros y Hy. apply in_map_iff in Hy. destruct Hy as [s [<- Hs]]. destruct (translate_print s (xe e) Hs _ I2 I3) as [_ [T2 [T3 _]]].
      split; [intro m; exact T2|exact T3]. }
    split; [|split; [|split; [|auto]]].
    + change (LP :: cycle_expansion names perms (LP :: xt e ++ [RP]) (if b then cP else cS) ++ [RP])
        with ([LP] ++ cycle_expansion names perms (LP :: xt e ++ [RP]) (if b then cP else cS) ++ [RP]).
      rewrite !nospace_app. cbn [print]. change (nospace [LP]) with [LP]. change (nospace [RP]) with [RP]. cbn [app]. do 2 f_equal.
      unfold cycle_expansion, chain. rewrite (nospace_join _ (opc (if b then Bmul else Badd))) by (destruct b; reflexivity).
      assert (T : forall s, In s perms -> nospace (translate names s (LP :: xt e ++ [RP])) = print false (TPar (rename names s (xe e)))).
      { intros s Hs. rewrite (nospace_translate _ _ Hs). change (LP :: xt e ++ [RP]) with ([LP] ++ xt e ++ [RP]).
        rewrite !nospace_app, I1, !translate_app. destruct (translate_print s (xe e) Hs _ I2 I3) as [-> _]. cbn.
        rewrite (trc_op _ LP Hs eq_refl), (trc_op _ RP Hs eq_refl). reflexivity. }
      destruct perms as [|s0 ss]; [congruence|]. cbn [map]. rewrite chain_print, (T s0) by (left; reflexivity). f_equal. f_equal. rewrite !map_map.
      apply map_ext_in. intros s Hs. rewrite (T s) by (right; exact Hs). reflexivity.
    + unfold chain. destruct perms as [|s0 ss]; [congruence|]. cbn [map]. apply chain_ok; [|destruct b; lia].
      intros y Hy. apply R, Hy.
    + cbn [plain]. unfold chain. destruct perms as [|s0 ss]; [congruence|]. cbn [map]. apply chain_plain. intros y Hy. apply R, Hy.
  - destruct (IH _ Hok) as [I1 [I2 [I3 _]]]. rewrite !nospace_app, I1. auto.
  - rewrite !andb_true_iff in Hok. destruct Hok as [[[Hl H3] Hd] Hc]. destruct (IH _ H3) as [I1 [I2 [I3 [I4 _]]]].
    apply num_ok_all in Hd as N1. rewrite !nospace_app, I1, (nospace_digits ds) by tauto. rewrite !andb_true_iff, I4.
    split; [|tauto]. do 2 f_equal. destruct cr; reflexivity.
  - rewrite !andb_true_iff in Hok. destruct Hok as [[[Hl Ha] Hb] Hc].
    destruct (IHa _ Ha) as [A1 [A2 [A3 _]]], (IHb _ Hb) as [B1 [B2 [B3 [_ B4]]]]. cbn [app].
    rewrite nospace_app, A1, B1, !andb_true_iff, B4. tauto.
  - change (opc o :: xt b) with ([opc o] ++ xt b). rewrite !nospace_app.
    assert (E : nospace [opc o] = [opc o]) by (destruct o; reflexivity). rewrite E.
    destruct o; rewrite !andb_true_iff in Hok; destruct Hok as [[Hl Ha] Hb]; destruct (IHa _ Ha) as [A1 [A2 [A3 _]]], (IHb _ Hb) as [B1 [B2 [B3 _]]];
      rewrite A1, B1, !andb_true_iff; cbn [app print]; tauto.
  - rewrite !andb_true_iff in Hok. destruct Hok as [Hl H1]. destruct (IH _ H1) as [I1 [I2 [I3 _]]].
    change (MINUS :: xt e) with ([MINUS] ++ xt e). rewrite nospace_app, I1, !andb_true_iff. auto.
Qed.

(** ** Values *)
Section Val.
Variable K : OrdField.
Variable sqrt : K -> K.
Notation vl := (val K sqrt names perms).
Local Open Scope of_scope.
Lemma val_ext e : forall v w, (forall c, v c = w c) -> vl v e = vl w e.
Proof.
  induction e as [ds|c|e IH|b e IH|e IH|cr e IH ds|a IHa b IHb|o a IHa b IHb|e IH]; intros v w H; cbn [val]; auto.
  - f_equal. apply map_ext. intro s. apply IH. intro c. apply H.
  - f_equal. apply IH, H.
  - f_equal. apply IH, H.
  - rewrite (IHa _ _ H), (IHb _ _ H). reflexivity.
  - rewrite (IHa _ _ H), (IHb _ _ H). reflexivity.
  - rewrite (IH _ _ H). reflexivity.
Qed.
Lemma val_rename p e v : plain e = true -> vl v (rename names p e) = vl (fun c => v (trc names p c)) e.
Proof.
  induction e as [ds|c|e IH|b e IH|e IH|cr e IH ds|a IHa b IHb|o a IHa b IHb|e IH]; cbn [plain rename val]; intro H; try discriminate; auto;
    try (rewrite andb_true_iff in H; destruct H; rewrite IHa, IHb by assumption; reflexivity);
    rewrite IH by assumption; reflexivity.
Qed.
Add Field Kf : (F_field K).
Lemma fold_left_mul (l : list K) : forall a, fold_left fmul l a = a * fold_right fmul 1 l.
Proof. induction l as [|x l IH]; intro a; cbn; [ring|]. rewrite IH. ring. Qed.
Lemma fold_left_add (l : list K) : forall a, fold_left fadd l a = a + fold_right fadd 0 l.
Proof. induction l as [|x l IH]; intro a; cbn; [ring|]. rewrite IH. ring. Qed.
Lemma val_chain v (b : bool) l x : vl v (fold_left (TBin (if b then Bmul else Badd)) l x) = fold_op K b (map (vl v) (x :: l)).
Proof.
  assert (E : forall x, vl v (fold_left (TBin (if b then Bmul else Badd)) l x) = fold_left (if b then fmul else fadd) (map (vl v) l) (vl v x)).
  { clear x. induction l as [|y l IH]; intro x; [reflexivity|]. cbn [fold_left map]. rewrite IH. destruct b; reflexivity. }
  rewrite E. unfold fold_op. destruct b; cbn [map fold_right]; [apply fold_left_mul|apply fold_left_add].
Qed.
Lemma val_xexp e : forall l v, ok l e = true -> vl v (xe e) = vl v e.
Proof.
  induction e as [ds|c|e IH|b e IH|e IH|cr e IH ds|a IHa b IHb|o a IHa b IHb|e IH]; intros l v Hok; cbn [ok xexp val] in *; auto.
  - eapply IH; eassumption.
  - destruct (xexp_facts _ _ Hok) as [_ [_ [P _]]].
    assert (E : map (fun s => vl (fun c => v (trc names s c)) e) perms = map (vl v) (map (fun s => TPar (rename names s (xe e))) perms)).
    { rewrite map_map. apply map_ext. intro s. cbn [val]. rewrite val_rename by exact P. symmetry. eapply IH. exact Hok. }
    rewrite E. unfold chain. pose proof (proj2 (proj2 Hn)) as NE.
    destruct (map (fun s => TPar (rename names s (xe e))) perms) as [|x0 l0] eqn:EM; [apply map_eq_nil in EM; congruence|apply (val_chain v b)].
  - f_equal. eapply IH; eassumption.
  - rewrite !andb_true_iff in Hok. destruct Hok as [[[_ H] _] _]. rewrite (IH _ _ H). reflexivity.
  - rewrite !andb_true_iff in Hok. destruct Hok as [[[_ H1] H2] _]. rewrite (IHa _ _ H1), (IHb _ _ H2). reflexivity.
  - destruct o; rewrite !andb_true_iff in Hok; destruct Hok as [[_ H1] H2]; rewrite (IHa _ _ H1), (IHb _ _ H2); reflexivity.
  - rewrite !andb_true_iff in Hok. destruct Hok as [_ H1]. rewrite (IH _ _ H1). reflexivity.
Qed.
End Val.
End Exp.

(** ** Removal of LaTeX *)
Lemma replace_none w r s : contains w s = false -> replace w r s = s.
Proof.
  unfold replace. induction s as [|c s IH]; [reflexivity|]. cbn [contains replace_from]. rewrite orb_false_iff. intros [H1 H2].
  rewrite H1, (IH H2). reflexivity.
Qed.
Definition tame (c : N) : Prop := c <> SPACE /\ c <> 123 /\ c <> 125 /\ c <> 92 /\ c <> 36.
Lemma contains_char a w s : ~ In a s -> contains (a :: w) s = false.
Proof.
  induction s as [|c s IH]; intro H; [reflexivity|]. cbn [contains prefix]. rewrite IH by (intro; apply H; right; assumption).
  destruct (a =? c) eqn:E; [|reflexivity]. apply N.eqb_eq in E. exfalso. apply H. left. congruence.
Qed.
Lemma nospace_tame s : (forall c, In c s -> c <> SPACE) -> nospace s = s.
Proof.
  unfold nospace. induction s as [|c s IH]; [reflexivity|]. intro H. cbn. rewrite (proj2 (N.eqb_neq _ _) (H c ltac:(left; reflexivity))). cbn.
  rewrite IH; [reflexivity|]. intros; apply H; right; assumption.
Qed.
Lemma words_tame s : (forall c, In c s -> tame c) -> contains wLEFT s = false -> contains wRIGHT s = false -> contains wFRAC s = false ->
  delatex_words s = s.
Proof.
  intros H HL HR HF. unfold delatex_words. rewrite (nospace_tame s) by (intros; apply H; assumption).
  rewrite (replace_none _ _ _ HL), (replace_none _ _ _ HR), (replace_none [125; 123]), (replace_none _ _ _ HF)
    by (apply contains_char; intro I; apply (proj1 (proj2 (proj2 (H _ I)))); reflexivity).
  rewrite (map_ext_in _ (fun c => c)), map_id; [apply nospace_tame; intros; apply H; assumption|].
  intros c Hc. destruct (H c Hc) as [_ [H1 [H2 [H3 H4]]]]. unfold tex_char.
  rewrite (proj2 (N.eqb_neq _ _) H1), (proj2 (N.eqb_neq _ _) H2), (proj2 (N.eqb_neq _ _) H3), (proj2 (N.eqb_neq _ _) H4). reflexivity.
Qed.
(** [bal n s]: reading [s] at bracket depth [n] never goes below depth 0 *)
Fixpoint bal (n : nat) (s : str) : bool :=
  match s with
  | [] => true
  | c :: s' => if c =? LP then bal (S n) s' else if c =? RP then match n with O => false | S m => bal m s' end else bal n s'
  end.
Lemma prefix_contains w s : contains w s = false -> prefix w s = false.
Proof. destruct s; cbn [contains]; rewrite orb_false_iff; tauto. Qed.
Lemma contains_tl w c s : contains w (c :: s) = false -> contains w s = false.
Proof. cbn [contains]. rewrite orb_false_iff. tauto. Qed.
Lemma loop_tame f : forall s done n, (List.length s < f)%nat -> bal n s = true -> contains wSUM s = false -> contains wPROD s = false ->
  delatex_loop f done s (Z.of_nat n) [(-1)%Z] = Ok (done ++ s).
Proof.
  induction f as [|f IH]; intros s done n L B S1 S2; [lia|]. cbn [delatex_loop].
  destruct (4 <? List.length s)%nat eqn:E; [|cbn; rewrite app_nil_r; reflexivity].
  rewrite (prefix_contains _ _ S1), (prefix_contains _ _ S2). destruct s as [|c s]; [discriminate|].
  cbn in L. pose proof (contains_tl _ _ _ S1) as T1. pose proof (contains_tl _ _ _ S2) as T2. cbn [bal] in B.
  assert (R : Ok ((done ++ [c]) ++ s) = Ok (done ++ c :: s)) by (rewrite <- app_assoc; reflexivity).
  destruct (c =? LP) eqn:EL; [|destruct (c =? RP) eqn:ER].
  - replace (Z.of_nat n + 1)%Z with (Z.of_nat (S n)) by lia. rewrite IH by (auto; lia). exact R.
  - destruct n as [|m]; [discriminate|]. replace (Z.of_nat (S m) - 1)%Z with (Z.of_nat m) by lia. rewrite IH by (auto; lia). exact R.
  - assert (Q : (Z.of_nat n =? -1)%Z = false) by (apply Z.eqb_neq; lia). rewrite Q. cbn [andb]. rewrite IH by (auto; lia). exact R.
Qed.
Lemma print_chars e : forall l c, ok l e = true -> In c (print false e) ->
  is_digit c = true \/ is_alpha c = true \/ In c [LP; RP; STAR; PLUS; MINUS; SLASH; CARET].
Proof.
  induction e as [ds|x|e IH|p e IH|e IH|cr e IH ds|a IHa b IHb|o a IHa b IHb|e IH]; intros l c H Hc; cbn [ok print] in *.
  - apply num_ok_all in H. left. apply H, Hc.
  - destruct Hc as [<-|[]]. apply var_ok_iff in H. tauto.
  - destruct Hc as [<-|Hc]; [cbn; tauto|]. apply in_app_or in Hc. destruct Hc as [Hc|[<-|[]]]; [eauto|cbn; tauto].
  - destruct Hc as [<-|[<-|Hc]]; [destruct p; right; left; reflexivity|cbn; tauto|]. apply in_app_or in Hc. destruct Hc as [Hc|[<-|[]]]; [eauto|cbn; tauto].
  - apply in_app_or in Hc. destruct Hc as [Hc|Hc].
    + right. cbn in Hc. destruct Hc as [<-|[<-|[<-|[<-|[<-|[]]]]]]; [left; reflexivity..|right; left; reflexivity].
    + apply in_app_or in Hc. destruct Hc as [Hc|[<-|[]]]; [eauto|cbn; tauto].
  - rewrite !andb_true_iff in H. destruct H as [[[_ H] Hn] _]. apply num_ok_all in Hn. apply in_app_or in Hc. destruct Hc as [Hc|Hc]; [eauto|].
    apply in_app_or in Hc. destruct Hc as [Hc|Hc]; [|left; apply Hn, Hc]. destruct (cr || false); [destruct Hc as [<-|[]]; cbn; tauto|contradiction].
  - rewrite !andb_true_iff in H. destruct H as [[[_ H1] H2] _]. apply in_app_or in Hc. destruct Hc as [Hc|Hc]; eauto.
  - assert (Q : exists la lb, ok la a = true /\ ok lb b = true).
    { destruct o; rewrite !andb_true_iff in H; destruct H as [[Hl Ha] Hb]; eauto. }
    destruct Q as [la [lb [Ha Hb]]]. apply in_app_or in Hc. destruct Hc as [Hc|[<-|Hc]]; eauto. destruct o; cbn; tauto.
  - rewrite !andb_true_iff in H. destruct H as [_ H]. destruct Hc as [<-|Hc]; [cbn; tauto|eauto].
Qed.
Lemma char_tame c : is_digit c = true \/ is_alpha c = true \/ In c [LP; RP; STAR; PLUS; MINUS; SLASH; CARET] ->
  tame c /\ (if (65 <=? c) && (c <=? 90) then c + 32 else c) = c.
Proof.
  unfold is_digit, is_alpha, tame, SPACE. rewrite !andb_true_iff, !N.leb_le.
  intros [H|[H|H]].
  - split; [lia|]. destruct ((65 <=? c) && (c <=? 90)) eqn:E; [|reflexivity]. rewrite andb_true_iff, !N.leb_le in E. lia.
  - split; [lia|]. destruct ((65 <=? c) && (c <=? 90)) eqn:E; [|reflexivity]. rewrite andb_true_iff, !N.leb_le in E. lia.
  - cbn in H. repeat destruct H as [<-|H]; try (split; [repeat split; discriminate|reflexivity]). contradiction.
Qed.
(** printed expressions are balanced: reading one leaves the depth as it was *)
Lemma bal_inert w n rest : (forall c, In c w -> c <> LP /\ c <> RP) -> bal n (w ++ rest) = bal n rest.
Proof.
  induction w as [|c w IH]; intro H; [reflexivity|]. cbn [app bal]. destruct (H c ltac:(left; reflexivity)) as [H1 H2].
  rewrite (proj2 (N.eqb_neq _ _) H1), (proj2 (N.eqb_neq _ _) H2). apply IH. intros; apply H; right; assumption.
Qed.
Lemma bal_print e : forall l n rest, ok l e = true -> bal n (print false e ++ rest) = bal n rest.
Proof.
  induction e as [ds|x|e IH|p e IH|e IH|cr e IH ds|a IHa b IHb|o a IHa b IHb|e IH]; intros l n rest H; cbn [ok print] in *.
  - apply bal_inert. apply num_ok_all in H. intros c Hc. apply H in Hc. apply digit_inert in Hc. unfold inert in Hc. tauto.
  - apply (bal_inert [x]). intros c [<-|[]]. apply var_inert in H. unfold inert in H. tauto.
  - cbn [app bal]. rewrite <- app_assoc. cbn. rewrite (IH _ _ _ H). reflexivity.
  - destruct p; cbn; rewrite <- app_assoc; rewrite (IH _ _ _ H); reflexivity.
  - rewrite <- !app_assoc. cbn. rewrite (IH _ _ _ H). reflexivity.
  - rewrite !andb_true_iff in H. destruct H as [[[_ H] Hn] _]. apply num_ok_all in Hn. rewrite <- !app_assoc, (IH _ _ _ H), app_assoc.
    apply bal_inert. intros c Hc. apply in_app_or in Hc. destruct Hc as [Hc|Hc].
    + destruct (cr || false); [destruct Hc as [<-|[]]; split; discriminate|contradiction].
    + apply Hn in Hc. apply digit_inert in Hc. unfold inert in Hc. tauto.
  - rewrite !andb_true_iff in H. destruct H as [[[_ H1] H2] _]. cbn [app]. rewrite <- app_assoc, (IHa _ _ _ H1), (IHb _ _ _ H2). reflexivity.
  - assert (Q : exists la lb, ok la a = true /\ ok lb b = true).
    { destruct o; rewrite !andb_true_iff in H; destruct H as [[Hl Ha] Hb]; eauto. }
    destruct Q as [la [lb [Ha Hb]]]. rewrite <- app_assoc, (IHa _ _ _ Ha).
    change ((opc o :: print false b) ++ rest) with ([opc o] ++ (print false b ++ rest)).
    rewrite bal_inert by (intros c [<-|[]]; destruct o; split; discriminate). apply (IHb _ _ _ Hb).
  - rewrite !andb_true_iff in H. destruct H as [_ H]. cbn. apply (IH _ _ _ H).
Qed.
(** the words sum and prod do not occur *)
Lemma mac_words e : forall l rest, ok l e = true -> (forall w, w = wSUM \/ w = wPROD -> contains w rest = false) ->
  forall w, w = wSUM \/ w = wPROD -> contains w (print false e ++ rest) = false.
Proof.
  assert (C1 : forall c s w, (w = wSUM \/ w = wPROD) -> c <> cS -> c <> cP -> contains w s = false -> contains w (c :: s) = false).
  { intros c s w Hw H1 H2 H. cbn [contains]. rewrite H, orb_false_r. apply not_eq_sym, N.eqb_neq in H1. apply not_eq_sym, N.eqb_neq in H2.
    destruct Hw as [->| ->]; [change (prefix wSUM (c :: s)) with ((cS =? c) && prefix (tl wSUM) s); rewrite H1; reflexivity|
                              change (prefix wPROD (c :: s)) with ((cP =? c) && prefix (tl wPROD) s); rewrite H2; reflexivity]. }
  assert (CL : forall d s w, (w = wSUM \/ w = wPROD) -> (forall c, In c d -> c <> cS /\ c <> cP) -> contains w s = false -> contains w (d ++ s) = false).
  { induction d as [|c d IH]; intros s w Hw Hd H; [exact H|]. cbn [app]. destruct (Hd c ltac:(left; reflexivity)).
    apply C1; auto. apply IH; auto. intros; apply Hd; right; assumption. }
  assert (DG : forall ds, num_ok ds = true -> forall c, In c ds -> c <> cS /\ c <> cP).
  { intros ds H c Hc. apply num_ok_all in H. apply H, digit_inert in Hc. unfold inert in Hc. tauto. }
  induction e as [ds|x|e IH|p e IH|e IH|cr e IH ds|a IHa b IHb|o a IHa b IHb|e IH]; intros l rest H Hr w Hw; cbn [ok print] in *.
  - apply CL; auto. exact (DG _ H).
  - apply var_inert in H. destruct H as [H1 [H2 _]]. cbn [app]. apply C1; auto.
  - cbn [app]. rewrite <- app_assoc. apply C1; try discriminate; auto. eapply IH; eauto. intros. cbn [app]. apply C1; try discriminate; auto.
  - cbn [app]. rewrite <- app_assoc.
    assert (G : contains w (LP :: print false e ++ [RP] ++ rest) = false).
    { apply C1; try discriminate; auto. eapply IH; eauto. intros. cbn [app]. apply C1; try discriminate; auto. }
    cbn [contains]. cbn [contains] in G. rewrite G, orb_false_r. destruct Hw as [->| ->], p; reflexivity.
  - rewrite <- !app_assoc.
    assert (G : contains w (print false e ++ [RP] ++ rest) = false).
    { eapply IH; eauto. intros. cbn [app]. apply C1; try discriminate; auto. }
    change (wSQRT ++ print false e ++ [RP] ++ rest) with (cS :: [113; 114; 116; LP] ++ (print false e ++ [RP] ++ rest)).
    assert (G' : contains w ([113; 114; 116; LP] ++ (print false e ++ [RP] ++ rest)) = false).
    { apply CL; auto. intros c Hc. cbn in Hc. repeat destruct Hc as [<-|Hc]; try (split; discriminate). contradiction. }
    change (prefix w (cS :: [113; 114; 116; LP] ++ (print false e ++ [RP] ++ rest)) ||
            contains w ([113; 114; 116; LP] ++ (print false e ++ [RP] ++ rest)) = false).
    rewrite G', orb_false_r. destruct Hw as [->| ->]; reflexivity.
  - rewrite !andb_true_iff in H. destruct H as [[[_ H] Hn] _]. rewrite <- !app_assoc. apply (IH _ _ H); auto. intros w' Hw'.
    rewrite app_assoc. apply CL; auto. intros c Hc. apply in_app_or in Hc. destruct Hc as [Hc|Hc]; [|exact (DG _ Hn _ Hc)].
    destruct (cr || false); [destruct Hc as [<-|[]]; split; discriminate|contradiction].
  - rewrite !andb_true_iff in H. destruct H as [[[_ H1] H2] _]. cbn [app]. rewrite <- app_assoc. eapply IHa; eauto.
  - assert (Q : exists la lb, ok la a = true /\ ok lb b = true).
    { destruct o; rewrite !andb_true_iff in H; destruct H as [[Hl Ha] Hb]; eauto. }
    destruct Q as [la [lb [Ha Hb]]]. rewrite <- app_assoc. eapply IHa; eauto. intros w' Hw'. cbn [app]. apply C1; auto; [destruct o; discriminate..|].
    eapply IHb; eauto.
  - rewrite !andb_true_iff in H. destruct H as [_ H]. cbn [app]. apply C1; try discriminate; auto. eapply IH; eauto.
Qed.
Definition wordless (s : str) : Prop := contains wLEFT s = false /\ contains wRIGHT s = false /\ contains wFRAC s = false.
Lemma delatex_print e l : ok l e = true -> wordless (print false e) -> delatex (lower (print false e)) = Ok (print false e).
Proof.
  intros H [W1 [W2 W3]].
  assert (L : lower (print false e) = print false e).
  { unfold lower. rewrite (map_ext_in _ (fun c => c)), map_id; [reflexivity|]. intros c Hc. apply char_tame. eapply print_chars; eauto. }
  rewrite L. unfold delatex. rewrite words_tame; auto; [|intros c Hc; apply char_tame; eapply print_chars; eauto].
  apply (loop_tame _ _ [] 0%nat); [lia| | |].
  - rewrite <- (app_nil_r (print false e)). rewrite (bal_print _ _ _ _ H). reflexivity.
  - rewrite <- (app_nil_r (print false e)). apply (mac_words _ _ _ H); [intros w [->| ->]; reflexivity|left; reflexivity].
  - rewrite <- (app_nil_r (print false e)). apply (mac_words _ _ _ H); [intros w [->| ->]; reflexivity|right; reflexivity].
Qed.
Lemma preprocess_print names perms e l : names_ok names perms -> ok l e = true -> wordless (print false e) ->
  preprocess_text names perms false true false (print false e) = Ok (print true (xexp names perms e)).
Proof.
  intros Hn H W. unfold preprocess_text. rewrite (delatex_print _ _ H W), (expansion_print _ _ _ _ H). unfold completion.
  destruct (xexp_facts names perms Hn e l H) as [E [O [P _]]]. rewrite E. f_equal. eapply completion_print; eauto.
Qed.

(** ** LaTeX sums *)
(** [quiet n s]: read at bracket depth [n], [s] closes what it opens and has no sign outside of brackets *)
Fixpoint quiet (n : nat) (s : str) : bool :=
  match s with
  | [] => Nat.eqb n 0
  | c :: s' => if c =? LP then quiet (S n) s' else if c =? RP then match n with O => false | S m => quiet m s' end
               else if ((c =? PLUS) || (c =? MINUS)) && Nat.eqb n 0 then false else quiet n s'
  end.
Lemma contains_app_r w a b : contains w (a ++ b) = false -> contains w b = false.
Proof. induction a as [|c a IH]; [auto|]. cbn [app]. intro H. apply IH. eapply contains_tl; exact H. Qed.
Lemma loop_quiet s : forall n done rest d depth f, quiet n s = true -> (4 <= List.length rest)%nat ->
  contains wSUM (s ++ rest) = false -> contains wPROD (s ++ rest) = false ->
  delatex_loop (List.length s + f) done (s ++ rest) (d + Z.of_nat n) (d :: depth) = delatex_loop f (done ++ s) rest d (d :: depth).
Proof.
  induction s as [|c s IH]; intros n done rest d depth f Q L S1 S2.
  - cbn in Q. apply Nat.eqb_eq in Q. subst n. cbn. rewrite app_nil_r, Z.add_0_r. reflexivity.
  - cbn [List.length plus delatex_loop].
    assert (E : (4 <? List.length ((c :: s) ++ rest))%nat = true) by (apply Nat.ltb_lt; cbn; rewrite app_length; lia).
    rewrite E, (prefix_contains _ _ S1), (prefix_contains _ _ S2). cbn [app] in *.
    pose proof (contains_tl _ _ _ S1) as T1. pose proof (contains_tl _ _ _ S2) as T2. cbn [quiet] in Q.
    assert (R : (done ++ [c]) ++ s = done ++ c :: s) by (rewrite <- app_assoc; reflexivity).
    destruct (c =? LP) eqn:EL; [|destruct (c =? RP) eqn:ER].
    + replace (d + Z.of_nat n + 1)%Z with (d + Z.of_nat (S n))%Z by lia. rewrite (IH _ _ _ _ _ _ Q L T1 T2), R. reflexivity.
    + destruct n as [|m]; [discriminate|]. replace (d + Z.of_nat (S m) - 1)%Z with (d + Z.of_nat m)%Z by lia.
      rewrite (IH _ _ _ _ _ _ Q L T1 T2), R. reflexivity.
    + destruct ((c =? PLUS) || (c =? MINUS)) eqn:ES; cbn [andb] in Q.
      * destruct (Nat.eqb n 0) eqn:En; [discriminate|]. apply Nat.eqb_neq in En.
        assert (Z1 : (d + Z.of_nat n =? d)%Z = false) by (apply Z.eqb_neq; lia). rewrite Z1. cbn [andb].
        rewrite (IH _ _ _ _ _ _ Q L T1 T2), R. reflexivity.
      * rewrite andb_false_r. rewrite (IH _ _ _ _ _ _ Q L T1 T2), R. reflexivity.
Qed.
Lemma loop_quiet_end s : forall n done d depth f, quiet n s = true -> (List.length s < f)%nat ->
  contains wSUM s = false -> contains wPROD s = false ->
  delatex_loop f done s (d + Z.of_nat n) (d :: depth) = Ok (done ++ s ++ repeat RP (List.length depth)).
Proof.
  induction s as [|c s IH]; intros n done d depth f Q L S1 S2.
  - destruct f; [cbn in L; lia|]. cbn. rewrite Nat.sub_0_r. reflexivity.
  - destruct f as [|f]; [lia|]. cbn [List.length] in L. cbn [delatex_loop].
    destruct (4 <? List.length (c :: s))%nat eqn:E; [|cbn; rewrite Nat.sub_0_r; reflexivity].
    rewrite (prefix_contains _ _ S1), (prefix_contains _ _ S2).
    pose proof (contains_tl _ _ _ S1) as T1. pose proof (contains_tl _ _ _ S2) as T2. cbn [quiet] in Q.
    assert (R : forall t, Ok ((done ++ [c]) ++ s ++ t) = Ok (done ++ (c :: s) ++ t)) by (intro; rewrite <- app_assoc; reflexivity).
    destruct (c =? LP) eqn:EL; [|destruct (c =? RP) eqn:ER].
    + replace (d + Z.of_nat n + 1)%Z with (d + Z.of_nat (S n))%Z by lia. rewrite (IH _ _ _ _ _ Q) by (auto; lia). apply R.
    + destruct n as [|m]; [discriminate|]. replace (d + Z.of_nat (S m) - 1)%Z with (d + Z.of_nat m)%Z by lia. rewrite (IH _ _ _ _ _ Q) by (auto; lia). apply R.
    + destruct ((c =? PLUS) || (c =? MINUS)) eqn:ES; cbn [andb] in Q.
      * destruct (Nat.eqb n 0) eqn:En; [discriminate|]. apply Nat.eqb_neq in En.
        assert (Z1 : (d + Z.of_nat n =? d)%Z = false) by (apply Z.eqb_neq; lia). rewrite Z1. cbn [andb]. rewrite (IH _ _ _ _ _ Q) by (auto; lia). apply R.
      * rewrite andb_false_r. rewrite (IH _ _ _ _ _ Q) by (auto; lia). apply R.
Qed.
Lemma quiet_inert w n rest : (forall c, In c w -> c <> LP /\ c <> RP /\ c <> PLUS /\ c <> MINUS) -> quiet n (w ++ rest) = quiet n rest.
Proof.
  induction w as [|c w IH]; intro H; [reflexivity|]. cbn [app quiet]. destruct (H c ltac:(left; reflexivity)) as [H1 [H2 [H3 H4]]].
  rewrite (proj2 (N.eqb_neq _ _) H1), (proj2 (N.eqb_neq _ _) H2), (proj2 (N.eqb_neq _ _) H3), (proj2 (N.eqb_neq _ _) H4). apply IH. intros; apply H; right; assumption.
Qed.
Lemma quiet_print e : forall l n rest, ok l e = true -> (1 <= l)%nat \/ (1 <= n)%nat -> quiet n (print false e ++ rest) = quiet n rest.
Proof.
  assert (DG : forall c, is_digit c = true -> c <> LP /\ c <> RP /\ c <> PLUS /\ c <> MINUS).
  { intro c. unfold is_digit, LP, RP, PLUS, MINUS. rewrite andb_true_iff, !N.leb_le. lia. }
  induction e as [ds|x|e IH|p e IH|e IH|cr e IH ds|a IHa b IHb|o a IHa b IHb|e IH]; intros l n rest H HL; cbn [ok print] in *.
  - apply quiet_inert. apply num_ok_all in H. intros c Hc. apply DG, H, Hc.
  - apply (quiet_inert [x]). intros c [<-|[]]. apply var_ok_iff in H. destruct H as [H _].
    unfold is_alpha in H. unfold LP, RP, PLUS, MINUS. rewrite andb_true_iff, !N.leb_le in H. lia.
  - cbn [app quiet]. rewrite <- app_assoc. cbn. rewrite (IH _ _ _ H) by lia. reflexivity.
  - destruct p; cbn; rewrite <- app_assoc; rewrite (IH _ _ _ H) by lia; reflexivity.
  - rewrite <- !app_assoc. cbn. rewrite (IH _ _ _ H) by lia. reflexivity.
  - rewrite !andb_true_iff in H. destruct H as [[[_ H] Hn] _]. apply num_ok_all in Hn. rewrite <- !app_assoc, (IH _ _ _ H), app_assoc by lia.
    apply quiet_inert. intros c Hc. apply in_app_or in Hc. destruct Hc as [Hc|Hc]; [|apply DG, Hn, Hc].
    destruct (cr || false); [destruct Hc as [<-|[]]; repeat split; discriminate|contradiction].
  - rewrite !andb_true_iff in H. destruct H as [[[_ H1] H2] _]. cbn [app]. rewrite <- app_assoc, (IHa _ _ _ H1), (IHb _ _ _ H2) by lia. reflexivity.
  - destruct o; rewrite !andb_true_iff, Nat.leb_le in H; destruct H as [[Hl H1] H2]; rewrite <- app_assoc, (IHa _ _ _ H1) by lia.
    1,2: assert (N1 : Nat.eqb n 0 = false) by (apply Nat.eqb_neq; lia); cbn; rewrite N1; apply (IHb _ _ _ H2); lia.
    all: cbn; apply (IHb _ _ _ H2); lia.
  - rewrite !andb_true_iff, Nat.leb_le in H. destruct H as [Hl H]. assert (N1 : Nat.eqb n 0 = false) by (apply Nat.eqb_neq; lia).
    cbn. rewrite N1. apply (IH _ _ _ H). lia.
Qed.
Lemma words_sum (w : str) s : w = wSUM \/ w = wPROD -> (forall c, In c s -> tame c) -> wordless (w ++ s) ->
  delatex_words (92 :: w ++ s) = w ++ s.
Proof.
  intros Hw H [W1 [W2 W3]].
  assert (T : forall c, In c (w ++ s) -> tame c).
  { intros c Hc. apply in_app_or in Hc. destruct Hc as [Hc|Hc]; [|apply H, Hc].
    destruct Hw as [->| ->]; cbn in Hc; repeat destruct Hc as [<-|Hc]; try contradiction; repeat split; discriminate. }
  assert (P : forall v x, v = wLEFT \/ v = wRIGHT \/ v = wFRAC \/ v = [125; 123] -> contains v x = false -> contains v (92 :: x) = false).
  { intros v x Hv Hx. cbn [contains]. rewrite Hx, orb_false_r. destruct Hv as [->|[->|[->| ->]]]; reflexivity. }
  assert (C : contains [125; 123] (w ++ s) = false).
  { apply contains_char. intro I. apply (proj1 (proj2 (proj2 (T _ I)))). reflexivity. }
  unfold delatex_words. rewrite (nospace_tame (92 :: w ++ s)).
  2: { intros c [<-|Hc]; [discriminate|apply T, Hc]. }
  rewrite (replace_none _ _ _ (P wLEFT _ ltac:(tauto) W1)), (replace_none _ _ _ (P wRIGHT _ ltac:(tauto) W2)),
    (replace_none _ _ _ (P [125; 123] _ ltac:(tauto) C)), (replace_none _ _ _ (P wFRAC _ ltac:(tauto) W3)).
  cbn [map]. change (tex_char 92) with SPACE. unfold nospace at 1. cbn [filter]. cbn [N.eqb SPACE Pos.eqb negb].
  fold (nospace (map tex_char (w ++ s))). rewrite (map_ext_in _ (fun c => c)), map_id; [apply nospace_tame; intros; apply T; assumption|].
  intros c Hc. destruct (T c Hc) as [_ [H1 [H2 [H3 H4]]]]. unfold tex_char.
  rewrite (proj2 (N.eqb_neq _ _) H1), (proj2 (N.eqb_neq _ _) H2), (proj2 (N.eqb_neq _ _) H3), (proj2 (N.eqb_neq _ _) H4). reflexivity.
Qed.
Definition mac_word (p : bool) : str := 92 :: (if p then wPROD else wSUM).
Definition mac_char (p : bool) : N := if p then cP else cS.
Lemma lower_tame s : (forall c, In c s -> is_digit c = true \/ is_alpha c = true \/ In c [LP; RP; STAR; PLUS; MINUS; SLASH; CARET]) -> lower s = s.
Proof. intro H. unfold lower. rewrite (map_ext_in _ (fun c => c)), map_id; [reflexivity|]. intros c Hc. apply char_tame, H, Hc. Qed.
Lemma lower_mac p s : (forall c, In c s -> is_digit c = true \/ is_alpha c = true \/ In c [LP; RP; STAR; PLUS; MINUS; SLASH; CARET]) ->
  lower (mac_word p ++ s) = mac_word p ++ s.
Proof. intro H. unfold lower. rewrite map_app. fold (lower s). rewrite (lower_tame s H). destruct p; reflexivity. Qed.
Lemma loop_start (p : bool) (s : str) f : (2 <= List.length s)%nat -> delatex_loop (S f) [] ((if p then wPROD else wSUM) ++ s) 0%Z [(-1)%Z] = delatex_loop f [mac_char p; LP] s 1%Z [1%Z; (-1)%Z].
Proof.
  intro L. cbn [delatex_loop].
  assert (E : (4 <? List.length ((if p then wPROD else wSUM) ++ s))%nat = true) by (apply Nat.ltb_lt; rewrite app_length; destruct p; cbn; lia).
  rewrite E. destruct p; reflexivity.
Qed.
(** a sum (product) up to the end of the text *)
Lemma delatex_sum_all (p : bool) e : ok 1 e = true -> (2 <= List.length (print false e))%nat -> wordless ((if p then wPROD else wSUM) ++ print false e) ->
  delatex (lower (mac_word p ++ print false e)) = Ok (print false (TMac p e)).
Proof.
  intros H L W. rewrite lower_mac by (intros c Hc; eapply print_chars; eauto). unfold delatex, mac_word. cbn [app].
  rewrite words_sum; [|destruct p; auto|intros c Hc; apply char_tame; eapply print_chars; eauto|exact W].
  rewrite app_length. replace (2 * (List.length (if p then wPROD else wSUM) + List.length (print false e)) + 2)%nat
    with (S (List.length (print false e) + (List.length (print false e) + (if p then 9 else 7))))%nat by (destruct p; cbn; lia).
  rewrite loop_start by exact L. change 1%Z with (1 + Z.of_nat 0)%Z at 1. rewrite loop_quiet_end.
  - destruct p; reflexivity.
  - rewrite <- (app_nil_r (print false e)), (quiet_print _ _ _ _ H) by lia. reflexivity.
  - destruct p; lia.
  - rewrite <- (app_nil_r (print false e)). apply (mac_words _ _ _ H); [intros w [->| ->]; reflexivity|left; reflexivity].
  - rewrite <- (app_nil_r (print false e)). apply (mac_words _ _ _ H); [intros w [->| ->]; reflexivity|right; reflexivity].
Qed.
(** a sum (product) followed by a sign *)
Lemma delatex_sum_more (p : bool) e o e2 : o = Badd \/ o = Bsub -> ok 1 e = true -> ok 1 e2 = true -> (4 <= List.length (print false e2))%nat ->
  wordless ((if p then wPROD else wSUM) ++ print false e ++ opc o :: print false e2) ->
  delatex (lower (mac_word p ++ print false e ++ opc o :: print false e2)) = Ok (print false (TBin o (TMac p e) e2)).
Proof.
  intros Ho H H2 L W.
  assert (CH : forall c, In c (print false e ++ opc o :: print false e2) -> is_digit c = true \/ is_alpha c = true \/ In c [LP; RP; STAR; PLUS; MINUS; SLASH; CARET]).
  { intros c Hc. apply in_app_or in Hc. destruct Hc as [Hc|[<-|Hc]]; [exact (print_chars _ _ _ H Hc)|right; right; clear; destruct o; cbn; tauto|exact (print_chars _ _ _ H2 Hc)]. }
  assert (WD : forall w, w = wSUM \/ w = wPROD -> contains w (opc o :: print false e2) = false).
  { intros w Hw. assert (G : contains w (print false e2) = false).
    { rewrite <- (app_nil_r (print false e2)). apply (mac_words _ _ _ H2); [intros v [->| ->]; reflexivity|exact Hw]. }
    cbn [contains]. rewrite G, orb_false_r. destruct Hw as [->| ->], o; reflexivity. }
  rewrite lower_mac by exact CH. unfold delatex, mac_word. cbn [app].
  rewrite words_sum; [|destruct p; auto|intros c Hc; apply char_tame, CH, Hc|exact W].
  set (n1 := List.length (print false e)). set (n2 := List.length (print false e2)) in *.
  assert (EL : List.length ((if p then wPROD else wSUM) ++ print false e ++ opc o :: print false e2) = ((if p then 4 else 3) + n1 + 1 + n2)%nat).
  { rewrite !app_length. cbn [List.length]. fold n1 n2. destruct p; cbn; lia. }
  rewrite EL. replace (2 * ((if p then 4 else 3) + n1 + 1 + n2) + 2)%nat with (S (n1 + S (n1 + 2 * n2 + (if p then 10 else 8))))%nat by (destruct p; lia).
  rewrite loop_start by (rewrite app_length; cbn [List.length]; fold n2; lia).
  change 1%Z with (1 + Z.of_nat 0)%Z at 1. unfold n1 at 1. rewrite loop_quiet.
  - cbn [delatex_loop]. assert (E4 : (4 <? List.length (opc o :: print false e2))%nat = true) by (apply Nat.ltb_lt; cbn; fold n2; lia).
    rewrite E4, (prefix_contains _ _ (WD wSUM ltac:(auto))), (prefix_contains _ _ (WD wPROD ltac:(auto))).
    assert (EO : (opc o =? LP) = false /\ (opc o =? RP) = false /\ (opc o =? PLUS) || (opc o =? MINUS) = true) by (destruct Ho as [->| ->]; repeat split).
    destruct EO as [-> [-> ->]]. cbn [andb Z.eqb Pos.eqb].
    change (1 - 1)%Z with (Z.of_nat 0). rewrite loop_tame.
    + cbn [print]. fold (mac_char p). rewrite <- !app_assoc. cbn [app]. rewrite <- app_assoc. reflexivity.
    + cbn [List.length]. fold n2. destruct p; lia.
    + assert (B : bal 0 ([opc o] ++ print false e2 ++ []) = true).
      { rewrite bal_inert by (intros c [<-|[]]; destruct o; split; discriminate). rewrite (bal_print _ _ _ _ H2). reflexivity. }
      rewrite app_nil_r in B. exact B.
    + apply WD; auto.
    + apply WD; auto.
  - rewrite <- (app_nil_r (print false e)), (quiet_print _ _ _ _ H) by lia. reflexivity.
  - cbn. fold n2. lia.
  - apply (mac_words _ _ _ H); auto.
  - apply (mac_words _ _ _ H); auto.
Qed.
