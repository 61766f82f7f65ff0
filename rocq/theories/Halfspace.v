(** * Model of [HalfspaceIntersection2D] (triples/core/structsos/pivoting/bivariate.py:36-114) *)
From Coq Require Import Bool List Arith Lia Ring Field.
From Verif Require Import OrdField Base.
Import ListNotations.

Section Model.
Context {K : OrdField}.
Local Open Scope of_scope.

Definition vec2 : Type := K * K.
(** [cross], [dot] (bivariate.py:52-61) *)
Definition cross (n1 n2 : vec2) : K := fst n1 * snd n2 - fst n2 * snd n1.
Definition dot (n1 n2 : vec2) : K := fst n1 * fst n2 + snd n1 * snd n2.

(** The object (bivariate.py:45-48): [normals], [exprs] zipped, and the degeneracy mark.
    [E] is the type of the attached expressions. *)
Record hs (E : Type) := mkhs { stored : list (vec2 * E); degenerated : bool }.
Arguments mkhs {E}. Arguments stored {E}. Arguments degenerated {E}.

Definition hs_init {E} : hs E := mkhs [] false.

(** [add] (bivariate.py:66-111) *)
Definition hs_add {E} (h : hs E) (n : vec2) (e : E) : hs E :=
  if degenerated h then h
  else match stored h with
  | [] => mkhs [(n, e)] false
  | [(n1, e1)] =>
      let c1 := cross n1 n in
      if c1 <? 0 then mkhs [(n, e); (n1, e1)] false
      else if ((0 <? c1) || ((c1 =? 0) && (dot n1 n <? 0)))%bool then mkhs [(n1, e1); (n, e)] false
      else h
  | (n1, e1) :: (n2, e2) :: _ =>
      let c1 := cross n1 n in
      let c2 := cross n2 n in
      if c1 =? 0 then (if dot n1 n <? 0 then mkhs [(n1, e1); (n, e)] false else h)
      else if c2 =? 0 then (if dot n2 n <? 0 then mkhs [(n, e); (n2, e2)] false else h)
      else if ((0 <? c1) && (c2 <? 0))%bool then h
      else if ((0 <? c1) && (0 <? c2))%bool then mkhs [(n1, e1); (n, e)] false
      else if ((c1 <? 0) && (0 <? c2))%bool then mkhs (stored h) true
      else mkhs [(n, e); (n2, e2)] false
  end.

Definition hs_run {E} (l : list (vec2 * E)) : hs E := fold_left (fun h a => hs_add h (fst a) (snd a)) l hs_init.

(** ** Specification: membership in the intersection of half planes *)
Definition in_cone {E} (l : list (vec2 * E)) (p : vec2) : Prop := forall n e, In (n, e) l -> 0 <= dot n p.
End Model.
Arguments vec2 : clear implicits.
Arguments hs : clear implicits.
Arguments mkhs {K E}.
Arguments stored {K E}.
Arguments degenerated {K E}.

Section Proofs.
Variable K : OrdField.
Local Open Scope of_scope.
Add Field Kf : (F_field K).
Variable E : Type.
Implicit Types (n : vec2 K) (l : list (vec2 K * E)).

Lemma hs_add_stored (h : hs K E) n e x : In x (stored (hs_add h n e)) -> x = (n, e) \/ In x (stored h).
Proof.
  unfold hs_add. destruct h as [st dg]. cbn [stored degenerated]. destruct dg; [cbn; auto|].
  destruct st as [|[n1 e1] [|[n2 e2] st]]; cbn [stored].
  - cbn. intuition congruence.
  - destruct (_ <? _); [cbn; intuition congruence|]. destruct (_ || _)%bool; cbn; intuition congruence.
  - repeat match goal with |- context [if ?b then _ else _] => destruct b end; cbn; intuition congruence.
Qed.

Lemma hs_fold_stored l : forall (h : hs K E) x,
  In x (stored (fold_left (fun h a => hs_add h (fst a) (snd a)) l h)) -> In x l \/ In x (stored h).
Proof.
  induction l as [|[n e] l IH]; intros h x H; [right; exact H|]. cbn [fold_left fst snd] in H.
  apply IH in H. destruct H as [H|H]; [left; right; exact H|]. apply hs_add_stored in H. cbn. intuition congruence.
Qed.

Lemma hs_sound_lemma l p : in_cone l p -> in_cone (stored (hs_run l)) p.
Proof.
  intros H n e Hin. unfold hs_run in Hin. apply hs_fold_stored in Hin. destruct Hin as [Hin|[]]. eapply H. exact Hin.
Qed.

Definition nz n : Prop := n <> (0, 0).
Definition antiparallel n1 n2 : Prop := cross n1 n2 = 0 /\ dot n1 n2 < 0.
Definition generic l : Prop :=
  (forall n e, In (n, e) l -> nz n) /\
  (forall n1 e1 n2 e2, In (n1, e1) l -> In (n2, e2) l -> ~ antiparallel n1 n2).

Lemma dot_self_pos n : nz n -> 0 < dot n n.
Proof.
  destruct n as [a b]. unfold nz, dot. cbn [fst snd]. intro H.
  destruct (feq_dec K a 0) as [->|Ha].
  - destruct (feq_dec K b 0) as [->|Hb]; [congruence|]. apply fadd_pos_r; [apply fsqr_nonneg|apply fsqr_pos; exact Hb].
  - apply fadd_pos_l; [apply fsqr_pos; exact Ha|apply fsqr_nonneg].
Qed.

(** m * cross(a,b) = cross(m,b) a + cross(a,m) b *)
Lemma cramer n1 n2 m p : dot m p * cross n1 n2 = cross m n2 * dot n1 p + cross n1 m * dot n2 p.
Proof. destruct n1, n2, m, p. unfold dot, cross. cbn [fst snd]. ring. Qed.
Lemma cross_anti n1 n2 : cross n1 n2 = - cross n2 n1.
Proof. destruct n1, n2. unfold cross. cbn [fst snd]. ring. Qed.

(** parallel and not antiparallel: positively proportional *)
Lemma parallel_dot n1 n2 p : nz n1 -> nz n2 -> cross n1 n2 = 0 -> ~ dot n1 n2 < 0 -> 0 <= dot n1 p -> 0 <= dot n2 p.
Proof.
  intros H1 H2 Hc Hd Hp. apply fnot_lt_le in Hd.
  pose proof (dot_self_pos n1 H1) as Hn.
  assert (Eq : dot n1 n1 * dot n2 p = dot n1 n2 * dot n1 p + cross n1 n2 * (fst n1 * snd p - snd n1 * fst p)).
  { destruct n1, n2, p. unfold dot, cross. cbn [fst snd]. ring. }
  apply (fmul_lt_cancel K (dot n1 n1)); [exact Hn|]. rewrite Eq, Hc.
  replace (dot n1 n2 * dot n1 p + 0 * (fst n1 * snd p - snd n1 * fst p)) with (dot n1 n2 * dot n1 p) by ring.
  apply fmul_nonneg; assumption.
Qed.

Lemma combo n1 n2 m p : 0 < cross n1 n2 -> 0 <= cross m n2 -> 0 <= cross n1 m -> 0 <= dot n1 p -> 0 <= dot n2 p -> 0 <= dot m p.
Proof.
  intros H H1 H2 Hp1 Hp2. apply (fmul_lt_cancel K (cross n1 n2)); [exact H|].
  replace (cross n1 n2 * dot m p) with (dot m p * cross n1 n2) by ring. rewrite cramer.
  apply fadd_nonneg; apply fmul_nonneg; assumption.
Qed.

Lemma flt_opp_pos (x : K) : x < 0 -> 0 < - x.
Proof.
  intro H. apply flt_sub in H. replace (- x) with (0 - x) by ring. exact H.
Qed.

(** invariant *)
Definition good (done : list (vec2 K * E)) (h : hs K E) : Prop :=
  (forall x, In x (stored h) -> In x done) /\
  (degenerated h = false ->
    (forall p, in_cone (stored h) p -> in_cone done p) /\
    match stored h with
    | [] => done = []
    | [_] => True
    | [(n1, _); (n2, _)] => 0 < cross n1 n2
    | _ => False
    end) /\
  (degenerated h = true -> forall p, in_cone done p -> p = (0, 0)).

Lemma in_cone_app l1 l2 p : in_cone (l1 ++ l2) p <-> in_cone l1 p /\ in_cone l2 p.
Proof.
  unfold in_cone. split.
  - intro H. split; intros n e Hin; apply (H n e), in_or_app; tauto.
  - intros [H1 H2] n e Hin. apply in_app_or in Hin. destruct Hin; [eapply H1|eapply H2]; eassumption.
Qed.
Lemma in_cone_1 n (e : E) p : 0 <= dot n p -> in_cone [(n, e)] p.
Proof. intros H n' e' [E1|[]]. inversion E1; subst. exact H. Qed.
Lemma in_cone_cons n (e : E) l p : in_cone ((n, e) :: l) p <-> 0 <= dot n p /\ in_cone l p.
Proof.
  unfold in_cone. split.
  - intro H. split; [apply (H n e); left; reflexivity|]. intros n' e' Hin. apply (H n' e'). right. exact Hin.
  - intros [H1 H2] n' e' [E1|Hin]; [inversion E1; subst; exact H1|eapply H2; exact Hin].
Qed.
Lemma in_cone_nil p : in_cone ([] : list (vec2 K * E)) p.
Proof. intros n e []. Qed.

Lemma dot_zero_both n1 n2 p : cross n1 n2 <> 0 -> dot n1 p = 0 -> dot n2 p = 0 -> p = (0, 0).
Proof.
  destruct n1 as [a b], n2 as [c d], p as [x y]. unfold cross, dot. cbn [fst snd]. intros H H1 H2.
  assert (Ex : (a * d - c * b) * x = d * (a * x + b * y) - b * (c * x + d * y)) by ring.
  assert (Ey : (a * d - c * b) * y = a * (c * x + d * y) - c * (a * x + b * y)) by ring.
  rewrite H1, H2 in Ex, Ey.
  assert (Hx : (a * d - c * b) * x = 0) by (rewrite Ex; ring).
  assert (Hy : (a * d - c * b) * y = 0) by (rewrite Ey; ring).
  apply fmul_eq0 in Hx. apply fmul_eq0 in Hy. f_equal; tauto.
Qed.

Lemma hs_add_good done h n e : good done h -> generic (done ++ [(n, e)]) -> good (done ++ [(n, e)]) (hs_add h n e).
Proof.
  intros [G1 [G2 G3]] [Hnz Hap].
  assert (Hn : nz n) by (apply (Hnz n e), in_or_app; right; left; reflexivity).
  assert (Hst : forall n1 e1, In (n1, e1) (stored h) -> nz n1 /\ ~ antiparallel n1 n).
  { intros n1 e1 Hin. apply G1 in Hin. split; [apply (Hnz n1 e1), in_or_app; left; exact Hin|].
    apply (Hap n1 e1 n e); apply in_or_app; [left; exact Hin|right; left; reflexivity]. }
  assert (HS : forall x, In x (stored (hs_add h n e)) -> In x (done ++ [(n, e)])).
  { intros x Hx. apply hs_add_stored in Hx. apply in_or_app. destruct Hx as [->|Hx]; [right; left; reflexivity|left; apply G1; exact Hx]. }
  split; [exact HS|]. clear HS.
  assert (Hmono : forall p, in_cone (done ++ [(n, e)]) p <-> in_cone done p /\ 0 <= dot n p).
  { intro p. rewrite in_cone_app, in_cone_cons. intuition. apply in_cone_nil. }
  destruct h as [st dg]. cbn [stored degenerated] in *. unfold hs_add. cbn [stored degenerated].
  destruct dg.
  { cbn [stored degenerated]. split; [discriminate|]. intros _ p Hp. apply Hmono in Hp. apply G3; tauto. }
  destruct (G2 eq_refl) as [Hc Hshape]. clear G2 G3.
  destruct st as [|[n1 e1] [|[n2 e2] [|]]]; try contradiction.
  - (* empty *)
    subst done. cbn [stored degenerated app]. split; [|discriminate]. intros _. split; [intros p Hp; exact Hp|exact I].
  - (* one *)
    destruct (Hst n1 e1 (or_introl eq_refl)) as [Hn1 Hna].
    destruct (cross n1 n <? 0) eqn:E1; [|destruct ((0 <? cross n1 n) || ((cross n1 n =? 0) && (dot n1 n <? 0)))%bool eqn:E2];
      cbn [stored degenerated]; (split; [|discriminate]); intros _; split.
    + intros p Hp. rewrite !in_cone_cons in Hp. apply Hmono. split; [|tauto]. apply Hc. rewrite in_cone_cons. tauto.
    + apply fltb_lt in E1. rewrite cross_anti. apply flt_opp_pos. exact E1.
    + intros p Hp. rewrite !in_cone_cons in Hp. apply Hmono. split; [|tauto]. apply Hc. rewrite in_cone_cons. tauto.
    + apply orb_true_iff in E2. destruct E2 as [E2|E2]; [apply fltb_lt; exact E2|].
      apply andb_true_iff in E2. destruct E2 as [E2 E3]. apply feqb_eq in E2. apply fltb_lt in E3. exfalso. apply Hna. split; assumption.
    + intros p Hp. apply Hmono. split; [apply Hc; exact Hp|]. rewrite in_cone_cons in Hp.
      apply orb_false_iff in E2. destruct E2 as [E2 E3]. apply fltb_ge in E1. apply fltb_ge in E2.
      assert (Ec : cross n1 n = 0) by (apply fle_antisym; assumption).
      apply (parallel_dot n1 n p Hn1 Hn Ec); [|tauto]. intro Hd. apply Hna. split; assumption.
    + exact I.
  - (* two *)
    destruct (Hst n1 e1 (or_introl eq_refl)) as [Hn1 Hna1].
    destruct (Hst n2 e2 (or_intror (or_introl eq_refl))) as [Hn2 Hna2].
    assert (Hred : forall p, in_cone [(n1, e1); (n2, e2)] p -> 0 <= dot n p -> in_cone (done ++ [(n, e)]) p).
    { intros p Hp Hd. apply Hmono. split; [apply Hc; exact Hp|exact Hd]. }
    destruct (cross n1 n =? 0) eqn:E1.
    { apply feqb_eq in E1. destruct (dot n1 n <? 0) eqn:E2.
      - apply fltb_lt in E2. exfalso. apply Hna1. split; assumption.
      - cbn [stored degenerated]. split; [|discriminate]. intros _. split; [|exact Hshape].
        intros p Hp. apply Hred; [exact Hp|]. rewrite !in_cone_cons in Hp.
        apply (parallel_dot n1 n p Hn1 Hn E1); [|tauto]. intro Hd. apply Hna1. split; assumption. }
    apply feqb_neq in E1. destruct (cross n2 n =? 0) eqn:E2.
    { apply feqb_eq in E2. destruct (dot n2 n <? 0) eqn:E3.
      - apply fltb_lt in E3. exfalso. apply Hna2. split; assumption.
      - cbn [stored degenerated]. split; [|discriminate]. intros _. split; [|exact Hshape].
        intros p Hp. apply Hred; [exact Hp|]. rewrite !in_cone_cons in Hp.
        apply (parallel_dot n2 n p Hn2 Hn E2); [|tauto]. intro Hd. apply Hna2. split; assumption. }
    apply feqb_neq in E2.
    destruct (0 <? cross n1 n) eqn:E3; destruct (cross n2 n <? 0) eqn:E4; destruct (0 <? cross n2 n) eqn:E5;
      destruct (cross n1 n <? 0) eqn:E6; cbn [andb];
      repeat match goal with
             | H : (_ <? _) = true |- _ => apply fltb_lt in H
             | H : (_ <? _) = false |- _ => apply fltb_ge in H
             end;
      try (exfalso; exact (flt_irrefl K _ (flt_trans K _ _ _ E3 E6)));
      try (exfalso; exact (flt_irrefl K _ (flt_trans K _ _ _ E5 E4)));
      try (exfalso; apply E1; apply fle_antisym; assumption);
      try (exfalso; apply E2; apply fle_antisym; assumption);
      cbn [stored degenerated].
    + (* between *)
      split; [|discriminate]. intros _. split; [|exact Hshape]. intros p Hp. apply Hred; [exact Hp|]. rewrite !in_cone_cons in Hp.
      apply (combo n1 n2 n p Hshape); try tauto.
      rewrite cross_anti. apply flt_le, flt_opp_pos. exact E4.
    + (* replace second *)
      split; [|discriminate]. intros _. split; [|exact E3]. intros p Hp. rewrite !in_cone_cons in Hp.
      apply Hred; [|tauto]. rewrite !in_cone_cons. split; [tauto|]. split; [|apply in_cone_nil].
      apply (combo n1 n n2 p E3); try tauto; try (apply flt_le; assumption).
    + (* replace first *)
      split; [|discriminate]. intros _. split; [|rewrite cross_anti; apply flt_opp_pos; exact E4].
      intros p Hp. rewrite !in_cone_cons in Hp.
      apply Hred; [|tauto]. rewrite !in_cone_cons. split; [|split; [tauto|apply in_cone_nil]].
      assert (Hpos : 0 < cross n n2) by (rewrite cross_anti; apply flt_opp_pos; exact E4).
      apply (combo n n2 n1 p Hpos); try tauto; [apply flt_le; exact Hshape|].
      rewrite cross_anti. apply flt_le, flt_opp_pos. exact E6.
    + (* degenerate *)
      split; [discriminate|]. intros _ p Hp. apply Hmono in Hp. destruct Hp as [Hp Hd].
      assert (Hp1 : 0 <= dot n1 p) by (apply (Hp n1 e1), G1; left; reflexivity).
      assert (Hp2 : 0 <= dot n2 p) by (apply (Hp n2 e2), G1; right; left; reflexivity).
      pose proof (cramer n1 n2 n p) as C.
      assert (H1 : 0 <= dot n p * cross n1 n2) by (apply fmul_nonneg; [exact Hd|apply flt_le; exact Hshape]).
      assert (Hq : 0 < - cross n1 n) by (apply flt_opp_pos; exact E6).
      assert (H2 : 0 <= cross n2 n * dot n1 p) by (apply fmul_nonneg; [apply flt_le; exact E5|exact Hp1]).
      assert (H3 : 0 <= - cross n1 n * dot n2 p) by (apply fmul_nonneg; [apply flt_le; exact Hq|exact Hp2]).
      assert (Hsum : dot n p * cross n1 n2 + cross n2 n * dot n1 p + - cross n1 n * dot n2 p = 0).
      { rewrite C. rewrite (cross_anti n n2). ring. }
      apply fadd_eq0_nonneg in Hsum; [|apply fadd_nonneg; assumption|exact H3].
      destruct Hsum as [Hs1 Hs2]. apply fadd_eq0_nonneg in Hs1; [|assumption|assumption]. destruct Hs1 as [_ Hs1].
      apply (dot_zero_both n1 n2 p).
      * apply flt_neq0. exact Hshape.
      * apply fmul_eq0 in Hs1. destruct Hs1 as [Hs1|Hs1]; [contradiction|exact Hs1].
      * apply fmul_eq0 in Hs2. destruct Hs2 as [Hs2|Hs2]; [|exact Hs2]. exfalso. apply (flt_neq0 Hq). exact Hs2.
Qed.

Lemma generic_prefix l1 l2 : generic (l1 ++ l2) -> generic l1.
Proof.
  intros [H1 H2]. split.
  - intros n e Hin. apply (H1 n e), in_or_app. left. exact Hin.
  - intros n1 e1 n2 e2 Ha Hb. apply (H2 n1 e1 n2 e2); apply in_or_app; left; assumption.
Qed.

Lemma hs_run_good l : generic l -> good l (hs_run l).
Proof.
  intro Hg. unfold hs_run.
  assert (Hgen : forall l done h, good done h -> generic (done ++ l) ->
            good (done ++ l) (fold_left (fun h a => hs_add h (fst a) (snd a)) l h)).
  { clear. induction l as [|[n e] l IH]; intros done h G H; [rewrite app_nil_r; exact G|].
    cbn [fold_left fst snd]. replace (done ++ (n, e) :: l) with ((done ++ [(n, e)]) ++ l) in * by (rewrite <- app_assoc; reflexivity).
    apply IH; [|exact H]. apply hs_add_good; [exact G|]. eapply generic_prefix. exact H. }
  apply (Hgen l [] hs_init); [|exact Hg].
  split; [intros x []|]. split; [|discriminate]. intros _. split; [intros p _; apply in_cone_nil|reflexivity].
Qed.

Lemma hs_add_len (h : hs K E) n e : (length (stored h) <= 2)%nat -> (length (stored (hs_add h n e)) <= 2)%nat.
Proof.
  intro H. unfold hs_add. destruct h as [st dg]. cbn [stored degenerated] in *. destruct dg; [exact H|].
  destruct st as [|[n1 e1] [|[n2 e2] st]].
  - cbn. lia.
  - destruct (_ <? _); [cbn; lia|]. destruct (_ || _)%bool; cbn; lia.
  - repeat match goal with |- context [if ?b then _ else _] => destruct b end; cbn [stored length] in *; lia.
Qed.
Lemma hs_len l : (length (stored (hs_run l)) <= 2)%nat.
Proof.
  unfold hs_run. assert (Hg : forall (h : hs K E), (length (stored h) <= 2)%nat ->
    (length (stored (fold_left (fun h a => hs_add h (fst a) (snd a)) l h)) <= 2)%nat).
  { induction l as [|a l IH]; intros h H; [exact H|]. cbn [fold_left]. apply IH, hs_add_len, H. }
  apply Hg. cbn. lia.
Qed.
Lemma hs_same_cone_lemma l :
  (forall n e, In (n, e) l -> n <> (0, 0)) ->
  (forall n1 e1 n2 e2, In (n1, e1) l -> In (n2, e2) l -> ~ (cross n1 n2 = 0 /\ dot n1 n2 < 0)) ->
  (length (stored (hs_run l)) <= 2)%nat /\
  (degenerated (hs_run l) = false -> forall p, in_cone (stored (hs_run l)) p <-> in_cone l p) /\
  (degenerated (hs_run l) = true -> forall p, in_cone l p -> p = (0, 0)).
Proof.
  intros H1 H2. pose proof (hs_run_good l (conj H1 H2)) as [_ [G2 G3]]. split; [|split; [|exact G3]].
  - apply hs_len.
  - intros Hd p. split; [apply (proj1 (G2 Hd))|apply hs_sound_lemma].
Qed.
End Proofs.
