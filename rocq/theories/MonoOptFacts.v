(** * Facts about the reverse polyblock approximation *)
From Coq Require Import Bool List Arith Lia Ring Field.
From Verif Require Import OrdField Base MonoOpt.
Import ListNotations.

Section Facts.
Variable K : OrdField.
Local Open Scope of_scope.
Add Field Kf : (F_field K).

Implicit Types p q a b z x y : list K.

(** ** Vectors *)

Definition ple p q : Prop := forall i, vget0 p i <= vget0 q i.

Lemma upd_length p i v : length (upd p i v) = length p.
Proof. revert i. induction p as [|u p IH]; intros [|i]; cbn; auto. Qed.
Lemma upd_same p i v : (i < length p)%nat -> vget0 (upd p i v) i = v.
Proof.
  revert i. induction p as [|u p IH]; intros [|i] H; cbn in *; try lia; [reflexivity|].
  apply IH. lia.
Qed.
Lemma upd_other p i j v : i <> j -> vget0 (upd p i v) j = vget0 p j.
Proof.
  revert i j. induction p as [|u p IH]; intros [|i] [|j] H; cbn; try reflexivity; try congruence.
  apply IH. congruence.
Qed.
Lemma seg_length p al q : length p = length q -> length (seg p al q) = length p.
Proof. revert q. induction p as [|u p IH]; intros [|v q] H; cbn in *; try lia. rewrite IH; lia. Qed.
Lemma seg_get p al q i : length p = length q ->
  vget0 (seg p al q) i = vget0 p i + al * (vget0 q i - vget0 p i).
Proof.
  revert q i. induction p as [|u p IH]; intros [|v q] i H; cbn in H; try lia.
  - unfold vget0. destruct i; cbn; ring.
  - destruct i as [|i]; [reflexivity|]. unfold vget0 in *. cbn. apply IH. lia.
Qed.
Lemma vec_ext p q : length p = length q -> (forall i, (i < length p)%nat -> vget0 p i = vget0 q i) -> p = q.
Proof. intros L H. apply (nth_ext p q 0 0 L). exact H. Qed.
Lemma vget_out p i : (length p <= i)%nat -> vget0 p i = 0.
Proof. intro H. apply nth_overflow. exact H. Qed.

Lemma ple_refl p : ple p p. Proof. intro i. apply fle_refl. Qed.
Lemma ple_trans p q x : ple p q -> ple q x -> ple p x.
Proof. intros A B i. exact (fle_trans K _ _ _ (A i) (B i)). Qed.

Lemma vleb_ple p q : length p = length q -> (vleb p q = true <-> ple p q).
Proof.
  unfold vleb, ple. revert q. induction p as [|u p IH]; intros [|v q] L; cbn in L; try lia.
  - cbn. split; [intros _ i; apply fle_refl|reflexivity].
  - cbn [combine forallb fst snd]. rewrite andb_true_iff, fleb_le. rewrite (IH q) by lia. split.
    + intros [A B] [|i]; [exact A|exact (B i)].
    + intro H. split; [exact (H 0%nat)|intro i; exact (H (S i))].
Qed.

Lemma upd_ple p q i v : ple p q -> v <= vget0 q i -> ple (upd p i v) q.
Proof.
  intros A B j. destruct (Nat.eq_dec i j) as [<-|N]; [|rewrite upd_other by exact N; exact (A j)].
  destruct (Nat.lt_ge_cases i (length p)) as [L|L].
  - rewrite upd_same by exact L. exact B.
  - rewrite vget_out by (rewrite upd_length; exact L). rewrite <- (vget_out p i L). exact (A i).
Qed.
Lemma ple_upd p q i v : ple p q -> vget0 p i <= v -> length p = length q -> ple p (upd q i v).
Proof.
  intros A B E j. destruct (Nat.eq_dec i j) as [<-|N]; [|rewrite upd_other by exact N; exact (A j)].
  destruct (Nat.lt_ge_cases i (length q)) as [L|L].
  - rewrite upd_same by exact L. exact B.
  - rewrite (vget_out (upd q i v)) by (rewrite upd_length; exact L).
    rewrite (vget_out p) by lia. apply fle_refl.
Qed.

Lemma seg_upd p i v al : seg p al (upd p i v) = upd p i (vget0 p i + al * (v - vget0 p i)).
Proof.
  assert (L : length p = length (upd p i v)) by (rewrite upd_length; reflexivity).
  apply vec_ext.
  - rewrite seg_length, upd_length by exact L. reflexivity.
  - rewrite seg_length by exact L. intros j Hj. rewrite seg_get by exact L.
    destruct (Nat.eq_dec i j) as [<-|N].
    + rewrite !upd_same by exact Hj. reflexivity.
    + rewrite !upd_other by exact N. ring.
Qed.

Lemma conv_lo (u v l al : K) : l <= u -> l <= v -> 0 <= al -> al <= 1 -> l <= u + al * (v - u).
Proof.
  intros A B C D. apply fle_sub.
  replace (u + al * (v - u) - l) with ((1 - al) * (u - l) + al * (v - l)) by ring.
  apply fadd_nonneg; apply fmul_nonneg; try assumption; apply (proj1 (fle_sub _ _)); assumption.
Qed.
Lemma conv_hi (u v l al : K) : u <= l -> v <= l -> 0 <= al -> al <= 1 -> u + al * (v - u) <= l.
Proof.
  intros A B C D. apply fle_sub.
  replace (l - (u + al * (v - u))) with ((1 - al) * (l - u) + al * (l - v)) by ring.
  apply fadd_nonneg; apply fmul_nonneg; try assumption; apply (proj1 (fle_sub _ _)); assumption.
Qed.

(** ** The problem *)

Variables f g h : list K -> K.
Variable sup_fg : option K -> list K -> list K -> res K.
Variable sup_h : list K -> list K -> res K.
Variables rtol eps tol : K.
Variables a0 b0 : list K.

Definition in_box p : Prop := length p = length a0 /\ ple a0 p /\ ple p b0.
(** Increasing on the box. *)
Definition increasing (F : list K -> K) : Prop :=
  forall p q, in_box p -> in_box q -> ple p q -> F p <= F q.

(** What is asked of the root solver: an answer lies in [0, 1]; for lines with [h] it is a point
    of [h >= -eps]; and no point further on the segment satisfies the constraint, if the segment
    is monotone and begins inside. *)
Definition solver_ok : Prop :=
  (forall c a z al, sup_fg c a z = Ok al -> 0 <= al /\ al <= 1) /\
  (forall b z al, sup_h b z = Ok al -> 0 <= al /\ al <= 1) /\
  (forall b z al, in_box b -> in_box z -> sup_h b z = Ok al -> - eps <= h (seg b al z)) /\
  (forall c a z al, in_box a -> in_box z -> ple a z -> fg f g c a <= 0 -> sup_fg c a z = Ok al ->
     forall be, 0 <= be -> be <= 1 -> fg f g c (seg a be z) <= 0 -> be <= al) /\
  (forall b z al, in_box b -> in_box z -> ple z b -> 0 <= h b -> sup_h b z = Ok al ->
     forall be, 0 <= be -> be <= 1 -> 0 <= h (seg b be z) -> be <= al).

Hypothesis Hlen : length b0 = length a0.
Hypothesis Hab : ple a0 b0.
Hypothesis Hf : increasing f.
Hypothesis Hg : increasing g.
Hypothesis Hh : increasing h.
Hypothesis Hs : solver_ok.
Hypothesis Heps : 0 <= eps.
Hypothesis Htol : 0 <= tol.
Hypothesis Hrtol : 0 < rtol.

Definition feasible y : Prop := in_box y /\ g y <= 0 /\ 0 <= h y.
Definition le_bound (v : K) (c : option K) : Prop := match c with None => True | Some c => v <= c end.

Lemma in_box_a : in_box a0.
Proof. split; [reflexivity|]. split; [apply ple_refl|exact Hab]. Qed.
Lemma in_box_b : in_box b0.
Proof. split; [exact Hlen|]. split; [exact Hab|apply ple_refl]. Qed.

Lemma in_box_upd p i v : in_box p -> vget0 a0 i <= v -> v <= vget0 b0 i -> in_box (upd p i v).
Proof.
  intros (L & A & B) C D. split; [rewrite upd_length; exact L|]. split.
  - apply ple_upd; [exact A|exact C|symmetry; exact L].
  - apply upd_ple; assumption.
Qed.
Lemma in_box_seg p q al : in_box p -> in_box q -> 0 <= al -> al <= 1 -> in_box (seg p al q).
Proof.
  intros (L & A & B) (L' & A' & B') C D. assert (E : length p = length q) by lia.
  split; [rewrite seg_length by exact E; exact L|].
  split; intro i; rewrite seg_get by exact E; [apply conv_lo|apply conv_hi]; auto.
Qed.

Lemma fmax_le (u v w : K) : fmax u v <= w <-> u <= w /\ v <= w.
Proof.
  unfold fmax. destruct (fltb u v) eqn:E.
  - apply fltb_lt in E. split; [|tauto]. intro H. split; [|exact H].
    exact (fle_trans K _ _ _ (flt_le E) H).
  - apply fltb_ge in E. split; [|tauto]. intro H. split; [exact H|]. exact (fle_trans K _ _ _ E H).
Qed.
Lemma fg_le c p : fg f g c p <= 0 <-> g p <= 0 /\ le_bound (f p) c.
Proof.
  unfold fg, le_bound. destruct c as [c|]; [|tauto]. rewrite fmax_le.
  rewrite (fle_sub (f p - c) 0), (fle_sub (f p) c).
  replace (0 - (f p - c)) with (c - f p) by ring. tauto.
Qed.
Lemma le_bound_mono (u v : K) c : u <= v -> le_bound v c -> le_bound u c.
Proof. destruct c as [c|]; cbn; [|tauto]. intros A B. exact (fle_trans K _ _ _ A B). Qed.

(** ** The reductions *)

Lemma red_b_box c a b is b' : in_box a -> in_box b -> red_b f g sup_fg c a b is = Ok b' -> in_box b'.
Proof.
  intro Ba. revert b. induction is as [|i is IH]; intros b Bb H; cbn [red_b] in H.
  - apply Ok_inj in H. subst. exact Bb.
  - set (z := upd a i (vget0 b i)) in *.
    assert (R : forall r, (if fleb 0 (fg f g c z) then sup_fg c a z else Ok 1) = Ok r -> 0 <= r /\ r <= 1).
    { intros r. destruct (fleb 0 (fg f g c z)).
      - destruct Hs as (S1 & _). apply S1.
      - intro E. apply Ok_inj in E. subst. split; [apply f1_nonneg|apply fle_refl]. }
    destruct (if fleb 0 (fg f g c z) then sup_fg c a z else Ok 1) as [r|e]; [|discriminate].
    destruct (R r eq_refl) as [R0 R1]. destruct Ba as (L & A & B). destruct Bb as (L' & A' & B').
    refine (IH _ _ H). apply in_box_upd; [split; [exact L'|split; assumption]| |].
    + apply conv_lo; auto.
    + apply conv_hi; auto.
Qed.

Lemma red_b_covers c a b is b' y : in_box a -> in_box b -> feasible y -> le_bound (f y) c ->
  ple a y -> ple y b -> red_b f g sup_fg c a b is = Ok b' -> ple y b'.
Proof.
  intros Ba. revert b. induction is as [|i is IH]; intros b Bb Fy Cy Ay Yb H; cbn [red_b] in H.
  - apply Ok_inj in H. subst. exact Yb.
  - destruct Fy as (By & Gy & Hy).
    set (z := upd a i (vget0 b i)) in *.
    assert (Bz : in_box z).
    { apply in_box_upd; [exact Ba| |]; destruct Bb as (_ & A & B); auto. }
    assert (Ab : vget0 a i <= vget0 b i) by (exact (fle_trans K _ _ _ (Ay i) (Yb i))).
    assert (Az : ple a z) by (apply ple_upd; [apply ple_refl|exact Ab|reflexivity]).
    assert (A0 : fg f g c a <= 0).
    { apply fg_le. split; [exact (fle_trans K _ _ _ (Hg _ _ Ba By Ay) Gy)|].
      exact (le_bound_mono _ _ _ (Hf _ _ Ba By Ay) Cy). }
    assert (R : forall r, (if fleb 0 (fg f g c z) then sup_fg c a z else Ok 1) = Ok r ->
       (0 <= r /\ r <= 1) /\ vget0 y i <= vget0 a i + r * (vget0 b i - vget0 a i)).
    { intros r. destruct (fleb 0 (fg f g c z)) eqn:E1.
      - intro E. destruct Hs as (S1 & _ & _ & S4 & _). split; [exact (S1 _ _ _ _ E)|].
        destruct (feq_dec K (vget0 a i) (vget0 b i)) as [Eq|Ne].
        { rewrite <- Eq. replace (vget0 a i + r * (vget0 a i - vget0 a i)) with (vget0 a i) by ring.
          rewrite Eq. exact (Yb i). }
        set (d := vget0 b i - vget0 a i).
        assert (Hd : 0 < d) by (apply (proj1 (flt_sub _ _)); apply flt_le_neq; split; assumption).
        set (be := (vget0 y i - vget0 a i) / d).
        assert (Ebe : be * d = vget0 y i - vget0 a i) by (unfold be; field; exact (flt_neq0 Hd)).
        assert (B0 : 0 <= be) by (apply fdiv_nonneg; [apply (proj1 (fle_sub _ _)); exact (Ay i)|exact Hd]).
        assert (B1 : be <= 1).
        { apply fle_sub. apply (fmul_lt_cancel K d); [exact Hd|].
          replace (d * (1 - be)) with (d - be * d) by ring. rewrite Ebe. unfold d.
          replace (vget0 b i - vget0 a i - (vget0 y i - vget0 a i)) with (vget0 b i - vget0 y i) by ring.
          apply (proj1 (fle_sub _ _)). exact (Yb i). }
        assert (Bl : be <= r).
        { refine (S4 c a z r Ba Bz Az A0 E be B0 B1 _). unfold z. rewrite seg_upd.
          fold d. rewrite Ebe.
          assert (Bu : in_box (upd a i (vget0 a i + (vget0 y i - vget0 a i)))).
          { apply in_box_upd; [exact Ba| |];
            replace (vget0 a i + (vget0 y i - vget0 a i)) with (vget0 y i) by ring; destruct By as (_ & P & Q); auto. }
          assert (Pu : ple (upd a i (vget0 a i + (vget0 y i - vget0 a i))) y).
          { apply upd_ple; [exact Ay|].
            replace (vget0 a i + (vget0 y i - vget0 a i)) with (vget0 y i) by ring. apply fle_refl. }
          apply fg_le. split; [exact (fle_trans K _ _ _ (Hg _ _ Bu By Pu) Gy)|].
          exact (le_bound_mono _ _ _ (Hf _ _ Bu By Pu) Cy). }
        apply fle_sub.
        replace (vget0 a i + r * d - vget0 y i) with ((r - be) * d + (be * d - (vget0 y i - vget0 a i))) by ring.
        rewrite Ebe. replace ((r - be) * d + (vget0 y i - vget0 a i - (vget0 y i - vget0 a i))) with ((r - be) * d) by ring.
        apply fmul_nonneg; [apply (proj1 (fle_sub _ _)); exact Bl|exact (flt_le Hd)].
      - intro E. apply Ok_inj in E. subst r. split; [split; [apply f1_nonneg|apply fle_refl]|].
        replace (vget0 a i + 1 * (vget0 b i - vget0 a i)) with (vget0 b i) by ring. exact (Yb i). }
    destruct (if fleb 0 (fg f g c z) then sup_fg c a z else Ok 1) as [r|e]; [|discriminate].
    destruct (R r eq_refl) as [[R0 R1] R2].
    refine (IH _ _ _ Cy Ay _ H).
    + destruct Ba as (_ & A & B), Bb as (L' & A' & B').
      apply in_box_upd; [split; [exact L'|split; assumption]|apply conv_lo; auto|apply conv_hi; auto].
    + split; [exact By|split; assumption].
    + apply ple_upd; [exact Yb|exact R2|]. destruct By as (L1 & _), Bb as (L2 & _). lia.
Qed.

Lemma red_a_box a b is a' : in_box a -> in_box b -> red_a h sup_h a b is = Ok a' -> in_box a'.
Proof.
  intros Ba Bb. revert a Ba. induction is as [|i is IH]; intros a Ba H; cbn [red_a] in H.
  - apply Ok_inj in H. subst. exact Ba.
  - set (z := upd b i (vget0 a i)) in *.
    assert (R : forall r, (if fleb 0 (- h z) then sup_h b z else Ok 1) = Ok r -> 0 <= r /\ r <= 1).
    { intros r. destruct (fleb 0 (- h z)).
      - destruct Hs as (_ & S2 & _). apply S2.
      - intro E. apply Ok_inj in E. subst. split; [apply f1_nonneg|apply fle_refl]. }
    destruct (if fleb 0 (- h z) then sup_h b z else Ok 1) as [r|e]; [|discriminate].
    destruct (R r eq_refl) as [R0 R1]. destruct Ba as (L & A & B). destruct Bb as (L' & A' & B').
    refine (IH _ _ H). apply in_box_upd; [split; [exact L|split; assumption]| |];
      replace (vget0 b i - r * (vget0 b i - vget0 a i)) with (vget0 b i + r * (vget0 a i - vget0 b i)) by ring.
    + apply conv_lo; auto.
    + apply conv_hi; auto.
Qed.

Lemma red_a_covers a b is a' y : in_box a -> in_box b -> feasible y ->
  ple a y -> ple y b -> red_a h sup_h a b is = Ok a' -> ple a' y.
Proof.
  intros Ba Bb. revert a Ba. induction is as [|i is IH]; intros a Ba Fy Ay Yb H; cbn [red_a] in H.
  - apply Ok_inj in H. subst. exact Ay.
  - destruct Fy as (By & Gy & Hy).
    set (z := upd b i (vget0 a i)) in *.
    assert (Bz : in_box z).
    { apply in_box_upd; [exact Bb| |]; destruct Ba as (_ & A & B); auto. }
    assert (Ab : vget0 a i <= vget0 b i) by (exact (fle_trans K _ _ _ (Ay i) (Yb i))).
    assert (Zb : ple z b) by (apply upd_ple; [apply ple_refl|exact Ab]).
    assert (H0 : 0 <= h b) by (exact (fle_trans K _ _ _ Hy (Hh _ _ By Bb Yb))).
    assert (R : forall r, (if fleb 0 (- h z) then sup_h b z else Ok 1) = Ok r ->
       (0 <= r /\ r <= 1) /\ vget0 b i - r * (vget0 b i - vget0 a i) <= vget0 y i).
    { intros r. destruct (fleb 0 (- h z)) eqn:E1.
      - intro E. destruct Hs as (_ & S2 & _ & _ & S5). split; [exact (S2 _ _ _ E)|].
        destruct (feq_dec K (vget0 a i) (vget0 b i)) as [Eq|Ne].
        { rewrite <- Eq. replace (vget0 a i - r * (vget0 a i - vget0 a i)) with (vget0 a i) by ring. exact (Ay i). }
        set (d := vget0 b i - vget0 a i).
        assert (Hd : 0 < d) by (apply (proj1 (flt_sub _ _)); apply flt_le_neq; split; assumption).
        set (be := (vget0 b i - vget0 y i) / d).
        assert (Ebe : be * d = vget0 b i - vget0 y i) by (unfold be; field; exact (flt_neq0 Hd)).
        assert (B0 : 0 <= be) by (apply fdiv_nonneg; [apply (proj1 (fle_sub _ _)); exact (Yb i)|exact Hd]).
        assert (B1 : be <= 1).
        { apply fle_sub. apply (fmul_lt_cancel K d); [exact Hd|].
          replace (d * (1 - be)) with (d - be * d) by ring. rewrite Ebe. unfold d.
          replace (vget0 b i - vget0 a i - (vget0 b i - vget0 y i)) with (vget0 y i - vget0 a i) by ring.
          apply (proj1 (fle_sub _ _)). exact (Ay i). }
        assert (Bl : be <= r).
        { refine (S5 b z r Bb Bz Zb H0 E be B0 B1 _). unfold z. rewrite seg_upd.
          replace (vget0 b i + be * (vget0 a i - vget0 b i)) with (vget0 y i).
          2: { replace (vget0 b i + be * (vget0 a i - vget0 b i)) with (vget0 b i - be * d) by (unfold d; ring).
               rewrite Ebe. ring. }
          assert (Bu : in_box (upd b i (vget0 y i))) by (apply in_box_upd; [exact Bb| |]; destruct By as (_ & P & Q); auto).
          assert (Pu : ple y (upd b i (vget0 y i))).
          { apply ple_upd; [exact Yb|apply fle_refl|]. destruct By as (L1 & _), Bb as (L2 & _). lia. }
          exact (fle_trans K _ _ _ Hy (Hh _ _ By Bu Pu)). }
        apply fle_sub.
        replace (vget0 y i - (vget0 b i - r * d)) with ((r - be) * d + (be * d - (vget0 b i - vget0 y i))) by ring.
        rewrite Ebe. replace ((r - be) * d + (vget0 b i - vget0 y i - (vget0 b i - vget0 y i))) with ((r - be) * d) by ring.
        apply fmul_nonneg; [apply (proj1 (fle_sub _ _)); exact Bl|exact (flt_le Hd)].
      - intro E. apply Ok_inj in E. subst r. split; [split; [apply f1_nonneg|apply fle_refl]|].
        replace (vget0 b i - 1 * (vget0 b i - vget0 a i)) with (vget0 a i) by ring. exact (Ay i). }
    destruct (if fleb 0 (- h z) then sup_h b z else Ok 1) as [r|e]; [|discriminate].
    destruct (R r eq_refl) as [[R0 R1] R2].
    refine (IH _ _ _ _ Yb H).
    + destruct Ba as (L & A & B), Bb as (L' & A' & B').
      apply in_box_upd; [split; [exact L|split; assumption]| |];
      replace (vget0 b i - r * (vget0 b i - vget0 a i)) with (vget0 b i + r * (vget0 a i - vget0 b i)) by ring;
      [apply conv_lo|apply conv_hi]; auto.
    + split; [exact By|split; assumption].
    + apply upd_ple; assumption.
Qed.

Lemma red_box a b c a' b' : in_box a -> in_box b ->
  red f g h sup_fg sup_h rtol a b c = Ok (a', b') -> in_box a' /\ in_box b'.
Proof.
  intros Ba Bb. unfold red. destruct (red_b f g sup_fg c a b (seq 0 (length a))) as [b1|e] eqn:E1; [|discriminate].
  pose proof (red_b_box _ _ _ _ _ Ba Bb E1) as B1.
  destruct (fleb (h b1) (- rtol)); [intro H; apply Ok_inj in H; injection H as <- <-; split; exact B1|].
  destruct (red_a h sup_h a b1 (seq 0 (length a))) as [a1|e] eqn:E2; [|discriminate].
  intro H. apply Ok_inj in H. injection H as <- <-. split; [|exact B1].
  exact (red_a_box _ _ _ _ Ba B1 E2).
Qed.

Lemma red_covers a b c a' b' y : in_box a -> in_box b -> feasible y -> le_bound (f y) c ->
  ple a y -> ple y b -> red f g h sup_fg sup_h rtol a b c = Ok (a', b') -> ple a' y /\ ple y b'.
Proof.
  intros Ba Bb Fy Cy Ay Yb. unfold red.
  destruct (red_b f g sup_fg c a b (seq 0 (length a))) as [b1|e] eqn:E1; [|discriminate].
  pose proof (red_b_box _ _ _ _ _ Ba Bb E1) as B1.
  pose proof (red_b_covers _ _ _ _ _ _ Ba Bb Fy Cy Ay Yb E1) as Y1.
  destruct (fleb (h b1) (- rtol)) eqn:E3.
  - exfalso. apply fleb_le in E3. destruct Fy as (By & _ & Hy).
    pose proof (fle_trans K _ _ _ Hy (Hh _ _ By B1 Y1)) as P.
    pose proof (fle_trans K _ _ _ P E3) as N.
    apply (flt_not_le K 0 rtol); [exact Hrtol|]. replace rtol with (- - rtol) by ring.
    apply fopp_nonpos. exact N.
  - destruct (red_a h sup_h a b1 (seq 0 (length a))) as [a1|e] eqn:E2; [|discriminate].
    intro H. apply Ok_inj in H. injection H as <- <-. split; [|exact Y1].
    exact (red_a_covers _ _ _ _ _ Ba B1 Fy Ay Y1 E2).
Qed.

(** ** The split *)

Lemma small_step (l : list (K * K)) : (forall u v, In (u, v) l -> 0 < u /\ 0 <= v) ->
  forall m, 0 < m -> exists e, 0 < e /\ e <= m /\ forall u v, In (u, v) l -> e * v <= u.
Proof.
  induction l as [|[u v] l IH]; intros Hl m Hm.
  - exists m. split; [exact Hm|]. split; [apply fle_refl|intros u v []].
  - destruct (Hl u v (or_introl eq_refl)) as [Hu Hv].
    assert (Hq : 0 < u / (v + 1)).
    { apply fdiv_pos; [exact Hu|]. apply fadd_pos_r; [exact Hv|apply f1_pos]. }
    assert (Hv1 : v + 1 <> 0).
    { apply flt_neq0. apply fadd_pos_r; [exact Hv|apply f1_pos]. }
    assert (Hok : forall e, 0 < e -> e <= u / (v + 1) -> e * v <= u).
    { intros e He Hle. apply fle_sub.
      replace (u - e * v) with ((u / (v + 1) - e) * v + u / (v + 1)) by (field; exact Hv1).
      apply fadd_nonneg; [|exact (flt_le Hq)].
      apply fmul_nonneg; [apply (proj1 (fle_sub _ _)); exact Hle|exact Hv]. }
    assert (Hl' : forall u v, In (u, v) l -> 0 < u /\ 0 <= v) by (intros; apply Hl; right; assumption).
    destruct (fle_total K m (u / (v + 1))) as [Hc|Hc].
    + destruct (IH Hl' m Hm) as (e & E1 & E2 & E3). exists e. split; [exact E1|]. split; [exact E2|].
      intros u' v' [H|H]; [injection H as <- <-|exact (E3 _ _ H)]. apply Hok; [exact E1|].
      exact (fle_trans K _ _ _ E2 Hc).
    + destruct (IH Hl' _ Hq) as (e & E1 & E2 & E3). exists e. split; [exact E1|].
      split; [exact (fle_trans K _ _ _ E2 Hc)|].
      intros u' v' [H|H]; [injection H as <- <-|exact (E3 _ _ H)]. apply Hok; assumption.
Qed.

(** A point of [H] above [z] is above one of the new vertices, unless [x = z]. *)
Lemma split_covers b z y al : in_box b -> in_box z -> in_box y -> 0 <= h y -> ple z y -> ple y b ->
  0 <= al -> al <= 1 ->
  (forall be, 0 <= be -> be <= 1 -> 0 <= h (seg b be z) -> be <= al) ->
  seg b al z = z \/
  exists i, (i < length z)%nat /\ vget0 z i <> vget0 (seg b al z) i /\ vget0 (seg b al z) i <= vget0 y i.
Proof.
  intros Bb Bz By Hy Zy Yb A0 A1 Hmax.
  assert (L : length b = length z) by (destruct Bb as (L1 & _), Bz as (L2 & _); lia).
  destruct (feq_dec K al 1) as [E|Ne].
  { left. apply vec_ext; [rewrite seg_length by exact L; exact L|].
    intros i _. rewrite seg_get by exact L. rewrite E. ring. }
  assert (Hal : 0 < 1 - al) by (apply (proj1 (flt_sub _ _)); apply flt_le_neq; split; assumption).
  set (x := seg b al z).
  assert (Gx : forall i, vget0 x i = vget0 b i + al * (vget0 z i - vget0 b i)) by (intro i; apply seg_get; exact L).
  (* either some coordinate works or all differing coordinates of x are above y *)
  set (is := seq 0 (length z)).
  destruct (existsb (fun i => negb (feqb (vget0 z i) (vget0 x i)) && fleb (vget0 x i) (vget0 y i)) is) eqn:Ex.
  { right. apply existsb_exists in Ex. destruct Ex as (i & Hi & E). apply andb_true_iff in E. destruct E as [E1 E2].
    exists i. split; [apply in_seq in Hi; lia|]. split; [|apply fleb_le; exact E2].
    apply negb_true_iff in E1. apply feqb_neq in E1. exact E1. }
  assert (Hall : forall i, (i < length z)%nat -> vget0 z i <> vget0 x i -> vget0 y i < vget0 x i).
  { intros i Hi Hne. destruct (fleb (vget0 x i) (vget0 y i)) eqn:E; [|apply fleb_gt; exact E]. exfalso.
    assert (X : existsb (fun i => negb (feqb (vget0 z i) (vget0 x i)) && fleb (vget0 x i) (vget0 y i)) is = true).
    { apply existsb_exists. exists i. split; [apply in_seq; lia|]. rewrite E, (proj2 (feqb_neq K _ _) Hne). reflexivity. }
    congruence. }
  exfalso.
  set (js := filter (fun i => negb (feqb (vget0 z i) (vget0 x i))) is).
  destruct (small_step (map (fun i => (vget0 x i - vget0 y i, vget0 b i - vget0 z i)) js)) with (m := 1 - al)
    as (e & E1 & E2 & E3).
  { intros u v H. apply in_map_iff in H. destruct H as (i & E & Hi). injection E as <- <-.
    apply filter_In in Hi. destruct Hi as [Hi1 Hi2]. apply in_seq in Hi1.
    apply negb_true_iff in Hi2. apply feqb_neq in Hi2. split.
    - apply (proj1 (flt_sub _ _)). apply Hall; [lia|exact Hi2].
    - apply (proj1 (fle_sub _ _)). exact (fle_trans K _ _ _ (Zy i) (Yb i)). }
  { exact Hal. }
  set (be := al + e).
  assert (Hbe1 : be <= 1).
  { unfold be. apply fle_sub. replace (1 - (al + e)) with (1 - al - e) by ring.
    apply (proj1 (fle_sub _ _)). exact E2. }
  assert (Hbe0 : 0 <= be) by (apply fadd_nonneg; [exact A0|exact (flt_le E1)]).
  assert (Pb : ple y (seg b be z)).
  { intro i. rewrite seg_get by exact L.
    destruct (Nat.lt_ge_cases i (length z)) as [Li|Li].
    2: { rewrite (vget_out y) by (destruct By as (L1 & _), Bz as (L2 & _); lia).
         rewrite (vget_out b), (vget_out z) by lia. replace (0 + be * (0 - 0)) with (0 : K) by ring. apply fle_refl. }
    destruct (feq_dec K (vget0 z i) (vget0 x i)) as [Eq|Nq].
    - (* then z i = b i *)
      assert (Ez : vget0 z i = vget0 b i).
      { rewrite Gx in Eq.
        assert (P : (1 - al) * (vget0 z i - vget0 b i) = 0).
        { replace ((1 - al) * (vget0 z i - vget0 b i)) with (vget0 z i - (vget0 b i + al * (vget0 z i - vget0 b i))) by ring.
          rewrite <- Eq. ring. }
        apply fmul_eq0 in P. destruct P as [P|P]; [exfalso; exact (flt_neq0 Hal P)|apply fsub_eq0; exact P]. }
      rewrite Ez. replace (vget0 b i + be * (vget0 b i - vget0 b i)) with (vget0 b i) by ring. exact (Yb i).
    - assert (Hin : In (vget0 x i - vget0 y i, vget0 b i - vget0 z i)
                      (map (fun i => (vget0 x i - vget0 y i, vget0 b i - vget0 z i)) js)).
      { apply in_map_iff. exists i. split; [reflexivity|]. apply filter_In. split; [apply in_seq; lia|].
        rewrite (proj2 (feqb_neq K _ _) Nq). reflexivity. }
      pose proof (E3 _ _ Hin) as Q. apply fle_sub.
      replace (vget0 b i + be * (vget0 z i - vget0 b i) - vget0 y i)
        with (vget0 x i - vget0 y i - e * (vget0 b i - vget0 z i)) by (rewrite Gx; unfold be; ring).
      apply (proj1 (fle_sub _ _)). exact Q. }
  assert (Bs : in_box (seg b be z)) by (apply in_box_seg; assumption).
  pose proof (fle_trans K _ _ _ Hy (Hh _ _ By Bs Pb)) as Hp.
  pose proof (Hmax be Hbe0 Hbe1 Hp) as Hle.
  apply (flt_not_le K 0 e); [exact E1|].
  apply fle_sub. replace (0 - e) with (al - be) by (unfold be; ring). apply (proj1 (fle_sub _ _)). exact Hle.
Qed.

(** ** The loop *)

Definition covered (s : state K) : Prop :=
  forall y, feasible y -> lt_bound (f y) (sub_bound (st_cbv s) tol) = true ->
    ple (st_a s) y /\ ple y (st_b s) /\ exists z, In z (st_T s) /\ ple z y.

Record inv (s : state K) : Prop := {
  i_a : in_box (st_a s); i_b : in_box (st_b s);
  i_T : forall z, In z (st_T s) -> in_box z;
  i_best : forall x, st_best s = Some x ->
     in_box x /\ g x <= 0 /\ - eps <= h x /\ st_cbv s = Some (f x);
  i_cov : st_lost s = false -> covered s }.

Lemma lt_bound_mono (u v : K) c : u <= v -> lt_bound v c = true -> lt_bound u c = true.
Proof.
  destruct c as [c|]; cbn; [|reflexivity]. intros A B. apply fltb_lt in B. apply fltb_lt.
  exact (fle_lt_trans K _ _ _ A B).
Qed.

Lemma splits_box z x c : in_box z -> in_box x -> forall w, In w (splits f g z x c tol) -> in_box w.
Proof.
  intros Bz Bx w H. unfold splits in H. apply filter_In in H. destruct H as [H _].
  apply in_map_iff in H. destruct H as (i & <- & _). destruct Bx as (_ & A & B).
  apply in_box_upd; auto.
Qed.
Lemma splits_covers z x c y i : in_box z -> in_box x -> feasible y ->
  lt_bound (f y) (sub_bound c tol) = true -> ple z y ->
  (i < length z)%nat -> vget0 z i <> vget0 x i -> vget0 x i <= vget0 y i ->
  exists w, In w (splits f g z x c tol) /\ ple w y.
Proof.
  intros Bz Bx (By & Gy & Hy) Cy Zy Li Ne Xy.
  exists (upd z i (vget0 x i)).
  assert (P : ple (upd z i (vget0 x i)) y) by (apply upd_ple; assumption).
  assert (Bw : in_box (upd z i (vget0 x i))) by (destruct Bx as (_ & A & B); apply in_box_upd; auto).
  split; [|exact P]. unfold splits. apply filter_In. split.
  - apply in_map_iff. exists i. split; [reflexivity|]. apply filter_In. split; [apply in_seq; lia|].
    rewrite (proj2 (feqb_neq K _ _) Ne). reflexivity.
  - apply andb_true_iff. split.
    + exact (lt_bound_mono _ _ _ (Hf _ _ Bw By P) Cy).
    + apply fleb_le. exact (fle_trans K _ _ _ (Hg _ _ Bw By P) Gy).
Qed.

Lemma in_remove {A} (l : list A) i d w : (i < length l)%nat -> In w l ->
  w = nth i l d \/ In w (firstn i l ++ skipn (S i) l).
Proof.
  revert i. induction l as [|u l IH]; intros [|i] Hi Hw; cbn in Hi; try lia.
  - cbn. destruct Hw as [->|Hw]; [left; reflexivity|right; exact Hw].
  - destruct Hw as [->|Hw].
    + right. left. reflexivity.
    + destruct (IH i ltac:(lia) Hw) as [->|H]; [left; reflexivity|]. right. cbn. right. exact H.
Qed.
Lemma remove_in {A} (l : list A) i w : In w (firstn i l ++ skipn (S i) l) -> In w l.
Proof.
  intro H. apply in_app_or in H. destruct H as [H|H].
  - rewrite <- (firstn_skipn i l). apply in_or_app. left. exact H.
  - rewrite <- (firstn_skipn (S i) l). apply in_or_app. right. exact H.
Qed.

Lemma step_inv ind s s' : (ind < length (st_T s))%nat -> inv s ->
  step f g h sup_fg sup_h rtol tol ind s = Ok s' -> inv s'.
Proof.
  intros Hind [Ia Ib IT Ibest Icov]. unfold step.
  set (z := nth ind (st_T s) []). set (T := firstn ind (st_T s) ++ skipn (S ind) (st_T s)).
  assert (Bz : in_box z) by (apply IT; apply nth_In; exact Hind).
  assert (BT : forall w, In w T -> in_box w) by (intros w Hw; apply IT; exact (remove_in _ _ _ Hw)).
  assert (R : forall al, (if fleb 0 (- h z) then sup_h (st_b s) z else Ok 1) = Ok al ->
     (0 <= al /\ al <= 1) /\ - eps <= h (seg (st_b s) al z) /\
     (ple z (st_b s) -> 0 <= h (st_b s) -> forall be, 0 <= be -> be <= 1 -> 0 <= h (seg (st_b s) be z) -> be <= al)).
  { intros al. destruct Hs as (_ & S2 & S3 & _ & S5). destruct (fleb 0 (- h z)) eqn:E0.
    - intro E. split; [exact (S2 _ _ _ E)|]. split; [exact (S3 _ _ _ Ib Bz E)|].
      intros P Q. exact (S5 _ _ _ Ib Bz P Q E).
    - intro E. apply Ok_inj in E. subst al. split; [split; [apply f1_nonneg|apply fle_refl]|]. split.
      + assert (Ez : seg (st_b s) 1 z = z).
        { assert (L : length (st_b s) = length z) by (destruct Ib as (L1 & _), Bz as (L2 & _); lia).
          apply vec_ext; [rewrite seg_length by exact L; exact L|]. intros i _. rewrite seg_get by exact L. ring. }
        rewrite Ez. apply fleb_gt in E0. apply flt_le in E0.
        apply (fle_trans K _ 0); [apply fopp_nonpos; exact Heps|].
        apply fopp_nonneg in E0. replace (h z) with (- - h z) by ring. exact E0.
      + intros _ _ be _ B1 _. exact B1. }
  destruct (if fleb 0 (- h z) then sup_h (st_b s) z else Ok 1) as [al|e]; [|discriminate].
  destruct (R al eq_refl) as ((A0 & A1) & Hx & Hmax). clear R.
  set (x := seg (st_b s) al z) in *.
  assert (Bx : in_box x) by (apply in_box_seg; assumption).
  (* coverage of the points above z *)
  assert (Cz : forall y c, feasible y -> ple z y -> ple y (st_b s) ->
     lt_bound (f y) (sub_bound c tol) = true ->
     (g x <= 0 -> lt_bound (f x) (sub_bound c tol) = false) ->
     exists w, In w (splits f g z x c tol) /\ ple w y).
  { intros y c Fy Zy Yb Cy Hcut. pose proof Fy as (By & Gy & Hy).
    assert (Hb : 0 <= h (st_b s)) by (exact (fle_trans K _ _ _ Hy (Hh _ _ By Ib Yb))).
    assert (Zb : ple z (st_b s)) by (exact (ple_trans _ _ _ Zy Yb)).
    destruct (split_covers (st_b s) z y al Ib Bz By Hy Zy Yb A0 A1 (Hmax Zb Hb)) as [E|(i & Li & Ne & Xy)].
    - exfalso. fold x in E. rewrite E in Hcut.
      assert (X : lt_bound (f z) (sub_bound c tol) = true) by (exact (lt_bound_mono _ _ _ (Hf _ _ Bz By Zy) Cy)).
      rewrite Hcut in X; [discriminate|]. exact (fle_trans K _ _ _ (Hg _ _ Bz By Zy) Gy).
    - exact (splits_covers z x c y i Bz Bx Fy Cy Zy Li Ne Xy). }
  assert (sub_lt : forall (v c : K), fltb v (c - tol) = true -> fltb v c = true).
  { intros v c H. apply fltb_lt in H. apply fltb_lt. apply (flt_le_trans K _ _ _ H).
    apply fle_sub. replace (c - (c - tol)) with tol by ring. exact Htol. }
  destruct (fleb (g x) 0 && lt_bound (f x) (st_cbv s)) eqn:Eup.
  - apply andb_true_iff in Eup. destruct Eup as [Eg Ec]. apply fleb_le in Eg.
    destruct (red f g h sup_fg sup_h rtol (st_a s) (st_b s) (Some (f x))) as [[a' b']|e] eqn:Er; [|discriminate].
    destruct (red_box _ _ _ _ _ Ia Ib Er) as [Ba' Bb'].
    intro H. apply Ok_inj in H. subst s'. constructor; cbn [st_a st_b st_T st_cbv st_best st_lost].
    + exact Ba'.
    + exact Bb'.
    + intros w Hw. apply in_app_or in Hw. destruct Hw as [Hw|Hw].
      * apply filter_In in Hw. exact (BT w (proj1 Hw)).
      * exact (splits_box _ _ _ Bz Bx w Hw).
    + intros x' E. injection E as <-. split; [exact Bx|]. split; [exact Eg|]. split; [exact Hx|reflexivity].
    + intros El y Fy Cy. apply orb_false_iff in El. destruct El as [El1 El2].
      cbn [st_cbv st_a st_b st_T sub_bound lt_bound] in *.
      pose proof Fy as (By & Gy & Hy).
      assert (Cold : lt_bound (f y) (sub_bound (st_cbv s) tol) = true).
      { destruct (st_cbv s) as [c|]; [|reflexivity]. cbn in *. apply fltb_lt in Cy, Ec. apply fltb_lt.
        apply (flt_trans K _ _ _ Cy). apply flt_sub. replace (c - tol - (f x - tol)) with (c - f x) by ring.
        apply (proj1 (flt_sub _ _)). exact Ec. }
      destruct (Icov El1 y Fy Cold) as (Ay & Yb & w & Hw & Wy).
      assert (Cle : le_bound (f y) (Some (f x))) by (cbn; apply flt_le; apply fltb_lt; apply sub_lt; exact Cy).
      destruct (red_covers _ _ _ _ _ y Ia Ib Fy Cle Ay Yb Er) as [Ay' Yb'].
      split; [exact Ay'|]. split; [exact Yb'|].
      destruct (in_remove (st_T s) ind [] w Hind Hw) as [Ew|Hw'].
      * fold z in Ew. subst w.
        destruct (Cz y (Some (f x)) Fy Wy Yb Cy) as (w & Hw1 & Hw2).
        { intros _. cbn. apply fltb_ge. apply fle_sub. replace (f x - (f x - tol)) with tol by ring. exact Htol. }
        exists w. split; [apply in_or_app; right; exact Hw1|exact Hw2].
      * fold T in Hw'. exists w. split; [|exact Wy]. apply in_or_app. left. apply filter_In.
        split; [exact Hw'|]. pose proof (BT w Hw') as Bw.
        assert (Lb : length w = length b') by (destruct Bw as (L1 & _), Bb' as (L2 & _); lia).
        assert (Kw : vleb w b' && fltb (f w) (f x - tol) && fleb (g w) 0 = true).
        { rewrite (proj2 (vleb_ple w b' Lb) (ple_trans _ _ _ Wy Yb')).
          pose proof (lt_bound_mono (f w) (f y) (Some (f x - tol)) (Hf _ _ Bw By Wy) Cy) as X. cbn in X. rewrite X.
          rewrite (proj2 (fleb_le K _ _) (fle_trans K _ _ _ (Hg _ _ Bw By Wy) Gy)). reflexivity. }
        rewrite Kw, andb_true_r. destruct (vleb a' w) eqn:Ea; [reflexivity|]. exfalso.
        assert (X : existsb (fun w => vleb w b' && fltb (f w) (f x - tol) && fleb (g w) 0 && negb (vleb a' w)) T = true).
        { apply existsb_exists. exists w. split; [exact Hw'|]. rewrite Kw, Ea. reflexivity. }
        congruence.
  - intro H. apply Ok_inj in H. subst s'. constructor; cbn [st_a st_b st_T st_cbv st_best st_lost].
    + exact Ia.
    + exact Ib.
    + intros w Hw. apply in_app_or in Hw. destruct Hw as [Hw|Hw]; [exact (BT w Hw)|exact (splits_box _ _ _ Bz Bx w Hw)].
    + exact Ibest.
    + intros El y Fy Cy. cbn [st_cbv st_a st_b st_T] in *.
      destruct (Icov El y Fy Cy) as (Ay & Yb & w & Hw & Wy).
      split; [exact Ay|]. split; [exact Yb|].
      destruct (in_remove (st_T s) ind [] w Hind Hw) as [Ew|Hw'].
      * fold z in Ew. subst w.
        destruct (Cz y (st_cbv s) Fy Wy Yb Cy) as (w & Hw1 & Hw2).
        { intro Gx. rewrite (proj2 (fleb_le K _ _) Gx) in Eup. cbn in Eup.
          destruct (st_cbv s) as [c|]; [|discriminate]. cbn in *. destruct (fltb (f x) (c - tol)) eqn:Q; [|reflexivity].
          apply sub_lt in Q. congruence. }
        exists w. split; [apply in_or_app; right; exact Hw1|exact Hw2].
      * exists w. split; [apply in_or_app; left; exact Hw'|exact Wy].
Qed.

Lemma loop_inv choose fuel : forall k s s' k', inv s ->
  loop f g h sup_fg sup_h rtol tol choose fuel k s = Ok (s', k') -> inv s'.
Proof.
  induction fuel as [|fuel IH]; intros k s s' k' I H; cbn [loop] in H.
  - apply Ok_inj in H. injection H as <- _. exact I.
  - destruct (st_T s) as [|z T] eqn:ET.
    + apply Ok_inj in H. injection H as <- _. exact I.
    + rewrite <- ET in H.
      destruct (step f g h sup_fg sup_h rtol tol _ s) as [s1|e] eqn:E; [|discriminate].
      refine (IH _ _ _ _ _ H). refine (step_inv _ _ _ _ I E).
      apply Nat.mod_upper_bound. rewrite ET. discriminate.
Qed.

(** ** The result *)

Lemma rpa_facts choose max_iter cbv r :
  rpa_monotonic f g h sup_fg sup_h rtol tol choose max_iter a0 b0 cbv = Ok r ->
  (forall x, r_x r = Some x -> in_box x /\ g x <= 0 /\ - eps <= h x /\ r_f r = Some (f x)) /\
  (r_conv r = true -> r_lost r = false ->
     forall y, feasible y ->
       match r_x r with
       | Some x => f x <= f y + tol
       | None => match cbv with None => False | Some c => c <= f y end
       end).
Proof.
  unfold rpa_monotonic.
  set (cbv1 := match cbv with None => None | Some c => Some (c + tol) end).
  set (bad := fltb 0 (g a0) || fltb (h b0) 0 || match cbv1 with None => false | Some c => fltb (c - tol) (f a0) end).
  destruct bad eqn:Ebad.
  - (* infeasible at once *)
    intro H. destruct max_iter as [|m]; cbn [loop st_T] in H; apply Ok_inj in H; subst r; cbn [st_best st_T st_lost r_x r_f r_conv r_lost];
    (split; [intros x E; discriminate E|]; intros _ _ y (By & Gy & Hy);
     unfold bad in Ebad; apply orb_true_iff in Ebad; destruct Ebad as [Ebad|Ebad];
     [exfalso; apply orb_true_iff in Ebad; destruct Ebad as [Ebad|Ebad]; apply fltb_lt in Ebad|]).
    all: try (apply (flt_not_le K _ _) in Ebad; apply Ebad;
       first [ exact (fle_trans K _ _ _ (Hg _ _ in_box_a By (proj1 (proj2 By))) Gy)
             | exact (fle_trans K _ _ _ Hy (Hh _ _ By in_box_b (proj2 (proj2 By)))) ]).
    all: unfold cbv1 in Ebad; destruct cbv as [c|]; [|discriminate]; apply fltb_lt in Ebad;
       replace (c + tol - tol) with c in Ebad by ring; apply flt_le;
       apply (flt_le_trans K _ _ _ Ebad); exact (Hf _ _ in_box_a By (proj1 (proj2 By))).
  - destruct (red f g h sup_fg sup_h rtol a0 b0 cbv1) as [[a b]|e] eqn:Er; [|discriminate].
    destruct max_iter as [|m]; [discriminate|].
    destruct (loop f g h sup_fg sup_h rtol tol choose (S m) 1 (St a b [a] cbv1 None false)) as [[s k]|e] eqn:El; [|discriminate].
    intro H. apply Ok_inj in H. subst r.
    destruct (red_box _ _ _ _ _ in_box_a in_box_b Er) as [Ba Bb].
    assert (I0 : inv (St a b [a] cbv1 None false)).
    { constructor; cbn [st_a st_b st_T st_cbv st_best st_lost].
      - exact Ba.
      - exact Bb.
      - intros z [<-|[]]. exact Ba.
      - intros x E. discriminate E.
      - intros _ y Fy Cy. cbn [st_cbv st_a st_b st_T] in *. pose proof Fy as (By & _).
        assert (Cle : le_bound (f y) cbv1).
        { unfold cbv1 in *. destruct cbv as [c|]; [|exact I]. cbn in *. apply fltb_lt in Cy. apply flt_le in Cy.
          apply (fle_trans K _ _ _ Cy). apply fle_sub. replace (c + tol - (c + tol - tol)) with tol by ring. exact Htol. }
        destruct (red_covers _ _ _ _ _ y in_box_a in_box_b Fy Cle (proj1 (proj2 By)) (proj2 (proj2 By)) Er) as [Ay Yb].
        split; [exact Ay|]. split; [exact Yb|]. exists a. split; [left; reflexivity|exact Ay]. }
    pose proof (loop_inv _ _ _ _ _ _ I0 El) as [_ _ _ Ibest Icov].
    cbn [r_x r_f r_conv r_lost]. split.
    + intros x E. destruct (Ibest x E) as (A & B & C & D). rewrite E. split; [exact A|]. split; [exact B|]. split; [exact C|exact D].
    + intros Hc Hl y Fy. destruct (st_T s) as [|w T] eqn:ET; [|discriminate].
      assert (Cn : lt_bound (f y) (sub_bound (st_cbv s) tol) = false).
      { destruct (lt_bound (f y) (sub_bound (st_cbv s) tol)) eqn:Q; [|reflexivity]. exfalso.
        destruct (Icov Hl y Fy Q) as (_ & _ & w & Hw & _). rewrite ET in Hw. exact Hw. }
      destruct (st_best s) as [x|] eqn:Eb.
      * destruct (Ibest x eq_refl) as (_ & _ & _ & D). rewrite D in Cn. cbn in Cn. apply fltb_ge in Cn.
        apply fle_sub. apply (proj1 (fle_sub _ _)) in Cn. replace (f y + tol - f x) with (f y - (f x - tol)) by ring. exact Cn.
      * assert (Hcb : st_cbv s = cbv1).
        { clear -El Eb. revert El. generalize 1%nat as k0.
          assert (Gen : forall fuel k0 (s0 s1 : state K) k1, loop f g h sup_fg sup_h rtol tol choose fuel k0 s0 = Ok (s1, k1) ->
             st_best s1 = None -> st_cbv s1 = st_cbv s0).
          { induction fuel as [|fuel IH]; intros k0 s0 s1 k1 H N; cbn [loop] in H.
            - apply Ok_inj in H. injection H as <- _. reflexivity.
            - destruct (st_T s0) eqn:ET; [apply Ok_inj in H; injection H as <- _; reflexivity|].
              rewrite <- ET in H. destruct (step f g h sup_fg sup_h rtol tol _ s0) as [s2|e] eqn:E; [|discriminate].
              pose proof (IH _ _ _ _ H N) as E2. rewrite E2.
              assert (Best : st_best s2 = None).
              { clear -H N. revert s2 H. generalize (S k0). revert s1 k1 N. induction fuel as [|fuel IH]; intros s1 k1 N k s2 H; cbn [loop] in H.
                - apply Ok_inj in H. injection H as <- _. exact N.
                - destruct (st_T s2) eqn:ET; [apply Ok_inj in H; injection H as <- _; exact N|].
                  rewrite <- ET in H. destruct (step f g h sup_fg sup_h rtol tol _ s2) as [s3|e] eqn:E; [|discriminate].
                  pose proof (IH _ _ N _ _ H) as B3. revert E. unfold step.
                  destruct (if fleb 0 (- h _) then _ else _) as [al|e]; [|discriminate].
                  destruct (_ && _).
                  + destruct (red f g h sup_fg sup_h rtol _ _ _) as [[? ?]|?]; [|discriminate].
                    intro E. apply Ok_inj in E. subst s3. discriminate B3.
                  + intro E. apply Ok_inj in E. subst s3. exact B3. }
              revert E. unfold step.
              destruct (if fleb 0 (- h _) then _ else _) as [al|e]; [|discriminate].
              destruct (_ && _).
              + destruct (red f g h sup_fg sup_h rtol _ _ _) as [[? ?]|?]; [|discriminate].
                intro E. apply Ok_inj in E. subst s2. discriminate Best.
              + intro E. apply Ok_inj in E. subst s2. reflexivity. }
          intros k0 El. exact (Gen _ _ _ _ _ El Eb). }
        rewrite Hcb in Cn. unfold cbv1 in Cn. destruct cbv as [c|]; [|discriminate]. cbn in Cn. apply fltb_ge in Cn.
        replace (c + tol - tol) with c in Cn by ring. exact Cn.
Qed.

End Facts.
