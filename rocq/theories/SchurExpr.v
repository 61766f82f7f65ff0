(** * Expressions of the Schur-like forms *)
From Coq Require Import Bool List Arith Lia ZArith Ring Field.
From Verif Require Import OrdField Base Perm Poly PolyOps Expr CertLimit Schur SchurFacts.
Import ListNotations.

Section Facts.
Variable K : OrdField.
Local Open Scope of_scope.
Add Field Kf : (F_field K).

Definition exact_value (e : ex K) (f : K -> K -> K -> K) : Prop :=
  forall A B C, defined (pt3 A B C) e -> ev (pt3 A B C) e = f A B C.

Lemma f2_neq0 : (2 : K) <> 0.
Proof. apply flt_neq0, f2_pos. Qed.

Lemma Some_inj {T} (x y : T) : Some x = Some y -> x = y.
Proof. intro H. injection H as ->. reflexivity. Qed.
Ltac opened := cbn [ev csum cprod erename rot3 pt3 fpow].
Lemma E1 : (0 <=? (1 : K)) = true.
Proof. apply fleb_le, f1_nonneg. Qed.
Lemma E2 : (0 <=? (2 : K)) = true.
Proof. apply fleb_le, flt_le, f2_pos. Qed.
Lemma En n : (0 <=? (fnat n : K)) = true.
Proof. apply fleb_le, fnat_nonneg. Qed.
Ltac mani := cbn -[fnat fleb]; rewrite ?E1, ?E2, ?En; reflexivity.

Lemma half_side_spec n r (e : ex K) : half_side n r = Some e ->
  (0 < r < n)%nat /\ manifest true e = true /\ (forall env, defined env e) /\
  forall A B C, ev (pt3 A B C) e * ((B - A) * (C - B) * (A - C)) = Ssum K n r A B C.
Proof.
  pose proof f2_neq0 as N2.
  unfold half_side. destruct (Nat.leb (n + r) 12); [|discriminate].
  do 2 (destruct n as [|n]; [discriminate|]).
  do 8 (destruct n as [|n]; [do 6 (destruct r as [|r]; [try discriminate;
      intro H; injection H as <-; (split; [lia|]); (split; [mani|]); (split; [intro env; cbn; intuition|]);
      intros A B C; unfold Ssum; opened; (ring || (field; exact N2)) |]); discriminate|]).
  discriminate.
Qed.
Lemma half_sum_value n r A B C : ev (pt3 A B C) (half_sum n r : ex K) = Ssum K n r A B C.
Proof. unfold half_sum, Ssum. opened. ring. Qed.
Lemma pnrms_expr_spec n r m s (v : K) : (forall env, defined env (pnrms_expr n r m s v)) /\
  forall A B C, ev (pt3 A B C) (pnrms_expr n r m s v) = v * Pform K n r m s A B C.
Proof.
  unfold pnrms_expr. destruct (Nat.eqb n r || Nat.eqb m s || Nat.eqb r 0 || Nat.eqb s 0)%bool eqn:Z.
  - split; [intro; exact I|]. intros A B C. cbn [ev]. unfold Pform.
    assert (Q : Ssum K n r A B C = 0 \/ Ssum K m s A B C = 0).
    { apply orb_prop in Z. destruct Z as [Z|Z]; [apply orb_prop in Z; destruct Z as [Z|Z]; [apply orb_prop in Z; destruct Z as [Z|Z]|]|];
        apply Nat.eqb_eq in Z; subst; [left|right|left|right]; unfold Ssum; cbn [fpow]; ring. }
    destruct Q as [-> | ->]; ring.
  - destruct (half_side n r) as [f1|] eqn:E1'; [destruct (half_side m s) as [f2|] eqn:E2'|].
    + destruct (half_side_spec n r f1 E1') as (_ & _ & D1 & V1), (half_side_spec m s f2 E2') as (_ & _ & D2 & V2). split.
      * intro env. cbn. auto 20.
      * intros A B C. unfold Pform. rewrite <- V1, <- V2. cbn [ev]. opened. cbn [ev]. ring.
    + split; [intro env; cbn; auto 20|]. intros A B C. cbn [ev]. rewrite !half_sum_value. reflexivity.
    + split; [intro env; cbn; auto 20|]. intros A B C. cbn [ev]. rewrite !half_sum_value. reflexivity.
Qed.

Lemma ev_powvars r (e : ex K) (x y : nat -> K) : (forall i, y i = x i ^ r) -> ev x (powvars r e) = ev y e.
Proof. intro H. induction e; cbn [powvars ev]; rewrite ?IHe1, ?IHe2, ?IHe; auto. Qed.
Lemma defined_powvars r (e : ex K) (x y : nat -> K) : (forall i, y i = x i ^ r) -> (defined x (powvars r e) <-> defined y e).
Proof.
  intro H. induction e; cbn [powvars defined]; try rewrite IHe1, IHe2; try rewrite IHe; rewrite ?(ev_powvars r e2 x y H); tauto.
Qed.
Lemma manifest_powvars r (e : ex K) : manifest true e = true -> manifest true (powvars r e) = true.
Proof.
  induction e; cbn [powvars manifest]; intro M; try discriminate; try exact M; try (apply andb_prop in M; destruct M; rewrite IHe1, IHe2 by assumption; reflexivity).
  - apply orb_true_r.
  - apply orb_prop in M. destruct M as [-> |M]; [reflexivity|]. rewrite (IHe M). apply orb_true_r.
Qed.
Lemma pt3_pow (A B C : K) r i : pt3 (A ^ r) (B ^ r) (C ^ r) i = pt3 A B C i ^ r.
Proof. destruct i as [|[|i]]; reflexivity. Qed.

Lemma table_mul_spec k (e : ex K) : table_mul k = Some e -> manifest true e = true /\ (forall env, defined env e) /\
  forall A B C, ev (pt3 A B C) e = Hpos K k 1 1 A B C.
Proof.
  pose proof f2_neq0 as N2.
  do 9 (destruct k as [|k]; [try discriminate; intro H; apply Some_inj in H; subst e; (split; [mani|]); (split; [intro env; cbn; intuition|]);
     intros A B C; unfold Hpos; opened; cbn [fnat fpow]; (ring || (field; exact N2))|]). discriminate.
Qed.
Lemma table_frac_spec n r (e : ex K) : table_frac n r = Some e -> manifest true e = true /\ (forall env, defined env e) /\
  (n <> 1%nat -> forall A B C, ev (pt3 A B C) e = Hpos K n r r A B C).
Proof.
  intro H. assert (Q : r = 2%nat /\ (n = 1 \/ n = 3 \/ n = 5)%nat).
  { destruct n as [|[|[|[|[|[|n]]]]]]; try discriminate H; destruct r as [|[|[|r]]]; try discriminate H; lia. }
  destruct Q as [-> [-> |[-> | ->]]]; injection H as <-; (split; [mani|]); (split; [intro env; cbn; intuition|]); intro N; try congruence;
    intros A B C; unfold Hpos; opened; ring.
Qed.
Lemma Hpos_scale d n m r (A B C : K) : Hpos K n m r (A ^ d) (B ^ d) (C ^ d) = Hpos K (d * n) (d * m) (d * r) A B C.
Proof. unfold Hpos. rewrite !fpow_mul. reflexivity. Qed.

Lemma hnmr_first_spec n m r (e : ex K) : hnmr_first n m r = Some e -> manifest true e = true /\ (forall env, defined env e) /\
  forall A B C, ev (pt3 A B C) e = Hpos K n m r A B C.
Proof.
  unfold hnmr_first. destruct (Nat.eqb_spec n m) as [-> |N].
  - intro H. injection H as <-. split; [cbn; rewrite !orb_true_r; reflexivity|]. split; [intro; cbn; auto 20|].
    intros A B C. unfold Hpos. opened. ring.
  - destruct (Nat.leb_spec r m) as [L|L]; [|discriminate]. destruct (Nat.eqb_spec n (m - r)) as [E|E]; [|discriminate].
    cbn [andb]. destruct (Nat.leb_spec r n) as [L2|L2]; intro H; injection H as <-;
      (split; [cbn; rewrite ?orb_true_r; reflexivity|]); (split; [intro; cbn; auto 20|]); intros A B C.
    + assert (Q : exists k, n = (r + k)%nat /\ m = (r + (r + k))%nat) by (exists (n - r)%nat; lia).
      destruct Q as (k & -> & ->). replace (r + k - r)%nat with k by lia. unfold Hpos. opened. rewrite !fpow_add. ring.
    + assert (Q : exists k, r = (n + k)%nat /\ m = (n + (n + k))%nat) by (exists (r - n)%nat; lia).
      destruct Q as (k & -> & ->). replace (n + k - n)%nat with k by lia. unfold Hpos. opened. rewrite !fpow_add. ring.
Qed.
Lemma hnmr_plain_value n m r A B C : ev (pt3 A B C) (hnmr_plain n m r : ex K) = Hpos K n m r A B C.
Proof. unfold hnmr_plain, Hpos. opened. ring. Qed.
Lemma hnmr_base_spec n r : (forall env, defined env (hnmr_base n r : ex K)) /\ forall A B C, ev (pt3 A B C) (hnmr_base n r : ex K) = Hpos K n 0 r A B C.
Proof.
  unfold hnmr_base. destruct (hnmr_first n 0 r) as [e|] eqn:E.
  - destruct (hnmr_first_spec _ _ _ _ E) as (_ & D & V). split; assumption.
  - split; [intro; cbn; auto 20|]. intros A B C. apply hnmr_plain_value.
Qed.

(** the wrong entry of the second table *)
Definition wrong_entry (n r : nat) : Prop := (2 <= n)%nat /\ r = (2 * n)%nat.
Lemma frac_branch n r (e : ex K) : (0 < r)%nat -> (n = 1%nat -> (r < 2)%nat) ->
  option_map (powvars (Nat.gcd n r)) (table_frac (n / Nat.gcd n r) (r / Nat.gcd n r)) = Some e -> (forall env, defined env e) /\
  (~ wrong_entry n r -> forall A B C, ev (pt3 A B C) e = Hpos K n r r A B C).
Proof.
  intros Pr N1. set (d := Nat.gcd n r).
  assert (Pd : d <> 0%nat) by (unfold d; intro Z; apply Nat.gcd_eq_0_r in Z; lia).
  assert (En' : n = (d * (n / d))%nat) by (apply Nat.div_exact; [exact Pd|apply Nat.mod_divide; [exact Pd|apply Nat.gcd_divide_l]]).
  assert (Er : r = (d * (r / d))%nat) by (apply Nat.div_exact; [exact Pd|apply Nat.mod_divide; [exact Pd|apply Nat.gcd_divide_r]]).
  destruct (table_frac (n / d) (r / d)) as [t|] eqn:T; [|discriminate]. cbn [option_map]. intro H. injection H as <-.
  destruct (table_frac_spec _ _ _ T) as (_ & D & V). split.
  - intro env. apply (defined_powvars d t env (fun i => env i ^ d)); [reflexivity|apply D].
  - intros W A B C. rewrite (ev_powvars d t _ (pt3 (A ^ d) (B ^ d) (C ^ d)) (pt3_pow A B C d)), V, Hpos_scale.
    + rewrite <- En', <- Er. reflexivity.
    + intro Q. rewrite Q in T. assert (Q2 : (r / d = 2)%nat) by (destruct (r / d)%nat as [|[|[|k]]]; try discriminate T; reflexivity).
      apply W. unfold wrong_entry. rewrite Q in En'. rewrite Q2 in Er. split; [|lia].
      destruct (Nat.eq_dec n 1) as [Q1|Q1]; [specialize (N1 Q1)|]; lia.
Qed.
Lemma hnmr_tables_spec n r (e : ex K) : (0 < r)%nat -> hnmr_tables n r = Some e -> (forall env, defined env e) /\
  (~ wrong_entry n r -> forall A B C, ev (pt3 A B C) e = Hpos K n r r A B C).
Proof.
  intros Pr. unfold hnmr_tables. destruct (Nat.eqb (n mod r) 0 && Nat.leb (n / r) 8)%bool eqn:M.
  - apply andb_prop in M. destruct M as [M _]. apply Nat.eqb_eq in M.
    destruct (table_mul (n / r)) as [t|] eqn:T; [|discriminate]. cbn [option_map]. intro H. injection H as <-.
    destruct (table_mul_spec _ _ T) as (_ & D & V). split.
    + intro env. apply (defined_powvars r t env (fun i => env i ^ r)); [reflexivity|apply D].
    + intros _ A B C. rewrite (ev_powvars r t _ (pt3 (A ^ r) (B ^ r) (C ^ r)) (pt3_pow A B C r)), V, Hpos_scale.
      replace (r * (n / r))%nat with n by (apply Nat.div_exact; lia). rewrite Nat.mul_1_r. reflexivity.
  - destruct (Nat.eqb n 1 && Nat.leb 2 r)%bool eqn:M1.
    + apply andb_prop in M1. destruct M1 as [N1 L]. apply Nat.eqb_eq in N1. apply Nat.leb_le in L. subst n.
      intro H. injection H as <-. destruct (pnrms_expr_spec (r + 1) 1 r (r - 1) 1) as [D V]. split.
      * intro env. cbn [defined]. split; [apply D|cbn; auto 20].
      * intros _ A B C. cbn [ev]. rewrite V. destruct r as [|[|k]]; try lia.
        replace (S (S k) - 1)%nat with (S k) by lia. replace (S (S k) - 2)%nat with k by lia. replace (S (S k) + 1)%nat with (S (S (S k))) by lia.
        unfold Pform, Ssum, Hpos. opened. ring.
    + apply frac_branch; [exact Pr|]. intros ->. destruct (Nat.leb_spec 2 r) as [L|L]; [discriminate M1|lia].
Qed.

(** points where no denominator of the fractions vanishes *)
Definition apart (r : nat) (A B C : K) : Prop := A <> 0 /\ B <> 0 /\ C <> 0 /\ ~ (A ^ r = B ^ r /\ B ^ r = C ^ r).
Lemma two_sqr (x y : K) : x * x + y * y = 0 -> x = 0 /\ y = 0.
Proof.
  intro H. apply fadd_eq0_nonneg in H; try apply fsqr_nonneg. destruct H as [H1 H2].
  split; [destruct (fmul_eq0 K _ _ H1)|destruct (fmul_eq0 K _ _ H2)]; assumption.
Qed.
Lemma three_sqr (x y z : K) : x * x + y * y + z * z = 0 -> x = 0 /\ y = 0 /\ z = 0.
Proof.
  intro H. apply fadd_eq0_nonneg in H; [|fpos|fpos]. destruct H as [H1 H2]. apply two_sqr in H1. destruct H1 as [-> ->].
  repeat split. destruct (fmul_eq0 K _ _ H2); assumption.
Qed.
Ltac half_zero Q := match goal with |- ?x / 2 = 0 => match type of Q with ?y = 0 => replace x with y by ring; rewrite Q; field; apply f2_neq0 end end.
Lemma hnmr_diagonal_spec n r : (0 < r)%nat ->
  (forall A B C, apart r A B C -> defined (pt3 A B C) (hnmr_diagonal n r r : ex K)) /\
  (~ wrong_entry n r -> exact_value (hnmr_diagonal n r r) (Hpos K n r r)).
Proof.
  intro Pr. pose proof f2_neq0 as N2. unfold hnmr_diagonal. destruct (hnmr_tables n r) as [e|] eqn:T.
  - destruct (hnmr_tables_spec n r e Pr T) as [D V]. split; [intros; apply D|]. intros W A B C _. apply V, W.
  - destruct (Nat.leb_spec (r + r) n) as [L|L].
    + destruct (pnrms_expr_spec (2 * r) r n (r + r) 1) as [D V]. split.
      * intros A B C (NA & NB & NC & N). cbn [defined]. split; [split; [cbn; auto 30|apply D]|]. split; [cbn; auto 30|].
        opened. intro Q. apply N.
        assert (Q' : (A ^ r - B ^ r) * (A ^ r - B ^ r) + (B ^ r - C ^ r) * (B ^ r - C ^ r) + (C ^ r - A ^ r) * (C ^ r - A ^ r) = 0).
        { match type of Q with ?x / 2 = 0 => assert (Q2 : x = 0) by (replace x with (x / 2 * 2) by (field; exact N2); rewrite Q; ring) end.
          rewrite <- Q2 at 1. ring. }
        apply three_sqr in Q'. destruct Q' as (Q1 & Q2 & _). split; apply fsub_eq0; assumption.
      * intros _ A B C Hd. cbn [defined] in Hd. destruct Hd as (_ & _ & Hd). cbn [ev]. rewrite V.
        revert Hd. replace (2 * r)%nat with (r + r)%nat by lia. unfold Pform, Ssum, Hpos. opened. rewrite !fpow_add.
        generalize (A ^ r) (B ^ r) (C ^ r) (A ^ n) (B ^ n) (C ^ n). clear - N2. intros x y z u v w Hd. field. split; [exact N2|].
        intro Q. apply Hd. half_zero Q.
    + destruct (pnrms_expr_spec (2 * r) r (n + r + r) (r + r) 1) as [D V]. split.
      * intros A B C (NA & NB & NC & N). cbn [defined]. split; [split; [destruct (Nat.leb r n); cbn; auto 30|apply D]|]. split; [cbn; auto 30|].
        replace (2 * r)%nat with (r + r)%nat by lia. opened. rewrite !fpow_add. intro Q. apply N.
        assert (Q' : A ^ r * (B ^ r - C ^ r) * (A ^ r * (B ^ r - C ^ r)) + B ^ r * (C ^ r - A ^ r) * (B ^ r * (C ^ r - A ^ r))
                     + C ^ r * (A ^ r - B ^ r) * (C ^ r * (A ^ r - B ^ r)) = 0).
        { match type of Q with ?x / 2 = 0 => assert (Q2 : x = 0) by (replace x with (x / 2 * 2) by (field; exact N2); rewrite Q; ring) end.
          rewrite <- Q2 at 1. ring. }
        apply three_sqr in Q'. destruct Q' as (Q1 & _ & Q3).
        apply (fmul_eq0 K) in Q1. apply (fmul_eq0 K) in Q3.
        destruct Q1 as [Q1|Q1]; [exfalso; exact (fpow_neq0 K A r NA Q1)|]. destruct Q3 as [Q3|Q3]; [exfalso; exact (fpow_neq0 K C r NC Q3)|].
        split; apply fsub_eq0; assumption.
      * intros _ A B C Hd. cbn [defined] in Hd. destruct Hd as (_ & _ & Hd). cbn [ev]. rewrite V.
        revert Hd. replace (2 * r)%nat with (r + r)%nat by lia. destruct (Nat.leb_spec r n) as [L2|L2].
        -- assert (Q : exists k, n = (r + k)%nat) by (exists (n - r)%nat; lia). destruct Q as [k ->].
           replace (r + k - r)%nat with k by lia. unfold Pform, Ssum, Hpos. opened. rewrite !fpow_add.
           generalize (A ^ r) (B ^ r) (C ^ r) (A ^ k) (B ^ k) (C ^ k). clear - N2. intros x y z u v w Hd. field. split; [exact N2|].
           intro Q. apply Hd. half_zero Q.
        -- assert (Q : exists k, r = (n + k)%nat) by (exists (r - n)%nat; lia). destruct Q as [k ->].
           replace (n + k - n)%nat with k by lia. unfold Pform, Ssum, Hpos. opened. rewrite !fpow_add.
           generalize (A ^ n) (B ^ n) (C ^ n) (A ^ k) (B ^ k) (C ^ k). clear - N2. intros x y z u v w Hd. field. split; [exact N2|].
           intro Q. apply Hd. half_zero Q.
Qed.
Lemma hnmr_nonneg_spec n m r : (0 < r)%nat ->
  (forall A B C, apart r A B C -> defined (pt3 A B C) (hnmr_nonneg n m r : ex K)) /\
  (~ (m = r /\ wrong_entry n r) -> exact_value (hnmr_nonneg n m r) (Hpos K n m r)).
Proof.
  intro Pr. unfold hnmr_nonneg. destruct (hnmr_first n m r) as [e|] eqn:F.
  - destruct (hnmr_first_spec _ _ _ _ F) as (_ & D & V). split; [intros; apply D|intros _ A B C _; apply V].
  - destruct (Nat.eqb_spec m (2 * r)) as [E|E]; [destruct (Nat.leb_spec r n) as [L|L]|]; cbn [andb].
    + destruct (pnrms_expr_spec (2 * r) r n (m - r) 1) as [D V], (hnmr_base_spec (n - r) r) as [D2 V2]. split.
      * intros A B C _. cbn [defined]. split; [apply D|]. split; [cbn; auto 20|]. split; [exact I|apply D2].
      * intros _ A B C _. cbn [ev]. rewrite V, V2. subst m.
        assert (Q : exists k, n = (r + k)%nat) by (exists (n - r)%nat; lia). destruct Q as [k ->].
        replace (r + k - r)%nat with k by lia. replace (2 * r - r)%nat with r by lia. replace (2 * r)%nat with (r + r)%nat by lia.
        unfold Pform, Ssum, Hpos. opened. rewrite !fpow_add. cbn [fpow]. ring.
    + destruct (Nat.eqb_spec m r) as [Q|Q]; [lia|]. split; [intros; cbn; auto 30|intros _ A B C _; apply hnmr_plain_value].
    + destruct (Nat.eqb_spec m r) as [-> |Q].
      * destruct (hnmr_diagonal_spec n r Pr) as [D V]. split; [exact D|]. intro W. apply V. tauto.
      * split; [intros; cbn; auto 30|intros _ A B C _; apply hnmr_plain_value].
Qed.
Lemma hnmr_neg_spec n m r : (forall env, defined env (hnmr_neg n m r : ex K)) /\ forall A B C, ev (pt3 A B C) (hnmr_neg n m r : ex K) = Hneg K n m r A B C.
Proof.
  unfold hnmr_neg. destruct (Nat.eqb_spec n r) as [-> |N]; (split; [intro; cbn; auto 30|]); intros A B C; unfold Hneg.
  - replace (2 * r)%nat with (r + r)%nat by lia. opened. rewrite !fpow_add. ring.
  - opened. ring.
Qed.
Definition wrong_args (n : Z) (m r : nat) : Prop := (2 <= n)%Z /\ m = r /\ Z.of_nat r = (2 * n)%Z.
Lemma hnmr_expr_spec n m r v :
  (forall A B C, apart r A B C -> defined (pt3 A B C) (hnmr_expr n m r v : ex K)) /\
  (~ wrong_args n m r -> exact_value (hnmr_expr n m r v) (fun A B C => v * Hform K n m r A B C)).
Proof.
  unfold hnmr_expr, Hform. destruct (Nat.eqb_spec r 0) as [-> |R].
  - split; [intros; exact I|]. intros _ A B C _. cbn [ev]. destruct (0 <=? n)%Z; unfold Hpos, Hneg; cbn [fpow]; ring.
  - destruct (Z.leb_spec 0 n) as [N|N].
    + destruct (hnmr_nonneg_spec (Z.to_nat n) m r ltac:(lia)) as [D V]. split; [intros; cbn [defined]; split; [exact I|apply D; assumption]|].
      intros W A B C [_ Hd]. cbn [ev]. rewrite V; [reflexivity| |exact Hd].
      intros [-> [H1 H2]]. apply W. unfold wrong_args. lia.
    + destruct (hnmr_neg_spec (Z.to_nat (- n)) m r) as [D V]. split; [intros; cbn [defined]; split; [exact I|apply D]|].
      intros _ A B C _. cbn [ev]. rewrite V. reflexivity.
Qed.

Lemma fpow_lt (x y : K) n : (0 < n)%nat -> 0 <= y -> y < x -> y ^ n < x ^ n.
Proof.
  intros Hn Hy H. destruct n as [|n]; [lia|]. clear Hn. cbn [fpow]. apply flt_sub.
  replace (x * x ^ n - y * y ^ n) with ((x - y) * x ^ n + y * (x ^ n - y ^ n)) by ring.
  apply fadd_pos_l.
  - apply fmul_pos; [apply (proj1 (flt_sub _ _)); exact H|apply fpow_pos; exact (fle_lt_trans K _ _ _ Hy H)].
  - apply fmul_nonneg; [exact Hy|]. apply (proj1 (fle_sub _ _)), fpow_le; [exact Hy|apply flt_le, H].
Qed.
Lemma fpow_inj (x y : K) n : (0 < n)%nat -> 0 <= x -> 0 <= y -> x ^ n = y ^ n -> x = y.
Proof.
  intros Hn Hx Hy E. destruct (fleb x y) eqn:L1; [destruct (fleb y x) eqn:L2|].
  - apply fle_antisym; apply fleb_le; assumption.
  - exfalso. pose proof (fpow_lt y x n Hn Hx L2) as Q. rewrite E in Q. exact (flt_irrefl K _ Q).
  - exfalso. pose proof (fpow_lt x y n Hn Hy L1) as Q. rewrite E in Q. exact (flt_irrefl K _ Q).
Qed.
Lemma apart_pos r A B C : (0 < r)%nat -> 0 < A -> 0 < B -> 0 < C -> ~ (A = B /\ B = C) -> apart r A B C.
Proof.
  intros Pr HA HB HC N. split; [exact (flt_neq0 HA)|]. split; [exact (flt_neq0 HB)|]. split; [exact (flt_neq0 HC)|].
  intros [E1' E2']. apply N. split; eapply fpow_inj; eauto using flt_le.
Qed.

(** ** The wrong entry, for all exponents *)
Lemma wrong_entry_tables n : (2 <= n)%nat -> hnmr_nonneg n (2 * n) (2 * n) = powvars n (csum (EX 0) * cprod ((EX 0 - EX 1) ^ 2) + cprod (EX 0) * csum ((EX 0 - EX 1) ^ 2))%E :> ex K.
Proof.
  intro H. unfold hnmr_nonneg, hnmr_first. destruct (Nat.eqb_spec n (2 * n)) as [Q|_]; [lia|].
  destruct (Nat.leb_spec (2 * n) (2 * n)) as [_|Q]; [|lia]. cbn [andb]. destruct (Nat.eqb_spec n (2 * n - 2 * n)) as [Q|_]; [lia|].
  destruct (Nat.eqb_spec (2 * n) (2 * (2 * n))) as [Q|_]; [lia|]. cbn [andb]. rewrite Nat.eqb_refl. unfold hnmr_diagonal, hnmr_tables.
  rewrite (Nat.mod_small n (2 * n)) by lia. destruct (Nat.eqb_spec n 0) as [Q|_]; [lia|]. cbn [andb].
  destruct (Nat.eqb_spec n 1) as [Q|_]; [lia|]. cbn [andb].
  replace (Nat.gcd n (2 * n)) with n.
  - rewrite Nat.div_same by lia. rewrite Nat.div_mul by lia. reflexivity.
  - symmetry. apply Nat.divide_gcd_iff; [lia|]. exists 2%nat. lia.
Qed.
Lemma hnmr_wrong n m r (v : K) : wrong_args n m r -> v <> 0 ->
  defined (pt3 2 1 1) (hnmr_expr n m r v) /\ ev (pt3 2 1 1) (hnmr_expr n m r v) <> v * Hform K n m r 2 1 1.
Proof.
  intros (N & -> & R) V0. assert (Er : r = (2 * Z.to_nat n)%nat) by lia. set (k := Z.to_nat n) in *. assert (Hk : (2 <= k)%nat) by (unfold k; lia).
  unfold hnmr_expr, Hform. destruct (Nat.eqb_spec r 0) as [Q|_]; [lia|]. destruct (Z.leb_spec 0 n) as [_|Q]; [|lia]. fold k. rewrite Er, (wrong_entry_tables k Hk).
  split; [cbn; auto 40|]. cbn [ev]. rewrite (ev_powvars k _ _ (pt3 (2 ^ k) (1 ^ k) (1 ^ k)) (pt3_pow _ _ _ k)). rewrite fpow_1.
  replace (Hpos K k (2 * k) (2 * k) 2 1 1) with (Hpos K 1 2 2 (2 ^ k) (1 ^ k) (1 ^ k)).
  2: { rewrite Hpos_scale. f_equal; lia. }
  rewrite fpow_1. assert (L : (1 : K) < 2 ^ k).
  { assert (Q : (1 : K) ^ k < 2 ^ k).
    { apply fpow_lt; [lia|apply f1_nonneg|]. apply (proj2 (flt_sub _ _)). replace ((2 : K) - 1) with (1 : K) by ring. apply f1_pos. }
    rewrite fpow_1 in Q. exact Q. }
  revert L. generalize ((2 : K) ^ k). intros x L Q. unfold Hpos in Q. revert Q. opened. intro Q.
  assert (Z0 : v * (2 * (x * ((x - 1) * (x - 1)) * (x * (x + 2)))) = 0).
  { match type of Q with ?l = ?r => transitivity (r - l); [ring|rewrite Q; ring] end. }
  assert (P1 : 0 < x - 1) by (apply (proj1 (flt_sub _ _)); exact L). assert (Px : 0 < x) by exact (flt_trans K _ _ _ (f1_pos K) L).
  assert (P2 : 0 < x + 2) by (apply fadd_pos; [exact Px|apply f2_pos]).
  assert (P : 0 < 2 * (x * ((x - 1) * (x - 1)) * (x * (x + 2)))).
  { pose proof (f2_pos K). repeat apply fmul_pos; assumption. }
  destruct (fmul_eq0 K _ _ Z0) as [Q1|Q1]; [contradiction|]. exact (flt_neq0 P Q1).
Qed.

(** ** Statements *)
Lemma hnmr_coeff_answer n m r (v A B C : K) :
  wf 3 (hnmr_coeff n m r v) /\
  peval (pt3 A B C) (hnmr_coeff n m r v) =
    if (0 <=? n)%Z then v * Hpos K (Z.to_nat n) m r A B C else v * Hneg K (Z.to_nat (- n)) m r A B C.
Proof.
  destruct (hnmr_coeff_spec K n m r v) as (W & _ & E). split; [exact W|]. rewrite E. unfold Hform. cbn [pt3]. destruct (0 <=? n)%Z; reflexivity.
Qed.
Lemma pnrms_expr_answer n r m s (v A B C : K) :
  defined (pt3 A B C) (pnrms_expr n r m s v) /\ ev (pt3 A B C) (pnrms_expr n r m s v) = peval (pt3 A B C) (pnrms_coeff n r m s v).
Proof.
  destruct (pnrms_expr_spec n r m s v) as [D V], (pnrms_coeff_spec K n r m s v) as (_ & _ & E).
  split; [apply D|]. rewrite V, E. reflexivity.
Qed.
Lemma pnrms_nonneg_answer n r m s (v A B C : K) : (r <= n)%nat -> (s <= m)%nat -> 0 <= v -> 0 <= A -> 0 <= B -> 0 <= C ->
  0 <= peval (pt3 A B C) (pnrms_coeff n r m s v).
Proof.
  intros H1 H2 Hv HA HB HC. destruct (pnrms_coeff_spec K n r m s v) as (_ & _ & E). rewrite E.
  apply fmul_nonneg; [exact Hv|]. apply Pform_nonneg; assumption.
Qed.
Lemma hnmr_expr_answer n m r (v A B C : K) : ~ wrong_args n m r ->
  (defined (pt3 A B C) (hnmr_expr n m r v) -> ev (pt3 A B C) (hnmr_expr n m r v) = peval (pt3 A B C) (hnmr_coeff n m r v)) /\
  (0 < A -> 0 < B -> 0 < C -> ~ (A = B /\ B = C) -> defined (pt3 A B C) (hnmr_expr n m r v)).
Proof.
  intro W. destruct (hnmr_expr_spec n m r v) as [D V], (hnmr_coeff_spec K n m r v) as (_ & _ & E). split.
  - intro Hd. rewrite (V W A B C Hd), E. reflexivity.
  - intros HA HB HC N. destruct (Nat.eq_dec r 0) as [-> |R]; [exact I|]. apply D. apply apart_pos; try assumption. lia.
Qed.
Lemma hnmr_expr_wrong n m r (v : K) : (2 <= n)%Z -> m = r -> Z.of_nat r = (2 * n)%Z -> v <> 0 ->
  defined (pt3 2 1 1) (hnmr_expr n m r v) /\ ev (pt3 2 1 1) (hnmr_expr n m r v) <> peval (pt3 2 1 1) (hnmr_coeff n m r v).
Proof.
  intros H1 H2 H3 V0. destruct (hnmr_coeff_spec K n m r v) as (_ & _ & E). rewrite E. cbn [pt3].
  apply (hnmr_wrong n m r v); [|exact V0]. repeat split; assumption.
Qed.
Lemma hnmr_nonneg_answer n m r (v A B C : K) : (n <= 0 \/ Z.of_nat m <= n + Z.of_nat r)%Z ->
  0 <= v -> 0 <= A -> 0 <= B -> 0 <= C -> 0 <= peval (pt3 A B C) (hnmr_coeff n m r v).
Proof.
  intros H Hv HA HB HC. destruct (hnmr_coeff_spec K n m r v) as (_ & _ & E). rewrite E. cbn [pt3].
  apply fmul_nonneg; [exact Hv|]. apply Hform_nonneg; assumption.
Qed.
Lemma hnmr_recursion_answer n m r (A B C : K) : (r <= n)%nat -> (2 * r <= m)%nat ->
  peval (pt3 A B C) (hnmr_coeff (Z.of_nat n) m r 1) =
  peval (pt3 A B C) (pnrms_coeff (2 * r) r n (m - r) 1) + A ^ r * B ^ r * C ^ r * peval (pt3 A B C) (hnmr_coeff (Z.of_nat (n - r)) (m - 2 * r) r 1).
Proof.
  intros H1 H2. destruct (hnmr_coeff_spec K (Z.of_nat n) m r 1) as (_ & _ & E1'), (hnmr_coeff_spec K (Z.of_nat (n - r)) (m - 2 * r) r 1) as (_ & _ & E2'),
    (pnrms_coeff_spec K (2 * r) r n (m - r) 1) as (_ & _ & E3). rewrite E1', E2', E3. cbn [pt3]. unfold Hform.
  destruct (Z.leb_spec 0 (Z.of_nat n)) as [_|Q]; [|lia]. destruct (Z.leb_spec 0 (Z.of_nat (n - r))) as [_|Q]; [|lia]. rewrite !Nat2Z.id.
  assert (Q : exists k l, n = (r + k)%nat /\ m = (r + r + l)%nat) by (exists (n - r)%nat, (m - 2 * r)%nat; lia). destruct Q as (k & l & -> & ->).
  replace (r + k - r)%nat with k by lia. replace (r + r + l - 2 * r)%nat with l by lia. replace (r + r + l - r)%nat with (r + l)%nat by lia.
  replace (2 * r)%nat with (r + r)%nat by lia. unfold Hpos, Pform, Ssum. rewrite !fpow_add. ring.
Qed.
End Facts.
