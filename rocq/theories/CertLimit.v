(** * From a certificate with denominators to a statement at every point

    A certificate only makes sense where its denominators do not vanish.
    This file proves, for every ordered field, that if it is defined at a
    single point of the non-negative orthant (or anywhere, for certificates
    that do not use the sign of the variables) then the polynomial it equals
    is non-negative everywhere.  The argument is the usual one by continuity,
    done with polynomials in one variable so that no completeness of the field
    is needed. *)
From Coq Require Import Bool List Arith Lia Ring Field.
From Verif Require Import OrdField Base Expr.
Import ListNotations.

Section Limit.
Variable K : OrdField.
Local Open Scope of_scope.
Add Field Kf : (F_field K).

Fixpoint horner (l : list K) (t : K) : K :=
  match l with [] => 0 | x :: l => x + t * horner l t end.

Definition fabs (x : K) : K := if 0 <=? x then x else - x.
Lemma fabs_nonneg x : 0 <= fabs x.
Proof. unfold fabs. destruct (0 <=? x) eqn:E; [exact E|]. apply fopp_nonneg. apply flt_le. exact E. Qed.
Lemma fabs_le x : - fabs x <= x /\ x <= fabs x.
Proof.
  unfold fabs. destruct (0 <=? x) eqn:E.
  - split; [|apply fle_refl]. apply (fle_trans K _ 0); [apply fopp_nonpos, E|exact E].
  - assert (x <= 0) by (apply flt_le; exact E).
    split; [replace (- - x) with x by ring; apply fle_refl|].
    apply (fle_trans K _ 0); [assumption|apply fopp_nonneg; assumption].
Qed.

(** A polynomial is bounded on [0, 1]. *)
Lemma horner_bound l : exists M, 0 <= M /\ forall t, 0 <= t -> t <= 1 -> - M <= horner l t /\ horner l t <= M.
Proof.
  induction l as [|x l IH]; cbn.
  - exists 0. split; [apply fle_refl|]. intros. split; [replace (- 0 : K) with (0:K) by ring|]; apply fle_refl.
  - destruct IH as (M & HM & IH). exists (fabs x + M). split; [apply fadd_nonneg; [apply fabs_nonneg|exact HM]|].
    intros t H0 H1. destruct (IH t H0 H1) as [L U]. destruct (fabs_le x) as [Lx Ux].
    assert (T : - M <= t * horner l t /\ t * horner l t <= M).
    { split; apply (proj2 (fle_sub _ _)).
      - replace (t * horner l t - - M) with (t * (horner l t - - M) + (1 - t) * M) by ring.
        apply fadd_nonneg; apply fmul_nonneg; try assumption; apply (proj1 (fle_sub _ _)); assumption.
      - replace (M - t * horner l t) with (t * (M - horner l t) + (1 - t) * M) by ring.
        apply fadd_nonneg; apply fmul_nonneg; try assumption; apply (proj1 (fle_sub _ _)); assumption. }
    destruct T as [T1 T2]. split.
    + replace (- (fabs x + M)) with (- fabs x + - M) by ring. apply fle_add; assumption.
    + apply fle_add; assumption.
Qed.

(** A polynomial that is negative at 0 stays negative just after it. *)
Lemma horner_neg_near l : horner l 0 < 0 ->
  exists d, 0 < d /\ d <= 1 /\ forall t, 0 < t -> t <= d -> horner l t < 0.
Proof.
  destruct l as [|x l]; cbn; [intro H; exfalso; exact (flt_irrefl K 0 H)|].
  intro H. replace (x + 0 * horner l 0) with x in H by ring.
  destruct (horner_bound l) as (M & HM & B).
  assert (P : 0 < - x) by (apply (proj1 (flt_sub _ _)) in H; replace (0 - x) with (- x) in H by ring; exact H).
  assert (Q : 0 < M + - x + 1) by (apply fadd_pos_r; [fpos; apply flt_le; assumption|apply f1_pos]).
  exists ((- x) / (M + - x + 1)). split; [fpos|split].
  - apply (proj2 (fle_sub _ _)).
    replace (1 - (- x) / (M + - x + 1)) with ((M + 1) / (M + - x + 1)) by (field; apply flt_neq0, Q).
    apply fdiv_nonneg; [fpos|exact Q].
  - intros t T0 T1. apply flt_not_le. intro C.
    assert (t1 : t <= 1).
    { apply (fle_trans K _ _ _ T1). apply (proj2 (fle_sub _ _)).
      replace (1 - (- x) / (M + - x + 1)) with ((M + 1) / (M + - x + 1)) by (field; apply flt_neq0, Q).
      apply fdiv_nonneg; [fpos|exact Q]. }
    destruct (B t (flt_le T0) t1) as [_ U].
    assert (X : t * horner l t <= (- x) / (M + - x + 1) * M).
    { apply (fle_trans K _ (t * M)).
      - apply fmul_le_compat_l; [apply flt_le, T0|exact U].
      - replace (t * M) with (M * t) by ring. replace ((- x) / (M + - x + 1) * M) with (M * ((- x) / (M + - x + 1))) by ring.
        apply fmul_le_compat_l; assumption. }
    assert (Y : 0 <= x + (- x) / (M + - x + 1) * M).
    { apply (fle_trans K _ _ _ C). apply fle_add; [apply fle_refl|exact X]. }
    replace (x + (- x) / (M + - x + 1) * M) with (- ((- x) * (- x + 1) / (M + - x + 1))) in Y by (field; apply flt_neq0, Q).
    apply fopp_nonneg_inv in Y. revert Y. apply flt_not_le.
    assert (0 < - x + 1) by (apply fadd_pos; [exact P|apply f1_pos]). fpos.
Qed.

(** A polynomial that is non-zero somewhere is non-zero just after 0. *)
Lemma horner_nz_near l : (exists t, horner l t <> 0) ->
  exists d, 0 < d /\ d <= 1 /\ forall t, 0 < t -> t <= d -> horner l t <> 0.
Proof.
  induction l as [|x l IH]; intros [s Hs]; cbn in Hs; [congruence|].
  destruct (feq_dec K x 0) as [->|Hx].
  - destruct IH as (d & D0 & D1 & D).
    { exists s. intro E. apply Hs. rewrite E. ring. }
    exists d. split; [exact D0|split; [exact D1|]]. intros t T0 T1. cbn.
    replace (0 + t * horner l t) with (t * horner l t) by ring. apply fmul_neq0; [apply flt_neq0, T0|exact (D t T0 T1)].
  - destruct (fle_total K x 0) as [L|L].
    + destruct (horner_neg_near (x :: l)) as (d & D0 & D1 & D).
      { cbn. replace (x + 0 * horner l 0) with x by ring. apply flt_le_neq. split; assumption. }
      exists d. split; [exact D0|split; [exact D1|]]. intros t T0 T1 E. specialize (D t T0 T1). rewrite E in D.
      exact (flt_irrefl K 0 D).
    + destruct (horner_neg_near (map fopp (x :: l))) as (d & D0 & D1 & D).
      { cbn. replace (- x + 0 * horner (map fopp l) 0) with (- x) by ring.
        apply flt_le_neq. split; [apply fopp_nonpos, L|]. intro E. apply Hx.
        replace x with (- - x) by ring. rewrite E. ring. }
      exists d. split; [exact D0|split; [exact D1|]]. intros t T0 T1 E. specialize (D t T0 T1).
      assert (N : forall l', horner (map fopp l') t = - horner l' t).
      { induction l' as [|y l' IHl]; cbn; [ring|]. rewrite IHl. ring. }
      rewrite N, E in D. replace (- 0 : K) with (0 : K) in D by ring. exact (flt_irrefl K 0 D).
Qed.

(** Functions that are polynomials in [t]. *)
Definition is_poly (f : K -> K) : Prop := exists l, forall t, f t = horner l t.
Fixpoint hadd (l1 l2 : list K) : list K :=
  match l1, l2 with
  | [], l | l, [] => l
  | x :: l1, y :: l2 => (x + y) :: hadd l1 l2
  end.
Lemma horner_add l1 : forall l2 t, horner (hadd l1 l2) t = horner l1 t + horner l2 t.
Proof.
  induction l1 as [|x l1 IH]; intros [|y l2] t; cbn; try ring. rewrite IH. ring.
Qed.
Lemma horner_scale k l t : horner (map (fmul k) l) t = k * horner l t.
Proof. induction l as [|x l IH]; cbn; [ring|]. rewrite IH. ring. Qed.
Fixpoint hmul (l1 l2 : list K) : list K :=
  match l1 with [] => [] | x :: l1 => hadd (map (fmul x) l2) (0 :: hmul l1 l2) end.
Lemma horner_mul l1 l2 t : horner (hmul l1 l2) t = horner l1 t * horner l2 t.
Proof.
  induction l1 as [|x l1 IH]; cbn [hmul horner]; [ring|].
  rewrite horner_add, horner_scale. cbn [horner]. rewrite IH. ring.
Qed.
Lemma poly_const k : is_poly (fun _ => k).
Proof. exists [k]. intro. cbn. ring. Qed.
Lemma poly_line x y : is_poly (fun t => x + t * y).
Proof. exists [x; y]. intro. cbn. ring. Qed.
Lemma poly_add f g : is_poly f -> is_poly g -> is_poly (fun t => f t + g t).
Proof. intros [l1 H1] [l2 H2]. exists (hadd l1 l2). intro. rewrite horner_add, H1, H2. reflexivity. Qed.
Lemma poly_mul f g : is_poly f -> is_poly g -> is_poly (fun t => f t * g t).
Proof. intros [l1 H1] [l2 H2]. exists (hmul l1 l2). intro. rewrite horner_mul, H1, H2. reflexivity. Qed.
Lemma poly_ext f g : (forall t, f t = g t) -> is_poly f -> is_poly g.
Proof. intros E [l H]. exists l. intro. rewrite <- E. apply H. Qed.
Lemma poly_sub f g : is_poly f -> is_poly g -> is_poly (fun t => f t - g t).
Proof.
  intros Hf Hg. apply (poly_ext (fun t => f t + - (1) * g t)); [intro; ring|].
  apply poly_add; [exact Hf|]. apply poly_mul; [apply poly_const|exact Hg].
Qed.
Lemma poly_pow f n : is_poly f -> is_poly (fun t => f t ^ n).
Proof.
  intro H. induction n as [|n IH]; cbn; [apply poly_const|]. apply poly_mul; assumption.
Qed.
Lemma poly_fsum {A} (f : A -> K -> K) l : (forall a, In a l -> is_poly (f a)) ->
  is_poly (fun t => fsum (map (fun a => f a t) l)).
Proof.
  induction l as [|a l IH]; intro H; cbn; [apply poly_const|].
  apply poly_add; [apply H; left; reflexivity|]. apply IH. intros; apply H; right; assumption.
Qed.

(** The closing argument. *)
Lemma nonneg_at_0 (f g : K -> K) : is_poly f -> is_poly g -> (exists t, g t <> 0) ->
  (forall t, 0 < t -> t <= 1 -> g t <> 0 -> 0 <= f t) -> 0 <= f 0.
Proof.
  intros [lf Hf] [lg Hg] [s Hs] H.
  destruct (horner_nz_near lg) as (d & D0 & D1 & D); [exists s; rewrite <- Hg; exact Hs|].
  apply fnot_lt_le. intro N. rewrite Hf in N.
  destruct (horner_neg_near lf N) as (e & E0 & E1 & E).
  set (t := if d <=? e then d else e).
  assert (T : 0 < t /\ t <= d /\ t <= e /\ t <= 1).
  { unfold t. destruct (d <=? e) eqn:C.
    - repeat split; try assumption. apply fle_refl.
    - repeat split; try assumption; [apply flt_le; exact C|apply fle_refl]. }
  destruct T as (T0 & T1 & T2 & T3).
  specialize (H t T0 T3). rewrite Hf, Hg in H. specialize (H (D t T0 T1)).
  exact (proj1 (flt_not_le K _ _) (E t T0 T2) H).
Qed.

(** ** Numerator and denominator of an expression *)
Implicit Types e : ex K.
Fixpoint enum_den e : ex K * ex K :=
  match e with
  | EC k => (EC k, EC 1)
  | EX i => (EX i, EC 1)
  | EAdd x y => let (n1, d1) := enum_den x in let (n2, d2) := enum_den y in (n1 * d2 + n2 * d1, d1 * d2)%E
  | ESub x y => let (n1, d1) := enum_den x in let (n2, d2) := enum_den y in (n1 * d2 - n2 * d1, d1 * d2)%E
  | EMul x y => let (n1, d1) := enum_den x in let (n2, d2) := enum_den y in (n1 * n2, d1 * d2)%E
  | EDiv x y => let (n1, d1) := enum_den x in let (n2, d2) := enum_den y in (n1 * d2 * d2, d1 * n2 * d2)%E
  | EPow x n => let (n1, d1) := enum_den x in (n1 ^ n, d1 ^ n)%E
  end.
Lemma enum_den_spec env e :
  (defined env e -> ev env (snd (enum_den e)) <> 0 /\ ev env e * ev env (snd (enum_den e)) = ev env (fst (enum_den e))).
Proof.
  induction e; cbn [defined enum_den].
  - intros _. cbn. split; [apply fneq10|ring].
  - intros _. cbn. split; [apply fneq10|ring].
  - destruct (enum_den e1) as [n1 d1], (enum_den e2) as [n2 d2]. cbn [fst snd ev] in *.
    intros [D1 D2]. destruct (IHe1 D1) as [N1 E1], (IHe2 D2) as [N2 E2].
    split; [apply fmul_neq0; assumption|]. rewrite <- E1, <- E2. ring.
  - destruct (enum_den e1) as [n1 d1], (enum_den e2) as [n2 d2]. cbn [fst snd ev] in *.
    intros [D1 D2]. destruct (IHe1 D1) as [N1 E1], (IHe2 D2) as [N2 E2].
    split; [apply fmul_neq0; assumption|]. rewrite <- E1, <- E2. ring.
  - destruct (enum_den e1) as [n1 d1], (enum_den e2) as [n2 d2]. cbn [fst snd ev] in *.
    intros [D1 D2]. destruct (IHe1 D1) as [N1 E1], (IHe2 D2) as [N2 E2].
    split; [apply fmul_neq0; assumption|]. rewrite <- E1, <- E2. ring.
  - destruct (enum_den e1) as [n1 d1], (enum_den e2) as [n2 d2]. cbn [fst snd ev] in *.
    intros (D1 & D2 & NZ). destruct (IHe1 D1) as [N1 E1], (IHe2 D2) as [N2 E2].
    split.
    + apply fmul_neq0; [apply fmul_neq0; [assumption|]|assumption]. rewrite <- E2. apply fmul_neq0; assumption.
    + rewrite <- E1, <- E2. field. exact NZ.
  - destruct (enum_den e) as [n1 d1]. cbn [fst snd ev] in *.
    intros D1. destruct (IHe D1) as [N1 E1]. split; [apply fpow_neq0, N1|].
    rewrite <- E1, fpow_mul_l. reflexivity.
Qed.
Lemma fpow_nz_inv (x : K) n : x ^ S n <> 0 -> x <> 0.
Proof. intros H E. apply H. rewrite E. apply fpow_0. discriminate. Qed.
Lemma fmul_nz_inv (x y : K) : x * y <> 0 -> x <> 0 /\ y <> 0.
Proof. intro H. split; intro E; apply H; rewrite E; ring. Qed.

(** Denominators of powers with exponent 0 are not seen by [enum_den]; the
    product of all denominators is. *)
Fixpoint dens e : list (ex K) :=
  match e with
  | EC _ | EX _ => []
  | EAdd x y | ESub x y | EMul x y => dens x ++ dens y
  | EDiv x y => dens x ++ dens y ++ [fst (enum_den y); snd (enum_den y)]
  | EPow x _ => dens x
  end.
Lemma defined_dens env e : defined env e <-> (forall d, In d (dens e) -> ev env d <> 0).
Proof.
  induction e; cbn [defined dens].
  1-2: split; [intros _ d []|tauto].
  1-3: rewrite IHe1, IHe2; split;
    [intros [H1 H2] d Hd; apply in_app_or in Hd; destruct Hd; auto
    |intro H; split; intros d Hd; apply H, in_or_app; auto].
  - rewrite IHe1. split.
    + intros (H1 & D2 & NZ) d Hd. destruct (enum_den_spec env e2 D2) as [S1 S2].
      apply in_app_or in Hd. destruct Hd as [Hd|Hd]; [auto|].
      apply in_app_or in Hd. destruct Hd as [Hd|Hd]; [apply (proj1 IHe2 D2 d Hd)|].
      destruct Hd as [<-|[<-|[]]]; [|exact S1]. rewrite <- S2. apply fmul_neq0; assumption.
    + intro H. split; [intros d Hd; apply H, in_or_app; auto|].
      assert (D2 : defined env e2) by (apply IHe2; intros d Hd; apply H, in_or_app; right; apply in_or_app; auto).
      split; [exact D2|]. destruct (enum_den_spec env e2 D2) as [S1 S2].
      intro E. rewrite E in S2.
      apply (H (fst (enum_den e2))); [apply in_or_app; right; apply in_or_app; right; left; reflexivity|].
      rewrite <- S2. ring.
  - exact IHe.
Qed.

Fixpoint divfree e : bool :=
  match e with
  | EC _ | EX _ => true
  | EAdd x y | ESub x y | EMul x y => divfree x && divfree y
  | EDiv _ _ => false
  | EPow x _ => divfree x
  end.
Lemma divfree_enum_den e : divfree (fst (enum_den e)) = true /\ divfree (snd (enum_den e)) = true.
Proof.
  induction e; cbn [enum_den]; try (split; reflexivity);
  try (destruct (enum_den e1) as [n1 d1], (enum_den e2) as [n2 d2]; cbn in *;
       destruct IHe1 as [-> ->], IHe2 as [-> ->]; split; reflexivity).
  destruct (enum_den e) as [n1 d1]. cbn in *. exact IHe.
Qed.
Lemma divfree_dens e d : In d (dens e) -> divfree d = true.
Proof.
  induction e; cbn; try tauto; try (intro H; apply in_app_or in H; tauto).
  intro H. apply in_app_or in H. destruct H as [H|H]; [auto|]. apply in_app_or in H. destruct H as [H|H]; [auto|].
  destruct H as [<-|[<-|[]]]; apply divfree_enum_den.
Qed.

(** Along a line, a division-free expression is a polynomial. *)
Lemma divfree_poly e (x y : nat -> K) : divfree e = true ->
  is_poly (fun t => ev (fun i => x i + t * y i) e).
Proof.
  induction e; cbn; intro H; try (apply andb_prop in H; destruct H).
  - apply poly_const.
  - apply poly_line.
  - apply poly_add; auto.
  - apply poly_sub; auto.
  - apply poly_mul; auto.
  - discriminate.
  - apply poly_pow; auto.
Qed.

Lemma fprod_nz (l : list K) : fprod l <> 0 -> forall x, In x l -> x <> 0.
Proof. intros H x Hx E. subst. apply H. apply fprod_eq0, Hx. Qed.
Lemma poly_fprod {A} (f : A -> K -> K) l : (forall a, In a l -> is_poly (f a)) ->
  is_poly (fun t => fprod (map (fun a => f a t) l)).
Proof.
  induction l as [|a l IH]; intro H; cbn; [apply poly_const|].
  apply poly_mul; [apply H; left; reflexivity|]. apply IH. intros; apply H; right; assumption.
Qed.

Lemma fprod_map_nz {A} (f : A -> K) l : (forall a, In a l -> f a <> 0) -> fprod (map f l) <> 0.
Proof.
  intro H. apply fprod_neq0. intros x Hx. apply in_map_iff in Hx. destruct Hx as (a & <- & Ha). apply H, Ha.
Qed.

Lemma ev_ext env env' e : (forall i, env i = env' i) -> ev env e = ev env' e.
Proof. intro H. induction e; cbn; congruence. Qed.
Lemma defined_ext env env' e : (forall i, env i = env' i) -> defined env e -> defined env' e.
Proof.
  intro H. induction e; cbn; try tauto. rewrite (ev_ext env env' e2 H). tauto.
Qed.

(** The value of a function at every point from its value where [e] is
    defined, on the segment to a point where [e] is defined. *)
Definition seg (P P0 : nat -> K) (t : K) (i : nat) : K := P i + t * (P0 i - P i).
Lemma nonneg_where_defined e (F : (nat -> K) -> K) (P0 : nat -> K) (P : nat -> K) :
  (forall x y, is_poly (fun t => F (fun i => x i + t * y i))) ->
  (forall x y, (forall i, x i = y i) -> F x = F y) ->
  defined P0 e ->
  (forall t, 0 < t -> t <= 1 -> defined (seg P P0 t) e -> 0 <= F (seg P P0 t)) ->
  0 <= F P.
Proof.
  intros HF Hext H0 H.
  replace (F P) with (F (seg P P0 0)) by (apply Hext; intro; unfold seg; ring).
  apply (nonneg_at_0 (fun t => F (seg P P0 t))
          (fun t => fprod (map (fun d => ev (seg P P0 t) d) (dens e)))).
  - apply (HF P (fun i => P0 i - P i)).
  - apply poly_fprod. intros d Hd. apply (divfree_poly d P (fun i => P0 i - P i)). exact (divfree_dens e d Hd).
  - exists 1. apply fprod_map_nz. intros d Hd.
    apply (proj1 (defined_dens _ e)); [|exact Hd]. revert H0. apply defined_ext. intro i. unfold seg. ring.
  - intros t T0 T1 Hnz. apply (H t T0 T1).
    apply defined_dens. intros d Hd. exact (fprod_nz _ Hnz _ (in_map _ _ _ Hd)).
Qed.
Lemma seg_nonneg P P0 t i : 0 < t -> t <= 1 -> 0 <= P i -> 0 <= P0 i -> 0 <= seg P P0 t i.
Proof.
  intros T0 T1 H H0. unfold seg. replace (P i + t * (P0 i - P i)) with ((1 - t) * P i + t * P0 i) by ring.
  apply (proj1 (fle_sub _ _)) in T1. apply flt_le in T0. fpos.
Qed.

(** ** Ternary polynomials *)
Lemma tri_poly_poly d cf (x y : nat -> K) :
  is_poly (fun t => tri_poly d cf (x 0%nat + t * y 0%nat) (x 1%nat + t * y 1%nat) (x 2%nat + t * y 2%nat)).
Proof.
  unfold tri_poly. apply (poly_fsum (fun i t => fsum _)). intros i _.
  apply (poly_fsum (fun j t => _ * _)). intros j _.
  apply poly_mul; [apply poly_const|].
  apply poly_mul; [apply poly_mul|]; apply poly_pow, poly_line.
Qed.

Lemma pt3_nonneg (A B C : K) : 0 <= A -> 0 <= B -> 0 <= C -> forall i, 0 <= pt3 A B C i.
Proof. intros HA HB HC [|[|i]]; assumption. Qed.

(** A polynomial equal to [e] where [e] is defined, with [e] non-negative on
    the orthant, is non-negative on the whole orthant. *)
Lemma cert_orthant d cf e (A0 B0 C0 : K) :
  0 <= A0 -> 0 <= B0 -> 0 <= C0 -> defined (pt3 A0 B0 C0) e ->
  (forall A B C, defined (pt3 A B C) e -> ev (pt3 A B C) e = tri_poly d cf A B C) ->
  (forall A B C, 0 <= A -> 0 <= B -> 0 <= C -> defined (pt3 A B C) e -> 0 <= ev (pt3 A B C) e) ->
  forall A B C, 0 <= A -> 0 <= B -> 0 <= C -> 0 <= tri_poly d cf A B C.
Proof.
  intros H1 H2 H3 H0 Hv Hn A B C HA HB HC.
  apply (nonneg_where_defined e (fun x => tri_poly d cf (x 0%nat) (x 1%nat) (x 2%nat)) (pt3 A0 B0 C0) (pt3 A B C)).
  - intros x y. apply tri_poly_poly.
  - intros x y E. rewrite !E. reflexivity.
  - exact H0.
  - intros t T0 T1 Hd.
    set (X := seg (pt3 A B C) (pt3 A0 B0 C0) t 0) in *.
    set (Y := seg (pt3 A B C) (pt3 A0 B0 C0) t 1) in *.
    set (Z := seg (pt3 A B C) (pt3 A0 B0 C0) t 2) in *.
    assert (W : forall i, seg (pt3 A B C) (pt3 A0 B0 C0) t i = pt3 X Y Z i) by (intros [|[|[|i]]]; reflexivity).
    apply (defined_ext _ _ _ W) in Hd.
    rewrite <- (Hv X Y Z Hd). apply Hn; [..|exact Hd]; apply seg_nonneg; assumption.
Qed.
(** The same without signs. *)
Lemma cert_everywhere d cf e (A0 B0 C0 : K) : defined (pt3 A0 B0 C0) e ->
  (forall A B C, defined (pt3 A B C) e -> ev (pt3 A B C) e = tri_poly d cf A B C) ->
  (forall A B C, defined (pt3 A B C) e -> 0 <= ev (pt3 A B C) e) ->
  forall A B C, 0 <= tri_poly d cf A B C.
Proof.
  intros H0 Hv Hn A B C.
  apply (nonneg_where_defined e (fun x => tri_poly d cf (x 0%nat) (x 1%nat) (x 2%nat)) (pt3 A0 B0 C0) (pt3 A B C)).
  - intros x y. apply tri_poly_poly.
  - intros x y E. rewrite !E. reflexivity.
  - exact H0.
  - intros t T0 T1 Hd.
    set (X := seg (pt3 A B C) (pt3 A0 B0 C0) t 0) in *.
    set (Y := seg (pt3 A B C) (pt3 A0 B0 C0) t 1) in *.
    set (Z := seg (pt3 A B C) (pt3 A0 B0 C0) t 2) in *.
    assert (W : forall i, seg (pt3 A B C) (pt3 A0 B0 C0) t i = pt3 X Y Z i) by (intros [|[|[|i]]]; reflexivity).
    apply (defined_ext _ _ _ W) in Hd.
    rewrite <- (Hv X Y Z Hd). apply Hn. exact Hd.
Qed.
End Limit.
Arguments cert_orthant {K}. Arguments cert_everywhere {K}.
