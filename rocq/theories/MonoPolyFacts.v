(** * Facts about poly_as_dm and rpa_polyopt *)
From Coq Require Import Bool List Arith Lia Ring Field.
From Verif Require Import OrdField Base Perm Poly PolyOps MonoOpt MonoOptFacts MonoPoly.
Import ListNotations.

Section Facts.
Variable K : OrdField.
Local Open Scope of_scope.
Add Field Kf : (F_field K).
Implicit Types x y a b : list K.
Implicit Types p : poly K.

(** ** Polynomials with non-negative coefficients increase on the orthant *)

Lemma fmul_le_both (u u' v v' : K) : 0 <= u -> u <= u' -> 0 <= v -> v <= v' -> u * v <= u' * v'.
Proof.
  intros A B C D. apply (proj1 (fle_sub _ _)) in B. apply (proj1 (fle_sub _ _)) in D. apply (proj2 (fle_sub _ _)).
  replace (u' * v' - u * v) with ((u' - u) * (v' - v) + (u' - u) * v + u * (v' - v)) by ring.
  repeat apply fadd_nonneg; apply fmul_nonneg; assumption.
Qed.
Lemma fpow_le (u v : K) e : 0 <= u -> u <= v -> u ^ e <= v ^ e.
Proof.
  intros A B. induction e as [|e IH]; [apply fle_refl|]. cbn [fpow].
  apply fmul_le_both; try assumption. apply fpow_nonneg. exact A.
Qed.
Lemma meval_le (x y : nat -> K) m : (forall i, 0 <= x i) -> (forall i, x i <= y i) ->
  0 <= meval x m /\ meval x m <= meval y m.
Proof.
  revert x y. induction m as [|e m IH]; intros x y A B.
  - rewrite !meval_nil. split; [apply f1_nonneg|apply fle_refl].
  - rewrite !meval_cons. destruct (IH (fun i => x (S i)) (fun i => y (S i)) (fun i => A (S i)) (fun i => B (S i))) as [P Q].
    split; [apply fmul_nonneg; [apply fpow_nonneg; apply A|exact P]|].
    apply fmul_le_both; [apply fpow_nonneg; apply A|apply fpow_le; [apply A|apply B]|exact P|exact Q].
Qed.
Definition nonneg_coeffs p : Prop := forall t, In t p -> 0 <= snd t.
Lemma peval_le (x y : nat -> K) p : nonneg_coeffs p -> (forall i, 0 <= x i) -> (forall i, x i <= y i) ->
  peval x p <= peval y p.
Proof.
  intros N A B. induction p as [|[m c] p IH]; [apply fle_refl|]. rewrite !peval_cons. apply fle_add.
  - destruct (meval_le x y m A B) as [P Q]. apply (proj1 (fle_sub _ _)) in Q. apply (proj2 (fle_sub _ _)).
    replace (c * meval y m - c * meval x m) with (c * (meval y m - meval x m)) by ring.
    apply fmul_nonneg; [exact (N (m, c) (or_introl eq_refl))|exact Q].
  - apply IH. intros t T. apply N. right. exact T.
Qed.

(** ** The decomposition *)
Definition vadd x y : list K := map (fun uv => fst uv + snd uv) (combine x y).
Lemma vadd_get x y i : length x = length y -> vget0 (vadd x y) i = vget0 x i + vget0 y i.
Proof.
  unfold vget0, vadd. revert y i. induction x as [|u x IH]; intros [|v y] i E; cbn in E; try lia.
  - destruct i; cbn; ring.
  - destruct i as [|i]; [reflexivity|]. cbn [combine map nth]. apply IH. lia.
Qed.

Variable shift : poly K -> list K -> poly K.
(** The contract of [sp.Poly.shift_list]. *)
Definition shift_ok : Prop := forall p s x, length x = length s -> pat (shift p s) x = pat p (vadd x s).

Lemma pat_neg p x : pat (pneg p) x = - pat p x.
Proof.
  unfold pat. induction p as [|[m c] p IH]; [cbn; ring|]. cbn [pneg map fst snd]. rewrite !peval_cons.
  unfold pneg in IH. rewrite IH. ring.
Qed.
Lemma pat_split p x : pat (filter (fun t => fleb 0 (snd t)) p) x - pat (pneg (filter (fun t => fltb (snd t) 0) p)) x = pat p x.
Proof.
  rewrite pat_neg. unfold pat. induction p as [|[m c] p IH]; [cbn; ring|]. cbn [filter snd].
  rewrite (peval_cons _ _ m c p), <- IH. unfold fltb. destruct (fleb 0 c); cbn [negb]; rewrite peval_cons; ring.
Qed.

Lemma dm_sub p a x : shift_ok -> length x = length a ->
  pat (fst (poly_as_dm shift p (Some a))) x - pat (snd (poly_as_dm shift p (Some a))) x = pat p x.
Proof.
  intros Sh Lx. unfold poly_as_dm. cbn [option_map fst snd]. set (s := map (fun ai => fmin ai 0) a).
  assert (Ls : length s = length a) by (apply map_length).
  assert (Ln : length x = length (map (fun v => - v) s)) by (rewrite map_length; congruence).
  rewrite !Sh by exact Ln. rewrite pat_split. rewrite Sh.
  - unfold pat. f_equal. clear Sh. unfold vadd. assert (E : map (fun uv => fst uv + snd uv) (combine (map (fun uv => fst uv + snd uv) (combine x (map (fun v => - v) s))) s) = x).
    { rewrite map_length in Ln. clear Lx. revert Ln. clear Ls. generalize s. clear s. intro s. revert x.
      induction s as [|v s IH]; intros [|u x] E; cbn in E; try lia; [reflexivity|]. cbn [map combine fst snd].
      f_equal; [ring|]. apply IH. lia. }
    rewrite E. reflexivity.
  - unfold vadd. rewrite map_length, combine_length, map_length. rewrite map_length in Ln. lia.
Qed.
Lemma dm_sub_none p x : pat (fst (poly_as_dm shift p None)) x - pat (snd (poly_as_dm shift p None)) x = pat p x.
Proof. unfold poly_as_dm. cbn [option_map fst snd]. apply pat_split. Qed.

Lemma dm_coeffs p : nonneg_coeffs (filter (fun t => fleb 0 (snd t)) p) /\
  nonneg_coeffs (pneg (filter (fun t => fltb (snd t) 0) p)).
Proof.
  split; intros t H.
  - apply filter_In in H. apply fleb_le. exact (proj2 H).
  - unfold pneg in H. apply in_map_iff in H. destruct H as (u & <- & H). apply filter_In in H. destruct H as [_ H].
    apply fltb_lt in H. cbn [snd]. apply fopp_nonneg. exact (flt_le H).
Qed.
Lemma fmin_le (u v : K) : fmin u v <= u /\ fmin u v <= v.
Proof. apply fmin_ge. apply fle_refl. Qed.

(** Both parts increase above [min(a, 0)], so on every box above [a]. *)
Lemma dm_inc p a x y : shift_ok -> length x = length a -> length y = length a ->
  (forall i, (i < length a)%nat -> fmin (vget0 a i) 0 <= vget0 x i) -> ple K x y ->
  pat (fst (poly_as_dm shift p (Some a))) x <= pat (fst (poly_as_dm shift p (Some a))) y /\
  pat (snd (poly_as_dm shift p (Some a))) x <= pat (snd (poly_as_dm shift p (Some a))) y.
Proof.
  intros Sh Lx Ly A B. unfold poly_as_dm. cbn [option_map fst snd]. set (s := map (fun ai => fmin ai 0) a).
  assert (Ls : length s = length a) by (apply map_length).
  rewrite !Sh by (rewrite map_length; congruence).
  set (ns := map (fun v => - v) s).
  assert (Gn : forall i, vget0 ns i = - vget0 s i).
  { intro i. unfold vget0, ns. replace (0 : K) with (- (0) : K) at 1 by ring. apply (map_nth (fun v => - v)). }
  assert (Gs : forall i, (i < length a)%nat -> vget0 s i = fmin (vget0 a i) 0).
  { intros i Hi. unfold vget0, s. rewrite (nth_indep _ 0 (fmin 0 0)) by (rewrite map_length; exact Hi).
    apply (map_nth (fun ai => fmin ai 0)). }
  assert (P : forall i, 0 <= vget0 (vadd x ns) i).
  { intro i. rewrite vadd_get by (unfold ns; rewrite map_length; congruence). rewrite Gn.
    destruct (Nat.lt_ge_cases i (length a)) as [Hi|Hi].
    - replace (vget0 x i + - vget0 s i) with (vget0 x i - vget0 s i) by ring. apply (proj1 (fle_sub _ _)).
      rewrite (Gs i Hi). apply A. exact Hi.
    - rewrite (vget_out K x), (vget_out K s) by lia. replace (0 + - (0)) with (0 : K) by ring. apply fle_refl. }
  assert (Q : forall i, vget0 (vadd x ns) i <= vget0 (vadd y ns) i).
  { intro i. rewrite !vadd_get by (unfold ns; rewrite map_length; congruence). apply fle_add; [apply B|apply fle_refl]. }
  split; apply peval_le; try assumption; apply dm_coeffs.
Qed.

Lemma dm_increasing p a0 a b : shift_ok -> length a0 = length a -> ple K a0 a ->
  increasing K a b (pat (fst (poly_as_dm shift p (Some a0)))) /\
  increasing K a b (pat (snd (poly_as_dm shift p (Some a0)))).
Proof.
  intros Sh L P. split; intros x y (Lx & A & _) (Ly & _) R;
  apply (dm_inc p a0 x y Sh); try congruence;
  intros i Hi; apply (fle_trans K _ (vget0 a0 i)); first [apply fmin_le|exact (fle_trans K _ _ _ (P i) (A i))].
Qed.

(** ** The constraints *)
(** A polynomial as sympy keeps it: one term per monomial, no zero coefficient. *)
Definition wfp n p : Prop := wf n p /\ forall t, In t p -> snd t <> 0.

Lemma coeff_linear n p x : (0 < n)%nat -> wf n p -> length x = n -> deg0 p = 1%nat -> only_first p = true ->
  pat p x = coef p (1%nat :: zeros (n - 1)) * vget0 x 0 + coef p (zeros n).
Proof.
  intros Hn [W1 W2] Lx D O. unfold pat.
  assert (Z : forall k (e : nat -> K), meval e (zeros k) = 1).
  { intro k. induction k as [|k IH]; intro e; [reflexivity|]. unfold zeros in *. cbn [repeat]. rewrite meval_cons, IH. cbn [fpow]. ring. }
  rewrite (peval_over K _ p [1%nat :: zeros (n - 1); zeros n] W1).
  - cbn [map fsum]. rewrite meval_cons, !Z. cbn [fpow]. ring.
  - constructor; [|constructor; [intros []|constructor]]. intros [E|[]].
    unfold zeros in E. destruct n as [|n]; [lia|]. cbn [repeat] in E. discriminate E.
  - intros m Hm. unfold only_first in O. rewrite forallb_forall in O. unfold keys in Hm.
    pose proof (W2 m Hm) as Lm.
    apply in_map_iff in Hm. destruct Hm as (t & <- & Ht). specialize (O t Ht). rewrite forallb_forall in O.
    assert (D0 : (nth 0 (fst t) 0 <= 1)%nat).
    { unfold deg0 in D. assert (X : (nth 0 (fst t) 0 <= list_max (map (fun t => nth 0 (fst t) 0%nat) p))%nat).
      { apply (proj1 (Forall_forall _ _) (proj1 (list_max_le _ _) (le_n _))). apply in_map_iff. exists t. auto. }
      rewrite D in X. exact X. }
    destruct (fst t) as [|e m]; [cbn in Lm; lia|]. cbn [tl nth length] in *.
    assert (Em : m = zeros (n - 1)).
    { unfold zeros. replace (n - 1)%nat with (length m) by lia. clear -O. induction m as [|u m IH]; [reflexivity|]. cbn [length repeat].
      rewrite (proj1 (Nat.eqb_eq u 0) (O u (or_introl eq_refl))). f_equal. apply IH. intros v V. apply O. right. exact V. }
    rewrite Em. destruct e as [|[|e]]; [right; left|left; reflexivity|lia].
    unfold zeros. destruct n as [|n]; [lia|]. cbn [repeat]. rewrite Nat.sub_1_r. reflexivity.
Qed.

Lemma dget_of_in p t : NoDup (keys p) -> In t p -> coef p (fst t) = snd t.
Proof.
  induction p as [|[k c] p IH]; intros N I; [destruct I|]. cbn in N. inversion_clear N as [|? ? N1 N2].
  unfold coef. cbn [dget]. destruct (meqb_spec (fst t) k) as [E|Ne].
  - destruct I as [<-|I]; [reflexivity|]. exfalso. apply N1. rewrite <- E. apply in_map. exact I.
  - destruct I as [<-|I]; [contradiction Ne; reflexivity|]. exact (IH N2 I).
Qed.
Lemma dset_other p t m (v : K) : In t p -> fst t <> m -> In t (dset p m v).
Proof.
  induction p as [|[k c] p IH]; intros I Ne; [destruct I|]. cbn [dset]. destruct (meqb_spec m k) as [E|Nk].
  - destruct I as [<-|I]; [contradiction Ne; symmetry; exact E|right; exact I].
  - destruct I as [<-|I]; [left; reflexivity|right; exact (IH I Ne)].
Qed.
(** A polynomial of degree 1 in the first generator alone has a coefficient there. *)
Lemma linear_lead n p : (0 < n)%nat -> wf n p -> (forall t, In t p -> snd t <> 0) ->
  deg0 p = 1%nat -> only_first p = true -> coef p (1%nat :: zeros (n - 1)) <> 0.
Proof.
  intros Hn [W1 W2] Z D O.
  assert (X : exists t, In t p /\ nth 0 (fst t) 0%nat = 1%nat).
  { destruct (existsb (fun t : list nat * K => Nat.eqb (nth 0 (fst t) 0%nat) 1) p) eqn:E.
    - apply existsb_exists in E. destruct E as (t & I & E). exists t. split; [exact I|]. apply Nat.eqb_eq. exact E.
    - exfalso. assert (Y : (deg0 p <= 0)%nat); [|lia]. unfold deg0. apply list_max_le. apply Forall_forall. intros e I.
      assert (Le : (e <= 1)%nat).
      { rewrite <- D. unfold deg0. apply (proj1 (Forall_forall _ _) (proj1 (list_max_le _ _) (le_n _))). exact I. }
      apply in_map_iff in I. destruct I as (t & <- & I).
      assert (Q : Nat.eqb (nth 0 (fst t) 0%nat) 1 = false).
      { destruct (Nat.eqb (nth 0 (fst t) 0%nat) 1) eqn:Q; [|reflexivity].
        assert (V : existsb (fun t : list nat * K => Nat.eqb (nth 0 (fst t) 0%nat) 1) p = true) by (apply existsb_exists; exists t; auto).
        congruence. }
      apply Nat.eqb_neq in Q. lia. }
  destruct X as (t & I & E). pose proof (W2 _ (in_map fst p t I)) as Lm.
  assert (Em : fst t = 1%nat :: zeros (n - 1)).
  { unfold only_first in O. rewrite forallb_forall in O. specialize (O t I). rewrite forallb_forall in O.
    destruct (fst t) as [|e m]; [cbn in Lm; lia|]. cbn [nth tl length] in *. subst e. f_equal.
    unfold zeros. replace (n - 1)%nat with (length m) by lia. clear -O. induction m as [|u m IH]; [reflexivity|]. cbn [length repeat].
    rewrite (proj1 (Nat.eqb_eq u 0) (O u (or_introl eq_refl))). f_equal. apply IH. intros v V. apply O. right. exact V. }
  rewrite <- Em. rewrite dget_of_in by assumption. exact (Z t I).
Qed.

(** What the collected box and pairs say about the constraints. *)
Record collected (n : nat) (ineqs : list (poly K)) (a b : list K) (gh : list (fn K * fn K))
  (a' b' : list K) (gh' : list (fn K * fn K)) : Prop := {
  c_len : length a' = length a /\ length b' = length b;
  c_box : ple K a a' /\ ple K b' b;
  c_gh : forall c, In c gh -> In c gh';
  c_inc : (forall c, In c gh -> increasing K a b (fst c) /\ increasing K a b (snd c)) ->
          forall c, In c gh' -> increasing K a' b' (fst c) /\ increasing K a' b' (snd c);
  c_sound : forall x e, 0 <= e -> in_box K a' b' x -> (forall c, In c gh' -> fst c x - snd c x <= e) ->
     forall p, In p ineqs -> (0 < deg0 p)%nat -> - e <= pat p x;
  c_complete : forall y, in_box K a b y -> (forall c, In c gh -> fst c y - snd c y <= 0) ->
     (forall p, In p ineqs -> 0 <= pat p y) ->
     in_box K a' b' y /\ forall c, In c gh' -> fst c y - snd c y <= 0 }.

Lemma fmax_ge (u v : K) : u <= fmax u v /\ v <= fmax u v.
Proof. apply fmax_le. apply fle_refl. Qed.

Lemma increasing_shrink (F : list K -> K) a b a' b' : length a' = length a -> ple K a a' -> ple K b' b ->
  increasing K a b F -> increasing K a' b' F.
Proof.
  intros L A B H p q (Lp & P1 & P2) (Lq & Q1 & Q2) R.
  apply H; [split; [congruence|split]|split; [congruence|split]|exact R];
  first [exact (ple_trans K _ _ _ A P1)|exact (ple_trans K _ _ _ P2 B)|exact (ple_trans K _ _ _ A Q1)|exact (ple_trans K _ _ _ Q2 B)].
Qed.

Lemma collect_ok n ineqs : (0 < n)%nat -> shift_ok -> (forall p, In p ineqs -> wfp n p) ->
  forall a b gh a' b' gh', length a = n -> length b = n ->
  collect shift n ineqs a b gh = Some (a', b', gh') -> collected n ineqs a b gh a' b' gh'.
Proof.
  intros Hn Sh. induction ineqs as [|p ineqs IH]; intros W a b gh a' b' gh' La Lb H; cbn [collect] in H.
  - injection H as <- <- <-. constructor; auto; try (split; apply ple_refl); try (intros; contradiction).
  - assert (W' : forall p, In p ineqs -> wfp n p) by (intros q Q; apply W; right; exact Q).
    pose proof (W p (or_introl eq_refl)) as [Wp Wz].
    destruct (Nat.eqb (deg0 p) 0) eqn:D0.
    { apply Nat.eqb_eq in D0. destruct (fltb (lead p) 0); [discriminate|].
      destruct (IH W' _ _ _ _ _ _ La Lb H) as [C1 C2 C3 C4 C5 C6]. constructor; try assumption.
      - intros x e He Bx Gx q [<-|Q] Dq; [lia|]. exact (C5 x e He Bx Gx q Q Dq).
      - intros y By Gy Py. apply C6; [exact By|exact Gy|]. intros q Q. apply Py. right. exact Q. }
    apply Nat.eqb_neq in D0.
    destruct (Nat.eqb (deg0 p) 1 && only_first p) eqn:Lin.
    { apply andb_true_iff in Lin. destruct Lin as [D1 Of]. apply Nat.eqb_eq in D1.
      set (lc := coef p (1%nat :: zeros (n - 1))) in *. set (k := coef p (zeros n)) in *.
      assert (Ev : forall x, length x = n -> pat p x = lc * vget0 x 0 + k) by (intros x Lx; apply coeff_linear; assumption).
      destruct (fltb 0 lc) eqn:Sg.
      - apply fltb_lt in Sg. set (a1 := upd a 0 (fmax (vget0 a 0) (- k / lc))) in *.
        assert (La1 : length a1 = n) by (unfold a1; rewrite upd_length; exact La).
        assert (A1 : ple K a a1) by (apply ple_upd; [apply ple_refl|apply fmax_ge|reflexivity]).
        assert (V1 : - k / lc <= vget0 a1 0).
        { unfold a1. rewrite upd_same by lia. apply fmax_ge. }
        destruct (IH W' _ _ _ _ _ _ La1 Lb H) as [[C1 C1'] [C2 C2'] C3 C4 C5 C6]. constructor.
        + split; congruence.
        + split; [exact (ple_trans K _ _ _ A1 C2)|exact C2'].
        + exact C3.
        + intros G. apply C4. intros c I. destruct (G c I) as [G1 G2].
          split; (apply (increasing_shrink _ a b); [congruence|exact A1|apply ple_refl|assumption]).
        + intros x e He Bx Gx q [<-|Q] Dq; [|exact (C5 x e He Bx Gx q Q Dq)].
          destruct Bx as (Lx & Ax & _). rewrite Ev by congruence.
          apply (fle_trans K _ 0); [apply fopp_nonpos; exact He|].
          pose proof (fle_trans K _ _ _ V1 (fle_trans K _ _ _ (C2 0%nat) (Ax 0%nat))) as V.
          apply (proj1 (fle_sub _ _)) in V.
          replace (lc * vget0 x 0 + k) with (lc * (vget0 x 0 - - k / lc)) by (field; exact (flt_neq0 Sg)).
          apply fmul_nonneg; [exact (flt_le Sg)|exact V].
        + intros y (Ly & Ay & Yb) Gy Py. apply C6; [|exact Gy|intros q Q; apply Py; right; exact Q].
          split; [congruence|]. split; [|exact Yb]. apply upd_ple; [exact Ay|]. apply fmax_le. split; [apply Ay|].
          pose proof (Py p (or_introl eq_refl)) as P. rewrite Ev in P by congruence.
          apply (proj2 (fle_sub _ _)). apply (fmul_lt_cancel K lc _ Sg).
          replace (lc * (vget0 y 0 - - k / lc)) with (lc * vget0 y 0 + k) by (field; exact (flt_neq0 Sg)). exact P.
      - apply fltb_ge in Sg. set (b1 := upd b 0 (fmin (vget0 b 0) (- k / lc))) in *.
        assert (Ng : 0 < - lc).
        { assert (Nz : lc <> 0) by (apply linear_lead; assumption).
          apply flt_le_neq. split; [apply fopp_nonneg; exact Sg|]. intro Z. apply Nz. replace lc with (- - lc) by ring. rewrite <- Z. ring. }
        assert (Nz : lc <> 0) by (intro Z; apply (flt_neq0 Ng); rewrite Z; ring).
        assert (Lb1 : length b1 = n) by (unfold b1; rewrite upd_length; exact Lb).
        assert (B1 : ple K b1 b) by (apply upd_ple; [apply ple_refl|apply fmin_le]).
        assert (V1 : vget0 b1 0 <= - k / lc).
        { unfold b1. rewrite upd_same by lia. apply fmin_le. }
        destruct (IH W' _ _ _ _ _ _ La Lb1 H) as [[C1 C1'] [C2 C2'] C3 C4 C5 C6]. constructor.
        + split; congruence.
        + split; [exact C2|exact (ple_trans K _ _ _ C2' B1)].
        + exact C3.
        + intros G. apply C4. intros c I. destruct (G c I) as [G1 G2].
          split; (apply (increasing_shrink _ a b); [reflexivity|apply ple_refl|exact B1|assumption]).
        + intros x e He Bx Gx q [<-|Q] Dq; [|exact (C5 x e He Bx Gx q Q Dq)].
          destruct Bx as (Lx & _ & Xb). rewrite Ev by congruence.
          apply (fle_trans K _ 0); [apply fopp_nonpos; exact He|].
          pose proof (fle_trans K _ _ _ (fle_trans K _ _ _ (Xb 0%nat) (C2' 0%nat)) V1) as V.
          apply (proj1 (fle_sub _ _)) in V.
          replace (lc * vget0 x 0 + k) with (- lc * (- k / lc - vget0 x 0)) by (field; exact Nz).
          apply fmul_nonneg; [exact (flt_le Ng)|exact V].
        + intros y (Ly & Ay & Yb) Gy Py. apply C6; [|exact Gy|intros q Q; apply Py; right; exact Q].
          split; [congruence|]. split; [exact Ay|]. apply ple_upd; [exact Yb| |congruence]. apply fmin_ge. split; [apply Yb|].
          pose proof (Py p (or_introl eq_refl)) as P. rewrite Ev in P by congruence.
          apply (proj2 (fle_sub _ _)). apply (fmul_lt_cancel K (- lc) _ Ng).
          replace (- lc * (- k / lc - vget0 y 0)) with (lc * vget0 y 0 + k) by (field; exact Nz). exact P. }
    set (d := poly_as_dm shift p (Some a)) in *.
    destruct (IH W' _ _ _ _ _ _ La Lb H) as [[C1 C1'] [C2 C2'] C3 C4 C5 C6]. constructor.
    + split; assumption.
    + split; assumption.
    + intros c I. apply C3. apply in_or_app. left. exact I.
    + intro G. apply C4. intros c I. apply in_app_or in I. destruct I as [I|[<-|[]]]; [exact (G c I)|].
      cbn [fst snd]. destruct (dm_increasing p a a b Sh eq_refl (ple_refl K a)) as [I1 I2]. split; assumption.
    + intros x e He Bx Gx q [<-|Q] Dq; [|exact (C5 x e He Bx Gx q Q Dq)].
      assert (Ic : In (pat (snd d), pat (fst d)) gh') by (apply C3, in_or_app; right; left; reflexivity).
      pose proof (Gx _ Ic) as V. cbn [fst snd] in V.
      destruct Bx as (Lx & _). rewrite <- (dm_sub p a x Sh) by congruence. fold d.
      apply (proj1 (fle_sub _ _)) in V. apply (proj2 (fle_sub _ _)).
      replace (pat (fst d) x - pat (snd d) x - - e) with (e - (pat (snd d) x - pat (fst d) x)) by ring. exact V.
    + intros y By Gy Py. apply C6; [exact By| |intros q Q; apply Py; right; exact Q].
      intros c I. apply in_app_or in I. destruct I as [I|[<-|[]]]; [exact (Gy c I)|]. cbn [fst snd].
      pose proof (Py p (or_introl eq_refl)) as P. destruct By as (Ly & _). rewrite <- (dm_sub p a y Sh) in P by congruence. fold d in P.
      apply (proj2 (fle_sub _ _)). replace (0 - (pat (snd d) y - pat (fst d) y)) with (pat (fst d) y - pat (snd d) y) by ring. exact P.
Qed.

(** ** The equations *)
Lemma wfp_neg n p : wfp n p -> wfp n (pneg p).
Proof.
  intros [W Z]. split; [exact (proj1 (pneg_spec K n p W))|]. intros t H. unfold pneg in H. apply in_map_iff in H.
  destruct H as (u & <- & H). cbn [snd]. intro E. apply (Z u H). replace (snd u) with (- - snd u) by ring. rewrite E. ring.
Qed.
Lemma wfp_add n p c : wfp n p -> wfp n (add_const n p c).
Proof.
  intros [W Z]. split.
  - apply clean_wf. apply add_term_wf; [exact W|]. cbn [fst]. apply repeat_length.
  - intros t H. unfold add_const, clean in H. apply filter_In in H. destruct H as [_ H]. apply negb_true_iff in H.
    apply feqb_neq in H. exact H.
Qed.
Lemma pat_add n p c x : wf n p -> pat (add_const n p c) x = pat p x + c.
Proof.
  intros [W _]. unfold pat, add_const. rewrite clean_eval, add_term_eval by exact W. cbn [fst snd].
  replace (meval (fun i => vget0 x i) (zeros n)) with (1 : K); [ring|].
  generalize (fun i => vget0 x i). unfold zeros. induction n as [|n IH]; intro e; [reflexivity|].
  cbn [repeat]. rewrite meval_cons, <- IH. cbn [fpow]. ring.
Qed.
Lemma deg0_lt p t : In t p -> (0 < nth 0 (fst t) 0)%nat -> (0 < deg0 p)%nat.
Proof.
  intros H P. unfold deg0. apply (Nat.lt_le_trans _ _ _ P).
  apply (proj1 (Forall_forall _ _) (proj1 (list_max_le _ _) (le_n _))). apply in_map_iff. exists t. auto.
Qed.
Lemma deg0_pos p : (0 < deg0 p)%nat -> exists t, In t p /\ (0 < nth 0 (fst t) 0)%nat.
Proof.
  intro H. destruct (existsb (fun t : list nat * K => Nat.ltb 0 (nth 0 (fst t) 0%nat)) p) eqn:E.
  - apply existsb_exists in E. destruct E as (t & I & E). exists t. split; [exact I|]. apply Nat.ltb_lt. exact E.
  - exfalso. assert (X : (deg0 p <= 0)%nat); [|lia]. unfold deg0. apply list_max_le. apply Forall_forall. intros e I.
    apply in_map_iff in I. destruct I as (t & <- & I).
    destruct (Nat.ltb 0 (nth 0 (fst t) 0%nat)) eqn:Q; [|apply Nat.ltb_ge in Q; exact Q].
    assert (Y : existsb (fun t : list nat * K => Nat.ltb 0 (nth 0 (fst t) 0%nat)) p = true) by (apply existsb_exists; exists t; auto).
    congruence.
Qed.
Lemma deg0_neg p : deg0 (pneg p) = deg0 p.
Proof. unfold deg0, pneg. rewrite map_map. reflexivity. Qed.
Lemma deg0_add n p c : (0 < n)%nat -> wfp n p -> (0 < deg0 p)%nat -> (0 < deg0 (add_const n p c))%nat.
Proof.
  intros Hn [W Z] H. apply deg0_pos in H. destruct H as (t & I & P).
  apply (deg0_lt _ t); [|exact P]. unfold add_const, clean. apply filter_In. split.
  - unfold add_term. cbn [fst snd]. apply dset_other; [exact I|]. intro E. rewrite E in P.
    unfold zeros in P. destruct n; [lia|]. cbn in P. lia.
  - apply negb_true_iff. apply feqb_neq. apply Z. exact I.
Qed.

(** ** The result *)
Section Result.
Variable sup_fg : option K -> list K -> list K -> res K.
Variable sup_h : list K -> list K -> res K.
Variables rtol eps tol eqtol : K.

Lemma polyopt_facts n f ineqs eqs a b cbv choose max_iter a' b' gh r :
  let d := poly_as_dm shift f (Some a') in
  (0 < n)%nat -> shift_ok -> (forall p, In p ineqs \/ In p eqs -> wfp n p) ->
  length a = n -> length b = n ->
  collect shift n (all_ineqs n ineqs eqs eqtol) a b [] = Some (a', b', gh) -> ple K a' b' ->
  solver_ok K (bigF n (pat (fst d))) (bigG n gh) (bigH n (pat (snd d)) gh) sup_fg sup_h eps
    (low (pat (snd d)) gh a' b') (high (pat (snd d)) gh a' b') ->
  0 <= eps -> 0 <= tol -> 0 < rtol -> 0 <= eqtol ->
  rpa_polyopt sup_fg sup_h rtol tol choose max_iter shift n f ineqs eqs a b eqtol cbv = Ok r ->
  (forall x, r_x r = Some x ->
     in_box K a b x /\ r_f r = Some (pat f x) /\
     (forall p, In p ineqs -> (0 < deg0 p)%nat -> - eps <= pat p x) /\
     (forall p, In p eqs -> (0 < deg0 p)%nat -> - (eqtol + eps) <= pat p x /\ pat p x <= eqtol + eps)) /\
  (r_conv r = true -> r_lost r = false -> forall y, in_box K a b y ->
     (forall p, In p ineqs -> 0 <= pat p y) -> (forall p, In p eqs -> - eqtol <= pat p y /\ pat p y <= eqtol) ->
     match r_x r with
     | Some x => pat f x <= pat f y + (tol + eps)
     | None => match cbv with None => False | Some c => c <= pat f y end
     end).
Proof.
  intros d Hn Sh W La Lb Ec Hab Hs Heps Htol Hrtol Heq. unfold rpa_polyopt. rewrite Ec. fold d. intro E.
  assert (Wall : forall p, In p (all_ineqs n ineqs eqs eqtol) -> wfp n p).
  { intros p I. apply in_app_or in I. destruct I as [I|I]; [apply W; left; exact I|].
    apply in_flat_map in I. destruct I as (e & Ie & [<-|[<-|[]]]); [|]; apply wfp_add; [|apply wfp_neg]; apply W; right; exact Ie. }
  destruct (collect_ok n _ Hn Sh Wall _ _ _ _ _ _ La Lb Ec) as [[C1 C1'] [C2 C2'] C3 C4 C5 C6].
  assert (Ln : length a' = n) by congruence.
  assert (Lab : length b' = length a') by congruence.
  destruct (dm_increasing f a' a' b' Sh eq_refl (ple_refl K a')) as [I1 I2]. fold d in I1, I2.
  assert (Ig : forall c, In c gh -> increasing K a' b' (fst c) /\ increasing K a' b' (snd c)) by (apply C4; intros c []).
  assert (Hs' : solver_ok K (bigF (length a') (pat (fst d))) (bigG (length a') gh) (bigH (length a') (pat (snd d)) gh) sup_fg sup_h eps
    (low (pat (snd d)) gh a' b') (high (pat (snd d)) gh a' b')) by (rewrite Ln; exact Hs).
  destruct (gmop_facts K _ _ gh a' b' Lab Hab I1 I2 Ig sup_fg sup_h rtol eps tol Hs' Heps Htol Hrtol _ _ _ _ E) as [P1 P2].
  assert (Df : forall x, length x = n -> pat (fst d) x - pat (snd d) x = pat f x) by (intros x Lx; apply dm_sub; [exact Sh|congruence]).
  split.
  - intros x Ex. destruct (P1 x Ex) as (Bx & Gx & Fx). pose proof Bx as (Lx & Ax & Xb).
    assert (Lx' : length x = n) by congruence.
    split; [split; [congruence|split; [exact (ple_trans K _ _ _ C2 Ax)|exact (ple_trans K _ _ _ Xb C2')]]|].
    split; [rewrite Fx, Df by exact Lx'; reflexivity|].
    pose proof (C5 x eps Heps Bx Gx) as S. split.
    + intros p I D. apply S; [apply in_or_app; left; exact I|exact D].
    + intros p I D. pose proof (W p (or_intror I)) as Wp.
      assert (S1 : - eps <= pat (add_const n p eqtol) x).
      { apply S; [|apply deg0_add; assumption]. apply in_or_app. right. apply in_flat_map. exists p. split; [exact I|left; reflexivity]. }
      assert (S2 : - eps <= pat (add_const n (pneg p) eqtol) x).
      { apply S; [|apply deg0_add; [exact Hn|apply wfp_neg; exact Wp|rewrite deg0_neg; exact D]].
        apply in_or_app. right. apply in_flat_map. exists p. split; [exact I|right; left; reflexivity]. }
      rewrite (pat_add n) in S1 by exact (proj1 Wp). rewrite (pat_add n), pat_neg in S2 by exact (proj1 (wfp_neg n p Wp)).
      apply (proj1 (fle_sub _ _)) in S1. apply (proj1 (fle_sub _ _)) in S2. split; apply (proj2 (fle_sub _ _)).
      * replace (pat p x - - (eqtol + eps)) with (pat p x + eqtol - - eps) by ring. exact S1.
      * replace (eqtol + eps - pat p x) with (- pat p x + eqtol - - eps) by ring. exact S2.
  - intros Hc Hl y By Py Qy.
    destruct (C6 y By (fun c I => match I with end)) as [By' Gy].
    { intros p I. apply in_app_or in I. destruct I as [I|I]; [apply Py; exact I|].
      apply in_flat_map in I. destruct I as (e & Ie & [<-|[<-|[]]]); pose proof (W e (or_intror Ie)) as We; destruct (Qy e Ie) as [Q1 Q2].
      - rewrite (pat_add n) by exact (proj1 We). apply (proj1 (fle_sub _ _)) in Q1.
        replace (pat e y + eqtol) with (pat e y - - eqtol) by ring. exact Q1.
      - rewrite (pat_add n), pat_neg by exact (proj1 (wfp_neg n e We)). apply (proj1 (fle_sub _ _)) in Q2.
        replace (- pat e y + eqtol) with (eqtol - pat e y) by ring. exact Q2. }
    assert (Ly : length y = n) by (destruct By as (Ly & _); congruence).
    pose proof (P2 Hc Hl y By' Gy) as R. rewrite Df in R by exact Ly.
    destruct (r_x r) as [x|] eqn:Ex; [|exact R]. destruct (P1 x eq_refl) as ((Lx & _) & _). rewrite Df in R by congruence. exact R.
Qed.

Lemma polyopt_optimal_eq' n f ineqs eqs a b cbv choose max_iter a' b' gh r y :
  let d := poly_as_dm shift f (Some a') in
  (0 < n)%nat -> shift_ok -> (forall p, In p ineqs \/ In p eqs -> wfp n p) ->
  length a = n -> length b = n ->
  collect shift n (all_ineqs n ineqs eqs eqtol) a b [] = Some (a', b', gh) -> ple K a' b' ->
  solver_ok K (bigF n (pat (fst d))) (bigG n gh) (bigH n (pat (snd d)) gh) sup_fg sup_h eps
    (low (pat (snd d)) gh a' b') (high (pat (snd d)) gh a' b') ->
  0 <= eps -> 0 <= tol -> 0 < rtol -> 0 <= eqtol ->
  rpa_polyopt sup_fg sup_h rtol tol choose max_iter shift n f ineqs eqs a b eqtol cbv = Ok r ->
  r_conv r = true -> r_lost r = false -> in_box K a b y ->
  (forall p, In p ineqs -> 0 <= pat p y) -> (forall p, In p eqs -> pat p y = 0) ->
  match r_x r with
  | Some x => pat f x <= pat f y + (tol + eps)
  | None => match cbv with None => False | Some c => c <= pat f y end
  end.
Proof.
  intros d Hn Sh W La Lb Ec Hab Hs E1 E2 E3 E4 E Hc Hl By Py Qy.
  refine (proj2 (polyopt_facts n f ineqs eqs a b cbv choose max_iter a' b' gh r Hn Sh W La Lb Ec Hab Hs E1 E2 E3 E4 E) Hc Hl y By Py _).
  intros p I. rewrite (Qy p I). split; [apply fopp_nonpos; exact E4|exact E4].
Qed.
End Result.
End Facts.

Definition polyopt_optimal_eq (K : OrdField) shift sup_fg sup_h (rtol eps tol eqtol : K) :=
  polyopt_optimal_eq' K shift sup_fg sup_h rtol eps tol eqtol.
