(** * Symmetric septics: each solver of the axis class proves its form *)
From Coq Require Import Bool List Arith Lia ZArith Ring Field.
From Verif Require Import OrdField Base Congruence Perm Poly PolyId PolyOps Coeff Expr CertLimit TriPoly Monomials Univariate StructUtils.
From Verif Require Sparse TernaryQuad TernaryTables TernaryCubic.
From Verif Require Import DenseSym Septic.
Import ListNotations.

Section Facts.
Variable K : OrdField.
Local Open Scope of_scope.
Add Field Kf : (F_field K).
Implicit Types (x y u A B C : K) (e : ex K).

(** ** Specification: the forms of the docstring (septic_symmetric.py:28-32) *)
Definition cyc3 (f : K -> K -> K -> K) A B C : K := f A B C + f B C A + f C A B.
Definition xyform x y A B C : K := cyc3 (fun a b c => x * a ^ 2 + y * (a * b)) A B C.
Definition schurform A B C : K := cyc3 (fun a b c => a * (a - b) * (a - c)) A B C.
Definition Fform x y A B C : K :=
  cyc3 (fun a b c => a ^ 7 + a ^ 6 * b + a ^ 6 * c + a ^ 5 * b * c - 2 * a ^ 4 * b ^ 3 - 2 * a ^ 4 * c ^ 3) A B C
  - 2 * cyc3 (fun a b c => a ^ 5 - a ^ 3 * b ^ 2 + a ^ 3 * b * c - a ^ 3 * c ^ 2) A B C * xyform x y A B C
  + schurform A B C * xyform x y A B C ^ 2.
Definition Gform x y A B C : K :=
  cyc3 (fun a b c => (b + c) * (a ^ 2 + a * (b + c) + 2 * b * c) ^ 2 * (a - b) * (a - c)) A B C
  - 2 * cyc3 (fun a b c => (b + c) * (a ^ 2 + a * (b + c) + 2 * b * c) * (a - b) * (a - c)) A B C * xyform x y A B C
  + cyc3 (fun a b c => a * (b - c) ^ 2) A B C * xyform x y A B C ^ 2.
Definition D7 A B C : K := (A + B + C) * ((A - B) * (B - C) * (C - A)) ^ 2.

(** a certificate of a form *)
Definition fcert e (f : K -> K -> K -> K) : Prop :=
  manifest true e = true /\
  (forall A B C, defined (pt3 A B C) e -> ev (pt3 A B C) e = f A B C) /\
  (forall A B C, 0 < A -> 0 < B -> 0 < C -> ~ (A = B /\ B = C) -> defined (pt3 A B C) e).
Definition solver_ok (form : K -> K -> K -> K) (r : res (option (ex K * K))) : Prop :=
  forall e k, r = Ok (Some (e, k)) -> fcert e (fun A B C => form A B C + k * D7 A B C).

Lemma fbin_pos p : 0 < (fbin p : K).
Proof. induction p as [p IH|p IH|]; cbn [fbin]; fpos. Qed.
Lemma fbin_nz p : (fbin p : K) <> 0.
Proof. apply flt_neq0, fbin_pos. Qed.
Lemma sum_nz A B C : 0 < A -> 0 < B -> 0 < C -> A + B + C <> 0.
Proof. intros. apply flt_neq0. fpos. Qed.
Lemma pair_inj {X Y} (a a' : X) (b b' : Y) : Ok (Some (a, b)) = Ok (Some (a', b')) -> a = a' /\ b = b'.
Proof. intro H. split; congruence. Qed.

Ltac evs := cbn [csum cprod erename rot3 ev pt3 fbin]; unfold Fform, Gform, D7, schurform, xyform, cyc3; cbn [fpow].

Ltac nbz := repeat match goal with |- _ /\ _ => split end; first [assumption | fnz].

Lemma F_square_ok x y : solver_ok (Fform x y) (F_square x y).
Proof.
  intros e k. unfold F_square. destruct (_ =? _) eqn:E; [|discriminate]. intro H. apply pair_inj in H. destruct H as [<- <-].
  apply feqb_eq in E. assert (Ey : y = fbin 5 / fbin 3 - x) by (rewrite <- E; ring). subst y.
  split; [|split].
  - cbn. apply fleb_le. exact (flt_le (fbin_pos 9)).
  - intros A B C _. evs. field. nbz.
  - intros A B C _ _ _ _. cbn. intuition. apply (fbin_nz 9). assumption.
Qed.

Lemma sos_rem_ok (c1 c2 : K) : manifest true (snd (sos_rem c1 c2)) = true /\ (forall env, defined env (snd (sos_rem c1 c2))) /\
  forall A B C, ev (pt3 A B C) (snd (sos_rem c1 c2)) = c1 * (A * A + B * B + C * C) + c2 * (A * B + B * C + C * A) + fst (sos_rem c1 c2) * (A + B + C) ^ 2.
Proof.
  unfold sos_rem. destruct (c2 <=? _) eqn:E; cbn [fst snd].
  - apply fleb_le in E. apply (proj1 (fle_sub _ _)) in E. split; [|split].
    + cbn [manifest csum erename rot3]. rewrite !andb_true_iff. split; [|repeat split].
      apply fleb_le. apply fdiv_nonneg; [exact E|apply fbin_pos].
    + intros env. cbn. tauto.
    + intros. evs. field. nbz.
  - apply fleb_gt in E. apply (proj1 (flt_sub _ _)) in E. split; [|split].
    + cbn [manifest csum erename rot3 andb]. rewrite !andb_true_r. apply fleb_le. exact (flt_le E).
    + intros env. cbn. tauto.
    + intros. evs. ring.
Qed.

Lemma F_sos_at_ok x y z : fcert (fst (F_sos_at x y z)) (fun A B C => Fform x y A B C + snd (F_sos_at x y z) * D7 A B C).
Proof.
  unfold F_sos_at. match goal with |- context [sos_rem ?a ?b] => set (c1 := a); set (c2 := b) end.
  destruct (sos_rem_ok c1 c2) as (M & Df & V). destruct (sos_rem c1 c2) as [ker rem]. cbn [fst snd] in *.
  split; [|split].
  - cbn [manifest csum cprod sqp erename rot3 Nat.even orb]. rewrite M. cbn. rewrite ?andb_true_r. apply fleb_le. exact (flt_le (fbin_pos 18)).
  - intros A B C D. assert (S0 : A + B + C <> 0) by (destruct D as (_ & _ & D); exact D).
    cbn [ev]. rewrite V. subst c1 c2. clear V D M Df rem. unfold sqp. evs. field. nbz.
  - intros A B C HA HB HC _. cbn [defined csum cprod sqp erename rot3]. pose proof (sum_nz A B C HA HB HC) as S0.
    pose proof (Df (pt3 A B C)) as D1. pose proof (fbin_nz 18) as D2. cbn [ev pt3]. tauto.
Qed.
Lemma F_sos_ok zt x y : solver_ok (Fform x y) (F_sos zt x y).
Proof.
  intros e k. unfold F_sos. destruct zt; [destruct (x =? 1); [discriminate|]|]; intro H.
  - pose proof (F_sos_at_ok x y (- x ^ 2 / (fbin 6 * (x - 1)))) as G. destruct (F_sos_at _ _ _). apply pair_inj in H. destruct H as [<- <-]. exact G.
  - pose proof (F_sos_at_ok x y (fbin 2 - y)) as G. destruct (F_sos_at _ _ _). apply pair_inj in H. destruct H as [<- <-]. exact G.
Qed.

Lemma G_trivial_ok x y : solver_ok (Gform x y) (G_trivial x y).
Proof.
  intros e k. unfold G_trivial. intro H. apply pair_inj in H. destruct H as [<- <-].
  split; [reflexivity|split].
  - intros A B C _. evs. ring.
  - intros A B C _ _ _ _. cbn. tauto.
Qed.
Lemma G_border_ok x y : solver_ok (Gform x y) (G_border x y).
Proof.
  intros e k. unfold G_border. destruct (0 <=? _) eqn:E1; [discriminate|]. destruct (0 <=? (y - 1) * _) eqn:E2; [|discriminate].
  intro H. apply pair_inj in H. destruct H as [<- <-]. apply fleb_gt in E1. apply fleb_le in E2.
  split; [|split].
  - cbn [manifest csum cprod erename rot3 Nat.even orb andb]. rewrite !andb_true_r, !andb_true_iff. split; apply fleb_le.
    + apply flt_le. apply (proj1 (flt_sub _ _)) in E1. match type of E1 with 0 < ?r => replace (fbin 4 * (x - 1) * (fbin 2 * x + y - fbin 2)) with r by ring end. exact E1.
    + replace (fbin 8 * (y - 1) * (fbin 2 * x + y - fbin 2)) with (fbin 8 * ((y - 1) * (fbin 2 * x + y - fbin 2))) by ring.
      apply fmul_nonneg; [exact (flt_le (fbin_pos 8))|exact E2].
  - intros A B C _. evs. ring.
  - intros A B C _ _ _ _. cbn. tauto.
Qed.
Lemma G_sos_at_ok x y z w :
  let s := G_sos_at x y z w (G_c1 x y z w) (G_c2 x y z w) in fcert (fst s) (fun A B C => Gform x y A B C + snd s * D7 A B C).
Proof.
  intro s. subst s. unfold G_sos_at. destruct (sos_rem_ok (G_c1 x y z w) (G_c2 x y z w)) as (M & Df & V). destruct (sos_rem _ _) as [ker rem]. cbn [fst snd] in *.
  split; [|split].
  - cbn [manifest csum cprod sqp erename rot3 Nat.even orb]. rewrite M. cbn. rewrite ?andb_true_r. apply fleb_le. exact (flt_le (fbin_pos 2)).
  - intros A B C D. assert (S0 : A + B + C <> 0) by (destruct D as (_ & _ & D); exact D).
    cbn [ev]. rewrite V. clear V D M Df rem. unfold sqp, G_c1, G_c2. evs. field. nbz.
  - intros A B C HA HB HC _. cbn [defined csum cprod sqp erename rot3]. pose proof (sum_nz A B C HA HB HC) as S0.
    pose proof (Df (pt3 A B C)) as D1. cbn [ev pt3]. tauto.
Qed.
Lemma G_sos_ok x y : solver_ok (Gform x y) (G_sos x y).
Proof.
  intros e k. unfold G_sos. destruct (_ <=? fbin 4 * y * (x - 1)); intro H.
  - replace (fbin 4 * y * (x - 1)) with (G_c1 x y (x - fbin 2 * y + 1) (y - fbin 2 * x)) in H by (unfold G_c1; cbn [fbin fpow]; ring).
    replace (fbin 8 * y * (x - 1)) with (G_c2 x y (x - fbin 2 * y + 1) (y - fbin 2 * x)) in H by (unfold G_c2; cbn [fbin fpow]; ring).
    pose proof (G_sos_at_ok x y (x - fbin 2 * y + 1) (y - fbin 2 * x)) as G. cbv zeta in G. destruct (G_sos_at _ _ _ _ _ _). apply pair_inj in H. destruct H as [<- <-]. exact G.
  - pose proof (G_sos_at_ok x y (fbin 2 - y) (- x - 1)) as G. cbv zeta in G. destruct (G_sos_at _ _ _ _ _ _). apply pair_inj in H. destruct H as [<- <-]. exact G.
Qed.

(** ** Schur's form of degree 3 *)
Lemma schur3_manifest : manifest true (schur3 : ex K) = true.
Proof. cbn. rewrite !andb_true_r. rewrite andb_diag. apply fleb_le. apply (@flt_le K), (fnat_pos K 2). lia. Qed.
Lemma schur3_value A B C : defined (pt3 A B C) schur3 -> ev (pt3 A B C) schur3 = schurform A B C.
Proof.
  intros (_ & _ & D). cbn [ev csum erename rot3 pt3] in D. assert (S0 : A + B + C <> 0) by (intro E; apply D; rewrite E; ring).
  unfold schur3, TernaryTables.schur. evs. cbn [fnat]. field. split; [exact S0|fnz].
Qed.
Lemma schur3_defined A B C : 0 < A -> 0 < B -> 0 < C -> defined (pt3 A B C) schur3.
Proof.
  intros HA HB HC. cbn [schur3 TernaryTables.schur defined csum erename rot3 ev pt3]. pose proof (sum_nz A B C HA HB HC) as S0.
  assert (X : fnat 2 * (A + B + C) <> 0) by (apply fmul_neq0; [apply (fnat_neq0 K 2); lia|exact S0]). tauto.
Qed.
Lemma some_differ A B C : ~ (A = B /\ B = C) -> (A - B) <> 0 \/ (B - C) <> 0.
Proof.
  intro H. destruct (feq_dec K A B) as [->|E].
  - right. intro X. apply H. split; [reflexivity|]. apply (fsub_eq0 K). exact X.
  - left. intro X. apply E. apply (fsub_eq0 K). exact X.
Qed.
Lemma mixed_pos A B C : 0 < A -> 0 < B -> 0 < C -> ~ (A = B /\ B = C) ->
  0 < A * B * ((A - B) * (A - B)) + B * C * ((B - C) * (B - C)) + C * A * ((C - A) * (C - A)).
Proof.
  intros HA HB HC N. apply fadd_pos_l; [|apply fmul_nonneg; [fpos|apply fsqr_nonneg]].
  destruct (some_differ A B C N) as [E|E].
  - apply fadd_pos_l; [apply fmul_pos; [fpos|apply fsqr_pos; exact E]|apply fmul_nonneg; [fpos|apply fsqr_nonneg]].
  - apply fadd_pos_r; [apply fmul_nonneg; [fpos|apply fsqr_nonneg]|apply fmul_pos; [fpos|apply fsqr_pos; exact E]].
Qed.
Lemma schur3_pos A B C : 0 < A -> 0 < B -> 0 < C -> ~ (A = B /\ B = C) -> 0 < schurform A B C.
Proof.
  intros HA HB HC N. assert (H2 : 0 < (A + B + C) * 2) by fpos.
  apply (fmul_pos_cancel K ((A + B + C) * 2)); [exact H2|].
  replace ((A + B + C) * 2 * schurform A B C) with
    (((A - B) * (A + B - C)) * ((A - B) * (A + B - C)) + ((B - C) * (B + C - A)) * ((B - C) * (B + C - A)) + ((C - A) * (C + A - B)) * ((C - A) * (C + A - B))
     + 2 * (A * B * ((A - B) * (A - B)) + B * C * ((B - C) * (B - C)) + C * A * ((C - A) * (C - A)))) by (unfold schurform, cyc3; ring).
  apply fadd_pos_r.
  - repeat apply fadd_nonneg; apply fsqr_nonneg.
  - apply fmul_pos; [fpos|]. apply mixed_pos; assumption.
Qed.

Lemma quot_eq (n d v : K) : d <> 0 -> n = v * d -> n / d = v.
Proof. intros H ->. field. exact H. Qed.
Lemma F_regular_ok x y : solver_ok (Fform x y) (F_regular x y).
Proof.
  intros e k. unfold F_regular. intro H. apply pair_inj in H. destruct H as [<- <-].
  split; [|split].
  - cbn [manifest]. rewrite schur3_manifest. reflexivity.
  - intros A B C (_ & D & D0). rewrite (schur3_value A B C D) in D0. cbn [ev]. rewrite (schur3_value A B C D). unfold sqp.
    apply quot_eq; [exact D0|]. evs. ring.
  - intros A B C HA HB HC N. cbn [defined]. split; [cbn; tauto|]. split; [apply schur3_defined; assumption|].
    rewrite schur3_value by (apply schur3_defined; assumption). apply flt_neq0, schur3_pos; assumption.
Qed.

(** ** The border *)
Lemma F_border0_ok x y : y = 1 \/ fbin 2 * x + y - fbin 3 = 0 ->
  fcert (F_border0 x y) (fun A B C => Fform x y A B C + F_border_ker x y * D7 A B C).
Proof.
  intro H. split; [|split].
  - cbn. rewrite !andb_true_r. apply fleb_le. exact (flt_le (fbin_pos 2)).
  - intros A B C D. assert (S0 : A + B + C <> 0) by (destruct D as (_ & _ & D); exact D).
    unfold F_border0, F_border_ker. destruct H as [->|H].
    + evs. field. nbz.
    + assert (E : y = fbin 3 - fbin 2 * x) by (transitivity (fbin 3 - fbin 2 * x + (fbin 2 * x + y - fbin 3)); [ring|rewrite H; ring]). subst y.
      evs. field. nbz.
  - intros A B C HA HB HC _. unfold F_border0. pose proof (sum_nz A B C HA HB HC) as S0. pose proof (fbin_nz 2) as D2.
    cbn [defined csum erename rot3 ev pt3]. tauto.
Qed.

Lemma weights3 (ws : list (K * (K * K))) (t0 t1 t2 p0 p1 p2 q0 q1 q2 : K) :
  fsum (map (fun w => fst w * (t0 * ((fst (snd w) * p0 + snd (snd w) * q0) * (fst (snd w) * p0 + snd (snd w) * q0))
                              + t1 * ((fst (snd w) * p1 + snd (snd w) * q1) * (fst (snd w) * p1 + snd (snd w) * q1))
                              + t2 * ((fst (snd w) * p2 + snd (snd w) * q2) * (fst (snd w) * p2 + snd (snd w) * q2)))) ws)
  = t0 * weighting_sum (fun x y => (x * p0 + y * q0) * (x * p0 + y * q0)) ws
    + t1 * weighting_sum (fun x y => (x * p1 + y * q1) * (x * p1 + y * q1)) ws
    + t2 * weighting_sum (fun x y => (x * p2 + y * q2) * (x * p2 + y * q2)) ws.
Proof.
  unfold weighting_sum. induction ws as [|w ws IH]; [cbn; ring|]. cbn [map fsum]. rewrite IH. ring.
Qed.
Lemma F_border1_ok x y e : y <> 1 -> x <> 1 -> F_border1 x y = Some e ->
  fcert e (fun A B C => Fform x y A B C + F_border_ker x y * D7 A B C).
Proof.
  intros Hy Hx. unfold F_border1. set (u := (y - 1) / (fbin 4 * (x - 1))).
  assert (X1 : x - 1 <> 0) by (intro E; apply Hx, (fsub_eq0 K), E).
  assert (Y1 : y - 1 <> 0) by (intro E; apply Hy, (fsub_eq0 K), E).
  assert (U0 : u <> 0).
  { subst u. rewrite fdiv_def. apply fmul_neq0; [exact Y1|]. apply finv_neq0. apply fmul_neq0; [apply fbin_nz|exact X1]. }
  destruct (quadratic_weighting u u 1) as [ws|] eqn:Ew; [|discriminate].
  destruct (quadratic_weighting_guard K _ _ _ _ Ew) as (_ & Up & _).
  assert (UP : 0 < u) by (apply flt_le_neq; split; [exact Up|congruence]).
  destruct (0 <=? F_border_det1 x y) eqn:Ed; [|discriminate]. apply fleb_le in Ed.
  destruct (TernaryQuad.common_quadratic 1 (fbin 2 * u - 1)) as [m|] eqn:Em; [|discriminate].
  destruct (TernaryQuad.common_quadratic_sound K _ _ _ Em) as (Md & Mv & Mm & _).
  intro H. apply (f_equal (fun o => match o with Some z => z | None => e end)) in H. cbv beta iota in H. subst e.
  split; [|split].
  - cbn [manifest]. rewrite Mm, andb_true_r. rewrite andb_true_iff. split.
    + apply Sparse.manifest_esum. intros t Ht. apply in_map_iff in Ht. destruct Ht as [[w xy] [<- Hin]]. cbn [manifest csum erename rot3 Nat.even orb].
      rewrite andb_true_iff. split; [|reflexivity]. apply fleb_le. exact (quadratic_weighting_weights K _ _ _ _ Ew _ _ Hin).
    + cbn. rewrite !andb_true_r. apply fleb_le. exact Ed.
  - intros A B C (_ & _ & D0). cbn [ev]. rewrite Mv in D0 |- *. apply quot_eq; [exact D0|]. clear D0 Mv Md Mm Em m.
    rewrite Sparse.ev_esum, map_map.
    set (P0 := ev (pt3 A B C) (F_border_p1 x y)). set (Q0 := ev (pt3 A B C) (F_border_p2 x y)).
    set (P1 := ev (pt3 B C A) (F_border_p1 x y)). set (Q1 := ev (pt3 B C A) (F_border_p2 x y)).
    set (P2 := ev (pt3 C A B) (F_border_p1 x y)). set (Q2 := ev (pt3 C A B) (F_border_p2 x y)).
    rewrite (fsum_map_ext K _ (fun w => fst w * (C * ((fst (snd w) * P0 + snd (snd w) * Q0) * (fst (snd w) * P0 + snd (snd w) * Q0))
                              + A * ((fst (snd w) * P1 + snd (snd w) * Q1) * (fst (snd w) * P1 + snd (snd w) * Q1))
                              + B * ((fst (snd w) * P2 + snd (snd w) * Q2) * (fst (snd w) * P2 + snd (snd w) * Q2))))).
    + rewrite weights3. rewrite !(quadratic_weighting_value K _ _ _ _ _ _ Ew). subst P0 P1 P2 Q0 Q1 Q2 u.
      unfold F_border_p1, F_border_p2, F_border_ker, F_border_det1, sqp. clear - X1. evs. field. nbz.
    + intros [w [z1 z2]] _. subst P0 P1 P2 Q0 Q1 Q2. cbn [ev csum erename rot3 pt3 fst snd fpow F_border_p1 F_border_p2]. ring.
  - intros A B C HA HB HC _. cbn [defined]. split; [|split; [apply Md|]].
    + split; [|cbn; tauto]. clear. induction ws as [|w ws IH]; [exact I|]. cbn [map Sparse.esum fold_right defined]. split; [|exact IH]. cbn. tauto.
    + rewrite Mv. apply flt_neq0.
      replace (1 * (A * A + B * B + C * C) + (fbin 2 * u - 1) * (A * B + B * C + C * A)) with
        (((A - B) * (A - B) + (B - C) * (B - C) + (C - A) * (C - A)) / 2 + 2 * u * (A * B + B * C + C * A)) by (cbn [fbin]; field; fnz).
      apply fadd_pos_r; [|fpos]. apply fdiv_nonneg; [|fpos]. repeat apply fadd_nonneg; apply fsqr_nonneg.
Qed.

Definition mult_cyc (u : K) (i j k : nat) : K :=
  match i, j, k with
  | 3, 0, 0 | 0, 3, 0 | 0, 0, 3 => 1%F
  | 2, 1, 0 | 1, 2, 0 | 1, 0, 2 | 2, 0, 1 | 0, 2, 1 | 0, 1, 2 => (u - 1)%F
  | 1, 1, 1 => (fbin 3 - fbin 6 * u)%F
  | _, _, _ => 0%F
  end%nat.
Lemma mult_cyc_cyclic u : cyclic3 (mult_cyc u).
Proof. intros i j k. destruct i as [|[|[|[|i]]]]; destruct j as [|[|[|[|j]]]]; destruct k as [|[|[|[|k]]]]; reflexivity. Qed.
Lemma mult_value u A B C : tri_poly 3 (mult_cyc u) A B C = schurform A B C + u * cyc3 (fun a b c => a * (b - c) ^ 2) A B C.
Proof. rewrite TernaryCubic.tri_poly_3 by apply mult_cyc_cyclic. unfold TernaryCubic.cubic_value. cbn [mult_cyc]. evs. ring. Qed.
Lemma mult_some u : 0 <= u -> exists m, TernaryCubic.cubic_symmetric (mult_cf u) = Some m.
Proof.
  intro H. unfold TernaryCubic.cubic_symmetric. destruct (forallb _ _); [eauto|].
  replace (forallb _ _) with true; [cbn [TernaryTables.schur]; eauto|]. symmetry. cbn [forallb mult_cf]. rewrite !andb_true_iff.
  repeat split; apply fleb_le.
  - apply f1_nonneg.
  - replace (1 + (u - 1)) with u by ring. exact H.
  - match goal with |- 0 <= ?r => replace r with (0 : K) by (cbn [fbin]; ring) end. apply fle_refl.
Qed.
Lemma F_border2_ok x y e : F_border2 x y = Ok (Some e) ->
  fcert e (fun A B C => Fform x y A B C + F_border_ker x y * D7 A B C).
Proof.
  unfold F_border2. destruct (_ && _)%bool eqn:E; [|discriminate]. apply andb_prop in E. destruct E as [E Eu1]. apply andb_prop in E. destruct E as [E Eu0].
  apply andb_prop in E. destruct E as [Ex Ed]. apply negb_true_iff, feqb_neq in Ex. apply fleb_le in Ed. apply fleb_le in Eu0. apply fleb_le in Eu1.
  assert (X1 : x - 1 <> 0) by (intro E; apply Ex, (fsub_eq0 K), E).
  set (u := F_border_u x y) in *. destruct (TernaryCubic.cubic_symmetric (mult_cf u)) as [m|] eqn:Em; [|discriminate].
  intro H. apply Ok_inj in H. apply (f_equal (fun o => match o with Some z => z | None => e end)) in H. cbv beta iota in H. subst e.
  assert (Em' : TernaryCubic.cubic_symmetric (mult_cyc u) = Some m) by (rewrite <- Em; reflexivity).
  destruct (TernaryCubic.cubic_symmetric_sound K _ _ (mult_cyc_cyclic u) eq_refl Em') as [Mv Mm].
  split; [|split].
  - cbn [manifest]. rewrite Mm, andb_true_r. cbn [F_border_num2 manifest csum cprod sqp erename rot3 Nat.even orb andb]. rewrite !andb_true_r, !andb_true_iff.
    assert (U1 : (0 <=? 1 - u) = true) by (apply fleb_le; apply (proj1 (fle_sub _ _)); exact Eu1).
    repeat split; try exact U1; apply fleb_le; assumption.
  - intros A B C (_ & D & D0). rewrite (Mv A B C D), mult_value in D0. cbn [ev]. rewrite (Mv A B C D), mult_value. apply quot_eq; [exact D0|].
    clear - X1. subst u. unfold F_border_num2, F_border_u, F_border_det2, F_border_ker, sqp. evs. Time field. nbz.
  - intros A B C HA HB HC N. cbn [defined]. split; [cbn; tauto|]. pose proof (sum_nz A B C HA HB HC) as S0.
    assert (D : defined (pt3 A B C) m) by (apply (TernaryCubic.cubic_symmetric_defined K (mult_cyc u)); [fpos|exact Em']).
    split; [exact D|]. rewrite (Mv A B C D), mult_value. apply flt_neq0. apply fadd_pos_l; [apply schur3_pos; assumption|].
    apply fmul_nonneg; [exact Eu0|]. unfold cyc3. cbn [fpow]. repeat apply fadd_nonneg; apply fmul_nonneg; try (apply flt_le; assumption);
    match goal with |- 0 <= ?z * (?z * 1) => replace (z * (z * 1)) with (z * z) by ring; apply fsqr_nonneg end.
Qed.
Lemma F_border_ok x y : solver_ok (Fform x y) (F_border x y).
Proof.
  intros e k. unfold F_border. destruct ((y =? 1) || _)%bool eqn:E0.
  - intro H. apply pair_inj in H. destruct H as [<- <-]. apply F_border0_ok. apply orb_true_iff in E0. destruct E0 as [E|E]; apply feqb_eq in E; auto.
  - apply orb_false_iff in E0. destruct E0 as [Ey _]. apply feqb_neq in Ey.
    assert (G : forall r, r = Ok (Some (e, k)) -> r = match F_border2 x y with Ok (Some e0) => Ok (Some (e0, F_border_ker x y)) | Ok None => Ok None | Err er => Err er end ->
      fcert e (fun A B C => Fform x y A B C + k * D7 A B C)).
    { intros r -> H. destruct (F_border2 x y) as [[e2|]|] eqn:E2; try discriminate. symmetry in H. apply pair_inj in H. destruct H as [<- <-]. apply F_border2_ok, E2. }
    destruct (negb (x =? 1) && _)%bool eqn:Ex; [|intro H; exact (G _ H eq_refl)].
    destruct (F_border1 x y) as [e1|] eqn:E1; [|intro H; exact (G _ H eq_refl)].
    intro H. apply pair_inj in H. destruct H as [<- <-]. apply andb_prop in Ex. destruct Ex as [Ex _]. apply negb_true_iff, feqb_neq in Ex.
    apply F_border1_ok; assumption.
Qed.
Lemma F_border_never_raises x y : exists o, F_border x y = Ok o.
Proof.
  unfold F_border. destruct (_ || _)%bool; [eauto|].
  assert (G : exists o, match F_border2 x y with Ok (Some e) => Ok (Some (e, F_border_ker x y)) | Ok None => Ok None | Err er => Err er end = Ok o).
  { unfold F_border2. destruct (_ && _)%bool eqn:E; [|eauto]. apply andb_prop in E. destruct E as [E _]. apply andb_prop in E. destruct E as [_ E]. apply fleb_le in E.
    destruct (mult_some _ E) as [m ->]. eauto. }
  destruct (_ && _)%bool; [|exact G]. destruct (F_border1 x y); [eauto|exact G].
Qed.
Lemma F_solvers_ok x y r : In r (F_solvers x y) -> solver_ok (Fform x y) r.
Proof. intros [<-|[<-|[<-|[<-|[<-|[]]]]]]; [apply F_square_ok|apply F_sos_ok|apply F_sos_ok|apply F_border_ok|apply F_regular_ok]. Qed.
Lemma G_solvers_ok x y r : In r (G_solvers x y) -> solver_ok (Gform x y) r.
Proof. intros [<-|[<-|[<-|[]]]]; [apply G_trivial_ok|apply G_border_ok|apply G_sos_ok]. Qed.
End Facts.
