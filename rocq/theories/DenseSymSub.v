(** * The subtracted forms of the method without lift: their axis and their residue *)
From Coq Require Import Bool List Arith Lia ZArith Ring Field Permutation.
From Verif Require Import OrdField Base Perm Poly PolyId PolyOps Coeff Expr CertLimit TriPoly Monomials Univariate UnivariateLemmas.
From Verif Require Acute AcuteFacts Sparse TernaryTables.
From Verif Require Import SymDiv DenseSym DenseSymFacts DenseSymAxis DenseSymMain DenseSymTop.
Import ListNotations.

Section Sub.
Variable K : OrdField.
Local Open Scope of_scope.
Add Field Kf : (F_field K).
Implicit Types (p q : poly K) (e : ex K) (f : list K).

Lemma pow_split (x : K) n m : (m <= n)%nat -> x ^ m * x ^ (n - m) = x ^ n.
Proof. intro H. rewrite <- fpow_add. f_equal. lia. Qed.
Ltac ax := cbn [ev cprod csum erename rot3 pt3]; rewrite ?fpow_1; repeat match goal with |- context [?u ^ ?n] =>
    match u with
    | (1 + 1 - ?x) => fail 1
    | (1 + ?x - 1) => replace (1 + x - 1) with x by ring
    | (?x + 1 - 1) => replace (x + 1 - 1) with x by ring
    end end.

Lemma subtractor1_axis n m e x : subtractor1 (K := K) n m = Some e -> ev (pt3 x 1 1) e = x ^ n * ((x - 1) * (x - 1)).
Proof.
  unfold subtractor1. destruct (Nat.leb m n) eqn:E1.
  - apply Nat.leb_le in E1. destruct (Nat.even (n - m)) eqn:E2.
    + intro H. injection H as <-. ax. rewrite <- (pow_split x n m E1). generalize (x ^ m) (x ^ (n - m)) ((1 + 1 - x) ^ (n - m)). intros X Y Z. cbn [fpow]. field. fnz.
    + destruct (Nat.eqb n (m + 1) && Nat.leb 1 m)%bool eqn:E3.
      * apply andb_prop in E3. destruct E3 as [E3 E4]. apply Nat.eqb_eq in E3. apply Nat.leb_le in E4.
        intro H. injection H as <-. ax. replace (x ^ n) with (x ^ (m - 1) * x ^ 2) by (rewrite <- fpow_add; f_equal; lia).
        assert (H6 : fnat (K := K) 6 <> 0) by (apply flt_neq0, fnat_pos; lia). generalize (x ^ (m - 1)). intro X.
        match goal with |- _ * (_ * ?s) = _ => replace s with (fnat 6 * (x ^ 2 * ((x - 1) * (x - 1)))) by (cbn [fnat fpow]; ring) end.
        change (1 + (1 + (1 + (1 + (1 + (1 + 0)))))) with (fnat (K := K) 6).
        revert H6. generalize (fnat (K := K) 6). intros z H6. cbn [fpow]. field. exact H6.
      * destruct (Nat.leb 1 m) eqn:E4; [|discriminate]. apply Nat.leb_le in E4.
        intro H. injection H as <-. ax. replace (x ^ n) with (x ^ (m - 1) * x ^ (n - m + 1)) by (rewrite <- fpow_add; f_equal; lia).
        generalize (x ^ (m - 1)) (x ^ (n - m + 1)) ((1 + 1 - x) ^ (n - m + 1)). intros X Y Z. cbn [fpow]. field. fnz.
  - intro H. injection H as <-. ax. generalize (x ^ n) (x ^ (2 * (m - n))). intros X Y. cbn [fpow]. field. fnz.
Qed.
Lemma subtractor2_axis n m x : ev (pt3 x 1 1) (subtractor2 (K := K) n m) = x ^ n * ((x - 1) * (x - 1)).
Proof.
  unfold subtractor2. destruct (Nat.leb m n) eqn:E1.
  - apply Nat.leb_le in E1. destruct (Nat.even (n - m)) eqn:E2.
    + ax. rewrite <- (pow_split x n m E1). generalize (x ^ m) (x ^ (n - m)) ((1 + 1 - x) ^ (n - m)). intros X Y Z. cbn [fpow]. field. fnz.
    + destruct (even_S_odd _ E2) as (_ & _ & E6). ax.
      replace (x ^ n) with (x ^ m * (x * x ^ (n - m - 1))).
      2:{ transitivity (x ^ m * x ^ 1 * x ^ (n - m - 1)); [cbn [fpow]; ring|]. rewrite <- !fpow_add. f_equal. lia. }
      generalize (x ^ m) (x ^ (n - m - 1)) ((1 + 1 - x) ^ (n - m - 1)). intros X Y Z. cbn [fpow]. field. fnz.
  - ax. generalize (x ^ n) (x ^ (2 * (m - n) + 1)). intros X Y. cbn [fpow]. field. fnz.
Qed.

(** a symmetric expression with the axis of another one differs from it by a multiple of the
    squared discriminant *)
Lemma same_axis d x y : symex K d x -> symex K d y -> (forall t, ev (pt3 t 1 1) x = ev (pt3 t 1 1) y) ->
  exists q, wf 3 q /\ forall A B C, ev (pt3 A B C) x = ev (pt3 A B C) y + peval (pt3 A B C) q * D6 K A B C.
Proof.
  intros (Hx & Cx & Sx) SY H. destruct (expand_spec K x (HD_divfree K _ _ Hx)) as (Wx & Vx & _).
  assert (G : symform K (expand x)).
  { split; [exact Wx|]. split; [exists d; apply HD_expand, Hx|]. split; intros A B C; rewrite !Vx; [apply Cx|apply Sx]. }
  destruct (diff_form1 K d (expand x) y G (HD_expand K _ _ Hx) SY) as ((W & _ & Pc & Ps) & D & V).
  destruct (axis_divides K _ W Pc Ps) as (q & Wq & Vq).
  { apply (axis_zero K d); [exact W|exact D|]. intro t. rewrite V, Vx, H. ring. }
  exists q. split; [exact Wq|]. intros A B C. rewrite <- Vq, V, Vx. ring.
Qed.
(** the models of the comments: s(a^n b^m c^m (a-b)(a-c)) and s(a^n b^m c^m (a-b)(a-c)(b+c)/2) *)
Definition schur1 (n m : nat) : ex K := csum (EX 0 ^ n * EX 1 ^ m * EX 2 ^ m * (EX 0 - EX 1) * (EX 0 - EX 2))%E.
Definition schur2 (n m : nat) : ex K :=
  csum (EX 0 ^ n * EX 1 ^ m * EX 2 ^ m * (EX 0 - EX 1) * (EX 0 - EX 2) * (EC (1 / 2) * (EX 1 + EX 2)))%E.
Lemma schur1_sym n m : symex K (n + 2 * m + 2) (schur1 n m).
Proof.
  apply symex_csum.
  - apply (HD_eq K (n + m + m + 1 + 1)); [lia|]. repeat apply HD_mul; try (apply HD_mon_pow; lia); apply HD_sub; apply HD_x; lia.
  - intros A B C. cbn [ev pt3]. ring.
Qed.
Lemma schur2_sym n m : symex K (n + 2 * m + 3) (schur2 n m).
Proof.
  apply symex_csum.
  - apply (HD_eq K (n + m + m + 1 + 1 + (0 + 1))); [lia|]. repeat apply HD_mul; try (apply HD_mon_pow; lia); try (apply HD_sub; apply HD_x; lia); [apply HD_c|].
    apply HD_add; apply HD_x; lia.
  - intros A B C. cbn [ev pt3]. ring.
Qed.
Lemma schur1_axis n m x : ev (pt3 x 1 1) (schur1 n m) = x ^ n * ((x - 1) * (x - 1)).
Proof. unfold schur1. cbn [ev csum erename rot3 pt3]. rewrite !fpow_1. ring. Qed.
Lemma schur2_axis n m x : ev (pt3 x 1 1) (schur2 n m) = x ^ n * ((x - 1) * (x - 1)).
Proof. unfold schur2. cbn [ev csum erename rot3 pt3]. rewrite !fpow_1. field. fnz. Qed.
Lemma subtractor1_residue n m e : subtractor1 n m = Some e ->
  (forall A B C, 0 <= A -> 0 <= B -> 0 <= C -> 0 <= ev (pt3 A B C) e) /\
  exists q, wf 3 q /\ forall A B C, ev (pt3 A B C) e = ev (pt3 A B C) (schur1 n m) + peval (pt3 A B C) q * D6 K A B C.
Proof.
  intro H. destruct (subtractor1_good K n m e H) as [SX MX]. split.
  - intros A B C HA HB HC. apply manifest_value; try assumption. apply divfree_defined. eapply HD_divfree, SX.
  - apply (same_axis (n + 2 * m + 2)); [exact SX|apply schur1_sym|]. intro t. rewrite (subtractor1_axis n m e t H), schur1_axis. reflexivity.
Qed.
Lemma subtractor2_residue n m :
  (forall A B C, 0 <= A -> 0 <= B -> 0 <= C -> 0 <= ev (pt3 A B C) (subtractor2 (K := K) n m)) /\
  exists q, wf 3 q /\ forall A B C, ev (pt3 A B C) (subtractor2 n m) = ev (pt3 A B C) (schur2 n m) + peval (pt3 A B C) q * D6 K A B C.
Proof.
  destruct (subtractor2_good K n m) as [SX MX]. split.
  - intros A B C HA HB HC. apply manifest_value; try assumption. apply divfree_defined. eapply HD_divfree, SX.
  - apply (same_axis (n + 2 * m + 3)); [exact SX|apply schur2_sym|]. intro t. rewrite subtractor2_axis, schur2_axis. reflexivity.
Qed.

(** ** Order four on the axis after the subtraction *)
Lemma pow_taylor n : exists t, forall x : K, x ^ n = 1 + fnat n * (x - 1) + (x - 1) * (x - 1) * ueval t x.
Proof.
  induction n as [|n [t IH]].
  - exists []. intro x. rewrite ueval_nil. cbn [fpow fnat]. ring.
  - exists (uadd [fnat n] (umul [0; 1] t)). intro x. cbn [fpow]. rewrite IH, ueval_uadd, ueval_umul, !ueval_cons, ueval_nil. cbn [fnat]. ring.
Qed.
Lemma subtractor_axis d n u2 v2 e : subtractor (K := K) d n u2 v2 = Ok (Some e) ->
  forall x, ev (pt3 x 1 1) e = (u2 * x ^ S n + v2 * x ^ n) * ((x - 1) * (x - 1)).
Proof.
  unfold subtractor. set (m := ((d - n - 3) / 2)%nat). destruct (Nat.even (d - n - 3)).
  - destruct (Nat.leb m n && Nat.eqb m 0)%bool; [discriminate|]. destruct (subtractor1 (n + 1) m) as [e1|] eqn:E1; [|discriminate].
    intros H x. apply Ok_inj in H. assert (e = (EC u2 * e1 + EC v2 * subtractor2 n m)%E) by congruence. subst e. cbn [ev].
    rewrite (subtractor1_axis _ _ _ x E1), subtractor2_axis. replace (n + 1)%nat with (S n) by lia. ring.
  - destruct (subtractor1 n (m + 1)) as [e1|] eqn:E1; [|discriminate].
    intros H x. apply Ok_inj in H. assert (e = (EC u2 * subtractor2 (n + 1) m + EC v2 * e1)%E) by congruence. subst e. cbn [ev].
    rewrite (subtractor1_axis _ _ _ x E1), subtractor2_axis. replace (n + 1)%nat with (S n) by lia. ring.
Qed.
Lemma subtractor_order4 d n u v e : subtractor d n (u - (u + v) * fnat n) (v + (u + v) * fnat n) = Ok (Some e) ->
  exists g, forall x, ev (pt3 x 1 1) e = (x - 1) * (x - 1) * (u * x + v + (x - 1) * (x - 1) * ueval g x).
Proof.
  intro H. pose proof (subtractor_axis _ _ _ _ _ H) as V. destruct (pow_taylor n) as [t Ht]. set (N := fnat (K := K) n) in *.
  exists (uadd [(u - (u + v) * N) * N] (umul [v + (u + v) * N; u - (u + v) * N] t)).
  intro x. rewrite V. cbn [fpow]. rewrite Ht, ueval_uadd, ueval_umul, !ueval_cons, ueval_nil. ring.
Qed.

(** the division by (a-1)^4 succeeds on every multiple *)
Lemma shift_poly f : is_poly K (fun t => ueval f (1 + t * 1)).
Proof.
  induction f as [|c f IH].
  - apply (poly_ext K (fun _ => 0)); [intro; rewrite ueval_nil; reflexivity|apply poly_const].
  - apply (poly_ext K (fun t => c + (1 + t * 1) * ueval f (1 + t * 1))); [intro; rewrite ueval_cons; reflexivity|].
    apply poly_add; [apply poly_const|]. apply poly_mul; [apply poly_line|exact IH].
Qed.
Lemma cancel_1 f : (forall x, (x - 1) * ueval f x = 0) -> forall x, ueval f x = 0.
Proof.
  intros H x. destruct (feq_dec K x 1) as [->|N].
  - assert (Z : (fun t => ueval f (1 + t * 1)) 0 = 0).
    { apply (AcuteFacts.zero_by_product K (fun t => ueval f (1 + t * 1)) (fun t => 0 + t * 1)); [apply shift_poly|apply poly_line| |].
      - exists 1. intro X. apply (fneq10 K). transitivity (0 + 1 * 1 : K); [ring|exact X].
      - intro t. transitivity ((1 + t * 1 - 1) * ueval f (1 + t * 1)); [ring|apply H]. }
    cbv beta in Z. replace (1 + 0 * 1 : K) with (1 : K) in Z by ring. exact Z.
  - destruct (fmul_eq0 K _ _ (H x)) as [E|E]; [|exact E]. exfalso. apply N, (fsub_eq0 K), E.
Qed.
Lemma syn1_exact f h (q : list K) r : syn1 f = (q, r) -> (forall x, ueval f x = (x - 1) * ueval h x) -> r = 0 /\ forall x, ueval q x = ueval h x.
Proof.
  intros E H. destruct (syn1_spec K f q r E) as [_ V]. assert (R : r = 0).
  { pose proof (V 1) as X. rewrite H in X. transitivity ((1 - 1) * ueval q 1 + r); [ring|]. rewrite <- X. ring. }
  split; [exact R|]. subst r. intro x. apply (fsub_eq0 K). rewrite <- ueval_usub. revert x. apply cancel_1. intro x. rewrite ueval_usub.
  transitivity ((x - 1) * ueval q x + 0 - (x - 1) * ueval h x); [ring|]. rewrite <- V, H. ring.
Qed.
Lemma div_sq1_exact f h (q : list K) u v : div_sq1 f = (q, (u, v)) -> (forall x, ueval f x = (x - 1) * (x - 1) * ueval h x) ->
  u = 0 /\ v = 0 /\ forall x, ueval q x = ueval h x.
Proof.
  unfold div_sq1. destruct (syn1 f) as [q1 r0] eqn:E1. destruct (syn1 q1) as [q2 r1] eqn:E2. intros H V.
  apply pair_equal_spec in H. destruct H as [<- H]. apply pair_equal_spec in H. destruct H as [<- <-].
  destruct (syn1_exact f (umul [- (1); 1] h) q1 r0 E1) as [R0 V1].
  { intro x. rewrite V, ueval_umul, !ueval_cons, ueval_nil. ring. }
  destruct (syn1_exact q1 h q2 r1 E2) as [R1 V2].
  { intro x. rewrite V1, ueval_umul, !ueval_cons, ueval_nil. ring. }
  subst. split; [reflexivity|]. split; [ring|exact V2].
Qed.
Lemma div_fourth1_complete f h : (forall x, ueval f x = (x - 1) * (x - 1) * ((x - 1) * (x - 1)) * ueval h x) -> exists g, div_fourth1 f = Some g.
Proof.
  intro V. unfold div_fourth1. destruct (div_sq1 f) as [q1 [u v]] eqn:E1.
  destruct (div_sq1_exact f (umul [1; - (2); 1] h) q1 u v E1) as (-> & -> & V1).
  { intro x. rewrite V, ueval_umul, !ueval_cons, ueval_nil. ring. }
  destruct (div_sq1 q1) as [q2 [u' v']] eqn:E2.
  destruct (div_sq1_exact q1 h q2 u' v' E2) as (-> & -> & V2).
  { intro x. rewrite V1, ueval_umul, !ueval_cons, ueval_nil. ring. }
  rewrite (proj2 (feqb_eq K 0 0) eq_refl). cbn [andb]. eauto.
Qed.

(** after the subtraction the second division never fails *)
Lemma after_subtraction p d n u v g f s0 : symform K p -> coeff_degree p = d -> (n + 3 <= d)%nat -> div_sq1 (axis d p) = (f, (0, 0)) -> div_sq1 f = (g, (u, v)) ->
  0 <= u - (u + v) * fnat n -> 0 <= v + (u + v) * fnat n ->
  subtractor d n (u - (u + v) * fnat n) (v + (u + v) * fnat n) = Ok (Some s0) ->
  exists h, div_fourth1 (axis (coeff_degree (padd p (pneg (expand s0)))) (padd p (pneg (expand s0)))) = Some h.
Proof.
  intros G Ed Hn E1 E2 U2 V2 Es. subst d. set (d := coeff_degree p) in *. pose proof (symform_degree K p G) as Hd. fold d in Hd.
  destruct (subtractor_good K d n _ _ s0 Hn U2 V2 Es) as [SX _].
  destruct (diff_form1 K d p s0 G Hd SX) as (GP & DP & VP). set (P := padd p (pneg (expand s0))) in *.
  destruct (subtractor_order4 d n u v s0 Es) as [t Ht].
  destruct (div_sq1_spec K _ _ _ _ E1) as [_ Vf]. destruct (div_sq1_spec K _ _ _ _ E2) as [_ Vg].
  apply (div_fourth1_complete _ (usub g t)). intro x.
  rewrite (axis_value K _ P x (proj1 GP) (symform_degree K P GP)), VP, Ht, <- (axis_value K d p x (proj1 G) Hd), Vf, Vg, ueval_usub. ring.
Qed.

(** ** The statements of C71 *)
Lemma dense_symmetric_spec (uni : list K -> res (option (wsos K * wsos K))) ternary pdiv ffloor p d e :
  uni_ok K uni -> ternary_ok K ternary -> pdiv_ok K pdiv ->
  wf 3 p -> homdeg d p -> sos_struct_dense_symmetric uni ternary pdiv ffloor p = Ok (Some e) ->
  (forall A B C, defined (pt3 A B C) e -> ev (pt3 A B C) e = peval (pt3 A B C) p) /\
  (forall A B C, 0 <= A -> 0 <= B -> 0 <= C -> defined (pt3 A B C) e -> 0 <= ev (pt3 A B C) e) /\
  (forall A B C, 0 <= A -> 0 <= B -> 0 <= C -> 0 <= peval (pt3 A B C) p).
Proof.
  intros U T PD W Hd. unfold sos_struct_dense_symmetric. destruct (Nat.ltb (coeff_degree p) 8); [discriminate|].
  destruct (is_cyclic 3 [[1; 2; 0]; [1; 0; 2]]%nat p) eqn:E; cbn [orb negb]; [|discriminate]. intro H.
  destruct (dense_exact K uni ternary pdiv ffloor _ U T PD p e (symmetric_symform K p d W Hd E) H) as (X1 & X2 & A0 & B0 & C0 & HA & HB & HC & _ & D0).
  split; [exact X1|]. split; [exact X2|]. intros A B C PA PB PC. rewrite (peval_tri K d p A B C W Hd).
  apply (cert_orthant d (cfp p) e A0 B0 C0); try assumption. intros X Y Z HX. rewrite (X1 X Y Z HX). apply peval_tri; assumption.
Qed.
Lemma dense_symmetric_ends (uni : list K -> res (option (wsos K * wsos K))) ternary pdiv ffloor p d :
  uni_ok K uni -> uni_total K uni -> ternary_total K ternary -> pdiv_ok K pdiv ->
  wf 3 p -> homdeg d p -> (forall m, In m (keys p) -> coef p m <> 0) ->
  exists o, sos_struct_dense_symmetric uni ternary pdiv ffloor p = Ok o.
Proof.
  intros U UT TT PD W Hd N. unfold sos_struct_dense_symmetric. destruct (Nat.ltb (coeff_degree p) 8); [exists None; reflexivity|].
  destruct (is_cyclic 3 [[1; 2; 0]; [1; 0; 2]]%nat p) eqn:E; cbn [orb negb]; [|exists None; reflexivity].
  apply (dense_total K uni ternary pdiv ffloor _ U UT TT PD p (symmetric_symform K p d W Hd E) N). lia.
Qed.
Lemma equal_axis p1 p2 d :
  wf 3 p1 -> wf 3 p2 -> homdeg d p1 -> homdeg d p2 ->
  is_cyclic 3 [[1; 2; 0]; [1; 0; 2]]%nat p1 = true -> is_cyclic 3 [[1; 2; 0]; [1; 0; 2]]%nat p2 = true ->
  (forall x, peval (pt3 x 1 1) p1 = peval (pt3 x 1 1) p2) ->
  exists q, wf 3 q /\ forall A B C,
    peval (pt3 A B C) p1 = peval (pt3 A B C) p2 + peval (pt3 A B C) q * ((A - B) * (A - B) * ((B - C) * (B - C)) * ((C - A) * (C - A))).
Proof.
  intros W1 W2 D1 D2 C1 C2 H. destruct (symmetric_symform K p1 d W1 D1 C1) as (_ & _ & P1c & P1s). destruct (symmetric_symform K p2 d W2 D2 C2) as (_ & _ & P2c & P2s).
  destruct (pneg_spec K 3 _ W2) as (Wn & Vn & Dn). destruct (padd_full K 3 _ _ W1 Wn) as (Wr & Vr & Dr). set (r := padd p1 (pneg p2)) in *.
  assert (V : forall x, peval x r = peval x p1 - peval x p2) by (intro x; rewrite Vr, Vn; ring).
  destruct (axis_divides K r Wr) as (q & Wq & Vq).
  - intros A B C. rewrite !V, (P1c A B C), (P2c A B C). reflexivity.
  - intros A B C. rewrite !V, (P1s A B C), (P2s A B C). reflexivity.
  - apply (axis_zero K d); [exact Wr|apply Dr; [exact D1|apply Dn, D2]|]. intro x. rewrite V, H. ring.
  - exists q. split; [exact Wq|]. intros A B C. fold (D6 K A B C). rewrite <- Vq, V. ring.
Qed.
Lemma subtractor1_comment n m (e : ex K) : subtractor1 n m = Some e ->
  (forall A B C, 0 <= A -> 0 <= B -> 0 <= C -> 0 <= ev (pt3 A B C) e) /\
  exists q, wf 3 q /\ forall A B C, ev (pt3 A B C) e =
    (A ^ n * B ^ m * C ^ m * (A - B) * (A - C) + B ^ n * C ^ m * A ^ m * (B - C) * (B - A) + C ^ n * A ^ m * B ^ m * (C - A) * (C - B))
    + peval (pt3 A B C) q * ((A - B) * (A - B) * ((B - C) * (B - C)) * ((C - A) * (C - A))).
Proof. intro H. destruct (subtractor1_residue n m e H) as (N & q & W & V). split; [exact N|]. exists q. split; [exact W|]. intros A B C. rewrite V. reflexivity. Qed.
Lemma subtractor2_comment n m :
  (forall A B C, 0 <= A -> 0 <= B -> 0 <= C -> 0 <= ev (pt3 A B C) (subtractor2 (K := K) n m)) /\
  exists q, wf 3 q /\ forall A B C, ev (pt3 A B C) (subtractor2 n m) =
    (A ^ n * B ^ m * C ^ m * (A - B) * (A - C) * ((B + C) / 2) + B ^ n * C ^ m * A ^ m * (B - C) * (B - A) * ((C + A) / 2)
     + C ^ n * A ^ m * B ^ m * (C - A) * (C - B) * ((A + B) / 2))
    + peval (pt3 A B C) q * ((A - B) * (A - B) * ((B - C) * (B - C)) * ((C - A) * (C - A))).
Proof.
  destruct (subtractor2_residue n m) as (N & q & W & V). split; [exact N|]. exists q. split; [exact W|]. intros A B C. rewrite V.
  unfold schur2, D6. cbn [ev csum erename rot3 pt3]. field. fnz.
Qed.
End Sub.
