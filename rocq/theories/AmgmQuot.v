(** * The univariate quotients of the AM-GM solver (lemmas for Amgm.v) *)
From Coq Require Import Bool List Arith Lia ZArith Ring Field.
From Verif Require Import OrdField Base Perm Poly PolyId Coeff Expr TriPoly Univariate.
From Verif Require Import DenseSym DenseSymAxis Amgm.
From Verif Require Sparse.
Import ListNotations.

Section Quot.
Variable K : OrdField.
Local Open Scope of_scope.
Add Field Kf : (F_field K).

(** ** Quotients by telescoping *)
Lemma syn1_tele (f F : nat -> K) n : forall s, F (s + n)%nat = 0 -> (forall k, (s <= k < s + n)%nat -> F k = F (S k) + f (S k)) ->
  syn1 (map f (seq s (S n))) = (map F (seq s n), F s + f s).
Proof.
  induction n as [|n IH]; intros s H0 H.
  - cbn. rewrite Nat.add_0_r in H0. rewrite H0. f_equal. ring.
  - change (map f (seq s (S (S n)))) with (f s :: map f (seq (S s) (S n))).
    assert (E : syn1 (map f (seq (S s) (S n))) = (map F (seq (S s) n), F (S s) + f (S s))).
    { apply IH; [rewrite <- H0; f_equal; lia|]. intros k Hk. apply H. lia. }
    change (map f (seq (S s) (S n))) with (f (S s) :: map f (seq (S (S s)) n)) in *.
    change (syn1 (f s :: f (S s) :: map f (seq (S (S s)) n)))
      with (let (q, r) := syn1 (f (S s) :: map f (seq (S (S s)) n)) in (r :: q, r + f s)).
    rewrite E. rewrite <- (H s) by lia. reflexivity.
Qed.
Lemma syn2_tele (f G : nat -> K) n : forall s, G (s + n)%nat = 0 -> G (S (s + n)) = 0 ->
  (forall k, (s <= k < s + n)%nat -> G k = f k + G (S (S k))) ->
  syn2 (map f (seq s n)) = (map (fun k => G (S (S k))) (seq s n), (G (S s), G s)).
Proof.
  induction n as [|n IH]; intros s H0 H1 H.
  - cbn. rewrite Nat.add_0_r in *. rewrite H0, H1. reflexivity.
  - cbn [seq map syn2]. rewrite (IH (S s)).
    + rewrite <- (H s) by lia. reflexivity.
    + rewrite <- H0. f_equal. lia.
    + rewrite <- H1. f_equal. lia.
    + intros k Hk. apply H. lia.
Qed.

(** ** The polynomials *)
Definition f1c (d1 d2 k : nat) : K :=
  if Nat.eqb k (d1 + d2) then fnat d1 else if Nat.eqb k d1 then - fnat (d1 + d2) else if Nat.eqb k 0 then fnat d2 else 0.
Lemma f1_map d1 d2 : f1_of d1 d2 = map (f1c d1 d2) (seq 0 (S (d1 + d2))).
Proof.
  unfold f1_of, from_dict. apply map_ext. intro k. unfold f1c. cbn [find fst snd].
  rewrite (Nat.eqb_sym (d1 + d2) k), (Nat.eqb_sym d1 k), (Nat.eqb_sym 0 k).
  destruct (Nat.eqb k (d1 + d2)), (Nat.eqb k d1), (Nat.eqb k 0); reflexivity.
Qed.
Definition f2s (d1 d2 k : nat) : K :=
  if Nat.eqb k (S d1) then fnat (d1 + d2) / 2 else if Nat.eqb k d1 then - fnat (d1 + d2) else if Nat.eqb k (pred d1) then fnat (d1 + d2) / 2 else 0.
Lemma usub_map (f g : nat -> K) l : usub (map f l) (map g l) = map (fun k => f k - g k) l.
Proof. unfold usub. induction l as [|x l IH]; [reflexivity|]. cbn [map combine fst snd]. rewrite IH. reflexivity. Qed.
Lemma f2_map d1 d2 : f2_of d1 d2 = map (fun k => f1c d1 d2 k - f2s d1 d2 k) (seq 0 (S (d1 + d2))).
Proof.
  unfold f2_of. rewrite f1_map. rewrite <- usub_map. f_equal. unfold from_dict. apply map_ext. intro k. unfold f2s. cbn [find fst snd].
  rewrite (Nat.eqb_sym (S d1) k), (Nat.eqb_sym d1 k), (Nat.eqb_sym (pred d1) k).
  destruct (Nat.eqb k (S d1)), (Nat.eqb k d1), (Nat.eqb k (pred d1)); reflexivity.
Qed.
Lemma usum_map (f : nat -> K) n : forall s x, ueval (map f (seq s n)) x = bsum n (fun i => f (s + i)%nat * x ^ i).
Proof.
  induction n as [|n IH]; intros s x; [reflexivity|]. rewrite bsum_Sl. cbn [seq map ueval]. rewrite IH, <- bsum_mul_l.
  cbn [fpow]. rewrite Nat.add_0_r. f_equal; [ring|]. apply bsum_ext. intros i _. rewrite Nat.add_succ_r. cbn [Nat.add fpow]. ring.
Qed.
Lemma f1_value d1 d2 (x : K) : (0 < d1)%nat -> (0 < d2)%nat ->
  ueval (f1_of d1 d2) x = fnat d1 * x ^ (d1 + d2) - fnat (d1 + d2) * x ^ d1 + fnat d2.
Proof.
  intros H1 H2. rewrite f1_map, usum_map. cbn [Nat.add].
  transitivity (bsum (S (d1 + d2)) (fun i => (if Nat.eqb i (d1 + d2) then fnat d1 * x ^ i else 0)
       + (if Nat.eqb i d1 then - fnat (d1 + d2) * x ^ i else 0) + (if Nat.eqb i 0 then fnat d2 * x ^ i else 0))).
  - apply bsum_ext. intros i _. unfold f1c.
    destruct (Nat.eqb_spec i (d1 + d2)), (Nat.eqb_spec i d1), (Nat.eqb_spec i 0); try lia; ring.
  - rewrite !bsum_add. rewrite (bsum_single K _ (d1 + d2)%nat), (bsum_single K _ d1), (bsum_single K _ 0%nat); try lia.
    + rewrite !Nat.eqb_refl. cbn [fpow]. ring.
    + intros i _ Hi. destruct (Nat.eqb_spec i 0); [contradiction|reflexivity].
    + intros i _ Hi. destruct (Nat.eqb_spec i d1); [contradiction|reflexivity].
    + intros i _ Hi. destruct (Nat.eqb_spec i (d1 + d2)); [contradiction|reflexivity].
Qed.

(** ** The odd case *)
Definition F1 (d1 d2 k : nat) : K :=
  if Nat.ltb k d1 then - fnat d2 else if Nat.ltb k (d1 + d2) then fnat d1 else 0.
Definition F2 (d1 d2 k : nat) : K :=
  if Nat.ltb k d1 then fnat d2 * fnat (S k) else fnat d1 * fnat (pred (d1 + d2) - k).
Lemma div_f1 d1 d2 : (0 < d1)%nat -> (0 < d2)%nat ->
  div_sq1 (f1_of d1 d2 : list K) = (map (F2 d1 d2) (seq 0 (pred (d1 + d2))), (0, 0)).
Proof.
  intros H1 H2. unfold div_sq1. rewrite f1_map.
  rewrite (syn1_tele (f1c d1 d2) (F1 d1 d2)); cycle 1.
  - unfold F1. rewrite Nat.add_0_l. destruct (Nat.ltb_spec (d1 + d2) d1); [lia|]. rewrite Nat.ltb_irrefl. reflexivity.
  - intros k Hk. unfold F1, f1c.
    destruct (Nat.ltb_spec k d1), (Nat.ltb_spec k (d1 + d2)), (Nat.ltb_spec (S k) d1), (Nat.ltb_spec (S k) (d1 + d2)),
      (Nat.eqb_spec (S k) (d1 + d2)), (Nat.eqb_spec (S k) d1), (Nat.eqb_spec (S k) 0); try lia; try ring.
    rewrite fnat_add. ring.
  - destruct (d1 + d2)%nat as [|D] eqn:ED; [lia|]. cbn [pred].
    rewrite (syn1_tele (F1 d1 d2) (F2 d1 d2)); cycle 1.
    + unfold F2. rewrite Nat.add_0_l. destruct (Nat.ltb_spec D d1).
      * exfalso. lia.
      * rewrite ED. cbn [pred]. rewrite Nat.sub_diag. cbn [fnat]. ring.
    + intros k Hk. unfold F2, F1. rewrite ED. cbn [pred]. 
      destruct (Nat.ltb_spec k d1), (Nat.ltb_spec (S k) d1), (Nat.ltb_spec (S k) (S D)); try lia.
      * cbn [fnat]. ring.
      * assert (k = d1 - 1)%nat by lia. subst k. replace (S (d1 - 1)) with d1 by lia. replace (D - d1)%nat with (d2 - 1)%nat by lia.
        replace (fnat d2 : K) with (fnat (S (d2 - 1)) : K) by (f_equal; lia). cbn [fnat]. ring.
      * replace (D - k)%nat with (S (D - S k)) by lia. cbn [fnat]. ring.
    + f_equal. f_equal.
      * unfold F2, F1. destruct (Nat.ltb_spec 0 d1); [|lia]. cbn [fnat]. ring.
      * unfold F2, F1, f1c. destruct (Nat.ltb_spec 0 d1); [|lia]. rewrite ED.
        destruct (Nat.eqb_spec 0 (S D)), (Nat.eqb_spec 0 d1), (Nat.eqb_spec 0 0); try lia. cbn [fnat]. ring.
Qed.
Lemma F2_nonneg d1 d2 k : 0 <= F2 d1 d2 k.
Proof. unfold F2. destruct (Nat.ltb k d1); apply fmul_nonneg; apply fnat_nonneg. Qed.

(** ** The even case: d1 = 2 e + 1, d1 + d2 = 2 n *)
Definition G1 (d1 d2 k : nat) : K :=
  if Nat.odd k then 0 else if Nat.eqb k 0 then 0 else if Nat.ltb k d1 then - fnat d2
  else if Nat.eqb k (S d1) then fnat d1 - fnat (d1 + d2) / 2 else if Nat.leb k (d1 + d2) then fnat d1 else 0.
Definition G2 (d1 d2 k : nat) : K :=
  if Nat.odd k then 0 else if Nat.ltb k d1 then fnat d2 * fnat k / 2 else fnat d1 * fnat (d1 + d2 - k) / 2.
Lemma G2_nonneg d1 d2 k : 0 <= G2 d1 d2 k.
Proof.
  unfold G2. destruct (Nat.odd k); [apply fle_refl|].
  destruct (Nat.ltb k d1); (apply fdiv_nonneg; [apply fmul_nonneg; apply fnat_nonneg|apply f2_pos]).
Qed.
Lemma odd_S k : Nat.odd (S k) = negb (Nat.odd k).
Proof. rewrite Nat.odd_succ, <- Nat.negb_odd. reflexivity. Qed.
Lemma odd_SS k : Nat.odd (S (S k)) = Nat.odd k.
Proof. rewrite !odd_S. apply negb_involutive. Qed.
Lemma odd_2i i : Nat.odd (2 * i) = false.
Proof. induction i as [|i IH]; [reflexivity|]. replace (2 * S i)%nat with (S (S (2 * i))) by lia. rewrite odd_SS. exact IH. Qed.
Lemma fnat_2i i : (fnat (2 * i) : K) = (1 + 1) * fnat i.
Proof. rewrite fnat_mul. cbn [fnat]. ring. Qed.
Lemma two_neq0 : (1 + 1 : K) <> 0.
Proof. apply flt_neq0. apply fadd_pos; apply f1_pos. Qed.
Ltac cases_nat :=
  repeat match goal with
  | |- context [Nat.ltb ?x ?y] => destruct (Nat.ltb_spec x y); try (exfalso; lia)
  | |- context [Nat.leb ?x ?y] => destruct (Nat.leb_spec x y); try (exfalso; lia)
  | |- context [Nat.eqb ?x ?y] => destruct (Nat.eqb_spec x y); try (exfalso; lia)
  end.
Lemma div_f2' e f : let d1 := S (2 * e) in let d2 := S (2 * f) in
  div_sq2 (f2_of d1 d2 : list K) = Some (map (fun k => G2 d1 d2 (S (S k))) (seq 0 (S (d1 + d2)))).
Proof.
  intros d1 d2. pose proof two_neq0 as N2.
  assert (O1 : Nat.odd d1 = true) by (unfold d1; rewrite odd_S, odd_2i; reflexivity).
  assert (ED : (d1 + d2 = 2 * (e + f + 1))%nat) by (unfold d1, d2; lia).
  assert (par : forall k, exists i, k = (2 * i)%nat \/ k = S (2 * i)).
  { intro k. destruct (Nat.Even_or_Odd k) as [[i Hi]|[i Hi]]; exists i; [left|right]; lia. }
  unfold div_sq2. rewrite f2_map.
  rewrite (syn2_tele (fun k => f1c d1 d2 k - f2s d1 d2 k) (G1 d1 d2)).
  - assert (Z0 : G1 d1 d2 0 = 0) by (unfold G1; cbn [Nat.odd]; reflexivity).
    assert (Z1 : G1 d1 d2 1 = 0) by reflexivity.
    rewrite Z0, Z1. replace ((0 : K) =? 0) with true by (symmetry; apply feqb_eq; reflexivity). cbn [andb].
    rewrite (syn2_tele (fun k => G1 d1 d2 (S (S k))) (G2 d1 d2)).
    + assert (Y0 : G2 d1 d2 0 = 0). { unfold G2. cbn [Nat.odd]. change (Nat.ltb 0 d1) with true. cbn [fnat]. change (Nat.odd 0) with false. cbv iota. field. fnz. }
      assert (Y1 : G2 d1 d2 1 = 0) by reflexivity.
      rewrite Y0, Y1. replace ((0 : K) =? 0) with true by (symmetry; apply feqb_eq; reflexivity). reflexivity.
    + unfold G2. rewrite Nat.add_0_l, odd_S, ED, odd_2i. reflexivity.
    + unfold G2. rewrite Nat.add_0_l, !odd_SS, ED, odd_2i.
      destruct (Nat.ltb_spec (S (S (2 * (e + f + 1)))) d1) as [X|X]; [unfold d1 in X; lia|].
      replace (2 * (e + f + 1) - S (S (2 * (e + f + 1))))%nat with 0%nat by lia. cbn [fnat]. field. fnz.
    + intros k Hk. destruct (par k) as [i [-> | ->]].
      * unfold G1, G2. rewrite !odd_SS, !odd_2i, ED.
        unfold d1, d2 in *. cases_nat.
        -- replace (S (S (2 * i))) with (2 * S i)%nat by lia. rewrite !fnat_2i. cbn [fnat]. rewrite fnat_2i. field. fnz.
        -- assert (i = e) by lia. subst i. replace (2 * (e + f + 1) - S (S (2 * e)))%nat with (2 * f)%nat by lia. 
           cbn [fnat]. rewrite !fnat_2i, !fnat_add. cbn [fnat]. field. fnz.
        -- replace (2 * (e + f + 1) - 2 * i)%nat with (2 * (S (e + f - i)))%nat by lia.
           replace (2 * (e + f + 1) - S (S (2 * i)))%nat with (2 * (e + f - i))%nat by lia.
           rewrite !fnat_2i. cbn [fnat]. field. fnz.
        -- replace (2 * (e + f + 1) - 2 * i)%nat with 0%nat by lia. replace (2 * (e + f + 1) - S (S (2 * i)))%nat with 0%nat by lia. cbn [fnat]. field. fnz.
      * unfold G1, G2. rewrite !odd_SS, !odd_S, !odd_2i. cbn [negb]. ring.
  - unfold G1. rewrite Nat.add_0_l, odd_S, ED, odd_2i. reflexivity.
  - unfold G1. rewrite Nat.add_0_l, !odd_SS, ED, odd_2i. unfold d1. cases_nat. reflexivity.
  - intros k Hk. destruct (par k) as [i [-> | ->]].
    + unfold G1, f1c, f2s. rewrite !odd_SS, !odd_2i, ED. unfold d1, d2 in *. cbn [pred]. cases_nat;
      cbn [fnat]; rewrite ?fnat_2i, ?fnat_add; cbn [fnat]; try (field; fnz); try ring.
    + unfold G1, f1c, f2s. rewrite !odd_SS, !odd_S, !odd_2i, ED. cbn [negb]. unfold d1, d2 in *. cbn [pred]. cases_nat; ring.
Qed.
Lemma odd_form d : Nat.odd d = true -> exists e, d = S (2 * e).
Proof. intro H. apply Nat.odd_spec in H. destruct H as [e He]. exists e. lia. Qed.
Lemma div_f2 d1 d2 : Nat.odd d1 = true -> Nat.odd d2 = true ->
  div_sq2 (f2_of d1 d2 : list K) = Some (map (fun k => G2 d1 d2 (S (S k))) (seq 0 (S (d1 + d2)))).
Proof. intros H1 H2. destruct (odd_form d1 H1) as [e ->]. destruct (odd_form d2 H2) as [f ->]. apply div_f2'. Qed.
End Quot.
