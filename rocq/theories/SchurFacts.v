(** * Facts on the Schur-like forms *)
From Coq Require Import Bool List Arith Lia ZArith Ring Field.
From Verif Require Import OrdField Base Perm Poly PolyOps Expr CertLimit Schur.
Import ListNotations.

Section Facts.
Variable K : OrdField.
Local Open Scope of_scope.
Add Field Kf : (F_field K).

(** the forms themselves *)
Definition Ssum (n r : nat) (A B C : K) : K := A ^ n * (B ^ r - C ^ r) + B ^ n * (C ^ r - A ^ r) + C ^ n * (A ^ r - B ^ r).
Definition Pform (n r m s : nat) (A B C : K) : K := Ssum n r A B C * Ssum m s A B C.
Definition Hpos (n m r : nat) (A B C : K) : K :=
  A ^ n * (B ^ m + C ^ m) * (A ^ r - B ^ r) * (A ^ r - C ^ r)
  + B ^ n * (C ^ m + A ^ m) * (B ^ r - C ^ r) * (B ^ r - A ^ r)
  + C ^ n * (A ^ m + B ^ m) * (C ^ r - A ^ r) * (C ^ r - B ^ r).
Definition Hneg (n m r : nat) (A B C : K) : K :=
  B ^ n * C ^ n * (B ^ m + C ^ m) * (A ^ r - B ^ r) * (A ^ r - C ^ r)
  + C ^ n * A ^ n * (C ^ m + A ^ m) * (B ^ r - C ^ r) * (B ^ r - A ^ r)
  + A ^ n * B ^ n * (A ^ m + B ^ m) * (C ^ r - A ^ r) * (C ^ r - B ^ r).
Definition Hform (n : Z) (m r : nat) (A B C : K) : K :=
  if (0 <=? n)%Z then Hpos (Z.to_nat n) m r A B C else Hneg (Z.to_nat (- n)) m r A B C.

Lemma acc_dict_spec l : (forall t, In t l -> length (fst t) = 3%nat) ->
  wf 3 (acc_dict l : poly K) /\ (forall x : nat -> K, peval x (acc_dict l) = peval x l).
Proof.
  intro H. unfold acc_dict.
  assert (W : wf 3 ([] : poly K)) by (split; [constructor|intros m []]).
  destruct (fold_add_eval K (fun _ => 0) 3 l [] W H) as [W' _].
  split; [apply clean_wf, W'|]. intro x. rewrite clean_eval.
  destruct (fold_add_eval K x 3 l [] W H) as [_ ->]. rewrite peval_nil. change (fsum _) with (peval x l). ring.
Qed.
Lemma acc_dict_keys l m : In m (keys (acc_dict l : poly K)) -> In m (map fst l).
Proof. intro H. apply clean_keys in H. apply fold_add_keys in H. destruct H as [[]|H]. exact H. Qed.

Lemma meval3 (x : nat -> K) i j k : meval x [i; j; k] = x 0%nat ^ i * x 1%nat ^ j * x 2%nat ^ k.
Proof. rewrite !meval_cons, meval_nil. ring. Qed.

Ltac lens := let t := fresh in let Ht := fresh in intros t Ht; cbn [In] in Ht;
  repeat (destruct Ht as [<- |Ht]; [reflexivity|]); destruct Ht.
Ltac degs := let t := fresh in let Ht := fresh in intros t Ht; cbn [map fst In] in Ht;
  repeat (destruct Ht as [<- |Ht]; [cbn; lia|]); destruct Ht.

Lemma pnrms_coeff_spec n r m s v : wf 3 (pnrms_coeff n r m s v : poly K) /\ homdeg (n + r + m + s) (pnrms_coeff n r m s v : poly K) /\
  forall x : nat -> K, peval x (pnrms_coeff n r m s v) = v * Pform n r m s (x 0%nat) (x 1%nat) (x 2%nat).
Proof.
  unfold pnrms_coeff.
  match goal with |- wf 3 (acc_dict ?l) /\ _ => destruct (acc_dict_spec l) as [W E]; [lens|] end.
  split; [exact W|]. split.
  - intros k Hk. apply acc_dict_keys in Hk. revert k Hk. degs.
  - intro x. rewrite E. clear. rewrite !peval_cons, peval_nil, !meval3. unfold Pform, Ssum. rewrite !fpow_add. cbn [fpow]. ring.
Qed.
Lemma hnmr_coeff_spec n m r v : wf 3 (hnmr_coeff n m r v : poly K) /\
  homdeg (if (0 <=? n)%Z then Z.to_nat n + m + 2 * r else 2 * Z.to_nat (- n) + m + 2 * r) (hnmr_coeff n m r v : poly K) /\
  forall x : nat -> K, peval x (hnmr_coeff n m r v) = v * Hform n m r (x 0%nat) (x 1%nat) (x 2%nat).
Proof.
  unfold hnmr_coeff, Hform. destruct (0 <=? n)%Z.
  - set (k := Z.to_nat n). cbv zeta.
    match goal with |- wf 3 (acc_dict ?l) /\ _ => destruct (acc_dict_spec l) as [W E]; [lens|] end.
    split; [exact W|]. split.
    + intros q Hq. apply acc_dict_keys in Hq. revert q Hq. degs.
    + intro x. rewrite E. clear. rewrite !peval_cons, peval_nil, !meval3. unfold Hpos.
      replace (2 * r)%nat with (r + r)%nat by lia. rewrite !fpow_add. cbn [fpow]. ring.
  - set (k := Z.to_nat (- n)). cbv zeta.
    match goal with |- wf 3 (acc_dict ?l) /\ _ => destruct (acc_dict_spec l) as [W E]; [lens|] end.
    split; [exact W|]. split.
    + intros q Hq. apply acc_dict_keys in Hq. revert q Hq. degs.
    + intro x. rewrite E. clear. rewrite !peval_cons, peval_nil, !meval3. unfold Hneg.
      replace (2 * r)%nat with (r + r)%nat by lia. rewrite !fpow_add. cbn [fpow]. ring.
Qed.

(** ** Non-negativity on the orthant *)
Lemma fpow_le (x y : K) n : 0 <= y -> y <= x -> y ^ n <= x ^ n.
Proof.
  intros Hy H. induction n as [|n IH]; [apply fle_refl|]. cbn [fpow]. apply (proj2 (fle_sub _ _)).
  replace (x * x ^ n - y * y ^ n) with ((x - y) * x ^ n + y * (x ^ n - y ^ n)) by ring.
  apply fadd_nonneg; apply fmul_nonneg; try assumption; try (apply (proj1 (fle_sub _ _)); assumption).
  apply fpow_nonneg. exact (fle_trans K _ _ _ Hy H).
Qed.

(** a symmetric claim needs to be shown for sorted points only *)
Lemma by_sorting (Q : K -> K -> K -> Prop) :
  (forall A B C, Q A B C -> Q B A C) -> (forall A B C, Q A B C -> Q A C B) ->
  (forall A B C, 0 <= C -> C <= B -> B <= A -> Q A B C) ->
  forall A B C, 0 <= A -> 0 <= B -> 0 <= C -> Q A B C.
Proof.
  intros H1 H2 H A B C HA HB HC.
  assert (T : forall x y : K, x <= y \/ y <= x).
  { intros x y. destruct (fleb x y) eqn:E; [left; apply fleb_le; exact E|right; apply flt_le; exact E]. }
  destruct (T A B) as [L1|L1], (T B C) as [L2|L2], (T A C) as [L3|L3].
  all: first [ solve [apply H; assumption] | solve [apply H1, H; assumption] | solve [apply H2, H; assumption]
             | solve [apply H1, H2, H; assumption] | solve [apply H2, H1, H; assumption] | solve [apply H1, H2, H1, H; assumption] | idtac ].
Qed.

Lemma diff_step n r : forall (A B C : K), (r <= n)%nat -> 0 <= C -> C <= B -> B <= A ->
  0 <= A ^ n * (A - B) * (B ^ r - C ^ r) - C ^ n * (B - C) * (A ^ r - B ^ r).
Proof.
  revert n. induction r as [|r IH]; intros n A B C Hn HC HB HA.
  - cbn [fpow]. match goal with |- 0 <= ?g => replace g with (0 : K) by ring end. apply fle_refl.
  - destruct n as [|n]; [lia|]. pose proof (IH n A B C ltac:(lia) HC HB HA) as I.
    assert (PB : 0 <= B) by exact (fle_trans K _ _ _ HC HB). assert (PA : 0 <= A) by exact (fle_trans K _ _ _ PB HA).
    replace (A ^ S n * (A - B) * (B ^ S r - C ^ S r) - C ^ S n * (B - C) * (A ^ S r - B ^ S r))
      with ((A - B) * (B - C) * B ^ r * (A ^ S n - C ^ S n) + A * C * (A ^ n * (A - B) * (B ^ r - C ^ r) - C ^ n * (B - C) * (A ^ r - B ^ r)))
      by (cbn [fpow]; ring).
    apply fadd_nonneg; apply fmul_nonneg; try exact I; fpos; apply (proj1 (fle_sub _ _)); try assumption.
    apply fpow_le; [assumption|exact (fle_trans K _ _ _ HB HA)].
Qed.
Lemma Ssum_sorted n r A B C : (r <= n)%nat -> 0 <= C -> C <= B -> B <= A -> 0 <= Ssum n r A B C.
Proof.
  intros Hn HC HB HA. induction Hn as [|n Hn IH].
  - unfold Ssum. match goal with |- 0 <= ?g => replace g with (0 : K) by ring end. apply fle_refl.
  - assert (PB : 0 <= B) by exact (fle_trans K _ _ _ HC HB).
    replace (Ssum (S n) r A B C) with (B * Ssum n r A B C + (A ^ n * (A - B) * (B ^ r - C ^ r) - C ^ n * (B - C) * (A ^ r - B ^ r)))
      by (unfold Ssum; cbn [fpow]; ring).
    apply fadd_nonneg; [apply fmul_nonneg; assumption|apply diff_step; assumption].
Qed.
Lemma Pform_nonneg n r m s A B C : (r <= n)%nat -> (s <= m)%nat -> 0 <= A -> 0 <= B -> 0 <= C -> 0 <= Pform n r m s A B C.
Proof.
  intros H1 H2. apply (by_sorting (fun A B C => 0 <= Pform n r m s A B C)).
  - intros X Y Z H. replace (Pform n r m s Y X Z) with (Pform n r m s X Y Z) by (unfold Pform, Ssum; ring). exact H.
  - intros X Y Z H. replace (Pform n r m s X Z Y) with (Pform n r m s X Y Z) by (unfold Pform, Ssum; ring). exact H.
  - intros X Y Z HZ HY HX. unfold Pform. apply fmul_nonneg; apply Ssum_sorted; assumption.
Qed.
Lemma Hneg_nonneg n m r A B C : 0 <= A -> 0 <= B -> 0 <= C -> 0 <= Hneg n m r A B C.
Proof.
  apply (by_sorting (fun A B C => 0 <= Hneg n m r A B C)).
  - intros X Y Z H. replace (Hneg n m r Y X Z) with (Hneg n m r X Y Z) by (unfold Hneg; ring). exact H.
  - intros X Y Z H. replace (Hneg n m r X Z Y) with (Hneg n m r X Y Z) by (unfold Hneg; ring). exact H.
  - intros X Y Z HZ HY HX.
    assert (PY : 0 <= Y) by exact (fle_trans K _ _ _ HZ HY). assert (PX : 0 <= X) by exact (fle_trans K _ _ _ PY HX).
    assert (XZ : Z <= X) by exact (fle_trans K _ _ _ HY HX).
    assert (D : forall k (u v : K), 0 <= v -> v <= u -> 0 <= u ^ k - v ^ k) by (intros; apply (proj1 (fle_sub _ _)), fpow_le; assumption).
    replace (Hneg n m r X Y Z) with
      (Y ^ n * Z ^ n * (Y ^ m + Z ^ m) * (X ^ r - Y ^ r) * (X ^ r - Z ^ r)
       + (Y ^ r - Z ^ r) * (X ^ n * (Y ^ n * (X ^ m + Y ^ m) * (Y ^ r - Z ^ r)
          + (X ^ r - Y ^ r) * ((Y ^ n - Z ^ n) * (X ^ m + Y ^ m) + Z ^ n * (Y ^ m - Z ^ m)))))
      by (unfold Hneg; ring).
    repeat first [apply fadd_nonneg | apply fmul_nonneg | apply fpow_nonneg; assumption | apply D; assumption].
Qed.
Lemma Hpos_nonneg n m r A B C : (m <= n + r)%nat -> 0 <= A -> 0 <= B -> 0 <= C -> 0 <= Hpos n m r A B C.
Proof.
  intro Hm. apply (by_sorting (fun A B C => 0 <= Hpos n m r A B C)).
  - intros X Y Z H. replace (Hpos n m r Y X Z) with (Hpos n m r X Y Z) by (unfold Hpos; ring). exact H.
  - intros X Y Z H. replace (Hpos n m r X Z Y) with (Hpos n m r X Y Z) by (unfold Hpos; ring). exact H.
  - intros X Y Z HZ HY HX.
    assert (PY : 0 <= Y) by exact (fle_trans K _ _ _ HZ HY). assert (PX : 0 <= X) by exact (fle_trans K _ _ _ PY HX).
    assert (XZ : Z <= X) by exact (fle_trans K _ _ _ HY HX).
    assert (D : forall k (u v : K), 0 <= v -> v <= u -> 0 <= u ^ k - v ^ k) by (intros; apply (proj1 (fle_sub _ _)), fpow_le; assumption).
    set (F := X ^ n * (Y ^ m + Z ^ m)). set (G := Y ^ n * (Z ^ m + X ^ m)).
    assert (PF : 0 <= F) by (unfold F; repeat first [apply fadd_nonneg | apply fmul_nonneg | apply fpow_nonneg; assumption]).
    assert (M : 0 <= F * (X ^ r - Z ^ r) - G * (Y ^ r - Z ^ r)).
    { assert (P : 0 <= Y ^ r * (F * (X ^ r - Z ^ r) - G * (Y ^ r - Z ^ r))).
      { replace (Y ^ r * (F * (X ^ r - Z ^ r) - G * (Y ^ r - Z ^ r)))
          with (F * (Z ^ r * (X ^ r - Y ^ r)) + (Y ^ r - Z ^ r) * (X ^ r * F - Y ^ r * G)) by ring.
        apply fadd_nonneg; [|apply fmul_nonneg; [apply D; assumption|]].
        - repeat first [exact PF | apply fmul_nonneg | apply fpow_nonneg; assumption | apply D; assumption].
        - replace (X ^ r * F - Y ^ r * G) with (Z ^ m * (X ^ (n + r) - Y ^ (n + r)) + X ^ m * Y ^ m * (X ^ (n + r - m) - Y ^ (n + r - m))).
          + repeat first [apply fadd_nonneg | apply fmul_nonneg | apply fpow_nonneg; assumption | apply D; assumption].
          + unfold F, G. transitivity (Z ^ m * (X ^ (n + r) - Y ^ (n + r)) + (Y ^ m * X ^ (n + r) - X ^ m * Y ^ (n + r))).
            * assert (E : forall x : K, x ^ (n + r) = x ^ m * x ^ (n + r - m)) by (intro; rewrite <- fpow_add; f_equal; lia).
              rewrite !E. ring.
            * rewrite !fpow_add. ring. }
      destruct (feq_dec K (Y ^ r) 0) as [E|E].
      - assert (Ez : Z ^ r = 0). { apply fle_antisym; [rewrite <- E; apply fpow_le; assumption|apply fpow_nonneg; assumption]. }
        rewrite E, Ez. replace (F * (X ^ r - 0) - G * (0 - 0)) with (F * X ^ r) by ring. apply fmul_nonneg; [exact PF|apply fpow_nonneg, PX].
      - assert (L : 0 < Y ^ r) by (apply flt_le_neq; split; [apply fpow_nonneg, PY|intro Q; apply E; symmetry; exact Q]).
        match goal with |- 0 <= ?g => replace g with (/ Y ^ r * (Y ^ r * g)) by (field; exact E) end.
        apply fmul_nonneg; [apply flt_le, finv_pos, L|exact P]. }
    replace (Hpos n m r X Y Z) with ((X ^ r - Y ^ r) * (F * (X ^ r - Z ^ r) - G * (Y ^ r - Z ^ r))
       + Z ^ n * (X ^ m + Y ^ m) * (X ^ r - Z ^ r) * (Y ^ r - Z ^ r)) by (unfold Hpos, F, G; ring).
    repeat first [exact M | apply fadd_nonneg | apply fmul_nonneg | apply fpow_nonneg; assumption | apply D; assumption].
Qed.
Lemma Hpos_0 m r A B C : Hpos 0 m r A B C = Hneg 0 m r A B C.
Proof. unfold Hpos, Hneg. cbn [fpow]. ring. Qed.
Lemma Hform_nonneg n m r A B C : (n <= 0 \/ Z.of_nat m <= n + Z.of_nat r)%Z -> 0 <= A -> 0 <= B -> 0 <= C -> 0 <= Hform n m r A B C.
Proof.
  intros H HA HB HC. unfold Hform. destruct (Z.leb_spec 0 n) as [N|N]; [|apply Hneg_nonneg; assumption].
  destruct H as [H|H].
  - replace (Z.to_nat n) with 0%nat by lia. rewrite Hpos_0. apply Hneg_nonneg; assumption.
  - apply Hpos_nonneg; try assumption. lia.
Qed.
End Facts.
