(** * Column separated and compressed systems (triples/sdp/arithmetic.py:391-603) *)
From Coq Require Import Bool List Arith Lia Ring Field Permutation.
From Verif Require Import OrdField Base LinSolve.
Import ListNotations.

Section Model.
Context {K : OrdField}.
Local Open Scope of_scope.

Definition memb (k : nat) (l : list nat) : bool := existsb (Nat.eqb k) l.

(** The arrays [ufs] and [groups] (arithmetic.py:421-432, 557-567); group
    members are assumed to be column numbers (otherwise IndexError). *)
Definition ufs_of (groups : list (list nat)) : nat -> nat :=
  fold_left (fun u g i => if memb i g then hd 0%nat g else u i) groups (fun i => i).
Definition group_of (groups : list (list nat)) (h : nat) : list nat :=
  match find (fun g => (hd 0 g =? h)%nat) (rev groups) with Some g => g | None => [h] end.

(** A row of the sparse form: the columns with a non-zero entry.  sympy keeps
    them in a dictionary; the order, here increasing, only selects the pivot. *)
Definition row_cols (n : nat) (row : list K) : list nat := filter (fun j => negb (vget row j =? 0)) (seq 0 n).

(** [w = len(group) * value] *)
Definition weight (groups : list (list nat)) (row : list K) (j : nat) : K :=
  fnat (length (group_of groups (ufs_of groups j))) * vget row j.

(** Columns that start a new direction (arithmetic.py:459-463) *)
Definition row_tail (n : nat) (groups : list (list nat)) (row : list K) : list nat :=
  match row_cols n row with
  | [] => []
  | p :: js => filter (fun j => ((j =? ufs_of groups j) && negb (ufs_of groups j =? ufs_of groups p))%nat) js
  end.

(** The particular solution written for one row (arithmetic.py:447-457) *)
Definition row_x0 (n : nat) (groups : list (list nat)) (rb : list K * K) : list (nat * K) :=
  match row_cols n (fst rb) with
  | [] => []
  | p :: _ =>
      if snd rb =? 0 then []
      else map (fun k => (k, snd rb / weight groups (fst rb) p)) (group_of groups (ufs_of groups p))
  end.
(** The directions of one row as vectors (arithmetic.py:459-475) *)
Definition row_dirs (n : nat) (groups : list (list nat)) (row : list K) : list (nat -> K) :=
  match row_cols n row with
  | [] => []
  | p :: _ =>
      map (fun h k => if memb k (group_of groups (ufs_of groups h)) then - weight groups row p
                      else if memb k (group_of groups (ufs_of groups p)) then weight groups row h else 0)
          (row_tail n groups row)
  end.

Fixpoint assoc (l : list (nat * K)) (k : nat) : K :=
  match l with [] => 0 | (k', v) :: l' => if (k' =? k)%nat then v else assoc l' k end.

(** [solve_column_separated_linear] (arithmetic.py:391-505).  Empty rows are
    not stored in the sparse form, so the [else] branch with its consistency
    test (lines 477-489) is never reached. *)
Definition column_separated (n : nat) (A : list (list K)) (b : list K) (groups : list (list nat)) : list K * list (list K) :=
  let x0 := flat_map (row_x0 n groups) (combine A b) in
  let dirs := flat_map (row_dirs n groups) A in
  (vtab n (assoc (rev x0)), map (fun k => map (fun d => d k) dirs) (seq 0 n)).

(** The test of [solve_csr_linear] (arithmetic.py:536-552): no column is seen twice. *)
Fixpoint no_dup (l : list nat) : bool :=
  match l with [] => true | x :: l' => negb (memb x l') && no_dup l' end.
Definition is_separated (n : nat) (A : list (list K)) : bool := no_dup (flat_map (row_cols n) A).

(** [group_keys] (arithmetic.py:557-569): the given heads, then the single columns *)
Fixpoint dedup (l : list nat) : list nat :=
  match l with [] => [] | x :: l' => x :: filter (fun y => negb (y =? x)%nat) (dedup l') end.
Definition group_keys (n : nat) (groups : list (list nat)) : list nat :=
  dedup (map (hd 0%nat) groups ++ filter (fun i => (ufs_of groups i =? i)%nat) (seq 0 n)).
Fixpoint index_of (x : nat) (l : list nat) : nat :=
  match l with [] => 0 | y :: l' => if (y =? x)%nat then 0 else S (index_of x l') end.

(** [solve_csr_linear] (arithmetic.py:508-603) *)
Definition solve_csr (n : nat) (A : list (list K)) (b : list K) (groups : list (list nat)) : res (list K * list (list K)) :=
  if is_separated n A then Ok (column_separated n A b groups)
  else
    let keys := group_keys n groups in
    let mapping j := index_of (ufs_of groups j) keys in
    let A2 := map (fun row => vtab (length keys) (fun g => fsum (map (vget row) (filter (fun j => (mapping j =? g)%nat) (seq 0 n))))) A in
    match solve_linear (length keys) A2 b with
    | Ok (x0, V) => Ok (vtab n (fun j => vget x0 (mapping j)), map (fun j => nth (mapping j) V []) (seq 0 n))
    | Err er => Err er
    end.

(** ** Specification *)
(** Unknowns in the same group are equal. *)
Definition equal_on (groups : list (list nat)) (x : list K) : Prop :=
  forall g k k', In g groups -> In k g -> In k' g -> vget x k = vget x k'.
Record groups_ok (n : nat) (groups : list (list nat)) : Prop := {
  go_ne : forall g, In g groups -> g <> [];
  go_nodup : forall g, In g groups -> NoDup g;
  go_lt : forall g k, In g groups -> In k g -> (k < n)%nat;
  go_disj : forall g g' k, In g groups -> In g' groups -> In k g -> In k g' -> g = g'
}.
End Model.

Section Proofs.
Variable K : OrdField.
Local Open Scope of_scope.
Add Field Kf : (F_field K).

Lemma memb_in k l : memb k l = true <-> In k l.
Proof. apply mem_existsb. Qed.
Lemma memb_nin k l : memb k l = false <-> ~ In k l.
Proof. rewrite <- memb_in, not_true_iff_false. reflexivity. Qed.

Section Groups.
Variables (n : nat) (groups : list (list nat)).
Hypothesis GO : groups_ok n groups.

Lemma ufs_fold i l u : (forall g g' k, In g l -> In g' l -> In k g -> In k g' -> g = g') ->
  (exists g, In g l /\ In i g /\ fold_left (fun u g i => if memb i g then hd 0%nat g else u i) l u i = hd 0%nat g)
  \/ ((forall g, In g l -> ~ In i g) /\ fold_left (fun u g i => if memb i g then hd 0%nat g else u i) l u i = u i).
Proof.
  revert u. induction l as [|g l IH]; intros u HD; [right; split; [intros ? []|reflexivity]|]. cbn [fold_left].
  destruct (IH (fun i => if memb i g then hd 0%nat g else u i)) as [(g' & H1 & H2 & H3)|[H1 H2]].
  - intros; eapply HD; try (right; eassumption); eassumption.
  - left. exists g'. split; [right; exact H1|]. auto.
  - rewrite H2. destruct (memb i g) eqn:E.
    + left. exists g. apply memb_in in E. split; [left; reflexivity|auto].
    + right. split; [|reflexivity]. intros g0 [<-|H]; [apply memb_nin, E|auto].
Qed.
Lemma ufs_in g i : In g groups -> In i g -> ufs_of groups i = hd 0%nat g.
Proof.
  intros Hg Hi. unfold ufs_of. destruct (ufs_fold i groups (fun i => i) (go_disj _ _ GO)) as [(g' & H1 & H2 & H3)|[H1 H2]].
  - rewrite H3. f_equal. apply (go_disj _ _ GO g' g i); assumption.
  - exfalso. apply (H1 g Hg Hi).
Qed.
Lemma ufs_out i : (forall g, In g groups -> ~ In i g) -> ufs_of groups i = i.
Proof.
  intro H. unfold ufs_of. destruct (ufs_fold i groups (fun i => i) (go_disj _ _ GO)) as [(g' & H1 & H2 & H3)|[H1 H2]].
  - exfalso. apply (H g' H1 H2).
  - exact H2.
Qed.
Lemma hd_in g : In g groups -> In (hd 0%nat g) g.
Proof. intro H. apply (go_ne _ _ GO) in H. destruct g; [congruence|left; reflexivity]. Qed.
Lemma ufs_cases i : (exists g, In g groups /\ In i g /\ ufs_of groups i = hd 0%nat g) \/ ((forall g, In g groups -> ~ In i g) /\ ufs_of groups i = i).
Proof.
  unfold ufs_of. destruct (ufs_fold i groups (fun i => i) (go_disj _ _ GO)) as [H|H]; auto.
Qed.
Lemma ufs_idem i : ufs_of groups (ufs_of groups i) = ufs_of groups i.
Proof.
  destruct (ufs_cases i) as [(g & H1 & H2 & H3)|[H1 H2]].
  - rewrite H3. apply ufs_in; [exact H1|apply hd_in, H1].
  - rewrite H2. exact H2.
Qed.
Lemma ufs_lt i : (i < n)%nat -> (ufs_of groups i < n)%nat.
Proof.
  intro H. destruct (ufs_cases i) as [(g & H1 & H2 & H3)|[H1 H2]]; [|rewrite H2; exact H].
  rewrite H3. apply (go_lt _ _ GO g); [exact H1|apply hd_in, H1].
Qed.
Lemma group_of_in g : In g groups -> group_of groups (hd 0%nat g) = g.
Proof.
  intro Hg. unfold group_of. destruct (find _ (rev groups)) as [g'|] eqn:E.
  - apply find_some in E. destruct E as [E1 E2]. apply in_rev in E1. apply Nat.eqb_eq in E2.
    apply (go_disj _ _ GO g' g (hd 0%nat g)); auto; [rewrite <- E2|]; apply hd_in; assumption.
  - exfalso. pose proof (find_none _ _ E g (proj1 (in_rev _ _) Hg)) as H. cbn in H. rewrite Nat.eqb_refl in H. discriminate.
Qed.
Lemma group_of_out i : (forall g, In g groups -> ~ In i g) -> group_of groups i = [i].
Proof.
  intro H. unfold group_of. destruct (find _ (rev groups)) as [g'|] eqn:E; [|reflexivity].
  apply find_some in E. destruct E as [E1 E2]. apply in_rev in E1. apply Nat.eqb_eq in E2. exfalso. apply (H g' E1).
  rewrite <- E2. apply hd_in, E1.
Qed.
(** The class of a column: its group, or itself. *)
Definition cls (i : nat) : list nat := group_of groups (ufs_of groups i).
Lemma cls_cases i : (exists g, In g groups /\ In i g /\ cls i = g) \/ ((forall g, In g groups -> ~ In i g) /\ cls i = [i]).
Proof.
  unfold cls. destruct (ufs_cases i) as [(g & H1 & H2 & H3)|[H1 H2]].
  - left. exists g. rewrite H3, group_of_in by exact H1. auto.
  - right. rewrite H2, group_of_out by exact H1. auto.
Qed.
Lemma cls_self i : In i (cls i).
Proof. destruct (cls_cases i) as [(g & H1 & H2 & ->)|[H1 ->]]; [exact H2|left; reflexivity]. Qed.
Lemma cls_in i k : In k (cls i) <-> ufs_of groups k = ufs_of groups i.
Proof.
  destruct (cls_cases i) as [(g & H1 & H2 & ->)|[H1 ->]].
  - split; intro H.
    + rewrite (ufs_in g k), (ufs_in g i); auto.
    + rewrite (ufs_in g i H1 H2) in H. destruct (ufs_cases k) as [(g' & G1 & G2 & G3)|[G1 G2]].
      * rewrite G3 in H. replace g with g'; [exact G2|]. apply (go_disj _ _ GO g' g (hd 0%nat g)); auto; [rewrite <- H|]; apply hd_in; assumption.
      * rewrite G2 in H. exfalso. apply (G1 g H1). rewrite H. apply hd_in, H1.
  - rewrite (ufs_out i H1). split.
    + intros [<-|[]]. apply ufs_out, H1.
    + intro H. destruct (ufs_cases k) as [(g' & G1 & G2 & G3)|[G1 G2]].
      * exfalso. apply (H1 g' G1). rewrite <- H, G3. apply hd_in, G1.
      * left. rewrite <- G2. symmetry. exact H.
Qed.
Lemma cls_nodup i : NoDup (cls i).
Proof. destruct (cls_cases i) as [(g & H1 & H2 & ->)|[H1 ->]]; [apply (go_nodup _ _ GO), H1|repeat constructor; intros []]. Qed.
Lemma cls_ufs i : cls (ufs_of groups i) = cls i.
Proof. unfold cls. rewrite ufs_idem. reflexivity. Qed.
Lemma cls_lt i k : (i < n)%nat -> In k (cls i) -> (k < n)%nat.
Proof.
  intros Hi. destruct (cls_cases i) as [(g & H1 & H2 & ->)|[H1 ->]]; [apply (go_lt _ _ GO g), H1|intros [<-|[]]; exact Hi].
Qed.
Lemma equal_on_ufs (x : list K) : equal_on groups x <-> forall i, vget x i = vget x (ufs_of groups i).
Proof.
  split.
  - intros H i. destruct (ufs_cases i) as [(g & H1 & H2 & H3)|[H1 H2]]; [|rewrite H2; reflexivity].
    apply (H g); auto. rewrite H3. apply hd_in, H1.
  - intros H g k k' Hg Hk Hk'. rewrite (H k), (H k'), (ufs_in g k), (ufs_in g k'); auto.
Qed.

(** ** The compressed system *)
Lemma index_of_nth x l : In x l -> nth (index_of x l) l 0%nat = x /\ (index_of x l < length l)%nat.
Proof.
  induction l as [|y l IH]; intro H; [destruct H|]. cbn. destruct (y =? x)%nat eqn:E.
  - apply Nat.eqb_eq in E. subst. split; [reflexivity|lia].
  - apply Nat.eqb_neq in E. destruct H as [H|H]; [congruence|]. destruct (IH H). split; [assumption|lia].
Qed.
Lemma dedup_in x l : In x (dedup l) <-> In x l.
Proof.
  induction l as [|y l IH]; [reflexivity|]. cbn. rewrite filter_In, IH, negb_true_iff, Nat.eqb_neq.
  destruct (Nat.eq_dec x y) as [->|N]; intuition congruence.
Qed.
Lemma dedup_nodup l : NoDup (dedup l).
Proof.
  induction l as [|y l IH]; [constructor|]. cbn. constructor; [|apply NoDup_filter, IH].
  rewrite filter_In, negb_true_iff, Nat.eqb_neq. intuition.
Qed.
Lemma keys_in j : (j < n)%nat -> In (ufs_of groups j) (group_keys n groups).
Proof.
  intro Hj. unfold group_keys. rewrite dedup_in, in_app_iff. destruct (ufs_cases j) as [(g & H1 & H2 & H3)|[H1 H2]].
  - left. rewrite H3. apply in_map, H1.
  - right. apply filter_In. rewrite H2. split; [apply in_seq; lia|]. rewrite H2. apply Nat.eqb_refl.
Qed.
Lemma keys_ufs h : In h (group_keys n groups) -> ufs_of groups h = h /\ (h < n)%nat.
Proof.
  unfold group_keys. rewrite dedup_in, in_app_iff. intros [H|H].
  - apply in_map_iff in H. destruct H as (g & <- & Hg). split; [apply ufs_in; [exact Hg|apply hd_in, Hg]|].
    apply (go_lt _ _ GO g); [exact Hg|apply hd_in, Hg].
  - apply filter_In in H. destruct H as [H1 H2]. apply in_seq in H1. apply Nat.eqb_eq in H2. split; [exact H2|lia].
Qed.

Definition mapping (j : nat) : nat := index_of (ufs_of groups j) (group_keys n groups).
Lemma mapping_lt j : (j < n)%nat -> (mapping j < length (group_keys n groups))%nat.
Proof. intro H. apply index_of_nth, keys_in, H. Qed.
Lemma mapping_nth j : (j < n)%nat -> nth (mapping j) (group_keys n groups) 0%nat = ufs_of groups j.
Proof. intro H. apply index_of_nth, keys_in, H. Qed.
Lemma mapping_key g : (g < length (group_keys n groups))%nat -> mapping (nth g (group_keys n groups) 0%nat) = g.
Proof.
  intro H. destruct (keys_ufs (nth g (group_keys n groups) 0%nat) (nth_In _ _ H)) as [H1 H2].
  pose proof (mapping_lt _ H2) as H3. pose proof (mapping_nth _ H2) as H4. rewrite H1 in H4.
  apply (proj1 (NoDup_nth (group_keys n groups) 0%nat) (dedup_nodup _)); auto.
Qed.
Definition crow (row : list K) : list K :=
  vtab (length (group_keys n groups)) (fun g => fsum (map (vget row) (filter (fun j => (mapping j =? g)%nat) (seq 0 n)))).
Lemma fsum_filter_if (f : nat -> K) (t : nat -> bool) l : fsum (map f (filter t l)) = fsum (map (fun j => if t j then f j else 0) l).
Proof. induction l as [|x l IH]; [reflexivity|]. cbn. destruct (t x); cbn; rewrite IH; [reflexivity|ring]. Qed.
Lemma crow_dot row (x z : list K) : (forall j, (j < n)%nat -> vget x j = vget z (mapping j)) ->
  dotv n row x = dotv (length (group_keys n groups)) (crow row) z.
Proof.
  intro H. unfold dotv.
  transitivity (bsum n (fun j => bsum (length (group_keys n groups)) (fun g => if (g =? mapping j)%nat then vget row j * vget z g else 0))).
  - apply bsum_ext. intros j Hj. rewrite H by exact Hj. symmetry.
    transitivity ((fun g => vget row j * vget z g) (mapping j)); [|reflexivity].
    rewrite (bsum_single _ _ (mapping j)); [rewrite Nat.eqb_refl; reflexivity|apply mapping_lt, Hj|].
    intros g _ N. destruct (g =? mapping j)%nat eqn:E; [apply Nat.eqb_eq in E; congruence|reflexivity].
  - rewrite bsum_swap. apply bsum_ext. intros g Hg. unfold crow. rewrite vget_vtab by exact Hg.
    rewrite fsum_filter_if, <- bsum_fsum, <- bsum_mul_r. apply bsum_ext. intros j _. rewrite (Nat.eqb_sym g).
    destruct (mapping j =? g)%nat; ring.
Qed.
Lemma solves_crow A (b x z : list K) : length x = n -> length z = length (group_keys n groups) ->
  (forall j, (j < n)%nat -> vget x j = vget z (mapping j)) ->
  solves n A b x <-> solves (length (group_keys n groups)) (map crow A) b z.
Proof.
  intros Hx Hz H. unfold solves. split; intros [_ F]; (split; [assumption|]).
  - induction F as [|row bi A b E F IH]; cbn; [constructor|constructor; [|exact IH]]. rewrite <- (crow_dot row x z H). exact E.
  - revert F. generalize b. clear b. induction A as [|row A IH]; intros b F; inversion F; subst; constructor.
    + rewrite (crow_dot row x z H). reflexivity.
    + apply IH. assumption.
Qed.

Lemma csr_general_spec A (b : list K) : length A = length b -> is_separated n A = false ->
  match solve_csr n A b groups with
  | Ok (x0, V) =>
      length x0 = n /\ length V = n /\
      exists f, (forall row, In row V -> length row = f) /\
        (forall x, solves n A b x /\ equal_on groups x <-> exists y : list K, length y = f /\ affine_point n x0 V y x) /\
        (forall x (y y' : list K), length y = f -> length y' = f -> affine_point n x0 V y x -> affine_point n x0 V y' x -> y = y')
  | Err er => er = ValueError /\ forall x, ~ (solves n A b x /\ equal_on groups x)
  end.
Proof.
  intros HL HS. unfold solve_csr. rewrite HS. fold (mapping). change (map _ A) with (map crow A).
  assert (HLc : length (map crow A) = length b) by (rewrite map_length; exact HL).
  assert (HF : Forall (fun row => length row = length (group_keys n groups)) (map crow A)).
  { apply Forall_forall. intros r Hr. apply in_map_iff in Hr. destruct Hr as (r' & <- & _). apply vtab_length. }
  pose proof (solve_linear_spec K _ _ b HLc HF) as SP.
  pose (down := fun x : list K => vtab (length (group_keys n groups)) (fun g => vget x (nth g (group_keys n groups) 0%nat))).
  assert (HD : forall x, equal_on groups x -> forall j, (j < n)%nat -> vget x j = vget (down x) (mapping j)).
  { intros x HE j Hj. unfold down. rewrite vget_vtab by (apply mapping_lt, Hj). rewrite mapping_nth by exact Hj.
    apply equal_on_ufs, HE. }
  destruct (solve_linear _ _ b) as [[x0 V]|er].
  - destruct SP as (L0 & L1 & f & HW & HSol & HU).
    assert (HV : forall j, (j < n)%nat -> nth j (map (fun j => nth (mapping j) V []) (seq 0 n)) [] = nth (mapping j) V []).
    { intros j Hj. rewrite (nth_indep _ [] (nth (mapping 0) V [])) by (rewrite map_length, seq_length; exact Hj).
      etransitivity; [exact (map_nth (fun j => nth (mapping j) V []) _ _ _)|]. rewrite seq_nth by exact Hj. reflexivity. }
    assert (HAff : forall (x z y : list K), length x = n -> length z = length (group_keys n groups) ->
      (forall j, (j < n)%nat -> vget x j = vget z (mapping j)) ->
      affine_point n (vtab n (fun j => vget x0 (mapping j))) (map (fun j => nth (mapping j) V []) (seq 0 n)) y x
      <-> affine_point (length (group_keys n groups)) x0 V y z).
    { intros x z y Hx Hz Hxz. unfold affine_point. split; intros [_ H]; (split; [assumption|]).
      - intros g Hg. specialize (H (nth g (group_keys n groups) 0%nat) (proj2 (keys_ufs _ (nth_In _ _ Hg)))).
        pose proof (proj2 (keys_ufs _ (nth_In _ 0%nat Hg))) as Hn. rewrite Hxz, HV, vget_vtab, mapping_key in H by assumption. exact H.
      - intros j Hj. rewrite Hxz, HV, vget_vtab by exact Hj. apply H, mapping_lt, Hj. }
    split; [apply vtab_length|]. split; [rewrite map_length, seq_length; reflexivity|]. exists f. split; [|split].
    + intros row Hr. apply in_map_iff in Hr. destruct Hr as (j & <- & Hj). apply in_seq in Hj. apply HW, nth_In.
      rewrite L1. apply mapping_lt. lia.
    + intro x. split.
      * intros [Hs HE]. pose proof (proj1 Hs) as Hx. assert (Hd : length (down x) = length (group_keys n groups)) by apply vtab_length.
        apply (solves_crow A b x (down x) Hx Hd (HD x HE)) in Hs. apply HSol in Hs. destruct Hs as (y & Hy & Ha). exists y.
        split; [exact Hy|]. apply (HAff x (down x) y Hx Hd (HD x HE)). exact Ha.
      * intros (y & Hy & Ha). pose proof (proj1 Ha) as Hx.
        assert (HE : equal_on groups x).
        { apply equal_on_ufs. intro i. destruct (lt_dec i n) as [Hi|Hi].
          - pose proof (ufs_lt i Hi) as Hu. destruct Ha as [_ Ha].
            rewrite (Ha i Hi), (Ha _ Hu), !HV, !vget_vtab by assumption. unfold mapping. rewrite ufs_idem. reflexivity.
          - destruct (ufs_cases i) as [(g & G1 & G2 & _)|[_ ->]]; [|reflexivity]. exfalso. apply Hi, (go_lt _ _ GO g); assumption. }
        split; [|exact HE]. assert (Hd : length (down x) = length (group_keys n groups)) by apply vtab_length.
        apply (solves_crow A b x (down x) Hx Hd (HD x HE)), HSol. exists y. split; [exact Hy|].
        apply (HAff x (down x) y Hx Hd (HD x HE)). exact Ha.
    + intros x y y' Hy Hy' Ha Ha'. pose proof (proj1 Ha) as Hx.
      assert (HE : forall j, (j < n)%nat -> vget x j = vget (down x) (mapping j)).
      { intros j Hj. unfold down. rewrite vget_vtab by (apply mapping_lt, Hj). rewrite mapping_nth by exact Hj.
        pose proof (ufs_lt j Hj) as Hu. destruct Ha as [_ Ha].
        rewrite (Ha j Hj), (Ha _ Hu), !HV, !vget_vtab by assumption. unfold mapping. rewrite ufs_idem. reflexivity. }
      assert (Hd : length (down x) = length (group_keys n groups)) by apply vtab_length.
      apply (HU (down x) y y' Hy Hy'); apply (HAff x (down x) _ Hx Hd HE); assumption.
  - destruct SP as [-> HN]. split; [reflexivity|]. intros x [Hs HE]. pose proof (proj1 Hs) as Hx.
    assert (Hd : length (down x) = length (group_keys n groups)) by apply vtab_length.
    apply (HN (down x)). apply (solves_crow A b x (down x) Hx Hd (HD x HE)). exact Hs.
Qed.

(** ** The column separated system *)
Implicit Types row : list K.
Lemma NoDup_flat_map {X Y} (f : X -> list Y) l : (forall x, In x l -> NoDup (f x)) -> NoDup l ->
  (forall x y z, In x l -> In y l -> In z (f x) -> In z (f y) -> x = y) -> NoDup (flat_map f l).
Proof.
  induction l as [|x l IH]; intros H1 H2 H3; [constructor|]. cbn. inversion H2; subst. apply NoDup_app_disj.
  - apply H1. left; reflexivity.
  - apply IH; auto; intros; [apply H1; right; assumption|]. eapply H3; try (right; eassumption); eassumption.
  - intros z Hz Hz'. apply in_flat_map in Hz'. destruct Hz' as (y & Hy & Hz'). apply H4.
    rewrite (H3 x y z); auto; [left; reflexivity|right; assumption].
Qed.
Lemma flat_map_sep {X Y} (f : X -> list Y) (dx : X) l : NoDup (flat_map f l) ->
  forall i j z, (i < length l)%nat -> (j < length l)%nat -> In z (f (nth i l dx)) -> In z (f (nth j l dx)) -> i = j.
Proof.
  assert (AUX : forall l z, NoDup (flat_map f l) -> forall x l', l = x :: l' -> In z (f x) -> In z (flat_map f l') -> False).
  { intros l0 z HN x l' -> H1 H2. cbn in HN. clear - HN H1 H2. induction (f x) as [|a r IH]; [destruct H1|].
    cbn in HN. inversion HN; subst. destruct H1 as [->|H1]; [apply H3, in_or_app; right; exact H2|auto]. }
  induction l as [|x l IH]; intros HN i j z Hi Hj Zi Zj; cbn in Hi, Hj; [lia|].
  destruct i as [|i], j as [|j]; cbn in Zi, Zj; auto.
  - exfalso. apply (AUX _ z HN x l eq_refl Zi). apply in_flat_map. exists (nth j l dx). split; [apply nth_In; lia|exact Zj].
  - exfalso. apply (AUX _ z HN x l eq_refl Zj). apply in_flat_map. exists (nth i l dx). split; [apply nth_In; lia|exact Zi].
  - f_equal. apply (IH) with z; auto; try lia. cbn in HN. clear - HN. induction (f x) as [|a r IHr]; [exact HN|]. inversion HN; auto.
Qed.
Lemma no_dup_NoDup l : no_dup l = true -> NoDup l.
Proof.
  induction l as [|x l IH]; [constructor|]. cbn. rewrite andb_true_iff, negb_true_iff, memb_nin. intros [H1 H2]. constructor; auto.
Qed.
Lemma assoc_spec (l : list (nat * K)) k t : (forall v, In (k, v) l -> v = t) -> t = 0 \/ In (k, t) l -> assoc l k = t.
Proof.
  induction l as [|[k' v] l IH]; intros H1 H2; cbn.
  - destruct H2 as [->|[]]. reflexivity.
  - destruct (k' =? k)%nat eqn:E.
    + apply Nat.eqb_eq in E. subst. apply H1. left; reflexivity.
    + apply Nat.eqb_neq in E. apply IH; [intros; apply H1; right; assumption|].
      destruct H2 as [H2|[H2|H2]]; auto. congruence.
Qed.
Lemma row_cols_in row j : In j (row_cols n row) <-> (j < n)%nat /\ vget row j <> (0 : K).
Proof.
  unfold row_cols. rewrite filter_In, in_seq, negb_true_iff. split; intros [H1 H2].
  - split; [lia|]. intro E. rewrite E in H2. rewrite (proj2 (feqb_eq K 0 0) eq_refl) in H2. discriminate.
  - split; [lia|]. destruct (vget row j =? 0) eqn:E; [|reflexivity]. apply feqb_eq in E. contradiction.
Qed.
Lemma row_cols_nodup (row : list K) : NoDup (row_cols n row).
Proof. apply NoDup_filter, seq_NoDup. Qed.

Definition coherent (row : list K) : Prop := forall g k k', In g groups -> In k g -> In k' g -> vget row k = vget row k'.
Lemma coherent_cls row i k : coherent row -> In k (cls i) -> vget row k = vget row i.
Proof.
  intros HC. destruct (cls_cases i) as [(g & H1 & H2 & ->)|[H1 ->]].
  - intro H. apply (HC g); assumption.
  - intros [<-|[]]. reflexivity.
Qed.
Lemma tail_in row p js h : row_cols n row = p :: js -> In h (row_tail n groups row) <->
  In h (row_cols n row) /\ ufs_of groups h = h /\ h <> ufs_of groups p.
Proof.
  intro E. unfold row_tail. rewrite E, filter_In, andb_true_iff, negb_true_iff, Nat.eqb_eq, Nat.eqb_neq. cbn [In]. split.
  - intros (H1 & H2 & H3). split; [right; exact H1|]. split; congruence.
  - intros ([H1|H1] & H2 & H3); [subst; congruence|]. split; [exact H1|]. split; congruence.
Qed.
Lemma tail_nodup row : NoDup (row_tail n groups row).
Proof.
  unfold row_tail. pose proof (row_cols_nodup row) as H. destruct (row_cols n row); [constructor|]. inversion H. apply NoDup_filter. assumption.
Qed.

Lemma row_perm row p js : coherent row -> row_cols n row = p :: js ->
  Permutation (row_cols n row) (flat_map cls (p :: row_tail n groups row)).
Proof.
  intros HC E. apply NoDup_Permutation; [apply row_cols_nodup| |].
  - apply NoDup_flat_map.
    + intros x _. apply cls_nodup.
    + constructor; [|apply tail_nodup]. rewrite (tail_in row p js) by exact E. intros (_ & H1 & H2). congruence.
    + intros x y z Hx Hy Zx Zy. apply cls_in in Zx, Zy.
      assert (U : forall h, In h (p :: row_tail n groups row) -> h = p \/ (ufs_of groups h = h /\ h <> ufs_of groups p)).
      { intros h [<-|H]; [left; reflexivity|]. apply (tail_in row p js) in H; [|exact E]. right. intuition. }
      destruct (U x Hx) as [->|[X1 X2]], (U y Hy) as [->|[Y1 Y2]]; congruence.
  - intro j. rewrite in_flat_map. split.
    + intro Hj. pose proof Hj as Hj0. apply row_cols_in in Hj. destruct Hj as [J1 J2].
      destruct (Nat.eq_dec (ufs_of groups j) (ufs_of groups p)) as [U|U].
      * exists p. split; [left; reflexivity|]. apply cls_in, U.
      * exists (ufs_of groups j). split; [|rewrite cls_ufs; apply cls_self]. right. apply (tail_in row p js); [exact E|].
        split; [|split; [apply ufs_idem|exact U]]. apply row_cols_in. split; [apply ufs_lt, J1|].
        rewrite (coherent_cls row j); [exact J2|exact HC|]. apply cls_in, ufs_idem.
    + intros (h & Hh & Hj). assert (Hc : In h (row_cols n row)).
      { destruct Hh as [<-|Hh]; [rewrite E; left; reflexivity|]. apply (tail_in row p js) in Hh; [|exact E]. apply Hh. }
      apply row_cols_in in Hc. destruct Hc as [H1 H2]. apply row_cols_in. split; [apply (cls_lt h); assumption|].
      rewrite (coherent_cls row h); assumption.
Qed.
Lemma fsum_perm (f : nat -> K) l l' : Permutation l l' -> fsum (map f l) = fsum (map f l').
Proof. induction 1; cbn; try congruence; ring. Qed.
Lemma fsum_flat (f : nat -> K) (g : nat -> list nat) l : fsum (map f (flat_map g l)) = fsum (map (fun h => fsum (map f (g h))) l).
Proof. induction l as [|x l IH]; [reflexivity|]. cbn. rewrite map_app, fsum_app, IH. reflexivity. Qed.
Lemma fsum_const (l : list nat) (f : nat -> K) c : (forall k, In k l -> f k = c) -> fsum (map f l) = fnat (length l) * c.
Proof.
  induction l as [|x l IH]; intro H; cbn [map length fsum]; [cbn; ring|].
  rewrite (H x (or_introl eq_refl)), IH by (intros; apply H; right; assumption). cbn [fnat]. ring.
Qed.
Lemma fsum_ext_in {X} (f g : X -> K) l : (forall x, In x l -> f x = g x) -> fsum (map f l) = fsum (map g l).
Proof. intro H. f_equal. apply map_ext_in. exact H. Qed.

(** The equation of a row in terms of one unknown per class *)
Lemma row_equation row p js (xf : nat -> K) : coherent row -> row_cols n row = p :: js -> (forall i, (i < n)%nat -> xf i = xf (ufs_of groups i)) ->
  bsum n (fun j => vget row j * xf j)
  = weight groups row p * xf p + fsum (map (fun h => weight groups row h * xf h) (row_tail n groups row)).
Proof.
  intros HC E HX. rewrite bsum_fsum.
  transitivity (fsum (map (fun j => vget row j * xf j) (row_cols n row))).
  { unfold row_cols. rewrite fsum_filter_if. apply fsum_ext_in. intros j _. destruct (vget row j =? 0) eqn:Z; [|reflexivity].
    apply feqb_eq in Z. rewrite Z. cbn. ring. }
  rewrite (fsum_perm _ _ _ (row_perm row p js HC E)), fsum_flat.
  change (weight groups row p * xf p + fsum (map (fun h => weight groups row h * xf h) (row_tail n groups row)))
    with (fsum (map (fun h => weight groups row h * xf h) (p :: row_tail n groups row))).
  apply fsum_ext_in. intros h Hh.
  assert (Hn : (h < n)%nat).
  { destruct Hh as [<-|Hh]; [assert (H : In p (row_cols n row)) by (rewrite E; left; reflexivity)|apply (tail_in row p js) in Hh; [|exact E]; destruct Hh as [H _]];
    apply row_cols_in in H; apply H. }
  unfold weight. fold (cls h). rewrite (fsum_const _ _ (vget row h * xf h)); [ring|].
  intros k Hk. rewrite (coherent_cls row h k HC Hk), (HX k), (HX h) by (try exact Hn; apply (cls_lt h); assumption).
  apply cls_in in Hk. rewrite Hk. reflexivity.
Qed.
Lemma weight_nz row h : In h (row_cols n row) -> weight groups row h <> 0.
Proof.
  intro H. apply row_cols_in in H. unfold weight. fold (cls h). intro Z. apply fmul_eq0 in Z. destruct Z as [Z|Z]; [|apply H, Z].
  revert Z. apply fnat_neq0. pose proof (cls_self h). destruct (cls h); [destruct H0|cbn; lia].
Qed.

Section Sep.
Variables (A : list (list K)) (b : list K).
Hypothesis HL : length A = length b.
Hypothesis HC : forall row, In row A -> coherent row.
Hypothesis HS : is_separated n A = true.
Let row i := nth i A [].
Let cols i := row_cols n (row i).
Let pv i := hd 0%nat (cols i).
Let tl_ i := row_tail n groups (row i).
Let w i := weight groups (row i).

Lemma sep_index i j z : (i < length A)%nat -> (j < length A)%nat -> In z (cols i) -> In z (cols j) -> i = j.
Proof. intros Hi Hj. apply (flat_map_sep (row_cols n) [] A); auto. apply no_dup_NoDup, HS. Qed.
Lemma row_in i : (i < length A)%nat -> In (row i) A.
Proof. apply nth_In. Qed.
Lemma cols_cases i : cols i = [] \/ exists js, cols i = pv i :: js.
Proof. unfold pv. destruct (cols i) as [|p js]; [left; reflexivity|right; exists js; reflexivity]. Qed.
Lemma cols_cls i k h : (i < length A)%nat -> In h (cols i) -> In k (cls h) -> In k (cols i).
Proof.
  intros Hi Hh Hk. apply row_cols_in in Hh. destruct Hh as [H1 H2]. apply row_cols_in. split; [apply (cls_lt h); assumption|].
  rewrite (coherent_cls (row i) h); auto. apply HC, row_in, Hi.
Qed.

Definition pairs : list (nat * nat) := flat_map (fun i => map (fun h => (i, h)) (tl_ i)) (seq 0 (length A)).
Definition dirf (ih : nat * nat) (k : nat) : K :=
  if memb k (cls (snd ih)) then - w (fst ih) (pv (fst ih)) else if memb k (cls (pv (fst ih))) then w (fst ih) (snd ih) else 0.
Lemma flat_map_nth {X Y} (f : X -> list Y) (d : X) l : flat_map f l = flat_map (fun i => f (nth i l d)) (seq 0 (length l)).
Proof.
  induction l as [|x l IH]; [reflexivity|]. cbn [length seq flat_map nth]. f_equal. rewrite IH, <- seq_shift.
  rewrite !flat_map_concat_map, map_map. reflexivity.
Qed.
Lemma map_flat_map {X Y Z} (g : Y -> Z) (f : X -> list Y) l : map g (flat_map f l) = flat_map (fun x => map g (f x)) l.
Proof. induction l as [|x l IH]; [reflexivity|]. cbn. rewrite map_app, IH. reflexivity. Qed.
Lemma dirs_pairs : flat_map (row_dirs n groups) A = map dirf pairs.
Proof.
  unfold pairs. rewrite (flat_map_nth _ []), map_flat_map, !flat_map_concat_map. f_equal. apply map_ext. intro i.
  rewrite map_map. unfold row_dirs, dirf, tl_, w, pv, cols. cbn [fst snd]. fold (row i).
  destruct (row_cols n (row i)) as [|p js] eqn:E; [|reflexivity]. unfold row_tail. rewrite E. reflexivity.
Qed.
Lemma pairs_in i h : In (i, h) pairs <-> (i < length A)%nat /\ In h (tl_ i).
Proof.
  unfold pairs. rewrite in_flat_map. split.
  - intros (i' & H1 & H2). apply in_map_iff in H2. destruct H2 as (h' & E & H2). inversion E; subst. apply in_seq in H1. split; [lia|exact H2].
  - intros [H1 H2]. exists i. split; [apply in_seq; lia|]. apply in_map. exact H2.
Qed.
Lemma pairs_nodup : NoDup pairs.
Proof.
  unfold pairs. apply NoDup_flat_map; [|apply seq_NoDup|].
  - intros i _. apply FinFun.Injective_map_NoDup; [intros ? ? E; congruence|]. apply tail_nodup.
  - intros i j z _ _ H1 H2. apply in_map_iff in H1, H2. destruct H1 as (? & <- & _), H2 as (? & E & _). congruence.
Qed.
Lemma tl_facts i h : In h (tl_ i) -> cols i <> [] /\ In h (cols i) /\ In (pv i) (cols i) /\ ufs_of groups h = h /\ h <> ufs_of groups (pv i).
Proof.
  intro H. destruct (cols_cases i) as [E|[js E]].
  - unfold tl_, row_tail in H. fold (cols i) in H. rewrite E in H. destruct H.
  - unfold tl_ in H. rewrite (tail_in (row i) (pv i) js) in H by exact E. destruct H as (H1 & H2 & H3).
    split; [rewrite E; discriminate|]. split; [exact H1|]. split; [rewrite E; left; reflexivity|]. auto.
Qed.
Lemma dirf_other i h k i' : (i < length A)%nat -> (i' < length A)%nat -> In h (tl_ i) -> In k (cols i') -> i <> i' -> dirf (i, h) k = 0.
Proof.
  intros Hi Hi' Hh Hk N. destruct (tl_facts i h Hh) as (_ & H1 & H2 & _). unfold dirf. cbn [fst snd].
  destruct (memb k (cls h)) eqn:E1.
  { exfalso. apply memb_in in E1. apply N, (sep_index i i' k); auto. apply (cols_cls i k h); auto. }
  destruct (memb k (cls (pv i))) eqn:E2; [|reflexivity].
  exfalso. apply memb_in in E2. apply N, (sep_index i i' k); auto. apply (cols_cls i k (pv i)); auto.
Qed.
Lemma memb_cls k h : memb k (cls h) = (ufs_of groups k =? ufs_of groups h)%nat.
Proof.
  destruct (_ =? _)%nat eqn:E.
  - apply Nat.eqb_eq in E. apply memb_in, cls_in, E.
  - apply Nat.eqb_neq in E. apply memb_nin. intro H. apply E, cls_in, H.
Qed.
Lemma dirf_ufs ih k : dirf ih k = dirf ih (ufs_of groups k).
Proof. unfold dirf. rewrite !memb_cls, !ufs_idem. reflexivity. Qed.
Lemma bsum_list {X} (f : X -> K) (d : X) l : bsum (length l) (fun c => f (nth c l d)) = fsum (map f l).
Proof. induction l as [|x l IH]; [reflexivity|]. cbn [length map fsum]. rewrite bsum_Sl. cbn [nth]. rewrite IH. reflexivity. Qed.
Lemma fsum_single {X} (deq : forall x y : X, {x = y} + {x <> y}) (f : X -> K) l x0 : NoDup l -> In x0 l ->
  (forall x, In x l -> x <> x0 -> f x = 0) -> fsum (map f l) = f x0.
Proof.
  induction l as [|x l IH]; intros HN Hi H; [destruct Hi|]. inversion HN; subst. cbn. destruct (deq x x0) as [->|N].
  - assert (Z : fsum (map f l) = 0).
    { clear IH HN Hi. induction l as [|y l IH]; [reflexivity|]. cbn. rewrite (H y) by (try (right; left; reflexivity); intros ->; apply H2; left; reflexivity).
      inversion H3; subst. rewrite IH; auto; [ring| |]; try (intro; apply H2; right; assumption).
      intros z [->|Hz] Nz; apply H; auto; [left; reflexivity|right; right; exact Hz]. }
    rewrite Z. ring.
  - destruct Hi as [->|Hi]; [congruence|]. rewrite (H x (or_introl eq_refl) N), IH; auto; [ring|]. intros; apply H; [right|]; assumption.
Qed.
(** A direction lies in the kernel of every row. *)
Lemma dirf_kernel i h i' : (i < length A)%nat -> In h (tl_ i) -> (i' < length A)%nat -> bsum n (fun j => vget (row i') j * dirf (i, h) j) = 0.
Proof.
  intros Hi Hh Hi'. destruct (Nat.eq_dec i i') as [<-|N].
  - destruct (tl_facts i h Hh) as (H0 & H1 & H2 & H3 & H4). destruct (cols_cases i) as [E|[js E]]; [contradiction|].
    rewrite (row_equation (row i) (pv i) js (dirf (i, h)) (HC _ (row_in i Hi)) E) by (intros; apply dirf_ufs).
    fold (tl_ i). rewrite (fsum_single Nat.eq_dec _ _ h (tail_nodup _) Hh).
    + fold (w i). unfold dirf. cbn [fst snd]. rewrite !memb_cls, H3, !Nat.eqb_refl.
      destruct (ufs_of groups (pv i) =? h)%nat eqn:Q; [apply Nat.eqb_eq in Q; congruence|]. ring.
    + intros h' Hh' N. destruct (tl_facts i h' Hh') as (_ & _ & _ & G3 & G4). unfold dirf. cbn [fst snd]. rewrite !memb_cls, H3, G3.
      destruct (h' =? h)%nat eqn:Q1; [apply Nat.eqb_eq in Q1; congruence|].
      destruct (h' =? ufs_of groups (pv i))%nat eqn:Q2; [apply Nat.eqb_eq in Q2; congruence|]. ring.
  - apply bsum_all0. intros j Hj. destruct (feq_dec K (vget (row i') j) 0) as [Z|Z]; [rewrite Z; ring|].
    rewrite (dirf_other i h j i'); auto; [ring|]. apply row_cols_in. auto.
Qed.

Let X0 := assoc (rev (flat_map (row_x0 n groups) (combine A b))).
Lemma x0_in k v : In (k, v) (flat_map (row_x0 n groups) (combine A b)) <->
  exists i, (i < length A)%nat /\ cols i <> [] /\ vget b i <> 0 /\ In k (cls (pv i)) /\ v = vget b i / w i (pv i).
Proof.
  rewrite in_flat_map. split.
  - intros ([r bi] & H1 & H2). destruct (In_nth _ _ ([], 0) H1) as (i & Hi & Ei). rewrite combine_nth in Ei by exact HL.
    rewrite combine_length in Hi. inversion Ei; subst. exists i. split; [lia|]. unfold row_x0 in H2. cbn [fst snd] in H2.
    fold (row i) in H2. fold (cols i) in H2. destruct (cols_cases i) as [E|[js E]]; rewrite E in H2; [destruct H2|].
    fold (vget b i) in H2. destruct (vget b i =? 0) eqn:Z; [destruct H2|]. apply in_map_iff in H2. destruct H2 as (k' & Ek & Hk).
    inversion Ek; subst. split; [rewrite E; discriminate|]. split; [|split; [exact Hk|reflexivity]].
    intro Q. rewrite Q in Z. rewrite (proj2 (feqb_eq K 0 0) eq_refl) in Z. discriminate.
  - intros (i & Hi & H1 & H2 & H3 & ->). exists (row i, vget b i). split.
    + unfold row, vget. rewrite <- (combine_nth A b i [] 0 HL). apply nth_In. rewrite combine_length. lia.
    + unfold row_x0. cbn [fst snd]. fold (cols i). destruct (cols_cases i) as [E|[js E]]; [contradiction|]. rewrite E.
      destruct (vget b i =? 0) eqn:Z; [apply feqb_eq in Z; contradiction|]. apply in_map_iff. exists k. split; [reflexivity|exact H3].
Qed.
Lemma X0_val i k : (i < length A)%nat -> In k (cols i) -> X0 k = if (ufs_of groups k =? ufs_of groups (pv i))%nat then vget b i / w i (pv i) else 0.
Proof.
  intros Hi Hk. assert (Hp : In (pv i) (cols i)). { destruct (cols_cases i) as [E|[js E]]; rewrite E in *; [destruct Hk|left; reflexivity]. }
  unfold X0. apply assoc_spec.
  - intros v Hv. apply in_rev in Hv. apply x0_in in Hv. destruct Hv as (i' & Hi' & H1 & H2 & H3 & ->).
    assert (Hp' : In (pv i') (cols i')). { destruct (cols_cases i') as [E|[js E]]; [contradiction|]. rewrite E. left; reflexivity. }
    assert (i' = i) as ->. { apply (sep_index i' i k); auto. apply (cols_cls i' k (pv i')); auto. }
    apply cls_in in H3. rewrite H3, Nat.eqb_refl. reflexivity.
  - destruct (_ =? _)%nat eqn:E; [|left; reflexivity]. apply Nat.eqb_eq in E.
    destruct (feq_dec K (vget b i) 0) as [Z|Z].
    + left. rewrite Z. assert (w i (pv i) <> 0) by (apply weight_nz, Hp). field. assumption.
    + right. apply -> in_rev. apply x0_in. exists i. split; [exact Hi|]. split; [intro Q; rewrite Q in Hk; destruct Hk|].
      split; [exact Z|]. split; [apply cls_in, E|reflexivity].
Qed.
Lemma X0_ufs k : (k < n)%nat -> X0 k = X0 (ufs_of groups k).
Proof.
  intro Hk. assert (M : forall k v, In (k, v) (flat_map (row_x0 n groups) (combine A b)) <-> In (ufs_of groups k, v) (flat_map (row_x0 n groups) (combine A b))).
  { intros k0 v. rewrite !x0_in. split; intros (i & H1 & H2 & H3 & H4 & H5); exists i; repeat (split; [assumption|]); (split; [|exact H5]);
    apply cls_in; apply cls_in in H4; rewrite ?ufs_idem in *; assumption. }
  unfold X0. symmetry. apply assoc_spec.
  - intros v Hv. apply in_rev in Hv. apply M in Hv. symmetry. apply assoc_spec.
    + intros v' Hv'. apply in_rev in Hv'. apply x0_in in Hv, Hv'.
      destruct Hv as (i & Hi & H1 & H2 & H3 & ->), Hv' as (i' & Hi' & H1' & H2' & H3' & ->).
      assert (Hp : In (pv i) (cols i)). { destruct (cols_cases i) as [E|[js E]]; [contradiction|]. rewrite E. left; reflexivity. }
      assert (Hp' : In (pv i') (cols i')). { destruct (cols_cases i') as [E|[js E]]; [contradiction|]. rewrite E. left; reflexivity. }
      assert (i' = i) as ->; [|reflexivity]. apply (sep_index i' i k); auto; [apply (cols_cls i' k (pv i'))|apply (cols_cls i k (pv i))]; auto.
    + right. apply -> in_rev. exact Hv.
  - assert (D : assoc (rev (flat_map (row_x0 n groups) (combine A b))) k = 0 \/ In (k, assoc (rev (flat_map (row_x0 n groups) (combine A b))) k) (rev (flat_map (row_x0 n groups) (combine A b)))).
    { generalize (rev (flat_map (row_x0 n groups) (combine A b))). intro l. induction l as [|[k' v] l IH]; [left; reflexivity|]. cbn.
      destruct (k' =? k)%nat eqn:E; [apply Nat.eqb_eq in E; subst; right; left; reflexivity|]. destruct IH; auto. }
    destruct D as [D|D]; [left; exact D|right]. apply -> in_rev. apply in_rev in D. apply M in D. exact D.
Qed.

Lemma affine_form x (y : list K) : length y = length pairs ->
  affine_point n (fst (column_separated n A b groups)) (snd (column_separated n A b groups)) y x
  <-> length x = n /\ forall k, (k < n)%nat -> vget x k = X0 k + bsum (length pairs) (fun c => dirf (nth c pairs (0, 0)%nat) k * vget y c).
Proof.
  intro Hy. unfold affine_point, column_separated. cbn [fst snd]. rewrite dirs_pairs, Hy.
  assert (EQ : forall k, (k < n)%nat -> vget (vtab n X0) k + dotv (length pairs) (nth k (map (fun k => map (fun d => d k) (map dirf pairs)) (seq 0 n)) []) y
    = X0 k + bsum (length pairs) (fun c => dirf (nth c pairs (0, 0)%nat) k * vget y c)).
  { intros k Hk. rewrite vget_vtab by exact Hk. f_equal. unfold dotv. apply bsum_ext. intros c Hc. f_equal.
    rewrite (nth_indep _ [] ((fun k => map (fun d => d k) (map dirf pairs)) 0%nat)) by (rewrite map_length, seq_length; exact Hk).
    rewrite (map_nth (fun k => map (fun d => d k) (map dirf pairs))). rewrite seq_nth by exact Hk. cbn [Nat.add]. rewrite map_map.
    unfold vget. rewrite (nth_indep _ 0 ((fun ih => dirf ih k) (0, 0)%nat)) by (rewrite map_length; exact Hc).
    exact (map_nth (fun ih => dirf ih k) pairs (0, 0)%nat c). }
  fold X0. split; intros [H1 H2]; (split; [exact H1|]); intros k Hk; rewrite (H2 k Hk); [apply EQ, Hk|symmetry; apply EQ, Hk].
Qed.

Hypothesis HZ : forall i, (i < length A)%nat -> cols i = [] -> vget b i = 0.
Lemma x0_row i : (i < length A)%nat -> bsum n (fun j => vget (row i) j * X0 j) = vget b i.
Proof.
  intro Hi. destruct (cols_cases i) as [E|[js E]].
  - rewrite (HZ i Hi E). apply bsum_all0. intros j Hj. destruct (feq_dec K (vget (row i) j) 0) as [Z|Z]; [rewrite Z; ring|].
    exfalso. assert (In j (cols i)) by (apply row_cols_in; auto). rewrite E in H. destruct H.
  - rewrite (row_equation (row i) (pv i) js X0 (HC _ (row_in i Hi)) E) by (intros; apply X0_ufs; assumption).
    assert (Hp : In (pv i) (cols i)) by (rewrite E; left; reflexivity).
    rewrite (X0_val i) by assumption. rewrite Nat.eqb_refl. rewrite (fsum_ext_in _ (fun _ => 0)).
    + rewrite (fsum_const _ _ 0) by reflexivity. fold (w i). assert (w i (pv i) <> 0) by (apply weight_nz, Hp). field. assumption.
    + intros h Hh. destruct (tl_facts i h Hh) as (_ & H1 & _ & H3 & H4). rewrite (X0_val i) by assumption. rewrite H3.
      destruct (h =? ufs_of groups (pv i))%nat eqn:Q; [apply Nat.eqb_eq in Q; congruence|]. ring.
Qed.

Lemma Forall2_nth (R : list K -> K -> Prop) : Forall2 R A b <-> forall i, (i < length A)%nat -> R (row i) (vget b i).
Proof.
  unfold row. revert HL. clear. generalize b. clear. induction A as [|r A0 IH]; intros b HL; destruct b as [|bi b0]; cbn in HL; try lia.
  - split; [intros _ i Hi; cbn in Hi; lia|constructor].
  - split.
    + intro H. inversion H; subst. intros [|i] Hi; [assumption|]. apply (proj1 (IH b0 ltac:(lia)) H5). cbn in Hi. lia.
    + intro H. constructor; [apply (H 0%nat); cbn; lia|]. apply (IH b0 ltac:(lia)). intros i Hi. apply (H (S i)). cbn. lia.
Qed.

Lemma sep_sound x (y : list K) : length y = length pairs ->
  affine_point n (fst (column_separated n A b groups)) (snd (column_separated n A b groups)) y x ->
  solves n A b x /\ equal_on groups x.
Proof.
  intros Hy Ha. apply (affine_form x y Hy) in Ha. destruct Ha as [Hx Ha].
  assert (HE : equal_on groups x).
  { apply equal_on_ufs. intro i. destruct (lt_dec i n) as [Hi|Hi].
    - rewrite (Ha i Hi), (Ha _ (ufs_lt i Hi)), X0_ufs by exact Hi. f_equal. apply bsum_ext. intros c _. rewrite dirf_ufs. reflexivity.
    - destruct (ufs_cases i) as [(g & G1 & G2 & _)|[_ ->]]; [|reflexivity]. exfalso. apply Hi, (go_lt _ _ GO g); assumption. }
  split; [|exact HE]. split; [exact Hx|]. apply Forall2_nth. intros i Hi. unfold dotv.
  transitivity (bsum n (fun j => vget (row i) j * X0 j + bsum (length pairs) (fun c => vget (row i) j * dirf (nth c pairs (0, 0)%nat) j * vget y c))).
  { apply bsum_ext. intros j Hj. rewrite (Ha j Hj).
    assert (Q : bsum (length pairs) (fun c => vget (row i) j * dirf (nth c pairs (0, 0)%nat) j * vget y c)
      = vget (row i) j * bsum (length pairs) (fun c => dirf (nth c pairs (0, 0)%nat) j * vget y c)).
    { rewrite <- bsum_mul_l. apply bsum_ext. intros; ring. }
    rewrite Q. ring. }
  rewrite bsum_add, (x0_row i Hi), bsum_swap, bsum_all0; [ring|]. intros c Hc. rewrite bsum_mul_r.
  pose proof (nth_In pairs (0, 0)%nat Hc) as Hin. destruct (nth c pairs (0, 0)%nat) as [i' h]. apply pairs_in in Hin.
  rewrite (dirf_kernel i' h i); [ring|apply Hin|apply Hin|exact Hi].
Qed.

Lemma dir_at i h : (i < length A)%nat -> In h (tl_ i) -> forall ih, In ih pairs -> dirf ih h = if (fst ih =? i)%nat && (snd ih =? h)%nat then - w i (pv i) else 0.
Proof.
  intros Hi Hh [i' h'] Hin. apply pairs_in in Hin. destruct Hin as [Hi' Hh']. cbn [fst snd]. destruct (tl_facts i h Hh) as (_ & H1 & _ & H3 & H4).
  destruct (Nat.eqb_spec i' i) as [->|N]; cbn [andb].
  - destruct (tl_facts i h' Hh') as (_ & _ & _ & G3 & G4). unfold dirf. cbn [fst snd]. rewrite !memb_cls, H3, G3, (Nat.eqb_sym h h').
    destruct (Nat.eqb_spec h' h) as [->|N]; [reflexivity|].
    destruct (h =? ufs_of groups (pv i))%nat eqn:Q; [apply Nat.eqb_eq in Q; congruence|]. reflexivity.
  - apply (dirf_other i' h' h i); auto.
Qed.

Lemma sep_unique x (y y' : list K) : length y = length pairs -> length y' = length pairs ->
  affine_point n (fst (column_separated n A b groups)) (snd (column_separated n A b groups)) y x ->
  affine_point n (fst (column_separated n A b groups)) (snd (column_separated n A b groups)) y' x -> y = y'.
Proof.
  intros Hy Hy' Ha Ha'. apply (affine_form x y Hy) in Ha. apply (affine_form x y' Hy') in Ha'. destruct Ha as [_ Ha], Ha' as [_ Ha'].
  apply (nth_ext _ _ 0 0); [congruence|]. intros c Hc. rewrite Hy in Hc. fold (vget y c). fold (vget y' c).
  pose proof (nth_In pairs (0, 0)%nat Hc) as Hin. destruct (nth c pairs (0, 0)%nat) as [i h] eqn:Ec. apply pairs_in in Hin. destruct Hin as [Hi Hh].
  destruct (tl_facts i h Hh) as (_ & H1 & H2 & H3 & H4).
  assert (S : forall z : list K, bsum (length pairs) (fun c => dirf (nth c pairs (0, 0)%nat) h * vget z c) = - w i (pv i) * vget z c).
  { intro z. rewrite (bsum_single _ _ c).
    - rewrite (dir_at i h Hi Hh) by (apply nth_In, Hc). rewrite Ec. cbn [fst snd]. rewrite !Nat.eqb_refl. reflexivity.
    - exact Hc.
    - intros c' Hc' N. rewrite (dir_at i h Hi Hh) by (apply nth_In, Hc'). destruct (_ && _)%bool eqn:Q; [|ring].
      exfalso. apply N. apply andb_true_iff in Q. destruct Q as [Q1 Q2]. apply Nat.eqb_eq in Q1, Q2.
      apply (proj1 (NoDup_nth pairs (0, 0)%nat) pairs_nodup); auto. rewrite Ec. destruct (nth c' pairs (0, 0)%nat). cbn in Q1, Q2. congruence. }
  assert (Hn : (h < n)%nat) by (apply row_cols_in in H1; apply H1).
  pose proof (Ha h Hn) as E1. pose proof (Ha' h Hn) as E2. rewrite S in E1, E2. rewrite E1 in E2.
  assert (NZ : w i (pv i) <> 0) by (apply weight_nz, H2).
  assert (D : w i (pv i) * (vget y c - vget y' c) = 0).
  { transitivity ((X0 h + - w i (pv i) * vget y' c) - (X0 h + - w i (pv i) * vget y c)); [ring|]. rewrite E2. ring. }
  apply fmul_eq0 in D. destruct D as [D|D]; [contradiction|]. transitivity (vget y c - vget y' c + vget y' c); [ring|]. rewrite D. ring.
Qed.

Hypothesis HN : forall j, (j < n)%nat -> exists i, (i < length A)%nat /\ In j (cols i).
Lemma sep_complete x : solves n A b x -> equal_on groups x ->
  exists y : list K, length y = length pairs /\
    affine_point n (fst (column_separated n A b groups)) (snd (column_separated n A b groups)) y x.
Proof.
  intros [Hx HF] HE. pose proof (proj1 (Forall2_nth _) HF) as HR. clear HF.
  pose proof (proj1 (equal_on_ufs x) HE) as HU.
  pose (yv := fun ih : nat * nat => - vget x (snd ih) / w (fst ih) (pv (fst ih))).
  exists (map yv pairs). split; [apply map_length|]. apply affine_form; [apply map_length|]. split; [exact Hx|]. intros k Hk.
  assert (SUM : bsum (length pairs) (fun c => dirf (nth c pairs (0, 0)%nat) k * vget (map yv pairs) c) = fsum (map (fun ih => dirf ih k * yv ih) pairs)).
  { transitivity (bsum (length pairs) (fun c => (fun ih => dirf ih k * yv ih) (nth c pairs (0, 0)%nat))).
    - apply bsum_ext. intros c Hc. cbn beta. f_equal. unfold vget. rewrite (nth_indep _ 0 (yv (0, 0)%nat)) by (rewrite map_length; exact Hc). apply map_nth.
    - apply (bsum_list (fun ih => dirf ih k * yv ih)). }
  rewrite SUM. clear SUM. destruct (HN k Hk) as (i & Hi & Hki).
  destruct (cols_cases i) as [E|[js E]]; [rewrite E in Hki; destruct Hki|].
  assert (Hp : In (pv i) (cols i)) by (rewrite E; left; reflexivity).
  assert (NZ : w i (pv i) <> 0) by (apply weight_nz, Hp).
  assert (R1 : fsum (map (fun ih => dirf ih k * yv ih) pairs) = fsum (map (fun h => dirf (i, h) k * yv (i, h)) (tl_ i))).
  { unfold pairs. assert (G : forall l, NoDup l -> (forall i', In i' l -> (i' < length A)%nat) -> In i l ->
      fsum (map (fun ih => dirf ih k * yv ih) (flat_map (fun i => map (fun h => (i, h)) (tl_ i)) l)) = fsum (map (fun h => dirf (i, h) k * yv (i, h)) (tl_ i))).
    { intros l ND LT IN. transitivity (fsum (map (fun i' => fsum (map (fun h => dirf (i', h) k * yv (i', h)) (tl_ i'))) l)).
      - clear ND LT IN. induction l as [|a l IH]; [reflexivity|]. cbn. rewrite map_app, fsum_app, IH, map_map. reflexivity.
      - apply (fsum_single Nat.eq_dec (fun i' => fsum (map (fun h => dirf (i', h) k * yv (i', h)) (tl_ i'))) l i ND IN).
        intros i' Hi' N. rewrite (fsum_ext_in _ (fun _ => 0)); [rewrite (fsum_const _ _ 0) by reflexivity; ring|].
        intros h Hh. rewrite (dirf_other i' h k i); auto. ring. }
    apply G; [apply seq_NoDup| |]; [intros i' H; apply in_seq in H; lia|apply in_seq; lia]. }
  rewrite R1, (X0_val i k Hi Hki). clear R1. destruct (Nat.eqb_spec (ufs_of groups k) (ufs_of groups (pv i))) as [U|U].
  - rewrite (fsum_ext_in _ (fun h => - (1 / w i (pv i)) * (w i h * vget x h))).
    + assert (EQN := HR i Hi). cbv beta in EQN. unfold dotv in EQN.
      rewrite (row_equation (row i) (pv i) js (vget x) (HC _ (row_in i Hi)) E) in EQN by (intros; apply HU).
      fold (w i) in EQN. fold (tl_ i) in EQN.
      assert (FM : forall l, fsum (map (fun h => - (1 / w i (pv i)) * (w i h * vget x h)) l) = - (1 / w i (pv i)) * fsum (map (fun h => w i h * vget x h) l)).
      { induction l as [|a l IH]; cbn; [ring|]. rewrite IH. ring. }
      rewrite FM. rewrite <- EQN. rewrite (HU k), U, <- (HU (pv i)). field. exact NZ.
    + intros h Hh. destruct (tl_facts i h Hh) as (_ & H1 & _ & H3 & H4). unfold dirf, yv. cbn [fst snd]. rewrite !memb_cls, H3, U, Nat.eqb_refl.
      destruct (Nat.eqb_spec (ufs_of groups (pv i)) h) as [Q|Q]; [congruence|]. field. exact NZ.
  - assert (Ht : In (ufs_of groups k) (tl_ i)).
    { apply (tail_in (row i) (pv i) js (ufs_of groups k) E). split; [|split; [apply ufs_idem|exact U]]. apply (cols_cls i _ k); auto. apply cls_in, ufs_idem. }
    rewrite (fsum_single Nat.eq_dec _ _ (ufs_of groups k) (tail_nodup _) Ht).
    + unfold dirf, yv. cbn [fst snd]. rewrite memb_cls, ufs_idem, Nat.eqb_refl, (HU k). field. exact NZ.
    + intros h Hh N. destruct (tl_facts i h Hh) as (_ & H1 & _ & H3 & H4). unfold dirf. cbn [fst snd]. rewrite !memb_cls, H3.
      destruct (Nat.eqb_spec (ufs_of groups k) h) as [Q|_]; [congruence|].
      destruct (Nat.eqb_spec (ufs_of groups k) (ufs_of groups (pv i))) as [Q|_]; [contradiction|]. ring.
Qed.
End Sep.

Lemma column_separated_spec A (b : list K) : length A = length b -> (forall row, In row A -> coherent row) -> is_separated n A = true ->
  (forall i, (i < length A)%nat -> row_cols n (nth i A []) = [] -> vget b i = 0) ->
  let r := column_separated n A b groups in
  length (fst r) = n /\ length (snd r) = n /\
  exists f, (forall row, In row (snd r) -> length row = f) /\
    (forall x y, length y = f -> affine_point n (fst r) (snd r) y x -> solves n A b x /\ equal_on groups x) /\
    ((forall j, (j < n)%nat -> exists i, (i < length A)%nat /\ mget A i j <> 0) ->
      forall x, solves n A b x -> equal_on groups x -> exists y : list K, length y = f /\ affine_point n (fst r) (snd r) y x) /\
    (forall x (y y' : list K), length y = f -> length y' = f -> affine_point n (fst r) (snd r) y x -> affine_point n (fst r) (snd r) y' x -> y = y').
Proof.
  intros HL HC HS HZ r. split; [apply vtab_length|]. split; [unfold r, column_separated; cbn [snd]; rewrite map_length, seq_length; reflexivity|].
  exists (length (pairs A)). split; [|split; [|split]].
  - intros row H. unfold r, column_separated in H. cbn [snd] in H. apply in_map_iff in H. destruct H as (k & <- & _).
    rewrite map_length, dirs_pairs, map_length. reflexivity.
  - intros x y Hy. exact (sep_sound A b HL HC HS HZ x y Hy).
  - intros HN x. apply (sep_complete A b HL HC HS). intros j Hj. destruct (HN j Hj) as (i & Hi & Hz). exists i. split; [exact Hi|].
    apply row_cols_in. split; [exact Hj|exact Hz].
  - intros x y y'. exact (sep_unique A b HL HC HS x y y').
Qed.
End Groups.
End Proofs.
