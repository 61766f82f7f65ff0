(** * Model of [congruence] (triples/sdp/utils.py:11-65) *)
From Coq Require Import Bool List Arith Lia Ring Field.
From Verif Require Import OrdField Base.
Import ListNotations.

Section Model.
Context {K : OrdField}.
Local Open Scope of_scope.

(** One run of the loop of [congruence] (triples/sdp/utils.py:50-64) on an
    [n] x [n] matrix.  Iteration [i] of the Python loop reads and writes only
    the block [M[i:, i:]], so the recursion is on that trailing block.
    - [sgn > 0] (utils.py:52-56): row of [U], entry of [S], Schur complement;
    - [sgn < 0] (utils.py:57-58): [None];
    - [sgn == 0] (utils.py:59-60): [None] when the column below is not zero,
      otherwise the row of [U] and the entry of [S] keep their initial 0;
    - last index (utils.py:61-64): [U[-1,-1] = 1], [S[-1] = M[-1,-1]], [None] if negative.
    Size 0 never reaches the loop (see [congruence]). *)
Fixpoint cong_loop (n : nat) (M : list (list K)) : option (list (list K) * list K) :=
  match n with
  | O => None
  | S O =>
      let m := mget M 0 0 in
      if m <? 0 then None else Some ([[1]], [m])
  | S n' =>
      let m := mget M 0 0 in
      if 0 <? m then
        let u := vtab n' (fun j => mget M 0 (S j) / m) in
        let M' := mtab n' n' (fun j k => mget M (S j) (S k) - vget u j * (vget u k * m)) in
        match cong_loop n' M' with
        | None => None
        | Some (U, Sv) => Some ((1 :: u) :: map (cons 0) U, m :: Sv)
        end
      else if m <? 0 then None
      else if existsb (fun j => negb (mget M (S j) 0 =? 0)) (seq 0 n') then None
      else
        let M' := mtab n' n' (fun j k => mget M (S j) (S k)) in
        match cong_loop n' M' with
        | None => None
        | Some (U, Sv) => Some (vtab n (fun _ => 0) :: map (cons 0) U, 0 :: Sv)
        end
  end.

(** [congruence(M)] (triples/sdp/utils.py:11-65) with the default exact sign
    function.  A 0 x 0 matrix raises [IndexError] at [M[0,0]] (utils.py:44).
    Simplification: the numpy branch (floating point) is not modelled. *)
Definition congruence (M : list (list K)) : res (option (list (list K) * list K)) :=
  match M with
  | [] => Err IndexError
  | _ => Ok (cong_loop (length M) M)
  end.

End Model.

(** ** Specification *)
Section Spec.
Context {K : OrdField}.
Local Open Scope of_scope.

Definition symmetric (n : nat) (M : list (list K)) : Prop :=
  forall i j, (i < n)%nat -> (j < n)%nat -> mget M i j = mget M j i.

(** value of the quadratic form x^T M x *)
Definition qform (n : nat) (M : list (list K)) (x : nat -> K) : K :=
  bsum n (fun i => bsum n (fun j => x i * mget M i j * x j)).

Definition psd (n : nat) (M : list (list K)) : Prop := forall x, 0 <= qform n M x.

(** [M = U^T diag(S) U] entry by entry *)
Definition is_congruence (n : nat) (M U : list (list K)) (Sv : list K) : Prop :=
  forall i j, (i < n)%nat -> (j < n)%nat ->
    mget M i j = bsum n (fun k => mget U k i * vget Sv k * mget U k j).

Definition upper_triangular (n : nat) (U : list (list K)) : Prop :=
  forall i j, (i < n)%nat -> (j < i)%nat -> mget U i j = 0.
End Spec.

Section Proofs.
Variable K : OrdField.
Local Open Scope of_scope.
Add Field Kf : (F_field K).
Implicit Types M U : list (list K).

Lemma cong_loop_SS n M : cong_loop (S (S n)) M =
      let m := mget M 0 0 in
      if 0 <? m then
        let u := vtab (S n) (fun j => mget M 0 (S j) / m) in
        let M' := mtab (S n) (S n) (fun j k => mget M (S j) (S k) - vget u j * (vget u k * m)) in
        match cong_loop (S n) M' with
        | None => None
        | Some (U, Sv) => Some ((1 :: u) :: map (cons 0) U, m :: Sv)
        end
      else if m <? 0 then None
      else if existsb (fun j => negb (mget M (S j) 0 =? 0)) (seq 0 (S n)) then None
      else
        let M' := mtab (S n) (S n) (fun j k => mget M (S j) (S k)) in
        match cong_loop (S n) M' with
        | None => None
        | Some (U, Sv) => Some (vtab (S (S n)) (fun _ => 0) :: map (cons 0) U, 0 :: Sv)
        end.
Proof. reflexivity. Qed.

Lemma mget_cons_S (r : list K) U i j : mget (r :: U) (S i) j = mget U i j.
Proof. reflexivity. Qed.
Lemma mget_cons_0 (r : list K) U j : mget (r :: U) 0 j = vget r j.
Proof. reflexivity. Qed.
Lemma vget_cons_S (a : K) v i : vget (a :: v) (S i) = vget v i.
Proof. reflexivity. Qed.
Lemma vget_cons_0 (a : K) v : vget (a :: v) 0 = a.
Proof. reflexivity. Qed.
Lemma mget_mapcons_S U i j : mget (map (cons 0) U) i (S j) = mget U i j.
Proof.
  unfold mget. destruct (Nat.lt_ge_cases i (length U)) as [H|H].
  - rewrite nth_indep with (d' := cons 0 nil) by (rewrite map_length; exact H).
    rewrite map_nth. reflexivity.
  - rewrite nth_overflow by (rewrite map_length; exact H).
    rewrite (nth_overflow U) by exact H. unfold vget. destruct j; reflexivity.
Qed.
Lemma mget_mapcons_0 U i : mget (map (cons 0) U) i 0 = 0.
Proof.
  unfold mget. destruct (Nat.lt_ge_cases i (length U)) as [H|H].
  - rewrite nth_indep with (d' := cons 0 nil) by (rewrite map_length; exact H).
    rewrite map_nth. reflexivity.
  - rewrite nth_overflow by (rewrite map_length; exact H). reflexivity.
Qed.

Lemma zero_of_not_lt (m : K) : (0 <? m) = false -> (m <? 0) = false -> m = 0.
Proof.
  intros H1 H2. apply fltb_ge in H1. apply fltb_ge in H2. apply fle_antisym; assumption.
Qed.

Lemma existsb_col_false n M :
  existsb (fun j => negb (mget M (S j) 0 =? 0)) (seq 0 n) = false ->
  forall j, (j < n)%nat -> mget M (S j) 0 = 0.
Proof.
  intros H j Hj. apply feqb_eq. destruct (mget M (S j) 0 =? 0) eqn:E; [reflexivity|].
  exfalso. assert (Ht : existsb (fun j => negb (mget M (S j) 0 =? 0)) (seq 0 n) = true).
  { apply existsb_exists. exists j. split; [apply in_seq; lia|]. rewrite E. reflexivity. }
  congruence.
Qed.
Lemma existsb_col_true n M :
  existsb (fun j => negb (mget M (S j) 0 =? 0)) (seq 0 n) = true ->
  exists j, (j < n)%nat /\ mget M (S j) 0 <> 0.
Proof.
  intro H. apply existsb_exists in H. destruct H as [j [Hj E]]. exists j.
  apply in_seq in Hj. split; [lia|]. apply feqb_neq. apply negb_true_iff. exact E.
Qed.

Lemma cong_loop_lengths n M U Sv :
  cong_loop n M = Some (U, Sv) -> length U = n /\ length Sv = n.
Proof.
  revert M U Sv. induction n as [|[|n] IH]; intros M U Sv H.
  - discriminate.
  - cbn in H. destruct (mget M 0 0 <? 0); inversion H; subst. split; reflexivity.
  - rewrite cong_loop_SS in H. cbv zeta in H.
    destruct (0 <? mget M 0 0).
    + destruct (cong_loop (S n) _) as [[U' S']|] eqn:E; [|discriminate].
      inversion H; subst. apply IH in E. cbn [length]. rewrite map_length. lia.
    + destruct (mget M 0 0 <? 0); [discriminate|].
      destruct (existsb _ _); [discriminate|].
      destruct (cong_loop (S n) _) as [[U' S']|] eqn:E; [|discriminate].
      inversion H; subst. apply IH in E. cbn [length]. rewrite map_length. lia.
Qed.

Lemma cong_loop_sound n M U Sv :
  symmetric n M ->
  cong_loop n M = Some (U, Sv) ->
  is_congruence n M U Sv /\ (forall i, (i < n)%nat -> 0 <= vget Sv i) /\ upper_triangular n U.
Proof.
  revert M U Sv. induction n as [|[|n] IH]; intros M U Sv Hsym H.
  - discriminate.
  - cbn in H. destruct (mget M 0 0 <? 0) eqn:E; [discriminate|]. apply fltb_ge in E.
    inversion H; subst. split; [|split].
    + intros i j Hi Hj. assert (i = 0%nat) by lia. assert (j = 0%nat) by lia. subst. cbn. ring.
    + intros i Hi. assert (i = 0%nat) by lia. subst. exact E.
    + intros i j Hi Hj. lia.
  - rewrite cong_loop_SS in H. cbv zeta in H.
    destruct (0 <? mget M 0 0) eqn:Epos.
    + apply fltb_lt in Epos. set (m := mget M 0 0) in *.
      pose proof (flt_neq0 Epos) as Hm.
      set (u := vtab (S n) (fun j => mget M 0 (S j) / m)) in *.
      set (M' := mtab (S n) (S n) (fun j k => mget M (S j) (S k) - vget u j * (vget u k * m))) in *.
      destruct (cong_loop (S n) M') as [[U' S']|] eqn:E; [|discriminate].
      inversion H; subst U Sv; clear H.
      assert (Hsym' : symmetric (S n) M').
      { intros i j Hi Hj. unfold M'. rewrite !mget_mtab by assumption.
        rewrite (Hsym (S i) (S j)) by lia. ring. }
      destruct (IH M' U' S' Hsym' E) as [HC [HS HU]]. split; [|split].
      * intros i j Hi Hj. rewrite bsum_Sl. rewrite !mget_cons_0, vget_cons_0.
        rewrite (bsum_ext K (S n) _ (fun k => mget (map (cons 0) U') k i * vget S' k * mget (map (cons 0) U') k j))
          by (intros; reflexivity).
        destruct i as [|i]; destruct j as [|j].
        -- rewrite bsum_all0 by (intros; rewrite mget_mapcons_0; ring).
           rewrite !vget_cons_0. fold m. ring.
        -- rewrite bsum_all0 by (intros; rewrite mget_mapcons_0; ring).
           rewrite vget_cons_0, vget_cons_S. unfold u. rewrite vget_vtab by lia. field. exact Hm.
        -- rewrite bsum_all0 by (intros; rewrite mget_mapcons_0; ring).
           rewrite vget_cons_0, vget_cons_S. unfold u. rewrite vget_vtab by lia.
           rewrite (Hsym (S i) 0%nat) by lia. field. exact Hm.
        -- rewrite !vget_cons_S.
           rewrite (bsum_ext K (S n) _ (fun k => mget U' k i * vget S' k * mget U' k j))
             by (intros; rewrite !mget_mapcons_S; reflexivity).
           rewrite <- HC by lia. unfold M'. rewrite mget_mtab by lia. ring.
      * intros i Hi. destruct i as [|i]; [rewrite vget_cons_0; apply flt_le; exact Epos|].
        rewrite vget_cons_S. apply HS. lia.
      * intros i j Hi Hj. destruct i as [|i]; [lia|]. rewrite mget_cons_S.
        destruct j as [|j]; [apply mget_mapcons_0|]. rewrite mget_mapcons_S. apply HU; lia.
    + destruct (mget M 0 0 <? 0) eqn:Eneg; [discriminate|].
      destruct (existsb _ _) eqn:Ecol; [discriminate|].
      pose proof (zero_of_not_lt _ Epos Eneg) as Hm0.
      pose proof (existsb_col_false _ _ Ecol) as Hcol.
      set (M' := mtab (S n) (S n) (fun j k => mget M (S j) (S k))) in *.
      destruct (cong_loop (S n) M') as [[U' S']|] eqn:E; [|discriminate].
      inversion H; subst U Sv; clear H.
      assert (Hsym' : symmetric (S n) M').
      { intros i j Hi Hj. unfold M'. rewrite !mget_mtab by assumption. apply Hsym; lia. }
      destruct (IH M' U' S' Hsym' E) as [HC [HS HU]]. split; [|split].
      * intros i j Hi Hj. rewrite bsum_Sl. rewrite !mget_cons_0, vget_cons_0.
        rewrite (bsum_ext K (S n) _ (fun k => mget (map (cons 0) U') k i * vget S' k * mget (map (cons 0) U') k j))
          by (intros; reflexivity).
        destruct i as [|i]; destruct j as [|j].
        -- rewrite bsum_all0 by (intros; rewrite mget_mapcons_0; ring). rewrite Hm0. ring.
        -- rewrite bsum_all0 by (intros; rewrite mget_mapcons_0; ring).
           rewrite (Hsym 0%nat (S j)), Hcol by lia. ring.
        -- rewrite bsum_all0 by (intros; rewrite mget_mapcons_0; ring).
           rewrite Hcol by lia. ring.
        -- rewrite (bsum_ext K (S n) _ (fun k => mget U' k i * vget S' k * mget U' k j))
             by (intros; rewrite !mget_mapcons_S; reflexivity).
           rewrite <- HC by lia. unfold M'. rewrite mget_mtab by lia. ring.
      * intros i Hi. destruct i as [|i]; [apply fle_refl|]. rewrite vget_cons_S. apply HS. lia.
      * intros i j Hi Hj. destruct i as [|i]; [lia|]. rewrite mget_cons_S.
        destruct j as [|j]; [apply mget_mapcons_0|]. rewrite mget_mapcons_S. apply HU; lia.
Qed.

Lemma bsum_Sl2 n (f : nat -> nat -> K) :
  bsum (S n) (fun i => bsum (S n) (fun j => f i j))
  = f 0%nat 0%nat + bsum n (fun j => f 0%nat (S j)) + bsum n (fun i => f (S i) 0%nat)
    + bsum n (fun i => bsum n (fun j => f (S i) (S j))).
Proof.
  rewrite bsum_Sl, bsum_Sl.
  rewrite (bsum_ext K n (fun i => bsum (S n) (fun j => f (S i) j))
             (fun i => f (S i) 0%nat + bsum n (fun j => f (S i) (S j))))
    by (intros; apply bsum_Sl).
  rewrite bsum_add. ring.
Qed.

(** form of the whole matrix from the form of the Schur complement *)
Lemma qform_schur n M (m : K) (y : nat -> K) :
  symmetric (S n) M -> m = mget M 0 0 -> m <> 0 ->
  let u j := mget M 0 (S j) / m in
  let M' := mtab n n (fun j k => mget M (S j) (S k) - u j * (u k * m)) in
  forall x0,
  qform (S n) M (fun i => match i with O => x0 | S i' => y i' end)
  = m * ((x0 + bsum n (fun j => u j * y j)) * (x0 + bsum n (fun j => u j * y j))) + qform n M' y.
Proof.
  intros Hsym Hm Hm0 u M' x0. unfold qform. rewrite bsum_Sl2.
  rewrite (bsum_ext K n (fun j => x0 * mget M 0 (S j) * y j) (fun j => (x0 * m) * (u j * y j)))
    by (intros; unfold u; field; exact Hm0).
  rewrite (bsum_ext K n (fun j => y j * mget M (S j) 0 * x0) (fun j => (x0 * m) * (u j * y j))).
  2:{ intros i Hi. unfold u. rewrite (Hsym (S i) 0%nat) by lia. field; exact Hm0. }
  rewrite bsum_mul_l.
  rewrite (bsum_ext K n (fun i => bsum n (fun j => y i * mget M' i j * y j))
    (fun i => bsum n (fun j => y i * mget M (S i) (S j) * y j)
              - bsum n (fun j => (m * (u i * y i)) * (u j * y j)))).
  2:{ intros i Hi. rewrite <- bsum_sub. apply bsum_ext. intros j Hj. unfold M'.
      rewrite mget_mtab by assumption. ring. }
  rewrite bsum_sub.
  rewrite (bsum_ext K n (fun i => bsum n (fun j => m * (u i * y i) * (u j * y j)))
     (fun i => (m * bsum n (fun j => u j * y j)) * (u i * y i))).
  2:{ intros i Hi. rewrite bsum_mul_l. ring. }
  rewrite bsum_mul_l. rewrite Hm. ring.
Qed.

Lemma qform_ext n M1 M2 (x y : nat -> K) :
  (forall i j, (i < n)%nat -> (j < n)%nat -> mget M1 i j = mget M2 i j) ->
  (forall i, (i < n)%nat -> x i = y i) -> qform n M1 x = qform n M2 y.
Proof.
  intros H1 H2. unfold qform. apply bsum_ext. intros i Hi. apply bsum_ext. intros j Hj.
  rewrite H1, !H2 by assumption. reflexivity.
Qed.

Lemma qform_unit n M k : (k < n)%nat ->
  qform n M (fun i => if Nat.eqb i k then 1 else 0) = mget M k k.
Proof.
  intro Hk. unfold qform. rewrite (bsum_single K n k); [|exact Hk|].
  - rewrite (bsum_single K n k); [rewrite Nat.eqb_refl; ring|exact Hk|].
    intros i Hi Hne. destruct (Nat.eqb_spec i k); [congruence|]. ring.
  - intros i Hi Hne. destruct (Nat.eqb_spec i k); [congruence|].
    apply bsum_all0. intros; ring.
Qed.

Lemma cong_loop_none n M :
  (0 < n)%nat -> symmetric n M -> cong_loop n M = None -> exists x, qform n M x < 0.
Proof.
  revert M. induction n as [|[|n] IH]; intros M Hn Hsym H.
  - lia.
  - cbn in H. destruct (mget M 0 0 <? 0) eqn:E; [|discriminate]. apply fltb_lt in E.
    exists (fun _ => 1). unfold qform. cbn. replace (0 + (0 + 1 * mget M 0 0 * 1)) with (mget M 0 0) by ring.
    exact E.
  - rewrite cong_loop_SS in H. cbv zeta in H.
    destruct (0 <? mget M 0 0) eqn:Epos.
    + apply fltb_lt in Epos. pose proof (flt_neq0 Epos) as Hm.
      match type of H with context [cong_loop (S n) ?M'] => set (M1 := M') in * end.
      destruct (cong_loop (S n) M1) as [[U' S']|] eqn:E; [discriminate|].
      assert (HM1 : forall i j, (i < S n)%nat -> (j < S n)%nat ->
        mget M1 i j = mget (mtab (S n) (S n) (fun j k => mget M (S j) (S k)
           - (mget M 0 (S j) / mget M 0 0) * ((mget M 0 (S k) / mget M 0 0) * mget M 0 0))) i j).
      { intros i j Hi Hj. unfold M1. rewrite !mget_mtab by assumption.
        rewrite !vget_vtab by assumption. reflexivity. }
      assert (Hsym' : symmetric (S n) M1).
      { intros i j Hi Hj. rewrite !HM1 by assumption. rewrite !mget_mtab by assumption.
        rewrite (Hsym (S i) (S j)) by lia. ring. }
      destruct (IH M1 ltac:(lia) Hsym' E) as [y Hy].
      exists (fun i => match i with O => - bsum (S n) (fun j => mget M 0 (S j) / mget M 0 0 * y j) | S i' => y i' end).
      rewrite (qform_schur (S n) M (mget M 0 0) y Hsym eq_refl Hm). cbv zeta.
      rewrite <- (qform_ext (S n) M1 _ y y HM1) by reflexivity.
      match goal with |- ?a < 0 => replace a with (qform (S n) M1 y) by ring end. exact Hy.
    + destruct (mget M 0 0 <? 0) eqn:Eneg.
      { apply fltb_lt in Eneg. exists (fun i => if Nat.eqb i 0 then 1 else 0).
        rewrite qform_unit by lia. exact Eneg. }
      pose proof (zero_of_not_lt _ Epos Eneg) as Hm0.
      destruct (existsb _ _) eqn:Ecol.
      * apply existsb_col_true in Ecol. destruct Ecol as [j [Hj Hc]].
        set (c := mget M (S j) 0) in *. set (d := mget M (S j) (S j)).
        set (t := - (d + 1) / ((1 + 1) * c)).
        exists (fun i => if Nat.eqb i 0 then t else if Nat.eqb i (S j) then 1 else 0).
        assert (Hq : qform (S (S n)) M (fun i => if Nat.eqb i 0 then t else if Nat.eqb i (S j) then 1 else 0)
           = (1 + 1) * t * c + d).
        { unfold qform. rewrite bsum_Sl2. cbn [Nat.eqb].
          rewrite (bsum_single K (S n) j _ Hj).
          2:{ intros i Hi Hne. destruct (Nat.eqb_spec i j); [congruence|]. ring. }
          rewrite (bsum_single K (S n) j _ Hj).
          2:{ intros i Hi Hne. destruct (Nat.eqb_spec i j); [congruence|]. ring. }
          rewrite (bsum_single K (S n) j _ Hj).
          2:{ intros i Hi Hne. destruct (Nat.eqb_spec i j); [congruence|].
              apply bsum_all0. intros; ring. }
          rewrite (bsum_single K (S n) j _ Hj).
          2:{ intros i Hi Hne. destruct (Nat.eqb_spec i j); [congruence|]. ring. }
          rewrite Nat.eqb_refl, Hm0, (Hsym 0%nat (S j)) by lia. fold c. fold d. ring. }
        rewrite Hq. unfold t. replace ((1 + 1) * (- (d + 1) / ((1 + 1) * c)) * c + d) with (- (1) : K).
        -- apply flt_sub. replace (0 - - (1)) with (1:K) by ring. apply f1_pos.
        -- field. split; [exact Hc|apply f2_neq0].
      * pose proof (existsb_col_false _ _ Ecol) as Hcol.
        match type of H with context [cong_loop (S n) ?M'] => set (M1 := M') in * end.
        destruct (cong_loop (S n) M1) as [[U' S']|] eqn:E; [discriminate|].
        assert (Hsym' : symmetric (S n) M1).
        { intros i j Hi Hj. unfold M1. rewrite !mget_mtab by assumption. apply Hsym; lia. }
        destruct (IH M1 ltac:(lia) Hsym' E) as [y Hy].
        exists (fun i => match i with O => 0 | S i' => y i' end).
        unfold qform. rewrite bsum_Sl2.
        rewrite (bsum_all0 K (S n) (fun j => 0 * mget M 0 (S j) * y j)) by (intros; ring).
        rewrite (bsum_all0 K (S n) (fun i => y i * mget M (S i) 0 * 0)) by (intros; ring).
        replace (bsum (S n) (fun i => bsum (S n) (fun j => y i * mget M (S i) (S j) * y j)))
          with (qform (S n) M1 y).
        -- match goal with |- ?a < 0 => replace a with (qform (S n) M1 y) by ring end. exact Hy.
        -- unfold qform. apply bsum_ext. intros i Hi. apply bsum_ext. intros k Hk.
           unfold M1. rewrite mget_mtab by assumption. reflexivity.
Qed.

(** a decomposition with non-negative weights is PSD *)
Lemma congruence_form n M U Sv (x : nat -> K) :
  is_congruence n M U Sv ->
  qform n M x = bsum n (fun k => vget Sv k * (bsum n (fun i => mget U k i * x i) * bsum n (fun i => mget U k i * x i))).
Proof.
  intro H. unfold qform.
  rewrite (bsum_ext K n _ (fun i => bsum n (fun k => bsum n (fun j => x i * (mget U k i * vget Sv k * mget U k j) * x j)))).
  2:{ intros i Hi. rewrite bsum_swap. apply bsum_ext. intros j Hj. rewrite H by assumption.
      rewrite <- bsum_mul_l, <- bsum_mul_r. reflexivity. }
  rewrite bsum_swap. apply bsum_ext. intros k Hk.
  rewrite <- bsum_mul_r, <- bsum_mul_l. apply bsum_ext. intros i Hi.
  rewrite <- bsum_mul_l, <- bsum_mul_l. apply bsum_ext. intros j Hj. ring.
Qed.

Lemma congruence_psd n M U Sv :
  is_congruence n M U Sv -> (forall i, (i < n)%nat -> 0 <= vget Sv i) -> psd n M.
Proof.
  intros H HS x. rewrite (congruence_form n M U Sv x H). apply bsum_nonneg. intros k Hk.
  apply fmul_nonneg; [apply HS; exact Hk|apply fsqr_nonneg].
Qed.

Lemma cong_loop_none_iff n M :
  (0 < n)%nat -> symmetric n M -> (cong_loop n M = None <-> ~ psd n M).
Proof.
  intros Hn Hsym. split.
  - intros H Hp. destruct (cong_loop_none n M Hn Hsym H) as [x Hx].
    apply flt_not_le in Hx. apply Hx, Hp.
  - intro H. destruct (cong_loop n M) as [[U Sv]|] eqn:E; [|reflexivity].
    exfalso. apply H. destruct (cong_loop_sound n M U Sv Hsym E) as [H1 [H2 _]].
    eapply congruence_psd; eassumption.
Qed.

Lemma congruence_ok M r : congruence M = Ok r -> M <> [] /\ cong_loop (length M) M = r.
Proof.
  unfold congruence. intro H. destruct M as [|row M]; [discriminate|].
  apply Ok_inj in H. split; [discriminate|exact H].
Qed.
Lemma congruence_nonempty M : M <> [] -> congruence M = Ok (cong_loop (length M) M).
Proof. destruct M; [contradiction|reflexivity]. Qed.

Lemma congruence_sound_lemma M U Sv :
  symmetric (length M) M ->
  congruence M = Ok (Some (U, Sv)) ->
  length U = length M /\ length Sv = length M /\
  is_congruence (length M) M U Sv /\
  (forall i, (i < length M)%nat -> 0 <= vget Sv i) /\
  upper_triangular (length M) U.
Proof.
  intros Hs H. apply congruence_ok in H. destruct H as [_ H].
  destruct (cong_loop_lengths _ _ _ _ H) as [HU HS].
  destruct (cong_loop_sound _ _ _ _ Hs H) as [H1 [H2 H3]]. tauto.
Qed.
Lemma congruence_sos_lemma M U Sv (x : nat -> K) :
  symmetric (length M) M ->
  congruence M = Ok (Some (U, Sv)) ->
  qform (length M) M x
  = bsum (length M) (fun k => vget Sv k *
      (bsum (length M) (fun i => mget U k i * x i) * bsum (length M) (fun i => mget U k i * x i))).
Proof.
  intros Hs H. apply congruence_form. apply (congruence_sound_lemma M U Sv Hs H).
Qed.
Lemma congruence_none_lemma M :
  M <> [] -> symmetric (length M) M ->
  (congruence M = Ok None <-> exists x : nat -> K, qform (length M) M x < 0).
Proof.
  intros Hne Hs. rewrite (congruence_nonempty M Hne).
  assert (Hl : (0 < length M)%nat) by (destruct M; [contradiction|cbn; lia]).
  split.
  - intro H. apply Ok_inj in H. apply cong_loop_none; assumption.
  - intros [x Hx]. f_equal. apply cong_loop_none_iff; [exact Hl|exact Hs|].
    intro Hp. apply flt_not_le in Hx. apply Hx, Hp.
Qed.
End Proofs.
