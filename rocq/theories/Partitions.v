(** * Enumeration of exponent tuples
    [generate_partitions] (triples/utils/monomials.py:22-41) *)
From Coq Require Import Bool List Arith Lia Sorted.
Import ListNotations.

(** The exponents are natural numbers.  Simplification: [degree] is a natural
    number (a negative degree never reaches this function from the solver). *)

(** [range(degree - current_sum, -1, -1)] (monomials.py:34) *)
Definition down_range (degree current_sum : nat) : list nat := rev (seq 0 (S degree - current_sum)).

(** [generate_tuples] (monomials.py:29-36) *)
Fixpoint generate_tuples (degree : nat) (current_tuple : list nat) (current_sum remaining_vars : nat)
  : list (list nat) :=
  match remaining_vars with
  | O => [current_tuple]
  | S r => flat_map (fun i => generate_tuples degree (current_tuple ++ [i]) (current_sum + i) r)
                    (down_range degree current_sum)
  end.

(** [generate_partitions] (monomials.py:22-41) *)
Definition generate_partitions (nvars degree : nat) (equal : bool) : list (list nat) :=
  match nvars with
  | O => if (Nat.eqb degree 0 || negb equal)%bool then [[]] else []
  | S n' =>
      if equal then map (fun m => m ++ [degree - list_sum m]) (generate_tuples degree [] 0 n')
      else generate_tuples degree [] 0 nvars
  end.

(** Lexicographic order on tuples of equal length, as Python compares tuples. *)
Inductive lex_gt : list nat -> list nat -> Prop :=
| lex_gt_here x y s t : y < x -> lex_gt (x :: s) (y :: t)
| lex_gt_later x s t : lex_gt s t -> lex_gt (x :: s) (x :: t).

(** ** Proofs *)
Lemma list_sum_cons x l : list_sum (x :: l) = x + list_sum l.
Proof. reflexivity. Qed.

Fixpoint parts (r d : nat) : list (list nat) :=
  match r with
  | O => [[]]
  | S r' => flat_map (fun i => map (cons i) (parts r' (d - i))) (rev (seq 0 (S d)))
  end.

Lemma generate_tuples_parts d r : forall cur s, s <= d ->
  generate_tuples d cur s r = map (app cur) (parts r (d - s)).
Proof.
  induction r as [|r IH]; intros cur s Hs; cbn [generate_tuples parts].
  - cbn. rewrite app_nil_r. reflexivity.
  - unfold down_range. replace (S d - s) with (S (d - s)) by lia.
    rewrite flat_map_concat_map, (flat_map_concat_map _ (rev _)), concat_map, map_map.
    f_equal. apply map_ext_in. intros i Hi. apply in_rev, in_seq in Hi.
    rewrite IH by lia. rewrite map_map.
    replace (d - (s + i)) with (d - s - i) by lia. apply map_ext. intro t.
    rewrite <- app_assoc. reflexivity.
Qed.

Lemma parts_in r : forall d t, In t (parts r d) <-> length t = r /\ list_sum t <= d.
Proof.
  induction r as [|r IH]; intros d t; cbn [parts].
  - cbn. split.
    + intros [<-|[]]. cbn. lia.
    + intros [H _]. destruct t; [left; reflexivity|discriminate].
  - rewrite in_flat_map. split.
    + intros [i [Hi Ht]]. apply in_rev, in_seq in Hi. apply in_map_iff in Ht.
      destruct Ht as [u [<- Hu]]. apply IH in Hu. rewrite list_sum_cons. cbn [length]. lia.
    + intros [Hl Hs]. destruct t as [|i u]; [discriminate|]. rewrite list_sum_cons in Hs. cbn [length] in Hl.
      exists i. split; [apply -> in_rev; apply in_seq; lia|].
      apply in_map. apply IH. lia.
Qed.

Lemma StronglySorted_app {A} (R : A -> A -> Prop) l1 l2 :
  StronglySorted R l1 -> StronglySorted R l2 -> (forall x y, In x l1 -> In y l2 -> R x y) ->
  StronglySorted R (l1 ++ l2).
Proof.
  induction 1 as [|a l Hs IH Hf]; intros H2 H; [exact H2|].
  cbn. constructor.
  - apply IH; [exact H2|]. intros x y Hx Hy. apply H; [right; exact Hx|exact Hy].
  - apply Forall_app. split; [exact Hf|]. apply Forall_forall. intros y Hy. apply H; [left; reflexivity|exact Hy].
Qed.

Lemma StronglySorted_map {A B} (R : A -> A -> Prop) (R' : B -> B -> Prop) (f : A -> B) l :
  (forall x y, In x l -> In y l -> R x y -> R' (f x) (f y)) -> StronglySorted R l -> StronglySorted R' (map f l).
Proof.
  intros Hf Hs. revert Hf. induction Hs as [|a l Hs IH Hall]; intro Hf; [constructor|].
  cbn. constructor.
  - apply IH. intros x y Hx Hy. apply Hf; right; assumption.
  - apply Forall_forall. intros b Hb. apply in_map_iff in Hb. destruct Hb as [x [<- Hx]].
    rewrite Forall_forall in Hall. apply Hf; [left; reflexivity|right; exact Hx|apply Hall; exact Hx].
Qed.

Lemma StronglySorted_flat_map {A} (f : nat -> list A) (R : A -> A -> Prop) l :
  StronglySorted (fun x y => y < x) l ->
  (forall i, In i l -> StronglySorted R (f i)) ->
  (forall i j x y, j < i -> In x (f i) -> In y (f j) -> R x y) ->
  StronglySorted R (flat_map f l).
Proof.
  intros Hs. induction Hs as [|a l Hs IH Hall]; intros H1 H2; [constructor|].
  cbn. apply StronglySorted_app.
  - apply H1. left. reflexivity.
  - apply IH; [|exact H2]. intros i Hi. apply H1. right. exact Hi.
  - intros x y Hx Hy. apply in_flat_map in Hy. destruct Hy as [j [Hj Hy]].
    rewrite Forall_forall in Hall. eapply H2; [apply Hall; exact Hj|exact Hx|exact Hy].
Qed.

Lemma rev_seq_sorted n : StronglySorted (fun x y => y < x) (rev (seq 0 n)).
Proof.
  induction n; [constructor|]. rewrite seq_S, rev_app_distr. cbn. constructor; [exact IHn|].
  apply Forall_forall. intros x Hx. apply in_rev, in_seq in Hx. lia.
Qed.

Lemma parts_sorted r : forall d, StronglySorted lex_gt (parts r d).
Proof.
  induction r as [|r IH]; intro d; cbn [parts]; [repeat constructor|].
  apply StronglySorted_flat_map.
  - apply rev_seq_sorted.
  - intros i _. apply StronglySorted_map with (R := lex_gt); [|apply IH].
    intros x y _ _ H. apply lex_gt_later. exact H.
  - intros i j x y Hij Hx Hy. apply in_map_iff in Hx. apply in_map_iff in Hy.
    destruct Hx as [u [<- _]]. destruct Hy as [v [<- _]]. apply lex_gt_here. exact Hij.
Qed.

Lemma lex_gt_irrefl t : ~ lex_gt t t.
Proof.
  intro H. remember t as u eqn:E in H at 2. revert E.
  induction H as [x y s t H|x s t H IH]; intro E; inversion E; subst; [lia|]. apply IH. reflexivity.
Qed.

Lemma sorted_NoDup l : StronglySorted lex_gt l -> NoDup l.
Proof.
  induction 1 as [|a l Hs IH Hall]; constructor; [|exact IH].
  intro Hin. rewrite Forall_forall in Hall. apply (lex_gt_irrefl a). apply Hall. exact Hin.
Qed.

Lemma lex_gt_app s t u v : length s = length t -> lex_gt s t -> lex_gt (s ++ u) (t ++ v).
Proof.
  intros Hl H. revert Hl. induction H as [x y s t H|x s t H IH]; intro Hl; cbn.
  - apply lex_gt_here. exact H.
  - apply lex_gt_later. apply IH. cbn in Hl. lia.
Qed.

Lemma map_app_nil (l : list (list nat)) : map (app []) l = l.
Proof. rewrite <- (map_id l) at 2. apply map_ext. reflexivity. Qed.

Lemma list_sum_snoc t x : list_sum (t ++ [x]) = list_sum t + x.
Proof. rewrite list_sum_app, list_sum_cons. cbn. lia. Qed.

Lemma generate_partitions_le_eq nvars degree :
  generate_partitions nvars degree false = parts nvars degree.
Proof.
  unfold generate_partitions. destruct nvars.
  - rewrite orb_true_r. reflexivity.
  - rewrite generate_tuples_parts by lia. rewrite Nat.sub_0_r. apply map_app_nil.
Qed.

Lemma generate_partitions_equal_eq n degree :
  generate_partitions (S n) degree true = map (fun m => m ++ [degree - list_sum m]) (parts n degree).
Proof.
  unfold generate_partitions. rewrite generate_tuples_parts by lia.
  rewrite Nat.sub_0_r, map_app_nil. reflexivity.
Qed.

Lemma generate_partitions_in nvars degree equal t :
  In t (generate_partitions nvars degree equal) <->
  length t = nvars /\ (if equal then list_sum t = degree else list_sum t <= degree).
Proof.
  destruct equal.
  - destruct nvars as [|n].
    + cbn. destruct (Nat.eqb_spec degree 0) as [->|Hd]; cbn; split.
      * intros [<-|[]]. cbn. auto.
      * intros [H _]. destruct t; [auto|discriminate].
      * intros [].
      * intros [H E]. destruct t; [cbn in E; lia|discriminate].
    + rewrite generate_partitions_equal_eq, in_map_iff. split.
      * intros [m [<- Hm]]. apply parts_in in Hm. rewrite app_length, list_sum_snoc. cbn. lia.
      * intros [Hl Hs]. destruct (exists_last (l := t)) as [m [x ->]]; [intros ->; discriminate|].
        rewrite app_length in Hl. rewrite list_sum_snoc in Hs. cbn in Hl.
        exists m. split; [f_equal; f_equal; lia|]. apply parts_in. lia.
  - rewrite generate_partitions_le_eq. apply parts_in.
Qed.

Lemma generate_partitions_sorted nvars degree equal :
  StronglySorted lex_gt (generate_partitions nvars degree equal).
Proof.
  destruct equal.
  - destruct nvars as [|n].
    + cbn. destruct (Nat.eqb degree 0); repeat constructor.
    + rewrite generate_partitions_equal_eq. apply StronglySorted_map with (R := lex_gt); [|apply parts_sorted].
      intros x y Hx Hy H. apply lex_gt_app; [|exact H].
      apply parts_in in Hx. apply parts_in in Hy. lia.
  - rewrite generate_partitions_le_eq. apply parts_sorted.
Qed.

Lemma generate_partitions_NoDup nvars degree equal : NoDup (generate_partitions nvars degree equal).
Proof. apply sorted_NoDup, generate_partitions_sorted. Qed.

