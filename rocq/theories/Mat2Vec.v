(** * Vector layouts of symmetric matrices (triples/sdp/utils.py:121-360) *)
From Coq Require Import Bool List Arith Lia Ring Field.
From Verif Require Import OrdField Base Int64 LinSolve LinSep.
Import ListNotations.

Inductive mode := DIRECT | UPPER.

(** [length_of_vec] (utils.py:131-138) *)
Definition length_of_vec (n : nat) (m : mode) : nat :=
  match m with DIRECT => n * n | UPPER => (n * (n + 1) / 2) end.
(** [round(sqrt(m))]: the nearest integer to the square root, which is never
    half way between two integers (utils.py:146, 195; the float square root is
    taken to be exact). *)
Definition round_sqrt (m : nat) : nat := let r := Nat.sqrt m in if (r <? m - r * r)%nat then S r else r.
(** [length_of_mat] (utils.py:140-147).  [round(sqrt(2m + 1/4) - 1/2)] is the
    integer [r] with [(r-1/2)(r+1/2) < 2m < (r+1/2)(r+3/2)], i.e. with
    [r^2 <= 2m < (r+1)^2]. *)
Definition length_of_mat (m : nat) (md : mode) : nat :=
  match md with DIRECT => round_sqrt m | UPPER => Nat.sqrt (2 * m) end.

Section Model.
Context {K : OrdField}.
Local Open Scope of_scope.

(** The index order of [upper_vec_of_symmetric_matrix] without [check] (utils.py:202-245) *)
Definition upper_inds (n : nat) : list (nat * nat) := flat_map (fun i => map (fun j => (i, j)) (seq i (n - i))) (seq 0 n).
Definition upper_vec (n : nat) (S : list (list K)) : list K := map (fun ij => mget S (fst ij) (snd ij)) (upper_inds n).

(** [symmetric_matrix_from_upper_vec] for a vector (utils.py:247-278) *)
Definition set_sym (n : nat) (S : list (list K)) (i j : nat) (v : K) : list (list K) :=
  mtab n n (fun a b => if ((a =? i) && (b =? j) || (a =? j) && (b =? i))%nat%bool then v else mget S a b).
Definition from_upper (v : list K) : list (list K) :=
  let n := length_of_mat (length v) UPPER in
  fold_left (fun S e => set_sym n S (fst (fst e)) (snd (fst e)) (snd e)) (combine (upper_inds n) v) (mtab n n (fun _ _ => 0)).

(** What [mat2vec] hands out: a matrix, or in mode UPPER a generator, which has no attribute [shape]. *)
Inductive pyvec := PMat (v : list K) | PGen (v : list K).
(** [mat2vec] for a sympy matrix with [n] rows (utils.py:150-175) *)
Definition mat2vec (n : nat) (S : list (list K)) (m : mode) : pyvec :=
  match m with DIRECT => PMat (concat S) | UPPER => PGen (upper_vec n S) end.
(** [vec2mat] for a sympy column vector (utils.py:177-200); [reshape] raises
    ValueError when the sizes do not agree; OtherError stands for AttributeError. *)
Definition vec2mat (v : pyvec) (m : mode) : res (list (list K)) :=
  match v with
  | PGen _ => Err OtherError
  | PMat v =>
      match m with
      | DIRECT => let n := round_sqrt (length v) in if (n * n =? length v)%nat then Ok (reshape n n v) else Err ValueError
      | UPPER => Ok (from_upper v)
      end
  end.

(** [S_from_y] for one matrix, mode DIRECT (utils.py:328-360): the product is
    defined when [space] has one column per entry of [y]. *)
Definition S_from_y (x0 : list K) (space : list (list K)) (y : list K) : res (list (list K)) :=
  vec2mat (PMat (vtab (length x0) (fun r => vget x0 r + dotv (length y) (nth r space []) y))) DIRECT.
End Model.
Arguments pyvec : clear implicits.

Section Proofs.
Variable K : OrdField.
Local Open Scope of_scope.
Add Field Kf : (F_field K).

Lemma round_sqrt_sq n : round_sqrt (n * n) = n.
Proof.
  unfold round_sqrt. rewrite Nat.sqrt_square, Nat.sub_diag. destruct (Nat.ltb_spec n 0); [lia|reflexivity].
Qed.
Lemma tri_double n : (2 * length_of_vec n UPPER = n * (n + 1))%nat.
Proof.
  unfold length_of_vec. assert (E : exists k, (n * (n + 1) = 2 * k)%nat).
  { induction n as [|n [k IH]]; [exists 0%nat; reflexivity|]. exists (k + n + 1)%nat. lia. }
  destruct E as [k ->]. rewrite (Nat.mul_comm 2 k), Nat.div_mul by lia. lia.
Qed.
Lemma length_of_mat_vec n m : length_of_mat (length_of_vec n m) m = n.
Proof.
  destruct m; cbn [length_of_mat].
  - apply round_sqrt_sq.
  - rewrite tri_double. apply Nat.sqrt_unique. lia.
Qed.
Lemma upper_inds_in n i j : In (i, j) (upper_inds n) <-> (i <= j < n)%nat.
Proof.
  unfold upper_inds. rewrite in_flat_map. split.
  - intros (i' & H1 & H2). apply in_map_iff in H2. destruct H2 as (j' & E & H2). inversion E; subst. apply in_seq in H1, H2. lia.
  - intro H. exists i. split; [apply in_seq; lia|]. apply in_map, in_seq. lia.
Qed.
Lemma upper_inds_nodup n : NoDup (upper_inds n).
Proof.
  unfold upper_inds. apply NoDup_flat_map; [|apply seq_NoDup|].
  - intros i _. apply FinFun.Injective_map_NoDup; [intros ? ? E; congruence|]. apply seq_NoDup.
  - intros i j z _ _ H1 H2. apply in_map_iff in H1, H2. destruct H1 as (? & <- & _), H2 as (? & E & _). congruence.
Qed.
Lemma upper_inds_length n : length (upper_inds n) = length_of_vec n UPPER.
Proof.
  enough (H : (2 * length (upper_inds n) = n * (n + 1))%nat) by (pose proof (tri_double n); lia).
  unfold upper_inds. assert (G : forall k s, (2 * length (flat_map (fun i => map (fun j => (i, j)) (seq i (s + k - i))) (seq s k)) = k * (k + 1))%nat).
  { induction k as [|k IH]; intro s; [reflexivity|]. cbn [seq flat_map]. rewrite app_length, map_length, seq_length.
    specialize (IH (S s)). replace (S s + k)%nat with (s + S k)%nat in IH by lia. lia. }
  specialize (G n 0%nat). rewrite Nat.add_0_l in G. exact G.
Qed.

Fixpoint alook (l : list ((nat * nat) * K)) (p : nat * nat) : option K :=
  match l with [] => None | (p', v) :: l' => if ((fst p =? fst p') && (snd p =? snd p'))%nat then Some v else alook l' p end.
Lemma alook_none l p : ~ In p (map fst l) -> alook l p = None.
Proof.
  induction l as [|[p' v] l IH]; intro H; [reflexivity|]. cbn. destruct p as [a b], p' as [c d]. cbn.
  destruct (Nat.eqb_spec a c), (Nat.eqb_spec b d); cbn; try (apply IH; intro; apply H; right; assumption).
  exfalso. apply H. left. cbn. congruence.
Qed.
Lemma fold_sym n l : forall S, NoDup (map fst l) -> (forall p, In p (map fst l) -> (fst p <= snd p)%nat) ->
  forall a b, (a < n)%nat -> (b < n)%nat ->
  mget (fold_left (fun S e => set_sym n S (fst (fst e)) (snd (fst e)) (snd e)) l S) a b
  = match alook l (Nat.min a b, Nat.max a b) with Some v => v | None => mget S a b end.
Proof.
  induction l as [|[[i j] v] l IH]; intros S ND LE a b Ha Hb; [reflexivity|].
  cbn [fold_left fst snd]. cbn [map fst] in ND, LE. inversion ND; subst.
  rewrite IH; auto; [|intros; apply LE; right; assumption]. cbn [alook fst snd].
  assert (Hij : (i <= j)%nat) by (apply (LE (i, j)); left; reflexivity).
  destruct ((Nat.min a b =? i) && (Nat.max a b =? j))%nat eqn:E.
  - apply andb_true_iff in E. destruct E as [E1 E2]. apply Nat.eqb_eq in E1, E2. rewrite alook_none by (rewrite E1, E2; assumption).
    unfold set_sym. rewrite mget_mtab by assumption.
    destruct ((a =? i) && (b =? j) || (a =? j) && (b =? i))%nat%bool eqn:Q; [reflexivity|]. exfalso.
    apply orb_false_iff in Q. destruct Q as [Q1 Q2]. apply andb_false_iff in Q1, Q2. rewrite !Nat.eqb_neq in Q1, Q2. lia.
  - destruct (alook l (Nat.min a b, Nat.max a b)); [reflexivity|]. unfold set_sym. rewrite mget_mtab by assumption.
    destruct ((a =? i) && (b =? j) || (a =? j) && (b =? i))%nat%bool eqn:Q; [|reflexivity]. exfalso.
    apply andb_false_iff in E. rewrite !Nat.eqb_neq in E. apply orb_true_iff in Q. rewrite !andb_true_iff, !Nat.eqb_eq in Q. lia.
Qed.
Lemma alook_combine (l : list (nat * nat)) : forall (v : list K) c, NoDup l -> (c < length l)%nat -> (c < length v)%nat ->
  alook (combine l v) (nth c l (0, 0)%nat) = Some (vget v c).
Proof.
  induction l as [|p l IH]; intros v c ND H1 H2; [cbn in H1; lia|]. destruct v as [|x v]; [cbn in H2; lia|]. inversion ND; subst.
  destruct c as [|c]; cbn [combine alook nth].
  - rewrite !Nat.eqb_refl. reflexivity.
  - cbn in H1, H2. destruct (_ && _)%bool eqn:E; [|apply (IH v c); [assumption|lia|lia]]. exfalso. apply andb_true_iff in E. rewrite !Nat.eqb_eq in E.
    apply H3. replace p with (nth c l (0, 0)%nat); [apply nth_In; lia|]. destruct (nth c l (0, 0)%nat), p. cbn in E. f_equal; apply E.
Qed.
Lemma combine_keys {X} (l : list (nat * nat)) (v : list X) : map fst (combine l v) = firstn (length v) l.
Proof. revert v. induction l as [|p l IH]; intros [|x v]; cbn; try reflexivity. rewrite IH. reflexivity. Qed.
Lemma firstn_nodup {X} k (l : list X) : NoDup l -> NoDup (firstn k l).
Proof.
  revert k. induction l as [|x l IH]; intros [|k] H; cbn; try constructor; inversion H; subst; auto.
  intro Q. apply H2. rewrite <- (firstn_skipn k l). apply in_or_app. left; exact Q.
Qed.
Lemma in_firstn {X} k (l : list X) x : In x (firstn k l) -> In x l.
Proof. intro H. rewrite <- (firstn_skipn k l). apply in_or_app. left; exact H. Qed.
(** Entry [(a, b)] of the matrix rebuilt from a vector of the right length *)
Lemma from_upper_entry n (v : list K) c a b : length v = length_of_vec n UPPER -> (a < n)%nat -> (b < n)%nat ->
  (c < length v)%nat -> nth c (upper_inds n) (0, 0)%nat = (Nat.min a b, Nat.max a b) -> mget (from_upper v) a b = vget v c.
Proof.
  intros HL Ha Hb Hc E. unfold from_upper. rewrite HL, length_of_mat_vec. rewrite fold_sym; auto.
  - rewrite <- E. rewrite alook_combine; auto; [apply upper_inds_nodup|]. rewrite upper_inds_length. lia.
  - rewrite combine_keys. apply firstn_nodup, upper_inds_nodup.
  - intros [i j] Hp. rewrite combine_keys in Hp. apply in_firstn, upper_inds_in in Hp. cbn. lia.
Qed.
Lemma fold_shape n (l : list ((nat * nat) * K)) S : length S = n -> (forall r, In r S -> length r = n) ->
  let R := fold_left (fun S e => set_sym n S (fst (fst e)) (snd (fst e)) (snd e)) l S in
  length R = n /\ forall r, In r R -> length r = n.
Proof.
  revert S. induction l as [|e l IH]; intros S H1 H2; [split; assumption|]. cbn [fold_left]. apply IH; [apply mtab_length|].
  intros r Hr. unfold set_sym, mtab in Hr. apply in_map_iff in Hr. destruct Hr as (i & <- & _). apply vtab_length.
Qed.
Lemma from_upper_shape (v : list K) : let n := length_of_mat (length v) UPPER in
  length (from_upper v) = n /\ forall r, In r (from_upper v) -> length r = n.
Proof.
  apply fold_shape; [apply mtab_length|]. intros r Hr. unfold mtab in Hr. apply in_map_iff in Hr. destruct Hr as (i & <- & _). apply vtab_length.
Qed.
Lemma mat_ext n m (A B : list (list K)) : length A = n -> length B = n -> (forall r, In r A -> length r = m) -> (forall r, In r B -> length r = m) ->
  (forall i j, (i < n)%nat -> (j < m)%nat -> mget A i j = mget B i j) -> A = B.
Proof.
  intros HA HB RA RB H. apply (nth_ext _ _ [] []); [congruence|]. intros i Hi. rewrite HA in Hi.
  apply (nth_ext _ _ 0 0).
  - rewrite RA, RB; [reflexivity| |]; apply nth_In; lia.
  - intros j Hj. rewrite RA in Hj by (apply nth_In; lia). apply (H i j Hi Hj).
Qed.
Lemma upper_index n a b : (a < n)%nat -> (b < n)%nat -> exists c, (c < length_of_vec n UPPER)%nat /\ nth c (upper_inds n) (0, 0)%nat = (Nat.min a b, Nat.max a b).
Proof.
  intros Ha Hb. destruct (In_nth (upper_inds n) (Nat.min a b, Nat.max a b) (0, 0)%nat) as (c & Hc & E); [apply upper_inds_in; lia|].
  exists c. rewrite <- upper_inds_length. auto.
Qed.
Lemma upper_vec_length n (S : list (list K)) : length (upper_vec n S) = length_of_vec n UPPER.
Proof. unfold upper_vec. rewrite map_length. apply upper_inds_length. Qed.
Lemma upper_vec_get n (S : list (list K)) c : (c < length_of_vec n UPPER)%nat ->
  vget (upper_vec n S) c = mget S (fst (nth c (upper_inds n) (0, 0)%nat)) (snd (nth c (upper_inds n) (0, 0)%nat)).
Proof.
  intro H. unfold vget, upper_vec. rewrite (nth_indep _ 0 ((fun ij => mget S (fst ij) (snd ij)) (0, 0)%nat)) by (rewrite map_length, upper_inds_length; exact H).
  exact (map_nth (fun ij => mget S (fst ij) (snd ij)) _ _ _).
Qed.
Implicit Types S : list (list K).
Definition square (n : nat) (S : list (list K)) : Prop := length S = n /\ forall r, In r S -> length r = n.
Definition symmetric (n : nat) (S : list (list K)) : Prop := forall i j, (i < n)%nat -> (j < n)%nat -> mget S i j = mget S j i.
Lemma from_upper_get n S a b : (a < n)%nat -> (b < n)%nat -> mget (from_upper (upper_vec n S)) a b = mget S (Nat.min a b) (Nat.max a b).
Proof.
  intros Ha Hb. destruct (upper_index n a b Ha Hb) as (c & Hc & E).
  rewrite (from_upper_entry n _ c a b (upper_vec_length n S) Ha Hb); [|rewrite upper_vec_length; exact Hc|exact E].
  rewrite upper_vec_get, E by exact Hc. reflexivity.
Qed.
Lemma upper_roundtrip n S : square n S -> (from_upper (upper_vec n S) = S <-> symmetric n S).
Proof.
  intros [H1 H2]. split.
  - intros E i j Hi Hj. rewrite <- E, !from_upper_get by assumption. rewrite Nat.min_comm, Nat.max_comm. reflexivity.
  - intro HS. pose proof (from_upper_shape (upper_vec n S)) as H. cbn zeta in H. rewrite upper_vec_length, length_of_mat_vec in H.
    destruct H as [F1 F2]. apply (mat_ext n n); auto. intros i j Hi Hj. rewrite from_upper_get by assumption.
    destruct (le_ge_dec i j) as [L|L].
    + rewrite Nat.min_l, Nat.max_r by lia. reflexivity.
    + rewrite Nat.min_r, Nat.max_l by lia. apply HS; assumption.
Qed.
Lemma upper_roundtrip_back n (v : list K) : length v = length_of_vec n UPPER ->
  upper_vec n (from_upper v) = v /\ symmetric n (from_upper v) /\ square n (from_upper v).
Proof.
  intro HL. pose proof (from_upper_shape v) as SH. cbn zeta in SH. rewrite HL, length_of_mat_vec in SH. split; [|split; [|exact SH]].
  - apply (nth_ext _ _ 0 0); [rewrite upper_vec_length; congruence|]. intros c Hc. rewrite upper_vec_length in Hc.
    change (vget (upper_vec n (from_upper v)) c = vget v c). rewrite upper_vec_get by exact Hc.
    assert (Hin : In (nth c (upper_inds n) (0, 0)%nat) (upper_inds n)) by (apply nth_In; rewrite upper_inds_length; exact Hc).
    destruct (nth c (upper_inds n) (0, 0)%nat) as [i j] eqn:E. apply upper_inds_in in Hin. cbn [fst snd].
    apply (from_upper_entry n v c i j HL); try lia. rewrite E. f_equal; lia.
  - intros i j Hi Hj. destruct (upper_index n i j Hi Hj) as (c & Hc & E).
    rewrite (from_upper_entry n v c i j HL Hi Hj ltac:(lia) E). symmetry.
    apply (from_upper_entry n v c j i HL Hj Hi ltac:(lia)). rewrite E. f_equal; lia.
Qed.

Lemma concat_square n S : square n S -> length (concat S) = (n * n)%nat.
Proof.
  intros [H1 H2]. rewrite <- H1 at 1. clear H1. induction S as [|r S IH]; [reflexivity|]. cbn [concat length]. rewrite app_length, IH.
  - rewrite (H2 r (or_introl eq_refl)). lia.
  - intros; apply H2; right; assumption.
Qed.
Lemma concat_get n (M : list (list K)) i j : (forall r, In r M -> length r = n) -> (i < length M)%nat -> (j < n)%nat -> vget (concat M) (i * n + j) = mget M i j.
Proof.
  revert i. induction M as [|r M IH]; intros i H Hi Hj; [cbn in Hi; lia|]. cbn [concat]. unfold vget in *.
  assert (Hr : length r = n) by (apply H; left; reflexivity). destruct i as [|i].
  - rewrite app_nth1 by lia. reflexivity.
  - rewrite app_nth2 by lia. replace (S i * n + j - length r)%nat with (i * n + j)%nat by lia.
    rewrite IH; [reflexivity|intros; apply H; right; assumption|cbn in Hi; lia|exact Hj].
Qed.
Lemma reshape_get n (v : list K) i j : length v = (n * n)%nat -> (i < n)%nat -> (j < n)%nat -> mget (reshape n n v) i j = vget v (i * n + j).
Proof. intros HL Hi Hj. unfold reshape. rewrite mget_mtab by assumption. reflexivity. Qed.
Lemma reshape_square n (v : list K) : square n (reshape n n v).
Proof.
  unfold reshape. split; [apply mtab_length|]. intros r Hr. unfold mtab in Hr. apply in_map_iff in Hr. destruct Hr as (i & <- & _). apply vtab_length.
Qed.
Lemma direct_roundtrip n S : square n S -> vec2mat (mat2vec n S DIRECT) DIRECT = Ok S.
Proof.
  intros HS. cbn [mat2vec vec2mat]. cbn zeta. rewrite (concat_square n S HS), round_sqrt_sq, Nat.eqb_refl. f_equal.
  destruct (reshape_square n (concat S)) as [R1 R2]. destruct HS as [H1 H2]. apply (mat_ext n n); auto.
  intros i j Hi Hj. rewrite reshape_get; auto; [|apply concat_square; split; assumption]. apply concat_get; auto. lia.
Qed.
Lemma direct_roundtrip_back (v : list K) n S : vec2mat (PMat v) DIRECT = Ok S -> length v = (n * n)%nat -> square n S /\ mat2vec n S DIRECT = PMat v.
Proof.
  intros E HL. cbn [vec2mat] in E. cbn zeta in E. rewrite HL, round_sqrt_sq, Nat.eqb_refl in E. apply Ok_inj in E. subst S.
  pose proof (reshape_square n v) as HS. split; [exact HS|]. cbn [mat2vec]. f_equal.
  apply (nth_ext _ _ 0 0); [rewrite (concat_square n _ HS); congruence|]. intros k Hk. rewrite (concat_square n _ HS) in Hk.
  assert (Hn : (n <> 0)%nat) by (intros ->; lia).
  pose proof (Nat.div_mod k n Hn) as DM. assert (D : (k / n < n)%nat) by (apply Nat.div_lt_upper_bound; lia).
  pose proof (Nat.mod_upper_bound k n Hn) as M. change (vget (concat (reshape n n v)) k = vget v k).
  replace k with (k / n * n + k mod n)%nat by lia. rewrite (concat_get n); [|apply HS|destruct HS as [-> _]; exact D|exact M].
  apply reshape_get; assumption.
Qed.
Lemma vec2mat_error (v : list K) m er : vec2mat (PMat v) m = Err er -> m = DIRECT /\ er = ValueError /\ forall n, length v <> (n * n)%nat.
Proof.
  destruct m; [|discriminate]. cbn [vec2mat]. cbn zeta. destruct (Nat.eqb_spec (round_sqrt (length v) * round_sqrt (length v)) (length v)) as [E|E]; [discriminate|].
  intro Q. inversion Q. split; [reflexivity|]. split; [reflexivity|]. intros n HL. apply E. rewrite HL, round_sqrt_sq. reflexivity.
Qed.
Lemma S_from_y_entry (x0 : list K) space (y : list K) n S : length x0 = (n * n)%nat -> S_from_y x0 space y = Ok S ->
  square n S /\ forall i j, (i < n)%nat -> (j < n)%nat -> mget S i j = vget x0 (i * n + j) + dotv (length y) (nth (i * n + j) space []) y.
Proof.
  intros HL E. unfold S_from_y in E. cbn [vec2mat] in E. cbn zeta in E. rewrite vtab_length, HL, round_sqrt_sq, Nat.eqb_refl in E. apply Ok_inj in E. subst S.
  split; [apply reshape_square|]. intros i j Hi Hj. rewrite reshape_get; auto; [|apply vtab_length].
  rewrite vget_vtab; [reflexivity|]. nia.
Qed.
Lemma S_from_y_ok (x0 : list K) space (y : list K) n : length x0 = (n * n)%nat -> exists S, S_from_y x0 space y = Ok S.
Proof.
  intro HL. unfold S_from_y. cbn [vec2mat]. cbn zeta. rewrite vtab_length, HL, round_sqrt_sq, Nat.eqb_refl. eexists. reflexivity.
Qed.
End Proofs.
