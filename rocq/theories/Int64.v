(** * Integer matrix products on the int64 fast path (triples/sdp/arithmetic.py:605-866) *)
From Coq Require Import Bool List Arith Lia ZArith Ring Field.
From Verif Require Import OrdField Base.
Import ListNotations.
Local Open Scope Z_scope.

(** ** int64 numbers as numpy has them *)
Definition INT64_MAX : Z := 2 ^ 63 - 1.
Definition wrap (z : Z) : Z := (z + 2 ^ 63) mod 2 ^ 64 - 2 ^ 63.
Definition fits (z : Z) : bool := (- 2 ^ 63 <=? z) && (z <=? INT64_MAX).

(** Integer matrices as lists of rows *)
Definition zget (M : list (list Z)) (i j : nat) : Z := nth j (nth i M []) 0.
Definition ztab (n m : nat) (f : nat -> nat -> Z) : list (list Z) :=
  map (fun i => map (f i) (seq 0 m)) (seq 0 n).

(** One entry of [A @ B] (arithmetic.py:686): products and partial sums are
    reduced modulo 2^64, here in increasing order of the index (any other
    order gives the same number). *)
Fixpoint dot64 (n : nat) (f g : nat -> Z) : Z :=
  match n with O => 0 | S n' => wrap (dot64 n' f g + wrap (f n' * g n')) end.
Definition mm64 (r n c : nat) (A B : list (list Z)) : list (list Z) :=
  ztab r c (fun i j => dot64 n (fun k => zget A i k) (fun k => zget B k j)).

(** [_cast_sympy_matrix_to_numpy] (arithmetic.py:605-624): OverflowError when a number does not fit. *)
Definition cast_ok (M : list (list Z)) : bool := forallb (forallb fits) M.
(** [abs(A).max()] on int64 (arithmetic.py:673): the absolute value of -2^63 is -2^63.
    numpy raises on an empty array; the callers' size tests exclude it except where said. *)
Definition absmax (M : list (list Z)) : Z :=
  match map (fun z => wrap (Z.abs z)) (concat M) with [] => 0 | x :: l => fold_right Z.max x l end.

(** The guard of [matmul] (arithmetic.py:665-684) *)
Definition matmul_guard (n : nat) (A B : list (list Z)) : bool :=
  cast_ok A && cast_ok B && (absmax A * absmax B * Z.of_nat n <=? INT64_MAX).
(** The guard of [symmetric_bilinear_multiple] (arithmetic.py:830-852) *)
Definition bilinear_guard (n : nat) (A U : list (list Z)) : bool :=
  cast_ok A && cast_ok U && (absmax A * absmax U ^ 2 * Z.of_nat n ^ 2 <=? INT64_MAX).

(** [_cast_list_to_sympy_matrix] (arithmetic.py:626-636): row-major list to a rows x cols matrix *)
Definition zreshape (r c : nat) (l : list Z) : list (list Z) :=
  map (fun i => map (fun j => nth (i * c + j) l 0) (seq 0 c)) (seq 0 r).

Section Model.
Context {K : OrdField}.
Local Open Scope of_scope.

(** The exact product, as computed by sympy's [A0 * B0] *)
Definition mprod (r n c : nat) (A B : list (list K)) : list (list K) :=
  mtab r c (fun i j => bsum n (fun k => mget A i k * mget B k j)).
Definition reshape (r c : nat) (l : list K) : list (list K) := mtab r c (fun i j => vget l (i * c + j)).
Definition zscale (s : K) (M : list (list Z)) : list (list K) := map (map (fun z => s * fZ z)) M.

(** [matmul] (arithmetic.py:640-690) on an r x n matrix [A0] and an n x c
    matrix [B0] over the rationals, [(q1, A)] and [(q2, B)] being what
    sympy's [primitive] returns for them.  [shape] is [return_shape], the
    natural shape if not given. *)
Definition matmul (r n c : nat) (q1 : K) (A : list (list Z)) (q2 : K) (B : list (list Z))
    (A0 B0 : list (list K)) (shape : nat * nat) : list (list K) :=
  if ((r =? 0)%nat || (n =? 0)%nat || (c =? 0)%nat)%bool then mtab (fst shape) (snd shape) (fun _ _ => 0)
  else if matmul_guard n A B then
    zscale (q1 * q2) (zreshape (fst shape) (snd shape) (concat (mm64 r n c A B)))
  else reshape (fst shape) (snd shape) (concat (mprod r n c A0 B0)).

(** [matmul_multiple] (arithmetic.py:693-769): [A0] has N rows of n*n numbers, [B0] is n x m.
    The slow path multiplies row by row. *)
Definition matmul_multiple (N n m : nat) (q1 : K) (A : list (list Z)) (q2 : K) (B : list (list Z))
    (A0 B0 : list (list K)) : list (list K) :=
  if ((N =? 0)%nat || (n =? 0)%nat || (m =? 0)%nat)%bool then mtab N (n * m) (fun _ _ => 0)
  else if matmul_guard n A B then
    zscale (q1 * q2) (zreshape N (n * m) (concat (map (fun i => concat (mm64 n n m (zreshape n n (nth i A [])) B)) (seq 0 N))))
  else map (fun i => concat (mprod n n m (reshape n n (nth i A0 [])) B0)) (seq 0 N).

(** [symmetric_bilinear_multiple] (arithmetic.py:803-866): U is n x m.  With
    m = 0 (or n = 0) numpy's [max] of an empty array raises. *)
Definition ztrans (n m : nat) (U : list (list Z)) : list (list Z) := ztab m n (fun i j => zget U j i).
Definition mtrans (n m : nat) (U : list (list K)) : list (list K) := mtab m n (fun i j => mget U j i).
Definition bilinear_multiple (N n m : nat) (q1 : K) (A : list (list Z)) (q2 : K) (U : list (list Z))
    (A0 U0 : list (list K)) : res (list (list K)) :=
  if (N =? 0)%nat then Ok (mtab 0 (m * m) (fun _ _ => 0))
  else if ((n =? 0)%nat || (m =? 0)%nat)%bool then Err ValueError
  else if bilinear_guard n A U then
    Ok (zscale (q1 * q2 ^ 2) (zreshape N (m * m)
      (concat (map (fun i => concat (mm64 m n m (mm64 m n n (ztrans n m U) (zreshape n n (nth i A []))) U)) (seq 0 N)))))
  else Ok (map (fun i => concat (mprod m n m (mtrans n m U0) (mprod n n m (reshape n n (nth i A0 [])) U0))) (seq 0 N)).
End Model.

(** ** int64 lemmas *)
Lemma wrap_small z : - 2 ^ 63 <= z <= INT64_MAX -> wrap z = z.
Proof. unfold wrap, INT64_MAX. intro H. rewrite Z.mod_small; lia. Qed.
Lemma wrap_range z : - 2 ^ 63 <= wrap z <= INT64_MAX.
Proof. unfold wrap, INT64_MAX. pose proof (Z.mod_pos_bound (z + 2 ^ 63) (2 ^ 64) eq_refl). lia. Qed.
Lemma wrap_eq x y : (x - y) mod 2 ^ 64 = 0 -> wrap x = wrap y.
Proof.
  intro H. unfold wrap. f_equal. apply Z.mod_divide in H; [|lia]. destruct H as [k Hk].
  replace (x + 2 ^ 63) with (y + 2 ^ 63 + k * 2 ^ 64) by lia. apply Z.mod_add. lia.
Qed.
Lemma wrap_div x : exists k, wrap x = x + k * 2 ^ 64.
Proof.
  unfold wrap. exists (- ((x + 2 ^ 63) / 2 ^ 64)). pose proof (Z.div_mod (x + 2 ^ 63) (2 ^ 64)). lia.
Qed.
Fixpoint zsum (n : nat) (f : nat -> Z) : Z := match n with O => 0 | S n' => zsum n' f + f n' end.
Lemma dot64_wrap n f g : dot64 n f g = wrap (zsum n (fun k => f k * g k)).
Proof.
  induction n as [|n IH]; [reflexivity|]. cbn [dot64 zsum]. rewrite IH. apply wrap_eq.
  destruct (wrap_div (zsum n (fun k => f k * g k))) as [k1 E1]. destruct (wrap_div (f n * g n)) as [k2 E2].
  rewrite E1, E2.
  match goal with |- ?x mod _ = 0 => replace x with ((k1 + k2) * 2 ^ 64) by ring end. apply Z.mod_mul. lia.
Qed.
Lemma zsum_bound n f b : 0 <= b -> (forall k, (k < n)%nat -> Z.abs (f k) <= b) -> Z.abs (zsum n f) <= Z.of_nat n * b.
Proof.
  intros Hb H. induction n as [|n IH]; [cbn; lia|]. cbn [zsum].
  assert (Z.abs (zsum n f) <= Z.of_nat n * b) by (apply IH; intros; apply H; lia).
  specialize (H n ltac:(lia)). rewrite Nat2Z.inj_succ. lia.
Qed.
Lemma zsum_ext n f g : (forall k, (k < n)%nat -> f k = g k) -> zsum n f = zsum n g.
Proof. intro H. induction n as [|n IH]; [reflexivity|]. cbn. rewrite IH by (intros; apply H; lia). rewrite H by lia. reflexivity. Qed.

(** The number -2^63 does not occur. *)
Definition no_min (M : list (list Z)) : Prop := forall r z, In r M -> In z r -> z <> - 2 ^ 63.

Lemma fold_max_ge l x z : In z (x :: l) -> z <= fold_right Z.max x l.
Proof.
  induction l as [|y l IH]; cbn.
  - intros [->|[]]. lia.
  - intros [->|[->|H]]; [specialize (IH (or_introl eq_refl)); lia|lia|specialize (IH (or_intror H)); lia].
Qed.
Lemma absmax_bound M : cast_ok M = true -> no_min M -> 0 <= absmax M /\ forall r z, In r M -> In z r -> Z.abs z <= absmax M.
Proof.
  intros Hc Hn.
  assert (G : forall r z, In r M -> In z r -> wrap (Z.abs z) = Z.abs z).
  { intros r z Hr Hz. apply wrap_small. specialize (Hn r z Hr Hz).
    unfold cast_ok in Hc. rewrite forallb_forall in Hc. specialize (Hc r Hr). rewrite forallb_forall in Hc. specialize (Hc z Hz).
    unfold fits in Hc. apply andb_prop in Hc. destruct Hc as [H1 H2]. apply Z.leb_le in H1. apply Z.leb_le in H2.
    unfold INT64_MAX in *. lia. }
  assert (H : forall r z, In r M -> In z r -> Z.abs z <= absmax M).
  { intros r z Hr Hz. unfold absmax.
    assert (Hin : In (Z.abs z) (map (fun z => wrap (Z.abs z)) (concat M))).
    { apply in_map_iff. exists z. split; [apply (G r); assumption|]. apply in_concat. exists r. auto. }
    destruct (map _ (concat M)) as [|x l]; [destruct Hin|]. apply fold_max_ge, Hin. }
  split; [|exact H].
  destruct (concat M) as [|z l] eqn:E; [unfold absmax; rewrite E; cbn; lia|].
  assert (Hz : In z (concat M)) by (rewrite E; left; reflexivity). apply in_concat in Hz. destruct Hz as (r & Hr & Hz).
  specialize (H r z Hr Hz). lia.
Qed.
Lemma zget_bound M b i j : 0 <= b -> (forall r z, In r M -> In z r -> Z.abs z <= b) -> Z.abs (zget M i j) <= b.
Proof.
  intros Hb H. unfold zget. destruct (nth_in_or_default i M []) as [Hr|Hr].
  - destruct (nth_in_or_default j (nth i M []) 0) as [Hz|Hz]; [eapply H; eassumption|rewrite Hz; cbn; lia].
  - rewrite Hr. destruct j; cbn; lia.
Qed.
Lemma mm64_entry_exact (n : nat) (f g : nat -> Z) a b : 0 <= a -> 0 <= b ->
  (forall k, (k < n)%nat -> Z.abs (f k) <= a) -> (forall k, (k < n)%nat -> Z.abs (g k) <= b) ->
  a * b * Z.of_nat n <= INT64_MAX -> dot64 n f g = zsum n (fun k => f k * g k) /\ Z.abs (zsum n (fun k => f k * g k)) <= a * b * Z.of_nat n.
Proof.
  intros Ha Hb Hf Hg HM. rewrite dot64_wrap.
  assert (B : Z.abs (zsum n (fun k => f k * g k)) <= Z.of_nat n * (a * b)).
  { apply zsum_bound; [nia|]. intros k Hk. rewrite Z.abs_mul. specialize (Hf k Hk). specialize (Hg k Hk). nia. }
  replace (a * b * Z.of_nat n) with (Z.of_nat n * (a * b)) in * by ring.
  split; [|exact B]. apply wrap_small. unfold INT64_MAX in *. lia.
Qed.

(** ** The field side *)
Section Proofs.
Variable K : OrdField.
Local Open Scope of_scope.
Add Field Kf : (F_field K).

Lemma fpos_succ p : (fpos_ (Pos.succ p) : K) = fpos_ p + 1.
Proof. induction p; cbn; [rewrite IHp|..]; ring. Qed.
Lemma fZ_succ z : (fZ (Z.succ z) : K) = fZ z + 1.
Proof.
  destruct z as [|p|p]; [cbn; ring|cbn [Z.succ Z.add]; rewrite Pos.add_1_r; apply fpos_succ|].
  destruct (Pos.eq_dec p 1) as [->|N]; [cbn; ring|].
  replace p with (Pos.succ (Pos.pred p)) by (apply Pos.succ_pred; exact N).
  replace (Z.succ (Z.neg (Pos.succ (Pos.pred p)))) with (Z.neg (Pos.pred p)) by lia.
  cbn [fZ]. rewrite fpos_succ. ring.
Qed.
Lemma fZ_pred z : (fZ (Z.pred z) : K) = fZ z - 1.
Proof. pose proof (fZ_succ (Z.pred z)) as H. rewrite Z.succ_pred in H. rewrite H. ring. Qed.
Lemma fZ_add x y : (fZ (x + y)%Z : K) = fZ x + fZ y.
Proof.
  revert x. apply (Z.peano_ind (fun x => (fZ (x + y)%Z : K) = fZ x + fZ y)).
  - cbn [Z.add]. cbn [fZ]. ring.
  - intros x IH. replace (Z.succ x + y)%Z with (Z.succ (x + y)) by lia. rewrite !fZ_succ, IH. ring.
  - intros x IH. replace (Z.pred x + y)%Z with (Z.pred (x + y)) by lia. rewrite !fZ_pred, IH. ring.
Qed.
Lemma fZ_mul x y : (fZ (x * y)%Z : K) = fZ x * fZ y.
Proof.
  revert x. apply (Z.peano_ind (fun x => (fZ (x * y)%Z : K) = fZ x * fZ y)).
  - cbn [Z.mul]. cbn [fZ]. ring.
  - intros x IH. replace (Z.succ x * y)%Z with (x * y + y)%Z by lia. rewrite fZ_add, fZ_succ, IH. ring.
  - intros x IH. replace (Z.pred x * y)%Z with (x * y + - y)%Z by lia.
    assert (N : (fZ (- y)%Z : K) = - fZ y) by (destruct y; cbn; ring).
    rewrite fZ_add, N, fZ_pred, IH. ring.
Qed.
Lemma fZ_zsum n f : (fZ (zsum n f) : K) = bsum n (fun k => fZ (f k)).
Proof. induction n as [|n IH]; [reflexivity|]. cbn [zsum bsum]. rewrite fZ_add, IH. reflexivity. Qed.

Lemma mget_zscale (s : K) M i j : mget (zscale s M) i j = s * fZ (zget M i j).
Proof.
  unfold mget, vget, zscale, zget.
  replace (@nil K) with (map (fun z => s * fZ z) []) by reflexivity. rewrite map_nth.
  replace (0 : K) with (s * fZ 0%Z) at 1 by (cbn [fZ]; ring). exact (map_nth (fun z : Z => s * fZ z) _ _ _).
Qed.
Lemma zscale_reshape (s : K) r c l : zscale s (zreshape r c l) = reshape r c (map (fun z => s * fZ z) l).
Proof.
  unfold zscale, zreshape, reshape, mtab, vtab. rewrite map_map. apply map_ext. intro i. rewrite map_map. apply map_ext.
  intro j. unfold vget. replace (0 : K) with (s * fZ 0%Z) by (cbn [fZ]; ring). symmetry. exact (map_nth (fun z : Z => s * fZ z) _ _ _).
Qed.
Lemma ztab_zscale (s : K) r c f : zscale s (ztab r c f) = mtab r c (fun i j => s * fZ (f i j)).
Proof. unfold zscale, ztab, mtab, vtab. rewrite map_map. apply map_ext. intro i. rewrite map_map. reflexivity. Qed.
Lemma mtab_ext r c (f g : nat -> nat -> K) : (forall i j, (i < r)%nat -> (j < c)%nat -> f i j = g i j) -> mtab r c f = mtab r c g.
Proof.
  intro H. unfold mtab. apply map_ext_in. intros i Hi. apply in_seq in Hi. unfold vtab. apply map_ext_in. intros j Hj.
  apply in_seq in Hj. apply H; lia.
Qed.
Lemma zget_ztab r c f i j : (i < r)%nat -> (j < c)%nat -> zget (ztab r c f) i j = f i j.
Proof.
  intros Hi Hj. unfold zget, ztab.
  rewrite nth_indep with (d' := map (f 0%nat) (seq 0 c)) by (rewrite map_length, seq_length; exact Hi).
  rewrite map_nth with (f := fun i => map (f i) (seq 0 c)) (d := 0%nat). rewrite seq_nth by exact Hi.
  rewrite nth_indep with (d' := f i 0%nat) by (rewrite map_length, seq_length; exact Hj).
  cbn [Nat.add]. rewrite map_nth with (d := 0%nat). rewrite seq_nth by exact Hj. reflexivity.
Qed.
(** Row-major reading of a table. *)
Lemma concat_tab_nth (r c : nat) (f : nat -> nat -> K) : forall i j, (i < r)%nat -> (j < c)%nat ->
  vget (concat (mtab r c f)) (i * c + j) = f i j.
Proof.
  intros i j Hi Hj. unfold mtab.
  assert (G : forall s i, (i < r)%nat -> vget (concat (map (fun i => vtab c (f i)) (seq s r))) (i * c + j) = f (s + i)%nat j).
  { clear i Hi. induction r as [|r' IH]; intros s i Hi; [lia|]. cbn [seq map concat].
    destruct i as [|i].
    - cbn [Nat.mul Nat.add]. unfold vget. rewrite app_nth1 by (rewrite vtab_length; exact Hj).
      rewrite Nat.add_0_r. apply (vget_vtab K). exact Hj.
    - unfold vget. rewrite app_nth2 by (rewrite vtab_length; lia). rewrite vtab_length.
      replace (S i * c + j - c)%nat with (i * c + j)%nat by lia. replace (s + S i)%nat with (S s + i)%nat by lia.
      apply IH. lia. }
  exact (G 0%nat i Hi).
Qed.
Lemma reshape_concat (r c : nat) (f : nat -> nat -> K) : reshape r c (concat (mtab r c f)) = mtab r c f.
Proof. apply mtab_ext. intros i j Hi Hj. apply concat_tab_nth; assumption. Qed.
Lemma concat_mtab_length r c (f : nat -> nat -> K) : length (concat (mtab r c f)) = (r * c)%nat.
Proof.
  unfold mtab. generalize 0%nat. induction r as [|r IH]; intro s; [reflexivity|]. cbn [seq map concat].
  rewrite app_length, vtab_length, IH. reflexivity.
Qed.
Lemma concat_mtab_0 r c : concat (mtab r c (fun _ _ => 0 : K)) = repeat 0 (r * c).
Proof.
  unfold mtab. generalize 0%nat. induction r as [|r IH]; intro s; [reflexivity|]. cbn [seq map concat Nat.mul].
  rewrite IH, repeat_app. f_equal. unfold vtab. generalize 0%nat. clear. induction c as [|c IH]; intro s; [reflexivity|].
  cbn. rewrite IH. reflexivity.
Qed.
Lemma reshape_zero r c n : reshape r c (repeat (0:K) n) = mtab r c (fun _ _ => 0 : K).
Proof. apply mtab_ext. intros i j _ _. unfold vget. apply nth_repeat. Qed.
Lemma map_concat_zscale (s : K) M : map (fun z => s * fZ z) (concat M) = concat (zscale s M).
Proof. unfold zscale. rewrite concat_map. reflexivity. Qed.

Lemma mm64_exact r n c (q1 q2 : K) A B : no_min A -> no_min B -> matmul_guard n A B = true ->
  zscale (q1 * q2) (mm64 r n c A B) = mprod r n c (zscale q1 A) (zscale q2 B).
Proof.
  intros NA NB G. unfold matmul_guard in G. apply andb_prop in G. destruct G as [G GM]. apply andb_prop in G. destruct G as [GA GB].
  apply Z.leb_le in GM. destruct (absmax_bound A GA NA) as [PA HA]. destruct (absmax_bound B GB NB) as [PB HB].
  unfold mm64, mprod. rewrite ztab_zscale. apply mtab_ext. intros i j _ _.
  destruct (mm64_entry_exact n (fun k => zget A i k) (fun k => zget B k j) (absmax A) (absmax B) PA PB) as [E _]; auto using zget_bound.
  rewrite E, fZ_zsum. rewrite <- bsum_mul_l. apply bsum_ext. intros k _. rewrite !mget_zscale, fZ_mul. ring.
Qed.
Lemma mprod_zero_n r c (A B : list (list K)) : mprod r 0 c A B = mtab r c (fun _ _ => 0).
Proof. reflexivity. Qed.

Lemma matmul_exact r n c (q1 : K) A q2 B (shape : nat * nat) : no_min A -> no_min B ->
  matmul r n c q1 A q2 B (zscale q1 A) (zscale q2 B) shape
  = reshape (fst shape) (snd shape) (concat (mprod r n c (zscale q1 A) (zscale q2 B))).
Proof.
  intros NA NB. unfold matmul. destruct ((r =? 0)%nat || (n =? 0)%nat || (c =? 0)%nat)%bool eqn:E.
  - assert (Z : concat (mprod r n c (zscale q1 A) (zscale q2 B)) = repeat 0 (r * c)).
    { apply orb_prop in E. destruct E as [E|E]; [apply orb_prop in E; destruct E as [E|E]|]; apply Nat.eqb_eq in E; subst.
      - reflexivity.
      - rewrite mprod_zero_n. apply concat_mtab_0.
      - rewrite Nat.mul_0_r. cbn [repeat]. apply length_zero_iff_nil. unfold mprod. rewrite concat_mtab_length. lia. }
    rewrite Z, reshape_zero. reflexivity.
  - destruct (matmul_guard n A B) eqn:G; [|reflexivity].
    rewrite zscale_reshape, map_concat_zscale, mm64_exact by assumption. reflexivity.
Qed.

Lemma reshape_zscale_row (q1 : K) A i n : reshape n n (nth i (zscale q1 A) []) = zscale q1 (zreshape n n (nth i A [])).
Proof.
  rewrite zscale_reshape. f_equal. unfold zscale. replace (@nil K) with (map (fun z => q1 * fZ z) []) by reflexivity.
  apply map_nth.
Qed.
Lemma zreshape_in n l r z : In r (zreshape n n l) -> In z r -> z = 0%Z \/ In z l.
Proof.
  unfold zreshape. intros Hr Hz. apply in_map_iff in Hr. destruct Hr as (i & <- & _). apply in_map_iff in Hz.
  destruct Hz as (j & <- & _). destruct (nth_in_or_default (i * n + j) l 0%Z) as [H|H]; auto.
Qed.
Lemma nth_row_in (A : list (list Z)) i z : In z (nth i A []) -> In (nth i A []) A.
Proof. intro H. destruct (nth_in_or_default i A []) as [E|E]; [exact E|]. rewrite E in H. destruct H. Qed.

Lemma concat_rows_reshape (N w : nat) (g : nat -> list K) : (forall i, (i < N)%nat -> length (g i) = w) ->
  reshape N w (concat (map g (seq 0 N))) = map g (seq 0 N).
Proof.
  intro H. transitivity (reshape N w (concat (mtab N w (fun i j => vget (g i) j)))).
  - f_equal. f_equal. unfold mtab. apply map_ext_in. intros i Hi. apply in_seq in Hi.
    rewrite <- (H i) by lia. unfold vtab, vget. clear. induction (g i) as [|x l IH]; [reflexivity|].
    cbn [length seq map]. rewrite <- seq_shift, map_map. cbn. f_equal. exact IH.
  - rewrite reshape_concat. unfold mtab. apply map_ext_in. intros i Hi. apply in_seq in Hi.
    rewrite <- (H i) by lia. unfold vtab, vget. clear. induction (g i) as [|x l IH]; [reflexivity|].
    cbn [length seq map]. rewrite <- seq_shift, map_map. cbn. f_equal. exact IH.
Qed.

(** Row [i] of the result is the row-major form of (matrix i of A0) * B0. *)
Lemma matmul_multiple_exact N n m (q1 : K) A q2 B : no_min A -> no_min B ->
  matmul_multiple N n m q1 A q2 B (zscale q1 A) (zscale q2 B)
  = map (fun i => concat (mprod n n m (reshape n n (nth i (zscale q1 A) [])) (zscale q2 B))) (seq 0 N).
Proof.
  intros NA NB. unfold matmul_multiple.
  assert (L : forall i, length (concat (mprod n n m (reshape n n (nth i (zscale q1 A) [])) (zscale q2 B))) = (n * m)%nat)
    by (intro; apply concat_mtab_length).
  destruct ((N =? 0)%nat || (n =? 0)%nat || (m =? 0)%nat)%bool eqn:E.
  - unfold mtab. apply map_ext_in. intros i Hi. apply in_seq in Hi. cbn beta.
    apply orb_prop in E. destruct E as [E|E]; [apply orb_prop in E; destruct E as [E|E]|]; apply Nat.eqb_eq in E; subst; [lia|reflexivity|].
    rewrite Nat.mul_0_r. symmetry. apply length_zero_iff_nil. rewrite L. lia.
  - destruct (matmul_guard n A B) eqn:G; [|reflexivity].
    rewrite zscale_reshape, map_concat_zscale.
    unfold zscale at 1. rewrite map_map.
    match goal with |- reshape N (n * m) (concat (map ?g _)) = _ =>
      rewrite (map_ext_in g (fun i => concat (mprod n n m (reshape n n (nth i (zscale q1 A) [])) (zscale q2 B)))) end.
    + apply concat_rows_reshape. intros; apply L.
    + intros i Hi. rewrite map_concat_zscale, reshape_zscale_row. f_equal.
      set (Ai := zreshape n n (nth i A [])).
      (* the guard on A bounds every slice *)
      unfold matmul_guard in G. apply andb_prop in G. destruct G as [G GM]. apply andb_prop in G. destruct G as [GA GB].
      apply Z.leb_le in GM. destruct (absmax_bound A GA NA) as [PA HA]. destruct (absmax_bound B GB NB) as [PB HB].
      assert (HAi : forall r z, In r Ai -> In z r -> (Z.abs z <= absmax A)%Z).
      { intros r z Hr Hz. destruct (zreshape_in n _ r z Hr Hz) as [->|Hz']; [cbn; exact PA|].
        apply (HA (nth i A [])); [apply (nth_row_in A i z Hz')|exact Hz']. }
      unfold mm64, mprod. rewrite ztab_zscale. apply mtab_ext. intros r j _ _.
      destruct (mm64_entry_exact n (fun k => zget Ai r k) (fun k => zget B k j) (absmax A) (absmax B) PA PB) as [E' _]; auto using zget_bound.
      rewrite E', fZ_zsum. rewrite <- bsum_mul_l. apply bsum_ext. intros k _. rewrite !mget_zscale, fZ_mul. ring.
Qed.

Lemma mprod_assoc m n (U A V : list (list K)) :
  mprod m n m (mprod m n n U A) V = mprod m n m U (mprod n n m A V).
Proof.
  apply mtab_ext. intros i j Hi Hj.
  transitivity (bsum n (fun k => bsum n (fun l => mget U i l * mget A l k * mget V k j))).
  - apply bsum_ext. intros k Hk. unfold mprod. rewrite mget_mtab by assumption. rewrite <- bsum_mul_r. reflexivity.
  - rewrite bsum_swap. apply bsum_ext. intros l Hl. unfold mprod. rewrite mget_mtab by assumption.
    rewrite <- bsum_mul_l. apply bsum_ext. intros k Hk. ring.
Qed.

(** Row [i] of the result is the row-major form of U0^T * (matrix i of A0) * U0. *)
Lemma bilinear_multiple_exact N n m (q1 : K) A q2 U : (0 < n)%nat -> (0 < m)%nat -> no_min A -> no_min U ->
  bilinear_multiple N n m q1 A q2 U (zscale q1 A) (zscale q2 U)
  = Ok (map (fun i => concat (mprod m n m (mtrans n m (zscale q2 U))
         (mprod n n m (reshape n n (nth i (zscale q1 A) [])) (zscale q2 U)))) (seq 0 N)).
Proof.
  intros Pn Pm NA NU. unfold bilinear_multiple.
  destruct (N =? 0)%nat eqn:EN; [apply Nat.eqb_eq in EN; subst N; reflexivity|].
  replace ((n =? 0)%nat || (m =? 0)%nat)%bool with false by (symmetry; apply orb_false_iff; split; apply Nat.eqb_neq; lia).
  destruct (bilinear_guard n A U) eqn:G; [|reflexivity]. f_equal.
  rewrite zscale_reshape, map_concat_zscale. unfold zscale at 1. rewrite map_map.
  match goal with |- reshape N (m * m) (concat (map ?g _)) = map ?h _ => rewrite (map_ext_in g h) end.
  - apply concat_rows_reshape. intros. apply concat_mtab_length.
  - intros i Hi. rewrite map_concat_zscale, reshape_zscale_row. f_equal.
    set (Ai := zreshape n n (nth i A [])).
    unfold bilinear_guard in G. apply andb_prop in G. destruct G as [G GM]. apply andb_prop in G. destruct G as [GA GU].
    apply Z.leb_le in GM. destruct (absmax_bound A GA NA) as [PA HA]. destruct (absmax_bound U GU NU) as [PU HU].
    assert (HAi : forall r z, In r Ai -> In z r -> (Z.abs z <= absmax A)%Z).
    { intros r z Hr Hz. destruct (zreshape_in n _ r z Hr Hz) as [->|Hz']; [cbn; exact PA|].
      apply (HA (nth i A [])); [apply (nth_row_in A i z Hz')|exact Hz']. }
    set (a := absmax A) in *. set (u := absmax U) in *. clearbody a u.
    assert (N1 : (1 <= Z.of_nat n)%Z) by lia.
    assert (F1 : (u * a * Z.of_nat n <= INT64_MAX)%Z).
    { destruct (Z.eq_dec u 0) as [->|Nu]; [unfold INT64_MAX; cbn; lia|].
      refine (Z.le_trans _ _ _ _ GM).
      replace (a * u ^ 2 * Z.of_nat n ^ 2)%Z with ((u * a * Z.of_nat n) * (u * Z.of_nat n))%Z by ring.
      assert (1 <= u * Z.of_nat n)%Z by nia. assert (0 <= u * a * Z.of_nat n)%Z by nia. nia. }
    set (P := mm64 m n n (ztrans n m U) Ai).
    assert (HP : forall r k, (r < m)%nat -> (k < n)%nat ->
      zget P r k = zsum n (fun l => (zget U l r * zget Ai l k)%Z) /\ (Z.abs (zget P r k) <= u * a * Z.of_nat n)%Z).
    { intros r k Hr Hk. unfold P, mm64. rewrite zget_ztab by assumption.
      destruct (mm64_entry_exact n (fun l => zget (ztrans n m U) r l) (fun l => zget Ai l k) u a PU PA) as [E1 E2]; auto.
      - intros l Hl. unfold ztrans. rewrite zget_ztab by assumption. apply zget_bound; assumption.
      - intros l Hl. apply zget_bound; assumption.
      - rewrite E1. split; [|exact E2]. apply zsum_ext. intros l Hl. unfold ztrans. rewrite zget_ztab by assumption. reflexivity. }
    rewrite <- mprod_assoc.
    unfold mm64 at 1. unfold mprod at 1. rewrite ztab_zscale. apply mtab_ext. intros r j Hr Hj.
    destruct (mm64_entry_exact n (fun k => zget P r k) (fun k => zget U k j) (u * a * Z.of_nat n) u) as [E' _]; auto.
    + nia.
    + intros k Hk. apply HP; assumption.
    + intros k Hk. apply zget_bound; assumption.
    + refine (Z.le_trans _ _ _ _ GM).
      replace (u * a * Z.of_nat n * u * Z.of_nat n)%Z with (a * u ^ 2 * Z.of_nat n ^ 2)%Z by ring. lia.
    + rewrite E', fZ_zsum. rewrite <- bsum_mul_l. apply bsum_ext. intros k Hk.
      destruct (HP r k Hr Hk) as [E1 _]. rewrite E1.
      unfold mprod. rewrite mget_mtab by assumption. rewrite fZ_mul, fZ_zsum, mget_zscale.
      transitivity (bsum n (fun l => q1 * q2 ^ 2 * (fZ (zget U l r) * fZ (zget Ai l k)) * fZ (zget U k j))).
      * rewrite bsum_mul_r, bsum_mul_l.
        replace (bsum n (fun l => fZ (zget U l r) * fZ (zget Ai l k) : K)) with (bsum n (fun l => fZ (zget U l r * zget Ai l k)%Z : K))
          by (apply bsum_ext; intros; apply fZ_mul). ring.
      * rewrite <- bsum_mul_r. apply bsum_ext. intros l Hl. unfold mtrans. rewrite mget_mtab by assumption.
        rewrite !mget_zscale. cbn [fpow]. ring.
Qed.
End Proofs.
