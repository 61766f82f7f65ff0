(** * Shared definitions: Python outcomes, indexed sums, matrices as lists *)
From Coq Require Import Bool List Arith Lia Ring Field.
From Verif Require Import OrdField.
Import ListNotations.

(** Python exceptions that matter to callers. *)
Inductive exn : Type :=
| ValueError | IndexError | KeyError | TypeError | ZeroDivisionError | LinAlgError | OtherError.

(** Outcome of a call that may raise. *)
Inductive res (A : Type) : Type :=
| Ok (a : A)
| Err (e : exn).
Arguments Ok {A} _. Arguments Err {A} _.

Lemma Ok_inj {A} (a b : A) : Ok a = Ok b -> a = b.
Proof. congruence. Qed.

(** Indexed sums [bsum n f = f 0 + ... + f (n-1)]. *)
Fixpoint bsum {K : OrdField} (n : nat) (f : nat -> K) : K :=
  match n with O => 0%F | S n' => (bsum n' f + f n')%F end.

(** Matrices as lists of rows; reading outside the matrix gives 0. *)
Definition vget {K : OrdField} (v : list K) (i : nat) : K := nth i v 0%F.
Definition mget {K : OrdField} (M : list (list K)) (i j : nat) : K := vget (nth i M nil) j.
Definition vtab {K : OrdField} (n : nat) (f : nat -> K) : list K := map f (seq 0 n).
Definition mtab {K : OrdField} (n m : nat) (f : nat -> nat -> K) : list (list K) :=
  map (fun i => vtab m (f i)) (seq 0 n).

Section Lemmas.
Variable K : OrdField.
Local Open Scope of_scope.
Add Field Kf : (F_field K).

Lemma vget_vtab n (f : nat -> K) i : (i < n)%nat -> vget (vtab n f) i = f i.
Proof.
  intro H. unfold vget, vtab.
  rewrite nth_indep with (d' := f 0%nat) by (rewrite map_length, seq_length; exact H).
  rewrite map_nth with (d := 0%nat). rewrite seq_nth by exact H. reflexivity.
Qed.
Lemma vget_over (v : list K) i : (length v <= i)%nat -> vget v i = 0.
Proof. intro H. unfold vget. apply nth_overflow. exact H. Qed.
Lemma vtab_length n (f : nat -> K) : length (vtab n f) = n.
Proof. unfold vtab. rewrite map_length, seq_length. reflexivity. Qed.
Lemma mtab_length n m (f : nat -> nat -> K) : length (mtab n m f) = n.
Proof. unfold mtab. rewrite map_length, seq_length. reflexivity. Qed.
Lemma mtab_row n m (f : nat -> nat -> K) i : (i < n)%nat -> nth i (mtab n m f) nil = vtab m (f i).
Proof.
  intro H. unfold mtab.
  rewrite nth_indep with (d' := vtab m (f 0%nat)) by (rewrite map_length, seq_length; exact H).
  rewrite map_nth with (f := fun i => vtab m (f i)) (d := 0%nat).
  rewrite seq_nth by exact H. reflexivity.
Qed.
Lemma mget_mtab n m (f : nat -> nat -> K) i j :
  (i < n)%nat -> (j < m)%nat -> mget (mtab n m f) i j = f i j.
Proof.
  intros Hi Hj. unfold mget. rewrite mtab_row by exact Hi. apply vget_vtab. exact Hj.
Qed.

Lemma bsum_ext n (f g : nat -> K) : (forall i, (i < n)%nat -> f i = g i) -> bsum n f = bsum n g.
Proof.
  induction n; cbn; intro H; [reflexivity|]. rewrite IHn, H by (intros; try apply H; lia). reflexivity.
Qed.
Lemma bsum_0 n : bsum n (fun _ => 0 : K) = 0.
Proof. induction n; cbn; [reflexivity|rewrite IHn; ring]. Qed.
Lemma bsum_all0 n (f : nat -> K) : (forall i, (i < n)%nat -> f i = 0) -> bsum n f = 0.
Proof. intro H. rewrite (bsum_ext n f (fun _ => 0) H). apply bsum_0. Qed.
Lemma bsum_add n (f g : nat -> K) : bsum n (fun i => f i + g i) = bsum n f + bsum n g.
Proof. induction n; cbn; [ring|rewrite IHn; ring]. Qed.
Lemma bsum_sub n (f g : nat -> K) : bsum n (fun i => f i - g i) = bsum n f - bsum n g.
Proof. induction n; cbn; [ring|rewrite IHn; ring]. Qed.
Lemma bsum_opp n (f : nat -> K) : bsum n (fun i => - f i) = - bsum n f.
Proof. induction n; cbn; [ring|rewrite IHn; ring]. Qed.
Lemma bsum_mul_l n c (f : nat -> K) : bsum n (fun i => c * f i) = c * bsum n f.
Proof. induction n; cbn; [ring|rewrite IHn; ring]. Qed.
Lemma bsum_mul_r n c (f : nat -> K) : bsum n (fun i => f i * c) = bsum n f * c.
Proof. induction n; cbn; [ring|rewrite IHn; ring]. Qed.
Lemma bsum_Sl n (f : nat -> K) : bsum (S n) f = f 0%nat + bsum n (fun i => f (S i)).
Proof. induction n; cbn in *; [ring|]. rewrite IHn. ring. Qed.
Lemma bsum_swap n m (f : nat -> nat -> K) :
  bsum n (fun i => bsum m (fun j => f i j)) = bsum m (fun j => bsum n (fun i => f i j)).
Proof.
  induction n; cbn; [rewrite bsum_0; reflexivity|]. rewrite IHn, bsum_add. reflexivity.
Qed.
Lemma bsum_nonneg n (f : nat -> K) : (forall i, (i < n)%nat -> 0 <= f i) -> 0 <= bsum n f.
Proof.
  induction n; cbn; intro H; [apply fle_refl|].
  apply fadd_nonneg; [apply IHn; intros; apply H; lia|apply H; lia].
Qed.
Lemma bsum_split n m (f : nat -> K) :
  bsum (n + m) f = bsum n f + bsum m (fun i => f (n + i)%nat).
Proof.
  induction m; cbn; [rewrite Nat.add_0_r; ring|].
  rewrite Nat.add_succ_r. cbn. rewrite IHm. ring.
Qed.
Lemma bsum_single n k (f : nat -> K) :
  (k < n)%nat -> (forall i, (i < n)%nat -> i <> k -> f i = 0) -> bsum n f = f k.
Proof.
  induction n; intros Hk H; [lia|]. cbn. destruct (Nat.eq_dec k n) as [->|Hne].
  - rewrite bsum_all0; [ring|]. intros; apply H; lia.
  - rewrite IHn, (H n) by (try intros; try apply H; lia). ring.
Qed.
Lemma bsum_delta n k (f : nat -> K) :
  (k < n)%nat -> bsum n (fun i => if Nat.eqb i k then f i else 0) = f k.
Proof.
  intro H. rewrite (bsum_single n k); [rewrite Nat.eqb_refl; reflexivity|exact H|].
  intros i _ Hi. destruct (Nat.eqb_spec i k); congruence.
Qed.
Lemma bsum_fsum n (f : nat -> K) : bsum n f = fsum (map f (seq 0 n)).
Proof.
  induction n; [reflexivity|]. rewrite seq_S, map_app, fsum_app, <- IHn. cbn. ring.
Qed.
Lemma bsum_fprod_prod n m (f g : nat -> K) :
  bsum n f * bsum m g = bsum n (fun i => bsum m (fun j => f i * g j)).
Proof.
  rewrite <- bsum_mul_r. apply bsum_ext. intros i _. rewrite bsum_mul_l. reflexivity.
Qed.
Lemma bsum_eq0 n (f : nat -> K) :
  (forall i, (i < n)%nat -> 0 <= f i) -> bsum n f = 0 -> forall i, (i < n)%nat -> f i = 0.
Proof.
  induction n; intros H E i Hi; [lia|]. cbn in E.
  apply fadd_eq0_nonneg in E; [|apply bsum_nonneg; intros; apply H; lia|apply H; lia].
  destruct E as [E1 E2]. destruct (Nat.eq_dec i n) as [->|Hne]; [exact E2|].
  apply IHn; auto; try lia.
Qed.
End Lemmas.

Ltac bext := apply bsum_ext; intros.
