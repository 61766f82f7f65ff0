(** * Ordered fields with decidable order

    The exact numbers handled by the solver (sympy [Rational] and real
    algebraic numbers) are modelled by an arbitrary ordered field whose order
    is given by a boolean function.  sympy's exact comparisons
    (e.g. [x > 0] in triples/sdp/utils.py:40) are modelled by [fleb]. *)

From Coq Require Import Bool List ZArith Ring Field Ring_theory Field_theory.
From Coq Require Import QArith Qcanon.
From Coq Require Import Lia Permutation.

Record OrdField : Type := mkOrdField {
  carrier :> Type;
  f0 : carrier;
  f1 : carrier;
  fadd : carrier -> carrier -> carrier;
  fmul : carrier -> carrier -> carrier;
  fsub : carrier -> carrier -> carrier;
  fopp : carrier -> carrier;
  fdiv : carrier -> carrier -> carrier;
  finv : carrier -> carrier;
  F_field : field_theory f0 f1 fadd fmul fsub fopp fdiv finv (@eq carrier);
  fleb : carrier -> carrier -> bool;
  fleb_refl : forall x, fleb x x = true;
  fleb_antisym : forall x y, fleb x y = true -> fleb y x = true -> x = y;
  fleb_trans : forall x y z, fleb x y = true -> fleb y z = true -> fleb x z = true;
  fleb_total : forall x y, fleb x y = true \/ fleb y x = true;
  fleb_add : forall x y z, fleb x y = true -> fleb (fadd x z) (fadd y z) = true;
  fleb_mul : forall x y, fleb f0 x = true -> fleb f0 y = true -> fleb f0 (fmul x y) = true
}.

Arguments f0 {_}. Arguments f1 {_}.
Arguments fadd {_} _ _. Arguments fmul {_} _ _. Arguments fsub {_} _ _.
Arguments fopp {_} _. Arguments fdiv {_} _ _. Arguments finv {_} _.
Arguments fleb {_} _ _.
Arguments fleb_refl {_} _. Arguments fleb_antisym {_} _ _ _ _.
Arguments fleb_trans {_} _ _ _ _ _. Arguments fleb_total {_} _ _.
Arguments fleb_add {_} _ _ _ _. Arguments fleb_mul {_} _ _ _ _.

Declare Scope of_scope.
Delimit Scope of_scope with F.
Bind Scope of_scope with carrier.

Definition fle {K : OrdField} (x y : K) : Prop := fleb x y = true.
Definition flt {K : OrdField} (x y : K) : Prop := fleb y x = false.
Definition feqb {K : OrdField} (x y : K) : bool := fleb x y && fleb y x.
Definition fltb {K : OrdField} (x y : K) : bool := negb (fleb y x).

Notation "0" := f0 : of_scope.
Notation "1" := f1 : of_scope.
Infix "+" := fadd : of_scope.
Infix "*" := fmul : of_scope.
Infix "-" := fsub : of_scope.
Infix "/" := fdiv : of_scope.
Notation "- x" := (fopp x) : of_scope.
Notation "/ x" := (finv x) : of_scope.
Infix "<=" := fle : of_scope.
Infix "<" := flt : of_scope.
Notation "x >= y" := (fle y x) (only parsing) : of_scope.
Notation "x > y" := (flt y x) (only parsing) : of_scope.
Infix "<=?" := fleb : of_scope.
Infix "<?" := fltb : of_scope.
Infix "=?" := feqb : of_scope.
Notation "2" := (1 + 1)%F : of_scope.
Notation "3" := (1 + (1 + 1))%F : of_scope.
Notation "4" := (1 + (1 + (1 + 1)))%F : of_scope.

(** Natural powers and integer constants. *)
Fixpoint fpow {K : OrdField} (x : K) (n : nat) : K :=
  match n with O => 1%F | S n' => (x * fpow x n')%F end.
Infix "^" := fpow : of_scope.

Fixpoint fnat {K : OrdField} (n : nat) : K :=
  match n with O => 0%F | S n' => (1 + fnat n')%F end.

Fixpoint fpos_ {K : OrdField} (p : positive) : K :=
  match p with
  | xH => 1%F
  | xO q => ((1 + 1) * fpos_ q)%F
  | xI q => (1 + (1 + 1) * fpos_ q)%F
  end.
Definition fZ {K : OrdField} (z : Z) : K :=
  match z with Z0 => 0%F | Zpos p => fpos_ p | Zneg p => (- fpos_ p)%F end.

(** Finite sums. *)
Fixpoint fsum {K : OrdField} (l : list K) : K :=
  match l with nil => 0%F | cons x l' => (x + fsum l')%F end.
Fixpoint fprod {K : OrdField} (l : list K) : K :=
  match l with nil => 1%F | cons x l' => (x * fprod l')%F end.

Section Lemmas.
Variable K : OrdField.
Local Open Scope of_scope.
Implicit Types x y z : K.

Lemma fring : ring_theory (@f0 K) f1 fadd fmul fsub fopp (@eq K).
Proof. exact (F_R (F_field K)). Qed.

Add Field Kf : (F_field K).

Lemma fneq10 : (1:K) <> 0.
Proof. exact (F_1_neq_0 (F_field K)). Qed.

Lemma fle_refl x : x <= x. Proof. apply fleb_refl. Qed.
Lemma fle_trans x y z : x <= y -> y <= z -> x <= z.
Proof. apply fleb_trans. Qed.
Lemma fle_antisym x y : x <= y -> y <= x -> x = y.
Proof. apply fleb_antisym. Qed.
Lemma fle_total x y : x <= y \/ y <= x.
Proof. apply fleb_total. Qed.
Lemma fle_add_r x y z : x <= y -> x + z <= y + z.
Proof. apply fleb_add. Qed.

Lemma fle_sub x y : x <= y <-> 0 <= y - x.
Proof.
  split; intro H.
  - apply (fle_add_r _ _ (- x)) in H.
    replace (x + - x) with (0:K) in H by ring.
    replace (y + - x) with (y - x) in H by ring. exact H.
  - apply (fle_add_r _ _ x) in H.
    replace (0 + x) with x in H by ring.
    replace (y - x + x) with y in H by ring. exact H.
Qed.

Lemma flt_not_le x y : x < y <-> ~ y <= x.
Proof. unfold flt, fle. destruct (fleb y x); split; intros; congruence. Qed.
Lemma fnot_lt_le x y : ~ x < y <-> y <= x.
Proof. unfold flt, fle. destruct (fleb y x); split; intros; congruence. Qed.

Lemma flt_le x y : x < y -> x <= y.
Proof.
  intro H. apply flt_not_le in H. destruct (fle_total x y) as [H1|H1]; tauto.
Qed.
Lemma flt_neq x y : x < y -> x <> y.
Proof. intros H E. subst. apply flt_not_le in H. apply H, fle_refl. Qed.
Lemma fle_lt_eq x y : x <= y <-> x < y \/ x = y.
Proof.
  split.
  - intro H. destruct (fleb y x) eqn:E.
    + right. apply fle_antisym; assumption.
    + left. exact E.
  - intros [H|H]; [apply flt_le; exact H | subst; apply fle_refl].
Qed.
Lemma flt_le_neq x y : x < y <-> x <= y /\ x <> y.
Proof.
  split.
  - intro H. split; [apply flt_le | apply flt_neq]; exact H.
  - intros [H1 H2]. apply fle_lt_eq in H1. tauto.
Qed.
Lemma flt_irrefl x : ~ x < x.
Proof. intro H. apply flt_neq in H. congruence. Qed.
Lemma flt_trans x y z : x < y -> y < z -> x < z.
Proof.
  intros H1 H2. apply flt_not_le. intro H3.
  apply flt_not_le in H2. apply H2. apply fle_trans with x; [exact H3 | apply flt_le; exact H1].
Qed.
Lemma flt_le_trans x y z : x < y -> y <= z -> x < z.
Proof.
  intros H1 H2. apply flt_not_le. intro H3. apply flt_not_le in H1.
  apply H1. apply fle_trans with z; assumption.
Qed.
Lemma fle_lt_trans x y z : x <= y -> y < z -> x < z.
Proof.
  intros H1 H2. apply flt_not_le. intro H3. apply flt_not_le in H2.
  apply H2. apply fle_trans with x; assumption.
Qed.
Lemma flt_total x y : x < y \/ x = y \/ y < x.
Proof.
  destruct (fle_total x y) as [H|H]; apply fle_lt_eq in H; destruct H; auto.
Qed.
Lemma flt_sub x y : x < y <-> 0 < y - x.
Proof.
  rewrite !flt_not_le. rewrite (fle_sub y x), (fle_sub (y - x) 0).
  replace (0 - (y - x)) with (x - y) by ring. tauto.
Qed.

Lemma feqb_eq x y : (x =? y) = true <-> x = y.
Proof.
  unfold feqb. rewrite andb_true_iff. split.
  - intros [H1 H2]. apply fle_antisym; assumption.
  - intros ->. split; apply fle_refl.
Qed.
Lemma feqb_neq x y : (x =? y) = false <-> x <> y.
Proof.
  rewrite <- feqb_eq. destruct (x =? y); split; intros; congruence.
Qed.
Lemma feq_dec x y : {x = y} + {x <> y}.
Proof. destruct (x =? y) eqn:E; [left; apply feqb_eq | right; apply feqb_neq]; exact E. Qed.
Lemma fltb_lt x y : (x <? y) = true <-> x < y.
Proof. unfold fltb, flt. rewrite negb_true_iff. tauto. Qed.
Lemma fltb_ge x y : (x <? y) = false <-> y <= x.
Proof. unfold fltb, fle. rewrite negb_false_iff. tauto. Qed.
Lemma fleb_le x y : (x <=? y) = true <-> x <= y.
Proof. unfold fle. tauto. Qed.
Lemma fleb_gt x y : (x <=? y) = false <-> y < x.
Proof. unfold flt. tauto. Qed.

(** Non-negativity rules *)
Lemma fadd_nonneg x y : 0 <= x -> 0 <= y -> 0 <= x + y.
Proof.
  intros H1 H2. apply (fle_add_r 0 x y) in H1.
  replace (0 + y) with y in H1 by ring. apply fle_trans with y; assumption.
Qed.
Lemma fmul_nonneg x y : 0 <= x -> 0 <= y -> 0 <= x * y.
Proof. apply fleb_mul. Qed.
Lemma fopp_nonneg x : x <= 0 -> 0 <= - x.
Proof. intro H. apply fle_sub in H. replace (- x) with (0 - x) by ring. exact H. Qed.
Lemma fopp_nonpos x : 0 <= x -> - x <= 0.
Proof. intro H. apply fle_sub. replace (0 - - x) with x by ring. exact H. Qed.
Lemma fopp_nonneg_inv x : 0 <= - x -> x <= 0.
Proof. intro H. apply fle_sub. replace (0 - x) with (- x) by ring. exact H. Qed.
Lemma fsqr_nonneg x : 0 <= x * x.
Proof.
  destruct (fle_total 0 x) as [H|H].
  - apply fmul_nonneg; exact H.
  - apply fopp_nonneg in H. replace (x * x) with ((- x) * (- x)) by ring.
    apply fmul_nonneg; exact H.
Qed.
Lemma f1_nonneg : 0 <= (1:K).
Proof. replace (1:K) with (1 * 1 : K) by ring. apply fsqr_nonneg. Qed.
Lemma f1_pos : 0 < (1:K).
Proof. apply flt_le_neq. split; [apply f1_nonneg|]. intro H. apply fneq10. congruence. Qed.
Lemma fle_add x y z t : x <= y -> z <= t -> x + z <= y + t.
Proof.
  intros H1 H2. apply fle_sub. replace (y + t - (x + z)) with ((y - x) + (t - z)) by ring.
  apply fadd_nonneg; apply (proj1 (fle_sub _ _)); assumption.
Qed.
Lemma fadd_pos_l x y : 0 < x -> 0 <= y -> 0 < x + y.
Proof.
  intros H1 H2. apply flt_le_trans with x; [exact H1|].
  apply fle_sub. replace (x + y - x) with y by ring. exact H2.
Qed.
Lemma fadd_pos_r x y : 0 <= x -> 0 < y -> 0 < x + y.
Proof. intros. replace (x + y) with (y + x) by ring. apply fadd_pos_l; assumption. Qed.
Lemma fadd_pos x y : 0 < x -> 0 < y -> 0 < x + y.
Proof. intros. apply fadd_pos_l; [assumption|apply flt_le; assumption]. Qed.
Lemma fmul_eq0 x y : x * y = 0 -> x = 0 \/ y = 0.
Proof.
  intro H. destruct (feq_dec x 0) as [E|E]; [left; exact E|right].
  replace y with (/ x * (x * y)) by (field; exact E). rewrite H. ring.
Qed.
Lemma fmul_neq0 x y : x <> 0 -> y <> 0 -> x * y <> 0.
Proof. intros H1 H2 H. apply fmul_eq0 in H. tauto. Qed.
Lemma fsqr_eq0 x : x * x = 0 -> x = 0.
Proof. intro H. apply fmul_eq0 in H. tauto. Qed.
Lemma fmul_pos x y : 0 < x -> 0 < y -> 0 < x * y.
Proof.
  intros H1 H2. apply flt_le_neq. split.
  - apply fmul_nonneg; apply flt_le; assumption.
  - intro H. symmetry in H. apply fmul_eq0 in H.
    apply flt_neq in H1. apply flt_neq in H2. destruct H; congruence.
Qed.
Lemma fsqr_pos x : x <> 0 -> 0 < x * x.
Proof.
  intro H. apply flt_le_neq. split; [apply fsqr_nonneg|].
  intro E. apply H, fsqr_eq0. congruence.
Qed.
Lemma flt_neq0 x : 0 < x -> x <> 0.
Proof. intros H E. apply flt_neq in H. congruence. Qed.
Lemma finv_neq0 x : x <> 0 -> / x <> 0.
Proof.
  intros H E. apply fneq10. replace (1:K) with (x * / x) by (field; exact H). rewrite E. ring.
Qed.
Lemma finv_pos x : 0 < x -> 0 < / x.
Proof.
  intro H. pose proof (flt_neq0 _ H) as Hn.
  replace (/ x) with (x * ((/ x) * (/ x))) by (field; exact Hn).
  apply fmul_pos; [exact H|]. apply fsqr_pos, finv_neq0, Hn.
Qed.
Lemma fdiv_def x y : x / y = x * / y.
Proof. apply (Fdiv_def (F_field K)). Qed.
Lemma fdiv_nonneg x y : 0 <= x -> 0 < y -> 0 <= x / y.
Proof.
  intros H1 H2. rewrite fdiv_def. apply fmul_nonneg; [exact H1|apply flt_le, finv_pos, H2].
Qed.
Lemma fdiv_pos x y : 0 < x -> 0 < y -> 0 < x / y.
Proof. intros H1 H2. rewrite fdiv_def. apply fmul_pos; [exact H1|apply finv_pos, H2]. Qed.
Lemma f2_pos : 0 < (1 + 1 : K).
Proof. apply fadd_pos; apply f1_pos. Qed.
Lemma f2_neq0 : (1 + 1 : K) <> 0.
Proof. apply flt_neq0, f2_pos. Qed.

Lemma fmul_le_compat_l x y z : 0 <= z -> x <= y -> z * x <= z * y.
Proof.
  intros Hz H. apply fle_sub. replace (z * y - z * x) with (z * (y - x)) by ring.
  apply fmul_nonneg; [exact Hz|]. apply (proj1 (fle_sub _ _)). exact H.
Qed.
Lemma fmul_lt_cancel x y : 0 < x -> 0 <= x * y -> 0 <= y.
Proof.
  intros Hx H. replace y with ((x * y) / x) by (field; apply flt_neq0; exact Hx).
  apply fdiv_nonneg; assumption.
Qed.
Lemma fmul_pos_cancel x y : 0 < x -> 0 < x * y -> 0 < y.
Proof.
  intros Hx H. replace y with ((x * y) / x) by (field; apply flt_neq0; exact Hx).
  apply fdiv_pos; assumption.
Qed.
Lemma fsub_eq0 x y : x - y = 0 -> x = y.
Proof. intro H. replace x with (x - y + y) by ring. rewrite H. ring. Qed.
Lemma fadd_eq0_nonneg x y : 0 <= x -> 0 <= y -> x + y = 0 -> x = 0 /\ y = 0.
Proof.
  intros Hx Hy H.
  assert (x = 0).
  { apply fle_antisym; [|exact Hx]. replace x with (- y).
    - apply fopp_nonpos, Hy.
    - replace (- y) with (x - (x + y)) by ring. rewrite H. ring. }
  split; [assumption|]. subst. rewrite <- H. ring.
Qed.

Lemma fpow_nonneg x n : 0 <= x -> 0 <= x ^ n.
Proof. intro H. induction n; cbn; [apply f1_nonneg|apply fmul_nonneg; assumption]. Qed.
Lemma fpow_pos x n : 0 < x -> 0 < x ^ n.
Proof. intro H. induction n; cbn; [apply f1_pos|apply fmul_pos; assumption]. Qed.
Lemma fpow_add x n m : x ^ (n + m) = x ^ n * x ^ m.
Proof. induction n; cbn; [ring|rewrite IHn; ring]. Qed.
Lemma fpow_mul_l x y n : (x * y) ^ n = x ^ n * y ^ n.
Proof. induction n; cbn; [ring|rewrite IHn; ring]. Qed.
Lemma fpow_mul x n m : x ^ (n * m) = (x ^ n) ^ m.
Proof.
  induction m; cbn; [rewrite Nat.mul_0_r; reflexivity|].
  rewrite Nat.mul_succ_r, Nat.add_comm, fpow_add, IHm. reflexivity.
Qed.
Lemma fpow_1 n : (1:K) ^ n = 1.
Proof. induction n; cbn; [reflexivity|rewrite IHn; ring]. Qed.
Lemma fpow_neq0 x n : x <> 0 -> x ^ n <> 0.
Proof. intro H. induction n; cbn; [apply fneq10|apply fmul_neq0; assumption]. Qed.
Lemma fpow_0 n : n <> 0%nat -> (0:K) ^ n = 0.
Proof. destruct n; [congruence|]. intros _. cbn. ring. Qed.
Lemma fpow_even_nonneg x n : Nat.even n = true -> 0 <= x ^ n.
Proof.
  intro H. apply Nat.even_spec in H. destruct H as [k ->].
  replace (2 * k)%nat with (k + k)%nat by lia. rewrite fpow_add. apply fsqr_nonneg.
Qed.

Lemma fnat_nonneg n : 0 <= (fnat n : K).
Proof. induction n; cbn; [apply fle_refl|apply fadd_nonneg; [apply f1_nonneg|exact IHn]]. Qed.
Lemma fnat_pos n : (0 < n)%nat -> 0 < (fnat n : K).
Proof.
  destruct n; [lia|]. intros _. cbn. apply fadd_pos_l; [apply f1_pos|apply fnat_nonneg].
Qed.
Lemma fnat_neq0 n : (0 < n)%nat -> (fnat n : K) <> 0.
Proof. intro. apply flt_neq0, fnat_pos. assumption. Qed.
Lemma fnat_add n m : (fnat (n + m) : K) = fnat n + fnat m.
Proof. induction n; cbn; [ring|rewrite IHn; ring]. Qed.
Lemma fnat_mul n m : (fnat (n * m) : K) = fnat n * fnat m.
Proof. induction n; cbn; [ring|rewrite fnat_add, IHn; ring]. Qed.

Lemma fpos__pos p : 0 < (fpos_ p : K).
Proof.
  induction p; cbn.
  - apply fadd_pos; [apply f1_pos|]. apply fmul_pos; [apply f2_pos|exact IHp].
  - apply fmul_pos; [apply f2_pos|exact IHp].
  - apply f1_pos.
Qed.
Lemma fZ_pos p : 0 < (fZ (Zpos p) : K).
Proof. apply fpos__pos. Qed.
Lemma fZ_neq0 p : (fZ (Zpos p) : K) <> 0.
Proof. apply flt_neq0, fZ_pos. Qed.

(** sums *)
Lemma fsum_app (l1 l2 : list K) : fsum (l1 ++ l2) = fsum l1 + fsum l2.
Proof. induction l1; cbn; [ring|rewrite IHl1; ring]. Qed.
Lemma fsum_nonneg (l : list K) : (forall x, In x l -> 0 <= x) -> 0 <= fsum l.
Proof.
  induction l; cbn; intro H; [apply fle_refl|].
  apply fadd_nonneg; [apply H; left; reflexivity|apply IHl; intros; apply H; right; assumption].
Qed.
Lemma fsum_map_add {A} (f g : A -> K) l :
  fsum (map (fun a => f a + g a) l) = fsum (map f l) + fsum (map g l).
Proof. induction l; cbn; [ring|rewrite IHl; ring]. Qed.
Lemma fsum_map_sub {A} (f g : A -> K) l :
  fsum (map (fun a => f a - g a) l) = fsum (map f l) - fsum (map g l).
Proof. induction l; cbn; [ring|rewrite IHl; ring]. Qed.
Lemma fsum_map_mul_l {A} (f : A -> K) c l :
  fsum (map (fun a => c * f a) l) = c * fsum (map f l).
Proof. induction l; cbn; [ring|rewrite IHl; ring]. Qed.
Lemma fsum_map_mul_r {A} (f : A -> K) c l :
  fsum (map (fun a => f a * c) l) = fsum (map f l) * c.
Proof. induction l; cbn; [ring|rewrite IHl; ring]. Qed.
Lemma fsum_map_ext {A} (f g : A -> K) l :
  (forall a, In a l -> f a = g a) -> fsum (map f l) = fsum (map g l).
Proof.
  intro H. f_equal. apply map_ext_in. exact H.
Qed.
Lemma fsum_map_0 {A} (f : A -> K) l :
  (forall a, In a l -> f a = 0) -> fsum (map f l) = 0.
Proof.
  induction l; cbn; intro H; [reflexivity|].
  rewrite H, IHl; [ring| |left; reflexivity]. intros; apply H; right; assumption.
Qed.
Lemma fsum_swap {A B} (f : A -> B -> K) la lb :
  fsum (map (fun a => fsum (map (fun b => f a b) lb)) la)
  = fsum (map (fun b => fsum (map (fun a => f a b) la)) lb).
Proof.
  induction la; cbn.
  - rewrite fsum_map_0; [reflexivity|]. reflexivity.
  - rewrite IHla. rewrite fsum_map_add. reflexivity.
Qed.
Lemma fsum_perm (l1 l2 : list K) : Permutation l1 l2 -> fsum l1 = fsum l2.
Proof.
  induction 1; cbn; try congruence; ring.
Qed.
Lemma fsum_const {A} (c : K) (l : list A) : fsum (map (fun _ => c) l) = fnat (length l) * c.
Proof. induction l; cbn; [ring|rewrite IHl; ring]. Qed.
Lemma fsum_flat_map {A} (f : A -> list K) l :
  fsum (flat_map f l) = fsum (map (fun a => fsum (f a)) l).
Proof. induction l; cbn; [reflexivity|rewrite fsum_app, IHl; reflexivity]. Qed.
Lemma fsum_filter {A} (f : A -> K) (p : A -> bool) l :
  fsum (map f (filter p l)) = fsum (map (fun a => if p a then f a else 0) l).
Proof. induction l; cbn; [reflexivity|]. destruct (p a); cbn; rewrite IHl; ring. Qed.
Lemma fsum_eq0_nonneg (l : list K) :
  (forall x, In x l -> 0 <= x) -> fsum l = 0 -> forall x, In x l -> x = 0.
Proof.
  induction l; cbn; intros H E x Hx; [tauto|].
  destruct (fadd_eq0_nonneg a (fsum l)) as [Ha Hl].
  - apply H; left; reflexivity.
  - apply fsum_nonneg. intros; apply H; right; assumption.
  - exact E.
  - destruct Hx as [<-|Hx]; [exact Ha|]. apply IHl; auto.
Qed.

Lemma fprod_app (l1 l2 : list K) : fprod (l1 ++ l2) = fprod l1 * fprod l2.
Proof. induction l1; cbn; [ring|rewrite IHl1; ring]. Qed.
Lemma fprod_nonneg (l : list K) : (forall x, In x l -> 0 <= x) -> 0 <= fprod l.
Proof.
  induction l; cbn; intro H; [apply f1_nonneg|].
  apply fmul_nonneg; [apply H; left; reflexivity|apply IHl; intros; apply H; right; assumption].
Qed.
Lemma fprod_perm (l1 l2 : list K) : Permutation l1 l2 -> fprod l1 = fprod l2.
Proof. induction 1; cbn; try congruence; ring. Qed.
Lemma fprod_map_mul {A} (f g : A -> K) l :
  fprod (map (fun a => f a * g a) l) = fprod (map f l) * fprod (map g l).
Proof. induction l; cbn; [ring|rewrite IHl; ring]. Qed.
Lemma fprod_const {A} (c : K) (l : list A) : fprod (map (fun _ => c) l) = c ^ length l.
Proof. induction l; cbn; [reflexivity|rewrite IHl; ring]. Qed.
Lemma fprod_map_ext {A} (f g : A -> K) l :
  (forall a, In a l -> f a = g a) -> fprod (map f l) = fprod (map g l).
Proof. intro H. f_equal. apply map_ext_in. exact H. Qed.
Lemma fprod_eq0 (l : list K) : In 0 l -> fprod l = 0.
Proof. induction l; cbn; [tauto|]. intros [->|H]; [ring|rewrite IHl by exact H; ring]. Qed.
Lemma fprod_neq0 (l : list K) : (forall x, In x l -> x <> 0) -> fprod l <> 0.
Proof.
  induction l; cbn; intro H; [apply fneq10|].
  apply fmul_neq0; [apply H; left; reflexivity|apply IHl; intros; apply H; right; assumption].
Qed.
End Lemmas.

Arguments fle_sub {K}. Arguments flt_sub {K}.
Arguments flt_neq0 {K x}. Arguments flt_le {K x y}.

(** Discharging obvious signs. *)
Ltac fpos1 :=
  match goal with
  | |- fle f0 (fadd _ _) => apply fadd_nonneg
  | |- fle f0 (fmul ?x ?x) => apply fsqr_nonneg
  | |- fle f0 (fmul _ _) => apply fmul_nonneg
  | |- fle f0 (fdiv _ _) => apply fdiv_nonneg
  | |- fle f0 f1 => apply f1_nonneg
  | |- fle f0 f0 => apply fle_refl
  | |- fle f0 (fpow _ _) => apply fpow_nonneg
  | |- fle f0 (fnat _) => apply fnat_nonneg
  | |- fle f0 (fZ (Zpos _)) => apply flt_le, fZ_pos
  | |- flt f0 (fZ (Zpos _)) => apply fZ_pos
  | |- flt f0 f1 => apply f1_pos
  | |- flt f0 (fmul _ _) => apply fmul_pos
  | |- flt f0 (fdiv _ _) => apply fdiv_pos
  | |- flt f0 (fadd _ _) => apply fadd_pos
  | |- flt f0 (fpow _ _) => apply fpow_pos
  | H : flt f0 ?x |- fle f0 ?x => apply flt_le; exact H
  end.
Ltac fpos := repeat (first [assumption | fpos1]).

(** The rationals are an instance. *)
Definition Qc_leb (x y : Qc) : bool := Qle_bool (this x) (this y).

Lemma Qc_leb_le x y : Qc_leb x y = true <-> (x <= y)%Qc.
Proof. unfold Qc_leb, Qcle. apply Qle_bool_iff. Qed.

Definition QcOF : OrdField.
Proof.
  refine (mkOrdField Qc 0%Qc 1%Qc Qcplus Qcmult Qcminus Qcopp Qcdiv Qcinv Qcft Qc_leb _ _ _ _ _ _).
  - intro x. apply Qc_leb_le, Qcle_refl.
  - intros x y H1 H2. apply Qc_leb_le in H1. apply Qc_leb_le in H2. apply Qcle_antisym; assumption.
  - intros x y z H1 H2. apply Qc_leb_le in H1. apply Qc_leb_le in H2. apply Qc_leb_le.
    eapply Qcle_trans; eassumption.
  - intros x y. destruct (Qclt_le_dec x y) as [H|H].
    + left. apply Qc_leb_le. apply Qclt_le_weak, H.
    + right. apply Qc_leb_le. exact H.
  - intros x y z H. apply Qc_leb_le in H. apply Qc_leb_le.
    apply Qcplus_le_compat; [exact H|apply Qcle_refl].
  - intros x y H1 H2. apply Qc_leb_le in H1. apply Qc_leb_le in H2. apply Qc_leb_le.
    replace 0%Qc with (0 * y)%Qc by ring.
    apply Qcmult_le_compat_r; assumption.
Defined.

(** Two elements of [QcOF] are equal when a computation says so. *)
Definition qc_eqb (x y : Qc) : bool := Qeq_bool (this x) (this y).
Lemma qc_eqb_eq x y : qc_eqb x y = true -> x = y.
Proof. intro H. apply Qeq_bool_eq in H. apply Qc_is_canon. exact H. Qed.
Lemma qc_eqb_neq x y : qc_eqb x y = false -> x <> y.
Proof.
  intros H E. subst. unfold qc_eqb in H.
  assert (Qeq_bool (this y) (this y) = true) by (apply Qeq_bool_iff; reflexivity). congruence.
Qed.

Definition q (n : Z) (d : positive) : QcOF := Q2Qc (n # d).
Arguments q n%Z d%positive.

(** [field] unfolds the projections of the record in some of its side
    conditions; fold them back. *)
Ltac ffold K :=
  try (let t := eval vm_compute in (@fmul K) in change t with (@fmul K));
  try (let t := eval vm_compute in (@fadd K) in change t with (@fadd K));
  try (let t := eval vm_compute in (@fsub K) in change t with (@fsub K));
  try (let t := eval vm_compute in (@fopp K) in change t with (@fopp K));
  try (let t := eval vm_compute in (@f1 K) in change t with (@f1 K));
  try (let t := eval vm_compute in (@f0 K) in change t with (@f0 K));
  try (let t := eval vm_compute in (carrier K) in change t with (carrier K)).

(** Non-zero side conditions of [field]. *)
Ltac fnz :=
  repeat split;
  try match goal with |- @not (@eq _ _ (@f0 ?K)) => ffold K end;
  first [assumption | apply f2_neq0 | apply fneq10 | apply flt_neq0; solve [fpos] | idtac].
