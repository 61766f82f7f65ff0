(** * Certificates as expressions

    The solver returns sympy expressions.  Certificates built by the
    structural solver for three variables are modelled by the small syntax
    below: constants, variables, sums, products, natural powers and
    quotients.  [CyclicSum]/[CyclicProduct] over (a, b, c)
    (triples/utils/expression/cyclic.py:411-645) are modelled by their
    expansion; sympy's own automatic rewriting of [Add] and [Mul], which keeps
    values, is not modelled. *)
From Coq Require Import Bool List Arith Lia Ring Field.
From Verif Require Import OrdField Base.
Import ListNotations.

(** Expressions over constants of [K]; variables are numbered ([a], [b], [c] = 0, 1, 2). *)
Inductive ex (K : OrdField) : Type :=
| EC (k : K)
| EX (i : nat)
| EAdd (x y : ex K)
| ESub (x y : ex K)
| EMul (x y : ex K)
| EDiv (x y : ex K)
| EPow (x : ex K) (n : nat).
Arguments EC {K} k. Arguments EX {K} i.
Arguments EAdd {K} x y. Arguments ESub {K} x y. Arguments EMul {K} x y.
Arguments EDiv {K} x y. Arguments EPow {K} x n.

Declare Scope ex_scope.
Delimit Scope ex_scope with E.
Bind Scope ex_scope with ex.
Infix "+" := EAdd : ex_scope.
Infix "-" := ESub : ex_scope.
Infix "*" := EMul : ex_scope.
Infix "/" := EDiv : ex_scope.
Notation "x ^ n" := (EPow x n%nat) : ex_scope.

Section Eval.
Context {K : OrdField}.
Local Open Scope of_scope.

(** Value of an expression. *)
Fixpoint ev (env : nat -> K) (e : ex K) : K :=
  match e with
  | EC k => k
  | EX i => env i
  | EAdd x y => ev env x + ev env y
  | ESub x y => ev env x - ev env y
  | EMul x y => ev env x * ev env y
  | EDiv x y => ev env x / ev env y
  | EPow x n => ev env x ^ n
  end.

(** No denominator vanishes. *)
Fixpoint defined (env : nat -> K) (e : ex K) : Prop :=
  match e with
  | EC _ | EX _ => True
  | EAdd x y | ESub x y | EMul x y => defined env x /\ defined env y
  | EDiv x y => defined env x /\ defined env y /\ ev env y <> 0
  | EPow x _ => defined env x
  end.

(** What a reader checks: the expression is built from non-negative
    constants, variables ([pos] = they are known to be non-negative), even
    powers, sums, products and quotients. *)
Fixpoint manifest (pos : bool) (e : ex K) : bool :=
  match e with
  | EC k => 0 <=? k
  | EX _ => pos
  | ESub _ _ => false
  | EAdd x y | EMul x y | EDiv x y => manifest pos x && manifest pos y
  | EPow x n => Nat.even n || manifest pos x
  end.

(** Renaming of variables ([xreplace] with a permutation). *)
Fixpoint erename (s : nat -> nat) (e : ex K) : ex K :=
  match e with
  | EC k => EC k
  | EX i => EX (s i)
  | EAdd x y => EAdd (erename s x) (erename s y)
  | ESub x y => ESub (erename s x) (erename s y)
  | EMul x y => EMul (erename s x) (erename s y)
  | EDiv x y => EDiv (erename s x) (erename s y)
  | EPow x n => EPow (erename s x) n
  end.

Definition rot3 (i : nat) : nat := match i with 0 => 1 | 1 => 2 | 2 => 0 | _ => i end%nat.

(** [CyclicSum(e)] and [CyclicProduct(e)] over (a, b, c) with the cyclic group. *)
Definition csum (e : ex K) : ex K := EAdd (EAdd e (erename rot3 e)) (erename rot3 (erename rot3 e)).
Definition cprod (e : ex K) : ex K := EMul (EMul e (erename rot3 e)) (erename rot3 (erename rot3 e)).

(** The point (a, b, c). *)
Definition pt3 (a b c : K) (i : nat) : K := match i with 0 => a | 1 => b | _ => c end%nat.

(** Specification: the value of a homogeneous polynomial of degree [d] in
    three variables given by its coefficient function. *)
Definition tri_poly (d : nat) (cf : nat -> nat -> nat -> K) (a b c : K) : K :=
  fsum (map (fun i => fsum (map (fun j => cf i j (d - i - j)%nat * (a ^ i * b ^ j * c ^ (d - i - j)))
                                (seq 0 (S (d - i)))))
            (seq 0 (S d))).

(** The polynomial is unchanged by (a,b,c) -> (b,c,a). *)
Definition cyclic3 (cf : nat -> nat -> nat -> K) : Prop := forall i j k, cf i j k = cf j k i.

End Eval.

Section Lemmas.
Variable K : OrdField.
Local Open Scope of_scope.
Add Field Kf : (F_field K).
Implicit Types e : ex K.

Lemma manifest_nonneg pos e env :
  (pos = true -> forall i, 0 <= env i) -> defined env e -> manifest pos e = true -> 0 <= ev env e.
Proof.
  intro Hp. induction e; cbn; intros Hd Hm.
  - exact Hm.
  - auto.
  - apply andb_prop in Hm. destruct Hm, Hd. apply fadd_nonneg; auto.
  - discriminate.
  - apply andb_prop in Hm. destruct Hm, Hd. apply fmul_nonneg; auto.
  - apply andb_prop in Hm. destruct Hm as [H1 H2], Hd as (D1 & D2 & D3).
    apply fdiv_nonneg; auto. apply flt_le_neq. split; auto.
  - apply orb_prop in Hm. destruct Hm as [H|H].
    + apply fpow_even_nonneg, H.
    + apply fpow_nonneg; auto.
Qed.

Lemma manifest_rename pos s e : manifest pos (erename s e) = manifest pos e.
Proof. induction e; cbn; congruence. Qed.
Lemma manifest_csum pos e : manifest pos e = true -> manifest pos (csum e) = true.
Proof. intro H. cbn. rewrite !manifest_rename, H. reflexivity. Qed.
Lemma manifest_cprod pos e : manifest pos e = true -> manifest pos (cprod e) = true.
Proof. intro H. cbn. rewrite !manifest_rename, H. reflexivity. Qed.

Lemma ev_rename s env e : ev env (erename s e) = ev (fun i => env (s i)) e.
Proof. induction e; cbn; congruence. Qed.

Lemma manifest_mono e : manifest false e = true -> manifest true e = true.
Proof.
  induction e; cbn; intro H; try congruence.
  - apply andb_prop in H. destruct H. rewrite IHe1, IHe2 by assumption. reflexivity.
  - apply andb_prop in H. destruct H. rewrite IHe1, IHe2 by assumption. reflexivity.
  - apply andb_prop in H. destruct H. rewrite IHe1, IHe2 by assumption. reflexivity.
  - apply orb_prop in H. destruct H as [H|H]; [rewrite H; reflexivity|].
    rewrite IHe by exact H. apply orb_true_r.
Qed.
End Lemmas.
Arguments manifest_nonneg {K}.
Arguments manifest_csum {K}. Arguments manifest_cprod {K}. Arguments manifest_mono {K}.
