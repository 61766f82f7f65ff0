(** * C32: recursive pivoting proofs *)
From Coq Require Import Bool List Arith Lia ZArith QArith Qcanon.
From Verif Require Import OrdField Base Poly PolyId Expr Univariate UnivariateLemmas Halfspace Bivariate PivotProve.
Import ListNotations.
Local Open Scope of_scope.

(** C32.  For every exact univariate prover, every factorisation into forms and every set [nn] of symbols:
    the answer for a polynomial in any number of generators has the value of the polynomial wherever it is
    defined, is non-negative when the symbols of [nn] are, and is defined where no generator vanishes. *)
Theorem prove_by_pivoting_exact (K : OrdField) (uni : bool -> list K -> res (option (wsos K * wsos K))) (fl : poly K -> K * list (poly K * nat))
    (nn : nat -> bool) (hom_sym : nat -> nat) (gens : list nat) (p : poly K) (e : ex K) :
  (forall half f w1 w2, uni half f = Ok (Some (w1, w2)) ->
     (forall t, In t w1 -> 0 <= fst t) /\ (forall t, In t w2 -> 0 <= fst t) /\
     forall y, ueval f y = weval w1 y + (if half then y * weval w2 y else 0)) ->
  (forall (q : poly K) d, wf 2 q -> (forall m, In m (keys q) -> list_sum m = d) ->
     (forall x, peval x q = fst (fl q) * OrdField.fprod (map (fun fm => peval x (fst fm) ^ snd fm) (snd (fl q)))) /\
     (forall (f : poly K) m, In (f, m) (snd (fl q)) -> wf 2 f /\ (forall k, In k (keys f) -> list_sum k = hom_order f) /\ (0 < hom_order f)%nat)) ->
  wf (length gens) p ->
  prove_by_pivoting uni fl nn hom_sym gens p = Ok (Some e) ->
  forall r : nat -> K,
  (defined r e -> ev r e = peval (fun i => r (nth i gens 0%nat)) p /\
                  ((forall g, In g gens -> nn g = true -> 0 <= r g) -> 0 <= ev r e)) /\
  ((forall g, In g gens -> r g <> 0) -> defined r e).
Proof. exact (fun Hu Hf Hw => prove_lemma K uni fl nn hom_sym Hu Hf (length gens) gens p e (proj2 Hw) (proj1 Hw)). Qed.
Print Assumptions prove_by_pivoting_exact.

(** the recursion ends: any fuel of at least the number of generators gives the same answer *)
Theorem prove_by_pivoting_terminates (K : OrdField) (uni : bool -> list K -> res (option (wsos K * wsos K))) (fl : poly K -> K * list (poly K * nat))
    (nn : nat -> bool) (hom_sym : nat -> nat) (gens : list nat) (p : poly K) n :
  (length gens <= n)%nat -> prove uni fl nn hom_sym n gens p = prove_by_pivoting uni fl nn hom_sym gens p.
Proof. exact (fun H => prove_fuel K uni fl nn hom_sym n (length gens) gens p H (Nat.le_refl _)). Qed.
Print Assumptions prove_by_pivoting_terminates.

(** ** Concrete cases *)
Definition z (n : Z) : QcOF := Q2Qc (inject_Z n).
Definition found (r : res (option (ex QcOF))) : bool := match r with Ok (Some _) => true | _ => false end.
Definition run nn gens p := found (prove_by_pivoting (uni_small QcOF) (fl_one QcOF) nn (fun _ => 99%nat) gens p).
(** symbols 4, 6, 8; only 8 is known to be non-negative: x^2 - xy + y^2 + z (x^2 + 2xy + 3y^2) + 2 z^3 *)
Definition ex3 : poly QcOF :=
  [([2;0;0], z 1); ([1;1;0], z (-1)); ([0;2;0], z 1); ([2;0;1], z 1); ([1;1;1], z 2); ([0;2;1], z 3); ([0;0;3], z 2)]%nat.
Example pivot_three : run (Nat.eqb 8) [4;6;8]%nat ex3 = true.
Proof. vm_compute. reflexivity. Qed.
Example pivot_three_unknown : run (fun _ => false) [4;6;8]%nat ex3 = false.
Proof. vm_compute. reflexivity. Qed.
Example pivot_three_wf : wf 3 ex3.
Proof. split; [repeat constructor; cbn; intuition discriminate|]. cbn. intuition (subst; reflexivity). Qed.
(** one generator, homogenised: x^2 - 2x + 3 *)
Example pivot_one : run (fun _ => false) [4]%nat [([2], z 1); ([1], z (-2)); ([0], z 3)]%nat = true.
Proof. vm_compute. reflexivity. Qed.
Example provers_meet_hypotheses : uni_exact QcOF (uni_small QcOF) /\ factors_forms QcOF (fl_one QcOF).
Proof. exact (conj (uni_small_exact QcOF) (fl_one_forms QcOF)). Qed.
