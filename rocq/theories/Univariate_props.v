(** * C44 (univariate certificates) and C45 (restored diagonal entries) *)
From Coq Require Import Bool List Arith Lia ZArith QArith Qcanon Qround.
From Verif Require Import OrdField Base Congruence PolyId Univariate UnivariateLemmas.
Import ListNotations.
Local Open Scope of_scope.

(** C45: for any matrix that is symmetric away from the three central diagonals, the completed
    matrix is symmetric, represents the polynomial at every point, and keeps the given entries. *)
Theorem determine_diagonal_represents (K : OrdField) (n : nat) (M : gmat K) (f : list K) :
  (0 < n)%nat -> length (all_coeffs f) = (2 * n - 1)%nat ->
  (forall a b, (a < n)%nat -> (b < n)%nat -> (Nat.min a b + 2 <= Nat.max a b)%nat -> M a b = M b a) ->
  exists M', determine_diagonal n M f = Ok M' /\
    (forall a b, (a < n)%nat -> (b < n)%nat -> M' a b = M' b a) /\
    (forall a b, (Nat.min a b + 2 <= Nat.max a b)%nat -> M' a b = M a b) /\
    (forall x, bsum n (fun i => bsum n (fun j => x ^ (n - 1 - i) * M' i j * x ^ (n - 1 - j))) = ueval f x).
Proof. exact (determine_represents_lemma K n M f). Qed.
Print Assumptions determine_diagonal_represents.

(** C45, two matrices: f(x) = v0^T M0 v0 + x v1^T M1 v1 once the sizes fit. *)
Theorem determine_diagonal2_represents (K : OrdField) (n0 n1 : nat) (M0 M1 : gmat K) (f : list K) :
  (0 < n0)%nat -> (0 < n1)%nat ->
  (forall a b, (a < n0)%nat -> (b < n0)%nat -> (Nat.min a b + 2 <= Nat.max a b)%nat -> M0 a b = M0 b a) ->
  (forall a b, (a < n1)%nat -> (b < n1)%nat -> M1 a b = M1 b a) ->
  length (all_coeffs (minor_rest n1 M1 f)) = (2 * n0 - 1)%nat ->
  exists M', determine_diagonal2 n0 M0 n1 M1 f = Ok (M', M1) /\
    (forall a b, (a < n0)%nat -> (b < n0)%nat -> M' a b = M' b a) /\
    (forall x, ueval f x =
       bsum n0 (fun i => bsum n0 (fun j => x ^ (n0 - 1 - i) * M' i j * x ^ (n0 - 1 - j)))
       + x * bsum n1 (fun i => bsum n1 (fun j => x ^ (n1 - 1 - i) * M1 i j * x ^ (n1 - 1 - j)))).
Proof. exact (determine2_represents_lemma K n0 n1 M0 M1 f). Qed.
Print Assumptions determine_diagonal2_represents.

(** C44: every accepted proof of a factor is exact with non-negative weights, for every
    numerical outcome whose sizes fit.
    Missing from the full claim: the size condition [aligned].  When [f - x M1(x)] has a lower
    degree than its matrix allows, the coefficients land on the wrong diagonals and a wrong
    certificate is accepted, see [prove_univariate_exact_refuted]. *)
Theorem prove_irreducible_exact_partial (K : OrdField) rds (nm : numerics K) (f : list K) p q :
  aligned K rds nm f -> prove_irreducible rds nm f = Ok (Some (p, q)) ->
  (forall c g, In (c, g) p \/ In (c, g) q -> 0 <= c) /\
  forall x, ueval f x = fsum (map (fun t => fst t * (ueval (snd t) x * ueval (snd t) x)) p)
                    + x * fsum (map (fun t => fst t * (ueval (snd t) x * ueval (snd t) x)) q).
Proof. exact (prove_irreducible_exact_lemma K rds nm f p q). Qed.
Print Assumptions prove_irreducible_exact_partial.

(** C44: the same for [prove_univariate], for every factorisation and every numerics. *)
Theorem prove_univariate_exact_partial (K : OrdField) rds num (fl : K * list (list K * nat)) (f : list K) p q :
  (forall x, ueval f x = fst fl * fprod (map (fun gm => ueval (fst gm) x ^ snd gm) (snd fl))) ->
  (forall g m, In (g, m) (snd fl) -> aligned K rds (num g) g) ->
  prove_univariate rds num fl = Ok (Some (p, q)) ->
  (forall c g, In (c, g) p \/ In (c, g) q -> 0 <= c) /\
  forall x, ueval f x = fsum (map (fun t => fst t * (ueval (snd t) x * ueval (snd t) x)) p)
                    + x * fsum (map (fun t => fst t * (ueval (snd t) x * ueval (snd t) x)) q).
Proof. exact (prove_univariate_exact_lemma K rds num fl f p q). Qed.
Print Assumptions prove_univariate_exact_partial.

(** the size condition always holds for factors of even degree 2m when the matrices have their natural sizes *)
Theorem aligned_even_degree (K : OrdField) rds (nm : numerics K) (f : list K) (m : nat) :
  length (strip f) = (2 * m + 1)%nat -> (0 < m)%nat ->
  dim0 nm = S m -> (no_real_root nm = false -> dim1 nm = m) -> aligned K rds nm f.
Proof. exact (aligned_even_lemma K rds nm f m). Qed.
Print Assumptions aligned_even_degree.

(** C44: [_reduce_sos] keeps the value, gives non-negative weights and cannot fail on
    non-negative weights. *)
Theorem reduce_sos_exact (K : OrdField) (w w' : wsos K) :
  reduce_sos w = Ok w' -> (forall c g, In (c, g) w' -> 0 <= c) /\ forall x, weval w' x = weval w x.
Proof. exact (reduce_exact_lemma K w w'). Qed.
Print Assumptions reduce_sos_exact.
Theorem reduce_sos_total (K : OrdField) (w : wsos K) :
  (forall c g, In (c, g) w -> 0 <= c) -> (exists c g x, In (c, g) w /\ ueval g x <> 0) -> exists w', reduce_sos w = Ok w'.
Proof. exact (reduce_total_lemma K w). Qed.
Print Assumptions reduce_sos_total.

(** C44: intervals.  The returned list has the documented multipliers, non-negative weights, and
    equals the polynomial at every point, end points included. *)
Theorem prove_interval_exact_partial (K : OrdField) rds num fl (f : list K) lo hi pr :
  (forall g x, ueval g x = fst (fl g) * fprod (map (fun gm => ueval (fst gm) x ^ snd gm) (snd (fl g)))) ->
  (forall g h m, In (h, m) (snd (fl g)) -> aligned K rds (num h) h) ->
  prove_interval rds num fl f lo hi = Ok (Some pr) ->
  map fst pr = match lo, hi with
               | None, None => [[1]; [0; 1]]
               | Some a, None => [[1]; [- a; 1]]
               | None, Some b => [[1]; [b; - (1)]]
               | Some a, Some b => if Nat.even (udeg0 f) then [[1]; umul [- a; 1] [b; - (1)]] else [[b; - (1)]; [- a; 1]]
               end /\
  (forall m w c g, In (m, w) pr -> In (c, g) w -> 0 <= c) /\
  (forall x, ueval f x = fsum (map (fun mw => ueval (fst mw) x
      * fsum (map (fun t => fst t * (ueval (snd t) x * ueval (snd t) x)) (snd mw))) pr)).
Proof. exact (prove_interval_exact_lemma K rds num fl f lo hi pr). Qed.
Print Assumptions prove_interval_exact_partial.

(** C44: consequently the polynomial is non-negative on the whole interval. *)
Theorem prove_interval_nonnegative_partial (K : OrdField) rds num fl (f : list K) lo hi pr x :
  (forall g x, ueval g x = fst (fl g) * fprod (map (fun gm => ueval (fst gm) x ^ snd gm) (snd (fl g)))) ->
  (forall g h m, In (h, m) (snd (fl g)) -> aligned K rds (num h) h) ->
  prove_interval rds num fl f lo hi = Ok (Some pr) ->
  (forall a, lo = Some a -> a <= x) -> (forall b, hi = Some b -> x <= b) -> 0 <= ueval f x.
Proof. exact (prove_interval_nonneg K rds num fl f lo hi pr x). Qed.
Print Assumptions prove_interval_nonnegative_partial.

(** ** Concrete cases *)
Definition round_to (lcm : positive) (v : QcOF) : QcOF := Q2Qc (inject_Z (Qfloor (this v * (Zpos lcm # 1) + (1 # 2))) / (Zpos lcm # 1)).
Definition zl (l : list Z) : list QcOF := map (fun z => q z 1) l.
Definition lmat (l : list (list QcOF)) : gmat QcOF := fun i j => mget l i j.

(** The claim without the size condition is false, with realistic numerics: for
    f = x^3 - 2 x^2 + 5 x + 1 (irreducible, real root -0.18503...) the first rounding (lcm = 1) of
    the second matrix [[1, -1.0925], [-1.0925, 5.4043]] makes f - x M1 = 1, a constant; only one
    entry of the first matrix is restored and the proof returned is
    x^2 - 0.4043 x + 1 + x (x^2 - 2 x + 5), which is not f. *)
Definition bad_f : list QcOF := zl [1; 5; -2; 1]%Z.
Definition bad_num : numerics QcOF := mknum false false
  2%nat (lmat [[q 1850 10000; q (-20216) 100000]; [q (-20216) 100000; q 1 1]])
  2%nat (lmat [[q 1 1; q (-10925) 10000]; [q (-10925) 10000; q 54043 10000]]).
Theorem prove_univariate_exact_refuted :
  exists p r, prove_univariate [round_to 1] (fun _ => bad_num) (q 1 1, [(bad_f, 1%nat)]) = Ok (Some (p, r)) /\
    exists x, ueval bad_f x <> weval p x + x * weval r x.
Proof.
  assert (H : match prove_univariate [round_to 1] (fun _ => bad_num) (q 1 1, [(bad_f, 1%nat)]) with
              | Ok (Some (p, r)) => negb (feqb (ueval bad_f 1) (weval p 1 + 1 * weval r 1)) | _ => false end = true)
    by (vm_compute; reflexivity).
  destruct (prove_univariate _ _ _) as [[[p r]|]|]; try discriminate. exists p, r. split; [reflexivity|]. exists 1.
  apply negb_true_iff, feqb_neq in H. exact H.
Qed.
Print Assumptions prove_univariate_exact_refuted.

(** Non-vacuity: x^4 - 2x^3 + 3x^2 - x + 2, no real root, third diagonal -1/7 rounded to 0. *)
Definition ok_f : list QcOF := zl [2; -1; 3; -2; 1]%Z.
Definition ok_num : numerics QcOF := mknum false true
  3%nat (lmat [[q 0 1; q 0 1; q (-1) 7]; [q 0 1; q 0 1; q 0 1]; [q (-1) 7; q 0 1; q 0 1]]) 0%nat (fun _ _ => 0).
Example ok_aligned : aligned QcOF [round_to 1] ok_num ok_f.
Proof. apply (aligned_even_degree QcOF _ _ _ 2%nat); try reflexivity; try lia. discriminate. Qed.
Example ok_proof :
  match prove_univariate [round_to 1] (fun _ => ok_num) (q 1 1, [(ok_f, 1%nat)]) with Ok (Some (p, [])) => length p | _ => 0%nat end = 3%nat.
Proof. vm_compute. reflexivity. Qed.
(** a product of factors with multiplicities: 2 (x+1)^3 (x^2+1) *)
Example ok_product :
  match prove_univariate [] (fun _ => ok_num) (q 2 1, [(zl [1; 1]%Z, 3%nat); (zl [1; 0; 1]%Z, 1%nat)]) with
  | Ok (Some (p, r)) => (length p, length r) | _ => (0, 0)%nat end = (2, 2)%nat.
Proof. vm_compute. reflexivity. Qed.
(** f = 3 - x on [-1, 2]: y-polynomial 4 + y, factored as itself *)
Example ok_interval :
  match prove_interval [] (fun _ => ok_num) (fun g => (q 1 1, [(g, 1%nat)])) (zl [3; -1]%Z) (Some (q (-1) 1)) (Some (q 2 1)) with
  | Ok (Some pr) => map (fun mw => (length (fst mw), length (snd mw))) pr | _ => [] end = [(2, 1); (2, 1)]%nat.
Proof. vm_compute. reflexivity. Qed.
