(** * C33 (quadratic_weighting) and C50 (zip_longest) *)
From Coq Require Import Bool List Arith Lia QArith Qcanon.
From Verif Require Import OrdField Base StructUtils.
Import ListNotations.
Local Open Scope of_scope.

(** C33: the weighted squares add up to the quadratic form. *)
Theorem quadratic_weighting_identity (K : OrdField) (c1 c2 c3 a b : K) r :
  quadratic_weighting c1 c2 c3 = Some r ->
  fsum (map (fun w => fst w * ((fst (snd w) * a + snd (snd w) * b) * (fst (snd w) * a + snd (snd w) * b))) r)
  = c1 * (a * a) + c2 * (a * b) + c3 * (b * b).
Proof. exact (quadratic_weighting_value K c1 c2 c3 a b r). Qed.
Print Assumptions quadratic_weighting_identity.

(** C33: all weights are non-negative. *)
Theorem quadratic_weighting_nonneg (K : OrdField) (c1 c2 c3 : K) r :
  quadratic_weighting c1 c2 c3 = Some r -> forall w xy, In (w, xy) r -> 0 <= w.
Proof. exact (quadratic_weighting_weights K c1 c2 c3 r). Qed.
Print Assumptions quadratic_weighting_nonneg.

(** C33: None exactly when the form takes a negative value. *)
Theorem quadratic_weighting_none_iff (K : OrdField) (c1 c2 c3 : K) :
  quadratic_weighting c1 c2 c3 = None <->
  exists a b, c1 * (a * a) + c2 * (a * b) + c3 * (b * b) < 0.
Proof. exact (quadratic_weighting_none K c1 c2 c3). Qed.
Print Assumptions quadratic_weighting_none_iff.

(** C50: as many tuples as the longest input; entry [t] of column [i] is item
    [min t (len - 1)] of input [i] ([None] for an empty input). *)
Theorem zip_longest_pads (A : Type) (args : list (list A)) (fuel : nat) :
  (fold_right (fun a m => Nat.max (length a) m) 0%nat args < fuel)%nat ->
  zip_longest fuel args =
  Some (map (fun t => map (fun a => nth_error a (Nat.min t (length a - 1))) args)
            (seq 0 (fold_right (fun a m => Nat.max (length a) m) 0%nat args))).
Proof. exact (zip_longest_spec A args fuel). Qed.
Print Assumptions zip_longest_pads.

(** Non-vacuity *)
Example qw_example : exists r, quadratic_weighting (q 2 1) (q (-3) 1) (q 2 1) = Some r /\ length r = 2%nat.
Proof. eexists. split; vm_compute; reflexivity. Qed.
Example qw_example_none : quadratic_weighting (q 1 1) (q 3 1) (q 2 1) = None.
Proof. vm_compute. reflexivity. Qed.
Example zip_example :
  zip_longest 4 [[1; 2; 3]; [7]; []]%nat =
  Some [[Some 1; Some 7; None]; [Some 2; Some 7; None]; [Some 3; Some 7; None]]%nat.
Proof. vm_compute. reflexivity. Qed.
