(** * C46: the two half planes kept by [HalfspaceIntersection2D] *)
From Coq Require Import Bool List ZArith.
From Verif Require Import OrdField Base Halfspace.
Import ListNotations.
Local Open Scope of_scope.

(** C46, the direction soundness needs: whatever is added, and in whatever order, a point that
    satisfies every added constraint satisfies the stored ones. *)
Theorem halfspace_stored_are_implied (K : OrdField) (E : Type) (l : list (vec2 K * E)) (p : vec2 K) :
  (forall n e, In (n, e) l -> 0 <= dot n p) ->
  forall n e, In (n, e) (stored (hs_run l)) -> 0 <= dot n p.
Proof. exact (hs_sound_lemma K E l p). Qed.
Print Assumptions halfspace_stored_are_implied.

(** C46, the equality.  Missing from the full claim: normals that are zero, and two normals that
    point in exactly opposite directions; the claim is false for those, see below. *)
Theorem halfspace_same_cone_partial (K : OrdField) (E : Type) (l : list (vec2 K * E)) :
  (forall n e, In (n, e) l -> n <> (0, 0)) ->
  (forall n1 e1 n2 e2, In (n1, e1) l -> In (n2, e2) l -> ~ (cross n1 n2 = 0 /\ dot n1 n2 < 0)) ->
  (length (stored (hs_run l)) <= 2)%nat /\
  (degenerated (hs_run l) = false ->
     forall p, (forall n e, In (n, e) (stored (hs_run l)) -> 0 <= dot n p) <-> (forall n e, In (n, e) l -> 0 <= dot n p)) /\
  (degenerated (hs_run l) = true ->
     forall p, (forall n e, In (n, e) l -> 0 <= dot n p) -> p = (0, 0)).
Proof. exact (hs_same_cone_lemma K E l). Qed.
Print Assumptions halfspace_same_cone_partial.

Definition v2 (a b : Z) : vec2 QcOF := (q a 1, q b 1).

(** The unrestricted claim is false: x >= 0, -x >= 0, y >= 0 is stored as x = 0 without y >= 0 ... *)
Theorem halfspace_same_cone_refuted :
  exists (l : list (vec2 QcOF * unit)) (p : vec2 QcOF),
    degenerated (hs_run l) = false /\
    (forall n e, In (n, e) (stored (hs_run l)) -> 0 <= dot n p) /\
    ~ (forall n e, In (n, e) l -> 0 <= dot n p).
Proof.
  exists [(v2 1 0, tt); (v2 (-1) 0, tt); (v2 0 1, tt)], (v2 0 (-1)).
  split; [vm_compute; reflexivity|]. split.
  - intros n e H. vm_compute in H. destruct H as [H|[H|[]]]; inversion H; subst; vm_compute; reflexivity.
  - intro H. specialize (H (v2 0 1) tt (or_intror (or_intror (or_introl eq_refl)))). vm_compute in H. discriminate.
Qed.
Print Assumptions halfspace_same_cone_refuted.

(** ... and a zero normal added first hides the next constraint (all cross products vanish). *)
Theorem halfspace_zero_normal_refuted :
  stored (hs_run [(v2 0 0, tt); (v2 0 1, tt)]) = [(v2 0 0, tt)].
Proof. vm_compute. reflexivity. Qed.
Print Assumptions halfspace_zero_normal_refuted.

(** ... and x >= 0, -x >= 0, -y >= 0 is reported as degenerated although (0, -1) is feasible. *)
Theorem halfspace_degenerated_refuted :
  exists (l : list (vec2 QcOF * unit)) (p : vec2 QcOF),
    degenerated (hs_run l) = true /\ (forall n e, In (n, e) l -> 0 <= dot n p) /\ p <> (0, 0).
Proof.
  exists [(v2 1 0, tt); (v2 (-1) 0, tt); (v2 0 (-1), tt)], (v2 0 (-1)).
  split; [vm_compute; reflexivity|]. split.
  - intros n e H. destruct H as [H|[H|[H|[]]]]; inversion H; subst; vm_compute; reflexivity.
  - intro H. apply (f_equal (fun p => feqb (snd p) 0)) in H. vm_compute in H. discriminate.
Qed.
Print Assumptions halfspace_degenerated_refuted.

(** Non-vacuity: four normals meeting the hypotheses; two are kept and they are not the first two. *)
Example halfspace_example : map snd (stored (hs_run [(v2 1 1, 1%nat); (v2 2 1, 2%nat); (v2 1 2, 3%nat); (v2 3 1, 4%nat)])) = [4%nat; 3%nat].
Proof. vm_compute. reflexivity. Qed.
Example halfspace_degenerate : degenerated (hs_run [(v2 1 0, tt); (v2 0 1, tt); (v2 (-1) (-1), tt)]) = true.
Proof. vm_compute. reflexivity. Qed.
