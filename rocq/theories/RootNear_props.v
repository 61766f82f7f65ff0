(** * C89: approximation of ternary roots (roots.py:543-577) *)
From Coq Require Import Bool List QArith Qcanon.
From Verif Require Import OrdField Base RootUv RootNear RootNearFacts.
Import ListNotations.
Local Open Scope of_scope.

(** The only division by zero is that by a zero sum: every other root has an approximation. *)
Theorem approximate_defined_iff : forall (K : OrdField) (tol atol : K) (rat : K -> K) (a b c : K),
  0 < tol -> tol <= 1 -> (approximate tol atol rat a b c = None <-> a + b + c = 0).
Proof. exact approximate_total_lemma. Qed.
Print Assumptions approximate_defined_iff.

(** A root whose coordinates, scaled to the sum 3, agree up to the tolerance becomes (1, 1, 1). *)
Theorem approximate_near_centre : forall (K : OrdField) (tol atol : K) (rat : K -> K) (a b c : K), a + b + c <> 0 ->
  is_close tol (to_sum3 a b c a) (to_sum3 a b c b) -> is_close tol (to_sum3 a b c b) (to_sum3 a b c c) ->
  is_close tol (to_sum3 a b c a) (to_sum3 a b c c) -> approximate tol atol rat a b c = Some (1, 1, 1).
Proof. exact approximate_centre. Qed.
Print Assumptions approximate_near_centre.

(** A root two of whose coordinates vanish up to the tolerance becomes a corner, in all three positions. *)
Theorem approximate_near_corner : forall (K : OrdField) (tol atol : K) (rat : K -> K) (a b c : K),
  0 < tol -> tol <= 1 -> a + b + c <> 0 ->
  is_close tol (to_sum3 a b c b) 0 -> is_close tol (to_sum3 a b c c) 0 -> ~ is_close tol (to_sum3 a b c a) 0 ->
  ~ is_close tol (to_sum3 a b c a) (to_sum3 a b c b) ->
  approximate tol atol rat a b c = Some (1, 0, 0) /\
  approximate tol atol rat b c a = Some (0, 0, 1) /\
  approximate tol atol rat c a b = Some (0, 1, 0).
Proof. exact approximate_corner_lemma. Qed.
Print Assumptions approximate_near_corner.

(** Away from the border and the axes only the scaling to the sum 3 and changes below the second tolerance. *)
Theorem approximate_interior : forall (K : OrdField) (tol atol : K) (rat : K -> K) (a b c : K),
  0 < tol -> 0 < atol -> a + b + c <> 0 ->
  let x := to_sum3 a b c a in let y := to_sum3 a b c b in let z := to_sum3 a b c c in
  ~ is_close tol x 0 -> ~ is_close tol y 0 -> ~ is_close tol z 0 ->
  ~ is_close tol x y -> ~ is_close tol y z -> ~ is_close tol z x ->
  exists p q r, approximate tol atol rat a b c = Some (p, q, r) /\
    is_close atol p x /\ is_close atol q y /\ is_close atol r z.
Proof. exact approximate_generic. Qed.
Print Assumptions approximate_interior.

(** A root on the border up to the tolerance becomes a root exactly on the border, in all three positions,
    if the quotient of its coordinates is not near 0. This quotient is kept up to the second tolerance, or
    becomes 1 if it is near 1 or the coordinates are near each other ... *)
Theorem approximate_on_border_partial : forall (K : OrdField) (tol atol : K) (rat : K -> K) (e x y : K),
  0 < tol -> (1 + 1) * tol <= 1 -> 0 < atol -> rat 0 = 0 -> rat 1 = 1 -> e + x + y <> 0 ->
  is_close tol (to_sum3 e x y e) 0 ->
  ~ is_close tol (to_sum3 e x y x) 0 -> ~ is_close tol (to_sum3 e x y y) 0 -> ~ is_close tol (y / x) 0 ->
  exists w1 w2 w3,
    (approximate tol atol rat e x y = Some (0, 1, w1) /\ approximate tol atol rat x y e = Some (1, w2, 0) /\
     approximate tol atol rat y e x = Some (w3, 0, 1)) /\
    forall w, In w [w1; w2; w3] -> is_close atol w (y / x) \/
      (w = 1 /\ (is_close tol (y / x) 1 \/ is_close tol (to_sum3 e x y x) (to_sum3 e x y y))).
Proof. exact approximate_border. Qed.
Print Assumptions approximate_on_border_partial.

(** A root on a symmetric axis becomes a root exactly on this axis, in all three positions. *)
Theorem approximate_on_axis : forall (K : OrdField) (tol atol : K) (rat : K -> K) (x z : K),
  0 < tol -> tol <= 1 -> 0 < atol -> rat 1 = 1 -> x + x + z <> 0 ->
  ~ is_close tol (to_sum3 x x z x) 0 -> (z = 0 \/ ~ is_close tol (to_sum3 x x z z) 0) ->
  ~ is_close tol (to_sum3 x x z x) (to_sum3 x x z z) -> ~ is_close tol (z / x) 1 ->
  exists w, is_close atol w (z / x) /\
    approximate tol atol rat x x z = Some (1, 1, w) /\
    approximate tol atol rat x z x = Some (1, w, 1) /\
    approximate tol atol rat z x x = Some (w, 1, 1).
Proof.
  intros K tol atol rat x z T0 T1 A0 r1 Hs X Z XZ R1. exists (snap atol rat (z / x)).
  exact (conj (snap_close K atol rat (z / x) A0) (approximate_axis K tol atol rat x z T0 T1 r1 Hs X Z XZ R1)).
Qed.
Print Assumptions approximate_on_axis.

(** The same for a root near an axis and away from the border. *)
Theorem approximate_near_axis : forall (K : OrdField) (tol atol : K) (rat : K -> K) (x x' z : K),
  0 < tol -> tol <= 1 -> 0 < atol -> rat 1 = 1 -> x + x' + z <> 0 ->
  is_close tol (to_sum3 x x' z x) (to_sum3 x x' z x') ->
  ~ is_close tol (to_sum3 x x' z x) 0 -> ~ is_close tol (to_sum3 x x' z x') 0 -> ~ is_close tol (to_sum3 x x' z z) 0 ->
  ~ is_close tol (to_sum3 x x' z x) (to_sum3 x x' z z) -> ~ is_close tol (to_sum3 x x' z x') (to_sum3 x x' z z) ->
  ~ is_close tol (z / x) 1 ->
  exists w, is_close atol w (z / x) /\
    approximate tol atol rat x x' z = Some (1, 1, w) /\
    approximate tol atol rat x' z x = Some (1, w, 1) /\
    approximate tol atol rat z x x' = Some (w, 1, 1).
Proof.
  intros K tol atol rat x x' z T0 T1 A0 r1 Hs XX X X' Z XZ XZ' R1. exists (snap atol rat (z / x)).
  exact (conj (snap_close K atol rat (z / x) A0) (approximate_axis_near K tol atol rat x x' z T0 T1 r1 Hs XX X X' Z XZ XZ' R1)).
Qed.
Print Assumptions approximate_near_axis.

(** ... and without this condition it can leave the border: with the default tolerances (0, 2000, 1) becomes
    (1, 2000, 1), although its rotation (2000, 1, 0) becomes (1, 1/2000, 0). *)
Theorem approximate_border_refuted :
  let tol := q 1 1000 in let atol := q 1 1000000 in let rat := fun x : QcOF => x in
  ~ is_close tol (to_sum3 0 (q 2000 1) (q 1 1) (q 1 1)) (0 : QcOF) /\
  out3 (approximate tol atol rat 0 (q 2000 1) (q 1 1)) = Some (1, 2000 # 1, 1)%Q /\
  out3 (approximate tol atol rat (q 2000 1) (q 1 1) 0) = Some (1, 1 # 2000, 0)%Q.
Proof.
  cbv zeta. split; [|split; vm_compute; reflexivity].
  intros [_ H]. vm_compute in H. discriminate.
Qed.
Print Assumptions approximate_border_refuted.

(** ** The hypotheses can be met *)
Local Notation ap a b c := (out3 (approximate (q 1 1000) (q 1 1000000) (fun x : QcOF => x) a b c)).

Example approximate_centre_example : ap (q 10000 1) (q 10001 1) (q 10002 1) = Some (1, 1, 1)%Q.
Proof. vm_compute. reflexivity. Qed.
Example approximate_corner_example :
  ap (q 10000 1) (q 1 1) (q 0 1) = Some (1, 0, 0)%Q /\ ap (q 1 1) (q 0 1) (q 10000 1) = Some (0, 0, 1)%Q.
Proof. vm_compute. repeat split; reflexivity. Qed.
Example approximate_interior_example : ap (q 1 1) (q 2 1) (q 6 1) = Some (1#3, 2#3, 2)%Q.
Proof. vm_compute. reflexivity. Qed.
Example approximate_border_example :
  ap (q 0 1) (q 2 1) (q 5 1) = Some (0, 1, 5#2)%Q /\ ap (q 1 100000) (q 2 1) (q 5 1) = Some (0, 1, 5#2)%Q /\
  ap (q 2 1) (q 20001 10000) (q 0 1) = Some (1, 1, 0)%Q.
Proof. vm_compute. repeat split; reflexivity. Qed.
Example approximate_axis_example :
  ap (q 2 1) (q 2 1) (q 5 1) = Some (1, 1, 5#2)%Q /\
  ap (q 2 1) (q 5 1) (q 2 1) = Some (1, 5#2, 1)%Q /\
  ap (q 20001 1) (q 20000 1) (q 60003 1) = Some (1, 1, 3)%Q.
Proof. vm_compute. repeat split; reflexivity. Qed.

(** A function that really approximates: integers are kept, values near 1/3 become 1/3. *)
Example approximate_snap_example :
  let rat := fun x : QcOF => if near (q 1 10) x (q 1 3) then q 1 3 else x in
  rat 0 = 0 /\ rat 1 = 1 /\
  out3 (approximate (q 1 1000) (q 1 1000000) rat 0 (q 30000003 1) (q 10000000 1)) = Some (0, 1, 1#3)%Q.
Proof. vm_compute. repeat split; reflexivity. Qed.

Example approximate_hypotheses_met :
  let tol := q 1 1000 in
  ~ is_close tol (to_sum3 0 (q 2 1) (q 5 1) (q 2 1)) (0 : QcOF) /\ ~ is_close tol (to_sum3 0 (q 2 1) (q 5 1) (q 5 1)) (0 : QcOF) /\
  ~ is_close tol (to_sum3 0 (q 2 1) (q 5 1) (q 2 1)) (to_sum3 0 (q 2 1) (q 5 1) (q 5 1) : QcOF) /\
  ~ is_close tol (q 5 1 / q 2 1) (0 : QcOF) /\ ~ is_close tol (q 5 1 / q 2 1) (1 : QcOF).
Proof.
  cbv zeta. repeat split; intros [H1 H2]; vm_compute in H1, H2; discriminate.
Qed.
