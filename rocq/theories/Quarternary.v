(** * Four-variable cubics and quartics (triples/core/structsos/quarternary/) *)
From Coq Require Import Bool List Arith Lia Ring Field.
From Verif Require Import OrdField Base Poly Coeff StructUtils Congruence Expr Sparse SparseSym.
Import ListNotations.

Section Model.
Context {K : OrdField}.
Local Open Scope of_scope.

Let a : ex K := EX 0.
Let b : ex K := EX 1.
Let c : ex K := EX 2.
Let d : ex K := EX 3.
Let n_ (n : nat) : K := fnat n.

(** The 24 rearrangements of (a, b, c, d), as lists of images. *)
Definition perms4 : list (list nat) :=
  flat_map (fun i => flat_map (fun j => flat_map (fun k => flat_map (fun l =>
    if (Nat.eqb i j || Nat.eqb i k || Nat.eqb i l || Nat.eqb j k || Nat.eqb j l || Nat.eqb k l)%bool then []
    else [[i; j; k; l]]) (seq 0 4)) (seq 0 4)) (seq 0 4)) (seq 0 4).
(** [SymSum] (quarternary/utils.py:16-17): the sum over all 24 rearrangements (Cyclic.v models the class). *)
Definition symsum4 (e : ex K) : ex K :=
  fold_right (fun s acc => EAdd (erename (fun i => nth i s i) e) acc) (EC 0) perms4.
Definition rot4 (i : nat) : nat := match i with 0 => 1 | 1 => 2 | 2 => 3 | 3 => 0 | _ => i end%nat.
(** [CycSum] (quarternary/utils.py:19-20): the sum over the four rotations. *)
Definition cyc4 (e : ex K) : ex K :=
  (e + erename rot4 e + erename rot4 (erename rot4 e) + erename rot4 (erename rot4 (erename rot4 e)))%E.

(** [quarternary_cubic_symmetric] (quarternary/cubic.py:8-29) *)
Definition cubic4_symmetric (p : poly K) : option (ex K) :=
  let c3000 := coef p [3;0;0;0]%nat in
  let c2100 := coef p [2;1;0;0]%nat in
  let c1110 := coef p [1;1;1;0]%nat in
  let schur_part x := (EC x * symsum4 (a * (b - c) ^ 2 * (b + c - a) ^ 2)
                       + EC (4 * x) * a * b * c * d * symsum4 a)%E in
  let x := c3000 in let y := c2100 / 2 + c1110 / n_ 6 in let z := c3000 + c2100 in
  if ((0 <=? x) && (0 <=? y) && (0 <=? z))%bool then
    Some (schur_part x / symsum4 (a * b) + EC y * symsum4 (a * b * c)
          + EC (z / 4) * symsum4 (a * (b - c) ^ 2))%E
  else
    let x := c1110 + 3 * c2100 + c3000 in
    let y := - c1110 - 3 * c2100 in
    let z := c1110 / 3 + 2 * c2100 + c3000 in
    if ((0 <=? x) && (0 <=? y) && (0 <=? z))%bool then
      Some ((schur_part x
             + (EC (2 * y / 3) * symsum4 (a * (b - c) ^ 2 * (b + c - a) ^ 2)
                + EC (y / 3) * symsum4 (a * (b - c) ^ 2 * (b + c - d) ^ 2)
                + EC y * symsum4 (a * b * c * (a - b) ^ 2))) / symsum4 (a * b)
            + EC (z / 4) * symsum4 (a * (b - c) ^ 2))%E
    else None.

(** [get_sol1] (quarternary/cubic.py:87-95) *)
Definition get_sol1 (v : K) : ex K :=
  ((EC (4 * v) * csum ((b - c) ^ 2 * (b + c - a) ^ 2) * d
    + EC (3 * v ^ 2) * csum a * csum ((a - b) ^ 2) * d ^ 2
    + EC 2 * csum a * csum (a * b * (EC 2 * c - EC (3 * v) * d) ^ 2)
    + EC (n_ 8 * v) * csum (a * b * (a - b) ^ 2) * d) / (EC (n_ 8) * csum a ^ 2))%E.

(** [get_sol2] (quarternary/cubic.py:98-106) *)
Definition get_sol2 (v : K) : ex K :=
  ((EC v * csum ((b - c) ^ 2 * (b + c - a) ^ 2) * d
    + EC (4 * v ^ 3) * csum ((a - b) ^ 2) * d ^ 3
    + EC (n_ 6 * v) * csum (a * b * (c - EC (2 * v) * d) ^ 2) * d
    + EC (2 * v) * csum (a * b * (a - b) ^ 2) * d
    + EC 2 * cprod a * csum (a - EC (2 * v) * d) ^ 2) / (EC 2 * csum a ^ 2))%E.

(** [get_const] (quarternary/cubic.py:115-118); [None]: the quotient is not finite. *)
Definition get_const (c100 c000 c2 x : K) : option K :=
  if x =? 0 then Some (c000 - 4 * c2 ^ 3)
  else if x =? c2 then Some c000
  else if 3 * x ^ 2 - 4 * c100 =? 0 then None
  else Some (c000 - 4 * x * (3 * c2 * x - 4 * c100) ^ 3 / 3 / (3 * x ^ 2 - 4 * c100) ^ 2).

(** [check_x] (quarternary/cubic.py:120-125) *)
Definition check_x (c100 c000 c2 x : K) : bool :=
  match get_const c100 c000 c2 x with
  | None => false
  | Some r =>
      if x =? 0 then ((c100 =? 0) && (0 <=? r))%bool
      else ((c100 <=? 3 * x ^ 2 / 4) && (0 <=? r))%bool
  end.

(** The choice of x (quarternary/cubic.py:127-142).  [cands] are the numbers tried by
    [rationalize_func] (structsos/utils.py:102-160): the rational roots of
    9x^2 - 12 c2 x + 4 c100 and the perturbed numerical ones, the latter only if the
    quadratic is non-negative there ([direction = 1]); the quotient by c2 = 0 is not finite. *)
Definition choose_x (cands : list K) (c100 c000 c2 : K) : option K :=
  let check := check_x c100 c000 c2 in
  if check 0 then Some 0
  else if (negb (c2 =? 0) && check (4 * c100 / 3 / c2))%bool then Some (4 * c100 / 3 / c2)
  else
    let det := c000 ^ 2 + n_ 6 * c000 * c100 * c2 - 4 * c000 * c2 ^ 3 + 4 * c100 ^ 3 - 3 * c100 ^ 2 * c2 ^ 2 in
    if det <? 0 then None
    else if c2 ^ 2 - c100 <? 0 then None
    else find (fun x => (0 <=? n_ 9 * x ^ 2 - n_ 12 * c2 * x + 4 * c100) && check x)%bool cands.

(** [_quarternary_cubic_partial_symmetric] (quarternary/cubic.py:39-157) *)
Definition cubic4_partial (cands : list K) (p : poly K) : res (option (ex K)) :=
  if negb ((coef p [3;0;0;0]%nat =? 0) && (coef p [2;1;0;0]%nat =? 0)) then Ok None
  else
    let c111 := coef p [1;1;1;0]%nat in
    let c000 := coef p [0;0;0;3]%nat in
    if c111 =? 0 then sos_struct_quadratic 4 p
    else if ((c111 <? 0) || (c000 <? 0))%bool then Ok None
    else
      let c100 := coef p [1;0;0;2]%nat / c111 in
      let c000 := c000 / c111 in
      let c200 := coef p [2;0;0;1]%nat / c111 in
      let c110 := coef p [1;1;0;1]%nat / c111 in
      let c1 := 2 * c200 + c110 in
      let c2 := - c200 - c110 in
      if ((c1 <? 0) || (c2 <? 0))%bool then Ok None
      else
        match choose_x cands c100 c000 c2 with
        | None => Ok None
        | Some x =>
            match get_const c100 c000 c2 x with
            | None => Ok None
            | Some r =>
                if r <? 0 then Ok None
                else
                  let t1 := if x =? 0 then 0 else c100 / (3 * x ^ 2 / 4) in
                  let t2 := 1 - t1 in
                  if ((t1 <? 0) || (t2 <? 0))%bool then Ok None
                  else
                    let y := if t2 =? 0 then 0 else (c2 - x * t1) / t2 in
                    Ok (Some (EC (c111 * t1) * get_sol1 x + EC (c111 * t2) * get_sol2 y
                              + EC (c111 * r) * d ^ 3 + EC (c111 * c1 / 2) * csum ((a - b) ^ 2) * d)%E)
            end
        end.

(** The non-formal result of [quadratic_weighting] with the mapping of quarternary/quartic.py:40-41, 133-134 *)
Definition fluorite_map (x y : K) : ex K :=
  (cyc4 ((EC x * a * b - EC x * b * c - EC x * a * d + EC x * c * d - EC y * a * c + EC y * b * d) ^ 2) / EC 4)%E.
Definition weighting4 (c1 c2 c3 : K) : option (ex K) :=
  match quadratic_weighting c1 c2 c3 with
  | None => None
  | Some r => Some (fold_right (fun w acc => EAdd (EMul (EC (fst w)) (fluorite_map (fst (snd w)) (snd (snd w)))) acc)
                               (EC 0) r)
  end.

(** [Coeff.poly111] (triples/utils/expression/coeff.py:182-186) *)
Definition poly111 (p : poly K) : K := fsum (map snd p).

Definition quartic_head (p : poly K) : bool :=
  existsb (fun m => negb (coef p m =? 0)) [[4;0;0;0]; [3;1;0;0]; [3;0;1;0]; [3;0;0;1]]%nat.

(** [_quarternary_quartic_fluroite] (quarternary/quartic.py:12-50) *)
Definition quartic4_fluorite (p : poly K) : option (ex K) :=
  if quartic_head p then None
  else
    let c2200 := coef p [2;2;0;0]%nat in let c2110 := coef p [2;1;1;0]%nat in
    let c2101 := coef p [2;1;0;1]%nat in let c2020 := coef p [2;0;2;0]%nat in
    let c2011 := coef p [2;0;1;1]%nat in
    let c_sum := (c2011 + c2110) / - n_ 8 in
    let c_abcd := poly111 p / 4 in
    let w1 := c2200 - c_sum in let w2 := c2011 + 4 * c_sum in
    let w3 := c2020 - 4 * c_sum in let w4 := c2101 - 2 * c_sum in
    let c_square := w1 + w4 / 2 in
    let w1 := w1 - c_square in
    match weighting4 w1 w2 w3 with
    | None => None
    | Some e =>
        if ((0 <=? c_sum) && (0 <=? c_square) && (0 <=? c_abcd))%bool then
          Some (e + EC c_sum * cyc4 (a * b - a * c) ^ 2 + EC (c_square / 2) * cyc4 ((a * b - c * d) ^ 2)
                + EC c_abcd * cyc4 (a * b * c * d))%E
        else None
    end.

(** The polynomials in t of [_quarternary_quartic_real] (quarternary/quartic.py:75-102), as functions of t *)
Section Params.
Variables c3100 c3010 c3001 c2200 c2110 c2101 c2020 c2011 : K.
Definition const_denom : K := c2011 + 2*c2020 + c2110 + c3001 - 4*c3010 + c3100 + 4.
Definition const_sum : K := - (c2011 + c2110 + c3001 + c3100) / 4.
Definition const_z : K := - (c2011 - c2110 - c3001 + c3100) / (4 * const_denom).
Definition const_det : K :=
  - (2) * (c2011^2 + c2011*c2020 + 2*c2011*c2101 + 2*c2011*c3100 + 2*c2011 + 4*c2020*c2101 + c2020*c2110
        + c2020*c3001 + 4*c2020*c3010 + c2020*c3100 + 2*c2101*c2110 + 2*c2101*c3001 - n_ 8*c2101*c3010
        + 2*c2101*c3100 + n_ 8*c2101
        + c2110^2 + 2*c2110*c3001 + 2*c2110 + c3001^2 + 2*c3001 - n_ 8*c3010^2 + n_ 8*c3010 + c3100^2 + 2*c3100)
  / const_denom.
Definition c_sq_p0 (t : K) : K :=
  (c2011 + 2*c2101 + c2110 + 4*c2200 - c3001^2 + c3001 + 2*c3010 - c3100^2 + c3100) * t ^ 4
  + (4*c2011 + n_ 8*c2101 + 4*c2110 + n_ 16*c2200 - n_ 6*c3001^2 + 4*c3001 + n_ 8*c3010 - n_ 6*c3100^2 + 4*c3100 + n_ 16) * t ^ 2
  + (3*c2011 + n_ 6*c2101 + 3*c2110 + n_ 12*c2200 - n_ 9*c3001^2 + 3*c3001 + n_ 6*c3010 - n_ 9*c3100^2 + 3*c3100 + n_ 16).
Definition c_sq_p1 (t : K) : K := (- (4)*c3001 + 4*c3100) * t ^ 2 + (- n_ 12*c3001 + n_ 12*c3100).
Definition z_p (t : K) : K := c3010 * const_z * t ^ 2 + (3*c3010 - n_ 8) * const_z.
Definition c_sq_p (t : K) : K := - n_ 8 * z_p t ^ 2 + c_sq_p1 t * z_p t + c_sq_p0 t.
Definition w1_p (t : K) : K :=
  (- c2011/4 - c2101 - c2110/4 - c3001/4 - c3010 - c3100/4) * t ^ 2
  + (- (3)*c2011/4 - 3*c2101 - 3*c2110/4 - 3*c3001/4 - 3*c3010 - 3*c3100/4) - z_p t ^ 2.
Definition w2_p (t : K) : K :=
  (c3010 * t ^ 2 + (3*c3010 - n_ 8)) * z_p t
  + ((c2011 - c2110 - c3001 + c3100) * t ^ 2 + (3*c2011 - 3*c2110 - 3*c3001 + 3*c3100)).
Definition w3_p (t : K) : K :=
  - c3010^2/4 * t ^ 4
  + (c2011 + 2*c2020 + c2110 + c3001 - 3*c3010^2/2 + c3100 + 4) * t ^ 2
  + (3*c2011 + n_ 6*c2020 + 3*c2110 + 3*c3001 - n_ 9*c3010^2/4 + 3*c3100 - 4).
(** the parameters x, y, w of [_get_sol] (quarternary/quartic.py:122-125) *)
Definition sol_w (t : K) : K := c3010*t^2/4 + 3*c3010/4.
Definition sol_x (t : K) : K :=
  (c3001*t^3 + 3*c3001*t + c3100*t^2 + 3*c3100 + t^2*z_p t + 2*t*z_p t - z_p t) / (2*t^2 + 2).
Definition sol_y (t : K) : K :=
  (- c3001*t^2 - 3*c3001 + c3100*t^3 + 3*c3100*t + t^2*z_p t - 2*t*z_p t - z_p t) / (2*t^2 + 2).
End Params.

(** [_get_sol] (quarternary/quartic.py:121-129) with its parameters *)
Definition quartic_sq (t x y z w : K) : ex K :=
  cyc4 ((EC 2 * a ^ 2 + EC x * a * b + EC w * a * c + EC (- y) * a * d + EC (t - 1) * b ^ 2 + EC (y - z) * b * c
         + EC (- w) * b * d + EC (- x + z) * c * d + EC (- t - 1) * d ^ 2) ^ 2)%E.

(** [_quarternary_quartic_real] (quarternary/quartic.py:52-145); [ts] is the arbitrary list
    of sample points produced by [intervals]. *)
Definition quartic4_real (ts : list K) (p : poly K) : option (ex K) :=
  if negb (quartic_head p) then quartic4_fluorite p
  else
    let c4000 := coef p [4;0;0;0]%nat in
    let poly1111 := poly111 p in
    if ((c4000 <=? 0) || (poly1111 <? 0))%bool then None
    else
      let c3100 := coef p [3;1;0;0]%nat / c4000 in let c3010 := coef p [3;0;1;0]%nat / c4000 in
      let c3001 := coef p [3;0;0;1]%nat / c4000 in let c2200 := coef p [2;2;0;0]%nat / c4000 in
      let c2110 := coef p [2;1;1;0]%nat / c4000 in let c2101 := coef p [2;1;0;1]%nat / c4000 in
      let c2020 := coef p [2;0;2;0]%nat / c4000 in let c2011 := coef p [2;0;1;1]%nat / c4000 in
      let denom := const_denom c3100 c3010 c3001 c2110 c2020 c2011 in
      let csum_ := const_sum c3100 c3001 c2110 c2011 in
      if ((denom =? 0) || (csum_ <? 0))%bool then None
      else if const_det c3100 c3010 c3001 c2110 c2101 c2020 c2011 <? 0 then None
      else
        let w3 := w3_p c3100 c3010 c3001 c2110 c2020 c2011 in
        let c_sq := c_sq_p c3100 c3010 c3001 c2200 c2110 c2101 c2020 c2011 in
        match find (fun t => (0 <=? w3 t) && (0 <=? c_sq t))%bool ts with
        | None => None
        | Some t =>
            let z := z_p c3100 c3010 c3001 c2110 c2020 c2011 t in
            let c_sum := (t ^ 2 + 3) * csum_ in
            let c_square := c_sq t / (2 * (t ^ 2 + 1)) in
            match weighting4 (w1_p c3100 c3010 c3001 c2110 c2101 c2020 c2011 t)
                             (w2_p c3100 c3010 c3001 c2110 c2020 c2011 t) (w3 t) with
            | None => None
            | Some e =>
                if ((c_sum <? 0) || (c_square <? 0))%bool then None
                else
                  let mul := c4000 / (2 * t ^ 2 + n_ 6) in
                  Some (EC mul * quartic_sq t (sol_x c3100 c3010 c3001 c2110 c2020 c2011 t)
                                              (sol_y c3100 c3010 c3001 c2110 c2020 c2011 t) z (sol_w c3010 t)
                        + EC mul * e + EC (mul * c_sum) * cyc4 (a * b - a * c) ^ 2
                        + EC (mul * c_square / 2) * cyc4 ((a * b - c * d) ^ 2)
                        + EC (poly1111 / 4) * cyc4 (a * b * c * d))%E
            end
        end.

(** The generators of [SymmetricGroup(4)], [CyclicGroup(4)] and of the group of solver.py:100
    (sympy's [perm(k)] is [act perm k]). *)
Definition gens_sym : list (list nat) := [[1;2;3;0]; [1;0;2;3]]%nat.
Definition gens_cyc : list (list nat) := [[1;2;3;0]]%nat.
Definition gens_abc : list (list nat) := [[1;2;0;3]]%nat.

(** The search for a solution in [structural_sos_4vars] (quarternary/solver.py:82-110) with the
    three functions it calls (quarternary/solver.py:28-78).  [cands] and [ts] are what the
    numerical routines propose for each polynomial.  The solvers never raise the two errors that
    are caught there, and the later marking of the symbols is modelled in Extract.v. *)
Definition solve4 (cands ts : poly K -> list K) (p : poly K) : outcome (ex K) :=
  let quartic : solver := fun q _ => Returns (quartic4_real (ts q) q) in
  let cubic : solver := fun q _ => Returns (cubic4_symmetric q) in
  let partial : solver := fun q _ => match cubic4_partial (cands q) q with Ok r => Returns r | Err e => Raises e end in
  if is_cyclic 4 gens_sym p then
    sos_struct_common 4 p [Some (degree_specified_solver 4 [(3%nat, cubic); (4%nat, quartic)] true)] true
  else if is_cyclic 4 gens_cyc p then
    sos_struct_common 4 p [Some (degree_specified_solver 4 [(4%nat, quartic)] true)] true
  else if is_cyclic 4 gens_abc p then
    sos_struct_common 4 p [Some (degree_specified_solver 4 [(3%nat, partial)] true)] true
  else Returns None.
End Model.

(** ** Lemmas *)
Section Lemmas.
Variable K : OrdField.
Local Open Scope of_scope.
Add Field Kf : (F_field K).

(** All exponent vectors of four variables and degree [n] *)
Definition monos4 (n : nat) : list (list nat) :=
  flat_map (fun i => flat_map (fun j => map (fun k => [i; j; k; n - i - j - k]%nat) (seq 0 (S (n - i - j))))
                              (seq 0 (S (n - i)))) (seq 0 (S n)).

(** invariance under all rearrangements, under the rotation, and under the rotation of a, b, c *)
Definition sym4 (p : poly K) : Prop :=
  forall i j k l, coef p [i;j;k;l] = coef p [j;i;k;l] /\ coef p [i;j;k;l] = coef p [j;k;l;i].
Definition cyclic4 (p : poly K) : Prop := forall i j k l, coef p [i;j;k;l] = coef p [j;k;l;i].
Definition cyclic3_1 (p : poly K) : Prop := forall i j k l, coef p [i;j;k;l] = coef p [j;k;i;l].

Lemma monos4_in n m : length m = 4%nat -> list_sum m = n -> In m (monos4 n).
Proof.
  destruct m as [|i [|j [|k [|l [|]]]]]; cbn [length]; intro H; try discriminate. clear H.
  unfold list_sum. cbn [fold_right]. intros <-. unfold monos4.
  apply in_flat_map. exists i. split; [apply in_seq; lia|].
  apply in_flat_map. exists j. split; [apply in_seq; lia|].
  apply in_map_iff. exists k. split; [|apply in_seq; lia]. do 3 f_equal. f_equal. lia.
Qed.

Lemma peval4 n p x : wf 4 p -> homog K n p -> NoDup (monos4 n) ->
  peval x p = fsum (map (fun m => coef p m * meval x m) (monos4 n)).
Proof.
  intros [Hnd Hlen] Hh HL. apply peval_over; auto.
  intros m Hm. apply monos4_in; auto.
Qed.

Lemma monos4_3 : NoDup (monos4 3).
Proof. cbn. repeat (constructor; [cbn; intuition discriminate|]). constructor. Qed.
Lemma monos4_4 : NoDup (monos4 4).
Proof. cbn. repeat (constructor; [cbn; intuition discriminate|]). constructor. Qed.

Ltac monos n p := 
  let l := eval vm_compute in (monos4 n) in change (monos4 n) with l;
  unfold meval; cbn [map fsum fprod fold_right seq combine length nth fpow].

(** The value of a cubic and a quartic with the symmetries considered *)
Lemma sym4_value p x : wf 4 p -> homog K 3 p -> sym4 p ->
  let A := x 0%nat in let B := x 1%nat in let C := x 2%nat in let D := x 3%nat in
  peval x p = coef p [3;0;0;0]%nat * (A^3 + B^3 + C^3 + D^3)
    + coef p [2;1;0;0]%nat * (A^2*(B+C+D) + B^2*(A+C+D) + C^2*(A+B+D) + D^2*(A+B+C))
    + coef p [1;1;1;0]%nat * (A*B*C + A*B*D + A*C*D + B*C*D).
Proof.
  intros Hw Hh Hs A B C D. rewrite (peval4 3 p x Hw Hh monos4_3).
  assert (S0 : forall i j k l, coef p [i;j;k;l] = coef p [j;i;k;l]) by (intros; apply Hs).
  assert (R : forall i j k l, coef p [i;j;k;l] = coef p [j;k;l;i]) by (intros; apply Hs).
  assert (S1 : forall i j k l, coef p [i;j;k;l] = coef p [i;k;j;l]).
  { intros. rewrite (R i j k l), (S0 j k l i), (R k j l i), (R j l i k), (R l i k j). reflexivity. }
  assert (S2 : forall i j k l, coef p [i;j;k;l] = coef p [i;j;l;k]).
  { intros. rewrite (R i j k l), (S1 j k l i), (R j l k i), (R l k i j), (R k i j l). reflexivity. }
  monos 3%nat p. rewrite ?(S2 0 0 0 3)%nat, ?(S1 0 0 3 0)%nat, ?(S0 0 3 0 0)%nat, ?(S1 0 0 1 2)%nat, ?(S2 0 1 0 2)%nat, ?(S0 0 1 2 0)%nat, ?(S1 1 0 2 0)%nat, ?(S0 1 2 0 0)%nat, ?(S1 0 0 2 1)%nat, ?(S2 0 2 0 1)%nat, ?(S0 0 2 1 0)%nat, ?(S1 2 0 1 0)%nat, ?(S1 0 0 3 0)%nat, ?(S0 0 3 0 0)%nat, ?(S0 0 1 0 2)%nat, ?(S2 1 0 0 2)%nat, ?(S1 1 0 2 0)%nat, ?(S0 1 2 0 0)%nat, ?(S0 0 1 1 1)%nat, ?(S1 1 0 1 1)%nat, ?(S2 1 1 0 1)%nat, ?(S0 0 1 2 0)%nat, ?(S1 1 0 2 0)%nat, ?(S0 1 2 0 0)%nat, ?(S0 0 2 0 1)%nat, ?(S2 2 0 0 1)%nat, ?(S1 2 0 1 0)%nat, ?(S0 0 2 1 0)%nat, ?(S1 2 0 1 0)%nat, ?(S0 0 3 0 0)%nat, ?(S2 1 0 0 2)%nat, ?(S1 1 0 2 0)%nat, ?(S0 1 2 0 0)%nat, ?(S1 1 0 1 1)%nat, ?(S2 1 1 0 1)%nat, ?(S1 1 0 2 0)%nat, ?(S0 1 2 0 0)%nat, ?(S2 1 1 0 1)%nat, ?(S0 1 2 0 0)%nat, ?(S2 2 0 0 1)%nat, ?(S1 2 0 1 0)%nat, ?(S1 2 0 1 0)%nat.
  fold A B C D. ring.
Qed.

Lemma cyc3_value p x : wf 4 p -> homog K 3 p -> cyclic3_1 p ->
  let A := x 0%nat in let B := x 1%nat in let C := x 2%nat in let D := x 3%nat in
  peval x p = coef p [3;0;0;0]%nat * (A^3 + B^3 + C^3)
    + coef p [2;1;0;0]%nat * (A^2*B + B^2*C + C^2*A) + coef p [2;0;1;0]%nat * (A^2*C + B^2*A + C^2*B)
    + coef p [1;1;1;0]%nat * (A*B*C)
    + D * (coef p [2;0;0;1]%nat * (A^2 + B^2 + C^2) + coef p [1;1;0;1]%nat * (A*B + B*C + C*A))
    + D^2 * coef p [1;0;0;2]%nat * (A + B + C) + coef p [0;0;0;3]%nat * D^3.
Proof.
  intros Hw Hh H A B C D. rewrite (peval4 3 p x Hw Hh monos4_3).
  monos 3%nat p. rewrite ?(H 0 0 1 2)%nat, ?(H 0 1 0 2)%nat, ?(H 0 0 2 1)%nat, ?(H 0 2 0 1)%nat, ?(H 0 0 3 0)%nat, ?(H 0 3 0 0)%nat, ?(H 0 1 0 2)%nat, ?(H 0 1 1 1)%nat, ?(H 0 1 2 0)%nat, ?(H 1 2 0 0)%nat, ?(H 0 2 0 1)%nat, ?(H 0 2 1 0)%nat, ?(H 0 3 0 0)%nat, ?(H 1 0 1 1)%nat, ?(H 0 1 1 1)%nat, ?(H 1 0 2 0)%nat, ?(H 0 2 1 0)%nat, ?(H 1 2 0 0)%nat.
  fold A B C D. ring.
Qed.

Lemma cyc4_value p x : wf 4 p -> homog K 4 p -> cyclic4 p ->
  let A := x 0%nat in let B := x 1%nat in let C := x 2%nat in let D := x 3%nat in
  peval x p = coef p [4;0;0;0]%nat * (A^4 + B^4 + C^4 + D^4)
    + coef p [3;1;0;0]%nat * (A^3*B + B^3*C + C^3*D + D^3*A)
    + coef p [3;0;1;0]%nat * (A^3*C + B^3*D + C^3*A + D^3*B)
    + coef p [3;0;0;1]%nat * (A^3*D + B^3*A + C^3*B + D^3*C)
    + coef p [2;2;0;0]%nat * (A^2*B^2 + B^2*C^2 + C^2*D^2 + D^2*A^2)
    + coef p [2;1;1;0]%nat * (A^2*B*C + B^2*C*D + C^2*D*A + D^2*A*B)
    + coef p [2;1;0;1]%nat * (A^2*B*D + B^2*C*A + C^2*D*B + D^2*A*C)
    + coef p [2;0;2;0]%nat * (A^2*C^2 + B^2*D^2)
    + coef p [2;0;1;1]%nat * (A^2*C*D + B^2*D*A + C^2*A*B + D^2*B*C)
    + coef p [1;1;1;1]%nat * (A*B*C*D).
Proof.
  intros Hw Hh H A B C D. rewrite (peval4 4 p x Hw Hh monos4_4).
  monos 4%nat p. rewrite ?(H 0 0 0 4)%nat, ?(H 0 0 4 0)%nat, ?(H 0 4 0 0)%nat, ?(H 0 0 1 3)%nat, ?(H 0 1 3 0)%nat, ?(H 1 3 0 0)%nat, ?(H 0 0 2 2)%nat, ?(H 0 2 2 0)%nat, ?(H 0 0 3 1)%nat, ?(H 0 3 1 0)%nat, ?(H 0 0 4 0)%nat, ?(H 0 4 0 0)%nat, ?(H 0 1 0 3)%nat, ?(H 1 0 3 0)%nat, ?(H 0 3 0 1)%nat, ?(H 0 1 1 2)%nat, ?(H 1 1 2 0)%nat, ?(H 1 2 0 1)%nat, ?(H 0 1 2 1)%nat, ?(H 1 2 1 0)%nat, ?(H 0 1 3 0)%nat, ?(H 1 3 0 0)%nat, ?(H 0 2 0 2)%nat, ?(H 0 2 1 1)%nat, ?(H 0 2 2 0)%nat, ?(H 0 3 0 1)%nat, ?(H 0 3 1 0)%nat, ?(H 0 4 0 0)%nat, ?(H 1 0 0 3)%nat, ?(H 0 0 3 1)%nat, ?(H 0 3 1 0)%nat, ?(H 1 0 1 2)%nat, ?(H 0 1 2 1)%nat, ?(H 1 2 1 0)%nat, ?(H 1 0 2 1)%nat, ?(H 0 2 1 1)%nat, ?(H 1 0 3 0)%nat, ?(H 0 3 0 1)%nat, ?(H 1 1 0 2)%nat, ?(H 1 0 2 1)%nat, ?(H 0 2 1 1)%nat, ?(H 1 1 2 0)%nat, ?(H 1 2 0 1)%nat, ?(H 1 2 0 1)%nat, ?(H 1 2 1 0)%nat, ?(H 1 3 0 0)%nat, ?(H 2 0 0 2)%nat, ?(H 0 0 2 2)%nat, ?(H 0 2 2 0)%nat.
  fold A B C D. ring.
Qed.

(** *** Symmetric cubics *)
Lemma ev_symsum4 x (e : ex K) : ev x (symsum4 e) = fsum (map (fun s => ev (fun i => x (nth i s i)) e) perms4).
Proof.
  unfold symsum4. induction perms4 as [|s l IH]; [reflexivity|]. cbn [fold_right map fsum ev].
  rewrite IH, ev_rename. reflexivity.
Qed.
Lemma manifest_symsum4 pos (e : ex K) : manifest pos e = true -> manifest pos (symsum4 e) = true.
Proof.
  intro H. unfold symsum4. induction perms4 as [|s l IH]; cbn [fold_right manifest].
  - apply fleb_le, fle_refl.
  - rewrite manifest_rename, H, IH. reflexivity.
Qed.
Lemma defined_symsum4 x (e : ex K) : (forall x, defined x e) -> defined x (symsum4 e).
Proof.
  intro H. unfold symsum4. induction perms4 as [|s l IH]; cbn [fold_right defined]; [exact I|].
  split; [|exact IH]. clear - H.
  assert (G : forall y, (defined y (erename (fun i => nth i s i) e)) <-> defined (fun i => y (nth i s i)) e).
  { clear. intro y. induction e; cbn; rewrite ?ev_rename; tauto. }
  apply G, H.
Qed.

Ltac expand_sym := rewrite !ev_symsum4;
  let l := eval vm_compute in perms4 in change perms4 with l; cbn [map fsum ev nth fpow].

Section SymSums.
Variable x : nat -> K.
Let A := x 0%nat. Let B := x 1%nat. Let C := x 2%nat. Let D := x 3%nat.
Let a : ex K := EX 0. Let b : ex K := EX 1. Let c : ex K := EX 2. Let d : ex K := EX 3.

Lemma ss_a : ev x (symsum4 a) = fnat 6 * (A + B + C + D).
Proof. unfold a. expand_sym. fold A B C D. cbn. ring. Qed.
Lemma ss_ab : ev x (symsum4 (a * b)%E) = 4 * (A*B + A*C + A*D + B*C + B*D + C*D).
Proof. unfold a, b. expand_sym. fold A B C D. ring. Qed.
Lemma ss_abc : ev x (symsum4 (a * b * c)%E) = fnat 6 * (A*B*C + A*B*D + A*C*D + B*C*D).
Proof. unfold a, b, c. expand_sym. fold A B C D. cbn. ring. Qed.
Lemma ss_a_bc2 : ev x (symsum4 (a * (b - c) ^ 2)%E) =
  4 * (A*(B^2+C^2+D^2) + B*(A^2+C^2+D^2) + C*(A^2+B^2+D^2) + D*(A^2+B^2+C^2))
  - fnat 12 * (A*B*C + A*B*D + A*C*D + B*C*D).
Proof. unfold a, b, c. expand_sym. fold A B C D. cbn. ring. Qed.
End SymSums.

Lemma cubic4_symmetric_exact p e x : wf 4 p -> homog K 3 p -> sym4 p ->
  cubic4_symmetric p = Some e -> defined x e -> ev x e = peval x p.
Proof.
  intros Hw Hh Hs He Hd. rewrite (sym4_value p x Hw Hh Hs). unfold cubic4_symmetric in He.
  set (c3 := coef p [3;0;0;0]%nat) in *. set (c2 := coef p [2;1;0;0]%nat) in *. set (c1 := coef p [1;1;1;0]%nat) in *.
  clearbody c3 c2 c1. clear Hw Hh Hs p.
  destruct (_ && _)%bool in He.
  - injection He as <-. cbn [ev defined] in Hd. assert (Hn : ev x (symsum4 (EX 0 * EX 1))%E <> 0) by tauto. clear Hd.
    rewrite ss_ab in Hn. cbn [ev]. rewrite ss_ab, ss_a, ss_abc, ss_a_bc2.
    expand_sym.
    generalize dependent (x 0%nat). intro A. generalize dependent (x 1%nat). intro B.
    generalize dependent (x 2%nat). intro C. generalize dependent (x 3%nat). intro D. intro Hn.
    cbn [fnat]. field. repeat split; try fnz. intro E; apply Hn; rewrite E; ring.
  - destruct (_ && _)%bool in He; [|discriminate].
    injection He as <-. cbn [ev defined] in Hd. assert (Hn : ev x (symsum4 (EX 0 * EX 1))%E <> 0) by tauto. clear Hd.
    rewrite ss_ab in Hn. cbn [ev]. rewrite ss_ab, ss_a, ss_a_bc2.
    expand_sym.
    generalize dependent (x 0%nat). intro A. generalize dependent (x 1%nat). intro B.
    generalize dependent (x 2%nat). intro C. generalize dependent (x 3%nat). intro D. intro Hn.
    cbn [fnat]. field. repeat split; try fnz. intro E; apply Hn; rewrite E; ring.
Qed.

Lemma fleb_T (u : K) : 0 <= u -> (0 <=? u) = true.
Proof. intro H. apply fleb_le. exact H. Qed.

Ltac man := repeat (rewrite ?andb_true_iff; split); try reflexivity;
  try (apply manifest_symsum4; reflexivity).

Lemma cubic4_symmetric_manifest (p : poly K) (e : ex K) : cubic4_symmetric p = Some (e : ex K) -> manifest true e = true.
Proof.
  unfold cubic4_symmetric. intro He.
  destruct (_ && _)%bool eqn:Ec in He.
  - rewrite !andb_true_iff in Ec. destruct Ec as [[H1 H2] H3].
    apply fleb_le in H1. apply fleb_le in H2. apply fleb_le in H3.
    injection He as <-. cbn [manifest]. man; apply fleb_T; first [exact H1 | exact H2 | exact H3 | fpos].
  - clear Ec. destruct (_ && _)%bool eqn:Ec in He; [|discriminate].
    rewrite !andb_true_iff in Ec. destruct Ec as [[H1 H2] H3].
    apply fleb_le in H1. apply fleb_le in H2. apply fleb_le in H3.
    injection He as <-. cbn [manifest]. man; apply fleb_T; first [exact H1 | exact H2 | exact H3 | fpos].
Qed.

Lemma cubic4_symmetric_defined (p : poly K) e x : cubic4_symmetric p = Some e ->
  (forall i, (i < 4)%nat -> 0 < x i) -> defined x e.
Proof.
  intros He Hx.
  assert (Hn : ev x (symsum4 (EX 0 * EX 1))%E <> 0).
  { rewrite ss_ab. apply fmul_neq0; [fnz|].
    pose proof (Hx 0%nat ltac:(lia)). pose proof (Hx 1%nat ltac:(lia)).
    pose proof (Hx 2%nat ltac:(lia)). pose proof (Hx 3%nat ltac:(lia)).
    apply flt_neq0. fpos. }
  unfold cubic4_symmetric in He. cbv zeta in He.
  destruct (_ && _)%bool in He; [|destruct (_ && _)%bool in He; [|discriminate]];
    injection He as <-; cbn [defined]; repeat split; auto; apply defined_symsum4; intro; cbn; tauto.
Qed.

(** *** Cubics symmetric in a, b, c *)
Section Sols.
Variable x : nat -> K.
Let A := x 0%nat. Let B := x 1%nat. Let C := x 2%nat. Let D := x 3%nat.
Let Q := A^2 + B^2 + C^2 - 2 * (A*B + B*C + C*A).

Lemma sol1_value v : A + B + C <> 0 ->
  ev x (get_sol1 v) = 3 * v^2 / 4 * (A + B + C) * D^2 + v * Q * D + A * B * C.
Proof.
  intro Hn. unfold get_sol1, csum, rot3. cbn [ev erename]. fold A B C D. unfold Q. cbn [fpow fnat].
  field. repeat split; try fnz. 
Qed.
Lemma sol2_value v : A + B + C <> 0 ->
  ev x (get_sol2 v) = 4 * v^3 * D^3 + v * Q * D + A * B * C.
Proof.
  intro Hn. unfold get_sol2, csum, cprod, rot3. cbn [ev erename]. fold A B C D. unfold Q. cbn [fpow fnat].
  field. repeat split; try fnz. 
Qed.
End Sols.
End Lemmas.
