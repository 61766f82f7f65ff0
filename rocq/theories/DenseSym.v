(** * Dense symmetric ternary forms (triples/core/structsos/ternary/dense_symmetric.py) *)
From Coq Require Import Bool List Arith Lia ZArith.
From Verif Require Import OrdField Base Perm Poly PolyId PolyOps Coeff Expr TriPoly Monomials Univariate.
From Verif Require Acute Sparse TernaryTables.
Import ListNotations.

Section Model.
Context {K : OrdField}.
Local Open Scope of_scope.

Let a : ex K := EX 0.
Let b : ex K := EX 1.
Let c : ex K := EX 2.

(** [_sos_struct_trivial_additive] (dense_symmetric.py:43-61). [Coeff] is the dictionary of the
    terms; [coeff(m)] is 0 for an absent key. *)
Definition emono3 (v : K) (i j k : nat) : ex K := (EC v * a ^ i * b ^ j * c ^ k)%E.
Definition dominant (m : list nat) : bool :=
  match m with
  | [i; j; k] => (Nat.ltb j i && Nat.ltb k i) || (Nat.eqb i j && Nat.ltb k i)
  | _ => false
  end.
Definition dominant_terms (p : poly K) : list (ex K) :=
  map (fun t => emono3 (snd t) (nth 0 (fst t) 0%nat) (nth 1 (fst t) 0%nat) (nth 2 (fst t) 0%nat))
      (filter (fun t => dominant (fst t)) p).
Definition trivial_additive (p : poly K) : option (ex K) :=
  if existsb (fun t => snd t <? 0) p then None
  else
    let d := coeff_degree p in
    let center :=
      if Nat.eqb (d mod 3) 0 then
        let v := coef p [d / 3; d / 3; d / 3]%nat in
        if v =? 0 then [] else [emono3 (v / 3) (d / 3) (d / 3) (d / 3)]
      else [] in
    Some (csum (Sparse.esum (dominant_terms p ++ center))).

(** [sym_axis] (dense_symmetric.py:66-72): the coefficients of f(a,1,1) in ascending order;
    [radsimp] does not change them. The out-of-range index of an inhomogeneous polynomial is not
    modelled (such terms are dropped). *)
Definition axis (d : nat) (p : poly K) : list K :=
  map (fun i => fsum (map snd (filter (fun t => Nat.eqb (nth 0 (fst t) 0%nat) i) p))) (seq 0 (S d)).

(** Division of a univariate polynomial by a - 1: quotient and remainder. *)
Fixpoint syn1 (f : list K) : list K * K :=
  match f with
  | [] => ([], 0)
  | [k] => ([], k)
  | k :: f' => let (q, r) := syn1 f' in (r :: q, r + k)
  end.
(** [sym.div(Poly([1,-2,1], a))] (dense_symmetric.py:133): f = (a-1)^2 q + (u a + v), by two
    divisions by a - 1 *)
Definition div_sq1 (f : list K) : list K * (K * K) :=
  let (q1, r0) := syn1 f in
  let (q2, r1) := syn1 q1 in
  (q2, (r1, r0 - r1)).
(** [sym.div(Poly([1,-4,6,-4,1], a))] (dense_symmetric.py:290): the quotient when the remainder
    is zero *)
Definition div_fourth1 (f : list K) : option (list K) :=
  match div_sq1 f with
  | (q, (u, v)) =>
      if ((u =? 0) && (v =? 0))%bool then
        match div_sq1 q with
        | (q', (u', v')) => if ((u' =? 0) && (v' =? 0))%bool then Some q' else None
        end
      else None
  end.

(** [_homogenize_sym_axis] (dense_symmetric.py:74-86), for a polynomial of degree at most [d] *)
Definition hom_term (d : nat) (t : nat * K) : list (ex K) :=
  let (m, v) := t in
  let k := ((d - m) / 2)%nat in
  if v =? 0 then []
  else if Nat.even (d - m) then [emono3 v m k k]
  else [emono3 (v / 2) m (k + 1) k; emono3 (v / 2) m k (k + 1)].
Definition hom_axis (d : nat) (f : list K) : ex K :=
  Sparse.esum (flat_map (hom_term d) (combine (seq 0 (length f)) f)).

(** [_homogenize_sym_proof] (dense_symmetric.py:88-107) on the two parts (multipliers 1 and a)
    returned by [prove_univariate]. A coefficient 0 makes the term 0. A zero polynomial has no
    degree ([-oo] in sympy): an error. *)
Fixpoint proof_terms (d ld : nat) (w : list (K * list K)) : res (list (ex K)) :=
  match w with
  | [] => Ok []
  | (k, v) :: w' =>
      match proof_terms d ld w' with
      | Err x => Err x
      | Ok l =>
          if k =? 0 then Ok l
          else match udeg v with
               | None => Err OtherError
               | Some n =>
                   let rd := ((d - ld - 2 * n) / 2)%nat in
                   Ok ((EC k * (hom_axis n v) ^ 2 * b ^ rd * c ^ rd)%E :: l)
               end
      end
  end.
Definition hom_part (d ld : nat) (leading : ex K) (w : list (K * list K)) : res (ex K) :=
  match proof_terms d ld w with
  | Err x => Err x
  | Ok l =>
      let s := Sparse.esum l in
      Ok (if Nat.even (d - ld) then (s * leading)%E else (EC (1 / 2) * (s * leading * (b + c)))%E)
  end.
Definition hom_proof (d : nat) (pq : wsos K * wsos K) : res (ex K) :=
  match hom_part d 0 (EC 1) (fst pq), hom_part d 1 a (snd pq) with
  | Ok x, Ok y => Ok (x + y)%E
  | Err x, _ | _, Err x => Err x
  end.

(** [sos_struct_handle_uncentered] (ternary/utils.py:102-142) on a [Coeff]. *)
Definition sub_key (w : K) (k : list nat) (p : poly K) : res (poly K) :=
  match dget p k with Some v => Ok (dset p k (v - w)) | None => Err KeyError end.
Definition center_list (d : nat) : list nat :=
  match TernaryTables.center_key d with (i, j, k) => [i; j; k] end.
Definition rot_list (m : list nat) : list nat := match m with [i; j; k] => [j; k; i] | _ => m end.
Definition center_input (p : poly K) : res (poly K) :=
  let w := Acute.poly111 p / 3 in
  let k1 := center_list (total_degree p) in
  let k2 := rot_list k1 in
  let k3 := rot_list k2 in
  let p0 := match dget p k1 with
            | Some _ => p
            | None => dset (dset (dset p k1 0) k2 0) k3 0
            end in
  match sub_key w k1 p0 with
  | Err x => Err x
  | Ok p1 => match sub_key w k2 p1 with
             | Err x => Err x
             | Ok p2 => sub_key w k3 p2
             end
  end.
Definition centered (solver : poly K -> res (option (ex K))) (p : poly K) : res (option (ex K)) :=
  let bias := Acute.poly111 p in
  if bias <? 0 then Ok None
  else
    match center_input p with
    | Err x => Err x
    | Ok p' =>
        match solver p' with
        | Ok (Some s) =>
            let d := total_degree p in
            match TernaryTables.center_key d with
            | (i, j, k) =>
                Ok (Some (if Nat.eqb (d mod 3) 0 then s + EC bias * cprod (a ^ i)
                          else s + EC (bias / 3) * csum (a ^ i * b ^ j * c ^ k))%E)
            end
        | r => r
        end
    end.

(** External parts: [prove_univariate] (Univariate.v), [_structural_sos_3vars_cyclic] of the
    forms of degree less than 8, the quotient of [Poly.div] by (a-b)^2 (b-c)^2 (c-a)^2, and the
    integer part of a number. *)
Variable uni : list K -> res (option (wsos K * wsos K)).
Variable ternary : poly K -> res (option (ex K)).
Variable pdiv : poly K -> poly K.
Variable ffloor : K -> Z.

Definition sqprod : ex K := cprod ((a - b) ^ 2)%E.
Definition tail : ex K := ((a - b) ^ 2 * (a - c) ^ 2)%E.
Definition lift_mul : ex K := (EC (1 / 2) * csum ((a - b) ^ 2))%E.

(** the sign tests shared by the two methods (dense_symmetric.py:136, 295) *)
Definition bad_signs (f : list K) : bool := ((ulc f <? 0) || (ueval f 0 <? 0) || (ueval f 1 <? 0))%bool.

(** [_sos_struct_lift_for_six] without its decorator (dense_symmetric.py:111-174); [rec] is
    [_sos_struct_dense_symmetric]. The remainder of the division is not looked at. *)
Definition lifted (d : nat) (f : list K) : res (option (ex K)) :=
  if all_nonneg f then Ok (Some (hom_axis d f))
  else match uni f with
       | Ok (Some pq) => match hom_proof d pq with Ok l => Ok (Some l) | Err x => Err x end
       | Ok None => Ok None
       | Err x => Err x
       end.
Definition lift_for_six (rec : poly K -> res (option (ex K))) (p : poly K) : res (option (ex K)) :=
  let d := coeff_degree p in
  if Nat.ltb d 8 then Ok None
  else
    match div_sq1 (axis d p) with
    | (f, (u, v)) =>
        if negb ((u =? 0) && (v =? 0)) then Ok None
        else if bad_signs f then Ok None
        else
          match lifted (d - 2) f with
          | Ok (Some l) =>
              let s1 := csum (l * tail) in
              let diff := pdiv (padd (pmul p (expand lift_mul)) (pneg (expand s1))) in
              match rec diff with
              | Ok (Some s) => Ok (Some ((s1 + sqprod * s) / lift_mul)%E)
              | r => r
              end
          | r => r
          end
    end.

(** [_sos_struct_liftfree_for_six_ord4] (dense_symmetric.py:277-308) *)
Definition liftfree_ord4 (rec : poly K -> res (option (ex K))) (p : poly K) (div2 : option (list K)) : res (option (ex K)) :=
  let d := coeff_degree p in
  match (match div2 with Some f => Some f | None => div_fourth1 (axis d p) end) with
  | None => Ok None
  | Some f =>
      if bad_signs f then Ok None
      else if all_nonneg f then
        let l := hom_axis (d - 4) f in
        let s1 := csum (l * tail) in
        match rec (pdiv (padd p (pneg (expand s1)))) with
        | Ok (Some s) => Ok (Some (s1 + sqprod * s)%E)
        | r => r
        end
      else Ok None
  end.

(** [_subtractor1], [_subtractor2] (dense_symmetric.py:234-259); [_subtractor1] falls through to
    [None] when n - m is odd and m = 0 *)
Definition subtractor1 (n m : nat) : option (ex K) :=
  if Nat.leb m n then
    if Nat.even (n - m) then Some (EC (1 / 2) * (cprod (a ^ m) * csum ((b + c - a) ^ (n - m) * (b - c) ^ 2)))%E
    else if (Nat.eqb n (m + 1) && Nat.leb 1 m)%bool then
      Some (EC (1 / fnat 6) * (cprod (a ^ (m - 1)) * csum (a ^ 2 * (a * b + a * c - b ^ 2 - c ^ 2) ^ 2)))%E
    else if Nat.leb 1 m then
      Some (EC (1 / 2) * (cprod (a ^ (m - 1)) * csum (a ^ 2 * (b - c) ^ 2 * (b + c - a) ^ (n - m + 1))))%E
    else None
  else Some (EC (1 / 2) * (cprod (a ^ n) * csum (a ^ (2 * (m - n)) * (b - c) ^ 2)))%E.
Definition subtractor2 (n m : nat) : ex K :=
  if Nat.leb m n then
    if Nat.even (n - m) then (EC (1 / 2) * (cprod (a ^ m) * csum (a * (b + c - a) ^ (n - m) * (b - c) ^ 2)))%E
    else (EC (1 / 2) * (cprod (a ^ m) * csum (b * c * (b - c) ^ 2 * (b + c - a) ^ (n - m - 1))))%E
  else (EC (1 / 2) * (cprod (a ^ n) * csum (a ^ (2 * (m - n) + 1) * (b - c) ^ 2)))%E.

(** [sos_struct_liftfree_for_six] without its decorator (dense_symmetric.py:178-274) *)
Definition choose_n (d : nat) (u v : K) : Z :=
  let expected := ((d + 1) / 3 - 1)%nat in
  let x := fnat expected * (u + v) in
  if ((- v <=? x) && (x <=? u))%bool then Z.of_nat expected
  else if u <? x then ffloor (u / (u + v))
  else (ffloor ((- v - 1) / (u + v)) + 1)%Z.
Definition subtractor (d n : nat) (u2 v2 : K) : res (option (ex K)) :=
  let m := ((d - n - 3) / 2)%nat in
  let mix x1 x2 := match x1 with
                   | Some e1 => Ok (Some (x2 e1))
                   | None => Err TypeError
                   end in
  if Nat.even (d - n - 3) then
    if (Nat.leb m n && Nat.eqb m 0)%bool then Ok None
    else mix (subtractor1 (n + 1) m) (fun e1 => (EC u2 * e1 + EC v2 * subtractor2 n m)%E)
  else mix (subtractor1 n (m + 1)) (fun e1 => (EC u2 * subtractor2 (n + 1) m + EC v2 * e1)%E).
Definition liftfree_for_six (rec : poly K -> res (option (ex K))) (p : poly K) : res (option (ex K)) :=
  let d := coeff_degree p in
  if Nat.ltb d 6 then Ok None
  else
    match div_sq1 (axis d p) with
    | (f, (u0, v0)) =>
        if negb ((u0 =? 0) && (v0 =? 0)) then Ok None
        else
          match div_sq1 f with
          | (g, (u, v)) =>
              if ((u =? 0) && (v =? 0))%bool then liftfree_ord4 rec p (Some g)
              else if ((u + v <=? 0) || (u <? 0))%bool then Ok None
              else
                let n := choose_n d u v in
                if negb ((n <=? Z.of_nat (d - 3)) && (0 <=? n))%Z then Ok None
                else
                  let n := Z.to_nat n in
                  let u2 := u - (u + v) * fnat n in
                  let v2 := v + (u + v) * fnat n in
                  if negb ((0 <=? u2) && (0 <=? v2)) then Ok None
                  else
                    match subtractor d n u2 v2 with
                    | Ok (Some s0) =>
                        match liftfree_ord4 rec (padd p (pneg (expand s0))) None with
                        | Ok (Some s) => Ok (Some (s0 + s)%E)
                        | r => r
                        end
                    | r => r
                    end
          end
    end.

(** [_sos_struct_dense_symmetric] (dense_symmetric.py:23-40). [fuel] bounds the recursion, which
    lowers the degree by 4 or 6. *)
Fixpoint dense (fuel : nat) (p : poly K) : res (option (ex K)) :=
  match fuel with
  | O => Err OtherError
  | S fuel =>
      match trivial_additive p with
      | Some e => Ok (Some e)
      | None =>
          if Nat.ltb (coeff_degree p) 8 then ternary p
          else
            match centered (liftfree_for_six (dense fuel)) p with
            | Ok None => centered (lift_for_six (dense fuel)) p
            | r => r
            end
      end
  end.

(** [sos_struct_dense_symmetric] (dense_symmetric.py:12-19) *)
Definition sos_struct_dense_symmetric (p : poly K) : res (option (ex K)) :=
  if (Nat.ltb (coeff_degree p) 8 || negb (is_cyclic 3 [[1; 2; 0]; [1; 0; 2]]%nat p))%bool then Ok None
  else dense (S (coeff_degree p)) p.
End Model.
