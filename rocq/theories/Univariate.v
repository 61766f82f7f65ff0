(** * Model of triples/core/structsos/pivoting/univariate.py

    Polynomials in one variable are lists of coefficients in ascending order ([ueval] of
    [PolyId.v] evaluates them); sympy's [all_coeffs()] is the reversed list.  A weighted sum of
    squares (the pair of lists [coeffs, polys] of the code) is a list of pairs. *)
From Coq Require Import Bool List Arith Lia Ring Field.
From Verif Require Import OrdField Base Congruence PolyId.
Import ListNotations.
Arguments ueval {K}.

Section Model.
Context {K : OrdField}.
Local Open Scope of_scope.

(** ** Coefficient lists (sympy [Poly] arithmetic, not part of the repository) *)
Fixpoint uadd (p q : list K) : list K :=
  match p, q with
  | [], _ => q
  | _, [] => p
  | a :: p', b :: q' => (a + b) :: uadd p' q'
  end.
Definition uscale (c : K) (p : list K) : list K := map (fmul c) p.
Definition usub (p q : list K) : list K := uadd p (uscale (- (1)) q).
Fixpoint umul (p q : list K) : list K :=
  match p with
  | [] => []
  | a :: p' => uadd (uscale a q) (0 :: umul p' q)
  end.
Fixpoint upow (p : list K) (n : nat) : list K := match n with O => [1] | S n' => umul p (upow p n') end.
(** [Poly.transform(p, q)] = q^n f(p/q), n the degree of f; [Poly.shift(a)] is the case p = x + a, q = 1 *)
Fixpoint utransform (n : nat) (f p q : list K) : list K :=
  match f with
  | [] => []
  | c :: f' => uadd (uscale c (upow q n)) (umul p (utransform (pred n) f' p q))
  end.
(** drop the vanishing leading coefficients: sympy keeps polynomials in this form *)
Fixpoint strip (p : list K) : list K :=
  match p with
  | [] => []
  | a :: p' => match strip p' with [] => if a =? 0 then [] else [a] | r => a :: r end
  end.
Definition ulc (p : list K) : K := last (strip p) 0.
(** degree; the zero polynomial has none ([-oo] in sympy) *)
Definition udeg (p : list K) : option nat := match strip p with [] => None | r => Some (pred (length r)) end.
(** [all_coeffs()]: from the leading coefficient down; [[0]] for the zero polynomial *)
Definition all_coeffs (p : list K) : list K := match strip p with [] => [0] | r => rev r end.

Definition wsos := list (K * list K).
(** value of [sum(coeff[i] * poly[i]**2)], as in [_raw_to_expr] (univariate.py:577-591) *)
Definition weval (w : wsos) (x : K) : K := fsum (map (fun t => fst t * (ueval (snd t) x * ueval (snd t) x)) w).

(** ** Gram matrices, represented by their entries *)
Definition gmat := nat -> nat -> K.
Definition upd (M : gmat) (i j : nat) (v : K) : gmat := fun a b => if ((a =? i) && (b =? j))%nat%bool then v else M a b.

(** [_rationalize_matrix_simultaneously] (univariate.py:227-267), one matrix; [rd] is
    [v -> round(v*lcm)/lcm] *)
Definition rationalize (rd : K -> K) (off : bool) (M : gmat) : gmat := fun i j =>
  if (off && (Nat.max i j <? Nat.min i j + 2))%nat%bool then M i j else rd (M (Nat.min i j) (Nat.max i j)).

(** [_determine_diagonal_entries], one matrix (univariate.py:291-305): one pass of the loop *)
Definition det_step (n : nat) (M : gmat) (i : nat) (c : K) : res gmat :=
  let m := (i / 2)%nat in
  if Nat.even i then
    if (m <? n)%nat then
      let s := bsum (Nat.min m (n - m - 1)) (fun j => M (m - S j)%nat (m + S j)%nat) * 2 in
      Ok (upd M m m (c - s))
    else Err IndexError
  else
    if (m + 1 <? n)%nat then
      let s := bsum (Nat.min m (n - m - 2)) (fun j => M (m - S j)%nat (m + S j + 1)%nat) in
      let v := c / 2 - s in
      Ok (upd (upd M m (m + 1)%nat v) (m + 1)%nat m v)
    else Err IndexError.
Fixpoint det_loop (n : nat) (M : gmat) (i : nat) (cs : list K) : res gmat :=
  match cs with
  | [] => Ok M
  | c :: cs' => match det_step n M i c with Ok M' => det_loop n M' (S i) cs' | Err e => Err e end
  end.
Definition determine_diagonal (n : nat) (M : gmat) (poly : list K) : res gmat := det_loop n M 0 (all_coeffs poly).

(** coefficients of the minor matrix (univariate.py:312-326), descending *)
Definition minor_coeff (n : nat) (M : gmat) (i : nat) : K :=
  let m := (i / 2)%nat in
  if Nat.even i then bsum (Nat.min m (n - m - 1)) (fun j => M (m - S j)%nat (m + S j)%nat) * 2 + M m m
  else (bsum (Nat.min m (n - m - 2)) (fun j => M (m - S j)%nat (m + S j + 1)%nat) + M m (m + 1)%nat) * 2.
Definition minor_coeffs (n : nat) (M : gmat) : list K := map (minor_coeff n M) (seq 0 (2 * n - 1)).
(** [poly -= Poly(all_coeffs + [0])] (univariate.py:327-328) *)
Definition minor_rest (n1 : nat) (M1 : gmat) (poly : list K) : list K :=
  usub poly (rev (minor_coeffs n1 M1 ++ [0])).
(** the two matrix case (univariate.py:306-333) *)
Definition determine_diagonal2 (n0 : nat) (M0 : gmat) (n1 : nat) (M1 : gmat) (poly : list K) : res (gmat * gmat) :=
  match determine_diagonal n0 M0 (minor_rest n1 M1 poly) with
  | Ok M => Ok (M, M1)
  | Err e => Err e
  end.

(** [_create_sos_from_US] (univariate.py:338-365): rows of U are read from the leading coefficient down *)
Definition create_sos (U : list (list K)) (Sv : list K) : wsos := combine Sv (map (@rev K) U).

(** Outcome of the numerical part of [_prove_univariate_irreducible] (univariate.py:475-501):
    the roots and the matrices built from them are arbitrary. *)
Record numerics := mknum {
  pos_root : bool;            (* some real root is positive *)
  no_real_root : bool;        (* no real root found *)
  dim0 : nat; mat0 : gmat;    (* M0, or its first component *)
  dim1 : nat; mat1 : gmat;    (* second component when [positive] *)
}.

(** [_prove_univariate_simple] (univariate.py:529-574); a proof is (p, q) with f = p + x q *)
Definition prove_simple (f : list K) : option (wsos * wsos) :=
  match all_coeffs f with
  | [c] => if 0 <=? ulc f then Some ([(c, [1])], []) else None
  | [a; b] => if ((0 <=? a) && (0 <=? b))%bool then Some ([(b, [1])], [(a, [1])]) else None
  | [a; b; c] =>
      if a <? 0 then None
      else if ((0 <? a) && (b * b - 4 * a * c <? 0))%bool
      then Some ([(a, [b / (2 * a); 1]); (c - b * b / (4 * a), [1])], [])
      else if ((0 <? a) && (0 <=? b) && (0 <=? c))%bool
      then Some ([(a, [0; 1]); (c, [1])], [(b, [1])])
      else None
  | _ => None
  end.

(** the monomials of the trivial case (univariate.py:489-498) *)
Fixpoint trivial_parts (i : nat) (f : list K) : wsos * wsos :=
  match f with
  | [] => ([], [])
  | c :: f' =>
      let (p, q) := trivial_parts (S i) f' in
      if c =? 0 then (p, q)
      else let mono := (c, repeat 0 (i / 2) ++ [1]) in
           if Nat.even i then (mono :: p, q) else (p, mono :: q)
  end.

Definition all_nonneg (l : list K) : bool := forallb (fun c => 0 <=? c) l.

(** accept a matrix: [res is not None and all(_ >= 0 for _ in res[1])] (univariate.py:512-519) *)
Definition accept (n : nat) (M : gmat) : res (option wsos) :=
  match congruence (mtab n n M) with
  | Err e => Err e
  | Ok None => Ok None
  | Ok (Some (U, Sv)) => if all_nonneg Sv then Ok (Some (create_sos U Sv)) else Ok None
  end.

(** the loop over [lcm] (univariate.py:503-526); [rds] lists the roundings tried *)
Fixpoint irr_loop (rds : list (K -> K)) (positive : bool) (nm : numerics) (f : list K) : res (option (wsos * wsos)) :=
  match rds with
  | [] => Ok None
  | rd :: rds' =>
      if positive then
        let M1 := rationalize rd false (mat1 nm) in
        match determine_diagonal2 (dim0 nm) (rationalize rd true (mat0 nm)) (dim1 nm) M1 f with
        | Err e => Err e
        | Ok (M0, M1) =>
            match accept (dim1 nm) M1 with
            | Err e => Err e
            | Ok None => irr_loop rds' positive nm f
            | Ok (Some q) =>
                match accept (dim0 nm) M0 with
                | Err e => Err e
                | Ok None => irr_loop rds' positive nm f
                | Ok (Some p) => Ok (Some (p, q))
                end
            end
        end
      else
        match determine_diagonal (dim0 nm) (rationalize rd true (mat0 nm)) f with
        | Err e => Err e
        | Ok M0 =>
            match accept (dim0 nm) M0 with
            | Err e => Err e
            | Ok None => irr_loop rds' positive nm f
            | Ok (Some p) => Ok (Some (p, []))
            end
        end
  end.

(** [_prove_univariate_irreducible] (univariate.py:428-526) *)
Definition prove_irreducible (rds : list (K -> K)) (nm : numerics) (f : list K) : res (option (wsos * wsos)) :=
  if ulc f <? 0 then Ok None
  else if (length (strip f) <=? 3)%nat then Ok (prove_simple f)
  else if pos_root nm then Ok None
  else
    let positive := negb (no_real_root nm) in
    if (positive && all_nonneg (all_coeffs f))%bool then Ok (Some (trivial_parts 0 f))
    else irr_loop rds positive nm f.

(** [_reduce_sos] (univariate.py:368-425) *)
Definition max_deg (w : wsos) : option nat :=
  fold_left (fun a t => match a, udeg (snd t) with None, d => d | Some x, None => Some x | Some x, Some y => Some (Nat.max x y) end) w None.
(** The inner loops over i, j add c p_i p_j to the entry (n-i, n-j): done here entry by entry. *)
Definition gram_add (n : nat) (M : gmat) (t : K * list K) : gmat := fun a b =>
  M a b + fst t * vget (strip (snd t)) (n - a) * vget (strip (snd t)) (n - b).
Definition reduce_sos (w : wsos) : res wsos :=
  match w with
  | [] => Ok []
  | _ =>
    match max_deg w with
    | None => Err TypeError
    | Some n =>
        let M := fold_left (gram_add n) w (fun _ _ => 0) in
        match congruence (mtab (S n) (S n) M) with
        | Err e => Err e
        | Ok None => Err TypeError   (* [*None] *)
        | Ok (Some (U, Sv)) => Ok (filter (fun t => negb (fst t =? 0)) (create_sos U Sv))
        end
    end
  end.

(** [_cross_mul] (univariate.py:662-670) *)
Definition cross_mul (w1 w2 : wsos) (mul : list K) : wsos :=
  flat_map (fun s => map (fun t => (fst s * fst t, umul (umul mul (snd s)) (snd t))) w2) w1.

(** merging one factor (univariate.py:672-691): a factor proof is the pair of its multiplier-1
    part and its multiplier-x part *)
Definition merge (pq m : wsos * wsos) : res (wsos * wsos) :=
  let (p1, p2) := pq in
  let (c1, cx) := m in
  match reduce_sos (cross_mul p1 c1 [1] ++ cross_mul p2 cx [0; 1]) with
  | Err e => Err e
  | Ok p =>
    match reduce_sos (cross_mul p2 c1 [1] ++ cross_mul p1 cx [1]) with
    | Err e => Err e
    | Ok q => Ok (p, q)
    end
  end.
Fixpoint merge_all (pq : wsos * wsos) (ms : list (wsos * wsos)) : res (wsos * wsos) :=
  match ms with
  | [] => Ok pq
  | m :: ms' => match merge pq m with Ok pq' => merge_all pq' ms' | Err e => Err e end
  end.

(** proofs of the factors (univariate.py:645-655) *)
Fixpoint factor_proofs (rds : list (K -> K)) (num : list K -> numerics) (fs : list (list K * nat))
  : res (option (list (wsos * wsos))) :=
  match fs with
  | [] => Ok (Some [])
  | (g, m) :: fs' =>
      if Nat.even m then
        match factor_proofs rds num fs' with
        | Ok (Some r) => Ok (Some (([(1, upow g (m / 2))], []) :: r))
        | r => r
        end
      else
        match prove_irreducible rds (num g) g with
        | Err e => Err e
        | Ok None => Ok None
        | Ok (Some ret) =>
            match factor_proofs rds num fs' with
            | Ok (Some r) =>
                Ok (Some ((if (1 <? m)%nat then [([(1, upow g (m / 2))], [])] else []) ++ ret :: r))
            | r => r
            end
        end
  end.

(** [prove_univariate(poly, return_raw=True)] (univariate.py:594-698); [fl] is the result of
    sympy's [factor_list] / [sqf_list] on the polynomial *)
Definition prove_univariate (rds : list (K -> K)) (num : list K -> numerics) (fl : K * list (list K * nat))
  : res (option (wsos * wsos)) :=
  let (lc, fs) := fl in
  if lc <? 0 then Ok None
  else match factor_proofs rds num fs with
       | Err e => Err e
       | Ok None => Ok None
       | Ok (Some ms) =>
           match merge_all ([(lc, [1])], []) ms with
           | Ok pq => Ok (Some pq)
           | Err e => Err e
           end
       end.

(** ** Intervals (univariate.py:701-826); an end point is [None] when infinite *)
(** the returned proof: two triples (multiplier, coefficients and polynomials) *)
Definition iproof := list (list K * wsos).
Definition normalise_signs (p : iproof) : iproof :=
  map (fun mw => (fst mw, map (fun t => (fst t, if ulc (snd t) <? 0 then uscale (- (1)) (snd t) else snd t)) (snd mw))) p.

(** degree used for [transform]; 0 stands for the zero polynomial (simplification: sympy's
    degree is -oo there) *)
Definition udeg0 (p : list K) : nat := match udeg p with Some d => d | None => 0%nat end.

Section Interval.
Variable rds : list (K -> K).
Variable num : list K -> numerics.
Variable factor_list : list K -> K * list (list K * nat).

(** one square transformed back (univariate.py:810-814); [None] if the exponent is negative
    ([as_poly] of a proper fraction is [None], and the product then raises) *)
Definition back_poly (a b : K) (e : nat) (p : list K) : option (list K) :=
  let d := udeg0 p in
  if (d <=? e)%nat
  then Some (umul (utransform d (strip p) [- a; 1] [b; - (1)]) (upow [b; - (1)] (e - d)))
  else None.
Fixpoint back_wsos (a b : K) (e : nat) (dn : K) (w : wsos) : res wsos :=
  match w with
  | [] => Ok []
  | (c, p) :: w' =>
      match back_poly a b e p with
      | None => Err TypeError
      | Some p' => match back_wsos a b e dn w' with Ok r => Ok ((c / dn, p') :: r) | Err er => Err er end
      end
  end.

(** one of the two parts (univariate.py:802-816); [md] is [mul_d] *)
Definition back_part (a b : K) (n md : nat) (w : wsos) : res wsos :=
  if (n <? md)%nat then match w with [] => Ok [] | _ => Err TypeError end
  else back_wsos a b ((n - md) / 2) ((b - a) ^ n) w.

Definition prove_interval (f : list K) (lo hi : option K) : res (option iproof) :=
  match lo, hi with
  | None, None =>
      match prove_univariate rds num (factor_list f) with
      | Ok (Some (p, [])) => Ok (Some (normalise_signs [([1], p); ([0; 1], [])]))
      | Ok (Some (_, _ :: _)) => Ok None
      | Ok None => Ok None
      | Err e => Err e
      end
  | Some a, None =>
      match prove_univariate rds num (factor_list (utransform (udeg0 f) (strip f) [a; 1] [1])) with
      | Ok (Some (p, q)) =>
          let back t := (fst t, utransform (udeg0 (snd t)) (strip (snd t)) [- a; 1] [1]) in
          Ok (Some (normalise_signs [([1], map back p); ([- a; 1], map back q)]))
      | Ok None => Ok None
      | Err e => Err e
      end
  | None, Some b =>
      match prove_univariate rds num (factor_list (utransform (udeg0 f) (strip f) [b; - (1)] [1])) with
      | Ok (Some (p, q)) =>
          let back t := (fst t, utransform (udeg0 (snd t)) (strip (snd t)) [b; - (1)] [1]) in
          Ok (Some (normalise_signs [([1], map back p); ([b; - (1)], map back q)]))
      | Ok None => Ok None
      | Err e => Err e
      end
  | Some a, Some b =>
      let d := b - a in
      if d <=? 0 then Err ValueError
      else
        let n := udeg0 f in
        match prove_univariate rds num (factor_list (utransform n (strip f) [a; b] [1; 1])) with
        | Ok (Some (p, q)) =>
            let e0 := Nat.even n in
            let m0 := if e0 then [1] else [b; - (1)] in
            let m1 := if e0 then umul [- a; 1] [b; - (1)] else [- a; 1] in
            match back_part a b n (if e0 then 0 else 1)%nat p with
            | Err er => Err er
            | Ok p' =>
              match back_part a b n (if e0 then 2 else 1)%nat q with
              | Err er => Err er
              | Ok q' => Ok (Some (normalise_signs [(m0, p'); (m1, q')]))
              end
            end
        | Ok None => Ok None
        | Err er => Err er
        end
  end.
End Interval.
End Model.
Arguments numerics : clear implicits.
Arguments wsos : clear implicits.
Arguments gmat : clear implicits.
Arguments iproof : clear implicits.
