(** * SDPSOS: the coefficient equations and the certificate
    (triples/core/sdpsos/sdpsos.py:21-220, 337-422, triples/core/sdpsos/solution.py:19-83,
    triples/sdp/dual.py:129-157) *)
From Coq Require Import Bool List Arith Lia Permutation Ring Field.
From Verif Require Import OrdField Base LinSolve LinSep Perm Poly PolyId PolyOps Partitions Shared Monomials MonomialsLemmas Coeff ClearSym.
Import ListNotations.

Section Model.
Context {K : OrdField}.
Local Open Scope of_scope.
Notation mat := (list (list K)).
(** number of generators, elements of the permutation group, generators of the group *)
Variable n : nat.
Variable G : list (list nat).
Variable gens : list (list nat).

(** A column of the linear system: entry (u, w) of the Gram matrix of the [k]-th inequality, or the coefficient
    of [u] in the multiplier of the [k]-th equality. *)
Inductive col := Gram (k : nat) (g : poly K) (u w : list nat) | Mult (k : nat) (h : poly K) (u : list nat).
Definition col_poly (c : col) : poly K := match c with Gram _ g _ _ => g | Mult _ h _ => h end.
Definition col_shift (c : col) : list nat := match c with Gram _ _ u w => madd u w | Mult _ _ u => u end.

(** [mapping] (sdpsos.py:34-54): the row of a monomial and its multiplicity *)
Definition std_count (degree : nat) (m : list nat) : option nat * nat :=
  fold_left (fun sv p => match index_of p (inv_monoms G n true degree) with Some i => (Some i, S (snd sv)) | None => sv end)
    (permute G m) (None, 0%nat).

(** the monomials of a Gram matrix and of a multiplier (sdpsos.py:98-99, 125-126) *)
Definition gram_vec (degree : nat) (g : poly K) : list (list nat) := base_monoms n true ((degree - total_degree g) / 2).
Definition mult_vec (degree : nat) (h : poly K) : list (list nat) := base_monoms n true (degree - total_degree h).
Definition gram_cols (degree k : nat) (g : poly K) : list col :=
  flat_map (fun u => map (Gram k g u) (gram_vec degree g)) (gram_vec degree g).
Fixpoint gram_loop (degree k : nat) (ineqs : list (poly K)) : list col :=
  match ineqs with [] => [] | g :: r => gram_cols degree k g ++ gram_loop degree (S k) r end.
Fixpoint mult_loop (degree k : nat) (eqs : list (poly K)) : list col :=
  match eqs with [] => [] | h :: r => map (Mult k h) (mult_vec degree h) ++ mult_loop degree (S k) r end.
(** equalities of higher degree are skipped (sdpsos.py:121-123) *)
Definition low (degree : nat) (eqs : list (poly K)) : list (poly K) := filter (fun h => (total_degree h <=? degree)%nat) eqs.
(** the columns in the order of [cnt] (sdpsos.py:88-141) *)
Definition columns (degree : nat) (ineqs eqs : list (poly K)) : list col :=
  gram_loop degree 0 ineqs ++ mult_loop degree 0 (low degree eqs).

(** the sum collected in [contribution] (sdpsos.py:96-111, 130-141) for one row and one column *)
Definition entry (degree r : nat) (c : col) : K :=
  fsum (map (fun t => match std_count degree (madd (fst t) (col_shift c)) with
                      | (Some s, v) => if (s =? r)%nat then fnat v * snd t else 0
                      | (None, _) => 0
                      end) (col_poly c)).
(** no row found: the index [None], a TypeError (sdpsos.py:113, 143) *)
Definition rows_found (degree : nat) (cs : list col) : bool :=
  forallb (fun c => forallb (fun t => match fst (std_count degree (madd (fst t) (col_shift c))) with Some _ => true | None => false end) (col_poly c)) cs.
Definition coeff_rows (degree : nat) (ineqs eqs : list (poly K)) : mat :=
  map (fun r => map (entry degree r) (columns degree ineqs eqs)) (seq 0 (length (inv_monoms G n true degree))).

(** ** [_get_equal_entries] (sdpsos.py:166-220) *)
(** [list(s)] of a set of integers *)
Variable order : list nat -> list nat.
(** [Coeff(p).is_symmetric(perm_group)] *)
Definition is_sym (p : poly K) : bool := is_cyclic n gens p.
(** one inequality (sdpsos.py:176-201).  The permuted monomials are always found; a missing one would be a TypeError *)
Definition gram_groups (degree off : nat) (g : poly K) : list (list nat) :=
  let v := gram_vec degree g in
  let s := length v in
  if negb (is_sym g) then
    flat_map (fun i => map (fun j => [i * s + j + off; j * s + i + off]%nat) (seq (S i) (s - S i))) (seq 0 s)
  else
    flat_map (fun i =>
      if is_standard_monom G (nth i v []) then
        map (fun j => order ([i * s + j + off; j * s + i + off]%nat ++
               flat_map (fun p => match index_of (act 0%nat p (nth i v [])) v, index_of (act 0%nat p (nth j v [])) v with
                                  | Some i2, Some j2 => [i2 * s + j2 + off; j2 * s + i2 + off]%nat
                                  | _, _ => []
                                  end) G))
          (seq i (s - i))
      else []) (seq 0 s).
Fixpoint gram_groups_loop (degree off : nat) (ineqs : list (poly K)) : list (list nat) :=
  match ineqs with
  | [] => []
  | g :: r => gram_groups degree off g ++ gram_groups_loop degree (off + length (gram_vec degree g) * length (gram_vec degree g)) r
  end.
(** one equality (sdpsos.py:203-219) *)
Definition mult_groups (degree off : nat) (h : poly K) : list (list nat) :=
  let v := mult_vec degree h in
  if is_sym h then
    flat_map (fun i =>
      if is_standard_monom G (nth i v []) then
        [order ((i + off)%nat :: flat_map (fun p => match index_of (act 0%nat p (nth i v [])) v with Some i2 => [(i2 + off)%nat] | None => [] end) G)]
      else []) (seq 0 (length v))
  else [].
Fixpoint mult_groups_loop (degree off : nat) (eqs : list (poly K)) : list (list nat) :=
  match eqs with
  | [] => []
  | h :: r => mult_groups degree off h ++ mult_groups_loop degree (off + length (mult_vec degree h)) r
  end.
(** the offset after all inequalities *)
Definition gram_size (degree : nat) (ineqs : list (poly K)) : nat :=
  list_sum (map (fun g => length (gram_vec degree g) * length (gram_vec degree g))%nat ineqs).
Definition bad_ineq (degree : nat) (g : poly K) : bool := ((degree <? total_degree g) || negb ((degree - total_degree g) mod 2 =? 0))%nat.
Definition equal_entries (degree : nat) (ineqs eqs : list (poly K)) : list (list nat) :=
  let ok := filter (fun g => negb (bad_ineq degree g)) ineqs in
  gram_groups_loop degree 0 ok ++ mult_groups_loop degree (gram_size degree ok) (low degree eqs).

(** ** [_form_sdp] (sdpsos.py:74-164) and [construct] (sdpsos.py:337-386) *)
(** the linear part of [_form_sdp]: the vector and the space of all entries *)
Definition form_sdp (degree : nat) (ineqs eqs : list (poly K)) (rhs : list K) : res (list K * mat) :=
  if existsb (bad_ineq degree) ineqs then Err ValueError
  else if negb (rows_found degree (columns degree ineqs eqs)) then Err TypeError
  else match solve_csr (length (columns degree ineqs eqs)) (coeff_rows degree ineqs eqs) rhs (equal_entries degree ineqs eqs) with
       | Err e => Err e
       | Ok r => if existsb (fun h => (degree <? total_degree h)%nat) eqs then Err KeyError else Ok r
       end.
(** [SOSProblem.__init__] (sdpsos.py:265-302) followed by the checks and the equations of [construct].  The group
    of the problem is given; the rank reduction is the subject of SdpTransform.v. *)
Definition is_hom (p : poly K) : bool :=
  match p with [] => true | t :: _ => forallb (fun u => Nat.eqb (list_sum (fst u)) (list_sum (fst t))) p end.
Definition construct (f : poly K) (ineqs eqs : list (poly K)) : res (list K * mat) :=
  if negb (is_hom f) then Err ValueError
  else if negb (is_sym f) then Err ValueError
  else if negb (forallb is_hom eqs && forallb is_hom ineqs) then Err ValueError
  else match arraylize G n true false n f with
       | Err e => Err e
       | Ok rhs => form_sdp (total_degree f) ineqs eqs rhs
       end.

(** ** Dictionaries with polynomials as keys *)
Fixpoint pset {V} (d : list (poly K * V)) (k : poly K) (v : V) : list (poly K * V) :=
  match d with [] => [(k, v)] | (k', v') :: d' => if peqb K k' k then (k', v) :: d' else (k', v') :: pset d' k v end.
Definition pdict {V} (l : list (poly K * V)) : list (poly K * V) := fold_left (fun d kv => pset d (fst kv) (snd kv)) l [].
Definition pfind {V} (d : list (poly K * V)) (k : poly K) : option V :=
  match find (fun kv => peqb K (fst kv) k) d with Some kv => Some (snd kv) | None => None end.

(** [splits_ineq] (sdpsos.py:101) *)
Definition splits (degree : nat) (ineqs : list (poly K)) : list (poly K * nat) :=
  pdict (map (fun g => (g, length (gram_vec degree g))) ineqs).
(** [from_full_x0_and_space] (dual.py:129-157) at a vector [x = x0 + space * y]: consecutive square blocks *)
Fixpoint cut (x : list K) (start : nat) (sp : list (poly K * nat)) : list (poly K * mat) :=
  match sp with
  | [] => []
  | (g, s) :: r => (g, mtab s s (fun i j => vget x (start + (i * s + j)))) :: cut x (start + s * s) r
  end.
Definition gram_matrices (degree : nat) (ineqs : list (poly K)) (x : list K) : list (poly K * mat) := cut x 0 (splits degree ineqs).
(** [eq_vec] (sdpsos.py:158-163, 419) at the same vector *)
Fixpoint cut_eq (x : list K) (degree start : nat) (eqs : list (poly K)) : list (poly K * list K) :=
  match eqs with
  | [] => []
  | h :: r => let s := length (mult_vec degree h) in (h, map (fun i => vget x (start + i)) (seq 0 s)) :: cut_eq x degree (start + s) r
  end.
Definition multipliers (degree : nat) (ineqs eqs : list (poly K)) (x : list K) : list (poly K * list K) :=
  pdict (cut_eq x degree (list_sum (map (fun gs => snd gs * snd gs)%nat (splits degree ineqs))) eqs).

(** ** The solution (solution.py:19-83) *)
Notation value := ((nat -> K) -> K).
(** [cyclic_sum] (monomials.py:275-287), by value; see Cyclic.v for the expressions *)
Definition lift (e : value) : value := fun x => fsum (map (fun p => e (fun i => x (nth i p 0%nat))) G).
(** [_get_expr_from_dict] (solution.py:79-83) *)
Definition expr_of (d : list (poly K * value)) (k : poly K) : value :=
  match pfind d k with Some v => v | None => fun x => peval x k end.
Fixpoint mapr {A B} (f : A -> res B) (l : list A) : res (list B) :=
  match l with
  | [] => Ok []
  | a :: l' => match f a with Err e => Err e | Ok b => match mapr f l' with Err e => Err e | Ok r => Ok (b :: r) end end
  end.
(** [_decomp_as_sos] (solution.py:50-77) for one key.  [factor], [signsimp] and [together] keep the value and are
    left out; a row of U without an entry of S would be an IndexError. *)
Definition sos_terms (degree : nat) (exprs : list (poly K * value)) (d : poly K * (mat * list K)) : res (list value) :=
  let '(key, (U, Sv)) := d in
  mapr (fun us => match invarraylize [pid n] n true n (fst us) ((degree - total_degree key) / 2) with
                  | Err e => Err e
                  | Ok v => Ok (lift (fun x => snd us * expr_of exprs key x * peval x v ^ 2))
                  end) (combine U Sv).
Definition ideal_term (degree : nat) (exprs : list (poly K * value)) (d : poly K * list K) : res value :=
  match invarraylize [pid n] n true n (snd d) (degree - total_degree (fst d)) with
  | Err e => Err e
  | Ok v => Ok (lift (fun x => peval x v * expr_of exprs (fst d) x))
  end.
(** [from_decompositions] (solution.py:19-48) *)
Definition from_decompositions (degree : nat) (decs : list (poly K * (mat * list K))) (eqvec : list (poly K * list K))
  (ineq_exprs eq_exprs : list (poly K * value)) : res value :=
  match mapr (sos_terms degree ineq_exprs) decs with
  | Err e => Err e
  | Ok sq => match mapr (ideal_term degree eq_exprs) eqvec with
             | Err e => Err e
             | Ok id => Ok (fun x => fsum (map (fun e : value => e x) (concat sq)) + fsum (map (fun e : value => e x) id))
             end
  end.
(** the vector at the parameters [y] *)
Definition point (x0 : list K) (V : mat) (y : list K) : list K :=
  vtab (length x0) (fun i => vget x0 i + dotv (length y) (nth i V []) y).
(** [as_solution] (sdpsos.py:395-422): [y] is the solution of the root problem, [decs] its decompositions in the order
    of the keys *)
Definition as_solution (degree : nat) (ineqs eqs : list (poly K)) (x0 : list K) (V : mat) (y : list K)
  (decs : list (mat * list K)) (ineq_exprs eq_exprs : list (poly K * value)) : res value :=
  from_decompositions degree (combine (map fst (splits degree ineqs)) decs) (multipliers degree ineqs eqs (point x0 V y)) ineq_exprs eq_exprs.

(** ** [_get_qmodule_list] (sdpsos.py:425-477) *)
Inductive preord := PNone | PLinear | PProgressive.
Definition cons_item : Type := (poly K * value)%type.
Definition one_item : cons_item := ([(repeat 0%nat n, 1)], fun _ => 1).
(** [is_linear] of sympy: every monomial has degree at most one *)
Definition is_linear (p : poly K) : bool := forallb (fun t => (list_sum (fst t) <=? 1)%nat) p.
Definition degree_ok (degree : nat) (d : nat) : bool := ((d <=? degree) && ((degree - d) mod 2 =? 0))%nat.
Fixpoint combinations {A} (l : list A) (k : nat) : list (list A) :=
  match k, l with
  | O, _ => [[]]
  | S _, [] => []
  | S k', a :: l' => map (cons a) (combinations l' k') ++ combinations l' k
  end.
Definition mul_item (a b : cons_item) : cons_item := (pmul (fst a) (fst b), fun x => snd a x * snd b x).
(** the new products with [k] linear constraints (sdpsos.py:455-468) *)
Definition products_of (degree : nat) (linear nonlin : list cons_item) (k : nat) : list cons_item :=
  flat_map (fun comb =>
    let m := fold_left mul_item comb one_item in
    let d := total_degree (fst m) in
    if (degree <? d)%nat then []
    else flat_map (fun i => if degree_ok degree (d + total_degree (fst i)) then [mul_item m i] else []) nonlin)
    (combinations linear k).
Fixpoint qmodule_loop (degree : nat) (progressive : bool) (linear nonlin qm : list cons_item) (ks : list nat) : list (list cons_item) :=
  match ks with
  | [] => if progressive then [] else [qm]
  | k :: ks' =>
      let new := products_of degree linear nonlin k in
      let qm' := qm ++ new in
      (if progressive && negb (match new with [] => true | _ => false end) then [qm'] else [])
      ++ qmodule_loop degree progressive linear nonlin qm' ks'
  end.
(** The constraints come as [dict.items()]: a list plus this view is a TypeError (sdpsos.py:437-438). *)
Definition qmodule_list (f : poly K) (ineqs : list cons_item) (with_trivial : bool) (p : preord) : res (list (list cons_item)) :=
  let degree := total_degree f in
  let keep := filter (fun i : cons_item => degree_ok degree (total_degree (fst i))) in
  match p with
  | PNone => if with_trivial then Err TypeError else Ok [keep ineqs]
  | _ =>
      let linear := filter (fun i => is_linear (fst i)) ineqs in
      let rest := filter (fun i => negb (is_linear (fst i))) ineqs in
      let nonlin := one_item :: rest in
      let qm := keep (if with_trivial then nonlin else rest) in
      let progressive := match p with PProgressive => true | _ => false end in
      Ok ((if progressive then [qm] else []) ++ qmodule_loop degree progressive linear nonlin qm (seq 1 (length linear)))
  end.
End Model.
