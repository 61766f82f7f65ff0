(** * Null spaces from roots (triples/core/sdpsos/manifold.py, triples/utils/roots/roots.py) *)
From Coq Require Import Bool List Arith Lia.
From Verif Require Import OrdField Base Congruence LinSolve LinSep Perm Poly PolyOps Partitions Shared Monomials Coeff ClearSym SdpSos.
Import ListNotations.

(** ** Derivatives of [m * u' M v] (manifold.py:14-67) *)
(** the pairs (u, v) of a key; a set without order, its elements occur once *)
Definition pairs : Type := list (list nat * list nat).
Definition peq (a b : list nat * list nat) : bool := (meqb (fst a) (fst b) && meqb (snd a) (snd b))%bool.
Definition sadd (s : pairs) (a : list nat * list nat) : pairs := if existsb (peq a) s then s else s ++ [a].
Definition sunion (s t : pairs) : pairs := fold_left sadd t s.
(** [_reg] (manifold.py:33-35): tuples are compared lexicographically *)
Definition reg (u v : list nat) : list nat * list nat := match lex_cmp u v with Lt => (u, v) | _ => (v, u) end.
(** [increase_tuple] with +1 and -1 (manifold.py:43-44) *)
Definition inc (t : list nat) (i : nat) : list nat := lset t i (S (nth i t 0)).
Definition dec (t : list nat) (i : nat) : list nat := lset t i (pred (nth i t 0)).
Definition terms : Type := dict pairs.
Definition tget (t : terms) (m : list nat) : pairs := match dget t m with Some s => s | None => [] end.
(** the two products of one pair (manifold.py:51-55) *)
Definition diff_pair (i : nat) (m : list nat) (nt : terms) (uv : list nat * list nat) : terms :=
  let nt1 := dset nt m (sadd (tget nt m) (reg (inc (fst uv) i) (snd uv))) in
  dset nt1 m (sadd (tget nt1 m) (reg (fst uv) (inc (snd uv) i))).
(** one key (manifold.py:47-55) *)
Definition diff_key (i : nat) (nt : terms) (e : list nat * pairs) : terms :=
  let (m, uvs) := e in
  let nt1 := if (nth i m 0 =? 0)%nat then nt else dset nt (dec m i) (sunion (tget nt (dec m i)) uvs) in
  fold_left (diff_pair i m) uvs nt1.
(** [_bilinear.diff] (manifold.py:42-56) *)
Definition bdiff (i : nat) (t : terms) : terms := fold_left (diff_key i) t [].
(** [diff_monoimal] (manifold.py:58-63) *)
Definition bdiff_monomial (m : list nat) (t : terms) : terms :=
  fold_left (fun b i => Nat.iter (nth i m 0) (bdiff i) b) (seq 0 (length m)) t.

(** ** The elimination (manifold.py:190-215) *)
Definition has (z : list nat) (uv : list nat * list nat) : bool := (meqb (fst uv) z || meqb (snd uv) z)%bool.
(** one set: the pairs with a vanishing vector are removed, a single pair left is popped (manifold.py:197-209);
    [None] is the starting sentinel *)
Definition step_set (z : option (list nat)) (s : pairs) : pairs * list (list nat) :=
  let s' := match z with None => s | Some z => filter (fun uv => negb (has z uv)) s end in
  match s' with
  | [p] => ([], if meqb (fst p) (snd p) then [fst p] else [])
  | _ => (s', [])
  end.
(** the loop over the queue [zeros] (manifold.py:190-211); an entry is popped for each step of the fuel *)
Fixpoint eliminate (fuel : nat) (sets : list pairs) (zeros : list (option (list nat))) (handled : list (list nat)) : list (list nat) :=
  match fuel, zeros with
  | S fuel', z :: zeros' =>
      if match z with Some z => existsb (meqb z) handled | None => false end then eliminate fuel' sets zeros' handled
      else
        let r := map (step_set z) sets in
        eliminate fuel' (map fst r) (zeros' ++ map Some (concat (map snd r)))
          (match z with Some z => handled ++ [z] | None => handled end)
  | _, _ => handled
  end.

Section Model.
Context {K : OrdField}.
Local Open Scope of_scope.
Variable n : nat.
Variable G : list (list nat).

(** ** Orders of vanishing derivatives (manifold.py:110-163, non-mixed) *)
(** [poly.diff(gens[i])] *)
Definition pdiff (i : nat) (p : poly K) : poly K :=
  flat_map (fun t => if (nth i (fst t) 0 =? 0)%nat then [] else [(dec (fst t) i, fnat (nth i (fst t) 0%nat) * snd t)]) p.
(** the order [(0,) * i + (j,) + (0,) * (nvars - i - 1)] *)
Definition unit_order (i j : nat) : list nat := repeat 0%nat i ++ [j] ++ repeat 0%nat (n - i - 1).
Definition root_at (r : list K) : nat -> K := vget r.
(** the while loop (manifold.py:156-162); the degree drops in every step, see [orders_loop_enough] *)
Fixpoint orders_loop (fuel i j : nat) (p : poly K) (r : list K) : list (list nat) :=
  match fuel with
  | O => []
  | S fuel' => if (negb (total_degree p =? 0)%nat && (peval (root_at r) p =? 0))%bool
               then unit_order i j :: orders_loop fuel' i (S j) (pdiff i p) r else []
  end.
(** at most two different values, [_is_binary_root] (manifold.py:70-71); the class of the root is a parameter below *)
Fixpoint distinct_values (r : list K) : list K :=
  match r with [] => [] | a :: r' => if existsb (feqb a) r' then distinct_values r' else a :: distinct_values r' end.
Definition is_binary (r : list K) : bool := (length (distinct_values r) <=? 2)%nat.
(** [_compute_diff_orders] for a rational root with [mixed=False], [only_binary_roots=True] *)
Definition diff_orders (f : poly K) (r : list K) : list (list nat) :=
  if is_binary r then
    repeat 0%nat n :: flat_map (fun i => orders_loop (S (total_degree f)) i 1 (pdiff i f) r) (seq 0 n)
  else [repeat 0%nat n].

(** [_make_vanish_checker] (manifold.py:179-187) *)
Definition nonvanish (r : list K) (m : list nat) : bool :=
  forallb (fun i => ((nth i m 0 =? 0)%nat || negb (vget r i =? 0))%bool) (seq 0 (length m)).
(** the sets collected (manifold.py:173-174, 189-193) *)
Definition order_sets (f : poly K) (r : list K) (m : list nat) : list pairs :=
  flat_map (fun o => map snd (filter (fun e => nonvanish r (fst e)) (bdiff_monomial o [(m, [(repeat 0%nat n, repeat 0%nat n)])])))
    (diff_orders f r).
(** [_compute_nonvanishing_diff_orders] (manifold.py:166-215) *)
Definition nonvanishing_orders (f : poly K) (r : list K) (m : list nat) : list (list nat) :=
  let sets := order_sets f r m in eliminate (S (S (length sets))) sets [None] [].

(** ** The vectors (roots.py:117-160) *)
(** [_derv] (roots.py:42-49) *)
Definition derv (a i : nat) : nat := if (i =? 1)%nat then a else if (a <? i)%nat then 0%nat else (fact a / fact (a - i))%nat.
(** [as_vec] with derivative orders (roots.py:147-158) *)
Definition as_vec_entry (r : list K) (o m : list nat) : K :=
  if existsb (fun i => (nth i m 0 <? nth i o 0)%nat) (seq 0 n) then 0
  else fprod (map (fun i => fnat (derv (nth i m 0%nat) (nth i o 0%nat))) (seq 0 n))
       * fprod (map (fun i => vget r i ^ (nth i m 0 - nth i o 0)%nat) (seq 0 n)).
Definition as_vec (r : list K) (d : nat) (o : list nat) : list K := map (as_vec_entry r o) (base_monoms n true d).
(** without derivatives (roots.py:143-145) *)
Definition plain_vec (r : list K) (d : nat) : list K := map (fun m => meval (root_at r) m) (base_monoms n true d).

(** ** [_root_space] (manifold.py:218-265) *)
Record root := Root { coords : list K; rational : bool }.
(** [symmetry.permute(root.root)] (monomials.py:158-162) *)
Definition permuted (r : list K) : list (list K) := map (fun p => act (0 : K) p r) G.
Definition is_monomial (g : poly K) : bool := (length g <=? 1)%nat.
Definition first_monom (g : poly K) : list nat := match g with [] => repeat 0%nat n | t :: _ => fst t end.
(** For an irrational root the code splits the vector of the root into its rational coordinates
    ([_algebraic_extension], roots.py:21-35, with columns scaled by [_reg_matrix]); here it is kept as one vector over a
    field that contains the root, see [coordinates_killed] for the coordinates. *)
Definition root_space (f : poly K) (r : root) (g : poly K) : res (list (list K)) :=
  let d := ((total_degree f - total_degree g) / 2)%nat in
  if (rational r && is_monomial g)%bool then
    Ok (flat_map (fun r' => map (as_vec r' d) (nonvanishing_orders f r' (first_monom g))) (permuted (coords r)))
  else
    match permute_vec K n G true (plain_vec (coords r) d) d with
    | Err e => Err e
    | Ok cols =>
        Ok (flat_map (fun rc => if (is_monomial g && negb (match g with [] => true | _ => false end) && forallb (fun a => negb (a =? 0)) (coords r))%bool
                                   || negb (peval (root_at (fst rc)) g =? 0)
                                then [snd rc] else []) (combine (permuted (coords r)) cols))
    end.

(** ** [nullspace] (manifold.py:325-392) *)
(** the test of the permuted roots (manifold.py:367-374) *)
Definition feasible (r : list K) (ineqs eqs : list (poly K)) : bool :=
  forallb (fun r' => (forallb (fun g => 0 <=? peval (root_at r') g) ineqs && forallb (fun h => peval (root_at r') h =? 0) eqs)%bool) (permuted r).
(** [_nullspace_from_roots] (manifold.py:362-386); [columnspace] keeps some of the columns with the same span and is
    left out *)
Fixpoint from_roots (f : poly K) (roots : list root) (g : poly K) (ineqs eqs : list (poly K)) : res (list (list K)) :=
  match roots with
  | [] => Ok []
  | r :: roots' =>
      if feasible (coords r) ineqs eqs then
        match root_space f r g with
        | Err e => Err e
        | Ok s => match from_roots f roots' g ineqs eqs with Err e => Err e | Ok l => Ok (s ++ l) end
        end
      else from_roots f roots' g ineqs eqs
  end.
(** [nullspace] (manifold.py:325-358).  The hull part returns nothing, and no additional null space is set anywhere. *)
Definition nullspace (f : poly K) (roots : list root) (g : poly K) (ineqs eqs : list (poly K)) : res (list (list K)) :=
  if ((total_degree f - total_degree g) mod 2 =? 0)%nat then from_roots f roots g ineqs eqs else Err ValueError.
(** [_constrain_nullspace] (sdpsos.py:233-236): one null space per generator of the quadratic module *)
Fixpoint nullspaces (f : poly K) (roots : list root) (gs ineqs eqs : list (poly K)) : res (list (poly K * list (list K))) :=
  match gs with
  | [] => Ok []
  | g :: gs' => match nullspace f roots g ineqs eqs with
                | Err e => Err e
                | Ok s => match nullspaces f roots gs' ineqs eqs with Err e => Err e | Ok l => Ok ((g, s) :: l) end
                end
  end.

(** ** [_findroot_binary] (manifold.py:268-287) *)
Fixpoint binary_points (k : nat) : list (list nat) :=
  match k with O => [[]] | S k' => map (cons 0%nat) (binary_points k') ++ map (cons 1%nat) (binary_points k') end.
(** the set [roots] (manifold.py:272, 281) *)
Fixpoint dedup (l : list (list nat)) : list (list nat) :=
  match l with [] => [] | b :: l' => if existsb (meqb b) l' then dedup l' else b :: dedup l' end.
Definition findroot_binary (f : poly K) : list root :=
  let pts := filter (fun b => peval (fun i => fnat (nth i b 0%nat)) f =? 0) (binary_points n) in
  let std := dedup (map (standard_monom G) pts) in
  map (fun b => Root (map (fun k => fnat k) b) true) (filter (fun b => negb (meqb b (repeat 0%nat n))) std).
End Model.
Arguments Root {K}.
Arguments root K : clear implicits.
