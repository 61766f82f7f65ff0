(** * Grids of values: triples/utils/roots/grid.py

    Exact arithmetic over an ordered field instead of Python's integers and floats. *)
From Coq Require Import Bool List Arith Lia Ring Field.
From Verif Require Import OrdField Base Partitions Poly.
Import ListNotations.

(** grid.py:219-220, [GridRender.size_limit], [GridRender.degree_limit]. *)
Definition size_limit : nat := 60.
Definition degree_limit : nat := 18.

(** grid.py:227-229, [GridRender.grid_coor]. [generate_monoms] without options keeps every tuple,
    because its group is trivial. *)
Definition grid_coor (nvars size : nat) : list (list nat) := generate_partitions nvars size true.

(** polytools.py:8-22, [deg]: the total degree. Simplification: 0 for the polynomial 0, where sympy
    answers minus infinity; both are below the limit. *)
Definition gdeg {A} (p : list (list nat * A)) : nat := list_max (map (fun t => list_sum (fst t)) p).

(** roots.py:79-94, [is_border], [is_symmetric], [is_nontrivial] of a root with natural coordinates. *)
Definition is_border (r : list nat) : bool := existsb (Nat.eqb 0) r.
Definition is_symmetric (r : list nat) : bool := Nat.ltb (length (nodup Nat.eq_dec r)) (length r).
Definition is_nontrivial (r : list nat) : bool := negb (is_border r) && negb (is_symmetric r).

(** grid.py:159, [round((2 * len(grid_coor) + .25) ** .5 - 1.5)]. Simplification: the integer part
    of [(sqrt (8 len + 1) - 3) / 2], which is the same number on grids. *)
Definition grid_n (len : nat) : nat := (Nat.sqrt (8 * len + 1) - 3) / 2.

Section Model.
Variable K : OrdField.
Local Open Scope of_scope.

(** grid.py:209-211: [count] times the last entry times [x] is appended. *)
Fixpoint append_powers (count : nat) (row : list K) (x : K) : list K :=
  match count with
  | O => row
  | S c => append_powers c (row ++ [last row 0 * x]) x
  end.
(** grid.py:201-212, [_grid_init_precal]. *)
Definition grid_init_precal (size limit : nat) : list (list K) :=
  map (fun i => append_powers (limit - 1) [1; fnat i] (fnat i)) (seq 0 (S size)).

(** [pc[i][d]]. *)
Definition pc_get (pc : list (list K)) (i d : nat) : res K :=
  match nth_error pc i with
  | None => Err IndexError
  | Some row => match nth_error row d with None => Err IndexError | Some v => Ok v end
  end.
(** grid.py:259, [prod(pc[i][d] for i, d in zip(grid_coor[k], monom))]. *)
Fixpoint base_prod (pc : list (list K)) (l : list (nat * nat)) : res K :=
  match l with
  | [] => Ok 1
  | (i, d) :: l' =>
      match pc_get pc i d with
      | Err e => Err e
      | Ok v => match base_prod pc l' with Err e => Err e | Ok w => Ok (v * w) end
      end
  end.
(** grid.py:259-260, one value of the grid. *)
Fixpoint grid_at (pc : list (list K)) (p : poly K) (c : list nat) : res K :=
  match p with
  | [] => Ok 0
  | (m, a) :: p' =>
      match base_prod pc (combine c m) with
      | Err e => Err e
      | Ok b => match grid_at pc p' c with Err e => Err e | Ok s => Ok (a * b + s) end
      end
  end.
(** The loop over the points, grid.py:258. *)
Fixpoint mapr {A B} (f : A -> res B) (l : list A) : res (list B) :=
  match l with
  | [] => Ok []
  | x :: l' => match f x with
               | Err e => Err e
               | Ok y => match mapr f l' with Err e => Err e | Ok r => Ok (y :: r) end
               end
  end.
(** grid.py:231-267, [_render_grid_value] with [value_method = 'integer']. *)
Definition render_grid_value (nvars : nat) (p : poly K) (size : nat) : res (list K) :=
  let coor := grid_coor nvars size in
  if Nat.ltb size_limit size || Nat.ltb degree_limit (gdeg p) then Ok (repeat 0 (length coor))
  else mapr (grid_at (grid_init_precal size_limit degree_limit) p) coor.

(** The fields of [GridPoly] (grid.py:18-28) that [local_minima] reads. *)
Record grid : Type := Grid { g_nvars : nat; g_coor : list (list nat); g_value : list K }.
(** grid.py:425-437, [zero_grid]. *)
Definition zero_grid : grid :=
  Grid 3 (grid_coor 3 size_limit) (repeat 0 (length (grid_coor 3 size_limit))).
(** grid.py:367-423, [render] without colours. *)
Definition render (nvars : nat) (p : poly K) (size : nat) (handle_error : bool) : res grid :=
  match render_grid_value nvars p size with
  | Ok v => Ok (Grid nvars (grid_coor nvars size) v)
  | Err e => if handle_error then Ok zero_grid else Err e
  end.

(** [grid_dict[coor]], grid.py:160: of equal keys the last one counts. *)
Definition dict_get (d : list (list nat * K)) (c : list nat) : res K :=
  match find (fun t => meqb c (fst t)) (rev d) with Some t => Ok (snd t) | None => Err KeyError end.

(** grid.py:175-177: the neighbours in the order of the code, with early return. *)
Fixpoint below_all (d : list (list nat * K)) (v : K) (cs : list (list nat)) : res bool :=
  match cs with
  | [] => Ok true
  | c :: cs' => match dict_get d c with
                | Err e => Err e
                | Ok w => if fleb w v then Ok false else below_all d v cs'
                end
  end.
(** grid.py:172-178, [_basic_checker]. *)
Definition basic_checker (d : list (list nat * K)) (i j k : nat) (v : K) : res bool :=
  if Nat.eqb i 0 || Nat.eqb j 0 || Nat.eqb k 0 then Ok false
  else below_all d v [[i; j - 1; k + 1]; [i + 1; j - 1; k]; [i - 1; j; k + 1]; [i - 1; j + 1; k];
                      [i + 1; j; k - 1]; [i; j + 1; k - 1]]%nat.
(** grid.py:171-187, [_get_local_checker]. *)
Definition checker (cyc : bool) (d : list (list nat * K)) (i j k : nat) (v : K) : res bool :=
  if cyc && (Nat.ltb i j || Nat.ltb i k) then Ok false else basic_checker d i j k v.
(** grid.py:190-195, the loop over the points. *)
Fixpoint scan (cyc : bool) (d : list (list nat * K)) (it : list (list nat * K)) : res (list (list nat)) :=
  match it with
  | [] => Ok []
  | ([i; j; k], v) :: it' =>
      match checker cyc d i j k v with
      | Err e => Err e
      | Ok b =>
          match scan cyc d it' with
          | Err e => Err e
          | Ok l => Ok (if b then (if cyc then [j; k; i] else [i; j; k]) :: l else l)
          end
      end
  | _ => Err ValueError
  end.
(** grid.py:136-199, [local_minima]; the answer lists the coordinates of the roots. *)
Definition local_minima (g : grid) (filter_nontrivial cyc : bool) : res (list (list nat)) :=
  if negb (Nat.eqb (g_nvars g) 3) then
    Ok (if filter_nontrivial then [] else [repeat 1%nat (g_nvars g)])
  else
    let n := grid_n (length (g_coor g)) in
    let d := combine (g_coor g) (g_value g) in
    let trunc := ((2 * n / 3) * (2 * n / 3 + 1) / 2)%nat in
    let it := if cyc then combine (firstn trunc (g_coor g)) (firstn trunc (g_value g)) else d in
    match scan cyc d it with
    | Err e => Err e
    | Ok l => Ok (if filter_nontrivial then filter is_nontrivial l else l)
    end.

(** grid.py:49, the index of the colour of row [r], entry [j] in [save_heatmap]. *)
Definition color_index (r j : nat) : nat := ((r + j + 2) * (r + j + 1) / 2 - j - 1)%nat.
End Model.
Arguments append_powers {K}. Arguments grid_init_precal {K}. Arguments pc_get {K}.
Arguments base_prod {K}. Arguments grid_at {K}. Arguments render_grid_value {K}.
Arguments Grid {K}. Arguments g_nvars {K}. Arguments g_coor {K}. Arguments g_value {K}.
Arguments zero_grid {K}. Arguments render {K}. Arguments dict_get {K}. Arguments below_all {K}.
Arguments basic_checker {K}. Arguments checker {K}. Arguments scan {K}. Arguments local_minima {K}.
