(** * Reverse polyblock approximation: triples/utils/roots/monotonic_opt.py

    Exact arithmetic over an ordered field instead of floats; [np.inf] is [None]. Vectors are lists.
    The root solver is a parameter: a function of the end points of the segment on which the line
    function is taken (they determine it), which may raise. The random choice of a vertex is a
    parameter too. *)
From Coq Require Import Bool List Arith Lia Ring Field.
From Verif Require Import OrdField Base.
Import ListNotations.

Section Model.
Variable K : OrdField.
Local Open Scope of_scope.

(** [p[i] = x] on a copy. *)
Fixpoint upd (p : list K) (i : nat) (x : K) : list K :=
  match p, i with
  | [], _ => []
  | _ :: p', O => x :: p'
  | y :: p', S i' => y :: upd p' i' x
  end.
(** [p + alpha * (q - p)]. *)
Fixpoint seg (p : list K) (al : K) (q : list K) : list K :=
  match p, q with
  | x :: p', y :: q' => (x + al * (y - x)) :: seg p' al q'
  | _, _ => []
  end.
Definition fmax (x y : K) : K := if fltb x y then y else x.
Definition fmin (x y : K) : K := if fltb y x then y else x.
Definition vget0 (p : list K) (i : nat) : K := nth i p 0.
Definition vleb (p q : list K) : bool := forallb (fun xy => fleb (fst xy) (snd xy)) (combine p q).

(** Comparisons with a bound that may be infinite. *)
Definition lt_bound (x : K) (c : option K) : bool :=
  match c with None => true | Some c => fltb x c end.
Definition sub_bound (c : option K) (t : K) : option K :=
  match c with None => None | Some c => Some (c - t) end.

Section Problem.
Variables f g h : list K -> K.
(** [root_solver(line, 0, 1)] for the lines of [_red] (first part) and for those with [-h]. *)
Variable sup_fg : option K -> list K -> list K -> res K.
Variable sup_h : list K -> list K -> res K.
(** monotonic_opt.py:11, [_rtol]. *)
Variable rtol : K.

(** monotonic_opt.py:97-99, [max(f(a) - cbv, g(a))]. *)
Definition fg (cbv : option K) (p : list K) : K :=
  match cbv with None => g p | Some c => fmax (f p - c) (g p) end.

(** monotonic_opt.py:94-102, the reduction of [b], for the coordinates in the list. *)
Fixpoint red_b (cbv : option K) (a b : list K) (is : list nat) : res (list K) :=
  match is with
  | [] => Ok b
  | i :: is' =>
      let ai := vget0 a i in
      let z := upd a i (vget0 b i) in
      let r := if fleb 0 (fg cbv z) then sup_fg cbv a z else Ok 1 in
      match r with
      | Err e => Err e
      | Ok r => red_b cbv a (upd b i (ai + r * (vget0 b i - ai))) is'
      end
  end.

(** monotonic_opt.py:107-114, the reduction of [a]. *)
Fixpoint red_a (a b : list K) (is : list nat) : res (list K) :=
  match is with
  | [] => Ok a
  | i :: is' =>
      let bi := vget0 b i in
      let z := upd b i (vget0 a i) in
      let r := if fleb 0 (- h z) then sup_h b z else Ok 1 in
      match r with
      | Err e => Err e
      | Ok r => red_a (upd a i (bi - r * (bi - vget0 a i))) b is'
      end
  end.

(** monotonic_opt.py:48-115, [_red]. *)
Definition red (a b : list K) (cbv : option K) : res (list K * list K) :=
  match red_b cbv a b (seq 0 (length a)) with
  | Err e => Err e
  | Ok b =>
      if fleb (h b) (- rtol) then Ok (b, b)
      else match red_a a b (seq 0 (length a)) with
           | Err e => Err e
           | Ok a => Ok (a, b)
           end
  end.

(** The variables of the loop. [lost] is not in the code: it becomes true when a vertex is
    dropped only because of the test [np.all(z >= a)]. *)
Record state : Type := St {
  st_a : list K; st_b : list K; st_T : list (list K); st_cbv : option K;
  st_best : option (list K); st_lost : bool }.

(** monotonic_opt.py:226-234, the new vertices of [z] at [x]. *)
Definition splits (z x : list K) (cbv : option K) (tol : K) : list (list K) :=
  filter (fun w => lt_bound (f w) (sub_bound cbv tol) && fleb (g w) 0)
    (map (fun i => upd z i (vget0 x i))
       (filter (fun i => negb (feqb (vget0 z i) (vget0 x i))) (seq 0 (length z)))).

(** monotonic_opt.py:204-234, one pass of the loop with the chosen index. *)
Definition step (tol : K) (ind : nat) (s : state) : res state :=
  let z := nth ind (st_T s) [] in
  let T := firstn ind (st_T s) ++ skipn (S ind) (st_T s) in
  let r := if fleb 0 (- h z) then sup_h (st_b s) z else Ok 1 in
  match r with
  | Err e => Err e
  | Ok al =>
      let x := seg (st_b s) al z in
      if fleb (g x) 0 && lt_bound (f x) (st_cbv s) then
        let cbv := Some (f x) in
        match red (st_a s) (st_b s) cbv with
        | Err e => Err e
        | Ok (a, b) =>
            let keep := fun w => vleb w b && lt_bound (f w) (sub_bound cbv tol) && fleb (g w) 0 in
            let T1 := filter (fun w => vleb a w && keep w) T in
            Ok (St a b (T1 ++ splits z x cbv tol) cbv (Some x)
                 (st_lost s || existsb (fun w => keep w && negb (vleb a w)) T))
        end
      else Ok (St (st_a s) (st_b s) (T ++ splits z x (st_cbv s) tol) (st_cbv s) (st_best s)
                 (st_lost s))
  end.

(** monotonic_opt.py:197-234: the loop; the second component is [k] at its end. *)
Fixpoint loop (tol : K) (choose : nat -> nat) (fuel k : nat) (s : state) : res (state * nat) :=
  match fuel with
  | O => Ok (s, (k - 1)%nat)
  | S fuel' =>
      match st_T s with
      | [] => Ok (s, k)
      | _ => match step tol (Nat.modulo (choose k) (length (st_T s))) s with
             | Err e => Err e
             | Ok s => loop tol choose fuel' (S k) s
             end
      end
  end.

(** The result: monotonic_opt.py:8, [RPAResult], with the ghost flag. *)
Record result : Type := Res {
  r_x : option (list K); r_f : option K; r_iter : nat; r_conv : bool;
  r_a : list K; r_b : list K; r_lost : bool }.

(** monotonic_opt.py:187-238, [rpa_monotonic]. With [max_iter = 0] the variable [k] is unbound at
    the end unless the problem was found infeasible at once. *)
Definition rpa_monotonic (tol : K) (choose : nat -> nat) (max_iter : nat) (a b : list K)
  (cbv : option K) : res result :=
  let cbv1 := match cbv with None => None | Some c => Some (c + tol) end in
  let bad := fltb 0 (g a) || fltb (h b) 0 ||
             match cbv1 with None => false | Some c => fltb (c - tol) (f a) end in
  let s := if bad then Ok (St a b [] None None false)
           else match red a b cbv1 with
                | Err e => Err e
                | Ok (a, b) => Ok (St a b [a] cbv1 None false)
                end in
  match s with
  | Err e => Err e
  | Ok s =>
      match max_iter, bad with
      | O, false => Err OtherError
      | _, _ =>
          match loop tol choose max_iter 1 s with
          | Err e => Err e
          | Ok (s, k) =>
              Ok (Res (st_best s) (match st_best s with None => None | Some _ => st_cbv s end) k
                    (match st_T s with [] => true | _ => false end) (st_a s) (st_b s) (st_lost s))
          end
      end
  end.

End Problem.
End Model.
Arguments upd {K}. Arguments seg {K}. Arguments fmax {K}. Arguments fmin {K}. Arguments vget0 {K}. Arguments vleb {K}.
Arguments lt_bound {K}. Arguments sub_bound {K}. Arguments fg {K}. Arguments red_b {K}.
Arguments red_a {K}. Arguments red {K}. Arguments St {K}. Arguments st_a {K}. Arguments st_b {K}.
Arguments st_T {K}. Arguments st_cbv {K}. Arguments st_best {K}. Arguments st_lost {K}.
Arguments splits {K}. Arguments step {K}. Arguments loop {K}. Arguments Res {K}. Arguments r_x {K}.
Arguments r_f {K}. Arguments r_iter {K}. Arguments r_conv {K}. Arguments r_a {K}. Arguments r_b {K}.
Arguments r_lost {K}. Arguments rpa_monotonic {K}.
