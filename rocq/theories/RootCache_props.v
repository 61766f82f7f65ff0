(** * C90: cached powers, substitution and cyclic sums of algebraic roots (roots.py:236-318, 605-651) *)
From Coq Require Import Bool List Arith QArith Qcanon.
From Verif Require Import OrdField Base Poly RootUv RootUvFacts RootCache.
Import ListNotations.
Local Open Scope of_scope.

(** Whatever was called before, and whether or not it raised, every call returns the value computed without
    the cache. *)
Theorem root_calls_exact : forall (K : OrdField) (root : list K) (inv_sum : K) (has_field : bool) (l : list (call K)),
  do_calls root inv_sum has_field [] l = map (call_spec root inv_sum has_field) l.
Proof. intros K root inv_sum has_field l. exact (do_calls_ok K root inv_sum has_field l [] (cache_ok_nil K root inv_sum)). Qed.
Print Assumptions root_calls_exact.

(** If there is a field, or if no sympy number is asked for, [subs] of a polynomial in the variables of the
    root, after any calls, is its value at the root ... *)
Theorem root_subs_exact_partial : forall (K : OrdField) (root : list K) (inv_sum : K) (has_field b : bool)
    (l : list (call K)) (p : poly K),
  wf (length root) p -> has_field = true \/ b = false ->
  do_calls root inv_sum has_field [] (l ++ [CSubs p b]) =
  do_calls root inv_sum has_field [] l ++ [Ok (peval (fun i => nth i root 0) p)].
Proof.
  intros K root inv_sum has_field b l p [_ W] H. rewrite !root_calls_exact, map_app. f_equal. cbn [map call_spec].
  assert (E : forallb (fun t => Nat.leb (length (fst t)) (length root)) p = true).
  { apply forallb_forall. intros t Ht. apply Nat.leb_le. rewrite (W (fst t)); [reflexivity|]. apply in_map. exact Ht. }
  rewrite E. destruct H as [-> | ->]; [rewrite andb_false_r|]; reflexivity.
Qed.
Print Assumptions root_subs_exact_partial.

(** ... but without a common field [subs], with its default arguments, raises for every polynomial. *)
Theorem root_subs_without_field_refuted : forall (K : OrdField) (root : list K) (inv_sum : K) (l : list (call K)) (p : poly K),
  wf (length root) p ->
  do_calls root inv_sum false [] (l ++ [CSubs p true]) = do_calls root inv_sum false [] l ++ [Err OtherError].
Proof.
  intros K root inv_sum l p [_ W]. rewrite !root_calls_exact, map_app. f_equal. cbn [map call_spec].
  assert (E : forallb (fun t => Nat.leb (length (fst t)) (length root)) p = true).
  { apply forallb_forall. intros t Ht. apply Nat.leb_le. rewrite (W (fst t)); [reflexivity|]. apply in_map. exact Ht. }
  rewrite E. reflexivity.
Qed.
Print Assumptions root_subs_without_field_refuted.

(** The three classes of ternary roots, with coordinates, with cached powers and rational, compute the same
    cyclic sums. *)
Theorem root_cyclic_sums_agree : forall (K : OrdField) (a b c : K) (has_field : bool) (l : list (call K)) (i j k : nat) (u v : K),
  a + b + c <> 0 -> uv_of a b c = Some (u, v) ->
  cyclic_sum u v i j k = cyclic_sum_rat a b c i j k /\
  do_calls [a; b; c] (1 / (a + b + c)) has_field [] (l ++ [CCyclic i j k]) =
    do_calls [a; b; c] (1 / (a + b + c)) has_field [] l ++ [Ok (cyclic_sum_rat a b c i j k)].
Proof. exact cyclic_sums_agree. Qed.
Print Assumptions root_cyclic_sums_agree.

(** ** The hypotheses can be met *)
Definition vals (l : list (res QcOF)) : list (option Q) := map (fun r => match r with Ok x => Some (this x) | Err _ => None end) l.

(** x y^2 + 2 z at (1, 2, 3), then a power and a position outside the root, then the same again. *)
Example root_calls_example :
  let p : poly QcOF := [([1; 2; 0]%nat, q 1 1); ([0; 0; 1]%nat, q 2 1)] in
  wf 3 p /\
  vals (do_calls [q 1 1; q 2 1; q 3 1] (q 1 6) true [] [CSubs p true; CPower (Some 1%nat) 2; CPower (Some 3%nat) 2; CSubs p true; CCyclic 2 1 0])
  = [Some (10 # 1); Some (4 # 1); None; Some (10 # 1); Some (23 # 216)]%Q.
Proof.
  cbv zeta. split; [|vm_compute; reflexivity]. split.
  - cbn. repeat constructor; cbn; intuition discriminate.
  - cbn. intros m [<- | [<- | []]]; reflexivity.
Qed.

Example root_cyclic_example :
  exists u v, uv_of (q 1 1) (q 2 1) (q 3 1) = Some (u, v) /\
  this (cyclic_sum u v 2 1 0) = (23 # 216)%Q /\ this (cyclic_sum_rat (q 1 1) (q 2 1) (q 3 1) 2 1 0) = (23 # 216)%Q.
Proof. eexists. eexists. split; [reflexivity|]. split; vm_compute; reflexivity. Qed.
