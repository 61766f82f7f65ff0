(** * Properties of cyclic sums and products (C07, C08, C09, C57, C58) *)
From Coq Require Import Bool List Arith ZArith Lia Permutation.
From Verif Require Import OrdField Base Perm PermCheck Cyclic CyclicRw CyclicFacts.
Import ListNotations.
Local Open Scope of_scope.

(** C07.  [CyclicSum(expr, symbols, group)] has, after choosing the standard
    order of the symbols, the smallest translation and pulling out invariant
    factors, the value of the sum of [expr] over all elements of the group.
    Every group, every comparison of expressions and every depth of the inner
    simplifications.  Missing: expressions containing products whose group has
    another number of elements than symbols, which fail with C08. *)
Theorem cyclic_sum_value_partial (K : OrdField) (I : nat -> list K -> K) (cmp : cx K -> cx K -> bool) fuel e syms G r :
  wf K e -> NoDup syms -> is_group (length syms) G ->
  orbit_sum K I e syms G r (cev I (new cmp fuel OpSum e syms G) r).
Proof. exact (cyclic_sum_value_lemma K I cmp fuel e syms G r). Qed.
Print Assumptions cyclic_sum_value_partial.

(** a*b*c*x*a*(b+c) over the cyclic group, with an inner sum and an inner product *)
Example cyclic_sum_ex :
  let e : cx QcOF := CMul [CSym 3; CSym 0; CCyc OpProd (CSym 0) [0;1;2]%nat C3; CPow (CCyc OpSum (CSym 1) [0;1;2]%nat C3) 2; CAdd [CSym 1; CSym 2]] in
  wf QcOF e /\ NoDup [1;2;0]%nat /\ is_group 3 C3 /\
  new never 5 OpSum e [1;2;0]%nat C3 =
    CMul [new never 4 OpSum (CMul [CSym 0; CAdd [CSym 1; CSym 2]]) [0;1;2]%nat C3; CSym 3; CCyc OpProd (CSym 0) [0;1;2]%nat C3; CPow (CCyc OpSum (CSym 1) [0;1;2]%nat C3) 2].
Proof.
  cbv zeta. assert (HG : is_group 3 C3) by (apply group_check_sound; vm_compute; reflexivity).
  assert (ND : forall a b c : nat, a <> b -> a <> c -> b <> c -> NoDup [a;b;c]) by (intros; repeat constructor; cbn; intuition).
  split; [cbn; repeat split; try apply ND; try apply HG; try lia; intros; reflexivity|]. split; [apply ND; lia|]. split; [exact HG|]. reflexivity.
Qed.

(** C08.  The same for products when the group has as many elements as there
    are symbols. *)
Theorem cyclic_product_value_partial (K : OrdField) (I : nat -> list K -> K) (cmp : cx K -> cx K -> bool) fuel e syms G r :
  wf K e -> NoDup syms -> is_group (length syms) G -> length G = length syms ->
  orbit_prod K I e syms G r (cev I (new cmp fuel OpProd e syms G) r).
Proof. exact (cyclic_product_value_lemma K I cmp fuel e syms G r). Qed.
Print Assumptions cyclic_product_value_partial.

(** For the symmetric group on three symbols the constant factor of
    [CyclicProduct(2*a, (a,b,c), SymmetricGroup(3))] is raised to the third
    power, the value at (1,1,1) is 8 and should be 64. *)
Theorem cyclic_product_value_refuted :
  exists (e : cx QcOF) syms G (r : nat -> QcOF), wf QcOF e /\ NoDup syms /\ is_group (length syms) G /\
    ~ orbit_prod QcOF noI e syms G r (cev noI (new never 2 OpProd e syms G) r).
Proof. exact cyclic_product_refuted_lemma. Qed.
Print Assumptions cyclic_product_value_refuted.

(** The content of a product: the constant is raised to the number of symbols,
    which is right exactly when the powers agree. *)
Theorem product_content (K : OrdField) (I : nat -> list K -> K) (c : K) e syms G r :
  cev I (CCyc OpProd (CMul [CNum c; e]) syms G) r = c ^ length G * cev I (CCyc OpProd e syms G) r.
Proof. exact (product_content_lemma K I c e syms G r). Qed.
Print Assumptions product_content.
Theorem product_content_refuted :
  content OpProd (q 2 1) [0;1;2]%nat <> (q 2 1) ^ length S3.
Proof. exact product_content_refuted_lemma. Qed.
Print Assumptions product_content_refuted.

(** C09.  The standard order of the symbols is the smallest of their images by
    name, it is the same for every order in the orbit, it has the same
    translations, and the value stays. *)
Theorem standard_order syms G :
  NoDup syms -> is_group (length syms) G ->
  (exists x, In x G /\ std_seq syms G = act 0%nat x syms) /\
  (forall y, In y G -> lexle (std_seq syms G) (act 0%nat y syms) = true) /\
  (forall x, In x G -> std_seq (act 0%nat x syms) G = std_seq syms G) /\
  (forall p, In p G -> exists p', In p' G /\ forall s, tr (std_seq syms G) p s = tr syms p' s) /\
  (forall p', In p' G -> exists p, In p G /\ forall s, tr (std_seq syms G) p s = tr syms p' s).
Proof. exact (standard_order_lemma syms G). Qed.
Print Assumptions standard_order.
Theorem standard_order_value (K : OrdField) (I : nat -> list K -> K) o e syms G r :
  NoDup syms -> is_group (length syms) G ->
  cev I (CCyc o e (std_seq syms G) G) r = cev I (CCyc o e syms G) r.
Proof. exact (gsum_std K I o e syms G r). Qed.
Print Assumptions standard_order_value.
Example standard_order_ex : is_group 3 C3 /\ std_seq [5;2;9]%nat C3 = [2;9;5]%nat /\ std_seq [5;2;9]%nat S3 = [2;5;9]%nat.
Proof. split; [apply group_check_sound; vm_compute; reflexivity|split; reflexivity]. Qed.

(** C57.  [xreplace]: the value after replacing symbols is the value of the
    cyclic expression where the symbols have the new values.  For transitive
    groups (cyclic, symmetric, alternating, dihedral) provided no new
    name from outside occurs in the expression already. *)
Theorem xreplace_value_partial (K : OrdField) (I : nat -> list K -> K) (cmp same : cx K -> cx K -> bool) fuel o e syms G gens (ru : @rule K) r :
  (forall a b, same a b = true -> forall r, cev I a r = cev I b r) ->
  wf K e -> good o syms G -> NoDup (map fst ru) -> (forall k v, In (k, v) ru -> wf K v) ->
  (forall g, In g gens -> In g G) -> (forall p, In p G -> generated (length syms) gens p) ->
  (case_a ru syms = true -> no_capture K ru e syms) ->
  transitive (length syms) G ->
  cev I (xreplace same (new cmp fuel) o e syms G gens ru) r = cev I (CCyc o e syms G) (fun s => cev I (apply_rule ru s) r).
Proof. exact (xreplace_transitive_lemma K I cmp same fuel o e syms G gens ru r). Qed.
Print Assumptions xreplace_value_partial.
(** other groups: when the subgroups fixing the changed and the unchanged
    symbols have together as many elements as the group *)
Theorem xreplace_split_partial (K : OrdField) (I : nat -> list K -> K) (cmp same : cx K -> cx K -> bool) fuel o e syms G gens (ru : @rule K) r :
  (forall a b, same a b = true -> forall r, cev I a r = cev I b r) ->
  wf K e -> good o syms G -> NoDup (map fst ru) -> (forall k v, In (k, v) ru -> wf K v) ->
  (forall g, In g gens -> In g G) -> (forall p, In p G -> generated (length syms) gens p) ->
  (case_a ru syms = true -> no_capture K ru e syms) ->
  (length (stabilizer G (changed_inds K ru syms G)) * length (stabilizer G (unchanged_inds K ru syms G)) = length G)%nat ->
  cev I (xreplace same (new cmp fuel) o e syms G gens ru) r = cev I (CCyc o e syms G) (fun s => cev I (apply_rule ru s) r).
Proof. exact (xreplace_split_lemma K I cmp same fuel o e syms G gens ru r). Qed.
Print Assumptions xreplace_split_partial.

(** a, b, c replaced by a*b, b*c, c*a is kept as a cyclic sum *)
Example xreplace_ex :
  let ru : @rule QcOF := [(0%nat, CMul [CSym 0; CSym 1]); (1%nat, CMul [CSym 1; CSym 2]); (2%nat, CMul [CSym 2; CSym 0])] in
  let same (a b : cx QcOF) := match a, b with CMul [CSym x; CSym y], CMul [CSym u; CSym v] => ((x =? u) && (y =? v))%nat | _, _ => false end in
  let e : cx QcOF := CMul [CSym 0; CPow (CSym 1) 2] in
  is_group 3 C3 /\ transitive 3 C3 /\ (forall p, In p C3 -> generated 3 [[1;2;0]]%nat p) /\ case_a ru [0;1;2]%nat = false /\
  (forall a b, same a b = true -> forall r, cev noI a r = cev noI b r) /\
  xreplace same (new never 3) OpSum e [0;1;2]%nat C3 [[1;2;0]]%nat ru =
    CCyc OpSum (CMul [CMul [CSym 0; CSym 1]; CPow (CMul [CSym 1; CSym 2]) 2]) [0;1;2]%nat C3.
Proof. exact xreplace_ex_lemma. Qed.

(** A new symbol that occurs already is captured: a*x summed over (a,b,c) with
    a replaced by x gives x^2+b^2+c^2 instead of x^2+b*x+c*x. *)
Theorem xreplace_capture_refuted :
  exists (e : cx QcOF) (ru : @rule QcOF) (r : nat -> QcOF), wf QcOF e /\ good OpSum [0;1;2]%nat C3 /\ transitive 3 C3 /\
    cev noI (xreplace never (new never 3) OpSum e [0;1;2]%nat C3 [[1;2;0]]%nat ru) r <> cev noI (CCyc OpSum e [0;1;2]%nat C3) (fun s => cev noI (apply_rule ru s) r).
Proof. exact xreplace_capture_lemma. Qed.
Print Assumptions xreplace_capture_refuted.
(** The partial branch forgets elements of an intransitive group: a*e with e
    replaced by 1 under (a b c d)(e f) gives a+c. *)
Theorem xreplace_partial_refuted :
  exists (e : cx QcOF) (ru : @rule QcOF) (r : nat -> QcOF), wf QcOF e /\ good OpSum [0;1;2;3;4;5]%nat G42 /\ case_a ru [0;1;2;3;4;5]%nat = false /\
    cev noI (xreplace never (new never 3) OpSum e [0;1;2;3;4;5]%nat G42 [[1;2;3;0;5;4]]%nat ru) r <> cev noI (CCyc OpSum e [0;1;2;3;4;5]%nat G42) (fun s => cev noI (apply_rule ru s) r).
Proof. exact xreplace_partial_lemma. Qed.
Print Assumptions xreplace_partial_refuted.

(** C58.  [rewrite_symmetry] on a cyclic expression keeps the value when the
    coset representatives come before the subgroup ([splits]); in particular
    for a transversal of right cosets of a subgroup commuting with it. *)
Theorem rewrite_value_partial (K : OrdField) (I : nat -> list K -> K) (cmp cmp' : cx K -> cx K -> bool) iszero fuel o e syms G symbols H T r :
  (forall a, iszero a = true -> forall r, cev I a r = 0) ->
  wf K e -> good o syms G -> (syms = symbols -> good o syms H) ->
  (subgroup H G = true -> (forall t, In t T -> In t G) /\ splits H T G) ->
  cev I (rewrite_node cmp iszero (new cmp' fuel) o e syms G symbols H T) r = cev I (CCyc o e syms G) r.
Proof. exact (rewrite_lemma K I cmp cmp' iszero fuel o e syms G symbols H T r). Qed.
Print Assumptions rewrite_value_partial.
Theorem rewrite_transversal A T G :
  Permutation (flat_map (fun t => map (fun h => pcomp h t) A) T) G ->
  (forall t, In t T -> Permutation (map (pcomp t) A) (map (fun h => pcomp h t) A)) -> splits A T G.
Proof. exact (splits_right A T G). Qed.
Print Assumptions rewrite_transversal.
(** the cyclic group in the symmetric group of three symbols *)
Example rewrite_ex : subgroup C3 S3 = true /\ splits C3 [[0;1;2];[1;0;2]]%nat S3.
Proof. exact rewrite_ex_lemma. Qed.
(** The transversal of right cosets is not enough: a^2*b over the symmetric
    group rewritten to the group swapping a and b. *)
Theorem rewrite_value_refuted :
  exists (e : cx QcOF) (r : nat -> QcOF) H T, wf QcOF e /\ good OpSum [0;1;2]%nat S3 /\ good OpSum [0;1;2]%nat H /\ subgroup H S3 = true /\
    Permutation (flat_map (fun t => map (fun h => pcomp h t) H) T) S3 /\
    cev noI (rewrite_node never (fun _ => false) (new never 3) OpSum e [0;1;2]%nat S3 [0;1;2]%nat H T) r <> cev noI (CCyc OpSum e [0;1;2]%nat S3) r.
Proof. exact rewrite_refuted_lemma. Qed.
Print Assumptions rewrite_value_refuted.
