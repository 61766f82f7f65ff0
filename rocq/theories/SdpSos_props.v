(** * C29, C30: SDPSOS *)
From Coq Require Import Bool List Arith Lia ZArith QArith Qcanon.
From Verif Require Import OrdField Base Congruence LinSolve LinSep Perm Poly PolyId PolyOps Partitions Shared Monomials Coeff ClearSym SdpSos SdpSosFacts SdpSosCert SdpSosGroups SdpSosExact SdpQmodule SdpDriver.
Import ListNotations.
Local Open Scope of_scope.

(** ** C29: the certificate *)
(** [G] is the group generated by [gens], [order] lists a set of integers; [x0 + V y] is any solution of the equations
    of [construct], and [decs] decomposes each of its Gram matrices as [U^T diag(w) U] with non-negative weights.
    The constraints are pairwise different.  The last condition excludes the special case of the linear solver that
    ignores equations without unknowns: two equations share an unknown, or each monomial of the polynomial is a
    multiple of some monomial constraint (such as 1). *)
Theorem sdpsos_certificate_exact (K : OrdField) n G gens order f ineqs eqs x0 V y decs iexprs eexprs :
  is_group n G -> (forall p, In p G <-> generated n gens p) -> order_ok order ->
  wf n f -> (forall g, In g (ineqs ++ eqs) -> wf n g) -> distinct K ineqs -> distinct K eqs ->
  exprs_ok K n iexprs -> exprs_ok K n eexprs ->
  coupled K n G f ineqs eqs \/ reachable K f ineqs ->
  construct n G gens order f ineqs eqs = Ok (x0, V) ->
  (forall row, In row V -> length row = length y) ->
  Forall2 (fun gM Us => exact_dec K (snd gM) (fst Us) (snd Us)) (gram_matrices n (total_degree f) ineqs (point x0 V y)) decs ->
  exists cert, as_solution n G (total_degree f) ineqs eqs x0 V y decs iexprs eexprs = Ok cert /\
    (forall x, cert x = peval x f) /\
    (forall x, (forall g p, In g ineqs -> In p G -> 0 <= peval (fun i => x (nth i p 0%nat)) g) ->
       (forall h p, In h eqs -> In p G -> peval (fun i => x (nth i p 0%nat)) h = 0) -> 0 <= cert x).
Proof. intros HG Hgens HO. exact (sdpsos_exact K n G gens order HG Hgens HO f ineqs eqs x0 V y decs iexprs eexprs). Qed.
Print Assumptions sdpsos_certificate_exact.

(** Positive semidefinite Gram matrices are decomposed by the congruence algorithm, and these decompositions are exact. *)
Theorem sdpsos_psd_gives_certificate (K : OrdField) n G gens order f ineqs eqs x0 V y iexprs eexprs :
  is_group n G -> (forall p, In p G <-> generated n gens p) -> order_ok order ->
  (1 <= n)%nat -> wf n f -> (forall g, In g (ineqs ++ eqs) -> wf n g) -> distinct K ineqs -> distinct K eqs ->
  exprs_ok K n iexprs -> exprs_ok K n eexprs ->
  coupled K n G f ineqs eqs \/ reachable K f ineqs ->
  construct n G gens order f ineqs eqs = Ok (x0, V) ->
  (forall row, In row V -> length row = length y) ->
  (forall g M, In (g, M) (gram_matrices n (total_degree f) ineqs (point x0 V y)) -> psd (length M) M) ->
  exists decs cert, Forall2 (fun gM Us => congruence (snd gM) = Ok (Some Us)) (gram_matrices n (total_degree f) ineqs (point x0 V y)) decs /\
    as_solution n G (total_degree f) ineqs eqs x0 V y decs iexprs eexprs = Ok cert /\ forall x, cert x = peval x f.
Proof.
  intros HG Hgens HO Hn Wf Hw D1 D2 E1 E2 HR H Hy HP.
  destruct (psd_decompositions K n G gens order HG Hgens HO f ineqs eqs x0 V y Hn Wf Hw D1 HR H Hy HP) as (decs & A & B).
  destruct (sdpsos_exact K n G gens order HG Hgens HO f ineqs eqs x0 V y decs iexprs eexprs Wf Hw D1 D2 E1 E2 HR H Hy B) as (cert & C & D & _).
  exists decs, cert. auto.
Qed.
Print Assumptions sdpsos_psd_gives_certificate.

(** The Gram matrices at any parameters are symmetric; that of a constraint invariant under the group is invariant too. *)
Theorem sdpsos_gram_symmetric (K : OrdField) n G gens order f ineqs eqs x0 V y :
  is_group n G -> (forall p, In p G <-> generated n gens p) -> order_ok order ->
  wf n f -> (forall g, In g (ineqs ++ eqs) -> wf n g) -> distinct K ineqs -> coupled K n G f ineqs eqs \/ reachable K f ineqs ->
  construct n G gens order f ineqs eqs = Ok (x0, V) -> (forall row, In row V -> length row = length y) ->
  forall g M, In (g, M) (gram_matrices n (total_degree f) ineqs (point x0 V y)) ->
  In g ineqs /\ length M = length (gram_vec n (total_degree f) g) /\ symmetric (length M) M /\
  (symm K G g -> forall i j i' j' p, (i < length M)%nat -> (j < length M)%nat -> (i' < length M)%nat -> (j' < length M)%nat -> In p G ->
     nth i' (gram_vec n (total_degree f) g) [] = act 0%nat p (nth i (gram_vec n (total_degree f) g) []) ->
     nth j' (gram_vec n (total_degree f) g) [] = act 0%nat p (nth j (gram_vec n (total_degree f) g) []) -> mget M i' j' = mget M i j).
Proof. intros HG Hgens HO. exact (gram_symmetric K n G gens order HG Hgens HO f ineqs eqs x0 V y). Qed.
Print Assumptions sdpsos_gram_symmetric.

(** The whole search: whatever parameters and exact decompositions the numerical part produces, an answer is equal to
    the polynomial, and non-negative wherever the given constraints hold at the permuted points. *)
Theorem sdpsos_search_sound (K : OrdField) n G gens order solve limit f ineqs eqs triv p cert :
  is_group n G -> (forall g, In g G <-> generated n gens g) -> order_ok order ->
  wf n f -> solve_ok K n solve f -> items_ok K n ineqs -> items_ok K n eqs -> distinct K (map fst eqs) ->
  (forall mods qm, qmodule_list n f ineqs triv p = Ok mods -> In qm mods -> module_ok K n G (vmax K) f eqs qm) ->
  sdpsos n G gens order (vmax K) solve limit f ineqs eqs triv p = Ok (Some cert) ->
  (forall x, cert x = peval x f) /\
  forall x, (forall i g, In i ineqs -> In g G -> 0 <= peval (fun k => x (nth k g 0%nat)) (fst i)) ->
    (forall i g, In i eqs -> In g G -> peval (fun k => x (nth k g 0%nat)) (fst i) = 0) -> 0 <= cert x.
Proof. intros HG Hgens HO. exact (sdpsos_sound K n G gens order (vmax K) solve HG Hgens HO limit f ineqs eqs triv p cert). Qed.
Print Assumptions sdpsos_search_sound.

(** For a non-trivial group the cleared constraints are pairwise different, as required above. *)
Theorem sdpsos_cleared_constraints_distinct (K : OrdField) n G (l out : list (cons_item (K := K))) :
  is_group n G ->
  length G <> 1%nat -> (forall i, In i l -> proper K n true (fst i)) -> clear_items n G (vmax K) l = Ok out -> distinct K (map fst out).
Proof. intros HG. exact (clear_items_distinct K n G (vmax K) HG l out (vmax_in K) (vmax_set K)). Qed.
Print Assumptions sdpsos_cleared_constraints_distinct.

(** *** A case *)
Definition set_order (l : list nat) : list nat := filter (fun i => existsb (Nat.eqb i) l) (seq 0 (S (list_max l))).
Lemma set_order_in l k : In k (set_order l) <-> In k l.
Proof.
  unfold set_order. rewrite filter_In, existsb_exists. split.
  - intros [_ (j & Hj & E)]. apply Nat.eqb_eq in E. subst j. exact Hj.
  - intro H. split; [|exists k; split; [exact H|apply Nat.eqb_refl]]. apply in_seq. split; [lia|].
    pose proof (proj1 (list_max_le l (list_max l)) (le_n _)) as F. rewrite Forall_forall in F. specialize (F k H). lia.
Qed.
Lemma set_order_ok : order_ok set_order.
Proof.
  split; [intro l; apply NoDup_filter, seq_NoDup|]. split; [exact set_order_in|].
  intros l l' H. unfold set_order.
  assert (E : list_max l = list_max l').
  { apply Nat.le_antisymm; apply list_max_le, Forall_forall; intros k Hk; apply H in Hk.
    - pose proof (proj1 (list_max_le l' (list_max l')) (le_n _)) as F. rewrite Forall_forall in F. apply F, Hk.
    - pose proof (proj1 (list_max_le l (list_max l)) (le_n _)) as F. rewrite Forall_forall in F. apply F, Hk. }
  rewrite E. apply filter_ext. intro k. apply Bool.eq_true_iff_eq. rewrite !existsb_exists. split; intros (j & Hj & Ej); exists j; split; try exact Ej; apply H, Hj.
Qed.
Definition zc (k : Z) : QcOF := q k 1.
Definition S2 : list (list nat) := [[0;1];[1;0]]%nat.
Definition g2 : list (list nat) := [[1;0]]%nat.
Lemma S2_group : is_group 2 S2.
Proof.
  split.
  - intros p [<-|[<-|[]]]; unfold is_perm; cbn; [apply Permutation.Permutation_refl|apply Permutation.perm_swap].
  - constructor; [cbn; intuition discriminate|]. constructor; [intros []|constructor].
  - left. reflexivity.
  - intros p p' [<-|[<-|[]]] [<-|[<-|[]]]; vm_compute; tauto.
  - intros p [<-|[<-|[]]]; [exists [0;1]%nat|exists [1;0]%nat]; (split; [vm_compute; tauto|split; reflexivity]).
Qed.
Lemma S2_gens p : In p S2 <-> generated 2 g2 p.
Proof.
  split.
  - intros [<-|[<-|[]]]; [exact (gen_id 2 g2)|]. apply gen_in. left. reflexivity.
  - induction 1 as [g Hg| |g h Hg IHg Hh IHh|g Hg IH].
    + destruct Hg as [<-|[]]. right. left. reflexivity.
    + left. reflexivity.
    + apply (g_mul 2 S2 S2_group); assumption.
    + destruct IH as [<-|[<-|[]]]; vm_compute; tauto.
Qed.
(** a^2 - ab + b^2 with the constraint 1 *)
Definition f2 : poly QcOF := [([2;0]%nat, zc 1); ([1;1]%nat, zc (-1)); ([0;2]%nat, zc 1)].
Definition one2 : poly QcOF := [([0;0]%nat, zc 1)].
Ltac wfq := split; [cbn; repeat constructor; cbn; intuition discriminate|cbn; intuition (subst; reflexivity)].
Lemma f2_wf : wf 2 f2. Proof. wfq. Qed.
Lemma one2_wf : wf 2 one2. Proof. wfq. Qed.
Lemma one2_reaches (f : poly QcOF) : reachable QcOF f [one2].
Proof.
  intros m _. exists [0;0]%nat, (zc 1). split; [left; reflexivity|]. split; [discriminate|]. intros [|[|[|i]]]; cbn; lia.
Qed.
Definition dec2 : list (list (list QcOF) * list QcOF) := [([[q 1 1; q (-1) 2]; [q 0 1; q 1 1]], [q 1 2; q 3 8])].
Definition sols2 := construct 2 S2 g2 set_order f2 [one2] [].
(** All hypotheses of [sdpsos_certificate_exact] hold, without free parameters, and the certificate is that of the theorem. *)
Example sdpsos_certificate_case : exists x0 V cert, sols2 = Ok (x0, V) /\
  as_solution 2 S2 2 [one2] [] x0 V [] dec2 [] [] = Ok cert /\ forall x, cert x = peval x f2.
Proof.
  assert (B : match sols2 with Ok _ => true | _ => false end = true) by (vm_compute; reflexivity).
  destruct sols2 as [[x0 V]|e] eqn:E; [clear B|discriminate B]. exists x0, V.
  destruct (sdpsos_certificate_exact QcOF 2 S2 g2 set_order f2 [one2] [] x0 V [] dec2 [] []) as (cert & A & B & _).
  - exact S2_group.
  - exact S2_gens.
  - exact set_order_ok.
  - exact f2_wf.
  - intros g [<-|[]]. exact one2_wf.
  - constructor; constructor.
  - constructor.
  - intros k v [].
  - intros k v [].
  - right. apply one2_reaches.
  - exact E.
  - intros row Hr. assert (F : match sols2 with Ok (_, V) => forallb (fun r => Nat.eqb (length r) 0) V | Err _ => false end = true) by (vm_compute; reflexivity).
    rewrite E in F. rewrite forallb_forall in F. apply Nat.eqb_eq, F, Hr.
  - assert (F : match sols2 with Ok (x0, V) => gram_matrices 2 2 [one2] (point x0 V []) = [(one2, [[q 1 2; q (-1) 4]; [q (-1) 4; q 1 2]])] | Err _ => False end).
    { vm_compute. repeat (f_equal; try (apply Qc_is_canon; reflexivity)). }
    rewrite E in F. change (total_degree f2) with 2%nat. rewrite F. constructor; [|constructor]. cbn [fst snd dec2].
    split; [reflexivity|]. split; [intros r [<-|[<-|[]]]; reflexivity|]. split.
    + intros [|[|i]] [|[|j]] Hi Hj; cbn [length] in Hi, Hj; try lia; apply Qc_is_canon; vm_compute; reflexivity.
    + intros c [<-|[<-|[]]]; vm_compute; reflexivity.
  - exists cert. auto.
Qed.

(** *** The hypotheses are needed *)
Definition I2 : list (list nat) := [[0;1]]%nat.
Definition pt (a b : Z) : nat -> QcOF := fun i => match i with O => zc a | S O => zc b | _ => zc 0 end.
(** An equation without unknowns is ignored: a^2 b + b^3 is "proved" from a^2 b >= 0 by the certificate a^2 b. *)
Definition f3 : poly QcOF := [([2;1]%nat, zc 1); ([0;3]%nat, zc 1)].
Definition c3 : poly QcOF := [([2;1]%nat, zc 1)].
Theorem sdpsos_uncovered_monomial_refuted :
  match construct 2 I2 [] set_order f3 [c3] [] with
  | Ok (x0, V) =>
      map (fun v : QcOF => this v) x0 = [1%Q] /\ V = [[]] /\
      match as_solution 2 I2 3 [c3] [] x0 V [] [([[zc 1]], [zc 1])] [] [] with
      | Ok cert => this (cert (pt 1 1)) = 1%Q /\ this (peval (pt 1 1) f3) = 2%Q
      | Err _ => False
      end
  | Err _ => False
  end.
Proof. vm_compute. repeat split. Qed.
Print Assumptions sdpsos_uncovered_monomial_refuted.
(** The whole function, with a solver that always answers by exact decompositions, returns this wrong certificate. *)
Definition solve3 (ineqs : list (poly QcOF)) (xV : list QcOF * list (list QcOF)) : option (list QcOF * list (list (list QcOF) * list QcOF)) :=
  match ineqs with [_] => match xV with ([v], [[]]) => if v =? zc 1 then Some ([], [([[zc 1]], [zc 1])]) else None | _ => None end | _ => None end.
Theorem sdpsos_search_wrong_certificate_refuted :
  match sdpsos 2 I2 [] set_order (vmax QcOF) solve3 12 f3 [(c3, fun x => peval x c3)] [] true PProgressive with
  | Ok (Some cert) => this (cert (pt 1 1)) = 1%Q /\ this (peval (pt 1 1) f3) = 2%Q
  | _ => False
  end.
Proof. vm_compute. split; reflexivity. Qed.
Print Assumptions sdpsos_search_wrong_certificate_refuted.
(** The same constraint twice (possible for the trivial group, where nothing is cleared): the entries of the second
    Gram matrix are lost; here a^3 b is "proved" by the certificate 0. *)
Definition ab : poly QcOF := [([1;1]%nat, zc 1)].
Definition f4 : poly QcOF := [([3;1]%nat, zc 1)].
Theorem sdpsos_repeated_constraint_refuted :
  match construct 2 I2 [] set_order f4 [ab; ab] [] with
  | Ok (x0, V) =>
      forallb (fun r => Nat.eqb (length r) 3) V = true /\
      map (fun gM => map (map (fun v : QcOF => this v)) (snd gM)) (gram_matrices 2 4 [ab; ab] (point x0 V [zc (-1); zc 0; zc 0])) = [[[0%Q; 0%Q]; [0%Q; 0%Q]]] /\
      match as_solution 2 I2 4 [ab; ab] [] x0 V [zc (-1); zc 0; zc 0] [([[zc 1; zc 0]; [zc 0; zc 1]], [zc 0; zc 0])] [] [] with
      | Ok cert => this (cert (pt 1 1)) = 0%Q /\ this (peval (pt 1 1) f4) = 1%Q
      | Err _ => False
      end
  | Err _ => False
  end.
Proof. vm_compute. repeat split. Qed.
Print Assumptions sdpsos_repeated_constraint_refuted.
(** An equality constraint of higher degree is a KeyError in [construct]. *)
Theorem sdpsos_high_degree_equality_refuted :
  construct 2 S2 g2 set_order f2 [one2] [f3] = Err KeyError.
Proof. vm_compute. reflexivity. Qed.
Print Assumptions sdpsos_high_degree_equality_refuted.

(** Even degree, a non-trivial group and the trivial constraint (the default): no further condition. *)
Theorem sdpsos_search_sound_even (K : OrdField) n G gens order solve limit f ineqs eqs p cert :
  is_group n G -> (forall g, In g G <-> generated n gens g) -> order_ok order ->
  (2 <= n)%nat -> length G <> 1%nat -> (total_degree f mod 2 = 0)%nat -> p <> PNone ->
  wf n f -> solve_ok K n solve f -> items_ok K n ineqs -> proper_items K n ineqs -> items_ok K n eqs -> distinct K (map fst eqs) ->
  sdpsos n G gens order (vmax K) solve limit f ineqs eqs true p = Ok (Some cert) ->
  (forall x, cert x = peval x f) /\
  forall x, (forall i g, In i ineqs -> In g G -> 0 <= peval (fun k => x (nth k g 0%nat)) (fst i)) ->
    (forall i g, In i eqs -> In g G -> peval (fun k => x (nth k g 0%nat)) (fst i) = 0) -> 0 <= cert x.
Proof. intros HG Hgens HO. exact (sdpsos_sound_even K n G gens order (vmax K) solve HG Hgens HO limit f ineqs eqs p cert (vmax_in K) (vmax_set K)). Qed.
Print Assumptions sdpsos_search_sound_even.
(** a solver that satisfies [solve_ok]: it decomposes a single symmetric matrix by congruence when there are no parameters *)
Definition symb (M : list (list QcOF)) : bool := forallb (fun i => forallb (fun j => mget M i j =? mget M j i) (seq 0 (length M))) (seq 0 (length M)).
Definition solve2 (ineqs : list (poly QcOF)) (xV : list QcOF * list (list QcOF)) : option (list QcOF * list (list (list QcOF) * list QcOF)) :=
  match gram_matrices 2 2 ineqs (point (fst xV) (snd xV) []) with
  | [gM] => if forallb (fun r => Nat.eqb (length r) 0) (snd xV) && symb (snd gM)
            then match congruence (snd gM) with Ok (Some d) => Some ([], [d]) | _ => None end else None
  | _ => None
  end.
Lemma solve2_ok : solve_ok QcOF 2 solve2 f2.
Proof.
  intros ineqs x0 V y decs H. unfold solve2 in H. cbn [fst snd] in H. change (total_degree f2) with 2%nat.
  destruct (gram_matrices 2 2 ineqs (point x0 V [])) as [|gM [|]] eqn:EG; try discriminate.
  destruct (forallb _ V) eqn:EV; [|discriminate]. destruct (symb (snd gM)) eqn:ES; [|discriminate]. cbn [andb] in H.
  destruct (congruence (snd gM)) as [[[U w]|]|e] eqn:EC; try discriminate. injection H as <- <-. split.
  - intros row Hr. rewrite forallb_forall in EV. apply Nat.eqb_eq, EV, Hr.
  - enough (X : forall L, L = [gM] -> Forall2 (fun gM Us => exact_dec QcOF (snd gM) (fst Us) (snd Us)) L [(U, w)]) by (exact (X _ EG)). intros L ->. constructor; [|constructor]. cbn [fst snd]. apply congruence_exact_dec; [|exact EC].
    intros i j Hi Hj. unfold symb in ES. rewrite forallb_forall in ES. assert (I : In i (seq 0 (length (snd gM)))) by (apply in_seq; lia).
    specialize (ES i I). rewrite forallb_forall in ES. apply (feqb_eq QcOF), ES, in_seq. lia.
Qed.
Example sdpsos_search_case : exists cert,
  sdpsos 2 S2 g2 set_order (vmax QcOF) solve2 12 f2 [] [] true PProgressive = Ok (Some cert) /\ forall x, cert x = peval x f2.
Proof.
  assert (B : match sdpsos 2 S2 g2 set_order (vmax QcOF) solve2 12 f2 [] [] true PProgressive with Ok (Some _) => true | _ => false end = true) by (vm_compute; reflexivity).
  destruct (sdpsos 2 S2 g2 set_order (vmax QcOF) solve2 12 f2 [] [] true PProgressive) as [[cert|]|e] eqn:E; try discriminate B. clear B.
  exists cert. split; [reflexivity|].
  apply (sdpsos_search_sound_even QcOF 2 S2 g2 set_order solve2 12 f2 [] [] PProgressive cert S2_group S2_gens set_order_ok (le_n 2) ltac:(discriminate) eq_refl ltac:(discriminate)
    f2_wf solve2_ok ltac:(intros ? []) ltac:(intros ? []) ltac:(intros ? []) ltac:(constructor) E).
Qed.

(** ** C30: the groups of equal entries *)
(** Two columns are in one group exactly when they belong to the same constraint and, for a constraint invariant under
    the group, lie in one orbit (of unordered pairs of monomials, or of monomials); for another inequality exactly
    when they are the two entries of an off-diagonal pair.  The groups are non-empty, without repetition and disjoint. *)
Theorem equal_entries_are_orbits (K : OrdField) n G gens order d (ineqs eqs : list (poly K)) :
  is_group n G -> (forall p, In p G <-> generated n gens p) -> order_ok order ->
  (forall g, In g (ineqs ++ eqs) -> wf n g) -> existsb (bad_ineq d) ineqs = false ->
  let cs := columns n d ineqs eqs in
  let groups := equal_entries n G gens order d ineqs eqs in
  (forall c, In c groups -> c <> [] /\ NoDup c /\ forall k, In k c -> (k < length cs)%nat) /\
  (forall c c' k, In c groups -> In c' groups -> In k c -> In k c' -> c = c') /\
  (forall c k k', In c groups -> In k c ->
    (In k' c <-> (k' < length cs)%nat /\ rel K G (nth k cs (Mult 0 [] [])) (nth k' cs (Mult 0 [] [])))).
Proof.
  intros HG Hgens HO H B cs groups. pose proof (equal_entries_blk K n G gens order HG Hgens HO d ineqs eqs H B) as X. split; [|split].
  - intros c Hc. split; [apply (b_ne _ _ _ _ _ X c Hc)|]. split; [apply (b_nodup _ _ _ _ _ X c Hc)|]. intros k Hk. apply (b_range _ _ _ _ _ X c k Hc Hk).
  - apply (b_disj _ _ _ _ _ X).
  - intros c k k' Hc Hk. rewrite (b_mem _ _ _ _ _ X c k k' Hc Hk). rewrite !Nat.sub_0_r. unfold cs. split; intros [R1 R2]; (split; [lia|exact R2]).
Qed.
Print Assumptions equal_entries_are_orbits.
(** Every entry of an invariant constraint is listed; of another constraint exactly the off-diagonal entries of its
    Gram matrix are. *)
Theorem equal_entries_cover (K : OrdField) n G gens order d (ineqs eqs : list (poly K)) a :
  is_group n G -> (forall p, In p G <-> generated n gens p) -> order_ok order ->
  (forall g, In g (ineqs ++ eqs) -> wf n g) -> existsb (bad_ineq d) ineqs = false ->
  (a < length (columns n d ineqs eqs))%nat ->
  ((exists c, In c (equal_entries n G gens order d ineqs eqs) /\ In a c) <->
   match nth a (columns n d ineqs eqs) (Mult 0 [] []) with Gram _ g u w => symm K G g \/ u <> w | Mult _ h _ => symm K G h end).
Proof. intros HG Hgens HO. exact (entry_listed K n G gens order HG Hgens HO d ineqs eqs a). Qed.
Print Assumptions equal_entries_cover.
Example equal_entries_case :
  equal_entries 2 S2 g2 set_order 4 [one2; ab] [ab] =
    [[0;8]; [1;3;5;7]; [2;6]; [4]; [1;3;5;7]; [9;12]; [10;11]; [13;15]; [14]]%nat /\ length (columns 2 4 [one2; ab] [ab]) = 16%nat.
Proof. vm_compute. split; reflexivity. Qed.
(** Literal covering is false: the diagonal entries of a constraint that is not invariant are in no group. *)
Theorem equal_entries_cover_all_refuted :
  length (columns 2 4 [[([2;0]%nat, zc 1)]] []) = 4%nat /\ equal_entries 2 S2 g2 set_order 4 [[([2;0]%nat, zc 1)]] [] = [[1;2]]%nat.
Proof. vm_compute. split; reflexivity. Qed.
Print Assumptions equal_entries_cover_all_refuted.
