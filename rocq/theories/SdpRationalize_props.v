(** * C28: exact decompositions from numerical vectors *)
From Coq Require Import Bool List Arith Lia NArith ZArith Znumtheory QArith Qcanon.
From Verif Require Import OrdField Base Congruence SdpRationalize.
Import ListNotations.
Local Open Scope of_scope.

(** ** The size test *)
(** the denominator of a rational number *)
Definition qden (v : QcOF) : N := Npos (Qden (this v)).
(** [v] times [D] is an integer *)
Definition clears (D : positive) (v : QcOF) : Prop := exists z : Z, (inject_Z (Zpos D) * this v == inject_Z z)%Q.
Lemma clears_iff D v : clears D v <-> N.divide (qden v) (Npos D).
Proof.
  unfold clears, qden. pose proof (canon v) as C. destruct (this v) as [n d]. cbn [Qden].
  assert (G : Z.gcd n (Zpos d) = 1%Z).
  { unfold Qred in C. pose proof (Z.ggcd_gcd n (Zpos d)) as E1. pose proof (Z.ggcd_correct_divisors n (Zpos d)) as E2.
    destruct (Z.ggcd n (Zpos d)) as [g [a b]]. cbn in E1. destruct E2 as [E2 E3]. subst g.
    injection C as E4 E5. assert (P : (0 < b)%Z).
    { pose proof (Z.gcd_nonneg n (Zpos d)) as X. revert E3 X. generalize (Z.gcd n (Zpos d)). intros g E3 X. destruct b as [|b|b]; [lia|lia|]. pose proof (Pos2Z.is_nonneg b). exfalso. assert (g * Z.neg b <= 0)%Z by (rewrite <- Pos2Z.opp_pos, Z.mul_opp_r; nia). lia. }
    assert (B : b = Zpos d) by (destruct b; cbn in E5; [lia|congruence|lia]). rewrite B in E3. apply (Z.mul_reg_r _ _ (Zpos d)); [discriminate|]. rewrite <- E3. lia. }
  split.
  - intros [z E]. assert (E' : (Zpos D * n * 1 = z * Zpos (1 * d))%Z) by exact E. rewrite Pos.mul_1_l in E'.
    assert (X : (Zpos d | Zpos D)%Z).
    { apply Z.gauss with n; [exists z; lia|rewrite Z.gcd_comm; exact G]. }
    destruct X as [k Ek]. assert (0 < k)%Z by nia. exists (Z.to_N k). apply N2Z.inj. rewrite N2Z.inj_mul, Z2N.id by lia. cbn. lia.
  - intros [k E]. exists (Z.of_N k * n)%Z. apply (f_equal Z.of_N) in E. rewrite N2Z.inj_mul in E. cbn [Z.of_N] in E. change ((Zpos D * n * 1 = Z.of_N k * n * Zpos (1 * d))%Z). rewrite E, Pos.mul_1_l. ring.
Qed.
(** [verify_is_pretty] accepts exactly the vectors with a common denominator at
    most [max(36, largest denominator)^2]. *)
Theorem pretty_common_denominator (y : list QcOF) :
  verify_is_pretty qden y None = true <->
  exists D : positive, (N.pos D <= let m := N.max 36 (fold_right N.max 0%N (map qden y)) in m * m)%N /\ forall v, In v y -> clears D v.
Proof.
  rewrite (pretty_iff QcOF qden y) by discriminate. unfold default_threshold. cbv zeta. split.
  - intros (D & D0 & D1 & D2). destruct D as [|D]; [congruence|]. exists D. split; [exact D1|].
    intros v Hv. apply clears_iff, D2, Hv.
  - intros (D & D1 & D2). exists (Npos D). split; [discriminate|]. split; [exact D1|].
    intros v Hv. apply clears_iff, D2, Hv.
Qed.
Print Assumptions pretty_common_denominator.
Example pretty_cases :
  verify_is_pretty qden [q 2 11; q 56 33; q 18 11; q 2 3] None = true /\
  verify_is_pretty qden [q 2 13; q 3 5; q 4 7; q 5 11] None = false.
Proof. split; vm_compute; reflexivity. Qed.

(** ** The answer *)
(** The matrix [M] is [U^T diag(w) U] with non-negative [w]; its quadratic form
    is the weighted sum of squares of the rows of [U]. *)
Definition exact_decomposition {K : OrdField} (M U : list (list K)) (w : list K) : Prop :=
  let n := length M in
  length U = n /\ length w = n /\
  (forall i j, (i < n)%nat -> (j < n)%nat -> mget M i j = bsum n (fun k => mget U k i * vget w k * mget U k j)) /\
  (forall i, (i < n)%nat -> 0 <= vget w i).

(** The candidates: an exact vector itself; for a numerical vector all vectors yielded by the rationalizers in turn. *)
Definition tried {K : OrdField} (exact : bool) (y : list K) (rats : list (list K -> list (list K))) : list (list K) :=
  match y with [] => [[]] | _ => if exact then [y] else concat (map (fun r => r y) rats) end.
Lemma tried_candidates (K : OrdField) exact (y : list K) rats : candidates exact y rats = tried exact y rats.
Proof. unfold candidates, tried. rewrite flat_map_concat_map. reflexivity. Qed.

(** Without regularisation and perturbation: the answer is made from the first
    acceptable candidate, it lists every matrix, and every decomposition is exact.
    The numbers behind [min_neg] and [shifts] do not matter. *)
Theorem rationalize_first_and_exact (K : OrdField) den min_neg shifts mat_func projection exact (y : list K) rats check y' d :
  mats_ok mat_func ->
  rationalize_and_decompose den min_neg shifts mat_func projection exact y rats 0 false check = Some (y', d) ->
  (exists pre c post, tried exact y rats = pre ++ c :: post /\
     acceptable den mat_func projection 0 check c /\ (forall z, In z pre -> ~ acceptable den mat_func projection 0 check z) /\
     y' = match projection with None => c | Some f => f c end) /\
  map (fun e => (fst e, fst (fst (snd e)))) d = mat_func y' /\
  forall key M U w, In (key, (M, U, w)) d -> exact_decomposition M U w.
Proof.
  intros HM H. pose proof (rationalize_spec K den min_neg shifts mat_func projection exact y rats 0 check HM) as R. rewrite H, tried_candidates in R.
  destruct R as (pre & c & post & E & A & N & P & F). split; [exists pre, c, post; auto|]. clear - F.
  unfold same_shape in F. rewrite (proj2 (feqb_eq K 0 0) eq_refl) in F.
  induction F as [|[k S] [k' [[M U] w]] l d (H1 & H2 & H3) F [IH1 IH2]]; [split; [reflexivity|intros ? ? ? ? []]|].
  cbn [fst snd] in *. cbv zeta in H3. subst M k'. split; [cbn; rewrite IH1; reflexivity|].
  intros key M U' w' [E|Hin]; [|apply (IH2 key), Hin]. injection E as <- <- <- <-. exact H3.
Qed.
Print Assumptions rationalize_first_and_exact.

(** The call fails exactly when no candidate is acceptable. *)
Theorem rationalize_none_iff (K : OrdField) den min_neg shifts mat_func projection exact (y : list K) rats reg check :
  mats_ok mat_func ->
  (rationalize_and_decompose den min_neg shifts mat_func projection exact y rats reg false check = None <->
   forall z, In z (tried exact y rats) -> ~ acceptable den mat_func projection reg check z).
Proof.
  intro HM. pose proof (rationalize_spec K den min_neg shifts mat_func projection exact y rats reg check HM) as R. rewrite tried_candidates in R.
  destruct (rationalize_and_decompose _ _ _ _ _ _ _ _ _ _ _) as [[y' d]|]; [|tauto]. split; [discriminate|].
  intro N. exfalso. destruct R as (pre & c & post & E & A & _). apply (N c); [|exact A]. rewrite E. apply in_or_app. right. left. reflexivity.
Qed.
Print Assumptions rationalize_none_iff.

(** With [allow_numer = 0] the solver hands out only exact decompositions of
    the matrices of the vector it hands out; it returns [None] only when no
    configuration has a numerical answer and raises only when one has. *)
Theorem solve_exact (K : OrdField) den min_neg shifts mat_func projection rats1 rats2 mean dof nums (old : list (list K)) :
  mats_ok mat_func ->
  match solve_configs den min_neg shifts mat_func projection rats1 rats2 mean dof 0 nums old [] with
  | Ok (Some (y, ds)) =>
      map fst ds = map fst (mat_func y) /\
      forall key s, In (key, s) ds -> exists M U w, s = Triple (M, U, w) /\ unpack (slice s) = Ok (U, w) /\
        In (key, M) (mat_func y) /\ exact_decomposition M U w
  | Ok None => forall o, In o nums -> o = None
  | Err _ => exists y, In (Some y) nums
  end.
Proof.
  intro HM. pose proof (solve_configs_exact K den min_neg shifts mat_func projection rats1 rats2 mean dof nums old HM []) as H.
  destruct (solve_configs _ _ _ _ _ _ _ _ dof 0 nums old []) as [[[y ds]|]|e].
  - destruct H as (d & -> & F). unfold same_shape in F. rewrite (proj2 (feqb_eq K 0 0) eq_refl) in F.
    generalize dependent (mat_func y). intros l F.
    induction F as [|[k S] [k' [[M U] w]] l d (H1 & H2 & H3) F [IH1 IH2]]; [split; [reflexivity|intros ? ? []]|].
    cbn [fst snd] in *. cbv zeta in H3. subst M k'. split; [cbn; rewrite IH1; reflexivity|].
    intros key s [E|Hin].
    + injection E as <- <-. exists S, U, w. repeat (split; [reflexivity || (left; reflexivity)|]). exact H3.
    + destruct (IH2 key s Hin) as (M & U' & w' & E1 & E2 & E3 & E4). exists M, U', w'. repeat split; auto; try apply E4. right. exact E3.
  - apply H.
  - destruct H as [_ [H|H]]; [congruence|exact H].
Qed.
Print Assumptions solve_exact.

(** [register_y] without perturbation: the stored decompositions are exact; it
    raises only when some matrix is not positive semidefinite or the vector is empty. *)
Theorem register_y_exact (K : OrdField) (min_neg : list (list K) -> bool) shifts mat_func projection dof (y : list K) :
  mats_ok mat_func ->
  match register_y min_neg shifts mat_func projection dof false y with
  | Ok (y', r) => y' = match projection with None => y | Some f => f y end /\
      map (fun e => (fst e, fst (snd e))) r = mat_func y' /\
      forall key M U w, In (key, (M, (U, w))) r -> exact_decomposition M U w
  | Err e => e = ValueError /\ (y = [] /\ dof <> 0%nat \/
      exists key M x, In (key, M) (mat_func (match projection with None => y | Some f => f y end)) /\
        bsum (length M) (fun i => bsum (length M) (fun j => x i * mget M i j * x j)) < 0)
  end.
Proof.
  intro HM. unfold register_y. fold (project projection y).
  destruct (match y with [] => negb (dof =? 0)%nat | _ => false end) eqn:E.
  - split; [reflexivity|]. left. destruct y; [|discriminate]. apply negb_true_iff, Nat.eqb_neq in E. auto.
  - assert (HW : forall key S, In (key, S) (mat_func (project projection y)) -> wfm K S) by (intros k S H; apply (HM _ k S H)).
    pose proof (register_loop_spec K min_neg shifts _ HW) as R.
    destruct (register_loop min_neg shifts false (mat_func (project projection y))) as [r|e].
    + split; [reflexivity|]. revert R. generalize (mat_func (project projection y)). intros l F. 
      induction F as [|[k S] [k' [M [U w]]] l d (H1 & H2 & H3) F [IH1 IH2]]; [split; [reflexivity|intros ? ? ? ? []]|].
      cbn [fst snd] in *. cbv zeta in H3. subst M k'. split; [cbn; rewrite IH1; reflexivity|].
      intros key M U' w' [E'|Hin]; [|apply (IH2 key), Hin]. injection E' as <- <- <- <-. exact H3.
    + destruct R as [-> R]. split; [reflexivity|]. right. exact R.
Qed.
Print Assumptions register_y_exact.

(** ** A case: the first candidate has a negative matrix, the second is accepted;
    the third, also good, is not looked at. *)
Definition mf (y : list QcOF) : list (nat * list (list QcOF)) := [(0%nat, [[q 1 1; vget y 0]; [vget y 0; q 1 1]]); (1%nat, [[vget y 0]])].
Definition rats : list (list QcOF -> list (list QcOF)) := [fun _ => [[q 2 1]; [q 1 2]]; fun _ => [[q 0 1]]].
Definition no_neg (_ : list (list QcOF)) : bool := false.
Definition no_shift (_ : list (list QcOF)) : list QcOF := [].
Example mf_ok : mats_ok mf.
Proof.
  intros y key S [E|[E|[]]]; injection E as <- <-; (split; [|intros row H; repeat (destruct H as [<-|H]; [reflexivity|]); destruct H]).
  - intros i j Hi Hj. cbn in Hi, Hj. do 2 (destruct i as [|i]; [do 2 (destruct j as [|j]; [reflexivity|]); lia|]). lia.
  - intros i j Hi Hj. cbn in Hi, Hj. destruct i as [|i]; [destruct j as [|j]; [reflexivity|lia]|lia].
Qed.
Example rationalize_case :
  match rationalize_and_decompose qden no_neg no_shift mf None false [q 2 1] rats 0 false true with
  | Some ([v], [(0%nat, (_, U, w)); (1%nat, (_, _, [w1]))]) =>
      qc_eqb v (q 1 2) && qc_eqb (vget w 1) (q 3 4) && qc_eqb (mget U 0 1) (q 1 2) && qc_eqb w1 (q 1 2)
  | _ => false
  end = true.
Proof. vm_compute. reflexivity. Qed.

(** ** Refutations *)
(** With a regularisation the returned matrix is not the matrix of the returned
    vector, and the matrix of the returned vector need not be positive semidefinite. *)
Theorem regularised_answer_refuted :
  match rationalize_and_decompose qden no_neg no_shift (fun _ => [(0%nat, [[q (-1) 1]])]) None true [q 1 1] [] 1 false true with
  | Some (_, [(_, (M, _, _))]) => this (mget M 0 0) = (0 # 1)%Q
  | _ => False
  end.
Proof. vm_compute. reflexivity. Qed.
Print Assumptions regularised_answer_refuted.
(** With [perturb=True] the decomposition is not that of the returned matrix: weight 1 for the matrix -1. *)
Theorem perturbed_decomposition_refuted :
  match rationalize_and_decompose qden (fun _ => true) (fun _ => [q 2 1]) (fun _ => [(0%nat, [[q (-1) 1]])]) None true [q 1 1] [] 0 true true with
  | Some (_, [(_, (M, U, w))]) => this (mget M 0 0) = (-1 # 1)%Q /\ this (mget U 0 0) = (1 # 1)%Q /\ this (vget w 0) = (1 # 1)%Q
  | _ => False
  end.
Proof. vm_compute. repeat split. Qed.
Print Assumptions perturbed_decomposition_refuted.
(** The vector is tested before it is projected: the returned vector may fail the test. *)
Theorem projected_vector_not_tested_refuted :
  match rationalize_and_decompose qden no_neg no_shift (fun _ => []) (Some (fun _ => [q 2 13; q 3 5; q 4 7; q 5 11])) true [q 1 1] [] 0 false true with
  | Some (y', _) => verify_is_pretty qden y' None = false
  | None => False
  end.
Proof. vm_compute. reflexivity. Qed.
Print Assumptions projected_vector_not_tested_refuted.
(** [allow_numer >= 2]: the stored decompositions have one component, so unpacking them into U and S raises. *)
Theorem forced_answer_not_unpackable_refuted :
  match solve_configs qden no_neg no_shift mf None [] [] (fun _ => []) 1 3 [Some [q 1 2]] [] [] with
  | Ok (Some (_, [(_, s1); (_, s2)])) => unpack (slice s1) = Err ValueError /\ unpack (slice s2) = Err ValueError
  | _ => False
  end.
Proof. vm_compute. split; reflexivity. Qed.
Print Assumptions forced_answer_not_unpackable_refuted.
