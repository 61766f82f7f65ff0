(** * Properties C05, C06, C53 and C54: symmetry tests and monomial extraction *)
From Coq Require Import Bool List ZArith Arith Lia Permutation.
From Verif Require Import OrdField Base Perm PermCheck Poly PolyId Coeff.
Import ListNotations.

(** ** C05 *)
Theorem is_cyclic_iff_group_invariant (K : OrdField) n gens (p : poly K) :
  wf n p -> (forall h, In h gens -> is_perm n h) ->
  (is_cyclic n gens p = true <-> forall g, generated n gens g -> invariant_under g p).
Proof. exact (is_cyclic_spec K n gens p). Qed.
Print Assumptions is_cyclic_iff_group_invariant.

Theorem verify_is_symmetric_iff (K : OrdField) (p : poly K) :
  wf 3 p -> (verify_is_symmetric p = true <-> invariant_under [1; 0; 2] p).
Proof. exact (verify_is_symmetric_spec K p). Qed.
Print Assumptions verify_is_symmetric_iff.

(** a cyclic polynomial accepted by the swap test is invariant under all six permutations *)
Theorem verify_is_symmetric_of_cyclic (K : OrdField) (p : poly K) :
  wf 3 p -> invariant_under [1; 2; 0] p -> verify_is_symmetric p = true ->
  forall g, generated 3 [[1; 2; 0]; [1; 0; 2]] g -> invariant_under g p.
Proof.
  intros Hp H1 H2. apply verify_is_symmetric_spec in H2; [|exact Hp].
  assert (Hg : forall h, In h [[1;2;0];[1;0;2]] -> is_perm 3 h).
  { intros h [<-|[<-|[]]]; apply permb_spec; reflexivity. }
  intros g Hgg. refine (proj2 (rename_invariant_iff K 3 g p (generated_perm 3 _ g Hg Hgg) Hp) _).
  apply (generated_inv K 3 _ p Hg) with (g := g); [|exact Hgg].
  intros h [<-|[<-|[]]].
  - exact (proj1 (rename_invariant_iff K 3 _ p (Hg _ (or_introl eq_refl)) Hp) H1).
  - exact (proj1 (rename_invariant_iff K 3 _ p (Hg _ (or_intror (or_introl eq_refl))) Hp) H2).
Qed.
Print Assumptions verify_is_symmetric_of_cyclic.

(** ** C53: [verify_hom_cyclic] *)
Theorem verify_hom_cyclic_correct (K : OrdField) (p : poly K) : wf 3 p ->
  (fst (verify_hom_cyclic p) = true <-> exists d, forall m, In m (keys p) -> list_sum m = d) /\
  (verify_hom_cyclic p = (true, true) <->
     (exists d, forall m, In m (keys p) -> list_sum m = d) /\ invariant_under [1; 2; 0] p).
Proof. exact (verify_hom_cyclic_spec K p). Qed.
Print Assumptions verify_hom_cyclic_correct.

Definition ex_p : poly QcOF := [([2;1;0], q 1 1); ([0;2;1], q 1 1); ([1;0;2], q 1 1)].
Example ex_wf : wf 3 ex_p.
Proof. split; [repeat constructor; cbn; intuition discriminate|]. intros m [<-|[<-|[<-|[]]]]; reflexivity. Qed.
Example C05_ex : is_cyclic 3 [[1;2;0]] ex_p = true /\ is_cyclic 3 [[1;2;0];[1;0;2]] ex_p = false
  /\ verify_hom_cyclic ex_p = (true, true) /\ verify_is_symmetric ex_p = false.
Proof. vm_compute. auto. Qed.

(** ** C06 *)
Theorem cancel_abc_factor (K : OrdField) n (p : poly K) (x : nat -> K) : wf n p ->
  peval x p = (meval x (fst (cancel_abc n p)) * peval x (snd (cancel_abc n p)))%F.
Proof. exact (cancel_abc_identity K n p x). Qed.
Print Assumptions cancel_abc_factor.

Theorem cancel_abc_no_factor_left (K : OrdField) n (p : poly K) :
  wf n p -> p <> [] -> (forall m c, In (m, c) p -> c <> f0) ->
  forall i, i < n -> exists m, In m (keys (snd (cancel_abc n p))) /\ nth i m 0 = 0.
Proof. exact (cancel_abc_maximal K n p). Qed.
Print Assumptions cancel_abc_no_factor_left.

Theorem cancel_k_substitution (K : OrdField) (p : poly K) (x : nat -> K) :
  peval x p = peval (fun i => fpow (x i) (fst (cancel_k p))) (snd (cancel_k p)).
Proof. exact (cancel_k_identity K p x). Qed.
Print Assumptions cancel_k_substitution.

Theorem cancel_k_is_greatest (K : OrdField) (p : poly K) k :
  p <> [] -> (forall m u, In m (keys p) -> In u m -> Nat.divide k u) -> Nat.divide k (fst (cancel_k p)).
Proof. exact (cancel_k_greatest K p k). Qed.
Print Assumptions cancel_k_is_greatest.

Definition ex_c : poly QcOF := [([4;2;0], q 3 1); ([2;6;2], q (-1) 2)].
Example C06_ex : cancel_abc 3 ex_c = ([2;2;0], [([2;0;0], q 3 1); ([0;4;2], q (-1) 2)]) /\
  cancel_k ex_c = (2, [([2;1;0], q 3 1); ([1;3;1], q (-1) 2)]).
Proof. vm_compute. auto. Qed.

(** ** C54: [Coeff] addition and subtraction *)
Theorem coeff_add_value (K : OrdField) (p r : poly K) (x : nat -> K) :
  NoDup (keys p) -> NoDup (keys r) -> peval x (coeff_add p r) = (peval x p + peval x r)%F.
Proof. exact (coeff_add_peval K p r x). Qed.
Print Assumptions coeff_add_value.
Theorem coeff_sub_value (K : OrdField) (p r : poly K) (x : nat -> K) :
  NoDup (keys p) -> NoDup (keys r) -> peval x (coeff_sub p r) = (peval x p - peval x r)%F.
Proof. exact (coeff_sub_peval K p r x). Qed.
Print Assumptions coeff_sub_value.
Example C54_ex : coeff_sub ex_c [([4;2;0], q 3 1); ([0;0;1], q 1 1)] = [([2;6;2], q (-1) 2); ([0;0;1], q (-1) 1)].
Proof. vm_compute. reflexivity. Qed.
