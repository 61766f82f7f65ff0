(** * C79: the standard form of a polynomial *)
From Coq Require Import Bool List Arith Lia ZArith QArith Qcanon.
From Verif Require Import OrdField Base CyclicRw CyclicFacts FactorFormEx Perm PermCheck Poly PolyId Coeff Monomials StdForm StdFormMain.
Import ListNotations.
Local Open Scope of_scope.

(** For every permutation group with generators [gens] and every polynomial the printed terms have the
    value of the polynomial: the sum over the group of the printed terms if they are wrapped as s(...),
    their plain sum otherwise. They are wrapped exactly for an invariant polynomial and a group that is
    not trivial; then they are one per orbit, the largest monomial of it. No exception is raised. *)
Theorem standard_form_exact : forall (K : OrdField) n G gens (p : poly K), is_group n G ->
  (forall g, In g gens -> In g G) -> (forall g, In g G -> generated n gens g) -> gens <> [] -> wf n p -> (forall t, In t p -> snd t <> 0) ->
  exists b l, standard_form n (length G) gens p = Ok (b, l) /\
    (b = true <-> (forall g, In g G -> invariant_under g p) /\ length G <> 1%nat) /\
    (b = true -> (forall x, group_sum_value K G x l = peval x p) /\
       NoDup (map fst l) /\ forall m g, In m (map fst l) -> In g G -> lex_ge m (act 0%nat g m)) /\
    (b = false -> forall x, peval x l = peval x p).
Proof. intros K n G gens p HG. exact (standard_form_spec K n G HG gens p). Qed.
Print Assumptions standard_form_exact.

(** The union-find structure built from the generators: its keys are exactly the monomials, the root of a
    monomial is the largest monomial of its orbit and is counted with the size of the orbit. *)
Theorem standard_form_orbits : forall n G gens M, is_group n G -> (forall g, In g gens -> In g G) -> (forall g, In g G -> generated n gens g) -> gens <> [] ->
  (forall m, In m M -> length m = n) -> NoDup M -> (forall g m, In g G -> In m M -> In (act 0%nat g m) M) ->
  forall m, In m M -> fst (find_root (forest gens M) m) = lex_max (map (fun g => act 0%nat g m) G) /\
    ufs_size (fst (count_roots (ukeys (forest gens M)) (forest gens M))) (fst (find_root (forest gens M) m)) = length (nodup mon_dec (map (fun g => act 0%nat g m) G)).
Proof. exact forest_orbits. Qed.
Print Assumptions standard_form_orbits.

(** s(a^3 + a b c / 3): a^3 + b^3 + c^3 + a b c with the cyclic group *)
Definition ex_p : poly QcOF := [([0;3;0]%nat, 1); ([1;1;1]%nat, 1); ([0;0;3]%nat, 1); ([3;0;0]%nat, 1)].
Example standard_form_example : is_group 3 C3 /\ wf 3 ex_p /\ (forall g, In g C3 -> generated 3 [[1;2;0]]%nat g) /\
  exists l, standard_form 3 3 [[1;2;0]]%nat ex_p = Ok (true, l) /\ map fst l = [[1;1;1]; [3;0;0]]%nat.
Proof.
  split; [exact C3_group|]. split; [apply wfb_sound; vm_compute; reflexivity|]. split.
  - intros g [<-|[<-|[<-|[]]]]; [apply gen_id|apply gen_in; left; reflexivity|].
    change [2;0;1]%nat with (pcomp [1;2;0]%nat [1;2;0]%nat). apply gen_mul; apply gen_in; left; reflexivity.
  - destruct (standard_form 3 3 [[1;2;0]]%nat ex_p) as [[b l]|] eqn:E; [|vm_compute in E; discriminate].
    assert (X : b = true /\ map fst l = [[1;1;1]; [3;0;0]]%nat) by (vm_compute in E; injection E as <- <-; split; reflexivity).
    destruct X as [-> X]. exists l. split; [reflexivity|exact X].
Qed.
