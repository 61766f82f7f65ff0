(** * C78: the factorised form of a polynomial with respect to a permutation group *)
From Coq Require Import Bool List Arith Lia ZArith QArith Qcanon Ring Field.
From Verif Require Import OrdField Base Perm PermCheck Poly PolyId CyclicRw CyclicFacts FactorForm FactorFormEx.
Import ListNotations.
Local Open Scope of_scope.

(** The coefficient, the remaining factors and the products of the images of the cyclic parts multiply
    to the factorised polynomial up to the sign, for every group, every order [cmp] and every list of
    factors; the sign is right for a group of even order and for factors none of which is the negative
    of an image of a factor. All the factors of the answer are factors of the input with positive powers. *)
Theorem factor_form_exact_partial : forall (K : OrdField) (cmp : poly K -> poly K -> bool) n G coeff factors c rest cyc, is_group n G ->
  (forall t, In t factors -> wf n (fst t)) ->
  reduce_factor_list cmp G coeff factors = (c, rest, cyc) ->
  (exists s : K, (s = 1 \/ s = - (1)) /\ (forall x, s * (c * pprod K x rest * cprod_val K G x cyc) = coeff * pprod K x factors) /\
    (Nat.odd (length G) = false \/ no_negative_image K G (map fst factors) -> s = 1)) /\
  (forall t, In t rest \/ In t cyc -> In (fst t) (map fst factors) /\ (0 < snd t)%nat).
Proof. intros K cmp n G coeff factors c rest cyc HG. exact (reduce_spec K cmp n G HG coeff factors c rest cyc). Qed.
Print Assumptions factor_form_exact_partial.

(** The sign is wrong for an odd group: the representative printed for a cyclic part may be the negative
    of an image of the factor for which the sign was computed. This happens for the order of sympy and for
    the opposite order. *)
Theorem factor_form_sign_refuted :
  (exists factors : list (poly QcOF * nat), (forall t, In t factors -> wf 3 (fst t)) /\
    exists c rest cyc, reduce_factor_list dense_lt C3 (1 : QcOF) factors = (c, rest, cyc) /\
      exists x, ~ c * pprod QcOF x rest * cprod_val QcOF C3 x cyc = 1 * pprod QcOF x factors) /\
  (exists factors : list (poly QcOF * nat), (forall t, In t factors -> wf 3 (fst t)) /\
    exists c rest cyc, reduce_factor_list (fun f h => dense_lt h f) C3 (1 : QcOF) factors = (c, rest, cyc) /\
      exists x, ~ c * pprod QcOF x rest * cprod_val QcOF C3 x cyc = 1 * pprod QcOF x factors).
Proof. exact sign_refuted. Qed.
Print Assumptions factor_form_sign_refuted.

(** a^2 b^2 c (a - b)^2 (b - c) (a - c) with the cyclic group: one power of a, b and a - b is left, and the
    cyclic parts are the products over abc and over the three differences *)
Example factor_form_example : is_group 3 C3 /\ (forall t, In t ex_fs -> wf 3 (fst t)) /\
  exists c rest cyc, reduce_factor_list dense_lt C3 (1 : QcOF) ex_fs = (c, rest, cyc) /\ (length rest = 3 /\ length cyc = 2 /\ map snd rest = [1; 1; 1] /\ map snd cyc = [1; 1])%nat /\
    c = - (1) /\ forall x, c * pprod QcOF x rest * cprod_val QcOF C3 x cyc = 1 * pprod QcOF x ex_fs.
Proof. exact ex_factor_form. Qed.
(** a group of even order: the sign is always right *)
Example factor_form_even : is_group 2 [[0; 1]; [1; 0]]%nat /\ Nat.odd (length [[0; 1]; [1; 0]]%nat) = false.
Proof. split; [apply group_check_sound; vm_compute; reflexivity|reflexivity]. Qed.
(** an odd group with factors none of which is the negative of an image: a^2 b c *)
Example factor_form_no_negative : no_negative_image QcOF C3 (map fst [(lin 0 0 1, 1%nat); (lin 0 1 0, 1%nat); (lin 1 0 0, 2%nat)]).
Proof.
  intros f h g If Ih _ H. specialize (H (fun _ => 1)). cbn [map fst] in If, Ih.
  repeat (destruct If as [<-|If]; [repeat (destruct Ih as [<-|Ih]; [revert H; apply neq_by; vm_compute; reflexivity|]); destruct Ih|]); destruct If.
Qed.
