(** * Properties of the marking of assumed non-negative symbols (C34, C60) *)
From Coq Require Import Bool List Arith ZArith Lia.
From Verif Require Import OrdField Base Perm Cyclic CyclicRw CyclicFacts Extract.
Import ListNotations.
Local Open Scope of_scope.

(** C34.  Where no denominator vanishes, the marked expression has no vanishing denominator and
    the same value when every mark is read as its symbol. *)
Theorem extract_value (K : OrdField) (I : nat -> list K -> K) g ok e e' r :
  fresh g e = true -> dfs I g ok e = Some e' -> mdef I g r r e ->
  mdef I g r r e' /\ mev I g r r e' = cev I e r.
Proof. intros Hf H Hd. exact (dfs_value K I g ok e Hf e' H r Hd). Qed.
Print Assumptions extract_value.

(** C34.  The marked expression is non-negative for all values of the symbols and all
    non-negative values of the marks, if other functions take only non-negative values. *)
Theorem extract_nonnegative_partial (K : OrdField) (I : nat -> list K -> K) g ok e e' M r :
  (forall f l, 0 <= I f l) -> fresh g e = true -> dfs I g ok e = Some e' ->
  (forall s, 0 <= M s) -> mdef I g M r e' -> 0 <= mev I g M r e'.
Proof. intros HI Hf H HM Hd. exact (dfs_nonneg K I g ok e HI Hf e' H M r HM Hd). Qed.
Print Assumptions extract_nonnegative_partial.

(** Any function of the symbols is returned without a mark, also one with negative values. *)
Theorem extract_nonnegative_refuted :
  exists (I : nat -> list QcOF -> QcOF) g e e' (M r : nat -> QcOF), fresh g e = true /\ dfs I g (fun _ => true) e = Some e' /\
    (forall s, 0 <= M s) /\ mdef I g M r e' /\ mev I g M r e' < 0.
Proof.
  exists (fun _ _ => - q 1 1), 1%nat, (CFun 0%nat [CSym 0%nat]). eexists. exists (fun _ => 0), (fun _ => 0).
  split; [reflexivity|]. split; [reflexivity|]. split; [intro; apply fle_refl|]. split; [exact Logic.I|]. apply fltb_lt. vm_compute. reflexivity.
Qed.
Print Assumptions extract_nonnegative_refuted.

(** C60.  From the certificate of a solver to the answer: when every constraint is c*s >= 0 with a
    symbol s and the recorded expression has its value, the answer has at every feasible point the
    value of the certificate, and is non-negative.  None is returned when a symbol was assumed
    non-negative without a constraint.  Missing: constraints of degree other than one. *)
Theorem constraint_marks_sound_partial (K : OrdField) (I : nat -> list K -> K) g ok cs e v r :
  (forall f l, 0 <= I f l) -> fresh g e = true ->
  (forall c, In c cs -> constraint_holds K r c /\ v_lc c <> 0 /\ v_deg c = 1%nat) ->
  mdef I g r r e -> finish I g ok cs e = Some v -> v r = cev I e r /\ 0 <= v r.
Proof. exact (finish_spec K I g ok cs e v r). Qed.
Print Assumptions constraint_marks_sound_partial.

(** sum of a*(b-c)^2 + a^3, over a + b + c, and minus nothing; the constraints are 2*a, b, c >= 0 *)
Definition ex_cert : cx QcOF :=
  CMul [CCyc OpSum (CAdd [CMul [CSym 0; CPow (CAdd [CSym 1; CMul [CNum (- q 1 1); CSym 2]]) 2]; CPow (CSym 0) 3]) [0;1;2]%nat C3;
        CPow (CCyc OpSum (CSym 0) [0;1;2]%nat C3) (-1)].
Definition lin (s : nat) (c : QcOF) : @vcon QcOF := {| v_sym := s; v_deg := 1; v_lc := c; v_val := fun r => c * r s |}.
Definition pt345 (s : nat) : QcOF := match s with O => q 3 1 | 1%nat => q 4 1 | _ => q 5 1 end.
Example constraint_marks_case :
  (forall f l, 0 <= @noI QcOF f l) /\ fresh 7 ex_cert = true /\ mdef noI 7 pt345 pt345 ex_cert /\
  (forall c, In c [lin 0 (q 2 1); lin 1 (q 1 1); lin 2 (q 1 1)] -> constraint_holds QcOF pt345 c /\ v_lc c <> 0 /\ v_deg c = 1%nat) /\
  match finish noI 7 (fun _ => true) [lin 0 (q 2 1); lin 1 (q 1 1); lin 2 (q 1 1)] ex_cert with
  | Some v => Qcanon.this (v pt345) = QArith_base.Qmake 20 1 | None => False end /\
  match finish noI 7 (fun _ => true) [lin 0 (q 2 1); lin 2 (q 1 1)] ex_cert with Some _ => False | None => True end.
Proof.
  assert (NE : forall x : QcOF, (x =? 0) = false -> x <> 0).
  { intros x H E. rewrite (proj2 (feqb_eq QcOF x 0) E) in H. discriminate. }
  split; [intros f l; apply fle_refl|]. split; [reflexivity|]. split.
  { unfold ex_cert. cbn [mdef fold_right]. split; [intros p Hp; cbn; repeat split; intro; lia|]. split; [|exact Logic.I].
    split; [intros p Hp; exact Logic.I|]. intros _. apply NE. vm_compute. reflexivity. }
  split; [|split; vm_compute; [reflexivity|exact Logic.I]].
  intros c Hc. cbn [In] in Hc. destruct Hc as [<-|[<-|[<-|[]]]]; (split; [split; [cbn [v_val v_lc v_sym v_deg lin]; apply (f_equal (fun x => _ * x)); symmetry; apply pow_one|apply fleb_le; vm_compute; reflexivity]|split; [apply NE; vm_compute; reflexivity|reflexivity]]).
Qed.

(** The degree of the constraint is not looked at: with a^2 >= 0 recorded, a symbol assumed
    non-negative is replaced by a^2, and -1 is "certified" as 1.  (The callers pass constraints
    whose square factors were removed, see C14.) *)
Theorem constraint_marks_degree_refuted :
  exists (c : @vcon QcOF) e v (r : nat -> QcOF), fresh 7 e = true /\ constraint_holds QcOF r c /\ v_lc c <> 0 /\
    finish noI 7 (fun _ => true) [c] e = Some v /\ v r <> cev noI e r.
Proof.
  exists {| v_sym := 0; v_deg := 2; v_lc := q 1 1; v_val := fun r => q 1 1 * r 0%nat ^ 2 |}, (CSym 0%nat). eexists. exists (fun _ => - q 1 1).
  split; [reflexivity|]. split; [split; [reflexivity|apply fleb_le; vm_compute; reflexivity]|].
  split; [intro H; apply (f_equal (fun x => Qcanon.this x)) in H; vm_compute in H; discriminate|].
  split; [reflexivity|]. intro H. apply (f_equal (fun x => Qcanon.this x)) in H. vm_compute in H. discriminate.
Qed.
Print Assumptions constraint_marks_degree_refuted.
