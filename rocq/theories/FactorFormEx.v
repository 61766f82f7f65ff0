(** * Examples of the factorised form *)
From Coq Require Import Bool List Arith Lia ZArith QArith Qcanon.
From Verif Require Import OrdField Base Perm Poly PolyId CyclicRw CyclicFacts FactorForm.
Import ListNotations.
Local Open Scope of_scope.

Definition lin (a b c : QcOF) : poly QcOF := filter (fun t => negb (snd t =? 0)) [([1;0;0]%nat, a); ([0;1;0]%nat, b); ([0;0;1]%nat, c)].
(** (2b - c)(a - 2c)(2a - b) *)
Definition bad1 : list (poly QcOF * nat) := [(lin 0 (1 + 1) (- (1)), 1%nat); (lin 1 0 (- (1 + 1)), 1%nat); (lin (1 + 1) (- (1)) 0, 1%nat)].
(** (b - 2c)(a - 2b)(2a - c) *)
Definition bad2 : list (poly QcOF * nat) := [(lin 0 1 (- (1 + 1)), 1%nat); (lin 1 (- (1 + 1)) 0, 1%nat); (lin (1 + 1) 0 (- (1)), 1%nat)].
Definition ex_fs : list (poly QcOF * nat) :=
  [(lin 0 0 1, 1%nat); (lin 0 1 (- (1)), 1%nat); (lin 0 1 0, 2%nat); (lin 1 0 (- (1)), 1%nat); (lin 1 (- (1)) 0, 2%nat); (lin 1 0 0, 2%nat)].

Definition wfb (n : nat) (p : poly QcOF) : bool := (forallb (fun m => Nat.eqb (length m) n) (keys p) && (fix nd (l : list (list nat)) := match l with [] => true | m :: l' => negb (existsb (fun m' => if list_eq_dec Nat.eq_dec m m' then true else false) l') && nd l' end) (keys p))%bool.
Lemma wfb_sound n p : wfb n p = true -> wf n p.
Proof.
  intro H. apply andb_prop in H. destruct H as [A B]. split.
  - revert B. generalize (keys p). induction l as [|m l IH]; intro H; constructor.
    + apply andb_prop in H. destruct H as [H _]. intro I. apply negb_true_iff in H. assert (existsb (fun m' => if list_eq_dec Nat.eq_dec m m' then true else false) l = true); [|congruence].
      apply existsb_exists. exists m. split; [exact I|]. destruct (list_eq_dec Nat.eq_dec m m); congruence.
    + apply IH. apply andb_prop in H. apply H.
  - rewrite forallb_forall in A. intros m I. apply Nat.eqb_eq, A, I.
Qed.
Lemma all_wf n (fl : list (poly QcOF * nat)) : forallb (fun t => wfb n (fst t)) fl = true -> forall t, In t fl -> wf n (fst t).
Proof. intros H t I. rewrite forallb_forall in H. apply wfb_sound, H, I. Qed.
Lemma mul1 (u : QcOF) : u = 1 * u. Proof. symmetry. apply Qcmult_1_l. Qed.
Lemma neq_by (u v : QcOF) : feqb u v = false -> ~ u = v.
Proof. intros H ->. rewrite (proj2 (feqb_eq QcOF v v) eq_refl) in H. discriminate. Qed.

Lemma sign_refuted :
  (exists factors : list (poly QcOF * nat), (forall t, In t factors -> wf 3 (fst t)) /\
    exists c rest cyc, reduce_factor_list dense_lt C3 (1 : QcOF) factors = (c, rest, cyc) /\
      exists x, ~ c * pprod QcOF x rest * cprod_val QcOF C3 x cyc = 1 * pprod QcOF x factors) /\
  (exists factors : list (poly QcOF * nat), (forall t, In t factors -> wf 3 (fst t)) /\
    exists c rest cyc, reduce_factor_list (fun f h => dense_lt h f) C3 (1 : QcOF) factors = (c, rest, cyc) /\
      exists x, ~ c * pprod QcOF x rest * cprod_val QcOF C3 x cyc = 1 * pprod QcOF x factors).
Proof.
  split.
  - exists bad1. split; [apply all_wf; vm_compute; reflexivity|].
    set (r := reduce_factor_list dense_lt C3 (1 : QcOF) bad1). exists (fst (fst r)), (snd (fst r)), (snd r). split; [destruct r as [[? ?] ?]; reflexivity|].
    exists (fun _ => 1). apply neq_by. vm_compute. reflexivity.
  - exists bad2. split; [apply all_wf; vm_compute; reflexivity|].
    set (r := reduce_factor_list (fun f h => dense_lt h f) C3 (1 : QcOF) bad2). exists (fst (fst r)), (snd (fst r)), (snd r). split; [destruct r as [[? ?] ?]; reflexivity|].
    exists (fun _ => 1). apply neq_by. vm_compute. reflexivity.
Qed.

Lemma ex_factor_form : is_group 3 C3 /\ (forall t, In t ex_fs -> wf 3 (fst t)) /\
  exists c rest cyc, reduce_factor_list dense_lt C3 (1 : QcOF) ex_fs = (c, rest, cyc) /\ (length rest = 3 /\ length cyc = 2 /\ map snd rest = [1; 1; 1] /\ map snd cyc = [1; 1])%nat /\
    c = - (1) /\ forall x, c * pprod QcOF x rest * cprod_val QcOF C3 x cyc = 1 * pprod QcOF x ex_fs.
Proof.
  assert (W : forall t, In t ex_fs -> wf 3 (fst t)) by (apply all_wf; vm_compute; reflexivity).
  split; [exact C3_group|]. split; [exact W|].
  destruct (reduce_factor_list dense_lt C3 (1 : QcOF) ex_fs) as [[c rest] cyc] eqn:E. exists c, rest, cyc. split; [reflexivity|].
  destruct (reduce_spec QcOF dense_lt 3 C3 C3_group 1 ex_fs c rest cyc W E) as ((s & Hs & V & _) & _).
  assert (E' := E). vm_compute in E'. split; [injection E' as <- <- <-; repeat split|]. split; [apply feqb_eq; injection E' as <- _ _; vm_compute; reflexivity|].
  destruct Hs as [-> | ->].
  - intro x. rewrite <- V. apply mul1.
  - exfalso. pose proof (V (fun i => nth i [1 + 1 + 1; 1; 1 + 1] 0)) as X. apply feqb_eq in X. injection E' as <- <- <-. vm_compute in X. discriminate X.
Qed.
