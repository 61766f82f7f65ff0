(** * Model of [clear_free_symbols] (triples/core/structsos/utils.py:250-293) *)
From Coq Require Import Bool List Arith Lia Ring Field Permutation.
From Verif Require Import OrdField Base.
Import ListNotations.

(** Generators are numbered 0 .. n-1. A polynomial is seen through its set of free symbols, a
    list without repetition in an unspecified order ([free_symbols] is a Python set). *)

(** the dictionary [ufs] *)
Definition ufs : Type := nat -> nat.
Definition upd (u : ufs) (x y : nat) : ufs := fun z => if Nat.eqb z x then y else u z.
(** [ufsfind] (utils.py:263-267) with path compression. The recursion of the code is not bounded;
    [fuel] counts the parents followed, and [n] of them always suffice (see [find_spec]). *)
Fixpoint ufsfind (fuel : nat) (u : ufs) (x : nat) : nat * ufs :=
  if Nat.eqb (u x) x then (x, u)
  else match fuel with
       | O => (x, u)
       | S f => let (r, u') := ufsfind f u (u x) in (r, upd u' x r)
       end.
(** the loop of [ufsunion] (utils.py:273-274) *)
Fixpoint union_loop (n : nat) (y0 : nat) (v : list nat) (u : ufs) : ufs :=
  match v with
  | [] => u
  | x :: v' => let (r, u') := ufsfind n u x in union_loop n y0 v' (upd u' r y0)
  end.
(** [ufsunion] (utils.py:268-274); [v] is [p.free_symbols], its head is what [pop] takes *)
Definition ufsunion (n : nat) (u : ufs) (v : list nat) : ufs :=
  match v with
  | [] => u
  | x0 :: v' => let (y0, u') := ufsfind n u x0 in union_loop n y0 v' u'
  end.
(** [set(ufsfind(gen) for gen in l)]: the roots, threading the dictionary *)
Fixpoint find_all (n : nat) (u : ufs) (l : list nat) : list nat * ufs :=
  match l with
  | [] => ([], u)
  | x :: l' => let (r, u') := ufsfind n u x in let (rs, u'') := find_all n u' l' in (r :: rs, u'')
  end.
Definition memn (x : nat) (l : list nat) : bool := existsb (Nat.eqb x) l.

(** utils.py:261-285 *)
Definition active_gens (n : nat) (poly : list nat) (ineqs eqs : list (list nat)) : list nat :=
  let u0 := fun x => x in
  let u1 := fold_left (ufsunion n) (poly :: ineqs ++ eqs) u0 in
  let (roots, u2) := find_all n u1 poly in
  let (rs, _) := find_all n u2 (seq 0 n) in
  let active := map fst (filter (fun t => memn (snd t) roots) (combine (seq 0 n) rs)) in
  match active with [] => [0] | _ => active end.
(** [is_active] and the kept constraints (utils.py:287-292); positions in the list of constraints *)
Definition is_active (act : list nat) (p : list nat) : bool := existsb (fun x => memn x act) p.

(** ** Specification *)
(** two symbols are connected when a chain of polynomials links them *)
Inductive connected (ps : list (list nat)) : nat -> nat -> Prop :=
| con_refl x : connected ps x x
| con_step p x y z : In p ps -> In x p -> In y p -> connected ps y z -> connected ps x z.

Section Proofs.

Lemma connected_trans ps x y z : connected ps x y -> connected ps y z -> connected ps x z.
Proof. induction 1 as [|p a b c Hp Ha Hb H IH]; [auto|]. intro Hz. eapply con_step; eauto. Qed.
Lemma connected_sym ps x y : connected ps x y -> connected ps y x.
Proof.
  induction 1 as [|p a b c Hp Ha Hb H IH]; [constructor|]. eapply connected_trans; [exact IH|].
  eapply con_step; [exact Hp|exact Hb|exact Ha|constructor].
Qed.
Lemma connected_mono ps qs x y : (forall p, In p ps -> In p qs) -> connected ps x y -> connected qs x y.
Proof. intros H. induction 1 as [|p a b c Hp Ha Hb _ IH]; [constructor|]. eapply con_step; eauto. Qed.

(** *** the forest *)
Definition iter (u : ufs) k x := Nat.iter k u x.
Definition reaches (u : ufs) x r : Prop := exists k, iter u k x = r /\ u r = r.
(** a forest on 0..n-1 with root function [R] *)
Record forest (n : nat) (u : ufs) (R : nat -> nat) : Prop := {
  f_closed : forall x, x < n -> u x < n;
  f_root : forall x, x < n -> reaches u x (R x)
}.
Lemma iter_S u k x : iter u (S k) x = u (iter u k x). Proof. reflexivity. Qed.
Lemma iter_Sr u k x : iter u (S k) x = iter u k (u x).
Proof. induction k as [|k IH]; [reflexivity|]. rewrite iter_S, IH. reflexivity. Qed.
Lemma iter_add u a b x : iter u (a + b) x = iter u a (iter u b x).
Proof. induction a as [|a IH]; [reflexivity|]. cbn [Nat.add]. rewrite !iter_S, IH. reflexivity. Qed.
Lemma iter_fix u k r : u r = r -> iter u k r = r.
Proof. intro H. induction k as [|k IH]; [reflexivity|]. rewrite iter_S, IH. exact H. Qed.
Lemma iter_lt n u k x : (forall x, x < n -> u x < n) -> x < n -> iter u k x < n.
Proof. intros H Hx. induction k as [|k IH]; [exact Hx|]. rewrite iter_S. apply H, IH. Qed.
Lemma reaches_fun u x r r' : reaches u x r -> reaches u x r' -> r = r'.
Proof.
  intros [k [E Hr]] [k' [E' Hr']]. assert (A : iter u (k + k') x = r).
  { rewrite Nat.add_comm, iter_add, E. apply iter_fix, Hr. }
  rewrite iter_add, E', iter_fix in A by exact Hr'. congruence.
Qed.
Lemma reaches_step u x r : reaches u (u x) r -> reaches u x r.
Proof. intros [k [E H]]. exists (S k). rewrite iter_Sr. auto. Qed.
Lemma reaches_step_inv u x r : reaches u x r -> reaches u (u x) r.
Proof.
  intros [k [E H]]. destruct k as [|k].
  - cbn in E. subst r. exists 0. rewrite H. auto.
  - exists k. rewrite <- iter_Sr. auto.
Qed.

(** the least number of steps to the root is below the number of nodes *)
Lemma least_steps u x r k : iter u k x = r -> u r = r ->
  exists j, j <= k /\ iter u j x = r /\ forall i, i < j -> iter u i x <> r.
Proof.
  revert x. induction k as [|k IH]; intros x E H.
  - exists 0. repeat split; auto. intros; lia.
  - destruct (Nat.eq_dec x r) as [->|Hne].
    + exists 0. repeat split; auto; [lia|intros; lia].
    + rewrite iter_Sr in E. destruct (IH _ E H) as [j [Hj [E2 H2]]]. exists (S j). repeat split; [lia|rewrite iter_Sr; exact E2|].
      intros [|i] Hi; [exact Hne|]. rewrite iter_Sr. apply H2. lia.
Qed.
Lemma pigeon n u x r : (forall x, x < n -> u x < n) -> x < n -> reaches u x r ->
  exists j, j < n /\ iter u j x = r /\ u r = r.
Proof.
  intros Hc Hx [k [E Hr]]. destruct (least_steps u x r k E Hr) as [j [_ [Ej Hmin]]].
  exists j. split; [|auto].
  assert (Hinj : forall a b, a <= j -> b <= j -> a < b -> iter u a x <> iter u b x).
  { intros a b Ha Hb Hab Eab.
    assert (iter u (a + (j - b)) x = r).
    { rewrite Nat.add_comm, iter_add, Eab, <- iter_add. replace (j - b + b) with j by lia. exact Ej. }
    apply (Hmin (a + (j - b))); [lia|assumption]. }
  assert (Hnd : NoDup (map (fun i => iter u i x) (seq 0 (S j)))).
  { assert (G : forall l, NoDup l -> (forall i, In i l -> i <= j) -> NoDup (map (fun i => iter u i x) l)).
    { induction 1 as [|a l Ha Hl IH]; intro Hb; cbn; constructor.
      - intro Hin. apply in_map_iff in Hin. destruct Hin as [b [E1 Hb1]].
        assert (a <= j) by (apply Hb; left; reflexivity). assert (b <= j) by (apply Hb; right; exact Hb1).
        destruct (Nat.lt_trichotomy a b) as [H1|[H1|H1]].
        + apply (Hinj a b); auto.
        + subst. contradiction.
        + apply (Hinj b a); auto.
      - apply IH. intros i Hi. apply Hb. right. exact Hi. }
    apply G; [apply seq_NoDup|]. intros i Hi. apply in_seq in Hi. lia. }
  assert (Hinc : incl (map (fun i => iter u i x) (seq 0 (S j))) (seq 0 n)).
  { intros y Hy. apply in_map_iff in Hy. destruct Hy as [i [<- _]]. apply in_seq. split; [lia|]. apply iter_lt; assumption. }
  assert (HL := NoDup_incl_length Hnd Hinc). rewrite map_length, !seq_length in HL. lia.
Qed.

Lemma upd_same u x y : upd u x y x = y. Proof. unfold upd. rewrite Nat.eqb_refl. reflexivity. Qed.
Lemma upd_other u x y z : z <> x -> upd u x y z = u z. Proof. intro H. unfold upd. destruct (Nat.eqb_spec z x); congruence. Qed.

(** path compression: pointing a node at its root changes no root *)
Lemma reaches_compress u x r z rz : reaches u x r -> reaches u z rz -> reaches (upd u x r) z rz.
Proof.
  intros Hx [k [E Hrz]].
  assert (Hfix : forall w, u w = w -> upd u x r w = w).
  { intros w Hw. destruct (Nat.eq_dec w x) as [->|Hne]; [|rewrite upd_other; assumption].
    rewrite upd_same. apply (reaches_fun u x); [exact Hx|]. exists 0. auto. }
  revert z E. induction k as [|k IH]; intros z E.
  - cbn in E. subst z. exists 0. split; [reflexivity|apply Hfix, Hrz].
  - destruct (Nat.eq_dec z x) as [->|Hne].
    + assert (Er : r = rz). { apply (reaches_fun u x); [exact Hx|exists (S k); auto]. }
      exists 1. split; [cbn; rewrite upd_same; exact Er|apply Hfix, Hrz].
    + rewrite iter_Sr in E. apply reaches_step. rewrite upd_other by exact Hne. apply IH, E.
Qed.
Lemma compress_forest n u R x : forest n u R -> x < n -> R x < n -> forest n (upd u x (R x)) R.
Proof.
  intros [H1 H2] Hx HR. split.
  - intros z Hz. destruct (Nat.eq_dec z x) as [->|Hne]; [rewrite upd_same; exact HR|rewrite upd_other by exact Hne; apply H1, Hz].
  - intros z Hz. apply reaches_compress; apply H2; assumption.
Qed.
Lemma root_lt n u R x : forest n u R -> x < n -> R x < n.
Proof. intros [H1 H2] Hx. destruct (H2 x Hx) as [k [<- _]]. apply iter_lt; assumption. Qed.
Lemma root_root n u R x : forest n u R -> x < n -> u (R x) = R x /\ R (R x) = R x.
Proof.
  intros HF Hx. assert (HL := root_lt n u R x HF Hx). destruct HF as [H1 H2]. destruct (H2 x Hx) as [k [E H]]. split; [exact H|].
  apply (reaches_fun u (R x)); [apply H2, HL|]. exists 0. auto.
Qed.

Lemma find_fuel n u R : forest n u R -> forall f j x, x < n -> j <= f -> iter u j x = R x ->
  fst (ufsfind f u x) = R x /\ forest n (snd (ufsfind f u x)) R.
Proof.
  intros HF f. induction f as [|f IH]; intros j x Hx Hj Ej.
  - assert (j = 0) by lia. subst j. cbn in Ej. destruct (root_root n u R x HF Hx) as [Hr _]. rewrite <- Ej in Hr.
    cbn. rewrite Hr, Nat.eqb_refl. cbn. auto.
  - cbn [ufsfind]. destruct (Nat.eqb_spec (u x) x) as [E|E].
    + cbn. split; [|exact HF]. apply (reaches_fun u x); [exists 0; auto|]. apply HF, Hx.
    + destruct j as [|j].
      { cbn in Ej. exfalso. apply E. destruct (root_root n u R x HF Hx) as [Hr _]. rewrite <- Ej in Hr. exact Hr. }
      assert (Hux : u x < n) by (apply HF, Hx).
      assert (ER : R (u x) = R x).
      { apply (reaches_fun u (u x)); [apply HF, Hux|]. apply reaches_step_inv, HF, Hx. }
      destruct (IH j (u x) Hux) as [I1 I2]; [lia|rewrite ER; rewrite iter_Sr in Ej; exact Ej|].
      destruct (ufsfind f u (u x)) as [r u']. cbn [fst snd] in *. subst r. rewrite ER. split; [reflexivity|].
      apply compress_forest; [exact I2|exact Hx|apply (root_lt n u R x HF Hx)].
Qed.
Lemma find_spec n u R x : forest n u R -> x < n -> fst (ufsfind n u x) = R x /\ forest n (snd (ufsfind n u x)) R.
Proof.
  intros HF Hx. destruct (pigeon n u x (R x)) as [j [Hj [E _]]]; [apply HF|exact Hx|apply HF, Hx|].
  apply (find_fuel n u R HF n j x Hx); [lia|exact E].
Qed.

(** hanging the root [a] under the root [b] *)
Lemma link_forest n u R a b : forest n u R -> a < n -> b < n -> R a = a -> R b = b ->
  forest n (upd u a b) (fun z => if Nat.eqb (R z) a then b else R z).
Proof.
  intros HF Ha Hb Ea Eb. assert (Hra := root_root n u R a HF Ha). rewrite Ea in Hra. destruct Hra as [Ua _].
  assert (Hrb := root_root n u R b HF Hb). rewrite Eb in Hrb. destruct Hrb as [Ub _].
  assert (Ubu : upd u a b b = b).
  { destruct (Nat.eq_dec b a) as [->|Hne]; [apply upd_same|rewrite upd_other by exact Hne; exact Ub]. }
  split.
  - intros z Hz. destruct (Nat.eq_dec z a) as [->|Hne]; [rewrite upd_same; exact Hb|rewrite upd_other by exact Hne; apply HF, Hz].
  - intros z Hz. destruct HF as [H1 H2]. destruct (H2 z Hz) as [k [E Hk]].
    destruct (Nat.eqb_spec (R z) a) as [Ez|Ez].
    + rewrite Ez in E. clear Hk Ez Hz. revert z E. induction k as [|k IH]; intros z E.
      * cbn in E. subst z. exists 1. split; [cbn; apply upd_same|exact Ubu].
      * destruct (Nat.eq_dec z a) as [->|Hne]; [exists 1; split; [cbn; apply upd_same|exact Ubu]|].
        apply reaches_step. rewrite upd_other by exact Hne. apply IH. rewrite <- iter_Sr. exact E.
    + assert (Hpath : forall i, i <= k -> iter u i z <> a).
      { intros i Hi Ei. apply Ez. rewrite <- E. replace k with ((k - i) + i) by lia. rewrite iter_add, Ei. apply iter_fix, Ua. }
      assert (Hit : forall i, i <= k -> iter (upd u a b) i z = iter u i z).
      { induction i as [|i IH]; intro Hi; [reflexivity|]. rewrite !iter_S, IH by lia. apply upd_other. apply Hpath. lia. }
      exists k. split; [rewrite Hit by lia; exact E|]. rewrite upd_other by exact Ez. exact Hk.
Qed.

(** *** the partition *)
Definition classes (n : nat) (R : nat -> nat) (ps : list (list nat)) : Prop :=
  forall a b, a < n -> b < n -> (R a = R b <-> connected ps a b).
Definition bounded (n : nat) (ps : list (list nat)) : Prop := forall p x, In p ps -> In x p -> x < n.

Lemma connected_members ps qs x y : (forall p, In p ps -> exists q, In q qs /\ forall z, In z p -> In z q) ->
  connected ps x y -> connected qs x y.
Proof.
  intros H. induction 1 as [|p a b c Hp Ha Hb _ IH]; [constructor|]. destruct (H p Hp) as [q [Hq Hin]].
  eapply con_step; [exact Hq|apply Hin, Ha|apply Hin, Hb|exact IH].
Qed.
Lemma connected_one ps p x y : In p ps -> In x p -> In y p -> connected ps x y.
Proof. intros Hp Hx Hy. eapply con_step; [exact Hp|exact Hx|exact Hy|constructor]. Qed.

Lemma connected_single ps x0 a b : connected ([x0] :: ps) a b <-> connected ps a b.
Proof.
  split.
  - induction 1 as [|p u v w Hp Hu Hv _ IH]; [constructor|]. destruct Hp as [<-|Hp].
    + destruct Hu as [<-|[]]. destruct Hv as [<-|[]]. exact IH.
    + eapply con_step; eauto.
  - apply connected_mono. intros p Hp. right. exact Hp.
Qed.
Lemma connected_nil ps a b : connected ([] :: ps) a b <-> connected ps a b.
Proof.
  split.
  - induction 1 as [|p u v w Hp Hu Hv _ IH]; [constructor|]. destruct Hp as [<-|Hp]; [destruct Hu|]. eapply con_step; eauto.
  - apply connected_mono. intros p Hp. right. exact Hp.
Qed.
Lemma connected_grow ps d x0 x a b : In x0 d ->
  (connected ((x :: d) :: ps) a b <->
   connected (d :: ps) a b \/ (connected (d :: ps) a x /\ connected (d :: ps) x0 b) \/ (connected (d :: ps) a x0 /\ connected (d :: ps) x b)).
Proof.
  intro H0. set (E := connected (d :: ps)).
  assert (Et : forall u v w, E u v -> E v w -> E u w) by (intros u v w; apply connected_trans).
  assert (Es : forall u v, E u v -> E v u) by (intros u v; apply connected_sym).
  assert (Er : forall u, E u u) by (intro; constructor).
  assert (Ed : forall u, In u d -> E u x0) by (intros u Hu; apply (connected_one _ d); [left; reflexivity|exact Hu|exact H0]).
  split.
  - induction 1 as [|p u v w Hp Hu Hv _ IH]; [left; apply Er|]. destruct Hp as [<-|Hp].
    + assert (Hx : forall t, In t (x :: d) -> E t x \/ E t x0).
      { intros t [<-|Ht]; [left; apply Er|right; apply Ed, Ht]. }
      destruct IH as [I1|[[_ I2]|[_ I2]]], (Hx u Hu) as [U|U].
      * destruct (Hx v Hv) as [V|V]; [left; exact (Et _ _ _ U (Et _ _ _ (Es _ _ V) I1))|right; left; split; [exact U|exact (Et _ _ _ (Es _ _ V) I1)]].
      * destruct (Hx v Hv) as [V|V]; [right; right; split; [exact U|exact (Et _ _ _ (Es _ _ V) I1)]|left; exact (Et _ _ _ U (Et _ _ _ (Es _ _ V) I1))].
      * right; left; split; assumption.
      * left; exact (Et _ _ _ U I2).
      * left; exact (Et _ _ _ U I2).
      * right; right; split; assumption.
    + assert (U : E u v) by (apply (connected_one _ p); [right; exact Hp|exact Hu|exact Hv]).
      destruct IH as [I1|[[I1 I2]|[I1 I2]]].
      * left; exact (Et _ _ _ U I1).
      * right; left; split; [exact (Et _ _ _ U I1)|exact I2].
      * right; right; split; [exact (Et _ _ _ U I1)|exact I2].
  - assert (G : forall u v, E u v -> connected ((x :: d) :: ps) u v).
    { intros u v. apply connected_members. intros p [<-|Hp].
      - exists (x :: d). split; [left; reflexivity|]. intros z Hz. right. exact Hz.
      - exists p. split; [right; exact Hp|auto]. }
    assert (Hx : connected ((x :: d) :: ps) x x0).
    { apply (connected_one _ (x :: d)); [left; reflexivity|left; reflexivity|right; exact H0]. }
    intros [H|[[H1 H2]|[H1 H2]]].
    + apply G, H.
    + eapply connected_trans; [apply G, H1|]. eapply connected_trans; [exact Hx|apply G, H2].
    + eapply connected_trans; [apply G, H1|]. eapply connected_trans; [apply connected_sym, Hx|apply G, H2].
Qed.

Lemma union_loop_spec n x0 ps : x0 < n -> forall v d u R, forest n u R -> classes n R (d :: ps) -> In x0 d ->
  (forall x, In x v -> x < n) ->
  exists R', forest n (union_loop n (R x0) v u) R' /\ classes n R' ((rev v ++ d) :: ps).
Proof.
  intros Hx0. induction v as [|x v IH]; intros d u R HF HC Hd Hv; cbn [union_loop].
  - exists R. auto.
  - assert (Hx : x < n) by (apply Hv; left; reflexivity).
    destruct (find_spec n u R x HF Hx) as [F1 F2]. destruct (ufsfind n u x) as [r u']. cbn [fst snd] in *. subst r.
    assert (Lx := root_lt n u R x HF Hx). assert (L0 := root_lt n u R x0 HF Hx0).
    destruct (root_root n u R x HF Hx) as [_ Rx]. destruct (root_root n u R x0 HF Hx0) as [_ R0].
    set (R1 := fun z => if Nat.eqb (R z) (R x) then R x0 else R z).
    assert (HF1 : forest n (upd u' (R x) (R x0)) R1) by (apply link_forest; assumption).
    assert (E0 : R1 x0 = R x0). { unfold R1. destruct (Nat.eqb_spec (R x0) (R x)); reflexivity. }
    replace (rev (x :: v) ++ d) with (rev v ++ x :: d) by (cbn; rewrite <- app_assoc; reflexivity).
    replace (union_loop n (R x0)) with (union_loop n (R1 x0)) by (rewrite E0; reflexivity).
    apply IH; [exact HF1| |right; exact Hd|intros z Hz; apply Hv; right; exact Hz].
    intros a b Ha Hb. rewrite (connected_grow ps d x0 x a b Hd). 
    rewrite <- (HC a b Ha Hb), <- (HC a x Ha Hx), <- (HC x0 b Hx0 Hb), <- (HC a x0 Ha Hx0), <- (HC x b Hx Hb). unfold R1.
    destruct (Nat.eqb_spec (R a) (R x)), (Nat.eqb_spec (R b) (R x)); split; intro H;
      repeat match goal with H : _ \/ _ |- _ => destruct H | H : _ /\ _ |- _ => destruct H end; try congruence;
      first [left; congruence|right; left; split; congruence|right; right; split; congruence].
Qed.
Lemma classes_members n R ps qs : classes n R ps ->
  (forall p, In p ps -> exists q, In q qs /\ forall z, In z p -> In z q) ->
  (forall q, In q qs -> exists p, In p ps /\ forall z, In z q -> In z p) -> classes n R qs.
Proof.
  intros H H1 H2 a b Ha Hb. rewrite (H a b Ha Hb). split; apply connected_members; assumption.
Qed.
Lemma ufsunion_spec n u R ps v : forest n u R -> classes n R ps -> (forall x, In x v -> x < n) ->
  exists R', forest n (ufsunion n u v) R' /\ classes n R' (v :: ps).
Proof.
  intros HF HC Hv. destruct v as [|x0 v]; cbn [ufsunion].
  - exists R. split; [exact HF|]. intros a b Ha Hb. rewrite connected_nil. apply HC; assumption.
  - assert (Hx0 : x0 < n) by (apply Hv; left; reflexivity).
    destruct (find_spec n u R x0 HF Hx0) as [F1 F2]. destruct (ufsfind n u x0) as [y0 u']. cbn [fst snd] in *. subst y0.
    destruct (union_loop_spec n x0 ps Hx0 v [x0] u' R F2) as [R' [G1 G2]].
    + intros a b Ha Hb. rewrite connected_single. apply HC; assumption.
    + left. reflexivity.
    + intros x Hx. apply Hv. right. exact Hx.
    + exists R'. split; [exact G1|]. revert G2. intro G2. apply (classes_members n R' _ ((x0 :: v) :: ps) G2).
      * intros p [<-|Hp]; [exists (x0 :: v)|exists p]; (split; [|]); [left; reflexivity| |right; exact Hp|auto].
        intros z Hz. apply in_app_or in Hz. destruct Hz as [Hz|[<-|[]]]; [right; apply in_rev, Hz|left; reflexivity].
      * intros p [<-|Hp]; [exists (rev v ++ [x0])|exists p]; (split; [|]); [left; reflexivity| |right; exact Hp|auto].
        intros z [<-|Hz]; apply in_or_app; [right; left; reflexivity|left; apply -> in_rev; exact Hz].
Qed.
Lemma fold_union_spec n l : forall u R ps, forest n u R -> classes n R ps -> bounded n l ->
  exists R', forest n (fold_left (ufsunion n) l u) R' /\ classes n R' (rev l ++ ps).
Proof.
  induction l as [|v l IH]; intros u R ps HF HC Hb; cbn [fold_left].
  - exists R. auto.
  - destruct (ufsunion_spec n u R ps v HF HC) as [R1 [F1 C1]]; [intros x Hx; apply (Hb v); [left; reflexivity|exact Hx]|].
    destruct (IH _ R1 (v :: ps) F1 C1) as [R2 [F2 C2]]; [intros p x Hp Hx; apply (Hb p); [right; exact Hp|exact Hx]|].
    exists R2. split; [exact F2|]. cbn [rev]. rewrite <- app_assoc. exact C2.
Qed.
Lemma find_all_spec n R l : forall u, forest n u R -> (forall x, In x l -> x < n) ->
  fst (find_all n u l) = map R l /\ forest n (snd (find_all n u l)) R.
Proof.
  induction l as [|x l IH]; intros u HF Hl; cbn [find_all].
  - auto.
  - destruct (find_spec n u R x HF) as [F1 F2]; [apply Hl; left; reflexivity|]. destruct (ufsfind n u x) as [r u']. cbn [fst snd] in *.
    destruct (IH u' F2) as [I1 I2]; [intros z Hz; apply Hl; right; exact Hz|]. destruct (find_all n u' l) as [rs u'']. cbn [fst snd] in *.
    split; [subst; reflexivity|exact I2].
Qed.
Lemma memn_in x l : memn x l = true <-> In x l.
Proof.
  unfold memn. rewrite existsb_exists. split.
  - intros [y [Hy E]]. apply Nat.eqb_eq in E. subst. exact Hy.
  - intro H. exists x. split; [exact H|apply Nat.eqb_refl].
Qed.
Lemma combine_filter (R : nat -> nat) roots l :
  map fst (filter (fun t => memn (snd t) roots) (combine l (map R l))) = filter (fun x => memn (R x) roots) l.
Proof. induction l as [|a l IH]; [reflexivity|]. cbn. destruct (memn (R a) roots); cbn; rewrite IH; reflexivity. Qed.

(** the active generators are those connected to a symbol of the goal *)
Lemma active_gens_spec n poly ineqs eqs : poly <> [] -> bounded n (poly :: ineqs ++ eqs) ->
  forall x, In x (active_gens n poly ineqs eqs) <-> x < n /\ exists y, In y poly /\ connected (poly :: ineqs ++ eqs) x y.
Proof.
  intros Hne Hb. unfold active_gens. cbv zeta.
  destruct (fold_union_spec n (poly :: ineqs ++ eqs) (fun x => x) (fun x => x) []) as [R [HF HC]].
  - split; [auto|]. intros x _. exists 0. auto.
  - intros a b _ _. split; [intros ->; constructor|]. intro H. destruct H as [|p ? ? ? []]; reflexivity.
  - exact Hb.
  - set (u1 := fold_left _ _ _) in *.
    destruct (find_all_spec n R poly u1 HF) as [P1 P2]; [intros x Hx; apply (Hb poly); [left; reflexivity|exact Hx]|].
    destruct (find_all n u1 poly) as [roots u2]. cbn [fst snd] in *. subst roots.
    destruct (find_all_spec n R (seq 0 n) u2 P2) as [S1 S2]; [intros x Hx; apply in_seq in Hx; lia|].
    destruct (find_all n u2 (seq 0 n)) as [rs u3]. cbn [fst snd] in *. subst rs. rewrite combine_filter.
    assert (HC' : classes n R (poly :: ineqs ++ eqs)).
    { apply (classes_members n R _ _ HC); intros p Hp; exists p; (split; [|auto]).
      - rewrite app_nil_r in Hp. apply in_rev. exact Hp.
      - rewrite app_nil_r. apply -> in_rev. exact Hp. }
    assert (G : forall x, In x (filter (fun x => memn (R x) (map R poly)) (seq 0 n)) <->
                          x < n /\ exists y, In y poly /\ connected (poly :: ineqs ++ eqs) x y).
    { intro x. rewrite filter_In, in_seq, memn_in, in_map_iff. split.
      - intros [Hx [y [E Hy]]]. split; [lia|]. exists y. split; [exact Hy|]. apply HC'; [lia|apply (Hb poly); [left; reflexivity|exact Hy]|congruence].
      - intros [Hx [y [Hy E]]]. split; [lia|]. exists y. split; [|exact Hy]. symmetry. apply HC'; [lia|apply (Hb poly); [left; reflexivity|exact Hy]|exact E]. }
    intro x. rewrite <- G. destruct (filter _ (seq 0 n)) as [|z l] eqn:Ef; [|reflexivity].
    destruct poly as [|y poly]; [congruence|]. exfalso.
    assert (In y []); [|assumption]. apply G. split; [apply (Hb (y :: poly)); left; reflexivity|].
    exists y. split; [left; reflexivity|constructor].
Qed.
End Proofs.

(** ** Problems: polynomial functions that depend on their free symbols only *)
Section Semantics.
Context {K : OrdField}.
Local Open Scope of_scope.
(** a polynomial: its free symbols and its value at a point *)
Definition sympoly : Type := (list nat * ((nat -> K) -> K))%type.
Definition depends (p : sympoly) : Prop := forall x y : nat -> K, (forall i, In i (fst p) -> x i = y i) -> snd p x = snd p y.
Definition feasible (ineqs eqs : list sympoly) (x : nat -> K) : Prop :=
  (forall p, In p ineqs -> 0 <= snd p x) /\ (forall p, In p eqs -> snd p x = 0).

(** [clear_free_symbols] returns the goal over the active generators and the active constraints *)
Definition clear_free_symbols (n : nat) (poly : sympoly) (ineqs eqs : list sympoly)
  : list nat * list sympoly * list sympoly :=
  let act := active_gens n (fst poly) (map fst ineqs) (map fst eqs) in
  (act, filter (fun p => is_active act (fst p)) ineqs, filter (fun p => is_active act (fst p)) eqs).

Lemma in_all_l (ineqs eqs : list sympoly) g p : In p ineqs -> In (fst p) (g :: map fst ineqs ++ map fst eqs).
Proof. intro H. right. apply in_or_app. left. apply in_map, H. Qed.
Lemma in_all_r (ineqs eqs : list sympoly) g p : In p eqs -> In (fst p) (g :: map fst ineqs ++ map fst eqs).
Proof. intro H. right. apply in_or_app. right. apply in_map, H. Qed.

Lemma active_all n poly ineqs eqs p : poly <> [] -> bounded n (poly :: ineqs ++ eqs) -> In p (poly :: ineqs ++ eqs) ->
  is_active (active_gens n poly ineqs eqs) p = true -> forall x, In x p -> In x (active_gens n poly ineqs eqs).
Proof.
  intros Hne Hb Hp Ha x Hx. unfold is_active in Ha. apply existsb_exists in Ha. destruct Ha as [z [Hz E]]. apply memn_in in E.
  apply (active_gens_spec n poly ineqs eqs Hne Hb) in E. destruct E as [_ [y [Hy E]]].
  apply (active_gens_spec n poly ineqs eqs Hne Hb). split; [apply (Hb p); assumption|]. exists y. split; [exact Hy|].
  eapply con_step; [exact Hp|exact Hx|exact Hz|exact E].
Qed.
Lemma inactive_none n poly ineqs eqs p : is_active (active_gens n poly ineqs eqs) p = false ->
  forall x, In x p -> ~ In x (active_gens n poly ineqs eqs).
Proof.
  intros Ha x Hx Hin. assert (is_active (active_gens n poly ineqs eqs) p = true); [|congruence].
  apply existsb_exists. exists x. split; [exact Hx|apply memn_in, Hin].
Qed.

Lemma clear_problem n poly ineqs eqs act ki ke : fst poly <> [] ->
  bounded n (fst poly :: map fst ineqs ++ map fst eqs) ->
  depends poly -> (forall p, In p ineqs \/ In p eqs -> depends p) ->
  clear_free_symbols n poly ineqs eqs = (act, ki, ke) ->
  (forall x, feasible ineqs eqs x -> feasible ki ke x) /\
  (forall p, p = poly \/ In p ki \/ In p ke -> forall x, In x (fst p) -> In x act) /\
  ((exists x, feasible ineqs eqs x) ->
   ((forall x, feasible ki ke x -> 0 <= snd poly x) <-> (forall x, feasible ineqs eqs x -> 0 <= snd poly x))).
Proof.
  intros Hne Hb Hdp Hd HC. unfold clear_free_symbols in HC. injection HC as <- <- <-.
  set (A := active_gens n (fst poly) (map fst ineqs) (map fst eqs)).
  assert (HA := active_gens_spec n (fst poly) (map fst ineqs) (map fst eqs) Hne Hb). fold A in HA.
  assert (Hpoly : forall x, In x (fst poly) -> In x A).
  { intros x Hx. apply HA. split; [apply (Hb (fst poly)); [left; reflexivity|exact Hx]|]. exists x. split; [exact Hx|constructor]. }
  assert (Hmono : forall x, feasible ineqs eqs x -> feasible (filter (fun p => is_active A (fst p)) ineqs) (filter (fun p => is_active A (fst p)) eqs) x).
  { intros x [H1 H2]. split; intros p Hp; apply filter_In in Hp; [apply H1|apply H2]; tauto. }
  split; [exact Hmono|]. split.
  - intros p [->|[Hp|Hp]] x Hx; [apply Hpoly, Hx| |]; apply filter_In in Hp; destruct Hp as [Hp Ha].
    + apply (active_all n (fst poly) (map fst ineqs) (map fst eqs) (fst p)); try assumption. apply in_all_l, Hp.
    + apply (active_all n (fst poly) (map fst ineqs) (map fst eqs) (fst p)); try assumption. apply in_all_r, Hp.
  - intros [w [W1 W2]]. split; [intros H x Hx; apply H, Hmono, Hx|].
    intros H x [X1 X2].
    (* the point that agrees with [x] on the active symbols and with [w] elsewhere *)
    set (z := fun i => if memn i A then x i else w i).
    assert (Zx : forall i, In i A -> z i = x i). { intros i Hi. unfold z. apply memn_in in Hi. rewrite Hi. reflexivity. }
    assert (Zw : forall i, ~ In i A -> z i = w i).
    { intros i Hi. unfold z. destruct (memn i A) eqn:E; [|reflexivity]. apply memn_in in E. contradiction. }
    assert (Hcase : forall p, In (fst p) (fst poly :: map fst ineqs ++ map fst eqs) -> depends p ->
       (is_active A (fst p) = true /\ snd p z = snd p x) \/ (is_active A (fst p) = false /\ snd p z = snd p w)).
    { intros p Hp Hdep. destruct (is_active A (fst p)) eqn:E; [left|right]; (split; [reflexivity|]).
      - apply Hdep. intros i Hi. apply Zx. apply (active_all n (fst poly) (map fst ineqs) (map fst eqs) (fst p)); assumption.
      - apply Hdep. intros i Hi. apply Zw. apply (inactive_none n (fst poly) (map fst ineqs) (map fst eqs) (fst p) E i Hi). }
    rewrite (Hdp x z) by (intros i Hi; symmetry; apply Zx, Hpoly, Hi). apply H. split; intros p Hp.
    + destruct (Hcase p (in_all_l _ _ _ _ Hp) (Hd p (or_introl Hp))) as [[E ->]|[E ->]].
      * apply X1. apply filter_In. auto.
      * apply W1, Hp.
    + destruct (Hcase p (in_all_r _ _ _ _ Hp) (Hd p (or_intror Hp))) as [[E ->]|[E ->]].
      * apply X2. apply filter_In. auto.
      * apply W2, Hp.
Qed.
End Semantics.
Lemma sub_cancel (K : OrdField) (a b : K) : (a + (- a - b) = - b)%F.
Proof. pose proof (F_R (F_field K)) as R. rewrite (Rsub_def R), (Radd_assoc R), (Ropp_def R). apply (Radd_0_l R). Qed.
