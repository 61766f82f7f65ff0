(** * SDPSOS: the generators of the quadratic module (SdpSos.v) *)
From Coq Require Import Bool List Arith Lia Permutation Ring Field.
From Verif Require Import OrdField Base LinSolve LinSep Perm Poly PolyId PolyOps Shared Monomials ClearSym SdpSos.
Import ListNotations.

Section Qmodule.
Variable K : OrdField.
Local Open Scope of_scope.
Add Field Kf : (F_field K).
Variable n : nat.
Notation item := (cons_item (K := K)).

(** ** Specification *)
(** [l] in the order of [L], without repetition of positions *)
Inductive sub {A} : list A -> list A -> Prop :=
| sub_nil : sub [] []
| sub_skip a l L : sub l L -> sub l (a :: L)
| sub_take a l L : sub l L -> sub (a :: l) (a :: L).
Definition items_ok (l : list item) : Prop := forall i, In i l -> wf n (fst i) /\ forall x, snd i x = peval x (fst i).
(** [i] is the product of the constraints in [l] *)
Definition is_product (l : list item) (i : item) : Prop :=
  wf n (fst i) /\ (forall x, snd i x = peval x (fst i)) /\ forall x, peval x (fst i) = fprod (map (fun c : item => peval x (fst c)) l).

(** ** Proofs *)
Lemma one_product : is_product [] (one_item n).
Proof.
  unfold is_product, one_item. cbn [fst snd]. destruct (pone_spec K n) as (W & E & _). split; [exact W|]. split; intro x; [symmetry|]; apply E.
Qed.
Lemma mul_product l i j : is_product l i -> wf n (fst j) -> (forall x, snd j x = peval x (fst j)) -> is_product (j :: l) (mul_item i j).
Proof.
  intros (W & E & P) Wj Ej. destruct (pmul_spec K n (fst i) (fst j) W Wj) as (W2 & E2 & _). unfold mul_item, is_product. cbn [fst snd].
  split; [exact W2|]. split; intro x; [rewrite E2, E, Ej; reflexivity|]. rewrite E2, P. cbn [map fprod]. ring.
Qed.
Lemma fprod_perm l l' : Permutation l l' -> fprod l = fprod (l' : list K).
Proof. induction 1; cbn [fprod]; try reflexivity; try ring; [rewrite IHPermutation; reflexivity|congruence]. Qed.
Lemma product_perm l l' i : Permutation l l' -> is_product l i -> is_product l' i.
Proof. intros H (W & E & P). split; [exact W|]. split; [exact E|]. intro x. rewrite P. apply fprod_perm, Permutation_map, H. Qed.
Lemma fold_product comb : items_ok comb -> forall l i, is_product l i -> is_product (comb ++ l) (fold_left mul_item comb i).
Proof.
  induction comb as [|c comb IH]; intros H l i P; cbn [fold_left app]; [exact P|].
  apply product_perm with (comb ++ c :: l); [apply Permutation_sym, Permutation_middle|].
  apply IH; [intros j Hj; apply H; right; exact Hj|]. destruct (H c (or_introl eq_refl)). apply mul_product; assumption.
Qed.
Lemma combinations_sub {A} (L : list A) : forall k c, In c (combinations L k) <-> sub c L /\ length c = k.
Proof.
  induction L as [|a L IH]; intros k c.
  - destruct k; cbn [combinations In]; split.
    + intros [<-|[]]. split; [constructor|reflexivity].
    + intros [H E]. destruct c; [left; reflexivity|discriminate].
    + intros [].
    + intros [H E]. inversion H; subst. discriminate.
  - destruct k; cbn [combinations].
    + split.
      * intros [<-|[]]. split; [|reflexivity]. apply sub_skip. apply (IH 0%nat). destruct L; left; reflexivity.
      * intros [H E]. destruct c; [left; reflexivity|discriminate].
    + rewrite in_app_iff, in_map_iff, IH. split.
      * intros [(c' & <- & H)|[H E]]; [apply IH in H; destruct H as [H <-]; split; [apply sub_take, H|reflexivity]|split; [apply sub_skip, H|exact E]].
      * intros [H E]. inversion H as [|b l M HS|b l M HS]; subst.
        -- right. auto.
        -- left. exists l. split; [reflexivity|]. apply IH. split; [exact HS|]. cbn in E. lia.
Qed.
Lemma sub_incl {A} (c L : list A) : sub c L -> incl c L.
Proof. induction 1 as [|a l L H IH|a l L H IH]; intros x Hx; [exact Hx|right; auto|destruct Hx as [->|Hx]; [left; reflexivity|right; auto]]. Qed.

(** every generator is a product of linear constraints and at most one other *)
Definition from_constraints (linear rest : list item) (i : item) : Prop :=
  exists c r, sub c linear /\ (r = [] \/ exists j, In j rest /\ r = [j]) /\ is_product (c ++ r) i.
Lemma products_sound degree linear rest k i : items_ok linear -> items_ok rest ->
  In i (products_of n degree linear (one_item n :: rest) k) -> from_constraints linear rest i.
Proof.
  intros HL HR H. unfold products_of in H. apply in_flat_map in H. destruct H as (comb & Hc & H).
  apply combinations_sub in Hc. destruct Hc as [Hs _]. cbv zeta in H. destruct (_ <? _)%nat; [destruct H|].
  apply in_flat_map in H. destruct H as (j & Hj & H). destruct (degree_ok _ _); [|destruct H]. destruct H as [<-|[]].
  assert (HC : items_ok comb) by (intros a Ha; apply HL, (sub_incl _ _ Hs), Ha).
  pose proof (fold_product comb HC [] (one_item n) one_product) as P. rewrite app_nil_r in P.
  destruct Hj as [<-|Hj].
  - exists comb, []. split; [exact Hs|]. split; [auto|]. rewrite app_nil_r.
    destruct P as (W & E & V). destruct one_product as (W1 & E1 & V1). destruct (pmul_spec K n _ _ W W1) as (W2 & E2 & _). unfold mul_item. split; [exact W2|]. cbn [fst snd].
    split; intro x; rewrite E2, V1; cbn [map fprod]; [rewrite E, E1, V1; reflexivity|rewrite V; ring].
  - exists comb, [j]. split; [exact Hs|]. split; [right; exists j; auto|]. destruct (HR j Hj).
    apply product_perm with (j :: comb); [apply Permutation_cons_append|]. apply mul_product; assumption.
Qed.
Lemma loop_sound degree prog linear rest : items_ok linear -> items_ok rest -> forall ks qm, (forall i, In i qm -> from_constraints linear rest i) ->
  forall l i, In l (qmodule_loop n degree prog linear (one_item n :: rest) qm ks) -> In i l -> from_constraints linear rest i.
Proof.
  intros HL HR. induction ks as [|k ks IH]; intros qm HQ l i Hl Hi; cbn [qmodule_loop] in Hl.
  - destruct prog; [destruct Hl|]. destruct Hl as [<-|[]]. apply HQ, Hi.
  - assert (HQ' : forall i, In i (qm ++ products_of n degree linear (one_item n :: rest) k) -> from_constraints linear rest i).
    { intros a Ha. apply in_app_or in Ha. destruct Ha as [Ha|Ha]; [apply HQ, Ha|]. apply (products_sound degree linear rest k a HL HR Ha). }
    cbv zeta in Hl. apply in_app_or in Hl. destruct Hl as [Hl|Hl].
    + destruct (prog && _)%bool; [|destruct Hl]. destruct Hl as [<-|[]]. apply HQ', Hi.
    + apply (IH _ HQ' l i Hl Hi).
Qed.
Lemma one_from linear rest : from_constraints linear rest (one_item n).
Proof.
  exists [], []. split; [induction linear; constructor; assumption|]. split; [auto|]. exact one_product.
Qed.
Lemma rest_from linear rest i : items_ok rest -> In i rest -> from_constraints linear rest i.
Proof.
  intros HR Hi. exists [], [i]. split; [induction linear; constructor; assumption|]. split; [right; exists i; auto|].
  destruct (HR i Hi) as [W E]. split; [exact W|]. split; [exact E|]. intro x. cbn [map fprod app]. ring.
Qed.
Definition linear_part (ineqs : list item) : list item := filter (fun i : item => is_linear (fst i)) ineqs.
Definition other_part (ineqs : list item) : list item := filter (fun i : item => negb (is_linear (fst i))) ineqs.
Lemma items_ok_filter (h : item -> bool) l : items_ok l -> items_ok (filter h l).
Proof. intros H i Hi. apply filter_In in Hi. apply H, Hi. Qed.
Lemma qmodule_sound f ineqs triv p ls : items_ok ineqs -> p <> PNone -> qmodule_list n f ineqs triv p = Ok ls ->
  forall l i, In l ls -> In i l -> from_constraints (linear_part ineqs) (other_part ineqs) i.
Proof.
  intros HI Hp H l i Hl Hi. pose proof (items_ok_filter (fun i : item => is_linear (fst i)) ineqs HI) as HL. pose proof (items_ok_filter (fun i : item => negb (is_linear (fst i))) ineqs HI) as HR.
  fold (linear_part ineqs) in HL. fold (other_part ineqs) in HR.
  assert (HQ : forall i, In i (filter (fun i : item => degree_ok (total_degree f) (total_degree (fst i))) (if triv then one_item n :: other_part ineqs else other_part ineqs)) ->
     from_constraints (linear_part ineqs) (other_part ineqs) i).
  { intros a Ha. apply filter_In in Ha. destruct Ha as [Ha _]. destruct triv; [destruct Ha as [<-|Ha]; [apply one_from|]|]; apply rest_from; assumption. }
  unfold qmodule_list in H. destruct p; [congruence| |]; apply Ok_inj in H; subst ls.
  - cbn [app] in Hl. apply (loop_sound _ _ _ _ HL HR _ _ HQ l i Hl Hi).
  - apply in_app_or in Hl. destruct Hl as [[<-|[]]|Hl]; [apply HQ, Hi|]. apply (loop_sound _ _ _ _ HL HR _ _ HQ l i Hl Hi).
Qed.
Lemma from_nonneg ineqs i x : from_constraints (linear_part ineqs) (other_part ineqs) i ->
  (forall c, In c ineqs -> 0 <= peval x (fst c)) -> 0 <= peval x (fst i).
Proof.
  intros (c & r & Hs & Hr & (_ & _ & P)) H. rewrite P.
  assert (HA : forall a, In a (c ++ r) -> 0 <= peval x (fst a)).
  { intros a Ha. apply in_app_or in Ha. apply H. destruct Ha as [Ha|Ha].
    - apply (sub_incl _ _ Hs) in Ha. apply filter_In in Ha. apply Ha.
    - destruct Hr as [->|(j & Hj & ->)]; [destruct Ha|]. destruct Ha as [<-|[]]. apply filter_In in Hj. apply Hj. }
  clear - HA. induction (c ++ r) as [|a l IH]; cbn [map fprod]; [apply f1_nonneg|]. apply fmul_nonneg; [apply HA; left; reflexivity|apply IH; intros; apply HA; right; assumption].
Qed.
(** ** All products are listed *)
Lemma loop_all degree (linear nonlin : list item) : forall ks qm, exists l, qmodule_loop n degree false linear nonlin qm ks = [l] /\
  l = qm ++ flat_map (products_of n degree linear nonlin) ks.
Proof.
  induction ks as [|k ks IH]; intro qm; cbn [qmodule_loop flat_map].
  - exists qm. rewrite app_nil_r. auto.
  - destruct (IH (qm ++ products_of n degree linear nonlin k)) as (l & E & El). exists l. cbv zeta. cbn [andb app]. rewrite E. split; [reflexivity|]. rewrite El, <- app_assoc. reflexivity.
Qed.
Lemma loop_progressive degree (linear nonlin : list item) : forall ks qm, exists ls, qmodule_loop n degree true linear nonlin qm ks = ls /\
  last (qm :: ls) [] = qm ++ flat_map (products_of n degree linear nonlin) ks /\
  forall l, In l ls -> exists new, l = qm ++ new.
Proof.
  induction ks as [|k ks IH]; intro qm; cbn [qmodule_loop flat_map].
  - exists []. split; [reflexivity|]. split; [cbn; rewrite app_nil_r; reflexivity|intros ? []].
  - destruct (IH (qm ++ products_of n degree linear nonlin k)) as (ls & E & El & P). cbv zeta. rewrite E.
    destruct (products_of n degree linear nonlin k) as [|a new] eqn:EN; cbn [andb negb app].
    + exists ls. split; [reflexivity|]. rewrite app_nil_r in El, P. split; [exact El|exact P].
    + exists ((qm ++ a :: new) :: ls). split; [reflexivity|]. split.
      * change (last (qm :: (qm ++ a :: new) :: ls) []) with (last ((qm ++ a :: new) :: ls) []). rewrite El, <- app_assoc. reflexivity.
      * intros l [<-|Hl]; [exists (a :: new); reflexivity|]. destruct (P l Hl) as [nw ->]. exists ((a :: new) ++ nw). rewrite <- app_assoc. reflexivity.
Qed.
Lemma qmodule_progressive_last (f : poly K) ineqs triv : exists l ls, qmodule_list n f ineqs triv PLinear = Ok [l] /\
  qmodule_list n f ineqs triv PProgressive = Ok ls /\ ls <> [] /\ last ls [] = l.
Proof.
  unfold qmodule_list. cbv zeta. cbn [app].
  match goal with |- context [qmodule_loop n ?d false ?lin ?nl ?q ?ks] => destruct (loop_all d lin nl ks q) as (l & E & El); destruct (loop_progressive d lin nl ks q) as (ls & E' & El' & _) end.
  rewrite E, E'. eexists. eexists. split; [reflexivity|]. split; [reflexivity|]. split; [discriminate|]. rewrite El', El. reflexivity.
Qed.
Lemma qmodule_complete (f : poly K) ineqs triv comb i : items_ok ineqs ->
  sub comb (linear_part ineqs) -> comb <> [] -> (i = one_item n \/ In i (other_part ineqs)) ->
  let m := fold_left mul_item comb (one_item n) in
  degree_ok (total_degree f) (total_degree (fst m) + total_degree (fst i)) = true ->
  exists l, qmodule_list n f ineqs triv PLinear = Ok [l] /\ In (mul_item m i) l.
Proof.
  intros HI Hs Hne Hi m Hd. unfold qmodule_list. cbv zeta. cbn [app]. fold (linear_part ineqs). fold (other_part ineqs).
  match goal with |- context [qmodule_loop n ?d false ?lin ?nl ?q ?ks] => destruct (loop_all d lin nl ks q) as (l & E & El) end.
  exists l. rewrite E. split; [reflexivity|]. rewrite El. apply in_or_app. right. apply in_flat_map. exists (length comb). split.
  - apply in_seq. assert (L : forall c L : list item, sub c L -> (length c <= length L)%nat) by (induction 1; cbn [length]; lia).
    specialize (L _ _ Hs). split; [destruct comb; [congruence|cbn [length]; lia]|]. apply le_n_S. exact L.
  - unfold products_of. apply in_flat_map. exists comb. split; [apply combinations_sub; auto|]. cbv zeta. fold m.
    unfold degree_ok in Hd. apply andb_prop in Hd. destruct Hd as [Hd1 Hd2]. apply Nat.leb_le in Hd1.
    destruct (Nat.ltb_spec (total_degree f) (total_degree (fst m))) as [L|L]; [lia|]. apply in_flat_map. exists i. split.
    + destruct Hi as [->|Hi]; [left; reflexivity|right; exact Hi].
    + unfold degree_ok. rewrite (proj2 (Nat.leb_le _ _) Hd1), Hd2. left. reflexivity.
Qed.
End Qmodule.
