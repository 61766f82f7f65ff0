(** * SDPSOS: the loop over the quadratic modules (triples/core/sdpsos/sdpsos.py:565-631) *)
From Coq Require Import Bool List Arith Lia Permutation Ring Field.
From Verif Require Import OrdField Base Congruence LinSolve LinSep Perm Poly PolyId PolyOps Partitions Shared Monomials MonomialsLemmas Coeff ClearSym SdpSos SdpSosFacts SdpSosCert SdpSosGroups SdpSosExact SdpQmodule.
Import ListNotations.

Section Model.
Context {K : OrdField}.
Local Open Scope of_scope.
Variable n : nat.
Variable G : list (list nat).
Variable gens : list (list nat).
Variable order : list nat -> list nat.
Variable pick : list (list K) -> list K.
Notation item := (cons_item (K := K)).
Notation value := ((nat -> K) -> K).

(** [clear_polys_by_symmetry] on pairs of a polynomial and an expression (shared.py:190-211, called at sdpsos.py:597) *)
Fixpoint clear_items_loop (l : list item) (d : list (list K * item)) : res (list (list K * item)) :=
  match l with
  | [] => Ok d
  | i :: l' => match representation K n G true pick (fst i) with Err r => Err r | Ok k => clear_items_loop l' (kput K k i d) end
  end.
Definition clear_items (l : list item) : res (list item) :=
  if (length G =? 1)%nat then Ok l
  else match clear_items_loop l [] with Err r => Err r | Ok d => Ok (map snd d) end.

(** The numerical solver with its rationalisation, and the decompositions it stores (see SdpRationalize.v and
    SdpTransform.v): the parameters of the root problem and a decomposition of each matrix. *)
Variable solve : list (poly K) -> list K * list (list K) -> option (list K * list (list (list K) * list K)).

(** the body of the loop and the loop (sdpsos.py:596-629); exceptions inside the [try] go on with the next module *)
Fixpoint sdpsos_loop (f : poly K) (eqs : list item) (mods : list (list item)) : res (option value) :=
  match mods with
  | [] => Ok None
  | q :: mods' =>
      match clear_items q with
      | Err e => Err e
      | Ok q' =>
          if match q', eqs with [], [] => true | _, _ => false end then sdpsos_loop f eqs mods'
          else match construct n G gens order f (map fst q') (map fst eqs) with
               | Err _ => sdpsos_loop f eqs mods'
               | Ok xV => match solve (map fst q') xV with
                          | None => sdpsos_loop f eqs mods'
                          | Some (y, decs) =>
                              match as_solution n G (total_degree f) (map fst q') (map fst eqs) (fst xV) (snd xV) y decs q' eqs with
                              | Err _ => sdpsos_loop f eqs mods'
                              | Ok cert => Ok (Some cert)
                              end
                          end
               end
      end
  end.
(** [_SDPSOS] (sdpsos.py:565-631) without the test of the coefficient domain *)
Definition sdpsos (limit : nat) (f : poly K) (ineqs eqs : list item) (triv : bool) (p : preord) : res (option value) :=
  if ((limit <? total_degree f) || (total_degree f <? 1) || (n <? 1))%nat then Ok None
  else if negb (is_hom f) then Err ValueError
  else if negb (is_sym n gens f) then Err ValueError
  else match qmodule_list n f ineqs triv p with Err e => Err e | Ok mods => sdpsos_loop f eqs mods end.
End Model.

Section Facts.
Variable K : OrdField.
Local Open Scope of_scope.
Add Field Kf : (F_field K).
Variable n : nat.
Variable G : list (list nat).
Variable gens : list (list nat).
Variable order : list nat -> list nat.
Variable pick : list (list K) -> list K.
Variable solve : list (poly K) -> list K * list (list K) -> option (list K * list (list (list K) * list K)).
Hypothesis HG : is_group n G.
Hypothesis Hgens : forall p, In p G <-> generated n gens p.
Hypothesis HO : order_ok order.
Notation item := (cons_item (K := K)).

Lemma veqb_sub (k' k : list K) : forall (A B : Type) (f : A -> B) (v : A) d, map (fun e => (fst e, f (snd e))) (kput K k v d) = kput K k (f v) (map (fun e => (fst e, f (snd e))) d).
Proof.
  intros A B f v. induction d as [|[k2 v2] d IH]; [reflexivity|]. cbn [kput map fst snd]. destruct (veqb K k2 k); cbn [map fst snd]; [reflexivity|]. rewrite IH. reflexivity.
Qed.
Lemma clear_items_loop_polys l : forall d d', clear_items_loop n G pick l d = Ok d' ->
  clear_loop K n G true pick (map fst l) (map (fun e => (fst e, fst (snd e))) d) = Ok (map (fun e => (fst e, fst (snd e))) d').
Proof.
  induction l as [|i l IH]; intros d d' H; cbn [clear_items_loop map clear_loop] in *; [apply Ok_inj in H; subst; reflexivity|].
  destruct (representation K n G true pick (fst i)) as [k|e]; [|discriminate]. rewrite <- (IH _ _ H), (veqb_sub k k item (poly K) fst). reflexivity.
Qed.
Lemma clear_items_incl l : forall d d', clear_items_loop n G pick l d = Ok d' -> forall i, In i (map snd d') -> In i (map snd d) \/ In i l.
Proof.
  induction l as [|a l IH]; intros d d' H i Hi; cbn [clear_items_loop] in H; [apply Ok_inj in H; subst; auto|].
  destruct (representation K n G true pick (fst a)) as [k|e]; [|discriminate]. destruct (IH _ _ H i Hi) as [J|J]; [|right; right; exact J].
  apply in_map_iff in J. destruct J as ([k' v] & <- & J). apply kput_in in J. destruct J as [J|J].
  - left. apply (in_map snd) in J. exact J.
  - apply pair_equal_spec in J. destruct J as [_ ->]. right. left. reflexivity.
Qed.
Lemma clear_items_spec l out : clear_items n G pick l = Ok out ->
  (forall i, In i out -> In i l) /\ clear_polys K n G true pick (length G =? 1)%nat (map fst l) = Ok (map fst out).
Proof.
  unfold clear_items, clear_polys. destruct (length G =? 1)%nat; intro H; [apply Ok_inj in H; subst; auto|].
  destruct (clear_items_loop n G pick l []) as [d|e] eqn:E; [|discriminate]. apply Ok_inj in H. subst out. split.
  - intros i Hi. destruct (clear_items_incl l [] d E i Hi) as [[]|J]. exact J.
  - pose proof (clear_items_loop_polys l [] d E) as X. cbn [map] in X. rewrite X. rewrite !map_map. reflexivity.
Qed.
(** with a non-trivial group the constraints are pairwise different *)
Lemma clear_items_distinct l out : (forall q, q <> [] -> In (pick q) q) -> (forall q q', (forall v, In v q <-> In v q') -> pick q = pick q') ->
  length G <> 1%nat -> (forall i, In i l -> proper K n true (fst i)) -> clear_items n G pick l = Ok out -> distinct K (map fst out).
Proof.
  intros P1 P2 NG Hp H. destruct (clear_items_spec l out H) as [_ E]. destruct (Nat.eqb_spec (length G) 1) as [X|_]; [contradiction|].
  assert (PP : forall p, In p (map fst l) -> proper K n true p) by (intros p Hp'; apply in_map_iff in Hp'; destruct Hp' as (i & <- & Hi); apply Hp, Hi).
  pose proof (clear_polys_once K n G true pick HG P2 (map fst l) (map fst out) PP E) as ONCE.
  assert (IN : forall p, In p (map fst out) -> wf n p).
  { intros p Hp'. apply in_map_iff in Hp'. destruct Hp' as (i & <- & Hi). apply clear_items_spec in H. apply (Hp i), (proj1 H), Hi. }
  assert (GO : forall L, (forall p, In p L -> wf n p) -> (forall i j q q', nth_error L i = Some q -> nth_error L j = Some q' -> same_orbit K G q q' -> i = j) -> distinct K L).
  { induction L as [|p L IH]; intros W ONE; [constructor|]. constructor.
    - apply Forall_forall. intros q Hq SM. apply In_nth_error in Hq. destruct Hq as (j & Hj).
      assert (0%nat = S j); [|discriminate]. apply (ONE 0%nat (S j) p q); [reflexivity|exact Hj|].
      exists (pid n). split; [apply (g_id n G HG)|]. intro x.
      assert (Wp : wf n p) by (apply W; left; reflexivity). assert (Wq : wf n q) by (apply W; right; apply nth_error_In in Hj; exact Hj).
      rewrite <- (coef_ext_peval K x p q (proj1 Wp) (proj1 Wq) SM). apply (peval_ext_len K n); [exact Wp|].
      intros i Hi. unfold pid. rewrite seq_nth by exact Hi. reflexivity.
    - apply IH; [intros; apply W; right; assumption|]. intros i j q q' Hi Hj SM. assert (X : S i = S j) by (apply (ONE (S i) (S j) q q'); assumption). lia. }
  apply GO; assumption.
Qed.
(** ** Soundness *)
Definition solve_ok (f : poly K) : Prop := forall ineqs x0 V y decs, solve ineqs (x0, V) = Some (y, decs) ->
  (forall row, In row V -> length row = length y) /\
  Forall2 (fun gM Us => exact_dec K (snd gM) (fst Us) (snd Us)) (gram_matrices n (total_degree f) ineqs (point x0 V y)) decs.
Definition module_ok (f : poly K) (eqs : list item) (q : list item) : Prop := forall q', clear_items n G pick q = Ok q' ->
  distinct K (map fst q') /\ (coupled K n G f (map fst q') (map fst eqs) \/ reachable K f (map fst q')).
Lemma loop_cert f eqs : wf n f -> solve_ok f -> items_ok K n eqs -> distinct K (map fst eqs) -> forall mods cert,
  (forall q, In q mods -> items_ok K n q /\ module_ok f eqs q) ->
  sdpsos_loop n G gens order pick solve f eqs mods = Ok (Some cert) ->
  (forall x, cert x = peval x f) /\
  exists q, In q mods /\ forall x, (forall i p, In i q -> In p G -> 0 <= peval (fun k => x (nth k p 0%nat)) (fst i)) ->
    (forall i p, In i eqs -> In p G -> peval (fun k => x (nth k p 0%nat)) (fst i) = 0) -> 0 <= cert x.
Proof.
  intros Wf HS HE DE. induction mods as [|q mods IH]; intros cert HM H; cbn [sdpsos_loop] in H; [discriminate|].
  assert (REC : sdpsos_loop n G gens order pick solve f eqs mods = Ok (Some cert) -> (forall x, cert x = peval x f) /\
     exists q0, In q0 (q :: mods) /\ forall x, (forall i p, In i q0 -> In p G -> 0 <= peval (fun k => x (nth k p 0%nat)) (fst i)) ->
       (forall i p, In i eqs -> In p G -> peval (fun k => x (nth k p 0%nat)) (fst i) = 0) -> 0 <= cert x).
  { intro R. destruct (IH cert (fun q' Hq' => HM q' (or_intror Hq')) R) as [A (q0 & Hq0 & B)]. split; [exact A|]. exists q0. split; [right; exact Hq0|exact B]. }
  destruct (clear_items n G pick q) as [q'|e] eqn:EC; [|discriminate].
  destruct (match q', eqs with [], [] => true | _, _ => false end); [apply REC, H|].
  destruct (construct n G gens order f (map fst q') (map fst eqs)) as [[x0 V]|e] eqn:ECo; [|apply REC, H].
  destruct (solve (map fst q') (x0, V)) as [[y decs]|] eqn:ES; [|apply REC, H]. cbn [fst snd] in H.
  destruct (as_solution _ _ _ _ _ _ _ _ _ _ _) as [cert'|e] eqn:EA; [|apply REC, H]. apply Ok_inj in H. injection H as ->. clear REC IH.
  destruct (HM q (or_introl eq_refl)) as [HQ MQ]. destruct (MQ q' EC) as [DQ RQ]. destruct (clear_items_spec q q' EC) as [IQ _].
  destruct (HS _ _ _ _ _ ES) as [Ly FD].
  assert (HQ' : items_ok K n q') by (intros i Hi; apply HQ, IQ, Hi).
  assert (EX : forall l, items_ok K n l -> exprs_ok K n l).
  { intros l Hl k v Hkv. destruct (Hl (k, v) Hkv) as [W E]. split; [exact W|exact E]. }
  destruct (sdpsos_exact K n G gens order HG Hgens HO f (map fst q') (map fst eqs) x0 V y decs q' eqs) as (cert2 & EA2 & V1 & V2); try assumption.
  { intros g Hg. apply in_app_or in Hg. destruct Hg as [Hg|Hg]; apply in_map_iff in Hg; destruct Hg as (i & <- & Hi); [apply HQ', Hi|apply HE, Hi]. }
  { apply EX, HQ'. } { apply EX, HE. }
  assert (cert2 = cert) by (rewrite EA in EA2; apply Ok_inj in EA2; congruence). subst cert2.
  split; [exact V1|]. exists q. split; [left; reflexivity|]. intros x H1 H2. apply V2.
  - intros g p Hg Hp. apply in_map_iff in Hg. destruct Hg as (i & <- & Hi). apply H1; [apply IQ, Hi|exact Hp].
  - intros h p Hh Hp. apply in_map_iff in Hh. destruct Hh as (i & <- & Hi). apply H2; assumption.
Qed.
Lemma sdpsos_sound limit f ineqs eqs triv p cert : wf n f -> solve_ok f -> items_ok K n ineqs -> items_ok K n eqs -> distinct K (map fst eqs) ->
  (forall mods q, qmodule_list n f ineqs triv p = Ok mods -> In q mods -> module_ok f eqs q) ->
  sdpsos n G gens order pick solve limit f ineqs eqs triv p = Ok (Some cert) ->
  (forall x, cert x = peval x f) /\
  forall x, (forall i g, In i ineqs -> In g G -> 0 <= peval (fun k => x (nth k g 0%nat)) (fst i)) ->
    (forall i g, In i eqs -> In g G -> peval (fun k => x (nth k g 0%nat)) (fst i) = 0) -> 0 <= cert x.
Proof.
  intros Wf HS HI HE DE HM H. unfold sdpsos in H. destruct (_ || _ || _)%nat; [discriminate|].
  destruct (negb (is_hom f)); [discriminate|]. destruct (negb (is_sym n gens f)); [discriminate|].
  destruct (qmodule_list n f ineqs triv p) as [mods|e] eqn:EM; [|discriminate].
  assert (OK : forall q, In q mods -> items_ok K n q /\ (forall i x, In i q -> (forall c, In c ineqs -> 0 <= peval x (fst c)) -> 0 <= peval x (fst i))).
  { intros q Hq. destruct p.
    - unfold qmodule_list in EM. destruct triv; [discriminate|]. apply Ok_inj in EM. subst mods. destruct Hq as [<-|[]].
      split; [apply items_ok_filter, HI|]. intros i x Hi Hx. apply filter_In in Hi. apply Hx, Hi.
    - assert (Q : forall i, In i q -> from_constraints K n (linear_part K ineqs) (other_part K ineqs) i) by (intros i Hi; apply (qmodule_sound K n f ineqs triv PLinear mods HI ltac:(discriminate) EM q i Hq Hi)).
      split; [intros i Hi; destruct (Q i Hi) as (c & r & _ & _ & (W & E & _)); auto|]. intros i x Hi Hx. apply (from_nonneg K n ineqs i x (Q i Hi) Hx).
    - assert (Q : forall i, In i q -> from_constraints K n (linear_part K ineqs) (other_part K ineqs) i) by (intros i Hi; apply (qmodule_sound K n f ineqs triv PProgressive mods HI ltac:(discriminate) EM q i Hq Hi)).
      split; [intros i Hi; destruct (Q i Hi) as (c & r & _ & _ & (W & E & _)); auto|]. intros i x Hi Hx. apply (from_nonneg K n ineqs i x (Q i Hi) Hx). }
  destruct (loop_cert f eqs Wf HS HE DE mods cert (fun q Hq => conj (proj1 (OK q Hq)) (HM mods q eq_refl Hq)) H) as [A (q & Hq & B)].
  split; [exact A|]. intros x H1 H2. apply B; [|exact H2]. intros i g Hi Hg. apply (proj2 (OK q Hq) i _ Hi). intros c Hc. apply H1; assumption.
Qed.

(** ** Even degree, with the trivial constraint *)
Lemma proper_homdeg p : proper K n true p -> homdeg (total_degree p) p.
Proof.
  intros (_ & _ & H) m Hm. specialize (H eq_refl). unfold is_homogeneous in H. rewrite forallb_forall in H. unfold keys in Hm. apply in_map_iff in Hm.
  destruct Hm as (t & <- & Ht). apply Nat.eqb_eq, H, Ht.
Qed.
Lemma homdeg_homogeneous d (p : poly K) : homdeg d p -> is_homogeneous K p = true.
Proof.
  intro H. destruct (homdeg_total K d p H) as [->|E]; [reflexivity|]. unfold is_homogeneous. apply forallb_forall. intros t Ht. apply Nat.eqb_eq. rewrite E. apply H. unfold keys. apply in_map, Ht.
Qed.
Lemma mul_proper p r : proper K n true p -> proper K n true r -> proper K n true (pmul p r).
Proof.
  intros Hp Hr. destruct (pmul_spec K n p r (proj1 Hp) (proj1 Hr)) as (W & _ & D). split; [exact W|]. split.
  - intros t Ht. unfold pmul, clean in Ht. apply filter_In in Ht. destruct Ht as [_ Ht]. apply negb_true_iff in Ht. intro Z. rewrite Z in Ht. rewrite (proj2 (feqb_eq K 0 0) eq_refl) in Ht. discriminate.
  - intros _. apply (homdeg_homogeneous (total_degree p + total_degree r)). apply D; apply proper_homdeg; assumption.
Qed.
Lemma one_proper : proper K n true (fst (one_item (K := K) n)).
Proof.
  unfold one_item. cbn [fst]. destruct (pone_spec K n) as (W & _ & D). split; [exact W|]. split.
  - intros t [<-|[]]. cbn [snd]. apply (fneq10 K).
  - intros _. apply (homdeg_homogeneous 0), D.
Qed.
Definition proper_items (l : list item) : Prop := forall i, In i l -> proper K n true (fst i).
Lemma fold_proper comb : proper_items comb -> forall i, proper K n true (fst i) -> proper K n true (fst (fold_left mul_item comb i)).
Proof.
  induction comb as [|a c IH]; intros H i Hi; [exact Hi|]. cbn [fold_left]. apply IH; [intros b Hb; apply H; right; exact Hb|].
  unfold mul_item. cbn [fst]. apply mul_proper; [exact Hi|apply H; left; reflexivity].
Qed.
Lemma products_proper degree linear nonlin k : proper_items linear -> proper_items nonlin -> proper_items (products_of n degree linear nonlin k).
Proof.
  intros HL HN i Hi. unfold products_of in Hi. apply in_flat_map in Hi. destruct Hi as (c & Hc & Hi). cbv zeta in Hi. destruct (_ <? _)%nat; [destruct Hi|].
  apply in_flat_map in Hi. destruct Hi as (j & Hj & Hi). destruct (degree_ok _ _); [|destruct Hi]. destruct Hi as [<-|[]]. unfold mul_item at 1. cbn [fst].
  apply mul_proper; [|apply HN, Hj]. apply fold_proper; [|apply one_proper]. intros b Hb. apply HL. apply combinations_sub in Hc. apply (sub_incl _ _ (proj1 Hc)), Hb.
Qed.
Lemma loop_proper degree prog linear nonlin : proper_items linear -> proper_items nonlin -> forall ks qm, proper_items qm ->
  forall l, In l (qmodule_loop n degree prog linear nonlin qm ks) -> proper_items l.
Proof.
  intros HL HN. induction ks as [|k ks IH]; intros qm HQ l Hl; cbn [qmodule_loop] in Hl.
  - destruct prog; [destruct Hl|]. destruct Hl as [<-|[]]. exact HQ.
  - cbv zeta in Hl. assert (HQ' : proper_items (qm ++ products_of n degree linear nonlin k)) by (intros i Hi; apply in_app_or in Hi; destruct Hi as [Hi|Hi]; [apply HQ, Hi|apply (products_proper degree linear nonlin k HL HN i Hi)]).
    apply in_app_or in Hl. destruct Hl as [Hl|Hl]; [|apply (IH _ HQ' l Hl)]. destruct (_ && _); [|destruct Hl]. destruct Hl as [<-|[]]. exact HQ'.
Qed.
Lemma modules_contain_one f ineqs p mods qm : proper_items ineqs -> p <> PNone -> (total_degree f mod 2 = 0)%nat ->
  qmodule_list n f ineqs true p = Ok mods -> In qm mods -> In (one_item n) qm /\ proper_items qm.
Proof.
  intros HI Hp He H Hq.
  assert (PF : forall h : item -> bool, proper_items (filter h ineqs)) by (intros h i Hi; apply filter_In in Hi; apply HI, Hi).
  assert (PN : proper_items (one_item n :: filter (fun i : item => negb (is_linear (fst i))) ineqs)) by (intros i [<-|Hi]; [apply one_proper|apply (PF _ i Hi)]).
  assert (T0 : total_degree (fst (one_item (K := K) n)) = 0%nat).
  { unfold one_item. cbn [fst]. unfold total_degree. cbn [fold_right fst]. rewrite Nat.max_0_r. clear. induction n as [|k IH]; [reflexivity|]. cbn [repeat]. rewrite list_sum_cons. exact IH. }
  assert (D0 : degree_ok (total_degree f) (total_degree (fst (one_item (K := K) n))) = true).
  { rewrite T0. unfold degree_ok. rewrite Nat.sub_0_r, He. reflexivity. }
  set (qm0 := filter (fun i : item => degree_ok (total_degree f) (total_degree (fst i))) (one_item n :: filter (fun i : item => negb (is_linear (fst i))) ineqs)).
  assert (I0 : In (one_item n) qm0) by (apply filter_In; split; [left; reflexivity|exact D0]).
  assert (P0 : proper_items qm0) by (intros i Hi; apply filter_In in Hi; apply PN, Hi).
  unfold qmodule_list in H. destruct p; [congruence| |]; apply Ok_inj in H; subst mods; fold qm0 in Hq; cbn [app] in Hq.
  - match type of Hq with In _ (qmodule_loop _ ?d ?b ?lin ?nl ?q ?ks) => split; [|exact (loop_proper d b lin nl (PF _) PN ks q P0 qm Hq)]; destruct (loop_all K n d lin nl ks q) as (l & E & El) end.
    rewrite E in Hq. destruct Hq as [<-|[]]. rewrite El. apply in_or_app. left. exact I0.
  - destruct Hq as [<-|Hq]; [auto|].
    match type of Hq with In _ (qmodule_loop _ ?d ?b ?lin ?nl ?q ?ks) => split; [|exact (loop_proper d b lin nl (PF _) PN ks q P0 qm Hq)]; destruct (loop_progressive K n d lin nl ks q) as (l & E & _ & El) end.
    rewrite E in Hq. destruct (El qm Hq) as [nw ->]. apply in_or_app. left. exact I0.
Qed.
Lemma nth_repeat0 k : forall i, nth i (repeat 0%nat k) 0%nat = 0%nat.
Proof. induction k as [|k IH]; intros [|i]; cbn; auto. Qed.
Lemma constant_one p : proper K n true p -> (forall x, peval x p = 1) -> p = [(repeat 0%nat n, 1)].
Proof.
  intros (W & NZ & _) E. destruct (pone_spec K n) as (W1 & E1 & _). unfold pone in W1, E1.
  pose proof (peval_inj K n p [(repeat 0%nat n, 1)] W W1 (fun x => eq_trans (E x) (eq_sym (E1 x)))) as C.
  assert (ALL : forall t, In t p -> t = (repeat 0%nat n, 1)).
  { intros [m c] Ht. pose proof (coef_in K p m c (proj1 W) Ht) as Ec. specialize (C m). rewrite Ec in C. pose proof (NZ _ Ht) as Nc. cbn [snd] in Nc.
    destruct (mon_dec m (repeat 0%nat n)) as [Em|Em].
    - rewrite Em in *. rewrite (coef_in K [(repeat 0%nat n, 1)] (repeat 0%nat n) 1 (proj1 W1) (or_introl eq_refl)) in C. rewrite C. reflexivity.
    - rewrite (coef_notin K) in C; [congruence|]. cbn. intros [X|[]]. congruence. }
  destruct p as [|t [|t' p]].
  - pose proof (E (fun _ => 0)) as X. cbn in X. exfalso. apply (fneq10 K). symmetry. exact X.
  - rewrite (ALL t (or_introl eq_refl)). reflexivity.
  - exfalso. pose proof (ALL t (or_introl eq_refl)) as A1. pose proof (ALL t' (or_intror (or_introl eq_refl))) as A2. subst t t'. destruct W as [ND _]. cbn in ND. inversion ND as [|? ? X _]. apply X. left. reflexivity.
Qed.
Lemma even_module_ok f eqs qm : (forall c, c <> [] -> In (pick c) c) -> (forall c c', (forall v, In v c <-> In v c') -> pick c = pick c') ->
  (2 <= n)%nat -> length G <> 1%nat -> In (one_item n) qm -> proper_items qm -> module_ok f eqs qm.
Proof.
  intros P1 P2 Hn NG H1 HP q' EC. split; [apply (clear_items_distinct qm q' P1 P2 NG HP EC)|]. right.
  destruct (clear_items_spec qm q' EC) as [IQ EP]. destruct (Nat.eqb_spec (length G) 1) as [X|_]; [contradiction|].
  assert (PP : forall p, In p (map fst qm) -> proper K n true p) by (intros p Hp'; apply in_map_iff in Hp'; destruct Hp' as (i & <- & Hi); apply HP, Hi).
  destruct (clear_polys_spec K n G true pick HG P1 (map fst qm) (map fst q') Hn PP EP) as [A B].
  destruct (B (fst (one_item n)) (in_map fst _ _ H1)) as (r & Hr & (g & Hg & Er)).
  assert (E1 : r = [(repeat 0%nat n, 1)]).
  { apply constant_one; [apply PP, A, Hr|]. intro x. rewrite Er. apply (proj1 (proj2 (pone_spec K n))). }
  intros m Hm. exists (repeat 0%nat n), 1. split; [rewrite <- E1; exact Hr|]. split; [apply (fneq10 K)|]. intro i. rewrite nth_repeat0. lia.
Qed.
Lemma sdpsos_sound_even limit f ineqs eqs p cert : (forall c, c <> [] -> In (pick c) c) -> (forall c c', (forall v, In v c <-> In v c') -> pick c = pick c') ->
  (2 <= n)%nat -> length G <> 1%nat -> (total_degree f mod 2 = 0)%nat -> p <> PNone ->
  wf n f -> solve_ok f -> items_ok K n ineqs -> proper_items ineqs -> items_ok K n eqs -> distinct K (map fst eqs) ->
  sdpsos n G gens order pick solve limit f ineqs eqs true p = Ok (Some cert) ->
  (forall x, cert x = peval x f) /\
  forall x, (forall i g, In i ineqs -> In g G -> 0 <= peval (fun k => x (nth k g 0%nat)) (fst i)) ->
    (forall i g, In i eqs -> In g G -> peval (fun k => x (nth k g 0%nat)) (fst i) = 0) -> 0 <= cert x.
Proof.
  intros P1 P2 Hn NG He Hp Wf HS HI PI HE DE H. apply (sdpsos_sound limit f ineqs eqs true p cert Wf HS HI HE DE); [|exact H].
  intros mods qm EM Hq. destruct (modules_contain_one f ineqs p mods qm PI Hp He EM Hq) as [A B]. apply even_module_ok; assumption.
Qed.
End Facts.
