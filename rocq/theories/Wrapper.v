(** * Masking of constraints by function symbols (triples/core/shared.py:383-412) *)
From Coq Require Import Bool List Arith Lia Permutation Ring Field.
From Verif Require Import OrdField Base Perm Poly PolyId Monomials Shared.
Import ListNotations.

(** A masked constraint [_Gk(s1, ..., sm)]: the counter of the function symbol and the numbers of
    the symbols it is applied to. *)
Definition mask := (nat * list nat)%type.
Definition maskb (a b : mask) : bool := Nat.eqb (fst a) (fst b) && meqb (snd a) (snd b).

Section Wrapper.
Variable K : OrdField.
Local Open Scope of_scope.
Add Field Kf_wr : (F_field K).
(** expressions recorded with the constraints *)
Variable E : Type.
(** number of symbols and elements of the permutation group *)
Variable n : nat.
Variable G : list (list nat).

(** [base.degree_list()] *)
Definition degree_list (p : poly K) : list nat :=
  map (fun j => fold_right Nat.max 0%nat (map (fun t => nth j (fst t) 0%nat) p)) (seq 0 n).
(** [_get_mask(p(symbols), dlist)] (shared.py:384-386) *)
Definition get_mask (dlist p : list nat) : list nat :=
  map snd (filter (fun ds => negb (Nat.eqb (fst ds) 0)) (combine dlist p)).

(** dictionaries keyed by representations and by masked constraints; a new assignment is put in
    front, so the order of the entries of the Python dictionary is not modelled *)
Definition rep_get {V} (d : list (poly K * V)) (p : poly K) : option V :=
  match find (fun t => peqb K (fst t) p) d with Some t => Some (snd t) | None => None end.
Definition mask_get {V} (d : list (mask * V)) (k : mask) : option V :=
  match find (fun t => maskb (fst t) k) d with Some t => Some (snd t) | None => None end.

(** the loop over the group (shared.py:397-406) for the base with function symbol [k];
    [~p(symbols)] orders the generators by the inverse permutation *)
Fixpoint mask_group (cons : list (poly K * E)) (k : nat) (base : poly K) (perms : list (list nat))
    (dt : list (poly K * mask)) (inv : list (mask * E)) : res (list (poly K * mask) * list (mask * E)) :=
  match perms with
  | [] => Ok (dt, inv)
  | p :: perms' =>
      let permed := reorder K (pinv p) base in
      match rep_get cons permed with
      | None => Err ValueError
      | Some e =>
          let value := (k, get_mask (degree_list base) p) in
          mask_group cons k base perms' ((permed, value) :: dt) ((value, e) :: inv)
      end
  end.
(** the loop over the constraints (shared.py:393-407) *)
Fixpoint mask_loop (cons todo : list (poly K * E)) (k : nat)
    (dt : list (poly K * mask)) (inv : list (mask * E)) : res (list (poly K * mask) * list (mask * E)) :=
  match todo with
  | [] => Ok (dt, inv)
  | (base, _) :: todo' =>
      match rep_get dt base with
      | Some _ => mask_loop cons todo' k dt inv
      | None => match mask_group cons k base G dt inv with
                | Err r => Err r
                | Ok (dt', inv') => mask_loop cons todo' (S k) dt' inv'
                end
      end
  end.
(** [_get_dicts] (shared.py:388-409), applied to the inequalities and to the equations *)
Definition get_dicts (cons : list (poly K * E)) : res (list (poly K * mask) * list (mask * E)) :=
  mask_loop cons cons 0 [] [].

(** *** Facts *)
Hypothesis HG : is_group n G.

Lemma maskb_eq a b : maskb a b = true <-> a = b.
Proof.
  destruct a as [k l], b as [k' l']. unfold maskb. cbn [fst snd]. rewrite andb_true_iff, Nat.eqb_eq, meqb_eq.
  split; [intros [-> ->]; reflexivity|intro H; injection H as -> ->; split; reflexivity].
Qed.
Lemma rep_get_in {V} (d : list (poly K * V)) p v : rep_get d p = Some v -> exists q, In (q, v) d /\ same K q p.
Proof.
  unfold rep_get. destruct (find _ d) as [[q w]|] eqn:F; [|discriminate]. intro H. injection H as <-.
  apply find_some in F. cbn [fst snd] in *. exists q. split; [apply F|apply peqb_same, F].
Qed.
Lemma rep_get_some {V} (d : list (poly K * V)) p q v : In (q, v) d -> same K q p -> exists w, rep_get d p = Some w.
Proof.
  intros H S. unfold rep_get. destruct (find _ d) as [[q' w]|] eqn:F; [exists w; reflexivity|].
  pose proof (find_none _ _ F _ H) as N. cbn [fst] in N. apply (proj2 (peqb_same K q p)) in S. congruence.
Qed.
Lemma rep_get_same {V} (d : list (poly K * V)) p q : same K p q -> rep_get d p = rep_get d q.
Proof.
  intro S. unfold rep_get. assert (Ef : find (fun t => peqb K (fst t) p) d = find (fun t => peqb K (fst t) q) d).
  { induction d as [|t d IH]; [reflexivity|]. cbn [find].
    assert (Eb : peqb K (fst t) p = peqb K (fst t) q).
    { destruct (peqb K (fst t) p) eqn:A, (peqb K (fst t) q) eqn:B; try reflexivity; exfalso.
      - apply peqb_same in A. assert (C : peqb K (fst t) q = true) by (apply peqb_same; eapply same_trans; eassumption). congruence.
      - apply peqb_same in B. assert (C : peqb K (fst t) p = true) by (apply peqb_same; eapply same_trans; [exact B|apply same_sym; exact S]). congruence. }
    rewrite Eb, IH. reflexivity. }
  rewrite Ef. reflexivity.
Qed.
Lemma mask_get_in {V} (d : list (mask * V)) k v : mask_get d k = Some v -> In (k, v) d.
Proof.
  unfold mask_get. destruct (find _ d) as [[q w]|] eqn:F; [|discriminate]. intro H. injection H as <-.
  apply find_some in F. cbn [fst snd] in *. destruct F as [F1 F2]. apply maskb_eq in F2. subst. exact F1.
Qed.
Lemma mask_get_some {V} (d : list (mask * V)) k v : In (k, v) d -> exists w, mask_get d k = Some w.
Proof.
  intros H. unfold mask_get. destruct (find _ d) as [[q' w]|] eqn:F; [exists w; reflexivity|].
  pose proof (find_none _ _ F _ H) as N. cbn [fst] in N. rewrite (proj2 (maskb_eq k k) eq_refl) in N. discriminate.
Qed.

(** the polynomial [base(p(symbols))] *)
Lemma permed_eq p base : In p G -> reorder K (pinv p) base = prename K p base.
Proof.
  intro Hp. pose proof (g_perm n G HG p Hp) as Pp.
  rewrite (reorder_prename K n (pinv p) base (pinv_is_perm n p Pp)), (pinv_pinv n p Pp). reflexivity.
Qed.
Lemma get_mask_map f dl p : map f (get_mask dl p) = get_mask dl (map f p).
Proof.
  unfold get_mask. rewrite map_map. revert p. induction dl as [|d dl IH]; intros [|a p]; try reflexivity.
  cbn [combine map filter fst]. destruct (negb (Nat.eqb d 0)); cbn [map snd]; rewrite IH; reflexivity.
Qed.
Lemma get_mask_pcomp dl p s : map (fun i => nth i s 0%nat) (get_mask dl p) = get_mask dl (pcomp p s).
Proof. rewrite get_mask_map. reflexivity. Qed.
Lemma get_mask_inj dl p q : length p = length dl -> length q = length dl -> get_mask dl p = get_mask dl q ->
  forall j, nth j dl 0%nat <> 0%nat -> nth j p 0%nat = nth j q 0%nat.
Proof.
  revert p q. induction dl as [|d dl IH]; intros [|a p] [|b q] Hp Hq H j Hj; try discriminate; [destruct j; cbn in Hj; congruence|].
  cbn in Hp, Hq. unfold get_mask in H. cbn [combine filter fst] in H.
  destruct (Nat.eqb_spec d 0) as [Ed|Ed]; cbn [negb map snd] in H.
  - destruct j as [|j]; [cbn in Hj; congruence|]. cbn [nth] in *. apply IH; try lia; assumption.
  - injection H as -> H. destruct j as [|j]; [reflexivity|]. cbn [nth] in *. apply IH; try lia; assumption.
Qed.
Lemma degree_list_ge p t j : In t p -> (j < n)%nat -> (nth j (fst t) 0%nat <= nth j (degree_list p) 0%nat)%nat.
Proof.
  intros Ht Hj. unfold degree_list.
  set (f := fun j => fold_right Nat.max 0%nat (map (fun t => nth j (fst t) 0%nat) p)).
  rewrite (nth_indep (map f (seq 0 n)) 0%nat (f 0%nat)) by (rewrite map_length, seq_length; exact Hj).
  rewrite map_nth, seq_nth by exact Hj. unfold f. cbn [Nat.add]. clear f. induction p as [|u p IH]; [destruct Ht|].
  cbn [map fold_right]. destruct Ht as [->|Ht]; [lia|]. specialize (IH Ht). lia.
Qed.
Lemma meval_support (x y : nat -> K) m : (forall i, (i < length m)%nat -> nth i m 0%nat <> 0%nat -> x i = y i) -> meval x m = meval y m.
Proof.
  revert x y. induction m as [|e m IH]; intros x y H; [reflexivity|]. rewrite !meval_cons. f_equal.
  - destruct e as [|e]; [reflexivity|]. rewrite (H 0%nat); [reflexivity|cbn; lia|cbn; lia].
  - apply IH. intros i Hi Hn. apply H; [cbn; lia|exact Hn].
Qed.
Lemma same_mask_same_poly base p q : wf n base -> In p G -> In q G ->
  get_mask (degree_list base) p = get_mask (degree_list base) q -> same K (prename K p base) (prename K q base).
Proof.
  intros Hb Hp Hq H. pose proof (g_perm n G HG p Hp) as Pp. pose proof (g_perm n G HG q Hq) as Pq.
  apply (same_peval_iff K n); [apply prename_wf; assumption|apply prename_wf; assumption|]. intro x.
  rewrite !(prename_peval K n) by (try assumption; apply Hb). unfold peval. apply fsum_map_ext. intros t Ht. f_equal.
  assert (Hl : length (fst t) = n) by (apply (proj2 Hb), in_map, Ht).
  apply meval_support. intros i Hi Hn. f_equal.
  assert (Ld : length (degree_list base) = n) by (unfold degree_list; rewrite map_length, seq_length; reflexivity).
  apply (get_mask_inj (degree_list base)).
  - rewrite Ld. apply is_perm_length, Pp.
  - rewrite Ld. apply is_perm_length, Pq.
  - exact H.
  - pose proof (degree_list_ge base t i Ht). lia.
Qed.

Section Cons.
Variable cons : list (poly K * E).
Hypothesis Hwf : forall g e, In (g, e) cons -> wf n g.

Lemma mask_group_spec k base : forall perms dt inv, (forall p, In p perms -> In p G) ->
  match mask_group cons k base perms dt inv with
  | Err r => r = ValueError /\ exists p, In p perms /\ rep_get cons (prename K p base) = None
  | Ok (dt', inv') =>
      (forall p, In p perms -> exists e, rep_get cons (prename K p base) = Some e) /\
      (forall t, In t dt' <-> In t dt \/ exists p, In p perms /\ t = (prename K p base, (k, get_mask (degree_list base) p))) /\
      (forall t, In t inv' <-> In t inv \/ exists p e, In p perms /\ rep_get cons (prename K p base) = Some e /\ t = ((k, get_mask (degree_list base) p), e))
  end.
Proof.
  induction perms as [|p perms IH]; intros dt inv HP; cbn [mask_group].
  - repeat split; try (intros; left; assumption); try (intros p []).
    + intros [H|[p [[] _]]]. exact H.
    + intros [H|[p [e [[] _]]]]. exact H.
  - rewrite (permed_eq p base (HP p (or_introl eq_refl))).
    destruct (rep_get cons (prename K p base)) as [e|] eqn:R.
    2:{ split; [reflexivity|]. exists p. split; [left; reflexivity|exact R]. }
    cbv zeta.
    specialize (IH ((prename K p base, (k, get_mask (degree_list base) p)) :: dt) (((k, get_mask (degree_list base) p), e) :: inv) (fun q H => HP q (or_intror H))).
    destruct (mask_group cons k base perms _ _) as [[dt' inv']|r].
    + destruct IH as [A [B C]]. split; [|split].
      * intros q [<-|Hq]; [exists e; exact R|apply A, Hq].
      * intro t. rewrite B. cbn [In]. split.
        -- intros [[H|H]|[q [Hq H]]]; [right; exists p; split; [left; reflexivity|symmetry; exact H]|left; exact H|right; exists q; split; [right; exact Hq|exact H]].
        -- intros [H|[q [[<-|Hq] H]]]; [left; right; exact H|left; left; symmetry; exact H|right; exists q; split; assumption].
      * intro t. rewrite C. cbn [In]. split.
        -- intros [[H|H]|[q [e' [Hq H]]]]; [right; exists p, e; split; [left; reflexivity|split; [exact R|symmetry; exact H]]|left; exact H|right; exists q, e'; split; [right; exact Hq|exact H]].
        -- intros [H|[q [e' [[<-|Hq] [H1 H2]]]]]; [left; right; exact H|left; left; rewrite R in H1; injection H1 as <-; symmetry; exact H2|right; exists q, e'; repeat split; assumption].
    + destruct IH as [-> [q [Hq N]]]. split; [reflexivity|]. exists q. split; [right; exact Hq|exact N].
Qed.

(** what the dictionaries hold after [length bs] bases *)
Record inv_ok (bs : list (poly K)) (dt : list (poly K * mask)) (inv : list (mask * E)) : Prop := {
  io_base : forall b, In b bs -> exists e, In (b, e) cons;
  io_dt : forall g k a, In (g, (k, a)) dt -> exists b p, nth_error bs k = Some b /\ In p G /\ g = prename K p b /\ a = get_mask (degree_list b) p;
  io_inv : forall k a e, In ((k, a), e) inv -> exists b p, nth_error bs k = Some b /\ In p G /\ a = get_mask (degree_list b) p /\ rep_get cons (prename K p b) = Some e;
  io_all : forall k b p, nth_error bs k = Some b -> In p G -> exists e, In ((k, get_mask (degree_list b) p), e) inv;
  io_sym : forall b p, In b bs -> In p G -> exists e, rep_get cons (prename K p b) = Some e }.

Lemma nth_error_snoc_old {A} (l : list A) a k b : nth_error l k = Some b -> nth_error (l ++ [a]) k = Some b.
Proof. intro H. rewrite nth_error_app1; [exact H|]. apply nth_error_Some. congruence. Qed.
Lemma nth_error_snoc_inv {A} (l : list A) a k b : nth_error (l ++ [a]) k = Some b -> nth_error l k = Some b \/ (k = length l /\ b = a).
Proof.
  intro H. destruct (Nat.lt_ge_cases k (length l)) as [Hk|Hk]; [left; rewrite nth_error_app1 in H by exact Hk; exact H|].
  rewrite nth_error_app2 in H by exact Hk. destruct (k - length l)%nat as [|j] eqn:Ej; [|destruct j; discriminate].
  cbn in H. injection H as <-. right. split; [lia|reflexivity].
Qed.
Lemma mask_loop_spec : forall todo bs dt inv, inv_ok bs dt inv -> (forall t, In t todo -> In t cons) ->
  match mask_loop cons todo (length bs) dt inv with
  | Err r => r = ValueError /\ exists g e p, In (g, e) cons /\ In p G /\ rep_get cons (prename K p g) = None
  | Ok (dt', inv') => exists bs', inv_ok bs' dt' inv' /\ (forall t, In t dt -> In t dt') /\
      forall g e, In (g, e) todo -> exists w, rep_get dt' g = Some w
  end.
Proof.
  induction todo as [|[base e0] todo IH]; intros bs dt inv HI HT; cbn [mask_loop].
  - exists bs. split; [exact HI|]. split; [tauto|]. intros g e [].
  - assert (HT' : forall t, In t todo -> In t cons) by (intros t Ht; apply HT; right; exact Ht).
    destruct (rep_get dt base) as [w|] eqn:R.
    + specialize (IH bs dt inv HI HT'). destruct (mask_loop cons todo (length bs) dt inv) as [[dt' inv']|r]; [|exact IH].
      destruct IH as [bs' [A [B C]]]. exists bs'. split; [exact A|]. split; [exact B|].
      intros g e [H|H]; [|exact (C g e H)]. injection H as <- <-.
      apply rep_get_in in R. destruct R as [q [Hq S]]. exact (rep_get_some _ _ q w (B _ Hq) S).
    + pose proof (mask_group_spec (length bs) base G dt inv (fun p H => H)) as S.
      destruct (mask_group cons (length bs) base G dt inv) as [[dt1 inv1]|r].
      2:{ destruct S as [-> [p [Hp N]]]. split; [reflexivity|]. exists base, e0, p. split; [apply HT; left; reflexivity|split; assumption]. }
      destruct S as [S1 [S2 S3]].
      assert (HI' : inv_ok (bs ++ [base]) dt1 inv1).
      { constructor.
        - intros b Hb. apply in_app_or in Hb. destruct Hb as [Hb|[<-|[]]]; [apply (io_base _ _ _ HI), Hb|exists e0; apply HT; left; reflexivity].
        - intros g k a H. apply S2 in H. destruct H as [H|[p [Hp H]]].
          + destruct (io_dt _ _ _ HI g k a H) as [b [p [H1 H2]]]. exists b, p. split; [apply nth_error_snoc_old, H1|exact H2].
          + injection H as -> -> ->. exists base, p. split; [rewrite nth_error_app2, Nat.sub_diag by lia; reflexivity|]. repeat split. exact Hp.
        - intros k a e H. apply S3 in H. destruct H as [H|[p [e' [Hp [R' H]]]]].
          + destruct (io_inv _ _ _ HI k a e H) as [b [p [H1 H2]]]. exists b, p. split; [apply nth_error_snoc_old, H1|exact H2].
          + injection H as -> -> ->. exists base, p. split; [rewrite nth_error_app2, Nat.sub_diag by lia; reflexivity|]. repeat split; assumption.
        - intros k b p H Hp. apply nth_error_snoc_inv in H. destruct H as [H|[-> ->]].
          + destruct (io_all _ _ _ HI k b p H Hp) as [e He]. exists e. apply S3. left. exact He.
          + destruct (S1 p Hp) as [e He]. exists e. apply S3. right. exists p, e. repeat split; assumption.
        - intros b p Hb Hp. apply in_app_or in Hb. destruct Hb as [Hb|[<-|[]]]; [apply (io_sym _ _ _ HI); assumption|apply S1, Hp]. }
      specialize (IH (bs ++ [base]) dt1 inv1 HI' HT'). rewrite app_length, Nat.add_1_r in IH.
      destruct (mask_loop cons todo (S (length bs)) dt1 inv1) as [[dt' inv']|r]; [|exact IH].
      destruct IH as [bs' [A [B C]]]. exists bs'. split; [exact A|].
      split; [intros t Ht; apply B, S2; left; exact Ht|]. intros g e [H|H]; [|exact (C g e H)]. injection H as <- <-.
      apply (rep_get_some dt' base (prename K (pid n) base) (length bs, get_mask (degree_list base) (pid n))).
      * apply B, S2. right. exists (pid n). split; [apply (g_id n G HG)|reflexivity].
      * assert (Hb : wf n base) by (apply (Hwf base e0), HT; left; reflexivity).
        assert (E1 : prename K (pid n) base = base); [|rewrite E1; apply same_refl].
        rewrite <- (permed_eq (pid n) base (g_id n G HG)).
        assert (E2 : pinv (pid n) = pid n).
        { pose proof (g_perm n G HG _ (g_id n G HG)) as Pi. rewrite <- (pinv_r n (pid n) Pi) at 2. unfold pcomp.
          symmetry. apply (act_id 0%nat n). apply is_perm_length, pinv_is_perm, Pi. }
        rewrite E2. apply (reorder_id K n base Hb).
Qed.
Lemma inv_ok_nil : inv_ok [] [] [].
Proof. constructor; try (intros; contradiction). intros k b p H. destruct k; discriminate. Qed.

(** no two constraints have the same polynomial *)
Definition distinct : Prop := forall g e g' e', In (g, e) cons -> In (g', e') cons -> same K g g' -> e = e'.

Lemma prename_comp p s b : In p G -> In s G -> wf n b -> same K (prename K s (prename K p b)) (prename K (pcomp p s) b).
Proof.
  intros Hp Hs Hb. pose proof (g_perm n G HG p Hp) as Pp. pose proof (g_perm n G HG s Hs) as Ps.
  pose proof (g_perm n G HG _ (g_mul n G HG p s Hp Hs)) as Pps.
  apply (same_peval_iff K n); [apply prename_wf; [exact Ps|apply prename_wf; assumption]|apply prename_wf; assumption|].
  intro x. rewrite (prename_peval K n s) by (try exact Ps; apply (prename_wf K n p b Pp Hb)).
  rewrite !(prename_peval K n) by (try assumption; apply Hb).
  apply (peval_ext_len K n); [exact Hb|]. intros i Hi. f_equal. unfold pcomp. rewrite act_nth; [reflexivity|].
  rewrite (is_perm_length n p Pp). exact Hi.
Qed.

Lemma get_dicts_spec dt inv : get_dicts cons = Ok (dt, inv) ->
  forall g e, In (g, e) cons -> exists k a, rep_get dt g = Some (k, a) /\
  forall s, In s G -> exists g' e', mask_get inv (k, map (fun i => nth i s 0%nat) a) = Some e' /\
    In (g', e') cons /\ forall x, peval x g' = peval (fun i => x (nth i s 0%nat)) g.
Proof.
  intros H g e Hin. pose proof (mask_loop_spec cons [] [] [] inv_ok_nil (fun t H => H)) as S.
  unfold get_dicts in H. cbn [length] in S. rewrite H in S. destruct S as [bs [HI [_ S]]].
  destruct (S g e Hin) as [[k a] R]. exists k, a. split; [exact R|]. intros s Hs.
  apply rep_get_in in R. destruct R as [g0 [Hg0 Sg]]. destruct (io_dt _ _ _ HI g0 k a Hg0) as [b [p [Hb [Hp [-> ->]]]]].
  destruct (io_base _ _ _ HI b (nth_error_In _ _ Hb)) as [eb Hbe]. pose proof (Hwf b eb Hbe) as Wb.
  rewrite get_mask_pcomp. pose proof (g_mul n G HG p s Hp Hs) as Hps.
  destruct (io_all _ _ _ HI k b (pcomp p s) Hb Hps) as [e1 He1]. destruct (mask_get_some inv _ _ He1) as [e' He'].
  pose proof (mask_get_in _ _ _ He') as Hi. destruct (io_inv _ _ _ HI _ _ _ Hi) as [b' [p' [Hb' [Hp' [Ea R']]]]].
  rewrite Hb in Hb'. injection Hb' as <-. apply rep_get_in in R'. destruct R' as [g' [Hg' Sg']].
  exists g', e'. split; [exact He'|]. split; [exact Hg'|]. intro x.
  pose proof (g_perm n G HG s Hs) as Ps. pose proof (g_perm n G HG p Hp) as Pp.
  assert (W1 : wf n (prename K s g)) by (apply prename_wf; [exact Ps|apply (Hwf g e Hin)]).
  assert (W2 : wf n (prename K s (prename K p b))) by (apply prename_wf; [exact Ps|apply prename_wf; assumption]).
  rewrite <- (prename_peval K n s g x Ps) by (apply (Hwf g e Hin)).
  apply (same_peval K n); [apply (Hwf g' e' Hg')|exact W1|].
  apply same_trans with (prename K (pcomp p s) b).
  - apply same_trans with (prename K p' b); [exact Sg'|].
    apply same_mask_same_poly; [exact Wb|exact Hp'|exact Hps|symmetry; exact Ea].
  - apply same_trans with (prename K s (prename K p b)); [apply same_sym, prename_comp; assumption|].
    assert (P2 : wf n (prename K p b)) by (apply prename_wf; assumption).
    apply (same_peval_iff K n); [exact W2|exact W1|]. intro y.
    rewrite !(prename_peval K n s) by (try exact Ps; first [apply P2|apply (Hwf g e Hin)]).
    apply (same_peval K n); [exact P2|apply (Hwf g e Hin)|exact Sg].
Qed.
Lemma get_dicts_roundtrip dt inv : get_dicts cons = Ok (dt, inv) -> distinct ->
  forall g e, In (g, e) cons -> exists v, rep_get dt g = Some v /\ mask_get inv v = Some e.
Proof.
  intros H D g e Hin. destruct (get_dicts_spec dt inv H g e Hin) as [k [a [R S]]]. exists (k, a). split; [exact R|].
  destruct (S (pid n) (g_id n G HG)) as [g' [e' [A [B C]]]].
  assert (Ea : map (fun i => nth i (pid n) 0%nat) a = a).
  { pose proof (mask_loop_spec cons [] [] [] inv_ok_nil (fun t H => H)) as S'.
    unfold get_dicts in H. cbn [length] in S'. rewrite H in S'. destruct S' as [bs [HI _]].
    apply rep_get_in in R. destruct R as [g0 [Hg0 _]]. destruct (io_dt _ _ _ HI g0 k a Hg0) as [b [p [_ [Hp [_ ->]]]]].
    rewrite get_mask_pcomp. f_equal. apply (pcomp_id_r n G HG p Hp). }
  rewrite Ea in A. rewrite A. f_equal. apply (D g' e' g e); [exact B|exact Hin|].
  apply (same_peval_iff K n); [apply (Hwf g' e' B)|apply (Hwf g e Hin)|]. intro x. rewrite C.
  apply (peval_ext_len K n); [apply (Hwf g e Hin)|]. intros i Hi. f_equal. unfold pid. apply seq_nth. exact Hi.
Qed.
Lemma get_dicts_error r : get_dicts cons = Err r ->
  r = ValueError /\ exists g e s, In (g, e) cons /\ In s G /\
  forall g' e', In (g', e') cons -> ~ forall x, peval x g' = peval (fun i => x (nth i s 0%nat)) g.
Proof.
  intro H. pose proof (mask_loop_spec cons [] [] [] inv_ok_nil (fun t H => H)) as S.
  unfold get_dicts in H. cbn [length] in S. rewrite H in S. destruct S as [-> [g [e [p [Hin [Hp N]]]]]].
  split; [reflexivity|]. exists g, e, p. split; [exact Hin|]. split; [exact Hp|]. intros g' e' Hin' C.
  pose proof (g_perm n G HG p Hp) as Pp.
  destruct (rep_get_some cons (prename K p g) g' e' Hin') as [w Hw]; [|congruence].
  apply (same_peval_iff K n); [apply (Hwf g' e' Hin')|apply prename_wf; [exact Pp|apply (Hwf g e Hin)]|].
  intro x. rewrite C. symmetry. apply (prename_peval K n); [exact Pp|apply (Hwf g e Hin)].
Qed.
Lemma get_dicts_symmetric dt inv : get_dicts cons = Ok (dt, inv) ->
  forall g e s, In (g, e) cons -> In s G -> exists g' e', In (g', e') cons /\ forall x, peval x g' = peval (fun i => x (nth i s 0%nat)) g.
Proof.
  intros H g e s Hin Hs. destruct (get_dicts_spec dt inv H g e Hin) as [k [a [_ S]]].
  destruct (S s Hs) as [g' [e' [_ [A B]]]]. exists g', e'. split; assumption.
Qed.
Lemma get_dicts_error_iff :
  (get_dicts cons = Err ValueError <->
   exists g e s, In (g, e) cons /\ In s G /\
   forall g' e', In (g', e') cons -> ~ forall x, peval x g' = peval (fun i => x (nth i s 0%nat)) g) /\
  (forall r, get_dicts cons = Err r -> r = ValueError).
Proof.
  split; [|intros r H; apply (get_dicts_error r H)]. split; [intro H; apply (get_dicts_error _ H)|].
  intros [g [e [s [Hin [Hs N]]]]]. destruct (get_dicts cons) as [[dt inv]|r] eqn:Q.
  - exfalso. destruct (get_dicts_symmetric dt inv Q g e s Hin Hs) as [g' [e' [A B]]]. exact (N g' e' A B).
  - f_equal. apply (get_dicts_error r Q).
Qed.
End Cons.
End Wrapper.
