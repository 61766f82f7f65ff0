(** * Soundness of the four-variable search *)
From Coq Require Import Bool List Arith Lia Ring Field Permutation.
From Verif Require Import OrdField Base Poly Perm PolyId Coeff StructUtils Congruence Expr Sparse SparseSym Quarternary QuarternaryFacts QuarternaryQuartic.
Import ListNotations.

Section Solve.
Variable K : OrdField.
Local Open Scope of_scope.
Add Field Kf : (F_field K).
Implicit Types p q : poly K.

Lemma perm4 l : In l (gens_sym ++ gens_abc) -> is_perm 4 l.
Proof.
  intro H. apply NoDup_Permutation_bis.
  - cbn in H. intuition; subst; repeat constructor; cbn; intuition discriminate.
  - cbn in H. intuition; subst; cbn; lia.
  - cbn in H. intuition; subst; intros i Hi; cbn in *; intuition.
Qed.

Lemma class_of_cyclic gens p N : wf 4 p -> nonzero K p -> homog K N p -> (forall g, In g gens -> is_perm 4 g) ->
  is_cyclic 4 gens p = true -> class K 4 gens p.
Proof.
  intros Hw Hn Hh Hg H. split; auto; [exists N; exact Hh|]. intros g Hin.
  unfold is_cyclic in H. cbn [Nat.eqb] in H. rewrite forallb_forall in H. specialize (H g Hin).
  rewrite (is_perm_length 4 g (Hg g Hin)) in H. cbn [Nat.eqb negb] in H.
  apply (support_check K 4 g p (Hg g Hin) Hw). exact H.
Qed.

Lemma is_cyclic_of_inv p g : wf 4 p -> In g (gens_sym ++ gens_abc) -> coef_inv K 4 g p -> is_cyclic 4 [g] p = true.
Proof.
  intros Hw Hg Hi. pose proof (perm4 g Hg) as Hp. unfold is_cyclic. cbn [Nat.eqb forallb].
  rewrite (is_perm_length 4 g Hp), andb_true_r. cbn [Nat.eqb negb]. apply (support_check K 4 g p Hp Hw). exact Hi.
Qed.

Lemma class_sym4 p : class K 4 gens_sym p -> sym4 K p.
Proof.
  intros [_ _ _ Hi] i j k l. split; symmetry.
  - exact (Hi [1;0;2;3]%nat (or_intror (or_introl eq_refl)) [i;j;k;l] eq_refl).
  - exact (Hi [1;2;3;0]%nat (or_introl eq_refl) [i;j;k;l] eq_refl).
Qed.
Lemma class_cyc4 p : class K 4 gens_cyc p -> cyclic4 K p.
Proof. intros [_ _ _ Hi] i j k l. symmetry. exact (Hi [1;2;3;0]%nat (or_introl eq_refl) [i;j;k;l] eq_refl). Qed.
Lemma class_weaken n g1 g2 p : incl g2 g1 -> class K n g1 p -> class K n g2 p.
Proof. intros H [A B C D]. split; auto. Qed.


Fixpoint below (n : nat) (e : ex K) : bool :=
  match e with
  | EC _ => true
  | EX i => Nat.ltb i n
  | EAdd u v | ESub u v | EMul u v | EDiv u v => below n u && below n v
  | EPow u _ => below n u
  end.
Lemma below_manifest n e x : below n e = true -> manifest true e = true -> orthant n x -> defined x e -> 0 <= ev x e.
Proof.
  intros Hb Hm Hx Hd. set (y := fun i => if Nat.ltb i n then x i else 0).
  assert (E : ev y e = ev x e /\ (defined y e <-> defined x e)).
  { clear Hm Hd. revert Hb. induction e; cbn [below ev defined]; rewrite ?andb_true_iff; intro Hb;
      repeat match goal with H : _ /\ _ |- _ => destruct H end;
      repeat match goal with IH : ?A -> _ /\ _, H : ?A |- _ => destruct (IH H); clear IH end; rewrite ?H, ?H0, ?H1;
      try (split; [congruence|tauto]).
    - unfold y. rewrite Hb. split; [reflexivity|tauto].
 }
  destruct E as [E D]. rewrite <- E. apply (manifest_nonneg true e y); [|apply D, Hd|exact Hm]. intros _ i. unfold y.
  destruct (Nat.ltb_spec i n) as [H|H]; [apply Hx, H|apply fle_refl].
Qed.
Lemma certifies_intro n p e : manifest true e = true -> below n e = true -> (forall x, defined x e -> ev x e = peval x p) ->
  certifies (orthant n) p e.
Proof. intros Hm Hb He x Hx Hd. split; [apply He, Hd|apply (below_manifest n); assumption]. Qed.

Lemma below_rename n s e : (forall i, (i < n)%nat -> (s i < n)%nat) -> below n e = true -> below n (erename s e) = true.
Proof.
  intro Hs. induction e; cbn [below erename]; rewrite ?andb_true_iff; try tauto. rewrite !Nat.ltb_lt. apply Hs.
Qed.
Lemma below_symsum4 e : below 4 e = true -> below 4 (symsum4 e) = true.
Proof.
  intro H. unfold symsum4.
  assert (HP : forall s, In s perms4 -> forall i, (i < 4)%nat -> (nth i s i < 4)%nat).
  { let l := eval vm_compute in perms4 in change perms4 with l. intros s Hs i Hi.
    cbn [In] in Hs. repeat (destruct Hs as [<-|Hs]; [destruct i as [|[|[|[|]]]]; cbn; lia|]). destruct Hs. }
  induction perms4 as [|s l IH]; cbn [fold_right below]; [reflexivity|]. rewrite IH by (intros; apply HP; auto; right; auto).
  rewrite below_rename; [reflexivity|apply HP; left; reflexivity|exact H].
Qed.
Lemma below_cyc4 e : below 4 e = true -> below 4 (cyc4 e) = true.
Proof.
  intro H. unfold cyc4. cbn [below].
  assert (HR : forall i, (i < 4)%nat -> (rot4 i < 4)%nat) by (intros i Hi; destruct i as [|[|[|[|]]]]; cbn; lia).
  rewrite ?andb_true_iff; repeat split; repeat (apply below_rename; [exact HR|]); exact H.
Qed.

Lemma cubic4_symmetric_below p e : cubic4_symmetric p = Some e -> below 4 e = true.
Proof.
  unfold cubic4_symmetric. intro He. cbv zeta in He.
  destruct (_ && _)%bool in He; [|destruct (_ && _)%bool in He; [|discriminate]]; apply Some_inj in He; subst e;
    cbn [below]; rewrite !below_symsum4 by reflexivity; reflexivity.
Qed.
Lemma weighting4_below (w1 w2 w3 : K) e : weighting4 w1 w2 w3 = Some e -> below 4 e = true.
Proof.
  unfold weighting4. destruct (quadratic_weighting w1 w2 w3) as [r|]; [|discriminate].
  intro H. injection H as <-. induction r as [|[w [u v]] r IH]; [reflexivity|]. cbn [fold_right below fst snd].
  rewrite IH. unfold fluorite_map. cbn [below]. rewrite below_cyc4 by reflexivity. reflexivity.
Qed.
Lemma quartic4_below ts p e : quartic4_real ts p = Some e -> below 4 e = true.
Proof.
  unfold quartic4_real, quartic4_fluorite. intro He. cbv zeta in He.
  destruct (quartic_head p); cbn [negb] in He.
  - destruct (_ || _)%bool in He; [discriminate|].
    destruct (_ || _)%bool in He; [discriminate|]. destruct (_ <? 0) in He; [discriminate|].
    match type of He with match ?w with _ => _ end = _ => destruct w as [t|]; [|discriminate] end.
    match type of He with match ?w with _ => _ end = _ => destruct w as [e0|] eqn:Ew; [|discriminate] end.
    destruct (_ || _)%bool in He; [discriminate|]. apply Some_inj in He; subst e. unfold quartic_sq.
    cbn [below]. rewrite !below_cyc4 by reflexivity. rewrite (weighting4_below _ _ _ _ Ew). reflexivity.
  - match type of He with match ?w with _ => _ end = _ => destruct w as [e0|] eqn:Ew; [|discriminate] end.
    destruct (_ && _)%bool in He; [|discriminate]. apply Some_inj in He; subst e.
    cbn [below]. rewrite !below_cyc4 by reflexivity. rewrite (weighting4_below _ _ _ _ Ew). reflexivity.
Qed.
Lemma cubic4_partial_below cands p e : coef p [1;1;1;0]%nat <> 0 -> cubic4_partial cands p = Ok (Some e) -> below 4 e = true.
Proof.
  intros Hm He. unfold cubic4_partial in He. destruct (negb _) in He; [discriminate|]. rewrite (feqb_neq _ _ _ Hm) in He.
  cbv zeta in He. destruct (_ || _)%bool in He; [discriminate|]. destruct (_ || _)%bool in He; [discriminate|].
  match type of He with match ?w with _ => _ end = _ => destruct w as [v|]; [|discriminate] end.
  match type of He with match ?w with _ => _ end = _ => destruct w as [r|]; [|discriminate] end.
  destruct (r <? 0); [discriminate|]. destruct (_ || _)%bool in He; [discriminate|].
  injection He as <-. reflexivity.
Qed.

(** In a cubic without common factor, symmetric in a, b, c and without a^3 and a^2 b, the term abc occurs. *)
Lemma partial_abc p : class K 4 (gens_abc ++ [[1;0;2;3]]%nat) p -> reduced K 4 p -> homog K 3 p -> p <> [] ->
  coef p [3;0;0;0]%nat = 0 -> coef p [2;1;0;0]%nat = 0 -> coef p [1;2;0;0]%nat = 0 /\ coef p [1;1;1;0]%nat <> 0.
Proof.
  intros [Hw Hnz _ Hi] [E|Hr] Hh Hne H3 H2; [contradiction|].
  assert (R : forall i j k l, coef p [j;k;i;l] = coef p [i;j;k;l]) by
    (intros; exact (Hi [1;2;0;3]%nat (or_introl eq_refl) [i;j;k;l] eq_refl)).
  assert (S : forall i j k l, coef p [j;i;k;l] = coef p [i;j;k;l]) by
    (intros; exact (Hi [1;0;2;3]%nat (or_intror (or_introl eq_refl)) [i;j;k;l] eq_refl)).
  split; [rewrite <- H2; apply S|].
  destruct (Hr 3%nat ltac:(lia)) as [m [Hm E]].
  pose proof (proj2 Hw m Hm) as L. pose proof (Hh m Hm) as Hs.
  destruct m as [|i [|j [|k [|l [|]]]]]; try discriminate. cbn [nth] in E. subst l.
  unfold list_sum in Hs. cbn [fold_right] in Hs.
  assert (Hc : coef p [i;j;k;0]%nat <> 0).
  { apply in_map_iff in Hm. destruct Hm as [[m c] [E Hin]]. cbn [fst] in E. subst m.
    rewrite (coef_in K p _ _ (proj1 Hw) Hin). apply (Hnz _ _ Hin). }
  assert (G : forall m, coef p m = 0 -> coef p [i;j;k;0]%nat = coef p m -> False) by (intros; congruence).
  assert (Z : forall i j k, (i + j + k = 3)%nat -> coef p [i;j;k;0]%nat = 0 \/ (i = 1 /\ j = 1 /\ k = 1)%nat).
  { clear - H3 H2 R S. intros i j k E.
    assert (C : (i < 4 /\ j < 4 /\ k < 4)%nat) by lia. destruct C as (A & B & D).
    assert (H12 : coef p [1;2;0;0]%nat = 0) by (rewrite <- H2; apply S).
    destruct i as [|[|[|[|]]]], j as [|[|[|[|]]]], k as [|[|[|[|]]]]; try lia; auto; left;
      rewrite <- ?(R 3 0 0 0)%nat, <- ?(R 0 3 0 0)%nat in H3;
      first [ assumption
            | rewrite <- H3; first [reflexivity | apply R | rewrite (R _ _ _ _); apply R | rewrite <- R; reflexivity | rewrite <- R, <- R; reflexivity]
            | rewrite <- H2; first [apply R | rewrite <- R; reflexivity | rewrite <- R, <- R; reflexivity]
            | rewrite <- H12; first [apply R | rewrite <- R; reflexivity | rewrite <- R, <- R; reflexivity] ]. }
  destruct (Z i j k ltac:(lia)) as [E|(-> & -> & ->)]; [contradiction|exact Hc].
Qed.

Definition cubic4_solver : solver := fun q _ => Returns (cubic4_symmetric q).
Definition quartic4_solver (ts : poly K -> list K) : solver := fun q _ => Returns (quartic4_real (ts q) q).
Definition partial4_solver (cands : poly K -> list K) : solver :=
  fun q _ => match cubic4_partial (cands q) q with Ok r => Returns r | Err e => Raises e end.

Lemma common_on gens table p e : (forall g, In g gens -> is_perm 4 g) -> class K 4 gens p ->
  (forall d s, In (d, s) table -> sound_on K (fun q => (class K 4 gens q /\ reduced K 4 q) /\ homog K d q) 4 s) ->
  sos_struct_common 4 p [Some (degree_specified_solver 4 table true)] true = Returns (Some e) -> certifies (orthant 4) p e.
Proof.
  intros Hg Hc Ht H. unfold sos_struct_common in H. refine (extract_on K 4 gens p _ true e Hg Hc _ H).
  apply wrapped_sound_on. intros s [E|[]]. apply Some_inj in E. subst s. apply degree_solver_on; [lia|exact Ht].
Qed.

Lemma quartic_on gens ts : incl gens_cyc gens ->
  sound_on K (fun q => (class K 4 gens q /\ reduced K 4 q) /\ homog K 4 q) 4 (quartic4_solver ts).
Proof.
  intros Hi q b e [[Hc _] Hh] H. injection H as H. apply certifies_intro.
  - exact (quartic4_manifest K _ _ _ H).
  - exact (quartic4_below _ _ _ H).
  - intros x _. apply (quartic4_real_exact K (ts q)); auto; [exact (cl_wf _ _ _ _ Hc)|].
    apply class_cyc4. exact (class_weaken _ _ _ _ Hi Hc).
Qed.
Lemma cubic_on : sound_on K (fun q => (class K 4 gens_sym q /\ reduced K 4 q) /\ homog K 3 q) 4 cubic4_solver.
Proof.
  intros q b e [[Hc _] Hh] H. injection H as H. apply certifies_intro.
  - exact (cubic4_symmetric_manifest K _ _ H).
  - exact (cubic4_symmetric_below _ _ H).
  - intros x Hd. apply cubic4_symmetric_exact; auto; [exact (cl_wf _ _ _ _ Hc)|]. apply class_sym4. exact Hc.
Qed.
Lemma partial_on cands : (forall q v, In v (cands q) -> 0 <= v) ->
  sound_on K (fun q => (class K 4 (gens_abc ++ [[1;0;2;3]]%nat) q /\ reduced K 4 q) /\ homog K 3 q) 4 (partial4_solver cands).
Proof.
  intros Hv q b e [[Hc Hr] Hh] H. unfold partial4_solver in H.
  destruct (cubic4_partial (cands q) q) as [r|] eqn:E; [|discriminate]. injection H as ->.
  destruct q as [|t0 q0] eqn:Eq.
  { unfold cubic4_partial in E. assert (Z : forall m, @coef K [] m = 0) by reflexivity.
    rewrite !Z in E. rewrite (proj2 (feqb_eq K 0 0) eq_refl) in E. cbn [negb andb] in E.
    destruct (quadratic_total K 4 ([] : poly K)) as [[e0 [E0 [H1 [H2 H3]]]]|[E0 _]].
    - exact (cl_wf _ _ _ _ Hc).
    - intros m [].
    - rewrite E in E0. injection E0 as <-. intros x _ Hd. split; [apply H1|apply manifest_false_nonneg; assumption].
    - rewrite E in E0. discriminate. }
  rewrite <- Eq in *. assert (Hne : q <> []) by (rewrite Eq; discriminate).
  assert (Hn : coef q [3;0;0;0]%nat = 0 /\ coef q [2;1;0;0]%nat = 0).
  { unfold cubic4_partial in E. destruct (negb _) eqn:En in E; [discriminate|].
    rewrite negb_false_iff, andb_true_iff, !feqb_eq in En. exact En. }
  destruct (partial_abc q Hc Hr Hh Hne (proj1 Hn) (proj2 Hn)) as [H12 Hm].
  apply certifies_intro.
  - exact (cubic4_partial_manifest K _ q e Hm (Hv q) E).
  - exact (cubic4_partial_below _ q e Hm E).
  - intros x Hd. apply (cubic4_partial_exact K (cands q)); auto; [exact (cl_wf _ _ _ _ Hc)|].
    intros i j k l. symmetry. exact (cl_inv _ _ _ _ Hc [1;2;0;3]%nat (or_introl eq_refl) [i;j;k;l] eq_refl).
Qed.

Lemma solve4_sym cands ts p e N : wf 4 p -> nonzero K p -> homog K N p -> is_cyclic 4 gens_cyc p = true ->
  solve4 cands ts p = Returns (Some e) -> certifies (orthant 4) p e.
Proof.
  intros Hw Hn Hh Hy H. unfold solve4 in H. cbv zeta in H. rewrite Hy in H.
  destruct (is_cyclic 4 gens_sym p) eqn:Es.
  - refine (common_on gens_sym _ p e _ _ _ H).
    + intros g Hg. apply perm4, in_or_app. left. exact Hg.
    + apply (class_of_cyclic gens_sym p N); auto. intros g Hg. apply perm4, in_or_app. left. exact Hg.
    + intros d s [E|[E|[]]]; injection E as <- <-; [exact cubic_on|]. apply quartic_on. intros g [<-|[]]. left. reflexivity.
  - refine (common_on gens_cyc _ p e _ _ _ H).
    + intros g [<-|[]]. apply perm4. left. reflexivity.
    + apply (class_of_cyclic gens_cyc p N); auto. intros g [<-|[]]. apply perm4. left. reflexivity.
    + intros d s [E|[]]; injection E as <- <-. apply quartic_on. apply incl_refl.
Qed.
Lemma solve4_abc cands ts p e N : wf 4 p -> nonzero K p -> homog K N p -> coef_inv K 4 [1;0;2;3]%nat p ->
  (forall q v, In v (cands q) -> 0 <= v) ->
  solve4 cands ts p = Returns (Some e) -> certifies (orthant 4) p e.
Proof.
  intros Hw Hn Hh Hsw Hv H. destruct (is_cyclic 4 gens_cyc p) eqn:Hy; [exact (solve4_sym _ _ _ _ N Hw Hn Hh Hy H)|].
  pose proof H as H'. unfold solve4 in H'. cbv zeta in H'. rewrite Hy in H'.
  destruct (is_cyclic 4 gens_sym p) eqn:Es.
  { exfalso. assert (Hy' : is_cyclic 4 gens_cyc p = true); [|congruence]. unfold is_cyclic, gens_sym, gens_cyc in *. cbn [Nat.eqb forallb] in *.
    rewrite !andb_true_iff in *. intuition. }
  destruct (is_cyclic 4 gens_abc p) eqn:Ea; [|discriminate].
  assert (Hg : forall g, In g (gens_abc ++ [[1;0;2;3]]%nat) -> is_perm 4 g).
  { intros g Hg. apply perm4. cbn in *. intuition. }
  refine (common_on (gens_abc ++ [[1;0;2;3]]%nat) _ p e Hg _ _ H').
  - destruct (class_of_cyclic gens_abc p N Hw Hn Hh) as [A B C D]; auto.
    { intros g Hin. apply perm4. cbn in *. intuition. }
    split; auto. intros g Hin. cbn in Hin. destruct Hin as [<-|[<-|[]]]; [apply D; left; reflexivity|exact Hsw].
  - intros d s [E|[]]; injection E as <- <-. apply partial_on, Hv.
Qed.

(** *** Symmetric cubics are decided *)
Definition pt4 (u v w t : K) : nat -> K := fun i => nth i [u; v; w; t] 0.
Lemma pt4_orthant u v w t : 0 <= u -> 0 <= v -> 0 <= w -> 0 <= t -> orthant 4 (pt4 u v w t).
Proof. intros H1 H2 H3 H4 i Hi. destruct i as [|[|[|[|]]]]; cbn; auto; lia. Qed.

Lemma cubic4_symmetric_none p : wf 4 p -> homog K 3 p -> sym4 K p -> cubic4_symmetric p = None ->
  exists x, orthant 4 x /\ peval x p < 0.
Proof.
  intros Hw Hh Hs He. pose proof (fun x => sym4_value K p x Hw Hh Hs) as V. cbv zeta in V.
  unfold cubic4_symmetric in He. cbv zeta in He.
  set (c3 := coef p [3;0;0;0]%nat) in *. set (c2 := coef p [2;1;0;0]%nat) in *. set (c1 := coef p [1;1;1;0]%nat) in *.
  assert (V1 : peval (pt4 1 0 0 0) p = c3) by (rewrite V; cbn [pt4 nth fpow]; ring).
  assert (V2 : peval (pt4 1 1 0 0) p = 2 * (c3 + c2)) by (rewrite V; cbn [pt4 nth fpow]; ring).
  assert (V3 : peval (pt4 1 1 1 0) p = 3 * (c1 / 3 + 2 * c2 + c3)) by (rewrite V; cbn [pt4 nth fpow]; field; fnz).
  assert (V4 : peval (pt4 1 1 1 1) p = 4 * (c1 + 3 * c2 + c3)) by (rewrite V; cbn [pt4 nth fpow]; field; fnz).
  assert (N : forall (k u : K), 0 < k -> u < 0 -> k * u < 0).
  { intros k u Hk Hu. apply flt_sub. replace (0 - k * u) with (k * (0 - u)) by ring. apply fmul_pos; [exact Hk|].
    exact (proj1 (flt_sub _ _) Hu). }
  pose proof (f1_nonneg K) as H1. pose proof (fle_refl K 0) as H0.
  destruct (0 <=? c3) eqn:E1; [|apply fleb_gt in E1; exists (pt4 1 0 0 0); split; [apply pt4_orthant; assumption|rewrite V1; exact E1]].
  destruct (0 <=? c3 + c2) eqn:E2; [|apply fleb_gt in E2; exists (pt4 1 1 0 0); split; [apply pt4_orthant; assumption|rewrite V2; apply N; [fpos|exact E2]]].
  rewrite andb_true_r in He. cbn [andb] in He.
  destruct (0 <=? c2 / 2 + c1 / fnat 6) eqn:E3; [discriminate|]. apply fleb_gt in E3.
  assert (Hy : (0 <=? - c1 - 3 * c2) = true).
  { apply fleb_le. apply flt_le. apply flt_sub. replace (- c1 - 3 * c2 - 0) with (fnat 6 * (0 - (c2 / 2 + c1 / fnat 6))).
    - apply fmul_pos; [apply fnat_pos; lia|exact (proj1 (flt_sub _ _) E3)].
    - cbn [fnat]. field. split; fnz. }
  rewrite Hy in He.
  destruct (0 <=? c1 + 3 * c2 + c3) eqn:E4;
    [|apply fleb_gt in E4; exists (pt4 1 1 1 1); split; [apply pt4_orthant; assumption|rewrite V4; apply N; [fpos|exact E4]]].
  destruct (0 <=? c1 / 3 + 2 * c2 + c3) eqn:E5; [discriminate|].
  apply fleb_gt in E5; exists (pt4 1 1 1 0); split; [apply pt4_orthant; assumption|rewrite V3; apply N; [fpos|exact E5]].
Qed.

Lemma cubic4_symmetric_some p e x : wf 4 p -> homog K 3 p -> sym4 K p -> cubic4_symmetric p = Some e -> orthant 4 x ->
  0 <= peval x p.
Proof.
  intros Hw Hh Hs He Hx.
  assert (Hdef : ev x (symsum4 (EX 0 * EX 1))%E <> 0 -> defined x e).
  { intro Hn. unfold cubic4_symmetric in He. cbv zeta in He.
    destruct (_ && _)%bool in He; [|destruct (_ && _)%bool in He; [|discriminate]];
      injection He as <-; cbn [defined]; repeat split; auto; apply defined_symsum4; intro; cbn; tauto. }
  assert (Hc : 0 <= coef p [3;0;0;0]%nat).
  { unfold cubic4_symmetric in He. cbv zeta in He.
    set (c3 := coef p [3;0;0;0]%nat) in *. set (c2 := coef p [2;1;0;0]%nat) in *. set (c1 := coef p [1;1;1;0]%nat) in *.
    destruct (_ && _)%bool eqn:E in He; [rewrite !andb_true_iff, !fleb_le in E; tauto|].
    clear E. destruct (_ && _)%bool eqn:E in He; [|discriminate]. rewrite !andb_true_iff, !fleb_le in E. destruct E as [[E1 E2] E3].
    replace c3 with (c1 + 3 * c2 + c3 + (- c1 - 3 * c2)) by ring. apply fadd_nonneg; assumption. }
  destruct (feq_dec K (ev x (symsum4 (EX 0 * EX 1))%E) 0) as [E|E].
  - rewrite (sym4_value K p x Hw Hh Hs).
    rewrite ss_ab in E.
    pose proof (Hx 0%nat ltac:(lia)) as X0. pose proof (Hx 1%nat ltac:(lia)) as X1.
    pose proof (Hx 2%nat ltac:(lia)) as X2. pose proof (Hx 3%nat ltac:(lia)) as X3.
    set (A := x 0%nat) in *. set (B := x 1%nat) in *. set (C := x 2%nat) in *. set (D := x 3%nat) in *.
    assert (Z : forall s t r : K, 0 <= s -> 0 <= t -> s + t = r -> r = 0 -> s = 0).
    { intros s t r Hs0 Ht Er E0. apply (fle_antisym K); [|exact Hs0]. apply fle_sub. rewrite E0 in Er.
      replace (0 - s) with t by (rewrite <- Er; ring). exact Ht. }
    assert (Hsum : A*B + A*C + A*D + B*C + B*D + C*D = 0).
    { apply fmul_eq0 in E. destruct E as [E|E]; [exfalso; revert E; fnz|]. rewrite <- E. ring. }
    assert (Np : forall u v : K, 0 <= u -> 0 <= v -> 0 <= u * v) by (intros; apply fmul_nonneg; assumption).
    assert (Na : forall u v : K, 0 <= u -> 0 <= v -> 0 <= u + v) by (intros; apply fadd_nonneg; assumption).
    Local Ltac np := auto 20.
    assert (HAB : A*B = 0) by (apply (Z _ (A*C + A*D + B*C + B*D + C*D) (A*B + A*C + A*D + B*C + B*D + C*D)); [np|np| |exact Hsum]; ring).
    assert (HAC : A*C = 0) by (apply (Z _ (A*B + A*D + B*C + B*D + C*D) (A*B + A*C + A*D + B*C + B*D + C*D)); [np|np| |exact Hsum]; ring).
    assert (HAD : A*D = 0) by (apply (Z _ (A*C + A*B + B*C + B*D + C*D) (A*B + A*C + A*D + B*C + B*D + C*D)); [np|np| |exact Hsum]; ring).
    assert (HBC : B*C = 0) by (apply (Z _ (A*C + A*D + A*B + B*D + C*D) (A*B + A*C + A*D + B*C + B*D + C*D)); [np|np| |exact Hsum]; ring).
    assert (HBD : B*D = 0) by (apply (Z _ (A*C + A*D + B*C + A*B + C*D) (A*B + A*C + A*D + B*C + B*D + C*D)); [np|np| |exact Hsum]; ring).
    assert (HCD : C*D = 0) by (apply (Z _ (A*C + A*D + B*C + B*D + A*B) (A*B + A*C + A*D + B*C + B*D + C*D)); [np|np| |exact Hsum]; ring).
    match goal with |- 0 <= ?t => replace t with (coef p [3;0;0;0]%nat * (A^3 + B^3 + C^3 + D^3)
      + coef p [2;1;0;0]%nat * ((A + B) * (A*B) + (A + C) * (A*C) + (A + D) * (A*D) + (B + C) * (B*C) + (B + D) * (B*D) + (C + D) * (C*D))
      + coef p [1;1;1;0]%nat * ((A*B)*C + (A*B)*D + (A*C)*D + (B*C)*D)) by (cbn [fpow]; ring) end.
    rewrite HAB, HAC, HAD, HBC, HBD, HCD.
    match goal with |- 0 <= ?t => replace t with (coef p [3;0;0;0]%nat * (A^3 + B^3 + C^3 + D^3)) by ring end. cbn [fpow].
    pose proof (f1_nonneg K). auto 20.
  - specialize (Hdef E). rewrite <- (cubic4_symmetric_exact K p e x Hw Hh Hs He Hdef).
    apply (below_manifest 4); auto; [exact (cubic4_symmetric_below _ _ He)|exact (cubic4_symmetric_manifest K _ _ He)].
Qed.
End Solve.
