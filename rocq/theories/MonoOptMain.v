(** * The reverse polyblock approximation in one variable, and a run that misses the optimum *)
From Coq Require Import Bool List Arith Lia Ring Field.
From Verif Require Import OrdField Base MonoOpt MonoOptFacts.
Import ListNotations.

Section Main.
Variable K : OrdField.
Local Open Scope of_scope.
Add Field Kf : (F_field K).

(** ** One variable: nothing is ever lost *)
Section One.
Variables f g h : list K -> K.
Variable sup_fg : option K -> list K -> list K -> res K.
Variable sup_h : list K -> list K -> res K.
Variables rtol tol : K.

Definition single (s : state K) : Prop :=
  st_lost s = false /\ (length (st_T s) <= 1)%nat /\ forall z, In z (st_T s) -> length z = 1%nat.

Lemma splits_single z x c : length z = 1%nat ->
  (length (splits f g z x c tol) <= 1)%nat /\ forall w, In w (splits f g z x c tol) -> length w = 1%nat.
Proof.
  intro L. unfold splits. rewrite L. cbn [seq filter]. destruct (negb _); cbn [map filter].
  - destruct (_ && _); (split; [cbn; lia|]).
    + intros w [<-|[]]. rewrite upd_length. exact L.
    + intros w [].
  - split; [cbn; lia|intros w []].
Qed.

Lemma step_single ind s s' : (ind < length (st_T s))%nat -> single s ->
  step f g h sup_fg sup_h rtol tol ind s = Ok s' -> single s'.
Proof.
  intros Hi (Hl & HT & Hz). unfold step.
  assert (E : firstn ind (st_T s) ++ skipn (S ind) (st_T s) = []).
  { destruct (st_T s) as [|z [|z' T]]; cbn in *; try lia. assert (ind = 0)%nat by lia. subst. reflexivity. }
  rewrite E. set (z := nth ind (st_T s) []).
  assert (Lz : length z = 1%nat) by (apply Hz; apply nth_In; exact Hi).
  destruct (if fleb 0 (- h z) then _ else _) as [al|e]; [|discriminate].
  destruct (_ && _).
  - destruct (red f g h sup_fg sup_h rtol _ _ _) as [[a b]|e]; [|discriminate].
    intro H. apply Ok_inj in H. subst s'. unfold single. cbn [st_lost st_T filter existsb app].
    rewrite Hl. split; [reflexivity|]. exact (splits_single z _ _ Lz).
  - intro H. apply Ok_inj in H. subst s'. unfold single. cbn [st_lost st_T app].
    split; [exact Hl|]. exact (splits_single z _ _ Lz).
Qed.

Lemma loop_single choose fuel : forall k s s' k', single s ->
  loop f g h sup_fg sup_h rtol tol choose fuel k s = Ok (s', k') -> single s'.
Proof.
  induction fuel as [|fuel IH]; intros k s s' k' I H; cbn [loop] in H.
  - apply Ok_inj in H. injection H as <- _. exact I.
  - destruct (st_T s) as [|z T] eqn:ET.
    + apply Ok_inj in H. injection H as <- _. exact I.
    + rewrite <- ET in H.
      destruct (step f g h sup_fg sup_h rtol tol _ s) as [s1|e] eqn:E; [|discriminate].
      refine (IH _ _ _ _ _ H). refine (step_single _ _ _ _ I E).
      apply Nat.mod_upper_bound. rewrite ET. discriminate.
Qed.

Lemma red_b_len c a b is b' : red_b f g sup_fg c a b is = Ok b' -> length b' = length b.
Proof.
  revert b. induction is as [|i is IH]; intros b H; cbn [red_b] in H.
  - apply Ok_inj in H. subst. reflexivity.
  - destruct (if fleb 0 (fg f g c _) then _ else _) as [r|e]; [|discriminate]. rewrite (IH _ H), upd_length. reflexivity.
Qed.
Lemma red_a_len a b is a' : red_a h sup_h a b is = Ok a' -> length a' = length a.
Proof.
  revert a. induction is as [|i is IH]; intros a H; cbn [red_a] in H.
  - apply Ok_inj in H. subst. reflexivity.
  - destruct (if fleb 0 (- h _) then _ else _) as [r|e]; [|discriminate]. rewrite (IH _ H), upd_length. reflexivity.
Qed.

Lemma one_not_lost choose max_iter a b cbv r : length a = 1%nat -> length b = 1%nat ->
  rpa_monotonic f g h sup_fg sup_h rtol tol choose max_iter a b cbv = Ok r -> r_lost r = false.
Proof.
  intros La Lb. unfold rpa_monotonic.
  set (cbv1 := match cbv with None => None | Some c => Some (c + tol) end).
  destruct (fltb 0 (g a) || fltb (h b) 0 || match cbv1 with None => false | Some c => fltb (c - tol) (f a) end).
  - intro H. destruct max_iter as [|m]; cbn [loop st_T] in H; apply Ok_inj in H; subst r; reflexivity.
  - destruct (red f g h sup_fg sup_h rtol a b cbv1) as [[a' b']|e] eqn:Er; [|discriminate].
    destruct max_iter as [|m]; [discriminate|].
    destruct (loop f g h sup_fg sup_h rtol tol choose (S m) 1 _) as [[s k]|e] eqn:El; [|discriminate].
    intro H. apply Ok_inj in H. subst r. cbn [r_lost].
    assert (La' : length a' = 1%nat).
    { revert Er. unfold red. destruct (red_b _ _ _ _ _ _ _) as [b1|e] eqn:E1; [|discriminate].
      apply red_b_len in E1. destruct (fleb _ _).
      - intro H. apply Ok_inj in H. injection H as <- <-. congruence.
      - destruct (red_a _ _ _ _ _) as [a1|e] eqn:E2; [|discriminate]. apply red_a_len in E2.
        intro H. apply Ok_inj in H. injection H as <- <-. congruence. }
    refine (proj1 (loop_single _ _ _ _ _ _ _ El)).
    split; [reflexivity|]. split; [cbn; lia|]. intros z [<-|[]]. exact La'.
Qed.
End One.

(** ** Two variables: the constraint [x + y >= 1] *)

Definition sum2 (p : list K) : K := vget0 p 0 + vget0 p 1.
Definition ex_h (p : list K) : K := sum2 p - 1.
Definition ex_g (p : list K) : K := - (1).
(** The exact solution on a segment. *)
Definition ex_sup_h (b z : list K) : res K :=
  if negb (Nat.eqb (length b) (length z)) then Err ValueError
  else if fltb (ex_h b) 0 then Err ValueError
  else if fleb 0 (ex_h z) then Ok 1 else Ok (ex_h b / (ex_h b - ex_h z)).

Lemma ex_h_seg b be z : length b = length z ->
  ex_h (seg b be z) = ex_h b + be * (ex_h z - ex_h b).
Proof. intro L. unfold ex_h, sum2. rewrite !seg_get by exact L. ring. Qed.
Lemma ex_h_inc a b : increasing K a b ex_h.
Proof.
  intros p q _ _ H. unfold ex_h, sum2. apply fle_sub.
  replace (vget0 q 0 + vget0 q 1 - 1 - (vget0 p 0 + vget0 p 1 - 1))
    with ((vget0 q 0 - vget0 p 0) + (vget0 q 1 - vget0 p 1)) by ring.
  apply fadd_nonneg; apply (proj1 (fle_sub _ _)); apply H.
Qed.
Lemma ex_g_inc a b : increasing K a b ex_g.
Proof. intros p q _ _ _. apply fle_refl. Qed.

Lemma ex_sup_h_ok b z al : ex_sup_h b z = Ok al ->
  (0 <= al /\ al <= 1) /\ 0 <= ex_h (seg b al z) /\
  forall be, 0 <= be -> be <= 1 -> 0 <= ex_h (seg b be z) -> be <= al.
Proof.
  unfold ex_sup_h. destruct (Nat.eqb (length b) (length z)) eqn:L; [|discriminate]. cbn [negb].
  apply Nat.eqb_eq in L. destruct (fltb (ex_h b) 0) eqn:Eb; [discriminate|]. apply fltb_ge in Eb.
  destruct (fleb 0 (ex_h z)) eqn:Ez.
  - intro H. apply Ok_inj in H. subst al. apply fleb_le in Ez.
    split; [split; [apply f1_nonneg|apply fle_refl]|]. split; [|intros be _ B _; exact B].
    rewrite ex_h_seg by exact L. replace (ex_h b + 1 * (ex_h z - ex_h b)) with (ex_h z) by ring. exact Ez.
  - intro H. apply Ok_inj in H. apply fleb_gt in Ez.
    set (u := ex_h b) in *. set (v := ex_h z) in *.
    assert (Hd : 0 < u - v).
    { apply (proj1 (flt_sub _ _)). exact (flt_le_trans K _ _ _ Ez Eb). }
    assert (Ea : al * (u - v) = u) by (subst al; field; exact (flt_neq0 Hd)).
    split; [split|split].
    + subst al. apply fdiv_nonneg; assumption.
    + apply fle_sub. apply (fmul_lt_cancel K (u - v)); [exact Hd|].
      replace ((u - v) * (1 - al)) with (u - v - al * (u - v)) by ring. rewrite Ea.
      replace (u - v - u) with (- v) by ring. apply fopp_nonneg. exact (flt_le Ez).
    + rewrite ex_h_seg by exact L. fold u v.
      replace (u + al * (v - u)) with (u - al * (u - v)) by ring. rewrite Ea.
      replace (u - u) with (0 : K) by ring. apply fle_refl.
    + intros be _ _ Hbe. rewrite ex_h_seg in Hbe by exact L. fold u v in Hbe.
      apply fle_sub. apply (fmul_lt_cancel K (u - v)); [exact Hd|].
      replace ((u - v) * (al - be)) with (al * (u - v) - be * (u - v)) by ring. rewrite Ea.
      replace (u - be * (u - v)) with (u + be * (v - u)) by ring. exact Hbe.
Qed.

(** The objective of the good run: [x + y]. A solver for [f] that never reduces meets the contract. *)
Definition lazy_sup (c : option K) (a z : list K) : res K := Ok 1.
Lemma ex_good a b : solver_ok K sum2 ex_g ex_h lazy_sup ex_sup_h 0 a b.
Proof.
  split; [|split; [|split; [|split]]].
  - intros c p z al H. apply Ok_inj in H. subst al. split; [apply f1_nonneg|apply fle_refl].
  - intros p z al H. exact (proj1 (ex_sup_h_ok _ _ _ H)).
  - intros p z al _ _ H. replace (- (0)) with (0 : K) by ring. exact (proj1 (proj2 (ex_sup_h_ok _ _ _ H))).
  - intros c p z al _ _ _ _ H be _ B _. apply Ok_inj in H. subst al. exact B.
  - intros p z al _ _ _ _ H. exact (proj2 (proj2 (ex_sup_h_ok _ _ _ H))).
Qed.
Lemma sum2_inc a b : increasing K a b sum2.
Proof.
  intros p q _ _ H. unfold sum2. apply fle_sub.
  replace (vget0 q 0 + vget0 q 1 - (vget0 p 0 + vget0 p 1))
    with ((vget0 q 0 - vget0 p 0) + (vget0 q 1 - vget0 p 1)) by ring.
  apply fadd_nonneg; apply (proj1 (fle_sub _ _)); apply H.
Qed.

(** The objective of the bad run: a sum of two step functions. *)
Definition step1 (x : K) : K := if fleb x (1 / fnat 4) then 0 else fnat 4.
Definition step2 (y : K) : K :=
  if fleb y (fnat 2 / fnat 5) then 0 else if fleb y (fnat 3 / fnat 4) then 1 else fnat 10.
Definition ex_f (p : list K) : K := step1 (vget0 p 0) + step2 (vget0 p 1).

Lemma fnat_le (m n : nat) : (m <= n)%nat -> fnat m <= (fnat n : K).
Proof.
  intro H. induction H as [|n H IH]; [apply fle_refl|]. apply (fle_trans K _ _ _ IH).
  apply fle_sub. cbn [fnat]. first [ replace (fnat n + 1 - fnat n) with (1 : K) by ring
                                   | replace (1 + fnat n - fnat n) with (1 : K) by ring ]. apply f1_nonneg.
Qed.
Lemma step1_inc x y : x <= y -> step1 x <= step1 y.
Proof.
  intro H. unfold step1. destruct (fleb x (1 / fnat 4)) eqn:E1.
  - destruct (fleb y (1 / fnat 4)); [apply fle_refl|apply (fnat_le 0 4); lia].
  - destruct (fleb y (1 / fnat 4)) eqn:E2; [|apply fle_refl]. exfalso. apply fleb_le in E2.
    pose proof (fle_trans K _ _ _ H E2) as X. apply fleb_le in X. congruence.
Qed.
Lemma step2_inc x y : x <= y -> step2 x <= step2 y.
Proof.
  intro H. unfold step2.
  assert (T : forall c, fleb y c = true -> fleb x c = true).
  { intros c E. apply fleb_le in E. apply fleb_le. exact (fle_trans K _ _ _ H E). }
  destruct (fleb y (fnat 2 / fnat 5)) eqn:E1; [rewrite (T _ E1); apply fle_refl|].
  destruct (fleb y (fnat 3 / fnat 4)) eqn:E2.
  - rewrite (T _ E2). destruct (fleb x (fnat 2 / fnat 5)); [apply f1_nonneg|apply fle_refl].
  - assert (O1 : (1 : K) <= fnat 10).
    { replace (1 : K) with (fnat 1 : K) by (cbn; ring). apply fnat_le. lia. }
    destruct (fleb x (fnat 2 / fnat 5)); [apply (fnat_le 0 10); lia|].
    destruct (fleb x (fnat 3 / fnat 4)); [exact O1|apply fle_refl].
Qed.
Lemma ex_f_inc a b : increasing K a b ex_f.
Proof.
  intros p q _ _ H. unfold ex_f. apply fle_sub.
  replace (step1 (vget0 q 0) + step2 (vget0 q 1) - (step1 (vget0 p 0) + step2 (vget0 p 1)))
    with ((step1 (vget0 q 0) - step1 (vget0 p 0)) + (step2 (vget0 q 1) - step2 (vget0 p 1))) by ring.
  apply fadd_nonneg; apply (proj1 (fle_sub _ _)); [apply step1_inc|apply step2_inc]; apply H.
Qed.

(** Exact on the segments it answers: [[0,1]] in the second variable from the origin, and
    segments on which the constraint holds to the end. *)
Definition ex_sup (c : option K) (a z : list K) : res K :=
  if fleb (fg ex_f ex_g c z) 0 then Ok 1
  else match c, a, z with
       | Some c, [a1; a2], [z1; z2] =>
           if feqb a1 0 && feqb a2 0 && feqb z1 0 && feqb z2 1 && fleb 1 c && fltb c (fnat 10)
           then Ok (fnat 3 / fnat 4) else Err ValueError
       | _, _, _ => Err ValueError
       end.

Lemma ex_sup_ok c a z al : length a = length z -> ex_sup c a z = Ok al ->
  (0 <= al /\ al <= 1) /\ fg ex_f ex_g c (seg a al z) <= 0 /\
  forall be, 0 <= be -> be <= 1 -> fg ex_f ex_g c (seg a be z) <= 0 -> be <= al.
Proof.
  intros L. unfold ex_sup. destruct (fleb (fg ex_f ex_g c z) 0) eqn:E.
  - intro H. apply Ok_inj in H. subst al. split; [split; [apply f1_nonneg|apply fle_refl]|].
    split; [|intros be _ B _; exact B]. apply fleb_le in E.
    replace (seg a 1 z) with z; [exact E|]. apply vec_ext; [rewrite seg_length by exact L; congruence|].
    intros i _. rewrite seg_get by exact L. ring.
  - destruct c as [c|]; [|discriminate].
    destruct a as [|a1 [|a2 [|a3 a]]]; try discriminate.
    destruct z as [|z1 [|z2 [|z3 z]]]; try discriminate.
    destruct (_ && _) eqn:D; [|discriminate]. intro H. apply Ok_inj in H. subst al.
    rewrite !andb_true_iff in D. destruct D as (((((D & D3) & D2) & D1) & D0) & D4).
    apply feqb_eq in D, D3, D2, D1. apply fleb_le in D0. apply fltb_lt in D4. subst a1 a2 z1 z2.
    assert (H4 : (fnat 4 : K) <> 0) by (apply fnat_neq0; lia).
    assert (B1 : fnat 3 / fnat 4 <= (1 : K)).
    { apply fle_sub. apply (fmul_lt_cancel K (fnat 4)); [apply fnat_pos; lia|].
      replace (fnat 4 * (1 - fnat 3 / fnat 4)) with (fnat 4 - fnat 3 : K) by (field; exact H4).
      replace (fnat 4 - fnat 3) with (1 : K) by (cbn [fnat]; ring).
      apply f1_nonneg. }
    assert (B0 : 0 <= fnat 3 / (fnat 4 : K)).
    { apply fdiv_nonneg; [apply (fnat_le 0 3); lia|apply fnat_pos; lia]. }
    assert (S1 : step1 (0 : K) = 0).
    { unfold step1. replace (fleb 0 (1 / fnat 4)) with true; [reflexivity|]. symmetry. apply fleb_le.
      apply fdiv_nonneg; [apply f1_nonneg|apply fnat_pos; lia]. }
    assert (Sg : forall be, fg ex_f ex_g (Some c) (seg [0; 0] be [0; 1]) <= 0 <-> step2 be <= c).
    { intro be. rewrite fg_le. cbn [seg]. unfold ex_f, vget0. cbn [nth le_bound].
      replace (0 + be * (0 - 0)) with (0 : K) by ring. replace (0 + be * (1 - 0)) with be by ring.
      rewrite S1. replace (0 + step2 be) with (step2 be) by ring. unfold ex_g. split; [tauto|].
      intro Q. split; [apply fopp_nonpos; apply f1_nonneg|exact Q]. }
    split; [split; assumption|]. split.
    + apply Sg. apply (fle_trans K _ 1); [|exact D0]. unfold step2.
      destruct (fleb (fnat 3 / fnat 4) (fnat 2 / fnat 5)); [apply f1_nonneg|].
      rewrite (proj2 (fleb_le K _ _) (fle_refl K (fnat 3 / fnat 4))). apply fle_refl.
    + intros be _ _ Q. apply Sg in Q. destruct (fleb be (fnat 3 / fnat 4)) eqn:E3; [apply fleb_le; exact E3|exfalso].
      unfold step2 in Q. rewrite E3 in Q.
      assert (E5 : fleb be (fnat 2 / fnat 5) = false).
      { apply fleb_gt. apply fleb_gt in E3. apply (fle_lt_trans K _ (fnat 3 / fnat 4)); [|exact E3].
        apply fle_sub. apply (fmul_lt_cancel K (fnat 20)); [apply fnat_pos; lia|].
        assert (H5 : (fnat 5 : K) <> 0) by (apply fnat_neq0; lia).
        replace (fnat 20) with (fnat 4 * fnat 5 : K) by (cbn [fnat]; ring).
        replace (fnat 4 * fnat 5 * (fnat 3 / fnat 4 - fnat 2 / fnat 5)) with (fnat 5 * fnat 3 - fnat 4 * fnat 2 : K)
          by (field; split; assumption).
        replace (fnat 5 * fnat 3 - fnat 4 * fnat 2) with (fnat 7 : K) by (cbn [fnat]; ring).
        apply (fnat_le 0 7); lia. }
      rewrite E5 in Q. exact (proj1 (flt_not_le K _ _) D4 Q).
Qed.

Lemma ex_bad a b : solver_ok K ex_f ex_g ex_h ex_sup ex_sup_h 0 a b.
Proof.
  split; [|split; [|split; [|split]]].
  - intros c p z al H. unfold ex_sup in H.
    destruct (fleb (fg ex_f ex_g c z) 0) eqn:E.
    + apply Ok_inj in H. subst al. split; [apply f1_nonneg|apply fle_refl].
    + refine (proj1 (ex_sup_ok c p z al _ _)); [|unfold ex_sup; rewrite E; exact H].
      destruct c as [c|]; [|discriminate]. destruct p as [|a1 [|a2 [|a3 p]]]; try discriminate.
      destruct z as [|z1 [|z2 [|z3 z]]]; try discriminate. reflexivity.
  - intros p z al H. exact (proj1 (ex_sup_h_ok _ _ _ H)).
  - intros p z al _ _ H. replace (- (0)) with (0 : K) by ring. exact (proj1 (proj2 (ex_sup_h_ok _ _ _ H))).
  - intros c p z al (L1 & _) (L2 & _) _ _ H. refine (proj2 (proj2 (ex_sup_ok c p z al _ H))). congruence.
  - intros p z al _ _ _ _ H. exact (proj2 (proj2 (ex_sup_h_ok _ _ _ H))).
Qed.
End Main.

Lemma unit_box (K : OrdField) : ple K [0%F; 0%F] [1%F; 1%F].
Proof. intros [|[|[|i]]]; cbn; first [apply f1_nonneg|apply fle_refl]. Qed.

Lemma no_iterations (K : OrdField) (f g h : list K -> K) sup_fg sup_h (rtol tol : K) (a b : list K) choose r :
  rpa_monotonic f g h sup_fg sup_h rtol tol choose 0 a b None = Ok r -> (0 < g a)%F \/ (h b < 0)%F.
Proof.
  unfold rpa_monotonic. rewrite orb_false_r.
  destruct (fltb 0%F (g a)) eqn:E1; [intros _; left; apply fltb_lt; exact E1|].
  destruct (fltb (h b) 0%F) eqn:E2; [intros _; right; apply fltb_lt; exact E2|].
  cbn [orb]. destruct (red f g h sup_fg sup_h rtol a b None) as [[? ?]|?]; discriminate.
Qed.

(** The run on the rationals. *)
Definition bad_result : res (result QcOF) :=
  rpa_monotonic (ex_f QcOF) (ex_g QcOF) (ex_h QcOF) (ex_sup QcOF) (ex_sup_h QcOF)
    (1 / fnat 1000)%F (1 / fnat 10)%F (fun _ => O) 10 [0%F; 0%F] [1%F; 1%F] None.
Definition bad_y : list QcOF := [(1 / fnat 4)%F; (fnat 3 / fnat 4)%F].

Lemma bad_checks :
  (match bad_result with
   | Ok r => r_conv r && match r_f r with Some v => fltb (ex_f QcOF bad_y + (1 + 1))%F v | None => false end
   | Err _ => false
   end && fleb 0%F (ex_h QcOF bad_y) && fleb (ex_g QcOF bad_y) 0%F &&
   vleb [0%F; 0%F] bad_y && vleb bad_y [1%F; 1%F])%bool = true.
Proof. vm_compute. reflexivity. Qed.

Lemma bad_run :
  exists r v (y : list QcOF),
    let a := [0%F; 0%F] in let b := [1%F; 1%F] in
    increasing QcOF a b (ex_f QcOF) /\ increasing QcOF a b (ex_g QcOF) /\
    increasing QcOF a b (ex_h QcOF) /\
    solver_ok QcOF (ex_f QcOF) (ex_g QcOF) (ex_h QcOF) (ex_sup QcOF) (ex_sup_h QcOF) 0%F a b /\
    bad_result = Ok r /\
    r_conv r = true /\ r_f r = Some v /\
    (length y = length a /\ ple QcOF a y /\ ple QcOF y b) /\
    (ex_g QcOF y <= 0)%F /\ (0 <= ex_h QcOF y)%F /\ (ex_f QcOF y + (1 + 1) < v)%F.
Proof.
  pose proof bad_checks as C. rewrite !andb_true_iff in C. destruct C as ((((C & Hh) & Hg) & Ha) & Hb).
  destruct bad_result as [r|e]; [|discriminate C]. apply andb_true_iff in C. destruct C as [Cc Cf].
  destruct (r_f r) as [v|] eqn:Ev; [|discriminate Cf].
  exists r, v, bad_y. cbn zeta.
  split; [apply ex_f_inc|]. split; [apply ex_g_inc|]. split; [apply ex_h_inc|]. split; [apply ex_bad|].
  split; [reflexivity|]. split; [exact Cc|]. split; [exact Ev|].
  split; [split; [reflexivity|split; apply (vleb_ple QcOF); auto]|].
  split; [apply fleb_le; exact Hg|]. split; [apply fleb_le; exact Hh|]. apply fltb_lt. exact Cf.
Qed.
