(** * Facts about four-variable cubics and quartics *)
From Coq Require Import Bool List Arith Lia Ring Field.
From Verif Require Import OrdField Base Poly StructUtils Expr Sparse SparseSym Quarternary.
Import ListNotations.

Section Lemmas.
Variable K : OrdField.
Local Open Scope of_scope.
Add Field Kf : (F_field K).

(** The parameters chosen satisfy the equations of the decomposition. *)
Lemma params_exact (c100 c000 c2 x r t1 t2 y : K) :
  check_x c100 c000 c2 x = true -> get_const c100 c000 c2 x = Some r ->
  (x = c2 -> x <> 0 -> 3 * c2 ^ 2 <= 4 * c100) ->
  t1 = (if x =? 0 then 0 else c100 / (3 * x ^ 2 / 4)) -> t2 = 1 - t1 ->
  y = (if t2 =? 0 then 0 else (c2 - x * t1) / t2) ->
  t1 * (3 * x ^ 2 / 4) = c100 /\ x * t1 + y * t2 = c2 /\ r + t2 * (4 * y ^ 3) = c000.
Proof.
  intros Hc Hr Hx Et1 Et2 Ey. unfold check_x in Hc. rewrite Hr in Hc. unfold get_const in Hr.
  destruct (x =? 0) eqn:E0.
  - apply feqb_eq in E0. rewrite andb_true_iff in Hc. destruct Hc as [Hc _]. apply feqb_eq in Hc.
    assert (t2 = 1) by (rewrite Et2, Et1; ring).
    assert (Hn : (t2 =? 0) = false).
    { destruct (t2 =? 0) eqn:E; [|reflexivity]. apply feqb_eq in E. exfalso. apply (fneq10 K). congruence. }
    rewrite Hn in Ey. injection Hr as <-. rewrite Ey, Et2, Et1, E0, Hc. cbn [fpow]. repeat split; field; fnz.
  - assert (Hx0 : x <> 0) by (intro E; rewrite (proj2 (feqb_eq K _ _) E) in E0; discriminate).
    rewrite andb_true_iff in Hc. destruct Hc as [Hc _]. apply fleb_le in Hc.
    destruct (x =? c2) eqn:E2.
    + apply feqb_eq in E2. specialize (Hx E2 Hx0). injection Hr as <-.
      assert (E4 : 4 * c100 = 3 * c2 ^ 2).
      { apply fle_antisym; [|exact Hx]. rewrite <- E2. apply fle_sub.
        replace (3 * x ^ 2 - 4 * c100) with (4 * (3 * x ^ 2 / 4 - c100)) by (field; fnz).
        apply fmul_nonneg; [fpos|exact (proj1 (fle_sub _ _) Hc)]. }
      assert (T1 : t1 = 1).
      { rewrite Et1. replace c100 with (3 * x ^ 2 / 4). 
        - cbn [fpow]. field. repeat split; fnz.
        - rewrite E2, <- E4. field. fnz. }
      assert (T2 : t2 = 0) by (rewrite Et2, T1; ring).
      rewrite T1, T2. repeat split.
      * rewrite E2. transitivity (3 * c2 ^ 2 / 4); [ring|]. rewrite <- E4. field. fnz.
      * rewrite E2. ring.
      * ring.
    + destruct (3 * x ^ 2 - 4 * c100 =? 0) eqn:Ed; [discriminate|]. injection Hr as <-.
      assert (Hd : 3 * x ^ 2 - 4 * c100 <> 0) by (intro E; rewrite (proj2 (feqb_eq K _ _) E) in Ed; discriminate).
      assert (T2 : t2 = (3 * x ^ 2 - 4 * c100) / (3 * x ^ 2)).
      { rewrite Et2, Et1. cbn [fpow]. field. repeat split; fnz. }
      assert (T2n : t2 <> 0).
      { rewrite T2. intro E. apply Hd.
        transitivity ((3 * x ^ 2 - 4 * c100) / (3 * x ^ 2) * (3 * x ^ 2)); [|rewrite E; ring].
        cbn [fpow]. field. repeat split; fnz. }
      assert (Hn : (t2 =? 0) = false).
      { destruct (t2 =? 0) eqn:E; [|reflexivity]. apply feqb_eq in E. contradiction. }
      rewrite Hn in Ey. 
      assert (Yv : y = x * (3 * c2 * x - 4 * c100) / (3 * x ^ 2 - 4 * c100)).
      { rewrite Ey, T2, Et1. cbn [fpow] in *. field. repeat split; try fnz; intro E; apply Hd; rewrite <- E; ring. }
      repeat split.
      * rewrite Et1. cbn [fpow]. field. repeat split; fnz.
      * rewrite Ey. field. exact T2n.
      * rewrite Yv, T2. cbn [fpow] in *. field. repeat split; try fnz; intro E; apply Hd; rewrite <- E; ring.
Qed.

Lemma feqb_false (u v : K) : (u =? v) = false -> u <> v.
Proof. intros H E. rewrite (proj2 (feqb_eq K _ _) E) in H. discriminate. Qed.
Lemma feqb_neq (u v : K) : u <> v -> (u =? v) = false.
Proof. intros H. destruct (u =? v) eqn:E; [|reflexivity]. apply feqb_eq in E. contradiction. Qed.

Lemma choose_x_check cands (c100 c000 c2 x : K) : choose_x cands c100 c000 c2 = Some x ->
  check_x c100 c000 c2 x = true /\ (x = c2 -> x <> 0 -> 3 * c2 ^ 2 <= 4 * c100).
Proof.
  unfold choose_x. destruct (check_x c100 c000 c2 0) eqn:E0.
  - intro H. injection H as <-. split; [exact E0|]. intros _ H. contradiction.
  - destruct (negb (c2 =? 0) && check_x c100 c000 c2 (4 * c100 / 3 / c2))%bool eqn:E1.
    + intro H. injection H as <-. rewrite andb_true_iff, negb_true_iff in E1. destruct E1 as [E1 E2].
      split; [exact E2|]. intros E _. apply feqb_false in E1.
      assert (E4 : 4 * c100 = 3 * c2 ^ 2).
      { transitivity (3 * c2 * (4 * c100 / 3 / c2)); [field; repeat split; fnz|]. rewrite E. cbn [fpow]. ring. }
      rewrite E4. apply fle_refl.
    + destruct (_ <? 0); [discriminate|]. destruct (_ <? 0); [discriminate|].
      intro H. apply find_some in H. destruct H as [_ H]. rewrite andb_true_iff in H. destruct H as [H1 H2].
      split; [exact H2|]. intros E _. apply fleb_le in H1. rewrite E in H1. apply fle_sub.
      replace (4 * c100 - 3 * c2 ^ 2) with (fnat 9 * c2 ^ 2 - fnat 12 * c2 * c2 + 4 * c100); [exact H1|].
      cbn [fnat fpow]. ring.
Qed.

Lemma cubic4_partial_exact cands p e x : wf 4 p -> homog K 3 p -> cyclic3_1 K p ->
  coef p [1;2;0;0]%nat = 0 -> coef p [1;1;1;0]%nat <> 0 ->
  cubic4_partial cands p = Ok (Some e) -> defined x e -> ev x e = peval x p.
Proof.
  intros Hw Hh Hs H12 Hm He Hd. rewrite (cyc3_value K p x Hw Hh Hs).
  rewrite (Hs 1 2 0 0)%nat in H12. rewrite H12. unfold cubic4_partial in He.
  destruct (negb _) eqn:En in He; [discriminate|]. rewrite negb_false_iff, andb_true_iff in En.
  destruct En as [E30 E21]. apply feqb_eq in E30. apply feqb_eq in E21. rewrite E30, E21.
  rewrite (feqb_neq _ _ Hm) in He.
  set (m := coef p [1;1;1;0]%nat) in *. set (d0 := coef p [0;0;0;3]%nat) in *.
  set (d1 := coef p [1;0;0;2]%nat) in *. set (d2 := coef p [2;0;0;1]%nat) in *. set (d3 := coef p [1;1;0;1]%nat) in *.
  clearbody m d0 d1 d2 d3. clear Hw Hh Hs H12 E30 E21.
  destruct (_ || _)%bool in He; [discriminate|]. cbv zeta in He.
  destruct (_ || _)%bool in He; [discriminate|].
  destruct (choose_x cands (d1 / m) (d0 / m) (- (d2 / m) - d3 / m)) as [v|] eqn:Ex; [|discriminate].
  destruct (get_const (d1 / m) (d0 / m) (- (d2 / m) - d3 / m) v) as [r|] eqn:Er; [|discriminate].
  destruct (r <? 0); [discriminate|].
  set (t1 := if v =? 0 then 0 else d1 / m / (3 * v ^ 2 / 4)) in He.
  destruct (_ || _)%bool in He; [discriminate|].
  set (y := if 1 - t1 =? 0 then 0 else (- (d2 / m) - d3 / m - v * t1) / (1 - t1)) in He.
  destruct (choose_x_check _ _ _ _ _ Ex) as [Hc Hx].
  destruct (params_exact _ _ _ _ _ t1 (1 - t1) y Hc Er Hx eq_refl eq_refl eq_refl) as (Q1 & Q2 & Q3).
  clearbody t1 y. injection He as <-. cbn [defined] in Hd.
  assert (Hn : x 0%nat + x 1%nat + x 2%nat <> 0).
  { destruct Hd as [[[[_ Hd] _] _] _]. unfold get_sol1 in Hd. cbn [defined] in Hd.
    destruct Hd as [_ [_ Hd]]. intro E. apply Hd. unfold csum, rot3. cbn [ev erename]. rewrite E. cbn [fpow]. ring. }
  cbn [ev]. rewrite sol1_value, sol2_value by exact Hn. unfold csum, rot3. cbn [ev erename].
  set (A := x 0%nat) in *. set (B := x 1%nat) in *. set (C := x 2%nat) in *. set (D := x 3%nat) in *.
  clearbody A B C D. set (Q := A ^ 2 + B ^ 2 + C ^ 2 - 2 * (A * B + B * C + C * A)).
  transitivity (m * (t1 * (3 * v ^ 2 / 4)) * (A + B + C) * D ^ 2 + m * (v * t1 + y * (1 - t1)) * Q * D
    + m * (r + (1 - t1) * (4 * y ^ 3)) * D ^ 3 + m * A * B * C
    + m * (2 * (d2 / m) + d3 / m) / 2 * ((A - B) ^ 2 + (B - C) ^ 2 + (C - A) ^ 2) * D).
  - cbn [fpow]. field. fnz.
  - rewrite Q1, Q2, Q3. unfold Q. cbn [fpow]. field. fnz.
Qed.

(** The number y is not negative: candidates where it would be are tried before. *)
Lemma choose_x_y cands (c100 c000 c2 x t1 y : K) :
  choose_x cands c100 c000 c2 = Some x -> (forall v, In v cands -> 0 <= v) -> 0 <= c2 -> 0 <= c000 ->
  t1 = (if x =? 0 then 0 else c100 / (3 * x ^ 2 / 4)) -> 0 <= t1 -> 0 <= 1 - t1 ->
  y = (if 1 - t1 =? 0 then 0 else (c2 - x * t1) / (1 - t1)) ->
  0 <= x /\ 0 <= y.
Proof.
  intros Hch Hcs H2 H0 Et1 Ht1 Ht2 Ey.
  destruct (choose_x_check _ _ _ _ _ Hch) as [Hck _].
  assert (Hy : 0 <= c2 - x * t1 -> 0 <= y).
  { intro H. rewrite Ey. destruct (1 - t1 =? 0) eqn:E; [apply fle_refl|]. apply feqb_false in E.
    apply fdiv_nonneg; [exact H|]. apply flt_le_neq. split; [exact Ht2|]. auto. }
  destruct (x =? 0) eqn:E0.
  { apply feqb_eq in E0. split; [rewrite E0; apply fle_refl|]. apply Hy. rewrite E0, Et1.
    replace (c2 - 0 * 0) with c2 by ring. exact H2. }
  assert (Hx0 : x <> 0) by (apply feqb_false; exact E0).
  assert (Hxx : 0 < x ^ 2) by (cbn [fpow]; replace (x * (x * 1)) with (x * x) by ring; apply fsqr_pos, Hx0).
  pose proof (flt_le Hxx) as Hxx0.
  assert (Ec : c100 = t1 * (3 * x ^ 2 / 4)).
  { rewrite Et1. cbn [fpow]. field. repeat split; fnz. }
  assert (Hc100 : 0 <= c100) by (rewrite Ec; fpos).
  assert (Ext : x * t1 = 4 * c100 / (3 * x)) by (rewrite Et1; cbn [fpow]; field; repeat split; fnz).
  assert (Hle : 4 * c100 <= 3 * x ^ 2).
  { apply fle_sub. rewrite Ec. replace (3 * x ^ 2 - 4 * (t1 * (3 * x ^ 2 / 4))) with ((1 - t1) * (3 * x ^ 2)) by (field; fnz).
    fpos. }
  unfold choose_x in Hch. destruct (check_x c100 c000 c2 0) eqn:K0; [injection Hch as <-; contradiction|].
  destruct (negb (c2 =? 0) && check_x c100 c000 c2 (4 * c100 / 3 / c2))%bool eqn:K1.
  - injection Hch as Ex. rewrite andb_true_iff, negb_true_iff in K1. destruct K1 as [N2 _]. apply feqb_false in N2.
    assert (P2 : 0 < c2) by (apply flt_le_neq; auto).
    split; [rewrite <- Ex; fpos|]. apply Hy. rewrite Ext.
    assert (Hc : c100 <> 0). { intro E. apply Hx0. rewrite <- Ex, E. field. repeat split; fnz. }
    replace (c2 - 4 * c100 / (3 * x)) with (0 : K); [apply fle_refl|]. rewrite <- Ex. field. repeat split; fnz.
  - destruct (_ <? 0) in Hch; [discriminate|]. destruct (c2 ^ 2 - c100 <? 0) eqn:Kd; [discriminate|].
    apply fltb_ge in Kd. apply find_some in Hch. destruct Hch as [Hin _].
    pose proof (Hcs _ Hin) as Hx. split; [exact Hx|]. apply Hy.
    assert (Px : 0 < x) by (apply flt_le_neq; auto).
    destruct (feq_dec K c2 0) as [E2|N2].
    + assert (E : c100 = 0).
      { apply fle_antisym; [|exact Hc100]. apply fle_sub. rewrite E2 in Kd. cbn [fpow] in Kd.
        replace (0 - c100) with (0 * (0 * 1) - c100) by ring. exact Kd. }
      rewrite Ext, E, E2. replace (0 - 4 * 0 / (3 * x)) with (0 : K); [apply fle_refl|]. field. repeat split; fnz.
    + assert (P2 : 0 < c2) by (apply flt_le_neq; auto).
      rewrite (feqb_neq _ _ N2) in K1. cbn [negb andb] in K1.
      assert (Hlt : 4 * c100 < 3 * c2 ^ 2).
      { apply flt_not_le. intro Hge.
        assert (Pc : 0 < c100).
        { apply flt_le_neq. split; [exact Hc100|]. intro E. rewrite <- E in Hge.
          apply (proj1 (flt_not_le K 0 (3 * c2 ^ 2))); [fpos|]. 
          eapply fle_trans; [exact Hge|]. replace (4 * 0) with (0 : K) by ring. apply fle_refl. }
        assert (Hf : check_x c100 c000 c2 (4 * c100 / 3 / c2) = true); [|congruence].
        set (u := 4 * c100 / 3 / c2) in *.
        assert (Pu : 0 < u) by (unfold u; fpos).
        assert (Eu : 3 * c2 * u = 4 * c100) by (unfold u; field; repeat split; fnz).
        assert (Hu : c100 <= 3 * u ^ 2 / 4).
        { apply fle_sub. replace (3 * u ^ 2 / 4 - c100) with (c100 / (3 * c2 ^ 2) * (4 * c100 - 3 * c2 ^ 2)).
          - apply fmul_nonneg; [fpos|exact (proj1 (fle_sub _ _) Hge)].
          - unfold u. cbn [fpow]. field. repeat split; fnz. }
        unfold check_x, get_const. rewrite (feqb_neq u 0) by (apply flt_neq0, Pu).
        rewrite (proj2 (fleb_le _ _ _) Hu).
        destruct (u =? c2) eqn:Eu2; [apply (proj2 (fleb_le _ _ _)) in H0; rewrite H0; reflexivity|].
        apply feqb_false in Eu2.
        assert (Hd : 3 * u ^ 2 - 4 * c100 <> 0).
        { intro E. apply Eu2.
          assert (Z : 3 * u * (u - c2) = 0) by (rewrite <- E, <- Eu; cbn [fpow]; ring).
          apply fmul_eq0 in Z. destruct Z as [Z|Z]; [|apply fsub_eq0, Z].
          exfalso. apply (flt_neq0 Pu). apply fmul_eq0 in Z. destruct Z as [Z|Z]; [|exact Z].
          exfalso. revert Z. fnz. }
        rewrite (feqb_neq _ _ Hd).
        replace (c000 - 4 * u * (3 * c2 * u - 4 * c100) ^ 3 / 3 / (3 * u ^ 2 - 4 * c100) ^ 2) with c000.
        - rewrite (proj2 (fleb_le _ _ _) H0). reflexivity.
        - rewrite Eu. replace (4 * c100 - 4 * c100) with (0 : K) by ring. cbn [fpow].
          cbn [fpow] in Hd. field. repeat split; try fnz. intro E; apply Hd; rewrite <- E; ring. }
      rewrite Ext. replace (c2 - 4 * c100 / (3 * x)) with ((3 * c2 * x - 4 * c100) / (3 * x)) by (field; repeat split; fnz).
      apply fdiv_nonneg; [|fpos]. apply (proj1 (fle_sub _ _)).
      destruct (fle_total K x c2) as [H|H].
      * eapply fle_trans; [exact Hle|]. apply fle_sub.
        replace (3 * c2 * x - 3 * x ^ 2) with (3 * x * (c2 - x)) by (cbn [fpow]; ring).
        apply fmul_nonneg; [fpos|exact (proj1 (fle_sub _ _) H)].
      * eapply fle_trans; [exact (flt_le Hlt)|]. apply fle_sub.
        replace (3 * c2 * x - 3 * c2 ^ 2) with (3 * c2 * (x - c2)) by (cbn [fpow]; ring).
        apply fmul_nonneg; [fpos|exact (proj1 (fle_sub _ _) H)].
Qed.

Lemma cubic4_partial_manifest cands (p : poly K) e :
  coef p [1;1;1;0]%nat <> 0 -> (forall v, In v cands -> 0 <= v) ->
  cubic4_partial cands p = Ok (Some e) -> manifest true e = true.
Proof.
  intros Hm Hcs He. unfold cubic4_partial in He.
  destruct (negb _) eqn:En in He; [discriminate|]. rewrite (feqb_neq _ _ Hm) in He.
  set (m := coef p [1;1;1;0]%nat) in *. set (d0 := coef p [0;0;0;3]%nat) in *.
  set (d1 := coef p [1;0;0;2]%nat) in *. set (d2 := coef p [2;0;0;1]%nat) in *. set (d3 := coef p [1;1;0;1]%nat) in *.
  clearbody m d0 d1 d2 d3. clear En.
  destruct (_ || _)%bool eqn:E1 in He; [discriminate|]. cbv zeta in He. rewrite orb_false_iff in E1. destruct E1 as [E1 E2].
  apply fltb_ge in E1. apply fltb_ge in E2. assert (Pm : 0 < m) by (apply flt_le_neq; auto).
  destruct (_ || _)%bool eqn:E3 in He; [discriminate|]. rewrite orb_false_iff in E3. destruct E3 as [E3 E4].
  apply fltb_ge in E3. apply fltb_ge in E4.
  destruct (choose_x cands (d1 / m) (d0 / m) (- (d2 / m) - d3 / m)) as [v|] eqn:Ex; [|discriminate].
  destruct (get_const (d1 / m) (d0 / m) (- (d2 / m) - d3 / m) v) as [r|] eqn:Er; [|discriminate].
  destruct (r <? 0) eqn:Hr; [discriminate|]. apply fltb_ge in Hr.
  set (t1 := if v =? 0 then 0 else d1 / m / (3 * v ^ 2 / 4)) in He.
  destruct (_ || _)%bool eqn:E5 in He; [discriminate|]. rewrite orb_false_iff in E5. destruct E5 as [E5 E6].
  apply fltb_ge in E5. apply fltb_ge in E6.
  set (y := if 1 - t1 =? 0 then 0 else (- (d2 / m) - d3 / m - v * t1) / (1 - t1)) in He.
  assert (P0 : 0 <= d0 / m) by fpos.
  destruct (choose_x_y cands _ _ _ _ t1 y Ex Hcs E4 P0 eq_refl E5 E6 eq_refl) as [Hv Hy].
  clearbody t1 y. injection He as <-.
  unfold get_sol1, get_sol2. cbn [manifest].
  repeat (rewrite ?andb_true_iff; split); try reflexivity;
    try (apply manifest_csum; reflexivity); try (apply manifest_cprod; reflexivity);
    apply (proj2 (fleb_le _ _ _)); try assumption; cbn [fpow fnat]; fpos.
Qed.
End Lemmas.
