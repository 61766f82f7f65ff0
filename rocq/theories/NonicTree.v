(** * Nonic forms: the tree sextic and the exceptions of the two sextics *)
From Coq Require Import Bool List Arith Lia ZArith Ring Field.
From Verif Require Import OrdField Base Congruence Perm Poly PolyId PolyOps Coeff Expr CertLimit TriPoly Monomials Univariate UnivariateLemmas StructUtils.
From Verif Require Sparse TernaryQuad TernaryTables TernaryCubic PivotProve.
From Verif Require Import SymDiv DenseSym DenseSymFacts DenseSymAxis DenseSymMain DenseSymTop Septic SepticFacts SepticForm SepticMain SepticTop Nonic NonicFacts.
Import ListNotations.

Lemma first_some_in {X Y} (f : X -> option Y) (l : list X) (y : Y) : first_some f l = Some y -> exists x : X, In x l /\ f x = Some y.
Proof.
  induction l as [|x l IH]; cbn [first_some]; [discriminate|]. destruct (f x) eqn:E.
  - intro H. exists x. split; [left; reflexivity|congruence].
  - intro H. destruct (IH H) as (x' & H1 & H2). exists x'. split; [right; exact H1|exact H2].
Qed.

Lemma andb_false_r_eq b c : c = false -> (b && c = false)%bool.
Proof. intros ->. apply andb_false_r. Qed.
Section Facts.
Variable K : OrdField.
Local Open Scope of_scope.
Add Field Kf : (F_field K).
Implicit Types (x y u v w t r A B C : K) (e : ex K).
Variable den : K -> K.
Hypothesis den_pos : forall t, 0 < den t.

Ltac evs := cbn [csum cprod erename rot3 ev pt3]; unfold cyc3; cbn [fpow fbin].
Ltac nbz := repeat match goal with |- _ /\ _ => split end; first [assumption | fnz | idtac].
Ltac cert_poly := apply fcert_poly; [reflexivity|reflexivity|intros; evs; reflexivity].

Definition pointform t : K -> K -> K -> K :=
  treeform K 1 (t ^ 3 - fbin 3 * t) (- fbin 3 * t * (t - 1)) (- fbin 3 * (1 + (t ^ 3 - fbin 3 * t) - fbin 3 * t * (t - 1))).
Lemma half_nonneg : 0 <= 1 / (fbin 2 : K).
Proof. apply fdiv_nonneg; [apply f1_nonneg|apply fbin_pos]. Qed.
Lemma tree_point_ok t : - (1) <= t -> fcert K (tree_point den t) (pointform t).
Proof.
  intro Ht. unfold tree_point. destruct ((t =? fbin 2) || (t =? - (1)))%bool eqn:E.
  - apply fcert_poly; [|reflexivity|].
    + cbn. pose proof half_nonneg as H. apply fleb_le in H. cbn in H. rewrite H. reflexivity.
    + intros A B C. unfold pointform, treeform. apply orb_prop in E. destruct E as [E|E]; apply feqb_eq in E; subst t; evs; field; fnz.
  - clear E. cbv zeta. pose proof (den_pos t) as P. set (p := den t) in *. clearbody p.
    destruct (TernaryQuad.common_quadratic p (t * p)) as [q|] eqn:Eq.
    + apply TernaryQuad.common_quadratic_sound in Eq. destruct Eq as (D & V & M & _).
      assert (Hp : 0 <= 1 / (fbin 2 * p ^ 3)) by (apply fdiv_nonneg; [apply f1_nonneg|]; apply fmul_pos; [apply fbin_pos|cbn [fpow]; fpos]).
      eapply fcert_ext; [|apply fcert_mul; [apply fcert_mul; [apply fcert_const, Hp|]|cert_poly]].
      2: { split; [exact M|]. split; [intros A B C _; apply V|intros; apply D]. }
      intros A B C. cbv beta. unfold pointform, treeform, cyc3. pose proof (flt_neq0 P) as Np. clear Hp. cbn [fpow fbin]. field. nbz.
    + exfalso. unfold TernaryQuad.common_quadratic in Eq. cbv zeta in Eq. destruct (p <? 0) eqn:E1 in Eq; cbn [orb] in Eq.
      { apply fltb_lt in E1. exact (flt_irrefl K _ (flt_le_trans K _ _ _ P (flt_le E1))). }
      destruct (p + t * p <? 0) eqn:E2 in Eq; [|revert Eq; destruct (p =? 0); [intro Eq; congruence|]; destruct (_ <? t * p); intro Eq; congruence].
      apply fltb_lt in E2. refine (flt_irrefl K _ (fle_lt_trans K _ _ _ _ E2)). replace (p + t * p) with (p * (t - - (1))) by ring.
      apply fmul_nonneg; [exact (flt_le P)|]. apply (proj1 (fle_sub _ _)). exact Ht.
Qed.

Lemma halve (k : K) : 0 <= k -> 0 <= k / fbin 2.
Proof. intro H. apply fdiv_nonneg; [exact H|apply fbin_pos]. Qed.
Lemma tree_regular_ok c6 u v rem t e : 0 <= c6 -> 0 <= rem -> tree_regular den c6 u v rem t = Some e ->
  fcert K e (treeform K c6 (u * c6) (v * c6) (rem - (c6 + v * c6 + u * c6) * fbin 3)).
Proof.
  intros H6 Hr. unfold tree_regular. destruct (- (1) <=? t) eqn:E1; cbn [andb]; [|discriminate]. apply fleb_le in E1.
  destruct (0 <=? u - _) eqn:E2; cbn [andb]; [|discriminate]. destruct (0 <=? v + _) eqn:E3; [|discriminate]. apply fleb_le in E2, E3.
  intro H. assert (E : e = sum_y [c6; c6 * (u - (t ^ 3 - fbin 3 * t)) / fbin 2; c6 * (v + fbin 3 * t * (t - 1)) / fbin 2; rem]
    [tree_point den t; csum (EX 0 * EX 1) * csum (EX 0 ^ 2 * (EX 1 - EX 2) ^ 2); csum (EX 0) * csum ((EX 0 - EX 1) ^ 2) * cprod (EX 0); cprod (EX 0 ^ 2)]%E) by congruence.
  clear H. subst e.
  eapply fcert_ext; [|
    apply fcert_cons; [exact H6|apply tree_point_ok, E1|];
    apply fcert_cons; [apply halve, fmul_nonneg; [exact H6|exact E2]|cert_poly|];
    apply fcert_cons; [apply halve, fmul_nonneg; [exact H6|exact E3]|cert_poly|];
    apply fcert_cons; [exact Hr|apply fcert_abc2|apply fcert_nil]].
  intros A B C. cbv beta. unfold pointform, treeform, cyc3. cbn [fpow fbin]. field. fnz.
Qed.
Lemma sextic_tree_ok c6 c33 c41 c222 e : sextic_tree den c6 c33 c41 c222 = Ok (Some e) -> fcert K e (treeform K c6 c33 c41 c222).
Proof.
  unfold sextic_tree. set (rem := c222 + (c6 + c41 + c33) * fbin 3).
  assert (X : c222 = rem - (c6 + c41 + c33) * fbin 3) by (unfold rem; ring). clearbody rem. subst c222.
  destruct (rem <? 0) eqn:E1; cbn [orb]; [discriminate|]. destruct (c6 <? 0) eqn:E2; [discriminate|]. apply fltb_ge in E1, E2.
  destruct (c6 =? 0) eqn:E3; cbn [andb].
  { apply feqb_eq in E3. destruct (0 <=? c33) eqn:E4; cbn [andb]; [|discriminate]. destruct (0 <=? c41) eqn:E5; [|discriminate]. apply fleb_le in E4, E5.
    intro H. apply some_inj in H. subst e c6.
    eapply fcert_ext; [|apply fcert_add; [apply fcert_add|]; [apply fcert_mul; [apply fcert_mul; [apply fcert_const, halve, E4|cert_poly]|cert_poly]|
      apply fcert_mul; [apply fcert_mul; [apply fcert_mul; [apply fcert_const, halve, E5|apply fcert_abc]|cert_poly]|apply fcert_sum]|apply fcert_mul; [apply fcert_const, E1|apply fcert_abc2]]].
    intros A B C. cbv beta. unfold treeform, cyc3. cbn [fpow fbin]. field. fnz. }
  apply feqb_neq in E3. set (u := c33 / c6). set (v := c41 / c6).
  assert (X1 : c33 = u * c6) by (unfold u; field; exact E3). assert (X2 : c41 = v * c6) by (unfold v; field; exact E3). clearbody u v. subst c33 c41.
  destruct (u <? _); [discriminate|].
  assert (R : forall l, first_some (tree_regular den c6 u v rem) l = Some e -> fcert K e (treeform K c6 (u * c6) (v * c6) (rem - (c6 + v * c6 + u * c6) * fbin 3))).
  { intros l Hl. apply first_some_in in Hl. destruct Hl as (t & _ & Hl). exact (tree_regular_ok c6 u v rem t e E2 E1 Hl). }
  destruct (v =? - fbin 6) eqn:Ev; cbn [negb andb]; [intro H; apply (R [fbin 2; 1]); congruence|].
  destruct (u =? fbin 2) eqn:Eu; cbn [negb]; [intro H; apply (R [fbin 2; 1]); congruence|].
  apply feqb_neq in Ev, Eu. set (t := - (fbin 3 * u + v) / (v + fbin 6)). cbv zeta.
  set (l := fbin 2 :: 1 :: (if t <=? fbin 2 then [1 - t] else [])).
  assert (R' : match first_some (tree_regular den c6 u v rem) l with Some e => Ok (Some e) | None => Ok None end = Ok (Some e) -> fcert K e (treeform K c6 (u * c6) (v * c6) (rem - (c6 + v * c6 + u * c6) * fbin 3))).
  { intro H. apply (R l). destruct (first_some _ l); [f_equal; congruence|discriminate]. }
  destruct (- (1) <=? t) eqn:Et; [|exact R']. apply fleb_le in Et.
  destruct (u + v + fbin 4 =? 0) eqn:En; [discriminate|]. apply feqb_neq in En.
  set (w1 := tree_det u v / (fbin 27 * (u - fbin 2) * (u + v + fbin 4))).
  destruct (0 <=? w1) eqn:W1; cbn [andb]; [|exact R']. destruct (w1 <=? 1) eqn:W2; [|exact R']. apply fleb_le in W1, W2.
  intro H. apply some_inj in H. subst e.
  assert (Q : - (1) <= (fbin 2 : K)) by (apply (proj2 (fle_sub _ _)); replace (fbin 2 - - (1)) with (fbin 3 : K) by (cbn [fbin]; ring); apply flt_le, fbin_pos).
  assert (Nv : v + fbin 6 <> 0) by (intro Z; apply Ev; transitivity (v + fbin 6 - fbin 6); [ring|rewrite Z; ring]).
  assert (Nu : u - fbin 2 <> 0) by (intro Z; apply Eu; transitivity (u - fbin 2 + fbin 2); [ring|rewrite Z; ring]).
  eapply fcert_ext; [|apply fcert_add; [apply fcert_add; apply fcert_mul; [apply fcert_const, fmul_nonneg; [exact E2|exact W1]|apply tree_point_ok, Q|apply fcert_const, fmul_nonneg; [exact E2|exact (proj1 (fle_sub _ _) W2)]|apply tree_point_ok, Et]|apply fcert_mul; [apply fcert_const, E1|apply fcert_abc2]]].
  intros A B C. cbv beta. clear W1 W2 Et R R' Q Ev Eu. unfold w1, t, tree_det, pointform, treeform, cyc3. cbn [fpow fbin] in *. field. nbz. all: intro Z; match type of Z with ?l = _ => first [apply Nv; transitivity l; [ring|exact Z] | apply Nu; transitivity l; [ring|exact Z] | apply En; transitivity l; [ring|exact Z]] end.
Qed.

(** ** The exceptions *)
Lemma hexagram_last_total c33 c41 c32 c222 : exists o, hexagram_last (K := K) c33 c41 c32 c222 = Ok o.
Proof. unfold hexagram_last. cbv zeta. repeat match goal with |- context [if ?c then _ else _] => destruct c end; eauto. Qed.
Lemma hexagram_raises (c33 c41 c32 c222 : K) (x : exn) : hexagram_symmetric den c33 c41 c32 c222 = Err x <->
  x = TypeError /\ 0 < c41 /\ c33 = 0 /\ c32 = - c41 /\ c222 < fbin 3 * c41.
Proof.
  unfold hexagram_symmetric. split.
  - destruct (c33 <? 0) eqn:E1; cbn [orb]; [discriminate|]. destruct (c41 <? 0) eqn:E2; [discriminate|]. apply fltb_ge in E1, E2. cbv zeta.
    destruct (forallb _ _) eqn:Ey; [discriminate|]. unfold hexagram_parabola. destruct (hexagram_last_total c33 c41 c32 c222) as [o Eo]. rewrite Eo.
    destruct (c41 =? 0) eqn:E0; [discriminate|]. apply feqb_neq in E0. destruct (_ <=? c33 / c41); [|discriminate].
    destruct (_ + 1 =? 0) eqn:Es; [|cbv zeta; destruct (existsb _ _); discriminate]. destruct (c33 / c41 =? 0) eqn:Ex; [|discriminate].
    apply feqb_eq in Es, Ex. intro H. split; [congruence|].
    assert (X : c33 = 0) by (transitivity (c33 / c41 * c41); [field; exact E0|rewrite Ex; ring]). subst c33.
    assert (X : c32 = - c41) by (rewrite Ex in Es; transitivity ((0 + c32 / c41 + 1) * c41 - c41); [field; exact E0|rewrite Es; ring]). subst c32.
    assert (P : 0 < c41) by (apply flt_le_neq; split; [exact E2|congruence]).
    split; [exact P|]. split; [reflexivity|]. split; [reflexivity|].
    unfold hexagram_trivial in Ey. destruct (c41 <? 0) eqn:E3 in Ey; [apply fltb_lt in E3; destruct (flt_irrefl K _ (flt_le_trans K _ _ _ P (flt_le E3)))|].
    cbn [forallb] in Ey. replace (0 - 0) with (0 : K) in Ey by ring. replace (c41 - 0) with c41 in Ey by ring. replace (- c41 + 0 + 0 + c41) with (0 : K) in Ey by ring.
    rewrite (proj2 (fleb_le K 0 0) (fle_refl K 0)), (proj2 (fleb_le K 0 c41) E2) in Ey. cbn [andb] in Ey.
    destruct (0 <=? _) eqn:E4 in Ey; [discriminate|]. apply fleb_gt in E4.
    apply (proj2 (flt_sub _ _)). apply (proj1 (flt_sub _ _)) in E4. match type of E4 with _ < ?l => replace (fbin 3 * c41 - c222) with l; [exact E4|cbn [fbin]; ring] end.
  - intros (-> & P & -> & -> & H). pose proof (flt_neq0 P) as N.
    rewrite (proj2 (fltb_ge K 0 0) (fle_refl K 0)), (proj2 (fltb_ge K c41 0) (flt_le P)). cbn [orb]. cbv zeta.
    match goal with |- (if ?b then _ else _) = _ => assert (E : b = false) end.
    { unfold hexagram_trivial. rewrite (proj2 (fltb_ge K c41 0) (flt_le P)). cbn [forallb]. rewrite !andb_assoc, andb_true_r. apply andb_false_r_eq.
      apply fleb_gt. apply (proj2 (flt_sub _ _)). apply (proj1 (flt_sub _ _)) in H. match goal with |- _ < ?l => replace l with (fbin 3 * c41 - c222); [exact H|cbn [fbin]; ring] end. }
    rewrite E. unfold hexagram_parabola. rewrite (proj2 (feqb_neq K c41 0) N). cbv zeta.
    replace (0 / c41) with (0 : K) by (field; exact N). replace (- c41 / c41) with (- (1) : K) by (field; exact N).
    replace ((1 + 0 + - (1)) ^ 2) with (0 : K) by (cbn [fpow]; ring). replace (0 + - (1) + 1) with (0 : K) by ring.
    rewrite (proj2 (fleb_le K 0 0) (fle_refl K 0)), (proj2 (feqb_eq K 0 0) eq_refl). reflexivity.
Qed.

Lemma tree_raises (c6 c33 c41 c222 : K) (x : exn) : sextic_tree den c6 c33 c41 c222 = Err x <->
  x = TypeError /\ 0 <= c222 + (c6 + c41 + c33) * fbin 3 /\
  (c6 = 0 /\ (c33 < 0 \/ c41 < 0) \/ 0 < c6 /\ c33 + c41 + fbin 4 * c6 = 0 /\ - fbin 2 * c6 <= c33 /\ c33 <> fbin 2 * c6).
Proof.
  unfold sextic_tree. cbv zeta. set (rem := c222 + (c6 + c41 + c33) * fbin 3).
  assert (F : forall u v l, match first_some (tree_regular den c6 u v rem) l with Some e => Ok (Some e) | None => Ok None end <> Err x).
  { intros u v l. destruct (first_some _ l); discriminate. }
  split.
  - destruct (rem <? 0) eqn:E1; cbn [orb]; [discriminate|]. destruct (c6 <? 0) eqn:E2; [discriminate|]. apply fltb_ge in E1, E2.
    destruct (c6 =? 0) eqn:E3; cbn [andb].
    { apply feqb_eq in E3. destruct (0 <=? c33) eqn:E4; cbn [andb].
      - destruct (0 <=? c41) eqn:E5; [discriminate|]. intro H. split; [congruence|]. split; [exact E1|]. left. split; [exact E3|]. right. apply fleb_gt in E5. exact E5.
      - intro H. split; [congruence|]. split; [exact E1|]. left. split; [exact E3|]. left. apply fleb_gt in E4. exact E4. }
    apply feqb_neq in E3. destruct (c33 / c6 <? - fbin 2) eqn:E4; [discriminate|]. apply fltb_ge in E4.
    destruct (c41 / c6 =? - fbin 6); cbn [negb andb]; [discriminate|]. destruct (c33 / c6 =? fbin 2) eqn:Eu; cbn [negb]; [discriminate|]. apply feqb_neq in Eu.
    destruct (- (1) <=? _); [|intro H; destruct (F _ _ _ H)].
    destruct (c33 / c6 + c41 / c6 + fbin 4 =? 0) eqn:En; [|destruct (_ && _)%bool; [discriminate|intro H; destruct (F _ _ _ H)]].
    apply feqb_eq in En. intro H. assert (P : 0 < c6) by (apply flt_le_neq; split; [exact E2|congruence]).
    split; [congruence|]. split; [exact E1|]. right. split; [exact P|]. split; [|split].
    + transitivity ((c33 / c6 + c41 / c6 + fbin 4) * c6); [field; exact E3|rewrite En; ring].
    + apply (proj2 (fle_sub _ _)). apply (proj1 (fle_sub _ _)) in E4. replace (c33 - - fbin 2 * c6) with ((c33 / c6 - - fbin 2) * c6) by (field; exact E3). apply fmul_nonneg; assumption.
    + intro Z. apply Eu. rewrite Z. field. exact E3.
  - intros (-> & Hr & Hc). rewrite (proj2 (fltb_ge K rem 0) Hr). cbn [orb]. destruct Hc as [[-> Hc]|(P & Hl & Hu & Hn)].
    + rewrite (proj2 (fltb_ge K 0 0) (fle_refl K 0)), (proj2 (feqb_eq K 0 0) eq_refl). cbn [andb].
      destruct Hc as [Hc|Hc]; apply fleb_gt in Hc; rewrite Hc; rewrite ?andb_false_r; reflexivity.
    + pose proof (flt_neq0 P) as N. rewrite (proj2 (fltb_ge K c6 0) (flt_le P)), (proj2 (feqb_neq K c6 0) N). cbn [andb].
      assert (X : c33 = c33 / c6 * c6) by (field; exact N). set (u := c33 / c6) in *. clearbody u. subst c33.
      assert (X : c41 = (- fbin 4 - u) * c6) by (transitivity (u * c6 + c41 + fbin 4 * c6 - (fbin 4 + u) * c6); [ring|rewrite Hl; ring]). subst c41.
      replace ((- fbin 4 - u) * c6 / c6) with (- fbin 4 - u) by (field; exact N).
      assert (Nu : u - fbin 2 <> 0) by (intro Z; apply Hn; transitivity ((u - fbin 2) * c6 + fbin 2 * c6); [ring|rewrite Z; ring]).
      assert (E1 : u <? - fbin 2 = false).
      { apply fltb_ge. apply (proj2 (fle_sub _ _)). apply (proj1 (fle_sub _ _)) in Hu. replace (u - - fbin 2) with ((u * c6 - - fbin 2 * c6) * / c6) by (field; exact N).
        apply fmul_nonneg; [exact Hu|apply flt_le, finv_pos, P]. }
      assert (E2 : - fbin 4 - u =? - fbin 6 = false).
      { apply feqb_neq. intro Z. apply Nu. transitivity (- (- fbin 4 - u) - fbin 6); [cbn [fbin]; ring|rewrite Z; ring]. }
      assert (E3 : u =? fbin 2 = false) by (apply feqb_neq; intro Z; apply Nu; rewrite Z; ring).
      rewrite E1, E2, E3. cbn [negb andb].
      replace (- (fbin 3 * u + (- fbin 4 - u)) / (- fbin 4 - u + fbin 6)) with (fbin 2 : K).
      2: { assert (Nd : - fbin 4 - u + fbin 6 <> 0) by (intro Z; apply Nu; transitivity (- (- fbin 4 - u + fbin 6)); [cbn [fbin]; ring|rewrite Z; ring]).
           replace (- (fbin 3 * u + (- fbin 4 - u))) with (fbin 2 * (- fbin 4 - u + fbin 6)) by (cbn [fbin]; ring). set (d := - fbin 4 - u + fbin 6) in *. clearbody d. field. exact Nd. }
      assert (Q : - (1) <=? (fbin 2 : K) = true) by (apply fleb_le, (proj2 (fle_sub _ _)); replace (fbin 2 - - (1)) with (fbin 3 : K) by (cbn [fbin]; ring); apply flt_le, fbin_pos).
      rewrite Q. replace (u + (- fbin 4 - u) + fbin 4) with (0 : K) by ring. rewrite (proj2 (feqb_eq K 0 0) eq_refl). reflexivity.
Qed.
End Facts.
