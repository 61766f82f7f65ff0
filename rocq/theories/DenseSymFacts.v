(** * Dense symmetric ternary forms: lemmas *)
From Coq Require Import Bool List Arith Lia ZArith Ring Field Permutation.
From Verif Require Import OrdField Base Perm Poly PolyId PolyOps Coeff Expr CertLimit TriPoly Monomials Univariate UnivariateLemmas.
From Verif Require Acute AcuteFacts Sparse TernaryTables.
From Verif Require Import SymDiv DenseSym.
Import ListNotations.

Section Facts.
Variable K : OrdField.
Local Open Scope of_scope.
Add Field Kf : (F_field K).
Implicit Types (p q : poly K) (e : ex K).

(** ** Homogeneous expressions in a, b, c *)
Inductive HD : nat -> ex K -> Prop :=
| HD_0 d : HD d (EC 0)
| HD_c k : HD 0 (EC k)
| HD_x i : (i < 3)%nat -> HD 1 (EX i)
| HD_add d x y : HD d x -> HD d y -> HD d (EAdd x y)
| HD_sub d x y : HD d x -> HD d y -> HD d (ESub x y)
| HD_mul d d' x y : HD d x -> HD d' y -> HD (d + d') (EMul x y)
| HD_pow d n x : HD d x -> HD (n * d) (EPow x n).

Lemma HD_eq d d' e : d = d' -> HD d e -> HD d' e.
Proof. intros ->. auto. Qed.
Lemma HD_divfree d e : HD d e -> divfree K e = true.
Proof. induction 1; cbn [divfree]; auto; rewrite ?IHHD, ?IHHD1, ?IHHD2; reflexivity. Qed.
Lemma HD_expand d e : HD d e -> homdeg d (expand e).
Proof.
  induction 1 as [d|k|i Hi|d x y Hx IHx Hy IHy|d x y Hx IHx Hy IHy|d d' x y Hx IHx Hy IHy|d n x Hx IHx]; cbn [expand].
  - unfold clean. cbn [filter snd]. rewrite (proj2 (feqb_eq K 0 0) eq_refl). intros m [].
  - intros m Hm. apply clean_keys in Hm. destruct Hm as [<-|[]]. reflexivity.
  - destruct i as [|[|[|]]]; try lia; intros m [<-|[]]; reflexivity.
  - apply (padd_full K 3); try assumption; apply expand_spec; eapply HD_divfree; eassumption.
  - apply (padd_full K 3); [apply expand_spec; eapply HD_divfree; eassumption| |assumption|].
    + apply (pneg_spec K 3). apply expand_spec; eapply HD_divfree; eassumption.
    + apply (pneg_spec K 3); [|assumption]. apply expand_spec; eapply HD_divfree; eassumption.
  - apply (pmul_spec K 3); try assumption; apply expand_spec; eapply HD_divfree; eassumption.
  - apply (ppow_spec K 3); try assumption. apply expand_spec; eapply HD_divfree; eassumption.
Qed.
Lemma HD_rot d e : HD d e -> HD d (erename rot3 e).
Proof.
  induction 1; cbn [erename]; try (constructor; assumption).
  apply HD_x. destruct i as [|[|[|]]]; cbn; lia.
Qed.
Lemma HD_csum d e : HD d e -> HD d (csum e).
Proof. intro H. unfold csum. repeat apply HD_add; repeat apply HD_rot; exact H. Qed.
Lemma HD_cprod d e : HD d e -> HD (3 * d) (cprod e).
Proof.
  intro H. unfold cprod. apply (HD_eq (d + d + d)); [lia|]. apply HD_mul; [apply HD_mul|]; repeat apply HD_rot; exact H.
Qed.
Lemma HD_esum d l : (forall e, In e l -> HD d e) -> HD d (Sparse.esum l).
Proof.
  induction l as [|e l IH]; intro H; [apply HD_0|]. cbn. apply HD_add; [apply H; left; reflexivity|apply IH; intros; apply H; right; assumption].
Qed.
Lemma ev_rot d e A B C : HD d e -> ev (pt3 A B C) (erename rot3 e) = ev (pt3 B C A) e.
Proof.
  induction 1; cbn [erename ev]; rewrite ?IHHD, ?IHHD1, ?IHHD2; try reflexivity.
  destruct i as [|[|[|]]]; try lia; reflexivity.
Qed.
Lemma ev_csum d e A B C : HD d e -> ev (pt3 A B C) (csum e) = ev (pt3 A B C) e + ev (pt3 B C A) e + ev (pt3 C A B) e.
Proof. intro H. unfold csum. cbn [ev]. rewrite (ev_rot d (erename rot3 e) A B C (HD_rot d e H)), (ev_rot d e A B C H), (ev_rot d e B C A H). reflexivity. Qed.
Lemma ev_cprod d e A B C : HD d e -> ev (pt3 A B C) (cprod e) = ev (pt3 A B C) e * ev (pt3 B C A) e * ev (pt3 C A B) e.
Proof. intro H. unfold cprod. cbn [ev]. rewrite (ev_rot d (erename rot3 e) A B C (HD_rot d e H)), (ev_rot d e A B C H), (ev_rot d e B C A H). reflexivity. Qed.
Lemma ev_esum env l : ev env (Sparse.esum l) = fsum (map (ev env) l : list K).
Proof. induction l as [|e l IH]; [reflexivity|]. change (ev env e + ev env (Sparse.esum l) = ev env e + fsum (map (ev env) l)). rewrite IH. reflexivity. Qed.
Lemma manifest_esum l : (forall e, In e l -> manifest true e = true) -> manifest true (Sparse.esum (K := K) l) = true.
Proof.
  induction l as [|e l IH]; intro H; cbn.
  - apply fle_refl.
  - rewrite (H e (or_introl eq_refl)). apply IH. intros; apply H; right; assumption.
Qed.
Lemma HD_emono v i j k : HD (i + j + k) (emono3 (K := K) v i j k).
Proof.
  unfold emono3. apply (HD_eq (0 + i * 1 + j * 1 + k * 1)); [lia|].
  repeat apply HD_mul; try apply HD_pow; try (apply HD_x; lia). apply HD_c.
Qed.
Lemma ev_emono (v : K) i j k A B C : ev (pt3 A B C) (emono3 v i j k) = v * meval (pt3 A B C) [i; j; k].
Proof. rewrite !meval_cons, meval_nil. cbn. ring. Qed.
Lemma manifest_emono (v : K) i j k : 0 <= v -> manifest true (emono3 v i j k) = true.
Proof. intro H. unfold emono3. cbn [manifest]. unfold fle in H. rewrite H, !orb_true_r. reflexivity. Qed.

(** ** [trivial_additive] *)
Lemma psum_over (F : list nat -> K) p L : NoDup (keys p) -> NoDup L -> (forall m, In m (keys p) -> In m L) ->
  fsum (map (fun t => snd t * F (fst t)) p) = fsum (map (fun m => coef p m * F m) L).
Proof.
  revert L. induction p as [|[k c] p IH]; intros L Hp HL Hin.
  - cbn. symmetry. apply fsum_map_0. intros m _. cbn. ring.
  - cbn in Hp. inversion Hp as [|y l Hk Hp']; subst.
    assert (HkL : In k L) by (apply Hin; left; reflexivity).
    destruct (in_split k L HkL) as [L1 [L2 ->]].
    assert (Hp2 : Permutation (L1 ++ k :: L2) (k :: L1 ++ L2)) by (apply Permutation_sym, Permutation_middle).
    rewrite (fsum_perm _ _ _ (Permutation_map _ Hp2)).
    assert (HL' : NoDup (k :: L1 ++ L2)) by (eapply Permutation_NoDup; eassumption).
    inversion HL' as [|y l HkL' HL'']; subst.
    cbn [map fsum fst snd].
    unfold coef at 1. cbn [dget]. rewrite meqb_refl. f_equal.
    rewrite (IH (L1 ++ L2)); [|exact Hp'|exact HL''|].
    + apply fsum_map_ext. intros m Hm. f_equal. unfold coef. cbn [dget].
      destruct (meqb_spec m k) as [->|]; [contradiction|reflexivity].
    + intros m Hm. assert (H : In m (L1 ++ k :: L2)) by (apply Hin; right; exact Hm).
      apply (Permutation_in _ Hp2) in H. destruct H as [<-|H]; [contradiction|exact H].
Qed.
Lemma monos3_elim d m : In m (monos3 d) -> exists i j k, m = [i; j; k] /\ (i + j + k = d)%nat.
Proof.
  unfold monos3. intro H. apply in_flat_map in H. destruct H as (i & Hi & H). apply in_map_iff in H. destruct H as (j & <- & Hj).
  apply in_seq in Hi, Hj. exists i, j, (d - i - j)%nat. split; [reflexivity|lia].
Qed.
Lemma monos3_rot d : Permutation (monos3 d) (map rot_list (monos3 d)).
Proof.
  apply NoDup_Permutation; [apply monos3_NoDup| |].
  - assert (J : forall x y, In x (monos3 d) -> In y (monos3 d) -> rot_list x = rot_list y -> x = y).
    { intros x y Hx Hy E. apply monos3_elim in Hx, Hy. destruct Hx as (i & j & k & -> & _), Hy as (i' & j' & k' & -> & _). cbn in E. congruence. }
    pose proof (monos3_NoDup d) as N. induction (monos3 d) as [|x l IH]; [constructor|]. cbn [map]. inversion_clear N as [|? ? N1 N2]. constructor.
    + intro Hin. apply in_map_iff in Hin. destruct Hin as (y & E & Hy). apply N1. rewrite <- (J y x (or_intror Hy) (or_introl eq_refl) E). exact Hy.
    + apply IH; [|exact N2]. intros u v Hu Hv. apply J; right; assumption.
  - intro m. split.
    + intro H. apply monos3_elim in H. destruct H as (i & j & k & -> & E). apply in_map_iff. exists [k; i; j]. split; [reflexivity|].
      apply monos3_in; [reflexivity|]. unfold list_sum. cbn [fold_right]. lia.
    + intro H. apply in_map_iff in H. destruct H as (m' & <- & H). apply monos3_elim in H. destruct H as (i & j & k & -> & E).
      cbn. apply monos3_in; [reflexivity|]. unfold list_sum. cbn [fold_right]. lia.
Qed.
Definition ind (x : bool) : K := if x then 1 else 0.
Definition all_equal (m : list nat) : bool := match m with [i; j; k] => Nat.eqb i j && Nat.eqb j k | _ => false end.
Lemma classes i j k : ind (dominant [i; j; k]) + ind (dominant [j; k; i]) + ind (dominant [k; i; j]) + ind (all_equal [i; j; k]) = (1 : K).
Proof.
  unfold dominant, all_equal, ind.
  repeat match goal with |- context [Nat.ltb ?x ?y] => destruct (Nat.ltb_spec x y) | |- context [Nat.eqb ?x ?y] => destruct (Nat.eqb_spec x y) end;
    cbn; try lia; ring.
Qed.
Lemma dominant_value p A B C : wf 3 p ->
  ev (pt3 A B C) (Sparse.esum (dominant_terms p)) = fsum (map (fun t => snd t * (ind (dominant (fst t)) * meval (pt3 A B C) (fst t))) p).
Proof.
  intros [_ Hl]. rewrite ev_esum. unfold dominant_terms. rewrite map_map.
  assert (HL : forall t, In t p -> length (fst t) = 3%nat) by (intros t Ht; apply Hl; unfold keys; apply in_map, Ht). clear Hl.
  induction p as [|[m v] p IH]; [reflexivity|]. cbn [filter fst]. specialize (IH (fun t Ht => HL t (or_intror Ht))). specialize (HL (m, v) (or_introl eq_refl)). cbn [fst] in HL.
  change (map (fun t => snd t * (ind (dominant (fst t)) * meval (pt3 A B C) (fst t))) ((m, v) :: p))
    with ((v * (ind (dominant m) * meval (pt3 A B C) m)) :: map (fun t => snd t * (ind (dominant (fst t)) * meval (pt3 A B C) (fst t))) p).
  change (fsum (?x :: ?l)) with (x + fsum l).
  destruct (dominant m) eqn:Ed; cbn [ind].
  - cbn [map fst snd]. change (fsum (?x :: ?l)) with (x + fsum l). rewrite IH, ev_emono.
    destruct m as [|i [|j [|k [|]]]]; try discriminate. cbn [nth]. ring.
  - rewrite IH. ring.
Qed.
Lemma dominant_HD d p : wf 3 p -> homdeg d p -> HD d (Sparse.esum (dominant_terms p)).
Proof.
  intros [_ Hl] Hd. apply HD_esum. intros e He. unfold dominant_terms in He. apply in_map_iff in He. destruct He as ([m v] & <- & Ht).
  apply filter_In in Ht. destruct Ht as [Ht _]. assert (Hm : In m (keys p)) by (unfold keys; apply in_map_iff; exists (m, v); auto).
  specialize (Hl m Hm). specialize (Hd m Hm). destruct m as [|i [|j [|k [|]]]]; try discriminate. cbn [nth fst snd].
  unfold list_sum in Hd. cbn [fold_right] in Hd. apply (HD_eq (i + j + k)); [lia|]. apply HD_emono.
Qed.
Lemma homdeg_coeff_degree d p : homdeg d p -> p = [] \/ coeff_degree p = d.
Proof. intro H. destruct p as [|[m v] p]; [left; reflexivity|right]. cbn. apply H. left. reflexivity. Qed.

Lemma fsum_delta {X} (L : list X) m0 (G : X -> K) : NoDup L -> In m0 L -> (forall m, In m L -> m <> m0 -> G m = 0) -> fsum (map G L) = G m0.
Proof.
  intros N Hin H. destruct (in_split m0 L Hin) as (L1 & L2 & ->).
  rewrite map_app, fsum_app. cbn [map]. change (fsum (?x :: ?l)) with (x + fsum l).
  rewrite !fsum_map_0; [ring| |].
  - intros m Hm. apply H; [apply in_or_app; right; right; exact Hm|]. intros ->. apply NoDup_remove_2 in N. apply N, in_or_app. right. exact Hm.
  - intros m Hm. apply H; [apply in_or_app; left; exact Hm|]. intros ->. apply NoDup_remove_2 in N. apply N, in_or_app. left. exact Hm.
Qed.

Lemma trivial_exact p e : wf 3 p -> (exists d, homdeg d p) -> cyclic3 (cfp p) -> trivial_additive p = Some e ->
  (forall A B C, ev (pt3 A B C) e = peval (pt3 A B C) p) /\ manifest true e = true /\ divfree K e = true.
Proof.
  intros W (d0 & Hd0) Hc. unfold trivial_additive. destruct (existsb _ p) eqn:Ex; [discriminate|].
  set (d := coeff_degree p). assert (Hd : homdeg d p).
  { destruct (homdeg_coeff_degree d0 p Hd0) as [->|E]; [intros m []|]. unfold d. rewrite E. exact Hd0. }
  assert (Hnn : forall t, In t p -> 0 <= snd t).
  { intros t Ht. destruct (snd t <? 0) eqn:E; [|apply fltb_ge, E]. assert (X : existsb (fun t => snd t <? 0) p = true) by (apply existsb_exists; exists t; auto). congruence. }
  set (center := if Nat.eqb (d mod 3) 0 then _ else _). intro H.
  assert (He : e = csum (Sparse.esum (dominant_terms p ++ center))) by congruence. subst e. clear H.
  assert (Hsp : forall l1 l2 env, ev env (Sparse.esum (l1 ++ l2)) = ev env (Sparse.esum (K := K) l1) + ev env (Sparse.esum l2)).
  { intros. rewrite !ev_esum, map_app, fsum_app. reflexivity. }
  assert (Hcd : forall e, In e center -> HD d e).
  { intros e He. subst center. destruct (Nat.eqb (d mod 3) 0) eqn:Em; [|destruct He]. destruct (_ =? 0); [destruct He|]. destruct He as [<-|[]].
    apply Nat.eqb_eq in Em. apply (HD_eq (d / 3 + d / 3 + d / 3)); [|apply HD_emono]. pose proof (Nat.div_mod d 3 ltac:(lia)). lia. }
  assert (HH : HD d (Sparse.esum (dominant_terms p ++ center))).
  { apply HD_esum. intros e He. apply in_app_or in He. destruct He as [He|He]; [|apply Hcd, He].
    unfold dominant_terms in He. apply in_map_iff in He. destruct He as ([m v] & <- & Ht).
    apply filter_In in Ht. destruct Ht as [Ht _]. assert (Hm : In m (keys p)) by (unfold keys; apply in_map_iff; exists (m, v); auto).
    pose proof (proj2 W m Hm) as Hl. specialize (Hd m Hm). destruct m as [|i [|j [|k [|]]]]; try discriminate. cbn [nth fst snd].
    unfold list_sum in Hd. cbn [fold_right] in Hd. apply (HD_eq (i + j + k)); [lia|]. apply HD_emono. }
  split; [|split].
  2:{ apply manifest_csum, manifest_esum. intros e He. apply in_app_or in He. destruct He as [He|He].
      - unfold dominant_terms in He. apply in_map_iff in He. destruct He as (t & <- & Ht). apply filter_In in Ht. apply manifest_emono, Hnn, Ht.
      - subst center. destruct (Nat.eqb (d mod 3) 0); [|destruct He]. destruct (_ =? 0); [destruct He|]. destruct He as [<-|[]].
        apply manifest_emono. apply fdiv_nonneg; [|fpos].
        unfold coef. destruct (dget p _) as [v|] eqn:Eg; [|apply fle_refl]. 
        assert (In ([(d / 3)%nat; (d / 3)%nat; (d / 3)%nat], v) p) by (apply (dget_in _ _ _ Eg)). exact (Hnn _ H). }
  2:{ eapply HD_divfree, HD_csum, HH. }
  intros A B C. rewrite (ev_csum d) by exact HH. rewrite !Hsp, !dominant_value by exact W.
  set (L := monos3 d). assert (NL : NoDup L) by apply monos3_NoDup.
  assert (IL : forall m, In m (keys p) -> In m L) by (intros m Hm; apply monos3_in; [apply W, Hm|apply Hd, Hm]).
  rewrite (peval_over K _ p L (proj1 W) NL IL).
  rewrite !(psum_over (fun m => ind (dominant m) * meval _ m) p L (proj1 W) NL IL).
  set (G := fun m => coef p m * meval (pt3 A B C) m).
  assert (R1 : fsum (map (fun m => coef p m * (ind (dominant m) * meval (pt3 A B C) m)) L) = fsum (map (fun m => G m * ind (dominant m)) L)).
  { apply fsum_map_ext. intros m _. unfold G. ring. }
  assert (R2 : fsum (map (fun m => coef p m * (ind (dominant m) * meval (pt3 B C A) m)) L) = fsum (map (fun m => G m * ind (dominant (rot_list m))) L)).
  { rewrite (fsum_perm K _ _ (Permutation_map _ (monos3_rot d))), map_map. apply fsum_map_ext. intros m Hm. apply monos3_elim in Hm. destruct Hm as (i & j & k & -> & _).
    cbn [rot_list]. unfold G. change (coef p [j; k; i]) with (cfp p j k i). change (coef p [i; j; k]) with (cfp p i j k). rewrite (Hc i j k).
    rewrite !meval_cons, !meval_nil. cbn [pt3]. ring. }
  assert (R3 : fsum (map (fun m => coef p m * (ind (dominant m) * meval (pt3 C A B) m)) L) = fsum (map (fun m => G m * ind (dominant (rot_list (rot_list m)))) L)).
  { rewrite (fsum_perm K _ _ (Permutation_map _ (monos3_rot d))), map_map.
    rewrite (fsum_perm K _ _ (Permutation_map _ (monos3_rot d))), map_map. apply fsum_map_ext. intros m Hm. apply monos3_elim in Hm. destruct Hm as (i & j & k & -> & _).
    cbn [rot_list]. unfold G. change (coef p [k; i; j]) with (cfp p k i j). change (coef p [i; j; k]) with (cfp p i j k). rewrite (Hc i j k), (Hc j k i).
    rewrite !meval_cons, !meval_nil. cbn [pt3]. ring. }
  rewrite R1, R2, R3. clear R1 R2 R3.
  assert (RC : ev (pt3 A B C) (Sparse.esum center) + ev (pt3 B C A) (Sparse.esum center) + ev (pt3 C A B) (Sparse.esum center) = fsum (map (fun m => G m * ind (all_equal m)) L)).
  { subst center. destruct (Nat.eqb (d mod 3) 0) eqn:Em.
    - apply Nat.eqb_eq in Em. pose proof (Nat.div_mod d 3 ltac:(lia)) as Ed. set (h := (d / 3)%nat) in *.
      rewrite (fsum_delta L [h; h; h] (fun m => G m * ind (all_equal m)) NL).
      + unfold all_equal. rewrite !Nat.eqb_refl. cbn [ind andb]. unfold G.
        destruct (coef p [h; h; h] =? 0) eqn:E0.
        * apply feqb_eq in E0. rewrite E0. cbn. ring.
        * rewrite !ev_esum. cbn [map]. change (fsum (?x :: ?l)) with (x + fsum l). rewrite !ev_emono, !meval_cons, !meval_nil. cbn [pt3 map fsum fold_right]. 
          change (fsum (map (ev (pt3 A B C)) [])) with (0 : K). field. fnz.
      + apply monos3_in; [reflexivity|]. unfold list_sum. cbn [fold_right]. lia.
      + intros m Hm Hne. apply monos3_elim in Hm. destruct Hm as (i & j & k & -> & Es). unfold all_equal.
        destruct (Nat.eqb_spec i j); [|cbn; ring]. destruct (Nat.eqb_spec j k); [|cbn; ring]. subst. exfalso. apply Hne.
        assert (k = h) by lia. subst k. reflexivity.
    - rewrite fsum_map_0; [cbn; ring|]. intros m Hm. apply monos3_elim in Hm. destruct Hm as (i & j & k & -> & Es). unfold all_equal.
      destruct (Nat.eqb_spec i j); [|cbn; ring]. destruct (Nat.eqb_spec j k); [|cbn; ring]. subst. apply Nat.eqb_neq in Em. exfalso. apply Em.
      rewrite <- Es. replace (k + k + k)%nat with (k * 3)%nat by lia. apply Nat.mod_mul. lia. }
  match goal with |- ?u1 + ?v1 + (?u2 + ?v2) + (?u3 + ?v3) = _ => transitivity (u1 + u2 + u3 + (v1 + v2 + v3)); [ring|] end.
  rewrite RC, <- !fsum_map_add. apply fsum_map_ext. intros m Hm. apply monos3_elim in Hm. destruct Hm as (i & j & k & -> & _). cbn [rot_list].
  match goal with |- ?g1 * ?x + ?g1 * ?y + ?g1 * ?z + ?g1 * ?w = _ => transitivity (g1 * (x + y + z + w)); [ring|] end.
  rewrite classes. unfold G. ring.
Qed.
End Facts.
