(** * Lemmas about the univariate model *)
From Coq Require Import Bool List Arith Lia Ring Field.
From Verif Require Import OrdField Base Congruence PolyId Univariate.
Import ListNotations.

Lemma Some_inj {A} (a b : A) : Some a = Some b -> a = b.
Proof. congruence. Qed.

Section Lemmas.
Variable K : OrdField.
Local Open Scope of_scope.
Add Field Kf : (F_field K).
Implicit Types (p q f g l : list K) (M : gmat K) (w : wsos K) (pr : iproof K).

(** ** Coefficient lists *)
Lemma ueval_cons c l x : ueval (c :: l) x = c + x * ueval l x. Proof. reflexivity. Qed.
Lemma ueval_nil x : ueval ([] : list K) x = 0. Proof. reflexivity. Qed.
Lemma ueval_uadd p q x : ueval (uadd p q) x = ueval p x + ueval q x.
Proof.
  revert q. induction p as [|a p IH]; intros [|b q]; cbn [uadd]; rewrite ?ueval_cons, ?ueval_nil; try ring.
  rewrite IH. ring.
Qed.
Lemma ueval_uscale c p x : ueval (uscale c p) x = c * ueval p x.
Proof.
  induction p as [|a p IH]; unfold uscale in *; cbn [map]; rewrite ?ueval_cons, ?ueval_nil; [ring|]. rewrite IH. ring.
Qed.
Lemma ueval_usub p q x : ueval (usub p q) x = ueval p x - ueval q x.
Proof. unfold usub. rewrite ueval_uadd, ueval_uscale. ring. Qed.
Lemma ueval_umul p q x : ueval (umul p q) x = ueval p x * ueval q x.
Proof.
  induction p as [|a p IH]; cbn [umul]; rewrite ?ueval_cons, ?ueval_nil; [ring|].
  rewrite ueval_uadd, ueval_uscale, ueval_cons, IH. ring.
Qed.
Lemma ueval_upow p n x : ueval (upow p n) x = ueval p x ^ n.
Proof.
  induction n as [|n IH]; cbn [upow]; [rewrite ueval_cons, ueval_nil; cbn; ring|].
  rewrite ueval_umul, IH. reflexivity.
Qed.
Lemma ueval_utransform f : forall n p q x, (length f <= S n)%nat -> ueval q x <> 0 ->
  ueval (utransform n f p q) x = ueval q x ^ n * ueval f (ueval p x / ueval q x).
Proof.
  induction f as [|c f IH]; intros n p q x Hl Hq; cbn [utransform]; [rewrite !ueval_nil; ring|].
  rewrite ueval_uadd, ueval_uscale, ueval_upow, ueval_umul, ueval_cons.
  destruct n as [|n].
  - destruct f; [|cbn in Hl; lia]. cbn [utransform]. rewrite !ueval_nil. ring.
  - cbn [pred]. rewrite IH; [|cbn in Hl; lia|exact Hq]. change (ueval q x ^ S n) with (ueval q x * ueval q x ^ n).
    field. exact Hq.
Qed.

Lemma strip_cons a p : strip (a :: p) = match strip p with [] => if a =? 0 then [] else [a] | r => a :: r end.
Proof. reflexivity. Qed.
Lemma ueval_strip p x : ueval (strip p) x = ueval p x.
Proof.
  induction p as [|a p IH]; [reflexivity|]. rewrite strip_cons, ueval_cons, <- IH. destruct (strip p) as [|b r].
  - destruct (a =? 0) eqn:E; [apply feqb_eq in E; subst; rewrite ?ueval_cons, ?ueval_nil; ring|rewrite ?ueval_cons; reflexivity].
  - reflexivity.
Qed.
Lemma strip_length p : (length (strip p) <= length p)%nat.
Proof.
  induction p as [|a p IH]; [apply le_n|]. rewrite strip_cons. destruct (strip p); [destruct (a =? 0); cbn; lia|cbn in *; lia].
Qed.
Lemma ueval_all_coeffs p x : ueval (rev (all_coeffs p)) x = ueval p x.
Proof.
  unfold all_coeffs. destruct (strip p) as [|a r] eqn:E.
  - rewrite <- (ueval_strip p x), E. cbn. ring.
  - rewrite rev_involutive, <- E. apply ueval_strip.
Qed.

Lemma bsum_trunc (l n : nat) (f : nat -> K) : (l <= n)%nat -> (forall i, (l <= i)%nat -> (i < n)%nat -> f i = 0) -> bsum n f = bsum l f.
Proof.
  intros Hl H. replace n with (l + (n - l))%nat by lia. rewrite bsum_split, (bsum_all0 _ (n - l)); [ring|].
  intros i Hi. apply H; lia.
Qed.
Lemma bsum_rev (n : nat) (f : nat -> K) : bsum n f = bsum n (fun i => f (n - 1 - i)%nat).
Proof.
  induction n as [|n IH]; [reflexivity|]. rewrite bsum_Sl with (f := fun i => f (S n - 1 - i)%nat).
  cbn [bsum]. rewrite IH. replace (S n - 1 - 0)%nat with n by lia.
  rewrite (bsum_ext _ n (fun i => f (S n - 1 - S i)%nat) (fun i => f (n - 1 - i)%nat)) by (intros; f_equal; lia). ring.
Qed.
Lemma ueval_bsum p : forall n x, (length p <= n)%nat -> ueval p x = bsum n (fun i => vget p i * x ^ i).
Proof.
  induction p as [|a p IH]; intros n x Hl.
  - rewrite ueval_nil. symmetry. apply bsum_all0. intros i _. unfold vget. destruct i; cbn; ring.
  - destruct n as [|n]; [cbn in Hl; lia|]. rewrite ueval_cons, bsum_Sl, (IH n) by (cbn in Hl; lia).
    cbn [fpow]. rewrite <- bsum_mul_l. unfold vget at 2. cbn [nth].
    rewrite (bsum_ext _ n _ (fun i => vget (a :: p) (S i) * (x * x ^ i))); [ring|].
    intros i _. unfold vget. cbn [nth]. ring.
Qed.
Lemma ueval_rev_bsum p n x : length p = n -> ueval (rev p) x = bsum n (fun k => vget p k * x ^ (n - 1 - k)).
Proof.
  intro H. rewrite (ueval_bsum (rev p) n) by (rewrite rev_length; lia). rewrite bsum_rev. apply bsum_ext. intros i Hi.
  unfold vget. rewrite rev_nth by lia. do 2 f_equal. lia.
Qed.

(** ** Antidiagonals *)
Definition adiag (n : nat) M (k : nat) : K := bsum n (fun a => if ((a <=? k) && (k - a <? n))%nat%bool then M a (k - a)%nat else 0).
Definition gform (n : nat) M (x : K) : K := bsum n (fun i => bsum n (fun j => x ^ (n - 1 - i) * M i j * x ^ (n - 1 - j))).
Definition gsym (n : nat) M : Prop := forall i j, (i < n)%nat -> (j < n)%nat -> M i j = M j i.

Lemma gform_adiag n M x : (0 < n)%nat -> gform n M x = bsum (2 * n - 1) (fun k => adiag n M k * x ^ (2 * n - 2 - k)).
Proof.
  intro Hn. unfold gform, adiag.
  rewrite (bsum_ext _ (2 * n - 1) _ (fun k => bsum n (fun a => if ((a <=? k) && (k - a <? n))%nat%bool then x ^ (n - 1 - a) * M a (k - a)%nat * x ^ (n - 1 - (k - a)) else 0))).
  - rewrite (bsum_swap _ (2 * n - 1) n). apply bsum_ext. intros i Hi.
    replace (2 * n - 1)%nat with (i + (n + (n - 1 - i)))%nat by lia. rewrite bsum_split, bsum_split.
    rewrite (bsum_all0 _ i), (bsum_all0 _ (n - 1 - i)).
    + rewrite (bsum_ext _ n (fun j => x ^ (n - 1 - i) * M i j * x ^ (n - 1 - j))
        (fun j => if ((i <=? i + j) && (i + j - i <? n))%nat%bool then x ^ (n - 1 - i) * M i (i + j - i)%nat * x ^ (n - 1 - (i + j - i)) else 0)); [ring|].
      intros j Hj. replace (i + j - i)%nat with j by lia.
      replace (i <=? i + j)%nat with true by (symmetry; apply Nat.leb_le; lia).
      replace (j <? n)%nat with true by (symmetry; apply Nat.ltb_lt; lia). reflexivity.
    + intros j Hj. replace (i + (n + j) - i <? n)%nat with false by (symmetry; apply Nat.ltb_ge; lia).
      rewrite andb_false_r. reflexivity.
    + intros j Hj. replace (i <=? j)%nat with false by (symmetry; apply Nat.leb_gt; lia). reflexivity.
  - intros k Hk. rewrite <- bsum_mul_r. apply bsum_ext. intros a Ha.
    destruct (a <=? k)%nat eqn:E1; [|cbn [andb]; ring]. destruct (k - a <? n)%nat eqn:E2; cbn [andb]; [|ring].
    apply Nat.leb_le in E1. apply Nat.ltb_lt in E2.
    replace (2 * n - 2 - k)%nat with ((n - 1 - a) + (n - 1 - (k - a)))%nat by lia. rewrite fpow_add. ring.
Qed.

Lemma adiag_even n M m : (m < n)%nat -> gsym n M ->
  adiag n M (2 * m) = bsum (Nat.min m (n - m - 1)) (fun j => M (m - S j)%nat (m + S j)%nat) * 2 + M m m.
Proof.
  intros Hm Hs. set (l := Nat.min m (n - m - 1)). unfold adiag.
  set (F := fun a => if ((a <=? 2 * m) && (2 * m - a <? n))%nat%bool then M a (2 * m - a)%nat else 0).
  transitivity (bsum (m + (1 + (n - m - 1))) F); [f_equal; lia|]. rewrite bsum_split, bsum_split.
  rewrite (bsum_rev m), (bsum_trunc l m), (bsum_trunc l (n - m - 1)).
  - change (bsum 1 (fun i => F (m + i)%nat)) with (0 + F (m + 0)%nat). 
    assert (E0 : F (m + 0)%nat = M m m).
    { unfold F. rewrite Nat.add_0_r. replace (m <=? 2 * m)%nat with true by (symmetry; apply Nat.leb_le; lia).
      replace (2 * m - m)%nat with m by lia. replace (m <? n)%nat with true by (symmetry; apply Nat.ltb_lt; lia). reflexivity. }
    rewrite E0.
    rewrite (bsum_ext _ l (fun i => F (m - 1 - i)%nat) (fun j => M (m - S j)%nat (m + S j)%nat)).
    + rewrite (bsum_ext _ l (fun i => F (m + (1 + i))%nat) (fun j => M (m - S j)%nat (m + S j)%nat)); [ring|].
      intros j Hj. unfold F. replace (m + (1 + j) <=? 2 * m)%nat with true by (symmetry; apply Nat.leb_le; lia).
      replace (2 * m - (m + (1 + j)))%nat with (m - S j)%nat by lia.
      replace (m - S j <? n)%nat with true by (symmetry; apply Nat.ltb_lt; lia). cbn [andb].
      replace (m + (1 + j))%nat with (m + S j)%nat by lia. apply Hs; lia.
    + intros j Hj. unfold F. replace (m - 1 - j <=? 2 * m)%nat with true by (symmetry; apply Nat.leb_le; lia).
      replace (2 * m - (m - 1 - j))%nat with (m + S j)%nat by lia.
      replace (m + S j <? n)%nat with true by (symmetry; apply Nat.ltb_lt; lia). cbn [andb]. f_equal. lia.
  - lia.
  - intros i H1 H2. unfold F. replace (m + (1 + i) <=? 2 * m)%nat with false by (symmetry; apply Nat.leb_gt; lia). reflexivity.
  - lia.
  - intros i H1 H2. unfold F. replace (2 * m - (m - 1 - i) <? n)%nat with false by (symmetry; apply Nat.ltb_ge; lia).
    rewrite andb_false_r. reflexivity.
Qed.

Lemma adiag_odd n M m : (m + 1 < n)%nat -> gsym n M ->
  adiag n M (2 * m + 1) = (bsum (Nat.min m (n - m - 2)) (fun j => M (m - S j)%nat (m + S j + 1)%nat) + M m (m + 1)%nat) * 2.
Proof.
  intros Hm Hs. set (l := Nat.min m (n - m - 2)). unfold adiag.
  set (F := fun a => if ((a <=? 2 * m + 1) && (2 * m + 1 - a <? n))%nat%bool then M a (2 * m + 1 - a)%nat else 0).
  transitivity (bsum ((m + 1) + (n - m - 1)) F); [f_equal; lia|]. rewrite bsum_split.
  rewrite (bsum_rev (m + 1)), (bsum_trunc (S l) (m + 1)), (bsum_trunc (S l) (n - m - 1)).
  - assert (E1 : bsum (S l) (fun i => F (m + 1 - 1 - i)%nat) = bsum l (fun j => M (m - S j)%nat (m + S j + 1)%nat) + M m (m + 1)%nat).
    { rewrite (bsum_ext _ (S l) _ (fun j => M (m - j)%nat (m + j + 1)%nat)).
      - rewrite bsum_Sl. rewrite Nat.sub_0_r, Nat.add_0_r. ring.
      - intros j Hj. unfold F. replace (m + 1 - 1 - j)%nat with (m - j)%nat by lia.
        replace (m - j <=? 2 * m + 1)%nat with true by (symmetry; apply Nat.leb_le; lia).
        replace (2 * m + 1 - (m - j))%nat with (m + j + 1)%nat by lia.
        replace (m + j + 1 <? n)%nat with true by (symmetry; apply Nat.ltb_lt; lia). reflexivity. }
    assert (E2 : bsum (S l) (fun i => F (m + 1 + i)%nat) = bsum l (fun j => M (m - S j)%nat (m + S j + 1)%nat) + M m (m + 1)%nat).
    { rewrite (bsum_ext _ (S l) _ (fun j => M (m - j)%nat (m + j + 1)%nat)).
      - rewrite bsum_Sl. rewrite Nat.sub_0_r, Nat.add_0_r. ring.
      - intros j Hj. unfold F.
        replace (m + 1 + j <=? 2 * m + 1)%nat with true by (symmetry; apply Nat.leb_le; lia).
        replace (2 * m + 1 - (m + 1 + j))%nat with (m - j)%nat by lia.
        replace (m - j <? n)%nat with true by (symmetry; apply Nat.ltb_lt; lia). cbn [andb].
        replace (m + 1 + j)%nat with (m + j + 1)%nat by lia. apply Hs; lia. }
    rewrite E1, E2. ring.
  - lia.
  - intros i H1 H2. unfold F. replace (m + 1 + i <=? 2 * m + 1)%nat with false by (symmetry; apply Nat.leb_gt; lia). reflexivity.
  - lia.
  - intros i H1 H2. unfold F. replace (2 * m + 1 - (m + 1 - 1 - i) <? n)%nat with false by (symmetry; apply Nat.ltb_ge; lia).
    rewrite andb_false_r. reflexivity.
Qed.

Lemma even_half i : Nat.even i = true -> i = (2 * (i / 2))%nat.
Proof. intro H. apply Nat.even_spec in H. destruct H as [k ->]. rewrite (Nat.mul_comm 2 k), Nat.div_mul by lia. lia. Qed.
Lemma odd_half i : Nat.even i = false -> i = (2 * (i / 2) + 1)%nat.
Proof.
  intro H. assert (Ho : Nat.odd i = true) by (rewrite <- Nat.negb_even, H; reflexivity).
  apply Nat.odd_spec in Ho. destruct Ho as [k ->]. replace (2 * k + 1)%nat with (1 + k * 2)%nat by lia.
  rewrite Nat.div_add by lia. cbn. lia.
Qed.

Lemma minor_coeff_adiag n M i : (i < 2 * n - 1)%nat -> gsym n M -> minor_coeff n M i = adiag n M i.
Proof.
  intros Hi Hs. unfold minor_coeff. destruct (Nat.even i) eqn:E.
  - pose proof (even_half i E) as H. set (m := (i / 2)%nat) in *. rewrite H. rewrite adiag_even; [reflexivity|lia|exact Hs].
  - pose proof (odd_half i E) as H. set (m := (i / 2)%nat) in *. rewrite H. rewrite adiag_odd; [reflexivity|lia|exact Hs].
Qed.

Lemma gform_minor n M x : (0 < n)%nat -> gsym n M -> gform n M x = ueval (rev (minor_coeffs n M)) x.
Proof.
  intros Hn Hs. rewrite (gform_adiag n M x Hn), (ueval_rev_bsum (minor_coeffs n M) (2 * n - 1))
    by (unfold minor_coeffs; rewrite map_length, seq_length; reflexivity).
  apply bsum_ext. intros k Hk. rewrite <- minor_coeff_adiag by assumption. unfold minor_coeffs, vget.
  rewrite (nth_indep _ 0 (minor_coeff n M 0)) by (rewrite map_length, seq_length; exact Hk).
  rewrite map_nth, seq_nth by exact Hk. do 2 f_equal. lia.
Qed.

Lemma minor_coeff_ext n M M' i : (forall a b, (a + b)%nat = i -> M a b = M' a b) -> minor_coeff n M i = minor_coeff n M' i.
Proof.
  intro H. unfold minor_coeff. destruct (Nat.even i) eqn:E.
  - pose proof (even_half i E) as Hi. set (m := (i / 2)%nat) in *. f_equal; [|apply H; lia]. f_equal. apply bsum_ext. intros j Hj. apply H. lia.
  - pose proof (odd_half i E) as Hi. set (m := (i / 2)%nat) in *. f_equal. f_equal; [|apply H; lia]. apply bsum_ext. intros j Hj. apply H. lia.
Qed.

Lemma upd_same M i j v : upd M i j v i j = v.
Proof. unfold upd. rewrite !Nat.eqb_refl. reflexivity. Qed.
Lemma upd_other M i j v a b : (a <> i \/ b <> j) -> upd M i j v a b = M a b.
Proof.
  intro H. unfold upd. destruct (Nat.eqb_spec a i); destruct (Nat.eqb_spec b j); cbn; try reflexivity. lia.
Qed.

Definition far (a b : nat) : Prop := (Nat.min a b + 2 <= Nat.max a b)%nat.

Lemma det_step_spec n M i c M' : det_step n M i c = Ok M' ->
  (i < 2 * n - 1)%nat /\ minor_coeff n M' i = c /\
  (forall a b, (a + b)%nat <> i -> M' a b = M a b) /\
  (forall a b, far a b -> M' a b = M a b) /\
  (forall a, (a + S a)%nat = i -> M' a (S a) = M' (S a) a).
Proof.
  unfold det_step, minor_coeff. destruct (Nat.even i) eqn:E.
  - pose proof (even_half i E) as Hi. set (m := (i / 2)%nat) in *. destruct (Nat.ltb_spec m n) as [Hm|Hm]; [|discriminate].
    intro H. apply Ok_inj in H. subst M'. repeat split.
    + lia.
    + rewrite upd_same. match goal with |- bsum ?l ?f * _ + _ = _ => rewrite (bsum_ext _ l f (fun j => M (m - S j)%nat (m + S j)%nat)) end; [ring|].
      intros j Hj. apply upd_other. lia.
    + intros a b Hab. apply upd_other. lia.
    + intros a b Hf. apply upd_other. unfold far in Hf. lia.
    + intros a Ha. lia.
  - pose proof (odd_half i E) as Hi. set (m := (i / 2)%nat) in *. destruct (Nat.ltb_spec (m + 1) n) as [Hm|Hm]; [|discriminate].
    intro H. apply Ok_inj in H. subst M'. repeat split.
    + lia.
    + rewrite (upd_other _ (m + 1) m), upd_same by lia.
      match goal with |- (bsum ?l ?f + _) * _ = _ => rewrite (bsum_ext _ l f (fun j => M (m - S j)%nat (m + S j + 1)%nat)) end.
      * field. apply f2_neq0.
      * intros j Hj. rewrite !upd_other by lia. reflexivity.
    + intros a b Hab. rewrite !upd_other by lia. reflexivity.
    + intros a b Hf. unfold far in Hf. rewrite !upd_other by lia. reflexivity.
    + intros a Ha. replace a with m by lia. rewrite (upd_other _ (m + 1) m) by lia. replace (S m) with (m + 1)%nat by lia.
      rewrite !upd_same. reflexivity.
Qed.

Lemma det_loop_spec n cs : forall M i M', det_loop n M i cs = Ok M' ->
  ((0 < length cs)%nat -> (i + length cs <= 2 * n - 1)%nat) /\
  (forall k, (k < length cs)%nat -> minor_coeff n M' (i + k) = vget cs k) /\
  (forall a b, (a + b < i)%nat -> M' a b = M a b) /\
  (forall a b, far a b -> M' a b = M a b) /\
  (forall a, (i <= a + S a)%nat -> (a + S a < i + length cs)%nat -> M' a (S a) = M' (S a) a).
Proof.
  induction cs as [|c cs IH]; intros M i M' H; cbn [det_loop length] in *.
  - apply Ok_inj in H. subst. repeat split; intros; try lia; reflexivity.
  - destruct (det_step n M i c) as [M1|] eqn:E; [|discriminate]. apply det_step_spec in E.
    destruct E as [E1 [E2 [E3 [E4 E5]]]]. apply IH in H. destruct H as [H1 [H2 [H3 [H4 H5]]]]. repeat split.
    + intros _. destruct cs; [cbn; lia|]. cbn [length] in *. specialize (H1 ltac:(lia)). lia.
    + intros k Hk. destruct k as [|k].
      * rewrite Nat.add_0_r. rewrite (minor_coeff_ext n M' M1 i); [exact E2|]. intros a b Hab. apply H3. lia.
      * replace (i + S k)%nat with (S i + k)%nat by lia. rewrite H2 by lia. reflexivity.
    + intros a b Hab. rewrite H3 by lia. apply E3. lia.
    + intros a b Hf. rewrite H4 by exact Hf. apply E4. exact Hf.
    + intros a Ha Hb. destruct (Nat.eq_dec (a + S a) i) as [Eq|Ne].
      * rewrite !H3 by lia. apply E5. exact Eq.
      * apply H5; lia.
Qed.

Lemma det_loop_ok n cs : forall M i, (i + length cs <= 2 * n - 1)%nat -> exists M', det_loop n M i cs = Ok M'.
Proof.
  induction cs as [|c cs IH]; intros M i H; cbn [det_loop length] in *; [eexists; reflexivity|].
  assert (exists M1, det_step n M i c = Ok M1) as [M1 ->].
  { unfold det_step. destruct (Nat.even i) eqn:E.
    - pose proof (even_half i E) as Hi. set (m := (i / 2)%nat) in *.
      replace (m <? n)%nat with true by (symmetry; apply Nat.ltb_lt; lia). eexists; reflexivity.
    - pose proof (odd_half i E) as Hi. set (m := (i / 2)%nat) in *.
      replace (m + 1 <? n)%nat with true by (symmetry; apply Nat.ltb_lt; lia). eexists; reflexivity. }
  apply IH. lia.
Qed.

(** C45 *)
Lemma determine_exact_lemma n M f M' : (0 < n)%nat ->
  (forall a b, (a < n)%nat -> (b < n)%nat -> far a b -> M a b = M b a) ->
  (2 * n - 1 <= length (all_coeffs f))%nat ->
  determine_diagonal n M f = Ok M' ->
  gsym n M' /\ (forall x, gform n M' x = ueval f x) /\ (forall a b, far a b -> M' a b = M a b).
Proof.
  intros Hn Hs Hl H. unfold determine_diagonal in H. apply det_loop_spec in H. destruct H as [H1 [H2 [_ [H4 H5]]]].
  assert (Hlen : length (all_coeffs f) = (2 * n - 1)%nat) by (specialize (H1 ltac:(lia)); lia).
  assert (Hsym : gsym n M').
  { intros a b Ha Hb. destruct (lt_eq_lt_dec a b) as [[Hab|Hab]|Hab]; [|subst; reflexivity|].
    - destruct (Nat.eq_dec b (S a)) as [->|Hne]; [apply H5; lia|].
      rewrite !H4 by (unfold far; lia). apply Hs; unfold far; lia.
    - destruct (Nat.eq_dec a (S b)) as [->|Hne]; [symmetry; apply H5; lia|].
      rewrite !H4 by (unfold far; lia). apply Hs; unfold far; lia. }
  split; [exact Hsym|]. split; [|exact H4]. intro x.
  rewrite (gform_minor n M' x Hn Hsym), <- (ueval_all_coeffs f x). f_equal. f_equal.
  apply (nth_ext _ _ 0 0); [unfold minor_coeffs; rewrite map_length, seq_length; lia|].
  unfold minor_coeffs. rewrite map_length, seq_length. intros k Hk.
  rewrite (nth_indep _ 0 (minor_coeff n M' 0)) by (rewrite map_length, seq_length; exact Hk).
  rewrite map_nth, seq_nth by exact Hk. apply (H2 k). lia.
Qed.

Lemma determine_ok_lemma n M f : length (all_coeffs f) = (2 * n - 1)%nat -> exists M', determine_diagonal n M f = Ok M'.
Proof. intro H. apply det_loop_ok. cbn. lia. Qed.

(** ** Accepting a matrix *)
Lemma cong_loop_rows n : forall (M : list (list K)) U Sv, cong_loop n M = Some (U, Sv) -> forall r, In r U -> length r = n.
Proof.
  induction n as [|n IH]; intros M U Sv H r Hr; [discriminate|].
  destruct n as [|n].
  - cbn in H. destruct (mget M 0 0 <? 0); [discriminate|]. inversion H; subst. destruct Hr as [<-|[]]. reflexivity.
  - rewrite cong_loop_SS in H. cbv zeta in H.
    repeat match type of H with
           | (if ?b then _ else _) = _ => destruct b
           | match cong_loop _ ?m with _ => _ end = _ => destruct (cong_loop (S n) m) as [[U' Sv']|] eqn:E
           end; try discriminate.
    + inversion H; subst. destruct Hr as [<-|Hr]; [cbn [length]; rewrite vtab_length; reflexivity|].
      apply in_map_iff in Hr. destruct Hr as [r' [<- Hr']]. cbn [length]. f_equal. eapply IH; eassumption.
    + inversion H; subst. destruct Hr as [<-|Hr].
      * cbn [length]. rewrite ?vtab_length, ?repeat_length. reflexivity.
      * apply in_map_iff in Hr. destruct Hr as [r' [<- Hr']]. cbn [length]. f_equal. eapply IH; eassumption.
Qed.

Lemma weval_combine (Sv : list K) (U : list (list K)) n x : length Sv = n -> length U = n -> (forall r, In r U -> length r = n) ->
  weval (create_sos U Sv) x = bsum n (fun k => vget Sv k * (bsum n (fun i => mget U k i * x ^ (n - 1 - i)) * bsum n (fun i => mget U k i * x ^ (n - 1 - i)))).
Proof.
  intros H1 H2 Hr. unfold weval, create_sos.
  set (V := fun r => bsum n (fun i => vget r i * x ^ (n - 1 - i))).
  assert (Hg : forall m (Sv : list K) U, length Sv = m -> length U = m -> (forall r, In r U -> length r = n) ->
     fsum (map (fun t => fst t * (ueval (snd t) x * ueval (snd t) x)) (combine Sv (map (@rev K) U)))
     = bsum m (fun k => vget Sv k * (V (nth k U []) * V (nth k U [])))).
  { clear - V. induction m as [|m IH]; intros [|s Sv] [|r U] H1 H2 Hr; try discriminate; [reflexivity|].
    cbn [map combine fsum fold_right]. rewrite bsum_Sl. cbn [fst snd].
    change (fold_right fadd 0 (map (fun t : K * list K => fst t * (ueval (snd t) x * ueval (snd t) x)) (combine Sv (map (@rev K) U))))
      with (fsum (map (fun t : K * list K => fst t * (ueval (snd t) x * ueval (snd t) x)) (combine Sv (map (@rev K) U)))).
    rewrite (IH Sv U) by (try (cbn in H1; cbn in H2; lia); intros r' Hr'; apply Hr; right; exact Hr').
    rewrite (ueval_rev_bsum r n) by (apply Hr; left; reflexivity). reflexivity. }
  rewrite (Hg n Sv U H1 H2 Hr). reflexivity.
Qed.

Definition wnonneg w : Prop := forall t, In t w -> 0 <= fst t.

Lemma qform_gform n M x : qform n (mtab n n M) (fun i => x ^ (n - 1 - i)) = gform n M x.
Proof.
  unfold qform, gform. apply bsum_ext. intros i Hi. apply bsum_ext. intros j Hj. rewrite mget_mtab by assumption. reflexivity.
Qed.

Lemma congruence_wsos n M U Sv : gsym n M -> congruence (mtab n n M) = Ok (Some (U, Sv)) ->
  wnonneg (create_sos U Sv) /\ forall x, weval (create_sos U Sv) x = gform n M x.
Proof.
  intros Hs H.
  assert (Hsym : symmetric (length (mtab n n M)) (mtab n n M)).
  { rewrite mtab_length. intros i j Hi Hj. rewrite !mget_mtab by assumption. apply Hs; assumption. }
  pose proof (congruence_sound_lemma K _ _ _ Hsym H) as [L1 [L2 [_ [Hnn _]]]]. rewrite mtab_length in L1, L2, Hnn.
  split.
  - intros [c p] Hin. unfold create_sos in Hin. apply in_combine_l in Hin. cbn [fst].
    apply (In_nth _ _ 0) in Hin. destruct Hin as [k [Hk <-]]. apply (Hnn k). lia.
  - intro x. rewrite (weval_combine Sv U n x L2 L1).
    + pose proof (congruence_sos_lemma K _ _ _ (fun i => x ^ (n - 1 - i)) Hsym H) as E. rewrite mtab_length in E.
      rewrite <- E. apply qform_gform.
    + apply congruence_ok in H. destruct H as [_ H]. rewrite mtab_length in H. eapply cong_loop_rows. exact H.
Qed.

Lemma accept_sound n M w : gsym n M -> accept n M = Ok (Some w) -> wnonneg w /\ forall x, weval w x = gform n M x.
Proof.
  intros Hs. unfold accept. destruct (congruence (mtab n n M)) as [[[U Sv]|]|] eqn:E; try discriminate.
  destruct (all_nonneg Sv); [|discriminate]. intro H. apply Ok_inj in H. inversion H; subst.
  apply congruence_wsos; assumption.
Qed.

(** ** Factors *)
Definition proves (pq : wsos K * wsos K) f : Prop :=
  wnonneg (fst pq) /\ wnonneg (snd pq) /\ forall x, ueval f x = weval (fst pq) x + x * weval (snd pq) x.

Lemma wnonneg_nil : wnonneg []. Proof. intros t []. Qed.
Lemma wnonneg_cons c p w : 0 <= c -> wnonneg w -> wnonneg ((c, p) :: w).
Proof. intros H1 H2 t [<-|Ht]; [exact H1|apply H2; exact Ht]. Qed.
Lemma wnonneg_app w1 w2 : wnonneg w1 -> wnonneg w2 -> wnonneg (w1 ++ w2).
Proof. intros H1 H2 t Ht. apply in_app_or in Ht. destruct Ht; auto. Qed.
Lemma weval_cons t w x : weval (t :: w) x = fst t * (ueval (snd t) x * ueval (snd t) x) + weval w x.
Proof. reflexivity. Qed.
Lemma weval_nil x : weval ([] : wsos K) x = 0. Proof. reflexivity. Qed.
Lemma weval_app w1 w2 x : weval (w1 ++ w2) x = weval w1 x + weval w2 x.
Proof. unfold weval. rewrite map_app, fsum_app. reflexivity. Qed.

Lemma prove_simple_sound f pq : prove_simple f = Some pq -> proves pq f.
Proof.
  unfold prove_simple. intro H.
  assert (HE : forall x, ueval f x = ueval (rev (all_coeffs f)) x) by (intro x; symmetry; apply ueval_all_coeffs).
  destruct (all_coeffs f) as [|a [|b [|c [|]]]] eqn:E; try discriminate.
  - destruct (0 <=? ulc f) eqn:L; [|discriminate]. inversion H; subst. clear H. split; [|split]; cbn [fst snd].
    + apply wnonneg_cons; [|apply wnonneg_nil]. apply fleb_le in L. revert L. unfold ulc. unfold all_coeffs in E.
      destruct (strip f) as [|s r]; [inversion E; subst; cbn; auto|].
      assert (Er : s :: r = [a]) by (rewrite <- (rev_involutive (s :: r)), E; reflexivity). rewrite Er. cbn. auto.
    + apply wnonneg_nil.
    + intro x. rewrite HE. cbn. unfold weval. cbn. ring.
  - destruct ((0 <=? a) && (0 <=? b))%bool eqn:C; [|discriminate]. apply andb_true_iff in C. destruct C as [C1 C2].
    apply fleb_le in C1. apply fleb_le in C2. inversion H; subst. split; [|split]; cbn [fst snd].
    + apply wnonneg_cons; [exact C2|apply wnonneg_nil].
    + apply wnonneg_cons; [exact C1|apply wnonneg_nil].
    + intro x. rewrite HE. cbn. unfold weval. cbn. ring.
  - destruct (a <? 0) eqn:A; [discriminate|].
    destruct ((0 <? a) && (b * b - 4 * a * c <? 0))%bool eqn:C.
    + apply andb_true_iff in C. destruct C as [C1 C2]. apply fltb_lt in C1. apply fltb_lt in C2. inversion H; subst.
      assert (Ha : a <> 0) by (apply flt_neq0; exact C1).
      assert (H4 : 0 < 4 * a).
      { apply fmul_pos; [|exact C1]. repeat apply fadd_pos; apply f1_pos. }
      split; [|split]; cbn [fst snd].
      * apply wnonneg_cons; [apply flt_le; exact C1|]. apply wnonneg_cons; [|apply wnonneg_nil].
        replace (c - b * b / (4 * a)) with ((4 * a * c - b * b) / (4 * a)) by (field; fnz).
        apply fdiv_nonneg; [|exact H4]. apply flt_le in C2. apply (proj1 (fle_sub _ _)) in C2.
        replace (4 * a * c - b * b) with (0 - (b * b - 4 * a * c)) by ring. exact C2.
      * apply wnonneg_nil.
      * intro x. rewrite HE. cbn. unfold weval. cbn. field. fnz.
    + destruct ((0 <? a) && (0 <=? b) && (0 <=? c))%bool eqn:D; [|discriminate].
      apply andb_true_iff in D. destruct D as [D D3]. apply andb_true_iff in D. destruct D as [D1 D2].
      apply fltb_lt in D1. apply fleb_le in D2. apply fleb_le in D3. inversion H; subst. split; [|split]; cbn [fst snd].
      * apply wnonneg_cons; [apply flt_le; exact D1|]. apply wnonneg_cons; [exact D3|apply wnonneg_nil].
      * apply wnonneg_cons; [exact D2|apply wnonneg_nil].
      * intro x. rewrite HE. cbn. unfold weval. cbn. ring.
Qed.

Lemma all_nonneg_spec l : all_nonneg l = true -> forall c, In c l -> 0 <= c.
Proof. unfold all_nonneg. rewrite forallb_forall. intros H c Hc. apply fleb_le, H, Hc. Qed.
Lemma ueval_mono k x : ueval (repeat (0 : K) k ++ [1]) x = x ^ k.
Proof. induction k as [|k IH]; cbn [repeat app]; rewrite ueval_cons; [rewrite ueval_nil; cbn; ring|]. rewrite IH. cbn. ring. Qed.

Lemma trivial_parts_spec f : forall i, (forall c, In c f -> 0 <= c) ->
  wnonneg (fst (trivial_parts i f)) /\ wnonneg (snd (trivial_parts i f)) /\
  forall x, x ^ i * ueval f x = weval (fst (trivial_parts i f)) x + x * weval (snd (trivial_parts i f)) x.
Proof.
  induction f as [|c f IH]; intros i H; cbn [trivial_parts].
  - cbn [fst snd]. split; [apply wnonneg_nil|]. split; [apply wnonneg_nil|]. intro x. rewrite ueval_nil, !weval_nil. ring.
  - destruct (IH (S i)) as [I1 [I2 I3]]; [intros; apply H; right; assumption|].
    destruct (trivial_parts (S i) f) as [p q] eqn:E. cbn [fst snd] in I1, I2, I3.
    destruct (c =? 0) eqn:C; [|destruct (Nat.even i) eqn:Ev]; cbn [fst snd].
    + apply feqb_eq in C. subst c. repeat split; try assumption. intro x. rewrite <- I3, ueval_cons. cbn [fpow]. ring.
    + repeat split; [apply wnonneg_cons; [apply H; left; reflexivity|exact I1]|exact I2|].
      intro x. rewrite weval_cons. cbn [fst snd]. rewrite ueval_mono, ueval_cons.
      replace (x ^ i) with (x ^ (i / 2) * x ^ (i / 2)) by (rewrite <- fpow_add; f_equal; pose proof (even_half i Ev); lia).
      specialize (I3 x). replace (x ^ S i) with (x * (x ^ (i / 2) * x ^ (i / 2))) in I3
        by (rewrite <- fpow_add; change (x ^ S i) with (x * x ^ i); do 2 f_equal; pose proof (even_half i Ev); lia).
      transitivity (c * (x ^ (i / 2) * x ^ (i / 2)) + x * (x ^ (i / 2) * x ^ (i / 2)) * ueval f x); [ring|]. rewrite I3. ring.
    + repeat split; [exact I1|apply wnonneg_cons; [apply H; left; reflexivity|exact I2]|].
      intro x. rewrite weval_cons. cbn [fst snd]. rewrite ueval_mono, ueval_cons.
      assert (Ei : x ^ i = x * (x ^ (i / 2) * x ^ (i / 2))).
      { rewrite <- fpow_add. pose proof (odd_half i Ev) as Ho. rewrite Ho at 1. rewrite Nat.add_1_r. cbn [fpow]. do 2 f_equal. lia. }
      specialize (I3 x). change (x ^ S i) with (x * x ^ i) in I3.
      transitivity (c * x ^ i + x * x ^ i * ueval f x); [ring|]. rewrite I3, Ei. ring.
Qed.

Lemma all_coeffs_In f c : In c (strip f) -> In c (all_coeffs f).
Proof. unfold all_coeffs. destruct (strip f); [intros []|]. intro H. apply in_rev in H. exact H. Qed.
Lemma strip_all_nonneg f : (forall c, In c (strip f) -> 0 <= c) -> forall c, In c f -> 0 <= c.
Proof.
  induction f as [|a f IH]; intros H c Hc; [destruct Hc|]. rewrite strip_cons in H. destruct (strip f) as [|b r] eqn:E.
  - assert (Hf : forall c, In c f -> 0 <= c) by (apply IH; intros ? []).
    destruct Hc as [<-|Hc]; [|apply Hf; exact Hc]. destruct (a =? 0) eqn:A; [apply feqb_eq in A; subst; apply fle_refl|apply H; left; reflexivity].
  - destruct Hc as [<-|Hc]; [apply H; left; reflexivity|]. apply IH; [intros; apply H; right; assumption|exact Hc].
Qed.

(** the sizes of the numerically built matrices fit the polynomial *)
Definition aligned (rds : list (K -> K)) (nm : numerics K) f : Prop :=
  (0 < dim0 nm)%nat /\
  if no_real_root nm then (2 * dim0 nm - 1 <= length (all_coeffs f))%nat
  else (0 < dim1 nm)%nat /\
    forall rd, In rd rds ->
      (2 * dim0 nm - 1 <= length (all_coeffs (minor_rest (dim1 nm) (rationalize rd false (mat1 nm)) f)))%nat.

Lemma rationalize_full_sym rd M n : gsym n (rationalize rd false M).
Proof. intros i j _ _. unfold rationalize. cbn [andb]. rewrite Nat.min_comm, Nat.max_comm. reflexivity. Qed.
Lemma rationalize_far_sym rd M a b : far a b -> rationalize rd true M a b = rationalize rd true M b a.
Proof.
  intro H. unfold far in H. unfold rationalize. cbn [andb].
  replace (Nat.max a b <? Nat.min a b + 2)%nat with false by (symmetry; apply Nat.ltb_ge; lia).
  rewrite (Nat.max_comm b a), (Nat.min_comm b a).
  replace (Nat.max a b <? Nat.min a b + 2)%nat with false by (symmetry; apply Nat.ltb_ge; lia). reflexivity.
Qed.

Lemma minor_rest_eval n1 M1 f x : (0 < n1)%nat -> gsym n1 M1 -> ueval (minor_rest n1 M1 f) x = ueval f x - x * gform n1 M1 x.
Proof.
  intros Hn Hs. unfold minor_rest. rewrite ueval_usub, rev_app_distr. cbn [rev app]. rewrite ueval_cons, (gform_minor n1 M1 x Hn Hs). ring.
Qed.

Lemma irr_loop_sound rds positive nm f pq : positive = negb (no_real_root nm) -> forall rds',
  (forall rd, In rd rds' -> In rd rds) -> aligned rds nm f ->
  irr_loop rds' positive nm f = Ok (Some pq) -> proves pq f.
Proof.
  intros Hpos rds'. induction rds' as [|rd rds' IH]; intros Hsub Hal H; cbn [irr_loop] in H; [discriminate|].
  assert (Hsub' : forall r, In r rds' -> In r rds) by (intros; apply Hsub; right; assumption).
  destruct Hal as [Hd0 Hal]. destruct positive.
  - destruct (no_real_root nm) eqn:En; [discriminate|]. destruct Hal as [Hd1 Hal].
    unfold determine_diagonal2 in H.
    destruct (determine_diagonal (dim0 nm) (rationalize rd true (mat0 nm)) (minor_rest (dim1 nm) (rationalize rd false (mat1 nm)) f)) as [M0|] eqn:D; [|discriminate].
    apply determine_exact_lemma in D; [|exact Hd0|intros a b _ _; apply rationalize_far_sym|apply Hal, Hsub; left; reflexivity].
    destruct D as [D1 [D2 _]].
    destruct (accept (dim1 nm) (rationalize rd false (mat1 nm))) as [[q|]|] eqn:A1; try discriminate.
    + destruct (accept (dim0 nm) M0) as [[p|]|] eqn:A0; try discriminate.
      * apply Ok_inj in H. inversion H; subst pq. apply accept_sound in A1; [|apply rationalize_full_sym].
        apply accept_sound in A0; [|exact D1]. destruct A1 as [A1 B1]. destruct A0 as [A0 B0].
        split; [exact A0|]. split; [exact A1|]. intro x. cbn [fst snd]. rewrite B0, B1, D2.
        rewrite minor_rest_eval by (try exact Hd1; apply rationalize_full_sym). ring.
      * apply IH; [exact Hsub'| |exact H]. split; [exact Hd0|]. rewrite En. split; [exact Hd1|exact Hal].
    + apply IH; [exact Hsub'| |exact H]. split; [exact Hd0|]. rewrite En. split; [exact Hd1|exact Hal].
  - destruct (no_real_root nm) eqn:En; [|discriminate].
    destruct (determine_diagonal (dim0 nm) (rationalize rd true (mat0 nm)) f) as [M0|] eqn:D; [|discriminate].
    apply determine_exact_lemma in D; [|exact Hd0|intros a b _ _; apply rationalize_far_sym|exact Hal].
    destruct D as [D1 [D2 _]].
    destruct (accept (dim0 nm) M0) as [[p|]|] eqn:A0; try discriminate.
    + apply Ok_inj in H. inversion H; subst pq. apply accept_sound in A0; [|exact D1]. destruct A0 as [A0 B0].
      split; [exact A0|]. split; [apply wnonneg_nil|]. intro x. cbn [fst snd]. rewrite B0, D2, weval_nil. ring.
    + apply IH; [exact Hsub'| |exact H]. split; [exact Hd0|]. rewrite En. exact Hal.
Qed.

Lemma prove_irreducible_sound rds nm f pq : aligned rds nm f -> prove_irreducible rds nm f = Ok (Some pq) -> proves pq f.
Proof.
  intros Hal H. unfold prove_irreducible in H. destruct (ulc f <? 0); [discriminate|].
  destruct (length (strip f) <=? 3)%nat; [apply Ok_inj in H; apply prove_simple_sound; exact H|].
  destruct (pos_root nm); [discriminate|].
  destruct (negb (no_real_root nm) && all_nonneg (all_coeffs f))%bool eqn:C.
  - apply Ok_inj in H. inversion H; subst. apply andb_true_iff in C. destruct C as [_ C].
    pose proof (trivial_parts_spec f 0) as T. destruct T as [T1 [T2 T3]].
    + apply strip_all_nonneg. intros c Hc. eapply all_nonneg_spec; [exact C|]. apply all_coeffs_In. exact Hc.
    + split; [exact T1|]. split; [exact T2|]. intro x. rewrite <- T3. cbn. ring.
  - eapply irr_loop_sound; [reflexivity| |exact Hal|exact H]. auto.
Qed.

(** ** Reduction *)
Lemma max_deg_ge w n : max_deg w = Some n -> forall t, In t w -> (length (strip (snd t)) <= S n)%nat.
Proof.
  unfold max_deg.
  assert (Hg : forall w a n, fold_left (fun a t => match a, udeg (snd t) with None, d => d | Some x, None => Some x | Some x, Some y => Some (Nat.max x y) end) w a = Some n ->
    (forall m, a = Some m -> (m <= n)%nat) /\ forall t, In t w -> (length (strip (snd t)) <= S n)%nat).
  { clear. induction w as [|[c p] w IH]; intros a n H; cbn [fold_left snd] in H.
    - subst. split; [intros m E; inversion E; lia|intros t []].
    - apply IH in H. destruct H as [H1 H2].
      assert (Hd : forall d, udeg p = Some d -> (d <= n)%nat).
      { intros d Ed. rewrite Ed in H1. destruct a as [x|]; [specialize (H1 _ eq_refl); lia|apply H1; reflexivity]. }
      split.
      + intros m ->. destruct (udeg p); [specialize (H1 _ eq_refl); lia|apply H1; reflexivity].
      + intros t [<-|Ht]; [|apply H2; exact Ht]. cbn [snd]. unfold udeg in Hd. destruct (strip p); [cbn; lia|].
        specialize (Hd _ eq_refl). cbn [length pred] in *. lia. }
  intros H. apply Hg in H. apply H.
Qed.

Lemma gram_fold n w : forall M a b, fold_left (gram_add n) w M a b
  = M a b + fsum (map (fun t => fst t * vget (strip (snd t)) (n - a) * vget (strip (snd t)) (n - b)) w).
Proof.
  induction w as [|t w IH]; intros M a b; cbn [fold_left map fsum fold_right]; [ring|]. rewrite IH. unfold gram_add, fsum. ring.
Qed.

Lemma bsum_fsum_map {A} n (f : nat -> A -> K) (l : list A) : bsum n (fun i => fsum (map (f i) l)) = fsum (map (fun t => bsum n (fun i => f i t)) l).
Proof.
  induction l as [|t l IH]; cbn [map fsum fold_right]; [apply bsum_0|].
  rewrite <- IH, <- bsum_add. reflexivity.
Qed.

Lemma gram_gform n w x : (forall t, In t w -> (length (strip (snd t)) <= S n)%nat) ->
  gform (S n) (fold_left (gram_add n) w (fun _ _ => 0)) x = weval w x.
Proof.
  intro H. unfold gform. rewrite Nat.sub_succ, Nat.sub_0_r.
  transitivity (bsum (S n) (fun i => fsum (map (fun t => bsum (S n) (fun j => x ^ (n - i) * (fst t * vget (strip (snd t)) (n - i) * vget (strip (snd t)) (n - j)) * x ^ (n - j))) w))).
  - apply bsum_ext. intros i Hi. rewrite <- bsum_fsum_map. apply bsum_ext. intros j Hj. rewrite gram_fold.
    match goal with |- context [?z + fsum ?l] => replace (z + fsum l) with (fsum l) by ring end.
    rewrite <- fsum_map_mul_l, <- ?fsum_map_mul_r. apply fsum_map_ext. intros; ring.
  - rewrite bsum_fsum_map. unfold weval. apply fsum_map_ext. intros [c p] Hin. cbn [fst snd].
    pose proof (H _ Hin) as Hl. cbn [snd] in Hl.
    assert (E : ueval p x = bsum (S n) (fun i => vget (strip p) (n - i) * x ^ (n - i))).
    { rewrite <- ueval_strip, (ueval_bsum (strip p) (S n) x Hl), bsum_rev. apply bsum_ext. intros i Hi.
      rewrite Nat.sub_succ, Nat.sub_0_r. reflexivity. }
    rewrite E, bsum_fprod_prod, <- bsum_mul_l. apply bsum_ext. intros i Hi. rewrite <- bsum_mul_l.
    apply bsum_ext. intros j Hj. ring.
Qed.

Lemma weval_filter w x : weval (filter (fun t => negb (fst t =? 0)) w) x = weval w x.
Proof.
  induction w as [|t w IH]; [reflexivity|]. cbn [filter]. destruct (fst t =? 0) eqn:E; cbn [negb].
  - rewrite weval_cons, IH. apply feqb_eq in E. rewrite E. ring.
  - rewrite !weval_cons, IH. reflexivity.
Qed.

Lemma gram_sym n w : gsym (S n) (fold_left (gram_add n) w (fun _ _ => 0)).
Proof. intros i j _ _. rewrite !gram_fold. f_equal. apply fsum_map_ext. intros; ring. Qed.

Lemma reduce_sound w w' : reduce_sos w = Ok w' -> wnonneg w' /\ forall x, weval w' x = weval w x.
Proof.
  unfold reduce_sos. intro H. destruct w as [|t w]; [apply Ok_inj in H; subst; split; [apply wnonneg_nil|reflexivity]|].
  destruct (max_deg (t :: w)) as [n|] eqn:E; [|discriminate].
  destruct (congruence _) as [[[U Sv]|]|] eqn:C; try discriminate. apply Ok_inj in H. subst w'.
  apply congruence_wsos in C; [|apply gram_sym]. destruct C as [C1 C2]. split.
  - intros s Hs. apply filter_In in Hs. apply C1. apply Hs.
  - intro x. rewrite weval_filter, C2. apply gram_gform. apply max_deg_ge. exact E.
Qed.

(** the reduction never fails on non-negative weights unless all the squares are of the zero polynomial *)
Lemma reduce_complete w : wnonneg w -> (w = [] \/ exists t, In t w /\ udeg (snd t) <> None) -> exists w', reduce_sos w = Ok w'.
Proof.
  intros Hw He. unfold reduce_sos. destruct w as [|t w]; [eexists; reflexivity|].
  destruct (max_deg (t :: w)) as [n|] eqn:E.
  - set (M := fold_left (gram_add n) (t :: w) (fun _ _ => 0)).
    assert (Hne : mtab (S n) (S n) M <> []) by (intro Hc; apply (f_equal (@length _)) in Hc; rewrite mtab_length in Hc; discriminate).
    rewrite (congruence_nonempty K _ Hne). destruct (cong_loop _ _) as [[U Sv]|] eqn:C; [eexists; reflexivity|].
    exfalso. assert (Hc : congruence (mtab (S n) (S n) M) = Ok None) by (rewrite (congruence_nonempty K _ Hne), C; reflexivity).
    apply congruence_none_lemma in Hc; [|exact Hne|].
    + destruct Hc as [y Hy]. rewrite mtab_length in Hy. apply flt_not_le in Hy. apply Hy. unfold qform.
      rewrite (bsum_ext _ (S n) _ (fun i => fsum (map (fun s => bsum (S n) (fun j => y i * (fst s * vget (strip (snd s)) (n - i) * vget (strip (snd s)) (n - j)) * y j)) (t :: w)))).
      * rewrite bsum_fsum_map. apply fsum_nonneg. intros z Hz. apply in_map_iff in Hz. destruct Hz as [s [<- Hs]].
        replace (bsum (S n) (fun i => bsum (S n) (fun j => y i * (fst s * vget (strip (snd s)) (n - i) * vget (strip (snd s)) (n - j)) * y j)))
          with (fst s * (bsum (S n) (fun i => y i * vget (strip (snd s)) (n - i)) * bsum (S n) (fun i => y i * vget (strip (snd s)) (n - i)))).
        -- apply fmul_nonneg; [apply Hw; exact Hs|apply fsqr_nonneg].
        -- rewrite bsum_fprod_prod, <- bsum_mul_l. apply bsum_ext. intros i _. rewrite <- bsum_mul_l. apply bsum_ext. intros j _. ring.
      * intros i Hi. rewrite <- bsum_fsum_map. apply bsum_ext. intros j Hj. rewrite mget_mtab by assumption. unfold M. rewrite gram_fold.
        match goal with |- context [?z + fsum ?l] => replace (z + fsum l) with (fsum l) by ring end.
        rewrite <- fsum_map_mul_l, <- fsum_map_mul_r. apply fsum_map_ext. intros; ring.
    + rewrite mtab_length. intros i j Hi Hj. rewrite !mget_mtab by assumption. apply gram_sym; assumption.
  - exfalso. destruct He as [He|[s [Hs Hd]]]; [discriminate|]. unfold max_deg in E.
    assert (Hg : forall w a, fold_left (fun a t => match a, udeg (snd t) with None, d => d | Some x, None => Some x | Some x, Some y => Some (Nat.max x y) end) w a = None ->
      a = None /\ forall t, In t w -> udeg (snd t) = None).
    { clear. induction w as [|[c p] w IH]; intros a H; cbn [fold_left] in H; [split; [exact H|intros t []]|].
      apply IH in H. destruct H as [H1 H2]. cbn [snd] in H1.
      destruct a as [x|]; [destruct (udeg p); discriminate|]. split; [reflexivity|].
      intros t [<-|Ht]; [exact H1|apply H2; exact Ht]. }
    apply Hg in E. destruct E as [_ E]. apply Hd, E, Hs.
Qed.

(** ** Products *)
Lemma cross_mul_nonneg w1 w2 mul : wnonneg w1 -> wnonneg w2 -> wnonneg (cross_mul w1 w2 mul).
Proof.
  intros H1 H2 t Ht. unfold cross_mul in Ht. apply in_flat_map in Ht. destruct Ht as [s [Hs Ht]].
  apply in_map_iff in Ht. destruct Ht as [r [<- Hr]]. cbn [fst]. apply fmul_nonneg; auto.
Qed.
Lemma cross_mul_eval w1 w2 mul x : weval (cross_mul w1 w2 mul) x = ueval mul x * ueval mul x * (weval w1 x * weval w2 x).
Proof.
  induction w1 as [|s w1 IH]; unfold cross_mul in *; cbn [flat_map].
  - rewrite !weval_nil. ring.
  - rewrite weval_app, weval_cons, IH. clear IH.
    assert (E : weval (map (fun t => (fst s * fst t, umul (umul mul (snd s)) (snd t))) w2) x
       = ueval mul x * ueval mul x * (fst s * (ueval (snd s) x * ueval (snd s) x)) * weval w2 x).
    { induction w2 as [|t w2 IH]; cbn [map]; [rewrite !weval_nil; ring|]. rewrite !weval_cons, IH. cbn [fst snd].
      rewrite !ueval_umul. ring. }
    rewrite E. ring.
Qed.

Lemma merge_sound pq m r f g : proves pq f -> proves m g -> merge pq m = Ok r -> proves r (umul f g).
Proof.
  destruct pq as [p1 p2], m as [c1 cx]. intros [P1 [P2 P3]] [Q1 [Q2 Q3]] H. cbn [fst snd] in *. unfold merge in H.
  destruct (reduce_sos (cross_mul p1 c1 [1] ++ cross_mul p2 cx [0; 1])) as [p|] eqn:R1; [|discriminate].
  destruct (reduce_sos (cross_mul p2 c1 [1] ++ cross_mul p1 cx [1])) as [q|] eqn:R2; [|discriminate].
  apply Ok_inj in H. subst r. apply reduce_sound in R1. apply reduce_sound in R2. destruct R1 as [R1 S1]. destruct R2 as [R2 S2].
  split; [exact R1|]. split; [exact R2|]. intro x. cbn [fst snd].
  rewrite ueval_umul, P3, Q3, S1, S2, !weval_app, !cross_mul_eval, !ueval_cons, !ueval_nil. ring.
Qed.

Lemma merge_all_sound ms : forall pq r f gs, proves pq f -> Forall2 proves ms gs -> merge_all pq ms = Ok r ->
  proves r (fold_left umul gs f).
Proof.
  induction ms as [|m ms IH]; intros pq r f gs Hp Hf H; inversion Hf; subst; cbn [merge_all fold_left] in *.
  - apply Ok_inj in H. subst. exact Hp.
  - destruct (merge pq m) as [pq'|] eqn:E; [|discriminate]. eapply IH; [|eassumption|exact H]. eapply merge_sound; eassumption.
Qed.

Lemma ueval_fold_umul gs : forall f x, ueval (fold_left umul gs f) x = ueval f x * fprod (map (fun g => ueval g x) gs).
Proof.
  induction gs as [|g gs IH]; intros f x; cbn [fold_left map fprod fold_right]; [ring|]. rewrite IH, ueval_umul. unfold fprod. ring.
Qed.

Lemma proves_square g k : proves ([(1, upow g k)], []) (upow (umul g g) k).
Proof.
  split; [apply wnonneg_cons; [apply f1_nonneg|apply wnonneg_nil]|]. split; [apply wnonneg_nil|]. intro x. cbn [fst snd].
  rewrite weval_cons, !weval_nil. cbn [fst snd]. rewrite !ueval_upow, ueval_umul, fpow_mul_l. ring.
Qed.


Lemma factor_proofs_sound rds num fs : forall ms, 
  (forall g m, In (g, m) fs -> aligned rds (num g) g) ->
  factor_proofs rds num fs = Ok (Some ms) ->
  exists gs, Forall2 proves ms gs /\ forall x, fprod (map (fun g => ueval g x) gs) = fprod (map (fun gm => ueval (fst gm) x ^ snd gm) fs).
Proof.
  induction fs as [|[g m] fs IH]; intros ms Hal H; cbn [factor_proofs] in H.
  - apply Ok_inj in H. inversion H; subst. exists []. split; [constructor|reflexivity].
  - assert (Hal' : forall g m, In (g, m) fs -> aligned rds (num g) g) by (intros g' m' Hin; apply (Hal g' m'); right; exact Hin).
    destruct (Nat.even m) eqn:Ev.
    + destruct (factor_proofs rds num fs) as [[r|]|] eqn:E; try discriminate. apply Ok_inj in H. inversion H; subst.
      destruct (IH r Hal' eq_refl) as [gs [G1 G2]]. exists (upow (umul g g) (m / 2) :: gs). split; [constructor; [apply proves_square|exact G1]|].
      intro x. cbn [map fprod fold_right fst snd]. rewrite G2, ueval_upow, ueval_umul.
      f_equal. rewrite fpow_mul_l, <- fpow_add. f_equal. pose proof (even_half m Ev). lia.
    + destruct (prove_irreducible rds (num g) g) as [[ret|]|] eqn:P; try discriminate.
      destruct (factor_proofs rds num fs) as [[r|]|] eqn:E; try discriminate. apply Ok_inj in H. inversion H; subst. clear H.
      destruct (IH r Hal' eq_refl) as [gs [G1 G2]]. apply prove_irreducible_sound in P; [|apply (Hal g m); left; reflexivity].
      pose proof (odd_half m Ev) as Hm.
      destruct (1 <? m)%nat eqn:L.
      * exists (upow (umul g g) (m / 2) :: g :: gs). split; [constructor; [apply proves_square|constructor; assumption]|].
        intro x. cbn [map fprod fold_right fst snd]. rewrite G2, ueval_upow, ueval_umul.
        rewrite Hm at 2. rewrite Nat.add_1_r. cbn [fpow]. replace (2 * (m / 2))%nat with (m / 2 + m / 2)%nat by lia. rewrite fpow_add, fpow_mul_l. ring.
      * exists (g :: gs). split; [constructor; assumption|]. intro x. cbn [map fprod fold_right fst snd].
        rewrite G2. apply Nat.ltb_ge in L. replace m with 1%nat by lia. cbn [fpow]. ring.
Qed.

(** ** The main theorem *)
Definition factors_to (fl : K * list (list K * nat)) f : Prop :=
  forall x, ueval f x = fst fl * fprod (map (fun gm => ueval (fst gm) x ^ snd gm) (snd fl)).

Lemma prove_univariate_sound rds num fl f pq :
  factors_to fl f -> (forall g m, In (g, m) (snd fl) -> aligned rds (num g) g) ->
  prove_univariate rds num fl = Ok (Some pq) -> proves pq f.
Proof.
  destruct fl as [lc fs]. intros Hf Hal H. unfold prove_univariate in H. destruct (lc <? 0) eqn:L; [discriminate|]. apply fltb_ge in L.
  destruct (factor_proofs rds num fs) as [[ms|]|] eqn:E; try discriminate.
  destruct (merge_all ([(lc, [1])], []) ms) as [r|] eqn:Mg; [|discriminate]. apply Ok_inj in H. inversion H; subst.
  destruct (factor_proofs_sound rds num fs ms Hal E) as [gs [G1 G2]].
  assert (P0 : proves ([(lc, [1])], []) [lc]).
  { split; [apply wnonneg_cons; [exact L|apply wnonneg_nil]|]. split; [apply wnonneg_nil|]. intro x. cbn [fst snd]. unfold weval. cbn. ring. }
  pose proof (merge_all_sound ms _ _ _ gs P0 G1 Mg) as [R1 [R2 R3]].
  split; [exact R1|]. split; [exact R2|]. intro x. rewrite <- R3, ueval_fold_umul, G2, (Hf x). cbn [fst snd]. rewrite ueval_cons, ueval_nil. ring.
Qed.

(** ** Intervals *)
Definition ieval (pr : iproof K) (x : K) : K := fsum (map (fun mw => ueval (fst mw) x * weval (snd mw) x) pr).

Lemma normalise_eval pr x : ieval (normalise_signs pr) x = ieval pr x.
Proof.
  unfold ieval, normalise_signs. rewrite map_map. apply fsum_map_ext. intros [m w] _. cbn [fst snd]. f_equal.
  unfold weval. rewrite map_map. apply fsum_map_ext. intros [c p] _. cbn [fst snd]. destruct (ulc p <? 0); [|reflexivity].
  rewrite ueval_uscale. ring.
Qed.
Lemma normalise_shape pr : map fst (normalise_signs pr) = map fst pr.
Proof. unfold normalise_signs. rewrite map_map. reflexivity. Qed.
Lemma normalise_nonneg pr : (forall mw, In mw pr -> wnonneg (snd mw)) -> forall mw, In mw (normalise_signs pr) -> wnonneg (snd mw).
Proof.
  intros H mw Hin t Ht. unfold normalise_signs in Hin. apply in_map_iff in Hin. destruct Hin as [mw' [<- Hin]]. cbn [snd] in Ht.
  apply in_map_iff in Ht. destruct Ht as [t' [<- Ht]]. cbn [fst]. exact (H mw' Hin t' Ht).
Qed.

Lemma udeg0_strip p : (length (strip p) <= S (udeg0 p))%nat.
Proof. unfold udeg0, udeg. destruct (strip p); cbn; lia. Qed.
Lemma transform_eval f p q x : ueval q x <> 0 ->
  ueval (utransform (udeg0 f) (strip f) p q) x = ueval q x ^ udeg0 f * ueval f (ueval p x / ueval q x).
Proof. intro H. rewrite ueval_utransform by (try exact H; apply udeg0_strip). rewrite ueval_strip. reflexivity. Qed.
Lemma transform1_eval f p x : ueval (utransform (udeg0 f) (strip f) p [1]) x = ueval f (ueval p x).
Proof.
  rewrite transform_eval; rewrite ?ueval_cons, ?ueval_nil.
  - replace (1 + x * 0) with (1 : K) by ring. rewrite fpow_1. replace (ueval p x / 1) with (ueval p x) by (field; apply fneq10). ring.
  - replace (1 + x * 0) with (1 : K) by ring. apply fneq10.
Qed.

Lemma weval_map_back w p x :
  weval (map (fun t => (fst t, utransform (udeg0 (snd t)) (strip (snd t)) p [1])) w) x = weval w (ueval p x).
Proof.
  unfold weval. rewrite map_map. apply fsum_map_ext. intros t _. cbn [fst snd]. rewrite transform1_eval. reflexivity.
Qed.
Lemma wnonneg_map_back w (g : list K -> list K) : wnonneg w -> wnonneg (map (fun t => (fst t, g (snd t))) w).
Proof. intros H t Ht. apply in_map_iff in Ht. destruct Ht as [t' [<- Ht]]. cbn [fst]. apply H. exact Ht. Qed.

(** agreement away from one point is agreement *)
Lemma ueval_off_point (l1 l2 : list K) b : (forall x, x <> b -> ueval l1 x = ueval l2 x) -> forall x, ueval l1 x = ueval l2 x.
Proof.
  intro H. set (l := usub l1 l2). assert (Hz : forall c, In c l -> c = 0).
  { apply (roots_zero K (length l) l (map (fun i => b + 1 + fnat i) (seq 0 (length l)))).
    - apply le_n.
    - rewrite map_length, seq_length. reflexivity.
    - apply FinFun.Injective_map_NoDup; [|apply seq_NoDup]. intros i j E. apply (fnat_inj K).
      apply fsub_eq0. replace (fnat i - fnat j) with ((b + 1 + fnat i) - (b + 1 + fnat j)) by ring. rewrite E. ring.
    - intros r Hr. apply in_map_iff in Hr. destruct Hr as [i [<- _]]. unfold l. rewrite ueval_usub, H; [ring|].
      intro E. assert (Hp : 0 < 1 + (fnat i : K)) by (apply fadd_pos_l; [apply f1_pos|apply fnat_nonneg]).
      apply flt_neq0 in Hp. apply Hp. replace (1 + fnat i) with ((b + 1 + fnat i) - b) by ring. rewrite E. ring. }
  intro x. apply fsub_eq0. rewrite <- ueval_usub. fold l. clearbody l. clear H. induction l as [|c l IH]; [reflexivity|].
  rewrite ueval_cons, IH by (intros; apply Hz; right; assumption). rewrite (Hz c (or_introl eq_refl)). ring.
Qed.

(** a certificate as a coefficient list *)
Definition wpoly w : list K := fold_right (fun t a => uadd (uscale (fst t) (umul (snd t) (snd t))) a) [] w.
Lemma wpoly_eval w x : ueval (wpoly w) x = weval w x.
Proof.
  induction w as [|t w IH]; [reflexivity|]. rewrite weval_cons, <- IH. cbn [wpoly fold_right].
  change (fold_right (fun t a => uadd (uscale (fst t) (umul (snd t) (snd t))) a) [] w) with (wpoly w).
  rewrite ueval_uadd, ueval_uscale, ueval_umul. reflexivity.
Qed.
Definition ipoly (pr : iproof K) : list K := fold_right (fun mw a => uadd (umul (fst mw) (wpoly (snd mw))) a) [] pr.
Lemma ipoly_eval pr x : ueval (ipoly pr) x = ieval pr x.
Proof.
  induction pr as [|mw pr IH]; [reflexivity|]. unfold ieval in *. cbn [map fsum fold_right ipoly].
  change (fold_right (fun mw a => uadd (umul (fst mw) (wpoly (snd mw))) a) [] pr) with (ipoly pr).
  rewrite ueval_uadd, ueval_umul, wpoly_eval, IH. reflexivity.
Qed.

Lemma back_wsos_spec a b e dn w w' x : back_wsos a b e dn w = Ok w' -> b - x <> 0 -> dn <> 0 ->
  weval w' x * dn = (b - x) ^ e * (b - x) ^ e * weval w ((x - a) / (b - x)).
Proof.
  intros H Hx Hd. revert w' H. induction w as [|[c p] w IH]; intros w' H; cbn [back_wsos] in H.
  - apply Ok_inj in H. subst. rewrite !weval_nil. ring.
  - destruct (back_poly a b e p) as [p'|] eqn:B; [|discriminate].
    destruct (back_wsos a b e dn w) as [r|] eqn:E; [|discriminate]. apply Ok_inj in H. subst.
    rewrite !weval_cons. cbn [fst snd]. specialize (IH r eq_refl).
    assert (Ep : ueval p' x = (b - x) ^ e * ueval p ((x - a) / (b - x))).
    { unfold back_poly in B. destruct (udeg0 p <=? e)%nat eqn:L; [|discriminate]. inversion B; subst p'. apply Nat.leb_le in L.
      assert (Eq : ueval [b; - (1)] x = b - x) by (cbn; ring).
      assert (Er : ueval [- a; 1] x = x - a) by (cbn; ring).
      rewrite ueval_umul, ueval_upow, transform_eval by (rewrite Eq; exact Hx).
      rewrite Eq, Er. replace e with (udeg0 p + (e - udeg0 p))%nat at 2 by lia. rewrite fpow_add. ring. }
    rewrite Ep. transitivity (c * ((b - x) ^ e * ueval p ((x - a) / (b - x)) * ((b - x) ^ e * ueval p ((x - a) / (b - x)))) + weval r x * dn); [field; exact Hd|].
    rewrite IH. ring.
Qed.
Lemma back_wsos_nonneg a b e dn w w' : 0 < dn -> wnonneg w -> back_wsos a b e dn w = Ok w' -> wnonneg w'.
Proof.
  intros Hd Hw. revert w'. induction w as [|[c p] w IH]; intros w' H; cbn [back_wsos] in H.
  - apply Ok_inj in H. subst. apply wnonneg_nil.
  - destruct (back_poly a b e p) as [p'|]; [|discriminate].
    destruct (back_wsos a b e dn w) as [r|]; [|discriminate]. apply Ok_inj in H. subst. apply wnonneg_cons.
    + apply fdiv_nonneg; [apply (Hw (c, p)); left; reflexivity|exact Hd].
    + apply IH; [intros t Ht; apply Hw; right; exact Ht|reflexivity].
Qed.

(** the documented multipliers (univariate.py:744-747) *)
Definition interval_multipliers (n : nat) (lo hi : option K) : list (list K) :=
  match lo, hi with
  | None, None => [[1]; [0; 1]]
  | Some a, None => [[1]; [- a; 1]]
  | None, Some b => [[1]; [b; - (1)]]
  | Some a, Some b => if Nat.even n then [[1]; umul [- a; 1] [b; - (1)]] else [[b; - (1)]; [- a; 1]]
  end.

Lemma prove_interval_sound rds num fl f lo hi pr :
  (forall g, factors_to (fl g) g) -> (forall g h m, In (h, m) (snd (fl g)) -> aligned rds (num h) h) ->
  prove_interval rds num fl f lo hi = Ok (Some pr) ->
  map fst pr = interval_multipliers (udeg0 f) lo hi /\
  (forall mw, In mw pr -> wnonneg (snd mw)) /\
  (forall x, ueval f x = ieval pr x) /\
  (lo = None -> hi = None -> snd (nth 1 pr ([], [])) = []).
Proof.
  intros Hfl Hal H. unfold prove_interval in H.
  assert (PU : forall g pq, prove_univariate rds num (fl g) = Ok (Some pq) -> proves pq g).
  { intros g pq Hp. eapply prove_univariate_sound; [apply Hfl|apply Hal|exact Hp]. }
  destruct lo as [a|], hi as [b|].
  - (* [a, b] *)
    destruct (b - a <=? 0) eqn:Ed; [discriminate|]. apply fleb_gt in Ed.
    assert (Hd : 0 < b - a) by exact Ed. clear Ed.
    set (n := udeg0 f) in *.
    destruct (prove_univariate rds num (fl (utransform n (strip f) [a; b] [1; 1]))) as [[[p q]|]|] eqn:P; try discriminate.
    apply PU in P. destruct P as [P1 [P2 P3]]. cbn [fst snd] in P1, P2, P3.
    set (bk := back_part a b n) in *.
    destruct (bk (if Nat.even n then 0 else 1)%nat p) as [p'|] eqn:B1; [|discriminate].
    destruct (bk (if Nat.even n then 2 else 1)%nat q) as [q'|] eqn:B2; [|discriminate].
    apply Ok_inj, Some_inj in H. subst pr.
    assert (Hdn : 0 < (b - a) ^ n) by (apply fpow_pos; exact Hd).
    assert (Hbk : forall md w w', Nat.even (n - md) = true -> bk md w = Ok w' -> (forall t, In t w -> 0 <= fst t) ->
       wnonneg w' /\ forall x, b - x <> 0 -> weval w' x * (b - x) ^ md * (b - a) ^ n = (b - x) ^ n * weval w ((x - a) / (b - x))).
    { intros md w w' Hev Hb Hw. unfold bk, back_part in Hb. destruct (Nat.ltb_spec n md) as [Hlt|Hge].
      - destruct w; [|discriminate]. apply Ok_inj in Hb. subst. split; [apply wnonneg_nil|]. intros x Hx. rewrite !weval_nil. ring.
      - split; [eapply back_wsos_nonneg; eassumption|]. intros x Hx.
        pose proof (back_wsos_spec _ _ _ _ _ _ x Hb Hx (flt_neq0 Hdn)) as E.
        transitivity (weval w' x * (b - a) ^ n * (b - x) ^ md); [ring|]. rewrite E.
        replace n with ((n - md) / 2 + (n - md) / 2 + md)%nat at 3 by (pose proof (even_half _ Hev); lia).
        rewrite !fpow_add. ring. }
    assert (Hpar0 : Nat.even (n - (if Nat.even n then 0 else 1)) = true).
    { destruct (Nat.even n) eqn:E; [rewrite Nat.sub_0_r; exact E|]. pose proof (odd_half n E) as Hn. 
      replace (n - 1)%nat with (2 * (n / 2))%nat by lia. rewrite Nat.even_mul. reflexivity. }
    assert (Hpar1 : Nat.even (n - (if Nat.even n then 2 else 1)) = true).
    { destruct (Nat.even n) eqn:E; [|exact Hpar0]. pose proof (even_half n E) as Hn.
      replace (n - 2)%nat with (2 * (n / 2 - 1))%nat by lia. rewrite Nat.even_mul. reflexivity. }
    destruct (Hbk _ _ _ Hpar0 B1 P1) as [N1 E1]. destruct (Hbk _ _ _ Hpar1 B2 P2) as [N2 E2].
    split; [|split; [|split]].
    + etransitivity; [apply normalise_shape|]. cbn [map fst interval_multipliers]. destruct (Nat.even n); reflexivity.
    + apply normalise_nonneg. intros mw [<-|[<-|[]]]; assumption.
    + intro x. rewrite normalise_eval, <- ipoly_eval. revert x. apply (ueval_off_point _ _ b). intros x Hx. rewrite ipoly_eval.
      assert (Hbx : b - x <> 0) by (intro E; apply Hx; symmetry; apply fsub_eq0; exact E).
      unfold ieval. cbn [map fsum fold_right fst snd].
      set (y := (x - a) / (b - x)).
      assert (Hy1 : 1 + y <> 0).
      { unfold y. replace (1 + (x - a) / (b - x)) with ((b - a) / (b - x)) by (field; exact Hbx).
        rewrite fdiv_def. apply fmul_neq0; [apply flt_neq0; exact Hd|apply finv_neq0; exact Hbx]. }
      pose proof (P3 y) as F. unfold n in F.
      rewrite transform_eval in F; [|rewrite !ueval_cons, ueval_nil; replace (1 + y * (1 + y * 0)) with (1 + y) by ring; exact Hy1].
      fold n in F. rewrite !ueval_cons, ueval_nil in F.
      replace (1 + y * (1 + y * 0)) with (1 + y) in F by ring. replace (a + y * (b + y * 0)) with (a + b * y) in F by ring.
      assert (Exy : (a + b * y) / (1 + y) = x).
      { unfold y. field. split; [exact Hbx|]. intro E. apply (flt_neq0 Hd).
        transitivity (b - x + (x - a)); [ring|exact E]. }
      rewrite Exy in F.
      assert (G : (b - a) ^ n * ueval f x = (b - x) ^ n * ((1 + y) ^ n * ueval f x)).
      { replace (b - a) with ((b - x) * (1 + y)) at 1 by (unfold y; field; exact Hbx). rewrite fpow_mul_l. ring. }
      rewrite F in G.
      apply fsub_eq0.
      assert (Hgoal : forall z, (b - a) ^ n * z = 0 -> z = 0).
      { intros z Ez. apply fmul_eq0 in Ez. destruct Ez as [Ez|Ez]; [exfalso; apply (flt_neq0 Hdn Ez)|exact Ez]. }
      apply Hgoal.
      transitivity ((b - a) ^ n * ueval f x - (b - a) ^ n * (ueval (if Nat.even n then [1] else [b; - (1)]) x * weval p' x + ueval (if Nat.even n then umul [- a; 1] [b; - (1)] else [- a; 1]) x * weval q' x)); [ring|].
      rewrite G. specialize (E1 x Hbx). specialize (E2 x Hbx). fold y in E1, E2.
      assert (Ey : y * (b - x) = x - a) by (unfold y; field; exact Hbx).
      destruct (Nat.even n); cbn [fpow] in E1, E2.
      * assert (T1 : (b - x) ^ n * weval p y = weval p' x * (b - a) ^ n) by (rewrite <- E1; ring).
        assert (T2 : (b - x) ^ n * (y * weval q y) = (x - a) * (b - x) * weval q' x * (b - a) ^ n).
        { transitivity (y * ((b - x) ^ n * weval q y)); [ring|]. rewrite <- E2.
          transitivity ((y * (b - x)) * (b - x) * weval q' x * (b - a) ^ n); [ring|]. rewrite Ey. reflexivity. }
        transitivity ((b - x) ^ n * weval p y + (b - x) ^ n * (y * weval q y) - (b - a) ^ n * (ueval [1] x * weval p' x + ueval (umul [- a; 1] [b; - (1)]) x * weval q' x)); [ring|].
        rewrite T1, T2, ueval_umul, !ueval_cons, ueval_nil. ring.
      * assert (T1 : (b - x) ^ n * weval p y = (b - x) * weval p' x * (b - a) ^ n) by (rewrite <- E1; ring).
        assert (T2 : (b - x) ^ n * (y * weval q y) = (x - a) * weval q' x * (b - a) ^ n).
        { transitivity (y * ((b - x) ^ n * weval q y)); [ring|]. rewrite <- E2.
          transitivity ((y * (b - x)) * weval q' x * (b - a) ^ n); [ring|]. rewrite Ey. reflexivity. }
        transitivity ((b - x) ^ n * weval p y + (b - x) ^ n * (y * weval q y) - (b - a) ^ n * (ueval [b; - (1)] x * weval p' x + ueval [- a; 1] x * weval q' x)); [ring|].
        rewrite T1, T2, !ueval_cons, ueval_nil. ring.
    + discriminate.
  - (* [a, oo) *)
    destruct (prove_univariate rds num (fl (utransform (udeg0 f) (strip f) [a; 1] [1]))) as [[[p q]|]|] eqn:P; try discriminate.
    apply PU in P. destruct P as [P1 [P2 P3]]. cbn [fst snd] in P1, P2, P3. apply Ok_inj, Some_inj in H. subst pr.
    split; [|split; [|split]].
    + etransitivity; [apply normalise_shape|]. reflexivity.
    + apply normalise_nonneg. intros mw [<-|[<-|[]]]; cbn [snd]; apply (wnonneg_map_back _ (fun r => utransform (udeg0 r) (strip r) [- a; 1] [1])); assumption.
    + intro x. rewrite normalise_eval. unfold ieval. cbn [map fsum fold_right fst snd]. rewrite !weval_map_back.
      assert (E : ueval [- a; 1] x = x - a) by (cbn; ring). rewrite E. specialize (P3 (x - a)). rewrite transform1_eval in P3.
      replace (ueval [a; 1] (x - a)) with x in P3 by (cbn; ring). rewrite P3, ueval_cons, ueval_nil. ring.
    + discriminate.
  - (* (-oo, b] *)
    destruct (prove_univariate rds num (fl (utransform (udeg0 f) (strip f) [b; - (1)] [1]))) as [[[p q]|]|] eqn:P; try discriminate.
    apply PU in P. destruct P as [P1 [P2 P3]]. cbn [fst snd] in P1, P2, P3. apply Ok_inj, Some_inj in H. subst pr.
    split; [|split; [|split]].
    + etransitivity; [apply normalise_shape|]. reflexivity.
    + apply normalise_nonneg. intros mw [<-|[<-|[]]]; cbn [snd]; apply (wnonneg_map_back _ (fun r => utransform (udeg0 r) (strip r) [b; - (1)] [1])); assumption.
    + intro x. rewrite normalise_eval. unfold ieval. cbn [map fsum fold_right fst snd]. rewrite !weval_map_back.
      assert (E : ueval [b; - (1)] x = b - x) by (cbn; ring). rewrite E. specialize (P3 (b - x)). rewrite transform1_eval in P3.
      replace (ueval [b; - (1)] (b - x)) with x in P3 by (cbn; ring). rewrite P3, ueval_cons, ueval_nil. ring.
    + discriminate.
  - destruct (prove_univariate rds num (fl f)) as [[[p [|]]|]|] eqn:P; try discriminate.
    apply PU in P. destruct P as [P1 [P2 P3]]. cbn [fst snd] in P1, P2, P3. apply Ok_inj, Some_inj in H. subst pr.
    split; [|split; [|split]].
    + etransitivity; [apply normalise_shape|]. reflexivity.
    + apply normalise_nonneg. intros mw [<-|[<-|[]]]; cbn [snd]; assumption.
    + intro x. rewrite normalise_eval. unfold ieval. cbn [map fsum fold_right fst snd]. rewrite P3, ueval_cons, !ueval_nil, weval_nil. ring.
    + intros _ _. reflexivity.
Qed.

Lemma ieval_nonneg pr x : (forall mw, In mw pr -> wnonneg (snd mw) /\ 0 <= ueval (fst mw) x) -> 0 <= ieval pr x.
Proof.
  intro H. unfold ieval. apply fsum_nonneg. intros z Hz. apply in_map_iff in Hz. destruct Hz as [mw [<- Hin]].
  destruct (H mw Hin) as [H1 H2]. apply fmul_nonneg; [exact H2|]. unfold weval. apply fsum_nonneg. intros y Hy.
  apply in_map_iff in Hy. destruct Hy as [t [<- Ht]]. apply fmul_nonneg; [apply H1; exact Ht|apply fsqr_nonneg].
Qed.

Lemma interval_multipliers_nonneg n lo hi x m :
  ((lo <> None \/ hi <> None) \/ m <> [0; 1]) ->
  (forall a, lo = Some a -> a <= x) -> (forall b, hi = Some b -> x <= b) ->
  In m (interval_multipliers n lo hi) -> 0 <= ueval m x.
Proof.
  intros Hno Ha Hb Hin.
  assert (E1 : forall z : K, ueval [1] z = 1) by (intro; cbn; ring).
  assert (Ea : forall a, lo = Some a -> 0 <= ueval [- a; 1] x).
  { intros a E. replace (ueval [- a; 1] x) with (x - a) by (cbn; ring). apply (proj1 (fle_sub _ _)). apply Ha. exact E. }
  assert (Eb : forall b, hi = Some b -> 0 <= ueval [b; - (1)] x).
  { intros b E. replace (ueval [b; - (1)] x) with (b - x) by (cbn; ring). apply (proj1 (fle_sub _ _)). apply Hb. exact E. }
  destruct lo as [a|], hi as [b|]; cbn [interval_multipliers] in Hin.
  - destruct (Nat.even n); destruct Hin as [<-|[<-|[]]].
    + rewrite E1. apply f1_nonneg.
    + rewrite ueval_umul. apply fmul_nonneg; auto.
    + auto.
    + auto.
  - destruct Hin as [<-|[<-|[]]]; [rewrite E1; apply f1_nonneg|auto].
  - destruct Hin as [<-|[<-|[]]]; [rewrite E1; apply f1_nonneg|auto].
  - destruct Hin as [<-|[<-|[]]]; [rewrite E1; apply f1_nonneg|]. destruct Hno as [[Hno|Hno]|Hno]; congruence.
Qed.

(** what the user relies on: the polynomial is non-negative on the interval *)
Lemma prove_interval_nonneg rds num fl f lo hi pr x :
  (forall g, factors_to (fl g) g) -> (forall g h m, In (h, m) (snd (fl g)) -> aligned rds (num h) h) ->
  prove_interval rds num fl f lo hi = Ok (Some pr) ->
  (forall a, lo = Some a -> a <= x) -> (forall b, hi = Some b -> x <= b) -> 0 <= ueval f x.
Proof.
  intros Hfl Hal H Ha Hb. destruct (prove_interval_sound _ _ _ _ _ _ _ Hfl Hal H) as [S1 [S2 [S3 S4]]]. rewrite S3.
  assert (Hcase : (lo = None /\ hi = None) \/ (lo <> None \/ hi <> None)).
  { destruct lo; [right; left; discriminate|]. destruct hi; [right; right; discriminate|left; split; reflexivity]. }
  destruct Hcase as [[-> ->]|Hne].
  - destruct pr as [|[m0 w0] [|[m1 w1] [|]]]; try discriminate. inversion S1; subst. specialize (S4 eq_refl eq_refl). cbn in S4. subst w1.
    assert (Hz : 0 <= ieval [([1], w0)] x).
    { apply ieval_nonneg. intros mw [<-|[]]. split; [exact (S2 _ (or_introl eq_refl))|]. cbn [fst].
      replace (ueval [1] x) with (1 : K) by (cbn; ring). apply f1_nonneg. }
    unfold ieval in *. cbn [map fsum fst snd] in *. rewrite weval_nil.
    match goal with |- 0 <= ?u + (_ * 0 + 0) => match goal with |- 0 <= ?v => replace v with (u + 0) by ring end end. exact Hz.
  - apply ieval_nonneg. intros mw Hmw. split; [exact (S2 _ Hmw)|].
    eapply interval_multipliers_nonneg; [left; exact Hne|exact Ha|exact Hb|]. rewrite <- S1. apply in_map. exact Hmw.
Qed.

(** ** The alignment holds by itself for factors of even degree *)
Lemma vget_uadd p q k : vget (uadd p q) k = vget p k + vget q k.
Proof.
  revert q k. induction p as [|a p IH]; intros [|b q] k; cbn [uadd]; unfold vget in *; cbn [nth].
  - destruct k; ring.
  - destruct k; cbn [nth]; ring.
  - destruct k; cbn [nth]; ring.
  - destruct k; cbn [nth]; [reflexivity|apply IH].
Qed.
Lemma vget_uscale c p k : vget (uscale c p) k = c * vget p k.
Proof.
  revert k. induction p as [|a p IH]; intro k; unfold vget, uscale in *; cbn [map nth]; [destruct k; ring|].
  destruct k; [reflexivity|apply IH].
Qed.
Lemma strip_top p : strip p <> [] -> vget p (pred (length (strip p))) <> 0.
Proof.
  induction p as [|a p IH]; intro H; [exfalso; apply H; reflexivity|]. rewrite strip_cons in *. destruct (strip p) as [|b r].
  - destruct (a =? 0) eqn:E; [congruence|]. apply feqb_neq in E. exact E.
  - cbn [length pred] in *. unfold vget in *. cbn [nth]. apply IH. discriminate.
Qed.
Lemma strip_long p k : vget p k <> 0 -> (S k <= length (strip p))%nat.
Proof.
  revert k. induction p as [|a p IH]; intros k H; unfold vget in *; [destruct k; cbn in H; congruence|].
  rewrite strip_cons. destruct k as [|k]; cbn [nth] in H.
  - destruct (strip p); [|cbn; lia]. destruct (a =? 0) eqn:E; [apply feqb_eq in E; congruence|cbn; lia].
  - specialize (IH k H). destruct (strip p); [cbn in IH; lia|cbn in *; lia].
Qed.
Lemma all_coeffs_length f : strip f <> [] -> length (all_coeffs f) = length (strip f).
Proof. unfold all_coeffs. destruct (strip f); [congruence|]. intros _. apply rev_length. Qed.

Lemma aligned_even_lemma rds nm f m :
  length (strip f) = (2 * m + 1)%nat -> (0 < m)%nat -> dim0 nm = S m -> (no_real_root nm = false -> dim1 nm = m) -> aligned rds nm f.
Proof.
  intros Hf Hm H0 H1. unfold aligned. rewrite H0. split; [lia|].
  assert (Hne : strip f <> []) by (intro E; rewrite E in Hf; cbn in Hf; lia).
  destruct (no_real_root nm); [rewrite all_coeffs_length, Hf by exact Hne; lia|].
  rewrite (H1 eq_refl). split; [exact Hm|]. intros rd _.
  set (R := minor_rest m (rationalize rd false (mat1 nm)) f).
  assert (HR : (2 * m + 1 <= length (strip R))%nat).
  { replace (2 * m + 1)%nat with (S (2 * m)) by lia. apply strip_long. unfold R, minor_rest, usub. rewrite vget_uadd, vget_uscale.
    assert (E : vget (rev (minor_coeffs m (rationalize rd false (mat1 nm)) ++ [0])) (2 * m) = 0).
    { apply vget_over. rewrite rev_length, app_length. unfold minor_coeffs. rewrite map_length, seq_length. cbn [length]. lia. }
    rewrite E. pose proof (strip_top f Hne) as Ht. rewrite Hf in Ht. replace (pred (2 * m + 1)) with (2 * m)%nat in Ht by lia.
    intro Hc. apply Ht. rewrite <- Hc. ring. }
  rewrite all_coeffs_length; [lia|]. intro E. rewrite E in HR. cbn in HR. lia.
Qed.

(** ** Statements in the form used by the property file *)
Lemma determine_represents_lemma n M f :
  (0 < n)%nat -> length (all_coeffs f) = (2 * n - 1)%nat ->
  (forall a b, (a < n)%nat -> (b < n)%nat -> (Nat.min a b + 2 <= Nat.max a b)%nat -> M a b = M b a) ->
  exists M', determine_diagonal n M f = Ok M' /\
    (forall a b, (a < n)%nat -> (b < n)%nat -> M' a b = M' b a) /\
    (forall a b, (Nat.min a b + 2 <= Nat.max a b)%nat -> M' a b = M a b) /\
    (forall x, bsum n (fun i => bsum n (fun j => x ^ (n - 1 - i) * M' i j * x ^ (n - 1 - j))) = ueval f x).
Proof.
  intros Hn Hl Hs. destruct (determine_ok_lemma n M f Hl) as [M' HM]. exists M'. split; [exact HM|].
  destruct (determine_exact_lemma n M f M' Hn Hs) as [D1 [D2 D3]]; [lia|exact HM|]. split; [exact D1|]. split; [exact D3|exact D2].
Qed.
Lemma determine2_represents_lemma n0 n1 (M0 M1 : gmat K) f :
  (0 < n0)%nat -> (0 < n1)%nat ->
  (forall a b, (a < n0)%nat -> (b < n0)%nat -> (Nat.min a b + 2 <= Nat.max a b)%nat -> M0 a b = M0 b a) ->
  (forall a b, (a < n1)%nat -> (b < n1)%nat -> M1 a b = M1 b a) ->
  length (all_coeffs (minor_rest n1 M1 f)) = (2 * n0 - 1)%nat ->
  exists M', determine_diagonal2 n0 M0 n1 M1 f = Ok (M', M1) /\
    (forall a b, (a < n0)%nat -> (b < n0)%nat -> M' a b = M' b a) /\
    (forall x, ueval f x =
       bsum n0 (fun i => bsum n0 (fun j => x ^ (n0 - 1 - i) * M' i j * x ^ (n0 - 1 - j)))
       + x * bsum n1 (fun i => bsum n1 (fun j => x ^ (n1 - 1 - i) * M1 i j * x ^ (n1 - 1 - j)))).
Proof.
  intros H0 H1 S0 S1 Hl. destruct (determine_represents_lemma n0 M0 _ H0 Hl S0) as [M' [E1 [E2 [_ E4]]]].
  exists M'. unfold determine_diagonal2. rewrite E1. split; [reflexivity|]. split; [exact E2|].
  intro x. rewrite E4, (minor_rest_eval n1 M1 f x H1 S1). unfold gform. ring.
Qed.
Lemma proves_unfold (p q : wsos K) f : proves (p, q) f ->
  (forall c g, In (c, g) p \/ In (c, g) q -> 0 <= c) /\
  forall x, ueval f x = fsum (map (fun t => fst t * (ueval (snd t) x * ueval (snd t) x)) p)
                    + x * fsum (map (fun t => fst t * (ueval (snd t) x * ueval (snd t) x)) q).
Proof.
  intros [H1 [H2 H3]]. split; [|exact H3]. intros c g [H|H]; [exact (H1 _ H)|exact (H2 _ H)].
Qed.
Lemma prove_irreducible_exact_lemma rds nm f (p q : wsos K) :
  aligned rds nm f -> prove_irreducible rds nm f = Ok (Some (p, q)) ->
  (forall c g, In (c, g) p \/ In (c, g) q -> 0 <= c) /\
  forall x, ueval f x = fsum (map (fun t => fst t * (ueval (snd t) x * ueval (snd t) x)) p)
                    + x * fsum (map (fun t => fst t * (ueval (snd t) x * ueval (snd t) x)) q).
Proof. intros Ha H. apply proves_unfold. eapply prove_irreducible_sound; eassumption. Qed.
Lemma prove_univariate_exact_lemma rds num fl f (p q : wsos K) :
  factors_to fl f -> (forall g m, In (g, m) (snd fl) -> aligned rds (num g) g) ->
  prove_univariate rds num fl = Ok (Some (p, q)) ->
  (forall c g, In (c, g) p \/ In (c, g) q -> 0 <= c) /\
  forall x, ueval f x = fsum (map (fun t => fst t * (ueval (snd t) x * ueval (snd t) x)) p)
                    + x * fsum (map (fun t => fst t * (ueval (snd t) x * ueval (snd t) x)) q).
Proof. intros Hf Ha H. apply proves_unfold. eapply prove_univariate_sound; eassumption. Qed.
Lemma reduce_exact_lemma w w' : reduce_sos w = Ok w' -> (forall c g, In (c, g) w' -> 0 <= c) /\ forall x, weval w' x = weval w x.
Proof. intro H. apply reduce_sound in H. destruct H as [H1 H2]. split; [intros c g Hin; exact (H1 _ Hin)|exact H2]. Qed.
Lemma reduce_total_lemma w : (forall c g, In (c, g) w -> 0 <= c) -> (exists c g x, In (c, g) w /\ ueval g x <> 0) -> exists w', reduce_sos w = Ok w'.
Proof.
  intros Hw [c [g [x [Hin Hx]]]]. apply reduce_complete; [intros [c' g'] Ht; exact (Hw _ _ Ht)|]. right. exists (c, g). split; [exact Hin|].
  cbn [snd]. unfold udeg. destruct (strip g) eqn:E; [|discriminate]. exfalso. apply Hx. rewrite <- ueval_strip, E. reflexivity.
Qed.
Lemma prove_interval_exact_lemma rds num fl f lo hi pr :
  (forall g x, ueval g x = fst (fl g) * fprod (map (fun gm => ueval (fst gm) x ^ snd gm) (snd (fl g)))) ->
  (forall g h m, In (h, m) (snd (fl g)) -> aligned rds (num h) h) ->
  prove_interval rds num fl f lo hi = Ok (Some pr) ->
  map fst pr = interval_multipliers (udeg0 f) lo hi /\
  (forall m w c g, In (m, w) pr -> In (c, g) w -> 0 <= c) /\
  (forall x, ueval f x = ieval pr x).
Proof.
  intros Hf Ha H. destruct (prove_interval_sound rds num fl f lo hi pr Hf Ha H) as [S1 [S2 [S3 _]]].
  split; [exact S1|]. split; [|exact S3]. intros m w c g H1 H2. exact (S2 _ H1 _ H2).
Qed.
End Lemmas.
