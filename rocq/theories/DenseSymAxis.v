(** * Dense symmetric ternary forms: the symmetric axis *)
From Coq Require Import Bool List Arith Lia ZArith Ring Field Permutation.
From Verif Require Import OrdField Base Perm Poly PolyId PolyOps Coeff Expr CertLimit TriPoly Monomials Univariate UnivariateLemmas.
From Verif Require Acute AcuteFacts Sparse TernaryTables.
From Verif Require Import SymDiv DenseSym DenseSymFacts.
Import ListNotations.

Section Axis.
Variable K : OrdField.
Local Open Scope of_scope.
Add Field Kf : (F_field K).
Implicit Types (p : poly K) (e : ex K) (f q : list K).

Lemma ueval_app l1 l2 (x : K) : ueval (l1 ++ l2) x = ueval l1 x + x ^ length l1 * ueval l2 x.
Proof. induction l1 as [|k l1 IH]; cbn [app length fpow]; [cbn [ueval]; ring|]. rewrite !ueval_cons, IH. ring. Qed.
Lemma ueval_map_seq (g : nat -> K) n x : ueval (map g (seq 0 n)) x = fsum (map (fun i => g i * x ^ i) (seq 0 n)).
Proof.
  induction n as [|n IH]; [reflexivity|]. rewrite seq_S, !map_app, ueval_app, fsum_app, IH, map_length, seq_length. cbn [map Nat.add].
  rewrite ueval_cons, ueval_nil. change (fsum [?u]) with (u + 0). ring.
Qed.
Lemma axis_value d p x : wf 3 p -> homdeg d p -> ueval (axis d p) x = peval (pt3 x 1 1) p.
Proof.
  intros [_ Hl] Hd. unfold axis. rewrite ueval_map_seq. unfold peval.
  assert (HL : forall t, In t p -> length (fst t) = 3%nat /\ list_sum (fst t) = d).
  { intros t Ht. split; [apply Hl|apply Hd]; unfold keys; apply in_map, Ht. } clear Hl Hd.
  induction p as [|[m v] p IH].
  - cbn [filter map]. apply fsum_map_0. intros i _. change (0 * x ^ i = 0). ring.
  - specialize (IH (fun t Ht => HL t (or_intror Ht))). destruct (HL (m, v) (or_introl eq_refl)) as [L1 L2]. cbn [fst] in L1, L2.
    change (map (fun t => snd t * meval (pt3 x 1 1) (fst t)) ((m, v) :: p)) with ((v * meval (pt3 x 1 1) m) :: map (fun t => snd t * meval (pt3 x 1 1) (fst t)) p).
    change (fsum (?x :: ?l)) with (x + fsum l). rewrite <- IH.
    assert (E : forall i, fsum (map snd (filter (fun t => Nat.eqb (nth 0 (fst t) 0%nat) i) ((m, v) :: p))) * x ^ i
                 = (if Nat.eqb (nth 0 m 0%nat) i then v * x ^ i else 0) + fsum (map snd (filter (fun t => Nat.eqb (nth 0 (fst t) 0%nat) i) p)) * x ^ i).
    { intro i. cbn [filter fst]. destruct (Nat.eqb (nth 0 m 0%nat) i); cbn [map snd]; [change (fsum (?x :: ?l)) with (x + fsum l)|]; ring. }
    rewrite (fsum_map_ext K _ (fun i => (if Nat.eqb (nth 0 m 0%nat) i then v * x ^ i else 0) + fsum (map snd (filter (fun t => Nat.eqb (nth 0 (fst t) 0%nat) i) p)) * x ^ i) _ (fun i _ => E i)).
    rewrite fsum_map_add. f_equal.
    destruct m as [|i [|j [|k [|]]]]; try discriminate. cbn [nth]. unfold list_sum in L2. cbn [fold_right] in L2.
    rewrite (fsum_delta K (seq 0 (S d)) i (fun i0 => if Nat.eqb i i0 then v * x ^ i0 else 0)); [|apply seq_NoDup|apply in_seq; lia|].
    2:{ intros i0 _ Hne. destruct (Nat.eqb_spec i i0); [congruence|reflexivity]. }
    rewrite Nat.eqb_refl.
    rewrite !meval_cons, meval_nil. cbn [pt3]. rewrite !fpow_1. ring.
Qed.

(** ** Division by powers of a - 1 *)
Lemma syn1_spec f : forall q r, syn1 f = (q, r) -> length q = pred (length f) /\ forall x, ueval f x = (x - 1) * ueval q x + r.
Proof.
  induction f as [|k f IH]; intros q r H.
  - cbn in H. assert (q = []) by congruence. assert (r = 0) by congruence. subst. split; [reflexivity|]. intro x. rewrite !ueval_nil. ring.
  - destruct f as [|k2 f].
    + cbn in H. assert (q = []) by congruence. assert (r = k) by congruence. subst. split; [reflexivity|]. intro x. rewrite ueval_cons, !ueval_nil. ring.
    + change (syn1 (k :: k2 :: f)) with (let (q, r) := syn1 (k2 :: f) in (r :: q, r + k)) in H. destruct (syn1 (k2 :: f)) as [q' r'] eqn:E. destruct (IH q' r' eq_refl) as [L V].
      apply pair_equal_spec in H. destruct H as [<- <-]. split; [cbn [length] in *; lia|]. intro x. rewrite (ueval_cons K k (k2 :: f)), V, ueval_cons. ring.
Qed.
Lemma div_sq1_spec f q u v : div_sq1 f = (q, (u, v)) ->
  (length q = length f - 2)%nat /\ forall x, ueval f x = (x - 1) * (x - 1) * ueval q x + (u * x + v).
Proof.
  unfold div_sq1. destruct (syn1 f) as [q1 r0] eqn:E1. destruct (syn1 q1) as [q2 r1] eqn:E2. intro H.
  apply pair_equal_spec in H. destruct H as [<- H]. apply pair_equal_spec in H. destruct H as [<- <-].
  destruct (syn1_spec f q1 r0 E1) as [L1 V1]. destruct (syn1_spec q1 q2 r1 E2) as [L2 V2]. split; [lia|].
  intro x. rewrite V1, V2. ring.
Qed.
Lemma div_fourth1_spec f q : div_fourth1 f = Some q ->
  (length q = length f - 4)%nat /\ forall x, ueval f x = (x - 1) * (x - 1) * ((x - 1) * (x - 1)) * ueval q x.
Proof.
  unfold div_fourth1. destruct (div_sq1 f) as [q1 [u v]] eqn:E1. destruct ((u =? 0) && (v =? 0))%bool eqn:E0; [|discriminate].
  destruct (div_sq1 q1) as [q2 [u' v']] eqn:E2. destruct ((u' =? 0) && (v' =? 0))%bool eqn:E0'; [|discriminate]. intro H.
  assert (q2 = q) by congruence. subst q2.
  apply andb_prop in E0, E0'. destruct E0 as [A1 A2], E0' as [A3 A4]. apply feqb_eq in A1, A2, A3, A4. subst.
  destruct (div_sq1_spec _ _ _ _ E1) as [L1 V1]. destruct (div_sq1_spec _ _ _ _ E2) as [L2 V2]. split; [lia|].
  intro x. rewrite V1, V2. ring.
Qed.

(** ** Homogenisation *)
Definition bcsym e : Prop := forall A B C, ev (pt3 A B C) e = ev (pt3 A C B) e.
Lemma bcsym_esum l : (forall e, In e l -> bcsym e) -> bcsym (Sparse.esum l).
Proof.
  intros H A B C. rewrite !ev_esum. apply fsum_map_ext. intros e He. apply H, He.
Qed.
Lemma even_split n : Nat.even n = true -> (n / 2 + n / 2 = n)%nat.
Proof. intro H. rewrite (even_half n H) at 3. lia. Qed.
Lemma odd_split n : Nat.even n = false -> (n / 2 + n / 2 + 1 = n)%nat.
Proof. intro H. rewrite (odd_half n H) at 3. lia. Qed.

Definition hterms (d s : nat) f : list (ex K) := flat_map (hom_term d) (combine (seq s (length f)) f).
Lemma hterms_cons d s k f : hterms d s (k :: f) = hom_term d (s, k) ++ hterms d (S s) f.
Proof. reflexivity. Qed.
Lemma hterms_HD d f : forall s, (s + length f <= S d)%nat -> forall e, In e (hterms d s f) -> HD K d e.
Proof.
  induction f as [|k f IH]; intros s H e He; [destruct He|]. rewrite hterms_cons in He. cbn [length] in H. apply in_app_or in He. destruct He as [He|He].
  - unfold hom_term in He. destruct (k =? 0); [destruct He|]. destruct (Nat.even (d - s)) eqn:E.
    + destruct He as [<-|[]]. pose proof (even_split _ E). apply (HD_eq K (s + (d - s) / 2 + (d - s) / 2)); [lia|apply HD_emono].
    + pose proof (odd_split _ E). destruct He as [<-|[<-|[]]].
      * apply (HD_eq K (s + ((d - s) / 2 + 1) + (d - s) / 2)); [lia|apply HD_emono].
      * apply (HD_eq K (s + (d - s) / 2 + ((d - s) / 2 + 1))); [lia|apply HD_emono].
  - apply (IH (S s)); [lia|exact He].
Qed.
Lemma hterms_axis d f x : forall s, ev (pt3 x 1 1) (Sparse.esum (hterms d s f)) = x ^ s * ueval f x.
Proof.
  induction f as [|k f IH]; intro s; [rewrite ueval_nil; change (0 = x ^ s * 0); ring|].
  rewrite hterms_cons, ev_esum, map_app, fsum_app, <- !ev_esum, IH, ueval_cons. cbn [fpow].
  assert (E : ev (pt3 x 1 1) (Sparse.esum (hom_term d (s, k))) = k * x ^ s).
  { unfold hom_term. destruct (k =? 0) eqn:E0; [apply feqb_eq in E0; subst k; change (0 = 0 * x ^ s); ring|].
    destruct (Nat.even (d - s)).
    - rewrite ev_esum. cbn [map]. rewrite ev_emono, !meval_cons, meval_nil. cbn [pt3]. rewrite !fpow_1. change (fsum [?u]) with (u + 0). ring.
    - rewrite ev_esum. cbn [map]. rewrite !ev_emono, !meval_cons, !meval_nil. cbn [pt3]. rewrite !fpow_1. change (fsum [?u; ?v]) with (u + (v + 0)). field. fnz. }
  rewrite E. ring.
Qed.
Lemma hterms_bcsym d f s : bcsym (Sparse.esum (hterms d s f)).
Proof.
  revert s. induction f as [|k f IH]; intros s A B C; [reflexivity|].
  rewrite hterms_cons, !ev_esum, !map_app, !fsum_app, <- !ev_esum, (IH (S s) A B C). f_equal.
  unfold hom_term. destruct (k =? 0); [reflexivity|]. destruct (Nat.even (d - s)); rewrite !ev_esum; cbn [map]; rewrite !ev_emono, !meval_cons, !meval_nil; cbn [pt3].
  - change (fsum [?u]) with (u + 0). ring.
  - change (fsum [?u; ?v]) with (u + (v + 0)). ring.
Qed.
Lemma hterms_manifest d f : (forall k, In k f -> 0 <= k) -> forall s e, In e (hterms d s f) -> manifest true e = true.
Proof.
  induction f as [|k f IH]; intros H s e He; [destruct He|]. rewrite hterms_cons in He. apply in_app_or in He. destruct He as [He|He].
  - pose proof (H k (or_introl eq_refl)) as Hk. unfold hom_term in He. destruct (k =? 0); [destruct He|]. destruct (Nat.even (d - s)).
    + destruct He as [<-|[]]. apply manifest_emono, Hk.
    + assert (0 <= k / 2) by (apply fdiv_nonneg; fpos). destruct He as [<-|[<-|[]]]; apply manifest_emono; assumption.
  - apply (IH (fun k Hk => H k (or_intror Hk)) (S s) e He).
Qed.
Lemma hom_axis_spec d f :
  ((length f <= S d)%nat -> HD K d (hom_axis d f)) /\ (forall x, ev (pt3 x 1 1) (hom_axis d f) = ueval f x) /\ bcsym (hom_axis d f) /\
  ((forall k, In k f -> 0 <= k) -> manifest true (hom_axis d f) = true).
Proof.
  unfold hom_axis. change (flat_map (hom_term d) (combine (seq 0 (length f)) f)) with (hterms d 0 f). split; [|split; [|split]].
  - intro H. apply HD_esum. apply hterms_HD. lia.
  - intro x. rewrite hterms_axis. cbn [fpow]. ring.
  - apply hterms_bcsym.
  - intro H. apply manifest_esum. apply hterms_manifest, H.
Qed.
(** the degree may be smaller than the length of the list *)
Lemma strip_tail f : exists z, f = strip f ++ z /\ forall k, In k z -> k = 0.
Proof.
  induction f as [|k f (z & E & Hz)]; [exists []; split; [reflexivity|intros k []]|].
  rewrite strip_cons. destruct (strip f) as [|r0 rs] eqn:Es.
  - cbn in E. destruct (k =? 0) eqn:E0.
    + exists (k :: f). split; [reflexivity|]. intros y [<-|Hy]; [apply feqb_eq, E0|]. apply Hz. rewrite <- E. exact Hy.
    + exists f. split; [reflexivity|]. intros y Hy. apply Hz. rewrite <- E. exact Hy.
  - exists z. split; [|exact Hz]. cbn [app] in *. rewrite E. reflexivity.
Qed.
Lemma hterms_zero d f : (forall k, In k f -> k = 0) -> forall s, hterms d s f = [].
Proof.
  induction f as [|k f IH]; intros H s; [reflexivity|]. rewrite hterms_cons, (IH (fun y Hy => H y (or_intror Hy))), app_nil_r.
  unfold hom_term. rewrite (proj2 (feqb_eq K k 0) (H k (or_introl eq_refl))). reflexivity.
Qed.
Lemma hterms_app d f1 : forall f2 s, hterms d s (f1 ++ f2) = hterms d s f1 ++ hterms d (s + length f1) f2.
Proof.
  induction f1 as [|k f1 IH]; intros f2 s; [cbn [app length]; rewrite Nat.add_0_r; reflexivity|].
  cbn [app length]. rewrite !hterms_cons, IH, app_assoc. do 2 f_equal. lia.
Qed.
Lemma hom_axis_strip d f : hom_axis d f = hom_axis d (strip f).
Proof.
  destruct (strip_tail f) as (z & E & Hz). unfold hom_axis.
  change (Sparse.esum (hterms d 0 f) = Sparse.esum (hterms d 0 (strip f))).
  rewrite E at 1. rewrite hterms_app, (hterms_zero d z Hz), app_nil_r. reflexivity.
Qed.
Lemma hom_axis_deg n f : udeg f = Some n -> HD K n (hom_axis n f).
Proof.
  intro H. rewrite hom_axis_strip. apply hom_axis_spec. unfold udeg in H. destruct (strip f); [discriminate|]. cbn [length] in *. injection H as <-. lia.
Qed.

(** ** Degrees in a univariate proof *)
Lemma ueval_poly f : is_poly K (ueval f).
Proof.
  induction f as [|k f IH]; [apply (poly_const K 0)|].
  apply (poly_ext K (fun t => k + t * ueval f t)); [intro t; rewrite ueval_cons; reflexivity|].
  apply poly_add; [apply poly_const|]. apply poly_mul; [|exact IH].
  apply (poly_ext K (fun t => 0 + t * 1)); [intro t; ring|apply poly_line].
Qed.
Lemma rev_value f (t : K) : t <> 0 -> f <> [] -> ueval (rev f) t = t ^ (length f - 1) * ueval f (1 / t).
Proof.
  intro Ht. induction f as [|k f IH]; [intros H; destruct (H eq_refl)|]. intros _. cbn [rev]. rewrite ueval_app, rev_length, ueval_cons, ueval_nil.
  destruct f as [|k2 f].
  - cbn [rev length Nat.sub fpow]. rewrite !ueval_cons, !ueval_nil. set (y := 1 / t). ring.
  - rewrite IH by discriminate. rewrite (ueval_cons K k (k2 :: f)). cbn [length Nat.sub]. rewrite Nat.sub_0_r.
    cbn [fpow]. field. exact Ht.
Qed.
Lemma rev_at_0 f : ueval (rev f) 0 = last f 0.
Proof.
  destruct f as [|k f] using rev_ind; [reflexivity|]. rewrite rev_app_distr. cbn [rev app]. rewrite ueval_cons, last_last. ring.
Qed.
Lemma pow0 n : (0 < n)%nat -> (0 : K) ^ n = 0.
Proof. intro H. destruct n; [lia|]. cbn [fpow]. ring. Qed.
(** if k v(x)^2 x^ld <= f(x) for x >= 0 then the degree of the left is at most that of the right *)
Lemma degree_bound f v (k : K) n ld D : 0 < k -> udeg v = Some n -> (length f <= S D)%nat ->
  (forall x, 0 <= x -> k * (ueval v x * ueval v x) * x ^ ld <= ueval f x) -> (2 * n + ld <= D)%nat.
Proof.
  intros Hk Hn Hl H. destruct (le_lt_dec (2 * n + ld) D) as [L|L]; [exact L|exfalso].
  unfold udeg in Hn. set (w := strip v) in *. assert (Hw : w <> []) by (intro E; rewrite E in Hn; discriminate).
  assert (Ln : length w = S n) by (destruct w; [discriminate|injection Hn as <-; reflexivity]).
  assert (Lc : last w 0 <> 0).
  { assert (Hv : strip v <> []) by exact Hw. pose proof (strip_top K v Hv) as X. fold w in X. rewrite Ln in X. cbn [pred] in X.
    destruct (strip_tail v) as (z & E & Hz). fold w in E. rewrite E in X. unfold vget in X. rewrite app_nth1 in X by lia.
    intro Y. apply X. rewrite <- Y. destruct w as [|w0 ws] using rev_ind; [destruct (Hw eq_refl)|]. rewrite last_last.
    rewrite app_length in Ln. cbn in Ln. rewrite app_nth2 by lia. replace (n - length ws)%nat with 0%nat by lia. reflexivity. }
  set (N := (2 * n + ld)%nat) in *.
  set (g := fun t => t ^ (N - (length f - 1)) * ueval (rev f) t - k * (ueval (rev w) t * ueval (rev w) t)).
  assert (G0 : g 0 = 0 - k * (last w 0 * last w 0)).
  { unfold g. rewrite !rev_at_0, (pow0 (N - (length f - 1))) by lia. ring. }
  assert (X : 0 <= g 0).
  { apply (nonneg_at_0 K g (fun t => 0 + t * 1)).
    - unfold g. apply poly_sub.
      + apply poly_mul; [|apply ueval_poly]. apply poly_pow. apply (poly_ext K (fun t => 0 + t * 1)); [intro t; ring|apply poly_line].
      + apply poly_mul; [apply poly_const|]. apply poly_mul; apply ueval_poly.
    - apply poly_line.
    - exists 1. intro Y. apply (fneq10 K). rewrite <- Y. ring.
    - intros t T0 T1 _. assert (Tn : t <> 0) by (apply flt_neq0; exact T0).
      assert (X0 : 0 <= 1 / t) by (apply fdiv_nonneg; [apply f1_nonneg|exact T0]).
      specialize (H (1 / t) X0). unfold g. rewrite (rev_value w t Tn Hw). rewrite Ln. replace (S n - 1)%nat with n by lia.
      assert (Ef : t ^ (N - (length f - 1)) * ueval (rev f) t = t ^ N * ueval f (1 / t)).
      { destruct f as [|f0 fs]; [cbn [rev]; rewrite !ueval_nil; ring|]. rewrite rev_value by (exact Tn || discriminate).
        replace N with ((N - (length (f0 :: fs) - 1)) + (length (f0 :: fs) - 1))%nat at 2 by lia. rewrite fpow_add. ring. }
      rewrite Ef. apply (proj1 (fle_sub _ _)).
      assert (Ew : ueval w (1 / t) = ueval v (1 / t)) by apply ueval_strip. rewrite Ew.
      assert (PN : 0 <= t ^ N) by (apply fpow_nonneg, flt_le, T0).
      assert (EN : t ^ N = t ^ n * t ^ n * t ^ ld).
      { unfold N. replace (2 * n + ld)%nat with (n + n + ld)%nat by lia. rewrite !fpow_add. reflexivity. }
      assert (EL : t ^ ld * (1 / t) ^ ld = 1).
      { rewrite <- fpow_mul_l. replace (t * (1 / t)) with (1 : K) by (field; exact Tn). apply fpow_1. }
      apply (fle_trans K _ (t ^ N * (k * (ueval v (1 / t) * ueval v (1 / t)) * (1 / t) ^ ld))).
      + rewrite EN. match goal with |- ?l <= ?r => replace r with l; [apply fle_refl|] end.
        transitivity (k * (t ^ n * ueval v (1 / t) * (t ^ n * ueval v (1 / t))) * (t ^ ld * (1 / t) ^ ld)); [rewrite EL; ring|ring].
      + apply fle_sub. match goal with |- 0 <= ?r => replace r with (t ^ N * (ueval f (1 / t) - k * (ueval v (1 / t) * ueval v (1 / t)) * (1 / t) ^ ld)) by ring end.
        apply fmul_nonneg; [exact PN|]. apply (proj1 (fle_sub _ _)). exact H. }
  rewrite G0 in X. apply (flt_irrefl K 0).
  assert (P : 0 < k * (last w 0 * last w 0)) by (apply fmul_pos; [exact Hk|apply fsqr_pos; exact Lc]).
  apply (flt_le_trans K _ _ _ P). apply fle_sub. replace (0 - k * (last w 0 * last w 0)) with (0 - k * (last w 0 * last w 0)) by ring. exact X.
Qed.

Lemma weval_nonneg (w : wsos K) x : wnonneg K w -> 0 <= weval w x.
Proof.
  intro H. induction w as [|t w IH]; [apply fle_refl|]. rewrite weval_cons. apply fadd_nonneg; [|apply IH; intros u Hu; apply H; right; exact Hu].
  apply fmul_nonneg; [apply H; left; reflexivity|apply fsqr_nonneg].
Qed.
Lemma weval_ge (w : wsos K) t x : wnonneg K w -> In t w -> fst t * (ueval (snd t) x * ueval (snd t) x) <= weval w x.
Proof.
  intros H Hin. induction w as [|u w IH]; [destruct Hin|]. rewrite weval_cons.
  assert (Hw : wnonneg K w) by (intros v Hv; apply H; right; exact Hv).
  destruct Hin as [->|Hin].
  - apply fle_sub. match goal with |- 0 <= ?r => replace r with (weval w x) by ring end. apply weval_nonneg, Hw.
  - apply (fle_trans K _ (weval w x)); [apply IH; assumption|]. apply fle_sub.
    match goal with |- 0 <= ?r => replace r with (fst u * (ueval (snd u) x * ueval (snd u) x)) by ring end.
    apply fmul_nonneg; [apply H; left; reflexivity|apply fsqr_nonneg].
Qed.
Lemma proof_degrees pq f D : proves K pq f -> (length f <= S D)%nat ->
  (forall k v n, In (k, v) (fst pq) -> k <> 0 -> udeg v = Some n -> (2 * n <= D)%nat) /\
  (forall k v n, In (k, v) (snd pq) -> k <> 0 -> udeg v = Some n -> (2 * n + 1 <= D)%nat).
Proof.
  intros (N1 & N2 & V) Hl. split; intros k v n Hin Hk Hn.
  - assert (X : (2 * n + 0 <= D)%nat); [|lia].
    apply (degree_bound f v k n 0 D); [apply flt_le_neq; split; [exact (N1 _ Hin)|congruence]|exact Hn|exact Hl|].
    intros x Hx. rewrite V. cbn [fpow]. pose proof (weval_ge (fst pq) (k, v) x N1 Hin) as G. cbn [fst snd] in G.
    apply (fle_trans K _ (weval (fst pq) x)); [replace (k * (ueval v x * ueval v x) * 1) with (k * (ueval v x * ueval v x)) by ring; exact G|].
    apply fle_sub. match goal with |- 0 <= ?r => replace r with (x * weval (snd pq) x) by ring end. apply fmul_nonneg; [exact Hx|apply weval_nonneg, N2].
  - apply (degree_bound f v k n 1 D); [apply flt_le_neq; split; [exact (N2 _ Hin)|congruence]|exact Hn|exact Hl|].
    intros x Hx. rewrite V. cbn [fpow]. pose proof (weval_ge (snd pq) (k, v) x N2 Hin) as G. cbn [fst snd] in G.
    apply (fle_trans K _ (x * weval (snd pq) x)).
    + apply fle_sub. match goal with |- 0 <= ?r => replace r with (x * (weval (snd pq) x - k * (ueval v x * ueval v x))) by ring end.
      apply fmul_nonneg; [exact Hx|]. apply (proj1 (fle_sub _ _)). exact G.
    + apply fle_sub. match goal with |- 0 <= ?r => replace r with (weval (fst pq) x) by ring end. apply weval_nonneg, N1.
Qed.

(** ** The homogenised proof *)
Lemma proof_terms_spec D ld w : forall l, proof_terms D ld w = Ok l ->
  (forall x, ev (pt3 x 1 1) (Sparse.esum l) = weval w x) /\ bcsym (Sparse.esum l) /\
  (wnonneg K w -> manifest true (Sparse.esum l) = true) /\
  ((forall k v n, In (k, v) w -> k <> 0 -> udeg v = Some n -> (2 * n + ld <= D)%nat) -> (ld <= D)%nat ->
    HD K ((D - ld) / 2 + (D - ld) / 2) (Sparse.esum l)).
Proof.
  induction w as [|[k v] w IH]; intros l H.
  - cbn in H. apply Ok_inj in H. subst l. split; [reflexivity|]. split; [intros A B C; reflexivity|]. split; [intros _; apply fle_refl|]. intros _ _. apply HD_0.
  - cbn [proof_terms] in H. destruct (proof_terms D ld w) as [l'|] eqn:E; [|discriminate]. destruct (IH l' eq_refl) as (V & S1 & M & HH).
    destruct (k =? 0) eqn:E0.
    + apply feqb_eq in E0. subst k. apply Ok_inj in H. subst l'. split; [|split; [exact S1|split]].
      * intro x. rewrite V, weval_cons. cbn [fst snd]. ring.
      * intro N. apply M. intros t Ht. apply N. right. exact Ht.
      * intros Hd L. apply HH; [|exact L]. intros k' v' n' Hin. apply Hd. right. exact Hin.
    + assert (Hk0 : k <> 0) by (intro X; rewrite X in E0; rewrite (proj2 (feqb_eq K 0 0) eq_refl) in E0; discriminate).
      destruct (udeg v) as [n|] eqn:En; [|discriminate]. apply Ok_inj in H. subst l.
      destruct (hom_axis_spec n v) as (_ & Vx & Sx & _). set (h := hom_axis n v) in *.
      set (rd := ((D - ld - 2 * n) / 2)%nat).
      change (Sparse.esum (?x :: ?y)) with (EAdd x (Sparse.esum y)). split; [|split; [|split]].
      * intro x. cbn [ev]. rewrite V, weval_cons, Vx. cbn [fst snd pt3 fpow]. rewrite !fpow_1. ring.
      * intros A B C. cbn [ev]. rewrite (S1 A B C), (Sx A B C). cbn [pt3]. ring.
      * intro N. cbn [manifest]. rewrite M by (intros t Ht; apply N; right; exact Ht).
        assert (Hk : 0 <= k) by (apply (N (k, v)); left; reflexivity). unfold fle in Hk. rewrite Hk, !orb_true_r. reflexivity.
      * intros Hd L. pose proof (Hd k v n (or_introl eq_refl) Hk0 En) as Hb. apply HD_add.
        -- apply (HD_eq K (0 + 2 * n + rd * 1 + rd * 1)).
           { unfold rd. assert (X : ((D - ld) / 2 = (D - ld - 2 * n) / 2 + n)%nat).
             { replace (D - ld)%nat with ((D - ld - 2 * n) + n * 2)%nat at 1 by lia. apply Nat.div_add. lia. } lia. }
           repeat apply HD_mul; [apply HD_c| |apply HD_pow, HD_x; lia|apply HD_pow, HD_x; lia].
           apply HD_pow. apply hom_axis_deg, En.
        -- apply HH; [|exact L]. intros k' v' n' Hin. apply Hd. right. exact Hin.
Qed.
Lemma hom_part_spec D ld (leading : ex K) w e : (ld <= D)%nat -> HD K ld leading -> manifest true leading = true ->
  (forall A B C, ev (pt3 A B C) leading = A ^ ld) ->
  hom_part D ld leading w = Ok e ->
  (forall x, ev (pt3 x 1 1) e = x ^ ld * weval w x) /\ bcsym e /\
  (wnonneg K w -> manifest true e = true) /\
  ((forall k v n, In (k, v) w -> k <> 0 -> udeg v = Some n -> (2 * n + ld <= D)%nat) -> HD K D e).
Proof.
  intros L HL ML VL H. unfold hom_part in H. destruct (proof_terms D ld w) as [l|] eqn:E; [|discriminate]. apply Ok_inj in H.
  destruct (proof_terms_spec D ld w l E) as (V & S1 & M & HH). set (s := Sparse.esum l) in *.
  destruct (Nat.even (D - ld)) eqn:Ev; subst e.
  - split; [|split; [|split]].
    + intro x. cbn [ev]. rewrite V, VL. ring.
    + intros A B C. cbn [ev]. rewrite (S1 A B C), !VL. reflexivity.
    + intro N. cbn [manifest]. rewrite (M N), ML. reflexivity.
    + intro Hd. pose proof (even_split _ Ev). apply (HD_eq K ((D - ld) / 2 + (D - ld) / 2 + ld)); [lia|]. apply HD_mul; [apply HH; assumption|exact HL].
  - split; [|split; [|split]].
    + intro x. cbn [ev]. rewrite V, VL. cbn [pt3]. field. fnz.
    + intros A B C. cbn [ev]. rewrite (S1 A B C), !VL. cbn [pt3]. ring.
    + intro N. cbn [manifest]. rewrite (M N), ML. assert (X : 0 <= 1 / (2 : K)) by (apply fdiv_nonneg; fpos). unfold fle in X. rewrite X. reflexivity.
    + intro Hd. pose proof (odd_split _ Ev). apply (HD_eq K (0 + ((D - ld) / 2 + (D - ld) / 2 + ld + 1))); [lia|]. apply HD_mul; [apply HD_c|].
      apply HD_mul; [apply HD_mul; [apply HH; assumption|exact HL]|]. apply HD_add; apply HD_x; lia.
Qed.
Lemma hom_proof_spec D pq f e : proves K pq f -> (length f <= S D)%nat -> (1 <= D)%nat -> hom_proof D pq = Ok e ->
  HD K D e /\ (forall x, ev (pt3 x 1 1) e = ueval f x) /\ bcsym e /\ manifest true e = true.
Proof.
  intros Hp Hl HD1 H. destruct (proof_degrees pq f D Hp Hl) as [D1 D2]. destruct Hp as (N1 & N2 & V). unfold hom_proof in H.
  destruct (hom_part D 0 (EC 1) (fst pq)) as [x|] eqn:E1; [|discriminate]. destruct (hom_part D 1 (EX 0) (snd pq)) as [y|] eqn:E2; [|discriminate].
  apply Ok_inj in H. subst e.
  destruct (hom_part_spec D 0 (EC 1) (fst pq) x ltac:(lia) (HD_c K 1) (f1_nonneg K) (fun _ _ _ => eq_refl) E1) as (Vx & Sx & Mx & Hx).
  destruct (hom_part_spec D 1 (EX 0) (snd pq) y HD1 (HD_x K 0 ltac:(lia)) eq_refl ltac:(intros; cbn; ring) E2) as (Vy & Sy & My & Hy).
  split; [|split; [|split]].
  - apply HD_add; [apply Hx|apply Hy; exact D2]. intros k v n Hin Hk Hn. pose proof (D1 k v n Hin Hk Hn). lia.
  - intro t. cbn [ev]. rewrite Vx, Vy, V. cbn [fpow]. ring.
  - intros A B C. cbn [ev]. rewrite (Sx A B C), (Sy A B C). reflexivity.
  - cbn [manifest]. rewrite (Mx N1), (My N2). reflexivity.
Qed.
End Axis.
