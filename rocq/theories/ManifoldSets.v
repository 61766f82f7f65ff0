(** * The bilinear sets and the elimination of manifold.py *)
From Coq Require Import Bool List Arith Lia Ring Field.
From Verif Require Import OrdField Base Congruence LinSolve LinSep Perm Poly PolyOps Partitions Shared Monomials Coeff ClearSym SdpSos Manifold.
Import ListNotations.

(** ** Sets of pairs *)
Lemma peq_eq a b : peq a b = true <-> a = b.
Proof.
  destruct a as [a1 a2], b as [b1 b2]. unfold peq. cbn [fst snd]. rewrite andb_true_iff, !meqb_eq. split; [intros [-> ->]; reflexivity|].
  intro H. apply pair_equal_spec in H. exact H.
Qed.
Lemma In_sadd s a p : In p (sadd s a) <-> In p s \/ p = a.
Proof.
  unfold sadd. destruct (existsb (peq a) s) eqn:E.
  - apply existsb_exists in E. destruct E as (x & Hx & Ex). apply peq_eq in Ex. subst x. split; [tauto|]. intros [H|H]; [exact H|subst p; exact Hx].
  - rewrite in_app_iff. cbn. intuition.
Qed.
Lemma In_sunion t : forall s p, In p (sunion s t) <-> In p s \/ In p t.
Proof.
  unfold sunion. induction t as [|a t IH]; intros s p; cbn [fold_left]; [cbn; tauto|]. rewrite IH, In_sadd. cbn. intuition.
Qed.
Lemma reg_sym u v : reg u v = reg v u.
Proof.
  unfold reg. rewrite (lex_cmp_sym v u). destruct (lex_cmp v u) eqn:E; cbn; try reflexivity. apply lex_cmp_eq in E. subst v. reflexivity.
Qed.
Lemma reg_cases u v : reg u v = (u, v) \/ reg u v = (v, u).
Proof. unfold reg. destruct (lex_cmp u v); tauto. Qed.

(** ** [bdiff] on sets *)
Lemma tget_dset nt m s m' : tget (dset nt m s) m' = if meqb m' m then s else tget nt m'.
Proof.
  unfold tget. destruct (meqb_spec m' m) as [->|H]; [rewrite dget_dset_same; reflexivity|]. rewrite dget_dset_other by exact H. reflexivity.
Qed.
Definition products (i : nat) (uv p : list nat * list nat) : Prop :=
  p = reg (inc (fst uv) i) (snd uv) \/ p = reg (fst uv) (inc (snd uv) i).
Lemma diff_pair_in i m nt uv m' p : In p (tget (diff_pair i m nt uv) m') <-> In p (tget nt m') \/ (m' = m /\ products i uv p).
Proof.
  unfold diff_pair, products. rewrite !tget_dset. destruct (meqb_spec m' m) as [->|H].
  - rewrite meqb_refl, !In_sadd. intuition.
  - intuition.
Qed.
Lemma diff_pairs_in i m uvs : forall nt m' p, In p (tget (fold_left (diff_pair i m) uvs nt) m') <-> In p (tget nt m') \/ (m' = m /\ exists uv, In uv uvs /\ products i uv p).
Proof.
  induction uvs as [|uv uvs IH]; intros nt m' p; cbn [fold_left].
  - split; [tauto|]. intros [H|(_ & uv & [] & _)]. exact H.
  - rewrite IH, diff_pair_in. split.
    + intros [[H|[E H]]|(E & x & Hx & H)]; [tauto| |]; right; (split; [exact E|]); [exists uv|exists x]; split; cbn; tauto.
    + intros [H|(E & x & [Hx|Hx] & H)]; [tauto|subst x; tauto|]. right. split; [exact E|]. exists x. tauto.
Qed.
Definition source (i : nat) (m : list nat) (uvs : pairs) (m' : list nat) (p : list nat * list nat) : Prop :=
  (nth i m 0 <> 0 /\ m' = dec m i /\ In p uvs) \/ (m' = m /\ exists uv, In uv uvs /\ products i uv p).
Lemma diff_key_in i nt m uvs m' p : In p (tget (diff_key i nt (m, uvs)) m') <-> In p (tget nt m') \/ source i m uvs m' p.
Proof.
  unfold diff_key, source. rewrite diff_pairs_in. destruct (Nat.eqb_spec (nth i m 0) 0) as [E|E].
  - intuition.
  - rewrite tget_dset. destruct (meqb_spec m' (dec m i)) as [->|H].
    + rewrite In_sunion. intuition.
    + intuition.
Qed.
Lemma bdiff_fold_in i : forall t nt m' p, In p (tget (fold_left (diff_key i) t nt) m') <-> In p (tget nt m') \/ exists m uvs, In (m, uvs) t /\ source i m uvs m' p.
Proof.
  induction t as [|[m uvs] t IH]; intros nt m' p; cbn [fold_left].
  - split; [tauto|]. intros [H|(m & uvs & [] & _)]. exact H.
  - rewrite IH, diff_key_in. split.
    + intros [[H|H]|(m1 & u1 & Hin & H)]; [tauto| |]; right; [exists m, uvs|exists m1, u1]; split; cbn; tauto.
    + intros [H|(m1 & u1 & [Hin|Hin] & H)]; [tauto| |].
      * apply pair_equal_spec in Hin. destruct Hin; subst. tauto.
      * right. exists m1, u1. tauto.
Qed.
Lemma bdiff_in i t m' p : In p (tget (bdiff i t) m') <-> exists m uvs, In (m, uvs) t /\ source i m uvs m' p.
Proof. unfold bdiff. rewrite bdiff_fold_in. unfold tget. cbn. tauto. Qed.
(** the keys *)
Lemma diff_pairs_keys i m uvs : forall nt x, In x (keys (fold_left (diff_pair i m) uvs nt)) -> In x (keys nt) \/ x = m.
Proof.
  induction uvs as [|uv uvs IH]; intros nt x H; cbn [fold_left] in H; [tauto|]. apply IH in H. destruct H as [H|H]; [|tauto].
  unfold diff_pair in H. rewrite !dset_keys_in in H. tauto.
Qed.
Lemma diff_pairs_nodup i m uvs : forall nt, NoDup (keys nt) -> NoDup (keys (fold_left (diff_pair i m) uvs nt)).
Proof. induction uvs as [|uv uvs IH]; intros nt H; cbn [fold_left]; [exact H|]. apply IH. unfold diff_pair. apply dset_NoDup, dset_NoDup, H. Qed.
Lemma bdiff_fold_keys i : forall t nt x, In x (keys (fold_left (diff_key i) t nt)) -> In x (keys nt) \/ exists m uvs, In (m, uvs) t /\ (x = m \/ (nth i m 0 <> 0 /\ x = dec m i)).
Proof.
  induction t as [|[m uvs] t IH]; intros nt x H; cbn [fold_left] in H; [tauto|]. apply IH in H. destruct H as [H|(m1 & u1 & Hin & H)].
  - unfold diff_key in H. apply diff_pairs_keys in H. destruct H as [H|H].
    + destruct (Nat.eqb_spec (nth i m 0) 0) as [E|E]; [tauto|]. apply dset_keys_in in H. destruct H as [H|H]; [|tauto].
      right. exists m, uvs. split; [left; reflexivity|tauto].
    + right. exists m, uvs. split; [left; reflexivity|tauto].
  - right. exists m1, u1. split; [right; exact Hin|exact H].
Qed.
Lemma bdiff_fold_nodup i : forall t nt, NoDup (keys nt) -> NoDup (keys (fold_left (diff_key i) t nt)).
Proof.
  induction t as [|[m uvs] t IH]; intros nt H; cbn [fold_left]; [exact H|]. apply IH. unfold diff_key. apply diff_pairs_nodup.
  destruct (nth i m 0 =? 0)%nat; [exact H|]. apply dset_NoDup, H.
Qed.

(** ** Repeated derivatives in one direction *)
Lemma lset_nth_same {A} (l : list A) (d : A) : forall j v, (j < length l)%nat -> nth j (lset l j v) d = v.
Proof. induction l as [|x l IH]; intros [|j] v H; cbn in *; try lia; [reflexivity|]. apply IH. lia. Qed.
Lemma lset_nth_other {A} (l : list A) (d : A) : forall j k v, j <> k -> nth k (lset l j v) d = nth k l d.
Proof. induction l as [|x l IH]; intros [|j] [|k] v H; cbn; try reflexivity; try lia. apply IH. lia. Qed.
Lemma lset_lset {A} (l : list A) : forall j v w, lset (lset l j v) j w = lset l j w.
Proof. induction l as [|x l IH]; intros [|j] v w; cbn; [reflexivity..|]. rewrite IH. reflexivity. Qed.
Lemma lset_id {A} (l : list A) (d : A) : forall j, lset l j (nth j l d) = l.
Proof. induction l as [|x l IH]; intros [|j]; cbn; [reflexivity..|]. rewrite IH. reflexivity. Qed.
Lemma nth_list_ext (l l' : list nat) : length l = length l' -> (forall k, nth k l 0%nat = nth k l' 0%nat) -> l = l'.
Proof. intros L H. apply (nth_ext _ _ 0%nat 0%nat L). intros k _. apply H. Qed.
Section Direction.
Variables (n i : nat).
Hypothesis Hi : (i < n)%nat.
Notation uo := (unit_order n i).
Lemma uo_length j : length (uo j) = n.
Proof. unfold unit_order. rewrite app_length, repeat_length. cbn [app length]. rewrite repeat_length. lia. Qed.
Lemma uo_nth j k : nth k (uo j) 0 = if (k =? i)%nat then j else 0%nat.
Proof.
  unfold unit_order. destruct (Nat.eqb_spec k i) as [->|H].
  - rewrite app_nth2; rewrite repeat_length; [|lia]. rewrite Nat.sub_diag. reflexivity.
  - destruct (Nat.lt_ge_cases k i) as [L|L].
    + rewrite app_nth1 by (rewrite repeat_length; exact L). apply nth_repeat.
    + rewrite app_nth2 by (rewrite repeat_length; lia). rewrite repeat_length. destruct (k - i)%nat as [|x] eqn:E; [lia|]. cbn [app nth]. apply nth_repeat.
Qed.
Lemma uo_inc j : inc (uo j) i = uo (S j).
Proof.
  unfold inc. apply nth_list_ext; [rewrite lset_length, !uo_length; reflexivity|]. intro k. destruct (Nat.eq_dec k i) as [->|H].
  - rewrite lset_nth_same by (rewrite uo_length; exact Hi). rewrite !uo_nth, Nat.eqb_refl. reflexivity.
  - rewrite lset_nth_other by lia. rewrite !uo_nth. destruct (Nat.eqb_spec k i); [contradiction|reflexivity].
Qed.
Lemma uo_inj j j' : uo j = uo j' -> j = j'.
Proof. intro E. pose proof (f_equal (fun l => nth i l 0%nat) E) as H. cbv beta in H. rewrite !uo_nth, Nat.eqb_refl in H. exact H. Qed.
Lemma uo_0 : uo 0 = repeat 0%nat n.
Proof.
  apply nth_list_ext; [rewrite uo_length, repeat_length; reflexivity|]. intro k. rewrite uo_nth, nth_repeat. destruct (k =? i)%nat; reflexivity.
Qed.
Variable m0 : list nat.
Hypothesis Hm : length m0 = n.
Notation k0 := (nth i m0 0).
Definition low (l : nat) : list nat := lset m0 i (k0 - l).
Lemma low_nth l : nth i (low l) 0 = (k0 - l)%nat.
Proof. apply lset_nth_same. lia. Qed.
Lemma low_0 : low 0 = m0.
Proof. unfold low. rewrite Nat.sub_0_r. apply lset_id. Qed.
Lemma low_dec l : (l < k0)%nat -> dec (low l) i = low (S l).
Proof. intro H. unfold dec. rewrite low_nth. unfold low. rewrite lset_lset. f_equal. lia. Qed.
Lemma low_inj l l' : (l <= k0)%nat -> (l' <= k0)%nat -> low l = low l' -> l = l'.
Proof. intros H H' E. pose proof (f_equal (fun x => nth i x 0%nat) E) as F. cbv beta in F. rewrite !low_nth in F. lia. Qed.
(** the pairs of total order [k] *)
Definition total (k : nat) (p : list nat * list nat) : Prop := exists u v, (u + v)%nat = k /\ p = reg (uo u) (uo v).
Lemma total_products k uv p : total k uv -> products i uv p -> total (S k) p.
Proof.
  intros (u & v & E & ->) H. unfold products in H. destruct (reg_cases (uo u) (uo v)) as [R|R]; rewrite R in H; cbn [fst snd] in H; rewrite !uo_inc in H; destruct H as [H|H].
  - exists (S u), v. split; [lia|exact H].
  - exists u, (S v). split; [lia|exact H].
  - exists u, (S v). split; [lia|]. rewrite H. apply reg_sym.
  - exists (S u), v. split; [lia|]. rewrite H. apply reg_sym.
Qed.
Lemma total_from_products k p : total (S k) p -> exists uv, total k uv /\ products i uv p.
Proof.
  intros (u & v & E & ->). assert (W : forall u v, (S u + v = S k)%nat -> exists uv, total k uv /\ products i uv (reg (uo (S u)) (uo v))).
  { clear u v E. intros u v E. exists (reg (uo u) (uo v)). split; [exists u, v; split; [lia|reflexivity]|]. unfold products.
    destruct (reg_cases (uo u) (uo v)) as [R|R]; rewrite R; cbn [fst snd]; rewrite !uo_inc; [left; reflexivity|right; apply reg_sym]. }
  destruct u as [|u].
  - destruct v as [|v]; [lia|]. rewrite reg_sym. apply W. lia.
  - apply W. lia.
Qed.
Definition good (s : nat) (t : terms) : Prop := NoDup (keys t) /\
  forall m S, In (m, S) t -> exists l, (l <= s)%nat /\ (l <= k0)%nat /\ m = low l /\ forall p, In p S <-> total (s - l) p.
Lemma good_step s t : good s t -> good (S s) (bdiff i t).
Proof.
  intros [Nd H]. assert (Nd' : NoDup (keys (bdiff i t))) by (apply bdiff_fold_nodup; constructor). split; [exact Nd'|]. intros m' T Hin.
  assert (ET : forall p, In p T <-> exists m uvs, In (m, uvs) t /\ source i m uvs m' p).
  { intro p. rewrite <- bdiff_in. unfold tget. rewrite (dget_some_of_in _ _ _ Nd' Hin). tauto. }
  assert (FWD : forall l, (l <= k0)%nat -> m' = low l -> forall p, In p T -> (l <= S s)%nat /\ total (S s - l) p).
  { intros l Hl El p Hp. apply ET in Hp. destruct Hp as (m & uvs & Hm' & Hs). destruct (H m uvs Hm') as (l1 & L1 & L2 & E1 & P).
    destruct Hs as [(Nz & E & Hp)|(E & uv & Huv & Hp)].
    - rewrite E1, low_nth in Nz. rewrite E1, low_dec in E by lia. assert (l = S l1) by (apply low_inj; [exact Hl|lia|congruence]). subst l.
      split; [lia|]. cbn [Nat.sub]. apply P, Hp.
    - assert (l = l1) by (apply low_inj; [exact Hl|exact L2|congruence]). subst l. split; [lia|]. replace (S s - l1)%nat with (S (s - l1)) by lia.
      apply total_products with uv; [apply P, Huv|exact Hp]. }
  assert (SRC : exists m uvs, In (m, uvs) t /\ (m' = m \/ (nth i m 0 <> 0 /\ m' = dec m i))).
  { pose proof (bdiff_fold_keys i t [] m' (in_map fst _ _ Hin)) as [[]|X]. exact X. }
  destruct SRC as (m & uvs & Hm' & C). destruct (H m uvs Hm') as (l1 & L1 & L2 & E1 & P). destruct C as [C|[Nz C]].
  - exists l1. split; [lia|]. split; [exact L2|]. assert (E : m' = low l1) by congruence. split; [exact E|]. intro p. split; [intro Hp; apply (FWD l1 L2 E p Hp)|].
    replace (S s - l1)%nat with (S (s - l1)) by lia. intro Hp. apply total_from_products in Hp. destruct Hp as (uv & Huv & Hp).
    apply ET. exists m, uvs. split; [exact Hm'|]. right. split; [exact C|]. exists uv. split; [apply P, Huv|exact Hp].
  - rewrite E1, low_nth in Nz. assert (E : m' = low (S l1)) by (rewrite C, E1; apply low_dec; lia).
    exists (S l1). split; [lia|]. split; [lia|]. split; [exact E|]. intro p. split; [intro Hp; refine (proj2 (FWD (S l1) _ E p Hp)); lia|].
    cbn [Nat.sub]. intro Hp. apply ET. exists m, uvs. split; [exact Hm'|]. left. split; [rewrite E1, low_nth; lia|]. split; [exact C|apply P, Hp].
Qed.
Lemma good_0 : good 0 [(m0, [(repeat 0%nat n, repeat 0%nat n)])].
Proof.
  split; [repeat constructor; intros []|]. intros m T [E|[]]. apply pair_equal_spec in E. destruct E as [<- <-]. exists 0%nat.
  split; [lia|]. split; [lia|]. split; [symmetry; apply low_0|]. intro p. cbn [In Nat.sub]. split.
  - intros [<-|[]]. exists 0%nat, 0%nat. split; [reflexivity|]. rewrite uo_0. destruct (reg_cases (repeat 0%nat n) (repeat 0%nat n)) as [R|R]; symmetry; exact R.
  - intros (u & v & E & ->). left. assert (u = 0%nat) by lia. assert (v = 0%nat) by lia. subst u v. rewrite uo_0.
    destruct (reg_cases (repeat 0%nat n) (repeat 0%nat n)) as [R|R]; symmetry; exact R.
Qed.
Lemma good_iter s : good s (Nat.iter s (bdiff i) [(m0, [(repeat 0%nat n, repeat 0%nat n)])]).
Proof. induction s as [|s IH]; [exact good_0|]. cbn. apply good_step, IH. Qed.
Lemma bdiff_monomial_unit s t : bdiff_monomial (uo s) t = Nat.iter s (bdiff i) t.
Proof.
  unfold bdiff_monomial. rewrite uo_length.
  assert (W : forall l t, (forall k, In k l -> k <> i) -> fold_left (fun b k => Nat.iter (nth k (uo s) 0) (bdiff k) b) l t = t).
  { induction l as [|k l IH]; intros t' Hl; [reflexivity|]. cbn [fold_left]. rewrite uo_nth. destruct (Nat.eqb_spec k i) as [E|E].
    - exfalso. apply (Hl k); [left; reflexivity|exact E].
    - cbn. apply IH. intros k' Hk'. apply Hl. right. exact Hk'. }
  assert (E : seq 0 n = seq 0 i ++ i :: seq (S i) (n - S i)) by (transitivity (seq 0 (i + S (n - S i))); [f_equal; lia|rewrite seq_app; reflexivity]).
  rewrite E, fold_left_app. cbn [fold_left].
  rewrite W by (intros k Hk; apply in_seq in Hk; lia). rewrite uo_nth, Nat.eqb_refl.
  f_equal. apply W. intros k Hk. apply in_seq in Hk. lia.
Qed.
Lemma direction_sets s m T : In (m, T) (bdiff_monomial (uo s) [(m0, [(repeat 0%nat n, repeat 0%nat n)])]) ->
  exists l, (l <= s)%nat /\ (l <= k0)%nat /\ m = low l /\ forall p, In p T <-> total (s - l) p.
Proof. rewrite bdiff_monomial_unit. apply good_iter. Qed.
End Direction.

Lemma bdiff_monomial_zero n (t : terms) : bdiff_monomial (repeat 0%nat n) t = t.
Proof.
  unfold bdiff_monomial. rewrite repeat_length. generalize (seq 0 n). intro l. revert t. induction l as [|k l IH]; intro t; [reflexivity|].
  cbn [fold_left]. rewrite nth_repeat. cbn. apply IH.
Qed.

(** ** The elimination only finds vanishing vectors *)
Section Eliminate.
Variable K : OrdField.
Local Open Scope of_scope.
Add Field Kf : (F_field K).
Variable B : list nat -> list nat -> K.
Variable Z : list nat -> Prop.
Hypothesis HB : forall u v, Z u -> B u v = 0.
Hypothesis HB' : forall u v, Z v -> B u v = 0.
Hypothesis HZ : forall u, B u u = 0 -> Z u.
(** a weighted sum of the pairs vanishes; pairs with a vanishing vector may be missing *)
Definition valid (s : pairs) : Prop := exists L : list ((list nat * list nat) * K),
  (forall e, In e L -> 0 < snd e) /\ fsum (map (fun e => snd e * B (fst (fst e)) (snd (fst e))) L) = 0 /\
  (forall e, In e L -> In (fst e) s \/ Z (fst (fst e)) \/ Z (snd (fst e))) /\
  (forall p, In p s -> exists e, In e L /\ fst e = p).
Definition valid' (s : pairs) : Prop := s = [] \/ valid s.
Lemma valid_filter s z : Z z -> valid s -> valid (filter (fun uv => negb (has z uv)) s).
Proof.
  intros Hz (L & H1 & H2 & H3 & H4). exists L. split; [exact H1|]. split; [exact H2|]. split.
  - intros e He. destruct (H3 e He) as [H|H]; [|tauto]. destruct (has z (fst e)) eqn:E.
    + right. unfold has in E. apply orb_prop in E. destruct E as [E|E]; apply meqb_eq in E; rewrite E; tauto.
    + left. apply filter_In. split; [exact H|]. rewrite E. reflexivity.
  - intros p Hp. apply filter_In in Hp. apply H4, (proj1 Hp).
Qed.
Lemma valid_single p : valid [(p, p)] -> Z p.
Proof.
  intros (L & H1 & H2 & H3 & H4). apply HZ. destruct (H4 (p, p) (or_introl eq_refl)) as (e & He & Ee).
  assert (E : fsum (map (fun e => snd e * B (fst (fst e)) (snd (fst e))) L) = fsum (map (fun e => if peq (fst e) (p, p) then snd e else 0) L) * B p p).
  { rewrite <- (fsum_map_mul_r K). apply (fsum_map_ext K). intros x Hx. destruct (peq (fst x) (p, p)) eqn:Q.
    - apply peq_eq in Q. rewrite Q. reflexivity.
    - replace (0 * B p p) with (0 : K) by ring. destruct (H3 x Hx) as [[F|[]]|[F|F]].
      + exfalso. rewrite <- F in Q. rewrite (proj2 (peq_eq (p, p) (p, p)) eq_refl) in Q. discriminate.
      + rewrite (HB _ _ F). ring.
      + rewrite (HB' _ _ F). ring. }
  rewrite H2 in E. symmetry in E. apply fmul_eq0 in E. destruct E as [E|E]; [|exact E]. exfalso.
  assert (P : forall l, (forall x, In x l -> 0 < snd x) -> 0 <= fsum (map (fun e : (list nat * list nat) * K => if peq (fst e) (p, p) then snd e else 0) l)).
  { intros l Hl. apply fsum_nonneg. intros x Hx. apply in_map_iff in Hx. destruct Hx as (y & <- & Hy). destruct (peq (fst y) (p, p)); [apply flt_le, Hl, Hy|apply fle_refl]. }
  apply in_split in He. destruct He as (l1 & l2 & ->). rewrite map_app, fsum_app in E. cbn [map fsum] in E.
  assert (Q : peq (fst e) (p, p) = true) by (apply peq_eq, Ee). rewrite Q in E.
  assert (0 < fsum (map (fun e => if peq (fst e) (p, p) then snd e else 0) l1) + (snd e + fsum (map (fun e => if peq (fst e) (p, p) then snd e else 0) l2))) as X.
  { apply fadd_pos_r; [apply P; intros x Hx; apply H1, in_or_app; left; exact Hx|]. apply fadd_pos_l; [apply H1, in_or_app; right; left; reflexivity|].
    apply P. intros x Hx. apply H1, in_or_app. right. right. exact Hx. }
  rewrite E in X. exact (flt_irrefl K 0 X).
Qed.
Lemma step_set_valid z s : (forall w, z = Some w -> Z w) -> valid' s ->
  valid' (fst (step_set z s)) /\ forall w, In w (snd (step_set z s)) -> Z w.
Proof.
  intros Hz Hs.
  assert (Q : forall s' : pairs, valid' s' -> let r := match s' with [p] => ([], if meqb (fst p) (snd p) then [fst p] else []) | _ => (s', []) end in
    valid' (fst r) /\ forall w, In w (snd r) -> Z w).
  { intros s' V. destruct s' as [|[u v] [|x r]].
    - split; [left; reflexivity|intros w []].
    - cbn [fst snd]. split; [left; reflexivity|]. destruct (meqb_spec u v) as [->|H]; [|intros w []]. intros w [<-|[]].
      destruct V as [V|V]; [discriminate|]. apply valid_single, V.
    - split; [exact V|intros w []]. }
  apply Q. destruct z as [z|]; [|exact Hs]. destruct Hs as [->|Hs]; [left; reflexivity|]. right. apply valid_filter; [apply Hz; reflexivity|exact Hs].
Qed.
Lemma eliminate_sound : forall fuel sets zeros handled,
  (forall s, In s sets -> valid' s) -> (forall w, In (Some w) zeros -> Z w) -> (forall w, In w handled -> Z w) ->
  forall w, In w (eliminate fuel sets zeros handled) -> Z w.
Proof.
  induction fuel as [|fuel IH]; intros sets zeros handled Hs Hq Hh w; [cbn; apply Hh|].
  destruct zeros as [|z zeros]; [cbn; apply Hh|]. cbn [eliminate].
  destruct (match z with Some z => existsb (meqb z) handled | None => false end); [apply IH; [exact Hs|intros x Hx; apply Hq; right; exact Hx|exact Hh]|].
  cbv zeta. assert (Hz : forall x, z = Some x -> Z x) by (intros x ->; apply Hq; left; reflexivity). apply IH.
  - intros s H. rewrite map_map in H. apply in_map_iff in H. destruct H as (s0 & <- & H). apply step_set_valid; [exact Hz|apply Hs, H].
  - intros x Hx. apply in_app_or in Hx. destruct Hx as [Hx|Hx]; [apply Hq; right; exact Hx|]. apply in_map_iff in Hx. destruct Hx as (y & E & Hy).
    injection E as ->. apply in_concat in Hy. destruct Hy as (l & Hl & Hy). rewrite map_map in Hl. apply in_map_iff in Hl. destruct Hl as (s0 & <- & Hl).
    apply (step_set_valid z s0 Hz (Hs s0 Hl)), Hy.
  - destruct z as [z|]; [|exact Hh]. intros x Hx. apply in_app_or in Hx. destruct Hx as [Hx|[<-|[]]]; [apply Hh, Hx|apply Hz; reflexivity].
Qed.
End Eliminate.

(** the fuel of [nonvanishing_orders] empties the queue: a set is popped at most once *)
Definition live (sets : list pairs) : nat := length (filter (fun s => match s with [] => false | _ => true end) sets).
Lemma step_live z sets : (live (map fst (map (step_set z) sets)) + length (concat (map snd (map (step_set z) sets))) <= live sets)%nat.
Proof.
  unfold live. induction sets as [|s sets IH]; [cbn; lia|]. cbn [map concat filter]. rewrite app_length.
  assert (X : (length (filter (fun s => match s with [] => false | _ => true end) [fst (step_set z s)]) + length (snd (step_set z s))
               <= match s with [] => 0 | _ => 1 end)%nat).
  { unfold step_set. destruct s as [|a s].
    - destruct z; cbn; lia.
    - destruct (match z with None => a :: s | Some z => filter (fun uv => negb (has z uv)) (a :: s) end) as [|[u v] [|x r]]; cbn; [lia| |lia].
      destruct (meqb u v); cbn; lia. }
  cbn [filter] in X. destruct (fst (step_set z s)); destruct s; cbn [length] in *; lia.
Qed.
Lemma eliminate_fuel : forall fuel sets zeros handled k, (length zeros + live sets < fuel)%nat ->
  eliminate (fuel + k) sets zeros handled = eliminate fuel sets zeros handled.
Proof.
  induction fuel as [|fuel IH]; intros sets zeros handled k H; [lia|]. cbn [Nat.add eliminate].
  destruct zeros as [|z zeros]; [reflexivity|]. cbn [length] in H.
  destruct (match z with Some z => existsb (meqb z) handled | None => false end); [apply IH; lia|].
  cbv zeta. apply IH. rewrite app_length, map_length. pose proof (step_live z sets). lia.
Qed.
Lemma live_length sets : (live sets <= length sets)%nat.
Proof. unfold live. induction sets as [|s sets IH]; [cbn; lia|]. cbn [filter]. destruct s; cbn [length]; lia. Qed.
Lemma eliminate_enough sets k : eliminate (S (S (length sets)) + k) sets [None] [] = eliminate (S (S (length sets))) sets [None] [].
Proof. apply eliminate_fuel. pose proof (live_length sets). cbn [length]. lia. Qed.
