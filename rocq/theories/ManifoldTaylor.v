(** * Expansions along a coordinate direction *)
From Coq Require Import Bool List Arith Lia Ring Field.
From Verif Require Import OrdField Base Congruence LinSolve LinSep Perm Poly PolyId PolyOps Partitions Shared Monomials Coeff ClearSym Expr CertLimit AcuteFacts SdpSos Manifold ManifoldSets.
Import ListNotations.

Section Taylor.
Variable K : OrdField.
Local Open Scope of_scope.
Add Field Kf : (F_field K).

(** ** The coefficients of (x + t)^a *)
Fixpoint tc (a j : nat) (x : K) : K :=
  match a, j with
  | O, O => 1
  | O, S _ => 0
  | S a, O => x * tc a 0 x
  | S a, S j => x * tc a (S j) x + tc a j x
  end.
Lemma tc_gt a : forall j x, (a < j)%nat -> tc a j x = 0.
Proof.
  induction a as [|a IH]; intros [|j] x H; cbn [tc]; try lia; [reflexivity|]. rewrite !IH by lia. ring.
Qed.
Lemma tc_sum a x t : forall N, (a < N)%nat -> (x + t) ^ a = bsum N (fun j => tc a j x * t ^ j).
Proof.
  induction a as [|a IH]; intros N H.
  - destruct N as [|N]; [lia|]. rewrite bsum_Sl. cbn [tc]. rewrite bsum_all0; [cbn [fpow]; ring|]. intros i _. cbn [fpow]. ring.
  - destruct N as [|N]; [lia|]. cbn [fpow]. rewrite bsum_Sl. cbn [tc].
    replace (bsum N (fun i => (x * tc a (S i) x + tc a i x) * t ^ S i)) with (x * bsum N (fun i => tc a (S i) x * t ^ S i) + t * bsum N (fun i => tc a i x * t ^ i)).
    + pose proof (IH (S N) ltac:(lia)) as E1. pose proof (IH N ltac:(lia)) as E2. rewrite bsum_Sl in E1.
      transitivity (x * (x + t) ^ a + t * (x + t) ^ a); [ring|]. rewrite E1 at 1. rewrite E2. cbn [fpow]. ring.
    + rewrite <- !bsum_mul_l, <- bsum_add. apply bsum_ext. intros i _. cbn [fpow]. ring.
Qed.
Lemma tc_0 a x : tc a 0 x = x ^ a.
Proof. induction a as [|a IH]; [reflexivity|]. cbn [tc fpow]. rewrite IH. reflexivity. Qed.
Lemma tc_step a : forall j x, fnat (S j) * tc (S a) (S j) x = fnat (S a) * tc a j x.
Proof.
  induction a as [|a IH]; intros j x.
  - cbn [tc]. destruct j as [|j]; cbn [fnat]; ring.
  - change (tc (S (S a)) (S j) x) with (x * tc (S a) (S j) x + tc (S a) j x).
    replace (fnat (S j) * (x * tc (S a) (S j) x + tc (S a) j x)) with (x * (fnat (S j) * tc (S a) (S j) x) + fnat (S j) * tc (S a) j x) by ring.
    rewrite IH. destruct j as [|j].
    + cbn [tc]. cbn [fnat]. ring.
    + replace (fnat (S (S j)) * tc (S a) (S j) x) with (fnat (S j) * tc (S a) (S j) x + tc (S a) (S j) x) by (cbn [fnat]; ring).
      rewrite IH. change (tc (S a) (S j) x) with (x * tc a (S j) x + tc a j x). cbn [fnat]. ring.
Qed.
Lemma tc_fact a : forall j x, (j <= a)%nat -> fnat (fact j) * fnat (fact (a - j)) * tc a j x = fnat (fact a) * x ^ (a - j).
Proof.
  induction a as [|a IH]; intros j x H.
  - assert (j = 0)%nat by lia. subst j. cbn. ring.
  - destruct j as [|j].
    + rewrite tc_0, Nat.sub_0_r. change (fact 0) with 1%nat. cbn [fnat]. ring.
    + assert (E : fnat (fact (S j)) = fnat (K := K) (S j) * fnat (fact j)) by (rewrite <- fnat_mul; f_equal).
      assert (E2 : fnat (fact (S a)) = fnat (K := K) (S a) * fnat (fact a)) by (rewrite <- fnat_mul; f_equal).
      rewrite E, E2. cbn [Nat.sub].
      replace (fnat (S j) * fnat (fact j) * fnat (fact (a - j)) * tc (S a) (S j) x) with (fnat (fact j) * fnat (fact (a - j)) * (fnat (S j) * tc (S a) (S j) x)) by ring.
      rewrite tc_step. replace (fnat (fact j) * fnat (fact (a - j)) * (fnat (S a) * tc a j x)) with (fnat (S a) * (fnat (fact j) * fnat (fact (a - j)) * tc a j x)) by ring.
      rewrite IH by lia. ring.
Qed.
Lemma fact_nz k : fnat (fact k) <> (0 : K).
Proof. apply flt_neq0. apply fnat_pos. apply lt_O_fact. Qed.
Lemma derv_fact a j : (j <= a)%nat -> (derv a j * fact (a - j) = fact a)%nat.
Proof.
  intro H. unfold derv. destruct (Nat.eqb_spec j 1) as [->|H1].
  - destruct a as [|a]; [lia|]. cbn [Nat.sub]. rewrite Nat.sub_0_r. reflexivity.
  - destruct (Nat.ltb_spec a j); [lia|]. rewrite Nat.mul_comm. symmetry. apply Nat.div_exact; [apply fact_neq_0|].
    assert (D : forall b c, (c <= b)%nat -> exists q, fact b = (q * fact c)%nat).
    { induction b as [|b IHb]; intros c Hc; [assert (c = 0)%nat by lia; subst; exists 1%nat; reflexivity|].
      destruct (Nat.eq_dec c (S b)) as [->|Ne]; [exists 1%nat; lia|]. destruct (IHb c ltac:(lia)) as [q Q]. exists (S b * q)%nat.
      change (fact (S b)) with (S b * fact b)%nat. rewrite Q. lia. }
    destruct (D a (a - j)%nat ltac:(lia)) as [q Q]. rewrite Q. apply Nat.mod_mul, fact_neq_0.
Qed.
Lemma tc_derv a j x : (j <= a)%nat -> fnat (fact j) * tc a j x = fnat (derv a j) * x ^ (a - j).
Proof.
  intro H. pose proof (tc_fact a j x H) as E. rewrite <- (derv_fact a j H), fnat_mul in E.
  assert (N := fact_nz (a - j)). assert (X : fnat (fact (a - j)) * (fnat (fact j) * tc a j x - fnat (derv a j) * x ^ (a - j)) = 0).
  { replace (fnat (fact (a - j)) * (fnat (fact j) * tc a j x - fnat (derv a j) * x ^ (a - j))) with
      (fnat (fact j) * fnat (fact (a - j)) * tc a j x - fnat (derv a j) * fnat (fact (a - j)) * x ^ (a - j)) by ring. rewrite E. ring. }
  apply fmul_eq0 in X. destruct X as [X|X]; [contradiction|]. apply (fsub_eq0 K). exact X.
Qed.

(** ** Monomials and polynomials along [r + t e_i] *)
Definition line (r : list K) (i : nat) (t : K) : nat -> K := fun k => if (k =? i)%nat then vget r i + t else vget r k.
Lemma line_0 r i k : line r i 0 k = vget r k.
Proof. unfold line. destruct (Nat.eqb_spec k i) as [->|_]; [ring|reflexivity]. Qed.
Lemma meval_lset (m : list nat) : forall (x : nat -> K) i v, (i < length m)%nat -> meval x (lset m i v) = x i ^ v * meval x (lset m i 0%nat).
Proof.
  induction m as [|e m IH]; intros x [|i] v H; cbn [length] in H; try lia; cbn [lset]; rewrite !meval_cons.
  - cbn [fpow]. ring.
  - rewrite (IH (fun k => x (S k)) i v) by lia. ring.
Qed.
Lemma meval_split (m : list nat) (x : nat -> K) i : (i < length m)%nat -> meval x m = x i ^ nth i m 0%nat * meval x (lset m i 0%nat).
Proof. intro H. rewrite <- (meval_lset m x i (nth i m 0%nat) H), lset_id. reflexivity. Qed.
Definition rest (r : list K) (i : nat) (m : list nat) : K := meval (vget r) (lset m i 0%nat).
Lemma rest_line r i t m : (i < length m)%nat -> meval (line r i t) (lset m i 0%nat) = rest r i m.
Proof.
  intro H. unfold rest, meval. rewrite lset_length. apply (fprod_map_ext K). intros k Hk. unfold line. destruct (Nat.eqb_spec k i) as [->|Ne]; [|reflexivity].
  rewrite lset_nth_same by exact H. reflexivity.
Qed.
Lemma meval_line_pow r i t m : (i < length m)%nat -> meval (line r i t) m = (vget r i + t) ^ nth i m 0%nat * rest r i m.
Proof.
  intro H. rewrite (meval_split m _ i H), rest_line by exact H. unfold line at 1. rewrite Nat.eqb_refl. reflexivity.
Qed.
(** the coefficient of [t^j] *)
Definition tm (r : list K) (i : nat) (m : list nat) (j : nat) : K := tc (nth i m 0%nat) j (vget r i) * rest r i m.
Lemma meval_line r i t m N : (i < length m)%nat -> (nth i m 0 < N)%nat -> meval (line r i t) m = bsum N (fun j => tm r i m j * t ^ j).
Proof.
  intros H HN. rewrite meval_line_pow by exact H. rewrite (tc_sum _ _ _ N HN), <- bsum_mul_r. apply bsum_ext. intros j _. unfold tm. ring.
Qed.
Definition tf (r : list K) (i : nat) (p : poly K) (j : nat) : K := fsum (map (fun t => snd t * tm r i (fst t) j) p).
Lemma peval_line r i t p n N : (i < n)%nat -> (forall m, In m (keys p) -> length m = n /\ (nth i m 0 < N)%nat) ->
  peval (line r i t) p = bsum N (fun j => tf r i p j * t ^ j).
Proof.
  intros Hi. unfold peval, tf. induction p as [|[m c] p IH]; intro H; cbn [map fsum fst snd].
  - rewrite bsum_all0; [reflexivity|]. intros; ring.
  - rewrite IH by (intros m' Hm'; apply H; right; exact Hm'). destruct (H m (or_introl eq_refl)) as [L B].
    rewrite (meval_line r i t m N) by lia. rewrite <- bsum_mul_l, <- bsum_add. apply bsum_ext. intros j _. ring.
Qed.
Lemma tf_0 r i p : (forall m, In m (keys p) -> (i < length m)%nat) -> tf r i p 0 = peval (vget r) p.
Proof.
  intro H. unfold tf, peval. apply (fsum_map_ext K). intros [m c] Hin. cbn [fst snd]. f_equal. unfold tm. rewrite tc_0. unfold rest.
  symmetry. apply meval_split. apply (H m), (in_map fst _ _ Hin).
Qed.
Lemma tf_pdiff r i p j : (forall m, In m (keys p) -> (i < length m)%nat) -> tf r i (pdiff i p) j = fnat (S j) * tf r i p (S j).
Proof.
  unfold tf, pdiff. induction p as [|[m c] p IH]; intro H; [cbn; ring|]. cbn [flat_map map fst snd]. rewrite map_app, fsum_app, IH by (intros m' Hm'; apply H; right; exact Hm').
  pose proof (H m (or_introl eq_refl)) as L. change (fsum (?x :: ?l)) with (x + fsum l).
  match goal with |- ?a + ?b * ?s = ?b * (?x + ?s) => cut (a = b * x); [intros ->; ring|] end.
  unfold tm. destruct (Nat.eqb_spec (nth i m 0%nat) 0) as [E|E].
  - cbn [map fsum]. rewrite E. cbn [tc]. ring.
  - cbn [map fsum fst snd]. unfold rest, dec. rewrite lset_nth_same by exact L. rewrite lset_lset. destruct (nth i m 0%nat) as [|a]; [contradiction|]. cbn [pred].
    replace (fnat (S j) * (c * (tc (S a) (S j) (vget r i) * meval (vget r) (lset m i 0%nat)))) with ((fnat (S j) * tc (S a) (S j) (vget r i)) * (c * meval (vget r) (lset m i 0%nat))) by ring.
    rewrite tc_step. ring.
Qed.
Lemma pdiff_lengths i (p : poly K) n : (forall m, In m (keys p) -> length m = n) -> forall m, In m (keys (pdiff i p)) -> length m = n.
Proof.
  intros H m Hm. unfold keys, pdiff in Hm. apply in_map_iff in Hm. destruct Hm as ([m1 c1] & E & Hin). cbn in E. subst m1.
  apply in_flat_map in Hin. destruct Hin as ([m2 c2] & H2 & Hin). cbn [fst snd] in Hin. destruct (nth i m2 0 =? 0)%nat; [destruct Hin|].
  destruct Hin as [E|[]]. apply pair_equal_spec in E. destruct E as [<- _]. unfold dec. rewrite lset_length. apply (H m2), (in_map fst _ _ H2).
Qed.
Lemma iter_lengths i n (p : poly K) : (forall m, In m (keys p) -> length m = n) -> forall j m, In m (keys (Nat.iter j (pdiff i) p)) -> length m = n.
Proof. intros H. induction j as [|j IH]; [exact H|]. cbn. apply pdiff_lengths, IH. Qed.
Lemma tf_iter r i n p : (i < n)%nat -> (forall m, In m (keys p) -> length m = n) -> forall j k,
  tf r i (Nat.iter j (pdiff i) p) k * fnat (fact k) = fnat (fact (j + k)) * tf r i p (j + k).
Proof.
  intros Hi H. induction j as [|j IH]; intro k; [change (0 + k)%nat with k; change (Nat.iter 0 (pdiff i) p) with p; ring|]. cbn [Nat.iter nat_rect].
  change (nat_rect (fun _ => poly K) p (fun _ => pdiff i) j) with (Nat.iter j (pdiff i) p).
  rewrite tf_pdiff by (intros m Hm; rewrite (iter_lengths i n p H j m Hm); exact Hi).
  replace (fnat (S k) * tf r i (Nat.iter j (pdiff i) p) (S k) * fnat (fact k)) with (tf r i (Nat.iter j (pdiff i) p) (S k) * (fnat (S k) * fnat (fact k))) by ring.
  rewrite <- fnat_mul. change (S k * fact k)%nat with (fact (S k)). rewrite IH. rewrite Nat.add_succ_r. reflexivity.
Qed.
(** the derivative of order [j] at the root *)
Lemma derivative_coefficient r i n p j : (i < n)%nat -> (forall m, In m (keys p) -> length m = n) ->
  peval (vget r) (Nat.iter j (pdiff i) p) = 0 -> tf r i p j = 0.
Proof.
  intros Hi H E. pose proof (tf_iter r i n p Hi H j 0) as X.
  rewrite tf_0, E in X by (intros m Hm; rewrite (iter_lengths i n p H j m Hm); exact Hi). rewrite Nat.add_0_r in X.
  assert (Z : fnat (fact j) * tf r i p j = 0) by (rewrite <- X; ring). apply fmul_eq0 in Z. destruct Z as [Z|Z]; [|exact Z]. destruct (fact_nz j Z).
Qed.
(** ** [as_vec] *)
Lemma fprod_one {A} (h : A -> K) l : (forall k, In k l -> h k = 1) -> fprod (map h l) = 1.
Proof. induction l as [|k l IH]; intro H; [reflexivity|]. cbn [map fprod fold_right]. change (h k * fprod (map h l) = 1). rewrite H by (left; reflexivity). rewrite IH by (intros k' Hk'; apply H; right; exact Hk'). ring. Qed.
Lemma fprod_single n (h : nat -> K) i : (i < n)%nat -> (forall k, (k < n)%nat -> k <> i -> h k = 1) -> fprod (map h (seq 0 n)) = h i.
Proof.
  intros Hi H. assert (E : seq 0 n = seq 0 i ++ i :: seq (S i) (n - S i)) by (transitivity (seq 0 (i + S (n - S i))); [f_equal; lia|rewrite seq_app; reflexivity]).
  rewrite E, map_app, fprod_app. cbn [map]. change (fprod (h i :: ?l)) with (h i * fprod l).
  rewrite !fprod_one; [ring| |]; intros k Hk; apply in_seq in Hk; apply H; lia.
Qed.
Lemma derv_0 a : derv a 0 = 1%nat.
Proof. unfold derv. cbn [Nat.eqb]. destruct (Nat.ltb_spec a 0); [lia|]. rewrite Nat.sub_0_r. apply Nat.div_same, fact_neq_0. Qed.
Lemma as_vec_entry_unit n r i j m : (i < n)%nat -> length m = n -> as_vec_entry n r (unit_order n i j) m = fnat (fact j) * tm r i m j.
Proof.
  intros Hi L. unfold as_vec_entry.
  assert (EX : existsb (fun k => (nth k m 0 <? nth k (unit_order n i j) 0)%nat) (seq 0 n) = (nth i m 0 <? j)%nat).
  { apply eq_true_iff_eq. rewrite existsb_exists. split.
    - intros (k & Hk & E). rewrite uo_nth in E by exact Hi. destruct (Nat.eqb_spec k i) as [->|]; [exact E|]. apply Nat.ltb_lt in E. lia.
    - intro E. exists i. split; [apply in_seq; lia|]. rewrite uo_nth by exact Hi. rewrite Nat.eqb_refl. exact E. }
  rewrite EX. destruct (Nat.ltb_spec (nth i m 0%nat) j) as [H|H].
  - unfold tm. rewrite tc_gt by exact H. ring.
  - rewrite (fprod_single n (fun k => fnat (derv (nth k m 0%nat) (nth k (unit_order n i j) 0%nat))) i Hi).
    + rewrite uo_nth, Nat.eqb_refl by exact Hi. unfold tm. replace (fnat (fact j) * (tc (nth i m 0%nat) j (vget r i) * rest r i m)) with (fnat (fact j) * tc (nth i m 0%nat) j (vget r i) * rest r i m) by ring.
      rewrite tc_derv by exact H.
      replace (fprod (map (fun k => vget r k ^ (nth k m 0 - nth k (unit_order n i j) 0)%nat) (seq 0 n))) with (meval (vget r) (lset m i (nth i m 0 - j)%nat)).
      * rewrite meval_lset by lia. unfold rest. ring.
      * unfold meval. rewrite lset_length, L. apply (fprod_map_ext K). intros k Hk. apply in_seq in Hk. rewrite uo_nth by exact Hi. destruct (Nat.eqb_spec k i) as [->|Ne].
        -- rewrite lset_nth_same by lia. reflexivity.
        -- rewrite lset_nth_other by lia. rewrite Nat.sub_0_r. reflexivity.
    + intros k Hk Ne. rewrite uo_nth by exact Hi. destruct (Nat.eqb_spec k i); [contradiction|]. rewrite derv_0. cbn [fnat]. ring.
Qed.
Lemma as_vec_entry_zero n (r : list K) m : length m = n -> as_vec_entry n r (repeat 0%nat n) m = meval (vget r) m.
Proof.
  intro L. unfold as_vec_entry.
  assert (EX : existsb (fun k => (nth k m 0 <? nth k (repeat 0 n) 0)%nat) (seq 0 n) = false).
  { destruct (existsb _ _) eqn:E; [|reflexivity]. apply existsb_exists in E. destruct E as (k & _ & E). rewrite nth_repeat in E. apply Nat.ltb_lt in E. lia. }
  rewrite EX. rewrite (fprod_one (fun k => fnat (derv (nth k m 0%nat) (nth k (repeat 0%nat n) 0%nat)))).
  - unfold meval. rewrite L. replace (map (fun i => vget r i ^ (nth i m 0 - nth i (repeat 0 n) 0)%nat) (seq 0 n)) with (map (fun i => vget r i ^ nth i m 0%nat) (seq 0 n)); [ring|].
    apply map_ext. intro k. rewrite nth_repeat, Nat.sub_0_r. reflexivity.
  - intros k _. rewrite nth_repeat, derv_0. cbn [fnat]. ring.
Qed.

(** ** Order of vanishing of a polynomial function at 0 *)
Definition vord (N : nat) (f : K -> K) : Prop := exists h, is_poly K h /\ forall t, f t = t ^ N * h t.
Lemma poly_cancel_t f g : is_poly K f -> is_poly K g -> (forall t, t * f t = t * g t) -> forall t, f t = g t.
Proof.
  intros Hf Hg H t. assert (Z : forall s, s <> 0 -> f s = g s).
  { intros s Hs. assert (s * (f s - g s) = 0) as X by (replace (s * (f s - g s)) with (s * f s - s * g s) by ring; rewrite H; ring).
    apply fmul_eq0 in X. destruct X as [X|X]; [contradiction|]. apply (fsub_eq0 K), X. }
  destruct (feq_dec K t 0) as [E|E]; [|apply Z, E]. rewrite E. apply (fsub_eq0 K).
  apply (zero_by_product K (fun s => f s - g s) (fun s => s)).
  - apply poly_sub; assumption.
  - apply (poly_ext K (fun s => 0 + s * 1)); [intro; ring|apply poly_line].
  - exists 1. apply fneq10.
  - intro s. replace ((f s - g s) * s) with (s * f s - s * g s) by ring. rewrite H. ring.
Qed.
Lemma poly_at_zero f : is_poly K f -> f 0 = 0 -> exists g, is_poly K g /\ forall t, f t = t * g t.
Proof.
  intros [l H] E. destruct l as [|a l].
  - exists (fun _ => 0). split; [apply poly_const|]. intro t. rewrite H. cbn. ring.
  - exists (horner K l). split; [exists l; reflexivity|]. intro t. rewrite H. cbn [horner]. rewrite H in E. cbn [horner] in E.
    replace a with (a + 0 * horner K l 0) by ring. rewrite E. ring.
Qed.
Lemma poly_nonneg_at_0 f e : is_poly K f -> 0 < e -> (forall t, 0 < t -> t <= e -> 0 <= f t) -> 0 <= f 0.
Proof.
  intros [l H] He P. apply fnot_lt_le. intro N. rewrite H in N. destruct (horner_neg_near K l N) as (d & D0 & D1 & D).
  assert (M : exists t, 0 < t /\ t <= d /\ t <= e).
  { destruct (d <=? e) eqn:E; [exists d|exists e].
    - apply fleb_le in E. split; [exact D0|]. split; [apply fle_refl|exact E].
    - split; [exact He|]. split; [apply flt_le, E|apply fle_refl]. }
  destruct M as (t & T0 & T1 & T2). specialize (D t T0 T1). specialize (P t T0 T2). rewrite H in P. exact (proj1 (flt_not_le K _ _) D P).
Qed.
(** in a sum of functions that are non-negative for small t >= 0, each summand vanishes to the order of the sum *)
Lemma vord_split_l e : 0 < e -> forall N (L : list (list K)), (forall q t, In q L -> 0 <= t -> t <= e -> 0 <= horner K q t) ->
  vord N (fun t => fsum (map (fun q => horner K q t) L)) -> forall q, In q L -> vord N (horner K q).
Proof.
  intro He. induction N as [|N IH]; intros L Hn (h & Hh & E) q Hq.
  - exists (horner K q). split; [exists q; reflexivity|]. intro t. cbn [fpow]. ring.
  - assert (Z : forall b, In b L -> horner K b 0 = 0).
    { assert (S0 : fsum (map (fun q => horner K q 0) L) = 0) by (rewrite E; cbn [fpow]; ring).
      assert (P0 : forall b, In b L -> 0 <= horner K b 0) by (intros b Hb; apply Hn; [exact Hb|apply fle_refl|apply flt_le, He]).
      clear -S0 P0. induction L as [|c L IH]; intros b Hb; [destruct Hb|]. cbn [map fsum] in S0.
      assert (R : 0 <= fsum (map (fun q => horner K q 0) L)).
      { apply fsum_nonneg. intros x Hx. apply in_map_iff in Hx. destruct Hx as (y & <- & Hy). apply P0. right. exact Hy. }
      destruct (fadd_eq0_nonneg K _ _ (P0 c (or_introl eq_refl)) R S0) as [A B].
      destruct Hb as [<-|Hb]; [exact A|]. apply IH; [exact B|intros; apply P0; right; assumption|exact Hb]. }
    assert (T : forall b t, In b L -> horner K b t = t * horner K (tl b) t).
    { intros b t Hb. pose proof (Z b Hb) as Zb. destruct b as [|x b]; cbn [tl horner] in *; [ring|]. replace (x + 0 * horner K b 0) with x in Zb by ring. rewrite Zb. ring. }
    assert (V : vord N (fun t => fsum (map (fun q => horner K q t) (map (@tl K) L)))).
    { exists h. split; [exact Hh|]. apply poly_cancel_t.
      - apply (poly_fsum K (fun q t => horner K q t)). intros b _. exists b. reflexivity.
      - apply poly_mul; [|exact Hh]. apply poly_pow. apply (poly_ext K (fun s => 0 + s * 1)); [intro; ring|apply poly_line].
      - intro t. rewrite map_map, <- (fsum_map_mul_l K). transitivity (t ^ S N * h t); [|cbn [fpow]; ring]. rewrite <- E.
        apply (fsum_map_ext K). intros b Hb. symmetry. apply T, Hb. }
    destruct (IH (map (@tl K) L)) with (q := tl q) as (g & Hg & Eg).
    + intros b t Hb T0 T1. apply in_map_iff in Hb. destruct Hb as (b0 & <- & Hb).
      assert (P : forall s, 0 < s -> s <= e -> 0 <= horner K (tl b0) s).
      { intros s S0 S1. pose proof (Hn b0 s Hb (flt_le S0) S1) as Q. rewrite (T b0 s Hb) in Q.
        replace (horner K (tl b0) s) with (1 / s * (s * horner K (tl b0) s)) by (field; apply flt_neq0, S0).
        apply fmul_nonneg; [|exact Q]. apply fdiv_nonneg; [apply f1_nonneg|exact S0]. }
      destruct (feq_dec K t 0) as [->|Nt].
      * apply (poly_nonneg_at_0 (horner K (tl b0)) e); [exists (tl b0); reflexivity|exact He|exact P].
      * apply P; [|exact T1]. apply flt_le_neq. split; [exact T0|]. intro X. apply Nt. symmetry. exact X.
    + exact V.
    + apply in_map, Hq.
    + exists g. split; [exact Hg|]. intro t. rewrite (T q t Hq), Eg. cbn [fpow]. ring.
Qed.
Lemma poly_choice {A} (f : A -> K -> K) l : (forall a, In a l -> is_poly K (f a)) -> exists L, Forall2 (fun a q => forall t, f a t = horner K q t) l L.
Proof.
  induction l as [|a l IH]; intro H; [exists []; constructor|]. destruct IH as [L HL]; [intros; apply H; right; assumption|].
  destruct (H a (or_introl eq_refl)) as [q Hq]. exists (q :: L). constructor; assumption.
Qed.
(** in a sum of functions that are non-negative for small t >= 0, each summand vanishes to the order of the sum *)
Lemma vord_split {A} (l : list A) e N (f : A -> K -> K) : 0 < e -> (forall a, In a l -> is_poly K (f a)) ->
  (forall a t, In a l -> 0 <= t -> t <= e -> 0 <= f a t) -> vord N (fun t => fsum (map (fun a => f a t) l)) ->
  forall a, In a l -> vord N (f a).
Proof.
  intros He Hp Hn (h & Hh & E) a Ha. destruct (poly_choice f l Hp) as [L F].
  assert (F1 : forall q, In q L -> exists b, In b l /\ forall t, f b t = horner K q t).
  { clear -F. induction F as [|x y l L Hxy F IH]; intros q []; [subst; exists x; split; [left; reflexivity|exact Hxy]|].
    destruct (IH q H) as (b & Hb & Eb). exists b. split; [right; exact Hb|exact Eb]. }
  assert (F2 : exists q, In q L /\ forall t, f a t = horner K q t).
  { clear -F Ha. induction F as [|x y l L Hxy F IH]; [destruct Ha|]. destruct Ha as [->|Ha]; [exists y; split; [left; reflexivity|exact Hxy]|].
    destruct (IH Ha) as (q & Hq & Eq). exists q. split; [right; exact Hq|exact Eq]. }
  assert (F3 : forall t, fsum (map (fun a => f a t) l) = fsum (map (fun q => horner K q t) L)).
  { intro t. clear -F. induction F as [|x y l L Hxy F IH]; [reflexivity|]. cbn [map fsum]. rewrite IH, Hxy. reflexivity. }
  destruct F2 as (q & Hq & Eq). destruct (vord_split_l e He N L) with (q := q) as (g & Hg & Eg).
  - intros b t Hb T0 T1. destruct (F1 b Hb) as (c & Hc & Ec). rewrite <- Ec. apply Hn; assumption.
  - exists h. split; [exact Hh|]. intro t. rewrite <- F3. apply E.
  - exact Hq.
  - exists g. split; [exact Hg|]. intro t. rewrite Eq. apply Eg.
Qed.
Lemma poly_t N : is_poly K (fun t => t ^ N).
Proof. apply poly_pow. apply (poly_ext K (fun s => 0 + s * 1)); [intro; ring|apply poly_line]. Qed.
Lemma vord_cancel_unit N : forall u f, is_poly K u -> is_poly K f -> u 0 <> 0 -> vord N (fun t => u t * f t) -> vord N f.
Proof.
  induction N as [|N IH]; intros u f Hu Hf U0 (h & Hh & E).
  - exists f. split; [exact Hf|]. intro t. cbn [fpow]. ring.
  - assert (Z : f 0 = 0).
    { pose proof (E 0) as E0. cbn [fpow] in E0. assert (X : u 0 * f 0 = 0) by (rewrite E0; ring). apply fmul_eq0 in X. destruct X as [X|X]; [contradiction|exact X]. }
    destruct (poly_at_zero f Hf Z) as (g & Hg & Eg). destruct (IH u g Hu Hg U0) as (h' & Hh' & E').
    + exists h. split; [exact Hh|]. apply poly_cancel_t; [apply poly_mul; assumption|apply poly_mul; [apply poly_t|exact Hh]|].
      intro t. transitivity (u t * f t); [rewrite Eg; ring|]. rewrite E. cbn [fpow]. ring.
    + exists h'. split; [exact Hh'|]. intro t. rewrite Eg, E'. cbn [fpow]. ring.
Qed.
Lemma vord_cancel_t k : forall N f, is_poly K f -> (k <= N)%nat -> vord N (fun t => t ^ k * f t) -> vord (N - k) f.
Proof.
  induction k as [|k IH]; intros N f Hf H (h & Hh & E).
  - rewrite Nat.sub_0_r. exists h. split; [exact Hh|]. intro t. rewrite <- E. cbn [fpow]. ring.
  - destruct N as [|N]; [lia|]. cbn [Nat.sub]. apply IH; [exact Hf|lia|]. exists h. split; [exact Hh|].
    apply poly_cancel_t; [apply poly_mul; [apply poly_t|exact Hf]|apply poly_mul; [apply poly_t|exact Hh]|].
    intro t. transitivity (t ^ S k * f t); [cbn [fpow]; ring|]. rewrite E. cbn [fpow]. ring.
Qed.
Lemma poly_bsum M (c : nat -> K -> K) : (forall j, (j < M)%nat -> is_poly K (c j)) -> is_poly K (fun t => bsum M (fun j => c j t)).
Proof.
  induction M as [|M IH]; intro H; [exact (poly_const K 0)|]. apply (poly_add K (fun t => bsum M (fun j => c j t)) (c M)); [apply IH; intros; apply H; lia|apply H; lia].
Qed.
Lemma vord_coefs N : forall M (c : nat -> K), vord N (fun t => bsum M (fun j => c j * t ^ j)) -> forall j, (j < N)%nat -> (j < M)%nat -> c j = 0.
Proof.
  induction N as [|N IH]; intros M c (h & Hh & E) j Hj HM; [lia|]. destruct M as [|M]; [lia|].
  assert (Z : c 0%nat = 0).
  { pose proof (E 0) as E0. rewrite bsum_Sl, bsum_all0 in E0 by (intros; cbn [fpow]; ring). cbn [fpow] in E0. transitivity (c 0%nat * 1 + 0); [ring|]. rewrite E0. ring. }
  destruct j as [|j]; [exact Z|]. apply (IH M (fun k => c (S k))); [|lia|lia]. exists h. split; [exact Hh|].
  apply poly_cancel_t.
  - apply poly_bsum. intros k _. apply poly_mul; [apply poly_const|apply poly_t].
  - apply poly_mul; [apply poly_t|exact Hh].
  - intro t. transitivity (t ^ S N * h t); [|cbn [fpow]; ring]. rewrite <- E, bsum_Sl, Z, <- bsum_mul_l.
    rewrite (bsum_ext K M _ (fun i => c (S i) * t ^ S i)) by (intros; cbn [fpow]; ring). ring.
Qed.
Lemma coefs_vord N M (c : nat -> K) : (forall j, (j < N)%nat -> (j < M)%nat -> c j = 0) -> vord N (fun t => bsum M (fun j => c j * t ^ j)).
Proof.
  revert M c. induction N as [|N IH]; intros M c H.
  - eexists. split; [apply (poly_bsum M (fun j t => c j * t ^ j)); intros; apply poly_mul; [apply poly_const|apply poly_t]|]. intro t. cbn [fpow]. ring.
  - destruct M as [|M].
    + exists (fun _ => 0). split; [apply poly_const|]. intro t. cbn. ring.
    + destruct (IH M (fun k => c (S k))) as (h & Hh & E); [intros; apply H; lia|]. exists h. split; [exact Hh|]. intro t.
      rewrite bsum_Sl, H by lia. cbn [fpow]. rewrite (bsum_ext K M _ (fun i => t * (c (S i) * t ^ i))) by (intros; ring). rewrite bsum_mul_l, E. ring.
Qed.
(** ** Products *)
Lemma bsum_shift u : forall M (F : nat -> K), bsum (u + M) (fun n => if (u <=? n)%nat then F (n - u)%nat else 0) = bsum M F.
Proof.
  induction u as [|u IH]; intros M F; [cbn [Nat.add]; apply bsum_ext; intros i _; cbn; rewrite Nat.sub_0_r; reflexivity|].
  cbn [Nat.add]. rewrite bsum_Sl. rewrite <- (IH M F). change (S u <=? 0)%nat with false. cbv iota.
  match goal with |- 0 + ?a = ?b => change a with b end. ring.
Qed.
(** the Cauchy product of two finite sums *)
Lemma bsum_trunc N M (F : nat -> K) : (N <= M)%nat -> (forall j, (N <= j)%nat -> F j = 0) -> bsum M F = bsum N F.
Proof.
  intros H Z. replace M with (N + (M - N))%nat by lia. rewrite bsum_split.
  rewrite (bsum_all0 K (M - N)) by (intros; apply Z; lia). ring.
Qed.
Lemma cauchy N (A : nat -> nat -> K) : (forall u v, (N <= u)%nat \/ (N <= v)%nat -> A u v = 0) ->
  bsum N (fun u => bsum N (fun v => A u v)) = bsum (N + N) (fun k => bsum (S k) (fun u => A u (k - u)%nat)).
Proof.
  intro Z.
  transitivity (bsum (N + N) (fun k => bsum (N + N) (fun u => if (u <=? k)%nat then A u (k - u)%nat else 0))).
  - rewrite (bsum_swap K (N + N) (N + N) (fun k u => if (u <=? k)%nat then A u (k - u)%nat else 0)). rewrite (bsum_trunc N (N + N)).
    + apply bsum_ext. intros u Hu. cbv beta. pose proof (bsum_shift u (N + N - u) (fun v => A u v)) as X. replace (u + (N + N - u))%nat with (N + N)%nat in X by lia.
      cbv beta in X. rewrite X. symmetry. apply bsum_trunc; [lia|]. intros v Hv. apply Z. right. exact Hv.
    + lia.
    + intros u Hu. apply bsum_all0. intros k _. destruct (u <=? k)%nat; [apply Z; left; exact Hu|reflexivity].
  - apply bsum_ext. intros k Hk. rewrite (bsum_trunc (S k) (N + N)).
    + apply bsum_ext. intros u Hu. rewrite (proj2 (Nat.leb_le u k)) by lia. reflexivity.
    + lia.
    + intros u Hu. rewrite (proj2 (Nat.leb_gt u k)) by lia. reflexivity.
Qed.
End Taylor.
