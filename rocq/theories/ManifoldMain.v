(** * The null spaces of roots do not cut off Gram matrices (Manifold.v) *)
From Coq Require Import Bool List Arith Lia Permutation Ring Field.
From Verif Require Import OrdField Base Congruence LinSolve LinSep Perm Poly PolyOps Partitions Shared Monomials MonomialsLemmas Coeff ClearSym SdpSos SdpSosFacts SdpSosCert SdpSosGroups SdpTransform CertLimit Manifold ManifoldSets ManifoldTaylor.
Import ListNotations.

(** ** Specification *)
Section Spec.
Context {K : OrdField}.
Local Open Scope of_scope.
Variable n : nat.
Variable G : list (list nat).
(** one Gram block at a point *)
Definition gram_value (d : nat) (gM : poly K * list (list K)) (x : nat -> K) : K :=
  peval x (fst gM) * qform (length (gram_vec n d (fst gM))) (snd gM) (fun k => meval x (nth k (gram_vec n d (fst gM)) [])).
(** [f] is the sum of the blocks over all permutations of the variables, wherever the equalities hold *)
Definition gram_certificate (f : poly K) (eqs : list (poly K)) (Ms : list (poly K * list (list K))) : Prop :=
  forall x, (forall h p, In h eqs -> In p G -> peval (fun i => x (nth i p 0%nat)) h = 0) ->
  peval x f = fsum (map (fun gM => fsum (map (fun p => gram_value (total_degree f) gM (fun i => x (nth i p 0%nat))) G)) Ms).
(** symmetric positive semidefinite matrices for constraints *)
Definition gram_blocks (d : nat) (ineqs : list (poly K)) (Ms : list (poly K * list (list K))) : Prop :=
  forall gM, In gM Ms -> In (fst gM) ineqs /\ symmetric (length (gram_vec n d (fst gM))) (snd gM) /\ psd (length (gram_vec n d (fst gM))) (snd gM).
(** the constraints hold at a point and all its permutations *)
Definition admissible (ineqs eqs : list (poly K)) (x : nat -> K) : Prop := forall p, In p G ->
  (forall g, In g ineqs -> 0 <= peval (fun i => x (nth i p 0%nat)) g) /\ (forall h, In h eqs -> peval (fun i => x (nth i p 0%nat)) h = 0).
(** ... and still hold when coordinate [i] grows a little *)
Definition inward (ineqs eqs : list (poly K)) (r : list K) (i : nat) : Prop :=
  exists e, 0 < e /\ forall t, 0 <= t -> t <= e -> admissible ineqs eqs (fun k => if (k =? i)%nat then vget r i + t else vget r k).
(** [M w = 0] *)
Definition mat_kills (N : nat) (M : list (list K)) (w : nat -> K) : Prop := forall a, (a < N)%nat -> bsum N (fun b => mget M a b * w b) = 0.
End Spec.

Lemma iter_r {A} (h : A -> A) k x : Nat.iter (S k) h x = Nat.iter k h (h x).
Proof. induction k as [|k IH]; [reflexivity|]. change (Nat.iter (S (S k)) h x) with (h (Nat.iter (S k) h x)). rewrite IH. reflexivity. Qed.

Section Psd.
Variable K : OrdField.
Local Open Scope of_scope.
Add Field Kf0 : (F_field K).
Definition bil (N : nat) (M : list (list K)) (x y : nat -> K) : K := bsum N (fun a => bsum N (fun b => x a * mget M a b * y b)).
Lemma bil_kill_r N (M : list (list K)) x y : mat_kills N M y -> bil N M x y = 0.
Proof.
  intro H. unfold bil. apply (bsum_all0 K). intros a Ha. transitivity (x a * bsum N (fun b => mget M a b * y b)).
  - rewrite <- bsum_mul_l. apply bsum_ext. intros; ring.
  - rewrite H by exact Ha. ring.
Qed.
Lemma bil_sym N (M : list (list K)) x y : symmetric N M -> bil N M x y = bil N M y x.
Proof. intro H. unfold bil. rewrite bsum_swap. apply bsum_ext. intros a Ha. apply bsum_ext. intros b Hb. rewrite (H b a Hb Ha). ring. Qed.
Lemma psd_kernel N (M : list (list K)) x : symmetric N M -> psd N M -> qform N M x = 0 -> mat_kills N M x.
Proof.
  intros HS HP Z a Ha. set (y := fun b : nat => if (b =? a)%nat then 1 else 0 : K).
  set (be := bsum N (fun b => mget M a b * x b)).
  assert (B : bil N M y x = be).
  { unfold bil. rewrite (bsum_single K N a); [|exact Ha|].
    - unfold y, be. rewrite Nat.eqb_refl. apply bsum_ext. intros; ring.
    - intros b Hb Ne. apply (bsum_all0 K). intros c Hc. unfold y. destruct (Nat.eqb_spec b a); [congruence|ring]. }
  assert (E : forall t, qform N M (fun b => x b + t * y b) = fnat 2 * t * be + t * t * qform N M y).
  { intro t. transitivity (qform N M x + t * bil N M x y + t * bil N M y x + t * t * qform N M y).
    - unfold qform, bil. rewrite <- !bsum_mul_l, <- !bsum_add. apply bsum_ext. intros b Hb. rewrite <- !bsum_mul_l, <- !bsum_add.
      apply bsum_ext. intros c Hc. ring.
    - rewrite (bil_sym N M x y HS), B, Z. cbn [fnat]. ring. }
  set (ga := qform N M y) in *. pose proof (HP y) as Hg. fold ga in Hg.
  assert (P : 0 < ga + 1) by (apply fadd_pos_r; [exact Hg|apply f1_pos]).
  pose proof (HP (fun b => x b + (- be / (ga + 1)) * y b)) as Q. rewrite E in Q.
  destruct (feq_dec K be 0) as [E0|Ne]; [exact E0|exfalso].
  assert (N1 : ga + 1 <> 0) by (intro Y; rewrite Y in P; exact (flt_irrefl K 0 P)).
  assert (Y : fnat 2 * (- be / (ga + 1)) * be + (- be / (ga + 1)) * (- be / (ga + 1)) * ga
              = - (be * be * (ga + 1 + 1) * (finv (ga + 1) * finv (ga + 1)))) by (cbn [fnat]; field; exact N1).
  rewrite Y in Q.
  assert (R : 0 < be * be * (ga + 1 + 1) * (finv (ga + 1) * finv (ga + 1))).
  { apply fmul_pos; [apply fmul_pos; [apply fsqr_pos, Ne|apply fadd_pos_l; [exact P|apply f1_nonneg]]|apply fmul_pos; apply finv_pos, P]. }
  apply (flt_not_le K) in R. apply R. apply fle_sub. eapply eq_ind; [exact Q|ring].
Qed.
End Psd.

Section Cert.
Variable K : OrdField.
Local Open Scope of_scope.
Add Field Kf : (F_field K).
Variable n : nat.
Variable G : list (list nat).
Hypothesis HG : is_group n G.
Variable f : poly K.
Hypothesis Wf : wf n f.
Variables ineqs eqs : list (poly K).
Hypothesis Hw : forall g, In g ineqs -> wf n g.
Variable Ms : list (poly K * list (list K)).
Hypothesis HM : gram_blocks n (total_degree f) ineqs Ms.
Hypothesis HI : gram_certificate n G f eqs Ms.
Notation d := (total_degree f).
Notation vec g := (gram_vec n (total_degree f) g).
Notation perm x p := (fun i => x (nth i p 0%nat)).

Lemma vec_len (g : poly K) k : (k < length (vec g))%nat -> length (nth k (vec g) []) = n.
Proof. intro H. apply (base_monoms_in n true ((d - total_degree g) / 2)). apply nth_In, H. Qed.
Lemma block_nonneg gM x : In gM Ms -> 0 <= peval x (fst gM) -> 0 <= gram_value n d gM x.
Proof. intros H Hg. unfold gram_value. apply fmul_nonneg; [exact Hg|]. apply (HM gM H). Qed.
Lemma terms_flat x : (forall h p, In h eqs -> In p G -> peval (perm x p) h = 0) ->
  peval x f = fsum (map (fun t => gram_value n d (fst t) (perm x (snd t))) (list_prod Ms G)).
Proof.
  intro H. rewrite (HI x H). clear. induction Ms as [|gM l IH]; [reflexivity|]. cbn [map list_prod]. change (fsum (?a :: ?l)) with (a + fsum l).
  rewrite IH, map_app, fsum_app, map_map. reflexivity.
Qed.
Lemma block_ext gM (x y : nat -> K) : In gM Ms -> (forall k, (k < n)%nat -> x k = y k) -> gram_value n d gM x = gram_value n d gM y.
Proof.
  intros H E. unfold gram_value. f_equal; [apply (peval_ext_len K n); [apply Hw, (HM gM H)|exact E]|].
  assert (EM : forall k, (k < length (vec (fst gM)))%nat -> meval x (nth k (vec (fst gM)) []) = meval y (nth k (vec (fst gM)) [])).
  { intros k Hk. unfold meval. rewrite (vec_len _ k Hk). apply (fprod_map_ext K). intros j Hj. apply in_seq in Hj. rewrite E by lia. reflexivity. }
  unfold qform. apply bsum_ext. intros a Ha. apply bsum_ext. intros b Hb. rewrite !EM by assumption. reflexivity.
Qed.
Lemma perm_id (x : nat -> K) k : (k < n)%nat -> x (nth k (pid n) 0%nat) = x k.
Proof. intro H. unfold pid. rewrite seq_nth by exact H. reflexivity. Qed.
(** *** A root *)
Lemma zero_block x gM : peval x f = 0 -> admissible G ineqs eqs x -> In gM Ms -> gram_value n d gM x = 0.
Proof.
  intros Z A I. rewrite terms_flat in Z by (intros h p Hh Hp; apply (A p Hp), Hh).
  assert (N : forall t, In t (list_prod Ms G) -> 0 <= gram_value n d (fst t) (perm x (snd t))).
  { intros [b p] Ht. apply in_prod_iff in Ht. destruct Ht as [Hb Hp]. cbn [fst snd]. apply block_nonneg; [exact Hb|]. apply (A p Hp), (HM b Hb). }
  rewrite (block_ext gM x (perm x (pid n)) I) by (intros k Hk; symmetry; apply perm_id, Hk).
  assert (J : In (gM, pid n) (list_prod Ms G)) by (apply in_prod_iff; split; [exact I|apply (g_id n G HG)]).
  revert Z N J. generalize (list_prod Ms G). intro l. induction l as [|t l IH]; intros Z N J; [destruct J|].
  cbn [map] in Z. change (fsum (?a :: ?l)) with (a + fsum l) in Z.
  assert (N1 := N t (or_introl eq_refl)).
  assert (N2 : 0 <= fsum (map (fun t => gram_value n d (fst t) (perm x (snd t))) l)).
  { apply fsum_nonneg. intros v Hv. apply in_map_iff in Hv. destruct Hv as (s & <- & Hs). apply N. right. exact Hs. }
  destruct (fadd_eq0_nonneg K _ _ N1 N2 Z) as [Z1 Z2]. destruct J as [->|J]; [exact Z1|]. apply IH; [exact Z2|intros s Hs; apply N; right; exact Hs|exact J].
Qed.
Lemma zero_kills x gM : peval x f = 0 -> admissible G ineqs eqs x -> In gM Ms -> peval x (fst gM) <> 0 ->
  mat_kills (length (vec (fst gM))) (snd gM) (fun k => meval x (nth k (vec (fst gM)) [])).
Proof.
  intros Z A I Ne. pose proof (zero_block x gM Z A I) as B. unfold gram_value in B. apply (fmul_eq0 K) in B. destruct B as [B|B]; [contradiction|].
  apply psd_kernel; [apply (HM gM I)|apply (HM gM I)|exact B].
Qed.
(** *** A direction *)
Lemma meval_poly (y : K -> nat -> K) m : (forall k, (k < length m)%nat -> is_poly K (fun t => y t k)) -> is_poly K (fun t => meval (y t) m).
Proof.
  revert y. induction m as [|e m IH]; intros y H.
  - apply (poly_ext K (fun _ => 1)); [|apply poly_const]. intro t. rewrite meval_nil. reflexivity.
  - apply (poly_ext K (fun t => y t 0%nat ^ e * meval (fun k => y t (S k)) m)); [intro t; rewrite meval_cons; reflexivity|].
    apply poly_mul; [apply (poly_pow K (fun t => y t 0%nat)), H; cbn; lia|]. apply (IH (fun t k => y t (S k))). intros k Hk. apply (H (S k)). cbn. lia.
Qed.
Lemma peval_poly (y : K -> nat -> K) (p : poly K) : wf n p -> (forall k, (k < n)%nat -> is_poly K (fun t => y t k)) -> is_poly K (fun t => peval (y t) p).
Proof.
  intros [_ Hl] H. unfold peval. apply (poly_fsum K (fun (e : list nat * K) t => snd e * meval (y t) (fst e))). intros [m c] Hin. cbn [fst snd].
  apply poly_mul; [apply poly_const|]. apply meval_poly. intros k Hk. apply H. rewrite <- (Hl m (in_map fst _ _ Hin)). exact Hk.
Qed.
Lemma qform_poly N (M : list (list K)) (y : K -> nat -> K) : (forall k, (k < N)%nat -> is_poly K (fun t => y t k)) -> is_poly K (fun t => qform N M (y t)).
Proof.
  intro H. unfold qform. apply (poly_bsum K N (fun a t => bsum N (fun b => y t a * mget M a b * y t b))). intros a Ha.
  apply (poly_bsum K N (fun b t => y t a * mget M a b * y t b)). intros b Hb. apply poly_mul; [apply poly_mul; [apply H, Ha|apply poly_const]|apply H, Hb].
Qed.
Lemma line_poly r i k : is_poly K (fun t => line K r i t k).
Proof.
  unfold line. destruct (k =? i)%nat; [|apply poly_const]. apply (poly_ext K (fun t => vget r i + t * 1)); [intro; ring|apply poly_line].
Qed.
Lemma block_poly gM (y : K -> nat -> K) : In gM Ms -> (forall k, is_poly K (fun t => y t k)) -> is_poly K (fun t => gram_value n d gM (y t)).
Proof.
  intros I H. unfold gram_value. apply poly_mul.
  - apply peval_poly; [apply Hw, (HM gM I)|intros; apply H].
  - apply (qform_poly _ _ (fun t k => meval (y t) (nth k (vec (fst gM)) []))). intros k Hk. apply meval_poly. intros; apply H.
Qed.
Lemma poly_zero_near (h : K -> K) e : is_poly K h -> 0 < e -> (forall t, 0 < t -> t <= e -> h t = 0) -> forall t, h t = 0.
Proof.
  intros [l Hl] He Z t. rewrite Hl. assert (Z' : forall t, 0 < t -> t <= e -> horner K l t = 0) by (intros s S1 S2; rewrite <- Hl; apply Z; assumption).
  clear h Hl Z. revert t. induction l as [|a l IH]; intro t; [reflexivity|]. cbn [horner] in *.
  assert (P : is_poly K (fun t => a + t * horner K l t)) by (exists (a :: l); reflexivity).
  assert (E : a = 0).
  { transitivity (a + 0 * horner K l 0); [ring|]. apply (fle_antisym K).
    - apply fle_sub. replace (0 - (a + 0 * horner K l 0)) with (0 - (a + 0 * horner K l 0) + 0) by ring.
      pose proof (poly_nonneg_at_0 K (fun t => 0 - (a + t * horner K l t)) e) as Q. cbn beta in Q. eapply eq_ind; [apply Q|ring].
      + apply (poly_sub K (fun _ => 0)); [apply poly_const|exact P].
      + exact He.
      + intros s S1 S2. rewrite Z' by assumption. replace (0 - 0) with (0 : K) by ring. apply fle_refl.
    - apply (poly_nonneg_at_0 K (fun t => a + t * horner K l t) e P He). intros s S1 S2. rewrite Z' by assumption. apply fle_refl. }
  rewrite IH; [rewrite E; ring|]. intros s S1 S2. specialize (Z' s S1 S2). rewrite E in Z'.
  assert (Y : s * horner K l s = 0) by (transitivity (0 + s * horner K l s); [ring|exact Z']). apply (fmul_eq0 K) in Y. destruct Y as [Y|Y]; [|exact Y].
  rewrite Y in S1. destruct (flt_irrefl K 0 S1).
Qed.
Lemma direction_block r i N gM : (i < n)%nat -> inward G ineqs eqs r i -> In gM Ms ->
  vord K N (fun t => peval (line K r i t) f) -> vord K N (fun t => gram_value n d gM (line K r i t)).
Proof.
  intros Hi (e & He & A) I V.
  assert (PS : is_poly K (fun t => fsum (map (fun s => gram_value n d (fst s) (perm (line K r i t) (snd s))) (list_prod Ms G)))).
  { apply (poly_fsum K (fun s t => gram_value n d (fst s) (perm (line K r i t) (snd s)))). intros [b p] Hs. apply in_prod_iff in Hs. cbn [fst snd].
    apply (block_poly b (fun t => perm (line K r i t) p)); [apply Hs|]. intro k. apply line_poly. }
  assert (EQ : forall t, peval (line K r i t) f = fsum (map (fun s => gram_value n d (fst s) (perm (line K r i t) (snd s))) (list_prod Ms G))).
  { intro t. apply (fsub_eq0 K). revert t.
    apply (poly_zero_near (fun t => peval (line K r i t) f - fsum (map (fun s => gram_value n d (fst s) (perm (line K r i t) (snd s))) (list_prod Ms G))) e).
    - apply poly_sub; [apply peval_poly; [exact Wf|intros; apply line_poly]|exact PS].
    - exact He.
    - intros t T1 T2. rewrite terms_flat; [ring|]. intros h p Hh Hp. apply (A t (flt_le T1) T2 p Hp), Hh. }
  destruct (vord_split K (list_prod Ms G) e N (fun s t => gram_value n d (fst s) (perm (line K r i t) (snd s)))) with (a := (gM, pid n)) as (h & Ph & Eh).
  - exact He.
  - intros [b p] Hs. apply in_prod_iff in Hs. cbn [fst snd]. apply (block_poly b (fun t => perm (line K r i t) p)); [apply Hs|]. intro k. apply line_poly.
  - intros [b p] t Hs T1 T2. apply in_prod_iff in Hs. destruct Hs as [Hb Hp]. cbn [fst snd]. apply block_nonneg; [exact Hb|]. apply (A t T1 T2 p Hp), (HM b Hb).
  - destruct V as (h & Ph & Eh). exists h. split; [exact Ph|]. intro t. rewrite <- EQ. apply Eh.
  - apply in_prod_iff. split; [exact I|apply (g_id n G HG)].
  - exists h. split; [exact Ph|]. intro t. rewrite <- Eh. cbn [fst snd]. apply block_ext; [exact I|]. intros k Hk. symmetry. apply perm_id, Hk.
Qed.
(** the form of one block along the line *)
Lemma degree_bound i N (l : list (list nat)) : exists D, (N <= D)%nat /\ forall m, In m l -> (nth i m 0 < D)%nat.
Proof.
  induction l as [|m l (D & H1 & H2)]; [exists N; split; [lia|intros m []]|]. exists (S (Nat.max D (nth i m 0%nat))). split; [lia|].
  intros m' [<-|H]; [lia|]. specialize (H2 m' H). lia.
Qed.
Lemma form_coefs r i (g : poly K) (M : list (list K)) N : (i < n)%nat ->
  vord K N (fun t => qform (length (vec g)) M (fun k => meval (line K r i t) (nth k (vec g) []))) ->
  forall k, (k < N)%nat -> bsum (S k) (fun u => bil K (length (vec g)) M (fun a => tm K r i (nth a (vec g) []) u) (fun a => tm K r i (nth a (vec g) []) (k - u)%nat)) = 0.
Proof.
  intros Hi V k Hk. destruct (degree_bound i N (vec g)) as (D & D1 & D2).
  set (w := fun u a => tm K r i (nth a (vec g) []) u).
  assert (EQ : forall t, qform (length (vec g)) M (fun k => meval (line K r i t) (nth k (vec g) []))
             = bsum (D + D) (fun k => bsum (S k) (fun u => bil K (length (vec g)) M (w u) (w (k - u)%nat)) * t ^ k)).
  { intro t. transitivity (bsum D (fun u => bsum D (fun v => t ^ u * t ^ v * bil K (length (vec g)) M (w u) (w v)))).
    - unfold qform, bil.
      transitivity (bsum (length (vec g)) (fun a => bsum (length (vec g)) (fun b => bsum D (fun u => bsum D (fun v => t ^ u * t ^ v * (w u a * mget M a b * w v b)))))).
      + apply bsum_ext. intros a Ha. apply bsum_ext. intros b Hb.
        assert (LE : forall c, (c < length (vec g))%nat -> meval (line K r i t) (nth c (vec g) []) = bsum D (fun j => w j c * t ^ j)).
        { intros c Hc. apply meval_line; [rewrite vec_len by exact Hc; exact Hi|apply D2, nth_In, Hc]. }
        rewrite (LE a Ha), (LE b Hb). rewrite <- bsum_mul_r. rewrite <- bsum_mul_r. apply bsum_ext. intros u Hu. rewrite <- bsum_mul_l. apply bsum_ext. intros; ring.
      + transitivity (bsum (length (vec g)) (fun a => bsum D (fun u => bsum D (fun v => bsum (length (vec g)) (fun b => t ^ u * t ^ v * (w u a * mget M a b * w v b)))))).
        { apply bsum_ext. intros a Ha. rewrite (bsum_swap K (length (vec g)) D). apply bsum_ext. intros u Hu. apply bsum_swap. }
        rewrite (bsum_swap K (length (vec g)) D). apply bsum_ext. intros u Hu. rewrite (bsum_swap K (length (vec g)) D). apply bsum_ext. intros v Hv.
        rewrite <- bsum_mul_l. apply bsum_ext. intros a Ha. rewrite <- bsum_mul_l. apply bsum_ext. intros; reflexivity.
    - assert (W0 : forall u a, (D <= u)%nat -> (a < length (vec g))%nat -> w u a = 0).
      { intros u a Hu Ha. unfold w, tm. rewrite tc_gt; [ring|]. specialize (D2 _ (nth_In (vec g) [] Ha)). lia. }
      rewrite (cauchy K D (fun u v => t ^ u * t ^ v * bil K (length (vec g)) M (w u) (w v))).
      + apply bsum_ext. intros j Hj. rewrite <- bsum_mul_r. apply bsum_ext. intros u Hu. replace (t ^ j) with (t ^ u * t ^ (j - u)); [ring|].
        rewrite <- fpow_add. f_equal. lia.
      + intros u v H. replace (bil K (length (vec g)) M (w u) (w v)) with (0 : K); [ring|]. symmetry. unfold bil.
        apply (bsum_all0 K). intros a Ha. apply (bsum_all0 K). intros b Hb. destruct H as [H|H]; [rewrite (W0 u a H Ha)|rewrite (W0 v b H Hb)]; ring. }
  assert (V' : vord K N (fun t => bsum (D + D) (fun k => bsum (S k) (fun u => bil K (length (vec g)) M (w u) (w (k - u)%nat)) * t ^ k))).
  { destruct V as (h & Ph & Eh). exists h. split; [exact Ph|]. intro t. rewrite <- EQ. apply Eh. }
  exact (vord_coefs K N (D + D) _ V' k Hk ltac:(lia)).
Qed.
(** *** The orders found *)
Lemma orders_loop_in fuel i (r : list K) : forall j (p : poly K) o, In o (orders_loop n fuel i j p r) ->
  exists s, (j <= s)%nat /\ o = unit_order n i s /\ forall k, (k <= s - j)%nat -> peval (vget r) (Nat.iter k (pdiff i) p) = 0.
Proof.
  induction fuel as [|fuel IH]; intros j p o H; [destruct H|]. cbn [orders_loop] in H.
  destruct (total_degree p =? 0)%nat; cbn [negb andb] in H; [destruct H|]. destruct (peval (root_at r) p =? 0) eqn:E; [|destruct H].
  apply feqb_eq in E. destruct H as [<-|H].
  - exists j. split; [lia|]. split; [reflexivity|]. intros k Hk. assert (k = 0)%nat by lia. subst k. exact E.
  - destruct (IH _ _ _ H) as (s & S1 & S2 & S3). exists s. split; [lia|]. split; [exact S2|]. intros [|k] Hk; [exact E|].
    rewrite iter_r. apply S3. lia.
Qed.
Lemma diff_orders_in r o : In o (diff_orders n f r) -> o = repeat 0%nat n \/
  exists i s, (i < n)%nat /\ (1 <= s)%nat /\ is_binary r = true /\ o = unit_order n i s /\ forall k, (1 <= k)%nat -> (k <= s)%nat -> peval (vget r) (Nat.iter k (pdiff i) f) = 0.
Proof.
  unfold diff_orders. destruct (is_binary r); intros [<-|H]; try (left; reflexivity); [|destruct H].
  apply in_flat_map in H. destruct H as (i & Hi & H). apply in_seq in Hi. apply orders_loop_in in H. destruct H as (s & S1 & S2 & S3).
  right. exists i, s. split; [lia|]. split; [exact S1|]. split; [reflexivity|]. split; [exact S2|]. intros [|k] K1 K2; [lia|]. rewrite iter_r. apply S3. lia.
Qed.
Lemma vanishing_order r i s : (i < n)%nat -> peval (vget r) f = 0 -> (forall k, (1 <= k)%nat -> (k <= s)%nat -> peval (vget r) (Nat.iter k (pdiff i) f) = 0) ->
  vord K (S s) (fun t => peval (line K r i t) f).
Proof.
  intros Hi Z H. destruct (degree_bound i 0 (keys f)) as (D & _ & HD).
  destruct (coefs_vord K (S s) D (tf K r i f)) as (h & Ph & Eh).
  - intros j Hj _. apply (derivative_coefficient K r i n f j Hi (proj2 Wf)). destruct j as [|j]; [exact Z|]. apply H; lia.
  - exists h. split; [exact Ph|]. intro t. rewrite <- Eh. apply (peval_line K r i t f n D Hi). intros m Hm. split; [apply (proj2 Wf), Hm|apply HD, Hm].
Qed.
Lemma nonvanish_in r m k : nonvanish r m = true -> (k < length m)%nat -> nth k m 0%nat <> 0%nat -> vget r k <> (0 : K).
Proof.
  unfold nonvanish. rewrite forallb_forall. intros H Hk Ne E. specialize (H k). rewrite in_seq in H. specialize (H ltac:(lia)).
  apply orb_prop in H. destruct H as [H|H]; [apply Nat.eqb_eq in H; contradiction|]. rewrite E in H. apply negb_true_iff in H. apply (feqb_neq K) in H. apply H. reflexivity.
Qed.
Lemma meval_neq0 (x : nat -> K) m : (forall k, (k < length m)%nat -> nth k m 0%nat <> 0%nat -> x k <> 0) -> meval x m <> 0.
Proof.
  intro H. unfold meval. apply fprod_neq0. intros v Hv. apply in_map_iff in Hv. destruct Hv as (k & <- & Hk). apply in_seq in Hk.
  destruct (Nat.eq_dec (nth k m 0%nat) 0) as [E|E]; [rewrite E; cbn [fpow]; apply fneq10|]. apply fpow_neq0. apply H; [lia|exact E].
Qed.

Section Point.
Variable r : list K.
Hypothesis Hr : peval (vget r) f = 0.
Hypothesis HA : admissible G ineqs eqs (vget r).
Hypothesis HD : is_binary r = true -> forall i, (i < n)%nat -> peval (vget r) (pdiff i f) = 0 -> inward G ineqs eqs r i.
Variables (m : list nat) (c : K) (M : list (list K)).
Hypothesis Hin : In ([(m, c)], M) Ms.
Hypothesis Hc : c <> 0.
Notation g := [(m, c)].
Notation N := (length (vec g)).
Definition asv (o : list nat) : nat -> K := fun k => as_vec_entry n r o (nth k (vec g) []).
Lemma m_len : length m = n.
Proof. destruct (HM _ Hin) as (I & _). apply (Hw _ I). left. reflexivity. Qed.
Lemma M_sym : symmetric N M. Proof. apply (HM _ Hin). Qed.
Lemma M_psd : psd N M. Proof. apply (HM _ Hin). Qed.
Lemma bil_kill_l x y : mat_kills N M x -> bil K N M x y = 0.
Proof. intro H. rewrite bil_sym by exact M_sym. apply bil_kill_r, H. Qed.
Notation Z := (fun o => mat_kills N M (asv o)).
Notation B := (fun o o' => bil K N M (asv o) (asv o')).
Lemma bil_ext (x x' y y' : nat -> K) : (forall k, (k < N)%nat -> x k = x' k) -> (forall k, (k < N)%nat -> y k = y' k) -> bil K N M x y = bil K N M x' y'.
Proof. intros H1 H2. unfold bil. apply bsum_ext. intros a Ha. apply bsum_ext. intros b Hb. rewrite H1, H2 by assumption. reflexivity. Qed.
Lemma asv_unit i j k : (i < n)%nat -> (k < N)%nat -> asv (unit_order n i j) k = fnat (fact j) * tm K r i (nth k (vec g) []) j.
Proof. intros Hi Hk. unfold asv. apply as_vec_entry_unit; [exact Hi|apply vec_len, Hk]. Qed.
Lemma zero_set_valid : nonvanish r m = true -> valid K B Z [(repeat 0%nat n, repeat 0%nat n)].
Proof.
  intro NV. exists [((repeat 0%nat n, repeat 0%nat n), 1)]. split; [intros e [<-|[]]; apply f1_pos|].
  assert (E : bil K N M (asv (repeat 0%nat n)) (asv (repeat 0%nat n)) = 0).
  { rewrite (bil_ext _ (fun k => meval (vget r) (nth k (vec g) [])) _ (fun k => meval (vget r) (nth k (vec g) []))) by (intros k Hk; apply as_vec_entry_zero, vec_len, Hk).
    pose proof (zero_block (vget r) (g, M) Hr HA Hin) as Q. unfold gram_value in Q. cbn [fst snd] in Q. apply (fmul_eq0 K) in Q. destruct Q as [Q|Q]; [|exact Q].
    exfalso. unfold peval in Q. cbn [map fst snd] in Q. change (fsum [c * meval (vget r) m]) with (c * meval (vget r) m + 0) in Q.
    assert (Q' : c * meval (vget r) m = 0) by (transitivity (c * meval (vget r) m + 0); [ring|exact Q]).
    revert Q'. apply (fmul_neq0 K); [exact Hc|]. apply meval_neq0. intros k Hk Ne. exact (nonvanish_in r m k NV Hk Ne). }
  split; [|split].
  - cbn [map fst snd]. change (fsum (?a :: [])) with (a + 0). rewrite E. ring.
  - intros e [<-|[]]. left. left. reflexivity.
  - intros p [<-|[]]. eexists. split; [left; reflexivity|reflexivity].
Qed.
Lemma direction_valid i s m' T : (i < n)%nat -> (1 <= s)%nat -> is_binary r = true ->
  (forall k, (1 <= k)%nat -> (k <= s)%nat -> peval (vget r) (Nat.iter k (pdiff i) f) = 0) ->
  In (m', T) (bdiff_monomial (unit_order n i s) [(m, [(repeat 0%nat n, repeat 0%nat n)])]) -> nonvanish r m' = true -> valid K B Z T.
Proof.
  intros Hi Hs HB HZ HT NV.
  destruct (direction_sets n i Hi m m_len s m' T HT) as (l & L1 & L2 & -> & TT).
  assert (Lm : (i < length m)%nat) by (rewrite m_len; exact Hi).
  assert (V : vord K (S s) (fun t => gram_value n d (g, M) (line K r i t))).
  { apply direction_block; [exact Hi|apply HD; [exact HB|exact Hi|apply (HZ 1%nat); lia]|exact Hin|apply vanishing_order; assumption]. }
  assert (RN : rest K r i m <> 0).
  { unfold rest. apply meval_neq0. intros k Hk Ne. rewrite lset_length in Hk. destruct (Nat.eq_dec k i) as [->|Nk]; [rewrite lset_nth_same in Ne by exact Lm; congruence|].
    rewrite lset_nth_other in Ne by lia. apply (nonvanish_in r _ k NV); [unfold low; rewrite lset_length; exact Hk|]. unfold low. rewrite lset_nth_other by lia. exact Ne. }
  set (qf := fun t => qform N M (fun k => meval (line K r i t) (nth k (vec g) []))).
  assert (Pq : is_poly K qf).
  { apply (qform_poly N M (fun t k => meval (line K r i t) (nth k (vec g) []))). intros k Hk. apply meval_poly. intros; apply line_poly. }
  assert (EB : forall t, gram_value n d (g, M) (line K r i t) = c * rest K r i m * (vget r i + t) ^ nth i m 0%nat * qf t).
  { intro t. unfold gram_value. cbn [fst snd]. fold (qf t). f_equal. unfold peval. cbn [map fst snd]. change (fsum (?a :: [])) with (a + 0).
    rewrite meval_line_pow by exact Lm. ring. }
  assert (VQ : exists W, (s - l < W)%nat /\ vord K W qf).
  { destruct (feq_dec K (vget r i) 0) as [E0|E0].
    - assert (l = nth i m 0%nat).
      { destruct (Nat.eq_dec (nth i m 0%nat - l)%nat 0%nat) as [E|E]; [lia|]. exfalso. apply (nonvanish_in r _ i NV); [unfold low; rewrite lset_length; exact Lm| |exact E0].
        unfold low. rewrite lset_nth_same by exact Lm. exact E. }
      exists (S s - nth i m 0)%nat. split; [lia|]. apply vord_cancel_t; [exact Pq|lia|].
      apply (vord_cancel_unit K (S s) (fun _ => c * rest K r i m)); [apply poly_const|apply poly_mul; [apply poly_t|exact Pq]|apply (fmul_neq0 K); assumption|].
      destruct V as (h & Ph & Eh). exists h. split; [exact Ph|]. intro t. rewrite <- Eh, EB, E0. replace (0 + t) with t by ring. ring.
    - exists (S s). split; [lia|]. apply (vord_cancel_unit K (S s) (fun t => c * rest K r i m * (vget r i + t) ^ nth i m 0%nat)).
      + apply poly_mul; [apply poly_const|]. apply (poly_pow K (fun t => vget r i + t)). apply (poly_ext K (fun t => vget r i + t * 1)); [intro; ring|apply poly_line].
      + exact Pq.
      + replace (vget r i + 0) with (vget r i) by ring. apply (fmul_neq0 K); [apply (fmul_neq0 K); assumption|apply fpow_neq0, E0].
      + destruct V as (h & Ph & Eh). exists h. split; [exact Ph|]. intro t. rewrite <- Eh, EB. reflexivity. }
  destruct VQ as (W & W1 & W2). pose proof (form_coefs r i g M W Hi W2 (s - l)%nat W1) as Q. clear W W1 W2 V EB. set (k := (s - l)%nat) in *.
  exists (map (fun u => (reg (unit_order n i u) (unit_order n i (k - u)), finv (fnat (fact u)) * finv (fnat (fact (k - u))))) (seq 0 (S k))).
  split; [|split; [|split]].
  - intros e He. apply in_map_iff in He. destruct He as (u & <- & _). cbn [snd]. apply fmul_pos; apply finv_pos, fnat_pos, lt_O_fact.
  - rewrite map_map. cbn [fst snd]. etransitivity; [|exact Q]. rewrite bsum_fsum. apply (fsum_map_ext K). intros u Hu.
    assert (E : bil K N M (asv (fst (reg (unit_order n i u) (unit_order n i (k - u))))) (asv (snd (reg (unit_order n i u) (unit_order n i (k - u)))))
             = bil K N M (asv (unit_order n i u)) (asv (unit_order n i (k - u)%nat))).
    { destruct (reg_cases (unit_order n i u) (unit_order n i (k - u))) as [R|R]; rewrite R; cbn [fst snd]; [reflexivity|apply bil_sym, M_sym]. }
    rewrite E. rewrite (bil_ext _ (fun a => fnat (fact u) * tm K r i (nth a (vec g) []) u) _ (fun a => fnat (fact (k - u)) * tm K r i (nth a (vec g) []) (k - u)%nat))
      by (intros a Ha; apply asv_unit; assumption).
    unfold bil. rewrite <- bsum_mul_l. apply bsum_ext. intros a Ha. rewrite <- bsum_mul_l. apply bsum_ext. intros b Hb. field. split; apply fact_nz.
  - intros e He. apply in_map_iff in He. destruct He as (u & <- & Hu). apply in_seq in Hu. left. cbn [fst]. apply TT. exists u, (k - u)%nat. split; [lia|reflexivity].
  - intros p Hp. apply TT in Hp. destruct Hp as (u & v & E & ->). eexists. split; [apply in_map_iff; exists u; split; [reflexivity|apply in_seq; lia]|].
    cbn [fst]. f_equal. f_equal. lia.
Qed.
Lemma nonvanishing_orders_kill o : In o (nonvanishing_orders n f r m) -> mat_kills N M (asv o).
Proof.
  unfold nonvanishing_orders. apply (eliminate_sound K B Z).
  - intros u v H. apply bil_kill_l, H.
  - intros u v H. apply bil_kill_r, H.
  - intros u H. apply psd_kernel; [exact M_sym|exact M_psd|exact H].
  - intros T HT. right. unfold order_sets in HT. apply in_flat_map in HT. destruct HT as (w & Hw' & HT). apply in_map_iff in HT. destruct HT as ([m' T'] & E & HT).
    cbn [snd] in E. subst T'. apply filter_In in HT. destruct HT as [HT NV]. cbn [fst] in NV. apply diff_orders_in in Hw'. destruct Hw' as [->|(i & s & Hi & Hs & HB & -> & HZ)].
    + rewrite bdiff_monomial_zero in HT. destruct HT as [E|[]]. apply pair_equal_spec in E. destruct E as [<- <-]. apply zero_set_valid, NV.
    + apply (direction_valid i s m' T); assumption.
  - intros w [E|[]]. discriminate.
  - intros w [].
Qed.
End Point.
End Cert.
