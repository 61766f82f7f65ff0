(** * The heuristic method for sparse cyclic forms: borders and hexagons *)
From Coq Require Import Bool List Arith Lia ZArith Ring Field Permutation Sorted.
From Verif Require Import OrdField Base Perm Poly PolyId Monomials PolyOps Coeff Expr CertLimit TriPoly Univariate UnivariateLemmas.
From Verif Require Import Schur SchurFacts SchurExpr Amgm AmgmFacts AmgmQuot AmgmMain AmgmTotal Heur HeurFacts.
From Verif Require Sparse.
Import ListNotations.

Section Main.
Variable K : OrdField.
Local Open Scope of_scope.
Add Field Kf : (F_field K).
Implicit Types p l : poly K.

Lemma list3_inj (a b c x y z : nat) : [a; b; c] = [x; y; z] -> a = x /\ b = y /\ c = z.
Proof. intro H. inversion H. auto. Qed.

Section Form.
Variables (p : poly K) (d : nat).
Hypothesis (W : wf 3 p) (Hd : homdeg d p) (Hc : cyclic_poly K p) (Nz : forall t, In t p -> snd t <> 0).

Lemma sorted_in t : In t (sort_desc p) <-> In t p.
Proof. split; apply Permutation_in; [apply Permutation_sym|]; apply sort_desc_perm. Qed.
Lemma sorted_key_ok t : In t (sort_desc p) -> key_ok K d t.
Proof. intro H. apply sorted_in in H. apply (key3_form K p d W Hd). apply in_map. exact H. Qed.
Lemma sorted_nz t : In t (sort_desc p) -> snd t <> 0.
Proof. intro H. apply Nz, sorted_in, H. Qed.
Lemma sorted_key m : In m (keys p) -> exists t, In t (sort_desc p) /\ fst t = m.
Proof. intro H. apply in_map_iff in H. destruct H as [t [E Ht]]. exists t. split; [apply sorted_in, Ht|exact E]. Qed.
Lemma key_sorted t : In t (sort_desc p) -> In (fst t) (keys p).
Proof. intro H. apply in_map, sorted_in, H. Qed.
Lemma coef_sorted t : In t (sort_desc p) -> coef p (fst t) = snd t.
Proof. intro H. apply sorted_in in H. destruct t as [m v]. destruct W as [N _]. apply (coef_in K p m v N H). Qed.
Lemma sorted_desc : StronglySorted (desc K) (sort_desc p).
Proof. apply sort_desc_sorted, W. Qed.
Lemma head_max t r u : sort_desc p = t :: r -> In u (sort_desc p) -> fst u = fst t \/ desc K t u.
Proof.
  intros E H. pose proof sorted_desc as S1. rewrite E in *. inversion S1 as [|? ? _ F]; subst. destruct H as [<- |H]; [left; reflexivity|].
  right. rewrite Forall_forall in F. apply F, H.
Qed.
Lemma head_k1 t r m : sort_desc p = t :: r -> In m (keys p) -> (nth 0 m 0 <= k1 t)%nat.
Proof.
  intros E H. destruct (sorted_key m H) as [u [Hu Eu]].
  assert (Ht : In t (sort_desc p)) by (rewrite E; left; reflexivity).
  destruct (head_max t r u E Hu) as [Q|Q]; [unfold k1; rewrite <- Eu, Q; reflexivity|].
  destruct (sorted_key_ok t Ht) as (i & j & k & Et & _), (sorted_key_ok u Hu) as (i' & j' & k' & Eu' & _).
  rewrite <- Eu. unfold k1, desc in *. rewrite Et, Eu' in *. cbn [nth lex_cmp] in *. destruct (Nat.compare_spec i i'); [lia|discriminate|lia].
Qed.
Lemma all_exponents t r i j k : sort_desc p = t :: r -> In [i; j; k] (keys p) -> (i <= k1 t /\ j <= k1 t /\ k <= k1 t)%nat.
Proof.
  intros E H. pose proof (rot_key K p d W Hd Hc Nz _ H) as H2. pose proof (rot_key K p d W Hd Hc Nz _ H2) as H3.
  pose proof (head_k1 t r _ E H). pose proof (head_k1 t r _ E H2). pose proof (head_k1 t r _ E H3). cbn [nth rot] in *. lia.
Qed.

(** entries of the two borders *)
Lemma border1_entries : exists suf, border1 (sort_desc p) = map (bent K) suf /\ StronglySorted (desc K) suf /\
  (forall t, In t suf -> In t (sort_desc p) /\ fst t = [0; k2 t; d - k2 t]%nat /\ (k2 t <= d)%nat) /\
  (forall t, In t suf -> k1 t = 0%nat /\ key_ok K d t) /\
  exists pre, sort_desc p = pre ++ suf.
Proof.
  destruct (border1_suffix K (sort_desc p) sorted_nz) as (pre & suf & E1 & E2 & E3). exists suf.
  assert (I : forall t, In t suf -> In t (sort_desc p)) by (intros t Ht; rewrite E1; apply in_or_app; right; exact Ht).
  split; [exact E3|]. split; [|split; [|split; [|exists pre; exact E1]]].
  - pose proof sorted_desc as S1. rewrite E1 in S1. apply sorted_app in S1. apply S1.
  - intros t Ht. split; [apply I, Ht|]. destruct (sorted_key_ok t (I t Ht)) as (i & j & k & E & Es). pose proof (E2 t Ht) as Z. unfold k1, k2 in *. rewrite E in *. cbn [nth] in *. subst i. split; [|lia].
    repeat f_equal. lia.
  - intros t Ht. split; [apply E2, Ht|apply sorted_key_ok, I, Ht].
Qed.
Lemma border2_entries i0 : exists pre, border2 i0 (sort_desc p) = map (bent K) pre /\ StronglySorted (desc K) pre /\
  (forall t, In t pre -> In t (sort_desc p) /\ fst t = [i0; k2 t; d - i0 - k2 t]%nat /\ (i0 + k2 t <= d)%nat) /\
  (forall t, In t pre -> k1 t = i0 /\ key_ok K d t) /\
  exists post, sort_desc p = pre ++ post.
Proof.
  destruct (border2_prefix K i0 (sort_desc p) sorted_nz) as (pre & post & E1 & E2 & E3). exists pre.
  assert (I : forall t, In t pre -> In t (sort_desc p)) by (intros t Ht; rewrite E1; apply in_or_app; left; exact Ht).
  split; [exact E3|]. split; [|split; [|split; [|exists post; exact E1]]].
  - pose proof sorted_desc as S1. rewrite E1 in S1. apply sorted_app in S1. apply S1.
  - intros t Ht. split; [apply I, Ht|]. destruct (sorted_key_ok t (I t Ht)) as (i & j & k & E & Es). pose proof (E2 t Ht) as Z. unfold k1, k2 in *. rewrite E in *. cbn [nth] in *. subst i. split; [|lia].
    repeat f_equal. lia.
  - intros t Ht. split; [apply E2, Ht|apply sorted_key_ok, I, Ht].
Qed.

Lemma bent_nodup i suf : (forall t, In t suf -> k1 t = i /\ key_ok K d t) -> StronglySorted (desc K) suf -> NoDup (map fst (map (bent K) suf)).
Proof. intros H S1. apply below_nodup. apply (border_sorted K d i); assumption. Qed.
Lemma fst_nodup (suf : poly K) : StronglySorted (desc K) suf -> NoDup (map fst suf).
Proof.
  intro H. induction H as [|t suf S1 IH F]; [constructor|]. cbn [map]. constructor; [|exact IH]. intro Q. apply in_map_iff in Q.
  destruct Q as [u [E Hu]]. rewrite Forall_forall in F. specialize (F u Hu). unfold desc in F. rewrite E in F.
  rewrite (proj2 (lex_cmp_eq _ _) eq_refl) in F. discriminate.
Qed.

(** all monomials in the orbits of a border *)
Definition mono_at (A B C : K) (i j k : nat) : K := A ^ i * B ^ j * C ^ k.
Lemma border_value i suf (A B C : K) : (forall t, In t suf -> In t (sort_desc p) /\ fst t = [i; k2 t; d - i - k2 t]%nat) ->
  StronglySorted (desc K) suf ->
  ((forall t, In t suf -> 0 < k2 t /\ 0 < d - i - k2 t)%nat /\ i = 0%nat \/ (forall t, In t suf -> k2 t < i /\ d - i - k2 t < i)%nat) ->
  (length suf * 3 = length p)%nat ->
  peval (pt3 A B C) p = fsum (map (fun t => snd t * (mono_at A B C i (k2 t) (d - i - k2 t) + mono_at B C A i (k2 t) (d - i - k2 t) + mono_at C A B i (k2 t) (d - i - k2 t))) suf).
Proof.
  intros H S1 Hp Hlen.
  rewrite (orbits_value K p d W Hd Hc Nz (map fst suf) A B C).
  - rewrite map_map. apply fsum_map_ext. intros t Ht. destruct (H t Ht) as [I E]. rewrite (coef_sorted t I). unfold three_rot, mono_at. rewrite E, !meval3. cbn [pt3]. reflexivity.
  - intros m Hm. apply in_map_iff in Hm. destruct Hm as [t [<- Ht]]. apply key_sorted, H, Ht.
  - apply nodup_flat; [|apply fst_nodup, S1|].
    + intros m Hm. apply in_map_iff in Hm. destruct Hm as [t [<- Ht]]. destruct (H t Ht) as [_ E]. rewrite E. unfold orb, rot.
      repeat constructor; cbn [In]; intro Q; repeat destruct Q as [Q|Q]; try exact Q; apply list3_inj in Q;
        destruct Hp as [[Hp ->]|Hp]; specialize (Hp t Ht); lia.
    + intros x y z Hx Hy Hzx Hzy. apply in_map_iff in Hx. destruct Hx as [t [<- Ht]]. apply in_map_iff in Hy. destruct Hy as [u [<- Hu]].
      destruct (H t Ht) as [_ E], (H u Hu) as [_ E']. rewrite E, E' in *. unfold orb, rot in *. cbn [In] in *.
      assert (Pt : (0 < k2 t /\ 0 < d - i - k2 t /\ 0 < k2 u /\ 0 < d - i - k2 u /\ i = 0 \/ k2 t < i /\ d - i - k2 t < i /\ k2 u < i /\ d - i - k2 u < i)%nat).
      { destruct Hp as [[Hp ->]|Hp]; pose proof (Hp t Ht); pose proof (Hp u Hu); lia. }
      destruct Hzx as [<- |[<- |[<- |[]]]]; destruct Hzy as [Q|[Q|[Q|[]]]]; apply list3_inj in Q; (cut (k2 t = k2 u); [intros ->; reflexivity|lia]).
  - rewrite map_length. exact Hlen.
Qed.

(** ** all coefficients on a border *)
Lemma border_certified i suf pq (g : wsos K * wsos K -> ex K) :
  (forall t, In t suf -> In t (sort_desc p) /\ fst t = [i; k2 t; d - i - k2 t]%nat) -> StronglySorted (desc K) suf ->
  ((forall t, In t suf -> 0 < k2 t /\ 0 < d - i - k2 t)%nat /\ i = 0%nat \/ (forall t, In t suf -> k2 t < i /\ d - i - k2 t < i)%nat) ->
  (length suf * 3 = length p)%nat ->
  (three K (g pq) /\ manifest true (g pq) = true /\ (forall A B C, nz K A B C -> defined (pt3 A B C) (g pq))) ->
  (forall A B C, nz K A B C -> ev (pt3 A B C) (g pq) + ev (pt3 B C A) (g pq) + ev (pt3 C A B) (g pq) =
     fsum (map (fun t => snd t * (mono_at A B C i (k2 t) (d - i - k2 t) + mono_at B C A i (k2 t) (d - i - k2 t) + mono_at C A B i (k2 t) (d - i - k2 t))) suf)) ->
  certifies K (csum (g pq)) (fun A B C => peval (pt3 A B C) p).
Proof.
  intros H S1 Hp Hlen (G1 & G2 & G3) Hv. split; [apply three_csum, G1|]. split; [apply manifest_csum, G2|]. split.
  - intros A B C N _. rewrite ev_csum by exact G1. rewrite Hv by exact N. symmetry. apply border_value; assumption.
  - intros A B C HA HB HC. apply defined_csum; [exact G1|].
    assert (N : nz K A B C) by (repeat split; apply flt_neq0; assumption).
    split; [apply G3, N|split; apply G3]; [apply nz_rot, N|apply nz_rot, nz_rot, N].
Qed.

Lemma frac_pow (x y : K) j k : y <> 0 -> (x / y) ^ j * y ^ (j + k) = x ^ j * y ^ k.
Proof.
  intro Hy. induction j as [|j IH]; [reflexivity|]. cbn [Nat.add fpow]. transitivity (x * ((x / y) ^ j * y ^ (j + k))); [field; exact Hy|].
  rewrite IH. ring.
Qed.
Lemma border1_ok pq : coef p [d; 0; 0]%nat = 0 -> (0 < d)%nat -> (length (border1 (sort_desc p)) * 3 = length p)%nat ->
  proves K pq (border_poly d (border1 (sort_desc p))) -> certifies K (csum (border1_expr d pq)) (fun A B C => peval (pt3 A B C) p).
Proof.
  intros Z D L P. destruct border1_entries as (suf & E & S1 & H1 & H2 & _). rewrite E in *. rewrite map_length in L.
  assert (Hz : forall t, In t suf -> (0 < k2 t < d)%nat).
  { intros t Ht. destruct (H1 t Ht) as (I & Ek & Le). apply key_sorted in I. rewrite Ek in I.
    assert (Zd : ~ In [d; 0; 0]%nat (keys p)) by (intro Q; apply (coef_nz K p W Nz) in Q; contradiction).
    pose proof (rot_key K p d W Hd Hc Nz _ I) as I2. pose proof (rot_key K p d W Hd Hc Nz _ I2) as I3. cbn [rot] in I2, I3.
    split.
    - destruct (k2 t) as [|j]; [exfalso; apply Zd; rewrite Nat.sub_0_r in I3; exact I3|lia].
    - destruct (Nat.eq_dec (k2 t) d) as [Q|Q]; [exfalso; apply Zd|lia]. rewrite Q, Nat.sub_diag in I2. exact I2. }
  apply (border_certified 0 suf pq (border1_expr d)).
  - intros t Ht. destruct (H1 t Ht) as (I & Ek & Le). rewrite Nat.sub_0_r. auto.
  - exact S1.
  - left. split; [|reflexivity]. intros t Ht. specialize (Hz t Ht). lia.
  - exact L.
  - unfold border1_expr. split; [|split].
    + cbn [three]. split; [apply uexpr_three; cbn; lia|cbn; lia].
    + cbn [manifest]. rewrite (uexpr_manifest K pq _ _ P) by reflexivity. cbn. rewrite ?orb_true_r. reflexivity.
    + intros A B C N. cbn [defined]. split; [|exact I]. apply uexpr_defined. cbn [defined ev]. repeat split. cbn [pt3]. apply N.
  - assert (V : forall A B C, nz K A B C -> ev (pt3 A B C) (border1_expr d pq) = fsum (map (fun t => snd t * mono_at C A B 0 (k2 t) (d - 0 - k2 t)) suf)).
    { intros A B C (_ & HB & _). unfold border1_expr. cbn [ev]. rewrite (uexpr_value K pq _ _ _ P). cbn [ev pt3].
      rewrite border_poly_value; [|apply (bent_nodup 0); assumption|].
      - rewrite <- fsum_map_mul_r, map_map. apply fsum_map_ext. intros t Ht. cbn [bent fst snd]. destruct (H1 t Ht) as (_ & _ & Le).
        unfold mono_at. replace (B ^ d) with (B ^ (k2 t + (d - 0 - k2 t))) by (f_equal; lia).
        transitivity (snd t * ((A / B) ^ k2 t * B ^ (k2 t + (d - 0 - k2 t)))); [ring|]. rewrite frac_pow by exact HB. cbn [fpow]. ring.
      - intros t Ht. apply in_map_iff in Ht. destruct Ht as [u [<- Hu]]. apply H1, Hu. }
    intros A B C N. rewrite (V A B C N), (V B C A (nz_rot K _ _ _ N)), (V C A B (nz_rot K _ _ _ (nz_rot K _ _ _ N))).
    rewrite <- !fsum_map_add. apply fsum_map_ext. intros t _. ring.
Qed.
Lemma border1_nonempty l z : sort_desc p = l ++ [z] -> k1 z = 0%nat -> border1 (sort_desc p) <> [].
Proof.
  intros E Z Q. assert (Nzz : snd z <> 0) by (apply sorted_nz; rewrite E; apply in_or_app; right; left; reflexivity).
  unfold border1 in Q. apply (f_equal (@rev _)) in Q. rewrite rev_involutive, E, rev_app_distr in Q. cbn [rev app take_first] in Q.
  rewrite Z in Q. cbn [Nat.eqb] in Q. rewrite (proj2 (feqb_neq K _ _) Nzz) in Q. discriminate.
Qed.
Lemma max_once t r l z : sort_desc p = t :: r -> sort_desc p = l ++ [z] -> k1 z = 0%nat -> middle d (border1 (sort_desc p)) = false ->
  forall u, In u (sort_desc p) -> k1 u = k1 t -> (k2 u < k1 t /\ d - k1 t - k2 u < k1 t)%nat.
Proof.
  intros Et El Z M u I Eu. destruct (sorted_key_ok u I) as (i & j & k & Ek & Su). pose proof (key_sorted u I) as Iu. rewrite Ek in Iu.
  pose proof (all_exponents t r _ _ _ Et Iu) as X. unfold k1 at 1 in Eu. unfold k2. rewrite Ek in *. cbn [nth] in *. subst i.
  set (i0 := k1 t) in *.
  assert (Hz : In z (sort_desc p)) by (rewrite El; apply in_or_app; right; left; reflexivity).
  destruct (sorted_key_ok z Hz) as (zi & zj & zk & Ez & Es). assert (zi = 0)%nat by (unfold k1 in Z; rewrite Ez in Z; exact Z). subst zi.
  pose proof (key_sorted z Hz) as Iz. rewrite Ez in Iz. pose proof (all_exponents t r _ _ _ Et Iz) as Y. fold i0 in Y.
  destruct (Nat.eq_dec d (2 * i0)) as [D|D]; [exfalso|lia].
  destruct border1_entries as (suf & E' & S' & H1' & H2' & _).
  assert (All : forall v, In v suf -> k2 v = i0).
  { intros v Hv. destruct (H1' v Hv) as (Iv & Ekv & Lev). apply key_sorted in Iv. rewrite Ekv in Iv.
    pose proof (all_exponents t r _ _ _ Et Iv) as Yv. fold i0 in Yv. lia. }
  pose proof (border1_nonempty l z El Z) as NE. rewrite E' in M, NE.
  destruct suf as [|v [|v' suf]].
  - apply NE. reflexivity.
  - cbn [map bent middle] in M. rewrite (All v (or_introl eq_refl)) in M. apply Nat.eqb_neq in M. lia.
  - assert (B := border_sorted K d 0 _ H2' S'). cbn [map] in B. inversion B as [|? ? _ F]; subst. rewrite Forall_forall in F.
    specialize (F (bent K v') (or_introl eq_refl)). unfold below, bent in F. cbn [fst] in F.
    rewrite (All v (or_introl eq_refl)), (All v' (or_intror (or_introl eq_refl))) in F. lia.
Qed.
Lemma border2_ok t r l z pq : sort_desc p = t :: r -> sort_desc p = l ++ [z] -> k1 z = 0%nat -> middle d (border1 (sort_desc p)) = false ->
  (length (border2 (k1 t) (sort_desc p)) * 3 = length p)%nat ->
  proves K pq (border_poly d (border2 (k1 t) (sort_desc p))) -> certifies K (csum (border2_expr d (k1 t) pq)) (fun A B C => peval (pt3 A B C) p).
Proof.
  intros Et El Z M L P. pose proof (max_once t r l z Et El Z M) as Mx. set (i0 := k1 t) in *.
  destruct (border2_entries i0) as (pre & E & S1 & H1 & H2 & _). rewrite E in *. rewrite map_length in L.
  apply (border_certified i0 pre pq (border2_expr d i0)).
  - intros u Hu. destruct (H1 u Hu) as (I & Ek & Le). auto.
  - exact S1.
  - right. intros u Hu. apply Mx; [apply H1, Hu|apply H2, Hu].
  - exact L.
  - unfold border2_expr. split; [|split].
    + cbn [three]. split; [split; [apply uexpr_three; cbn; lia|cbn; lia]|cbn; lia].
    + cbn [manifest]. rewrite (uexpr_manifest K pq _ _ P) by reflexivity. cbn. rewrite ?orb_true_r. reflexivity.
    + intros A B C N. cbn [defined]. split; [split; [|exact I]|exact I]. apply uexpr_defined. cbn [defined ev]. repeat split. cbn [pt3]. apply N.
  - assert (V : forall A B C, nz K A B C -> ev (pt3 A B C) (border2_expr d i0 pq) = fsum (map (fun t => snd t * mono_at A B C i0 (k2 t) (d - i0 - k2 t)) pre)).
    { intros A B C (_ & _ & HC). unfold border2_expr. cbn [ev]. rewrite (uexpr_value K pq _ _ _ P). cbn [ev pt3].
      rewrite border_poly_value; [|apply (bent_nodup i0); assumption|].
      - rewrite <- !fsum_map_mul_r, map_map. apply fsum_map_ext. intros u Hu. cbn [bent fst snd]. destruct (H1 u Hu) as (_ & _ & Le).
        unfold mono_at. replace (C ^ (d - i0)) with (C ^ (k2 u + (d - i0 - k2 u))) by (f_equal; lia).
        transitivity (snd u * A ^ i0 * ((B / C) ^ k2 u * C ^ (k2 u + (d - i0 - k2 u)))); [ring|]. rewrite frac_pow by exact HC. ring.
      - intros y Hy. apply in_map_iff in Hy. destruct Hy as [u [<- Hu]]. cbn [bent fst]. specialize (H1 u Hu). lia. }
    intros A B C N. rewrite (V A B C N), (V B C A (nz_rot K _ _ _ N)), (V C A B (nz_rot K _ _ _ (nz_rot K _ _ _ N))).
    rewrite <- !fsum_map_add. apply fsum_map_ext. intros u _. ring.
Qed.
End Form.

(** ** Answers *)
Section Answers.
Variable D : K -> K -> K -> Prop.
Hypothesis HD : forall A B C, D A B C -> 0 < A /\ 0 < B /\ 0 < C /\ ~ (A = B /\ B = C).
Definition cyclic_value p : Prop := forall A B C : K, peval (pt3 A B C) p = peval (pt3 B C A) p.
Definition good p (e : ex K) : Prop :=
  (forall A B C, A <> 0 -> B <> 0 -> C <> 0 -> defined (pt3 A B C) e -> ev (pt3 A B C) e = peval (pt3 A B C) p) /\
  (forall A B C, D A B C -> defined (pt3 A B C) e) /\
  (forall A B C, 0 <= A -> 0 <= B -> 0 <= C -> defined (pt3 A B C) e -> 0 <= ev (pt3 A B C) e) /\
  (forall A B C, 0 <= A -> 0 <= B -> 0 <= C -> 0 <= peval (pt3 A B C) p).
Definition solver_good (s : poly K -> res (option (ex K))) (d : nat) : Prop :=
  forall p e, wf 3 p -> homdeg d p -> cyclic_value p -> s p = Ok (Some e) -> good p e.
Lemma certifies_good p d e : wf 3 p -> homdeg d p -> certifies K e (fun A B C => peval (pt3 A B C) p) -> good p e.
Proof.
  intros W Hd H. destruct (certified_answer K p d e W Hd H) as (H1 & H2 & H3 & H4). split; [exact H1|]. split; [|split; assumption].
  intros A B C Q. apply HD in Q. apply H2; apply Q.
Qed.

Definition try_ok (d : nat) (fe : poly K * ex K) : Prop :=
  wf 3 (fst fe) /\ homdeg d (fst fe) /\ cyclic_value (fst fe) /\
  (forall A B C, 0 <= A -> 0 <= B -> 0 <= C -> 0 <= peval (pt3 A B C) (fst fe)) /\
  exact_value K (snd fe) (fun A B C => peval (pt3 A B C) (fst fe)) /\
  (forall A B C, D A B C -> defined (pt3 A B C) (snd fe)).
Lemma Hform_rot n m r (A B C : K) : Hform K n m r A B C = Hform K n m r B C A.
Proof. unfold Hform, Hpos, Hneg. destruct (0 <=? n)%Z; ring. Qed.
Lemma Pform_rot n r m s (A B C : K) : Pform K n r m s A B C = Pform K n r m s B C A.
Proof. unfold Pform, Ssum. ring. Qed.
Lemma try_p_ok d n r m s v : 0 <= v -> (r <= n)%nat -> (s <= m)%nat -> (n + r + m + s = d)%nat -> try_ok d (try_p n r m s v).
Proof.
  intros Hv H1 H2 <-. destruct (pnrms_coeff_spec K n r m s v) as (W & Hh & E). destruct (pnrms_expr_spec K n r m s v) as [Df V].
  unfold try_ok, try_p. cbn [fst snd]. split; [exact W|]. split; [exact Hh|]. split; [|split; [|split]].
  - intros A B C. rewrite !E. cbn [pt3]. rewrite Pform_rot. reflexivity.
  - intros A B C HA HB HC. rewrite E. apply fmul_nonneg; [exact Hv|]. apply Pform_nonneg; assumption.
  - intros A B C _. rewrite E. apply V.
  - intros. apply Df.
Qed.
Lemma try_h_ok d n m r v : 0 <= v -> (n <= 0 \/ Z.of_nat m <= n + Z.of_nat r)%Z -> ~ wrong_args n m r ->
  (Z.abs_nat n + (if (0 <=? n)%Z then 0 else Z.abs_nat n) + m + 2 * r = d)%nat -> try_ok d (try_h n m r v).
Proof.
  intros Hv H1 H2 Hdeg. destruct (hnmr_coeff_spec K n m r v) as (W & Hh & E). destruct (hnmr_expr_answer K n m r v 1 1 1 H2) as [_ _].
  unfold try_ok, try_h. cbn [fst snd]. split; [exact W|]. split; [|split; [|split; [|split]]].
  - intros k Hk. rewrite (Hh k Hk). destruct (Z.leb_spec 0 n); lia.
  - intros A B C. rewrite !E. cbn [pt3]. rewrite Hform_rot. reflexivity.
  - intros A B C HA HB HC. rewrite E. apply fmul_nonneg; [exact Hv|]. apply Hform_nonneg; assumption.
  - intros A B C Hdf. destruct (hnmr_expr_answer K n m r v A B C H2) as [Q _]. apply Q, Hdf.
  - intros A B C Q. apply HD in Q. destruct Q as (QA & QB & QC & N). destruct (hnmr_expr_answer K n m r v A B C H2) as [_ P]. apply P; assumption.
Qed.

Lemma sub_good p f e s d : wf 3 p -> homdeg d p -> wf 3 f -> homdeg d f -> try_ok d (f, e) -> good (coeff_sub p f) s -> good p (s + e)%E.
Proof.
  intros Wp Hp Wf Hf (_ & _ & _ & Hn & He & Hdf) (G1 & G2 & G3 & G4). cbn [fst snd] in *.
  assert (V : forall x, peval x p = peval x (coeff_sub p f) + peval x f).
  { intro x. rewrite coeff_sub_peval; [ring|apply Wp|apply Wf]. }
  split; [|split; [|split]].
  - intros A B C HA HB HC [D1 D2]. cbn [ev]. rewrite V, G1, He by assumption. reflexivity.
  - intros A B C Q. split; [apply G2, Q|apply Hdf, Q].
  - intros A B C HA HB HC [D1 D2]. cbn [ev]. apply fadd_nonneg; [apply G3; assumption|]. rewrite He by exact D2. apply Hn; assumption.
  - intros A B C HA HB HC. rewrite V. apply fadd_nonneg; [apply G4|apply Hn]; assumption.
Qed.
Lemma coeff_sub_keys p f m : In m (keys (coeff_sub p f)) -> In m (keys p) \/ In m (keys f).
Proof.
  unfold coeff_sub, coeff_operator. set (F := fun (acc : poly K) (t : list nat * K) => _).
  assert (G : forall l acc, In m (keys (fold_left F l acc)) -> In m (keys acc) \/ In m (keys l)).
  { induction l as [|t l IH]; intros acc H; [left; exact H|]. cbn [fold_left] in H. apply IH in H. cbn [keys map In]. destruct H as [H|H]; [|tauto].
    unfold F in H. destruct (_ && _)%bool; [apply dict_del_keys in H; tauto|]. destruct (negb _); [|tauto]. apply dset_keys_in in H. destruct H as [-> |H]; tauto. }
  apply G.
Qed.
Lemma sub_shape p f d : wf 3 p -> homdeg d p -> wf 3 f -> homdeg d f -> wf 3 (coeff_sub p f) /\ homdeg d (coeff_sub p f).
Proof.
  intros [Np Lp] Hp [Nf Lf] Hf. destruct (coeff_operator_coef K fsub p f) as [N V]; [ring|exact Np|exact Nf|].
  split; [split; [exact N|]|]; intros m Hm; apply coeff_sub_keys in Hm; destruct Hm; auto.
Qed.

Variables (dense rec : poly K -> res (option (ex K))) (uni : list K -> res (option (wsos K * wsos K))).
Hypothesis U : forall f pq, uni f = Ok (Some pq) -> proves K pq f.

Lemma run_tries_good p d (l : list (poly K * ex K)) (e : ex K) : solver_good rec d -> wf 3 p -> homdeg d p -> cyclic_value p ->
  (forall t, In t l -> try_ok d t) -> run_tries rec p l = Ok (Some e) -> good p e.
Proof.
  intros R W Hd Cv. induction l as [|[f x] l IH]; intros T H; [discriminate|]. cbn [run_tries] in H.
  pose proof (T (f, x) (or_introl eq_refl)) as T1. pose proof T1 as (Wf & Hf & Cf & _). cbn [fst] in *.
  destruct (rec (coeff_sub p f)) as [[s|]|] eqn:E; [|apply IH; [intros; apply T; right; assumption|exact H]|discriminate].
  injection H as <-. destruct (sub_shape p f d W Hd Wf Hf) as [Ws Hs].
  apply (sub_good p f x s d W Hd Wf Hf T1). apply (R _ _ Ws Hs); [|exact E].
  intros A B C. rewrite !coeff_sub_peval by (apply W || apply Wf). rewrite (Cv A B C), (Cf A B C). reflexivity.
Qed.

Lemma gaps_spec (l : list (nat * K)) target g : StronglySorted (below K) l -> gaps l target = Some g -> fst g <> 0%nat ->
  exists (t0 : nat) (v : K) (l' : list (nat * K)), l = (t0, v) :: l' /\ (fst g + snd g + target = 2 * t0)%nat.
Proof.
  intros Sl H N. unfold gaps in H. destruct (Nat.leb_spec 3 (length l)) as [L|L].
  - destruct l as [|[t0 v] l']; [cbn in L; lia|]. exists t0, v, l'. split; [reflexivity|].
    destruct (Nat.eqb_spec (fst (nth 1 ((t0, v) :: l') (0%nat, 0%F)) + fst (nth (length ((t0, v) :: l') - 2) ((t0, v) :: l') (0%nat, 0%F))) target) as [E|E]; [|discriminate].
    assert (B : forall i, (1 <= i < length ((t0, v) :: l'))%nat -> (fst (nth i ((t0, v) :: l') (0%nat, 0%F)) < t0)%nat).
    { intros i Hi. inversion Sl as [|? ? _ F]; subst. destruct i; [lia|]. cbn [nth]. rewrite Forall_forall in F.
      apply (F (nth i l' (0%nat, 0%F))). apply nth_In. cbn [length] in Hi. lia. }
    pose proof (B 1%nat ltac:(lia)) as B1. pose proof (B (length ((t0, v) :: l') - 2)%nat ltac:(lia)) as B2.
    apply SchurExpr.Some_inj in H. subst g. cbn [fst snd]. change (nth 0 ((t0, v) :: l') (0%nat, 0%F)) with (t0, v). cbn [fst]. lia.
  - apply SchurExpr.Some_inj in H. subst g. cbn [fst] in N. congruence.
Qed.

Definition excluded p (d : nat) : Prop := exists n, (2 <= n)%nat /\ d = (7 * n)%nat /\ coef p [5 * n; 2 * n; 0]%nat <> 0.
Lemma half_nonneg (c : K) (b : bool) : 0 <= c -> 0 <= (if b then c / 2 else c).
Proof. intro H. destruct b; [|exact H]. apply fdiv_nonneg; [exact H|apply f2_pos]. Qed.

Lemma tries_first_ok d t0 c0 r x : (t0 <= d)%nat -> 0 <= c0 -> ~ (exists n, (2 <= n)%nat /\ d = (7 * n)%nat /\ t0 = (5 * n)%nat) ->
  In x (tries_first d t0 c0 r) -> try_ok d x.
Proof.
  intros L Hc Ex H. unfold tries_first in H. apply in_app_or in H. set (n := (Z.of_nat t0 - 2 * Z.of_nat r)%Z) in *. destruct H as [H|H].
  - destruct ((0 <=? n) && (Z.of_nat (d - t0) <=? n + Z.of_nat r))%Z eqn:E; [|destruct H]. destruct H as [<- |[]].
    apply andb_true_iff in E. destruct E as [E1 E2]. apply Z.leb_le in E1, E2. apply try_h_ok.
    + apply half_nonneg, Hc.
    + right. exact E2.
    + intros (W1 & W2 & W3). apply Ex. exists (Z.to_nat n). unfold n in *. lia.
    + rewrite (proj2 (Z.leb_le 0 n) E1). unfold n in *. lia.
  - destruct (Nat.ltb r (d - t0) && (Z.of_nat (d - t0) <? n + Z.of_nat r)%Z)%bool eqn:E; [|destruct H]. destruct H as [<- |[]].
    apply andb_true_iff in E. destruct E as [E1 E2]. apply Nat.ltb_lt in E1. apply Z.ltb_lt in E2.
    apply try_p_ok; [exact Hc|lia|unfold n in *; lia|unfold n in *; lia].
Qed.
Lemma tries_second_ok d t0 c0 r x : 0 <= c0 -> In x (tries_second d t0 c0 r) -> try_ok d x.
Proof.
  intros Hc H. unfold tries_second in H. set (n := (Z.of_nat d - Z.of_nat t0 - Z.of_nat r)%Z) in *. set (m := (2 * Z.of_nat t0 - Z.of_nat d)%Z) in *.
  destruct ((0 <=? n) && (0 <=? m))%Z eqn:E; [|destruct H]. destruct H as [<- |[]].
  apply andb_true_iff in E. destruct E as [E1 E2]. apply Z.leb_le in E1, E2. apply try_h_ok.
  - apply half_nonneg, Hc.
  - left. lia.
  - intros (W1 & _). lia.
  - destruct (Z.leb_spec 0 (- n)); unfold n, m in *; lia.
Qed.

Section Top.
Variables (p : poly K) (d : nat).
Hypothesis (W : wf 3 p) (Hd : homdeg d p) (Hc : cyclic_poly K p) (Nz : forall t, In t p -> snd t <> 0).
Hypothesis (R : solver_good rec d) (Ex : ~ excluded p d).

Lemma hexagon_good t r e : sort_desc p = t :: r ->
  hexagon rec d (k1 t) p (border1 (sort_desc p)) (border2 (k1 t) (sort_desc p)) = Ok (Some e) -> good p e.
Proof.
  intros Et H. unfold hexagon in H.
  destruct (border1_entries p d W Hd Nz) as (suf & E1 & S1 & H1 & H1' & _).
  destruct (border2_entries p d W Hd Nz (k1 t)) as (pre & E2 & S2 & H2 & H2' & post & Ep).
  rewrite E1, E2 in H. destruct suf as [|u suf]; [discriminate|]. cbn [map] in H. unfold bent at 1 in H.
  set (t0 := k2 u) in *. set (c0 := snd u) in *.
  destruct (last _ _) as [t1 c1]. destruct ((c0 <? 0) || (c1 <? 0))%bool eqn:Ec; [discriminate|].
  destruct (Nat.eqb (t0 + t1) d && (c0 =? c1) && Nat.eqb (k1 t) t0 && Nat.leb (length (bent K u :: map (bent K) suf)) 4 && Nat.leb (length (map (bent K) pre)) 4)%bool eqn:E; [|discriminate].
  rewrite !andb_true_iff in E. destruct E as [[[[_ _] Ei] _] _]. apply Nat.eqb_eq in Ei.
  apply orb_false_iff in Ec. destruct Ec as [Ec _]. apply fltb_ge in Ec.
  destruct (H1 u (or_introl eq_refl)) as (Iu & Eu & Lu). fold t0 in Eu, Lu.
  assert (Ku : In [0; t0; d - t0]%nat (keys p)) by (rewrite <- Eu; apply key_sorted, Iu).
  assert (Kr : In [t0; d - t0; 0]%nat (keys p)) by (apply (rot_key K p d W Hd Hc Nz _ Ku)).
  revert H. apply (run_tries_good p d _ e R W Hd (value_rot K p d W Hd Hc Nz)).
  intros x Hx. unfold tries in Hx.
  change (bent K u :: map (bent K) suf) with (map (bent K) (u :: suf)) in Hx.
  destruct (gaps (map (bent K) (u :: suf)) d) as [g1|] eqn:G1; [|destruct Hx].
  destruct (gaps (map (bent K) pre) (d - k1 t)) as [g2|] eqn:G2; [|destruct Hx].
  destruct (Nat.eqb_spec (fst g1) 0) as [Z1|Z1], (Nat.eqb_spec (fst g2) 0) as [Z2|Z2]; [destruct Hx| | |].
  - apply in_flat_map in Hx. destruct Hx as [r' [_ Hx]]. apply (tries_second_ok d t0 c0 r'); assumption.
  - apply in_flat_map in Hx. destruct Hx as [r' [_ Hx]]. apply (tries_first_ok d t0 c0 r'); try assumption.
    intros (n & N1 & N2 & N3). apply Ex. exists n. split; [exact N1|]. split; [exact N2|]. apply (coef_nz K p W Nz).
    replace (5 * n)%nat with t0 by exact N3. replace (2 * n)%nat with (d - t0)%nat by lia. exact Kr.
  - destruct (gaps_spec _ _ _ (border_sorted K d 0 _ H1' S1) G1 Z1) as (a1 & v1 & l1 & Q1 & D1).
    destruct (gaps_spec _ _ _ (border_sorted K d (k1 t) _ H2' S2) G2 Z2) as (a2 & v2 & l2 & Q2 & D2).
    cbn [map] in Q1. assert (Ea1 : a1 = t0) by (inversion Q1; reflexivity).
    destruct pre as [|w pre]; [discriminate|]. cbn [map] in Q2. assert (Ea2 : a2 = k2 w) by (inversion Q2; reflexivity).
    assert (Ew : w = t). { rewrite Et in Ep. cbn [app] in Ep. inversion Ep. reflexivity. }
    subst w. destruct (H2 t (or_introl eq_refl)) as (It & Ekt & Lt).
    assert (Tj : k2 t = (d - t0)%nat).
    { destruct (sorted_key p _ Kr) as [v [Iv Ev]].
      destruct (head_max p W t r v Et Iv) as [Q|Q].
      - unfold k2. rewrite <- Q, Ev. reflexivity.
      - assert (X : k1 t = k1 v) by (unfold k1 at 2; rewrite Ev; exact Ei).
        pose proof (desc_second K d t v (sorted_key_ok p d W Hd t It) (sorted_key_ok p d W Hd v Iv) X Q) as X2.
        unfold k2 at 1 in X2. rewrite Ev in X2. cbn [nth] in X2. lia. }
    unfold tries_both in Hx. cbn [In] in Hx. destruct Hx as [<- |[<- |[]]]; apply try_p_ok; try assumption; lia.
Qed.
Lemma last_app (l : poly K) t r : l = t :: r -> exists l0, l = l0 ++ [last l t].
Proof. intros ->. exists (removelast (t :: r)). apply app_removelast_last. discriminate. Qed.
Lemma after_dense_good e : (6 < d)%nat -> after_dense rec uni d p = Ok (Some e) -> good p e.
Proof.
  intros Hd6 H. unfold after_dense in H. destruct (negb (coef p [d; 0; 0]%nat =? 0)) eqn:E0; [discriminate|].
  apply negb_false_iff, feqb_eq in E0. cbv zeta in H. destruct (sort_desc p) as [|t r] eqn:Et; [discriminate|]. rewrite <- Et in H.
  destruct ((snd t <? 0) || (snd (last (sort_desc p) t) <? 0) || negb (Nat.eqb (k1 (last (sort_desc p) t)) 0))%bool eqn:E1; [discriminate|].
  apply orb_false_iff in E1. destruct E1 as [_ E1]. apply negb_false_iff, Nat.eqb_eq in E1.
  destruct (middle d (border1 (sort_desc p))) eqn:M; [discriminate|].
  destruct (last_app (sort_desc p) t r Et) as [l0 El].
  destruct (Nat.eqb_spec (length (border1 (sort_desc p)) * 3) (length p)) as [L1|L1].
  - unfold border_answer in H. destruct (uni _) as [[pq|]|] eqn:Eu; try discriminate. injection H as <-.
    apply (certifies_good p d _ W Hd). apply border1_ok; try assumption; [lia|]. apply U, Eu.
  - destruct (Nat.eqb_spec (length (border2 (k1 t) (sort_desc p)) * 3) (length p)) as [L2|L2].
    + unfold border_answer in H. destruct (uni _) as [[pq|]|] eqn:Eu; try discriminate. injection H as <-.
      apply (certifies_good p d _ W Hd). apply (border2_ok p d W Hd Hc Nz t r l0 _ pq Et El E1 M L2). apply U, Eu.
    + apply (hexagon_good t r e Et H).
Qed.
Lemma heuristic_good e : solver_good dense d -> sos_struct_heuristic dense rec uni p = Ok (Some e) -> good p e.
Proof.
  intros Gd H. unfold sos_struct_heuristic in H. destruct (Nat.leb_spec (coeff_degree p) 6) as [L|L]; [discriminate|].
  assert (Ed : coeff_degree p = d).
  { unfold coeff_degree in *. destruct p as [|[k c] p']; [lia|]. apply Hd. left. reflexivity. }
  destruct (dense p) as [[x|]|] eqn:E; [| |discriminate].
  - injection H as <-. apply (Gd p x W Hd (value_rot K p d W Hd Hc Nz) E).
  - rewrite Ed in *. apply after_dense_good; assumption.
Qed.
End Top.
End Answers.

(** ** No exception *)
Section Total.
Variables (dense rec : poly K -> res (option (ex K))) (uni : list K -> res (option (wsos K * wsos K))).
Variables (p : poly K) (d : nat).
Hypothesis (W : wf 3 p) (Hd : homdeg d p) (Nz : forall t, In t p -> snd t <> 0).
Lemma run_tries_total (l : list (poly K * ex K)) : (forall f, exists o, rec f = Ok o) -> exists o, run_tries rec p l = Ok o.
Proof.
  intro R. induction l as [|[f e] l IH]; [eexists; reflexivity|]. cbn [run_tries]. destruct (R (coeff_sub p f)) as [[s|] ->]; [eexists; reflexivity|exact IH].
Qed.
Lemma heuristic_total : (forall f, exists o, dense f = Ok o) -> (forall f, exists o, rec f = Ok o) -> (forall f, exists o, uni f = Ok o) ->
  exists o, sos_struct_heuristic dense rec uni p = Ok o.
Proof.
  intros Dt R U. unfold sos_struct_heuristic. destruct (Nat.leb_spec (coeff_degree p) 6) as [L|L]; [eexists; reflexivity|].
  destruct (Dt p) as [[x|] ->]; [eexists; reflexivity|]. unfold after_dense. destruct (negb _); [eexists; reflexivity|]. cbv zeta.
  destruct (sort_desc p) as [|t r] eqn:Et.
  { exfalso. pose proof (sort_desc_perm K p) as P. rewrite Et in P. apply Permutation_sym, Permutation_nil in P. rewrite P in L. cbn in L. lia. }
  rewrite <- Et. match goal with |- exists o, (if ?b then _ else _) = _ => destruct b eqn:E1 end; [eexists; reflexivity|].
  apply orb_false_iff in E1. destruct E1 as [_ E1]. apply negb_false_iff, Nat.eqb_eq in E1.
  destruct (last_app (sort_desc p) t r Et) as [l0 El]. pose proof (border1_nonempty p Nz l0 _ El E1) as NE.
  destruct (middle _ _); [eexists; reflexivity|].
  assert (A : forall b g, exists o, border_answer uni (coeff_degree p) b g = Ok o).
  { intros b g. unfold border_answer. destruct (U (border_poly (coeff_degree p) b)) as [[pq|] ->]; eexists; reflexivity. }
  destruct (Nat.eqb _ _); [apply A|]. destruct (Nat.eqb _ _); [apply A|].
  unfold hexagon. clear El E1. destruct (border1 (sort_desc p)) as [|[t0 c0] b1]; [congruence|].
  match goal with |- context [last ?x ?y] => destruct (last x y) as [t1 c1] end.
  destruct (_ || _)%bool; [eexists; reflexivity|].
  match goal with |- exists o, (if ?b then _ else _) = _ => destruct b end; [|eexists; reflexivity]. apply run_tries_total, R.
Qed.
End Total.
End Main.

(** ** The wrong entry of the table in use *)
(** a recursion that solves only the zero polynomial, and solvers that find nothing *)
Definition rec0 (f : poly QcOF) : res (option (ex QcOF)) := match f with [] => Ok (Some (EC 0%F)) | _ => Ok None end.
Definition none0 {T U} (_ : T) : res (option U) := Ok None.
Local Open Scope of_scope.
Lemma divfree_ok (e : ex QcOF) env : divfree QcOF e = true -> defined env e.
Proof. induction e; cbn [divfree defined]; rewrite ?andb_true_iff; intuition discriminate. Qed.
Lemma wrong_case (p : poly QcOF) :
  match sos_struct_heuristic none0 rec0 none0 p with
  | Ok (Some e) => divfree QcOF e && negb (ev (pt3 2 1 1) e =? peval (pt3 2 1 1) p)
  | _ => false end = true ->
  exists e : ex QcOF, sos_struct_heuristic none0 rec0 none0 p = Ok (Some e) /\
  defined (pt3 2 1 1) e /\ ev (pt3 2 1 1) e <> peval (pt3 2 1 1) p.
Proof.
  intro B. destruct (sos_struct_heuristic none0 rec0 none0 p) as [[e|]|]; try discriminate B.
  apply andb_true_iff in B. destruct B as [B1 B2]. exists e. split; [reflexivity|]. split; [apply divfree_ok, B1|].
  apply negb_true_iff in B2. apply feqb_neq in B2. exact B2.
Qed.
Lemma heuristic_wrong : exists e : ex QcOF,
  sos_struct_heuristic none0 rec0 none0 (hnmr_coeff 2 4 4 1) = Ok (Some e) /\
  defined (pt3 2 1 1) e /\ ev (pt3 2 1 1) e <> peval (pt3 2 1 1) (hnmr_coeff 2 4 4 1).
Proof. apply (wrong_case (hnmr_coeff 2 4 4 1)). vm_compute. reflexivity. Qed.
