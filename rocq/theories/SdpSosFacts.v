(** * SDPSOS: the coefficient equations are the identity, and the symmetric entries (SdpSos.v) *)
From Coq Require Import Bool List Arith Lia Permutation Ring Field.
From Verif Require Import OrdField Base Congruence LinSolve LinSep Perm Poly PolyId PolyOps Partitions Shared Monomials MonomialsLemmas Coeff ClearSym SdpSos.
Import ListNotations.

Section Facts.
Variable K : OrdField.
Local Open Scope of_scope.
Add Field Kf : (F_field K).
Variable n : nat.
Variable G : list (list nat).
Hypothesis HG : is_group n G.

(** ** Orbits *)
Definition cnt (m t : list nat) : nat := length (filter (fun p => meqb (act 0%nat p m) t) G).
Lemma filter_perm {A} (f : A -> bool) l l' : Permutation l l' -> Permutation (filter f l) (filter f l').
Proof.
  induction 1; cbn; try constructor.
  - destruct (f x); [constructor|]; assumption.
  - destruct (f x), (f y); try constructor; apply Permutation_refl.
  - eapply Permutation_trans; eassumption.
Qed.
Lemma filter_map_length {A B} (f : B -> bool) (h : A -> B) l : length (filter f (map h l)) = length (filter (fun a => f (h a)) l).
Proof. induction l as [|a l IH]; [reflexivity|]. cbn. destruct (f (h a)); cbn; rewrite IH; reflexivity. Qed.
Lemma cnt_act m t q : length m = n -> length t = n -> In q G -> cnt m (act 0%nat q t) = cnt m t.
Proof.
  intros Hm Ht Hq. unfold cnt.
  rewrite (Permutation_length (filter_perm _ _ _ (Permutation_sym (translate_l_perm n G HG q Hq)))).
  rewrite filter_map_length. f_equal.
  apply filter_ext_in. intros a Ha. pose proof (is_perm_length n a (g_perm n G HG a Ha)) as La.
  rewrite <- (act_comp 0%nat n q a m (g_perm n G HG q Hq) La).
  pose proof (act_eq_iff n G HG q) as AE. destruct (meqb_spec (act 0%nat a m) t) as [X|X].
  - rewrite X. apply meqb_refl.
  - destruct (meqb_spec (act 0%nat q (act 0%nat a m)) (act 0%nat q t)) as [Y|Y]; [|reflexivity]. exfalso. apply X.
    apply AE in Y; [|assumption|rewrite act_length; exact La|rewrite act_length; apply is_perm_length, (g_perm n G HG q Hq)].
    rewrite Y. apply (act_inv n G HG); [apply (pinv_in n G q HG Hq)|assumption|apply (pinv_l n q (g_perm n G HG q Hq))|assumption].
Qed.
Lemma cnt_out m t : ~ In t (permute G m) -> cnt m t = 0%nat.
Proof.
  intro H. unfold cnt. destruct (filter _ G) as [|p l] eqn:E; [reflexivity|]. exfalso. apply H.
  assert (I : In p (filter (fun p => meqb (act 0%nat p m) t) G)) by (rewrite E; left; reflexivity).
  apply filter_In in I. destruct I as [I1 I2]. apply meqb_eq in I2. subst t. unfold permute. apply (in_map (fun p => act 0%nat p m)), I1.
Qed.
Lemma cnt_orbit m t : length m = n -> length t = n ->
  cnt m t = if meqb (standard_monom G t) (standard_monom G m) then cnt m (standard_monom G m) else 0%nat.
Proof.
  intros Hm Ht. destruct (meqb_spec (standard_monom G t) (standard_monom G m)) as [E|E].
  - rewrite <- E. pose proof (standard_in_orbit n G HG t) as I. apply in_map_iff in I. destruct I as [q [<- Hq]].
    symmetry. apply cnt_act; assumption.
  - apply cnt_out. intro I. apply E. apply (standard_orbit_iff n G HG m t Hm Ht). exact I.
Qed.
Lemma cnt_pos m : length m = n -> (0 < cnt m (standard_monom G m))%nat.
Proof.
  intro Hm. pose proof (standard_in_orbit n G HG m) as I. apply in_map_iff in I. destruct I as [q [E Hq]]. unfold cnt.
  assert (J : In q (filter (fun p => meqb (act 0%nat p m) (standard_monom G m)) G)) by (apply filter_In; split; [exact Hq|rewrite E; apply meqb_refl]).
  destruct (filter _ G); [destruct J|cbn; lia].
Qed.

(** ** Rows *)
Section Degree.
Variable d : nat.
Notation mons := (inv_monoms G n true d).
Lemma std_fold std i L : (forall p, In p L -> index_of p mons = if meqb p std then Some i else None) -> forall o v,
  fold_left (fun sv p => match index_of p mons with Some i => (Some i, S (snd sv)) | None => sv end) L (o, v)
  = (if existsb (fun p => meqb p std) L then Some i else o, (v + length (filter (fun p => meqb p std) L))%nat).
Proof.
  induction L as [|p L IH]; intros H o v; cbn [fold_left existsb filter length]; [rewrite Nat.add_0_r; reflexivity|].
  rewrite (H p (or_introl eq_refl)). destruct (meqb p std); cbn [snd orb length]; rewrite IH by (intros; apply H; right; assumption).
  - f_equal; [destruct (existsb _ L); reflexivity|lia].
  - reflexivity.
Qed.
Lemma std_count_spec m : length m = n -> list_sum m = d ->
  exists s, std_count n G d m = (Some s, cnt m (standard_monom G m)) /\ (s < length mons)%nat /\ nth s mons [] = standard_monom G m.
Proof.
  intros Hm Hd. assert (I : In (standard_monom G m) mons) by (apply standard_in_monoms; assumption).
  destruct (index_of (standard_monom G m) mons) as [s|] eqn:E; [|exfalso; apply index_of_none in E; exact (E I)].
  exists s. split; [|apply index_of_some, E]. unfold std_count.
  rewrite (std_fold (standard_monom G m) s).
  - unfold cnt, permute. rewrite filter_map_length. f_equal.
    destruct (existsb _ _) eqn:X; [reflexivity|]. exfalso.
    assert (Y : existsb (fun p => meqb p (standard_monom G m)) (permute G m) = true).
    { apply existsb_exists. exists (standard_monom G m). split; [apply (standard_in_orbit n G HG)|apply meqb_refl]. }
    unfold permute in Y. congruence.
  - intros p Hp. destruct (meqb_spec p (standard_monom G m)) as [->|N]; [exact E|].
    apply index_of_none. intro J. apply N. apply inv_monoms_in in J. destruct J as [_ J]. rewrite <- J.
    apply in_map_iff in Hp. destruct Hp as [q [<- Hq]]. apply (standard_invariant n G HG); assumption.
Qed.
(** the sum of the monomials of an orbit *)
Definition orb (s : nat) (x : nat -> K) : K :=
  fsum (map (fun t => ind K (meqb (standard_monom G t) (nth s mons [])) (meval x t)) (base_monoms n true d)).
Lemma fsum_count (F : list nat -> K) (L A : list (list nat)) : NoDup A -> (forall p, In p L -> In p A) ->
  fsum (map F L) = fsum (map (fun t => fnat (length (filter (fun p => meqb p t) L)) * F t) A).
Proof.
  intros HA. induction L as [|p L IH]; intro H.
  - cbn. rewrite (fsum_map_0 K); [reflexivity|]. intros; ring.
  - cbn [map fsum]. rewrite IH by (intros; apply H; right; assumption).
    assert (E : F p = fsum (map (fun t => ind K (meqb p t) (F t)) A)).
    { assert (Hp : In p A) by (apply H; left; reflexivity). clear - HA Hp.
      induction A as [|a A IH]; [destruct Hp|]. inversion HA; subst. cbn [map fsum]. destruct Hp as [->|Hp].
      - rewrite meqb_refl. cbn [ind]. rewrite (fsum_map_0 K); [ring|]. intros t Ht.
        destruct (meqb_spec p t) as [->|]; [contradiction|reflexivity].
      - rewrite <- IH by assumption. destruct (meqb_spec p a) as [->|]; [contradiction|]. cbn [ind]. ring. }
    rewrite E, <- (fsum_map_add K). apply (fsum_map_ext K). intros t _. cbn [filter].
    destruct (meqb p t); cbn [ind length fnat]; ring.
Qed.
(** a monomial summed over the group *)
Lemma lift_mono x m : length m = n -> list_sum m = d ->
  exists s v, std_count n G d m = (Some s, v) /\ (s < length mons)%nat /\
    fsum (map (fun p => meval (fun i => x (nth i p 0%nat)) m) G) = fnat v * orb s x.
Proof.
  intros Hm Hd. destruct (std_count_spec m Hm Hd) as (s & E & Hs & En). exists s, (cnt m (standard_monom G m)).
  split; [exact E|]. split; [exact Hs|].
  transitivity (fsum (map (meval x) (permute G m))).
  { unfold permute. rewrite map_map.
    transitivity (fsum (map (fun p => meval x (act 0%nat p m)) (map pinv G))).
    - rewrite map_map. apply (fsum_map_ext K). intros p Hp. apply (meval_perm K n); [apply (g_perm n G HG), Hp|exact Hm].
    - apply OrdField.fsum_perm, Permutation_map, (pinv_perm_list n G HG). }
  rewrite (fsum_count (meval x) (permute G m) (base_monoms n true d)).
  - unfold orb. rewrite <- (fsum_map_mul_l K). apply (fsum_map_ext K). intros t Ht. apply base_monoms_in in Ht. destruct Ht as [Lt _].
    unfold permute. rewrite filter_map_length. fold (cnt m t). rewrite (cnt_orbit m t Hm Lt), En.
    destruct (meqb _ _); cbn [ind fnat]; ring.
  - apply base_monoms_nodup.
  - intros p Hp. apply base_monoms_in. split; [apply (permute_length n G HG m), Hp|]. rewrite (permute_sum n G HG m p Hm Hp). exact Hd.
Qed.

(** ** Values *)
Lemma form_value f x : Poly.wf n f -> (forall m, In m (keys f) -> list_sum m = d) -> coef_sym K n G f ->
  peval x f = bsum (length mons) (fun s => coef f (nth s mons []) * orb s x).
Proof.
  intros Hw Hd Hs. rewrite (peval_over K x f (base_monoms n true d) (proj1 Hw) (base_monoms_nodup n true d)).
  2:{ intros m Hm. apply base_monoms_in. split; [apply Hw, Hm|apply Hd, Hm]. }
  transitivity (fsum (map (fun t => bsum (length mons) (fun s => coef f (nth s mons []) * ind K (meqb (standard_monom G t) (nth s mons [])) (meval x t))) (base_monoms n true d))).
  - apply (fsum_map_ext K). intros t Ht. apply base_monoms_in in Ht. destruct Ht as [Lt St].
    destruct (std_count_spec t Lt St) as (s & _ & Hs' & En). rewrite (bsum_single K _ s).
    + rewrite En, meqb_refl. cbn [ind]. rewrite (coef_standard K n G HG f t Hw Hs Lt). reflexivity.
    + exact Hs'.
    + intros j Hj Nj. destruct (meqb_spec (standard_monom G t) (nth j mons [])) as [E|]; [|cbn [ind]; ring].
      exfalso. apply Nj. apply (proj1 (NoDup_nth mons []) (inv_monoms_NoDup n G true d)); [exact Hj|exact Hs'|congruence].
  - unfold orb. induction (base_monoms n true d) as [|t L IH].
    + cbn. rewrite (bsum_all0 K); [reflexivity|]. intros; cbn. ring.
    + cbn [map fsum]. rewrite IH, <- bsum_add. apply bsum_ext. intros s _. ring.
Qed.
Definition col_ok (c : col (K := K)) : Prop :=
  Poly.wf n (col_poly c) /\ length (col_shift c) = n /\ forall m, In m (keys (col_poly c)) -> (list_sum m + list_sum (col_shift c))%nat = d.
Definition col_value (c : col (K := K)) : (nat -> K) -> K := lift G (fun x => peval x (col_poly c) * meval x (col_shift c)).
Lemma col_value_entry c x : col_ok c -> col_value c x = bsum (length mons) (fun s => entry n G d s c * orb s x).
Proof.
  intros (Hw & Hl & Hd). unfold col_value, lift, entry. set (g := col_poly c) in *. set (u := col_shift c) in *.
  assert (Hw' : forall t, In t g -> length (fst t) = n) by (intros t Ht; apply Hw, in_map, Ht).
  assert (Hd' : forall t, In t g -> (list_sum (fst t) + list_sum u)%nat = d) by (intros t Ht; apply Hd, in_map, Ht).
  clear Hw Hd. induction g as [|t g IH].
  - cbn [map fsum]. rewrite (fsum_map_0 K) by (intros; rewrite peval_nil; ring). symmetry. apply (bsum_all0 K). intros; ring.
  - cbn [map fsum]. rewrite (bsum_ext K _ _ (fun s => (match std_count n G d (madd (fst t) u) with (Some s0, v) => if (s0 =? s)%nat then fnat v * snd t else 0 | (None, _) => 0 end) * orb s x
        + fsum (map (fun t0 => match std_count n G d (madd (fst t0) u) with (Some s0, v) => if (s0 =? s)%nat then fnat v * snd t0 else 0 | (None, _) => 0 end) g) * orb s x)) by (intros; ring).
    rewrite bsum_add, <- IH by (intros; (apply Hw' || apply Hd'); right; assumption). clear IH.
    assert (Lm : length (fst t) = length u) by (rewrite Hl; apply Hw'; left; reflexivity).
    assert (L2 : length (madd (fst t) u) = n) by (rewrite madd_length by exact Lm; apply Hw'; left; reflexivity).
    destruct (lift_mono x (madd (fst t) u) L2) as (s & v & E & Hs & EV).
    { rewrite madd_sum by exact Lm. apply Hd'. left. reflexivity. }
    rewrite E. rewrite (bsum_single K _ s) by (first [exact Hs | intros j _ Nj; destruct (Nat.eqb_spec s j); [congruence|ring]]).
    rewrite Nat.eqb_refl. replace (fnat v * snd t * orb s x) with (snd t * (fnat v * orb s x)) by ring. rewrite <- EV.
    rewrite <- (fsum_map_mul_l K), <- (fsum_map_add K). apply (fsum_map_ext K). intros p _. destruct t as [mt ct]. cbn [fst snd] in *. rewrite peval_cons, madd_meval by exact Lm. ring.
Qed.
Lemma combination_value (cs : list (col (K := K))) (X : list K) f x :
  Poly.wf n f -> (forall m, In m (keys f) -> list_sum m = d) -> coef_sym K n G f -> (forall c, In c cs -> col_ok c) ->
  (forall s, (s < length mons)%nat -> dotv (length cs) (map (entry n G d s) cs) X = coef f (nth s mons [])) ->
  bsum (length cs) (fun j => vget X j * col_value (nth j cs (Mult 0 [] [])) x) = peval x f.
Proof.
  intros Hw Hd Hs Hc HS. rewrite (form_value f x Hw Hd Hs).
  rewrite (bsum_ext K (length mons) _ (fun s => bsum (length cs) (fun j => entry n G d s (nth j cs (Mult 0 [] [])) * vget X j * orb s x))).
  - rewrite bsum_swap. apply bsum_ext. intros j Hj. rewrite (col_value_entry _ x (Hc _ (nth_In _ _ Hj))), <- bsum_mul_l. apply bsum_ext. intros; ring.
  - intros s Hs'. rewrite <- (HS s Hs'). unfold dotv. rewrite <- bsum_mul_r. apply bsum_ext. intros j Hj. rewrite (vget_map K _ (Mult 0 [] [])) by exact Hj. reflexivity.
Qed.
End Degree.

(** ** Sums over the columns, block by block *)
Section Blocks.
Variable F : col (K := K) -> K.
Variable X : list K.
Notation dc := (Mult 0 [] []).
Definition csum (start : nat) (cs : list (col (K := K))) : K := bsum (length cs) (fun j => vget X (start + j) * F (nth j cs dc)).
Lemma csum_cons start c cs : csum start (c :: cs) = vget X start * F c + csum (S start) cs.
Proof.
  unfold csum. cbn [length]. rewrite bsum_Sl. cbn [nth]. rewrite Nat.add_0_r. f_equal. apply bsum_ext. intros j _.
  rewrite Nat.add_succ_r. reflexivity.
Qed.
Lemma csum_app a : forall start b, csum start (a ++ b) = csum start a + csum (start + length a) b.
Proof.
  induction a as [|c a IH]; intros start b; cbn [app length].
  - rewrite Nat.add_0_r. unfold csum at 2. cbn. ring.
  - rewrite !csum_cons, IH. replace (S start + length a)%nat with (start + S (length a))%nat by lia. ring.
Qed.
Lemma csum_map {A} (h : A -> col (K := K)) (da : A) v start : csum start (map h v) = bsum (length v) (fun i => vget X (start + i) * F (h (nth i v da))).
Proof.
  unfold csum. rewrite map_length. apply bsum_ext. intros i Hi. rewrite nth_indep with (d' := h da) by (rewrite map_length; exact Hi).
  rewrite map_nth. reflexivity.
Qed.
Lemma csum_grid (h : list nat -> list nat -> col (K := K)) v : forall w start,
  csum start (flat_map (fun u => map (h u) v) w)
  = bsum (length w) (fun i => bsum (length v) (fun j => vget X (start + (i * length v + j)) * F (h (nth i w []) (nth j v [])))).
Proof.
  induction w as [|u w IH]; intro start; [reflexivity|]. cbn [flat_map length]. rewrite csum_app, bsum_Sl, IH, map_length. f_equal.
  - rewrite (csum_map _ []). reflexivity.
  - apply bsum_ext. intros i _. apply bsum_ext. intros j _. cbn [nth]. do 2 f_equal. lia.
Qed.
Fixpoint gram_sum (d start k : nat) (ineqs : list (poly K)) : K :=
  match ineqs with
  | [] => 0
  | g :: r => let v := gram_vec n d g in
      bsum (length v) (fun i => bsum (length v) (fun j => vget X (start + (i * length v + j)) * F (Gram k g (nth i v []) (nth j v []))))
      + gram_sum d (start + length v * length v) (S k) r
  end.
Lemma grid_length (h : list nat -> list nat -> col (K := K)) v w : length (flat_map (fun u => map (h u) v) w) = (length w * length v)%nat.
Proof. induction w as [|u w IH]; [reflexivity|]. cbn [flat_map length]. rewrite app_length, map_length, IH. reflexivity. Qed.
Lemma gram_cols_length d k (g : poly K) : length (gram_cols n d k g) = (length (gram_vec n d g) * length (gram_vec n d g))%nat.
Proof.
  apply grid_length.
Qed.
Lemma gram_loop_sum d : forall ineqs start k, csum start (gram_loop n d k ineqs) = gram_sum d start k ineqs.
Proof.
  induction ineqs as [|g r IH]; intros start k; [reflexivity|]. cbn [gram_loop gram_sum]. cbv zeta. rewrite csum_app, IH, gram_cols_length. f_equal.
  apply csum_grid.
Qed.
Lemma gram_loop_length d : forall (ineqs : list (poly K)) k, length (gram_loop n d k ineqs) = gram_size n d ineqs.
Proof.
  unfold gram_size. induction ineqs as [|g r IH]; intro k; [reflexivity|]. cbn [gram_loop map]. rewrite app_length, gram_cols_length, IH. reflexivity.
Qed.
Fixpoint mult_sum (d start k : nat) (eqs : list (poly K)) : K :=
  match eqs with
  | [] => 0
  | h :: r => let v := mult_vec n d h in
      bsum (length v) (fun i => vget X (start + i) * F (Mult k h (nth i v []))) + mult_sum d (start + length v) (S k) r
  end.
Lemma mult_loop_sum d : forall eqs start k, csum start (mult_loop n d k eqs) = mult_sum d start k eqs.
Proof.
  induction eqs as [|h r IH]; intros start k; [reflexivity|]. cbn [mult_loop mult_sum]. cbv zeta. rewrite csum_app, IH, map_length. f_equal.
  apply csum_map.
Qed.
End Blocks.

(** ** Vectors of coefficients *)
Lemma standard_trivial m : length m = n -> standard_monom [pid n] m = m.
Proof. intro H. unfold standard_monom, permute. cbn [map lex_max fold_left]. apply act_id, H. Qed.
Definition row_poly (d : nat) (r : list K) : poly K := match invarraylize [pid n] n true n r d with Ok v => v | Err _ => [] end.
Lemma row_poly_spec d r : length r = length (base_monoms n true d) ->
  invarraylize [pid n] n true n r d = Ok (row_poly d r) /\
  forall x, peval x (row_poly d r) = bsum (length (base_monoms n true d)) (fun i => vget r i * meval x (nth i (base_monoms n true d) [])).
Proof.
  intro Hl. destruct (invarraylize_spec K n [pid n] true (pid_group n) r d Hl) as (p & E & Hw & Hnz & Hc).
  unfold row_poly. rewrite E. split; [reflexivity|]. intro x.
  rewrite (peval_over K x p (base_monoms n true d) (proj1 Hw) (base_monoms_nodup n true d)).
  - rewrite <- (bsum_list K _ []). apply bsum_ext. intros i Hi. f_equal.
    assert (Hin : In (nth i (base_monoms n true d) []) (base_monoms n true d)) by (apply nth_In, Hi).
    apply base_monoms_in in Hin. rewrite (Hc _ (proj1 Hin)), (standard_trivial _ (proj1 Hin)).
    fold (base_monoms n true d). rewrite (index_of_nth _ _ (base_monoms_nodup n true d) Hi). reflexivity.
  - intros m Hm. assert (Lm : length m = n) by (apply Hw, Hm).
    apply in_map_iff in Hm. destruct Hm as ([m' c] & E' & Hin). cbn in E'. subst m'.
    pose proof (Hnz m c Hin) as Nc. pose proof (Hc m Lm) as C. rewrite (coef_in K p m c (proj1 Hw) Hin) in C.
    rewrite (standard_trivial m Lm) in C. fold (base_monoms n true d) in C.
    destruct (index_of m (base_monoms n true d)) as [i|] eqn:Ei; [|congruence].
    apply index_of_some in Ei. destruct Ei as [Hi <-]. apply nth_In, Hi.
Qed.
End Facts.
