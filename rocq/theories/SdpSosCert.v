(** * SDPSOS: the value of the certificate (SdpSos.v) *)
From Coq Require Import Bool List Arith Lia Permutation Ring Field.
From Verif Require Import OrdField Base Congruence LinSolve LinSep Perm Poly PolyId PolyOps Partitions Shared Monomials MonomialsLemmas Coeff ClearSym SdpSos SdpSosFacts.
Import ListNotations.

(** ** Dictionaries *)
Section Dicts.
Variable K : OrdField.
Local Open Scope of_scope.
Definition distinct (l : list (poly K)) : Prop := ForallOrdPairs (fun p q => ~ same K p q) l.
Lemma pset_new {V} (d : list (poly K * V)) k v : (forall e, In e d -> ~ same K (fst e) k) -> pset d k v = d ++ [(k, v)].
Proof.
  induction d as [|[k' v'] d IH]; intro H; [reflexivity|]. cbn [pset app].
  destruct (peqb K k' k) eqn:E; [exfalso; apply (H (k', v') (or_introl eq_refl)); apply peqb_same, E|].
  f_equal. apply IH. intros e He. apply H. right. exact He.
Qed.
Lemma pdict_fold {V} (l : list (poly K * V)) : forall d, distinct (map fst (d ++ l)) ->
  fold_left (fun d kv => pset d (fst kv) (snd kv)) l d = d ++ l.
Proof.
  induction l as [|[k v] l IH]; intros d H; cbn [fold_left]; [rewrite app_nil_r; reflexivity|]. cbn [fst snd]. rewrite pset_new.
  - rewrite IH; rewrite <- app_assoc; [reflexivity|exact H].
  - intros e He S. clear IH. induction d as [|a d IHd]; [destruct He|]. cbn [app map] in H. inversion H as [|? ? F H']; subst.
    destruct He as [->|He].
    + apply (proj1 (Forall_forall _ _) F k); [|exact S]. rewrite map_app. apply in_or_app. right. left. reflexivity.
    + apply IHd; assumption.
Qed.
Lemma pdict_id {V} (l : list (poly K * V)) : distinct (map fst l) -> pdict l = l.
Proof. intro H. unfold pdict. rewrite pdict_fold; [reflexivity|exact H]. Qed.
Lemma splits_id n d (ineqs : list (poly K)) : distinct ineqs -> splits n d ineqs = map (fun g => (g, length (gram_vec n d g))) ineqs.
Proof. intro H. apply pdict_id. rewrite map_map. cbn [fst]. rewrite map_id. exact H. Qed.
Lemma cut_eq_keys n (x : list K) d : forall eqs start, map fst (cut_eq n x d start eqs) = eqs.
Proof. induction eqs as [|h r IH]; intro start; [reflexivity|]. cbn [cut_eq map fst]. rewrite IH. reflexivity. Qed.
Lemma multipliers_id n d (ineqs eqs : list (poly K)) (x : list K) : distinct ineqs -> distinct eqs ->
  multipliers n d ineqs eqs x = cut_eq n x d (gram_size n d ineqs) eqs.
Proof.
  intros H1 H2. unfold multipliers. rewrite splits_id by exact H1. rewrite pdict_id by (rewrite cut_eq_keys; exact H2).
  unfold gram_size. rewrite map_map. cbn [snd]. reflexivity.
Qed.
Lemma mapr_ok {A B} (f : A -> res B) (h : A -> B) l : (forall a, In a l -> f a = Ok (h a)) -> mapr f l = Ok (map h l).
Proof.
  induction l as [|a l IH]; intro H; [reflexivity|]. cbn [mapr map]. rewrite (H a (or_introl eq_refl)), IH by (intros; apply H; right; assumption).
  reflexivity.
Qed.
(** the expressions stand for their keys *)
Definition exprs_ok (n : nat) (e : list (poly K * ((nat -> K) -> K))) : Prop :=
  forall k v, In (k, v) e -> wf n k /\ forall x, v x = peval x k.
Lemma expr_of_value n e k x : exprs_ok n e -> wf n k -> expr_of e k x = peval x k.
Proof.
  intros H Hk. unfold expr_of, pfind. destruct (find _ e) as [[k' v]|] eqn:E; [|reflexivity]. cbn [snd].
  apply find_some in E. destruct E as [E1 E2]. cbn [fst] in E2. apply peqb_same in E2. destruct (H k' v E1) as [Hw Hv].
  rewrite Hv. apply (coef_ext_peval K); [exact (proj1 Hw)|exact (proj1 Hk)|exact E2].
Qed.
End Dicts.

Section Value.
Variable K : OrdField.
Local Open Scope of_scope.
Add Field Kf : (F_field K).
Variable n : nat.
Variable G : list (list nat).
Hypothesis HG : is_group n G.

Lemma square_sum s (a : nat -> K) : bsum s (fun i => bsum s (fun j => a i * a j)) = bsum s a ^ 2.
Proof.
  cbn [fpow]. rewrite (bsum_ext K s _ (fun i => a i * bsum s a)) by (intros; rewrite bsum_mul_l; reflexivity).
  rewrite bsum_mul_r. ring.
Qed.
Lemma quad_lift s (c : K) (u : nat -> K) (g : list nat -> K) (m : nat -> list nat -> K) : forall L,
  bsum s (fun i => bsum s (fun j => c * u i * u j * fsum (map (fun p => g p * (m i p * m j p)) L)))
  = fsum (map (fun p => c * g p * bsum s (fun i => u i * m i p) ^ 2) L).
Proof.
  induction L as [|p L IH]; cbn [map fsum].
  - apply (bsum_all0 K). intros i _. apply (bsum_all0 K). intros j _. ring.
  - rewrite <- IH, <- square_sum, <- bsum_mul_l, <- bsum_add. apply bsum_ext. intros i _.
    rewrite <- bsum_mul_l, <- bsum_add. apply bsum_ext. intros j _. ring.
Qed.
Lemma block_value s (g : list nat -> K) (m : nat -> list nat -> K) (M : nat -> nat -> K) : forall L : list (list K * K),
  (forall i j, (i < s)%nat -> (j < s)%nat -> M i j = fsum (map (fun us => snd us * vget (fst us) i * vget (fst us) j) L)) ->
  bsum s (fun i => bsum s (fun j => M i j * fsum (map (fun p => g p * (m i p * m j p)) G)))
  = fsum (map (fun us => fsum (map (fun p => snd us * g p * bsum s (fun i => vget (fst us) i * m i p) ^ 2) G)) L).
Proof.
  intros L; revert M. induction L as [|us L IH]; intros M H; cbn [map fsum].
  - apply (bsum_all0 K). intros i Hi. apply (bsum_all0 K). intros j Hj. rewrite H by assumption. cbn. ring.
  - rewrite <- (IH (fun i j => fsum (map (fun us => snd us * vget (fst us) i * vget (fst us) j) L))) by reflexivity.
    rewrite <- (quad_lift s (snd us) (vget (fst us)) g m G), <- bsum_add. apply bsum_ext. intros i Hi.
    rewrite <- bsum_add. apply bsum_ext. intros j Hj. rewrite H by assumption. cbn [map fsum]. ring.
Qed.
(** an exact decomposition, the rows of U being vectors of coefficients *)
Definition decomposes (s : nat) (M : nat -> nat -> K) (U : list (list K)) (Sv : list K) : Prop :=
  length U = length Sv /\ (forall r, In r U -> length r = s) /\
  forall i j, (i < s)%nat -> (j < s)%nat -> M i j = bsum (length U) (fun k => mget U k i * vget Sv k * mget U k j).
Lemma decomposes_combine s M U Sv : decomposes s M U Sv ->
  forall i j, (i < s)%nat -> (j < s)%nat -> M i j = fsum (map (fun us => snd us * vget (fst us) i * vget (fst us) j) (combine U Sv)).
Proof.
  intros (L & _ & H) i j Hi Hj. rewrite (H i j Hi Hj). clear H Hi Hj. revert Sv L.
  induction U as [|u U IH]; intros [|w Sv] L; cbn in L; try discriminate; [reflexivity|]. injection L as L.
  cbn [length combine map fsum fst snd]. rewrite bsum_Sl, <- IH by exact L.
  unfold mget, vget. cbn [nth]. ring.
Qed.
Lemma sos_terms_value d exprs key U Sv M :
  exprs_ok K n exprs -> wf n key -> decomposes (length (gram_vec n d key)) M U Sv ->
  exists l, sos_terms n G d exprs (key, (U, Sv)) = Ok l /\
    (forall x, fsum (map (fun e => e x) l)
      = bsum (length (gram_vec n d key)) (fun i => bsum (length (gram_vec n d key)) (fun j =>
          M i j * lift G (fun x => peval x key * (meval x (nth i (gram_vec n d key) []) * meval x (nth j (gram_vec n d key) []))) x))) /\
    (forall x, (forall w, In w Sv -> 0 <= w) -> (forall p, In p G -> 0 <= peval (fun i => x (nth i p 0%nat)) key) -> 0 <= fsum (map (fun e => e x) l)).
Proof.
  intros He Hk HD. set (e := ((d - total_degree key) / 2)%nat).
  exists (map (fun us => lift G (fun x => snd us * expr_of exprs key x * peval x (row_poly K n e (fst us)) ^ 2)) (combine U Sv)).
  assert (HR : forall us, In us (combine U Sv) -> length (fst us) = length (base_monoms n true e)).
  { intros [u w] H. apply in_combine_l in H. apply (proj1 (proj2 HD)) in H. exact H. }
  split; [|split].
  - unfold sos_terms. apply (mapr_ok _ (fun us => lift G (fun x => snd us * expr_of exprs key x * peval x (row_poly K n e (fst us)) ^ 2))).
    intros us H. fold e. rewrite (proj1 (row_poly_spec K n e (fst us) (HR us H))). reflexivity.
  - intro x. unfold lift. rewrite map_map.
    rewrite (block_value (length (gram_vec n d key)) (fun p => peval (fun i => x (nth i p 0%nat)) key)
               (fun i p => meval (fun k => x (nth k p 0%nat)) (nth i (gram_vec n d key) [])) M (combine U Sv) (decomposes_combine _ M U Sv HD)).
    apply (fsum_map_ext K). intros us H. apply (fsum_map_ext K). intros p Hp.
    rewrite (expr_of_value K n) by assumption. rewrite (proj2 (row_poly_spec K n e (fst us) (HR us H))). reflexivity.
  - intros x HS Hx. apply fsum_nonneg. intros v Hv. rewrite map_map in Hv. apply in_map_iff in Hv. destruct Hv as [us [<- Hu]].
    apply fsum_nonneg. intros v Hv. apply in_map_iff in Hv. destruct Hv as [p [<- Hp]].
    apply fmul_nonneg; [|cbn [fpow]; replace (peval (fun i => x (nth i p 0%nat)) (row_poly K n e (fst us)) * (peval (fun i => x (nth i p 0%nat)) (row_poly K n e (fst us)) * 1)) with (peval (fun i => x (nth i p 0%nat)) (row_poly K n e (fst us)) * peval (fun i => x (nth i p 0%nat)) (row_poly K n e (fst us))) by ring; apply fsqr_nonneg].
    apply fmul_nonneg; [apply HS; destruct us; apply in_combine_r in Hu; exact Hu|].
    rewrite (expr_of_value K n) by assumption. apply Hx, Hp.
Qed.
Lemma ideal_term_value d exprs h r : exprs_ok K n exprs -> wf n h -> length r = length (mult_vec n d h) ->
  exists e, ideal_term n G d exprs (h, r) = Ok e /\
    (forall x, e x = bsum (length (mult_vec n d h)) (fun i => vget r i * lift G (fun x => peval x h * meval x (nth i (mult_vec n d h) [])) x)) /\
    (forall x, (forall p, In p G -> peval (fun i => x (nth i p 0%nat)) h = 0) -> e x = 0).
Proof.
  intros He Hh Hr. set (e := (d - total_degree h)%nat).
  exists (lift G (fun x => peval x (row_poly K n e r) * expr_of exprs h x)). split; [|split].
  - unfold ideal_term. cbn [fst snd]. fold e. rewrite (proj1 (row_poly_spec K n e r Hr)). reflexivity.
  - intro x. unfold lift. clear HG. induction G as [|p L IH].
    + cbn. symmetry. apply (bsum_all0 K). intros; ring.
    + cbn [map fsum]. rewrite IH, (expr_of_value K n), (proj2 (row_poly_spec K n e r Hr)) by assumption.
      rewrite <- bsum_mul_r, <- bsum_add. apply bsum_ext. intros i _. unfold mult_vec. fold e. ring.
  - intros x Hx. unfold lift. apply (fsum_map_0 K). intros p Hp. rewrite (expr_of_value K n), Hx by assumption. ring.
Qed.

(** ** The whole certificate *)
Definition exact_dec (M U : list (list K)) (w : list K) : Prop :=
  length U = length w /\ (forall r, In r U -> length r = length M) /\
  (forall i j, (i < length M)%nat -> (j < length M)%nat -> mget M i j = bsum (length U) (fun k => mget U k i * vget w k * mget U k j)) /\
  forall c, In c w -> 0 <= c.
Lemma mtab_rows r c (h : nat -> nat -> K) : length (mtab r c h) = r.
Proof. unfold mtab. rewrite map_length, seq_length. reflexivity. Qed.
Notation cv x := (fun c => col_value K G c x).
Lemma gram_part d exprs X : exprs_ok K n exprs -> forall (ineqs : list (poly K)) start k decs,
  (forall g, In g ineqs -> wf n g) ->
  Forall2 (fun gM Us => exact_dec (snd gM) (fst Us) (snd Us)) (cut X start (map (fun g => (g, length (gram_vec n d g))) ineqs)) decs ->
  exists sq, mapr (sos_terms n G d exprs) (combine ineqs decs) = Ok sq /\
    (forall x, fsum (map (fun e => e x) (concat sq)) = gram_sum K n (cv x) X d start k ineqs) /\
    (forall x, (forall g p, In g ineqs -> In p G -> 0 <= peval (fun i => x (nth i p 0%nat)) g) -> 0 <= fsum (map (fun e => e x) (concat sq))).
Proof.
  intros He ineqs. induction ineqs as [|g r IH]; intros start k decs Hw F; cbn [map cut] in F; inversion F as [|? [U w] ? decs' H1 H2]; subst.
  - exists []. split; [reflexivity|]. split; [reflexivity|]. intros; apply fle_refl.
  - cbn [fst snd] in H1. destruct H1 as (A1 & A2 & A3 & A4). rewrite mtab_rows in A2, A3.
    destruct (sos_terms_value d exprs g U w (fun i j => vget X (start + (i * length (gram_vec n d g) + j)))) as (l & E1 & E2 & E3).
    + exact He.
    + apply Hw. left. reflexivity.
    + split; [exact A1|]. split; [exact A2|]. intros i j Hi Hj. rewrite <- A3 by assumption. rewrite mget_mtab by assumption. reflexivity.
    + destruct (IH _ (S k) decs' (fun g' H => Hw g' (or_intror H)) H2) as (sq & F1 & F2 & F3).
      exists (l :: sq). cbn [combine mapr]. rewrite E1, F1. split; [reflexivity|]. split.
      * intro x. cbn [concat gram_sum]. cbv zeta. rewrite map_app, fsum_app, E2, F2. f_equal.
        apply bsum_ext. intros i Hi. apply bsum_ext. intros j Hj. f_equal. unfold col_value, lift. apply (fsum_map_ext K). intros p Hp.
        cbn [col_poly col_shift]. rewrite madd_meval; [reflexivity|]. unfold gram_vec in *.
        pose proof (nth_In _ [] Hi) as Ii. pose proof (nth_In _ [] Hj) as Ij. apply base_monoms_in in Ii. apply base_monoms_in in Ij.
        rewrite (proj1 Ii), (proj1 Ij). reflexivity.
      * intros x Hx. cbn [concat]. rewrite map_app, fsum_app. apply fadd_nonneg; [apply E3; [exact A4|]|apply F3]; intros; apply Hx; cbn; auto.
Qed.
Lemma mult_part d exprs X : exprs_ok K n exprs -> forall (eqs : list (poly K)) start k,
  (forall h, In h eqs -> wf n h) ->
  exists id, mapr (ideal_term n G d exprs) (cut_eq n X d start eqs) = Ok id /\
    (forall x, fsum (map (fun e => e x) id) = mult_sum K n (cv x) X d start k eqs) /\
    (forall x, (forall h p, In h eqs -> In p G -> peval (fun i => x (nth i p 0%nat)) h = 0) -> fsum (map (fun e => e x) id) = 0).
Proof.
  intros He eqs. induction eqs as [|h r IH]; intros start k Hw.
  - exists []. split; [reflexivity|]. split; reflexivity.
  - destruct (ideal_term_value d exprs h (map (fun i => vget X (start + i)) (seq 0 (length (mult_vec n d h))))) as (e & E1 & E2 & E3).
    + exact He.
    + apply Hw. left. reflexivity.
    + rewrite map_length, seq_length. reflexivity.
    + destruct (IH (start + length (mult_vec n d h))%nat (S k) (fun g' H => Hw g' (or_intror H))) as (id & F1 & F2 & F3).
      exists (e :: id). cbn [cut_eq mapr]. cbv zeta. rewrite E1, F1. split; [reflexivity|]. split.
      * intro x. cbn [map fsum mult_sum]. cbv zeta. rewrite E2, F2. f_equal. apply bsum_ext. intros i Hi. f_equal.
        rewrite (vget_map K _ 0%nat) by (rewrite seq_length; exact Hi). rewrite seq_nth by exact Hi. reflexivity.
      * intros x Hx. cbn [map fsum]. rewrite E3, F3; [ring| |]; intros; apply Hx; cbn; auto.
Qed.
Lemma low_all d (eqs : list (poly K)) : existsb (fun h => (d <? total_degree h)%nat) eqs = false -> low d eqs = eqs.
Proof.
  intro H. unfold low. induction eqs as [|h r IH]; [reflexivity|]. cbn [existsb filter] in *. apply orb_false_elim in H. destruct H as [H1 H2].
  apply Nat.ltb_ge in H1. rewrite (proj2 (Nat.leb_le _ _) H1), IH by exact H2. reflexivity.
Qed.
Lemma columns_sum d ineqs eqs X x : low d eqs = eqs ->
  bsum (length (columns n d ineqs eqs)) (fun j => vget X j * col_value K G (nth j (columns n d ineqs eqs) (Mult 0 [] [])) x)
  = gram_sum K n (cv x) X d 0 0 ineqs + mult_sum K n (cv x) X d (gram_size n d ineqs) 0 eqs.
Proof.
  intro L. unfold columns. rewrite L.
  change (bsum (length (gram_loop n d 0 ineqs ++ mult_loop n d 0 eqs)) _) with (csum K (cv x) X 0 (gram_loop n d 0 ineqs ++ mult_loop n d 0 eqs)).
  rewrite csum_app, gram_loop_sum, mult_loop_sum, gram_loop_length. reflexivity.
Qed.
(** homogeneous polynomials *)
Lemma is_hom_keys (p : poly K) : is_hom p = true -> forall m, In m (keys p) -> list_sum m = total_degree p.
Proof.
  intros H. destruct p as [|t p]; [intros ? []|]. cbn [is_hom] in H. rewrite forallb_forall in H.
  assert (A : forall m, In m (keys (t :: p)) -> list_sum m = list_sum (fst t)).
  { intros m Hm. apply in_map_iff in Hm. destruct Hm as [u [<- Hu]]. apply Nat.eqb_eq, H, Hu. }
  intros m Hm. rewrite (total_degree_homog K (t :: p) _ A) by discriminate. apply A, Hm.
Qed.
Lemma gram_in d k (g : poly K) c : In c (gram_cols n d k g) -> exists u w, c = Gram k g u w /\ In u (gram_vec n d g) /\ In w (gram_vec n d g).
Proof.
  intro H. apply in_flat_map in H. destruct H as [u [Hu H]]. apply in_map_iff in H. destruct H as [w [<- Hw]]. exists u, w. auto.
Qed.
Lemma gram_loop_in d c : forall (ineqs : list (poly K)) k, In c (gram_loop n d k ineqs) -> exists k' g u w, c = Gram k' g u w /\ In g ineqs /\ In u (gram_vec n d g) /\ In w (gram_vec n d g).
Proof.
  induction ineqs as [|g r IH]; intros k H; [destruct H|]. cbn [gram_loop] in H. apply in_app_or in H. destruct H as [H|H].
  - apply gram_in in H. destruct H as (u & w & -> & Hu & Hw). exists k, g, u, w. split; [reflexivity|]. split; [left; reflexivity|auto].
  - destruct (IH (S k) H) as (k' & g' & u & w & -> & Hg & Hu & Hw). exists k', g', u, w. split; [reflexivity|]. split; [right; exact Hg|auto].
Qed.
Lemma mult_loop_in d c : forall (eqs : list (poly K)) k, In c (mult_loop n d k eqs) -> exists k' h u, c = Mult k' h u /\ In h eqs /\ In u (mult_vec n d h).
Proof.
  induction eqs as [|g r IH]; intros k H; [destruct H|]. cbn [mult_loop] in H. apply in_app_or in H. destruct H as [H|H].
  - apply in_map_iff in H. destruct H as [u [<- Hu]]. exists k, g, u. split; [reflexivity|]. split; [left; reflexivity|exact Hu].
  - destruct (IH (S k) H) as (k' & g' & u & -> & Hg & Hu). exists k', g', u. split; [reflexivity|]. split; [right; exact Hg|auto].
Qed.
Lemma columns_ok d ineqs eqs : (forall g, In g (ineqs ++ eqs) -> wf n g /\ is_hom g = true) ->
  existsb (bad_ineq d) ineqs = false -> forall c, In c (columns n d ineqs eqs) -> col_ok K n d c.
Proof.
  intros H B c Hc. apply in_app_or in Hc. destruct Hc as [Hc|Hc].
  - apply gram_loop_in in Hc. destruct Hc as (k & g & u & w & -> & Hg & Hu & Hw).
    destruct (H g) as [W1 W2]; [apply in_or_app; left; exact Hg|]. unfold col_ok. cbn [col_poly col_shift].
    apply base_monoms_in in Hu. apply base_monoms_in in Hw. destruct Hu as [Lu Su], Hw as [Lw Sw].
    split; [exact W1|]. split; [rewrite madd_length; congruence|]. intros m Hm. rewrite madd_sum by congruence. rewrite (is_hom_keys g W2 m Hm), Su, Sw.
    assert (BG : bad_ineq d g = false).
    { destruct (bad_ineq d g) eqn:E; [|reflexivity]. rewrite <- B. symmetry. apply existsb_exists. exists g. auto. }
    unfold bad_ineq in BG. apply orb_false_elim in BG. destruct BG as [B1 B2]. apply Nat.ltb_ge in B1. apply negb_false_iff, Nat.eqb_eq in B2.
    pose proof (Nat.div_mod (d - total_degree g) 2). lia.
  - apply mult_loop_in in Hc. destruct Hc as (k & h & u & -> & Hh & Hu). unfold low in Hh. apply filter_In in Hh. destruct Hh as [Hh L]. apply Nat.leb_le in L.
    destruct (H h) as [W1 W2]; [apply in_or_app; right; exact Hh|]. unfold col_ok. cbn [col_poly col_shift].
    apply base_monoms_in in Hu. destruct Hu as [Lu Su]. split; [exact W1|]. split; [exact Lu|].
    intros m Hm. rewrite (is_hom_keys h W2 m Hm), Su. lia.
Qed.
(** Any vector that satisfies the equations gives a certificate. *)
Lemma certificate_value f ineqs eqs X decs iexprs eexprs :
  let d := total_degree f in
  wf n f -> is_hom f = true -> coef_sym K n G f ->
  (forall g, In g (ineqs ++ eqs) -> wf n g /\ is_hom g = true) ->
  distinct K ineqs -> distinct K eqs ->
  existsb (bad_ineq d) ineqs = false -> existsb (fun h => (d <? total_degree h)%nat) eqs = false ->
  exprs_ok K n iexprs -> exprs_ok K n eexprs ->
  (forall s, (s < length (inv_monoms G n true d))%nat ->
     dotv (length (columns n d ineqs eqs)) (map (entry n G d s) (columns n d ineqs eqs)) X = coef f (nth s (inv_monoms G n true d) [])) ->
  Forall2 (fun gM Us => exact_dec (snd gM) (fst Us) (snd Us)) (gram_matrices n d ineqs X) decs ->
  exists cert, from_decompositions n G d (combine (map fst (splits n d ineqs)) decs) (multipliers n d ineqs eqs X) iexprs eexprs = Ok cert /\
    (forall x, cert x = peval x f) /\
    (forall x, (forall g p, In g ineqs -> In p G -> 0 <= peval (fun i => x (nth i p 0%nat)) g) ->
       (forall h p, In h eqs -> In p G -> peval (fun i => x (nth i p 0%nat)) h = 0) -> 0 <= cert x).
Proof.
  intros d Wf Hf Sf Hc D1 D2 B1 B2 E1 E2 HS F.
  unfold gram_matrices in F. rewrite splits_id in * by exact D1.
  destruct (gram_part d iexprs X E1 ineqs 0%nat 0%nat decs (fun g H => proj1 (Hc g (in_or_app _ _ _ (or_introl H)))) F) as (sq & A1 & A2 & A3).
  destruct (mult_part d eexprs X E2 eqs (gram_size n d ineqs) 0%nat (fun g H => proj1 (Hc g (in_or_app _ _ _ (or_intror H))))) as (id & C1 & C2 & C3).
  eexists. split; [|split].
  - unfold from_decompositions. rewrite map_map. cbn [fst]. rewrite map_id, A1, multipliers_id, C1 by assumption. reflexivity.
  - intro x. cbn beta. rewrite A2, C2.
    transitivity (bsum (length (columns n d ineqs eqs)) (fun j => vget X j * col_value K G (nth j (columns n d ineqs eqs) (Mult 0 [] [])) x)).
    + symmetry. apply columns_sum, low_all, B2.
    + apply (combination_value K n G HG d); [exact Wf|apply is_hom_keys, Hf|exact Sf|apply columns_ok; assumption|exact HS].
  - intros x H1 H2. cbn beta. rewrite C3 by exact H2. apply fadd_nonneg; [apply A3, H1|apply fle_refl].
Qed.
End Value.
