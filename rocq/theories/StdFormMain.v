(** * The value of the standard form *)
From Coq Require Import Bool List Arith Lia ZArith Ring Field Permutation.
From Verif Require Import OrdField Base Perm Poly PolyId Coeff Monomials StdForm.
Import ListNotations.

Section Main.
Variable K : OrdField.
Local Open Scope of_scope.
Add Field Kf : (F_field K).
Variable n : nat.
Variable G : list (list nat).
Hypothesis HG : is_group n G.
Implicit Types (x : nat -> K) (m y : list nat).

Lemma fsum_group (f : list nat -> K) m h : length m = n -> In h G ->
  fsum (map (fun g => f (act 0%nat g (act 0%nat h m))) G) = fsum (map (fun g => f (act 0%nat g m)) G).
Proof.
  intros Hm Hh. transitivity (fsum (map (fun g => f (act 0%nat (pcomp g h) m)) G)).
  - apply fsum_map_ext. intros g Hg. f_equal. apply (act_comp 0%nat n); [apply (g_perm n G HG), Hg|apply is_perm_length, (g_perm n G HG), Hh].
  - rewrite <- (map_map (fun g => pcomp g h) (fun g => f (act 0%nat g m))). apply fsum_perm, Permutation_map, (translate_r_perm n G HG h Hh).
Qed.
Definition orbit m := nodup mon_dec (permute G m).
Lemma orbit_perm m h : length m = n -> In h G -> Permutation (map (act 0%nat h) (orbit m)) (orbit m).
Proof.
  intros Hm Hh. apply NoDup_Permutation_bis.
  - apply nodup_map_in; [|apply NoDup_nodup]. intros p q Hp Hq. apply (act_injective n G HG h p q Hh); [apply nodup_In in Hp|apply nodup_In in Hq]; eapply (permute_length n G HG); eassumption.
  - rewrite map_length. lia.
  - intros z Hz. apply in_map_iff in Hz. destruct Hz as (q & <- & Hq). unfold orbit in *. rewrite nodup_In in *. apply (orbit_trans n G HG m q _ Hm Hq), in_map_iff. exists h. split; [reflexivity|exact Hh].
Qed.
Lemma orbit_average (f : list nat -> K) m : length m = n ->
  fnat (length (orbit m)) * fsum (map (fun g => f (act 0%nat g m)) G) = fnat (length G) * fsum (map f (orbit m)).
Proof.
  intro Hm. transitivity (fsum (map (fun y => fsum (map (fun g => f (act 0%nat g y)) G)) (orbit m))).
  - rewrite <- fsum_const. apply fsum_map_ext. intros y Hy. unfold orbit in Hy. rewrite nodup_In in Hy. apply in_map_iff in Hy. destruct Hy as (h & <- & Hh).
    symmetry. apply fsum_group; assumption.
  - rewrite fsum_swap, <- fsum_const. apply fsum_map_ext. intros g Hg. rewrite <- (map_map (act 0%nat g) f). apply fsum_perm, Permutation_map, orbit_perm; assumption.
Qed.
Lemma fsum_count (l : list (list nat)) m : fsum (map (fun y => if meqb y m then 1 else 0) l) = (fnat (count_occ mon_dec l m) : K).
Proof.
  induction l as [|y l IH]; cbn [map fsum count_occ]; [reflexivity|]. rewrite IH. destruct (mon_dec y m) as [->|N]; [rewrite meqb_refl; cbn [fnat]; ring|].
  destruct (meqb_spec y m); [contradiction|ring].
Qed.
(** orbits and stabilisers: the quotient computed by [get_order] *)
Lemma orbit_order m : length m = n -> (length (orbit m) * (length G / length (orbit m)) = length G)%nat.
Proof.
  intro Hm. pose proof (orbit_average (fun y => if meqb y m then 1 else 0) m Hm) as A. cbv beta in A.
  rewrite <- (map_map (fun g => act 0%nat g m) (fun y => if meqb y m then 1 else 0)) in A. rewrite !fsum_count in A.
  assert (C1 : count_occ mon_dec (orbit m) m = 1%nat).
  { apply (proj1 (NoDup_count_occ' mon_dec (orbit m)) (NoDup_nodup mon_dec _)). unfold orbit. rewrite nodup_In. apply (permute_self n G HG m Hm). }
  rewrite C1 in A. set (s := count_occ mon_dec _ m) in A. rewrite <- !fnat_mul in A. apply fnat_inj in A.
  assert (P : (0 < length (orbit m))%nat). { destruct (orbit m) eqn:E; [|cbn; lia]. cbn in C1. discriminate. }
  assert (E : length G = (s * length (orbit m))%nat) by lia. rewrite E, Nat.div_mul by lia. lia.
Qed.
Lemma orbit_pos m : length m = n -> (0 < length (orbit m))%nat.
Proof.
  intro Hm. assert (I : In m (orbit m)) by (unfold orbit; rewrite nodup_In; apply (permute_self n G HG m Hm)). destruct (orbit m); [destruct I|cbn; lia].
Qed.
Lemma order_pos m : length m = n -> (0 < length G / length (orbit m))%nat.
Proof. intro Hm. pose proof (orbit_order m Hm). pose proof (G_nonempty n G HG). destruct G as [|g0 G0]; [congruence|]. cbn [length] in *. nia. Qed.
Lemma group_sum (f : list nat -> K) m : length m = n ->
  fsum (map (fun g => f (act 0%nat g m)) G) = fnat (length G / length (orbit m)) * fsum (map f (orbit m)).
Proof.
  intro Hm. pose proof (orbit_average f m Hm) as A. rewrite <- (orbit_order m Hm) in A at 1. rewrite fnat_mul in A. pose proof (orbit_pos m Hm) as P.
  assert (N : (fnat (length (orbit m)) : K) <> 0) by (apply fnat_neq0, P).
  set (a := fnat (length (orbit m))) in *. set (S1 := fsum _) in *. set (S2 := fsum (map f (orbit m))) in *.
  assert (Z : a * (S1 - fnat (length G / length (orbit m)) * S2) = 0) by (transitivity (a * S1 - a * fnat (length G / length (orbit m)) * S2); [ring|rewrite A; ring]).
  apply (fmul_eq0 K) in Z. destruct Z as [Z|Z]; [contradiction|]. transitivity (S1 - fnat (length G / length (orbit m)) * S2 + fnat (length G / length (orbit m)) * S2); [ring|]. rewrite Z. ring.
Qed.
(** the sum over the group of a divided term *)
Lemma term_value x m (c : K) : length m = n ->
  fsum (map (fun g => c / fnat (length G / length (orbit m)) * meval (fun i => x (nth i g 0%nat)) m) G) = c * fsum (map (meval x) (orbit m)).
Proof.
  intro Hm. set (s := (length G / length (orbit m))%nat). assert (N : (fnat s : K) <> 0) by (apply fnat_neq0; exact (order_pos m Hm)).
  transitivity (c / fnat s * fsum (map (fun g => meval x (act 0%nat g m)) G)).
  - rewrite fsum_map_mul_l. f_equal. transitivity (fsum (map (fun g => meval x (act 0%nat (pinv g) m)) G)).
    + apply fsum_map_ext. intros g Hg. apply (meval_perm K n); [apply (g_perm n G HG), Hg|exact Hm].
    + rewrite <- (map_map pinv (fun g => meval x (act 0%nat g m))). apply fsum_perm, Permutation_map, (pinv_perm_list n G HG).
  - rewrite (group_sum (meval x) m Hm). fold s. field. exact N.
Qed.

Section Poly1.
Variable gens : list (list nat).
Hypothesis gens_G : forall g, In g gens -> In g G.
Hypothesis G_gens : forall g, In g G -> generated n gens g.
Hypothesis gens_ne : gens <> [].
Variable p : poly K.
Hypothesis W : wf n p.
Hypothesis NZ : forall t, In t p -> snd t <> 0.
Hypothesis Inv : forall g, In g G -> coef_inv K n g p.

Let M := keys p.
Lemma M_closed g m : In g G -> In m M -> In (act 0%nat g m) M.
Proof.
  intros Hg Hm. assert (Ct : coef p m <> 0). { apply in_map_iff in Hm. destruct Hm as ([k c] & E & I). cbn in E. subst k. rewrite (coef_in K p m c (proj1 W) I). exact (NZ _ I). }
  destruct (in_dec mon_dec (act 0%nat g m) M) as [I|I]; [exact I|]. exfalso. apply Ct. rewrite <- (Inv g Hg m (proj2 W m Hm)). apply coef_notin, I.
Qed.
Let U0 := forest gens M.
Lemma U0_std y : In y M -> rt U0 y = standard_monom G y.
Proof. apply (U_standard n G gens M HG gens_G G_gens (proj2 W) M_closed). Qed.
Lemma U0_inv : inv n G M (edges gens M) U0.
Proof. apply (U_inv n G gens M HG gens_G (proj2 W) M_closed). Qed.
Lemma U0_count y : In y M -> count_occ mon_dec (map (rt U0) (ukeys U0)) (standard_monom G y) = length (orbit y).
Proof. apply (count_occ_orbit n G gens M HG gens_G G_gens gens_ne (proj2 W) (proj1 W) M_closed). Qed.

Lemma count_roots_spec ks : forall u, mono u -> exists u', count_roots ks u = (map (rt u) ks, u') /\ mono u' /\ forall y, rt u' y = rt u y.
Proof.
  induction ks as [|k ks IH]; intros u Mu; cbn [count_roots map].
  - exists u. split; [reflexivity|]. split; [exact Mu|reflexivity].
  - destruct (find_rt u k Mu) as (u1 & E1 & M1 & _ & R1). rewrite E1. destruct (IH u1 M1) as (u2 & E2 & M2 & R2). rewrite E2. exists u2. split; [|split; [exact M2|]].
    + f_equal. f_equal. apply map_ext. exact R1.
    + intro y. rewrite R2. apply R1.
Qed.
Lemma extract_spec (q : poly K) : forall u, mono u -> exists u', extract q u = (filter (fun t => meqb (rt u (fst t)) (fst t)) q, u') /\ mono u' /\ forall y, rt u' y = rt u y.
Proof.
  induction q as [|t q IH]; intros u Mu; cbn [extract filter].
  - exists u. split; [reflexivity|]. split; [exact Mu|reflexivity].
  - destruct (find_rt u (fst t) Mu) as (u1 & E1 & M1 & _ & R1). rewrite E1. destruct (IH u1 M1) as (u2 & E2 & M2 & R2). rewrite E2. exists u2. split; [|split; [exact M2|]].
    + f_equal. rewrite (filter_ext (fun t0 : list nat * K => meqb (rt u1 (fst t0)) (fst t0)) (fun t0 => meqb (rt u (fst t0)) (fst t0)) (fun t0 => f_equal (fun z => meqb z (fst t0)) (R1 (fst t0))) q). reflexivity.
    + intro y. rewrite R2. apply R1.
Qed.
Lemma divide_spec order rs (ts : poly K) : forall u, mono u -> (forall t, In t ts -> count_occ mon_dec rs (rt u (fst t)) <> 0%nat) ->
  divide order rs ts u = Ok (map (fun t => (fst t, snd t / fnat (order / count_occ mon_dec rs (rt u (fst t))))) ts).
Proof.
  induction ts as [|t ts IH]; intros u Mu H; cbn [divide map]; [reflexivity|]. destruct (find_rt u (fst t) Mu) as (u1 & E1 & M1 & _ & R1). rewrite E1, ufs_size_count.
  destruct (Nat.eqb_spec (count_occ mon_dec rs (rt u (fst t))) 0) as [C|_]; [destruct (H t (or_introl eq_refl) C)|].
  rewrite (IH u1 M1); [|intros t' I; rewrite R1; apply H; right; exact I]. do 2 f_equal. apply map_ext. intro t'. rewrite R1. reflexivity.
Qed.
Definition std_terms : poly K := filter (fun t => meqb (standard_monom G (fst t)) (fst t)) p.
Lemma cyclic_terms : is_cyclic n gens p = true ->
  standard_form n (length G) gens p = Ok (negb (Nat.eqb (length G) 1), map (fun t => (fst t, snd t / fnat (length G / length (orbit (fst t))))) std_terms).
Proof.
  intro C. unfold standard_form. rewrite C. fold M. fold U0. pose proof (i_mono _ _ _ _ _ U0_inv) as Mo.
  destruct (count_roots_spec (ukeys U0) U0 Mo) as (u1 & E1 & M1 & R1). rewrite E1. destruct (extract_spec p u1 M1) as (u2 & E2 & M2 & R2). rewrite E2.
  assert (Ef : filter (fun t => meqb (rt u1 (fst t)) (fst t)) p = std_terms).
  { unfold std_terms. apply filter_ext_in. intros t It. rewrite R1, U0_std by (apply in_map, It). reflexivity. }
  rewrite Ef. assert (Hr : forall t, In t std_terms -> count_occ mon_dec (map (rt U0) (ukeys U0)) (rt u2 (fst t)) = length (orbit (fst t))).
  { intros t It. apply filter_In in It. destruct It as [It _]. rewrite R2, R1, U0_std by (apply in_map, It). apply U0_count, in_map, It. }
  rewrite (divide_spec (length G) _ std_terms u2 M2).
  - do 2 f_equal. apply map_ext_in. intros t It. rewrite (Hr t It). reflexivity.
  - intros t It. rewrite (Hr t It). apply filter_In in It. pose proof (orbit_pos (fst t) (proj2 W _ (in_map fst _ _ (proj1 It)))). lia.
Qed.

Lemma orbit_filter y : In y M -> Permutation (orbit y) (filter (fun z => meqb (standard_monom G y) (standard_monom G z)) M).
Proof.
  intro Hy. pose proof (proj2 W y Hy) as Ly. apply NoDup_Permutation; [apply NoDup_nodup|apply NoDup_filter, W|]. intro z. unfold orbit. rewrite nodup_In, filter_In, meqb_eq. split.
  - intro Oz. pose proof (orbit_M G M M_closed y z Hy Oz) as Mz. split; [exact Mz|]. symmetry. apply (standard_orbit_iff n G HG y z Ly (proj2 W z Mz)), Oz.
  - intros [Mz E]. apply (standard_orbit_iff n G HG y z Ly (proj2 W z Mz)). symmetry. exact E.
Qed.
Lemma orbits_value x : fsum (map (fun t => snd t * fsum (map (meval x) (orbit (fst t)))) std_terms) = peval x p.
Proof.
  transitivity (fsum (map (fun t => fsum (map (fun z => if meqb (fst t) (standard_monom G z) then snd t * meval x z else 0) M)) std_terms)).
  - apply fsum_map_ext. intros t It. apply filter_In in It. destruct It as [It Et]. apply meqb_eq in Et. rewrite <- fsum_filter, fsum_map_mul_l. f_equal.
    apply fsum_perm, Permutation_map. pose proof (orbit_filter (fst t) (in_map fst _ _ It)) as O. rewrite Et in O. exact O.
  - rewrite fsum_swap. transitivity (fsum (map (fun z => coef p z * meval x z) M)).
    + apply fsum_map_ext. intros z Hz. pose proof (proj2 W z Hz) as Lz. unfold std_terms. rewrite fsum_filter.
      transitivity (meval x z * coef p (standard_monom G z)).
      * rewrite (coef_as_sum K p (standard_monom G z) (proj1 W)), <- fsum_map_mul_l. apply fsum_map_ext. intros t It. unfold ind.
        destruct (meqb_spec (fst t) (standard_monom G z)) as [E|N].
        -- rewrite E, (standard_idem n G HG z Lz), meqb_refl. ring.
        -- destruct (meqb (standard_monom G (fst t)) (fst t)); ring.
      * assert (Hs : In (standard_monom G z) (permute G z)) by apply (standard_in_orbit n G HG). apply in_map_iff in Hs. destruct Hs as (g & <- & Hg). rewrite (Inv g Hg z Lz). ring.
    + unfold M, keys, peval. rewrite map_map. apply fsum_map_ext. intros [k c] It. cbn [fst snd]. rewrite (coef_in K p k c (proj1 W) It). reflexivity.
Qed.
End Poly1.

Definition group_sum_value x (l : poly K) : K := fsum (map (fun t => fsum (map (fun g => snd t * meval (fun i => x (nth i g 0%nat)) (fst t)) G)) l).
Theorem standard_form_spec gens (p : poly K) :
  (forall g, In g gens -> In g G) -> (forall g, In g G -> generated n gens g) -> gens <> [] -> wf n p -> (forall t, In t p -> snd t <> 0) ->
  exists b l, standard_form n (length G) gens p = Ok (b, l) /\
    (b = true <-> (forall g, In g G -> invariant_under g p) /\ length G <> 1%nat) /\
    (b = true -> (forall x, group_sum_value x l = peval x p) /\
       NoDup (map fst l) /\ forall m g, In m (map fst l) -> In g G -> lex_ge m (act 0%nat g m)) /\
    (b = false -> forall x, peval x l = peval x p).
Proof.
  intros gG Gg ne W NZ. assert (Pg : forall h, In h gens -> is_perm n h) by (intros h Hh; apply (g_perm n G HG), gG, Hh).
  pose proof (is_cyclic_spec K n gens p W Pg) as Cs.
  assert (Ci : is_cyclic n gens p = true <-> forall g, In g G -> invariant_under g p).
  { rewrite Cs. split; intros H g Hg; apply H; [apply Gg, Hg|]. apply (generated_G n G gens HG gG g Hg). }
  destruct (is_cyclic n gens p) eqn:Ec.
  - assert (Iv : forall g, In g G -> coef_inv K n g p). { intros g Hg. exact (proj1 (rename_invariant_iff K n g p (g_perm n G HG g Hg) W) (proj1 Ci eq_refl g Hg)). }
    exists (negb (Nat.eqb (length G) 1)), (map (fun t => (fst t, snd t / fnat (length G / length (orbit (fst t))))) (std_terms p)).
    split; [apply (cyclic_terms gens gG Gg ne p W NZ Iv Ec)|]. split; [|split].
    + rewrite negb_true_iff, Nat.eqb_neq. split; [intro H; split; [apply Ci; reflexivity|exact H]|intros [_ H]; exact H].
    + intros _. split; [|split].
      * intro x. unfold group_sum_value. rewrite map_map. cbn [fst snd]. rewrite <- (orbits_value p W NZ Iv x). apply fsum_map_ext. intros t It. apply filter_In in It.
        apply term_value. apply (proj2 W), in_map, It.
      * rewrite map_map. cbn [fst]. unfold std_terms. destruct W as [ND _]. unfold keys in ND. clear - ND. induction p as [|t q IH]; cbn [filter map] in *; [constructor|].
        inversion ND; subst. destruct (meqb _ _); [|apply IH; assumption]. cbn [map]. constructor; [|apply IH; assumption]. intro I. apply in_map_iff in I. destruct I as (t' & E & I). apply filter_In in I.
        match goal with H : ~ In _ _ |- _ => apply H end. rewrite <- E. apply in_map, I.
      * intros m g Hm Hg. rewrite map_map in Hm. cbn [fst] in Hm. apply in_map_iff in Hm. destruct Hm as (t & <- & It). apply filter_In in It. destruct It as [_ E]. apply meqb_eq in E. rewrite <- E at 1.
        apply lex_max_ge, in_map_iff. exists g. split; [reflexivity|exact Hg].
    + intros H x. apply negb_false_iff, Nat.eqb_eq in H. rewrite <- (orbits_value p W NZ Iv x). unfold peval. rewrite map_map. cbn [fst snd]. apply fsum_map_ext. intros t It. apply filter_In in It.
      assert (Lt : length (fst t) = n) by (apply (proj2 W), in_map, It). rewrite <- (term_value x (fst t) (snd t) Lt).
      destruct G as [|g0 [|g1 G0]] eqn:EG; cbn [length] in H; try lia. cbn [map fsum].
      pose proof (g_id n _ HG) as Hi. destruct Hi as [->|[]].
      replace (meval (fun i => x (nth i (pid n) 0%nat)) (fst t)) with (meval x (fst t)); [ring|].
      rewrite (meval_perm K n x (pid n) (fst t) (g_perm n _ HG _ (or_introl eq_refl)) Lt). f_equal. rewrite <- (act_pinv_l n (pid n) (fst t) (g_perm n _ HG _ (or_introl eq_refl)) Lt) at 1. rewrite (act_id 0%nat n (fst t) Lt). reflexivity.
  - exists false, p. unfold standard_form. rewrite Ec. split; [reflexivity|]. split; [|split].
    + split; [discriminate|]. intros [H _]. apply Ci in H. discriminate.
    + discriminate.
    + intros _ x. reflexivity.
Qed.
End Main.

Lemma forest_orbits n G gens M : is_group n G -> (forall g, In g gens -> In g G) -> (forall g, In g G -> generated n gens g) -> gens <> [] ->
  (forall m, In m M -> length m = n) -> NoDup M -> (forall g m, In g G -> In m M -> In (act 0%nat g m) M) ->
  forall m, In m M -> fst (find_root (forest gens M) m) = lex_max (map (fun g => act 0%nat g m) G) /\
    ufs_size (fst (count_roots (ukeys (forest gens M)) (forest gens M))) (fst (find_root (forest gens M) m)) = length (nodup mon_dec (map (fun g => act 0%nat g m) G)).
Proof.
  intros HG gG Gg ne ML MN MC m Hm. fold (rt (forest gens M) m).
  pose proof (U_standard n G gens M HG gG Gg ML MC m Hm) as E. pose proof (count_occ_orbit n G gens M HG gG Gg ne ML MN MC m Hm) as C. unfold U in *.
  pose proof (i_mono _ _ _ _ _ (U_inv n G gens M HG gG ML MC)) as Mo. destruct (count_roots_spec (ukeys (forest gens M)) (forest gens M) Mo) as (u' & Er & _). rewrite Er. cbn [fst].
  split; [exact E|]. rewrite E, ufs_size_count. exact C.
Qed.
