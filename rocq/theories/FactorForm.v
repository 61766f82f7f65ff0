(** * The factorised form of a polynomial (triples/utils/expression/form.py:180-239) *)
From Coq Require Import Bool List Arith Lia ZArith Ring Field Permutation.
From Verif Require Import OrdField Base Perm Poly PolyId.
From Verif Require Shared.
Import ListNotations.

Section Model.
Context {K : OrdField}.
Local Open Scope of_scope.

(** [base.reorder( *p(gens) ).rep] (form.py:217): the exponents in the new order of the generators *)
Definition reorder (g : list nat) (f : poly K) : poly K := map (fun t => (act 0%nat g (fst t), snd t)) f.
(** [-permed_base] (form.py:220) *)
Definition pneg (f : poly K) : poly K := map (fun t => (fst t, - snd t)) f.
(** equality of [rep], the key of [rep_dict] (form.py:210, 218) *)
Definition same (f h : poly K) : bool := forallb (fun m => coef f m =? coef h m) (keys f ++ keys h).

(** An entry of [pow_dict] (form.py:209, 213) (a factor and its power) with its entry of [subdict] (zero if absent).
    [rep_dict] always has the keys of [pow_dict]; a deleted entry is kept here with the power zero. *)
Definition ent : Type := (poly K * nat * nat)%type.
Definition efac (e : ent) : poly K := fst (fst e).
Definition epow (e : ent) : nat := snd (fst e).
Definition ecnt (e : ent) : nat := snd e.
(** [rep_dict.get] (form.py:218, 220) *)
Fixpoint lookup (l : list ent) (f : poly K) : option nat :=
  match l with
  | [] => None
  | e :: l' => if (Nat.ltb 0 (epow e) && same (efac e) f)%bool then Some 0%nat else option_map S (lookup l' f)
  end.
(** [subdict[permed_poly] += 1] (form.py:224) *)
Fixpoint bump (l : list ent) (i : nat) : list ent :=
  match l, i with
  | [], _ => []
  | e :: l', O => (efac e, epow e, S (ecnt e)) :: l'
  | e :: l', S i' => e :: bump l' i'
  end.
(** [subdict[permed_poly]], [pow_dict[permed_poly]] (form.py:225) *)
Definition entry (l : list ent) (i : nat) : ent := nth i l ([], 0%nat, 0%nat).

(** the inner loop (form.py:213-228); [cmp f h] is [f.compare(h) < 0], [sign] is true for -1 and the
    result [None] stands for [break] *)
Variable cmp : poly K -> poly K -> bool.
Fixpoint scan (els : list (list nat)) (base : poly K) (l : list ent) (rep : poly K) (sign : bool) : option (list ent * poly K * bool) :=
  match els with
  | [] => Some (l, rep, sign)
  | g :: els' =>
      let im := reorder g base in
      let go i sign :=
        let l' := bump l i in
        let e := entry l' i in
        if Nat.ltb (epow e) (ecnt e) then None
        else scan els' base l' (if cmp (efac e) rep then efac e else rep) sign in
      match lookup l im with
      | Some i => go i sign
      | None => match lookup l (pneg im) with Some i => go i (negb sign) | None => None end
      end
  end.
(** [min(pow_dict[p]//v for p, v in subdict.items())] (form.py:231) *)
Definition quots (l : list ent) : list nat := map (fun e => (epow e / ecnt e)%nat) (filter (fun e => Nat.ltb 0 (ecnt e)) l).
Definition common (l : list ent) : nat := match quots l with [] => 0%nat | v :: vs => fold_left Nat.min vs v end.
(** [pow_dict[p] -= d * v] (form.py:233-237) *)
Definition take (d : nat) (l : list ent) : list ent := map (fun e => (efac e, epow e - d * ecnt e, 0)%nat) l.
(** the outer loop (form.py:212-238) *)
Fixpoint loop (G : list (list nat)) (bases : list (poly K)) (coeff : K) (l : list ent) (cyc : list (poly K * nat)) : K * list ent * list (poly K * nat) :=
  match bases with
  | [] => (coeff, l, cyc)
  | base :: bases' =>
      match scan G base l base false with
      | None => loop G bases' coeff l cyc
      | Some (l', rep, sign) =>
          let d := common l' in
          loop G bases' (if (sign && Nat.odd d)%bool then - coeff else coeff) (take d l') (cyc ++ [(rep, d)])
      end
  end.
(** [_reduce_factor_list]; [coeff] and [factors] are the result of [factor_list] *)
Definition reduce_factor_list (G : list (list nat)) (coeff : K) (factors : list (poly K * nat)) : K * list (poly K * nat) * list (poly K * nat) :=
  match loop G (map fst factors) coeff (map (fun t => (fst t, snd t, 0%nat)) factors) [] with
  | (c, l, cyc) => (c, filter (fun t => Nat.ltb 0 (snd t)) (map (fun e => (efac e, epow e)) l), cyc)
  end.
End Model.

Section Facts.
Variable K : OrdField.
Local Open Scope of_scope.
Add Field Kf : (F_field K).
Variable cmp : poly K -> poly K -> bool.
Variable n : nat.
Variable G : list (list nat).
Hypothesis HG : is_group n G.
Implicit Types (x : nat -> K) (l : list (@ent K)) (f base rep : poly K).

Lemma same_coef (f h : poly K) m : same f h = true -> coef f m = coef h m.
Proof.
  intro H. unfold same in H. rewrite forallb_forall in H. destruct (in_dec mon_dec m (keys f ++ keys h)) as [I|I].
  - apply feqb_eq. apply H, I.
  - rewrite !coef_notin; [reflexivity| |]; intro; apply I, in_or_app; [right|left]; assumption.
Qed.
Lemma same_val x f (h : poly K) : wf n f -> wf n h -> same f h = true -> peval x f = peval x h.
Proof. intros [A _] [B _] H. apply coef_ext_peval; try assumption. intro m. apply same_coef, H. Qed.
Lemma reorder_val x g f : is_perm n g -> wf n f -> peval x (reorder g f) = peval (fun i => x (nth i (pinv g) 0%nat)) f.
Proof.
  intros Hg [_ L]. unfold peval, reorder. rewrite map_map. apply fsum_map_ext. intros t Ht. cbn [fst snd]. f_equal.
  rewrite (meval_perm K n x (pinv g) (fst t)); [|apply pinv_is_perm, Hg|apply L, in_map, Ht]. rewrite (Shared.pinv_pinv n g Hg). reflexivity.
Qed.
Lemma reorder_wf g f : is_perm n g -> wf n f -> wf n (reorder g f).
Proof.
  intros Hg W. replace (reorder g f) with (prename K (pinv g) f); [apply prename_wf; [apply pinv_is_perm, Hg|exact W]|].
  unfold prename, reorder. rewrite (Shared.pinv_pinv n g Hg). reflexivity.
Qed.
Lemma pneg_val x (f : poly K) : peval x (pneg f) = - peval x f.
Proof.
  unfold peval, pneg. rewrite map_map. induction f as [|t f IH]; cbn [map fsum fst snd]; [ring|]. cbn [map fsum fst snd] in IH. rewrite IH. ring.
Qed.
Lemma pneg_wf f : wf n f -> wf n (pneg f).
Proof. intro W. unfold wf, keys, pneg. rewrite map_map. exact W. Qed.

Definition sg (s : bool) : K := if s then - (1) else 1.
Lemma sg_sq s : sg s * sg s = 1. Proof. destruct s; cbn; ring. Qed.
Lemma sg_negb s : sg (negb s) = - sg s. Proof. destruct s; cbn; ring. Qed.
Definition fs l := map efac l.
Definition pv x l : K := fprod (map (fun e => peval x (efac e) ^ epow e) l).
Definition cv x l : K := fprod (map (fun e => peval x (efac e) ^ ecnt e) l).
Definition fine l := forall e, In e l -> wf n (efac e) /\ (ecnt e <= epow e)%nat.

Lemma lookup_spec l f i : lookup l f = Some i -> exists e, nth_error l i = Some e /\ (0 < epow e)%nat /\ same (efac e) f = true.
Proof.
  revert i. induction l as [|e l IH]; intros i; cbn [lookup]; [discriminate|]. destruct (_ && _)%bool eqn:E.
  - intro H. injection H as <-. apply andb_prop in E. destruct E as [E1 E2]. exists e. split; [reflexivity|]. split; [apply Nat.ltb_lt, E1|exact E2].
  - destruct (lookup l f) as [j|]; [|discriminate]. intro H. injection H as <-. exact (IH j eq_refl).
Qed.
Lemma bump_spec l i e : nth_error l i = Some e ->
  map (fun u => (efac u, epow u)) (bump l i) = map (fun u => (efac u, epow u)) l /\ entry (bump l i) i = (efac e, epow e, S (ecnt e)) /\
  (forall x, cv x (bump l i) = cv x l * peval x (efac e)) /\ (forall u, In u (bump l i) -> In u l \/ u = (efac e, epow e, S (ecnt e))).
Proof.
  revert i. induction l as [|h l IH]; intros [|i]; cbn [nth_error bump]; try discriminate.
  - intro H. injection H as ->. split; [reflexivity|]. split; [reflexivity|]. split.
    + intro x. unfold cv. cbn [map fprod efac ecnt fst snd fpow]. ring.
    + intros u [<-|H]; [right; reflexivity|left; right; exact H].
  - intro H. destruct (IH i H) as (A & B & C & D). split; [cbn [map]; rewrite A; reflexivity|]. split; [exact B|]. split.
    + intro x. pose proof (C x) as Cx. unfold cv in *. cbn [map fprod]. rewrite Cx. ring.
    + intros u [<-|U]; [left; left; reflexivity|]. destruct (D u U); [left; right; assumption|right; assumption].
Qed.

(** no factor is the negative of an image of a factor *)
Definition signfree (fs : list (poly K)) := forall f (h : poly K) g, In f fs -> In h fs -> In g G -> same f (pneg (reorder g h)) = false.
Definition image l base f := exists g s, In g G /\ In f (fs l) /\ (forall x, peval x f = sg s * peval x (reorder g base)) /\ (signfree (fs l) -> In base (fs l) -> s = false).
Lemma scan_spec els base l rep sign l' rep' sign' : (forall g, In g els -> In g G) -> wf n base -> fine l ->
  scan cmp els base l rep sign = Some (l', rep', sign') ->
  map (fun u => (efac u, epow u)) l' = map (fun u => (efac u, epow u)) l /\ fine l' /\
  (forall x, cv x l' * sg sign' = cv x l * sg sign * fprod (map (fun g => peval x (reorder g base)) els)) /\
  (rep' = rep \/ image l base rep') /\
  (signfree (fs l) -> In base (fs l) -> sign' = sign).
Proof.
  revert l rep sign. induction els as [|g els IH]; intros l rep sign Hin Wb Fl; cbn [scan].
  - intro H. injection H as <- <- <-. split; [reflexivity|]. split; [exact Fl|]. split; [intro x; cbn [map fprod]; ring|]. split; [left; reflexivity|]. intros _ _. reflexivity.
  - assert (Hg : In g G) by (apply Hin; left; reflexivity). assert (Pg : is_perm n g) by (apply (g_perm n G HG), Hg).
    pose proof (reorder_wf g base Pg Wb) as Wi.
    assert (Step : forall i sg0 e, nth_error l i = Some e -> (forall x, peval x (efac e) = sg sg0 * peval x (reorder g base)) -> (sg0 = true -> signfree (fs l) -> In base (fs l) -> False) ->
      (if Nat.ltb (epow (entry (bump l i) i)) (ecnt (entry (bump l i) i)) then None
        else scan cmp els base (bump l i) (if cmp (efac (entry (bump l i) i)) rep then efac (entry (bump l i) i) else rep) (if sg0 then negb sign else sign)) = Some (l', rep', sign') ->
      map (fun u => (efac u, epow u)) l' = map (fun u => (efac u, epow u)) l /\ fine l' /\
      (forall x, cv x l' * sg sign' = cv x l * sg sign * fprod (map (fun g => peval x (reorder g base)) (g :: els))) /\
      (rep' = rep \/ image l base rep') /\
      (signfree (fs l) -> In base (fs l) -> sign' = sign)).
    { intros i sg0 e He Ve Hs. destruct (bump_spec l i e He) as (B1 & B2 & B3 & B4). rewrite B2. cbn [epow ecnt efac fst snd].
      destruct (Nat.ltb_spec (epow e) (S (ecnt e))) as [Lt|Ge]; [discriminate|]. intro H.
      pose proof (nth_error_In _ _ He) as Ie.
      assert (F1 : fine (bump l i)). { intros u Hu. destruct (B4 u Hu) as [Hu'| ->]; [apply Fl, Hu'|]. cbn [efac epow ecnt fst snd]. split; [apply (Fl e Ie)|exact Ge]. }
      assert (EF : fs (bump l i) = fs l). { unfold fs. replace (map efac (bump l i)) with (map fst (map (fun u : ent => (efac u, epow u)) (bump l i))) by (rewrite map_map; reflexivity). rewrite B1, map_map. reflexivity. }
      destruct (IH _ _ _ (fun h Hh => Hin h (or_intror Hh)) Wb F1 H) as (R1 & R2 & R3 & R4 & R5). split; [rewrite R1; exact B1|]. split; [exact R2|]. split; [|split].
      - intro x. rewrite R3, B3, Ve. cbn [map fprod]. destruct sg0, sign; cbn [sg negb]; ring.
      - unfold image in R4; rewrite EF in R4; fold (image l base rep') in R4. destruct R4 as [->|R4]; [|right; exact R4]. destruct (cmp _ _); [right|left; reflexivity]. exists g, sg0. split; [exact Hg|]. split; [apply in_map, Ie|]. split; [exact Ve|]. intros Sf Ib. destruct sg0; [destruct (Hs eq_refl Sf Ib)|reflexivity].
      - intros Sf Ib. rewrite EF in R5. rewrite (R5 Sf Ib). destruct sg0; [destruct (Hs eq_refl Sf Ib)|]. destruct sign; reflexivity. }
    destruct (lookup l (reorder g base)) as [i|] eqn:E1.
    + destruct (lookup_spec _ _ _ E1) as (e & He & _ & Se). apply (Step i false e He).
      * intro x. cbn [sg]. rewrite (same_val x (efac e) (reorder g base)); [ring| |exact Wi|exact Se]. apply (Fl e (nth_error_In _ _ He)).
      * discriminate.
    + destruct (lookup l (pneg (reorder g base))) as [i|] eqn:E2; [|discriminate].
      destruct (lookup_spec _ _ _ E2) as (e & He & _ & Se). apply (Step i true e He).
      * intro x. cbn [sg]. rewrite (same_val x (efac e) (pneg (reorder g base))); [rewrite pneg_val; ring| |apply pneg_wf, Wi|exact Se]. apply (Fl e (nth_error_In _ _ He)).
      * intros _ Sf Ib. pose proof (Sf (efac e) base g (in_map efac _ _ (nth_error_In _ _ He)) Ib Hg). congruence.
Qed.

Lemma fold_min_le vs v : (fold_left Nat.min vs v <= v)%nat /\ forall u, In u vs -> (fold_left Nat.min vs v <= u)%nat.
Proof.
  revert v. induction vs as [|w vs IH]; intro v; cbn [fold_left]; [split; [lia|intros u []]|]. destruct (IH (Nat.min v w)) as [A B].
  split; [lia|]. intros u [<-|U]; [lia|apply B, U].
Qed.
Lemma common_le l e : In e l -> (common l * ecnt e <= epow e)%nat.
Proof.
  intro I. destruct (Nat.eq_dec (ecnt e) 0) as [E|N]; [rewrite E; lia|].
  assert (Q : In (epow e / ecnt e)%nat (quots l)) by (unfold quots; apply (in_map (fun u => (epow u / ecnt u)%nat)), filter_In; split; [exact I|apply Nat.ltb_lt; lia]).
  assert (C : (common l <= epow e / ecnt e)%nat).
  { unfold common. destruct (quots l) as [|v vs]; [destruct Q|]. destruct (fold_min_le vs v) as [A B]. destruct Q as [<-|Q]; [exact A|apply B, Q]. }
  pose proof (Nat.mul_div_le (epow e) (ecnt e) N). nia.
Qed.
Lemma take_val x d l : (forall e, In e l -> (d * ecnt e <= epow e)%nat) -> pv x l = pv x (take d l) * cv x l ^ d.
Proof.
  unfold pv, cv, take. induction l as [|e l IH]; intro H; cbn [map fprod].
  - cbn [epow]. clear. induction d as [|d IH]; cbn [fpow]; [ring|]. rewrite <- IH. ring.
  - rewrite IH by (intros u Hu; apply H; right; exact Hu). cbn [efac epow fst snd]. rewrite fpow_mul_l.
    pose proof (H e (or_introl eq_refl)) as L. replace (epow e) with (epow e - d * ecnt e + ecnt e * d)%nat at 1 by lia. rewrite fpow_add, fpow_mul. ring.
Qed.

(** ** The product over the group *)
Definition gprod x f : K := fprod (map (fun g => peval x (reorder g f)) G).
Lemma reorder_comp g h f : is_perm n g -> is_perm n h -> wf n f -> reorder g (reorder h f) = reorder (pcomp g h) f.
Proof.
  intros Hg Hh [_ L]. unfold reorder. rewrite map_map. apply map_ext_in. intros t Ht. cbn [fst snd]. f_equal.
  apply (act_comp 0%nat n); [exact Hg|apply is_perm_length, Hh].
Qed.
Lemma gprod_image base f g s : In g G -> wf n base -> wf n f -> (forall x, peval x f = sg s * peval x (reorder g base)) ->
  forall x, gprod x f = sg s ^ length G * gprod x base.
Proof.
  intros Hg Wb Wf H x. pose proof (g_perm n G HG g Hg) as Pg. unfold gprod.
  transitivity (fprod (map (fun h => sg s * peval x (reorder (pcomp h g) base)) G)).
  - apply fprod_map_ext. intros h Hh. pose proof (g_perm n G HG h Hh) as Ph. rewrite (reorder_val x h f Ph Wf), H, <- (reorder_comp h g base Ph Pg Wb).
    rewrite (reorder_val x h (reorder g base) Ph (reorder_wf g base Pg Wb)). reflexivity.
  - rewrite fprod_map_mul, fprod_const. f_equal. rewrite <- (map_map (fun h => pcomp h g) (fun h => peval x (reorder h base))).
    apply fprod_perm, Permutation_map, (translate_r_perm n G HG g Hg).
Qed.
Definition cycval x (cyc : list (poly K * nat)) : K := fprod (map (fun t => gprod x (fst t) ^ snd t) cyc).

Definition fresh l := forall e, In e l -> wf n (efac e) /\ ecnt e = 0%nat.
Lemma fresh_fine l : fresh l -> fine l.
Proof. intros H e I. destruct (H e I) as [A ->]. split; [exact A|lia]. Qed.
Lemma fresh_cv x l : fresh l -> cv x l = 1.
Proof.
  unfold cv. induction l as [|e l IH]; intro H; cbn [map fprod]; [reflexivity|]. rewrite IH by (intros u Hu; apply H; right; exact Hu).
  rewrite (proj2 (H e (or_introl eq_refl))). cbn [fpow]. ring.
Qed.
Lemma sg_pow s d : sg s ^ d = sg (s && Nat.odd d).
Proof.
  induction d as [|d IH]; [destruct s; reflexivity|]. cbn [fpow]. rewrite IH, Nat.odd_succ, <- Nat.negb_odd. destruct s, (Nat.odd d); cbn [andb negb sg]; ring.
Qed.
Lemma sg_xorb s t : sg s * sg t = sg (xorb s t). Proof. destruct s, t; cbn; ring. Qed.

Lemma loop_spec bases coeff l cyc c' l' cyc' : (forall b, In b bases -> In b (fs l)) -> fresh l ->
  loop cmp G bases coeff l cyc = (c', l', cyc') ->
  fresh l' /\ exists s : bool, (forall x, sg s * (c' * pv x l' * cycval x cyc') = coeff * pv x l * cycval x cyc) /\
    (Nat.odd (length G) = false \/ signfree (fs l) -> s = false).
Proof.
  revert coeff l cyc. induction bases as [|base bases IH]; intros coeff l cyc Hb Fl; cbn [loop].
  - intro H. assert (c' = coeff /\ l' = l /\ cyc' = cyc) as (-> & -> & ->) by (repeat split; congruence). split; [exact Fl|]. exists false. split; [intro x; cbn [sg]; ring|reflexivity].
  - destruct (scan cmp G base l base false) as [[[l1 rep] sign]|] eqn:Es.
    2: { intro H. apply (IH coeff l cyc); [intros b I; apply Hb; right; exact I|exact Fl|exact H]. }
    intro H. assert (Ib : In base (fs l)) by (apply Hb; left; reflexivity).
    assert (Wb : wf n base). { apply in_map_iff in Ib. destruct Ib as (e & <- & I). apply (Fl e I). }
    destruct (scan_spec G base l base false l1 rep sign (fun g I => I) Wb (fresh_fine l Fl) Es) as (S1 & S2 & S3 & S4 & S5).
    set (d := common l1) in *.
    assert (EF : fs (take d l1) = fs l). { unfold fs, take. rewrite map_map. cbn [efac fst]. replace (map (fun u : ent => efac u) l1) with (map fst (map (fun u : @ent K => (efac u, epow u)) l1)) by (rewrite map_map; reflexivity). rewrite S1, map_map. reflexivity. }
    assert (Ft : fresh (take d l1)). { intros e I. unfold take in I. apply in_map_iff in I. destruct I as (u & <- & I). cbn [efac ecnt fst snd]. split; [apply (S2 u I)|reflexivity]. }
    destruct (IH _ _ _ (fun b I => eq_ind_r (fun q => In b q) (Hb b (or_intror I)) EF) Ft H) as (R1 & s & R2 & R3). split; [exact R1|].
    assert (Pv : forall x, pv x l = pv x (take d l1) * (sg sign * gprod x base) ^ d).
    { intro x. replace (pv x l) with (pv x l1).
      - rewrite (take_val x d l1) by (intros e I; apply common_le, I). do 2 f_equal. pose proof (S3 x) as X. rewrite (fresh_cv x l Fl) in X. fold (gprod x base) in X.
        replace (cv x l1) with (cv x l1 * sg sign * sg sign) by (destruct sign; cbn [sg]; ring). rewrite X. cbn [sg]. ring.
      - unfold pv. f_equal. transitivity (map (fun t : poly K * nat => peval x (fst t) ^ snd t) (map (fun u : @ent K => (efac u, epow u)) l1)); [rewrite map_map; reflexivity|].
        rewrite S1, map_map. reflexivity. }
    assert (Rp : exists t : bool, (forall x, gprod x rep = sg t ^ length G * gprod x base) /\ (signfree (fs l) -> t = false)).
    { assert (Wr : forall g t, In g G -> (forall x, peval x rep = sg t * peval x (reorder g base)) -> rep = base \/ In rep (fs l) -> forall x, gprod x rep = sg t ^ length G * gprod x base).
      { intros g t Hg Hv Hr. apply (gprod_image base rep g t Hg Wb); [|exact Hv]. destruct Hr as [->|Hr]; [exact Wb|]. apply in_map_iff in Hr. destruct Hr as (e & <- & I). apply (Fl e I). }
      destruct S4 as [->|(g & t & Hg & Ir & Hv & Ht)].
      - exists false. split; [|reflexivity]. intro x. rewrite sg_pow. cbn [andb sg]. ring.
      - exists t. split; [apply (Wr g t Hg Hv); right; exact Ir|]. intro Sf. exact (Ht Sf Ib). }
    destruct Rp as (t & Rv & Rt). exists (xorb s (t && Nat.odd (length G) && Nat.odd d)). split.
    + intro x. rewrite <- sg_xorb. transitivity (sg (t && Nat.odd (length G) && Nat.odd d) * (sg s * (c' * pv x l' * cycval x cyc'))); [ring|]. rewrite R2, Pv.
      unfold cycval. rewrite map_app, fprod_app. cbn [map fprod fst snd]. rewrite Rv, !fpow_mul_l, !sg_pow. destruct sign, t, (Nat.odd d), (Nat.odd (length G)); cbn [andb sg]; ring.
    + intro C. rewrite (R3 (match C with or_introl A => or_introl A | or_intror A => or_intror (eq_ind_r signfree A EF) end)). destruct C as [-> |C]; [rewrite andb_false_r; reflexivity|].
      rewrite (Rt C). reflexivity.
Qed.

(** ** The representatives and the powers of the cyclic parts *)
Definition hit l := exists e, In e l /\ (0 < ecnt e)%nat.
Lemma bump_hit l i e : nth_error l i = Some e -> hit (bump l i).
Proof.
  revert i. induction l as [|h l IH]; intros [|i]; cbn [nth_error bump]; try discriminate.
  - intros _. exists (efac h, epow h, S (ecnt h)). split; [left; reflexivity|cbn; lia].
  - intro H. destruct (IH i H) as (u & I & C). exists u. split; [right; exact I|exact C].
Qed.
Lemma scan_hit els base l rep sign l' rep' sign' : scan cmp els base l rep sign = Some (l', rep', sign') -> els <> [] \/ hit l -> hit l'.
Proof.
  revert l rep sign. induction els as [|g els IH]; intros l rep sign; cbn [scan].
  - intros H [N|N]; [destruct (N eq_refl)|]. injection H as <- _ _. exact N.
  - intros H _. destruct (lookup l (reorder g base)) as [i|] eqn:E1; [|destruct (lookup l (pneg (reorder g base))) as [i|] eqn:E2; [|discriminate]].
    + destruct (lookup_spec _ _ _ E1) as (e & He & _). destruct (Nat.ltb _ _); [discriminate|]. apply (IH _ _ _ H). right. exact (bump_hit l i e He).
    + destruct (lookup_spec _ _ _ E2) as (e & He & _). destruct (Nat.ltb _ _); [discriminate|]. apply (IH _ _ _ H). right. exact (bump_hit l i e He).
Qed.
Lemma fold_min_pos vs v : (0 < v)%nat -> (forall u, In u vs -> (0 < u)%nat) -> (0 < fold_left Nat.min vs v)%nat.
Proof.
  revert v. induction vs as [|w vs IH]; intros v Hv H; cbn [fold_left]; [exact Hv|]. apply IH; [pose proof (H w (or_introl eq_refl)); lia|]. intros u U. apply H. right. exact U.
Qed.
Lemma common_pos l : fine l -> hit l -> (0 < common l)%nat.
Proof.
  intros Fl (e & Ie & Ce).
  assert (P : forall v, In v (quots l) -> (0 < v)%nat).
  { intros v H. unfold quots in H. apply in_map_iff in H. destruct H as (u & <- & H). apply filter_In in H. destruct H as [I C]. apply Nat.ltb_lt in C. pose proof (proj2 (Fl u I)).
    apply Nat.div_str_pos. lia. }
  assert (Q : In (epow e / ecnt e)%nat (quots l)) by (unfold quots; apply (in_map (fun u => (epow u / ecnt u)%nat)), filter_In; split; [exact Ie|apply Nat.ltb_lt; exact Ce]).
  unfold common. destruct (quots l) as [|v vs]; [destruct Q|]. apply fold_min_pos; [apply P; left; reflexivity|]. intros u U. apply P. right. exact U.
Qed.
Lemma G_nonnil : G <> [].
Proof. intro E. pose proof (g_id n G HG) as H. rewrite E in H. destruct H. Qed.
Lemma loop_members bases coeff l cyc c' l' cyc' : (forall b, In b bases -> In b (fs l)) -> fresh l ->
  loop cmp G bases coeff l cyc = (c', l', cyc') -> (forall t, In t cyc -> In (fst t) (fs l) /\ (0 < snd t)%nat) ->
  fs l' = fs l /\ forall t, In t cyc' -> In (fst t) (fs l) /\ (0 < snd t)%nat.
Proof.
  revert coeff l cyc. induction bases as [|base bases IH]; intros coeff l cyc Hb Fl; cbn [loop].
  - intros H T. assert (l' = l /\ cyc' = cyc) as (-> & ->) by (split; congruence). split; [reflexivity|exact T].
  - destruct (scan cmp G base l base false) as [[[l1 rep] sign]|] eqn:Es.
    2: { intros H T. apply (IH coeff l cyc); [intros b I; apply Hb; right; exact I|exact Fl|exact H|exact T]. }
    intros H T. assert (Ib : In base (fs l)) by (apply Hb; left; reflexivity).
    assert (Wb : wf n base). { apply in_map_iff in Ib. destruct Ib as (e & <- & I). apply (Fl e I). }
    destruct (scan_spec G base l base false l1 rep sign (fun g I => I) Wb (fresh_fine l Fl) Es) as (S1 & S2 & S3 & S4 & S5).
    set (d := common l1) in *.
    assert (EF : fs (take d l1) = fs l). { unfold fs, take. rewrite map_map. cbn [efac fst]. replace (map (fun u : ent => efac u) l1) with (map fst (map (fun u : @ent K => (efac u, epow u)) l1)) by (rewrite map_map; reflexivity). rewrite S1, map_map. reflexivity. }
    assert (Ft : fresh (take d l1)). { intros e I. unfold take in I. apply in_map_iff in I. destruct I as (u & <- & I). cbn [efac ecnt fst snd]. split; [apply (S2 u I)|reflexivity]. }
    rewrite <- EF. apply (IH _ _ _ (fun b I => eq_ind_r (fun q => In b q) (Hb b (or_intror I)) EF) Ft H). rewrite EF.
    intros t I. apply in_app_or in I. destruct I as [I|[<-|[]]]; [apply T, I|]. cbn [fst snd]. split.
    + destruct S4 as [->|(g & t0 & _ & Ir & _)]; [exact Ib|exact Ir].
    + apply common_pos; [exact S2|]. apply (scan_hit _ _ _ _ _ _ _ _ Es). left. exact G_nonnil.
Qed.

(** ** The result *)
Definition pprod x (fl : list (poly K * nat)) : K := fprod (map (fun t => peval x (fst t) ^ snd t) fl).
(** the product of the images of a polynomial under the group, written without [reorder] *)
Definition group_product x f : K := fprod (map (fun g => peval (fun i => x (nth i g 0%nat)) f) G).
Definition cprod_val x (cyc : list (poly K * nat)) : K := fprod (map (fun t => group_product x (fst t) ^ snd t) cyc).
Lemma gprod_spec x f : wf n f -> gprod x f = group_product x f.
Proof.
  intro W. unfold gprod, group_product. transitivity (fprod (map (fun g => peval (fun i => x (nth i (pinv g) 0%nat)) f) G)).
  - apply fprod_map_ext. intros g Hg. apply reorder_val; [apply (g_perm n G HG), Hg|exact W].
  - rewrite <- (map_map pinv (fun g => peval (fun i => x (nth i g 0%nat)) f)). apply fprod_perm, Permutation_map, (pinv_perm_list n G HG).
Qed.
Lemma pprod_filter x (fl : list (poly K * nat)) : pprod x (filter (fun t => Nat.ltb 0 (snd t)) fl) = pprod x fl.
Proof.
  unfold pprod. induction fl as [|[f d] fl IH]; cbn [filter map fprod fst snd]; [reflexivity|]. destruct (Nat.ltb_spec 0 d) as [L|L].
  - cbn [map fprod fst snd]. rewrite IH. reflexivity.
  - assert (d = 0%nat) as -> by lia. rewrite IH. cbn [fpow]. ring.
Qed.
(** no factor is the negative of an image of a factor *)
Definition no_negative_image (fl : list (poly K)) := forall f (h : poly K) g, In f fl -> In h fl -> In g G -> ~ (forall x, peval x f = - peval (fun i => x (nth i g 0%nat)) h).
Lemma no_negative_signfree fl : (forall f, In f fl -> wf n f) -> no_negative_image fl -> signfree fl.
Proof.
  intros W H f h g If Ih Ig. destruct (same f (pneg (reorder g h))) eqn:E; [|reflexivity]. exfalso.
  pose proof (g_perm n G HG g Ig) as Pg. apply (H f h (pinv g) If Ih (pinv_in n G g HG Ig)). intro x.
  rewrite (same_val x f (pneg (reorder g h)) (W f If) (pneg_wf _ (reorder_wf g h Pg (W h Ih))) E), pneg_val, (reorder_val x g h Pg (W h Ih)). reflexivity.
Qed.
Theorem reduce_spec coeff factors c rest cyc : (forall t, In t factors -> wf n (fst t)) ->
  reduce_factor_list cmp G coeff factors = (c, rest, cyc) ->
  (exists s : K, (s = 1 \/ s = - (1)) /\ (forall x, s * (c * pprod x rest * cprod_val x cyc) = coeff * pprod x factors) /\
    (Nat.odd (length G) = false \/ no_negative_image (map fst factors) -> s = 1)) /\
  (forall t, In t rest \/ In t cyc -> In (fst t) (map fst factors) /\ (0 < snd t)%nat).
Proof.
  intro W. unfold reduce_factor_list. set (l0 := map (fun t : poly K * nat => (fst t, snd t, 0%nat)) factors).
  destruct (loop cmp G (map fst factors) coeff l0 []) as [[c1 l1] cyc1] eqn:El. intro H. assert (c = c1 /\ rest = filter (fun t => Nat.ltb 0 (snd t)) (map (fun e => (efac e, epow e)) l1) /\ cyc = cyc1) as (-> & -> & ->) by (repeat split; congruence). clear H.
  assert (Ef : fs l0 = map fst factors) by (unfold fs, l0; rewrite map_map; reflexivity).
  assert (Wm : forall f, In f (map fst factors) -> wf n f) by (intros f I; apply in_map_iff in I; destruct I as (t & <- & I); apply W, I).
  assert (F0 : fresh l0). { intros e I. unfold l0 in I. apply in_map_iff in I. destruct I as (t & <- & I). cbn [efac ecnt fst snd]. split; [apply W, I|reflexivity]. }
  assert (B0 : forall b, In b (map fst factors) -> In b (fs l0)) by (rewrite Ef; intros b I; exact I).
  destruct (loop_members _ _ _ _ _ _ _ B0 F0 El ltac:(intros t [])) as [M1 M2]. rewrite Ef in M1, M2.
  destruct (loop_spec _ _ _ _ _ _ _ B0 F0 El) as (F1 & s & V & Sv). rewrite Ef in Sv. split.
  - exists (sg s). split; [destruct s; [right|left]; reflexivity|]. split.
    + intro x. rewrite pprod_filter. pose proof (V x) as Vx.
      replace (pprod x factors) with (pv x l0) by (unfold pv, pprod, l0; rewrite map_map; reflexivity).
      replace (pprod x (map (fun e : ent => (efac e, epow e)) l1)) with (pv x l1) by (unfold pv, pprod; rewrite map_map; reflexivity).
      replace (cprod_val x cyc1) with (cycval x cyc1).
      * rewrite Vx. unfold cycval. cbn [map fprod]. ring.
      * unfold cycval, cprod_val. apply fprod_map_ext. intros t It. f_equal. apply gprod_spec. destruct (M2 t It) as [I _]. apply in_map_iff in I. destruct I as (u & <- & I). apply W, I.
    + intro H. rewrite (Sv (match H with or_introl A => or_introl A | or_intror A => or_intror (no_negative_signfree _ Wm A) end)). reflexivity.
  - intros t [I|I]; [|apply M2, I]. apply filter_In in I. destruct I as [I C]. apply Nat.ltb_lt in C. split; [|exact C].
    rewrite <- M1. apply in_map_iff in I. destruct I as (e & <- & I). cbn [fst]. apply in_map, I.
Qed.
End Facts.

(** ** The order of sympy on the factors: [Poly.compare] compares the dense recursive lists *)
Section Order.
Context {K : OrdField}.
Local Open Scope of_scope.
(** the dense recursive lists of sympy, leading zeros stripped; not in /repo, used by form.py:227 through [Poly.compare] *)
Fixpoint drop_while {A} (b : A -> bool) (l : list A) : list A := match l with [] => [] | a :: l' => if b a then drop_while b l' else l end.
Definition or_zero {A} (z : A) (l : list A) : list A := match l with [] => [z] | _ => l end.
Definition nil_b {A} (l : list A) : bool := match l with [] => true | _ => false end.
(** Python's order of lists *)
Fixpoint lex_lt {A} (lt : A -> A -> bool) (l1 l2 : list A) : bool :=
  match l1, l2 with
  | _, [] => false
  | [], _ => true
  | a :: l1', b :: l2' => if lt a b then true else if lt b a then false else lex_lt lt l1' l2'
  end.
Definition topdeg (f : poly K) : nat := list_max (map list_max (keys f)).
Definition dense_c (f : poly K) (i j : nat) : list K := drop_while (fun v => v =? 0) (map (fun k => coef f [i; j; k]) (rev (seq 0 (S (topdeg f))))).
Definition dense_b (f : poly K) (i : nat) : list (list K) := or_zero [] (drop_while nil_b (map (dense_c f i) (rev (seq 0 (S (topdeg f)))))).
Definition zero_b (l : list (list K)) : bool := match l with [[]] => true | _ => false end.
Definition dense_a (f : poly K) : list (list (list K)) := or_zero [[]] (drop_while zero_b (map (dense_b f) (rev (seq 0 (S (topdeg f)))))).
Definition dense_lt (f h : poly K) : bool := lex_lt (lex_lt (lex_lt (@fltb K))) (dense_a f) (dense_a h).
End Order.
