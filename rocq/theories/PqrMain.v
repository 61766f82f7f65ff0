(** * The representations in p, q, r are exact, unique, and found for exactly the symmetric (cyclic) polynomials *)
From Coq Require Import Bool List Arith Lia ZArith Ring Field Permutation.
From Verif Require Import OrdField Base Perm Poly PolyId PolyOps Expr TriPoly Septic Pqr PqrSym PqrUniq PqrDiv.
From Verif Require Shared.
Import ListNotations.

Section Facts.
Variable K : OrdField.
Local Open Scope of_scope.
Add Field Kf : (F_field K).
Implicit Types (x : nat -> K) (p f : poly K).

Lemma pzero_iff p : NoDup (keys p) -> pzero p = true <-> forall m, coef p m = 0.
Proof.
  intro N. unfold pzero. rewrite forallb_forall. split.
  - intros H m. destruct (in_dec mon_dec m (keys p)) as [I|I]; [|apply coef_notin, I]. apply in_map_iff in I. destruct I as ([k c] & E & I). cbn [fst] in E. subst k.
    rewrite (coef_in K p m c N I). apply feqb_eq. exact (H _ I).
  - intros H [k c] I. cbn [snd]. apply feqb_eq. rewrite <- (coef_in K p k c N I). apply H.
Qed.
Lemma pzero_val n p : wf n p -> pzero p = true <-> forall x, peval x p = 0.
Proof.
  intro W. rewrite (pzero_iff p (proj1 W)). split; [intros H x; apply (zero_val K p x (proj1 W) H)|apply (peval_zero K n p W)].
Qed.
Definition fits (n : nat) (symbols : option nat) : Prop := match symbols with None => n = 3%nat | Some k => n = k end.
Lemma pqr_sym_unfold sy n symbols p : pqr_sym sy n symbols p =
  if match symbols with None => Nat.eqb n 3 | Some k => Nat.eqb n k end then if pzero (snd (sy n p)) then Ok (fst (sy n p)) else Err ValueError else Err ValueError.
Proof. unfold pqr_sym. destruct (sy n p) as [f g]. destruct symbols; reflexivity. Qed.
Lemma fits_iff n symbols : match symbols with None => Nat.eqb n 3 | Some k => Nat.eqb n k end = true <-> fits n symbols.
Proof. destruct symbols; apply Nat.eqb_eq. Qed.

Lemma value_symmetric n p f : wf n f -> (forall x, peval x p = peval (epoint n x) f) -> symmetric n p.
Proof. intros W H g Hg x. rewrite !H. apply (Shared.peval_ext_len K n); [exact W|]. intros i _. apply epoint_perm, Hg. Qed.

Lemma pqr_sym_ok sy n symbols p f : symmetrize_ok sy n -> wf n p -> pqr_sym sy n symbols p = Ok f ->
  wf n f /\ (forall x, peval x p = peval (epoint n x) f) /\
  forall f', wf n f' -> (forall x, peval x p = peval (epoint n x) f') -> forall m, coef f m = coef f' m.
Proof.
  intros Hs W. destruct (Hs p W) as (A & B & C & _). rewrite pqr_sym_unfold. destruct (match symbols with None => _ | Some _ => _ end); [|discriminate].
  destruct (pzero (snd (sy n p))) eqn:E; [|discriminate]. intro H. apply Ok_inj in H. subst f. split; [exact A|].
  assert (V : forall x, peval x p = peval (epoint n x) (fst (sy n p))) by (intro x; rewrite C, (proj1 (pzero_val n _ B) E); ring). split; [exact V|].
  intros f' W' V'. apply (esym_unique K n); [exact A|exact W'|]. intro x. rewrite <- V, <- V'. reflexivity.
Qed.
Lemma pqr_sym_answers sy n symbols p : symmetrize_ok sy n -> wf n p ->
  ((exists f, pqr_sym sy n symbols p = Ok f) <-> fits n symbols /\ symmetric n p) /\
  ((exists f, pqr_sym sy n symbols p = Ok f) \/ pqr_sym sy n symbols p = Err ValueError).
Proof.
  intros Hs W. pose proof (fun f => pqr_sym_ok sy n symbols p f Hs W) as S0. destruct (Hs p W) as (A & B & C & D). split.
  - split.
    + intros (f & H). split; [|destruct (S0 f H) as (Wf & V & _); exact (value_symmetric n p f Wf V)]. apply fits_iff. rewrite pqr_sym_unfold in H.
      destruct (match symbols with None => _ | Some _ => _ end); [reflexivity|discriminate].
    + intros [Hf Sy]. rewrite pqr_sym_unfold, (proj2 (fits_iff n symbols) Hf), (proj2 (pzero_val n _ B) (D Sy)). eexists. reflexivity.
  - rewrite pqr_sym_unfold. destruct (match symbols with None => _ | Some _ => _ end); [|right; reflexivity]. destruct (pzero _); [left; eexists; reflexivity|right; reflexivity].
Qed.

(** ** Cyclic polynomials *)
Lemma epoint3 (A B C : K) p : wf 3 p -> peval (epoint 3 (pt3 A B C)) p = peval (pt3 (A + B + C) (A * B + B * C + C * A) (A * B * C)) p.
Proof.
  intro W. apply (Shared.peval_ext_len K 3); [exact W|]. intros [|[|[|i]]] Hi; [| | |lia]; unfold epoint; cbn [seq map esl pt3]; ring.
Qed.
Lemma swap_ab_spec p : wf 3 p -> wf 3 (swap_ab p) /\ forall A B C, peval (pt3 A B C) (swap_ab p) = peval (pt3 B A C) p.
Proof.
  intros [N L]. set (h := fun m : list nat => match m with [i; j; k] => [j; i; k] | m => m end).
  assert (E : keys (swap_ab p) = map h (keys p)) by (unfold keys, swap_ab; rewrite !map_map; apply map_ext; intros [[|i [|j [|k [|]]]] c]; reflexivity).
  assert (I : forall m, h (h m) = m) by (intros [|i [|j [|k [|]]]]; reflexivity). split; [split|].
  - rewrite E. apply FinFun.Injective_map_NoDup; [|exact N]. intros u v Huv. rewrite <- (I u), <- (I v), Huv. reflexivity.
  - rewrite E. intros m Hm. apply in_map_iff in Hm. destruct Hm as (m' & <- & Hm). specialize (L m' Hm). destruct m' as [|i [|j [|k [|]]]]; try discriminate L. reflexivity.
  - intros A B C. unfold peval, swap_ab. rewrite map_map. apply fsum_map_ext. intros t Ht. cbn [fst snd]. f_equal. specialize (L _ (in_map fst _ _ Ht)).
    destruct (fst t) as [|i [|j [|k [|]]]]; try discriminate L. rewrite !meval3. ring.
Qed.
Lemma sub0 (u v : K) : u = v -> u - v = 0. Proof. intros ->. ring. Qed.
Lemma two_nz : (1 + 1 : K) <> 0.
Proof. intro E. apply (fnat_neq0 K 2); [lia|]. rewrite <- E. cbn [fnat]. ring. Qed.
Lemma half_spec p : wf 3 p -> wf 3 (half p) /\ forall x, peval x (half p) = peval x p / (1 + 1).
Proof.
  intro W. split; [unfold wf, keys, half; rewrite map_map; exact W|]. intro x. clear W. induction p as [|[m c] p IH]; unfold half; cbn [map fst snd].
  - rewrite !peval_nil. field. apply two_nz.
  - fold (half p). rewrite !peval_cons, IH. field. apply two_nz.
Qed.
Definition cyclic_values p := forall A B C, peval (pt3 A B C) p = peval (pt3 B C A) p.
Lemma symmetric3 p : wf 3 p -> (forall A B C, peval (pt3 A B C) p = peval (pt3 B A C) p) -> cyclic_values p -> symmetric 3 p.
Proof.
  intros W Sw Cy g Hg x. rewrite (peval_pt3 K (fun i => x (nth i g 0%nat)) p W), (peval_pt3 K x p W).
  pose proof (is_perm_length 3 g Hg) as Lg. pose proof (is_perm_nodup 3 g Hg) as Ng. pose proof (fun i => is_perm_bound 3 g i Hg) as Bg.
  destruct g as [|i [|j [|k [|]]]]; try discriminate Lg. cbn [nth].
  pose proof (Bg i (or_introl eq_refl)) as Bi. pose proof (Bg j (or_intror (or_introl eq_refl))) as Bj. pose proof (Bg k (or_intror (or_intror (or_introl eq_refl)))) as Bk.
  apply NoDup_cons_iff in Ng. destruct Ng as [N1 Ng]. apply NoDup_cons_iff in Ng. destruct Ng as [N2 _].
  assert (Nij : i <> j) by (intros ->; apply N1; left; reflexivity). assert (Nik : i <> k) by (intros ->; apply N1; right; left; reflexivity).
  assert (Njk : j <> k) by (intros ->; apply N2; left; reflexivity).
  destruct i as [|[|[|i]]], j as [|[|[|j]]], k as [|[|[|k]]]; try lia; try contradiction; generalize (x 0%nat) (x 1%nat) (x 2%nat); intros A B C.
  - reflexivity.
  - rewrite Sw. apply Cy.
  - apply Sw.
  - symmetry. apply Cy.
  - apply Cy.
  - rewrite Sw. symmetry. apply Cy.
Qed.
Lemma value_cyclic p f0 f1 : wf 3 f0 -> wf 3 f1 -> (forall A B C, peval (pt3 A B C) p =
   peval (pt3 (A + B + C) (A * B + B * C + C * A) (A * B * C)) f0 + (A - B) * (B - C) * (C - A) * peval (pt3 (A + B + C) (A * B + B * C + C * A) (A * B * C)) f1) -> cyclic_values p.
Proof.
  intros W0 W1 V A B C. rewrite !V. replace (B + C + A) with (A + B + C) by ring. replace (B * C + C * A + A * B) with (A * B + B * C + C * A) by ring.
  replace (B * C * A) with (A * B * C) by ring. ring.
Qed.

Section Cyc.
Variables (sy : nat -> poly K -> poly K * poly K) (dv : poly K -> poly K -> poly K * poly K).
Hypotheses (Hs : symmetrize_ok sy 3) (Hd : div_ok dv alternant).
Definition fits3 (n : nat) (symbols : option nat) : Prop := n = 3%nat /\ match symbols with None => True | Some k => k = 3%nat end.
Let even p := half (padd p (swap_ab p)).
Let odd p := half (padd p (pneg (swap_ab p))).
Lemma even_spec p : wf 3 p -> wf 3 (even p) /\ forall A B C, peval (pt3 A B C) (even p) = (peval (pt3 A B C) p + peval (pt3 B A C) p) / (1 + 1).
Proof.
  intro W. destruct (swap_ab_spec p W) as (S1 & S2). destruct (padd_full K 3 p _ W S1) as (P1 & P2 & _). destruct (half_spec _ P1) as (H1 & H2).
  split; [exact H1|]. intros A B C. unfold even. rewrite H2, P2, S2. reflexivity.
Qed.
Lemma odd_spec p : wf 3 p -> wf 3 (odd p) /\ forall A B C, peval (pt3 A B C) (odd p) = (peval (pt3 A B C) p - peval (pt3 B A C) p) / (1 + 1).
Proof.
  intro W. destruct (swap_ab_spec p W) as (S1 & S2). destruct (sub_full K 3 p _ W S1) as (P1 & P2). destruct (half_spec _ P1) as (H1 & H2).
  split; [exact H1|]. intros A B C. unfold odd. rewrite H2, P2, S2. reflexivity.
Qed.
Lemma pqr_cyc_unfold n symbols p : pqr_cyc sy dv n symbols p =
  if negb (Nat.eqb n 3) then Err ValueError
  else if match symbols with Some k => negb (Nat.eqb k 3) | None => false end then Err ValueError
  else if negb (pzero (snd (dv (odd p) alternant))) then Err ValueError
  else match pqr_sym sy 3 (Some 3%nat) (even p) with
       | Err e => Err e
       | Ok s0 => match pqr_sym sy 3 (Some 3%nat) (fst (dv (odd p) alternant)) with Err e => Err e | Ok s1 => Ok (s0, s1) end
       end.
Proof. unfold pqr_cyc. fold (even p) (odd p). destruct (dv (odd p) alternant). reflexivity. Qed.

Lemma pqr_cyc_ok n symbols p f0 f1 : wf n p -> pqr_cyc sy dv n symbols p = Ok (f0, f1) ->
  fits3 n symbols /\ wf 3 f0 /\ wf 3 f1 /\ forall A B C, peval (pt3 A B C) p =
   peval (pt3 (A + B + C) (A * B + B * C + C * A) (A * B * C)) f0 + (A - B) * (B - C) * (C - A) * peval (pt3 (A + B + C) (A * B + B * C + C * A) (A * B * C)) f1.
Proof.
  intros W. rewrite pqr_cyc_unfold. destruct (Nat.eqb_spec n 3) as [->|]; [|discriminate]. cbn [negb].
  destruct (match symbols with Some k => _ | None => _ end) eqn:Ek; [discriminate|].
  assert (F : fits3 3 symbols) by (split; [reflexivity|]; destruct symbols as [k|]; [|trivial]; destruct (Nat.eqb_spec k 3); [assumption|discriminate Ek]).
  destruct (even_spec p W) as (E1 & E2). destruct (odd_spec p W) as (O1 & O2). destruct (Hd _ O1) as (D1 & D2 & D3 & _).
  destruct (pzero (snd (dv (odd p) alternant))) eqn:Er; [|discriminate]. cbn [negb].
  destruct (pqr_sym sy 3 (Some 3%nat) (even p)) as [s0|] eqn:S0; [|discriminate]. destruct (pqr_sym sy 3 (Some 3%nat) (fst _)) as [s1|] eqn:S1; [|discriminate].
  intro H. apply Ok_inj in H. injection H as -> ->.
  destruct (pqr_sym_ok sy 3 _ _ _ Hs E1 S0) as (W0 & V0 & _). destruct (pqr_sym_ok sy 3 _ _ _ Hs D1 S1) as (W1 & V1 & _).
  split; [exact F|]. split; [exact W0|]. split; [exact W1|]. intros A B C. rewrite <- (epoint3 A B C f0 W0), <- (epoint3 A B C f1 W1), <- V0, <- V1.
  pose proof (D3 (pt3 A B C)) as D. rewrite (proj1 (pzero_val 3 _ D2) Er), O2, alternant_val in D. rewrite E2.
  transitivity ((peval (pt3 A B C) p + peval (pt3 B A C) p) / (1 + 1) + (peval (pt3 A B C) p - peval (pt3 B A C) p) / (1 + 1)); [field; apply two_nz|]. rewrite D. ring.
Qed.
Lemma pqr_cyc_answers n symbols p : wf n p ->
  ((exists s, pqr_cyc sy dv n symbols p = Ok s) <-> fits3 n symbols /\ cyclic_values p) /\
  ((exists s, pqr_cyc sy dv n symbols p = Ok s) \/ pqr_cyc sy dv n symbols p = Err ValueError).
Proof.
  intro W. split; [split|].
  - intros ([f0 f1] & H). destruct (pqr_cyc_ok n symbols p f0 f1 W H) as (F & W0 & W1 & V). split; [exact F|]. exact (value_cyclic p f0 f1 W0 W1 V).
  - intros ((-> & Fk) & Cy). destruct (even_spec p W) as (E1 & E2). destruct (odd_spec p W) as (O1 & O2). destruct (Hd _ O1) as (D1 & D2 & D3 & D4).
    assert (Sq : forall A B C, peval (pt3 B A C) p = peval (pt3 A C B) p) by (intros; apply Cy).
    assert (Dv : exists s, wf 3 s /\ forall x, peval x (odd p) = peval x s * peval x alternant).
    { assert (Wq : wf 3 (pneg (quo quo_ba (quo quo_ac (quo quo_cb (odd p)))))).
      { destruct (quo_cb_spec K _ O1) as (W1 & _). destruct (quo_ac_spec K _ W1) as (W2 & _). destruct (quo_ba_spec K _ W2) as (W3 & _). exact (proj1 (pneg_spec K 3 _ W3)). }
      exists (pneg (quo quo_ba (quo quo_ac (quo quo_cb (odd p))))). split; [exact Wq|]. intro x.
      rewrite (peval_pt3 K x (odd p) O1), (peval_pt3 K x _ Wq), (peval_pt3 K x alternant (alternant_wf K)), alternant_val. apply alt_divides; [exact O1| | |].
      - intros A B. rewrite O2. rewrite (Sq A B B). field. apply two_nz.
      - intros C B. rewrite O2. rewrite (Cy C B C). field. apply two_nz.
      - intros A C. rewrite O2. field. apply two_nz. }
    pose proof (D4 Dv) as Z. set (qd := fst (dv (odd p) alternant)) in *.
    assert (Q : forall A B C, (peval (pt3 A B C) p - peval (pt3 B A C) p) / (1 + 1) = peval (pt3 A B C) qd * ((A - B) * (B - C) * (C - A))).
    { intros A B C. rewrite <- O2, D3, Z, alternant_val. ring. }
    assert (Nz : forall A B C : K, A <> B -> B <> C -> C <> A -> (A - B) * (B - C) * (C - A) <> 0).
    { intros A B C N1 N2 N3 E. apply fmul_eq0 in E. destruct E as [E|E]; [apply fmul_eq0 in E; destruct E as [E|E]|]; apply fsub_eq0 in E; contradiction. }
    assert (Can : forall u v w : K, w <> 0 -> u * w = v * w -> u = v).
    { intros u v w N E. replace u with (u * w / w) by (field; exact N). rewrite E. field. exact N. }
    (* the quotient is symmetric *)
    assert (Sw : forall A B C, peval (pt3 A B C) qd = peval (pt3 B A C) qd).
    { destruct (swap_ab_spec qd D1) as (S1 & S2). destruct (sub_full K 3 qd _ D1 S1) as (P1 & P2).
      intros A B C. apply fsub_eq0. rewrite <- (S2 A B C), <- P2. apply (zero_distinct K _ P1). intros X Y T N1 N2 N3. rewrite P2, S2. apply sub0.
      apply (Can _ _ ((X - Y) * (Y - T) * (T - X)) (Nz X Y T N1 N2 N3)). rewrite <- Q.
      transitivity (- (peval (pt3 Y X T) qd * ((Y - X) * (X - T) * (T - Y)))); [rewrite <- Q; field; apply two_nz|ring]. }
    assert (Cq : cyclic_values qd).
    { destruct (swap_ab_spec qd D1) as (S1 & S2). set (rot := prename K [1; 2; 0]%nat qd).
      assert (Pg : is_perm 3 [1; 2; 0]%nat) by (unfold is_perm; cbn [seq]; apply (perm_trans (l' := [1; 0; 2]%nat)); [constructor; constructor|constructor]).
      assert (R1 : wf 3 rot) by (apply prename_wf; assumption).
      assert (R2 : forall A B C, peval (pt3 A B C) rot = peval (pt3 B C A) qd).
      { intros A B C. unfold rot. rewrite (prename_peval K 3 _ qd _ Pg (proj2 D1)). rewrite (peval_pt3 K _ qd D1). reflexivity. }
      destruct (sub_full K 3 qd rot D1 R1) as (P1 & P2).
      intros A B C. apply fsub_eq0. rewrite <- (R2 A B C), <- P2. apply (zero_distinct K _ P1). intros X Y T N1 N2 N3. rewrite P2, R2. apply sub0.
      apply (Can _ _ ((X - Y) * (Y - T) * (T - X)) (Nz X Y T N1 N2 N3)). rewrite <- Q.
      transitivity (peval (pt3 Y T X) qd * ((Y - T) * (T - X) * (X - Y))); [|ring]. rewrite <- Q. rewrite (Cy X Y T). rewrite <- (Cy X T Y), (Sq X Y T). reflexivity. }
    assert (SE : symmetric 3 (even p)).
    { apply symmetric3; [exact E1| |].
      - intros A B C. rewrite !E2. field. apply two_nz.
      - intros A B C. rewrite !E2. rewrite <- (Cy A B C), <- (Cy A C B), (Sq A B C). reflexivity. }
    rewrite pqr_cyc_unfold. cbn [Nat.eqb negb]. replace (match symbols with Some k => negb (Nat.eqb k 3) | None => false end) with false
      by (destruct symbols as [k|]; [rewrite Fk; reflexivity|reflexivity]).
    rewrite (proj2 (pzero_val 3 _ D2) Z). cbn [negb].
    destruct (proj2 (proj1 (pqr_sym_answers sy 3 (Some 3%nat) _ Hs E1)) (conj eq_refl SE)) as (s0 & ->).
    destruct (proj2 (proj1 (pqr_sym_answers sy 3 (Some 3%nat) _ Hs D1)) (conj eq_refl (symmetric3 qd D1 Sw Cq))) as (s1 & X). fold qd. rewrite X. eexists. reflexivity.
  - rewrite pqr_cyc_unfold. destruct (negb (Nat.eqb n 3)) eqn:En; [right; reflexivity|]. apply negb_false_iff, Nat.eqb_eq in En. subst n.
    destruct (match symbols with Some k => _ | None => _ end); [right; reflexivity|]. destruct (negb _); [right; reflexivity|].
    destruct (even_spec p W) as (E1 & _). destruct (odd_spec p W) as (O1 & _). destruct (Hd _ O1) as (D1 & _).
    destruct (proj2 (pqr_sym_answers sy 3 (Some 3%nat) _ Hs E1)) as [(s0 & ->)| ->]; [|right; reflexivity].
    destruct (proj2 (pqr_sym_answers sy 3 (Some 3%nat) _ Hs D1)) as [(s1 & ->)| ->]; [left; eexists; reflexivity|right; reflexivity].
Qed.
End Cyc.

(** ** Uniqueness of the pair *)
Lemma pair_unique f0 f1 g0 g1 : wf 3 f0 -> wf 3 f1 -> wf 3 g0 -> wf 3 g1 ->
  (forall A B C, let P := pt3 (A + B + C) (A * B + B * C + C * A) (A * B * C) in
     peval P f0 + (A - B) * (B - C) * (C - A) * peval P f1 = peval P g0 + (A - B) * (B - C) * (C - A) * peval P g1) ->
  (forall m, coef f0 m = coef g0 m) /\ forall m, coef f1 m = coef g1 m.
Proof.
  intros F0 F1 G0 G1 H. cbv zeta in H.
  assert (R : forall A B C : K, peval (pt3 (B + A + C) (B * A + A * C + C * B) (B * A * C)) = peval (pt3 (A + B + C) (A * B + B * C + C * A) (A * B * C))).
  { intros A B C. replace (B + A + C) with (A + B + C) by ring. replace (B * A + A * C + C * B) with (A * B + B * C + C * A) by ring. replace (B * A * C) with (A * B * C) by ring. reflexivity. }
  assert (E0 : forall A B C, peval (pt3 (A + B + C) (A * B + B * C + C * A) (A * B * C)) f0 = peval (pt3 (A + B + C) (A * B + B * C + C * A) (A * B * C)) g0).
  { intros A B C. pose proof (H A B C) as X. pose proof (H B A C) as Y. rewrite (R A B C) in Y.
    revert X Y. generalize (peval (pt3 (A + B + C) (A * B + B * C + C * A) (A * B * C)) f0) (peval (pt3 (A + B + C) (A * B + B * C + C * A) (A * B * C)) f1)
      (peval (pt3 (A + B + C) (A * B + B * C + C * A) (A * B * C)) g0) (peval (pt3 (A + B + C) (A * B + B * C + C * A) (A * B * C)) g1). intros u v u' v' X Y.
    apply fsub_eq0. replace (u - u') with (((u + (A - B) * (B - C) * (C - A) * v) + (u + (B - A) * (A - C) * (C - B) * v) - ((u' + (A - B) * (B - C) * (C - A) * v') + (u' + (B - A) * (A - C) * (C - B) * v'))) / (1 + 1))
      by (field; apply two_nz). rewrite X, Y. field. apply two_nz. }
  split.
  - apply (esym_unique K 3); [exact F0|exact G0|]. intro x.
    rewrite (Shared.peval_ext_len K 3 f0 (epoint 3 x) (epoint 3 (pt3 (x 0%nat) (x 1%nat) (x 2%nat)))) by (try exact F0; intros; reflexivity).
    rewrite (Shared.peval_ext_len K 3 g0 (epoint 3 x) (epoint 3 (pt3 (x 0%nat) (x 1%nat) (x 2%nat)))) by (try exact G0; intros; reflexivity).
    rewrite !epoint3 by assumption. apply E0.
  - apply (esym_unique K 3); [exact F1|exact G1|]. intro x.
    destruct (ecomp_spec K 3 0 f1) as (_ & A1 & A2). destruct (ecomp_spec K 3 0 g1) as (_ & B1 & B2). rewrite <- A2, <- B2.
    destruct (sub_full K 3 _ _ A1 B1) as (P1 & P2). apply fsub_eq0. rewrite <- P2, (peval_pt3 K x _ P1). apply (zero_distinct K _ P1).
    intros A B C N1 N2 N3. rewrite P2, A2, B2, !epoint3 by assumption. pose proof (H A B C) as X. rewrite (E0 A B C) in X. apply sub0.
    revert X. generalize (peval (pt3 (A + B + C) (A * B + B * C + C * A) (A * B * C)) f1) (peval (pt3 (A + B + C) (A * B + B * C + C * A) (A * B * C)) g0)
      (peval (pt3 (A + B + C) (A * B + B * C + C * A) (A * B * C)) g1). intros v u' v' X.
    assert (E : (A - B) * (B - C) * (C - A) * (v - v') = 0).
    { transitivity (u' + (A - B) * (B - C) * (C - A) * v - (u' + (A - B) * (B - C) * (C - A) * v')); [ring|]. rewrite X. ring. }
    apply fmul_eq0 in E. destruct E as [E|E]; [|apply fsub_eq0; exact E]. exfalso.
    apply fmul_eq0 in E. destruct E as [E|E]; [apply fmul_eq0 in E; destruct E as [E|E]|]; apply fsub_eq0 in E; contradiction.
Qed.
Lemma pqr_ker_val (A B C : K) : ev (pt3 (A + B + C) (A * B + B * C + C * A) (A * B * C)) pqr_ker = ((A - B) * (B - C) * (C - A)) ^ 2.
Proof. unfold pqr_ker. cbn [ev pt3 fpow fbin]. ring. Qed.
End Facts.
