(** * Nonic forms: the hexagram *)
From Coq Require Import Bool List Arith Lia ZArith Ring Field.
From Verif Require Import OrdField Base Congruence Perm Poly PolyId PolyOps Coeff Expr CertLimit TriPoly Monomials Univariate UnivariateLemmas StructUtils.
From Verif Require Sparse TernaryQuad TernaryTables TernaryCubic PivotProve.
From Verif Require Import SymDiv DenseSym DenseSymFacts DenseSymAxis DenseSymMain DenseSymTop Septic SepticFacts SepticForm SepticMain SepticTop Nonic NonicFacts NonicTree NonicMain.
Import ListNotations.

Section Gram.
Variable K : OrdField.
Local Open Scope of_scope.
Add Field Kf : (F_field K).
Implicit Types (u v w t r A B C : K) (e : ex K) (p : poly K).
Ltac evs := cbn [csum cprod erename rot3 ev pt3]; unfold cyc3; cbn [fpow fbin].
Ltac nbz := repeat match goal with |- _ /\ _ => split end; first [assumption | fnz | idtac].
Ltac cert_poly := apply fcert_poly; [reflexivity|reflexivity|intros; evs; reflexivity].

(** ** Division of the polynomial by abc *)
Lemma mon3 (m : list nat) : length m = 3%nat -> exists i j k, m = [i; j; k].
Proof. destruct m as [|i [|j [|k [|l m]]]]; cbn; try discriminate. intros _. exists i, j, k. reflexivity. Qed.
Lemma div_abc_keys p m : wf 3 p -> In m (keys (div_abc p)) -> exists i j k, m = [i; j; k] /\ In [S i; S j; S k] (keys p).
Proof.
  intros [_ W] H. unfold keys, div_abc in H. rewrite map_map in H. apply in_map_iff in H. destruct H as ([m' c] & <- & H). apply filter_In in H. destruct H as [H1 H2].
  cbn [fst snd] in *. assert (In m' (keys p)) as Hk by (apply (in_map fst) in H1; exact H1). destruct (mon3 m' (W _ Hk)) as (i & j & k & ->).
  cbn in H2. destruct i as [|i], j as [|j], k as [|k]; try discriminate. exists i, j, k. split; [reflexivity|exact Hk].
Qed.
Lemma div_abc_cons (m : list nat) c p : div_abc ((m, c) :: p) = if forallb (fun d : nat => Nat.ltb 0 d) m then (map pred m, c) :: div_abc p else div_abc p.
Proof. unfold div_abc. cbn [filter fst]. destruct (forallb _ m); reflexivity. Qed.
Lemma wf_tail (m : list nat) (c : K) p : wf 3 ((m, c) :: p) -> length m = 3%nat /\ ~ In m (keys p) /\ wf 3 p.
Proof. intros [N W]. cbn in N. inversion N; subst. repeat split; [apply W; left; reflexivity|assumption|assumption|]. intros m' H. apply W. right. exact H. Qed.
Lemma div_abc_wf p : wf 3 p -> wf 3 (div_abc p).
Proof.
  induction p as [|[m c] p IH]; [intros _; split; [constructor|intros ? []]|]. intro W. pose proof (wf_tail m c p W) as (L & N & Wp). rewrite div_abc_cons.
  destruct (forallb _ m) eqn:E; [|exact (IH Wp)]. destruct (mon3 m L) as (i & j & k & ->). specialize (IH Wp). destruct IH as [I1 I2]. split.
  - cbn [keys map fst]. constructor; [|exact I1]. intro H. apply div_abc_keys in H; [|exact Wp]. destruct H as (i' & j' & k' & Q & H).
    cbn in E. destruct i as [|i], j as [|j], k as [|k]; try discriminate. cbn in Q. injection Q as -> -> ->. exact (N H).
  - intros m' [<-|H]; [reflexivity|exact (I2 m' H)].
Qed.
Lemma div_abc_homdeg p d : wf 3 p -> homdeg (3 + d) p -> homdeg d (div_abc p).
Proof. intros W H m Hm. apply div_abc_keys in Hm; [|exact W]. destruct Hm as (i & j & k & -> & Hm). apply H in Hm. cbn in *. lia. Qed.
Lemma div_abc_coef p i j k : wf 3 p -> cfp (div_abc p) i j k = cfp p (S i) (S j) (S k).
Proof.
  unfold cfp, coef. induction p as [|[m c] p IH]; [reflexivity|]. intro W. pose proof (wf_tail m c p W) as (L & N & Wp). rewrite div_abc_cons. specialize (IH Wp).
  destruct (mon3 m L) as (x & y & z & ->). cbn [dget]. destruct (meqb [S i; S j; S k] [x; y; z]) eqn:E.
  - apply meqb_eq in E. injection E as <- <- <-. cbn [forallb Nat.ltb Nat.leb andb map pred dget]. replace (meqb [i; j; k] [i; j; k]) with true; [reflexivity|]. symmetry. apply meqb_eq. reflexivity.
  - destruct (forallb _ _) eqn:F; [|exact IH]. cbn [map pred dget]. destruct x as [|x], y as [|y], z as [|z]; try discriminate. cbn [map pred].
    destruct (meqb [i; j; k] [x; y; z]) eqn:G; [|exact IH]. apply meqb_eq in G. injection G as -> -> ->. exfalso. assert (meqb [S x; S y; S z] [S x; S y; S z] = true) by (apply meqb_eq; reflexivity). congruence.
Qed.
Definition edge_zero p : Prop :=
  (cfp p 9 0 0 = f0 /\ cfp p 8 1 0 = f0 /\ cfp p 1 8 0 = f0 /\ cfp p 7 2 0 = f0 /\ cfp p 2 7 0 = f0 /\ cfp p 6 3 0 = f0 /\ cfp p 3 6 0 = f0)%nat.
Lemma div_abc_val p A B C : wf 3 p -> homdeg 9 p -> cyclic3 (cfp p) -> edge_zero p -> (cfp p 5 4 0)%nat = 0 -> (cfp p 4 5 0)%nat = 0 ->
  peval (pt3 A B C) p = A * B * C * peval (pt3 A B C) (div_abc p).
Proof.
  intros W Hd Hc (Z1 & Z2 & Z3 & Z4 & Z5 & Z6 & Z7) Z8 Z9.
  rewrite (peval_tri K 9 p A B C W Hd), (peval_tri K 6 (div_abc p) A B C (div_abc_wf p W) (div_abc_homdeg p 6 W Hd)).
  assert (Bd : forall i j, (i + j = 9)%nat -> cfp p i j 0%nat = 0).
  { intros i j E. destruct i as [|[|[|[|[|[|[|[|[|[|i]]]]]]]]]]; [| | | | | | | | | |exfalso; lia].
    - replace j with 9%nat by lia. rewrite Hc. exact Z1.
    - replace j with 8%nat by lia. exact Z3.
    - replace j with 7%nat by lia. exact Z5.
    - replace j with 6%nat by lia. exact Z7.
    - replace j with 5%nat by lia. exact Z9.
    - replace j with 4%nat by lia. exact Z8.
    - replace j with 3%nat by lia. exact Z6.
    - replace j with 2%nat by lia. exact Z4.
    - replace j with 1%nat by lia. exact Z2.
    - replace j with 0%nat by lia. exact Z1. }
  assert (B2 : forall i j, (i + j = 9)%nat -> cfp p i 0%nat j = 0) by (intros i j E; rewrite Hc, Hc; apply Bd; lia).
  assert (B3 : forall i j, (i + j = 9)%nat -> cfp p 0%nat i j = 0) by (intros i j E; rewrite Hc; apply Bd; lia).
  cbn [tri_poly seq map fsum fold_right Nat.sub]. rewrite !(div_abc_coef p _ _ _ W).
  repeat match goal with |- context [cfp p ?i ?j 0%nat] => rewrite (Bd i j eq_refl) end.
  repeat match goal with |- context [cfp p ?i 0%nat ?j] => rewrite (B2 i j eq_refl) end.
  repeat match goal with |- context [cfp p 0%nat ?i ?j] => rewrite (B3 i j eq_refl) end.
  cbn [fpow]. ring.
Qed.

(** ** The substitution by products of two variables *)
Lemma esubst_manifest (s : nat -> ex K) e : (forall i, manifest true (s i) = true) -> manifest true e = true -> manifest true (PivotProve.esubst s e) = true.
Proof.
  intro Hs. induction e; cbn [PivotProve.esubst manifest]; try tauto; try discriminate; intro H; auto.
  all: try (apply andb_prop in H; destruct H as [H1 H2]; rewrite (IHe1 H1), (IHe2 H2); reflexivity).
  apply orb_prop in H. destruct H as [H|H]; [rewrite H; reflexivity|rewrite (IHe H); apply orb_true_r].
Qed.
Lemma fcert_inverse e (f g : K -> K -> K -> K) : fcert K e f -> (forall A B C, f (B * C) (C * A) (A * B) = g A B C * (A * B * C)) -> fcert K (inverse_substitution1 e) g.
Proof.
  intros (M & V & D) H. unfold inverse_substitution1. set (s := fun i : nat => match i with O => (EX 1 * EX 2)%E | 1%nat => (EX 2 * EX 0)%E | _ => (EX 0 * EX 1)%E end).
  assert (X : forall A B C i, pt3 (B * C) (C * A) (A * B) i = ev (pt3 A B C) (s i)) by (intros A B C [|[|[|i]]]; reflexivity).
  split; [cbn [manifest]; rewrite esubst_manifest; [reflexivity|intros [|[|[|i]]]; reflexivity|exact M]|]. split.
  - intros A B C HD. cbn [ev defined] in *. destruct HD as (D1 & D2 & N). apply PivotProve.esubst_defined in D1.
    rewrite PivotProve.esubst_ev. rewrite <- (ev_ext K _ _ e (X A B C)). rewrite V; [|apply (defined_ext K _ _ e (fun i => eq_sym (X A B C i)) D1)].
    rewrite H. cbn [cprod erename rot3 ev pt3] in *. field. repeat split; intro Z; apply N; rewrite Z; ring.
  - intros A B C HA HB HC HN. cbn [defined]. split; [|split].
    + apply PivotProve.esubst_defined_back; [intros [|[|[|i]]]; cbn; tauto|]. apply (defined_ext K _ _ e (X A B C)). apply D; try (apply fmul_pos; assumption).
      intros [Q1 Q2]. apply HN. pose proof (flt_neq0 HA). pose proof (flt_neq0 HB). pose proof (flt_neq0 HC). split.
      * assert (Z : C * (A - B) = 0) by (transitivity (C * A - B * C); [ring|rewrite Q1; ring]). apply fmul_eq0 in Z. destruct Z as [Z|Z]; [contradiction|]. transitivity (A - B + B); [ring|rewrite Z; ring].
      * assert (Z : A * (B - C) = 0) by (transitivity (A * B - C * A); [ring|rewrite Q2; ring]). apply fmul_eq0 in Z. destruct Z as [Z|Z]; [contradiction|]. transitivity (B - C + C); [ring|rewrite Z; ring].
    + cbn; tauto.
    + cbn [cprod erename rot3 ev pt3]. intro Z. revert Z. apply fmul_neq0; [apply fmul_neq0|]; apply flt_neq0; assumption.
Qed.

Variable den : K -> K.
Hypothesis den_pos : forall t, 0 < den t.
Variable cont : ex K -> K.
Hypothesis cont_ok : forall e, cont e <> 0 /\ (manifest true e = true -> 0 < cont e).
Variable rec : poly K -> res (option (ex K)).
Hypothesis rec_ok : forall q e, wf 3 q -> (exists d, homdeg d q) -> cyclic3 (cfp q) -> rec q = Ok (Some e) -> fcert K e (fun A B C => peval (pt3 A B C) q).
Variable roots : (K -> K) -> list (cand K).

Definition gram_shape p : Prop :=
  edge_zero p /\ (cfp p 7 1 1)%nat = f0 /\ (cfp p 4 5 0 = cfp p 5 4 0 /\ cfp p 2 6 1 = cfp p 6 2 1 /\ cfp p 3 5 1 = cfp p 5 3 1 /\ cfp p 3 4 2 = cfp p 4 3 2)%nat.
Definition S1 A B C : K := cyc3 K (fun a b c => c ^ 5 * (a - b) ^ 4) A B C.
Definition S2 A B C : K := cyc3 K (fun a b c => a ^ 2 * b ^ 2 * c * (a - b) ^ 4) A B C.
Definition TT A B C : K := cyc3 K (fun a b c => fbin 3 * a ^ 4 * b ^ 2 - fbin 4 * a ^ 4 * b * c + fbin 3 * a ^ 4 * c ^ 2 - fbin 4 * a ^ 3 * b ^ 3 + fbin 2 * a ^ 2 * b ^ 2 * c ^ 2) A B C.
Definition mm A B C : K := cyc3 K (fun a b c => a * b * (a - b) ^ 4) A B C.
Lemma gram_i1 c2 r A B C : c2 * cyc3 K (fun a b c => c * (a - b) ^ 4 * (a * b - r * c ^ 2) ^ 2) A B C =
  c2 * S2 A B C - fbin 2 * c2 * r * (A * B * C) * TT A B C + fbin 4 * c2 * r * pab K A B C * (A * B * C) + c2 * r ^ 2 * S1 A B C.
Proof. unfold S1, S2, TT, pab, cyc3. cbn [fpow fbin]. ring. Qed.
Lemma gram_i2 c2 r A B C : (c2 * r ^ 2 * S1 A B C + c2 * S2 A B C - fbin 2 * c2 * r * (A * B * C) * TT A B C) * mm A B C =
  c2 * (A * B * C) * (mm A B C - r * TT A B C) ^ 2
  + pab K A B C * (c2 * r ^ 2 * (pab K A B C * (A + B + C) * cyc3 K (fun a b c => a * b) A B C + A * B * C * cyc3 K (fun a b c => (a - b) ^ 2) A B C * cyc3 K (fun a b c => a ^ 2 * (b - c) ^ 2) A B C / fbin 4)).
Proof. unfold S1, S2, TT, mm, pab, cyc3. cbn [fpow fbin]. field. nbz. Qed.
Lemma mm_nz A B C : 0 < A -> 0 < B -> 0 < C -> ~ (A = B /\ B = C) -> mm A B C <> 0.
Proof.
  intros HA HB HC HN. unfold mm, cyc3. assert (Q : forall x y : K, 0 < x -> 0 < y -> 0 <= x * y * (x - y) ^ 4).
  { intros x y Hx Hy. apply fmul_nonneg; [apply fmul_nonneg; apply flt_le; assumption|]. replace ((x - y) ^ 4) with (((x - y) ^ 2) * ((x - y) ^ 2)) by (cbn [fpow]; ring). apply fsqr_nonneg. }
  assert (P : forall x y : K, 0 < x -> 0 < y -> x <> y -> 0 < x * y * (x - y) ^ 4).
  { intros x y Hx Hy Hn. apply flt_le_neq. split; [apply Q; assumption|]. apply not_eq_sym. cbn [fpow]. assert (x - y <> 0) by (intro Z; apply Hn; transitivity (x - y + y); [ring|rewrite Z; ring]).
    repeat apply fmul_neq0; try (apply flt_neq0; assumption); try assumption; apply fneq10. }
  apply flt_neq0. destruct (feq_dec K A B) as [E|E].
  - assert (B <> C) by (intro; apply HN; split; assumption). apply fadd_pos_l; [apply fadd_pos_r; [apply Q|apply P]|apply Q]; assumption.
  - apply fadd_pos_l; [apply fadd_pos_l; [apply P|apply Q]|apply Q]; assumption.
Qed.
Lemma fcert_mm : fcert K (csum (EX 0 * EX 1 * (EX 0 - EX 1) ^ 4)%E) mm.
Proof. cert_poly. Qed.
Lemma fcert_S1 : fcert K (csum (EX 2 ^ 5 * (EX 0 - EX 1) ^ 4)%E) S1.
Proof. cert_poly. Qed.
Lemma nonic_hexagram_ok p e : wf 3 p -> homdeg 9 p -> cyclic3 (cfp p) -> gram_shape p ->
  nonic_hexagram den cont rec roots p = Ok (Some e) -> fcert K e (fun A B C => peval (pt3 A B C) p).
Proof.
  intros W Hd Hc (Ez & Z0 & Y1 & Y2 & Y3 & Y4). unfold nonic_hexagram. cbv zeta.
  destruct ((_ <? 0) || _)%bool eqn:E; [discriminate|]. apply orb_false_iff in E. destruct E as [P1 P2]. apply fltb_ge in P1, P2.
  destruct ((cfp p 5 4 0)%nat =? 0) eqn:E1.
  { apply feqb_eq in E1. destruct (rec _) as [[er|]|] eqn:Er; try discriminate. intro H. apply some_inj in H. subst e.
    assert (Hr : fcert K er (fun A B C => peval (pt3 A B C) (div_abc p))).
    { apply rec_ok; [apply div_abc_wf, W|exists 6%nat; apply div_abc_homdeg; assumption| |exact Er]. intros i j k. rewrite !(div_abc_coef p _ _ _ W). apply Hc. }
    eapply fcert_ext; [|apply fcert_mul; [apply fcert_abc|exact Hr]]. intros A B C. cbv beta. rewrite (div_abc_val p A B C W Hd Hc Ez E1); [reflexivity|rewrite Y1; exact E1]. }
  apply feqb_neq in E1.
  assert (Fm : forall A B C, peval (pt3 A B C) p = form9 K 0 0 0 0 0 0 0 (cfp p 5 4 0)%nat (cfp p 5 4 0)%nat 0 (cfp p 6 2 1)%nat (cfp p 6 2 1)%nat (cfp p 5 3 1)%nat (cfp p 5 3 1)%nat (cfp p 4 4 1)%nat (cfp p 5 2 2)%nat (cfp p 4 3 2)%nat (cfp p 4 3 2)%nat (cfp p 3 3 3)%nat A B C).
  { intros A B C. rewrite (form_of_peval K p A B C W Hd Hc). unfold form_of. destruct Ez as (-> & -> & -> & -> & -> & -> & ->). rewrite Z0, Y1, Y2, Y3, Y4. reflexivity. }
  set (c1 := (cfp p 5 4 0)%nat) in *. set (c2 := (cfp p 6 2 1)%nat) in *. set (c3 := (cfp p 5 3 1)%nat) in *. set (c4 := (cfp p 4 4 1)%nat) in *.
  set (c5 := (cfp p 5 2 2)%nat) in *. set (c6 := (cfp p 4 3 2)%nat) in *. set (c7 := (cfp p 3 3 3)%nat) in *.
  destruct (c2 =? 0) eqn:E2.
  { apply feqb_eq in E2. match goal with |- context [expand ?x] => set (s := x) end. destruct (rec _) as [[er|]|] eqn:Er; try discriminate. intro H. apply some_inj in H. subst e.
    destruct (expand_spec K s eq_refl) as (Ws & Vs & Ds).
    assert (Hr : fcert K er (fun A B C => peval (pt3 A B C) (expand s))).
    { apply rec_ok; [exact Ws|exists 6%nat; apply Ds; reflexivity| |exact Er]. apply (cyclic_of_values K); [exact Ws|]. intros A B C. rewrite !Vs. unfold s. evs. ring. }
    apply (fcert_inverse er _ _ Hr). intros A B C. rewrite Vs, Fm, E2. unfold s, form9. evs. ring. }
  apply feqb_neq in E2.
  destruct (rat_func _ _ _ _) as [[z|]|] eqn:Ezz; try discriminate. apply rat_func_spec in Ezz. destruct Ezz as (Hv & _).
  assert (Pz : z ^ 2 <= c1 * c2).
  { apply Ok_inj in Hv. unfold hex_valid in Hv. apply andb_prop in Hv. destruct Hv as [Hv _]. apply andb_prop in Hv. destruct Hv as [_ Hv]. apply fleb_le, Hv. }
  unfold hex_coeffs. set (w := c3 + fbin 4 * (c1 + c2) + fbin 6 * z).
  destruct (hexagram_symmetric _ _ _ _ _) as [[h|]|] eqn:Eh; try discriminate. apply (hexagram_ok K den den_pos) in Eh.
  assert (P2' : 0 < c2) by (apply flt_le_neq; split; [exact P2|apply not_eq_sym, E2]).
  set (r := z / c2) in *. assert (Xz : z = r * c2) by (unfold r; field; exact E2).
  assert (Pc : 0 <= c1 - c2 * r ^ 2).
  { replace (c1 - c2 * r ^ 2) with ((c1 * c2 - z ^ 2) / c2) by (rewrite Xz; cbn [fpow]; field; exact E2). apply fdiv_nonneg; [apply (proj1 (fle_sub _ _)), Pz|exact P2']. }
  clearbody r. subst z.
  destruct (fbin 4 * c2 * r <=? w) eqn:E4.
  { apply fleb_le in E4. intro H. apply some_inj in H. subst e.
    eapply fcert_ext; [|apply fcert_add; [apply fcert_add; [apply fcert_add|]|apply fcert_mul; [exact Eh|apply fcert_abc]]].
    2: { apply fcert_mul; [apply fcert_const, (flt_le P2')|cert_poly]. }
    2: { apply fcert_mul; [apply fcert_mul; [apply fcert_const, (proj1 (fle_sub _ _)), E4|apply fcert_pab]|apply fcert_abc]. }
    2: { apply fcert_mul; [apply fcert_const, Pc|cert_poly]. }
    intros A B C. cbv beta. rewrite Fm. unfold w, form9, hexform, pab, cyc3. clear. clearbody c1 c2 c3 c4 c5 c6 c7. cbn [fpow fbin]. ring. }
  destruct (0 <=? w) eqn:E5; [|discriminate]. apply fleb_le in E5. intro H. apply some_inj in H. subst e.
  match goal with |- context [cont ?x] => set (p1 := x) end.
  match goal with |- context [EMul (EC (fdiv f1 (cont ?x))) ?x] => lazymatch x with p1 => fail | _ => set (p2 := x) end end.
  pose proof (proj1 (cont_ok p1)) as Nk. set (k := cont p1) in *. clearbody k.
  assert (F2 : fcert K p2 (fun A B C => w * (A * B * C) * mm A B C + c2 * r ^ 2 * pab K A B C * (A + B + C) * cyc3 K (fun a b c => a * b) A B C
    + c2 * r ^ 2 / fbin 4 * (A * B * C) * cyc3 K (fun a b c => (a - b) ^ 2) A B C * cyc3 K (fun a b c => a ^ 2 * (b - c) ^ 2) A B C)).
  { assert (Pr : 0 <= c2 * r ^ 2) by (apply fmul_nonneg; [exact (flt_le P2')|]; replace (r ^ 2) with (r * r) by (cbn [fpow]; ring); apply fsqr_nonneg).
    unfold p2. apply fcert_add; [apply fcert_add|].
    - apply fcert_mul; [apply fcert_mul; [apply fcert_const, E5|apply fcert_abc]|cert_poly].
    - apply fcert_mul; [|cert_poly]. apply fcert_mul; [|apply fcert_sum]. apply fcert_mul; [apply fcert_const, Pr|apply fcert_pab].
    - apply fcert_mul; [|cert_poly]. apply fcert_mul; [|cert_poly]. apply fcert_mul; [|apply fcert_abc]. apply fcert_const. apply fdiv_nonneg; [exact Pr|apply fbin_pos]. }
  pose proof (proj2 (cont_ok p2) (proj1 F2)) as Pl. set (l := cont p2) in *. clearbody l. pose proof (flt_neq0 Pl) as Nl.
  eapply fcert_div with (g := mm); [|apply fcert_mm|exact mm_nz].
  eapply fcert_ext; [|apply fcert_cons; [| |apply fcert_cons; [exact Pc| |apply fcert_cons; [exact (flt_le Pl)| |apply fcert_cons; [apply f1_nonneg| |apply fcert_nil]]]]].
  2: { apply fmul_nonneg; [replace (k ^ 2) with (k * k) by (cbn [fpow]; ring); apply fsqr_nonneg|exact (flt_le P2')]. }
  2: { apply fcert_mul; [apply fcert_abc|]. apply fcert_poly with (f := fun A B C => (1 / k * (mm A B C - r * TT A B C)) ^ 2); [reflexivity|reflexivity|]. intros A B C. unfold p1, hex_target, mm, TT. evs. field. exact Nk. }
  2: { apply fcert_mul; [apply fcert_mm|apply fcert_S1]. }
  2: { apply fcert_mul; [apply fcert_pab|]. apply fcert_mul; [apply fcert_const; apply fdiv_nonneg; [apply f1_nonneg|exact Pl]|exact F2]. }
  2: { apply fcert_mul; [apply fcert_mul; [exact Eh|apply fcert_mm]|apply fcert_abc]. }
  intros A B C. cbv beta. rewrite Fm.
  change (cyc3 K (fun a b c => a * b * (a - b) ^ 4) A B C) with (mm A B C). change (cyc3 K (fun a b c => c ^ 5 * (a - b) ^ 4) A B C) with (S1 A B C).
  pose proof (gram_i2 c2 r A B C) as I2.
  match goal with |- context [hexform K ?x1 ?x2 ?x3 ?x4 A B C] => assert (I3 : form9 K 0 0 0 0 0 0 0 c1 c1 0 c2 c2 c3 c3 c4 c5 c6 c6 c7 A B C = c1 * S1 A B C + c2 * S2 A B C - fbin 2 * (r * c2) * (A * B * C) * TT A B C + w * pab K A B C * (A * B * C) + A * B * C * hexform K x1 x2 x3 x4 A B C) end.
  { unfold w, form9, hexform, pab, S1, S2, TT, cyc3. clear. clearbody c1 c2 c3 c4 c5 c6 c7. cbn [fpow fbin]. ring. }
  rewrite I3. set (H0 := hexform K _ _ _ _ A B C). set (D := pab K A B C) in *. set (m := mm A B C) in *. set (s1 := S1 A B C) in *. set (s2 := S2 A B C) in *. set (T := TT A B C) in *.
  set (x1 := cyc3 K (fun a b c => a * b) A B C) in *. set (x2 := cyc3 K (fun a b c => (a - b) ^ 2) A B C) in *. set (x3 := cyc3 K (fun a b c => a ^ 2 * (b - c) ^ 2) A B C) in *.
  transitivity (c2 * (A * B * C) * (m - r * T) ^ 2 + D * (c2 * r ^ 2 * (D * (A + B + C) * x1 + A * B * C * x2 * x3 / fbin 4)) + (c1 - c2 * r ^ 2) * (m * s1) + D * (w * (A * B * C) * m) + H0 * m * (A * B * C)).
  - clear - Nk Nl. clearbody w D m s1 T x1 x2 x3 H0 c1 c2. cbn [fpow fbin]. field. nbz.
  - rewrite <- I2. clear. clearbody w D m s1 s2 T H0 c1 c2. cbn [fpow fbin]. ring.
Qed.
End Gram.
