(** * Symmetric septics: the quadratic form method *)
From Coq Require Import Bool List Arith Lia ZArith Ring Field.
From Verif Require Import OrdField Base Congruence Perm Poly PolyId PolyOps Coeff Expr CertLimit TriPoly Monomials Univariate UnivariateLemmas StructUtils.
From Verif Require Sparse TernaryQuad TernaryTables TernaryCubic.
From Verif Require Import SymDiv DenseSym DenseSymFacts DenseSymAxis DenseSymMain DenseSymTop Septic SepticFacts.
Import ListNotations.

Ltac fside := repeat match goal with |- _ /\ _ => split end; first [assumption | fnz].

Section Restructure.
Variable K : OrdField.
Local Open Scope of_scope.
Add Field Kf : (F_field K).
Implicit Types (f : list K) (w : wsos K) (z : K).

Lemma quad_part (v : list K) z : (forall n, udeg v = Some n -> (n <= 2)%nat) -> ueval v z = vget v 0 + vget v 1 * z + vget v 2 * (z * z).
Proof.
  intro H. destruct (strip_tail K v) as (t & E & Z). unfold udeg in H.
  assert (L : (length (strip v) <= 3)%nat).
  { destruct (strip v) as [|h l] eqn:Es; [cbn; lia|]. specialize (H _ eq_refl). cbn in *. lia. }
  assert (Zt : ueval t z = 0). { clear - Z. induction t as [|k t IH]; [reflexivity|]. rewrite ueval_cons, (Z k) by (left; reflexivity). rewrite IH; [ring|]. intros; apply Z; right; assumption. }
  assert (Zn : forall i, nth i t 0 = 0). { intro i. destruct (nth_in_or_default i t 0) as [Hi|Hi]; [apply Z, Hi|exact Hi]. }
  rewrite E. unfold vget. destruct (strip v) as [|h0 [|h1 [|h2 [|h3 l]]]]; cbn in L; try lia; cbn [app nth]; rewrite ?ueval_cons, ?Zt, ?Zn; ring.
Qed.

(** all parts with a non-zero weight have degree at most 2 *)
Definition quad_parts w : Prop := forall k v n, In (k, v) w -> k <> 0 -> udeg v = Some n -> (n <= 2)%nat.
Lemma part_basis (v : list K) z : (forall n, udeg v = Some n -> (n <= 2)%nat) ->
  ueval v z = - (k1 v * - (z * z + 2 * z + 2) + k2 v * (z * z + 2) + k3 v * (2 * z + 1)).
Proof. intro H. rewrite (quad_part v z H). unfold k1, k2, k3. cbn [fbin]. field. fnz. Qed.
Lemma weval_basis w z : quad_parts w ->
  let e := - (z * z + 2 * z + 2) in let x := z * z + 2 in let y := 2 * z + 1 in
  weval w z = ksum k1 k1 w * (e * e) + 2 * ksum k1 k2 w * (e * x) + 2 * ksum k1 k3 w * (e * y)
    + ksum k2 k2 w * (x * x) + 2 * ksum k2 k3 w * (x * y) + ksum k3 k3 w * (y * y).
Proof.
  intros H e x y. induction w as [|[k v] w IH].
  - unfold ksum, weval. cbn. ring.
  - rewrite weval_cons, IH by (intros k' v' n Hin; apply (H k' v' n); right; exact Hin). unfold ksum. cbn [map fsum fst snd].
    destruct (feq_dec K k 0) as [->|Hk]; [ring|]. rewrite (part_basis v z) by (intros n Hn; apply (H k v n (or_introl eq_refl) Hk Hn)). fold e x y. ring.
Qed.
Lemma ksum_square (al be la : K) w : wnonneg K w ->
  0 <= al * al * ksum k2 k2 w + 2 * al * be * ksum k2 k3 w + be * be * ksum k3 k3 w
       - 2 * la * (al * ksum k1 k2 w + be * ksum k1 k3 w) + la * la * ksum k1 k1 w.
Proof.
  intro H. induction w as [|[k v] w IH].
  - unfold ksum. cbn. match goal with |- 0 <= ?r => replace r with (0 : K) by ring end. apply fle_refl.
  - assert (Hw : wnonneg K w) by (intros t Ht; apply H; right; exact Ht). specialize (IH Hw). unfold ksum in *. cbn [map fsum fst snd].
    match type of IH with 0 <= ?r => match goal with |- 0 <= ?g => replace g with
      (k * ((al * k2 v + be * k3 v - la * k1 v) * (al * k2 v + be * k3 v - la * k1 v)) + r) by ring end end.
    apply fadd_nonneg; [|exact IH]. apply fmul_nonneg; [exact (H (k, v) (or_introl eq_refl))|apply fsqr_nonneg].
Qed.
Lemma ksum_self_nonneg g w : wnonneg K w -> 0 <= ksum g g w.
Proof.
  intro H. unfold ksum. apply fsum_nonneg. intros t Ht. apply in_map_iff in Ht. destruct Ht as [u [<- Hu]].
  apply fmul_nonneg; [exact (H u Hu)|apply fsqr_nonneg].
Qed.

(** ** The rewriting of a quartic (sextic_symmetric.py:43) *)
Definition rem_axis (r : option K) z : K := match r with Some r => (z * z + 2 * r * z + r + 2) | None => 2 * z + 1 end.
Definition quartic_of (t s x y rem : K) (r : option K) z : K :=
  t * (z - 1) ^ 4 + s * ((x - 1) * (z * z) - (2 - 2 * y) * z + (2 * x + y - 2)) ^ 2 + rem * rem_axis r z ^ 2.
Definition quartic f : Prop := exists l, length l = 5%nat /\ forall z, ueval f z = ueval l z.

Lemma psd_diag (m p n : K) : (forall al be, 0 <= m * (al * al) + p * (al * be) + n * (be * be)) ->
  0 <= m + p + n /\ (m + p + n = 0 -> n = m /\ p = - (2) * m).
Proof.
  intro H. split.
  - specialize (H 1 1). match type of H with 0 <= ?r => replace (m + p + n) with r by ring end. exact H.
  - intro E. assert (M : 0 <= m) by (specialize (H 1 0); match type of H with 0 <= ?r => replace m with r by ring end; exact H).
    assert (M1 : 0 < m + 1) by (apply fadd_pos_r; [exact M|apply f1_pos]).
    assert (L : 2 * m + p = 0).
    { destruct (feq_dec K (2 * m + p) 0) as [->|Hl]; [reflexivity|exfalso].
      specialize (H (1 - (2 * m + p) / (m + 1)) 1).
      assert (X : 0 <= - ((2 * m + p) * (2 * m + p) / ((m + 1) * (m + 1)))).
      { match type of H with 0 <= ?r => replace (- ((2 * m + p) * (2 * m + p) / ((m + 1) * (m + 1)))) with (r - (m + p + n)) by (field; apply flt_neq0, M1) end.
        rewrite E. match goal with |- 0 <= ?g => match type of H with 0 <= ?r => replace g with r by ring end end. exact H. }
      assert (Y : 0 < (2 * m + p) * (2 * m + p) / ((m + 1) * (m + 1))) by (apply fdiv_pos; [apply fsqr_pos, Hl|apply fmul_pos; exact M1]).
      apply (flt_irrefl K 0). apply (flt_le_trans K _ ((2 * m + p) * (2 * m + p) / ((m + 1) * (m + 1)))); [exact Y|].
      apply fle_sub. match goal with |- 0 <= ?g => match type of X with 0 <= ?r => replace g with r by ring end end. exact X. }
    assert (Ep : p = - (2) * m) by (transitivity (2 * m + p - 2 * m); [ring|rewrite L; ring]).
    split; [|exact Ep]. subst p. transitivity (m + - (2) * m + n + m); [ring|rewrite E; ring].
Qed.

Lemma restructure_spec uni f t s x y rem r : uni_ok K uni -> quartic f -> restructure uni f = Ok (RSome t s x y rem r) ->
  0 <= t /\ 0 <= s /\ 0 <= rem /\ forall z, ueval f z = quartic_of t s x y rem r z.
Proof.
  intros U (l & Hl & Vl). unfold restructure. destruct (forallb _ f) eqn:E0.
  - intro H. assert (E : t = 0 /\ s = 0 /\ x = 0 /\ y = 0 /\ rem = 0 /\ r = Some 0) by (repeat split; congruence).
    destruct E as (-> & -> & -> & -> & -> & ->). split; [apply fle_refl|]. split; [apply fle_refl|]. split; [apply fle_refl|].
    intro z. transitivity (0 : K).
    + clear - E0. induction f as [|k f IH]; [reflexivity|]. cbn [forallb] in E0. apply andb_prop in E0. destruct E0 as [Ek E0]. apply feqb_eq in Ek. subst k.
      rewrite ueval_cons, (IH E0). ring.
    + unfold quartic_of, rem_axis. cbn [fpow]. ring.
  - destruct (uni f) as [[[w [|? ?]]|]|] eqn:Eu; try discriminate.
    assert (P : proves K (w, []) l) by (destruct (U _ _ Eu) as (P1 & P2 & P3); split; [exact P1|split; [exact P2|]]; intro z; rewrite <- Vl; apply P3).
    assert (Qw : quad_parts w).
    { intros k v n Hin Hk Hn. pose proof (proj1 (proof_degrees K _ _ 4 P ltac:(lia)) k v n Hin Hk Hn). lia. }
    destruct P as (Wn & _ & V). cbn [fst snd] in *.
    assert (V' : forall z, ueval f z = weval w z) by (intro z; rewrite Vl, V, weval_nil; ring).
    set (s0 := ksum k1 k1 w). set (x0 := ksum k1 k2 w). set (y0 := ksum k1 k3 w). set (m0 := ksum k2 k2 w). set (c0 := ksum k2 k3 w). set (n0 := ksum k3 k3 w).
    cbv zeta. destruct (s0 =? 0) eqn:Es; [discriminate|]. apply feqb_neq in Es.
    assert (S0 : 0 < s0) by (apply flt_le_neq; split; [apply ksum_self_nonneg, Wn|congruence]).
    set (m := m0 - x0 ^ 2 / s0). set (p := fbin 2 * c0 - fbin 2 * x0 * y0 / s0). set (n := fbin 2 * m0 + n0 - (fbin 2 * x0 ^ 2 + y0 ^ 2) / s0).
    set (n' := n0 - y0 ^ 2 / s0).
    assert (En : n = 2 * m + n') by (subst n m n'; cbn [fbin fpow]; field; exact Es).
    assert (PSD : forall al be, 0 <= m * (al * al) + p * (al * be) + n' * (be * be)).
    { intros al be. pose proof (ksum_square al be ((al * x0 + be * y0) / s0) w Wn) as X. fold s0 x0 y0 m0 c0 n0 in X.
      match type of X with 0 <= ?g => match goal with |- 0 <= ?h => replace h with g by (subst m p n'; cbn [fbin fpow]; field; exact Es) end end. exact X. }
    assert (Val : forall z, ueval f z = s0 * ((x0 / s0 - 1) * (z * z) - (2 - 2 * (y0 / s0)) * z + (2 * (x0 / s0) + y0 / s0 - 2)) ^ 2
      + m * ((z * z + 2) * (z * z + 2)) + p * ((z * z + 2) * (2 * z + 1)) + n' * ((2 * z + 1) * (2 * z + 1))).
    { intro z. rewrite V'. pose proof (weval_basis w z Qw) as X. cbv zeta in X. rewrite X. fold s0 x0 y0 m0 c0 n0. subst m p n'. cbn [fbin fpow]. field. exact Es. }
    destruct (psd_diag m p n' PSD) as [De Dz].
    assert (M : 0 <= m) by (pose proof (PSD 1 0) as X; match type of X with 0 <= ?r => replace m with r by ring end; exact X).
    clear PSD V V' Vl.
    clearbody m p n' n. subst n.
    destruct ((2 * m + n' =? fbin 3 * m) && _)%bool eqn:Ec.
    + apply andb_prop in Ec. destruct Ec as [E1 E2]. apply feqb_eq in E1. apply feqb_eq in E2. intro H.
      assert (E : t = m /\ s = s0 /\ x = x0 / s0 /\ y = y0 / s0 /\ rem = 0 /\ r = Some 0) by (repeat split; congruence).
      destruct E as (-> & -> & -> & -> & -> & ->). clear H.
      assert (N' : n' = m) by (transitivity (2 * m + n' - 2 * m); [ring|rewrite E1; cbn [fbin]; ring]). subst n' p.
      split; [exact M|]. split; [apply flt_le, S0|]. split; [apply fle_refl|]. intro z. rewrite Val. unfold quartic_of, rem_axis. cbn [fbin fpow]. ring.
    + assert (E : m + p + n' <> 0).
      { intro X. destruct (Dz X) as [-> ->]. apply andb_false_iff in Ec. destruct Ec as [Ec|Ec]; apply feqb_neq in Ec; apply Ec; cbn [fbin]; ring. }
      assert (EP : 0 < m + p + n') by (apply flt_le_neq; split; [exact De|congruence]). clear Dz De Ec.
      set (t0 := (- fbin 2 * m ^ 2 + m * (2 * m + n') - p ^ 2 / fbin 4) / (2 * m + n' + p - m)).
      assert (T : t0 = (m * n' - p * p / 4) / (m + p + n')).
      { subst t0. cbn [fbin fpow]. replace (2 * m + n' + p - m) with (m + p + n') by ring. field. fside. }
      destruct (t0 <? 0) eqn:Et; [discriminate|]. apply fltb_ge in Et. clearbody t0.
      destruct (m =? t0) eqn:Em.
      * apply feqb_eq in Em. destruct (_ <? 0) eqn:Er; [discriminate|]. apply fltb_ge in Er. intro H.
        assert (Q : t = t0 /\ s = s0 /\ x = x0 / s0 /\ y = y0 / s0 /\ rem = 2 * m + n' - fbin 3 * t0 /\ r = None) by (repeat split; congruence).
        destruct Q as (-> & -> & -> & -> & -> & ->). clear H. split; [exact Et|]. split; [apply flt_le, S0|]. split; [exact Er|].
        assert (P0 : p = - (2) * m).
        { assert (X : (2 * m + p) * (2 * m + p) = 0).
          { transitivity (4 * ((m + p + n') * (m - (m * n' - p * p / 4) / (m + p + n')))); [field; fside|]. rewrite <- T, <- Em. ring. }
          apply fsqr_eq0 in X. transitivity (2 * m + p - 2 * m); [ring|rewrite X; ring]. }
        intro z. rewrite Val. unfold quartic_of, rem_axis. rewrite <- Em, P0. cbn [fbin fpow]. ring.
      * apply feqb_neq in Em. intro H.
        assert (Q : t = t0 /\ s = s0 /\ x = x0 / s0 /\ y = y0 / s0 /\ rem = m - t0 /\ r = Some ((p + fbin 2 * t0) / (m - t0) / fbin 2)) by (repeat split; congruence).
        destruct Q as (-> & -> & -> & -> & -> & ->). clear H. split; [exact Et|]. split; [apply flt_le, S0|].
        assert (Em' : m - t0 <> 0) by (intro X; apply Em, (fsub_eq0 K), X).
        assert (R : m - t0 = (m + p / 2) * (m + p / 2) / (m + p + n')) by (rewrite T; field; fside).
        split; [rewrite R; apply fdiv_nonneg; [apply fsqr_nonneg|exact EP]|].
        assert (Key : (n' - t0) * (m - t0) = (p + 2 * t0) / 2 * ((p + 2 * t0) / 2)) by (rewrite T; field; fside).
        intro z. rewrite Val. unfold quartic_of, rem_axis. cbn [fbin fpow].
        set (q := (p + 2 * t0) / 2) in *. assert (Ep : p = 2 * q - 2 * t0) by (subst q; field; fnz).
        replace ((p + 2 * 1 * t0) / (m - t0) / (2 * 1)) with (q / (m - t0)) by (subst q; field; fside).
        assert (En' : n' = t0 + q * q / (m - t0)) by (rewrite <- Key; field; exact Em').
        clearbody q. rewrite En', Ep. field. fside.
Qed.
End Restructure.
