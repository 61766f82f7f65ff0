(** * A certificate that is exact off a proper hypersurface is exact wherever it is defined *)
From Coq Require Import Bool List Arith Lia Ring Field.
From Verif Require Import OrdField Base Expr CertLimit.
Import ListNotations.

Section Exact.
Variable K : OrdField.
Local Open Scope of_scope.
Add Field Kf : (F_field K).

Lemma product_zero_at_0 (f g : K -> K) : is_poly K f -> is_poly K g -> (exists t, g t <> 0) -> (forall t, f t * g t = 0) -> f 0 = 0.
Proof.
  intros Hf Hg He H.
  assert (Z : forall t, g t <> 0 -> f t = 0).
  { intros t Hn. destruct (fmul_eq0 K _ _ (H t)) as [C|C]; [exact C|contradiction]. }
  apply (fle_antisym K).
  - assert (N : 0 <= (fun t => 0 - f t) 0).
    { apply (nonneg_at_0 K (fun t => 0 - f t) g); [apply poly_sub; [apply poly_const|exact Hf]|exact Hg|exact He|].
      intros t _ _ Hn. rewrite (Z t Hn). replace (0 - 0 : K) with (0 : K) by ring. apply fle_refl. }
    cbv beta in N. apply fle_sub. exact N.
  - apply (nonneg_at_0 K f g); [exact Hf|exact Hg|exact He|]. intros t _ _ Hn. rewrite (Z t Hn). apply fle_refl.
Qed.

(** two polynomials that are not zero have a common point where neither vanishes *)
Lemma common_nonzero (f g : K -> K) : is_poly K f -> is_poly K g -> (exists t, f t <> 0) -> (exists t, g t <> 0) -> exists t, f t * g t <> 0.
Proof.
  intros [lf Hf] [lg Hg] [s Hs] [u Hu].
  destruct (horner_nz_near K lf) as (d & D0 & D1 & D); [exists s; rewrite <- Hf; exact Hs|].
  destruct (horner_nz_near K lg) as (c & C0 & C1 & C); [exists u; rewrite <- Hg; exact Hu|].
  exists (if d <=? c then d else c). rewrite Hf, Hg. apply fmul_neq0.
  - apply D; destruct (d <=? c) eqn:E; try assumption; [apply fle_refl|apply flt_le; exact E].
  - apply C; destruct (d <=? c) eqn:E; try assumption. apply fle_refl.
Qed.

Lemma exact_where_defined (e : ex K) (F G : (nat -> K) -> K) (P0 : nat -> K) :
  (forall x y, is_poly K (fun t => F (fun i => x i + t * y i))) ->
  (forall x y, is_poly K (fun t => G (fun i => x i + t * y i))) ->
  (forall x y, (forall i, x i = y i) -> F x = F y) -> (forall x y, (forall i, x i = y i) -> G x = G y) ->
  G P0 <> 0 ->
  (forall P, G P <> 0 -> defined P e -> ev P e = F P) ->
  forall P, defined P e -> ev P e = F P.
Proof.
  intros HF HG EF EG G0 H P Hd.
  set (line := seg K P P0).
  assert (L0 : forall i, line 0 i = P i) by (intro i; unfold line, seg; ring).
  assert (L1 : forall i, line 1 i = P0 i) by (intro i; unfold line, seg; ring).
  set (dn := fun t => fprod (map (fun d => ev (line t) d) (dens K e))).
  assert (Pdn : is_poly K dn).
  { apply poly_fprod. intros d Hd'. apply (divfree_poly K d P (fun i => P0 i - P i)). exact (divfree_dens K e d Hd'). }
  assert (Ndn : dn 0 <> 0).
  { apply fprod_map_nz. intros d Hd'. apply (proj1 (defined_dens K _ e)); [|exact Hd']. revert Hd. apply defined_ext. intro i. symmetry. apply L0. }
  assert (PG : is_poly K (fun t => G (line t))) by apply (HG P (fun i => P0 i - P i)).
  assert (NG : G (line 1) <> 0) by (rewrite (EG _ _ L1); exact G0).
  destruct (divfree_enum_den K e) as [Dn Dd].
  set (nu := fun t => ev (line t) (fst (enum_den K e))). set (de := fun t => ev (line t) (snd (enum_den K e))).
  assert (Pnu : is_poly K nu) by (apply (divfree_poly K _ P (fun i => P0 i - P i)); exact Dn).
  assert (Pde : is_poly K de) by (apply (divfree_poly K _ P (fun i => P0 i - P i)); exact Dd).
  assert (Z : (fun t => nu t - F (line t) * de t) 0 = 0).
  { apply (product_zero_at_0 (fun t => nu t - F (line t) * de t) (fun t => dn t * G (line t))).
    - apply poly_sub; [exact Pnu|]. apply poly_mul; [apply (HF P (fun i => P0 i - P i))|exact Pde].
    - apply poly_mul; assumption.
    - apply common_nonzero; [exact Pdn|exact PG|exists 0; exact Ndn|exists 1; exact NG].
    - intro t. destruct (feq_dec K (dn t) 0) as [Z|N1]; [rewrite Z; ring|]. destruct (feq_dec K (G (line t)) 0) as [Z|N2]; [rewrite Z; ring|].
      assert (Dt : defined (line t) e).
      { apply defined_dens. intros d Hd'. exact (fprod_nz K _ N1 _ (in_map _ _ _ Hd')). }
      destruct (enum_den_spec K (line t) e Dt) as [_ S]. unfold nu, de. rewrite <- S, (H _ N2 Dt). ring. }
  cbv beta in Z. assert (D0 : defined (line 0) e) by (revert Hd; apply defined_ext; intro i; symmetry; apply L0).
  destruct (enum_den_spec K (line 0) e D0) as [N S]. unfold nu, de in Z. rewrite <- S in Z.
  rewrite (EF _ _ (fun i => eq_sym (L0 i))), (ev_ext K _ _ e (fun i => eq_sym (L0 i))).
  apply (fsub_eq0 K). destruct (fmul_eq0 K (ev (line 0) e - F (line 0)) (ev (line 0) (snd (enum_den K e)))) as [C|C]; [|exact C|contradiction].
  refine (eq_trans _ Z). ring.
Qed.
End Exact.
