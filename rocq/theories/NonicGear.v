(** * Nonic forms: the gear, and the dispatch *)
From Coq Require Import Bool List Arith Lia ZArith Ring Field.
From Verif Require Import OrdField Base Congruence Perm Poly PolyId PolyOps Coeff Expr CertLimit TriPoly Monomials Univariate UnivariateLemmas StructUtils.
From Verif Require Sparse TernaryQuad TernaryTables TernaryCubic PivotProve.
From Verif Require Import SymDiv DenseSym DenseSymFacts DenseSymAxis DenseSymMain DenseSymTop Septic SepticFacts SepticForm SepticMain SepticTop Nonic NonicFacts NonicTree NonicMain NonicGram.
Import ListNotations.

Section Gear.
Variable K : OrdField.
Local Open Scope of_scope.
Add Field Kf : (F_field K).
Implicit Types (u v w t r A B C : K) (e : ex K) (p : poly K).
Ltac evs := cbn [csum cprod erename rot3 ev pt3]; unfold cyc3; cbn [fpow fbin].
Ltac nbz := repeat match goal with |- _ /\ _ => split end; first [assumption | fnz | idtac].
Ltac cert_poly := apply fcert_poly; [reflexivity|reflexivity|intros; evs; reflexivity].

(** ** Exchange of two variables *)
Lemma erename_manifest s e : manifest true (erename s e) = manifest true e.
Proof. induction e; cbn [erename manifest]; congruence. Qed.
Lemma erename_ev (x : nat -> K) s e : ev x (erename s e) = ev (fun i => x (s i)) e.
Proof. induction e; cbn [erename ev]; congruence. Qed.
Lemma erename_defined (x : nat -> K) s e : defined x (erename s e) <-> defined (fun i => x (s i)) e.
Proof. induction e; cbn [erename defined]; try tauto. rewrite erename_ev. tauto. Qed.
Lemma fcert_swap e (f : K -> K -> K -> K) : fcert K e f -> fcert K (erename swap_bc e) (fun A B C => f A C B).
Proof.
  intros (M & V & D). assert (X : forall A B C i, pt3 A B C (swap_bc i) = pt3 A C B i) by (intros A B C [|[|[|i]]]; reflexivity). split; [rewrite erename_manifest; exact M|]. split.
  - intros A B C H. apply (proj1 (erename_defined (pt3 A B C) swap_bc e)) in H. rewrite erename_ev, (ev_ext K _ _ e (X A B C)). apply V. exact (defined_ext K _ _ e (X A B C) H).
  - intros A B C HA HB HC N. apply (proj2 (erename_defined (pt3 A B C) swap_bc e)). apply (defined_ext K _ _ e (fun i => eq_sym (X A B C i))). apply D; try assumption. intros [-> ->]. apply N. split; reflexivity.
Qed.
Lemma reflect_keys p m : wf 3 p -> In m (keys (reflect_poly p)) -> exists i j k, m = [j; i; k] /\ In [i; j; k] (keys p).
Proof.
  intros [_ W] H. unfold keys, reflect_poly in H. rewrite map_map in H. apply in_map_iff in H. destruct H as ([m' c] & <- & H). apply (in_map fst) in H. cbn [fst] in *.
  destruct (mon3 m' (W _ H)) as (i & j & k & ->). exists i, j, k. split; [reflexivity|exact H].
Qed.
Lemma reflect_cons (i j k : nat) c p : reflect_poly (([i; j; k], c) :: p) = ([j; i; k], c) :: reflect_poly p.
Proof. reflexivity. Qed.
Lemma reflect_wf p : wf 3 p -> wf 3 (reflect_poly p).
Proof.
  induction p as [|[m c] p IH]; [intros _; split; [constructor|intros ? []]|]. intro W. pose proof (wf_tail K m c p W) as (L & N & Wp). destruct (mon3 m L) as (i & j & k & ->).
  rewrite reflect_cons. specialize (IH Wp). destruct IH as [I1 I2]. split.
  - cbn [keys map fst]. constructor; [|exact I1]. intro H. apply reflect_keys in H; [|exact Wp]. destruct H as (i' & j' & k' & Q & H). injection Q as -> -> ->. exact (N H).
  - intros m' [<-|H]; [reflexivity|exact (I2 m' H)].
Qed.
Lemma reflect_homdeg p d : wf 3 p -> homdeg d p -> homdeg d (reflect_poly p).
Proof. intros W H m Hm. apply reflect_keys in Hm; [|exact W]. destruct Hm as (i & j & k & -> & Hm). apply H in Hm. cbn in *. lia. Qed.
Lemma reflect_coef p i j k : wf 3 p -> cfp (reflect_poly p) i j k = cfp p j i k.
Proof.
  unfold cfp, coef. induction p as [|[m c] p IH]; [reflexivity|]. intro W. pose proof (wf_tail K m c p W) as (L & N & Wp). specialize (IH Wp).
  destruct (mon3 m L) as (x & y & z & ->). rewrite reflect_cons. cbn [dget]. replace (meqb [i; j; k] [y; x; z]) with (meqb [j; i; k] [x; y; z]); [destruct (meqb _ _); [reflexivity|exact IH]|].
  cbn [meqb]. destruct (Nat.eqb j x), (Nat.eqb i y); reflexivity.
Qed.
Lemma reflect_val p A B C : wf 3 p -> homdeg 9 p -> cyclic3 (cfp p) -> peval (pt3 A C B) (reflect_poly p) = peval (pt3 A B C) p.
Proof.
  intros W Hd Hc. assert (Hr : cyclic3 (cfp (reflect_poly p))) by (intros i j k; rewrite !(reflect_coef p _ _ _ W); symmetry; apply Hc).
  rewrite (form_of_peval K p A B C W Hd Hc), (form_of_peval K _ A C B (reflect_wf p W) (reflect_homdeg p 9 W Hd) Hr). unfold form_of. rewrite !(reflect_coef p _ _ _ W).
  rewrite (Hc 0 9 0)%nat, (Hc 1 7 1)%nat, (Hc 2 5 2)%nat. unfold form9, cyc3. cbn [fpow]. ring.
Qed.

Variable rsqrt : K -> option K.
(** ** One vertex *)
Definition gearform c2 c42 c33 c24 c41 c32 c23 c7 : K -> K -> K -> K := form9 K 0 0 0 0 0 0 0 0 1 0 c2 0 c42 c24 c33 c41 c32 c23 c7.
Definition kerval z (q : K * K * K) A B C : K :=
  match q with (u, v, x) => B * (z * (A ^ 2 - B ^ 2) + x * (A * B - A * C) + u * (B * C - A * B)) + A ^ 2 * C - B ^ 2 * C + v * (A ^ 2 * B - A * B * C) end.
Lemma gear_vertex c2 c42 c33 c24 c41 c32 c23 c7 z q (x1 y1 z1 : K) A B C : gear_params rsqrt c2 c42 c33 c24 c41 c32 c23 z = Some (q, (x1, y1, z1)) ->
  gearform c2 c42 c33 c24 c41 c32 c23 c7 A B C = cyc3 K (fun a b c => a * c ^ 2 * kerval z q a b c ^ 2) A B C + (c2 - z ^ 2) * cyc3 K (fun a b c => a * b ^ 2 * c ^ 2 * (a - b) ^ 4) A B C
    + hexform K y1 x1 z1 ((- x1 - y1 - z1 * fbin 2) * fbin 3 + (fbin 3 * (1 + c2 + c42 + c33 + c24 + c41 + c32 + c23) + c7)) A B C * (A * B * C).
Proof.
  unfold gear_params. destruct (z =? 0) eqn:Ez; [discriminate|]. apply feqb_neq in Ez. cbv zeta.
  set (w := c2 - z ^ 2). set (v := c24 / fbin 2 - z). set (u := 1 - c42 / fbin 2 / z).
  set (f0' := - (_)). set (f1' := fbin 6 * (_)). set (fin := fun x : K => Some ((u, v, x), (c41 + fbin 3 * w - (fbin 2 * u * z + v ^ 2 + fbin 2 * v * z - fbin 2 * x * z + z ^ 2), c33 - (u ^ 2 - fbin 2 * u - fbin 2 * v - fbin 2 * x + 1), c32 + fbin 4 * w - (- fbin 2 * u ^ 2 - fbin 2 * u * v + fbin 2 * u * x - fbin 2 * u * z + fbin 4 * u + v ^ 2 + fbin 4 * v * x + fbin 2 * v * z + x ^ 2 + fbin 4 * x * z - fbin 2 * x - fbin 2)))).
  assert (Fin : forall x, x * f1' = f0' -> fin x = Some (q, (x1, y1, z1)) -> gearform c2 c42 c33 c24 c41 c32 c23 c7 A B C = cyc3 K (fun a b c => a * c ^ 2 * kerval z q a b c ^ 2) A B C + w * cyc3 K (fun a b c => a * b ^ 2 * c ^ 2 * (a - b) ^ 4) A B C
    + hexform K y1 x1 z1 ((- x1 - y1 - z1 * fbin 2) * fbin 3 + (fbin 3 * (1 + c2 + c42 + c33 + c24 + c41 + c32 + c23) + c7)) A B C * (A * B * C)).
  { intros x E H. unfold fin in H.
    assert (N2 : (fbin 2 : K) <> 0) by apply fbin_nz.
    assert (X1 : c24 = fbin 2 * (v + z)) by (unfold v; clear - N2; revert N2; generalize (fbin 2 : K); intros t N; field; exact N).
    assert (X2 : c42 = fbin 2 * z * (1 - u)) by (unfold u; clear - N2 Ez; revert N2; generalize (fbin 2 : K); intros t N; field; split; assumption).
    assert (X3 : c23 = c23 - (x * f1' - f0')) by (rewrite E; ring). unfold f1', f0' in X3.
    assert (X4 : c23 = c32 + fbin 4 * w + fbin 6 * w - (x * (fbin 6 * (u + v + z - 1)) + (- fbin 3 * u ^ 2 - fbin 2 * u * z + fbin 6 * u + fbin 3 * v ^ 2 + fbin 6 * v * z - fbin 2 * v + fbin 2 * z ^ 2 - fbin 2))).
    { rewrite X3 at 1. cbn [fpow fbin]. ring. } clear X3.
    clearbody u v. apply (f_equal (fun o => match o with Some y => y | None => (q, (x1, y1, z1)) end)) in H. cbn [fst snd] in H.
    apply pair_equal_spec in H. destruct H as [Hq H]. apply pair_equal_spec in H. destruct H as [H H3]. apply pair_equal_spec in H. destruct H as [H1 H2]. subst q x1 y1 z1.
    clear E. clear fin f0' f1'. rewrite X4, X1, X2. unfold w, gearform, form9, kerval, hexform, cyc3. clear. cbn [fpow fbin]. ring. }
  destruct (f1' =? 0) eqn:E1.
  - destruct (f0' =? 0) eqn:E0; [|discriminate]. apply feqb_eq in E1, E0. apply Fin. rewrite E1, E0. ring.
  - apply feqb_neq in E1. apply Fin. field. exact E1.
Qed.
Lemma first_weight_spec (n1 n2 : K * K * K) ws w : first_weight n1 n2 ws = Ok (Some w) -> 0 <= w /\ w <= 1.
Proof.
  induction ws as [|w0 ws IH]; [discriminate|]. cbn [first_weight]. destruct (check_weight n1 n2 w0) as [[|]|] eqn:E; [|exact IH|discriminate].
  destruct w0 as [w0| |]; try discriminate. intro H. apply some_inj in H. subst w0. unfold check_weight in E. destruct (negb _) eqn:E2; [discriminate|].
  apply negb_false_iff, andb_prop in E2. destruct E2 as [E2 E3]. split; apply fleb_le; assumption.
Qed.
Lemma search_weight_spec (v1 v2 : option (vertex (K := K))) w : search_weight v1 v2 = Ok (Some w) -> 0 <= w /\ 0 <= 1 - w.
Proof.
  unfold search_weight. destruct v1 as [[? [[? ?] ?]]|], v2 as [[? [[? ?] ?]]|]; try discriminate. cbv zeta. intro H. apply first_weight_spec in H. destruct H. split; [assumption|]. apply (proj1 (fle_sub _ _)). assumption.
Qed.

Variable den : K -> K.
Hypothesis den_pos : forall t, 0 < den t.
Variable cont : ex K -> K.
Hypothesis cont_ok : forall e, cont e <> 0 /\ (manifest true e = true -> 0 < cont e).
Variable roots : (K -> K) -> list (cand K).

Lemma fcert_ker k z (q : K * K * K) : k <> 0 -> fcert K (csum (EX 0 * EX 2 ^ 2 * (EC (1 / k) * gear_ker z q) ^ 2)%E) (cyc3 K (fun a b c => a * c ^ 2 * (1 / k * kerval z q a b c) ^ 2)).
Proof. intro N. destruct q as [[u v] x]. apply fcert_poly; [reflexivity|reflexivity|]. intros A B C. unfold kerval, gear_ker. evs. field. exact N. Qed.
Definition gear_shape p : Prop := edge_zero K p /\ (cfp p 7 1 1 = f0)%nat.
Lemma gear_direct_ok p e : wf 3 p -> homdeg 9 p -> cyclic3 (cfp p) -> gear_shape p -> gear_ready p = true ->
  gear_direct den cont rsqrt roots p = Ok (Some e) -> fcert K e (fun A B C => peval (pt3 A B C) p).
Proof.
  intros W Hd Hc (Ez & Z0) Rd. unfold gear_direct. cbv zeta. destruct (_ || _)%bool eqn:E; [discriminate|]. apply orb_false_iff in E. destruct E as [N1 _]. apply feqb_neq in N1.
  unfold gear_ready in Rd. apply andb_prop in Rd. destruct Rd as [R1 R2]. apply feqb_eq in R1, R2. assert (R3 : (cfp p 2 6 1)%nat = 0) by (rewrite <- R2; symmetry; rewrite Hc, Hc; reflexivity || (rewrite Hc; reflexivity)).
  set (c1 := (cfp p 4 5 0)%nat) in *. set (c2 := (cfp p 6 2 1)%nat / c1). set (c42 := (cfp p 5 3 1)%nat / c1). set (c33 := (cfp p 4 4 1)%nat / c1). set (c24 := (cfp p 3 5 1)%nat / c1).
  set (c41 := (cfp p 5 2 2)%nat / c1). set (c32 := (cfp p 4 3 2)%nat / c1). set (c23 := (cfp p 3 4 2)%nat / c1). set (c7 := (cfp p 3 3 3)%nat / c1).
  destruct ((c1 <? 0) || _)%bool eqn:E; [discriminate|]. apply orb_false_iff in E. destruct E as [P1 P2]. apply fltb_ge in P1, P2.
  assert (Fm : forall A B C, peval (pt3 A B C) p = c1 * gearform c2 c42 c33 c24 c41 c32 c23 c7 A B C).
  { intros A B C. rewrite (form_of_peval K p A B C W Hd Hc). unfold form_of. destruct Ez as (-> & -> & -> & -> & -> & -> & ->). rewrite Z0, R1, R3.
    assert (X1 : (cfp p 6 2 1)%nat = c1 * c2) by (unfold c2; field; exact N1). assert (X2 : (cfp p 5 3 1)%nat = c1 * c42) by (unfold c42; field; exact N1).
    assert (X3 : (cfp p 4 4 1)%nat = c1 * c33) by (unfold c33; field; exact N1). assert (X4 : (cfp p 3 5 1)%nat = c1 * c24) by (unfold c24; field; exact N1).
    assert (X5 : (cfp p 5 2 2)%nat = c1 * c41) by (unfold c41; field; exact N1). assert (X6 : (cfp p 4 3 2)%nat = c1 * c32) by (unfold c32; field; exact N1).
    assert (X7 : (cfp p 3 4 2)%nat = c1 * c23) by (unfold c23; field; exact N1). assert (X8 : (cfp p 3 3 3)%nat = c1 * c7) by (unfold c7; field; exact N1).
    rewrite X1, X2, X3, X4, X5, X6, X7, X8. fold c1. clear. clearbody c1 c2 c42 c33 c24 c41 c32 c23 c7. unfold gearform, form9. ring. }
  destruct (rat_func _ _ _ _) as [[z|]|] eqn:Er; try discriminate. apply rat_func_spec in Er. destruct Er as (Hv & _).
  assert (Pz : z ^ 2 <= c2). { destruct ((0 <=? z) && _)%bool eqn:Q in Hv; [|discriminate]. apply andb_prop in Q. apply fleb_le, (proj2 Q). } clear Hv.
  destruct (search_weight _ _) as [[w|]|] eqn:Ew; try discriminate. apply search_weight_spec in Ew. destruct Ew as [W1 W2].
  destruct (gear_params _ _ _ _ _ _ _ _ z) as [[q1 [[x1 y1] z1]]|] eqn:G1; try discriminate. destruct (gear_params _ _ _ _ _ _ _ _ (- z)) as [[q2 [[x2 y2] z2]]|] eqn:G2; try discriminate.
  destruct (hexagram_symmetric _ _ _ _ _) as [[h|]|] eqn:Eh; try discriminate. apply (hexagram_ok K den den_pos) in Eh. intro H. apply some_inj in H. subst e.
  pose proof (proj1 (cont_ok (gear_ker z q1))) as Nk1. pose proof (proj1 (cont_ok (gear_ker (- z) q2))) as Nk2. set (k1 := cont (gear_ker z q1)) in *. set (k2 := cont (gear_ker (- z) q2)) in *. clearbody k1 k2.
  assert (Sq : forall x : K, 0 <= x ^ 2) by (intro x; replace (x ^ 2) with (x * x) by (cbn [fpow]; ring); apply fsqr_nonneg).
  eapply fcert_ext; [|apply fcert_cons; [| |apply fcert_cons; [| |apply fcert_cons; [| |apply fcert_cons; [exact P1| |apply fcert_nil]]]]].
  2: { apply fmul_nonneg; [apply fmul_nonneg; [apply Sq|exact W1]|exact P1]. }
  2: { apply fcert_ker, Nk1. }
  2: { apply fmul_nonneg; [apply fmul_nonneg; [apply Sq|exact W2]|exact P1]. }
  2: { apply fcert_ker, Nk2. }
  2: { apply fmul_nonneg; [apply (proj1 (fle_sub _ _)), Pz|exact P1]. }
  2: { apply fcert_poly with (f := cyc3 K (fun a b c => a * b ^ 2 * c ^ 2 * (a - b) ^ 4)); [reflexivity|reflexivity|]. intros. evs. ring. }
  2: { apply fcert_mul; [exact Eh|apply fcert_abc]. }
  intros A B C. cbv beta. rewrite Fm. pose proof (gear_vertex _ _ _ _ _ _ _ c7 _ _ _ _ _ A B C G1) as V1. pose proof (gear_vertex _ _ _ _ _ _ _ c7 _ _ _ _ _ A B C G2) as V2.
  assert (M : gearform c2 c42 c33 c24 c41 c32 c23 c7 A B C = w * gearform c2 c42 c33 c24 c41 c32 c23 c7 A B C + (1 - w) * gearform c2 c42 c33 c24 c41 c32 c23 c7 A B C) by ring.
  rewrite M. rewrite V1 at 1. rewrite V2 at 1. clear M.
  assert (X : poly111 p / c1 = fbin 3 * (1 + c2 + c42 + c33 + c24 + c41 + c32 + c23) + c7).
  { rewrite <- (peval_ones K p W), Fm. unfold gearform, form9, cyc3. clear - N1. clearbody c1 c2 c42 c33 c24 c41 c32 c23 c7. cbn [fpow fbin]. field. exact N1. }
  rewrite X. set (X0 := fbin 3 * (1 + c2 + c42 + c33 + c24 + c41 + c32 + c23) + c7). clear X V1 V2.
  assert (Q : forall k z (q : K * K * K), k <> 0 -> k ^ 2 * cyc3 K (fun a b c => a * c ^ 2 * (1 / k * kerval z q a b c) ^ 2) A B C = cyc3 K (fun a b c => a * c ^ 2 * kerval z q a b c ^ 2) A B C).
  { intros k z0 q N. unfold cyc3. cbn [fpow]. set (a1 := kerval z0 q A B C). set (a2 := kerval z0 q B C A). set (a3 := kerval z0 q C A B). clearbody a1 a2 a3. field. exact N. }
  rewrite <- (Q k1 z q1 Nk1), <- (Q k2 (- z) q2 Nk2). set (k1s := cyc3 K (fun a b c => a * c ^ 2 * (1 / k1 * kerval z q1 a b c) ^ 2) A B C). set (k2s := cyc3 K (fun a b c => a * c ^ 2 * (1 / k2 * kerval (- z) q2 a b c) ^ 2) A B C).
  set (es := cyc3 K (fun a b c => a * b ^ 2 * c ^ 2 * (a - b) ^ 4) A B C). clearbody k1s k2s es X0 c1 c2. clear. unfold mix, hexform, cyc3. cbn [fpow fbin]. ring.
Qed.
Lemma nonic_gear_ok p e : wf 3 p -> homdeg 9 p -> cyclic3 (cfp p) -> gear_shape p ->
  nonic_gear den cont rsqrt roots p = Ok (Some e) -> fcert K e (fun A B C => peval (pt3 A B C) p).
Proof.
  intros W Hd Hc Sh. unfold nonic_gear. destruct (gear_ready p) eqn:E1; [apply gear_direct_ok; assumption|]. destruct (gear_ready (reflect_poly p)) eqn:E2; [|discriminate].
  destruct (gear_direct _ _ _ _ _) as [[e'|]|] eqn:E; try discriminate. intro H. apply some_inj in H. subst e.
  assert (Hr : cyclic3 (cfp (reflect_poly p))) by (intros i j k; rewrite !(reflect_coef p _ _ _ W); symmetry; apply Hc).
  apply gear_direct_ok in E; [|apply reflect_wf, W|apply reflect_homdeg; assumption|exact Hr| |exact E2].
  - eapply fcert_ext; [|apply fcert_swap; exact E]. intros A B C. cbv beta. apply reflect_val; assumption.
  - destruct Sh as ((Z1 & Z2 & Z3 & Z4 & Z5 & Z6 & Z7) & Z0). split; [|rewrite (reflect_coef p _ _ _ W), Hc; exact Z0]. repeat split; rewrite (reflect_coef p _ _ _ W); try assumption. rewrite Hc. exact Z1.
Qed.
End Gear.
