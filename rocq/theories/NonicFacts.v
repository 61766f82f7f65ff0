(** * Nonic forms: certificates and the two sextics *)
From Coq Require Import Bool List Arith Lia ZArith Ring Field.
From Verif Require Import OrdField Base Congruence Perm Poly PolyId PolyOps Coeff Expr CertLimit TriPoly Monomials Univariate UnivariateLemmas StructUtils.
From Verif Require Sparse TernaryQuad TernaryTables TernaryCubic PivotProve.
From Verif Require Import SymDiv DenseSym DenseSymFacts DenseSymAxis DenseSymMain DenseSymTop Septic SepticFacts SepticForm SepticMain SepticTop Nonic.
Import ListNotations.

Section Facts.
Variable K : OrdField.
Local Open Scope of_scope.
Add Field Kf : (F_field K).
Implicit Types (x y u v w t r A B C : K) (e : ex K).

Ltac evs := cbn [csum cprod erename rot3 ev pt3]; unfold cyc3; cbn [fpow fbin].
Ltac nbz := repeat match goal with |- _ /\ _ => split end; first [assumption | fnz | idtac].

Lemma some_inj {X} (x y : X) : Ok (Some x) = Ok (Some y) -> x = y.
Proof. congruence. Qed.
(** ** Certificates *)
Lemma fcert_poly e (f : K -> K -> K -> K) : manifest true e = true -> divfree K e = true -> (forall A B C, ev (pt3 A B C) e = f A B C) -> fcert K e f.
Proof. intros M D V. split; [exact M|]. split; [intros; apply V|]. intros A B C _ _ _ _. revert D. clear. induction e; cbn; intro D; try exact I; try discriminate; try (apply andb_prop in D; destruct D; split; auto); auto. Qed.
Lemma fcert_div e m (f g : K -> K -> K -> K) : fcert K e (fun A B C => f A B C * g A B C) -> fcert K m g ->
  (forall A B C, 0 < A -> 0 < B -> 0 < C -> ~ (A = B /\ B = C) -> g A B C <> 0) -> fcert K (e / m)%E f.
Proof.
  intros (M1 & V1 & D1) (M2 & V2 & D2) G. split; [cbn; rewrite M1, M2; reflexivity|]. split.
  - intros A B C (H1 & H2 & H3). cbn [ev]. rewrite V1 by exact H1. rewrite V2 in H3 by exact H2. rewrite V2 by exact H2. field. exact H3.
  - intros A B C HA HB HC HN. split; [apply D1; assumption|]. split; [apply D2; assumption|]. rewrite V2 by (apply D2; assumption). apply G; assumption.
Qed.
Lemma fcert_nil (es : list (ex K)) : fcert K (sum_y [] es) (fun _ _ _ => 0).
Proof. apply (fcert_ext K (EC 0) (fun _ _ _ => 0)); [reflexivity|]. apply fcert_const, fle_refl. Qed.
Lemma fcert_cons (k : K) ks e es (f g : K -> K -> K -> K) : 0 <= k -> fcert K e f -> fcert K (sum_y ks es) g ->
  fcert K (sum_y (k :: ks) (e :: es)) (fun A B C => k * f A B C + g A B C).
Proof.
  intros Hk Hf Hg. unfold sum_y. cbn [TernaryQuad.sum_y]. destruct (k =? 0) eqn:E.
  - apply feqb_eq in E. subst k. apply (fcert_ext K _ (fun A B C => 0 + g A B C)); [intros; ring|]. apply fcert_add; [apply fcert_const, fle_refl|exact Hg].
  - apply fcert_add; [|exact Hg]. apply fcert_mul; [apply fcert_const, Hk|exact Hf].
Qed.

(** ** Specification: the two sextic forms *)
Definition hexform (c33 c41 c32 c222 : K) A B C : K :=
  cyc3 K (fun a b c => c33 * (a ^ 3 * b ^ 3) + c41 * (a ^ 4 * b * c) + c32 * (a ^ 2 * b ^ 2 * c * (a + b))) A B C + c222 * (A * B * C) ^ 2.
Definition treeform (c6 c33 c41 c222 : K) A B C : K :=
  cyc3 K (fun a b c => c6 * a ^ 6 + c33 * (a ^ 3 * b ^ 3) + c41 * (a ^ 4 * b * c)) A B C + c222 * (A * B * C) ^ 2.

Lemma fcert_abc : fcert K (cprod (EX 0)) (fun A B C => A * B * C).
Proof. apply fcert_poly; [reflexivity|reflexivity|]. intros. evs. ring. Qed.
Lemma fcert_sum : fcert K (csum (EX 0)) (fun A B C => A + B + C).
Proof. apply fcert_poly; [reflexivity|reflexivity|]. intros. evs. ring. Qed.
Lemma fcert_abc2 : fcert K (cprod (EX 0 ^ 2)%E) (fun A B C => (A * B * C) ^ 2).
Proof. apply fcert_poly; [reflexivity|reflexivity|]. intros. evs. ring. Qed.
Lemma fcert_schurinv6 : fcert K schurinv6 (fun A B C => (B * C) ^ 2 * (A - B) * (A - C) + (C * A) ^ 2 * (B - C) * (B - A) + (A * B) ^ 2 * (C - A) * (C - B)).
Proof.
  assert (E : TernaryTables.schurinv 6 = Some (schurinv6 (K := K))) by reflexivity.
  split; [exact (TernaryTables.schurinv_manifest K 6 _ E)|]. split.
  - intros A B C D. rewrite (TernaryTables.schurinv_sound K 6 _ A B C ltac:(discriminate) E D). reflexivity.
  - intros A B C HA HB HC _. pose proof (sum_nz K A B C HA HB HC) as S0.
    unfold schurinv6, TernaryTables.schurinv. cbn [defined csum cprod erename rot3 ev pt3]. repeat split; try exact I.
    apply fmul_neq0; [exact (fnat_neq0 K 2 ltac:(lia))|exact S0].
Qed.
Ltac cert_poly := apply fcert_poly; [reflexivity|reflexivity|intros; evs; reflexivity].

Variable den : K -> K.
Hypothesis den_pos : forall t, 0 < den t.
Lemma den_nz t : den t <> 0.
Proof. exact (flt_neq0 (den_pos t)). Qed.

Lemma hexagram_trivial_ok c33 c41 c32 c222 : 0 <= c33 -> 0 <= c41 -> forallb (fun v => 0 <=? v) (hexagram_trivial c33 c41 c32 c222) = true ->
  fcert K (sum_y (hexagram_trivial c33 c41 c32 c222)
    [csum (EX 0 * EX 1 * (EX 0 - EX 2) ^ 2 * (EX 1 - EX 2) ^ 2); schurinv6; schur3 * cprod (EX 0); csum (EX 0 * (EX 1 - EX 2) ^ 2) * cprod (EX 0); cprod (EX 0 ^ 2)]%E)
    (hexform c33 c41 c32 c222).
Proof.
  intros H1 H2 Hy. unfold hexagram_trivial in *. set (x := if c41 <? c33 then c41 else c33) in *. cbv zeta in *. cbn [forallb] in Hy. rewrite !andb_true_iff in Hy.
  destruct Hy as (P1 & P2 & P3 & P4 & P5 & _). apply fleb_le in P1, P2, P3, P4, P5.
  eapply fcert_ext; [|repeat (apply fcert_cons; [assumption| |]); [cert_poly|apply fcert_schurinv6|apply fcert_mul; [apply fcert_schur|apply fcert_abc]|apply fcert_mul; [cert_poly|apply fcert_abc]|apply fcert_abc2|apply fcert_nil]].
  intros A B C. cbv beta. unfold hexform, schurform, cyc3. evs. ring.
Qed.

Lemma fcert_square k1 k2 k3 k4 k5 k6 k7 k8 : fcert K (hexagram_square k1 k2 k3 k4 k5 k6 k7 k8)
  (cyc3 K (fun a b c => c * (k1 * a ^ 3 * b + k2 * a ^ 2 * b ^ 2 + k3 * a ^ 2 * b * c + k4 * a ^ 2 * c ^ 2 + k5 * a * b ^ 3 + k6 * a * b ^ 2 * c + k7 * a * b * c ^ 2 + k8 * b ^ 2 * c ^ 2) ^ 2)).
Proof. apply fcert_poly; [reflexivity|reflexivity|]. intros. unfold hexagram_square. evs. ring. Qed.

Lemma hexagram_last_ok c33 c41 c32 c222 e : 0 <= c33 -> hexagram_last c33 c41 c32 c222 = Ok (Some e) -> fcert K e (hexform c33 c41 c32 c222).
Proof.
  intros H0. unfold hexagram_last. destruct (c33 =? 0) eqn:E0; [discriminate|]. apply feqb_neq in E0.
  set (x := c41 / c33). set (y := - c32 / c33). set (z := c222 / c33).
  assert (X1 : c41 = x * c33) by (unfold x; field; exact E0). assert (X2 : c32 = - y * c33) by (unfold y; field; exact E0).
  assert (X3 : c222 = z * c33) by (unfold z; field; exact E0). clearbody x y z. subst c41 c32 c222.
  set (z0 := x ^ 2 + x * y + y ^ 2 / fbin 3 - y + (y + fbin 3) ^ 3 / (fbin 27 * x)). cbv zeta.
  destruct (0 <? x) eqn:Ex; cbn [andb]; [|discriminate]. apply fltb_lt in Ex. pose proof (flt_neq0 Ex) as Nx.
  destruct (0 <=? fbin 3 * x + y + fbin 3); cbn [andb]; [|discriminate]. destruct (z0 <=? z) eqn:Ez; [|discriminate]. apply fleb_le in Ez.
  set (ker := fbin 324 * x * _) in *. destruct (0 <? ker) eqn:Ek; [|discriminate]. apply fltb_lt in Ek. pose proof (flt_neq0 Ek) as Nk.
  destruct (0 <? _ / ker) eqn:Ew; [|discriminate]. apply fltb_lt in Ew. intro H. apply some_inj in H. subst e.
  assert (Wz : 0 <= (z - z0) * c33) by (apply fmul_nonneg; [apply (proj1 (fle_sub _ _)); exact Ez|exact H0]).
  assert (W1 : 0 <= 1 / ker * c33) by (apply fmul_nonneg; [|exact H0]; rewrite fdiv_def; apply fmul_nonneg; [apply f1_nonneg|]; apply flt_le, finv_pos, Ek).
  pose proof (fmul_nonneg K _ _ (flt_le Ew) H0) as W0.
  eapply (fcert_div _ (csum (EX 0) * csum (EX 0 * EX 1))%E _ (fun A B C => (A + B + C) * (A * B + B * C + C * A))).
  2: { apply fcert_poly; [reflexivity|reflexivity|]. intros. evs. ring. }
  2: { intros A B C HA HB HC _. apply flt_neq0. fpos. }
  eapply fcert_ext; [|apply fcert_cons; [exact W0|apply fcert_square|]; apply fcert_cons; [exact W1|apply fcert_square|]; apply fcert_cons; [exact Wz| |apply fcert_nil]; apply fcert_mul; [cert_poly|apply fcert_abc2]].
  intros A B C. cbv beta. unfold hexform, cyc3, z0, ker. unfold ker in Nk. cbn [fpow fbin] in *. evs. field. nbz.
  intro Z. apply Nk. match type of Z with ?l = 0 => transitivity (fbin 324 * x * l); [cbn [fbin]; ring|rewrite Z; ring] end.
Qed.

Lemma den2 t : den t ^ 2 <> 0.
Proof. cbn [fpow]. apply fmul_neq0; [apply den_nz|]. apply fmul_neq0; [apply den_nz|apply fneq10]. Qed.
Lemma hexagram_parabola_ok c33 c41 c32 c222 e : 0 <= c33 -> 0 <= c41 -> hexagram_parabola den c33 c41 c32 c222 = Ok (Some e) -> fcert K e (hexform c33 c41 c32 c222).
Proof.
  intros H0 H1. unfold hexagram_parabola. destruct (c41 =? 0) eqn:E0; [apply hexagram_last_ok, H0|]. apply feqb_neq in E0.
  destruct (_ <=? c33 / c41) eqn:Ep; [|apply hexagram_last_ok, H0]. apply fleb_le in Ep.
  destruct (c33 / c41 + c32 / c41 + 1 =? 0) eqn:Es; [destruct (c33 / c41 =? 0); [discriminate|apply hexagram_last_ok, H0]|]. apply feqb_neq in Es.
  cbv zeta. destruct (existsb _ _) eqn:Ew; [apply hexagram_last_ok, H0|].
  set (x := c33 / c41) in *. set (y := c32 / c41) in *. set (u := (y + 1) / (x + y + 1)) in *. set (r := den u) in *.
  set (z := c222 / c41).
  assert (X1 : c33 = x * c41) by (unfold x; field; exact E0). assert (X2 : c32 = y * c41) by (unfold y; field; exact E0).
  assert (X3 : c222 = z * c41) by (unfold z; field; exact E0). clearbody x y z. subst c33 c32 c222.
  pose proof (den_nz u) as Nr. fold r in Nr.
  assert (Nx : x <> 0).
  { intro X. subst x. assert (Q : (1 + 0 + y) ^ 2 = 0) by (apply fle_antisym; [exact Ep|apply fpow_even_nonneg; reflexivity]).
    apply Es. cbn [fpow] in Q. destruct (fmul_eq0 K _ _ Q) as [Z|Z]; [transitivity (1 + 0 + y); [ring|exact Z]|]. destruct (fmul_eq0 K _ _ Z) as [Z'|Z']; [transitivity (1 + 0 + y); [ring|exact Z']|destruct (fneq10 K Z')]. }
  assert (Eu : u - 1 = - x / (x + y + 1)) by (unfold u; field; exact Es).
  cbn [existsb] in Ew. rewrite !orb_false_iff in Ew. destruct Ew as (W1 & W2 & W3 & W4 & W5 & _). apply fltb_ge in W1, W2, W3, W4, W5.
  intro H. apply some_inj in H. subst e. cbn [map].
  eapply (fcert_div _ (csum (EX 0)) _ (fun A B C => A + B + C)); [|apply fcert_sum|intros A B C HA HB HC _; exact (sum_nz K A B C HA HB HC)].
  eapply fcert_ext; [|
    apply fcert_cons; [exact (fmul_nonneg K _ _ W1 H1)|apply fcert_mul; [cert_poly|apply fcert_abc]|];
    apply fcert_cons; [exact (fmul_nonneg K _ _ W2 H1)|apply fcert_mul; [cert_poly|apply fcert_abc]|];
    apply fcert_cons; [exact (fmul_nonneg K _ _ W3 H1)|apply fcert_mul; [cert_poly|apply fcert_abc]|];
    apply fcert_cons; [exact (fmul_nonneg K _ _ W4 H1)|cert_poly|];
    apply fcert_cons; [exact (fmul_nonneg K _ _ W5 H1)|apply fcert_mul; [apply fcert_sum|apply fcert_abc2]|apply fcert_nil]].
  intros A B C. cbv beta. rewrite Eu. unfold hexform, cyc3, u. clearbody r. clear W1 W2 W3 W4 W5 Eu. cbn [fpow fbin] in *. field. nbz. intro Z. apply Nx. transitivity (- - x); [ring|rewrite Z; ring].
Qed.

Lemma hexagram_ok c33 c41 c32 c222 e : hexagram_symmetric den c33 c41 c32 c222 = Ok (Some e) -> fcert K e (hexform c33 c41 c32 c222).
Proof.
  unfold hexagram_symmetric. destruct (c33 <? 0) eqn:E1; cbn [orb]; [discriminate|]. destruct (c41 <? 0) eqn:E2; cbn [orb]; [discriminate|].
  apply fltb_ge in E1, E2. cbv zeta. destruct (forallb _ _) eqn:Ey; [|apply hexagram_parabola_ok; assumption].
  intro H. apply some_inj in H. subst e. apply hexagram_trivial_ok; assumption.
Qed.
End Facts.
