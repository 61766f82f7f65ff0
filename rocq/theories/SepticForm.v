(** * Symmetric septics: their symmetric axis determines them up to a multiple of s(a) p(a-b)^2 *)
From Coq Require Import Bool List Arith Lia ZArith Ring Field.
From Verif Require Import OrdField Base Congruence Perm Poly PolyId PolyOps Expr TriPoly Univariate.
From Verif Require Import DenseSym Septic SepticFacts.
Import ListNotations.

Section Form.
Variable K : OrdField.
Local Open Scope of_scope.
Add Field Kf : (F_field K).
Implicit Types (x y r A B C : K).

Definition sep (c700 c610 c520 c511 c430 c421 c331 c322 A B C : K) : K :=
  c700 * cyc3 K (fun a b c => a ^ 7) A B C + c610 * cyc3 K (fun a b c => a ^ 6 * (b + c)) A B C
  + c520 * cyc3 K (fun a b c => a ^ 5 * (b ^ 2 + c ^ 2)) A B C + c511 * cyc3 K (fun a b c => a ^ 5 * b * c) A B C
  + c430 * cyc3 K (fun a b c => a ^ 4 * (b ^ 3 + c ^ 3)) A B C + c421 * cyc3 K (fun a b c => a ^ 4 * (b ^ 2 * c + b * c ^ 2)) A B C
  + c331 * cyc3 K (fun a b c => a ^ 3 * b ^ 3 * c) A B C + c322 * cyc3 K (fun a b c => a ^ 3 * b ^ 2 * c ^ 2) A B C.
(** [f] is a symmetric septic with coefficient [k] at a^5 b^2 *)
Definition sep7 (f : K -> K -> K -> K) (k : K) : Prop :=
  exists c700 c610 c511 c430 c421 c331 c322, forall A B C, f A B C = sep c700 c610 k c511 c430 c421 c331 c322 A B C.
Lemma sep7_lin f g k l (u v : K) : sep7 f k -> sep7 g l -> sep7 (fun A B C => u * f A B C + v * g A B C) (u * k + v * l).
Proof.
  intros (a1 & a2 & a3 & a4 & a5 & a6 & a7 & Ha) (b1 & b2 & b3 & b4 & b5 & b6 & b7 & Hb).
  exists (u * a1 + v * b1), (u * a2 + v * b2), (u * a3 + v * b3), (u * a4 + v * b4), (u * a5 + v * b5), (u * a6 + v * b6), (u * a7 + v * b7).
  intros A B C. rewrite Ha, Hb. unfold sep. ring.
Qed.
Lemma sep7_ext f g k l : (forall A B C, f A B C = g A B C) -> k = l -> sep7 f k -> sep7 g l.
Proof. intros H <- (a1 & a2 & a3 & a4 & a5 & a6 & a7 & Ha). exists a1, a2, a3, a4, a5, a6, a7. intros. rewrite <- H. apply Ha. Qed.

Lemma zero_axis f k : sep7 f k -> (forall z, f z 1 1 = 0) -> forall A B C, f A B C = k * D7 K A B C.
Proof.
  intros (c7 & c61 & c511 & c43 & c421 & c331 & c322 & V) Z.
  pose (l := [2 * c7 + 2 * c61 + 2 * k + 2 * c43; 2 * c61 + 2 * c511 + 2 * c421 + c331; 2 * k + 2 * c421 + 2 * c322;
              2 * c43 + 2 * c331 + c322; 2 * c43 + 2 * c421; 2 * k + c511; 2 * c61; c7]).
  assert (L : forall z, ueval l z = 0).
  { intro z. rewrite <- (Z z), V. unfold sep, cyc3, l. cbn [ueval fold_right fpow]. rewrite ?ueval_cons. cbn. ring. }
  pose proof (ueval_zero K l L) as H. subst l. cbn [In] in H.
  assert (E7 : c7 = 0) by (apply H; tauto). assert (E6 : 2 * c61 = 0) by (apply H; tauto). assert (E5 : 2 * k + c511 = 0) by (apply H; tauto).
  assert (E4 : 2 * c43 + 2 * c421 = 0) by (apply H; tauto). assert (E3 : 2 * c43 + 2 * c331 + c322 = 0) by (apply H; tauto).
  assert (E2 : 2 * k + 2 * c421 + 2 * c322 = 0) by (apply H; tauto). assert (E1 : 2 * c61 + 2 * c511 + 2 * c421 + c331 = 0) by (apply H; tauto).
  assert (E0 : 2 * c7 + 2 * c61 + 2 * k + 2 * c43 = 0) by (apply H; tauto). clear H L Z.
  assert (N2 : (2 : K) <> 0) by apply f2_neq0.
  assert (X61 : c61 = 0) by (destruct (fmul_eq0 K _ _ E6); [contradiction|assumption]). subst c7 c61.
  assert (X511 : c511 = - (2) * k) by (transitivity (2 * k + c511 - 2 * k); [ring|rewrite E5; ring]).
  assert (X43 : c43 = - k) by (transitivity ((2 * 0 + 2 * 0 + 2 * k + 2 * c43) / 2 - k); [field; exact N2|rewrite E0; field; exact N2]). subst c511 c43.
  assert (X421 : c421 = k) by (transitivity ((2 * - k + 2 * c421) / 2 + k); [field; exact N2|rewrite E4; field; exact N2]). subst c421.
  assert (X322 : c322 = - (2) * k) by (transitivity ((2 * k + 2 * k + 2 * c322) / 2 - 2 * k); [field; exact N2|rewrite E2; field; exact N2]). subst c322.
  assert (X331 : c331 = 2 * k) by (transitivity ((2 * - k + 2 * c331 + - (2) * k) / 2 + 2 * k); [field; exact N2|rewrite E3; field; exact N2]). subst c331.
  intros A B C. rewrite V. unfold sep, D7, cyc3. cbn [fpow]. ring.
Qed.

Lemma sep7_F x y : sep7 (Fform K x y) ((x - y) ^ 2).
Proof.
  exists (x * x - fbin 2 * x + 1), (0 - x * x + fbin 2 * x * y - fbin 2 * y + 1), (fbin 3 * x * x - fbin 2 * x * y - fbin 2 * x + fbin 2 * y * y - fbin 2 * y + 1), (0 - x * x + fbin 2 * x - y * y + fbin 2 * y - fbin 2), (0 - fbin 3 * x * x + fbin 4 * x * y - y * y), (fbin 6 * x * x - fbin 4 * x * y - fbin 4 * x - y * y + fbin 4 * y), (0 - fbin 2 * x * x - fbin 2 * x * y + fbin 4 * x + y * y - fbin 2 * y).
  intros. unfold sep, Fform, Gform, xyform, schurform, cyc3. cbn [fpow fbin]. ring.
Qed.
Lemma sep7_G x y : sep7 (Gform K x y) (x ^ 2 + 2 * x * y - 2 * x - 2 * y + 1).
Proof.
  exists (0), (x * x - fbin 2 * x + 1), (0 - fbin 6 * x * x + fbin 4 * x * y + fbin 4 * x - fbin 4 * y + fbin 2), (fbin 2 * x * x + fbin 2 * x * y - fbin 4 * x + y * y - fbin 2 * y + fbin 2), (fbin 3 * x * x - fbin 8 * x * y + fbin 2 * x + fbin 3 * y * y - 1), (0 - fbin 12 * x * x + fbin 8 * x * y + fbin 8 * x - fbin 2 * y * y - fbin 4), (fbin 4 * x * x - fbin 4 * x * y - fbin 6 * y * y + fbin 12 * y - fbin 4).
  intros. unfold sep, Fform, Gform, xyform, schurform, cyc3. cbn [fpow fbin]. ring.
Qed.
Lemma sep7_T1  : sep7 (cyc3 K (fun a b c => a * (2 * a - b - c) ^ 2 * (a - b) ^ 2 * (a - c) ^ 2)) (fbin 13).
Proof.
  exists (fbin 4), (0 - fbin 12), (fbin 34), (0 - fbin 5), (0 - fbin 35), (fbin 30), (fbin 10).
  intros. unfold sep, Fform, Gform, xyform, schurform, cyc3. cbn [fpow fbin]. ring.
Qed.
Lemma sep7_T2  : sep7 (cyc3 K (fun a b c => a * (2 * a - b - c) ^ 2 * (b - c) ^ 4)) (- (4)).
Proof.
  exists (0), (1), (0 - fbin 4), (fbin 4), (fbin 11), (0 - fbin 28), (fbin 8).
  intros. unfold sep, Fform, Gform, xyform, schurform, cyc3. cbn [fpow fbin]. ring.
Qed.
Lemma sep7_R1 x : sep7 (fun A B C => schurform K A B C * cyc3 K (fun a b c => a ^ 2 + x * (a * b)) A B C ^ 2) ((x - 1) ^ 2).
Proof.
  exists (1), (fbin 2 * x - 1), (fbin 2 * x * x - fbin 2 * x + fbin 3), (0 - x * x - 1), (0 - x * x + fbin 4 * x - fbin 3), (0 - x * x - fbin 4 * x + fbin 6), (x * x - fbin 2 * x - fbin 2).
  intros. unfold sep, Fform, Gform, xyform, schurform, cyc3. cbn [fpow fbin]. ring.
Qed.
Lemma sep7_R1o  : sep7 (fun A B C => schurform K A B C * cyc3 K (fun a b c => a * b) A B C ^ 2) (1).
Proof.
  exists (0), (0), (fbin 2), (0 - 1), (0 - 1), (0 - 1), (1).
  intros. unfold sep, Fform, Gform, xyform, schurform, cyc3. cbn [fpow fbin]. ring.
Qed.
Lemma sep7_R2 x : sep7 (fun A B C => cyc3 K (fun a b c => a * (b - c) ^ 2) A B C * cyc3 K (fun a b c => a ^ 2 + x * (a * b)) A B C ^ 2) (2 * x + 1).
Proof.
  exists (0), (1), (fbin 4 * x - fbin 6), (x * x + fbin 2 * x + fbin 2), (fbin 3 * x * x - fbin 8 * x + fbin 3), (0 - fbin 2 * x * x + fbin 8 * x - fbin 12), (0 - fbin 6 * x * x - fbin 4 * x + fbin 4).
  intros. unfold sep, Fform, Gform, xyform, schurform, cyc3. cbn [fpow fbin]. ring.
Qed.
Lemma sep7_R2o  : sep7 (fun A B C => cyc3 K (fun a b c => a * (b - c) ^ 2) A B C * cyc3 K (fun a b c => a * b) A B C ^ 2) (0).
Proof.
  exists (0), (0), (0), (1), (fbin 3), (0 - fbin 2), (0 - fbin 6).
  intros. unfold sep, Fform, Gform, xyform, schurform, cyc3. cbn [fpow fbin]. ring.
Qed.

(** a symmetric form of degree 7 *)
Definition sym_septic (cf : nat -> nat -> nat -> K) : Prop :=
  (cf 6 1 0 = cf 1 6 0 /\ cf 5 2 0 = cf 2 5 0 /\ cf 4 3 0 = cf 3 4 0 /\ cf 4 2 1 = cf 2 4 1)%nat.
Lemma sep7_tri cf : cyclic3 cf -> sym_septic cf -> sep7 (tri_poly 7 cf) (cf 5 2 0)%nat.
Proof.
  intros Hc (S1 & S2 & S3 & S4).
  exists (cf 7 0 0)%nat, (cf 6 1 0)%nat, (cf 5 1 1)%nat, (cf 4 3 0)%nat, (cf 4 2 1)%nat, (cf 3 3 1)%nat, (cf 3 2 2)%nat.
  intros A B C.
  assert (E1 : (cf 0 0 7 = cf 7 0 0)%nat) by (symmetry; apply Hc).
  assert (E2 : (cf 0 7 0 = cf 7 0 0)%nat) by apply Hc.
  assert (E3 : (cf 1 0 6 = cf 6 1 0)%nat) by (symmetry; apply Hc).
  assert (E4 : (cf 0 6 1 = cf 6 1 0)%nat) by apply Hc.
  assert (E5 : (cf 2 0 5 = cf 5 2 0)%nat) by (symmetry; apply Hc).
  assert (E6 : (cf 0 5 2 = cf 5 2 0)%nat) by apply Hc.
  assert (E7 : (cf 1 1 5 = cf 5 1 1)%nat) by (symmetry; apply Hc).
  assert (E8 : (cf 1 5 1 = cf 5 1 1)%nat) by apply Hc.
  assert (E9 : (cf 3 0 4 = cf 4 3 0)%nat) by (symmetry; apply Hc).
  assert (E10 : (cf 0 4 3 = cf 4 3 0)%nat) by apply Hc.
  assert (E11 : (cf 2 1 4 = cf 4 2 1)%nat) by (symmetry; apply Hc).
  assert (E12 : (cf 1 4 2 = cf 4 2 1)%nat) by apply Hc.
  assert (E13 : (cf 3 1 3 = cf 3 3 1)%nat) by (symmetry; apply Hc).
  assert (E14 : (cf 1 3 3 = cf 3 3 1)%nat) by apply Hc.
  assert (E15 : (cf 2 2 3 = cf 3 2 2)%nat) by (symmetry; apply Hc).
  assert (E16 : (cf 2 3 2 = cf 3 2 2)%nat) by apply Hc.
  assert (E17 : (cf 1 6 0 = cf 6 1 0)%nat) by (symmetry; exact S1).
  assert (E18 : (cf 6 0 1 = cf 6 1 0)%nat) by (rewrite <- E17; symmetry; apply Hc).
  assert (E19 : (cf 0 1 6 = cf 6 1 0)%nat) by (rewrite <- E17; apply Hc).
  assert (E20 : (cf 2 5 0 = cf 5 2 0)%nat) by (symmetry; exact S2).
  assert (E21 : (cf 5 0 2 = cf 5 2 0)%nat) by (rewrite <- E20; symmetry; apply Hc).
  assert (E22 : (cf 0 2 5 = cf 5 2 0)%nat) by (rewrite <- E20; apply Hc).
  assert (E23 : (cf 3 4 0 = cf 4 3 0)%nat) by (symmetry; exact S3).
  assert (E24 : (cf 4 0 3 = cf 4 3 0)%nat) by (rewrite <- E23; symmetry; apply Hc).
  assert (E25 : (cf 0 3 4 = cf 4 3 0)%nat) by (rewrite <- E23; apply Hc).
  assert (E26 : (cf 2 4 1 = cf 4 2 1)%nat) by (symmetry; exact S4).
  assert (E27 : (cf 4 1 2 = cf 4 2 1)%nat) by (rewrite <- E26; symmetry; apply Hc).
  assert (E28 : (cf 1 2 4 = cf 4 2 1)%nat) by (rewrite <- E26; apply Hc).
  unfold sep, cyc3. cbn. rewrite E1, E2, E3, E4, E5, E6, E7, E8, E9, E10, E11, E12, E13, E14, E15, E16, E17, E18, E19, E20, E21, E22, E23, E24, E25, E26, E27, E28. ring.
Qed.
End Form.
