(** * Symmetric sextics: their symmetric axis determines them up to a multiple of p(a-b)^2 *)
From Coq Require Import Bool List Arith Lia ZArith Ring Field.
From Verif Require Import OrdField Base Congruence Perm Poly PolyId PolyOps Expr TriPoly Univariate.
From Verif Require Import SymDiv DenseSym Septic SepticFacts SepticMain SexticQF SexticQFFacts.
Import ListNotations.

Section Form.
Variable K : OrdField.
Local Open Scope of_scope.
Add Field Kf : (F_field K).
Implicit Types (x y r A B C : K).

Definition sex (c600 c510 c420 c411 c330 c321 c222 A B C : K) : K :=
  c600 * cyc3 K (fun a b c => a ^ 6) A B C + c510 * cyc3 K (fun a b c => a ^ 5 * (b + c)) A B C
  + c420 * cyc3 K (fun a b c => a ^ 4 * (b ^ 2 + c ^ 2)) A B C + c411 * cyc3 K (fun a b c => a ^ 4 * b * c) A B C
  + c330 * cyc3 K (fun a b c => a ^ 3 * b ^ 3) A B C + c321 * cyc3 K (fun a b c => a ^ 3 * (b ^ 2 * c + b * c ^ 2)) A B C
  + c222 * (A ^ 2 * B ^ 2 * C ^ 2).
(** [f] is a symmetric sextic with coefficient [k] at a^4 b^2 *)
Definition sex6 (f : K -> K -> K -> K) (k : K) : Prop :=
  exists c600 c510 c411 c330 c321 c222, forall A B C, f A B C = sex c600 c510 k c411 c330 c321 c222 A B C.
Lemma sex6_lin f g k l (u v : K) : sex6 f k -> sex6 g l -> sex6 (fun A B C => u * f A B C + v * g A B C) (u * k + v * l).
Proof.
  intros (a1 & a2 & a3 & a4 & a5 & a6 & Ha) (b1 & b2 & b3 & b4 & b5 & b6 & Hb).
  exists (u * a1 + v * b1), (u * a2 + v * b2), (u * a3 + v * b3), (u * a4 + v * b4), (u * a5 + v * b5), (u * a6 + v * b6).
  intros A B C. rewrite Ha, Hb. unfold sex. ring.
Qed.
Lemma sex6_ext f g k l : (forall A B C, f A B C = g A B C) -> k = l -> sex6 f k -> sex6 g l.
Proof. intros H <- (a1 & a2 & a3 & a4 & a5 & a6 & Ha). exists a1, a2, a3, a4, a5, a6. intros. rewrite <- H. apply Ha. Qed.

Lemma zero_axis6 f k : sex6 f k -> (forall z, f z 1 1 = 0) -> forall A B C, f A B C = k * D6 K A B C.
Proof.
  intros (c6 & c51 & c411 & c33 & c321 & c222 & V) Z.
  pose (l := [2 * c6 + 2 * c51 + 2 * k + c33; 2 * c51 + 2 * c411 + 2 * c321; 2 * k + 2 * c321 + c222; 2 * c33 + 2 * c321; 2 * k + c411; 2 * c51; c6]).
  assert (L : forall z, ueval l z = 0).
  { intro z. rewrite <- (Z z), V. unfold sex, cyc3, l. cbn [ueval fold_right fpow]. rewrite ?ueval_cons. cbn. ring. }
  pose proof (ueval_zero K l L) as H. subst l. cbn [In] in H.
  assert (E6 : c6 = 0) by (apply H; tauto). assert (E5 : 2 * c51 = 0) by (apply H; tauto). assert (E4 : 2 * k + c411 = 0) by (apply H; tauto).
  assert (E3 : 2 * c33 + 2 * c321 = 0) by (apply H; tauto). assert (E2 : 2 * k + 2 * c321 + c222 = 0) by (apply H; tauto).
  assert (E0 : 2 * c6 + 2 * c51 + 2 * k + c33 = 0) by (apply H; tauto). clear H L Z.
  assert (N2 : (2 : K) <> 0) by apply f2_neq0.
  assert (X51 : c51 = 0) by (destruct (fmul_eq0 K _ _ E5); [contradiction|assumption]). subst c6 c51.
  assert (X411 : c411 = - (2) * k) by (transitivity (2 * k + c411 - 2 * k); [ring|rewrite E4; ring]).
  assert (X33 : c33 = - (2) * k) by (transitivity (2 * 0 + 2 * 0 + 2 * k + c33 - 2 * k); [ring|rewrite E0; ring]). subst c411 c33.
  assert (X321 : c321 = 2 * k) by (transitivity ((2 * (- (2) * k) + 2 * c321) / 2 + 2 * k); [field; exact N2|rewrite E3; field; exact N2]). subst c321.
  assert (X222 : c222 = - (2) * (3 * k)) by (transitivity (2 * k + 2 * (2 * k) + c222 - 2 * (3 * k)); [ring|rewrite E2; ring]). subst c222.
  intros A B C. rewrite V. unfold sex, D6, cyc3. cbn [fpow]. ring.
Qed.

Lemma sex6_F x y : sex6 (F6 K x y) (3 * x ^ 2 - 2 * x * y - 2 * x + y ^ 2).
Proof.
  exists (x * x - fbin 2 * x + 1), (0 - x * x + fbin 2 * x * y - fbin 2 * y + 1), (0 - x * x - fbin 2 * x * y + fbin 2 * x + fbin 2 * y * y - fbin 2 * y + 1), (0 - fbin 2 * x * x + fbin 4 * x * y - y * y), (0 - fbin 2 * x * x + fbin 2 * x - y * y + fbin 2 * y - fbin 2), (fbin 6 * x * x - fbin 6 * x * y - fbin 3 * y * y + fbin 6 * y).
  intros. unfold sex, F6, T6, R6, xyform, cyc3. cbn [fpow fbin]. ring.
Qed.
Lemma sex6_T  : sex6 (T6 K) (- (3)).
Proof.
  exists (fbin 4), (0 - fbin 12), (fbin 66), (fbin 26), (0 - fbin 66), (fbin 198).
  intros. unfold sex, F6, T6, R6, xyform, cyc3. cbn [fpow fbin]. ring.
Qed.
Lemma sex6_R x : sex6 (fun A B C => cyc3 K (fun a b c => a ^ 2 - a * b) A B C * R6 K (Some x) A B C) (x ^ 2 - 2 * x + 3).
Proof.
  exists (1), (fbin 2 * x - 1), (fbin 2 * x * x - fbin 2 * x - 1), (0 - x * x + fbin 4 * x - fbin 2), (0 - x * x - fbin 2), (0 - fbin 3 * x * x - fbin 6 * x + fbin 6).
  intros. unfold sex, F6, T6, R6, xyform, cyc3. cbn [fpow fbin]. ring.
Qed.
Lemma sex6_Ro  : sex6 (fun A B C => cyc3 K (fun a b c => a ^ 2 - a * b) A B C * R6 K None A B C) (1).
Proof.
  exists (0), (0), (fbin 2), (0 - 1), (0 - 1), (0 - fbin 3).
  intros. unfold sex, F6, T6, R6, xyform, cyc3. cbn [fpow fbin]. ring.
Qed.

Lemma axis_F6 x y z : F6 K x y z 1 1 = (z - 1) ^ 2 * ((x - 1) * (z * z) - (2 - 2 * y) * z + (2 * x + y - 2)) ^ 2.
Proof. unfold F6, xyform, cyc3. cbn [fpow]. ring. Qed.
Lemma axis_T6 z : T6 K z 1 1 = 4 * (z - 1) ^ 6.
Proof. unfold T6. cbn [fpow]. ring. Qed.
Lemma axis_R6 (r : option K) z : cyc3 K (fun a b c => a ^ 2 - a * b) z 1 1 * R6 K r z 1 1 = (z - 1) ^ 2 * rem_axis K r z ^ 2.
Proof. unfold R6, rem_axis, cyc3. destruct r; cbn [fpow]; ring. Qed.

(** the decomposition of the docstring (sextic_symmetric.py:1353-1357) *)
Lemma sextic_identity P (k t s x y rem : K) (r : option K) : sex6 P k -> (forall z, P z 1 1 = (z - 1) ^ 2 * quartic_of K t s x y rem r z) ->
  forall A B C, P A B C = form6 K s x y (sextic_ker k t s x y rem r) t rem r A B C.
Proof.
  intros HP HA.
  set (G := fun A B C => 1 * (1 * (1 * P A B C + (- s) * F6 K x y A B C) + (- (t / 4)) * T6 K A B C) + (- rem) * (cyc3 K (fun a b c => a ^ 2 - a * b) A B C * R6 K r A B C)).
  assert (S : sex6 G (sextic_ker k t s x y rem r)).
  { unfold G. destruct r as [r|]; (eapply sex6_ext; [intros A B C; reflexivity| |eapply sex6_lin; [eapply sex6_lin; [eapply sex6_lin; [exact HP|apply sex6_F]|apply sex6_T]|first [apply sex6_R|apply sex6_Ro]]]);
    unfold sextic_ker; cbn [fpow fbin]; field; fnz. }
  assert (Z : forall z, G z 1 1 = 0).
  { intro z. unfold G. rewrite HA, axis_F6, axis_R6, axis_T6. unfold quartic_of. cbn [fpow fbin]. field. fnz. }
  intros A B C. pose proof (zero_axis6 G _ S Z A B C) as E. unfold G in E. unfold form6, rest6. rewrite <- E. ring.
Qed.

(** a symmetric form of degree 6 *)
Definition sym_sextic (cf : nat -> nat -> nat -> K) : Prop :=
  (cf 5 1 0 = cf 1 5 0 /\ cf 4 2 0 = cf 2 4 0 /\ cf 3 2 1 = cf 2 3 1)%nat.
Lemma sex6_tri cf : cyclic3 cf -> sym_sextic cf -> sex6 (tri_poly 6 cf) (cf 4 2 0)%nat.
Proof.
  intros Hc (S1 & S2 & S3).
  exists (cf 6 0 0)%nat, (cf 5 1 0)%nat, (cf 4 1 1)%nat, (cf 3 3 0)%nat, (cf 3 2 1)%nat, (cf 2 2 2)%nat.
  intros A B C.
  assert (E1 : (cf 0 0 6 = cf 6 0 0)%nat) by (symmetry; apply Hc).
  assert (E2 : (cf 0 6 0 = cf 6 0 0)%nat) by apply Hc.
  assert (E3 : (cf 1 0 5 = cf 5 1 0)%nat) by (symmetry; apply Hc).
  assert (E4 : (cf 0 5 1 = cf 5 1 0)%nat) by apply Hc.
  assert (E5 : (cf 2 0 4 = cf 4 2 0)%nat) by (symmetry; apply Hc).
  assert (E6 : (cf 0 4 2 = cf 4 2 0)%nat) by apply Hc.
  assert (E7 : (cf 1 1 4 = cf 4 1 1)%nat) by (symmetry; apply Hc).
  assert (E8 : (cf 1 4 1 = cf 4 1 1)%nat) by apply Hc.
  assert (E9 : (cf 3 0 3 = cf 3 3 0)%nat) by (symmetry; apply Hc).
  assert (E10 : (cf 0 3 3 = cf 3 3 0)%nat) by apply Hc.
  assert (E11 : (cf 2 1 3 = cf 3 2 1)%nat) by (symmetry; apply Hc).
  assert (E12 : (cf 1 3 2 = cf 3 2 1)%nat) by apply Hc.
  assert (E13 : (cf 1 5 0 = cf 5 1 0)%nat) by (symmetry; exact S1).
  assert (E14 : (cf 5 0 1 = cf 5 1 0)%nat) by (rewrite <- E13; symmetry; apply Hc).
  assert (E15 : (cf 0 1 5 = cf 5 1 0)%nat) by (rewrite <- E13; apply Hc).
  assert (E16 : (cf 2 4 0 = cf 4 2 0)%nat) by (symmetry; exact S2).
  assert (E17 : (cf 4 0 2 = cf 4 2 0)%nat) by (rewrite <- E16; symmetry; apply Hc).
  assert (E18 : (cf 0 2 4 = cf 4 2 0)%nat) by (rewrite <- E16; apply Hc).
  assert (E19 : (cf 2 3 1 = cf 3 2 1)%nat) by (symmetry; exact S3).
  assert (E20 : (cf 3 1 2 = cf 3 2 1)%nat) by (rewrite <- E19; symmetry; apply Hc).
  assert (E21 : (cf 1 2 3 = cf 3 2 1)%nat) by (rewrite <- E19; apply Hc).
  unfold sex, cyc3. cbn. rewrite E1, E2, E3, E4, E5, E6, E7, E8, E9, E10, E11, E12, E13, E14, E15, E16, E17, E18, E19, E20, E21. ring.
Qed.
End Form.
