(** * Symmetric sextics, quadratic form method: each solver proves its form *)
From Coq Require Import Bool List Arith Lia ZArith Ring Field.
From Verif Require Import OrdField Base Congruence Perm Poly PolyId PolyOps Coeff Expr CertLimit TriPoly Monomials Univariate StructUtils.
From Verif Require TernaryQuad.
From Verif Require Import SymDiv DenseSym Septic SepticFacts SexticQF.
Import ListNotations.

Section Facts.
Variable K : OrdField.
Local Open Scope of_scope.
Add Field Kf : (F_field K).
Implicit Types (x y t rem ker A B C : K) (e : ex K) (m : K * K) (r : option K).

(** ** Specification: the forms of the docstring (sextic_symmetric.py:1339-1357) *)
Definition F6 x y A B C : K :=
  cyc3 K (fun a b c => a ^ 6 + a ^ 5 * b + a ^ 5 * c + a ^ 4 * b * c - 2 * a ^ 3 * b ^ 2 * c - 2 * a ^ 3 * b * c ^ 2) A B C
  - 2 * cyc3 K (fun a b c => a ^ 4 - a ^ 2 * b * c) A B C * xyform K x y A B C
  + cyc3 K (fun a b c => a ^ 2 - a * b) A B C * xyform K x y A B C ^ 2.
Definition T6 A B C : K := ((A + B - 2 * C) * (B + C - 2 * A) * (C + A - 2 * B)) ^ 2.
Definition R6 r A B C : K := match r with
  | Some r => cyc3 K (fun a b c => a ^ 2 + r * (a * b)) A B C ^ 2
  | None => cyc3 K (fun a b c => a * b) A B C ^ 2 end.
Definition Q6 m A B C : K := fst m * (A * A + B * B + C * C) + snd m * (A * B + B * C + C * A).
Definition rest6 t rem r A B C : K := t / 4 * T6 A B C + rem * (cyc3 K (fun a b c => a ^ 2 - a * b) A B C * R6 r A B C).
Definition form6 c0 x y ker t rem r A B C : K := c0 * F6 x y A B C + ker * D6 K A B C + rest6 t rem r A B C.

(** a certificate of a form: [real] tells whether it is one on all of R^3 *)
Definition off_diagonal (real : bool) A B C : Prop := ~ (A = B /\ B = C) /\ (real = true \/ 0 < A /\ 0 < B /\ 0 < C).
Definition exact6 (real : bool) e (f : K -> K -> K -> K) : Prop :=
  manifest (negb real) e = true /\ (forall A B C, defined (pt3 A B C) e -> ev (pt3 A B C) e = f A B C).
Definition def6 (real : bool) e : Prop := forall A B C, off_diagonal real A B C -> defined (pt3 A B C) e.

Ltac evs := cbn [csum cprod erename rot3 ev pt3 fbin sqp6 tprod fst snd]; unfold form6, rest6, F6, T6, R6, Q6, D6, xyform, cyc3; cbn [fpow fst snd].
Ltac nbz := repeat match goal with |- _ /\ _ => split end; first [assumption | fnz].

Lemma S_square_ok x y ker e real : S_square x y ker = Ok (Some (e, real)) -> real = true /\ exact6 true e (fun A B C => F6 x y A B C + ker * D6 K A B C) /\ forall env, defined env e.
Proof.
  unfold S_square. destruct (x + y =? _) eqn:E; [|discriminate]. destruct (x =? 1) eqn:Ex; [discriminate|]. cbn [andb negb].
  destruct (_ <=? ker) eqn:Ek; [|discriminate]. intro H. apply pair_inj in H. destruct H as [<- <-].
  apply feqb_eq in E. apply (feqb_neq K) in Ex. apply fleb_le in Ek. assert (Ey : y = fbin 5 / fbin 3 - x) by (rewrite <- E; ring). subst y. clear E.
  assert (X1 : x - 1 <> 0) by (intro X; apply Ex, (fsub_eq0 K), X).
  split; [reflexivity|]. split; [split|].
  - cbn [manifest csum cprod erename rot3 negb Nat.even orb sqp6]. rewrite !andb_true_r, andb_true_iff. split; apply fleb_le.
    + apply fdiv_nonneg; [cbn [fpow]; replace ((x - 1) * ((x - 1) * 1)) with ((x - 1) * (x - 1)) by ring; apply fsqr_nonneg|apply fbin_pos].
    + apply (proj1 (fle_sub _ _)). exact Ek.
  - intros A B C _. evs. field. nbz.
  - intro env. cbn. tauto.
Qed.

Lemma S_trivial_ok x y ker e real : S_trivial x y ker = Ok (Some (e, real)) -> real = true /\ exact6 true e (fun A B C => F6 x y A B C + ker * D6 K A B C) /\ forall env, defined env e.
Proof.
  unfold S_trivial. destruct (_ <=? ker) eqn:Ek; [|discriminate]. intro H. apply pair_inj in H. destruct H as [<- <-]. apply fleb_le in Ek.
  split; [reflexivity|]. split; [split|].
  - cbn [manifest csum cprod erename rot3 negb Nat.even orb sqp6 andb]. rewrite !andb_true_r, andb_true_iff. split; apply fleb_le.
    + apply fdiv_nonneg; [exact (flt_le (fbin_pos K 1))|apply fbin_pos].
    + apply (proj1 (fle_sub _ _)). exact Ek.
  - intros A B C _. destruct (x <? 1); evs; field; nbz.
  - intro env. destruct (x <? 1); cbn; tauto.
Qed.

(** ** Solvers of type 1 *)
Definition type1_ok x y (s : sol1 (K := K)) : Prop := forall e c m, s = Ok (Some (e, c, m)) ->
  0 < fst m /\ 0 <= fst m + snd m /\ snd m < 2 * fst m /\ manifest false e = true /\ (forall env, defined env e) /\
  forall A B C, F6 x y A B C * Q6 m A B C = ev (pt3 A B C) e + Q6 c A B C * D6 K A B C.
Lemma std_ok : 0 < (fbin 2 : K) /\ 0 <= (fbin 2 : K) + - fbin 2 /\ - fbin 2 < 2 * (fbin 2 : K).
Proof.
  split; [apply fbin_pos|]. split; [replace (fbin 2 + - fbin 2 : K) with (0 : K) by ring; apply fle_refl|].
  apply (proj2 (flt_sub _ _)). replace (2 * (fbin 2 : K) - - fbin 2) with (fbin 2 + fbin 2 + fbin 2 : K) by (cbn [fbin]; ring).
  pose proof (fbin_pos K 2). fpos.
Qed.
Lemma triple_inj {X Y Z} (a a' : X) (b b' : Y) (c c' : Z) : Ok (Some (a, b, c)) = Ok (Some (a', b', c')) -> a = a' /\ b = b' /\ c = c'.
Proof. intro H. repeat split; congruence. Qed.
Lemma S_regular_ok x y : type1_ok x y (S_regular x y).
Proof.
  intros e c m. unfold S_regular. intro H. apply triple_inj in H. destruct H as (<- & <- & <-). cbn [fst snd].
  destruct std_ok as (P1 & P2 & P3). split; [exact P1|]. split; [exact P2|]. split; [exact P3|]. split; [|split].
  - cbn [manifest Nat.even orb]. rewrite andb_true_r. apply fleb_le. exact (flt_le P1).
  - intro env. cbn. tauto.
  - intros A B C. evs. field. nbz.
Qed.
Lemma S_sos2_at_ok x y z : type1_ok x y (Ok (Some (S_sos2_at x y z))).
Proof.
  intros e c m. unfold S_sos2_at. intro H. apply triple_inj in H. destruct H as (<- & <- & <-). cbn [fst snd].
  destruct std_ok as (P1 & P2 & P3). split; [exact P1|]. split; [exact P2|]. split; [exact P3|]. split; [|split].
  - cbn [manifest csum erename rot3 Nat.even orb]. rewrite !andb_true_r. apply fleb_le. apply fdiv_nonneg; [exact (flt_le (fbin_pos K 1))|apply fbin_pos].
  - intro env. cbn. tauto.
  - intros A B C. evs. field. nbz.
Qed.
Lemma S_sos2_ok zt x y : type1_ok x y (S_sos2 zt x y).
Proof. unfold S_sos2. destruct (x =? 1); [intros e c m H; congruence|]. apply S_sos2_at_ok. Qed.
Lemma S_alternative_ok z x y : type1_ok x y (S_alternative z x y).
Proof.
  intros e c m. unfold S_alternative. destruct (_ <? _) eqn:E; [intro H; congruence|]. intro H. apply triple_inj in H. destruct H as (<- & <- & <-). cbn [fst snd].
  apply fltb_ge in E. assert (W : 0 < x + y - 1). { eapply (flt_le_trans K); [|exact E]. apply fdiv_pos; apply fbin_pos. }
  assert (W0 : x + y - 1 <> 0) by exact (flt_neq0 W).
  assert (W3 : 0 <= fbin 3 * x + fbin 3 * y - fbin 5).
  { apply (proj1 (fle_sub _ _)) in E. replace (fbin 3 * x + fbin 3 * y - fbin 5) with (fbin 3 * (x + y - 1 - fbin 2 / fbin 3)) by (cbn [fbin]; field; nbz).
    apply fmul_nonneg; [exact (flt_le (fbin_pos K 3))|exact E]. }
  assert (Wd : 0 < (x + y - 1) ^ 2) by (cbn [fpow]; replace ((x + y - 1) * ((x + y - 1) * 1)) with ((x + y - 1) * (x + y - 1)) by ring; apply fmul_pos; exact W).
  split; [apply f1_pos|]. split; [|split; [|split; [|split]]].
  - replace (1 + (fbin 2 * x + fbin 2 * y - fbin 4) / (x + y - 1)) with ((fbin 3 * x + fbin 3 * y - fbin 5) / (x + y - 1)) by (cbn [fbin]; field; exact W0).
    apply fdiv_nonneg; assumption.
  - apply (proj2 (flt_sub _ _)). replace (2 * 1 - (fbin 2 * x + fbin 2 * y - fbin 4) / (x + y - 1)) with (2 / (x + y - 1)) by (cbn [fbin]; field; exact W0).
    apply fdiv_pos; [fpos|exact W].
  - cbn [manifest csum erename rot3 Nat.even orb]. rewrite !andb_true_r, andb_true_iff. split; apply fleb_le.
    + apply fdiv_nonneg; [apply fdiv_nonneg; [apply f1_nonneg|exact Wd]|apply fbin_pos].
    + apply fdiv_nonneg; assumption.
  - intro env. cbn. tauto.
  - intros A B C. evs. field. nbz.
Qed.

(** ** Quadratic forms *)
Definition sq6 A B C : K := A * A + B * B + C * C - (A * B + B * C + C * A).
Lemma sq6_pos A B C : ~ (A = B /\ B = C) -> 0 < sq6 A B C.
Proof.
  intro H. apply (fmul_pos_cancel K 2). { fpos. }
  replace (2 * sq6 A B C) with ((A - B) * (A - B) + (B - C) * (B - C) + (C - A) * (C - A)) by (unfold sq6; ring).
  destruct (some_differ K A B C H) as [N|N].
  - apply fadd_pos_l; [apply fadd_pos_l; [apply fsqr_pos, N|apply fsqr_nonneg]|apply fsqr_nonneg].
  - apply fadd_pos_l; [apply fadd_pos_r; [apply fsqr_nonneg|apply fsqr_pos, N]|apply fsqr_nonneg].
Qed.
Lemma sq6_nonneg A B C : 0 <= sq6 A B C.
Proof.
  replace (sq6 A B C) with (((A - B) * (A - B) + (B - C) * (B - C) + (C - A) * (C - A)) / 2) by (unfold sq6; field; fnz).
  apply fdiv_nonneg; [|fpos]. repeat apply fadd_nonneg; apply fsqr_nonneg.
Qed.
Lemma Q6_pos real m A B C : 0 < fst m -> 0 <= fst m + snd m -> (real = true -> snd m < 2 * fst m) -> off_diagonal real A B C -> 0 < Q6 m A B C.
Proof.
  intros P1 P2 P3 [H [R|(HA & HB & HC)]].
  - specialize (P3 R). apply (proj1 (flt_sub _ _)) in P3.
    replace (Q6 m A B C) with ((2 * fst m - snd m) / fbin 3 * sq6 A B C + (fst m + snd m) / fbin 3 * ((A + B + C) * (A + B + C))) by (unfold Q6, sq6; cbn [fbin]; field; fnz).
    apply fadd_pos_l.
    + apply fmul_pos; [apply fdiv_pos; [exact P3|apply fbin_pos]|apply sq6_pos, H].
    + apply fmul_nonneg; [apply fdiv_nonneg; [exact P2|apply fbin_pos]|apply fsqr_nonneg].
  - replace (Q6 m A B C) with (fst m * sq6 A B C + (fst m + snd m) * (A * B + B * C + C * A)) by (unfold Q6, sq6; ring).
    apply fadd_pos_l; [apply fmul_pos; [exact P1|apply sq6_pos, H]|]. apply fmul_nonneg; [exact P2|]. apply flt_le. fpos.
Qed.
Lemma Q6_nonneg (real : bool) m A B C : 0 <= fst m -> 0 <= fst m + snd m -> (real = true -> snd m <= 2 * fst m) -> (real = true \/ 0 <= A /\ 0 <= B /\ 0 <= C) -> 0 <= Q6 m A B C.
Proof.
  intros P1 P2 P3 [R|(HA & HB & HC)].
  - specialize (P3 R). apply (proj1 (fle_sub _ _)) in P3.
    replace (Q6 m A B C) with ((2 * fst m - snd m) / fbin 3 * sq6 A B C + (fst m + snd m) / fbin 3 * ((A + B + C) * (A + B + C))) by (unfold Q6, sq6; cbn [fbin]; field; fnz).
    apply fadd_nonneg; (apply fmul_nonneg; [apply fdiv_nonneg; [assumption|apply fbin_pos]|first [apply sq6_nonneg|apply fsqr_nonneg]]).
  - replace (Q6 m A B C) with (fst m * sq6 A B C + (fst m + snd m) * (A * B + B * C + C * A)) by (unfold Q6, sq6; ring).
    apply fadd_nonneg; [apply fmul_nonneg; [exact P1|apply sq6_nonneg]|]. apply fmul_nonneg; [exact P2|]. repeat apply fadd_nonneg; apply fmul_nonneg; assumption.
Qed.
Lemma quad_ok (x y : K) e : TernaryQuad.common_quadratic x y = Some e ->
  (forall env, defined env e) /\ (forall A B C, ev (pt3 A B C) e = Q6 (x, y) A B C) /\ manifest true e = true /\ (0 < x -> y <= 2 * x -> manifest false e = true).
Proof.
  intro H. destruct (TernaryQuad.common_quadratic_sound K x y e H) as (D & V & M & R). repeat split; try assumption.
  intros Hx Hy. destruct (R Hy) as [R'|[-> _]]; [exact R'|]. exfalso. exact (flt_irrefl K 0 Hx).
Qed.
Lemma quad0_ok (x y : K) e : quad0 x y = Some e ->
  (forall env, defined env e) /\ (forall A B C, ev (pt3 A B C) e = Q6 (x, y) A B C) /\ manifest true e = true /\ (y <= 2 * x -> manifest false e = true).
Proof.
  unfold quad0. destruct ((x =? 0) && (y =? 0))%bool eqn:E.
  - apply andb_true_iff in E. destruct E as [E1 E2]. apply feqb_eq in E1. apply feqb_eq in E2. subst. intro H. assert (He : EC 0 = e) by congruence. subst e.
    repeat split.
    + intros. unfold Q6. cbn. ring.
    + cbn. apply fleb_le, fle_refl.
    + intros _. cbn. apply fleb_le, fle_refl.
  - intro H. destruct (TernaryQuad.common_quadratic_sound K x y e H) as (D & V & M & R). repeat split; try assumption.
    intros Hy. destruct (R Hy) as [R'|[-> ->]]; [exact R'|]. assert (E0 : (0 : K) =? 0 = true) by (apply feqb_eq; reflexivity). rewrite E0 in E. discriminate E.
Qed.

(** ** The remaining terms *)
Definition rem_ok t rem r m (s : ex K * (K * K)) : Prop := exists S : K -> K -> K -> K,
  (forall A B C, 0 <= S A B C) /\ manifest false (fst s) = true /\ (forall A B C, defined (pt3 A B C) (fst s) -> ev (pt3 A B C) (fst s) = S A B C) /\
  (forall A B C, rest6 t rem r A B C * Q6 m A B C = S A B C + Q6 (snd s) A B C * D6 K A B C).
Lemma T6_nonneg A B C : 0 <= T6 A B C.
Proof. unfold T6. cbn [fpow]. match goal with |- 0 <= ?a * (?a * 1) => replace (a * (a * 1)) with (a * a) by ring end. apply fsqr_nonneg. Qed.
Lemma R6_nonneg r A B C : 0 <= R6 r A B C.
Proof. unfold R6. destruct r; cbn [fpow]; match goal with |- 0 <= ?a * (?a * 1) => replace (a * (a * 1)) with (a * a) by ring end; apply fsqr_nonneg. Qed.
Lemma rest6_nonneg t rem r A B C : 0 <= t -> 0 <= rem -> 0 <= rest6 t rem r A B C.
Proof.
  intros Ht Hr. unfold rest6. apply fadd_nonneg; [apply fmul_nonneg; [apply fdiv_nonneg; [exact Ht|fpos]|apply T6_nonneg]|].
  apply fmul_nonneg; [exact Hr|]. apply fmul_nonneg; [|apply R6_nonneg].
  replace (cyc3 K (fun a b c => a ^ 2 - a * b) A B C) with (sq6 A B C) by (unfold cyc3, sq6; cbn [fpow]; ring). apply sq6_nonneg.
Qed.
Lemma rem_poly_ok rem r : 0 <= rem -> manifest false (rem_poly rem r) = true /\ (forall env, defined env (rem_poly rem r)) /\ forall A B C, ev (pt3 A B C) (rem_poly rem r) = rem * R6 r A B C.
Proof.
  intro H. split; [|split].
  - unfold rem_poly. destruct r; cbn [manifest Nat.even orb]; rewrite andb_true_r; apply fleb_le, H.
  - intro env. destruct r; cbn; tauto.
  - intros A B C. destruct r; unfold rem_poly; evs; ring.
Qed.
Lemma is_std_spec m : is_std m = true -> m = (fbin 2, - fbin 2).
Proof. unfold is_std. rewrite andb_true_iff. intros [E1 E2]. apply feqb_eq in E1. apply feqb_eq in E2. destruct m. cbn in *. congruence. Qed.
Lemma rem_regular_ok t rem r m s : 0 <= t -> 0 <= rem -> 0 < fst m -> 0 <= fst m + snd m -> snd m < 2 * fst m -> rem_regular t rem r m = Ok (Some s) ->
  rem_ok t rem r m s /\ snd s = (0, 0) /\ forall env, defined env (fst s).
Proof.
  intros Ht Hr P1 P2 P3. unfold rem_regular. destruct (rem_poly_ok rem r Hr) as (Mr & Dr & Vr).
  assert (T4 : 0 <= t / fbin 4) by (apply fdiv_nonneg; [exact Ht|apply fbin_pos]).
  assert (SN : forall A B C, 0 <= rest6 t rem r A B C * Q6 m A B C).
  { intros. apply fmul_nonneg; [apply rest6_nonneg; assumption|]. apply (Q6_nonneg true); [exact (flt_le P1)|exact P2|intros _; exact (flt_le P3)|left; reflexivity]. }
  destruct (is_std m) eqn:Es.
  - intro H. assert (Hs : s = ((EC (t / fbin 4) * csum ((EX 0 - EX 1) ^ 2) * tprod + EC (fbin 2) * csum (EX 0 ^ 2 - EX 0 * EX 1) ^ 2 * rem_poly rem r)%E, (0, 0))) by congruence.
    apply is_std_spec in Es. subst m s. cbn [fst snd] in *. split; [|split; [reflexivity|]].
    + exists (fun A B C => rest6 t rem r A B C * Q6 (fbin 2, - fbin 2) A B C). split; [exact SN|]. cbn [fst snd]. split; [|split].
      * cbn [manifest csum cprod erename rot3 tprod Nat.even orb]. rewrite Mr. rewrite !andb_true_r. rewrite andb_true_iff. split; apply fleb_le; [exact T4|exact (flt_le (fbin_pos K 2))].
      * intros A B C _. cbn [ev]. rewrite Vr. evs. cbn [fbin]. field. fnz.
      * intros A B C. unfold Q6 at 3. cbn [fst snd]. ring.
    + intro env. cbn [defined csum cprod tprod erename rot3]. repeat split; auto.
  - destruct (TernaryQuad.common_quadratic (fst m) (snd m)) as [p0|] eqn:Eq; [|intro H; congruence].
    destruct (quad_ok _ _ _ Eq) as (Dq & Vq & Mq & Rq). rewrite <- surjective_pairing in Vq. intro H.
    assert (Hs : s = ((EC (t / fbin 4) * p0 * tprod + csum ((EX 0 - EX 1) ^ 2) / EC (fbin 2) * p0 * rem_poly rem r)%E, (0, 0))) by congruence.
    subst s. cbn [fst snd]. split; [|split; [reflexivity|]].
    + exists (fun A B C => rest6 t rem r A B C * Q6 m A B C). split; [exact SN|]. cbn [fst snd]. split; [|split].
      * cbn [manifest csum cprod erename rot3 tprod Nat.even orb]. rewrite Mr, (Rq P1 (flt_le P3)). cbn [andb]. rewrite !andb_true_r. rewrite andb_true_iff. split; apply fleb_le; [exact T4|exact (flt_le (fbin_pos K 2))].
      * intros A B C _. cbn [ev]. rewrite Vr, Vq. unfold rest6. unfold T6, cyc3. cbn [csum cprod erename rot3 ev pt3 tprod fbin fpow]. field. fnz.
      * intros A B C. unfold Q6 at 3. cbn [fst snd]. ring.
    + intro env. cbn [defined csum cprod tprod erename rot3 ev]. pose proof (Dq env). pose proof (Dr env). pose proof (fbin_nz K 2). tauto.
Qed.
Lemma rem_sos_ok t rem r m s : 0 <= t -> 0 <= rem -> rem_sos t rem r m = Ok (Some s) ->
  rem_ok t rem r m s /\ (rem = 0 -> snd s = (0, 0)) /\ (rem <> 0 -> r <> None -> forall env, defined env (fst s)).
Proof.
  intros Ht Hr. unfold rem_sos. destruct (is_std m) eqn:Es; cbn [negb]; [|intro H; congruence].
  assert (T4 : 0 <= t / fbin 4) by (apply fdiv_nonneg; [exact Ht|apply fbin_pos]).
  apply is_std_spec in Es. subst m.
  set (u2 := match r with None => 0 | Some r => rem * fbin 2 end). set (uv := match r with None => 0 | Some r => rem * r * fbin 2 end).
  set (v2 := match r with None => rem * fbin 2 | Some r => rem * r ^ 2 * fbin 2 end).
  cbv zeta. match goal with |- Ok (Some ?q) = _ -> _ => set (s0 := q) end. intro H. assert (Hs : s = s0) by congruence. subst s. unfold s0. clear H s0. cbn [fst snd].
  assert (U : 0 <= u2) by (unfold u2; destruct r; [apply fmul_nonneg; [exact Hr|exact (flt_le (fbin_pos K 2))]|apply fle_refl]).
  split; [|split].
  - pose (hh := fun a b c : K => match r with
      | Some r => (a - b) * (a + b - 2 * c) * (2 * (a * a - a * b + a * c + b * b + b * c) + r * (3 * a * b + a * c + b * c + c * c))
      | None => (a - b) * (a + b - 2 * c) * (3 * a * b + a * c + b * c + c * c) end).
    exists (fun A B C => t / 4 * ((A - B) ^ 2 + (B - C) ^ 2 + (C - A) ^ 2) * T6 A B C + rem / 4 * (hh A B C * hh A B C + hh B C A * hh B C A + hh C A B * hh C A B)).
    split; [|split; [|split]].
    + intros A B C. apply fadd_nonneg; apply fmul_nonneg.
      * apply fmul_nonneg; [apply fdiv_nonneg; [exact Ht|fpos]|]. repeat apply fadd_nonneg; cbn [fpow]; match goal with |- 0 <= ?a * (?a * 1) => replace (a * (a * 1)) with (a * a) by ring end; apply fsqr_nonneg.
      * apply T6_nonneg.
      * apply fdiv_nonneg; [exact Hr|fpos].
      * repeat apply fadd_nonneg; apply fsqr_nonneg.
    + cbn [manifest csum cprod erename rot3 tprod Nat.even orb fst]. rewrite !andb_true_r. rewrite !andb_true_iff. repeat split; apply fleb_le; [exact T4|exact (flt_le (fbin_pos K 1))|].
      apply fmul_nonneg; [exact (flt_le (fbin_pos K 8))|exact U].
    + intros A B C. cbn [fst]. intros (_ & (_ & _ & N8) & _). cbn [ev] in N8. unfold hh. clear hh.
      assert (N2 : u2 <> 0) by (intro E; apply N8; rewrite E; ring). clear N8.
      destruct r as [r|]; unfold u2, uv in *; [|exfalso; apply N2; reflexivity].
      assert (Nr : rem <> 0) by (intro E; apply N2; rewrite E; ring). clear N2 U.
      evs. field. nbz.
    + intros A B C. cbn [snd]. unfold hh, u2, uv, v2. destruct r as [r|]; evs; field; nbz.
  - intros ->. unfold u2, uv, v2. destruct r; cbn [fbin fpow]; f_equal; field; nbz.
  - intros Nr Hn env. cbn [defined csum cprod tprod erename rot3 ev]. destruct r as [r|]; [|congruence].
    assert (X : fbin 8 * u2 <> 0) by (unfold u2; apply fmul_neq0; [apply fbin_nz|apply fmul_neq0; [exact Nr|apply fbin_nz]]). tauto.
Qed.

(** ** The border *)
Definition R0 (suv puv A B C : K) : K := cyc3 K (fun a b c => (a - b) * (a - c) * (a ^ 2 - suv * a * b + puv * b ^ 2) * (a ^ 2 - suv * a * c + puv * c ^ 2)) A B C.
Definition R1 (suv puv A B C : K) : K := cyc3 K (fun a b c => b * c * (a - b) * (a - c) * (a ^ 2 - suv * a * b + puv * b ^ 2) * (a ^ 2 - suv * a * c + puv * c ^ 2)) A B C.
Lemma border_id (suv puv m : K) A B C : m - 2 <> 0 -> m + puv - 2 <> 0 -> suv - 2 * m - 1 <> 0 ->
  (R0 suv puv A B C - b_w suv puv m * D6 K A B C) * Q6 (1, b_phi suv puv m) A B C =
  ev (pt3 A B C) (b_solution suv puv m) + b_final suv puv m * (puv ^ 2 * ((A * B + B * C + C * A) * D6 K A B C) + (2 - m) * R1 suv puv A B C).
Proof.
  intros N1 N2 N3. unfold b_solution, b_rest, b_w, b_phi, b_final, b_denom, b_det1, b_det2, R0, R1. evs. field.
  repeat match goal with |- _ /\ _ => split end; first [assumption | fnz].
Qed.


Lemma F6_R0 x y A B C : x - 1 <> 0 ->
  F6 x y A B C = (x - 1) ^ 2 * R0 ((fbin 2 - fbin 2 * y) / (x - 1)) ((fbin 2 * x + y - fbin 2) / (x - 1)) A B C + (x ^ 2 - x * y + y ^ 2 - y) * D6 K A B C.
Proof. intro N. unfold R0. evs. field. exact N. Qed.
Lemma D6_nonneg A B C : 0 <= D6 K A B C.
Proof. unfold D6. apply fmul_nonneg; [apply fmul_nonneg|]; apply fsqr_nonneg. Qed.
Lemma sqp6_ok : manifest false (sqp6 : ex K) = true /\ (forall env, defined env (sqp6 : ex K)) /\ forall A B C, ev (pt3 A B C) sqp6 = D6 K A B C.
Proof. split; [reflexivity|]. split; [intro; cbn; tauto|]. intros. evs. ring. Qed.

Lemma degen_id (u : K) A B C :
  R0 u 0 A B C * Q6 (1, - u / fbin 4) A B C + (fbin 3 * u - fbin 5) * D6 K A B C * Q6 (1, - u / fbin 4) A B C =
  cyc3 K (fun a b c => a * (a - b) * (a - c) * (2 * a - u * b - u * c)) A B C ^ 2 / fbin 4
  + (1 - u / fbin 4) * cyc3 K (fun a b c => a * b * (a - b) ^ 2 * ((a - b) ^ 2 + (2 - u) * (a + b) * c - (3 - u) * c ^ 2) ^ 2) A B C
  + (1 - u / fbin 4) / 2 * cyc3 K (fun a b c => a ^ 2 * (b - c) ^ 2 * ((b + c - a) * (b + c - (u + 1) * a) - u * (a - c) * (a - b)) ^ 2) A B C.
Proof. unfold R0. evs. field. fnz. Qed.
Lemma sqr2 (z : K) : 0 <= z ^ 2.
Proof. cbn [fpow]. replace (z * (z * 1)) with (z * z) by ring. apply fsqr_nonneg. Qed.

Lemma S_degen_ok x y ker e real : x - 1 <> 0 -> (fbin 2 * x + y - fbin 2) / (x - 1) = 0 -> (fbin 2 - fbin 2 * y) / (x - 1) <= fbin 4 ->
  S_degen x y ((fbin 2 - fbin 2 * y) / (x - 1)) ker = Ok (Some (e, real)) ->
  real = false /\ exact6 false e (fun A B C => F6 x y A B C + ker * D6 K A B C) /\ def6 false e.
Proof.
  intros N Hp Hu. set (u := (fbin 2 - fbin 2 * y) / (x - 1)) in *. unfold S_degen.
  destruct (_ <? 0) eqn:Ex; [intro H; congruence|]. apply fltb_ge in Ex.
  destruct (TernaryQuad.common_quadratic 1 (- u / fbin 4)) as [q|] eqn:Eq; [|intro H; congruence].
  destruct (quad_ok _ _ _ Eq) as (Dq & Vq & Mq & _). intro H. apply pair_inj in H. destruct H as [<- <-].
  assert (U4 : 0 <= 1 - u / fbin 4).
  { apply (proj1 (fle_sub _ _)) in Hu. replace (1 - u / fbin 4) with ((fbin 4 - u) / fbin 4) by (field; apply fbin_nz). apply fdiv_nonneg; [exact Hu|apply fbin_pos]. }
  split; [reflexivity|]. split; [split|].
  - cbn [manifest csum cprod erename rot3 negb Nat.even orb sqp6]. rewrite Mq. rewrite !andb_true_r, !andb_true_iff. repeat split; apply fleb_le.
    + apply fdiv_nonneg; [apply sqr2|apply fbin_pos].
    + apply fmul_nonneg; [apply sqr2|exact U4].
    + apply fdiv_nonneg; [apply fmul_nonneg; [apply sqr2|exact U4]|apply fbin_pos].
    + exact Ex.
  - intros A B C D. assert (Q0 : Q6 (1, - u / fbin 4) A B C <> 0) by (rewrite <- Vq; destruct D as [(_ & _ & D) _]; exact D).
    pose proof (degen_id u A B C) as I. rewrite (F6_R0 x y A B C N). fold u. rewrite Hp. cbn [ev]. rewrite Vq. destruct sqp6_ok as (_ & _ & Vs). rewrite Vs.
    cbn [csum erename rot3 ev pt3]. unfold cyc3 in I. cbn [fbin] in *. set (Q := Q6 _ _ _ _) in *. set (R := R0 u 0 A B C) in *. set (D' := D6 K A B C) in *. clearbody Q R D'.
    clear D Vq Eq Dq Mq Vs. apply (f_equal (fun v => (x - 1) ^ 2 * v / Q)) in I.
    match type of I with ?l = ?rr => transitivity (rr + (x ^ 2 - x * y + y ^ 2 - y - (x - 1) ^ 2 * (fbin 3 * u - fbin 5) + ker) * D') end.
    + clear I Hp Hu U4 Ex. clearbody u. cbn [fbin fpow]. field. nbz.
    + rewrite <- I. cbn [fbin fpow]. field. exact Q0.
  - intros A B C O. cbn [defined csum cprod sqp6 erename rot3 ev pt3]. assert (Q0 : ev (pt3 A B C) q <> 0).
    { rewrite Vq. apply flt_neq0. apply (Q6_pos false); cbn [fst snd]; [apply f1_pos| |discriminate|exact O].
      replace (1 + - u / fbin 4) with (1 - u / fbin 4) by (field; apply fbin_nz). exact U4. }
    pose proof (Dq (pt3 A B C)). cbn [pt3] in *. tauto.
Qed.

(** what is known of a number m that passes the tests *)
Lemma not_bad (suv puv m : K) : b_bad suv puv m = false -> m - 2 <> 0 /\ m + puv - 2 <> 0 /\ suv - 2 * m - 1 <> 0.
Proof.
  unfold b_bad. rewrite !orb_false_iff. intros [[E1 E2] E3]. apply (feqb_neq K) in E1. apply (feqb_neq K) in E2. apply (feqb_neq K) in E3. cbn [fbin] in *.
  repeat split; intro X; [apply E1|apply E2|apply E3].
  - transitivity (m - 2 + (1 + 1) * 1); [ring|rewrite X; ring].
  - transitivity (m + puv - 2 + (1 + 1) * 1); [ring|rewrite X; ring].
  - transitivity (suv - 2 * m - 1); [ring|exact X].
Qed.
Lemma b_solution_ok (suv puv m : K) : b_valid suv puv m = true ->
  manifest true (b_solution suv puv m) = true /\ (forall env, defined env (b_solution suv puv m)) /\ - (1) <= b_phi suv puv m.
Proof.
  unfold b_valid. rewrite andb_true_iff. intros [E1 E2]. apply fleb_le in E1. apply fleb_le in E2. apply (proj1 (fle_sub _ _)) in E2.
  split; [|split; [|exact E1]].
  - unfold b_solution. cbn [manifest csum erename rot3 Nat.even orb andb]. rewrite !andb_true_r, andb_true_iff. split; apply fleb_le; [exact (flt_le (fbin_pos K 2))|exact E2].
  - intro env. pose proof (fbin_nz K 2) as N2. unfold b_solution. cbn [defined csum erename rot3 ev]. tauto.
Qed.
End Facts.
