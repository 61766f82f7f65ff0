(** * Symmetric septics: the answers of the solver *)
From Coq Require Import Bool List Arith Lia ZArith Ring Field.
From Verif Require Import OrdField Base Congruence Perm Poly PolyId PolyOps Coeff Expr CertLimit TriPoly Monomials Univariate UnivariateLemmas StructUtils.
From Verif Require Sparse TernaryQuad TernaryTables TernaryCubic.
From Verif Require Import SymDiv DenseSym DenseSymFacts DenseSymAxis DenseSymMain DenseSymTop Septic SepticFacts SepticForm SepticMain.
Import ListNotations.

Section Top.
Variable K : OrdField.
Local Open Scope of_scope.
Add Field Kf : (F_field K).
Implicit Types (x y A B C f g ker k : K) (e : ex K) (w : wsos K).

Lemma fcert_ext e (f g : K -> K -> K -> K) : (forall A B C, f A B C = g A B C) -> fcert K e f -> fcert K e g.
Proof. intros E (M & V & D). split; [exact M|]. split; [|exact D]. intros. rewrite <- E. apply V. assumption. Qed.
Lemma fcert_add e1 e2 (f g : K -> K -> K -> K) : fcert K e1 f -> fcert K e2 g -> fcert K (e1 + e2)%E (fun A B C => f A B C + g A B C).
Proof.
  intros (M1 & V1 & D1) (M2 & V2 & D2). split; [cbn; rewrite M1, M2; reflexivity|]. split.
  - intros A B C [H1 H2]. cbn [ev]. rewrite V1, V2 by assumption. reflexivity.
  - intros A B C HA HB HC N. split; [apply D1|apply D2]; assumption.
Qed.
Lemma fcert_mul e1 e2 (f g : K -> K -> K -> K) : fcert K e1 f -> fcert K e2 g -> fcert K (e1 * e2)%E (fun A B C => f A B C * g A B C).
Proof.
  intros (M1 & V1 & D1) (M2 & V2 & D2). split; [cbn; rewrite M1, M2; reflexivity|]. split.
  - intros A B C [H1 H2]. cbn [ev]. rewrite V1, V2 by assumption. reflexivity.
  - intros A B C HA HB HC N. split; [apply D1|apply D2]; assumption.
Qed.
Lemma fcert_const (k : K) : 0 <= k -> fcert K (EC k) (fun _ _ _ => k).
Proof. intro H. split; [cbn; apply fleb_le, H|]. split; [intros; reflexivity|intros; exact I]. Qed.
Lemma fcert_schur : fcert K schur3 (schurform K).
Proof. split; [apply schur3_manifest|]. split; [apply schur3_value|]. intros A B C HA HB HC _. apply schur3_defined; assumption. Qed.

(** ** [solve] *)
Lemma solve_g_ok f g ker k1 pf form gform gs s : 0 <= f -> 0 <= g ->
  fcert K pf (fun A B C => form A B C + k1 * D7 K A B C) -> (forall r, In r gs -> solver_ok K gform r) ->
  solve_g f g ker k1 pf gs = Ok (Some s) -> fcert K s (fun A B C => f * form A B C + g * gform A B C + ker * D7 K A B C).
Proof.
  intros Hf Hg Pf. induction gs as [|[[[pg k2]|]|] gs IH]; intros Hs H; cbn [solve_g] in H; try discriminate.
  - destruct (0 <=? _) eqn:E; [|apply IH; [intros r Hr; apply Hs; right; exact Hr|exact H]]. apply fleb_le in E.
    assert (Es : s = (EC f * pf + EC g * pg + EC (ker - f * k1 - g * k2) * csum (EX 0) * sqp)%E) by congruence. subst s.
    pose proof (Hs _ (or_introl eq_refl) pg k2 eq_refl) as Pg.
    apply (fcert_ext _ (fun A B C => f * (form A B C + k1 * D7 K A B C) + g * (gform A B C + k2 * D7 K A B C) + (ker - f * k1 - g * k2) * D7 K A B C)); [intros; ring|].
    apply fcert_add; [apply fcert_add; apply fcert_mul; first [assumption | apply fcert_const; assumption]|].
    split; [cbn; apply fleb_le in E; rewrite E; reflexivity|]. split; [|intros; cbn; tauto].
    intros A B C _. unfold sqp, D7. cbn [ev csum cprod erename rot3 pt3 fpow]. ring.
  - apply IH; [intros r Hr; apply Hs; right; exact Hr|exact H].
Qed.
Lemma solve_f_ok f g ker form gform fs gs s : 0 <= f -> 0 <= g -> (forall r, In r fs -> solver_ok K form r) -> (forall r, In r gs -> solver_ok K gform r) ->
  solve_f f g ker fs gs = Ok (Some s) -> fcert K s (fun A B C => f * form A B C + g * gform A B C + ker * D7 K A B C).
Proof.
  intros Hf Hg. induction fs as [|[[[pf k1]|]|] fs IH]; intros Hs Hgs H; cbn [solve_f] in H; try discriminate.
  - destruct (solve_g f g ker k1 pf gs) as [[s'|]|] eqn:E; [|apply IH; [intros r Hr; apply Hs; right; exact Hr|exact Hgs|exact H]|discriminate].
    assert (s' = s) by congruence. subst s'. apply (solve_g_ok f g ker k1 pf form gform gs s Hf Hg); [|exact Hgs|exact E]. apply (Hs _ (or_introl eq_refl)). reflexivity.
  - apply IH; [intros r Hr; apply Hs; right; exact Hr|exact Hgs|exact H].
Qed.
Lemma septic_solve_ok f fx fy g gx gy ker s : 0 <= f -> 0 <= g -> septic_solve f fx fy g gx gy ker = Ok (Some s) ->
  fcert K s (fun A B C => f * Fform K fx fy A B C + g * Gform K gx gy A B C + ker * D7 K A B C).
Proof. intros Hf Hg. apply solve_f_ok; [exact Hf|exact Hg|apply F_solvers_ok|apply G_solvers_ok]. Qed.

(** [solve] never raises *)
Lemma solve_g_total f g ker k1 pf gs : (forall r, In r gs -> exists o, r = Ok o) -> exists o, solve_g (K := K) f g ker k1 pf gs = Ok o.
Proof.
  induction gs as [|r gs IH]; intro H; [exists None; reflexivity|].
  destruct (H r (or_introl eq_refl)) as [[[pg k2]|] ->]; cbn [solve_g].
  - destruct (0 <=? _); [eexists; reflexivity|]. apply IH. intros r Hr. apply H. right. exact Hr.
  - apply IH. intros r Hr. apply H. right. exact Hr.
Qed.
Lemma solve_f_total f g ker fs gs : (forall r, In r fs -> exists o, r = Ok o) -> (forall r, In r gs -> exists o, r = Ok o) -> exists o, solve_f (K := K) f g ker fs gs = Ok o.
Proof.
  intros H Hg. induction fs as [|r fs IH]; [exists None; reflexivity|].
  assert (IH' : exists o, solve_f f g ker fs gs = Ok o) by (apply IH; intros r' Hr; apply H; right; exact Hr).
  destruct (H r (or_introl eq_refl)) as [[[pf k1]|] ->]; cbn [solve_f]; [|exact IH'].
  destruct (solve_g_total f g ker k1 pf gs Hg) as [[s|] ->]; [eexists; reflexivity|exact IH'].
Qed.
Lemma septic_solve_total f fx fy g gx gy ker : exists o, septic_solve (K := K) f fx fy g gx gy ker = Ok o.
Proof.
  apply solve_f_total.
  - intros r [<-|[<-|[<-|[<-|[<-|[]]]]]].
    + unfold F_square. destruct (_ =? _); eauto.
    + unfold F_sos. repeat match goal with |- context [if ?c then _ else _] => destruct c end; eauto.
    + unfold F_sos. repeat match goal with |- context [if ?c then _ else _] => destruct c end; eauto.
    + apply F_border_never_raises.
    + unfold F_regular. eauto.
  - intros r [<-|[<-|[<-|[]]]]; [unfold G_trivial; eauto| |].
    + unfold G_border. repeat match goal with |- context [if ?c then _ else _] => destruct c end; eauto.
    + unfold G_sos. cbv zeta. match goal with |- context [if ?c then Ok _ else Ok _] => destruct c end; eauto.
Qed.

(** ** The remaining terms *)
Definition Rform1 (r : option K) A B C : K := match r with
  | Some r => schurform K A B C * cyc3 K (fun a b c => a ^ 2 + r * (a * b)) A B C ^ 2
  | None => schurform K A B C * cyc3 K (fun a b c => a * b) A B C ^ 2 end.
Definition Rform2 (r : option K) A B C : K := match r with
  | Some r => cyc3 K (fun a b c => a * (b - c) ^ 2) A B C * cyc3 K (fun a b c => a ^ 2 + r * (a * b)) A B C ^ 2
  | None => cyc3 K (fun a b c => a * (b - c) ^ 2) A B C * cyc3 K (fun a b c => a * b) A B C ^ 2 end.
Definition Sform (r : K) A B C : K := cyc3 K (fun a b c => a ^ 2 + r * (a * b)) A B C ^ 2.
Lemma rem_cert (rem : K) (r : option K) : 0 <= rem -> fcert K (rem_poly rem r) (fun A B C => rem * match r with Some r => Sform r A B C | None => cyc3 K (fun a b c => a * b) A B C ^ 2 end).
Proof.
  intro H. apply fleb_le in H. destruct r as [r|]; (split; [cbn; rewrite H; reflexivity|]; split; [|intros; cbn; tauto]);
    intros A B C _; unfold Sform, cyc3; cbn [rem_poly ev csum erename rot3 pt3 fpow]; ring.
Qed.
Definition T1 A B C : K := cyc3 K (fun a b c => a * (2 * a - b - c) ^ 2 * (a - b) ^ 2 * (a - c) ^ 2) A B C.
Definition T2 A B C : K := cyc3 K (fun a b c => a * (2 * a - b - c) ^ 2 * (b - c) ^ 4) A B C.
Lemma sep7_Rf r : sep7 K (Rform1 r) (f_rem_ker r).
Proof. destruct r as [r|]; [apply sep7_R1|apply sep7_R1o]. Qed.
Lemma sep7_Rg r : sep7 K (Rform2 r) (g_rem_ker r).
Proof. destruct r as [r|]; [|apply sep7_R2o]. eapply sep7_ext; [intros; reflexivity| |apply sep7_R2]. unfold g_rem_ker. cbn [fbin]. ring. Qed.

(** on the symmetric axis *)
Lemma axis_F x y z : Fform K x y z 1 1 = z * (z - 1) ^ 2 * ((x - 1) * (z * z) - (2 - 2 * y) * z + (2 * x + y - 2)) ^ 2.
Proof. unfold Fform, xyform, schurform, cyc3. cbn [fpow]. ring. Qed.
Lemma axis_G x y z : Gform K x y z 1 1 = 2 * (z - 1) ^ 2 * ((x - 1) * (z * z) - (2 - 2 * y) * z + (2 * x + y - 2)) ^ 2.
Proof. unfold Gform, xyform, schurform, cyc3. cbn [fpow]. ring. Qed.
Lemma axis_Rf r z : Rform1 r z 1 1 = z * (z - 1) ^ 2 * rem_axis K r z ^ 2.
Proof. destruct r as [r|]; unfold Rform1, rem_axis, schurform, cyc3; cbn [fpow]; ring. Qed.
Lemma axis_Rg r z : Rform2 r z 1 1 = 2 * (z - 1) ^ 2 * rem_axis K r z ^ 2.
Proof. destruct r as [r|]; unfold Rform2, rem_axis, cyc3; cbn [fpow]; ring. Qed.
Lemma axis_T1 z : T1 z 1 1 = 4 * (z * (z - 1) ^ 6).
Proof. unfold T1, cyc3. cbn [fpow]. ring. Qed.
Lemma axis_T2 z : T2 z 1 1 = 2 * (z - 1) ^ 6.
Proof. unfold T2, cyc3. cbn [fpow]. ring. Qed.

(** a symmetric septic with the right values on the axis *)
Lemma septic_identity P (c520 : K) ft f fx fy frem fr gt g gx gy grem gr : sep7 K P c520 ->
  (forall z, P z 1 1 = (z - 1) ^ 2 * (z * quartic_of K ft f fx fy frem fr z + 2 * quartic_of K gt g gx gy grem gr z)) ->
  forall A B C, P A B C = f * Fform K fx fy A B C + g * Gform K gx gy A B C + ft / fbin 4 * T1 A B C + gt * T2 A B C
    + frem * Rform1 fr A B C + grem * Rform2 gr A B C + ker_coeff c520 ft f fx fy frem fr gt g gx gy grem gr * D7 K A B C.
Proof.
  intros HP HA.
  set (G := fun A B C => 1 * (1 * (1 * (1 * (1 * (1 * P A B C + (- f) * Fform K fx fy A B C) + (- g) * Gform K gx gy A B C) + (- (ft / fbin 4)) * T1 A B C) + (- gt) * T2 A B C) + (- frem) * Rform1 fr A B C) + (- grem) * Rform2 gr A B C).
  assert (S : sep7 K G (ker_coeff c520 ft f fx fy frem fr gt g gx gy grem gr)).
  { eapply sep7_ext; [intros A B C; unfold G; reflexivity| |].
    2: { unfold G. do 6 (eapply sep7_lin; [|first [apply sep7_F | apply sep7_G | apply sep7_T1 | apply sep7_T2 | apply sep7_Rf | apply sep7_Rg]]). exact HP. }
    unfold ker_coeff. cbn [fpow fbin]. field. fnz. }
  assert (Z : forall z, G z 1 1 = 0).
  { intro z. unfold G. rewrite HA, axis_F, axis_G, axis_Rf, axis_Rg, axis_T1, axis_T2. unfold quartic_of. cbn [fpow fbin]. field. fnz. }
  intros A B C. pose proof (zero_axis K G _ S Z A B C) as E. unfold G in E. rewrite <- E. ring.
Qed.

(** ** The parts *)
Lemma sumsq_value w z : ueval (sumsq w) z = weval w z.
Proof.
  induction w as [|[k v] w IH]; [reflexivity|]. change (sumsq ((k, v) :: w)) with (uadd (uscale k (umul v v)) (sumsq w)).
  rewrite ueval_uadd, ueval_uscale, ueval_umul, IH, weval_cons. reflexivity.
Qed.
Lemma parts_quartic w : quad_parts K w -> quartic K (sumsq w).
Proof.
  intro H. set (s0 := ksum k1 k1 w). set (x0 := ksum k1 k2 w). set (y0 := ksum k1 k3 w). set (m0 := ksum k2 k2 w). set (c0 := ksum k2 k3 w). set (n0 := ksum k3 k3 w).
  exists [4 * s0 - (4 + 4) * x0 - 4 * y0 + 4 * m0 + 4 * c0 + n0; (4 + 4) * s0 - (4 + 4) * x0 - (4 + 4 + 4) * y0 + (4 + 4) * c0 + 4 * n0;
          (4 + 4) * s0 - (4 + 4) * x0 - (4 + 4 + 2) * y0 + 4 * m0 + 2 * c0 + 4 * n0; 4 * s0 - 4 * x0 - 4 * y0 + 4 * c0; s0 - 2 * x0 + m0].
  split; [reflexivity|]. intro z. rewrite sumsq_value. pose proof (weval_basis K w z H) as X. cbv zeta in X. rewrite X. fold s0 x0 y0 m0 c0 n0.
  rewrite !ueval_cons. cbn [ueval]. change (ueval [] z) with (0 : K). ring.
Qed.

Lemma septic_axis uni p sym w0 w1 : uni_ok K uni -> wf 3 p -> homdeg 7 p -> div_sq1 (axis 7 p) = (sym, (0, 0)) -> uni sym = Ok (Some (w0, w1)) ->
  wnonneg K w0 /\ wnonneg K w1 /\ quad_parts K w0 /\ quad_parts K w1 /\ forall z, peval (pt3 z 1 1) p = (z - 1) ^ 2 * (z * weval w1 z + weval w0 z).
Proof.
  intros U W Hd Ed Eu. destruct (div_sq1_spec K _ _ _ _ Ed) as [L V]. assert (La : length (axis 7 p) = 8%nat) by (unfold axis; rewrite map_length, seq_length; reflexivity).
  rewrite La in L. pose proof (U _ _ Eu) as P. destruct (proof_degrees K _ _ 5 P ltac:(lia)) as [P0 P1]. destruct P as (N0 & N1 & Vs). cbn [fst snd] in *.
  split; [exact N0|]. split; [exact N1|]. split; [intros k v n Hin Hk Hn; specialize (P0 k v n Hin Hk Hn); lia|]. split; [intros k v n Hin Hk Hn; specialize (P1 k v n Hin Hk Hn); lia|].
  intro z. rewrite <- (axis_value K 7 p z W Hd), V, Vs. cbn [fpow]. ring.
Qed.

Lemma half_quartic (f : list K) : quartic K f -> quartic K (uscale (1 / fbin 2) f).
Proof.
  intros (l & L & V). exists (uscale (1 / fbin 2) l). split; [unfold uscale; rewrite map_length; exact L|]. intro z. rewrite !ueval_uscale, V. reflexivity.
Qed.

Lemma tail_cert (ft gt : K) : 0 <= ft -> 0 <= gt ->
  fcert K (csum (EX 0 * (EC 2 * EX 0 - EX 1 - EX 2) ^ 2 * (EC (ft / fbin 4) * (EX 0 - EX 1) ^ 2 * (EX 0 - EX 2) ^ 2 + EC gt * (EX 1 - EX 2) ^ 4))%E)
    (fun A B C => ft / fbin 4 * T1 A B C + gt * T2 A B C).
Proof.
  intros Hf Hg. assert (X : (0 <=? ft / fbin 4) = true) by (apply fleb_le, fdiv_nonneg; [exact Hf|apply fbin_pos]). apply fleb_le in Hg.
  split; [cbn [manifest csum erename rot3 Nat.even]; rewrite X, Hg; reflexivity|]. split; [|intros; cbn; tauto].
  intros A B C _. unfold T1, T2, cyc3. cbn [ev csum erename rot3 pt3 fpow]. ring.
Qed.
Lemma gap_cert : fcert K (csum (EX 0 * (EX 1 - EX 2) ^ 2)%E) (fun A B C => cyc3 K (fun a b c => a * (b - c) ^ 2) A B C).
Proof. split; [reflexivity|]. split; [|intros; cbn; tauto]. intros A B C _. reflexivity. Qed.

Lemma quadratic_exact uni p e : uni_ok K uni -> wf 3 p -> homdeg 7 p -> cyclic3 (cfp p) -> sym_septic K (cfp p) ->
  quadratic_form uni p = Ok (Some e) -> fcert K e (fun A B C => peval (pt3 A B C) p).
Proof.
  intros U W Hd Hc Hs. unfold quadratic_form. destruct (div_sq1 (axis 7 p)) as [sym [u v]] eqn:Ed.
  destruct ((u =? 0) && (v =? 0))%bool eqn:E0; cbn [negb]; [|discriminate]. apply andb_prop in E0. destruct E0 as [U0 V0]. apply feqb_eq in U0, V0. subst u v.
  destruct (uni sym) as [[[w0 w1]|]|] eqn:Eu; try discriminate.
  destruct (septic_axis uni p sym w0 w1 U W Hd Ed Eu) as (N0 & N1 & Q0 & Q1 & Va).
  destruct (restructure uni (sumsq w1)) as [[| |ft f fx fy frem fr]|] eqn:Ef; try discriminate;
  destruct (restructure uni (uscale _ (sumsq w0))) as [[| |gt g gx gy grem gr]|] eqn:Eg; try discriminate.
  destruct (restructure_spec K _ _ _ _ _ _ _ _ U (parts_quartic w1 Q1) Ef) as (F1 & F2 & F3 & VF).
  destruct (restructure_spec K _ _ _ _ _ _ _ _ U (half_quartic _ (parts_quartic w0 Q0)) Eg) as (G1 & G2 & G3 & VG).
  cbv zeta. destruct (septic_solve _ _ _ _ _ _ _) as [[s|]|] eqn:Es; try discriminate. intro H. apply Ok_inj in H.
  match type of H with Some ?t = _ => assert (He : t = e) by congruence end. subst e. clear H.
  pose proof (septic_solve_ok f fx fy g gx gy _ s F2 G2 Es) as CS.
  assert (S7 : sep7 K (fun A B C => peval (pt3 A B C) p) (coef p [5; 2; 0]%nat)).
  { eapply sep7_ext; [|reflexivity|apply (sep7_tri K _ Hc Hs)]. intros A B C. symmetry. apply peval_tri; assumption. }
  pose proof (septic_identity _ _ ft f fx fy frem fr gt g gx gy grem gr S7) as Id. cbv beta in Id.
  eapply fcert_ext; [|apply fcert_add; [apply fcert_add; [apply fcert_add; [exact CS|apply tail_cert; assumption]|apply fcert_mul; [apply (rem_cert frem fr F3)|apply fcert_schur]]|apply fcert_mul; [apply (rem_cert grem gr G3)|apply gap_cert]]].
  intros A B C. cbv beta. rewrite Id.
  - unfold Rform1, Rform2, Sform. destruct fr, gr; ring.
  - intro z. rewrite Va, <- VF, <- VG, ueval_uscale, !sumsq_value. cbn [fbin]. field. fnz.
Qed.

(** ** Exceptions *)
Lemma restructure_total uni (f : list K) o : uni_ok K uni -> quartic K f ->
  (exists w, uni f = Ok (Some (w, []))) -> restructure uni f = o -> exists r, o = Ok r /\ r <> RNone.
Proof.
  intros U (l & Hl & Vl) (w & Eu). unfold restructure. destruct (forallb _ f) eqn:E0; [intros <-; eexists; split; [reflexivity|discriminate]|].
  rewrite Eu. assert (P : wnonneg K w) by exact (proj1 (U _ _ Eu)). clear Eu.
  set (s0 := ksum k1 k1 w). set (x0 := ksum k1 k2 w). set (y0 := ksum k1 k3 w). set (m0 := ksum k2 k2 w). set (c0 := ksum k2 k3 w). set (n0 := ksum k3 k3 w).
  cbv zeta. destruct (s0 =? 0) eqn:Es; [intros <-; eexists; split; [reflexivity|discriminate]|]. apply feqb_neq in Es.
  set (m := m0 - x0 ^ 2 / s0). set (p := fbin 2 * c0 - fbin 2 * x0 * y0 / s0). set (n := fbin 2 * m0 + n0 - (fbin 2 * x0 ^ 2 + y0 ^ 2) / s0).
  set (n' := n0 - y0 ^ 2 / s0).
  assert (En : n = 2 * m + n') by (subst n m n'; cbn [fbin fpow]; field; exact Es).
  assert (PSD : forall al be, 0 <= m * (al * al) + p * (al * be) + n' * (be * be)).
  { intros al be. pose proof (ksum_square K al be ((al * x0 + be * y0) / s0) w P) as X. fold s0 x0 y0 m0 c0 n0 in X.
    match type of X with 0 <= ?g => match goal with |- 0 <= ?h => replace h with g by (subst m p n'; cbn [fbin fpow]; field; exact Es) end end. exact X. }
  destruct (psd_diag K m p n' PSD) as [De Dz].
  assert (M : 0 <= m) by (pose proof (PSD 1 0) as X; match type of X with 0 <= ?r => replace m with r by ring end; exact X).
  assert (N' : 0 <= n') by (pose proof (PSD 0 1) as X; match type of X with 0 <= ?r => replace n' with r by ring end; exact X).
  assert (Det : 0 <= m * n' - p * p / 4).
  { destruct (feq_dec K m 0) as [Z|Z].
    - pose proof (PSD (- (n' + 1) * p) (1)) as X0. pose proof (PSD ((n' + 1) * - p / 1) 1) as X. clear X. rewrite Z in X0 |- *.
      match type of X0 with 0 <= ?r => replace r with (n' - (n' + 1) * (p * p)) in X0 by ring end.
      destruct (feq_dec K p 0) as [->|Hp]; [replace (0 * n' - 0 * 0 / 4) with (0 : K) by (field; fnz); apply fle_refl|exfalso].
      pose proof (PSD (- (n' + 1) / p) 1) as X. rewrite Z in X.
      match type of X with 0 <= ?r => replace r with (- (1) : K) in X by (field; exact Hp) end.
      apply (flt_irrefl K 0). apply (flt_le_trans K _ 1); [apply f1_pos|]. apply fle_sub. replace (0 - 1) with (- (1) : K) by ring. exact X.
    - assert (Mp : 0 < m) by (apply flt_le_neq; split; [exact M|congruence]). pose proof (PSD (- (p / 2)) m) as X.
      match type of X with 0 <= ?r => replace r with (m * (m * n' - p * p / 4)) in X by (field; fnz) end.
      destruct (fleb 0 (m * n' - p * p / 4)) eqn:E; [apply fleb_le, E|exfalso]. apply fleb_gt in E.
      apply (flt_irrefl K 0). apply (flt_le_trans K _ (m * - (m * n' - p * p / 4))).
      + apply fmul_pos; [exact Mp|]. apply flt_sub in E. match type of E with 0 < ?r => match goal with |- 0 < ?g => replace g with r by ring end end. exact E.
      + apply fle_sub. match goal with |- 0 <= ?g => match type of X with 0 <= ?r => replace g with r by ring end end. exact X. }
  clearbody m p n' n. subst n.
  destruct ((2 * m + n' =? fbin 3 * m) && _)%bool eqn:Ec; [intros <-; eexists; split; [reflexivity|discriminate]|].
  assert (E : m + p + n' <> 0).
  { intro X. destruct (Dz X) as [-> ->]. apply andb_false_iff in Ec. destruct Ec as [Ec|Ec]; apply feqb_neq in Ec; apply Ec; cbn [fbin]; ring. }
  assert (EP : 0 < m + p + n') by (apply flt_le_neq; split; [exact De|congruence]).
  set (t0 := (- fbin 2 * m ^ 2 + m * (2 * m + n') - p ^ 2 / fbin 4) / (2 * m + n' + p - m)).
  assert (T : t0 = (m * n' - p * p / 4) / (m + p + n')).
  { subst t0. cbn [fbin fpow]. replace (2 * m + n' + p - m) with (m + p + n') by ring. field. fside. }
  clearbody t0. assert (T0 : 0 <= t0) by (rewrite T; apply fdiv_nonneg; assumption).
  destruct (t0 <? 0) eqn:Et; [apply fltb_lt in Et; exfalso; exact (flt_irrefl K _ (flt_le_trans K _ _ _ Et T0))|].
  destruct (m =? t0) eqn:Em; [|intros <-; eexists; split; [reflexivity|discriminate]]. apply feqb_eq in Em.
  assert (R : 0 <= n' - t0).
  { replace (n' - t0) with ((n' + p / 2) * (n' + p / 2) / (m + p + n')) by (rewrite T; field; fside). apply fdiv_nonneg; [apply fsqr_nonneg|exact EP]. }
  destruct (2 * m + n' - fbin 3 * t0 <? 0) eqn:Er; [|intros <-; eexists; split; [reflexivity|discriminate]]. apply fltb_lt in Er. exfalso.
  apply (flt_irrefl K 0). apply (fle_lt_trans K _ (n' - t0)); [exact R|]. rewrite <- Em in Er |- *. replace (n' - m) with (2 * m + n' - fbin 3 * m) by (cbn [fbin]; ring). exact Er.
Qed.

Lemma wscale_weval (k : K) w z : weval (map (fun t => (k * fst t, snd t)) w) z = k * weval w z.
Proof. induction w as [|[c v] w IH]; [rewrite !weval_nil; ring|]. cbn [map fst snd]. rewrite !weval_cons, IH. cbn [fst snd]. ring. Qed.
(** a sum of squares that the univariate prover does not write as squares alone *)
Definition unproved (uni : list K -> res (option (wsos K * wsos K))) : Prop :=
  exists (f : list K) w, wnonneg K w /\ (forall z, ueval f z = weval w z) /\ forall w', uni f <> Ok (Some (w', [])).
Lemma restructure_raises uni (f : list K) w : uni_ok K uni -> quartic K f -> wnonneg K w -> (forall z, ueval f z = weval w z) ->
  (exists r, restructure uni f = Ok r /\ r <> RNone) \/ (exists x : exn, restructure uni f = Err x /\ uni f = Err x) \/ (restructure uni f = Ok RNone /\ unproved uni).
Proof.
  intros U Q W V. destruct (uni f) as [[[w' [|h t]]|]|x] eqn:Eu.
  - left. apply (restructure_total uni f _ U Q); [exists w'; exact Eu|reflexivity].
  - unfold restructure. rewrite Eu. destruct (forallb _ f); [left; eexists; split; [reflexivity|discriminate]|]. right. right. split; [reflexivity|]. exists f, w. split; [exact W|]. split; [exact V|]. intro. rewrite Eu. discriminate.
  - unfold restructure. rewrite Eu. destruct (forallb _ f); [left; eexists; split; [reflexivity|discriminate]|]. right. right. split; [reflexivity|]. exists f, w. split; [exact W|]. split; [exact V|]. intro. rewrite Eu. discriminate.
  - unfold restructure. rewrite Eu. destruct (forallb _ f); [left; eexists; split; [reflexivity|discriminate]|]. right. left. exists x. split; reflexivity.
Qed.
Lemma quadratic_raises uni p (x : exn) : uni_ok K uni -> wf 3 p -> homdeg 7 p -> quadratic_form uni p = Err x ->
  (exists f : list K, uni f = Err x) \/ (x = TypeError /\ unproved uni).
Proof.
  intros U W Hd. unfold quadratic_form. destruct (div_sq1 (axis 7 p)) as [sym [u v]] eqn:Ed.
  destruct ((u =? 0) && (v =? 0))%bool eqn:E0; cbn [negb]; [|discriminate]. apply andb_prop in E0. destruct E0 as [U0 V0]. apply feqb_eq in U0, V0. subst u v.
  destruct (uni sym) as [[[w0 w1]|]|y] eqn:Eu; [|discriminate|intro H; left; exists sym; congruence].
  destruct (septic_axis uni p sym w0 w1 U W Hd Ed Eu) as (N0 & N1 & Q0 & Q1 & Va).
  destruct (restructure_raises uni _ w1 U (parts_quartic w1 Q1) N1 (sumsq_value w1)) as [(r1 & -> & R1)|[(y & -> & Ey)|[-> Un]]];
    [|intro H; left; eexists; rewrite Ey; congruence|intro H; right; split; [congruence|exact Un]].
  assert (N0' : wnonneg K (map (fun t => (1 / fbin 2 * fst t, snd t)) w0)).
  { intros t Ht. apply in_map_iff in Ht. destruct Ht as [t' [<- Ht']]. cbn [fst]. apply fmul_nonneg; [apply fdiv_nonneg; [apply f1_nonneg|apply fbin_pos]|apply N0, Ht']. }
  assert (V0 : forall z, ueval (uscale (1 / fbin 2) (sumsq w0)) z = weval (map (fun t => (1 / fbin 2 * fst t, snd t)) w0) z).
  { intro z. rewrite ueval_uscale, sumsq_value, wscale_weval. reflexivity. }
  destruct r1 as [| |ft f fx fy frem fr]; [contradiction| |].
  - destruct (restructure_raises uni _ _ U (half_quartic _ (parts_quartic w0 Q0)) N0' V0) as [(r0 & -> & R0)|[(y & -> & Ey)|[-> Un]]];
      [destruct r0; [contradiction|discriminate|discriminate]|intro H; left; eexists; rewrite Ey; congruence|intro H; right; split; [congruence|exact Un]].
  - destruct (restructure_raises uni _ _ U (half_quartic _ (parts_quartic w0 Q0)) N0' V0) as [(r0 & -> & R0)|[(y & -> & Ey)|[-> Un]]];
      [|intro H; left; eexists; rewrite Ey; congruence|intro H; right; split; [congruence|exact Un]].
    destruct r0 as [| |gt g gx gy grem gr]; [contradiction|discriminate|]. cbv zeta.
    match goal with |- context [septic_solve ?a ?b ?c ?d ?e ?f ?g] => destruct (septic_solve_total a b c d e f g) as [[s|] ->] end; discriminate.
Qed.

(** ** The solver *)
Lemma septic_guard p : forallb (fun t => match t with (i, j, k) => coef p [i; j; k] =? coef p [j; i; k] end) [(6, 1, 0); (5, 2, 0); (4, 3, 0); (4, 2, 1)]%nat = true ->
  sym_septic K (cfp p).
Proof.
  intro H. cbn [forallb] in H. apply andb_prop in H. destruct H as [H1 H]. apply andb_prop in H. destruct H as [H2 H]. apply andb_prop in H. destruct H as [H3 H]. apply andb_prop in H. destruct H as [H4 _].
  apply feqb_eq in H1, H2, H3, H4. repeat split; assumption.
Qed.
Lemma septic_symform p : wf 3 p -> homdeg 7 p -> cyclic3 (cfp p) -> sym_septic K (cfp p) -> symform K p.
Proof.
  intros W Hd Hc Hs. split; [exact W|]. split; [exists 7%nat; exact Hd|].
  destruct (sep7_tri K _ Hc Hs) as (c1 & c2 & c3 & c4 & c5 & c6 & c7 & V).
  split; intros A B C; rewrite !(peval_tri K 7 p) by assumption; rewrite !V; unfold sep, cyc3; ring.
Qed.
Lemma fcert_cert p e : fcert K e (fun A B C => peval (pt3 A B C) p) -> cert K p e.
Proof.
  intros (M & V & D). split; [exact V|]. split.
  - intros A B C HA HB HC Hd. apply (manifest_nonneg true e (pt3 A B C)); [|exact Hd|exact M]. intros _ [|[|[|i]]]; cbn; first [assumption | apply fle_refl].
  - exists 1, 2, 1. assert (P1 : (0 : K) < 1) by apply f1_pos. assert (P2 : (0 : K) < 2) by fpos. assert (Ne : (1 : K) <> 2).
    { intro E. apply (fneq10 K). transitivity ((2 : K) - 1); [ring|rewrite <- E; ring]. }
    split; [apply flt_le, P1|]. split; [apply flt_le, P2|]. split; [apply flt_le, P1|]. split; [exact Ne|]. apply D; [exact P1|exact P2|exact P1|]. intros [E _]. exact (Ne E).
Qed.
Lemma septic_exact liftfree uni israt p e :
  uni_ok K uni -> (forall q s, symform K q -> liftfree q = Ok (Some s) -> cert K q s) -> wf 3 p -> homdeg 7 p -> cyclic3 (cfp p) ->
  sos_struct_septic_symmetric liftfree uni israt p = Ok (Some e) -> cert K p e.
Proof.
  intros U L W Hd Hc. unfold sos_struct_septic_symmetric. destruct (forallb _ _) eqn:E; cbn [negb]; [|discriminate]. pose proof (septic_guard p E) as Hs.
  destruct (liftfree p) as [[s|]|] eqn:El; [| |discriminate].
  - intro H. assert (s = e) by congruence. subst s. apply L; [apply septic_symform; assumption|exact El].
  - destruct israt; [|discriminate]. intro H. apply fcert_cert. apply (quadratic_exact uni); assumption.
Qed.
Lemma cert_nonneg d p e : wf 3 p -> homdeg d p -> cert K p e -> forall A B C, 0 <= A -> 0 <= B -> 0 <= C -> 0 <= peval (pt3 A B C) p.
Proof.
  intros W Hd (V & N & (A0 & B0 & C0 & HA0 & HB0 & HC0 & _ & D)) A B C HA HB HC. rewrite (peval_tri K d p) by assumption.
  apply (cert_orthant d (cfp p) e A0 B0 C0 HA0 HB0 HC0 D); [|exact N|exact HA|exact HB|exact HC].
  intros. rewrite V by assumption. apply peval_tri; assumption.
Qed.

Lemma septic_centered uni pdiv ffloor rec israt p e :
  uni_ok K uni -> pdiv_ok K pdiv -> rec_ok K rec -> wf 3 p -> homdeg 7 p -> cyclic3 (cfp p) -> (1 <= coeff_degree p)%nat ->
  sos_struct_septic_symmetric (centered (liftfree_for_six pdiv ffloor rec)) uni israt p = Ok (Some e) ->
  (forall A B C, defined (pt3 A B C) e -> ev (pt3 A B C) e = peval (pt3 A B C) p) /\
  (forall A B C, 0 <= A -> 0 <= B -> 0 <= C -> defined (pt3 A B C) e -> 0 <= ev (pt3 A B C) e) /\
  (forall A B C, 0 <= A -> 0 <= B -> 0 <= C -> 0 <= peval (pt3 A B C) p).
Proof.
  intros U PD HR W Hd Hc H1. unfold sos_struct_septic_symmetric. destruct (forallb _ _) eqn:E; cbn [negb]; [|discriminate]. pose proof (septic_guard p E) as Hs.
  assert (G : cert K p e -> (forall A B C, defined (pt3 A B C) e -> ev (pt3 A B C) e = peval (pt3 A B C) p) /\
    (forall A B C, 0 <= A -> 0 <= B -> 0 <= C -> defined (pt3 A B C) e -> 0 <= ev (pt3 A B C) e) /\ (forall A B C, 0 <= A -> 0 <= B -> 0 <= C -> 0 <= peval (pt3 A B C) p)).
  { intro C. pose proof (cert_nonneg 7 p e W Hd C) as N. destruct C as (V & M & _). split; [exact V|]. split; [exact M|exact N]. }
  destruct (centered _ p) as [[s|]|] eqn:El; [| |discriminate]; intro H; apply G.
  - assert (s = e) by congruence. subst s. apply (centered_exact K (liftfree_for_six pdiv ffloor rec) p e); [|apply septic_symform; assumption|exact H1|exact El].
    intros q s Gq _ Hq. apply (liftfree_exact K pdiv ffloor PD rec q s HR Gq Hq).
  - destruct israt; [|discriminate]. apply fcert_cert. apply (quadratic_exact uni); assumption.
Qed.

Lemma swap_of_values p : wf 3 p -> (forall A B C, peval (pt3 A B C) p = peval (pt3 B A C) p) -> forall i j k : nat, cfp p i j k = cfp p j i k.
Proof.
  intros Hp H. assert (Hg : is_perm 3 [1; 0; 2]%nat) by (apply Permutation.perm_swap).
  assert (I : invariant_under [1; 0; 2]%nat p).
  { intro x. rewrite (peval_pt3 K _ p Hp), (peval_pt3 K x p Hp). cbn [nth]. symmetry. apply H. }
  pose proof (proj1 (rename_invariant_iff K 3 _ p Hg Hp) I) as J. intros i j k. unfold cfp. exact (J [j; i; k] eq_refl).
Qed.
Lemma axis_determines p q : wf 3 p -> homdeg 7 p -> symform K p -> wf 3 q -> homdeg 7 q -> symform K q ->
  (forall z, peval (pt3 z 1 1) p = peval (pt3 z 1 1) q) ->
  forall A B C, peval (pt3 A B C) p - peval (pt3 A B C) q
    = (coef p [5; 2; 0]%nat - coef q [5; 2; 0]%nat) * ((A + B + C) * ((A - B) * (B - C) * (C - A)) ^ 2).
Proof.
  intros Wp Hp (_ & _ & Cp & Sp) Wq Hq (_ & _ & Cq & Sq) V A B C.
  assert (X : forall r, wf 3 r -> homdeg 7 r -> (forall A B C, peval (pt3 A B C) r = peval (pt3 B C A) r) -> (forall A B C, peval (pt3 A B C) r = peval (pt3 B A C) r) ->
    sep7 K (fun A B C => peval (pt3 A B C) r) (coef r [5; 2; 0]%nat)).
  { intros r W Hd Hc Hs. eapply sep7_ext; [|reflexivity|apply (sep7_tri K (cfp r))].
    - intros. symmetry. apply peval_tri; assumption.
    - apply cyclic_of_values; assumption.
    - repeat split; apply (swap_of_values r W Hs). }
  pose proof (sep7_lin K _ _ _ _ 1 (- (1)) (X p Wp Hp Cp Sp) (X q Wq Hq Cq Sq)) as S.
  pose proof (zero_axis K _ _ S) as Z. cbv beta in Z. specialize (Z ltac:(intro z; rewrite V; ring) A B C).
  transitivity (1 * peval (pt3 A B C) p + - (1) * peval (pt3 A B C) q); [ring|]. rewrite Z. unfold D7. ring.
Qed.
End Top.
