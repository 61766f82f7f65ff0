(** * Dense symmetric ternary forms: exactness *)
From Coq Require Import Bool List Arith Lia ZArith Ring Field Permutation.
From Verif Require Import OrdField Base Perm Poly PolyId PolyOps Coeff Expr CertLimit TriPoly Monomials Univariate UnivariateLemmas.
From Verif Require Acute AcuteFacts Sparse TernaryTables.
From Verif Require Import SymDiv DenseSym DenseSymFacts DenseSymAxis.
Import ListNotations.

Section Main.
Variable K : OrdField.
Local Open Scope of_scope.
Add Field Kf : (F_field K).
Implicit Types (p q : poly K) (e : ex K) (f : list K).

(** a symmetric form in three variables *)
Definition symform p : Prop :=
  wf 3 p /\ (exists d, homdeg d p) /\
  (forall A B C, peval (pt3 A B C) p = peval (pt3 B C A) p) /\ (forall A B C, peval (pt3 A B C) p = peval (pt3 B A C) p).
(** a certificate: the value of the form where it is defined, non-negative on the orthant, and
    defined at some point of the orthant (with a <> b) *)
Definition cert p e : Prop :=
  (forall A B C, defined (pt3 A B C) e -> ev (pt3 A B C) e = peval (pt3 A B C) p) /\
  (forall A B C, 0 <= A -> 0 <= B -> 0 <= C -> defined (pt3 A B C) e -> 0 <= ev (pt3 A B C) e) /\
  (exists A B C, 0 <= A /\ 0 <= B /\ 0 <= C /\ A <> B /\ defined (pt3 A B C) e).

Variable uni : list K -> res (option (wsos K * wsos K)).
Variable ternary : poly K -> res (option (ex K)).
Variable pdiv : poly K -> poly K.
Variable ffloor : K -> Z.
Definition uni_ok : Prop := forall f pq, uni f = Ok (Some pq) -> proves K pq f.
Definition ternary_ok : Prop := forall p e, symform p -> ternary p = Ok (Some e) -> cert p e.
Definition pdiv_ok : Prop := forall p q0, wf 3 p -> wf 3 q0 ->
  (forall A B C, peval (pt3 A B C) p = peval (pt3 A B C) q0 * D6 K A B C) ->
  wf 3 (pdiv p) /\ nz K (pdiv p) /\ forall A B C, peval (pt3 A B C) p = peval (pt3 A B C) (pdiv p) * D6 K A B C.
Hypothesis U : uni_ok.
Hypothesis T : ternary_ok.
Hypothesis PD : pdiv_ok.

Lemma symform_degree p : symform p -> homdeg (coeff_degree p) p.
Proof. intros (_ & (d & Hd) & _). destruct (homdeg_coeff_degree K d p Hd) as [->|E]; [intros m []|rewrite E; exact Hd]. Qed.
Lemma symform_total p : symform p -> homdeg (total_degree p) p.
Proof. intros (_ & (d & Hd) & _). destruct (homdeg_total K d p Hd) as [->|E]; [intros m []|rewrite E; exact Hd]. Qed.
Lemma symform_same p : symform p -> coeff_degree p = total_degree p.
Proof.
  intros (_ & (d & Hd) & _). destruct (homdeg_total K d p Hd) as [->|E]; [reflexivity|]. destruct (homdeg_coeff_degree K d p Hd) as [->|E2]; [reflexivity|congruence].
Qed.

Lemma axis_zero d p : wf 3 p -> homdeg d p -> (forall x, peval (pt3 x 1 1) p = 0) -> forall A B, peval (pt3 A B B) p = 0.
Proof.
  intros W Hd H A B.
  refine (cancel K (fun A B C => peval (pt3 A B B) p) (fun A B C => B) 0 1 0 _ _ _ _ A B B); [|apply pf_B|apply fneq10|].
  - intros X Y Z X' Y' Z'. apply (AcuteFacts.peval_line K p X Y Y X' Y' Y' W).
  - intros X Y Z. destruct (feq_dec K Y 0) as [->|Hy]; [ring|].
    pose proof (AcuteFacts.peval_hom K d p Y (X / Y) 1 1 W Hd) as E. rewrite H in E.
    replace (Y * (X / Y)) with X in E by (field; exact Hy). replace (Y * 1) with Y in E by ring. rewrite E. ring.
Qed.

(** ** Division of a symmetric form with zero axis *)
Lemma reduce_step d p : symform p -> homdeg d p -> (forall x, peval (pt3 x 1 1) p = 0) ->
  symform (pdiv p) /\ nz K (pdiv p) /\ (forall m, In m (keys (pdiv p)) -> (list_sum m + 6 = d)%nat) /\
  forall A B C, peval (pt3 A B C) p = peval (pt3 A B C) (pdiv p) * D6 K A B C.
Proof.
  intros (W & _ & Hc & Hs) Hd H0. pose proof (axis_zero d p W Hd H0) as Hz.
  destruct (axis_divides K p W Hc Hs Hz) as (q0 & W0 & H). destruct (PD p q0 W W0 H) as (Wq & Nq & Vq). set (q := pdiv p) in *.
  pose proof (AcuteFacts.sq_prod_spec K) as (_ & VD & _).
  destruct (AcuteFacts.quotient_good K d p q Wq Nq W Hd (cyclic_of_values K p W Hc)) as [Hq1 Hq2].
  { intros A B C. rewrite VD. apply Vq. }
  split; [|split; [exact Nq|split; [exact Hq1|exact Vq]]].
  split; [exact Wq|]. split; [exists (d - 6)%nat; intros m Hm; specialize (Hq1 m Hm); lia|]. split; [apply values_of_cyclic; assumption|].
  intros A B C. apply (fsub_eq0 K). revert A B C.
  apply (cancel K (fun A B C => peval (pt3 A B C) q - peval (pt3 B A C) q) (D6 K) 0 1 2).
  - apply pf_sub; [apply pf_peval, Wq|]. intros X Y Z X' Y' Z'. apply (pf_peval K q Wq Y X Z Y' X' Z').
  - unfold D6. repeat first [apply pf_mul | apply pf_sub | apply pf_A | apply pf_B | apply pf_C].
  - unfold D6. intro X. assert (H4 : (4 : K) <> 0) by fnz. apply H4. rewrite <- X. ring.
  - intros A B C. pose proof (Hs A B C) as E. rewrite !Vq in E.
    transitivity (peval (pt3 A B C) q * D6 K A B C - peval (pt3 B A C) q * D6 K B A C); [unfold D6; ring|]. rewrite E. ring.
Qed.

(** ** Symmetric expressions *)
Lemma expand_value d e A B C : HD K d e -> peval (pt3 A B C) (expand e) = ev (pt3 A B C) e.
Proof. intro H. apply expand_spec. eapply HD_divfree, H. Qed.
Lemma csum_cyc d e A B C : HD K d e -> ev (pt3 A B C) (csum e) = ev (pt3 B C A) (csum e).
Proof. intro H. rewrite !(ev_csum K d) by exact H. ring. Qed.
Lemma csum_swap d e A B C : HD K d e -> bcsym K e -> ev (pt3 A B C) (csum e) = ev (pt3 B A C) (csum e).
Proof. intros H Hb. rewrite !(ev_csum K d) by exact H. rewrite (Hb B A C), (Hb A C B), (Hb C B A). ring. Qed.
Definition symex (d : nat) e : Prop :=
  HD K d e /\ (forall A B C, ev (pt3 A B C) e = ev (pt3 B C A) e) /\ (forall A B C, ev (pt3 A B C) e = ev (pt3 B A C) e).
Lemma symex_csum d e : HD K d e -> bcsym K e -> symex d (csum e).
Proof. intros H Hb. split; [apply HD_csum, H|]. split; intros; [eapply csum_cyc, H|eapply csum_swap; eassumption]. Qed.
Lemma symex_cprod d e : HD K d e -> bcsym K e -> symex (3 * d) (cprod e).
Proof.
  intros H Hb. split; [apply HD_cprod, H|]. split; intros A B C; rewrite !(ev_cprod K d) by exact H; [ring|].
  rewrite (Hb B A C), (Hb A C B), (Hb C B A). ring.
Qed.
Lemma symex_mul d d' x y : symex d x -> symex d' y -> symex (d + d') (EMul x y).
Proof.
  intros (H1 & C1 & S1) (H2 & C2 & S2). split; [apply HD_mul; assumption|]. split; intros A B C; cbn [ev]; [rewrite (C1 A B C), (C2 A B C)|rewrite (S1 A B C), (S2 A B C)]; reflexivity.
Qed.
Lemma symex_add d x y : symex d x -> symex d y -> symex d (EAdd x y).
Proof.
  intros (H1 & C1 & S1) (H2 & C2 & S2). split; [apply HD_add; assumption|]. split; intros A B C; cbn [ev]; [rewrite (C1 A B C), (C2 A B C)|rewrite (S1 A B C), (S2 A B C)]; reflexivity.
Qed.
Lemma symex_c k : symex 0 (EC k).
Proof. split; [apply HD_c|]. split; intros; reflexivity. Qed.
Lemma symex_eq d d' e : d = d' -> symex d e -> symex d' e.
Proof. intros ->. auto. Qed.

(** p m - s, for a symmetric form p and symmetric expressions m and s *)
Lemma diff_form d dm p (m s : ex K) : symform p -> homdeg d p -> symex dm m -> symex (d + dm) s ->
  let r := padd (pmul p (expand m)) (pneg (expand s)) in
  symform r /\ homdeg (d + dm) r /\ forall A B C, peval (pt3 A B C) r = peval (pt3 A B C) p * ev (pt3 A B C) m - ev (pt3 A B C) s.
Proof.
  intros (W & _ & Pc & Ps) Hd (Hm & Mc & Ms) (Hs & Sc & Ss) r.
  destruct (expand_spec K m (HD_divfree K _ _ Hm)) as (WM & VM & _). destruct (expand_spec K s (HD_divfree K _ _ Hs)) as (WS & VS & _).
  destruct (pmul_spec K 3 _ _ W WM) as (Wm & Vm & Dm). destruct (pneg_spec K 3 _ WS) as (Wn & Vn & Dn).
  destruct (padd_full K 3 _ _ Wm Wn) as (Wr & Vr & Dr). fold r in Wr, Vr, Dr.
  assert (V : forall A B C, peval (pt3 A B C) r = peval (pt3 A B C) p * ev (pt3 A B C) m - ev (pt3 A B C) s).
  { intros. rewrite Vr, Vm, Vn, VM, VS. ring. }
  assert (D : homdeg (d + dm) r) by (apply Dr; [apply Dm; [exact Hd|apply HD_expand, Hm]|apply Dn, HD_expand, Hs]).
  split; [|split; [exact D|exact V]]. split; [exact Wr|]. split; [eexists; exact D|]. split; intros A B C; rewrite !V.
  - rewrite (Pc A B C), (Mc A B C), (Sc A B C). reflexivity.
  - rewrite (Ps A B C), (Ms A B C), (Ss A B C). reflexivity.
Qed.
Lemma diff_form1 d p (s : ex K) : symform p -> homdeg d p -> symex d s ->
  let r := padd p (pneg (expand s)) in
  symform r /\ homdeg d r /\ forall A B C, peval (pt3 A B C) r = peval (pt3 A B C) p - ev (pt3 A B C) s.
Proof.
  intros (W & _ & Pc & Ps) Hd (Hs & Sc & Ss) r.
  destruct (expand_spec K s (HD_divfree K _ _ Hs)) as (WS & VS & _).
  destruct (pneg_spec K 3 _ WS) as (Wn & Vn & Dn). destruct (padd_full K 3 _ _ W Wn) as (Wr & Vr & Dr). fold r in Wr, Vr, Dr.
  assert (V : forall A B C, peval (pt3 A B C) r = peval (pt3 A B C) p - ev (pt3 A B C) s).
  { intros. rewrite Vr, Vn, VS. ring. }
  assert (D : homdeg d r) by (apply Dr; [exact Hd|apply Dn, HD_expand, Hs]).
  split; [|split; [exact D|exact V]]. split; [exact Wr|]. split; [eexists; exact D|]. split; intros A B C; rewrite !V.
  - rewrite (Pc A B C), (Sc A B C). reflexivity.
  - rewrite (Ps A B C), (Ss A B C). reflexivity.
Qed.

Lemma tail_HD : HD K 4 (@tail K).
Proof. unfold tail. apply (HD_eq K (2 * 1 + 2 * 1)); [reflexivity|]. apply HD_mul; apply HD_pow, HD_sub; apply HD_x; lia. Qed.
Lemma tail_bc : bcsym K (@tail K).
Proof. intros A B C. unfold tail. cbn [ev pt3 fpow]. ring. Qed.
Lemma lift_mul_spec : symex 2 (@lift_mul K) /\ manifest true (@lift_mul K) = true /\
  forall A B C : K, ev (pt3 A B C) lift_mul = 1 / 2 * ((A - B) * (A - B) + (B - C) * (B - C) + (C - A) * (C - A)).
Proof.
  assert (H : HD K 2 ((EX 0 - EX 1) ^ 2)%E) by (apply (HD_eq K (2 * 1)); [reflexivity|]; apply HD_pow, HD_sub; apply HD_x; lia).
  assert (V : forall A B C : K, ev (pt3 A B C) lift_mul = 1 / 2 * ((A - B) * (A - B) + (B - C) * (B - C) + (C - A) * (C - A))).
  { intros A B C. unfold lift_mul. generalize (1 / (2 : K)). intro h. cbn [ev]. rewrite (ev_csum K 2) by exact H. cbn [ev pt3 fpow]. ring. }
  split; [|split; [|exact V]].
  - split; [apply (HD_mul K 0 2); [apply HD_c|apply HD_csum, H]|]. split; intros A B C; rewrite !V; generalize (1 / (2 : K)); intro h; ring.
  - unfold lift_mul. cbn [manifest]. assert (X : 0 <= 1 / (2 : K)) by (apply fdiv_nonneg; fpos). unfold fle in X. rewrite X. reflexivity.
Qed.
Lemma sqprod_value (A B C : K) : ev (pt3 A B C) sqprod = D6 K A B C.
Proof. unfold sqprod, D6. cbn [ev cprod erename rot3 pt3 fpow]. ring. Qed.
Lemma D6_nonneg (A B C : K) : 0 <= D6 K A B C.
Proof. unfold D6. apply fmul_nonneg; [apply fmul_nonneg|]; apply fsqr_nonneg. Qed.
Lemma mul_pos (A B C : K) : A <> B -> 0 < 1 / 2 * ((A - B) * (A - B) + (B - C) * (B - C) + (C - A) * (C - A)).
Proof.
  intro H. apply fmul_pos; [apply fdiv_pos; fpos|]. assert (P : 0 < (A - B) * (A - B)) by (apply fsqr_pos; intro X; apply H, (fsub_eq0 K), X).
  apply fadd_pos_l; [|apply fsqr_nonneg]. apply fadd_pos_l; [exact P|apply fsqr_nonneg].
Qed.
Lemma manifest_value e A B C : manifest true e = true -> 0 <= A -> 0 <= B -> 0 <= C -> defined (pt3 A B C) e -> 0 <= ev (pt3 A B C) e.
Proof. intros M HA HB HC D. apply (manifest_nonneg true); [|exact D|exact M]. intros _. apply pt3_nonneg; assumption. Qed.
Lemma divfree_defined e env : divfree K e = true -> defined env e.
Proof. apply AcuteFacts.defined_divfree. Qed.

(** ** The lift *)
Lemma lifted_spec D f l : (1 <= D)%nat -> (length f <= S D)%nat -> lifted uni D f = Ok (Some l) ->
  HD K D l /\ (forall x, ev (pt3 x 1 1) l = ueval f x) /\ bcsym K l /\ manifest true l = true.
Proof.
  intros HD1 Hl. unfold lifted. destruct (all_nonneg f) eqn:E.
  - intro H. apply Ok_inj in H. assert (l = hom_axis D f) by congruence. subst l.
    destruct (hom_axis_spec K D f) as (A1 & A2 & A3 & A4). split; [apply A1, Hl|]. split; [exact A2|]. split; [exact A3|].
    apply A4. apply all_nonneg_spec, E.
  - destruct (uni f) as [[pq|]|] eqn:Eu; try discriminate. destruct (hom_proof D pq) as [x|] eqn:Eh; [|discriminate].
    intro H. apply Ok_inj in H. assert (x = l) by congruence. subst x. apply (hom_proof_spec K D pq f l (U f pq Eu) Hl HD1 Eh).
Qed.
Lemma tail_axis (l : ex K) d x : HD K d l -> ev (pt3 x 1 1) (csum (l * tail)) = (x - 1) * (x - 1) * ((x - 1) * (x - 1)) * ev (pt3 x 1 1) l.
Proof.
  intro H. rewrite (ev_csum K (d + 4)) by (apply HD_mul; [exact H|apply tail_HD]). unfold tail. cbn [ev pt3 fpow]. ring.
Qed.
Definition rec_ok (rec : poly K -> res (option (ex K))) : Prop := forall p e, symform p -> rec p = Ok (Some e) -> cert p e.

Lemma lift_exact rec p e : rec_ok rec -> symform p -> lift_for_six uni pdiv rec p = Ok (Some e) -> cert p e.
Proof.
  intros HR G. unfold lift_for_six. set (d := coeff_degree p). destruct (Nat.ltb d 8) eqn:E8; [discriminate|]. apply Nat.ltb_ge in E8.
  pose proof (symform_degree p G) as Hd. fold d in Hd.
  destruct (div_sq1 (axis d p)) as [f [u v]] eqn:Ed. destruct ((u =? 0) && (v =? 0))%bool eqn:E0; cbn [negb]; [|discriminate].
  apply andb_prop in E0. destruct E0 as [U0 V0]. apply feqb_eq in U0, V0. subst u v.
  destruct (bad_signs f); [discriminate|].
  destruct (div_sq1_spec K _ _ _ _ Ed) as [Lf Vf]. assert (La : length (axis d p) = S d) by (unfold axis; rewrite map_length, seq_length; reflexivity).
  destruct (lifted uni (d - 2) f) as [[l|]|] eqn:El; try discriminate.
  destruct (lifted_spec (d - 2) f l ltac:(lia) ltac:(lia) El) as (Hl & Vl & Bl & Ml).
  set (s1 := csum (l * tail)%E). set (P := padd (pmul p (expand lift_mul)) (pneg (expand s1))).
  destruct (rec (pdiv P)) as [[s|]|] eqn:Er; try discriminate. intro H. apply Ok_inj in H.
  assert (e = ((s1 + sqprod * s) / lift_mul)%E) by congruence. subst e. clear H.
  assert (HT : HD K (d - 2 + 4) (l * tail)%E) by (apply HD_mul; [exact Hl|apply tail_HD]).
  assert (SX : symex (d + 2) s1).
  { apply (symex_eq (d - 2 + 4)); [lia|]. apply symex_csum; [exact HT|]. intros A B C. cbn [ev]. rewrite (Bl A B C), (tail_bc A B C). reflexivity. }
  destruct lift_mul_spec as (SM & MM & VM).
  destruct (diff_form d 2 p lift_mul s1 G Hd SM SX) as (GP & DP & VP). fold P in GP, DP, VP.
  assert (AX : forall x, peval (pt3 x 1 1) P = 0).
  { intro x. rewrite VP. unfold s1. rewrite (tail_axis l (d - 2) x Hl), Vl, VM. rewrite <- (axis_value K d p x (proj1 G) Hd), Vf. field. fnz. }
  destruct (reduce_step (d + 2) P GP DP AX) as (Gq & _ & _ & Vq).
  destruct (HR (pdiv P) s Gq Er) as (X1 & X2 & A0 & B0 & C0 & HA & HB & HC & Hne & HD0).
  assert (VX : forall A B C, ev (pt3 A B C) s1 + D6 K A B C * peval (pt3 A B C) (pdiv P) = peval (pt3 A B C) p * ev (pt3 A B C) lift_mul).
  { intros A B C. pose proof (Vq A B C) as E. rewrite VP in E.
    transitivity (ev (pt3 A B C) s1 + peval (pt3 A B C) (pdiv P) * D6 K A B C); [ring|]. rewrite <- E. ring. }
  split; [|split].
  - intros A B C ((_ & _ & Ds) & _ & Hz). cbn [ev]. rewrite sqprod_value, (X1 A B C Ds), VX. field. exact Hz.
  - intros A B C PA PB PC ((D1 & _ & Ds) & D2 & Hz). cbn [ev]. rewrite sqprod_value.
    apply fdiv_nonneg.
    + apply fadd_nonneg; [|apply fmul_nonneg; [apply D6_nonneg|apply X2; assumption]].
      apply manifest_value; try assumption. apply manifest_csum. cbn [manifest]. rewrite Ml. reflexivity.
    + apply flt_le_neq. split; [|congruence]. apply manifest_value; assumption.
  - exists A0, B0, C0. split; [exact HA|]. split; [exact HB|]. split; [exact HC|]. split; [exact Hne|].
    split; [split; [|split; [|exact HD0]]|split].
    + apply divfree_defined. eapply HD_divfree, SX.
    + apply divfree_defined. reflexivity.
    + apply divfree_defined. reflexivity.
    + rewrite VM. apply flt_neq0, mul_pos, Hne.
Qed.

(** ** The method without lift *)
Lemma ord4_exact rec p div2 e : rec_ok rec -> symform p -> p = [] \/ (4 <= coeff_degree p)%nat ->
  (forall g, div2 = Some g -> (length g <= S (coeff_degree p - 4))%nat /\
     forall x, peval (pt3 x 1 1) p = (x - 1) * (x - 1) * ((x - 1) * (x - 1)) * ueval g x) ->
  liftfree_ord4 pdiv rec p div2 = Ok (Some e) -> cert p e.
Proof.
  intros HR G H4 Hg. unfold liftfree_ord4. set (d := coeff_degree p) in *. pose proof (symform_degree p G) as Hd. fold d in Hd.
  destruct (match div2 with Some f => Some f | None => div_fourth1 (axis d p) end) as [f|] eqn:Eo; [|discriminate].
  destruct (bad_signs f); [discriminate|]. destruct (all_nonneg f) eqn:En; [|discriminate].
  assert (La : length (axis d p) = S d) by (unfold axis; rewrite map_length, seq_length; reflexivity).
  assert (F : (length f <= S (d - 4))%nat /\ forall x, peval (pt3 x 1 1) p = (x - 1) * (x - 1) * ((x - 1) * (x - 1)) * ueval f x).
  { destruct div2 as [g|].
    - assert (g = f) by congruence. subst g. apply Hg. reflexivity.
    - destruct (div_fourth1_spec K _ _ Eo) as [L V]. split; [lia|]. intro x. rewrite <- (axis_value K d p x (proj1 G) Hd). apply V. }
  destruct F as [Lf Vf]. set (l := hom_axis (d - 4) f). destruct (hom_axis_spec K (d - 4) f) as (A1 & A2 & A3 & A4). fold l in A1, A2, A3, A4.
  specialize (A1 Lf). specialize (A4 (all_nonneg_spec K f En)).
  set (D := (d - 4 + 4)%nat).
  assert (HD4 : homdeg D p).
  { destruct H4 as [E|H4]; [rewrite E; intros m []|]. unfold D. replace (d - 4 + 4)%nat with d by lia. exact Hd. }
  set (s1 := csum (l * tail)%E). set (P := padd p (pneg (expand s1))).
  destruct (rec (pdiv P)) as [[s|]|] eqn:Er; try discriminate. intro H. apply Ok_inj in H.
  assert (e = (s1 + sqprod * s)%E) by congruence. subst e. clear H.
  assert (SX : symex D s1).
  { apply symex_csum; [apply HD_mul; [exact A1|apply tail_HD]|]. intros A B C. cbn [ev]. rewrite (A3 A B C), (tail_bc A B C). reflexivity. }
  destruct (diff_form1 D p s1 G HD4 SX) as (GP & DP & VP). fold P in GP, DP, VP.
  assert (AX : forall x, peval (pt3 x 1 1) P = 0).
  { intro x. rewrite VP. unfold s1. rewrite (tail_axis l (d - 4) x A1), A2, Vf. ring. }
  destruct (reduce_step D P GP DP AX) as (Gq & _ & _ & Vq).
  destruct (HR (pdiv P) s Gq Er) as (X1 & X2 & A0 & B0 & C0 & HA & HB & HC & Hne & HD0).
  assert (VX : forall A B C, ev (pt3 A B C) s1 + D6 K A B C * peval (pt3 A B C) (pdiv P) = peval (pt3 A B C) p).
  { intros A B C. pose proof (Vq A B C) as E. rewrite VP in E.
    transitivity (ev (pt3 A B C) s1 + peval (pt3 A B C) (pdiv P) * D6 K A B C); [ring|]. rewrite <- E. ring. }
  split; [|split].
  - intros A B C (_ & _ & Ds). cbn [ev]. rewrite sqprod_value, (X1 A B C Ds). apply VX.
  - intros A B C PA PB PC (D1 & _ & Ds). cbn [ev]. rewrite sqprod_value.
    apply fadd_nonneg; [|apply fmul_nonneg; [apply D6_nonneg|apply X2; assumption]].
    apply manifest_value; try assumption. apply manifest_csum. cbn [manifest]. rewrite A4. reflexivity.
  - exists A0, B0, C0. split; [exact HA|]. split; [exact HB|]. split; [exact HC|]. split; [exact Hne|].
    split; [|split; [|exact HD0]]; apply divfree_defined; [eapply HD_divfree, SX|reflexivity].
Qed.

(** the subtractors *)
Definition goodsub (d : nat) e : Prop := symex d e /\ manifest true e = true.
Lemma goodsub_scale (k : K) d e : 0 <= k -> goodsub d e -> goodsub d (EMul (EC k) e).
Proof.
  intros Hk [S1 M1]. split; [apply (symex_mul 0 d); [apply symex_c|exact S1]|]. cbn [manifest]. unfold fle in Hk. rewrite Hk, M1. reflexivity.
Qed.
Lemma goodsub_prod m k d e : (3 * m + k = d)%nat -> HD K k e -> bcsym K e -> manifest true e = true ->
  goodsub d (EMul (cprod (EPow (EX 0) m)) (csum e)).
Proof.
  intros E He Hb M. split.
  - apply (symex_eq (3 * (m * 1) + k)); [lia|]. apply symex_mul; [|apply symex_csum; assumption].
    apply symex_cprod; [apply HD_pow, HD_x; lia|]. intros A B C. reflexivity.
  - cbn [manifest]. rewrite manifest_cprod, manifest_csum; [reflexivity|exact M|]. cbn [manifest]. apply orb_true_r.
Qed.
Lemma HD_mon_pow i n : (i < 3)%nat -> HD K n (EPow (EX i) n).
Proof. intro H. apply (HD_eq K (n * 1)); [lia|]. apply HD_pow, HD_x, H. Qed.
Lemma HD_edge n : HD K n (EPow (ESub (EAdd (EX 1) (EX 2)) (EX 0)) n).
Proof. apply (HD_eq K (n * 1)); [lia|]. apply HD_pow, HD_sub; [apply HD_add|]; apply HD_x; lia. Qed.
Lemma HD_bc2 : HD K 2 (EPow (ESub (EX 1) (EX 2)) 2).
Proof. apply (HD_eq K (2 * 1)); [lia|]. apply HD_pow, HD_sub; apply HD_x; lia. Qed.
Lemma swap_edge (A B C : K) : C + B - A = B + C - A. Proof. ring. Qed.
Lemma half_nonneg : 0 <= 1 / (2 : K). Proof. apply fdiv_nonneg; fpos. Qed.
Lemma sixth_nonneg : 0 <= 1 / fnat (K := K) 6. Proof. apply fdiv_nonneg; [fpos|apply fnat_pos; lia]. Qed.
Lemma even_S_odd n : Nat.even n = false -> Nat.even (n + 1) = true /\ Nat.even (n - 1) = true /\ (1 <= n)%nat.
Proof.
  intro E. destruct n as [|n]; [discriminate|]. rewrite Nat.add_1_r. rewrite Nat.even_succ, <- Nat.negb_even, E. cbn [negb].
  rewrite Nat.even_succ in E. replace (S n - 1)%nat with n by lia. rewrite <- Nat.negb_even in E. split; [reflexivity|]. split; [destruct (Nat.even n); [reflexivity|discriminate]|lia].
Qed.
Ltac bcs := let A := fresh in let B := fresh in let C := fresh in intros A B C; cbn [ev pt3]; rewrite ?(swap_edge A B C); cbn [fpow]; ring.

Lemma subtractor1_good n m e : subtractor1 n m = Some e -> goodsub (n + 2 * m + 2) e.
Proof.
  unfold subtractor1. destruct (Nat.leb m n) eqn:E1.
  - apply Nat.leb_le in E1. destruct (Nat.even (n - m)) eqn:E2.
    + intro H. injection H as <-. apply goodsub_scale; [apply half_nonneg|]. apply (goodsub_prod m (n - m + 2)); [lia| | |].
      * apply HD_mul; [apply HD_edge|apply HD_bc2].
      * bcs.
      * cbn [manifest]. rewrite E2. reflexivity.
    + destruct (Nat.eqb n (m + 1) && Nat.leb 1 m)%bool eqn:E3.
      * apply andb_prop in E3. destruct E3 as [E3 E4]. apply Nat.eqb_eq in E3. apply Nat.leb_le in E4.
        intro H. injection H as <-. apply goodsub_scale; [apply sixth_nonneg|]. apply (goodsub_prod (m - 1) (2 + 4)); [lia| | |].
        -- apply HD_mul; [apply HD_mon_pow; lia|]. apply (HD_eq K (2 * 2)); [lia|]. apply HD_pow.
           apply HD_sub; [apply HD_sub; [apply HD_add; apply (HD_mul K 1 1); apply HD_x; lia|]|]; apply HD_mon_pow; lia.
        -- bcs.
        -- reflexivity.
      * destruct (Nat.leb 1 m) eqn:E4; [|discriminate]. apply Nat.leb_le in E4. destruct (even_S_odd _ E2) as (E5 & _ & _).
        intro H. injection H as <-. apply goodsub_scale; [apply half_nonneg|]. apply (goodsub_prod (m - 1) (2 + 2 + (n - m + 1))); [lia| | |].
        -- apply HD_mul; [apply HD_mul; [apply HD_mon_pow; lia|apply HD_bc2]|apply HD_edge].
        -- bcs.
        -- cbn [manifest]. rewrite E5. reflexivity.
  - apply Nat.leb_gt in E1. intro H. injection H as <-. apply goodsub_scale; [apply half_nonneg|]. apply (goodsub_prod n (2 * (m - n) + 2)); [lia| | |].
    + apply HD_mul; [apply HD_mon_pow; lia|apply HD_bc2].
    + bcs.
    + cbn [manifest]. rewrite orb_true_r. reflexivity.
Qed.
Lemma subtractor2_good n m : goodsub (n + 2 * m + 3) (subtractor2 n m).
Proof.
  unfold subtractor2. destruct (Nat.leb m n) eqn:E1.
  - apply Nat.leb_le in E1. destruct (Nat.even (n - m)) eqn:E2.
    + apply goodsub_scale; [apply half_nonneg|]. apply (goodsub_prod m (1 + (n - m) + 2)); [lia| | |].
      * apply HD_mul; [apply HD_mul; [apply HD_x; lia|apply HD_edge]|apply HD_bc2].
      * bcs.
      * cbn [manifest]. rewrite E2. reflexivity.
    + destruct (even_S_odd _ E2) as (_ & E5 & E6). apply goodsub_scale; [apply half_nonneg|]. apply (goodsub_prod m (1 + 1 + 2 + (n - m - 1))); [lia| | |].
      * apply HD_mul; [apply HD_mul; [apply HD_mul; apply HD_x; lia|apply HD_bc2]|apply HD_edge].
      * bcs.
      * cbn [manifest]. rewrite E5. reflexivity.
  - apply Nat.leb_gt in E1. apply goodsub_scale; [apply half_nonneg|]. apply (goodsub_prod n (2 * (m - n) + 1 + 2)); [lia| | |].
    + apply HD_mul; [apply HD_mon_pow; lia|apply HD_bc2].
    + bcs.
    + cbn [manifest]. rewrite orb_true_r. reflexivity.
Qed.
Lemma goodsub_add d x y : goodsub d x -> goodsub d y -> goodsub d (EAdd x y).
Proof. intros [S1 M1] [S2 M2]. split; [apply symex_add; assumption|]. cbn [manifest]. rewrite M1, M2. reflexivity. Qed.
Lemma goodsub_eq d d' e : d = d' -> goodsub d e -> goodsub d' e.
Proof. intros ->. auto. Qed.
Lemma subtractor_good d n u2 v2 e : (n + 3 <= d)%nat -> 0 <= u2 -> 0 <= v2 -> subtractor d n u2 v2 = Ok (Some e) -> goodsub d e.
Proof.
  intros Hn Hu Hv. unfold subtractor. set (m := ((d - n - 3) / 2)%nat). destruct (Nat.even (d - n - 3)) eqn:Ee.
  - pose proof (even_split _ Ee) as Em. fold m in Em. destruct (Nat.leb m n && Nat.eqb m 0)%bool; [discriminate|].
    destruct (subtractor1 (n + 1) m) as [e1|] eqn:E1; [|discriminate]. intro H. apply Ok_inj in H.
    assert (e = (EC u2 * e1 + EC v2 * subtractor2 n m)%E) by congruence. subst e. apply goodsub_add; apply goodsub_scale; try assumption.
    + apply (goodsub_eq (n + 1 + 2 * m + 2)); [lia|]. apply subtractor1_good, E1.
    + apply (goodsub_eq (n + 2 * m + 3)); [lia|]. apply subtractor2_good.
  - pose proof (odd_split _ Ee) as Em. fold m in Em.
    destruct (subtractor1 n (m + 1)) as [e1|] eqn:E1; [|discriminate]. intro H. apply Ok_inj in H.
    assert (e = (EC u2 * subtractor2 (n + 1) m + EC v2 * e1)%E) by congruence. subst e. apply goodsub_add; apply goodsub_scale; try assumption.
    + apply (goodsub_eq (n + 1 + 2 * m + 3)); [lia|]. apply subtractor2_good.
    + apply (goodsub_eq (n + 2 * (m + 1) + 2)); [lia|]. apply subtractor1_good, E1.
Qed.
(** the [TypeError] of an absent first subtractor cannot happen *)
Lemma subtractor1_some n m : (n = m \/ 1 <= m)%nat -> exists e, subtractor1 (K := K) n m = Some e.
Proof.
  intro H. unfold subtractor1. destruct (Nat.leb m n) eqn:E1; [|eauto]. destruct (Nat.even (n - m)) eqn:E2; [eauto|].
  destruct (Nat.eqb n (m + 1) && Nat.leb 1 m)%bool; [eauto|]. destruct (Nat.leb 1 m) eqn:E4; [eauto|]. apply Nat.leb_gt in E4.
  destruct H as [->|H]; [|lia]. rewrite Nat.sub_diag in E2. discriminate.
Qed.
Lemma subtractor_total d n u2 v2 : exists o, subtractor (K := K) d n u2 v2 = Ok o.
Proof.
  unfold subtractor. set (m := ((d - n - 3) / 2)%nat). destruct (Nat.even (d - n - 3)).
  - destruct (Nat.leb m n && Nat.eqb m 0)%bool eqn:E; [eauto|].
    assert (X : (1 <= m)%nat). { destruct m; [|lia]. cbn in E. discriminate. }
    destruct (subtractor1_some (n + 1) m (or_intror X)) as [e1 ->]. eauto.
  - destruct (subtractor1_some n (m + 1) ltac:(lia)) as [e1 ->]. eauto.
Qed.

Lemma liftfree_exact rec p e : rec_ok rec -> symform p -> liftfree_for_six pdiv ffloor rec p = Ok (Some e) -> cert p e.
Proof.
  intros HR G. unfold liftfree_for_six. set (d := coeff_degree p). destruct (Nat.ltb d 6) eqn:E6; [discriminate|]. apply Nat.ltb_ge in E6.
  pose proof (symform_degree p G) as Hd. fold d in Hd. assert (La : length (axis d p) = S d) by (unfold axis; rewrite map_length, seq_length; reflexivity).
  destruct (div_sq1 (axis d p)) as [f [u0 v0]] eqn:Ed. destruct ((u0 =? 0) && (v0 =? 0))%bool eqn:E0; cbn [negb]; [|discriminate].
  apply andb_prop in E0. destruct E0 as [U0 V0]. apply feqb_eq in U0, V0. subst u0 v0.
  destruct (div_sq1_spec K _ _ _ _ Ed) as [Lf Vf].
  destruct (div_sq1 f) as [g [u v]] eqn:Eg. destruct (div_sq1_spec K _ _ _ _ Eg) as [Lg Vg].
  destruct ((u =? 0) && (v =? 0))%bool eqn:E1.
  { apply andb_prop in E1. destruct E1 as [U1 V1]. apply feqb_eq in U1, V1. subst u v.
    apply (ord4_exact rec p (Some g) e HR G); [right; fold d; lia|]. intros g' Eq. assert (g = g') by congruence. subst g'. fold d. split; [lia|].
    intro x. rewrite <- (axis_value K d p x (proj1 G) Hd), Vf, Vg. ring. }
  destruct ((u + v <=? 0) || (u <? 0))%bool; [discriminate|].
  destruct ((choose_n ffloor d u v <=? Z.of_nat (d - 3)) && (0 <=? choose_n ffloor d u v))%Z eqn:En; cbn [negb]; [|discriminate].
  set (n := Z.to_nat (choose_n ffloor d u v)). apply andb_prop in En. destruct En as [N1 N2]. apply Z.leb_le in N1, N2.
  set (u2 := u - (u + v) * fnat n). set (v2 := v + (u + v) * fnat n).
  destruct ((0 <=? u2) && (0 <=? v2))%bool eqn:E2; cbn [negb]; [|discriminate]. apply andb_prop in E2. destruct E2 as [U2 V2].
  destruct (subtractor d n u2 v2) as [[s0|]|] eqn:Es; try discriminate.
  destruct (subtractor_good d n u2 v2 s0 ltac:(subst n; lia) U2 V2 Es) as [SX MX].
  destruct (diff_form1 d p s0 G Hd SX) as (GP & DP & VP). set (P := padd p (pneg (expand s0))) in *.
  destruct (liftfree_ord4 pdiv rec P None) as [[s|]|] eqn:Er; try discriminate. intro H. apply Ok_inj in H.
  assert (e = (s0 + s)%E) by congruence. subst e. clear H.
  assert (H4 : P = [] \/ (4 <= coeff_degree P)%nat) by (destruct (homdeg_coeff_degree K d P DP) as [E|E]; [left; exact E|right; lia]).
  destruct (ord4_exact rec P None s HR GP H4 ltac:(discriminate) Er) as (X1 & X2 & A0 & B0 & C0 & HA & HB & HC & Hne & HD0).
  split; [|split].
  - intros A B C (_ & Ds). cbn [ev]. rewrite (X1 A B C Ds), VP. ring.
  - intros A B C PA PB PC (D1 & Ds). cbn [ev]. apply fadd_nonneg; [apply manifest_value; assumption|apply X2; assumption].
  - exists A0, B0, C0. split; [exact HA|]. split; [exact HB|]. split; [exact HC|]. split; [exact Hne|].
    split; [|exact HD0]. apply divfree_defined. eapply HD_divfree, SX.
Qed.
End Main.
