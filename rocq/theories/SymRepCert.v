(** * The certificates of SymmetricSOS (SymRep.v): exactness and non-negativity *)
From Coq Require Import Bool List Arith ZArith Lia Ring Field.
From Verif Require Import OrdField Base Perm Poly PolyId PolyOps Coeff Monomials Expr CertLimit CertExact TriPoly AcuteFacts Nvars Univariate Halfspace Bivariate PivotProve Cyclic CyclicRw Extract SymRep SymRepFacts.
From Verif Require Shared.
Import ListNotations.

Section Flat.
Context {K : OrdField}.
Local Open Scope of_scope.
(** cyclic expressions written out (for proofs) *)
Definition ezpow (e : ex K) (n : Z) : ex K :=
  match n with Z0 => EPow e 0 | Zpos m => EPow e (Pos.to_nat m) | Zneg m => EDiv (EC 1) (EPow e (Pos.to_nat m)) end.
Fixpoint flat (e : cx K) : ex K :=
  match e with
  | CNum k => EC k
  | CSym s => EX s
  | CAdd l => fold_right (fun x a => EAdd (flat x) a) (EC 0) l
  | CMul l => fold_right (fun x a => EMul (flat x) a) (EC 1) l
  | CPow e n => ezpow (flat e) n
  | CFun _ _ => EC 0
  | CCyc OpSum e syms G => fold_right (fun p a => EAdd (erename (tr syms p) (flat e)) a) (EC 0) G
  | CCyc OpProd e syms G => fold_right (fun p a => EMul (erename (tr syms p) (flat e)) a) (EC 1) G
  end.
Fixpoint nofun (e : cx K) : bool :=
  match e with
  | CNum _ | CSym _ => true
  | CAdd l | CMul l => forallb nofun l
  | CPow e _ => nofun e
  | CFun _ _ => false
  | CCyc _ e _ _ => nofun e
  end.
End Flat.

Section Facts.
Variable K : OrdField.
Local Open Scope of_scope.
Add Field Kf : (F_field K).
Local Notation wf := Poly.wf.
Variable g : nat.
Notation mev := (mev noI g). Notation mdef := (mdef noI g). Notation cev := (cev noI).
Implicit Types (e : cx K) (r M : nat -> K).

Lemma nofun_fresh e : nofun e = true -> fresh g e = true.
Proof.
  induction e as [k|s|l IH|l IH|e n IH|f l IH|o e syms G IH] using cx_ind'; cbn [nofun fresh]; auto; try discriminate;
  induction IH as [|x l Hx _ IHl]; cbn [forallb]; auto; rewrite !andb_true_iff; tauto.
Qed.
Lemma ezpow_value r (x : ex K) n : ev r (ezpow x n) = zpow (ev r x) n.
Proof. destruct n; cbn [ezpow ev fpow zpow]; try reflexivity. rewrite fdiv_def. ring. Qed.
Lemma flat_value e : nofun e = true -> forall r, ev r (flat e) = cev e r.
Proof.
  induction e as [k|s|l IH|l IH|e n IH|f l IH|o e syms G IH] using cx_ind'; cbn [nofun]; intros H r; try discriminate; try reflexivity.
  - cbn [flat Cyclic.cev]. induction IH as [|x l Hx _ IHl]; [reflexivity|]. cbn [forallb fold_right ev] in *. rewrite andb_true_iff in H. rewrite Hx, IHl by tauto. reflexivity.
  - cbn [flat Cyclic.cev]. induction IH as [|x l Hx _ IHl]; [reflexivity|]. cbn [forallb fold_right ev] in *. rewrite andb_true_iff in H. rewrite Hx, IHl by tauto. reflexivity.
  - cbn [flat Cyclic.cev]. rewrite ezpow_value, IH by exact H. reflexivity.
  - cbn [flat Cyclic.cev]. destruct o; unfold big; induction G as [|p G IHG]; try reflexivity; cbn [fold_right ev bop]; rewrite ev_rename, (IH H), IHG; reflexivity.
Qed.
Lemma flat_defined e : nofun e = true -> forall M r, mdef M r e <-> defined r (flat e).
Proof.
  induction e as [k|s|l IH|l IH|e n IH|f l IH|o e syms G IH] using cx_ind'; cbn [nofun]; intros H M r; try discriminate; try reflexivity.
  - cbn [flat Extract.mdef]. induction IH as [|x l Hx _ IHl]; [reflexivity|]. cbn [forallb fold_right defined] in *. rewrite andb_true_iff in H. rewrite (Hx (proj1 H) M), (IHl (proj2 H)). reflexivity.
  - cbn [flat Extract.mdef]. induction IH as [|x l Hx _ IHl]; [reflexivity|]. cbn [forallb fold_right defined] in *. rewrite andb_true_iff in H. rewrite (Hx (proj1 H) M), (IHl (proj2 H)). reflexivity.
  - cbn [flat Extract.mdef]. rewrite (mev_fresh K noI g (fun _ => true) e (nofun_fresh e H)), <- (flat_value e H r), (IH H M r).
    destruct n as [|m|m]; cbn [ezpow defined].
    + split; [tauto|]. intro D. split; [exact D|lia].
    + split; [tauto|]. intro D. split; [exact D|lia].
    + cbn [ev]. split.
      * intros [D N]. split; [exact I|]. split; [exact D|]. apply fpow_neq0, N. reflexivity.
      * intros (_ & D & N). split; [exact D|]. intros _ C. apply N. rewrite C. apply fpow_0. lia.
  - cbn [flat Extract.mdef]. destruct o; (induction G as [|p G IHG]; cbn [fold_right defined];
    [split; [intros _; exact I|intros _ p []]|]); rewrite defined_rename, <- IHG, <- (IH H (fun s => M (tr syms p s)));
    (split; [intro A; split; [apply A; left; reflexivity|intros p' Hp'; apply A; right; exact Hp']|intros [A B] p' [<-|Hp']; [exact A|apply B, Hp']]).
Qed.

(** ** Substitution *)
Lemma csubst_value s (e : ex K) r : cev (csubst s e) r = ev (fun i => cev (s i) r) e.
Proof.
  induction e; cbn [csubst csub Cyclic.cev fold_right ev]; rewrite ?IHe1, ?IHe2, ?IHe; try reflexivity; try ring.
  - rewrite zpow_neg1. rewrite fdiv_def. ring.
  - apply zpow_nat.
Qed.
Lemma csubst_nofun s (e : ex K) : (forall i, nofun (s i) = true) -> nofun (csubst s e) = true.
Proof. intro H. induction e; cbn [csubst csub nofun forallb]; rewrite ?IHe1, ?IHe2, ?IHe; auto. Qed.
Lemma csubst_mdef s (e : ex K) M r : (forall i, nofun (s i) = true) ->
  mdef M r (csubst s e) -> defined (fun i => cev (s i) r) e.
Proof.
  intro H. induction e; cbn [csubst csub Extract.mdef fold_right defined]; try tauto.
  intros [A [[B C] _]]. split; [tauto|]. split; [tauto|]. rewrite <- csubst_value.
  rewrite <- (mev_fresh K noI g (fun _ => true) _ (nofun_fresh _ (csubst_nofun s e2 H)) M r). apply C. lia.
Qed.
Lemma csubst_mdef_back s (e : ex K) M r : (forall i, nofun (s i) = true) -> (forall i, mdef M r (s i)) ->
  defined (fun i => cev (s i) r) e -> mdef M r (csubst s e).
Proof.
  intros H Hs. induction e; cbn [csubst csub Extract.mdef fold_right defined]; try tauto; try (intros; exact (Hs _)).
  - intros (A & B & C). repeat split; try tauto. intros _. rewrite (mev_fresh K noI g (fun _ => true) _ (nofun_fresh _ (csubst_nofun s e2 H)) M r), csubst_value. exact C.
  - intro A. split; [tauto|]. lia.
Qed.
Lemma inv_pos_nofun i : nofun (inv_pos (K := K) i) = true.
Proof. do 6 (destruct i as [|i]; [reflexivity|]). reflexivity. Qed.
Lemma inv_real_nofun i : nofun (inv_real (K := K) i) = true.
Proof. do 6 (destruct i as [|i]; [reflexivity|]). reflexivity. Qed.
Lemma sol_pos_nofun s pd wd : nofun (sol_pos (K := K) s pd wd) = true.
Proof. cbn [sol_pos nofun forallb]. rewrite (csubst_nofun _ _ inv_pos_nofun). reflexivity. Qed.
Lemma sol_real_nofun s pd wd : nofun (sol_real (K := K) s pd wd) = true.
Proof. cbn [sol_real nofun forallb]. rewrite (csubst_nofun _ _ inv_real_nofun). reflexivity. Qed.

(** ** The values of the building blocks *)
Definition vp (a b c : K) : K := a + b + c.
Definition vS (a b c : K) : K := (a - b) ^ 2 + (b - c) ^ 2 + (c - a) ^ 2.
Definition vT (a b c : K) : K := (2 * a - b - c) * (2 * b - c - a) * (2 * c - a - b).
Definition vD (a b c : K) : K := ((a - b) * (b - c) * (c - a)) ^ 2.
Definition vY (a b c : K) : K := a * (b - c) ^ 2 + b * (c - a) ^ 2 + c * (a - b) ^ 2.
Definition vA (a b c : K) : K := (b - c) ^ 2 * (b + c - a) ^ 2 + (c - a) ^ 2 * (c + a - b) ^ 2 + (a - b) ^ 2 * (a + b - c) ^ 2
  + 2 * (b * c * (b - c) ^ 2 + c * a * (c - a) ^ 2 + a * b * (a - b) ^ 2).
Definition at3 (f : K -> K -> K -> K) r : K := f (r 0%nat) (r 1%nat) (r 2%nat).
Ltac blocks := unfold cs, cp, csub, C3; cbn [Cyclic.cev fold_right big bop bunit tr existsb find_pos nth Nat.eqb orb zpow Nat.add]; change (Pos.to_nat 2) with 2%nat; cbn [fpow]; ring.
Lemma c_p_value r : cev c_p r = at3 vp r.
Proof. unfold at3, vp, c_p. blocks. Qed.
Lemma c_S_value r : cev c_S r = at3 vS r.
Proof. unfold at3, vS, c_S. blocks. Qed.
Lemma c_D_value r : cev c_D r = at3 vD r.
Proof. unfold at3, vD, c_D. blocks. Qed.
Lemma c_Y_value r : cev c_Y r = at3 vY r.
Proof. unfold at3, vY, c_Y. blocks. Qed.
Lemma c_A_value r : cev c_A r = at3 vA r.
Proof. unfold at3, vA, c_A. blocks. Qed.
Lemma c_r_value r : cev c_r r = r 0%nat * r 1%nat * r 2%nat.
Proof. unfold c_r. blocks. Qed.
Lemma c_T_value r : cev (cp (csub (csub (CMul [CNum 2; CSym 0]) (CSym 1)) (CSym 2))) r = at3 vT r.
Proof. unfold at3, vT. blocks. Qed.

(** ** Exactness *)
(** the polynomial in p, q, r of a symmetric form *)
Definition pqr_exact (pp p : poly K) : Prop := wf 3 pp /\ isobaric K pp /\
  forall a b c, peval (pt3 (a + b + c) (a * b + b * c + c * a) (a * b * c)) pp = peval (pt3 a b c) p.
Definition env_of (s : nat -> cx K) r (i : nat) : K := cev (s i) r.

Lemma f2_neq0 : (2 : K) <> 0.
Proof. apply flt_neq0, f2_pos. Qed.
Lemma f4_neq0 : (4 : K) <> 0.
Proof. replace (4 : K) with (2 * 2 : K) by ring. apply fmul_neq0; apply f2_neq0. Qed.

Lemma env_at_gens (s : nat -> cx K) r num : wf 3 num ->
  peval (at_gens [3;4;5]%nat (env_of s r)) num = peval (pt3 (cev (s 3%nat) r) (cev (s 4%nat) r) (cev (s 5%nat) r)) num.
Proof. intro H. rewrite (peval_pt3 K _ num H). reflexivity. Qed.

Lemma inv_real_values r :
  cev (inv_real 3) r = at3 vp r * (at3 vS r / 2) /\ cev (inv_real 4) r = at3 vT r / 2 /\ cev (inv_real 5) r = fnat 27 / 4 * at3 vD r.
Proof.
  pose proof f2_neq0. pose proof f4_neq0. cbn [inv_real Cyclic.cev fold_right]. rewrite c_p_value, c_S_value, c_D_value, c_T_value.
  split; [field; assumption|]. split; [field; assumption|ring].
Qed.
Lemma sol_real_value pdiv fuel nn pp p num pd wd s r : div_exact K pdiv -> pqr_exact pp p -> wf 3 p ->
  transform_real pdiv fuel pp = (num, pd, wd) -> answers K nn [3;4;5]%nat num s ->
  at3 vp r <> 0 -> at3 vS r <> 0 -> mdef r r (sol_real s pd wd) -> cev (sol_real s pd wd) r = peval r p.
Proof.
  intros Hdiv (Wp & Ip & Vp) Hwp Ht Ha Hp HS Hd.
  destruct (transform_real_value K pdiv Hdiv fuel pp num pd wd Wp Ip Ht) as [Wn Vn].
  pose proof f2_neq0 as N2. pose proof f4_neq0 as N4.
  assert (Ds : defined (env_of inv_real r) s).
  { apply (csubst_mdef _ s r r inv_real_nofun). unfold sol_real in Hd. rewrite (fold_mdef_mul K noI g) in Hd. apply Hd. left. reflexivity. }
  destruct (proj1 (Ha (env_of inv_real r)) Ds) as [E _]. rewrite env_at_gens in E by exact Wn.
  unfold sol_real. cbn [Cyclic.cev fold_right]. rewrite csubst_value. change (fun i => cev (inv_real i) r) with (env_of inv_real r). rewrite E.
  destruct (inv_real_values r) as (E3 & E4 & E5). rewrite E3, E4, E5, c_p_value, c_S_value.
  set (w := at3 vS r / 2).
  assert (Hw : w <> 0). { unfold w. rewrite fdiv_def. apply fmul_neq0; [exact HS|]. intro C. apply (fneq10 K). transitivity ((2 : K) * / 2); [field; exact N2|rewrite C; ring]. }
  rewrite (Vn (at3 vp r) (r 0%nat * r 1%nat + r 1%nat * r 2%nat + r 2%nat * r 0%nat) (r 0%nat * r 1%nat * r 2%nat) w (at3 vp r * w) (at3 vT r / 2) (fnat 27 / 4 * at3 vD r)); try assumption.
  - change (at3 vp r) with (r 0%nat + r 1%nat + r 2%nat) at 2. rewrite Vp. rewrite <- (peval_pt3 K r p Hwp).
    assert (E1 : zpow w wd * zpow 2 wd = zpow (at3 vS r) wd).
    { rewrite <- zpow_mul_l by assumption. f_equal. unfold w. field. exact N2. }
    transitivity (peval r p * (zpow (at3 vp r) (- pd) * zpow (at3 vp r) pd) * ((zpow w wd * zpow 2 wd) * zpow (at3 vS r) (- wd))); [ring|].
    rewrite E1, zpow_opp by exact Hp. transitivity (peval r p * (zpow (at3 vS r) (- wd) * zpow (at3 vS r) wd)); [ring|]. rewrite zpow_opp by exact HS. ring.
  - reflexivity.
  - unfold w, at3, vp, vS. cbn [fpow]. field. exact N2.
  - unfold w, at3, vp, vS, vT. cbn [fpow fnat]. field. exact N2.
  - unfold w, at3, vS, vT, vD. cbn [fpow fnat]. field. ffold K. repeat split; first [exact N2 | exact N4 | fnz].
Qed.

Lemma inv_pos_values r : at3 vp r <> 0 -> r 0%nat * r 1%nat * r 2%nat <> 0 ->
  cev (inv_pos 3) r = at3 vA r / 2 / at3 vp r /\ cev (inv_pos 4) r = at3 vY r /\
  cev (inv_pos 5) r = at3 vD r * at3 vp r ^ 3 / (r 0%nat * r 1%nat * r 2%nat).
Proof.
  intros Hp Hr. pose proof f2_neq0. cbn [inv_pos Cyclic.cev fold_right]. rewrite c_p_value, c_A_value, c_D_value, c_Y_value, c_r_value, !zpow_neg1.
  split; [field; auto|]. split; [reflexivity|]. change (zpow (at3 vp r) 3) with (at3 vp r ^ 3). rewrite (fdiv_def K). ring.
Qed.
Lemma vA_schur a b c : vA a b c = 2 * (a + b + c) * (a * (a - b) * (a - c) + b * (b - c) * (b - a) + c * (c - a) * (c - b)).
Proof. unfold vA. cbn [fpow]. ring. Qed.
Lemma sol_pos_value pdiv fuel nn pp p num pd wd s r : div_exact K pdiv -> pqr_exact pp p -> wf 3 p ->
  transform_pos pdiv fuel pp = (num, pd, wd) -> answers K nn [3;4;5]%nat num s ->
  at3 vp r <> 0 -> at3 vA r <> 0 -> at3 vY r <> 0 -> r 0%nat * r 1%nat * r 2%nat <> 0 ->
  mdef r r (sol_pos s pd wd) -> cev (sol_pos s pd wd) r = peval r p.
Proof.
  intros Hdiv (Wp & Ip & Vp) Hwp Ht Ha Hp HA HY Hr Hd.
  destruct (transform_pos_value K pdiv Hdiv fuel pp num pd wd Wp Ip Ht) as [Wn Vn].
  pose proof f2_neq0 as N2.
  assert (Ds : defined (env_of inv_pos r) s).
  { apply (csubst_mdef _ s r r inv_pos_nofun). unfold sol_pos in Hd. rewrite (fold_mdef_mul K noI g) in Hd. apply Hd. left. reflexivity. }
  destruct (proj1 (Ha (env_of inv_pos r)) Ds) as [E _]. rewrite env_at_gens in E by exact Wn.
  unfold sol_pos. cbn [Cyclic.cev fold_right]. rewrite csubst_value. change (fun i => cev (inv_pos i) r) with (env_of inv_pos r). rewrite E.
  destruct (inv_pos_values r Hp Hr) as (E3 & E4 & E5). rewrite E3, E4, E5, c_p_value, c_A_value, c_Y_value, c_r_value.
  set (X := at3 vA r / 2 / at3 vp r). set (R := r 0%nat * r 1%nat * r 2%nat) in *. set (w := X * at3 vY r ^ 2 / R).
  assert (HX : X <> 0).
  { intro C. apply HA. transitivity (X * (2 * at3 vp r)); [unfold X; field; auto|]. rewrite C. ring. }
  assert (Hw : w <> 0).
  { intro C. apply (fmul_neq0 K X (at3 vY r ^ 2) HX (fpow_neq0 K _ 2 HY)). transitivity (w * R); [unfold w; field; exact Hr|]. rewrite C. ring. }
  assert (EX3 : X = r 0%nat * (r 0%nat - r 1%nat) * (r 0%nat - r 2%nat) + r 1%nat * (r 1%nat - r 2%nat) * (r 1%nat - r 0%nat) + r 2%nat * (r 2%nat - r 0%nat) * (r 2%nat - r 1%nat)).
  { unfold X, at3. rewrite vA_schur. unfold vp. field. split; [exact N2|exact Hp]. }
  rewrite (Vn (at3 vp r) (r 0%nat * r 1%nat + r 1%nat * r 2%nat + r 2%nat * r 0%nat) R w X (at3 vY r) (at3 vD r * at3 vp r ^ 3 / R)); try assumption.
  - change (at3 vp r) with (r 0%nat + r 1%nat + r 2%nat) at 2. unfold R at 1. rewrite Vp, <- (peval_pt3 K r p Hwp).
    set (P := at3 vp r) in *. set (A := at3 vA r) in *. set (Y := at3 vY r) in *.
    assert (E1 : zpow w wd * zpow 2 wd * zpow P wd * zpow R wd = zpow A wd * zpow Y (2 * wd)).
    { change 2%Z with (Z.of_nat 2). rewrite <- zpow_zpow_nat by exact HY. assert (HY2 : Y ^ 2 <> 0) by (apply fpow_neq0; exact HY).
      assert (H2w : w * 2 <> 0) by (apply fmul_neq0; assumption). assert (H2P : w * 2 * P <> 0) by (apply fmul_neq0; assumption).
      rewrite <- (zpow_mul_l K w 2), <- (zpow_mul_l K (w * 2) P), <- (zpow_mul_l K (w * 2 * P) R), <- (zpow_mul_l K A (Y ^ 2)) by assumption. f_equal. unfold w, X. cbn [fpow]. field. auto. }
    replace (wd - pd)%Z with (wd + - pd)%Z by lia. rewrite zpow_add by exact Hp.
    transitivity (peval r p * (zpow P (- pd) * zpow P pd) * (zpow w wd * zpow 2 wd * zpow P wd * zpow R wd) * zpow A (- wd) * zpow Y (- (2 * wd))); [ring|].
    rewrite E1, zpow_opp by exact Hp.
    transitivity (peval r p * (zpow A (- wd) * zpow A wd) * (zpow Y (- (2 * wd)) * zpow Y (2 * wd))); [ring|]. rewrite !zpow_opp by assumption. ring.
  - rewrite EX3. unfold w. rewrite EX3. unfold R in *. unfold at3, vp, vY, vD. cbn [fpow]. field.
    repeat split; intro C; apply Hr; rewrite C; ring.
  - unfold w. field. exact Hr.
  - rewrite EX3. unfold w. rewrite EX3. unfold R in *. unfold at3, vp, vY, vD. cbn [fpow]. field. repeat split; intro C; apply Hr; rewrite C; ring.
  - rewrite EX3. unfold w. rewrite EX3. unfold R in *. unfold at3, vp, vY, vD. cbn [fpow]. field. repeat split; intro C; apply Hr; rewrite C; ring.
Qed.

(** ** Exactness wherever the certificate is defined *)
Lemma peval_lines p : wf 3 p -> forall x y : nat -> K, is_poly K (fun t => peval (fun i => x i + t * y i) p).
Proof.
  intros H x y. apply (poly_ext K (fun t => peval (pt3 (x 0%nat + t * y 0%nat) (x 1%nat + t * y 1%nat) (x 2%nat + t * y 2%nat)) p)).
  - intro t. symmetry. apply (peval_pt3 K (fun i => x i + t * y i) p H).
  - apply peval_line, H.
Qed.
Lemma peval_ext3 p : wf 3 p -> forall x y : nat -> K, (forall i, x i = y i) -> peval x p = peval y p.
Proof. intros H x y E. rewrite (peval_pt3 K x p H), (peval_pt3 K y p H), !E. reflexivity. Qed.
(** a point where nothing vanishes *)
Definition P124 : nat -> K := pt3 1 2 4.
Lemma P124_values : at3 vp P124 = fnat 7 /\ at3 vS P124 = fnat 14 /\ at3 vT P124 = fnat 20 /\ at3 vD P124 = fnat 36 /\ at3 vY P124 = fnat 26 /\
  at3 vA P124 = fnat 322 /\ P124 0%nat * P124 1%nat * P124 2%nat = fnat 8.
Proof.
  unfold at3, vp, vS, vT, vD, vY, vA, P124. cbn [pt3 fpow]. change 322%nat with (2 * 7 * 23)%nat. rewrite !fnat_mul. cbn [fnat]. repeat split; ring.
Qed.
Lemma exact_from (sol : cx K) p (G : ex K) : nofun sol = true -> wf 3 p -> divfree K G = true -> ev P124 G <> 0 ->
  (forall r, ev r G <> 0 -> mdef r r sol -> cev sol r = peval r p) -> forall r, mdef r r sol -> cev sol r = peval r p.
Proof.
  intros Hs Hp HG HG0 H r Hd. rewrite <- (flat_value sol Hs).
  apply (exact_where_defined K (flat sol) (fun r => peval r p) (fun r => ev r G) P124).
  - apply peval_lines, Hp.
  - intros x y. apply divfree_poly, HG.
  - apply peval_ext3, Hp.
  - intros x y E. apply CertLimit.ev_ext, E.
  - exact HG0.
  - intros r' Hg Hd'. rewrite (flat_value sol Hs). apply H; [exact Hg|]. apply (flat_defined sol Hs). exact Hd'.
  - apply (flat_defined sol Hs r). exact Hd.
Qed.
Lemma sol_real_exact pdiv fuel nn pp p num pd wd s : div_exact K pdiv -> pqr_exact pp p -> wf 3 p ->
  transform_real pdiv fuel pp = (num, pd, wd) -> answers K nn [3;4;5]%nat num s ->
  forall r, mdef r r (sol_real s pd wd) -> cev (sol_real s pd wd) r = peval r p.
Proof.
  intros Hdiv Hpp Hp Ht Ha. destruct P124_values as (Pp & PS & _).
  apply (exact_from _ p (EMul (flat c_p) (flat c_S))); [apply sol_real_nofun|exact Hp|reflexivity| |].
  - cbn [ev]. rewrite !flat_value by reflexivity. rewrite c_p_value, c_S_value, Pp, PS. apply fmul_neq0; apply fnat_neq0; lia.
  - intros r HG Hd. cbn [ev] in HG. rewrite !flat_value in HG by reflexivity. rewrite c_p_value, c_S_value in HG.
    apply (sol_real_value pdiv fuel nn pp p num pd wd s r); try assumption; intro C; apply HG; rewrite C; ring.
Qed.
Lemma sol_pos_exact pdiv fuel nn pp p num pd wd s : div_exact K pdiv -> pqr_exact pp p -> wf 3 p ->
  transform_pos pdiv fuel pp = (num, pd, wd) -> answers K nn [3;4;5]%nat num s ->
  forall r, mdef r r (sol_pos s pd wd) -> cev (sol_pos s pd wd) r = peval r p.
Proof.
  intros Hdiv Hpp Hp Ht Ha. destruct P124_values as (Pp & _ & _ & _ & PY & PA & PR).
  apply (exact_from _ p (EMul (EMul (flat c_p) (flat c_A)) (EMul (flat c_Y) (flat c_r)))); [apply sol_pos_nofun|exact Hp|reflexivity| |].
  - cbn [ev]. rewrite !flat_value by reflexivity. rewrite c_p_value, c_A_value, c_Y_value, c_r_value, Pp, PA, PY, PR. repeat apply fmul_neq0; apply fnat_neq0; lia.
  - intros r HG Hd. cbn [ev] in HG. rewrite !flat_value in HG by reflexivity. rewrite c_p_value, c_A_value, c_Y_value, c_r_value in HG.
    apply (sol_pos_value pdiv fuel nn pp p num pd wd s r); try assumption; intro C; apply HG; rewrite C; ring.
Qed.

(** ** Where the certificates are defined *)
Lemma block_mdef (e : cx K) M r : nofun e = true -> divfree K (flat e) = true -> mdef M r e.
Proof.
  intros H D. apply (flat_defined e H). revert D. generalize (flat e). intro x. induction x; cbn [divfree defined]; rewrite ?andb_true_iff; try tauto. discriminate.
Qed.
Lemma inv_real_mdef M r i : mdef M r (inv_real i).
Proof. apply block_mdef; do 6 (destruct i as [|i]; [reflexivity|]); reflexivity. Qed.
Lemma sol_real_defined nn num pd wd s r : answers K nn [3;4;5]%nat num s ->
  at3 vp r <> 0 -> at3 vS r <> 0 -> at3 vT r <> 0 -> at3 vD r <> 0 -> mdef r r (sol_real s pd wd).
Proof.
  intros Ha Hp HS HT HD. pose proof f2_neq0 as N2. pose proof f4_neq0 as N4. destruct (inv_real_values r) as (E3 & E4 & E5).
  unfold sol_real. rewrite (fold_mdef_mul K noI g). intros x [<-|[<-|[<-|[<-|[]]]]].
  - apply csubst_mdef_back; [apply inv_real_nofun|apply inv_real_mdef|]. apply (proj2 (Ha (env_of inv_real r))).
    intros i [<-|[<-|[<-|[]]]]; unfold env_of; [rewrite E3|rewrite E4|rewrite E5].
    + intro C. apply (fmul_neq0 K _ _ Hp HS). transitivity (2 * (at3 vp r * (at3 vS r / 2))); [field; exact N2|rewrite C; ring].
    + intro C. apply HT. transitivity (2 * (at3 vT r / 2)); [field; exact N2|rewrite C; ring].
    + intro C. apply (fmul_neq0 K _ _ (fnat_neq0 K 27 ltac:(lia)) HD). transitivity (4 * (fnat 27 / 4 * at3 vD r)); [field; ffold K; first [exact N4|exact N2|fnz]|rewrite C; ring].
  - split; [exact I|]. intros _. exact N2.
  - split; [apply block_mdef; reflexivity|]. intros _. rewrite (mev_fresh K noI g (fun _ => true)), c_S_value by reflexivity. exact HS.
  - split; [apply block_mdef; reflexivity|]. intros _. rewrite (mev_fresh K noI g (fun _ => true)), c_p_value by reflexivity. exact Hp.
Qed.
Lemma inv_pos_mdef M r i : at3 vp r <> 0 -> r 0%nat * r 1%nat * r 2%nat <> 0 -> mdef M r (inv_pos i).
Proof.
  intros Hp Hr. do 3 (destruct i as [|i]; [exact I|]).
  destruct i as [|i].
  { cbn [inv_pos]. rewrite (fold_mdef_mul K noI g). intros x [<-|[<-|[<-|[]]]]; [apply block_mdef; reflexivity|exact I|].
    split; [apply block_mdef; reflexivity|]. intros _. rewrite (mev_fresh K noI g (fun _ => true)), c_p_value by reflexivity. exact Hp. }
  destruct i as [|i]; [apply block_mdef; reflexivity|].
  destruct i as [|i]; [|exact I].
  cbn [inv_pos]. rewrite (fold_mdef_mul K noI g). intros x [<-|[<-|[<-|[]]]]; [apply block_mdef; reflexivity|apply block_mdef; reflexivity|].
  split; [apply block_mdef; reflexivity|]. intros _. rewrite (mev_fresh K noI g (fun _ => true)), c_r_value by reflexivity. exact Hr.
Qed.
Lemma sol_pos_defined nn num pd wd s r : answers K nn [3;4;5]%nat num s ->
  at3 vp r <> 0 -> at3 vA r <> 0 -> at3 vY r <> 0 -> at3 vD r <> 0 -> r 0%nat * r 1%nat * r 2%nat <> 0 -> mdef r r (sol_pos s pd wd).
Proof.
  intros Ha Hp HA HY HD Hr. pose proof f2_neq0 as N2. destruct (inv_pos_values r Hp Hr) as (E3 & E4 & E5).
  unfold sol_pos. rewrite (fold_mdef_mul K noI g). intros x [<-|[<-|[<-|[<-|[<-|[<-|[]]]]]]].
  - apply csubst_mdef_back; [apply inv_pos_nofun|intro i; apply inv_pos_mdef; assumption|]. apply (proj2 (Ha (env_of inv_pos r))).
    intros i [<-|[<-|[<-|[]]]]; unfold env_of; [rewrite E3|rewrite E4; exact HY|rewrite E5].
    + intro C. apply HA. transitivity (2 * at3 vp r * (at3 vA r / 2 / at3 vp r)); [field; auto|rewrite C; ring].
    + intro C. apply (fmul_neq0 K _ _ HD (fpow_neq0 K _ 3 Hp)).
      transitivity (r 0%nat * r 1%nat * r 2%nat * (at3 vD r * at3 vp r ^ 3 / (r 0%nat * r 1%nat * r 2%nat))); [|rewrite C; ring].
      set (R := r 0%nat * r 1%nat * r 2%nat) in *. field. exact Hr.
  - split; [exact I|]. intros _. exact N2.
  - split; [apply block_mdef; reflexivity|]. intros _. rewrite (mev_fresh K noI g (fun _ => true)), c_A_value by reflexivity. exact HA.
  - split; [apply block_mdef; reflexivity|]. intros _. rewrite (mev_fresh K noI g (fun _ => true)), c_p_value by reflexivity. exact Hp.
  - split; [apply block_mdef; reflexivity|]. intros _. rewrite (mev_fresh K noI g (fun _ => true)), c_Y_value by reflexivity. exact HY.
  - split; [apply block_mdef; reflexivity|]. intros _. rewrite (mev_fresh K noI g (fun _ => true)), c_r_value by reflexivity. exact Hr.
Qed.

(** ** The default constraints *)
Lemma real_defaults r : 0 <= cev (inv_real 5) r.
Proof.
  destruct (inv_real_values r) as (_ & _ & ->). apply fmul_nonneg.
  - apply fdiv_nonneg; [apply fnat_nonneg|]. replace (4 : K) with (2 * 2 : K) by ring. apply fmul_pos; apply f2_pos.
  - unfold at3, vD. cbn [fpow]. replace (1 : K) with (1 : K) by ring.
    match goal with |- 0 <= ?x * (?x * 1) => replace (x * (x * 1)) with (x * x) by ring; apply fsqr_nonneg end.
Qed.
Lemma sqr2 (x : K) : 0 <= x ^ 2.
Proof. apply fpow_even_nonneg. reflexivity. Qed.
Lemma pos_defaults r i : 0 < r 0%nat -> 0 < r 1%nat -> 0 < r 2%nat -> (3 <= i <= 5)%nat -> 0 <= cev (inv_pos i) r.
Proof.
  intros H0 H1 H2 Hi. pose proof (flt_le H0) as L0. pose proof (flt_le H1) as L1. pose proof (flt_le H2) as L2.
  assert (Pp : 0 < at3 vp r) by (unfold at3, vp; repeat apply fadd_pos; assumption).
  assert (PR : 0 < r 0%nat * r 1%nat * r 2%nat) by (repeat apply fmul_pos; assumption).
  destruct (inv_pos_values r (flt_neq0 Pp) (flt_neq0 PR)) as (E3 & E4 & E5).
  assert (i = 3 \/ i = 4 \/ i = 5)%nat as [->|[->| ->]] by lia; [rewrite E3|rewrite E4|rewrite E5].
  - apply fdiv_nonneg; [|exact Pp]. apply fdiv_nonneg; [|apply f2_pos]. unfold at3, vA.
    repeat (assumption || apply sqr2 || apply f1_nonneg || apply fadd_nonneg || apply f1_nonneg || apply fmul_nonneg).
  - unfold at3, vY. repeat (assumption || apply sqr2 || apply fadd_nonneg || apply fmul_nonneg).
  - apply fdiv_nonneg; [|exact PR]. apply fmul_nonneg; [unfold at3, vD; apply sqr2|apply fpow_nonneg, flt_le, Pp].
Qed.

(** ** The representations as identities between numbers *)
Lemma real_identity pdiv fuel pp p num pd wd : div_exact K pdiv -> pqr_exact pp p ->
  transform_real pdiv fuel pp = (num, pd, wd) -> forall a b c, vp a b c <> 0 -> vS a b c <> 0 ->
  peval (pt3 (vp a b c * (vS a b c / 2)) (vT a b c / 2) (fnat 27 / 4 * vD a b c)) num = zpow (vp a b c) pd * zpow (vS a b c / 2) wd * peval (pt3 a b c) p.
Proof.
  intros Hdiv (Wp & Ip & Vp) Ht a b c Hp HS. pose proof f2_neq0 as N2. pose proof f4_neq0 as N4.
  destruct (transform_real_value K pdiv Hdiv fuel pp num pd wd Wp Ip Ht) as [_ Vn]. rewrite <- Vp. apply Vn; try assumption.
  - rewrite fdiv_def. apply fmul_neq0; [exact HS|]. intro C. apply (fneq10 K). transitivity ((2 : K) * / 2); [field; exact N2|rewrite C; ring].
  - reflexivity.
  - unfold vp, vS. cbn [fpow]. field. exact N2.
  - unfold vp, vS, vT. cbn [fpow fnat]. field. exact N2.
  - unfold vS, vT, vD. cbn [fpow fnat]. field. ffold K. repeat split; first [exact N2 | exact N4 | fnz].
Qed.
Definition vX (a b c : K) : K := a * (a - b) * (a - c) + b * (b - c) * (b - a) + c * (c - a) * (c - b).
Lemma pos_identity pdiv fuel pp p num pd wd : div_exact K pdiv -> pqr_exact pp p ->
  transform_pos pdiv fuel pp = (num, pd, wd) -> forall a b c, vp a b c <> 0 -> a * b * c <> 0 -> vX a b c <> 0 -> vY a b c <> 0 ->
  peval (pt3 (vX a b c) (vY a b c) (vD a b c * vp a b c ^ 3 / (a * b * c))) num
  = zpow (vp a b c) pd * zpow (vX a b c * vY a b c ^ 2 / (a * b * c)) wd * peval (pt3 a b c) p.
Proof.
  intros Hdiv (Wp & Ip & Vp) Ht a b c Hp Hr HX HY.
  destruct (transform_pos_value K pdiv Hdiv fuel pp num pd wd Wp Ip Ht) as [_ Vn]. rewrite <- Vp.
  assert (Ha : a <> 0) by (intro C; apply Hr; rewrite C; ring). assert (Hb : b <> 0) by (intro C; apply Hr; rewrite C; ring). assert (Hc : c <> 0) by (intro C; apply Hr; rewrite C; ring).
  apply Vn; try assumption.
  - intro C. apply (fmul_neq0 K _ _ HX (fpow_neq0 K _ 2 HY)). transitivity (vX a b c * vY a b c ^ 2 / (a * b * c) * (a * b * c)); [field; auto|rewrite C; ring].
  - unfold vX, vp, vY, vD. cbn [fpow]. field. auto.
  - field. auto.
  - unfold vX, vp, vY, vD. cbn [fpow]. field. auto.
  - unfold vX, vp, vY, vD. cbn [fpow]. field. auto.
Qed.

(** ** SymmetricSOS *)
Section Solver.
Variable uni : bool -> list K -> res (option (wsos K * wsos K)).
Variable fl : poly K -> K * list (poly K * nat).
Variable hom_sym : nat -> nat.
Variable pdiv : poly K -> poly K -> poly K * poly K.
Variable pqr : poly K -> poly K.
Variable fuel : nat.
Variable ok : cx K -> bool.
Hypothesis Huni : uni_exact K uni.
Hypothesis Hfl : factors_forms K fl.
Hypothesis Hdiv : div_exact K pdiv.

(** the recorded expressions have the values of the constraints; a constraint that is a monomial in one
    symbol is linear *)
Definition ineqs_ok (ineqs : list (poly K * ((nat -> K) -> K))) : Prop := forall q v, In (q, v) ineqs ->
  (forall r, v r = peval r q) /\ (forall m k, In (m, k) q -> k <> 0) /\
  (forall m k i, q = [(m, k)] -> single_var m = Some i -> nth i m 0%nat = 1%nat).
Lemma single_var_spec m i (r : nat -> K) : single_var m = Some i -> (i < length m)%nat /\ meval r m = r i ^ nth i m 0%nat.
Proof.
  unfold single_var. intro H.
  assert (A : forall l (r : nat -> K), meval r l = fold_right fmul 1 (map (fun j => r j ^ nth j l 0%nat) (seq 0 (length l)))).
  { clear. induction l as [|x l IH]; intro r; [reflexivity|]. rewrite meval_cons. cbn [length seq map fold_right nth]. f_equal. rewrite IH.
    rewrite <- seq_shift, map_map. reflexivity. }
  rewrite A. clear A.
  assert (N : NoDup (seq 0 (length m))) by apply seq_NoDup.
  assert (L : forall j, In j (seq 0 (length m)) -> (j < length m)%nat) by (intros j Hj; apply in_seq in Hj; lia).
  revert H N L. generalize (seq 0 (length m)). intro l.
  assert (Z : forall l, filter (fun j => negb (Nat.eqb (nth j m 0%nat) 0)) l = [] -> fold_right fmul 1 (map (fun j => r j ^ nth j m 0%nat) l) = 1).
  { clear. induction l as [|j l IH]; [reflexivity|]. cbn [filter map fold_right]. destruct (Nat.eqb (nth j m 0%nat) 0) eqn:E; cbn [negb]; [|discriminate].
    intro H. apply Nat.eqb_eq in E. rewrite E, (IH H). cbn [fpow]. ring. }
  induction l as [|j l IH]; intros H N L; [discriminate|]. cbn [filter map fold_right] in *.
  destruct (Nat.eqb (nth j m 0%nat) 0) eqn:E; cbn [negb] in H.
  - apply Nat.eqb_eq in E. inversion N. destruct (IH H) as [I1 I2]; [assumption|intros; apply L; right; assumption|]. split; [exact I1|]. rewrite E, I2. cbn [fpow]. ring.
  - destruct (filter _ l) eqn:F; [|discriminate]. apply Some_inj in H. subst j. split; [apply L; left; reflexivity|]. rewrite (Z l F). ring.
Qed.
Lemma vcons_in (ineqs : list (poly K * ((nat -> K) -> K))) c : In c (vcons ineqs) -> exists m, In ([(m, v_lc c)], v_val c) ineqs /\ single_var m = Some (v_sym c) /\ v_deg c = nth (v_sym c) m 0%nat /\ 0 <= v_lc c.
Proof.
  unfold vcons. intro H. apply in_flat_map in H. destruct H as ([q v] & Hq & H). cbn [fst snd] in H.
  destruct q as [|[m k] [|]]; try destruct H. destruct (single_var m) as [i|] eqn:E; [|destruct H]. destruct (0 <=? k) eqn:Ek; [|destruct H].
  destruct H as [<-|[]]. exists m. cbn. repeat split; try assumption.
Qed.
Lemma vcons_ok ineqs r : ineqs_ok ineqs -> (forall c, In c (vcons ineqs) -> 0 <= r (v_sym c)) ->
  forall c, In c (vcons ineqs) -> constraint_holds K r c /\ v_lc c <> 0 /\ v_deg c = 1%nat.
Proof.
  intros Ho Hr c Hc. destruct (vcons_in ineqs c Hc) as (m & Hi & Hs & Hg & Hk). destruct (Ho _ _ Hi) as (Hv & Hn & H1).
  assert (D : v_deg c = 1%nat) by (rewrite Hg; apply (H1 m (v_lc c)); [reflexivity|exact Hs]).
  assert (E : v_val c r = v_lc c * r (v_sym c) ^ v_deg c).
  { rewrite Hv, peval_cons, peval_nil. cbn [fst snd]. rewrite (proj2 (single_var_spec m _ r Hs)), Hg. ring. }
  split; [split; [exact E|]|split; [apply (Hn m); left; reflexivity|exact D]].
  rewrite E. apply fmul_nonneg; [exact Hk|]. apply fpow_nonneg, Hr, Hc.
Qed.
Lemma vcons_from_ineqs ineqs r : ineqs_ok ineqs -> (forall q v, In (q, v) ineqs -> 0 <= peval r q) ->
  forall c, In c (vcons ineqs) -> 0 <= r (v_sym c).
Proof.
  intros Ho Hr c Hc. destruct (vcons_in ineqs c Hc) as (m & Hi & Hs & Hg & Hk). destruct (Ho _ _ Hi) as (Hv & Hn & H1).
  specialize (Hr _ _ Hi). rewrite peval_cons, peval_nil in Hr. cbn [fst snd] in Hr.
  rewrite (proj2 (single_var_spec m _ r Hs)), (H1 m (v_lc c) _ eq_refl Hs) in Hr. cbn [fpow] in Hr.
  assert (Kp : 0 < v_lc c) by (apply (flt_le_neq K); split; [exact Hk|intro C; apply (Hn m (v_lc c)); [left; reflexivity|symmetry; exact C]]).
  replace (r (v_sym c)) with ((v_lc c * (r (v_sym c) * 1) + 0) / v_lc c) by (field; apply (flt_neq0 Kp)). apply fdiv_nonneg; assumption.
Qed.

Definition generic r : Prop := at3 vp r <> 0 /\ at3 vS r <> 0 /\ at3 vT r <> 0 /\ at3 vD r <> 0 /\ at3 vA r <> 0 /\ at3 vY r <> 0 /\ r 0%nat * r 1%nat * r 2%nat <> 0.
Lemma P124_generic : generic P124.
Proof.
  destruct P124_values as (E1 & E2 & E3 & E4 & E5 & E6 & E7). unfold generic. rewrite E1, E2, E3, E4, E5, E6, E7.
  repeat split; apply fnat_neq0; lia.
Qed.
Lemma try_method_sound p ineqs positive v : wf 3 p -> pqr_exact (pqr p) p -> ineqs_ok ineqs ->
  try_method uni fl hom_sym pdiv pqr fuel g ok p ineqs positive = Ok (Some v) ->
  exists sol : cx K, nofun sol = true /\ (forall r, generic r -> mdef r r sol) /\
  forall r, (forall c, In c (vcons ineqs) -> 0 <= r (v_sym c)) -> mdef r r sol -> v r = peval r p /\ 0 <= v r.
Proof.
  intros Hp Hpp Ho H. unfold try_method in H. destruct (transform pdiv pqr fuel positive p) as [[num pd] wd] eqn:Et.
  destruct (prove_by_pivoting uni fl _ hom_sym [3;4;5]%nat num) as [[s|]|] eqn:Es; try discriminate. apply Ok_inj in H.
  assert (Wn : wf 3 num).
  { destruct Hpp as (W1 & W2 & _). unfold transform in Et. destruct positive; [apply (transform_pos_value K pdiv Hdiv) in Et|apply (transform_real_value K pdiv Hdiv) in Et]; tauto. }
  pose proof (prove_lemma K uni fl _ hom_sym Huni Hfl 3 [3;4;5]%nat num s (proj2 Wn) (proj1 Wn) Es) as Ha.
  assert (F : forall (sol : cx K), nofun sol = true -> (forall r, mdef r r sol -> cev sol r = peval r p) -> finish noI g ok (vcons ineqs) sol = Some v ->
     forall r, (forall c, In c (vcons ineqs) -> 0 <= r (v_sym c)) -> mdef r r sol -> v r = peval r p /\ 0 <= v r).
  { intros sol Hn He Hf r Hr Hd. destruct (finish_spec K noI g ok (vcons ineqs) sol v r) as [A B]; try assumption.
    - intros; apply fle_refl.
    - apply nofun_fresh, Hn.
    - apply vcons_ok; assumption.
    - rewrite <- (He r Hd). split; assumption. }
  unfold transform in Et. destruct positive.
  - exists (sol_pos s pd wd). split; [apply sol_pos_nofun|]. split.
    + intros r (G1 & G2 & G3 & G4 & G5 & G6 & G7). eapply sol_pos_defined; eassumption.
    + apply F; [apply sol_pos_nofun| |exact H]. eapply sol_pos_exact; eassumption.
  - exists (sol_real s pd wd). split; [apply sol_real_nofun|]. split.
    + intros r (G1 & G2 & G3 & G4 & G5 & G6 & G7). eapply sol_real_defined; eassumption.
    + apply F; [apply sol_real_nofun| |exact H]. eapply sol_real_exact; eassumption.
Qed.
Lemma symmetric_sos_lemma p ineqs v : wf 3 p -> pqr_exact (pqr p) p -> ineqs_ok ineqs ->
  symmetric_sos uni fl hom_sym pdiv pqr fuel g ok p ineqs = Ok (Some v) ->
  (forall r, generic r -> (forall q w, In (q, w) ineqs -> 0 <= peval r q) -> v r = peval r p /\ 0 <= v r) /\
  (forall r, (forall q w, In (q, w) ineqs -> 0 <= peval r q) -> 0 <= peval r p).
Proof.
  intros Hp Hpp Ho H.
  assert (exists positive, try_method uni fl hom_sym pdiv pqr fuel g ok p ineqs positive = Ok (Some v)) as [positive Hm].
  { unfold symmetric_sos in H. destruct (negb _); [discriminate|]. destruct (try_method uni fl hom_sym pdiv pqr fuel g ok p ineqs false) as [[v'|]|] eqn:E; try discriminate.
    - exists false. rewrite E. exact H.
    - destruct (forallb _ _); [|discriminate]. exists true. exact H. }
  destruct (try_method_sound p ineqs positive v Hp Hpp Ho Hm) as (sol & Hn & Hd & Hs). split.
  - intros r Hg Hr. apply Hs; [apply vcons_from_ineqs; assumption|apply Hd, Hg].
  - intros r Hr. apply (nonneg_where_defined K (flat sol) (fun r => peval r p) P124 r).
    + apply peval_lines, Hp.
    + apply peval_ext3, Hp.
    + apply (flat_defined sol Hn P124), Hd, P124_generic.
    + intros t T0 T1 D. destruct (Hs (seg K r P124 t)) as [A B]; [|apply (flat_defined sol Hn), D|rewrite <- A; exact B].
      intros c Hc. apply seg_nonneg; [exact T0|exact T1|apply (vcons_from_ineqs ineqs r Ho Hr c Hc)|].
      unfold P124. destruct (v_sym c) as [|[|]]; cbn [pt3]; [apply f1_nonneg|apply flt_le, f2_pos|]. replace (4 : K) with (2 * 2 : K) by ring. apply flt_le, fmul_pos; apply f2_pos.
Qed.
End Solver.
End Facts.

(** ** In the form used by the property theorems *)
Section Final.
Variable K : OrdField.
Local Open Scope of_scope.
Add Field Kf : (F_field K).
Lemma inverse_values (r : nat -> K) :
  let a := r 0%nat in let b := r 1%nat in let c := r 2%nat in
  let s := a + b + c in
  let D := ((a - b) * (b - c) * (c - a)) ^ 2 in
  let Sc := a * (a - b) * (a - c) + b * (b - c) * (b - a) + c * (c - a) * (c - b) in
  (cev noI (inv_real 3) r = s * (((a - b) ^ 2 + (b - c) ^ 2 + (c - a) ^ 2) / 2) /\
   cev noI (inv_real 4) r = (2 * a - b - c) * (2 * b - c - a) * (2 * c - a - b) / 2 /\
   cev noI (inv_real 5) r = fnat 27 / 4 * D /\ 0 <= cev noI (inv_real 5) r) /\
  (s <> 0 -> a * b * c <> 0 ->
   cev noI (inv_pos 3) r = Sc /\ cev noI (inv_pos 4) r = a * (b - c) ^ 2 + b * (c - a) ^ 2 + c * (a - b) ^ 2 /\
   cev noI (inv_pos 5) r = D * s ^ 3 / (a * b * c)) /\
  (0 < a -> 0 < b -> 0 < c -> 0 <= cev noI (inv_pos 3) r /\ 0 <= cev noI (inv_pos 4) r /\ 0 <= cev noI (inv_pos 5) r).
Proof.
  cbv zeta. destruct (inv_real_values K r) as (E3 & E4 & E5). split; [|split].
  - split; [exact E3|]. split; [exact E4|]. split; [exact E5|apply real_defaults].
  - intros Hp Hr. destruct (inv_pos_values K r Hp Hr) as (F3 & F4 & F5). split; [|split; [exact F4|exact F5]].
    rewrite F3. unfold at3. rewrite vA_schur. unfold vp. field. split; [apply f2_neq0|exact Hp].
  - intros H0 H1 H2. repeat split; apply pos_defaults; try assumption; lia.
Qed.
Lemma certificate_exact pdiv fuel (pp p num : poly K) pd wd (s : ex K) nn g (positive : bool) :
  div_exact K pdiv -> pqr_exact K pp p -> Poly.wf 3 p ->
  (if positive then transform_pos pdiv fuel pp else transform_real pdiv fuel pp) = (num, pd, wd) ->
  answers K nn [3;4;5]%nat num s ->
  forall r : nat -> K, let sol := if positive then sol_pos s pd wd else sol_real s pd wd in
  mdef noI g r r sol -> cev noI sol r = peval r p.
Proof.
  intros Hd Hpp Hp Ht Ha. destruct positive; cbv zeta; [eapply sol_pos_exact|eapply sol_real_exact]; eassumption.
Qed.
Lemma symmetric_sos_spec uni fl hom_sym pdiv pqr fuel g ok (p : poly K) ineqs v :
  uni_exact K uni -> factors_forms K fl -> div_exact K pdiv -> Poly.wf 3 p -> pqr_exact K (pqr p) p -> ineqs_ok K ineqs ->
  symmetric_sos uni fl hom_sym pdiv pqr fuel g ok p ineqs = Ok (Some v) ->
  (forall r : nat -> K,
     let a := r 0%nat in let b := r 1%nat in let c := r 2%nat in
     a + b + c <> 0 -> (2 * a - b - c) * (2 * b - c - a) * (2 * c - a - b) <> 0 -> (a - b) * (b - c) * (c - a) <> 0 -> a * b * c <> 0 ->
     a * (a - b) * (a - c) + b * (b - c) * (b - a) + c * (c - a) * (c - b) <> 0 ->
     a * (b - c) ^ 2 + b * (c - a) ^ 2 + c * (a - b) ^ 2 <> 0 ->
     (forall q w, In (q, w) ineqs -> 0 <= peval r q) -> v r = peval r p /\ 0 <= v r) /\
  (forall r : nat -> K, (forall q w, In (q, w) ineqs -> 0 <= peval r q) -> 0 <= peval r p).
Proof.
  intros Hu Hf Hd Hp Hpp Ho H. destruct (symmetric_sos_lemma K g uni fl hom_sym pdiv pqr fuel ok Hu Hf Hd p ineqs v Hp Hpp Ho H) as [A B].
  split; [|exact B]. intros r a b c G1 G2 G3 G4 G5 G6 Hr. apply A; [|exact Hr].
  assert (Hab : a - b <> 0) by (intro C; apply G3; rewrite C; ring).
  unfold generic, at3. fold a b c. split; [exact G1|]. split.
  { unfold vS. apply flt_neq0. apply fadd_pos_l; [apply fadd_pos_l|]; try apply sqr2. apply (flt_le_neq K). split; [apply sqr2|]. intro C. apply (fpow_neq0 K _ 2 Hab). symmetry. exact C. }
  split; [exact G2|]. split; [unfold vD; apply fpow_neq0, G3|]. split; [|split; [exact G6|exact G4]].
  rewrite vA_schur. repeat apply fmul_neq0; [apply f2_neq0|exact G1|exact G5].
Qed.
End Final.

(** ** Concrete oracles, for the examples *)
Section Oracles.
Variable K : OrdField.
Local Open Scope of_scope.
Add Field Kf : (F_field K).
Local Notation wf := Poly.wf.
(** a division that knows one quotient *)
Definition pdiv_known (q : poly K) (f g : poly K) : poly K * poly K :=
  match padd f (pneg (pmul q g)) with [] => (q, []) | _ => ([], f) end.
Lemma pdiv_known_exact q : wf 3 q -> div_exact K (pdiv_known q).
Proof.
  intros Hq f g Hf Hg. unfold pdiv_known.
  destruct (pmul_spec K 3 q g Hq Hg) as (W1 & V1 & _). destruct (pneg_spec K 3 _ W1) as (W2 & V2 & _). destruct (padd_full K 3 f _ Hf W2) as (_ & V3 & _).
  destruct (padd f (pneg (pmul q g))) as [|t l] eqn:E; cbn [fst snd].
  - split; [exact Hq|]. intro x. specialize (V3 x). rewrite V2, V1, peval_nil in V3. rewrite peval_nil. transitivity (peval x f + - (peval x q * peval x g) + peval x q * peval x g); [ring|].
    rewrite <- V3. ring.
  - split; [split; [constructor|intros m []]|]. intro x. rewrite peval_nil. ring.
Qed.
Definition mn (i j k : nat) : list nat := [i; j; k].
(** Schur's polynomial of degree three and its form in p, q, r *)
Definition schur : poly K :=
  [(mn 3 0 0, 1); (mn 2 1 0, - (1)); (mn 2 0 1, - (1)); (mn 1 2 0, - (1)); (mn 1 1 1, 3); (mn 1 0 2, - (1)); (mn 0 3 0, 1); (mn 0 2 1, - (1)); (mn 0 1 2, - (1)); (mn 0 0 3, 1)].
Definition schur_pqr : poly K := [(mn 3 0 0, 1); (mn 1 1 0, - (4)); (mn 0 0 1, fnat 9)].
Lemma keys3 (p : poly K) : forallb (fun m => Nat.eqb (length m) 3) (keys p) = true -> NoDup (keys p) -> wf 3 p.
Proof. intros H N. split; [exact N|]. intros m Hm. rewrite forallb_forall in H. apply Nat.eqb_eq, H, Hm. Qed.
Lemma schur_wf : wf 3 schur.
Proof. apply keys3; [reflexivity|]. repeat constructor; cbn; intuition discriminate. Qed.
Lemma schur_exact : pqr_exact K schur_pqr schur.
Proof.
  split; [apply keys3; [reflexivity|]; repeat constructor; cbn; intuition discriminate|]. split.
  - exists 3%nat. intros m [<-|[<-|[<-|[]]]]; reflexivity.
  - intros a b c. unfold schur_pqr, schur. rewrite !peval_cons, !peval_nil. cbn [fst snd]. unfold mn. rewrite !meval_cons, !meval_nil. cbn [pt3 fpow fnat]. ring.
Qed.
(** a^2 + b^2 + c^2 - ab - bc - ca *)
Definition dist2 : poly K := [(mn 2 0 0, 1); (mn 1 1 0, - (1)); (mn 1 0 1, - (1)); (mn 0 2 0, 1); (mn 0 1 1, - (1)); (mn 0 0 2, 1)].
Definition dist2_pqr : poly K := [(mn 2 0 0, 1); (mn 0 1 0, - (3))].
Lemma dist2_exact : pqr_exact K dist2_pqr dist2.
Proof.
  split; [apply keys3; [reflexivity|]; repeat constructor; cbn; intuition discriminate|]. split.
  - exists 2%nat. intros m [<-|[<-|[]]]; reflexivity.
  - intros a b c. unfold dist2_pqr, dist2. rewrite !peval_cons, !peval_nil. cbn [fst snd]. unfold mn. rewrite !meval_cons, !meval_nil. cbn [pt3 fpow fnat]. ring.
Qed.
(** a + b + c *)
Definition sum1 : poly K := [(mn 1 0 0, 1); (mn 0 1 0, 1); (mn 0 0 1, 1)].
Definition sum1_pqr : poly K := [(mn 1 0 0, 1)].
Lemma sum1_exact : pqr_exact K sum1_pqr sum1.
Proof.
  split; [apply keys3; [reflexivity|]; repeat constructor; cbn; intuition discriminate|]. split.
  - exists 1%nat. intros m [<-|[]]; reflexivity.
  - intros a b c. unfold sum1_pqr, sum1. rewrite !peval_cons, !peval_nil. cbn [fst snd]. unfold mn. rewrite !meval_cons, !meval_nil. cbn [pt3 fpow fnat]. ring.
Qed.
(** (a+b+c)(2a-b-c)(2b-c-a)(2c-a-b) in p, q, r *)
Definition sumT_pqr : poly K := [(mn 4 0 0, 2); (mn 2 1 0, - fnat 9); (mn 1 0 1, fnat 27)].
Definition sumT : poly K := expand ((EX 0 + EX 1 + EX 2) * ((EC 2 * EX 0 - EX 1 - EX 2) * (EC 2 * EX 1 - EX 2 - EX 0) * (EC 2 * EX 2 - EX 0 - EX 1)))%E.
Lemma sumT_exact : pqr_exact K sumT_pqr sumT.
Proof.
  split; [apply keys3; [reflexivity|]; repeat constructor; cbn; intuition discriminate|]. split.
  - exists 4%nat. intros m [<-|[<-|[<-|[]]]]; reflexivity.
  - intros a b c. unfold sumT. match goal with |- _ = peval _ (expand ?e) => rewrite (proj1 (proj2 (expand_spec K e eq_refl))) end. unfold sumT_pqr. rewrite !peval_cons, !peval_nil. cbn [fst snd]. unfold mn. rewrite !meval_cons, !meval_nil. cbn [pt3 fpow fnat ev]. ring.
Qed.
End Oracles.

(** ** The variables found non-negative *)
Section NonNeg.
Variable K : OrdField.
Local Open Scope of_scope.
Add Field Kf3 : (F_field K).
Lemma nonneg_index_sound (ps : list (poly K)) (r : nat -> K) i :
  (forall q, In q ps -> 0 <= peval r q) -> (forall q m k, In q ps -> In (m, k) q -> length m = 3%nat /\ k <> 0) ->
  nonneg_index ps i = true -> 0 <= r i.
Proof.
  intros HP HW H. unfold nonneg_index in H. apply existsb_exists in H. destruct H as (p & Hp & H).
  destruct p as [|[m k] [|? ?]]; cbn in H; try discriminate.
  destruct (HW _ m k Hp (or_introl eq_refl)) as [HL Hk]. specialize (HP _ Hp).
  destruct (Nat.eqb (list_sum m) 1) eqn:E1; cbn [andb] in H; [|discriminate].
  destruct (0 <=? k) eqn:E2; [|discriminate]. apply fleb_le in E2. apply Nat.eqb_eq in E1. apply Nat.eqb_eq in H. subst i.
  assert (Kp : 0 < k) by (apply flt_le_neq; split; [exact E2|congruence]).
  rewrite peval_cons, peval_nil in HP.
  assert (X : meval r m = r (find_pos 1 m)).
  { destruct m as [|a [|b [|c [|? ?]]]]; try discriminate. cbn [list_sum] in E1.
    rewrite !meval_cons, meval_nil. cbn in E1.
    assert (C : (a = 1 /\ b = 0 /\ c = 0 \/ a = 0 /\ b = 1 /\ c = 0 \/ a = 0 /\ b = 0 /\ c = 1)%nat) by lia.
    destruct C as [(->&->&->)|[(->&->&->)|(->&->&->)]]; cbn; ring. }
  rewrite X in HP. replace (k * r (find_pos 1 m) + 0) with (k * r (find_pos 1 m)) in HP by ring.
  replace (r (find_pos 1 m)) with (k * r (find_pos 1 m) * / k) by (field; exact Hk).
  apply fmul_nonneg; [exact HP|]. apply flt_le, finv_pos, Kp.
Qed.
(** with no constraints the variables taken as non-negative are the defaults *)
Lemma new_nonneg_default pdiv pqr fuel (positive : bool) s (r : nat -> K) :
  (positive = true -> 0 < r 0%nat /\ 0 < r 1%nat /\ 0 < r 2%nat) ->
  new_nonneg (K := K) pdiv pqr fuel positive [] s = true -> 0 <= cev noI (if positive then inv_pos s else inv_real s) r.
Proof.
  intros Hr H. pose proof (inverse_values K r) as I. cbv zeta in I. destruct I as [(_ & _ & _ & I5) [_ I]].
  destruct s as [|[|[|[|[|[|s]]]]]]; destruct positive; try discriminate H; try exact I5;
    destruct (Hr eq_refl) as (A & B & C); destruct (I A B C) as (J3 & J4 & J5); assumption.
Qed.
(** the polynomials SymmetricSOS gives an answer for *)
Lemma symmetric_sos_domain uni fl hom_sym pdiv pqr fuel g ok (p : poly K) ineqs v : Poly.wf 3 p ->
  symmetric_sos uni fl hom_sym pdiv pqr fuel g ok p ineqs = Ok (Some v) ->
  (exists d, forall m, In m (keys p) -> list_sum m = d) /\
  (forall a b c : K, peval (pt3 b c a) p = peval (pt3 a b c) p) /\ (forall a b c : K, peval (pt3 b a c) p = peval (pt3 a b c) p).
Proof.
  intros Hw H. unfold symmetric_sos in H. destruct (is_homog p && is_sym3 p)%bool eqn:E; [|discriminate H].
  apply andb_true_iff in E. destruct E as [E1 E2]. split; [exact (is_homog_spec K p E1)|].
  unfold is_sym3 in E2. assert (P : forall h, In h [[1;2;0]; [1;0;2]]%nat -> is_perm 3 h).
  { intros h [<-|[<-|[]]]; [exact (Permutation.Permutation_app_comm [1; 2]%nat [0]%nat)|apply Permutation.perm_swap]. }
  pose proof (proj1 (Coeff.is_cyclic_spec K 3 _ p Hw P) E2) as G.
  assert (X : forall (x y : nat -> K), (forall i, (i < 3)%nat -> x i = y i) -> peval x p = peval y p).
  { intros x y Q. exact (Shared.peval_ext_len K 3 p x y Hw Q). }
  split; intros a b c.
  - rewrite <- (G [1;2;0]%nat (Coeff.gen_in 3 [[1;2;0]; [1;0;2]]%nat [1;2;0]%nat (or_introl eq_refl)) (pt3 a b c)). apply X. intros [|[|[|i]]] Hi; try reflexivity; lia.
  - rewrite <- (G [1;0;2]%nat (Coeff.gen_in 3 [[1;2;0]; [1;0;2]]%nat [1;0;2]%nat (or_intror (or_introl eq_refl))) (pt3 a b c)). apply X. intros [|[|[|i]]] Hi; try reflexivity; lia.
Qed.
End NonNeg.
