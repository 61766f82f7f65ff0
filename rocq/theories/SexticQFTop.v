(** * Symmetric sextics, quadratic form method: from the solvers to the form *)
From Coq Require Import Bool List Arith Lia ZArith Ring Field.
From Verif Require Import OrdField Base Congruence Perm Poly PolyId PolyOps Coeff Expr CertLimit TriPoly Monomials Univariate UnivariateLemmas StructUtils.
From Verif Require TernaryQuad.
From Verif Require Import SymDiv DenseSym DenseSymFacts DenseSymAxis DenseSymMain DenseSymTop Septic SepticFacts SepticMain SepticTop SexticQF SexticQFFacts SexticQFMain SexticForm.
Import ListNotations.

Section Top.
Variable K : OrdField.
Local Open Scope of_scope.
Add Field Kf : (F_field K).
Implicit Types (x y t rem ker A B C : K) (e : ex K) (r : option K).

Definition answer_of f rem r (s : sol0 (K := K)) : Prop := forall e real, s = Ok (Some (e, real)) -> answer6 K real e f rem r.
Lemma pick_ok f rem r ss first e : (forall s, In s ss -> answer_of f rem r s) -> (forall e', first = Some e' -> answer6 K false e' f rem r) ->
  pick ss first = Ok (Some e) -> exists real, answer6 K real e f rem r /\ ((exists e', In (Ok (Some (e', true))) ss) -> real = true).
Proof.
  revert first. induction ss as [|s ss IH]; intros first Hss Hf; cbn [pick].
  - intro H. exists false. split; [apply Hf; congruence|]. intros [e' []].
  - assert (Hss' : forall s, In s ss -> answer_of f rem r s) by (intros; apply Hss; right; assumption).
    pose proof (Hss s (or_introl eq_refl)) as Hs. destruct s as [[[s0 [|]]|]|].
    + intro H. exists true. split; [|reflexivity]. apply Hs. congruence.
    + intro H. refine (match IH _ Hss' _ H with ex_intro _ real (conj X1 X2) => _ end).
      * intros e' He'. destruct first as [e0|]; [apply Hf; exact He'|]. assert (E : s0 = e') by congruence. subst s0. apply Hs. reflexivity.
      * exists real. split; [exact X1|]. intros (e' & [C|C]); [congruence|]. apply X2. exists e'. exact C.
    + intro H. destruct (IH _ Hss' Hf H) as (real & X1 & X2). exists real. split; [exact X1|]. intros (e' & [C|C]); [congruence|]. apply X2. exists e'. exact C.
    + intro H. congruence.
Qed.

Definition solutions (z0 : K) (roots : K -> K -> res (list (broot (K := K)))) c0 x y ker t rem r : list sol0 :=
  let w0 f := wrap0 f x y c0 ker t rem r in let w1 f := wrap1 f x y c0 ker t rem r in
  [w0 S_square; w0 S_trivial; w1 S_regular; w1 (S_sos2 false); w1 (S_sos2 true); w1 (S_alternative z0); w1 (S_alternative (- x - 1)); w0 (S_border roots)].
Lemma solve_ok findz roots c0 x y ker t rem r e : roots_ok K roots -> 0 <= c0 -> 0 <= t -> 0 <= rem ->
  sextic_solve findz roots c0 x y ker t rem r = Ok (Some e) ->
  exists real, answer6 K real e (form6 K c0 x y ker t rem r) rem r /\
    (forall z0, findz x y (ker / c0) = Ok z0 -> (exists e', In (Ok (Some (e', true))) (solutions z0 roots c0 x y ker t rem r)) -> real = true).
Proof.
  intros Hr Hc Ht Hm. unfold sextic_solve. destruct (c0 =? 0) eqn:E0; [intro H; congruence|]. apply (feqb_neq K) in E0.
  assert (C0 : 0 < c0) by (apply (flt_le_neq K); split; [exact Hc|congruence]).
  destruct (findz x y (ker / c0)) as [z0|] eqn:Ez; [|intro H; congruence]. cbv zeta. intro H.
  destruct (pick_ok (form6 K c0 x y ker t rem r) rem r (solutions z0 roots c0 x y ker t rem r) None e) as (real & X1 & X2); [| |exact H|].
  - intros s [<-|[<-|[<-|[<-|[<-|[<-|[<-|[<-|[]]]]]]]]] e' real' He'.
    + exact (wrap0_ok K _ x y c0 ker t rem r e' real' C0 Ht Hm (S_square_type K x y (ker / c0)) He').
    + exact (wrap0_ok K _ x y c0 ker t rem r e' real' C0 Ht Hm (S_trivial_type K x y (ker / c0)) He').
    + exact (wrap1_ok K _ x y c0 ker t rem r e' real' C0 Ht Hm (S_regular_ok K x y) He').
    + exact (wrap1_ok K _ x y c0 ker t rem r e' real' C0 Ht Hm (S_sos2_ok K false x y) He').
    + exact (wrap1_ok K _ x y c0 ker t rem r e' real' C0 Ht Hm (S_sos2_ok K true x y) He').
    + exact (wrap1_ok K _ x y c0 ker t rem r e' real' C0 Ht Hm (S_alternative_ok K z0 x y) He').
    + exact (wrap1_ok K _ x y c0 ker t rem r e' real' C0 Ht Hm (S_alternative_ok K (- x - 1) x y) He').
    + exact (wrap0_ok K _ x y c0 ker t rem r e' real' C0 Ht Hm (S_border_ok K roots x y (ker / c0) Hr) He').
  - intros e' He'. discriminate He'.
  - exists real. split; [exact X1|]. intros z0' Hz. assert (z0' = z0) by congruence. subst z0'. exact X2.
Qed.

(** ** The form *)
Definition sym6 (p : poly K) : Prop :=
  (coef p [5; 1; 0] = coef p [1; 5; 0] /\ coef p [4; 2; 0] = coef p [2; 4; 0] /\ coef p [3; 2; 1] = coef p [2; 3; 1])%nat.
Lemma sextic_form p uni sym t c0 x y rem r : uni_ok K uni -> wf 3 p -> homdeg 6 p -> cyclic3 (cfp p) -> sym6 p ->
  div_sq1 (axis 6 p) = (sym, (0, 0)) -> restructure uni sym = Ok (RSome t c0 x y rem r) ->
  0 <= t /\ 0 <= c0 /\ 0 <= rem /\ forall A B C, peval (pt3 A B C) p = form6 K c0 x y (sextic_ker (coef p [4; 2; 0]%nat) t c0 x y rem r) t rem r A B C.
Proof.
  intros U W Hd Hc Hs Ed Er. destruct (div_sq1_spec K _ _ _ _ Ed) as [L V]. assert (La : length (axis 6 p) = 7%nat) by (unfold axis; rewrite map_length, seq_length; reflexivity).
  rewrite La in L. assert (Q : quartic K sym) by (exists sym; split; [exact L|reflexivity]).
  destruct (restructure_spec K _ _ _ _ _ _ _ _ U Q Er) as (P1 & P2 & P3 & VF). split; [exact P1|]. split; [exact P2|]. split; [exact P3|].
  apply (sextic_identity K (fun A B C => peval (pt3 A B C) p)).
  - eapply sex6_ext; [|reflexivity|apply (sex6_tri K _ Hc Hs)]. intros A B C. symmetry. apply peval_tri; assumption.
  - intro z. rewrite <- (axis_value K 6 p z W Hd), V, VF. cbn [fpow]. ring.
Qed.
Lemma open_closed d p : wf 3 p -> homdeg d p -> (forall A B C, 0 < A -> 0 < B -> 0 < C -> 0 <= peval (pt3 A B C) p) ->
  forall A B C, 0 <= A -> 0 <= B -> 0 <= C -> 0 <= peval (pt3 A B C) p.
Proof.
  intros W Hd H A B C HA HB HC. rewrite (peval_tri K d p) by assumption.
  pose proof (nonneg_at_0 K (fun s => tri_poly d (cfp p) (A + s * 1) (B + s * 1) (C + s * 1)) (fun _ => 1)) as N.
  cbv beta in N. replace (A + 0 * 1) with A in N by ring. replace (B + 0 * 1) with B in N by ring. replace (C + 0 * 1) with C in N by ring. apply N.
  - exact (tri_poly_poly K d (cfp p) (pt3 A B C) (pt3 1 1 1)).
  - apply poly_const.
  - exists 0. apply fneq10.
  - intros s H0 _ _. rewrite <- (peval_tri K d p) by assumption. replace (s * 1) with s by ring. apply H; apply fadd_pos_r; assumption.
Qed.

Lemma quadratic_answer uni findz roots p e : uni_ok K uni -> roots_ok K roots -> wf 3 p -> homdeg 6 p -> cyclic3 (cfp p) -> sym6 p ->
  sextic_quadratic uni findz roots p = Ok (Some e) ->
  exists sym t c0 x y rem r real, div_sq1 (axis 6 p) = (sym, (0, 0)) /\ restructure uni sym = Ok (RSome t c0 x y rem r) /\
    answer6 K real e (fun A B C => peval (pt3 A B C) p) rem r /\
    (forall z0, findz x y (sextic_ker (coef p [4; 2; 0]%nat) t c0 x y rem r / c0) = Ok z0 ->
      (exists e', In (Ok (Some (e', true))) (solutions z0 roots c0 x y (sextic_ker (coef p [4; 2; 0]%nat) t c0 x y rem r) t rem r)) -> real = true).
Proof.
  intros U Hr W Hd Hc Hs. unfold sextic_quadratic. destruct (div_sq1 (axis 6 p)) as [sym [u v]] eqn:Ed.
  destruct ((u =? 0) && (v =? 0))%bool eqn:E0; cbn [negb]; [|intro H; congruence]. apply andb_prop in E0. destruct E0 as [U0 V0]. apply feqb_eq in U0, V0. subst u v.
  destruct (restructure uni sym) as [[| |t c0 x y rem r]|] eqn:Er; try (intro H; congruence). intro H.
  destruct (sextic_form p uni sym t c0 x y rem r U W Hd Hc Hs Ed Er) as (P1 & P2 & P3 & V).
  destruct (solve_ok findz roots c0 x y _ t rem r e Hr P2 P1 P3 H) as (real & ((M & Ve) & Nn & Df) & Pr).
  exists sym, t, c0, x, y, rem, r, real. split; [reflexivity|]. split; [exact Er|]. split; [|exact Pr]. split; [split; [exact M|]|split; [|exact Df]].
  - intros A B C D. rewrite V. apply Ve, D.
  - intros A B C O. rewrite V. apply Nn, O.
Qed.
Lemma peval_diag p uni sym t c0 x y rem r A : uni_ok K uni -> wf 3 p -> homdeg 6 p -> cyclic3 (cfp p) -> sym6 p ->
  div_sq1 (axis 6 p) = (sym, (0, 0)) -> restructure uni sym = Ok (RSome t c0 x y rem r) -> peval (pt3 A A A) p = 0.
Proof. intros U W Hd Hc Hs Ed Er. destruct (sextic_form p uni sym t c0 x y rem r U W Hd Hc Hs Ed Er) as (_ & _ & _ & V). rewrite V. apply form6_diag. Qed.

Lemma quadratic6_exact uni findz roots p e : uni_ok K uni -> roots_ok K roots -> wf 3 p -> homdeg 6 p -> cyclic3 (cfp p) -> sym6 p ->
  sextic_quadratic uni findz roots p = Ok (Some e) ->
  (forall A B C, defined (pt3 A B C) e -> ev (pt3 A B C) e = peval (pt3 A B C) p) /\ manifest true e = true /\
  (forall A B C, 0 <= A -> 0 <= B -> 0 <= C -> 0 <= peval (pt3 A B C) p).
Proof.
  intros U Hr W Hd Hc Hs H. destruct (quadratic_answer uni findz roots p e U Hr W Hd Hc Hs H) as (sym & t & c0 & x & y & rem & r & real & Ed & Er & ((M & V) & Nn & _) & _).
  split; [exact V|]. split; [destruct real; [apply manifest_mono, M|exact M]|]. apply (open_closed 6 p W Hd). intros A B C HA HB HC.
  destruct (eq_diag K A B C) as [[<- <-]|N]; [rewrite (peval_diag p uni sym t c0 x y rem r A U W Hd Hc Hs Ed Er); apply fle_refl|].
  apply Nn. split; [exact N|]. right. repeat split; assumption.
Qed.
Lemma quadratic6_defined uni findz roots p e : uni_ok K uni -> roots_ok K roots -> wf 3 p -> homdeg 6 p -> cyclic3 (cfp p) -> sym6 p ->
  sextic_quadratic uni findz roots p = Ok (Some e) ->
  (forall t c0 x y rem, restructure uni (fst (div_sq1 (axis 6 p))) = Ok (RSome t c0 x y rem None) -> rem = 0) ->
  forall A B C, 0 < A -> 0 < B -> 0 < C -> ~ (A = B /\ B = C) -> defined (pt3 A B C) e.
Proof.
  intros U Hr W Hd Hc Hs H Hf. destruct (quadratic_answer uni findz roots p e U Hr W Hd Hc Hs H) as (sym & t & c0 & x & y & rem & r & real & Ed & Er & (_ & _ & Df) & _).
  intros A B C HA HB HC N. apply Df; [|split; [exact N|right; repeat split; assumption]]. intros ->. rewrite Ed in Hf. exact (Hf t c0 x y rem Er).
Qed.

(** ** On all of R^3: when the coefficient of p(a-b)^2 is at least a third of that of F *)
Lemma quadratic6_real uni findz roots p sym t c0 x y rem r : uni_ok K uni -> wf 3 p -> homdeg 6 p -> cyclic3 (cfp p) -> sym6 p ->
  div_sq1 (axis 6 p) = (sym, (0, 0)) -> restructure uni sym = Ok (RSome t c0 x y rem r) -> c0 <> 0 -> (forall u v w, exists z0, findz u v w = Ok z0) ->
  let ker := sextic_ker (coef p [4; 2; 0]%nat) t c0 x y rem r in
  c0 / 3 <= ker \/ (3 * (x + y) = fbin 5 /\ x <> 1 /\ - (3) * c0 * (x - 1) * (fbin 9 * x - fbin 5) <= 4 * ker) ->
  exists e, sextic_quadratic uni findz roots p = Ok (Some e) /\ manifest false e = true /\ forall A B C, defined (pt3 A B C) e /\ ev (pt3 A B C) e = peval (pt3 A B C) p.
Proof.
  intros U W Hd Hc Hs Ed Er C0 Fz ker Hk. destruct (sextic_form p uni sym t c0 x y rem r U W Hd Hc Hs Ed Er) as (P1 & P2 & P3 & V).
  unfold sextic_quadratic. rewrite Ed. assert (Z : (0 : K) =? 0 = true) by (apply feqb_eq; reflexivity). rewrite Z. cbn [andb negb]. rewrite Er. unfold sextic_solve.
  assert (C1 : c0 =? 0 = false) by (destruct (c0 =? 0) eqn:E; [apply feqb_eq in E; contradiction|reflexivity]). rewrite C1.
  fold ker in V. fold ker. clearbody ker. destruct (Fz x y (ker / c0)) as (z0 & ->). cbv zeta. cbn [pick].
  assert (Cp : 0 < c0) by (apply (flt_le_neq K); split; [exact P2|congruence]).
  assert (G : forall (f : K -> K -> K -> sol0) s, (forall e real, f x y (ker / c0) = Ok (Some (e, real)) -> real = true /\ exact6 K true e (fun A B C => F6 K x y A B C + ker / c0 * D6 K A B C) /\ forall env, defined env e) ->
    wrap0 f x y c0 ker t rem r = Ok (Some (s, true)) -> manifest false s = true /\ forall A B C, defined (pt3 A B C) s /\ ev (pt3 A B C) s = peval (pt3 A B C) p).
  { intros f s Hf Hw. assert (T0 : type0_ok K x y (ker / c0) (f x y (ker / c0))).
    { intros e real He. destruct (Hf e real He) as (-> & X1 & X2). split; [exact X1|]. intros A B C _. apply X2. }
    destruct (wrap0_ok K f x y c0 ker t rem r s true Cp P1 P3 T0 Hw) as ((M & Ve) & _ & _). split; [exact M|]. intros A B C.
    assert (D : defined (pt3 A B C) s).
    { unfold wrap0 in Hw. destruct (f x y (ker / c0)) as [[[s0 fl]|]|] eqn:Ef; [|congruence..]. destruct (Hf s0 fl eq_refl) as (_ & _ & D0).
      apply pair_inj in Hw. destruct Hw as [<- _]. cbn [defined csum cprod tprod erename rot3]. destruct (rem_poly_ok K rem r P3) as (_ & Dr & _). pose proof (D0 (pt3 A B C)). pose proof (Dr (pt3 A B C)). tauto. }
    split; [exact D|]. rewrite V. apply Ve, D. }
  assert (T : forall s fl, wrap0 S_trivial x y c0 ker t rem r = Ok (Some (s, fl)) -> fl = true).
  { intros s fl H. unfold wrap0 in H. destruct (S_trivial x y (ker / c0)) as [[[s0 fl0]|]|] eqn:Ef; [|congruence..]. destruct (S_trivial_ok K _ _ _ _ _ Ef) as (-> & _). congruence. }
  destruct (wrap0 S_square x y c0 ker t rem r) as [[[s1 fl]|]|] eqn:Es.
  - assert (fl = true). { unfold wrap0 in Es. destruct (S_square x y (ker / c0)) as [[[s0 fl0]|]|] eqn:Ef; [|congruence..]. destruct (S_square_ok K _ _ _ _ _ Ef) as (-> & _). congruence. }
    subst fl. exists s1. split; [reflexivity|]. exact (G S_square s1 (fun e real => S_square_ok K x y (ker / c0) e real) Es).
  - destruct Hk as [Hk|(H5 & H1 & Hk)].
    + assert (T' : exists s fl, wrap0 S_trivial x y c0 ker t rem r = Ok (Some (s, fl))).
      { unfold wrap0, S_trivial. assert (X : fbin 1 / fbin 3 <=? ker / c0 = true).
        { apply fleb_le. apply (proj2 (fle_sub _ _)). replace (ker / c0 - fbin 1 / fbin 3) with ((ker - c0 / 3) / c0) by (cbn [fbin]; field; split; [fnz|exact C0]).
          apply fdiv_nonneg; [apply (proj1 (fle_sub _ _)), Hk|exact Cp]. }
        rewrite X. eexists. eexists. reflexivity. }
      destruct T' as (s2 & fl & T'). rewrite T'. assert (fl = true) by exact (T s2 fl T'). subst fl. exists s2. split; [reflexivity|].
      exact (G S_trivial s2 (fun e real => S_trivial_ok K x y (ker / c0) e real) T').
    + exfalso. unfold wrap0, S_square in Es. assert (X1 : x + y =? fbin 5 / fbin 3 = true) by (apply feqb_eq; rewrite <- H5; cbn [fbin]; field; fnz).
      assert (X2 : x =? 1 = false) by (destruct (x =? 1) eqn:E; [apply feqb_eq in E; contradiction|reflexivity]). rewrite X1, X2 in Es. cbn [andb negb] in Es. cbv zeta in Es.
      assert (X3 : - fbin 3 * (x - 1) * (fbin 9 * x - fbin 5) / fbin 4 <=? ker / c0 = true).
      { apply fleb_le. apply (proj2 (fle_sub _ _)). match goal with |- 0 <= ?g => replace g with ((4 * ker - - (3) * c0 * (x - 1) * (fbin 9 * x - fbin 5)) / (4 * c0)) by (cbn [fbin]; field; repeat match goal with |- _ /\ _ => split end; first [exact C0 | exact (fnat_neq0 K 4) | fnz | idtac]) end.
        apply fdiv_nonneg; [apply (proj1 (fle_sub _ _)), Hk|apply fmul_pos; [fpos|exact Cp]]. }
      rewrite X3 in Es. congruence.
  - exfalso. unfold wrap0, S_square in Es. destruct (_ && _)%bool in Es; [|congruence]. cbv zeta in Es. destruct (_ <=? _) in Es; congruence.
Qed.

(** ** x = 1: the answer found is lost *)
Lemma x1_raises findz roots c0 y ker t (r : option K) : 0 < c0 -> 0 <= ker -> ker < c0 / 3 -> (forall u v w, exists z0, findz u v w = Ok z0) ->
  (exists e, wrap1 S_regular 1 y c0 ker t 0 r = Ok (Some (e, false))) /\ sextic_solve findz roots c0 1 y ker t 0 r = Err TypeError.
Proof.
  intros Hc Hk Hk3 Fz. assert (C0 : c0 <> 0) by exact (flt_neq0 Hc). assert (E1 : (1 : K) =? 1 = true) by (apply feqb_eq; reflexivity).
  assert (Std : is_std (K := K) (fbin 2, - fbin 2) = true) by (unfold is_std; cbn [fst snd]; apply andb_true_iff; split; apply feqb_eq; reflexivity).
  assert (Hp : 0 < c0 - fbin 3 * ker).
  { apply (proj1 (flt_sub _ _)) in Hk3. replace (c0 - fbin 3 * ker) with (fbin 3 * (c0 / 3 - ker)) by (cbn [fbin]; field; fnz). apply fmul_pos; [apply fbin_pos|exact Hk3]. }
  assert (RM : forall p1 p2 (d1 d2 : K), d1 = 0 -> d2 = 0 -> exists s, merge_terms p1 (0 * c0) (fbin 2 * c0) p2 d1 d2 ker (fbin 2, - fbin 2) = Ok (Some (s, false))).
  { intros p1 p2 d1 d2 -> ->. unfold merge_terms. cbn [fst snd].
    assert (X0 : (fbin 2 + - fbin 2 <? (0 : K)) = false) by (apply fltb_ge; replace (fbin 2 + - fbin 2 : K) with (0 : K) by ring; apply fle_refl). rewrite X0.
    assert (X1 : 0 <=? 0 * c0 + 0 + fbin 2 * ker = true) by (apply fleb_le; replace (0 * c0 + 0 + fbin 2 * ker) with (fbin 2 * ker) by ring; apply fmul_nonneg; [exact (flt_le (fbin_pos K 2))|exact Hk]).
    assert (X2' : 0 <= 0 * c0 + 0 + fbin 2 * ker + (fbin 2 * c0 + 0 + - fbin 2 * ker)) by (replace (0 * c0 + 0 + fbin 2 * ker + (fbin 2 * c0 + 0 + - fbin 2 * ker)) with (fbin 2 * c0) by ring; apply flt_le, fmul_pos; [apply fbin_pos|exact Hc]).
    assert (X2 : 0 <=? 0 * c0 + 0 + fbin 2 * ker + (fbin 2 * c0 + 0 + - fbin 2 * ker) = true) by (apply fleb_le; exact X2').
    rewrite X1, X2. cbn [andb].
    assert (Q1 : exists q, quad0 (0 * c0 + 0 + fbin 2 * ker) (fbin 2 * c0 + 0 + - fbin 2 * ker) = Some q).
    { unfold quad0. destruct (_ && _)%bool; [eexists; reflexivity|]. unfold TernaryQuad.common_quadratic.
      apply fleb_le in X1. assert (Y1 : 0 * c0 + 0 + fbin 2 * ker <? 0 = false) by (apply fltb_ge; exact X1). assert (Y2 : 0 * c0 + 0 + fbin 2 * ker + (fbin 2 * c0 + 0 + - fbin 2 * ker) <? 0 = false) by (apply fltb_ge; exact X2').
      rewrite Y1, Y2. cbn [orb]. match goal with |- context [if ?c then _ else _] => destruct c end; try (match goal with |- context [if ?c then _ else _] => destruct c end); eexists; reflexivity. }
    destruct Q1 as (q & ->).
    assert (Q2 : exists q, TernaryQuad.common_quadratic (fbin 2 : K) (- fbin 2) = Some q).
    { unfold TernaryQuad.common_quadratic. rewrite X0. assert (Y1 : (fbin 2 : K) <? 0 = false) by (apply fltb_ge; exact (flt_le (fbin_pos K 2))). rewrite Y1. cbn [orb]. match goal with |- context [if ?c then _ else _] => destruct c end; try (match goal with |- context [if ?c then _ else _] => destruct c end); eexists; reflexivity. }
    destruct Q2 as (q2 & ->).
    assert (F : fbin 2 * c0 + 0 + - fbin 2 * ker <=? fbin 2 * (0 * c0 + 0 + fbin 2 * ker) = false).
    { apply fleb_gt. apply (proj2 (flt_sub _ _)). match goal with |- 0 < ?g => replace g with (fbin 2 * (c0 - fbin 3 * ker)) by (cbn [fbin]; ring) end. apply fmul_pos; [apply fbin_pos|exact Hp]. }
    rewrite F. cbn [andb]. eexists. reflexivity. }
  assert (R : exists e, wrap1 S_regular 1 y c0 ker t 0 r = Ok (Some (e, false))).
  { unfold wrap1, S_regular. cbv zeta. cbn [wrap1_loop]. unfold rem_regular, rem_sos. rewrite Std. cbn [negb].
    match goal with |- context [merge_terms ?p1 _ _ ?p2 0 0 ker _] => destruct (RM p1 p2 0 0 eq_refl eq_refl) as (s1 & ->) end.
    cbv zeta. match goal with |- context [merge_terms ?p1 (0 * c0) _ ?p2 ?d1 ?d2 ker _] => destruct (RM p1 p2 d1 d2) as (s2 & ->) end.
    - destruct r; cbn [fbin fpow]; field; fnz.
    - destruct r; cbn [fbin fpow]; field; fnz.
    - eexists. reflexivity. }
  split; [exact R|]. destruct R as (e & R). unfold sextic_solve. assert (C1 : c0 =? 0 = false) by (destruct (c0 =? 0) eqn:E; [apply feqb_eq in E; contradiction|reflexivity]). rewrite C1.
  destruct (Fz 1 y (ker / c0)) as (z0 & ->). cbv zeta. cbn [pick]. rewrite R.
  assert (W1 : wrap0 S_square 1 y c0 ker t 0 r = Ok None) by (unfold wrap0, S_square; rewrite E1; cbn [negb]; rewrite andb_false_r; reflexivity). rewrite W1.
  assert (W2 : wrap0 S_trivial 1 y c0 ker t 0 r = Ok None).
  { unfold wrap0, S_trivial. assert (X : fbin 1 / fbin 3 <=? ker / c0 = false).
    { apply fleb_gt. apply (proj2 (flt_sub _ _)). replace (fbin 1 / fbin 3 - ker / c0) with ((c0 - fbin 3 * ker) / (fbin 3 * c0)) by (cbn [fbin]; field; split; [exact C0|fnz]).
      apply fdiv_pos; [exact Hp|apply fmul_pos; [apply fbin_pos|exact Hc]]. }
    rewrite X. reflexivity. }
  rewrite W2. unfold wrap1 at 1, S_sos2. rewrite E1. reflexivity.
Qed.

(** a division by the number zero inside an expression *)
Fixpoint div0 (e : ex K) : bool :=
  match e with
  | EC _ | EX _ => false
  | EAdd x y | ESub x y | EMul x y => (div0 x || div0 y)%bool
  | EDiv x y => (div0 x || div0 y || match y with EC v => v =? 0 | _ => false end)%bool
  | EPow x _ => div0 x
  end.
Lemma div0_undefined e env : div0 e = true -> ~ defined env e.
Proof.
  induction e; cbn [div0 defined]; try discriminate; try (intros H (D1 & D2); apply orb_prop in H; tauto); try assumption.
  intros H (D1 & D2 & D3). apply orb_prop in H. destruct H as [H|H]; [apply orb_prop in H; tauto|]. destruct e2; try discriminate. apply feqb_eq in H. apply D3, H.
Qed.

Lemma axis6_determines p q : wf 3 p -> homdeg 6 p -> symform K p -> wf 3 q -> homdeg 6 q -> symform K q ->
  (forall z, peval (pt3 z 1 1) p = peval (pt3 z 1 1) q) ->
  forall A B C, peval (pt3 A B C) p - peval (pt3 A B C) q = (coef p [4; 2; 0]%nat - coef q [4; 2; 0]%nat) * ((A - B) * (B - C) * (C - A)) ^ 2.
Proof.
  intros Wp Hp (_ & _ & Cp & Sp) Wq Hq (_ & _ & Cq & Sq) V A B C.
  assert (X : forall (w : poly K), wf 3 w -> homdeg 6 w -> (forall A B C, peval (pt3 A B C) w = peval (pt3 B C A) w) -> (forall A B C, peval (pt3 A B C) w = peval (pt3 B A C) w) ->
    sex6 K (fun A B C => peval (pt3 A B C) w) (coef w [4; 2; 0]%nat)).
  { intros w W Hd Hc Hs. eapply sex6_ext; [|reflexivity|apply (sex6_tri K (cfp w))].
    - intros. symmetry. apply peval_tri; assumption.
    - apply cyclic_of_values; assumption.
    - repeat split; apply (swap_of_values K w W Hs). }
  pose proof (sex6_lin K _ _ _ _ 1 (- (1)) (X p Wp Hp Cp Sp) (X q Wq Hq Cq Sq)) as S.
  pose proof (zero_axis6 K _ _ S) as Z. cbv beta in Z. specialize (Z ltac:(intro z; rewrite V; ring) A B C).
  transitivity (1 * peval (pt3 A B C) p + - (1) * peval (pt3 A B C) q); [ring|]. rewrite Z. unfold D6. cbn [fpow]. ring.
Qed.
End Top.
