(** * Nonic forms: the answers of the four solvers *)
From Coq Require Import Bool List Arith Lia ZArith Ring Field.
From Verif Require Import OrdField Base Congruence Perm Poly PolyId PolyOps Coeff Expr CertLimit TriPoly Monomials Univariate UnivariateLemmas StructUtils.
From Verif Require Sparse TernaryQuad TernaryTables TernaryCubic PivotProve.
From Verif Require Import SymDiv DenseSym DenseSymFacts DenseSymAxis DenseSymMain DenseSymTop Septic SepticFacts SepticForm SepticMain SepticTop Nonic NonicFacts NonicTree.
Import ListNotations.

Section Main.
Variable K : OrdField.
Local Open Scope of_scope.
Add Field Kf : (F_field K).
Implicit Types (u v w t r A B C : K) (e : ex K) (p : poly K).

Ltac evs := cbn [csum cprod erename rot3 ev pt3]; unfold cyc3; cbn [fpow fbin].
Ltac nbz := repeat match goal with |- _ /\ _ => split end; first [assumption | fnz | idtac].
Ltac cert_poly := apply fcert_poly; [reflexivity|reflexivity|intros; evs; reflexivity].

(** ** The cyclic form of degree 9 by its coefficients *)
Definition form9 (k900 k810 k180 k720 k270 k630 k360 k540 k450 k711 k621 k261 k531 k351 k441 k522 k432 k342 k333 : K) A B C : K :=
  k900 * cyc3 K (fun a b c => a ^ 9) A B C + k810 * cyc3 K (fun a b c => a ^ 8 * b) A B C + k180 * cyc3 K (fun a b c => a * b ^ 8) A B C
  + k720 * cyc3 K (fun a b c => a ^ 7 * b ^ 2) A B C + k270 * cyc3 K (fun a b c => a ^ 2 * b ^ 7) A B C + k630 * cyc3 K (fun a b c => a ^ 6 * b ^ 3) A B C
  + k360 * cyc3 K (fun a b c => a ^ 3 * b ^ 6) A B C + k540 * cyc3 K (fun a b c => a ^ 5 * b ^ 4) A B C + k450 * cyc3 K (fun a b c => a ^ 4 * b ^ 5) A B C
  + k711 * cyc3 K (fun a b c => a ^ 7 * b * c) A B C + k621 * cyc3 K (fun a b c => a ^ 6 * b ^ 2 * c) A B C + k261 * cyc3 K (fun a b c => a ^ 2 * b ^ 6 * c) A B C
  + k531 * cyc3 K (fun a b c => a ^ 5 * b ^ 3 * c) A B C + k351 * cyc3 K (fun a b c => a ^ 3 * b ^ 5 * c) A B C + k441 * cyc3 K (fun a b c => a ^ 4 * b ^ 4 * c) A B C
  + k522 * cyc3 K (fun a b c => a ^ 5 * b ^ 2 * c ^ 2) A B C + k432 * cyc3 K (fun a b c => a ^ 4 * b ^ 3 * c ^ 2) A B C + k342 * cyc3 K (fun a b c => a ^ 3 * b ^ 4 * c ^ 2) A B C
  + k333 * (A ^ 3 * B ^ 3 * C ^ 3).
Lemma form9_tri cf A B C : cyclic3 cf -> tri_poly 9 cf A B C =
  form9 (cf 9 0 0)%nat (cf 8 1 0)%nat (cf 1 8 0)%nat (cf 7 2 0)%nat (cf 2 7 0)%nat (cf 6 3 0)%nat (cf 3 6 0)%nat (cf 5 4 0)%nat (cf 4 5 0)%nat (cf 7 1 1)%nat (cf 6 2 1)%nat (cf 2 6 1)%nat (cf 5 3 1)%nat (cf 3 5 1)%nat (cf 4 4 1)%nat (cf 5 2 2)%nat (cf 4 3 2)%nat (cf 3 4 2)%nat (cf 3 3 3)%nat A B C.
Proof.
  intro Hc.
  assert (E0 : (cf 0 9 0 = cf 9 0 0)%nat) by (apply Hc).
  assert (E1 : (cf 0 0 9 = cf 9 0 0)%nat) by (symmetry; apply Hc).
  assert (E2 : (cf 0 8 1 = cf 8 1 0)%nat) by (apply Hc).
  assert (E3 : (cf 1 0 8 = cf 8 1 0)%nat) by (symmetry; apply Hc).
  assert (E4 : (cf 0 1 8 = cf 1 8 0)%nat) by (apply Hc).
  assert (E5 : (cf 8 0 1 = cf 1 8 0)%nat) by (symmetry; apply Hc).
  assert (E6 : (cf 0 7 2 = cf 7 2 0)%nat) by (apply Hc).
  assert (E7 : (cf 2 0 7 = cf 7 2 0)%nat) by (symmetry; apply Hc).
  assert (E8 : (cf 0 2 7 = cf 2 7 0)%nat) by (apply Hc).
  assert (E9 : (cf 7 0 2 = cf 2 7 0)%nat) by (symmetry; apply Hc).
  assert (E10 : (cf 0 6 3 = cf 6 3 0)%nat) by (apply Hc).
  assert (E11 : (cf 3 0 6 = cf 6 3 0)%nat) by (symmetry; apply Hc).
  assert (E12 : (cf 0 3 6 = cf 3 6 0)%nat) by (apply Hc).
  assert (E13 : (cf 6 0 3 = cf 3 6 0)%nat) by (symmetry; apply Hc).
  assert (E14 : (cf 0 5 4 = cf 5 4 0)%nat) by (apply Hc).
  assert (E15 : (cf 4 0 5 = cf 5 4 0)%nat) by (symmetry; apply Hc).
  assert (E16 : (cf 0 4 5 = cf 4 5 0)%nat) by (apply Hc).
  assert (E17 : (cf 5 0 4 = cf 4 5 0)%nat) by (symmetry; apply Hc).
  assert (E18 : (cf 1 7 1 = cf 7 1 1)%nat) by (apply Hc).
  assert (E19 : (cf 1 1 7 = cf 7 1 1)%nat) by (symmetry; apply Hc).
  assert (E20 : (cf 1 6 2 = cf 6 2 1)%nat) by (apply Hc).
  assert (E21 : (cf 2 1 6 = cf 6 2 1)%nat) by (symmetry; apply Hc).
  assert (E22 : (cf 1 2 6 = cf 2 6 1)%nat) by (apply Hc).
  assert (E23 : (cf 6 1 2 = cf 2 6 1)%nat) by (symmetry; apply Hc).
  assert (E24 : (cf 1 5 3 = cf 5 3 1)%nat) by (apply Hc).
  assert (E25 : (cf 3 1 5 = cf 5 3 1)%nat) by (symmetry; apply Hc).
  assert (E26 : (cf 1 3 5 = cf 3 5 1)%nat) by (apply Hc).
  assert (E27 : (cf 5 1 3 = cf 3 5 1)%nat) by (symmetry; apply Hc).
  assert (E28 : (cf 1 4 4 = cf 4 4 1)%nat) by (apply Hc).
  assert (E29 : (cf 4 1 4 = cf 4 4 1)%nat) by (symmetry; apply Hc).
  assert (E30 : (cf 2 5 2 = cf 5 2 2)%nat) by (apply Hc).
  assert (E31 : (cf 2 2 5 = cf 5 2 2)%nat) by (symmetry; apply Hc).
  assert (E32 : (cf 2 4 3 = cf 4 3 2)%nat) by (apply Hc).
  assert (E33 : (cf 3 2 4 = cf 4 3 2)%nat) by (symmetry; apply Hc).
  assert (E34 : (cf 2 3 4 = cf 3 4 2)%nat) by (apply Hc).
  assert (E35 : (cf 4 2 3 = cf 3 4 2)%nat) by (symmetry; apply Hc).
  unfold form9, cyc3. cbn [tri_poly seq map fsum fold_right Nat.sub]. 
  rewrite E0, E1, E2, E3, E4, E5, E6, E7, E8, E9, E10, E11, E12, E13, E14, E15, E16, E17, E18, E19, E20, E21, E22, E23, E24, E25, E26, E27, E28, E29, E30, E31, E32, E33, E34, E35. cbn [fpow]. ring.
Qed.
Definition form_of p A B C : K := form9 (cfp p 9 0 0)%nat (cfp p 8 1 0)%nat (cfp p 1 8 0)%nat (cfp p 7 2 0)%nat (cfp p 2 7 0)%nat (cfp p 6 3 0)%nat (cfp p 3 6 0)%nat (cfp p 5 4 0)%nat (cfp p 4 5 0)%nat (cfp p 7 1 1)%nat (cfp p 6 2 1)%nat (cfp p 2 6 1)%nat (cfp p 5 3 1)%nat (cfp p 3 5 1)%nat (cfp p 4 4 1)%nat (cfp p 5 2 2)%nat (cfp p 4 3 2)%nat (cfp p 3 4 2)%nat (cfp p 3 3 3)%nat A B C.
Lemma form_of_peval p A B C : wf 3 p -> homdeg 9 p -> cyclic3 (cfp p) -> peval (pt3 A B C) p = form_of p A B C.
Proof. intros W Hd Hc. rewrite (peval_tri K 9 p A B C W Hd). apply form9_tri, Hc. Qed.

Lemma peval_ones p : wf 3 p -> peval (pt3 1 1 1) p = poly111 p.
Proof.
  intros _. unfold peval, poly111. f_equal. apply map_ext. intros [m k]. cbn [fst snd].
  assert (E : forall (m : list nat) (x : nat -> K) , (forall i, x i = 1) -> meval x m = 1).
  { clear. assert (P : forall j, (1 : K) ^ j = 1) by (induction j as [|j IHj]; cbn [fpow]; [reflexivity|rewrite IHj; ring]).
    induction m as [|j m IH]; intros x Hx; [reflexivity|]. rewrite meval_cons, Hx, IH, P; [ring|intro i; apply Hx]. }
  rewrite E; [ring|]. intros [|[|i]]; reflexivity.
Qed.

(** ** The search for a rational number *)
Definition in_cands (t : K) (cs : list (cand K)) : Prop := In (CRat t) cs \/ exists ts, In (CNum ts) cs /\ In t ts.
Lemma try_near_spec f up valid ts t : try_near f up valid ts = Ok (Some t) -> In t ts /\ valid t = Ok true /\ (if up then 0 <= f t else f t <= 0).
Proof.
  induction ts as [|t' ts IH]; cbn [try_near]; [discriminate|]. intro H.
  destruct (if up then 0 <=? f t' else f t' <=? 0) eqn:E.
  - destruct (valid t') as [[|]|] eqn:Ev; try discriminate.
    + assert (t' = t) by congruence. subst t'. split; [left; reflexivity|]. split; [exact Ev|]. destruct up; apply fleb_le, E.
    + destruct (IH H) as [H1 H2]. split; [right; exact H1|exact H2].
  - destruct (IH H) as [H1 H2]. split; [right; exact H1|exact H2].
Qed.
Lemma rat_func_spec f up valid cs t : rat_func f up valid cs = Ok (Some t) ->
  valid t = Ok true /\ in_cands t cs /\ (In (CRat t) cs \/ (if up then 0 <= f t else f t <= 0)).
Proof.
  induction cs as [|[t'|ts] cs IH]; cbn [rat_func]; [discriminate| |].
  - destruct (valid t') as [[|]|] eqn:Ev; try discriminate.
    + intro H. assert (t' = t) by congruence. subst t'. split; [exact Ev|]. split; left; left; reflexivity.
    + intro H. destruct (IH H) as (H1 & H2 & H3). split; [exact H1|]. split.
      * destruct H2 as [H2|(ts & H2 & H2')]; [left; right; exact H2|right; exists ts; split; [right; exact H2|exact H2']].
      * destruct H3 as [H3|H3]; [left; right; exact H3|right; exact H3].
  - destruct (try_near f up valid ts) as [[t'|]|] eqn:Et; try discriminate.
    + intro H. assert (t' = t) by congruence. subst t'. apply try_near_spec in Et. destruct Et as (H1 & H2 & H3). split; [exact H2|].
      split; [right; exists ts; split; [left; reflexivity|exact H1]|right; exact H3].
    + intro H. destruct (IH H) as (H1 & H2 & H3). split; [exact H1|]. split.
      * destruct H2 as [H2|(ts' & H2 & H2')]; [left; right; exact H2|right; exists ts'; split; [right; exact H2|exact H2']].
      * destruct H3 as [H3|H3]; [left; right; exact H3|right; exact H3].
Qed.

Variable den : K -> K.
Hypothesis den_pos : forall t, 0 < den t.
Variable cont : ex K -> K.
Hypothesis cont_ok : forall e, cont e <> 0 /\ (manifest true e = true -> 0 < cont e).
Variable rec : poly K -> res (option (ex K)).
Hypothesis rec_ok : forall q e, wf 3 q -> (exists d, homdeg d q) -> cyclic3 (cfp q) -> rec q = Ok (Some e) -> fcert K e (fun A B C => peval (pt3 A B C) q).
Variable rsqrt : K -> option K.
Variable roots : (K -> K) -> list (cand K).
Hypothesis roots_ok : forall f t, In (CRat t) (roots f) -> f t = 0.

(** ** The tree *)
Definition edgeform A B C : K := cyc3 K (fun a b c => a * (a * b - c ^ 2) ^ 2 * (a * c - b ^ 2) ^ 2) A B C.
Lemma fcert_edge : fcert K hexagon_edge edgeform.
Proof. apply fcert_poly; [reflexivity|reflexivity|]. intros. unfold hexagon_edge, edgeform. evs. ring. Qed.
Definition treefun x A B C : K := cyc3 K (fun a b c => a ^ 2 + x * (a * b)) A B C * cyc3 K (fun a b c => (a - b) ^ 2 * (a + b - x * c) ^ 2) A B C.
Lemma tree_func_ev x A B C : ev (pt3 A B C) (tree_func den x) = treefun x A B C.
Proof.
  unfold tree_func, treefun. destruct (x =? fbin 2) eqn:E; [apply feqb_eq in E; subst x; evs; ring|].
  pose proof (den_nz K den den_pos x) as Nq. set (q := den x) in *. clearbody q. evs. field. exact Nq.
Qed.
Lemma tree_func_divfree x : divfree K (tree_func den x) = true.
Proof. unfold tree_func. destruct (x =? fbin 2); reflexivity. Qed.
Lemma tree_func_cert x : 0 <= x -> fcert K (tree_func den x) (treefun x).
Proof.
  intro Hx. apply fcert_poly; [|apply tree_func_divfree|intros; apply tree_func_ev]. unfold tree_func. pose proof (fbin_pos K 2) as P2. pose proof (den_pos x) as P.
  assert (H1 : 0 <=? 1 / den x = true) by (apply fleb_le, fdiv_nonneg; [apply f1_nonneg|exact P]).
  assert (H2 : 0 <=? den x = true) by (apply fleb_le, flt_le, P). assert (H3 : 0 <=? x * den x = true) by (apply fleb_le, fmul_nonneg; [exact Hx|exact (flt_le P)]).
  assert (H4 : 0 <=? (fbin 2 : K) = true) by (apply fleb_le, flt_le, P2). clear P P2.
  destruct (x =? fbin 2); cbn -[fbin]; rewrite ?H1, ?H2, ?H3, ?H4; reflexivity.
Qed.

Definition tree_shape p : Prop :=
  (cfp p 8 1 0 = f0 /\ cfp p 1 8 0 = f0 /\ cfp p 7 2 0 = f0 /\ cfp p 2 7 0 = f0 /\ cfp p 5 4 0 = f0 /\ cfp p 4 5 0 = f0 /\ cfp p 6 2 1 = f0 /\ cfp p 2 6 1 = f0 /\
   cfp p 5 3 1 = f0 /\ cfp p 3 5 1 = f0 /\ cfp p 4 3 2 = f0 /\ cfp p 3 4 2 = f0)%nat /\ (cfp p 3 6 0)%nat = (cfp p 6 3 0)%nat.

Lemma treefun_pos x : - (1) <= x -> exists e', fcert K e' (treefun x).
Proof.
  intro H. destruct (0 <=? x) eqn:E; [apply fleb_le in E; exists (tree_func den x); apply tree_func_cert, E|]. apply fleb_gt in E.
  assert (P1 : 0 <= - x / fbin 2) by (apply fdiv_nonneg; [|apply fbin_pos]; replace (- x) with (0 - x) by ring; apply (proj1 (fle_sub _ _)), flt_le, E).
  assert (P2 : 0 <= 1 + x) by (replace (1 + x) with (x - - (1)) by ring; apply (proj1 (fle_sub _ _)), H).
  eexists. eapply fcert_ext; [|apply fcert_mul; [apply fcert_add; [apply fcert_mul; [apply fcert_const, P1|apply fcert_poly with (e := csum ((EX 0 - EX 1) ^ 2)%E) (f := cyc3 K (fun a b c => (a - b) ^ 2)); [reflexivity|reflexivity|intros; evs; reflexivity]]|
    apply fcert_mul; [apply fcert_const, P2|apply fcert_poly with (e := csum (EX 0 ^ 2)%E) (f := cyc3 K (fun a b c => a ^ 2)); [reflexivity|reflexivity|intros; evs; reflexivity]]]|
    apply fcert_poly with (e := csum ((EX 0 - EX 1) ^ 2 * (EX 0 + EX 1 - EC x * EX 2) ^ 2)%E) (f := cyc3 K (fun a b c => (a - b) ^ 2 * (a + b - x * c) ^ 2)); [reflexivity|reflexivity|intros; evs; reflexivity]]].
  intros A B C. cbv beta. unfold treefun. f_equal. unfold cyc3. cbn [fpow fbin]. field. nbz.
Qed.
Definition tree_w p : K := (cfp p 6 3 0)%nat / (cfp p 9 0 0)%nat.
Definition tree_accepts p x : bool := tree_valid (tree_w p) ((cfp p 7 1 1)%nat / (cfp p 9 0 0)%nat) ((cfp p 4 4 1)%nat / (cfp p 9 0 0)%nat) ((cfp p 5 2 2)%nat / (cfp p 9 0 0)%nat) x.
Lemma nonic_tree_parts rat p e : tree_shape p -> nonic_tree den roots rat p = Ok (Some e) ->
  exists x e', (in_cands x (roots (tree_eq (tree_w p))) /\ tree_accepts p x = true) /\ 0 < (cfp p 9 0 0)%nat /\ 0 <= (cfp p 9 0 0)%nat * tree_eq (tree_w p) x /\
    e = (EC ((cfp p 9 0 0)%nat / fbin 4) * csum (EX 0) * csum ((EX 0 - EX 1) ^ 2) * tree_func den x + EC ((cfp p 9 0 0)%nat * tree_eq (tree_w p) x) * hexagon_edge + e' * cprod (EX 0))%E /\
    exists f, fcert K e' f /\
      forall A B C, form_of p A B C = (cfp p 9 0 0)%nat / fbin 4 * (A + B + C) * cyc3 K (fun a b c => (a - b) ^ 2) A B C * treefun x A B C
        + (cfp p 9 0 0)%nat * tree_eq (tree_w p) x * edgeform A B C + f A B C * (A * B * C).
Proof.
  intros Sh. unfold nonic_tree, tree_w. set (c0 := (cfp p 9 0 0)%nat). cbv zeta. destruct (c0 <=? 0) eqn:E0; [discriminate|]. apply fleb_gt in E0. pose proof (flt_neq0 E0) as N0.
  set (w := (cfp p 6 3 0)%nat / c0). set (c6 := (cfp p 7 1 1)%nat / c0). set (c33 := (cfp p 4 4 1)%nat / c0). set (c411 := (cfp p 5 2 2)%nat / c0).
  destruct (w <? - (1)); [discriminate|]. destruct (negb rat); [discriminate|].
  destruct (rat_func _ _ _ _) as [[x|]|] eqn:Ex; try discriminate. apply rat_func_spec in Ex. destruct Ex as (Hok & Hin & Hx). apply Ok_inj in Hok.
  unfold tree_coeffs. set (p111 := fbin 3 * c0 * _ + _). destruct (p111 <? 0); [discriminate|].
  destruct (sextic_tree _ _ _ _ _) as [[e'|]|] eqn:Et; try discriminate. apply (sextic_tree_ok K den den_pos) in Et.
  intro H. apply some_inj in H. subst e. exists x, e'. split; [split; [exact Hin|exact Hok]|]. split; [exact E0|]. split.
  { apply fmul_nonneg; [exact (flt_le E0)|]. destruct Hx as [Hx|Hx]; [rewrite (roots_ok _ _ Hx); apply fle_refl|exact Hx]. }
  split; [reflexivity|]. eexists. split; [exact Et|].
  assert (X1 : (cfp p 6 3 0)%nat = w * c0) by (unfold w; field; exact N0). assert (X2 : (cfp p 7 1 1)%nat = c6 * c0) by (unfold c6; field; exact N0).
  assert (X3 : (cfp p 4 4 1)%nat = c33 * c0) by (unfold c33; field; exact N0). assert (X4 : (cfp p 5 2 2)%nat = c411 * c0) by (unfold c411; field; exact N0).
  destruct Sh as ((Z1 & Z2 & Z3 & Z4 & Z5 & Z6 & Z7 & Z8 & Z9 & Z10 & Z11 & Z12) & S1).
  intros A B C. unfold form_of, form9, p111. rewrite S1, Z1, Z2, Z3, Z4, Z5, Z6, Z7, Z8, Z9, Z10, Z11, Z12, X1, X2, X3, X4. fold c0.
  clear - N0. clearbody c0 w c6 c33 c411. unfold tree_eq, treefun, treeform, edgeform, cyc3. cbn [fpow fbin]. field. nbz.
Qed.
Lemma nonic_tree_values rat p e : wf 3 p -> homdeg 9 p -> cyclic3 (cfp p) -> tree_shape p -> nonic_tree den roots rat p = Ok (Some e) ->
  (forall A B C, defined (pt3 A B C) e -> ev (pt3 A B C) e = peval (pt3 A B C) p) /\
  ((forall x, in_cands x (roots (tree_eq (tree_w p))) -> tree_accepts p x = true -> 0 <= x) -> fcert K e (fun A B C => peval (pt3 A B C) p)) /\
  ((forall x, in_cands x (roots (tree_eq (tree_w p))) -> tree_accepts p x = true -> - (1) <= x) -> exists e', fcert K e' (fun A B C => peval (pt3 A B C) p)).
Proof.
  intros W Hd Hc Sh H. destruct (nonic_tree_parts rat p e Sh H) as (x & e' & Hin & P0 & Pe & -> & f & Hf & V). split; [|split].
  - intros A B C D. rewrite (form_of_peval p A B C W Hd Hc), V. destruct D as [_ [D _]]. destruct Hf as (_ & Hv & _). cbn [ev]. rewrite (Hv A B C D), tree_func_ev.
    pose proof (fcert_edge) as (_ & He & De). assert (Dh : defined (pt3 A B C) (hexagon_edge (K := K))) by (unfold hexagon_edge; cbn; tauto).
    rewrite (He A B C Dh). evs. ring.
  - intro Pos. destruct Hin as [Hin Hok]. pose proof (Pos x Hin Hok) as Hx. eapply fcert_ext; [intros; symmetry; rewrite (form_of_peval p A B C W Hd Hc), V; reflexivity|].
    assert (P4 : 0 <= (cfp p 9 0 0)%nat / fbin 4) by (apply fdiv_nonneg; [exact (flt_le P0)|apply fbin_pos]).
    apply fcert_add; [apply fcert_add|].
    + apply fcert_mul; [|apply tree_func_cert, Hx]. apply fcert_mul; [apply fcert_mul; [apply fcert_const, P4|apply fcert_sum]|cert_poly].
    + apply fcert_mul; [apply fcert_const, Pe|apply fcert_edge].
    + apply fcert_mul; [exact Hf|apply fcert_abc].
  - intro Pos. destruct Hin as [Hin Hok]. destruct (treefun_pos x (Pos x Hin Hok)) as (et & Ht). eexists. eapply fcert_ext; [intros; symmetry; rewrite (form_of_peval p A B C W Hd Hc), V; reflexivity|].
    assert (P4 : 0 <= (cfp p 9 0 0)%nat / fbin 4) by (apply fdiv_nonneg; [exact (flt_le P0)|apply fbin_pos]).
    apply fcert_add; [apply fcert_add|].
    + apply fcert_mul; [|exact Ht]. apply fcert_mul; [apply fcert_mul; [apply fcert_const, P4|apply fcert_sum]|].
      apply fcert_poly with (e := csum ((EX 0 - EX 1) ^ 2)%E); [reflexivity|reflexivity|intros; evs; reflexivity].
    + apply fcert_mul; [apply fcert_const, Pe|apply fcert_edge].
    + apply fcert_mul; [exact Hf|apply fcert_abc].
Qed.

(** ** The hexagon *)
Definition hexagon_shape p : Prop :=
  (cfp p 9 0 0 = f0 /\ cfp p 8 1 0 = f0 /\ cfp p 7 2 0 = f0 /\ cfp p 2 7 0 = f0 /\ cfp p 7 1 1 = f0 /\ cfp p 6 2 1 = f0 /\ cfp p 2 6 1 = f0 /\
   cfp p 5 4 0 = f0 /\ cfp p 4 5 0 = f0)%nat /\
  (cfp p 3 6 0 = cfp p 6 3 0 /\ cfp p 3 5 1 = cfp p 5 3 1 /\ cfp p 3 4 2 = cfp p 4 3 2)%nat.
Lemma fcert_amgm1 : fcert K (amgm_or0 (2, 0, 1) (1, 1, 1))%nat (cyc3 K (fun a b c => a ^ 2 * c - a * b * c)).
Proof.
  assert (E : exists q, TernaryTables.amgm (2, 0, 1)%nat (1, 1, 1)%nat = Some q /\ amgm_or0 (2, 0, 1)%nat (1, 1, 1)%nat = q /\ forall A B C : K, 0 < A -> 0 < B -> 0 < C -> defined (pt3 A B C) q).
  { eexists. split; [reflexivity|]. split; [reflexivity|]. intros A B C HA HB HC. cbn [defined csum cprod erename rot3 ev pt3]. repeat split; try exact I.
    apply fmul_neq0; [exact (fnat_neq0 K 2 ltac:(lia))|exact (sum_nz K A B C HA HB HC)]. }
  destruct E as (q & E & -> & D). split; [exact (TernaryTables.amgm_manifest K _ _ q E)|]. split; [|intros; apply D; assumption].
  intros A B C HD. rewrite (TernaryTables.amgm_sound K _ _ q A B C E HD). unfold TernaryTables.cmon, cyc3. cbn [fpow]. ring.
Qed.
Lemma fcert_amgm2 : fcert K (amgm_or0 (2, 1, 0) (1, 1, 1))%nat (cyc3 K (fun a b c => a ^ 2 * b - a * b * c)).
Proof.
  assert (E : exists q, TernaryTables.amgm (2, 1, 0)%nat (1, 1, 1)%nat = Some q /\ amgm_or0 (2, 1, 0)%nat (1, 1, 1)%nat = q /\ forall A B C : K, 0 < A -> 0 < B -> 0 < C -> defined (pt3 A B C) q).
  { eexists. split; [reflexivity|]. split; [reflexivity|]. intros A B C HA HB HC. cbn [defined csum cprod erename rot3 ev pt3]. repeat split; try exact I.
    apply fmul_neq0; [exact (fnat_neq0 K 2 ltac:(lia))|exact (sum_nz K A B C HA HB HC)]. }
  destruct E as (q & E & -> & D). split; [exact (TernaryTables.amgm_manifest K _ _ q E)|]. split; [|intros; apply D; assumption].
  intros A B C HD. rewrite (TernaryTables.amgm_sound K _ _ q A B C E HD). unfold TernaryTables.cmon, cyc3. cbn [fpow]. ring.
Qed.
Definition pab A B C : K := ((A - B) * (B - C) * (C - A)) ^ 2.
Lemma fcert_pab : fcert K (cprod ((EX 0 - EX 1) ^ 2)%E) pab.
Proof. apply fcert_poly; [reflexivity|reflexivity|]. intros. unfold pab. evs. ring. Qed.
Definition am1 : ex K := csum (EX 0 ^ 2 * EX 2 - EX 0 * EX 1 * EX 2)%E.
Definition am2 : ex K := csum (EX 0 ^ 2 * EX 1 - EX 0 * EX 1 * EX 2)%E.
Lemma hexagon_solution_cert c0 c42 r : 0 <= c0 -> 0 <= c0 * (c42 + fbin 6 * r + fbin 3) ->
  fcert K (hexagon_solution c0 c42 r (amgm_or0 (2, 0, 1) (1, 1, 1))%nat (amgm_or0 (2, 1, 0) (1, 1, 1))%nat)
    (fun A B C => ev (pt3 A B C) (hexagon_solution c0 c42 r am1 am2)).
Proof.
  intros H0 H1. unfold hexagon_solution.
  eapply fcert_ext; [|apply fcert_add; [apply fcert_add|]; [apply fcert_mul; [apply fcert_mul; [apply fcert_const, H0|cert_poly]|apply fcert_amgm1]|
    apply fcert_mul; [apply fcert_mul; [apply fcert_const, H0|cert_poly]|apply fcert_amgm2]|apply fcert_mul; [apply fcert_mul; [apply fcert_const, H1|apply fcert_abc]|apply fcert_pab]]].
  intros A B C. cbv beta. unfold pab, am1, am2. evs. ring.
Qed.
Lemma is_zero_values p x : is_zero p = true -> peval x p = 0.
Proof.
  induction p as [|[m k] p IH]; [intros; apply peval_nil|]. cbn [is_zero forallb snd]. intro H. apply andb_prop in H. destruct H as [H1 H2].
  apply feqb_eq in H1. subst k. rewrite peval_cons, (IH H2). ring.
Qed.
Lemma hexagon_rest_ok rat p c0 c42 c33 c411 c321 e : wf 3 p -> homdeg 9 p -> cyclic3 (cfp p) -> 0 <= c0 ->
  hexagon_rest rec roots rat p c0 c42 c33 c411 c321 = Ok (Some e) -> fcert K e (fun A B C => peval (pt3 A B C) p).
Proof.
  intros W Hd Hc H0. unfold hexagon_rest. destruct (negb rat); [discriminate|].
  destruct (rat_func _ _ _ _) as [[r|]|] eqn:Er; try discriminate. apply rat_func_spec in Er. destruct Er as (Hv & _).
  assert (P : 0 <= c42 + fbin 6 * r + fbin 3).
  { unfold hexagon_valid in Hv. destruct (c42 + fbin 6 * r + fbin 3 <? 0) eqn:E in Hv; [discriminate|]. apply fltb_ge, E. }
  pose proof (hexagon_solution_cert c0 c42 r H0 (fmul_nonneg K _ _ H0 P)) as HS.
  change (csum (EX 0 ^ 2 * EX 2 - EX 0 * EX 1 * EX 2)%E) with am1. change (csum (EX 0 ^ 2 * EX 1 - EX 0 * EX 1 * EX 2)%E) with am2.
  destruct (expand_spec K (hexagon_solution c0 c42 r am1 am2) eq_refl) as (W2 & V2 & D2). specialize (D2 9%nat eq_refl).
  set (q := expand (hexagon_solution c0 c42 r am1 am2)) in *.
  destruct (pneg_spec K 3 q W2) as (Wn & Vn & Dn). specialize (Dn 9%nat D2).
  destruct (padd_full K 3 p (pneg q) W Wn) as (W3 & V3 & D3).
  assert (V : forall A B C, peval (pt3 A B C) (padd p (pneg q)) = peval (pt3 A B C) p - ev (pt3 A B C) (hexagon_solution c0 c42 r am1 am2)).
  { intros A B C. rewrite V3, Vn, V2. ring. }
  destruct (is_zero _) eqn:Ez.
  - intro H. apply some_inj in H. subst e. eapply fcert_ext; [|exact HS]. intros A B C. cbv beta.
    pose proof (V A B C) as Q. rewrite (is_zero_values _ _ Ez) in Q. transitivity (peval (pt3 A B C) p - (peval (pt3 A B C) p - ev (pt3 A B C) (hexagon_solution c0 c42 r am1 am2))); [ring|rewrite <- Q; ring].
  - destruct (rec _) as [[er|]|] eqn:Erec; try discriminate. intro H. apply some_inj in H. subst e.
    assert (Cy : cyclic3 (cfp (padd p (pneg q)))).
    { apply (cyclic_of_values K); [exact W3|]. intros A B C. rewrite !V, !(form_of_peval p _ _ _ W Hd Hc). unfold form_of, form9, hexagon_solution, am1, am2. evs. ring. }
    pose proof (rec_ok _ er W3 (ex_intro _ 9%nat (D3 9%nat Hd Dn)) Cy Erec) as Hr.
    eapply fcert_ext; [|apply fcert_add; [exact HS|exact Hr]]. intros A B C. cbv beta. rewrite V. ring.
Qed.
Lemma nonic_hexagon_ok rat p e : wf 3 p -> homdeg 9 p -> cyclic3 (cfp p) -> hexagon_shape p -> (cfp p 1 8 0)%nat = 0 ->
  nonic_hexagon den rec roots rat p = Ok (Some e) -> fcert K e (fun A B C => peval (pt3 A B C) p).
Proof.
  intros W Hd Hc Sh Z0. unfold nonic_hexagon. set (c0 := (cfp p 6 3 0)%nat). cbv zeta. destruct (c0 <=? 0) eqn:E0; [discriminate|]. apply fleb_gt in E0. pose proof (flt_neq0 E0) as N0.
  set (c42 := (cfp p 5 3 1)%nat / c0). set (c33 := (cfp p 4 4 1)%nat / c0). set (c411 := (cfp p 5 2 2)%nat / c0). set (c321 := (cfp p 4 3 2)%nat / c0).
  destruct (_ && _)%bool eqn:E; [|apply hexagon_rest_ok; try assumption; exact (flt_le E0)].
  apply andb_prop in E. destruct E as [E _]. apply andb_prop in E. destruct E as [E _]. apply andb_prop in E. destruct E as [E _]. apply fleb_le in E.
  destruct (hexagram_symmetric _ _ _ _ _) as [[h|]|] eqn:Eh; [|apply hexagon_rest_ok; try assumption; exact (flt_le E0)|discriminate].
  apply (hexagram_ok K den den_pos) in Eh. intro H. apply some_inj in H. subst e.
  eapply fcert_ext; [|apply fcert_add; [apply fcert_add|apply fcert_mul; [apply fcert_abc|exact Eh]]; [apply fcert_mul; [apply fcert_const, (flt_le E0)|apply fcert_edge]|
    apply fcert_mul; [apply fcert_mul; [apply fcert_const, fmul_nonneg; [exact (flt_le E0)|exact E]|apply fcert_abc]|apply fcert_pab]]].
  assert (X1 : (cfp p 5 3 1)%nat = c42 * c0) by (unfold c42; field; exact N0). assert (X2 : (cfp p 4 4 1)%nat = c33 * c0) by (unfold c33; field; exact N0).
  assert (X3 : (cfp p 5 2 2)%nat = c411 * c0) by (unfold c411; field; exact N0). assert (X4 : (cfp p 4 3 2)%nat = c321 * c0) by (unfold c321; field; exact N0).
  destruct Sh as ((Z1 & Z2 & Z3 & Z4 & Z5 & Z6 & Z7 & Z8 & Z9) & S1 & S2 & S3).
  intros A B C. cbv beta. rewrite <- (peval_ones p W), !(form_of_peval p _ _ _ W Hd Hc). unfold form_of, form9. rewrite S1, S2, S3, Z0, Z1, Z2, Z3, Z4, Z5, Z6, Z7, Z8, Z9, X1, X2, X3, X4. fold c0.
  clear. clearbody c0 c42 c33 c411 c321. unfold hexform, edgeform, pab, cyc3. cbn [fpow fbin]. ring.
Qed.
End Main.
