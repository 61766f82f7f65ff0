(** * Nonic forms: the dispatch *)
From Coq Require Import Bool List Arith Lia ZArith Ring Field.
From Verif Require Import OrdField Base Congruence Perm Poly PolyId PolyOps Coeff Expr CertLimit TriPoly Monomials Univariate UnivariateLemmas StructUtils.
From Verif Require Sparse TernaryQuad TernaryTables TernaryCubic PivotProve.
From Verif Require Import SymDiv DenseSym DenseSymFacts DenseSymAxis DenseSymMain DenseSymTop Septic SepticFacts SepticForm SepticMain SepticTop Nonic NonicFacts NonicTree NonicMain NonicGram NonicGear.
Import ListNotations.

(** ** Concrete forms for the examples *)
Section Cases.
Variable K : OrdField.
Local Open Scope of_scope.
Add Field Kf0 : (F_field K).
Definition mono (k : K) (i j l : nat) : ex K := (EC k * csum (EX 0 ^ i * EX 1 ^ j * EX 2 ^ l))%E.
(** the cyclic form of degree 9 with the given coefficients of a^i b^j c^k, and of a^3 b^3 c^3 *)
Definition expr9 (l : list (K * (nat * nat * nat))) (k333 : K) : ex K :=
  fold_right (fun t e => (match t with (k, (i, j, l)) => mono k i j l end + e)%E) (EC k333 * (EX 0 ^ 3 * EX 1 ^ 3 * EX 2 ^ 3))%E l.
Lemma expr9_cyclic l k333 (A B C : K) : ev (pt3 A B C) (expr9 l k333) = ev (pt3 B C A) (expr9 l k333).
Proof.
  induction l as [|[k [[i j] n]] l IH]; cbn [expr9 fold_right].
  - cbn [ev pt3 fpow]. ring.
  - cbn [ev]. fold (expr9 l k333). rewrite IH. f_equal. unfold mono. cbn [csum erename rot3 ev pt3]. ring.
Qed.
Lemma expr9_ok l k333 : divfree K (expr9 l k333) = true -> edeg (expr9 l k333) = Some 9%nat -> wf 3 (expand (expr9 l k333)) /\ homdeg 9 (expand (expr9 l k333)) /\ cyclic3 (cfp (expand (expr9 l k333))).
Proof.
  intros D E. destruct (expand_spec K (expr9 l k333) D) as (W & V & H). split; [exact W|]. split; [exact (H 9%nat E)|]. apply cyclic_of_values; [exact W|]. intros. rewrite !V. apply expr9_cyclic.
Qed.
End Cases.

Section Sextics.
Variable K : OrdField.
Local Open Scope of_scope.
Add Field Kf1 : (F_field K).
Lemma hexagram_spec (den : K -> K) c33 c41 c32 c222 e : (forall t, 0 < den t) -> hexagram_symmetric den c33 c41 c32 c222 = Ok (Some e) ->
  manifest true e = true /\
  (forall A B C, defined (pt3 A B C) e -> ev (pt3 A B C) e =
     c33 * (A ^ 3 * B ^ 3 + B ^ 3 * C ^ 3 + C ^ 3 * A ^ 3) + c41 * (A ^ 4 * B * C + B ^ 4 * C * A + C ^ 4 * A * B)
     + c32 * (A ^ 2 * B ^ 2 * C * (A + B) + B ^ 2 * C ^ 2 * A * (B + C) + C ^ 2 * A ^ 2 * B * (C + A)) + c222 * (A * B * C) ^ 2) /\
  (forall A B C, 0 < A -> 0 < B -> 0 < C -> ~ (A = B /\ B = C) -> defined (pt3 A B C) e).
Proof.
  intros Hd H. destruct (hexagram_ok K den Hd _ _ _ _ _ H) as (M & V & D). split; [exact M|]. split; [|exact D]. intros A B C HD. rewrite (V A B C HD). unfold hexform, cyc3. ring.
Qed.
Lemma tree_spec (den : K -> K) c6 c33 c41 c222 e : (forall t, 0 < den t) -> sextic_tree den c6 c33 c41 c222 = Ok (Some e) ->
  manifest true e = true /\
  (forall A B C, defined (pt3 A B C) e -> ev (pt3 A B C) e =
     c6 * (A ^ 6 + B ^ 6 + C ^ 6) + c33 * (A ^ 3 * B ^ 3 + B ^ 3 * C ^ 3 + C ^ 3 * A ^ 3) + c41 * (A ^ 4 * B * C + B ^ 4 * C * A + C ^ 4 * A * B)
     + c222 * (A * B * C) ^ 2) /\
  (forall A B C, 0 < A -> 0 < B -> 0 < C -> ~ (A = B /\ B = C) -> defined (pt3 A B C) e).
Proof.
  intros Hd H. destruct (sextic_tree_ok K den Hd _ _ _ _ _ H) as (M & V & D). split; [exact M|]. split; [|exact D]. intros A B C HD. rewrite (V A B C HD). unfold treeform, cyc3. ring.
Qed.
End Sextics.

Section Top.
Variable K : OrdField.
Local Open Scope of_scope.
Add Field Kf : (F_field K).
Implicit Types (u v w t r A B C : K) (e : ex K) (p : poly K).
Variable den : K -> K.
Variable cont : ex K -> K.
Variable rec : poly K -> res (option (ex K)).
Variable rsqrt : K -> option K.
Variable roots : (K -> K) -> list (cand K).
Hypothesis den_pos : forall t, 0 < den t.
Hypothesis cont_ok : forall e, cont e <> 0 /\ (manifest true e = true -> 0 < cont e).
Hypothesis rec_ok : forall q e, wf 3 q -> (exists d, homdeg d q) -> cyclic3 (cfp q) -> rec q = Ok (Some e) -> fcert K e (fun A B C => peval (pt3 A B C) q).
Hypothesis roots_ok : forall f t, In (CRat t) (roots f) -> f t = 0.

Lemma zero_split p (i j k : nat) l : all_zero9 p ((i, j, k) :: l) = true -> cfp p i j k = 0 /\ all_zero9 p l = true.
Proof. unfold all_zero9. cbn [forallb]. intro H. apply andb_prop in H. destruct H as [H1 H2]. split; [apply feqb_eq, H1|exact H2]. Qed.
Lemma sym_split p (i j k : nat) l : all_sym9 p ((i, j, k) :: l) = true -> cfp p i j k = cfp p j i k /\ all_sym9 p l = true.
Proof. unfold all_sym9. cbn [forallb]. intro H. apply andb_prop in H. destruct H as [H1 H2]. split; [apply feqb_eq, H1|exact H2]. Qed.
Ltac zs H := repeat match type of H with all_zero9 _ (_ :: _) = true => let Z := fresh "Z" in apply zero_split in H; destruct H as [Z H] end; clear H.
Ltac ss H := repeat match type of H with all_sym9 _ (_ :: _) = true => let S := fresh "S" in apply sym_split in H; destruct H as [S H] end; clear H.

Lemma nonic_last_inv rat p e : cyclic3 (cfp p) -> nonic_last den roots rat p = Ok (Some e) -> tree_shape K p /\ nonic_tree den roots rat p = Ok (Some e).
Proof.
  intros Hc. unfold nonic_last. destruct (_ && _)%bool eqn:E; [|discriminate]. intro H. split; [|exact H]. apply andb_prop in E. destruct E as [E S]. apply andb_prop in E. destruct E as [E _]. zs E. ss S.
  rewrite (Hc 5 0 4)%nat, (Hc 0 4 5)%nat in *. rewrite (Hc 8 0 1)%nat, (Hc 0 1 8)%nat in *. rewrite (Hc 7 0 2)%nat, (Hc 0 2 7)%nat in *. rewrite (Hc 6 1 2)%nat, (Hc 1 2 6)%nat in *. rewrite (Hc 5 1 3)%nat, (Hc 1 3 5)%nat in *. rewrite (Hc 4 2 3)%nat, (Hc 2 3 4)%nat in *.
  unfold tree_shape. repeat split; try assumption. symmetry. assumption.
Qed.

Definition goal9 p e : Prop :=
  (forall A B C, defined (pt3 A B C) e -> ev (pt3 A B C) e = peval (pt3 A B C) p) /\
  ((cfp p 9 0 0)%nat = 0 \/ (forall x, in_cands K x (roots (tree_eq (tree_w K p))) -> tree_accepts K p x = true -> 0 <= x) -> fcert K e (fun A B C => peval (pt3 A B C) p)) /\
  ((cfp p 9 0 0)%nat = 0 \/ (forall x, in_cands K x (roots (tree_eq (tree_w K p))) -> tree_accepts K p x = true -> - (1) <= x) ->
   forall A B C, 0 <= A -> 0 <= B -> 0 <= C -> 0 <= peval (pt3 A B C) p).
Theorem nonic_all rat p e : wf 3 p -> homdeg 9 p -> cyclic3 (cfp p) -> (cfp p 1 8 0)%nat = 0 -> sos_struct_nonic den cont rec rsqrt roots rat p = Ok (Some e) -> goal9 p e.
Proof.
  intros W Hd Hc Z180.
  assert (Of : fcert K e (fun A B C => peval (pt3 A B C) p) -> goal9 p e).
  { intros H. split; [exact (proj1 (proj2 H))|]. split; [intros _; exact H|]. intros _. exact (cert_nonneg K 9 p e W Hd (fcert_cert K p e H)). }
  assert (L : nonic_last den roots rat p = Ok (Some e) -> goal9 p e).
  { intro H. apply (nonic_last_inv rat p e Hc) in H. destruct H as [Sh H]. destruct (nonic_tree_values K den den_pos rsqrt roots roots_ok rat p e W Hd Hc Sh H) as (V & F & F').
    assert (N : (cfp p 9 0 0)%nat <> 0).
    { intro Z. destruct (nonic_tree_parts K den den_pos roots roots_ok rat p e Sh H) as (_ & _ & _ & P & _). rewrite Z in P. exact (flt_irrefl K _ P). }
    split; [exact V|]. split; [intros [Z|Q]; [contradiction|exact (F Q)]|]. intros [Z|Q]; [contradiction|]. destruct (F' Q) as (e' & He). exact (cert_nonneg K 9 p e' W Hd (fcert_cert K p e' He)). }
  unfold sos_struct_nonic. destruct (all_zero9 p _) eqn:E1; [|exact L].
  assert (M : nonic_second den rec roots rat p = Ok (Some e) -> goal9 p e).
  { unfold nonic_second. destruct (_ && _)%bool eqn:E; [|exact L]. intro H. apply Of. apply andb_prop in E. destruct E as [E S]. zs E. ss S. zs E1.
    apply (nonic_hexagon_ok K den den_pos rec rec_ok roots rat p e W Hd Hc); [|exact Z180|exact H]. rewrite (Hc 6 0 3)%nat, (Hc 0 3 6)%nat, (Hc 0 6 3)%nat in *.
    unfold hexagon_shape. repeat split; try assumption; symmetry; assumption. }
  destruct (all_zero9 p [(6, 3, 0); _; _]%nat) eqn:E2; [|exact M]. 
  destruct (all_sym9 p _) eqn:E3.
  { intro H. apply Of. zs E1. zs E2. ss E3. apply (nonic_hexagram_ok K den den_pos cont cont_ok rec rec_ok roots p e W Hd Hc); [|exact H]. unfold gram_shape, edge_zero. repeat split; try assumption; symmetry; assumption. }
  destruct (_ || _)%bool; [|exact M]. intro H. apply Of. zs E1. zs E2. apply (nonic_gear_ok K rsqrt den den_pos cont cont_ok roots p e W Hd Hc); [|exact H]. unfold gear_shape, edge_zero. repeat split; assumption.
Qed.
End Top.
