(** * Exact division by (a-b)^2 (b-c)^2 (c-a)^2

    Specification side of ternary/dense_symmetric.py: a symmetric form that vanishes on the axis
    (a,1,1) is a multiple of (a-b)^2 (b-c)^2 (c-a)^2; and a division that finds the quotient. *)
From Coq Require Import Bool List Arith Lia Ring Field.
From Verif Require Import OrdField Base Perm Poly PolyId PolyOps Coeff Expr CertLimit TriPoly Monomials Acute AcuteFacts.
Import ListNotations.

Section SymDiv.
Variable K : OrdField.
Local Open Scope of_scope.
Add Field Kf : (F_field K).
Implicit Types p q : poly K.

(** ** A division by one linear factor *)
(** the quotient of k x^i (y^j z^l) by y - z *)
Definition div_terms (t : list nat * K) : list (list nat * K) :=
  match fst t with
  | [i; j; l] => map (fun r => ([i; (j - 1 - r)%nat; (l + r)%nat], snd t)) (seq 0 j)
  | _ => []
  end.
Definition collect (L : list (list nat * K)) : poly K := fold_right (fun t acc => padd [t] acc) [] L.
(** division by b - c *)
Definition div_bc p : poly K := collect (flat_map div_terms p).
(** p(C,A,B) *)
Definition rotp p : poly K :=
  map (fun t => (match fst t with [i; j; l] => [j; l; i] | m => m end, snd t)) p.
(** division by c - a and by a - b *)
Definition div_ca p : poly K := rotp (rotp (div_bc (rotp p))).
Definition div_ab p : poly K := rotp (div_bc (rotp (rotp p))).
(** division by (a-b)^2 (b-c)^2 (c-a)^2 *)
Definition div6 p : poly K := clean (div_ab (div_ab (div_ca (div_ca (div_bc (div_bc p)))))).

Lemma wf_nil n : wf n ([] : poly K).
Proof. split; [constructor|intros m []]. Qed.
Lemma wf_one n m (k : K) : length m = n -> wf n [(m, k)].
Proof. intro H. split; [repeat constructor; intros []|]. intros m' [<-|[]]. exact H. Qed.
Lemma collect_spec L : (forall t, In t L -> length (fst t) = 3%nat) ->
  wf 3 (collect L) /\ forall x : nat -> K, peval x (collect L) = fsum (map (fun t => snd t * meval x (fst t)) L).
Proof.
  induction L as [|[m k] L IH]; intro H; [split; [apply wf_nil|reflexivity]|].
  destruct (IH (fun t Ht => H t (or_intror Ht))) as [W V]. cbn [collect fold_right]. fold (collect L).
  destruct (padd_full K 3 [(m, k)] (collect L) (wf_one 3 m k (H (m, k) (or_introl eq_refl))) W) as (Wp & Vp & _).
  split; [exact Wp|]. intro x. rewrite Vp, V, peval_cons, peval_nil. cbn [map fst snd]. change (fsum (?x :: ?l)) with (x + fsum l). ring.
Qed.

Lemma geom (Y Z : K) n m : Y ^ n * Z ^ m = (Y - Z) * fsum (map (fun r => Y ^ (n - 1 - r) * Z ^ (m + r)) (seq 0 n)) + Z ^ (n + m).
Proof.
  revert m. induction n as [|n IH]; intro m; [cbn [seq map fsum fold_right fpow Nat.add]; ring|].
  cbn [seq map]. rewrite <- seq_shift, map_map.
  change (fsum (?x :: ?l)) with (x + fsum l).
  replace (fsum (map (fun r => Y ^ (S n - 1 - S r) * Z ^ (m + S r)) (seq 0 n)))
    with (fsum (map (fun r => Y ^ (n - 1 - r) * Z ^ (S m + r)) (seq 0 n))).
  2:{ apply fsum_map_ext. intros r _. replace (S n - 1 - S r)%nat with (n - 1 - r)%nat by lia. replace (m + S r)%nat with (S m + r)%nat by lia. reflexivity. }
  specialize (IH (S m)). replace (S n + m)%nat with (n + S m)%nat by lia.
  replace (S n - 1 - 0)%nat with n by lia. replace (m + 0)%nat with m by lia.
  transitivity ((Y - Z) * (Y ^ n * Z ^ m) + Y ^ n * Z ^ S m); [cbn [fpow]; ring|]. rewrite IH. ring.
Qed.

Lemma div_bc_spec p : wf 3 p -> wf 3 (div_bc p) /\
  forall A B C, peval (pt3 A B C) p = (B - C) * peval (pt3 A B C) (div_bc p) + peval (pt3 A C C) p.
Proof.
  intros [_ Hl].
  assert (HL : forall t, In t p -> length (fst t) = 3%nat) by (intros t Ht; apply Hl; unfold keys; apply in_map, Ht). clear Hl.
  unfold div_bc. destruct (collect_spec (flat_map div_terms p)) as [W V].
  { intros t Ht. apply in_flat_map in Ht. destruct Ht as ([m k] & Hin & Ht). specialize (HL _ Hin). cbn [fst] in HL.
    destruct m as [|i [|j [|l [|]]]]; try discriminate. unfold div_terms in Ht. cbn [fst snd] in Ht.
    apply in_map_iff in Ht. destruct Ht as (r & <- & _). reflexivity. }
  split; [exact W|]. intros A B C. rewrite V. clear V W. unfold peval.
  induction p as [|[m k] p IH]; [cbn; ring|]. cbn [map flat_map]. rewrite map_app, fsum_app.
  change (fsum (?x :: ?l)) with (x + fsum l). rewrite (IH (fun t Ht => HL t (or_intror Ht))).
  specialize (HL (m, k) (or_introl eq_refl)). cbn [fst snd] in *. destruct m as [|i [|j [|l [|]]]]; try discriminate.
  unfold div_terms. cbn [fst snd]. rewrite map_map. cbn [fst snd].
  replace (fsum (map (fun r => k * meval (pt3 A B C) [i; (j - 1 - r)%nat; (l + r)%nat]) (seq 0 j)))
    with (k * A ^ i * fsum (map (fun r => B ^ (j - 1 - r) * C ^ (l + r)) (seq 0 j))).
  2:{ rewrite <- fsum_map_mul_l. apply fsum_map_ext. intros r _. rewrite !meval_cons, meval_nil. cbn [pt3]. ring. }
  rewrite !meval_cons, !meval_nil. cbn [pt3].
  pose proof (geom B C j l) as Gm. rewrite fpow_add in Gm.
  replace (k * (A ^ i * (B ^ j * (C ^ l * 1)))) with (k * A ^ i * (B ^ j * C ^ l)) by ring. rewrite Gm. ring.
Qed.

Lemma rotp_spec p : wf 3 p -> wf 3 (rotp p) /\ forall A B C, peval (pt3 A B C) (rotp p) = peval (pt3 C A B) p.
Proof.
  intros [Hn Hl]. split.
  - split.
    + unfold keys, rotp in *. rewrite map_map. cbn [fst].
      assert (J : forall t u, In t p -> In u p -> match fst t with [i; j; l] => [j; l; i] | m => m end = match fst u with [i; j; l] => [j; l; i] | m => m end -> fst t = fst u).
      { intros t u Ht Hu. pose proof (Hl (fst t) (in_map fst p t Ht)) as L1. pose proof (Hl (fst u) (in_map fst p u Hu)) as L2.
        destruct (fst t) as [|i [|j [|l [|]]]]; try discriminate. destruct (fst u) as [|i' [|j' [|l' [|]]]]; try discriminate.
        intro E. injection E as <- <- <-. reflexivity. }
      clear Hl. induction p as [|t p IH]; [constructor|]. cbn [map] in *. inversion_clear Hn as [|? ? Hm Hn'].
      constructor.
      * intro Hin. apply in_map_iff in Hin. destruct Hin as (u & E & Hu). apply Hm. apply in_map_iff. exists u. split; [|exact Hu].
        apply J; [right; exact Hu|left; reflexivity|exact E].
      * apply IH; [exact Hn'|]. intros t' u' H1 H2. apply J; right; assumption.
    + intros m Hm. unfold keys, rotp in Hm. rewrite map_map in Hm. apply in_map_iff in Hm. destruct Hm as (t & <- & Ht). cbn [fst].
      pose proof (Hl (fst t) (in_map fst p t Ht)) as L. destruct (fst t) as [|i [|j [|l [|]]]]; try discriminate. reflexivity.
  - intros A B C. unfold peval, rotp. rewrite map_map. apply fsum_map_ext. intros [m k] Ht. cbn [fst snd].
    pose proof (Hl m (in_map fst p _ Ht)) as L. destruct m as [|i [|j [|l [|]]]]; try discriminate.
    rewrite !meval_cons, !meval_nil. cbn [pt3]. ring.
Qed.

Lemma div_ca_spec p : wf 3 p -> wf 3 (div_ca p) /\
  forall A B C, peval (pt3 A B C) p = (C - A) * peval (pt3 A B C) (div_ca p) + peval (pt3 A B A) p.
Proof.
  intro W. destruct (rotp_spec p W) as [W1 V1]. destruct (div_bc_spec _ W1) as [W2 V2].
  destruct (rotp_spec _ W2) as [W3 V3]. destruct (rotp_spec _ W3) as [W4 V4]. unfold div_ca. split; [exact W4|].
  intros A B C. rewrite V4, V3. rewrite <- (V1 B C A), V2, V1. reflexivity.
Qed.
Lemma div_ab_spec p : wf 3 p -> wf 3 (div_ab p) /\
  forall A B C, peval (pt3 A B C) p = (A - B) * peval (pt3 A B C) (div_ab p) + peval (pt3 B B C) p.
Proof.
  intro W. destruct (rotp_spec p W) as [W1 V1]. destruct (rotp_spec _ W1) as [W2 V2]. destruct (div_bc_spec _ W2) as [W3 V3].
  destruct (rotp_spec _ W3) as [W4 V4]. unfold div_ab. split; [exact W4|].
  intros A B C. rewrite V4. rewrite <- (V1 B C A) at 1. rewrite <- (V2 C A B), V3, V2, V1. reflexivity.
Qed.

(** ** Cancellation *)
Definition pf (f : K -> K -> K -> K) : Prop := forall A B C A' B' C', is_poly K (fun t => f (A + t * A') (B + t * B') (C + t * C')).
Lemma pf_peval p : wf 3 p -> pf (fun A B C => peval (pt3 A B C) p).
Proof. intros W A B C A' B' C'. apply peval_line, W. Qed.
Lemma cancel (f g : K -> K -> K -> K) A0 B0 C0 : pf f -> pf g -> g A0 B0 C0 <> 0 ->
  (forall A B C, g A B C * f A B C = 0) -> forall A B C, f A B C = 0.
Proof.
  intros Hf Hg H0 H A B C.
  assert (Z : (fun t => f (A + t * (A0 - A)) (B + t * (B0 - B)) (C + t * (C0 - C))) 0 = 0).
  { apply (zero_by_product K (fun t => f (A + t * (A0 - A)) (B + t * (B0 - B)) (C + t * (C0 - C)))
                             (fun t => g (A + t * (A0 - A)) (B + t * (B0 - B)) (C + t * (C0 - C)))); [apply Hf|apply Hg| |].
    - exists 1. replace (A + 1 * (A0 - A)) with A0 by ring. replace (B + 1 * (B0 - B)) with B0 by ring. replace (C + 1 * (C0 - C)) with C0 by ring. exact H0.
    - intro t. rewrite <- (H (A + t * (A0 - A)) (B + t * (B0 - B)) (C + t * (C0 - C))). ring. }
  cbv beta in Z. replace (A + 0 * (A0 - A)) with A in Z by ring. replace (B + 0 * (B0 - B)) with B in Z by ring. replace (C + 0 * (C0 - C)) with C in Z by ring. exact Z.
Qed.
Lemma pf_mul f g : pf f -> pf g -> pf (fun A B C => f A B C * g A B C).
Proof. intros Hf Hg A B C A' B' C'. apply poly_mul; [apply Hf|apply Hg]. Qed.
Lemma pf_add f g : pf f -> pf g -> pf (fun A B C => f A B C + g A B C).
Proof. intros Hf Hg A B C A' B' C'. apply poly_add; [apply Hf|apply Hg]. Qed.
Lemma pf_sub f g : pf f -> pf g -> pf (fun A B C => f A B C - g A B C).
Proof. intros Hf Hg A B C A' B' C'. apply poly_sub; [apply Hf|apply Hg]. Qed.
Lemma pf_A : pf (fun A _ _ => A). Proof. intros A B C A' B' C'. apply poly_line. Qed.
Lemma pf_B : pf (fun _ B _ => B). Proof. intros A B C A' B' C'. apply poly_line. Qed.
Lemma pf_C : pf (fun _ _ C => C). Proof. intros A B C A' B' C'. apply poly_line. Qed.

(** ** Symmetric forms that vanish on the axis *)
Definition D6 (A B C : K) : K := (A - B) * (A - B) * ((B - C) * (B - C)) * ((C - A) * (C - A)).
Lemma half0 (x : K) : x + x = 0 -> x = 0.
Proof. intro H. assert (H2 : (2 : K) <> 0) by fnz. destruct (fmul_eq0 K 2 x) as [E|E]; [rewrite <- H; ring|contradiction|exact E]. Qed.

Ltac pfs := repeat first [apply pf_mul | apply pf_sub | apply pf_add | apply pf_A | apply pf_B | apply pf_C].

Theorem axis_divides p : wf 3 p ->
  (forall A B C, peval (pt3 A B C) p = peval (pt3 B C A) p) -> (forall A B C, peval (pt3 A B C) p = peval (pt3 B A C) p) ->
  (forall A B, peval (pt3 A B B) p = 0) ->
  exists q, wf 3 q /\ forall A B C, peval (pt3 A B C) p = peval (pt3 A B C) q * D6 A B C.
Proof.
  intros W Hc Hs H0. set (P := fun A B C => peval (pt3 A B C) p).
  assert (Scb : forall A B C, P A B C = P A C B) by (intros; unfold P; rewrite Hs, Hc; reflexivity).
  assert (Sca : forall A B C, P A B C = P C B A) by (intros; unfold P; rewrite Hs, Hc, Hc; reflexivity).
  assert (Zab : forall A C, P A A C = 0) by (intros; unfold P; rewrite Hc, Hc; apply H0).
  assert (Zca : forall A B, P A B A = 0) by (intros; unfold P; rewrite Hc; apply H0).
  (* b - c *)
  destruct (div_bc_spec p W) as [W1 V1]. set (p1 := div_bc p) in *. set (Q1 := fun A B C => peval (pt3 A B C) p1).
  assert (E1 : forall A B C, P A B C = (B - C) * Q1 A B C) by (intros; unfold P, Q1; rewrite V1, H0; ring). clear V1.
  assert (F1 : pf Q1) by (apply pf_peval, W1).
  assert (F1' : pf (fun A B C => Q1 A C B)) by (intros A B C A' B' C'; apply (F1 A C B A' C' B')).
  assert (N1 : forall A B C, Q1 A B C + Q1 A C B = 0).
  { apply (cancel (fun A B C => Q1 A B C + Q1 A C B) (fun A B C => B - C) 0 1 0); [pfs; assumption|pfs| |].
    - intro X. apply (fneq10 K). rewrite <- X. ring.
    - intros A B C. transitivity (P A B C - P A C B); [rewrite !E1; ring|]. rewrite (Scb A B C). ring. }
  assert (Z1 : forall A B, Q1 A B B = 0) by (intros; apply half0, N1).
  destruct (div_bc_spec p1 W1) as [W2 V2]. set (p2 := div_bc p1) in *. set (Q2 := fun A B C => peval (pt3 A B C) p2).
  assert (E2 : forall A B C, P A B C = (B - C) * (B - C) * Q2 A B C).
  { intros. rewrite E1. unfold Q1 in *. rewrite V2, Z1. unfold Q2. ring. }
  clear V2. assert (F2 : pf Q2) by (apply pf_peval, W2).
  (* c - a *)
  assert (Z2 : forall A B C : K, Q2 A B A = 0).
  { apply (cancel (fun A B C => Q2 A B A) (fun A B C => (B - A) * (B - A)) 0 1 0); [intros A B C A' B' C'; apply (F2 A B A A' B' A')|pfs| |].
    - intro X. apply (fneq10 K). rewrite <- X. ring.
    - intros A B C. rewrite <- E2. apply Zca. }
  destruct (div_ca_spec p2 W2) as [W3 V3]. set (p3 := div_ca p2) in *. set (Q3 := fun A B C => peval (pt3 A B C) p3).
  assert (E3 : forall A B C, P A B C = (B - C) * (B - C) * (C - A) * Q3 A B C).
  { intros. rewrite E2. unfold Q2 in *. rewrite V3, (Z2 A B C). unfold Q3. ring. }
  clear V3. assert (F3 : pf Q3) by (apply pf_peval, W3).
  assert (F3' : pf (fun A B C => Q3 C B A)) by (intros A B C A' B' C'; apply (F3 C B A C' B' A')).
  assert (N3 : forall A B C, (B - C) * (B - C) * Q3 A B C + (B - A) * (B - A) * Q3 C B A = 0).
  { apply (cancel (fun A B C => (B - C) * (B - C) * Q3 A B C + (B - A) * (B - A) * Q3 C B A) (fun A B C => C - A) 0 0 1); [pfs; assumption|pfs| |].
    - intro X. apply (fneq10 K). rewrite <- X. ring.
    - intros A B C. transitivity (P A B C - P C B A); [rewrite !E3; ring|]. rewrite (Sca A B C). ring. }
  assert (Z3 : forall A B C : K, Q3 A B A = 0).
  { apply (cancel (fun A B C => Q3 A B A) (fun A B C => (B - A) * (B - A)) 0 1 0); [intros A B C A' B' C'; apply (F3 A B A A' B' A')|pfs| |].
    - intro X. apply (fneq10 K). rewrite <- X. ring.
    - intros A B C. apply half0. apply N3. }
  destruct (div_ca_spec p3 W3) as [W4 V4]. set (p4 := div_ca p3) in *. set (Q4 := fun A B C => peval (pt3 A B C) p4).
  assert (E4 : forall A B C, P A B C = (B - C) * (B - C) * ((C - A) * (C - A)) * Q4 A B C).
  { intros. rewrite E3. unfold Q3 in *. rewrite V4, (Z3 A B C). unfold Q4. ring. }
  clear V4. assert (F4 : pf Q4) by (apply pf_peval, W4).
  (* a - b *)
  assert (Z4 : forall A B C : K, Q4 A A C = 0).
  { apply (cancel (fun A B C => Q4 A A C) (fun A B C => (A - C) * (A - C) * ((C - A) * (C - A))) 0 0 1); [intros A B C A' B' C'; apply (F4 A A C A' A' C')|pfs| |].
    - intro X. apply (fneq10 K). rewrite <- X. ring.
    - intros A B C. rewrite <- E4. apply Zab. }
  destruct (div_ab_spec p4 W4) as [W5 V5]. set (p5 := div_ab p4) in *. set (Q5 := fun A B C => peval (pt3 A B C) p5).
  assert (E5 : forall A B C, P A B C = (B - C) * (B - C) * ((C - A) * (C - A)) * (A - B) * Q5 A B C).
  { intros. rewrite E4. unfold Q4 in *. rewrite V5, (Z4 B A C). unfold Q5. ring. }
  clear V5. assert (F5 : pf Q5) by (apply pf_peval, W5).
  assert (F5' : pf (fun A B C => Q5 B A C)) by (intros A B C A' B' C'; apply (F5 B A C B' A' C')).
  assert (N5 : forall A B C, Q5 A B C + Q5 B A C = 0).
  { apply (cancel (fun A B C => Q5 A B C + Q5 B A C) (fun A B C => (B - C) * (B - C) * ((C - A) * (C - A)) * (A - B)) 1 2 0); [pfs; assumption|pfs| |].
    - intro X. assert (H4 : (4 : K) <> 0) by fnz. apply H4. replace (4 : K) with (- ((2 - 0) * (2 - 0) * ((0 - 1) * (0 - 1)) * (1 - 2)) : K) by ring. rewrite X. ring.
    - intros A B C. transitivity (P A B C - P B A C); [rewrite !E5; ring|]. unfold P. rewrite (Hs A B C). ring. }
  assert (Z5 : forall A C, Q5 A A C = 0) by (intros; apply half0, N5).
  destruct (div_ab_spec p5 W5) as [W6 V6]. exists (div_ab p5). split; [exact W6|].
  intros A B C. change (peval (pt3 A B C) p) with (P A B C). rewrite E5. unfold Q5 in *. rewrite V6, Z5. unfold D6. ring.
Qed.

(** ** The division finds the quotient *)
Definition nz p : Prop := forall m, In m (keys p) -> coef p m <> 0.
Lemma clean_nz p : wf 3 p -> nz (clean p).
Proof.
  intros W m Hm. pose proof (clean_wf K 3 p W) as [Hn _].
  assert (Hin : exists k, In (m, k) (clean p)) by (apply in_map_iff in Hm; destruct Hm as ([m' k] & E & Hin); cbn in E; subst m'; exists k; exact Hin).
  destruct Hin as [k Hin]. rewrite (coef_in K _ m k Hn Hin). unfold clean in Hin. apply filter_In in Hin. destruct Hin as [_ Hk].
  cbn [snd] in Hk. intro E. rewrite E in Hk. rewrite (proj2 (feqb_eq K 0 0) eq_refl) in Hk. discriminate.
Qed.

Lemma quotient_step (p p' q0 : poly K) (f g : K -> K -> K -> K) A0 B0 C0 :
  wf 3 p' -> wf 3 q0 -> pf f -> pf g -> f A0 B0 C0 <> 0 ->
  (forall A B C, peval (pt3 A B C) p = f A B C * peval (pt3 A B C) p') ->
  (forall A B C, peval (pt3 A B C) p = f A B C * (g A B C * peval (pt3 A B C) q0)) ->
  forall A B C, peval (pt3 A B C) p' = g A B C * peval (pt3 A B C) q0.
Proof.
  intros W' W0 Ff Fg Hf H1 H2 A B C. apply (fsub_eq0 K). revert A B C.
  apply (cancel (fun A B C => peval (pt3 A B C) p' - g A B C * peval (pt3 A B C) q0) f A0 B0 C0).
  - apply pf_sub; [apply pf_peval, W'|apply pf_mul; [exact Fg|apply pf_peval, W0]].
  - exact Ff.
  - exact Hf.
  - intros A B C. transitivity (peval (pt3 A B C) p - peval (pt3 A B C) p); [rewrite H1 at 1; rewrite H2; ring|ring].
Qed.

Theorem div6_exact p q0 : wf 3 p -> wf 3 q0 -> (forall A B C, peval (pt3 A B C) p = peval (pt3 A B C) q0 * D6 A B C) ->
  wf 3 (div6 p) /\ nz (div6 p) /\ forall A B C, peval (pt3 A B C) p = peval (pt3 A B C) (div6 p) * D6 A B C.
Proof.
  intros W W0 H. set (Q := fun A B C => peval (pt3 A B C) q0).
  assert (S1 : forall A B C, peval (pt3 A B C) p = (B - C) * ((B - C) * ((C - A) * (C - A)) * ((A - B) * (A - B)) * Q A B C)).
  { intros. rewrite H. unfold Q, D6. ring. }
  destruct (div_bc_spec p W) as [W1 V1]. set (p1 := div_bc p) in *.
  assert (S2 : forall A B C, peval (pt3 A B C) p1 = (B - C) * ((C - A) * (C - A) * ((A - B) * (A - B)) * Q A B C)).
  { intros A B C. rewrite (quotient_step p p1 q0 (fun A B C => B - C) (fun A B C => (B - C) * ((C - A) * (C - A)) * ((A - B) * (A - B))) 0 1 0 W1 W0 ltac:(pfs) ltac:(pfs)).
    - unfold Q. ring.
    - intro X. apply (fneq10 K). rewrite <- X. ring.
    - intros X Y Z. rewrite V1, (S1 X Z Z). ring.
    - exact S1. }
  clear S1 V1. destruct (div_bc_spec p1 W1) as [W2 V2]. set (p2 := div_bc p1) in *.
  assert (S3 : forall A B C, peval (pt3 A B C) p2 = (C - A) * ((C - A) * ((A - B) * (A - B)) * Q A B C)).
  { intros A B C. rewrite (quotient_step p1 p2 q0 (fun A B C => B - C) (fun A B C => (C - A) * (C - A) * ((A - B) * (A - B))) 0 1 0 W2 W0 ltac:(pfs) ltac:(pfs)).
    - unfold Q. ring.
    - intro X. apply (fneq10 K). rewrite <- X. ring.
    - intros X Y Z. rewrite V2, (S2 X Z Z). ring.
    - exact S2. }
  clear S2 V2. destruct (div_ca_spec p2 W2) as [W3 V3]. set (p3 := div_ca p2) in *.
  assert (S4 : forall A B C, peval (pt3 A B C) p3 = (C - A) * ((A - B) * (A - B) * Q A B C)).
  { intros A B C. rewrite (quotient_step p2 p3 q0 (fun A B C => C - A) (fun A B C => (C - A) * ((A - B) * (A - B))) 0 0 1 W3 W0 ltac:(pfs) ltac:(pfs)).
    - unfold Q. ring.
    - intro X. apply (fneq10 K). rewrite <- X. ring.
    - intros X Y Z. rewrite V3, (S3 X Y X). ring.
    - exact S3. }
  clear S3 V3. destruct (div_ca_spec p3 W3) as [W4 V4]. set (p4 := div_ca p3) in *.
  assert (S5 : forall A B C, peval (pt3 A B C) p4 = (A - B) * ((A - B) * Q A B C)).
  { intros A B C. rewrite (quotient_step p3 p4 q0 (fun A B C => C - A) (fun A B C => ((A - B) * (A - B))) 0 0 1 W4 W0 ltac:(pfs) ltac:(pfs)).
    - unfold Q. ring.
    - intro X. apply (fneq10 K). rewrite <- X. ring.
    - intros X Y Z. rewrite V4, (S4 X Y X). ring.
    - exact S4. }
  clear S4 V4. destruct (div_ab_spec p4 W4) as [W5 V5]. set (p5 := div_ab p4) in *.
  assert (S6 : forall A B C, peval (pt3 A B C) p5 = (A - B) * Q A B C).
  { apply (quotient_step p4 p5 q0 (fun A B C => A - B) (fun A B C => A - B) 1 0 0 W5 W0 ltac:(pfs) ltac:(pfs)).
    - intro X. apply (fneq10 K). rewrite <- X. ring.
    - intros X Y Z. rewrite V5, (S5 Y Y Z). ring.
    - exact S5. }
  clear S5 V5. destruct (div_ab_spec p5 W5) as [W6 V6].
  assert (S7 : forall A B C, peval (pt3 A B C) (div_ab p5) = Q A B C).
  { intros A B C. apply (fsub_eq0 K). revert A B C.
    apply (cancel (fun A B C => peval (pt3 A B C) (div_ab p5) - Q A B C) (fun A B C => A - B) 1 0 0); [apply pf_sub; [apply pf_peval, W6|apply pf_peval, W0]|pfs| |].
    - intro X. apply (fneq10 K). rewrite <- X. ring.
    - intros A B C. transitivity (peval (pt3 A B C) p5 - peval (pt3 A B C) p5); [rewrite V6 at 1; rewrite !S6; ring|ring]. }
  assert (E6 : div6 p = clean (div_ab p5)) by reflexivity. rewrite E6.
  split; [apply clean_wf, W6|]. split; [apply clean_nz, W6|]. intros A B C. rewrite clean_eval, S7. apply H.
Qed.
End SymDiv.
