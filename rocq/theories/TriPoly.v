(** * Expansion of polynomial expressions in three variables ([doit().as_poly(a,b,c)]) *)
From Coq Require Import Bool List Arith Lia Ring Field.
From Verif Require Import OrdField Base Perm Poly PolyId PolyOps Coeff Expr CertLimit.
Import ListNotations.

Section Model.
Context {K : OrdField}.
Local Open Scope of_scope.

(** [expr.doit().as_poly(a,b,c)] for an expression without quotients, e.g.
    triples/core/structsos/constrained/acute.py:155. A quotient is not a polynomial; the case is
    excluded by [edeg] below. *)
Fixpoint expand (e : ex K) : poly K :=
  match e with
  | EC k => clean [([0; 0; 0]%nat, k)]
  | EX i => match i with
            | 0%nat => [([1; 0; 0]%nat, 1)] | 1%nat => [([0; 1; 0]%nat, 1)] | _ => [([0; 0; 1]%nat, 1)]
            end
  | EAdd x y => padd (expand x) (expand y)
  | ESub x y => padd (expand x) (pneg (expand y))
  | EMul x y => pmul (expand x) (expand y)
  | EDiv _ _ => []
  | EPow x n => ppow 3 (expand x) n
  end.

(** the degree of an expression that is visibly homogeneous *)
Fixpoint edeg (e : ex K) : option nat :=
  match e with
  | EC _ => Some 0%nat
  | EX _ => Some 1%nat
  | EAdd x y | ESub x y =>
      match edeg x, edeg y with Some d, Some d' => if Nat.eqb d d' then Some d else None | _, _ => None end
  | EMul x y => match edeg x, edeg y with Some d, Some d' => Some (d + d')%nat | _, _ => None end
  | EDiv _ _ => None
  | EPow x n => match edeg x with Some d => Some (n * d)%nat | None => None end
  end.

(** [Coeff(poly)]: the coefficient function *)
Definition cfp (p : poly K) (i j k : nat) : K := coef p [i; j; k].

End Model.

Section Facts.
Variable K : OrdField.
Local Open Scope of_scope.
Add Field Kf : (F_field K).
Implicit Types (p q : poly K) (e : ex K).

Lemma padd_full n p q : wf n p -> wf n q ->
  wf n (padd p q) /\ (forall x : nat -> K, peval x (padd p q) = peval x p + peval x q) /\
  (forall d, homdeg d p -> homdeg d q -> homdeg d (padd p q)).
Proof.
  intros Hp Hq. unfold padd.
  assert (Hl : forall t, In t q -> length (fst t) = n) by (intros t Ht; apply Hq; unfold keys; apply in_map, Ht).
  split; [apply clean_wf, (proj1 (fold_add_eval K (fun _ => 0) n q p Hp Hl))|]. split.
  - intro x. rewrite clean_eval. exact (proj2 (fold_add_eval K x n q p Hp Hl)).
  - intros d H1 H2 m Hm. apply clean_keys, fold_add_keys in Hm. destruct Hm as [Hm|Hm]; [exact (H1 m Hm)|exact (H2 m Hm)].
Qed.

Lemma expand_spec e : divfree K e = true ->
  wf 3 (expand e) /\ (forall A B C, peval (pt3 A B C) (expand e) = ev (pt3 A B C) e) /\
  (forall d, edeg e = Some d -> homdeg d (expand e)).
Proof.
  induction e as [k|i|x IHx y IHy|x IHx y IHy|x IHx y IHy|x IHx y IHy|x IHx n]; cbn [divfree expand ev edeg]; intro Hd.
  - destruct (mono_spec K 3 [0;0;0]%nat k eq_refl) as (H1 & H2 & H3). split; [apply clean_wf, H1|]. split.
    + intros. rewrite clean_eval, H2. cbn. ring.
    + intros d Hd' m Hm. injection Hd' as <-. apply clean_keys in Hm. exact (H3 m Hm).
  - destruct i as [|[|i]].
    1: destruct (mono_spec K 3 [1;0;0]%nat 1 eq_refl) as (H1 & H2 & H3).
    2: destruct (mono_spec K 3 [0;1;0]%nat 1 eq_refl) as (H1 & H2 & H3).
    3: destruct (mono_spec K 3 [0;0;1]%nat 1 eq_refl) as (H1 & H2 & H3).
    all: split; [exact H1|]; split; [intros; rewrite H2; cbn; ring|intros d Hd' ; injection Hd' as <-; exact H3].
  - apply andb_prop in Hd. destruct Hd as [Hx Hy]. destruct (IHx Hx) as (X1 & X2 & X3), (IHy Hy) as (Y1 & Y2 & Y3).
    destruct (padd_full 3 _ _ X1 Y1) as (P1 & P2 & P3). split; [exact P1|]. split; [intros; rewrite P2, X2, Y2; reflexivity|].
    intros d E. destruct (edeg x) as [dx|]; [|discriminate]. destruct (edeg y) as [dy|]; [|discriminate].
    destruct (Nat.eqb dx dy) eqn:Q; [|discriminate]. apply Nat.eqb_eq in Q. injection E as <-. subst dy. apply P3; auto.
  - apply andb_prop in Hd. destruct Hd as [Hx Hy]. destruct (IHx Hx) as (X1 & X2 & X3), (IHy Hy) as (Y1 & Y2 & Y3).
    destruct (pneg_spec K 3 _ Y1) as (N1 & N2 & N3).
    destruct (padd_full 3 _ _ X1 N1) as (P1 & P2 & P3). split; [exact P1|]. split; [intros; rewrite P2, N2, X2, Y2; ring|].
    intros d E. destruct (edeg x) as [dx|]; [|discriminate]. destruct (edeg y) as [dy|]; [|discriminate].
    destruct (Nat.eqb dx dy) eqn:Q; [|discriminate]. apply Nat.eqb_eq in Q. injection E as <-. subst dy. apply P3; auto.
  - apply andb_prop in Hd. destruct Hd as [Hx Hy]. destruct (IHx Hx) as (X1 & X2 & X3), (IHy Hy) as (Y1 & Y2 & Y3).
    destruct (pmul_spec K 3 _ _ X1 Y1) as (P1 & P2 & P3). split; [exact P1|]. split; [intros; rewrite P2, X2, Y2; reflexivity|].
    intros d E. destruct (edeg x) as [dx|]; [|discriminate]. destruct (edeg y) as [dy|]; [|discriminate].
    injection E as <-. apply P3; auto.
  - discriminate.
  - destruct (IHx Hd) as (X1 & X2 & X3). destruct (ppow_spec K 3 _ n X1) as (P1 & P2 & P3).
    split; [exact P1|]. split; [intros; rewrite P2, X2; reflexivity|].
    intros d E. destruct (edeg x) as [dx|]; [|discriminate]. injection E as <-. apply P3; auto.
Qed.

(** ** the value of a homogeneous polynomial through its coefficients *)
Definition monos3 (d : nat) : list (list nat) :=
  flat_map (fun i => map (fun j => [i; j; d - i - j]%nat) (seq 0 (S (d - i)))) (seq 0 (S d)).
Lemma monos3_in d m : length m = 3%nat -> list_sum m = d -> In m (monos3 d).
Proof.
  destruct m as [|i [|j [|k [|]]]]; cbn [length]; intro H; try discriminate. clear H.
  unfold list_sum. cbn [fold_right]. intros <-. unfold monos3.
  apply in_flat_map. exists i. split; [apply in_seq; lia|].
  apply in_map_iff. exists j. split; [|apply in_seq; lia]. do 3 f_equal. lia.
Qed.
Lemma NoDup_app_i {A} (l m : list A) : NoDup l -> NoDup m -> (forall x, In x l -> ~ In x m) -> NoDup (l ++ m).
Proof.
  induction l as [|a l IH]; intros Hl Hm H; [exact Hm|]. inversion_clear Hl as [|? ? H1 H2]. cbn. constructor.
  - rewrite in_app_iff. intros [C|C]; [exact (H1 C)|exact (H a (or_introl eq_refl) C)].
  - apply IH; auto. intros x Hx. apply H. right. exact Hx.
Qed.
Lemma NoDup_flat_map {A B} (f : A -> list B) l : NoDup l -> (forall a, In a l -> NoDup (f a)) ->
  (forall a a' b, In a l -> In a' l -> In b (f a) -> In b (f a') -> a = a') -> NoDup (flat_map f l).
Proof.
  induction l as [|a l IH]; intros Hn Hf Hd; [constructor|]. cbn. inversion_clear Hn as [|? ? H1 H2].
  apply NoDup_app_i; [apply Hf; left; reflexivity| |].
  - apply IH; [exact H2|intros; apply Hf; right; assumption|intros x y b Hx Hy; apply Hd; right; assumption].
  - intros b Hb Hb'. apply in_flat_map in Hb'. destruct Hb' as (a' & Ha' & Hb'). apply H1.
    rewrite (Hd a a' b (or_introl eq_refl) (or_intror Ha') Hb Hb'). exact Ha'.
Qed.
Lemma monos3_NoDup d : NoDup (monos3 d).
Proof.
  unfold monos3. apply NoDup_flat_map; [apply seq_NoDup| |].
  - intros i _. apply FinFun.Injective_map_NoDup; [|apply seq_NoDup]. intros j j' E. congruence.
  - intros i i' b _ _ H1 H2. apply in_map_iff in H1, H2. destruct H1 as (j & <- & _), H2 as (j' & E & _). congruence.
Qed.
Lemma map_flat_map {A B D} (g : B -> D) (f : A -> list B) l : map g (flat_map f l) = flat_map (fun a => map g (f a)) l.
Proof. induction l as [|a l IH]; [reflexivity|]. cbn. rewrite map_app, IH. reflexivity. Qed.
Lemma peval_tri d p A B C : wf 3 p -> homdeg d p -> peval (pt3 A B C) p = tri_poly d (cfp p) A B C.
Proof.
  intros [Hnd Hlen] Hh.
  rewrite (peval_over K (pt3 A B C) p (monos3 d) Hnd (monos3_NoDup d)).
  2: { intros m Hm. apply monos3_in; auto. }
  unfold monos3, tri_poly. rewrite map_flat_map, fsum_flat_map. apply fsum_map_ext. intros i _.
  rewrite map_map. apply fsum_map_ext. intros j _. unfold cfp. rewrite !meval_cons, meval_nil. cbn. ring.
Qed.
Lemma peval_pt3 (x : nat -> K) p : wf 3 p -> peval x p = peval (pt3 (x 0%nat) (x 1%nat) (x 2%nat)) p.
Proof.
  intros [_ Hl]. unfold peval. apply fsum_map_ext. intros [m k] Ht. cbn [fst snd].
  assert (L : length m = 3%nat) by (apply Hl; unfold keys; apply in_map_iff; exists (m, k); auto).
  destruct m as [|i [|j [|l [|]]]]; try discriminate. rewrite !meval_cons, !meval_nil. reflexivity.
Qed.
Lemma cyclic_of_values p : wf 3 p -> (forall A B C, peval (pt3 A B C) p = peval (pt3 B C A) p) -> cyclic3 (cfp p).
Proof.
  intros Hp H. assert (Hg : is_perm 3 [1; 2; 0]%nat) by exact (Permutation.Permutation_app_comm [1; 2]%nat [0]%nat).
  assert (I : invariant_under [1;2;0]%nat p).
  { intro x. rewrite (peval_pt3 _ p Hp), (peval_pt3 x p Hp). cbn [nth]. symmetry. apply H. }
  pose proof (proj1 (rename_invariant_iff K 3 _ p Hg Hp) I) as J. intros i j k. unfold cfp.
  symmetry. exact (J [i; j; k] eq_refl).
Qed.
Lemma values_of_cyclic p : wf 3 p -> cyclic3 (cfp p) -> forall A B C, peval (pt3 A B C) p = peval (pt3 B C A) p.
Proof.
  intros Hp H A B C. assert (Hg : is_perm 3 [1; 2; 0]%nat) by exact (Permutation.Permutation_app_comm [1; 2]%nat [0]%nat).
  assert (I : forall m, length m = 3%nat -> coef p (act 0%nat [1;2;0]%nat m) = coef p m).
  { intros [|i [|j [|k [|]]]] L; try discriminate. symmetry. exact (H i j k). }
  pose proof (proj2 (rename_invariant_iff K 3 _ p Hg Hp) I (pt3 A B C)) as J. rewrite <- J.
  rewrite (peval_pt3 _ p Hp). reflexivity.
Qed.
End Facts.
