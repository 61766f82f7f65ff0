(** * Division of alternating polynomials by (a-b)(b-c)(c-a) *)
From Coq Require Import Bool List Arith Lia ZArith Ring Field Permutation.
From Verif Require Import OrdField Base Perm Poly PolyId PolyOps Expr TriPoly Pqr PqrSym.
From Verif Require CertLimit Shared.
Import ListNotations.

Section Ref.
Context {K : OrdField}.
Local Open Scope of_scope.
Definition geo (e : nat) (mk : nat -> list nat) (c : K) : list (list nat * K) := map (fun s => (mk s, c)) (seq 0 e).
Definition quo_cb (t : list nat * K) := match fst t with [i; j; k] => geo k (fun s => [i; j + (k - 1 - s); s]%nat) (snd t) | _ => [] end.
Definition quo_ac (t : list nat * K) := match fst t with [i; j; k] => geo i (fun s => [s; j; k + (i - 1 - s)]%nat) (snd t) | _ => [] end.
Definition quo_ba (t : list nat * K) := match fst t with [i; j; k] => geo j (fun s => [i + (j - 1 - s); s; k]%nat) (snd t) | _ => [] end.
Definition collect (l : list (list nat * K)) : poly K := clean (fold_left add_term l []).
Definition quo (h : list nat * K -> list (list nat * K)) (p : poly K) : poly K := collect (flat_map h p).
Definition div_ref (p d : poly K) : poly K * poly K :=
  let q := pneg (quo quo_ba (quo quo_ac (quo quo_cb p))) in (q, padd p (pneg (pmul q d))).
End Ref.

Section Facts.
Variable K : OrdField.
Local Open Scope of_scope.
Add Field Kf : (F_field K).
Implicit Types (x : nat -> K) (p f : poly K).

Lemma geo_sum (X Y : K) e : X ^ e = Y ^ e + (X - Y) * fsum (map (fun s => X ^ s * Y ^ (e - 1 - s)) (seq 0 e)).
Proof.
  induction e as [|e IH]; [cbn; ring|]. rewrite seq_S, map_app, fsum_app. cbn [map fsum Nat.add].
  replace (S e - 1 - e)%nat with 0%nat by lia.
  rewrite (fsum_map_ext K _ (fun s => Y * (X ^ s * Y ^ (e - 1 - s)))).
  - rewrite (fsum_map_mul_l). cbn [fpow]. rewrite IH at 1. set (s := fsum _) in *. assert (E : X ^ e = Y ^ e + (X - Y) * s) by exact IH. rewrite E. ring.
  - intros s Hs. apply in_seq in Hs. replace (S e - 1 - s)%nat with (S (e - 1 - s)) by lia. cbn [fpow]. ring.
Qed.
Lemma collect_spec (l : list (list nat * K)) : (forall t, In t l -> length (fst t) = 3%nat) -> wf 3 (collect l) /\ forall x, peval x (collect l) = peval x l.
Proof.
  intro H. assert (H0 : wf 3 ([] : poly K)) by (split; [constructor|intros m []]). unfold collect. split; [apply clean_wf; apply (fold_add_eval K (fun _ => 0) 3 l [] H0 H)|].
  intro x. rewrite clean_eval, (proj2 (fold_add_eval K x 3 l [] H0 H)), peval_nil. change (fsum (map (fun t => snd t * meval x (fst t)) l)) with (peval x l). ring.
Qed.
Lemma meval3 (A B C : K) i j k : meval (pt3 A B C) [i; j; k] = A ^ i * B ^ j * C ^ k.
Proof. unfold meval. cbn [length seq map fprod nth pt3]. ring. Qed.
Lemma quo_gen h (g : K -> K -> K -> K * K * K) (d : K -> K -> K -> K) p : wf 3 p ->
  (forall i j k c t, In t (h ([i; j; k], c)) -> length (fst t) = 3%nat) ->
  (forall i j k c A B C, c * meval (pt3 A B C) [i; j; k] =
     c * meval (let '(A', B', C') := g A B C in pt3 A' B' C') [i; j; k] + d A B C * peval (pt3 A B C) (h ([i; j; k], c))) ->
  wf 3 (quo h p) /\ forall A B C, peval (pt3 A B C) p = peval (let '(A', B', C') := g A B C in pt3 A' B' C') p + d A B C * peval (pt3 A B C) (quo h p).
Proof.
  intros [_ L] H1 H2.
  assert (Hl : forall t, In t (flat_map h p) -> length (fst t) = 3%nat).
  { intros t Ht. apply in_flat_map in Ht. destruct Ht as ([m c] & Hu & Ht). assert (Lm : length m = 3%nat) by (apply L; apply (in_map fst _ _ Hu)).
    destruct m as [|i [|j [|k [|]]]]; try discriminate Lm. exact (H1 i j k c t Ht). }
  destruct (collect_spec _ Hl) as (W & V). split; [exact W|]. intros A B C. unfold quo. rewrite V. clear W V Hl.
  induction p as [|[m c] p IH]; [cbn [flat_map]; rewrite !peval_nil; ring|]. cbn [flat_map]. rewrite !peval_cons, peval_app.
  rewrite IH by (intros m' Hm'; apply L; right; exact Hm'). assert (Lm : length m = 3%nat) by (apply L; left; reflexivity).
  destruct m as [|i [|j [|k [|]]]]; try discriminate Lm. rewrite (H2 i j k c A B C). destruct (g A B C) as [[A' B'] C']. ring.
Qed.
Lemma geo_val x e mk (c : K) : peval x (geo e mk c) = c * fsum (map (fun s => meval x (mk s)) (seq 0 e)).
Proof. unfold geo, peval. rewrite map_map. cbn [fst snd]. rewrite fsum_map_mul_l. reflexivity. Qed.
Lemma geo_len e mk (c : K) t : (forall s, length (mk s) = 3%nat) -> In t (geo e mk c) -> length (fst t) = 3%nat.
Proof. intros H Ht. unfold geo in Ht. apply in_map_iff in Ht. destruct Ht as (s & <- & _). apply H. Qed.
Lemma quo_cb_spec p : wf 3 p -> wf 3 (quo quo_cb p) /\ forall A B C, peval (pt3 A B C) p = peval (pt3 A B B) p + (C - B) * peval (pt3 A B C) (quo quo_cb p).
Proof.
  intro W. apply (quo_gen quo_cb (fun A B C => (A, B, B)) (fun A B C => C - B) p W).
  - intros i j k c t. unfold quo_cb. cbn [fst snd]. apply geo_len. reflexivity.
  - intros i j k c A B C. unfold quo_cb. cbn [fst snd]. rewrite geo_val, !meval3.
    rewrite (fsum_map_ext K _ (fun s => A ^ i * B ^ j * (C ^ s * B ^ (k - 1 - s)))) by (intros s _; rewrite meval3, fpow_add; ring).
    rewrite fsum_map_mul_l. rewrite (geo_sum C B k) at 1. ring.
Qed.
Lemma quo_ac_spec p : wf 3 p -> wf 3 (quo quo_ac p) /\ forall A B C, peval (pt3 A B C) p = peval (pt3 C B C) p + (A - C) * peval (pt3 A B C) (quo quo_ac p).
Proof.
  intro W. apply (quo_gen quo_ac (fun A B C => (C, B, C)) (fun A B C => A - C) p W).
  - intros i j k c t. unfold quo_ac. cbn [fst snd]. apply geo_len. reflexivity.
  - intros i j k c A B C. unfold quo_ac. cbn [fst snd]. rewrite geo_val, !meval3.
    rewrite (fsum_map_ext K _ (fun s => B ^ j * C ^ k * (A ^ s * C ^ (i - 1 - s)))) by (intros s _; rewrite meval3, fpow_add; ring).
    rewrite fsum_map_mul_l. rewrite (geo_sum A C i) at 1. ring.
Qed.
Lemma quo_ba_spec p : wf 3 p -> wf 3 (quo quo_ba p) /\ forall A B C, peval (pt3 A B C) p = peval (pt3 A A C) p + (B - A) * peval (pt3 A B C) (quo quo_ba p).
Proof.
  intro W. apply (quo_gen quo_ba (fun A B C => (A, A, C)) (fun A B C => B - A) p W).
  - intros i j k c t. unfold quo_ba. cbn [fst snd]. apply geo_len. reflexivity.
  - intros i j k c A B C. unfold quo_ba. cbn [fst snd]. rewrite geo_val, !meval3.
    rewrite (fsum_map_ext K _ (fun s => A ^ i * C ^ k * (B ^ s * A ^ (j - 1 - s)))) by (intros s _; rewrite meval3, fpow_add; ring).
    rewrite fsum_map_mul_l. rewrite (geo_sum B A j) at 1. ring.
Qed.

(** ** Polynomial functions of one variable *)
Definition upoly (F : K -> K) := exists l : list K, forall u, ueval l u = F u.
Fixpoint uadd (l l' : list K) : list K := match l, l' with [], _ => l' | _, [] => l | c :: l1, c' :: l1' => c + c' :: uadd l1 l1' end.
Lemma uadd_val (l : list K) : forall (l' : list K) u, ueval (uadd l l') u = ueval l u + ueval l' u.
Proof. induction l as [|c l IH]; intros [|c' l'] u; cbn [uadd ueval]; try ring. rewrite IH. ring. Qed.
Fixpoint umul (l l' : list K) : list K := match l with [] => [] | c :: l1 => uadd (map (fun v => c * v) l') (0 :: umul l1 l') end.
Lemma uscale_val (c : K) (l : list K) u : ueval (map (fun v => c * v) l) u = c * ueval l u.
Proof. induction l as [|d l IH]; cbn [map ueval]; [ring|]. rewrite IH. ring. Qed.
Lemma umul_val (l : list K) : forall (l' : list K) u, ueval (umul l l') u = ueval l u * ueval l' u.
Proof. induction l as [|c l IH]; intros l' u; cbn [umul ueval]; [ring|]. rewrite uadd_val, uscale_val. cbn [ueval]. rewrite IH. ring. Qed.
Lemma upoly_const c : upoly (fun _ => c). Proof. exists [c]. intro u. cbn. ring. Qed.
Lemma upoly_id : upoly (fun u => u). Proof. exists [0; 1]. intro u. cbn. ring. Qed.
Lemma upoly_add F G : upoly F -> upoly G -> upoly (fun u => F u + G u).
Proof. intros [l H] [l' H']. exists (uadd l l'). intro u. rewrite uadd_val, H, H'. reflexivity. Qed.
Lemma upoly_mul F G : upoly F -> upoly G -> upoly (fun u => F u * G u).
Proof. intros [l H] [l' H']. exists (umul l l'). intro u. rewrite umul_val, H, H'. reflexivity. Qed.
Lemma upoly_pow F e : upoly F -> upoly (fun u => F u ^ e).
Proof. intro H. induction e as [|e IH]; cbn [fpow]; [apply upoly_const|apply upoly_mul; assumption]. Qed.
Lemma upoly_ext F G : (forall u, F u = G u) -> upoly F -> upoly G.
Proof. intros E [l H]. exists l. intro u. rewrite H. apply E. Qed.
Lemma upoly_point p (f g h : K -> K) : wf 3 p -> upoly f -> upoly g -> upoly h -> upoly (fun u => peval (pt3 (f u) (g u) (h u)) p).
Proof.
  intros [_ L] Hf Hg Hh. induction p as [|[m c] p IH].
  - apply (upoly_ext (fun _ => 0)); [intro u; symmetry; apply peval_nil|apply upoly_const].
  - assert (Lm : length m = 3%nat) by (apply L; left; reflexivity). destruct m as [|i [|j [|k [|]]]]; try discriminate Lm.
    apply (upoly_ext (fun u => c * (f u ^ i * g u ^ j * h u ^ k) + peval (pt3 (f u) (g u) (h u)) p)).
    + intro u. rewrite peval_cons, meval3. reflexivity.
    + apply upoly_add; [|apply IH; intros m' Hm; apply L; right; exact Hm]. apply upoly_mul; [apply upoly_const|].
      apply upoly_mul; [apply upoly_mul|]; apply upoly_pow; assumption.
Qed.
Lemma ueval_all0 (l : list K) u : (forall c, In c l -> c = 0) -> ueval l u = 0.
Proof. induction l as [|c l IH]; intro H; cbn [ueval]; [reflexivity|]. rewrite IH by (intros d Hd; apply H; right; exact Hd). rewrite (H c (or_introl eq_refl)). ring. Qed.
Lemma upoly_zero1 F v : upoly F -> (forall u, u <> v -> F u = 0) -> forall u, F u = 0.
Proof.
  intros [l H] Z u. rewrite <- H. apply ueval_all0. apply (roots_zero K (length l) l (map (fun i => v + fnat (S i)) (seq 0 (length l)))).
  - lia.
  - rewrite map_length, seq_length. reflexivity.
  - apply FinFun.Injective_map_NoDup; [|apply seq_NoDup]. intros i j E. assert (E' : (fnat (S i) : K) = fnat (S j)).
    { replace (fnat (S i)) with (v + fnat (S i) - v) by ring. rewrite E. ring. } apply fnat_inj in E'. lia.
  - intros w Hw. apply in_map_iff in Hw. destruct Hw as (i & <- & _). rewrite H. apply Z. intro E. apply (fnat_neq0 K (S i)); [lia|].
    replace (fnat (S i)) with (v + fnat (S i) - v) by ring. rewrite E. ring.
Qed.
Lemma upoly_zero2 F v w : upoly F -> (forall u, u <> v -> u <> w -> F u = 0) -> forall u, F u = 0.
Proof.
  intros HF Z. apply (upoly_zero1 F w HF). intros u Hu.
  assert (E : (u - w) * F u = 0).
  { apply (upoly_zero1 (fun u => (u - w) * F u) v).
    - apply upoly_mul; [|exact HF]. apply (upoly_ext (fun u => u + - w)); [intro; ring|]. apply upoly_add; [apply upoly_id|apply upoly_const].
    - intros t Ht. destruct (feq_dec K t w) as [->|N]; [ring|]. rewrite (Z t Ht N). ring. }
  apply fmul_eq0 in E. destruct E as [E|E]; [|exact E]. exfalso. apply Hu. apply fsub_eq0. exact E.
Qed.
(** a polynomial that vanishes at the points with distinct coordinates vanishes *)
Lemma zero_distinct p : wf 3 p -> (forall A B C, A <> B -> B <> C -> C <> A -> peval (pt3 A B C) p = 0) -> forall A B C, peval (pt3 A B C) p = 0.
Proof.
  intros W Z.
  assert (Z1 : forall A B C, B <> C -> peval (pt3 A B C) p = 0).
  { intros A B C N. apply (upoly_zero2 (fun u => peval (pt3 u B C) p) B C).
    - apply upoly_point; [exact W|apply upoly_id|apply upoly_const|apply upoly_const].
    - intros u H1 H2. apply Z; [exact H1|exact N|]. intro E. apply H2. symmetry. exact E. }
  intros A B C. apply (upoly_zero1 (fun u => peval (pt3 A u C) p) C).
  - apply upoly_point; [exact W|apply upoly_const|apply upoly_id|apply upoly_const].
  - intros u Hu. apply Z1, Hu.
Qed.

Lemma alternant_wf : wf 3 (alternant (K := K)). Proof. apply expand_spec. reflexivity. Qed.
Lemma alternant_val A B C : peval (pt3 A B C) (alternant (K := K)) = (A - B) * (B - C) * (C - A).
Proof. unfold alternant. rewrite (proj1 (proj2 (expand_spec K ((EX 0 - EX 1) * (EX 1 - EX 2) * (EX 2 - EX 0))%E eq_refl))). cbn [ev pt3]. ring. Qed.

(** the factor theorem, three times *)
Lemma alt_divides p : wf 3 p -> (forall A B, peval (pt3 A B B) p = 0) -> (forall C B, peval (pt3 C B C) p = 0) -> (forall A C, peval (pt3 A A C) p = 0) ->
  forall A B C, peval (pt3 A B C) p = peval (pt3 A B C) (pneg (quo quo_ba (quo quo_ac (quo quo_cb p)))) * ((A - B) * (B - C) * (C - A)).
Proof.
  intros W Z1 Z2 Z3. destruct (quo_cb_spec p W) as (W1 & V1). set (q1 := quo quo_cb p) in *. destruct (quo_ac_spec q1 W1) as (W2 & V2). set (q2 := quo quo_ac q1) in *.
  destruct (quo_ba_spec q2 W2) as (W3 & V3). set (q3 := quo quo_ba q2) in *.
  assert (E1 : forall C B, peval (pt3 C B C) q1 = 0).
  { intros C B. apply (upoly_zero1 (fun u => peval (pt3 C u C) q1) C).
    - apply upoly_point; [exact W1|apply upoly_const|apply upoly_id|apply upoly_const].
    - intros u Hu. pose proof (V1 C u C) as E. rewrite Z1, Z2 in E. assert (E' : (C - u) * peval (pt3 C u C) q1 = 0) by (rewrite E; ring).
      apply fmul_eq0 in E'. destruct E' as [E'|E']; [|exact E']. exfalso. apply Hu. symmetry. apply fsub_eq0. exact E'. }
  assert (E2 : forall A C, peval (pt3 A A C) q2 = 0).
  { intros A C. apply (upoly_zero1 (fun u => peval (pt3 A A u) q2) A).
    - apply upoly_point; [exact W2|apply upoly_const|apply upoly_const|apply upoly_id].
    - intros u Hu. pose proof (V1 A A u) as E. rewrite Z1, Z3, V2, E1 in E. assert (E' : (u - A) * (u - A) * peval (pt3 A A u) q2 = 0).
      { transitivity (- (0 + (u - A) * (0 + (A - u) * peval (pt3 A A u) q2))); [ring|]. rewrite <- E. ring. }
      apply fmul_eq0 in E'. destruct E' as [E'|E']; [|exact E']. exfalso. apply Hu. apply fmul_eq0 in E'. destruct E'; apply fsub_eq0; assumption. }
  intros A B C. rewrite V1, Z1, V2, E1, V3, E2. rewrite (proj1 (proj2 (pneg_spec K 3 q3 W3))). ring.
Qed.
Lemma div_ref_ok : div_ok (div_ref (K := K)) alternant.
Proof.
  intros p W. unfold div_ref. cbn [fst snd]. destruct (quo_cb_spec p W) as (W1 & _). destruct (quo_ac_spec _ W1) as (W2 & _). destruct (quo_ba_spec _ W2) as (W3 & _).
  destruct (pneg_spec K 3 _ W3) as (Wq & _ & _). set (q := pneg _) in *.
  destruct (pmul_spec K 3 q alternant Wq alternant_wf) as (M1 & M2 & _). destruct (sub_full K 3 p _ W M1) as (D1 & D2).
  split; [exact Wq|]. split; [exact D1|]. split; [intro x; rewrite D2, M2; ring|].
  intros (s & Ws & Hs) x. rewrite D2, M2. assert (Hs3 : forall A B C, peval (pt3 A B C) p = peval (pt3 A B C) s * ((A - B) * (B - C) * (C - A))) by (intros; rewrite Hs, alternant_val; reflexivity).
  rewrite !(peval_pt3 K x) by (try apply alternant_wf; assumption). rewrite alternant_val.
  rewrite (alt_divides p W); [unfold q; ring| | |]; intros; rewrite Hs3; ring.
Qed.
End Facts.
