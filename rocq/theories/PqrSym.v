(** * The fundamental theorem of symmetric polynomials, as a function *)
From Coq Require Import Bool List Arith Lia ZArith Ring Field Permutation.
From Verif Require Import OrdField Base Perm Poly PolyId PolyOps Expr TriPoly Pqr.
From Verif Require Shared.
Import ListNotations.

Section Ref.
Context {K : OrdField}.
Local Open Scope of_scope.
(** the 0/1 vectors of length n with k ones *)
Fixpoint subsets (n k : nat) : list (list nat) :=
  match n with
  | O => match k with O => [[]] | S _ => [] end
  | S n' => map (cons 0%nat) (subsets n' k) ++ match k with O => [] | S k' => map (cons 1%nat) (subsets n' k') end
  end.
Definition epoly (n k : nat) : poly K := map (fun m => (m, 1)) (subsets n k).
(** the product of the elementary polynomials k, k+1, ... with the given exponents *)
Fixpoint eprod (n k : nat) (m : list nat) : poly K :=
  match m with [] => pone n | e :: m' => pmul (ppow n (epoly n k) e) (eprod n (S k) m') end.
(** f(e1, ..., en) *)
Fixpoint ecomp (n : nat) (f : poly K) : poly K :=
  match f with [] => [] | t :: f' => padd (pmul [(repeat 0%nat n, snd t)] (eprod n 1 (fst t))) (ecomp n f') end.
Definition lift (f : poly K) : poly K := map (fun t => (fst t ++ [0%nat], snd t)) f.
Fixpoint bump_last (m : list nat) : list nat := match m with [] => [] | [e] => [S e] | e :: m' => e :: bump_last m' end.
Definition raise (f : poly K) : poly K := map (fun t => (bump_last (fst t), snd t)) f.
(** division by the product of all variables *)
Definition lower (p : poly K) : poly K := map (fun t => (map pred (fst t), snd t)) (filter (fun t => forallb (fun e => Nat.ltb 0 e) (fst t)) p).
(** reduction by the first variable, then by the product of the variables *)
Fixpoint symz (n : nat) : nat -> poly K -> poly K :=
  match n with
  | O => fun _ p => p
  | S n' =>
      fix go (fuel : nat) (p : poly K) : poly K :=
        let f0 := lift (symz n' fuel (slice K 0 p)) in
        match fuel with
        | O => f0
        | S fuel' => padd f0 (raise (go fuel' (lower (padd p (pneg (ecomp n f0))))))
        end
  end.
Definition maxexp (p : poly K) : nat := fold_right (fun t d => Nat.max (list_max (fst t)) d) 0%nat p.
Definition symmetrize_ref (n : nat) (p : poly K) : poly K * poly K :=
  let f := symz n (maxexp p) p in (f, padd p (pneg (ecomp n f))).
End Ref.

Section Facts.
Variable K : OrdField.
Local Open Scope of_scope.
Add Field Kf : (F_field K).
Implicit Types (x : nat -> K) (p f : poly K).

(** ** Elementary symmetric functions *)
Lemma esl_perm l l' : Permutation l l' -> forall k, esl l k = (esl l' k : K).
Proof.
  induction 1 as [|y l l' H IH|y z l|l l' l'' H1 IH1 H2 IH2]; intro k; [reflexivity| | |rewrite IH1; apply IH2].
  - destruct k; [reflexivity|]. cbn [esl]. rewrite !IH. reflexivity.
  - destruct k as [|[|k]]; cbn [esl]; [reflexivity| |]; [destruct l; cbn [esl]; ring|]. destruct l; cbn [esl]; ring.
Qed.
Lemma map_nth_perm n g x : is_perm n g -> map (fun i => x (nth i g 0%nat)) (seq 0 n) = map x g.
Proof.
  intro Hg. rewrite <- (map_map (fun i => nth i g 0%nat) x). f_equal. rewrite <- (is_perm_length n g Hg). apply (act_id 0%nat (length g) g eq_refl).
Qed.
Lemma epoint_perm n g x i : is_perm n g -> epoint n (fun i => x (nth i g 0%nat)) i = epoint n x i.
Proof. intro Hg. unfold epoint. rewrite (map_nth_perm n g x Hg). apply esl_perm, Permutation_map, Hg. Qed.
Definition scons (y : K) x (i : nat) : K := match i with O => y | S i => x i end.
Lemma map_scons n y x : map (scons y x) (seq 0 (S n)) = y :: map x (seq 0 n).
Proof. cbn [seq map scons]. f_equal. rewrite <- seq_shift, map_map. reflexivity. Qed.
Lemma epoint_0 n x i : epoint (S n) (scons 0 x) i = epoint n x i.
Proof. unfold epoint. rewrite map_scons. cbn [esl]. ring. Qed.
Lemma map_seq_S n x : map x (seq 0 (S n)) = x 0%nat :: map (fun i => x (S i)) (seq 0 n).
Proof. cbn [seq map]. f_equal. rewrite <- seq_shift, map_map. reflexivity. Qed.
Lemma esl_over (l : list K) k : (length l < k)%nat -> esl l k = 0.
Proof.
  revert k. induction l as [|y l IH]; intros [|k] H; cbn [length esl] in *; try lia; [reflexivity|]. rewrite !IH by lia. ring.
Qed.
Lemma esl_full (l : list K) : esl l (length l) = fprod l.
Proof.
  induction l as [|y l IH]; [reflexivity|]. cbn [length esl fprod]. rewrite IH, (esl_over l (S (length l))) by lia. ring.
Qed.
Definition prodx (n : nat) x : K := fprod (map x (seq 0 n)).
Lemma epoint_last n x : epoint (S n) x n = prodx (S n) x.
Proof. unfold epoint, prodx. rewrite <- (esl_full (map x (seq 0 (S n)))). rewrite map_length, seq_length. reflexivity. Qed.

(** ** Their polynomials *)
Lemma subsets_len n : forall k m, In m (subsets n k) -> length m = n.
Proof.
  induction n as [|n IH]; intros k m; cbn [subsets]; [destruct k; [intros [<-|[]]; reflexivity|intros []]|].
  rewrite in_app_iff. intros [H|H]; [|destruct k; [destruct H|]]; apply in_map_iff in H; destruct H as (m' & <- & H); cbn [length]; f_equal; exact (IH _ _ H).
Qed.
Lemma subsets_le n : forall k m e, In m (subsets n k) -> In e m -> (e <= 1)%nat.
Proof.
  induction n as [|n IH]; intros k m e; cbn [subsets]; [destruct k; [intros [<-|[]] []|intros []]|].
  rewrite in_app_iff. intros [H|H]; [|destruct k; [destruct H|]]; apply in_map_iff in H; destruct H as (m' & <- & H); (intros [<-|He]; [lia|exact (IH _ _ _ H He)]).
Qed.
Lemma NoDup_map_cons (a : nat) (l : list (list nat)) : NoDup l -> NoDup (map (cons a) l).
Proof. intro H. apply FinFun.Injective_map_NoDup; [intros u v E; injection E; auto|exact H]. Qed.
Lemma subsets_NoDup n : forall k, NoDup (subsets n k).
Proof.
  induction n as [|n IH]; intro k; cbn [subsets]; [destruct k; repeat constructor; intros []|].
  apply NoDup_app_i; [apply NoDup_map_cons, IH|destruct k; [constructor|apply NoDup_map_cons, IH]|].
  intros m H1 H2. destruct k; [destruct H2|]. apply in_map_iff in H1. apply in_map_iff in H2. destruct H1 as (u & <- & _), H2 as (v & E & _). discriminate E.
Qed.
Lemma epoly_keys n k : keys (epoly n k : poly K) = subsets n k.
Proof. unfold keys, epoly. rewrite map_map. cbn [fst]. apply map_id. Qed.
Lemma epoly_wf n k : wf n (epoly n k : poly K).
Proof. unfold wf. rewrite epoly_keys. split; [apply subsets_NoDup|apply subsets_len]. Qed.
Lemma peval_map_cons x e (l : list (list nat)) : peval x (map (fun m => (m, 1)) (map (cons e) l) : poly K) = x 0%nat ^ e * peval (fun i => x (S i)) (map (fun m => (m, 1)) l).
Proof.
  induction l as [|m l IH]; cbn [map]; [rewrite !peval_nil; ring|]. rewrite !peval_cons, IH, meval_cons. ring.
Qed.
Lemma epoly_val n : forall k x, peval x (epoly n k : poly K) = esl (map x (seq 0 n)) k.
Proof.
  induction n as [|n IH]; intros k x; unfold epoly; cbn [subsets].
  - destruct k; cbn [map seq esl]; [rewrite peval_cons, peval_nil; cbn; ring|apply peval_nil].
  - rewrite map_seq_S, map_app, peval_app, peval_map_cons. fold (epoly n k : poly K). rewrite IH. destruct k as [|k]; cbn [esl fpow].
    + rewrite peval_nil. destruct (map _ (seq 0 n)); cbn [esl]; ring.
    + rewrite peval_map_cons. fold (epoly n k : poly K). rewrite IH. cbn [fpow]. ring.
Qed.

(** ** Bounds of the exponents *)
Definition bnd (M : nat) p := forall m e, In m (keys p) -> In e m -> (e <= M)%nat.
Definition tdeg (M : nat) f := forall m, In m (keys f) -> (list_sum m <= M)%nat.
Lemma madd_in u : forall v e, In e (madd u v) -> exists s t, In s u /\ In t v /\ e = (s + t)%nat.
Proof.
  induction u as [|s u IH]; intros [|t v] e; cbn [madd]; try (intros []; fail). intros [<-|H].
  - exists s, t. repeat split; left; reflexivity.
  - destruct (IH v e H) as (s' & t' & A & B & ->). exists s', t'. repeat split; right; assumption.
Qed.
Lemma pmul_bnd M N p f : bnd M p -> bnd N f -> bnd (M + N) (pmul p f).
Proof.
  intros Hp Hf m e Hm He. unfold pmul in Hm. apply clean_keys, fold_add_keys in Hm. destruct Hm as [[]|Hm]. apply in_map_iff in Hm. destruct Hm as (t & <- & Ht).
  apply in_flat_map in Ht. destruct Ht as (u & Hu & Ht). apply in_map_iff in Ht. destruct Ht as (v & <- & Hv). cbn [fst] in He.
  destruct (madd_in _ _ _ He) as (s & t & A & B & ->). pose proof (Hp _ s (in_map fst _ _ Hu) A). pose proof (Hf _ t (in_map fst _ _ Hv) B). lia.
Qed.
Lemma padd_bnd M p f : bnd M p -> bnd M f -> bnd M (padd p f).
Proof. intros Hp Hf m e Hm He. apply clean_keys, fold_add_keys in Hm. destruct Hm as [Hm|Hm]; [exact (Hp m e Hm He)|exact (Hf m e Hm He)]. Qed.
Lemma padd_tdeg M p f : tdeg M p -> tdeg M f -> tdeg M (padd p f).
Proof. intros Hp Hf m Hm. apply clean_keys, fold_add_keys in Hm. destruct Hm as [Hm|Hm]; [exact (Hp m Hm)|exact (Hf m Hm)]. Qed.
Lemma bnd_mono M N p : (M <= N)%nat -> bnd M p -> bnd N p.
Proof. intros L H m e A B. specialize (H m e A B). lia. Qed.
Lemma const_bnd n (k : K) : bnd 0 [(repeat 0%nat n, k)].
Proof. intros m e [<-|[]] He. cbn [fst] in He. apply repeat_spec in He. lia. Qed.
Lemma ppow_bnd M n p e : bnd M p -> bnd (e * M) (ppow n p e).
Proof. intro H. induction e as [|e IH]; cbn [ppow Nat.mul]; [apply const_bnd|]. apply pmul_bnd; assumption. Qed.
Lemma epoly_bnd n k : bnd 1 (epoly n k).
Proof. intros m e. rewrite epoly_keys. apply subsets_le. Qed.
Lemma eprod_spec n m : forall k, wf n (eprod n k m : poly K) /\
  (forall x, peval x (eprod n k m) = meval (fun i => esl (map x (seq 0 n)) (k + i)%nat) m) /\ bnd (list_sum m) (eprod n k m : poly K).
Proof.
  induction m as [|e m IH]; intro k; cbn [eprod].
  - destruct (pone_spec K n) as (A & B & _). split; [exact A|]. split; [intro x; rewrite B; reflexivity|apply const_bnd].
  - destruct (IH (S k)) as (A & B & C). destruct (ppow_spec K n (epoly n k) e (epoly_wf n k)) as (P1 & P2 & _).
    destruct (pmul_spec K n _ _ P1 A) as (Q1 & Q2 & _). split; [exact Q1|]. split.
    + intro x. rewrite Q2, P2, B, meval_cons, epoly_val, Nat.add_0_r. f_equal. apply (Shared.meval_ext_len K). intros i _. f_equal. lia.
    + change (list_sum (e :: m)) with (e + list_sum m)%nat. rewrite <- (Nat.mul_1_r e) at 1. apply pmul_bnd; [apply ppow_bnd, epoly_bnd|exact C].
Qed.
Lemma ecomp_spec n M f : (tdeg M f -> bnd M (ecomp n f)) /\ wf n (ecomp n f) /\ forall x, peval x (ecomp n f) = peval (epoint n x) f.
Proof.
  induction f as [|[m k] f (I1 & I2 & I3)]; cbn [ecomp fst snd].
  - split; [intros _ m e []|]. split; [split; [constructor|intros m []]|]. intro x. rewrite !peval_nil. reflexivity.
  - destruct (eprod_spec n m 1) as (A & B & C). destruct (mono_spec K n (repeat 0%nat n) k (repeat_length _ _)) as (M1 & M2 & _).
    destruct (pmul_spec K n _ _ M1 A) as (Q1 & Q2 & _). destruct (padd_full K n _ _ Q1 I2) as (R1 & R2 & _). split; [|split; [exact R1|]].
    + intro H. apply padd_bnd; [|apply I1; intros m' Hm; apply H; right; exact Hm]. apply (bnd_mono (0 + list_sum m)); [apply (H m); left; reflexivity|].
      apply pmul_bnd; [apply const_bnd|exact C].
    + intro x. rewrite R2, Q2, M2, I3, B, meval_zeros, peval_cons. unfold epoint. cbn [Nat.add]. ring.
Qed.

(** ** Operations *)
Lemma meval_app0 x m : meval x (m ++ [0%nat]) = meval x m.
Proof. revert x. induction m as [|e m IH]; intro x; cbn [app]; [rewrite meval_cons, !meval_nil; cbn; ring|]. rewrite !meval_cons, IH. reflexivity. Qed.
Lemma lift_spec n f : wf n f -> wf (S n) (lift f) /\ (forall x, peval x (lift f) = peval x f) /\ forall M, tdeg M f -> tdeg M (lift f).
Proof.
  intros [N L]. assert (E : keys (lift f) = map (fun m => m ++ [0%nat]) (keys f)) by (unfold keys, lift; rewrite !map_map; reflexivity). split; [split|split].
  - rewrite E. apply FinFun.Injective_map_NoDup; [|exact N]. intros u v H. apply app_inj_tail in H. apply H.
  - rewrite E. intros m Hm. apply in_map_iff in Hm. destruct Hm as (m' & <- & Hm). rewrite app_length, (L _ Hm). cbn. lia.
  - intro x. unfold peval, lift. rewrite map_map. apply fsum_map_ext. intros t _. cbn [fst snd]. rewrite meval_app0. reflexivity.
  - intros M H m. rewrite E. intro Hm. apply in_map_iff in Hm. destruct Hm as (m' & <- & Hm). rewrite list_sum_app. cbn. specialize (H _ Hm). lia.
Qed.
Lemma bump_last_len m : length (bump_last m) = length m.
Proof. induction m as [|e [|e' m] IH]; [reflexivity|reflexivity|]. change (bump_last (e :: e' :: m)) with (e :: bump_last (e' :: m)). cbn [length] in *. rewrite IH. reflexivity. Qed.
Lemma bump_last_app m e : bump_last (m ++ [e]) = m ++ [S e].
Proof. induction m as [|u m IH]; [reflexivity|]. cbn [app bump_last]. destruct (m ++ [e]) eqn:E; [destruct m; discriminate|]. rewrite IH. reflexivity. Qed.
Lemma meval_snoc x m e : meval x (m ++ [e]) = meval x m * x (length m) ^ e.
Proof. revert x. induction m as [|u m IH]; intro x; cbn [app length]; [rewrite meval_cons, !meval_nil; ring|]. rewrite !meval_cons, IH. ring. Qed.
Lemma raise_spec n f : wf (S n) f -> wf (S n) (raise f) /\ (forall x, peval x (raise f) = x n * peval x f) /\ forall M, tdeg M f -> tdeg (S M) (raise f).
Proof.
  intros [N L]. assert (E : keys (raise f) = map bump_last (keys f)) by (unfold keys, raise; rewrite !map_map; reflexivity).
  assert (Sn : forall m, In m (keys f) -> exists u e, m = u ++ [e] /\ length u = n).
  { intros m Hm. specialize (L m Hm). destruct (exists_last (l := m)) as (u & e & ->); [intros ->; discriminate|]. exists u, e. split; [reflexivity|]. rewrite app_length in L. cbn in L. lia. }
  split; [split|split].
  - rewrite E. clear E. revert N Sn. generalize (keys f). intro ks. induction ks as [|m ks IH]; intros N Sn; cbn [map]; [constructor|]. apply NoDup_cons_iff in N. destruct N as [N1 N2].
    constructor; [|apply IH; [exact N2|intros k Hk; apply Sn; right; exact Hk]]. intro H. apply in_map_iff in H. destruct H as (m' & Em & Hm). apply N1.
    destruct (Sn m (or_introl eq_refl)) as (u & e & -> & _), (Sn m' (or_intror Hm)) as (u' & e' & -> & _). rewrite !bump_last_app in Em. apply app_inj_tail in Em. destruct Em as [-> Ee]. injection Ee as ->. exact Hm.
  - rewrite E. intros m Hm. apply in_map_iff in Hm. destruct Hm as (m' & <- & Hm). rewrite bump_last_len. exact (L _ Hm).
  - intro x. unfold peval, raise. rewrite map_map. rewrite <- fsum_map_mul_l. apply fsum_map_ext. intros t Ht. cbn [fst snd].
    destruct (Sn (fst t) (in_map fst _ _ Ht)) as (u & e & Eu & Lu). rewrite Eu, bump_last_app, !meval_snoc, Lu. cbn [fpow]. ring.
  - intros M H m. rewrite E. intro Hm. apply in_map_iff in Hm. destruct Hm as (m' & <- & Hm). specialize (H _ Hm). destruct (Sn _ Hm) as (u & e & -> & _).
    rewrite bump_last_app. rewrite list_sum_app in *. cbn in *. lia.
Qed.
Lemma map_pred_S m : forallb (fun e => Nat.ltb 0 e) m = true -> map S (map pred m) = m.
Proof.
  induction m as [|e m IH]; [reflexivity|]. cbn [forallb map]. intro H. apply andb_prop in H. destruct H as [H1 H2]. apply Nat.ltb_lt in H1. rewrite IH by exact H2. f_equal. lia.
Qed.
Lemma lower_keys p m : In m (keys (lower p)) -> In (map S m) (keys p).
Proof.
  unfold keys, lower. rewrite map_map. cbn [fst]. intro H. apply in_map_iff in H. destruct H as (t & <- & H). apply filter_In in H. destruct H as [H1 H2].
  rewrite (map_pred_S _ H2). apply in_map, H1.
Qed.
Lemma map_S_inj u v : map S u = map S v -> u = v.
Proof. revert v. induction u as [|a u IH]; intros [|b v] H; cbn in H; try discriminate; [reflexivity|]. injection H as -> H. rewrite (IH v H). reflexivity. Qed.
Lemma lower_coef p m : NoDup (keys p) -> coef (lower p) m = coef p (map S m).
Proof.
  intros _. unfold coef. enough (E : dget (lower p) m = dget p (map S m)) by (rewrite E; reflexivity).
  unfold lower. induction p as [|[k c] p IH]; [reflexivity|]. cbn [filter fst dget]. destruct (forallb _ k) eqn:Ek.
  - cbn [map dget fst snd]. rewrite IH. destruct (meqb_spec m (map pred k)) as [->|N].
    + rewrite (map_pred_S k Ek), meqb_refl. reflexivity.
    + destruct (meqb_spec (map S m) k) as [E|]; [|reflexivity]. exfalso. apply N. rewrite <- E, map_map. symmetry. apply map_id.
  - rewrite IH. destruct (meqb_spec (map S m) k) as [E|]; [|reflexivity]. exfalso. rewrite <- E in Ek.
    assert (T : forallb (fun e => Nat.ltb 0 e) (map S m) = true) by (apply forallb_forall; intros e He; apply in_map_iff in He; destruct He as (u & <- & _); reflexivity). congruence.
Qed.
Lemma lower_wf n p : wf n p -> wf n (lower p).
Proof.
  intros [N L]. split.
  - unfold keys in *. unfold lower. clear L. induction p as [|[k c] p IH]; [constructor|]. cbn [map fst] in N. apply NoDup_cons_iff in N. destruct N as [N1 N2]. cbn [filter fst].
    destruct (forallb _ k) eqn:Ek; [|exact (IH N2)]. cbn [map fst]. constructor; [|exact (IH N2)]. intro H. apply N1. rewrite <- (map_pred_S k Ek). exact (lower_keys p _ H).
  - intros m H. apply lower_keys, L in H. rewrite map_length in H. exact H.
Qed.
Lemma lower_bnd M p : bnd (S M) p -> bnd M (lower p).
Proof. intros H m e Hm He. apply lower_keys in Hm. specialize (H _ (S e) Hm (in_map S _ _ He)). lia. Qed.
Lemma meval_S n x m : length m = n -> meval x (map S m) = prodx n x * meval x m.
Proof.
  intros <-. revert x. induction m as [|e m IH]; intro x; [cbn; ring|]. cbn [map length]. rewrite !meval_cons, IH. unfold prodx. rewrite map_seq_S. cbn [fprod fpow]. ring.
Qed.
(** a polynomial all of whose monomials contain every variable *)
Lemma lower_val n p : wf n p -> (forall m, length m = n -> In 0%nat m -> coef p m = 0) -> forall x, peval x p = prodx n x * peval x (lower p).
Proof.
  intros [N L] Z x. unfold lower, peval. rewrite map_map. cbn [fst snd]. rewrite <- fsum_map_mul_l, fsum_filter. apply fsum_map_ext. intros t Ht.
  assert (Lt : length (fst t) = n) by (apply L, in_map, Ht).
  destruct (forallb _ (fst t)) eqn:E.
  - rewrite <- (map_pred_S _ E) at 1. rewrite (meval_S n) by (rewrite map_length; exact Lt). ring.
  - destruct t as [m c]. cbn [fst snd] in *. rewrite <- (coef_in K p m c N Ht). rewrite Z; [ring|exact Lt|].
    clear - E. induction m as [|e m IH]; [discriminate|]. cbn [forallb] in E. destruct e; [left; reflexivity|right; apply IH, E].
Qed.
Lemma slice0_val n p x : wf (S n) p -> peval (scons 0 x) p = peval x (slice K 0 p).
Proof.
  intros [_ L]. unfold peval, slice. rewrite map_map. cbn [fst snd]. rewrite fsum_filter. apply fsum_map_ext. intros t Ht.
  assert (Lt : length (fst t) = S n) by (apply L, in_map, Ht). destruct (fst t) as [|e m]; [discriminate|]. cbn [hd tl]. rewrite meval_cons. cbn [scons].
  change (meval (fun i => x i) m) with (meval x m). destruct e as [|e]; cbn [Nat.eqb fpow]; ring.
Qed.
Lemma slice_bnd n M p : wf (S n) p -> bnd M p -> bnd M (slice K 0 p).
Proof. intros [_ L] H m e Hm He. apply (slice_keys K n 0 p m L) in Hm. apply (H _ e Hm). right. exact He. Qed.

(** ** Symmetry *)
Lemma shift_perm n g : is_perm n g -> is_perm (S n) (0%nat :: map S g).
Proof. intro H. unfold is_perm. cbn [seq]. rewrite <- seq_shift. constructor. apply Permutation_map, H. Qed.
Lemma slice_sym n p : wf (S n) p -> symmetric (S n) p -> symmetric n (slice K 0 p).
Proof.
  intros W S0 g Hg x. rewrite <- !(slice0_val n) by exact W. rewrite <- (S0 _ (shift_perm n g Hg) (scons 0 x)).
  apply (Shared.peval_ext_len K (S n)); [exact W|]. intros [|i] Hi; [reflexivity|]. cbn [nth scons].
  rewrite (nth_indep (map S g) 0%nat (S 0)) by (rewrite map_length, (is_perm_length n g Hg); lia). rewrite map_nth. reflexivity.
Qed.
Lemma ecomp_sym n f : wf n f -> symmetric n (ecomp n f).
Proof.
  intros W g Hg x. rewrite !(proj2 (proj2 (ecomp_spec n 0 f))). apply (Shared.peval_ext_len K n); [exact W|]. intros i _. apply epoint_perm, Hg.
Qed.
Lemma sub_full n p f : wf n p -> wf n f -> wf n (padd p (pneg f)) /\ forall x, peval x (padd p (pneg f)) = peval x p - peval x f.
Proof.
  intros Wp Wf. destruct (pneg_spec K n f Wf) as (A & B & _). destruct (padd_full K n p (pneg f) Wp A) as (C & D & _). split; [exact C|]. intro x. rewrite D, B. ring.
Qed.
Lemma sub_sym n p f : wf n p -> wf n f -> symmetric n p -> symmetric n f -> symmetric n (padd p (pneg f)).
Proof. intros Wp Wf Sp Sf g Hg x. rewrite !(proj2 (sub_full n p f Wp Wf)), (Sp g Hg), (Sf g Hg). reflexivity. Qed.
Lemma act_map_S n g m : is_perm n g -> length m = n -> act 0%nat g (map S m) = map S (act 0%nat g m).
Proof.
  intros Hg Hm. unfold act. rewrite map_map. apply map_ext_in. intros i Hi. rewrite (nth_indep (map S m) 0%nat (S 0)) by (rewrite map_length, Hm; exact (is_perm_bound n g i Hg Hi)).
  apply map_nth.
Qed.
Lemma lower_sym n p : wf n p -> symmetric n p -> symmetric n (lower p).
Proof.
  intros W S0 g Hg. apply (rename_invariant_iff K n g (lower p) Hg (lower_wf n p W)). intros m Hm. rewrite !lower_coef by apply W.
  rewrite <- (act_map_S n g m Hg Hm). apply (proj1 (rename_invariant_iff K n g p Hg W) (S0 g Hg)). rewrite map_length. exact Hm.
Qed.
(** a symmetric polynomial that vanishes where the first variable does has no monomial without some variable *)
Lemma sym_vanish n p : wf (S n) p -> symmetric (S n) p -> (forall x, peval (scons 0 x) p = 0) -> forall m, length m = S n -> In 0%nat m -> coef p m = 0.
Proof.
  intros W S0 Z.
  assert (H0 : forall m, coef p (0%nat :: m) = 0).
  { intro m. rewrite <- (slice_coef K n 0 p m (proj2 W)). apply (peval_zero K n); [apply slice_wf, W|]. intro x. rewrite <- (slice0_val n p x W). apply Z. }
  intros m Hm Hin. destruct (In_nth _ _ 0%nat Hin) as (i & Hi & Ei). rewrite Hm in Hi.
  assert (Is : In i (seq 0 (S n))) by (apply in_seq; lia). destruct (in_split _ _ Is) as (l1 & l2 & El).
  assert (Hg : is_perm (S n) (i :: l1 ++ l2)) by (unfold is_perm; rewrite El; apply Permutation_middle).
  rewrite <- (proj1 (rename_invariant_iff K (S n) _ p Hg W) (S0 _ Hg) m Hm). unfold act. cbn [map]. rewrite Ei. apply H0.
Qed.

(** ** The reduction *)
Lemma symz_spec n : forall fuel p, wf n p -> bnd fuel p -> symmetric n p ->
  wf n (symz n fuel p) /\ tdeg fuel (symz n fuel p) /\ forall x, peval x p = peval (epoint n x) (symz n fuel p).
Proof.
  induction n as [|n IHn].
  - intros fuel p W B S0. cbn [symz]. split; [exact W|]. split.
    + intros m Hm. rewrite (proj1 (length_zero_iff_nil m) (proj2 W m Hm)). cbn. lia.
    + intro x. apply (Shared.peval_ext_len K 0); [exact W|]. intros i Hi. lia.
  - induction fuel as [|fuel IHf]; intros p W B S0.
    + destruct (IHn 0%nat (slice K 0 p) (slice_wf K n 0 p W) (slice_bnd n 0 p W B) (slice_sym n p W S0)) as (A1 & A2 & A3).
      destruct (lift_spec n _ A1) as (L1 & L2 & L3). change (symz (S n) 0 p) with (lift (symz n 0 (slice K 0 p))).
      split; [exact L1|]. split; [apply L3, A2|]. intro x. rewrite L2.
      assert (E : forall y : nat -> K, peval y p = peval (scons 0 (fun i => y (S i))) p).
      { intro y. unfold peval. apply fsum_map_ext. intros t Ht. f_equal.
        assert (Zr : forall m, (forall e, In e m -> e = 0%nat) -> forall y y' : nat -> K, meval y m = meval y' m).
        { clear. induction m as [|e m IH]; intros H y y'; [reflexivity|]. rewrite !meval_cons, (H e (or_introl eq_refl)). cbn [fpow]. f_equal. apply IH. intros u Hu. apply H. right. exact Hu. }
        apply Zr. intros e He. specialize (B _ e (in_map fst _ _ Ht) He). lia. }
      rewrite E, (slice0_val n) by exact W. rewrite A3.
      (* both sides are constants *)
      assert (C : forall y y' : nat -> K, peval y (symz n 0 (slice K 0 p)) = peval y' (symz n 0 (slice K 0 p))).
      { intros y y'. unfold peval. apply fsum_map_ext. intros t Ht. f_equal. specialize (A2 _ (in_map fst _ _ Ht)).
        revert A2 y y'. clear. generalize (fst t). induction l as [|e l IH]; intros H y y'; [reflexivity|]. change (list_sum (e :: l)) with (e + list_sum l)%nat in H. rewrite !meval_cons. replace e with 0%nat by lia. cbn [fpow]. f_equal. apply IH. lia. }
      apply C.
    + pose proof (slice_wf K n 0 p W) as Ws.
      destruct (IHn (S fuel) (slice K 0 p) Ws (slice_bnd n (S fuel) p W B) (slice_sym n p W S0)) as (A1 & A2 & A3).
      destruct (lift_spec n _ A1) as (L1 & L2 & L3). set (f0 := lift (symz n (S fuel) (slice K 0 p))) in *.
      assert (E : symz (S n) (S fuel) p = padd f0 (raise (symz (S n) fuel (lower (padd p (pneg (ecomp (S n) f0))))))) by reflexivity.
      destruct (ecomp_spec (S n) (S fuel) f0) as (C1 & C2 & C3). specialize (C1 (L3 _ A2)).
      destruct (sub_full (S n) p (ecomp (S n) f0) W C2) as (D1 & D2). set (p1 := padd p (pneg (ecomp (S n) f0))) in *.
      pose proof (sub_sym (S n) p _ W C2 S0 (ecomp_sym (S n) f0 L1)) as D3. fold p1 in D3.
      assert (D4 : bnd (S fuel) p1) by (apply padd_bnd; [exact B|]; intros m e; unfold keys, pneg; rewrite map_map; apply C1).
      assert (Z : forall x, peval (scons 0 x) p1 = 0).
      { intro x. rewrite D2, C3, L2, (slice0_val n p x W), A3.
        rewrite (Shared.peval_ext_len K n _ (epoint (S n) (scons 0 x)) (epoint n x) A1); [ring|]. intros i _. apply epoint_0. }
      pose proof (lower_val (S n) p1 D1 (sym_vanish n p1 D1 D3 Z)) as V.
      destruct (IHf (lower p1) (lower_wf _ _ D1) (lower_bnd _ _ D4) (lower_sym _ _ D1 D3)) as (R1 & R2 & R3).
      destruct (raise_spec n _ R1) as (T1 & T2 & T3). destruct (padd_full K (S n) _ _ L1 T1) as (U1 & U2 & _). rewrite E. split; [exact U1|]. split.
      * apply padd_tdeg; [apply L3, A2|apply T3, R2].
      * intro x. rewrite U2, T2, <- R3, epoint_last, <- V, D2, C3. ring.
Qed.
Lemma maxexp_bnd p : bnd (maxexp p) p.
Proof.
  intros m e Hm He. unfold keys in Hm. apply in_map_iff in Hm. destruct Hm as (t & <- & Ht). induction p as [|u p IH]; [destruct Ht|]. unfold maxexp. cbn [fold_right]. fold (maxexp p).
  destruct Ht as [->|Ht]; [|specialize (IH Ht); lia]. assert ((e <= list_max (fst t))%nat); [|lia].
  assert (X := proj1 (list_max_le (fst t) (list_max (fst t))) (le_n _)). rewrite Forall_forall in X. apply X, He.
Qed.
(** every polynomial keeps its reduction well formed *)
Lemma symz_wf n : forall fuel p, wf n p -> wf n (symz n fuel p).
Proof.
  induction n as [|n IHn]; [intros fuel p W; exact W|]. induction fuel as [|fuel IHf]; intros p W; pose proof (IHn 0%nat _ (slice_wf K n 0 p W)) as A0.
  - exact (proj1 (lift_spec n _ A0)).
  - destruct (lift_spec n _ (IHn (S fuel) _ (slice_wf K n 0 p W))) as (L1 & _). set (f0 := lift (symz n (S fuel) (slice K 0 p))) in *.
    change (symz (S n) (S fuel) p) with (padd f0 (raise (symz (S n) fuel (lower (padd p (pneg (ecomp (S n) f0))))))).
    destruct (sub_full (S n) p _ W (proj1 (proj2 (ecomp_spec (S n) 0 f0)))) as (D1 & _).
    destruct (raise_spec n _ (IHf _ (lower_wf _ _ D1))) as (T1 & _). exact (proj1 (padd_full K (S n) _ _ L1 T1)).
Qed.
Lemma symmetrize_ref_ok n : symmetrize_ok (symmetrize_ref (K := K)) n.
Proof.
  intros p W. unfold symmetrize_ref. cbn [fst snd]. pose proof (symz_wf n (maxexp p) p W) as F. destruct (ecomp_spec n 0 (symz n (maxexp p) p)) as (_ & C2 & C3).
  destruct (sub_full n p _ W C2) as (D1 & D2). split; [exact F|]. split; [exact D1|]. split.
  - intro x. rewrite D2, C3. ring.
  - intros S0 x. rewrite D2, C3. rewrite <- (proj2 (proj2 (symz_spec n (maxexp p) p W (maxexp_bnd p) S0))). ring.
Qed.

(** ** Uniqueness: the elementary symmetric polynomials are independent *)
End Facts.
