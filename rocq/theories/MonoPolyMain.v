(** * A shift meeting its contract, and runs of rpa_polyopt *)
From Coq Require Import Bool List Arith Lia Ring Field ZArith QArith Qcanon.
From Verif Require Import OrdField Base Perm Poly PolyOps MonoOpt MonoOptFacts MonoPoly MonoPolyFacts.
Import ListNotations.

Section Shift.
Variable K : OrdField.
Local Open Scope of_scope.
Add Field Kf : (F_field K).

(** The terms of [(X + s)^e], not collected. *)
Fixpoint pw (s : K) (e : nat) : list (nat * K) :=
  match e with
  | O => [(0%nat, 1)]
  | S e' => flat_map (fun t => [(S (fst t), snd t); (fst t, s * snd t)]) (pw s e')
  end.
(** One monomial, shifted. *)
Fixpoint shift_mono (m : list nat) (s : list K) : poly K :=
  match m with
  | [] => [([], 1)]
  | e :: m' =>
      flat_map (fun t => map (fun u => (fst t :: fst u, snd t * snd u)) (shift_mono m' (tl s)))
        (pw (vget0 s 0) e)
  end.
(** A simple shift (terms with equal monomials are not collected). *)
Definition shift1 (p : poly K) (s : list K) : poly K :=
  flat_map (fun t => map (fun u => (fst u, snd t * snd u)) (shift_mono (fst t) s)) p.

Lemma pw_eval (s X : K) e : fsum (map (fun t => snd t * X ^ fst t) (pw s e)) = (X + s) ^ e.
Proof.
  induction e as [|e IH]; [cbn; ring|]. cbn [pw fpow]. rewrite <- IH. clear IH.
  induction (pw s e) as [|t l IH]; [cbn; ring|]. cbn [flat_map app map fsum fst snd fpow]. rewrite IH. ring.
Qed.
Lemma shift_mono_eval m : forall s (x : nat -> K),
  peval x (shift_mono m s) = meval (fun i => x i + vget0 s i) m.
Proof.
  induction m as [|e m IH]; intros s x.
  - unfold peval. cbn. unfold meval. cbn. ring.
  - cbn [shift_mono]. rewrite meval_cons, <- pw_eval.
    assert (E : meval (fun i => x (S i) + vget0 s (S i)) m = peval (fun i => x (S i)) (shift_mono m (tl s))).
    { rewrite IH. unfold meval. apply fprod_map_ext. intros i _. destruct s as [|v s]; unfold vget0; cbn [tl nth]; [destruct i|]; reflexivity. }
    rewrite E. clear E IH. generalize (shift_mono m (tl s)). intro q.
    induction (pw (vget0 s 0) e) as [|t l IHl]; [cbn [flat_map map fsum]; rewrite peval_nil; ring|].
    cbn [flat_map]. rewrite peval_app, IHl. cbn [map fsum].
    assert (Q : peval x (map (fun u => (fst t :: fst u, snd t * snd u)) q) = snd t * x 0%nat ^ fst t * peval (fun i => x (S i)) q).
    { clear. induction q as [|[m c] q IH]; [cbn [map]; rewrite !peval_nil; ring|]. cbn [map fst snd]. rewrite !peval_cons, IH, meval_cons. ring. }
    rewrite Q. ring.
Qed.
Lemma scale_eval (x : nat -> K) (c : K) (q : poly K) :
  peval x (map (fun u => (fst u, c * snd u)) q) = c * peval x q.
Proof.
  induction q as [|[m' c'] q IHq]; [cbn [map]; rewrite !peval_nil; ring|].
  cbn [map fst snd]. rewrite !peval_cons, IHq. ring.
Qed.
Lemma shift1_ok : shift_ok K shift1.
Proof.
  intros p s x L. unfold pat, shift1.
  assert (V : forall m, meval (fun i => vget0 x i + vget0 s i) m = meval (fun i => vget0 (vadd K x s) i) m).
  { intro m. unfold meval. apply fprod_map_ext. intros i _. rewrite vadd_get by exact L. reflexivity. }
  induction p as [|[m c] p IH]; [reflexivity|]. cbn [flat_map fst snd]. rewrite peval_app, IH, peval_cons. f_equal.
  rewrite <- V, <- shift_mono_eval. apply scale_eval.
Qed.

(** A constraint without the first generator is ignored if its leading coefficient is not
    negative, and ends the search if it is negative. *)
Lemma skip_constraint sup_fg sup_h (rtol tol : K) choose max_iter shift n f p ineqs eqs a b eqtol cbv :
  deg0 p = 0%nat -> 0 <= lead p ->
  rpa_polyopt sup_fg sup_h rtol tol choose max_iter shift n f (p :: ineqs) eqs a b eqtol cbv =
  rpa_polyopt sup_fg sup_h rtol tol choose max_iter shift n f ineqs eqs a b eqtol cbv.
Proof.
  intros D H. unfold rpa_polyopt, all_ineqs. cbn [app collect]. rewrite D. cbn [Nat.eqb].
  rewrite (proj2 (fltb_ge K _ _) H). reflexivity.
Qed.
Lemma stop_constraint sup_fg sup_h (rtol tol : K) choose max_iter shift n f p ineqs eqs a b eqtol cbv :
  deg0 p = 0%nat -> lead p < 0 ->
  rpa_polyopt sup_fg sup_h rtol tol choose max_iter shift n f (p :: ineqs) eqs a b eqtol cbv =
  Ok (Res None None 1 true a b false).
Proof.
  intros D H. unfold rpa_polyopt, all_ineqs. cbn [app collect]. rewrite D. cbn [Nat.eqb].
  rewrite (proj2 (fltb_lt K _ _) H). reflexivity.
Qed.
Definition y_ge_1 : poly K := [([0; 1]%nat, 1); ([0; 0]%nat, - (1))].
Definition y_le_1 : poly K := [([0; 1]%nat, - (1)); ([0; 0]%nat, 1)].
Lemma y_ge_1_pat u v : pat y_ge_1 [u; v] = v - 1.
Proof. unfold pat, y_ge_1, peval, meval, vget0. cbn. ring. Qed.
Lemma y_le_1_pat u v : pat y_le_1 [u; v] = 1 - v.
Proof. unfold pat, y_le_1, peval, meval, vget0. cbn. ring. Qed.
Lemma y_ge_1_skipped sup_fg sup_h (rtol tol : K) choose max_iter shift n f ineqs eqs a b eqtol cbv :
  rpa_polyopt sup_fg sup_h rtol tol choose max_iter shift n f (y_ge_1 :: ineqs) eqs a b eqtol cbv =
  rpa_polyopt sup_fg sup_h rtol tol choose max_iter shift n f ineqs eqs a b eqtol cbv.
Proof. apply skip_constraint; [reflexivity|apply f1_nonneg]. Qed.
Lemma neg1_neg : - (1) < (0 : K).
Proof. apply flt_sub. replace (0 - - (1)) with (1 : K) by ring. apply f1_pos. Qed.
Lemma y_le_1_stops sup_fg sup_h (rtol tol : K) choose max_iter shift n f ineqs eqs a b eqtol cbv :
  rpa_polyopt sup_fg sup_h rtol tol choose max_iter shift n f (y_le_1 :: ineqs) eqs a b eqtol cbv =
  Ok (Res None None 1 true a b false).
Proof. apply stop_constraint; [reflexivity|apply neg1_neg]. Qed.

(** Runs in one variable with a solver that always answers 1. *)
Definition one_fg (c : option K) (a z : list K) : res K := Ok 1.
Definition one_h (b z : list K) : res K := Ok 1.
Definition px (k c : K) : poly K := [([1%nat], k); ([0%nat], c)].
Lemma px_pat k c u : pat (px k c) [u] = k * u + c.
Proof. unfold pat, px, peval, meval, vget0. cbn. ring. Qed.
Definition pxx : poly K := [([2%nat], 1)].
Lemma pxx_pat u : pat pxx [u] = u * u.
Proof. unfold pat, pxx, peval, meval, vget0. cbn. ring. Qed.

(** Without constraints and with [f2 = 0] this solver meets the contract. *)
Lemma one_solver_ok n (f1 f2 : fn K) a b : length a = n -> length b = n -> (forall x, f2 x = 0) ->
  solver_ok K (bigF n f1) (bigG n []) (bigH n f2 []) one_fg one_h 0 (low f2 [] a b) (high f2 [] a b).
Proof.
  intros La Lb Z.
  assert (S0 : forall al, Ok (1 : K) = Ok al -> 0 <= al /\ al <= 1).
  { intros al E. apply Ok_inj in E. subst al. split; [apply f1_nonneg|apply fle_refl]. }
  split; [intros c p z al E; exact (S0 al E)|]. split; [intros p z al E; exact (S0 al E)|]. split; [|split].
  - intros p z al (Lp & Ap & Bp) (Lz & Az & Bz) E. apply Ok_inj in E. subst al.
    assert (Lpz : length p = length z) by congruence.
    assert (G : forall i, vget0 (seg p 1 z) i = vget0 z i) by (intro i; rewrite seg_get by exact Lpz; ring).
    assert (Zt : vget0 z n = 0 /\ vget0 z (S n) = 0).
    { subst n. unfold low, high in *. split.
      - apply (fle_antisym K).
        + pose proof (Bz (length a)) as Q. rewrite <- Lb in Q. rewrite vget_lift_s in Q. rewrite Lb in Q. cbn in Q.
          replace (- (0)) with (0 : K) in Q by ring. exact Q.
        + pose proof (Az (length a)) as Q. rewrite vget_lift_s in Q. cbn in Q. replace (- (0)) with (0 : K) in Q by ring. exact Q.
      - apply (fle_antisym K).
        + pose proof (Bz (S (length a))) as Q. rewrite <- Lb in Q. rewrite vget_lift_t in Q. rewrite Lb in Q. rewrite Z in Q.
          replace (- (0)) with (0 : K) in Q by ring. exact Q.
        + pose proof (Az (S (length a))) as Q. rewrite vget_lift_t in Q. rewrite Z in Q. replace (- (0)) with (0 : K) in Q by ring. exact Q. }
    destruct Zt as [Z1 Z2]. unfold bigH. rewrite Z, !G, Z1, Z2. cbn [hsum map fsum]. replace (0 + 0) with (0 : K) by ring.
    replace (- (0)) with (0 : K) by ring. apply fmin_ge. split; apply fle_refl.
  - intros c p z al _ _ _ _ E be _ B _. apply Ok_inj in E. subst al. exact B.
  - intros p z al _ _ _ _ E be _ B _. apply Ok_inj in E. subst al. exact B.
Qed.
End Shift.

(** Minimise [x] with [x - 2 >= 0] and [1 - x >= 0]. *)
Definition empty_run : res (result QcOF) :=
  rpa_polyopt (one_fg QcOF) (one_h QcOF) (1 / fnat 1000)%F (1 / fnat 10)%F (fun _ => O) 10 (shift1 QcOF) 1
    (px QcOF 1 0)%F [px QcOF 1 (- (1 + 1)); px QcOF (- (1)) 1]%F [] [(- fnat 10)%F] [(fnat 10)%F] 0%F None.
Lemma empty_checks :
  match empty_run with
  | Ok r => r_conv r && match r_x r with Some [u] => feqb u (1 + 1)%F | _ => false end
  | Err _ => false
  end = true.
Proof. vm_compute. reflexivity. Qed.
Lemma empty_run_answers : exists r, empty_run = Ok r /\ r_conv r = true /\ r_x r = Some [(1 + 1)%F : QcOF].
Proof.
  pose proof empty_checks as C. destruct empty_run as [r|e]; [|discriminate C]. exists r. split; [reflexivity|].
  apply andb_true_iff in C. destruct C as [C1 C2]. split; [exact C1|].
  destruct (r_x r) as [[|u [|v l]]|]; try discriminate C2. apply feqb_eq in C2. rewrite C2. reflexivity.
Qed.
