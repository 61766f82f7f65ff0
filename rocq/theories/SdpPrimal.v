(** * Transformations of primal SDP problems (triples/sdp/transform.py, triples/sdp/primal.py) *)
From Coq Require Import Bool List Arith Lia Ring Field.
From Verif Require Import OrdField Base Congruence LinSolve SdpTransform.
Import ListNotations.

Section Model.
Context {K : OrdField}.
Local Open Scope of_scope.

(** [SDPPrimal] (primal.py:13-44): [Sum_b <space_b[e], vec S_b> = x0[e]] with
    [S_b] positive semidefinite.  Sizes of the blocks in key order; one
    equation is one row of every [space] together with the entry of [x0]. *)
Definition peq := ((nat -> nat -> K) * K)%type.
Record primal := PR { psz : list nat; peqs : list peq }.
Definition size (P : primal) (b : nat) : nat := nth b (psz P) 0%nat.

(** [_get_zero_diagonals] of a primal problem (transform.py:868-916).  The set
    of pairs (key, row) is a list; [order] is the order in which python
    enumerates the set [zero_eqs]. *)
Definition isz (zs : list (nat * nat)) (b i : nat) : bool := existsb (fun p => ((fst p =? b) && (snd p =? i))%nat) zs.
Definition rows_of (P : primal) (zs : list (nat * nat)) : list (nat * nat) :=
  filter (fun p => negb (isz zs (fst p) (snd p)))
    (flat_map (fun b => map (fun i => (b, i)) (seq 0 (size P b))) (seq 0 (length (psz P)))).
(** a nonzero entry strictly below the diagonal in the remaining rows *)
Definition off_diag (P : primal) (zs : list (nat * nat)) (e : peq) : bool :=
  existsb (fun p => existsb (fun j => negb (isz zs (fst p) j) && negb (fst e (fst p) (snd p * size P (fst p) + j)%nat =? 0)) (seq 0 (snd p)))
          (rows_of P zs).
Definition new_zeros (P : primal) (zs : list (nat * nat)) (e : peq) : list (nat * nat) :=
  if off_diag P zs e then []
  else if existsb (fun p => fst e (fst p) (snd p * size P (fst p) + snd p)%nat <? 0) (rows_of P zs) then []
  else filter (fun p => negb (fst e (fst p) (snd p * size P (fst p) + snd p)%nat =? 0)) (rows_of P zs).
(** the inner loop: the first equation that gives new rows, removed from the set *)
Fixpoint find_eq (P : primal) (zs : list (nat * nat)) (done eqs : list peq) : option (list (nat * nat) * list peq) :=
  match eqs with
  | [] => None
  | e :: eqs' =>
      match new_zeros P zs e with
      | [] => find_eq P zs (done ++ [e]) eqs'
      | nz => Some (nz, done ++ eqs')
      end
  end.
Fixpoint zeros_loop (fuel : nat) (P : primal) (zs : list (nat * nat)) (eqs : list peq) : list (nat * nat) :=
  match fuel with
  | O => zs
  | S fuel' =>
      match find_eq P zs [] eqs with
      | None => zs
      | Some (nz, eqs') => zeros_loop fuel' P (zs ++ nz) eqs'
      end
  end.
Definition primal_zero_diagonals (order : list peq -> list peq) (P : primal) : list (nat * nat) :=
  let zero_eqs := order (filter (fun e => snd e =? 0) (peqs P)) in
  zeros_loop (S (length zero_eqs)) P [] zero_eqs.

(** PrimalRowMasking (transform.py:401-458) *)
Definition mask_of (zs : list (nat * nat)) (b : nat) : list nat := map snd (filter (fun p => (fst p =? b)%nat) zs).
Definition um (P : primal) (zs : list (nat * nat)) (b : nat) : list nat := unmask (size P b) (mask_of zs b).
Definition mask_primal (P : primal) (zs : list (nat * nat)) : primal :=
  PR (map (fun b => length (um P zs b)) (seq 0 (length (psz P))))
     (map (fun e => (fun b x => let r := length (um P zs b) in
                        fst e b (nth (x / r) (um P zs b) 0 * size P b + nth (x mod r) (um P zs b) 0)%nat, snd e)) (peqs P)).
Fixpoint pos (i : nat) (l : list nat) : option nat :=
  match l with
  | [] => None
  | k :: l' => if (i =? k)%nat then Some 0%nat else option_map S (pos i l')
  end.
(** [propagate_to_parent]: the matrix, and its decomposition [U' diag(s) U] *)
Definition pad (P : primal) (zs : list (nat * nat)) (C : nat -> nat -> nat -> K) (b i j : nat) : K :=
  match pos i (um P zs b), pos j (um P zs b) with Some a, Some c => C b a c | _, _ => 0 end.
Definition pad_cols (P : primal) (zs : list (nat * nat)) (U : nat -> nat -> nat -> K) (b k i : nat) : K :=
  match pos i (um P zs b) with Some a => U b k a | None => 0 end.

(** [constrain_zero_diagonals] with [recursive = True] (transform.py:333-347) *)
Fixpoint primal_constrain_zero (fuel : nat) (order : list peq -> list peq) (P : primal) : list (primal * list (nat * nat)) * primal :=
  match fuel with
  | O => ([], P)
  | S fuel' =>
      match primal_zero_diagonals order P with
      | [] => ([], P)
      | zs => let r := primal_constrain_zero fuel' order (mask_primal P zs) in ((P, zs) :: fst r, snd r)
      end
  end.
Fixpoint pad_all (ts : list (primal * list (nat * nat))) (C : nat -> nat -> nat -> K) : nat -> nat -> nat -> K :=
  match ts with [] => C | (P, zs) :: ts' => pad P zs (pad_all ts' C) end.

(** PrimalMatrixTransform with [nullspace] (transform.py:237-288); the given
    nullspaces in key order, one for every key *)
Definition null_row (b m : nat) (V : fmat K) (c j : nat) : peq :=
  (fun b' e => if (b' =? b)%nat then bsum m (fun k => (if (e =? j * m + k)%nat then fent V k c else 0) + (if (e =? k * m + j)%nat then fent V k c else 0)) else 0, 0).
Definition zero_col (V : fmat K) (c : nat) : bool := negb (existsb (fun k => negb (fent V k c =? 0)) (seq 0 (frows V))).
Definition null_rows (b : nat) (V : fmat K) : list peq :=
  flat_map (fun c => if zero_col V c then [] else map (null_row b (frows V) V c) (seq 0 (frows V))) (seq 0 (fcols V)).
Definition primal_nullspace (P : primal) (Vs : list (fmat K)) : primal :=
  PR (psz P) (peqs P ++ flat_map (fun b => null_rows b (nth b Vs (FM 0 0 (fun _ _ => 0)))) (seq 0 (length Vs))).

(** [constrain_symmetry] of a primal problem (transform.py:854-866), in place *)
Definition primal_symmetrize (P : primal) : primal :=
  PR (psz P) (map (fun e => (fun b x => let m := size P b in
     let i := (x / m)%nat in let j := (x mod m)%nat in
     if (i =? j)%nat then fst e b x
     else (fst e b (i * m + j)%nat + fst e b (j * m + i)%nat) / (1 + 1), snd e)) (peqs P)).
End Model.
Arguments primal : clear implicits.

(** ** Specification *)
Section Spec.
Context {K : OrdField}.
Local Open Scope of_scope.
Definition holds (sizes : list nat) (e : (nat -> nat -> K) * K) (M : nat -> nat -> nat -> K) : Prop :=
  bsum (length sizes) (fun b => let m := nth b sizes 0%nat in bsum m (fun i => bsum m (fun j => fst e b (i * m + j)%nat * M b i j))) = snd e.
Definition sym_blocks (sizes : list nat) (M : nat -> nat -> nat -> K) : Prop :=
  forall b, (b < length sizes)%nat -> let m := nth b sizes 0%nat in symmetric m (mtab m m (M b)).
Definition psd_blocks (sizes : list nat) (M : nat -> nat -> nat -> K) : Prop :=
  forall b, (b < length sizes)%nat -> let m := nth b sizes 0%nat in psd m (mtab m m (M b)).
(** symmetric positive semidefinite matrices satisfying every equation *)
Definition feasible (P : primal K) (M : nat -> nat -> nat -> K) : Prop :=
  sym_blocks (psz P) M /\ psd_blocks (psz P) M /\ forall e, In e (peqs P) -> holds (psz P) e M.
Definition same_blocks (sizes : list nat) (M M' : nat -> nat -> nat -> K) : Prop :=
  forall b i j, (b < length sizes)%nat -> (i < nth b sizes 0)%nat -> (j < nth b sizes 0)%nat -> M b i j = M' b i j.
(** every [space] is symmetric *)
Definition sym_space (P : primal K) : Prop :=
  forall e, In e (peqs P) -> forall b i j, (b < length (psz P))%nat -> (i < size P b)%nat -> (j < size P b)%nat ->
    fst e b (i * size P b + j)%nat = fst e b (j * size P b + i)%nat.
End Spec.

Section Proofs.
Variable K : OrdField.
Local Open Scope of_scope.
Add Field Kf : (F_field K).
Implicit Types (P : primal K) (M C : nat -> nat -> nat -> K) (e : @peq K) (zs : list (nat * nat)).

Lemma isz_In zs b i : isz zs b i = true <-> In (b, i) zs.
Proof.
  unfold isz. rewrite existsb_exists. split.
  - intros ([b' i'] & H & E). cbn in E. apply andb_true_iff in E. destruct E as [E1 E2]. apply Nat.eqb_eq in E1, E2. subst. exact H.
  - intro H. exists (b, i). split; [exact H|]. cbn. rewrite !Nat.eqb_refl. reflexivity.
Qed.
Lemma rows_of_In P zs b i : In (b, i) (rows_of P zs) <-> (b < length (psz P))%nat /\ (i < size P b)%nat /\ ~ In (b, i) zs.
Proof.
  unfold rows_of. rewrite filter_In, in_flat_map, negb_true_iff, <- not_true_iff_false. cbn [fst snd]. rewrite isz_In. split.
  - intros ((b' & Hb & H) & N). apply in_map_iff in H. destruct H as (i' & E & Hi). injection E as -> ->. apply in_seq in Hb, Hi. repeat split; try lia. exact N.
  - intros (H1 & H2 & H3). split; [|exact H3]. exists b. split; [apply in_seq; lia|]. apply in_map_iff. exists i. split; [reflexivity|apply in_seq; lia].
Qed.
Lemma off_diag_spec P zs e : off_diag P zs e = false <->
  forall b i j, (b < length (psz P))%nat -> (i < size P b)%nat -> (j < i)%nat -> ~ In (b, i) zs -> ~ In (b, j) zs -> fst e b (i * size P b + j)%nat = 0.
Proof.
  unfold off_diag. rewrite <- not_true_iff_false, existsb_exists. split.
  - intros H b i j Hb Hi Hj Ni Nj. destruct (feq_dec K (fst e b (i * size P b + j)%nat) 0) as [E|E]; [exact E|]. exfalso. apply H.
    exists (b, i). split; [apply rows_of_In; auto|]. apply existsb_exists. exists j. split; [cbn [snd]; apply in_seq; lia|]. cbn [fst snd]. apply andb_true_iff. split.
    + apply negb_true_iff. rewrite <- not_true_iff_false, isz_In. exact Nj.
    + apply negb_true_iff. rewrite <- not_true_iff_false, (feqb_eq K). exact E.
  - intros H ([b i] & Hr & HE). apply rows_of_In in Hr. destruct Hr as (Hb & Hi & Ni). apply existsb_exists in HE. destruct HE as (j & Hj & HE). apply in_seq in Hj. cbn [fst snd] in *.
    rewrite andb_true_iff, !negb_true_iff, <- !not_true_iff_false, isz_In, (feqb_eq K) in HE. destruct HE as [Nj HE]. apply HE. apply H; auto. lia.
Qed.
Lemma new_zeros_In P zs e b i : In (b, i) (new_zeros P zs e) <->
  off_diag P zs e = false /\ (forall b' i', In (b', i') (rows_of P zs) -> 0 <= fst e b' (i' * size P b' + i')%nat) /\
  In (b, i) (rows_of P zs) /\ fst e b (i * size P b + i)%nat <> 0.
Proof.
  unfold new_zeros. destruct (off_diag P zs e); [split; [intros []|intros (Q & _); discriminate]|].
  destruct (existsb _ (rows_of P zs)) eqn:E.
  - split; [intros []|]. intros (_ & H & _). apply existsb_exists in E. destruct E as ([b' i'] & Hr & E). cbn [fst snd] in E.
    specialize (H b' i' Hr). exfalso. rewrite (proj2 (fltb_ge K _ _) H) in E. discriminate.
  - rewrite filter_In, negb_true_iff, <- not_true_iff_false, (feqb_eq K). cbn [fst snd]. split.
    + intros [H1 H2]. split; [reflexivity|]. split; [|auto]. intros b' i' Hr. apply (fltb_ge K).
      rewrite <- not_true_iff_false in E. apply not_true_iff_false. intro Q. apply E. apply existsb_exists. exists (b', i'). auto.
    + tauto.
Qed.

Lemma symM sizes M b i j : sym_blocks sizes M -> (b < length sizes)%nat -> (i < nth b sizes 0)%nat -> (j < nth b sizes 0)%nat -> M b i j = M b j i.
Proof. intros H Hb Hi Hj. specialize (H b Hb i j Hi Hj). rewrite !mget_mtab in H by assumption. exact H. Qed.
Lemma psd_diag sizes M b i : psd_blocks sizes M -> (b < length sizes)%nat -> (i < nth b sizes 0)%nat -> 0 <= M b i i.
Proof.
  intros H Hb Hi. specialize (H b Hb). cbv zeta in H. rewrite <- (mget_mtab K (nth b sizes 0%nat) (nth b sizes 0%nat) (M b) i i Hi Hi).
  rewrite <- (qform_unit K _ _ i Hi). apply H.
Qed.
Lemma psd_row sizes M b i j : sym_blocks sizes M -> psd_blocks sizes M -> (b < length sizes)%nat -> (i < nth b sizes 0)%nat -> (j < nth b sizes 0)%nat -> M b i i = 0 -> M b i j = 0.
Proof.
  intros HS HP Hb Hi Hj Z. specialize (HP b Hb). specialize (HS b Hb). cbv zeta in *.
  rewrite <- (mget_mtab K (nth b sizes 0%nat) (nth b sizes 0%nat) (M b) i j Hi Hj).
  apply (psd_zero_diag K (nth b sizes 0%nat)); auto. rewrite mget_mtab by assumption. exact Z.
Qed.

(** rows known to vanish in every feasible solution *)
Definition vanish P zs M : Prop := forall b i, In (b, i) zs -> (b < length (psz P))%nat /\ (i < size P b)%nat /\ forall j, (j < size P b)%nat -> M b i j = 0.
Lemma new_zeros_sound P zs e M : sym_space P -> feasible P M -> In e (peqs P) -> snd e = 0 -> vanish P zs M -> vanish P (new_zeros P zs e) M.
Proof.
  intros SS (HS & HP & HE) He E0 V b i Hin. apply new_zeros_In in Hin. destruct Hin as (OD & NN & Hr & NZ).
  rewrite off_diag_spec in OD. pose proof (proj1 (rows_of_In P zs b i) Hr) as (Hb & Hi & Ni). split; [exact Hb|]. split; [exact Hi|].
  intros j Hj. apply (psd_row (psz P)); auto.
  specialize (HE e He). unfold holds in HE. rewrite E0 in HE.
  assert (T : forall b' i' j', (b' < length (psz P))%nat -> (i' < size P b')%nat -> (j' < size P b')%nat -> i' <> j' -> fst e b' (i' * size P b' + j')%nat * M b' i' j' = 0).
  { intros b' i' j' B I J N.
    destruct (isz zs b' i') eqn:Z1; [apply isz_In in Z1; destruct (V b' i' Z1) as (_ & _ & W); rewrite (W j' J); ring|].
    destruct (isz zs b' j') eqn:Z2; [apply isz_In in Z2; destruct (V b' j' Z2) as (_ & _ & W); rewrite (symM (psz P) M b' i' j' HS B I J), (W i' I); ring|].
    assert (N1 : ~ In (b', i') zs) by (rewrite <- isz_In, Z1; discriminate). assert (N2 : ~ In (b', j') zs) by (rewrite <- isz_In, Z2; discriminate).
    destruct (Nat.lt_trichotomy i' j') as [L|[L|L]]; [|contradiction|].
    - rewrite (SS e He b' i' j' B I J), (OD b' j' i' B J L N2 N1). ring.
    - rewrite (OD b' i' j' B I L N1 N2). ring. }
  assert (D : forall b' i', (b' < length (psz P))%nat -> (i' < size P b')%nat ->
     bsum (size P b') (fun j' => fst e b' (i' * size P b' + j')%nat * M b' i' j') = fst e b' (i' * size P b' + i')%nat * M b' i' i').
  { intros b' i' B I. apply (bsum_single _ _ i'); [exact I|]. intros j' J N. apply T; auto. }
  assert (NNG : forall b' i', (b' < length (psz P))%nat -> (i' < size P b')%nat -> 0 <= fst e b' (i' * size P b' + i')%nat * M b' i' i').
  { intros b' i' B I. destruct (isz zs b' i') eqn:Z1.
    - apply isz_In in Z1. destruct (V b' i' Z1) as (_ & _ & W). rewrite (W i' I). replace (fst e b' (i' * size P b' + i')%nat * 0) with (0 : K) by ring. apply (fle_refl K).
    - apply fmul_nonneg; [|apply (psd_diag (psz P)); auto]. apply NN. apply rows_of_In. split; [exact B|]. split; [exact I|]. rewrite <- isz_In, Z1. discriminate. }
  assert (Q : bsum (length (psz P)) (fun b' => bsum (size P b') (fun i' => fst e b' (i' * size P b' + i')%nat * M b' i' i')) = 0).
  { rewrite <- HE. apply bsum_ext. intros b' B. apply bsum_ext. intros i' I. symmetry. apply D; assumption. }
  assert (Q1 : bsum (size P b) (fun i' => fst e b (i' * size P b + i')%nat * M b i' i') = 0).
  { apply (bsum_eq0 K (length (psz P)) (fun b' => bsum (size P b') (fun i' => fst e b' (i' * size P b' + i')%nat * M b' i' i'))); [|exact Q|exact Hb].
    intros b' B. apply bsum_nonneg. intros; apply NNG; assumption. }
  assert (Q2 : fst e b (i * size P b + i)%nat * M b i i = 0) by (apply (bsum_eq0 K (size P b) (fun i' => fst e b (i' * size P b + i')%nat * M b i' i')); [intros; apply NNG; assumption|exact Q1|exact Hi]).
  apply fmul_eq0 in Q2. destruct Q2 as [Q2|Q2]; [contradiction|exact Q2].
Qed.
Lemma find_eq_some P zs : forall eqs done nz eqs', find_eq P zs done eqs = Some (nz, eqs') ->
  exists e, In e eqs /\ nz = new_zeros P zs e /\ nz <> [] /\ (forall e', In e' eqs' -> In e' (done ++ eqs)) /\ S (length eqs') = length (done ++ eqs) /\ (forall e', In e' (done ++ eqs) -> e' = e \/ In e' eqs').
Proof.
  induction eqs as [|e eqs IH]; intros done nz eqs' H; cbn in H; [discriminate|]. destruct (new_zeros P zs e) as [|p l] eqn:E.
  - destruct (IH _ _ _ H) as (e0 & H1 & H2 & H3 & H4 & H5 & H6). exists e0. rewrite <- app_assoc in *. cbn in *. repeat split; auto.
  - injection H as <- <-. exists e. split; [left; reflexivity|]. split; [auto|]. split; [discriminate|]. split; [|split].
    + intros e' He. apply in_app_iff in He. apply in_app_iff. destruct He; [left; assumption|right; right; assumption].
    + rewrite !app_length. cbn. lia.
    + intros e' He. apply in_app_iff in He. destruct He as [He|[He|He]]; [right; apply in_app_iff; auto|left; auto|right; apply in_app_iff; auto].
Qed.
Lemma find_eq_none P zs : forall eqs done, find_eq P zs done eqs = None -> forall e, In e eqs -> new_zeros P zs e = [].
Proof.
  induction eqs as [|e eqs IH]; intros done H e' He; [destruct He|]. cbn in H. destruct (new_zeros P zs e) as [|p l] eqn:E; [|discriminate].
  destruct He as [<-|He]; [exact E|]. exact (IH _ H e' He).
Qed.
Lemma zeros_loop_sound P M : sym_space P -> feasible P M -> forall fuel zs eqs,
  (forall e, In e eqs -> In e (peqs P) /\ snd e = 0) -> vanish P zs M -> vanish P (zeros_loop fuel P zs eqs) M.
Proof.
  intros SS HF. induction fuel as [|fuel IH]; intros zs eqs HE V; cbn; [exact V|]. destruct (find_eq P zs [] eqs) as [[nz eqs']|] eqn:E; [|exact V].
  destruct (find_eq_some _ _ _ _ _ _ E) as (e & H1 & -> & _ & H3 & _). apply IH.
  - intros e' He. apply HE. apply (H3 e' He).
  - intros b i Hin. apply in_app_iff in Hin. destruct Hin as [Hin|Hin]; [apply V, Hin|]. destruct (HE e H1) as [G1 G2].
    exact (new_zeros_sound P zs e M SS HF G1 G2 V b i Hin).
Qed.
Lemma primal_zero_sound order P M : (forall l e, In e (order l) <-> In e l) -> sym_space P -> feasible P M -> vanish P (primal_zero_diagonals order P) M.
Proof.
  intros HO SS HF. unfold primal_zero_diagonals. apply zeros_loop_sound; auto; [|intros b i []].
  intros e He. rewrite HO, filter_In, (feqb_eq K) in He. exact He.
Qed.
(** nothing more can be read off from a single equation *)
Definition settled P zs e : Prop :=
  off_diag P zs e = false -> (forall b i, In (b, i) (rows_of P zs) -> 0 <= fst e b (i * size P b + i)%nat) ->
  forall b i, In (b, i) (rows_of P zs) -> fst e b (i * size P b + i)%nat = 0.
Lemma settled_nil P zs e : new_zeros P zs e = [] -> settled P zs e.
Proof.
  intros H OD NN b i Hr. destruct (feq_dec K (fst e b (i * size P b + i)%nat) 0) as [E|E]; [exact E|]. exfalso.
  assert (Q : In (b, i) (new_zeros P zs e)) by (apply new_zeros_In; auto). rewrite H in Q. exact Q.
Qed.
Definition diag_done P zs e : Prop := forall b i, In (b, i) (rows_of P zs) -> fst e b (i * size P b + i)%nat = 0.
Lemma rows_of_app P zs nz b i : In (b, i) (rows_of P (zs ++ nz)) -> In (b, i) (rows_of P zs).
Proof. rewrite !rows_of_In, in_app_iff. tauto. Qed.
Lemma zeros_loop_settled P : forall fuel zs eqs all, (length eqs < fuel)%nat ->
  (forall e, In e all -> In e eqs \/ diag_done P zs e) -> forall e, In e all -> settled P (zeros_loop fuel P zs eqs) e.
Proof.
  induction fuel as [|fuel IH]; intros zs eqs all HL HA e He; [lia|]. cbn. destruct (find_eq P zs [] eqs) as [[nz eqs']|] eqn:E.
  - destruct (find_eq_some _ _ _ _ _ _ E) as (e0 & H1 & -> & _ & H3 & H4 & H5). cbn [app] in *. apply (IH _ _ all); [lia| |exact He].
    intros e' He'. destruct (HA e' He') as [Hin|D].
    + destruct (H5 e' Hin) as [->|Q]; [|left; exact Q]. right. intros b i Hr. destruct (feq_dec K (fst e0 b (i * size P b + i)%nat) 0) as [Z|Z]; [exact Z|]. exfalso.
      pose proof (find_eq_some _ _ _ _ _ _ E) as (e1 & _ & Q1 & Q2 & _).
      destruct (new_zeros P zs e0) as [|[b1 i1] l] eqn:EN; [apply Q2; reflexivity|].
      assert (W : In (b1, i1) (new_zeros P zs e0)) by (rewrite EN; left; reflexivity). apply new_zeros_In in W. destruct W as (W1 & W2 & _ & _).
      assert (W : In (b, i) (new_zeros P zs e0)) by (apply new_zeros_In; repeat split; auto; apply rows_of_app in Hr; exact Hr).
      apply rows_of_In in Hr. destruct Hr as (_ & _ & N). apply N. apply in_app_iff. right. rewrite <- EN. exact W.
    + right. intros b i Hr. apply D. apply rows_of_app in Hr. exact Hr.
  - destruct (HA e He) as [Hin|D]; [|intros _ _ b i Hr; apply D, Hr]. apply settled_nil. exact (find_eq_none _ _ _ _ E e Hin).
Qed.
Lemma primal_zero_settled order P e : (forall l e, In e (order l) <-> In e l) -> In e (peqs P) -> snd e = 0 -> settled P (primal_zero_diagonals order P) e.
Proof.
  intros HO He E0. unfold primal_zero_diagonals. apply (zeros_loop_settled P _ [] _ (filter (fun e => snd e =? 0) (peqs P))); [lia| |].
  - intros e' He'. left. apply HO, He'.
  - apply filter_In. split; [exact He|]. apply (feqb_eq K). exact E0.
Qed.

Lemma primal_zero_closed order P e : (forall l e, In e (order l) <-> In e l) -> In e (peqs P) -> snd e = 0 ->
  let Z := primal_zero_diagonals order P in
  (forall b i j, (b < length (psz P))%nat -> (i < size P b)%nat -> (j < i)%nat -> ~ In (b, i) Z -> ~ In (b, j) Z -> fst e b (i * size P b + j)%nat = 0) ->
  (forall b i, (b < length (psz P))%nat -> (i < size P b)%nat -> ~ In (b, i) Z -> 0 <= fst e b (i * size P b + i)%nat) ->
  forall b i, (b < length (psz P))%nat -> (i < size P b)%nat -> ~ In (b, i) Z -> fst e b (i * size P b + i)%nat = 0.
Proof.
  intros HO He E0 Z H1 H2 b i Hb Hi N. apply (primal_zero_settled order P e HO He E0).
  - apply off_diag_spec. exact H1.
  - intros b' i' Hr. apply rows_of_In in Hr. apply H2; tauto.
  - apply rows_of_In. auto.
Qed.

(** *** Masking *)
Lemma pos_some i l a : pos i l = Some a -> (a < length l)%nat /\ nth a l 0%nat = i.
Proof.
  revert a. induction l as [|k l IH]; intros a H; cbn in H; [discriminate|]. destruct (Nat.eqb_spec i k) as [->|N].
  - injection H as <-. cbn. split; [lia|reflexivity].
  - destruct (pos i l) as [a'|] eqn:E; [|discriminate]. injection H as <-. destruct (IH a' eq_refl). cbn. split; [lia|assumption].
Qed.
Lemma pos_none i l : pos i l = None <-> ~ In i l.
Proof.
  induction l as [|k l IH]; cbn; [tauto|]. destruct (Nat.eqb_spec i k) as [->|N]; [split; [discriminate|intro H; exfalso; apply H; auto]|].
  destruct (pos i l); cbn; split; try discriminate; intro H; try reflexivity.
  - exfalso. apply H. right. destruct (in_dec Nat.eq_dec i l) as [I|I]; [exact I|]. apply IH in I. discriminate.
  - intros [Q|Q]; [congruence|]. apply (proj1 IH eq_refl Q).
Qed.
Lemma pos_nth l a : NoDup l -> (a < length l)%nat -> pos (nth a l 0%nat) l = Some a.
Proof.
  intros ND Ha. destruct (pos (nth a l 0%nat) l) as [c|] eqn:E.
  - destruct (pos_some _ _ _ E) as [H1 H2]. f_equal. apply (proj1 (NoDup_nth l 0%nat) ND); auto.
  - apply pos_none in E. exfalso. apply E, nth_In, Ha.
Qed.
Lemma bsum_um n l (g : nat -> K) : NoDup l -> (forall i, In i l -> (i < n)%nat) -> (forall i, (i < n)%nat -> ~ In i l -> g i = 0) ->
  bsum n g = bsum (length l) (fun a => g (nth a l 0%nat)).
Proof.
  intros ND HL HZ. transitivity (bsum n (fun i => bsum (length l) (fun a => (if (i =? nth a l 0)%nat then 1 else 0) * g (nth a l 0%nat)))).
  - apply bsum_ext. intros i Hi. rewrite (bsum_pick K l g i ND). destruct (existsb (Nat.eqb i) l) eqn:E; [reflexivity|]. apply HZ; [exact Hi|].
    intro I. rewrite <- not_true_iff_false in E. apply E. apply existsb_exists. exists i. rewrite Nat.eqb_refl. auto.
  - rewrite bsum_swap. apply bsum_ext. intros a Ha. rewrite bsum_mul_r.
    assert (Q : bsum n (fun i => if (i =? nth a l 0)%nat then 1 else 0) = (1 : K)) by (apply (bsum_delta K n _ (fun _ => 1)); apply HL, nth_In, Ha). rewrite Q. ring.
Qed.
Lemma um_lt P zs b i : In i (um P zs b) -> (i < size P b)%nat.
Proof. intro H. apply (proj1 (unmask_spec (size P b) (mask_of zs b) i)) in H. tauto. Qed.
Lemma um_nodup P zs b : NoDup (um P zs b).
Proof. apply unmask_nodup. Qed.
Lemma um_In P zs b i : In i (um P zs b) <-> (i < size P b)%nat /\ ~ In (b, i) zs.
Proof.
  unfold um. rewrite unmask_spec. unfold mask_of. split; intros [H1 H2]; split; auto; intro H; apply H2.
  - apply in_map_iff. exists (b, i). split; [reflexivity|]. apply filter_In. cbn. rewrite Nat.eqb_refl. auto.
  - apply in_map_iff in H. destruct H as ([b' i'] & E & H). apply filter_In in H. destruct H as [H E']. cbn in *. apply Nat.eqb_eq in E'. subst. exact H.
Qed.
Lemma size_mask P zs b : (b < length (psz P))%nat -> size (mask_primal P zs) b = length (um P zs b).
Proof.
  intro Hb. unfold size at 1. cbn [mask_primal psz]. rewrite (nth_indep _ 0%nat ((fun b => length (um P zs b)) 0%nat)) by (rewrite map_length, seq_length; exact Hb).
  rewrite (map_nth (fun b => length (um P zs b))), seq_nth by exact Hb. reflexivity.
Qed.
Lemma len_mask P zs : length (psz (mask_primal P zs)) = length (psz P).
Proof. cbn [mask_primal psz]. rewrite map_length, seq_length. reflexivity. Qed.
Definition restrict P zs M (b a c : nat) : K := M b (nth a (um P zs b) 0%nat) (nth c (um P zs b) 0%nat).
Definition supported P zs M : Prop := forall b i j, (b < length (psz P))%nat -> (i < size P b)%nat -> (j < size P b)%nat -> (In (b, i) zs \/ In (b, j) zs) -> M b i j = 0.
Lemma pad_supported P zs C : supported P zs (pad P zs C).
Proof.
  intros b i j Hb Hi Hj H. unfold pad. destruct H as [H|H].
  - rewrite (proj2 (pos_none i (um P zs b))); [reflexivity|]. rewrite um_In. tauto.
  - rewrite (proj2 (pos_none j (um P zs b))); [destruct (pos i _); reflexivity|]. rewrite um_In. tauto.
Qed.
Lemma pad_restrict P zs M : supported P zs M -> same_blocks (psz P) M (pad P zs (restrict P zs M)).
Proof.
  intros H b i j Hb Hi Hj. unfold pad, restrict. destruct (pos i (um P zs b)) as [a|] eqn:E1; destruct (pos j (um P zs b)) as [c|] eqn:E2.
  - apply pos_some in E1, E2. destruct E1 as [_ ->]. destruct E2 as [_ ->]. reflexivity.
  - apply pos_none in E2. rewrite um_In in E2. apply H; auto. right. destruct (isz zs b j) eqn:Z; [apply isz_In, Z|]. exfalso. apply E2. split; [exact Hj|]. rewrite <- isz_In, Z. discriminate.
  - apply pos_none in E1. rewrite um_In in E1. apply H; auto. left. destruct (isz zs b i) eqn:Z; [apply isz_In, Z|]. exfalso. apply E1. split; [exact Hi|]. rewrite <- isz_In, Z. discriminate.
  - apply pos_none in E1. rewrite um_In in E1. apply H; auto. left. destruct (isz zs b i) eqn:Z; [apply isz_In, Z|]. exfalso. apply E1. split; [exact Hi|]. rewrite <- isz_In, Z. discriminate.
Qed.
Lemma restrict_pad P zs C b a c : (a < length (um P zs b))%nat -> (c < length (um P zs b))%nat -> restrict P zs (pad P zs C) b a c = C b a c.
Proof. intros Ha Hc. unfold restrict, pad. rewrite !pos_nth by (try apply um_nodup; assumption). reflexivity. Qed.
Lemma sum_mask P zs M b (w : nat -> nat -> K) : (b < length (psz P))%nat -> supported P zs M ->
  bsum (size P b) (fun i => bsum (size P b) (fun j => w i j * M b i j)) =
  bsum (length (um P zs b)) (fun a => bsum (length (um P zs b)) (fun c => w (nth a (um P zs b) 0%nat) (nth c (um P zs b) 0%nat) * restrict P zs M b a c)).
Proof.
  intros Hb HS.
  assert (NI : forall i, (i < size P b)%nat -> ~ In i (um P zs b) -> In (b, i) zs).
  { intros i Hi N. destruct (isz zs b i) eqn:Z; [apply isz_In, Z|]. exfalso. apply N, um_In. split; [exact Hi|]. rewrite <- isz_In, Z. discriminate. }
  rewrite (bsum_um (size P b) (um P zs b)); [|apply um_nodup|apply um_lt|].
  - apply bsum_ext. intros a Ha. assert (La : (nth a (um P zs b) 0 < size P b)%nat) by (apply (um_lt P zs), nth_In, Ha).
    rewrite (bsum_um (size P b) (um P zs b)); [reflexivity|apply um_nodup|apply um_lt|]. intros j Hj N. rewrite (HS b _ j Hb La Hj); [ring|]. right. apply NI; assumption.
  - intros i Hi N. apply bsum_all0. intros j Hj. rewrite (HS b i j Hb Hi Hj); [ring|]. left. apply NI; assumption.
Qed.
Lemma holds_mask P zs M e : supported P zs M ->
  (holds (psz P) e M <-> holds (psz (mask_primal P zs)) (fun b x => let r := length (um P zs b) in
                        fst e b (nth (x / r) (um P zs b) 0 * size P b + nth (x mod r) (um P zs b) 0)%nat, snd e) (restrict P zs M)).
Proof.
  intro HS. unfold holds. rewrite len_mask. cbn [snd fst].
  assert (Q : bsum (length (psz P)) (fun b => bsum (nth b (psz P) 0%nat) (fun i => bsum (nth b (psz P) 0%nat) (fun j => fst e b (i * nth b (psz P) 0 + j)%nat * M b i j))) =
    bsum (length (psz P)) (fun b => bsum (nth b (psz (mask_primal P zs)) 0%nat) (fun i => bsum (nth b (psz (mask_primal P zs)) 0%nat) (fun j =>
       fst e b (nth ((i * nth b (psz (mask_primal P zs)) 0 + j) / length (um P zs b)) (um P zs b) 0 * size P b + nth ((i * nth b (psz (mask_primal P zs)) 0 + j) mod length (um P zs b)) (um P zs b) 0)%nat * restrict P zs M b i j)))).
  { apply bsum_ext. intros b Hb. change (nth b (psz (mask_primal P zs)) 0%nat) with (size (mask_primal P zs) b). rewrite size_mask by exact Hb. change (nth b (psz P) 0%nat) with (size P b).
    rewrite (sum_mask P zs M b (fun i j => fst e b (i * size P b + j)%nat) Hb HS). apply bsum_ext. intros a Ha. apply bsum_ext. intros c Hc.
    destruct (pair_index (length (um P zs b)) a c Hc) as [-> ->]. reflexivity. }
  cbv zeta. rewrite Q. reflexivity.
Qed.
Lemma qform_sum n (f : nat -> nat -> K) x : qform n (mtab n n f) x = bsum n (fun i => bsum n (fun j => x i * x j * f i j)).
Proof. unfold qform. apply bsum_ext. intros i Hi. apply bsum_ext. intros j Hj. rewrite mget_mtab by assumption. ring. Qed.
Lemma mask_psd P zs M : supported P zs M -> (psd_blocks (psz P) M <-> psd_blocks (psz (mask_primal P zs)) (restrict P zs M)).
Proof.
  intro HS. unfold psd_blocks. rewrite len_mask. split; intros H b Hb; specialize (H b Hb); cbv zeta in *; change (nth b (psz (mask_primal P zs)) 0%nat) with (size (mask_primal P zs) b) in *; change (nth b (psz P) 0%nat) with (size P b) in *; rewrite size_mask in * by exact Hb.
  - intro v. pose (x := fun i => match pos i (um P zs b) with Some a => v a | None => 0 end). specialize (H x). rewrite qform_sum in *. rewrite (sum_mask P zs M b (fun i j => x i * x j) Hb HS) in H.
    erewrite bsum_ext; [exact H|]. intros a Ha. apply bsum_ext. intros c Hc. unfold x. rewrite !pos_nth by (try apply um_nodup; assumption). reflexivity.
  - intro x. rewrite qform_sum, (sum_mask P zs M b (fun i j => x i * x j) Hb HS), <- qform_sum with (x := fun a => x (nth a (um P zs b) 0%nat)). apply H.
Qed.
Lemma mask_sym P zs M : supported P zs M -> (sym_blocks (psz P) M <-> sym_blocks (psz (mask_primal P zs)) (restrict P zs M)).
Proof.
  intro HS. unfold sym_blocks. rewrite len_mask. split; intros H b Hb; specialize (H b Hb); cbv zeta in *; change (nth b (psz (mask_primal P zs)) 0%nat) with (size (mask_primal P zs) b) in *; change (nth b (psz P) 0%nat) with (size P b) in *; rewrite size_mask in * by exact Hb.
  - intros a c Ha Hc. rewrite !mget_mtab by assumption. unfold restrict.
    assert (La : (nth a (um P zs b) 0 < size P b)%nat) by (apply (um_lt P zs), nth_In, Ha). assert (Lc : (nth c (um P zs b) 0 < size P b)%nat) by (apply (um_lt P zs), nth_In, Hc).
    specialize (H _ _ La Lc). rewrite !mget_mtab in H by assumption. exact H.
  - intros i j Hi Hj. rewrite !mget_mtab by assumption. rewrite (pad_restrict P zs M HS b i j Hb Hi Hj), (pad_restrict P zs M HS b j i Hb Hj Hi). unfold pad.
    destruct (pos i (um P zs b)) as [a|] eqn:E1; destruct (pos j (um P zs b)) as [c|] eqn:E2; try reflexivity.
    apply pos_some in E1, E2. destruct E1 as [Ha _]. destruct E2 as [Hc _]. specialize (H a c Ha Hc). rewrite !mget_mtab in H by assumption. exact H.
Qed.
Lemma feasible_restrict P zs M : supported P zs M -> (feasible P M <-> feasible (mask_primal P zs) (restrict P zs M)).
Proof.
  intro HS. unfold feasible. rewrite (mask_sym P zs M HS), (mask_psd P zs M HS).
  assert (E : (forall e, In e (peqs P) -> holds (psz P) e M) <-> (forall e, In e (peqs (mask_primal P zs)) -> holds (psz (mask_primal P zs)) e (restrict P zs M))).
  { split.
    - intros H e He. cbn [mask_primal peqs] in He. apply in_map_iff in He. destruct He as (e0 & <- & He). apply (holds_mask P zs M e0 HS), H, He.
    - intros H e He. apply (holds_mask P zs M e HS). apply H. cbn [mask_primal peqs]. apply in_map_iff. exists e. auto. }
  rewrite E. tauto.
Qed.
Lemma feasible_ext P M M' : same_blocks (psz P) M M' -> feasible P M -> feasible P M'.
Proof.
  intros HE (H1 & H2 & H3). split; [|split].
  - intros b Hb. cbv zeta. intros i j Hi Hj. specialize (H1 b Hb i j Hi Hj). rewrite !mget_mtab in * by assumption. rewrite <- !HE by assumption. exact H1.
  - intros b Hb. cbv zeta. intro x. specialize (H2 b Hb x). rewrite qform_sum in *. erewrite bsum_ext; [exact H2|]. intros i Hi. apply bsum_ext. intros j Hj. rewrite HE by assumption. reflexivity.
  - intros e He. specialize (H3 e He). unfold holds in *. rewrite <- H3. apply bsum_ext. intros b Hb. apply bsum_ext. intros i Hi. apply bsum_ext. intros j Hj. rewrite HE by assumption. reflexivity.
Qed.
Lemma same_sym sizes M M' : same_blocks sizes M M' -> same_blocks sizes M' M.
Proof. intros H b i j Hb Hi Hj. symmetry. apply H; assumption. Qed.
Lemma restrict_pad_same P zs C : same_blocks (psz (mask_primal P zs)) (restrict P zs (pad P zs C)) C.
Proof.
  intros b a c Hb Ha Hc. rewrite len_mask in Hb. change (nth b (psz (mask_primal P zs)) 0%nat) with (size (mask_primal P zs) b) in *. rewrite size_mask in * by exact Hb.
  apply restrict_pad; assumption.
Qed.
Lemma mask_lemma P zs :
  (forall C, feasible (mask_primal P zs) C -> feasible P (pad P zs C)) /\
  (forall M, feasible P M -> supported P zs M -> exists C, feasible (mask_primal P zs) C /\ same_blocks (psz P) M (pad P zs C)).
Proof.
  split.
  - intros C H. apply (feasible_restrict P zs _ (pad_supported P zs C)). apply (feasible_ext _ C); [apply same_sym, restrict_pad_same|exact H].
  - intros M H HS. exists (restrict P zs M). split; [apply feasible_restrict; assumption|apply pad_restrict, HS].
Qed.
Lemma pad_cols_lemma P zs C U (s : nat -> nat -> K) (r : nat -> nat) :
  (forall b a c, (b < length (psz P))%nat -> (a < length (um P zs b))%nat -> (c < length (um P zs b))%nat -> C b a c = bsum (r b) (fun k => U b k a * s b k * U b k c)) ->
  forall b i j, (b < length (psz P))%nat -> pad P zs C b i j = bsum (r b) (fun k => pad_cols P zs U b k i * s b k * pad_cols P zs U b k j).
Proof.
  intros H b i j Hb. unfold pad, pad_cols. destruct (pos i (um P zs b)) as [a|] eqn:E1; destruct (pos j (um P zs b)) as [c|] eqn:E2; try (symmetry; apply bsum_all0; intros; ring).
  apply pos_some in E1, E2. apply H; tauto.
Qed.

(** *** constrain_zero_diagonals *)
Lemma vanish_supported P zs M : sym_blocks (psz P) M -> vanish P zs M -> supported P zs M.
Proof.
  intros HS V b i j Hb Hi Hj [H|H]; destruct (V _ _ H) as (_ & _ & W); [apply W, Hj|]. rewrite (symM (psz P) M b i j HS Hb Hi Hj). apply W, Hi.
Qed.
Lemma mask_sym_space P zs : sym_space P -> sym_space (mask_primal P zs).
Proof.
  intros H e He b a c Hb Ha Hc. rewrite len_mask in Hb. rewrite size_mask in * by exact Hb. cbn [mask_primal peqs] in He. apply in_map_iff in He. destruct He as (e0 & <- & He). cbn [fst].
  destruct (pair_index (length (um P zs b)) a c Hc) as [-> ->]. destruct (pair_index (length (um P zs b)) c a Ha) as [-> ->].
  apply H; [exact He|exact Hb| |]; apply (um_lt P zs), nth_In; assumption.
Qed.
Definition psum P : nat := fold_right Nat.add 0%nat (psz P).
Lemma pad_same P zs M M' : same_blocks (psz (mask_primal P zs)) M M' -> same_blocks (psz P) (pad P zs M) (pad P zs M').
Proof.
  intros H b i j Hb Hi Hj. unfold pad. destruct (pos i (um P zs b)) as [a|] eqn:E1; destruct (pos j (um P zs b)) as [c|] eqn:E2; try reflexivity.
  apply pos_some in E1, E2. apply H; [rewrite len_mask; exact Hb| |]; change (nth b (psz (mask_primal P zs)) 0%nat) with (size (mask_primal P zs) b); rewrite size_mask by exact Hb; tauto.
Qed.
Lemma same_trans sizes M M' M'' : same_blocks sizes M M' -> same_blocks sizes M' M'' -> same_blocks sizes M M''.
Proof. intros H1 H2 b i j Hb Hi Hj. rewrite H1, H2 by assumption. reflexivity. Qed.
Lemma sum_lt (f : nat -> nat) : forall l k, (forall b, (b < length l)%nat -> (f (k + b) <= nth b l 0)%nat) ->
  (fold_right Nat.add 0 (map f (seq k (length l))) <= fold_right Nat.add 0 l)%nat /\
  (forall b, (b < length l)%nat -> (f (k + b) < nth b l 0)%nat -> (fold_right Nat.add 0 (map f (seq k (length l))) < fold_right Nat.add 0 l)%nat).
Proof.
  induction l as [|n l IH]; intros k H; cbn; [split; [lia|intros; lia]|].
  assert (H0 : (f k <= n)%nat) by (specialize (H 0%nat ltac:(cbn; lia)); rewrite Nat.add_0_r in H; exact H).
  destruct (IH (S k)) as [I1 I2]. { intros b Hb. specialize (H (S b) ltac:(cbn; lia)). cbn in H. rewrite Nat.add_succ_r in H. exact H. }
  split; [lia|]. intros [|b] Hb Q; [rewrite Nat.add_0_r in Q; lia|]. rewrite Nat.add_succ_r in Q. specialize (I2 b ltac:(lia) Q). lia.
Qed.
Lemma psum_mask P zs b i : In (b, i) zs -> (b < length (psz P))%nat -> (i < size P b)%nat -> (psum (mask_primal P zs) < psum P)%nat.
Proof.
  intros Hin Hb Hi. unfold psum. cbn [mask_primal psz]. destruct (sum_lt (fun b => length (um P zs b)) (psz P) 0) as [_ G].
  - intros b' _. cbn. apply (unmask_len (nth b' (psz P) 0%nat) (mask_of zs b')).
  - apply (G b Hb). cbn. apply (proj2 (unmask_len (size P b) (mask_of zs b)) i); [|exact Hi].
    unfold mask_of. apply in_map_iff. exists (b, i). split; [reflexivity|]. apply filter_In. cbn. rewrite Nat.eqb_refl. auto.
Qed.
Lemma new_zeros_range P zs e b i : In (b, i) (new_zeros P zs e) -> (b < length (psz P))%nat /\ (i < size P b)%nat.
Proof. intro H. apply new_zeros_In in H. destruct H as (_ & _ & H & _). apply rows_of_In in H. tauto. Qed.
Lemma zeros_loop_range P : forall fuel zs eqs, (forall b i, In (b, i) zs -> (b < length (psz P))%nat /\ (i < size P b)%nat) ->
  forall b i, In (b, i) (zeros_loop fuel P zs eqs) -> (b < length (psz P))%nat /\ (i < size P b)%nat.
Proof.
  induction fuel as [|fuel IH]; intros zs eqs H; cbn; [exact H|]. destruct (find_eq P zs [] eqs) as [[nz eqs']|] eqn:E; [|exact H].
  apply IH. intros b i Hin. apply in_app_iff in Hin. destruct Hin as [Hin|Hin]; [auto|]. destruct (find_eq_some _ _ _ _ _ _ E) as (e & _ & -> & _). exact (new_zeros_range _ _ _ _ _ Hin).
Qed.
Lemma primal_constrain_zero_lemma order : (forall l e, In e (order l) <-> In e l) -> forall fuel P, (psum P < fuel)%nat -> sym_space P ->
  let '(ts, Q) := primal_constrain_zero fuel order P in
  primal_zero_diagonals order Q = [] /\
  (forall C, feasible Q C -> feasible P (pad_all ts C)) /\
  (forall M, feasible P M -> exists C, feasible Q C /\ same_blocks (psz P) M (pad_all ts C)).
Proof.
  intro HO. induction fuel as [|fuel IH]; intros P HF SS; [lia|]. cbn [primal_constrain_zero].
  destruct (primal_zero_diagonals order P) as [|p zs'] eqn:EZ.
  - split; [exact EZ|]. cbn [pad_all]. split; [auto|]. intros M HM. exists M. split; [exact HM|]. intros ? ? ? _ _ _. reflexivity.
  - set (zs := p :: zs') in *.
    assert (LT : (psum (mask_primal P zs) < fuel)%nat).
    { destruct p as [b i]. assert (Hin : In (b, i) zs) by (left; reflexivity).
      assert (R : (b < length (psz P))%nat /\ (i < size P b)%nat). { rewrite <- EZ in Hin. unfold primal_zero_diagonals in Hin. eapply zeros_loop_range; [|exact Hin]. intros ? ? []. }
      pose proof (psum_mask P zs b i Hin (proj1 R) (proj2 R)). lia. }
    specialize (IH (mask_primal P zs) LT (mask_sym_space P zs SS)). destruct (primal_constrain_zero fuel order (mask_primal P zs)) as [ts Q]. cbn [fst snd].
    destruct IH as (I1 & I2 & I3). split; [exact I1|]. cbn [pad_all]. destruct (mask_lemma P zs) as [M1 M2]. split.
    + intros C HC. apply M1, I2, HC.
    + intros M HM. destruct (M2 M HM) as (C1 & F1 & E1).
      { apply vanish_supported; [apply HM|]. rewrite <- EZ. apply primal_zero_sound; assumption. }
      destruct (I3 C1 F1) as (C2 & F2 & E2). exists C2. split; [exact F2|]. apply (same_trans _ _ _ _ E1). apply pad_same, E2.
Qed.

(** *** Nullspaces *)
Lemma null_row_sum (b m : nat) (V : fmat K) c j (M : nat -> nat -> K) : (j < m)%nat ->
  bsum m (fun i => bsum m (fun l => fst (null_row b m V c j) b (i * m + l)%nat * M i l)) = bsum m (fun k => fent V k c * (M j k + M k j)).
Proof.
  intro Hj. unfold null_row. cbn [fst]. rewrite Nat.eqb_refl.
  transitivity (bsum m (fun i => bsum m (fun l => (if (i =? j)%nat then fent V l c * M i l else 0) + (if (l =? j)%nat then fent V i c * M i l else 0)))).
  - apply bsum_ext. intros i Hi. apply bsum_ext. intros l Hl. rewrite bsum_add.
    assert (I : forall a b' a' b'', (b' < m)%nat -> (b'' < m)%nat -> (a * m + b' =? a' * m + b'')%nat = ((a =? a') && (b' =? b''))%nat).
    { intros a b' a' b'' H1 H2. destruct (Nat.eqb_spec a a') as [->|N]; cbn [andb].
      - destruct (Nat.eqb_spec b' b'') as [->|N]; [apply Nat.eqb_refl|]. apply Nat.eqb_neq. lia.
      - apply Nat.eqb_neq. intro E. destruct (pair_index m a b' H1) as [E1 _]. destruct (pair_index m a' b'' H2) as [E2 _]. rewrite E in E1. congruence. }
    assert (S1 : bsum m (fun k => if (i * m + l =? j * m + k)%nat then fent V k c else 0) = if (i =? j)%nat then fent V l c else 0).
    { transitivity (bsum m (fun k => if (k =? l)%nat then (if (i =? j)%nat then fent V k c else 0) else 0)).
      - apply bsum_ext. intros k Hk. rewrite I by assumption. rewrite (Nat.eqb_sym k l). destruct (i =? j)%nat, (l =? k)%nat; reflexivity.
      - apply (bsum_delta K m l (fun k => if (i =? j)%nat then fent V k c else 0) Hl). }
    assert (S2 : bsum m (fun k => if (i * m + l =? k * m + j)%nat then fent V k c else 0) = if (l =? j)%nat then fent V i c else 0).
    { transitivity (bsum m (fun k => if (k =? i)%nat then (if (l =? j)%nat then fent V k c else 0) else 0)).
      - apply bsum_ext. intros k Hk. rewrite I by assumption. rewrite (Nat.eqb_sym k i). destruct (i =? k)%nat, (l =? j)%nat; reflexivity.
      - apply (bsum_delta K m i (fun k => if (l =? j)%nat then fent V k c else 0) Hi). }
    rewrite S1, S2. destruct (i =? j)%nat, (l =? j)%nat; ring.
  - transitivity (bsum m (fun i => (if (i =? j)%nat then bsum m (fun l => fent V l c * M i l) else 0) + fent V i c * M i j)).
    + apply bsum_ext. intros i Hi. rewrite bsum_add. rewrite (bsum_delta K m j (fun l => fent V i c * M i l) Hj). f_equal.
      destruct (i =? j)%nat; [reflexivity|]. apply bsum_all0. reflexivity.
    + rewrite bsum_add. rewrite (bsum_delta K m j (fun i => bsum m (fun l => fent V l c * M i l)) Hj). rewrite <- bsum_add. apply bsum_ext. intros; ring.
Qed.
Lemma holds_null_row sizes b V c j M : (b < length sizes)%nat -> frows V = nth b sizes 0%nat -> (j < frows V)%nat ->
  (holds sizes (null_row b (frows V) V c j) M <-> bsum (frows V) (fun k => fent V k c * (M b j k + M b k j)) = 0).
Proof.
  intros Hb HR Hj. unfold holds. change (snd (null_row b (frows V) V c j)) with (0 : K).
  assert (Q : bsum (length sizes) (fun b' => bsum (nth b' sizes 0%nat) (fun i => bsum (nth b' sizes 0%nat) (fun j0 => fst (null_row b (frows V) V c j) b' (i * nth b' sizes 0 + j0)%nat * M b' i j0))) = bsum (frows V) (fun k => fent V k c * (M b j k + M b k j))).
  { rewrite (bsum_single _ _ b); [|exact Hb|].
    - rewrite <- HR. apply null_row_sum, Hj.
    - intros b' Hb' N. apply bsum_all0. intros i Hi. apply bsum_all0. intros l Hl. unfold null_row. cbn [fst]. destruct (Nat.eqb_spec b' b); [contradiction|ring]. }
  cbv zeta. rewrite Q. reflexivity.
Qed.
Lemma primal_nullspace_lemma P (Vs : list (fmat K)) M : (length Vs <= length (psz P))%nat ->
  (forall b, (b < length Vs)%nat -> frows (nth b Vs (FM 0 0 (fun _ _ => 0))) = size P b) ->
  (feasible (primal_nullspace P Vs) M <->
   feasible P M /\ forall b, (b < length Vs)%nat -> kills (size P b) (mtab (size P b) (size P b) (M b)) (nth b Vs (FM 0 0 (fun _ _ => 0)))).
Proof.
  intros HL HR. unfold feasible at 1. cbn [primal_nullspace psz peqs]. split.
  - intros (H1 & H2 & H3). split; [split; [exact H1|split; [exact H2|]]; intros e He; apply H3, in_app_iff; left; exact He|].
    intros b Hb i c Hi Hc. specialize (HR b Hb). set (V := nth b Vs _) in *.
    assert (Z : bsum (frows V) (fun k => fent V k c * (M b i k + M b k i)) = 0).
    { destruct (zero_col V c) eqn:ZC.
      - apply bsum_all0. intros k Hk. destruct (feq_dec K (fent V k c) 0) as [E|E]; [rewrite E; ring|]. exfalso. unfold zero_col in ZC.
        rewrite negb_true_iff, <- not_true_iff_false in ZC. apply ZC. apply existsb_exists. exists k. split; [apply in_seq; lia|]. rewrite negb_true_iff, <- not_true_iff_false, (feqb_eq K). exact E.
      - apply (holds_null_row (psz P) b V c i M); [lia|exact HR|lia|]. apply H3, in_app_iff. right. apply in_flat_map. exists b. split; [apply in_seq; lia|]. fold V.
        unfold null_rows. apply in_flat_map. exists c. split; [apply in_seq; lia|]. rewrite ZC. apply in_map_iff. exists i. split; [reflexivity|apply in_seq; lia]. }
    assert (D : (1 + 1) * bsum (size P b) (fun k => mget (mtab (size P b) (size P b) (M b)) i k * fent V k c) = 0).
    { rewrite <- Z, HR, <- bsum_mul_l. apply bsum_ext. intros k Hk. rewrite mget_mtab by assumption. rewrite (symM (psz P) M b k i H1) by (try assumption; lia). ring. }
    apply fmul_eq0 in D. destruct D as [D|D]; [exfalso; exact (flt_neq0 (f2_pos K) D)|exact D].
  - intros [(H1 & H2 & H3) HK]. split; [exact H1|]. split; [exact H2|]. intros e He. apply in_app_iff in He. destruct He as [He|He]; [apply H3, He|].
    apply in_flat_map in He. destruct He as (b & Hb & He). apply in_seq in Hb. specialize (HR b ltac:(lia)). specialize (HK b ltac:(lia)). set (V := nth b Vs _) in *.
    unfold null_rows in He. apply in_flat_map in He. destruct He as (c & Hc & He). apply in_seq in Hc. destruct (zero_col V c); [destruct He|].
    apply in_map_iff in He. destruct He as (j & <- & Hj). apply in_seq in Hj. apply holds_null_row; [lia|exact HR|lia|]. rewrite HR.
    transitivity ((1 + 1) * bsum (size P b) (fun k => mget (mtab (size P b) (size P b) (M b)) j k * fent V k c)); [|rewrite (HK j c) by lia; ring].
    rewrite <- bsum_mul_l. apply bsum_ext. intros k Hk. rewrite mget_mtab by lia. rewrite (symM (psz P) M b k j H1) by (try assumption; unfold size in *; lia). ring.
Qed.

(** *** Symmetric spaces *)
Lemma symmetrize_lemma P : sym_space (primal_symmetrize P) /\ forall M, feasible (primal_symmetrize P) M <-> feasible P M.
Proof.
  split.
  - intros e He b i j Hb Hi Hj. cbn [primal_symmetrize peqs] in He. apply in_map_iff in He. destruct He as (e0 & <- & He). cbn [fst].
    change (size (primal_symmetrize P) b) with (size P b) in *. destruct (pair_index (size P b) i j Hj) as [-> ->]. destruct (pair_index (size P b) j i Hi) as [-> ->].
    rewrite (Nat.eqb_sym j i). destruct (Nat.eqb_spec i j) as [->|N]; [reflexivity|]. f_equal. ring.
  - intro M. unfold feasible. cbn [primal_symmetrize psz].
    assert (E : sym_blocks (psz P) M -> forall e, holds (psz P) (fun b x => let m := size P b in let i := (x / m)%nat in let j := (x mod m)%nat in
       if (i =? j)%nat then fst e b x else (fst e b (i * m + j)%nat + fst e b (j * m + i)%nat) / (1 + 1), snd e) M <-> holds (psz P) e M).
    { intros HS e. unfold holds. cbn [fst snd].
      assert (Q : forall b, (b < length (psz P))%nat ->
        bsum (size P b) (fun i => bsum (size P b) (fun j => (if (i =? j)%nat then fst e b (i * size P b + j)%nat else (fst e b (i * size P b + j)%nat + fst e b (j * size P b + i)%nat) / (1 + 1)) * M b i j)) =
        bsum (size P b) (fun i => bsum (size P b) (fun j => fst e b (i * size P b + j)%nat * M b i j))).
      { intros b Hb. set (n := size P b). set (g := fun i j => fst e b (i * n + j)%nat).
        transitivity (bsum n (fun i => bsum n (fun j => (g i j * M b i j + g j i * M b j i) / (1 + 1)))).
        - apply bsum_ext. intros i Hi. apply bsum_ext. intros j Hj. rewrite (symM (psz P) M b j i HS Hb Hj Hi). destruct (Nat.eqb_spec i j) as [->|N]; unfold g; field; fnz.
        - assert (S2 : bsum n (fun i => bsum n (fun j => g j i * M b j i)) = bsum n (fun i => bsum n (fun j => g i j * M b i j))) by apply bsum_swap.
          transitivity ((bsum n (fun i => bsum n (fun j => g i j * M b i j)) + bsum n (fun i => bsum n (fun j => g j i * M b j i))) * (1 / (1 + 1))).
          + rewrite <- bsum_add, <- bsum_mul_r. apply bsum_ext. intros i _. rewrite <- bsum_add, <- bsum_mul_r. apply bsum_ext. intros; field; fnz.
          + rewrite S2. unfold g. field; fnz. }
      assert (W : bsum (length (psz P)) (fun b => bsum (nth b (psz P) 0%nat) (fun i => bsum (nth b (psz P) 0%nat) (fun j =>
         (if ((i * nth b (psz P) 0 + j) / size P b =? (i * nth b (psz P) 0 + j) mod size P b)%nat then fst e b (i * nth b (psz P) 0 + j)%nat else
         (fst e b ((i * nth b (psz P) 0 + j) / size P b * size P b + (i * nth b (psz P) 0 + j) mod size P b)%nat +
          fst e b ((i * nth b (psz P) 0 + j) mod size P b * size P b + (i * nth b (psz P) 0 + j) / size P b)%nat) / (1 + 1)) * M b i j))) =
         bsum (length (psz P)) (fun b => bsum (nth b (psz P) 0%nat) (fun i => bsum (nth b (psz P) 0%nat) (fun j => fst e b (i * nth b (psz P) 0 + j)%nat * M b i j)))).
      { apply bsum_ext. intros b Hb. change (nth b (psz P) 0%nat) with (size P b). rewrite <- (Q b Hb). apply bsum_ext. intros i Hi. apply bsum_ext. intros j Hj.
        destruct (pair_index (size P b) i j Hj) as [-> ->]. reflexivity. }
      cbv zeta. rewrite W. reflexivity. }
    split; intros (H1 & H2 & H3); (split; [exact H1|]; split; [exact H2|]); intros e He.
    + apply (E H1 e). apply H3. cbn [primal_symmetrize peqs]. apply in_map_iff. exists e. auto.
    + cbn [primal_symmetrize peqs] in He. apply in_map_iff in He. destruct He as (e0 & <- & He). apply (E H1 e0), H3, He.
Qed.

(** [[1, -1], [-1, 1]] is positive semidefinite. *)
Lemma psd_pt : psd 2 (mtab 2 2 (fun i j => if Nat.eqb i j then 1 else - (1) : K)).
Proof.
  intro x. rewrite qform_sum. cbn [bsum Nat.eqb].
  eapply eq_ind with (P := fun v => 0 <= v); [exact (fsqr_nonneg K (x 0%nat - x 1%nat))|ring].
Qed.
End Proofs.
