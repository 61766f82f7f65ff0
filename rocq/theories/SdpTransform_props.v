(** * C26, C27, C56: transformations of SDP problems *)
From Coq Require Import Bool List Arith Lia ZArith.
From Verif Require Import OrdField Base Congruence LinSolve SdpTransform SdpPrimal.
Import ListNotations.
Local Open Scope of_scope.

(** ** C26: nullspace and column space constraints *)

(** [constrain_nullspace] of a dual problem.  The child parametrises exactly
    the vectors [y] whose matrices kill the given nullspaces, every such [y]
    comes from one child vector only, and positive semidefiniteness is the
    same in the parent and in the child.  A failure means that no [y] exists.
    [reg] is any choice of independent columns, [perp] any basis of the
    orthogonal complement. *)
Theorem nullspace_transform_exact (K : OrdField) (reg perp : fmat K -> fmat K) d (Bs : list (block K * fmat K)) :
  (forall X, same_span X (reg X)) -> (forall X, spans_perp X (perp X)) ->
  (forall b, In b Bs -> frows (snd b) = bn (fst b)) ->
  match constrain_nullspace reg perp d Bs with
  | Ok Identity => forall y b, In b Bs -> kills (bn (fst b)) (Smat d (fst b) y) (snd b)
  | Ok (Child t0 T f C) =>
      length C = length Bs /\
      (forall y, (forall b, In b Bs -> kills (bn (fst b)) (Smat d (fst b) y) (snd b)) <-> exists z, forall j, (j < d)%nat -> y j = yof t0 T f z j) /\
      (forall z z', (forall j, (j < d)%nat -> yof t0 T f z j = yof t0 T f z' j) -> forall c, (c < f)%nat -> z c = z' c) /\
      (forall z i, (i < length Bs)%nat -> let b := nth i Bs (BL 0 (fun _ => 0) (fun _ _ => 0), FM 0 0 (fun _ _ => 0)) in
         symmetric (bn (fst b)) (Smat d (fst b) (yof t0 T f z)) ->
         (psd (bn (fst b)) (Smat d (fst b) (yof t0 T f z)) <->
          match nth i C None with Some c => psd (bn c) (Smat f c z) | None => True end))
  | Err er => er = ValueError /\ forall y, ~ (forall b, In b Bs -> kills (bn (fst b)) (Smat d (fst b) y) (snd b))
  end.
Proof. intros H1 H2 H3. exact (constrain_nullspace_lemma K reg perp H1 H2 d Bs H3). Qed.
Print Assumptions nullspace_transform_exact.

(** The hypotheses on [reg] and [perp] can be met: the given columns
    themselves, and the complement computed by the linear solver. *)
Theorem complement_exists (K : OrdField) (X : fmat K) : same_span X ((fun Y => Y) X) /\ spans_perp X (perp_lin K X).
Proof. exact (Logic.conj (same_span_refl K X) (perp_lin_spec K X)). Qed.
Print Assumptions complement_exists.

(** A 2x2 block [[1 + y0, y1], [y1, y2]] killed by [(1, 1)]: one parameter is
    left, and the child is 1x1. *)
Definition blk2 : block QcOF :=
  BL 2 (fun e => if Nat.eqb e 0 then q 1 1 else q 0 1)
       (fun e c => if Nat.eqb e 0 then (if Nat.eqb c 0 then q 1 1 else q 0 1)
                   else if Nat.eqb e 3 then (if Nat.eqb c 2 then q 1 1 else q 0 1)
                   else (if Nat.eqb c 1 then q 1 1 else q 0 1)).
Definition ones : fmat QcOF := FM 2 1 (fun _ _ => q 1 1).
Example nullspace_transform_case :
  match constrain_nullspace (fun Y => Y) (perp_lin QcOF) 3 [(blk2, ones)] with
  | Ok (Child t0 T f [Some C]) => f = 1%nat /\ bn C = 1%nat /\ length t0 = 3%nat
  | _ => False
  end.
Proof. vm_compute. auto. Qed.

(** [constrain_subspace]: the same with the columns of the matrices inside the
    given column spaces, for symmetric matrices.  Missing: the two cases in
    which the answer is not the constraint (refuted below). *)
Theorem subspace_transform_partial (K : OrdField) (reg perp : fmat K -> fmat K) d (Bs : list (block K * fmat K)) :
  (forall X, same_span X (reg X)) -> (forall X, spans_perp X (perp X)) ->
  (forall b, In b Bs -> frows (snd b) = bn (fst b)) ->
  match constrain_subspace reg perp d Bs with
  | Ok Identity => forall b, In b Bs -> is_empty_or_zero (snd b) = true
  | Ok (Child t0 T f C) =>
      length C = length Bs /\
      (forall y, (forall b, In b Bs -> symmetric (bn (fst b)) (Smat d (fst b) y)) ->
        ((forall b, In b Bs -> range_in (bn (fst b)) (Smat d (fst b) y) (snd b)) <-> exists z, forall j, (j < d)%nat -> y j = yof t0 T f z j)) /\
      (forall z z', (forall j, (j < d)%nat -> yof t0 T f z j = yof t0 T f z' j) -> forall c, (c < f)%nat -> z c = z' c) /\
      (forall z i, (i < length Bs)%nat -> let b := nth i Bs (BL 0 (fun _ => 0) (fun _ _ => 0), FM 0 0 (fun _ _ => 0)) in
         symmetric (bn (fst b)) (Smat d (fst b) (yof t0 T f z)) ->
         (psd (bn (fst b)) (Smat d (fst b) (yof t0 T f z)) <->
          match nth i C None with Some c => psd (bn c) (Smat f c z) | None => True end))
  | Err ValueError => forall y, (forall b, In b Bs -> symmetric (bn (fst b)) (Smat d (fst b) y)) ->
      ~ (forall b, In b Bs -> range_in (bn (fst b)) (Smat d (fst b) y) (snd b))
  | Err er => er = OtherError /\ forall b, In b Bs -> is_empty (perp (reg (snd b))) = true
  end.
Proof. intros H1 H2 H3. exact (constrain_subspace_lemma K reg perp H1 H2 d Bs H3). Qed.
Print Assumptions subspace_transform_partial.
Example subspace_transform_case :
  match constrain_subspace (fun Y => Y) (perp_lin QcOF) 3 [(blk2, ones)] with
  | Ok (Child t0 T f [Some C]) => f = 1%nat /\ bn C = 1%nat
  | _ => False
  end.
Proof. vm_compute. auto. Qed.

(** Column spaces that are all zero force the matrix to vanish, but the
    problem is returned unchanged. *)
Definition blk1 : block QcOF := BL 1 (fun _ => q 0 1) (fun _ _ => q 1 1).
Theorem zero_columnspace_ignored_refuted :
  constrain_subspace (fun Y => Y) (perp_lin QcOF) 1 [(blk1, FM 1 1 (fun _ _ => q 0 1))] = Ok Identity /\
  ~ (forall y, range_in 1 (Smat 1 blk1 y) (FM 1 1 (fun _ _ => q 0 1))).
Proof.
  split; [vm_compute; reflexivity|]. intro H. destruct (H (fun _ => q 1 1) 0%nat ltac:(lia)) as (v & E).
  specialize (E 0%nat ltac:(lia)). cbn in E. rewrite Qcanon.Qcmult_0_l in E. vm_compute in E. discriminate.
Qed.
Print Assumptions zero_columnspace_ignored_refuted.
(** A column space that is everything is no constraint, but the call fails. *)
Theorem full_columnspace_fails_refuted :
  constrain_subspace (fun Y => Y) (perp_lin QcOF) 1 [(blk1, FM 1 1 (fun _ _ => q 1 1))] = Err OtherError.
Proof. vm_compute. reflexivity. Qed.
Print Assumptions full_columnspace_fails_refuted.

(** [constrain_nullspace] of a primal problem: the feasible points of the child
    are the feasible points of the parent that kill the given nullspaces. *)
Theorem primal_nullspace_exact (K : OrdField) (P : primal K) (Vs : list (fmat K)) M :
  (length Vs <= length (psz P))%nat ->
  (forall b, (b < length Vs)%nat -> frows (nth b Vs (FM 0 0 (fun _ _ => 0))) = size P b) ->
  (feasible (primal_nullspace P Vs) M <->
   feasible P M /\ forall b, (b < length Vs)%nat -> kills (size P b) (mtab (size P b) (size P b) (M b)) (nth b Vs (FM 0 0 (fun _ _ => 0)))).
Proof. exact (primal_nullspace_lemma K P Vs M). Qed.
Print Assumptions primal_nullspace_exact.
(** trace 2, one 2x2 block; [[1, -1], [-1, 1]] kills [(1, 1)] *)
Definition prob2 : primal QcOF := PR [2%nat] [(fun _ e => if (Nat.eqb e 0 || Nat.eqb e 3)%bool then q 1 1 else q 0 1, q 2 1)].
Example primal_nullspace_case : length (peqs (primal_nullspace prob2 [ones])) = 3%nat.
Proof. reflexivity. Qed.

(** ** C27: zero diagonals *)

(** Rows found by the dual search are the rows whose diagonal entry vanishes
    for every [y]. *)
Theorem dual_zero_diagonals_exact (K : OrdField) d (B : block K) i :
  In i (zero_diagonals d B) <-> (i < bn B)%nat /\ forall y, mget (Smat d B y) i i = 0.
Proof.
  split.
  - intro H. assert (L : (i < bn B)%nat) by (apply zero_diagonals_spec in H; tauto). split; [exact L|].
    intro y. rewrite mget_Smat by exact L. apply zero_diagonals_sound, H.
  - intros [L H]. apply zero_diagonals_complete; [exact L|]. intro y. rewrite <- mget_Smat by exact L. apply H.
Qed.
Print Assumptions dual_zero_diagonals_exact.

(** A zero on the diagonal of a positive semidefinite matrix clears the row. *)
Theorem psd_zero_row (K : OrdField) n (M : list (list K)) i j :
  symmetric n M -> psd n M -> (i < n)%nat -> (j < n)%nat -> mget M i i = 0 -> mget M i j = 0.
Proof. exact (psd_zero_diag K n M i j). Qed.
Print Assumptions psd_zero_row.

(** [constrain_zero_diagonals]: the loop ends, no zero diagonal is left, and
    the positive semidefinite points of the parent are exactly the images of
    those of the child, each of one point only.  A failure means that no
    positive semidefinite point exists. *)
Theorem dual_constrain_zero_diagonals_exact (K : OrdField) d (Bs : list (block K)) :
  (forall B, In B Bs -> forall y, symmetric (bn B) (Smat d B y)) ->
  match constrain_zero_diagonals (total_size Bs) d Bs with
  | Ok (ts, d', C) =>
      (forall B, In B C -> forall i, (i < bn B)%nat -> exists z, mget (Smat d' B z) i i <> 0) /\
      (forall y, (forall B, In B Bs -> psd (bn B) (Smat d B y)) <->
         exists z, (forall j, (j < d)%nat -> y j = propagate ts z j) /\ forall B, In B C -> psd (bn B) (Smat d' B z)) /\
      (forall z z', (forall j, (j < d)%nat -> propagate ts z j = propagate ts z' j) -> forall c, (c < d')%nat -> z c = z' c)
  | Err er => er = ValueError /\ forall y, ~ (forall B, In B Bs -> psd (bn B) (Smat d B y))
  end.
Proof.
  intro HS. pose proof (constrain_zero_diagonals_lemma K (total_size Bs) d Bs (le_n _) HS) as H.
  destruct (constrain_zero_diagonals (total_size Bs) d Bs) as [[[ts d'] C]|er]; [|exact H].
  destruct H as (H1 & _ & H3 & H4). split; [|split; [exact H3|exact H4]].
  intros B HB i Hi. exact (no_zero_diag K d' B i (H1 B HB) Hi).
Qed.
Print Assumptions dual_constrain_zero_diagonals_exact.

(** [[0, y0], [y0, y1]] reduces to the 1x1 block [y1], in one round;
    [[0, 1], [1, y0]] is rejected. *)
Definition zblk : block QcOF :=
  BL 2 (fun _ => q 0 1)
       (fun e c => if Nat.eqb e 0 then q 0 1 else if Nat.eqb e 3 then (if Nat.eqb c 1 then q 1 1 else q 0 1)
                   else (if Nat.eqb c 0 then q 1 1 else q 0 1)).
Example dual_constrain_zero_diagonals_case :
  match constrain_zero_diagonals (total_size [zblk]) 2 [zblk] with
  | Ok ([_], d', [C]) => d' = 1%nat /\ bn C = 1%nat
  | _ => False
  end /\
  constrain_zero_diagonals 2 1 [BL (K := QcOF) 2 (fun e => if (Nat.eqb e 1 || Nat.eqb e 2)%bool then q 1 1 else q 0 1) (fun e c => if Nat.eqb e 3 then q 1 1 else q 0 1)] = Err ValueError.
Proof. vm_compute. auto. Qed.

(** Primal problems with symmetric coefficient matrices: the rows that are
    found vanish in every feasible point, whatever the order in which the
    equations are visited. *)
Theorem primal_zero_diagonals_partial (K : OrdField) (order : list peq -> list peq) (P : primal K) M b i j :
  (forall l e, In e (order l) <-> In e l) -> sym_space P -> feasible P M ->
  In (b, i) (primal_zero_diagonals order P) -> (j < size P b)%nat -> M b i j = 0 /\ M b j i = 0.
Proof.
  intros HO SS HF HI Hj. destruct (primal_zero_sound K order P M HO SS HF b i HI) as (Hb & Hi & H).
  split; [exact (H j Hj)|]. rewrite <- (H j Hj). symmetry. apply (symM K (psz P)); [apply HF|exact Hb|exact Hi|exact Hj].
Qed.
Print Assumptions primal_zero_diagonals_partial.
(** The search does not stop early: an equation with zero right hand side whose
    remaining coefficients are diagonal and nonnegative has no remaining
    coefficients. *)
Theorem primal_zero_diagonals_closed (K : OrdField) (order : list peq -> list peq) (P : primal K) e :
  (forall l e, In e (order l) <-> In e l) -> In e (peqs P) -> snd e = 0 ->
  let Z := primal_zero_diagonals order P in
  (forall b i j, (b < length (psz P))%nat -> (i < size P b)%nat -> (j < i)%nat -> ~ In (b, i) Z -> ~ In (b, j) Z -> fst e b (i * size P b + j)%nat = 0) ->
  (forall b i, (b < length (psz P))%nat -> (i < size P b)%nat -> ~ In (b, i) Z -> 0 <= fst e b (i * size P b + i)%nat) ->
  forall b i, (b < length (psz P))%nat -> (i < size P b)%nat -> ~ In (b, i) Z -> fst e b (i * size P b + i)%nat = 0.
Proof. exact (primal_zero_closed K order P e). Qed.
Print Assumptions primal_zero_diagonals_closed.
(** [M00 + 0 M01 + M11 = 0]; the second equation alone gives nothing *)
Definition probz : primal QcOF :=
  PR [2%nat; 1%nat] [(fun b e => if Nat.eqb b 0 then (if Nat.eqb e 0 then q 1 1 else q 0 1) else q 1 1, q 0 1);
             (fun b e => if Nat.eqb b 0 then (if Nat.eqb e 0 then q 0 1 else q 1 1) else q 0 1, q 0 1)].
Example primal_zero_diagonals_case :
  primal_zero_diagonals (fun l => l) probz = [(0, 0); (1, 0); (0, 1)]%nat /\
  (forall b i j, (b < 2)%nat -> (i < size probz b)%nat -> (j < size probz b)%nat -> forall e, In e (peqs probz) ->
     fst e b (i * size probz b + j)%nat = fst e b (j * size probz b + i)%nat).
Proof.
  split; [vm_compute; reflexivity|]. intros b i j Hb Hi Hj e He. destruct b as [|[|b]]; cbn in Hi, Hj; [| |lia].
  - destruct i as [|[|i]]; [| |lia]; destruct j as [|[|j]]; try lia; destruct He as [<-|[<-|[]]]; reflexivity.
  - destruct i; [|lia]. destruct j; [|lia]. reflexivity.
Qed.

(** Only entries below the diagonal are looked at.  With a coefficient above
    the diagonal a row is removed that need not vanish: in [M00 + M01 = 0]
    row 0 is reported, and [[1, -1], [-1, 1]] is feasible. *)
Definition proba : primal QcOF := PR [2%nat] [(fun _ e => if (Nat.eqb e 0 || Nat.eqb e 1)%bool then q 1 1 else q 0 1, q 0 1)].
Definition pt (b i j : nat) : QcOF := if Nat.eqb i j then 1 else - (1).
Theorem primal_zero_diagonals_refuted :
  primal_zero_diagonals (fun l => l) proba = [(0, 0)]%nat /\ feasible proba pt /\ pt 0 0 0 <> 0.
Proof.
  split; [vm_compute; reflexivity|]. split; [|vm_compute; discriminate].
  assert (S1 : sym_blocks [2%nat] pt).
  { intros [|b] Hb; [|cbn in Hb; lia]. cbv zeta. cbn [nth]. intros i j Hi Hj. destruct i as [|[|i]]; [| |lia]; destruct j as [|[|j]]; try lia; reflexivity. }
  split; [exact S1|]. split.
  - intros [|b] Hb; [|cbn in Hb; lia]. exact (psd_pt QcOF).
  - intros e [<-|[]]. vm_compute. reflexivity.
Qed.
Print Assumptions primal_zero_diagonals_refuted.

(** Removing rows and columns that vanish loses nothing and adds nothing, and
    a decomposition of the child gives one of the parent. *)
Theorem primal_row_masking_exact (K : OrdField) (P : primal K) zs :
  (forall C, feasible (mask_primal P zs) C -> feasible P (pad P zs C)) /\
  (forall M, feasible P M ->
     (forall b i j, (b < length (psz P))%nat -> (i < size P b)%nat -> (j < size P b)%nat -> In (b, i) zs \/ In (b, j) zs -> M b i j = 0) ->
     exists C, feasible (mask_primal P zs) C /\ same_blocks (psz P) M (pad P zs C)).
Proof. exact (mask_lemma K P zs). Qed.
Print Assumptions primal_row_masking_exact.
Theorem primal_row_masking_decomposition (K : OrdField) (P : primal K) zs C U (s : nat -> nat -> K) (r : nat -> nat) :
  (forall b a c, (b < length (psz P))%nat -> (a < size (mask_primal P zs) b)%nat -> (c < size (mask_primal P zs) b)%nat ->
     C b a c = bsum (r b) (fun k => U b k a * s b k * U b k c)) ->
  forall b i j, (b < length (psz P))%nat -> pad P zs C b i j = bsum (r b) (fun k => pad_cols P zs U b k i * s b k * pad_cols P zs U b k j).
Proof.
  intro H. apply pad_cols_lemma. intros b a c Hb Ha Hc. apply H; [exact Hb| |]; rewrite size_mask by exact Hb; assumption.
Qed.
Print Assumptions primal_row_masking_decomposition.
(** The whole reduction of a primal problem. *)
Theorem primal_constrain_zero_diagonals_partial (K : OrdField) (order : list peq -> list peq) (P : primal K) :
  (forall l e, In e (order l) <-> In e l) -> sym_space P ->
  let '(ts, Q) := primal_constrain_zero (S (fold_right Nat.add 0%nat (psz P))) order P in
  primal_zero_diagonals order Q = [] /\
  (forall C, feasible Q C -> feasible P (pad_all ts C)) /\
  (forall M, feasible P M -> exists C, feasible Q C /\ same_blocks (psz P) M (pad_all ts C)).
Proof. intros HO SS. apply (primal_constrain_zero_lemma K order HO); [apply le_n|exact SS]. Qed.
Print Assumptions primal_constrain_zero_diagonals_partial.
Example primal_constrain_zero_diagonals_case : psz (snd (primal_constrain_zero 4 (fun l => l) probz)) = [0; 0]%nat.
Proof. vm_compute. reflexivity. Qed.

(** [constrain_symmetry] of a primal problem repairs the coefficients without
    changing the feasible points, so the two theorems above apply after it. *)
Theorem primal_symmetrize_exact (K : OrdField) (P : primal K) :
  sym_space (primal_symmetrize P) /\ forall M, feasible (primal_symmetrize P) M <-> feasible P M.
Proof. exact (symmetrize_lemma K P). Qed.
Print Assumptions primal_symmetrize_exact.

(** ** C56: row masking and entry constraints of dual problems *)

Theorem dual_row_masking_exact (K : OrdField) d (Bs : list (block K * list nat)) :
  (forall b, In b Bs -> forall i, In i (snd b) -> (i < bn (fst b))%nat) ->
  match row_masking d Bs with
  | Ok (t0, T, f, C) =>
      (forall y, (forall b, In b Bs -> forall i k, In i (snd b) -> (k < bn (fst b))%nat -> Sy d (fst b) y i k = 0) <-> exists z, forall j, (j < d)%nat -> y j = yof t0 T f z j) /\
      (forall z z', (forall j, (j < d)%nat -> yof t0 T f z j = yof t0 T f z' j) -> forall c, (c < f)%nat -> z c = z' c) /\
      (forall z, (forall b, In b Bs -> symmetric (bn (fst b)) (Smat d (fst b) (yof t0 T f z))) ->
         ((forall b, In b Bs -> psd (bn (fst b)) (Smat d (fst b) (yof t0 T f z))) <-> (forall B, In B C -> psd (bn B) (Smat f B z))))
  | Err er => er = ValueError /\ forall y, ~ (forall b, In b Bs -> forall i k, In i (snd b) -> (k < bn (fst b))%nat -> Sy d (fst b) y i k = 0)
  end.
Proof.
  intro H. pose proof (row_masking_lemma K d Bs H) as R. destruct (row_masking d Bs) as [[[[t0 T] f] C]|er]; [|exact R].
  destruct R as (R1 & R2 & _ & R4). exact (Logic.conj R1 (Logic.conj R2 R4)).
Qed.
Print Assumptions dual_row_masking_exact.
Example dual_row_masking_case :
  match row_masking 2 [(zblk, [0%nat])] with Ok (_, _, f, [C]) => f = 1%nat /\ bn C = 1%nat | _ => False end.
Proof. vm_compute. auto. Qed.

(** [constrain_equal_entries]: the child parametrises exactly the [y] at which
    the listed entries agree, and has the same matrices. *)
Theorem equal_entries_exact (K : OrdField) d (Bs : list (block K * list ((nat * nat) * (nat * nat)))) :
  let agree y := forall b, In b Bs -> forall i j k l, In ((i, j), (k, l)) (snd b) -> Sy d (fst b) y i j = Sy d (fst b) y k l in
  match constrain_equal_entries d Bs with
  | Ok None => forall y, agree y
  | Ok (Some (t0, T, f, C)) =>
      (forall y, agree y <-> exists z, forall j, (j < d)%nat -> y j = yof t0 T f z j) /\
      (forall z z', (forall j, (j < d)%nat -> yof t0 T f z j = yof t0 T f z' j) -> forall c, (c < f)%nat -> z c = z' c) /\
      (forall z, map (fun B => Smat f B z) C = map (fun b => Smat d (fst b) (yof t0 T f z)) Bs)
  | Err er => er = ValueError /\ forall y, ~ agree y
  end.
Proof. exact (constrain_equal_entries_lemma K d Bs). Qed.
Print Assumptions equal_entries_exact.
(** [constrain_symmetry] *)
Theorem symmetry_exact (K : OrdField) d (Bs : list (block K)) :
  let sym y := forall B, In B Bs -> symmetric (bn B) (Smat d B y) in
  match constrain_symmetry d Bs with
  | Ok None => forall y, sym y
  | Ok (Some (t0, T, f, C)) =>
      (forall y, sym y <-> exists z, forall j, (j < d)%nat -> y j = yof t0 T f z j) /\
      (forall z z', (forall j, (j < d)%nat -> yof t0 T f z j = yof t0 T f z' j) -> forall c, (c < f)%nat -> z c = z' c) /\
      (forall z, map (fun B => Smat f B z) C = map (fun B => Smat d B (yof t0 T f z)) Bs)
  | Err er => er = ValueError /\ forall y, ~ sym y
  end.
Proof.
  pose proof (constrain_symmetry_lemma K d Bs) as H. cbv zeta. destruct (constrain_symmetry d Bs) as [[[[[t0 T] f] C]|]|er]; [exact H| |exact H].
  intros y B HB. exact (H B HB y).
Qed.
Print Assumptions symmetry_exact.
(** [[y0, y1], [y2, y3]] made symmetric has three parameters *)
Example symmetry_case :
  match constrain_symmetry 4 [BL (K := QcOF) 2 (fun _ => q 0 1) (fun e c => if Nat.eqb e c then q 1 1 else q 0 1)] with
  | Ok (Some (_, _, f, _)) => f = 3%nat
  | _ => False
  end.
Proof. vm_compute. reflexivity. Qed.
