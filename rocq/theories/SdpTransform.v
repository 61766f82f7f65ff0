(** * Transformations of dual SDP problems (triples/sdp/transform.py) *)
From Coq Require Import Bool List Arith Lia Ring Field.
From Verif Require Import OrdField Base Congruence LinSolve.
Import ListNotations.

Section Model.
Context {K : OrdField}.
Local Open Scope of_scope.

(** A matrix with explicit size *)
Record fmat := FM { frows : nat; fcols : nat; fent : nat -> nat -> K }.
(** One entry of [_x0_and_space]: size, constant vector, coefficient matrix.
    The matrix at [y] is [vec2mat(x0 + space * y)] (see Mat2Vec.v). *)
Record block := BL { bn : nat; bx : nat -> K; bs : nat -> nat -> K }.
Definition Sy (d : nat) (B : block) (y : nat -> K) (i j : nat) : K :=
  bx B (i * bn B + j) + bsum d (fun c => bs B (i * bn B + j) c * y c).
Definition Smat (d : nat) (B : block) (y : nat -> K) : list (list K) := mtab (bn B) (bn B) (Sy d B y).

(** [is_empty_matrix] (utils.py:108-117) *)
Definition is_empty (M : fmat) : bool := ((frows M =? 0) || (fcols M =? 0))%nat.
Definition is_empty_or_zero (M : fmat) : bool :=
  is_empty M || negb (existsb (fun i => existsb (fun j => negb (fent M i j =? 0)) (seq 0 (fcols M))) (seq 0 (frows M))).

(** [eqs * y + rhs = 0  =>  y = t0 + T z] through [solve_undetermined_linear] *)
Definition solve_eqs (d : nat) (eqs : list (list K * K)) : res (list K * list (list K) * nat) :=
  match solve_linear d (map fst eqs) (map (fun e => - snd e) eqs) with
  | Ok (t0, T) => Ok (t0, T, length (hd [] T))
  | Err er => Err er
  end.
Definition yof (t0 : list K) (T : list (list K)) (f : nat) (z : nat -> K) (j : nat) : K :=
  vget t0 j + bsum f (fun c => mget T j c * z c).

(** ** DualMatrixTransform (transform.py:103-235) *)
(** The equations [A_i0 V + sum_j y_j A_ij V = 0] of one block; the products
    [matmul_multiple] and [matmul] are exact (Int64.v). *)
Definition null_eqs (d : nat) (B : block) (V : fmat) : list (list K * K) :=
  if is_empty V then []
  else flat_map (fun i => map (fun c =>
         (vtab d (fun j => bsum (bn B) (fun k => bs B (i * bn B + k) j * fent V k c)),
          bsum (bn B) (fun k => bx B (i * bn B + k) * fent V k c))) (seq 0 (fcols V))) (seq 0 (bn B)).
(** [U' A U] for the constant part and for every coefficient, then [y = t0 + T z].
    [None]: the key is absent from the child. *)
Definition child_block (d f : nat) (t0 : list K) (T : list (list K)) (B : block) (U : fmat) : option block :=
  if is_empty U then None
  else
    let r := fcols U in
    let form (A : nat -> K) (e : nat) :=
      bsum (bn B) (fun i => bsum (bn B) (fun k => fent U i (e / r) * A (i * bn B + k)%nat * fent U k (e mod r))) in
    let eq_mat e j := form (fun p => bs B p j) e in
    Some (BL r
      (fun e => form (bx B) e + bsum d (fun j => eq_mat e j * vget t0 j))
      (fun e c => bsum d (fun j => eq_mat e j * mget T j c))).
Definition dual_matrix_transform (d : nat) (Bs : list (block * (fmat * fmat)))
  : res (list K * list (list K) * nat * list (option block)) :=
  if forallb (fun b => is_empty (snd (snd b))) Bs then Err OtherError (* ShapeError: no equations at all *)
  else
    match solve_eqs d (flat_map (fun b => null_eqs d (fst b) (snd (snd b))) Bs) with
    | Ok (t0, T, f) => Ok (t0, T, f, map (fun b => child_block d f t0 T (fst b) (fst (snd b))) Bs)
    | Err er => Err er
    end.

(** [SDPMatrixTransform(parent, nullspace=...)] and [(parent, columnspace=...)].
    [reg] is [hstack] of sympy's [columnspace()], [perp] is [solve_nullspace]. *)
Inductive transformed := Identity | Child (t0 : list K) (T : list (list K)) (f : nat) (C : list (option block)).
Definition constrain_nullspace (reg perp : fmat -> fmat) (d : nat) (Bs : list (block * fmat)) : res transformed :=
  if forallb (fun b => is_empty_or_zero (snd b)) Bs then Ok Identity
  else
    match dual_matrix_transform d (map (fun b => (fst b, (perp (reg (snd b)), reg (snd b)))) Bs) with
    | Ok (t0, T, f, C) => Ok (Child t0 T f C)
    | Err er => Err er
    end.
Definition constrain_subspace (reg perp : fmat -> fmat) (d : nat) (Bs : list (block * fmat)) : res transformed :=
  if forallb (fun b => is_empty_or_zero (snd b)) Bs then Ok Identity
  else
    match dual_matrix_transform d (map (fun b => (fst b, (reg (snd b), perp (reg (snd b))))) Bs) with
    | Ok (t0, T, f, C) => Ok (Child t0 T f C)
    | Err er => Err er
    end.

(** ** SDPRowMasking / DualRowMasking (transform.py:294-397) *)
Definition unmask (n : nat) (mask : list nat) : list nat := filter (fun i => negb (existsb (Nat.eqb i) mask)) (seq 0 n).
Definition mask_eqs (d : nat) (B : block) (mask : list nat) : list (list K * K) :=
  flat_map (fun i => map (fun k => (vtab d (fun j => bs B (i * bn B + k) j), bx B (i * bn B + k))) (seq 0 (bn B))) mask.
Definition masked_block (d f : nat) (t0 : list K) (T : list (list K)) (B : block) (mask : list nat) : block :=
  let um := unmask (bn B) mask in
  let r := length um in
  let idx e := (nth (e / r) um 0 * bn B + nth (e mod r) um 0)%nat in
  BL r (fun e => bx B (idx e) + bsum d (fun j => bs B (idx e) j * vget t0 j))
       (fun e c => bsum d (fun j => bs B (idx e) j * mget T j c)).
Definition row_masking (d : nat) (Bs : list (block * list nat)) : res (list K * list (list K) * nat * list block) :=
  match solve_eqs d (flat_map (fun b => mask_eqs d (fst b) (snd b)) Bs) with
  | Ok (t0, T, f) => Ok (t0, T, f, map (fun b => masked_block d f t0 T (fst b) (snd b)) Bs)
  | Err er => Err er
  end.

(** [_get_zero_diagonals] of a dual problem (transform.py:819-827) *)
Definition zero_diagonals (d : nat) (B : block) : list nat :=
  filter (fun i => (bx B (i * bn B + i) =? 0) && negb (existsb (fun c => negb (bs B (i * bn B + i) c =? 0)) (seq 0 d)))
         (seq 0 (bn B)).

(** [constrain_zero_diagonals] with [recursive = True] (transform.py:333-347).
    The loop is bounded by the total size, which drops in every round; the
    list collects the transforms from the parent down. *)
Fixpoint constrain_zero_diagonals (fuel : nat) (d : nat) (Bs : list block)
  : res (list (list K * list (list K) * nat) * nat * list block) :=
  if forallb (fun B => match zero_diagonals d B with [] => true | _ => false end) Bs then Ok ([], d, Bs)
  else
    match fuel with
    | O => Err OtherError
    | S fuel' =>
        match row_masking d (map (fun B => (B, zero_diagonals d B)) Bs) with
        | Err er => Err er
        | Ok (t0, T, f, Bs') =>
            match constrain_zero_diagonals fuel' f Bs' with
            | Ok (ts, d', Bs'') => Ok ((t0, T, f) :: ts, d', Bs'')
            | Err er => Err er
            end
        end
    end.
Definition total_size (Bs : list block) : nat := fold_right (fun B s => bn B + s)%nat 0%nat Bs.
(** [propagate_to_parent] along the chain (transform.py:225-231) *)
Fixpoint propagate (ts : list (list K * list (list K) * nat)) (z : nat -> K) : nat -> K :=
  match ts with [] => z | (t0, T, f) :: ts' => yof t0 T f (propagate ts' z) end.

(** ** SDPVectorTransform.from_equations (transform.py:461-503) with
    constrain_equal_entries (transform.py:790-817); [None]: no equation, the
    problem itself is returned. *)
Definition equal_eqs (d : nat) (B : block) (tuples : list ((nat * nat) * (nat * nat))) : list (list K * K) :=
  flat_map (fun t =>
    let p := (fst (fst t) * bn B + snd (fst t))%nat in let r := (fst (snd t) * bn B + snd (snd t))%nat in
    if ((fst (fst t) =? fst (snd t)) && (snd (fst t) =? snd (snd t)))%nat then []
    else [(vtab d (fun j => bs B p j - bs B r j), - (bx B r - bx B p))]) tuples.
Definition vector_child (d f : nat) (t0 : list K) (T : list (list K)) (B : block) : block :=
  BL (bn B) (fun e => bx B e + bsum d (fun j => bs B e j * vget t0 j)) (fun e c => bsum d (fun j => bs B e j * mget T j c)).
Definition constrain_equal_entries (d : nat) (Bs : list (block * list ((nat * nat) * (nat * nat))))
  : res (option (list K * list (list K) * nat * list block)) :=
  match flat_map (fun b => equal_eqs d (fst b) (snd b)) Bs with
  | [] => Ok None
  | eqs =>
      match solve_eqs d eqs with
      | Ok (t0, T, f) => Ok (Some (t0, T, f, map (fun b => vector_child d f t0 T (fst b)) Bs))
      | Err er => Err er
      end
  end.
(** [constrain_symmetry] (transform.py:773-788) *)
Definition sym_tuples (n : nat) : list ((nat * nat) * (nat * nat)) :=
  flat_map (fun i => map (fun j => ((i, j), (j, i))) (seq 0 i)) (seq 1 (n - 1)).
Definition constrain_symmetry (d : nat) (Bs : list block) := constrain_equal_entries d (map (fun B => (B, sym_tuples (bn B))) Bs).
End Model.
Arguments fmat : clear implicits.
Arguments block : clear implicits.
Arguments transformed : clear implicits.

(** ** Specification *)
Section Spec.
Context {K : OrdField}.
Local Open Scope of_scope.
(** The columns of [P] span the orthogonal complement of the columns of [X]. *)
Definition spans_perp (X P : fmat K) : Prop :=
  frows P = frows X /\
  (forall c e, (c < fcols X)%nat -> (e < fcols P)%nat -> bsum (frows X) (fun i => fent X i c * fent P i e) = 0) /\
  forall x : nat -> K, (forall c, (c < fcols X)%nat -> bsum (frows X) (fun i => fent X i c * x i) = 0) ->
    exists v : nat -> K, forall i, (i < frows X)%nat -> x i = bsum (fcols P) (fun e => fent P i e * v e).
(** The columns of [X] and [Y] span the same space. *)
Definition same_span (X Y : fmat K) : Prop :=
  frows Y = frows X /\
  (forall c, (c < fcols X)%nat -> exists v : nat -> K, forall i, (i < frows X)%nat -> fent X i c = bsum (fcols Y) (fun e => fent Y i e * v e)) /\
  (forall c, (c < fcols Y)%nat -> exists v : nat -> K, forall i, (i < frows X)%nat -> fent Y i c = bsum (fcols X) (fun e => fent X i e * v e)).
(** [M N = 0] *)
Definition kills (n : nat) (S : list (list K)) (N : fmat K) : Prop :=
  forall i c, (i < n)%nat -> (c < fcols N)%nat -> bsum n (fun k => mget S i k * fent N k c) = 0.
(** the columns of [S] lie in the span of [U] *)
Definition range_in (n : nat) (S : list (list K)) (U : fmat K) : Prop :=
  forall j, (j < n)%nat -> exists v : nat -> K, forall i, (i < n)%nat -> mget S i j = bsum (fcols U) (fun e => fent U i e * v e).
End Spec.

Section Proofs.
Variable K : OrdField.
Local Open Scope of_scope.
Add Field Kf : (F_field K).
Implicit Types (x y z : nat -> K) (B : block K) (U V X Y P : fmat K) (M : list (list K)).

Lemma solve_eqs_spec d (eqs : list (list K * K)) : (forall e, In e eqs -> length (fst e) = d) ->
  match solve_eqs d eqs with
  | Ok (t0, T, f) =>
      (forall y, (forall e, In e eqs -> bsum d (fun j => vget (fst e) j * y j) + snd e = 0) <-> exists z, forall j, (j < d)%nat -> y j = yof t0 T f z j) /\
      (forall z z', (forall j, (j < d)%nat -> yof t0 T f z j = yof t0 T f z' j) -> forall c, (c < f)%nat -> z c = z' c)
  | Err er => er = ValueError /\ forall y, ~ (forall e, In e eqs -> bsum d (fun j => vget (fst e) j * y j) + snd e = 0)
  end.
Proof.
  intro HW. unfold solve_eqs.
  assert (HL : length (map fst eqs) = length (map (fun e => - snd e) eqs)) by (rewrite !map_length; reflexivity).
  assert (HF : Forall (fun row => length row = d) (map fst eqs)).
  { apply Forall_forall. intros r Hr. apply in_map_iff in Hr. destruct Hr as (e & <- & He). auto. }
  pose proof (solve_linear_spec K d _ _ HL HF) as SP.
  assert (SOL : forall y, (forall e, In e eqs -> bsum d (fun j => vget (fst e) j * y j) + snd e = 0) <-> solves d (map fst eqs) (map (fun e => - snd e) eqs) (vtab d y)).
  { intro y. unfold solves. rewrite vtab_length. clear SP HL HF HW. split.
    - intro H. split; [reflexivity|]. induction eqs as [|e l IH]; cbn; constructor.
      + pose proof (H e (or_introl eq_refl)) as E. unfold dotv. transitivity (bsum d (fun j => vget (fst e) j * y j) + snd e - snd e).
        * assert (Q : bsum d (fun j => vget (fst e) j * vget (vtab d y) j) = bsum d (fun j => vget (fst e) j * y j)) by (apply bsum_ext; intros; rewrite vget_vtab by assumption; reflexivity).
          rewrite Q. ring.
        * rewrite E. ring.
      + apply IH. intros; apply H; right; assumption.
    - intros [_ F]. induction eqs as [|e l IH]; intros e' He; [destruct He|]. cbn in F. inversion F; subst. destruct He as [<-|He]; [|apply IH; assumption].
      unfold dotv in H2. transitivity (bsum d (fun j => vget (fst e) j * vget (vtab d y) j) + snd e).
      + f_equal. apply bsum_ext. intros; rewrite vget_vtab by assumption; reflexivity.
      + rewrite H2. ring. }
  destruct (solve_linear d (map fst eqs) (map (fun e => - snd e) eqs)) as [[t0 T]|er].
  - destruct SP as (L0 & L1 & f & HWd & HS & HU).
    assert (Hf : d = 0%nat \/ (forall row, In row T -> length row = length (hd [] T)) /\ f = length (hd [] T)).
    { destruct T as [|r T]; [left; cbn in L1; lia|right]. cbn [hd]. rewrite (HWd r (or_introl eq_refl)). auto. }
    destruct Hf as [->|[_ ->]].
    + destruct T; [|cbn in L1; lia]. cbn [hd length]. split; [|intros; lia]. intro y. split; [intros _; exists (fun _ => 0); intros; lia|].
      intros _. apply SOL, HS. exists (repeat 0 f). split; [apply repeat_length|]. split; [reflexivity|intros; lia].
    + assert (AF : forall y z, (forall j, (j < d)%nat -> y j = yof t0 T (length (hd [] T)) z j) <-> affine_point d t0 T (vtab (length (hd [] T)) z) (vtab d y)).
      { intros y z. unfold affine_point, yof. rewrite !vtab_length. unfold dotv. split.
        - intro H. split; [reflexivity|]. intros j Hj. rewrite vget_vtab, (H j Hj) by exact Hj. f_equal. apply bsum_ext. intros c Hc. rewrite vget_vtab by exact Hc. reflexivity.
        - intros [_ H] j Hj. specialize (H j Hj). rewrite vget_vtab in H by exact Hj. rewrite H. f_equal. apply bsum_ext. intros c Hc. rewrite vget_vtab by exact Hc. reflexivity. }
      split.
      * intro y. rewrite SOL, HS. split.
        -- intros (w & Hw & Ha). exists (vget w). apply AF. replace (vtab (length (hd [] T)) (vget w)) with w; [exact Ha|].
           apply (nth_ext _ _ 0 0); [rewrite vtab_length; exact Hw|]. intros c Hc. change (vget w c = vget (vtab (length (hd [] T)) (vget w)) c).
           rewrite vget_vtab by lia. reflexivity.
        -- intros (z & Hz). exists (vtab (length (hd [] T)) z). split; [apply vtab_length|]. apply AF, Hz.
      * intros z z' H c Hc. assert (E : vtab (length (hd [] T)) z = vtab (length (hd [] T)) z').
        { apply (HU (vtab d (yof t0 T (length (hd [] T)) z))); [apply vtab_length|apply vtab_length| |]; apply AF; [reflexivity|exact H]. }
        rewrite <- (vget_vtab K (length (hd [] T)) z c Hc), E, vget_vtab by exact Hc. reflexivity.
  - destruct SP as [-> H]. split; [reflexivity|]. intros y Hy. apply (H (vtab d y)). apply SOL, Hy.
Qed.

(** *** The matrix of a block along the substitution *)
Lemma Sy_ext d B y y' i j : (forall c, (c < d)%nat -> y c = y' c) -> Sy d B y i j = Sy d B y' i j.
Proof. intro H. unfold Sy. f_equal. apply bsum_ext. intros c Hc. rewrite H by exact Hc. reflexivity. Qed.
Lemma mget_Smat d B y i j : (i < bn B)%nat -> (j < bn B)%nat -> mget (Smat d B y) i j = Sy d B y i j.
Proof. intros. unfold Smat. apply mget_mtab; assumption. Qed.
Lemma subst_sum d f t0 T (a : nat -> K) z :
  bsum d (fun j => a j * yof t0 T f z j) = bsum d (fun j => a j * vget t0 j) + bsum f (fun c => bsum d (fun j => a j * mget T j c) * z c).
Proof.
  unfold yof. transitivity (bsum d (fun j => a j * vget t0 j) + bsum d (fun j => bsum f (fun c => a j * mget T j c * z c))).
  - rewrite <- bsum_add. apply bsum_ext. intros j _.
    assert (Q : bsum f (fun c => a j * mget T j c * z c) = a j * bsum f (fun c => mget T j c * z c)) by (rewrite <- bsum_mul_l; apply bsum_ext; intros; ring).
    rewrite Q. ring.
  - f_equal. rewrite bsum_swap. apply bsum_ext. intros c _. rewrite bsum_mul_r. reflexivity.
Qed.
Lemma pair_index r a b : (b < r)%nat -> ((a * r + b) / r = a /\ (a * r + b) mod r = b)%nat.
Proof.
  intro H. assert (r <> 0)%nat by lia. split.
  - rewrite Nat.div_add_l by assumption. rewrite Nat.div_small by exact H. lia.
  - rewrite Nat.add_comm, Nat.mod_add by assumption. apply Nat.mod_small, H.
Qed.
(** The child's matrix is [U' S(y) U]. *)
Definition conj (n : nat) (U : fmat K) (M : nat -> nat -> K) (a b : nat) : K :=
  bsum n (fun i => bsum n (fun k => fent U i a * M i k * fent U k b)).
Lemma child_block_entry d f t0 T B U C z a b : child_block d f t0 T B U = Some C -> (a < fcols U)%nat -> (b < fcols U)%nat ->
  Sy f C z a b = conj (bn B) U (Sy d B (yof t0 T f z)) a b.
Proof.
  unfold child_block. destruct (is_empty U); [discriminate|]. intro E. inversion E; subst. clear E. intros Ha Hb.
  unfold Sy at 1. cbn [bn bx bs]. destruct (pair_index (fcols U) a b Hb) as [-> ->]. unfold conj.
  assert (L : forall A B' : nat -> K, forall c, bsum (bn B) (fun i => bsum (bn B) (fun k => fent U i a * (A (i * bn B + k)%nat + c * B' (i * bn B + k)%nat) * fent U k b))
    = bsum (bn B) (fun i => bsum (bn B) (fun k => fent U i a * A (i * bn B + k)%nat * fent U k b)) + c * bsum (bn B) (fun i => bsum (bn B) (fun k => fent U i a * B' (i * bn B + k)%nat * fent U k b))).
  { intros A B' c. rewrite <- bsum_mul_l, <- bsum_add. apply bsum_ext. intros i _. rewrite <- bsum_mul_l, <- bsum_add. apply bsum_ext. intros k _. ring. }
  transitivity (bsum (bn B) (fun i => bsum (bn B) (fun k => fent U i a * bx B (i * bn B + k) * fent U k b))
    + bsum d (fun j => bsum (bn B) (fun i => bsum (bn B) (fun k => fent U i a * bs B (i * bn B + k) j * fent U k b)) * yof t0 T f z j)).
  { rewrite (subst_sum d f t0 T (fun j => bsum (bn B) (fun i => bsum (bn B) (fun k => fent U i a * bs B (i * bn B + k) j * fent U k b))) z). ring. }
  clear L. unfold Sy. generalize (yof t0 T f z). intro y. clear.
  transitivity (bsum (bn B) (fun i => bsum (bn B) (fun k => fent U i a * bx B (i * bn B + k) * fent U k b))
    + bsum (bn B) (fun i => bsum (bn B) (fun k => bsum d (fun j => fent U i a * bs B (i * bn B + k) j * fent U k b * y j)))).
  - f_equal. transitivity (bsum d (fun j => bsum (bn B) (fun i => bsum (bn B) (fun k => fent U i a * bs B (i * bn B + k) j * fent U k b * y j)))).
    + apply bsum_ext. intros j _. rewrite <- bsum_mul_r. apply bsum_ext. intros i _. rewrite <- bsum_mul_r. reflexivity.
    + rewrite bsum_swap. apply bsum_ext. intros i _. rewrite bsum_swap. reflexivity.
  - rewrite <- bsum_add. apply bsum_ext. intros i _. rewrite <- bsum_add. apply bsum_ext. intros k _.
    assert (Q : bsum d (fun j => fent U i a * bs B (i * bn B + k) j * fent U k b * y j) = fent U i a * fent U k b * bsum d (fun j => bs B (i * bn B + k) j * y j)).
    { rewrite <- bsum_mul_l. apply bsum_ext. intros; ring. }
    rewrite Q. ring.
Qed.

(** The equations say exactly [S(y) V = 0]. *)
Lemma null_eqs_iff d B V y : frows V = bn B ->
  (forall e, In e (null_eqs d B V) -> bsum d (fun j => vget (fst e) j * y j) + snd e = 0) <-> kills (bn B) (Smat d B y) V.
Proof.
  intro HR. unfold null_eqs, kills.
  assert (G : forall i c, (i < bn B)%nat -> bsum (bn B) (fun k => mget (Smat d B y) i k * fent V k c)
    = bsum d (fun j => bsum (bn B) (fun k => bs B (i * bn B + k) j * fent V k c) * y j) + bsum (bn B) (fun k => bx B (i * bn B + k) * fent V k c)).
  { intros i c Hi. transitivity (bsum (bn B) (fun k => bx B (i * bn B + k) * fent V k c + bsum d (fun j => bs B (i * bn B + k) j * fent V k c * y j))).
    - apply bsum_ext. intros k Hk. rewrite mget_Smat by assumption. unfold Sy.
      assert (Q : bsum d (fun j => bs B (i * bn B + k) j * fent V k c * y j) = fent V k c * bsum d (fun j => bs B (i * bn B + k) j * y j)).
      { rewrite <- bsum_mul_l. apply bsum_ext. intros; ring. }
      rewrite Q. ring.
    - rewrite bsum_add, bsum_swap. assert (Q : bsum d (fun j => bsum (bn B) (fun k => bs B (i * bn B + k) j * fent V k c * y j)) = bsum d (fun j => bsum (bn B) (fun k => bs B (i * bn B + k) j * fent V k c) * y j)).
      { apply bsum_ext. intros j _. rewrite bsum_mul_r. reflexivity. }
      rewrite Q. ring. }
  destruct (is_empty V) eqn:E.
  - unfold is_empty in E. apply orb_true_iff in E. rewrite !Nat.eqb_eq in E. split; [|intros _ e []]. intros _ i c Hi Hc. lia.
  - split.
    + intros H i c Hi Hc. rewrite G by exact Hi.
      specialize (H (vtab d (fun j => bsum (bn B) (fun k => bs B (i * bn B + k) j * fent V k c)), bsum (bn B) (fun k => bx B (i * bn B + k) * fent V k c))).
      cbn [fst snd] in H. rewrite <- H.
      * f_equal. apply bsum_ext. intros j Hj. rewrite vget_vtab by exact Hj. reflexivity.
      * apply in_flat_map. exists i. split; [apply in_seq; lia|]. apply in_map_iff. exists c. split; [reflexivity|apply in_seq; lia].
    + intros H e He. apply in_flat_map in He. destruct He as (i & Hi & He). apply in_map_iff in He. destruct He as (c & <- & Hc).
      apply in_seq in Hi, Hc. cbn [fst snd]. specialize (H i c ltac:(lia) ltac:(lia)). rewrite G in H by lia. rewrite <- H.
      f_equal. apply bsum_ext. intros j Hj. rewrite vget_vtab by exact Hj. reflexivity.
Qed.
Lemma null_eqs_width d B V e : In e (null_eqs d B V) -> length (fst e) = d.
Proof.
  unfold null_eqs. destruct (is_empty V); [intros []|]. intro He. apply in_flat_map in He. destruct He as (i & Hi & He).
  apply in_map_iff in He. destruct He as (c & <- & Hc). apply vtab_length.
Qed.

(** *** Positive semidefiniteness passes through [S = U M U'] *)
Lemma qform_ext n M x x' : (forall i, (i < n)%nat -> x i = x' i) -> qform n M x = qform n M x'.
Proof. intro H. unfold qform. apply bsum_ext. intros i Hi. apply bsum_ext. intros j Hj. rewrite !H by assumption. reflexivity. Qed.
Lemma qform_conj n r U M v : qform r (mtab r r (conj n U (mget M))) v = qform n M (fun i => bsum r (fun a => fent U i a * v a)).
Proof.
  unfold qform. transitivity (bsum r (fun a => bsum r (fun b => bsum n (fun i => bsum n (fun k => v a * fent U i a * mget M i k * fent U k b * v b))))).
  - apply bsum_ext. intros a Ha. apply bsum_ext. intros b Hb. rewrite mget_mtab by assumption. unfold conj.
    rewrite <- bsum_mul_l, <- bsum_mul_r. apply bsum_ext. intros i _. rewrite <- bsum_mul_l, <- bsum_mul_r. apply bsum_ext. intros; ring.
  - symmetry. transitivity (bsum n (fun i => bsum n (fun k => bsum r (fun a => bsum r (fun b => v a * fent U i a * mget M i k * fent U k b * v b))))).
    + apply bsum_ext. intros i _. apply bsum_ext. intros k _. rewrite <- !bsum_mul_r. apply bsum_ext. intros a _. rewrite <- bsum_mul_l. apply bsum_ext. intros; ring.
    + transitivity (bsum n (fun i => bsum r (fun a => bsum n (fun k => bsum r (fun b => v a * fent U i a * mget M i k * fent U k b * v b))))).
      { apply bsum_ext. intros i _. apply bsum_swap. }
      rewrite bsum_swap. apply bsum_ext. intros a _.
      transitivity (bsum n (fun i => bsum r (fun b => bsum n (fun k => v a * fent U i a * mget M i k * fent U k b * v b)))).
      { apply bsum_ext. intros i _. apply bsum_swap. }
      apply bsum_swap.
Qed.
Lemma qform_bil n M x : qform n M x = bsum n (fun i => x i * bsum n (fun j => mget M i j * x j)).
Proof. unfold qform. apply bsum_ext. intros i _. rewrite <- bsum_mul_l. apply bsum_ext. intros; ring. Qed.

(** Every vector is a combination of the columns of [U] and of [V]. *)
Definition span_all (n : nat) U V : Prop :=
  forall x, exists u v : nat -> K, forall i, (i < n)%nat -> x i = bsum (fcols U) (fun a => fent U i a * u a) + bsum (fcols V) (fun c => fent V i c * v c).
Lemma psd_conj_fwd n r U M : psd n M -> psd r (mtab r r (conj n U (mget M))).
Proof. intros H v. rewrite qform_conj. apply H. Qed.
Lemma psd_conj_back n U V M : symmetric n M -> kills n M V -> span_all n U V -> psd (fcols U) (mtab (fcols U) (fcols U) (conj n U (mget M))) -> psd n M.
Proof.
  intros HS HK HA HP x. destruct (HA x) as (u & v & E). specialize (HP u). rewrite qform_conj in HP.
  pose (p := fun i => bsum (fcols U) (fun a => fent U i a * u a)). pose (q := fun i => bsum (fcols V) (fun c => fent V i c * v c)).
  fold p in HP. replace (qform n M x) with (qform n M p); [exact HP|].
  assert (Mq : forall i, (i < n)%nat -> bsum n (fun j => mget M i j * q j) = 0).
  { intros i Hi. unfold q. transitivity (bsum n (fun j => bsum (fcols V) (fun c => mget M i j * fent V j c * v c))).
    - apply bsum_ext. intros j _. rewrite <- bsum_mul_l. apply bsum_ext. intros; ring.
    - rewrite bsum_swap. apply bsum_all0. intros c Hc. rewrite bsum_mul_r, (HK i c Hi Hc). ring. }
  rewrite (qform_ext n M x (fun i => p i + q i) E). rewrite !qform_bil. symmetry.
  transitivity (bsum n (fun i => (p i + q i) * bsum n (fun j => mget M i j * p j))).
  { apply bsum_ext. intros i Hi. f_equal. rewrite <- (bsum_ext K n (fun j => mget M i j * p j + mget M i j * q j)) by (intros; ring).
    rewrite bsum_add, (Mq i Hi). ring. }
  transitivity (bsum n (fun i => p i * bsum n (fun j => mget M i j * p j)) + bsum n (fun i => q i * bsum n (fun j => mget M i j * p j))).
  { rewrite <- bsum_add. apply bsum_ext. intros; ring. }
  assert (Z : bsum n (fun i => q i * bsum n (fun j => mget M i j * p j)) = 0).
  { transitivity (bsum n (fun i => bsum n (fun j => q i * mget M i j * p j))).
    - apply bsum_ext. intros i _. rewrite <- bsum_mul_l. apply bsum_ext. intros; ring.
    - rewrite bsum_swap. apply bsum_all0. intros j Hj. rewrite bsum_mul_r. 
      rewrite (bsum_ext K n _ (fun i => mget M j i * q i)) by (intros i Hi; rewrite (HS i j Hi Hj); ring). rewrite (Mq j Hj). ring. }
  rewrite Z. ring.
Qed.

(** *** Orthogonal projection *)
Lemma project n (X : nat -> nat -> K) m : forall x, exists v r : nat -> K,
  (forall i, (i < n)%nat -> x i = bsum m (fun c => X i c * v c) + r i) /\
  (forall c, (c < m)%nat -> bsum n (fun i => X i c * r i) = 0).
Proof.
  induction m as [|m IH]; intro x.
  - exists (fun _ => 0), x. split; [intros; cbn; ring|intros; lia].
  - destruct (IH x) as (v & r & E1 & O1). destruct (IH (fun i => X i m)) as (e & s & E2 & O2).
    assert (HX : forall r0, (forall c, (c < m)%nat -> bsum n (fun i => X i c * r0 i) = 0) -> bsum n (fun i => X i m * r0 i) = bsum n (fun i => s i * r0 i)).
    { intros r0 H0. transitivity (bsum n (fun i => bsum m (fun c => X i c * e c * r0 i)) + bsum n (fun i => s i * r0 i)).
      - rewrite <- bsum_add. apply bsum_ext. intros i Hi. rewrite (E2 i Hi), bsum_mul_r. ring.
      - rewrite bsum_swap, bsum_all0; [ring|]. intros c Hc.
        transitivity (e c * bsum n (fun i => X i c * r0 i)); [rewrite <- bsum_mul_l; apply bsum_ext; intros; ring|]. rewrite (H0 c Hc). ring. }
    destruct (feq_dec K (bsum n (fun i => s i * s i)) 0) as [Z|Z].
    + assert (S0 : forall i, (i < n)%nat -> s i = 0).
      { intros i Hi. pose proof (bsum_eq0 K n (fun i => s i * s i) (fun j _ => fsqr_nonneg K (s j)) Z i Hi) as Q. cbv beta in Q.
        apply fmul_eq0 in Q. destruct Q; assumption. }
      exists (fun c => if (c =? m)%nat then 0 else v c), r. split.
      * intros i Hi. cbn [bsum]. rewrite Nat.eqb_refl, (E1 i Hi).
        rewrite (bsum_ext K m (fun c => X i c * (if (c =? m)%nat then 0 else v c)) (fun c => X i c * v c)); [ring|].
        intros c Hc. destruct (Nat.eqb_spec c m); [lia|reflexivity].
      * intros c Hc. destruct (Nat.eq_dec c m) as [->|N]; [|apply O1; lia]. rewrite (HX r O1). apply bsum_all0. intros i Hi. rewrite (S0 i Hi). ring.
    + pose (t := bsum n (fun i => s i * r i) / bsum n (fun i => s i * s i)).
      exists (fun c => if (c =? m)%nat then t else v c - t * e c), (fun i => r i - t * s i).
      assert (OO : forall c, (c < m)%nat -> bsum n (fun i => X i c * (r i - t * s i)) = 0).
      { intros c Hc. transitivity (bsum n (fun i => X i c * r i) - t * bsum n (fun i => X i c * s i)).
        - rewrite <- bsum_mul_l, <- bsum_sub. apply bsum_ext. intros; ring.
        - rewrite (O1 c Hc), (O2 c Hc). ring. }
      split.
      * intros i Hi. cbn [bsum]. rewrite Nat.eqb_refl, (E1 i Hi), (E2 i Hi).
        rewrite (bsum_ext K m (fun c => X i c * (if (c =? m)%nat then t else v c - t * e c)) (fun c => X i c * v c - t * (X i c * e c))).
        -- rewrite bsum_sub, bsum_mul_l. ring.
        -- intros c Hc. destruct (Nat.eqb_spec c m); [lia|ring].
      * intros c Hc. destruct (Nat.eq_dec c m) as [->|N]; [|apply OO; lia]. rewrite (HX _ OO).
        transitivity (bsum n (fun i => s i * r i) - t * bsum n (fun i => s i * s i)).
        -- rewrite <- bsum_mul_l, <- bsum_sub. apply bsum_ext. intros; ring.
        -- unfold t. field. exact Z.
Qed.
Lemma span_all_perp X P : spans_perp X P -> span_all (frows X) P X.
Proof.
  intros (H1 & H2 & H3) x. destruct (project (frows X) (fent X) (fcols X) x) as (v & r & E & O).
  destruct (H3 r O) as (u & Eu). exists u, v. intros i Hi. rewrite (E i Hi), (Eu i Hi). ring.
Qed.
Lemma span_all_sym n U V : span_all n U V -> span_all n V U.
Proof. intros H x. destruct (H x) as (u & v & E). exists v, u. intros i Hi. rewrite (E i Hi). ring. Qed.
Lemma kills_span n M X Y : frows X = n -> same_span X Y -> (kills n M X <-> kills n M Y).
Proof.
  intros HR (H1 & H2 & H3). assert (G : forall A C : fmat K, (forall c, (c < fcols A)%nat -> exists v : nat -> K, forall i, (i < n)%nat -> fent A i c = bsum (fcols C) (fun e => fent C i e * v e)) -> kills n M C -> kills n M A).
  { intros A C H HK i c Hi Hc. destruct (H c Hc) as (v & E).
    transitivity (bsum n (fun k => bsum (fcols C) (fun e => mget M i k * fent C k e * v e))).
    - apply bsum_ext. intros k Hk. rewrite (E k Hk), <- bsum_mul_l. apply bsum_ext. intros; ring.
    - rewrite bsum_swap. apply bsum_all0. intros e He. rewrite bsum_mul_r, (HK i e Hi He). ring. }
  rewrite HR in *. split; apply G; assumption.
Qed.
Lemma kills_nonempty_span n M X : frows X = n -> is_empty_or_zero X = true -> kills n M X.
Proof.
  intros HR H i c Hi Hc. apply bsum_all0. intros k Hk. unfold is_empty_or_zero, is_empty in H. apply orb_true_iff in H. destruct H as [H|H].
  - apply orb_true_iff in H. rewrite !Nat.eqb_eq in H. lia.
  - apply negb_true_iff in H. assert (Q : fent X k c = 0); [|rewrite Q; ring].
    destruct (feq_dec K (fent X k c) 0) as [E|E]; [exact E|]. exfalso. rewrite <- not_true_iff_false in H. apply H.
    apply existsb_exists. exists k. split; [apply in_seq; lia|]. apply existsb_exists. exists c. split; [apply in_seq; lia|].
    apply negb_true_iff. destruct (fent X k c =? 0) eqn:Q; [apply feqb_eq in Q; contradiction|reflexivity].
Qed.
Lemma reg_nonempty X Y : same_span X Y -> is_empty_or_zero X = false -> is_empty Y = false.
Proof.
  intros (H1 & H2 & H3) H. unfold is_empty_or_zero in H. apply orb_false_iff in H. destruct H as [H4 H5].
  apply negb_false_iff, existsb_exists in H5. destruct H5 as (i & Hi & H5). apply existsb_exists in H5. destruct H5 as (c & Hc & H5).
  apply in_seq in Hi, Hc. apply negb_true_iff in H5. destruct (H2 c ltac:(lia)) as (v & E). unfold is_empty. rewrite H1.
  apply orb_false_iff. rewrite !Nat.eqb_neq. split; [lia|]. intro Z. specialize (E i ltac:(lia)). rewrite Z in E. cbn in E. rewrite E in H5.
  rewrite (proj2 (feqb_eq K 0 0) eq_refl) in H5. discriminate.
Qed.

(** *** The transform as a whole *)
Definition bad : block K * (fmat K * fmat K) := (BL 0 (fun _ => 0) (fun _ _ => 0), (FM 0 0 (fun _ _ => 0), FM 0 0 (fun _ _ => 0))).
Definition child_psd (f : nat) (c : option (block K)) z : Prop := match c with Some C => psd (bn C) (Smat f C z) | None => True end.
Lemma dmt_spec d (Bs : list (block K * (fmat K * fmat K))) :
  (forall b, In b Bs -> frows (snd (snd b)) = bn (fst b)) ->
  match dual_matrix_transform d Bs with
  | Ok (t0, T, f, C) =>
      (forall y, (forall b, In b Bs -> kills (bn (fst b)) (Smat d (fst b) y) (snd (snd b))) <-> exists z, forall j, (j < d)%nat -> y j = yof t0 T f z j) /\
      (forall z z', (forall j, (j < d)%nat -> yof t0 T f z j = yof t0 T f z' j) -> forall c, (c < f)%nat -> z c = z' c) /\
      C = map (fun b => child_block d f t0 T (fst b) (fst (snd b))) Bs
  | Err ValueError => forall y, ~ (forall b, In b Bs -> kills (bn (fst b)) (Smat d (fst b) y) (snd (snd b)))
  | Err er => er = OtherError /\ forall b, In b Bs -> is_empty (snd (snd b)) = true
  end.
Proof.
  intro HR. unfold dual_matrix_transform. destruct (forallb _ Bs) eqn:EB.
  - split; [reflexivity|]. intros b Hb. exact (proj1 (forallb_forall _ _) EB b Hb).
  - assert (HW : forall e, In e (flat_map (fun b => null_eqs d (fst b) (snd (snd b))) Bs) -> length (fst e) = d).
    { intros e He. apply in_flat_map in He. destruct He as (b & _ & He). apply null_eqs_width in He. exact He. }
    assert (KI : forall y, (forall b, In b Bs -> kills (bn (fst b)) (Smat d (fst b) y) (snd (snd b))) <->
      (forall e, In e (flat_map (fun b => null_eqs d (fst b) (snd (snd b))) Bs) -> bsum d (fun j => vget (fst e) j * y j) + snd e = 0)).
    { intro y. split.
      - intros H e He. apply in_flat_map in He. destruct He as (b & Hb & He). revert e He. apply null_eqs_iff; auto.
      - intros H b Hb. apply null_eqs_iff; auto. intros e He. apply H, in_flat_map. exists b. auto. }
    pose proof (solve_eqs_spec d _ HW) as SP. destruct (solve_eqs d _) as [[[t0 T] f]|er].
    + destruct SP as [S1 S2]. split; [|split; [exact S2|reflexivity]]. intro y. rewrite KI. apply S1.
    + destruct SP as [-> S1]. intros y H. apply (S1 y). apply KI, H.
Qed.
Lemma child_psd_iff d f t0 T B U V z : frows U = bn B -> frows V = bn B -> span_all (bn B) U V ->
  let S := Smat d B (yof t0 T f z) in kills (bn B) S V -> symmetric (bn B) S ->
  (psd (bn B) S <-> child_psd f (child_block d f t0 T B U) z).
Proof.
  intros HU HV HA S HK HS. unfold child_psd. destruct (child_block d f t0 T B U) as [C|] eqn:E.
  - assert (HC : bn C = fcols U). { unfold child_block in E. destruct (is_empty U); [discriminate|]. inversion E. reflexivity. }
    assert (EQ : Smat f C z = mtab (fcols U) (fcols U) (conj (bn B) U (mget S))).
    { unfold Smat. rewrite HC. unfold mtab. apply map_ext_in. intros a Ha. apply in_seq in Ha. unfold vtab. apply map_ext_in. intros b Hb. apply in_seq in Hb.
      rewrite (child_block_entry d f t0 T B U C z a b E) by lia. unfold conj. apply bsum_ext. intros i Hi. apply bsum_ext. intros k Hk.
      unfold S. rewrite mget_Smat by assumption. reflexivity. }
    rewrite EQ, HC. split; [apply psd_conj_fwd|]. apply (psd_conj_back (bn B) U V); assumption.
  - split; [auto|]. intros _. assert (HE : is_empty U = true) by (unfold child_block in E; destruct (is_empty U); [reflexivity|discriminate]).
    apply (psd_conj_back (bn B) U V); auto. unfold is_empty in HE. apply orb_true_iff in HE. rewrite !Nat.eqb_eq in HE.
    destruct HE as [HE|HE].
    + intro v. rewrite qform_conj. rewrite <- HU, HE. unfold qform. cbn. apply fle_refl.
    + rewrite HE. intro v. unfold qform. cbn. apply fle_refl.
Qed.

Section Oracles.
Variables reg perp : fmat K -> fmat K.
Hypothesis reg_spec : forall X, same_span X (reg X).
Hypothesis perp_spec : forall X, spans_perp X (perp X).

Lemma map_nth' {A C : Type} (g : A -> C) l i dx dy : (i < length l)%nat -> nth i (map g l) dy = g (nth i l dx).
Proof. intro H. rewrite (nth_indep _ dy (g dx)) by (rewrite map_length; exact H). apply map_nth. Qed.

Lemma constrain_nullspace_lemma d (Bs : list (block K * fmat K)) :
  (forall b, In b Bs -> frows (snd b) = bn (fst b)) ->
  match constrain_nullspace reg perp d Bs with
  | Ok Identity => forall y b, In b Bs -> kills (bn (fst b)) (Smat d (fst b) y) (snd b)
  | Ok (Child t0 T f C) =>
      length C = length Bs /\
      (forall y, (forall b, In b Bs -> kills (bn (fst b)) (Smat d (fst b) y) (snd b)) <-> exists z, forall j, (j < d)%nat -> y j = yof t0 T f z j) /\
      (forall z z', (forall j, (j < d)%nat -> yof t0 T f z j = yof t0 T f z' j) -> forall c, (c < f)%nat -> z c = z' c) /\
      (forall z i, (i < length Bs)%nat -> let b := nth i Bs (BL 0 (fun _ => 0) (fun _ _ => 0), FM 0 0 (fun _ _ => 0)) in
         symmetric (bn (fst b)) (Smat d (fst b) (yof t0 T f z)) ->
         (psd (bn (fst b)) (Smat d (fst b) (yof t0 T f z)) <-> child_psd f (nth i C None) z))
  | Err er => er = ValueError /\ forall y, ~ (forall b, In b Bs -> kills (bn (fst b)) (Smat d (fst b) y) (snd b))
  end.
Proof.
  intro HR. unfold constrain_nullspace. destruct (forallb _ Bs) eqn:EB.
  - intros y b Hb. apply kills_nonempty_span; [auto|]. exact (proj1 (forallb_forall _ _) EB b Hb).
  - set (L := map (fun b => (fst b, (perp (reg (snd b)), reg (snd b)))) Bs).
    assert (HL : forall b, In b L -> frows (snd (snd b)) = bn (fst b)).
    { intros b Hb. apply in_map_iff in Hb. destruct Hb as (b' & <- & Hb). cbn [fst snd]. destruct (reg_spec (snd b')) as [-> _]. auto. }
    assert (KK : forall y, (forall b, In b L -> kills (bn (fst b)) (Smat d (fst b) y) (snd (snd b))) <-> (forall b, In b Bs -> kills (bn (fst b)) (Smat d (fst b) y) (snd b))).
    { intro y. split; intros H b Hb.
      - apply (kills_span _ _ _ (reg (snd b))); auto. apply (H (fst b, (perp (reg (snd b)), reg (snd b)))). apply in_map_iff. exists b. auto.
      - apply in_map_iff in Hb. destruct Hb as (b' & <- & Hb). cbn [fst snd]. apply (kills_span _ _ (snd b')); auto. }
    pose proof (dmt_spec d L HL) as SP. destruct (dual_matrix_transform d L) as [[[[t0 T] f] C]|er].
    + destruct SP as (S1 & S2 & ->). split; [unfold L; rewrite !map_length; reflexivity|]. split; [intro y; rewrite <- KK; apply S1|]. split; [exact S2|].
      intros z i Hi. set (b := nth i Bs _). intro HS.
      assert (HB : In b Bs) by (apply nth_In; exact Hi).
      assert (K0 : kills (bn (fst b)) (Smat d (fst b) (yof t0 T f z)) (reg (snd b))).
      { apply (proj2 (S1 (yof t0 T f z)) (ex_intro _ z (fun j _ => eq_refl)) (fst b, (perp (reg (snd b)), reg (snd b)))). apply in_map_iff. exists b. auto. }
      unfold L. rewrite map_map. rewrite (map_nth' _ Bs i (BL 0 (fun _ => 0) (fun _ _ => 0), FM 0 0 (fun _ _ => 0)) None Hi). fold b. cbn [fst snd].
      assert (Hreg : frows (reg (snd b)) = bn (fst b)) by (destruct (reg_spec (snd b)) as [-> _]; auto).
      assert (Hperp : frows (perp (reg (snd b))) = bn (fst b)) by (destruct (perp_spec (reg (snd b))) as [-> _]; auto).
      apply (child_psd_iff d f t0 T (fst b) (perp (reg (snd b))) (reg (snd b)) z Hperp Hreg); auto.
      pose proof (span_all_perp _ _ (perp_spec (reg (snd b)))) as SA. rewrite Hreg in SA. exact SA.
    + assert (NE : exists b, In b L /\ is_empty (snd (snd b)) = false).
      { assert (Q : existsb (fun b => negb (is_empty_or_zero (snd b))) Bs = true).
        { clear - EB. induction Bs as [|b l IH]; [discriminate|]. cbn in *. destruct (is_empty_or_zero (snd b)); cbn in *; auto. }
        apply existsb_exists in Q. destruct Q as (b & Hb & Q). apply negb_true_iff in Q. exists (fst b, (perp (reg (snd b)), reg (snd b))). split; [apply in_map_iff; exists b; auto|].
        cbn [fst snd]. apply (reg_nonempty (snd b)); [apply reg_spec|exact Q]. }
      destruct NE as (b0 & Hb0 & N0).
      destruct er; try (destruct SP as [_ SP]; rewrite (SP b0 Hb0) in N0; discriminate).
      split; [reflexivity|]. intros y H. apply (SP y). apply KK, H.
Qed.

Lemma range_kills n M X P : frows X = n -> spans_perp X P -> symmetric n M -> (kills n M P <-> range_in n M X).
Proof.
  intros HR (H1 & H2 & H3) HS. rewrite HR in *. split.
  - intros HK j Hj. destruct (project n (fent X) (fcols X) (fun i => mget M i j)) as (v & r & E & O).
    destruct (H3 r O) as (u & Eu). exists v.
    assert (PR : forall e, (e < fcols P)%nat -> bsum n (fun i => fent P i e * r i) = 0).
    { intros e He. transitivity (bsum n (fun i => mget M j i * fent P i e) - bsum n (fun i => bsum (fcols X) (fun c => fent X i c * fent P i e * v c))).
      - rewrite <- bsum_sub. apply bsum_ext. intros i Hi. rewrite (HS j i Hj Hi), (E i Hi).
        assert (Q : bsum (fcols X) (fun c => fent X i c * fent P i e * v c) = fent P i e * bsum (fcols X) (fun c => fent X i c * v c)) by (rewrite <- bsum_mul_l; apply bsum_ext; intros; ring).
        rewrite Q. ring.
      - rewrite (HK j e Hj He), bsum_swap, bsum_all0; [ring|]. intros c Hc. rewrite bsum_mul_r, (H2 c e Hc He). ring. }
    assert (RR : bsum n (fun i => r i * r i) = 0).
    { transitivity (bsum n (fun i => bsum (fcols P) (fun e => fent P i e * r i * u e))).
      - apply bsum_ext. intros i Hi. rewrite (Eu i Hi) at 2. rewrite <- bsum_mul_l. apply bsum_ext. intros; ring.
      - rewrite bsum_swap. apply bsum_all0. intros e He. rewrite bsum_mul_r, (PR e He). ring. }
    intros i Hi. rewrite (E i Hi). pose proof (bsum_eq0 K n (fun i => r i * r i) (fun k _ => fsqr_nonneg K (r k)) RR i Hi) as Q. cbv beta in Q.
    apply fsqr_eq0 in Q. rewrite Q. ring.
  - intros H i c Hi Hc. destruct (H i Hi) as (v & E).
    transitivity (bsum n (fun k => bsum (fcols X) (fun e => fent X k e * fent P k c * v e))).
    + apply bsum_ext. intros k Hk. rewrite (HS i k Hi Hk), (E k Hk), <- bsum_mul_r. apply bsum_ext. intros; ring.
    + rewrite bsum_swap. apply bsum_all0. intros e He. rewrite bsum_mul_r, (H2 e c He Hc). ring.
Qed.
Lemma range_span n M X Y : frows X = n -> same_span X Y -> (range_in n M X <-> range_in n M Y).
Proof.
  intros HR (H1 & H2 & H3). rewrite HR in *.
  assert (G : forall A C : fmat K, (forall c, (c < fcols A)%nat -> exists v : nat -> K, forall i, (i < n)%nat -> fent A i c = bsum (fcols C) (fun e => fent C i e * v e)) -> range_in n M A -> range_in n M C).
  { intros A C H HA j Hj. destruct (HA j Hj) as (v & E).
    assert (CH : exists w : nat -> nat -> K, forall c, (c < fcols A)%nat -> forall i, (i < n)%nat -> fent A i c = bsum (fcols C) (fun e => fent C i e * w c e)).
    { clear - H. induction (fcols A) as [|m IH]; [exists (fun _ _ => 0); intros; lia|]. destruct IH as [w Hw]; [intros; apply H; lia|].
      destruct (H m ltac:(lia)) as [v Hv]. exists (fun c => if (c =? m)%nat then v else w c). intros c Hc i Hi.
      destruct (Nat.eqb_spec c m) as [->|N]; [apply Hv, Hi|apply Hw; [lia|exact Hi]]. }
    destruct CH as [w Hw]. exists (fun e => bsum (fcols A) (fun c => w c e * v c)). intros i Hi. rewrite (E i Hi).
    transitivity (bsum (fcols A) (fun c => bsum (fcols C) (fun e => fent C i e * w c e * v c))).
    - apply bsum_ext. intros c Hc. rewrite (Hw c Hc i Hi), <- bsum_mul_r. reflexivity.
    - rewrite bsum_swap. apply bsum_ext. intros e _. rewrite <- bsum_mul_l. apply bsum_ext. intros; ring. }
  split; apply G; assumption.
Qed.

Lemma constrain_subspace_lemma d (Bs : list (block K * fmat K)) :
  (forall b, In b Bs -> frows (snd b) = bn (fst b)) ->
  match constrain_subspace reg perp d Bs with
  | Ok Identity => forall b, In b Bs -> is_empty_or_zero (snd b) = true
  | Ok (Child t0 T f C) =>
      length C = length Bs /\
      (forall y, (forall b, In b Bs -> symmetric (bn (fst b)) (Smat d (fst b) y)) ->
        ((forall b, In b Bs -> range_in (bn (fst b)) (Smat d (fst b) y) (snd b)) <-> exists z, forall j, (j < d)%nat -> y j = yof t0 T f z j)) /\
      (forall z z', (forall j, (j < d)%nat -> yof t0 T f z j = yof t0 T f z' j) -> forall c, (c < f)%nat -> z c = z' c) /\
      (forall z i, (i < length Bs)%nat -> let b := nth i Bs (BL 0 (fun _ => 0) (fun _ _ => 0), FM 0 0 (fun _ _ => 0)) in
         symmetric (bn (fst b)) (Smat d (fst b) (yof t0 T f z)) ->
         (psd (bn (fst b)) (Smat d (fst b) (yof t0 T f z)) <-> child_psd f (nth i C None) z))
  | Err ValueError => forall y, (forall b, In b Bs -> symmetric (bn (fst b)) (Smat d (fst b) y)) ->
      ~ (forall b, In b Bs -> range_in (bn (fst b)) (Smat d (fst b) y) (snd b))
  | Err er => er = OtherError /\ forall b, In b Bs -> is_empty (perp (reg (snd b))) = true
  end.
Proof.
  intro HR. unfold constrain_subspace. destruct (forallb _ Bs) eqn:EB.
  - intros b Hb. exact (proj1 (forallb_forall _ _) EB b Hb).
  - set (L := map (fun b => (fst b, (reg (snd b), perp (reg (snd b))))) Bs).
    assert (Hreg : forall b, In b Bs -> frows (reg (snd b)) = bn (fst b)) by (intros b Hb; destruct (reg_spec (snd b)) as [-> _]; auto).
    assert (Hperp : forall b, In b Bs -> frows (perp (reg (snd b))) = bn (fst b)) by (intros b Hb; destruct (perp_spec (reg (snd b))) as [-> _]; auto).
    assert (HL : forall b, In b L -> frows (snd (snd b)) = bn (fst b)).
    { intros b Hb. apply in_map_iff in Hb. destruct Hb as (b' & <- & Hb). cbn [fst snd]. auto. }
    assert (KK : forall y, (forall b, In b Bs -> symmetric (bn (fst b)) (Smat d (fst b) y)) ->
      ((forall b, In b L -> kills (bn (fst b)) (Smat d (fst b) y) (snd (snd b))) <-> (forall b, In b Bs -> range_in (bn (fst b)) (Smat d (fst b) y) (snd b)))).
    { intros y HS. split; intros H b Hb.
      - apply (range_span _ _ _ (reg (snd b))); auto. apply (range_kills _ _ _ (perp (reg (snd b)))); auto.
        apply (H (fst b, (reg (snd b), perp (reg (snd b))))). apply in_map_iff. exists b. auto.
      - apply in_map_iff in Hb. destruct Hb as (b' & <- & Hb). cbn [fst snd]. apply (range_kills _ _ (reg (snd b'))); auto.
        apply (range_span _ _ (snd b')); auto. }
    pose proof (dmt_spec d L HL) as SP. destruct (dual_matrix_transform d L) as [[[[t0 T] f] C]|er].
    + destruct SP as (S1 & S2 & ->). split; [unfold L; rewrite !map_length; reflexivity|].
      split; [intros y HS; rewrite <- (KK y HS); apply S1|]. split; [exact S2|].
      intros z i Hi. set (b := nth i Bs _). intro HS.
      assert (HB : In b Bs) by (apply nth_In; exact Hi).
      assert (K0 : kills (bn (fst b)) (Smat d (fst b) (yof t0 T f z)) (perp (reg (snd b)))).
      { apply (proj2 (S1 (yof t0 T f z)) (ex_intro _ z (fun j _ => eq_refl)) (fst b, (reg (snd b), perp (reg (snd b))))). apply in_map_iff. exists b. auto. }
      unfold L. rewrite map_map. rewrite (map_nth' _ Bs i (BL 0 (fun _ => 0) (fun _ _ => 0), FM 0 0 (fun _ _ => 0)) None Hi). fold b. cbn [fst snd].
      apply (child_psd_iff d f t0 T (fst b) (reg (snd b)) (perp (reg (snd b))) z (Hreg b HB) (Hperp b HB)); [|exact K0|exact HS].
      pose proof (span_all_perp _ _ (perp_spec (reg (snd b)))) as SA. rewrite (Hreg b HB) in SA. apply span_all_sym, SA.
    + destruct er; try (destruct SP as [SP1 SP]; split; [exact SP1|]; intros b Hb; apply (SP (fst b, (reg (snd b), perp (reg (snd b))))); apply in_map_iff; exists b; auto).
      intros y HS H. apply (SP y). apply KK; assumption.
Qed.
End Oracles.

(** *** A concrete complement, computed by the linear solver *)
Definition perp_lin X : fmat K :=
  match solve_eqs (frows X) (map (fun c => (vtab (frows X) (fun i => fent X i c), 0)) (seq 0 (fcols X))) with
  | Ok (_, T, f) => FM (frows X) f (mget T)
  | Err _ => FM (frows X) 0 (fun _ _ => 0)
  end.
Lemma perp_lin_spec X : spans_perp X (perp_lin X).
Proof.
  unfold perp_lin. set (eqs := map _ _).
  assert (HW : forall e, In e eqs -> length (fst e) = frows X). { intros e He. apply in_map_iff in He. destruct He as (c & <- & _). apply vtab_length. }
  assert (EQ : forall x, (forall e, In e eqs -> bsum (frows X) (fun j => vget (fst e) j * x j) + snd e = 0) <-> (forall c, (c < fcols X)%nat -> bsum (frows X) (fun i => fent X i c * x i) = 0)).
  { intro x. split.
    - intros H c Hc. specialize (H (vtab (frows X) (fun i => fent X i c), 0) ltac:(apply in_map_iff; exists c; split; [reflexivity|apply in_seq; lia])).
      cbn [fst snd] in H. rewrite <- H. assert (Q : bsum (frows X) (fun j => vget (vtab (frows X) (fun i => fent X i c)) j * x j) = bsum (frows X) (fun i => fent X i c * x i)) by (apply bsum_ext; intros; rewrite vget_vtab by assumption; reflexivity).
      rewrite Q. ring.
    - intros H e He. apply in_map_iff in He. destruct He as (c & <- & Hc). apply in_seq in Hc. cbn [fst snd].
      assert (Q : bsum (frows X) (fun j => vget (vtab (frows X) (fun i => fent X i c)) j * x j) = bsum (frows X) (fun i => fent X i c * x i)) by (apply bsum_ext; intros; rewrite vget_vtab by assumption; reflexivity).
      rewrite Q, (H c) by lia. ring. }
  pose proof (solve_eqs_spec (frows X) eqs HW) as SP. destruct (solve_eqs (frows X) eqs) as [[[t0 T] f]|er].
  - destruct SP as [SP _]. unfold spans_perp. cbn [frows fcols fent].
    assert (Z : forall c, (c < fcols X)%nat -> bsum (frows X) (fun i => fent X i c * (fun _ => 0) i) = 0) by (intros; apply bsum_all0; intros; ring).
    pose proof (proj1 (SP (fun _ => 0)) (proj2 (EQ (fun _ => 0)) Z)) as Z'. destruct Z' as (z0 & Z0).
    split; [reflexivity|]. split.
    + intros c e Hc He. assert (H : exists z, forall j, (j < frows X)%nat -> mget T j e = yof t0 T f z j).
      { exists (fun c => z0 c + (if (c =? e)%nat then 1 else 0)). intros j Hj. unfold yof.
        transitivity (yof t0 T f z0 j + bsum f (fun c => if (c =? e)%nat then mget T j c else 0)).
        - rewrite <- (Z0 j Hj), (bsum_delta K f e (mget T j) He). ring.
        - unfold yof. transitivity (vget t0 j + (bsum f (fun c => mget T j c * z0 c) + bsum f (fun c => if (c =? e)%nat then mget T j c else 0))); [ring|].
          f_equal. rewrite <- bsum_add. apply bsum_ext. intros c' _. destruct (c' =? e)%nat; ring. }
      pose proof (proj2 (SP (fun j => mget T j e)) H) as H'. apply (proj1 (EQ (fun j => mget T j e)) H' c Hc).
    + intros x Hx. pose proof (proj1 (SP x) (proj2 (EQ x) Hx)) as Hx'. destruct Hx' as (z & Hz). exists (fun c => z c - z0 c). intros i Hi. rewrite (Hz i Hi).
      transitivity (yof t0 T f z i - yof t0 T f z0 i); [rewrite <- (Z0 i Hi); ring|]. unfold yof.
      transitivity (bsum f (fun c => mget T i c * z c) - bsum f (fun c => mget T i c * z0 c)); [ring|].
      rewrite <- bsum_sub. apply bsum_ext. intros; ring.
  - exfalso. destruct SP as [_ SP]. apply (SP (fun _ => 0)). apply EQ. intros. apply bsum_all0. intros; ring.
Qed.
Lemma same_span_refl X : same_span X X.
Proof.
  assert (G : forall c, (c < fcols X)%nat -> exists v : nat -> K, forall i, (i < frows X)%nat -> fent X i c = bsum (fcols X) (fun e => fent X i e * v e)).
  { intros c Hc. exists (fun e => if (e =? c)%nat then 1 else 0). intros i _.
    rewrite <- (bsum_delta K (fcols X) c (fent X i) Hc) at 1. apply bsum_ext. intros e _. destruct (e =? c)%nat; ring. }
  split; [reflexivity|]. split; exact G.
Qed.

(** *** Row masking *)
Definition onehot (n : nat) (l : list nat) : fmat K := FM n (length l) (fun k a => if (k =? nth a l 0)%nat then 1 else 0).
Lemma bsum_onehot n (g : nat -> K) i : (i < n)%nat -> bsum n (fun k => (if (k =? i)%nat then 1 else 0) * g k) = g i.
Proof.
  intro H. rewrite <- (bsum_delta K n i g H). apply bsum_ext. intros k _. destruct (k =? i)%nat; ring.
Qed.
Lemma conj_onehot n l (M : nat -> nat -> K) a b : (nth a l 0 < n)%nat -> (nth b l 0 < n)%nat -> conj n (onehot n l) M a b = M (nth a l 0%nat) (nth b l 0%nat).
Proof.
  intros Ha Hb. unfold conj, onehot. cbn [fent].
  transitivity (bsum n (fun i => (if (i =? nth a l 0)%nat then 1 else 0) * M i (nth b l 0%nat))); [|exact (bsum_onehot n (fun i => M i (nth b l 0%nat)) _ Ha)].
  apply bsum_ext. intros i _. rewrite <- (bsum_onehot n (fun k => M i k) (nth b l 0%nat) Hb), <- bsum_mul_l. apply bsum_ext. intros; ring.
Qed.
Lemma psd_zero_diag n M i j : symmetric n M -> psd n M -> (i < n)%nat -> (j < n)%nat -> mget M i i = 0 -> mget M i j = 0.
Proof.
  intros HS HP Hi Hj Z. destruct (feq_dec K (mget M i j) 0) as [E|E]; [exact E|]. exfalso.
  pose proof (psd_conj_fwd n 2 (onehot n [i; j]) M HP) as H2.
  pose (t := - (mget M j j + 1) / ((1 + 1) * mget M i j)).
  specialize (H2 (fun a => match a with O => t | _ => 1 end)). unfold qform in H2. cbn [bsum] in H2.
  rewrite !mget_mtab in H2 by lia. rewrite !conj_onehot in H2 by (cbn; assumption). cbn [nth] in H2.
  rewrite Z, (HS j i Hj Hi) in H2.
  assert (T2 : t * ((1 + 1) * mget M i j) = - (mget M j j + 1)). { unfold t. field. fnz. }
  assert (Q : 0 <= - (1 : K)).

  { replace (- (1) : K) with (t * ((1 + 1) * mget M i j) + mget M j j) by (rewrite T2; ring). eapply eq_ind with (P := fun v => 0 <= v); [exact H2|ring]. }
  apply (proj1 (flt_not_le K _ _) (f1_pos K)). apply fopp_nonneg_inv, Q.
Qed.

Lemma unmask_spec n mask i : In i (unmask n mask) <-> (i < n)%nat /\ ~ In i mask.
Proof.
  unfold unmask. rewrite filter_In, in_seq, negb_true_iff. split; intros [H1 H2]; (split; [lia|]).
  - intro H. rewrite <- not_true_iff_false in H2. apply H2. apply existsb_exists. exists i. rewrite Nat.eqb_refl. auto.
  - destruct (existsb (Nat.eqb i) mask) eqn:E; [|reflexivity]. apply existsb_exists in E. destruct E as (k & Hk & E). apply Nat.eqb_eq in E. subst. contradiction.
Qed.
Lemma mask_eqs_width d B mask e : In e (mask_eqs d B mask) -> length (fst e) = d.
Proof.
  unfold mask_eqs. intro H. apply in_flat_map in H. destruct H as (i & _ & H). apply in_map_iff in H. destruct H as (k & <- & _). apply vtab_length.
Qed.
Lemma mask_eqs_iff d B mask y :
  (forall e, In e (mask_eqs d B mask) -> bsum d (fun j => vget (fst e) j * y j) + snd e = 0) <->
  (forall i k, In i mask -> (k < bn B)%nat -> Sy d B y i k = 0).
Proof.
  assert (Q : forall i k, bsum d (fun j => vget (vtab d (fun j => bs B (i * bn B + k) j)) j * y j) + bx B (i * bn B + k) = Sy d B y i k).
  { intros i k. unfold Sy. transitivity (bsum d (fun c => bs B (i * bn B + k) c * y c) + bx B (i * bn B + k)); [|ring]. f_equal. apply bsum_ext. intros j Hj. rewrite vget_vtab by exact Hj. reflexivity. }
  unfold mask_eqs. split.
  - intros H i k Hi Hk. rewrite <- Q. apply (H (vtab d (fun j => bs B (i * bn B + k) j), bx B (i * bn B + k))).
    apply in_flat_map. exists i. split; [exact Hi|]. apply in_map_iff. exists k. split; [reflexivity|]. apply in_seq. lia.
  - intros H e He. apply in_flat_map in He. destruct He as (i & Hi & He). apply in_map_iff in He. destruct He as (k & <- & Hk). apply in_seq in Hk.
    cbn [fst snd]. rewrite Q. apply H; [exact Hi|lia].
Qed.
Lemma masked_entry d f t0 T B mask z a b :
  let um := unmask (bn B) mask in (a < length um)%nat -> (b < length um)%nat ->
  Sy f (masked_block d f t0 T B mask) z a b = Sy d B (yof t0 T f z) (nth a um 0%nat) (nth b um 0%nat).
Proof.
  intros um Ha Hb. unfold masked_block. fold um. unfold Sy at 1. cbn [bn bx bs].
  destruct (pair_index (length um) a b Hb) as [-> ->]. unfold Sy. rewrite subst_sum. ring.
Qed.
Lemma unmask_lt n mask a : (a < length (unmask n mask))%nat -> (nth a (unmask n mask) 0 < n)%nat.
Proof. intro H. apply (proj1 (unmask_spec n mask (nth a (unmask n mask) 0%nat))). apply nth_In, H. Qed.
Lemma masked_sym d f t0 T B mask z : symmetric (bn B) (Smat d B (yof t0 T f z)) -> symmetric (length (unmask (bn B) mask)) (Smat f (masked_block d f t0 T B mask) z).
Proof.
  intros H a b Ha Hb. rewrite !mget_Smat by (cbn [bn]; assumption). rewrite !masked_entry by assumption.
  pose proof (unmask_lt (bn B) mask a Ha) as La. pose proof (unmask_lt (bn B) mask b Hb) as Lb. specialize (H _ _ La Lb). rewrite !mget_Smat in H by assumption. exact H.
Qed.

Lemma bsum_pick l x i : NoDup l -> bsum (length l) (fun a => (if (i =? nth a l 0)%nat then 1 else 0) * x (nth a l 0%nat)) = if existsb (Nat.eqb i) l then x i else 0.
Proof.
  intro ND. induction ND as [|k l Hk ND IH]; [reflexivity|]. cbn [length]. rewrite bsum_Sl. cbn [nth existsb].
  rewrite IH. destruct (Nat.eqb_spec i k) as [->|N]; cbn [orb]; [|ring].
  destruct (existsb (Nat.eqb k) l) eqn:E; [|ring]. apply existsb_exists in E. destruct E as (k' & Hk' & E). apply Nat.eqb_eq in E. subst. contradiction.
Qed.
Lemma unmask_nodup n mask : NoDup (unmask n mask).
Proof. apply NoDup_filter, seq_NoDup. Qed.
Lemma masked_psd d f t0 T B mask z :
  (forall i, In i mask -> (i < bn B)%nat) -> symmetric (bn B) (Smat d B (yof t0 T f z)) ->
  (forall i k, In i mask -> (k < bn B)%nat -> Sy d B (yof t0 T f z) i k = 0) ->
  (psd (bn B) (Smat d B (yof t0 T f z)) <-> psd (length (unmask (bn B) mask)) (Smat f (masked_block d f t0 T B mask) z)).
Proof.
  intros HM HS HZ. set (um := unmask (bn B) mask). set (y := yof t0 T f z).
  assert (E : forall v, qform (length um) (Smat f (masked_block d f t0 T B mask) z) v = qform (length um) (mtab (length um) (length um) (conj (bn B) (onehot (bn B) um) (mget (Smat d B y)))) v).
  { intro v. unfold qform. apply bsum_ext. intros a Ha. apply bsum_ext. intros b Hb. f_equal. f_equal.
    pose proof (unmask_lt (bn B) mask a Ha) as La. pose proof (unmask_lt (bn B) mask b Hb) as Lb.
    rewrite mget_mtab, conj_onehot, !mget_Smat by assumption. apply masked_entry; assumption. }
  split.
  - intros H v. rewrite E. apply (psd_conj_fwd _ _ _ _ H).
  - intro H. apply (psd_conj_back (bn B) (onehot (bn B) um) (onehot (bn B) (unmask (bn B) um)) _ HS).
    + intros i c Hi Hc. cbn [onehot fcols fent] in *. pose proof (unmask_lt (bn B) um c Hc) as Lc.
      transitivity (mget (Smat d B y) i (nth c (unmask (bn B) um) 0%nat)).
      { rewrite <- (bsum_onehot (bn B) (fun k => mget (Smat d B y) i k) _ Lc). apply bsum_ext. intros k _. fold y. destruct (k =? _)%nat; ring. }
      unfold y. rewrite (HS i _ Hi Lc), mget_Smat by assumption. apply HZ; [|exact Hi].
      assert (I : In (nth c (unmask (bn B) um) 0%nat) (unmask (bn B) um)) by (apply nth_In, Hc). apply unmask_spec in I. destruct I as [_ I].
      destruct (in_dec Nat.eq_dec (nth c (unmask (bn B) um) 0%nat) mask) as [Y|Y]; [exact Y|]. exfalso. apply I. unfold um at 2. apply unmask_spec. auto.
    + intro x. exists (fun a => x (nth a um 0%nat)), (fun c => x (nth c (unmask (bn B) um) 0%nat)). intros i Hi. cbn [onehot fcols fent].
      rewrite !bsum_pick by apply unmask_nodup.
      destruct (existsb (Nat.eqb i) um) eqn:E1; destruct (existsb (Nat.eqb i) (unmask (bn B) um)) eqn:E2; try ring; exfalso.
      * apply existsb_exists in E1. destruct E1 as (k & Hk & Ek). apply Nat.eqb_eq in Ek. subst k.
        apply existsb_exists in E2. destruct E2 as (k & Hk' & Ek). apply Nat.eqb_eq in Ek. subst k. apply unmask_spec in Hk'. tauto.
      * assert (~ In i um) as N1. { intro I. rewrite <- not_true_iff_false in E1. apply E1. apply existsb_exists. exists i. rewrite Nat.eqb_refl. auto. }
        rewrite <- not_true_iff_false in E2. apply E2. apply existsb_exists. exists i. rewrite Nat.eqb_refl. split; [apply unmask_spec; auto|reflexivity].
    + intro v. cbn [onehot fcols]. rewrite <- E. apply H.
Qed.

Definition rows_zero d (b : block K * list nat) y : Prop := forall i k, In i (snd b) -> (k < bn (fst b))%nat -> Sy d (fst b) y i k = 0.
Lemma row_masking_lemma d (Bs : list (block K * list nat)) :
  (forall b, In b Bs -> forall i, In i (snd b) -> (i < bn (fst b))%nat) ->
  match row_masking d Bs with
  | Ok (t0, T, f, C) =>
      (forall y, (forall b, In b Bs -> rows_zero d b y) <-> exists z, forall j, (j < d)%nat -> y j = yof t0 T f z j) /\
      (forall z z', (forall j, (j < d)%nat -> yof t0 T f z j = yof t0 T f z' j) -> forall c, (c < f)%nat -> z c = z' c) /\
      C = map (fun b => masked_block d f t0 T (fst b) (snd b)) Bs /\
      (forall z, (forall b, In b Bs -> symmetric (bn (fst b)) (Smat d (fst b) (yof t0 T f z))) ->
         ((forall b, In b Bs -> psd (bn (fst b)) (Smat d (fst b) (yof t0 T f z))) <-> (forall B, In B C -> psd (bn B) (Smat f B z))))
  | Err er => er = ValueError /\ forall y, ~ (forall b, In b Bs -> rows_zero d b y)
  end.
Proof.
  intro HM. unfold row_masking. set (eqs := flat_map _ Bs).
  assert (HW : forall e, In e eqs -> length (fst e) = d). { intros e He. apply in_flat_map in He. destruct He as (b & _ & He). apply mask_eqs_width in He. exact He. }
  assert (EQ : forall y, (forall e, In e eqs -> bsum d (fun j => vget (fst e) j * y j) + snd e = 0) <-> (forall b, In b Bs -> rows_zero d b y)).
  { intro y. split.
    - intros H b Hb. refine (proj1 (mask_eqs_iff d (fst b) (snd b) y) _). intros e He. apply H. apply in_flat_map. exists b. auto.
    - intros H e He. apply in_flat_map in He. destruct He as (b & Hb & He). revert e He. exact (proj2 (mask_eqs_iff d (fst b) (snd b) y) (H b Hb)). }
  pose proof (solve_eqs_spec d eqs HW) as SP. destruct (solve_eqs d eqs) as [[[t0 T] f]|er].
  - destruct SP as [S1 S2].
    assert (P1 : forall y, (forall b, In b Bs -> rows_zero d b y) <-> exists z, forall j, (j < d)%nat -> y j = yof t0 T f z j) by (intro y; rewrite <- S1; symmetry; apply EQ).
    split; [exact P1|]. split; [exact S2|]. split; [reflexivity|]. intros z HS.
    assert (Z : forall b, In b Bs -> rows_zero d b (yof t0 T f z)) by (apply P1; exists z; reflexivity).
    split.
    + intros H B HB. apply in_map_iff in HB. destruct HB as (b & <- & Hb). cbn [bn masked_block]. apply masked_psd; auto. exact (Z b Hb).
    + intros H b Hb. apply (masked_psd d f t0 T (fst b) (snd b) z); auto; [exact (Z b Hb)|].
      apply (H (masked_block d f t0 T (fst b) (snd b))). apply in_map_iff. exists b. auto.
  - destruct SP as [-> SP]. split; [reflexivity|]. intros y H. apply (SP y). apply EQ, H.
Qed.

(** *** Zero diagonals *)
Lemma zero_diagonals_spec d B i : In i (zero_diagonals d B) <-> (i < bn B)%nat /\ bx B (i * bn B + i) = 0 /\ forall c, (c < d)%nat -> bs B (i * bn B + i) c = 0.
Proof.
  unfold zero_diagonals. rewrite filter_In, in_seq, andb_true_iff, (feqb_eq K), negb_true_iff. split.
  - intros (H1 & H2 & H3). repeat split; [lia|exact H2|]. intros c Hc. destruct (feq_dec K (bs B (i * bn B + i) c) 0) as [E|E]; [exact E|]. exfalso.
    rewrite <- not_true_iff_false in H3. apply H3. apply existsb_exists. exists c. split; [apply in_seq; lia|]. apply negb_true_iff. rewrite <- not_true_iff_false, (feqb_eq K). exact E.
  - intros (H1 & H2 & H3). repeat split; [lia|lia|exact H2|]. rewrite <- not_true_iff_false. intro H. apply existsb_exists in H. destruct H as (c & Hc & H). apply in_seq in Hc.
    rewrite (proj2 (feqb_eq K _ _) (H3 c ltac:(lia))) in H. discriminate.
Qed.
Lemma zero_diagonals_sound d B i : In i (zero_diagonals d B) -> forall y, Sy d B y i i = 0.
Proof.
  intros H y. apply zero_diagonals_spec in H. destruct H as (_ & H1 & H2). unfold Sy. rewrite H1, bsum_all0; [ring|]. intros c Hc. rewrite (H2 c Hc). ring.
Qed.
Lemma zero_diagonals_complete d B i : (i < bn B)%nat -> (forall y, Sy d B y i i = 0) -> In i (zero_diagonals d B).
Proof.
  intros Hi H. apply zero_diagonals_spec. split; [exact Hi|].
  assert (E0 : bx B (i * bn B + i) = 0). { rewrite <- (H (fun _ => 0)). unfold Sy. rewrite bsum_all0; [ring|]. intros; ring. }
  split; [exact E0|]. intros c Hc. pose proof (H (fun k => if (k =? c)%nat then 1 else 0)) as Q. unfold Sy in Q. rewrite E0 in Q.
  rewrite <- Q. rewrite <- (bsum_delta K d c (bs B (i * bn B + i)) Hc) at 1. transitivity (bsum d (fun k => if (k =? c)%nat then bs B (i * bn B + i) k else 0)); [reflexivity|].
  assert (W : bsum d (fun k => if (k =? c)%nat then bs B (i * bn B + i) k else 0) = bsum d (fun k => bs B (i * bn B + i) k * (if (k =? c)%nat then 1 else 0))) by (apply bsum_ext; intros k _; destruct (k =? c)%nat; ring).
  rewrite W. ring.
Qed.
Lemma unmask_len n mask : (length (unmask n mask) <= n)%nat /\ (forall i, In i mask -> (i < n)%nat -> (length (unmask n mask) < n)%nat).
Proof.
  unfold unmask. assert (G : forall (p : nat -> bool) (l : list nat), (length (filter p l) <= length l)%nat /\ (forall i, In i l -> p i = false -> (length (filter p l) < length l)%nat)).
  { intros p l. induction l as [|a l [IH1 IH2]]; cbn; [split; [lia|intros ? []]|]. destruct (p a) eqn:E; cbn; (split; [lia|]).
    - intros i [->|Hi] Hp; [congruence|]. specialize (IH2 i Hi Hp). lia.
    - intros. lia. }
  destruct (G (fun i => negb (existsb (Nat.eqb i) mask)) (seq 0 n)) as [G1 G2]. rewrite seq_length in *. split; [exact G1|]. intros i Hi Hn.
  apply (G2 i); [apply in_seq; lia|]. apply negb_false_iff, existsb_exists. exists i. rewrite Nat.eqb_refl. auto.
Qed.
Lemma total_masked d f t0 T Bs mk :
  (total_size (map (fun B => masked_block d f t0 T B (mk B)) Bs) <= total_size Bs)%nat /\
  (forall B i, In B Bs -> In i (mk B) -> (i < bn B)%nat -> (total_size (map (fun B => masked_block d f t0 T B (mk B)) Bs) < total_size Bs)%nat).
Proof.
  induction Bs as [|B Bs [IH1 IH2]]; cbn; [split; [lia|intros ? ? []]|]. destruct (unmask_len (bn B) (mk B)) as [U1 U2]. unfold total_size in *. split; [lia|].
  intros B' i [<-|HB] Hi Hn; [specialize (U2 i Hi Hn); lia|]. specialize (IH2 B' i HB Hi Hn). lia.
Qed.

Definition all_psd d (Bs : list (block K)) y : Prop := forall B, In B Bs -> psd (bn B) (Smat d B y).
Definition all_sym d (Bs : list (block K)) : Prop := forall B, In B Bs -> forall y, symmetric (bn B) (Smat d B y).
Lemma Smat_ext d B y y' : (forall c, (c < d)%nat -> y c = y' c) -> Smat d B y = Smat d B y'.
Proof. intro H. unfold Smat, mtab. apply map_ext. intro i. apply map_ext. intro j. apply Sy_ext, H. Qed.
Lemma constrain_zero_diagonals_lemma fuel : forall d Bs, (total_size Bs <= fuel)%nat -> all_sym d Bs ->
  match constrain_zero_diagonals fuel d Bs with
  | Ok (ts, d', C) =>
      (forall B, In B C -> zero_diagonals d' B = []) /\ all_sym d' C /\
      (forall y, all_psd d Bs y <-> exists z, (forall j, (j < d)%nat -> y j = propagate ts z j) /\ all_psd d' C z) /\
      (forall z z', (forall j, (j < d)%nat -> propagate ts z j = propagate ts z' j) -> forall c, (c < d')%nat -> z c = z' c)
  | Err er => er = ValueError /\ forall y, ~ all_psd d Bs y
  end.
Proof.
  induction fuel as [|fuel IH]; intros d Bs HF HS; cbn [constrain_zero_diagonals].
  all: destruct (forallb _ Bs) eqn:EB.
  1,3: split; [intros B HB; pose proof (proj1 (forallb_forall _ _) EB B HB) as Q; cbv beta in Q; destruct (zero_diagonals d B); [reflexivity|discriminate Q]|]; split; [exact HS|]; split;
       [intro y; split; [intro H; exists y; auto|intros (z & E & H) B HB; cbn [propagate] in E; rewrite (Smat_ext d B y z E); auto]|cbn [propagate]; auto].
  - exfalso. rewrite <- not_true_iff_false in EB. apply EB. apply forallb_forall. intros B HB. destruct (zero_diagonals d B) as [|i l] eqn:EZ; [reflexivity|]. exfalso.
    assert (I : In i (zero_diagonals d B)) by (rewrite EZ; left; reflexivity). apply zero_diagonals_spec in I. destruct I as [I _].
    clear - HF HB I. unfold total_size in HF. induction Bs as [|B' Bs IH]; [destruct HB|]. cbn in HF. destruct HB as [->|HB]; [lia|]. apply IH; [lia|exact HB].
  - set (L := map (fun B => (B, zero_diagonals d B)) Bs).
    assert (HM : forall b, In b L -> forall i, In i (snd b) -> (i < bn (fst b))%nat).
    { intros b Hb i Hi. apply in_map_iff in Hb. destruct Hb as (B & <- & HB). cbn [fst snd] in *. apply zero_diagonals_spec in Hi. tauto. }
    assert (HP : forall y, all_psd d Bs y -> forall b, In b L -> rows_zero d b y).
    { intros y H b Hb. apply in_map_iff in Hb. destruct Hb as (B & <- & HB). intros i k Hi Hk. cbn [fst snd] in *.
      pose proof (proj1 (proj1 (zero_diagonals_spec d B i) Hi)) as Hn. rewrite <- mget_Smat by assumption.
      apply (psd_zero_diag (bn B)); [exact (HS B HB y)|exact (H B HB)|exact Hn|exact Hk|]. rewrite mget_Smat by assumption. apply zero_diagonals_sound, Hi. }
    pose proof (row_masking_lemma d L HM) as RM. destruct (row_masking d L) as [[[[t0 T] f] C]|er].
    + destruct RM as (R1 & R2 & R3 & R4).
      assert (RC : C = map (fun B => masked_block d f t0 T B (zero_diagonals d B)) Bs). { rewrite R3. unfold L. rewrite map_map. reflexivity. }
      assert (HF' : (total_size C <= fuel)%nat).
      { rewrite RC. assert (EX : exists B i, In B Bs /\ In i (zero_diagonals d B)).
        { clear - EB. induction Bs as [|B Bs IH]; [discriminate|]. cbn in EB. destruct (zero_diagonals d B) as [|i l] eqn:EZ.
          - destruct (IH EB) as (B' & i & H1 & H2). exists B', i. split; [right; exact H1|exact H2].
          - exists B, i. split; [left; reflexivity|]. rewrite EZ. left. reflexivity. }
        destruct EX as (B & i & H1 & H2). destruct (total_masked d f t0 T Bs (zero_diagonals d)) as [_ G].
        specialize (G B i H1 H2 (proj1 (proj1 (zero_diagonals_spec d B i) H2))). lia. }
      assert (HS' : all_sym f C). { intros B HB z. rewrite RC in HB. apply in_map_iff in HB. destruct HB as (B0 & <- & HB). apply masked_sym, HS, HB. }
      assert (SY : forall z b, In b L -> symmetric (bn (fst b)) (Smat d (fst b) (yof t0 T f z))).
      { intros z b Hb. apply in_map_iff in Hb. destruct Hb as (B & <- & HB). cbn [fst]. apply HS, HB. }
      assert (BL' : forall y, (forall b, In b L -> psd (bn (fst b)) (Smat d (fst b) y)) <-> all_psd d Bs y).
      { intro y. split; [intros H B HB; apply (H (B, zero_diagonals d B)); apply in_map_iff; exists B; auto|].
        intros H b Hb. apply in_map_iff in Hb. destruct Hb as (B & <- & HB). cbn [fst]. apply H, HB. }
      specialize (IH f C HF' HS'). destruct (constrain_zero_diagonals fuel f C) as [[[ts d'] C']|er].
      * destruct IH as (I1 & I2 & I3 & I4). split; [exact I1|]. split; [exact I2|]. cbn [propagate]. split.
        -- intro y. split.
           ++ intro H. destruct (proj1 (R1 y) (HP y H)) as (w & Hw).
              assert (PC : all_psd f C w). { intros B HB. apply (R4 w (SY w)); [|exact HB]. apply BL'. intros B' HB'. rewrite <- (Smat_ext d B' y _ Hw). apply H, HB'. }
              apply I3 in PC. destruct PC as (z & Ez & Pz). exists z. split; [|exact Pz]. intros j Hj. rewrite (Hw j Hj). unfold yof. f_equal. apply bsum_ext. intros c Hc. rewrite (Ez c Hc). reflexivity.
           ++ intros (z & Ez & Pz) B HB. rewrite (Smat_ext d B y _ Ez). revert B HB.
              apply BL'. apply (R4 _ (SY _)). intros B HB. apply (proj2 (I3 (propagate ts z))); [|exact HB]. exists z. auto.
        -- intros z z' E. apply I4. apply R2, E.
      * destruct IH as [-> I]. split; [reflexivity|]. intros y H. destruct (proj1 (R1 y) (HP y H)) as (w & Hw). apply (I w).
        intros B HB. apply (R4 w (SY w)); [|exact HB]. apply BL'. intros B' HB'. rewrite <- (Smat_ext d B' y _ Hw). apply H, HB'.
    + destruct RM as [-> RM]. split; [reflexivity|]. intros y H. apply (RM y). apply HP, H.
Qed.

(** *** Equal entries *)
Definition entries_equal d (b : block K * list ((nat * nat) * (nat * nat))) y : Prop :=
  forall i j k l, In ((i, j), (k, l)) (snd b) -> Sy d (fst b) y i j = Sy d (fst b) y k l.
Lemma equal_eqs_iff d B tuples y :
  (forall e, In e (equal_eqs d B tuples) -> bsum d (fun j => vget (fst e) j * y j) + snd e = 0) <-> entries_equal d (B, tuples) y.
Proof.
  assert (Q : forall p r, bsum d (fun j => vget (vtab d (fun j => bs B p j - bs B r j)) j * y j) + - (bx B r - bx B p) =
     (bx B p + bsum d (fun c => bs B p c * y c)) - (bx B r + bsum d (fun c => bs B r c * y c))).
  { intros p r. assert (E : bsum d (fun j => vget (vtab d (fun j => bs B p j - bs B r j)) j * y j) = bsum d (fun c => bs B p c * y c) - bsum d (fun c => bs B r c * y c)).
    { rewrite <- bsum_sub. apply bsum_ext. intros j Hj. rewrite vget_vtab by exact Hj. ring. }
    rewrite E. ring. }
  unfold equal_eqs, entries_equal. cbn [fst snd]. split.
  - intros H i j k l HI. destruct (((i =? k) && (j =? l))%nat) eqn:E.
    + apply andb_true_iff in E. destruct E as [E1 E2]. apply Nat.eqb_eq in E1, E2. subst. reflexivity.
    + specialize (H (vtab d (fun c => bs B (i * bn B + j) c - bs B (k * bn B + l) c), - (bx B (k * bn B + l) - bx B (i * bn B + j)))).
      cbn [fst snd] in H. rewrite Q in H. unfold Sy. apply fsub_eq0. apply H. apply in_flat_map. exists ((i, j), (k, l)). split; [exact HI|]. cbn [fst snd]. rewrite E. left. reflexivity.
  - intros H e He. apply in_flat_map in He. destruct He as ([[i j] [k l]] & HI & He). cbn [fst snd] in He.
    destruct (((i =? k) && (j =? l))%nat); [destruct He|]. destruct He as [<-|[]]. cbn [fst snd]. rewrite Q.
    specialize (H i j k l HI). unfold Sy in H. rewrite H. ring.
Qed.
Lemma vector_child_entry d f t0 T B z i j : Sy f (vector_child d f t0 T B) z i j = Sy d B (yof t0 T f z) i j.
Proof. unfold Sy, vector_child. cbn [bn bx bs]. rewrite subst_sum. ring. Qed.
Lemma constrain_equal_entries_lemma d Bs :
  match constrain_equal_entries d Bs with
  | Ok None => forall y b, In b Bs -> entries_equal d b y
  | Ok (Some (t0, T, f, C)) =>
      (forall y, (forall b, In b Bs -> entries_equal d b y) <-> exists z, forall j, (j < d)%nat -> y j = yof t0 T f z j) /\
      (forall z z', (forall j, (j < d)%nat -> yof t0 T f z j = yof t0 T f z' j) -> forall c, (c < f)%nat -> z c = z' c) /\
      (forall z, map (fun B => Smat f B z) C = map (fun b => Smat d (fst b) (yof t0 T f z)) Bs)
  | Err er => er = ValueError /\ forall y, ~ (forall b, In b Bs -> entries_equal d b y)
  end.
Proof.
  unfold constrain_equal_entries. set (eqs := flat_map _ Bs).
  assert (HW : forall e, In e eqs -> length (fst e) = d).
  { intros e He. apply in_flat_map in He. destruct He as (b & _ & He). unfold equal_eqs in He. apply in_flat_map in He. destruct He as (t & _ & He).
    destruct (_ && _)%nat in He; [destruct He|]. destruct He as [<-|[]]. apply vtab_length. }
  assert (EQ : forall y, (forall e, In e eqs -> bsum d (fun j => vget (fst e) j * y j) + snd e = 0) <-> (forall b, In b Bs -> entries_equal d b y)).
  { intro y. split.
    - intros H [B tp] Hb. apply equal_eqs_iff. intros e He. apply H. apply in_flat_map. exists (B, tp). auto.
    - intros H e He. apply in_flat_map in He. destruct He as ([B tp] & Hb & He). revert e He. apply equal_eqs_iff. exact (H _ Hb). }
  assert (G : match (match solve_eqs d eqs with Ok (t0, T, f) => Ok (Some (t0, T, f, map (fun b => vector_child d f t0 T (fst b)) Bs)) | Err er => Err er end) with
  | Ok None => False
  | Ok (Some (t0, T, f, C)) =>
      (forall y, (forall b, In b Bs -> entries_equal d b y) <-> exists z, forall j, (j < d)%nat -> y j = yof t0 T f z j) /\
      (forall z z', (forall j, (j < d)%nat -> yof t0 T f z j = yof t0 T f z' j) -> forall c, (c < f)%nat -> z c = z' c) /\
      (forall z, map (fun B => Smat f B z) C = map (fun b => Smat d (fst b) (yof t0 T f z)) Bs)
  | Err er => er = ValueError /\ forall y, ~ (forall b, In b Bs -> entries_equal d b y)
  end).
  { pose proof (solve_eqs_spec d eqs HW) as SP. destruct (solve_eqs d eqs) as [[[t0 T] f]|er].
    - destruct SP as [S1 S2]. split; [intro y; rewrite <- S1; symmetry; apply EQ|]. split; [exact S2|].
      intro z. rewrite map_map. apply map_ext. intro b. unfold Smat, mtab. cbn [bn vector_child]. apply map_ext. intro i. apply map_ext. intro j. apply vector_child_entry.
    - destruct SP as [-> SP]. split; [reflexivity|]. intros y H. apply (SP y), EQ, H. }
  destruct eqs as [|e l] eqn:EE.
  - intros y. apply EQ. intros e [].
  - rewrite <- EE in *. destruct (solve_eqs d eqs) as [[[t0 T] f]|er]; exact G.
Qed.
Lemma sym_tuples_iff n d B y : bn B = n -> (entries_equal d (B, sym_tuples n) y <-> symmetric n (Smat d B y)).
Proof.
  intro Hn. unfold entries_equal, sym_tuples. cbn [fst snd]. split.
  - intros H i j Hi Hj. rewrite !mget_Smat by lia.
    assert (G : forall i j, (i < n)%nat -> (j < i)%nat -> Sy d B y i j = Sy d B y j i).
    { intros i' j' H1 H2. apply H. apply in_flat_map. exists i'. split; [apply in_seq; lia|]. apply in_map_iff. exists j'. split; [reflexivity|apply in_seq; lia]. }
    destruct (Nat.lt_trichotomy i j) as [L|[->|L]]; [symmetry; apply G; lia|reflexivity|apply G; lia].
  - intros H i j k l HI. apply in_flat_map in HI. destruct HI as (a & Ha & HI). apply in_map_iff in HI. destruct HI as (b & E & Hb). apply in_seq in Ha, Hb.
    injection E as <- <- <- <-. specialize (H a b ltac:(lia) ltac:(lia)). rewrite !mget_Smat in H by lia. exact H.
Qed.
Lemma constrain_symmetry_lemma d Bs :
  match constrain_symmetry d Bs with
  | Ok None => all_sym d Bs
  | Ok (Some (t0, T, f, C)) =>
      (forall y, (forall B, In B Bs -> symmetric (bn B) (Smat d B y)) <-> exists z, forall j, (j < d)%nat -> y j = yof t0 T f z j) /\
      (forall z z', (forall j, (j < d)%nat -> yof t0 T f z j = yof t0 T f z' j) -> forall c, (c < f)%nat -> z c = z' c) /\
      (forall z, map (fun B => Smat f B z) C = map (fun B => Smat d B (yof t0 T f z)) Bs)
  | Err er => er = ValueError /\ forall y, ~ (forall B, In B Bs -> symmetric (bn B) (Smat d B y))
  end.
Proof.
  unfold constrain_symmetry. pose proof (constrain_equal_entries_lemma d (map (fun B => (B, sym_tuples (bn B))) Bs)) as SP.
  assert (EQ : forall y, (forall b, In b (map (fun B => (B, sym_tuples (bn B))) Bs) -> entries_equal d b y) <-> (forall B, In B Bs -> symmetric (bn B) (Smat d B y))).
  { intro y. split.
    - intros H B HB. apply sym_tuples_iff; [reflexivity|]. apply H, in_map_iff. exists B. auto.
    - intros H b Hb. apply in_map_iff in Hb. destruct Hb as (B & <- & HB). apply sym_tuples_iff; [reflexivity|]. auto. }
  destruct (constrain_equal_entries d _) as [[[[[t0 T] f] C]|]|er].
  - destruct SP as (S1 & S2 & S3). split; [intro y; rewrite <- S1; symmetry; apply EQ|]. split; [exact S2|]. intro z. rewrite S3, map_map. reflexivity.
  - intros B HB y. revert B HB. apply EQ. auto.
  - destruct SP as [-> SP]. split; [reflexivity|]. intros y H. apply (SP y), EQ, H.
Qed.

Lemma no_zero_diag d B i : zero_diagonals d B = [] -> (i < bn B)%nat -> exists z, mget (Smat d B z) i i <> 0.
Proof.
  intros H Hi. destruct (feq_dec K (bx B (i * bn B + i)) 0) as [E|E].
  - assert (G : exists c, (c < d)%nat /\ bs B (i * bn B + i) c <> 0).
    { assert (N : ~ In i (zero_diagonals d B)) by (rewrite H; intros []). rewrite zero_diagonals_spec in N.
      assert (D : forall n, (forall c, (c < n)%nat -> bs B (i * bn B + i) c = 0) \/ exists c, (c < n)%nat /\ bs B (i * bn B + i) c <> 0).
      { induction n as [|n [IH|(c & Hc & IH)]]; [left; intros; lia| |right; exists c; split; [lia|exact IH]].
        destruct (feq_dec K (bs B (i * bn B + i) n) 0) as [Z|Z]; [left|right; exists n; split; [lia|exact Z]].
        intros c Hc. destruct (Nat.eq_dec c n) as [->|]; [exact Z|apply IH; lia]. }
      destruct (D d) as [D1|D1]; [|exact D1]. exfalso. apply N. auto. }
    destruct G as (c & Hc & G). exists (fun k => if (k =? c)%nat then 1 else 0). rewrite mget_Smat by exact Hi. unfold Sy. rewrite E.
    assert (W : bsum d (fun k => bs B (i * bn B + i) k * (if (k =? c)%nat then 1 else 0)) = bs B (i * bn B + i) c).
    { rewrite <- (bsum_delta K d c (bs B (i * bn B + i)) Hc). apply bsum_ext. intros k _. destruct (k =? c)%nat; ring. }
    rewrite W. intro Q. apply G. rewrite <- Q. ring.
  - exists (fun _ => 0). rewrite mget_Smat by exact Hi. unfold Sy. rewrite bsum_all0 by (intros; ring). intro Q. apply E. rewrite <- Q. ring.
Qed.
End Proofs.
