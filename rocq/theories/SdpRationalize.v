(** * From a numerical vector to exact decompositions
    (triples/sdp/rationalize.py:30-198, triples/sdp/utils.py:68-105,
    triples/sdp/abstract.py:121-164, 181-294, 393-407) *)
From Coq Require Import Bool List Arith Lia NArith Ring Field.
From Verif Require Import OrdField Base Congruence.
Import ListNotations.

Section Model.
Context {K : OrdField}.
Local Open Scope of_scope.
Notation mat := (list (list K)).

(** [v.q], the denominator of a rational number in lowest terms *)
Variable den : K -> N.

(** The loop of [verify_is_pretty] (rationalize.py:119-123) *)
Fixpoint lcm_loop (s lcm : N) (y : list K) : bool :=
  match y with
  | [] => true
  | v :: y' => let l := N.lcm lcm (den v) in if (s <? l)%N then false else lcm_loop s l y'
  end.
(** The default threshold (rationalize.py:116) *)
Definition default_threshold (y : list K) : N :=
  let m := N.max 36 (fold_right N.max 0%N (map den y)) in (m * m)%N.
(** [verify_is_pretty] (rationalize.py:87-123) *)
Definition verify_is_pretty (y : list K) (threshold : option (list K -> N)) : bool :=
  match y with
  | [] => true
  | _ => lcm_loop (match threshold with None => default_threshold y | Some t => t y end) 1%N y
  end.

(** [S + e * eye(n)] (rationalize.py:189, utils.py:100) *)
Definition shifted (M : mat) (e : K) : mat :=
  mtab (length M) (length M) (fun i j => mget M i j + if (i =? j)%nat then e else 0).

(** Floating point eigenvalues are not modelled: [min_neg M] is the answer of
    [min_eig < 0] and [shifts M] are the ten values of [-min_eig + eps]. *)
Variable min_neg : mat -> bool.
Variable shifts : mat -> list K.

Definition cong (M : mat) : option (mat * list K) :=
  match congruence M with Ok r => r | Err _ => None end.
Fixpoint first_some {A B} (f : A -> option B) (l : list A) : option B :=
  match l with [] => None | x :: l' => match f x with Some r => Some r | None => first_some f l' end end.
(** [congruence_with_perturbation] (utils.py:68-105) *)
Definition congruence_with_perturbation (perturb : bool) (M : mat) : option (mat * list K) :=
  match M with
  | [] | [] :: _ => Some ([], [])
  | _ =>
      if perturb && min_neg M then
        match first_some (fun e => cong (shifted M e)) (shifts M) with
        | Some r => Some r
        | None => cong M
        end
      else cong M
  end.

(** An entry [(S, U, diag)] of the returned dictionary. *)
Definition entry : Type := (mat * mat * list K)%type.
(** The inner loop (rationalize.py:186-198); [None] is the [break]. *)
Fixpoint decompose_all (reg : K) (perturb : bool) (l : list (nat * mat)) : option (list (nat * entry)) :=
  match l with
  | [] => Some []
  | (key, S0) :: l' =>
      let S := if reg =? 0 then S0 else shifted S0 reg in
      match congruence_with_perturbation perturb S with
      | None => None
      | Some (U, d) =>
          match decompose_all reg perturb l' with
          | None => None
          | Some r => Some ((key, (S, U, d)) :: r)
          end
      end
  end.

Variable mat_func : list K -> list (nat * mat).
Variable projection : option (list K -> list K).

Definition project (y : list K) : list K := match projection with None => y | Some f => f y end.
(** One candidate (rationalize.py:180-198) *)
Definition try_candidate (reg : K) (perturb check_pretty : bool) (y : list K) : option (list K * list (nat * entry)) :=
  if check_pretty && negb (verify_is_pretty y None) then None
  else match decompose_all reg perturb (mat_func (project y)) with
       | None => None
       | Some d => Some (project y, d)
       end.
(** The list of candidates (rationalize.py:170-179).  A rationalizer is the
    function from the vector to the vectors it yields; [exact] tells whether
    [y] is a sympy matrix. *)
Definition candidates (exact : bool) (y : list K) (rationalizers : list (list K -> list (list K))) : list (list K) :=
  match y with
  | [] => [[]]
  | _ => if exact then [y] else flat_map (fun r => r y) rationalizers
  end.
(** [rationalize_and_decompose] (rationalize.py:126-198) *)
Definition rationalize_and_decompose (exact : bool) (y : list K) (rationalizers : list (list K -> list (list K)))
  (reg : K) (perturb check_pretty : bool) : option (list K * list (nat * entry)) :=
  first_some (try_candidate reg perturb check_pretty) (candidates exact y rationalizers).

(** [SDPProblemBase.rationalize] (abstract.py:181-195) for a vector that is not [None] *)
Definition sdp_rationalize (dof : nat) (exact : bool) (y : list K) (rationalizers : list (list K -> list (list K)))
  (perturb check_pretty : bool) : option (list K * list (nat * entry)) :=
  match y with
  | [] => if (dof =? 0)%nat then rationalize_and_decompose exact y rationalizers 0 perturb check_pretty else None
  | _ => rationalize_and_decompose exact y rationalizers 0 perturb check_pretty
  end.

(** What [solve] finds in the dictionary: the triple of [rationalize_and_decompose],
    or the pair [(S, (U, diag))] built by [_force_return] (abstract.py:260-263). *)
Inductive stored := Triple (e : entry) | Pair (S : mat) (d : mat * list K).

(** [register_y] with [project=True] and no parent (abstract.py:121-164): the
    new values of [y], [S] and [decompositions]. *)
Fixpoint register_loop (perturb : bool) (l : list (nat * mat)) : res (list (nat * (mat * (mat * list K)))) :=
  match l with
  | [] => Ok []
  | (key, M) :: l' =>
      match congruence_with_perturbation perturb M with
      | None => Err ValueError
      | Some d => match register_loop perturb l' with Ok r => Ok ((key, (M, d)) :: r) | Err e => Err e end
      end
  end.
Definition register_y (dof : nat) (perturb : bool) (y : list K) : res (list K * list (nat * (mat * (mat * list K)))) :=
  if match y with [] => negb (dof =? 0)%nat | _ => false end then Err ValueError
  else match register_loop perturb (mat_func (project y)) with Ok r => Ok (project y, r) | Err e => Err e end.

(** [_solve_from_multiple_configs] (abstract.py:213-294).  [nums] are the
    answers of the numerical solver for the configurations, [old] the vectors
    of [_ys] before the call, [mean] the mean of all of them, [rats1] and
    [rats2] the two lists of rationalizers of lines 270 and 281.  The
    exception SDPRationalizeError is [OtherError]. *)
Variables rats1 rats2 : list (list K -> list (list K)).
Variable mean : list (list K) -> list K.
Definition as_triples (r : list K * list (nat * entry)) : list K * list (nat * stored) :=
  (fst r, map (fun e => (fst e, Triple (snd e))) (snd r)).
Definition force_return (dof : nat) (y : list K) : res (option (list K * list (nat * stored))) :=
  match register_y dof true y with
  | Ok (_, r) => Ok (Some (y, map (fun e => (fst e, Pair (fst (snd e)) (snd (snd e)))) r))
  | Err e => Err e
  end.
Fixpoint solve_configs (dof allow_numer : nat) (nums : list (option (list K))) (old new : list (list K))
  : res (option (list K * list (nat * stored))) :=
  match nums with
  | None :: nums' => solve_configs dof allow_numer nums' old new
  | Some y :: nums' =>
      if (3 <=? allow_numer)%nat then force_return dof y
      else match sdp_rationalize dof false y rats1 false true with
           | Some r => Ok (Some (as_triples r))
           | None => if (allow_numer =? 2)%nat then force_return dof y
                     else solve_configs dof allow_numer nums' old (new ++ [y])
           end
  | [] =>
      match rev new with
      | [] => Ok None
      | last :: _ =>
          match sdp_rationalize dof false (mean (old ++ new)) rats2 false false with
          | Some r => Ok (Some (as_triples r))
          | None =>
              if (allow_numer =? 1)%nat
              then Ok (option_map as_triples (sdp_rationalize dof false last [fun y => [y]] true false))
              else Err OtherError
          end
      end
  end.
(** The dictionary [decompositions] written by [solve] (abstract.py:398-402): the
    slice [S[1:]] of each value, as the list of its components.  A component is a
    matrix with the diagonal next to it, or the whole tuple. *)
Inductive component := CMat (U : mat) | CDiag (d : list K) | CTuple (d : mat * list K).
Definition slice (s : stored) : list component :=
  match s with Triple (_, U, d) => [CMat U; CDiag d] | Pair _ d => [CTuple d] end.
(** [U, S = decompositions[key]] (transform.py:447, solution.py:68) *)
Definition unpack (c : list component) : res (mat * list K) :=
  match c with
  | [CMat U; CDiag d] => Ok (U, d)
  | [_; _] => Err TypeError
  | _ => Err ValueError
  end.

(** ** Specification *)
(** The candidate [y] is acceptable: it passes the size test and every matrix
    made from it is positive semidefinite. *)
Definition acceptable (reg : K) (check_pretty : bool) (y : list K) : Prop :=
  (check_pretty = true -> verify_is_pretty y None = true) /\
  forall key S, In (key, S) (mat_func (project y)) ->
    forall x : nat -> K, 0 <= qform (length S) S x + reg * bsum (length S) (fun i => x i * x i).
(** The matrices are square and symmetric. *)
Definition mats_ok : Prop := forall y key S, In (key, S) (mat_func y) ->
  symmetric (length S) S /\ (forall row, In row S -> length row = length S).
End Model.

Section Proofs.
Variable K : OrdField.
Local Open Scope of_scope.
Add Field Kf : (F_field K).
Notation mat := (list (list K)).

Lemma lcm_loop_true (den : K -> N) s y : (forall v, In v y -> den v <> 0%N) -> forall l, (l <> 0)%N -> (l <= s)%N ->
  (lcm_loop den s l y = true <-> exists D, (D <> 0)%N /\ (D <= s)%N /\ N.divide l D /\ forall v, In v y -> N.divide (den v) D).
Proof.
  induction y as [|v y IH]; intros Hd l Hl Hs; cbn [lcm_loop].
  - split; [intros _; exists l; repeat split; auto; [apply N.divide_refl|intros v []]|auto].
  - assert (Hv : den v <> 0%N) by (apply Hd; left; reflexivity).
    assert (HL : N.lcm l (den v) <> 0%N) by (rewrite N.lcm_eq_0; tauto).
    destruct (s <? N.lcm l (den v))%N eqn:E.
    + apply N.ltb_lt in E. split; [discriminate|]. intros (D & D0 & D1 & D2 & D3). exfalso.
      assert (X : N.divide (N.lcm l (den v)) D) by (apply N.lcm_least; [exact D2|apply D3; left; reflexivity]).
      apply N.divide_pos_le in X; lia.
    + apply N.ltb_ge in E. rewrite (IH (fun w Hw => Hd w (or_intror Hw)) _ HL E).
      split; intros (D & D0 & D1 & D2 & D3); exists D; repeat split; auto.
      * eapply N.divide_trans; [apply N.divide_lcm_l|exact D2].
      * intros w [<-|Hw]; [|auto]. eapply N.divide_trans; [apply N.divide_lcm_r|exact D2].
      * apply N.lcm_least; [exact D2|apply D3; left; reflexivity].
      * intros w Hw. apply D3. right. exact Hw.
Qed.
Lemma default_threshold_pos (den : K -> N) y : (1 <= default_threshold den y)%N.
Proof.
  unfold default_threshold. generalize (fold_right N.max 0%N (map den y)). intro m. cbv zeta.
  assert (36 <= N.max 36 m)%N by apply N.le_max_l. nia.
Qed.
Lemma pretty_iff (den : K -> N) y : (forall v, In v y -> den v <> 0%N) ->
  (verify_is_pretty den y None = true <-> exists D, (D <> 0)%N /\ (D <= default_threshold den y)%N /\ forall v, In v y -> N.divide (den v) D).
Proof.
  intro Hd. destruct y as [|v y].
  - cbn. split; [intros _|auto]. exists 1%N. split; [discriminate|]. split; [discriminate|]. intros v [].
  - unfold verify_is_pretty. rewrite (lcm_loop_true den _ (v :: y) Hd 1%N) by (try discriminate; apply default_threshold_pos).
    split; intros (D & D0 & D1 & D2); exists D; repeat split; try tauto. apply N.divide_1_l.
Qed.

Lemma mget_shifted M (e : K) i j : (i < length M)%nat -> (j < length M)%nat ->
  mget (shifted M e) i j = mget M i j + if (i =? j)%nat then e else 0.
Proof. intros. unfold shifted. rewrite mget_mtab by assumption. reflexivity. Qed.
Lemma shifted_length M (e : K) : length (shifted M e) = length M.
Proof. unfold shifted, mtab. rewrite map_length, seq_length. reflexivity. Qed.
Lemma shifted_row M (e : K) row : In row (shifted M e) -> length row = length M.
Proof. unfold shifted, mtab. intro H. apply in_map_iff in H. destruct H as (i & <- & _). apply vtab_length. Qed.
Lemma shifted_sym M (e : K) : symmetric (length M) M -> symmetric (length M) (shifted M e).
Proof.
  intros H i j Hi Hj. rewrite !mget_shifted by assumption. rewrite (H i j Hi Hj), (Nat.eqb_sym i j). reflexivity.
Qed.
Lemma qform_shifted M (e : K) x : qform (length M) (shifted M e) x = qform (length M) M x + e * bsum (length M) (fun i => x i * x i).
Proof.
  unfold qform. rewrite <- bsum_mul_l, <- bsum_add. apply bsum_ext. intros i Hi.
  transitivity (bsum (length M) (fun j => x i * mget M i j * x j + if (j =? i)%nat then e * (x i * x i) else 0)).
  - apply bsum_ext. intros j Hj. rewrite mget_shifted by assumption. rewrite (Nat.eqb_sym i j).
    destruct (Nat.eqb_spec j i) as [->|_]; ring.
  - rewrite bsum_add. f_equal. rewrite (bsum_single _ _ i); [rewrite Nat.eqb_refl; reflexivity|exact Hi|].
    intros j _ N. apply Nat.eqb_neq in N. rewrite N. reflexivity.
Qed.

Variable den : K -> N.
Variable min_neg : mat -> bool.
Variable shifts : mat -> list K.
Variable mat_func : list K -> list (nat * mat).
Variable projection : option (list K -> list K).

Definition wfm (S : mat) : Prop := symmetric (length S) S /\ forall row, In row S -> length row = length S.
Lemma cwp_spec S : wfm S ->
  match congruence_with_perturbation min_neg shifts false S with
  | Some (U, d) => is_congruence (length S) S U d /\ (forall i, (i < length S)%nat -> 0 <= vget d i) /\ psd (length S) S
                   /\ length U = length S /\ length d = length S
  | None => exists x, qform (length S) S x < 0
  end.
Proof.
  intros [HS HR]. destruct S as [|r S']; [cbn; split; [intros i j Hi; cbn in Hi; lia|]; split; [intros i Hi; cbn in Hi; lia|]; split; [|split; reflexivity]|].
  - intro x. unfold qform. cbn. apply fle_refl.
  - destruct r as [|a r]; [exfalso; specialize (HR [] (or_introl eq_refl)); discriminate|].
    set (S := (a :: r) :: S') in *.
    assert (E : congruence_with_perturbation min_neg shifts false S = cong_loop (length S) S) by reflexivity. rewrite E.
    assert (NE : S <> []) by discriminate.
    pose proof (congruence_nonempty K S NE) as C.
    destruct (cong_loop (length S) S) as [[U d]|] eqn:EL.
    + destruct (congruence_sound_lemma K S U d HS C) as (H1 & H2 & H3 & H4 & H5).
      split; [exact H3|]. split; [exact H4|]. split; [|split; assumption].
      intro x. pose proof (congruence_sos_lemma K S U d x HS C) as Q. unfold qform in *. rewrite Q.
      apply bsum_nonneg. intros k Hk. apply fmul_nonneg; [apply H4, Hk|apply fsqr_nonneg].
    + apply (proj1 (congruence_none_lemma K S NE HS) C).
Qed.

(** The outcome for the list of matrices. *)
Definition same_shape (reg : K) (l : list (nat * mat)) (d : list (nat * entry)) : Prop :=
  Forall2 (fun a b => fst b = fst a /\ fst (fst (snd b)) = (if reg =? 0 then snd a else shifted (snd a) reg) /\
     let n := length (snd a) in let '(M, U, w) := snd b in
     length U = n /\ length w = n /\ is_congruence n M U w /\ forall i, (i < n)%nat -> 0 <= vget w i) l d.
Lemma reg_wfm (reg : K) S : wfm S -> wfm (if reg =? 0 then S else shifted S reg).
Proof.
  intros [H1 H2]. destruct (reg =? 0); [split; assumption|]. unfold wfm. rewrite shifted_length. split; [apply shifted_sym, H1|].
  intros row H. apply (shifted_row _ _ _ H).
Qed.
Lemma reg_qform (reg : K) S x : qform (length S) (if reg =? 0 then S else shifted S reg) x
  = qform (length S) S x + reg * bsum (length S) (fun i => x i * x i).
Proof.
  destruct (reg =? 0) eqn:E; [|apply qform_shifted]. apply feqb_eq in E. rewrite E. ring.
Qed.
Lemma reg_length (reg : K) S : length (if reg =? 0 then S else shifted S reg) = length S.
Proof. destruct (reg =? 0); [reflexivity|apply shifted_length]. Qed.
Lemma decompose_all_spec (reg : K) l : (forall key S, In (key, S) l -> wfm S) ->
  match decompose_all min_neg shifts reg false l with
  | Some d => same_shape reg l d /\
      forall key S, In (key, S) l -> forall x, 0 <= qform (length S) S x + reg * bsum (length S) (fun i => x i * x i)
  | None => exists key S x, In (key, S) l /\ qform (length S) S x + reg * bsum (length S) (fun i => x i * x i) < 0
  end.
Proof.
  induction l as [|[key S0] l IH]; intro HW; cbn [decompose_all]; [split; [constructor|intros ? ? []]|].
  cbv zeta. set (S := if reg =? 0 then S0 else shifted S0 reg).
  pose proof (cwp_spec S (reg_wfm reg S0 (HW key S0 (or_introl eq_refl)))) as HC.
  assert (EL : length S = length S0) by apply reg_length. rewrite EL in HC.
  destruct (congruence_with_perturbation min_neg shifts false S) as [[U w]|].
  - specialize (IH (fun k T H => HW k T (or_intror H))).
    destruct (decompose_all min_neg shifts reg false l) as [d|].
    + destruct IH as [IH1 IH2]. destruct HC as (C1 & C2 & C3 & C4 & C5). split.
      * constructor; [|exact IH1]. cbn [fst snd]. cbv zeta. repeat split; auto.
      * intros k T [E|H]; [|apply IH2 with k; exact H]. apply pair_equal_spec in E. destruct E as [<- <-]. intro x.
        rewrite <- reg_qform. apply C3.
    + destruct IH as (k & T & x & H1 & H2). exists k, T, x. split; [right; exact H1|exact H2].
  - destruct HC as [x Hx]. exists key, S0, x. split; [left; reflexivity|]. rewrite <- reg_qform. exact Hx.
Qed.

Lemma try_candidate_spec (reg : K) check y : mats_ok mat_func ->
  match try_candidate den min_neg shifts mat_func projection reg false check y with
  | Some (y', d) => acceptable den mat_func projection reg check y /\ y' = project projection y /\ same_shape reg (mat_func y') d
  | None => ~ acceptable den mat_func projection reg check y
  end.
Proof.
  intro HM. unfold try_candidate.
  assert (HW : forall key S, In (key, S) (mat_func (project projection y)) -> wfm S) by (intros k S H; apply (HM _ k S H)).
  pose proof (decompose_all_spec reg (mat_func (project projection y)) HW) as HD. unfold acceptable.
  destruct check, (verify_is_pretty den y None) eqn:EP; cbn [andb negb]; try (intros [H _]; specialize (H eq_refl); discriminate);
  destruct (decompose_all min_neg shifts reg false _) as [d|];
  try (destruct HD as [H1 H2]; repeat split; auto; discriminate);
  destruct HD as (k & S & x & H1 & H2); intros [_ H]; apply (proj1 (flt_not_le K _ _) H2), (H k S H1).
Qed.

Lemma first_some_spec {A B} (f : A -> option B) l :
  match first_some f l with
  | Some r => exists pre x post, l = pre ++ x :: post /\ f x = Some r /\ forall z, In z pre -> f z = None
  | None => forall z, In z l -> f z = None
  end.
Proof.
  induction l as [|x l IH]; cbn; [intros z []|]. destruct (f x) as [r|] eqn:E.
  - exists [], x, l. repeat split; auto. intros z [].
  - destruct (first_some f l) as [r|].
    + destruct IH as (pre & x' & post & -> & H1 & H2). exists (x :: pre), x', post. repeat split; auto. intros z [<-|H]; auto.
    + intros z [<-|H]; auto.
Qed.

Lemma rationalize_spec exact y rats (reg : K) check : mats_ok mat_func ->
  match rationalize_and_decompose den min_neg shifts mat_func projection exact y rats reg false check with
  | Some (y', d) => exists pre c post, candidates exact y rats = pre ++ c :: post /\
      acceptable den mat_func projection reg check c /\ (forall z, In z pre -> ~ acceptable den mat_func projection reg check z) /\
      y' = project projection c /\ same_shape reg (mat_func y') d
  | None => forall z, In z (candidates exact y rats) -> ~ acceptable den mat_func projection reg check z
  end.
Proof.
  intro HM. unfold rationalize_and_decompose.
  pose proof (first_some_spec (try_candidate den min_neg shifts mat_func projection reg false check) (candidates exact y rats)) as H.
  destruct (first_some _ _) as [[y' d]|].
  - destruct H as (pre & c & post & E & H1 & H2). exists pre, c, post. split; [exact E|].
    pose proof (try_candidate_spec reg check c HM) as T. rewrite H1 in T. destruct T as (T1 & T2 & T3). split; [exact T1|].
    split; [|split; assumption]. intros z Hz. pose proof (try_candidate_spec reg check z HM) as Tz. rewrite (H2 z Hz) in Tz. exact Tz.
  - intros z Hz. pose proof (try_candidate_spec reg check z HM) as Tz. rewrite (H z Hz) in Tz. exact Tz.
Qed.

Lemma sdp_rationalize_exact dof exact y rats check y' d : mats_ok mat_func ->
  sdp_rationalize den min_neg shifts mat_func projection dof exact y rats false check = Some (y', d) -> same_shape 0 (mat_func y') d.
Proof.
  intros HM H. unfold sdp_rationalize in H. pose proof (rationalize_spec exact y rats 0 check HM) as R.
  destruct y as [|v y].
  - destruct (dof =? 0)%nat; [|discriminate]. rewrite H in R. destruct R as (? & ? & ? & _ & _ & _ & _ & R). exact R.
  - rewrite H in R. destruct R as (? & ? & ? & _ & _ & _ & _ & R). exact R.
Qed.
End Proofs.

Section Solve.
Variable K : OrdField.
Local Open Scope of_scope.
Notation mat := (list (list K)).
Variable den : K -> N.
Variable min_neg : mat -> bool.
Variable shifts : mat -> list K.
Variable mat_func : list K -> list (nat * mat).
Variable projection : option (list K -> list K).
Variables rats1 rats2 : list (list K -> list (list K)).
Variable mean : list (list K) -> list K.

Definition exact_triples (y : list K) (ds : list (nat * stored)) : Prop :=
  exists d, ds = map (fun e => (fst e, Triple (snd e))) d /\ same_shape K 0 (mat_func y) d.
Lemma solve_configs_exact dof nums old : mats_ok mat_func -> forall new,
  match solve_configs den min_neg shifts mat_func projection rats1 rats2 mean dof 0 nums old new with
  | Ok (Some (y, ds)) => exact_triples y ds
  | Ok None => new = [] /\ forall o, In o nums -> o = None
  | Err e => e = OtherError /\ (new <> [] \/ exists y, In (Some y) nums)
  end.
Proof.
  intro HM. assert (EX : forall y r rats b, sdp_rationalize den min_neg shifts mat_func projection dof false y rats false b = Some r ->
    exact_triples (fst (as_triples r)) (snd (as_triples r))).
  { intros y [y' d] rats b H. exists d. split; [reflexivity|].
    exact (sdp_rationalize_exact K den min_neg shifts mat_func projection dof false y rats b y' d HM H). }
  induction nums as [|[y|] nums IH]; intro new; cbn [solve_configs].
  - destruct (rev new) as [|l r] eqn:E.
    + split; [|intros o []]. apply (f_equal (@rev _)) in E. rewrite rev_involutive in E. exact E.
    + assert (NE : new <> []) by (intros ->; discriminate).
      destruct (sdp_rationalize _ _ _ _ _ dof false _ rats2 false false) as [r0|] eqn:R.
      * pose proof (EX _ _ _ _ R) as X. destruct (as_triples r0). exact X.
      * cbn. auto.
  - cbn [Nat.leb]. destruct (sdp_rationalize _ _ _ _ _ dof false y rats1 false true) as [r0|] eqn:R.
    + pose proof (EX _ _ _ _ R) as X. destruct (as_triples r0). exact X.
    + cbn [Nat.eqb]. specialize (IH (new ++ [y])). destruct (solve_configs _ _ _ _ _ _ _ _ dof 0 nums old (new ++ [y])) as [[[y' ds]|]|e].
      * exact IH.
      * destruct IH as [H _]. apply app_eq_nil in H. destruct H; discriminate.
      * destruct IH as [-> _]. split; [reflexivity|]. right. exists y. left. reflexivity.
  - specialize (IH new). destruct (solve_configs _ _ _ _ _ _ _ _ dof 0 nums old new) as [[[y' ds]|]|e].
    + exact IH.
    + destruct IH as [H1 H2]. split; [exact H1|]. intros o [<-|H]; auto.
    + destruct IH as [-> [H|[y H]]]; split; auto. right. exists y. right. exact H.
Qed.

Lemma register_loop_spec l : (forall key S, In (key, S) l -> wfm K S) ->
  match register_loop min_neg shifts false l with
  | Ok d => Forall2 (fun a b => fst b = fst a /\ fst (snd b) = snd a /\
      let n := length (snd a) in let '(U, w) := snd (snd b) in
      length U = n /\ length w = n /\ is_congruence n (snd a) U w /\ forall i, (i < n)%nat -> 0 <= vget w i) l d
  | Err e => e = ValueError /\ exists key S x, In (key, S) l /\ qform (length S) S x < 0
  end.
Proof.
  induction l as [|[key S] l IH]; intro HW; cbn [register_loop]; [constructor|].
  pose proof (cwp_spec K min_neg shifts S (HW key S (or_introl eq_refl))) as HC.
  destruct (congruence_with_perturbation min_neg shifts false S) as [[U w]|].
  - specialize (IH (fun k T H => HW k T (or_intror H))). destruct (register_loop min_neg shifts false l) as [d|e].
    + constructor; [|exact IH]. cbn [fst snd]. cbv zeta. destruct HC as (C1 & C2 & C3 & C4 & C5). auto 10.
    + destruct IH as [-> (k & T & x & H1 & H2)]. split; [reflexivity|]. exists k, T, x. split; [right; exact H1|exact H2].
  - split; [reflexivity|]. destruct HC as [x Hx]. exists key, S, x. split; [left; reflexivity|exact Hx].
Qed.
End Solve.
