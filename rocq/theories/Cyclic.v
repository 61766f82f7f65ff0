(** * Cyclic sums and products (triples/utils/expression/cyclic.py) *)
From Coq Require Import Bool List Arith ZArith Lia Ring Field Permutation Sorted.
From Verif Require Import OrdField Base Perm.
Import ListNotations.

Inductive cop := OpSum | OpProd.

Section Model.
Context {K : OrdField}.
Local Open Scope of_scope.

(** Expressions: numbers, symbols (numbered so that the order of the numbers is
    the order of the names), [Add], [Mul], [Pow] with an integer exponent, any
    other function, and [CyclicSum]/[CyclicProduct] with their arguments
    (expression, symbols, elements of the group).  sympy's automatic
    rewriting of [Add], [Mul], [Pow] keeps values and is not modelled. *)
Inductive cx :=
| CNum (k : K) | CSym (s : nat) | CAdd (l : list cx) | CMul (l : list cx) | CPow (e : cx) (n : Z)
| CFun (f : nat) (l : list cx) | CCyc (o : cop) (e : cx) (syms : list nat) (G : list (list nat)).

Definition bop (o : cop) (x y : K) : K := match o with OpSum => x + y | OpProd => x * y end.
Definition bunit (o : cop) : K := match o with OpSum => 0 | OpProd => 1 end.
Definition big {A} (o : cop) (l : list A) (f : A -> K) : K := fold_right (fun x a => bop o (f x) a) (bunit o) l.
Definition zpow (x : K) (n : Z) : K := match n with Z0 => 1 | Zpos m => x ^ Pos.to_nat m | Zneg m => finv (x ^ Pos.to_nat m) end.

(** The dictionary [dict(zip(symbols, p(symbols)))] (cyclic.py:197-211) *)
Definition tr (syms p : list nat) (s : nat) : nat :=
  if existsb (Nat.eqb s) syms then nth (nth (find_pos s syms) p 0%nat) syms s else s.

Section Eval.
Variable I : nat -> list K -> K.
(** Values.  A cyclic expression is the sum or product over all translations
    (doit, cyclic.py:213-220, [_func_perm] 67-72). *)
Fixpoint cev (e : cx) (r : nat -> K) : K :=
  match e with
  | CNum k => k
  | CSym s => r s
  | CAdd l => fold_right (fun x a => cev x r + a) 0 l
  | CMul l => fold_right (fun x a => cev x r * a) 1 l
  | CPow e n => zpow (cev e r) n
  | CFun f l => I f (map (fun x => cev x r) l)
  | CCyc o e syms G => big o G (fun p => cev e (fun s => r (tr syms p s)))
  end.
End Eval.

(** [free_symbols]; a cyclic expression contains its own symbols *)
Fixpoint cfs (e : cx) : list nat :=
  match e with
  | CNum _ => []
  | CSym s => [s]
  | CAdd l | CMul l | CFun _ l => flat_map cfs l
  | CPow e _ => cfs e
  | CCyc _ e syms _ => cfs e ++ syms
  end.
Definition disjoint (a b : list nat) : bool := negb (existsb (fun s => existsb (Nat.eqb s) b) a).

(** [_std_seq] (cyclic.py:43-51): [sorted], the inverse, the smallest image *)
Fixpoint ins (syms : list nat) (i : nat) (l : list nat) : list nat :=
  match l with
  | [] => [i]
  | j :: l' => if (nth i syms 0 <=? nth j syms 0)%nat then i :: l else j :: ins syms i l'
  end.
Definition sort_ind (syms : list nat) : list nat := fold_right (ins syms) [] (seq 0 (length syms)).
Fixpoint lexle (a b : list nat) : bool :=
  match a, b with
  | [], _ => true
  | _, [] => false
  | x :: a', y :: b' => (x <? y)%nat || ((x =? y)%nat && lexle a' b')
  end.
Fixpoint lexmin (best : list nat) (l : list (list nat)) : list nat :=
  match l with [] => best | x :: l' => lexmin (if lexle best x then best else x) l' end.
Definition std_seq (syms : list nat) (G : list (list nat)) : list nat :=
  let ind := sort_ind syms in
  let inv_ind := map (fun j => find_pos j ind) (seq 0 (length syms)) in
  match map (fun x => act 0%nat x inv_ind) G with
  | [] => []
  | x :: l => map (fun i => nth (nth i ind 0%nat) syms 0%nat) (lexmin x l)
  end.

Fixpoint list_eqb (a b : list nat) : bool :=
  match a, b with [], [] => true | x :: a', y :: b' => (x =? y)%nat && list_eqb a' b' | _, _ => false end.
Fixpoint group_eqb (a b : list (list nat)) : bool :=
  match a, b with [], [] => true | x :: a', y :: b' => list_eqb x y && group_eqb a' b' | _, _ => false end.

(** [is_cyclic_expr] (cyclic.py:30-40).  [_std_seq] of the symbols is taken
    once by the caller: it gives the same tuple when applied again
    ([std_seq_orbit]). *)
Fixpoint is_cyclic (syms : list nat) (G : list (list nat)) (e : cx) : bool :=
  disjoint (cfs e) syms ||
  match e with
  | CCyc _ _ s' G' => list_eqb s' syms && group_eqb G' G
  | CAdd l | CMul l => forallb (is_cyclic syms G) l
  | CPow e _ => is_cyclic syms G e
  | _ => false
  end.

Definition mk_mul (l : list cx) : cx := match l with [] => CNum 1 | [x] => x | _ => CMul l end.

(** [_replace_symbols] (cyclic.py:53-65) without rebuilding inner cyclic
    expressions through their constructor *)
Fixpoint raw_rep (s : nat -> nat) (e : cx) : cx :=
  match e with
  | CNum k => CNum k
  | CSym x => CSym (s x)
  | CAdd l => CAdd (map (raw_rep s) l)
  | CMul l => CMul (map (raw_rep s) l)
  | CPow e n => CPow (raw_rep s e) n
  | CFun f l => CFun f (map (raw_rep s) l)
  | CCyc o e syms G => CCyc o (raw_rep s e) (map s syms) G
  end.

(** [CyclicExpr.__new__] with [evaluate] (cyclic.py:135-179), the two
    [_eval_simplify_] (491-523, 613-626) and [_replace_symbols], which calls
    the constructor for inner cyclic expressions.  [cmp a b] is
    [a.compare(b) > 0].  The recursion is bounded by [fuel]; below it the
    plain objects are built. *)
Section Build.
Variable cmp : cx -> cx -> bool.
Definition is_trivial (syms : list nat) (G : list (list nat)) : bool := (length syms <? 2)%nat || (length G <=? 1)%nat.
Definition smallest (rep : (nat -> nat) -> cx -> cx) (syms : list nat) (G : list (list nat)) (e : cx) : cx :=
  fold_left (fun best p => let e2 := rep (tr syms p) e in if cmp best e2 then e2 else best) G e.
Definition simplify (new : cop -> cx -> list nat -> list (list nat) -> cx) (o : cop) (e : cx) (syms : list nat) (G : list (list nat)) : cx :=
  if disjoint (cfs e) syms then
    match o with OpSum => CMul [e; CNum (fnat (length G))] | OpProd => CPow e (Z.of_nat (length G)) end
  else
    match e with
    | CMul l =>
        let cyc := filter (is_cyclic syms G) l in
        let unc := filter (fun x => negb (is_cyclic syms G x)) l in
        match o with
        | OpSum => match cyc with [] => CCyc o e syms G | _ => CMul (new o (mk_mul unc) syms G :: cyc) end
        | OpProd => CMul (mk_mul (map (fun x => new o x syms G) unc) :: map (fun x => CPow x (Z.of_nat (length syms))) cyc)
        end
    | _ => CCyc o e syms G
    end.
Fixpoint new (fuel : nat) (o : cop) (e : cx) (syms : list nat) (G : list (list nat)) : cx :=
  if is_trivial syms G then e
  else
    let syms' := std_seq syms G in
    match fuel with
    | O => CCyc o e syms' G
    | S fuel' => simplify (new fuel') o (smallest (rep fuel') syms' G e) syms' G
    end
with rep (fuel : nat) (s : nat -> nat) (e : cx) : cx :=
  match fuel with
  | O => raw_rep s e
  | S fuel' =>
      match e with
      | CNum k => CNum k
      | CSym x => CSym (s x)
      | CAdd l => CAdd (map (rep fuel' s) l)
      | CMul l => CMul (map (rep fuel' s) l)
      | CPow e n => CPow (rep fuel' s e) n
      | CFun f l => CFun f (map (rep fuel' s) l)
      | CCyc o e syms G => new fuel' o (rep fuel' s e) (map s syms) G
      end
  end.
End Build.

(** [as_content_primitive] (cyclic.py:525-529, 628-632), given the content and
    the primitive part of the argument *)
Definition content (o : cop) (c : K) (syms : list nat) : K := match o with OpSum => c | OpProd => c ^ length syms end.

End Model.
Arguments cx : clear implicits.

Section Proofs.
Variable K : OrdField.
Local Open Scope of_scope.
Add Field Kf : (F_field K).
Variable I : nat -> list K -> K.
Notation ev := (cev I).
Implicit Types (e : cx K) (r : nat -> K) (o : cop).

(** *** Induction over expressions *)
Lemma cx_ind' (P : cx K -> Prop) :
  (forall k, P (CNum k)) -> (forall s, P (CSym s)) ->
  (forall l, Forall P l -> P (CAdd l)) -> (forall l, Forall P l -> P (CMul l)) ->
  (forall e n, P e -> P (CPow e n)) -> (forall f l, Forall P l -> P (CFun f l)) ->
  (forall o e syms G, P e -> P (CCyc o e syms G)) -> forall e, P e.
Proof.
  intros H1 H2 H3 H4 H5 H6 H7. fix IH 1. intros [k|s|l|l|e n|f l|o e syms G].
  - apply H1. - apply H2.
  - apply H3. induction l; constructor; [apply IH|assumption].
  - apply H4. induction l; constructor; [apply IH|assumption].
  - apply H5, IH.
  - apply H6. induction l; constructor; [apply IH|assumption].
  - apply H7, IH.
Qed.

(** *** Sums and products over lists *)
Lemma big_ext {A} o (l : list A) (f g : A -> K) : (forall x, In x l -> f x = g x) -> big o l f = big o l g.
Proof.
  intro H. unfold big. induction l as [|x l IH]; [reflexivity|]. cbn. rewrite H by (left; reflexivity). f_equal. apply IH. intros; apply H; right; assumption.
Qed.
Lemma bop_comm o (x y : K) : bop o x y = bop o y x.
Proof. destruct o; cbn; ring. Qed.
Lemma bop_assoc o (x y z : K) : bop o x (bop o y z) = bop o (bop o x y) z.
Proof. destruct o; cbn; ring. Qed.
Lemma bop_unit o (x : K) : bop o x (bunit o) = x.
Proof. destruct o; cbn; ring. Qed.
Lemma big_perm {A} o (l l' : list A) (f : A -> K) : Permutation l l' -> big o l f = big o l' f.
Proof.
  induction 1; cbn; [reflexivity|f_equal; assumption| |congruence]. rewrite !bop_assoc. f_equal. apply bop_comm.
Qed.
Lemma big_map {A C} o (g : A -> C) (l : list A) (f : C -> K) : big o (map g l) f = big o l (fun x => f (g x)).
Proof. induction l as [|x l IH]; [reflexivity|]. unfold big in *. cbn. rewrite IH. reflexivity. Qed.
Lemma big_app {A} o (l l' : list A) (f : A -> K) : big o (l ++ l') f = bop o (big o l f) (big o l' f).
Proof. unfold big in *. induction l as [|x l IH]; cbn; [rewrite bop_comm, bop_unit; reflexivity|]. rewrite IH. apply bop_assoc. Qed.
Lemma big_flat {A C} o (g : A -> list C) (l : list A) (f : C -> K) : big o (flat_map g l) f = big o l (fun x => big o (g x) f).
Proof. induction l as [|x l IH]; [reflexivity|]. cbn [flat_map]. rewrite big_app, IH. reflexivity. Qed.
Lemma big_op {A} o (l : list A) (f g : A -> K) : big o l (fun x => bop o (f x) (g x)) = bop o (big o l f) (big o l g).
Proof. unfold big. induction l as [|x l IH]; cbn; [destruct o; cbn; ring|]. rewrite IH. destruct o; cbn; ring. Qed.
Lemma big_swap {A C} o (l : list A) (l' : list C) (f : A -> C -> K) : big o l (fun x => big o l' (f x)) = big o l' (fun y => big o l (fun x => f x y)).
Proof.
  induction l as [|x l IH].
  - unfold big. cbn. induction l' as [|y l' IH']; [reflexivity|]. cbn. rewrite <- IH'. destruct o; cbn; ring.
  - change (big o (x :: l) (fun x => big o l' (f x))) with (bop o (big o l' (f x)) (big o l (fun x => big o l' (f x)))). rewrite IH, <- big_op. reflexivity.
Qed.
Lemma big_const_sum {A} (l : list A) (c : K) : big OpSum l (fun _ => c) = fnat (length l) * c.
Proof. induction l as [|x l IH]; cbn; [ring|]. unfold big in IH. cbn in IH. rewrite IH. ring. Qed.
Lemma big_const_prod {A} (l : list A) (c : K) : big OpProd l (fun _ => c) = c ^ length l.
Proof. induction l as [|x l IH]; cbn; [reflexivity|]. unfold big in IH. cbn in IH. rewrite IH. reflexivity. Qed.
Lemma big_sum_mul {A} (l : list A) (f : A -> K) c : big OpSum l (fun x => f x * c) = big OpSum l f * c.
Proof. induction l as [|x l IH]; cbn; [ring|]. unfold big in IH. cbn in IH. rewrite IH. ring. Qed.
Lemma zpow_nat (x : K) n : zpow x (Z.of_nat n) = x ^ n.
Proof. destruct n; [reflexivity|]. cbn [Z.of_nat zpow]. rewrite SuccNat2Pos.id_succ. reflexivity. Qed.

(** *** Translations *)
Lemma ex_In s l : existsb (Nat.eqb s) l = true <-> In s l.
Proof.
  rewrite existsb_exists. split; [intros (x & H & E); apply Nat.eqb_eq in E; subst; exact H|intro H; exists s; rewrite Nat.eqb_refl; auto].
Qed.
Lemma tr_out syms p s : ~ In s syms -> tr syms p s = s.
Proof. intro H. unfold tr. destruct (existsb (Nat.eqb s) syms) eqn:E; [apply ex_In in E; contradiction|reflexivity]. Qed.
Lemma tr_nth n syms p i d : NoDup syms -> length syms = n -> is_perm n p -> (i < n)%nat -> tr syms p (nth i syms d) = nth (nth i p 0%nat) syms d.
Proof.
  intros ND L Hp Hi. unfold tr. rewrite (proj2 (ex_In _ _)) by (apply nth_In; lia).
  rewrite (nth_indep _ d 0%nat) by lia. rewrite find_pos_of_nth by (assumption || lia).
  apply nth_indep. rewrite L. apply (is_perm_nth n p i Hp Hi).
Qed.
Lemma In_nth_ex (l : list nat) s : In s l -> exists i, (i < length l)%nat /\ nth i l 0%nat = s.
Proof. intro H. destruct (In_nth l s 0%nat H) as (i & H1 & H2). exists i. auto. Qed.
Lemma tr_in n syms p s : NoDup syms -> length syms = n -> is_perm n p -> In s syms -> In (tr syms p s) syms.
Proof.
  intros ND L Hp H. destruct (In_nth_ex syms s H) as (i & Hi & <-). rewrite (tr_nth n) by (assumption || lia). apply nth_In. rewrite L. apply (is_perm_nth n); [exact Hp|lia].
Qed.
Lemma tr_comp n syms p q s : NoDup syms -> length syms = n -> is_perm n p -> is_perm n q -> tr syms q (tr syms p s) = tr syms (pcomp p q) s.
Proof.
  intros ND L Hp Hq. destruct (in_dec Nat.eq_dec s syms) as [H|H].
  - destruct (In_nth_ex syms s H) as (i & Hi & <-). rewrite (tr_nth n syms p) by (assumption || lia).
    rewrite (tr_nth n syms q) by (assumption || (apply is_perm_nth; [exact Hp|lia])).
    assert (HC : is_perm n (pcomp p q)).
    { unfold is_perm. apply Permutation_trans with q; [|exact Hq]. apply (act_perm 0%nat n); [exact Hp|apply is_perm_length, Hq]. }
    rewrite (tr_nth n syms (pcomp p q)) by (assumption || lia). f_equal. unfold pcomp. rewrite act_nth by (rewrite (is_perm_length n p Hp); lia). reflexivity.
  - rewrite !tr_out; auto. rewrite tr_out; assumption.
Qed.
Lemma is_perm_pid n : is_perm n (pid n).
Proof. unfold is_perm, pid. apply Permutation_refl. Qed.
Lemma tr_id n syms s : NoDup syms -> length syms = n -> tr syms (pid n) s = s.
Proof.
  intros ND L. destruct (in_dec Nat.eq_dec s syms) as [H|H]; [|apply tr_out, H].
  destruct (In_nth_ex syms s H) as (i & Hi & <-). rewrite (tr_nth n syms) by (assumption || apply is_perm_pid || lia). unfold pid. rewrite seq_nth by lia. reflexivity.
Qed.
Lemma tr_inj n syms p s s' : NoDup syms -> length syms = n -> is_perm n p -> tr syms p s = tr syms p s' -> s = s'.
Proof.
  intros ND L Hp E. assert (Hi : is_perm n (pinv p)).
  { pose proof (pinv_r n p Hp) as Q. unfold is_perm. apply NoDup_Permutation_bis.
    - unfold pinv. rewrite (is_perm_length n p Hp). apply NoDup_nth with (d := 0%nat). rewrite map_length, seq_length. intros i j Hi Hj EQ. rewrite !nth_map_seq in EQ by assumption.
      assert (Ii : In i p) by (apply (Permutation_in _ (Permutation_sym Hp)), in_seq; lia). assert (Ij : In j p) by (apply (Permutation_in _ (Permutation_sym Hp)), in_seq; lia).
      apply find_pos_nth in Ii, Ij. destruct Ii as [_ Ii]. destruct Ij as [_ Ij]. rewrite <- Ii, <- Ij, EQ. reflexivity.
    - unfold pinv. rewrite map_length, (is_perm_length n p Hp). lia.
    - unfold pinv. rewrite (is_perm_length n p Hp). intros k Hk. apply in_map_iff in Hk. destruct Hk as (i & <- & Hi). apply in_seq in Hi.
      assert (Ii : In i p) by (apply (Permutation_in _ (Permutation_sym Hp)), in_seq; lia). apply find_pos_nth in Ii. rewrite (is_perm_length n p Hp) in Ii. apply in_seq. lia. }
  rewrite <- (tr_id n syms s ND L), <- (tr_id n syms s' ND L), <- (pinv_r n p Hp), <- !(tr_comp n) by assumption. rewrite E. reflexivity.
Qed.
(** the same dictionaries for renamed symbols *)
Lemma tr_rename n syms p (f : nat -> nat) s : NoDup syms -> length syms = n -> is_perm n p ->
  (forall a, In a syms -> forall b, f a = f b -> a = b) -> tr (map f syms) p (f s) = f (tr syms p s).
Proof.
  intros ND L Hp Hf. destruct (in_dec Nat.eq_dec s syms) as [H|H].
  - destruct (In_nth_ex syms s H) as (i & Hi & <-). rewrite (tr_nth n syms) by (assumption || lia).
    assert (NDm : NoDup (map f syms)).
    { clear - ND Hf. induction ND as [|a l Ha ND IH]; cbn; constructor.
      - intro Q. apply in_map_iff in Q. destruct Q as (b & E & Hb). apply Ha. rewrite (Hf a (or_introl eq_refl) b (eq_sym E)). exact Hb.
      - apply IH. intros a' Ha' b E. apply (Hf a'); [right; exact Ha'|exact E]. }
    rewrite <- (map_nth f), (tr_nth n (map f syms)) by (assumption || (rewrite map_length; assumption) || lia).
    apply map_nth.
  - rewrite (tr_out syms p s H). apply tr_out. intro Q. apply in_map_iff in Q. destruct Q as (a & E & Ha). apply H. rewrite <- (Hf a Ha s E). exact Ha.
Qed.
(** reordering the symbols conjugates *)
Lemma act_nodup n syms x : NoDup syms -> length syms = n -> is_perm n x -> NoDup (act 0%nat x syms).
Proof. intros ND L Hx. apply (Permutation_NoDup (Permutation_sym (act_perm 0%nat n x syms Hx L)) ND). Qed.
Lemma tr_reorder n syms x xi p s : NoDup syms -> length syms = n -> is_perm n x -> is_perm n xi -> is_perm n p -> pcomp xi x = pid n -> pcomp x xi = pid n ->
  tr (act 0%nat x syms) p s = tr syms (pcomp (pcomp xi p) x) s.
Proof.
  intros ND L Hx Hxi Hp E1 E2. set (sy := act 0%nat x syms).
  assert (Ls : length sy = n) by (unfold sy; rewrite act_length; apply is_perm_length, Hx).
  assert (NDs : NoDup sy) by (apply (act_nodup n); assumption).
  destruct (in_dec Nat.eq_dec s syms) as [H|H].
  - destruct (In_nth_ex syms s H) as (j & Hj & <-). rewrite L in Hj.
    assert (PP : is_perm n (pcomp (pcomp xi p) x)).
    { assert (Q : is_perm n (pcomp xi p)) by (unfold is_perm; apply Permutation_trans with p; [apply (act_perm 0%nat n); [exact Hxi|apply is_perm_length, Hp]|exact Hp]).
      unfold is_perm. apply Permutation_trans with x; [apply (act_perm 0%nat n); [exact Q|apply is_perm_length, Hx]|exact Hx]. }
    rewrite (tr_nth n syms) by assumption.
    (* index of the symbol in the reordered tuple *)
    set (i := nth j xi 0%nat). assert (Hi : (i < n)%nat) by (apply is_perm_nth; assumption).
    assert (Eij : nth i x 0%nat = j).
    { assert (Q : nth j (pcomp xi x) 0%nat = j) by (rewrite E1; unfold pid; apply seq_nth; exact Hj). unfold pcomp in Q. rewrite act_nth in Q by (rewrite (is_perm_length n xi Hxi); exact Hj). exact Q. }
    assert (ES : nth i sy 0%nat = nth j syms 0%nat) by (unfold sy; rewrite act_nth by (rewrite (is_perm_length n x Hx); exact Hi); rewrite Eij; reflexivity).
    rewrite <- ES, (tr_nth n sy) by assumption.
    assert (Hpi : (nth i p 0 < n)%nat) by (apply is_perm_nth; assumption).
    unfold sy. rewrite act_nth by (rewrite (is_perm_length n x Hx); exact Hpi). f_equal.
    unfold pcomp. rewrite act_nth by (rewrite act_length, (is_perm_length n xi Hxi); exact Hj). rewrite act_nth by (rewrite (is_perm_length n xi Hxi); exact Hj). reflexivity.
  - rewrite (tr_out syms _ s H). apply tr_out. intro Q. apply H. apply (Permutation_in _ (act_perm 0%nat n x syms Hx L) Q).
Qed.

(** *** Values *)
Lemma fold_add_ext (f g : cx K -> K) l : Forall (fun x => f x = g x) l -> fold_right (fun x a => f x + a) 0 l = fold_right (fun x a => g x + a) 0 l.
Proof. induction 1 as [|x l E _ IH]; cbn; [reflexivity|]. rewrite E, IH. reflexivity. Qed.
Lemma fold_mul_ext (f g : cx K -> K) l : Forall (fun x => f x = g x) l -> fold_right (fun x a => f x * a) 1 l = fold_right (fun x a => g x * a) 1 l.
Proof. induction 1 as [|x l E _ IH]; cbn; [reflexivity|]. rewrite E, IH. reflexivity. Qed.
Lemma map_ext_Forall {A C} (f g : A -> C) l : Forall (fun x => f x = g x) l -> map f l = map g l.
Proof. induction 1 as [|x l E _ IH]; cbn; [reflexivity|]. rewrite E, IH. reflexivity. Qed.
(** the value depends on the free symbols only *)
Lemma ev_ext e : forall r r', (forall s, In s (cfs e) -> r s = r' s) -> ev e r = ev e r'.
Proof.
  induction e as [k|s|l IH|l IH|e n IH|f l IH|o e syms G IH] using cx_ind'; intros r r' H; cbn [cev].
  - reflexivity.
  - apply H. left. reflexivity.
  - apply fold_add_ext. cbn [cfs] in H. induction IH as [|x l Hx _ IH]; constructor; [apply Hx; intros; apply H; cbn; apply in_app_iff; auto|apply IH; intros; apply H; cbn; apply in_app_iff; auto].
  - apply fold_mul_ext. cbn [cfs] in H. induction IH as [|x l Hx _ IH]; constructor; [apply Hx; intros; apply H; cbn; apply in_app_iff; auto|apply IH; intros; apply H; cbn; apply in_app_iff; auto].
  - rewrite (IH r r' H). reflexivity.
  - f_equal. apply map_ext_Forall. cbn [cfs] in H. induction IH as [|x l Hx _ IH]; constructor; [apply Hx; intros; apply H; cbn; apply in_app_iff; auto|apply IH; intros; apply H; cbn; apply in_app_iff; auto].
  - apply big_ext. intros p _. apply IH. intros s Hs. apply H. cbn [cfs]. apply in_app_iff. unfold tr.
    destruct (existsb (Nat.eqb s) syms) eqn:E; [|left; exact Hs].
    destruct (Nat.lt_ge_cases (nth (find_pos s syms) p 0%nat) (length syms)) as [L|L]; [right; apply nth_In, L|left; rewrite nth_overflow by exact L; exact Hs].
Qed.
Lemma ev_same e r r' : (forall s, r s = r' s) -> ev e r = ev e r'.
Proof. intro H. apply ev_ext. auto. Qed.

(** well formed: distinct symbols and a group; the groups of inner products
    have as many elements as symbols when [strict] *)
Definition good (o : cop) (syms : list nat) (G : list (list nat)) : Prop :=
  NoDup syms /\ is_group (length syms) G /\ (o = OpProd -> length G = length syms).
Fixpoint wf (e : cx K) : Prop :=
  match e with
  | CNum _ | CSym _ => True
  | CAdd l | CMul l | CFun _ l => fold_right (fun x a => wf x /\ a) True l
  | CPow e _ => wf e
  | CCyc o e syms G => wf e /\ good o syms G
  end.
Lemma wf_all l : fold_right (fun x a => wf x /\ a) True l <-> Forall wf l.
Proof. induction l as [|x l IH]; cbn; [split; auto|]. rewrite IH. split; [intros [H1 H2]; constructor; assumption|intro H; inversion H; auto]. Qed.
Lemma map_nodup (f : nat -> nat) l : (forall a b, f a = f b -> a = b) -> NoDup l -> NoDup (map f l).
Proof.
  intros Hf ND. induction ND as [|a l Ha ND IH]; cbn; constructor; [|exact IH]. intro Q. apply in_map_iff in Q. destruct Q as (b & E & Hb). apply Hf in E. subst. contradiction.
Qed.
Lemma good_map (f : nat -> nat) o syms G : (forall a b, f a = f b -> a = b) -> good o syms G -> good o (map f syms) G.
Proof. intros Hf (H1 & H2 & H3). unfold good. rewrite map_length. split; [apply map_nodup; assumption|auto]. Qed.

Lemma raw_rep_wf (f : nat -> nat) e : (forall a b, f a = f b -> a = b) -> wf e -> wf (raw_rep f e).
Proof.
  intro Hf. induction e as [k|s|l IH|l IH|e n IH|g l IH|o e syms G IH] using cx_ind'; cbn [raw_rep wf]; auto; rewrite ?wf_all.
  1,2,3: intro H; induction IH as [|x l Hx _ IHl]; cbn; [constructor|]; inversion H; subst; constructor; auto.
  intros [H1 H2]. split; [auto|]. apply good_map; assumption.
Qed.
Lemma raw_rep_value (f : nat -> nat) e r : (forall a b, f a = f b -> a = b) -> wf e -> ev (raw_rep f e) r = ev e (fun s => r (f s)).
Proof.
  intro Hf. revert r. induction e as [k|s|l IH|l IH|e n IH|g l IH|o e syms G IH] using cx_ind'; intros r W; cbn [raw_rep cev]; cbn [wf] in W; rewrite ?wf_all in W; auto.
  - induction IH as [|x l Hx _ IHl]; cbn; [reflexivity|]. inversion W; subst. rewrite Hx by assumption. f_equal. apply IHl. assumption.
  - induction IH as [|x l Hx _ IHl]; cbn; [reflexivity|]. inversion W; subst. rewrite Hx by assumption. f_equal. apply IHl. assumption.
  - rewrite IH by exact W. reflexivity.
  - f_equal. rewrite map_map. induction IH as [|x l Hx _ IHl]; cbn; [reflexivity|]. inversion W; subst. rewrite Hx by assumption. f_equal. apply IHl. assumption.
  - destruct W as [W (ND & HG & _)]. apply big_ext. intros p Hp. rewrite IH by exact W. apply ev_same. intro s. f_equal.
    apply (tr_rename (length syms)); auto. apply (g_perm _ _ HG), Hp.
Qed.

(** *** The group sum *)
Definition gsum o (e : cx K) (syms : list nat) (G : list (list nat)) (r : nat -> K) : K := big o G (fun p => ev e (fun s => r (tr syms p s))).
Lemma gsum_translate o e e' syms G x r : NoDup syms -> is_group (length syms) G -> In x G ->
  (forall r, ev e' r = ev e (fun s => r (tr syms x s))) -> gsum o e' syms G r = gsum o e syms G r.
Proof.
  intros ND HG Hx HE. unfold gsum. rewrite <- (big_perm o _ _ (fun p => ev e (fun s => r (tr syms p s))) (translate_l_perm _ _ HG x Hx)), big_map.
  apply big_ext. intros p Hp. rewrite HE. apply ev_same. intro s. f_equal. apply (tr_comp (length syms)); auto; apply (g_perm _ _ HG); assumption.
Qed.
Lemma gsum_reorder o e syms G x r : NoDup syms -> is_group (length syms) G -> In x G ->
  gsum o e (act 0%nat x syms) G r = gsum o e syms G r.
Proof.
  intros ND HG Hx. unfold gsum. destruct (g_inv _ _ HG x Hx) as (xi & Hxi & E1 & E2).
  rewrite <- (big_perm o _ _ (fun p => ev e (fun s => r (tr syms p s))) (Permutation_trans (Permutation_map (fun p => pcomp p x) (translate_l_perm _ _ HG xi Hxi)) (translate_r_perm _ _ HG x Hx))).
  rewrite map_map, big_map. apply big_ext. intros p Hp. apply ev_same. intro s. f_equal.
  apply (tr_reorder (length syms)); auto; apply (g_perm _ _ HG); assumption.
Qed.
Lemma gsum_shift o e syms G x r : NoDup syms -> is_group (length syms) G -> In x G ->
  gsum o e syms G (fun s => r (tr syms x s)) = gsum o e syms G r.
Proof.
  intros ND HG Hx. unfold gsum. rewrite <- (big_perm o _ _ (fun p => ev e (fun s => r (tr syms p s))) (translate_r_perm _ _ HG x Hx)), big_map.
  apply big_ext. intros p Hp. apply ev_same. intro s. f_equal. apply (tr_comp (length syms)); auto; apply (g_perm _ _ HG); assumption.
Qed.

(** *** [_std_seq] *)
Lemma ins_perm syms i l : Permutation (ins syms i l) (i :: l).
Proof.
  induction l as [|j l IH]; cbn; [apply Permutation_refl|]. destruct (nth i syms 0 <=? nth j syms 0)%nat; [apply Permutation_refl|].
  apply Permutation_trans with (j :: i :: l); [constructor; exact IH|constructor].
Qed.
Lemma sort_ind_perm syms : is_perm (length syms) (sort_ind syms).
Proof.
  unfold is_perm, sort_ind. induction (seq 0 (length syms)) as [|i l IH]; cbn; [constructor|].
  apply Permutation_trans with (i :: fold_right (ins syms) [] l); [apply ins_perm|constructor; exact IH].
Qed.
Lemma lexmin_in l : forall best, In (lexmin best l) (best :: l).
Proof.
  induction l as [|x l IH]; intro best; cbn; [auto|]. destruct (IH (if lexle best x then best else x)) as [E|H]; [|auto]. rewrite <- E. destruct (lexle best x); auto.
Qed.
Definition inv_ind (syms : list nat) : list nat := map (fun j => find_pos j (sort_ind syms)) (seq 0 (length syms)).
Lemma inv_ind_pinv syms : inv_ind syms = pinv (sort_ind syms).
Proof. unfold inv_ind, pinv. rewrite (is_perm_length _ _ (sort_ind_perm syms)). reflexivity. Qed.
(** the tuple for the element [x] of the group is [x(symbols)] *)
Lemma std_image syms x : is_perm (length syms) x ->
  map (fun i => nth (nth i (sort_ind syms) 0%nat) syms 0%nat) (act 0%nat x (inv_ind syms)) = act 0%nat x syms.
Proof.
  intro Hx. unfold act. rewrite map_map. apply map_ext_in. intros j Hj. f_equal. rewrite inv_ind_pinv.
  assert (Lj : (j < length syms)%nat) by (apply (is_perm_bound _ x); assumption).
  pose proof (pinv_l _ _ (sort_ind_perm syms)) as E. assert (Q : nth j (pcomp (pinv (sort_ind syms)) (sort_ind syms)) 0%nat = j) by (rewrite E; apply seq_nth, Lj).
  unfold pcomp in Q. rewrite act_nth in Q; [exact Q|]. unfold pinv. rewrite map_length, seq_length, (is_perm_length _ _ (sort_ind_perm syms)). exact Lj.
Qed.
Lemma std_seq_act syms G : is_group (length syms) G -> exists x, In x G /\ std_seq syms G = act 0%nat x syms.
Proof.
  intro HG. unfold std_seq. fold (inv_ind syms). destruct G as [|g G]; [destruct (g_id _ _ HG)|]. cbn [map].
  pose proof (lexmin_in (map (fun x => act 0%nat x (inv_ind syms)) G) (act 0%nat g (inv_ind syms))) as H.
  change (act 0%nat g (inv_ind syms) :: map (fun x => act 0%nat x (inv_ind syms)) G) with (map (fun x => act 0%nat x (inv_ind syms)) (g :: G)) in H.
  apply in_map_iff in H. destruct H as (x & E & Hx). exists x. split; [exact Hx|]. rewrite <- E. apply std_image. apply (g_perm _ _ HG), Hx.
Qed.
Lemma std_seq_good o syms G : good o syms G -> good o (std_seq syms G) G.
Proof.
  intros (ND & HG & HL). destruct (std_seq_act syms G HG) as (x & Hx & ->). pose proof (g_perm _ _ HG x Hx) as Px.
  assert (L : length (act 0%nat x syms) = length syms) by (rewrite act_length; apply is_perm_length, Px).
  unfold good. rewrite L. split; [apply (act_nodup (length syms)); auto|auto].
Qed.
Lemma gsum_std o e syms G r : NoDup syms -> is_group (length syms) G -> gsum o e (std_seq syms G) G r = gsum o e syms G r.
Proof. intros ND HG. destruct (std_seq_act syms G HG) as (x & Hx & ->). apply gsum_reorder; assumption. Qed.

(** the images under the translations are the same *)
Lemma std_images syms G : NoDup syms -> is_group (length syms) G ->
  (forall p, In p G -> exists q, In q G /\ forall s, tr (std_seq syms G) p s = tr syms q s) /\
  (forall q, In q G -> exists p, In p G /\ forall s, tr (std_seq syms G) p s = tr syms q s).
Proof.
  intros ND HG. destruct (std_seq_act syms G HG) as (x & Hx & ->). destruct (g_inv _ _ HG x Hx) as (xi & Hxi & E1 & E2). pose proof (g_perm _ _ HG) as PG. split.
  - intros p Hp. exists (pcomp (pcomp xi p) x). split; [repeat apply (g_mul _ _ HG); assumption|]. intro s. apply (tr_reorder (length syms)); auto.
  - intros q Hq. exists (pcomp (pcomp x q) xi). split; [repeat apply (g_mul _ _ HG); assumption|]. intro s. rewrite (tr_reorder (length syms) syms x xi) by (auto; apply PG; repeat apply (g_mul _ _ HG); assumption). f_equal.
    assert (M : forall a b, In a G -> In b G -> In (pcomp a b) G) by (intros; apply (g_mul _ _ HG); assumption).
    rewrite <- (pcomp_assoc _ _ HG xi (pcomp (pcomp x q) xi) x), <- (pcomp_assoc _ _ HG (pcomp x q) xi x) by auto. rewrite E2, (pcomp_id_r _ _ HG) by auto. rewrite (pcomp_assoc _ _ HG xi x q) by auto. rewrite E2. apply (pcomp_id_l _ _ HG). exact Hq.
Qed.
(** the standard order is the smallest image of the tuple by names *)
Lemma lexle_refl a : lexle a a = true.
Proof. induction a as [|x a IH]; cbn; [reflexivity|]. rewrite Nat.eqb_refl, IH, orb_true_r. reflexivity. Qed.
Lemma lexle_cons x a y b : lexle (x :: a) (y :: b) = true <-> (x < y)%nat \/ (x = y /\ lexle a b = true).
Proof. cbn [lexle]. rewrite orb_true_iff, andb_true_iff, Nat.ltb_lt, Nat.eqb_eq. reflexivity. Qed.
Lemma lexle_anti a : forall b, length a = length b -> lexle a b = true -> lexle b a = true -> a = b.
Proof.
  induction a as [|x a IH]; intros [|y b] L H1 H2; try discriminate; [reflexivity|].
  apply lexle_cons in H1, H2. destruct H1 as [H1|[E1 H1]], H2 as [H2|[E2 H2]]; try lia. rewrite E1. f_equal. apply IH; auto.
Qed.
Lemma lexle_trans a : forall b c, lexle a b = true -> lexle b c = true -> lexle a c = true.
Proof.
  induction a as [|x a IH]; intros [|y b] [|z c] H1 H2; try discriminate; try reflexivity.
  apply lexle_cons in H1, H2. apply lexle_cons. destruct H1 as [H1|[E1 H1]], H2 as [H2|[E2 H2]]; try (left; lia). right. split; [lia|]. apply (IH b c); assumption.
Qed.
Lemma lexle_total a : forall b, lexle a b = true \/ lexle b a = true.
Proof.
  induction a as [|x a IH]; intros [|y b]; auto. rewrite !lexle_cons. destruct (lt_eq_lt_dec x y) as [[H|H]|H]; auto. destruct (IH b); auto.
Qed.
Lemma lexmin_le l : forall best y, In y (best :: l) -> lexle (lexmin best l) y = true.
Proof.
  induction l as [|x l IH]; intros best y Hy; cbn [lexmin].
  - destruct Hy as [->|[]]. apply lexle_refl.
  - set (b := if lexle best x then best else x).
    assert (Hb : lexle b best = true /\ lexle b x = true).
    { unfold b. destruct (lexle best x) eqn:E; [rewrite lexle_refl; auto|]. destruct (lexle_total best x) as [Q|Q]; [congruence|]. rewrite lexle_refl. auto. }
    destruct Hy as [<-|[<-|Hy]].
    + apply (lexle_trans _ b); [apply IH; left; reflexivity|tauto].
    + apply (lexle_trans _ b); [apply IH; left; reflexivity|tauto].
    + apply IH. right. exact Hy.
Qed.
Definition leS (syms : list nat) (i j : nat) : Prop := (nth i syms 0 <= nth j syms 0)%nat.
Lemma ins_sorted syms i l : Sorted.StronglySorted (leS syms) l -> Sorted.StronglySorted (leS syms) (ins syms i l).
Proof.
  induction 1 as [|j l S IH F]; cbn; [constructor; constructor|]. destruct (Nat.leb_spec (nth i syms 0%nat) (nth j syms 0%nat)).
  - constructor; [constructor; assumption|]. constructor; [exact H|]. apply Forall_forall. intros k Hk. pose proof (proj1 (Forall_forall _ _) F k Hk) as Q. unfold leS in *. lia.
  - constructor; [exact IH|]. apply Forall_forall. intros k Hk. apply (Permutation_in _ (ins_perm syms i l)) in Hk. destruct Hk as [<-|Hk]; [unfold leS; lia|]. exact (proj1 (Forall_forall _ _) F k Hk).
Qed.
Lemma sort_ind_sorted syms : Sorted.StronglySorted (leS syms) (sort_ind syms).
Proof. unfold sort_ind. induction (seq 0 (length syms)) as [|i l IH]; cbn; [constructor|]. apply ins_sorted, IH. Qed.
Lemma sorted_nth {A} (R : A -> A -> Prop) l d : Sorted.StronglySorted R l -> forall i j, (i < j)%nat -> (j < length l)%nat -> R (nth i l d) (nth j l d).
Proof.
  induction 1 as [|x l S IH F]; intros i j Hij Hj; [cbn in Hj; lia|]. destruct j; [lia|]. cbn in Hj. destruct i; cbn [nth].
  - apply (proj1 (Forall_forall _ _) F). apply nth_In. lia.
  - apply IH; lia.
Qed.
Lemma inv_ind_spec syms a : (a < length syms)%nat -> (nth a (inv_ind syms) 0 < length syms)%nat /\ nth (nth a (inv_ind syms) 0%nat) (sort_ind syms) 0%nat = a.
Proof.
  intro H. unfold inv_ind. rewrite nth_map_seq by exact H. pose proof (sort_ind_perm syms) as P.
  assert (Q : In a (sort_ind syms)) by (apply (Permutation_in _ (Permutation_sym P)), in_seq; lia). apply find_pos_nth in Q. rewrite (is_perm_length _ _ P) in Q. exact Q.
Qed.
Lemma inv_ind_lt syms a b : NoDup syms -> (a < length syms)%nat -> (b < length syms)%nat -> (nth a (inv_ind syms) 0 < nth b (inv_ind syms) 0)%nat -> (nth a syms 0 < nth b syms 0)%nat.
Proof.
  intros ND Ha Hb H. destruct (inv_ind_spec syms a Ha) as [A1 A2]. destruct (inv_ind_spec syms b Hb) as [B1 B2].
  pose proof (sorted_nth _ _ 0%nat (sort_ind_sorted syms) _ _ H) as Q. rewrite (is_perm_length _ _ (sort_ind_perm syms)) in Q. specialize (Q B1). rewrite A2, B2 in Q. unfold leS in Q.
  assert (nth a syms 0 <> nth b syms 0)%nat; [|lia]. intro E. apply (proj1 (NoDup_nth syms 0%nat) ND) in E; try assumption. subst. lia.
Qed.
Lemma lexle_inv syms x : NoDup syms -> forall y, (forall a, In a x -> (a < length syms)%nat) -> (forall a, In a y -> (a < length syms)%nat) ->
  lexle (act 0%nat x (inv_ind syms)) (act 0%nat y (inv_ind syms)) = lexle (act 0%nat x syms) (act 0%nat y syms).
Proof.
  intro ND. unfold act. induction x as [|a x IH]; intros [|b y] Hx Hy; try reflexivity. cbn [map lexle].
  rewrite (IH y (fun c Hc => Hx c (or_intror Hc)) (fun c Hc => Hy c (or_intror Hc))).
  assert (Ha : (a < length syms)%nat) by (apply Hx; left; reflexivity). assert (Hb : (b < length syms)%nat) by (apply Hy; left; reflexivity).
  pose proof (inv_ind_lt syms a b ND Ha Hb). pose proof (inv_ind_lt syms b a ND Hb Ha).
  assert (EQ : nth a (inv_ind syms) 0%nat = nth b (inv_ind syms) 0%nat -> nth a syms 0%nat = nth b syms 0%nat).
  { intro E. destruct (inv_ind_spec syms a Ha) as [_ A2]. destruct (inv_ind_spec syms b Hb) as [_ B2]. rewrite <- A2, <- B2, E. reflexivity. }
  destruct (Nat.ltb_spec (nth a (inv_ind syms) 0%nat) (nth b (inv_ind syms) 0%nat)), (Nat.eqb_spec (nth a (inv_ind syms) 0%nat) (nth b (inv_ind syms) 0%nat)),
    (Nat.ltb_spec (nth a syms 0%nat) (nth b syms 0%nat)), (Nat.eqb_spec (nth a syms 0%nat) (nth b syms 0%nat)); cbn [orb andb]; try reflexivity; try lia.
Qed.
Lemma std_seq_least syms G y : NoDup syms -> is_group (length syms) G -> In y G -> lexle (std_seq syms G) (act 0%nat y syms) = true.
Proof.
  intros ND HG Hy. unfold std_seq. fold (inv_ind syms). destruct G as [|g G]; [destruct Hy|]. cbn [map].
  pose proof (lexmin_in (map (fun x => act 0%nat x (inv_ind syms)) G) (act 0%nat g (inv_ind syms))) as H.
  assert (HM : lexle (lexmin (act 0%nat g (inv_ind syms)) (map (fun x => act 0%nat x (inv_ind syms)) G)) (act 0%nat y (inv_ind syms)) = true)
    by (apply lexmin_le; change (In (act 0%nat y (inv_ind syms)) (map (fun x => act 0%nat x (inv_ind syms)) (g :: G))); apply (in_map (fun x => act 0%nat x (inv_ind syms))), Hy).
  change (act 0%nat g (inv_ind syms) :: map (fun x => act 0%nat x (inv_ind syms)) G) with (map (fun x => act 0%nat x (inv_ind syms)) (g :: G)) in H.
  apply in_map_iff in H. destruct H as (x & E & Hx). rewrite <- E in *. rewrite std_image by (apply (g_perm _ _ HG), Hx).
  rewrite <- lexle_inv; [exact HM|exact ND| |]; intros a Ha; eapply is_perm_bound; eauto; apply (g_perm _ _ HG); assumption.
Qed.
(** the same tuple for every order of the symbols in the orbit *)
Lemma std_seq_orbit syms G x : NoDup syms -> is_group (length syms) G -> In x G -> std_seq (act 0%nat x syms) G = std_seq syms G.
Proof.
  intros ND HG Hx. pose proof (g_perm _ _ HG) as PG. set (sy := act 0%nat x syms).
  assert (L : length sy = length syms) by (unfold sy; rewrite act_length; apply is_perm_length, PG, Hx).
  assert (NDs : NoDup sy) by (apply (act_nodup (length syms)); auto). assert (HGs : is_group (length sy) G) by (rewrite L; exact HG).
  destruct (std_seq_act syms G HG) as (u & Hu & Eu). destruct (std_seq_act sy G HGs) as (v & Hv & Ev).
  destruct (g_inv _ _ HG x Hx) as (xi & Hxi & E1 & E2).
  assert (COMP : forall p, In p G -> act 0%nat p sy = act 0%nat (pcomp p x) syms).
  { intros p Hp. unfold sy. apply (act_comp 0%nat (length syms)); [apply PG, Hp|apply is_perm_length, PG, Hx]. }
  apply lexle_anti.
  - rewrite Eu, Ev, !act_length. rewrite (is_perm_length _ _ (PG u Hu)). apply is_perm_length, PG, Hv.
  - assert (Q : act 0%nat u syms = act 0%nat (pcomp u xi) sy).
    { rewrite COMP by (apply (g_mul _ _ HG); assumption). rewrite <- (pcomp_assoc _ _ HG u xi x) by assumption. rewrite E2, (pcomp_id_r _ _ HG) by assumption. reflexivity. }
    rewrite Eu, Q. apply std_seq_least; auto. apply (g_mul _ _ HG); assumption.
  - rewrite Ev, COMP by exact Hv. apply std_seq_least; auto. apply (g_mul _ _ HG); assumption.
Qed.

(** *** [is_cyclic_expr] *)
Lemma list_eqb_eq a b : list_eqb a b = true -> a = b.
Proof.
  revert b. induction a as [|x a IH]; intros [|y b] H; cbn in H; try discriminate; [reflexivity|]. apply andb_true_iff in H. destruct H as [E H]. apply Nat.eqb_eq in E. rewrite E, (IH b H). reflexivity.
Qed.
Lemma group_eqb_eq a b : group_eqb a b = true -> a = b.
Proof.
  revert b. induction a as [|x a IH]; intros [|y b] H; cbn in H; try discriminate; [reflexivity|]. apply andb_true_iff in H. destruct H as [E H]. apply list_eqb_eq in E. rewrite E, (IH b H). reflexivity.
Qed.
Lemma disjoint_spec a b : disjoint a b = true -> forall s, In s a -> ~ In s b.
Proof.
  unfold disjoint. rewrite negb_true_iff, <- not_true_iff_false, existsb_exists. intros H s Hs Hb. apply H. exists s. rewrite ex_In. auto.
Qed.
Lemma is_cyclic_value syms G e x : NoDup syms -> is_group (length syms) G -> In x G -> is_cyclic syms G e = true ->
  forall r, ev e (fun s => r (tr syms x s)) = ev e r.
Proof.
  intros ND HG Hx. induction e as [k|s|l IH|l IH|e n IH|f l IH|o e syms' G' IH] using cx_ind'; intros HC r;
    cbn [is_cyclic] in HC; apply orb_true_iff in HC; destruct HC as [HC|HC];
    try (apply ev_ext; intros s' Hs; rewrite tr_out; [reflexivity|]; exact (disjoint_spec _ _ HC s' Hs)); try discriminate.
  - cbn [cev]. apply fold_add_ext. induction IH as [|y l Hy _ IHl]; constructor; cbn in HC; apply andb_true_iff in HC; destruct HC; auto.
  - cbn [cev]. apply fold_mul_ext. induction IH as [|y l Hy _ IHl]; constructor; cbn in HC; apply andb_true_iff in HC; destruct HC; auto.
  - cbn [cev]. rewrite (IH HC). reflexivity.
  - apply andb_true_iff in HC. destruct HC as [H1 H2]. apply list_eqb_eq in H1. apply group_eqb_eq in H2. subst. exact (gsum_shift o e syms G x r ND HG Hx).
Qed.

(** *** The constructor *)
Section New.
Variable cmp : cx K -> cx K -> bool.
Lemma mul_split (t : cx K -> bool) l r : ev (CMul l) r = ev (CMul (filter (fun x => negb (t x)) l)) r * ev (CMul (filter t l)) r.
Proof. induction l as [|x l IH]; [cbn; ring|]. cbn [filter]. cbn [cev fold_right] in *. destruct (t x); cbn [negb fold_right]; rewrite IH; ring. Qed.
Lemma mk_mul_value l r : ev (mk_mul l) r = ev (CMul l) r.
Proof. destruct l as [|x [|y l]]; cbn; try reflexivity. ring. Qed.
Lemma mk_mul_wf l : Forall wf l -> wf (mk_mul l).
Proof. intro H. destruct l as [|x [|y l]]; cbn; [exact Logic.I|inversion H; assumption|]. rewrite wf_all. inversion H; subst. split; [assumption|]. inversion H3; auto. Qed.
Lemma Forall_filter {A} (P : A -> Prop) t l : Forall P l -> Forall P (filter t l).
Proof. intro H. apply Forall_forall. intros x Hx. apply filter_In in Hx. apply (proj1 (Forall_forall P l) H). tauto. Qed.
Lemma prod_map (g : cx K -> cx K) l r : ev (CMul (map g l)) r = big OpProd l (fun x => ev (g x) r).
Proof. induction l as [|x l IH]; [reflexivity|]. cbn [map]. cbn [cev fold_right] in *. rewrite IH. reflexivity. Qed.

(** what is proved of the constructor and of [_replace_symbols], by induction on the fuel *)
Definition new_ok fuel := forall o e syms G, wf e -> good o syms G ->
  wf (new cmp fuel o e syms G) /\ forall r, ev (new cmp fuel o e syms G) r = gsum o e syms G r.
Definition rep_ok fuel := forall (f : nat -> nat) e, (forall a b, f a = f b -> a = b) -> wf e ->
  wf (rep cmp fuel f e) /\ forall r, ev (rep cmp fuel f e) r = ev e (fun s => r (f s)).
Lemma trivial_value o e syms G r : good o syms G -> is_trivial syms G = true -> gsum o e syms G r = ev e r.
Proof.
  intros (ND & HG & _) HT.
  assert (A : forall p, In p G -> p = pid (length syms)).
  { intros p Hp. unfold is_trivial in HT. apply orb_true_iff in HT. destruct HT as [HT|HT].
    - apply Nat.ltb_lt in HT. pose proof (g_perm _ _ HG p Hp) as Pp. destruct (length syms) as [|[|m]]; [| |lia].
      + apply Permutation_sym in Pp. cbn in Pp. apply Permutation_nil in Pp. exact Pp.
      + unfold is_perm in Pp. cbn in Pp. apply Permutation_sym, Permutation_length_1_inv in Pp. exact Pp.
    - apply Nat.leb_le in HT. pose proof (g_id _ _ HG) as Hid. destruct G as [|g [|g' G]]; [destruct Hp| |cbn in HT; lia]. destruct Hp as [<-|[]]. destruct Hid as [<-|[]]. reflexivity. }
  pose proof (g_nodup _ _ HG) as NDG. pose proof (g_id _ _ HG) as Hid. destruct G as [|g [|g' G]]; [destruct Hid| |].
  - unfold gsum. cbn. rewrite bop_unit. apply ev_same. intro s. rewrite (A g (or_introl eq_refl)), (tr_id (length syms)); auto.
  - exfalso. inversion NDG as [|? ? N _]. apply N. left. rewrite (A g (or_introl eq_refl)), (A g' (or_intror (or_introl eq_refl))). reflexivity.
Qed.
Lemma smallest_ok rp o e syms G : good o syms G -> wf e ->
  (forall f e, (forall a b, f a = f b -> a = b) -> wf e -> wf (rp f e) /\ forall r, ev (rp f e) r = ev e (fun s => r (f s))) ->
  wf (smallest cmp rp syms G e) /\ forall r, gsum o (smallest cmp rp syms G e) syms G r = gsum o e syms G r.
Proof.
  intros (ND & HG & _) W HR. unfold smallest.
  assert (Q : forall l best, (forall p, In p l -> In p G) -> (wf best /\ forall r, gsum o best syms G r = gsum o e syms G r) ->
    let b := fold_left (fun best p => let e2 := rp (tr syms p) e in if cmp best e2 then e2 else best) l best in
    wf b /\ forall r, gsum o b syms G r = gsum o e syms G r).
  { induction l as [|p l IH]; intros best HL HB; cbn; [exact HB|]. apply IH; [intros; apply HL; right; assumption|].
    destruct (cmp best (rp (tr syms p) e)); [|exact HB].
    assert (Hp : In p G) by (apply HL; left; reflexivity).
    destruct (HR (tr syms p) e) as [R1 R2]; [intros a b; apply (tr_inj (length syms)); auto; apply (g_perm _ _ HG), Hp|exact W|]. split; [exact R1|].
    intro r. apply (gsum_translate o e _ syms G p); auto. }
  apply Q; auto.
Qed.
Lemma simplify_ok nw o e syms G : good o syms G -> wf e ->
  (forall o e syms G, wf e -> good o syms G -> wf (nw o e syms G) /\ forall r, ev (nw o e syms G) r = gsum o e syms G r) ->
  wf (simplify nw o e syms G) /\ forall r, ev (simplify nw o e syms G) r = gsum o e syms G r.
Proof.
  intros HGd W HN. pose proof HGd as (ND & HG & HL). unfold simplify. destruct (disjoint (cfs e) syms) eqn:D.
  - assert (E : forall p r, ev e (fun s => r (tr syms p s)) = ev e r) by (intros p r; apply ev_ext; intros s Hs; rewrite tr_out; [reflexivity|exact (disjoint_spec _ _ D s Hs)]).
    assert (GS : forall r, gsum o e syms G r = big o G (fun _ => ev e r)) by (intro r; apply big_ext; intros p _; apply E).
    destruct o; (split; [cbn; tauto|]); intro r; rewrite GS.
    + rewrite big_const_sum. cbn. ring.
    + rewrite big_const_prod. cbn [cev]. apply zpow_nat.
  - assert (RAW : forall e, wf e -> wf (CCyc o e syms G) /\ forall r, ev (CCyc o e syms G) r = gsum o e syms G r) by (intros e' W'; split; [cbn; auto|reflexivity]).
    destruct e as [k|s|l|l|e n|f l|o' e syms' G']; try (apply RAW; exact W).
    set (cyc := filter (is_cyclic syms G) l). set (unc := filter (fun x => negb (is_cyclic syms G x)) l).
    cbn [wf] in W. rewrite wf_all in W.
    assert (Wc : Forall wf cyc) by (apply Forall_filter, W). assert (Wu : Forall wf unc) by (apply Forall_filter, W).
    assert (CY : forall p r, In p G -> ev (CMul cyc) (fun s => r (tr syms p s)) = ev (CMul cyc) r).
    { intros p r Hp. cbn [cev]. apply fold_mul_ext. apply Forall_forall. intros x Hx. apply filter_In in Hx. apply (is_cyclic_value syms G x p); tauto. }
    assert (SP : forall r, gsum o (CMul l) syms G r = big o G (fun p => ev (CMul unc) (fun s => r (tr syms p s)) * ev (CMul cyc) r)).
    { intro r. apply big_ext. intros p Hp. rewrite <- (CY p r Hp). apply mul_split. }
    destruct o.
    + destruct cyc as [|c cyc'] eqn:EC; [apply RAW; cbn [wf]; rewrite wf_all; exact W|]. rewrite <- EC in *.
      destruct (HN OpSum (mk_mul unc) syms G (mk_mul_wf _ Wu) HGd) as [N1 N2]. split.
      * cbn [wf fold_right]. rewrite wf_all. auto.
      * intro r. rewrite SP, big_sum_mul. cbn [cev fold_right]. rewrite N2. f_equal. apply big_ext. intros p _. apply mk_mul_value.
    + assert (NU : Forall wf (map (fun x => nw OpProd x syms G) unc)) by (apply Forall_forall; intros x Hx; apply in_map_iff in Hx; destruct Hx as (y & <- & Hy); apply HN; [exact (proj1 (Forall_forall _ _) Wu y Hy)|exact HGd]).
      split.
      * cbn [wf fold_right]. rewrite wf_all. split; [apply mk_mul_wf, NU|]. apply Forall_forall. intros x Hx. apply in_map_iff in Hx. destruct Hx as (y & <- & Hy). cbn [wf]. exact (proj1 (Forall_forall _ _) Wc y Hy).
      * intro r. rewrite SP. change (ev (CMul (mk_mul (map (fun y => nw OpProd y syms G) unc) :: map (fun y => CPow y (Z.of_nat (length syms))) cyc)) r)
          with (ev (mk_mul (map (fun y => nw OpProd y syms G) unc)) r * ev (CMul (map (fun y => CPow y (Z.of_nat (length syms))) cyc)) r).
        rewrite mk_mul_value, !prod_map.
        etransitivity; [|symmetry; exact (big_op OpProd G (fun p => ev (CMul unc) (fun s => r (tr syms p s))) (fun _ => ev (CMul cyc) r))]. cbn [bop]. f_equal.
        -- transitivity (big OpProd unc (fun x => big OpProd G (fun p => ev x (fun s => r (tr syms p s))))).
           ++ apply big_ext. intros x Hx. apply HN; [exact (proj1 (Forall_forall _ _) Wu x Hx)|exact HGd].
           ++ rewrite big_swap. apply big_ext. intros p _. reflexivity.
        -- rewrite big_const_prod, (HL eq_refl). transitivity (big OpProd cyc (fun x => ev x r ^ length syms)); [apply big_ext; intros x _; apply zpow_nat|].
           assert (PW : forall (L : list (cx K)) m, big OpProd L (fun x => ev x r ^ m) = ev (CMul L) r ^ m).
           { intros L m. induction L as [|x L IH]; cbn [cev fold_right]; [|change (big OpProd (x :: L) (fun x => ev x r ^ m)) with (ev x r ^ m * big OpProd L (fun x => ev x r ^ m)); rewrite IH; cbn [cev]; symmetry; apply fpow_mul_l].
             cbn. induction m; cbn; [reflexivity|]. rewrite <- IHm. ring. }
           apply PW.
Qed.
Lemma build_ok fuel : new_ok fuel /\ rep_ok fuel.
Proof.
  induction fuel as [|fuel [IHn IHr]]; split.
  - intros o e syms G W HGd. cbn [new]. destruct (is_trivial syms G) eqn:T; [split; [exact W|intro r; symmetry; exact (trivial_value o e syms G r HGd T)]|].
    split; [cbn [wf]; split; [exact W|apply std_seq_good, HGd]|]. intro r. destruct HGd as (ND & HG & _). exact (gsum_std o e syms G r ND HG).
  - intros f e Hf W. cbn [rep]. split; [apply raw_rep_wf; assumption|]. intro r. apply raw_rep_value; assumption.
  - intros o e syms G W HGd. cbn [new]. destruct (is_trivial syms G) eqn:T; [split; [exact W|intro r; symmetry; exact (trivial_value o e syms G r HGd T)]|].
    pose proof (std_seq_good o syms G HGd) as HS. set (sy := std_seq syms G) in *.
    destruct (smallest_ok (rep cmp fuel) o e sy G HS W IHr) as [S1 S2].
    destruct (simplify_ok (new cmp fuel) o (smallest cmp (rep cmp fuel) sy G e) sy G HS S1 IHn) as [T1 T2].
    split; [exact T1|]. intro r. rewrite T2, S2. destruct HGd as (ND & HG & _). exact (gsum_std o e syms G r ND HG).
  - intros f e Hf W. destruct e as [k|s|l|l|e n|g l|o e syms G]; cbn [rep]; cbn [wf] in W; rewrite ?wf_all in W.
    + split; [exact Logic.I|reflexivity]. + split; [exact Logic.I|reflexivity].
    + split; [cbn [wf]; rewrite wf_all; apply Forall_forall; intros x Hx; apply in_map_iff in Hx; destruct Hx as (y & <- & Hy); apply (IHr f y Hf), (proj1 (Forall_forall _ _) W y Hy)|].
      intro r. cbn [cev]. induction W as [|y l Wy W IHl]; [reflexivity|]. cbn. rewrite (proj2 (IHr f y Hf Wy)). f_equal. exact IHl.
    + split; [cbn [wf]; rewrite wf_all; apply Forall_forall; intros x Hx; apply in_map_iff in Hx; destruct Hx as (y & <- & Hy); apply (IHr f y Hf), (proj1 (Forall_forall _ _) W y Hy)|].
      intro r. cbn [cev]. induction W as [|y l Wy W IHl]; [reflexivity|]. cbn. rewrite (proj2 (IHr f y Hf Wy)). f_equal. exact IHl.
    + destruct (IHr f e Hf W) as [R1 R2]. split; [exact R1|]. intro r. cbn [cev]. rewrite R2. reflexivity.
    + split; [cbn [wf]; rewrite wf_all; apply Forall_forall; intros x Hx; apply in_map_iff in Hx; destruct Hx as (y & <- & Hy); apply (IHr f y Hf), (proj1 (Forall_forall _ _) W y Hy)|].
      intro r. cbn [cev]. f_equal. rewrite map_map. induction W as [|y l Wy W IHl]; [reflexivity|]. cbn. rewrite (proj2 (IHr f y Hf Wy)). f_equal. exact IHl.
    + destruct W as [W HGd]. destruct (IHr f e Hf W) as [R1 R2]. destruct (IHn o (rep cmp fuel f e) (map f syms) G R1 (good_map f o syms G Hf HGd)) as [N1 N2].
      split; [exact N1|]. intro r. rewrite N2. cbn [cev]. unfold gsum. apply big_ext. intros p Hp. rewrite R2. apply ev_same. intro s. f_equal.
      destruct HGd as (ND & HG & _). apply (tr_rename (length syms)); auto. apply (g_perm _ _ HG), Hp.
Qed.
End New.
End Proofs.
