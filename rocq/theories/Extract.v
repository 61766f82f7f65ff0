(** * Marking assumed non-negative symbols
    ([SolutionStructural._extract_nonnegative_exprs], triples/core/structsos/solution.py:21-96,
    and its use in ternary/solver.py:106-129, quarternary/solver.py, symsos.py:81-100, acute.py:56-72) *)
From Coq Require Import Bool List Arith ZArith Lia Ring Field.
From Verif Require Import OrdField Base Perm Cyclic.
Import ListNotations.

Section Model.
Context {K : OrdField}.
Local Open Scope of_scope.
(** the functions other than the mark, and the name of the mark (the argument [func_name]) *)
Variable I : nat -> list K -> K.
Variable g : nat.
Notation cx := (cx K).

(** [func(arg)] (solution.py:48) *)
Definition mark (s : nat) : cx := CFun g [CSym s].
(** a number: [len(arg.free_symbols) == 0]; [arg < 0] is decided by its value *)
Definition closed (e : cx) : bool := match cfs e with [] => true | _ => false end.
Definition cval (e : cx) : K := cev I e (fun _ => 0).
(** [is_pow2] (solution.py:72-82); only integer exponents are modelled *)
Definition is_pow2 (x : cx) : bool :=
  match x with
  | CPow _ n => Z.even n
  | _ => (closed x && (0 <=? cval x))%bool
  end.
(** whether the terms of [arg.doit(deep=False)] pass (solution.py:88); this only decides whether
    None is returned, every answer is allowed here *)
Variable expanded_ok : cx -> bool.
(** [dfs] (solution.py:37-90), None for [_rewriting_exception]. The additional checker of acute.py
    returns the mark F(x) unchanged, as the last case does. Cyclic objects are rebuilt without the
    simplifications of their constructor, which are the subject of Cyclic.v. *)
Fixpoint dfs (e : cx) : option cx :=
  if closed e then (if cval e <? 0 then None else Some e) else
  let dfs_list := fix go (l : list cx) : option (list cx) :=
    match l with
    | [] => Some []
    | x :: l' => match dfs x with
                 | None => None
                 | Some x' => match go l' with None => None | Some l'' => Some (x' :: l'') end
                 end
    end in
  match e with
  | CNum k => Some (CNum k)   (* closed *)
  | CSym s => Some (mark s)
  | CAdd l => match dfs_list l with None => None | Some l' => Some (CAdd l') end
  | CMul l => match dfs_list l with None => None | Some l' => Some (CMul l') end
  | CPow b n =>
      if Z.even n then Some e
      else match dfs b with
           | None => None
           | Some b' => if Z.eqb n (-1) then Some (CPow b' (-1))
                        else if Z.ltb 0 n then Some (CMul [b'; CPow b (n - 1)])
                        else Some (CMul [CPow b (n + 1); CPow b' (-1)])
           end
  | CCyc o b syms G =>
      if is_pow2 b then Some e
      else if match b with CMul l => forallb is_pow2 l | _ => false end then Some e
      else if expanded_ok e then
             match dfs b with None => None | Some b' => Some (CCyc o b' syms G) end
           else None
  | CFun _ _ => Some e
  end.

(** Specification: values when the mark of the symbol [s] stands for [M s]. The symbols under a
    mark are translated with the others. *)
Definition marked (f : nat) (l : list cx) : option nat :=
  if Nat.eqb f g then match l with [CSym s] => Some s | _ => None end else None.
Fixpoint mev (M r : nat -> K) (e : cx) : K :=
  match e with
  | CNum k => k
  | CSym s => r s
  | CAdd l => fold_right (fun x a => mev M r x + a) 0 l
  | CMul l => fold_right (fun x a => mev M r x * a) 1 l
  | CPow e n => zpow (mev M r e) n
  | CFun f l => match marked f l with Some s => M s | None => I f (map (fun x => mev M r x) l) end
  | CCyc o e syms G => big o G (fun p => mev (fun s => M (tr syms p s)) (fun s => r (tr syms p s)) e)
  end.
(** no denominator vanishes *)
Fixpoint mdef (M r : nat -> K) (e : cx) : Prop :=
  match e with
  | CNum _ | CSym _ => True
  | CAdd l | CMul l => fold_right (fun x a => mdef M r x /\ a) True l
  | CPow e n => mdef M r e /\ ((n < 0)%Z -> mev M r e <> 0)
  | CFun _ _ => True
  | CCyc _ e syms G => forall p, In p G -> mdef (fun s => M (tr syms p s)) (fun s => r (tr syms p s)) e
  end.
(** the mark does not occur: it is uniquely named *)
Fixpoint fresh (e : cx) : bool :=
  match e with
  | CNum _ | CSym _ => true
  | CAdd l | CMul l => forallb fresh l
  | CPow e _ => fresh e
  | CFun f l => (negb (Nat.eqb f g) && forallb fresh l)%bool
  | CCyc _ e _ _ => fresh e
  end.
(** the marks that occur, also after translation *)
Fixpoint marks (e : cx) : list nat :=
  match e with
  | CNum _ | CSym _ => []
  | CAdd l | CMul l => flat_map marks l
  | CPow e _ => marks e
  | CFun f l => match marked f l with Some s => [s] | None => flat_map marks l end
  | CCyc _ e syms G => flat_map (fun p => map (tr syms p) (marks e)) G
  end.

(** *** Replacing the marks (ternary/solver.py:119-129) *)
(** a constraint that is a monomial in one symbol: the symbol, the exponent, the coefficient, and
    the value of the expression recorded for it *)
Record vcon : Type := { v_sym : nat; v_deg : nat; v_lc : K; v_val : (nat -> K) -> K }.
(** [replacement]: the last constraint on a symbol counts *)
Definition replacement (cs : list vcon) (s : nat) : option vcon :=
  find (fun c => Nat.eqb (v_sym c) s) (rev (filter (fun c => 0 <=? v_lc c) cs)).
(** the values of the marks after replacement *)
Definition mark_values (cs : list vcon) (r : nat -> K) (s : nat) : K :=
  match replacement cs s with Some c => v_val c r / v_lc c | None => 0 end.
(** [solution.has(func)]: None when a mark is left. The result is given as a function of the point *)
Definition replace_marks (cs : list vcon) (e : cx) : option ((nat -> K) -> K) :=
  if forallb (fun s => match replacement cs s with Some _ => true | None => false end) (marks e)
  then Some (fun r => mev (mark_values cs r) r e) else None.
(** the whole: [structural_sos_3vars] from the certificate of the solver on *)
Definition finish (cs : list vcon) (e : cx) : option ((nat -> K) -> K) :=
  match dfs e with None => None | Some e' => replace_marks cs e' end.
End Model.

Section Proofs.
Variable K : OrdField.
Local Open Scope of_scope.
Add Field Kf : (F_field K).
Variable I : nat -> list K -> K.
Variable g : nat.
Variable ok : cx K -> bool.
Notation mev := (mev I g). Notation mdef := (mdef I g). Notation dfs := (dfs I g ok).
Notation fresh := (fresh g). Notation marks := (marks g).
Implicit Types (e : cx K) (r M : nat -> K).

Lemma fresh_marked f (l : list (cx K)) : fresh (CFun f l) = true -> marked g f l = None.
Proof. cbn [Extract.fresh]. rewrite andb_true_iff, negb_true_iff. intros [H _]. unfold marked. rewrite H. reflexivity. Qed.
Lemma mev_fresh e : fresh e = true -> forall M r, mev M r e = cev I e r.
Proof.
  induction e as [k|s|l IH|l IH|e n IH|f l IH|o e syms G IH] using cx_ind'; intros H M r; cbn [Extract.mev cev]; auto.
  - cbn [Extract.fresh] in H. induction IH as [|x l Hx _ IHl]; [reflexivity|]. cbn in *. rewrite andb_true_iff in H. rewrite Hx, IHl by tauto. reflexivity.
  - cbn [Extract.fresh] in H. induction IH as [|x l Hx _ IHl]; [reflexivity|]. cbn in *. rewrite andb_true_iff in H. rewrite Hx, IHl by tauto. reflexivity.
  - rewrite IH by exact H. reflexivity.
  - rewrite fresh_marked by exact H. cbn [Extract.fresh] in H. rewrite andb_true_iff in H. destruct H as [_ H]. f_equal.
    induction IH as [|x l Hx _ IHl]; [reflexivity|]. cbn in *. rewrite andb_true_iff in H. rewrite Hx, IHl by tauto. reflexivity.
  - apply big_ext. intros p Hp. apply IH, H.
Qed.
Lemma mdef_fresh e : fresh e = true -> forall M M' r, mdef M r e -> mdef M' r e.
Proof.
  induction e as [k|s|l IH|l IH|e n IH|f l IH|o e syms G IH] using cx_ind'; intros H M M' r; cbn [Extract.mdef]; auto.
  - cbn [Extract.fresh] in H. induction IH as [|x l Hx _ IHl]; [auto|]. cbn in *. rewrite andb_true_iff in H. intros [A B]. split; [apply (Hx (proj1 H) M), A|apply IHl; tauto].
  - cbn [Extract.fresh] in H. induction IH as [|x l Hx _ IHl]; [auto|]. cbn in *. rewrite andb_true_iff in H. intros [A B]. split; [apply (Hx (proj1 H) M), A|apply IHl; tauto].
  - intros [A B]. split; [apply (IH H M), A|]. intro Hn. rewrite mev_fresh by exact H. rewrite <- (mev_fresh e H M r). apply B, Hn.
  - intros A p Hp. apply (IH H (fun s => M (tr syms p s))), A, Hp.
Qed.
Lemma closed_value e (r r' : nat -> K) : closed e = true -> cev I e r = cev I e r'.
Proof. unfold closed. intro H. apply ev_ext. destruct (cfs e); [intros s []|discriminate]. Qed.
Lemma closed_cval e r : closed e = true -> cev I e r = cval I e.
Proof. apply closed_value. Qed.

(** *** Powers *)
Lemma even_pos m : Nat.even (Pos.to_nat m) = Z.even (Zpos m).
Proof.
  destruct m as [m|m|]; [|rewrite Pos2Nat.inj_xO, Nat.even_mul; reflexivity|reflexivity].
  rewrite Pos2Nat.inj_xI, Nat.even_succ, Nat.odd_mul. reflexivity.
Qed.
Lemma zpow_even_nonneg (x : K) n : Z.even n = true -> ((n < 0)%Z -> x <> 0) -> 0 <= zpow x n.
Proof.
  intros H Hn. destruct n as [|m|m]; cbn [zpow]; [apply f1_nonneg| |].
  - apply fpow_even_nonneg. rewrite even_pos. exact H.
  - assert (E : Nat.even (Pos.to_nat m) = true) by (rewrite even_pos; exact H).
    assert (P : 0 < x ^ Pos.to_nat m).
    { destruct (fle_lt_eq K 0 (x ^ Pos.to_nat m)) as [Q _]. destruct (Q (fpow_even_nonneg K x _ E)) as [Q1|Q1]; [exact Q1|].
      exfalso. symmetry in Q1. revert Q1. apply fpow_neq0. apply Hn. reflexivity. }
    apply flt_le. apply finv_pos. exact P.
Qed.
Lemma zpow_odd_pos (x : K) n : (0 < n)%Z -> zpow x n = x * zpow x (n - 1).
Proof.
  intro H. destruct n as [|m|m]; try lia. destruct (Pos.eq_dec m 1) as [->|Hm].
  { change (Z.pos 1 - 1)%Z with 0%Z. cbn [zpow]. change (Pos.to_nat 1) with 1%nat. cbn [fpow]. ring. }
  replace (Z.pos m - 1)%Z with (Z.pos (m - 1)) by lia. cbn [zpow]. replace (Pos.to_nat m) with (S (Pos.to_nat (m - 1))) by lia. reflexivity.
Qed.
Lemma zpow_odd_neg (x : K) n : (n < -1)%Z -> x <> 0 -> zpow x n = zpow x (n + 1) * zpow x (-1).
Proof.
  intros H Hx. destruct n as [|m|m]; try lia. replace (Z.neg m + 1)%Z with (Z.neg (m - 1)) by lia. cbn [zpow].
  replace (Pos.to_nat m) with (S (Pos.to_nat (m - 1))) by lia. cbn [fpow]. change (Pos.to_nat 1) with 1%nat. cbn [fpow].
  assert (x ^ Pos.to_nat (m - 1) <> 0) by (apply fpow_neq0; exact Hx). field. auto.
Qed.

(** *** Values are kept, with the marks read as the symbols *)
Lemma fold_mdef_mul M r l : mdef M r (CMul l) <-> forall x, In x l -> mdef M r x.
Proof.
  cbn [Extract.mdef]. induction l as [|x l IH]; cbn; [split; [intros _ x []|auto]|]. rewrite IH. clear IH. split.
  - intros [A B] y [<-|Hy]; auto.
  - intro H. split; [apply H; auto|]. intros y Hy. apply H. auto.
Qed.
Fixpoint dfs_list (l : list (cx K)) : option (list (cx K)) :=
  match l with
  | [] => Some []
  | x :: l' => match dfs x with
               | None => None
               | Some x' => match dfs_list l' with None => None | Some l'' => Some (x' :: l'') end
               end
  end.
Definition dfs_body (e : cx K) : option (cx K) :=
  if closed e then (if cval I e <? 0 then None else Some e) else
  match e with
  | CNum k => Some (CNum k)
  | CSym s => Some (mark g s)
  | CAdd l => match dfs_list l with None => None | Some l' => Some (CAdd l') end
  | CMul l => match dfs_list l with None => None | Some l' => Some (CMul l') end
  | CPow b n =>
      if Z.even n then Some e
      else match dfs b with
           | None => None
           | Some b' => if Z.eqb n (-1) then Some (CPow b' (-1))
                        else if Z.ltb 0 n then Some (CMul [b'; CPow b (n - 1)])
                        else Some (CMul [CPow b (n + 1); CPow b' (-1)])
           end
  | CCyc o b syms G =>
      if is_pow2 I b then Some e
      else if match b with CMul l => forallb (is_pow2 I) l | _ => false end then Some e
      else if ok e then
             match dfs b with None => None | Some b' => Some (CCyc o b' syms G) end
           else None
  | CFun _ _ => Some e
  end.
Lemma dfs_eq e : dfs e = dfs_body e.
Proof.
  destruct e as [k|s|l|l|e n|f l|o e syms G]; try reflexivity; unfold dfs_body; cbn [Extract.dfs];
    destruct (closed _); try reflexivity.
Qed.
Lemma Forall2_fold_ext (f : cx K -> K -> K) l l' (h h' : cx K -> K) z (op : K -> K -> K) :
  Forall2 (fun x y => h x = h' y) l l' -> fold_right (fun x a => op (h x) a) z l = fold_right (fun x a => op (h' x) a) z l'.
Proof. induction 1 as [|x y l l' E _ IH]; [reflexivity|]. cbn. rewrite E, IH. reflexivity. Qed.

Lemma dfs_value e : fresh e = true -> forall e', dfs e = Some e' -> forall r, mdef r r e -> mdef r r e' /\ mev r r e' = cev I e r.
Proof.
  induction e as [k|s|l IH|l IH|e n IH|f l IH|o e syms G IH] using cx_ind'; intros Hf e' H r Hd; rewrite dfs_eq in H; unfold dfs_body in H;
    destruct (closed _) eqn:Ec in H; try (destruct (_ <? _) in H; [discriminate|]; injection H as <-; split; [exact Hd|apply mev_fresh; exact Hf]).
  - injection H as <-. split; [exact Logic.I|reflexivity].
  - injection H as <-. split; [exact Logic.I|]. cbn. unfold marked. rewrite Nat.eqb_refl. reflexivity.
  - destruct (dfs_list l) as [l'|] eqn:E; [|discriminate]. injection H as <-. cbn [Extract.mdef Extract.mev cev]. cbn [Extract.mdef] in Hd. cbn [Extract.fresh] in Hf.
    clear Ec. revert l' E. induction IH as [|x l Hx _ IHl]; intros l' E; cbn in E.
    + injection E as <-. split; [exact Logic.I|reflexivity].
    + cbn in Hd, Hf. rewrite andb_true_iff in Hf. destruct Hd as [Hd1 Hd2]. destruct (dfs x) as [x'|] eqn:Ex; [|discriminate].
      destruct (dfs_list l) as [l''|]; [|discriminate]. injection E as <-. destruct (Hx (proj1 Hf) x' eq_refl r Hd1) as [A B].
      destruct (IHl (proj2 Hf) Hd2 l'' eq_refl) as [C D]. cbn. rewrite B, D. auto.
  - destruct (dfs_list l) as [l'|] eqn:E; [|discriminate]. injection H as <-. cbn [Extract.mdef Extract.mev cev]. cbn [Extract.mdef] in Hd. cbn [Extract.fresh] in Hf.
    clear Ec. revert l' E. induction IH as [|x l Hx _ IHl]; intros l' E; cbn in E.
    + injection E as <-. split; [exact Logic.I|reflexivity].
    + cbn in Hd, Hf. rewrite andb_true_iff in Hf. destruct Hd as [Hd1 Hd2]. destruct (dfs x) as [x'|] eqn:Ex; [|discriminate].
      destruct (dfs_list l) as [l''|]; [|discriminate]. injection E as <-. destruct (Hx (proj1 Hf) x' eq_refl r Hd1) as [A B].
      destruct (IHl (proj2 Hf) Hd2 l'' eq_refl) as [C D]. cbn. rewrite B, D. auto.
  - destruct (Z.even n) eqn:En; [injection H as <-; split; [exact Hd|apply (mev_fresh (CPow e n)); exact Hf]|].
    destruct (dfs e) as [b'|] eqn:Eb; [|discriminate]. cbn [Extract.mdef] in Hd. destruct Hd as [Hd Hn]. cbn [Extract.fresh] in Hf.
    destruct (IH Hf b' eq_refl r Hd) as [A B]. rewrite (mev_fresh e Hf) in Hn.
    destruct (Z.eqb_spec n (-1)) as [->|N1].
    { injection H as <-. cbn [Extract.mdef Extract.mev cev]. rewrite B. split; [split; [exact A|intros _; apply Hn; lia]|reflexivity]. }
    destruct (Z.ltb_spec 0 n) as [N2|N2]; injection H as <-; cbn [Extract.mdef Extract.mev cev fold_right]; rewrite B, (mev_fresh e Hf).
    + split; [repeat split; auto; lia|]. rewrite (zpow_odd_pos _ n N2). ring.
    + assert (n <> 0)%Z by (intros ->; discriminate). assert (Hz : cev I e r <> 0) by (apply Hn; lia).
      split; [repeat split; auto|]. rewrite (zpow_odd_neg _ n) by (auto; lia). ring.
  - injection H as <-. split; [exact Hd|apply (mev_fresh (CFun f l)), Hf].
  - destruct (is_pow2 I e); [injection H as <-; split; [exact Hd|apply (mev_fresh (CCyc o e syms G)); exact Hf]|].
    destruct (match e with CMul l => _ | _ => _ end) in H; [injection H as <-; split; [exact Hd|apply (mev_fresh (CCyc o e syms G)); exact Hf]|].
    destruct (ok _); [|discriminate]. destruct (dfs e) as [b'|] eqn:Eb; [|discriminate]. injection H as <-. cbn [Extract.fresh] in Hf. cbn [Extract.mdef] in Hd.
    cbn [Extract.mdef Extract.mev cev]. split.
    + intros p Hp. apply (IH Hf b' eq_refl _ (Hd p Hp)).
    + apply big_ext. intros p Hp. apply (IH Hf b' eq_refl _ (Hd p Hp)).
Qed.

(** *** Non-negativity *)
Lemma big_nonneg {A} o (l : list A) (f : A -> K) : (forall x, In x l -> 0 <= f x) -> 0 <= big o l f.
Proof.
  unfold big. induction l as [|x l IH]; intro H; cbn.
  - destruct o; cbn; [apply fle_refl|apply f1_nonneg].
  - assert (0 <= f x) by (apply H; left; reflexivity). assert (H2 := IH (fun y Hy => H y (or_intror Hy))).
    destruct o; cbn; [apply fadd_nonneg|apply fmul_nonneg]; assumption.
Qed.
Lemma pow2_nonneg e M r : fresh e = true -> is_pow2 I e = true -> mdef M r e -> 0 <= mev M r e.
Proof.
  intros Hf H Hd. assert (G : closed e && (0 <=? cval I e) = true -> 0 <= mev M r e).
  { rewrite andb_true_iff. intros [A B]. rewrite mev_fresh by exact Hf. rewrite closed_cval by exact A. apply fleb_le, B. }
  destruct e; cbn [is_pow2] in H; try (apply G; exact H). cbn [Extract.mev]. apply zpow_even_nonneg; [exact H|]. destruct Hd as [_ Hd]. exact Hd.
Qed.
Lemma dfs_nonneg e : (forall f l, 0 <= I f l) -> fresh e = true -> forall e', dfs e = Some e' ->
  forall M r, (forall s, 0 <= M s) -> mdef M r e' -> 0 <= mev M r e'.
Proof.
  intro HI. induction e as [k|s|l IH|l IH|e n IH|f l IH|o e syms G IH] using cx_ind'; intros Hf e' H M r HM Hd; rewrite dfs_eq in H; unfold dfs_body in H;
    destruct (closed _) eqn:Ec in H;
    try (destruct (_ <? _) eqn:El in H; [discriminate|]; injection H as <-; rewrite mev_fresh, closed_cval by assumption; apply fltb_ge, El).
  - discriminate.
  - injection H as <-. cbn. unfold marked. rewrite Nat.eqb_refl. apply HM.
  - destruct (dfs_list l) as [l'|] eqn:E; [|discriminate]. injection H as <-. cbn [Extract.mdef Extract.mev] in *. cbn [Extract.fresh] in Hf.
    clear Ec. revert l' E Hd. induction IH as [|x l Hx _ IHl]; intros l' E Hd; cbn in E.
    + injection E as <-. apply fle_refl.
    + cbn in Hf. rewrite andb_true_iff in Hf. destruct (dfs x) as [x'|] eqn:Ex; [|discriminate].
      destruct (dfs_list l) as [l''|]; [|discriminate]. injection E as <-. cbn in Hd. cbn. apply fadd_nonneg; [apply (Hx (proj1 Hf) x' eq_refl); tauto|apply (IHl (proj2 Hf)); tauto].
  - destruct (dfs_list l) as [l'|] eqn:E; [|discriminate]. injection H as <-. cbn [Extract.mdef Extract.mev] in *. cbn [Extract.fresh] in Hf.
    clear Ec. revert l' E Hd. induction IH as [|x l Hx _ IHl]; intros l' E Hd; cbn in E.
    + injection E as <-. apply f1_nonneg.
    + cbn in Hf. rewrite andb_true_iff in Hf. destruct (dfs x) as [x'|] eqn:Ex; [|discriminate].
      destruct (dfs_list l) as [l''|]; [|discriminate]. injection E as <-. cbn in Hd. cbn. apply fmul_nonneg; [apply (Hx (proj1 Hf) x' eq_refl); tauto|apply (IHl (proj2 Hf)); tauto].
  - destruct (Z.even n) eqn:En.
    { injection H as <-. cbn [Extract.mev]. apply zpow_even_nonneg; [exact En|]. destruct Hd as [_ Hd]. exact Hd. }
    destruct (dfs e) as [b'|] eqn:Eb; [|discriminate]. cbn [Extract.fresh] in Hf.
    assert (Inv : forall M r, (forall s, 0 <= M s) -> mdef M r (CPow b' (-1)) -> 0 <= mev M r (CPow b' (-1))).
    { intros M0 r0 HM0 [A B]. cbn [Extract.mev zpow]. change (Pos.to_nat 1) with 1%nat. cbn [fpow].
      assert (P := IH Hf b' eq_refl M0 r0 HM0 A). apply fle_lt_eq in P. destruct P as [P|P]; [|exfalso; apply B; [lia|symmetry; exact P]].
      apply flt_le, finv_pos. replace (mev M0 r0 b' * 1) with (mev M0 r0 b') by ring. exact P. }
    destruct (Z.eqb n (-1)); [injection H as <-; apply Inv; assumption|].
    assert (Ev : Z.even (n - 1) = true /\ Z.even (n + 1) = true).
    { rewrite Z.even_sub, Z.even_add, En. auto. }
    destruct (Z.ltb 0 n); injection H as <-; rewrite fold_mdef_mul in Hd; cbn [Extract.mev fold_right].
    + apply fmul_nonneg; [apply (IH Hf b' eq_refl); [exact HM|apply Hd; left; reflexivity]|].
      apply fmul_nonneg; [|apply f1_nonneg]. apply zpow_even_nonneg; [apply Ev|].
      destruct (Hd (CPow e (n - 1)) (or_intror (or_introl eq_refl))) as [_ D]. exact D.
    + apply fmul_nonneg.
      * apply zpow_even_nonneg; [apply Ev|]. destruct (Hd (CPow e (n + 1)) (or_introl eq_refl)) as [_ D]. exact D.
      * apply fmul_nonneg; [|apply f1_nonneg]. apply (Inv M r HM). apply Hd. right. left. reflexivity.
  - injection H as <-. rewrite mev_fresh by exact Hf. cbn [cev]. apply HI.
  - cbn [Extract.fresh] in Hf. destruct (is_pow2 I e) eqn:Ep.
    { injection H as <-. cbn [Extract.mev]. apply big_nonneg. intros p Hp. apply pow2_nonneg; [exact Hf|exact Ep|apply Hd, Hp]. }
    destruct (match e with CMul l => _ | _ => _ end) eqn:Em in H.
    { injection H as <-. cbn [Extract.mev]. apply big_nonneg. intros p Hp. destruct e as [| | |l| | |]; try discriminate.
      specialize (Hd p Hp). cbn [Extract.fresh] in Hf. rewrite fold_mdef_mul in Hd. cbn [Extract.mev]. clear -ok Hf Em Hd.
      induction l as [|x l IHl]; cbn; [apply f1_nonneg|]. cbn in Hf, Em. rewrite andb_true_iff in Hf, Em.
      apply fmul_nonneg; [apply pow2_nonneg; [tauto|tauto|apply Hd; left; reflexivity]|apply IHl; try tauto]. intros y Hy. apply Hd. right. exact Hy. }
    destruct (ok _); [|discriminate]. destruct (dfs e) as [b'|] eqn:Eb; [|discriminate]. injection H as <-.
    cbn [Extract.mev]. apply big_nonneg. intros p Hp. apply (IH Hf b' eq_refl); [intro s; apply HM|apply Hd, Hp].
Qed.

(** *** Replacing the marks *)
Lemma mev_marks e : forall M M' r, (forall s, In s (marks e) -> M s = M' s) -> mev M r e = mev M' r e.
Proof.
  induction e as [k|s|l IH|l IH|e n IH|f l IH|o e syms G IH] using cx_ind'; intros M M' r H; cbn [Extract.mev]; auto.
  - cbn [Extract.marks] in H. induction IH as [|x l Hx _ IHl]; [reflexivity|]. cbn in *. rewrite (Hx M M' r), IHl; [reflexivity|intros; apply H, in_or_app; auto|intros; apply H, in_or_app; auto].
  - cbn [Extract.marks] in H. induction IH as [|x l Hx _ IHl]; [reflexivity|]. cbn in *. rewrite (Hx M M' r), IHl; [reflexivity|intros; apply H, in_or_app; auto|intros; apply H, in_or_app; auto].
  - rewrite (IH M M' r); auto.
  - cbn [Extract.marks] in H. destruct (marked g f l) as [s|]; [apply H; left; reflexivity|]. f_equal.
    induction IH as [|x l Hx _ IHl]; [reflexivity|]. cbn in *. rewrite (Hx M M' r), IHl; [reflexivity|intros; apply H, in_or_app; auto|intros; apply H, in_or_app; auto].
  - apply big_ext. intros p Hp. apply IH. intros s Hs. apply H. cbn [Extract.marks]. apply in_flat_map. exists p. split; [exact Hp|apply in_map, Hs].
Qed.
Lemma mdef_marks e : forall M M' r, (forall s, In s (marks e) -> M s = M' s) -> mdef M r e -> mdef M' r e.
Proof.
  induction e as [k|s|l IH|l IH|e n IH|f l IH|o e syms G IH] using cx_ind'; intros M M' r H; cbn [Extract.mdef]; auto.
  - cbn [Extract.marks] in H. induction IH as [|x l Hx _ IHl]; [auto|]. cbn in *. intros [A B]. split; [apply (Hx M M' r); [intros; apply H, in_or_app; auto|exact A]|apply IHl; [intros; apply H, in_or_app; auto|exact B]].
  - cbn [Extract.marks] in H. induction IH as [|x l Hx _ IHl]; [auto|]. cbn in *. intros [A B]. split; [apply (Hx M M' r); [intros; apply H, in_or_app; auto|exact A]|apply IHl; [intros; apply H, in_or_app; auto|exact B]].
  - intros [A B]. split; [apply (IH M M' r H A)|]. rewrite <- (mev_marks e M M' r H). exact B.
  - intros A p Hp. apply (IH (fun s => M (tr syms p s))); [|apply A, Hp]. intros s Hs. apply H. cbn [Extract.marks]. apply in_flat_map. exists p. split; [exact Hp|apply in_map, Hs].
Qed.

(** what the caller knows of the constraints at a feasible point: each recorded expression has the
    value of its polynomial, which is not negative *)
Definition constraint_holds r (c : @vcon K) : Prop := v_val c r = v_lc c * r (v_sym c) ^ v_deg c /\ 0 <= v_val c r.
Lemma replacement_in (cs : list (@vcon K)) s c : replacement cs s = Some c -> In c cs /\ v_sym c = s /\ 0 <= v_lc c.
Proof.
  unfold replacement. intro H. apply find_some in H. destruct H as [A B]. apply in_rev, filter_In in A. apply Nat.eqb_eq in B.
  split; [apply A|]. split; [exact B|]. apply fleb_le. apply A.
Qed.
Lemma finish_spec (cs : list (@vcon K)) e v r : (forall f l, 0 <= I f l) -> fresh e = true ->
  (forall c, In c cs -> constraint_holds r c /\ v_lc c <> 0 /\ v_deg c = 1%nat) ->
  mdef r r e -> finish I g ok cs e = Some v -> v r = cev I e r /\ 0 <= v r.
Proof.
  intros HI Hf HC Hd. unfold finish. destruct (dfs e) as [e'|] eqn:E; [|discriminate]. unfold replace_marks.
  destruct (forallb _ (Extract.marks g e')) eqn:Em; [|discriminate]. intro H. injection H as <-.
  rewrite forallb_forall in Em.
  assert (MR : forall s, In s (marks e') -> mark_values cs r s = r s /\ 0 <= r s).
  { intros s Hs. specialize (Em s Hs). unfold mark_values. destruct (replacement cs s) as [c|] eqn:Ec; [|discriminate].
    apply replacement_in in Ec. destruct Ec as [Hc [Es Hl]]. destruct (HC c Hc) as [[V1 V2] [N1 N2]]. rewrite N2 in V1. cbn [fpow] in V1. rewrite Es in V1.
    assert (Q : v_val c r / v_lc c = r s) by (rewrite V1; field; exact N1). split; [exact Q|]. rewrite <- Q. apply fdiv_nonneg; [exact V2|].
    apply fle_lt_eq in Hl. destruct Hl as [Hl|Hl]; [exact Hl|]. exfalso. apply N1. symmetry. exact Hl. }
  destruct (dfs_value e Hf e' E r Hd) as [D1 V]. 
  assert (Eq : mev (mark_values cs r) r e' = mev r r e') by (apply mev_marks; intros s Hs; apply MR, Hs).
  rewrite Eq. split; [exact V|].
  set (M := fun s => if 0 <=? r s then r s else 0).
  assert (EM : forall s, In s (marks e') -> r s = M s).
  { intros s Hs. unfold M. rewrite (proj2 (fleb_le K 0 (r s))); [reflexivity|apply MR, Hs]. }
  rewrite (mev_marks e' r M r EM). apply (dfs_nonneg e HI Hf e' E).
  - intro s. unfold M. destruct (0 <=? r s) eqn:L; [apply fleb_le, L|apply fle_refl].
  - apply (mdef_marks e' r M r EM D1).
Qed.
End Proofs.
Lemma pow_one (K : OrdField) (x : K) : (x ^ 1 = x)%F.
Proof. pose proof (F_R (F_field K)) as R. cbn. rewrite (Rmul_comm R). apply (Rmul_1_l R). Qed.
