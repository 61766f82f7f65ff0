(** * Ternary quadratic forms (triples/core/structsos/ternary/quadratic.py) *)
From Coq Require Import Bool List Arith Lia Ring Field.
From Verif Require Import OrdField Base Congruence Expr.
Import ListNotations.

Section Model.
Context {K : OrdField}.
Local Open Scope of_scope.

(** [sum_y_exprs(y, exprs)] (triples/core/structsos/utils.py:91-99): zero
    weights are dropped; [radsimp]/[together] keep the value and are omitted. *)
Fixpoint sum_y (y : list K) (es : list (ex K)) : ex K :=
  match y, es with
  | v :: y', e :: es' => EAdd (if v =? 0 then EC 0 else EMul (EC v) e) (sum_y y' es')
  | _, _ => EC 0
  end.

Let a : ex K := EX 0.
Let b : ex K := EX 1.
Let c : ex K := EX 2.

(** [CommonExpr.quadratic(x, y)] (triples/core/structsos/ternary/utils.py:180-195). *)
Definition common_quadratic (x y : K) : option (ex K) :=
  if ((x <? 0) || (x + y <? 0))%bool then None
  else if x =? 0 then Some (EC y * csum (a * b))%E
  else if 2 * x <? y then Some (csum (EC x * a ^ 2 + EC y * (b * c)))%E
  else
    let w1 := (2 * x - y) / 3 in
    let w2 := x - w1 in
    Some (EC (w1 / 2) * csum ((a - b) ^ 2) + EC w2 * (csum a) ^ 2)%E.

(** [sos_struct_quadratic(coeff)] (ternary/quadratic.py:7-19). *)
Definition sos_struct_quadratic (cf : nat -> nat -> nat -> K) : option (ex K) :=
  common_quadratic (cf 2 0 0)%nat (cf 1 1 0)%nat.

(** [quad_form] (ternary/quadratic.py:68-74) *)
Definition quad_form (c00 c11 c22 c01 c02 c12 : K) : list (list K) :=
  [[c00; c01 / 2; c02 / 2]; [c01 / 2; c11; c12 / 2]; [c02 / 2; c12 / 2; c22]].

(** [solve_psd] (ternary/quadratic.py:76-87); the matrix is never empty, so
    [congruence] does not raise. *)
Definition solve_psd (M : list (list K)) : option (ex K) :=
  match congruence M with
  | Ok (Some (U, Sv)) =>
      Some (sum_y Sv
        [((EC (mget U 0 0) * a + EC (mget U 0 1) * b + EC (mget U 0 2) * c) ^ 2)%E;
         ((EC (mget U 1 1) * b + EC (mget U 1 2) * c) ^ 2)%E;
         ((EC (mget U 2 2) * c) ^ 2)%E])
  | _ => None
  end.

(** [solve_nonnegative] (ternary/quadratic.py:89-91) *)
Definition solve_nonnegative (M : list (list K)) : option (ex K) :=
  if forallb (fun i => forallb (fun j => 0 <=? mget M i j) (seq 0 3)) (seq 0 3)
  then Some (EC (mget M 0 0) * a ^ 2 + EC (mget M 1 1) * b ^ 2 + EC (mget M 2 2) * c ^ 2
             + EC (mget M 0 1 * 2) * a * b + EC (mget M 0 2 * 2) * a * c + EC (mget M 1 2 * 2) * b * c)%E
  else None.

(** [M - psd] *)
Definition msub3 (M P : list (list K)) : list (list K) :=
  mtab 3 3 (fun i j => mget M i j - mget P i j).

(** [psd[i,j] = psd[j,i] = v] *)
Definition mset3 (M : list (list K)) (i j : nat) (v : K) : list (list K) :=
  mtab 3 3 (fun r s => if ((r =? i) && (s =? j) || (r =? j) && (s =? i))%nat then v else mget M r s).

Definition fmin0 (x : K) : K := if x <=? 0 then x else 0.

(** The final loop (ternary/quadratic.py:117-124); [is] = the values of [i] still to try. *)
Fixpoint acyclic_loop (M psd : list (list K)) (is : list nat) : option (ex K) :=
  match is with
  | [] => None
  | i :: is' =>
      let j := ((i + 1) mod 3)%nat in
      let k := ((i + 2) mod 3)%nat in
      if 0 <=? mget psd i j then
        let psd' := mset3 psd i j (mget psd j k * mget psd k i / mget psd k k) in
        match solve_nonnegative (msub3 M psd'), solve_psd psd' with
        | Some s2, Some s1 => Some (s1 + s2)%E
        | _, _ => acyclic_loop M psd' is'
        end
      else acyclic_loop M psd is'
  end.

(** [sos_struct_acyclic_quadratic(coeff)] (ternary/quadratic.py:22-124).  In
    the branch with one negative coefficient [solve_nonnegative(M - psd)] is
    added without a test; a [None] there would raise, here it gives [None]
    (it is shown not to happen). *)
Definition sos_struct_acyclic_quadratic (cf : nat -> nat -> nat -> K) : option (ex K) :=
  let c00 := (cf 2 0 0)%nat in let c01 := (cf 1 1 0)%nat in let c02 := (cf 1 0 1)%nat in
  let c11 := (cf 0 2 0)%nat in let c12 := (cf 0 1 1)%nat in let c22 := (cf 0 0 2)%nat in
  if ((c00 <? 0) || (c11 <? 0) || (c22 <? 0))%bool then None
  else
    let M := quad_form c00 c11 c22 c01 c02 c12 in
    match solve_psd M with
    | Some s => Some s
    | None =>
        if ((0 <=? c01) && (0 <=? c02) && (0 <=? c12))%bool then solve_nonnegative M
        else if Nat.eqb (length (filter (fun x : K => 0 <=? x) [c01; c02; c12])) 2 then
          let psd := quad_form c00 c11 c22 (fmin0 c01) (fmin0 c02) (fmin0 c12) in
          match solve_psd psd with
          | Some s => match solve_nonnegative (msub3 M psd) with Some s2 => Some (s + s2)%E | None => None end
          | None => None
          end
        else if ((c00 =? 0) || (c11 =? 0) || (c22 =? 0))%bool then None
        else acyclic_loop M M [0; 1; 2]%nat
    end.

End Model.

Section Proofs.
Variable K : OrdField.
Local Open Scope of_scope.
Add Field Kf : (F_field K).
Implicit Types (M P psd : list (list K)) (cf : nat -> nat -> nat -> K).

(** ** sum_y_exprs *)
Lemma ev_sum_y (y : list K) es env :
  ev env (sum_y y es) = fsum (map (fun p => fst p * ev env (snd p)) (combine y es)).
Proof.
  revert es. induction y as [|v y IH]; intros [|e es]; try reflexivity.
  cbn [sum_y combine map fsum fst snd ev]. rewrite IH. f_equal.
  destruct (v =? 0) eqn:E; [|reflexivity].
  apply feqb_eq in E. subst v. cbn. ring.
Qed.
Lemma manifest_sum_y pos (y : list K) es :
  (forall v, In v y -> 0 <= v) -> (forall e, In e es -> manifest pos e = true) ->
  manifest pos (sum_y y es) = true.
Proof.
  revert es. induction y as [|v y IH]; intros [|e es] Hy He; cbn; try apply fleb_refl.
  rewrite IH.
  2: intros; apply Hy; right; assumption.
  2: intros; apply He; right; assumption.
  rewrite andb_true_r. destruct (v =? 0); cbn; [apply fleb_refl|].
  rewrite (He e) by (left; reflexivity). rewrite (Hy v) by (left; reflexivity). reflexivity.
Qed.
Lemma defined_sum_y (y : list K) es env :
  (forall e, In e es -> defined env e) -> defined env (sum_y y es).
Proof.
  revert es. induction y as [|v y IH]; intros [|e es] He; cbn; auto.
  split; [|apply IH; intros; apply He; right; assumption].
  destruct (v =? 0); cbn; auto. split; auto. apply He. left. reflexivity.
Qed.

(** ** Cyclic quadratics *)
Lemma common_quadratic_sound (x y : K) e :
  common_quadratic x y = Some e ->
  (forall env, defined env e) /\
  (forall A B C, ev (pt3 A B C) e = x * (A * A + B * B + C * C) + y * (A * B + B * C + C * A)) /\
  manifest true e = true /\
  (y <= 2 * x -> manifest false e = true \/ x = 0 /\ y = 0).
Proof.
  unfold common_quadratic.
  destruct (x <? 0) eqn:E1; cbn [orb]; [discriminate|].
  destruct (x + y <? 0) eqn:E2; [discriminate|].
  apply fltb_ge in E1. apply fltb_ge in E2.
  destruct (x =? 0) eqn:E3.
  { apply feqb_eq in E3. subst x. intro H. apply (f_equal (fun o => match o with Some z => z | None => e end)) in H.
    cbn in H. subst e. assert (Hy : 0 <= y) by (replace y with (0 + y) by ring; exact E2).
    repeat split.
    - intros. cbn. ring.
    - cbn. rewrite Hy. reflexivity.
    - intro Hyx. right. split; [reflexivity|]. apply fle_antisym; [|exact Hy].
      replace (0:K) with (2 * 0 : K) by ring. exact Hyx. }
  assert (X0 : 0 < x). { apply feqb_neq in E3. apply flt_le_neq. split; auto. }
  destruct (2 * x <? y) eqn:E4.
  { apply fltb_lt in E4. intro H. apply (f_equal (fun o => match o with Some z => z | None => e end)) in H.
    cbn in H. subst e.
    assert (Hy : 0 <= y). { apply flt_le. eapply fle_lt_trans; [|exact E4]. fpos. }
    repeat split.
    - intros. cbn. ring.
    - cbn. rewrite Hy, E1. reflexivity.
    - intro Hyx. exfalso. apply (flt_irrefl K y). eapply fle_lt_trans; eassumption. }
  apply fltb_ge in E4. intro H. apply (f_equal (fun o => match o with Some z => z | None => e end)) in H.
  cbn in H. subst e.
  assert (P3 : 0 < (3:K)) by fpos.
  assert (W1 : 0 <= (2 * x - y) / 3 / 2).
  { apply fdiv_nonneg; [|fpos]. apply fdiv_nonneg; [|fpos]. apply (proj1 (fle_sub _ _)). exact E4. }
  assert (W2 : 0 <= x - (2 * x - y) / 3).
  { replace (x - (2 * x - y) / 3) with ((x + y) / 3) by (field; fnz). apply fdiv_nonneg; assumption. }
  unfold fle in W1, W2.
  repeat split.
  - intros. cbn. field. fnz.
  - cbn. rewrite W1, W2. reflexivity.
  - intros _. left. cbn. rewrite W1, W2. reflexivity.
Qed.

Lemma common_quadratic_none (x y : K) :
  common_quadratic x y = None <->
  exists A B C, 0 <= A /\ 0 <= B /\ 0 <= C /\
    x * (A * A + B * B + C * C) + y * (A * B + B * C + C * A) < 0.
Proof.
  split.
  - unfold common_quadratic.
    destruct (x <? 0) eqn:E1; cbn [orb].
    { intros _. apply fltb_lt in E1. exists 1, 0, 0. repeat split; try fpos.
      replace (x * (1 * 1 + 0 * 0 + 0 * 0) + y * (1 * 0 + 0 * 0 + 0 * 1)) with x by ring. exact E1. }
    destruct (x + y <? 0) eqn:E2.
    { intros _. apply fltb_lt in E2. exists 1, 1, 1. repeat split; try fpos.
      replace (x * (1 * 1 + 1 * 1 + 1 * 1) + y * (1 * 1 + 1 * 1 + 1 * 1)) with (- (3 * (0 - (x + y)))) by ring.
      assert (H : 0 < 3 * (0 - (x + y))) by (apply fmul_pos; [fpos|apply (proj1 (flt_sub _ _)); exact E2]).
      apply (proj2 (flt_sub _ _)).
      replace (0 - - (3 * (0 - (x + y)))) with (3 * (0 - (x + y))) by ring. exact H. }
    destruct (x =? 0); [discriminate|]. destruct (2 * x <? y); discriminate.
  - intros (A & B & C & HA & HB & HC & H).
    destruct (common_quadratic x y) as [e|] eqn:E; [|reflexivity].
    destruct (common_quadratic_sound x y e E) as (D & V & M & _).
    exfalso. rewrite <- V in H. apply (proj1 (flt_not_le K _ _) H).
    apply (manifest_nonneg true); auto. intros _ [|[|i]]; assumption.
Qed.

Lemma tri_poly_2 (cf : nat -> nat -> nat -> K) A B C :
  tri_poly 2 cf A B C =
  (cf 2 0 0)%nat * (A * A) + (cf 0 2 0)%nat * (B * B) + (cf 0 0 2)%nat * (C * C)
  + (cf 1 1 0)%nat * (A * B) + (cf 1 0 1)%nat * (A * C) + (cf 0 1 1)%nat * (B * C).
Proof. cbn. ring. Qed.

(** ** Acyclic quadratics *)
Definition q3 (M : list (list K)) (A B C : K) : K :=
  mget M 0 0 * (A * A) + mget M 1 1 * (B * B) + mget M 2 2 * (C * C)
  + 2 * mget M 0 1 * (A * B) + 2 * mget M 0 2 * (A * C) + 2 * mget M 1 2 * (B * C).

Lemma qform_q3 M (x : nat -> K) : symmetric 3 M ->
  qform 3 M x = q3 M (x 0%nat) (x 1%nat) (x 2%nat).
Proof.
  intro Hs. unfold qform. cbn [bsum].
  rewrite (Hs 1%nat 0%nat), (Hs 2%nat 0%nat), (Hs 2%nat 1%nat) by lia. unfold q3. ring.
Qed.

Lemma solve_psd_sound M e : length M = 3%nat -> symmetric 3 M -> solve_psd M = Some e ->
  (forall env, defined env e) /\ (forall A B C, ev (pt3 A B C) e = q3 M A B C) /\ manifest false e = true.
Proof.
  intros Hl Hs. unfold solve_psd. destruct (congruence M) as [[[U Sv]|]|er] eqn:Ec; try discriminate.
  intro H.
  assert (He := f_equal (fun o => match o with Some z => z | None => e end) H). cbv beta iota in He.
  subst e. clear H.
  assert (Hs' : symmetric (length M) M) by (rewrite Hl; exact Hs).
  destruct (congruence_sound_lemma K M U Sv Hs' Ec) as (LU & LS & _ & HS & Hup).
  rewrite Hl in *.
  destruct Sv as [|s0 [|s1 [|s2 [|? ?]]]]; try discriminate.
  split; [|split].
  - intro env. apply defined_sum_y. intros e [<-|[<-|[<-|[]]]]; cbn; auto 10.
  - intros A B C.
    assert (Hq := congruence_sos_lemma K M U [s0; s1; s2] (pt3 A B C)).
    rewrite Hl in Hq. rewrite (qform_q3 M (pt3 A B C) Hs) in Hq. cbn [pt3] in Hq.
    rewrite Hq by assumption. rewrite ev_sum_y. cbn [combine map fsum fst snd bsum ev pt3 vget nth fpow].
    rewrite (Hup 1%nat 0%nat), (Hup 2%nat 0%nat), (Hup 2%nat 1%nat) by lia. unfold vget. cbn [nth]. ring.
  - apply manifest_sum_y.
    + intros v Hv. destruct (In_nth _ _ 0 Hv) as (i & Hi & <-). apply (HS i). exact Hi.
    + intros e [<-|[<-|[<-|[]]]]; reflexivity.
Qed.

Lemma solve_psd_none M : length M = 3%nat -> symmetric 3 M -> solve_psd M = None ->
  exists A B C, q3 M A B C < 0.
Proof.
  intros Hl Hs. unfold solve_psd.
  assert (Hne : M <> []) by (destruct M; discriminate).
  destruct (congruence M) as [[[U Sv]|]|er] eqn:Ec; try discriminate.
  - intros _. assert (Hs' : symmetric (length M) M) by (rewrite Hl; exact Hs).
    destruct (proj1 (congruence_none_lemma K M Hne Hs') Ec) as (x & Hx).
    rewrite Hl, (qform_q3 M x Hs) in Hx. eauto.
  - rewrite (congruence_nonempty K M Hne) in Ec. discriminate.
Qed.

Lemma solve_nonnegative_sound M e : solve_nonnegative M = Some e ->
  (forall env, defined env e) /\ (forall A B C, ev (pt3 A B C) e = q3 M A B C) /\ manifest true e = true.
Proof.
  unfold solve_nonnegative.
  destruct (forallb _ _) eqn:E; [|discriminate].
  intro H. assert (He := f_equal (fun o => match o with Some z => z | None => e end) H). cbv beta iota in He.
  subst e. clear H.
  assert (G : forall i j, (i < 3)%nat -> (j < 3)%nat -> 0 <= mget M i j).
  { intros i j Hi Hj. rewrite forallb_forall in E.
    assert (E' := E i (proj2 (in_seq 3 0 i) (conj (Nat.le_0_l _) Hi))).
    rewrite forallb_forall in E'. exact (E' j (proj2 (in_seq 3 0 j) (conj (Nat.le_0_l _) Hj))). }
  split; [|split].
  - intro env. cbn. auto 20.
  - intros. cbn [ev pt3 fpow]. unfold q3. ring.
  - cbn [manifest Nat.even orb andb].
    assert (T : forall x : K, 0 <= x -> (0 <=? x * 2) = true) by (intros x Hx; exact (fmul_nonneg K x 2 Hx (flt_le (f2_pos K)))).
    rewrite !T by (apply G; lia).
    assert (T2 : forall x : K, 0 <= x -> (0 <=? x) = true) by (intros x Hx; exact Hx).
    rewrite !T2 by (apply G; lia). reflexivity.
Qed.
Lemma solve_nonnegative_some M :
  (forall i j, (i < 3)%nat -> (j < 3)%nat -> 0 <= mget M i j) -> exists e, solve_nonnegative M = Some e.
Proof.
  intro G. unfold solve_nonnegative.
  destruct (forallb _ _) eqn:E; [eauto|]. exfalso.
  rewrite <- not_true_iff_false in E. apply E. apply forallb_forall. intros i Hi.
  apply forallb_forall. intros j Hj. apply in_seq in Hi. apply in_seq in Hj. apply G; lia.
Qed.
Lemma solve_nonnegative_none M : solve_nonnegative M = None ->
  exists i j, (i < 3)%nat /\ (j < 3)%nat /\ mget M i j < 0.
Proof.
  unfold solve_nonnegative. destruct (forallb _ _) eqn:E; [discriminate|]. intros _.
  assert (X : forall (l : list nat) p, forallb p l = false -> exists x, In x l /\ p x = false).
  { clear. induction l as [|x l IH]; cbn; intros p H; [discriminate|].
    destruct (p x) eqn:Ex; [|eauto]. destruct (IH p H) as (y & Hy & Py). eauto. }
  destruct (X _ _ E) as (i & Hi & E'). destruct (X _ _ E') as (j & Hj & E'').
  apply in_seq in Hi. apply in_seq in Hj. exists i, j. repeat split; try lia. exact E''.
Qed.

Lemma q3_sub M P A B C : q3 (msub3 M P) A B C = q3 M A B C - q3 P A B C.
Proof. unfold q3, msub3. rewrite !mget_mtab by lia. ring. Qed.

Lemma quad_form_sym c00 c11 c22 c01 c02 c12 : symmetric 3 (@quad_form K c00 c11 c22 c01 c02 c12).
Proof.
  intros i j Hi Hj.
  do 3 (destruct i as [|i]; [do 3 (destruct j as [|j]; [reflexivity|]); lia|]). lia.
Qed.
Lemma q3_quad_form (c00 c11 c22 c01 c02 c12 A B C : K) :
  q3 (quad_form c00 c11 c22 c01 c02 c12) A B C =
  c00 * (A * A) + c11 * (B * B) + c22 * (C * C) + c01 * (A * B) + c02 * (A * C) + c12 * (B * C).
Proof. unfold q3. cbn. field. fnz. Qed.

Lemma mset3_sym M i j v : symmetric 3 M -> symmetric 3 (mset3 M i j v).
Proof.
  intros Hs r s Hr Hs'. unfold mset3. rewrite !mget_mtab by assumption.
  rewrite (Hs r s Hr Hs').
  destruct (r =? i)%nat, (s =? j)%nat, (r =? j)%nat, (s =? i)%nat; reflexivity.
Qed.

(** Soundness of the loop. *)
Lemma acyclic_loop_sound M is : forall psd e,
  symmetric 3 psd -> length psd = 3%nat ->
  acyclic_loop M psd is = Some e ->
  (forall env, defined env e) /\ (forall A B C, ev (pt3 A B C) e = q3 M A B C) /\ manifest true e = true.
Proof.
  induction is as [|i is IH]; intros psd e Hs Hl; cbn [acyclic_loop]; [discriminate|].
  destruct (0 <=? mget psd i ((i + 1) mod 3)) eqn:E; [|apply IH; assumption].
  set (psd' := mset3 psd i ((i + 1) mod 3) _).
  assert (Hs' : symmetric 3 psd') by (apply mset3_sym; assumption).
  assert (Hl' : length psd' = 3%nat) by reflexivity.
  destruct (solve_nonnegative (msub3 M psd')) as [s2|] eqn:E2; [|apply IH; assumption].
  destruct (solve_psd psd') as [s1|] eqn:E1; [|apply IH; assumption].
  intro H. assert (He := f_equal (fun o => match o with Some z => z | None => e end) H). cbv beta iota in He.
  subst e. clear H.
  destruct (solve_psd_sound _ _ Hl' Hs' E1) as (D1 & V1 & M1).
  destruct (solve_nonnegative_sound _ _ E2) as (D2 & V2 & M2).
  split; [|split].
  - intro env. cbn. auto.
  - intros. cbn [ev]. rewrite V1, V2, q3_sub. ring.
  - cbn. rewrite M2, (manifest_mono s1 M1). reflexivity.
Qed.

Lemma acyclic_sound_lemma cf e : sos_struct_acyclic_quadratic cf = Some e ->
  (forall env, defined env e) /\ (forall A B C, ev (pt3 A B C) e = tri_poly 2 cf A B C) /\
  manifest true e = true.
Proof.
  unfold sos_struct_acyclic_quadratic.
  destruct (_ || _)%bool; [discriminate|].
  set (M := quad_form _ _ _ _ _ _).
  assert (HM : forall A B C, q3 M A B C = tri_poly 2 cf A B C).
  { intros. unfold M. rewrite q3_quad_form, tri_poly_2. ring. }
  assert (SM : symmetric 3 M) by apply quad_form_sym.
  assert (LM : length M = 3%nat) by reflexivity.
  destruct (solve_psd M) as [s|] eqn:E1.
  { intro H. assert (He := f_equal (fun o => match o with Some z => z | None => e end) H). cbv beta iota in He.
    subst e. destruct (solve_psd_sound _ _ LM SM E1) as (D & V & Ma).
    split; [exact D|split].
    - intros. rewrite V. apply HM.
    - apply manifest_mono, Ma. }
  destruct (_ && _)%bool.
  { intro H. destruct (solve_nonnegative_sound _ _ H) as (D & V & Ma).
    split; [exact D|split; [|exact Ma]]. intros. rewrite V. apply HM. }
  destruct (Nat.eqb (length _) 2).
  { set (psd := quad_form _ _ _ (fmin0 _) _ _).
    assert (SP : symmetric 3 psd) by apply quad_form_sym.
    destruct (solve_psd psd) as [s|] eqn:E2; [|discriminate].
    destruct (solve_nonnegative (msub3 M psd)) as [s2|] eqn:E3; [|discriminate].
    intro H. assert (He := f_equal (fun o => match o with Some z => z | None => e end) H). cbv beta iota in He.
    subst e. destruct (solve_psd_sound psd s eq_refl SP E2) as (D & V & Ma).
    destruct (solve_nonnegative_sound _ _ E3) as (D2 & V2 & Ma2).
    split; [|split].
    - intro. cbn. auto.
    - intros. cbn [ev]. rewrite V, V2, q3_sub, HM. ring.
    - cbn. rewrite Ma2, (manifest_mono s Ma). reflexivity. }
  destruct (_ || _)%bool; [discriminate|].
  intro H. destruct (acyclic_loop_sound M _ M e SM LM H) as (D & V & Ma).
  split; [exact D|split; [|exact Ma]]. intros. rewrite V. apply HM.
Qed.

(** ** Completeness: None exactly for forms that are not copositive. *)
Definition fabs (x : K) : K := if 0 <=? x then x else - x.
Lemma fabs_nonneg x : 0 <= fabs x.
Proof.
  unfold fabs. destruct (0 <=? x) eqn:E; [exact E|].
  apply fopp_nonneg. apply fleb_gt in E. apply flt_le, E.
Qed.
Lemma fabs_sqr x : fabs x * fabs x = x * x.
Proof. unfold fabs. destruct (0 <=? x); ring. Qed.
Lemma fabs_prod x y : x * y <= fabs x * fabs y.
Proof.
  unfold fabs. destruct (0 <=? x) eqn:Ex, (0 <=? y) eqn:Ey.
  - apply fle_refl.
  - apply fleb_gt in Ey. apply (proj2 (fle_sub _ _)).
    replace (x * - y - x * y) with (2 * (x * - y)) by ring.
    apply fmul_nonneg; [fpos|]. apply fmul_nonneg; [exact Ex|]. apply fopp_nonneg, flt_le, Ey.
  - apply fleb_gt in Ex. apply (proj2 (fle_sub _ _)).
    replace (- x * y - x * y) with (2 * (- x * y)) by ring.
    apply fmul_nonneg; [fpos|]. apply fmul_nonneg; [|exact Ey]. apply fopp_nonneg, flt_le, Ex.
  - apply (proj2 (fle_sub _ _)). replace (- x * - y - x * y) with (0:K) by ring. apply fle_refl.
Qed.

(** A binary form with non-positive cross term that is negative somewhere is
    negative at a non-negative point. *)
Lemma binary_neg (p s r x y : K) : s <= 0 ->
  p * (x * x) + s * (x * y) + r * (y * y) < 0 ->
  p * (fabs x * fabs x) + s * (fabs x * fabs y) + r * (fabs y * fabs y) < 0.
Proof.
  intros Hs H. eapply fle_lt_trans; [|exact H]. rewrite !fabs_sqr.
  apply (proj2 (fle_sub _ _)).
  replace (p * (x * x) + s * (x * y) + r * (y * y) - (p * (x * x) + s * (fabs x * fabs y) + r * (y * y)))
    with ((- s) * (fabs x * fabs y - x * y)) by ring.
  apply fmul_nonneg; [apply fopp_nonneg, Hs|]. apply (proj1 (fle_sub _ _)), fabs_prod.
Qed.

(** The form written with respect to a third variable with positive square. *)
Lemma schur_neg (d1 d2 d3 m12 m13 m23 u1 u2 u3 : K) :
  0 < d3 -> m13 <= 0 -> m23 <= 0 -> m12 - m13 * m23 / d3 <= 0 ->
  d1 * (u1 * u1) + d2 * (u2 * u2) + d3 * (u3 * u3)
    + 2 * m12 * (u1 * u2) + 2 * m13 * (u1 * u3) + 2 * m23 * (u2 * u3) < 0 ->
  exists v1 v2 v3, 0 <= v1 /\ 0 <= v2 /\ 0 <= v3 /\
  d1 * (v1 * v1) + d2 * (v2 * v2) + d3 * (v3 * v3)
    + 2 * m12 * (v1 * v2) + 2 * m13 * (v1 * v3) + 2 * m23 * (v2 * v3) < 0.
Proof.
  intros D3 N13 N23 N12 H.
  assert (Dz := flt_neq0 D3).
  set (p := d1 - m13 * m13 / d3). set (r := d2 - m23 * m23 / d3). set (s := 2 * (m12 - m13 * m23 / d3)).
  assert (Hs : s <= 0).
  { unfold s. apply fopp_nonneg_inv.
    replace (- (2 * (m12 - m13 * m23 / d3))) with (2 * - (m12 - m13 * m23 / d3)) by ring.
    apply fmul_nonneg; [fpos|]. apply fopp_nonneg, N12. }
  assert (H2 : p * (u1 * u1) + s * (u1 * u2) + r * (u2 * u2) < 0).
  { eapply fle_lt_trans; [|exact H]. apply (proj2 (fle_sub _ _)).
    match goal with |- 0 <= ?t =>
      replace t with (d3 * ((u3 + (m13 * u1 + m23 * u2) / d3) * (u3 + (m13 * u1 + m23 * u2) / d3)))
        by (unfold p, r, s; field; fnz) end.
    apply fmul_nonneg; fpos. }
  exists (fabs u1), (fabs u2), (- (m13 * fabs u1 + m23 * fabs u2) / d3).
  split; [apply fabs_nonneg|]. split; [apply fabs_nonneg|]. split.
  { apply fdiv_nonneg; [|exact D3].
    replace (- (m13 * fabs u1 + m23 * fabs u2)) with ((- m13) * fabs u1 + (- m23) * fabs u2) by ring.
    apply fadd_nonneg; apply fmul_nonneg; try apply fabs_nonneg; apply fopp_nonneg; assumption. }
  assert (H3 := binary_neg p s r u1 u2 Hs H2).
  match goal with |- ?t < 0 =>
    replace t with (p * (fabs u1 * fabs u1) + s * (fabs u1 * fabs u2) + r * (fabs u2 * fabs u2))
      by (unfold p, r, s; field; fnz) end.
  exact H3.
Qed.

(** The modified matrix has diagonal Schur complement. *)
Lemma schur_psd_fail (d1 d2 d3 m13 m23 u1 u2 u3 : K) :
  0 < d3 -> m13 <= 0 -> m23 <= 0 ->
  d1 * (u1 * u1) + d2 * (u2 * u2) + d3 * (u3 * u3)
    + 2 * (m13 * m23 / d3) * (u1 * u2) + 2 * m13 * (u1 * u3) + 2 * m23 * (u2 * u3) < 0 ->
  forall m12, exists v1 v2 v3, 0 <= v1 /\ 0 <= v2 /\ 0 <= v3 /\
  d1 * (v1 * v1) + d2 * (v2 * v2) + d3 * (v3 * v3)
    + 2 * m12 * (v1 * v2) + 2 * m13 * (v1 * v3) + 2 * m23 * (v2 * v3) < 0.
Proof.
  intros D3 N13 N23 H m12.
  assert (Dz := flt_neq0 D3).
  assert (H2 : (d1 - m13 * m13 / d3) * (u1 * u1) + (d2 - m23 * m23 / d3) * (u2 * u2) < 0).
  { eapply fle_lt_trans; [|exact H]. apply (proj2 (fle_sub _ _)).
    match goal with |- 0 <= ?t =>
      replace t with (d3 * ((u3 + (m13 * u1 + m23 * u2) / d3) * (u3 + (m13 * u1 + m23 * u2) / d3)))
        by (field; fnz) end.
    apply fmul_nonneg; fpos. }
  destruct (fle_total K 0 (d1 - m13 * m13 / d3)) as [P1|P1].
  - destruct (fle_total K 0 (d2 - m23 * m23 / d3)) as [P2|P2].
    + exfalso. apply (proj1 (flt_not_le K _ _) H2). fpos.
    + destruct (feq_dec K (d2 - m23 * m23 / d3) 0) as [E|E].
      { exfalso. apply (proj1 (flt_not_le K _ _) H2). rewrite E.
        replace (0 * (u2 * u2)) with (0:K) by ring. fpos. }
      exists 0, 1, (- m23 / d3). split; [fpos|split; [fpos|split]].
      { apply fdiv_nonneg; [apply fopp_nonneg, N23|exact D3]. }
      match goal with |- ?t < 0 => replace t with (d2 - m23 * m23 / d3) by (field; fnz) end.
      apply flt_le_neq. split; assumption.
  - destruct (feq_dec K (d1 - m13 * m13 / d3) 0) as [E|E].
    { destruct (fle_total K 0 (d2 - m23 * m23 / d3)) as [P2|P2].
      { exfalso. apply (proj1 (flt_not_le K _ _) H2). rewrite E.
        replace (0 * (u1 * u1)) with (0:K) by ring. fpos. }
      destruct (feq_dec K (d2 - m23 * m23 / d3) 0) as [E2|E2].
      { exfalso. apply (proj1 (flt_not_le K _ _) H2). rewrite E, E2.
        replace (0 * (u1 * u1) + 0 * (u2 * u2)) with (0:K) by ring. fpos. }
      exists 0, 1, (- m23 / d3). split; [fpos|split; [fpos|split]].
      { apply fdiv_nonneg; [apply fopp_nonneg, N23|exact D3]. }
      match goal with |- ?t < 0 => replace t with (d2 - m23 * m23 / d3) by (field; fnz) end.
      apply flt_le_neq. split; assumption. }
    exists 1, 0, (- m13 / d3). split; [fpos|split; [fpos|split]].
    { apply fdiv_nonneg; [apply fopp_nonneg, N13|exact D3]. }
    match goal with |- ?t < 0 => replace t with (d1 - m13 * m13 / d3) by (field; fnz) end.
    apply flt_le_neq. split; assumption.
Qed.

Lemma fmin0_le (x : K) : fmin0 x <= x.
Proof. unfold fmin0. destruct (x <=? 0) eqn:E; [apply fle_refl|]. apply fleb_gt in E. apply flt_le, E. Qed.
Lemma fmin0_neg (x : K) : x < 0 -> fmin0 x = x.
Proof. intro H. unfold fmin0. apply flt_le in H. unfold fle in H. rewrite H. reflexivity. Qed.
Lemma fmin0_nonneg (x : K) : 0 <= x -> fmin0 x = 0.
Proof.
  intro H. unfold fmin0. destruct (x <=? 0) eqn:E; [|reflexivity]. apply fle_antisym; assumption.
Qed.

(** Two variables with a vanishing square and a negative product. *)
Lemma zero_diag_neg (d m : K) : 0 <= d -> m < 0 -> exists u, 0 <= u /\ d + m * u < 0.
Proof.
  intros Hd Hm. exists ((d + 1) / (- m)).
  assert (Pm : 0 < - m).
  { replace (- m) with (0 - m) by ring. apply (proj1 (flt_sub _ _)), Hm. }
  split; [apply fdiv_nonneg; fpos|].
  replace (d + m * ((d + 1) / - m)) with (- (1) : K).
  - apply (proj2 (flt_sub _ _)). replace (0 - - (1)) with (1 : K) by ring. fpos.
  - assert (Hz : m <> 0) by exact (flt_neq K m 0 Hm). assert (Hz' : - m <> 0) by exact (flt_neq0 Pm). field; fnz.
Qed.

(** One failing step of the final loop. *)
Lemma loop_step_none M psd i is :
  acyclic_loop M psd (i :: is) = None ->
  let j := ((i + 1) mod 3)%nat in let k := ((i + 2) mod 3)%nat in
  let psd' := mset3 psd i j (mget psd j k * mget psd k i / mget psd k k) in
  0 <= mget psd i j -> solve_nonnegative (msub3 M psd') = None \/ solve_psd psd' = None.
Proof.
  cbn zeta. cbn [acyclic_loop]. intros H Hp. unfold fle in Hp. rewrite Hp in H.
  destruct (solve_nonnegative _); [|left; reflexivity].
  destruct (solve_psd _); [discriminate|right; reflexivity].
Qed.
Lemma loop_skip M psd i is : mget psd i ((i + 1) mod 3)%nat < 0 ->
  acyclic_loop M psd (i :: is) = acyclic_loop M psd is.
Proof. intro H. cbn [acyclic_loop]. unfold flt in H. rewrite H. reflexivity. Qed.

Lemma half_neg (x : K) : x < 0 -> x / 2 < 0.
Proof.
  intro H. apply (proj2 (flt_sub _ _)). replace (0 - x / 2) with ((0 - x) / 2) by (field; fnz).
  apply fdiv_pos; [apply (proj1 (flt_sub _ _)), H|fpos].
Qed.

Definition copositive (cf : nat -> nat -> nat -> K) : Prop :=
  forall A B C, 0 <= A -> 0 <= B -> 0 <= C -> 0 <= tri_poly 2 cf A B C.

Lemma pair_psd (p s r t x y z : K) : 0 <= t -> s <= 0 ->
  p * (x * x) + s * (x * y) + r * (y * y) + t * (z * z) < 0 ->
  exists u v, 0 <= u /\ 0 <= v /\ p * (u * u) + s * (u * v) + r * (v * v) < 0.
Proof.
  intros Ht Hs H. exists (fabs x), (fabs y).
  split; [apply fabs_nonneg|]. split; [apply fabs_nonneg|].
  apply binary_neg; [exact Hs|]. eapply fle_lt_trans; [|exact H].
  apply (proj2 (fle_sub _ _)).
  match goal with |- 0 <= ?w => replace w with (t * (z * z)) by ring end.
  fpos.
Qed.

Lemma acyclic_complete_lemma cf : sos_struct_acyclic_quadratic cf = None ->
  exists A B C, 0 <= A /\ 0 <= B /\ 0 <= C /\ tri_poly 2 cf A B C < 0.
Proof.
  set (c00 := (cf 2 0 0)%nat). set (c01 := (cf 1 1 0)%nat). set (c02 := (cf 1 0 1)%nat).
  set (c11 := (cf 0 2 0)%nat). set (c12 := (cf 0 1 1)%nat). set (c22 := (cf 0 0 2)%nat).
  assert (V : forall A B C, tri_poly 2 cf A B C =
     c00 * (A * A) + c11 * (B * B) + c22 * (C * C) + c01 * (A * B) + c02 * (A * C) + c12 * (B * C)).
  { intros. rewrite tri_poly_2. reflexivity. }
  assert (G : (exists A B C, 0 <= A /\ 0 <= B /\ 0 <= C /\
     c00 * (A * A) + c11 * (B * B) + c22 * (C * C) + c01 * (A * B) + c02 * (A * C) + c12 * (B * C) < 0) ->
     exists A B C, 0 <= A /\ 0 <= B /\ 0 <= C /\ tri_poly 2 cf A B C < 0).
  { intros (A & B & C & H1 & H2 & H3 & H4). exists A, B, C. rewrite V. auto. }
  unfold sos_struct_acyclic_quadratic. fold c00 c01 c02 c11 c12 c22.
  intro H. apply G. clear G V. revert H. clearbody c00 c01 c02 c11 c12 c22. clear cf.
  destruct (c00 <? 0) eqn:D0; cbn [orb].
  { intros _. apply fltb_lt in D0. exists 1, 0, 0. repeat split; try fpos.
    match goal with |- ?t < 0 => replace t with c00 by ring end. exact D0. }
  destruct (c11 <? 0) eqn:D1; cbn [orb].
  { intros _. apply fltb_lt in D1. exists 0, 1, 0. repeat split; try fpos.
    match goal with |- ?t < 0 => replace t with c11 by ring end. exact D1. }
  destruct (c22 <? 0) eqn:D2; cbn [orb].
  { intros _. apply fltb_lt in D2. exists 0, 0, 1. repeat split; try fpos.
    match goal with |- ?t < 0 => replace t with c22 by ring end. exact D2. }
  apply fltb_ge in D0. apply fltb_ge in D1. apply fltb_ge in D2.
  set (M := quad_form c00 c11 c22 c01 c02 c12).
  assert (SM : symmetric 3 M) by apply quad_form_sym.
  destruct (solve_psd M) as [s|] eqn:EM; [discriminate|].
  destruct (solve_psd_none M eq_refl SM EM) as (X & Y & W & HX).
  unfold M in HX. rewrite q3_quad_form in HX.
  (* signs of the cross terms *)
  destruct (0 <=? c01) eqn:S01; destruct (0 <=? c02) eqn:S02; destruct (0 <=? c12) eqn:S12;
    cbn [andb filter length Nat.eqb]; rewrite ?S01, ?S02, ?S12; cbn [length Nat.eqb].
  - (* +++ *)
    intro H. destruct (solve_nonnegative_none M H) as (i & j & Hi & Hj & Hneg). exfalso.
    apply (proj1 (flt_not_le K _ _) Hneg).
    assert (P2 : 0 < (2 : K)) by fpos.
    do 3 (destruct i as [|i]; [do 3 (destruct j as [|j]; [cbn; first [assumption|apply fdiv_nonneg; assumption]|]); lia|]). lia.
  - (* ++- *)
    apply fleb_gt in S12.
    rewrite (fmin0_nonneg c01 S01), (fmin0_nonneg c02 S02), (fmin0_neg c12 S12).
    set (P := quad_form c00 c11 c22 0 0 c12).
    assert (SP : symmetric 3 P) by apply quad_form_sym.
    destruct (solve_psd P) as [s|] eqn:EP.
    { destruct (solve_nonnegative_some (msub3 M P)) as (s2 & Es2); [|rewrite Es2; discriminate].
      assert (P2 : 0 < (2 : K)) by fpos.
      intros i j Hi Hj. unfold msub3. rewrite mget_mtab by assumption.
      do 3 (destruct i as [|i]; [do 3 (destruct j as [|j]; [cbn; apply (proj1 (fle_sub _ _));
        try apply fle_refl; replace (0 / 2) with (0 : K) by (field; fnz); apply fdiv_nonneg; assumption|]); lia|]). lia. }
    intros _. destruct (solve_psd_none P eq_refl SP EP) as (x & y & z & Hx).
    unfold P in Hx. rewrite q3_quad_form in Hx.
    destruct (pair_psd c11 c12 c22 c00 y z x) as (u & v & Hu & Hv & Huv);
      [assumption|apply flt_le, S12| |].
    { match type of Hx with ?t < 0 => match goal with |- ?t' < 0 => replace t' with t by ring end end. exact Hx. }
    exists 0, u, v. repeat split; try assumption; try fpos.
    match type of Huv with ?t < 0 => match goal with |- ?t' < 0 => replace t' with t by ring end end. exact Huv.
  - (* +-+ *)
    apply fleb_gt in S02.
    rewrite (fmin0_nonneg c01 S01), (fmin0_neg c02 S02), (fmin0_nonneg c12 S12).
    set (P := quad_form c00 c11 c22 0 c02 0).
    assert (SP : symmetric 3 P) by apply quad_form_sym.
    destruct (solve_psd P) as [s|] eqn:EP.
    { destruct (solve_nonnegative_some (msub3 M P)) as (s2 & Es2); [|rewrite Es2; discriminate].
      assert (P2 : 0 < (2 : K)) by fpos.
      intros i j Hi Hj. unfold msub3. rewrite mget_mtab by assumption.
      do 3 (destruct i as [|i]; [do 3 (destruct j as [|j]; [cbn; apply (proj1 (fle_sub _ _));
        try apply fle_refl; replace (0 / 2) with (0 : K) by (field; fnz); apply fdiv_nonneg; assumption|]); lia|]). lia. }
    intros _. destruct (solve_psd_none P eq_refl SP EP) as (x & y & z & Hx).
    unfold P in Hx. rewrite q3_quad_form in Hx.
    destruct (pair_psd c00 c02 c22 c11 x z y) as (u & v & Hu & Hv & Huv);
      [assumption|apply flt_le, S02| |].
    { match type of Hx with ?t < 0 => match goal with |- ?t' < 0 => replace t' with t by ring end end. exact Hx. }
    exists u, 0, v. repeat split; try assumption; try fpos.
    match type of Huv with ?t < 0 => match goal with |- ?t' < 0 => replace t' with t by ring end end. exact Huv.
  - (* +-- *)
    intro H. apply fleb_gt in S02. apply fleb_gt in S12.
    revert H.
    destruct (c00 =? 0) eqn:Z0; cbn [orb].
    { intros _. apply feqb_eq in Z0. rename Z0 into Z.
      destruct (zero_diag_neg c22 c02 D2 S02) as (u & Hu & Hn).
      exists u, 0, 1. repeat split; try assumption; try fpos.
      match goal with |- ?t < 0 => replace t with (c22 + c02 * u) by (rewrite Z; ring) end. exact Hn. }
    destruct (c11 =? 0) eqn:Z1; cbn [orb].
    { intros _. apply feqb_eq in Z1. rename Z1 into Z.
      destruct (zero_diag_neg c22 c12 D2 S12) as (u & Hu & Hn).
      exists 0, u, 1. repeat split; try assumption; try fpos.
      match goal with |- ?t < 0 => replace t with (c22 + c12 * u) by (rewrite Z; ring) end. exact Hn. }
    destruct (c22 =? 0) eqn:Z2; cbn [orb].
    { intros _. apply feqb_eq in Z2. rename Z2 into Z.
      destruct (zero_diag_neg c00 c02 D0 S02) as (u & Hu & Hn).
      exists 1, 0, u. repeat split; try assumption; try fpos.
      match goal with |- ?t < 0 => replace t with (c00 + c02 * u) by (rewrite Z; ring) end. exact Hn. }
    intro H.
    apply feqb_neq in Z0. assert (P0 : 0 < c00) by (apply flt_le_neq; split; auto).
    apply feqb_neq in Z1. assert (P1 : 0 < c11) by (apply flt_le_neq; split; auto).
    apply feqb_neq in Z2. assert (P2 : 0 < c22) by (apply flt_le_neq; split; auto).
    assert (Hp : 0 <= mget M 0 1) by (cbn; apply fdiv_nonneg; [assumption|fpos]).
    destruct (loop_step_none _ _ _ _ H Hp) as [HN|HN]; clear H Hp.
    { destruct (solve_nonnegative_none _ HN) as (r & t & Hr & Ht & Hneg).
      assert (Hkey : c01 / 2 - c02 / 2 * (c12 / 2) / c22 <= 0).
      { revert Hneg. unfold msub3. rewrite mget_mtab by assumption.
        do 3 (destruct r as [|r]; [do 3 (destruct t as [|t]; [cbn; intro Hneg;
          first [ exfalso; match type of Hneg with ?w < 0 => replace w with (0 : K) in Hneg by ring end; exact (flt_irrefl K 0 Hneg)
                | eapply fle_trans; [|apply flt_le, Hneg]; apply (proj2 (fle_sub _ _));
                  match goal with |- 0 <= ?w => replace w with (0 : K) by (field; fnz) end; apply fle_refl ]|]); lia|]). lia. }
      destruct (schur_neg c00 c11 c22 (c01 / 2) (c02 / 2) (c12 / 2) X Y W) as (v1 & v2 & v3 & V1 & V2 & V3 & V4);
        [assumption|apply flt_le, half_neg; assumption|apply flt_le, half_neg; assumption|exact Hkey| |].
      { match goal with |- ?t' < 0 => match type of HX with ?t < 0 => replace t' with t by (field; fnz) end end. exact HX. }
      exists v1, v2, v3. repeat split; try assumption.
      match goal with |- ?t' < 0 => match type of V4 with ?t < 0 => replace t' with t by (field; fnz) end end. exact V4. }
    { match type of HN with solve_psd ?P0 = None => assert (SP : symmetric 3 P0) by (apply mset3_sym, SM);
        destruct (solve_psd_none P0 eq_refl SP HN) as (x & y & z & Hx) end.
      unfold q3 in Hx. cbn in Hx.
      destruct (schur_psd_fail c00 c11 c22 (c02 / 2) (c12 / 2) x y z) with (m12 := c01 / 2)
        as (v1 & v2 & v3 & V1 & V2 & V3 & V4);
        [assumption|apply flt_le, half_neg; assumption|apply flt_le, half_neg; assumption| |].
      { match goal with |- ?t' < 0 => match type of Hx with ?t < 0 => replace t' with t by (field; fnz) end end. exact Hx. }
      exists v1, v2, v3. repeat split; try assumption.
      match goal with |- ?t' < 0 => match type of V4 with ?t < 0 => replace t' with t by (field; fnz) end end. exact V4. }
  - (* -++ *)
    apply fleb_gt in S01.
    rewrite (fmin0_neg c01 S01), (fmin0_nonneg c02 S02), (fmin0_nonneg c12 S12).
    set (P := quad_form c00 c11 c22 c01 0 0).
    assert (SP : symmetric 3 P) by apply quad_form_sym.
    destruct (solve_psd P) as [s|] eqn:EP.
    { destruct (solve_nonnegative_some (msub3 M P)) as (s2 & Es2); [|rewrite Es2; discriminate].
      assert (P2 : 0 < (2 : K)) by fpos.
      intros i j Hi Hj. unfold msub3. rewrite mget_mtab by assumption.
      do 3 (destruct i as [|i]; [do 3 (destruct j as [|j]; [cbn; apply (proj1 (fle_sub _ _));
        try apply fle_refl; replace (0 / 2) with (0 : K) by (field; fnz); apply fdiv_nonneg; assumption|]); lia|]). lia. }
    intros _. destruct (solve_psd_none P eq_refl SP EP) as (x & y & z & Hx).
    unfold P in Hx. rewrite q3_quad_form in Hx.
    destruct (pair_psd c00 c01 c11 c22 x y z) as (u & v & Hu & Hv & Huv);
      [assumption|apply flt_le, S01| |].
    { match type of Hx with ?t < 0 => match goal with |- ?t' < 0 => replace t' with t by ring end end. exact Hx. }
    exists u, v, 0. repeat split; try assumption; try fpos.
    match type of Huv with ?t < 0 => match goal with |- ?t' < 0 => replace t' with t by ring end end. exact Huv.
  - (* -+- *)
    intro H. apply fleb_gt in S01. apply fleb_gt in S12.
    revert H.
    destruct (c00 =? 0) eqn:Z0; cbn [orb].
    { intros _. apply feqb_eq in Z0. rename Z0 into Z.
      destruct (zero_diag_neg c11 c01 D1 S01) as (u & Hu & Hn).
      exists u, 1, 0. repeat split; try assumption; try fpos.
      match goal with |- ?t < 0 => replace t with (c11 + c01 * u) by (rewrite Z; ring) end. exact Hn. }
    destruct (c11 =? 0) eqn:Z1; cbn [orb].
    { intros _. apply feqb_eq in Z1. rename Z1 into Z.
      destruct (zero_diag_neg c00 c01 D0 S01) as (u & Hu & Hn).
      exists 1, u, 0. repeat split; try assumption; try fpos.
      match goal with |- ?t < 0 => replace t with (c00 + c01 * u) by (rewrite Z; ring) end. exact Hn. }
    destruct (c22 =? 0) eqn:Z2; cbn [orb].
    { intros _. apply feqb_eq in Z2. rename Z2 into Z.
      destruct (zero_diag_neg c11 c12 D1 S12) as (u & Hu & Hn).
      exists 0, 1, u. repeat split; try assumption; try fpos.
      match goal with |- ?t < 0 => replace t with (c11 + c12 * u) by (rewrite Z; ring) end. exact Hn. }
    intro H.
    apply feqb_neq in Z0. assert (P0 : 0 < c00) by (apply flt_le_neq; split; auto).
    apply feqb_neq in Z1. assert (P1 : 0 < c11) by (apply flt_le_neq; split; auto).
    apply feqb_neq in Z2. assert (P2 : 0 < c22) by (apply flt_le_neq; split; auto).
    rewrite loop_skip in H by (cbn; apply half_neg; assumption).
    rewrite loop_skip in H by (cbn; apply half_neg; assumption).
    assert (Hp : 0 <= mget M 2 0) by (cbn; apply fdiv_nonneg; [assumption|fpos]).
    destruct (loop_step_none _ _ _ _ H Hp) as [HN|HN]; clear H Hp.
    { destruct (solve_nonnegative_none _ HN) as (r & t & Hr & Ht & Hneg).
      assert (Hkey : c02 / 2 - c12 / 2 * (c01 / 2) / c11 <= 0).
      { revert Hneg. unfold msub3. rewrite mget_mtab by assumption.
        do 3 (destruct r as [|r]; [do 3 (destruct t as [|t]; [cbn; intro Hneg;
          first [ exfalso; match type of Hneg with ?w < 0 => replace w with (0 : K) in Hneg by ring end; exact (flt_irrefl K 0 Hneg)
                | eapply fle_trans; [|apply flt_le, Hneg]; apply (proj2 (fle_sub _ _));
                  match goal with |- 0 <= ?w => replace w with (0 : K) by (field; fnz) end; apply fle_refl ]|]); lia|]). lia. }
      destruct (schur_neg c22 c00 c11 (c02 / 2) (c12 / 2) (c01 / 2) W X Y) as (v1 & v2 & v3 & V1 & V2 & V3 & V4);
        [assumption|apply flt_le, half_neg; assumption|apply flt_le, half_neg; assumption|exact Hkey| |].
      { match goal with |- ?t' < 0 => match type of HX with ?t < 0 => replace t' with t by (field; fnz) end end. exact HX. }
      exists v2, v3, v1. repeat split; try assumption.
      match goal with |- ?t' < 0 => match type of V4 with ?t < 0 => replace t' with t by (field; fnz) end end. exact V4. }
    { match type of HN with solve_psd ?P0 = None => assert (SP : symmetric 3 P0) by (apply mset3_sym, SM);
        destruct (solve_psd_none P0 eq_refl SP HN) as (x & y & z & Hx) end.
      unfold q3 in Hx. cbn in Hx.
      destruct (schur_psd_fail c22 c00 c11 (c12 / 2) (c01 / 2) z x y) with (m12 := c02 / 2)
        as (v1 & v2 & v3 & V1 & V2 & V3 & V4);
        [assumption|apply flt_le, half_neg; assumption|apply flt_le, half_neg; assumption| |].
      { match goal with |- ?t' < 0 => match type of Hx with ?t < 0 => replace t' with t by (field; fnz) end end. exact Hx. }
      exists v2, v3, v1. repeat split; try assumption.
      match goal with |- ?t' < 0 => match type of V4 with ?t < 0 => replace t' with t by (field; fnz) end end. exact V4. }
  - (* --+ *)
    intro H. apply fleb_gt in S01. apply fleb_gt in S02.
    revert H.
    destruct (c00 =? 0) eqn:Z0; cbn [orb].
    { intros _. apply feqb_eq in Z0. rename Z0 into Z.
      destruct (zero_diag_neg c11 c01 D1 S01) as (u & Hu & Hn).
      exists u, 1, 0. repeat split; try assumption; try fpos.
      match goal with |- ?t < 0 => replace t with (c11 + c01 * u) by (rewrite Z; ring) end. exact Hn. }
    destruct (c11 =? 0) eqn:Z1; cbn [orb].
    { intros _. apply feqb_eq in Z1. rename Z1 into Z.
      destruct (zero_diag_neg c00 c01 D0 S01) as (u & Hu & Hn).
      exists 1, u, 0. repeat split; try assumption; try fpos.
      match goal with |- ?t < 0 => replace t with (c00 + c01 * u) by (rewrite Z; ring) end. exact Hn. }
    destruct (c22 =? 0) eqn:Z2; cbn [orb].
    { intros _. apply feqb_eq in Z2. rename Z2 into Z.
      destruct (zero_diag_neg c00 c02 D0 S02) as (u & Hu & Hn).
      exists 1, 0, u. repeat split; try assumption; try fpos.
      match goal with |- ?t < 0 => replace t with (c00 + c02 * u) by (rewrite Z; ring) end. exact Hn. }
    intro H.
    apply feqb_neq in Z0. assert (P0 : 0 < c00) by (apply flt_le_neq; split; auto).
    apply feqb_neq in Z1. assert (P1 : 0 < c11) by (apply flt_le_neq; split; auto).
    apply feqb_neq in Z2. assert (P2 : 0 < c22) by (apply flt_le_neq; split; auto).
    rewrite loop_skip in H by (cbn; apply half_neg; assumption).
    assert (Hp : 0 <= mget M 1 2) by (cbn; apply fdiv_nonneg; [assumption|fpos]).
    destruct (loop_step_none _ _ _ _ H Hp) as [HN|HN]; clear H Hp.
    { destruct (solve_nonnegative_none _ HN) as (r & t & Hr & Ht & Hneg).
      assert (Hkey : c12 / 2 - c01 / 2 * (c02 / 2) / c00 <= 0).
      { revert Hneg. unfold msub3. rewrite mget_mtab by assumption.
        do 3 (destruct r as [|r]; [do 3 (destruct t as [|t]; [cbn; intro Hneg;
          first [ exfalso; match type of Hneg with ?w < 0 => replace w with (0 : K) in Hneg by ring end; exact (flt_irrefl K 0 Hneg)
                | eapply fle_trans; [|apply flt_le, Hneg]; apply (proj2 (fle_sub _ _));
                  match goal with |- 0 <= ?w => replace w with (0 : K) by (field; fnz) end; apply fle_refl ]|]); lia|]). lia. }
      destruct (schur_neg c11 c22 c00 (c12 / 2) (c01 / 2) (c02 / 2) Y W X) as (v1 & v2 & v3 & V1 & V2 & V3 & V4);
        [assumption|apply flt_le, half_neg; assumption|apply flt_le, half_neg; assumption|exact Hkey| |].
      { match goal with |- ?t' < 0 => match type of HX with ?t < 0 => replace t' with t by (field; fnz) end end. exact HX. }
      exists v3, v1, v2. repeat split; try assumption.
      match goal with |- ?t' < 0 => match type of V4 with ?t < 0 => replace t' with t by (field; fnz) end end. exact V4. }
    { match type of HN with solve_psd ?P0 = None => assert (SP : symmetric 3 P0) by (apply mset3_sym, SM);
        destruct (solve_psd_none P0 eq_refl SP HN) as (x & y & z & Hx) end.
      unfold q3 in Hx. cbn in Hx.
      destruct (schur_psd_fail c11 c22 c00 (c01 / 2) (c02 / 2) y z x) with (m12 := c12 / 2)
        as (v1 & v2 & v3 & V1 & V2 & V3 & V4);
        [assumption|apply flt_le, half_neg; assumption|apply flt_le, half_neg; assumption| |].
      { match goal with |- ?t' < 0 => match type of Hx with ?t < 0 => replace t' with t by (field; fnz) end end. exact Hx. }
      exists v3, v1, v2. repeat split; try assumption.
      match goal with |- ?t' < 0 => match type of V4 with ?t < 0 => replace t' with t by (field; fnz) end end. exact V4. }
  - (* --- *)
    intro H. apply fleb_gt in S01. apply fleb_gt in S02. apply fleb_gt in S12.
    revert H.
    destruct (c00 =? 0) eqn:Z0; cbn [orb].
    { intros _. apply feqb_eq in Z0. rename Z0 into Z.
      destruct (zero_diag_neg c11 c01 D1 S01) as (u & Hu & Hn).
      exists u, 1, 0. repeat split; try assumption; try fpos.
      match goal with |- ?t < 0 => replace t with (c11 + c01 * u) by (rewrite Z; ring) end. exact Hn. }
    destruct (c11 =? 0) eqn:Z1; cbn [orb].
    { intros _. apply feqb_eq in Z1. rename Z1 into Z.
      destruct (zero_diag_neg c00 c01 D0 S01) as (u & Hu & Hn).
      exists 1, u, 0. repeat split; try assumption; try fpos.
      match goal with |- ?t < 0 => replace t with (c00 + c01 * u) by (rewrite Z; ring) end. exact Hn. }
    destruct (c22 =? 0) eqn:Z2; cbn [orb].
    { intros _. apply feqb_eq in Z2. rename Z2 into Z.
      destruct (zero_diag_neg c00 c02 D0 S02) as (u & Hu & Hn).
      exists 1, 0, u. repeat split; try assumption; try fpos.
      match goal with |- ?t < 0 => replace t with (c00 + c02 * u) by (rewrite Z; ring) end. exact Hn. }
    intro H.
    apply feqb_neq in Z0. assert (P0 : 0 < c00) by (apply flt_le_neq; split; auto).
    apply feqb_neq in Z1. assert (P1 : 0 < c11) by (apply flt_le_neq; split; auto).
    apply feqb_neq in Z2. assert (P2 : 0 < c22) by (apply flt_le_neq; split; auto).
    assert (Hk : c01 / 2 - c02 / 2 * (c12 / 2) / c22 <= 0).
    { apply fopp_nonneg_inv. replace (- (c01 / 2 - c02 / 2 * (c12 / 2) / c22)) with (- (c01 / 2) + (- (c02 / 2)) * (- (c12 / 2)) / c22) by (field; fnz).
      apply fadd_nonneg; [|apply fdiv_nonneg; [apply fmul_nonneg|assumption]]; apply fopp_nonneg, flt_le, half_neg; assumption. }
    { destruct (schur_neg c00 c11 c22 (c01 / 2) (c02 / 2) (c12 / 2) X Y W) as (v1 & v2 & v3 & V1 & V2 & V3 & V4);
        [assumption|apply flt_le, half_neg; assumption|apply flt_le, half_neg; assumption|exact Hk| |].
      { match goal with |- ?t' < 0 => match type of HX with ?t < 0 => replace t' with t by (field; fnz) end end. exact HX. }
      exists v1, v2, v3. repeat split; try assumption.
      match goal with |- ?t' < 0 => match type of V4 with ?t < 0 => replace t' with t by (field; fnz) end end. exact V4. }
Qed.


(** Packaging for the property theorems. *)
Lemma tri_poly_2_cyclic cf A B C : cyclic3 cf ->
  tri_poly 2 cf A B C = (cf 2 0 0)%nat * (A * A + B * B + C * C) + (cf 1 1 0)%nat * (A * B + B * C + C * A).
Proof.
  intro Hc. rewrite tri_poly_2.
  assert (E1 : (cf 0 2 0 = cf 2 0 0)%nat) by (rewrite (Hc 0 2 0)%nat; reflexivity).
  assert (E2 : (cf 0 0 2 = cf 2 0 0)%nat) by (rewrite (Hc 0 0 2)%nat; exact E1).
  assert (E3 : (cf 0 1 1 = cf 1 1 0)%nat) by (rewrite (Hc 0 1 1)%nat; reflexivity).
  assert (E4 : (cf 1 0 1 = cf 1 1 0)%nat) by (rewrite (Hc 1 0 1)%nat; exact E3).
  rewrite E1, E2, E3, E4. ring.
Qed.
Lemma sos_struct_quadratic_sound cf e : cyclic3 cf -> sos_struct_quadratic cf = Some e ->
  (forall env, defined env e) /\
  (forall A B C, ev (pt3 A B C) e = tri_poly 2 cf A B C) /\
  manifest true e = true /\
  ((cf 1 1 0)%nat <= 2 * (cf 2 0 0)%nat -> forall A B C, 0 <= ev (pt3 A B C) e).
Proof.
  intros Hc H. destruct (common_quadratic_sound _ _ _ H) as (D & V & M & N).
  split; [exact D|]. split; [intros; rewrite V, tri_poly_2_cyclic by exact Hc; reflexivity|].
  split; [exact M|]. intros L A B C. destruct (N L) as [N'|[X Y]].
  - apply (manifest_nonneg false); [discriminate|apply D|exact N'].
  - rewrite V, X, Y. match goal with |- 0 <= ?g => replace g with (0 : K) by ring end. apply fle_refl.
Qed.
Lemma sos_struct_quadratic_none cf : cyclic3 cf ->
  (sos_struct_quadratic cf = None <->
   exists A B C, 0 <= A /\ 0 <= B /\ 0 <= C /\ tri_poly 2 cf A B C < 0).
Proof.
  intro Hc. unfold sos_struct_quadratic. rewrite common_quadratic_none.
  split; intros (A & B & C & H1 & H2 & H3 & H4); exists A, B, C; repeat split; try assumption;
  [rewrite tri_poly_2_cyclic by exact Hc|rewrite tri_poly_2_cyclic in H4 by exact Hc]; exact H4.
Qed.
Lemma acyclic_copositive_some cf :
  (forall A B C, 0 <= A -> 0 <= B -> 0 <= C -> 0 <= tri_poly 2 cf A B C) ->
  exists e, sos_struct_acyclic_quadratic cf = Some e.
Proof.
  intro H. destruct (sos_struct_acyclic_quadratic cf) as [e|] eqn:E; [eauto|].
  apply acyclic_complete_lemma in E. destruct E as (A & B & C & H1 & H2 & H3 & H4).
  exfalso. exact (proj1 (flt_not_le K _ _) H4 (H A B C H1 H2 H3)).
Qed.

End Proofs.
