(** * Linear systems (triples/sdp/arithmetic.py:90-372) *)
From Coq Require Import Bool List Arith Lia Ring Field Permutation Sorted.
From Verif Require Import OrdField Base.
Import ListNotations.

Section Model.
Context {K : OrdField}.
Local Open Scope of_scope.

(** Rows of width [w]; the sparse dictionaries of rows and the removal of
    zeros from them (arithmetic.py:108-131) are not modelled. *)

(** dividing the pivot row by the pivot, [normalize_last=False] (arithmetic.py:158-173) *)
Definition nrm (w c : nat) (row : list K) : list K :=
  vtab w (fun k => if (k =? c)%nat then 1 else if (c <? k)%nat then vget row k / vget row c else vget row k).
(** [cross_cancel(1, row, val, piv_row)] with [val] the entry in the pivot column (arithmetic.py:108-131, 175-192) *)
Definition elim (w c : nat) (p row : list K) : list K :=
  vtab w (fun k => vget row k - vget row c * vget p k).
(** [_find_reasonable_pivot_naive] (arithmetic.py:133-139) on the rows from [piv_row] on *)
Fixpoint find_pivot (c : nat) (rest : list (list K)) : option (list (list K) * list K * list (list K)) :=
  match rest with
  | [] => None
  | r :: rs =>
      if vget r c =? 0 then
        match find_pivot c rs with Some (pre, p, post) => Some (r :: pre, p, post) | None => None end
      else Some ([], r, rs)
  end.
(** the rows below the pivot row after [row_swap] (arithmetic.py:96-106, 153-156) *)
Definition others (pre post : list (list K)) : list (list K) :=
  match pre with [] => post | r0 :: pre' => pre' ++ r0 :: post end.

(** [_row_reduce_dict] with [normalize_last=False, normalize=True, zero_above=True]
    (arithmetic.py:90-211): [don] are the rows above [piv_row], [rest] the
    others, [todo] the number of columns left. *)
Fixpoint row_reduce (w todo c : nat) (don rest : list (list K)) (pivs : list nat) : list (list K) * list nat :=
  match todo with
  | O => (don ++ rest, pivs)
  | S todo' =>
      match rest with
      | [] => (don ++ rest, pivs)
      | _ =>
          match find_pivot c rest with
          | None => row_reduce w todo' (S c) don rest pivs
          | Some (pre, p, post) =>
              let p' := nrm w c p in
              row_reduce w todo' (S c) (map (elim w c p') don ++ [p']) (map (elim w c p') (others pre post)) (pivs ++ [c])
          end
      end
  end.

(** [_permute_matrix_rows] (arithmetic.py:276-306): [new[perm[k]] = old[k]] *)
Fixpoint lookup_row {A} (d : A) (i : nat) (perm : list nat) (rows : list A) : A :=
  match perm, rows with
  | k :: perm', r :: rows' => if (k =? i)%nat then r else lookup_row d i perm' rows'
  | _, _ => d
  end.
Definition permute_rows {A} (d : A) (perm : list nat) (rows : list A) : list A :=
  map (fun i => lookup_row d i perm rows) (seq 0 (length rows)).

(** [solve_undetermined_linear] (arithmetic.py:309-372) for one right hand
    side: [A] has rows of length [n]. *)
Definition solve_linear (n : nat) (A : list (list K)) (b : list K) : res (list K * list (list K)) :=
  let aug := map (fun rb => fst rb ++ [snd rb]) (combine A b) in
  let '(R, allpivs) := row_reduce (S n) (S n) 0 [] aug [] in
  let pivots := filter (fun p => p <? n)%nat allpivs in
  let rank := length pivots in
  let free := filter (fun c => negb (existsb (Nat.eqb c) pivots)) (seq 0 n) in
  if forallb (fun row => vget row n =? 0) (skipn rank R) then
    let V := map (fun row => map (vget row) free) (firstn rank R)
             ++ mtab (length free) (length free) (fun i j => if (i =? j)%nat then - (1) else 0) in
    let vt := map (fun row => vget row n) (firstn rank R) ++ repeat 0 (length free) in
    Ok (permute_rows 0 (pivots ++ free) vt, permute_rows [] (pivots ++ free) V)
  else Err ValueError.

(** ** Specification *)
Definition dotv (n : nat) (row x : list K) : K := bsum n (fun j => vget row j * vget x j).
(** [x] solves [A x = b]. *)
Definition solves (n : nat) (A : list (list K)) (b x : list K) : Prop :=
  length x = n /\ Forall2 (fun row bi => dotv n row x = bi) A b.
(** [x = x0 + V y] *)
Definition affine_point (n : nat) (x0 : list K) (V : list (list K)) (y x : list K) : Prop :=
  length x = n /\ forall i, (i < n)%nat -> vget x i = vget x0 i + dotv (length y) (nth i V []) y.
End Model.

Section Proofs.
Variable K : OrdField.
Local Open Scope of_scope.
Add Field Kf : (F_field K).
Implicit Types (row p : list K) (rows don rest : list (list K)) (y : nat -> K).

Definition hom (w : nat) row y : K := bsum w (fun j => vget row j * y j).
Definition sol (w : nat) rows y : Prop := Forall (fun row => hom w row y = 0) rows.

Lemma sol_app w r1 r2 y : sol w (r1 ++ r2) y <-> sol w r1 y /\ sol w r2 y.
Proof. unfold sol. apply Forall_app. Qed.

Lemma vget_nrm w c row k : (k < w)%nat ->
  vget (nrm w c row) k = if (k =? c)%nat then 1 else if (c <? k)%nat then vget row k / vget row c else vget row k.
Proof. intro H. unfold nrm. rewrite vget_vtab by exact H. reflexivity. Qed.
Lemma vget_elim w c p row k : (k < w)%nat -> vget (elim w c p row) k = vget row k - vget row c * vget p k.
Proof. intro H. unfold elim. rewrite vget_vtab by exact H. reflexivity. Qed.

Lemma hom_nrm w c row y : (c < w)%nat -> vget row c <> 0 -> (forall j, (j < c)%nat -> vget row j = 0) ->
  hom w (nrm w c row) y = hom w row y / vget row c.
Proof.
  intros Hc Hp Hz. rewrite fdiv_def. unfold hom. rewrite <- bsum_mul_r. apply bsum_ext. intros j Hj. rewrite vget_nrm by exact Hj.
  destruct (j =? c)%nat eqn:E; [apply Nat.eqb_eq in E; subst j; field; exact Hp|]. apply Nat.eqb_neq in E.
  destruct (c <? j)%nat eqn:E2; [field; exact Hp|]. apply Nat.ltb_ge in E2. rewrite Hz by lia. ring.
Qed.
Lemma hom_elim w c p row y : hom w (elim w c p row) y = hom w row y - vget row c * hom w p y.
Proof.
  unfold hom. rewrite <- bsum_mul_l, <- bsum_sub. apply bsum_ext. intros j Hj. rewrite vget_elim by exact Hj. ring.
Qed.

Lemma find_pivot_some c rest pre p post : find_pivot c rest = Some (pre, p, post) ->
  rest = pre ++ p :: post /\ vget p c <> 0.
Proof.
  revert pre p post. induction rest as [|r rs IH]; cbn; intros pre p post H; [discriminate|].
  destruct (vget r c =? 0) eqn:E.
  - destruct (find_pivot c rs) as [[[pre0 p0] post0]|]; [|discriminate].
    injection H as <- <- <-. destruct (IH _ _ _ eq_refl) as [-> H2]. auto.
  - injection H as <- <- <-. apply feqb_neq in E. auto.
Qed.
Lemma find_pivot_none c rest : find_pivot c rest = None -> forall r, In r rest -> vget r c = 0.
Proof.
  induction rest as [|r rs IH]; cbn; intros H r' Hr; [destruct Hr|].
  destruct (vget r c =? 0) eqn:E; [|discriminate]. apply feqb_eq in E.
  destruct (find_pivot c rs) as [[[? ?] ?]|]; [discriminate|]. destruct Hr as [<-|Hr]; auto.
Qed.
Lemma others_perm (pre post : list (list K)) : Permutation (others pre post) (pre ++ post).
Proof. destruct pre as [|r pre]; [reflexivity|]. cbn. symmetry. apply Permutation_middle. Qed.

(** Invariant of the reduction *)
Record inv (w c : nat) don rest (pivs : list nat) : Prop := {
  inv_len : length don = length pivs;
  inv_lt : forall k, (k < length pivs)%nat -> (nth k pivs 0 < c)%nat;
  inv_one : forall k, (k < length pivs)%nat -> vget (nth k don []) (nth k pivs 0%nat) = 1;
  inv_zero : forall k k', (k < length pivs)%nat -> (k' < length pivs)%nat -> k <> k' ->
               vget (nth k' don []) (nth k pivs 0%nat) = 0;
  inv_lead : forall k j, (k < length pivs)%nat -> (j < nth k pivs 0%nat)%nat -> vget (nth k don []) j = 0;
  inv_rest : forall r j, In r rest -> (j < c)%nat -> vget r j = 0;
  inv_sorted : StronglySorted lt pivs
}.

Lemma nth_map_elim w c p don k : (k < length don)%nat -> nth k (map (elim w c p) don) [] = elim w c p (nth k don []).
Proof. intro H. rewrite nth_indep with (d' := elim w c p []) by (rewrite map_length; exact H). apply map_nth. Qed.

Lemma sorted_snoc l c : StronglySorted lt l -> (forall k, (k < length l)%nat -> (nth k l 0 < c)%nat) -> StronglySorted lt (l ++ [c]).
Proof.
  induction l as [|x l IH]; intros HS H; [repeat constructor|]. inversion HS; subst. cbn. constructor.
  - apply IH; [assumption|]. intros k Hk. apply (H (S k)). cbn. lia.
  - apply Forall_app. split; [assumption|]. constructor; [|constructor]. apply (H 0%nat). cbn. lia.
Qed.

Lemma inv_step w c don rest pivs pre p post : (c < w)%nat -> inv w c don rest pivs ->
  find_pivot c rest = Some (pre, p, post) ->
  inv w (S c) (map (elim w c (nrm w c p)) don ++ [nrm w c p]) (map (elim w c (nrm w c p)) (others pre post)) (pivs ++ [c]).
Proof.
  intros Hc I HF. destruct (find_pivot_some _ _ _ _ _ HF) as [HR Hp]. destruct I as [IL ILT IO IZ ILd IR IS].
  set (p' := nrm w c p) in *.
  assert (Pz : forall j, (j < c)%nat -> vget p j = 0).
  { intros j Hj. apply IR; [|exact Hj]. rewrite HR. apply in_or_app. right. left. reflexivity. }
  assert (P'z : forall j, (j < c)%nat -> vget p' j = 0).
  { intros j Hj. unfold p'. rewrite vget_nrm by lia. replace (j =? c)%nat with false by (symmetry; apply Nat.eqb_neq; lia).
    replace (c <? j)%nat with false by (symmetry; apply Nat.ltb_ge; lia). auto. }
  assert (P'c : vget p' c = 1) by (unfold p'; rewrite vget_nrm by exact Hc; rewrite Nat.eqb_refl; reflexivity).
  assert (Ldon : length (map (elim w c p') don) = length pivs) by (rewrite map_length; exact IL).
  assert (Dn : forall k, (k < length pivs)%nat -> nth k (map (elim w c p') don ++ [p']) [] = elim w c p' (nth k don [])).
  { intros k Hk. rewrite app_nth1 by lia. apply nth_map_elim. lia. }
  assert (Dl : nth (length pivs) (map (elim w c p') don ++ [p']) [] = p').
  { rewrite app_nth2 by lia. rewrite Ldon, Nat.sub_diag. reflexivity. }
  assert (Pn : forall k, (k < length pivs)%nat -> nth k (pivs ++ [c]) 0%nat = nth k pivs 0%nat) by (intros; apply app_nth1; assumption).
  assert (Pl : nth (length pivs) (pivs ++ [c]) 0%nat = c) by (rewrite app_nth2 by lia; rewrite Nat.sub_diag; reflexivity).
  assert (Len : length (pivs ++ [c]) = S (length pivs)) by (rewrite app_length; cbn; lia).
  assert (Cs : forall k, (k < S (length pivs))%nat -> (k < length pivs)%nat \/ k = length pivs) by (intros; lia).
  constructor; rewrite ?Len.
  - rewrite app_length, map_length, IL. cbn. lia.
  - intros k Hk. destruct (Cs k Hk) as [H| ->]; [rewrite Pn by exact H; specialize (ILT k H); lia|rewrite Pl; lia].
  - intros k Hk. destruct (Cs k Hk) as [H| ->].
    + rewrite Dn, Pn by exact H. specialize (ILT k H). rewrite vget_elim by lia. rewrite IO by exact H. rewrite P'z by exact ILT. ring.
    + rewrite Dl, Pl. exact P'c.
  - intros k k' Hk Hk' N. destruct (Cs k Hk) as [H| ->].
    + rewrite Pn by exact H. specialize (ILT k H). destruct (Cs k' Hk') as [H'| ->].
      * rewrite Dn by exact H'. rewrite vget_elim by lia. rewrite IZ by assumption. rewrite P'z by exact ILT. ring.
      * rewrite Dl. apply P'z. exact ILT.
    + rewrite Pl. destruct (Cs k' Hk') as [H'| ->]; [|congruence].
      rewrite Dn by exact H'. rewrite vget_elim by exact Hc. rewrite P'c. ring.
  - intros k j Hk Hj. destruct (Cs k Hk) as [H| ->].
    + rewrite Dn by exact H. rewrite Pn in Hj by exact H. specialize (ILT k H). rewrite vget_elim by lia.
      rewrite (ILd k j H Hj), (P'z j) by lia. ring.
    + rewrite Dl. rewrite Pl in Hj. apply P'z. exact Hj.
  - intros r j Hr Hj. apply in_map_iff in Hr. destruct Hr as (r0 & <- & Hr0).
    assert (Hin : In r0 rest).
    { rewrite HR. apply (Permutation_in _ (others_perm pre post)) in Hr0. apply in_app_iff in Hr0. apply in_app_iff.
      destruct Hr0; [left|right; right]; assumption. }
    rewrite vget_elim by lia. destruct (Nat.eq_dec j c) as [->|N]; [rewrite P'c; ring|].
    rewrite (IR r0 j Hin), P'z by lia. ring.
  - apply sorted_snoc; [exact IS|exact ILT].
Qed.

Lemma sol_step w c don rest pivs pre p post y : (c < w)%nat -> inv w c don rest pivs ->
  find_pivot c rest = Some (pre, p, post) ->
  sol w ((map (elim w c (nrm w c p)) don ++ [nrm w c p]) ++ map (elim w c (nrm w c p)) (others pre post)) y
  <-> sol w (don ++ rest) y.
Proof.
  intros Hc I HF. destruct (find_pivot_some _ _ _ _ _ HF) as [HR Hp].
  assert (HN : hom w (nrm w c p) y = hom w p y / vget p c).
  { apply hom_nrm; auto. intros j Hj. apply (inv_rest _ _ _ _ _ I); [|exact Hj]. rewrite HR. apply in_or_app. right. left. reflexivity. }
  assert (E : hom w (nrm w c p) y = 0 <-> hom w p y = 0).
  { rewrite HN. split; intro H; [|rewrite H; field; exact Hp].
    replace (hom w p y) with (hom w p y / vget p c * vget p c) by (field; exact Hp). rewrite H. ring. }
  assert (M : forall rows, hom w (nrm w c p) y = 0 -> (sol w (map (elim w c (nrm w c p)) rows) y <-> sol w rows y)).
  { intros rows H. unfold sol. rewrite Forall_map. split; apply Forall_impl; intros r Hr; rewrite hom_elim, H in *.
    - rewrite <- Hr. ring.
    - rewrite Hr. ring. }
  rewrite !sol_app. rewrite HR. rewrite sol_app.
  assert (Q : sol w [nrm w c p] y <-> hom w (nrm w c p) y = 0).
  { unfold sol. split; [intro H; inversion H; assumption|intro H; constructor; [exact H|constructor]]. }
  assert (Q2 : sol w (p :: post) y <-> hom w p y = 0 /\ sol w post y).
  { unfold sol. split; [intro H; inversion H; auto|intros [H1 H2]; constructor; assumption]. }
  assert (Q3 : sol w (others pre post) y <-> sol w pre y /\ sol w post y).
  { rewrite <- sol_app. unfold sol. split; apply Permutation_Forall; [|symmetry]; apply others_perm. }
  rewrite Q, Q2. split.
  - intros [[H1 H2] H3]. apply (proj1 (M _ H2)) in H1. apply (proj1 (M _ H2)) in H3. apply Q3 in H3. tauto.
  - intros [H1 [H2 [H3 H4]]]. apply E in H3. rewrite (M _ H3), (M _ H3), Q3. tauto.
Qed.

(** What the reduction returns *)
Lemma row_reduce_spec w : forall todo c don rest pivs R ps, (c + todo = w)%nat ->
  inv w c don rest pivs -> row_reduce w todo c don rest pivs = (R, ps) ->
  exists don' rest', R = don' ++ rest' /\ inv w w don' rest' ps /\ (forall y, sol w R y <-> sol w (don ++ rest) y).
Proof.
  induction todo as [|todo IH]; intros c don rest pivs R ps Hw I H; cbn [row_reduce] in H.
  - injection H as <- <-. exists don, rest. rewrite Nat.add_0_r in Hw. subst c. split; [reflexivity|]. split; [exact I|reflexivity].
  - destruct rest as [|r0 rest0] eqn:ER.
    { injection H as <- <-. exists don, []. split; [reflexivity|]. split; [|reflexivity].
      destruct I as [IL ILT IO IZ ILd IR IS]. constructor; auto; try (intros r j []).
      intros k Hk. specialize (ILT k Hk). lia. }
    rewrite <- ER in *. clear ER.
    destruct (find_pivot c rest) as [[[pre p] post]|] eqn:HF.
    + pose proof (inv_step w c don rest pivs pre p post ltac:(lia) I HF) as I'.
      destruct (IH (S c) _ _ _ R ps ltac:(lia) I' H) as (don' & rest' & E1 & E2 & E3).
      exists don', rest'. split; [exact E1|]. split; [exact E2|]. intro y. rewrite E3. apply sol_step with (pivs := pivs); auto; lia.
    + assert (I' : inv w (S c) don rest pivs).
      { destruct I as [IL ILT IO IZ ILd IR IS]. constructor; auto.
        - intros k Hk. specialize (ILT k Hk). lia.
        - intros r j Hr Hj. destruct (Nat.eq_dec j c) as [->|N]; [apply (find_pivot_none c rest HF r Hr)|apply IR; [exact Hr|lia]]. }
      apply (IH (S c) don rest pivs R ps ltac:(lia) I' H).
Qed.

(** ** Reading the answer *)
Lemma lookup_row_nth {A} (d : A) perm (rows : list A) k : NoDup perm -> (k < length perm)%nat -> length rows = length perm ->
  lookup_row d (nth k perm 0%nat) perm rows = nth k rows d.
Proof.
  revert rows k. induction perm as [|x perm IH]; intros rows k HN Hk HL; [cbn in Hk; lia|].
  destruct rows as [|r rows]; [cbn in HL; lia|]. inversion HN as [|? ? H1 H2]; subst. destruct k as [|k]; cbn.
  - rewrite Nat.eqb_refl. reflexivity.
  - cbn in Hk. destruct (x =? nth k perm 0)%nat eqn:E.
    + apply Nat.eqb_eq in E. exfalso. apply H1. rewrite E. apply nth_In. lia.
    + apply IH; [exact H2|lia|cbn in HL; lia].
Qed.
Lemma permute_rows_nth {A} (d : A) perm (rows : list A) k : NoDup perm -> length rows = length perm ->
  (forall x, In x perm -> (x < length perm)%nat) -> (k < length perm)%nat ->
  nth (nth k perm 0%nat) (permute_rows d perm rows) d = nth k rows d.
Proof.
  intros HN HL HB Hk. unfold permute_rows.
  assert (Hi : (nth k perm 0 < length rows)%nat) by (rewrite HL; apply HB, nth_In, Hk).
  rewrite nth_indep with (d' := lookup_row d 0%nat perm rows) by (rewrite map_length, seq_length; exact Hi).
  rewrite map_nth with (f := fun i => lookup_row d i perm rows) (d := 0%nat).
  rewrite seq_nth by exact Hi. cbn [Nat.add]. apply lookup_row_nth; assumption.
Qed.

Lemma sorted_NoDup l : StronglySorted lt l -> NoDup l.
Proof.
  induction 1 as [|x l HS IH HF]; constructor; [|exact IH]. intro H. rewrite Forall_forall in HF. specialize (HF x H). lia.
Qed.
Lemma sorted_filter_lt n l : StronglySorted lt l -> (forall x, In x l -> (x <= n)%nat) ->
  (forall x, In x l -> (x < n)%nat) \/ exists l', l = l' ++ [n] /\ (forall x, In x l' -> (x < n)%nat).
Proof.
  intros HS. induction HS as [|x l HS IH HF]; intro HB; [left; intros x []|].
  destruct l as [|x2 l'] eqn:El.
  - destruct (Nat.eq_dec x n) as [->|N]; [right; exists []; split; [reflexivity|intros ? []]|].
    left. intros z [<-|[]]. specialize (HB x (or_introl eq_refl)). lia.
  - rewrite <- El in *. clear El l' x2.
    destruct IH as [H|(l0 & E & H)]; [intros z Hz; apply HB; right; exact Hz| |].
    + destruct (Nat.eq_dec x n) as [->|N].
      * destruct l as [|z l]; [right; exists []; split; [reflexivity|intros ? []]|].
        exfalso. inversion HF; subst. specialize (H z (or_introl eq_refl)). lia.
      * left. intros z [<-|Hz]; [specialize (HB x (or_introl eq_refl)); lia|auto].
    + right. exists (x :: l0). split; [rewrite E; reflexivity|]. intros z [<-|Hz]; [|auto].
      rewrite Forall_forall in HF. apply HF. rewrite E. apply in_or_app. right. left. reflexivity.
Qed.
Lemma filter_all {A} (f : A -> bool) l : (forall x, In x l -> f x = true) -> filter f l = l.
Proof.
  induction l as [|x l IH]; intro H; [reflexivity|]. cbn. rewrite H by (left; reflexivity). f_equal. apply IH.
  intros; apply H; right; assumption.
Qed.

Lemma inv0 w rows : inv w 0 [] rows [].
Proof. constructor; cbn; try (intros; lia); try reflexivity. constructor. Qed.

(** Augmented rows against the point (x, -1). *)
Definition ext (n : nat) (x : list K) (j : nat) : K := if (j <? n)%nat then vget x j else - (1).
Lemma hom_split n row x : hom (S n) row (ext n x) = dotv n row x - vget row n.
Proof.
  unfold hom, dotv. cbn [bsum]. rewrite (bsum_ext K n _ (fun j => vget row j * vget x j)).
  - unfold ext. rewrite Nat.ltb_irrefl. ring.
  - intros j Hj. unfold ext. apply Nat.ltb_lt in Hj. rewrite Hj. reflexivity.
Qed.
Lemma hom_aug n row bi x : length row = n -> hom (S n) (row ++ [bi]) (ext n x) = 0 <-> dotv n row x = bi.
Proof.
  intro HL. rewrite hom_split.
  assert (E1 : vget (row ++ [bi]) n = bi) by (unfold vget; rewrite app_nth2 by lia; rewrite HL, Nat.sub_diag; reflexivity).
  assert (E2 : dotv n (row ++ [bi]) x = dotv n row x).
  { apply bsum_ext. intros j Hj. unfold vget at 1 3. rewrite app_nth1 by lia. reflexivity. }
  rewrite E1, E2. split; [apply fsub_eq0|intros ->; ring].
Qed.
Lemma sol_aug n A (b x : list K) : length A = length b -> Forall (fun row => length row = n) A ->
  (sol (S n) (map (fun rb => fst rb ++ [snd rb]) (combine A b)) (ext n x) <-> Forall2 (fun row bi => dotv n row x = bi) A b).
Proof.
  revert b. induction A as [|row A IH]; intros b HL HF; destruct b as [|bi b]; try discriminate; cbn.
  - split; constructor.
  - inversion HF as [|? ? H1 H2]; subst. cbn in HL. injection HL as HL. specialize (IH b HL H2). unfold sol in *. split; intro H.
    + inversion H as [|? ? H3 H4]; subst. constructor; [apply (hom_aug (length row)); auto|apply IH, H4].
    + inversion H as [|? ? ? ? H3 H4]; subst. constructor; [|apply IH, H4].
      apply (hom_aug (length row)); auto.
Qed.

Lemma mem_existsb c l : existsb (Nat.eqb c) l = true <-> In c l.
Proof.
  rewrite existsb_exists. split; [intros (x & H1 & H2); apply Nat.eqb_eq in H2; subst; exact H1|].
  intro H. exists c. split; [exact H|apply Nat.eqb_refl].
Qed.

Lemma NoDup_app_disj {A} (l1 l2 : list A) : NoDup l1 -> NoDup l2 -> (forall x, In x l1 -> ~ In x l2) -> NoDup (l1 ++ l2).
Proof.
  induction 1 as [|x l1 H1 H2 IH]; intros HN HD; [exact HN|]. cbn. constructor.
  - rewrite in_app_iff. intros [H|H]; [contradiction|]. apply (HD x); [left; reflexivity|exact H].
  - apply IH; [exact HN|]. intros z Hz. apply HD. right. exact Hz.
Qed.

Section Reading.
Variables (n : nat) (don rest : list (list K)) (pivs : list nat).
Hypothesis I : inv (S n) (S n) don rest pivs.
Hypothesis Hlt : forall x, In x pivs -> (x < n)%nat.
Let free := filter (fun c => negb (existsb (Nat.eqb c) pivs)) (seq 0 n).

Lemma free_in c : In c free <-> (c < n)%nat /\ ~ In c pivs.
Proof.
  unfold free. rewrite filter_In, in_seq, negb_true_iff. rewrite <- mem_existsb. rewrite not_true_iff_false. intuition lia.
Qed.
Lemma free_NoDup : NoDup free.
Proof. apply NoDup_filter, seq_NoDup. Qed.
Lemma pivs_NoDup : NoDup pivs.
Proof. apply sorted_NoDup, (inv_sorted _ _ _ _ _ I). Qed.
Lemma perm_seq : Permutation (pivs ++ free) (seq 0 n).
Proof.
  apply NoDup_Permutation.
  - apply NoDup_app_disj; [apply pivs_NoDup|apply free_NoDup|]. intros x H1 H2. apply free_in in H2. tauto.
  - apply seq_NoDup.
  - intro x. rewrite in_app_iff, free_in, in_seq. specialize (Hlt x).
    destruct (in_dec Nat.eq_dec x pivs) as [H|H]; [specialize (Hlt H)|]; intuition lia.
Qed.

Lemma bsum_nth (l : list nat) (g : nat -> K) : fsum (map g l) = bsum (length l) (fun k => g (nth k l 0%nat)).
Proof.
  induction l as [|x l IH]; [reflexivity|]. cbn [map fsum length]. rewrite bsum_Sl. cbn [nth]. rewrite IH. reflexivity.
Qed.
Lemma dotv_read row x k : (k < length pivs)%nat -> row = nth k don [] ->
  dotv n row x = vget x (nth k pivs 0%nat) + bsum (length free) (fun c => vget row (nth c free 0%nat) * vget x (nth c free 0%nat)).
Proof.
  intros Hk ->. unfold dotv. rewrite bsum_fsum.
  rewrite <- (fsum_perm K _ _ (Permutation_map (fun j => vget (nth k don []) j * vget x j) perm_seq)).
  rewrite map_app, fsum_app. rewrite !bsum_nth. f_equal.
  rewrite (bsum_single K (length pivs) k); [|exact Hk|].
  - rewrite (inv_one _ _ _ _ _ I) by exact Hk. ring.
  - intros k' Hk' N. rewrite (inv_zero _ _ _ _ _ I) by auto. ring.
Qed.
Lemma rest_zero r j : In r rest -> (j < S n)%nat -> vget r j = 0.
Proof. apply (inv_rest _ _ _ _ _ I). Qed.
Lemma sol_read x : sol (S n) (don ++ rest) (ext n x) <->
  forall k, (k < length pivs)%nat ->
    vget x (nth k pivs 0%nat) = vget (nth k don []) n - bsum (length free) (fun c => vget (nth k don []) (nth c free 0%nat) * vget x (nth c free 0%nat)).
Proof.
  rewrite sol_app. unfold sol. rewrite !Forall_forall. split.
  - intros [H _] k Hk. assert (Hin : In (nth k don []) don) by (apply nth_In; rewrite (inv_len _ _ _ _ _ I); exact Hk).
    specialize (H _ Hin). rewrite hom_split, (dotv_read _ x k Hk eq_refl) in H. apply fsub_eq0 in H. rewrite <- H. ring.
  - intro H. split.
    + intros row Hin. apply (In_nth _ _ []) in Hin. destruct Hin as (k & Hk & <-). rewrite (inv_len _ _ _ _ _ I) in Hk.
      rewrite hom_split, (dotv_read _ x k Hk eq_refl), (H k Hk). ring.
    + intros row Hin. unfold hom. apply bsum_all0. intros j Hj. rewrite (rest_zero row j Hin Hj). ring.
Qed.

Let V := map (fun row => map (vget row) free) don
         ++ mtab (length free) (length free) (fun i j => if (i =? j)%nat then - (1) else 0 : K).
Let vt := map (fun row => vget row n) don ++ repeat (0 : K) (length free).
Let X0 := permute_rows 0 (pivs ++ free) vt.
Let VV := permute_rows [] (pivs ++ free) V.

Lemma perm_length : length (pivs ++ free) = n.
Proof. rewrite (Permutation_length perm_seq). apply seq_length. Qed.
Lemma perm_bound x : In x (pivs ++ free) -> (x < length (pivs ++ free))%nat.
Proof. intro H. rewrite perm_length. apply (Permutation_in _ perm_seq) in H. apply in_seq in H. lia. Qed.
Lemma perm_NoDup : NoDup (pivs ++ free).
Proof. apply (Permutation_NoDup (Permutation_sym perm_seq)), seq_NoDup. Qed.
Lemma vt_length : length vt = length (pivs ++ free).
Proof. unfold vt. rewrite !app_length, map_length, repeat_length, (inv_len _ _ _ _ _ I). reflexivity. Qed.
Lemma V_length : length V = length (pivs ++ free).
Proof. unfold V. rewrite !app_length, map_length, mtab_length, (inv_len _ _ _ _ _ I). reflexivity. Qed.
Lemma X0_length : length X0 = n.
Proof. unfold X0, permute_rows. rewrite map_length, seq_length, vt_length, perm_length. reflexivity. Qed.
Lemma VV_length : length VV = n.
Proof. unfold VV, permute_rows. rewrite map_length, seq_length, V_length, perm_length. reflexivity. Qed.

Lemma X0_piv k : (k < length pivs)%nat -> vget X0 (nth k pivs 0%nat) = vget (nth k don []) n.
Proof.
  intro Hk. assert (E : nth k pivs 0%nat = nth k (pivs ++ free) 0%nat) by (rewrite app_nth1 by exact Hk; reflexivity).
  rewrite E. unfold vget at 1, X0. rewrite permute_rows_nth; [|apply perm_NoDup|apply vt_length|apply perm_bound|rewrite app_length; lia].
  unfold vt. rewrite app_nth1 by (rewrite map_length, (inv_len _ _ _ _ _ I); exact Hk).
  rewrite nth_indep with (d' := vget [] n) by (rewrite map_length, (inv_len _ _ _ _ _ I); exact Hk).
  exact (map_nth (fun row => vget row n) don [] k).
Qed.
Lemma X0_free c : (c < length free)%nat -> vget X0 (nth c free 0%nat) = 0.
Proof.
  intro Hc. assert (E : nth c free 0%nat = nth (length pivs + c) (pivs ++ free) 0%nat)
    by (rewrite app_nth2 by lia; f_equal; lia).
  rewrite E. unfold vget at 1, X0. rewrite permute_rows_nth; [|apply perm_NoDup|apply vt_length|apply perm_bound|rewrite app_length; lia].
  unfold vt. rewrite app_nth2 by (rewrite map_length, (inv_len _ _ _ _ _ I); lia). apply nth_repeat.
Qed.
Lemma VV_piv k : (k < length pivs)%nat -> nth (nth k pivs 0%nat) VV [] = map (vget (nth k don [])) free.
Proof.
  intro Hk. assert (E : nth k pivs 0%nat = nth k (pivs ++ free) 0%nat) by (rewrite app_nth1 by exact Hk; reflexivity).
  rewrite E. unfold VV. rewrite permute_rows_nth; [|apply perm_NoDup|apply V_length|apply perm_bound|rewrite app_length; lia].
  unfold V. rewrite app_nth1 by (rewrite map_length, (inv_len _ _ _ _ _ I); exact Hk).
  rewrite nth_indep with (d' := map (vget []) free) by (rewrite map_length, (inv_len _ _ _ _ _ I); exact Hk).
  exact (map_nth (fun row => map (vget row) free) don [] k).
Qed.
Lemma VV_free c : (c < length free)%nat ->
  nth (nth c free 0%nat) VV [] = vtab (length free) (fun j => if (c =? j)%nat then - (1) else 0 : K).
Proof.
  intro Hc. assert (E : nth c free 0%nat = nth (length pivs + c) (pivs ++ free) 0%nat)
    by (rewrite app_nth2 by lia; f_equal; lia).
  rewrite E. unfold VV. rewrite permute_rows_nth; [|apply perm_NoDup|apply V_length|apply perm_bound|rewrite app_length; lia].
  unfold V. rewrite app_nth2 by (rewrite map_length, (inv_len _ _ _ _ _ I); lia).
  rewrite map_length, (inv_len _ _ _ _ _ I). replace (length pivs + c - length pivs)%nat with c by lia.
  apply mtab_row. exact Hc.
Qed.
Lemma VV_width row : In row VV -> length row = length free.
Proof.
  intro H. apply (In_nth _ _ []) in H. destruct H as (i & Hi & <-). rewrite VV_length in Hi.
  assert (Hin : In i (pivs ++ free)) by (apply (Permutation_in _ (Permutation_sym perm_seq)), in_seq; lia).
  apply in_app_iff in Hin. destruct Hin as [H|H]; apply (In_nth _ _ 0%nat) in H; destruct H as (k & Hk & <-).
  - rewrite VV_piv by exact Hk. apply map_length.
  - rewrite VV_free by exact Hk. apply vtab_length.
Qed.
Lemma VV_free_dot c (y : list K) : (c < length free)%nat -> length y = length free ->
  dotv (length y) (nth (nth c free 0%nat) VV []) y = - vget y c.
Proof.
  intros Hc Hy. rewrite VV_free by exact Hc. unfold dotv. rewrite Hy.
  rewrite (bsum_single K (length free) c); [|exact Hc|].
  - rewrite vget_vtab by exact Hc. rewrite Nat.eqb_refl. ring.
  - intros j Hj N. rewrite vget_vtab by exact Hj. replace (c =? j)%nat with false by (symmetry; apply Nat.eqb_neq; auto). ring.
Qed.
Lemma VV_piv_dot k (y : list K) : (k < length pivs)%nat -> length y = length free ->
  dotv (length y) (nth (nth k pivs 0%nat) VV []) y = bsum (length free) (fun c => vget (nth k don []) (nth c free 0%nat) * vget y c).
Proof.
  intros Hk Hy. rewrite VV_piv by exact Hk. unfold dotv. rewrite Hy. apply bsum_ext. intros c Hc. f_equal.
  unfold vget at 1. rewrite nth_indep with (d' := vget (nth k don []) 0%nat) by (rewrite map_length; exact Hc).
  apply map_nth.
Qed.

Lemma read_iff x : length x = n ->
  (sol (S n) (don ++ rest) (ext n x) <-> exists y : list K, length y = length free /\ affine_point n X0 VV y x).
Proof.
  intro HL. rewrite sol_read. split.
  - intro H. exists (map (fun f => - vget x f) free). split; [apply map_length|]. split; [exact HL|].
    assert (Hy : length (map (fun f => - vget x f) free) = length free) by apply map_length.
    assert (Yc : forall c, (c < length free)%nat -> vget (map (fun f => - vget x f) free) c = - vget x (nth c free 0%nat)).
    { intros c Hc. unfold vget at 1. rewrite nth_indep with (d' := - vget x 0%nat) by (rewrite map_length; exact Hc).
      exact (map_nth (fun f => - vget x f) free 0%nat c). }
    intros i Hi. assert (Hin : In i (pivs ++ free)) by (apply (Permutation_in _ (Permutation_sym perm_seq)), in_seq; lia).
    apply in_app_iff in Hin. destruct Hin as [Hin|Hin]; apply (In_nth _ _ 0%nat) in Hin; destruct Hin as (k & Hk & <-).
    + rewrite VV_piv_dot by assumption. rewrite X0_piv by exact Hk. rewrite H by exact Hk.
      rewrite (bsum_ext K (length free) (fun c => vget (nth k don []) (nth c free 0%nat) * vget (map (fun f => - vget x f) free) c)
                 (fun c => - (vget (nth k don []) (nth c free 0%nat) * vget x (nth c free 0%nat)))).
      * rewrite bsum_opp. ring.
      * intros c Hc. rewrite Yc by exact Hc. ring.
    + rewrite VV_free_dot by assumption. rewrite X0_free by exact Hk. rewrite Yc by exact Hk. ring.
  - intros (y & Hy & _ & H) k Hk.
    assert (Fx : forall c, (c < length free)%nat -> vget x (nth c free 0%nat) = - vget y c).
    { intros c Hc. rewrite H by (apply Nat.lt_le_trans with (length (pivs ++ free)); [apply perm_bound, in_or_app; right; apply nth_In, Hc|rewrite perm_length; lia]).
      rewrite VV_free_dot by assumption. rewrite X0_free by exact Hc. ring. }
    rewrite H by (apply Hlt, nth_In, Hk). rewrite VV_piv_dot by assumption. rewrite X0_piv by exact Hk.
    rewrite (bsum_ext K (length free) (fun c => vget (nth k don []) (nth c free 0%nat) * vget x (nth c free 0%nat))
               (fun c => - (vget (nth k don []) (nth c free 0%nat) * vget y c))).
    * rewrite bsum_opp. ring.
    * intros c Hc. rewrite Fx by exact Hc. ring.
Qed.
Lemma read_unique x (y y' : list K) : length y = length free -> length y' = length free ->
  affine_point n X0 VV y x -> affine_point n X0 VV y' x -> y = y'.
Proof.
  intros Hy Hy' [_ H] [_ H']. apply nth_ext with (d := 0) (d' := 0); [congruence|]. intros c Hc. rewrite Hy in Hc.
  assert (B : (nth c free 0 < n)%nat).
  { apply Nat.lt_le_trans with (length (pivs ++ free)); [apply perm_bound, in_or_app; right; apply nth_In, Hc|rewrite perm_length; lia]. }
  specialize (H _ B). specialize (H' _ B). rewrite VV_free_dot in H, H' by assumption. rewrite H in H'.
  change (vget y c = vget y' c).
  replace (vget y c) with (- (vget X0 (nth c free 0%nat) + - vget y c) + vget X0 (nth c free 0%nat)) by ring.
  rewrite H'. ring.
Qed.
End Reading.

Lemma solve_linear_spec n A (b : list K) : length A = length b -> Forall (fun row => length row = n) A ->
  match solve_linear n A b with
  | Ok (x0, V) =>
      length x0 = n /\ length V = n /\
      exists f, (forall row, In row V -> length row = f) /\
        (forall x, solves n A b x <-> exists y : list K, length y = f /\ affine_point n x0 V y x) /\
        (forall x (y y' : list K), length y = f -> length y' = f -> affine_point n x0 V y x -> affine_point n x0 V y' x -> y = y')
  | Err er => er = ValueError /\ forall x, ~ solves n A b x
  end.
Proof.
  intros HL HF. unfold solve_linear.
  destruct (row_reduce _ _ _ _ _ _) as [R ps] eqn:ER.
  destruct (row_reduce_spec (S n) (S n) 0 [] _ [] R ps eq_refl (inv0 _ _) ER) as (don & rest & -> & I & HS).
  cbn [app] in HS.
  assert (HB : forall x, In x ps -> (x <= n)%nat).
  { intros x Hx. apply (In_nth _ _ 0%nat) in Hx. destruct Hx as (k & Hk & <-). pose proof (inv_lt _ _ _ _ _ I k Hk). lia. }
  destruct (sorted_filter_lt n ps (inv_sorted _ _ _ _ _ I) HB) as [Hlt|(l & -> & Hlt)].
  - assert (EF : filter (fun p : nat => p <? n)%nat ps = ps) by (apply filter_all; intros x Hx; apply Nat.ltb_lt, Hlt, Hx).
    rewrite EF. assert (Ld : length don = length ps) by apply (inv_len _ _ _ _ _ I).
    rewrite skipn_app, firstn_app. rewrite <- Ld, Nat.sub_diag, skipn_all, firstn_all. cbn [skipn firstn]. rewrite app_nil_r. cbn [app].
    assert (T : forallb (fun row => vget row n =? 0) rest = true).
    { apply forallb_forall. intros r Hr. apply feqb_eq. apply (inv_rest _ _ _ _ _ I); [exact Hr|lia]. }
    rewrite T. split; [apply X0_length with (rest := rest); assumption|]. split; [apply VV_length with (rest := rest); assumption|].
    exists (length (filter (fun c => negb (existsb (Nat.eqb c) ps)) (seq 0 n))).
    split; [intros row Hr; apply VV_width with (rest := rest) (don := don); assumption|]. split.
    + intro x. unfold solves. split.
      * intros [Hx H]. apply (sol_aug n A b x HL HF) in H. apply HS in H.
        apply (read_iff n don rest ps I Hlt x Hx) in H. exact H.
      * intros H. assert (Hx : length x = n) by (destruct H as (y & _ & Hx & _); exact Hx). split; [exact Hx|].
        apply (sol_aug n A b x HL HF). apply HS. apply (read_iff n don rest ps I Hlt x Hx). exact H.
    + intros x y y'. apply (read_unique n don rest ps I Hlt).
  - assert (EF : filter (fun p : nat => p <? n)%nat (l ++ [n]) = l).
    { rewrite filter_app. cbn [filter]. rewrite Nat.ltb_irrefl, app_nil_r. apply filter_all. intros x Hx. apply Nat.ltb_lt, Hlt, Hx. }
    rewrite EF.
    assert (Ld : length don = S (length l)) by (rewrite (inv_len _ _ _ _ _ I), app_length; cbn; lia).
    assert (Hk : (length l < length (l ++ [n]))%nat) by (rewrite app_length; cbn; lia).
    assert (En : nth (length l) (l ++ [n]) 0%nat = n) by (rewrite app_nth2 by lia; rewrite Nat.sub_diag; reflexivity).
    pose proof (inv_one _ _ _ _ _ I (length l) Hk) as HO. rewrite En in HO.
    assert (HZ : forall j, (j < n)%nat -> vget (nth (length l) don []) j = 0).
    { intros j Hj. apply (inv_lead _ _ _ _ _ I (length l) j Hk). rewrite En. exact Hj. }
    assert (Hin : In (nth (length l) don []) (skipn (length l) (don ++ rest))).
    { replace (nth (length l) don []) with (nth 0 (skipn (length l) (don ++ rest)) []).
      - apply nth_In. rewrite skipn_length, app_length. lia.
      - rewrite skipn_app. rewrite app_nth1 by (rewrite skipn_length; lia).
        rewrite <- (firstn_skipn (length l) don) at 2. rewrite app_nth2 by (rewrite firstn_length; lia).
        rewrite firstn_length, Nat.min_l by lia. rewrite Nat.sub_diag. reflexivity. }
    assert (T : forallb (fun row => vget row n =? 0) (skipn (length l) (don ++ rest)) = false).
    { apply not_true_iff_false. intro H. rewrite forallb_forall in H. specialize (H _ Hin). apply feqb_eq in H. rewrite HO in H.
      apply (fneq10 K H). }
    rewrite T. split; [reflexivity|]. intros x [Hx H]. apply (sol_aug n A b x HL HF) in H. apply HS in H.
    apply sol_app in H. destruct H as [H _]. unfold sol in H. rewrite Forall_forall in H.
    assert (Hin2 : In (nth (length l) don []) don) by (apply nth_In; lia). specialize (H _ Hin2). rewrite hom_split, HO in H.
    assert (D : dotv n (nth (length l) don []) x = 0) by (apply bsum_all0; intros j Hj; rewrite HZ by exact Hj; ring).
    rewrite D in H. apply (fneq10 K). transitivity (- (0 - 1 : K)); [ring|rewrite H; ring].
Qed.
End Proofs.
