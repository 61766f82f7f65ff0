(** * Helpers of the structural solver (triples/core/structsos/utils.py) *)
From Coq Require Import Bool List Arith Lia Ring Field.
From Verif Require Import OrdField Base.
Import ListNotations.

(** ** quadratic_weighting *)
Section Weighting.
Context {K : OrdField}.
Local Open Scope of_scope.

(** [quadratic_weighting(c1, c2, c3, formal=True)]
    (triples/core/structsos/utils.py:163-219).  [radsimp] only rewrites a
    number without changing its value and is omitted. *)
Definition quadratic_weighting (c1 c2 c3 : K) : option (list (K * (K * K))) :=
  if (((1+1+1+1) * c1 * c3 <? c2 * c2) || (c1 <? 0) || (c3 <? 0))%bool then None
  else if c1 =? 0 then Some [(c3, (0, 1))]
  else if c3 =? 0 then Some [(c1, (1, 0))]
  else
    let ratio := c2 / c1 / (1 + 1) in
    Some [(c1, (1, ratio)); (c3 - ratio * ratio * c1, (0, 1))].

(** The non-formal result (utils.py:219): [sum(wi * mapping(xi))], with the
    values of [mapping] given by an arbitrary function. *)
Definition weighting_sum (mapping : K -> K -> K) (r : list (K * (K * K))) : K :=
  fsum (map (fun w => fst w * mapping (fst (snd w)) (snd (snd w))) r).

End Weighting.

(** ** zip_longest *)
Section ZipLongest.
Context {A : Type}.

(** One generator: [stops[i]], the items not consumed yet, [lasts[i]]. *)
Definition zstate : Type := bool * list A * option A.

(** The [for] loop of one round (triples/core/structsos/utils.py:231-240); [None] = [return]. *)
Fixpoint zip_round (done todo : list zstate) : option (list zstate) :=
  match todo with
  | [] => Some done
  | (stop, rest, last) :: todo' =>
      if stop then zip_round (done ++ [(stop, rest, last)]) todo'
      else match rest with
           | x :: rest' => zip_round (done ++ [(false, rest', Some x)]) todo'
           | [] =>
               if forallb (fun s => fst (fst s)) (done ++ (true, [], last) :: todo') then None
               else zip_round (done ++ [(true, [], last)]) todo'
           end
  end.

(** The [while True] loop (utils.py:230-240), at most [fuel] rounds; [None] = out of fuel. *)
Fixpoint zip_loop (fuel : nat) (st : list zstate) : option (list (list (option A))) :=
  match fuel with
  | O => None
  | S fuel' =>
      match zip_round [] st with
      | None => Some []
      | Some st' =>
          match zip_loop fuel' st' with
          | None => None
          | Some out => Some (map snd st' :: out)
          end
      end
  end.

(** [list(zip_longest(args...))] (triples/core/structsos/utils.py:222-240).
    [lasts] starts with [None], so items are modelled as [option]. *)
Definition zip_longest (fuel : nat) (args : list (list A)) : option (list (list (option A))) :=
  match args with
  | [] => Some []
  | _ => zip_loop fuel (map (fun a => (false, a, None)) args)
  end.

(** Specification: item [t] of list [a] padded with its last element. *)
Definition pad (a : list A) (t : nat) : option A := nth_error a (Nat.min t (length a - 1)).
Definition max_len (args : list (list A)) : nat := fold_right (fun a m => Nat.max (length a) m) 0 args.
Definition zip_spec (args : list (list A)) : list (list (option A)) :=
  map (fun t => map (fun a => pad a t) args) (seq 0 (max_len args)).
End ZipLongest.

Section WeightingProofs.
Variable K : OrdField.
Local Open Scope of_scope.
Add Field Kf : (F_field K).

Lemma quadratic_weighting_guard (c1 c2 c3 : K) r :
  quadratic_weighting c1 c2 c3 = Some r ->
  c2 * c2 <= (1+1+1+1) * c1 * c3 /\ 0 <= c1 /\ 0 <= c3.
Proof.
  unfold quadratic_weighting.
  destruct ((1+1+1+1) * c1 * c3 <? c2 * c2) eqn:E1; [discriminate|].
  destruct (c1 <? 0) eqn:E2; [discriminate|]. destruct (c3 <? 0) eqn:E3; [discriminate|].
  intros _. apply fltb_ge in E1. apply fltb_ge in E2. apply fltb_ge in E3. auto.
Qed.

Lemma quadratic_weighting_value (c1 c2 c3 a b : K) r :
  quadratic_weighting c1 c2 c3 = Some r ->
  weighting_sum (fun x y => (x * a + y * b) * (x * a + y * b)) r
  = c1 * (a * a) + c2 * (a * b) + c3 * (b * b).
Proof.
  intro H. destruct (quadratic_weighting_guard _ _ _ _ H) as [H1 [H2 H3]].
  unfold quadratic_weighting in H.
  destruct (_ || _)%bool; [discriminate|].
  destruct (c1 =? 0) eqn:E1.
  - apply feqb_eq in E1. inversion H; subst r c1. unfold weighting_sum. cbn.
    assert (c2 = 0) as ->.
    { apply fsqr_eq0. apply fle_antisym; [|apply fsqr_nonneg].
      replace ((1 + 1 + 1 + 1) * 0 * c3) with (0:K) in H1 by ring. exact H1. }
    ring.
  - apply feqb_neq in E1. destruct (c3 =? 0) eqn:E3.
    + apply feqb_eq in E3. inversion H; subst r c3. unfold weighting_sum. cbn.
      assert (c2 = 0) as ->.
      { apply fsqr_eq0. apply fle_antisym; [|apply fsqr_nonneg].
        replace ((1 + 1 + 1 + 1) * c1 * 0) with (0:K) in H1 by ring. exact H1. }
      ring.
    + inversion H; subst r. unfold weighting_sum. cbn. field. fnz.
Qed.

Lemma quadratic_weighting_weights (c1 c2 c3 : K) r :
  quadratic_weighting c1 c2 c3 = Some r -> forall w xy, In (w, xy) r -> 0 <= w.
Proof.
  intro H. destruct (quadratic_weighting_guard _ _ _ _ H) as [H1 [H2 H3]].
  unfold quadratic_weighting in H.
  destruct (_ || _)%bool; [discriminate|].
  destruct (c1 =? 0) eqn:E1; [inversion H; subst r; intros w xy [E|[]]; inversion E; subst; exact H3|].
  apply feqb_neq in E1. destruct (c3 =? 0) eqn:E3;
    [inversion H; subst r; intros w xy [E|[]]; inversion E; subst; exact H2|].
  inversion H; subst r. intros w xy [E|[E|[]]]; inversion E; subst; [exact H2|].
  assert (Hc1 : 0 < c1) by (apply flt_le_neq; split; [exact H2|congruence]).
  replace (c3 - c2 / c1 / (1 + 1) * (c2 / c1 / (1 + 1)) * c1)
    with (((1+1+1+1) * c1 * c3 - c2 * c2) / ((1+1+1+1) * c1)).
  - apply fdiv_nonneg; [apply (proj1 (fle_sub _ _)); exact H1|]. fpos.
  - field. fnz.
Qed.

Lemma quadratic_weighting_none (c1 c2 c3 : K) :
  quadratic_weighting c1 c2 c3 = None <->
  exists a b, c1 * (a * a) + c2 * (a * b) + c3 * (b * b) < 0.
Proof.
  split.
  - unfold quadratic_weighting. intro H.
    destruct (c1 <? 0) eqn:E2.
    { apply fltb_lt in E2. exists 1, 0. match goal with |- ?e < 0 => replace e with c1 by ring end. exact E2. }
    destruct (c3 <? 0) eqn:E3.
    { apply fltb_lt in E3. exists 0, 1. match goal with |- ?e < 0 => replace e with c3 by ring end. exact E3. }
    apply fltb_ge in E2. apply fltb_ge in E3.
    destruct ((1+1+1+1) * c1 * c3 <? c2 * c2) eqn:E1.
    2:{ cbn in H. destruct (c1 =? 0); [discriminate|]. destruct (c3 =? 0); discriminate. }
    apply fltb_lt in E1. apply flt_sub in E1.
    destruct (feq_dec _ c1 0) as [->|Hc1].
    + assert (Hc2 : c2 <> 0).
      { intros ->. replace (0 * 0 - (1 + 1 + 1 + 1) * 0 * c3) with (0:K) in E1 by ring.
        apply flt_irrefl in E1. exact E1. }
      exists (- (c3 + 1) / c2), 1.
      match goal with |- ?e < 0 => replace e with (- (1) : K) by (field; exact Hc2) end.
      apply flt_sub. replace (0 - - (1)) with (1:K) by ring. apply f1_pos.
    + assert (Hp : 0 < c1) by (apply flt_le_neq; split; [exact E2|congruence]).
      exists (- c2), ((1+1) * c1).
      match goal with |- ?e < 0 => replace e with (- (c1 * (c2 * c2 - (1 + 1 + 1 + 1) * c1 * c3))) by ring end.
      apply flt_sub. match goal with |- 0 < ?e => replace e with (c1 * (c2 * c2 - (1 + 1 + 1 + 1) * c1 * c3)) by ring end.
      apply fmul_pos; assumption.
  - intros [a [b H]]. destruct (quadratic_weighting c1 c2 c3) as [r|] eqn:E; [exfalso|reflexivity].
    apply flt_not_le in H. apply H. rewrite <- (quadratic_weighting_value _ _ _ a b r E).
    apply fsum_nonneg. intros x Hx. apply in_map_iff in Hx. destruct Hx as [[w [x1 x2]] [<- Hin]].
    cbn. apply fmul_nonneg; [|apply fsqr_nonneg].
    eapply quadratic_weighting_weights; eassumption.
Qed.
End WeightingProofs.

Section ZipProofs.
Variable A : Type.
Implicit Types a : list A.

(** state of one generator after [t] rounds *)
Definition zst (t : nat) a : zstate :=
  (Nat.ltb (length a) t, skipn t a, match t with O => None | S t' => pad a t' end).

Lemma pad_over a t : length a <= S t -> pad a (S t) = pad a t.
Proof. intro H. unfold pad. f_equal. lia. Qed.

Lemma zst_stop t a : length a < t -> zst (S t) a = zst t a.
Proof.
  intro H. unfold zst. rewrite !skipn_all2 by lia.
  rewrite (proj2 (Nat.ltb_lt (length a) (S t))), (proj2 (Nat.ltb_lt (length a) t)) by lia.
  f_equal. destruct t; [lia|]. rewrite pad_over by lia. reflexivity.
Qed.

Lemma zst_item t a x r : skipn t a = x :: r -> zst (S t) a = (false, r, Some x).
Proof.
  intro H. assert (Hl : t < length a).
  { apply Nat.nle_gt. intro Hc. rewrite skipn_all2 in H by exact Hc. discriminate. }
  pose proof (firstn_skipn t a) as Ha. rewrite H in Ha.
  unfold zst. rewrite (proj2 (Nat.ltb_ge (length a) (S t))) by lia.
  f_equal; [f_equal|].
  - rewrite <- Ha at 1. rewrite skipn_app. rewrite firstn_length_le by lia.
    rewrite skipn_all2 by (rewrite firstn_length_le; lia).
    replace (S t - t) with 1 by lia. reflexivity.
  - unfold pad. replace (Nat.min t (length a - 1)) with t by lia.
    rewrite <- Ha. rewrite nth_error_app2 by (rewrite firstn_length_le; lia).
    rewrite firstn_length_le by lia. rewrite Nat.sub_diag. reflexivity.
Qed.

Lemma zst_end t a : length a = t -> zst (S t) a = (true, [], match t with O => None | S t' => pad a t' end).
Proof.
  intro H. unfold zst. rewrite skipn_all2 by lia.
  rewrite (proj2 (Nat.ltb_lt (length a) (S t))) by lia.
  f_equal. destruct t; [destruct a; [reflexivity|discriminate]|]. apply pad_over. lia.
Qed.

Lemma zst_stop_flag t a : fst (fst (zst t a)) = Nat.ltb (length a) t.
Proof. reflexivity. Qed.

Lemma forallb_false_exists {B} (f : B -> bool) l x : In x l -> f x = false -> forallb f l = false.
Proof.
  intros Hin Hf. destruct (forallb f l) eqn:E; [|reflexivity].
  rewrite forallb_forall in E. rewrite E in Hf by exact Hin. discriminate.
Qed.

Lemma map_snoc {B C} (f : B -> C) l x : map f l ++ [f x] = map f (l ++ [x]).
Proof. rewrite map_app. reflexivity. Qed.

Lemma all_flags_false t D last T w :
  In w (D ++ T) -> t < length w ->
  forallb (fun s : zstate => fst (fst s)) (map (zst (S t)) D ++ (true, [], last) :: map (zst t) T) = false.
Proof.
  intros Hw Hl. apply in_app_or in Hw. destruct Hw as [Hw|Hw].
  - apply forallb_false_exists with (x := zst (S t) w).
    + apply in_or_app. left. apply in_map. exact Hw.
    + rewrite zst_stop_flag. apply Nat.ltb_ge. lia.
  - apply forallb_false_exists with (x := zst t w).
    + apply in_or_app. right. right. apply in_map. exact Hw.
    + rewrite zst_stop_flag. apply Nat.ltb_ge. lia.
Qed.

Lemma zip_round_some t D T :
  (exists a, In a (D ++ T) /\ t < length a) ->
  zip_round (map (zst (S t)) D) (map (zst t) T) = Some (map (zst (S t)) (D ++ T)).
Proof.
  revert D. induction T as [|a T IH]; intros D [w [Hw Hl]].
  - cbn. rewrite app_nil_r. reflexivity.
  - cbn [map]. replace (D ++ a :: T) with ((D ++ [a]) ++ T) by (rewrite <- app_assoc; reflexivity).
    assert (Hw' : exists a0, In a0 ((D ++ [a]) ++ T) /\ t < length a0)
      by (exists w; split; [rewrite <- app_assoc; exact Hw|exact Hl]).
    specialize (IH (D ++ [a]) Hw'). rewrite <- map_snoc in IH.
    unfold zst at 2. cbn [zip_round].
    destruct (Nat.ltb (length a) t) eqn:Hlt.
    + rewrite (zst_stop t a) in IH by (apply Nat.ltb_lt; exact Hlt).
      unfold zst at 2 in IH. rewrite Hlt in IH. exact IH.
    + apply Nat.ltb_ge in Hlt. destruct (skipn t a) as [|x r] eqn:Es.
      * assert (Hlen : length a = t).
        { apply (f_equal (@length A)) in Es. rewrite skipn_length in Es. cbn in Es. lia. }
        rewrite (zst_end t a Hlen) in IH.
        rewrite (all_flags_false t D _ T w); [exact IH| |exact Hl].
        apply in_app_or in Hw. apply in_or_app. destruct Hw as [Hw|[<-|Hw]]; [tauto|lia|tauto].
      * rewrite (zst_item t a x r Es) in IH. exact IH.
Qed.

Lemma zip_round_none t D T :
  (forall a, In a (D ++ T) -> length a <= t) ->
  (exists a, In a T /\ length a = t) ->
  zip_round (map (zst (S t)) D) (map (zst t) T) = None.
Proof.
  revert D. induction T as [|a T IH]; intros D Hall [w [Hw Hl]]; [destruct Hw|].
  cbn [map]. unfold zst at 2. cbn [zip_round].
  assert (Hall' : forall a0, In a0 ((D ++ [a]) ++ T) -> length a0 <= t)
    by (intros a0 H; apply Hall; rewrite <- app_assoc in H; exact H).
  specialize (IH (D ++ [a]) Hall'). rewrite <- map_snoc in IH.
  destruct (Nat.ltb (length a) t) eqn:Hlt.
  - rewrite (zst_stop t a) in IH by (apply Nat.ltb_lt; exact Hlt).
    unfold zst at 2 in IH. rewrite Hlt in IH. apply IH.
    destruct Hw as [->|Hw]; [apply Nat.ltb_lt in Hlt; lia|]. exists w; auto.
  - apply Nat.ltb_ge in Hlt.
    assert (Hlen : length a = t).
    { assert (length a <= t) by (apply Hall; apply in_or_app; right; left; reflexivity). lia. }
    rewrite skipn_all2 by lia.
    match goal with |- (if ?b then _ else _) = _ => destruct b eqn:Eb end; [reflexivity|].
    rewrite (zst_end t a Hlen) in IH. apply IH.
    destruct (existsb (fun a => Nat.eqb (length a) t) T) eqn:Ex.
    + apply existsb_exists in Ex. destruct Ex as [v [Hv Ev]]. apply Nat.eqb_eq in Ev. exists v; auto.
    + exfalso. apply Bool.not_true_iff_false in Eb. apply Eb. apply forallb_forall.
      intros s Hs. apply in_app_or in Hs. destruct Hs as [Hs|[<-|Hs]].
      * apply in_map_iff in Hs. destruct Hs as [v [<- Hv]].
        rewrite zst_stop_flag. apply Nat.ltb_lt. assert (length v <= t) by (apply Hall, in_or_app; auto). lia.
      * reflexivity.
      * apply in_map_iff in Hs. destruct Hs as [v [<- Hv]].
        rewrite zst_stop_flag. apply Nat.ltb_lt.
        assert (length v <= t) by (apply Hall, in_or_app; right; right; exact Hv).
        assert (length v <> t).
        { intro E. assert (existsb (fun a => Nat.eqb (length a) t) T = true); [|congruence].
          apply existsb_exists. exists v. split; [exact Hv|]. apply Nat.eqb_eq; exact E. }
        lia.
Qed.

Lemma max_len_cons (a : list A) l : max_len (a :: l) = Nat.max (length a) (max_len l).
Proof. reflexivity. Qed.
Lemma max_len_ge (args : list (list A)) a : In a args -> length a <= max_len args.
Proof.
  induction args as [|b l IH]; [intros []|]. rewrite max_len_cons.
  intros [->|H]; [lia|]. apply IH in H. lia.
Qed.
Lemma max_len_in (args : list (list A)) : args <> [] -> exists a, In a args /\ length a = max_len args.
Proof.
  induction args as [|a l IH]; [congruence|]. intros _. rewrite max_len_cons.
  destruct l as [|b l]; [exists a; cbn; split; [auto|lia]|].
  destruct IH as [w [Hw Ew]]; [discriminate|].
  destruct (Nat.le_ge_cases (max_len (b :: l)) (length a)).
  - exists a. split; [left; reflexivity|]. lia.
  - exists w. split; [right; exact Hw|]. lia.
Qed.

Lemma zip_loop_run args : args <> [] ->
  forall k t fuel, t + k = max_len args -> k < fuel ->
  zip_loop fuel (map (zst t) args)
  = Some (map (fun s => map (fun a => pad a s) args) (seq t k)).
Proof.
  intros Hne. destruct (max_len_in args Hne) as [w [Hw Ew]].
  induction k as [|k IH]; intros t fuel Ht Hf; (destruct fuel as [|fuel]; [lia|]); cbn [zip_loop].
  - change (@nil (@zstate A)) with (map (zst (S t)) []).
    rewrite zip_round_none; [reflexivity| |].
    + intros a Ha. cbn [app] in Ha. apply max_len_ge in Ha. lia.
    + exists w. split; [exact Hw|lia].
  - change (@nil (@zstate A)) with (map (zst (S t)) []).
    rewrite zip_round_some by (exists w; split; [exact Hw|lia]). cbn [app].
    rewrite IH by lia. cbn [seq map]. rewrite map_map. reflexivity.
Qed.

Lemma zip_longest_spec (args : list (list A)) fuel :
  max_len args < fuel -> zip_longest fuel args = Some (zip_spec args).
Proof.
  intro H. unfold zip_longest, zip_spec. destruct args as [|a l]; [reflexivity|].
  replace (map (fun a0 : list A => (false, a0, None)) (a :: l)) with (map (zst 0) (a :: l)).
  - apply zip_loop_run; [discriminate|reflexivity|exact H].
  - apply map_ext. intro b. unfold zst. reflexivity.
Qed.
End ZipProofs.
