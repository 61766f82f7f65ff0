(** * Cached powers of algebraic roots: triples/utils/roots/roots.py:191-318, 605-651

    The numbers of the algebraic field, and of sympy if there is no common field, are elements of an
    ordered field with exact arithmetic. *)
From Coq Require Import Bool List Arith Lia Ring Field.
From Verif Require Import OrdField Base Perm Poly RootUv RootUvFacts.
Import ListNotations.

Section Model.
Variable K : OrdField.
Local Open Scope of_scope.

(** roots.py:218, [_power_cache]: the key is the position, [None] for -1, and the exponent. *)
Definition pkey : Type := (option nat * nat)%type.
Definition pcache : Type := list (pkey * K).
Definition pkey_eqb (x y : pkey) : bool :=
  match x, y with
  | (None, d), (None, e) => Nat.eqb d e
  | (Some i, d), (Some j, e) => Nat.eqb i j && Nat.eqb d e
  | _, _ => false
  end.
(** [dict.get], roots.py:240. *)
Fixpoint pc_get (st : pcache) (k : pkey) : option K :=
  match st with
  | [] => None
  | (k', v) :: st' => if pkey_eqb k k' then Some v else pc_get st' k
  end.

(** The coordinates [root_anp], the inverse [_inv_sum] of their sum, and whether there is a field [K]
    (roots.py:191-217). Simplification: [_inv_sum] is a number, so the sum is not zero. *)
Variable root : list K.
Variable inv_sum : K.
Variable has_field : bool.

(** roots.py:236-247, [_single_power]; [self._power_cache[i]] raises KeyError for other positions. *)
Definition single_power (st : pcache) (i : option nat) (d : nat) : res K * pcache :=
  if match i with Some n => negb (Nat.ltb n (length root)) | None => false end then (Err KeyError, st) else
  match pc_get st (i, d) with
  | Some k => (Ok k, st)
  | None => let k := match i with Some n => nth n root 0 ^ d | None => inv_sum ^ d end in
            (Ok k, ((i, d), k) :: st)
  end.

(** roots.py:249-250, the list of powers in [_single_power_monomial]. *)
Fixpoint power_list (st : pcache) (i : nat) (m : list nat) : res (list K) * pcache :=
  match m with
  | [] => (Ok [], st)
  | d :: m' => match single_power st (Some i) d with
    | (Err e, st1) => (Err e, st1)
    | (Ok k, st1) => match power_list st1 (S i) m' with
      | (Err e, st2) => (Err e, st2)
      | (Ok l, st2) => (Ok (k :: l), st2)
      end
    end
  end.
(** roots.py:249-250, [_single_power_monomial]. *)
Definition single_power_monomial (st : pcache) (m : list nat) : res K * pcache :=
  match power_list st 0 m with
  | (Err e, st1) => (Err e, st1)
  | (Ok l, st1) => (Ok (fprod l), st1)
  end.

(** roots.py:287-290, the loop of [_subs_poly] with the sum so far. *)
Fixpoint subs_loop (st : pcache) (s : K) (p : poly K) : res K * pcache :=
  match p with
  | [] => (Ok s, st)
  | (m, c) :: p' => match single_power_monomial st m with
    | (Err e, st1) => (Err e, st1)
    | (Ok k, st1) => subs_loop st1 (s + k * c) p'
    end
  end.
(** roots.py:292-318, [subs] of a polynomial: without a field [self.K.to_sympy] raises AttributeError.
    Simplification: the fallback of roots.py:309-310 is not modelled; the exception is returned. *)
Definition subs_poly (st : pcache) (p : poly K) (to_sympy : bool) : res K * pcache :=
  match subs_loop st 0 p with
  | (Err e, st1) => (Err e, st1)
  | (Ok s, st1) => (if to_sympy && negb has_field then Err OtherError else Ok s, st1)
  end.

(** roots.py:628, one product of three powers. *)
Definition three_powers (st : pcache) (d0 d1 d2 : nat) : res K * pcache :=
  match single_power st (Some 0%nat) d0 with
  | (Err e, st1) => (Err e, st1)
  | (Ok x, st1) => match single_power st1 (Some 1%nat) d1 with
    | (Err e, st2) => (Err e, st2)
    | (Ok y, st2) => match single_power st2 (Some 2%nat) d2 with
      | (Err e, st3) => (Err e, st3)
      | (Ok z, st3) => (Ok (x * y * z), st3)
      end
    end
  end.
(** roots.py:627-628, the loop over the rotations. *)
Fixpoint rotations_loop (st : pcache) (s : K) (l : list (nat * nat * nat)) : res K * pcache :=
  match l with
  | [] => (Ok s, st)
  | (d0, d1, d2) :: l' => match three_powers st d0 d1 d2 with
    | (Err e, st1) => (Err e, st1)
    | (Ok x, st1) => rotations_loop st1 (x + s) l'
    end
  end.
(** roots.py:618-632, [RootAlgebraicTernary.cyclic_sum]. *)
Definition cyclic_sum_alg (st : pcache) (i j k : nat) : res K * pcache :=
  match rotations_loop st 0 [(i, j, k); (j, k, i); (k, i, j)] with
  | (Err e, st1) => (Err e, st1)
  | (Ok s, st1) => match single_power st1 None (i + j + k) with
    | (Err e, st2) => (Err e, st2)
    | (Ok x, st2) => (Ok (s * x), st2)
    end
  end.

(** Calls of one object, in any order. *)
Inductive call : Type :=
| CPower (i : option nat) (d : nat)
| CMonomial (m : list nat)
| CSubs (p : poly K) (to_sympy : bool)
| CCyclic (i j k : nat).
(** One call: roots.py:236, 249, 292, 618. *)
Definition do_call (st : pcache) (c : call) : res K * pcache :=
  match c with
  | CPower i d => single_power st i d
  | CMonomial m => single_power_monomial st m
  | CSubs p b => subs_poly st p b
  | CCyclic i j k => cyclic_sum_alg st i j k
  end.
(** The results of a sequence of calls; the cache survives exceptions. *)
Fixpoint do_calls (st : pcache) (l : list call) : list (res K) :=
  match l with [] => [] | c :: l' => fst (do_call st c) :: do_calls (snd (do_call st c)) l' end.
End Model.
Arguments single_power {K}. Arguments cyclic_sum_alg {K}. Arguments do_call {K}. Arguments do_calls {K}.
Arguments subs_poly {K}. Arguments CPower {K}. Arguments CMonomial {K}. Arguments CSubs {K}. Arguments CCyclic {K}.

(** roots.py:643-651, [RootRationalTernary.cyclic_sum]. *)
Definition cyclic_sum_rat {K : OrdField} (a b c : K) (i j k : nat) : K :=
  ((a ^ i * b ^ j * c ^ k + a ^ k * b ^ i * c ^ j + a ^ j * b ^ k * c ^ i) / (a + b + c) ^ (i + j + k))%F.

(** ** Specification: the result of each call without any cache *)
Section Spec.
Variable K : OrdField.
Local Open Scope of_scope.
Variable root : list K.
Variable inv_sum : K.
Variable has_field : bool.
Definition coord (i : nat) : K := nth i root 0.
Definition call_spec (c : call K) : res K :=
  match c with
  | CPower (Some i) d => if Nat.ltb i (length root) then Ok (coord i ^ d) else Err KeyError
  | CPower None d => Ok (inv_sum ^ d)
  | CMonomial m => if Nat.leb (length m) (length root) then Ok (meval coord m) else Err KeyError
  | CSubs p b => if forallb (fun t => Nat.leb (length (fst t)) (length root)) p
                 then (if b && negb has_field then Err OtherError else Ok (peval coord p)) else Err KeyError
  | CCyclic i j k =>
      if Nat.leb 3 (length root) then
        Ok (let a := coord 0 in let b := coord 1 in let c := coord 2 in
            (a ^ i * b ^ j * c ^ k + b ^ i * c ^ j * a ^ k + c ^ i * a ^ j * b ^ k) * inv_sum ^ (i + j + k))
      else Err KeyError
  end.
End Spec.
Arguments coord {K}. Arguments call_spec {K}.

Section Facts.
Variable K : OrdField.
Local Open Scope of_scope.
Add Field Kf : (F_field K).
Variable root : list K.
Variable inv_sum : K.
Variable has_field : bool.
Implicit Types st : pcache K.

Lemma pkey_eqb_eq x y : pkey_eqb x y = true -> x = y.
Proof.
  destruct x as [[i|] d], y as [[j|] e]; cbn; try discriminate.
  - intro H. apply andb_true_iff in H. destruct H as [H1 H2]. apply Nat.eqb_eq in H1, H2. subst. reflexivity.
  - intro H. apply Nat.eqb_eq in H. subst. reflexivity.
Qed.

Definition base (i : option nat) : K := match i with Some n => nth n root 0 | None => inv_sum end.
(** Invariant: every stored value is the power it stands for. *)
Definition cache_ok st : Prop := forall i d v, pc_get K st (i, d) = Some v -> v = base i ^ d.

Lemma cache_ok_nil : cache_ok []. Proof. intros i d v H. discriminate. Qed.

Notation sp := (single_power root inv_sum).
Definition in_range (i : option nat) : bool := match i with Some n => Nat.ltb n (length root) | None => true end.

Lemma single_power_ok st i d : cache_ok st ->
  cache_ok (snd (sp st i d)) /\ fst (sp st i d) = if in_range i then Ok (base i ^ d) else Err KeyError.
Proof.
  intro H. unfold single_power.
  assert (E : (match i with Some n => negb (Nat.ltb n (length root)) | None => false end) = negb (in_range i)) by (destruct i; reflexivity).
  rewrite E. destruct (in_range i); cbn [negb]; [|split; [exact H|reflexivity]].
  destruct (pc_get K st (i, d)) as [v|] eqn:G; cbn [fst snd].
  - split; [exact H|]. rewrite (H i d v G). reflexivity.
  - split; [|destruct i; reflexivity]. intros i' d' v'. cbn [pc_get].
    destruct (pkey_eqb (i', d') (i, d)) eqn:Q; [|apply H]. apply pkey_eqb_eq in Q. injection Q as -> ->.
    intro X. injection X as <-. destruct i; reflexivity.
Qed.

Lemma power_list_ok m : forall st i, cache_ok st ->
  cache_ok (snd (power_list K root inv_sum st i m)) /\
  fst (power_list K root inv_sum st i m) =
    if Nat.leb (i + length m) (length root) || Nat.eqb (length m) 0
    then Ok (map (fun j => coord root (i + j) ^ nth j m 0%nat) (seq 0 (length m))) else Err KeyError.
Proof.
  induction m as [|d m IH]; intros st i H; cbn [power_list length seq map].
  - rewrite orb_true_r. split; [exact H|reflexivity].
  - destruct (single_power_ok st (Some i) d H) as [H1 E1]. destruct (sp st (Some i) d) as [r st1]. cbn [fst snd] in H1, E1.
    cbn [in_range base] in E1. cbn [Nat.eqb]. rewrite orb_false_r. destruct (Nat.ltb_spec i (length root)) as [L|L]; subst r.
    + destruct (IH st1 (S i) H1) as [H2 E2]. destruct (power_list K root inv_sum st1 (S i) m) as [r2 st2]. cbn [fst snd] in H2, E2.
      replace (i + S (length m))%nat with (S i + length m)%nat by lia.
      destruct (Nat.leb (S i + length m) (length root)) eqn:L2; cbn [orb] in E2.
      * subst r2. split; [exact H2|]. cbn [fst]. f_equal. f_equal; [unfold coord; rewrite Nat.add_0_r; reflexivity|].
        rewrite <- seq_shift, map_map. apply map_ext. intro j. cbn [nth]. replace (S i + j)%nat with (i + S j)%nat by lia. reflexivity.
      * destruct (Nat.eqb_spec (length m) 0) as [L0|L0]; subst r2.
        -- exfalso. apply Nat.leb_gt in L2. lia.
        -- split; [exact H2|reflexivity].
    + split; [exact H1|]. destruct (Nat.leb_spec (i + S (length m)) (length root)); [lia|reflexivity].
Qed.

Lemma monomial_ok st m : cache_ok st ->
  cache_ok (snd (single_power_monomial K root inv_sum st m)) /\
  fst (single_power_monomial K root inv_sum st m) =
    if Nat.leb (length m) (length root) then Ok (meval (coord root) m) else Err KeyError.
Proof.
  intro H. unfold single_power_monomial. destruct (power_list_ok m st 0 H) as [H1 E1].
  destruct (power_list K root inv_sum st 0 m) as [r st1]. cbn [fst snd Nat.add] in *.
  destruct (Nat.leb_spec (length m) (length root)) as [L|L]; cbn [orb] in E1.
  - subst r. split; [exact H1|reflexivity].
  - destruct (Nat.eqb_spec (length m) 0); [lia|]. subst r. split; [exact H1|reflexivity].
Qed.

Lemma subs_loop_ok p : forall st s, cache_ok st ->
  cache_ok (snd (subs_loop K root inv_sum st s p)) /\
  fst (subs_loop K root inv_sum st s p) =
    if forallb (fun t => Nat.leb (length (fst t)) (length root)) p then Ok (s + peval (coord root) p) else Err KeyError.
Proof.
  induction p as [|[m c] p IH]; intros st s H; cbn [subs_loop forallb fst].
  - split; [exact H|]. unfold peval. cbn. f_equal. ring.
  - destruct (monomial_ok st m H) as [H1 E1]. destruct (single_power_monomial K root inv_sum st m) as [r st1]. cbn [fst snd] in *.
    destruct (Nat.leb (length m) (length root)); subst r; cbn [andb]; [|split; [exact H1|reflexivity]].
    destruct (IH st1 (s + meval (coord root) m * c) H1) as [H2 E2]. split; [exact H2|]. rewrite E2.
    destruct (forallb _ p); [|reflexivity]. f_equal. unfold peval. cbn [map fsum fst snd]. ring.
Qed.

Lemma three_powers_ok st d0 d1 d2 : cache_ok st ->
  cache_ok (snd (three_powers K root inv_sum st d0 d1 d2)) /\
  fst (three_powers K root inv_sum st d0 d1 d2) =
    if Nat.leb 3 (length root) then Ok (coord root 0 ^ d0 * coord root 1 ^ d1 * coord root 2 ^ d2) else Err KeyError.
Proof.
  intro H. unfold three_powers.
  destruct (single_power_ok st (Some 0%nat) d0 H) as [H1 E1]. destruct (sp st (Some 0%nat) d0) as [r1 st1]. cbn [fst snd in_range] in *.
  destruct (Nat.leb_spec 3 (length root)) as [L|L].
  - destruct (Nat.ltb_spec 0 (length root)) as [L1|L1]; [|lia]. subst r1.
    destruct (single_power_ok st1 (Some 1%nat) d1 H1) as [H2 E2]. destruct (sp st1 (Some 1%nat) d1) as [r2 st2]. cbn [fst snd in_range] in *.
    destruct (Nat.ltb_spec 1 (length root)) as [L2|L2]; [|lia]. subst r2.
    destruct (single_power_ok st2 (Some 2%nat) d2 H2) as [H3 E3]. destruct (sp st2 (Some 2%nat) d2) as [r3 st3]. cbn [fst snd in_range] in *.
    destruct (Nat.ltb_spec 2 (length root)) as [L3|L3]; [|lia]. subst r3. split; [exact H3|reflexivity].
  - destruct (Nat.ltb_spec 0 (length root)) as [L1|L1]; subst r1; [|split; [exact H1|reflexivity]].
    destruct (single_power_ok st1 (Some 1%nat) d1 H1) as [H2 E2]. destruct (sp st1 (Some 1%nat) d1) as [r2 st2]. cbn [fst snd in_range] in *.
    destruct (Nat.ltb_spec 1 (length root)) as [L2|L2]; subst r2; [|split; [exact H2|reflexivity]].
    destruct (single_power_ok st2 (Some 2%nat) d2 H2) as [H3 E3]. destruct (sp st2 (Some 2%nat) d2) as [r3 st3]. cbn [fst snd in_range] in *.
    destruct (Nat.ltb_spec 2 (length root)) as [L3|L3]; [lia|]. subst r3. split; [exact H3|reflexivity].
Qed.

Lemma cyclic_alg_ok st i j k : cache_ok st ->
  cache_ok (snd (cyclic_sum_alg root inv_sum st i j k)) /\
  fst (cyclic_sum_alg root inv_sum st i j k) = call_spec root inv_sum has_field (CCyclic i j k).
Proof.
  intro H. unfold cyclic_sum_alg, call_spec. cbn [rotations_loop].
  destruct (three_powers_ok st i j k H) as [H1 E1]. destruct (three_powers K root inv_sum st i j k) as [r1 st1]. cbn [fst snd] in *.
  destruct (Nat.leb 3 (length root)) eqn:L; subst r1; [|split; [exact H1|reflexivity]].
  destruct (three_powers_ok st1 j k i H1) as [H2 E2]. rewrite L in E2. destruct (three_powers K root inv_sum st1 j k i) as [r2 st2]. cbn [fst snd] in *. subst r2.
  destruct (three_powers_ok st2 k i j H2) as [H3 E3]. rewrite L in E3. destruct (three_powers K root inv_sum st2 k i j) as [r3 st3]. cbn [fst snd] in *. subst r3.
  destruct (single_power_ok st3 None (i + j + k) H3) as [H4 E4]. destruct (sp st3 None (i + j + k)%nat) as [r4 st4]. cbn [fst snd in_range base] in *. subst r4.
  split; [exact H4|]. cbn [fst]. cbv zeta. f_equal. ring.
Qed.

Lemma do_call_ok st c : cache_ok st ->
  cache_ok (snd (do_call root inv_sum has_field st c)) /\ fst (do_call root inv_sum has_field st c) = call_spec root inv_sum has_field c.
Proof.
  intro H. destruct c as [i d|m|p b|i j k]; cbn [do_call].
  - destruct (single_power_ok st i d H) as [H1 E1]. split; [exact H1|]. rewrite E1. destruct i; reflexivity.
  - exact (monomial_ok st m H).
  - unfold subs_poly. destruct (subs_loop_ok p st 0 H) as [H1 E1]. destruct (subs_loop K root inv_sum st 0 p) as [r st1]. cbn [fst snd] in *.
    cbn [call_spec]. destruct (forallb _ p); subst r; (split; [exact H1|]); [|reflexivity]. cbn [fst].
    destruct (b && negb has_field); [reflexivity|]. f_equal. ring.
  - exact (cyclic_alg_ok st i j k H).
Qed.

Lemma do_calls_ok l : forall st, cache_ok st -> do_calls root inv_sum has_field st l = map (call_spec root inv_sum has_field) l.
Proof.
  induction l as [|c l IH]; intros st H; [reflexivity|]. cbn [do_calls map].
  destruct (do_call_ok st c H) as [H1 E1]. rewrite E1, (IH _ H1). reflexivity.
Qed.
End Facts.

Section Agree.
Variable K : OrdField.
Local Open Scope of_scope.
Add Field Kf : (F_field K).

Lemma fpow_inv (x : K) n : x <> 0 -> (1 / x) ^ n = 1 / x ^ n.
Proof.
  intro H. induction n as [|n IH]; cbn [fpow].
  - field. apply fneq10.
  - rewrite IH. field. split; [apply fpow_neq0; exact H|exact H].
Qed.

Lemma cyclic_sums_agree (a b c : K) hf l i j k u v : a + b + c <> 0 -> uv_of a b c = Some (u, v) ->
  cyclic_sum u v i j k = cyclic_sum_rat a b c i j k /\
  do_calls [a; b; c] (1 / (a + b + c)) hf [] (l ++ [CCyclic i j k]) =
    do_calls [a; b; c] (1 / (a + b + c)) hf [] l ++ [Ok (cyclic_sum_rat a b c i j k)].
Proof.
  intros Hp E. split.
  - rewrite (cyclic_sum_ok K a b c u v i j k Hp E). unfold csum, cyclic_sum_rat. f_equal. ring.
  - rewrite !do_calls_ok by apply cache_ok_nil. rewrite map_app. cbn [map]. f_equal. f_equal.
    unfold call_spec, coord. cbn [length Nat.leb nth]. cbv zeta. f_equal. rewrite fpow_inv by exact Hp.
    unfold cyclic_sum_rat. field. apply fpow_neq0. exact Hp.
Qed.
End Agree.
