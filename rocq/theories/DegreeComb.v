(** * Model of [_degree_combinations] (triples/core/linsos/basis.py:239-276) *)
From Coq Require Import Bool List Arith Lia ZArith FinFun.
From Coq Require Import ZifyBool ZifyNat.
Import ListNotations.

(** Python list indexing: a negative index counts from the end. *)
Definition pyidx (n : nat) (i : Z) : nat := Z.to_nat (if (i <? 0)%Z then (Z.of_nat n + i)%Z else i).
Definition pyget (l : list nat) (i : Z) : nat := nth (pyidx (length l) i) l 0.
Fixpoint set_nth (l : list nat) (i : nat) (v : nat) : list nat :=
  match l, i with
  | [], _ => []
  | _ :: l', O => v :: l'
  | x :: l', S i' => x :: set_nth l' i' v
  end.
Definition pyset (l : list nat) (i : Z) (v : nat) : list nat := set_nth l (pyidx (length l) i) v.

(** Loop state: [i], [current_degree], [current_powers], [powers]. *)
Record dstate := mkD { d_i : Z; d_deg : nat; d_pow : list nat; d_out : list (list nat) }.
Inductive dstep_result := DNext (s : dstate) | DBreak (out : list (list nat)).

(** The emission [for j in range(1 + (degree - current_degree)//d_list[i])] (basis.py:255-257). *)
Definition demit (pow : list nat) (i : Z) (count : nat) : list nat * list (list nat) :=
  (fold_left (fun p j => pyset p i j) (seq 0 count) pow,
   map (fun j => pyset pow i j) (seq 0 count)).

(** One iteration of [while True] (basis.py:251-275).  Simplification: [degree] and the entries of
    [d_list] are natural numbers. *)
Definition dstep (ds : list nat) (degree : nat) (require_equal : bool) (s : dstate) : dstep_result :=
  let n := Z.of_nat (length ds) in
  let '(mkD i cd pow out) := s in
  if (i =? n - 1)%Z then
    let '(pow1, out1) :=
      if cd <=? degree then
        if negb require_equal then
          let '(p, e) := demit pow i (1 + (degree - cd) / pyget ds i) in (p, out ++ e)
        else if (degree - cd) mod pyget ds i =? 0 then
          let p := pyset pow i ((degree - cd) / pyget ds i) in (p, out ++ [p])
        else (pow, out)
      else (pow, out) in
    let i' := (i - 1)%Z in
    DNext (mkD i' (cd + pyget ds i') (pyset pow1 i' (S (pyget pow1 i'))) out1)
  else if degree <? cd then
    let cd' := cd - pyget ds i * pyget pow i in
    let pow' := pyset pow i 0 in
    let i' := (i - 1)%Z in
    if (i' <? 0)%Z then DBreak out
    else DNext (mkD i' (cd' + pyget ds i') (pyset pow' i' (S (pyget pow' i'))) out)
  else DNext (mkD (i + 1) cd pow out).

Fixpoint drun (ds : list nat) (degree : nat) (req : bool) (fuel : nat) (s : dstate) : option (list (list nat)) :=
  match fuel with
  | O => None
  | S fuel' =>
      match dstep ds degree req s with
      | DBreak out => Some out
      | DNext s' => drun ds degree req fuel' s'
      end
  end.

(** [_degree_combinations(d_list, degree, require_equal)] (basis.py:239-276), running the loop for at
    most [fuel] iterations; [None] = not finished within the fuel. *)
Definition degree_combinations (ds : list nat) (degree : nat) (req : bool) (fuel : nat) : option (list (list nat)) :=
  match ds with
  | [] => Some []
  | _ => drun ds degree req fuel (mkD 0 0 (map (fun _ => 0) ds) [])
  end.

(** Specification: weighted degree of an exponent vector. *)
Fixpoint wdeg (t ds : list nat) : nat :=
  match t, ds with
  | x :: t', d :: ds' => x * d + wdeg t' ds'
  | _, _ => 0
  end.

(** ** Proofs *)

(** Reference enumeration *)
Fixpoint comb (req : bool) (ds : list nat) (rem : nat) : list (list nat) :=
  match ds with
  | [] => []
  | [d] =>
      if negb req then map (fun j => [j]) (seq 0 (1 + rem / d))
      else if rem mod d =? 0 then [[rem / d]] else []
  | d :: ds' => flat_map (fun k => map (cons k) (comb req ds' (rem - k * d))) (seq 0 (S (rem / d)))
  end.

Lemma comb_cons2 req d d2 ds rem :
  comb req (d :: d2 :: ds) rem
  = flat_map (fun k => map (cons k) (comb req (d2 :: ds) (rem - k * d))) (seq 0 (S (rem / d))).
Proof. reflexivity. Qed.

Lemma div_bound rem d k : 0 < d -> (k * d <= rem <-> k < S (rem / d)).
Proof.
  intro Hd. split; intro H.
  - assert (k <= rem / d); [|lia]. apply Nat.div_le_lower_bound; lia.
  - assert (d * (rem / d) <= rem) by (apply Nat.mul_div_le; lia). nia.
Qed.

Lemma comb_in req ds : ds <> [] -> (forall d, In d ds -> 0 < d) -> forall rem t,
  In t (comb req ds rem) <->
  length t = length ds /\ (if req then wdeg t ds = rem else wdeg t ds <= rem).
Proof.
  induction ds as [|d ds IH]; intros Hne Hpos rem t; [congruence|].
  assert (Hd : 0 < d) by (apply Hpos; left; reflexivity).
  destruct ds as [|d2 ds].
  - cbn [comb length]. destruct req; cbn [negb].
    + destruct (Nat.eqb_spec (rem mod d) 0) as [E|E]; split.
      * intros [<-|[]]. cbn. split; [reflexivity|]. apply Nat.div_exact in E; lia.
      * intros [Hl Hw]. destruct t as [|x [|y t]]; try discriminate. cbn in Hw.
        left. f_equal. subst rem. rewrite Nat.add_0_r, Nat.div_mul; lia.
      * intros [].
      * intros [Hl Hw]. destruct t as [|x [|y t]]; try discriminate. cbn in Hw.
        exfalso. apply E. subst rem. rewrite Nat.add_0_r. apply Nat.mod_mul. lia.
    + rewrite in_map_iff. split.
      * intros [j [<- Hj]]. apply in_seq in Hj. cbn. split; [reflexivity|].
        rewrite Nat.add_0_r. apply div_bound; lia.
      * intros [Hl Hw]. destruct t as [|x [|y t]]; try discriminate. cbn in Hw.
        exists x. split; [reflexivity|]. apply in_seq.
        rewrite Nat.add_0_r in Hw. apply div_bound in Hw; lia.
  - rewrite comb_cons2, in_flat_map.
    assert (IH' : forall rem t, In t (comb req (d2 :: ds) rem) <->
       length t = length (d2 :: ds) /\ (if req then wdeg t (d2 :: ds) = rem else wdeg t (d2 :: ds) <= rem)).
    { apply IH; [discriminate|]. intros x Hx. apply Hpos. right. exact Hx. }
    split.
    + intros [k [Hk Ht]]. apply in_map_iff in Ht. destruct Ht as [u [<- Hu]].
      apply IH' in Hu. apply in_seq in Hk.
      assert (Hk' : k * d <= rem) by (apply div_bound; lia).
      cbn [length wdeg]. destruct Hu as [Hl Hw]. cbn [length] in Hl. split; [lia|].
      destruct req; lia.
    + intros [Hl Hw]. destruct t as [|k u]; [discriminate|]. exists k.
      cbn [wdeg] in Hw. cbn [length] in Hl.
      assert (Hk' : k * d <= rem) by (destruct req; lia).
      split; [apply in_seq; apply div_bound in Hk'; lia|].
      apply in_map. apply IH'. cbn [length]. split; [lia|]. destruct req; lia.
Qed.

Lemma NoDup_flat_map_cons (f : nat -> list (list nat)) l :
  NoDup l -> (forall k, In k l -> NoDup (f k)) -> NoDup (flat_map (fun k => map (cons k) (f k)) l).
Proof.
  induction 1 as [|a l Hnin Hnd IH]; intro Hf; [constructor|]. cbn.
  assert (Happ : forall A (x y : list A), NoDup x -> NoDup y -> (forall z, In z x -> ~ In z y) -> NoDup (x ++ y)).
  { intros A x y Hx Hy. induction Hx as [|z x Hz Hx IHx]; intro Hd; [exact Hy|].
    cbn. constructor.
    - rewrite in_app_iff. intros [H|H]; [contradiction|]. apply (Hd z); [left; reflexivity|exact H].
    - apply IHx. intros w Hw. apply Hd. right. exact Hw. }
  apply Happ.
  - apply Injective_map_NoDup; [intros x y E; congruence|]. apply Hf. left. reflexivity.
  - apply IH. intros k Hk. apply Hf. right. exact Hk.
  - intros z Hz Hz'. apply in_map_iff in Hz. destruct Hz as [u [<- _]].
    apply in_flat_map in Hz'. destruct Hz' as [k [Hk Hz']]. apply in_map_iff in Hz'.
    destruct Hz' as [v [E _]]. inversion E; subst. contradiction.
Qed.

Lemma comb_NoDup req ds : forall rem, NoDup (comb req ds rem).
Proof.
  induction ds as [|d ds IH]; intro rem; [constructor|].
  destruct ds as [|d2 ds].
  - cbn [comb]. destruct req; cbn [negb].
    + destruct (_ =? 0); repeat constructor. intros [].
    + apply Injective_map_NoDup; [intros x y E; congruence|]. apply seq_NoDup.
  - rewrite comb_cons2. apply NoDup_flat_map_cons; [apply seq_NoDup|]. intros k _. apply IH.
Qed.

(** Executions *)
Section Exec.
Variable ds : list nat.
Variable degree : nat.
Variable req : bool.
Hypothesis Hpos : forall d, In d ds -> 0 < d.
Hypothesis Hn : 2 <= length ds.

Definition cont (fuel : nat) (r : dstep_result) : option (list (list nat)) :=
  match r with DBreak out => Some out | DNext s => drun ds degree req fuel s end.
Definition reaches (s : dstate) (r : dstep_result) : Prop :=
  exists m, forall fuel, drun ds degree req (m + fuel) s = cont fuel r.

Lemma reaches_step s r : dstep ds degree req s = r -> reaches s r.
Proof. intros <-. exists 1. intro fuel. cbn. destruct (dstep ds degree req s); reflexivity. Qed.
Lemma reaches_trans s s' r : reaches s (DNext s') -> reaches s' r -> reaches s r.
Proof.
  intros [m1 H1] [m2 H2]. exists (m1 + m2). intro fuel.
  rewrite <- Nat.add_assoc, H1. cbn. apply H2.
Qed.

Lemma pyidx_nat n i : pyidx n (Z.of_nat i) = i.
Proof. unfold pyidx. destruct (Z.ltb_spec (Z.of_nat i) 0); lia. Qed.
Lemma set_nth_app p x s v : set_nth (p ++ x :: s) (length p) v = p ++ v :: s.
Proof. induction p; cbn; [reflexivity|rewrite IHp; reflexivity]. Qed.
Lemma pyset_app p x s v i : i = Z.of_nat (length p) -> pyset (p ++ x :: s) i v = p ++ v :: s.
Proof. intros ->. unfold pyset. rewrite pyidx_nat. apply set_nth_app. Qed.
Lemma pyget_app p x s i : i = Z.of_nat (length p) -> pyget (p ++ x :: s) i = x.
Proof.
  intros ->. unfold pyget. rewrite pyidx_nat. rewrite app_nth2 by lia. rewrite Nat.sub_diag. reflexivity.
Qed.

Lemma demit_snd p x i count : i = Z.of_nat (length p) ->
  snd (demit (p ++ [x]) i count) = map (fun j => p ++ [j]) (seq 0 count).
Proof. intro Hi. cbn. apply map_ext. intro j. apply pyset_app. exact Hi. Qed.
Lemma demit_fst p x i count : i = Z.of_nat (length p) ->
  exists y, fst (demit (p ++ [x]) i count) = p ++ [y].
Proof.
  intro Hi. cbn. generalize (seq 0 count) as l. intro l. revert x.
  induction l as [|j l IH]; intro x; [exists x; reflexivity|]. cbn.
  rewrite pyset_app by exact Hi. apply IH.
Qed.

(** what happens when level [i] is finished *)
Definition dec (i : Z) (cd : nat) (pow : list nat) (out : list (list nat)) : dstep_result :=
  if (i - 1 <? 0)%Z then DBreak out
  else DNext (mkD (i - 1) (cd + pyget ds (i - 1)) (pyset pow (i - 1) (S (pyget pow (i - 1)))) out).

(** last level *)
Lemma last_level pre d p x cd out :
  ds = pre ++ [d] -> length p = length pre -> cd <= degree ->
  exists y, reaches (mkD (Z.of_nat (length pre)) cd (p ++ [x]) out)
    (dec (Z.of_nat (length pre)) cd (p ++ [y]) (out ++ map (app p) (comb req [d] (degree - cd)))).
Proof.
  intros Hds Hp Hcd.
  assert (Hlen : length ds = S (length pre)) by (rewrite Hds, app_length; cbn; lia).
  assert (Hd : pyget ds (Z.of_nat (length pre)) = d) by (rewrite Hds; apply pyget_app; reflexivity).
  assert (Hdec : forall y o, dec (Z.of_nat (length pre)) cd (p ++ [y]) o
     = DNext (mkD (Z.of_nat (length pre) - 1) (cd + pyget ds (Z.of_nat (length pre) - 1))
          (pyset (p ++ [y]) (Z.of_nat (length pre) - 1) (S (pyget (p ++ [y]) (Z.of_nat (length pre) - 1)))) o)).
  { intros y o. unfold dec. rewrite (proj2 (Z.ltb_ge _ _)) by lia. reflexivity. }
  destruct (demit_fst p x (Z.of_nat (length pre)) (1 + (degree - cd) / d)) as [y0 Hy0]; [lia|].
  assert (Hstep : exists y, dstep ds degree req (mkD (Z.of_nat (length pre)) cd (p ++ [x]) out)
     = DNext (mkD (Z.of_nat (length pre) - 1) (cd + pyget ds (Z.of_nat (length pre) - 1))
          (pyset (p ++ [y]) (Z.of_nat (length pre) - 1) (S (pyget (p ++ [y]) (Z.of_nat (length pre) - 1))))
          (out ++ map (app p) (comb req [d] (degree - cd))))).
  { unfold dstep. rewrite Hlen, (proj2 (Z.eqb_eq _ _)) by lia. rewrite Hd.
    rewrite (proj2 (Nat.leb_le _ _)) by exact Hcd. destruct req; cbn [negb comb].
    - destruct ((degree - cd) mod d =? 0).
      + exists ((degree - cd) / d). rewrite pyset_app by lia. reflexivity.
      + exists x. cbn [map]. rewrite app_nil_r. reflexivity.
    - exists y0. destruct (demit (p ++ [x]) (Z.of_nat (length pre)) (1 + (degree - cd) / d)) as [p1 e1] eqn:Ed.
      cbn in Hy0. subst p1.
      assert (He : e1 = snd (demit (p ++ [x]) (Z.of_nat (length pre)) (1 + (degree - cd) / d)))
        by (rewrite Ed; reflexivity).
      rewrite demit_snd in He by lia. subst e1. rewrite map_map. reflexivity. }
  destruct Hstep as [y Hy]. exists y. rewrite Hdec. apply reaches_step. exact Hy.
Qed.

Definition level_out (p : list nat) (k : nat) (d : nat) (rest : list nat) (rem : nat) : list (list nat) :=
  flat_map (fun j => map (fun t => p ++ (k + j) :: t) (comb req rest (rem - j * d))) (seq 0 (S (rem / d))).

Lemma level_out_next p k d rest rem : 0 < d ->
  level_out p k d rest rem
  = map (fun t => p ++ k :: t) (comb req rest rem)
    ++ (if d <=? rem then level_out p (S k) d rest (rem - d) else []).
Proof.
  intro Hd. unfold level_out.
  change (seq 0 (S (rem / d))) with (0 :: seq 1 (rem / d)). cbn [flat_map]. rewrite Nat.mul_0_l, Nat.sub_0_r, Nat.add_0_r. f_equal.
  destruct (Nat.leb_spec d rem) as [H|H].
  - assert (E : rem / d = S ((rem - d) / d)).
    { replace rem with (rem - d + 1 * d) at 1 by lia. rewrite Nat.div_add by lia. lia. }
    rewrite E. rewrite <- seq_shift, flat_map_concat_map, map_map, <- flat_map_concat_map.
    apply flat_map_ext. intro j. replace (k + S j) with (S k + j) by lia.
    replace (rem - S j * d) with (rem - d - j * d) by lia. reflexivity.
  - rewrite Nat.div_small by lia. reflexivity.
Qed.

Lemma level rest : forall pre d p k cd zs x out,
  ds = pre ++ d :: rest -> rest <> [] -> length p = length pre ->
  zs = map (fun _ => 0) (removelast rest) -> k * d <= cd ->
  exists y, reaches (mkD (Z.of_nat (length pre)) cd (p ++ k :: zs ++ [x]) out)
    (dec (Z.of_nat (length pre)) (cd - d * k) (p ++ 0 :: zs ++ [y])
       (out ++ if cd <=? degree then level_out p k d rest (degree - cd) else [])).
Proof.
  induction rest as [|d2 rest IH]; intros pre d p k cd zs x out Hds Hne Hp Hzs Hk; [congruence|]. clear Hne.
  assert (Hd : 0 < d) by (apply Hpos; rewrite Hds; apply in_or_app; right; left; reflexivity).
  assert (Hlen : length ds = length pre + 2 + length rest) by (rewrite Hds, app_length; cbn; lia).
  assert (Hgd : pyget ds (Z.of_nat (length pre)) = d) by (rewrite Hds; apply pyget_app; reflexivity).
  (* induction on the remaining degree *)
  remember (S degree - cd) as m eqn:Em.
  revert k cd x out Hk Em. induction m as [m IHm] using lt_wf_ind. intros k cd x out Hk Em.
  destruct (Nat.leb_spec cd degree) as [Hcd|Hcd].
  - (* go down *)
    assert (Hdown : reaches (mkD (Z.of_nat (length pre)) cd (p ++ k :: zs ++ [x]) out)
              (DNext (mkD (Z.of_nat (length pre) + 1) cd (p ++ k :: zs ++ [x]) out))).
    { apply reaches_step. unfold dstep. rewrite (proj2 (Z.eqb_neq _ _)) by lia.
      rewrite (proj2 (Nat.ltb_ge _ _)) by lia. reflexivity. }
    assert (Hsub : exists y, reaches (mkD (Z.of_nat (length pre) + 1) cd (p ++ k :: zs ++ [x]) out)
       (DNext (mkD (Z.of_nat (length pre)) (cd + d) (p ++ S k :: zs ++ [y])
          (out ++ map (fun t => p ++ k :: t) (comb req (d2 :: rest) (degree - cd)))))).
    { assert (Hpre' : length (pre ++ [d]) = S (length pre)) by (rewrite app_length; cbn; lia).
      assert (Hp' : length (p ++ [k]) = length (pre ++ [d])) by (rewrite app_length; cbn; lia).
      assert (Hdecp : forall s o, dec (Z.of_nat (length (pre ++ [d]))) cd ((p ++ [k]) ++ s) o
          = DNext (mkD (Z.of_nat (length pre)) (cd + d) (p ++ S k :: s) o)).
      { intros s o. unfold dec. rewrite Hpre'. rewrite (proj2 (Z.ltb_ge _ _)) by lia.
        replace (Z.of_nat (S (length pre)) - 1)%Z with (Z.of_nat (length pre)) by lia. rewrite Hgd.
        rewrite <- app_assoc. cbn [app]. rewrite pyget_app by lia. rewrite pyset_app by lia. reflexivity. }
      assert (Hmaps : forall l, map (app (p ++ [k])) l = map (fun t => p ++ k :: t) l).
      { intro l. apply map_ext. intro t. rewrite <- app_assoc. reflexivity. }
      destruct rest as [|d3 rest].
      - cbn in Hzs. subst zs. cbn [app].
        destruct (last_level (pre ++ [d]) d2 (p ++ [k]) x cd out) as [y Hy].
        + rewrite Hds, <- app_assoc. reflexivity.
        + lia.
        + exact Hcd.
        + exists y. rewrite Hdecp, Hpre' in Hy. rewrite Hmaps in Hy.
          replace (Z.of_nat (length pre) + 1)%Z with (Z.of_nat (S (length pre))) by lia.
          rewrite <- app_assoc in Hy. exact Hy.
      - assert (Hz : zs = 0 :: map (fun _ => 0) (removelast (d3 :: rest))).
        { rewrite Hzs. cbn [removelast map]. reflexivity. }
        set (zs' := map (fun _ => 0) (removelast (d3 :: rest))) in *.
        destruct (IH (pre ++ [d]) d2 (p ++ [k]) 0 cd zs' x out) as [y Hy].
        + rewrite Hds, <- app_assoc. reflexivity.
        + discriminate.
        + lia.
        + reflexivity.
        + lia.
        + exists y. rewrite Hpre' in Hy.
          replace (Z.of_nat (length pre) + 1)%Z with (Z.of_nat (S (length pre))) by lia.
          rewrite <- Hpre' in Hy at 2.
          replace (cd - d2 * 0) with cd in Hy by lia. rewrite Hdecp in Hy.
          rewrite (proj2 (Nat.leb_le _ _)) in Hy by exact Hcd.
          rewrite Hz. rewrite <- app_assoc in Hy. cbn [app] in Hy |- *.
          replace (map (fun t => p ++ k :: t) (comb req (d2 :: d3 :: rest) (degree - cd)))
            with (level_out (p ++ [k]) 0 d2 (d3 :: rest) (degree - cd)); [exact Hy|].
          rewrite comb_cons2. unfold level_out.
          rewrite flat_map_concat_map, (flat_map_concat_map _ (seq 0 _)), concat_map, map_map.
          f_equal. apply map_ext. intro j. rewrite map_map. apply map_ext. intro t.
          rewrite <- app_assoc. reflexivity. }
    destruct Hsub as [y1 Hsub].
    destruct (IHm (S degree - (cd + d)) ltac:(lia) (S k) (cd + d) y1
       (out ++ map (fun t => p ++ k :: t) (comb req (d2 :: rest) (degree - cd)))) as [y Hy].
    + lia.
    + reflexivity.
    + exists y. eapply reaches_trans; [exact Hdown|]. eapply reaches_trans; [exact Hsub|].
      replace (cd - d * k) with (cd + d - d * S k) by lia.
      replace (out ++ level_out p k d (d2 :: rest) (degree - cd))
        with ((out ++ map (fun t => p ++ k :: t) (comb req (d2 :: rest) (degree - cd))) ++
              (if cd + d <=? degree then level_out p (S k) d (d2 :: rest) (degree - (cd + d)) else [])).
      * exact Hy.
      * rewrite <- app_assoc. f_equal. rewrite (level_out_next p k) by exact Hd. f_equal.
        destruct (Nat.leb_spec (cd + d) degree), (Nat.leb_spec d (degree - cd)); try lia; [|reflexivity].
        f_equal. lia.
  - exists x. rewrite app_nil_r. apply reaches_step. unfold dstep.
    rewrite (proj2 (Z.eqb_neq _ _)) by lia. rewrite (proj2 (Nat.ltb_lt _ _)) by lia.
    rewrite Hgd. rewrite pyget_app by lia. rewrite pyset_app by lia. reflexivity.
Qed.

Lemma degree_combinations_run :
  exists m, forall fuel, degree_combinations ds degree req (m + fuel) = Some (comb req ds degree).
Proof.
  assert (Hdc : forall fuel, degree_combinations ds degree req fuel
     = drun ds degree req fuel (mkD 0 0 (map (fun _ => 0) ds) [])).
  { intro fuel. unfold degree_combinations. destruct ds; [cbn in Hn; lia|reflexivity]. }
  assert (Eds : exists d d2 rest, ds = d :: d2 :: rest).
  { destruct ds as [|d [|d2 rest]]; [cbn in Hn; lia|cbn in Hn; lia|]. exists d, d2, rest. reflexivity. }
  destruct Eds as [d [d2 [rest Eds]]].
  set (zs := map (fun _ : nat => 0) (removelast (d2 :: rest))).
  destruct (level (d2 :: rest) [] d [] 0 0 zs 0 []) as [y [m Hm]].
  - exact Eds.
  - discriminate.
  - reflexivity.
  - reflexivity.
  - lia.
  - exists m. intro fuel. rewrite Hdc.
    assert (Hinit : map (fun _ : nat => 0) ds = 0 :: zs ++ [0]).
    { rewrite Eds. cbn [map]. f_equal. unfold zs.
      change (0 :: map (fun _ : nat => 0) rest) with (map (fun _ : nat => 0) (d2 :: rest)).
      rewrite (app_removelast_last 0 (l := d2 :: rest)) at 1 by discriminate.
      rewrite map_app. reflexivity. }
    rewrite Hinit. cbn [length app] in Hm. cbn [Z.of_nat] in Hm. rewrite Hm.
    unfold dec. cbn [cont Z.sub Z.ltb Z.add Z.opp Z.compare Nat.leb]. f_equal.
    unfold level_out. rewrite Eds, comb_cons2. rewrite Nat.sub_0_r. reflexivity.
Qed.
End Exec.

Lemma drun_mono ds degree req fuel m s out :
  drun ds degree req fuel s = Some out -> drun ds degree req (fuel + m) s = Some out.
Proof.
  revert s. induction fuel as [|f IH]; intros s H; [discriminate|]. cbn in H |- *.
  destruct (dstep ds degree req s); [apply IH; exact H|exact H].
Qed.

Lemma degree_combinations_correct ds degree req fuel out :
  2 <= length ds -> (forall d, In d ds -> 0 < d) ->
  degree_combinations ds degree req fuel = Some out -> out = comb req ds degree.
Proof.
  intros Hn Hpos H. destruct (degree_combinations_run ds degree req Hpos Hn) as [m Hm].
  specialize (Hm fuel). unfold degree_combinations in *. destruct ds as [|d ds]; [cbn in Hn; lia|].
  apply drun_mono with (m := m) in H. rewrite Nat.add_comm in H. rewrite H in Hm. congruence.
Qed.
Lemma degree_combinations_in ds degree req fuel out t :
  2 <= length ds -> (forall d, In d ds -> 0 < d) -> degree_combinations ds degree req fuel = Some out -> In t out ->
  length t = length ds /\ (if req then wdeg t ds = degree else wdeg t ds <= degree).
Proof.
  intros Hn Hpos H Ht. rewrite (degree_combinations_correct ds degree req fuel out Hn Hpos H) in Ht.
  apply comb_in in Ht; [exact Ht| |exact Hpos]. intros ->. cbn in Hn. lia.
Qed.
Lemma set_nth_length (l : list nat) : forall i v, length (set_nth l i v) = length l.
Proof. induction l as [|x l IH]; intros [|i] v; cbn; try reflexivity. rewrite IH. reflexivity. Qed.
Lemma pyset_length l i v : length (pyset l i v) = length l.
Proof. apply set_nth_length. Qed.
(** the tuples always have the right length *)
Lemma degree_combinations_length ds degree req fuel out t : degree_combinations ds degree req fuel = Some out -> In t out -> length t = length ds.
Proof.
  unfold degree_combinations. intros H Ht. destruct ds as [|d0 ds0]; [injection H as <-; destruct Ht|].
  remember (d0 :: ds0) as ds eqn:Eds. clear Eds. revert H.
  assert (Hs : length (d_pow (mkD 0 0 (map (fun _ => 0) ds) [])) = length ds) by apply map_length.
  assert (Ho : forall a, In a (d_out (mkD 0 0 (map (fun _ => 0) ds) [])) -> length a = length ds) by (intros ? []).
  generalize dependent (mkD 0 0 (map (fun _ => 0) ds) []). clear d0 ds0. induction fuel as [|fuel IH]; intros s Hs Ho H; [discriminate|]. cbn [drun] in H.
  destruct s as [i cd pow o]. cbn [d_pow d_out] in Hs, Ho. destruct (dstep ds degree req (mkD i cd pow o)) as [s'|o'] eqn:E; unfold dstep in E.
  - apply (IH s'); [| |exact H].
    + destruct (i =? _)%Z.
      * destruct (cd <=? degree); [destruct (negb req); [|destruct (_ =? 0)]|]; cbn [demit] in E; injection E as <-; cbn [d_pow]; rewrite !pyset_length; try exact Hs.
        unfold demit. cbn [fst]. clear - Hs. assert (F : forall l p, length p = length ds -> length (fold_left (fun p j => pyset p i j) l p) = length ds).
        { induction l as [|a l IH]; intros p Hp; [exact Hp|]. cbn [fold_left]. apply IH. rewrite pyset_length. exact Hp. }
        exact (F (seq 0 (1 + (degree - cd) / pyget ds i)) pow Hs).
      * destruct (degree <? cd); [destruct (_ <? 0)%Z; [discriminate|]|]; injection E as <-; cbn [d_pow]; rewrite ?pyset_length; exact Hs.
    + destruct (i =? _)%Z.
      * destruct (cd <=? degree); [destruct (negb req); [|destruct (_ =? 0)]|]; injection E as <-; cbn [d_out]; try exact Ho; intros b Hb;
          apply in_app_or in Hb; destruct Hb as [Hb|Hb]; try exact (Ho b Hb).
        -- change (In b (map (fun j => pyset pow i j) (seq 0 (1 + (degree - cd) / pyget ds i)))) in Hb.
           apply in_map_iff in Hb. destruct Hb as (j & <- & _). rewrite pyset_length. exact Hs.
        -- destruct Hb as [<-|[]]. rewrite pyset_length. exact Hs.
      * destruct (degree <? cd); [destruct (_ <? 0)%Z; [discriminate|]|]; injection E as <-; exact Ho.
  - injection H as ->. destruct (i =? _)%Z.
    + destruct (cd <=? degree); [destruct (negb req); [|destruct (_ =? 0)]|]; discriminate.
    + destruct (degree <? cd); [destruct (_ <? 0)%Z; [|discriminate]|discriminate]. injection E as <-. exact (Ho t Ht).
Qed.
