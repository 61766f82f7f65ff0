(** * Rational approximations: triples/utils/roots/rationalize.py (first part)

    Python floats are read as the exact rationals they stand for ([sp.Rational(v)] is
    exact), and the comparisons of the code between a float and a rational are taken as
    exact comparisons. [sp.nsimplify(w, rational=True, tolerance=t)] is an oracle [nsimp w t]. *)
From Coq Require Import Bool List Arith ZArith QArith Qround Qabs Lia Lqa Psatz.
From Verif Require Import Base.
Import ListNotations.
Local Open Scope Q_scope.

(** Rationals together with sympy's complex infinity [zoo]: [1/0 = zoo], [1/zoo = 0],
    [zoo + t = zoo]. *)
Inductive qx : Type := Fin (x : Q) | Zoo.
Definition xinv (x : qx) : qx :=
  match x with
  | Fin x => if Qeq_bool x 0 then Zoo else Fin (/ x)
  | Zoo => Fin 0
  end.
Definition xadd (x : qx) (t : Z) : qx :=
  match x with Fin x => Fin (x + inject_Z t) | Zoo => Zoo end.

Definition Qltb (x y : Q) : bool := negb (Qle_bool y x).

(** rationalize.py:104-117, the loop of the expansion: [fuel] is [truncate - i], [x] the
    fractional part, [fracs] the quotients so far (in order). The flag tells whether the loop
    was left by [break]. For [x = 0] the code computes [1/x = zoo], whose floor is [zoo]. *)
Fixpoint expand_loop (fuel : nat) (x : Q) (fracs : list Z) : list Z * bool :=
  match fuel with
  | O => (fracs, false)
  | S fuel' =>
      match xinv (Fin x) with
      | Zoo => (fracs, true)
      | Fin y =>
          let t := Qfloor y in
          if Z.eqb t 0 then (fracs, true)
          else expand_loop fuel' (y - inject_Z t) (fracs ++ [t])
      end
  end.

(** rationalize.py:111, [max(range(1, len(fracs)), key = lambda u: fracs[u])]: the first index
    of a largest entry. [l] are the entries from index [i] on. *)
Fixpoint argmax (l : list Z) (i best : nat) (bv : Z) : nat :=
  match l with
  | [] => best
  | t :: l' => if Z.ltb bv t then argmax l' (S i) i t else argmax l' (S i) best bv
  end.

(** rationalize.py:107-120: where the fraction list is cut. *)
Definition cut_at (fracs : list Z) (broke : bool) : nat :=
  if broke then
    match fracs with
    | _ :: t :: l => argmax l 2 1 t
    | _ => 1%nat
    end
  else length fracs.

(** rationalize.py:123-129 and 135-140: the value of a list of quotients,
    [x = 0; for t in fracs[::-1]: x += t; x = 1/x] and then [x = 1/x]. *)
Definition cf_value (fracs : list Z) : qx :=
  xinv (fold_left (fun x t => xinv (xadd x t)) (rev fracs) (Fin 0)).

(** rationalize.py:130: the constant [1e-6]. *)
Definition close : Q := 1 # 1000000.

(** rationalize.py:95-142 for [reliable = True] and a value that is not a rational already.
    [truncate] is [Optional[int]]: [i < None] raises. *)
Definition rationalize_reliable (v : Q) (truncate : option nat) : res qx :=
  match truncate with
  | None => Err TypeError
  | Some n =>
      let t := Qfloor v in
      let '(fracs, broke) := expand_loop n (v - inject_Z t) [t] in
      match cf_value (firstn (cut_at fracs broke) fracs) with
      | Fin x => if Qltb (Qabs (v - x)) close then Ok (Fin x) else Ok (cf_value fracs)
      | Zoo => Ok (cf_value fracs)
      end
  end.

(** A Python number given to these functions: an exact rational ([sp.Rational], [int]) or a
    float. *)
Inductive num : Type := Exact (x : Q) | Float (x : Q).
Definition nval (v : num) : Q := match v with Exact x => x | Float x => x end.

(** rationalize.py:67-144. The lines after 144 are unreachable for floats. *)
Definition rationalize (nsimp : Q -> Q -> Q) (v : num) (rounding : Q) (reliable : bool)
  (truncate : option nat) : res qx :=
  match v with
  | Exact x => Ok (Fin x)
  | Float x =>
      match truncate with
      | None => Err TypeError
      | Some _ => if reliable then rationalize_reliable x truncate
                  else Ok (Fin (nsimp x rounding))
      end
  end.

(** rationalize.py:176-201 on lists of exact rationals and floats. Tuples and symbolic entries
    are not modelled. *)
Fixpoint rationalize_array (nsimp : Q -> Q -> Q) (l : list num) (tol : Q) (reliable : bool)
  : res (list qx) :=
  match l with
  | [] => Ok []
  | v :: l' =>
      let y := match v with
               | Float x => if Qltb (Qabs x) tol then Ok (Fin 0)
                            else rationalize nsimp v (1 # 100) reliable (Some 32%nat)
               | Exact x => Ok (Fin x)
               end in
      match y with
      | Err e => Err e
      | Ok y =>
          match rationalize_array nsimp l' tol reliable with
          | Err e => Err e
          | Ok ys => Ok (y :: ys)
          end
      end
  end.

(** ** rationalize_bound *)

Inductive dir : Type := Up | Any | Down.
Definition dval (d : dir) : Q := match d with Up => 1 | Any => 0 | Down => - (1) end.

(** rationalize.py:221-224: [compare]; for [direction = -1] it is the negation of [a > b]. *)
Definition compare (d : dir) (a b : Q) : bool :=
  match d with
  | Any => true
  | Up => Qltb b a
  | Down => negb (Qltb b a)
  end.

(** rationalize.py:226-231 and 236-240: one loop over the roundings with step [k]; the list of
    values yielded and the last value of [previous_v]. *)
Fixpoint bound_loop (nsimp : Q -> Q -> Q) (v : Q) (d : dir) (k : Q) (rs : list Q)
  (prev : option Q) : list Q * option Q :=
  match rs with
  | [] => ([], prev)
  | r :: rs' =>
      let w := nsimp (v + dval d * r * k) r in
      let fresh := match prev with Some p => negb (Qeq_bool w p) | None => true end in
      if fresh && compare d w v then
        let '(ys, p) := bound_loop nsimp v d k rs' (Some w) in (w :: ys, p)
      else bound_loop nsimp v d k rs' prev
  end.

(** rationalize.py:218-219: the default roundings. *)
Definition default_roundings : list Q :=
  [1 # 2; 1 # 5; 1 # 10; 1 # 20; 1 # 100; 1 # 1000; 1 # 10000; 1 # 1000000; 1 # 100000000].
(** rationalize.py:236: the roundings of the compulsory part. *)
Definition final_roundings : list Q :=
  [1 # 100; 1 # 10000; 1 # 1000000; 1 # 100000000; 1 # 10000000000; 1 # 1000000000000].

(** rationalize.py:204-240: everything the generator yields, in order. *)
Definition rationalize_bound (nsimp : Q -> Q -> Q) (v : num) (d : dir)
  (roundings : option (list Q)) (compulsory : bool) : list Q :=
  match v with
  | Exact x => [x]
  | Float x =>
      let rs := match roundings with None => default_roundings | Some rs => rs end in
      let '(ys, p) := bound_loop nsimp x d 3 rs None in
      if compulsory then ys ++ fst (bound_loop nsimp x d 10 final_roundings p) else ys
  end.

(** ** rationalize_func: triples/core/structsos/utils.py:102-160 *)

(** utils.py:152-160, the search over the candidates. [vt] is [validation_t]; [dt] is
    [direction_t]. *)
Fixpoint search (nsimp : Q -> Q -> Q) (validation initial vt : Q -> bool) (dt : Q -> dir)
  (cands : list num) : option Q :=
  match cands with
  | [] => None
  | Exact t :: l =>
      if validation t then Some t else search nsimp validation initial vt dt l
  | Float t :: l =>
      if initial t then
        match find vt (rationalize_bound nsimp (Float t) (dt t) None true) with
        | Some u => Some u
        | None => search nsimp validation initial vt dt l
        end
      else search nsimp validation initial vt dt l
  end.

(** utils.py:133-150 for a polynomial: [f] and [f'] are its values and those of its derivative,
    [roots] the answer of [nroots(poly, method='factor', real=True)]: rational roots exactly, the
    others as floats. *)
Definition rationalize_func_poly (nsimp : Q -> Q -> Q) (f f' : Q -> Q) (roots : list num)
  (validation : Q -> bool) (initial : option (Q -> bool)) (d : dir) : option Q :=
  let initial := match initial with Some g => g | None => validation end in
  let opp d := match d with Up => Down | Down => Up | Any => Any end in
  match d with
  | Any => search nsimp validation initial validation (fun _ => Any) roots
  | _ => search nsimp validation initial
           (fun t => Qle_bool 0 (inject_Z (Z.sgn (Qnum (f t))) * dval d) && validation t)
           (fun t => if Qle_bool 0 (f' t) then d else opp d) roots
  end.

(** ** Facts *)

Lemma Qltb_lt x y : Qltb x y = true <-> x < y.
Proof.
  unfold Qltb. rewrite negb_true_iff. split; intro H.
  - apply Qnot_le_lt. intro H1. apply Qle_bool_iff in H1. congruence.
  - destruct (Qle_bool y x) eqn:E; [|reflexivity].
    apply Qle_bool_iff in E. exfalso. exact (Qlt_not_le _ _ H E).
Qed.
Lemma Qltb_ge x y : Qltb x y = false <-> y <= x.
Proof.
  unfold Qltb. rewrite negb_false_iff. apply Qle_bool_iff.
Qed.

Lemma floor_frac (x : Q) : 0 <= x - inject_Z (Qfloor x) /\ x - inject_Z (Qfloor x) < 1.
Proof.
  pose proof (Qfloor_le x) as H1. pose proof (Qlt_floor x) as H2.
  rewrite inject_Z_plus in H2. change (inject_Z 1) with 1 in H2. split; lra.
Qed.

(** Tails: [chain ts x s]: the quotients [ts], all at least 1, lead from the fractional part [x]
    to the fractional part [s]: [x = 1/(t + ...)]. *)
Inductive chain : list Z -> Q -> Q -> Prop :=
| chain_nil x s : x == s -> chain [] x s
| chain_cons t ts x y s : (1 <= t)%Z -> 0 <= y -> x * (inject_Z t + y) == 1 ->
    chain ts y s -> chain (t :: ts) x s.

Lemma inject_ge1 t : (1 <= t)%Z -> 1 <= inject_Z t.
Proof. intro H. change 1 with (inject_Z 1). rewrite <- Zle_Qle. exact H. Qed.

Lemma chain_range ts x s : chain ts x s -> 0 <= s -> s <= 1 -> 0 <= x /\ x <= 1.
Proof.
  intro H. revert x s H. induction ts as [|t ts IH]; intros x s H H0 H1.
  - inversion H; subst. split; lra.
  - inversion H; subst. pose proof (inject_ge1 _ H4) as Ht.
    assert (Hp : 0 < inject_Z t + y) by lra. split.
    + apply Qnot_lt_le. intro Hx.
      assert (x * (inject_Z t + y) <= 0).
      { setoid_replace (x * (inject_Z t + y)) with (- ((-x) * (inject_Z t + y))) by ring.
        assert (0 <= (-x) * (inject_Z t + y)) by (apply Qmult_le_0_compat; lra). lra. }
      lra.
    + apply Qnot_lt_le. intro Hx.
      assert (0 < (x - 1) * (inject_Z t + y)) by (apply Qmult_lt_0_compat; lra). lra.
Qed.

(** One step of the expansion. *)
Lemma step_facts x y : xinv (Fin x) = Fin y -> 0 <= x -> x < 1 ->
  (1 <= Qfloor y)%Z /\ 0 <= y - inject_Z (Qfloor y) /\ y - inject_Z (Qfloor y) < 1 /\
  x * (inject_Z (Qfloor y) + (y - inject_Z (Qfloor y))) == 1.
Proof.
  unfold xinv. destruct (Qeq_bool x 0) eqn:E; [discriminate|].
  intros H H0 H1. injection H as H. subst y.
  apply Qeq_bool_neq in E. assert (Hp : 0 < x) by (apply Qle_lteq in H0; destruct H0 as [H0|H0]; [exact H0|]; exfalso; apply E; symmetry; exact H0).
  assert (Hy : 1 < / x).
  { apply Qmult_lt_r with (z := x); [exact Hp|]. rewrite (Qmult_comm (/ x)), Qmult_inv_r by exact E. lra. }
  pose proof (floor_frac (/ x)) as [F1 F2].
  split; [|split; [exact F1|split; [exact F2|]]].
  - change 1%Z with (Qfloor 1). apply Qfloor_resp_le. lra.
  - setoid_replace (inject_Z (Qfloor (/ x)) + (/ x - inject_Z (Qfloor (/ x)))) with (/ x) by ring.
    apply Qmult_inv_r. exact E.
Qed.

Lemma expand_loop_spec fuel x fracs r broke : 0 <= x -> x < 1 ->
  expand_loop fuel x fracs = (r, broke) ->
  exists ts s, r = fracs ++ ts /\ chain ts x s /\ 0 <= s /\ s < 1 /\
    (if broke then s == 0 else length ts = fuel).
Proof.
  revert x fracs. induction fuel as [|fuel IH]; intros x fracs H0 H1 H; cbn [expand_loop] in H.
  - injection H as <- <-. exists [], x. rewrite app_nil_r.
    split; [reflexivity|]. split; [constructor; reflexivity|]. split; [exact H0|]. split; [exact H1|]. try reflexivity.
  - destruct (xinv (Fin x)) as [y|] eqn:E.
    + pose proof (step_facts _ _ E H0 H1) as (F1 & F2 & F3 & F4).
      destruct (Z.eqb (Qfloor y) 0) eqn:Ez; [apply Z.eqb_eq in Ez; lia|].
      destruct (IH _ _ F2 F3 H) as (ts & s & -> & Hc & Hs & Hs1 & Hb).
      exists (Qfloor y :: ts), s. rewrite <- app_assoc. split; [reflexivity|].
      split; [exact (chain_cons _ ts x _ s F1 F2 F4 Hc)|]. split; [exact Hs|]. split; [exact Hs1|].
      destruct broke; [exact Hb|]. cbn. rewrite Hb. reflexivity.
    + injection H as <- <-. exists [], x. rewrite app_nil_r.
      split; [reflexivity|]. split; [constructor; reflexivity|]. split; [exact H0|]. split; [exact H1|]. try reflexivity.
      unfold xinv in E. destruct (Qeq_bool x 0) eqn:E0; [|discriminate].
      apply Qeq_bool_iff in E0. exact E0.
Qed.

(** Contraction: two values with the same quotients differ by at most [1/2^(n-1)]. *)
Lemma chain_close ts : forall x s y u, chain ts x s -> chain ts y u ->
  0 <= s -> s <= 1 -> 0 <= u -> u <= 1 ->
  match ts with
  | _ :: _ :: _ => exists x2 y2, chain (tl (tl ts)) x2 s /\ chain (tl (tl ts)) y2 u /\
       Qabs (x - y) * 4 <= Qabs (x2 - y2)
  | _ => True
  end.
Proof.
  intros x s y u Hx Hy Hs Hs1 Hu Hu1.
  destruct ts as [|t1 [|t2 ts]]; try exact I. cbn [tl].
  inversion Hx as [|? ? ? x1 ? T1 P1 E1 C1]; subst.
  inversion C1 as [|? ? ? x2 ? T2 P2 E2 C2]; subst.
  inversion Hy as [|? ? ? y1 ? _ Q1 G1 D1]; subst.
  inversion D1 as [|? ? ? y2 ? _ Q2 G2 D2]; subst.
  exists x2, y2. split; [exact C2|]. split; [exact D2|].
  pose proof (inject_ge1 _ T1) as K1. pose proof (inject_ge1 _ T2) as K2.
  set (a := inject_Z t1) in *. set (b := inject_Z t2) in *. clearbody a b.
  (* (a + x1) (b + x2) = a (b + x2) + 1 >= 2 *)
  set (wx := a * (b + x2) + 1). set (wy := a * (b + y2) + 1).
  assert (Wx : 2 <= wx).
  { unfold wx. assert (0 <= (a - 1) * (b + x2)) by (apply Qmult_le_0_compat; lra). lra. }
  assert (Wy : 2 <= wy).
  { unfold wy. assert (0 <= (a - 1) * (b + y2)) by (apply Qmult_le_0_compat; lra). lra. }
  assert (Ex : x * wx == b + x2).
  { unfold wx. setoid_replace (x * (a * (b + x2) + 1)) with (x * (a + x1) * (b + x2) + x * (1 - x1 * (b + x2))) by ring.
    rewrite E1, E2. ring. }
  assert (Ey : y * wy == b + y2).
  { unfold wy. setoid_replace (y * (a * (b + y2) + 1)) with (y * (a + y1) * (b + y2) + y * (1 - y1 * (b + y2))) by ring.
    rewrite G1, G2. ring. }
  assert (Ed : (x - y) * (wx * wy) == x2 - y2).
  { setoid_replace ((x - y) * (wx * wy)) with (x * wx * wy - y * wy * wx) by ring.
    rewrite Ex, Ey. unfold wx, wy. ring. }
  rewrite <- Ed, Qabs_Qmult.
  assert (W4 : 4 <= wx * wy).
  { setoid_replace (wx * wy) with (4 + (wx - 2) * (wy - 2) + 2 * (wx - 2) + 2 * (wy - 2)) by ring.
    assert (0 <= (wx - 2) * (wy - 2)) by (apply Qmult_le_0_compat; lra). lra. }
  rewrite (Qabs_pos (wx * wy)) by lra.
  pose proof (Qabs_nonneg (x - y)) as Hn.
  assert (0 <= Qabs (x - y) * (wx * wy - 4)) by (apply Qmult_le_0_compat; lra). lra.
Qed.

Fixpoint pow4 (n : nat) : Q := match n with O => 1 | S n => 4 * pow4 n end.
Lemma pow4_nonneg n : 0 <= pow4 n.
Proof. induction n; cbn [pow4]; lra. Qed.

Lemma chain_diff n : forall ts x s y u, chain ts x s -> chain ts y u ->
  0 <= s -> s <= 1 -> 0 <= u -> u <= 1 -> (2 * n <= length ts)%nat ->
  Qabs (x - y) * pow4 n <= 1.
Proof.
  induction n as [|n IH]; intros ts x s y u Hx Hy Hs Hs1 Hu Hu1 L.
  - cbn [pow4].
    destruct (chain_range _ _ _ Hx Hs Hs1). destruct (chain_range _ _ _ Hy Hu Hu1).
    assert (Qabs (x - y) <= 1) by (apply Qabs_Qle_condition; split; lra). lra.
  - pose proof (chain_close ts x s y u Hx Hy Hs Hs1 Hu Hu1) as H.
    destruct ts as [|t1 [|t2 ts]]; cbn [length] in L; try lia.
    destruct H as (x2 & y2 & C & D & H). cbn [tl] in C, D.
    assert (L2 : (2 * n <= length ts)%nat) by lia.
    pose proof (IH ts x2 s y2 u C D Hs Hs1 Hu Hu1 L2) as B.
    cbn [pow4]. pose proof (pow4_nonneg n) as P.
    assert (0 <= (Qabs (x2 - y2) - Qabs (x - y) * 4) * pow4 n) by (apply Qmult_le_0_compat; lra).
    lra.
Qed.

(** The value of the whole list. *)
Definition tail_value (ts : list Z) : qx :=
  fold_left (fun x t => xinv (xadd x t)) (rev ts) (Fin 0).
Lemma tail_cons t ts : tail_value (t :: ts) = xinv (xadd (tail_value ts) t).
Proof. unfold tail_value. cbn [rev]. rewrite fold_left_app. reflexivity. Qed.
Lemma tail_chain ts x s : chain ts x s -> exists y, tail_value ts = Fin y /\ chain ts y 0 /\ 0 <= y.
Proof.
  intro H. induction H as [x s E|t ts x y s T P E C IH].
  - exists 0. split; [reflexivity|]. split; [constructor; reflexivity|lra].
  - destruct IH as (z & E1 & C1 & P1). rewrite tail_cons, E1. unfold xadd, xinv.
    pose proof (inject_ge1 _ T) as K1.
    destruct (Qeq_bool (z + inject_Z t) 0) eqn:E0; [apply Qeq_bool_iff in E0; lra|].
    exists (/ (z + inject_Z t)). split; [reflexivity|]. split.
    + econstructor; eauto. rewrite (Qplus_comm (inject_Z t)). rewrite Qmult_comm. apply Qmult_inv_r.
      apply Qeq_bool_neq. exact E0.
    + apply Qinv_le_0_compat. lra.
Qed.

Lemma xinv2 x : exists y, xinv (xinv (Fin x)) = Fin y /\ y == x.
Proof.
  unfold xinv at 2. destruct (Qeq_bool x 0) eqn:E.
  - exists 0. split; [reflexivity|]. apply Qeq_bool_iff in E. symmetry. exact E.
  - unfold xinv. destruct (Qeq_bool (/ x) 0) eqn:E2.
    + exfalso. apply Qeq_bool_iff in E2. apply Qeq_bool_neq in E. apply E.
      rewrite <- (Qinv_involutive x). rewrite E2. reflexivity.
    + exists (/ / x). split; [reflexivity|]. apply Qinv_involutive.
Qed.

Lemma cf_value_cons t ts x s : chain ts x s ->
  exists y z, cf_value (t :: ts) = Fin z /\ chain ts y 0 /\ 0 <= y /\ z == inject_Z t + y.
Proof.
  intro H. destruct (tail_chain _ _ _ H) as (y & E & C & P).
  unfold cf_value. change (fold_left _ (rev (t :: ts)) (Fin 0)) with (tail_value (t :: ts)).
  rewrite tail_cons, E. cbn [xadd].
  destruct (xinv2 (y + inject_Z t)) as (z & Ez & Hz). exists y, z.
  split; [exact Ez|]. split; [exact C|]. split; [exact P|]. rewrite Hz. ring.
Qed.

Lemma chain_firstn ts x s k : chain ts x s -> exists s', chain (firstn k ts) x s'.
Proof.
  intro H. revert k. induction H as [x s E|t ts x y s T P E C IH]; intro k.
  - exists x. rewrite firstn_nil. constructor. reflexivity.
  - destruct k as [|k].
    + exists x. constructor. reflexivity.
    + destruct (IH k) as (s' & C'). exists s'. cbn [firstn]. econstructor; eauto.
Qed.

Lemma argmax_pos l i best bv : (1 <= best)%nat -> (1 <= i)%nat -> (1 <= argmax l i best bv)%nat.
Proof.
  revert i best bv. induction l as [|t l IH]; intros i best bv H Hi; cbn [argmax]; [exact H|].
  destruct (Z.ltb bv t); apply IH; lia.
Qed.

Lemma chain_uniq ts x s y u : chain ts x s -> chain ts y u -> s == u -> x == y.
Proof.
  intro H. revert y u. induction H as [x s E|t ts x x1 s T P E C IH]; intros y u D Hu.
  - inversion D; subst. rewrite E, Hu. symmetry. assumption.
  - inversion D as [|? ? ? y1 ? _ P1 E1 D1]; subst.
    pose proof (IH _ _ D1 Hu) as Hxy.
    pose proof (inject_ge1 _ T) as K1.
    assert (N : ~ inject_Z t + x1 == 0) by lra.
    apply (Qmult_inj_r _ _ (inject_Z t + x1) N). rewrite E. rewrite Hxy. symmetry. exact E1.
Qed.

(** Length at most [n + 1]: the whole expansion was found. *)
Theorem rationalize_reliable_close_lemma v n : (20 <= n)%nat ->
  exists x, rationalize_reliable v (Some n) = Ok (Fin x) /\ Qabs (v - x) < close.
Proof.
  intro Hn. unfold rationalize_reliable.
  destruct (floor_frac v) as [F1 F2].
  destruct (expand_loop n (v - inject_Z (Qfloor v)) [Qfloor v]) as [fracs broke] eqn:E.
  destruct (expand_loop_spec _ _ _ _ _ F1 F2 E) as (ts & s & -> & C & S0 & S1 & B).
  cbn [app].
  destruct (cf_value_cons (Qfloor v) ts _ _ C) as (y & z & Ez & Cy & Py & Hz).
  assert (Full : Qabs (v - z) < close).
  { destruct broke.
    - assert (Hxy : v - inject_Z (Qfloor v) == y) by (eapply chain_uniq; eauto).
      assert (Hv : v - z == 0) by lra. rewrite Hv. reflexivity.
    - assert (D : Qabs ((v - inject_Z (Qfloor v)) - y) * pow4 10 <= 1).
      { eapply (chain_diff 10 ts); eauto; try lra. lia. }
      assert (Hv : v - z == (v - inject_Z (Qfloor v)) - y) by (rewrite Hz; ring). rewrite Hv.
      cbn [pow4] in D. unfold close.
      set (w := Qabs _) in *. clearbody w. lra. }
  destruct (cf_value (firstn _ (Qfloor v :: ts))) as [x|].
  - destruct (Qltb (Qabs (v - x)) close) eqn:Eb.
    + exists x. split; [reflexivity|]. apply Qltb_lt. exact Eb.
    + exists z. rewrite Ez. split; [reflexivity|exact Full].
  - exists z. rewrite Ez. split; [reflexivity|exact Full].
Qed.

(** The cut list never evaluates to [zoo]. *)
Lemma cut_finite v n fracs broke :
  expand_loop n (v - inject_Z (Qfloor v)) [Qfloor v] = (fracs, broke) ->
  exists x, cf_value (firstn (cut_at fracs broke) fracs) = Fin x.
Proof.
  intro E. destruct (floor_frac v) as [F1 F2].
  destruct (expand_loop_spec _ _ _ _ _ F1 F2 E) as (ts & s & -> & C & S0 & S1 & B).
  cbn [app].
  assert (P : (1 <= cut_at (Qfloor v :: ts) broke)%nat).
  { unfold cut_at. destruct broke; [|cbn; lia].
    destruct ts as [|t l]; [lia|]. apply argmax_pos; lia. }
  destruct (cut_at (Qfloor v :: ts) broke) as [|k]; [lia|]. cbn [firstn].
  destruct (chain_firstn _ _ _ k C) as (s' & C').
  destruct (cf_value_cons (Qfloor v) _ _ _ C') as (y & z & Ez & _). exists z. exact Ez.
Qed.

(** *** Bounds *)

(** What is asked of [sp.nsimplify]. *)
Definition nsimp_ok (nsimp : Q -> Q -> Q) : Prop :=
  forall w t, 0 < t -> Qabs (nsimp w t - w) <= t.

(** [u] lies on the asked side of [v]. *)
Definition on_side (d : dir) (u v : Q) : Prop :=
  match d with Up => v < u | Any => True | Down => u < v end.

Lemma abs_range x t : Qabs x <= t -> - t <= x /\ x <= t.
Proof. intro H. apply Qabs_Qle_condition. exact H. Qed.

Lemma compare_true nsimp d v r k : nsimp_ok nsimp -> 0 < r -> 1 < k ->
  compare d (nsimp (v + dval d * r * k) r) v = true /\
  on_side d (nsimp (v + dval d * r * k) r) v /\
  Qabs (nsimp (v + dval d * r * k) r - v) <= (k + 1) * r.
Proof.
  intros N Hr Hk. pose proof (abs_range _ _ (N (v + dval d * r * k) r Hr)) as [A B].
  set (u := nsimp _ r) in *. clearbody u.
  assert (0 < (k - 1) * r) by (apply Qmult_lt_0_compat; lra).
  destruct d; cbn [dval compare on_side] in *.
  - split; [apply Qltb_lt; lra|]. split; [lra|]. apply Qabs_Qle_condition. split; lra.
  - split; [reflexivity|]. split; [exact I|]. apply Qabs_Qle_condition. split; lra.
  - split; [apply negb_true_iff, Qltb_ge; lra|]. split; [lra|]. apply Qabs_Qle_condition. split; lra.
Qed.

Lemma bound_loop_sound nsimp v d k rs prev : nsimp_ok nsimp -> 1 < k ->
  (forall r, In r rs -> 0 < r) ->
  forall u, In u (fst (bound_loop nsimp v d k rs prev)) ->
  on_side d u v /\ exists r, In r rs /\ Qabs (u - v) <= (k + 1) * r.
Proof.
  intros N Hk. revert prev. induction rs as [|r rs IH]; intros prev Hrs u Hu.
  - destruct Hu.
  - cbn [bound_loop] in Hu.
    assert (Hr : 0 < r) by (apply Hrs; left; reflexivity).
    assert (Hrs' : forall r, In r rs -> 0 < r) by (intros; apply Hrs; right; assumption).
    destruct (compare_true nsimp d v r k N Hr Hk) as (C & S & B).
    set (w := nsimp (v + dval d * r * k) r) in *. rewrite C, andb_true_r in Hu.
    assert (Rest : forall p, In u (fst (bound_loop nsimp v d k rs p)) ->
      on_side d u v /\ exists r0, In r0 (r :: rs) /\ Qabs (u - v) <= (k + 1) * r0).
    { intros p Hp. destruct (IH p Hrs' u Hp) as (S1 & r1 & I1 & B1).
      split; [exact S1|]. exists r1. split; [right; exact I1|exact B1]. }
    assert (Here : forall p ys pp, bound_loop nsimp v d k rs p = (ys, pp) -> In u (w :: ys) ->
      on_side d u v /\ exists r0, In r0 (r :: rs) /\ Qabs (u - v) <= (k + 1) * r0).
    { intros p ys pp E [<-|Hin].
      - split; [exact S|]. exists r. split; [left; reflexivity|exact B].
      - apply (Rest p). rewrite E. exact Hin. }
    destruct prev as [p|].
    + destruct (Qeq_bool w p); cbn [negb] in Hu; [exact (Rest _ Hu)|].
      destruct (bound_loop nsimp v d k rs (Some w)) as [ys pp] eqn:E. exact (Here _ _ _ E Hu).
    + destruct (bound_loop nsimp v d k rs (Some w)) as [ys pp] eqn:E. exact (Here _ _ _ E Hu).
Qed.

(** The last value of [previous_v] was yielded, or is the one the loop began with. *)
Lemma bound_loop_prev nsimp v d k rs prev ys p :
  bound_loop nsimp v d k rs prev = (ys, p) ->
  p = prev \/ exists u, p = Some u /\ In u ys.
Proof.
  revert prev ys. induction rs as [|r rs IH]; intros prev ys H; cbn [bound_loop] in H.
  - injection H as _ <-. left. reflexivity.
  - set (w := nsimp _ r) in *.
    destruct (_ && _).
    + destruct (bound_loop nsimp v d k rs (Some w)) as [zs pp] eqn:E. injection H as <- <-.
      right. destruct (IH _ _ E) as [->|(u & -> & Hu)].
      * exists w. split; [reflexivity|left; reflexivity].
      * exists u. split; [reflexivity|right; exact Hu].
    + exact (IH _ _ H).
Qed.

(** Every rounding of the loop has a value within [(k + 1) * r] of [v]: yielded by the loop, or
    equal to the previous value it began with. *)
Lemma bound_loop_reach nsimp v d k rs prev : nsimp_ok nsimp -> 1 < k ->
  (forall r, In r rs -> 0 < r) ->
  forall r, In r rs -> exists u, Qabs (u - v) <= (k + 1) * r /\
    (In u (fst (bound_loop nsimp v d k rs prev)) \/ prev = Some u).
Proof.
  intros N Hk. revert prev. induction rs as [|r0 rs IH]; intros prev Hrs r Hr; [destruct Hr|].
  assert (Hr0 : 0 < r0) by (apply Hrs; left; reflexivity).
  assert (Hrs' : forall r, In r rs -> 0 < r) by (intros; apply Hrs; right; assumption).
  destruct (compare_true nsimp d v r0 k N Hr0 Hk) as (C & S & B).
  cbn [bound_loop].
  set (w := nsimp (v + dval d * r0 * k) r0) in *. rewrite C, andb_true_r.
  assert (Fresh : exists u, Qabs (u - v) <= (k + 1) * r /\
    (In u (fst (let '(ys, p) := bound_loop nsimp v d k rs (Some w) in (w :: ys, p))) \/ prev = Some u)).
  { destruct Hr as [<-|Hr].
    - exists w. split; [exact B|]. left. destruct (bound_loop nsimp v d k rs (Some w)). left. reflexivity.
    - destruct (IH (Some w) Hrs' r Hr) as (u & Bu & [Hu|Hu]); exists u; (split; [exact Bu|]); left;
        destruct (bound_loop nsimp v d k rs (Some w)) as [ys pp]; cbn [fst] in *.
      + right. exact Hu.
      + left. congruence. }
  destruct prev as [p|]; [|exact Fresh].
  destruct (Qeq_bool w p) eqn:E; cbn [negb]; [|exact Fresh].
  destruct Hr as [<-|Hr]; [|exact (IH (Some p) Hrs' r Hr)].
  exists p. split; [|right; reflexivity]. apply Qeq_bool_iff in E. rewrite <- E. exact B.
Qed.

Lemma default_pos r : In r default_roundings -> 0 < r.
Proof. cbn. intuition subst; reflexivity. Qed.
Lemma final_pos r : In r final_roundings -> 0 < r.
Proof. cbn. intuition subst; reflexivity. Qed.

Lemma rationalize_bound_sound_lemma nsimp x d roundings compulsory u :
  nsimp_ok nsimp -> (forall rs, roundings = Some rs -> forall r, In r rs -> 0 < r) ->
  In u (rationalize_bound nsimp (Float x) d roundings compulsory) -> on_side d u x.
Proof.
  intros N Hr. unfold rationalize_bound.
  set (rs := match roundings with None => default_roundings | Some rs => rs end).
  assert (Hrs : forall r, In r rs -> 0 < r).
  { unfold rs. destruct roundings as [l|]; [exact (Hr l eq_refl)|exact default_pos]. }
  destruct (bound_loop nsimp x d 3 rs None) as [ys p] eqn:E.
  assert (A : In u ys -> on_side d u x).
  { intro Hu. apply (bound_loop_sound nsimp x d 3 rs None N eq_refl Hrs u). rewrite E. exact Hu. }
  destruct compulsory; [|exact A]. rewrite in_app_iff. intros [Hu|Hu]; [exact (A Hu)|].
  exact (proj1 (bound_loop_sound nsimp x d 10 final_roundings p N eq_refl final_pos u Hu)).
Qed.

Lemma rationalize_bound_reach_lemma nsimp x d roundings :
  nsimp_ok nsimp ->
  exists u, In u (rationalize_bound nsimp (Float x) d roundings true) /\
    Qabs (u - x) <= 11 # 1000000000000.
Proof.
  intro N. unfold rationalize_bound.
  set (rs := match roundings with None => default_roundings | Some rs => rs end).
  destruct (bound_loop nsimp x d 3 rs None) as [ys p] eqn:E.
  assert (L : In (1 # 1000000000000) final_roundings) by (cbn; tauto).
  destruct (bound_loop_reach nsimp x d 10 final_roundings p N eq_refl final_pos _ L) as (u & B & Hu).
  exists u. split.
  - rewrite in_app_iff. destruct Hu as [Hu|Hu]; [right; exact Hu|]. left.
    destruct (bound_loop_prev _ _ _ _ _ _ _ _ E) as [H|(u' & H & H1)]; [congruence|].
    assert (u = u') by congruence. subst. exact H1.
  - eapply Qle_trans; [exact B|]. cbn. unfold Qle. cbn. lia.
Qed.

(** *** Arrays *)

Lemma rationalize_array_close_lemma nsimp l tol ys :
  rationalize_array nsimp l tol true = Ok ys ->
  length ys = length l /\
  forall i, (i < length l)%nat -> exists y, nth i ys Zoo = Fin y /\
    (y == nval (nth i l (Exact 0)) \/ (y == 0 /\ Qabs (nval (nth i l (Exact 0))) < tol) \/
     Qabs (nval (nth i l (Exact 0)) - y) < close).
Proof.
  revert ys. induction l as [|v l IH]; intros ys H; cbn [rationalize_array] in H.
  - apply Ok_inj in H. subst. split; [reflexivity|]. intros i Hi. inversion Hi.
  - match type of H with match ?Y with _ => _ end = _ => destruct Y as [y|e] eqn:Ey end; [|discriminate].
    destruct (rationalize_array nsimp l tol true) as [zs|e] eqn:Ez; [|discriminate].
    apply Ok_inj in H. subst ys. destruct (IH zs eq_refl) as (L & A).
    split; [cbn; rewrite L; reflexivity|]. intros [|i] Hi.
    + cbn [nth]. destruct v as [x|x].
      * apply Ok_inj in Ey. subst y. exists x. split; [reflexivity|]. left. cbn. reflexivity.
      * destruct (Qltb (Qabs x) tol) eqn:Et.
        -- apply Ok_inj in Ey. subst y. exists 0. split; [reflexivity|]. right. left.
           split; [reflexivity|]. apply Qltb_lt. exact Et.
        -- unfold rationalize in Ey.
           destruct (rationalize_reliable_close_lemma x 32 ltac:(lia)) as (z & E1 & E2).
           rewrite E1 in Ey. apply Ok_inj in Ey. subst y. exists z. split; [reflexivity|].
           right. right. exact E2.
    + cbn [nth]. apply A. cbn in Hi. lia.
Qed.

Lemma rationalize_array_total nsimp l tol : exists ys, rationalize_array nsimp l tol true = Ok ys.
Proof.
  induction l as [|v l [zs IH]]; cbn [rationalize_array]; [eauto|]. rewrite IH.
  destruct v as [x|x]; [eauto|]. destruct (Qltb (Qabs x) tol); [eauto|].
  unfold rationalize. destruct (rationalize_reliable_close_lemma x 32 ltac:(lia)) as (z & -> & _). eauto.
Qed.

(** *** The search of rationalize_func *)

Lemma search_some nsimp validation initial vt dt cands t :
  search nsimp validation initial vt dt cands = Some t ->
  (In (Exact t) cands /\ validation t = true) \/ vt t = true.
Proof.
  induction cands as [|c l IH]; cbn [search]; [discriminate|].
  destruct c as [x|x].
  - destruct (validation x) eqn:E.
    + intro H. injection H as <-. left. split; [left; reflexivity|exact E].
    + intro H. destruct (IH H) as [[A B]|A]; [left|right; exact A]. split; [right; exact A|exact B].
  - assert (R : search nsimp validation initial vt dt l = Some t ->
      (In (Exact t) (Float x :: l) /\ validation t = true) \/ vt t = true).
    { intro H. destruct (IH H) as [[A B]|A]; [left|right; exact A]. split; [right; exact A|exact B]. }
    destruct (initial x); [|exact R].
    destruct (find vt _) as [u|] eqn:E; [|exact R].
    intro H. injection H as <-. right. apply find_some in E. exact (proj2 E).
Qed.

Lemma sgn_side x d : Qle_bool 0 (inject_Z (Z.sgn (Qnum x)) * dval d) = true ->
  match d with Up => 0 <= x | Any => True | Down => x <= 0 end.
Proof.
  intro H. apply Qle_bool_iff in H. destruct x as [n e]. cbn [Qnum] in H.
  destruct d; [|exact I|]; unfold Qle in *; cbn in *; destruct n; cbn in *; lia.
Qed.

Lemma rationalize_func_sound_lemma nsimp f f' roots validation initial d t :
  (forall x, In (Exact x) roots -> f x == 0) ->
  rationalize_func_poly nsimp f f' roots validation initial d = Some t ->
  validation t = true /\ match d with Up => 0 <= f t | Any => True | Down => f t <= 0 end.
Proof.
  intros Hr. unfold rationalize_func_poly.
  set (ini := match initial with Some g => g | None => validation end).
  destruct d; intro H; apply search_some in H; destruct H as [[A B]|A].
  - split; [exact B|]. pose proof (Hr _ A). lra.
  - apply andb_true_iff in A. destruct A as [A B]. split; [exact B|]. exact (sgn_side _ Up A).
  - split; [exact B|exact I].
  - split; [exact A|exact I].
  - split; [exact B|]. pose proof (Hr _ A). lra.
  - apply andb_true_iff in A. destruct A as [A B]. split; [exact B|]. exact (sgn_side _ Down A).
Qed.

(** A rational root that passes the validation is always found (perhaps after another answer). *)
Lemma search_none nsimp validation initial vt dt cands :
  search nsimp validation initial vt dt cands = None ->
  forall x, In (Exact x) cands -> validation x = false.
Proof.
  induction cands as [|c l IH]; cbn [search]; intros H x Hx; [destruct Hx|].
  destruct c as [y|y].
  - destruct (validation y) eqn:E; [discriminate|]. destruct Hx as [Hx|Hx]; [|exact (IH H x Hx)].
    injection Hx as <-. exact E.
  - destruct Hx as [Hx|Hx]; [discriminate|].
    destruct (initial y); [|exact (IH H x Hx)].
    destruct (find vt _); [discriminate|]. exact (IH H x Hx).
Qed.

Lemma rationalize_func_none_lemma nsimp f f' roots validation initial d :
  rationalize_func_poly nsimp f f' roots validation initial d = None ->
  forall x, In (Exact x) roots -> validation x = false.
Proof. unfold rationalize_func_poly. destruct d; apply search_none. Qed.
