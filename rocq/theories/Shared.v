(** * Preparation of the problems handed to the solvers (triples/core/shared.py) *)
From Coq Require Import Bool List Arith Lia Permutation Ring Field.
From Verif Require Import OrdField Base Perm Poly PolyId Monomials.
Import ListNotations.

(** ** Standard forms of constraints *)
Section Std.
Variable K : OrdField.
Local Open Scope of_scope.
Add Field Kf_std : (F_field K).

(** A factor list [(c, [(q, d); ...])] as returned by [sqf_list] / [factor_list]: the
    polynomial is [c * prod q^d]. A polynomial is represented by its value function, the
    recorded expression too; both are read at a point. *)
Definition fac := ((nat -> K) -> K)%type.
Fixpoint fprod_pow (l : list (fac * nat)) (x : nat -> K) : K :=
  match l with [] => 1 | (q, d) :: l' => q x ^ d * fprod_pow l' x end.
Definition factored (c : K) (l : list (fac * nat)) (x : nat -> K) : K := c * fprod_pow l x.

(** [_std_ineq_constraints] (shared.py:221-230) on a nonzero polynomial with the factor list
    [(c, l)]; the zero polynomial is returned unchanged (line 222). First component: the new
    polynomial [ret]; second: the new expression [e]. *)
Fixpoint std_ineq_loop (l : list (fac * nat)) (ret e : fac) : fac * fac :=
  match l with
  | [] => (ret, e)
  | (q, d) :: l' =>
      let ret' := if Nat.eqb (d mod 2) 1 then (fun x => ret x * q x) else ret in
      std_ineq_loop l' ret' (fun x => e x / q x ^ (d - d mod 2))
  end.
Definition std_ineq (c : K) (l : list (fac * nat)) (e : fac) : fac * fac :=
  std_ineq_loop l (fun _ => if fltb 0 c then 1 else - (1))
                  (fun x => e x / (if fltb 0 c then c else - c)).

(** [_std_eq_constraints] (shared.py:232-245): the largest multiplicity (at least 1), the new
    polynomial, and the radicand of the new expression; the expression itself is the
    [max_d]-th root of the radicand, negated for [c < 0]. [max(1, *())] of a factor list
    without factors is [max(1)], a [TypeError]. *)
Definition max_mult (l : list (fac * nat)) : res nat :=
  match l with [] => Err TypeError | _ => Ok (fold_left Nat.max (map snd l) 1%nat) end.
Fixpoint std_eq_loop (M : nat) (l : list (fac * nat)) (ret e : fac) : fac * fac :=
  match l with
  | [] => (ret, e)
  | (q, d) :: l' => std_eq_loop M l' (fun x => ret x * q x) (fun x => e x * q x ^ (M - d))
  end.
Definition std_eq (c : K) (l : list (fac * nat)) (e : fac) : res (nat * fac * fac) :=
  match max_mult l with
  | Err r => Err r
  | Ok M => let (ret, e') := std_eq_loop M l (fun _ => if fltb 0 c then 1 else - (1)) (fun x => e x / c) in
            Ok (M, ret, e')
  end.

(** *** Facts *)
(** the factors removed by the standard form do not vanish *)
Definition removed_ok (l : list (fac * nat)) (x : nat -> K) : Prop :=
  forall q d, In (q, d) l -> (2 <= d)%nat -> q x <> 0.
Fixpoint odd_part (l : list (fac * nat)) (x : nat -> K) : K :=
  match l with [] => 1 | (q, d) :: l' => (if Nat.eqb (d mod 2) 1 then q x else 1) * odd_part l' x end.
Fixpoint even_part (l : list (fac * nat)) (x : nat -> K) : K :=
  match l with [] => 1 | (q, d) :: l' => q x ^ (d - d mod 2) * even_part l' x end.

Lemma mod2_cases d : (d mod 2 = 0 \/ d mod 2 = 1)%nat.
Proof. pose proof (Nat.mod_upper_bound d 2). lia. Qed.
Lemma even_half d : exists k, (d - d mod 2 = 2 * k)%nat.
Proof. exists (d / 2)%nat. pose proof (Nat.div_mod d 2). lia. Qed.
Lemma fpow_split_mod (a : K) d : a ^ d = (if Nat.eqb (d mod 2) 1 then a else 1) * a ^ (d - d mod 2).
Proof.
  destruct (mod2_cases d) as [E|E]; rewrite E; cbn [Nat.eqb].
  - rewrite Nat.sub_0_r. ring.
  - assert (d = S (d - 1))%nat as H by (pose proof (Nat.mod_le d 2); lia). rewrite H at 1. reflexivity.
Qed.
Lemma prod_split l x : fprod_pow l x = odd_part l x * even_part l x.
Proof.
  induction l as [|[q d] l IH]; cbn [fprod_pow odd_part even_part]; [ring|].
  rewrite IH, (fpow_split_mod (q x) d). ring.
Qed.
Lemma fpow_neq0_le (a : K) d : ((1 <= d)%nat -> a <> 0) -> a ^ d <> 0.
Proof. destruct d; intro H; [cbn; apply fneq10|]. apply fpow_neq0, H. lia. Qed.
Lemma even_part_nonneg l x : 0 <= even_part l x.
Proof.
  induction l as [|[q d] l IH]; cbn [even_part]; [apply f1_nonneg|].
  apply fmul_nonneg; [|exact IH]. apply fpow_even_nonneg.
  destruct (even_half d) as [k ->]. apply Nat.even_spec. exists k. reflexivity.
Qed.
Lemma removed_ok_tl q d l x : removed_ok ((q, d) :: l) x -> removed_ok l x.
Proof. intros H q' d' Hin. apply H. right. exact Hin. Qed.
Lemma even_part_neq0 l x : removed_ok l x -> even_part l x <> 0.
Proof.
  induction l as [|[q d] l IH]; cbn [even_part]; intros H; [apply fneq10|].
  apply fmul_neq0; [|apply IH, (removed_ok_tl _ _ _ _ H)].
  apply fpow_neq0_le. intro Hd. apply (H q d); [left; reflexivity|].
  destruct d as [|[|d]]; [cbn in Hd; lia|cbn in Hd; lia|lia].
Qed.
Lemma even_part_pos l x : removed_ok l x -> 0 < even_part l x.
Proof.
  intro H. destruct (proj1 (fle_lt_eq K _ _) (even_part_nonneg l x)) as [H2|H2]; [exact H2|exfalso].
  apply (even_part_neq0 l x H). symmetry. exact H2.
Qed.

Lemma std_ineq_loop_spec l : forall ret e x,
  fst (std_ineq_loop l ret e) x = ret x * odd_part l x /\
  (removed_ok l x -> snd (std_ineq_loop l ret e) x = e x / even_part l x).
Proof.
  induction l as [|[q d] l IH]; intros ret e x; cbn [std_ineq_loop odd_part even_part fst snd]; cbv zeta.
  - split; [ring|]. intros _. field. apply fneq10.
  - destruct (IH (if Nat.eqb (d mod 2) 1 then (fun y => ret y * q y) else ret) (fun y => e y / q y ^ (d - d mod 2)) x) as [A B].
    split.
    + etransitivity; [exact A|]. destruct (Nat.eqb (d mod 2) 1); ring.
    + intro H. pose proof (removed_ok_tl _ _ _ _ H) as H'.
      etransitivity; [exact (B H')|]. pose proof (even_part_neq0 l x H') as Hp.
      assert (Hq : q x ^ (d - d mod 2) <> 0).
      { apply fpow_neq0_le. intro Hd. apply (H q d); [left; reflexivity|].
        destruct d as [|[|d]]; [cbn in Hd; lia|cbn in Hd; lia|lia]. }
      field. split; assumption.
Qed.
Lemma abs_pos (c : K) : c <> 0 -> 0 < (if fltb 0 c then c else - c).
Proof.
  intro Hc. destruct (fltb 0 c) eqn:E; [apply fltb_lt; exact E|].
  apply fltb_ge in E. destruct (proj1 (fle_lt_eq K _ _) E) as [H| ->]; [|congruence].
  apply flt_sub in H. replace (- c) with (0 - c) by ring. exact H.
Qed.
Lemma sgn_abs (c : K) : c = (if fltb 0 c then 1 else - (1)) * (if fltb 0 c then c else - c).
Proof. destruct (fltb 0 c); ring. Qed.

Lemma fmul_pos_nonneg_iff (a b : K) : 0 < a -> (0 <= a * b <-> 0 <= b).
Proof.
  intro Ha. split; intro H.
  - replace b with ((a * b) / a) by (field; apply flt_neq0; exact Ha). apply fdiv_nonneg; assumption.
  - apply fmul_nonneg; [apply flt_le; exact Ha|exact H].
Qed.

Lemma std_ineq_factored c l e x :
  factored c l x = (if fltb 0 c then c else - c) * even_part l x * fst (std_ineq c l e) x.
Proof.
  unfold std_ineq, factored. rewrite (proj1 (std_ineq_loop_spec l _ _ x)), prod_split. cbv beta.
  rewrite (sgn_abs c) at 1. ring.
Qed.
Lemma std_ineq_spec c l e x : c <> 0 -> removed_ok l x ->
  (0 <= fst (std_ineq c l e) x <-> 0 <= factored c l x) /\
  (e x = factored c l x -> snd (std_ineq c l e) x = fst (std_ineq c l e) x).
Proof.
  intros Hc H. pose proof (abs_pos c Hc) as Ha. pose proof (even_part_pos l x H) as Hp. split.
  - rewrite (std_ineq_factored c l e x). symmetry. apply fmul_pos_nonneg_iff. apply fmul_pos; assumption.
  - intro He. unfold std_ineq at 1. rewrite (proj2 (std_ineq_loop_spec l _ _ x) H). cbv beta. rewrite He.
    rewrite (std_ineq_factored c l e x). apply flt_neq0 in Ha. apply flt_neq0 in Hp. field. split; assumption.
Qed.
Lemma std_ineq_implies c l e x : c <> 0 -> 0 <= fst (std_ineq c l e) x -> 0 <= factored c l x.
Proof.
  intros Hc H. rewrite (std_ineq_factored c l e x). apply fmul_nonneg; [|exact H].
  apply fmul_nonneg; [apply flt_le, abs_pos, Hc|apply even_part_nonneg].
Qed.

(** equations *)
Fixpoint plain_part (l : list (fac * nat)) (x : nat -> K) : K :=
  match l with [] => 1 | (q, _) :: l' => q x * plain_part l' x end.
Lemma fold_max_ge (l : list nat) a : (a <= fold_left Nat.max l a)%nat /\ (forall d, In d l -> (d <= fold_left Nat.max l a)%nat).
Proof.
  revert a. induction l as [|b l IH]; intro a; cbn [fold_left]; [split; [lia|intros d []]|].
  destruct (IH (Nat.max a b)) as [A B]. split; [lia|]. intros d [<-|Hd]; [lia|apply B, Hd].
Qed.
Lemma std_eq_loop_spec M l : forall ret e x, (forall q d, In (q, d) l -> (d <= M)%nat) ->
  fst (std_eq_loop M l ret e) x = ret x * plain_part l x /\
  snd (std_eq_loop M l ret e) x * fprod_pow l x = e x * plain_part l x ^ M /\
  (e x = 0 -> snd (std_eq_loop M l ret e) x = 0).
Proof.
  induction l as [|[q d] l IH]; intros ret e x Hd; cbn [std_eq_loop plain_part fprod_pow fst snd].
  - split; [ring|]. assert (E : (1:K) ^ M = 1) by (clear; induction M as [|M IH]; cbn; [reflexivity|rewrite IH; ring]).
    rewrite E. split; [ring|tauto].
  - destruct (IH (fun y => ret y * q y) (fun y => e y * q y ^ (M - d)) x) as [A [B C]].
    { intros q' d' Hin. apply (Hd q'). right. exact Hin. }
    split; [rewrite A; ring|]. split; [|intro Hz; apply C; rewrite Hz; ring].
    rewrite fpow_mul_l. replace (q x ^ M) with (q x ^ (M - d) * q x ^ d).
    2:{ rewrite <- fpow_add. f_equal. specialize (Hd q d (or_introl eq_refl)). lia. }
    transitivity (q x ^ d * (snd (std_eq_loop M l (fun y => ret y * q y) (fun y => e y * q y ^ (M - d))) x * fprod_pow l x)); [ring|].
    rewrite B. ring.
Qed.
Lemma plain_zero_iff l x : (forall q d, In (q, d) l -> (1 <= d)%nat) -> (plain_part l x = 0 <-> fprod_pow l x = 0).
Proof.
  induction l as [|[q d] l IH]; cbn [plain_part fprod_pow]; intro H; [tauto|].
  assert (IH' := IH (fun q' d' Hin => H q' d' (or_intror Hin))). specialize (H q d (or_introl eq_refl)).
  split; intro E; apply fmul_eq0 in E; destruct E as [E|E].
  - rewrite E. rewrite (fpow_0 K d) by lia. ring.
  - rewrite (proj1 IH' E). ring.
  - destruct (feq_dec K (q x) 0) as [->|Hq]; [ring|]. exfalso. exact (fpow_neq0 K (q x) d Hq E).
  - rewrite (proj2 IH' E). ring.
Qed.
Lemma std_eq_spec c l e M ret e' x : c <> 0 -> (forall q d, In (q, d) l -> (1 <= d)%nat) ->
  std_eq c l e = Ok (M, ret, e') ->
  (ret x = 0 <-> factored c l x = 0) /\
  (ret x = plain_part l x \/ ret x = - plain_part l x) /\
  (e x = factored c l x -> e' x = plain_part l x ^ M).
Proof.
  intros Hc Hd. unfold std_eq, max_mult. destruct l as [|t l0] eqn:El; [discriminate|]. rewrite <- El in *. clear El t l0.
  set (M0 := fold_left Nat.max (map snd l) 1%nat).
  assert (HM : forall q d, In (q, d) l -> (d <= M0)%nat).
  { intros q d Hin. apply (proj2 (fold_max_ge (map snd l) 1)). apply (in_map snd) in Hin. exact Hin. }
  destruct (std_eq_loop M0 l _ _) as [r0 e0] eqn:E. intro H. apply Ok_inj in H. injection H as <- <- <-.
  destruct (std_eq_loop_spec M0 l (fun _ => if fltb 0 c then 1 else - (1)) (fun y => e y / c) x HM) as [A [B C]].
  rewrite E in A, B, C. cbn [fst snd] in A, B, C. unfold factored. repeat split.
  - intro Hz. rewrite A in Hz. assert (Hp : plain_part l x = 0).
    { apply fmul_eq0 in Hz. destruct Hz as [Hz|Hz]; [|exact Hz]. exfalso. destruct (fltb 0 c); [exact (fneq10 K Hz)|].
      apply (fneq10 K). transitivity (- - (1) : K); [ring|]. rewrite Hz. ring. }
    rewrite (proj1 (plain_zero_iff l x Hd) Hp). ring.
  - intro Hz. apply fmul_eq0 in Hz. destruct Hz as [Hz|Hz]; [congruence|].
    rewrite A, (proj2 (plain_zero_iff l x Hd) Hz). ring.
  - rewrite A. destruct (fltb 0 c); [left|right]; ring.
  - intros He. destruct (feq_dec K (fprod_pow l x) 0) as [Hn|Hn].
    { rewrite C by (rewrite He; unfold factored; rewrite Hn; field; exact Hc).
      rewrite (proj2 (plain_zero_iff l x Hd) Hn), fpow_0; [reflexivity|].
      pose proof (proj1 (fold_max_ge (map snd l) 1)). unfold M0. lia. }
    rewrite He in B. transitivity (e0 x * fprod_pow l x / fprod_pow l x); [field; exact Hn|].
    rewrite B. unfold factored. field. split; assumption.
Qed.
Lemma std_eq_final c l e M ret e' x : c <> 0 -> (forall q d, In (q, d) l -> (1 <= d)%nat) ->
  std_eq c l e = Ok (M, ret, e') ->
  (ret x = 0 <-> factored c l x = 0) /\
  (e x = factored c l x -> (e' x = ret x ^ M \/ e' x = (- ret x) ^ M)).
Proof.
  intros Hc Hd H. destruct (std_eq_spec c l e M ret e' x Hc Hd H) as [A [[B|B] C]]; (split; [exact A|]); intro He; rewrite (C He).
  - left. rewrite B. reflexivity.
  - right. rewrite B. f_equal. ring.
Qed.
End Std.

(** ** Homogenisation *)
Section Hom.
Variable K : OrdField.
Local Open Scope of_scope.
Add Field Kf_hom : (F_field K).

(** [poly.homogenize(t)] of sympy as used in shared.py:71, 89, 324-327: the new symbol is the
    last generator and every term is filled up to the total degree of the polynomial. *)
Definition homogenize (p : poly K) : poly K :=
  map (fun t => (fst t ++ [(total_degree p - list_sum (fst t))%nat], snd t)) p.
(** [poly.is_homogeneous] *)
Definition is_homogeneous (p : poly K) : bool :=
  forallb (fun t => Nat.eqb (list_sum (fst t)) (total_degree p)) p.
(** [homogenize] of shared.py:45-72: second component tells whether a symbol was added. *)
Definition homogenize_poly (p : poly K) : poly K * bool :=
  if is_homogeneous p then (p, false) else (homogenize p, true).

(** The problem after shared.py:318-329: goal, inequality constraints, equality constraints and
    whether the homogenising symbol (number [n], the number of symbols) was introduced. The
    recorded expressions of the constraints stay the same. *)
Definition homogenize_problem (flag : bool) (n : nat) (goal : poly K) (ineqs eqs : list (poly K))
  : poly K * list (poly K) * list (poly K) * bool :=
  if negb (is_homogeneous goal && forallb is_homogeneous ineqs && forallb is_homogeneous eqs) && flag
  then (homogenize goal, map homogenize ineqs ++ [[(repeat 0%nat n ++ [1%nat], 1)]], map homogenize eqs, true)
  else (goal, ineqs, eqs, false).

(** *** Facts *)
Lemma meval_snoc (x : nat -> K) m k : meval x (m ++ [k]) = meval x m * x (length m) ^ k.
Proof.
  revert x. induction m as [|e m IH]; intro x; cbn [app length].
  - rewrite meval_cons, !meval_nil. ring.
  - rewrite !meval_cons, IH. ring.
Qed.
Lemma meval_scale (x : nat -> K) t m : meval (fun i => t * x i) m = t ^ list_sum m * meval x m.
Proof.
  revert x. induction m as [|e m IH]; intro x.
  - rewrite !meval_nil. cbn. ring.
  - rewrite !meval_cons. change (list_sum (e :: m)) with (e + list_sum m)%nat.
    rewrite fpow_add, fpow_mul_l, (IH (fun i => x (S i))). ring.
Qed.
Lemma meval_ext_len (x y : nat -> K) m : (forall i, (i < length m)%nat -> x i = y i) -> meval x m = meval y m.
Proof.
  revert x y. induction m as [|e m IH]; intros x y H; [reflexivity|].
  rewrite !meval_cons. rewrite (H 0%nat) by (cbn; lia). f_equal. apply IH. intros i Hi. apply H. cbn. lia.
Qed.
Lemma total_degree_ge (p : poly K) t : In t p -> (list_sum (fst t) <= total_degree p)%nat.
Proof.
  unfold total_degree. induction p as [|u p IH]; intros []; cbn [fold_right]; [subst; lia|].
  specialize (IH H). lia.
Qed.
Lemma list_sum_snoc l k : list_sum (l ++ [k]) = (list_sum l + k)%nat.
Proof. induction l as [|a l IH]; cbn [app]; [cbn; lia|]. change (list_sum (a :: (l ++ [k]))) with (a + list_sum (l ++ [k]))%nat. rewrite IH. change (list_sum (a :: l)) with (a + list_sum l)%nat. lia. Qed.

Lemma homogenize_degree p m : In m (keys (homogenize p)) -> list_sum m = total_degree p.
Proof.
  unfold keys, homogenize. rewrite map_map. cbn [fst]. intro H. apply in_map_iff in H. destruct H as [t [<- Ht]].
  rewrite list_sum_snoc. pose proof (total_degree_ge p t Ht). lia.
Qed.
Lemma homogenize_wf n p : wf n p -> wf (S n) (homogenize p).
Proof.
  intros [Hnd Hlen]. split.
  - apply (NoDup_map_inv (fun m => firstn n m)). unfold keys, homogenize. rewrite !map_map. cbn [fst].
    rewrite map_ext_in with (g := fst); [exact Hnd|]. intros t Ht.
    rewrite firstn_app, (Hlen (fst t)) by (apply in_map; exact Ht). rewrite Nat.sub_diag, firstn_O, app_nil_r.
    apply firstn_all2. rewrite (Hlen (fst t)); [lia|apply in_map; exact Ht].
  - intros m Hm. unfold keys, homogenize in Hm. rewrite map_map in Hm. apply in_map_iff in Hm. destruct Hm as [t [<- Ht]].
    cbn [fst]. rewrite app_length, (Hlen (fst t)) by (apply in_map; exact Ht). cbn. lia.
Qed.
Lemma homogenize_one n p x : wf n p -> x n = 1 -> peval x (homogenize p) = peval x p.
Proof.
  intros [_ Hlen] Hx. unfold peval, homogenize. rewrite map_map. apply fsum_map_ext. intros t Ht. cbn [fst snd].
  rewrite meval_snoc, (Hlen (fst t)) by (apply in_map; exact Ht). rewrite Hx.
  assert (E : forall k, (1:K) ^ k = 1) by (induction k as [|k IH]; cbn; [reflexivity|rewrite IH; ring]).
  rewrite E. ring.
Qed.
Lemma homogenize_scaled n p x : wf n p -> x n <> 0 ->
  peval x (homogenize p) = x n ^ total_degree p * peval (fun i => x i / x n) p.
Proof.
  intros [_ Hlen] Hx. unfold peval, homogenize. rewrite map_map, <- fsum_map_mul_l.
  apply fsum_map_ext. intros t Ht. cbn [fst snd].
  rewrite meval_snoc, (Hlen (fst t)) by (apply in_map; exact Ht).
  rewrite (meval_ext_len (fun i => x i / x n) (fun i => / x n * x i)).
  2:{ intros i _. field. exact Hx. }
  rewrite meval_scale.
  replace (x n ^ total_degree p) with (x n ^ (total_degree p - list_sum (fst t)) * x n ^ list_sum (fst t)).
  2:{ rewrite <- fpow_add. f_equal. pose proof (total_degree_ge p t Ht). lia. }
  assert (E : x n ^ list_sum (fst t) * (/ x n) ^ list_sum (fst t) = 1).
  { rewrite <- fpow_mul_l. replace (x n * / x n) with (1 : K) by (field; exact Hx).
    generalize (list_sum (fst t)). induction n0 as [|k IH]; cbn; [reflexivity|rewrite IH; ring]. }
  transitivity (snd t * meval x (fst t) * x n ^ (total_degree p - list_sum (fst t)) * (x n ^ list_sum (fst t) * (/ x n) ^ list_sum (fst t))); [|ring].
  rewrite E. ring.
Qed.

(** a point satisfies the constraints *)
Definition feasible (ineqs eqs : list (poly K)) (x : nat -> K) : Prop :=
  (forall p, In p ineqs -> 0 <= peval x p) /\ (forall p, In p eqs -> peval x p = 0).
(** the point with the homogenising variable set to one *)
Definition at_one (n : nat) (x : nat -> K) : nat -> K := fun i => if Nat.eqb i n then 1 else x i.
Lemma peval_ext_len n p (x y : nat -> K) : wf n p -> (forall i, (i < n)%nat -> x i = y i) -> peval x p = peval y p.
Proof.
  intros [_ Hlen] H. unfold peval. apply fsum_map_ext. intros t Ht. f_equal. apply meval_ext_len.
  intros i Hi. apply H. rewrite <- (Hlen (fst t)); [exact Hi|apply in_map; exact Ht].
Qed.
Lemma at_one_peval n p x : wf n p -> peval (at_one n x) p = peval x p.
Proof.
  intro H. apply (peval_ext_len n); [exact H|]. intros i Hi. unfold at_one.
  destruct (Nat.eqb_spec i n); [lia|reflexivity].
Qed.
Lemma at_one_n n x : at_one n x n = 1.
Proof. unfold at_one. rewrite Nat.eqb_refl. reflexivity. Qed.
Lemma hom_var_eval n (y : nat -> K) : peval y [(repeat 0%nat n ++ [1%nat], 1)] = y n.
Proof.
  unfold peval. cbn [map fsum fst snd]. rewrite meval_snoc, repeat_length.
  assert (E : forall (x : nat -> K), meval x (repeat 0%nat n) = 1).
  { induction n as [|n IH]; intro x; cbn [repeat]; [apply meval_nil|]. rewrite meval_cons, IH. cbn. ring. }
  rewrite E. cbn [fpow]. ring.
Qed.
Lemma homogenize_problem_eval flag n goal ineqs eqs goal' ineqs' eqs' :
  wf n goal -> (forall p, In p ineqs \/ In p eqs -> wf n p) ->
  homogenize_problem flag n goal ineqs eqs = (goal', ineqs', eqs', true) -> forall x,
  peval (at_one n x) goal' = peval x goal /\
  (feasible ineqs eqs x <-> feasible ineqs' eqs' (at_one n x)).
Proof.
  intros Hg Hwf E x. unfold homogenize_problem in E. destruct (negb _ && flag); [|discriminate].
  injection E as <- <- <-. split.
  - rewrite (homogenize_one n) by (try exact Hg; apply at_one_n). apply at_one_peval, Hg.
  - unfold feasible. split; intros [A B]; split; intros p Hp.
    + apply in_app_or in Hp. destruct Hp as [Hp|[<-|[]]].
      * apply in_map_iff in Hp. destruct Hp as [p0 [<- Hp]]. specialize (A p0 Hp).
        rewrite (homogenize_one n), at_one_peval by (try apply at_one_n; apply Hwf; left; exact Hp). exact A.
      * rewrite hom_var_eval, at_one_n. apply f1_nonneg.
    + apply in_map_iff in Hp. destruct Hp as [p0 [<- Hp]]. specialize (B p0 Hp).
      rewrite (homogenize_one n), at_one_peval by (try apply at_one_n; apply Hwf; right; exact Hp). exact B.
    + assert (C := A (homogenize p)). rewrite (homogenize_one n), at_one_peval in C by (try apply at_one_n; apply Hwf; left; exact Hp).
      apply C, in_or_app. left. apply in_map, Hp.
    + assert (C := B (homogenize p)). rewrite (homogenize_one n), at_one_peval in C by (try apply at_one_n; apply Hwf; right; exact Hp).
      apply C, in_map, Hp.
Qed.
Lemma homogenize_problem_scaled flag n goal ineqs eqs goal' ineqs' eqs' :
  wf n goal -> (forall p, In p ineqs \/ In p eqs -> wf n p) ->
  homogenize_problem flag n goal ineqs eqs = (goal', ineqs', eqs', true) -> forall y,
  0 < y n ->
  (0 <= peval y goal' <-> 0 <= peval (fun i => y i / y n) goal) /\
  (feasible ineqs' eqs' y <-> feasible ineqs eqs (fun i => y i / y n)).
Proof.
  intros Hg Hwf E y Hy. unfold homogenize_problem in E. destruct (negb _ && flag); [|discriminate].
  injection E as <- <- <-. pose proof (flt_neq0 Hy) as Hn. split.
  - rewrite (homogenize_scaled n) by assumption. apply fmul_pos_nonneg_iff, fpow_pos, Hy.
  - unfold feasible. split; intros [A B]; split; intros p Hp.
    + assert (C := A (homogenize p)). rewrite (homogenize_scaled n) in C by (try exact Hn; apply Hwf; left; exact Hp).
      apply (fmul_pos_nonneg_iff K (y n ^ total_degree p)); [apply fpow_pos, Hy|]. apply C, in_or_app. left. apply in_map, Hp.
    + assert (C := B (homogenize p)). rewrite (homogenize_scaled n) in C by (try exact Hn; apply Hwf; right; exact Hp).
      specialize (C (in_map homogenize _ _ Hp)). apply fmul_eq0 in C. destruct C as [C|C]; [|exact C].
      exfalso. exact (fpow_neq0 K (y n) _ Hn C).
    + apply in_app_or in Hp. destruct Hp as [Hp|[<-|[]]].
      * apply in_map_iff in Hp. destruct Hp as [p0 [<- Hp]].
        rewrite (homogenize_scaled n) by (try exact Hn; apply Hwf; left; exact Hp).
        apply fmul_pos_nonneg_iff; [apply fpow_pos, Hy|]. apply A, Hp.
      * rewrite hom_var_eval. apply flt_le, Hy.
    + apply in_map_iff in Hp. destruct Hp as [p0 [<- Hp]].
      rewrite (homogenize_scaled n) by (try exact Hn; apply Hwf; right; exact Hp).
      rewrite (B p0 Hp). ring.
Qed.
Lemma is_homogeneous_spec p : is_homogeneous p = true <-> forall t, In t p -> list_sum (fst t) = total_degree p.
Proof.
  unfold is_homogeneous. rewrite forallb_forall. split; intros H t Ht; specialize (H t Ht).
  - apply Nat.eqb_eq. exact H.
  - apply Nat.eqb_eq. exact H.
Qed.
Lemma total_degree_all (p : poly K) d : (forall t, In t p -> list_sum (fst t) = d) -> p <> [] -> total_degree p = d.
Proof.
  unfold total_degree. induction p as [|t p IH]; intros H Hn; [congruence|]. cbn [fold_right].
  pose proof (H t (or_introl eq_refl)) as Ht. destruct p as [|u p]; [cbn [fold_right]; lia|].
  rewrite IH; [lia| |discriminate]. intros v Hv. apply H. right. exact Hv.
Qed.
Lemma homogenize_is_homogeneous p : is_homogeneous (homogenize p) = true.
Proof.
  apply is_homogeneous_spec. intros t Ht.
  assert (A : forall u, In u (homogenize p) -> list_sum (fst u) = total_degree p).
  { intros u Hu. apply homogenize_degree. apply in_map. exact Hu. }
  rewrite (A t Ht). symmetry. apply total_degree_all; [exact A|]. intro E. rewrite E in Ht. exact Ht.
Qed.
Lemma homogenize_problem_flag flag n goal ineqs eqs goal' ineqs' eqs' b :
  homogenize_problem flag n goal ineqs eqs = (goal', ineqs', eqs', b) ->
  (b = true <-> flag = true /\ ~ forall p, In p (goal :: ineqs ++ eqs) -> forall t, In t p -> list_sum (fst t) = total_degree p) /\
  (b = false -> goal' = goal /\ ineqs' = ineqs /\ eqs' = eqs).
Proof.
  unfold homogenize_problem. set (c := is_homogeneous goal && forallb is_homogeneous ineqs && forallb is_homogeneous eqs).
  assert (Hc : c = true <-> forall p, In p (goal :: ineqs ++ eqs) -> forall t, In t p -> list_sum (fst t) = total_degree p).
  { unfold c. rewrite !andb_true_iff, !forallb_forall. split.
    - intros [[A B] C] p [<-|Hp]; [apply is_homogeneous_spec, A|]. apply in_app_or in Hp.
      apply is_homogeneous_spec. destruct Hp as [Hp|Hp]; [apply B, Hp|apply C, Hp].
    - intro H. repeat split; [|intros p Hp|intros p Hp]; apply is_homogeneous_spec, H; cbn [In]; [left; reflexivity| |];
        right; apply in_or_app; [left|right]; exact Hp. }
  rewrite <- Hc. destruct c, flag; cbn [negb andb]; intro E; injection E as <- <- <- <-;
    (split; [split; [intro X; try discriminate X; split; congruence|intros [X Y]; try congruence; tauto]|intro X; try discriminate X; repeat split]).
Qed.
End Hom.

(** ** Inferred symmetry *)
(** [_rotated] and [_reflected] (shared.py:149-152) *)
Definition rotated (n start : nat) : list nat := seq (start + 1) (n + start - (start + 1)) ++ [start].
Definition reflected (n start : nat) : list nat := [start + 1; start] ++ seq (start + 2) (n + start - (start + 2)).
(** the candidates (shared.py:154-178); [h] is [has_homogenized] *)
Definition candidates (nvars : nat) (h : bool) : list (list nat) :=
  if 1 <? nvars then
    [rotated nvars 0] ++
    (if 2 <? nvars then [reflected nvars 0] else []) ++
    (if (3 <? nvars) && Nat.eqb ((nvars - (if h then 1 else 0)) mod 2) 0 then
       let half := nvars / 2 in
       let last := if h then [nvars - 1] else [] in
       [rotated half 0 ++ rotated half half ++ last;
        reflected half 0 ++ reflected half half ++ last;
        seq half half ++ seq 0 half ++ last]
     else []) ++
    (if h && (2 <? nvars) then
       [rotated (nvars - 1) 0 ++ [nvars - 1]] ++
       (if 3 <? nvars then [reflected (nvars - 1) 0 ++ [nvars - 1]] else [])
     else [])
  else [].

Section Sym.
Variable K : OrdField.
Local Open Scope of_scope.
Add Field Kf_sym : (F_field K).

(** equality of two sympy representations: the same coefficients *)
Definition peqb (p q : poly K) : bool := forallb (fun m => feqb (coef p m) (coef q m)) (keys p ++ keys q).
(** [poly.reorder] with the generators [perm(gens)] (shared.py:137): exponents listed in the order of the permuted generators *)
Definition reorder (g : list nat) (p : poly K) : poly K := map (fun t => (act 0%nat g (fst t), snd t)) p.

(** [check_symmetry] (shared.py:132-145) *)
Definition check_symmetry (polys : list (poly K)) (perm : list nat) : bool :=
  let moved := filter (fun p => negb (peqb p (reorder perm p))) polys in
  forallb (fun p => existsb (fun q => peqb q (reorder perm p)) moved) moved.
(** [identify_symmetry_from_lists] (shared.py:94-187): the generators of the returned group *)
Definition identify_symmetry_from_lists (nvars : nat) (lists : list (list (poly K))) (h : bool) : list (list nat) :=
  match filter (fun perm => forallb (fun l => check_symmetry l perm) lists) (candidates nvars h) with
  | [] => [seq 0 nvars]
  | verified => verified
  end.

(** *** Facts *)
Lemma rotated_perm n s : (1 <= n)%nat -> Permutation (rotated n s) (seq s n).
Proof.
  intro H. unfold rotated. replace (n + s - (s + 1))%nat with (n - 1)%nat by lia.
  apply Permutation_trans with (s :: seq (s + 1) (n - 1)); [apply Permutation_sym, Permutation_cons_append|].
  destruct n as [|n]; [lia|]. cbn [seq]. replace (S n - 1)%nat with n by lia. replace (s + 1)%nat with (S s) by lia. apply Permutation_refl.
Qed.
Lemma reflected_perm n s : (2 <= n)%nat -> Permutation (reflected n s) (seq s n).
Proof.
  intro H. unfold reflected. replace (n + s - (s + 2))%nat with (n - 2)%nat by lia.
  destruct n as [|[|n]]; [lia|lia|]. replace (S (S n) - 2)%nat with n by lia. cbn [seq app].
  replace (s + 1)%nat with (S s) by lia. replace (s + 2)%nat with (S (S s)) by lia. apply perm_swap.
Qed.
Lemma seq_snoc n s : seq s n ++ [(s + n)%nat] = seq s (S n).
Proof. rewrite <- Nat.add_1_r, seq_app. reflexivity. Qed.
Lemma halves n h : (3 <? n)%nat && Nat.eqb ((n - (if h : bool then 1 else 0)) mod 2) 0 = true ->
  let half := (n / 2)%nat in (2 <= half)%nat /\
  Permutation (seq 0 half ++ seq half half ++ (if h then [(n - 1)%nat] else [])) (seq 0 n).
Proof.
  intro H. apply andb_true_iff in H. destruct H as [H1 H2]. apply Nat.ltb_lt in H1. apply Nat.eqb_eq in H2.
  cbv zeta. pose proof (Nat.div_mod n 2). pose proof (Nat.mod_upper_bound n 2).
  assert (D : (n = 2 * (n / 2) + (if h then 1 else 0))%nat).
  { destruct h.
    - apply Nat.mod_divide in H2; [|lia]. destruct H2 as [k Hk]. assert (n = 1 + k * 2)%nat by lia.
      rewrite H2 at 2. rewrite Nat.div_add by lia. cbn [Nat.div Nat.divmod fst]. change (1 / 2)%nat with 0%nat. lia.
    - rewrite Nat.sub_0_r in H2. lia. }
  split; [destruct h; lia|]. set (k := (n / 2)%nat) in *. rewrite app_assoc, <- seq_app. cbn [Nat.add].
  destruct h.
  - replace (n - 1)%nat with (0 + (k + k))%nat by lia. rewrite seq_snoc. replace (S (k + k)) with n by lia. apply Permutation_refl.
  - rewrite app_nil_r. replace (k + k)%nat with n by lia. apply Permutation_refl.
Qed.
Lemma candidates_perm n h p : In p (candidates n h) -> is_perm n p.
Proof.
  unfold candidates, is_perm. destruct (Nat.ltb_spec 1 n) as [H1|]; [|intros []].
  intro H. apply in_app_or in H. destruct H as [[<-|[]]|H]; [apply rotated_perm; lia|].
  apply in_app_or in H. destruct H as [H|H].
  { destruct (Nat.ltb_spec 2 n); [|destruct H]. destruct H as [<-|[]]. apply reflected_perm. lia. }
  apply in_app_or in H. destruct H as [H|H].
  { destruct ((3 <? n)%nat && Nat.eqb ((n - (if h then 1 else 0)) mod 2) 0) eqn:E; [|destruct H].
    apply halves in E. cbv zeta in *. destruct E as [E2 E]. destruct H as [<-|[<-|[<-|[]]]];
    (eapply Permutation_trans; [|exact E]).
    - apply Permutation_app; [apply rotated_perm; lia|]. apply Permutation_app_tail. apply rotated_perm. lia.
    - apply Permutation_app; [apply reflected_perm; lia|]. apply Permutation_app_tail. apply reflected_perm. lia.
    - rewrite !app_assoc. apply Permutation_app_tail. apply Permutation_app_comm. }
  destruct (h && (2 <? n)%nat) eqn:E; [|destruct H]. apply andb_true_iff in E. destruct E as [_ E]. apply Nat.ltb_lt in E.
  assert (S1 : seq 0 (n - 1) ++ [(n - 1)%nat] = seq 0 n).
  { etransitivity; [exact (seq_snoc (n - 1) 0)|]. f_equal. lia. }
  apply in_app_or in H. destruct H as [[<-|[]]|H].
  - rewrite <- S1. apply Permutation_app_tail, rotated_perm. lia.
  - destruct (Nat.ltb_spec 3 n); [|destruct H]. destruct H as [<-|[]]. rewrite <- S1. apply Permutation_app_tail, reflected_perm. lia.
Qed.

Definition same (p q : poly K) : Prop := forall m, coef p m = coef q m.
Lemma same_refl p : same p p. Proof. intro m. reflexivity. Qed.
Lemma same_sym p q : same p q -> same q p. Proof. intros H m. symmetry. apply H. Qed.
Lemma same_trans p q r : same p q -> same q r -> same p r. Proof. intros H1 H2 m. rewrite H1. apply H2. Qed.
Lemma peqb_same p q : peqb p q = true <-> same p q.
Proof.
  unfold peqb, same. rewrite forallb_forall. split.
  - intros H m. destruct (in_dec mon_dec m (keys p ++ keys q)) as [Hin|Hin].
    + apply feqb_eq. apply H, Hin.
    + rewrite !coef_notin; [reflexivity| |]; intro Hm; apply Hin, in_or_app; [right|left]; exact Hm.
  - intros H m _. apply feqb_eq, H.
Qed.
Lemma same_peval n p q x : wf n p -> wf n q -> same p q -> peval x p = peval x q.
Proof. intros [Hp _] [Hq _] H. apply coef_ext_peval; assumption. Qed.
Lemma same_peval_iff n p q : wf n p -> wf n q -> ((forall x, peval x p = peval x q) <-> same p q).
Proof.
  intros Hp Hq. split; intro H.
  - intro m. apply (peval_inj K n); assumption.
  - intro x. apply (same_peval n); assumption.
Qed.

Lemma pcomp_assoc_perm n p q r : is_perm n p -> length q = n -> pcomp p (pcomp q r) = pcomp (pcomp p q) r.
Proof. intros Hp Hq. apply (act_comp 0%nat n); assumption. Qed.
Lemma pcomp_pid_r n p : is_perm n p -> pcomp p (pid n) = p.
Proof.
  intro Hp. unfold pcomp, act. rewrite <- (map_id p) at 2. apply map_ext_in. intros i Hi.
  unfold pid. rewrite seq_nth; [reflexivity|]. eapply is_perm_bound; [exact Hp|exact Hi].
Qed.
Lemma pinv_pinv n g : is_perm n g -> pinv (pinv g) = g.
Proof.
  intro Hg. pose proof (pinv_is_perm n g Hg) as Hi. pose proof (pinv_is_perm n _ Hi) as Hii.
  rewrite <- (pcomp_pid_r n (pinv (pinv g)) Hii). rewrite <- (pinv_l n g Hg).
  rewrite (pcomp_assoc_perm n); [|exact Hii|apply is_perm_length; exact Hi].
  rewrite (pinv_l n (pinv g) Hi). apply (act_id 0%nat n). apply is_perm_length. exact Hg.
Qed.
Lemma reorder_prename n g p : is_perm n g -> reorder g p = prename K (pinv g) p.
Proof. intro Hg. unfold reorder, prename. rewrite (pinv_pinv n g Hg). reflexivity. Qed.
Lemma reorder_wf n g p : is_perm n g -> wf n p -> wf n (reorder g p).
Proof. intros Hg Hp. rewrite (reorder_prename n g p Hg). apply prename_wf; [apply pinv_is_perm, Hg|exact Hp]. Qed.
Lemma reorder_coef n g p m : is_perm n g -> wf n p -> length m = n -> coef (reorder g p) (act 0%nat g m) = coef p m.
Proof.
  intros Hg Hp Hm. rewrite (reorder_prename n g p Hg).
  rewrite (prename_coef K n); [|apply pinv_is_perm, Hg|exact Hp|rewrite act_length; apply is_perm_length, Hg].
  rewrite (act_pinv_l n) by assumption. reflexivity.
Qed.
Lemma reorder_peval n g p x : is_perm n g -> wf n p ->
  peval (fun i => x (nth i g 0%nat)) (reorder g p) = peval x p.
Proof.
  intros Hg Hp. rewrite (reorder_prename n g p Hg).
  rewrite (prename_peval K n); [|apply pinv_is_perm, Hg|apply Hp].
  apply (peval_ext_len K n); [exact Hp|]. intros i Hi. f_equal.
  pose proof (pinv_l n g Hg) as E. apply (f_equal (fun l => nth i l 0%nat)) in E. unfold pcomp in E.
  rewrite act_nth in E by (rewrite (is_perm_length n _ (pinv_is_perm n g Hg)); exact Hi).
  unfold pid in E. rewrite seq_nth in E by exact Hi. exact E.
Qed.
Lemma reorder_pcomp n g v p : is_perm n g -> is_perm n v -> reorder (pcomp g v) p = reorder g (reorder v p).
Proof.
  intros Hg Hv. unfold reorder. rewrite map_map. apply map_ext. intro t. cbn [fst snd].
  rewrite (act_comp 0%nat n); [reflexivity|exact Hg|apply is_perm_length, Hv].
Qed.
Lemma reorder_id n p : wf n p -> reorder (pid n) p = p.
Proof.
  intros [_ Hl]. unfold reorder. rewrite <- (map_id p) at 2. apply map_ext_in. intros [m c] Ht. cbn [fst snd].
  rewrite act_id; [reflexivity|]. apply Hl. apply (in_map fst) in Ht. exact Ht.
Qed.
Lemma reorder_same n g p q : is_perm n g -> wf n p -> wf n q -> same p q -> same (reorder g p) (reorder g q).
Proof.
  intros Hg Hp Hq H. apply (same_peval_iff n); [apply reorder_wf; assumption|apply reorder_wf; assumption|]. intro x.
  rewrite !(reorder_prename n g _ Hg).
  rewrite !(prename_peval K n); try (apply pinv_is_perm, Hg); [|apply Hq|apply Hp].
  apply (same_peval n); assumption.
Qed.

(** products of generators *)
Inductive products (n : nat) (gens : list (list nat)) : list nat -> Prop :=
| prod_id : products n gens (pid n)
| prod_mul g v : products n gens g -> In v gens -> products n gens (pcomp g v).
Lemma products_perm n gens g : (forall v, In v gens -> is_perm n v) -> products n gens g -> is_perm n g.
Proof.
  intros H. induction 1 as [|g v _ IH Hv]; [apply Permutation_refl|].
  unfold is_perm. apply Permutation_trans with v; [|apply H, Hv].
  apply (act_perm 0%nat n); [exact IH|apply is_perm_length, H, Hv].
Qed.
Lemma check_symmetry_spec n polys v : is_perm n v -> (forall p, In p polys -> wf n p) ->
  check_symmetry polys v = true -> forall p, In p polys -> exists q, In q polys /\ same q (reorder v p).
Proof.
  intros Hv Hwf H p Hp. unfold check_symmetry in H. cbv zeta in H.
  destruct (peqb p (reorder v p)) eqn:E.
  - exists p. split; [exact Hp|]. apply peqb_same. exact E.
  - rewrite forallb_forall in H. specialize (H p). rewrite filter_In, E in H. cbn in H. specialize (H (conj Hp eq_refl)).
    apply existsb_exists in H. destruct H as [q [Hq Hq2]]. apply filter_In in Hq. exists q. split; [apply Hq|apply peqb_same, Hq2].
Qed.
Lemma identify_gens_perm n lists h v : In v (identify_symmetry_from_lists n lists h) -> is_perm n v.
Proof.
  unfold identify_symmetry_from_lists. destruct (filter _ _) as [|w l] eqn:E.
  - intros [<-|[]]. apply Permutation_refl.
  - rewrite <- E. intro H. apply filter_In in H. apply (candidates_perm n h). apply H.
Qed.
Lemma identify_gen n lists h v l : In v (identify_symmetry_from_lists n lists h) -> In l lists ->
  (forall p, In p l -> wf n p) -> forall p, In p l -> exists q, In q l /\ same q (reorder v p).
Proof.
  unfold identify_symmetry_from_lists. destruct (filter _ _) as [|w l'] eqn:E.
  - intros [<-|[]] Hl Hwf p Hp. exists p. split; [exact Hp|].
    change (seq 0 n) with (pid n). rewrite (reorder_id n p (Hwf p Hp)). apply same_refl.
  - rewrite <- E. intros H Hl Hwf. apply filter_In in H. destruct H as [Hc H]. rewrite forallb_forall in H.
    apply (check_symmetry_spec n); [apply (candidates_perm n h), Hc|exact Hwf|apply H, Hl].
Qed.
Lemma identify_products n lists h g l : products n (identify_symmetry_from_lists n lists h) g -> In l lists ->
  (forall p, In p l -> wf n p) -> forall p, In p l -> exists q, In q l /\ same q (reorder g p).
Proof.
  intros Hg Hl Hwf. induction Hg as [|g v Hg IH Hv]; intros p Hp.
  - exists p. split; [exact Hp|]. rewrite (reorder_id n p (Hwf p Hp)). apply same_refl.
  - destruct (identify_gen n lists h v l Hv Hl Hwf p Hp) as [q1 [Hq1 S1]].
    destruct (IH q1 Hq1) as [q2 [Hq2 S2]]. exists q2. split; [exact Hq2|].
    pose proof (identify_gens_perm n lists h v Hv) as Pv.
    pose proof (products_perm n _ g (identify_gens_perm n lists h) Hg) as Pg.
    rewrite (reorder_pcomp n g v p Pg Pv). apply same_trans with (reorder g q1); [exact S2|].
    apply (reorder_same n); [exact Pg|apply Hwf, Hq1|apply reorder_wf; [exact Pv|apply Hwf, Hp]|exact S1].
Qed.
(** values *)
Lemma identify_values n lists h g l : products n (identify_symmetry_from_lists n lists h) g -> In l lists ->
  (forall p, In p l -> wf n p) -> forall p, In p l -> exists q, In q l /\ forall x, peval (fun i => x (nth i g 0%nat)) q = peval x p.
Proof.
  intros Hg Hl Hwf p Hp. destruct (identify_products n lists h g l Hg Hl Hwf p Hp) as [q [Hq S]].
  pose proof (products_perm n _ g (identify_gens_perm n lists h) Hg) as Pg.
  exists q. split; [exact Hq|]. intro x. rewrite <- (reorder_peval n g p x Pg (Hwf p Hp)).
  apply (same_peval n); [apply Hwf, Hq|apply reorder_wf; [exact Pg|apply Hwf, Hp]|exact S].
Qed.
Lemma undo_point n g (x : nat -> K) i : is_perm n g -> (i < n)%nat ->
  (fun j => (fun k => x (nth k g 0%nat)) (nth j (pinv g) 0%nat)) i = x i.
Proof.
  intros Hg Hi. cbv beta. f_equal. pose proof (pinv_l n g Hg) as E. apply (f_equal (fun l => nth i l 0%nat)) in E.
  unfold pcomp in E. rewrite act_nth in E by (rewrite (is_perm_length n _ (pinv_is_perm n g Hg)); exact Hi).
  unfold pid in E. rewrite seq_nth in E by exact Hi. exact E.
Qed.
Lemma identify_problem n goal ineqs eqs h G :
  wf n goal -> (forall p, In p ineqs \/ In p eqs -> wf n p) ->
  is_group n G -> (forall g, In g G -> products n (identify_symmetry_from_lists n [[goal]; ineqs; eqs] h) g) ->
  forall g, In g G -> forall x : nat -> K,
  peval (fun i => x (nth i g 0%nat)) goal = peval x goal /\
  (feasible K ineqs eqs x <-> feasible K ineqs eqs (fun i => x (nth i g 0%nat))).
Proof.
  intros Hg Hwf HG Hgen g Hin.
  assert (A : forall g, In g G -> forall x : nat -> K, feasible K ineqs eqs (fun i => x (nth i g 0%nat)) -> feasible K ineqs eqs x).
  { intros g' Hg' x [F1 F2]. split; intros p Hp.
    - destruct (identify_values n _ h g' ineqs (Hgen g' Hg') (or_intror (or_introl eq_refl)) (fun p H => Hwf p (or_introl H)) p Hp) as [q [Hq E]].
      rewrite <- E. apply F1, Hq.
    - destruct (identify_values n _ h g' eqs (Hgen g' Hg') (or_intror (or_intror (or_introl eq_refl))) (fun p H => Hwf p (or_intror H)) p Hp) as [q [Hq E]].
      rewrite <- E. apply F2, Hq. }
  intro x. split.
  - destruct (identify_values n _ h g [goal] (Hgen g Hin) (or_introl eq_refl)) with (p := goal) as [q [[<-|[]] E]];
      [intros p [<-|[]]; exact Hg|left; reflexivity|]. apply E.
  - split; [|apply A, Hin]. intros [F1 F2].
    apply (A (pinv g) (pinv_in n G g HG Hin)).
    pose proof (g_perm n G HG g Hin) as Pg.
    split; intros p Hp.
    + rewrite (peval_ext_len K n _ _ x); [apply F1, Hp|apply Hwf; left; exact Hp|]. intros i Hi. apply (undo_point n g x i Pg Hi).
    + rewrite (peval_ext_len K n _ _ x); [apply F2, Hp|apply Hwf; right; exact Hp|]. intros i Hi. apply (undo_point n g x i Pg Hi).
Qed.
End Sym.
