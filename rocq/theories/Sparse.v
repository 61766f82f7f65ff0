(** * Model of triples/core/structsos/sparse.py: the generic solvers and the solver wrappers *)
From Coq Require Import Bool List Arith Lia Permutation ZArith Ring Field.
From Verif Require Import OrdField Base Perm Poly PolyId Coeff Expr Congruence.
Import ListNotations.

(** What a solver call can do: return an expression or None, raise one of the two exceptions of
    structsos/utils.py:12-14, or raise another exception. *)
Inductive outcome (A : Type) : Type :=
| Returns (r : option A)
| Nonpositive
| Unsolvable
| Raises (e : exn).
Arguments Returns {A} r. Arguments Nonpositive {A}. Arguments Unsolvable {A}. Arguments Raises {A} e.

Section Sparse.
Context {K : OrdField}.
Local Open Scope of_scope.

(** [sum(...)] of expressions, [poly.as_expr()], a monomial *)
Definition esum (l : list (ex K)) : ex K := fold_right EAdd (EC 0) l.
Definition emonom (m : list nat) : ex K :=
  fold_right EMul (EC 1) (map (fun i => EPow (EX i) (nth i m 0%nat)) (seq 0 (length m))).
Definition as_expr (p : poly K) : ex K := esum (map (fun t => EMul (EC (snd t)) (emonom (fst t))) p).

(** [Poly.total_degree] *)
Definition total_degree (p : poly K) : nat := fold_right Nat.max 0%nat (map (fun t => list_sum (fst t)) p).

(** the exponent tuple of the generator number [i] *)
Definition unit_mon (n i : nat) : list nat := map (fun j => if Nat.eqb j i then 1 else 0)%nat (seq 0 n).

(** the loop of sparse.py:77-83: [Some common] when it ends without break *)
Fixpoint common_loop (vs : list K) (common : option K) : option (option K) :=
  match vs with
  | [] => Some common
  | v :: vs' => match common with
                | Some c => if v =? c then common_loop vs' (Some v) else None
                | None => common_loop vs' (Some v)
                end
  end.

(** [sos_struct_linear] (sparse.py:59-89). The coefficients are numbers, so the test of the
    domain is omitted; [poly.coeffs()] of the zero polynomial is [0]. [CyclicSum(gens[0], gens)]
    is written as the sum of the generators. A polynomial has at least one generator. *)
Definition sos_struct_linear (n : nat) (p : poly K) : option (ex K) :=
  let d := total_degree p in
  if Nat.ltb 1 d then None
  else
    let coeffs := match p with [] => [0] | _ => map snd p end in
    if (Nat.eqb d 0 && (0 <=? hd 0 coeffs))%bool then Some (EC (hd 0 coeffs))
    else if negb (forallb (fun c => 0 <=? c) coeffs) then None
    else match common_loop (map (fun i => coef p (unit_mon n i)) (seq 0 n)) None with
         | Some (Some c) => Some (EAdd (EMul (EC c) (esum (map EX (seq 0 n)))) (EC (coef p (repeat 0%nat n))))
         | Some None => Some (as_expr p)   (* no generator: does not happen *)
         | None => Some (as_expr p)
         end.

(** the inner loop of sparse.py:100-110; [None] is [return None] *)
Fixpoint inds_loop (k : list nat) (i : nat) (inds : list nat) : option (list nat) :=
  match k with
  | [] => Some inds
  | e :: k' => if Nat.ltb 2 e then None
               else if Nat.eqb e 2 then Some [i; i]
               else if Nat.eqb e 1 then
                 if Nat.eqb (length inds) 2 then None else inds_loop k' (S i) (inds ++ [i])
               else inds_loop k' (S i) inds
  end.
(** sparse.py:111-114 *)
Definition complete_inds (n : nat) (inds : list nat) : nat * nat :=
  match inds with
  | [] => (n, n)
  | [i] => (i, n)
  | i :: j :: _ => (i, j)
  end.
(** [mat[i,j] = v] *)
Definition mset (M : nat -> nat -> K) (i j : nat) (v : K) : nat -> nat -> K :=
  fun a b => if (Nat.eqb a i && Nat.eqb b j)%bool then v else M a b.
(** sparse.py:115-119 *)
Definition put (M : nat -> nat -> K) (ij : nat * nat) (v : K) : nat -> nat -> K :=
  let (i, j) := ij in
  if Nat.eqb i j then mset M i i v else mset (mset M i j (v / 2)) j i (v / 2).
(** the loop of sparse.py:99-119 *)
Fixpoint quad_loop (n : nat) (p : poly K) (M : nat -> nat -> K) : option (nat -> nat -> K) :=
  match p with
  | [] => Some M
  | (k, v) :: p' => match inds_loop k 0 [] with
                    | None => None
                    | Some inds => quad_loop n p' (put M (complete_inds n inds) v)
                    end
  end.
(** [genvec] (sparse.py:125) *)
Definition genvec (n : nat) : list (ex K) := map EX (seq 0 n) ++ [EC 1].
(** sparse.py:126 *)
Definition quad_expr (n : nat) (U : list (list K)) (Sv : list K) : ex K :=
  esum (map (fun i => EMul (EC (vget Sv i))
                        (EPow (esum (map (fun j => EMul (EC (mget U i j)) (nth j (genvec n) (EC 0))) (seq 0 (S n)))) 2))
            (seq 0 (S n))).
(** [sos_struct_quadratic] (sparse.py:92-126) *)
Definition sos_struct_quadratic (n : nat) (p : poly K) : res (option (ex K)) :=
  match quad_loop n p (fun _ _ => 0) with
  | None => Ok None
  | Some M => match congruence (mtab (S n) (S n) M) with
              | Ok (Some (U, Sv)) => Ok (Some (quad_expr n U Sv))
              | Ok None => Ok None
              | Err e => Err e
              end
  end.

(** [solution.xreplace({s: s**k})] (sparse.py:52) *)
Fixpoint epow (k : nat) (e : ex K) : ex K :=
  match e with
  | EC c => EC c
  | EX i => EPow (EX i) k
  | EAdd x y => EAdd (epow k x) (epow k y)
  | ESub x y => ESub (epow k x) (epow k y)
  | EMul x y => EMul (epow k x) (epow k y)
  | EDiv x y => EDiv (epow k x) (epow k y)
  | EPow x m => EPow (epow k x) m
  end.

(** A solver takes a polynomial and the keyword [real] ([None]: not passed). *)
Definition solver : Type := poly K -> option bool -> outcome (ex K).

(** [sos_struct_extract_factors] (sparse.py:19-56). [CyclicProduct(s0**i, symbols)] of the
    three-variable case is written as the product of the powers, like the other case; the
    expression and polynomial forms of the argument are not distinguished. *)
Definition sos_struct_extract_factors (n : nat) (p : poly K) (s : solver) (real : bool) : outcome (ex K) :=
  let (monoms, q) := cancel_abc n p in
  if existsb (fun i => Nat.ltb 0 i) monoms then
    match s q (Some (real && forallb Nat.even monoms)%bool) with
    | Returns (Some e) => Returns (Some (EMul (emonom monoms) e))
    | r => r
    end
  else
    let (i, q) := cancel_k p in
    if Nat.ltb 1 i then
      match s q (Some (if Nat.even i then false else real)) with
      | Returns (Some e) => Returns (Some (epow i e))
      | r => r
      end
    else s p None.

(** [_wrapped_solver] (sparse.py:133-148) *)
Fixpoint wrapped_solver (solvers : list (option solver)) (p : poly K) (real : option bool) : outcome (ex K) :=
  match solvers with
  | [] => Returns None
  | None :: l => wrapped_solver l p real
  | Some s :: l => match s p real with
                   | Returns (Some e) => Returns (Some e)
                   | Returns None => wrapped_solver l p real
                   | Nonpositive => Returns None
                   | Unsolvable => wrapped_solver l p real
                   | Raises e => Raises e
                   end
  end.
(** [sos_struct_common] (sparse.py:129-152); [real] defaults to True *)
Definition sos_struct_common (n : nat) (p : poly K) (solvers : list (option solver)) (real : bool) : outcome (ex K) :=
  sos_struct_extract_factors n p (wrapped_solver solvers) real.

(** [sos_struct_degree_specified_solver] (sparse.py:156-176); [table] is the dictionary of
    solvers by degree. [hom]: the argument [homogeneous] is True and the polynomial is given
    as a [Coeff], so that the degree of the first entry is used. *)
Fixpoint table_get (table : list (nat * solver)) (d : nat) : option solver :=
  match table with
  | [] => None
  | (d', s) :: l => if Nat.eqb d d' then Some s else table_get l d
  end.
Definition degree_specified_solver (n : nat) (table : list (nat * solver)) (hom : bool) : solver :=
  fun p real =>
    let degree := if hom then coeff_degree p else total_degree p in
    match table_get table degree with
    | Some s => s p real
    | None =>
        if Nat.eqb degree 1 then Returns (sos_struct_linear n p)
        else if Nat.eqb degree 2 then
          match sos_struct_quadratic n p with Ok r => Returns r | Err e => Raises e end
        else Returns None
    end.
End Sparse.

(** ** Specification *)
Section Spec.
Context {K : OrdField}.
Local Open Scope of_scope.
(** the point is in the non-negative orthant *)
Definition orthant (n : nat) (x : nat -> K) : Prop := forall i, (i < n)%nat -> 0 <= x i.
Definition deg_le (d : nat) (p : poly K) : Prop := forall m, In m (keys p) -> (list_sum m <= d)%nat.
(** [e] is a certificate of [p] at the points of [D]: it equals p there (where it is defined),
    and is not negative there *)
Definition certifies (D : (nat -> K) -> Prop) (p : poly K) (e : ex K) : Prop :=
  forall x, D x -> defined x e -> ev x e = peval x p /\ 0 <= ev x e.
End Spec.

Section Proofs.
Variable K : OrdField.
Local Open Scope of_scope.
Add Field Kf : (F_field K).
Implicit Types p q : poly K.
Implicit Types x y : nat -> K.

Lemma ev_esum x (l : list (ex K)) : ev x (esum l) = fsum (map (ev x) l).
Proof. induction l as [|a l IH]; cbn; [reflexivity|]. unfold esum in IH. rewrite IH. reflexivity. Qed.
Lemma ev_emonom x m : ev x (emonom m) = meval x m.
Proof.
  unfold emonom, meval. generalize (seq 0 (length m)). intro l.
  induction l as [|a l IH]; cbn; [reflexivity|]. rewrite IH. reflexivity.
Qed.
Lemma ev_as_expr x p : ev x (as_expr p) = peval x p.
Proof.
  unfold as_expr, peval. rewrite ev_esum, map_map. f_equal. apply map_ext. intros [m c]. cbn [ev fst snd].
  rewrite ev_emonom. reflexivity.
Qed.
Lemma manifest_esum b (l : list (ex K)) : (forall e, In e l -> manifest b e = true) -> manifest b (esum l) = true.
Proof.
  unfold esum. intro H. induction l as [|a l IH]; cbn [fold_right manifest]; [apply fleb_le, fle_refl|].
  rewrite (H a (or_introl eq_refl)), IH; [reflexivity|]. intros e He. apply H. right. exact He.
Qed.
Lemma manifest_emonom b m : (forall i, (i < length m)%nat -> Nat.even (nth i m 0%nat) = true) \/ b = true ->
  manifest b (emonom m : ex K) = true.
Proof.
  intro H. unfold emonom.
  assert (HH : forall l, (forall i, In i l -> (i < length m)%nat) ->
    manifest b (fold_right EMul (EC 1) (map (fun i => EPow (EX i) (nth i m 0%nat)) l) : ex K) = true).
  { induction l as [|i l IH]; intro Hl; cbn [map fold_right manifest].
    - apply fleb_le. apply flt_le, f1_pos.
    - rewrite IH; [|intros j Hj; apply Hl; right; exact Hj]. rewrite andb_true_r.
      destruct H as [H| ->]; [|apply orb_true_r]. rewrite H; [reflexivity|]. apply Hl. left. reflexivity. }
  apply HH. intros i Hi. apply in_seq in Hi. lia.
Qed.

(** *** linear *)
Lemma total_degree_le p d : (total_degree p <= d)%nat <-> deg_le d p.
Proof.
  unfold total_degree, deg_le, keys. induction p as [|[m c] p IH]; cbn [map fold_right fst].
  - split; [intros _ m []|intros _; lia].
  - split.
    + intros H m' [<-|Hm']; [lia|]. apply IH; [lia|exact Hm'].
    + intro H. apply Nat.max_lub; [apply H; left; reflexivity|]. apply IH. intros m' Hm'. apply H. right. exact Hm'.
Qed.
Lemma list_sum_cons e m : list_sum (e :: m) = (e + list_sum m)%nat.
Proof. reflexivity. Qed.
Lemma mon_deg0 m : list_sum m = 0%nat -> m = repeat 0%nat (length m).
Proof. induction m as [|e m IH]; [reflexivity|]. rewrite list_sum_cons. intro H. cbn. f_equal; [lia|apply IH; lia]. Qed.
Lemma unit_mon_S n i : unit_mon (S n) (S i) = 0%nat :: unit_mon n i.
Proof.
  unfold unit_mon. cbn [seq map]. f_equal. rewrite <- seq_shift, map_map. apply map_ext. intro j. reflexivity.
Qed.
Lemma unit_mon_0 n : unit_mon (S n) 0 = 1%nat :: repeat 0%nat n.
Proof.
  unfold unit_mon. cbn [seq map]. f_equal. rewrite <- seq_shift, map_map.
  assert (H : forall l : list nat, map (fun j => if Nat.eqb (S j) 0 then 1 else 0)%nat l = repeat 0%nat (length l)).
  { induction l as [|a l IH]; [reflexivity|]. cbn. f_equal. exact IH. }
  rewrite H, seq_length. reflexivity.
Qed.
Lemma mon_deg1 m : list_sum m = 1%nat -> exists i, (i < length m)%nat /\ m = unit_mon (length m) i.
Proof.
  induction m as [|e m IH]; [discriminate|]. rewrite list_sum_cons. cbn [length]. intro H.
  destruct (Nat.eq_dec e 0) as [->|He].
  - destruct IH as [i [Hi E]]; [lia|]. exists (S i). split; [lia|]. rewrite unit_mon_S. f_equal. exact E.
  - exists 0%nat. split; [lia|]. rewrite unit_mon_0. assert (e = 1%nat) as -> by lia. f_equal. apply mon_deg0. lia.
Qed.
Lemma unit_mon_length n i : length (unit_mon n i) = n.
Proof. unfold unit_mon. rewrite map_length, seq_length. reflexivity. Qed.
Lemma unit_mon_sum n : forall i, (i < n)%nat -> list_sum (unit_mon n i) = 1%nat.
Proof.
  induction n as [|n IH]; intros i Hi; [lia|]. destruct i as [|i].
  - rewrite unit_mon_0. cbn. f_equal. clear. induction n; cbn; auto.
  - rewrite unit_mon_S. cbn. apply IH. lia.
Qed.
Lemma repeat0_sum n : list_sum (repeat 0%nat n) = 0%nat.
Proof. induction n; cbn; auto. Qed.
Lemma meval_repeat0 n : forall x, meval x (repeat 0%nat n) = (1 : K).
Proof. induction n as [|n IH]; intro x; [apply meval_nil|]. cbn [repeat]. rewrite meval_cons, IH. cbn. ring. Qed.
Lemma meval_unit n : forall i x, (i < n)%nat -> meval x (unit_mon n i) = (x i : K).
Proof.
  induction n as [|n IH]; intros i x Hi; [lia|]. destruct i as [|i].
  - rewrite unit_mon_0, meval_cons, meval_repeat0. cbn. ring.
  - rewrite unit_mon_S, meval_cons, IH; [cbn; ring|lia].
Qed.

(** value of a polynomial of degree at most 1 *)
Lemma unit_mon_inj n i j : (i < n)%nat -> (j < n)%nat -> unit_mon n i = unit_mon n j -> i = j.
Proof.
  revert i j. induction n as [|n IH]; intros i j Hi Hj H; [lia|].
  destruct i as [|i], j as [|j]; [reflexivity| | |];
    rewrite ?unit_mon_0, ?unit_mon_S in H; try discriminate. f_equal. apply IH; try lia. congruence.
Qed.
Lemma nodup_map_in {A B} (f : A -> B) l : (forall a b, In a l -> In b l -> f a = f b -> a = b) -> NoDup l -> NoDup (map f l).
Proof.
  intros Hf H. induction H as [|a l Ha H IH]; [constructor|]. cbn. constructor.
  - intro Hin. apply in_map_iff in Hin. destruct Hin as [b [E Hb]].
    assert (b = a) by (apply Hf; [right; exact Hb|left; reflexivity|exact E]). subst. contradiction.
  - apply IH. intros b c Hb Hc. apply Hf; right; assumption.
Qed.
Lemma peval_deg1 n p x : wf n p -> deg_le 1 p ->
  peval x p = coef p (repeat 0%nat n) + bsum n (fun i => coef p (unit_mon n i) * x i).
Proof.
  intros [Hnd Hlen] Hd.
  rewrite (peval_over K x p (repeat 0%nat n :: map (unit_mon n) (seq 0 n))).
  - cbn [map fsum]. rewrite meval_repeat0, bsum_fsum, map_map.
    replace (map (fun i => coef p (unit_mon n i) * meval x (unit_mon n i)) (seq 0 n))
       with (map (fun i => coef p (unit_mon n i) * x i) (seq 0 n)); [ring|].
    apply map_ext_in. intros i Hi. apply in_seq in Hi. rewrite meval_unit; [reflexivity|lia].
  - exact Hnd.
  - constructor.
    + intro H. apply in_map_iff in H. destruct H as [i [E Hi]]. apply in_seq in Hi.
      assert (E2 := f_equal list_sum E). rewrite unit_mon_sum, repeat0_sum in E2; [discriminate|lia].
    + apply nodup_map_in; [|apply seq_NoDup].
      intros i j Hi Hj. apply in_seq in Hi. apply in_seq in Hj. apply unit_mon_inj; lia.
  - intros m Hm. assert (Hl := Hlen m Hm). assert (Hs := Hd m Hm).
    destruct (list_sum m) as [|[|k]] eqn:E; [| |lia].
    + left. rewrite <- Hl. symmetry. apply mon_deg0. exact E.
    + right. destruct (mon_deg1 m E) as [i [Hi E2]]. rewrite Hl in *. rewrite E2. apply in_map, in_seq. lia.
Qed.

Lemma common_loop_spec (vs : list K) : forall c,
  common_loop vs (Some c) = Some (Some c) /\ (forall v, In v vs -> v = c) \/ common_loop vs (Some c) = None.
Proof.
  induction vs as [|v vs IH]; intro c; cbn [common_loop].
  - left. split; [reflexivity|]. intros v [].
  - destruct (v =? c) eqn:E; [|right; reflexivity]. apply feqb_eq in E. subst v.
    destruct (IH c) as [[-> H]|H]; [left; split; [reflexivity|]|right; exact H].
    intros v [<-|Hv]; [reflexivity|apply H; exact Hv].
Qed.
Lemma common_loop_spec0 (f : nat -> K) n :
  common_loop (map f (seq 0 (S n))) None = Some (Some (f 0%nat)) /\ (forall i, (i < S n)%nat -> f i = f 0%nat) \/
  common_loop (map f (seq 0 (S n))) None = None.
Proof.
  cbn [seq map common_loop]. destruct (common_loop_spec (map f (seq 1 n)) (f 0%nat)) as [[-> H]|H]; [left; split; [reflexivity|]|right; exact H].
  intros [|i] Hi; [reflexivity|]. apply H, in_map, in_seq. lia.
Qed.
Lemma coef_repeat0_deg0 n p : wf n p -> (total_degree p <= 0)%nat -> coef p (repeat 0%nat n) = hd 0 (match p with [] => [0] | _ => map snd p end).
Proof.
  intros [Hnd Hl] Hd. apply total_degree_le in Hd. destruct p as [|[m c] p]; [reflexivity|]. cbn.
  apply coef_in; [exact Hnd|]. left. f_equal. rewrite <- (Hl m); [|left; reflexivity]. apply mon_deg0.
  assert (list_sum m <= 0)%nat by (apply Hd; left; reflexivity). lia.
Qed.
Lemma coef_nonneg_all p m : (forall c, In c (map snd p) -> 0 <= c) -> 0 <= coef p m.
Proof.
  intro H. unfold coef. destruct (dget p m) as [c|] eqn:E; [|apply fle_refl]. apply dget_in in E.
  apply H. apply in_map_iff. exists (m, c). auto.
Qed.
Lemma not_deg_le1 p : (total_degree p <=? 1)%nat = false -> ~ deg_le 1 p.
Proof. intros H H2. apply total_degree_le in H2. apply Nat.leb_gt in H. lia. Qed.

Lemma linear_value n p e : (0 < n)%nat -> wf n p -> sos_struct_linear n p = Some e ->
  (forall x, ev x e = peval x p) /\ manifest true e = true /\ deg_le 1 p.
Proof.
  intros Hn Hwf. unfold sos_struct_linear. cbv zeta. destruct (Nat.ltb_spec 1 (total_degree p)) as [|Hd]; [discriminate|].
  assert (Hd1 := proj1 (total_degree_le p 1) Hd).
  set (cs := match p with [] => [0] | _ => map snd p end).
  destruct (Nat.eqb (total_degree p) 0 && (0 <=? hd 0 cs))%bool eqn:E0.
  - rewrite andb_true_iff in E0. destruct E0 as [E0 E1]. apply Nat.eqb_eq in E0. apply fleb_le in E1.
    intro H. inversion H; subst e. split; [|split; [apply fleb_le; exact E1|exact Hd1]].
    intro x. rewrite (peval_deg1 n) by assumption. unfold cs. rewrite <- (coef_repeat0_deg0 n) by (try assumption; lia).
    rewrite bsum_all0; [cbn; ring|]. intros i Hi. rewrite coef_notin; [ring|].
    intro Hin. assert (Hdd := proj1 (total_degree_le p 0)). assert (list_sum (unit_mon n i) <= 0)%nat by (apply Hdd; [lia|exact Hin]).
    rewrite unit_mon_sum in H0 by exact Hi. lia.
  - destruct (forallb (fun c => 0 <=? c) cs) eqn:Ec; cbn [negb]; [|discriminate].
    assert (Hc : forall c, In c (map snd p) -> 0 <= c).
    { intros c Hc. rewrite forallb_forall in Ec. apply fleb_le. apply Ec. unfold cs. destruct p; [destruct Hc|exact Hc]. }
    assert (HA : (forall x, ev x (as_expr p) = peval x p) /\ manifest true (as_expr p) = true /\ deg_le 1 p).
    { split; [intro x; apply ev_as_expr|]. split; [|exact Hd1].
      apply manifest_esum. intros e' He'. apply in_map_iff in He'. destruct He' as [[m c] [<- Hm]]. cbn [manifest fst snd].
      rewrite manifest_emonom by (right; reflexivity). rewrite andb_true_r. apply fleb_le, Hc. apply in_map_iff. exists (m, c). auto. }
    destruct n as [|n]; [lia|]. destruct (common_loop_spec0 (fun i => coef p (unit_mon (S n) i)) n) as [[-> Hall]| ->].
    + intro H. apply (f_equal (fun o => match o with Some z => z | None => e end)) in H. cbv beta iota in H. subst e. split; [|split; [|exact Hd1]].
      * intro x. rewrite (peval_deg1 (S n)) by assumption. cbn [ev]. rewrite ev_esum, map_map. cbn [ev].
        rewrite <- (bsum_fsum K (S n)).
        rewrite (bsum_ext K (S n) (fun i => coef p (unit_mon (S n) i) * x i) (fun i => coef p (unit_mon (S n) 0) * x i)).
        -- rewrite bsum_mul_l. change (fun x0 : nat => x x0) with x. ring.
        -- intros i Hi. f_equal. apply Hall. exact Hi.
      * cbn [manifest]. rewrite !andb_true_iff. repeat split.
        -- apply fleb_le, coef_nonneg_all, Hc.
        -- apply manifest_esum. intros e He. apply in_map_iff in He. destruct He as [i [<- _]]. reflexivity.
        -- apply fleb_le, coef_nonneg_all, Hc.
    + intro H. inversion H; subst e. exact HA.
Qed.

(** None means that the polynomial is negative somewhere in the orthant *)
Lemma linear_none n p : (0 < n)%nat -> wf n p -> deg_le 1 p -> sos_struct_linear n p = None ->
  exists x, orthant n x /\ peval x p < 0.
Proof.
  intros Hn Hwf Hd1. unfold sos_struct_linear. cbv zeta.
  assert (Hd := proj2 (total_degree_le p 1) Hd1).
  destruct (Nat.ltb_spec 1 (total_degree p)) as [|_]; [lia|].
  set (cs := match p with [] => [0] | _ => map snd p end).
  destruct (Nat.eqb (total_degree p) 0 && (0 <=? hd 0 cs))%bool eqn:E0; [discriminate|].
  destruct (forallb (fun c => 0 <=? c) cs) eqn:Ec; cbn [negb].
  { destruct (common_loop _ _) as [[c|]|]; discriminate. }
  intros _.
  assert (HN : exists m c, In (m, c) p /\ c < 0).
  { assert (Hex : existsb (fun c => negb (0 <=? c)) cs = true).
    { clear -Ec. induction cs as [|c l IH]; cbn in *; [discriminate|]. destruct (0 <=? c); cbn in *; auto. }
    apply existsb_exists in Hex. destruct Hex as [c [Hc E]]. apply negb_true_iff in E. apply fleb_gt in E.
    unfold cs in Hc. destruct p as [|t p'].
    - destruct Hc as [<-|[]]. exfalso. exact (flt_irrefl K _ E).
    - apply in_map_iff in Hc. destruct Hc as [[m c'] [E2 Hm]]. cbn in E2. subst c'. exists m, c. auto. }
  destruct HN as [m [c [Hm Hc]]]. destruct Hwf as [Hnd Hlen].
  assert (Hk : In m (keys p)) by (apply in_map_iff; exists (m, c); auto).
  assert (Hml := Hlen m Hk). assert (Hms := Hd1 m Hk).
  assert (Hco : coef p m = c) by (apply coef_in; assumption).
  destruct (list_sum m) as [|[|k]] eqn:Es; [| |lia].
  - exists (fun _ => 0). split; [intros i _; apply fle_refl|].
    rewrite (peval_deg1 n) by (try split; assumption). rewrite bsum_all0; [|intros; ring].
    apply mon_deg0 in Es. rewrite Hml in Es. rewrite <- Es, Hco. replace (c + 0) with c by ring. exact Hc.
  - destruct (mon_deg1 m Es) as [i [Hi Em]]. rewrite Hml in *.
    set (c0 := coef p (repeat 0%nat n)).
    assert (Hpos : 0 < - c) by (apply flt_sub in Hc; replace (- c) with (0 - c) by ring; exact Hc).
    exists (fun j => if Nat.eqb j i then (c0 * c0 + 1) / (- c) else 0). split.
    + intros j _. destruct (Nat.eqb j i); [|apply fle_refl]. apply fdiv_nonneg; [|exact Hpos].
      apply fadd_nonneg; [apply fsqr_nonneg|apply f1_nonneg].
    + rewrite (peval_deg1 n) by (try split; assumption). fold c0.
      rewrite (bsum_single K n i); [|exact Hi|].
      * rewrite Nat.eqb_refl, <- Em, Hco. apply flt_sub.
        replace (0 - (c0 + c * ((c0 * c0 + 1) / - c))) with ((c0 - 1 / 2) * (c0 - 1 / 2) + 3 / 4).
        -- apply fadd_pos_r; [apply fsqr_nonneg|]. apply fdiv_pos; fpos.
        -- field. repeat split; fnz.
      * intros j _ Hj. destruct (Nat.eqb_spec j i); [congruence|]. ring.
Qed.

(** *** quadratic *)
Definition gx n x (i : nat) : K := if Nat.ltb i n then x i else 1.
Definition Q n (M : nat -> nat -> K) y : K := bsum (S n) (fun i => bsum (S n) (fun j => y i * M i j * y j)).
Definition dl (a b : nat) : nat := if Nat.eqb a b then 1%nat else 0%nat.

Lemma inds2 : forall k s a b, list_sum k = 0%nat -> inds_loop k s [a; b] = Some [a; b].
Proof.
  induction k as [|e k IH]; intros s a b H; [reflexivity|]. rewrite list_sum_cons in H.
  assert (e = 0%nat) as -> by lia. cbn. apply IH. lia.
Qed.
Lemma sum0_nth k t : list_sum k = 0%nat -> nth t k 0%nat = 0%nat.
Proof.
  revert t. induction k as [|e k IH]; intros t H; [destruct t; reflexivity|]. rewrite list_sum_cons in H.
  destruct t; cbn; [lia|apply IH; lia].
Qed.
Lemma inds1 : forall k s a, (list_sum k <= 1)%nat -> exists r j, inds_loop k s [a] = Some r /\
  complete_inds (s + length k) r = (a, j) /\ (s <= j)%nat /\ (j <= s + length k)%nat /\
  forall t, (t < length k)%nat -> nth t k 0%nat = dl (s + t) j.
Proof.
  induction k as [|e k IH]; intros s a H.
  - exists [a], s. cbn. rewrite Nat.add_0_r. repeat split; try lia.
  - rewrite list_sum_cons in H. destruct (Nat.eq_dec e 0) as [->|He].
    + destruct (IH (S s) a) as [r [j [E1 [E2 [H1 [H2 H3]]]]]]; [lia|]. exists r, j. cbn [length].
      replace (s + S (length k))%nat with (S s + length k)%nat by lia. split; [exact E1|]. split; [exact E2|].
      repeat split; try lia. intros [|t] Ht; cbn [nth].
      * unfold dl. destruct (Nat.eqb_spec (s + 0) j); lia.
      * rewrite H3 by lia. f_equal. lia.
    + assert (e = 1%nat) as -> by lia. exists [a; s], s. cbn [inds_loop Nat.ltb Nat.leb Nat.eqb length].
      cbn [app]. rewrite inds2 by lia. repeat split; try lia.
      intros [|t] Ht; cbn [nth].
      * unfold dl. rewrite Nat.add_0_r, Nat.eqb_refl. reflexivity.
      * rewrite sum0_nth by lia. unfold dl. destruct (Nat.eqb_spec (s + S t) s); lia.
Qed.
Lemma inds0 : forall k s, (list_sum k <= 2)%nat -> exists r i j, inds_loop k s [] = Some r /\
  complete_inds (s + length k) r = (i, j) /\ (s <= i)%nat /\ (i <= j)%nat /\ (j <= s + length k)%nat /\
  forall t, (t < length k)%nat -> nth t k 0%nat = (dl (s + t) i + dl (s + t) j)%nat.
Proof.
  induction k as [|e k IH]; intros s H.
  - exists [], s, s. cbn. rewrite Nat.add_0_r. repeat split; try lia.
  - rewrite list_sum_cons in H. destruct (Nat.eq_dec e 0) as [->|He]; [|destruct (Nat.eq_dec e 1) as [->|He1]].
    + destruct (IH (S s)) as [r [i [j [E1 [E2 [H0 [H1 [H2 H3]]]]]]]]; [lia|]. exists r, i, j. cbn [length].
      replace (s + S (length k))%nat with (S s + length k)%nat by lia. split; [exact E1|]. split; [exact E2|].
      repeat split; try lia. intros [|t] Ht; cbn [nth].
      * unfold dl. destruct (Nat.eqb_spec (s + 0) i), (Nat.eqb_spec (s + 0) j); lia.
      * rewrite H3 by lia. replace (S s + t)%nat with (s + S t)%nat by lia. reflexivity.
    + destruct (inds1 k (S s) s) as [r [j [E1 [E2 [H1 [H2 H3]]]]]]; [lia|]. exists r, s, j. cbn [length].
      replace (s + S (length k))%nat with (S s + length k)%nat by lia. split; [exact E1|]. split; [exact E2|].
      repeat split; try lia. intros [|t] Ht; cbn [nth].
      * unfold dl. rewrite Nat.add_0_r, Nat.eqb_refl. destruct (Nat.eqb_spec s j); lia.
      * rewrite H3 by lia. replace (S s + t)%nat with (s + S t)%nat by lia.
        unfold dl at 2. destruct (Nat.eqb_spec (s + S t) s); lia.
    + assert (e = 2%nat) as -> by lia. exists [s; s], s, s. cbn [length]. split; [reflexivity|]. split; [reflexivity|].
      repeat split; try lia. intros [|t] Ht; cbn [nth].
      * unfold dl. rewrite Nat.add_0_r, Nat.eqb_refl. reflexivity.
      * rewrite sum0_nth by lia. unfold dl. destruct (Nat.eqb_spec (s + S t) s); lia.
Qed.
Lemma meval_add n : forall x m a b, length m = n -> length a = n -> length b = n ->
  (forall t, (t < n)%nat -> nth t m 0%nat = (nth t a 0 + nth t b 0)%nat) -> meval x m = meval x a * meval x b.
Proof.
  induction n as [|n IH]; intros x m a b Hm Ha Hb H.
  - destruct m; [|discriminate]. destruct a; [|discriminate]. destruct b; [|discriminate]. rewrite !meval_nil. ring.
  - destruct m as [|e m]; [discriminate|]. destruct a as [|u a]; [discriminate|]. destruct b as [|v b]; [discriminate|].
    rewrite !meval_cons. rewrite (IH _ m a b); cbn in *; try lia.
    + assert (E := H 0%nat). cbn in E. rewrite E by lia. rewrite fpow_add. ring.
    + intros t Ht. apply (H (S t)). lia.
Qed.
Lemma nth_unit_mon n i t : (t < n)%nat -> nth t (unit_mon n i) 0%nat = dl t i.
Proof. intro H. unfold unit_mon. rewrite nth_map_seq by exact H. reflexivity. Qed.
Lemma meval_unit' n i x : (i <= n)%nat -> meval x (unit_mon n i) = gx n x i.
Proof.
  intro H. unfold gx. destruct (Nat.ltb_spec i n) as [Hi|Hi]; [apply meval_unit; exact Hi|].
  replace (unit_mon n i) with (repeat 0%nat n); [apply meval_repeat0|].
  apply (nth_ext _ _ 0%nat 0%nat); [rewrite unit_mon_length, repeat_length; reflexivity|].
  intros t Ht. rewrite repeat_length in Ht. rewrite nth_unit_mon by exact Ht. unfold dl.
  destruct (Nat.eqb_spec t i); [lia|]. apply sum0_nth, repeat0_sum.
Qed.
(** the position of a monomial, its value, and that it determines the monomial *)
Lemma position n m : length m = n -> (list_sum m <= 2)%nat -> exists r i j, inds_loop m 0 [] = Some r /\
  complete_inds n r = (i, j) /\ (i <= j)%nat /\ (j <= n)%nat /\ (forall x, meval x m = gx n x i * gx n x j) /\
  (forall m', length m' = n -> (forall t, (t < n)%nat -> nth t m' 0%nat = (dl t i + dl t j)%nat) -> m' = m) /\
  (forall t, (t < n)%nat -> nth t m 0%nat = (dl t i + dl t j)%nat).
Proof.
  intros Hl Hs. destruct (inds0 m 0 Hs) as [r [i [j [E1 [E2 [H0 [H1 [H2 H3]]]]]]]]. cbn [Nat.add] in *. rewrite Hl in *.
  exists r, i, j. split; [exact E1|]. split; [exact E2|]. split; [exact H1|]. split; [exact H2|]. split; [|split; [|exact H3]].
  - intro x. rewrite (meval_add n x m (unit_mon n i) (unit_mon n j)); rewrite ?unit_mon_length; try assumption; try reflexivity.
    + rewrite !meval_unit' by lia. reflexivity.
    + intros t Ht. rewrite !nth_unit_mon by exact Ht. apply H3, Ht.
  - intros m' Hl' H. apply (nth_ext _ _ 0%nat 0%nat); [congruence|]. intros t Ht. rewrite Hl' in Ht. rewrite H, H3 by exact Ht. reflexivity.
Qed.
Lemma Q_ext n M M' y : (forall i j, (i <= n)%nat -> (j <= n)%nat -> M i j = M' i j) -> Q n M y = Q n M' y.
Proof. intro H. unfold Q. apply bsum_ext. intros i Hi. apply bsum_ext. intros j Hj. rewrite H by lia. reflexivity. Qed.
Lemma Q_set n M i j v y : (i <= n)%nat -> (j <= n)%nat -> M i j = 0 -> Q n (mset M i j v) y = Q n M y + y i * v * y j.
Proof.
  intros Hi Hj H0. unfold Q.
  rewrite (bsum_ext K (S n) (fun a => bsum (S n) (fun b => y a * mset M i j v a b * y b))
     (fun a => bsum (S n) (fun b => y a * M a b * y b) + (if Nat.eqb a i then y i * v * y j else 0))).
  - rewrite bsum_add. f_equal. apply (bsum_delta K (S n) i (fun _ => y i * v * y j)). lia.
  - intros a Ha. destruct (Nat.eqb_spec a i) as [->|Hne].
    + rewrite (bsum_ext K (S n) (fun b => y i * mset M i j v i b * y b)
        (fun b => y i * M i b * y b + (if Nat.eqb b j then y i * v * y j else 0))).
      * rewrite bsum_add. f_equal. apply (bsum_delta K (S n) j (fun _ => y i * v * y j)). lia.
      * intros b Hb. unfold mset. rewrite Nat.eqb_refl. cbn [andb]. destruct (Nat.eqb_spec b j) as [->|]; [rewrite H0; ring|ring].
    + replace (bsum (S n) (fun b => y a * M a b * y b) + 0) with (bsum (S n) (fun b => y a * M a b * y b)) by ring.
      apply bsum_ext. intros b Hb. unfold mset. destruct (Nat.eqb_spec a i); [contradiction|]. reflexivity.
Qed.
Lemma Q_put n M i j v y : (i <= j)%nat -> (j <= n)%nat -> M i j = 0 -> M j i = 0 ->
  Q n (put M (i, j) v) y = Q n M y + v * (y i * y j).
Proof.
  intros Hij Hj H1 H2. unfold put. destruct (Nat.eqb_spec i j) as [->|Hne].
  - rewrite Q_set by (try assumption; lia). ring.
  - rewrite Q_set; [|lia|lia|].
    + rewrite Q_set by (try assumption; lia). field. fnz.
    + unfold mset. destruct (Nat.eqb_spec j i); [congruence|]. exact H2.
Qed.
Lemma put_other (M : nat -> nat -> K) i j v a b : ~ (a = i /\ b = j) -> ~ (a = j /\ b = i) -> put M (i, j) v a b = M a b.
Proof.
  intros H1 H2. unfold put. destruct (Nat.eqb_spec i j) as [->|Hne]; unfold mset.
  - destruct (Nat.eqb_spec a j), (Nat.eqb_spec b j); cbn; try reflexivity. subst. tauto.
  - destruct (Nat.eqb_spec a j), (Nat.eqb_spec b i); cbn; try (subst; tauto);
    destruct (Nat.eqb_spec a i), (Nat.eqb_spec b j); cbn; try reflexivity; subst; try tauto.
Qed.
Lemma put_sym (M : nat -> nat -> K) i j v : (forall a b, M a b = M b a) -> forall a b, put M (i, j) v a b = put M (i, j) v b a.
Proof.
  intros H a b. unfold put. destruct (Nat.eqb_spec i j) as [->|Hne]; unfold mset.
  - destruct (Nat.eqb_spec a j), (Nat.eqb_spec b j); cbn; try reflexivity; apply H.
  - destruct (Nat.eqb_spec a j), (Nat.eqb_spec b i), (Nat.eqb_spec a i), (Nat.eqb_spec b j); cbn; try reflexivity; subst;
    rewrite ?Nat.eqb_refl; cbn; try congruence; try apply H.
Qed.
Lemma quad_loop_spec n p : forall M, wf n p -> deg_le 2 p -> (forall a b, M a b = M b a) ->
  (forall m r i j, In m (keys p) -> inds_loop m 0 [] = Some r -> complete_inds n r = (i, j) -> M i j = 0) ->
  exists M', quad_loop n p M = Some M' /\ (forall a b, M' a b = M' b a) /\
    forall x, Q n M' (gx n x) = Q n M (gx n x) + peval x p.
Proof.
  induction p as [|[m v] p IH]; intros M [Hnd Hl] Hd Hs H0.
  - exists M. split; [reflexivity|]. split; [exact Hs|]. intro x. unfold peval. cbn. ring.
  - cbn [keys map fst] in Hnd. inversion Hnd as [|? ? Hm Hnd']; subst.
    assert (Hlm : length m = n) by (apply Hl; left; reflexivity).
    destruct (position n m Hlm (Hd m (or_introl eq_refl))) as [r [i [j [E1 [E2 [Hij [Hjn [Hv [Hu Ht]]]]]]]]].
    assert (HM : M i j = 0) by (apply (H0 m r); [left; reflexivity|exact E1|exact E2]).
    destruct (IH (put M (i, j) v)) as [M' [E3 [Hs' Hq]]].
    + split; [exact Hnd'|]. intros m' Hm'. apply Hl. right. exact Hm'.
    + intros m' Hm'. apply Hd. right. exact Hm'.
    + apply put_sym, Hs.
    + intros m' r' i' j' Hm' E1' E2'.
      assert (Hl' : length m' = n) by (apply Hl; right; exact Hm').
      destruct (position n m' Hl' (Hd m' (or_intror Hm'))) as [r2 [i2 [j2 [F1 [F2 [Gij [Gjn [_ [_ Gt]]]]]]]]].
      rewrite E1' in F1. inversion F1; subst r2. rewrite E2' in F2. inversion F2; subst i2 j2.
      assert (Hne : ~ (i' = i /\ j' = j)).
      { intros [-> ->]. apply Hm. rewrite <- (Hu m' Hl' Gt). exact Hm'. }
      rewrite put_other; [|exact Hne|].
      * apply (H0 m' r'); [right; exact Hm'|exact E1'|exact E2'].
      * intros [-> ->]. apply Hne. split; lia.
    + exists M'. cbn [quad_loop]. rewrite E1, E2. split; [exact E3|]. split; [exact Hs'|].
      intro x. rewrite Hq, Q_put by (try assumption; rewrite Hs; exact HM). unfold peval. cbn [map fsum fst snd].
      rewrite Hv. ring.
Qed.
Lemma Q_qform n M y : Q n M y = qform (S n) (mtab (S n) (S n) M) y.
Proof. unfold Q, qform. apply bsum_ext. intros i Hi. apply bsum_ext. intros j Hj. rewrite mget_mtab by assumption. reflexivity. Qed.

Lemma Q_line n M y e : exists B C : K, forall t, Q n M (fun i => t * y i + e i) = t * t * Q n M y + t * B + C.
Proof.
  exists (bsum (S n) (fun i => bsum (S n) (fun j => e i * M i j * y j + y i * M i j * e j))), (Q n M e). intro t.
  unfold Q. rewrite <- !bsum_mul_l, <- !bsum_add. apply bsum_ext. intros i _.
  rewrite <- !bsum_mul_l, <- !bsum_add. apply bsum_ext. intros j _. ring.
Qed.
Lemma neg_somewhere (A B C : K) : A < 0 -> exists t, t * t * A + t * B + C < 0.
Proof.
  intro HA. assert (Ha : 0 < - A) by (apply flt_sub in HA; replace (- A) with (0 - A) by ring; exact HA).
  set (a := - A) in *. set (D := a * C).
  set (s := 1 + B * B + D * D). exists (s / a). apply flt_sub.
  replace (0 - (s / a * (s / a) * A + s / a * B + C))
    with ((((B - 1 / 2) * (B - 1 / 2) + (D - 1 / 2) * (D - 1 / 2) + 1 / 2
            + (B * B + D * D) * ((B - 1 / 2) * (B - 1 / 2) + 3 / 4 + D * D))) / a).
  - apply fdiv_pos; [|exact Ha].
    assert (forall u : K, 0 <= u * u) by (intro; apply fsqr_nonneg).
    assert (0 < (1 / 2 : K)) by (apply fdiv_pos; fpos). assert (0 <= (3 / 4 : K)) by (apply flt_le, fdiv_pos; fpos).
    apply fadd_pos_l.
    + apply fadd_pos_r; [apply fadd_nonneg; apply H|assumption].
    + apply fmul_nonneg; repeat apply fadd_nonneg; try apply H; assumption.
  - unfold s, D, a. field. split; fnz.
Qed.
Lemma Q_scale n M y c : Q n M (fun i => c * y i) = c * c * Q n M y.
Proof. unfold Q. rewrite <- bsum_mul_l. apply bsum_ext. intros i _. rewrite <- bsum_mul_l. apply bsum_ext. intros j _. ring. Qed.
Lemma Q_pt n M y y' : (forall i, (i <= n)%nat -> y i = y' i) -> Q n M y = Q n M y'.
Proof. intro H. unfold Q. apply bsum_ext. intros i Hi. apply bsum_ext. intros j Hj. rewrite !H by lia. reflexivity. Qed.

Lemma nth_genvec n j x : (j <= n)%nat -> ev x (nth j (genvec n) (EC 0)) = gx n x j.
Proof.
  intro H. unfold genvec, gx. destruct (Nat.ltb_spec j n) as [Hj|Hj].
  - rewrite app_nth1 by (rewrite map_length, seq_length; exact Hj). rewrite nth_map_seq by exact Hj. reflexivity.
  - rewrite app_nth2 by (rewrite map_length, seq_length; exact Hj). rewrite map_length, seq_length.
    replace (j - n)%nat with 0%nat by lia. reflexivity.
Qed.
Lemma ev_quad_expr n U Sv x : ev x (quad_expr n U Sv) =
  bsum (S n) (fun k => vget Sv k * (bsum (S n) (fun i => mget U k i * gx n x i) * bsum (S n) (fun i => mget U k i * gx n x i))).
Proof.
  unfold quad_expr. rewrite ev_esum, map_map, <- (bsum_fsum K (S n)). apply bsum_ext. intros i Hi. cbn [ev].
  rewrite ev_esum, map_map, <- (bsum_fsum K (S n)). cbn [ev fpow].
  rewrite (bsum_ext K (S n) (fun j => mget U i j * ev x (nth j (genvec n) (EC 0))) (fun j => mget U i j * gx n x j)).
  - ring.
  - intros j Hj. rewrite nth_genvec by lia. reflexivity.
Qed.

Lemma quadratic_total n p : wf n p -> deg_le 2 p ->
  (exists e, sos_struct_quadratic n p = Ok (Some e) /\ (forall x, ev x e = peval x p) /\ manifest false e = true /\ forall x, defined x e) \/
  (sos_struct_quadratic n p = Ok None /\ exists x, peval x p < 0).
Proof.
  intros Hwf Hd. unfold sos_struct_quadratic.
  destruct (quad_loop_spec n p (fun _ _ => 0) Hwf Hd) as [M [-> [Hs Hq]]]; [reflexivity|reflexivity|].
  assert (Hq' : forall x, Q n M (gx n x) = peval x p).
  { intro x. rewrite Hq. assert (E : Q n (fun _ _ : nat => 0) (gx n x) = (0 : K)).
    { unfold Q. apply bsum_all0. intros. apply bsum_all0. intros. ring. }
    rewrite E. ring. }
  set (MM := mtab (S n) (S n) M). assert (Hlen : length MM = S n) by apply mtab_length.
  assert (Hsym : symmetric (length MM) MM).
  { rewrite Hlen. intros i j Hi Hj. unfold MM. rewrite !mget_mtab by assumption. apply Hs. }
  assert (Hne : MM <> []) by (destruct MM; [discriminate|congruence]).
  destruct (congruence MM) as [[[U Sv]|]|e] eqn:E.
  - left. exists (quad_expr n U Sv). split; [reflexivity|].
    assert (HS := congruence_sound_lemma K MM U Sv Hsym E). destruct HS as [_ [_ [_ [Hpos _]]]]. rewrite Hlen in Hpos.
    split; [|split].
    + intro x. rewrite ev_quad_expr, <- Hq', Q_qform. fold MM.
      assert (F := congruence_sos_lemma K MM U Sv (gx n x) Hsym E). rewrite Hlen in F. symmetry. exact F.
    + apply manifest_esum. intros e He. apply in_map_iff in He. destruct He as [i [<- Hi]]. apply in_seq in Hi.
      cbn [manifest Nat.even orb]. rewrite andb_true_r. apply fleb_le, Hpos. lia.
    + intro x. unfold quad_expr, esum. generalize (seq 0 (S n)) at 2. intro l. induction l as [|i l IH]; cbn [map fold_right defined]; [exact I|].
      split; [|exact IH]. split; [exact I|]. generalize (seq 0 (S n)). intro l2.
      induction l2 as [|j l2 IH2]; cbn [map fold_right defined]; [exact I|]. split; [|exact IH2]. split; [exact I|].
      unfold genvec. destruct (Nat.lt_ge_cases j (length (map (@EX K) (seq 0 n)))) as [Hj|Hj].
      * rewrite app_nth1 by exact Hj. rewrite map_length, seq_length in Hj. rewrite nth_map_seq by exact Hj. exact I.
      * rewrite app_nth2 by exact Hj. destruct (j - _)%nat as [|[|k]]; exact I.
  - right. split; [reflexivity|]. apply (congruence_none_lemma K MM Hne Hsym) in E. destruct E as [y Hy].
    rewrite Hlen in Hy. unfold MM in Hy. rewrite <- Q_qform in Hy.
    destruct (feq_dec K (y n) 0) as [Z|NZ].
    + destruct (Q_line n M y (fun i => if Nat.eqb i n then 1 else 0)) as [B [C HQ]].
      destruct (neg_somewhere (Q n M y) B C Hy) as [t Ht]. rewrite <- HQ in Ht.
      exists (fun i => t * y i). rewrite <- Hq'. erewrite Q_pt; [exact Ht|]. intros i Hi. unfold gx.
      destruct (Nat.ltb_spec i n) as [Hi'|Hi'].
      * destruct (Nat.eqb_spec i n); [lia|]. ring.
      * assert (i = n) as -> by lia. rewrite Nat.eqb_refl, Z. ring.
    + exists (fun i => / y n * y i). rewrite <- Hq'.
      rewrite (Q_pt n M _ (fun i => / y n * y i)).
      * rewrite Q_scale. apply flt_sub. replace (0 - / y n * / y n * Q n M y) with ((/ y n * / y n) * (0 - Q n M y)) by ring.
        apply fmul_pos; [apply fsqr_pos, finv_neq0, NZ|]. apply (proj1 (flt_sub _ _)). exact Hy.
      * intros i Hi. unfold gx. destruct (Nat.ltb_spec i n) as [Hi'|Hi']; [reflexivity|].
        assert (i = n) as -> by lia. field. exact NZ.
  - exfalso. rewrite (congruence_nonempty K MM Hne) in E. discriminate.
Qed.

(** *** the wrappers *)
Lemma filter_keys_nodup p f : NoDup (keys p) -> NoDup (keys (filter f p)).
Proof.
  unfold keys. induction p as [|t p IH]; cbn; intro H; [constructor|]. inversion H as [|? ? H1 H2]; subst.
  destruct (f t); [|apply IH, H2]. cbn. constructor; [|apply IH, H2].
  intro Hin. apply H1. apply in_map_iff in Hin. destruct Hin as [t' [E Ht']]. apply filter_In in Ht'.
  apply in_map_iff. exists t'. tauto.
Qed.
Lemma filter_keys_in p f m : In m (keys (filter f p)) -> In m (keys p).
Proof. unfold keys. rewrite !in_map_iff. intros [t [E H]]. apply filter_In in H. exists t. tauto. Qed.
Lemma keys_map_wf n p (g : list nat -> list nat) :
  wf n p -> (forall m, In m (keys p) -> length (g m) = n) ->
  (forall m m', In m (keys p) -> In m' (keys p) -> g m = g m' -> m = m') ->
  wf n (map (fun t => (g (fst t), snd t)) p).
Proof.
  intros [H1 H2] Hl Hi. unfold wf, keys. rewrite map_map. cbn [fst].
  rewrite <- (map_map fst g). split.
  - apply nodup_map_in; [exact Hi|exact H1].
  - intros m Hm. apply in_map_iff in Hm. destruct Hm as [m' [<- Hm']]. apply Hl, Hm'.
Qed.
Lemma filter_wf n p f : wf n p -> wf n (filter f p).
Proof. intros [H1 H2]. split; [apply filter_keys_nodup, H1|]. intros m Hm. apply H2, (filter_keys_in _ _ _ Hm). Qed.
Lemma cancel_abc_wf n p : wf n p -> wf n (snd (cancel_abc n p)) /\ length (fst (cancel_abc n p)) = n.
Proof.
  intro Hwf. destruct Hwf as [Hnd Hlen]. unfold cancel_abc. destruct p as [|t0 p0] eqn:Ep.
  { cbn. split; [split; [constructor|intros m []]|apply repeat_length]. }
  rewrite <- Ep in *. clear Ep.
  pose proof (cancel_loop_spec n (keys p) Hlen (repeat (coeff_degree p + 1)%nat n) (repeat_length _ _)) as H.
  destruct (cancel_loop _ _) as [r|]; cbn [fst snd]; [|split; [split; assumption|apply repeat_length]].
  destruct H as [Hr H]. split; [|exact Hr].
  apply (keys_map_wf n (filter (fun t => negb (snd t =? 0)) p) (fun m => zip_with Nat.sub m r)).
  - apply filter_wf. split; assumption.
  - intros m Hm. apply filter_keys_in in Hm. rewrite zip_with_length; [apply Hlen, Hm|rewrite Hr; apply Hlen, Hm].
  - intros m m' Hm Hm' E. apply filter_keys_in in Hm. apply filter_keys_in in Hm'.
    assert (L1 := Hlen m Hm). assert (L2 := Hlen m' Hm').
    apply (nth_ext _ _ 0%nat 0%nat); [congruence|]. intros i Hi. rewrite L1 in Hi.
    assert (E2 := f_equal (fun l => nth i l 0%nat) E). cbn beta in E2. rewrite !zip_with_nth in E2 by congruence.
    rewrite !(H i Hi) in E2.
    assert (A := minexp_le_in (keys p) (nth i (repeat (coeff_degree p + 1)%nat n) 0%nat) i m Hm).
    assert (B := minexp_le_in (keys p) (nth i (repeat (coeff_degree p + 1)%nat n) 0%nat) i m' Hm'). lia.
Qed.
Lemma cancel_k_wf n p : wf n p -> wf n (snd (cancel_k p)).
Proof.
  intro Hwf. destruct Hwf as [Hnd Hlen]. unfold cancel_k. destruct p as [|t0 p0] eqn:Ep; [split; assumption|].
  rewrite <- Ep in *. clear Ep.
  pose proof (gcd_loop_spec (concat (keys p)) 0) as H. destruct (gcd_loop (concat (keys p)) 0) as [[|d]|]; cbn [snd]; try (split; assumption).
  destruct H as [Hdiv _].
  apply (keys_map_wf n (filter (fun t => negb (snd t =? 0)) p) (map (fun i => Nat.div i (S d)))).
  - apply filter_wf. split; assumption.
  - intros m Hm. rewrite map_length. apply Hlen, (filter_keys_in _ _ _ Hm).
  - intros m m' Hm Hm' E. apply filter_keys_in in Hm. apply filter_keys_in in Hm'.
    assert (G : forall D, D <> 0%nat -> forall a b : list nat, (forall u, In u a -> Nat.divide D u) -> (forall u, In u b -> Nat.divide D u) ->
       map (fun i => Nat.div i D) a = map (fun i => Nat.div i D) b -> a = b).
    { clear. intros D HD. induction a as [|u a IH]; intros [|v b] Ha Hb E; cbn [map] in E; try discriminate; [reflexivity|].
      injection E as E1 E2. f_equal.
      - destruct (Ha u (or_introl eq_refl)) as [c ->]. destruct (Hb v (or_introl eq_refl)) as [c' ->].
        rewrite !Nat.div_mul in E1 by exact HD. subst. reflexivity.
      - apply IH; [intros; apply Ha; right; assumption|intros; apply Hb; right; assumption|exact E2]. }
    apply (G (S d)); [lia| | |exact E]; intros u Hu; apply Hdiv; apply in_concat; [exists m|exists m']; split; assumption.
Qed.

Lemma ev_epow k x (e : ex K) : ev x (epow k e) = ev (fun i => x i ^ k) e.
Proof. induction e; cbn [epow ev]; try congruence. Qed.
Lemma defined_epow k x (e : ex K) : defined x (epow k e) <-> defined (fun i => x i ^ k) e.
Proof. induction e; cbn [epow defined]; rewrite ?ev_epow; tauto. Qed.
Lemma meval_even_nonneg x m : forallb Nat.even m = true -> 0 <= meval x m.
Proof.
  revert x. induction m as [|a m IH]; intros x H; [rewrite meval_nil; apply f1_nonneg|].
  cbn in H. apply andb_true_iff in H. rewrite meval_cons. apply fmul_nonneg; [apply fpow_even_nonneg; tauto|apply IH; tauto].
Qed.
Lemma meval_orthant x m : orthant (length m) x -> 0 <= meval x m.
Proof.
  revert x. induction m as [|a m IH]; intros x H; [rewrite meval_nil; apply f1_nonneg|].
  rewrite meval_cons. apply fmul_nonneg; [apply fpow_nonneg, H; cbn; lia|]. apply IH. intros i Hi. apply H. cbn. lia.
Qed.

(** the two contracts a solver may satisfy *)
Definition sound_orthant n (s : solver) : Prop :=
  forall q b e, wf n q -> s q b = Returns (Some e) -> certifies (orthant n) q e.
Definition sound_real n (s : solver) : Prop :=
  forall q b e, wf n q -> b <> Some false -> s q b = Returns (Some e) -> certifies (fun _ => True) q e.

Lemma extract_cases n p s real e : sos_struct_extract_factors n p s real = Returns (Some e) ->
  (exists e0, existsb (fun i => Nat.ltb 0 i) (fst (cancel_abc n p)) = true /\ e = EMul (emonom (fst (cancel_abc n p))) e0 /\
     s (snd (cancel_abc n p)) (Some (real && forallb Nat.even (fst (cancel_abc n p)))%bool) = Returns (Some e0)) \/
  (exists e0, (1 < fst (cancel_k p))%nat /\ e = epow (fst (cancel_k p)) e0 /\
     s (snd (cancel_k p)) (Some (if Nat.even (fst (cancel_k p)) then false else real)) = Returns (Some e0)) \/
  s p None = Returns (Some e).
Proof.
  unfold sos_struct_extract_factors. destruct (cancel_abc n p) as [mo q]. cbn [fst snd]. destruct (existsb _ mo).
  - destruct (s q _) as [[e0|]| | |] eqn:E; try discriminate. intro H. injection H as <-. left. exists e0. auto.
  - destruct (cancel_k p) as [i q']. cbn [fst snd]. destruct (Nat.ltb_spec 1 i) as [Hi|Hi]; [|tauto].
    destruct (s q' _) as [[e0|]| | |] eqn:E; try discriminate. intro H. injection H as <-. right. left. exists e0. auto.
Qed.

Lemma defined_emonom x m : defined x (emonom m : ex K).
Proof. unfold emonom. generalize (seq 0 (length m)). intro l. induction l as [|i l IH]; cbn; auto. Qed.

Lemma extract_orthant n p s real e : wf n p -> sound_orthant n s ->
  sos_struct_extract_factors n p s real = Returns (Some e) -> certifies (orthant n) p e.
Proof.
  intros Hwf Hs H. destruct (cancel_abc_wf n p Hwf) as [Hw1 Hl]. assert (Hw2 := cancel_k_wf n p Hwf).
  apply extract_cases in H. destruct H as [[e0 [_ [-> H]]]|[[e0 [Hk [-> H]]]|H]].
  - intros x Hx [_ Hd]. destruct (Hs _ _ _ Hw1 H x Hx Hd) as [E P]. cbn [ev]. rewrite ev_emonom, E, <- cancel_abc_identity by exact Hwf.
    split; [reflexivity|]. rewrite (cancel_abc_identity K n p x Hwf), <- E. apply fmul_nonneg; [|exact P].
    apply meval_orthant. rewrite Hl. exact Hx.
  - intros x Hx Hd. apply defined_epow in Hd. rewrite ev_epow.
    destruct (Hs _ _ _ Hw2 H (fun i => x i ^ fst (cancel_k p))) as [E P]; [|exact Hd|].
    + intros i Hi. apply fpow_nonneg, Hx, Hi.
    + split; [|exact P]. rewrite E, <- cancel_k_identity. reflexivity.
  - apply (Hs _ _ _ Hwf H).
Qed.
Lemma extract_real n p s e : wf n p -> sound_orthant n s -> sound_real n s ->
  forallb Nat.even (fst (cancel_abc n p)) = true ->
  sos_struct_extract_factors n p s true = Returns (Some e) -> certifies (fun _ => True) p e.
Proof.
  intros Hwf Hs Hr Hev H. destruct (cancel_abc_wf n p Hwf) as [Hw1 Hl]. assert (Hw2 := cancel_k_wf n p Hwf).
  apply extract_cases in H. destruct H as [[e0 [_ [-> H]]]|[[e0 [Hk [-> H]]]|H]].
  - rewrite Hev in H. intros x Hx [_ Hd]. destruct (Hr _ (Some true) e0 Hw1 ltac:(discriminate) H x Hx Hd) as [E P].
    cbn [ev]. rewrite ev_emonom, E, <- cancel_abc_identity by exact Hwf.
    split; [reflexivity|]. rewrite (cancel_abc_identity K n p x Hwf), <- E. apply fmul_nonneg; [|exact P].
    apply meval_even_nonneg, Hev.
  - intros x Hx Hd. apply defined_epow in Hd. rewrite ev_epow.
    assert (HH : ev (fun i => x i ^ fst (cancel_k p)) e0 = peval (fun i => x i ^ fst (cancel_k p)) (snd (cancel_k p)) /\
                 0 <= ev (fun i => x i ^ fst (cancel_k p)) e0).
    { destruct (Nat.even (fst (cancel_k p))) eqn:Ek.
      - apply (Hs _ _ _ Hw2 H); [|exact Hd]. intros i Hi. apply fpow_even_nonneg, Ek.
      - apply (Hr _ (Some true) e0 Hw2 ltac:(discriminate) H _ I Hd). }
    destruct HH as [E P]. split; [|exact P]. rewrite E, <- cancel_k_identity. reflexivity.
  - apply (Hr _ None e Hwf ltac:(discriminate) H).
Qed.

Lemma wrapped_first (l : list (option (@solver K))) p b e : wrapped_solver l p b = Returns (Some e) ->
  exists l1 s l2, l = l1 ++ Some s :: l2 /\ s p b = Returns (Some e) /\
    forall s', In (Some s') l1 -> s' p b = Returns None \/ s' p b = Unsolvable.
Proof.
  induction l as [|[s|] l IH]; cbn [wrapped_solver]; [discriminate| |].
  - destruct (s p b) as [[e0|]| | |] eqn:E; try discriminate.
    + intro H. injection H as ->. exists [], s, l. split; [reflexivity|]. split; [exact E|]. intros s' [].
    + intro H. destruct (IH H) as [l1 [s1 [l2 [-> [H1 H2]]]]]. exists (Some s :: l1), s1, l2. split; [reflexivity|]. split; [exact H1|].
      intros s' [Hs|Hs]; [injection Hs as ->; left; exact E|apply H2, Hs].
    + intro H. destruct (IH H) as [l1 [s1 [l2 [-> [H1 H2]]]]]. exists (Some s :: l1), s1, l2. split; [reflexivity|]. split; [exact H1|].
      intros s' [Hs|Hs]; [injection Hs as ->; right; exact E|apply H2, Hs].
  - intro H. destruct (IH H) as [l1 [s1 [l2 [-> [H1 H2]]]]]. exists (None :: l1), s1, l2. split; [reflexivity|]. split; [exact H1|].
    intros s' [Hs|Hs]; [discriminate|apply H2, Hs].
Qed.
Lemma wrapped_sound_orthant n l : (forall s, In (Some s) l -> sound_orthant n s) -> sound_orthant n (wrapped_solver l).
Proof.
  intros H q b e Hq E. apply wrapped_first in E. destruct E as [l1 [s [l2 [-> [E _]]]]].
  refine (H s _ q b e Hq E). apply in_or_app. right. left. reflexivity.
Qed.
Lemma wrapped_sound_real n l : (forall s, In (Some s) l -> sound_real n s) -> sound_real n (wrapped_solver l).
Proof.
  intros H q b e Hq Hb E. apply wrapped_first in E. destruct E as [l1 [s [l2 [-> [E _]]]]].
  refine (H s _ q b e Hq Hb E). apply in_or_app. right. left. reflexivity.
Qed.
Lemma table_get_in (t : list (nat * @solver K)) d s : table_get t d = Some s -> In (d, s) t.
Proof.
  induction t as [|[d' s'] t IH]; cbn; [discriminate|]. destruct (Nat.eqb_spec d d') as [->|]; [|intro; right; auto].
  intro H. injection H as ->. left. reflexivity.
Qed.
Lemma manifest_certifies n p e : (forall x, ev x e = peval x p) -> manifest true e = true -> (forall x, orthant n x -> defined x e -> 0 <= ev x e) -> certifies (orthant n) p e.
Proof. intros H1 H2 H3 x Hx Hd. split; [apply H1|apply H3; assumption]. Qed.

Lemma linear_orthant n p e : (0 < n)%nat -> wf n p -> sos_struct_linear n p = Some e -> certifies (orthant n) p e.
Proof.
  intros Hn Hwf H x Hx _. destruct (linear_value n p e Hn Hwf H) as [HE [HM Hd]]. split; [apply HE|].
  rewrite HE, (peval_deg1 n) by assumption.
  assert (Hc : forall m, 0 <= coef p m).
  { intro m. clear -H Hwf. unfold sos_struct_linear in H. cbv zeta in H. destruct (Nat.ltb 1 (total_degree p)); [discriminate|].
    destruct (Nat.eqb (total_degree p) 0 && _)%bool eqn:E.
    - rewrite andb_true_iff in E. destruct E as [E1 E2]. apply Nat.eqb_eq in E1. apply fleb_le in E2.
      assert (Hd := proj1 (total_degree_le p 0)). destruct (in_dec mon_dec m (keys p)) as [Hin|Hn]; [|rewrite coef_notin by exact Hn; apply fle_refl].
      assert (m = repeat 0%nat n) as ->.
      { destruct Hwf as [_ Hl]. rewrite <- (Hl m Hin). apply mon_deg0. assert (list_sum m <= 0)%nat by (apply Hd; [lia|exact Hin]). lia. }
      rewrite (coef_repeat0_deg0 n p Hwf) by lia. exact E2.
    - destruct (forallb _ _) eqn:Ec; cbn [negb] in H; [|discriminate]. apply coef_nonneg_all. intros c Hc.
      rewrite forallb_forall in Ec. apply fleb_le, Ec. destruct p; [destruct Hc|exact Hc]. }
  apply fadd_nonneg; [apply Hc|]. apply bsum_nonneg. intros i Hi. apply fmul_nonneg; [apply Hc|apply Hx, Hi].
Qed.
Lemma manifest_false_nonneg (e : ex K) x : manifest false e = true -> defined x e -> 0 <= ev x e.
Proof. intros H1 H2. apply (manifest_nonneg false e x); [intro; discriminate|exact H2|exact H1]. Qed.

Lemma degree_solver_orthant n table hom : (0 < n)%nat -> (forall d s, In (d, s) table -> sound_orthant n s) ->
  forall q b e, wf n q -> (hom = true -> deg_le (coeff_degree q) q) ->
  degree_specified_solver n table hom q b = Returns (Some e) -> certifies (orthant n) q e.
Proof.
  intros Hn Ht q b e Hq Hh. unfold degree_specified_solver. cbv zeta. set (d := if hom then coeff_degree q else total_degree q).
  assert (Hdeg : deg_le d q).
  { unfold d. destruct hom; [apply Hh; reflexivity|]. apply total_degree_le. lia. }
  destruct (table_get table d) as [s|] eqn:E; [apply table_get_in in E; apply (Ht d s E); exact Hq|].
  destruct (Nat.eqb d 1).
  - intro H. injection H as H. apply linear_orthant; assumption.
  - destruct (Nat.eqb_spec d 2) as [E2|]; [|discriminate]. rewrite E2 in Hdeg.
    destruct (quadratic_total n q Hq Hdeg) as [[e0 [-> [H1 [H2 H3]]]]|[-> _]]; [|discriminate].
    intro H. injection H as <-. intros x _ Hd. split; [apply H1|apply manifest_false_nonneg; assumption].
Qed.
End Proofs.

(** a decision procedure for [defined], for the examples *)
Section Decide.
Context {K : OrdField}.
Local Open Scope of_scope.
Fixpoint definedb (x : nat -> K) (e : ex K) : bool :=
  match e with
  | EC _ | EX _ => true
  | EAdd a b | ESub a b | EMul a b => (definedb x a && definedb x b)%bool
  | EDiv a b => (definedb x a && definedb x b && negb (ev x b =? 0))%bool
  | EPow a _ => definedb x a
  end.
Lemma definedb_defined x e : definedb x e = true -> defined x e.
Proof.
  induction e; cbn [definedb defined]; rewrite ?andb_true_iff; try tauto. intros [[H1 H2] H3].
  repeat split; auto. intro H. rewrite H in H3. rewrite (proj2 (feqb_eq K _ _) eq_refl) in H3. discriminate.
Qed.
End Decide.
