(** * Homogeneous polynomials in two variables (triples/core/structsos/pivoting/bivariate.py) *)
From Coq Require Import Bool List Arith Lia Ring Field Permutation.
From Verif Require Import OrdField Base Perm Poly PolyId Coeff Congruence Expr Halfspace Univariate UnivariateLemmas.
Import ListNotations.

Section Model.
Context {K : OrdField}.
Local Open Scope of_scope.

(** ** The solver for one factor *)
(** [Poly.is_linear] of sympy: every monomial has degree at most one *)
Definition is_linear2 (p : poly K) : bool := forallb (fun t => Nat.leb (list_sum (fst t)) 1) p.
(** the loop over the constraints (bivariate.py:118-124) *)
Definition bounds (ineqs : list (poly K * ex K)) : list (vec2 K * ex K) :=
  map (fun ge => ((coef (fst ge) [1;0]%nat, coef (fst ge) [0;1]%nat), snd ge)) (filter (fun ge => is_linear2 (fst ge)) ineqs).
(** coefficients in ascending powers of the first variable (bivariate.py:149) *)
Definition hcoeffs (d : nat) (p : poly K) : list K := vtab (S d) (fun i => coef p [i; d - i]%nat).
(** [homogeneous_order] *)
Definition hom_order (p : poly K) : nat := coeff_degree p.

(** [poly.subs({a: A, b: B}).as_poly(y)] for A, B of degree one in y (bivariate.py:161, 178) *)
Definition subs_poly (h : list K) (d : nat) (A B : list K) : list K :=
  fold_right (fun i acc => uadd (uscale (vget h i) (umul (upow A i) (upow B (d - i)))) acc) [] (seq 0 (S d)).

(** [map_poly] before squaring (bivariate.py:135-139); [expand], [together], [signsimp] keep the value *)
Definition map_poly (numer denom : ex K) (p : list K) : ex K :=
  let d2 := udeg0 p in
  fold_right (fun j acc => EAdd (EMul (EMul (EC (vget p j)) (EPow numer j)) (EPow denom (d2 - j))) acc) (EC 0) (seq 0 (S d2)).
(** one term [c*p] of [_hom_sos] (bivariate.py:132-143); a zero weight makes the product 0 *)
Definition hom_term (D : nat) (numer denom : ex K) (t : K * list K) : ex K :=
  let d2 := udeg0 (snd t) in
  if fst t =? 0 then EC 0
  else
    let s := EPow (map_poly numer denom (snd t)) 2 in
    EMul (EC (fst t)) (if Nat.leb d2 (D / 2) then EMul s (EPow denom ((D / 2 - d2) * 2)) else EDiv s (EPow denom ((d2 - D / 2) * 2))).
Definition hom_sos (D : nat) (numer denom : ex K) (w : wsos K) : ex K :=
  fold_right (fun t acc => EAdd (hom_term D numer denom t) acc) (EC 0) w.

(** [u*a + v*b] *)
Definition lin2 (u v : K) : ex K := EAdd (EMul (EC u) (EX 0)) (EMul (EC v) (EX 1)).

(** the univariate sum of squares in a/b times b^d (bivariate.py:153) *)
Definition deh_expr (d : nat) (w : wsos K) : ex K :=
  let t := EDiv (EX 0) (EX 1) in
  EMul (fold_right (fun cp acc => EAdd (EMul (EC (fst cp))
          (EPow (fold_right (fun j acc => EAdd (EMul (EC (vget (snd cp) j)) (EPow t j)) acc) (EC 0) (seq 0 (length (snd cp)))) 2)) acc) (EC 0) w)
       (EPow (EX 1) d).

Section Solver.
(** [prove_univariate_interval] on the line ([false]) or on the half line ([true]); the two parts of
    the proof, [sol[0]] and [sol[1]] *)
Variable uni : bool -> list K -> res (option (wsos K * wsos K)).

(** [_sos_struct_bivariate_linear_ineq] (bivariate.py:117-205) for a polynomial of degree [d].
    A vanishing determinant makes sympy divide by zero; the model raises there. *)
Definition biv_linear (d : nat) (p : poly K) (ineqs : list (poly K * ex K)) : res (option (ex K)) :=
  let h := hcoeffs d p in
  let H := hs_run (bounds ineqs) in
  if degenerated H then Ok None
  else match stored H with
  | [] =>
      if Nat.odd d then Ok None
      else match uni false h with
           | Err e => Err e
           | Ok None => Ok None
           | Ok (Some (w, _)) => Ok (Some (deh_expr d w))
           end
  | [((u, v), expr)] =>
      let n := u ^ 2 + v ^ 2 in
      if n =? 0 then Err ZeroDivisionError
      else match uni false (subs_poly h d [u / n; - v / n] [v / n; u / n]) with
           | Err e => Err e
           | Ok None => Ok None
           | Ok (Some (w, _)) =>
               let ubva := ESub (EMul (EC u) (EX 1)) (EMul (EC v) (EX 0)) in
               if Nat.even d then Ok (Some (hom_sos d ubva (lin2 u v) w))
               else Ok (Some (EMul (hom_sos (d - 1) ubva (lin2 u v) w) expr))
           end
  | [((u, v), expr1); ((w, z), expr2)] =>
      let D := v * w - u * z in
      if D =? 0 then Err ZeroDivisionError
      else match uni true (subs_poly h d [- z / D; v / D] [- w / - D; u / - D]) with
           | Err e => Err e
           | Ok None => Ok None
           | Ok (Some (w1, w2)) =>
               let N := lin2 w z in let M := lin2 u v in
               if Nat.odd d then
                 Ok (Some (EAdd (EMul expr1 (hom_sos (d - 1) N M w1)) (EMul expr2 (hom_sos (d - 1) N M w2))))
               else if Nat.leb 2 d then
                 Ok (Some (EAdd (hom_sos d N M w1) (EMul (EMul expr2 expr1) (hom_sos (d - 2) N M w2))))
               else
                 Ok (Some (EAdd (hom_sos d N M w1) (EMul (EDiv expr2 expr1) (hom_sos d N M w2))))
           end
  | _ => Ok None
  end.

(** [poly.as_expr()] *)
Definition pexpr (p : poly K) : ex K :=
  fold_right (fun t acc => EAdd (EMul (EC (snd t)) (EMul (EPow (EX 0) (nth 0 (fst t) 0%nat)) (EPow (EX 1) (nth 1 (fst t) 0%nat)))) acc) (EC 0) p.
Definition popp (p : poly K) : poly K := map (fun t => (fst t, - snd t)) p.

(** [structural_sos_2vars] (bivariate.py:6-33); [fs] is the rest of [factor_list()], [sols] the
    product built so far *)
Fixpoint biv_loop (sgn : K) (sols : ex K) (fs : list (poly K * nat)) (ineqs : list (poly K * ex K)) : res (option (ex K)) :=
  match fs with
  | [] => if sgn <? 0 then Ok None else Ok (Some (EMul (EC sgn) sols))
  | (f, m) :: fs' =>
      if Nat.even m then biv_loop sgn (EMul sols (EPow (pexpr f) m)) fs' ineqs
      else match biv_linear (hom_order f) f ineqs with
           | Err e => Err e
           | Ok (Some s) => biv_loop sgn (EMul sols (EPow s m)) fs' ineqs
           | Ok None =>
               match biv_linear (hom_order f) (popp f) ineqs with
               | Err e => Err e
               | Ok (Some s) => biv_loop (- sgn) (EMul sols (EPow s m)) fs' ineqs
               | Ok None => Ok None
               end
           end
  end.
Definition structural_sos_2vars (fl : K * list (poly K * nat)) (ineqs : list (poly K * ex K)) : res (option (ex K)) :=
  biv_loop (fst fl) (EC 1) (snd fl) ineqs.
End Solver.
End Model.

Section Facts.
Variable K : OrdField.
Local Open Scope of_scope.
Add Field Kf : (F_field K).
Implicit Types (p : poly K) (f h : list K).

(** ** Homogenisation *)
Definition hom (D : nat) f (x y : K) : K := bsum (S D) (fun j => vget f j * y ^ j * x ^ (D - j)).
Lemma hom_off D f x y : (length f <= S D)%nat -> x <> 0 -> hom D f x y = x ^ D * ueval f (y / x).
Proof.
  intros Hl Hx. rewrite (ueval_bsum K f (S D)) by exact Hl. unfold hom. rewrite <- bsum_mul_l. apply bsum_ext. intros j Hj.
  assert (E : x ^ D = x ^ j * x ^ (D - j)) by (rewrite <- fpow_add; f_equal; lia).
  assert (E2 : y ^ j = x ^ j * (y / x) ^ j) by (rewrite <- fpow_mul_l; f_equal; field; exact Hx).
  rewrite E, E2. ring.
Qed.
(** as a polynomial in x *)
Lemma hom_poly D : forall f x y, (length f <= S D)%nat -> ueval (utransform D f [y] [0; 1]) x = hom D f x y.
Proof.
  induction D as [|D IH]; intros f x y Hl.
  - destruct f as [|c [|]]; cbn in Hl; try lia; unfold hom; cbn [utransform bsum upow]; rewrite ?ueval_uadd, ?ueval_uscale, ?ueval_umul;
      cbn [ueval utransform vget nth fpow Nat.sub]; unfold vget; cbn [nth]; ring.
  - destruct f as [|c f].
    + cbn [utransform]. rewrite ueval_nil. symmetry. unfold hom. apply bsum_all0. intros i _. unfold vget. destruct i; cbn [nth]; ring.
    + cbn [utransform pred]. rewrite ueval_uadd, ueval_uscale, ueval_umul, ueval_upow, IH by (cbn in Hl; lia).
      unfold hom. rewrite (bsum_Sl K (S D)). change (vget (c :: f) 0) with c.
      rewrite (bsum_ext K (S D) (fun i => vget (c :: f) (S i) * y ^ S i * x ^ (S D - S i)) (fun j => y * (vget f j * y ^ j * x ^ (D - j)))).
      * rewrite bsum_mul_l. rewrite !ueval_cons, !ueval_nil. replace (0 + x * (1 + x * 0)) with x by ring. rewrite Nat.sub_0_r. change (y ^ 0) with (1 : K). ring.
      * intros j Hj. change (vget (c :: f) (S j)) with (vget f j). cbn [Nat.sub fpow]. ring.
Qed.

(** value of a homogeneous polynomial *)
Definition homog2 (d : nat) p : Prop := forall m, In m (keys p) -> list_sum m = d.
Lemma hom_value d p x : wf 2 p -> homog2 d p -> peval x p = hom d (hcoeffs d p) (x 1%nat) (x 0%nat).
Proof.
  intros [Hnd Hl] Hh. rewrite (peval_over K x p (map (fun i => [i; d - i]%nat) (seq 0 (S d))) Hnd).
  - rewrite map_map. unfold hom. rewrite bsum_fsum. apply fsum_map_ext. intros i Hi. apply in_seq in Hi. unfold hcoeffs.
    rewrite vget_vtab by lia. rewrite !meval_cons, meval_nil. ring.
  - apply FinFun.Injective_map_NoDup; [intros i j E; congruence|apply seq_NoDup].
  - intros m Hm. pose proof (Hl m Hm) as L. pose proof (Hh m Hm) as S. destruct m as [|i [|j [|]]]; try discriminate.
    cbn in S. apply in_map_iff. exists i. split; [f_equal; f_equal; lia|]. apply in_seq. lia.
Qed.

Lemma hom_subst d h A B t : ueval (subs_poly h d A B) t = hom d h (ueval B t) (ueval A t).
Proof.
  unfold subs_poly, hom. rewrite bsum_fsum. induction (seq 0 (S d)) as [|i l IH]; [reflexivity|].
  cbn [fold_right map fsum]. rewrite ueval_uadd, IH, ueval_uscale, ueval_umul, !ueval_upow. ring.
Qed.
Lemma hom_scale d h c x y : hom d h (c * x) (c * y) = c ^ d * hom d h x y.
Proof.
  unfold hom. rewrite <- bsum_mul_l. apply bsum_ext. intros j Hj. rewrite !fpow_mul_l.
  replace (c ^ d) with (c ^ j * c ^ (d - j)) by (rewrite <- fpow_add; f_equal; lia). ring.
Qed.
(** a homogeneous polynomial along a line is a polynomial *)
Definition along (h : list K) (d : nat) (A B : list K) : list K := subs_poly h d A B.

(** ** Degrees in a weighted sum of squares *)
(** terms c * y^e * p(y)^2 *)
Definition term : Type := (K * nat * list K).
Definition tval (t : term) (y : K) : K := fst (fst t) * y ^ snd (fst t) * (ueval (snd t) y * ueval (snd t) y).
Definition tdeg (t : term) : nat := (2 * udeg0 (snd t) + snd (fst t))%nat.
Definition live (t : term) : Prop := fst (fst t) <> 0 /\ strip (snd t) <> [].
(** x^D times the term at y/x, as a polynomial in x *)
Definition tpoly (D : nat) (y : K) (t : term) : list K :=
  umul (uscale (fst (fst t) * y ^ snd (fst t)) (upow [0; 1] (D - tdeg t)))
       (umul (utransform (udeg0 (snd t)) (strip (snd t)) [y] [0; 1]) (utransform (udeg0 (snd t)) (strip (snd t)) [y] [0; 1])).
Lemma X_eval (x : K) : ueval [0; 1] x = x.
Proof. rewrite !ueval_cons, ueval_nil. ring. Qed.
Lemma tpoly_eval D y t x : x <> 0 -> (tdeg t <= D)%nat -> ueval (tpoly D y t) x = x ^ D * tval t (y / x).
Proof.
  intros Hx Ht. unfold tpoly, tval. rewrite !ueval_umul, ueval_uscale, ueval_upow.
  rewrite transform_eval by (rewrite X_eval; exact Hx). rewrite !X_eval. replace (ueval [y] x) with y by (rewrite ueval_cons, ueval_nil; ring).
  assert (E : x ^ D = x ^ (D - tdeg t) * x ^ snd (fst t) * (x ^ udeg0 (snd t) * x ^ udeg0 (snd t))).
  { rewrite <- !fpow_add. f_equal. unfold tdeg in *. lia. }
  assert (E2 : y ^ snd (fst t) = x ^ snd (fst t) * (y / x) ^ snd (fst t)) by (rewrite <- fpow_mul_l; f_equal; field; exact Hx).
  rewrite E, E2. ring.
Qed.
Lemma top_at_0 n : forall f y, (length f <= S n)%nat -> ueval (utransform n f [y] [0; 1]) 0 = vget f n * y ^ n.
Proof.
  intros f y Hl. rewrite hom_poly by exact Hl. unfold hom. cbn [bsum]. rewrite Nat.sub_diag.
  rewrite bsum_all0; [cbn [fpow]; ring|]. intros i Hi. replace (n - i)%nat with (S (n - i - 1)) by lia. cbn [fpow]. ring.
Qed.
Lemma strip_vget f i : vget (strip f) i = vget f i.
Proof.
  revert i. induction f as [|a f IH]; intro i; [reflexivity|]. rewrite strip_cons. destruct (strip f) as [|b r] eqn:E.
  - assert (Z : forall j, vget f j = 0) by (intro j; rewrite <- IH; unfold vget; destruct j; reflexivity).
    destruct (a =? 0) eqn:E0.
    + apply feqb_eq in E0. subst a. destruct i; [reflexivity|]. change (vget (0 :: f) (S i)) with (vget f i). rewrite Z. reflexivity.
    + destruct i; [reflexivity|]. change (vget (a :: f) (S i)) with (vget f i). rewrite Z. unfold vget. destruct i; reflexivity.
  - destruct i; [reflexivity|]. change (vget (a :: f) (S i)) with (vget f i). rewrite <- IH. reflexivity.
Qed.
Lemma lead_nz f : strip f <> [] -> vget f (udeg0 f) <> 0.
Proof. intro H. pose proof (strip_top K f H) as T. unfold udeg0, udeg. destruct (strip f) as [|b r] eqn:E; [congruence|exact T]. Qed.
Lemma tpoly_at_0 D t : 0 <= fst (fst t) -> 0 <= ueval (tpoly D 1 t) 0 /\ (live t -> tdeg t = D -> 0 < ueval (tpoly D 1 t) 0).
Proof.
  intro Hc. unfold tpoly. rewrite !ueval_umul, ueval_uscale, ueval_upow, X_eval, fpow_1.
  rewrite top_at_0 by apply udeg0_strip. rewrite strip_vget, fpow_1. split.
  - apply fmul_nonneg; [|apply fsqr_nonneg]. apply fmul_nonneg; [apply fmul_nonneg; [exact Hc|apply f1_nonneg]|].
    destruct (D - tdeg t)%nat; [apply f1_nonneg|]. cbn [fpow]. replace (0 * 0 ^ n) with (0 : K) by ring. apply fle_refl.
  - intros [L1 L2] HD. rewrite HD, Nat.sub_diag. cbn [fpow]. apply fmul_pos.
    + replace (fst (fst t) * 1 * 1) with (fst (fst t)) by ring. apply flt_le_neq. split; [exact Hc|]. intro C. apply L1. auto.
    + apply fsqr_pos. intro C. apply (lead_nz _ L2). rewrite <- C. ring.
Qed.

Definition tsum (ts : list term) (y : K) : K := fsum (map (fun t => tval t y) ts).
Lemma tval_dead t y : ~ live t -> tval t y = 0.
Proof.
  intro H. unfold tval. destruct (feq_dec K (fst (fst t)) 0) as [->|N]; [ring|].
  assert (E : strip (snd t) = []) by (destruct (strip (snd t)) eqn:E; [reflexivity|]; exfalso; apply H; split; [exact N|congruence]).
  rewrite <- (ueval_strip K (snd t)), E, ueval_nil. ring.
Qed.
Definition liveb (t : term) : bool := (negb (fst (fst t) =? 0) && match strip (snd t) with [] => false | _ => true end)%bool.
Lemma liveb_live t : liveb t = true <-> live t.
Proof.
  unfold liveb, live. rewrite andb_true_iff, negb_true_iff, (feqb_neq K). destruct (strip (snd t)); intuition congruence.
Qed.
Lemma tsum_live ts y : tsum ts y = tsum (filter liveb ts) y.
Proof.
  unfold tsum. induction ts as [|t ts IH]; [reflexivity|]. cbn [filter map fsum]. destruct (liveb t) eqn:E; cbn [map fsum]; rewrite IH; [reflexivity|].
  rewrite tval_dead; [ring|]. intro C. apply liveb_live in C. congruence.
Qed.
Definition tmax (ts : list term) : nat := fold_right (fun t m => Nat.max (tdeg t) m) 0%nat ts.
Lemma tmax_ge ts t : In t ts -> (tdeg t <= tmax ts)%nat.
Proof. induction ts as [|s ts IH]; [intros []|]. cbn [tmax fold_right]. fold (tmax ts). intros [<-|H]; [lia|]. specialize (IH H). lia. Qed.
Lemma tmax_in ts : ts <> [] -> exists t, In t ts /\ tdeg t = tmax ts.
Proof.
  induction ts as [|s ts IH]; [congruence|]. intros _. cbn [tmax fold_right]. fold (tmax ts). destruct ts as [|s' ts].
  - exists s. split; [left; reflexivity|]. cbn. lia.
  - destruct IH as [t [H1 H2]]; [congruence|]. destruct (Nat.le_ge_cases (tdeg s) (tmax (s' :: ts))).
    + exists t. split; [right; exact H1|]. lia.
    + exists s. split; [left; reflexivity|]. lia.
Qed.
Definition tspoly (D : nat) (y : K) (ts : list term) : list K := fold_right (fun t acc => uadd (tpoly D y t) acc) [] ts.
Lemma tspoly_eval D y ts x : x <> 0 -> (forall t, In t ts -> (tdeg t <= D)%nat) -> ueval (tspoly D y ts) x = x ^ D * tsum ts (y / x).
Proof.
  intros Hx H. unfold tsum. induction ts as [|t ts IH]; [cbn [tspoly fold_right map fsum]; rewrite ueval_nil; ring|].
  cbn [tspoly fold_right map fsum]. fold (tspoly D y ts). rewrite ueval_uadd, IH, tpoly_eval; [ring|exact Hx| |].
  - apply H. left. reflexivity.
  - intros s Hs. apply H. right. exact Hs.
Qed.

(** if x^d times the sum at 1/x is a polynomial, no term that counts has a degree above d *)
Lemma degree_bound ts d g : (forall t, In t ts -> 0 <= fst (fst t)) ->
  (forall x, x <> 0 -> x ^ d * tsum ts (1 / x) = ueval g x) ->
  forall t, In t ts -> live t -> (tdeg t <= d)%nat.
Proof.
  intros Hc Hg t Ht Hlive. set (ls := filter liveb ts).
  assert (Hin : In t ls) by (apply filter_In; split; [exact Ht|apply liveb_live, Hlive]).
  destruct (Nat.le_gt_cases (tmax ls) d) as [Hm|Hm]; [pose proof (tmax_ge ls t Hin); lia|exfalso].
  set (M := tmax ls) in *.
  assert (E : forall x, ueval (tspoly M 1 ls) x = ueval (umul (upow [0; 1] (M - d)) g) x).
  { apply (ueval_off_point K _ _ 0). intros x Hx. rewrite tspoly_eval; [|exact Hx|intros s Hs; apply tmax_ge, Hs].
    rewrite ueval_umul, ueval_upow, X_eval, <- Hg by exact Hx. rewrite (tsum_live ts). fold ls.
    replace (x ^ M) with (x ^ (M - d) * x ^ d) by (rewrite <- fpow_add; f_equal; lia). ring. }
  specialize (E 0). rewrite ueval_umul, ueval_upow, X_eval in E.
  replace (0 ^ (M - d)) with (0 : K) in E by (replace (M - d)%nat with (S (M - d - 1)) by lia; cbn [fpow]; ring).
  destruct (tmax_in ls) as [s [Hs1 Hs2]]; [intro C; rewrite C in Hin; exact Hin|].
  assert (P : 0 < ueval (tspoly M 1 ls) 0).
  { fold M in Hs2.
    assert (Hn : forall s', In s' ls -> 0 <= fst (fst s')) by (intros s' H'; apply filter_In in H'; apply Hc, H').
    assert (Hl : live s) by (apply filter_In in Hs1; apply liveb_live, Hs1).
    clearbody M. clear E Hin Hm. clearbody ls. induction ls as [|s' l IH]; [destruct Hs1|].
    cbn [tspoly fold_right]. fold (tspoly M 1 l). rewrite ueval_uadd.
    assert (N1 : 0 <= ueval (tspoly M 1 l) 0).
    { assert (Hn' : forall s', In s' l -> 0 <= fst (fst s')) by (intros; apply Hn; right; assumption). clear - Hn'.
      induction l as [|a l IH]; [cbn [tspoly fold_right]; rewrite ueval_nil; apply fle_refl|].
      cbn [tspoly fold_right]. fold (tspoly M 1 l). rewrite ueval_uadd. apply fadd_nonneg.
      - apply tpoly_at_0. apply Hn'. left. reflexivity.
      - apply IH. intros s' Hs'. apply Hn'. right. exact Hs'. }
    pose proof (tpoly_at_0 M s' (Hn s' (or_introl eq_refl))) as [T1 T2]. destruct Hs1 as [->|Hs1].
    - apply fadd_pos_l; [apply T2; assumption|exact N1].
    - apply fadd_pos_r; [exact T1|]. apply IH; [exact Hs1|intros; apply Hn; right; assumption]. }
  rewrite E in P. replace (0 * ueval g 0) with (0 : K) in P by ring. apply flt_neq0 in P. apply P. reflexivity.
Qed.

(** ** The sums built by the code *)
Definition nzw (w : wsos K) : wsos K := filter (fun t => negb (fst t =? 0)) w.
Definition TT (e : nat) (w : wsos K) : list term := map (fun t => (fst t, e, snd t)) (nzw w).
Lemma nzw_in w t : In t (nzw w) <-> In t w /\ fst t <> 0.
Proof. unfold nzw. rewrite filter_In, negb_true_iff, (feqb_neq K). tauto. Qed.
Lemma tsum_TT e w y : tsum (TT e w) y = y ^ e * weval w y.
Proof.
  unfold tsum, TT, weval, nzw. rewrite map_map. induction w as [|[c p] w IH]; [cbn; ring|]. cbn [filter map fsum fst snd].
  destruct (c =? 0) eqn:E; cbn [negb map fsum fst snd].
  - apply feqb_eq in E. subst c. rewrite IH. ring.
  - rewrite IH. unfold tval. cbn [fst snd]. ring.
Qed.
Lemma TT_in e w t : In t (TT e w) -> fst (fst t) <> 0 /\ snd (fst t) = e /\ In (fst (fst t), snd t) w.
Proof.
  unfold TT. intro H. apply in_map_iff in H. destruct H as [[c p] [<- H]]. apply nzw_in in H. cbn [fst snd] in *. tauto.
Qed.

Definition bound_deg (D : nat) (w : wsos K) : Prop := forall t, In t w -> fst t <> 0 -> (2 * udeg0 (snd t) <= D)%nat.
Lemma bound_TT D e w : bound_deg D w -> forall t, In t (TT e w) -> (2 * udeg0 (snd t) <= D)%nat.
Proof. intros H t Ht. apply TT_in in Ht. destruct Ht as [H1 [_ H2]]. exact (H _ H2 H1). Qed.

(** LHS of the identities: the polynomial in the coordinates X, Y *)
Definition cone (h : list K) (d : nat) (a0 a1 b0 b1 X Y : K) : K := hom d h (b0 * X + b1 * Y) (a0 * X + a1 * Y).
Lemma cone_poly h d (a0 a1 b0 b1 X Y : K) : cone h d a0 a1 b0 b1 X Y = ueval (subs_poly h d [a1 * Y; a0] [b1 * Y; b0]) X.
Proof. rewrite hom_subst. rewrite !ueval_cons, !ueval_nil. unfold cone. f_equal; ring. Qed.
Lemma cone_off h d (a0 a1 b0 b1 X Y : K) : X <> 0 -> cone h d a0 a1 b0 b1 X Y = X ^ d * ueval (subs_poly h d [a0; a1] [b0; b1]) (Y / X).
Proof.
  intro HX. rewrite hom_subst, <- hom_scale. rewrite !ueval_cons, !ueval_nil. unfold cone. f_equal; field; exact HX.
Qed.
Lemma cone_bounds h d (a0 a1 b0 b1 : K) w1 w2 : wnonneg K w1 -> wnonneg K w2 ->
  (forall y, ueval (subs_poly h d [a0; a1] [b0; b1]) y = weval w1 y + y * weval w2 y) ->
  (forall t, In t w1 -> fst t <> 0 -> strip (snd t) <> [] -> (2 * udeg0 (snd t) <= d)%nat) /\
  (forall t, In t w2 -> fst t <> 0 -> strip (snd t) <> [] -> (2 * udeg0 (snd t) + 1 <= d)%nat).
Proof.
  intros N1 N2 H.
  assert (G : forall t, In t (TT 0 w1 ++ TT 1 w2) -> live t -> (tdeg t <= d)%nat).
  { apply (degree_bound _ d (subs_poly h d [a1; a0] [b1; b0])).
    - intros t Ht. apply in_app_iff in Ht. destruct Ht as [Ht|Ht]; apply TT_in in Ht; destruct Ht as [_ [_ Ht]]; [apply (N1 _ Ht)|apply (N2 _ Ht)].
    - intros x Hx. unfold tsum. rewrite map_app, fsum_app. fold (tsum (TT 0 w1) (1 / x)). fold (tsum (TT 1 w2) (1 / x)). rewrite !tsum_TT.
      replace ((1 / x) ^ 0 * weval w1 (1 / x) + (1 / x) ^ 1 * weval w2 (1 / x)) with (weval w1 (1 / x) + 1 / x * weval w2 (1 / x)) by (cbn [fpow]; ring).
      rewrite <- H, <- cone_off by exact Hx. rewrite cone_poly. f_equal. f_equal; f_equal; ring. }
  split; intros t Ht Hc Hs.
  - specialize (G (fst t, 0%nat, snd t)). unfold tdeg in G. cbn [fst snd] in G.
    assert (2 * udeg0 (snd t) + 0 <= d)%nat; [|lia]. apply G; [|split; cbn [fst snd]; assumption].
    apply in_app_iff. left. unfold TT. apply in_map_iff. exists t. split; [reflexivity|]. apply nzw_in. auto.
  - specialize (G (fst t, 1%nat, snd t)). unfold tdeg in G. cbn [fst snd] in G. apply G; [|split; cbn [fst snd]; assumption].
    apply in_app_iff. right. unfold TT. apply in_map_iff. exists t. split; [reflexivity|]. apply nzw_in. auto.
Qed.
Lemma udeg0_dead (p : list K) : strip p = [] -> udeg0 p = 0%nat.
Proof. intro H. unfold udeg0, udeg. rewrite H. reflexivity. Qed.

Lemma tdeg_TT0 D w : bound_deg D w -> forall t, In t (TT 0 w) -> (tdeg t <= D)%nat.
Proof. intros B t Ht. unfold tdeg. pose proof (bound_TT D 0 w B t Ht). apply TT_in in Ht. destruct Ht as [_ [-> _]]. lia. Qed.

Section Cone.
Variables (h : list K) (d : nat) (a0 a1 b0 b1 : K) (w1 w2 : wsos K).
Hypothesis N1 : wnonneg K w1.
Hypothesis N2 : wnonneg K w2.
Hypothesis H : forall y, ueval (subs_poly h d [a0; a1] [b0; b1]) y = weval w1 y + y * weval w2 y.
Let L := cone h d a0 a1 b0 b1.

Lemma cone_odd : Nat.odd d = true ->
  bound_deg (d - 1) w1 /\ bound_deg (d - 1) w2 /\
  forall X Y, L X Y = X * ueval (tspoly (d - 1) Y (TT 0 w1)) X + Y * ueval (tspoly (d - 1) Y (TT 0 w2)) X.
Proof.
  intro Hd. apply Nat.odd_spec in Hd. destruct Hd as [k Hk]. destruct (cone_bounds _ _ _ _ _ _ _ _ N1 N2 H) as [B1 B2].
  assert (B1' : bound_deg (d - 1) w1).
  { intros t Ht Hc. destruct (strip (snd t)) eqn:E; [rewrite (udeg0_dead _ E); lia|].
    assert (strip (snd t) <> []) by congruence. specialize (B1 t Ht Hc H0). lia. }
  assert (B2' : bound_deg (d - 1) w2).
  { intros t Ht Hc. destruct (strip (snd t)) eqn:E; [rewrite (udeg0_dead _ E); lia|].
    assert (strip (snd t) <> []) by congruence. specialize (B2 t Ht Hc H0). lia. }
  split; [exact B1'|]. split; [exact B2'|]. intros X Y. unfold L. rewrite cone_poly.
  transitivity (ueval (uadd (umul [0; 1] (tspoly (d - 1) Y (TT 0 w1))) (uscale Y (tspoly (d - 1) Y (TT 0 w2)))) X);
    [|rewrite ueval_uadd, ueval_umul, ueval_uscale, X_eval; reflexivity].
  revert X. apply (ueval_off_point K _ _ 0). intros X HX. rewrite <- cone_poly, cone_off by exact HX. rewrite H.
  rewrite ueval_uadd, ueval_umul, ueval_uscale, X_eval.
  rewrite !tspoly_eval by (try exact HX; apply tdeg_TT0; assumption). rewrite !tsum_TT.
  replace (X ^ d) with (X * X ^ (d - 1)) by (replace d with (S (d - 1)) at 2 by lia; reflexivity).
  change ((Y / X) ^ 0) with (1 : K). field. exact HX.
Qed.
Lemma cone_even : Nat.odd d = false -> (2 <= d)%nat ->
  bound_deg d w1 /\ bound_deg (d - 2) w2 /\
  forall X Y, L X Y = ueval (tspoly d Y (TT 0 w1)) X + Y * X * ueval (tspoly (d - 2) Y (TT 0 w2)) X.
Proof.
  intros Hd Hd2. rewrite <- Nat.negb_even, negb_false_iff in Hd. apply Nat.even_spec in Hd. destruct Hd as [k Hk].
  destruct (cone_bounds _ _ _ _ _ _ _ _ N1 N2 H) as [B1 B2].
  assert (B1' : bound_deg d w1).
  { intros t Ht Hc. destruct (strip (snd t)) eqn:E; [rewrite (udeg0_dead _ E); lia|].
    assert (strip (snd t) <> []) by congruence. specialize (B1 t Ht Hc H0). lia. }
  assert (B2' : bound_deg (d - 2) w2).
  { intros t Ht Hc. destruct (strip (snd t)) eqn:E; [rewrite (udeg0_dead _ E); lia|].
    assert (strip (snd t) <> []) by congruence. specialize (B2 t Ht Hc H0). lia. }
  split; [exact B1'|]. split; [exact B2'|]. intros X Y. unfold L. rewrite cone_poly.
  transitivity (ueval (uadd (tspoly d Y (TT 0 w1)) (uscale Y (umul [0; 1] (tspoly (d - 2) Y (TT 0 w2))))) X);
    [|rewrite ueval_uadd, ueval_uscale, ueval_umul, X_eval; ring].
  revert X. apply (ueval_off_point K _ _ 0). intros X HX. rewrite <- cone_poly, cone_off by exact HX. rewrite H.
  rewrite ueval_uadd, ueval_uscale, ueval_umul, X_eval.
  rewrite !tspoly_eval by (try exact HX; apply tdeg_TT0; assumption). rewrite !tsum_TT.
  replace (X ^ d) with (X * (X * X ^ (d - 2))) by (replace d with (S (S (d - 2))) at 2 by lia; reflexivity).
  change ((Y / X) ^ 0) with (1 : K). field. exact HX.
Qed.
(** without the second part *)
Lemma cone_even1 : Nat.odd d = false -> w2 = [] ->
  bound_deg d w1 /\ forall X Y, L X Y = ueval (tspoly d Y (TT 0 w1)) X.
Proof.
  intros Hd Hw. destruct (cone_bounds _ _ _ _ _ _ _ _ N1 N2 H) as [B1 _].
  assert (B1' : bound_deg d w1).
  { intros t Ht Hc. destruct (strip (snd t)) eqn:E; [rewrite (udeg0_dead _ E); lia|].
    assert (strip (snd t) <> []) by congruence. specialize (B1 t Ht Hc H0). lia. }
  split; [exact B1'|]. intros X Y. unfold L. rewrite cone_poly.
  revert X. apply (ueval_off_point K _ _ 0). intros X HX. rewrite <- cone_poly, cone_off by exact HX. rewrite H, Hw.
  rewrite !tspoly_eval by (try exact HX; apply tdeg_TT0; assumption). rewrite !tsum_TT. change (weval [] (Y / X)) with (0 : K).
  change ((Y / X) ^ 0) with (1 : K). ring.
Qed.
Lemma cone_zero : d = 0%nat -> bound_deg 0 w1 /\ (forall t, In t w2 -> fst t <> 0 -> strip (snd t) = []) /\
  forall X Y, L X Y = ueval (tspoly 0 Y (TT 0 w1)) X.
Proof.
  intro Hd. destruct (cone_bounds _ _ _ _ _ _ _ _ N1 N2 H) as [B1 B2].
  assert (B1' : bound_deg 0 w1).
  { intros t Ht Hc. destruct (strip (snd t)) eqn:E; [rewrite (udeg0_dead _ E); lia|].
    assert (strip (snd t) <> []) by congruence. specialize (B1 t Ht Hc H0). lia. }
  assert (B2' : forall t, In t w2 -> fst t <> 0 -> strip (snd t) = []).
  { intros t Ht Hc. destruct (strip (snd t)) eqn:E; [reflexivity|].
    assert (strip (snd t) <> []) by congruence. specialize (B2 t Ht Hc H0). lia. }
  split; [exact B1'|]. split; [exact B2'|]. intros X Y. unfold L. rewrite cone_poly.
  revert X. apply (ueval_off_point K _ _ 0). intros X HX. rewrite <- cone_poly, cone_off by exact HX. rewrite H.
  rewrite !tspoly_eval by (try exact HX; apply tdeg_TT0; assumption). rewrite !tsum_TT.
  assert (E : weval w2 (Y / X) = 0).
  { unfold weval. apply fsum_map_0. intros t Ht. destruct (feq_dec K (fst t) 0) as [->|Hc]; [ring|].
    rewrite <- (ueval_strip K (snd t)), (B2' t Ht Hc), ueval_nil. ring. }
  rewrite E, Hd. cbn [fpow]. ring.
Qed.
End Cone.

(** ** Values of the expressions *)
Section Terms.
Variables (x : nat -> K) (numer denom : ex K).
Hypothesis Dn : defined x numer.
Hypothesis Dd : defined x denom.
Let X := ev x denom.
Let Y := ev x numer.
Lemma map_poly_value (p : list K) : defined x (map_poly numer denom p) /\ ev x (map_poly numer denom p) = hom (udeg0 p) p X Y.
Proof.
  unfold map_poly, hom. rewrite bsum_fsum. induction (seq 0 (S (udeg0 p))) as [|j l [I1 I2]]; [split; [exact Logic.I|reflexivity]|].
  cbn [fold_right defined ev map fsum]. rewrite I2. tauto.
Qed.
Lemma hom_sos_value D w : bound_deg D w -> wnonneg K w -> Nat.even D = true ->
  defined x (hom_sos D numer denom w) /\ ev x (hom_sos D numer denom w) = ueval (tspoly D Y (TT 0 w)) X /\ 0 <= ev x (hom_sos D numer denom w).
Proof.
  intros B N He. apply Nat.even_spec in He. destruct He as [k Hk].
  unfold hom_sos, TT, nzw. induction w as [|[c p] w IH].
  - cbn. split; [exact Logic.I|]. split; [reflexivity|apply fle_refl].
  - cbn [fold_right filter fst]. destruct IH as [I1 [I2 I3]].
    { intros t Ht. apply B. right. exact Ht. } { intros t Ht. apply N. right. exact Ht. }
    cbn [defined ev]. destruct (c =? 0) eqn:E; cbn [negb map tspoly fold_right].
    + assert (Eh : hom_term D numer denom (c, p) = EC 0) by (unfold hom_term; cbn [fst snd]; rewrite E; reflexivity).
      rewrite Eh. cbn [defined ev]. rewrite I2. fold (tspoly D Y (map (fun t => (fst t, 0%nat, snd t)) (filter (fun t => negb (fst t =? 0)) w))).
      split; [tauto|]. split; [ring|]. apply fadd_nonneg; [apply fle_refl|rewrite <- I2; exact I3].
    + pose proof E as E0. apply (feqb_neq K) in E. pose proof (B (c, p) (or_introl eq_refl) E) as Bd. cbn [snd] in Bd.
      assert (Bd' : (udeg0 p <= D / 2)%nat) by (apply Nat.div_le_lower_bound; lia).
      assert (Eh : hom_term D numer denom (c, p) = EMul (EC c) (EMul (EPow (map_poly numer denom p) 2) (EPow denom ((D / 2 - udeg0 p) * 2))))
        by (unfold hom_term; cbn [fst snd]; rewrite E0, (proj2 (Nat.leb_le _ _) Bd'); reflexivity).
      rewrite Eh. cbn [defined ev]. destruct (map_poly_value p) as [M1 M2]. rewrite M2, I2.
      fold (tspoly D Y (map (fun t => (fst t, 0%nat, snd t)) (filter (fun t => negb (fst t =? 0)) w))).
      assert (Et : c * (hom (udeg0 p) p X Y ^ 2 * X ^ ((D / 2 - udeg0 p) * 2)) = ueval (tpoly D Y (c, 0%nat, p)) X).
      { unfold tpoly, tdeg. cbn [fst snd]. rewrite !ueval_umul, ueval_uscale, ueval_upow, X_eval, hom_poly by apply udeg0_strip.
        assert (Es : hom (udeg0 p) (strip p) X Y = hom (udeg0 p) p X Y) by (unfold hom; apply bsum_ext; intros j _; rewrite strip_vget; reflexivity).
        rewrite Es. replace ((D / 2 - udeg0 p) * 2)%nat with (D - (2 * udeg0 p + 0))%nat.
        - change (Y ^ 0) with (1 : K). cbn [fpow]. ring.
        - rewrite Hk. rewrite (Nat.mul_comm 2 k), Nat.div_mul by lia. lia. }
      fold X. fold Y. split; [tauto|]. split; [rewrite ueval_uadd, Et; reflexivity|].
      apply fadd_nonneg.
      * apply fmul_nonneg; [apply (N (c, p)); left; reflexivity|]. apply fmul_nonneg; [apply fpow_even_nonneg; reflexivity|].
        apply fpow_even_nonneg. rewrite Nat.mul_comm. apply Nat.even_mul.
      * rewrite <- I2. exact I3.
Qed.
End Terms.

(** ** Linear constraints *)
Lemma linear_value x p : wf 2 p -> is_linear2 p = true -> coef p [0;0]%nat = 0 ->
  peval x p = coef p [1;0]%nat * x 0%nat + coef p [0;1]%nat * x 1%nat.
Proof.
  intros [Hnd Hl] Hlin H0. rewrite (peval_over K x p [[0;0];[1;0];[0;1]]%nat Hnd).
  - cbn [map fsum]. rewrite H0, !meval_cons, !meval_nil. cbn [fpow]. ring.
  - repeat constructor; cbn; intuition congruence.
  - intros m Hm. pose proof (Hl m Hm) as L. unfold keys in Hm. apply in_map_iff in Hm. destruct Hm as [t [<- Ht]].
    unfold is_linear2 in Hlin. rewrite forallb_forall in Hlin. specialize (Hlin t Ht). apply Nat.leb_le in Hlin.
    destruct (fst t) as [|i [|j [|]]]; try discriminate. cbn in Hlin.
    destruct i as [|[|]]; destruct j as [|[|]]; try lia; cbn; tauto.
Qed.

(** what the solvers are given at the point x: the expressions have the values of the constraints *)
Definition constraints_hold (x : nat -> K) (ineqs : list (poly K * ex K)) : Prop :=
  forall g e, In (g, e) ineqs -> defined x e /\ ev x e = peval x g.
(** the point satisfies the constraints *)
Definition constraints_nn (x : nat -> K) (ineqs : list (poly K * ex K)) : Prop :=
  forall g e, In (g, e) ineqs -> 0 <= peval x g.
Definition constraints_wf (ineqs : list (poly K * ex K)) : Prop :=
  forall g e, In (g, e) ineqs -> wf 2 g /\ (is_linear2 g = true -> coef g [0;0]%nat = 0).

Lemma bound_value x ineqs (u v : K) e : constraints_hold x ineqs -> constraints_wf ineqs -> In ((u, v), e) (bounds ineqs) ->
  defined x e /\ ev x e = u * x 0%nat + v * x 1%nat /\ (constraints_nn x ineqs -> 0 <= ev x e).
Proof.
  intros Hh Hw Hin. unfold bounds in Hin. apply in_map_iff in Hin. destruct Hin as [[g e'] [E Hin]]. cbn [fst snd] in E.
  inversion E; subst. apply filter_In in Hin. destruct Hin as [Hin Hlin]. cbn [fst] in Hlin.
  destruct (Hh _ _ Hin) as [D1 D2]. destruct (Hw _ _ Hin) as [W1 W2]. split; [exact D1|].
  split; [rewrite D2; apply linear_value; auto|intro N; rewrite D2; exact (N _ _ Hin)].
Qed.

Section Sound.
Variable uni : bool -> list K -> res (option (wsos K * wsos K)).
(** the univariate prover is exact: on the line the value is the first part, on the half line the
    second part is multiplied by the variable *)
Definition uni_exact : Prop := forall half f w1 w2, uni half f = Ok (Some (w1, w2)) ->
  (forall t, In t w1 -> 0 <= fst t) /\ (forall t, In t w2 -> 0 <= fst t) /\
  forall y, ueval f y = weval w1 y + (if half then y * weval w2 y else 0).
Hypothesis Huni : uni_exact.

Lemma inner_value (x : nat -> K) (p : list K) t :
  ev x (fold_right (fun j acc => EAdd (EMul (EC (vget p j)) (EPow t j)) acc) (EC 0) (seq 0 (length p))) = ueval p (ev x t).
Proof.
  rewrite (ueval_bsum K p (length p)) by lia. rewrite bsum_fsum. induction (seq 0 (length p)) as [|j l IH]; [reflexivity|].
  cbn [fold_right ev map fsum]. rewrite IH. reflexivity.
Qed.
Lemma deh_ev (x : nat -> K) d w : ev x (deh_expr d w) = weval w (x 0%nat / x 1%nat) * x 1%nat ^ d.
Proof.
  unfold deh_expr. cbn [ev]. f_equal. unfold weval. induction w as [|[c p] w IH]; [reflexivity|].
  cbn [fold_right map fsum ev fst snd]. rewrite IH, inner_value. cbn [ev fpow]. ring.
Qed.

(** *** The case without bounds, when the second variable is not 0 *)
Lemma no_bounds_value x d p w1 w2 : wf 2 p -> homog2 d p -> Nat.odd d = false -> x 1%nat <> 0 ->
  uni false (hcoeffs d p) = Ok (Some (w1, w2)) -> ev x (deh_expr d w1) = peval x p /\ 0 <= ev x (deh_expr d w1).
Proof.
  intros Hw Hh Hd Hx Hu. destruct (Huni _ _ _ _ Hu) as [N1 [_ U]].
  rewrite (hom_value d p x Hw Hh), hom_off; [|unfold hcoeffs; rewrite vtab_length; lia|exact Hx]. rewrite U, deh_ev.
  split; [ring|]. apply fmul_nonneg.
  - unfold weval. apply fsum_nonneg. intros y Hy. apply in_map_iff in Hy. destruct Hy as [t [<- Ht]].
    apply fmul_nonneg; [apply N1; exact Ht|apply fsqr_nonneg].
  - apply fpow_even_nonneg. rewrite <- Nat.negb_odd, Hd. reflexivity.
Qed.

(** when the second variable is 0 the expression is only defined if every polynomial is empty *)
Lemma deh_defined_zero (x : nat -> K) d (w : wsos K) : defined x (deh_expr d w) -> x 1%nat = 0 -> forall t, In t w -> snd t = [].
Proof.
  unfold deh_expr. cbn [defined]. intros [Hd _] H0. induction w as [|[c p] w IH]; [intros t []|]. cbn [fold_right defined fst snd] in Hd.
  destruct Hd as [[_ Hp] Hd]. intros t [<-|Ht]; [|apply IH; assumption]. cbn [snd]. destruct p as [|a p]; [reflexivity|exfalso].
  cbn [length seq fold_right defined ev] in Hp. tauto.
Qed.
Lemma no_bounds_defined x d p w1 w2 : wf 2 p -> homog2 d p -> Nat.odd d = false -> defined x (deh_expr d w1) ->
  uni false (hcoeffs d p) = Ok (Some (w1, w2)) -> ev x (deh_expr d w1) = peval x p /\ 0 <= ev x (deh_expr d w1).
Proof.
  intros Hw Hh Hd Hx Hu. destruct (feq_dec K (x 1%nat) 0) as [E|E]; [|eapply no_bounds_value; eassumption].
  pose proof (deh_defined_zero x d w1 Hx E) as Hz. destruct (Huni _ _ _ _ Hu) as [_ [_ U]].
  assert (W : forall y, weval w1 y = 0).
  { intro y. unfold weval. apply fsum_map_0. intros t Ht. rewrite (Hz t Ht), ueval_nil. ring. }
  rewrite deh_ev, W. rewrite (hom_value d p x Hw Hh).
  assert (Z : hom d (hcoeffs d p) (x 1%nat) (x 0%nat) = 0).
  { rewrite <- hom_poly by (unfold hcoeffs; rewrite vtab_length; lia). transitivity (ueval ([] : list K) (x 1%nat)); [|apply ueval_nil].
    generalize (x 1%nat). apply (ueval_off_point K _ _ 0). intros X HX. rewrite hom_poly by (unfold hcoeffs; rewrite vtab_length; lia).
    rewrite hom_off; [|unfold hcoeffs; rewrite vtab_length; lia|exact HX]. rewrite U, W, ueval_nil. ring. }
  rewrite Z. split; [ring|]. replace (0 * x 1%nat ^ d) with (0 : K) by ring. apply fle_refl.
Qed.

Lemma biv_linear_lemma d p ineqs x e : wf 2 p -> homog2 d p -> constraints_wf ineqs -> constraints_hold x ineqs ->
  biv_linear uni d p ineqs = Ok (Some e) ->
  (stored (hs_run (bounds ineqs)) <> [] -> (0 < d)%nat -> defined x e) /\
  (defined x e -> ev x e = peval x p /\ (constraints_nn x ineqs -> 0 <= ev x e)).
Proof.
  intros Hw Hh Hcw Hch He. unfold biv_linear in He. cbv zeta in He.
  assert (Hin : forall a, In a (stored (hs_run (bounds ineqs))) -> In a (bounds ineqs)).
  { intros a Ha. unfold hs_run in Ha. apply hs_fold_stored in Ha. destruct Ha as [Ha|[]]. exact Ha. }
  destruct (hs_run (bounds ineqs)) as [bs deg]. cbn [stored degenerated] in *. destruct deg; [discriminate|].
  destruct bs as [|[[u v] e1] [|[[w z] e2] [|]]]; try discriminate.
  - destruct (Nat.odd d) eqn:Hd; [discriminate|]. destruct (uni false (hcoeffs d p)) as [[[w1 w2]|]|] eqn:Hu; try discriminate.
    apply Ok_inj, Some_inj in He. subst e. split; [congruence|]. intro Hx.
    destruct (no_bounds_defined x d p w1 w2 Hw Hh Hd Hx Hu) as [V1 V2]. split; [exact V1|intros _; exact V2].
  - cbn zeta in He. destruct (u ^ 2 + v ^ 2 =? 0) eqn:En; [discriminate|]. apply (feqb_neq K) in En.
    destruct (uni _ _) as [[[w1 w2]|]|] eqn:Hu; try discriminate.
    destruct (Huni _ _ _ _ Hu) as [N1 [_ U]].
    assert (U' : forall y, ueval (subs_poly (hcoeffs d p) d [u / (u ^ 2 + v ^ 2); - v / (u ^ 2 + v ^ 2)] [v / (u ^ 2 + v ^ 2); u / (u ^ 2 + v ^ 2)]) y
       = weval w1 y + y * weval [] y) by (intro y; rewrite U; change (weval [] y) with (0 : K); ring).
    destruct (bound_value x ineqs u v e1 Hch Hcw (Hin _ (or_introl eq_refl))) as [D1 [V1 P1]].
    set (A := lin2 u v) in *. set (B := ESub (EMul (EC u) (EX 1)) (EMul (EC v) (EX 0))) in *.
    assert (DA : defined x A) by (cbn; tauto). assert (DB : defined x B) by (cbn; tauto).
    assert (EL : peval x p = cone (hcoeffs d p) d (u / (u ^ 2 + v ^ 2)) (- v / (u ^ 2 + v ^ 2)) (v / (u ^ 2 + v ^ 2)) (u / (u ^ 2 + v ^ 2)) (ev x A) (ev x B)).
    { rewrite (hom_value d p x Hw Hh). unfold cone. f_equal; unfold A, B, lin2; cbn [ev]; generalize (u ^ 2 + v ^ 2) (eq_refl : u ^ 2 + v ^ 2 = u * (u * 1) + v * (v * 1)) En; intros n Hn Hn0; field_simplify_eq; try exact Hn0; rewrite Hn; ring. }
    assert (EA : ev x A = ev x e1) by (rewrite V1; reflexivity).
    destruct (Nat.even d) eqn:Hd.
    + apply Ok_inj, Some_inj in He. subst e.
      destruct (cone_even1 _ d _ _ _ _ w1 [] N1 (fun t F => match F with end) U') as [Bd L];
        [rewrite <- Nat.negb_even, Hd; reflexivity|reflexivity|].
      destruct (hom_sos_value x B A DB DA d w1 Bd N1 Hd) as [S1 [S2 S3]].
      split; [intros _ _; exact S1|]. intros _. rewrite EL, L, <- S2. split; [reflexivity|intros _; exact S3].
    + apply Ok_inj, Some_inj in He. subst e.
      assert (Ho : Nat.odd d = true) by (rewrite <- Nat.negb_even, Hd; reflexivity).
      destruct (cone_odd _ d _ _ _ _ w1 [] N1 (fun t F => match F with end) U' Ho) as [Bd [_ L]].
      assert (He : Nat.even (d - 1) = true).
      { apply Nat.odd_spec in Ho. destruct Ho as [k ->]. replace (2 * k + 1 - 1)%nat with (2 * k)%nat by lia. apply Nat.even_spec. exists k. reflexivity. }
      destruct (hom_sos_value x B A DB DA (d - 1) w1 Bd N1 He) as [S1 [S2 S3]].
      split; [intros _ _; split; assumption|]. intros _. cbn [ev]. rewrite EL, L, <- S2, EA.
      change (ueval (tspoly (d - 1) (ev x B) (TT 0 [])) (ev x e1)) with (0 : K). split; [ring|].
      intro NN. specialize (P1 NN). apply fmul_nonneg; assumption.
  - cbn zeta in He. destruct (v * w - u * z =? 0) eqn:En; [discriminate|]. apply (feqb_neq K) in En.
    destruct (uni _ _) as [[[w1 w2]|]|] eqn:Hu; try discriminate.
    destruct (Huni _ _ _ _ Hu) as [N1 [N2 U]]. cbn iota in U.
    destruct (bound_value x ineqs u v e1 Hch Hcw (Hin _ (or_introl eq_refl))) as [D1 [V1 P1]].
    destruct (bound_value x ineqs w z e2 Hch Hcw (Hin _ (or_intror (or_introl eq_refl)))) as [D2 [V2 P2]].
    set (A := lin2 u v) in *. set (B := lin2 w z) in *.
    assert (DA : defined x A) by (cbn; tauto). assert (DB : defined x B) by (cbn; tauto).
    assert (En' : - (v * w - u * z) <> 0) by (intro E; apply En; transitivity (- (- (v * w - u * z))); [ring|rewrite E; ring]).
    assert (EL : peval x p = cone (hcoeffs d p) d (- z / (v * w - u * z)) (v / (v * w - u * z)) (- w / - (v * w - u * z)) (u / - (v * w - u * z)) (ev x A) (ev x B)).
    { rewrite (hom_value d p x Hw Hh). unfold cone. f_equal; unfold A, B, lin2; cbn [ev]; field; repeat split; assumption. }
    assert (EA : ev x A = ev x e1) by (rewrite V1; reflexivity).
    assert (EB : ev x B = ev x e2) by (rewrite V2; reflexivity).
    destruct (Nat.odd d) eqn:Hd.
    + apply Ok_inj, Some_inj in He. subst e.
      destruct (cone_odd _ d _ _ _ _ w1 w2 N1 N2 U Hd) as [Bd1 [Bd2 L]].
      assert (He : Nat.even (d - 1) = true).
      { apply Nat.odd_spec in Hd. destruct Hd as [k ->]. replace (2 * k + 1 - 1)%nat with (2 * k)%nat by lia. apply Nat.even_spec. exists k. reflexivity. }
      destruct (hom_sos_value x B A DB DA (d - 1) w1 Bd1 N1 He) as [S1 [S2 S3]].
      destruct (hom_sos_value x B A DB DA (d - 1) w2 Bd2 N2 He) as [R1 [R2 R3]].
      split; [intros _ _; cbn [defined]; tauto|]. intros _. cbn [ev]. rewrite EL, L, <- S2, <- R2, EA, EB. split; [reflexivity|].
      intro NN. specialize (P1 NN). specialize (P2 NN). apply fadd_nonneg; apply fmul_nonneg; assumption.
    + assert (Hev : Nat.even d = true) by (rewrite <- Nat.negb_odd, Hd; reflexivity).
      destruct (Nat.leb 2 d) eqn:H2.
      * apply Nat.leb_le in H2. apply Ok_inj, Some_inj in He. subst e.
        destruct (cone_even _ d _ _ _ _ w1 w2 N1 N2 U Hd H2) as [Bd1 [Bd2 L]].
        assert (He : Nat.even (d - 2) = true).
        { apply Nat.even_spec in Hev. destruct Hev as [k ->]. apply Nat.even_spec. exists (k - 1)%nat. lia. }
        destruct (hom_sos_value x B A DB DA d w1 Bd1 N1 Hev) as [S1 [S2 S3]].
        destruct (hom_sos_value x B A DB DA (d - 2) w2 Bd2 N2 He) as [R1 [R2 R3]].
        split; [intros _ _; cbn [defined]; tauto|]. intros _. cbn [ev]. rewrite EL, L, <- S2, <- R2, EA, EB. split; [reflexivity|].
        intro NN. specialize (P1 NN). specialize (P2 NN). apply fadd_nonneg; [exact S3|]. apply fmul_nonneg; [apply fmul_nonneg; assumption|exact R3].
      * apply Nat.leb_gt in H2. apply Ok_inj, Some_inj in He. subst e.
        assert (Hd0 : d = 0%nat) by (destruct d as [|[|]]; [reflexivity|discriminate|lia]).
        destruct (cone_zero _ d _ _ _ _ w1 w2 N1 N2 U Hd0) as [Bd1 [Bd2 L]].
        assert (Bd2' : bound_deg d w2) by (intros t Ht Hc; rewrite (udeg0_dead _ (Bd2 t Ht Hc)); lia).
        rewrite Hd0 in EL, L, Bd2' |- *.
        destruct (hom_sos_value x B A DB DA 0 w1 Bd1 N1 eq_refl) as [S1 [S2 S3]].
        destruct (hom_sos_value x B A DB DA 0 w2 Bd2' N2 eq_refl) as [R1 [R2 R3]].
        split; [intros _ F; lia|]. intros _. cbn [ev]. rewrite EL, L, <- S2.
        assert (Z : ev x (hom_sos 0 B A w2) = 0).
        { rewrite R2. unfold TT. assert (Zl : forall t, In t (nzw w2) -> strip (snd t) = []) by (intros t Ht; apply nzw_in in Ht; apply Bd2; tauto).
          revert Zl. generalize (nzw w2). induction w0 as [|[c q] l IHl]; intro Zl; [reflexivity|]. cbn [map tspoly fold_right].
          rewrite ueval_uadd. fold (tspoly 0 (ev x B) (map (fun t => (fst t, 0%nat, snd t)) l)). rewrite IHl by (intros t Ht; apply Zl; right; exact Ht).
          pose proof (Zl _ (or_introl eq_refl)) as Zq. cbn [snd] in Zq. unfold tpoly. cbn [fst snd]. rewrite !ueval_umul, ueval_uscale, Zq.
          destruct (udeg0 q); cbn [utransform]; rewrite ?ueval_nil; ring. }
        rewrite Z. split; [ring|]. intros _. rewrite S2. replace (_ + _) with (ev x (hom_sos 0 B A w1)) by (rewrite S2; ring). exact S3.
Qed.

(** ** The loop over the factors *)
Lemma peval_popp x p : peval x (popp p) = - peval x p.
Proof. unfold peval, popp. induction p as [|t p IH]; cbn [map fsum fst snd]; [ring|]. rewrite IH. ring. Qed.
Lemma keys_popp p : keys (popp p) = keys p.
Proof. unfold keys, popp. rewrite map_map. reflexivity. Qed.
Lemma wf_popp n p : wf n p -> wf n (popp p).
Proof. unfold wf. rewrite keys_popp. auto. Qed.
Lemma homog2_popp d p : homog2 d p -> homog2 d (popp p).
Proof. unfold homog2. rewrite keys_popp. auto. Qed.
Lemma pexpr_value x p : wf 2 p -> ev x (pexpr p) = peval x p.
Proof.
  intros [_ Hl]. unfold pexpr, peval. induction p as [|[m c] p IH]; [reflexivity|]. cbn [fold_right map fsum ev fst snd].
  rewrite IH by (intros m' Hm'; apply Hl; right; exact Hm'). pose proof (Hl m (or_introl eq_refl)) as L.
  destruct m as [|i [|j [|]]]; try discriminate. rewrite !meval_cons, meval_nil. cbn [nth]. ring.
Qed.

Lemma biv_loop_lemma x ineqs : constraints_wf ineqs -> constraints_hold x ineqs -> forall fs sgn sols e,
  (forall (f : poly K) m, In (f, m) fs -> wf 2 f /\ homog2 (hom_order f) f) ->
  biv_loop uni sgn sols fs ineqs = Ok (Some e) -> defined x e ->
  defined x sols /\ ev x e = sgn * ev x sols * OrdField.fprod (map (fun fm => peval x (fst fm) ^ snd fm) fs) /\
  (constraints_nn x ineqs -> 0 <= ev x sols -> 0 <= ev x e).
Proof.
  intros Hcw Hch. induction fs as [|[f m] fs IH]; intros sgn sols e Hf He Hd; cbn [biv_loop] in He.
  - destruct (sgn <? 0) eqn:Es; [discriminate|]. apply fltb_ge in Es. apply Ok_inj, Some_inj in He. subst e. cbn [defined] in Hd.
    split; [tauto|]. cbn [ev map OrdField.fprod fold_right]. split; [ring|]. intros _ Hs. apply fmul_nonneg; assumption.
  - assert (Hf' : forall (f' : poly K) m', In (f', m') fs -> wf 2 f' /\ homog2 (hom_order f') f') by (intros; apply (Hf f' m'); right; assumption).
    destruct (Hf f m (or_introl eq_refl)) as [Wf Hh]. cbn [map OrdField.fprod fst snd].
    destruct (Nat.even m) eqn:Em.
    + destruct (IH _ _ _ Hf' He Hd) as [I1 [I2 I3]]. cbn [defined] in I1. split; [tauto|]. split.
      * rewrite I2. cbn [ev]. rewrite pexpr_value by exact Wf. ring.
      * intros NN Hs. apply (I3 NN). cbn [ev]. apply fmul_nonneg; [exact Hs|apply fpow_even_nonneg; exact Em].
    + destruct (biv_linear uni (hom_order f) f ineqs) as [[s|]|er] eqn:E1; try discriminate.
      * destruct (IH _ _ _ Hf' He Hd) as [I1 [I2 I3]]. cbn [defined] in I1. split; [tauto|].
        destruct (biv_linear_lemma _ _ _ _ _ Wf Hh Hcw Hch E1) as [_ V]. destruct V as [V1 V2]; [tauto|]. split.
        -- rewrite I2. cbn [ev]. rewrite V1. ring.
        -- intros NN Hs. apply (I3 NN). cbn [ev]. apply fmul_nonneg; [exact Hs|apply fpow_nonneg; exact (V2 NN)].
      * destruct (biv_linear uni (hom_order f) (popp f) ineqs) as [[s|]|er] eqn:E2; try discriminate.
        destruct (IH _ _ _ Hf' He Hd) as [I1 [I2 I3]]. cbn [defined] in I1. split; [tauto|].
        destruct (biv_linear_lemma _ _ _ _ _ (wf_popp _ _ Wf) (homog2_popp _ _ Hh) Hcw Hch E2) as [_ V]. destruct V as [V1 V2]; [tauto|]. split.
        -- rewrite I2. cbn [ev]. rewrite V1, peval_popp.
           assert (O : (- peval x f) ^ m = - (peval x f ^ m)).
           { assert (Ho : Nat.odd m = true) by (rewrite <- Nat.negb_even, Em; reflexivity). apply Nat.odd_spec in Ho. destruct Ho as [k ->].
             replace (2 * k + 1)%nat with (S (2 * k)) by lia. cbn [fpow Nat.add]. rewrite !(fpow_mul K _ 2 k).
             replace ((- peval x f) ^ 2) with (peval x f ^ 2) by (cbn [fpow]; ring). ring. }
           rewrite O. ring.
        -- intros NN Hs. apply (I3 NN). cbn [ev]. apply fmul_nonneg; [exact Hs|apply fpow_nonneg; exact (V2 NN)].
Qed.
Lemma structural_2vars_lemma fl p ineqs e : 
  (forall x, peval x p = fst fl * OrdField.fprod (map (fun fm => peval x (fst fm) ^ snd fm) (snd fl))) ->
  (forall (f : poly K) m, In (f, m) (snd fl) -> wf 2 f /\ homog2 (hom_order f) f) ->
  constraints_wf ineqs -> structural_sos_2vars uni fl ineqs = Ok (Some e) ->
  forall x, constraints_hold x ineqs -> defined x e -> ev x e = peval x p /\ (constraints_nn x ineqs -> 0 <= ev x e).
Proof.
  intros Hfl Hf Hcw He x Hch Hd. destruct (biv_loop_lemma x ineqs Hcw Hch _ _ _ _ Hf He Hd) as [_ [V1 V2]].
  split; [|intro NN; apply (V2 NN); apply f1_nonneg]. rewrite V1, Hfl. cbn [ev]. ring.
Qed.

(** *** Where the expression is defined: if the second variable is not 0 and no factor is constant *)
Lemma deh_defined (x : nat -> K) d (w : wsos K) : x 1%nat <> 0 -> defined x (deh_expr d w).
Proof.
  intro H. unfold deh_expr. cbn [defined]. split; [|exact I]. induction w as [|[c q] w IH]; [exact I|]. cbn [fold_right defined fst snd].
  split; [|exact IH]. split; [exact I|]. generalize (seq 0 (length q)). induction l as [|j l IHl]; [exact I|]. cbn [fold_right defined ev].
  split; [|exact IHl]. tauto.
Qed.
Lemma biv_linear_defined d p ineqs x e : wf 2 p -> homog2 d p -> constraints_wf ineqs -> constraints_hold x ineqs ->
  biv_linear uni d p ineqs = Ok (Some e) -> x 1%nat <> 0 -> (0 < d)%nat -> defined x e.
Proof.
  intros Hw Hh Hcw Hch He Hx Hd. destruct (stored (hs_run (bounds ineqs))) eqn:Es.
  - unfold biv_linear in He. cbv zeta in He. rewrite Es in He. destruct (degenerated _); [discriminate|].
    destruct (Nat.odd d); [discriminate|]. destruct (uni false (hcoeffs d p)) as [[[w1 w2]|]|]; try discriminate.
    apply Ok_inj, Some_inj in He. subst e. apply deh_defined, Hx.
  - refine (proj1 (biv_linear_lemma d p ineqs x e Hw Hh Hcw Hch He) _ Hd). rewrite Es. discriminate.
Qed.
Lemma pexpr_defined x p : defined x (pexpr p).
Proof. unfold pexpr. induction p as [|t p IH]; [exact I|]. cbn [fold_right defined]. tauto. Qed.
Lemma biv_loop_defined x ineqs : constraints_wf ineqs -> constraints_hold x ineqs -> x 1%nat <> 0 -> forall fs sgn sols e,
  (forall (f : poly K) m, In (f, m) fs -> wf 2 f /\ homog2 (hom_order f) f /\ (0 < hom_order f)%nat) ->
  biv_loop uni sgn sols fs ineqs = Ok (Some e) -> defined x sols -> defined x e.
Proof.
  intros Hcw Hch Hx. induction fs as [|[f m] fs IH]; intros sgn sols e Hf He Hd; cbn [biv_loop] in He.
  - destruct (sgn <? 0); [discriminate|]. apply Ok_inj, Some_inj in He. subst e. cbn. tauto.
  - destruct (Hf f m (or_introl eq_refl)) as (Wf & Hh & Hp).
    assert (Hf' : forall (f' : poly K) m', In (f', m') fs -> wf 2 f' /\ homog2 (hom_order f') f' /\ (0 < hom_order f')%nat) by (intros; apply (Hf f' m'); right; assumption).
    destruct (Nat.even m).
    + apply (IH _ _ _ Hf' He). cbn [defined]. split; [exact Hd|apply pexpr_defined].
    + destruct (biv_linear uni (hom_order f) f ineqs) as [[s|]|er] eqn:E1; try discriminate.
      * apply (IH _ _ _ Hf' He). cbn [defined]. split; [exact Hd|]. exact (biv_linear_defined _ _ _ _ _ Wf Hh Hcw Hch E1 Hx Hp).
      * destruct (biv_linear uni (hom_order f) (popp f) ineqs) as [[s|]|er] eqn:E2; try discriminate.
        apply (IH _ _ _ Hf' He). cbn [defined]. split; [exact Hd|].
        exact (biv_linear_defined _ _ _ _ _ (wf_popp _ _ Wf) (homog2_popp _ _ Hh) Hcw Hch E2 Hx Hp).
Qed.
Lemma structural_2vars_defined fl ineqs e :
  (forall (f : poly K) m, In (f, m) (snd fl) -> wf 2 f /\ homog2 (hom_order f) f /\ (0 < hom_order f)%nat) ->
  constraints_wf ineqs -> structural_sos_2vars uni fl ineqs = Ok (Some e) ->
  forall x, constraints_hold x ineqs -> x 1%nat <> 0 -> defined x e.
Proof. intros Hf Hcw He x Hch Hx. exact (biv_loop_defined x ineqs Hcw Hch Hx _ _ _ _ Hf He I). Qed.
End Sound.

(** ** The univariate prover of the code *)
(** the calls [prove_univariate_interval(.., (-oo, oo))] and [(.., (0, oo))] (bivariate.py:150, 162, 179) *)
Definition uni_of rds num fl (half : bool) (f : list K) : res (option (wsos K * wsos K)) :=
  match prove_interval rds num fl f (if half then Some 0 else None) None with
  | Err e => Err e
  | Ok None => Ok None
  | Ok (Some pr) => Ok (Some (snd (nth 0 pr ([], [])), snd (nth 1 pr ([], []))))
  end.
Lemma uni_of_exact rds num fl : (forall g, factors_to K (fl g) g) -> (forall g h m, In (h, m) (snd (fl g)) -> aligned K rds (num h) h) ->
  uni_exact (uni_of rds num fl).
Proof.
  intros Hfl Hal half f w1 w2 H. unfold uni_of in H.
  destruct (prove_interval rds num fl f (if half then Some 0 else None) None) as [[pr|]|] eqn:E; try discriminate.
  apply Ok_inj, Some_inj in H. destruct (prove_interval_sound K rds num fl f _ _ pr Hfl Hal E) as [S1 [S2 [S3 S4]]].
  destruct pr as [|[m0 v0] [|[m1 v1] [|]]]; try (destruct half; discriminate). cbn [nth snd] in *. inversion H; subst v0 v1. clear H.
  split; [exact (S2 _ (or_introl eq_refl))|]. split; [exact (S2 _ (or_intror (or_introl eq_refl)))|].
  intro y. rewrite S3. unfold ieval. cbn [map fsum fst snd].
  destruct half; cbn [interval_multipliers map fst] in S1; inversion S1; subst m0 m1.
  - rewrite !ueval_cons, !ueval_nil. ring.
  - rewrite (S4 eq_refl eq_refl). change (weval [] y) with (0 : K). rewrite !ueval_cons, !ueval_nil. ring.
Qed.

(** a small exact prover, for the concrete cases: linear polynomials on the half line, quadratic
    ones by completing the square *)
Definition uni_small (half : bool) (f : list K) : res (option (wsos K * wsos K)) :=
  match f with
  | [c; b] => if (half && (0 <=? c) && (0 <=? b))%bool then Ok (Some ([(c, [1])], [(b, [1])])) else Ok None
  | [c; b; a] => if ((0 <? a) && (0 <=? c - b * b / (4 * a)))%bool
                 then Ok (Some ([(a, [b / (2 * a); 1]); (c - b * b / (4 * a), [1])], [])) else Ok None
  | _ => Ok None
  end.
Lemma uni_small_exact : uni_exact uni_small.
Proof.
  intros half f w1 w2 H. unfold uni_small in H. destruct f as [|c [|b [|a [|]]]]; try discriminate.
  - destruct (half && _ && _)%bool eqn:Ec; [|discriminate]. rewrite !andb_true_iff in Ec. destruct Ec as [[-> H1] H2].
    apply fleb_le in H1. apply fleb_le in H2. apply Ok_inj, Some_inj in H. inversion H; subst.
    split; [intros t [<-|[]]; exact H1|]. split; [intros t [<-|[]]; exact H2|]. intro y. unfold weval. cbn [map fsum fst snd].
    rewrite !ueval_cons, !ueval_nil. ring.
  - destruct (_ && _)%bool eqn:Ec; [|discriminate]. rewrite andb_true_iff in Ec. destruct Ec as [H1 H2].
    apply fltb_lt in H1. apply fleb_le in H2. apply Ok_inj, Some_inj in H. inversion H; subst.
    split; [intros t [<-|[<-|[]]]; [apply flt_le; exact H1|exact H2]|]. split; [intros t []|]. intro y. unfold weval. cbn [map fsum fst snd].
    rewrite !ueval_cons, !ueval_nil. pose proof (flt_neq0 H1). destruct half; field; fnz.
Qed.
End Facts.
