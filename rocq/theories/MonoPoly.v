(** * General monotonic problems and polynomials: triples/utils/roots/monotonic_opt.py, second part

    As in MonoOpt.v: exact arithmetic, [np.inf] is [None], the root solver and the random choice
    are parameters. Polynomials are lists of terms in lexicographic order, without zero
    coefficients; [sp.Poly.shift_list] is a parameter with the contract [shift_ok]. *)
From Coq Require Import Bool List Arith Lia Ring Field.
From Verif Require Import OrdField Base Perm Poly PolyOps MonoOpt MonoOptFacts.
Import ListNotations.

Section Model.
Variable K : OrdField.
Local Open Scope of_scope.

Definition fn : Type := list K -> K.

(** monotonic_opt.py:313-314, [h(x) = sum_i h_i(x)] (0 without constraints, line 323). *)
Definition hsum (gh : list (fn * fn)) (x : list K) : K := fsum (map (fun c => snd c x) gh).
(** [np.max] of a list; monotonic_opt.py:326: 0 without constraints. *)
Definition vmax (l : list K) : K := match l with [] => 0 | v :: l' => fold_left fmax l' v end.
(** monotonic_opt.py:317-320, [g(x) = max_i (g_i(x) - h_i(x) + h(x))]. *)
Definition gmax (gh : list (fn * fn)) (x : list K) : K :=
  vmax (map (fun c => fst c x - snd c x + hsum gh x) gh).

(** monotonic_opt.py:329-339, the functions [F], [G], [H] of the transformed problem. *)
Definition bigF (n : nat) (f1 : fn) (p : list K) : K := f1 (firstn n p) + vget0 p (S n).
Definition bigG (n : nat) (gh : list (fn * fn)) (p : list K) : K := gmax gh (firstn n p) + vget0 p n.
Definition bigH (n : nat) (f2 : fn) (gh : list (fn * fn)) (p : list K) : K :=
  fmin (hsum gh (firstn n p) + vget0 p n) (f2 (firstn n p) + vget0 p (S n)).
(** monotonic_opt.py:342-343, the new bounds. *)
Definition low (f2 : fn) (gh : list (fn * fn)) (a b : list K) : list K := a ++ [- gmax gh b; - f2 b].
Definition high (f2 : fn) (gh : list (fn * fn)) (a b : list K) : list K := b ++ [- gmax gh a; - f2 a].

Section Solver.
Variable sup_fg : option K -> list K -> list K -> res K.
Variable sup_h : list K -> list K -> res K.
Variables rtol tol : K.
Variable choose : nat -> nat.
Variable max_iter : nat.

(** monotonic_opt.py:241-355, [rpa_gmop]. *)
Definition rpa_gmop (f1 f2 : fn) (gh : list (fn * fn)) (a b : list K) (cbv : option K) : res (result K) :=
  let n := length a in
  match rpa_monotonic (bigF n f1) (bigG n gh) (bigH n f2 gh) sup_fg sup_h rtol tol choose max_iter
          (low f2 gh a b) (high f2 gh a b) cbv with
  | Err e => Err e
  | Ok r =>
      let x := option_map (firstn n) (r_x r) in
      Ok (Res x (option_map (fun x => f1 x - f2 x) x) (r_iter r) (r_conv r)
            (firstn n (r_a r)) (firstn n (r_b r)) (r_lost r))
  end.

(** The value of a polynomial at a vector: [wrap(gens, f)], monotonic_opt.py:464-466. *)
Definition pat (p : poly K) (x : list K) : K := peval (fun i => vget0 x i) p.

(** [poly.shift_list(s)]: the polynomial with [x + s] for [x]. *)
Variable shift : poly K -> list K -> poly K.

(** monotonic_opt.py:359-389, [poly_as_dm]. *)
Definition poly_as_dm (p : poly K) (a : option (list K)) : poly K * poly K :=
  let s := option_map (map (fun ai => fmin ai 0)) a in
  let p := match s with None => p | Some s => shift p s end in
  let pos := filter (fun t => fleb 0 (snd t)) p in
  let neg := pneg (filter (fun t => fltb (snd t) 0) p) in
  match s with
  | None => (pos, neg)
  | Some s => (shift pos (map (fun x => - x) s), shift neg (map (fun x => - x) s))
  end.

(** [poly.degree()]: the degree in the first generator, 0 here for the zero polynomial too. *)
Definition deg0 (p : poly K) : nat := list_max (map (fun t => nth 0 (fst t) 0%nat) p).
(** [poly.LC()], 0 for the zero polynomial. *)
Definition lead (p : poly K) : K := match p with [] => 0 | t :: _ => snd t end.
(** [len(poly.free_symbols) == 1] when the first generator occurs: no other one does. *)
Definition only_first (p : poly K) : bool :=
  forallb (fun t => forallb (fun e => Nat.eqb e 0) (tl (fst t))) p.
Definition zeros (n : nat) : list nat := repeat 0%nat n.
(** [eq + eqtol]. *)
Definition add_const (n : nat) (p : poly K) (c : K) : poly K := clean (add_term p (zeros n, c)).

(** monotonic_opt.py:473-491, the loop over the constraints; [None]: returned as infeasible.
    (The lists [a] and [b] of the caller are changed in place; not modelled.) *)
Fixpoint collect (n : nat) (ineqs : list (poly K)) (a b : list K) (gh : list (fn * fn))
  : option (list K * list K * list (fn * fn)) :=
  match ineqs with
  | [] => Some (a, b, gh)
  | p :: ineqs' =>
      if Nat.eqb (deg0 p) 0 then
        if fltb (lead p) 0 then None else collect n ineqs' a b gh
      else if Nat.eqb (deg0 p) 1 && only_first p then
        let lc := coef p (1%nat :: zeros (n - 1)) in
        let const := coef p (zeros n) in
        if fltb 0 lc
        then collect n ineqs' (upd a 0 (fmax (vget0 a 0) (- const / lc))) b gh
        else collect n ineqs' a (upd b 0 (fmin (vget0 b 0) (- const / lc))) gh
      else
        let d := poly_as_dm p (Some a) in
        collect n ineqs' a b (gh ++ [(pat (snd d), pat (fst d))])
  end.

(** monotonic_opt.py:468-472, the equations as pairs of inequalities. *)
Definition all_ineqs (n : nat) (ineqs eqs : list (poly K)) (eqtol : K) : list (poly K) :=
  ineqs ++ flat_map (fun e => [add_const n e eqtol; add_const n (pneg e) eqtol]) eqs.

(** monotonic_opt.py:392-497, [rpa_polyopt]; [n] is the number of generators. *)
Definition rpa_polyopt (n : nat) (f : poly K) (ineqs eqs : list (poly K)) (a b : list K) (eqtol : K)
  (cbv : option K) : res (result K) :=
  match collect n (all_ineqs n ineqs eqs eqtol) a b [] with
  | None => Ok (Res None None 1 true a b false)
  | Some (a, b, gh) =>
      let d := poly_as_dm f (Some a) in
      rpa_gmop (pat (fst d)) (pat (snd d)) gh a b cbv
  end.
End Solver.
End Model.
Arguments hsum {K}. Arguments vmax {K}. Arguments gmax {K}. Arguments bigF {K}. Arguments bigG {K}.
Arguments bigH {K}. Arguments low {K}. Arguments high {K}. Arguments rpa_gmop {K}. Arguments pat {K}.
Arguments poly_as_dm {K}. Arguments deg0 {K}. Arguments lead {K}. Arguments only_first {K}.
Arguments add_const {K}. Arguments collect {K}. Arguments all_ineqs {K}. Arguments rpa_polyopt {K}.

Lemma list_eq_nil {A} (l : list A) : {l = []} + {l <> []}.
Proof. destruct l; [left; reflexivity|right; discriminate]. Qed.

Section Facts.
Variable K : OrdField.
Local Open Scope of_scope.
Add Field Kf : (F_field K).
Implicit Types x y p a b : list K.

(** ** Lifted vectors *)
Lemma vget_firstn n p i : vget0 (firstn n p) i = if Nat.ltb i n then vget0 p i else 0.
Proof.
  unfold vget0. revert p i. induction n as [|n IH]; intros p i.
  - cbn. destruct i; reflexivity.
  - destruct p as [|v p]; [cbn [firstn]; destruct i, (Nat.ltb _ _); reflexivity|].
    destruct i as [|i]; [reflexivity|]. cbn [firstn nth]. rewrite IH. reflexivity.
Qed.
Lemma vget_lift a s t i : vget0 (a ++ [s; t]) i =
  if Nat.ltb i (length a) then vget0 a i else if Nat.eqb i (length a) then s
  else if Nat.eqb i (S (length a)) then t else 0.
Proof.
  unfold vget0. revert i. induction a as [|v a IH]; intro i.
  - destruct i as [|[|[|i]]]; reflexivity.
  - destruct i as [|i]; [reflexivity|]. cbn [app nth length]. rewrite IH. reflexivity.
Qed.
Lemma vget_lift_s a s t : vget0 (a ++ [s; t]) (length a) = s.
Proof. rewrite vget_lift, Nat.ltb_irrefl, Nat.eqb_refl. reflexivity. Qed.
Lemma vget_lift_t a s t : vget0 (a ++ [s; t]) (S (length a)) = t.
Proof.
  rewrite vget_lift. replace (Nat.ltb (S (length a)) (length a)) with false by (symmetry; apply Nat.ltb_ge; lia).
  replace (Nat.eqb (S (length a)) (length a)) with false by (symmetry; apply Nat.eqb_neq; lia).
  rewrite Nat.eqb_refl. reflexivity.
Qed.
Lemma firstn_lift a s t : firstn (length a) (a ++ [s; t]) = a.
Proof. rewrite firstn_app, firstn_all, Nat.sub_diag. cbn. apply app_nil_r. Qed.
Lemma ple_firstn n p q : ple K p q -> ple K (firstn n p) (firstn n q).
Proof. intros H i. rewrite !vget_firstn. destruct (Nat.ltb i n); [apply H|apply fle_refl]. Qed.

Lemma box_down a b s t s' t' p : length b = length a ->
  in_box K (a ++ [s; t]) (b ++ [s'; t']) p -> in_box K a b (firstn (length a) p) /\ length p = S (S (length a)).
Proof.
  intros L (Lp & A & B). rewrite app_length in Lp. cbn in Lp.
  split; [|lia]. split; [rewrite firstn_length; lia|]. split.
  - rewrite <- (firstn_lift a s t) at 1. apply ple_firstn. exact A.
  - rewrite <- (firstn_lift b s' t'). rewrite L. apply ple_firstn. exact B.
Qed.
Lemma box_up a b s t s' t' x u v : length b = length a -> in_box K a b x ->
  s <= u -> u <= s' -> t <= v -> v <= t' -> in_box K (a ++ [s; t]) (b ++ [s'; t']) (x ++ [u; v]).
Proof.
  intros L (Lx & A & B) H1 H2 H3 H4. split; [rewrite !app_length; cbn; lia|].
  split; intro i; rewrite !vget_lift, ?L, ?Lx;
    (destruct (Nat.ltb i (length a)); [auto|]; destruct (Nat.eqb i (length a)); [assumption|];
     destruct (Nat.eqb i (S (length a))); [assumption|apply fle_refl]).
Qed.

(** ** The transformed problem is monotone *)
Section Gmop.
Variables f1 f2 : fn K.
Variable gh : list (fn K * fn K).
Variables a b : list K.
Hypothesis L : length b = length a.
Hypothesis Hab : ple K a b.
Hypothesis H1 : increasing K a b f1.
Hypothesis H2 : increasing K a b f2.
Hypothesis Hgh : forall c, In c gh -> increasing K a b (fst c) /\ increasing K a b (snd c).

Lemma hsum_inc : increasing K a b (hsum gh).
Proof.
  intros p q P Q R. unfold hsum. clear -Hgh P Q R. induction gh as [|c l IH]; [apply fle_refl|].
  cbn [map fsum]. apply fle_add; [|apply IH; intros d D; apply Hgh; right; exact D].
  apply (proj2 (Hgh c (or_introl eq_refl))); assumption.
Qed.
Lemma grow_here (u u' s s' : K) : s <= s' -> u' - u <= u' + s' - (u + s).
Proof.
  intro H. apply (proj1 (fle_sub _ _)) in H. apply (proj2 (fle_sub _ _)).
  replace (u' + s' - (u + s) - (u' - u)) with (s' - s) by ring. exact H.
Qed.
Lemma grow_there (d u u' s s' : K) : u <= u' -> d <= s' - s -> d <= u' + s' - (u + s).
Proof.
  intros H J. apply (proj1 (fle_sub _ _)) in H. apply (proj1 (fle_sub _ _)) in J. apply (proj2 (fle_sub _ _)).
  replace (u' + s' - (u + s) - d) with ((u' - u) + (s' - s - d)) by ring. apply fadd_nonneg; assumption.
Qed.
(** The sum grows at least as much as each summand. *)
Lemma hsum_inc1 p q c : in_box K a b p -> in_box K a b q -> ple K p q -> In c gh ->
  snd c q - snd c p <= hsum gh q - hsum gh p.
Proof.
  intros P Q R. unfold hsum. clear -Hgh P Q R.
  assert (G : forall e, In e gh -> snd e p <= snd e q) by (intros e E; apply (proj2 (Hgh e E)); assumption).
  clear Hgh. induction gh as [|d l IH]; [intros []|].
  cbn [map fsum]. intros [->|I].
  - apply grow_here. assert (G' : forall e, In e l -> snd e p <= snd e q) by (intros e E; apply G; right; exact E).
    clear G IH. induction l as [|e l IH]; [apply fle_refl|]. cbn [map fsum]. apply fle_add.
    + apply G'. left. reflexivity.
    + apply IH. intros e' E. apply G'. right. exact E.
  - apply grow_there; [apply G; left; reflexivity|]. apply IH; [|exact I]. intros e E. apply G. right. exact E.
Qed.

Lemma vmax_le_fold (l : list K) v w : fold_left fmax l v <= w <-> v <= w /\ forall u, In u l -> u <= w.
Proof.
  revert v. induction l as [|u l IH]; intro v; cbn [fold_left].
  - split; [intro H; split; [exact H|intros u []]|tauto].
  - rewrite IH, fmax_le. split.
    + intros [[A B] C]. split; [exact A|]. intros u' [<-|I]; auto.
    + intros [A B]. split; [split; [exact A|apply B; left; reflexivity]|intros; apply B; right; assumption].
Qed.
Lemma gmax_le x w : gh <> [] -> gmax gh x <= w <-> forall c, In c gh -> fst c x - snd c x + hsum gh x <= w.
Proof.
  intro Ne. unfold gmax. set (F := fun c : fn K * fn K => fst c x - snd c x + hsum gh x).
  assert (E : vmax (map F gh) <= w <-> forall u, In u (map F gh) -> u <= w).
  { destruct gh as [|c l]; [congruence|]. cbn [map vmax]. rewrite vmax_le_fold. split.
    - intros [A B] u [<-|I]; auto.
    - intro H. split; [apply H; left; reflexivity|intros; apply H; right; assumption]. }
  refine (iff_trans E _). split; intro H.
  - intros c I. apply (H (F c)). apply in_map. exact I.
  - intros u I. apply in_map_iff in I. destruct I as (c & <- & I). apply H. exact I.
Qed.
Lemma gmax_inc : increasing K a b (gmax gh).
Proof.
  intros p q P Q R. destruct (list_eq_nil gh) as [N|N]; [rewrite N; apply fle_refl|].
  apply gmax_le; [exact N|]. intros c I.
  apply (fle_trans K _ (fst c q - snd c q + hsum gh q)).
  - pose proof (proj1 (Hgh c I) p q P Q R) as A. pose proof (hsum_inc1 p q c P Q R I) as B.
    apply (proj1 (fle_sub _ _)) in A. apply (proj1 (fle_sub _ _)) in B. apply (proj2 (fle_sub _ _)).
    replace (fst c q - snd c q + hsum gh q - (fst c p - snd c p + hsum gh p))
      with ((fst c q - fst c p) + (hsum gh q - hsum gh p - (snd c q - snd c p))) by ring.
    apply fadd_nonneg; assumption.
  - apply (proj1 (gmax_le q (gmax gh q) N) (fle_refl K _) c I).
Qed.
(** [g <= h] is the conjunction of the constraints. *)
Lemma gmax_hsum x e : 0 <= e -> gmax gh x <= hsum gh x + e <-> forall c, In c gh -> fst c x - snd c x <= e.
Proof.
  intro He. destruct (list_eq_nil gh) as [N|N].
  - rewrite N. cbn. replace (0 + e) with e by ring. split; [intros _ c []|intros _; exact He].
  - rewrite gmax_le by exact N.
    assert (E : forall u v, u + v <= v + e <-> u <= e).
    { intros u v. rewrite (fle_sub (u + v)), (fle_sub u). replace (v + e - (u + v)) with (e - u) by ring. tauto. }
    split; intros H c I; specialize (H c I); apply (E _ (hsum gh x)); exact H.
Qed.

Lemma fmin_ge (u v w : K) : w <= fmin u v <-> w <= u /\ w <= v.
Proof.
  unfold fmin. destruct (fltb v u) eqn:E.
  - apply fltb_lt in E. apply flt_le in E. split; [|tauto]. intro H. split; [|exact H]. exact (fle_trans K _ _ _ H E).
  - apply fltb_ge in E. split; [|tauto]. intro H. split; [exact H|]. exact (fle_trans K _ _ _ H E).
Qed.

Let n := length a.
Lemma bigF_inc : increasing K (low f2 gh a b) (high f2 gh a b) (bigF n f1).
Proof.
  intros p q P Q R. unfold bigF. apply fle_add; [|apply R].
  apply H1; [apply (box_down _ _ _ _ _ _ _ L P)|apply (box_down _ _ _ _ _ _ _ L Q)|apply ple_firstn; exact R].
Qed.
Lemma bigG_inc : increasing K (low f2 gh a b) (high f2 gh a b) (bigG n gh).
Proof.
  intros p q P Q R. unfold bigG. apply fle_add; [|apply R].
  apply gmax_inc; [apply (box_down _ _ _ _ _ _ _ L P)|apply (box_down _ _ _ _ _ _ _ L Q)|apply ple_firstn; exact R].
Qed.
Lemma bigH_inc : increasing K (low f2 gh a b) (high f2 gh a b) (bigH n f2 gh).
Proof.
  intros p q P Q R. unfold bigH.
  pose proof (proj1 (box_down _ _ _ _ _ _ _ L P)) as P'. pose proof (proj1 (box_down _ _ _ _ _ _ _ L Q)) as Q'.
  apply fmin_ge. split.
  - apply (fle_trans K _ (hsum gh (firstn n p) + vget0 p n)); [apply (proj1 (fmin_ge _ _ _) (fle_refl K _))|].
    apply fle_add; [|apply R]. apply hsum_inc; [exact P'|exact Q'|apply ple_firstn; exact R].
  - apply (fle_trans K _ (f2 (firstn n p) + vget0 p (S n))); [apply (proj1 (fmin_ge _ _ _) (fle_refl K _))|].
    apply fle_add; [|apply R]. apply H2; [exact P'|exact Q'|apply ple_firstn; exact R].
Qed.
Lemma fopp_le (u v : K) : u <= v -> - v <= - u.
Proof.
  intro H. apply (proj1 (fle_sub _ _)) in H. apply (proj2 (fle_sub _ _)).
  replace (- u - - v) with (v - u) by ring. exact H.
Qed.
Lemma box_ab : in_box K a b a /\ in_box K a b b.
Proof.
  split; (split; [auto|split]); first [apply ple_refl|exact Hab].
Qed.
Lemma low_high : ple K (low f2 gh a b) (high f2 gh a b) /\ length (high f2 gh a b) = length (low f2 gh a b).
Proof.
  destruct box_ab as [Ba Bb]. split; [|unfold low, high; rewrite !app_length; cbn; lia].
  refine (proj2 (proj2 (box_up a b _ _ _ _ a (- gmax gh b) (- f2 b) L Ba _ _ _ _))); try apply fle_refl; apply fopp_le.
  - apply gmax_inc; auto.
  - apply H2; auto.
Qed.

Variable sup_fg : option K -> list K -> list K -> res K.
Variable sup_h : list K -> list K -> res K.
Variables rtol eps tol : K.
Hypothesis Hs : solver_ok K (bigF n f1) (bigG n gh) (bigH n f2 gh) sup_fg sup_h eps (low f2 gh a b) (high f2 gh a b).
Hypothesis Heps : 0 <= eps.
Hypothesis Htol : 0 <= tol.
Hypothesis Hrtol : 0 < rtol.

Lemma gmop_facts choose max_iter cbv r :
  rpa_gmop sup_fg sup_h rtol tol choose max_iter f1 f2 gh a b cbv = Ok r ->
  (forall x, r_x r = Some x -> in_box K a b x /\ (forall c, In c gh -> fst c x - snd c x <= eps) /\
     r_f r = Some (f1 x - f2 x)) /\
  (r_conv r = true -> r_lost r = false ->
     forall y, in_box K a b y -> (forall c, In c gh -> fst c y - snd c y <= 0) ->
       match r_x r with
       | Some x => f1 x - f2 x <= f1 y - f2 y + (tol + eps)
       | None => match cbv with None => False | Some c => c <= f1 y - f2 y end
       end).
Proof.
  unfold rpa_gmop. fold n.
  destruct (rpa_monotonic _ _ _ _ _ _ _ _ _ _ _ _) as [r0|e] eqn:E; [|discriminate].
  intro H. apply Ok_inj in H. subst r. cbn [r_x r_f r_conv r_lost].
  destruct low_high as [LH1 LH2].
  destruct (rpa_facts K _ _ _ _ _ _ eps _ _ _ LH2 LH1 bigF_inc bigG_inc bigH_inc Hs Heps Htol Hrtol _ _ _ _ E) as [P1 P2].
  assert (Q : forall p, r_x r0 = Some p -> in_box K a b (firstn n p) /\
     gmax gh (firstn n p) + vget0 p n <= 0 /\
     - eps <= hsum gh (firstn n p) + vget0 p n /\ - eps <= f2 (firstn n p) + vget0 p (S n)).
  { intros p Ep. destruct (P1 p Ep) as (B & G & Hh & _). unfold bigG, bigH in *.
    apply fmin_ge in Hh. destruct Hh as [Hh1 Hh2].
    split; [exact (proj1 (box_down _ _ _ _ _ _ _ L B))|]. split; [exact G|]. split; assumption. }
  split.
  - intros x Ex. destruct (r_x r0) as [p|] eqn:Ep; [|discriminate]. cbn in Ex. injection Ex as <-.
    destruct (Q p eq_refl) as (B & G & Hh & _). split; [exact B|]. split; [|reflexivity].
    apply gmax_hsum; [exact Heps|].
    apply (proj1 (fle_sub _ _)) in G. apply (proj1 (fle_sub _ _)) in Hh. apply (proj2 (fle_sub _ _)).
    set (u := gmax gh (firstn n p)) in *. set (v := hsum gh (firstn n p)) in *.
    replace (v + eps - u) with ((0 - (u + vget0 p n)) + (v + vget0 p n - - eps)) by ring.
    apply fadd_nonneg; assumption.
  - intros Hc Hl y By Cy. destruct box_ab as [Ba Bb]. pose proof By as (Ly & Ay & Yb).
    set (Y := y ++ [- gmax gh y; - f2 y]).
    assert (FY : feasible K (bigG n gh) (bigH n f2 gh) (low f2 gh a b) (high f2 gh a b) Y).
    { split; [|split].
      - apply box_up; try assumption; apply fopp_le; first [apply gmax_inc|apply H2]; assumption.
      - unfold bigG, Y, n. rewrite <- Ly. rewrite firstn_lift, vget_lift_s.
        replace (gmax gh y + - gmax gh y) with (0 : K) by ring. apply fle_refl.
      - unfold bigH, Y, n. rewrite <- Ly. rewrite firstn_lift, vget_lift_s, vget_lift_t. apply fmin_ge. split.
        + pose proof (proj2 (gmax_hsum y 0 (fle_refl K 0)) Cy) as G.
          apply (proj1 (fle_sub _ _)) in G. replace (hsum gh y + - gmax gh y) with (hsum gh y + 0 - gmax gh y) by ring.
          exact G.
        + replace (f2 y + - f2 y) with (0 : K) by ring. apply fle_refl. }
    pose proof (P2 Hc Hl Y FY) as R.
    assert (EF : bigF n f1 Y = f1 y - f2 y).
    { unfold bigF, Y, n. rewrite <- Ly. rewrite firstn_lift, vget_lift_t. ring. }
    rewrite EF in R. destruct (r_x r0) as [p|] eqn:Ep; cbn [option_map]; [|exact R].
    destruct (Q p eq_refl) as (_ & _ & _ & Hu). unfold bigF in R.
    apply (proj1 (fle_sub _ _)) in R. apply (proj1 (fle_sub _ _)) in Hu. apply (proj2 (fle_sub _ _)).
    set (u := f1 (firstn n p)) in *. set (v := f2 (firstn n p)) in *.
    replace (f1 y - f2 y + (tol + eps) - (u - v))
      with ((f1 y - f2 y + tol - (u + vget0 p (S n))) + (v + vget0 p (S n) - - eps)) by ring.
    apply fadd_nonneg; assumption.
Qed.
End Gmop.
End Facts.
