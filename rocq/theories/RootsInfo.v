(** * Information on roots: triples/utils/roots/rootsinfo.py:14-163 and the predicates of roots.py:76-94

    Exact arithmetic over an ordered field; a root is the list of its coordinates, a tangent the function
    that evaluates it. *)
From Coq Require Import Bool List Arith Lia Ring Field.
From Verif Require Import OrdField Base RootUv RootUvFacts.
Import ListNotations.

Section Model.
Variable K : OrdField.
Local Open Scope of_scope.
(** roots.py:61-63, the tuple [root]. *)
Definition rroot : Type := list K.
(** A tangent is only called, rootsinfo.py:157. *)
Definition tangent : Type := list K -> K.

(** roots.py:79-81, [is_border]. *)
Definition ri_border (r : rroot) : bool := existsb (fun x => feqb x 0) r.
(** [set(self.root)] as a list without repetitions. *)
Fixpoint ri_set (r : rroot) : rroot :=
  match r with [] => [] | x :: r' => if existsb (feqb x) r' then ri_set r' else x :: ri_set r' end.
(** roots.py:83-85, [is_symmetric]. *)
Definition ri_symmetric (r : rroot) : bool := Nat.ltb (length (ri_set r)) (length r).
(** roots.py:92-94, [is_nontrivial]. *)
Definition ri_nontrivial (r : rroot) : bool := negb (ri_border r) && negb (ri_symmetric r).

(** Equality of roots, roots.py:105-108. *)
Fixpoint ri_eqb (r s : rroot) : bool :=
  match r, s with
  | [], [] => true
  | x :: r', y :: s' => feqb x y && ri_eqb r' s'
  | _, _ => false
  end.

(** The fields [roots], [strict_roots] and [tangents] of the object. *)
Record info : Type := Info { i_roots : list rroot; i_strict : list rroot; i_tangents : list tangent }.

(** rootsinfo.py:111-115, [nonborder_roots]. *)
Definition nonborder_roots (o : info) : list rroot := filter (fun r => negb (ri_border r)) (i_strict o).
(** rootsinfo.py:117-121, [nontrivial_roots]. *)
Definition nontrivial_roots (o : info) : list rroot := filter ri_nontrivial (i_strict o).
(** rootsinfo.py:58-63, [normal_roots]: the symmetric difference of two sets. The order of a set and
    repetitions are not modelled. *)
Definition normal_roots (o : info) : list rroot :=
  filter (fun r => negb (existsb (ri_eqb r) (i_strict o))) (i_roots o) ++
  filter (fun r => negb (existsb (ri_eqb r) (i_roots o))) (i_strict o).

(** rootsinfo.py:154-156, [norm_r]. Simplification: a root has at least one coordinate. *)
Definition norm_r (r : rroot) : rroot :=
  let s := fsum (map rabs r) / fnat (length r) in map (fun x => x / s) r.

(** rootsinfo.py:143-163, [filter_tangents]. *)
Definition filter_tangents (tol : K) (o : info) (ts : list tangent) : list tangent :=
  match ts, nontrivial_roots o with
  | [], _ => ts
  | _, [] => ts
  | _, rs => filter (fun t : tangent => forallb (fun r => fltb (rabs (t (norm_r r))) tol) rs) ts
  end.

(** rootsinfo.py:165-180, [generate_tangents]; [None] for [False] and [None]. *)
Definition generate_tangents (g : option (info -> list tangent)) (o : info) : list tangent :=
  match g with None => [] | Some g => g o end.

(** rootsinfo.py:40-56, [__init__]: the approximation of a root is a parameter. *)
Definition rootsinfo_init (approx : rroot -> rroot) (tol : K) (roots strict : list rroot) (tangents : list tangent)
    (approximate_roots : bool) (with_tangents : option (info -> list tangent)) : info :=
  let roots := if approximate_roots then map approx roots else roots in
  let strict := if approximate_roots then map approx strict else strict in
  let o := Info roots strict tangents in
  let o := Info roots strict (generate_tangents with_tangents o) in
  Info roots strict (filter_tangents tol o (i_tangents o)).
End Model.
Arguments rroot : clear implicits. Arguments tangent : clear implicits. Arguments info : clear implicits.
Arguments ri_border {K}. Arguments ri_set {K}. Arguments ri_symmetric {K}. Arguments ri_nontrivial {K}. Arguments ri_eqb {K}.
Arguments Info {K}. Arguments i_roots {K}. Arguments i_strict {K}. Arguments i_tangents {K}.
Arguments nonborder_roots {K}. Arguments nontrivial_roots {K}. Arguments normal_roots {K}. Arguments norm_r {K}.
Arguments filter_tangents {K}. Arguments generate_tangents {K}. Arguments rootsinfo_init {K}.

Section Facts.
Variable K : OrdField.
Local Open Scope of_scope.
Add Field Kf : (F_field K).
Implicit Types (r s : rroot K) (o : info K) (t : tangent K).

Lemma ri_border_iff r : ri_border r = true <-> In 0 r.
Proof.
  unfold ri_border. rewrite existsb_exists. split.
  - intros (x & Hx & E). apply feqb_eq in E. subst. exact Hx.
  - intro H. exists 0. split; [exact H|]. apply feqb_eq. reflexivity.
Qed.

Lemma ri_set_le r : (length (ri_set r) <= length r)%nat.
Proof. induction r as [|x r IH]; [reflexivity|]. cbn [ri_set]. destruct (existsb (feqb x) r); cbn [length]; lia. Qed.

Lemma existsb_feqb x r : existsb (feqb x) r = true <-> In x r.
Proof.
  rewrite existsb_exists. split.
  - intros (y & Hy & E). apply feqb_eq in E. subst. exact Hy.
  - intro H. exists x. split; [exact H|]. apply feqb_eq. reflexivity.
Qed.

Lemma ri_symmetric_iff r : ri_symmetric r = false <-> NoDup r.
Proof.
  unfold ri_symmetric. rewrite Nat.ltb_ge. induction r as [|x r IH]; cbn [ri_set length].
  - split; [intro; constructor|lia].
  - pose proof (ri_set_le r) as L. destruct (existsb (feqb x) r) eqn:E.
    + apply existsb_feqb in E. split; [lia|]. intro H. inversion H. contradiction.
    + assert (N : ~ In x r) by (intro H; apply existsb_feqb in H; congruence). cbn [length]. split.
      * intro H. constructor; [exact N|]. apply IH. lia.
      * intro H. inversion H as [|? ? _ H']. apply IH in H'. lia.
Qed.

Lemma ri_nontrivial_iff r : ri_nontrivial r = true <-> ~ In 0 r /\ NoDup r.
Proof.
  unfold ri_nontrivial. rewrite andb_true_iff, !negb_true_iff, ri_symmetric_iff, <- ri_border_iff.
  destruct (ri_border r); split; intros [H1 H2]; split; try assumption; try congruence.
Qed.

Lemma ri_eqb_iff r : forall s, ri_eqb r s = true <-> r = s.
Proof.
  induction r as [|x r IH]; destruct s as [|y s]; cbn; try (split; [reflexivity|reflexivity]); try (split; discriminate).
  rewrite andb_true_iff, feqb_eq, IH. split; [intros [-> ->]; reflexivity|]. intro E. injection E as -> ->. split; reflexivity.
Qed.
Lemma existsb_ri r l : existsb (ri_eqb r) l = true <-> In r l.
Proof.
  rewrite existsb_exists. split.
  - intros (y & Hy & E). apply ri_eqb_iff in E. subst. exact Hy.
  - intro H. exists r. split; [exact H|]. apply ri_eqb_iff. reflexivity.
Qed.
Lemma negb_existsb_ri r l : negb (existsb (ri_eqb r) l) = true <-> ~ In r l.
Proof. rewrite negb_true_iff, <- existsb_ri. destruct (existsb (ri_eqb r) l); split; intro H; try discriminate; try reflexivity; try (intro; discriminate). exfalso; apply H; reflexivity. Qed.

Lemma nontrivial_roots_iff o r : In r (nontrivial_roots o) <-> In r (i_strict o) /\ ~ In 0 r /\ NoDup r.
Proof. unfold nontrivial_roots. rewrite filter_In, ri_nontrivial_iff. reflexivity. Qed.

Lemma nonborder_roots_iff o r : In r (nonborder_roots o) <-> In r (i_strict o) /\ ~ In 0 r.
Proof.
  unfold nonborder_roots. rewrite filter_In, negb_true_iff, <- ri_border_iff.
  destruct (ri_border r); split; intros [H1 H2]; split; try assumption; try congruence.
Qed.

Lemma normal_roots_iff o r :
  In r (normal_roots o) <-> (In r (i_roots o) /\ ~ In r (i_strict o)) \/ (In r (i_strict o) /\ ~ In r (i_roots o)).
Proof. unfold normal_roots. rewrite in_app_iff, !filter_In, !negb_existsb_ri. reflexivity. Qed.

Lemma filter_all {A} (f : A -> bool) l : (forall x, In x l -> f x = true) -> filter f l = l.
Proof. induction l as [|x l IH]; intro H; [reflexivity|]. cbn. rewrite (H x (or_introl eq_refl)), IH; [reflexivity|]. intros y Hy. apply H. right. exact Hy. Qed.

Lemma filter_tangents_eq tol o ts :
  filter_tangents tol o ts = filter (fun t => forallb (fun r => fltb (rabs (t (norm_r r))) tol) (nontrivial_roots o)) ts.
Proof.
  unfold filter_tangents. destruct ts as [|t ts]; [reflexivity|]. destruct (nontrivial_roots o) as [|r rs]; [|reflexivity].
  symmetry. apply filter_all. reflexivity.
Qed.

Lemma filter_tangents_in tol o ts t : In t (filter_tangents tol o ts) <->
  In t ts /\ forall r, In r (i_strict o) -> ~ In 0 r -> NoDup r -> rabs (t (norm_r r)) < tol.
Proof.
  rewrite filter_tangents_eq, filter_In, forallb_forall. split; intros [H1 H2]; (split; [exact H1|]).
  - intros r A B C. apply fltb_lt, H2, nontrivial_roots_iff. tauto.
  - intros r Hr. apply fltb_lt. apply nontrivial_roots_iff in Hr. destruct Hr as (A & B & C). exact (H2 r A B C).
Qed.

Lemma filter_idem {A} (f : A -> bool) l : filter f (filter f l) = filter f l.
Proof. apply filter_all. intros x H. apply filter_In in H. apply H. Qed.

Lemma filter_tangents_idem tol o ts : filter_tangents tol o (filter_tangents tol o ts) = filter_tangents tol o ts.
Proof. rewrite !filter_tangents_eq. apply filter_idem. Qed.

(** ** Scaling of the roots *)
Lemma rabs_mul (k x : K) : 0 < k -> rabs (k * x) = k * rabs x.
Proof.
  intro Hk. unfold rabs. destruct (fltb x 0) eqn:E; destruct (fltb (k * x) 0) eqn:E2; try ring; exfalso.
  - apply fltb_lt in E. apply fltb_ge in E2. apply flt_not_le in E. apply E. exact (fmul_lt_cancel K k x Hk E2).
  - apply fltb_ge in E. apply fltb_lt in E2. apply flt_not_le in E2. apply E2. apply fmul_nonneg; [apply flt_le, Hk|exact E].
Qed.
Lemma fsum_rabs (k : K) r : 0 < k -> fsum (map rabs (map (fmul k) r)) = k * fsum (map rabs r).
Proof.
  intro Hk. induction r as [|x r IH]; cbn [map fsum]; [ring|]. rewrite IH, (rabs_mul k x Hk). ring.
Qed.
Lemma fsum_rabs_nonneg r : 0 <= fsum (map rabs r).
Proof. apply fsum_nonneg. intros x H. apply in_map_iff in H. destruct H as (y & <- & _). apply rabs_nonneg. Qed.
Lemma fsum_rabs_pos r : r <> [] -> ~ In 0 r -> 0 < fsum (map rabs r).
Proof.
  destruct r as [|x r]; [congruence|]. intros _ H. cbn [map fsum]. apply fadd_pos_l; [|apply fsum_rabs_nonneg].
  apply rabs_pos. intro E. apply H. left. exact E.
Qed.

Lemma norm_r_scale (k : K) r : 0 < k -> ~ In 0 r -> norm_r (map (fmul k) r) = norm_r r.
Proof.
  intros Hk Hr. destruct r as [|x r]; [reflexivity|].
  pose proof (fsum_rabs_pos (x :: r) ltac:(discriminate) Hr) as P.
  unfold norm_r. rewrite fsum_rabs by exact Hk. rewrite map_length. rewrite map_map. apply map_ext. intro y.
  set (S := fsum (map rabs (x :: r))) in *. clearbody S.
  assert (N : fnat (length (x :: r)) <> (0 : K)) by (apply fnat_neq0; cbn; lia).
  set (n := fnat (length (x :: r))) in *. clearbody n. field.
  repeat split; first [exact N | apply flt_neq0; exact P | apply flt_neq0; exact Hk].
Qed.

Lemma norm_r_average r : r <> [] -> ~ In 0 r -> fsum (map rabs (norm_r r)) = fnat (length r).
Proof.
  intros Hn Hr. pose proof (fsum_rabs_pos r Hn Hr) as P.
  assert (N : 0 < (fnat (length r) : K)) by (apply fnat_pos; destruct r; [congruence|cbn; lia]).
  unfold norm_r. cbv zeta.
  replace (map (fun x => x / (fsum (map rabs r) / fnat (length r))) r)
    with (map (fmul (/ (fsum (map rabs r) / fnat (length r)))) r).
  - rewrite fsum_rabs by (apply finv_pos, fdiv_pos; assumption).
    set (S := fsum (map rabs r)) in *. set (n := fnat (length r) : K) in *. clearbody S n. field.
    split; apply flt_neq0; assumption.
  - apply map_ext. intro x. rewrite (fdiv_def K x). ring.
Qed.

(** A homogeneous tangent that vanishes at a root vanishes at the normalised root. *)
Lemma norm_r_zero (d : nat) t r : (forall (k : K) s, t (map (fmul k) s) = k ^ d * t s) -> t r = 0 -> t (norm_r r) = 0.
Proof.
  intros Hh H. unfold norm_r. cbv zeta. set (s := fsum (map rabs r) / fnat (length r)). clearbody s.
  replace (map (fun x => x / s) r) with (map (fmul (/ s)) r).
  - rewrite Hh, H. ring.
  - apply map_ext. intro x. rewrite fdiv_def. ring.
Qed.

Lemma homogeneous_kept (d : nat) tol o ts t : 0 < tol -> (forall (k : K) s, t (map (fmul k) s) = k ^ d * t s) ->
  In t ts -> (forall r, In r (i_strict o) -> ~ In 0 r -> NoDup r -> t r = 0) -> In t (filter_tangents tol o ts).
Proof.
  intros Ht Hh Hi Hz. apply filter_tangents_in. split; [exact Hi|]. intros r A B C.
  rewrite (norm_r_zero d t r Hh (Hz r A B C)), rabs_0. exact Ht.
Qed.

Lemma init_normal approx tol roots strict ts b g : incl strict roots ->
  forall r, In r (normal_roots (rootsinfo_init approx tol roots strict ts b g)) <->
    In r (i_roots (rootsinfo_init approx tol roots strict ts b g)) /\ ~ In r (i_strict (rootsinfo_init approx tol roots strict ts b g)).
Proof.
  intros H r. rewrite normal_roots_iff. split; [|tauto]. intros [X | [X1 X2]]; [exact X|]. exfalso. apply X2.
  unfold rootsinfo_init in *. cbv zeta in *. cbn [i_roots i_strict] in *. destruct b.
  - apply in_map_iff in X1. destruct X1 as (s & <- & Hs). apply in_map, H, Hs.
  - apply H, X1.
Qed.
End Facts.
