(** * The standard form of a polynomial (triples/utils/expression/form.py:48-174) *)
From Coq Require Import Bool List Arith Lia ZArith Ring Field Permutation.
From Verif Require Import OrdField Base Perm Poly PolyId Coeff Monomials.
Import ListNotations.

(** ** The union-find structure over the monomials *)
(** [ufs] (form.py:97) *)
Definition udict := list (list nat * list nat).
Definition ukeys (u : udict) : list (list nat) := map fst u.
(** [ufs.get(monom, monom)] (form.py:100) *)
Fixpoint uget (u : udict) (m : list nat) : list nat := match u with [] => m | (k, v) :: u' => if meqb m k then v else uget u' m end.
(** [ufs[monom] = w] (form.py:104, 112, 114) *)
Fixpoint uset (u : udict) (m v : list nat) : udict :=
  match u with [] => [(m, v)] | (k, w) :: u' => if meqb m k then (k, v) :: u' else (k, w) :: uset u' m v end.
(** [ufs_find] (form.py:99-105) with path compression; the fuel is never exhausted (see [ufind_spec]) *)
Fixpoint ufind (fuel : nat) (u : udict) (m : list nat) : list nat * udict :=
  match fuel with
  | O => (m, u)
  | S f => let v := uget u m in
           if meqb v m then (m, u) else let (w, u') := ufind f u v in (w, uset u' m w)
  end.
Definition find_root (u : udict) (m : list nat) := ufind (S (length u)) u m.
(** one round of the double loop (form.py:108-114) *)
Definition edge (u : udict) (e : list nat * list nat) : udict :=
  let (f1, u1) := find_root u (fst e) in
  let (f2, u2) := find_root u1 (act 0 (snd e) (fst e)) in
  match lex_cmp f1 f2 with Gt => uset u2 f2 f1 | _ => uset u2 f1 f2 end.
(** the double loop over the terms and the generators (form.py:106-114) *)
Definition forest (gens ms : list (list nat)) : udict := fold_left edge (list_prod ms gens) [].
(** the roots counted by [ufs_size] (form.py:116-118) *)
Fixpoint count_roots (ks : list (list nat)) (u : udict) : list (list nat) * udict :=
  match ks with
  | [] => ([], u)
  | k :: ks' => let (r, u1) := find_root u k in let (rs, u2) := count_roots ks' u1 in (r :: rs, u2)
  end.
(** [ufs_size[r]] (form.py:116-118, 123) *)
Definition ufs_size (rs : list (list nat)) (r : list nat) : nat := length (filter (fun z => meqb z r) rs).
Lemma ufs_size_count rs r : ufs_size rs r = count_occ mon_dec rs r.
Proof.
  unfold ufs_size. induction rs as [|z rs IH]; cbn [filter count_occ]; [reflexivity|]. destruct (mon_dec z r) as [->|N].
  - rewrite meqb_refl. cbn [length]. rewrite IH. reflexivity.
  - destruct (meqb_spec z r); [contradiction|exact IH].
Qed.

Section Model.
Context {K : OrdField}.
Local Open Scope of_scope.
(** the terms that are their own root (form.py:126-128); the order of the printed terms (form.py:136) is not modelled *)
Fixpoint extract (p : poly K) (u : udict) : poly K * udict :=
  match p with
  | [] => ([], u)
  | t :: p' => let (r, u1) := find_root u (fst t) in
               let (ts, u2) := extract p' u1 in ((if meqb r (fst t) then t :: ts else ts), u2)
  end.
(** [get_order] and the division (form.py:120-123, 163-165) *)
Fixpoint divide (order : nat) (rs : list (list nat)) (ts : poly K) (u : udict) : res (poly K) :=
  match ts with
  | [] => Ok []
  | t :: ts' => let (r, u1) := find_root u (fst t) in
                let s := ufs_size rs r in
                if Nat.eqb s 0 then Err ZeroDivisionError
                else match divide order rs ts' u1 with
                     | Ok l => Ok ((fst t, snd t / fnat (order / s)) :: l)
                     | Err x => Err x
                     end
  end.
(** The terms printed by [poly_get_standard_form] (form.py:88-167) with the flag whether they are wrapped
    as s(...), meaning the sum over the group; [order] is [perm.order()], [gens] is [perm.generators],
    [perm.is_trivial] means that the group has one element. The constant polynomials (form.py:80-86),
    printed as their coefficient, and the formation of the text are not modelled. *)
Definition standard_form (n order : nat) (gens : list (list nat)) (p : poly K) : res (bool * poly K) :=
  if is_cyclic n gens p then
    let u := forest gens (keys p) in
    let (rs, u1) := count_roots (ukeys u) u in
    let (ts, u2) := extract p u1 in
    match divide order rs ts u2 with Ok l => Ok (negb (Nat.eqb order 1), l) | Err x => Err x end
  else Ok (false, p).
End Model.

(** ** Facts about the structure *)
Inductive root (u : udict) : list nat -> list nat -> Prop :=
| root_here m : uget u m = m -> root u m m
| root_up m r : uget u m <> m -> root u (uget u m) r -> root u m r.
Definition mono (u : udict) := forall m, lex_ge (uget u m) m.

Lemma root_fun u m r r' : root u m r -> root u m r' -> r = r'.
Proof.
  intro H. revert r'. induction H as [m E|m r N H IH]; intros r' H'; inversion H'; subst; try congruence. apply IH. assumption.
Qed.
Lemma root_fix u m r : root u m r -> uget u r = r.
Proof. induction 1; assumption. Qed.
Lemma root_ge u m r : mono u -> root u m r -> lex_ge r m.
Proof. intros M H. induction H as [m E|m r N H IH]; [apply lex_ge_refl|]. exact (lex_ge_trans _ _ _ IH (M m)). Qed.
Lemma root_neq u m r : mono u -> root u m r -> uget u m <> m -> r <> m.
Proof.
  intros M H N E. subst r. inversion H as [? X|? ? X Y]; subst; [congruence|]. apply N. apply lex_ge_antisym; [apply M|]. exact (root_ge u _ _ M Y).
Qed.
Lemma uget_uset u m v y : uget (uset u m v) y = if meqb y m then v else uget u y.
Proof.
  induction u as [|[k w] u IH]; cbn [uset uget]; [reflexivity|]. destruct (meqb_spec m k) as [->|N]; cbn [uget].
  - destruct (meqb y k); reflexivity.
  - rewrite IH. destruct (meqb_spec y k) as [->|]; [|reflexivity]. destruct (meqb_spec k m); [congruence|reflexivity].
Qed.
Lemma ukeys_uset u m v : ukeys (uset u m v) = if in_dec mon_dec m (ukeys u) then ukeys u else ukeys u ++ [m].
Proof.
  induction u as [|[k w] u IH]; cbn [uset ukeys map fst app]; [destruct (in_dec mon_dec m []) as [[]|]; reflexivity|]. destruct (meqb_spec m k) as [->|N]; cbn [map fst].
  - destruct (in_dec mon_dec k (k :: map fst u)) as [|C]; [reflexivity|]. exfalso. apply C. left. reflexivity.
  - fold (ukeys u). fold (ukeys (uset u m v)). rewrite IH. destruct (in_dec mon_dec m (ukeys u)) as [I|I], (in_dec mon_dec m (k :: ukeys u)) as [J|J]; try reflexivity.
    + exfalso. apply J. right. exact I.
    + exfalso. destruct J as [J|J]; [congruence|exact (I J)].
Qed.
Lemma uget_notin u m : ~ In m (ukeys u) -> uget u m = m.
Proof.
  induction u as [|[k v] u IH]; intro H; cbn [uget]; [reflexivity|]. destruct (meqb_spec m k) as [->|N]; [exfalso; apply H; left; reflexivity|].
  apply IH. intro I. apply H. right. exact I.
Qed.
Lemma uget_key u m : uget u m <> m -> In m (ukeys u).
Proof. intro N. destruct (in_dec mon_dec m (ukeys u)) as [I|I]; [exact I|]. destruct (N (uget_notin u m I)). Qed.

Lemma compress u m w : mono u -> root u m w -> w <> m -> mono (uset u m w) /\ forall y r, root u y r -> root (uset u m w) y r.
Proof.
  intros M Hw N. split.
  - intro y. rewrite uget_uset. destruct (meqb_spec y m) as [->|]; [exact (root_ge u m w M Hw)|apply M].
  - intros y r H. induction H as [y E|y r Ny H IH].
    + apply root_here. rewrite uget_uset. destruct (meqb_spec y m) as [->|]; [|exact E]. exfalso. apply N. exact (root_fun u m w m Hw (root_here u m E)).
    + destruct (mon_dec y m) as [->|Ny'].
      * assert (r = w) as -> by exact (root_fun u m r w (root_up u m r Ny H) Hw).
        apply root_up; rewrite uget_uset, meqb_refl; [exact N|]. apply root_here. rewrite uget_uset. destruct (meqb_spec w m); [contradiction|]. exact (root_fix u m w Hw).
      * apply root_up; rewrite uget_uset; destruct (meqb_spec y m) as [|]; try contradiction; assumption.
Qed.

Definition geb (k m : list nat) : bool := match lex_cmp k m with Lt => false | _ => true end.
Lemma geb_ge k m : geb k m = true <-> lex_ge k m.
Proof. unfold geb, lex_ge. destruct (lex_cmp k m); split; congruence. Qed.
Definition above (u : udict) (m : list nat) : nat := length (filter (fun k => geb k m) (ukeys u)).
Lemma above_length u m : above u m <= length u.
Proof. unfold above, ukeys. rewrite <- (map_length fst u). generalize (map fst u). intro l. induction l as [|k l IH]; cbn [filter length]; [lia|]. destruct (geb k m); cbn [length]; lia. Qed.
Lemma above_lt u m v : In m (ukeys u) -> v <> m -> lex_ge v m -> above u v < above u m.
Proof.
  intros I N H. unfold above. induction (ukeys u) as [|k l IH]; [destruct I|]. cbn [filter].
  assert (Le : forall l0, length (filter (fun k => geb k v) l0) <= length (filter (fun k => geb k m) l0)).
  { intro l0. induction l0 as [|a l0 IH0]; cbn [filter]; [lia|]. destruct (geb a v) eqn:Ea.
    - assert (geb a m = true) as -> by (apply geb_ge; apply geb_ge in Ea; exact (lex_ge_trans _ _ _ Ea H)). cbn [length]. lia.
    - destruct (geb a m); cbn [length]; lia. }
  destruct (mon_dec k m) as [->|Nk].
  - assert (geb m m = true) as -> by (apply geb_ge, lex_ge_refl). assert (geb m v = false) as ->.
    { destruct (geb m v) eqn:E; [|reflexivity]. apply geb_ge in E. destruct (N (lex_ge_antisym _ _ H E)). }
    cbn [length]. specialize (Le l). lia.
  - assert (Il : In m l) by (destruct I; [congruence|assumption]). specialize (IH Il). destruct (geb k v) eqn:Ea.
    + assert (geb k m = true) as -> by (apply geb_ge; apply geb_ge in Ea; exact (lex_ge_trans _ _ _ Ea H)). cbn [length]. lia.
    + destruct (geb k m); cbn [length]; lia.
Qed.
Lemma ufind_spec fuel u m : mono u -> above u m < fuel -> exists r u', ufind fuel u m = (r, u') /\ root u m r /\ mono u' /\ ukeys u' = ukeys u /\ (forall y s, root u y s -> root u' y s).
Proof.
  revert m. induction fuel as [|f IH]; intros m M L; [lia|]. cbn [ufind]. destruct (meqb_spec (uget u m) m) as [E|N].
  - exists m, u. split; [reflexivity|]. split; [apply root_here, E|]. split; [exact M|]. split; [reflexivity|]. intros y s H. exact H.
  - destruct (IH (uget u m) M) as (r & u' & E & R & M' & Ek & P).
    { pose proof (above_lt u m (uget u m) (uget_key u m N) N (M m)). lia. }
    rewrite E. exists r, (uset u' m r). assert (Rm : root u m r) by (apply root_up; assumption).
    destruct (compress u' m r M' (P m r Rm) (root_neq u m r M Rm N)) as [M2 P2]. split; [reflexivity|]. split; [exact Rm|]. split; [exact M2|]. split.
    + rewrite ukeys_uset, Ek. destruct (in_dec mon_dec m (ukeys u)) as [|C]; [reflexivity|]. destruct (C (uget_key u m N)).
    + intros y s H. apply P2, P, H.
Qed.
Lemma find_root_spec u m : mono u -> exists r u', find_root u m = (r, u') /\ root u m r /\ mono u' /\ ukeys u' = ukeys u /\ (forall y s, root u y s -> root u' y s).
Proof. intro M. apply ufind_spec; [exact M|]. pose proof (above_length u m). lia. Qed.
(** the root as a function *)
Definition rt (u : udict) (m : list nat) : list nat := fst (find_root u m).
Lemma rt_root u m : mono u -> root u m (rt u m).
Proof. intro M. destruct (find_root_spec u m M) as (r & u' & E & R & _). unfold rt. rewrite E. exact R. Qed.
Lemma rt_eq u m r : mono u -> root u m r -> rt u m = r.
Proof. intros M H. exact (root_fun u m _ _ (rt_root u m M) H). Qed.
Lemma find_rt u m : mono u -> exists u', find_root u m = (rt u m, u') /\ mono u' /\ ukeys u' = ukeys u /\ (forall y, rt u' y = rt u y).
Proof.
  intro M. destruct (find_root_spec u m M) as (r & u' & E & R & M' & Ek & P). exists u'. unfold rt at 1. rewrite E. split; [reflexivity|]. split; [exact M'|]. split; [exact Ek|].
  intro y. apply rt_eq; [exact M'|]. apply P, rt_root, M.
Qed.
Lemma rt_ge u m : mono u -> lex_ge (rt u m) m.
Proof. intro M. exact (root_ge u m _ M (rt_root u m M)). Qed.
Lemma rt_idem u m : mono u -> rt u (rt u m) = rt u m.
Proof. intro M. apply rt_eq; [exact M|]. apply root_here. exact (root_fix u m _ (rt_root u m M)). Qed.
Lemma rt_key u m : mono u -> rt u m <> m -> In m (ukeys u).
Proof. intros M N. pose proof (rt_root u m M) as R. inversion R as [? E|? ? E _]; subst; [congruence|]. apply uget_key, E. Qed.

Lemma union_spec u a b : mono u -> uget u a = a -> uget u b = b -> lex_ge b a ->
  mono (uset u a b) /\ (forall y, rt (uset u a b) y = if meqb (rt u y) a then b else rt u y).
Proof.
  intros M Ea Eb L. assert (M' : mono (uset u a b)).
  { intro y. rewrite uget_uset. destruct (meqb_spec y a) as [->|]; [exact L|apply M]. }
  split; [exact M'|].
  assert (Rb : root (uset u a b) b b). { apply root_here. rewrite uget_uset. destruct (meqb_spec b a); [reflexivity|exact Eb]. }
  assert (H : forall y r, root u y r -> root (uset u a b) y (if meqb r a then b else r)).
  { intros y r H. induction H as [y E|y r Ny H IH].
    - destruct (meqb_spec y a) as [->|N]; [|apply root_here; rewrite uget_uset; destruct (meqb_spec y a); [contradiction|exact E]].
      destruct (mon_dec b a) as [->|N]; [exact Rb|]. apply root_up; rewrite uget_uset, meqb_refl; [exact N|exact Rb].
    - assert (y <> a) by (intros ->; contradiction). apply root_up; rewrite uget_uset; destruct (meqb_spec y a); try contradiction; assumption. }
  intro y. apply rt_eq; [exact M'|]. apply H, rt_root, M.
Qed.
Lemma lex_ge_of f1 f2 : match lex_cmp f1 f2 with Gt => lex_ge f1 f2 | _ => lex_ge f2 f1 end.
Proof. destruct (lex_cmp f1 f2) eqn:E; unfold lex_ge; rewrite ?E, ?(lex_cmp_sym f1 f2), ?E; cbn; congruence. Qed.
(** the effect of one round: the roots [a <= b] of the two monomials *)
Lemma edge_spec u e : mono u -> exists a b, ((a = rt u (fst e) /\ b = rt u (act 0 (snd e) (fst e))) \/ (b = rt u (fst e) /\ a = rt u (act 0 (snd e) (fst e)))) /\
  mono (edge u e) /\ (forall y, rt (edge u e) y = if meqb (rt u y) a then b else rt u y) /\ ukeys (edge u e) = (if in_dec mon_dec a (ukeys u) then ukeys u else ukeys u ++ [a]).
Proof.
  intro M. unfold edge. destruct (find_rt u (fst e) M) as (u1 & E1 & M1 & K1 & R1). rewrite E1.
  destruct (find_rt u1 (act 0 (snd e) (fst e)) M1) as (u2 & E2 & M2 & K2 & R2). rewrite E2, R1.
  set (f1 := rt u (fst e)). set (f2 := rt u (act 0 (snd e) (fst e))).
  assert (Rf : forall y, rt u2 y = rt u y) by (intro y; rewrite R2, R1; reflexivity).
  assert (Fx : forall y, rt u (rt u y) = rt u y -> uget u2 (rt u y) = rt u y).
  { intros y H. apply (root_fix u2 y). rewrite <- Rf. apply rt_root, M2. }
  assert (Fa : uget u2 f1 = f1) by (apply Fx, rt_idem, M). assert (Fb : uget u2 f2 = f2) by (apply Fx, rt_idem, M).
  pose proof (lex_ge_of f1 f2) as L. destruct (lex_cmp f1 f2).
  1,2: destruct (union_spec u2 f1 f2 M2 Fa Fb L) as [U1 U2]; exists f1, f2; split; [left; split; reflexivity|]; split; [exact U1|]; split; [intro y; rewrite U2, Rf; reflexivity|];
    rewrite ukeys_uset, K2, K1; reflexivity.
  destruct (union_spec u2 f2 f1 M2 Fb Fa L) as [U1 U2]; exists f2, f1; split; [right; split; reflexivity|]; split; [exact U1|]; split; [intro y; rewrite U2, Rf; reflexivity|].
  rewrite ukeys_uset, K2, K1; reflexivity.
Qed.

Lemma last_split {A} (P : A -> bool) (l : list A) : existsb P l = true -> exists l1 a l2, l = l1 ++ a :: l2 /\ P a = true /\ forall b, In b l2 -> P b = false.
Proof.
  induction l as [|x l IH]; cbn [existsb]; [discriminate|]. intro H. destruct (existsb P l) eqn:E.
  - destruct (IH eq_refl) as (l1 & a & l2 & -> & Ha & H2). exists (x :: l1), a, l2. split; [reflexivity|]. split; assumption.
  - exists [], x, l. split; [reflexivity|]. split; [destruct (P x); [reflexivity|discriminate]|].
    intros b Hb. destruct (P b) eqn:Eb; [|reflexivity]. assert (existsb P l = true) by (apply existsb_exists; exists b; split; assumption). congruence.
Qed.

Lemma nodup_map_in {A B} (f : A -> B) l : (forall x y, In x l -> In y l -> f x = f y -> x = y) -> NoDup l -> NoDup (map f l).
Proof.
  induction l as [|a l IH]; intros H N; cbn [map]; constructor; inversion N; subst.
  - intro I. apply in_map_iff in I. destruct I as (b & E & Ib). assert (b = a) as -> by (apply H; [right; exact Ib|left; reflexivity|exact E]). contradiction.
  - apply IH; [|assumption]. intros x y Hx Hy. apply H; right; assumption.
Qed.

Section Orbits.
Variable n : nat.
Variable G gens M : list (list nat).
Hypothesis HG : is_group n G.
Hypothesis gens_G : forall g, In g gens -> In g G.
Hypothesis G_gens : forall g, In g G -> generated n gens g.
Hypothesis gens_ne : gens <> [].
Hypothesis M_len : forall m, In m M -> length m = n.
Hypothesis M_nodup : NoDup M.
Hypothesis M_closed : forall g m, In g G -> In m M -> In (act 0 g m) M.

Lemma orbit_sym x y : length x = n -> In y (permute G x) -> In x (permute G y).
Proof.
  intros Hx H. apply in_map_iff in H. destruct H as (g & <- & Hg). apply (orbit_same n G HG x g Hx Hg), (permute_self n G HG x Hx).
Qed.
Lemma orbit_trans x y z : length x = n -> In y (permute G x) -> In z (permute G y) -> In z (permute G x).
Proof. intros Hx H. apply in_map_iff in H. destruct H as (g & <- & Hg). apply (orbit_same n G HG x g Hx Hg). Qed.
Lemma orbit_M x y : In x M -> In y (permute G x) -> In y M.
Proof. intros Hx H. apply in_map_iff in H. destruct H as (g & <- & Hg). apply M_closed; assumption. Qed.

Definition valid (e : list nat * list nat) := In (fst e) M /\ In (snd e) gens.
Record inv (done : list (list nat * list nat)) (u : udict) : Prop := {
  i_mono : mono u;
  i_nodup : NoDup (ukeys u);
  i_orb : forall y, length y = n -> In (rt u y) (permute G y);
  i_done : forall e, In e done -> rt u (fst e) = rt u (act 0 (snd e) (fst e));
  i_keys : incl (ukeys u) M }.

Lemma edge_inv done u e : inv done u -> valid e -> inv (done ++ [e]) (edge u e) /\ incl (ukeys u) (ukeys (edge u e)) /\
  (forall y, length y = n -> ~ In (fst e) (permute G y) -> rt (edge u e) y = rt u y) /\
  (rt u (fst e) = rt u (act 0 (snd e) (fst e)) -> In (rt (edge u e) (fst e)) (ukeys (edge u e))).
Proof.
  intros I [V1 V2]. destruct I as [i1 i2 i3 i4 i5]. destruct (edge_spec u e i1) as (a & b & Hab & Me & Re & Ke).
  assert (L1 : length (fst e) = n) by (apply M_len, V1). assert (Vg : In (snd e) G) by (apply gens_G, V2).
  assert (V2' : In (act 0 (snd e) (fst e)) M) by (apply M_closed; assumption). assert (L2 : length (act 0 (snd e) (fst e)) = n) by (apply M_len, V2').
  assert (O1 : In (rt u (fst e)) (permute G (fst e))) by (apply i3, L1).
  assert (O2 : In (rt u (act 0 (snd e) (fst e))) (permute G (fst e))) by (apply (orbit_same n G HG (fst e) (snd e) L1 Vg), i3, L2).
  assert (Oa : In a (permute G (fst e))) by (destruct Hab as [[-> _]|[_ ->]]; assumption).
  assert (Ob : In b (permute G (fst e))) by (destruct Hab as [[_ ->]|[-> _]]; assumption).
  assert (Ed : rt (edge u e) (fst e) = b /\ rt (edge u e) (act 0 (snd e) (fst e)) = b).
  { rewrite !Re. destruct Hab as [[-> ->]|[-> ->]]; rewrite meqb_refl; (split; [|try reflexivity]); try reflexivity; match goal with |- (if ?c then _ else _) = _ => destruct c; reflexivity end. }
  split; [|split; [|split]].
  - constructor.
    + exact Me.
    + rewrite Ke. destruct (in_dec mon_dec a (ukeys u)) as [|N]; [exact i2|]. apply (Permutation_NoDup (Permutation_cons_append (ukeys u) a)). constructor; assumption.
    + intros y Hy. rewrite Re. destruct (meqb_spec (rt u y) a) as [E|]; [|apply i3, Hy].
      assert (Oy : In a (permute G y)) by (rewrite <- E; apply i3, Hy).
      apply (orbit_trans y a b Hy Oy). apply (orbit_trans a (fst e) b); [exact (permute_length n G HG y a Oy)| |exact Ob]. apply orbit_sym; assumption.
    + intros e' H. apply in_app_or in H. destruct H as [H|[<-|[]]]; [|destruct Ed as [-> ->]; reflexivity]. rewrite !Re, (i4 e' H). reflexivity.
    + rewrite Ke. destruct (in_dec mon_dec a (ukeys u)); [exact i5|]. intros k Hk. apply in_app_or in Hk. destruct Hk as [Hk|[<-|[]]]; [apply i5, Hk|]. exact (orbit_M (fst e) a V1 Oa).
  - rewrite Ke. destruct (in_dec mon_dec a (ukeys u)); [apply incl_refl|apply incl_appl, incl_refl].
  - intros y Hy N. rewrite Re. destruct (meqb_spec (rt u y) a) as [E|]; [|reflexivity]. exfalso. apply N.
    apply (orbit_trans y a (fst e) Hy); [rewrite <- E; apply i3, Hy|]. apply orbit_sym; assumption.
  - intro Es. destruct Ed as [-> _]. assert (b = a) as -> by (destruct Hab as [[-> ->]|[-> ->]]; congruence). rewrite Ke.
    destruct (in_dec mon_dec a (ukeys u)) as [Ia|Ia]; [exact Ia|apply in_or_app; right; left; reflexivity].
Qed.
Lemma fold_inv E : forall done u, inv done u -> (forall e, In e E -> valid e) -> inv (done ++ E) (fold_left edge E u) /\ incl (ukeys u) (ukeys (fold_left edge E u)) /\
  (forall y, length y = n -> (forall e, In e E -> ~ In (fst e) (permute G y)) -> rt (fold_left edge E u) y = rt u y).
Proof.
  induction E as [|e E IH]; intros done u I V; cbn [fold_left].
  - rewrite app_nil_r. split; [exact I|]. split; [apply incl_refl|]. intros y _ _. reflexivity.
  - destruct (edge_inv done u e I (V e (or_introl eq_refl))) as (I1 & K1 & R1 & _).
    destruct (IH _ _ I1 (fun e' H => V e' (or_intror H))) as (I2 & K2 & R2). rewrite <- app_assoc in I2. split; [exact I2|]. split; [exact (incl_tran K1 K2)|].
    intros y Hy N. rewrite R2 by (exact Hy || (intros e' H; apply N; right; exact H)). apply R1; [exact Hy|]. apply N. left. reflexivity.
Qed.
Lemma inv_nil : inv [] [].
Proof.
  constructor.
  - intro m. apply lex_ge_refl.
  - constructor.
  - intros y Hy. unfold rt, find_root. cbn [ufind length uget]. rewrite meqb_refl. apply (permute_self n G HG y Hy).
  - intros e [].
  - intros k [].
Qed.
Definition edges := list_prod M gens.
Lemma edges_valid e : In e edges -> valid e.
Proof. destruct e as [m p]. unfold edges, valid. rewrite in_prod_iff. cbn [fst snd]. tauto. Qed.
Definition U := forest gens M.
Lemma U_inv : inv edges U.
Proof. destruct (fold_inv edges [] [] inv_nil edges_valid) as (I & _). exact I. Qed.
Lemma generated_G g : generated n gens g -> In g G.
Proof.
  induction 1 as [g H| |g h _ IHg _ IHh|g _ IH]; [apply gens_G, H|apply (g_id n G HG)|apply (g_mul n G HG); assumption|apply (pinv_in n G g HG IH)].
Qed.
(** the root of a monomial does not depend on the member of the orbit *)
Lemma U_const g y : In g G -> In y M -> rt U (act 0 g y) = rt U y.
Proof.
  intro Hg. apply G_gens in Hg. revert y. induction Hg as [g H| |g h Hg IHg Hh IHh|g Hg IH]; intros y Hy.
  - symmetry. apply (i_done _ _ U_inv (y, g)). unfold edges. apply in_prod; assumption.
  - rewrite (act_id 0 n y (M_len y Hy)). reflexivity.
  - pose proof (generated_G g Hg) as Gg. pose proof (generated_G h Hh) as Gh.
    rewrite <- (act_comp 0 n g h y (g_perm n G HG g Gg) (is_perm_length n h (g_perm n G HG h Gh))). rewrite IHg by (apply M_closed; assumption). apply IHh, Hy.
  - pose proof (generated_G g Hg) as Gg. pose proof (pinv_in n G g HG Gg) as Gi. rewrite <- (IH (act 0 (pinv g) y)) by (apply M_closed; assumption).
    rewrite (act_pinv_r n g y (g_perm n G HG g Gg) (M_len y Hy)). reflexivity.
Qed.
Lemma U_standard y : In y M -> rt U y = standard_monom G y.
Proof.
  intro Hy. pose proof (M_len y Hy) as Ly. pose proof (i_mono _ _ U_inv) as Mo. apply lex_ge_antisym.
  - assert (Hs : In (standard_monom G y) (permute G y)) by apply (standard_in_orbit n G HG). apply in_map_iff in Hs. destruct Hs as (g & <- & Hg).
    rewrite <- (U_const g y Hg Hy). apply rt_ge, Mo.
  - apply lex_max_ge, (i_orb _ _ U_inv), Ly.
Qed.
Lemma act_injective g x y : In g G -> length x = n -> length y = n -> act 0 g x = act 0 g y -> x = y.
Proof.
  intros Hg Hx Hy E. pose proof (g_perm n G HG g Hg) as P. rewrite <- (act_pinv_l n g x P Hx), <- (act_pinv_l n g y P Hy), E. reflexivity.
Qed.
(** the root of an orbit is a key: the last round of the orbit closes a cycle *)
Lemma U_root_key y : In y M -> In (rt U y) (ukeys U).
Proof.
  intro Hy. pose proof (M_len y Hy) as Ly.
  destruct (last_split (fun e => if in_dec mon_dec (fst e) (permute G y) then true else false) edges) as (E1 & e & E2 & EE & Pe & P2).
  { apply existsb_exists. destruct gens as [|g0 gs] eqn:Eg; [congruence|]. exists (y, g0). split.
    - unfold edges. apply in_prod; [exact Hy|]. rewrite Eg. left. reflexivity.
    - cbn [fst]. destruct (in_dec mon_dec y (permute G y)) as [|C]; [reflexivity|]. destruct C. apply (permute_self n G HG y Ly). }
  assert (Oe : In (fst e) (permute G y)) by (destruct (in_dec mon_dec (fst e) (permute G y)); [assumption|discriminate]).
  assert (V : forall e', In e' (E1 ++ e :: E2) -> valid e') by (rewrite <- EE; exact edges_valid).
  assert (Ve : valid e) by (apply V, in_or_app; right; left; reflexivity).
  destruct (fold_inv E1 [] [] inv_nil (fun e' H => V e' (in_or_app E1 (e :: E2) e' (or_introl H)))) as (I1 & _). cbn [app] in I1. set (u1 := fold_left edge E1 []) in *.
  destruct (edge_inv E1 u1 e I1 Ve) as (I2 & _ & _ & Key).
  destruct (fold_inv E2 _ _ I2 (fun e' H => V e' (in_or_app E1 (e :: E2) e' (or_intror (or_intror H))))) as (I3 & K3 & R3).
  assert (EU : fold_left edge E2 (edge u1 e) = U). { unfold U, forest. fold edges. rewrite EE, fold_left_app. reflexivity. }
  rewrite EU in *. clear EU.
  assert (Ev : In (snd e) G) by (apply gens_G, Ve).
  assert (Le : length (fst e) = n) by (apply M_len, Ve).
  assert (Done : forall z, In z M -> In z (permute G y) -> z <> fst e -> rt u1 (act 0 (snd e) z) = rt u1 z).
  { intros z Hz Oz N. symmetry. assert (Iz : In (z, snd e) edges) by (unfold edges; apply in_prod; [exact Hz|apply Ve]).
    rewrite EE in Iz. apply in_app_or in Iz. destruct Iz as [Iz|[Iz|Iz]].
    - exact (i_done _ _ I1 (z, snd e) Iz).
    - exfalso. apply N. rewrite Iz. reflexivity.
    - pose proof (P2 _ Iz) as C. cbn [fst] in C. destruct (in_dec mon_dec z (permute G y)); [discriminate|contradiction]. }
  assert (Cyc : rt u1 (fst e) = rt u1 (act 0 (snd e) (fst e))).
  { set (w := rt u1 (act 0 (snd e) (fst e))).
    set (S0 := filter (fun z => if in_dec mon_dec z (permute G y) then meqb (rt u1 z) w else false) M).
    destruct (mon_dec (rt u1 (fst e)) w) as [D|N]; [exact D|]. exfalso.
    assert (Sin : forall z, In z S0 <-> In z M /\ In z (permute G y) /\ rt u1 z = w).
    { intro z. unfold S0. rewrite filter_In. destruct (in_dec mon_dec z (permute G y)) as [J|J].
      - rewrite meqb_eq. tauto.
      - split; [intros [_ C]; discriminate|tauto]. }
    assert (ND : NoDup S0) by (apply NoDup_filter, M_nodup).
    assert (NDm : NoDup (map (act 0 (snd e)) S0)).
    { apply nodup_map_in; [|exact ND]. intros p1 p2 H1 H2. apply act_injective; [exact Ev| |]; apply M_len; [apply (Sin p1), H1|apply (Sin p2), H2]. }
    assert (Inc : incl (map (act 0 (snd e)) S0) S0).
    { intros z Hz. apply in_map_iff in Hz. destruct Hz as (q & <- & Hq). apply Sin in Hq. destruct Hq as (Q1 & Q2 & Q3). apply Sin. split; [apply M_closed; assumption|].
      split; [apply (orbit_trans y q _ Ly Q2), in_map_iff; exists (snd e); split; [reflexivity|exact Ev]|]. rewrite Done; [exact Q3|exact Q1|exact Q2|]. intros ->. contradiction. }
    assert (Back : incl S0 (map (act 0 (snd e)) S0)) by (apply NoDup_length_incl; [exact NDm|rewrite map_length; lia|exact Inc]).
    assert (Iw : In (act 0 (snd e) (fst e)) S0).
    { apply Sin. split; [apply M_closed; [exact Ev|apply Ve]|]. split; [|reflexivity]. apply (orbit_trans y (fst e) _ Ly Oe), in_map_iff. exists (snd e). split; [reflexivity|exact Ev]. }
    apply Back, in_map_iff in Iw. destruct Iw as (q & Eq & Hq). apply Sin in Hq. destruct Hq as (Q1 & Q2 & Q3).
    assert (q = fst e) as -> by (apply (act_injective (snd e) q (fst e) Ev (M_len q Q1) Le), Eq). contradiction. }
  assert (Ee : rt U (fst e) = rt U y). { apply in_map_iff in Oe. destruct Oe as (g & <- & Hg). apply U_const; assumption. }
  rewrite <- Ee. rewrite R3; [apply K3, Key, Cyc|exact Le|]. intros e' He' C. pose proof (P2 e' He') as Pf. cbv beta in Pf.
  destruct (in_dec mon_dec (fst e') (permute G y)) as [|N]; [discriminate|]. apply N. exact (orbit_trans y (fst e) (fst e') Ly Oe C).
Qed.
Lemma U_key y : In y M -> In y (ukeys U).
Proof.
  intro Hy. destruct (mon_dec (rt U y) y) as [E|N]; [|apply (rt_key U y (i_mono _ _ U_inv) N)]. rewrite <- E. apply U_root_key, Hy.
Qed.
(** the structure has exactly the monomials of the polynomial as keys *)
Lemma U_keys : Permutation (ukeys U) M.
Proof.
  apply NoDup_Permutation; [apply (i_nodup _ _ U_inv)|exact M_nodup|]. intro y. split; [apply (i_keys _ _ U_inv)|apply U_key].
Qed.
(** [ufs_size] of a root is the number of distinct images *)
Lemma count_occ_orbit y : In y M -> count_occ mon_dec (map (rt U) (ukeys U)) (standard_monom G y) = length (nodup mon_dec (permute G y)).
Proof.
  intro Hy. pose proof (M_len y Hy) as Ly.
  transitivity (length (filter (fun z => meqb (rt U z) (standard_monom G y)) (ukeys U))).
  - generalize (ukeys U). intro l. induction l as [|k l IH]; cbn [map count_occ filter]; [reflexivity|]. destruct (mon_dec (rt U k) (standard_monom G y)) as [E|N].
    + rewrite E, meqb_refl. cbn [length]. rewrite IH. reflexivity.
    + destruct (meqb_spec (rt U k) (standard_monom G y)); [contradiction|exact IH].
  - apply Permutation_length, NoDup_Permutation; [apply NoDup_filter, (i_nodup _ _ U_inv)|apply NoDup_nodup|].
    intro z. rewrite filter_In, meqb_eq, nodup_In. split.
    + intros [Iz Ez]. pose proof (i_keys _ _ U_inv z Iz) as Mz. rewrite (U_standard z Mz) in Ez. apply (standard_orbit_iff n G HG y z Ly (M_len z Mz)), Ez.
    + intro Oz. pose proof (orbit_M y z Hy Oz) as Mz. split; [apply U_key, Mz|]. rewrite (U_standard z Mz). apply (standard_orbit_iff n G HG y z Ly (M_len z Mz)), Oz.
Qed.
End Orbits.
