(** * One polynomial per orbit: [permute_vec] (triples/utils/monomials.py:183-201) and
    [clear_polys_by_symmetry] (triples/core/shared.py:190-211) *)
From Coq Require Import Bool List Arith Lia Permutation Ring Field.
From Verif Require Import OrdField Base Perm Poly PolyId Partitions Monomials MonomialsLemmas Shared.
Import ListNotations.

Section ClearSym.
Variable K : OrdField.
Local Open Scope of_scope.
Add Field Kf_cs : (F_field K).
Variable n : nat.
Variable G : list (list nat).
Variable hom : bool.
(** [max] of a nonempty list of tuples of numbers (shared.py:206) *)
Variable pick : list (list K) -> list K.

(** all monomials: those of [self.base()], the manager with the trivial group *)
Definition base_monoms (d : nat) : list (list nat) := inv_monoms [pid n] n hom d.

(** one column: the entries of [vec] written at the positions of the permuted monomials
    (monomials.py:196-200) *)
Definition permute_col (g : list nat) (vec : list K) (d : nat) : list K :=
  fold_left (fun arr t => match index_of (fst t) (base_monoms d) with
                          | Some v => lset arr v (snd t)
                          | None => arr end)
    (map (fun vm => (act 0%nat g (snd vm), fst vm)) (combine vec (base_monoms d)))
    (map (fun _ => 0) vec).
(** [permute_vec]: a column per element of the group; a permuted monomial that is not listed is a
    [KeyError] *)
Definition permute_vec (vec : list K) (d : nat) : res (list (list K)) :=
  if forallb (fun vm => forallb (fun g => match index_of (act 0%nat g (snd vm)) (base_monoms d) with Some _ => true | None => false end) G)
             (combine vec (base_monoms d))
  then Ok (map (fun g => permute_col g vec d) G) else Err KeyError.

(** [_get_representation] (shared.py:198-206) *)
Definition representation (p : poly K) : res (list K) :=
  match arraylize [pid n] n hom false n p with
  | Err r => Err r
  | Ok vec => match permute_vec vec (total_degree p) with Err r => Err r | Ok cols => Ok (pick cols) end
  end.
Fixpoint veqb (a b : list K) : bool :=
  match a, b with [], [] => true | x :: a', y :: b' => feqb x y && veqb a' b' | _, _ => false end.
(** assignment in a dictionary: a key keeps its place, the last value is kept *)
Fixpoint kput {V} (k : list K) (v : V) (d : list (list K * V)) : list (list K * V) :=
  match d with
  | [] => [(k, v)]
  | (k', v') :: d' => if veqb k' k then (k', v) :: d' else (k', v') :: kput k v d'
  end.
Fixpoint clear_loop (polys : list (poly K)) (d : list (list K * poly K)) : res (list (list K * poly K)) :=
  match polys with
  | [] => Ok d
  | p :: polys' => match representation p with Err r => Err r | Ok k => clear_loop polys' (kput k p d) end
  end.
(** [clear_polys_by_symmetry]; [trivial] is [symmetry.is_trivial]. Tuples (polynomial, expression)
    are represented by their polynomial. *)
Definition clear_polys (trivial : bool) (polys : list (poly K)) : res (list (poly K)) :=
  if trivial then Ok polys
  else match clear_loop polys [] with Err r => Err r | Ok d => Ok (map snd d) end.

(** *** Facts *)
Hypothesis HG : is_group n G.

Lemma pid_group : is_group n [pid n].
Proof.
  constructor.
  - intros p [<-|[]]. apply Permutation_refl.
  - constructor; [intros []|constructor].
  - left. reflexivity.
  - intros p q [<-|[]] [<-|[]]. left. symmetry. apply (act_id 0%nat n). unfold pid. apply seq_length.
  - intros p [<-|[]]. exists (pid n). split; [left; reflexivity|].
    split; apply (act_id 0%nat n); unfold pid; apply seq_length.
Qed.
Lemma base_monoms_in d m : In m (base_monoms d) <-> length m = n /\ (if hom then list_sum m = d else (list_sum m <= d)%nat).
Proof.
  unfold base_monoms. rewrite inv_monoms_in, generate_partitions_in. split; [intros [H _]; exact H|].
  intro H. split; [exact H|]. unfold standard_monom, permute. cbn [map lex_max fold_left]. apply act_id, H.
Qed.
Lemma base_monoms_nodup d : NoDup (base_monoms d).
Proof. apply inv_monoms_NoDup. Qed.
Lemma list_sum_perm l l' : Permutation l l' -> list_sum l = list_sum l'.
Proof. unfold list_sum. induction 1; cbn [fold_right]; lia. Qed.
Lemma act_sum g m : is_perm n g -> length m = n -> list_sum (act 0%nat g m) = list_sum m.
Proof. intros Hg Hm. apply list_sum_perm. apply (act_perm 0%nat n); assumption. Qed.
Lemma base_monoms_act d g m : is_perm n g -> In m (base_monoms d) -> In (act 0%nat g m) (base_monoms d).
Proof.
  intros Hg H. apply base_monoms_in in H. apply base_monoms_in. destruct H as [Hl Hs].
  rewrite act_length, (is_perm_length n g Hg), (act_sum g m Hg Hl). split; [reflexivity|exact Hs].
Qed.

Lemma combine_snd_eq {A B} (l : list A) (l' : list B) : length l = length l' -> map snd (combine l l') = l'.
Proof. revert l'. induction l as [|a l IH]; intros [|b l'] H; try discriminate; [reflexivity|]. cbn. rewrite IH by (cbn in H; lia). reflexivity. Qed.
Lemma dget_in_nodup (d : poly K) k c : NoDup (keys d) -> In (k, c) d -> dget d k = Some c.
Proof.
  induction d as [|[k' c'] d IH]; intros Hnd Hin; [destruct Hin|]. cbn [dget]. cbn in Hnd. inversion Hnd as [|? ? Hk Hnd']; subst.
  destruct Hin as [H|H].
  - injection H as -> ->. destruct (meqb_spec k k); [reflexivity|congruence].
  - destruct (meqb_spec k k') as [->|_]; [|apply IH; assumption]. exfalso. apply Hk. apply (in_map fst) in H. exact H.
Qed.

Lemma permute_col_spec g p d : is_perm n g -> wf n p ->
  permute_col g (map (coef p) (base_monoms d)) d = map (coef (reorder K g p)) (base_monoms d).
Proof.
  intros Hg Hp. unfold permute_col. set (M := base_monoms d).
  set (D := map (fun vm : K * list nat => (act 0%nat g (snd vm), fst vm)) (combine (map (coef p) M) M)).
  assert (HD : D = map (fun m => (act 0%nat g m, coef p m)) M).
  { unfold D. clear D. induction M as [|m M IH]; [reflexivity|]. cbn [map combine fst snd]. rewrite IH. reflexivity. }
  assert (HM : forall m, In m M -> length m = n) by (intros m Hm; apply base_monoms_in in Hm; apply Hm).
  assert (HN : NoDup (keys D)).
  { rewrite HD. unfold keys. rewrite map_map. cbn [fst]. apply (NoDup_map_inv (act 0%nat (pinv g))). rewrite map_map.
    rewrite map_ext_in with (g := fun m => m); [rewrite map_id; apply base_monoms_nodup|].
    intros m Hm. apply (act_pinv_l n); [exact Hg|apply HM, Hm]. }
  apply list_vget_ext.
  - rewrite arr_fold_length, !map_length. reflexivity.
  - intros i Hi. rewrite arr_fold_length, !map_length in Hi.
    destruct (arr_fold K M D (base_monoms_nodup d) HN (map (fun _ => 0) (map (coef p) M)) ltac:(rewrite !map_length; reflexivity) i Hi) as [_ H].
    cbn zeta in H. rewrite H. rewrite (vget_map K _ []) by exact Hi.
    set (m := nth i M []). assert (Hm : In m M) by (apply nth_In; exact Hi).
    assert (Hm' : In (act 0%nat (pinv g) m) M) by (apply base_monoms_act; [apply pinv_is_perm, Hg|exact Hm]).
    rewrite (dget_in_nodup D m (coef p (act 0%nat (pinv g) m)) HN).
    + rewrite <- (reorder_coef K n g p _ Hg Hp (HM _ Hm')). rewrite (act_pinv_r n g m Hg (HM _ Hm)). reflexivity.
    + rewrite HD. apply in_map_iff. exists (act 0%nat (pinv g) m). split; [|exact Hm'].
      rewrite (act_pinv_r n g m Hg (HM _ Hm)). reflexivity.
Qed.
Lemma permute_vec_spec p d : wf n p ->
  permute_vec (map (coef p) (base_monoms d)) d = Ok (map (fun g => map (coef (reorder K g p)) (base_monoms d)) G).
Proof.
  intro Hp. unfold permute_vec.
  assert (C : forallb (fun vm : K * list nat => forallb (fun g => match index_of (act 0%nat g (snd vm)) (base_monoms d) with Some _ => true | None => false end) G)
             (combine (map (coef p) (base_monoms d)) (base_monoms d)) = true).
  { apply forallb_forall. intros vm Hvm. apply forallb_forall. intros g Hg.
    destruct (index_of _ _) eqn:E; [reflexivity|]. exfalso. apply index_of_none in E. apply E.
    apply base_monoms_act; [apply (g_perm n G HG), Hg|]. destruct vm as [v m]. apply in_combine_r in Hvm. exact Hvm. }
  rewrite C. f_equal. apply map_ext_in. intros g Hg. apply permute_col_spec; [apply (g_perm n G HG), Hg|exact Hp].
Qed.
Lemma representation_spec p : wf n p ->
  representation p = Ok (pick (map (fun g => map (coef (reorder K g p)) (base_monoms (total_degree p))) G)).
Proof.
  intro Hp. unfold representation. rewrite (arraylize_spec K n [pid n] hom p (proj1 Hp)).
  fold (base_monoms (total_degree p)). rewrite (permute_vec_spec p _ Hp). reflexivity.
Qed.

Lemma veqb_eq a b : veqb a b = true <-> a = b.
Proof.
  revert b. induction a as [|x a IH]; intros [|y b]; cbn [veqb]; split; intro H; try discriminate; try reflexivity.
  - rewrite andb_true_iff in H. destruct H as [H1 H2]. apply feqb_eq in H1. apply IH in H2. subst. reflexivity.
  - injection H as -> ->. rewrite andb_true_iff. split; [apply feqb_eq; reflexivity|apply IH; reflexivity].
Qed.

(** lengths tell the degrees apart *)
Lemma bump_monoms d e : (2 <= n)%nat -> (d < e)%nat -> (length (base_monoms d) < length (base_monoms e))%nat.
Proof.
  intros Hn Hde. set (bump := fun m : list nat => match m with [] => [] | a :: m' => (a + (e - d))%nat :: m' end).
  set (extra := (0%nat :: repeat 0%nat (n - 2)) ++ [e]).
  assert (Hs0 : forall k, list_sum (repeat 0%nat k) = 0%nat) by (induction k as [|k IH]; [reflexivity|exact IH]).
  assert (H : (length (extra :: map bump (base_monoms d)) <= length (base_monoms e))%nat).
  { apply NoDup_incl_length.
    - constructor.
      + intro H. apply in_map_iff in H. destruct H as [m [H Hm]]. apply base_monoms_in in Hm. destruct m as [|a m]; [cbn in Hm; lia|].
        cbn in H. injection H as H _. lia.
      + apply FinFun.Injective_map_NoDup; [|apply base_monoms_nodup].
        intros [|a m] [|b m'] H; cbn in H; try discriminate; [reflexivity|]. injection H as H ->. f_equal. lia.
    - intros m [<-|Hm].
      + apply base_monoms_in. unfold extra. rewrite app_length, list_sum_snoc. cbn [length]. rewrite repeat_length.
        change (list_sum (0%nat :: repeat 0%nat (n - 2))) with (list_sum (repeat 0%nat (n - 2))). rewrite Hs0.
        split; [lia|]. destruct hom; lia.
      + apply in_map_iff in Hm. destruct Hm as [m0 [<- Hm]]. apply base_monoms_in in Hm. apply base_monoms_in.
        destruct m0 as [|a m0]; [cbn in Hm; lia|]. unfold bump. cbn [length] in *.
        change (list_sum ((a + (e - d))%nat :: m0)) with (a + (e - d) + list_sum m0)%nat.
        change (list_sum (a :: m0)) with (a + list_sum m0)%nat in Hm. destruct Hm as [Hm1 Hm2]. split; [exact Hm1|].
        destruct hom; lia. }
  cbn [length] in H. rewrite map_length in H. lia.
Qed.
Lemma base_monoms_length_inj d e : (2 <= n)%nat -> length (base_monoms d) = length (base_monoms e) -> d = e.
Proof.
  intros Hn H. destruct (Nat.lt_total d e) as [L|[L|L]]; [|exact L|]; pose proof (bump_monoms _ _ Hn L); lia.
Qed.

(** polynomials the routine is meant for: canonical, and homogeneous if the manager is *)
Definition proper (p : poly K) : Prop :=
  wf n p /\ (forall t, In t p -> snd t <> 0) /\ (hom = true -> is_homogeneous K p = true).

Lemma reorder_total_degree g p : is_perm n g -> wf n p -> total_degree (reorder K g p) = total_degree p.
Proof.
  intros Hg [_ Hl]. unfold total_degree, reorder. induction p as [|t p IH]; [reflexivity|]. cbn [map fold_right fst].
  rewrite (act_sum g (fst t) Hg) by (apply Hl; left; reflexivity). f_equal. apply IH. intros m Hm. apply Hl. right. exact Hm.
Qed.
Lemma proper_reorder g p : is_perm n g -> proper p -> proper (reorder K g p).
Proof.
  intros Hg [Hw [Hz Hh]]. split; [apply reorder_wf; assumption|]. split.
  - intros t Ht. unfold reorder in Ht. apply in_map_iff in Ht. destruct Ht as [u [<- Hu]]. cbn. apply Hz, Hu.
  - intro E. specialize (Hh E). rewrite is_homogeneous_spec in *. intros t Ht.
    rewrite (reorder_total_degree g p Hg Hw). unfold reorder in Ht. apply in_map_iff in Ht. destruct Ht as [u [<- Hu]]. cbn [fst].
    rewrite (act_sum g (fst u) Hg) by (apply (proj2 Hw), in_map, Hu). apply Hh, Hu.
Qed.
Lemma proper_total_degree p q : proper p -> proper q -> same K p q -> total_degree p = total_degree q.
Proof.
  assert (A : forall p q, proper p -> proper q -> same K p q -> (total_degree p <= total_degree q)%nat).
  { intros p' q' [[Hn Hw] [Hz _]] _ S. unfold total_degree at 1.
    assert (B : forall t, In t p' -> (list_sum (fst t) <= total_degree q')%nat).
    { intros [m c] Ht. cbn [fst]. destruct (in_dec mon_dec m (keys q')) as [Hin|Hout].
      - unfold keys in Hin. apply in_map_iff in Hin. destruct Hin as [u [<- Hu]]. apply total_degree_ge, Hu.
      - exfalso. apply (Hz (m, c) Ht). cbn [snd]. rewrite <- (coef_notin K q' m Hout), <- (S m).
        unfold coef. rewrite (dget_in_nodup p' m c Hn Ht). reflexivity. }
    revert B. generalize (total_degree q') as N. clear. induction p' as [|t p IH]; intros N B; [cbn; lia|].
    cbn [fold_right]. pose proof (B t (or_introl eq_refl)). specialize (IH N (fun u Hu => B u (or_intror Hu))). lia. }
  intros Hp Hq S. apply Nat.le_antisymm; [apply A; assumption|apply A; try assumption; apply same_sym, S].
Qed.
Lemma proper_covered p t : proper p -> In t p -> In (fst t) (base_monoms (total_degree p)).
Proof.
  intros [Hw [_ Hh]] Ht. apply base_monoms_in. split; [apply (proj2 Hw), in_map, Ht|].
  destruct hom; [|apply total_degree_ge, Ht]. specialize (Hh eq_refl). rewrite is_homogeneous_spec in Hh. apply Hh, Ht.
Qed.
Lemma vectors_same p q d : proper p -> proper q -> total_degree p = d -> total_degree q = d ->
  map (coef p) (base_monoms d) = map (coef q) (base_monoms d) -> same K p q.
Proof.
  intros Hp Hq Dp Dq H m. destruct (in_dec mon_dec m (base_monoms d)) as [Hin|Hout].
  - clear -H Hin. induction (base_monoms d) as [|a l IH]; [destruct Hin|]. cbn [map] in H. injection H as H1 H2.
    destruct Hin as [->|Hin]; [exact H1|apply IH; assumption].
  - rewrite !coef_notin; [reflexivity| |]; intro Hm; apply Hout; unfold keys in Hm; apply in_map_iff in Hm; destruct Hm as [t [<- Ht]].
    + rewrite <- Dq. apply proper_covered; assumption.
    + rewrite <- Dp. apply proper_covered; assumption.
Qed.

Hypothesis Hpick : forall l, l <> [] -> In (pick l) l.
Definition same_orbit (p q : poly K) : Prop := exists g, In g G /\ forall x, peval x q = peval (fun i => x (nth i g 0%nat)) p.

Lemma G_nonempty : G <> [].
Proof. intro H. pose proof (g_id n G HG) as C. rewrite H in C. exact C. Qed.
Lemma orbit_of_reorders p q g h : In g G -> In h G -> wf n p -> wf n q -> same K (reorder K g p) (reorder K h q) -> same_orbit p q.
Proof.
  intros Hg Hh Wp Wq S. pose proof (g_perm n G HG g Hg) as Pg. pose proof (g_perm n G HG h Hh) as Ph.
  pose proof (pinv_in n G g HG Hg) as Hig. pose proof (g_perm n G HG _ Hig) as Pig.
  exists (pcomp (pinv g) h). split; [apply (g_mul n G HG); assumption|]. intro x.
  rewrite <- (reorder_peval K n h q x Ph Wq).
  rewrite <- (same_peval K n (reorder K g p) (reorder K h q) (fun i => x (nth i h 0%nat)) (reorder_wf K n g p Pg Wp) (reorder_wf K n h q Ph Wq) S).
  rewrite (reorder_prename K n g p Pg). rewrite (prename_peval K n); [|exact Pig|apply Wp].
  apply (peval_ext_len K n); [exact Wp|]. intros i Hi. f_equal. unfold pcomp. rewrite act_nth; [reflexivity|].
  rewrite (is_perm_length n _ Pig). exact Hi.
Qed.
Lemma key_orbit p q k : (2 <= n)%nat -> proper p -> proper q -> representation p = Ok k -> representation q = Ok k -> same_orbit p q.
Proof.
  intros Hn Hp Hq Rp Rq. rewrite (representation_spec p (proj1 Hp)) in Rp. rewrite (representation_spec q (proj1 Hq)) in Rq.
  apply Ok_inj in Rp. apply Ok_inj in Rq.
  assert (N : forall (f : list nat -> list K), map f G <> []) by (intros f H; apply map_eq_nil in H; exact (G_nonempty H)).
  pose proof (Hpick _ (N (fun g => map (coef (reorder K g p)) (base_monoms (total_degree p))))) as Ip. rewrite Rp in Ip.
  pose proof (Hpick _ (N (fun g => map (coef (reorder K g q)) (base_monoms (total_degree q))))) as Iq. rewrite Rq in Iq.
  apply in_map_iff in Ip. destruct Ip as [g [Eg Hg]]. apply in_map_iff in Iq. destruct Iq as [h [Eh Hh]].
  pose proof (g_perm n G HG g Hg) as Pg. pose proof (g_perm n G HG h Hh) as Ph.
  assert (D : total_degree p = total_degree q).
  { apply (base_monoms_length_inj _ _ Hn). rewrite <- Eh in Eg. apply (f_equal (@length _)) in Eg. rewrite !map_length in Eg. exact Eg. }
  apply (orbit_of_reorders p q g h Hg Hh (proj1 Hp) (proj1 Hq)).
  apply (vectors_same _ _ (total_degree p)); [apply proper_reorder; assumption|apply proper_reorder; assumption| | |].
  - apply reorder_total_degree; [exact Pg|apply Hp].
  - rewrite D. apply reorder_total_degree; [exact Ph|apply Hq].
  - rewrite Eg. rewrite D. symmetry. exact Eh.
Qed.

(** the dictionary *)
Lemma kput_in {V} k (v : V) d t : In t (kput k v d) -> In t d \/ t = (k, v).
Proof.
  induction d as [|[k' v'] d IH]; cbn [kput]; [intros [H|[]]; right; symmetry; exact H|].
  destruct (veqb k' k) eqn:E.
  - apply veqb_eq in E. subst k'. intros [H|H]; [right; symmetry; exact H|left; right; exact H].
  - intros [H|H]; [left; left; exact H|]. destruct (IH H) as [H1|H1]; [left; right; exact H1|right; exact H1].
Qed.
Lemma kput_keys {V} k (v : V) d : exists t, In t (kput k v d) /\ fst t = k.
Proof.
  induction d as [|[k' v'] d [t [Ht E]]]; cbn [kput]; [exists (k, v); split; [left|]; reflexivity|].
  destruct (veqb k' k) eqn:Ek; [exists (k', v); split; [left; reflexivity|apply veqb_eq; exact Ek]|].
  exists t. split; [right; exact Ht|exact E].
Qed.
Lemma kput_old {V} k (v : V) d t : In t d -> exists u, In u (kput k v d) /\ fst u = fst t.
Proof.
  induction d as [|[k' v'] d IH]; intro H; [destruct H|]. cbn [kput]. destruct (veqb k' k) eqn:E.
  - destruct H as [<-|H]; [exists (k', v); split; [left|]; reflexivity|exists t; split; [right; exact H|reflexivity]].
  - destruct H as [<-|H]; [exists (k', v'); split; [left|]; reflexivity|].
    destruct (IH H) as [u [Hu Eu]]. exists u. split; [right; exact Hu|exact Eu].
Qed.
Lemma kput_nodup {V} k (v : V) d : NoDup (map fst d) -> NoDup (map fst (kput k v d)).
Proof.
  induction d as [|[k' v'] d IH]; intro H; cbn [kput map fst]; [constructor; [intros []|constructor]|].
  cbn [map fst] in H. inversion H as [|? ? H1 H2]; subst. destruct (veqb k' k) eqn:E; [exact H|]. cbn [map fst]. constructor; [|apply IH, H2].
  intro Hin. apply in_map_iff in Hin. destruct Hin as [t [Et Ht]]. apply kput_in in Ht. destruct Ht as [Ht| ->].
  - apply H1. rewrite <- Et. apply in_map, Ht.
  - cbn in Et. subst k'. rewrite (proj2 (veqb_eq k k) eq_refl) in E. discriminate.
Qed.
Lemma clear_loop_spec polys : (forall p, In p polys -> wf n p) -> forall d0, NoDup (map fst d0) ->
  (forall k p, In (k, p) d0 -> representation p = Ok k) ->
  exists d, clear_loop polys d0 = Ok d /\ NoDup (map fst d) /\
  (forall k p, In (k, p) d -> representation p = Ok k /\ (In (k, p) d0 \/ In p polys)) /\
  (forall t, In t d0 -> exists u, In u d /\ fst u = fst t) /\
  (forall p, In p polys -> exists k q, representation p = Ok k /\ In (k, q) d).
Proof.
  induction polys as [|p polys IH]; intros Hw d0 Hnd H0; cbn [clear_loop].
  - exists d0. split; [reflexivity|]. split; [exact Hnd|]. split; [intros k p H; split; [apply H0, H|left; exact H]|].
    split; [intros t Ht; exists t; split; [exact Ht|reflexivity]|intros p []].
  - assert (Wp : wf n p) by (apply Hw; left; reflexivity).
    destruct (representation p) as [k|r] eqn:R; [|rewrite (representation_spec p Wp) in R; discriminate].
    destruct (IH (fun q Hq => Hw q (or_intror Hq)) (kput k p d0) (kput_nodup k p d0 Hnd)) as [d [E [N [A [B C]]]]].
    { intros k' q H. apply kput_in in H. destruct H as [H|H]; [apply H0, H|injection H as -> ->; exact R]. }
    exists d. split; [exact E|]. split; [exact N|]. split; [|split].
    + intros k' q H. destruct (A k' q H) as [A1 [A2|A2]]; (split; [exact A1|]).
      * apply kput_in in A2. destruct A2 as [A2|A2]; [left; exact A2|right; left; injection A2 as _ ->; reflexivity].
      * right. right. exact A2.
    + intros t Ht. destruct (kput_old k p d0 t Ht) as [u [Hu Eu]]. destruct (B u Hu) as [w [Hw' Ew]]. exists w. split; [exact Hw'|congruence].
    + intros q [<-|Hq]; [|apply C, Hq]. destruct (kput_keys k p d0) as [t [Ht Et]]. destruct (B t Ht) as [[k' q'] [Hu Eu]].
      cbn in Eu. exists k, q'. split; [exact R|]. rewrite Et in Eu. subst k'. exact Hu.
Qed.
Lemma clear_polys_ok polys : (forall p, In p polys -> wf n p) -> exists out, clear_polys false polys = Ok out.
Proof.
  intro Hw. destruct (clear_loop_spec polys Hw [] (NoDup_nil _) (fun k p H => match H with end)) as [d [E _]].
  exists (map snd d). unfold clear_polys. rewrite E. reflexivity.
Qed.
Lemma clear_polys_spec polys out : (2 <= n)%nat -> (forall p, In p polys -> proper p) -> clear_polys false polys = Ok out ->
  (forall q, In q out -> In q polys) /\ (forall p, In p polys -> exists q, In q out /\ same_orbit p q).
Proof.
  intros Hn Hw H. destruct (clear_loop_spec polys (fun p Hp => proj1 (Hw p Hp)) [] (NoDup_nil _) (fun k p H => match H with end)) as [d [E [_ [A [_ C]]]]].
  unfold clear_polys in H. rewrite E in H. apply Ok_inj in H. subst out. split.
  - intros q Hq. apply in_map_iff in Hq. destruct Hq as [[k q'] [<- Hq]]. destruct (A k q' Hq) as [_ [[]|H]]. exact H.
  - intros p Hp. destruct (C p Hp) as [k [q [R Hq]]]. destruct (A k q Hq) as [R' [[]|Hin]].
    exists q. split; [apply (in_map snd) in Hq; exact Hq|]. apply (key_orbit p q k); try assumption; apply Hw; assumption.
Qed.
(** the maximum depends only on the set of columns *)
Hypothesis Hset : forall l l', (forall v, In v l <-> In v l') -> pick l = pick l'.
Lemma orbit_key p q : proper p -> proper q -> same_orbit p q -> representation p = representation q.
Proof.
  intros Hp Hq [g [Hg S]]. rewrite (representation_spec p (proj1 Hp)), (representation_spec q (proj1 Hq)). f_equal.
  pose proof (g_perm n G HG g Hg) as Pg. pose proof (pinv_in n G g HG Hg) as Hig. pose proof (g_perm n G HG _ Hig) as Pig.
  assert (Sq : same K q (reorder K (pinv g) p)).
  { apply (same_peval_iff K n); [apply Hq|apply reorder_wf; [exact Pig|apply Hp]|]. intro x. rewrite S.
    rewrite (reorder_prename K n (pinv g) p Pig), (pinv_pinv n g Pg). symmetry. apply (prename_peval K n); [exact Pg|apply Hp]. }
  assert (D : total_degree q = total_degree p).
  { rewrite (proper_total_degree q _ Hq (proper_reorder (pinv g) p Pig Hp) Sq). apply reorder_total_degree; [exact Pig|apply Hp]. }
  assert (Rq : forall h, In h G -> map (coef (reorder K h q)) (base_monoms (total_degree q)) = map (coef (reorder K (pcomp h (pinv g)) p)) (base_monoms (total_degree p))).
  { intros h Hh. pose proof (g_perm n G HG h Hh) as Ph. rewrite D. apply map_ext. intro m.
    rewrite (reorder_pcomp K n h (pinv g) p Ph Pig).
    apply (reorder_same K n h q (reorder K (pinv g) p) Ph); [apply Hq|apply reorder_wf; [exact Pig|apply Hp]|exact Sq]. }
  apply Hset. intro v. rewrite !in_map_iff. split; intros [h [<- Hh]].
  - exists (pcomp h g). split; [|apply (g_mul n G HG); assumption]. rewrite Rq by (apply (g_mul n G HG); assumption).
    pose proof (g_perm n G HG h Hh) as Ph.
    rewrite <- (pcomp_assoc_perm n h g (pinv g) Ph (is_perm_length n g Pg)), (pinv_r n g Pg), (pcomp_pid_r n h Ph). reflexivity.
  - exists (pcomp h (pinv g)). split; [|apply (g_mul n G HG); assumption]. symmetry. apply Rq, Hh.
Qed.
Lemma clear_polys_once polys out : (forall p, In p polys -> proper p) -> clear_polys false polys = Ok out ->
  forall i j q q', nth_error out i = Some q -> nth_error out j = Some q' -> same_orbit q q' -> i = j.
Proof.
  intros Hw H i j q q' Hi Hj S. destruct (clear_loop_spec polys (fun p Hp => proj1 (Hw p Hp)) [] (NoDup_nil _) (fun k p H => match H with end)) as [d [E [N [A _]]]].
  unfold clear_polys in H. rewrite E in H. apply Ok_inj in H. subst out.
  rewrite nth_error_map in Hi, Hj.
  destruct (nth_error d i) as [[k p]|] eqn:Di; [|discriminate]. destruct (nth_error d j) as [[k' p']|] eqn:Dj; [|discriminate].
  cbn in Hi, Hj. injection Hi as ->. injection Hj as ->.
  destruct (A k q (nth_error_In _ _ Di)) as [R1 [[]|I1]]. destruct (A k' q' (nth_error_In _ _ Dj)) as [R2 [[]|I2]].
  pose proof (orbit_key q q' (Hw q I1) (Hw q' I2) S) as Ek. rewrite R1, R2 in Ek. apply Ok_inj in Ek. subst k'.
  assert (Ei : nth_error (map fst d) i = Some k) by (rewrite nth_error_map, Di; reflexivity).
  assert (Ej : nth_error (map fst d) j = Some k) by (rewrite nth_error_map, Dj; reflexivity).
  apply (proj1 (NoDup_nth_error (map fst d)) N).
  - apply nth_error_Some. congruence.
  - congruence.
Qed.
End ClearSym.

(** ** Python's [max] of a list of tuples of numbers *)
Section VMax.
Variable K : OrdField.
Local Open Scope of_scope.
Fixpoint vltb (a b : list K) : bool :=
  match a, b with
  | [], [] => false
  | [], _ => true
  | _, [] => false
  | x :: a', y :: b' => if feqb x y then vltb a' b' else fltb x y
  end.
(** the first maximal element; [[]] for the empty list (Python raises, a group is never empty) *)
Definition vmax (l : list (list K)) : list K :=
  match l with [] => [] | x :: l' => fold_left (fun m y => if vltb m y then y else m) l' x end.

Lemma vltb_total a b : vltb a b = false -> vltb b a = false -> a = b.
Proof.
  revert b. induction a as [|x a IH]; intros [|y b]; cbn [vltb]; intros H1 H2; try discriminate; [reflexivity|].
  destruct (feqb x y) eqn:E.
  - apply feqb_eq in E. subst y. rewrite (proj2 (feqb_eq K x x) eq_refl) in H2. f_equal. apply IH; assumption.
  - exfalso. destruct (feqb y x) eqn:E2; [apply feqb_eq in E2; subst; rewrite (proj2 (feqb_eq K x x) eq_refl) in E; discriminate|].
    apply fltb_ge in H1. apply fltb_ge in H2. assert (C : x = y) by (apply (fle_antisym K); assumption).
    subst. rewrite (proj2 (feqb_eq K y y) eq_refl) in E. discriminate.
Qed.
Lemma vltb_irrefl a : vltb a a = false.
Proof. induction a as [|x a IH]; cbn [vltb]; [reflexivity|]. rewrite (proj2 (feqb_eq K x x) eq_refl). exact IH. Qed.
Lemma vltb_trans a b c : vltb a b = true -> vltb b c = true -> vltb a c = true.
Proof.
  revert b c. induction a as [|x a IH]; intros [|y b] [|z c]; cbn [vltb]; intros H1 H2; try discriminate; try reflexivity.
  destruct (feqb x y) eqn:E1, (feqb y z) eqn:E2.
  - apply feqb_eq in E1. apply feqb_eq in E2. subst. rewrite (proj2 (feqb_eq K z z) eq_refl). eapply IH; eassumption.
  - apply feqb_eq in E1. subst y. rewrite E2. exact H2.
  - apply feqb_eq in E2. subst z. rewrite E1. exact H1.
  - apply fltb_lt in H1. apply fltb_lt in H2. pose proof (flt_trans K _ _ _ H1 H2) as H.
    destruct (feqb x z) eqn:E; [|apply fltb_lt; exact H]. apply feqb_eq in E. subst z. exfalso. exact (flt_irrefl K _ H).
Qed.
Lemma vmax_fold l : forall x, let m := fold_left (fun m y => if vltb m y then y else m) l x in
  In m (x :: l) /\ forall y, In y (x :: l) -> vltb m y = false.
Proof.
  induction l as [|z l IH]; intro x; cbn [fold_left]; cbv zeta.
  - split; [left; reflexivity|]. intros y [<-|[]]. apply vltb_irrefl.
  - destruct (IH (if vltb x z then z else x)) as [A B]. cbv zeta in A, B. split.
    + destruct A as [A|A]; [|right; right; exact A]. destruct (vltb x z); [right; left; exact A|left; exact A].
    + set (m := fold_left _ l _) in *. assert (B0 := B _ (or_introl eq_refl)).
      destruct (vltb x z) eqn:E.
      * intros y [<-|[<-|Hy]]; [|exact B0|apply B; right; exact Hy].
        destruct (vltb m x) eqn:C; [|reflexivity]. rewrite (vltb_trans _ _ _ C E) in B0. discriminate.
      * intros y [<-|[<-|Hy]]; [exact B0| |apply B; right; exact Hy].
        destruct (vltb m z) eqn:C; [|reflexivity]. destruct (vltb z x) eqn:D.
        -- rewrite (vltb_trans _ _ _ C D) in B0. discriminate.
        -- rewrite (vltb_total _ _ E D) in B0. congruence.
Qed.
Lemma vmax_in l : l <> [] -> In (vmax l) l.
Proof. destruct l as [|x l]; [congruence|]. intros _. apply (proj1 (vmax_fold l x)). Qed.
Lemma vmax_set l l' : (forall v, In v l <-> In v l') -> vmax l = vmax l'.
Proof.
  intro H. destruct l as [|x l], l' as [|x' l']; [reflexivity| | |].
  - destruct (proj2 (H x') (or_introl eq_refl)).
  - destruct (proj1 (H x) (or_introl eq_refl)).
  - destruct (vmax_fold l x) as [A B], (vmax_fold l' x') as [A' B']. cbv zeta in *. apply vltb_total.
    + apply B. apply H. exact A'.
    + apply B'. apply H. exact A.
Qed.
End VMax.

Section Final.
Variable K : OrdField.
Local Open Scope of_scope.
Lemma permute_vec_values n G hom (p : poly K) d : is_group n G -> wf n p ->
  exists cols, permute_vec K n G hom (map (coef p) (base_monoms n hom d)) d = Ok cols /\ length cols = length G /\
  forall i g, nth_error G i = Some g -> exists p', nth_error cols i = Some (map (coef p') (base_monoms n hom d)) /\
    wf n p' /\ forall x : nat -> K, peval (fun i => x (nth i g 0%nat)) p' = peval x p.
Proof.
  intros HG Hp. eexists. split; [apply (permute_vec_spec K n G hom HG p d Hp)|]. split; [apply map_length|].
  intros i g Hi. pose proof (g_perm n G HG g (nth_error_In _ _ Hi)) as Pg. exists (reorder K g p).
  split; [rewrite nth_error_map, Hi; reflexivity|]. split; [apply reorder_wf; assumption|].
  intro x. apply (reorder_peval K n); assumption.
Qed.
Lemma clear_polys_covers_lemma n G hom polys out : is_group n G -> (2 <= n)%nat ->
  (forall p, In p polys -> wf n p /\ (forall t, In t p -> snd t <> 0) /\ (hom = true -> is_homogeneous K p = true)) ->
  clear_polys K n G hom (vmax K) false polys = Ok out ->
  (forall p, In p out -> In p polys) /\
  (forall p, In p polys -> exists p' g, In p' out /\ In g G /\ forall x : nat -> K, peval x p' = peval (fun i => x (nth i g 0%nat)) p).
Proof.
  intros HG Hn Hp H. destruct (clear_polys_spec K n G hom (vmax K) HG (vmax_in K) polys out Hn Hp H) as [A B].
  split; [exact A|]. intros p Hin. destruct (B p Hin) as [p' [Hp' [g [Hg S]]]]. exists p', g. repeat split; assumption.
Qed.
Lemma clear_polys_minimal_lemma n G hom polys out : is_group n G ->
  (forall p, In p polys -> wf n p /\ (forall t, In t p -> snd t <> 0) /\ (hom = true -> is_homogeneous K p = true)) ->
  clear_polys K n G hom (vmax K) false polys = Ok out ->
  forall i j p p' g, nth_error out i = Some p -> nth_error out j = Some p' -> In g G ->
    (forall x : nat -> K, peval x p' = peval (fun i => x (nth i g 0%nat)) p) -> i = j.
Proof.
  intros HG Hp H i j p p' g Hi Hj Hg S.
  apply (clear_polys_once K n G hom (vmax K) HG (vmax_set K) polys out Hp H i j p p' Hi Hj). exists g. split; assumption.
Qed.
End Final.
