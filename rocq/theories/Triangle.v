(** * Model of coefficient_triangle (triples/utils/text_process.py:385-423) *)
From Coq Require Import Bool List Arith Lia Sorting.
From Verif Require Import OrdField Base Poly.
Import ListNotations.

Section Tri.
Variable K : OrdField.
(** the positions in the order of the two loops (415-416) *)
Definition positions (d : nat) : list (nat * nat) :=
  flat_map (fun i => map (fun j => (d - i, i - j)) (seq 0 (S i))) (seq 0 (S d)).
(** the loop (413-422) over the terms in the order of [poly.terms()]; behind the last term stands
    the flag (-1,-1,0), which matches no position. Only the entries 0 and 1 of an exponent are
    compared. The entries are the coefficients instead of their texts
    ([short_constant_parser]), and 0 for '0'. *)
Fixpoint tri_loop (pos : list (nat * nat)) (terms : poly K) : list K :=
  match pos with
  | [] => []
  | (u, v) :: pos' =>
      match terms with
      | [] => 0%F :: tri_loop pos' []
      | (m, c) :: terms' =>
          if Nat.eqb (nth 0 m 0) u && Nat.eqb (nth 1 m 0) v then c :: tri_loop pos' terms' else 0%F :: tri_loop pos' terms
      end
  end.
(** [coefficient_triangle] for polynomials in three variables; [degree] is given or the total
    degree *)
Definition coefficient_triangle (degree : nat) (terms : poly K) : list K := tri_loop (positions degree) terms.

(** ** Lemmas *)
Definition lexgt (a b : nat * nat) : Prop := (fst b < fst a) \/ (fst a = fst b /\ snd b < snd a).
(** sympy's lex order on exponents of three variables *)
Definition mlexgt (a b : list nat) : Prop :=
  (nth 0 b 0 < nth 0 a 0) \/ (nth 0 a 0 = nth 0 b 0 /\ nth 1 b 0 < nth 1 a 0) \/
  (nth 0 a 0 = nth 0 b 0 /\ nth 1 a 0 = nth 1 b 0 /\ nth 2 b 0 < nth 2 a 0).
Lemma lexgt_trans a b c : lexgt a b -> lexgt b c -> lexgt a c.
Proof. unfold lexgt. lia. Qed.
Lemma lexgt_irrefl a : ~ lexgt a a.
Proof. unfold lexgt. lia. Qed.

Lemma SSorted_app {A} (R : A -> A -> Prop) l1 l2 : StronglySorted R l1 -> StronglySorted R l2 ->
  (forall a b, In a l1 -> In b l2 -> R a b) -> StronglySorted R (l1 ++ l2).
Proof.
  intros H1 H2 H. induction H1 as [|a l1 H1 IH F]; [exact H2|]. cbn. constructor.
  - apply IH. intros x y Hx Hy. apply H; [right; exact Hx|exact Hy].
  - apply Forall_app. split; [exact F|]. apply Forall_forall. intros y Hy. apply H; [left; reflexivity|exact Hy].
Qed.
Lemma positions_in d u v : In (u, v) (positions d) <-> u + v <= d.
Proof.
  unfold positions. rewrite in_flat_map. split.
  - intros [i [Hi H]]. apply in_map_iff in H. destruct H as [j [E Hj]]. apply in_seq in Hi, Hj. injection E as <- <-. lia.
  - intro H. exists (d - u). split; [apply in_seq; lia|]. apply in_map_iff. exists (d - u - v). split; [f_equal; lia|apply in_seq; lia].
Qed.
Lemma positions_sorted d : StronglySorted lexgt (positions d).
Proof.
  unfold positions.
  assert (G : forall n s, s + n <= S d -> StronglySorted lexgt (flat_map (fun i => map (fun j => (d - i, i - j)) (seq 0 (S i))) (seq s n))).
  { induction n as [|n IH]; intros s L; [constructor|]. change (seq s (S n)) with (s :: seq (S s) n). cbn [flat_map]. apply SSorted_app; [|apply IH; lia|].
    - assert (R : forall m t, t + m <= S s -> StronglySorted lexgt (map (fun j => (d - s, s - j)) (seq t m))).
      { induction m as [|m IHm]; intros t Lt; [constructor|]. cbn [seq map]. constructor; [apply IHm; lia|].
        apply Forall_forall. intros x Hx. apply in_map_iff in Hx. destruct Hx as [j [<- Hj]]. apply in_seq in Hj. unfold lexgt. cbn. lia. }
      apply (R (S s) 0). lia.
    - intros a b Ha Hb. apply in_map_iff in Ha. destruct Ha as [j [<- Hj]]. apply in_flat_map in Hb. destruct Hb as [i [Hi Hb]].
      apply in_map_iff in Hb. destruct Hb as [j' [<- Hj']]. apply in_seq in Hj, Hi, Hj'. unfold lexgt. cbn. lia. }
  apply G. lia.
Qed.

Definition k2 (m : list nat) : nat * nat := (nth 0 m 0, nth 1 m 0).
Fixpoint look (terms : poly K) (p : nat * nat) : K :=
  match terms with [] => 0%F | (m, c) :: t => if Nat.eqb (nth 0 m 0) (fst p) && Nat.eqb (nth 1 m 0) (snd p) then c else look t p end.
Lemma look_none terms p : ~ In p (map k2 (keys terms)) -> look terms p = 0%F.
Proof.
  induction terms as [|[m c] t IH]; intro H; [reflexivity|]. cbn in *. destruct (_ && _) eqn:E; [|apply IH; tauto].
  exfalso. apply H. left. apply andb_true_iff in E. destruct E as [E1 E2]. apply Nat.eqb_eq in E1, E2. unfold k2. destruct p; cbn in *; congruence.
Qed.
Lemma tri_loop_look pos : forall terms, StronglySorted lexgt pos -> StronglySorted lexgt (map k2 (keys terms)) ->
  (forall k, In k (map k2 (keys terms)) -> In k pos) -> tri_loop pos terms = map (look terms) pos.
Proof.
  induction pos as [|[u v] pos IH]; intros terms Hp Ht Hin; [reflexivity|].
  apply StronglySorted_inv in Hp. destruct Hp as [Hp Hu]. rewrite Forall_forall in Hu.
  destruct terms as [|[m c] t].
  - cbn. f_equal. rewrite IH; [reflexivity|exact Hp|constructor|intros k []].
  - cbn [tri_loop map look]. pose proof Ht as Ht0. cbn [keys map] in Ht. apply StronglySorted_inv in Ht. destruct Ht as [Ht Hm]. rewrite Forall_forall in Hm.
    cbn [fst snd] in *. destruct (Nat.eqb (nth 0 m 0) u && Nat.eqb (nth 1 m 0) v) eqn:E.
    + f_equal. assert (Em : k2 m = (u, v)).
      { apply andb_true_iff in E. destruct E as [E1 E2]. apply Nat.eqb_eq in E1, E2. unfold k2. congruence. }
      rewrite IH; [|exact Hp|exact Ht|].
      * apply map_ext_in. intros [u' v'] Hk. cbn [look fst snd]. destruct (Nat.eqb (nth 0 m 0) u' && Nat.eqb (nth 1 m 0) v') eqn:E'; [|reflexivity].
        exfalso. apply andb_true_iff in E'. destruct E' as [E1 E2]. apply Nat.eqb_eq in E1, E2. unfold k2 in Em. apply Hu in Hk.
        apply (lexgt_irrefl (u, v)). congruence.
      * intros k Hk. destruct (Hin k) as [K1|K1]; [right; exact Hk| |exact K1]. exfalso. apply Hm in Hk. rewrite Em, K1 in Hk. exact (lexgt_irrefl _ Hk).
    + assert (Em : k2 m <> (u, v)).
      { intro Em. unfold k2 in Em. injection Em as E1 E2. rewrite E1, E2, !Nat.eqb_refl in E. discriminate. }
      assert (In' : forall k, In k (map k2 (keys ((m, c) :: t))) -> In k pos).
      { intros k Hk. destruct (Hin k Hk) as [K1|K1]; [|exact K1]. exfalso. cbn in Hk. destruct Hk as [Hk|Hk]; [congruence|].
        destruct (Hin (k2 m)) as [K2|K2]; [left; reflexivity|congruence|]. apply Hu in K2. apply Hm in Hk. rewrite <- K1 in Hk.
        exact (lexgt_irrefl _ (lexgt_trans _ _ _ Hk K2)). }
      rewrite (IH _ Hp Ht0 In'). f_equal. symmetry. apply look_none. intro Hk. assert (Hk' : In (u, v) pos) by (apply In'; right; exact Hk). clear Hk. rename Hk' into Hk. apply Hu in Hk. exact (lexgt_irrefl _ Hk).
Qed.

Lemma triangle_lemma d (p : poly K) : (forall m, In m (keys p) -> length m = 3 /\ list_sum m = d) -> StronglySorted mlexgt (keys p) ->
  coefficient_triangle d p = flat_map (fun i => map (fun j => coef p [d - i; i - j; j]) (seq 0 (S i))) (seq 0 (S d)).
Proof.
  intros Hd Hs. unfold coefficient_triangle. rewrite tri_loop_look.
  - unfold positions. rewrite flat_map_concat_map, concat_map, flat_map_concat_map, map_map. f_equal. apply map_ext_in. intros i Hi.
    rewrite map_map. apply map_ext_in. intros j Hj. apply in_seq in Hi, Hj. clear Hs.
    induction p as [|[m c] p IH]; [reflexivity|]. cbn [look fst snd]. unfold coef. cbn [dget].
    assert (Hm : length m = 3 /\ list_sum m = d) by (apply Hd; left; reflexivity). destruct Hm as [L S].
    destruct m as [|x [|y [|z [|? ?]]]]; try discriminate. cbn [nth].
    assert (E : meqb [d - i; i - j; j] [x; y; z] = Nat.eqb x (d - i) && Nat.eqb y (i - j)).
    { destruct (meqb [d - i; i - j; j] [x; y; z]) eqn:E.
      - apply meqb_eq in E. injection E as -> -> ->. rewrite !Nat.eqb_refl. reflexivity.
      - symmetry. apply andb_false_iff. destruct (Nat.eqb x (d - i)) eqn:E1; [right|left; reflexivity].
        destruct (Nat.eqb y (i - j)) eqn:E2; [|reflexivity]. exfalso. apply Nat.eqb_eq in E1, E2. subst x y. cbn in S.
        assert (z = j) by lia. subst z. rewrite (proj2 (meqb_eq _ _) eq_refl) in E. discriminate. }
    rewrite E. destruct (_ && _); [reflexivity|]. apply IH. intros m Hm. apply Hd. right. exact Hm.
  - apply positions_sorted.
  - clear -Hd Hs. induction p as [|[m c] p IH]; [constructor|]. cbn [keys map] in *. apply StronglySorted_inv in Hs. destruct Hs as [Hs Hm].
    constructor; [apply IH; [intros; apply Hd; right; assumption|exact Hs]|]. rewrite Forall_forall in *. intros k Hk.
    apply in_map_iff in Hk. destruct Hk as [m' [<- Hm']]. destruct (Hd m') as [L1 S1]; [right; exact Hm'|]. destruct (Hd m) as [L2 S2]; [left; reflexivity|].
    specialize (Hm _ Hm'). unfold mlexgt in Hm. unfold lexgt, k2. cbn [fst snd].
    destruct m as [|x [|y [|z [|? ?]]]], m' as [|x' [|y' [|z' [|? ?]]]]; try discriminate. cbn in *. lia.
  - intros k Hk. apply in_map_iff in Hk. destruct Hk as [m [<- Hm]]. destruct (Hd m Hm) as [L S].
    destruct m as [|x [|y [|z [|? ?]]]]; try discriminate. unfold k2. cbn in *. apply positions_in. lia.
Qed.
End Tri.
