(** * Lemmas about grids of values *)
From Coq Require Import Bool List Arith Lia Ring Field.
From Verif Require Import OrdField Base Partitions Poly Grid.
Import ListNotations.

(** ** The order of the points *)
Definition row (n s : nat) : list (list nat) := map (fun t => [n - s; s - t; t]) (seq 0 (S s)).

Lemma rev_seq_down n : rev (seq 0 (S n)) = map (fun s => n - s) (seq 0 (S n)).
Proof.
  induction n; [reflexivity|]. rewrite seq_S at 1. rewrite rev_app_distr, IHn. cbn [rev app plus].
  change (seq 0 (S (S n))) with (0 :: seq 1 (S n)). cbn [map]. f_equal.
  rewrite <- seq_shift, map_map. apply map_ext. intro. lia.
Qed.

Lemma flat_map_map {A B C} (f : B -> list C) (g : A -> B) l : flat_map f (map g l) = flat_map (fun x => f (g x)) l.
Proof. induction l; cbn; [reflexivity|]. rewrite IHl. reflexivity. Qed.
Lemma map_flat_map {A B C} (f : B -> C) (g : A -> list B) l : map f (flat_map g l) = flat_map (fun x => map f (g x)) l.
Proof. induction l; cbn; [reflexivity|]. rewrite map_app, IHl. reflexivity. Qed.
Lemma flat_map_ext_in' {A B} (f g : A -> list B) l : (forall x, In x l -> f x = g x) -> flat_map f l = flat_map g l.
Proof.
  induction l; cbn; intro H; [reflexivity|]. rewrite (H a) by auto. rewrite IHl; [reflexivity|]. intros. apply H. auto.
Qed.
Lemma parts1 d : parts 1 d = map (fun i => [i]) (rev (seq 0 (S d))).
Proof.
  cbn [parts]. generalize (rev (seq 0 (S d))). intro l. induction l as [|a l IH]; [reflexivity|].
  change (flat_map (fun i : nat => map (cons i) [[]]) (a :: l)) with ([a] :: flat_map (fun i : nat => map (cons i) [[]]) l).
  rewrite IH. reflexivity.
Qed.

Lemma grid_coor_rows n : grid_coor 3 n = flat_map (row n) (seq 0 (S n)).
Proof.
  unfold grid_coor. rewrite generate_partitions_equal_eq.
  change (parts 2 n) with (flat_map (fun i => map (cons i) (parts 1 (n - i))) (rev (seq 0 (S n)))).
  rewrite rev_seq_down, flat_map_map, map_flat_map. apply flat_map_ext_in'.
  intros s Hs. apply in_seq in Hs. rewrite parts1, rev_seq_down, !map_map. unfold row.
  replace (n - (n - s)) with s by lia. apply map_ext_in. intros t Ht. apply in_seq in Ht.
  cbn [app]. f_equal. f_equal. f_equal. cbn. lia.
Qed.

Lemma row_length n s : length (row n s) = S s.
Proof. unfold row. rewrite map_length, seq_length. reflexivity. Qed.

Lemma even_prod T : exists h, T * (T + 1) = 2 * h.
Proof.
  induction T as [|T [h E]]; [exists 0; reflexivity|]. exists (h + S T). nia.
Qed.
Lemma rows_length n T : length (flat_map (row n) (seq 0 T)) = T * (T + 1) / 2.
Proof.
  induction T; [reflexivity|]. rewrite seq_S, flat_map_app, app_length, IHT. cbn [flat_map].
  rewrite app_nil_r, row_length, Nat.add_0_l. destruct (even_prod T) as [h E]. destruct (even_prod (S T)) as [h' E'].
  rewrite E, E'. rewrite !(Nat.mul_comm 2), !Nat.div_mul by lia. nia.
Qed.

Lemma firstn_rows n T : T <= S n ->
  firstn (T * (T + 1) / 2) (grid_coor 3 n) = flat_map (row n) (seq 0 T).
Proof.
  intro H. rewrite grid_coor_rows. replace (S n) with (T + (S n - T)) by lia.
  rewrite seq_app, flat_map_app. rewrite <- (rows_length n T).
  rewrite firstn_app, firstn_all, Nat.sub_diag. cbn [firstn]. apply app_nil_r.
Qed.

Lemma grid_coor_length n : length (grid_coor 3 n) = (n + 1) * (n + 2) / 2.
Proof. rewrite grid_coor_rows, rows_length. f_equal. nia. Qed.

Lemma grid_n_ok n : grid_n (length (grid_coor 3 n)) = n.
Proof.
  rewrite grid_coor_length. unfold grid_n. destruct (even_prod (n + 1)) as [h E].
  replace ((n + 1) * (n + 2)) with (2 * h) by nia.
  rewrite (Nat.mul_comm 2), Nat.div_mul by lia.
  replace (8 * h + 1) with ((2 * n + 3) * (2 * n + 3)) by nia.
  rewrite Nat.sqrt_square. replace (2 * n + 3 - 3) with (n * 2) by lia. apply Nat.div_mul. lia.
Qed.

Lemma in_rows n T i j k :
  In [i; j; k] (flat_map (row n) (seq 0 T)) <-> exists s, s < T /\ i = n - s /\ j + k = s.
Proof.
  rewrite in_flat_map. split.
  - intros (s & Hs & H). apply in_seq in Hs. unfold row in H. apply in_map_iff in H.
    destruct H as (t & E & Ht). apply in_seq in Ht. injection E as <- <- <-. exists s. lia.
  - intros (s & Hs & -> & <-). exists (j + k). split; [apply in_seq; lia|].
    unfold row. apply in_map_iff. exists k. split; [|apply in_seq; lia]. f_equal. f_equal. lia.
Qed.

Lemma row_nth n s t : t <= s -> nth t (row n s) [] = [n - s; s - t; t].
Proof.
  intro H. unfold row.
  rewrite (nth_indep _ [] ((fun t => [n - s; s - t; t]) 0)) by (rewrite map_length, seq_length; lia).
  rewrite (map_nth (fun t => [n - s; s - t; t])), seq_nth by lia. reflexivity.
Qed.

Lemma color_index_point n r j : r + j <= n ->
  nth (color_index r j) (grid_coor 3 n) [] = [n - r - j; j; r].
Proof.
  intro H. rewrite grid_coor_rows. set (s := r + j).
  replace (S n) with (s + S (n - s)) by lia. rewrite seq_app, flat_map_app.
  assert (E : color_index r j = s * (s + 1) / 2 + r).
  { unfold color_index. destruct (even_prod s) as [h Eh]. rewrite Eh.
    replace ((r + j + 2) * (r + j + 1)) with (2 * (h + s + 1)) by (fold s; nia).
    rewrite !(Nat.mul_comm 2), !Nat.div_mul by lia. lia. }
  rewrite E, app_nth2; rewrite rows_length; [|lia].
  replace (s * (s + 1) / 2 + r - s * (s + 1) / 2) with r by lia.
  cbn [seq flat_map plus]. rewrite app_nth1 by (rewrite row_length; lia).
  rewrite row_nth by lia. f_equal; [lia|]. f_equal. lia.
Qed.

Lemma grid_coor_in n c : In c (grid_coor 3 n) <-> length c = 3 /\ list_sum c = n.
Proof. apply (generate_partitions_in 3 n true). Qed.

Section Facts.
Variable K : OrdField.
Local Open Scope of_scope.
Add Field Kf : (F_field K).

(** ** Values *)
Lemma append_powers_ok c : forall m (x : K),
  append_powers c (map (fpow x) (seq 0 (S m))) x = map (fpow x) (seq 0 (S (m + c))).
Proof.
  induction c; intros m x; cbn [append_powers]; [rewrite Nat.add_0_r; reflexivity|].
  replace (map (fpow x) (seq 0 (S m)) ++ [last (map (fpow x) (seq 0 (S m))) 0 * x])
    with (map (fpow x) (seq 0 (S (S m)))).
  - rewrite IHc. f_equal. f_equal. lia.
  - rewrite (seq_S (S m)), map_app. f_equal. cbn [map]. f_equal.
    rewrite seq_S, map_app. cbn [map]. rewrite last_last. cbn [plus fpow]. ring.
Qed.
Lemma powers_row l (x : K) : (1 <= l)%nat -> append_powers (l - 1) [1; x] x = map (fpow x) (seq 0 (S l)).
Proof.
  intro H. replace [1; x] with (map (fpow x) (seq 0 2)) by (cbn; f_equal; f_equal; ring).
  rewrite append_powers_ok. f_equal. f_equal. lia.
Qed.
Lemma pc_get_ok s l i d : (1 <= l)%nat -> (i <= s)%nat -> (d <= l)%nat ->
  pc_get (@grid_init_precal K s l) i d = Ok (fnat i ^ d).
Proof.
  intros Hl Hi Hd. unfold pc_get, grid_init_precal.
  rewrite nth_error_map. rewrite (nth_error_nth' _ 0%nat) by (rewrite seq_length; lia).
  rewrite seq_nth by lia. cbn [option_map plus]. rewrite powers_row by exact Hl.
  rewrite nth_error_map, (nth_error_nth' _ 0%nat) by (rewrite seq_length; lia).
  rewrite seq_nth by lia. reflexivity.
Qed.

Lemma base_prod_ok s l (c m : list nat) : (1 <= l)%nat -> (forall i, In i c -> i <= s)%nat ->
  (forall d, In d m -> d <= l)%nat ->
  base_prod (@grid_init_precal K s l) (combine c m) = Ok (fprod (map (fun t => fnat (fst t) ^ snd t) (combine c m))).
Proof.
  intros Hl. revert m. induction c as [|i c IH]; intros m Hc Hm; [reflexivity|].
  destruct m as [|d m]; [reflexivity|]. cbn [combine base_prod].
  rewrite pc_get_ok; [|exact Hl|apply Hc; left; reflexivity|apply Hm; left; reflexivity].
  rewrite IH; [reflexivity| |]; intros; [apply Hc|apply Hm]; right; assumption.
Qed.

Definition pt (c : list nat) : nat -> K := fun x => fnat (nth x c 0%nat).

Lemma meval_combine (c m : list nat) : length c = length m ->
  meval (pt c) m = fprod (map (fun t => fnat (fst t) ^ snd t) (combine c m)).
Proof.
  unfold meval. revert m. induction c as [|i c IH]; intros m H; destruct m as [|d m]; try discriminate; [reflexivity|].
  cbn [length seq map combine fst snd]. rewrite <- seq_shift, map_map.
  cbn [length] in H. unfold fprod in *. cbn [fold_right]. f_equal. rewrite <- IH by lia. reflexivity.
Qed.

Lemma grid_at_ok s l p c : (1 <= l)%nat -> (forall i, In i c -> i <= s)%nat ->
  (forall t, In t p -> length (fst t) = length c /\ forall d, In d (fst t) -> d <= l)%nat ->
  grid_at (@grid_init_precal K s l) p c = Ok (peval (pt c) p).
Proof.
  intros Hl Hc. induction p as [|[m a] p IH]; intro Hp; [reflexivity|]. cbn [grid_at].
  destruct (Hp (m, a) (or_introl eq_refl)) as [Hlen Hd]. cbn [fst] in Hlen, Hd.
  rewrite base_prod_ok by assumption. rewrite IH by (intros; apply Hp; right; assumption).
  f_equal. unfold peval. cbn [map fst snd]. unfold fsum. cbn [fold_right]. rewrite meval_combine by lia. reflexivity.
Qed.

Lemma mapr_ok {A B} (f : A -> res B) (g : A -> B) l : (forall x, In x l -> f x = Ok (g x)) -> mapr f l = Ok (map g l).
Proof.
  induction l; cbn [mapr map]; intro H; [reflexivity|]. rewrite (H a) by (left; reflexivity).
  rewrite IHl by (intros; apply H; right; assumption). reflexivity.
Qed.

Lemma in_le_sum d m : In d m -> (d <= list_sum m)%nat.
Proof.
  induction m; intros []; rewrite list_sum_cons; [subst; lia|]. specialize (IHm H). lia.
Qed.
Lemma gdeg_bound (p : poly K) t d : In t p -> In d (fst t) -> (d <= gdeg p)%nat.
Proof.
  intros Ht Hd. apply in_le_sum in Hd. unfold gdeg.
  assert (H : Forall (fun k => (k <= list_max (map (fun t => list_sum (fst t)) p))%nat) (map (fun t => list_sum (fst t)) p)).
  { apply list_max_le. lia. }
  rewrite Forall_forall in H. specialize (H (list_sum (fst t)) (in_map (fun t => list_sum (fst t)) _ _ Ht)). lia.
Qed.

Lemma render_value_ok nvars (p : poly K) size :
  (size <= size_limit)%nat -> (gdeg p <= degree_limit)%nat -> (forall t, In t p -> length (fst t) = nvars) ->
  render_grid_value nvars p size = Ok (map (fun c => peval (pt c) p) (grid_coor nvars size)).
Proof.
  intros Hs Hd Hp. unfold render_grid_value.
  replace (Nat.ltb size_limit size) with false by (symmetry; apply Nat.ltb_ge; exact Hs).
  replace (Nat.ltb degree_limit (gdeg p)) with false by (symmetry; apply Nat.ltb_ge; exact Hd).
  cbn [orb]. apply mapr_ok. intros c Hc. unfold grid_coor in Hc. apply generate_partitions_in in Hc. destruct Hc as [Hl Hsum].
  apply grid_at_ok.
  - unfold degree_limit. lia.
  - intros i Hi. apply in_le_sum in Hi. lia.
  - intros t Ht. split; [rewrite Hl; apply Hp; exact Ht|]. intros d Hin. pose proof (gdeg_bound p t d Ht Hin). lia.
Qed.

(** ** The dictionary *)
Lemma meqb_sym_find (d : list (list nat * K)) c w :
  NoDup (map fst d) -> In (c, w) d -> find (fun t => meqb c (fst t)) d = Some (c, w).
Proof.
  induction d as [|[c' w'] d IH]; intros Hn Hi; [destruct Hi|]. cbn [map fst] in Hn. inversion Hn as [|? ? Hx Hr]; subst.
  cbn [find fst]. destruct (meqb_spec c c') as [->|Hne].
  - destruct Hi as [E|Hi]; [congruence|]. exfalso. apply Hx. apply in_map_iff. exists (c', w). auto.
  - destruct Hi as [E|Hi]; [congruence|]. apply IH; assumption.
Qed.
Lemma dict_get_ok (d : list (list nat * K)) c w : NoDup (map fst d) -> In (c, w) d -> dict_get d c = Ok w.
Proof.
  intros Hn Hi. unfold dict_get. rewrite (meqb_sym_find (rev d) c w); [reflexivity| |].
  - rewrite map_rev. apply NoDup_rev. exact Hn.
  - apply -> in_rev. exact Hi.
Qed.

Lemma combine_map_r {A B} (f : A -> B) l : combine l (map f l) = map (fun x => (x, f x)) l.
Proof. induction l; cbn; [reflexivity|]. rewrite IHl. reflexivity. Qed.

Definition vdict (v : list nat -> K) (n : nat) : list (list nat * K) := map (fun c => (c, v c)) (grid_coor 3 n).
Lemma vdict_get v n i j k : (i + j + k = n)%nat -> dict_get (vdict v n) [i; j; k] = Ok (v [i; j; k]).
Proof.
  intro H. apply dict_get_ok.
  - unfold vdict. rewrite map_map, map_id. apply generate_partitions_NoDup.
  - unfold vdict. apply in_map_iff. exists [i; j; k]. split; [reflexivity|].
    apply generate_partitions_in. split; [reflexivity|]. cbn. lia.
Qed.

(** ** The scan *)
Definition lmin (v : list nat -> K) (n i j k : nat) : Prop :=
  (0 < i /\ 0 < j /\ 0 < k /\ i + j + k = n)%nat /\
  forall i' j' k', (i' + j' + k' = n)%nat -> (i', j', k') <> (i, j, k) ->
    (i' <= i + 1 /\ i <= i' + 1 /\ j' <= j + 1 /\ j <= j' + 1 /\ k' <= k + 1 /\ k <= k' + 1)%nat ->
    v [i; j; k] < v [i'; j'; k'].

Lemma below_all_spec (v : list nat -> K) n x cs :
  (forall c, In c cs -> exists i j k, c = [i; j; k] /\ (i + j + k = n)%nat) ->
  exists b, below_all (vdict v n) x cs = Ok b /\ (b = true <-> forall c, In c cs -> x < v c).
Proof.
  induction cs as [|c cs IH]; intro H; cbn [below_all]; [exists true; split; [reflexivity|]; split; [intros _ c []|reflexivity]|].
  destruct (H c (or_introl eq_refl)) as (i & j & k & -> & E). rewrite vdict_get by exact E.
  destruct (fleb (v [i; j; k]) x) eqn:Hf.
  - exists false. split; [reflexivity|]. split; [discriminate|]. intro Hall. exfalso.
    specialize (Hall _ (or_introl eq_refl)). apply (flt_not_le K) in Hall. apply Hall. exact Hf.
  - destruct IH as (b & Eb & Hb); [intros; apply H; right; assumption|]. exists b. split; [exact Eb|].
    rewrite Hb. split.
    + intros Hall c [<-|Hc]; [|apply Hall; exact Hc]. apply (flt_not_le K). intro Hle. unfold fle in Hle. congruence.
    + intros Hall c Hc. apply Hall. right. exact Hc.
Qed.

Lemma basic_checker_spec (v : list nat -> K) n i j k : (i + j + k = n)%nat ->
  exists b, basic_checker (vdict v n) i j k (v [i; j; k]) = Ok b /\ (b = true <-> lmin v n i j k).
Proof.
  intro E. unfold basic_checker.
  destruct (Nat.eqb_spec i 0) as [Hi|Hi]; [exists false; split; [reflexivity|]; split; [discriminate|]; intros [H _]; lia|].
  destruct (Nat.eqb_spec j 0) as [Hj|Hj]; [exists false; split; [reflexivity|]; split; [discriminate|]; intros [H _]; lia|].
  destruct (Nat.eqb_spec k 0) as [Hk|Hk]; [exists false; split; [reflexivity|]; split; [discriminate|]; intros [H _]; lia|].
  cbn [orb].
  destruct (below_all_spec v n (v [i; j; k])
    [[i; j - 1; k + 1]; [i + 1; j - 1; k]; [i - 1; j; k + 1]; [i - 1; j + 1; k]; [i + 1; j; k - 1]; [i; j + 1; k - 1]]%nat)
    as (b & Eb & Hb).
  - intros c Hc. cbn [In] in Hc.
    repeat (destruct Hc as [<-|Hc]; [do 3 eexists; split; [reflexivity|lia]|]). destruct Hc.
  - exists b. split; [exact Eb|]. rewrite Hb. unfold lmin. split.
    + intro Hall. split; [lia|]. intros i' j' k' E' Hne Hnear. apply Hall. cbn [In].
      assert (Hd : i' <> i \/ j' <> j \/ k' <> k).
      { destruct (Nat.eq_dec i' i); [|auto]. destruct (Nat.eq_dec j' j); [|auto]. right; right. intro. apply Hne. congruence. }
      assert (Hi' : (i' = i - 1 \/ i' = i \/ i' = i + 1)%nat) by lia.
      assert (Hj' : (j' = j - 1 \/ j' = j \/ j' = j + 1)%nat) by lia.
      clear Hall Hb Eb Hne.
      destruct Hi' as [ -> | [ -> | -> ] ]; destruct Hj' as [ -> | [ -> | -> ] ]; try (exfalso; lia).
      * replace k' with (k + 1)%nat by lia. tauto.
      * replace k' with k by lia. tauto.
      * replace k' with (k + 1)%nat by lia. tauto.
      * replace k' with (k - 1)%nat by lia. tauto.
      * replace k' with k by lia. tauto.
      * replace k' with (k - 1)%nat by lia. tauto.
    + intros [_ Hmin] c Hc. cbn [In] in Hc.
      repeat (destruct Hc as [<-|Hc]; [apply Hmin; [lia| |lia]; intro Ec; injection Ec; lia|]). destruct Hc.
Qed.

Lemma scan_spec (cyc : bool) (v : list nat -> K) n cs :
  (forall c, In c cs -> exists i j k, c = [i; j; k] /\ (i + j + k = n)%nat) -> NoDup cs ->
  exists l, scan cyc (vdict v n) (map (fun c => (c, v c)) cs) = Ok l /\ NoDup l /\
    (forall c, In c l -> exists i j k, c = [i; j; k]) /\
    forall i j k, In (if cyc then [j; k; i] else [i; j; k]) l <->
      In [i; j; k] cs /\ lmin v n i j k /\ (cyc = true -> (j <= i /\ k <= i)%nat).
Proof.
  induction cs as [|c cs IH]; intros H Hn; cbn [map scan].
  { exists []. split; [reflexivity|]. split; [constructor|]. split; [intros c []|]. intros i j k. split; [intros []|intros [[] _]]. }
  inversion Hn as [|? ? Hx Hr]; subst.
  destruct (H c (or_introl eq_refl)) as (i & j & k & -> & E).
  destruct (IH (fun c Hc => H c (or_intror Hc)) Hr) as (l & El & Hl & Hsh & Hin). clear IH.
  assert (Hc : exists b, checker cyc (vdict v n) i j k (v [i; j; k]) = Ok b /\
             (b = true <-> lmin v n i j k /\ (cyc = true -> (j <= i /\ k <= i)%nat))).
  { unfold checker. destruct (basic_checker_spec v n i j k E) as (b & Eb & Hb). destruct cyc; cbn [andb].
    - destruct (Nat.ltb_spec i j); cbn [orb];
        [exists false; split; [reflexivity|]; split; [discriminate|]; intros [_ Hc1]; specialize (Hc1 eq_refl); lia|].
      destruct (Nat.ltb_spec i k);
        [exists false; split; [reflexivity|]; split; [discriminate|]; intros [_ Hc1]; specialize (Hc1 eq_refl); lia|].
      exists b. split; [exact Eb|]. rewrite Hb. tauto.
    - exists b. split; [exact Eb|]. rewrite Hb. split; [|tauto]. intro. split; [assumption|discriminate]. }
  destruct Hc as (b & Eb & Hb). rewrite Eb, El. destruct b.
  - assert (Hb' := proj1 Hb eq_refl). exists ((if cyc then [j; k; i] else [i; j; k]) :: l). split; [reflexivity|].
    split; [|split].
    + constructor; [|exact Hl]. rewrite Hin. intros [Hc _]. contradiction.
    + intros c [<-|Hc]; [destruct cyc; do 3 eexists; reflexivity|apply Hsh; exact Hc].
    + intros i' j' k'. cbn [In]. rewrite Hin. split.
      * intros [Ec|Hc]; [|tauto].
        assert (E3 : i = i' /\ j = j' /\ k = k') by (destruct cyc; injection Ec; auto).
        destruct E3 as (<- & <- & <-). tauto.
      * intros [[Ec|Hc] Hrest]; [|tauto]. injection Ec as <- <- <-. left. reflexivity.
  - exists l. split; [reflexivity|]. split; [exact Hl|]. split; [exact Hsh|]. intros i' j' k'. rewrite Hin. cbn [In]. split; [tauto|].
    intros [[Ec|Hc] Hrest]; [|tauto]. injection Ec as <- <- <-. apply Hb in Hrest. discriminate.
Qed.

Lemma nontrivial_iff i j k : is_nontrivial [i; j; k] = true <->
  (0 < i /\ 0 < j /\ 0 < k /\ i <> j /\ j <> k /\ i <> k)%nat.
Proof.
  unfold is_nontrivial, is_border, is_symmetric. cbn [existsb length].
  rewrite andb_true_iff, !negb_true_iff, !orb_false_iff, Nat.ltb_ge, !Nat.eqb_neq.
  cbn [nodup]. destruct (in_dec Nat.eq_dec i [j; k]) as [H1|H1]; destruct (in_dec Nat.eq_dec j [k]) as [H2|H2];
    cbn [In] in H1, H2; destruct (in_dec Nat.eq_dec k []) as [[]|_]; cbn [length]; lia.
Qed.

(** ** The whole search, for any values *)
Lemma firstn_map' {A B} (f : A -> B) m l : firstn m (map f l) = map f (firstn m l).
Proof. revert l. induction m; intros [|x l]; cbn; [reflexivity..|]. rewrite IHm. reflexivity. Qed.

Lemma minima_all (v : list nat -> K) n (flt : bool) :
  exists l, local_minima (Grid 3 (grid_coor 3 n) (map v (grid_coor 3 n))) flt false = Ok l /\ NoDup l /\
    (forall c, In c l -> exists i j k, c = [i; j; k]) /\
    forall i j k, In [i; j; k] l <->
      lmin v n i j k /\ (flt = true -> (i <> j /\ j <> k /\ i <> k)%nat).
Proof.
  unfold local_minima. cbn [g_nvars g_coor g_value Nat.eqb negb].
  rewrite combine_map_r. fold (vdict v n).
  destruct (scan_spec false v n (grid_coor 3 n)) as (l & El & Hl & Hsh & Hin).
  { intros c Hc. apply grid_coor_in in Hc. destruct Hc as [Hlen Hs].
    destruct c as [|i [|j [|k [|]]]]; try discriminate. exists i, j, k. split; [reflexivity|]. cbn in Hs. lia. }
  { apply generate_partitions_NoDup. }
  fold (vdict v n) in El. rewrite El.
  assert (Hin' : forall i j k, In [i; j; k] l <-> lmin v n i j k).
  { intros i j k. rewrite (Hin i j k). split; [tauto|]. intro H. split; [|split; [exact H|discriminate]].
    apply grid_coor_in. split; [reflexivity|]. destruct H as [H _]. cbn. lia. }
  destruct flt.
  - exists (filter is_nontrivial l). split; [reflexivity|]. split; [apply NoDup_filter; exact Hl|]. split.
    + intros c Hc. apply filter_In in Hc. apply Hsh. tauto.
    + intros i j k. rewrite filter_In, Hin', nontrivial_iff. split; [tauto|].
      intros [H1 H2]. split; [exact H1|]. specialize (H2 eq_refl). destruct H1 as [H1 _]. lia.
  - exists l. split; [reflexivity|]. split; [exact Hl|]. split; [exact Hsh|].
    intros i j k. rewrite Hin'. split; [|tauto]. intro. split; [assumption|discriminate].
Qed.

Lemma lmin_rot (v : list nat -> K) n i j k : (forall a b c, v [b; c; a] = v [a; b; c]) ->
  lmin v n i j k <-> lmin v n j k i.
Proof.
  intro Hv.
  assert (H : forall i j k, lmin v n i j k -> lmin v n j k i).
  { clear i j k. intros i j k [H1 H2]. split; [lia|]. intros i' j' k' E Hne Hnear. rewrite (Hv i j k), (Hv k' i' j').
    apply H2; [lia| |lia]. intro Ec. apply Hne. congruence. }
  split; [apply H|]. intro H1. apply H, H. exact H1.
Qed.

Lemma minima_cyc_scan (v : list nat -> K) n (flt : bool) :
  exists l, local_minima (Grid 3 (grid_coor 3 n) (map v (grid_coor 3 n))) flt true = Ok l /\ NoDup l /\
    (forall c, In c l -> exists i j k, c = [i; j; k]) /\
    forall i j k, In [j; k; i] l <->
      (lmin v n i j k /\ (j <= i /\ k <= i) /\ n - i < 2 * n / 3 /\ (flt = true -> i <> j /\ j <> k /\ i <> k))%nat.
Proof.
  unfold local_minima. cbn [g_nvars g_coor g_value Nat.eqb negb].
  rewrite grid_n_ok, firstn_map', !combine_map_r. fold (vdict v n).
  assert (HT : (2 * n / 3 <= S n)%nat).
  { transitivity (3 * n / 3)%nat; [apply Nat.div_le_mono; lia|]. rewrite (Nat.mul_comm 3), Nat.div_mul by lia. lia. }
  rewrite firstn_rows by exact HT.
  assert (Hsub : forall c, In c (flat_map (row n) (seq 0 (2 * n / 3))) -> In c (grid_coor 3 n)).
  { intros c Hc. rewrite <- firstn_rows in Hc by exact HT. rewrite <- (firstn_skipn (2 * n / 3 * (2 * n / 3 + 1) / 2) (grid_coor 3 n)).
    apply in_or_app. left. exact Hc. }
  destruct (scan_spec true v n (flat_map (row n) (seq 0 (2 * n / 3)))) as (l & El & Hl & Hsh & Hin).
  { intros c Hc. apply Hsub, grid_coor_in in Hc. destruct Hc as [Hlen Hs].
    destruct c as [|i [|j [|k [|]]]]; try discriminate. exists i, j, k. split; [reflexivity|]. cbn in Hs. lia. }
  { rewrite <- firstn_rows by exact HT. pose proof (generate_partitions_NoDup 3 n true) as Hnd.
    fold (grid_coor 3 n) in Hnd. rewrite <- (firstn_skipn (2 * n / 3 * (2 * n / 3 + 1) / 2) (grid_coor 3 n)) in Hnd.
    revert Hnd. generalize (skipn (2 * n / 3 * (2 * n / 3 + 1) / 2) (grid_coor 3 n)).
    generalize (firstn (2 * n / 3 * (2 * n / 3 + 1) / 2) (grid_coor 3 n)). clear.
    intros l1 l2. induction l1; cbn; intro H; [constructor|]. inversion H; subst. constructor; [|auto].
    intro Hi. apply H2. apply in_or_app. left. exact Hi. }
  rewrite El.
  assert (Hin' : forall i j k, In [j; k; i] l <-> (lmin v n i j k /\ (j <= i /\ k <= i) /\ n - i < 2 * n / 3)%nat).
  { intros i j k. rewrite (Hin i j k), in_rows. split.
    - intros ((s & Hs & Ei & Es) & Hm & Hc). specialize (Hc eq_refl). split; [exact Hm|]. split; [exact Hc|].
      destruct Hm as [Hm _]. lia.
    - intros (Hm & Hc & Hs). split; [|split; [exact Hm|intros _; exact Hc]]. exists (n - i)%nat.
      destruct Hm as [Hm _]. lia. }
  destruct flt.
  - exists (filter is_nontrivial l). split; [reflexivity|]. split; [apply NoDup_filter; exact Hl|]. split.
    + intros c Hc. apply filter_In in Hc. apply Hsh. tauto.
    + intros i j k. rewrite filter_In, Hin', nontrivial_iff. split.
      * intros [(H1 & H2 & H3) H4]. repeat split; try tauto; try (apply H1); lia.
      * intros (H1 & H2 & H3 & H4). specialize (H4 eq_refl). split; [tauto|]. destruct H1 as [H1 _]. lia.
  - exists l. split; [reflexivity|]. split; [exact Hl|]. split; [exact Hsh|]. intros i j k. rewrite Hin'. split.
    + intros (H1 & H2 & H3). split; [exact H1|]. split; [exact H2|]. split; [exact H3|discriminate].
    + tauto.
Qed.

Lemma row_bound n i j k : (i + j + k = n -> j < i -> k < i -> j <> k -> n - i < 2 * n / 3)%nat.
Proof.
  intros E Hj Hk Hne. assert (n - i + 1 <= 2 * n / 3)%nat; [|lia].
  apply Nat.div_le_lower_bound; lia.
Qed.

Lemma minima_cyc (v : list nat -> K) n : (forall a b c, v [b; c; a] = v [a; b; c]) ->
  exists l, local_minima (Grid 3 (grid_coor 3 n) (map v (grid_coor 3 n))) true true = Ok l /\ NoDup l /\
    (forall c, In c l -> exists i j k, c = [i; j; k]) /\
    forall i j k, In [i; j; k] l <-> (lmin v n i j k /\ i <> j /\ i < k /\ j < k)%nat.
Proof.
  intro Hv. destruct (minima_cyc_scan v n true) as (l & El & Hl & Hsh & Hin). exists l.
  split; [exact El|]. split; [exact Hl|]. split; [exact Hsh|]. intros i j k. rewrite (Hin k i j).
  rewrite (lmin_rot v n k i j Hv). split.
  - intros (H1 & H2 & H3 & H4). specialize (H4 eq_refl). split; [exact H1|]. lia.
  - intros (H1 & H2 & H3 & H4). split; [exact H1|]. split; [lia|]. split; [|lia].
    destruct H1 as [H1 _]. apply (row_bound n k i j); lia.
Qed.
End Facts.
Arguments pt {K}. Arguments lmin {K}.
