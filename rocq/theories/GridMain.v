(** * Specification and main lemmas of grids of values *)
From Coq Require Import Bool List Arith Lia Ring Field.
From Verif Require Import OrdField Base Partitions Poly Grid GridFacts.
Import ListNotations.

(** ** Specification *)
(** The value of a polynomial at a point with natural coordinates. *)
Definition value_at {K : OrdField} (p : poly K) (c : list nat) : K := peval (fun x => fnat (nth x c 0)) p.
(** A polynomial in [nvars] variables of total degree at most [d]. *)
Definition poly_in {K : OrdField} (nvars d : nat) (p : poly K) : Prop :=
  forall t, In t p -> length (fst t) = nvars /\ list_sum (fst t) <= d.
(** [(i, j, k)] is a point of the open triangle of side [n], at which the polynomial is smaller than at
    every other point of the closed triangle whose coordinates differ by at most one. *)
Definition grid_min {K : OrdField} (p : poly K) (n i j k : nat) : Prop :=
  (0 < i /\ 0 < j /\ 0 < k /\ i + j + k = n) /\
  forall i' j' k', i' + j' + k' = n -> (i', j', k') <> (i, j, k) ->
    i' <= i + 1 /\ i <= i' + 1 /\ j' <= j + 1 /\ j <= j' + 1 /\ k' <= k + 1 /\ k <= k' + 1 ->
    (value_at p [i; j; k] < value_at p [i'; j'; k'])%F.
(** Values do not change when the variables are rotated. *)
Definition rotation_invariant {K : OrdField} (p : poly K) : Prop :=
  forall a b c, value_at p [b; c; a] = value_at p [a; b; c].

Section Main.
Variable K : OrdField.
Local Open Scope of_scope.
Add Field Kf : (F_field K).

Lemma gdeg_le (p : poly K) nv d : poly_in nv d p -> (gdeg p <= d)%nat.
Proof.
  intro H. unfold gdeg. apply list_max_le. apply Forall_forall. intros x Hx. apply in_map_iff in Hx.
  destruct Hx as (t & <- & Ht). apply (H t Ht).
Qed.
Lemma render_ok nv (p : poly K) size h : (size <= size_limit)%nat -> poly_in nv degree_limit p ->
  render nv p size h = Ok (Grid nv (grid_coor nv size) (map (value_at p) (grid_coor nv size))).
Proof.
  intros Hs Hp. unfold render. rewrite render_value_ok; [reflexivity|exact Hs|apply (gdeg_le p nv); exact Hp|].
  intros t Ht. apply (Hp t Ht).
Qed.

Lemma grid_values nv (p : poly K) size h : (size <= size_limit)%nat -> poly_in nv degree_limit p ->
  exists g, render nv p size h = Ok g /\ g_nvars g = nv /\ NoDup (g_coor g) /\
    (forall c, In c (g_coor g) <-> length c = nv /\ list_sum c = size) /\
    g_value g = map (value_at p) (g_coor g).
Proof.
  intros Hs Hp. eexists. split; [apply render_ok; assumption|]. cbn [g_nvars g_coor g_value].
  split; [reflexivity|]. split; [apply generate_partitions_NoDup|]. split; [|reflexivity].
  intro c. apply (generate_partitions_in nv size true).
Qed.

Lemma minima_exact (p : poly K) size h g flt : (size <= size_limit)%nat -> poly_in 3 degree_limit p ->
  render 3 p size h = Ok g ->
  exists l, local_minima g flt false = Ok l /\ NoDup l /\
    (forall c, In c l -> exists i j k, c = [i; j; k]) /\
    forall i j k, In [i; j; k] l <-> grid_min p size i j k /\ (flt = true -> i <> j /\ j <> k /\ i <> k).
Proof.
  intros Hs Hp E. rewrite (render_ok 3 p size h Hs Hp) in E. apply Ok_inj in E. subst g.
  apply (minima_all K (value_at p) size flt).
Qed.
Lemma minima_cyclic (p : poly K) size h g : (size <= size_limit)%nat -> poly_in 3 degree_limit p ->
  rotation_invariant p -> render 3 p size h = Ok g ->
  exists l, local_minima g true true = Ok l /\ NoDup l /\
    (forall c, In c l -> exists i j k, c = [i; j; k]) /\
    forall i j k, In [i; j; k] l <-> (grid_min p size i j k /\ i <> j /\ i < k /\ j < k)%nat.
Proof.
  intros Hs Hp Hr E. rewrite (render_ok 3 p size h Hs Hp) in E. apply Ok_inj in E. subst g.
  apply (minima_cyc K (value_at p) size Hr).
Qed.
Lemma grid_min_rot (p : poly K) n i j k : rotation_invariant p -> grid_min p n i j k -> grid_min p n j k i.
Proof. intros Hr H. apply (lmin_rot K (value_at p) n i j k Hr). exact H. Qed.

Lemma minima_one_rotation (p : poly K) size h g : (size <= size_limit)%nat -> poly_in 3 degree_limit p ->
  rotation_invariant p -> render 3 p size h = Ok g ->
  exists l, local_minima g true true = Ok l /\
    forall i j k, grid_min p size i j k -> i <> j -> j <> k -> i <> k ->
      (In [i; j; k] l /\ ~ In [j; k; i] l /\ ~ In [k; i; j] l) \/
      (~ In [i; j; k] l /\ In [j; k; i] l /\ ~ In [k; i; j] l) \/
      (~ In [i; j; k] l /\ ~ In [j; k; i] l /\ In [k; i; j] l).
Proof.
  intros Hs Hp Hr E. destruct (minima_cyclic p size h g Hs Hp Hr E) as (l & El & _ & _ & Hin).
  exists l. split; [exact El|]. intros i j k Hm H1 H2 H3.
  pose proof (grid_min_rot p size i j k Hr Hm) as Hm2. pose proof (grid_min_rot p size j k i Hr Hm2) as Hm3.
  rewrite (Hin i j k), (Hin j k i), (Hin k i j).
  destruct (Nat.lt_ge_cases i k); destruct (Nat.lt_ge_cases j k); destruct (Nat.lt_ge_cases i j).
  - left. repeat split; try assumption; try apply Hm; try lia.
  - left. repeat split; try assumption; try apply Hm; try lia.
  - right; right. repeat split; try assumption; try apply Hm3; try lia.
  - right; left. repeat split; try assumption; try apply Hm2; try lia.
  - right; left. repeat split; try assumption; try apply Hm2; try lia.
  - right; left. repeat split; try assumption; try apply Hm2; try lia.
  - right; right. repeat split; try assumption; try apply Hm3; try lia.
  - right; left. repeat split; try assumption; try apply Hm2; try lia.
Qed.

(** ** Beyond the limits *)
Lemma repeat_map_const {A B} (x : B) (l : list A) : repeat x (length l) = map (fun _ => x) l.
Proof. induction l; cbn; [reflexivity|]. rewrite IHl. reflexivity. Qed.
Lemma render_large nv (p : poly K) size h : (size_limit < size \/ degree_limit < gdeg p)%nat ->
  render nv p size h = Ok (Grid nv (grid_coor nv size) (map (fun _ => 0) (grid_coor nv size))).
Proof.
  intro H. unfold render, render_grid_value.
  replace (Nat.ltb size_limit size || Nat.ltb degree_limit (gdeg p)) with true.
  - rewrite repeat_map_const. reflexivity.
  - symmetry. apply orb_true_iff. rewrite !Nat.ltb_lt. exact H.
Qed.
Lemma lmin_const n i j k (x : K) : ~ lmin (fun _ => x) n i j k.
Proof.
  intros [H Hm]. apply (flt_irrefl K x). apply (Hm (i + 1) (j - 1) k)%nat; [lia| |lia].
  intro E. injection E. lia.
Qed.
Lemma empty_of (l : list (list nat)) : (forall c, In c l -> exists i j k, c = [i; j; k]) ->
  (forall i j k, ~ In [i; j; k] l) -> l = [].
Proof.
  destruct l as [|c l]; [reflexivity|]. intros H H'. exfalso. destruct (H c (or_introl eq_refl)) as (i & j & k & ->).
  apply (H' i j k). left. reflexivity.
Qed.
Lemma minima_large (p : poly K) size h flt cyc d t : (size_limit < size)%nat \/ (In t p /\ list_sum (fst t) = d /\ degree_limit < d)%nat ->
  exists g, render 3 p size h = Ok g /\ local_minima g flt cyc = Ok [].
Proof.
  intro H. eexists. split.
  - apply render_large. destruct H as [H|(Ht & Hd & Hl)]; [left; exact H|right].
    assert (Hall : Forall (fun k => (k <= gdeg p)%nat) (map (fun t => list_sum (fst t)) p)) by (apply list_max_le; unfold gdeg; lia).
    rewrite Forall_forall in Hall. specialize (Hall (list_sum (fst t)) (in_map (fun t => list_sum (fst t)) _ _ Ht)). lia.
  - destruct cyc.
    + destruct (minima_cyc_scan K (fun _ => 0) size flt) as (l & El & _ & Hsh & Hin). rewrite El. f_equal.
      apply empty_of; [exact Hsh|]. intros i j k Hi. apply Hin in Hi. destruct Hi as [Hi _]. exact (lmin_const _ _ _ _ _ Hi).
    + destruct (minima_all K (fun _ => 0) size flt) as (l & El & _ & Hsh & Hin). rewrite El. f_equal.
      apply empty_of; [exact Hsh|]. intros i j k Hi. apply Hin in Hi. destruct Hi as [Hi _]. exact (lmin_const _ _ _ _ _ Hi).
Qed.

(** ** The centre is lost *)
Definition squares : poly K := [([2; 0; 0]%nat, 1); ([0; 2; 0]%nat, 1); ([0; 0; 2]%nat, 1)].
Lemma squares_value i j k : value_at squares [i; j; k] = fnat (i * i + j * j + k * k).
Proof.
  rewrite !fnat_add, !fnat_mul. unfold value_at, peval, squares, meval. cbn [map length seq fst snd nth fpow].
  unfold fsum, fprod. cbn [fold_right]. ring.
Qed.
Lemma fnat_lt n m : (n < m)%nat -> (fnat n : K) < fnat m.
Proof.
  intro H. replace m with (n + S (m - n - 1))%nat by lia. rewrite fnat_add. apply flt_sub.
  replace (fnat n + fnat (S (m - n - 1)) - fnat n) with (fnat (S (m - n - 1)) : K) by ring. apply fnat_pos. lia.
Qed.
Lemma squares_in : poly_in 3 degree_limit squares.
Proof. intros t [<-|[<-|[<-|[]]]]; split; try reflexivity; unfold degree_limit; cbn; lia. Qed.
Lemma squares_rot : rotation_invariant squares.
Proof. intros a b c. rewrite !squares_value. f_equal. lia. Qed.
Lemma squares_min m : (1 <= m)%nat -> grid_min squares (3 * m) m m m.
Proof.
  intro H. split; [lia|]. intros i j k E Hne Hnear. rewrite !squares_value. apply fnat_lt.
  assert (Hd : i <> m \/ j <> m).
  { destruct (Nat.eq_dec i m); [|auto]. destruct (Nat.eq_dec j m); [|auto]. exfalso. apply Hne.
    subst. replace k with m by lia. reflexivity. }
  assert (Hi : (i = m - 1 \/ i = m \/ i = m + 1)%nat) by lia.
  assert (Hj : (j = m - 1 \/ j = m \/ j = m + 1)%nat) by lia.
  clear Hne. destruct m as [|m]; [lia|].
  destruct Hi as [ -> | [ -> | -> ] ]; destruct Hj as [ -> | [ -> | -> ] ]; try (exfalso; lia).
  - replace k with (S (S m)) by lia. nia.
  - replace k with (S m) by lia. nia.
  - replace k with (S (S m)) by lia. nia.
  - replace k with m by lia. nia.
  - replace k with (S m) by lia. nia.
  - replace k with m by lia. nia.
Qed.
Lemma centre_lost m h : (1 <= m)%nat -> (3 * m <= size_limit)%nat ->
  exists (p : poly K) g l, poly_in 3 degree_limit p /\ rotation_invariant p /\ render 3 p (3 * m) h = Ok g /\
    local_minima g false true = Ok l /\ grid_min p (3 * m) m m m /\ ~ In [m; m; m] l.
Proof.
  intros H1 H2. exists squares. eexists.
  destruct (minima_cyc_scan K (value_at squares) (3 * m) false) as (l & El & _ & _ & Hin). exists l.
  split; [apply squares_in|]. split; [apply squares_rot|]. split; [apply (render_ok 3 squares (3 * m) h H2 squares_in)|].
  split; [exact El|]. split; [apply squares_min; exact H1|]. rewrite (Hin m m m). intros (_ & _ & H3 & _).
  replace (2 * (3 * m))%nat with (2 * m * 3)%nat in H3 by lia. rewrite Nat.div_mul in H3 by lia. lia.
Qed.
End Main.
