(** * Linear SOS: exact correction of the answer of the linear program
    Models triples/core/linsos/correction.py. *)
From Coq Require Import Bool List Arith Lia Ring Field Permutation.
From Verif Require Import OrdField Base Poly Partitions Perm Monomials MonomialsLemmas.
Import ListNotations.

Section Correction.
Context {K : OrdField}.
Local Open Scope of_scope.
Variable G : list (list nat).
Variable n : nat.
Variable hom : bool.
(** the objects of class [LinearBasis]; only [as_poly] (basis.py:70-71) is used by the correction *)
Variable B : Type.
Variable as_poly : B -> poly K.

(** [_filter_zero_y] (correction.py:11-22); [y[-num:]] is all of [y] for [num = 0] *)
Definition filter_zero_y (y : list K) (basis : list B) (num : nat) : list K * list B * nat :=
  let kept := filter (fun t => negb (fst t =? 0)) (combine y basis) in
  let tail := if Nat.eqb num 0 then y else skipn (length y - num) y in
  (map fst kept, map snd kept, length (filter (fun v => negb (v =? 0)) tail)).

(** [_basis_as_matrix] (correction.py:24-30): the arrays are written one after the other and cut
    into pieces of the length of the first; given as the number of rows and the list of columns *)
Fixpoint arrays (basis : list B) : res (list (list K)) :=
  match basis with
  | [] => Ok []
  | b :: l => match arraylize G n hom true n (as_poly b) with
              | Err e => Err e
              | Ok v => match arrays l with Err e => Err e | Ok vs => Ok (v :: vs) end
              end
  end.
Definition basis_as_matrix (basis : list B) : res (nat * list (list K)) :=
  match arrays basis with
  | Err e => Err e
  | Ok [] => Err IndexError
  | Ok (v0 :: vs) =>
      let k := length v0 in let flat := concat (v0 :: vs) in let m := length (v0 :: vs) in
      if Nat.eqb (length flat) (m * k) then Ok (k, map (fun i => firstn k (skipn (i * k) flat)) (seq 0 m))
      else Err ValueError
  end.
(** [_add_regularizer] (correction.py:32-38): a last row with ones for the multipliers *)
Definition add_regularizer (cols : list (list K)) (num : nat) : res (list (list K)) :=
  let row := repeat 0 (length cols - num) ++ repeat 1 num in
  if Nat.eqb (length row) (length cols) then Ok (map (fun t => fst t ++ [snd t]) (combine cols row)) else Err OtherError.
(** the product of a matrix (list of columns) with a vector *)
Definition matvec (rows : nat) (cols : list (list K)) (y : list K) : list K :=
  map (fun r => fsum (map (fun t => vget (fst t) r * snd t) (combine cols y))) (seq 0 rows).
Fixpoint veqb (a b : list K) : bool :=
  match a, b with [], [] => true | x :: a', y :: b' => (x =? y) && veqb a' b' | _, _ => false end.

(** [linear_correction] (correction.py:40-105). [y] is the answer of the linear program after
    [rationalize_array], an arbitrary list of numbers; [lusolve] is [LUsolve] (112-137), None when
    it raises. *)
Definition linear_correction (lusolve : list (list K) -> list K -> option (list K))
    (y : list K) (basis : list B) (num : nat) : res (list K * list B * bool) :=
  let '(y, basis, num) := filter_zero_y y basis num in
  match basis_as_matrix basis with
  | Err e => Err e
  | Ok (k, cols) =>
      match add_regularizer cols num with
      | Err e => Err e
      | Ok A =>
          let target := repeat 0 k ++ [1] in
          if veqb (matvec (S k) A y) target then Ok (y, basis, true)
          else match lusolve A target with
               | None => Ok (y, basis, false)
               | Some ry =>
                   if forallb (fun v => 0 <=? v) ry then
                     let '(ry, rbasis, rnum) := filter_zero_y ry basis num in
                     match basis_as_matrix rbasis with
                     | Err _ => Ok (y, basis, false)
                     | Ok (rk, rcols) =>
                         match add_regularizer rcols rnum with
                         | Err _ => Ok (y, basis, false)
                         | Ok rA => if veqb (matvec (S rk) rA ry) target then Ok (ry, rbasis, true)
                                    else Ok (y, basis, false)
                         end
                     end
                   else Ok (y, basis, false)
               end
      end
  end.
End Correction.

(** ** Lemmas *)
Section Facts.
Variable K : OrdField.
Local Open Scope of_scope.
Add Field Kf_lin : (F_field K).
Variable G : list (list nat).
Variable n : nat.
Variable hom : bool.
Hypothesis HG : is_group n G.
Variable B : Type.
Variable as_poly : B -> poly K.

(** the cyclic sum of a function of the point *)
Definition cyc (f : (nat -> K) -> K) (x : nat -> K) : K := fsum (map (fun g => f (fun i => x (nth i g 0%nat))) G).

Lemma veqb_eq (a : list K) : forall b, veqb a b = true <-> a = b.
Proof.
  induction a as [|u a IH]; intros [|v b]; cbn [veqb]; try (split; congruence).
  rewrite andb_true_iff, feqb_eq, IH. split; [intros [-> ->]; reflexivity|intro H; injection H; auto].
Qed.

(** The symmetrised polynomial is a linear function of its array. *)
Definition functional (d : nat) (x : nat -> K) (v : list K) : K :=
  fsum (map (fun m => match index_of (standard_monom G m) (inv_monoms G n hom d) with Some i => vget v i | None => 0 end * meval x m)
            (generate_partitions n d hom)).
Lemma array_functional d p : wf n p -> total_degree p = d -> covered K hom d p ->
  exists v, arraylize G n hom true n p = Ok v /\ length v = length (inv_monoms G n hom d) /\
    forall x, functional d x v = cyc (fun z => peval z p) x.
Proof.
  intros Hw Hd Hc. subst d.
  destruct (expand_value_lemma K n G hom HG p Hw) as [v [q [Hv [Hq Hx]]]].
  { intro E. exists (total_degree p). intros m Hm. specialize (Hc m Hm). rewrite E in Hc. exact Hc. }
  exists v. split; [exact Hv|].
  assert (Hl : length v = length (inv_monoms G n hom (total_degree p))).
  { rewrite (arraylize_expand_spec K n G hom HG p Hw) in Hv. apply Ok_inj in Hv. subst v. apply map_length. }
  split; [exact Hl|]. intro x. unfold cyc. rewrite <- Hx.
  destruct (invarraylize_spec K n G hom HG v (total_degree p) Hl) as [q' [Hq' [Hwq [Hnz Hco]]]].
  rewrite Hq in Hq'. apply Ok_inj in Hq'. subst q'.
  rewrite (peval_over K x q (generate_partitions n (total_degree p) hom)).
  - unfold functional. apply fsum_map_ext. intros m Hm. rewrite Hco; [reflexivity|].
    apply generate_partitions_in in Hm. tauto.
  - apply Hwq.
  - apply generate_partitions_NoDup.
  - intros m Hm. assert (Hlm : length m = n) by (apply Hwq; exact Hm).
    apply in_map_iff in Hm. destruct Hm as [[m' c] [E Hin]]. cbn [fst] in E. subst m'.
    pose proof (Hnz m c Hin) as Hne. rewrite <- (coef_in K q m c (proj1 Hwq) Hin), (Hco m Hlm) in Hne.
    destruct (index_of (standard_monom G m) (inv_monoms G n hom (total_degree p))) as [i|] eqn:Ei; [|congruence].
    apply index_of_some in Ei. destruct Ei as [Hi Ei].
    assert (Hin' : In (standard_monom G m) (inv_monoms G n hom (total_degree p))) by (rewrite <- Ei; apply nth_In; exact Hi).
    apply (inv_monoms_in n G hom) in Hin'. destruct Hin' as [Hp _].
    apply generate_partitions_in. apply generate_partitions_in in Hp.
    rewrite (permute_sum n G HG m _ Hlm (standard_in_orbit n G HG m)) in Hp. tauto.
Qed.

(** the polynomial is zero, or it has degree [d] and lies in the monomials of degree [d] *)
Definition good (d : nat) (b : B) : Prop :=
  wf n (as_poly b) /\ (as_poly b = [] \/ (total_degree (as_poly b) = d /\ covered K hom d (as_poly b))).
Definition represents (d : nat) (b : B) (v : list K) : Prop :=
  length v = length (inv_monoms G n hom d) /\ forall x, functional d x v = cyc (fun z => peval z (as_poly b)) x.

(** what the array of a member may be *)
Definition array_of (d : nat) (b : B) (v : list K) : Prop :=
  represents d b v \/ as_poly b = [] /\ length v = length (inv_monoms G n hom 0) /\ forall i, vget v i = 0.

Lemma zero_array v : arraylize G n hom true n ([] : poly K) = Ok v -> length v = length (inv_monoms G n hom 0) /\ forall i, vget v i = 0.
Proof.
  intros H. rewrite (arraylize_expand_spec K n G hom HG []) in H; [|split; [constructor|intros m []]].
  apply Ok_inj in H. subst v. change (total_degree ([] : poly K)) with 0%nat. split; [apply map_length|]. intro i. unfold vget.
  destruct (Nat.lt_ge_cases i (length (inv_monoms G n hom 0))) as [Hi|Hi].
  - set (F := fun s => fsum (map (fun g => coef ([] : poly K) (act 0%nat g s)) G)).
    rewrite nth_indep with (d' := F []) by (rewrite map_length; exact Hi). rewrite map_nth. unfold F. apply fsum_map_0. reflexivity.
  - apply nth_overflow. rewrite map_length. exact Hi.
Qed.

Lemma arrays_good d bs : (forall b, In b bs -> good d b) ->
  exists vs, arrays G n hom B as_poly bs = Ok vs /\ Forall2 (array_of d) bs vs.
Proof.
  induction bs as [|b bs IH]; intro H; [exists []; split; [reflexivity|constructor]|].
  destruct (IH (fun c Hc => H c (or_intror Hc))) as (vs & Evs & Hf).
  destruct (H b (or_introl eq_refl)) as (H1 & [H2|[H2 H3]]).
  - destruct (array_functional 0 (as_poly b) H1) as (v & Ev & Hl & Hx); [rewrite H2; reflexivity|intros m Hm; rewrite H2 in Hm; destruct Hm|].
    exists (v :: vs). cbn [arrays]. rewrite Ev, Evs. split; [reflexivity|]. constructor; [right; split; [exact H2|]|exact Hf].
    rewrite H2 in Ev. exact (zero_array v Ev).
  - destruct (array_functional d _ H1 H2 H3) as (v & Ev & Hl & Hx).
    exists (v :: vs). cbn [arrays]. rewrite Ev, Evs. split; [reflexivity|constructor; [left; split; assumption|exact Hf]].
Qed.

Lemma chunks k (vs : list (list K)) : Forall (fun v => length v = k) vs ->
  length (concat vs) = (length vs * k)%nat /\
  map (fun i => firstn k (skipn (i * k) (concat vs))) (seq 0 (length vs)) = vs.
Proof.
  induction vs as [|v vs IH]; intro H; [split; reflexivity|].
  inversion_clear H as [|? ? Hv Hvs]. destruct (IH Hvs) as [H1 H2]. split.
  - cbn [concat length]. rewrite app_length, H1, Hv. cbn. lia.
  - cbn [length seq map concat Nat.mul]. f_equal.
    + cbn [skipn]. rewrite firstn_app, Hv, Nat.sub_diag. cbn [firstn]. rewrite app_nil_r, <- Hv. apply firstn_all.
    + rewrite <- seq_shift, map_map. rewrite <- H2 at 2. apply map_ext. intro i. f_equal.
      cbn [Nat.mul]. rewrite <- Hv at 1. rewrite skipn_app, skipn_all2 by lia. cbn [app]. f_equal. rewrite Hv. lia.
Qed.

Lemma functional_zero d x v : (forall i, vget v i = 0) -> functional d x v = 0.
Proof. intro H. unfold functional. apply fsum_map_0. intros m _. destruct (index_of _ _); [rewrite H|]; ring. Qed.
Lemma zero_represents d b v : as_poly b = [] -> length v = length (inv_monoms G n hom d) -> (forall i, vget v i = 0) -> represents d b v.
Proof.
  intros E Hl Hz. split; [exact Hl|]. intro x. rewrite functional_zero by exact Hz. rewrite E. symmetry. unfold cyc. apply fsum_map_0. reflexivity.
Qed.

Lemma two_lengths {A} (L L0 : nat) (vs : list (list A)) : Forall (fun v => length v = L \/ length v = L0) vs ->
  exists z, (length (concat vs) + z * L = length vs * L + z * L0)%nat /\ (z = 0%nat -> Forall (fun v => length v = L) vs).
Proof.
  induction 1 as [|v vs Hv _ IH]; [exists 0%nat; split; [reflexivity|constructor]|]. destruct IH as (z & E & Hz).
  destruct Hv as [Hv|Hv].
  - exists z. split; [cbn [concat length]; rewrite app_length; cbn; lia|]. intro Z0. constructor; [exact Hv|exact (Hz Z0)].
  - exists (S z). split; [cbn [concat length]; rewrite app_length; cbn; lia|]. discriminate.
Qed.

Lemma basis_as_matrix_good d bs k vs : (forall b, In b bs -> good d b) -> basis_as_matrix G n hom B as_poly bs = Ok (k, vs) ->
  exists d', k = length (inv_monoms G n hom d') /\ Forall2 (represents d') bs vs.
Proof.
  intros H Hm. destruct (arrays_good d bs H) as (ws & Ev & Hf). unfold basis_as_matrix in Hm. rewrite Ev in Hm.
  destruct ws as [|w0 ws]; [discriminate|].
  destruct (Nat.eqb_spec (length (concat (w0 :: ws))) (length (w0 :: ws) * length w0)) as [El|]; [|discriminate].
  set (L := length (inv_monoms G n hom d)) in *. set (L0 := length (inv_monoms G n hom 0)) in *.
  assert (H2 : Forall (fun v => length v = L \/ length v = L0) (w0 :: ws)).
  { clear - Hf. induction Hf as [|b v bs' vs' [[Hv _]|[_ [Hv _]]] Hf IH]; constructor; auto. }
  assert (Hend : forall k', length w0 = k' -> Forall (fun v => length v = k') (w0 :: ws) -> k = k' /\ vs = w0 :: ws).
  { intros k' Ek Hk. destruct (chunks k' _ Hk) as [_ Hc]. rewrite Ek in Hm. rewrite Hc in Hm. injection Hm as <- <-. split; reflexivity. }
  destruct (Nat.eq_dec L L0) as [EL|NL].
  - assert (Hk : Forall (fun v => length v = L) (w0 :: ws)).
    { rewrite Forall_forall in *. intros v Hv. specialize (H2 v Hv). lia. }
    destruct (Hend L) as [-> ->]; [inversion Hk; assumption|exact Hk|]. exists d. split; [reflexivity|].
    clear - Hf EL. induction Hf as [|b v bs' vs' Hv Hf IH]; constructor; [|exact IH].
    destruct Hv as [Hv|(E & Hl & Hz)]; [exact Hv|]. apply zero_represents; [exact E| |exact Hz]. fold L. fold L0 in Hl. lia.
  - assert (Hw0 : length w0 = L \/ length w0 = L0) by (inversion H2; assumption). destruct Hw0 as [Hw|Hw].
    + destruct (two_lengths L L0 _ H2) as (z & Ez & Hz). rewrite El, Hw in Ez. assert (z = 0)%nat by nia. specialize (Hz H0).
      destruct (Hend L Hw Hz) as [-> ->]. exists d. split; [reflexivity|].
      clear - Hf Hz NL. induction Hf as [|b v bs' vs' Hv Hf IH]; constructor; inversion_clear Hz as [|? ? Hlv Hz']; [|exact (IH Hz')].
      destruct Hv as [Hv|(E & Hl & _)]; [exact Hv|]. exfalso. fold L0 in Hl. lia.
    + assert (H2' : Forall (fun v => length v = L0 \/ length v = L) (w0 :: ws)) by (eapply Forall_impl; [|exact H2]; cbn; tauto).
      destruct (two_lengths L0 L _ H2') as (z & Ez & Hz). rewrite El, Hw in Ez. assert (z = 0)%nat by nia. specialize (Hz H0).
      destruct (Hend L0 Hw Hz) as [-> ->]. exists 0%nat. split; [reflexivity|].
      clear - Hf Hz NL. induction Hf as [|b v bs' vs' Hv Hf IH]; constructor; inversion_clear Hz as [|? ? Hlv Hz']; [|exact (IH Hz')].
      destruct Hv as [[Hl _]|(E & Hl & Hzz)]; [exfalso; fold L in Hl; lia|]. apply zero_represents; assumption.
Qed.

(** what a solution of the system says *)
Lemma vget_app_l (v : list K) u r : (r < length v)%nat -> vget (v ++ [u]) r = vget v r.
Proof. intro H. unfold vget. apply app_nth1. exact H. Qed.
Lemma vget_app_r (v : list K) u : vget (v ++ [u]) (length v) = u.
Proof. unfold vget. rewrite app_nth2 by lia. rewrite Nat.sub_diag. reflexivity. Qed.

Definition combination (y : list K) (bs : list B) (x : nat -> K) : K :=
  fsum (map (fun t => fst t * cyc (fun z => peval z (as_poly (snd t))) x) (combine y bs)).

Lemma fsum_swap_rows (M : list (list nat)) (w : list nat -> list K -> K) (yv : list (list K * K)) (f : list nat -> K) :
  (forall m, In m M -> fsum (map (fun t => w m (fst t) * snd t) yv) = 0) ->
  fsum (map (fun t => fsum (map (fun m => w m (fst t) * f m) M) * snd t) yv) = 0.
Proof.
  intro H. transitivity (fsum (map (fun t => fsum (map (fun m => w m (fst t) * f m * snd t) M)) yv)).
  { apply fsum_map_ext. intros t _. rewrite <- fsum_map_mul_r. reflexivity. }
  rewrite fsum_swap. apply fsum_map_0. intros m Hm.
  transitivity (fsum (map (fun t => (w m (fst t) * snd t) * f m) yv)); [apply fsum_map_ext; intros; ring|].
  rewrite fsum_map_mul_r, (H m Hm). ring.
Qed.

Lemma bordered_low k i (vs : list (list K)) : Forall (fun v => length v = k) vs -> (i < k)%nat -> forall row y, length row = length vs ->
  fsum (map (fun t => vget (fst t) i * snd t) (combine (map (fun t => fst t ++ [snd t]) (combine vs row)) y)) =
  fsum (map (fun t => vget (fst t) i * snd t) (combine vs y)).
Proof.
  intros Hk Hi. induction Hk as [|v vs Hv Hk IH]; intros [|r row] y Lr; try discriminate; [reflexivity|].
  destruct y as [|u y]; [reflexivity|]. cbn [combine map fst snd fsum fold_right].
  rewrite vget_app_l by (rewrite Hv; exact Hi). f_equal. apply IH. cbn in Lr; congruence.
Qed.
Lemma bordered_last k (vs : list (list K)) : Forall (fun v => length v = k) vs -> forall row y, length row = length vs ->
  fsum (map (fun t => vget (fst t) k * snd t) (combine (map (fun t => fst t ++ [snd t]) (combine vs row)) y)) =
  fsum (map (fun t => fst t * snd t) (combine row y)).
Proof.
  intros Hk. induction Hk as [|v vs Hv Hk IH]; intros [|r row] y Lr; try discriminate; [reflexivity|].
  destruct y as [|u y]; [reflexivity|]. cbn [combine map fst snd fsum fold_right].
  rewrite <- Hv at 1. rewrite vget_app_r. f_equal. apply IH. cbn in Lr; congruence.
Qed.
Lemma row_sum a b (y : list K) : (length y = a + b)%nat ->
  fsum (map (fun t => fst t * snd t) (combine (repeat 0 a ++ repeat 1 b) y)) = fsum (skipn a y).
Proof.
  revert y. induction a as [|a IH]; intros y Hl; cbn [repeat app skipn Nat.add] in *.
  - revert y Hl. induction b as [|b IH]; intros [|u y] Hl; try discriminate; [reflexivity|].
    cbn [repeat combine map fst snd fsum fold_right]. fold (fsum y). f_equal; [ring|apply IH; cbn in Hl; congruence].
  - destruct y as [|u y]; [discriminate|]. cbn [combine map fst snd fsum fold_right].
    rewrite <- (IH y) by (cbn in Hl; congruence). unfold fsum. ring.
Qed.

Lemma matvec_get rows cols (y : list K) r : (r < rows)%nat ->
  vget (matvec rows cols y) r = fsum (map (fun t => vget (fst t) r * snd t) (combine cols y)).
Proof.
  intro Hr. unfold matvec, vget at 1. set (f := fun r => fsum (map (fun t => vget (fst t) r * snd t) (combine cols y))).
  rewrite nth_indep with (d' := f 0%nat) by (rewrite map_length, seq_length; exact Hr).
  rewrite map_nth, seq_nth by exact Hr. reflexivity.
Qed.

Lemma system_meaning d bs vs y num A : length y = length bs ->
  Forall2 (represents d) bs vs ->
  add_regularizer vs num = Ok A ->
  matvec (S (length (inv_monoms G n hom d))) A y = repeat 0 (length (inv_monoms G n hom d)) ++ [1] ->
  (forall x, combination y bs x = 0) /\ (num <= length bs)%nat /\ fsum (skipn (length bs - num) y) = 1.
Proof.
  intros Hl Hf HA Hm. set (k := length (inv_monoms G n hom d)) in *.
  unfold add_regularizer in HA. destruct (Nat.eqb_spec (length (repeat (0 : K) (length vs - num) ++ repeat 1 num)) (length vs)) as [Er|]; [|discriminate].
  apply Ok_inj in HA. subst A.
  assert (Lf : length bs = length vs) by (clear - Hf; induction Hf; cbn; congruence).
  assert (Hk : Forall (fun v => length v = k) vs) by (clear - Hf; induction Hf as [|b v bs' vs' [Hv _] Hf IH]; constructor; auto).
  assert (Hrow : forall r, (r < S k)%nat ->
    fsum (map (fun t => vget (fst t) r * snd t) (combine (map (fun t => fst t ++ [snd t]) (combine vs (repeat 0 (length vs - num) ++ repeat 1 num))) y))
    = vget (repeat 0 k ++ [1]) r).
  { intros r Hr. rewrite <- Hm. symmetry. apply matvec_get. exact Hr. }
  clear Hm. assert (Hnum : (num <= length vs)%nat) by (rewrite app_length, !repeat_length in Er; lia).
  split; [|split; [lia|]].
  - intro x. unfold combination.
    assert (Hz : fsum (map (fun t => functional d x (fst t) * snd t) (combine vs y)) = 0).
    { unfold functional. apply (fsum_swap_rows (generate_partitions n d hom)
        (fun m v => match index_of (standard_monom G m) (inv_monoms G n hom d) with Some i => vget v i | None => 0 end) (combine vs y) (meval x)).
      intros m _. destruct (index_of (standard_monom G m) (inv_monoms G n hom d)) as [i|] eqn:Ei;
        [|apply fsum_map_0; intros; ring].
      apply index_of_some in Ei. destruct Ei as [Hi _]. fold k in Hi.
      rewrite <- (bordered_low k i vs Hk Hi _ y Er), (Hrow i) by lia.
      unfold vget. rewrite app_nth1 by (rewrite repeat_length; exact Hi). apply nth_repeat. }
    rewrite <- Hz. clear - Hf Hl. revert y Hl. induction Hf as [|b v bs' vs' [_ Hv] Hf IH]; intros [|u y] Hl; try discriminate; [reflexivity|].
    cbn [combine map fst snd]. unfold fsum in *. cbn [fold_right]. rewrite Hv, <- (IH y) by (cbn in Hl; congruence). ring.
  - rewrite Lf, <- (row_sum (length vs - num) num y) by lia.
    rewrite <- (bordered_last k vs Hk _ y Er), (Hrow k) by lia.
    rewrite <- (repeat_length (0 : K) k) at 2. apply vget_app_r.
Qed.

(** *** Filtering *)
Lemma filter_zero_y_lengths (y : list K) (bs : list B) num y' bs' num' : filter_zero_y B y bs num = (y', bs', num') ->
  length y' = length bs' /\ (forall b, In b bs' -> In b bs) /\ (forall u, In u y' -> In u y /\ u <> 0).
Proof.
  unfold filter_zero_y. intro E. injection E as <- <- <-. rewrite !map_length. split; [reflexivity|split].
  - intros b Hb. apply in_map_iff in Hb. destruct Hb as ([u c] & <- & Hi). apply filter_In in Hi. exact (in_combine_r _ _ _ _ (proj1 Hi)).
  - intros u Hu. apply in_map_iff in Hu. destruct Hu as ([u' c] & <- & Hi). apply filter_In in Hi. destruct Hi as [Hi Hn].
    split; [exact (in_combine_l _ _ _ _ Hi)|]. cbn in *. intro E0. rewrite E0 in Hn.
    rewrite (proj2 (feqb_eq K 0 0) eq_refl) in Hn. discriminate.
Qed.

(** the two parts of a basis: first the others, then the multipliers *)
Definition parted (ism : B -> bool) (bs : list B) (num : nat) : Prop :=
  exists l1 l2, bs = l1 ++ l2 /\ length l2 = num /\ (forall b, In b l1 -> ism b = false) /\ (forall b, In b l2 -> ism b = true).
Definition multiplier_sum (ism : B -> bool) (y : list K) (bs : list B) : K :=
  fsum (map fst (filter (fun t => ism (snd t)) (combine y bs))).

Lemma combine_app {A C} (a1 a2 : list A) (c1 c2 : list C) : length a1 = length c1 ->
  combine (a1 ++ a2) (c1 ++ c2) = combine a1 c1 ++ combine a2 c2.
Proof. revert c1. induction a1 as [|x a1 IH]; intros [|u c1] H; try discriminate; [reflexivity|]. cbn. f_equal. apply IH. cbn in H; congruence. Qed.
Lemma filter_all {A} (f : A -> bool) l : (forall x, In x l -> f x = true) -> filter f l = l.
Proof. induction l as [|x l IH]; intro H; [reflexivity|]. cbn. rewrite (H x (or_introl eq_refl)). f_equal. apply IH. intros; apply H; right; assumption. Qed.
Lemma filter_none {A} (f : A -> bool) l : (forall x, In x l -> f x = false) -> filter f l = [].
Proof. induction l as [|x l IH]; intro H; [reflexivity|]. cbn. rewrite (H x (or_introl eq_refl)). apply IH. intros; apply H; right; assumption. Qed.
Lemma map_fst_combine {A C} (a : list A) (c : list C) : length a = length c -> map fst (combine a c) = a.
Proof. revert c. induction a as [|x a IH]; intros [|u c] H; try discriminate; [reflexivity|]. cbn. f_equal. apply IH. cbn in H; congruence. Qed.
Lemma filter_fst_combine {A C} (f : A -> bool) (a : list A) (c : list C) : length a = length c ->
  map fst (filter (fun t => f (fst t)) (combine a c)) = filter f a.
Proof. revert c. induction a as [|x a IH]; intros [|u c] H; try discriminate; [reflexivity|]. cbn. destruct (f x); cbn; [f_equal|]; apply IH; cbn in H; congruence. Qed.

Lemma filter_zero_y_parted ism (y : list K) bs num y' bs' num' : length y = length bs -> parted ism bs num -> (0 < num)%nat ->
  filter_zero_y B y bs num = (y', bs', num') -> parted ism bs' num'.
Proof.
  intros Hl (l1 & l2 & Eb & Hn & H1 & H2) Hp E. unfold filter_zero_y in E.
  destruct (Nat.eqb_spec num 0) as [E0|_]; [lia|]. injection E as <- <- <-.
  set (y1 := firstn (length l1) y). set (y2 := skipn (length l1) y).
  assert (Ey : y = y1 ++ y2) by (symmetry; apply firstn_skipn).
  assert (L1 : length y1 = length l1) by (unfold y1; rewrite firstn_length; subst bs; rewrite app_length in Hl; lia).
  assert (L2 : length y2 = length l2) by (unfold y2; rewrite skipn_length; subst bs; rewrite app_length in Hl; lia).
  assert (Et : skipn (length y - num) y = y2).
  { unfold y2. f_equal. subst bs. rewrite app_length in Hl. lia. }
  rewrite Et. rewrite Ey at 1. rewrite Eb, (combine_app _ _ _ _ L1), filter_app, map_app.
  eexists; eexists; split; [reflexivity|split; [|split]].
  - rewrite map_length. rewrite <- (filter_fst_combine _ _ _ L2), map_length. reflexivity.
  - intros b Hb. apply in_map_iff in Hb. destruct Hb as ([u c] & <- & Hi). apply filter_In in Hi. exact (H1 _ (in_combine_r _ _ _ _ (proj1 Hi))).
  - intros b Hb. apply in_map_iff in Hb. destruct Hb as ([u c] & <- & Hi). apply filter_In in Hi. exact (H2 _ (in_combine_r _ _ _ _ (proj1 Hi))).
Qed.

Lemma parted_sum ism (y : list K) bs num : length y = length bs -> parted ism bs num ->
  fsum (skipn (length bs - num) y) = multiplier_sum ism y bs.
Proof.
  intros Hl (l1 & l2 & Eb & Hn & H1 & H2). unfold multiplier_sum.
  set (y1 := firstn (length l1) y). set (y2 := skipn (length l1) y).
  assert (Ey : y = y1 ++ y2) by (symmetry; apply firstn_skipn).
  assert (L1 : length y1 = length l1) by (unfold y1; rewrite firstn_length; subst bs; rewrite app_length in Hl; lia).
  assert (L2 : length y2 = length l2) by (unfold y2; rewrite skipn_length; subst bs; rewrite app_length in Hl; lia).
  assert (Et : skipn (length bs - num) y = y2) by (unfold y2; f_equal; subst bs; rewrite app_length in *; lia).
  rewrite Et. rewrite Ey at 1. rewrite Eb, (combine_app _ _ _ _ L1), filter_app.
  rewrite filter_none, filter_all.
  - cbn [app]. rewrite (map_fst_combine _ _ L2). reflexivity.
  - intros [u c] Hi. exact (H2 _ (in_combine_r _ _ _ _ Hi)).
  - intros [u c] Hi. exact (H1 _ (in_combine_r _ _ _ _ Hi)).
Qed.

Lemma filter_ext_len {A} (f : A -> bool) l : (length (filter f l) <= length l)%nat.
Proof. induction l as [|x l IH]; cbn; [lia|]. destruct (f x); cbn; lia. Qed.

(** *** The correction *)
Definition honest (lusolve : list (list K) -> list K -> option (list K)) : Prop :=
  forall A b x, lusolve A b = Some x -> length x = length A /\ matvec (length b) A x = b.

Definition correct (bs : list B) (ism : B -> bool) (y' : list K) (bs' : list B) : Prop :=
  length y' = length bs' /\ (forall b, In b bs' -> In b bs) /\ (forall x, combination y' bs' x = 0) /\ multiplier_sum ism y' bs' = 1.

Lemma add_regularizer_length cols num (A : list (list K)) : add_regularizer cols num = Ok A -> length A = length cols.
Proof.
  unfold add_regularizer. destruct (Nat.eqb_spec (length (repeat (0 : K) (length cols - num) ++ repeat 1 num)) (length cols)) as [E|]; [|discriminate].
  intro H. apply Ok_inj in H. subst A. rewrite map_length, combine_length, E. lia.
Qed.

Lemma basis_as_matrix_nonempty bs m : basis_as_matrix G n hom B as_poly bs = Ok m -> bs <> [].
Proof. intros H E. subst bs. discriminate. Qed.

Lemma linear_correction_lemma d ism lusolve y bs num y' bs' :
  honest lusolve -> length y = length bs -> parted ism bs num -> (0 < num)%nat -> (forall b, In b bs -> good d b) ->
  linear_correction G n hom B as_poly lusolve y bs num = Ok (y', bs', true) -> correct bs ism y' bs'.
Proof.
  intros Hh Hl Hp Hn Hg H. unfold linear_correction in H.
  destruct (filter_zero_y B y bs num) as [[y1 bs1] num1] eqn:E1.
  destruct (filter_zero_y_lengths _ _ _ _ _ _ E1) as (L1 & I1 & _).
  pose proof (filter_zero_y_parted _ _ _ _ _ _ _ Hl Hp Hn E1) as P1.
  destruct (basis_as_matrix G n hom B as_poly bs1) as [[k cols]|e] eqn:Em; [|discriminate].
  destruct (basis_as_matrix_good d bs1 k cols (fun b Hb => Hg b (I1 b Hb)) Em) as (d1 & -> & Hf). rename cols into vs.
  destruct (add_regularizer vs num1) as [A|e] eqn:EA; [|discriminate].
  destruct (veqb (matvec (S (length (inv_monoms G n hom d1))) A y1) (repeat 0 (length (inv_monoms G n hom d1)) ++ [1])) eqn:Ev.
  - injection H as <- <-. apply veqb_eq in Ev.
    destruct (system_meaning d1 bs1 vs y1 num1 A L1 Hf EA Ev) as (Hc & _ & Hs).
    split; [exact L1|split; [exact I1|split; [exact Hc|]]]. rewrite <- Hs. symmetry. apply parted_sum; assumption.
  - destruct (lusolve A _) as [ry|] eqn:El; [|discriminate].
    destruct (Hh _ _ _ El) as [Lr Hr]. rewrite app_length, repeat_length, Nat.add_1_r in Hr.
    assert (Lv : length bs1 = length vs) by (clear - Hf; induction Hf; cbn; congruence).
    rewrite (add_regularizer_length _ _ _ EA), <- Lv in Lr.
    destruct (system_meaning d1 bs1 vs ry num1 A Lr Hf EA Hr) as (_ & Hnum & Hs).
    assert (Hn1 : (0 < num1)%nat).
    { destruct num1 as [|m]; [|lia]. exfalso. rewrite Nat.sub_0_r, <- Lr, skipn_all in Hs. cbn in Hs. exact (fneq10 K (eq_sym Hs)). }
    destruct (forallb (fun v => 0 <=? v) ry); [|discriminate].
    destruct (filter_zero_y B ry bs1 num1) as [[y2 bs2] num2] eqn:E2.
    destruct (filter_zero_y_lengths _ _ _ _ _ _ E2) as (L2 & I2 & _).
    pose proof (filter_zero_y_parted _ _ _ _ _ _ _ Lr P1 Hn1 E2) as P2.
    destruct (basis_as_matrix G n hom B as_poly bs2) as [[k2 cols2]|e] eqn:Em2; [|discriminate].
    destruct (basis_as_matrix_good d bs2 k2 cols2 (fun b Hb => Hg b (I1 b (I2 b Hb))) Em2) as (d2 & -> & Hf2). rename cols2 into vs2.
    destruct (add_regularizer vs2 num2) as [A2|e] eqn:EA2; [|discriminate].
    destruct (veqb (matvec (S (length (inv_monoms G n hom d2))) A2 y2) _) eqn:Ev2; [|discriminate].
    injection H as <- <-. apply veqb_eq in Ev2.
    assert (EL : length (inv_monoms G n hom d1) = length (inv_monoms G n hom d2)).
    { apply (f_equal (@length _)) in Ev2. unfold matvec in Ev2. rewrite map_length, seq_length, app_length, repeat_length in Ev2. cbn in Ev2. lia. }
    rewrite EL in Ev2.
    destruct (system_meaning d2 bs2 vs2 y2 num2 A2 L2 Hf2 EA2 Ev2) as (Hc2 & _ & Hs2).
    split; [exact L2|split; [intros b Hb; exact (I1 b (I2 b Hb))|split; [exact Hc2|]]].
    rewrite <- Hs2. symmetry. apply parted_sum; assumption.
Qed.

Lemma linear_correction_nonneg lusolve y bs num y' bs' : (forall u, In u y -> 0 <= u) ->
  linear_correction G n hom B as_poly lusolve y bs num = Ok (y', bs', true) -> forall u, In u y' -> 0 < u.
Proof.
  intros Hy H u Hu. assert (D : 0 <= u /\ u <> 0).
  { unfold linear_correction in H. destruct (filter_zero_y B y bs num) as [[y1 bs1] num1] eqn:E1.
    destruct (filter_zero_y_lengths _ _ _ _ _ _ E1) as (_ & _ & I1).
    destruct (basis_as_matrix G n hom B as_poly bs1) as [[k cols]|e]; [|discriminate].
    destruct (add_regularizer cols num1) as [A|e]; [|discriminate].
    destruct (veqb _ _) eqn:?.
    - injection H as <- <-. destruct (I1 u Hu) as [Hi Hne]. split; [exact (Hy u Hi)|exact Hne].
    - destruct (lusolve A _) as [ry|]; [|discriminate].
      destruct (forallb (fun v => 0 <=? v) ry) eqn:Eb; [|discriminate].
      destruct (filter_zero_y B ry bs1 num1) as [[y2 bs2] num2] eqn:E2.
      destruct (filter_zero_y_lengths _ _ _ _ _ _ E2) as (_ & _ & I2).
      destruct (basis_as_matrix G n hom B as_poly bs2) as [[k2 cols2]|e]; [|discriminate].
      destruct (add_regularizer cols2 num2) as [A2|e]; [|discriminate].
      destruct (veqb (matvec (S k2) A2 y2) _) eqn:?; [|discriminate].
      injection H as <- <-. destruct (I2 u Hu) as [Hi Hne]. rewrite forallb_forall in Eb. split; [apply fleb_le, Eb, Hi|exact Hne]. }
  destruct D as [D1 D2]. apply flt_le_neq. split; congruence.
Qed.
End Facts.
