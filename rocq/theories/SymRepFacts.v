(** * Lemmas on the symmetric transformations (SymRep.v) *)
From Coq Require Import Bool List Arith ZArith Lia Ring Field.
From Verif Require Import OrdField Base Perm Poly PolyId PolyOps Coeff Monomials Expr CertLimit CertExact TriPoly AcuteFacts Nvars Univariate Halfspace Bivariate PivotProve Cyclic CyclicRw Extract SymRep.
Import ListNotations.

Section Facts.
Variable K : OrdField.
Local Open Scope of_scope.
Add Field Kf : (F_field K).
Local Notation wf := Poly.wf.

(** ** Integer powers *)
Lemma zpow_0 (x : K) : zpow x 0 = 1.
Proof. reflexivity. Qed.
Lemma zpow_neq0 (x : K) n : x <> 0 -> zpow x n <> 0.
Proof.
  intro H. destruct n; cbn [zpow]; [apply fneq10|apply fpow_neq0, H|]. intro C. apply (fneq10 K).
  transitivity (x ^ Pos.to_nat p * finv (x ^ Pos.to_nat p)); [field; apply fpow_neq0, H|]. rewrite C. ring.
Qed.
Lemma zpow_succ (x : K) n : x <> 0 -> zpow x (n + 1) = x * zpow x n.
Proof.
  intro Hx. destruct (Z_lt_le_dec n 0) as [H|H].
  - destruct (Z.eq_dec n (-1)) as [->|N].
    + change (-1 + 1)%Z with 0%Z. cbn [zpow]. change (Pos.to_nat 1) with 1%nat. cbn [fpow]. field. exact Hx.
    + rewrite (zpow_odd_neg K x n) by (lia || assumption). cbn [zpow]. change (Pos.to_nat 1) with 1%nat. cbn [fpow]. field. exact Hx.
  - rewrite (zpow_odd_pos K x (n + 1)) by lia. f_equal. f_equal. lia.
Qed.
Lemma zpow_add_nat (x : K) n k : x <> 0 -> zpow x (n + Z.of_nat k) = zpow x n * x ^ k.
Proof.
  intro Hx. induction k as [|k IH]; [cbn [fpow]; rewrite Z.add_0_r; ring|].
  replace (n + Z.of_nat (S k))%Z with (n + Z.of_nat k + 1)%Z by lia. rewrite zpow_succ, IH by assumption. cbn [fpow]. ring.
Qed.
Lemma fmul_cancel (x y u : K) : u <> 0 -> x * u = y * u -> x = y.
Proof. intros H E. transitivity (x * u / u); [field; exact H|]. rewrite E. field. exact H. Qed.
Lemma zpow_opp (x : K) n : x <> 0 -> zpow x (- n) * zpow x n = 1.
Proof.
  intro Hx. destruct n; cbn [zpow Z.opp]; [ring| |]; field; apply fpow_neq0, Hx.
Qed.
Lemma zpow_add (x : K) m n : x <> 0 -> zpow x (m + n) = zpow x m * zpow x n.
Proof.
  intro Hx. destruct (Z_lt_le_dec n 0) as [H|H].
  - apply (fmul_cancel _ _ (x ^ Z.to_nat (- n))); [apply fpow_neq0, Hx|]. rewrite <- zpow_add_nat by exact Hx.
    replace (m + n + Z.of_nat (Z.to_nat (- n)))%Z with m by lia.
    assert (E : zpow x n * x ^ Z.to_nat (- n) = 1).
    { rewrite <- zpow_add_nat by exact Hx. replace (n + Z.of_nat (Z.to_nat (- n)))%Z with 0%Z by lia. reflexivity. }
    transitivity (zpow x m * (zpow x n * x ^ Z.to_nat (- n))); [rewrite E; ring|ring].
  - replace n with (Z.of_nat (Z.to_nat n)) by lia. rewrite zpow_add_nat, zpow_nat by exact Hx. reflexivity.
Qed.
Lemma zpow_mul_l (x y : K) n : x <> 0 -> y <> 0 -> zpow (x * y) n = zpow x n * zpow y n.
Proof.
  intros Hx Hy. destruct n; cbn [zpow]; [ring|apply fpow_mul_l|]. rewrite fpow_mul_l. field. split; apply fpow_neq0; assumption.
Qed.
Lemma zpow_zpow_nat (x : K) k n : x <> 0 -> zpow (x ^ k) n = zpow x (Z.of_nat k * n).
Proof.
  intro Hx. induction k as [|k IH].
  - cbn [fpow]. change (Z.of_nat 0 * n)%Z with 0%Z. rewrite zpow_0. destruct n; cbn [zpow]; rewrite ?fpow_1; try reflexivity. field. apply fneq10.
  - cbn [fpow]. rewrite zpow_mul_l by (assumption || apply fpow_neq0, Hx). rewrite IH, <- zpow_add by exact Hx. f_equal. lia.
Qed.
Lemma zpow_neg1 (x : K) : zpow x (-1) = finv x.
Proof. cbn [zpow]. change (Pos.to_nat 1) with 1%nat. cbn [fpow]. f_equal. ring. Qed.

(** ** The composition *)
Lemma dehom_full (pp : poly K) : wf 3 pp -> wf 2 (dehom pp) /\ forall u v : K, peval (pt3 u v 0) (dehom pp) = peval (pt3 1 u v) pp.
Proof.
  intros [Hn Hl]. unfold dehom.
  assert (W0 : wf 2 ([] : poly K)) by (split; [constructor|intros m []]).
  assert (L : forall t, In t (map (fun t : list nat * K => ([nth 1 (fst t) 0; nth 2 (fst t) 0]%nat, snd t)) pp) -> length (fst t) = 2%nat).
  { intros t Ht. apply in_map_iff in Ht. destruct Ht as (u & <- & _). reflexivity. }
  split; [apply clean_wf, (proj1 (fold_add_eval K (fun _ => 0) 2 _ _ W0 L))|].
  intros u v. rewrite clean_eval, (proj2 (fold_add_eval K (pt3 u v 0) 2 _ _ W0 L)), peval_nil.
  transitivity (peval (pt3 u v 0) (map (fun t : list nat * K => ([nth 1 (fst t) 0; nth 2 (fst t) 0]%nat, snd t)) pp)); [ring|].
  unfold peval. rewrite map_map. apply fsum_map_ext. intros [m k] Ht. cbn [fst snd].
  assert (Lm : length m = 3%nat) by (apply Hl; unfold keys; apply in_map_iff; exists (m, k); auto).
  destruct m as [|i [|j [|l [|]]]]; try discriminate. cbn [nth]. rewrite !meval_cons, !meval_nil. cbn [pt3]. rewrite fpow_1. ring.
Qed.
Lemma compose_divfree (pq : poly K) h Q R P : divfree K Q = true -> divfree K R = true -> divfree K P = true -> divfree K (compose pq h Q R P) = true.
Proof. intros HQ HR HP. induction pq as [|t pq IH]; [reflexivity|]. cbn [compose fold_right divfree]. rewrite HQ, HR, HP. exact IH. Qed.
Lemma compose_value (pq : poly K) h Q R P (env : nat -> K) L p q r : wf 2 pq -> (forall m, In m (keys pq) -> (list_sum m <= h)%nat) -> p <> 0 ->
  ev env Q = L * p * q -> ev env R = L * r -> ev env P = L * p ^ 3 ->
  ev env (compose pq h Q R P) = L ^ h * p ^ (3 * h) * peval (pt3 (q / p ^ 2) (r / p ^ 3) 0) pq.
Proof.
  intros [_ Hl] Hh Hp EQ ER EP. induction pq as [|[m k] pq IH]; [unfold peval; cbn; ring|].
  assert (Lm : length m = 2%nat) by (apply Hl; left; reflexivity).
  assert (Sm : (list_sum m <= h)%nat) by (apply Hh; left; reflexivity).
  change (compose ((m, k) :: pq) h Q R P) with ((EC k * (Q ^ nth 0 m 0%nat * R ^ nth 1 m 0%nat * P ^ (h - list_sum m)) + compose pq h Q R P)%E).
  cbn [ev]. rewrite IH by (intros m' Hm'; (apply Hl || apply Hh); right; exact Hm'). rewrite peval_cons, EQ, ER, EP. cbn [fst snd].
  destruct m as [|i [|j [|]]]; try discriminate. cbn [nth]. change (list_sum [i; j]) with (i + (j + 0))%nat in *. rewrite Nat.add_0_r in *.
  rewrite !meval_cons, meval_nil. cbn [pt3].
  remember (h - (i + j))%nat as s. assert (Eh : h = (i + j + s)%nat) by lia. rewrite Eh.
  replace (3 * (i + j + s))%nat with (2 * i + i + 3 * j + 3 * s)%nat by lia.
  rewrite !fpow_add, !fpow_mul_l, !fpow_mul.
  assert (E2 : (q / p ^ 2) ^ i * (p ^ 2) ^ i = q ^ i) by (rewrite <- fpow_mul_l; f_equal; field; apply fpow_neq0, Hp).
  assert (E3 : (r / p ^ 3) ^ j * (p ^ 3) ^ j = r ^ j) by (rewrite <- fpow_mul_l; f_equal; field; apply fpow_neq0, Hp).
  rewrite <- E2, <- E3. ring.
Qed.
Lemma weights_value (pp : poly K) d (p q r : K) : wf 3 pp -> (forall m, In m (keys pp) -> weight m = d) -> p <> 0 ->
  peval (pt3 p q r) pp = p ^ d * peval (pt3 1 (q / p ^ 2) (r / p ^ 3)) pp.
Proof.
  intros [_ Hl] Hd Hp. unfold peval. rewrite <- fsum_map_mul_l. apply fsum_map_ext. intros [m k] Ht. cbn [fst snd].
  assert (In m (keys pp)) as Hm by (unfold keys; apply in_map_iff; exists (m, k); auto).
  pose proof (Hl m Hm) as Lm. specialize (Hd m Hm). destruct m as [|i [|j [|l [|]]]]; try discriminate. cbn [weight nth] in Hd. unfold weight in Hd. cbn [nth] in Hd.
  rewrite !meval_cons, !meval_nil. cbn [pt3]. rewrite fpow_1, <- Hd, !fpow_add, !fpow_mul.
  assert (E2 : (q / p ^ 2) ^ j * (p ^ 2) ^ j = q ^ j) by (rewrite <- fpow_mul_l; f_equal; field; apply fpow_neq0, Hp).
  assert (E3 : (r / p ^ 3) ^ l * (p ^ 3) ^ l = r ^ l) by (rewrite <- fpow_mul_l; f_equal; field; apply fpow_neq0, Hp).
  rewrite <- E2, <- E3. ring.
Qed.
Lemma total_degree_ge (p : poly K) m : In m (keys p) -> (list_sum m <= Monomials.total_degree p)%nat.
Proof.
  induction p as [|t p IH]; [intros []|]. cbn [keys map]. intros [<-|H]; unfold Monomials.total_degree; cbn [fold_right]; [lia|].
  specialize (IH H). unfold Monomials.total_degree in IH. lia.
Qed.
(** all weights are the weight of the first term *)
Definition isobaric (pp : poly K) : Prop := exists d, forall m, In m (keys pp) -> weight m = d.
Lemma isobaric_degree (pp : poly K) : isobaric pp -> forall m, In m (keys pp) -> weight m = pqr_degree pp.
Proof.
  intros [d H] m Hm. rewrite (H m Hm). destruct pp as [|t pp]; [destruct Hm|]. symmetry. apply H. left. reflexivity.
Qed.
Lemma compose_full (pp : poly K) Q R P (env : nat -> K) L p q r : wf 3 pp -> isobaric pp -> p <> 0 ->
  ev env Q = L * p * q -> ev env R = L * r -> ev env P = L * p ^ 3 ->
  let h := Monomials.total_degree (dehom pp) in
  ev env (compose (dehom pp) h Q R P) * p ^ pqr_degree pp = L ^ h * p ^ (3 * h) * peval (pt3 p q r) pp.
Proof.
  intros Hw Hi Hp EQ ER EP h. destruct (dehom_full pp Hw) as [W V].
  rewrite (compose_value (dehom pp) h Q R P env L p q r W (total_degree_ge _) Hp EQ ER EP), V.
  rewrite (weights_value pp (pqr_degree pp) p q r Hw (isobaric_degree pp Hi) Hp). ring.
Qed.

(** ** Extracting factors *)
Section Div.
Variable pdiv : poly K -> poly K -> poly K * poly K.
(** [divmod]: quotient and remainder *)
Definition div_exact : Prop := forall f g, wf 3 f -> wf 3 g -> wf 3 (fst (pdiv f g)) /\
  forall x, peval x f = peval x (fst (pdiv f g)) * peval x g + peval x (snd (pdiv f g)).
Hypothesis Hdiv : div_exact.
Lemma extract_loop_spec fuel : forall p f pts k r, wf 3 p -> wf 3 f -> extract_loop pdiv fuel p f pts = (k, r) ->
  wf 3 r /\ forall x, peval x p = peval x f ^ k * peval x r.
Proof.
  induction fuel as [|fuel IH]; intros p f pts k r Hp Hf H; cbn [extract_loop] in H.
  1: injection H as <- <-; split; [exact Hp|intro x; cbn [fpow]; ring].
  destruct (negb _); [injection H as <- <-; split; [exact Hp|intro x; cbn [fpow]; ring]|].
  destruct (Hdiv p f Hp Hf) as [Wq V]. destruct (pdiv p f) as [qt rm]. cbn [fst snd] in Wq, V. destruct rm as [|t rm].
  - destruct (extract_loop pdiv fuel qt f pts) as [k' r'] eqn:E. injection H as <- <-. destruct (IH _ _ _ _ _ Wq Hf E) as [W V'].
    split; [exact W|]. intro x. rewrite V, V', peval_nil. cbn [fpow]. ring.
  - injection H as <- <-. split; [exact Hp|intro x; cbn [fpow]; ring].
Qed.
Lemma extract_factor_spec fuel p f pts k r : wf 3 p -> wf 3 f -> extract_factor pdiv fuel p f pts = (k, r) ->
  wf 3 r /\ forall x, peval x p = peval x f ^ k * peval x r.
Proof.
  intros Hp Hf H. unfold extract_factor in H. destruct p as [|t p]; [|exact (extract_loop_spec _ _ _ _ _ _ Hp Hf H)].
  injection H as <- <-. split; [exact Hp|]. intro x. cbn [fpow]. ring.
Qed.

(** *** positive *)
Lemma pos_divfree : divfree K pos_Q = true /\ divfree K pos_R = true /\ divfree K pos_P = true /\ divfree K pos_w = true.
Proof. repeat split. Qed.
Lemma transform_pos_value fuel pp num pd wd : wf 3 pp -> isobaric pp -> transform_pos pdiv fuel pp = (num, pd, wd) ->
  wf 3 num /\
  forall p q r w x y z : K, p <> 0 -> w <> 0 ->
    y * ((x + y) * (4 * x + y) + z) = w * p * q -> x * y ^ 2 = w * r -> z * (x + 4 * y) + 4 * (x + y) ^ 3 = w * p ^ 3 -> (y - 2 * x) ^ 2 + z = w ->
    peval (pt3 x y z) num = zpow p pd * zpow w wd * peval (pt3 p q r) pp.
Proof.
  intros Hw Hi H. destruct pos_divfree as (DQ & DR & DP & Dw). unfold transform_pos in H.
  set (h := Monomials.total_degree (dehom pp)) in *. set (E := compose (dehom pp) h pos_Q pos_R pos_P) in *.
  destruct (expand_spec K E (compose_divfree _ _ _ _ _ DQ DR DP)) as (WE & VE & _).
  destruct (expand_spec K pos_w Dw) as (Ww & Vw & _).
  destruct (extract_factor pdiv fuel (expand E) (expand pos_w) _) as [m num'] eqn:Ex.
  destruct (extract_factor_spec _ _ _ _ _ _ WE Ww Ex) as [Wn V]. apply pair_equal_spec in H. destruct H as [H Hwd]. apply pair_equal_spec in H. destruct H as [Hnum Hpd]. subst num pd wd. split; [exact Wn|].
  intros p q r w x y z Hp Hw0 EQ ER EP Ew. specialize (V (pt3 x y z)). rewrite VE, Vw in V.
  replace (ev (pt3 x y z) pos_w) with w in V by (rewrite <- Ew; reflexivity).
  pose proof (compose_full pp pos_Q pos_R pos_P (pt3 x y z) w p q r Hw Hi Hp EQ ER EP) as C. cbv zeta in C. fold h in C. fold E in C. rewrite V in C.
  apply (fmul_cancel _ _ (w ^ m * p ^ pqr_degree pp)); [apply fmul_neq0; apply fpow_neq0; assumption|].
  transitivity (w ^ m * peval (pt3 x y z) num' * p ^ pqr_degree pp); [ring|]. rewrite C.
  assert (E1 : w ^ h = zpow w (Z.of_nat h - Z.of_nat m) * w ^ m) by (rewrite <- zpow_add_nat, <- zpow_nat by exact Hw0; f_equal; lia).
  assert (E2 : p ^ (3 * h) = zpow p (3 * Z.of_nat h - Z.of_nat (pqr_degree pp)) * p ^ pqr_degree pp) by (rewrite <- zpow_add_nat, <- zpow_nat by exact Hp; f_equal; lia).
  rewrite E1, E2. ring.
Qed.

(** *** real *)
Lemma real_divfree : divfree K real_Q = true /\ divfree K real_R = true /\ divfree K real_P = true /\ divfree K real_w = true.
Proof. repeat split. Qed.
Lemma min_x_le (p : poly K) m : In m (keys p) -> (min_x p <= nth 0 m 0)%nat.
Proof.
  destruct p as [|t p]; [intros []|]. unfold min_x. cbn [keys map]. intros [<-|H].
  - induction p as [|u p IH]; cbn [fold_right]; lia.
  - induction p as [|u p IH]; [destruct H|]. cbn [fold_right]. cbn [map] in H. destruct H as [<-|H]; [lia|]. specialize (IH H). lia.
Qed.
Lemma shift_x_spec k (p : poly K) : wf 3 p -> (forall m, In m (keys p) -> (k <= nth 0 m 0)%nat) ->
  wf 3 (shift_x k p) /\ forall x, peval x p = x 0%nat ^ k * peval x (shift_x k p).
Proof.
  intros [Hn Hl] Hk.
  assert (Ek : keys (shift_x k p) = map (fun m => match m with [] => [] | i :: m' => (i - k)%nat :: m' end) (keys p)).
  { unfold keys, shift_x. rewrite !map_map. reflexivity. }
  split; [split|].
  - rewrite Ek. revert Hn Hl Hk. generalize (keys p). intros l Hn Hl Hk. induction Hn as [|m l Hm Hn IH]; cbn [map]; constructor.
    + intro H. apply in_map_iff in H. destruct H as (m' & E & Hm'). apply Hm.
      assert (L1 := Hl m (or_introl eq_refl)). assert (L2 := Hl m' (or_intror Hm')). assert (K1 := Hk m (or_introl eq_refl)). assert (K2 := Hk m' (or_intror Hm')).
      destruct m as [|i m]; [discriminate|]. destruct m' as [|i' m']; [discriminate|]. cbn [nth] in K1, K2. injection E as E1 E2.
      replace i with i' by lia. rewrite <- E2. exact Hm'.
    + apply IH; intros; [apply Hl|apply Hk]; right; assumption.
  - intros m Hm. rewrite Ek in Hm. apply in_map_iff in Hm. destruct Hm as (m' & <- & Hm'). specialize (Hl m' Hm'). destruct m'; [discriminate|exact Hl].
  - intro x. unfold peval, shift_x. rewrite map_map, <- fsum_map_mul_l. apply fsum_map_ext. intros [m c] Ht. cbn [fst snd].
    assert (In m (keys p)) as Hm by (unfold keys; apply in_map_iff; exists (m, c); auto). specialize (Hl m Hm). specialize (Hk m Hm).
    destruct m as [|i m]; [discriminate|]. cbn [nth] in Hk. rewrite !meval_cons. replace i with (k + (i - k))%nat at 1 by lia. rewrite fpow_add. ring.
Qed.
Lemma transform_real_value fuel pp num pd wd : wf 3 pp -> isobaric pp -> transform_real pdiv fuel pp = (num, pd, wd) ->
  wf 3 num /\
  forall p q r w x y z : K, p <> 0 -> w <> 0 ->
    x = p * w -> p ^ 2 - 3 * q = w -> p ^ 3 + 2 * y - 3 * p * w = fnat 27 * r -> y ^ 2 + z = w ^ 3 ->
    peval (pt3 x y z) num = zpow p pd * zpow w wd * peval (pt3 p q r) pp.
Proof.
  intros Hw Hi H. destruct real_divfree as (DQ & DR & DP & Dw). unfold transform_real in H.
  set (h := Monomials.total_degree (dehom pp)) in *. set (E := compose (dehom pp) h real_Q real_R real_P) in *.
  set (E27 := EMul (EC (1 / fnat 27 ^ h)) E) in *.
  assert (DE : divfree K E27 = true) by exact (compose_divfree _ _ _ _ _ DQ DR DP).
  destruct (expand_spec K E27 DE) as (WE & VE & _). destruct (expand_spec K real_w Dw) as (Ww & Vw & _).
  destruct (shift_x_spec (min_x (expand E27)) (expand E27) WE (min_x_le _)) as [Ws Vs].
  set (mx := min_x (expand E27)) in *.
  destruct (extract_factor pdiv fuel (shift_x mx (expand E27)) (expand real_w) _) as [m num'] eqn:Ex.
  destruct (extract_factor_spec _ _ _ _ _ _ Ws Ww Ex) as [Wn V]. apply pair_equal_spec in H. destruct H as [H Hwd]. apply pair_equal_spec in H. destruct H as [Hnum Hpd]. subst num pd wd. split; [exact Wn|].
  intros p q r w x y z Hp Hw0 EX_ Eq Er Ez. specialize (V (pt3 x y z)). rewrite Vw in V. specialize (Vs (pt3 x y z)). rewrite VE, V in Vs.
  replace (ev (pt3 x y z) real_w) with (w ^ 3) in Vs by (rewrite <- Ez; reflexivity).
  assert (N27 : fnat 27 <> (0 : K)) by (apply fnat_neq0; lia).
  pose proof (compose_full pp real_Q real_R real_P (pt3 x y z) (fnat 27 * w ^ 3) p q r Hw Hi Hp) as C. cbv zeta in C. fold h in C. fold E in C.
  assert (Zv : z = w ^ 3 - y ^ 2) by (rewrite <- Ez; ring).
  assert (C' := C ltac:(cbn [ev real_Q pt3]; rewrite Zv, EX_, <- Eq; cbn [fpow fnat]; ring)
                  ltac:(cbn [ev real_R pt3]; rewrite Zv, EX_; transitivity (w ^ 3 * (p ^ 3 + 2 * y - 3 * p * w)); [cbn [fpow]; ring|rewrite Er; ring])
                  ltac:(cbn [ev real_P pt3]; rewrite EX_; cbn [fpow]; ring)). clear C.
  unfold E27 in Vs. cbn [ev pt3] in Vs.
  assert (EV : ev (pt3 x y z) E = fnat 27 ^ h * (x ^ mx * ((w ^ 3) ^ m * peval (pt3 x y z) num'))).
  { rewrite <- Vs. field. apply fpow_neq0, N27. }
  rewrite EV, EX_, !fpow_mul_l in C'. rewrite <- EX_ in C'.
  apply (fmul_cancel _ _ (fnat 27 ^ h * (w ^ mx * (w ^ 3) ^ m) * (p ^ mx * p ^ pqr_degree pp))).
  { repeat apply fmul_neq0; try (apply fpow_neq0; assumption). apply fpow_neq0, fpow_neq0, Hw0. }
  transitivity (fnat 27 ^ h * (p ^ mx * w ^ mx * ((w ^ 3) ^ m * peval (pt3 x y z) num')) * p ^ pqr_degree pp); [ring|]. rewrite C'.
  assert (E1 : (w ^ 3) ^ h = zpow w (3 * Z.of_nat h - Z.of_nat mx - 3 * Z.of_nat m) * w ^ (mx + 3 * m)) by (rewrite <- fpow_mul, <- zpow_add_nat, <- zpow_nat by exact Hw0; f_equal; lia).
  assert (E2 : p ^ (3 * h) = zpow p (3 * Z.of_nat h - Z.of_nat (pqr_degree pp) - Z.of_nat mx) * p ^ (mx + pqr_degree pp)) by (rewrite <- zpow_add_nat, <- zpow_nat by exact Hp; f_equal; lia).
  rewrite E1, E2, !fpow_add, fpow_mul. ring.
Qed.
End Div.
End Facts.
