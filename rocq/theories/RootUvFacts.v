(** * Lemmas about the coordinates (u, v) of ternary roots *)
From Coq Require Import Bool List Arith Lia Ring Field.
From Verif Require Import OrdField Base RootUv.
Import ListNotations.

Section Facts.
Variable K : OrdField.
Local Open Scope of_scope.
Add Field Kf : (F_field K).
Implicit Types a b c u v x y z : K.

(** ** Specification *)
(** Sum of the rotations of the monomial, scaled to a + b + c = 1. *)
Definition csum a b c (i j k : nat) : K :=
  (a ^ i * b ^ j * c ^ k + b ^ i * c ^ j * a ^ k + c ^ i * a ^ j * b ^ k) / (a + b + c) ^ (i + j + k).

Lemma sq3_zero x y z : x*x + y*y + z*z = 0 -> x = 0 /\ y = 0 /\ z = 0.
Proof.
  intro H. apply fadd_eq0_nonneg in H; [|apply fadd_nonneg; apply fsqr_nonneg|apply fsqr_nonneg].
  destruct H as [H Hz]. apply fadd_eq0_nonneg in H; [|apply fsqr_nonneg..]. destruct H as [Hx Hy].
  repeat split; apply fsqr_eq0; assumption.
Qed.

Lemma centered_iff a b c : r_centered a b c = true <-> a = b /\ a = c.
Proof. unfold r_centered. rewrite andb_true_iff, !feqb_eq. tauto. Qed.
Lemma corner_iff a b c : r_corner a b c = true <-> (a = 0 /\ b = 0) \/ (b = 0 /\ c = 0) \/ (c = 0 /\ a = 0).
Proof. unfold r_corner. rewrite !orb_true_iff, !andb_true_iff, !feqb_eq. tauto. Qed.

Definition den a b c : K := a*a*b*b + b*b*c*c + c*c*a*a - a*b*c * (a + b + c).
Definition Dd a b c : K := (a + b + c) * (a + b + c) - (1 + 1 + 1) * (a*b + b*c + c*a).
Definition nu a b c : K := a*b*b*b + b*c*c*c + c*a*a*a - a*b*c * (a + b + c).
Definition nv a b c : K := a*a*a*b + b*b*b*c + c*c*c*a - a*b*c * (a + b + c).

Lemma den_nz a b c : r_centered a b c = false -> r_corner a b c = false -> den a b c <> 0.
Proof.
  intros Hc Hk H.
  assert (E : (a*b - b*c) * (a*b - b*c) + (b*c - c*a) * (b*c - c*a) + (c*a - a*b) * (c*a - a*b) = 0).
  { transitivity ((1 + 1) * den a b c); [unfold den; ring|rewrite H; ring]. }
  apply sq3_zero in E. destruct E as (E1 & E2 & E3).
  assert (F1 : b * (a - c) = 0) by (rewrite <- E1; ring).
  assert (F2 : c * (b - a) = 0) by (rewrite <- E2; ring).
  assert (F3 : a * (c - b) = 0) by (rewrite <- E3; ring).
  assert (Hk' : ~ ((a = 0 /\ b = 0) \/ (b = 0 /\ c = 0) \/ (c = 0 /\ a = 0))) by (rewrite <- corner_iff; congruence).
  assert (Hc' : ~ (a = b /\ a = c)) by (rewrite <- centered_iff; congruence).
  apply fmul_eq0 in F1. destruct F1 as [F1|F1].
  - subst b. apply fmul_eq0 in F2. destruct F2 as [F2|F2]; [tauto|].
    apply Hk'. left. split; [|reflexivity]. replace a with (- (0 - a)) by ring. rewrite F2. ring.
  - apply fsub_eq0 in F1. subst c. apply fmul_eq0 in F2. destruct F2 as [F2|F2]; [tauto|].
    apply fsub_eq0 in F2. subst b. tauto.
Qed.
Lemma Dd_nz a b c : r_centered a b c = false -> Dd a b c <> 0.
Proof.
  intros Hc H.
  assert (E : (a - b) * (a - b) + (b - c) * (b - c) + (c - a) * (c - a) = 0).
  { transitivity ((1 + 1) * Dd a b c); [unfold Dd; ring|rewrite H; ring]. }
  apply sq3_zero in E. destruct E as (E1 & E2 & E3). apply fsub_eq0 in E1. apply fsub_eq0 in E2.
  assert (r_centered a b c = true); [|congruence]. apply centered_iff. split; congruence.
Qed.

Lemma I1 a b c : let U := nu a b c in let V := nv a b c in let S := den a b c in
  U*U - U*V + V*V + U*S + V*S + S*S = S * ((a + b + c) * (a + b + c)) * Dd a b c.
Proof. cbv zeta. unfold nu, nv, den, Dd. ring. Qed.
Lemma I2 a b c : nu a b c + nv a b c - den a b c = (a*b + b*c + c*a) * Dd a b c.
Proof. unfold nu, nv, den, Dd. ring. Qed.
Lemma I3 a b c : nu a b c * nv a b c - den a b c * den a b c = (a + b + c) * (a*b*c) * (Dd a b c * Dd a b c).
Proof. unfold nu, nv, den, Dd. ring. Qed.
Lemma I4 a b c : let U := nu a b c in let V := nv a b c in let S := den a b c in
  (V - U) * (U*V + U*S + V*S - (1 + 1) * S*S) + U*U*U + S*S*S =
  S * (a + b + c) * (a*b*b + b*c*c + c*a*a) * (Dd a b c * Dd a b c).
Proof. cbv zeta. unfold nu, nv, den, Dd. ring. Qed.
Lemma I5 a b c : let U := nu a b c in let V := nv a b c in let S := den a b c in
  (U - V) * (U*V + U*S + V*S - (1 + 1) * S*S) + V*V*V + S*S*S =
  S * (a + b + c) * (a*a*b + b*b*c + c*c*a) * (Dd a b c * Dd a b c).
Proof. cbv zeta. unfold nu, nv, den, Dd. ring. Qed.
Lemma I6 a b c : let U := nu a b c in let V := nv a b c in let S := den a b c in
  U*U + V*V - (1 + 1) * (U + V) * S + (1 + 1 + 1) * S*S = (a*a*b*b + b*b*c*c + c*c*a*a) * (Dd a b c * Dd a b c).
Proof. cbv zeta. unfold nu, nv, den, Dd. ring. Qed.

(** ** What the pair (u, v) knows about a normalised root *)
Record known u v x y z : Prop := Kn {
  kn_sum : x + y + z = 1;
  kn_ker : ker_of u v <> 0;
  kn_11 : (u + v - 1) / ker_of u v = x*y + y*z + z*x;
  kn_abc : (u*v - 1) / (ker_of u v * ker_of u v) = x*y*z;
  kn_12 : ((v - u) * (u*v + u + v - (1 + 1)) + u*u*u + 1) / (ker_of u v * ker_of u v) = x*y*y + y*z*z + z*x*x;
  kn_21 : ((u - v) * (u*v + u + v - (1 + 1)) + v*v*v + 1) / (ker_of u v * ker_of u v) = x*x*y + y*y*z + z*z*x;
  kn_22 : (u*u + v*v - (1 + 1) * (u + v) + (1 + 1 + 1)) / (ker_of u v * ker_of u v) =
          x*x*y*y + y*y*z*z + z*z*x*x }.

Lemma div_by_ker (S p D N X k : K) : S <> 0 -> p <> 0 -> D <> 0 -> k = p*p*D/S -> N / S = X * D / S -> N / S / k = X / (p*p).
Proof. intros HS Hp HD -> E. rewrite E. field. repeat split; assumption. Qed.

Lemma known_general a b c : a + b + c <> 0 -> r_centered a b c = false -> r_corner a b c = false ->
  known (nu a b c / den a b c) (nv a b c / den a b c) (a / (a + b + c)) (b / (a + b + c)) (c / (a + b + c)).
Proof.
  intros Hp Hc Hk. pose proof (den_nz a b c Hc Hk) as HS. pose proof (Dd_nz a b c Hc) as HD.
  pose proof (I1 a b c) as E1. pose proof (I2 a b c) as E2. pose proof (I3 a b c) as E3.
  pose proof (I4 a b c) as E4. pose proof (I5 a b c) as E5. pose proof (I6 a b c) as E6. cbv zeta in *.
  set (U := nu a b c) in *. set (V := nv a b c) in *. set (S := den a b c) in *. set (D := Dd a b c) in *.
  clearbody U V S D.
  assert (Ek : ker_of (U / S) (V / S) = (a + b + c) * (a + b + c) * D / S).
  { unfold ker_of. transitivity ((U*U - U*V + V*V + U*S + V*S + S*S) / (S * S)); [field; exact HS|].
    rewrite E1. field. exact HS. }
  assert (Hker : ker_of (U / S) (V / S) <> 0).
  { intro H. assert (E0 : (a + b + c) * (a + b + c) * D = 0).
    { transitivity (ker_of (U / S) (V / S) * S); [rewrite Ek; field; exact HS|rewrite H; ring]. }
    revert E0. apply fmul_neq0; [apply fmul_neq0; exact Hp|exact HD]. }
  constructor.
  - field. exact Hp.
  - exact Hker.
  - rewrite Ek. transitivity ((U + V - S) / ((a + b + c) * (a + b + c) * D)); [field; repeat split; assumption|].
    rewrite E2. field. split; assumption.
  - rewrite Ek. transitivity ((U*V - S*S) / ((a + b + c) * (a + b + c) * D * ((a + b + c) * (a + b + c) * D)));
      [field; repeat split; assumption|].
    rewrite E3. field. split; assumption.
  - rewrite Ek. transitivity (((V - U) * (U*V + U*S + V*S - (1 + 1) * S*S) + U*U*U + S*S*S) /
      (S * ((a + b + c) * (a + b + c) * D * ((a + b + c) * (a + b + c) * D))));
      [field; repeat split; assumption|].
    rewrite E4. field. repeat split; assumption.
  - rewrite Ek. transitivity (((U - V) * (U*V + U*S + V*S - (1 + 1) * S*S) + V*V*V + S*S*S) /
      (S * ((a + b + c) * (a + b + c) * D * ((a + b + c) * (a + b + c) * D))));
      [field; repeat split; assumption|].
    rewrite E5. field. repeat split; assumption.
  - rewrite Ek. transitivity ((U*U + V*V - (1 + 1) * (U + V) * S + (1 + 1 + 1) * S*S) /
      ((a + b + c) * (a + b + c) * D * ((a + b + c) * (a + b + c) * D)));
      [field; repeat split; assumption|].
    rewrite E6. field. split; assumption.
Qed.

Lemma three_nz : (1 + 1 + 1 : K) <> 0.
Proof. apply flt_neq0. fpos. Qed.

Lemma known_centre a : a <> 0 -> known (1 + 1) (1 + 1) (a / (a + a + a)) (a / (a + a + a)) (a / (a + a + a)).
Proof.
  intro Ha. pose proof three_nz as H3.
  assert (H3' : (1 + (1 + 1) : K) <> 0) by (replace (1 + (1 + 1) : K) with (1 + 1 + 1 : K) by ring; exact H3).
  assert (Hs : a + a + a <> 0) by (replace (a + a + a) with ((1 + 1 + 1) * a) by ring; apply fmul_neq0; assumption).
  replace (a / (a + a + a)) with (1 / (1 + 1 + 1) : K).
  2:{ field. repeat split; ffold K; first [assumption | apply flt_neq0; solve [fpos]]. }
  assert (Ek : ker_of (1 + 1) (1 + 1) = (1 + 1 + 1) * (1 + 1 + 1) :> K) by (unfold ker_of; ring).
  constructor; rewrite ?Ek.
  - field. repeat split; ffold K; first [assumption | apply flt_neq0; solve [fpos]].
  - apply fmul_neq0; exact H3.
  - field. repeat split; ffold K; first [assumption | apply flt_neq0; solve [fpos]].
  - field. repeat split; ffold K; first [assumption | apply flt_neq0; solve [fpos]].
  - field. repeat split; ffold K; first [assumption | apply flt_neq0; solve [fpos]].
  - field. repeat split; ffold K; first [assumption | apply flt_neq0; solve [fpos]].
  - field. repeat split; ffold K; first [assumption | apply flt_neq0; solve [fpos]].
Qed.

Lemma uv_known a b c u v : a + b + c <> 0 -> uv_of a b c = Some (u, v) ->
  known u v (a / (a + b + c)) (b / (a + b + c)) (c / (a + b + c)).
Proof.
  intros Hp E. unfold uv_of in E. destruct (r_centered a b c) eqn:Ec.
  - apply centered_iff in Ec. destruct Ec as [<- <-]. injection E as <- <-. apply known_centre.
    intros ->. apply Hp. ring.
  - destruct (r_corner a b c) eqn:Ek; [discriminate|]. injection E as <- <-. apply known_general; assumption.
Qed.
Lemma uv_none a b c : a + b + c <> 0 -> (uv_of a b c = None <-> r_corner a b c = true).
Proof.
  intro Hp. unfold uv_of. destruct (r_centered a b c) eqn:Ec.
  - split; [discriminate|]. intro H. exfalso. apply centered_iff in Ec. destruct Ec as [<- <-].
    apply corner_iff in H. apply Hp. assert (a = 0) as -> by tauto. ring.
  - destruct (r_corner a b c); split; congruence.
Qed.

(** ** Cyclic sums *)
Definition ns x y z (i j k : nat) : K := x ^ i * y ^ j * z ^ k + y ^ i * z ^ j * x ^ k + z ^ i * x ^ j * y ^ k.

Lemma ns_rot x y z i j k : ns x y z i j k = ns x y z k i j.
Proof. unfold ns. ring. Qed.

Lemma cs_small_ok u v x y z i j : known u v x y z -> (i <= 2)%nat -> (j <= 2)%nat ->
  cs_small u v i j = ns x y z i j 0.
Proof.
  intros [Hs Hk H11 Hr H12 H21 H22] Hi Hj. assert (Ez : z = 1 - x - y) by (rewrite <- Hs; ring).
  unfold cs_small. rewrite H11, H12, H21, H22. unfold ns. clear H11 Hr H12 H21 H22 Hk.
  destruct i as [|[|[|i]]]; [| | |lia]; (destruct j as [|[|[|j]]]; [| | |lia]); cbn [Nat.eqb fpow]; subst z; ring.
Qed.

Lemma cubic_ok u v x y z : known u v x y z -> cubic u v = (x*y + y*z + z*x, x*y*z).
Proof.
  intro H. unfold cubic. rewrite !(cs_small_ok u v x y z) by (try exact H; lia). rewrite (kn_abc _ _ _ _ _ H).
  unfold ns. cbn [fpow]. f_equal; [ring|]. pose proof three_nz as H3.
  assert (H3' : (1 + (1 + 1) : K) <> 0) by (replace (1 + (1 + 1) : K) with (1 + 1 + 1 : K) by ring; exact H3).
  field. repeat split; ffold K; first [assumption | apply flt_neq0; solve [fpos]].
Qed.

Lemma xpow_rem_ok (q r t : K) n : t * t * t = t * t - q * t + r ->
  let A := xpow_rem q r n in t ^ n = coeff3 A 0 + coeff3 A 1 * t + coeff3 A 2 * (t * t).
Proof.
  intro E. cbv zeta. induction n; cbn [xpow_rem fpow]; [cbn [coeff3]; ring|].
  rewrite IHn. destruct (xpow_rem q r n) as [[c0 c1] c2]. cbn [coeff3].
  transitivity (c0 * t + c1 * (t * t) + c2 * (t * t * t)); [ring|]. rewrite E. ring.
Qed.

Lemma root_of_cubic x y z t : x + y + z = 1 -> (t = x \/ t = y \/ t = z) ->
  t * t * t = t * t - (x*y + y*z + z*x) * t + x*y*z.
Proof. intros Hs Ht. assert (Ez : z = 1 - x - y) by (rewrite <- Hs; ring). destruct Ht as [ -> | [ -> | -> ] ]; rewrite Ez; ring. Qed.

Lemma cs_reduce u v x y z i j : known u v x y z ->
  (let '(q, r) := cubic u v in
   let A := xpow_rem q r i in let B := xpow_rem q r j in
   fsum (map (fun e => fsum (map (fun g => coeff3 A e * coeff3 B g * cs_small u v e g) [0; 1; 2]%nat)) [0; 1; 2]%nat))
  = ns x y z i j 0.
Proof.
  intro H. rewrite (cubic_ok u v x y z H). cbv zeta.
  assert (R : forall n t, (t = x \/ t = y \/ t = z) ->
     let A := xpow_rem (x*y + y*z + z*x) (x*y*z) n in t ^ n = coeff3 A 0 + coeff3 A 1 * t + coeff3 A 2 * (t * t)).
  { intros n t Ht. apply xpow_rem_ok. apply root_of_cubic; [apply (kn_sum _ _ _ _ _ H)|exact Ht]. }
  cbv zeta in R. unfold ns. rewrite (R i x), (R i y), (R i z), (R j x), (R j y), (R j z) by tauto.
  set (A := xpow_rem _ _ i). set (B := xpow_rem _ _ j). clearbody A B. clear R.
  cbn [map]. unfold fsum. cbn [fold_right].
  rewrite !(cs_small_ok u v x y z) by (try exact H; lia). unfold ns. cbn [fpow]. ring.
Qed.

Lemma cs_min0_ok u v x y z i j k : known u v x y z -> (i = 0 \/ j = 0 \/ k = 0)%nat ->
  cs_min0 u v i j k = ns x y z i j k.
Proof.
  intros H Hm. unfold cs_min0.
  assert (E1 : exists i1 j1, (if negb (Nat.eqb k 0) then (if Nat.eqb j 0 then (k, i) else (j, k)) else (i, j)) = (i1, j1) /\
            ns x y z i j k = ns x y z i1 j1 0 /\ (Nat.max i (Nat.max j k) = Nat.max i1 j1)%nat).
  { destruct (Nat.eqb_spec k 0) as [->|Hk]; cbn [negb]; [exists i, j; repeat split; lia|].
    destruct (Nat.eqb_spec j 0) as [->|Hj].
    - exists k, i. split; [reflexivity|]. split; [apply ns_rot|lia].
    - assert (i = 0%nat) as -> by lia. exists j, k. split; [reflexivity|]. split; [|lia].
      rewrite ns_rot. apply ns_rot. }
  destruct E1 as (i1 & j1 & -> & En & Emax). rewrite En, Emax. clear En Emax Hm i j k.
  assert (E2 : exists i2 j2, (if Nat.eqb i1 0 then (j1, i1) else (i1, j1)) = (i2, j2) /\
            ns x y z i1 j1 0 = ns x y z i2 j2 0 /\ (Nat.max i1 j1 = Nat.max i2 j2)%nat).
  { destruct (Nat.eqb_spec i1 0) as [->|Hi]; [|exists i1, j1; repeat split; lia].
    exists j1, 0%nat. split; [reflexivity|]. split; [|lia]. unfold ns. cbn [fpow]. ring. }
  destruct E2 as (i2 & j2 & -> & -> & ->).
  destruct (Nat.leb_spec 3 (Nat.max i2 j2)) as [Hb|Hb].
  - apply cs_reduce. exact H.
  - apply cs_small_ok; [exact H|lia|lia].
Qed.

Lemma ns_abc x y z m i j k : (x*y*z) ^ m * ns x y z i j k = ns x y z (m + i) (m + j) (m + k).
Proof.
  assert (P : forall (t : K) n, t ^ (m + n) = t ^ m * t ^ n) by (intros; apply fpow_add).
  assert (Q : (x*y*z) ^ m = x ^ m * y ^ m * z ^ m) by (rewrite !fpow_mul_l; reflexivity).
  unfold ns. rewrite Q, !P. ring.
Qed.

Lemma cyclic_sum_known u v x y z i j k : known u v x y z -> cyclic_sum u v i j k = ns x y z i j k.
Proof.
  intro H. unfold cyclic_sum. set (m := Nat.min i (Nat.min j k)). destruct (Nat.leb_spec 1 m) as [Hm|Hm].
  - rewrite (kn_abc _ _ _ _ _ H), (cs_min0_ok u v x y z) by (try exact H; lia). rewrite ns_abc. f_equal; lia.
  - apply cs_min0_ok; [exact H|lia].
Qed.

Lemma ns_csum a b c i j k : a + b + c <> 0 ->
  ns (a / (a + b + c)) (b / (a + b + c)) (c / (a + b + c)) i j k = csum a b c i j k.
Proof.
  intro Hp. unfold ns, csum. set (p := a + b + c) in *. clearbody p.
  assert (P : forall (t : K) n, (t / p) ^ n = t ^ n / p ^ n).
  { intros t n. induction n; cbn [fpow]; [field; apply fneq10|]. rewrite IHn. field. split; [apply fpow_neq0; exact Hp|exact Hp]. }
  rewrite !P, !fpow_add. pose proof (fun n => fpow_neq0 K p n Hp) as Hn. field. repeat split; apply Hn.
Qed.

Lemma cyclic_sum_ok a b c u v i j k : a + b + c <> 0 -> uv_of a b c = Some (u, v) ->
  cyclic_sum u v i j k = csum a b c i j k.
Proof. intros Hp E. rewrite (cyclic_sum_known u v _ _ _ i j k (uv_known a b c u v Hp E)). apply ns_csum. exact Hp. Qed.

(** ** The equation of the coordinates, roots.py:581-584 *)
Lemma uv_equation a b c u v : uv_of a b c = Some (u, v) ->
  a*a - b*b + u * (a*b - a*c) + v * (b*c - a*b) = 0.
Proof.
  intro E. unfold uv_of in E. destruct (r_centered a b c) eqn:Ec.
  - apply centered_iff in Ec. destruct Ec as [<- <-]. injection E as <- <-. ring.
  - destruct (r_corner a b c) eqn:Ek; [discriminate|]. injection E as <- <-.
    pose proof (den_nz a b c Ec Ek) as HS. unfold den in HS. field. exact HS.
Qed.

(** ** From coordinates to roots *)
Lemma ker_nz u v : ~ (u = - (1) /\ v = - (1)) -> ker_of u v <> 0.
Proof.
  intros H E. assert (E2 : (u - v) * (u - v) + (u + 1) * (u + 1) + (v + 1) * (v + 1) = 0).
  { transitivity ((1 + 1) * ker_of u v); [unfold ker_of; ring|rewrite E; ring]. }
  apply sq3_zero in E2. destruct E2 as (_ & E1 & E2). apply H. split.
  - replace u with ((u + 1) - 1) by ring. rewrite E1. ring.
  - replace v with ((v + 1) - 1) by ring. rewrite E2. ring.
Qed.

Lemma pair_of_sums (u v u' v' : K) : u' + v' = u + v -> u' * v' = u * v -> (u' = u /\ v' = v) \/ (u' = v /\ v' = u).
Proof.
  intros Hs Hp. assert (E : (u' - u) * (u' - v) = 0).
  { transitivity (u' * (u' - (u + v)) + u * v); [ring|]. rewrite <- Hs, <- Hp. ring. }
  apply fmul_eq0 in E. destruct E as [E|E]; apply fsub_eq0 in E; subst u'.
  - left. split; [reflexivity|]. replace v' with (u + v' - u) by ring. rewrite Hs. ring.
  - right. split; [reflexivity|]. replace v' with (v + v' - v) by ring. rewrite Hs. ring.
Qed.

(** The coordinates of the roots of the cubic, in one of the two orders. *)
Lemma uv_of_cubic u v a b c : ker_of u v <> 0 -> a + b + c = 1 ->
  a*b + b*c + c*a = (u + v - 1) / ker_of u v -> a*b*c = (u*v - 1) / (ker_of u v * ker_of u v) ->
  exists u' v', uv_of a b c = Some (u', v') /\ ((u' = u /\ v' = v) \/ (u' = v /\ v' = u)).
Proof.
  intros Hk Hs Hq Hr.
  assert (Hp : a + b + c <> 0) by (rewrite Hs; apply fneq10).
  set (k := ker_of u v) in *. set (q := a*b + b*c + c*a) in *. set (r := a*b*c) in *.
  assert (Eq : q * k = u + v - 1) by (rewrite Hq; field; exact Hk).
  assert (Er : r * (k * k) = u * v - 1) by (rewrite Hr; field; exact Hk).
  destruct (uv_of a b c) as [[u' v']|] eqn:E.
  - exists u', v'. split; [reflexivity|]. pose proof (uv_known a b c u' v' Hp E) as Hkn.
    unfold uv_of in E. destruct (r_centered a b c) eqn:Ec.
    + injection E as <- <-. apply centered_iff in Ec. destruct Ec as [<- <-].
      assert (E3 : (1 + 1 + 1) * a = 1) by (transitivity (a + a + a); [ring|exact Hs]).
      assert (Q3 : (1 + 1 + 1) * q = 1).
      { unfold q. transitivity ((1 + 1 + 1) * a * ((1 + 1 + 1) * a)); [ring|]. rewrite E3. ring. }
      assert (Ez : (u + v - (1 + 1) * (1 + 1)) * (u + v - (1 + 1) * (1 + 1)) + (1 + 1 + 1) * ((u - v) * (u - v)) = 0).
      { transitivity ((1 + 1) * (1 + 1) * (k - (1 + 1 + 1) * (u + v - 1))); [unfold k, ker_of; ring|].
        rewrite <- Eq. transitivity ((1 + 1) * (1 + 1) * (k - (1 + 1 + 1) * q * k)); [ring|]. rewrite Q3. ring. }
      apply fadd_eq0_nonneg in Ez; [|apply fsqr_nonneg|apply fmul_nonneg; [fpos|apply fsqr_nonneg]].
      destruct Ez as [Z1 Z2]. apply fsqr_eq0 in Z1. apply fmul_eq0 in Z2. destruct Z2 as [Z2|Z2]; [exfalso; exact (three_nz Z2)|].
      apply fsqr_eq0, fsub_eq0 in Z2. subst v. left.
      assert (u = 1 + 1); [|split; congruence].
      assert (Z3 : (1 + 1) * (u - (1 + 1)) = 0) by (rewrite <- Z1; ring).
      apply fmul_eq0 in Z3. destruct Z3 as [Z3|Z3]; [exfalso; exact (f2_neq0 K Z3)|]. apply fsub_eq0 in Z3. exact Z3.
    + destruct (r_corner a b c) eqn:Ek; [discriminate|]. injection E as <- <-.
      fold (den a b c) (nu a b c) (nv a b c).
      pose proof (den_nz a b c Ec Ek) as HS. pose proof (I2 a b c) as E2. pose proof (I3 a b c) as E3.
      (* den = q^2 - 3 r and Dd = 1 - 3 q = k * den *)
      assert (ES : den a b c = q * q - (1 + 1 + 1) * r).
      { transitivity (q * q - (1 + 1 + 1) * r * (a + b + c)); [unfold den, q, r; ring|rewrite Hs; ring]. }
      assert (ED : Dd a b c = k * den a b c).
      { unfold Dd. fold q. rewrite Hs, ES.
        assert (Ek2 : k * (1 * 1 - (1 + 1 + 1) * q) = k * (k * (q * q - (1 + 1 + 1) * r))).
        { transitivity (k - (1 + 1 + 1) * (q * k)); [ring|].
          transitivity (q * k * (q * k) - (1 + 1 + 1) * (r * (k * k))); [|ring].
          rewrite Eq, Er. unfold k, ker_of. ring. }
        assert (Ek3 : k * (1 * 1 - (1 + 1 + 1) * q - k * (q * q - (1 + 1 + 1) * r)) = 0).
        { transitivity (k * (1 * 1 - (1 + 1 + 1) * q) - k * (k * (q * q - (1 + 1 + 1) * r))); [ring|]. rewrite Ek2. ring. }
        apply fmul_eq0 in Ek3. destruct Ek3 as [Ek3|Ek3]; [contradiction|]. apply fsub_eq0 in Ek3. exact Ek3. }
      fold q in E2. fold r in E3. rewrite Hs in E3. rewrite ED in E2, E3.
      apply pair_of_sums.
      * transitivity ((nu a b c + nv a b c - den a b c) / den a b c + 1); [field; exact HS|].
        rewrite E2. transitivity (q * k + 1); [field; exact HS|]. rewrite Eq. ring.
      * transitivity ((nu a b c * nv a b c - den a b c * den a b c) / (den a b c * den a b c) + 1); [field; exact HS|].
        rewrite E3. transitivity (r * (k * k) + 1); [field; exact HS|]. rewrite Er. ring.
  - exfalso. apply uv_none in E; [|exact Hp]. apply corner_iff in E.
    assert (Q0 : q = 0) by (unfold q; destruct E as [[-> ->]|[[-> ->]|[-> ->]]]; ring).
    assert (R0 : r = 0) by (unfold r; destruct E as [[-> ->]|[[-> ->]|[-> ->]]]; ring).
    rewrite Q0 in Eq. rewrite R0 in Er.
    assert (Ez : u*u + v*v + (u - v) * (u - v) + (1 + 1) = (1 + 1) * (k - (u + v - 1)) - (1 + 1)) by (unfold k, ker_of; ring).
    assert (Eu : v = 1 - u) by (replace v with (u + v - 1 + 1 - u) by ring; rewrite <- Eq; ring).
    assert (Ev : u * (1 - u) = 1) by (rewrite <- Eu; replace (u * v) with (u * v - 1 + 1) by ring; rewrite <- Er; ring).
    apply (flt_irrefl K 0).
    assert (P : 0 < (u + u - 1) * (u + u - 1) + (1 + 1 + 1)).
    { apply fadd_pos_r; [apply fsqr_nonneg|fpos]. }
    replace ((u + u - 1) * (u + u - 1) + (1 + 1 + 1)) with ((1 + 1) * (1 + 1) * (1 - u * (1 - u))) in P by ring.
    rewrite Ev in P. replace ((1 + 1) * (1 + 1) * (1 - 1)) with (0 : K) in P by ring. exact P.
Qed.

Lemma uv_reverse a b c u v : uv_of a b c = Some (u, v) -> uv_of c b a = Some (v, u).
Proof.
  unfold uv_of. intro E.
  assert (E1 : r_centered c b a = r_centered a b c).
  { apply eq_true_iff_eq. rewrite !centered_iff. split; intros [H1 H2]; split; congruence. }
  assert (E2 : r_corner c b a = r_corner a b c).
  { apply eq_true_iff_eq. rewrite !corner_iff. tauto. }
  rewrite E1, E2. destruct (r_centered a b c); [congruence|]. destruct (r_corner a b c); [discriminate|].
  injection E as <- <-. f_equal. f_equal; f_equal; ring.
Qed.

Lemma rabs_0 : rabs (0 : K) = 0.
Proof. unfold rabs. destruct (fltb 0 0) eqn:E; [apply fltb_lt in E; exfalso; exact (flt_irrefl K 0 E)|reflexivity]. Qed.
Lemma rabs_nonneg (x : K) : 0 <= rabs x.
Proof.
  unfold rabs. destruct (fltb x 0) eqn:E; [|apply fltb_ge in E; exact E].
  apply fltb_lt in E. apply flt_le. replace 0 with (- (0 : K)) by ring.
  apply flt_sub. replace (- x - - 0) with (0 - x) by ring. apply flt_sub in E. exact E.
Qed.
Lemma rabs_pos (x : K) : x <> 0 -> 0 < rabs x.
Proof.
  intro H. destruct (fltb 0 (rabs x)) eqn:E; [apply fltb_lt; exact E|]. apply fltb_ge in E. exfalso.
  pose proof (fle_antisym K _ _ E (rabs_nonneg x)) as E0. unfold rabs in E0. destruct (fltb x 0); [|contradiction].
  apply H. replace x with (- - x) by ring. rewrite E0. ring.
Qed.

Lemma from_uv_ok (roots : K -> K -> K * K * K) u v :
  (let q := (u + v - 1) / ker_of u v in let r := (u*v - 1) / (ker_of u v * ker_of u v) in
   let '(a, b, c) := roots q r in a + b + c = 1 /\ a*b + b*c + c*a = q /\ a*b*c = r) ->
  ~ (u = - (1) /\ v = - (1)) ->
  let '(a, b, c) := from_uv roots u v in a + b + c = 1 /\ uv_of a b c = Some (u, v).
Proof.
  intros Hroots Hne. pose proof (ker_nz u v Hne) as Hk. unfold from_uv.
  destruct (roots ((u + v - 1) / ker_of u v) ((u * v - 1) / (ker_of u v * ker_of u v))) as [[a b] c] eqn:E.
  cbv zeta in Hroots. rewrite E in Hroots. destruct Hroots as (Hs & Hq & Hr).
  destruct (uv_of_cubic u v a b c Hk Hs Hq Hr) as (u' & v' & Euv & Hor). rewrite Euv.
  destruct (fltb (rabs (v' - u) + rabs (u' - v)) (rabs (u' - u) + rabs (v' - v))) eqn:Ef.
  - split; [transitivity (a + b + c); [ring|exact Hs]|]. rewrite (uv_reverse a b c u' v' Euv).
    destruct Hor as [[-> ->]|[-> ->]]; [|reflexivity]. exfalso.
    apply fltb_lt in Ef. replace (u - u) with (0 : K) in Ef by ring. replace (v - v) with (0 : K) in Ef by ring.
    rewrite rabs_0 in Ef. apply (flt_not_le K) in Ef. apply Ef.
    replace (0 + 0 : K) with (0 : K) by ring. apply fadd_nonneg; apply rabs_nonneg.
  - split; [exact Hs|]. rewrite Euv. destruct Hor as [[-> ->]|[-> ->]]; [reflexivity|].
    destruct (feqb u v) eqn:Eq; [apply feqb_eq in Eq; congruence|]. apply feqb_neq in Eq. exfalso.
    apply fltb_ge in Ef. revert Ef. apply (flt_not_le K).
    replace (u - u) with (0 : K) by ring. replace (v - v) with (0 : K) by ring. rewrite rabs_0.
    replace (0 + 0 : K) with (0 : K) by ring. apply fadd_pos_l; [|apply rabs_nonneg].
    apply rabs_pos. intro H. apply fsub_eq0 in H. congruence.
Qed.

Lemma cubic_factors a b c u v : a + b + c <> 0 -> uv_of a b c = Some (u, v) ->
  forall t : K, t*t*t - t*t + fst (cubic u v) * t - snd (cubic u v) =
    (t - a / (a + b + c)) * (t - b / (a + b + c)) * (t - c / (a + b + c)).
Proof.
  intros Hp E t. pose proof (uv_known a b c u v Hp E) as H. rewrite (cubic_ok _ _ _ _ _ H). cbn [fst snd].
  pose proof (kn_sum _ _ _ _ _ H) as Hs. set (x := a / (a + b + c)) in *. set (y := b / (a + b + c)) in *.
  set (z := c / (a + b + c)) in *. clearbody x y z. assert (Ez : z = 1 - x - y) by (rewrite <- Hs; ring).
  rewrite Ez. ring.
Qed.
Lemma corner_csum a (n : nat) : a <> 0 -> uv_of a 0 0 = None /\ csum a 0 0 (S n) 0 0 = 1.
Proof.
  intro Ha. split.
  - apply uv_none; [intro H; apply Ha; rewrite <- H; ring|]. apply corner_iff. tauto.
  - unfold csum. rewrite !Nat.add_0_r. replace (a + 0 + 0) with a by ring.
    rewrite (fpow_0 K (S n)) by lia. cbn [fpow]. pose proof (fpow_neq0 K a n Ha). field. split; assumption.
Qed.
Lemma uv_some a b c : a + b + c <> 0 -> ~ ((a = 0 /\ b = 0) \/ (b = 0 /\ c = 0) \/ (c = 0 /\ a = 0)) ->
  exists u v, uv_of a b c = Some (u, v).
Proof.
  intros Hp Hk. destruct (uv_of a b c) as [[u v]|] eqn:E; [eauto|]. apply uv_none in E; [|exact Hp].
  apply corner_iff in E. contradiction.
Qed.
End Facts.
Arguments csum {K}.
