(** * Approximation of ternary roots: results on the border and on the axes, and totality *)
From Coq Require Import Bool List Arith Lia Ring Field.
From Verif Require Import OrdField Base RootUv RootUvFacts RootNear.
Import ListNotations.

Section Facts.
Variable K : OrdField.
Local Open Scope of_scope.
Add Field Kf : (F_field K).
Implicit Types a b c x y z t p q r tol atol : K.

(** [approximate] (roots.py:543-577) of a triple. *)
Definition approximate3 tol atol (rat : K -> K) (r : K * K * K) : option (K * K * K) :=
  let '(a, b, c) := r in approximate tol atol rat a b c.

Lemma approx_of_loop tol atol (rat : K -> K) a b c p q r : a + b + c <> 0 ->
  (near tol (to_sum3 a b c a) (to_sum3 a b c b) = false \/ near tol (to_sum3 a b c b) (to_sum3 a b c c) = false \/
   near tol (to_sum3 a b c a) (to_sum3 a b c c) = false) ->
  (nz (drop tol (to_sum3 a b c a)) + nz (drop tol (to_sum3 a b c b)) + nz (drop tol (to_sum3 a b c c)))%nat <> 1%nat ->
  rn_loop tol (drop tol (to_sum3 a b c a), drop tol (to_sum3 a b c b), drop tol (to_sum3 a b c c)) = Some (p, q, r) ->
  approximate tol atol rat a b c = Some (snap atol rat p, snap atol rat q, snap atol rat r).
Proof.
  intros Hs Hc Hn E. unfold approximate. cbv zeta. rewrite (s_neq0 K a b c Hs), !third by exact Hs.
  replace (near tol (to_sum3 a b c a) (to_sum3 a b c b) && near tol (to_sum3 a b c b) (to_sum3 a b c c) && near tol (to_sum3 a b c a) (to_sum3 a b c c)) with false.
  2:{ destruct Hc as [-> | [-> | ->]]; [reflexivity|rewrite andb_false_r; reflexivity|rewrite andb_false_r; reflexivity]. }
  cbv iota. apply Nat.eqb_neq in Hn. rewrite Hn, E. reflexivity.
Qed.

Lemma to_sum3_rot a b c x : to_sum3 b c a x = to_sum3 a b c x.
Proof. unfold to_sum3. f_equal. ring. Qed.
Lemma to_sum3_0 a b c : a + b + c <> 0 -> to_sum3 a b c 0 = 0.
Proof. intro. unfold to_sum3. field. assumption. Qed.
Lemma to_sum3_ratio a b c x y : a + b + c <> 0 -> x <> 0 -> to_sum3 a b c y / to_sum3 a b c x = y / x.
Proof. intros. unfold to_sum3. field. repeat split; ffold K; first [assumption | apply flt_neq0; solve [fpos]]. Qed.
Lemma to_sum3_neq0 a b c x : to_sum3 a b c x <> 0 -> x <> 0.
Proof. intros H E. apply H. subst. unfold to_sum3. rewrite fdiv_def. ring. Qed.
Lemma sum_rot a b c : a + b + c <> 0 -> b + c + a <> 0.
Proof. intros H E. apply H. rewrite <- E. ring. Qed.
Lemma drop_0 tol : drop tol (0 : K) = 0.
Proof. unfold drop. destruct (near _ _ _); reflexivity. Qed.
Lemma nz_0 : nz (0 : K) = O.
Proof. unfold nz. rewrite (proj2 (feqb_eq K 0 0) eq_refl). reflexivity. Qed.

(** A root near the border: the result is exactly on the border. *)
Lemma approximate_border tol atol (rat : K -> K) e x y : 0 < tol -> (1 + 1) * tol <= 1 -> 0 < atol ->
  rat 0 = 0 -> rat 1 = 1 -> e + x + y <> 0 -> is_close tol (to_sum3 e x y e) 0 ->
  ~ is_close tol (to_sum3 e x y x) 0 -> ~ is_close tol (to_sum3 e x y y) 0 -> ~ is_close tol (y / x) 0 ->
  exists w1 w2 w3,
    (approximate tol atol rat e x y = Some (0, 1, w1) /\ approximate tol atol rat x y e = Some (1, w2, 0) /\
     approximate tol atol rat y e x = Some (w3, 0, 1)) /\
    forall w, In w [w1; w2; w3] -> is_close atol w (y / x) \/
      (w = 1 /\ (is_close tol (y / x) 1 \/ is_close tol (to_sum3 e x y x) (to_sum3 e x y y))).
Proof.
  intros T0 T2 A0 r0 r1 S1 N X Y R0. apply near_iff in N. apply near_false in X, Y, R0.
  assert (T1 : tol <= 1).
  { apply fle_trans with ((1 + 1) * tol); [|exact T2]. apply fle_sub. replace ((1 + 1) * tol - tol) with tol by ring. apply flt_le, T0. }
  pose proof (sum_rot e x y S1) as S2. pose proof (sum_rot x y e S2) as S3.
  assert (Hx : x <> 0) by (apply (to_sum3_neq0 e x y), (far_neq0 K tol); assumption).
  pose proof (to_sum3_ratio e x y x y S1 Hx) as ER. rewrite <- ER in R0.
  destruct (loop_border K tol _ _ T0 T1 X Y R0) as (w1 & w2 & w3 & (L1 & L2 & L3) & W). rewrite ER in *.
  pose proof (snap_fix K atol rat 0 r0) as F0. pose proof (snap_fix K atol rat 1 r1) as F1.
  assert (NX : nz (to_sum3 e x y x) = 1%nat) by (apply (nz_far K tol); assumption).
  assert (NY : nz (to_sum3 e x y y) = 1%nat) by (apply (nz_far K tol); assumption).
  assert (Sum : to_sum3 e x y e + to_sum3 e x y x + to_sum3 e x y y = 1 + 1 + 1) by (unfold to_sum3; field; exact S1).
  assert (C : near tol (to_sum3 e x y e) (to_sum3 e x y x) = false \/ near tol (to_sum3 e x y x) (to_sum3 e x y y) = false \/
              near tol (to_sum3 e x y e) (to_sum3 e x y y) = false).
  { destruct (near tol (to_sum3 e x y e) (to_sum3 e x y x)) eqn:C1; [|tauto].
    destruct (near tol (to_sum3 e x y e) (to_sum3 e x y y)) eqn:C2; [|tauto]. exfalso.
    apply near_iff in C1, C2, N. destruct C1 as [C1 _], C2 as [C2 _], N as [_ N]. apply flt_sub in C1, C2, N.
    set (e' := to_sum3 e x y e) in *. set (x' := to_sum3 e x y x) in *. set (y' := to_sum3 e x y y) in *. clearbody e' x' y'.
    apply fle_sub in T2.
    assert (P : 0 < (e' - x' - - tol) + (e' - y' - - tol) + ((tol - (e' - 0)) + (tol - (e' - 0)) + (tol - (e' - 0)))).
    { repeat apply fadd_pos; assumption. }
    assert (P2 : 0 <= (1 - (1 + 1) * tol) + (1 - (1 + 1) * tol) + (1 - (1 + 1) * tol)) by (repeat apply fadd_nonneg; assumption).
    assert (P3 : 0 < ((e' - x' - - tol) + (e' - y' - - tol) + ((tol - (e' - 0)) + (tol - (e' - 0)) + (tol - (e' - 0)))) +
                    ((1 - (1 + 1) * tol) + (1 - (1 + 1) * tol) + (1 - (1 + 1) * tol))) by (apply fadd_pos_l; assumption).
    replace (((e' - x' - - tol) + (e' - y' - - tol) + ((tol - (e' - 0)) + (tol - (e' - 0)) + (tol - (e' - 0)))) +
                    ((1 - (1 + 1) * tol) + (1 - (1 + 1) * tol) + (1 - (1 + 1) * tol)))
      with ((1 + 1 + 1) - (e' + x' + y') - tol) in P3 by ring.
    rewrite Sum in P3. replace (1 + 1 + 1 - (1 + 1 + 1) - tol) with (- tol) in P3 by ring.
    apply (flt_irrefl K 0). replace (0 : K) with (tol + - tol) at 2 by ring. apply fadd_pos; assumption. }
  exists (snap atol rat w1), (snap atol rat w2), (snap atol rat w3). split.
  - split; [|split].
    + rewrite (approx_of_loop tol atol rat e x y 0 1 w1), ?F0, ?F1; [reflexivity|assumption|exact C| |].
      * rewrite (drop_near K tol _ N), !drop_far, nz_0, NX, NY by assumption. discriminate.
      * rewrite (drop_near K tol _ N), !drop_far by assumption. exact L1.
    + rewrite (approx_of_loop tol atol rat x y e 1 w2 0), ?F0, ?F1; [reflexivity|assumption| | |];
        rewrite !(to_sum3_rot e x y).
      * rewrite (near_sym K tol (to_sum3 e x y y) (to_sum3 e x y e)), (near_sym K tol (to_sum3 e x y x) (to_sum3 e x y e)). tauto.
      * rewrite (drop_near K tol _ N), !drop_far, nz_0, NX, NY by assumption. discriminate.
      * rewrite (drop_near K tol _ N), !drop_far by assumption. exact L2.
    + rewrite (approx_of_loop tol atol rat y e x w3 0 1), ?F0, ?F1; [reflexivity|assumption| | |];
        rewrite !(to_sum3_rot x y e), !(to_sum3_rot e x y).
      * rewrite (near_sym K tol (to_sum3 e x y y) (to_sum3 e x y e)), (near_sym K tol (to_sum3 e x y y) (to_sum3 e x y x)). tauto.
      * rewrite (drop_near K tol _ N), !drop_far, nz_0, NX, NY by assumption. discriminate.
      * rewrite (drop_near K tol _ N), !drop_far by assumption. exact L3.
  - assert (G : forall w, In w [w1; w2; w3] -> is_close atol (snap atol rat w) (y / x) \/
      (snap atol rat w = 1 /\ (is_close tol (y / x) 1 \/ is_close tol (to_sum3 e x y x) (to_sum3 e x y y)))).
    { intros w Hw. destruct (W w Hw) as [-> | [-> H]]; [left; apply snap_close, A0|right]. split; [exact F1|].
      rewrite <- !near_iff. exact H. }
    intros w [<- | [<- | [<- | []]]]; apply G; cbn; tauto.
Qed.

(** A root on a symmetric axis: the result is exactly on the axis. *)
Lemma approximate_axis tol atol (rat : K -> K) x z : 0 < tol -> tol <= 1 -> rat 1 = 1 -> x + x + z <> 0 ->
  ~ is_close tol (to_sum3 x x z x) 0 -> (z = 0 \/ ~ is_close tol (to_sum3 x x z z) 0) ->
  ~ is_close tol (to_sum3 x x z x) (to_sum3 x x z z) -> ~ is_close tol (z / x) 1 ->
  on_rotations (approximate3 tol atol rat) (x, x, z) (1, 1, snap atol rat (z / x)).
Proof.
  intros T0 T1 r1 S1 X Z XZ R1. apply near_false in X, XZ, R1.
  pose proof (sum_rot x x z S1) as S2. pose proof (sum_rot x z x S2) as S3.
  assert (Hx : x <> 0) by (apply (to_sum3_neq0 x x z), (far_neq0 K tol); assumption).
  pose proof (to_sum3_ratio x x z x z S1 Hx) as ER. rewrite <- ER in R1.
  assert (Z' : to_sum3 x x z z = 0 \/ near tol (to_sum3 x x z z) 0 = false).
  { destruct Z as [E | Z]; [left|right; apply near_false; exact Z]. clear - E S1. rewrite E at 2. apply to_sum3_0, S1. }
  pose proof (loop_axis K tol _ _ T0 T1 X XZ R1 Z') as (L1 & L2 & L3). rewrite ER in L1, L2, L3.
  pose proof (snap_fix K atol rat 1 r1) as F1.
  assert (NX : nz (to_sum3 x x z x) = 1%nat) by (apply (nz_far K tol); assumption).
  assert (DZ : drop tol (to_sum3 x x z z) = to_sum3 x x z z).
  { destruct Z' as [-> | E]; [apply drop_0|apply drop_far, E]. }
  unfold rn_rot in L2, L3.
  split; [|split]; cbn [approximate3 rn_rot].
  - rewrite (approx_of_loop tol atol rat x x z 1 1 (z / x)), ?F1; [reflexivity|assumption|right; left; assumption| |].
    + rewrite DZ, !drop_far, NX by assumption. cbn. discriminate.
    + rewrite DZ, !drop_far by assumption. exact L1.
  - rewrite (approx_of_loop tol atol rat x z x 1 (z / x) 1), ?F1; [reflexivity|assumption| | |];
      rewrite !(to_sum3_rot x x z).
    + left; assumption.
    + rewrite DZ, !drop_far, NX by assumption. cbn. rewrite Nat.add_1_r. discriminate.
    + rewrite DZ, !drop_far by assumption. exact L2.
  - rewrite (approx_of_loop tol atol rat z x x (z / x) 1 1), ?F1; [reflexivity|assumption| | |];
      rewrite !(to_sum3_rot x z x), !(to_sum3_rot x x z).
    + left. rewrite near_sym. assumption.
    + rewrite DZ, !drop_far, NX by assumption. rewrite Nat.add_1_r, Nat.add_1_r. discriminate.
    + rewrite DZ, !drop_far by assumption. exact L3.
Qed.

(** A root near a symmetric axis, away from the border. *)
Lemma approximate_axis_near tol atol (rat : K -> K) x x' z : 0 < tol -> tol <= 1 -> rat 1 = 1 -> x + x' + z <> 0 ->
  is_close tol (to_sum3 x x' z x) (to_sum3 x x' z x') ->
  ~ is_close tol (to_sum3 x x' z x) 0 -> ~ is_close tol (to_sum3 x x' z x') 0 -> ~ is_close tol (to_sum3 x x' z z) 0 ->
  ~ is_close tol (to_sum3 x x' z x) (to_sum3 x x' z z) -> ~ is_close tol (to_sum3 x x' z x') (to_sum3 x x' z z) ->
  ~ is_close tol (z / x) 1 ->
  on_rotations (approximate3 tol atol rat) (x, x', z) (1, 1, snap atol rat (z / x)).
Proof.
  intros T0 T1 r1 S1 XX X X' Z XZ XZ' R1. apply near_iff in XX. apply near_false in X, X', Z, XZ, XZ', R1.
  pose proof (sum_rot x x' z S1) as S2. pose proof (sum_rot x' z x S2) as S3.
  assert (Hx : x <> 0) by (apply (to_sum3_neq0 x x' z), (far_neq0 K tol); assumption).
  pose proof (to_sum3_ratio x x' z x z S1 Hx) as ER. rewrite <- ER in R1.
  pose proof (loop_axis_near K tol _ _ _ T0 T1 XX X X' Z XZ XZ' R1) as (L1 & L2 & L3). rewrite ER in L1, L2, L3.
  pose proof (snap_fix K atol rat 1 r1) as F1.
  assert (NX : nz (to_sum3 x x' z x) = 1%nat) by (apply (nz_far K tol); assumption).
  assert (NX' : nz (to_sum3 x x' z x') = 1%nat) by (apply (nz_far K tol); assumption).
  assert (NZ : nz (to_sum3 x x' z z) = 1%nat) by (apply (nz_far K tol); assumption).
  unfold rn_rot in L2, L3.
  split; [|split]; cbn [approximate3 rn_rot].
  - rewrite (approx_of_loop tol atol rat x x' z 1 1 (z / x)), ?F1; [reflexivity|assumption|right; left; assumption| |].
    + rewrite !drop_far, NX, NX', NZ by assumption. discriminate.
    + rewrite !drop_far by assumption. exact L1.
  - rewrite (approx_of_loop tol atol rat x' z x 1 (z / x) 1), ?F1; [reflexivity|assumption| | |];
      rewrite !(to_sum3_rot x x' z).
    + left; assumption.
    + rewrite !drop_far, NX, NX', NZ by assumption. discriminate.
    + rewrite !drop_far by assumption. exact L2.
  - rewrite (approx_of_loop tol atol rat z x x' (z / x) 1 1), ?F1; [reflexivity|assumption| | |];
      rewrite !(to_sum3_rot x' z x), !(to_sum3_rot x x' z).
    + left. rewrite near_sym. assumption.
    + rewrite !drop_far, NX, NX', NZ by assumption. discriminate.
    + rewrite !drop_far by assumption. exact L3.
Qed.

(** ** No division by zero *)
Lemma near0_far tol x y : near tol x 0 = false -> y = 0 -> near tol x y = false /\ near tol y x = false.
Proof. intros H ->. split; [|rewrite near_sym]; exact H. Qed.

Lemma loop_total tol x y z : 0 < tol -> tol <= 1 ->
  (x = 0 \/ near tol x 0 = false) -> (y = 0 \/ near tol y 0 = false) -> (z = 0 \/ near tol z 0 = false) ->
  (x <> 0 \/ y <> 0) -> (y <> 0 \/ z <> 0) -> (z <> 0 \/ x <> 0) ->
  rn_loop tol (x, y, z) <> None.
Proof.
  intros T0 T1 X Y Z XY YZ ZX.
  assert (T : near tol (1 : K) 0 = false) by (apply near10; assumption).
  assert (N : near tol (0 : K) 0 = true) by (apply near_refl; exact T0).
  assert (P : forall u v : K, (u = 0 \/ near tol u 0 = false) -> (v = 0 \/ near tol v 0 = false) -> (u <> 0 \/ v <> 0) ->
    near tol u v = true -> feqb u 0 = false).
  { intros u v _ Hv Huv E. apply feqb_neq. intro H. subst u. destruct Hv as [-> | Hv]; [tauto|].
    rewrite near_sym, Hv in E. discriminate. }
  assert (Q : forall u v : K, (u = 0 \/ near tol u 0 = false) -> (u <> 0 \/ v <> 0) -> near tol u 0 = true -> u = 0 /\ v <> 0).
  { intros u v [E | E] Huv H; [|congruence]. split; [exact E|]. tauto. }
  unfold rn_loop, rn_step, rn_rot.
  case_eq (near tol x y); intro E1.
  { rewrite (P x y X Y XY E1). case_eq (near tol 1 (z / x)); intro E2; rewrite ?feqb10.
    - rewrite div_one. rewrite (near_refl K tol 1 T0), ?feqb10. discriminate.
    - rewrite T. rewrite (near_sym K tol (z / x) 1), E2. destruct (near tol (z / x) 0); rewrite ?feqb10; discriminate. }
  case_eq (near tol x 0); intro E2.
  { destruct (Q x y X XY E2) as [Hx Hy]. subst x. rewrite (proj2 (feqb_neq K y 0) Hy).
    case_eq (near tol 1 (z / y)); intro E3; rewrite ?feqb10.
    - rewrite div_one, T. discriminate.
    - rewrite T. case_eq (near tol (z / y) 0); intro E4; [|discriminate].
      assert (Hz : z <> 0) by tauto.
      assert (F : feqb (z / y) 0 = false).
      { apply feqb_neq. rewrite fdiv_def. apply fmul_neq0; [exact Hz|apply finv_neq0, Hy]. }
      rewrite F. discriminate. }
  case_eq (near tol y z); intro E3.
  { rewrite (P y z Y Z YZ E3). case_eq (near tol 1 (x / y)); intro E4; rewrite ?feqb10; [discriminate|]. rewrite T. discriminate. }
  case_eq (near tol y 0); intro E4.
  { destruct (Q y z Y YZ E4) as [Hy Hz]. rewrite (proj2 (feqb_neq K z 0) Hz).
    case_eq (near tol 1 (x / z)); intro E5; rewrite ?feqb10; [discriminate|]. rewrite T. discriminate. }
  case_eq (near tol z x); intro E5; [rewrite (P z x Z X ZX E5); discriminate|].
  case_eq (near tol z 0); intro E6; [|discriminate].
  destruct (Q z x Z ZX E6) as [_ Hx]. rewrite (proj2 (feqb_neq K x 0) Hx). discriminate.
Qed.

Lemma approximate_total_lemma tol atol (rat : K -> K) a b c : 0 < tol -> tol <= 1 ->
  (approximate tol atol rat a b c = None <-> a + b + c = 0).
Proof.
  intros T0 T1. split.
  - intro H. destruct (feq_dec K (a + b + c) 0) as [E | Hs]; [exact E|]. exfalso. revert H.
    unfold approximate. cbv zeta. rewrite (s_neq0 K a b c Hs), !third by exact Hs.
    set (x := to_sum3 a b c a). set (y := to_sum3 a b c b). set (z := to_sum3 a b c c).
    assert (S3 : x + y + z = 1 + 1 + 1) by (unfold x, y, z, to_sum3; field; exact Hs).
    clearbody x y z. destruct (near tol x y && near tol y z && near tol x z); [discriminate|].
    destruct (Nat.eqb (nz (drop tol x) + nz (drop tol y) + nz (drop tol z)) 1) eqn:En; [discriminate|].
    apply Nat.eqb_neq in En.
    assert (H0 : (nz (drop tol x) + nz (drop tol y) + nz (drop tol z))%nat <> 0%nat).
    { intro E. assert (L : forall w, nz (drop tol w) = O -> w < 1).
      { intros w Hw. destruct (near tol w 0) eqn:Nw.
        - apply near_iff in Nw. destruct Nw as [_ Nw]. replace (w - 0) with w in Nw by ring. exact (flt_le_trans K _ _ _ Nw T1).
        - rewrite (drop_far K tol w Nw), (nz_far K tol w T0 Nw) in Hw. discriminate. }
      assert (Ex := L x ltac:(lia)). assert (Ey := L y ltac:(lia)). assert (Ez := L z ltac:(lia)).
      apply flt_sub in Ex, Ey, Ez.
      assert (P : 0 < (1 - x) + (1 - y) + (1 - z)) by (apply fadd_pos; [apply fadd_pos|]; assumption).
      replace ((1 - x) + (1 - y) + (1 - z)) with (1 + 1 + 1 - (x + y + z)) in P by ring. rewrite S3 in P.
      replace (1 + 1 + 1 - (1 + 1 + 1)) with (0 : K) in P by ring. exact (flt_irrefl K 0 P). }
    assert (L : rn_loop tol (drop tol x, drop tol y, drop tol z) <> None).
    { destruct (drop_cases K tol x T0) as [[Dx Nx] | (Fx & Ux & Nx)]; destruct (drop_cases K tol y T0) as [[Dy Ny] | (Fy & Uy & Ny)];
      destruct (drop_cases K tol z T0) as [[Dz Nz] | (Fz & Uz & Nz)]; try (exfalso; lia);
      apply loop_total; first [assumption | left; assumption | right; assumption]. }
    destruct (rn_loop tol (drop tol x, drop tol y, drop tol z)) as [[[p q] r]|]; [discriminate|]. contradiction.
  - intro E. unfold approximate. cbv zeta. rewrite E.
    assert (F : feqb (0 / (1 + 1 + 1) : K) 0 = true).
    { apply feqb_eq. rewrite fdiv_def. ring. }
    rewrite F. reflexivity.
Qed.

(** ** Corners *)
Lemma approximate_corner_lemma tol atol (rat : K -> K) a b c : 0 < tol -> tol <= 1 -> a + b + c <> 0 ->
  is_close tol (to_sum3 a b c b) 0 -> is_close tol (to_sum3 a b c c) 0 -> ~ is_close tol (to_sum3 a b c a) 0 ->
  ~ is_close tol (to_sum3 a b c a) (to_sum3 a b c b) ->
  on_rotations (approximate3 tol atol rat) (a, b, c) (1, 0, 0).
Proof.
  intros T0 T1 S1 B C A AB. apply near_iff in B, C. apply near_false in A, AB.
  pose proof (sum_rot a b c S1) as S2. pose proof (sum_rot b c a S2) as S3.
  assert (U : unit_of (to_sum3 a b c a) = 1).
  { unfold unit_of. rewrite (proj2 (feqb_neq K _ 0) (far_neq0 K tol _ T0 A)). reflexivity. }
  assert (U0 : unit_of (0 : K) = 0).
  { unfold unit_of. rewrite (proj2 (feqb_eq K 0 0) eq_refl). reflexivity. }
  assert (BA : near tol (to_sum3 a b c b) (to_sum3 a b c a) = false) by (rewrite near_sym; exact AB).
  split; [|split]; cbn [approximate3 rn_rot]; unfold approximate; cbv zeta; rewrite s_neq0, !third by assumption;
    rewrite ?(to_sum3_rot b c a), ?(to_sum3_rot a b c), ?AB, ?BA, ?andb_false_r; cbn [andb];
    rewrite (drop_near K tol _ B), (drop_near K tol _ C), (drop_far K tol _ A), nz_0, (nz_far K tol _ T0 A);
    cbn [Nat.eqb Nat.add]; rewrite U, U0; reflexivity.
Qed.
End Facts.
Arguments approximate3 {K}.
(** Rational results as plain fractions, for the examples. *)
Definition out3 (r : option (QcOF * QcOF * QcOF)) : option (QArith_base.Q * QArith_base.Q * QArith_base.Q) :=
  match r with Some (a, b, c) => Some (Qcanon.this a, Qcanon.this b, Qcanon.this c) | None => None end.
