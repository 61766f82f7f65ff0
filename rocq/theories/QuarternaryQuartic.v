(** * Facts about cyclic quartics in four variables *)
From Coq Require Import Bool List Arith Lia Ring Field.
From Verif Require Import OrdField Base Poly StructUtils Expr Sparse SparseSym Quarternary QuarternaryFacts.
Import ListNotations.

Section Lemmas.
Variable K : OrdField.
Local Open Scope of_scope.
Add Field Kf : (F_field K).

Lemma meval_ones (m : list nat) : meval (fun _ => 1 : K) m = 1.
Proof.
  unfold meval. induction (seq 0 (length m)) as [|i l IH]; [reflexivity|]. cbn [map fprod]. rewrite IH.
  assert (H : forall n, (1 : K) ^ n = 1). { induction n; cbn [fpow]; [reflexivity|rewrite IHn; ring]. }
  rewrite H. ring.
Qed.
Lemma poly111_ones (p : poly K) : poly111 p = peval (fun _ => 1) p.
Proof.
  unfold poly111, peval. f_equal. apply map_ext. intros [m v]. cbn [fst snd]. rewrite meval_ones. ring.
Qed.

Lemma Some_inj {T} (u v : T) : Some u = Some v -> u = v.
Proof. congruence. Qed.

Section Values.
Variable x : nat -> K.
Let A := x 0%nat. Let B := x 1%nat. Let C := x 2%nat. Let D := x 3%nat.
Let a : ex K := EX 0. Let b : ex K := EX 1. Let c : ex K := EX 2. Let d : ex K := EX 3.
Let U := (A - C) * (B - D).
Let V := B * D - A * C.

Lemma fluorite_map_value u v : ev x (fluorite_map u v) = (u * U + v * V) * (u * U + v * V).
Proof.
  unfold fluorite_map, cyc4, rot4. cbn [ev erename]. fold A B C D. unfold U, V. cbn [fpow]. field. fnz.
Qed.
Lemma weighting4_value w1 w2 w3 e : weighting4 w1 w2 w3 = Some e ->
  ev x e = w1 * (U * U) + w2 * (U * V) + w3 * (V * V).
Proof.
  unfold weighting4. destruct (quadratic_weighting w1 w2 w3) as [r|] eqn:E; [|discriminate].
  intro H. injection H as <-. pose proof (quadratic_weighting_value K w1 w2 w3 U V r E) as Hv.
  transitivity (weighting_sum (fun u v => (u * U + v * V) * (u * U + v * V)) r); [|rewrite Hv; ring].
  unfold weighting_sum. clear E Hv. induction r as [|[w [u v]] r IH]; [reflexivity|].
  cbn [fold_right map fsum ev fst snd]. rewrite IH, fluorite_map_value. reflexivity.
Qed.
Lemma cyc4_abac : ev x (cyc4 (a * b - a * c))%E = A*B + B*C + C*D + D*A - 2 * (A*C + B*D).
Proof. unfold cyc4, rot4, a, b, c. cbn [ev erename]. fold A B C D. ring. Qed.
Lemma cyc4_abcd2 : ev x (cyc4 ((a * b - c * d) ^ 2))%E = 2 * ((A*B - C*D) ^ 2 + (B*C - D*A) ^ 2).
Proof. unfold cyc4, rot4, a, b, c, d. cbn [ev erename]. fold A B C D. cbn [fpow]. ring. Qed.
Lemma cyc4_abcd : ev x (cyc4 (a * b * c * d))%E = 4 * (A * B * C * D).
Proof. unfold cyc4, rot4, a, b, c, d. cbn [ev erename]. fold A B C D. ring. Qed.
Lemma quartic_sq_value t u v z w : ev x (quartic_sq t u v z w) =
  (2 * 2 + (t - 1) * (t - 1) + (- t - 1) * (- t - 1)) * (A^4 + B^4 + C^4 + D^4)
  + (2 * 2 * u + 2 * (- v) * (- t - 1) + 2 * (t - 1) * (v - z)) * (A^3*B + B^3*C + C^3*D + D^3*A)
  + (2 * 2 * w + 2 * (t - 1) * (- w) + 2 * (- w) * (- t - 1)) * (A^3*C + B^3*D + C^3*A + D^3*B)
  + (2 * 2 * (- v) + 2 * u * (t - 1) + 2 * (- u + z) * (- t - 1)) * (A^3*D + B^3*A + C^3*B + D^3*C)
  + (2 * 2 * (t - 1) + 2 * 2 * (- t - 1) + u * u + (- v) * (- v) + (v - z) * (v - z) + (- u + z) * (- u + z)) * (A^2*B^2 + B^2*C^2 + C^2*D^2 + D^2*A^2)
  + (2 * 2 * (v - z) + 2 * u * w + 2 * u * (- t - 1) + 2 * w * (- u + z) + 2 * (- v) * (- w) + 2 * (t - 1) * (- u + z) + 2 * (v - z) * (- w)) * (A^2*B*C + B^2*C*D + C^2*D*A + D^2*A*B)
  + (2 * 2 * (- w) + 2 * u * (- v) + 2 * u * (v - z) + 2 * w * (t - 1) + 2 * w * (- t - 1) + 2 * (- v) * (- u + z) + 2 * (v - z) * (- u + z)) * (A^2*B*D + B^2*C*A + C^2*D*B + D^2*A*C)
  + 2 * (w * w + 2 * (t - 1) * (- t - 1) + (- w) * (- w)) * (A^2*C^2 + B^2*D^2)
  + (2 * 2 * (- u + z) + 2 * u * (- w) + 2 * w * (- v) + 2 * w * (v - z) + 2 * (- v) * (t - 1) + 2 * (v - z) * (- t - 1) + 2 * (- w) * (- u + z)) * (A^2*C*D + B^2*D*A + C^2*A*B + D^2*B*C)
  + 4 * (2 * u * (- u + z) + 2 * w * (- w) + 2 * (- v) * (v - z)) * (A*B*C*D).
Proof. unfold quartic_sq, cyc4, rot4. cbn [ev erename]. fold A B C D. cbn [fpow]. ring. Qed.
End Values.

Lemma weighting4_manifest (w1 w2 w3 : K) e : weighting4 w1 w2 w3 = Some e -> manifest false e = true.
Proof.
  unfold weighting4. destruct (quadratic_weighting w1 w2 w3) as [r|] eqn:E; [|discriminate].
  intro H. injection H as <-. pose proof (quadratic_weighting_weights K w1 w2 w3 r E) as Hw. clear E.
  induction r as [|[w [u v]] r IH]; [apply fleb_T, fle_refl|].
  cbn [fold_right manifest fst snd]. rewrite IH by (intros w' xy Hin; apply (Hw w' xy); right; exact Hin).
  rewrite (fleb_T K w) by (apply (Hw w (u, v)); left; reflexivity).
  rewrite andb_true_r. cbn [andb]. unfold fluorite_map, cyc4. cbn [manifest Nat.even orb].
  rewrite !manifest_rename. cbn [manifest Nat.even orb andb]. apply fleb_T. fpos.
Qed.

Lemma div_opp (n k : K) : k <> 0 -> n / - k = - (n / k).
Proof. intro H. field. split; [exact H|]. intro E. apply H. replace k with (- - k) by ring. rewrite E. ring. Qed.

Lemma quartic_head_false (p : poly K) : quartic_head p = false ->
  coef p [4;0;0;0]%nat = 0 /\ coef p [3;1;0;0]%nat = 0 /\ coef p [3;0;1;0]%nat = 0 /\ coef p [3;0;0;1]%nat = 0.
Proof.
  unfold quartic_head. cbn [existsb]. rewrite !orb_false_iff, !negb_false_iff. intros (H1 & H2 & H3 & H4 & _).
  rewrite feqb_eq in H1, H2, H3, H4. auto.
Qed.

Lemma quartic4_fluorite_exact p e x : wf 4 p -> homog K 4 p -> cyclic4 K p ->
  quartic4_fluorite p = Some e -> ev x e = peval x p.
Proof.
  intros Hw Hh Hs He. unfold quartic4_fluorite in He. rewrite poly111_ones in He.
  rewrite (cyc4_value K p (fun _ => 1) Hw Hh Hs) in He. rewrite (cyc4_value K p x Hw Hh Hs).
  destruct (quartic_head p) eqn:Hq; [discriminate|]. apply quartic_head_false in Hq. destruct Hq as (Z1 & Z2 & Z3 & Z4).
  rewrite Z1, Z2, Z3, Z4 in *. cbv beta zeta in He.
  set (c2200 := coef p [2;2;0;0]%nat) in *. set (c2110 := coef p [2;1;1;0]%nat) in *.
  set (c2101 := coef p [2;1;0;1]%nat) in *. set (c2020 := coef p [2;0;2;0]%nat) in *.
  set (c2011 := coef p [2;0;1;1]%nat) in *. set (c1111 := coef p [1;1;1;1]%nat) in *.
  clearbody c2200 c2110 c2101 c2020 c2011 c1111.
  match type of He with match ?w with _ => _ end = _ => destruct w as [e0|] eqn:Ew; [|discriminate] end.
  destruct (_ && _)%bool in He; [|discriminate]. apply Some_inj in He; subst e. cbn [ev].
  rewrite (weighting4_value x _ _ _ _ Ew), cyc4_abac, cyc4_abcd2, cyc4_abcd.
  set (A := x 0%nat) in *. set (B := x 1%nat) in *. set (C := x 2%nat) in *. set (D := x 3%nat) in *.
  clearbody A B C D.
  assert (N8 : (fnat 8 : K) <> 0) by (apply fnat_neq0; lia).
  rewrite !(fun n => div_opp n _ N8). cbn [fpow fnat]. field. repeat split; fnz.
Qed.

(** The ten coefficients of the decomposition *)
Section Coefs.
Variables c3100 c3010 c3001 c2200 c2110 c2101 c2020 c2011 t : K.
Let s_ := (t ^ 2 + 3) * const_sum c3100 c3001 c2110 c2011.
Let q_ := c_sq_p c3100 c3010 c3001 c2200 c2110 c2101 c2020 c2011 t / (2 * (t ^ 2 + 1)).
Let w1 := w1_p c3100 c3010 c3001 c2110 c2101 c2020 c2011 t.
Let w2 := w2_p c3100 c3010 c3001 c2110 c2020 c2011 t.
Let w3 := w3_p c3100 c3010 c3001 c2110 c2020 c2011 t.
Let u := sol_x c3100 c3010 c3001 c2110 c2020 c2011 t.
Let v := sol_y c3100 c3010 c3001 c2110 c2020 c2011 t.
Let z := z_p c3100 c3010 c3001 c2110 c2020 c2011 t.
Let w := sol_w c3010 t.

Lemma t21 : t ^ 2 + 1 <> 0.
Proof.
  apply flt_neq0. apply fadd_pos_r; [|apply f1_pos]. cbn [fpow]. replace (t * (t * 1)) with (t * t) by ring. apply fsqr_nonneg.
Qed.
Lemma t23 : t ^ 2 + 3 <> 0.
Proof.
  apply flt_neq0. apply fadd_pos_r; [|fpos]. cbn [fpow]. replace (t * (t * 1)) with (t * t) by ring. apply fsqr_nonneg.
Qed.
Lemma t22 : 2 * t ^ 2 + 2 <> 0.
Proof. replace (2 * t ^ 2 + 2) with (2 * (t ^ 2 + 1)) by ring. apply fmul_neq0; [fnz|exact t21]. Qed.

Ltac go := unfold q_, s_, c_sq_p, c_sq_p0, c_sq_p1, const_sum, w1, w1_p, w2, w2_p, w3, w3_p, u, v, w, sol_x, sol_y, sol_w; fold z;
  generalize t21 t22 t23; intros T1 T2 T3; generalize z; intro z'; cbn [fpow fnat] in *; field;
  repeat split; try fnz; let E := fresh in intro E; first [apply T1; rewrite <- E; ring | apply T2; rewrite <- E; ring | apply T3; rewrite <- E; ring].
Lemma k3100 : (2 * 2 * u + 2 * (- v) * (- t - 1) + 2 * (t - 1) * (v - z))  = (2 * t ^ 2 + fnat 6) * c3100.
Proof. go. Qed.
Lemma k3010 : (2 * 2 * w + 2 * (t - 1) * (- w) + 2 * (- w) * (- t - 1))  = (2 * t ^ 2 + fnat 6) * c3010.
Proof. go. Qed.
Lemma k3001 : (2 * 2 * (- v) + 2 * u * (t - 1) + 2 * (- u + z) * (- t - 1))  = (2 * t ^ 2 + fnat 6) * c3001.
Proof. go. Qed.
Lemma k2200 : (2 * 2 * (t - 1) + 2 * 2 * (- t - 1) + u * u + (- v) * (- v) + (v - z) * (v - z) + (- u + z) * (- u + z)) + w1 + s_ + q_ = (2 * t ^ 2 + fnat 6) * c2200.
Proof. go. Qed.
Lemma k2110 : (2 * 2 * (v - z) + 2 * u * w + 2 * u * (- t - 1) + 2 * w * (- u + z) + 2 * (- v) * (- w) + 2 * (t - 1) * (- u + z) + 2 * (v - z) * (- w)) - w2 - 4 * s_ = (2 * t ^ 2 + fnat 6) * c2110.
Proof. go. Qed.
Lemma k2101 : (2 * 2 * (- w) + 2 * u * (- v) + 2 * u * (v - z) + 2 * w * (t - 1) + 2 * w * (- t - 1) + 2 * (- v) * (- u + z) + 2 * (v - z) * (- u + z)) - 2 * w1 + 2 * s_ = (2 * t ^ 2 + fnat 6) * c2101.
Proof. go. Qed.
Lemma k2020 : 2 * (w * w + 2 * (t - 1) * (- t - 1) + (- w) * (- w)) + w3 + 4 * s_ = (2 * t ^ 2 + fnat 6) * c2020.
Proof. go. Qed.
Lemma k2011 : (2 * 2 * (- u + z) + 2 * u * (- w) + 2 * w * (- v) + 2 * w * (v - z) + 2 * (- v) * (t - 1) + 2 * (v - z) * (- t - 1) + 2 * (- w) * (- u + z)) + w2 - 4 * s_ = (2 * t ^ 2 + fnat 6) * c2011.
Proof. go. Qed.
End Coefs.

Lemma quartic4_real_exact ts p e x : wf 4 p -> homog K 4 p -> cyclic4 K p ->
  quartic4_real ts p = Some e -> ev x e = peval x p.
Proof.
  intros Hw Hh Hs He. unfold quartic4_real in He.
  destruct (quartic_head p); [|apply quartic4_fluorite_exact; assumption].
  cbn [negb] in He. rewrite poly111_ones in He. rewrite (cyc4_value K p (fun _ => 1) Hw Hh Hs) in He.
  rewrite (cyc4_value K p x Hw Hh Hs). cbv beta zeta in He.
  set (m := coef p [4;0;0;0]%nat) in *.
  set (d1 := coef p [3;1;0;0]%nat) in *. set (d2 := coef p [3;0;1;0]%nat) in *. set (d3 := coef p [3;0;0;1]%nat) in *.
  set (d4 := coef p [2;2;0;0]%nat) in *. set (d5 := coef p [2;1;1;0]%nat) in *.
  set (d6 := coef p [2;1;0;1]%nat) in *. set (d7 := coef p [2;0;2;0]%nat) in *.
  set (d8 := coef p [2;0;1;1]%nat) in *. set (d9 := coef p [1;1;1;1]%nat) in *.
  clearbody m d1 d2 d3 d4 d5 d6 d7 d8 d9. clear Hw Hh Hs p.
  destruct (_ || _)%bool eqn:Em in He; [discriminate|]. rewrite orb_false_iff in Em. destruct Em as [Em _].
  apply fleb_gt in Em. pose proof (flt_neq0 Em) as Hm.
  destruct (_ || _)%bool in He; [discriminate|]. destruct (_ <? 0) in He; [discriminate|].
  match type of He with match ?w with _ => _ end = _ => destruct w as [t|]; [|discriminate] end.
  match type of He with match ?w with _ => _ end = _ => destruct w as [e0|] eqn:Ew; [|discriminate] end.
  destruct (_ || _)%bool in He; [discriminate|]. apply Some_inj in He. rewrite <- He. clear He. cbn [ev].
  rewrite (weighting4_value x _ _ _ _ Ew), cyc4_abac, cyc4_abcd2, cyc4_abcd, quartic_sq_value. clear Ew.
  pose proof (k3100 (d1/m) (d2/m) (d3/m) (d5/m) (d7/m) (d8/m) t) as k1.
  pose proof (k3010 (d1/m) (d2/m) (d3/m) (d5/m) (d7/m) (d8/m) t) as k2.
  pose proof (k3001 (d1/m) (d2/m) (d3/m) (d5/m) (d7/m) (d8/m) t) as k3.
  pose proof (k2200 (d1/m) (d2/m) (d3/m) (d4/m) (d5/m) (d6/m) (d7/m) (d8/m) t) as k4.
  pose proof (k2110 (d1/m) (d2/m) (d3/m) (d5/m) (d7/m) (d8/m) t) as k5.
  pose proof (k2101 (d1/m) (d2/m) (d3/m) (d5/m) (d6/m) (d7/m) (d8/m) t) as k6.
  pose proof (k2020 (d1/m) (d2/m) (d3/m) (d5/m) (d7/m) (d8/m) t) as k7.
  pose proof (k2011 (d1/m) (d2/m) (d3/m) (d5/m) (d7/m) (d8/m) t) as k8.
  pose proof (t23 t) as T3.
  set (u := sol_x _ _ _ _ _ _ _) in *. set (v := sol_y _ _ _ _ _ _ _) in *. set (z := z_p _ _ _ _ _ _ _) in *.
  set (w := sol_w _ _) in *. set (w1 := w1_p _ _ _ _ _ _ _ _) in *. set (w2 := w2_p _ _ _ _ _ _ _) in *.
  set (w3 := w3_p _ _ _ _ _ _ _) in *. set (q_ := _ / (2 * (t ^ 2 + 1))) in *.
  set (s_ := (t ^ 2 + 3) * const_sum _ _ _ _) in *.
  clearbody u v z w w1 w2 w3 q_ s_.
  set (A := x 0%nat) in *. set (B := x 1%nat) in *. set (C := x 2%nat) in *. set (D := x 3%nat) in *. clearbody A B C D.
  match type of k1 with ?X = _ => set (X1 := X) in * end. match type of k2 with ?X = _ => set (X2 := X) in * end.
  match type of k3 with ?X = _ => set (X3 := X) in * end. match type of k4 with ?X = _ => set (X4 := X) in * end.
  match type of k5 with ?X = _ => set (X5 := X) in * end. match type of k6 with ?X = _ => set (X6 := X) in * end.
  match type of k7 with ?X = _ => set (X7 := X) in * end. match type of k8 with ?X = _ => set (X8 := X) in * end.
  transitivity (m / (2 * t ^ 2 + fnat 6) * ((2 * t ^ 2 + fnat 6) * (A^4 + B^4 + C^4 + D^4)
    + X1 * (A^3*B + B^3*C + C^3*D + D^3*A) + X2 * (A^3*C + B^3*D + C^3*A + D^3*B)
    + X3 * (A^3*D + B^3*A + C^3*B + D^3*C) + X4 * (A^2*B^2 + B^2*C^2 + C^2*D^2 + D^2*A^2)
    + X5 * (A^2*B*C + B^2*C*D + C^2*D*A + D^2*A*B) + X6 * (A^2*B*D + B^2*C*A + C^2*D*B + D^2*A*C)
    + X7 * (A^2*C^2 + B^2*D^2) + X8 * (A^2*C*D + B^2*D*A + C^2*A*B + D^2*B*C)
    - (4 * (2 * t ^ 2 + fnat 6) + 4 * X1 + 4 * X2 + 4 * X3 + 4 * X4 + 4 * X5 + 4 * X6 + 2 * X7 + 4 * X8) * (A*B*C*D))
    + (4 * m + 4 * d1 + 4 * d2 + 4 * d3 + 4 * d4 + 4 * d5 + 4 * d6 + 2 * d7 + 4 * d8 + d9) * (A*B*C*D)).
  - unfold X1, X2, X3, X4, X5, X6, X7, X8. clear.
    replace (m / (2 * t ^ 2 + fnat 6) * q_ / 2) with (m / (2 * t ^ 2 + fnat 6) * (q_ / 2)) by (rewrite !fdiv_def; ring).
    generalize (m / (2 * t ^ 2 + fnat 6)). intro mu.
    assert (Eq : q_ = 2 * (q_ / 2)) by (field; fnz). set (h := q_ / 2) in *. clearbody h. rewrite Eq. clear Eq.
    cbn [fpow fnat]. field. fnz.
  - rewrite k1, k2, k3, k4, k5, k6, k7, k8. clear - Hm T3.
    assert (T6 : 2 * t ^ 2 + fnat 6 <> 0).
    { replace (2 * t ^ 2 + fnat 6) with (2 * (t ^ 2 + 3)) by (cbn [fnat]; ring). apply fmul_neq0; [fnz|exact T3]. }
    set (n := 2 * t ^ 2 + fnat 6) in *. clearbody n. field. split; assumption.
Qed.

Lemma manifest_cyc4 pos (e : ex K) : manifest pos e = true -> manifest pos (cyc4 e) = true.
Proof. intro H. unfold cyc4. cbn [manifest]. rewrite !manifest_rename, H. reflexivity. Qed.

Lemma manifest_cyc4_sq pos (e : ex K) : manifest pos (cyc4 (EPow e 2)) = true.
Proof. apply manifest_cyc4. reflexivity. Qed.
Lemma manifest_cyc4_abcd : manifest true (cyc4 (EX 0 * EX 1 * EX 2 * EX 3)%E : ex K) = true.
Proof. reflexivity. Qed.

Lemma fluorite_manifest (p : poly K) e : quartic4_fluorite p = Some e -> manifest true e = true.
Proof.
  unfold quartic4_fluorite. destruct (quartic_head p); [discriminate|]. intro He. cbv zeta in He.
  match type of He with match ?w with _ => _ end = _ => destruct w as [e0|] eqn:Ew; [|discriminate] end.
  destruct (_ && _)%bool eqn:E in He; [|discriminate]. rewrite !andb_true_iff in E. destruct E as [[E1 E2] E3].
  apply fleb_le in E2. apply Some_inj in He; subst e. cbn [manifest Nat.even orb].
  rewrite (manifest_mono _ (weighting4_manifest _ _ _ _ Ew)), E1, E3.
  rewrite (fleb_T K (fdiv _ _) (fdiv_nonneg K _ _ E2 (f2_pos K))).
  rewrite !manifest_cyc4_sq, manifest_cyc4_abcd. reflexivity.
Qed.

Lemma quartic4_manifest ts (p : poly K) e : quartic4_real ts p = Some e -> manifest true e = true.
Proof.
  unfold quartic4_real. destruct (quartic_head p); [|apply fluorite_manifest]. cbn [negb]. intro He. cbv zeta in He.
  destruct (_ || _)%bool eqn:Em in He; [discriminate|]. rewrite orb_false_iff in Em. destruct Em as [Em E1].
  apply fleb_gt in Em. apply fltb_ge in E1.
  destruct (_ || _)%bool in He; [discriminate|]. destruct (_ <? 0) in He; [discriminate|].
  match type of He with match ?w with _ => _ end = _ => destruct w as [t|]; [|discriminate] end.
  match type of He with match ?w with _ => _ end = _ => destruct w as [e0|] eqn:Ew; [|discriminate] end.
  destruct (_ || _)%bool eqn:E in He; [discriminate|]. rewrite orb_false_iff in E. destruct E as [Es Eq].
  apply fltb_ge in Es. apply fltb_ge in Eq. apply Some_inj in He; subst e.
  assert (Pt : 0 < 2 * t ^ 2 + fnat 6).
  { apply fadd_pos_r; [|apply fnat_pos; lia]. apply fmul_nonneg; [fpos|]. apply fpow_even_nonneg. reflexivity. }
  assert (Pm : 0 <= coef p [4;0;0;0]%nat / (2 * t ^ 2 + fnat 6)) by (apply fdiv_nonneg; [apply flt_le, Em|exact Pt]).
  cbn [manifest Nat.even orb]. unfold quartic_sq.
  rewrite (manifest_mono _ (weighting4_manifest _ _ _ _ Ew)).
  rewrite !manifest_cyc4_sq, manifest_cyc4_abcd.
  rewrite !andb_true_iff. repeat split; apply fleb_T; try assumption; fpos.
Qed.

Lemma quartic4_defined ts (p : poly K) e x : quartic4_real ts p = Some e -> defined x e.
Proof.
  assert (Hr : forall s (e : ex K), (forall y, defined y e) -> forall y, defined y (erename s e)).
  { intros s e0 H y. assert (G : defined y (erename s e0) <-> defined (fun i => y (s i)) e0).
    { clear H. induction e0; cbn; rewrite ?ev_rename; tauto. } apply G, H. }
  assert (Hc : forall e0 : ex K, (forall y, defined y e0) -> forall y, defined y (cyc4 e0)).
  { intros e0 H y. unfold cyc4. cbn [defined]. repeat split; auto. }
  assert (Hw : forall (w1 w2 w3 : K) e0, weighting4 w1 w2 w3 = Some e0 -> forall y, defined y e0).
  { intros w1 w2 w3 e0 H y. unfold weighting4 in H. destruct (quadratic_weighting w1 w2 w3) as [r|]; [|discriminate].
    injection H as <-. induction r as [|[w [u v]] r IH]; cbn [fold_right defined fst snd]; [exact I|].
    split; [split; [exact I|]|exact IH]. unfold fluorite_map. cbn [defined ev].
    split; [|split; [exact I|fnz]]. apply Hc. intro. cbn. tauto. }
  unfold quartic4_real, quartic4_fluorite. intro He. cbv zeta in He.
  destruct (quartic_head p); cbn [negb] in He.
  - destruct (_ || _)%bool in He; [discriminate|].
    destruct (_ || _)%bool in He; [discriminate|]. destruct (_ <? 0) in He; [discriminate|].
    match type of He with match ?w with _ => _ end = _ => destruct w as [t|]; [|discriminate] end.
    match type of He with match ?w with _ => _ end = _ => destruct w as [e0|] eqn:Ew; [|discriminate] end.
    destruct (_ || _)%bool in He; [discriminate|]. apply Some_inj in He; subst e. unfold quartic_sq.
    cbn [defined]. repeat split; try (apply Hc; intro; cbn; tauto). exact (Hw _ _ _ _ Ew x).
  - match type of He with match ?w with _ => _ end = _ => destruct w as [e0|] eqn:Ew; [|discriminate] end.
    destruct (_ && _)%bool in He; [|discriminate]. apply Some_inj in He; subst e.
    cbn [defined]. repeat split; try (apply Hc; intro; cbn; tauto). exact (Hw _ _ _ _ Ew x).
Qed.
End Lemmas.
