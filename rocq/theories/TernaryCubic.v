(** * Cyclic ternary cubics (triples/core/structsos/ternary/cubic.py:10-270) *)
From Coq Require Import Bool List Arith Lia Ring Field.
From Verif Require Import OrdField Base Congruence Expr CertLimit TernaryQuad TernaryTables.
Import ListNotations.

Section Model.
Context {K : OrdField}.
Local Open Scope of_scope.

Let a : ex K := EX 0.
Let b : ex K := EX 1.
Let c : ex K := EX 2.
Let n_ (n : nat) : K := fnat n.

(** [rationalize_func(poly, validation)] (triples/core/structsos/utils.py:102-160):
    the numerical roots and their rational approximations are an arbitrary
    list of candidates; the first one that passes [validation] is returned
    ([validation_initial] and [direction] only discard candidates). *)
Definition rationalize_func (cands : list K) (validation : K -> bool) : option K :=
  find validation cands.

(** [_sos_struct_cubic_symmetric] (cubic.py:31-64); [radsimp] keeps values and is omitted throughout. *)
Definition cubic_symmetric (cf : nat -> nat -> nat -> K) : option (ex K) :=
  let c300 := (cf 3 0 0)%nat in let c210 := (cf 2 1 0)%nat in
  let rem := 3 * (c300 + c210 * 2) + (cf 1 1 1)%nat in
  let y := [c300 / 4; c210 + 3 * c300 / 4; rem] in
  if forallb (fun v => 0 <=? v) y then
    Some (sum_y y [csum (a * (b + c - EC 2 * a) ^ 2); csum (a * (b - c) ^ 2); cprod a])%E
  else
    let y := [c300; c300 + c210; rem] in
    if forallb (fun v => 0 <=? v) y then
      match schur 3 with
      | Some s3 => Some (sum_y y [s3; csum (a * (b - c) ^ 2); cprod a])%E
      | None => None
      end
    else None.

(** [_sos_struct_cubic_degenerate] (cubic.py:67-80) *)
Definition cubic_degenerate (cf : nat -> nat -> nat -> K) : option (ex K) :=
  let p := (cf 2 1 0)%nat in let q := (cf 1 2 0)%nat in let r := (cf 1 1 1)%nat in
  let rem := 3 * (p + q) + r in
  if ((p <? 0) || (q <? 0) || (rem <? 0))%bool then None
  else if p =? q then Some (csum (a * (b - c) ^ 2) * EC p + EC rem * cprod a)%E
  else
    match amgm (2,1,0)%nat (1,1,1)%nat, amgm (2,0,1)%nat (1,1,1)%nat with
    | Some e1, Some e2 => Some (EC p * e1 + EC q * e2 + EC rem * cprod a)%E
    | _, _ => None
    end.

(** [_sos_struct_cubic_parabola] (cubic.py:83-128); only called with m <> 0. *)
Definition cubic_parabola (cf : nat -> nat -> nat -> K) : option (ex K) :=
  let m := (cf 3 0 0)%nat in
  let rem := 3 * ((cf 2 1 0)%nat + (cf 1 2 0)%nat + m) + (cf 1 1 1)%nat in
  if ((m <? 0) || (rem <? 0))%bool then None
  else
    let p := (cf 2 1 0)%nat / m in let q := (cf 1 2 0)%nat / m in
    if p =? q + 3 then
      if 1 <=? p then
        Some (EC m * csum (a * (a - c) ^ 2) + EC (m * (p - 1)) * csum (a * (b - c) ^ 2) + EC rem * cprod a)%E
      else None
    else if p + 2 * q =? - (3) then
      if p =? 1 then Some (EC m * csum (a * (a - c) ^ 2) + EC rem * cprod a)%E else None
    else if p =? 1 then
      if ((- (2) <=? q) && (q <=? n_ 22))%bool then
        let w1 := (q - n_ 22) / (- n_ 24) * m in
        let w2 := m - w1 in
        Some (EC w1 * csum (a * (a - c) ^ 2) + EC w2 * csum (a * (a - EC 4 * b + EC 3 * c) ^ 2) + EC rem * cprod a)%E
      else None
    else
      let x2 := (n_ 13 * p ^ 2 + n_ 22 * p * q + n_ 18 * p + q ^ 2 - n_ 18 * q - n_ 27) / (p - q - 3) ^ 2 in
      let w1 := (p - x2) / (1 - x2) * m in
      let w2 := m - w1 in
      if negb ((0 <=? w1) && (w1 <=? m)) then None
      else
        let t := 2 * (p + 2 * q + 3) / (p - q - 3) in
        Some (EC w1 * csum (a * (a - c) ^ 2) + EC w2 * csum (a * (a + EC t * b - EC (t + 1) * c) ^ 2)
              + EC rem * cprod a)%E.

(** [_compute_params] and [_check_valid] of [_sos_struct_cubic_nontrivial] (cubic.py:170-180) *)
Definition cubic_t (p q u : K) : K :=
  let p2 := p + 1 in let q2 := q + 1 in
  ((2 * q2 + p2) * u ^ 2 + n_ 6 * u + 2 * p2 + q2) / 2 / (u ^ 4 + u ^ 2 + 1).
Definition cubic_params (p q u : K) : K * K * K * K :=
  let p2 := p + 1 in let n2 := p + q in let q2 := q + 1 in
  let t := cubic_t p q u in
  (t, p2 - t, n2 + 2 * t * u, q2 - t * u ^ 2).
Definition cubic_check (p q u : K) : bool :=
  if u <? 0 then false
  else match cubic_params p q u with
       | (t, p', n', q') => p' ^ 2 + p' * q' + q' ^ 2 <=? 3 * (1 + n')
       end.

(** [_sos_struct_cubic_nontrivial] (cubic.py:131-201).  When [rationalize_func]
    finds nothing, [_compute_params(None)] raises [TypeError]. *)
Definition cubic_nontrivial (cands : list K) (cf : nat -> nat -> nat -> K) : res (option (ex K)) :=
  let coeff3 := (cf 3 0 0)%nat in
  if coeff3 <=? 0 then Ok None
  else
    let p := (cf 2 1 0)%nat / coeff3 in let q := (cf 1 2 0)%nat / coeff3 in let z := (cf 1 1 1)%nat / coeff3 in
    if negb (((0 <=? p) && (0 <=? q)) ||
             (p ^ 2 * q ^ 2 + n_ 18 * p * q - 4 * p ^ 3 - 4 * q ^ 3 - n_ 27 <=? 0)) then Ok None
    else
      match rationalize_func cands (cubic_check p q) with
      | None => Err TypeError
      | Some u =>
          match cubic_params p q u with
          | (t, p', n', q') =>
              let y := [coeff3 / 2; - (p' ^ 2 + p' * q' + q' ^ 2 - 3 * (1 + n')) / n_ 6 * coeff3;
                        t * coeff3; (3 * (1 + p + q) + z) * coeff3] in
              if (3 * (1 + p + q) + z) * coeff3 <? 0 then Ok None
              else
                Ok (Some (sum_y y
                  [csum ((a ^ 2 - b ^ 2 + EC ((p' + 2 * q') / 3) * a * c - EC ((2 * p' + q') / 3) * b * c
                          + EC ((p' - q') / 3) * a * b) ^ 2);
                   csum (a ^ 2 * (b - c) ^ 2);
                   csum (a * b * (a - c - EC u * (b - c)) ^ 2);
                   csum (a ^ 2 * b * c)] / csum a)%E)
          end
      end.

(** [_sos_struct_cubic_nontrivial_irrational] (cubic.py:209-270) *)
Definition cubic_irrational (cf : nat -> nat -> nat -> K) : option (ex K) :=
  let m := (cf 3 0 0)%nat in let p := (cf 2 1 0)%nat in let q := (cf 1 2 0)%nat in
  let rem := 3 * (m + p + q) + (cf 1 1 1)%nat in
  if ((m <? 0) || (rem <? 0))%bool then None
  else if ((0 <=? p) && (0 <=? q))%bool then
    Some (sum_y [m / 2; p; q; rem]%F
      [csum a * csum ((b - c) ^ 2); csum (a ^ 2 * b - cprod a); csum (a ^ 2 * c - cprod a); cprod a])%E
  else
    let p := p / m in let q := q / m in
    let det := - n_ 16 * (p ^ 2 * q ^ 2 + n_ 18 * p * q - 4 * p ^ 3 - 4 * q ^ 3 - n_ 27) in
    if det <? 0 then None
    else
      let u := (2 * p ^ 2 - n_ 6 * q) / (n_ 9 - p * q) in
      let v := (2 * q ^ 2 - n_ 6 * p) / (n_ 9 - p * q) in
      let t := (n_ 9 - p * q) ^ 2 / (p + q + 3) / (3 * (p - q) ^ 2 + (n_ 6 - p - q) ^ 2) in
      Some (sum_y [(p + q + 3) * m / 2; t * m; (1 - t) * m; rem]%F
        [cprod a * csum ((a - b) ^ 2);
         csum (c * (a ^ 2 - b ^ 2 + EC u * (a * b - a * c) + EC v * (b * c - a * b)) ^ 2);
         csum (c * (a - b) ^ 4);
         csum (a ^ 2 * b ^ 2 * c)] / csum (a * b))%E.

(** [sos_struct_cubic] (cubic.py:10-29); [is_rational] = [coeff.is_rational]. *)
Definition sos_struct_cubic (is_rational : bool) (cands : list K) (cf : nat -> nat -> nat -> K) : res (option (ex K)) :=
  if (cf 2 1 0)%nat =? (cf 1 2 0)%nat then Ok (cubic_symmetric cf)
  else if (cf 3 0 0)%nat =? 0 then Ok (cubic_degenerate cf)
  else if negb is_rational then Ok (cubic_irrational cf)
  else match cubic_parabola cf with
       | Some e => Ok (Some e)
       | None => cubic_nontrivial cands cf
       end.

End Model.

Section Proofs.
Variable K : OrdField.
Local Open Scope of_scope.
Add Field Kf : (F_field K).
Implicit Types cf : nat -> nat -> nat -> K.

Definition cubic_value (m p q r A B C : K) : K :=
  m * (A ^ 3 + B ^ 3 + C ^ 3) + p * (A ^ 2 * B + B ^ 2 * C + C ^ 2 * A)
  + q * (A * B ^ 2 + B * C ^ 2 + C * A ^ 2) + r * (A * B * C).

Lemma tri_poly_3 cf A B C : cyclic3 cf ->
  tri_poly 3 cf A B C = cubic_value (cf 3 0 0)%nat (cf 2 1 0)%nat (cf 1 2 0)%nat (cf 1 1 1)%nat A B C.
Proof.
  intro Hc. unfold cubic_value. cbn.
  assert (E1 : (cf 0 3 0 = cf 3 0 0)%nat) by (rewrite (Hc 0 3 0)%nat; reflexivity).
  assert (E2 : (cf 0 0 3 = cf 3 0 0)%nat) by (rewrite (Hc 0 0 3)%nat; exact E1).
  assert (E3 : (cf 0 2 1 = cf 2 1 0)%nat) by apply Hc.
  assert (E4 : (cf 1 0 2 = cf 2 1 0)%nat) by (rewrite (Hc 1 0 2)%nat; exact E3).
  assert (E5 : (cf 0 1 2 = cf 1 2 0)%nat) by apply Hc.
  assert (E6 : (cf 2 0 1 = cf 1 2 0)%nat) by (rewrite (Hc 2 0 1)%nat; exact E5).
  rewrite E1, E2, E3, E4, E5, E6. ring.
Qed.

(** What a result must satisfy. *)
Definition cubic_ok cf (e : ex K) : Prop :=
  forall A B C, defined (pt3 A B C) e -> ev (pt3 A B C) e = tri_poly 3 cf A B C.

Ltac some_eq H e := apply (f_equal (fun o => match o with Some z => z | None => e end)) in H; cbv beta iota in H; subst e.
Ltac nn := repeat match goal with |- context [fleb 0 ?x] =>
   let E := fresh in assert (E : fleb 0 x = true) by (fold (fle 0 x); first [assumption|fpos]); rewrite !E; clear E end; cbn; try reflexivity.

Lemma sum_y_3 (y0 y1 y2 : K) e0 e1 e2 env :
  ev env (sum_y [y0; y1; y2] [e0; e1; e2]) = y0 * ev env e0 + y1 * ev env e1 + y2 * ev env e2.
Proof. rewrite ev_sum_y. cbn [combine map fsum fst snd]. ring. Qed.
Lemma sum_y_4 (y0 y1 y2 y3 : K) e0 e1 e2 e3 env :
  ev env (sum_y [y0; y1; y2; y3] [e0; e1; e2; e3]) =
  y0 * ev env e0 + y1 * ev env e1 + y2 * ev env e2 + y3 * ev env e3.
Proof. rewrite ev_sum_y. cbn [combine map fsum fst snd]. ring. Qed.

Lemma defined_sum_y_3 (y0 y1 y2 : K) e0 e1 e2 env :
  defined env (sum_y [y0; y1; y2] [e0; e1; e2]) -> y0 <> 0 -> defined env e0.
Proof. intros H Hy. cbn in H. destruct (y0 =? 0) eqn:E; [apply feqb_eq in E; congruence|]. cbn in H. tauto. Qed.

(** Constant side conditions, from [N : c <> 0] for a numeral [c]. *)
Ltac nzc N :=
  match goal with |- not (@eq _ ?X (@f0 ?K)) => ffold K end;
  match goal with |- not (@eq _ ?X _) =>
    first [ assumption
          | let E := fresh in intro E; apply N; transitivity X; [cbn; ring|exact E]
          | let E := fresh in intro E; apply N; transitivity (fopp X); [cbn; ring|rewrite E; ring] ] end.

Lemma cubic_symmetric_sound cf e : cyclic3 cf -> (cf 2 1 0 = cf 1 2 0)%nat -> cubic_symmetric cf = Some e ->
  cubic_ok cf e /\ manifest true e = true.
Proof.
  intros Hc Hpq. unfold cubic_symmetric.
  set (m := (cf 3 0 0)%nat). set (p := (cf 2 1 0)%nat). set (r := (cf 1 1 1)%nat).
  set (rem := 3 * (m + p * 2) + r).
  assert (V : forall A B C, tri_poly 3 cf A B C = cubic_value m p p r A B C).
  { intros. rewrite (tri_poly_3 cf A B C Hc), <- Hpq. reflexivity. }
  clearbody m p r.
  destruct (forallb _ _) eqn:E1.
  { intro H. some_eq H e. rewrite forallb_forall in E1.
    split.
    - intros A B C _. rewrite sum_y_3, V. unfold cubic_value, rem. cbn. field. fnz.
    - apply manifest_sum_y; [exact E1|]. intros e [<-|[<-|[<-|[]]]]; cbn; nn. }
  clear E1. destruct (forallb _ _) eqn:E1; [|discriminate].
  rewrite forallb_forall in E1. intro H. cbn [schur] in H. some_eq H e.
  split.
  - intros A B C Hd. rewrite sum_y_3, V.
    assert (Hs : m <> 0 -> A + B + C <> 0).
    { intros Hm Hz. apply defined_sum_y_3 in Hd; [|exact Hm]. cbn in Hd. destruct Hd as (_ & _ & Hd). apply Hd.
      rewrite Hz. ring. }
    destruct (feq_dec K m 0) as [->|Hm].
    + unfold cubic_value, rem. cbn [ev csum cprod erename rot3 pt3 fpow]. ring.
    + specialize (Hs Hm). unfold cubic_value, rem. cbn. field. split; [exact Hs|fnz].
  - apply manifest_sum_y; [exact E1|]. intros e [<-|[<-|[<-|[]]]]; cbn; nn.
Qed.

Lemma cubic_degenerate_sound cf e : cyclic3 cf -> (cf 3 0 0)%nat = 0 -> cubic_degenerate cf = Some e ->
  cubic_ok cf e /\ manifest true e = true.
Proof.
  intros Hc Hm. unfold cubic_degenerate.
  set (p := (cf 2 1 0)%nat). set (q := (cf 1 2 0)%nat). set (r := (cf 1 1 1)%nat).
  set (rem := 3 * (p + q) + r).
  assert (V : forall A B C, tri_poly 3 cf A B C = cubic_value 0 p q r A B C).
  { intros. rewrite (tri_poly_3 cf A B C Hc), Hm. reflexivity. }
  clearbody p q r.
  destruct (p <? 0) eqn:E1; cbn [orb]; [discriminate|].
  destruct (q <? 0) eqn:E2; cbn [orb]; [discriminate|].
  destruct (rem <? 0) eqn:E3; cbn [orb]; [discriminate|].
  apply fltb_ge in E1. apply fltb_ge in E2. apply fltb_ge in E3.
  destruct (p =? q) eqn:E4.
  { apply feqb_eq in E4. intro H. some_eq H e. split.
    - intros A B C _. rewrite V. unfold cubic_value, rem. rewrite <- E4. cbn. ring.
    - clearbody rem. cbn. nn. }
  intro H. cbn [amgm mstd mmax mleb find special_amgms meqb fst snd Nat.ltb Nat.leb Nat.eqb andb orb] in H.
  some_eq H e. split.
  - intros A B C Hd. rewrite V.
    assert (Hs : A + B + C <> 0).
    { destruct Hd as (((_ & (_ & _ & Hd)) & _) & _). cbn in Hd. intro Hz. apply Hd. rewrite Hz. ring. }
    unfold cubic_value, rem. cbn. field. split; [exact Hs|fnz].
  - clearbody rem. cbn. nn.
Qed.

Lemma fopp_neq0 (x : K) : x <> 0 -> - x <> 0.
Proof. intros H E. apply H. replace x with (- - x) by ring. rewrite E. ring. Qed.
Lemma neg_div (x y k m : K) : k <> 0 -> (x - y) / - k * m = (y - x) / k * m.
Proof. intro H. assert (H' := fopp_neq0 k H). field. repeat split; assumption. Qed.

Lemma cubic_parabola_sound cf e : cyclic3 cf -> (cf 3 0 0)%nat <> 0 -> cubic_parabola cf = Some e ->
  cubic_ok cf e /\ manifest true e = true.
Proof.
  intros Hc Hm. unfold cubic_parabola.
  set (m := (cf 3 0 0)%nat) in *. set (p0 := (cf 2 1 0)%nat). set (q0 := (cf 1 2 0)%nat). set (r := (cf 1 1 1)%nat).
  set (rem := 3 * (p0 + q0 + m) + r).
  assert (V : forall A B C, tri_poly 3 cf A B C = cubic_value m p0 q0 r A B C).
  { intros. rewrite (tri_poly_3 cf A B C Hc). reflexivity. }
  destruct (m <? 0) eqn:E1; cbn [orb]; [discriminate|].
  destruct (rem <? 0) eqn:E2; cbn [orb]; [discriminate|].
  apply fltb_ge in E1. apply fltb_ge in E2.
  set (p := p0 / m). set (q := q0 / m).
  assert (Hp : p0 = p * m) by (unfold p; field; exact Hm).
  assert (Hq : q0 = q * m) by (unfold q; field; exact Hm).
  assert (Hr : r = rem - 3 * (p * m + q * m + m)) by (unfold rem; rewrite Hp, Hq; ring).
  clearbody p q rem. rewrite Hp, Hq, Hr in V. clear Hp Hq Hr. clearbody m p0 q0 r.
  destruct (p =? q + 3) eqn:E3.
  { apply feqb_eq in E3. destruct (1 <=? p) eqn:E4; [|discriminate].
    intro H. some_eq H e.
    assert (P1 : 0 <= p - 1) by (apply (proj1 (fle_sub _ _)); exact E4).
    split; [intros A B C _; rewrite V; unfold cubic_value; rewrite E3; cbn; ring|].
    cbn. nn. }
  apply feqb_neq in E3.
  destruct (p + 2 * q =? - (3)) eqn:E4.
  { apply feqb_eq in E4. destruct (p =? 1) eqn:E5; [|discriminate]. apply feqb_eq in E5.
    intro H. some_eq H e.
    assert (Eq : q = - (2)).
    { assert (T : 2 * (q + 2) = 0) by (replace (2 * (q + 2)) with ((p + 2 * q) - p + 4) by ring; rewrite E4, E5; ring).
      apply fmul_eq0 in T. destruct T as [T|T]; [exfalso; exact (f2_neq0 K T)|].
      replace q with ((q + 2) - 2) by ring. rewrite T. ring. }
    split; [intros A B C _; rewrite V; unfold cubic_value; rewrite E5, Eq; cbn; ring|].
    cbn. nn. }
  apply feqb_neq in E4.
  destruct (p =? 1) eqn:E5.
  { apply feqb_eq in E5. destruct (- (2) <=? q) eqn:E6; cbn [andb]; [|discriminate].
    destruct (q <=? fnat 22) eqn:E7; [|discriminate].
    intro H. some_eq H e.
    assert (P24 : 0 < (fnat 24 : K)) by (apply fnat_pos; lia).
    assert (N24 := flt_neq0 P24).
    assert (W1 : 0 <= (q - fnat 22) / - fnat 24 * m).
    { replace ((q - fnat 22) / - fnat 24 * m) with ((fnat 22 - q) / fnat 24 * m) by (symmetry; apply neg_div, N24).
      apply fmul_nonneg; [|exact E1]. apply fdiv_nonneg; [|exact P24]. apply (proj1 (fle_sub _ _)). exact E7. }
    assert (W2 : 0 <= m - (q - fnat 22) / - fnat 24 * m).
    { replace (m - (q - fnat 22) / - fnat 24 * m) with ((q - - (2)) / fnat 24 * m).
      - apply fmul_nonneg; [|exact E1]. apply fdiv_nonneg; [|exact P24]. apply (proj1 (fle_sub _ _)). exact E6.
      - rewrite neg_div by exact N24. replace m with (fnat 24 / fnat 24 * m) at 2 by (field; exact N24).
        rewrite !fdiv_def. replace (fnat 24 * / fnat 24 * m - (fnat 22 - q) * / fnat 24 * m) with ((fnat 24 - fnat 22 + q) * / fnat 24 * m) by ring.
        f_equal. f_equal. cbn. ring. }
    split.
    - intros A B C _. rewrite V. unfold cubic_value. rewrite E5.
      set (w := (q - fnat 22) / - fnat 24 * m).
      assert (Hw : q * m = fnat 22 * m - fnat 24 * w).
      { unfold w. rewrite neg_div by exact N24. rewrite fdiv_def.
        replace (fnat 24 * ((fnat 22 - q) * / fnat 24 * m)) with ((fnat 24 * / fnat 24) * ((fnat 22 - q) * m)) by ring.
        replace (fnat 24 * / fnat 24) with (1 : K) by (field; exact N24). ring. }
      rewrite Hw. clearbody w. cbn. ring.
    - cbn [manifest csum cprod erename Nat.even orb andb]. nn. }
  apply feqb_neq in E5.
  cbv zeta. set (x2 := _ / (p - q - 3) ^ 2). set (w1 := (p - x2) / (1 - x2) * m).
  destruct (0 <=? w1) eqn:E6; cbn [andb negb]; [|discriminate].
  destruct (w1 <=? m) eqn:E7; cbn [andb negb]; [|discriminate].
  intro H. some_eq H e.
  assert (D1 : p - q - 3 <> 0).
  { intro Z. apply E3. apply fsub_eq0. rewrite <- Z. ring. }
  assert (D2 : p - 1 <> 0) by (intro Z; apply E5; apply fsub_eq0; exact Z).
  assert (D3 : p + 2 * q + 3 <> 0).
  { intro Z. apply E4. apply fsub_eq0. rewrite <- Z. ring. }
  assert (Hw1 : w1 = (p * (p - q - 3) ^ 2 - (fnat 13 * p ^ 2 + fnat 22 * p * q + fnat 18 * p + q ^ 2 - fnat 18 * q - fnat 27))
                     / (- fnat 12 * (p - 1) * (p + 2 * q + 3)) * m).
  { assert (N12 : (fnat 12 : K) <> 0) by (apply fnat_neq0; lia).
    assert (D4 : (p - q - 3) ^ 2 - (fnat 13 * p ^ 2 + fnat 22 * p * q + fnat 18 * p + q ^ 2 - fnat 18 * q - fnat 27)
                 = - fnat 12 * (p - 1) * (p + 2 * q + 3)) by (cbn; ring).
    unfold w1. rewrite <- D4. unfold x2.
    assert (D5 : - fnat 12 * (p - 1) * (p + 2 * q + 3) <> 0).
    { apply fmul_neq0; [apply fmul_neq0|]; auto. intro Z. apply N12. replace (fnat 12 : K) with (- - fnat 12 : K) by ring. rewrite Z. ring. }
    rewrite <- D4 in D5. clear D4.
    assert (D6 : (p - q - 3) ^ 2 <> 0) by (apply fpow_neq0; exact D1).
    revert D5 D6. generalize ((p - q - 3) ^ 2).
    generalize (fnat 13 * p ^ 2 + fnat 22 * p * q + fnat 18 * p + q ^ 2 - fnat 18 * q - fnat 27).
    intros X Y D5 D6. field. repeat split; assumption. }
  clearbody w1. clear x2.
  assert (P12 : (fnat 12 : K) <> 0) by (apply fnat_neq0; lia).
  split.
  - intros A B C _. rewrite V. unfold cubic_value. rewrite Hw1. cbn. field. repeat split; nzc P12.
  - assert (W2 : 0 <= m - w1) by (apply (proj1 (fle_sub _ _)); exact E7).
    cbn [manifest csum cprod erename Nat.even orb andb]. nn.
Qed.

(** ** The lifted case: the chosen multiplier is never negative *)
Lemma den_pos (u : K) : 0 < u ^ 4 + u ^ 2 + 1.
Proof.
  apply fadd_pos_r; [|fpos]. apply fadd_nonneg; apply fpow_even_nonneg; reflexivity.
Qed.
Lemma cubic_check_t (p q u : K) : cubic_check p q u = true ->
  0 <= u /\ 0 <= cubic_t p q u /\
  (let t := cubic_t p q u in
   0 <= 3 * (1 + (p + q + 2 * t * u)) -
        ((p + 1 - t) ^ 2 + (p + 1 - t) * (q + 1 - t * u ^ 2) + (q + 1 - t * u ^ 2) ^ 2)).
Proof.
  unfold cubic_check. destruct (u <? 0) eqn:E; [discriminate|]. apply fltb_ge in E.
  cbn [cubic_params]. intro H. cbv zeta in *.
  assert (HD : 0 <= 3 * (1 + (p + q + 2 * cubic_t p q u * u)) -
        ((p + 1 - cubic_t p q u) ^ 2 + (p + 1 - cubic_t p q u) * (q + 1 - cubic_t p q u * u ^ 2) + (q + 1 - cubic_t p q u * u ^ 2) ^ 2)).
  { apply (proj1 (fle_sub _ _)). exact H. }
  split; [exact E|]. split; [|exact HD].
  destruct (fle_total K 0 (cubic_t p q u)) as [T|T]; [exact T|].
  destruct (feq_dec K (cubic_t p q u) 0) as [T0|T0]; [rewrite T0; apply fle_refl|].
  exfalso.
  assert (P := den_pos u). assert (Pz := flt_neq0 P).
  set (s := (2 * (q + 1) + (p + 1)) * u ^ 2 + fnat 6 * u + 2 * (p + 1) + (q + 1)).
  set (d := u ^ 4 + u ^ 2 + 1) in *.
  assert (Ht : cubic_t p q u = s / 2 / d) by reflexivity.
  set (t := cubic_t p q u) in *.
  assert (Hs : s = 2 * d * t) by (rewrite Ht; field; fnz).
  assert (S0 : 0 < - s).
  { rewrite Hs. replace (- (2 * d * t)) with (2 * d * (0 - t)) by ring. apply fmul_pos; [fpos|].
    apply (proj1 (flt_sub _ _)). apply flt_le_neq. split; assumption. }
  (* L = s - 3(u+1)^2 *)
  set (L := (2 * q + p) * u ^ 2 + (2 * p + q)).
  assert (HL : s = L + 3 * (u + 1) ^ 2) by (unfold s, L; cbn; ring).
  assert (U1 : 0 < 3 * (u + 1) ^ 2) by (apply fmul_pos; [fpos|apply fpow_pos; apply fadd_pos_r; fpos]).
  assert (H1 : s * s < L * L).
  { apply (proj2 (flt_sub _ _)).
    replace (L * L - s * s) with (3 * (u + 1) ^ 2 * ((- s) + (- s) + 3 * (u + 1) ^ 2))
      by (replace L with (s - 3 * (u + 1) ^ 2) by (rewrite HL; ring); ring).
    apply fmul_pos; [exact U1|]. fpos. }
  assert (H2 : L * L <= 4 * d * (p ^ 2 + p * q + q ^ 2)).
  { apply (proj2 (fle_sub _ _)).
    replace (4 * d * (p ^ 2 + p * q + q ^ 2) - L * L) with (3 * ((p * u ^ 2 - q) * (p * u ^ 2 - q)))
      by (unfold L, d; cbn; ring).
    fpos. }
  assert (H3 : 0 <= s * s - 4 * d * (p ^ 2 + p * q + q ^ 2)).
  { match type of HD with 0 <= ?X =>
      replace (s * s - 4 * d * (p ^ 2 + p * q + q ^ 2)) with (4 * d * X) end.
    - apply fmul_nonneg; [|exact HD]. fpos.
    - assert (Hs2 : 2 * d * t = (2 * (q + 1) + (p + 1)) * u ^ 2 + fnat 6 * u + 2 * (p + 1) + (q + 1)) by (rewrite <- Hs; reflexivity).
      rewrite Hs.
      transitivity (2 * (2 * d * t) * ((2 * (q + 1) + (p + 1)) * u ^ 2 + fnat 6 * u + 2 * (p + 1) + (q + 1))
                    - (2 * d * t) * (2 * d * t) - 4 * d * (p ^ 2 + p * q + q ^ 2)).
      + unfold d. cbn. ring.
      + rewrite <- Hs2. ring. }
  apply (proj2 (fle_sub _ _)) in H3.
  apply (flt_irrefl K (s * s)). eapply flt_le_trans; [exact H1|]. eapply fle_trans; eassumption.
Qed.

Lemma cubic_nontrivial_sound cands cf e : cyclic3 cf -> cubic_nontrivial cands cf = Ok (Some e) ->
  cubic_ok cf e /\ manifest true e = true /\
  (forall A B C, A + B + C <> 0 -> defined (pt3 A B C) e).
Proof.
  intros Hc. unfold cubic_nontrivial.
  set (m := (cf 3 0 0)%nat) in *. set (p0 := (cf 2 1 0)%nat). set (q0 := (cf 1 2 0)%nat). set (r := (cf 1 1 1)%nat).
  assert (V : forall A B C, tri_poly 3 cf A B C = cubic_value m p0 q0 r A B C).
  { intros. rewrite (tri_poly_3 cf A B C Hc). reflexivity. }
  destruct (m <=? 0) eqn:E1; [intro H; apply Ok_inj in H; discriminate|]. apply fleb_gt in E1.
  assert (Hm := flt_neq0 E1). assert (Hm0 : 0 <= m) by (apply flt_le, E1).
  cbv zeta.
  assert (Hp : p0 = p0 / m * m) by (field; exact Hm).
  assert (Hq : q0 = q0 / m * m) by (field; exact Hm).
  assert (Hr : r = r / m * m) by (field; exact Hm).
  revert Hp Hq Hr. generalize (p0 / m) (q0 / m) (r / m). intros p q z Hp Hq Hr.
  clearbody p0 q0 r m. subst p0 q0 r.
  destruct (negb _); [intro H; apply Ok_inj in H; discriminate|].
  destruct (rationalize_func cands (cubic_check p q)) as [u|] eqn:Eu; [|discriminate].
  apply find_some in Eu. destruct Eu as [_ Eu].
  destruct (cubic_check_t p q u Eu) as (Hu & Ht & HD).
  unfold cubic_params. cbv zeta. generalize dependent (cubic_t p q u). intros t Ht HD.
  destruct (_ <? 0) eqn:E2; [intro H; apply Ok_inj in H; discriminate|]. apply fltb_ge in E2.
  intro H. apply Ok_inj in H. some_eq H e.
  split; [|split].
  - intros A B C Hd. rewrite V. cbn [defined] in Hd. destruct Hd as (_ & _ & Hd). cbn in Hd.
    cbn [ev]. rewrite sum_y_4. unfold cubic_value. cbn. field. fnz.
  - cbn [manifest]. rewrite manifest_sum_y; [reflexivity| |].
    + intros v [<-|[<-|[<-|[<-|[]]]]]; try solve [fpos].
      apply fmul_nonneg; [|exact Hm0]. apply fdiv_nonneg; [|apply fnat_pos; lia].
      cbv zeta in HD. match type of HD with 0 <= ?X => match goal with |- 0 <= ?Y => replace Y with X by ring end end. exact HD.
    + intros e [<-|[<-|[<-|[<-|[]]]]]; reflexivity.
  - intros A B C Hs. cbn [defined]. split; [|split].
    + apply defined_sum_y. intros e [<-|[<-|[<-|[<-|[]]]]]; cbn; tauto.
    + cbn; tauto.
    + cbn. exact Hs.
Qed.

(** ** Irrational coefficients *)
Lemma cubic_disc (p q : K) :
  p ^ 2 * q ^ 2 + fnat 18 * p * q - 4 * p ^ 3 - 4 * q ^ 3 - fnat 27
  = (p * q + fnat 6 * (p + q) + fnat 9) ^ 2 - 4 * (p + q + 3) ^ 3.
Proof. cbn. ring. Qed.
Lemma fneg_cube (x : K) : x <= 0 -> x ^ 3 <= 0.
Proof.
  intro H. apply fopp_nonneg_inv. replace (- x ^ 3) with ((- x) * (x * x)) by (cbn; ring).
  apply fmul_nonneg; [apply fopp_nonneg, H|apply fsqr_nonneg].
Qed.
Lemma disc_sum_pos (p q : K) :
  p ^ 2 * q ^ 2 + fnat 18 * p * q - 4 * p ^ 3 - 4 * q ^ 3 - fnat 27 <= 0 -> 0 < p + q + 3.
Proof.
  rewrite cubic_disc. intro H.
  set (w := p * q + fnat 6 * (p + q) + fnat 9) in *.
  apply fopp_nonneg in H. replace (- (w ^ 2 - 4 * (p + q + 3) ^ 3)) with (4 * (p + q + 3) ^ 3 - w * w) in H by (cbn; ring).
  destruct (fle_total K (p + q + 3) 0) as [S|S].
  2: { destruct (feq_dec K (p + q + 3) 0) as [Z|Z]; [|apply flt_le_neq; split; auto].
       rewrite Z in *. apply flt_le_neq. split; [apply fle_refl|]. intros _.
       assert (W : w * w = 0).
       { apply fle_antisym; [|apply fsqr_nonneg]. apply (proj2 (fle_sub _ _)).
         replace (0 - w * w) with (4 * 0 ^ 3 - w * w) by (cbn; ring). exact H. }
       apply fsqr_eq0 in W. unfold w in W.
       assert (Hq : q = - (3) - p) by (replace q with (p + q + 3 - 3 - p) by ring; rewrite Z; ring).
       subst q.
       assert (N : (p + p + 3) * (p + p + 3) + fnat 27 = 0).
       { transitivity (- (4) * (p * (- (3) - p) + fnat 6 * (p + (- (3) - p)) + fnat 9)); [cbn; ring|]. rewrite W. ring. }
       assert (P : 0 < (p + p + 3) * (p + p + 3) + fnat 27) by (apply fadd_pos_r; [apply fsqr_nonneg|apply fnat_pos; lia]).
       rewrite N in P. exact (flt_irrefl K 0 P). }
  exfalso.
  assert (C := fneg_cube _ S).
  assert (C0 : (p + q + 3) ^ 3 = 0 /\ w * w = 0).
  { assert (X : 0 <= - (p + q + 3) ^ 3) by (apply fopp_nonneg, C).
    assert (Y : (4 * - (p + q + 3) ^ 3) = 0 /\ w * w = 0).
    { apply fadd_eq0_nonneg; [fpos|fpos|].
      apply fle_antisym.
      - apply fopp_nonneg_inv. match type of H with 0 <= ?h => match goal with |- 0 <= ?g => replace g with h by ring end end. exact H.
      - apply fadd_nonneg; fpos. }
    destruct Y as [Y1 Y2]. split; [|exact Y2].
    apply fmul_eq0 in Y1. destruct Y1 as [Y1|Y1].
    - exfalso. assert (P4 : 0 < (4 : K)) by fpos. rewrite Y1 in P4. exact (flt_irrefl K 0 P4).
    - replace ((p + q + 3) ^ 3) with (- - (p + q + 3) ^ 3) by ring. rewrite Y1. ring. }
  destruct C0 as [C0 W].
  assert (Z : p + q + 3 = 0).
  { cbn in C0. apply fmul_eq0 in C0. destruct C0 as [C0|C0]; [exact C0|].
    apply fmul_eq0 in C0. destruct C0 as [C0|C0]; [exact C0|].
    apply fmul_eq0 in C0. destruct C0 as [C0|C0]; [exact C0|]. exfalso. exact (fneq10 K C0). }
  apply fsqr_eq0 in W. unfold w in W.
  assert (Hq : q = - (3) - p) by (replace q with (p + q + 3 - 3 - p) by ring; rewrite Z; ring).
  subst q.
  assert (N : (p + p + 3) * (p + p + 3) + fnat 27 = 0).
  { transitivity (- (4) * (p * (- (3) - p) + fnat 6 * (p + (- (3) - p)) + fnat 9)); [cbn; ring|]. rewrite W. ring. }
  assert (P : 0 < (p + p + 3) * (p + p + 3) + fnat 27) by (apply fadd_pos_r; [apply fsqr_nonneg|apply fnat_pos; lia]).
  rewrite N in P. exact (flt_irrefl K 0 P).
Qed.

Lemma disc_prod_ne (p q : K) :
  0 < p + q + 3 -> ~ (0 <= p /\ 0 <= q) -> fnat 9 - p * q <> 0.
Proof.
  intros S N Z.
  assert (E : p * q = fnat 9) by (symmetry; apply fsub_eq0; exact Z).
  assert (P9 : 0 < p * q) by (rewrite E; apply fnat_pos; lia).
  destruct (fle_total K 0 p) as [Hp|Hp]; destruct (fle_total K 0 q) as [Hq|Hq].
  - apply N. split; assumption.
  - apply (proj1 (flt_not_le K _ _) P9). apply fopp_nonneg_inv. replace (- (p * q)) with (p * - q) by ring.
    apply fmul_nonneg; [exact Hp|apply fopp_nonneg, Hq].
  - apply (proj1 (flt_not_le K _ _) P9). apply fopp_nonneg_inv. replace (- (p * q)) with (- p * q) by ring.
    apply fmul_nonneg; [apply fopp_nonneg, Hp|exact Hq].
  - (* both non-positive: (p+q)^2 >= 36 *)
    assert (X : 0 <= (- p) + (- q)) by (apply fadd_nonneg; apply fopp_nonneg; assumption).
    assert (Y : 0 < 3 - ((- p) + (- q))) by (replace (3 - (- p + - q)) with (p + q + 3) by ring; exact S).
    assert (W : 0 < 3 + ((- p) + (- q))) by (apply fadd_pos_l; fpos).
    assert (T : 0 < (3 - (- p + - q)) * (3 + (- p + - q))) by (apply fmul_pos; assumption).
    apply (proj1 (flt_not_le K _ _) T). apply fopp_nonneg_inv.
    replace (- ((3 - (- p + - q)) * (3 + (- p + - q)))) with ((p - q) * (p - q) + (4 * (p * q) - fnat 9)) by (cbn; ring).
    rewrite E. apply fadd_nonneg; [apply fsqr_nonneg|].
    replace (4 * fnat 9 - fnat 9) with (fnat 27 : K) by (cbn; ring). apply fnat_nonneg.
Qed.

Lemma amgm3 (A B C : K) : 0 <= A -> 0 <= B -> 0 <= C ->
  0 <= A * A * B + B * B * C + C * C * A - 3 * (A * B * C).
Proof.
  intros HA HB HC.
  destruct (feq_dec K (A + B + C) 0) as [Z|Z].
  { apply fadd_eq0_nonneg in Z; [|fpos|exact HC]. destruct Z as [Z ->].
    apply fadd_eq0_nonneg in Z; [|assumption|assumption]. destruct Z as [-> ->].
    match goal with |- 0 <= ?g => replace g with (0 : K) by ring end. apply fle_refl. }
  assert (P : 0 < A + B + C) by (apply flt_le_neq; split; [fpos|auto]).
  apply (fmul_lt_cancel K (2 * (A + B + C))); [fpos|].
  match goal with |- 0 <= ?g =>
    replace g with (B * (2 * A + B) * ((A - C) * (A - C)) + C * (2 * B + C) * ((B - A) * (B - A)) + A * (2 * C + A) * ((C - B) * (C - B))) by ring end.
  fpos.
Qed.

Lemma cubic_irrational_sound cf e : cyclic3 cf -> (cf 3 0 0)%nat <> 0 -> (cf 2 1 0 <> cf 1 2 0)%nat ->
  cubic_irrational cf = Some e ->
  0 <= (cf 3 0 0)%nat /\ cubic_ok cf e /\
  (forall A B C, 0 <= A -> 0 <= B -> 0 <= C -> defined (pt3 A B C) e -> 0 <= ev (pt3 A B C) e) /\
  (forall A B C, A * B + B * C + C * A <> 0 -> defined (pt3 A B C) e).
Proof.
  intros Hc Hm Hpq. unfold cubic_irrational.
  set (m := (cf 3 0 0)%nat) in *. set (p0 := (cf 2 1 0)%nat) in *. set (q0 := (cf 1 2 0)%nat) in *. set (r := (cf 1 1 1)%nat).
  assert (V : forall A B C, tri_poly 3 cf A B C = cubic_value m p0 q0 r A B C).
  { intros. rewrite (tri_poly_3 cf A B C Hc). reflexivity. }
  cbv zeta. set (rem := 3 * (m + p0 + q0) + r).
  destruct (m <? 0) eqn:E1; cbn [orb]; [discriminate|].
  destruct (rem <? 0) eqn:E2; cbn [orb]; [discriminate|].
  apply fltb_ge in E1. apply fltb_ge in E2.
  assert (Hr : r = rem - 3 * (m + p0 + q0)) by (unfold rem; ring).
  clearbody rem. rewrite Hr in V. clear Hr. clearbody m p0 q0 r.
  destruct ((0 <=? p0) && (0 <=? q0))%bool eqn:E3.
  { apply andb_prop in E3. destruct E3 as [P Q]. intro H. some_eq H e.
    assert (VV : forall A B C : K,
      ev (pt3 A B C) (sum_y [m / 2; p0; q0; rem]
      [(csum (EX 0) * csum ((EX 1 - EX 2) ^ 2))%E; csum (EX 0 ^ 2 * EX 1 - cprod (EX 0))%E;
       csum (EX 0 ^ 2 * EX 2 - cprod (EX 0))%E; cprod (EX 0)])
      = m / 2 * ((A + B + C) * ((B - C) * (B - C) + (C - A) * (C - A) + (A - B) * (A - B)))
        + p0 * (A * A * B + B * B * C + C * C * A - 3 * (A * B * C))
        + q0 * (A * A * C + C * C * B + B * B * A - 3 * (A * C * B)) + rem * (A * B * C)).
    { intros. rewrite sum_y_4. cbn. ring. }
    split; [exact E1|split; [|split]].
    - intros A B C _. rewrite VV, V. unfold cubic_value. cbn. field. fnz.
    - intros A B C HA HB HC _. rewrite VV.
      assert (0 <= m / 2) by fpos. fpos; apply amgm3; assumption.
    - intros A B C _. apply defined_sum_y. intros e [<-|[<-|[<-|[<-|[]]]]]; cbn; tauto. }
  assert (Hp : p0 = p0 / m * m) by (field; exact Hm).
  assert (Hq : q0 = q0 / m * m) by (field; exact Hm).
  assert (M0 : 0 < m) by (apply flt_le_neq; split; auto).
  assert (N : ~ (0 <= p0 / m /\ 0 <= q0 / m)).
  { intros [X Y]. rewrite Hp, Hq in E3.
    assert (T1 : (0 <=? p0 / m * m) = true) by (apply fmul_nonneg; assumption).
    assert (T2 : (0 <=? q0 / m * m) = true) by (apply fmul_nonneg; assumption).
    rewrite T1, T2 in E3. discriminate. }
  assert (D : p0 / m <> q0 / m) by (intro X; apply Hpq; rewrite Hp, Hq, X; reflexivity).
  clear E3. revert Hp Hq N D. generalize (p0 / m) (q0 / m). intros p q Hp Hq N D. subst p0 q0.
  destruct (- fnat 16 * _ <? 0) eqn:E3; [discriminate|]. apply fltb_ge in E3.
  assert (Hdisc : p ^ 2 * q ^ 2 + fnat 18 * p * q - 4 * p ^ 3 - 4 * q ^ 3 - fnat 27 <= 0).
  { apply fopp_nonneg_inv. apply (fmul_lt_cancel K (fnat 16)); [apply fnat_pos; lia|].
    match type of E3 with 0 <= ?h => match goal with |- 0 <= ?g => replace g with h by ring end end. exact E3. }
  assert (S := disc_sum_pos p q Hdisc). assert (W := disc_prod_ne p q S N).
  assert (Q0 : 0 < 3 * (p - q) ^ 2 + (fnat 6 - p - q) ^ 2).
  { apply fadd_pos_l; [|apply fpow_even_nonneg; reflexivity]. apply fmul_pos; [fpos|].
    replace ((p - q) ^ 2) with ((p - q) * (p - q)) by (cbn; ring). apply fsqr_pos. intro Z. apply D. apply fsub_eq0, Z. }
  assert (Wp : 0 < (fnat 9 - p * q) ^ 2).
  { replace ((fnat 9 - p * q) ^ 2) with ((fnat 9 - p * q) * (fnat 9 - p * q)) by (cbn; ring). apply fsqr_pos, W. }
  set (t := (fnat 9 - p * q) ^ 2 / (p + q + 3) / (3 * (p - q) ^ 2 + (fnat 6 - p - q) ^ 2)).
  assert (T0 : 0 <= t) by (unfold t; apply flt_le; fpos).
  assert (T1 : 0 <= 1 - t).
  { unfold t. assert (S' := flt_neq0 S). assert (Q' := flt_neq0 Q0).
    replace (1 - _) with (- (p ^ 2 * q ^ 2 + fnat 18 * p * q - 4 * p ^ 3 - 4 * q ^ 3 - fnat 27) / (p + q + 3) / (3 * (p - q) ^ 2 + (fnat 6 - p - q) ^ 2)).
    - apply fdiv_nonneg; [|exact Q0]. apply fdiv_nonneg; [|exact S]. apply fopp_nonneg, Hdisc.
    - replace (- (p ^ 2 * q ^ 2 + fnat 18 * p * q - 4 * p ^ 3 - 4 * q ^ 3 - fnat 27)) with
        ((p + q + 3) * (3 * (p - q) ^ 2 + (fnat 6 - p - q) ^ 2) - (fnat 9 - p * q) ^ 2) by (cbn; ring).
      revert S' Q'. generalize (p + q + 3) (3 * (p - q) ^ 2 + (fnat 6 - p - q) ^ 2) ((fnat 9 - p * q) ^ 2).
      intros x y w X Y. field. split; assumption. }
  intro H. some_eq H e.
  split; [exact E1|split; [|split]].
  - intros A B C Hd. rewrite V. cbn [defined] in Hd. destruct Hd as (_ & _ & Hd). cbn in Hd.
    cbn [ev]. rewrite sum_y_4.
    assert (S' := flt_neq0 S). assert (Q' := flt_neq0 Q0).
    unfold t, cubic_value. cbn. cbn in S', Q', W. field. fnz.
    + intro X. apply Q'. etransitivity; [|exact X]. ring.
    + intro X. apply W. etransitivity; [|exact X]. ring.
  - intros A B C HA HB HC Hd. apply (manifest_nonneg true); [intros _ [|[|i]]; assumption|exact Hd|].
    cbn [manifest]. rewrite manifest_sum_y; [reflexivity| |].
    + assert (S0 : 0 <= p + q + 3) by (apply flt_le, S).
      intros v [<-|[<-|[<-|[<-|[]]]]]; try assumption.
      * apply fdiv_nonneg; [|fpos]. apply fmul_nonneg; assumption.
      * apply fmul_nonneg; assumption.
      * apply fmul_nonneg; assumption.
    + intros e [<-|[<-|[<-|[<-|[]]]]]; reflexivity.
  - intros A B C Hs. cbn [defined]. split; [|split].
    + apply defined_sum_y. intros e [<-|[<-|[<-|[<-|[]]]]]; cbn; tauto.
    + cbn; tauto.
    + cbn. intro X. apply Hs. rewrite <- X. ring.
Qed.

(** ** Denominators *)
Lemma cubic_symmetric_defined cf e A B C : 0 < A + B + C -> cubic_symmetric cf = Some e -> defined (pt3 A B C) e.
Proof.
  intros P. unfold cubic_symmetric. cbv zeta. cbn [schur].
  destruct (forallb _ _); [|destruct (forallb _ _); [|discriminate]];
  intro H; some_eq H e; apply defined_sum_y; intros e [<-|[<-|[<-|[]]]]; cbn; try tauto.
  repeat split. apply fmul_neq0; [apply (fnat_neq0 K 2); lia|apply flt_neq0, P].
Qed.
Lemma cubic_degenerate_defined cf e A B C : 0 < A + B + C -> cubic_degenerate cf = Some e -> defined (pt3 A B C) e.
Proof.
  intros P. unfold cubic_degenerate. cbv zeta.
  destruct (orb _ _); [discriminate|]. destruct (_ =? _).
  - intro H. some_eq H e. cbn. tauto.
  - intro H. cbn [amgm mstd mmax mleb find special_amgms meqb fst snd Nat.ltb Nat.leb Nat.eqb andb orb] in H.
    some_eq H e. cbn. repeat split; (apply fmul_neq0; [apply (fnat_neq0 K 2); lia|apply flt_neq0, P]).
Qed.
Lemma cubic_parabola_defined cf e A B C : cubic_parabola cf = Some e -> defined (pt3 A B C) e.
Proof.
  unfold cubic_parabola. cbv zeta.
  destruct (orb _ _); [discriminate|].
  repeat (match goal with |- (if ?b then _ else _) = _ -> _ => destruct b end;
    try discriminate; try (intro H; some_eq H e; cbn; tauto)).
Qed.

(** ** Completeness *)
Definition orthant_negative (d : nat) cf : Prop :=
  exists A B C, 0 <= A /\ 0 <= B /\ 0 <= C /\ tri_poly d cf A B C < 0.

Lemma cubic_neg_at cf A B C : cyclic3 cf -> 0 <= A -> 0 <= B -> 0 <= C ->
  cubic_value (cf 3 0 0)%nat (cf 2 1 0)%nat (cf 1 2 0)%nat (cf 1 1 1)%nat A B C < 0 -> orthant_negative 3 cf.
Proof.
  intros Hc HA HB HC H. exists A, B, C. rewrite (tri_poly_3 cf A B C Hc). auto.
Qed.
Lemma cubic_neg_100 cf : cyclic3 cf -> (cf 3 0 0)%nat < 0 -> orthant_negative 3 cf.
Proof.
  intros Hc H. apply (cubic_neg_at cf 1 0 0 Hc); try fpos.
  unfold cubic_value. match goal with |- ?g < 0 => replace g with ((cf 3 0 0)%nat) by (cbn; ring) end. exact H.
Qed.
Lemma cubic_neg_111 cf : cyclic3 cf ->
  3 * ((cf 3 0 0)%nat + (cf 2 1 0)%nat + (cf 1 2 0)%nat) + (cf 1 1 1)%nat < 0 -> orthant_negative 3 cf.
Proof.
  intros Hc H. apply (cubic_neg_at cf 1 1 1 Hc); try fpos.
  unfold cubic_value. match type of H with ?h < 0 => match goal with |- ?g < 0 => replace g with h by (cbn; ring) end end. exact H.
Qed.

Lemma cubic_symmetric_complete cf : cyclic3 cf -> (cf 2 1 0 = cf 1 2 0)%nat -> cubic_symmetric cf = None ->
  orthant_negative 3 cf.
Proof.
  intros Hc Hpq. unfold cubic_symmetric. cbv zeta. cbn [schur].
  destruct (forallb _ _); [discriminate|]. cbn [forallb].
  destruct (0 <=? (cf 3 0 0)%nat) eqn:E1; [|intros _; apply cubic_neg_100; [exact Hc|exact E1]].
  destruct (0 <=? (cf 3 0 0)%nat + (cf 2 1 0)%nat) eqn:E2.
  2: { intros _. apply (cubic_neg_at cf 1 1 0 Hc); try fpos.
       unfold cubic_value. rewrite <- Hpq.
       match goal with |- ?g < 0 => replace g with (2 * ((cf 3 0 0)%nat + (cf 2 1 0)%nat)) by (cbn; ring) end.
       apply flt_not_le. intro C. apply fmul_lt_cancel in C; [|fpos]. unfold fle in C. rewrite E2 in C. discriminate. }
  destruct (0 <=? 3 * ((cf 3 0 0)%nat + (cf 2 1 0)%nat * 2) + (cf 1 1 1)%nat) eqn:E3; [discriminate|]. intros _.
  apply cubic_neg_111; [exact Hc|]. rewrite <- Hpq.
  match goal with |- ?g < 0 => replace g with (3 * ((cf 3 0 0)%nat + (cf 2 1 0)%nat * 2) + (cf 1 1 1)%nat) by ring end. exact E3.
Qed.

Lemma fmul_neg (x y : K) : 0 < x -> y < 0 -> x * y < 0.
Proof.
  intros Hx Hy. apply (proj2 (flt_sub _ _)). apply (proj1 (flt_sub _ _)) in Hy.
  replace (0 - x * y) with (x * (0 - y)) by ring. apply fmul_pos; assumption.
Qed.
Ltac dlt E := match goal with |- context [fltb ?x 0] => destruct (fltb x 0) eqn:E end.
Lemma degenerate_point (p q : K) : p < 0 -> exists A, 0 < A /\ p * A + q < 0.
Proof.
  intro Hp. assert (P : 0 < - p) by (apply (proj1 (flt_sub _ _)) in Hp; replace (0 - p) with (- p) in Hp by ring; exact Hp).
  destruct (fle_total K 0 q) as [Hq|Hq].
  - exists ((q + 1) / - p). assert (Hq1 : 0 < q + 1) by (apply fadd_pos_r; [exact Hq|apply f1_pos]).
    assert (Hn := flt_neq0 P).
    split; [fpos|]. replace (p * ((q + 1) / - p) + q) with (- (1) : K) by (field; fnz).
    apply (proj2 (flt_sub _ _)). replace (0 - - (1)) with (1 : K) by ring. apply f1_pos.
  - exists 1. split; [fpos|]. apply (proj2 (flt_sub _ _)). replace (0 - (p * 1 + q)) with (- p + - q) by ring.
    apply fadd_pos_l; [exact P|apply fopp_nonneg, Hq].
Qed.

Lemma cubic_degenerate_complete cf : cyclic3 cf -> (cf 3 0 0)%nat = 0 -> cubic_degenerate cf = None ->
  orthant_negative 3 cf.
Proof.
  intros Hc Hm. unfold cubic_degenerate. cbv zeta.
  destruct ((cf 2 1 0)%nat <? 0) eqn:E1.
  { intros _. apply fltb_lt in E1. destruct (degenerate_point _ (cf 1 2 0)%nat E1) as (A & HA & HN).
    apply (cubic_neg_at cf A 1 0 Hc); try fpos. unfold cubic_value. rewrite Hm.
    match goal with |- ?g < 0 => replace g with (A * ((cf 2 1 0)%nat * A + (cf 1 2 0)%nat)) by (cbn; ring) end.
    apply fmul_neg; assumption. }
  destruct ((cf 1 2 0)%nat <? 0) eqn:E2.
  { intros _. apply fltb_lt in E2. destruct (degenerate_point _ (cf 2 1 0)%nat E2) as (A & HA & HN).
    apply (cubic_neg_at cf 1 A 0 Hc); try fpos. unfold cubic_value. rewrite Hm.
    match goal with |- ?g < 0 => replace g with (A * ((cf 1 2 0)%nat * A + (cf 2 1 0)%nat)) by (cbn; ring) end.
    apply fmul_neg; assumption. }
  dlt E3; cbn [orb].
  { intros _. apply fltb_lt in E3. apply cubic_neg_111; [exact Hc|]. rewrite Hm.
    match type of E3 with ?h < 0 => match goal with |- ?g < 0 => replace g with h by ring end end. exact E3. }
  destruct (_ =? _); [discriminate|].
  cbn [amgm mstd mmax mleb find special_amgms meqb fst snd Nat.ltb Nat.leb Nat.eqb andb orb]. discriminate.
Qed.

(** x^3 + p x^2 + q x + 1 takes a negative value at a positive point as soon
    as the discriminant is positive and p, q are not both non-negative. *)
Lemma fpos_of_sum2 (s t : K) : 0 <= s -> 0 <= t -> s + t <= 2 -> s * t <= 1.
Proof.
  intros Hs Ht H. apply (proj2 (fle_sub _ _)). apply (fmul_lt_cancel K 4); [fpos|].
  replace (4 * (1 - s * t)) with ((2 - (s + t)) * (2 + (s + t)) + (s - t) * (s - t)) by ring.
  apply (proj1 (fle_sub _ _)) in H. fpos.
Qed.

Lemma disc_neg_point_aux (p q : K) :
  0 < p ^ 2 * q ^ 2 + fnat 18 * p * q - 4 * p ^ 3 - 4 * q ^ 3 - fnat 27 ->
  0 < fnat 9 - p * q -> 0 < 2 * p ^ 3 - fnat 9 * p * q + fnat 27 ->
  exists x, 0 < x /\ x ^ 3 + p * x ^ 2 + q * x + 1 < 0.
Proof.
  set (D := p ^ 2 * q ^ 2 + fnat 18 * p * q - 4 * p ^ 3 - 4 * q ^ 3 - fnat 27).
  set (N := fnat 9 - p * q). set (L := 2 * p ^ 3 - fnat 9 * p * q + fnat 27).
  intros HD HN HL. set (E := p ^ 2 - 3 * q).
  assert (HE : 0 < E).
  { apply flt_not_le. intro C. apply fneg_cube in C.
    assert (X : 4 * E ^ 3 = L * L + fnat 27 * D) by (unfold E, L, D; cbn; ring).
    assert (Y : 0 < L * L + fnat 27 * D) by (apply fadd_pos_r; [apply fsqr_nonneg|apply fmul_pos; [apply fnat_pos; lia|exact HD]]).
    rewrite <- X in Y. apply (proj1 (flt_not_le K _ _) Y). apply fopp_nonneg_inv.
    replace (- (4 * E ^ 3)) with (4 * - E ^ 3) by ring. apply fopp_nonneg in C. fpos. }
  exists (N / (2 * E)). split; [fpos|].
  assert (X : N ^ 3 + 2 * p * N ^ 2 * E + 4 * q * N * E ^ 2 + 2 * 4 * E ^ 3 = - (D * L)) by (unfold N, E, L, D; cbn; ring).
  assert (HE' := flt_neq0 HE).
  replace ((N / (2 * E)) ^ 3 + p * (N / (2 * E)) ^ 2 + q * (N / (2 * E)) + 1)
    with ((N ^ 3 + 2 * p * N ^ 2 * E + 4 * q * N * E ^ 2 + 2 * 4 * E ^ 3) / (2 * 4 * E ^ 3)).
  - rewrite X. apply (proj2 (flt_sub _ _)).
    replace (0 - - (D * L) / (2 * 4 * E ^ 3)) with (D * L / (2 * 4 * E ^ 3)) by (field; fnz; exact HE').
    apply fdiv_pos; [apply fmul_pos; assumption|]. apply fmul_pos; [fpos|]. apply fpow_pos, HE.
  - clearbody N E. clear X. cbn. field. fnz; assumption.
Qed.

Lemma disc_neg_point (p q : K) :
  0 < p ^ 2 * q ^ 2 + fnat 18 * p * q - 4 * p ^ 3 - 4 * q ^ 3 - fnat 27 ->
  ~ (0 <= p /\ 0 <= q) ->
  exists x, 0 < x /\ x ^ 3 + p * x ^ 2 + q * x + 1 < 0.
Proof.
  intros HD HN.
  destruct (p + q + 2 <? 0) eqn:S.
  { apply fltb_lt in S. exists 1. split; [apply f1_pos|].
    match goal with |- ?g < 0 => replace g with (p + q + 2) by (cbn; ring) end. exact S. }
  apply fltb_ge in S.
  (* reflection of the problem *)
  assert (R : (exists x, 0 < x /\ x ^ 3 + q * x ^ 2 + p * x + 1 < 0) ->
              exists x, 0 < x /\ x ^ 3 + p * x ^ 2 + q * x + 1 < 0).
  { intros (x & Hx & H). exists (/ x). split; [apply finv_pos, Hx|]. assert (Hx' := flt_neq0 Hx).
    replace ((/ x) ^ 3 + p * (/ x) ^ 2 + q * / x + 1) with (/ x ^ 3 * (x ^ 3 + q * x ^ 2 + p * x + 1)).
    - apply fmul_neg; [apply finv_pos, fpow_pos, Hx|exact H].
    - cbn. field. exact Hx'. }
  assert (HD' : 0 < q ^ 2 * p ^ 2 + fnat 18 * q * p - 4 * q ^ 3 - 4 * p ^ 3 - fnat 27).
  { match type of HD with 0 < ?h => match goal with |- 0 < ?g => replace g with h by ring end end. exact HD. }
  destruct (fle_total K 0 p) as [Hp|Hp]; destruct (fle_total K 0 q) as [Hq|Hq].
  - exfalso. apply HN. split; assumption.
  - assert (Q : 0 <= - (p * q)) by (replace (- (p * q)) with (p * - q) by ring; apply fmul_nonneg; [exact Hp|apply fopp_nonneg, Hq]).
    apply disc_neg_point_aux; [exact HD| |].
    + replace (fnat 9 - p * q) with (fnat 9 + - (p * q)) by ring. apply fadd_pos_l; [apply fnat_pos; lia|exact Q].
    + replace (2 * p ^ 3 - fnat 9 * p * q + fnat 27) with (2 * p ^ 3 + fnat 9 * - (p * q) + fnat 27) by ring.
      apply fadd_pos_r; [|apply fnat_pos; lia]. apply fadd_nonneg; [|apply fmul_nonneg; [apply fnat_nonneg|exact Q]].
      apply fmul_nonneg; [fpos|apply fpow_nonneg, Hp].
  - assert (Q : 0 <= - (q * p)) by (replace (- (q * p)) with (q * - p) by ring; apply fmul_nonneg; [exact Hq|apply fopp_nonneg, Hp]).
    apply R. apply disc_neg_point_aux; [exact HD'| |].
    + replace (fnat 9 - q * p) with (fnat 9 + - (q * p)) by ring. apply fadd_pos_l; [apply fnat_pos; lia|exact Q].
    + replace (2 * q ^ 3 - fnat 9 * q * p + fnat 27) with (2 * q ^ 3 + fnat 9 * - (q * p) + fnat 27) by ring.
      apply fadd_pos_r; [|apply fnat_pos; lia]. apply fadd_nonneg; [|apply fmul_nonneg; [apply fnat_nonneg|exact Q]].
      apply fmul_nonneg; [fpos|apply fpow_nonneg, Hq].
  - set (s := - p). set (t := - q).
    assert (Hs : 0 <= s) by (apply fopp_nonneg, Hp). assert (Ht : 0 <= t) by (apply fopp_nonneg, Hq).
    assert (St : s + t <= 2) by (apply (proj2 (fle_sub _ _)); unfold s, t; replace (2 - (- p + - q)) with (p + q + 2) by ring; exact S).
    assert (P1 := fpos_of_sum2 s t Hs Ht St). apply (proj1 (fle_sub _ _)) in P1.
    assert (Aux : forall u v : K, 0 <= u -> 0 <= v -> u <= 1 -> 0 <= 1 - u * v ->
      0 < 2 * (- u) ^ 3 - fnat 9 * (- u) * (- v) + fnat 27).
    { intros u v Hu Hv U1 UV. apply (proj1 (fle_sub _ _)) in U1.
      replace (2 * (- u) ^ 3 - fnat 9 * - u * - v + fnat 27)
        with (2 * ((1 - u) * (1 + u + u * u)) + fnat 9 * (1 - u * v) + fnat 16) by (cbn; ring).
      apply fadd_pos_r; [|apply fnat_pos; lia].
      apply fadd_nonneg; [fpos|]. apply fmul_nonneg; [apply fnat_nonneg|exact UV]. }
    assert (Hp' : p = - s) by (unfold s; ring). assert (Hq' : q = - t) by (unfold t; ring). clearbody s t. subst p q.
    destruct (fle_total K s 1) as [S1|S1].
    + apply disc_neg_point_aux; [exact HD| |apply Aux; assumption].
      replace (fnat 9 - - s * - t) with (fnat 8 + (1 - s * t)) by (cbn; ring). apply fadd_pos_l; [apply fnat_pos; lia|exact P1].
    + assert (T1 : t <= 1).
      { apply (proj2 (fle_sub _ _)). apply (proj1 (fle_sub _ _)) in St. apply (proj1 (fle_sub _ _)) in S1.
        replace (1 - t) with (2 - (s + t) + (s - 1)) by ring. fpos. }
      apply R. apply disc_neg_point_aux; [exact HD'| |apply Aux; try assumption].
      * replace (fnat 9 - - t * - s) with (fnat 8 + (1 - s * t)) by (cbn; ring). apply fadd_pos_l; [apply fnat_pos; lia|exact P1].
      * replace (1 - t * s) with (1 - s * t) by ring. exact P1.
Qed.

Lemma cubic_disc_complete cf : cyclic3 cf -> 0 < (cf 3 0 0)%nat ->
  ~ (0 <= (cf 2 1 0)%nat / (cf 3 0 0)%nat /\ 0 <= (cf 1 2 0)%nat / (cf 3 0 0)%nat) ->
  (let p := (cf 2 1 0)%nat / (cf 3 0 0)%nat in let q := (cf 1 2 0)%nat / (cf 3 0 0)%nat in
   0 < p ^ 2 * q ^ 2 + fnat 18 * p * q - 4 * p ^ 3 - 4 * q ^ 3 - fnat 27) ->
  orthant_negative 3 cf.
Proof.
  intros Hc Hm HN HD. cbv zeta in HD. destruct (disc_neg_point _ _ HD HN) as (x & Hx & H).
  apply (cubic_neg_at cf x 1 0 Hc); try fpos. assert (Hm' := flt_neq0 Hm).
  unfold cubic_value.
  match type of H with ?h < 0 => match goal with |- ?g < 0 => replace g with ((cf 3 0 0)%nat * h) by (cbn; field; exact Hm') end end.
  apply fmul_neg; assumption.
Qed.

Lemma cubic_irrational_complete cf : cyclic3 cf -> (cf 3 0 0)%nat <> 0 -> cubic_irrational cf = None ->
  orthant_negative 3 cf.
Proof.
  intros Hc Hm. unfold cubic_irrational. cbv zeta.
  destruct ((cf 3 0 0)%nat <? 0) eqn:E1; [intros _; apply cubic_neg_100; [exact Hc|apply fltb_lt, E1]|].
  dlt E2; cbn [orb]; [intros _; apply cubic_neg_111; [exact Hc|apply fltb_lt, E2]|].
  destruct (_ && _)%bool eqn:E3; [discriminate|].
  dlt E4; [|discriminate]. intros _.
  apply fltb_ge in E1. apply fltb_lt in E4.
  assert (M0 : 0 < (cf 3 0 0)%nat) by (apply flt_le_neq; split; auto).
  apply cubic_disc_complete; [exact Hc|exact M0| |].
  - intros [X Y].
    assert (T1 : (0 <=? (cf 2 1 0)%nat) = true).
    { replace ((cf 2 1 0)%nat) with ((cf 2 1 0)%nat / (cf 3 0 0)%nat * (cf 3 0 0)%nat) by (field; exact Hm). apply fmul_nonneg; assumption. }
    assert (T2 : (0 <=? (cf 1 2 0)%nat) = true).
    { replace ((cf 1 2 0)%nat) with ((cf 1 2 0)%nat / (cf 3 0 0)%nat * (cf 3 0 0)%nat) by (field; exact Hm). apply fmul_nonneg; assumption. }
    rewrite T1, T2 in E3. discriminate.
  - cbv zeta. apply (fmul_pos_cancel K (fnat 16)); [apply fnat_pos; lia|].
    apply (proj1 (flt_sub _ _)) in E4.
    match type of E4 with 0 < ?h => match goal with |- 0 < ?g => replace g with h by ring end end. exact E4.
Qed.

Lemma cubic_nontrivial_complete cands cf : cyclic3 cf -> (cf 3 0 0)%nat <> 0 -> cubic_nontrivial cands cf = Ok None ->
  orthant_negative 3 cf.
Proof.
  intros Hc Hm. unfold cubic_nontrivial. cbv zeta.
  destruct ((cf 3 0 0)%nat <=? 0) eqn:E1.
  { intros _. apply cubic_neg_100; [exact Hc|]. apply flt_le_neq. split; assumption. }
  apply fleb_gt in E1.
  destruct (negb _) eqn:E2.
  - intros _. apply negb_true_iff, orb_false_iff in E2. destruct E2 as [E2 E3].
    apply cubic_disc_complete; [exact Hc|exact E1| |].
    + intros [X Y]. unfold fle in X, Y. rewrite X, Y in E2. discriminate.
    + exact E3.
  - destruct (rationalize_func _ _) as [u|]; [|discriminate].
    unfold cubic_params. cbv zeta. dlt E3; [|intro H; apply Ok_inj in H; discriminate].
    intros _. apply fltb_lt in E3. apply cubic_neg_111; [exact Hc|].
    match type of E3 with ?h < 0 => match goal with |- ?g < 0 => replace g with h by (field; exact Hm) end end. exact E3.
Qed.

(** ** The dispatcher *)
Lemma sos_struct_cubic_sound_lemma rational cands cf e : cyclic3 cf ->
  sos_struct_cubic rational cands cf = Ok (Some e) ->
  (forall A B C, defined (pt3 A B C) e -> ev (pt3 A B C) e = tri_poly 3 cf A B C) /\
  (forall A B C, 0 < A -> 0 < B -> 0 < C -> defined (pt3 A B C) e) /\
  (rational = true -> manifest true e = true) /\
  (forall A B C, 0 <= A -> 0 <= B -> 0 <= C -> 0 <= tri_poly 3 cf A B C).
Proof.
  intros Hc H.
  assert (G : cubic_ok cf e /\ (forall A B C, 0 < A -> 0 < B -> 0 < C -> defined (pt3 A B C) e) /\
     (rational = true -> manifest true e = true) /\
     (forall A B C, 0 <= A -> 0 <= B -> 0 <= C -> defined (pt3 A B C) e -> 0 <= ev (pt3 A B C) e)).
  { assert (W : cubic_ok cf e /\ manifest true e = true -> (forall A B C, 0 < A -> 0 < B -> 0 < C -> defined (pt3 A B C) e) ->
      cubic_ok cf e /\ (forall A B C, 0 < A -> 0 < B -> 0 < C -> defined (pt3 A B C) e) /\
      (rational = true -> manifest true e = true) /\
      (forall A B C, 0 <= A -> 0 <= B -> 0 <= C -> defined (pt3 A B C) e -> 0 <= ev (pt3 A B C) e)).
    { intros [X Y] D. repeat split; auto. intros A B C HA HB HC Hd.
      apply (manifest_nonneg true); auto. intros _. apply pt3_nonneg; assumption. }
    unfold sos_struct_cubic in H.
    destruct (_ =? _) eqn:E1.
    { apply feqb_eq in E1. apply Ok_inj in H. apply W; [apply cubic_symmetric_sound; assumption|].
      intros. apply (cubic_symmetric_defined cf); [fpos|assumption]. }
    apply feqb_neq in E1.
    destruct (_ =? 0) eqn:E2.
    { apply feqb_eq in E2. apply Ok_inj in H. apply W; [apply cubic_degenerate_sound; assumption|].
      intros. apply (cubic_degenerate_defined cf); [fpos|assumption]. }
    apply feqb_neq in E2.
    destruct rational; cbn [negb] in H.
    - destruct (cubic_parabola cf) as [e'|] eqn:E3.
      + apply Ok_inj in H. some_eq H e. apply W; [apply cubic_parabola_sound; assumption|].
        intros. apply (cubic_parabola_defined cf). exact E3.
      + destruct (cubic_nontrivial_sound cands cf e Hc H) as (X & Y & Z). apply W; [split; assumption|].
        intros. apply Z. apply flt_neq0. fpos.
    - apply Ok_inj in H. destruct (cubic_irrational_sound cf e Hc E2 E1 H) as (_ & X & Y & Z).
      repeat split; auto; [|discriminate]. intros. apply Z. apply flt_neq0. fpos. }
  destruct G as (G1 & G2 & G3 & G4). repeat split; auto.
  apply (cert_orthant 3 cf e 1 1 1); try fpos; auto. apply G2; apply f1_pos.
Qed.

Lemma sos_struct_cubic_complete_lemma rational cands cf : cyclic3 cf ->
  sos_struct_cubic rational cands cf = Ok None -> orthant_negative 3 cf.
Proof.
  intros Hc. unfold sos_struct_cubic.
  destruct (_ =? _) eqn:E1.
  { apply feqb_eq in E1. intro H. apply Ok_inj in H. apply cubic_symmetric_complete; assumption. }
  destruct (_ =? 0) eqn:E2.
  { apply feqb_eq in E2. intro H. apply Ok_inj in H. apply cubic_degenerate_complete; assumption. }
  apply feqb_neq in E2. destruct rational; cbn [negb].
  - destruct (cubic_parabola cf); [intro H; apply Ok_inj in H; discriminate|].
    apply cubic_nontrivial_complete; assumption.
  - intro H. apply Ok_inj in H. apply cubic_irrational_complete; assumption.
Qed.

End Proofs.
Arguments orthant_negative {K}.
