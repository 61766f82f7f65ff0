(** * Cyclic ternary quartics (triples/core/structsos/ternary/quartic.py:14-556) *)
From Coq Require Import Bool List Arith Lia Ring Field.
From Verif Require Import OrdField Base StructUtils Expr CertLimit TernaryQuad TernaryTables TernaryCubic.
Import ListNotations.

Section Model.
Context {K : OrdField}.
Local Open Scope of_scope.

Let a : ex K := EX 0.
Let b : ex K := EX 1.
Let c : ex K := EX 2.
Let n_ (n : nat) : K := fnat n.

(** The five coefficients the functions read: (4,0,0), (3,1,0), (2,2,0), (1,3,0), (2,1,1).
    [radsimp] keeps values and is omitted throughout. *)
Record q4 := mkq4 { qm : K; qp : K; qn : K; qq : K; qr : K }.
Definition q4_of (cf : nat -> nat -> nat -> K) : q4 :=
  mkq4 (cf 4 0 0)%nat (cf 3 1 0)%nat (cf 2 2 0)%nat (cf 1 3 0)%nat (cf 2 1 1)%nat.

(** [quadratic_weighting(..., mapping=...)] (structsos/utils.py:163-219): [sum(wi * mapping(xi))]. *)
Definition weighting_expr (mapping : K -> K -> ex K) (c1 c2 c3 : K) : option (ex K) :=
  match quadratic_weighting c1 c2 c3 with
  | Some l => Some (fold_right (fun w e => EAdd (EMul (EC (fst w)) (mapping (fst (snd w)) (snd (snd w)))) e) (EC 0) l)
  | None => None
  end.

(** [_sos_struct_quartic_degenerate] (quartic.py:237-278).  Pulling the
    content out of the linear factor (lines 268-269) keeps the value and is
    omitted.  [weighting_expr] returning [None] would raise in [solution + rem]. *)
Definition quartic_degenerate (f : q4) : res (option (ex K)) :=
  let '(mkq4 m p n q r) := f in
  if ((m =? 0) && (p =? 0) && (q =? 0) && (0 <=? n) && (0 <=? n + r) && (r <=? 2 * n))%bool then
    let w1 := (2 * n - r) / 3 in
    let w2 := n - w1 in
    Ok (Some (EC (w1 / 2) * csum (a ^ 2 * (b - c) ^ 2) + EC w2 * (csum (a * b)) ^ 2)%E)
  else if ((m =? 0) && (0 <=? p) && (0 <=? q) && (0 <=? p + n + q + r) && ((0 <=? n) || (n ^ 2 <=? 4 * p * q)))%bool then
    let rem := (EC (p + n + q + r) * csum (a ^ 2 * b * c))%E in
    if 0 <=? n then
      Ok (Some (csum (a * (b - c) ^ 2 * (EC (n / 2) * a + EC q * b + EC p * c)) + rem)%E)
    else
      match weighting_expr (fun x y => csum (b * c * (EC x * (a - b) + EC y * (a - c)) ^ 2))%E p n q with
      | Some s => Ok (Some (s + rem)%E)
      | None => Err TypeError
      end
  else Ok None.

(** [_sos_struct_quartic_core] (quartic.py:68-110) *)
Definition quartic_core (f : q4) : res (option (ex K)) :=
  let '(mkq4 m p n q r) := f in
  if m =? 0 then quartic_degenerate f
  else
    let rem := (m + n + p + q + r) / 3 in
    let n2 := n - rem in
    let det := 3 * m * (m + n2) - (p ^ 2 + p * q + q ^ 2) in
    if ((m <? 0) || (det <? 0) || (rem <? 0))%bool then Ok None
    else
      Ok (Some (sum_y [m / 2; det / n_ 6 / m; rem]
        [csum ((a ^ 2 - b ^ 2 + EC ((p + 2 * q) / m / 3) * a * c + EC ((p - q) / m / 3) * a * b
                + EC (- (2 * p + q) / m / 3) * b * c) ^ 2)%E;
         csum (a ^ 2 * (b - c) ^ 2)%E; ((csum (a * b)) ^ 2)%E])).

(** [_sos_struct_quartic_quadratic_border] (quartic.py:113-148); [irr] is the
    test [not isinstance(sqrt(t**2 + 4), Rational)].  Only called with m <> 0. *)
Definition quartic_border (irr : bool) (f : q4) : option (ex K) :=
  let '(mkq4 m p n q r) := f in
  let t := q / 2 / m in
  if ((p =? - q) && (n =? (t ^ 2 - 2) * m))%bool then
    if irr then
      let y := [m; (t ^ 2 + 3) / 2 * m; r + m + p + n + q] in
      if 0 <=? r + m + p + n + q then
        Some (sum_y y
          [csum (a * (b ^ 2 + c ^ 2 - a ^ 2 - b * c + EC t * a * b - EC t * a * c) ^ 2);
           csum ((b - c) ^ 2) * cprod a;
           (csum a) ^ 2 * cprod a] / csum a)%E
      else None
    else None
  else None.

(** [symmetric], [new_det] (quartic.py:191-196) *)
Definition biased_sym (p q x : K) : K := ((2 * q + p) * x + n_ 6) * x + 2 * p + q.
Definition biased_det (p n q sym root : K) : K :=
  p ^ 2 + p * q + q ^ 2 - 3 * n - 3 - sym ^ 2 / (4 * (root ^ 2 * (root ^ 2 + 1) + 1)).

(** [_sos_struct_quartic_biased] (quartic.py:151-234).  [ugcd] is the root
    taken from the gcd of the two polynomials, if any (lines 199-213): an
    arbitrary number.  [cands] are the candidates of [rationalize_func]. *)
Definition quartic_biased (irr rational : bool) (ugcd : option K) (cands : list K) (f : q4) : res (option (ex K)) :=
  let '(mkq4 m p0 n0 q0 r) := f in
  let rem := m + n0 + p0 + q0 + r in
  match (if (rational && (p0 =? - q0))%bool then quartic_border irr f else None) with
  | Some e => Ok (Some e)
  | None =>
      let n := n0 / m in let p := p0 / m in let q := q0 / m in
      let u_ := match ugcd with
                | Some u => Some u
                | None => rationalize_func cands (fun u =>
                            let s := biased_sym p q u in (0 <=? s) && (biased_det p n q s u <=? 0))%bool
                end in
      match u_ with
      | None => Ok None
      | Some u =>
          let y := biased_sym p q u / (2 * (u ^ 2 * (u ^ 2 + 1) + 1)) * m in
          if 0 <=? y then
            let solution := (EC y * csum (a * b * (a - EC u * b + EC (u - 1) * c) ^ 2) + EC rem * csum (a ^ 2 * b * c))%E in
            match quartic_core (mkq4 m (p0 - y) (n0 - y * (- (2) * u)) (q0 - y * u ^ 2)
                                     (r - y * (2 * u - u ^ 2 - 1) - rem)) with
            | Ok (Some s) => Ok (Some (solution + s)%E)
            | Ok None => Ok None
            | Err er => Err er
            end
          else Ok None
      end
  end.

(** [eq] (quartic.py:359-366) for the standardised coefficients *)
Definition real_eq (p n q s w : K) : K :=
  (- n_ 27 * n + n_ 9 * p ^ 2 + n_ 9 * p * q + n_ 9 * q ^ 2 + 3 * s - n_ 27) * w ^ 3
  + (n_ 81 * n - n_ 27 * p ^ 2 - n_ 27 * p * q + n_ 6 * p * s - n_ 27 * q ^ 2 + n_ 6 * q * s - 3 * s + n_ 81) * w ^ 2
  + (3 * n * s - n_ 81 * n + n_ 27 * p ^ 2 + n_ 27 * p * q - n_ 6 * p * s + n_ 27 * q ^ 2 - n_ 6 * q * s + s ^ 2 + n_ 12 * s - n_ 81) * w
  + (- (3) * n * s + n_ 27 * n - n_ 9 * p ^ 2 - n_ 9 * p * q - n_ 9 * q ^ 2 + s ^ 2 - n_ 12 * s + n_ 27).
Definition fsign (x : K) : K := if x <? 0 then - (1) else if 0 <? x then 1 else 0.

(** the loop over the candidates [w] (quartic.py:390-402) *)
Fixpoint real_loop (f : q4) (valid : K -> bool) (s : K) (ws : list K) : res (option (ex K)) :=
  match ws with
  | [] => Ok None
  | w :: ws' =>
      if valid w then
        let '(mkq4 m p n q r) := f in
        let z := s / (1 - w) ^ 2 / n_ 9 * m in
        match quartic_core (mkq4 (m - z * 1) (p - z * (- (2) * w)) (n - z * (w ^ 2 + 2)) (q - z * (- (2) * w))
                                 (r - z * (2 * w * (w - 1)))) with
        | Ok (Some e) => Ok (Some (EC z * (csum (a ^ 2 - EC w * a * b)) ^ 2 + e)%E)
        | Ok None => real_loop f valid s ws'
        | Err er => Err er
        end
      else real_loop f valid s ws'
  end.

(** [_sos_struct_quartic_uncentered_real] (quartic.py:281-406); [approx x]
    lists what [nsimplify] proposes for x (arbitrary). *)
Definition quartic_real (approx : K -> list K) (f : q4) : res (option (ex K)) :=
  let '(mkq4 m p0 n0 q0 r0) := f in
  if m =? 0 then
    if ((p0 =? 0) && (q0 =? 0) && (0 <=? n0) && (0 <=? n0 + r0) && (r0 <=? 2 * n0))%bool then quartic_degenerate f
    else Ok None
  else if m <? 0 then Ok None
  else
    let p := p0 / m in let n := n0 / m in let q := q0 / m in let r := r0 / m in
    let s := 3 * (1 + p + n + q + r) in
    if s <? 0 then Ok None
    else
      let a3 := - n_ 27 * n + n_ 9 * p ^ 2 + n_ 9 * p * q + n_ 9 * q ^ 2 + 3 * s - n_ 27 in
      let a2 := n_ 81 * n - n_ 27 * p ^ 2 - n_ 27 * p * q + n_ 6 * p * s - n_ 27 * q ^ 2 + n_ 6 * q * s - 3 * s + n_ 81 in
      let a1 := 3 * n * s - n_ 81 * n + n_ 27 * p ^ 2 + n_ 27 * p * q - n_ 6 * p * s + n_ 27 * q ^ 2 - n_ 6 * q * s + s ^ 2 + n_ 12 * s - n_ 81 in
      let a0 := - (3) * n * s + n_ 27 * n - n_ 9 * p ^ 2 - n_ 9 * p * q - n_ 9 * q ^ 2 + s ^ 2 - n_ 12 * s + n_ 27 in
      if ((a3 <=? 0) || (s =? 0))%bool then quartic_core f
      else
        let valid w := ((fsign (real_eq p n q s w) * fsign (w - 1) <=? 0) && (0 <=? n_ 9 * (1 - w) ^ 2 - s))%bool in
        let denom := 3 * a1 * a3 - a2 ^ 2 in
        let cands :=
          if denom =? 0 then [- a2 / (3 * a3)]
          else
            let w1 := - (n_ 9 * a0 * a3 - a1 * a2) / 2 / denom in
            let w2 := (n_ 9 * a0 * a3 ^ 2 - 4 * a1 * a2 * a3 + a2 ^ 3) / a3 / denom in
            approx w1 ++ approx w2 ++ [w1; w2] in
        real_loop f valid s cands.

(** trying the values of [x_] (quartic.py:536-554): [xs] are the candidates
    found numerically, an arbitrary list. *)
Fixpoint try_x (approx : K -> list K) (f : q4) (xs : list K) : res (option (ex K)) :=
  match xs with
  | [] => Ok None
  | x :: xs' =>
      let '(mkq4 m p n q r) := f in
      if x <? r / m then
        match quartic_real approx (mkq4 m p n q (x * m)) with
        | Ok (Some e) => Ok (Some (e + EC ((r / m - x) * m) * csum (a ^ 2 * b * c))%E)
        | Ok None => try_x approx f xs'
        | Err er => Err er
        end
      else try_x approx f xs'
  end.

(** [sos_struct_quartic] = [_sos_struct_quartic_uncentered] (quartic.py:14-65, 409-556).
    The code after the first [return] of [sos_struct_quartic] is never reached. *)
Definition sos_struct_quartic (irr rational : bool) (ugcd : option K) (cands xs : list K) (approx : K -> list K)
    (cf : nat -> nat -> nat -> K) : res (option (ex K)) :=
  let f := q4_of cf in
  match quartic_real approx f with
  | Err er => Err er
  | Ok (Some e) => Ok (Some e)
  | Ok None =>
      let '(mkq4 m p n q r) := f in
      let rem := m + p + n + q + r in
      if negb ((0 <=? m) && (0 <=? rem)) then Ok None
      else if m =? 0 then quartic_degenerate f
      else if 0 <=? 3 * m * (m + n) - (p ^ 2 + p * q + q ^ 2) then
        match quartic_core (mkq4 m p n q (- (m + p + n + q))) with
        | Ok (Some e) => Ok (Some (e + EC rem * csum (a ^ 2 * b * c))%E)
        | Ok None => Err TypeError
        | Err er => Err er
        end
      else if ((0 <=? 2 * p + q) || (0 <=? 2 * q + p) || ((2 * p + q) * (2 * q + p) - n_ 9 * m ^ 2 <=? 0))%bool then
        quartic_biased irr rational ugcd cands f
      else try_x approx f xs
  end.

End Model.
Arguments q4 : clear implicits.

Section Proofs.
Variable K : OrdField.
Local Open Scope of_scope.
Add Field Kf : (F_field K).
Implicit Types cf : nat -> nat -> nat -> K.

Definition q4_value (f : q4 K) (A B C : K) : K :=
  qm f * (A ^ 4 + B ^ 4 + C ^ 4) + qp f * (A ^ 3 * B + B ^ 3 * C + C ^ 3 * A)
  + qn f * (A ^ 2 * B ^ 2 + B ^ 2 * C ^ 2 + C ^ 2 * A ^ 2)
  + qq f * (A * B ^ 3 + B * C ^ 3 + C * A ^ 3)
  + qr f * (A ^ 2 * B * C + B ^ 2 * C * A + C ^ 2 * A * B).

Lemma tri_poly_4 cf A B C : cyclic3 cf -> tri_poly 4 cf A B C = q4_value (q4_of cf) A B C.
Proof.
  intro Hc. unfold q4_value, q4_of. cbn [qm qp qn qq qr]. cbn.
  assert (E1 : (cf 0 4 0 = cf 4 0 0)%nat) by (rewrite (Hc 0 4 0)%nat; reflexivity).
  assert (E2 : (cf 0 0 4 = cf 4 0 0)%nat) by (rewrite (Hc 0 0 4)%nat; exact E1).
  assert (E3 : (cf 0 3 1 = cf 3 1 0)%nat) by (rewrite (Hc 0 3 1)%nat; reflexivity).
  assert (E4 : (cf 1 0 3 = cf 3 1 0)%nat) by (rewrite (Hc 1 0 3)%nat; exact E3).
  assert (E5 : (cf 0 2 2 = cf 2 2 0)%nat) by (rewrite (Hc 0 2 2)%nat; reflexivity).
  assert (E6 : (cf 2 0 2 = cf 2 2 0)%nat) by (rewrite (Hc 2 0 2)%nat; exact E5).
  assert (E7 : (cf 0 1 3 = cf 1 3 0)%nat) by (rewrite (Hc 0 1 3)%nat; reflexivity).
  assert (E8 : (cf 3 0 1 = cf 1 3 0)%nat) by (rewrite (Hc 3 0 1)%nat; exact E7).
  assert (E9 : (cf 1 1 2 = cf 2 1 1)%nat) by (symmetry; rewrite (Hc 2 1 1)%nat; reflexivity).
  assert (E10 : (cf 1 2 1 = cf 2 1 1)%nat) by (rewrite (Hc 1 2 1)%nat; reflexivity).
  rewrite E1, E2, E3, E4, E5, E6, E7, E8, E9, E10. ring.
Qed.

Definition q4_ok (f : q4 K) (e : ex K) : Prop :=
  (forall A B C, defined (pt3 A B C) e -> ev (pt3 A B C) e = q4_value f A B C) /\
  (forall A B C, A + B + C <> 0 -> defined (pt3 A B C) e) /\
  manifest true e = true.

Ltac dif E := match goal with |- context [if ?x then _ else _] => destruct x eqn:E end.
Ltac some_eq H e := apply (f_equal (fun o => match o with Some z => z | None => e end)) in H; cbv beta iota in H; subst e.

Lemma quartic_degenerate_ok f e : quartic_degenerate f = Ok (Some e) -> q4_ok f e.
Proof.
  destruct f as [m p n q r]. unfold quartic_degenerate.
  dif E1.
  { intro H'. apply Ok_inj in H'. some_eq H' e.
    rewrite !andb_true_iff in E1. destruct E1 as [[[[[E1 H3] H2] H1] H0] H].
    apply feqb_eq in E1. apply feqb_eq in H3. apply feqb_eq in H2. subst m p q.
    assert (W : 0 <= (2 * n - r) / 3) by (apply fdiv_nonneg; [apply (proj1 (fle_sub _ _)); assumption|fpos]).
    assert (W2 : 0 <= n - (2 * n - r) / 3).
    { replace (n - (2 * n - r) / 3) with ((n + r) / 3) by (field; fnz). apply fdiv_nonneg; [assumption|fpos]. }
    split; [|split].
    - intros A B C _. unfold q4_value. cbn. field. fnz.
    - intros. cbn. tauto.
    - cbn [manifest csum erename Nat.even]. assert (W3 : 0 <= (2 * n - r) / 3 / 2) by fpos.
      unfold fle in W2, W3. rewrite W2, W3. reflexivity. }
  dif E2; [|intro H; apply Ok_inj in H; discriminate].
  clear E1. rewrite !andb_true_iff in E2. destruct E2 as [[[[E2 H2] H1] H0] H].
  apply feqb_eq in E2. subst m.
  destruct (0 <=? n) eqn:En.
  { intro H'. apply Ok_inj in H'. some_eq H' e.
    assert (W : 0 <= n / 2) by (apply fdiv_nonneg; [exact En|fpos]).
    split; [|split].
    - intros A B C _. unfold q4_value. cbn. field. fnz.
    - intros. cbn. tauto.
    - cbn. unfold fle in W. rewrite W, H0, H1, H2. reflexivity. }
  cbn [orb] in H. unfold weighting_expr, quadratic_weighting.
  dif E3; [discriminate|].
  destruct (p =? 0) eqn:Ep.
  { exfalso. apply feqb_eq in Ep. subst p.
    assert (n ^ 2 <= 0) by (unfold fle; rewrite <- H; f_equal; ring).
    assert (n * n = 0) by (apply fle_antisym; [|apply fsqr_nonneg]; replace (n * n) with (n ^ 2) by (cbn; ring); assumption).
    apply fsqr_eq0 in H4. subst n. pose proof (fle_refl K 0) as R. unfold fle in R. rewrite R in En. discriminate. }
  apply feqb_neq in Ep.
  destruct (q =? 0) eqn:Eq.
  { exfalso. apply feqb_eq in Eq. subst q.
    assert (n ^ 2 <= 0) by (unfold fle; rewrite <- H; f_equal; ring).
    assert (n * n = 0) by (apply fle_antisym; [|apply fsqr_nonneg]; replace (n * n) with (n ^ 2) by (cbn; ring); assumption).
    apply fsqr_eq0 in H4. subst n. pose proof (fle_refl K 0) as R. unfold fle in R. rewrite R in En. discriminate. }
  intro H'. apply Ok_inj in H'. some_eq H' e.
  assert (P : 0 < p) by (apply flt_le_neq; split; [exact H2|auto]).
  assert (W : 0 <= q - n / p / (1 + 1) * (n / p / (1 + 1)) * p).
  { replace (q - n / p / (1 + 1) * (n / p / (1 + 1)) * p) with ((4 * p * q - n ^ 2) / (4 * p)) by (cbn; field; fnz).
    apply fdiv_nonneg; [apply (proj1 (fle_sub _ _)); exact H|fpos]. }
  split; [|split].
  - intros A B C _. unfold q4_value. cbn. field. fnz.
  - intros. cbn. tauto.
  - cbn [manifest csum erename Nat.even fold_right fst snd]. unfold fle in W. rewrite W, H0, H2.
    pose proof (fle_refl K 0) as R. unfold fle in R. rewrite R. reflexivity.
Qed.

(** The degenerate branch never raises. *)
Lemma quartic_degenerate_total (f : q4 K) : exists r, quartic_degenerate f = Ok r.
Proof.
  destruct f as [m p n q r]. unfold quartic_degenerate.
  dif E1; [eauto|].
  dif E2; [|eauto].
  clear E1. rewrite !andb_true_iff in E2. destruct E2 as [[[[E2 H2] H1] H0] H].
  destruct (0 <=? n) eqn:En; [eauto|]. cbn [orb] in H.
  unfold weighting_expr, quadratic_weighting.
  assert (X : ((1+1+1+1) * p * q <? n * n) = false).
  { apply fltb_ge. unfold fle. rewrite <- H. f_equal; cbn; ring. }
  assert (Y : (p <? 0) = false) by (apply fltb_ge; assumption).
  assert (Z : (q <? 0) = false) by (apply fltb_ge; assumption).
  rewrite X, Y, Z. cbn [orb]. destruct (p =? 0); [eauto|]. destruct (q =? 0); eauto.
Qed.
Lemma quartic_core_total (f : q4 K) : exists r, quartic_core f = Ok r.
Proof.
  destruct f as [m p n q r]. unfold quartic_core. destruct (m =? 0); [apply quartic_degenerate_total|].
  cbv zeta. match goal with |- context [if ?x then _ else _] => destruct x end; eauto.
Qed.

Lemma quartic_core_real f e : qm f <> 0 -> quartic_core f = Ok (Some e) ->
  (forall env, defined env e) /\ (forall A B C, ev (pt3 A B C) e = q4_value f A B C) /\ manifest false e = true.
Proof.
  destruct f as [m p n q r]. cbn [qm]. intro Hm. unfold quartic_core.
  destruct (m =? 0) eqn:E0; [apply feqb_eq in E0; congruence|]. cbv zeta.
  dif E; [intro H; apply Ok_inj in H; discriminate|].
  rewrite !orb_false_iff in E. destruct E as [[E1 E2] E3].
  apply fltb_ge in E1. apply fltb_ge in E2. apply fltb_ge in E3.
  assert (P : 0 < m) by (apply flt_le_neq; split; auto).
  intro H. apply Ok_inj in H. some_eq H e.
  split; [|split].
  - intro env. apply defined_sum_y. intros e [<-|[<-|[<-|[]]]]; cbn; tauto.
  - intros A B C. rewrite sum_y_3. unfold q4_value. cbn. field. fnz.
  - apply manifest_sum_y.
    + intros v [<-|[<-|[<-|[]]]]; [fpos| |exact E3]. apply fdiv_nonneg; [|exact P]. apply fdiv_nonneg; [exact E2|apply fnat_pos; lia].
    + intros e [<-|[<-|[<-|[]]]]; reflexivity.
Qed.
Lemma quartic_core_ok f e : quartic_core f = Ok (Some e) -> q4_ok f e.
Proof.
  destruct (feq_dec K (qm f) 0) as [Hm|Hm].
  - destruct f as [m p n q r]. cbn [qm] in Hm. subst m. unfold quartic_core.
    replace (0 =? 0) with true by (symmetry; apply feqb_eq; reflexivity). apply quartic_degenerate_ok.
  - intro H. destruct (quartic_core_real f e Hm H) as (D & V & M).
    split; [intros; apply V|]. split; [intros; apply D|]. apply manifest_mono, M.
Qed.
Lemma quartic_border_ok irr f e : 0 < qm f -> quartic_border irr f = Some e -> q4_ok f e.
Proof.
  destruct f as [m p n q r]. cbn [qm]. intro P. unfold quartic_border. cbv zeta.
  dif E1; [|discriminate]. destruct irr; [|discriminate]. dif E2; [|discriminate].
  rewrite andb_true_iff in E1. destruct E1 as [Ep En]. apply feqb_eq in Ep. apply feqb_eq in En. subst p n.
  assert (Hm : m <> 0) by (apply flt_neq0; exact P).
  intro H. some_eq H e. set (t := q / 2 / m) in *.
  assert (Eq : q = 2 * m * t) by (unfold t; field; fnz).
  split; [|split].
  - intros A B C (_ & _ & D). cbn in D. cbn [ev]. rewrite sum_y_3. unfold q4_value. cbn [qm qp qn qq qr].
    clearbody t. subst q. cbn [ev csum cprod erename rot3 pt3]. cbn. cbn in D. field. fnz.
  - intros A B C D. cbn [defined]. split; [apply defined_sum_y; intros e [<-|[<-|[<-|[]]]]; cbn; tauto|].
    split; [cbn; tauto|exact D].
  - cbn [manifest]. apply andb_true_iff. split; [|reflexivity]. apply manifest_sum_y.
    + assert (0 <= m) by (apply flt_le, P). assert (0 <= t ^ 2) by (cbn; rewrite (Rmul_comm (fring K) _ 1), (Rmul_1_l (fring K)); apply fsqr_nonneg).
      intros v [<-|[<-|[<-|[]]]]; [assumption| |exact E2].
      apply fmul_nonneg; [|assumption]. apply fdiv_nonneg; [|fpos]. apply fadd_nonneg; [assumption|fpos].
    + intros e [<-|[<-|[<-|[]]]]; reflexivity.
Qed.

Lemma q4_ok_add f g e e' : q4_ok f e -> q4_ok g e' ->
  q4_ok (mkq4 (qm f + qm g) (qp f + qp g) (qn f + qn g) (qq f + qq g) (qr f + qr g)) (e + e')%E.
Proof.
  intros (V & D & M) (V' & D' & M'). split; [|split].
  - intros A B C (H & H'). cbn [ev]. rewrite (V _ _ _ H), (V' _ _ _ H'). unfold q4_value. cbn [qm qp qn qq qr]. ring.
  - intros A B C H. cbn [defined]. auto.
  - cbn [manifest]. rewrite M, M'. reflexivity.
Qed.
Lemma q4_ok_rem k : 0 <= k -> q4_ok (mkq4 0 0 0 0 k) (EC k * csum (EX 0 ^ 2 * EX 1 * EX 2))%E.
Proof.
  intro H. split; [|split].
  - intros A B C _. unfold q4_value. cbn. ring.
  - intros. cbn. tauto.
  - cbn. unfold fle in H. rewrite H. reflexivity.
Qed.
Lemma q4_ok_ext f g e : qm f = qm g -> qp f = qp g -> qn f = qn g -> qq f = qq g -> qr f = qr g -> q4_ok f e -> q4_ok g e.
Proof. destruct f, g. cbn. intros -> -> -> -> ->. auto. Qed.

Lemma quartic_biased_ok irr rational ugcd cands f e :
  0 < qm f -> 0 <= qm f + qn f + qp f + qq f + qr f ->
  quartic_biased irr rational ugcd cands f = Ok (Some e) -> q4_ok f e.
Proof.
  intros P Rem. destruct f as [m p n q r] eqn:F. unfold quartic_biased. cbv zeta.
  destruct (if (rational && _)%bool then _ else _) as [e0|] eqn:E0.
  { intro H. apply Ok_inj in H. some_eq H e.
    destruct (rational && _)%bool; [|discriminate]. apply (quartic_border_ok irr); assumption. }
  clear E0. match goal with |- match ?x with _ => _ end = _ -> _ => destruct x as [u|] end; [|intro H; apply Ok_inj in H; discriminate].
  set (y := _ * m). dif Ey; [|intro H; apply Ok_inj in H; discriminate]. clearbody y.
  destruct (quartic_core _) as [[s|]|] eqn:Ec; try (intro H; first [apply Ok_inj in H; discriminate|discriminate]).
  intro H. apply Ok_inj in H. some_eq H e. apply quartic_core_ok in Ec.
  cbn [qm qp qn qq qr] in Rem.
  assert (Y : q4_ok (mkq4 0 y (y * (- (2) * u)) (y * u ^ 2) (y * (2 * u - u ^ 2 - 1)))
               (EC y * csum (EX 0 * EX 1 * (EX 0 - EC u * EX 1 + EC (u - 1) * EX 2) ^ 2))%E).
  { split; [|split].
    - intros A B C _. unfold q4_value. cbn. ring.
    - intros. cbn. tauto.
    - cbn. rewrite Ey. reflexivity. }
  pose proof (q4_ok_add _ _ _ _ (q4_ok_add _ _ _ _ Y (q4_ok_rem _ Rem)) Ec) as Z.
  cbn [qm qp qn qq qr] in Z. refine (q4_ok_ext _ _ _ _ _ _ _ _ Z); cbn [qm qp qn qq qr]; ring.
Qed.

Lemma real_loop_ok f valid s ws e : 0 < qm f -> 0 < s ->
  (forall w, valid w = true -> 1 - w <> 0) ->
  real_loop f valid s ws = Ok (Some e) -> q4_ok f e.
Proof.
  intros P S Hv. induction ws as [|w ws IH]; cbn [real_loop]; [intro H; apply Ok_inj in H; discriminate|].
  destruct (valid w) eqn:Ew; [|exact IH]. destruct f as [m p n q r] eqn:F. cbv zeta. set (z := _ * m).
  destruct (quartic_core _) as [[s'|]|] eqn:Ec; try discriminate; [|exact IH].
  intro H. apply Ok_inj in H. some_eq H e. apply quartic_core_ok in Ec.
  assert (Z : 0 <= z).
  { unfold z. cbn [qm] in P. apply fmul_nonneg; [|apply flt_le, P]. apply fdiv_nonneg; [|apply fnat_pos; lia].
    apply fdiv_nonneg; [apply flt_le, S|]. specialize (Hv w Ew).
    replace ((1 - w) ^ 2) with ((1 - w) * (1 - w)) by (cbn; ring). apply fsqr_pos, Hv. }
  clearbody z.
  assert (Y : q4_ok (mkq4 (z * 1) (z * (- (2) * w)) (z * (w ^ 2 + 2)) (z * (- (2) * w)) (z * (2 * w * (w - 1))))
               (EC z * (csum (EX 0 ^ 2 - EC w * EX 0 * EX 1)) ^ 2)%E).
  { split; [|split].
    - intros A B C _. unfold q4_value. cbn. ring.
    - intros. cbn. tauto.
    - cbn. unfold fle in Z. rewrite Z. reflexivity. }
  pose proof (q4_ok_add _ _ _ _ Y Ec) as Z'.
  cbn [qm qp qn qq qr] in Z'. refine (q4_ok_ext _ _ _ _ _ _ _ _ Z'); cbn [qm qp qn qq qr]; ring.
Qed.

Lemma quartic_real_ok approx f e : quartic_real approx f = Ok (Some e) -> q4_ok f e.
Proof.
  destruct f as [m p n q r] eqn:F. unfold quartic_real. cbv zeta.
  destruct (m =? 0) eqn:E0.
  { dif E1; [apply quartic_degenerate_ok|intro H; apply Ok_inj in H; discriminate]. }
  destruct (m <? 0) eqn:E1; [intro H; apply Ok_inj in H; discriminate|].
  apply feqb_neq in E0. apply fltb_ge in E1.
  assert (P : 0 < m) by (apply flt_le_neq; split; auto).
  set (s := 3 * _). destruct (s <? 0) eqn:E2; [intro H; apply Ok_inj in H; discriminate|].
  dif E3; [apply quartic_core_ok|].
  apply orb_false_iff in E3. destruct E3 as [_ E3]. apply feqb_neq in E3. apply fltb_ge in E2.
  assert (S : 0 < s) by (apply flt_le_neq; split; auto).
  apply real_loop_ok; [exact P|exact S|].
  intros w Hw. apply andb_prop in Hw. destruct Hw as [_ Hw]. intro X. rewrite X in Hw.
  assert (X2 : 0 <= - s) by (unfold fle; rewrite <- Hw; f_equal; cbn; ring).
  apply fopp_nonneg_inv in X2. apply (proj1 (flt_not_le K _ _) S X2).
Qed.

Lemma try_x_ok approx f xs e : 0 < qm f -> try_x approx f xs = Ok (Some e) -> q4_ok f e.
Proof.
  intro P. induction xs as [|x xs IH]; cbn [try_x]; [intro H; apply Ok_inj in H; discriminate|].
  destruct f as [m p n q r] eqn:F. cbn [qm] in P. destruct (x <? r / m) eqn:Ex; [|exact IH].
  destruct (quartic_real _ _) as [[s|]|] eqn:Ec; try discriminate; [|exact IH].
  intro H. apply Ok_inj in H. some_eq H e. apply quartic_real_ok in Ec.
  apply fltb_lt in Ex. apply (proj1 (flt_sub _ _)) in Ex.
  assert (R : 0 <= (r / m - x) * m) by (apply fmul_nonneg; apply flt_le; assumption).
  assert (Hm : m <> 0) by (apply flt_neq0; exact P).
  pose proof (q4_ok_add _ _ _ _ Ec (q4_ok_rem _ R)) as Z.
  cbn [qm qp qn qq qr] in Z. refine (q4_ok_ext _ _ _ _ _ _ _ _ Z); cbn [qm qp qn qq qr]; try ring.
  field; fnz.
Qed.

Lemma sos_struct_quartic_q4 irr rational ugcd cands xs approx cf e :
  sos_struct_quartic irr rational ugcd cands xs approx cf = Ok (Some e) -> q4_ok (q4_of cf) e.
Proof.
  unfold sos_struct_quartic. destruct (quartic_real _ _) as [[s|]|] eqn:Er; try discriminate.
  { intro H. apply Ok_inj in H. some_eq H e. apply (quartic_real_ok approx), Er. }
  destruct (q4_of cf) as [m p n q r] eqn:F. cbv zeta.
  dif E1; [intro H; apply Ok_inj in H; discriminate|]. apply negb_false_iff, andb_prop in E1. destruct E1 as [Em Erem].
  destruct (m =? 0) eqn:E0; [apply quartic_degenerate_ok|]. apply feqb_neq in E0.
  assert (P : 0 < m) by (apply flt_le_neq; split; [exact Em|auto]).
  dif Ed.
  { destruct (quartic_core _) as [[s|]|] eqn:Ec; try discriminate.
    intro H. apply Ok_inj in H. some_eq H e. apply quartic_core_ok in Ec.
    pose proof (q4_ok_add _ _ _ _ Ec (q4_ok_rem _ Erem)) as Z.
    cbn [qm qp qn qq qr] in Z. refine (q4_ok_ext _ _ _ _ _ _ _ _ Z); cbn [qm qp qn qq qr]; ring. }
  dif Eb.
  - apply quartic_biased_ok; [exact P|]. cbn [qm qp qn qq qr]. unfold fle. rewrite <- Erem. f_equal. ring.
  - apply try_x_ok, P.
Qed.

(** Totality: no branch raises. *)
Lemma real_loop_total (f : q4 K) valid s ws : exists r, real_loop f valid s ws = Ok r.
Proof.
  induction ws as [|w ws IH]; cbn [real_loop]; [eauto|]. destruct (valid w); [|exact IH].
  destruct f as [m p n q r]. cbv zeta. set (z := _ * m).
  destruct (quartic_core_total (mkq4 (m - z * 1) (p - z * (- (2) * w)) (n - z * (w ^ 2 + 2)) (q - z * (- (2) * w))
                                 (r - z * (2 * w * (w - 1))))) as [o Ho].
  rewrite Ho. destruct o; eauto.
Qed.
Lemma quartic_real_total approx (f : q4 K) : exists r, quartic_real approx f = Ok r.
Proof.
  destruct f as [m p n q r]. unfold quartic_real. cbv zeta.
  destruct (m =? 0). { dif E; eauto using quartic_degenerate_total. }
  destruct (m <? 0); eauto. set (s := 3 * _). destruct (s <? 0); eauto.
  dif E; [apply quartic_core_total|apply real_loop_total].
Qed.
Lemma try_x_total approx (f : q4 K) xs : exists r, try_x approx f xs = Ok r.
Proof.
  induction xs as [|x xs IH]; cbn [try_x]; [eauto|]. destruct f as [m p n q r].
  destruct (x <? r / m); [|exact IH].
  destruct (quartic_real_total approx (mkq4 m p n q (x * m))) as [o Ho]. rewrite Ho. destruct o; eauto.
Qed.
Lemma quartic_biased_total irr rational ugcd cands (f : q4 K) : exists r, quartic_biased irr rational ugcd cands f = Ok r.
Proof.
  destruct f as [m p n q r]. unfold quartic_biased. cbv zeta.
  destruct (if (rational && _)%bool then _ else _); [eauto|].
  match goal with |- exists r, match ?x with _ => _ end = _ => destruct x as [u|] end; [|eauto].
  set (y := _ * m). destruct (0 <=? y); [|eauto].
  match goal with |- context [quartic_core ?g] => destruct (quartic_core_total g) as [o Ho]; rewrite Ho end.
  destruct o; eauto.
Qed.
Lemma quartic_core_centered m p n q : 0 < m -> 0 <= 3 * m * (m + n) - (p ^ 2 + p * q + q ^ 2) ->
  exists e, quartic_core (mkq4 m p n q (- (m + p + n + q) : K)) = Ok (Some e).
Proof.
  intros P D. unfold quartic_core. cbv zeta.
  assert (Hm : m <> 0) by (apply flt_neq0; exact P).
  replace (m =? 0) with false by (symmetry; apply feqb_neq, Hm).
  replace (m + n + p + q + - (m + p + n + q)) with (0 : K) by ring.
  replace (0 / 3) with (0 : K) by (field; fnz).
  replace (n - 0) with n by ring.
  rewrite (proj2 (fltb_ge K _ _) (flt_le P)), (proj2 (fltb_ge K _ _) D), (proj2 (fltb_ge K _ _) (fle_refl K 0)).
  cbn [orb]. eauto.
Qed.
Lemma sos_struct_quartic_total irr rational ugcd cands xs approx cf :
  exists r, sos_struct_quartic irr rational ugcd cands xs approx cf = Ok r.
Proof.
  unfold sos_struct_quartic. destruct (quartic_real_total approx (q4_of cf)) as [o Ho]. rewrite Ho. destruct o; [eauto|].
  destruct (q4_of cf) as [m p n q r] eqn:F. cbv zeta. dif E1; [eauto|].
  apply negb_false_iff, andb_prop in E1. destruct E1 as [Em _].
  destruct (m =? 0) eqn:E0; [apply quartic_degenerate_total|]. apply feqb_neq in E0.
  assert (P : 0 < m) by (apply flt_le_neq; split; [exact Em|auto]).
  dif Ed. { destruct (quartic_core_centered m p n q P Ed) as [e He]. rewrite He. eauto. }
  dif Eb; [apply quartic_biased_total|apply try_x_total].
Qed.

Lemma sos_struct_quartic_sound_lemma irr rational ugcd cands xs approx cf e : cyclic3 cf ->
  sos_struct_quartic irr rational ugcd cands xs approx cf = Ok (Some e) ->
  (forall A B C, defined (pt3 A B C) e -> ev (pt3 A B C) e = tri_poly 4 cf A B C) /\
  (forall A B C, A + B + C <> 0 -> defined (pt3 A B C) e) /\
  manifest true e = true /\
  (forall A B C, 0 <= A -> 0 <= B -> 0 <= C -> 0 <= tri_poly 4 cf A B C).
Proof.
  intros Hc H. apply sos_struct_quartic_q4 in H. destruct H as (V & D & M).
  assert (V' : forall A B C, defined (pt3 A B C) e -> ev (pt3 A B C) e = tri_poly 4 cf A B C).
  { intros A B C H. rewrite (V _ _ _ H). symmetry. apply tri_poly_4, Hc. }
  repeat split; auto.
  assert (N : (1 : K) + 1 + 1 <> 0) by (apply flt_neq0; fpos).
  apply (cert_orthant 4 cf e 1 1 1); try apply f1_nonneg; auto.
  intros A B C HA HB HC HD. apply (manifest_nonneg true); auto. intros _ i. destruct i as [|[|i]]; assumption.
Qed.

(** ** The answer [None] when a^4 has coefficient zero or less, or the value at (1,1,1) is negative *)
Lemma quad_neg_lead (p n q : K) : p < 0 -> exists x, 0 < x /\ p * x ^ 2 + n * x + q < 0.
Proof.
  intro Hp. assert (P : 0 < - p) by (replace (- p) with (0 - p) by ring; apply (proj1 (flt_sub _ _)), Hp).
  assert (Np : - p <> 0) by (apply flt_neq0, P).
  set (n1 := if 0 <=? n then n else 0). set (q1 := if 0 <=? q then q else 0).
  assert (N1 : 0 <= n1) by (unfold n1; destruct (0 <=? n) eqn:E; [exact E|apply fle_refl]).
  assert (Q1 : 0 <= q1) by (unfold q1; destruct (0 <=? q) eqn:E; [exact E|apply fle_refl]).
  assert (N2 : 0 <= n1 - n).
  { unfold n1; destruct (0 <=? n) eqn:E; apply (proj1 (fle_sub _ _)); [apply fle_refl|]. apply fleb_gt in E. apply flt_le, E. }
  assert (Q2 : 0 <= q1 - q).
  { unfold q1; destruct (0 <=? q) eqn:E; apply (proj1 (fle_sub _ _)); [apply fle_refl|]. apply fleb_gt in E. apply flt_le, E. }
  clearbody n1 q1. set (y := (n1 + q1) / - p).
  assert (Y : 0 <= y) by (apply fdiv_nonneg; [apply fadd_nonneg; assumption|exact P]).
  assert (EY : p * y = - (n1 + q1)) by (unfold y; field; intro X; apply Np; rewrite X; ring).
  clearbody y.
  assert (X0 : 0 < 1 + y) by (apply fadd_pos_l; [apply f1_pos|exact Y]).
  exists (1 + y). split; [exact X0|]. apply (proj2 (flt_sub _ _)).
  replace (0 - (p * (1 + y) ^ 2 + n * (1 + y) + q))
    with (- p * (1 + y) + ((n1 - n) * (1 + y) + (q1 - q) + q1 * y)).
  - apply fadd_pos_l; [apply fmul_pos; assumption|].
    assert (0 <= 1 + y) by (apply flt_le, X0). repeat apply fadd_nonneg; try apply fmul_nonneg; assumption.
  - transitivity (- p * (1 + y) + ((n1 - n) * (1 + y) + (q1 - q) + q1 * y) + (1 + y) * (- (n1 + q1) - p * y)); [rewrite EY; ring|cbn; ring].
Qed.

Lemma quad_neg_disc (p n q : K) : 0 <= p -> n < 0 -> 4 * p * q < n ^ 2 -> exists x, 0 < x /\ p * x ^ 2 + n * x + q < 0.
Proof.
  intros Hp Hn HD.
  assert (N : 0 < - n) by (replace (- n) with (0 - n) by ring; apply (proj1 (flt_sub _ _)), Hn).
  assert (Nn : - n <> 0) by (apply flt_neq0, N).
  apply (proj1 (flt_sub _ _)) in HD.
  destruct (proj1 (fle_lt_eq K _ _) Hp) as [P|<-].
  - assert (p <> 0) by (apply flt_neq0, P).
    exists (- n / (2 * p)). split; [apply fdiv_pos; [exact N|fpos]|]. apply (proj2 (flt_sub _ _)).
    replace (0 - (p * (- n / (2 * p)) ^ 2 + n * (- n / (2 * p)) + q)) with ((n ^ 2 - 4 * p * q) / (4 * p)) by (cbn; field; fnz).
    apply fdiv_pos; [exact HD|fpos].
  - set (q1 := if 0 <=? q then q else 0).
    assert (Q1 : 0 <= q1) by (unfold q1; destruct (0 <=? q) eqn:E; [exact E|apply fle_refl]).
    assert (Q2 : 0 <= q1 - q).
    { unfold q1; destruct (0 <=? q) eqn:E; apply (proj1 (fle_sub _ _)); [apply fle_refl|]. apply fleb_gt in E. apply flt_le, E. }
    clearbody q1. exists ((q1 + 1) / - n).
    split; [apply fdiv_pos; [apply fadd_pos_r; [exact Q1|apply f1_pos]|exact N]|].
    apply (proj2 (flt_sub _ _)).
    replace (0 - (0 * ((q1 + 1) / - n) ^ 2 + n * ((q1 + 1) / - n) + q)) with ((q1 - q) + 1)
      by (cbn; field; intro X; apply Nn; rewrite X; ring).
    apply fadd_pos_r; [exact Q2|apply f1_pos].
Qed.

Definition q4_negative (f : q4 K) : Prop := exists A B C, 0 <= A /\ 0 <= B /\ 0 <= C /\ q4_value f A B C < 0.

Lemma q4_neg_111 f : qm f + qp f + qn f + qq f + qr f < 0 -> q4_negative f.
Proof.
  intro H. exists 1, 1, 1. repeat split; try apply f1_nonneg.
  apply (proj2 (flt_sub _ _)). apply (proj1 (flt_sub _ _)) in H.
  replace (0 - q4_value f 1 1 1) with (3 * (0 - (qm f + qp f + qn f + qq f + qr f))) by (unfold q4_value; cbn; ring).
  apply fmul_pos; [fpos|exact H].
Qed.
Lemma q4_neg_edge p n q r x : 0 < x -> p * x ^ 2 + n * x + q < 0 -> q4_negative (mkq4 0 p n q r).
Proof.
  intros X H. exists x, 1, 0. repeat split; [apply flt_le, X|apply f1_nonneg|apply fle_refl|].
  apply (proj2 (flt_sub _ _)). apply (proj1 (flt_sub _ _)) in H.
  replace (0 - q4_value (mkq4 0 p n q r) x 1 0) with (x * (0 - (p * x ^ 2 + n * x + q))) by (unfold q4_value; cbn; ring).
  apply fmul_pos; assumption.
Qed.
Lemma quartic_degenerate_complete f : qm f = 0 -> quartic_degenerate f = Ok None -> q4_negative f.
Proof.
  destruct f as [m p n q r]. cbn [qm]. intros -> H. unfold quartic_degenerate in H.
  rewrite (proj2 (feqb_eq K 0 0) eq_refl) in H. cbn [andb] in H.
  match type of H with (if ?x then _ else _) = _ => destruct x eqn:E1 end; [apply Ok_inj in H; discriminate|]. clear E1.
  destruct (0 <=? p) eqn:Ep.
  2:{ apply fleb_gt in Ep. destruct (quad_neg_lead p n q Ep) as (x & X & Y). exact (q4_neg_edge p n q r x X Y). }
  destruct (0 <=? q) eqn:Eq.
  2:{ apply fleb_gt in Eq. destruct (quad_neg_lead q n p Eq) as (x & X & Y).
      assert (x <> 0) by (apply flt_neq0, X).
      apply (q4_neg_edge p n q r (1 / x)); [apply fdiv_pos; [apply f1_pos|exact X]|].
      apply (proj2 (flt_sub _ _)). apply (proj1 (flt_sub _ _)) in Y.
      replace (0 - (p * (1 / x) ^ 2 + n * (1 / x) + q)) with ((0 - (q * x ^ 2 + n * x + p)) / (x * x)) by (cbn; field; fnz).
      apply fdiv_pos; [exact Y|apply fmul_pos; exact X]. }
  destruct (0 <=? p + n + q + r) eqn:Er.
  2:{ apply fleb_gt in Er. apply q4_neg_111. cbn [qm qp qn qq qr].
      replace (0 + p + n + q + r) with (p + n + q + r) by ring. exact Er. }
  cbn [andb] in H. destruct (0 <=? n) eqn:En; cbn [orb] in H; [apply Ok_inj in H; discriminate|].
  destruct (n ^ 2 <=? 4 * p * q) eqn:Ed.
  { destruct (weighting_expr _ p n q); [apply Ok_inj in H; discriminate|discriminate]. }
  apply fleb_gt in Ed. apply fleb_gt in En. destruct (quad_neg_disc p n q Ep En Ed) as (x & X & Y).
  exact (q4_neg_edge p n q r x X Y).
Qed.

Lemma sos_struct_quartic_none_lemma irr rational ugcd cands xs approx cf : cyclic3 cf ->
  ((cf 4 0 0)%nat <= 0 \/ (cf 4 0 0)%nat + (cf 3 1 0)%nat + (cf 2 2 0)%nat + (cf 1 3 0)%nat + (cf 2 1 1)%nat < 0
   \/ 0 <= 3 * (cf 4 0 0)%nat * ((cf 4 0 0)%nat + (cf 2 2 0)%nat)
       - ((cf 3 1 0)%nat ^ 2 + (cf 3 1 0)%nat * (cf 1 3 0)%nat + (cf 1 3 0)%nat ^ 2)) ->
  sos_struct_quartic irr rational ugcd cands xs approx cf = Ok None -> orthant_negative 4 cf.
Proof.
  intros Hc Hcase H.
  cut (q4_negative (q4_of cf)).
  { intros (A & B & C & HA & HB & HC & HN). exists A, B, C. rewrite (tri_poly_4 cf A B C Hc). auto. }
  unfold sos_struct_quartic in H. destruct (quartic_real _ _) as [[s|]|]; try discriminate.
  unfold q4_of in *. revert Hcase H.
  generalize (cf 4 0 0)%nat, (cf 3 1 0)%nat, (cf 2 2 0)%nat, (cf 1 3 0)%nat, (cf 2 1 1)%nat. clear cf Hc.
  intros m p n q r Hcase. cbv zeta.
  destruct (0 <=? m) eqn:Em; cbn [andb negb].
  2:{ intros _. apply fleb_gt in Em. exists 1, 0, 0. repeat split; try apply f1_nonneg; try apply fle_refl.
      match goal with |- ?g < 0 => replace g with m by (unfold q4_value; cbn; ring) end. exact Em. }
  destruct (0 <=? m + p + n + q + r) eqn:Er; cbn [negb].
  2:{ intros _. apply fleb_gt in Er. apply q4_neg_111. exact Er. }
  destruct (m =? 0) eqn:E0.
  { apply feqb_eq in E0. apply quartic_degenerate_complete. exact E0. }
  apply feqb_neq in E0. destruct Hcase as [X|[X|X]].
  - exfalso. apply E0. apply fle_antisym; assumption.
  - exfalso. apply (proj1 (flt_not_le K _ _) X). exact Er.
  - unfold fle in X. rewrite X.
    assert (P : 0 < m) by (apply flt_le_neq; split; [exact Em|auto]).
    destruct (quartic_core_centered m p n q P X) as [e He]. rewrite He. intro H. apply Ok_inj in H. discriminate.
Qed.
End Proofs.
