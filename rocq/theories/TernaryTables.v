(** * Tables of classical inequalities
    (triples/core/structsos/ternary/utils.py, class [CommonExpr]) and the
    decorator for uncentred cyclic polynomials. *)
From Coq Require Import Bool List Arith Lia Ring Field ZArith.
From Verif Require Import OrdField Base Congruence Expr TernaryQuad.
Import ListNotations.

Section Model.
Context {K : OrdField}.
Local Open Scope of_scope.

Let a : ex K := EX 0.
Let b : ex K := EX 1.
Let c : ex K := EX 2.
Let k (n : nat) : ex K := EC (fnat n).

(** [CommonExpr.schur(n)] (ternary/utils.py:151-164): proofs of s(a^(n-2)(a-b)(a-c)). *)
Definition schur (n : nat) : option (ex K) :=
  match n with
  | 2 => Some (csum ((a - b) ^ 2) / k 2)%E
  | 3 => Some ((csum ((a - b) ^ 2 * (a + b - c) ^ 2) + k 2 * csum (a * b * (a - b) ^ 2)) / (k 2 * csum a))%E
  | 5 => Some (k 2 * (csum (a ^ 3 * (a - b) ^ 2 * (a - c) ^ 2) + csum a * cprod ((a - b) ^ 2)) / csum ((a - b) ^ 2))%E
  | _ => None
  end%nat.

(** [CommonExpr.schurinv(n)] (ternary/utils.py:166-178): proofs of
    s((bc)^((n-2)/2) (a-b)(a-c)). *)
Definition schurinv (n : nat) : option (ex K) :=
  match n with
  | 2 => Some (csum ((a - b) ^ 2))%E
  | 4 => Some (csum (a ^ 2 * (b - c) ^ 2 / k 2))%E
  | 6 => Some ((csum (c * (a - b) ^ 2 * (a * c + b * c - a * b) ^ 2) * k 2 + cprod a * csum (a ^ 2 * (b - c) ^ 2)) / (k 2 * csum a))%E
  | _ => None
  end%nat.

Definition mon := (nat * nat * nat)%type.
Definition meqb (x y : mon) : bool :=
  match x, y with (i, j, l), (i', j', l') => (Nat.eqb i i' && Nat.eqb j j' && Nat.eqb l l')%bool end.
(** Comparison of Python tuples. *)
Definition mleb (x y : mon) : bool :=
  match x, y with
  | (i, j, l), (i', j', l') =>
      (Nat.ltb i i' || Nat.eqb i i' && (Nat.ltb j j' || Nat.eqb j j' && Nat.leb l l'))%bool
  end.
Definition mmax (x y : mon) : mon := if mleb x y then y else x.
(** [_std] (ternary/utils.py:222-223): largest rotation. *)
Definition mstd (d : mon) : mon :=
  match d with (i, j, l) => mmax (mmax (i, j, l) (j, l, i)) (l, i, j) end.

(** [_SPECIAL_AMGMS] (ternary/utils.py:199-219) *)
Definition special_amgms : list ((mon * mon) * ex K) :=
  [ (((2,0,1),(1,1,1)), csum (c * (k 2 * a + c) * (a - b) ^ 2) / (k 2 * csum a))%E;
    (((2,1,0),(1,1,1)), csum (b * (k 2 * a + b) * (a - c) ^ 2) / (k 2 * csum a))%E;
    (((6,0,0),(4,1,1)), csum (a ^ 2) * csum ((a ^ 2 - b ^ 2) ^ 2) / k 4 + csum (a ^ 2 * (a ^ 2 - b * c) ^ 2) / k 2)%E;
    (((6,0,0),(4,2,0)), csum ((a ^ 2 - b ^ 2) ^ 2 * (k 2 * a ^ 2 + b ^ 2)) / k 3)%E;
    (((6,0,0),(4,0,2)), csum ((a ^ 2 - c ^ 2) ^ 2 * (k 2 * a ^ 2 + c ^ 2)) / k 3)%E;
    (((6,0,0),(5,1,0)), csum ((a ^ 2 - b ^ 2) ^ 2 * (k 2 * a ^ 2 + b ^ 2)) / k 6 + csum (a ^ 4 * (a - b) ^ 2) / k 2)%E;
    (((6,0,0),(5,0,1)), csum ((a ^ 2 - c ^ 2) ^ 2 * (k 2 * a ^ 2 + c ^ 2)) / k 6 + csum (a ^ 4 * (a - c) ^ 2) / k 2)%E;
    (((6,0,0),(3,2,1)), csum ((a ^ 2 - b ^ 2) ^ 2 * (k 2 * a ^ 2 + b ^ 2)) / k 6 + csum ((a ^ 3 - b ^ 2 * c) ^ 2) / k 2)%E;
    (((6,0,0),(3,1,2)), csum ((a ^ 2 - c ^ 2) ^ 2 * (k 2 * a ^ 2 + c ^ 2)) / k 6 + csum ((a ^ 3 - b * c ^ 2) ^ 2) / k 2)%E;
    (((8,0,0),(7,1,0)), csum ((a ^ 4 - b ^ 4) ^ 2) / k 8 + csum (a ^ 4 * (a ^ 2 - b ^ 2) ^ 2) / k 4 + csum (a ^ 6 * (a - b) ^ 2) / k 2)%E;
    (((8,0,0),(7,0,1)), csum ((a ^ 4 - b ^ 4) ^ 2) / k 8 + csum (a ^ 4 * (a ^ 2 - c ^ 2) ^ 2) / k 4 + csum (a ^ 6 * (a - c) ^ 2) / k 2)%E;
    (((8,0,0),(5,0,3)), csum ((a ^ 4 - b ^ 4) ^ 2) / k 8 + csum (a ^ 4 * (a ^ 2 - b ^ 2) ^ 2) / k 4 + csum (b ^ 2 * (a ^ 3 - b ^ 3) ^ 2) / k 2)%E;
    (((8,0,0),(5,3,0)), csum ((a ^ 4 - b ^ 4) ^ 2) / k 8 + csum (a ^ 4 * (a ^ 2 - c ^ 2) ^ 2) / k 4 + csum (c ^ 2 * (a ^ 3 - c ^ 3) ^ 2) / k 2)%E;
    (((8,0,0),(6,1,1)), csum ((a ^ 4 - a ^ 2 * b * c) ^ 2) / k 2 + csum ((a ^ 4 - b ^ 4) ^ 2) / k 4 + csum (a ^ 4 * (b ^ 2 - c ^ 2) ^ 2) / k 4)%E;
    (((8,0,0),(5,2,1)), csum ((a ^ 4 - b ^ 4) ^ 2) / k 4 + csum (a ^ 4 * (b ^ 2 - c ^ 2) ^ 2) / k 4 + csum (a ^ 2 * (a ^ 3 - b ^ 2 * c) ^ 2) / k 2)%E;
    (((8,0,0),(5,1,2)), csum ((a ^ 4 - b ^ 4) ^ 2) / k 4 + csum (a ^ 4 * (b ^ 2 - c ^ 2) ^ 2) / k 4 + csum (a ^ 2 * (a ^ 3 - b * c ^ 2) ^ 2) / k 2)%E;
    (((8,0,0),(4,3,1)), csum ((a ^ 4 - b ^ 4) ^ 2) / k 8 + csum (a ^ 4 * (a ^ 2 - b ^ 2) ^ 2) / k 4 + csum ((a ^ 4 - b ^ 3 * c) ^ 2) / k 2)%E;
    (((8,0,0),(4,1,3)), csum ((a ^ 4 - b ^ 4) ^ 2) / k 8 + csum (a ^ 4 * (a ^ 2 - c ^ 2) ^ 2) / k 4 + csum ((a ^ 4 - b * c ^ 3) ^ 2) / k 2)%E;
    (((8,0,0),(3,3,2)), csum ((a ^ 4 - b ^ 4) ^ 2) / k 2 + csum (a ^ 4 * (b ^ 2 - c ^ 2) ^ 2) / k 2 + cprod (a ^ 2) * csum ((a - b) ^ 2) / k 2)%E ]%nat.

(** [CommonExpr.amgm(d1, d2)] (ternary/utils.py:220-224); [dict.get]. *)
Definition amgm (d1 d2 : mon) : option (ex K) :=
  match find (fun p => meqb (fst (fst p)) (mstd d1) && meqb (snd (fst p)) (mstd d2))%bool special_amgms with
  | Some (_, e) => Some e
  | None => None
  end.

(** [sos_struct_handle_uncentered(solver)] (ternary/utils.py:102-142) for a
    homogeneous cyclic polynomial of degree [d] given by its coefficient
    function (0 for absent keys); the missing-key branch 126-129 only inserts
    zeros.  [poly.poly111()] is the sum of the coefficients. *)
Definition center_key (d : nat) : mon :=
  let dd3 := (d / 3)%nat in
  let dm3 := (d mod 3)%nat in
  (dd3, (if 2 <=? dm3 then dd3 + 1 else dd3), (if dm3 =? 0 then dd3 else dd3 + 1))%nat.

Definition sub_at (key : mon) (v : K) (cf : nat -> nat -> nat -> K) : nat -> nat -> nat -> K :=
  fun x y z => if meqb (x, y, z) key then cf x y z - v else cf x y z.

Definition poly111 (d : nat) (cf : nat -> nat -> nat -> K) : K :=
  fsum (map (fun i => fsum (map (fun j => cf i j (d - i - j)%nat) (seq 0 (S (d - i))))) (seq 0 (S d))).

Definition uncentered_input (d : nat) (cf : nat -> nat -> nat -> K) : nat -> nat -> nat -> K :=
  let bias := poly111 d cf in
  match center_key d with
  | (i, j, l) =>
      sub_at (l, i, j) (bias / 3) (sub_at (j, l, i) (bias / 3) (sub_at (i, j, l) (bias / 3) cf))
  end.

Definition handle_uncentered (solver : (nat -> nat -> nat -> K) -> option (ex K))
    (d : nat) (cf : nat -> nat -> nat -> K) : option (ex K) :=
  let bias := poly111 d cf in
  if bias <? 0 then None
  else
    match solver (uncentered_input d cf) with
    | None => None
    | Some sol =>
        match center_key d with
        | (i, j, l) =>
            if (d mod 3 =? 0)%nat then Some (sol + EC bias * cprod (a ^ i))%E
            else Some (sol + EC (bias / 3) * csum (a ^ i * b ^ j * c ^ l))%E
        end
    end.

End Model.

Section Proofs.
Variable K : OrdField.
Local Open Scope of_scope.
Add Field Kf : (F_field K).

(** Denominators made of constants are never zero; the others are read off. *)
Lemma fn_pos (n : nat) : (n <> 0)%nat -> 0 < (fnat n : K).
Proof. intro. apply fnat_pos. lia. Qed.

Ltac table :=
  let H := fresh in
  intro H; apply (f_equal (fun o => match o with Some z => z | None => EC f0 end)) in H;
  cbv beta iota in H; subst.

Lemma schur_sound n e (A B C : K) : schur n = Some e -> defined (pt3 A B C) e ->
  ev (pt3 A B C) e = A ^ (n - 2) * (A - B) * (A - C) + B ^ (n - 2) * (B - C) * (B - A) + C ^ (n - 2) * (C - A) * (C - B).
Proof.
  unfold schur. destruct n as [|[|[|[|[|[|n]]]]]]; try discriminate.
  - table. intros _. cbn. field. fnz.
  - table. intros (_ & _ & Hd). cbn in *. field. split; [|fnz].
    intro E. apply Hd. rewrite E. ring.
  - table. intros (_ & _ & Hd). cbn in *. field. intro E. apply Hd. rewrite <- E. ring.
Qed.
Lemma schur_manifest n e : schur n = Some e -> @manifest K true e = true.
Proof.
  unfold schur. destruct n as [|[|[|[|[|[|n]]]]]]; try discriminate; table; cbn;
  repeat match goal with |- context [fleb 0 ?x] => replace (fleb 0 x) with true by (symmetry; fold (fle 0 x); fpos) end; reflexivity.
Qed.
Lemma schurinv_sound n e (A B C : K) : (n <> 2)%nat -> schurinv n = Some e -> defined (pt3 A B C) e ->
  ev (pt3 A B C) e = (B * C) ^ ((n - 2) / 2) * (A - B) * (A - C) + (C * A) ^ ((n - 2) / 2) * (B - C) * (B - A)
                     + (A * B) ^ ((n - 2) / 2) * (C - A) * (C - B).
Proof.
  intro Hn. unfold schurinv. destruct n as [|[|[|[|[|[|[|n]]]]]]]; try discriminate; try congruence.
  - table. intros _. cbn. field. fnz.
  - table. intros (_ & _ & Hd). cbn in *. field. split; [|fnz].
    intro E. apply Hd. rewrite E. ring.
Qed.
Lemma schurinv_manifest n e : schurinv n = Some e -> @manifest K true e = true.
Proof.
  unfold schurinv. destruct n as [|[|[|[|[|[|[|n]]]]]]]; try discriminate; table; cbn;
  repeat match goal with |- context [fleb 0 ?x] => replace (fleb 0 x) with true by (symmetry; fold (fle 0 x); fpos) end; reflexivity.
Qed.
(** The entry for n = 2 is twice what it should be. *)
Lemma schurinv_2 e (A B C : K) : schurinv 2 = Some e ->
  ev (pt3 A B C) e = 2 * ((A - B) * (A - C) + (B - C) * (B - A) + (C - A) * (C - B)).
Proof. cbn. table. cbn. ring. Qed.

Definition cmon (d : mon) (A B C : K) : K :=
  match d with (i, j, l) => A ^ i * B ^ j * C ^ l + B ^ i * C ^ j * A ^ l + C ^ i * A ^ j * B ^ l end.
Lemma cmon_rot i j l A B C : cmon (j, l, i) A B C = cmon (i, j, l) A B C.
Proof. unfold cmon. ring. Qed.
Lemma cmon_std d A B C : cmon (mstd d) A B C = cmon d A B C.
Proof.
  destruct d as [[i j] l]. unfold mstd, mmax.
  destruct (mleb (i, j, l) (j, l, i)); destruct (mleb _ (l, i, j)); try reflexivity;
  try exact (cmon_rot i j l A B C); symmetry; exact (cmon_rot l i j A B C).
Qed.
Lemma meqb_eq x y : meqb x y = true -> x = y.
Proof.
  destruct x as [[i j] l], y as [[i' j'] l']. cbn. intro H.
  apply andb_prop in H. destruct H as [H H3]. apply andb_prop in H. destruct H as [H1 H2].
  apply Nat.eqb_eq in H1. apply Nat.eqb_eq in H2. apply Nat.eqb_eq in H3. congruence.
Qed.

Lemma special_amgms_sound d1 d2 e (A B C : K) : In ((d1, d2), e) special_amgms -> defined (pt3 A B C) e ->
  ev (pt3 A B C) e = cmon d1 A B C - cmon d2 A B C.
Proof.
  unfold special_amgms. cbn [In].
  intros H Hd.
  repeat (destruct H as [H|H]; [apply pair_equal_spec in H; destruct H as [H He]; apply pair_equal_spec in H; destruct H; subst d1 d2 e;
     cbn in *; first [ solve [field; fnz] |
       destruct Hd as (_ & _ & Hd); field; split; [intro E; apply Hd; rewrite E; ring | fnz] ] |]).
  destruct H.
Qed.
Lemma special_amgms_manifest d e : In (d, e) (@special_amgms K) -> manifest true e = true.
Proof.
  unfold special_amgms. cbn [In]. intro H.
  repeat (destruct H as [H|H]; [apply pair_equal_spec in H; destruct H as [_ He]; subst e;
     cbn; repeat match goal with |- context [fleb 0 ?x] => replace (fleb 0 x) with true by (symmetry; fold (fle 0 x); fpos) end; reflexivity|]).
  destruct H.
Qed.
Lemma amgm_in d1 d2 e : amgm d1 d2 = Some e -> In ((mstd d1, mstd d2), e) (@special_amgms K).
Proof.
  unfold amgm. destruct (find _ _) as [[[k1 k2] e']|] eqn:E; [|discriminate].
  table. apply find_some in E. destruct E as [E1 E2]. cbn [fst snd] in E2.
  apply andb_prop in E2. destruct E2 as [M1 M2]. apply meqb_eq in M1. apply meqb_eq in M2. subst. exact E1.
Qed.
Lemma amgm_sound d1 d2 e (A B C : K) : amgm d1 d2 = Some e -> defined (pt3 A B C) e ->
  ev (pt3 A B C) e = cmon d1 A B C - cmon d2 A B C.
Proof.
  intros H Hd. apply amgm_in in H.
  rewrite (special_amgms_sound _ _ _ A B C H Hd), !cmon_std. reflexivity.
Qed.
Lemma amgm_manifest d1 d2 e : amgm d1 d2 = Some e -> @manifest K true e = true.
Proof. intro H. apply amgm_in in H. exact (special_amgms_manifest _ _ H). Qed.

(** ** The decorator for uncentred polynomials *)
Implicit Types cf : nat -> nat -> nat -> K.
Definition mono (key : mon) (A B C : K) : K := match key with (x, y, z) => A ^ x * B ^ y * C ^ z end.
Definition mdeg (key : mon) : nat := match key with (x, y, z) => (x + y + z)%nat end.

Lemma meqb_refl x : meqb x x = true.
Proof. destruct x as [[i j] l]. cbn. rewrite !Nat.eqb_refl. reflexivity. Qed.
Lemma tri_poly_sub_at d key v cf A B C : mdeg key = d ->
  tri_poly d (sub_at key v cf) A B C = tri_poly d cf A B C - v * mono key A B C.
Proof.
  intro Hd. destruct key as [[x y] z]. cbn in Hd.
  unfold tri_poly. rewrite <- !bsum_fsum.
  transitivity (bsum (S d) (fun i => bsum (S (d - i)) (fun j => cf i j (d - i - j)%nat * (A ^ i * B ^ j * C ^ (d - i - j))))
    - bsum (S d) (fun i => bsum (S (d - i)) (fun j => if meqb (i, j, (d - i - j)%nat) (x, y, z) then v * mono (x, y, z) A B C else 0))).
  - rewrite <- bsum_sub. apply bsum_ext. intros i Hi. rewrite <- bsum_fsum, <- bsum_sub.
    apply bsum_ext. intros j Hj. unfold sub_at.
    destruct (meqb (i, j, (d - i - j)%nat) (x, y, z)) eqn:E; [|ring].
    apply meqb_eq in E. apply pair_equal_spec in E. destruct E as [E Ez]. apply pair_equal_spec in E. destruct E as [Ex Ey].
    cbn [mono]. rewrite Ez. subst i j. ring.
  - f_equal.
    + apply bsum_ext. intros i Hi. rewrite <- bsum_fsum. reflexivity.
    + rewrite (bsum_single K (S d) x).
      2: lia.
      2: { intros i Hi Hne. apply bsum_all0. intros j Hj.
           destruct (meqb _ _) eqn:E; [|reflexivity]. apply meqb_eq in E. congruence. }
      rewrite (bsum_single K (S (d - x)) y).
      2: lia.
      2: { intros j Hj Hne. destruct (meqb _ _) eqn:E; [|reflexivity]. apply meqb_eq in E. congruence. }
      replace (d - x - y)%nat with z by lia. rewrite meqb_refl. reflexivity.
Qed.

Lemma poly111_spec d cf : poly111 d cf = tri_poly d cf 1 1 1.
Proof.
  unfold poly111, tri_poly. apply fsum_map_ext. intros i Hi. apply fsum_map_ext. intros j Hj.
  rewrite !fpow_1. ring.
Qed.

Lemma center_key_deg d : mdeg (center_key d) = d.
Proof.
  unfold center_key, mdeg. assert (H := Nat.div_mod d 3 ltac:(lia)).
  assert (Hm := Nat.mod_upper_bound d 3 ltac:(lia)).
  destruct (2 <=? d mod 3)%nat eqn:E2; destruct (d mod 3 =? 0)%nat eqn:E0;
  rewrite ?Nat.leb_le, ?Nat.leb_gt, ?Nat.eqb_eq, ?Nat.eqb_neq in *; lia.
Qed.
Lemma center_key_0 d : (d mod 3 = 0)%nat -> exists i, center_key d = (i, i, i).
Proof.
  intro H. unfold center_key. rewrite H. cbn. eauto.
Qed.

Lemma uncentered_input_value d cf A B C :
  tri_poly d (uncentered_input d cf) A B C = tri_poly d cf A B C - poly111 d cf / 3 * cmon (center_key d) A B C.
Proof.
  unfold uncentered_input. assert (Hk := center_key_deg d).
  destruct (center_key d) as [[i j] l]. cbn [mdeg] in Hk.
  rewrite !tri_poly_sub_at by (cbn [mdeg]; lia). cbn [mono cmon]. ring.
Qed.

Lemma uncentered_input_111 d cf : tri_poly d (uncentered_input d cf) 1 1 1 = 0.
Proof.
  rewrite uncentered_input_value, poly111_spec. destruct (center_key d) as [[i j] l].
  cbn [cmon]. rewrite !fpow_1. field. fnz.
Qed.
Lemma sub_at_val key v cf x y z :
  sub_at key v cf x y z = cf x y z - (if meqb (x, y, z) key then v else 0).
Proof. unfold sub_at. destruct (meqb _ _); ring. Qed.
Lemma meqb_rot x y z i j l : meqb (x, y, z) (i, j, l) = meqb (y, z, x) (j, l, i).
Proof. cbn. destruct (x =? i)%nat, (y =? j)%nat, (z =? l)%nat; reflexivity. Qed.
Lemma uncentered_input_cyclic d cf : cyclic3 cf -> cyclic3 (uncentered_input d cf).
Proof.
  intros Hc x y z. unfold uncentered_input. destruct (center_key d) as [[i j] l].
  rewrite !sub_at_val, (Hc x y z).
  rewrite (meqb_rot x y z i j l), (meqb_rot x y z j l i), (meqb_rot x y z l i j). ring.
Qed.

Lemma handle_uncentered_sound solver d cf e :
  handle_uncentered solver d cf = Some e ->
  0 <= tri_poly d cf 1 1 1 /\
  exists sol, solver (uncentered_input d cf) = Some sol /\
   (forall env, defined env e <-> defined env sol) /\
   (forall A B C, ev (pt3 A B C) sol = tri_poly d (uncentered_input d cf) A B C ->
                  ev (pt3 A B C) e = tri_poly d cf A B C) /\
   (manifest true sol = true -> manifest true e = true).
Proof.
  unfold handle_uncentered. rewrite poly111_spec.
  destruct (tri_poly d cf 1 1 1 <? 0) eqn:Eb; [discriminate|]. apply fltb_ge in Eb.
  destruct (solver (uncentered_input d cf)) as [sol|] eqn:Es; [|discriminate].
  assert (B3 : 0 <= tri_poly d cf 1 1 1 / 3) by (apply fdiv_nonneg; fpos).
  assert (HV := uncentered_input_value d cf). rewrite poly111_spec in HV.
  assert (HK := center_key_0 d).
  destruct (center_key d) as [[i j] l].
  destruct (d mod 3 =? 0)%nat eqn:E0; intro H;
    assert (He := f_equal (fun o => match o with Some z => z | None => e end) H); cbv beta iota in He; subst e; clear H.
  - apply Nat.eqb_eq in E0. destruct (HK E0) as (i' & Hi). apply pair_equal_spec in Hi. destruct Hi as [Hi ->].
    apply pair_equal_spec in Hi. destruct Hi as [-> ->].
    split; [exact Eb|]. exists sol. split; [reflexivity|split; [|split]].
    + intro env. cbn. tauto.
    + intros A B C Hs. cbn [ev cprod erename rot3 pt3]. rewrite Hs, HV. cbn [cmon]. field. fnz.
    + intro Hm. cbn [manifest cprod erename]. rewrite Hm. unfold fle in Eb. rewrite Eb, !orb_true_r. reflexivity.
  - split; [exact Eb|]. exists sol. split; [reflexivity|split; [|split]].
    + intro env. cbn. tauto.
    + intros A B C Hs. cbn [ev csum erename rot3 pt3]. rewrite Hs, HV. cbn [cmon]. ring.
    + intro Hm. cbn [manifest csum erename]. rewrite Hm. unfold fle in B3. rewrite B3, !orb_true_r. reflexivity.
Qed.

Lemma handle_uncentered_none_lemma solver d cf :
  handle_uncentered solver d cf = None -> tri_poly d cf 1 1 1 < 0 \/ solver (uncentered_input d cf) = None.
Proof.
  unfold handle_uncentered. rewrite poly111_spec.
  destruct (tri_poly d cf 1 1 1 <? 0) eqn:Eb; [intros _; left; apply fltb_lt, Eb|].
  destruct (solver (uncentered_input d cf)); [|intros _; right; reflexivity].
  destruct (center_key d) as [[i j] l]. destruct (d mod 3 =? 0)%nat; discriminate.
Qed.

End Proofs.

Lemma schurinv_2_wrong :
  ~ (forall (K : OrdField) (e : ex K) (A B C : K), schurinv 2 = Some e ->
      ev (pt3 A B C) e = ((A - B) * (A - C) + (B - C) * (B - A) + (C - A) * (C - B))%F).
Proof.
  intro H. specialize (H QcOF _ (q 1 1) (q 0 1) (q 0 1) eq_refl).
  apply (f_equal (fun x => qc_eqb x (q 1 1))) in H. vm_compute in H. discriminate.
Qed.
