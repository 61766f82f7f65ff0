(** * Symmetric quartics in any number of variables (triples/core/structsos/nvars.py) *)
From Coq Require Import Bool List Arith Lia Ring Field Permutation Factorial.
From Verif Require Import OrdField Base Perm Poly PolyId Coeff Congruence Expr StructUtils Sparse.
Import ListNotations.

(** ** The symmetric group *)
(** each element of a list with the others *)
Fixpoint selects {A} (l : list A) : list (A * list A) :=
  match l with
  | [] => []
  | a :: l' => (a, l') :: map (fun s => (fst s, a :: snd s)) (selects l')
  end.
(** [SymmetricGroup(n).elements] used by [SymmetricSum] (triples/utils/expression/cyclic.py:411-529, 635-639):
    the n! arrangements, whose order does not matter for a sum.  [f] is the length of the list. *)
Fixpoint arrangements {A} (f : nat) (l : list A) : list (list A) :=
  match f with
  | O => [[]]
  | S f' => flat_map (fun s => map (cons (fst s)) (arrangements f' (snd s))) (selects l)
  end.
Definition sym_group (n : nat) : list (list nat) := arrangements n (seq 0 n).
(** [SymmetricGroup(n).generators] of sympy for n > 2, read by [Coeff.is_symmetric]
    (triples/utils/expression/coeff.py:98-115): a cycle and a transposition *)
Definition sym_gens (n : nat) : list (list nat) := [seq 1 (n - 1) ++ [0]; 1 :: 0 :: seq 2 (n - 2)].

Section Model.
Context {K : OrdField}.
Local Open Scope of_scope.

(** [SymmetricSum(e, gens)] expanded (cyclic.py:635-639) *)
Definition symsum (n : nat) (e : ex K) : ex K :=
  fold_right (fun g acc => EAdd (erename (fun i => nth i g i) e) acc) (EC 0) (sym_group n).

Section Params.
Variables (n : nat) (c4 c3 c22 c21 c1 q1 q3 : K).
Let N : K := fnat n.
(** [m = factorial(n - 2)] (nvars.py:29) *)
Definition nv_m : K := fnat (fact (n - 2)).
(** nvars.py:35-42; [u] is given *)
Definition nv_cq : K := (c4/(N-1) + c3 + c22/2 + (N-2)*(c21/2 + (N-3)*c1/(4*(3+3))))/N.
Definition nv_q2 : K := nv_cq - q1/(N-1) - q3*(N-1)/4.
Definition nv_x : K := (c4 - q1)/(2*nv_m*(N-1)).
Definition nv_cy : K := (2*q1 + q3 - c22)/4/nv_m + nv_x.
Definition nv_y (u : K) : K := nv_cy/2 + (N-2)*u/2.
Definition nv_v : K := ((3+3)*q3 - c1)/(4*4*3)/nv_m.
Definition nv_cr : K := ((c3 - 2*nv_q2)/(2*nv_m) + 2*nv_x - nv_cy)/(2*(N-2)).
Definition nv_r (u : K) : K := nv_cr - u/2.
(** [u_candidates] (nvars.py:80) *)
Definition nv_us : list K := [2*nv_cr; (2*nv_x-nv_cy)/(N-2); nv_v].
End Params.

(** [_create_quad] (nvars.py:53-61) *)
Definition create_quad (n : nat) (x y u v r : K) : list (list K) :=
  mtab n n (fun i j =>
    if Nat.ltb i 2 then (if Nat.ltb j 2 then (if Nat.eqb i j then x else y) else r)
    else if Nat.ltb j 2 then r else if Nat.eqb i j then u else v).

(** one entry of [cong[0]*vec] (nvars.py:70) *)
Definition line (n : nat) (row : list K) : ex K :=
  fold_right (fun j acc => EAdd (EMul (EC (vget row j)) (EX j)) acc) (EC 0) (seq 0 n).
(** [sum(i * line**2 for i, line in zip(cong[1], cong[0]*vec))] (nvars.py:70) *)
Definition squares (n : nat) (U : list (list K)) (Sv : list K) : ex K :=
  fold_right (fun k acc => EAdd (EMul (EC (vget Sv k)) (EPow (line n (nth k U [])) 2)) acc) (EC 0) (seq 0 n).
(** [_get_solution] (nvars.py:63-72); [together] keeps the value and is omitted *)
Definition get_solution (n : nat) (x y u v r : K) : res (option (ex K)) :=
  match congruence (create_quad n x y u v r) with
  | Err e => Err e
  | Ok None => Ok None
  | Ok (Some (U, Sv)) => Ok (Some (symsum n (EMul (EPow (ESub (EX 0) (EX 1)) 2) (squares n U Sv))))
  end.
(** [mapping] of nvars.py:76-77 *)
Definition quad_map (n : nat) (x y : K) : ex K :=
  (EPow (symsum n (EX 0 ^ 2 / EC (nv_m n * (fnat n - 1)) * EC x + EX 0 * EX 1 / EC (nv_m n * 2) * EC y)) 2)%E.
(** [_get_solution2] (nvars.py:73-78) *)
Definition get_solution2 (n : nat) (q1 q2 q3 : K) : option (ex K) :=
  match quadratic_weighting q1 (q2 * 2) q3 with
  | None => None
  | Some r => Some (fold_right (fun w acc => EAdd (EMul (EC (fst w)) (quad_map n (fst (snd w)) (snd (snd w)))) acc) (EC 0) r)
  end.

(** monomial of the given exponents padded with zeros (nvars.py:31-33) *)
Definition pad (n : nat) (l : list nat) : list nat := l ++ repeat 0%nat (n - length l).

(** The loop over the candidates (nvars.py:85-99).  [region k] is the answer of
    [common_region_of_conics] for the k-th candidate (an oracle: nothing is assumed about it).
    Numbers of [K] are finite, so [is_finite] is true. *)
Fixpoint nv_loop (n : nat) (c4 c3 c22 c21 c1 : K) (region : nat -> option (K * K)) (ks : list nat) : res (option (ex K)) :=
  match ks with
  | [] => Ok None
  | k :: ks' =>
      match region k with
      | None => nv_loop n c4 c3 c22 c21 c1 region ks'
      | Some (q1, q3) =>
          let u := nth k (nv_us n c4 c3 c22 c21 c1 q1 q3) 0 in
          match get_solution n (nv_x n c4 q1) (nv_y n c4 c22 q1 q3 u) u (nv_v n c1 q3) (nv_r n c4 c3 c22 c21 c1 q1 q3 u) with
          | Err e => Err e
          | Ok sol =>
              match sol, get_solution2 n q1 (nv_q2 n c4 c3 c22 c21 c1 q1 q3) q3 with
              | Some s1, Some s2 => Ok (Some (EAdd s1 s2))
              | _, _ => nv_loop n c4 c3 c22 c21 c1 region ks'
              end
          end
      end
  end.
(** [_sos_struct_nvars_quartic_symmetric_sdp] (nvars.py:16-99) *)
Definition nvars_sdp (n : nat) (p : poly K) (region : nat -> option (K * K)) : res (option (ex K)) :=
  if Nat.leb n 3 then Ok None
  else
    let c l := coef p (pad n l) in
    nv_loop n (c [4]%nat) (c [3;1]%nat) (c [2;2]%nat) (c [2;1;1]%nat) (c [1;1;1;1]%nat) region [0;1;2]%nat.
(** [sos_struct_nvars_quartic_symmetric] (nvars.py:8-13) *)
Definition nvars_quartic (n : nat) (p : poly K) (region : nat -> option (K * K)) : res (option (ex K)) :=
  if (Nat.eqb (fold_right Nat.max 0%nat (map (fun t => list_sum (fst t)) p)) 4 && is_cyclic n (sym_gens n) p)%bool
  then nvars_sdp n p region else Ok None.
End Model.

(** ** Facts about arrangements *)
Lemma selects_fst {A} (l : list A) : map fst (selects l) = l.
Proof. induction l as [|a l IH]; [reflexivity|]. cbn [selects map fst]. rewrite map_map. exact (f_equal (cons a) IH). Qed.
Lemma selects_perm {A} (l : list A) a r : In (a, r) (selects l) -> Permutation (a :: r) l.
Proof.
  revert a r. induction l as [|b l IH]; intros a r; [intros []|]. cbn [selects]. intros [E|H].
  - injection E as -> ->. apply Permutation_refl.
  - apply in_map_iff in H. destruct H as [[a' r'] [E H]]. cbn [fst snd] in E. injection E as -> <-.
    eapply perm_trans; [apply perm_swap|]. apply perm_skip, IH, H.
Qed.
Lemma selects_in {A} (l : list A) a : In a l -> exists r, In (a, r) (selects l).
Proof. intro H. rewrite <- (selects_fst l) in H. apply in_map_iff in H. destruct H as [[a' r] [E H]]. cbn in E. subst. eauto. Qed.
Lemma selects_len {A} (l : list A) : length (selects l) = length l.
Proof. rewrite <- (map_length fst (selects l)), selects_fst. reflexivity. Qed.

Lemma arrangements_perm {A} f : forall (l : list A), length l = f -> forall t, In t (arrangements f l) -> Permutation t l.
Proof.
  induction f as [|f IH]; intros l Hl t.
  - destruct l; [|discriminate]. intros [<-|[]]. apply perm_nil.
  - cbn [arrangements]. intro H. apply in_flat_map in H. destruct H as [[a r] [H1 H2]]. apply in_map_iff in H2.
    destruct H2 as [t' [<- H2]]. cbn [fst snd] in *. pose proof (selects_perm l a r H1) as P.
    eapply perm_trans; [|exact P]. apply perm_skip, IH; [|exact H2]. apply Permutation_length in P. cbn in P. lia.
Qed.
Lemma arrangements_complete {A} f : forall (l : list A), length l = f -> forall t, Permutation t l -> In t (arrangements f l).
Proof.
  induction f as [|f IH]; intros l Hl t P.
  - destruct l; [|discriminate]. apply Permutation_sym, Permutation_nil in P. subst. left. reflexivity.
  - destruct t as [|a t]; [apply Permutation_nil in P; subst; discriminate|]. cbn [arrangements].
    destruct (selects_in l a) as [r Hr]; [eapply Permutation_in; [exact P|left; reflexivity]|].
    apply in_flat_map. exists (a, r). split; [exact Hr|]. cbn [fst snd]. apply in_map. pose proof (selects_perm l a r Hr) as P'.
    apply IH; [apply Permutation_length in P'; cbn in P'; lia|]. apply (Permutation_cons_inv (a := a)).
    eapply perm_trans; [exact P|apply Permutation_sym, P'].
Qed.
Lemma arrangements_length {A} f : forall (l : list A), length l = f -> length (arrangements f l) = fact f.
Proof.
  induction f as [|f IH]; intros l Hl; [reflexivity|]. cbn [arrangements].
  assert (G : forall s, (forall a r, In (a, r) s -> length r = f) ->
    length (flat_map (fun s : A * list A => map (cons (fst s)) (arrangements f (snd s))) s) = (length s * fact f)%nat).
  { induction s as [|[a r] s IHs]; intro H; [reflexivity|]. cbn [flat_map length fst snd]. rewrite app_length, map_length, IH, IHs; [lia| |].
    - intros a' r' H'. apply (H a' r'). right. exact H'.
    - apply (H a r). left. reflexivity. }
  rewrite G, selects_len, Hl; [cbn [fact]; lia|]. intros a r H. apply selects_perm, Permutation_length in H. cbn in H. lia.
Qed.
Lemma NoDup_app_intro {A} (l m : list A) : NoDup l -> NoDup m -> (forall x, In x l -> ~ In x m) -> NoDup (l ++ m).
Proof.
  induction l as [|a l IH]; intros Hl Hm H; [exact Hm|]. inversion Hl; subst. cbn [app]. constructor.
  - rewrite in_app_iff. intros [C|C]; [contradiction|]. apply (H a); [left; reflexivity|exact C].
  - apply IH; auto. intros x Hx. apply H. right. exact Hx.
Qed.
Lemma arrangements_NoDup {A} f : forall (l : list A), length l = f -> NoDup l -> NoDup (arrangements f l).
Proof.
  induction f as [|f IH]; intros l Hl Hn; [constructor; [intros []|constructor]|]. cbn [arrangements].
  assert (G : forall s, NoDup (map fst s) -> (forall a r, In (a, r) s -> length r = f /\ NoDup r) ->
    NoDup (flat_map (fun s : A * list A => map (cons (fst s)) (arrangements f (snd s))) s)).
  { induction s as [|[a r] s IHs]; intros Hs H; [constructor|]. cbn [flat_map fst snd]. cbn [map fst] in Hs. inversion Hs; subst.
    destruct (H a r (or_introl eq_refl)) as [Hr Hr']. apply NoDup_app_intro.
    - apply FinFun.Injective_map_NoDup; [intros u v E; congruence|apply IH; assumption].
    - apply IHs; [assumption|]. intros a' r' H'. apply (H a' r'). right. exact H'.
    - intros t Ht Ht'. apply in_map_iff in Ht. destruct Ht as [t1 [<- _]]. apply in_flat_map in Ht'.
      destruct Ht' as [[a' r'] [H1' H2']]. apply in_map_iff in H2'. destruct H2' as [t2 [E _]]. cbn [fst] in E. injection E as -> _.
      apply H2. change a with (fst (a, r')). apply in_map, H1'. }
  apply G; [rewrite selects_fst; exact Hn|]. intros a r H. apply selects_perm in H. split.
  - apply Permutation_length in H. cbn in H. lia.
  - apply Permutation_sym in H. apply (Permutation_NoDup H) in Hn. inversion Hn; assumption.
Qed.

(** the symmetric group has each permutation exactly once *)
Lemma sym_group_spec n : NoDup (sym_group n) /\ length (sym_group n) = fact n /\ forall g, In g (sym_group n) <-> is_perm n g.
Proof.
  unfold sym_group. pose proof (seq_length n 0) as L. split; [apply arrangements_NoDup; [exact L|apply seq_NoDup]|].
  split; [apply arrangements_length, L|]. intro g. split; [apply arrangements_perm, L|apply arrangements_complete, L].
Qed.

Lemma Some_inj {A} (a b : A) : Some a = Some b -> a = b.
Proof. congruence. Qed.

Section Facts.
Variable K : OrdField.
Local Open Scope of_scope.
Add Field Kf : (F_field K).
Implicit Types (x : nat -> K) (p : poly K).

(** *** Sums over the symmetric group *)
Lemma fsum_arr {A} (F : list A -> K) f l :
  fsum (map F (arrangements (S f) l)) =
  fsum (map (fun s => fsum (map (fun t => F (fst s :: t)) (arrangements f (snd s)))) (selects l)).
Proof.
  cbn [arrangements]. induction (selects l) as [|s r IH]; [reflexivity|].
  cbn [flat_map]. rewrite map_app, fsum_app, IH, map_map. reflexivity.
Qed.

(** the sum of a function of the first two entries *)
Lemma sym_sum2 {A} f (l : list A) (F : list A -> K) (H : A -> A -> K) : length l = S (S f) ->
  (forall a b t, Permutation (a :: b :: t) l -> F (a :: b :: t) = H a b) ->
  fsum (map F (arrangements (S (S f)) l)) =
  fnat (fact f) * (fsum (map (fun a => fsum (map (H a) l)) l) - fsum (map (fun a => H a a) l)).
Proof.
  intros Hl HF. rewrite fsum_arr.
  rewrite (fsum_map_ext K _ (fun s => fnat (fact f) * (fsum (map (H (fst s)) l) - H (fst s) (fst s)))).
  - rewrite <- (map_map fst (fun a => fnat (fact f) * (fsum (map (H a) l) - H a a))), selects_fst.
    rewrite fsum_map_mul_l, fsum_map_sub. reflexivity.
  - intros [a r] Hs. cbn [fst snd]. pose proof (selects_perm l a r Hs) as P. rewrite fsum_arr.
    rewrite (fsum_map_ext K _ (fun s => fnat (fact f) * H a (fst s))).
    + rewrite <- (map_map fst (fun b => fnat (fact f) * H a b)), selects_fst, fsum_map_mul_l.
      f_equal. rewrite <- (fsum_perm K _ _ (Permutation_map (H a) P)). cbn [map fsum]. ring.
    + intros [b r'] Hs'. cbn [fst snd]. pose proof (selects_perm r b r' Hs') as P'.
      assert (Hr' : length r' = f).
      { apply Permutation_length in P. apply Permutation_length in P'. cbn in *. lia. }
      rewrite (fsum_map_ext K _ (fun _ => H a b)), fsum_const, arrangements_length; [reflexivity|exact Hr'|].
      intros t Ht. apply HF. apply (arrangements_perm f r' Hr') in Ht.
      eapply perm_trans; [|exact P]. apply perm_skip. eapply perm_trans; [|exact P']. apply perm_skip, Ht.
Qed.

Lemma ev_symsum n x (e : ex K) : ev x (symsum n e) = fsum (map (fun g => ev (fun i => x (nth i g i)) e) (sym_group n)).
Proof.
  unfold symsum. induction (sym_group n) as [|g l IH]; [reflexivity|].
  cbn [fold_right ev map fsum]. rewrite IH, ev_rename. reflexivity.
Qed.
Lemma defined_rename s x (e : ex K) : defined x (erename s e) <-> defined (fun i => x (s i)) e.
Proof.
  induction e; cbn [erename defined]; rewrite ?IHe1, ?IHe2, ?IHe, ?ev_rename; tauto.
Qed.
Lemma defined_symsum n x (e : ex K) : (forall y, defined y e) -> defined x (symsum n e).
Proof.
  intro H. unfold symsum. induction (sym_group n) as [|g l IH]; cbn [fold_right defined]; [exact I|].
  split; [apply defined_rename, H|exact IH].
Qed.
Lemma manifest_symsum pos n (e : ex K) : manifest pos e = true -> manifest pos (symsum n e) = true.
Proof.
  intro H. unfold symsum. induction (sym_group n) as [|g l IH]; cbn [fold_right manifest].
  - apply fleb_le, fle_refl.
  - rewrite manifest_rename, H, IH. reflexivity.
Qed.

(** *** Power sums *)
Definition PS (k : nat) (l : list K) : K := fsum (map (fun a => a ^ k) l).
Lemma PS_cons k a l : PS k (a :: l) = a ^ k + PS k l.
Proof. reflexivity. Qed.
Lemma PS_perm k l l' : Permutation l l' -> PS k l = PS k l'.
Proof. intro P. apply fsum_perm, Permutation_map, P. Qed.
Lemma PS0 l : PS 0 l = fnat (length l).
Proof. induction l as [|a l IH]; [reflexivity|]. rewrite PS_cons, IH. reflexivity. Qed.
Lemma poly_sum (c0 c1 c2 c3 c4 : K) l :
  fsum (map (fun b => c0 + c1 * b + c2 * b ^ 2 + c3 * b ^ 3 + c4 * b ^ 4) l)
  = c0 * fnat (length l) + c1 * PS 1 l + c2 * PS 2 l + c3 * PS 3 l + c4 * PS 4 l.
Proof.
  induction l as [|a l IH].
  - unfold PS. cbn [map fsum length fnat]. ring.
  - cbn [map fsum length fnat]. rewrite IH, !PS_cons. cbn [fpow]. ring.
Qed.

(** the quadratic form of [create_quad] at a point with two distinguished coordinates *)
Lemma qform_quad f (xx y u v r : K) (z : nat -> K) (zs : list K) :
  (forall i, (i < f)%nat -> z (S (S i)) = nth i zs 0) -> length zs = f ->
  qform (S (S f)) (create_quad (S (S f)) xx y u v r) z =
  xx * (z 0%nat ^ 2 + z 1%nat ^ 2) + 2 * y * z 0%nat * z 1%nat + 2 * r * (z 0%nat + z 1%nat) * PS 1 zs
  + u * PS 2 zs + v * (PS 1 zs ^ 2 - PS 2 zs).
Proof.
  intros Hz Hl. unfold qform.
  assert (E : forall i j, (i < S (S f))%nat -> (j < S (S f))%nat ->
    z i * mget (create_quad (S (S f)) xx y u v r) i j * z j =
    z i * (if Nat.ltb i 2 then (if Nat.ltb j 2 then (if Nat.eqb i j then xx else y) else r)
    else if Nat.ltb j 2 then r else if Nat.eqb i j then u else v) * z j).
  { intros i j Hi Hj. unfold create_quad. rewrite mget_mtab by assumption. reflexivity. }
  rewrite (bsum_ext K _ _ (fun i => bsum (S (S f)) (fun j => z i * (if Nat.ltb i 2 then (if Nat.ltb j 2 then (if Nat.eqb i j then xx else y) else r)
    else if Nat.ltb j 2 then r else if Nat.eqb i j then u else v) * z j))) by (intros i Hi; apply bsum_ext; intros j Hj; apply E; assumption).
  clear E. rewrite !bsum_Sl. cbn [Nat.ltb Nat.leb Nat.eqb].
  assert (S1 : bsum f (fun i => z (S (S i))) = PS 1 zs).
  { rewrite (bsum_ext K _ _ (fun i => nth i zs 0)) by exact Hz. rewrite bsum_fsum. subst f. unfold PS.
    clear. induction zs as [|a zs IH]; [reflexivity|]. cbn [length seq map fsum nth]. rewrite <- seq_shift, map_map. cbn [nth]. rewrite IH. cbn [fpow]. ring. }
  assert (S2 : bsum f (fun i => z (S (S i)) * z (S (S i))) = PS 2 zs).
  { rewrite (bsum_ext K _ _ (fun i => nth i zs 0 * nth i zs 0)) by (intros i Hi; rewrite (Hz i Hi); reflexivity). rewrite bsum_fsum. subst f. unfold PS.
    clear. induction zs as [|a zs IH]; [reflexivity|]. cbn [length seq map fsum nth]. rewrite <- seq_shift, map_map. cbn [nth]. rewrite IH. cbn [fpow]. ring. }
  rewrite !bsum_mul_l, S1.
  rewrite (bsum_ext K _ _ (fun i => z (S (S i)) * (r * z 0%nat + r * z 1%nat + v * PS 1 zs) + (u - v) * (z (S (S i)) * z (S (S i))))).
  - rewrite bsum_add, bsum_mul_r, bsum_mul_l, S1, S2. cbn [fpow]. ring.
  - intros i Hi. rewrite !bsum_Sl. cbn [Nat.ltb Nat.leb Nat.eqb].
    rewrite (bsum_ext K _ _ (fun j => (z (S (S i)) * v) * z (S (S j)) + (if Nat.eqb i j then (u - v) * (z (S (S i)) * z (S (S i))) else 0))).
    + rewrite bsum_add, bsum_mul_l, S1. rewrite (bsum_single K f i).
      * rewrite Nat.eqb_refl. ring.
      * exact Hi.
      * intros j Hj Hne. destruct (Nat.eqb_spec i j); [congruence|reflexivity].
    + intros j Hj. destruct (Nat.eqb_spec i j) as [->|]; ring.
Qed.

(** *** Values of the expressions *)
Lemma ev_line n (row : list K) z : ev z (line n row) = bsum n (fun j => vget row j * z j).
Proof.
  rewrite bsum_fsum. unfold line. induction (seq 0 n) as [|j l IH]; [reflexivity|]. cbn [fold_right ev map fsum]. rewrite IH. reflexivity.
Qed.
Lemma ev_squares n (U : list (list K)) Sv z : ev z (squares n U Sv) =
  bsum n (fun k => vget Sv k * (bsum n (fun i => mget U k i * z i) * bsum n (fun i => mget U k i * z i))).
Proof.
  rewrite bsum_fsum. unfold squares. induction (seq 0 n) as [|j l IH]; [reflexivity|]. cbn [fold_right ev map fsum]. rewrite IH, ev_line.
  unfold mget. cbn [fpow]. ring.
Qed.
Lemma create_quad_sym n (xx y u v r : K) : symmetric n (create_quad n xx y u v r).
Proof.
  intros i j Hi Hj. unfold create_quad. rewrite !mget_mtab by assumption. rewrite (Nat.eqb_sym j i).
  destruct (Nat.ltb i 2), (Nat.ltb j 2); reflexivity.
Qed.
Lemma create_quad_length n (xx y u v r : K) : length (create_quad n xx y u v r) = n.
Proof. apply mtab_length. Qed.

Lemma symmetric_part f (xx y u v r : K) (e : ex K) x :
  get_solution (S (S f)) xx y u v r = Ok (Some e) ->
  let l := map x (seq 0 (S (S f))) in
  let al := xx - 2 * r - u + 2 * v in let be := 2 * y - 4 * r + 2 * v in
  let ga := 2 * r * PS 1 l - 2 * v * PS 1 l in let de := u * PS 2 l + v * PS 1 l ^ 2 - v * PS 2 l in
  let N := fnat (S (S f)) in
  ev x e = fnat (fact f) * (2 * al * N * PS 4 l + 2 * (be - 2 * al) * PS 3 l * PS 1 l + (2 * al - 2 * be) * PS 2 l ^ 2
             + 2 * ga * N * PS 3 l - 2 * ga * PS 1 l * PS 2 l + 2 * de * N * PS 2 l - 2 * de * PS 1 l ^ 2).
Proof.
  intro H. cbv zeta. set (l := map x (seq 0 (S (S f)))). set (n := S (S f)) in *.
  unfold get_solution in H. pose proof (create_quad_sym n xx y u v r) as Hs.
  destruct (congruence (create_quad n xx y u v r)) as [[[U Sv]|]|] eqn:E; try discriminate. apply Ok_inj, Some_inj in H. subst e.
  rewrite ev_symsum. set (al := xx - 2 * r - u + 2 * v). set (be := 2 * y - 4 * r + 2 * v).
  set (ga := 2 * r * PS 1 l - 2 * v * PS 1 l). set (de := u * PS 2 l + v * PS 1 l ^ 2 - v * PS 2 l).
  unfold sym_group. unfold n at 3.
  rewrite (sym_sum2 f (seq 0 n) _ (fun a b => (x a - x b) ^ 2 * (al * (x a ^ 2 + x b ^ 2) + be * x a * x b + ga * (x a + x b) + de))).
  - f_equal.
    rewrite (fsum_map_0 K (fun a => (x a - x a) ^ 2 * _)) by (intros a _; cbn [fpow]; ring).
    rewrite <- (map_map x (fun a => fsum (map (fun b => (a - x b) ^ 2 * (al * (a ^ 2 + x b ^ 2) + be * a * x b + ga * (a + x b) + de)) (seq 0 n)))).
    fold l.
    assert (E1 : forall a, fsum (map (fun b => (a - x b) ^ 2 * (al * (a ^ 2 + x b ^ 2) + be * a * x b + ga * (a + x b) + de)) (seq 0 n)) =
      (de * PS 2 l + ga * PS 3 l + al * PS 4 l)
      + (- (2) * de * PS 1 l - ga * PS 2 l + (be - 2 * al) * PS 3 l) * a
      + (de * fnat (length l) - ga * PS 1 l + (2 * al - 2 * be) * PS 2 l) * a ^ 2
      + (ga * fnat (length l) + (be - 2 * al) * PS 1 l) * a ^ 3 + al * fnat (length l) * a ^ 4).
    { intro a. rewrite <- (map_map x (fun b => (a - b) ^ 2 * (al * (a ^ 2 + b ^ 2) + be * a * b + ga * (a + b) + de))). fold l.
      rewrite (fsum_map_ext K _ (fun b => (al * a ^ 4 + ga * a ^ 3 + de * a ^ 2) + ((be - 2 * al) * a ^ 3 - ga * a ^ 2 - 2 * de * a) * b
         + ((2 * al - 2 * be) * a ^ 2 - ga * a + de) * b ^ 2 + ((be - 2 * al) * a + ga) * b ^ 3 + al * b ^ 4)).
      - rewrite poly_sum. cbn [fpow]. ring.
      - intros b _. cbn [fpow]. ring. }
    rewrite (fsum_map_ext K _ _ _ (fun a _ => E1 a)), poly_sum.
    assert (Ll : length l = n) by (unfold l; rewrite map_length; apply seq_length). rewrite Ll. fold n. cbn [fpow]. ring.
  - apply seq_length.
  - intros a b t P.
    cbn [ev]. rewrite ev_squares.
    pose proof (congruence_sos_lemma K (create_quad n xx y u v r) U Sv (fun i => x (nth i (a :: b :: t) i))) as Hc.
    rewrite create_quad_length in Hc. specialize (Hc Hs E). rewrite <- Hc. clear Hc.
    change (bsum n (fun i => bsum n (fun j => x (nth i (a :: b :: t) i) * mget (create_quad n xx y u v r) i j * x (nth j (a :: b :: t) j))))
      with (qform n (create_quad n xx y u v r) (fun i => x (nth i (a :: b :: t) i))).
    assert (Lt : length t = f) by (apply Permutation_length in P; rewrite seq_length in P; cbn in P; unfold n in P; lia).
    rewrite (qform_quad f xx y u v r _ (map x t)).
    + cbn [nth].
      assert (PP : Permutation (x a :: x b :: map x t) l) by exact (Permutation_map x P).
      pose proof (PS_perm 1 _ _ PP) as P1. pose proof (PS_perm 2 _ _ PP) as P2. rewrite !PS_cons in P1, P2.
      unfold al, be, ga, de. rewrite <- P1, <- P2. cbn [fpow]. ring.
    + intros i Hi. cbn [nth]. rewrite <- Lt in Hi. rewrite (nth_indep (map x t) 0 (x 0%nat)) by (rewrite map_length; exact Hi).
      rewrite map_nth. f_equal. apply nth_indep. exact Hi.
    + rewrite map_length. exact Lt.
Qed.

Lemma ev_quad_map f (w1 w2 : K) x : let l := map x (seq 0 (S (S f))) in
  let V := w1 * PS 2 l + w2 * ((PS 1 l ^ 2 - PS 2 l) / 2) in
  ev x (quad_map (S (S f)) w1 w2) = V * V.
Proof.
  cbv zeta. set (l := map x (seq 0 (S (S f)))). unfold quad_map. cbn [ev fpow].
  rewrite ev_symsum. unfold sym_group.
  assert (Hm : fnat (fact f) <> (0 : K)) by (apply fnat_neq0; pose proof (lt_O_fact f); lia).
  assert (HN : fnat (S f) <> (0 : K)) by (apply fnat_neq0; lia).
  assert (Hm' : nv_m (S (S f)) = (fnat (fact f) : K)) by (unfold nv_m; replace (S (S f) - 2)%nat with f by lia; reflexivity).
  set (A := nv_m (S (S f)) * (fnat (S (S f)) - 1)). set (B := nv_m (S (S f)) * 2).
  assert (HA : A = fnat (fact f) * fnat (S f)) by (unfold A; rewrite Hm'; cbn [fnat]; ring).
  assert (HB : B = fnat (fact f) * 2) by (unfold B; rewrite Hm'; ring).
  assert (E : fsum (map (fun g => ev (fun i => x (nth i g i)) (EX 0 ^ 2 / EC A * EC w1 + EX 0 * EX 1 / EC B * EC w2)%E)
                (arrangements (S (S f)) (seq 0 (S (S f))))) = w1 * PS 2 l + w2 * ((PS 1 l ^ 2 - PS 2 l) / 2)).
  { rewrite (sym_sum2 f (seq 0 (S (S f))) _ (fun a b => x a ^ 2 / A * w1 + x a * x b / B * w2)).
    - rewrite <- (map_map x (fun a => a ^ 2 / A * w1 + a * a / B * w2)).
      rewrite <- (map_map x (fun a => fsum (map (fun b => a ^ 2 / A * w1 + a * x b / B * w2) (seq 0 (S (S f)))))). fold l.
      assert (Ll : length l = S (S f)) by (unfold l; rewrite map_length; apply seq_length).
      assert (E1 : forall a, fsum (map (fun b => a ^ 2 / A * w1 + a * x b / B * w2) (seq 0 (S (S f)))) =
         0 + (PS 1 l / B * w2) * a + (fnat (length l) / A * w1) * a ^ 2 + 0 * a ^ 3 + 0 * a ^ 4).
      { intro a. rewrite <- (map_map x (fun b => a ^ 2 / A * w1 + a * b / B * w2)). fold l.
        rewrite (fsum_map_ext K _ (fun b => a ^ 2 / A * w1 + (a / B * w2) * b + 0 * b ^ 2 + 0 * b ^ 3 + 0 * b ^ 4)).
        - rewrite poly_sum. cbn [fpow]. rewrite HA, HB. field. repeat split; try assumption; fnz.
        - intros b _. rewrite HA, HB. cbn [fpow]. field. repeat split; try assumption; fnz. }
      rewrite (fsum_map_ext K _ _ _ (fun a _ => E1 a)), poly_sum.
      rewrite (fsum_map_ext K (fun a => a ^ 2 / A * w1 + a * a / B * w2) (fun a => 0 + 0 * a + (w1 / A + w2 / B) * a ^ 2 + 0 * a ^ 3 + 0 * a ^ 4)).
      + rewrite poly_sum, Ll, HA, HB. cbn [fpow]. change (@fnat K (S (S f))) with (1 + @fnat K (S f)). field. repeat split; try assumption; fnz.
      + intros a _. rewrite HA, HB. cbn [fpow]. field. repeat split; try assumption; fnz.
    - apply seq_length.
    - intros a b t _. reflexivity. }
  rewrite E. cbn [fpow]. ring.
Qed.

Lemma ev_solution2 f (q1 q2 q3 : K) e x : get_solution2 (S (S f)) q1 q2 q3 = Some e ->
  let l := map x (seq 0 (S (S f))) in let e2 := (PS 1 l ^ 2 - PS 2 l) / 2 in
  ev x e = q1 * PS 2 l ^ 2 + 2 * q2 * PS 2 l * e2 + q3 * e2 ^ 2.
Proof.
  unfold get_solution2. destruct (quadratic_weighting q1 (q2 * 2) q3) as [r|] eqn:E; [|discriminate].
  intro H. apply Some_inj in H. subst e. cbv zeta. set (l := map x (seq 0 (S (S f)))).
  pose proof (quadratic_weighting_value K q1 (q2 * 2) q3 (PS 2 l) ((PS 1 l ^ 2 - PS 2 l) / 2) r E) as Hv.
  transitivity (weighting_sum (fun w1 w2 => (w1 * PS 2 l + w2 * ((PS 1 l ^ 2 - PS 2 l) / 2)) * (w1 * PS 2 l + w2 * ((PS 1 l ^ 2 - PS 2 l) / 2))) r).
  - clear. unfold weighting_sum. induction r as [|[w [u v]] r IH]; [reflexivity|]. cbn [fold_right map fsum fst snd].
    rewrite <- IH. cbn [ev]. rewrite ev_quad_map. reflexivity.
  - rewrite Hv. cbn [fpow]. ring.
Qed.

(** *** Symmetric polynomials of degree four in power sums *)
Fixpoint mons (n d : nat) : list (list nat) :=
  match n with
  | O => match d with O => [[]] | _ => [] end
  | S n' => flat_map (fun e => map (cons e) (mons n' (d - e))) (seq 0 (S d))
  end.
Lemma mons_in n : forall d m, In m (mons n d) <-> length m = n /\ list_sum m = d.
Proof.
  induction n as [|n IH]; intros d m.
  - destruct d as [|d]; cbn [mons In].
    + split; [intros [<-|[]]; split; reflexivity|]. intros [H _]. destruct m; [left; reflexivity|discriminate].
    + split; [intros []|]. intros [H H']. destruct m; [discriminate|discriminate].
  - cbn [mons]. rewrite in_flat_map. split.
    + intros [e [He H]]. apply in_map_iff in H. destruct H as [m' [<- H]]. apply IH in H. apply in_seq in He. cbn [length].
      change (list_sum (e :: m')) with (e + list_sum m')%nat. lia.
    + intros [H H']. destruct m as [|e m]; [discriminate|]. change (list_sum (e :: m)) with (e + list_sum m)%nat in H'.
      exists e. split; [apply in_seq; lia|]. apply in_map. apply IH. cbn in H. lia.
Qed.
Lemma mons_NoDup n : forall d, NoDup (mons n d).
Proof.
  induction n as [|n IH]; intro d; [destruct d; repeat constructor; intros []|]. cbn [mons].
  assert (G : forall s, NoDup s -> NoDup (flat_map (fun e => map (cons e) (mons n (d - e))) s)).
  { induction s as [|e s IHs]; intro H; [constructor|]. inversion H; subst. cbn [flat_map]. apply NoDup_app_intro.
    - apply FinFun.Injective_map_NoDup; [intros u v E; congruence|apply IH].
    - apply IHs; assumption.
    - intros t Ht Ht'. apply in_map_iff in Ht. destruct Ht as [t1 [<- _]]. apply in_flat_map in Ht'. destruct Ht' as [e' [H1' H2']].
      apply in_map_iff in H2'. destruct H2' as [t2 [E _]]. injection E as -> _. contradiction. }
  apply G, seq_NoDup.
Qed.

(** non-zero exponents in decreasing order *)
Fixpoint insd (e : nat) (l : list nat) : list nat :=
  match l with [] => [e] | a :: l' => if Nat.leb a e then e :: l else a :: insd e l' end.
Definition ins0 (e : nat) (l : list nat) : list nat := match e with O => l | _ => insd e l end.
Definition shape (m : list nat) : list nat := fold_right ins0 [] m.

Lemma insd_perm e l : Permutation (insd e l) (e :: l).
Proof.
  induction l as [|a l IH]; [apply Permutation_refl|]. cbn [insd]. destruct (Nat.leb a e); [apply Permutation_refl|].
  eapply perm_trans; [apply perm_skip, IH|apply perm_swap].
Qed.
Lemma shape_perm m : exists k, Permutation m (shape m ++ repeat 0%nat k) /\ (k + length (shape m) = length m)%nat.
Proof.
  induction m as [|e m [k [IH Hk]]]; [exists 0%nat; split; [apply perm_nil|reflexivity]|]. cbn [shape fold_right length]. fold (shape m).
  destruct e as [|e]; cbn [ins0].
  - exists (S k). split; [|lia]. cbn [repeat]. eapply perm_trans; [apply perm_skip, IH|]. apply Permutation_middle.
  - exists k. pose proof (insd_perm (S e) (shape m)) as P. split.
    + eapply perm_trans; [apply perm_skip, IH|]. rewrite app_comm_cons. apply Permutation_app_tail, Permutation_sym, P.
    + apply Permutation_length in P. rewrite P. cbn. lia.
Qed.
Lemma pad_shape m n : length m = n -> Permutation m (pad n (shape m)).
Proof.
  intro H. destruct (shape_perm m) as [k [P E]]. unfold pad. replace (n - length (shape m))%nat with k by lia. exact P.
Qed.

Definition SS (d : nat) (c : list nat -> K) x n : K := fsum (map (fun m => c (shape m) * meval x m) (mons n d)).
Lemma SS_step d c x n : SS d c x (S n) =
  fsum (map (fun e => x 0%nat ^ e * SS (d - e) (fun s => c (ins0 e s)) (fun i => x (S i)) n) (seq 0 (S d))).
Proof.
  unfold SS. cbn [mons]. induction (seq 0 (S d)) as [|e l IH]; [reflexivity|]. cbn [flat_map map fsum]. rewrite map_app, fsum_app, IH.
  f_equal. rewrite map_map, <- fsum_map_mul_l. apply fsum_map_ext. intros m _. rewrite meval_cons. cbn [shape fold_right].
  fold (shape m). ring.
Qed.
Definition ps (k : nat) x n : K := bsum n (fun i => x i ^ k).
Lemma ps_S k x n : ps k x (S n) = x 0%nat ^ k + ps k (fun i => x (S i)) n.
Proof. apply bsum_Sl. Qed.
Lemma ps_0 k x : ps k x 0 = 0. Proof. reflexivity. Qed.
Lemma ps_PS k x n : ps k x n = PS k (map x (seq 0 n)).
Proof. unfold ps, PS. rewrite bsum_fsum, map_map. reflexivity. Qed.

Lemma SS0 n : forall c x, SS 0 c x n = c [].
Proof.
  induction n as [|n IH]; intros c x.
  - unfold SS. cbn [mons map fsum]. rewrite meval_nil. change (shape []) with (@nil nat). ring.
  - rewrite SS_step. cbn [seq map fsum Nat.sub]. rewrite IH. cbn [ins0 fpow]. ring.
Qed.
Ltac ssz := unfold SS; cbn [mons map fsum]; rewrite ?ps_0.
Lemma SS1 n : forall c x, SS 1 c x n = c [1%nat] * ps 1 x n.
Proof.
  induction n as [|n IH]; intros c x; [ssz; ring|].
  rewrite SS_step. cbn [seq map fsum Nat.sub]. rewrite IH, SS0, ps_S. cbn [ins0 insd Nat.leb fpow]. ring.
Qed.
Lemma SS2 n : forall c x, SS 2 c x n = c [2%nat] * ps 2 x n + c [1;1]%nat * ((ps 1 x n ^ 2 - ps 2 x n) / 2).
Proof.
  induction n as [|n IH]; intros c x; [ssz; cbn [fpow]; field; fnz|].
  rewrite SS_step. cbn [seq map fsum Nat.sub]. rewrite IH, SS1, SS0, !ps_S. cbn [ins0 insd Nat.leb fpow]. field; fnz.
Qed.
Lemma SS3 n : forall c x, SS 3 c x n = c [3%nat] * ps 3 x n + c [2;1]%nat * (ps 2 x n * ps 1 x n - ps 3 x n)
  + c [1;1;1]%nat * ((ps 1 x n ^ 3 - 3 * ps 1 x n * ps 2 x n + 2 * ps 3 x n) / (2 * 3)).
Proof.
  induction n as [|n IH]; intros c x; [ssz; cbn [fpow]; field; fnz|].
  rewrite SS_step. cbn [seq map fsum Nat.sub]. rewrite IH, SS2, SS1, SS0, !ps_S. cbn [ins0 insd Nat.leb fpow]. field; fnz.
Qed.
Lemma SS4 n : forall c x, SS 4 c x n = c [4%nat] * ps 4 x n + c [3;1]%nat * (ps 3 x n * ps 1 x n - ps 4 x n)
  + c [2;2]%nat * ((ps 2 x n ^ 2 - ps 4 x n) / 2)
  + c [2;1;1]%nat * ((ps 2 x n * ps 1 x n ^ 2 - 2 * ps 3 x n * ps 1 x n - ps 2 x n ^ 2 + 2 * ps 4 x n) / 2)
  + c [1;1;1;1]%nat * ((ps 1 x n ^ 4 - 2 * 3 * ps 1 x n ^ 2 * ps 2 x n + 3 * ps 2 x n ^ 2 + 2 * 4 * ps 1 x n * ps 3 x n - 2 * 3 * ps 4 x n) / (2 * 3 * 4)).
Proof.
  induction n as [|n IH]; intros c x; [ssz; cbn [fpow]; field; fnz|].
  rewrite SS_step. cbn [seq map fsum Nat.sub]. rewrite IH, SS3, SS2, SS1, SS0, !ps_S. cbn [ins0 insd Nat.leb fpow]. field; fnz.
Qed.

(** the polynomial does not change when its variables are permuted *)
Definition symmetric_poly n p : Prop := forall m m', length m = n -> Permutation m m' -> coef p m = coef p m'.
Lemma symmetric_quartic_value n p x : wf n p -> (forall m, In m (keys p) -> list_sum m = 4%nat) -> symmetric_poly n p ->
  let c l := coef p (pad n l) in
  peval x p = c [4]%nat * ps 4 x n + c [3;1]%nat * (ps 3 x n * ps 1 x n - ps 4 x n)
  + c [2;2]%nat * ((ps 2 x n ^ 2 - ps 4 x n) / 2)
  + c [2;1;1]%nat * ((ps 2 x n * ps 1 x n ^ 2 - 2 * ps 3 x n * ps 1 x n - ps 2 x n ^ 2 + 2 * ps 4 x n) / 2)
  + c [1;1;1;1]%nat * ((ps 1 x n ^ 4 - 2 * 3 * ps 1 x n ^ 2 * ps 2 x n + 3 * ps 2 x n ^ 2 + 2 * 4 * ps 1 x n * ps 3 x n - 2 * 3 * ps 4 x n) / (2 * 3 * 4)).
Proof.
  intros [Hnd Hlen] Hh Hs. cbv zeta. refine (eq_trans _ (SS4 n (fun l => coef p (pad n l)) x)). unfold SS.
  rewrite (peval_over K x p (mons n 4) Hnd (mons_NoDup n 4)).
  - apply fsum_map_ext. intros m Hm. apply mons_in in Hm. destruct Hm as [Hm _]. f_equal. apply Hs; [exact Hm|]. apply pad_shape, Hm.
  - intros m Hm. apply mons_in. split; [apply Hlen, Hm|apply Hh, Hm].
Qed.

(** *** The test of symmetry *)
Lemma sym_of_rot_swap (F : list nat -> K) n :
  (forall a l, length (a :: l) = n -> F (l ++ [a]) = F (a :: l)) ->
  (forall a b l, length (a :: b :: l) = n -> F (b :: a :: l) = F (a :: b :: l)) ->
  forall m m', length m = n -> Permutation m m' -> F m = F m'.
Proof.
  intros Hr Hs.
  assert (R : forall l1 l2, length (l1 ++ l2) = n -> F (l2 ++ l1) = F (l1 ++ l2)).
  { induction l1 as [|a l1 IH]; intros l2 H; [rewrite app_nil_r; reflexivity|].
    change ((a :: l1) ++ l2) with (a :: (l1 ++ l2)). rewrite <- (Hr a (l1 ++ l2)) by exact H. rewrite <- app_assoc.
    rewrite <- (IH (l2 ++ [a])); [rewrite <- app_assoc; reflexivity|]. rewrite !app_length in *. cbn [length] in *. lia. }
  assert (G : forall m m', Permutation m m' -> forall l1, length (l1 ++ m) = n -> F (l1 ++ m) = F (l1 ++ m')).
  { intros m m' P. induction P as [|a m m' P IH|a b m|m1 m2 m3 P1 IH1 P2 IH2]; intros l1 H.
    - reflexivity.
    - change (l1 ++ a :: m) with (l1 ++ ([a] ++ m)). change (l1 ++ a :: m') with (l1 ++ ([a] ++ m')). rewrite !app_assoc. apply IH.
      rewrite <- app_assoc. exact H.
    - rewrite <- (R l1 (b :: a :: m)) by exact H. rewrite <- (R l1 (a :: b :: m)) by (rewrite app_length in *; cbn [length] in *; exact H).
      cbn [app]. symmetry. apply Hs. cbn [length]. rewrite !app_length in *. cbn [length] in H. lia.
    - rewrite (IH1 l1 H). apply IH2. rewrite app_length in *. apply Permutation_length in P1. lia. }
  intros m m' H P. exact (G m m' P [] H).
Qed.

Lemma map_nth_tail (a : nat) l k : map (fun i => nth i (a :: l) 0%nat) (seq (S k) (length l - k)) = skipn k l.
Proof.
  rewrite <- seq_shift, map_map. change (map (fun i => nth (S i) (a :: l) 0%nat) (seq k (length l - k))) with (map (fun i => nth i l 0%nat) (seq k (length l - k))).
  revert k. induction l as [|b l IH]; intro k; [destruct k; reflexivity|]. destruct k as [|k].
  - cbn [length Nat.sub seq map nth skipn]. f_equal. rewrite <- seq_shift, map_map. specialize (IH 0%nat). cbn [skipn] in IH.
    rewrite Nat.sub_0_r in IH. exact IH.
  - cbn [length Nat.sub skipn]. rewrite <- seq_shift, map_map. apply IH.
Qed.
Lemma sym_gens_perm n : (2 <= n)%nat -> forall g, In g (sym_gens n) -> is_perm n g.
Proof.
  intros Hn g [<-|[<-|[]]].
  - unfold is_perm. destruct n as [|n]; [lia|]. cbn [Nat.sub]. rewrite Nat.sub_0_r. cbn [seq].
    apply Permutation_sym, Permutation_cons_append.
  - unfold is_perm. destruct n as [|[|n]]; try lia. cbn [Nat.sub seq]. rewrite Nat.sub_0_r. apply perm_swap.
Qed.
Lemma coef_inv_symmetric n p : (2 <= n)%nat -> (forall g, In g (sym_gens n) -> coef_inv K n g p) -> symmetric_poly n p.
Proof.
  intros Hn H. unfold symmetric_poly. apply sym_of_rot_swap.
  - intros a l Hl. rewrite <- (H (seq 1 (n - 1) ++ [0%nat]) (or_introl eq_refl) (a :: l) Hl). f_equal.
    unfold act. rewrite map_app. cbn [map nth]. cbn [length] in Hl. f_equal. subst n. pose proof (map_nth_tail a l 0) as E.
    rewrite Nat.sub_0_r in E. cbn [skipn] in E. replace (S (length l) - 1)%nat with (length l) by lia. symmetry. exact E.
  - intros a b l Hl. rewrite <- (H (1 :: 0 :: seq 2 (n - 2))%nat (or_intror (or_introl eq_refl)) (a :: b :: l) Hl). f_equal.
    unfold act. cbn [map nth]. do 2 f_equal. cbn [length] in Hl. subst n. pose proof (map_nth_tail a (b :: l) 1) as E.
    cbn [length skipn] in E. replace (S (S (length l)) - 2)%nat with (S (length l) - 1)%nat by lia. symmetry. exact E.
Qed.
Lemma is_symmetric_poly n p : wf n p -> (2 <= n)%nat -> is_cyclic n (sym_gens n) p = true -> symmetric_poly n p.
Proof.
  intros Hw Hn H. apply (coef_inv_symmetric n p Hn). intros g Hg.
  pose proof (sym_gens_perm n Hn g Hg) as Hp. refine (proj1 (rename_invariant_iff K n g p Hp Hw) _).
  apply (proj1 (is_cyclic_spec K n (sym_gens n) p Hw (sym_gens_perm n Hn)) H). apply gen_in, Hg.
Qed.

(** *** The identity *)
Lemma param_identity n (c4 c3 c22 c21 c1 q1 q3 u P1 P2 P3 P4 : K) : (4 <= n)%nat ->
  let N := fnat n in let m := nv_m n in let xx := nv_x n c4 q1 in let y := nv_y n c4 c22 q1 q3 u in
  let v := nv_v n c1 q3 in let r := nv_r n c4 c3 c22 c21 c1 q1 q3 u in let q2 := nv_q2 n c4 c3 c22 c21 c1 q1 q3 in
  let al := xx - 2 * r - u + 2 * v in let be := 2 * y - 4 * r + 2 * v in
  let ga := 2 * r * P1 - 2 * v * P1 in let de := u * P2 + v * P1 ^ 2 - v * P2 in
  let e2 := (P1 ^ 2 - P2) / 2 in
  m * (2 * al * N * P4 + 2 * (be - 2 * al) * P3 * P1 + (2 * al - 2 * be) * P2 ^ 2
       + 2 * ga * N * P3 - 2 * ga * P1 * P2 + 2 * de * N * P2 - 2 * de * P1 ^ 2)
  + (q1 * P2 ^ 2 + 2 * q2 * P2 * e2 + q3 * e2 ^ 2)
  = c4 * P4 + c3 * (P3 * P1 - P4) + c22 * ((P2 ^ 2 - P4) / 2)
  + c21 * ((P2 * P1 ^ 2 - 2 * P3 * P1 - P2 ^ 2 + 2 * P4) / 2)
  + c1 * ((P1 ^ 4 - 2 * 3 * P1 ^ 2 * P2 + 3 * P2 ^ 2 + 2 * 4 * P1 * P3 - 2 * 3 * P4) / (2 * 3 * 4)).
Proof.
  intro Hn. destruct n as [|[|[|n]]]; try lia. cbv zeta.
  assert (Hm : @nv_m K (S (S (S n))) <> 0) by (unfold nv_m; apply fnat_neq0; pose proof (lt_O_fact (S (S (S n)) - 2)); lia).
  assert (H1 : @fnat K (S (S n)) <> 0) by (apply fnat_neq0; lia).
  assert (H2 : @fnat K (S n) <> 0) by (apply fnat_neq0; lia).
  assert (H3 : @fnat K (S (S (S n))) <> 0) by (apply fnat_neq0; lia).
  unfold nv_r, nv_cr, nv_q2, nv_cq, nv_y, nv_cy, nv_x, nv_v.
  set (m := nv_m (S (S (S n)))) in *. cbn [fnat] in *. set (t := fnat n) in *. cbn [fpow].
  clearbody m t. clear Hn. field. repeat split; try assumption; try fnz.
  - intro C. apply H1. rewrite <- C. ring.
  - intro C. apply H2. rewrite <- C. ring.
Qed.

Lemma line_defined n (row : list K) x : defined x (line n row).
Proof. unfold line. induction (seq 0 n) as [|j l IH]; cbn [fold_right defined]; tauto. Qed.
Lemma squares_defined n (U : list (list K)) Sv x : defined x (squares n U Sv).
Proof. unfold squares. induction (seq 0 n) as [|j l IH]; cbn [fold_right defined]; [tauto|]. pose proof (line_defined n (nth j U []) x). tauto. Qed.
Lemma squares_manifest n (U : list (list K)) Sv : (forall i, (i < n)%nat -> 0 <= vget Sv i) -> manifest false (squares n U Sv) = true.
Proof.
  intro H. unfold squares.
  assert (G : forall i, In i (seq 0 n) -> 0 <= vget Sv i) by (intros i Hi; apply H; apply in_seq in Hi; lia). clear H.
  induction (seq 0 n) as [|j l IH]; cbn [fold_right manifest]; [apply fleb_le, fle_refl|].
  rewrite IH by (intros i Hi; apply G; right; exact Hi). rewrite (proj2 (fleb_le K _ _) (G j (or_introl eq_refl))). reflexivity.
Qed.
Lemma get_solution_good n (xx y u v r : K) e : get_solution n xx y u v r = Ok (Some e) ->
  manifest false e = true /\ forall x, defined x e.
Proof.
  unfold get_solution. destruct (congruence _) as [[[U Sv]|]|] eqn:E; try discriminate. intro H. apply Ok_inj, Some_inj in H. subst e.
  assert (Hs := create_quad_sym n xx y u v r). rewrite <- (create_quad_length n xx y u v r) in Hs at 1.
  destruct (congruence_sound_lemma K _ U Sv Hs E) as [_ [_ [_ [Hp _]]]]. rewrite create_quad_length in Hp. split.
  - apply manifest_symsum. cbn [manifest Nat.even orb andb]. apply squares_manifest, Hp.
  - intro x. apply defined_symsum. intro z. cbn [defined]. pose proof (squares_defined n U Sv z). tauto.
Qed.
Lemma get_solution_total n (xx y u v r : K) : (0 < n)%nat -> exists o, get_solution n xx y u v r = Ok o.
Proof.
  intro Hn. unfold get_solution. rewrite (congruence_nonempty K (create_quad n xx y u v r)).
  2: { intro C. apply (f_equal (@length _)) in C. rewrite create_quad_length in C. cbn in C. lia. }
  destruct (cong_loop _ _) as [[U Sv]|]; eexists; reflexivity.
Qed.
Lemma get_solution2_good n (q1 q2 q3 : K) e : (2 <= n)%nat -> get_solution2 n q1 q2 q3 = Some e ->
  manifest false e = true /\ forall x, defined x e.
Proof.
  intro Hn. unfold get_solution2. destruct (quadratic_weighting _ _ _) as [r|] eqn:E; [|discriminate]. intro H. apply Some_inj in H. subst e.
  pose proof (quadratic_weighting_weights K _ _ _ r E) as Hw. clear E.
  assert (Hm : @nv_m K n <> 0) by (unfold nv_m; apply fnat_neq0; pose proof (lt_O_fact (n - 2)); lia).
  assert (HN : @fnat K n - 1 <> 0).
  { destruct n as [|n]; [lia|]. intro C. apply (fnat_neq0 K n); [lia|]. rewrite <- C. cbn [fnat]. ring. }
  induction r as [|[w [w1 w2]] r IH]; cbn [fold_right manifest defined fst snd].
  - split; [apply fleb_le, fle_refl|tauto].
  - destruct (IH (fun w' xy Hin => Hw w' xy (or_intror Hin))) as [IH1 IH2]. split.
    + rewrite IH1. rewrite (proj2 (fleb_le K _ _) (Hw w (w1, w2) (or_introl eq_refl))). unfold quad_map. reflexivity.
    + intro x. split; [|apply IH2]. split; [exact I|]. unfold quad_map. cbn [defined]. apply defined_symsum. intro z.
      cbn [defined ev]. repeat split; apply fmul_neq0; try assumption. fnz.
Qed.

(** *** The solver *)
Lemma nv_loop_good n (c4 c3 c22 c21 c1 : K) region ks e : (4 <= n)%nat ->
  nv_loop n c4 c3 c22 c21 c1 region ks = Ok (Some e) ->
  manifest false e = true /\ forall x, defined x e /\
  ev x e = c4 * ps 4 x n + c3 * (ps 3 x n * ps 1 x n - ps 4 x n)
  + c22 * ((ps 2 x n ^ 2 - ps 4 x n) / 2)
  + c21 * ((ps 2 x n * ps 1 x n ^ 2 - 2 * ps 3 x n * ps 1 x n - ps 2 x n ^ 2 + 2 * ps 4 x n) / 2)
  + c1 * ((ps 1 x n ^ 4 - 2 * 3 * ps 1 x n ^ 2 * ps 2 x n + 3 * ps 2 x n ^ 2 + 2 * 4 * ps 1 x n * ps 3 x n - 2 * 3 * ps 4 x n) / (2 * 3 * 4)).
Proof.
  intro Hn. induction ks as [|k ks IH]; [discriminate|]. cbn [nv_loop].
  destruct (region k) as [[q1 q3]|]; [|exact IH]. cbv zeta.
  set (u := nth k (nv_us n c4 c3 c22 c21 c1 q1 q3) 0). clearbody u.
  destruct (get_solution n _ _ _ _ _) as [[s1|]|] eqn:E1; [|exact IH|discriminate].
  destruct (get_solution2 n q1 _ q3) as [s2|] eqn:E2; [|exact IH]. intro H. apply Ok_inj, Some_inj in H. subst e.
  destruct (get_solution_good _ _ _ _ _ _ _ E1) as [M1 D1].
  destruct (get_solution2_good n _ _ _ _ ltac:(lia) E2) as [M2 D2].
  split; [cbn [manifest]; rewrite M1, M2; reflexivity|]. intro x. split; [split; [apply D1|apply D2]|].
  cbn [ev]. rewrite !ps_PS. rewrite <- (param_identity n c4 c3 c22 c21 c1 q1 q3 u) by exact Hn. cbv zeta.
  destruct n as [|[|f]]; try lia.
  rewrite (symmetric_part f _ _ _ _ _ s1 x E1), (ev_solution2 f _ _ _ s2 x E2).
  replace (@nv_m K (S (S f))) with (@fnat K (fact f)); [reflexivity|]. unfold nv_m. replace (S (S f) - 2)%nat with f by lia. reflexivity.
Qed.
Lemma nv_loop_total n (c4 c3 c22 c21 c1 : K) region ks : (0 < n)%nat -> exists o, nv_loop n c4 c3 c22 c21 c1 region ks = Ok o.
Proof.
  intro Hn. induction ks as [|k ks IH]; [eexists; reflexivity|]. cbn [nv_loop].
  destruct (region k) as [[q1 q3]|]; [|exact IH]. cbv zeta.
  destruct (get_solution_total n (nv_x n c4 q1) (nv_y n c4 c22 q1 q3 (nth k (nv_us n c4 c3 c22 c21 c1 q1 q3) 0))
     (nth k (nv_us n c4 c3 c22 c21 c1 q1 q3) 0) (nv_v n c1 q3) (nv_r n c4 c3 c22 c21 c1 q1 q3 (nth k (nv_us n c4 c3 c22 c21 c1 q1 q3) 0)) Hn) as [o ->].
  destruct o; [|exact IH]. destruct (get_solution2 _ _ _ _); [eexists; reflexivity|exact IH].
Qed.

Lemma nvars_lemma n p region e : wf n p -> (forall m, In m (keys p) -> list_sum m = 4%nat) ->
  nvars_quartic n p region = Ok (Some e) ->
  manifest false e = true /\ forall x, defined x e /\ ev x e = peval x p.
Proof.
  intros Hw Hh. unfold nvars_quartic. destruct (_ && _)%bool eqn:E; [|discriminate]. apply andb_true_iff in E. destruct E as [_ E].
  unfold nvars_sdp. destruct (Nat.leb_spec n 3); [discriminate|]. cbv zeta. intro H0.
  assert (Hs : symmetric_poly n p) by (apply is_symmetric_poly; [exact Hw|lia|exact E]).
  assert (H4 : (4 <= n)%nat) by lia. destruct (nv_loop_good n _ _ _ _ _ _ _ e H4 H0) as [M D]. split; [exact M|]. intro x. destruct (D x) as [D1 D2]. split; [exact D1|].
  rewrite D2. symmetry. apply (symmetric_quartic_value n p x Hw Hh Hs).
Qed.
Lemma nvars_nonneg_lemma n p region e : wf n p -> (forall m, In m (keys p) -> list_sum m = 4%nat) ->
  nvars_quartic n p region = Ok (Some e) -> forall x, 0 <= peval x p.
Proof.
  intros Hw Hh H x. destruct (nvars_lemma n p region e Hw Hh H) as [M D]. destruct (D x) as [D1 <-].
  apply (manifest_nonneg false); [discriminate|exact D1|exact M].
Qed.
Lemma nvars_total_lemma n p region : exists o, nvars_quartic n p region = Ok o.
Proof.
  unfold nvars_quartic. destruct (_ && _)%bool; [|eexists; reflexivity]. unfold nvars_sdp. destruct (Nat.leb_spec n 3); [eexists; reflexivity|].
  apply nv_loop_total. lia.
Qed.
End Facts.
