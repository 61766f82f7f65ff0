(** * C80: cyclic forms of degree 9 *)
From Coq Require Import Bool List Arith Lia ZArith QArith Qcanon Ring Field.
From Verif Require Import OrdField Base Congruence Perm Poly PolyId PolyOps Coeff Expr CertLimit TriPoly.
From Verif Require Sparse.
From Verif Require Import Septic SepticFacts Nonic NonicFacts NonicTree NonicMain NonicGram NonicGear NonicTop.
Import ListNotations.
Local Open Scope of_scope.

(** The hexagram: the answer for c33 s(a^3b^3) + c41 s(a^4bc) + c32 s(a^2b^2c(a+b)) + c222 a^2b^2c^2 is
    this form wherever it is defined, it is manifestly non-negative on the orthant and it is defined at
    every positive point with two different coordinates. *)
Theorem sextic_hexagram_exact : forall (K : OrdField) (den : K -> K) c33 c41 c32 c222 e,
  (forall t, 0 < den t) -> hexagram_symmetric den c33 c41 c32 c222 = Ok (Some e) ->
  manifest true e = true /\
  (forall A B C, defined (pt3 A B C) e -> ev (pt3 A B C) e =
     c33 * (A ^ 3 * B ^ 3 + B ^ 3 * C ^ 3 + C ^ 3 * A ^ 3) + c41 * (A ^ 4 * B * C + B ^ 4 * C * A + C ^ 4 * A * B)
     + c32 * (A ^ 2 * B ^ 2 * C * (A + B) + B ^ 2 * C ^ 2 * A * (B + C) + C ^ 2 * A ^ 2 * B * (C + A)) + c222 * (A * B * C) ^ 2) /\
  (forall A B C, 0 < A -> 0 < B -> 0 < C -> ~ (A = B /\ B = C) -> defined (pt3 A B C) e).
Proof. exact hexagram_spec. Qed.
Print Assumptions sextic_hexagram_exact.

(** The tree: the same for c6 s(a^6) + c33 s(a^3b^3) + c41 s(a^4bc) + c222 a^2b^2c^2. *)
Theorem sextic_tree_exact : forall (K : OrdField) (den : K -> K) c6 c33 c41 c222 e,
  (forall t, 0 < den t) -> sextic_tree den c6 c33 c41 c222 = Ok (Some e) ->
  manifest true e = true /\
  (forall A B C, defined (pt3 A B C) e -> ev (pt3 A B C) e =
     c6 * (A ^ 6 + B ^ 6 + C ^ 6) + c33 * (A ^ 3 * B ^ 3 + B ^ 3 * C ^ 3 + C ^ 3 * A ^ 3) + c41 * (A ^ 4 * B * C + B ^ 4 * C * A + C ^ 4 * A * B)
     + c222 * (A * B * C) ^ 2) /\
  (forall A B C, 0 < A -> 0 < B -> 0 < C -> ~ (A = B /\ B = C) -> defined (pt3 A B C) e).
Proof. exact tree_spec. Qed.
Print Assumptions sextic_tree_exact.

(** The hexagram raises exactly on c41 (s(a^4bc) - s(a^2b^2c(a+b))) + c222 a^2b^2c^2 with c222 < 3 c41. *)
Theorem sextic_hexagram_raises : forall (K : OrdField) (den : K -> K) c33 c41 c32 c222 (x : exn),
  hexagram_symmetric den c33 c41 c32 c222 = Err x <->
  x = TypeError /\ 0 < c41 /\ c33 = 0 /\ c32 = - c41 /\ c222 < fbin 3 * c41.
Proof. exact hexagram_raises. Qed.
Print Assumptions sextic_hexagram_raises.

(** The tree raises exactly on the forms that are non-negative at (1, 1, 1) and have either no a^6 and
    a negative coefficient, or the leading data of the form with a double root at t = 1. *)
Theorem sextic_tree_raises : forall (K : OrdField) (den : K -> K) c6 c33 c41 c222 (x : exn),
  sextic_tree den c6 c33 c41 c222 = Err x <->
  x = TypeError /\ 0 <= c222 + (c6 + c41 + c33) * fbin 3 /\
  (c6 = 0 /\ (c33 < 0 \/ c41 < 0) \/ 0 < c6 /\ c33 + c41 + fbin 4 * c6 = 0 /\ - fbin 2 * c6 <= c33 /\ c33 <> fbin 2 * c6).
Proof. exact tree_raises. Qed.
Print Assumptions sextic_tree_raises.

(** The contracts of the parts that are not modelled: a positive denominator, a content that is not
    zero and is positive for a manifestly non-negative expression, a solver of forms of lower degree
    or simpler shape whose answers are certificates, and rational roots that are roots. *)
Definition contracts (K : OrdField) (den : K -> K) (cont : ex K -> K) (rec : poly K -> res (option (ex K))) (roots : (K -> K) -> list (cand K)) : Prop :=
  (forall t, 0 < den t) /\
  (forall e, cont e <> 0 /\ (manifest true e = true -> 0 < cont e)) /\
  (forall p e, wf 3 p -> (exists d, homdeg d p) -> cyclic3 (cfp p) -> rec p = Ok (Some e) ->
     manifest true e = true /\ (forall A B C, defined (pt3 A B C) e -> ev (pt3 A B C) e = peval (pt3 A B C) p) /\
     forall A B C, 0 < A -> 0 < B -> 0 < C -> ~ (A = B /\ B = C) -> defined (pt3 A B C) e) /\
  (forall f t, In (CRat t) (roots f) -> f t = 0).

(** The solver, for the forms without a b^8 (see the refutation below): its answer has the values of
    the form. If there is no a^9, or the search for x tries and accepts only non-negative x, the
    answer is manifestly non-negative on the orthant and defined at every positive point with two
    different coordinates; if it accepts only x >= -1 the form is non-negative on the orthant. *)
Theorem nonic_exact_partial : forall (K : OrdField) den cont rec rsqrt roots is_rational (p : poly K) e,
  contracts K den cont rec roots -> wf 3 p -> homdeg 9 p -> cyclic3 (cfp p) -> coef p [1; 8; 0]%nat = 0 ->
  sos_struct_nonic den cont rec rsqrt roots is_rational p = Ok (Some e) ->
  (forall A B C, defined (pt3 A B C) e -> ev (pt3 A B C) e = peval (pt3 A B C) p) /\
  (coef p [9; 0; 0]%nat = 0 \/ (forall x, in_cands K x (roots (tree_eq (tree_w K p))) -> tree_accepts K p x = true -> 0 <= x) ->
   manifest true e = true /\ forall A B C, 0 < A -> 0 < B -> 0 < C -> ~ (A = B /\ B = C) -> defined (pt3 A B C) e) /\
  (coef p [9; 0; 0]%nat = 0 \/ (forall x, in_cands K x (roots (tree_eq (tree_w K p))) -> tree_accepts K p x = true -> - (1) <= x) ->
   forall A B C, 0 <= A -> 0 <= B -> 0 <= C -> 0 <= peval (pt3 A B C) p).
Proof.
  intros K den cont rec rsqrt roots rat p e (C1 & C2 & C3 & C4) W Hd Hc Z H.
  destruct (nonic_all K den cont rec rsqrt roots C1 C2 C3 C4 rat p e W Hd Hc Z H) as (V & F & N). split; [exact V|]. split; [|exact N].
  intro Q. destruct (F Q) as (M & _ & D). split; [exact M|exact D].
Qed.
Print Assumptions nonic_exact_partial.

(** ** Cases *)
Definition one (t : QcOF) : QcOF := 1.
Definition onee (e : ex QcOF) : QcOF := 1.
Definition norec (p : poly QcOF) : res (option (ex QcOF)) := Ok None.
Definition sq1 (t : QcOF) : option QcOF := if t =? 1 then Some 1 else None.
(** a root finder that knows the roots in a list *)
Definition roots_in (l : list QcOF) (f : QcOF -> QcOF) : list (cand QcOF) := map CRat (filter (fun t => f t =? 0) l).
Example contracts_case l : contracts QcOF one onee norec (roots_in l).
Proof.
  split; [intro t; apply (f1_pos QcOF)|]. split; [intro e; split; [apply (fneq10 QcOF)|intros _; apply (f1_pos QcOF)]|]. split; [intros p e _ _ _ H; discriminate H|].
  intros f t H. apply in_map_iff in H. destruct H as (t' & E & H). injection E as ->. apply filter_In in H. destruct H as [_ H]. apply feqb_eq, H.
Qed.
Lemma roots_in_list l f x : in_cands QcOF x (roots_in l f) -> In x l.
Proof.
  unfold in_cands, roots_in. intros [H|(ts & H & _)]; apply in_map_iff in H; destruct H as (y & E & H); [|discriminate E].
  assert (y = x) by congruence. subst y. apply filter_In in H. exact (proj1 H).
Qed.
Definition run l (p : poly QcOF) : res (option (ex QcOF)) := sos_struct_nonic one onee norec sq1 (roots_in l) true p.
Definition answers l p : bool := match run l p with Ok (Some _) => true | _ => false end.
Definition cm (k : QcOF) (i j l : nat) := (k, (i, j, l)).
(** examples of the docstrings: the tree s(a^9+3a^3b^3(a^3+b^3)-5a^7bc-4a^4b^4c+2p(a^3))
    and the gear s(a^6b^2c-a^5b^3c+a^5c^4-a^4b^3c^2); a hexagon *)
Definition tree_case := expr9 QcOF [cm 1 9 0 0; cm (q 3 1) 6 3 0; cm (q 3 1) 3 6 0; cm (- q 5 1) 7 1 1; cm (- q 4 1) 4 4 1] (q 6 1).
Definition gear_case := expr9 QcOF [cm 1 4 5 0; cm 1 6 2 1; cm (- (1)) 5 3 1; cm (- (1)) 4 3 2] 0.
Definition hexagon_case := expr9 QcOF [cm 1 6 3 0; cm 1 3 6 0; cm 1 5 3 1; cm 1 3 5 1; cm (- q 3 1) 4 4 1; cm (- (1)) 5 2 2] 0.
Example tree_answers : answers [2; - (1)] (expand tree_case) = true.
Proof. vm_compute. reflexivity. Qed.
Example gear_answers : answers [1] (expand gear_case) = true.
Proof. vm_compute. reflexivity. Qed.
Example hexagon_answers : answers [] (expand hexagon_case) = true.
Proof. vm_compute. reflexivity. Qed.
Example tree_case_ok : wf 3 (expand tree_case) /\ homdeg 9 (expand tree_case) /\ cyclic3 (cfp (expand tree_case)) /\ coef (expand tree_case) [1; 8; 0]%nat = 0.
Proof.
  unfold tree_case. match goal with |- context [expr9 QcOF ?l ?k] => destruct (expr9_ok QcOF l k eq_refl eq_refl) as (W & D & Cy) end.
  split; [exact W|]. split; [exact D|]. split; [exact Cy|]. apply feqb_eq. vm_compute. reflexivity.
Qed.
Example gear_case_ok : wf 3 (expand gear_case) /\ homdeg 9 (expand gear_case) /\ cyclic3 (cfp (expand gear_case)) /\ coef (expand gear_case) [1; 8; 0]%nat = 0 /\ coef (expand gear_case) [9; 0; 0]%nat = 0.
Proof.
  unfold gear_case. match goal with |- context [expr9 QcOF ?l ?k] => destruct (expr9_ok QcOF l k eq_refl eq_refl) as (W & D & Cy) end.
  split; [exact W|]. split; [exact D|]. split; [exact Cy|]. split; apply feqb_eq; vm_compute; reflexivity.
Qed.
Example tree_case_nonneg A B C : 0 <= A -> 0 <= B -> 0 <= C -> 0 <= peval (pt3 A B C) (expand tree_case).
Proof.
  pose proof tree_answers as X. unfold answers in X. destruct (run [2; - (1)] (expand tree_case)) as [[e|]|] eqn:E; [|discriminate X|discriminate X]. unfold run in E.
  destruct tree_case_ok as (W & D & Cy & Z).
  pose proof (nonic_exact_partial QcOF one onee norec sq1 (roots_in [2; - (1)]) true (expand tree_case) e (contracts_case _) W D Cy Z E) as (_ & _ & H). apply H. right.
  intros x Hx _. apply roots_in_list in Hx. destruct Hx as [<-|[<-|[]]]; apply fleb_le; vm_compute; reflexivity.
Qed.
Example gear_case_nonneg A B C : 0 <= A -> 0 <= B -> 0 <= C -> 0 <= peval (pt3 A B C) (expand gear_case).
Proof.
  pose proof gear_answers as X. unfold answers in X. destruct (run [1] (expand gear_case)) as [[e|]|] eqn:E; [|discriminate X|discriminate X]. unfold run in E.
  destruct gear_case_ok as (W & D & Cy & Z & Z').
  pose proof (nonic_exact_partial QcOF one onee norec sq1 (roots_in [1]) true (expand gear_case) e (contracts_case _) W D Cy Z E) as (_ & _ & H). apply H. left. exact Z'.
Qed.
Example hexagram_case : match hexagram_symmetric one 1 1 (- (1)) (q 0 1) with Ok (Some e) => manifest true e | _ => false end = true.
Proof. vm_compute. reflexivity. Qed.
Example hexagram_raises_case : hexagram_symmetric one 0 1 (- (1)) 0 = Err TypeError.
Proof. apply (sextic_hexagram_raises QcOF one). repeat split; try (apply feqb_eq; vm_compute; reflexivity); apply fltb_lt; vm_compute; reflexivity. Qed.
Example sextic_tree_case : match sextic_tree one 1 (- (1)) (- (1)) (q 3 1) with Ok (Some e) => manifest true e | _ => false end = true.
Proof. vm_compute. reflexivity. Qed.
Example tree_raises_case : sextic_tree one 1 (- (1)) (- q 3 1) (q 9 1) = Err TypeError.
Proof.
  apply (sextic_tree_raises QcOF one). split; [reflexivity|]. split; [apply fleb_le; vm_compute; reflexivity|]. right.
  split; [apply fltb_lt; vm_compute; reflexivity|]. split; [apply feqb_eq; vm_compute; reflexivity|]. split; [apply fleb_le; vm_compute; reflexivity|]. apply feqb_neq; vm_compute; reflexivity.
Qed.

(** ** Refutations *)
(** The dispatch does not test the coefficient of a b^8 before the hexagon, and the hexagon ignores
    it: s(a^6b^3 + a^3b^6 - ab^8), negative at (10, 1, 1), gets a manifestly non-negative answer. *)
Definition form180 := expr9 QcOF [cm 1 6 3 0; cm 1 3 6 0; cm (- (1)) 1 8 0] 0.
Lemma form180_ok : wf 3 (expand form180) /\ homdeg 9 (expand form180) /\ cyclic3 (cfp (expand form180)).
Proof.
  unfold form180. match goal with |- context [expr9 QcOF ?l ?k] => destruct (expr9_ok QcOF l k eq_refl eq_refl) as (W & D & Cy) end.
  split; [exact W|]. split; [exact D|exact Cy].
Qed.
Lemma form180_case : match run [] (expand form180) with
  | Ok (Some e) => manifest true e && Sparse.definedb (pt3 (q 10 1) 1 1) e && (peval (pt3 (q 10 1) 1 1) (expand form180) <? 0) | _ => false end = true.
Proof. vm_compute. reflexivity. Qed.
Theorem nonic_hexagon_refuted :
  exists (K : OrdField) den cont rec rsqrt roots (p : poly K) e A B C,
    contracts K den cont rec roots /\ wf 3 p /\ homdeg 9 p /\ cyclic3 (cfp p) /\
    sos_struct_nonic den cont rec rsqrt roots true p = Ok (Some e) /\
    0 < A /\ 0 < B /\ 0 < C /\ manifest true e = true /\ defined (pt3 A B C) e /\ peval (pt3 A B C) p < 0.
Proof.
  pose proof form180_case as X. destruct (run [] (expand form180)) as [[e|]|] eqn:E; [|discriminate X|discriminate X]. unfold run in E.
  apply andb_prop in X. destruct X as [X X3]. apply andb_prop in X. destruct X as [X1 X2].
  destruct form180_ok as (W & D & Cy).
  exists QcOF, one, onee, norec, sq1, (roots_in []), (expand form180), e, (q 10 1), 1, 1. split; [apply contracts_case|]. split; [exact W|]. split; [exact D|]. split; [exact Cy|]. split; [exact E|].
  split; [apply fltb_lt; vm_compute; reflexivity|]. split; [apply (f1_pos QcOF)|]. split; [apply (f1_pos QcOF)|]. split; [exact X1|]. split; [exact (Sparse.definedb_defined (pt3 (q 10 1) 1 1) e X2)|]. exact (proj1 (fltb_lt QcOF (peval (pt3 (q 10 1) 1 1) (expand form180)) 0) X3).
Qed.
Print Assumptions nonic_hexagon_refuted.

(** A rational root of -x^3+3x-1+w is accepted without the test x >= 1: for w = -1 the root x = -2
    gives the "proof" (1/4) s(a) s((a-b)^2) s(a^2-2bc) s((a-b)^2(a+b+2c)^2) of a form that is negative
    at (2, 1, 1). *)
Definition form_tree := expr9 QcOF [cm 1 9 0 0; cm (- (1)) 6 3 0; cm (- (1)) 3 6 0; cm (- q 21 1) 7 1 1; cm (- q 30 1) 4 4 1; cm (q 111 1) 5 2 2] (- q 177 1).
Lemma form_tree_ok : wf 3 (expand form_tree) /\ homdeg 9 (expand form_tree) /\ cyclic3 (cfp (expand form_tree)).
Proof.
  unfold form_tree. match goal with |- context [expr9 QcOF ?l ?k] => destruct (expr9_ok QcOF l k eq_refl eq_refl) as (W & D & Cy) end.
  split; [exact W|]. split; [exact D|exact Cy].
Qed.
Lemma form_tree_case : match run [- q 2 1; 1] (expand form_tree) with
  | Ok (Some e) => peval (pt3 (q 2 1) 1 1) (expand form_tree) <? 0 | _ => false end = true.
Proof. vm_compute. reflexivity. Qed.
Theorem nonic_tree_refuted :
  exists (K : OrdField) den cont rec rsqrt roots (p : poly K) e A B C,
    contracts K den cont rec roots /\ wf 3 p /\ homdeg 9 p /\ cyclic3 (cfp p) /\ coef p [1; 8; 0]%nat = 0 /\
    sos_struct_nonic den cont rec rsqrt roots true p = Ok (Some e) /\
    0 < A /\ 0 < B /\ 0 < C /\ peval (pt3 A B C) p < 0.
Proof.
  pose proof form_tree_case as X. destruct (run [- q 2 1; 1] (expand form_tree)) as [[e|]|] eqn:E; [|discriminate X|discriminate X]. unfold run in E.
  destruct form_tree_ok as (W & D & Cy).
  exists QcOF, one, onee, norec, sq1, (roots_in [- q 2 1; 1]), (expand form_tree), e, (q 2 1), 1, 1. split; [apply contracts_case|]. split; [exact W|]. split; [exact D|]. split; [exact Cy|].
  split; [apply feqb_eq; vm_compute; reflexivity|]. split; [exact E|]. split; [apply fltb_lt; vm_compute; reflexivity|]. split; [apply (f1_pos QcOF)|]. split; [apply (f1_pos QcOF)|]. exact (proj1 (fltb_lt QcOF (peval (pt3 (q 2 1) 1 1) (expand form_tree)) 0) X).
Qed.
Print Assumptions nonic_tree_refuted.
