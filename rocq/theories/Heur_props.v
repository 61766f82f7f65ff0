(** * C75: the heuristic method for sparse cyclic forms *)
From Coq Require Import Bool List Arith Lia ZArith QArith Qcanon.
From Verif Require Import OrdField Base Perm Poly PolyOps Coeff Expr CertLimit Univariate UnivariateLemmas AmgmMain DenseSymMain Schur Heur HeurSep HeurMain.
Import ListNotations.
Local Open Scope of_scope.

(** [good K D p e]: the expression [e] has the value of [p] at all points without a zero coordinate
    where it is defined, it is defined on [D], non-negative on the orthant, and so is [p]. *)
Example good_def (K : OrdField) D p e : good K D p e =
  ((forall A B C, A <> 0 -> B <> 0 -> C <> 0 -> defined (pt3 A B C) e -> ev (pt3 A B C) e = peval (pt3 A B C) p) /\
   (forall A B C, D A B C -> defined (pt3 A B C) e) /\
   (forall A B C, 0 <= A -> 0 <= B -> 0 <= C -> defined (pt3 A B C) e -> 0 <= ev (pt3 A B C) e) /\
   (forall A B C, 0 <= A -> 0 <= B -> 0 <= C -> 0 <= peval (pt3 A B C) p)).
Proof. reflexivity. Qed.

(** If the other solvers and the univariate solver give certificates, so does [sos_struct_heuristic],
    on every cyclic form without zero coefficients. [D] is any set of positive points that are not
    on the diagonal. Excluded: degree 7n with the monomial a^(5n) b^(2n), n >= 2.
    Full claim: the same without the exclusion, which is false by [heuristic_refuted]. *)
Theorem heuristic_exact_partial (K : OrdField) (D : K -> K -> K -> Prop) dense rec uni (p : poly K) d e :
  (forall A B C, D A B C -> 0 < A /\ 0 < B /\ 0 < C /\ ~ (A = B /\ B = C)) ->
  (forall f pq, uni f = Ok (Some pq) -> proves K pq f) ->
  (forall f x, wf 3 f -> homdeg d f -> (forall A B C, peval (pt3 A B C) f = peval (pt3 B C A) f) -> rec f = Ok (Some x) -> good K D f x) ->
  (forall f x, wf 3 f -> homdeg d f -> (forall A B C, peval (pt3 A B C) f = peval (pt3 B C A) f) -> dense f = Ok (Some x) -> good K D f x) ->
  wf 3 p -> homdeg d p -> is_cyclic 3 [[1; 2; 0]]%nat p = true -> (forall t, In t p -> snd t <> 0) ->
  ~ (exists n, (2 <= n)%nat /\ d = (7 * n)%nat /\ coef p [5 * n; 2 * n; 0]%nat <> 0) ->
  sos_struct_heuristic dense rec uni p = Ok (Some e) ->
  (forall A B C, A <> 0 -> B <> 0 -> C <> 0 -> defined (pt3 A B C) e -> ev (pt3 A B C) e = peval (pt3 A B C) p) /\
  (forall A B C, D A B C -> defined (pt3 A B C) e) /\
  (forall A B C, 0 <= A -> 0 <= B -> 0 <= C -> defined (pt3 A B C) e -> 0 <= ev (pt3 A B C) e) /\
  (forall A B C, 0 <= A -> 0 <= B -> 0 <= C -> 0 <= peval (pt3 A B C) p).
Proof.
  exact (fun HD U R Dn W Hd Hc Nz Ex H =>
    heuristic_good K D HD dense rec uni U p d W Hd (is_cyclic_poly K p W Hc) Nz R Ex e Dn H).
Qed.
Print Assumptions heuristic_exact_partial.

(** [rec0] answers only the zero polynomial; [none0] never answers *)
Example rec0_good D d : forall f x, wf 3 f -> homdeg d f -> (forall A B C, peval (pt3 A B C) f = peval (pt3 B C A) f) -> rec0 f = Ok (Some x) -> good QcOF D f x.
Proof.
  intros [|t f] x _ _ _ H; [|discriminate]. injection H as <-. rewrite good_def. cbn [ev defined].
  repeat split; intros; reflexivity || apply fle_refl.
Qed.
Definition answered (r : res (option (ex QcOF))) : bool := match r with Ok (Some _) => true | _ => false end.
(** the hexagon of P(4,2,3,1), of degree 10, is found *)
Example heuristic_case : let p := pnrms_coeff 4 2 3 1 (1 : QcOF) in
  is_cyclic 3 [[1; 2; 0]]%nat p = true /\ forallb (fun t => negb (snd t =? 0)) p = true /\
  answered (sos_struct_heuristic none0 rec0 none0 p) = true.
Proof. vm_compute. repeat split. Qed.
(** so are H(2,1,3) and H(-2,3,1) *)
Example heuristic_case_h : answered (sos_struct_heuristic none0 rec0 none0 (hnmr_coeff 2 1 3 (1 : QcOF))) = true /\
  answered (sos_struct_heuristic none0 rec0 none0 (hnmr_coeff (- 2) 3 1 (1 : QcOF))) = true.
Proof. vm_compute. split; reflexivity. Qed.
(** a form with all coefficients on the border, of degree 8: s(ab(a-b)^2(a^4+b^4)) *)
Definition on_border : poly QcOF :=
  flat_map (fun t => match t with (j, v) => [([0; j; 8 - j]%nat, v); ([j; 8 - j; 0]%nat, v); ([8 - j; 0; j]%nat, v)] end)
    [(7%nat, q 1 1); (6%nat, q (-2) 1); (5%nat, q 1 1); (3%nat, q 1 1); (2%nat, q (-2) 1); (1%nat, q 1 1)].
Definition uni0 (f : list QcOF) : res (option (wsos QcOF * wsos QcOF)) :=
  if forallb (fun t => fst t =? snd t) (combine f [q 0 1; q 1 1; q (-2) 1; q 1 1; q 0 1; q 1 1; q (-2) 1; q 1 1; q 0 1])
  then Ok (Some ([], [(q 1 1, [q 1 1; q (-1) 1]); (q 1 1, [q 0 1; q 0 1; q 1 1; q (-1) 1])])) else Ok None.
Example heuristic_case_border : is_cyclic 3 [[1; 2; 0]]%nat on_border = true /\ answered (sos_struct_heuristic none0 none0 uni0 on_border) = true.
Proof. vm_compute. split; reflexivity. Qed.

(** In the excluded case the answer can be wrong: for p = H(2,4,4), of degree 14, and a recursion
    that solves only the zero polynomial, the answer differs from p at (2, 1, 1). *)
Theorem heuristic_refuted : exists e : ex QcOF,
  sos_struct_heuristic none0 rec0 none0 (hnmr_coeff 2 4 4 1) = Ok (Some e) /\
  defined (pt3 2 1 1) e /\ ev (pt3 2 1 1) e <> peval (pt3 2 1 1) (hnmr_coeff 2 4 4 1).
Proof. exact heuristic_wrong. Qed.
Print Assumptions heuristic_refuted.

(** [sos_struct_heuristic] raises no exception of its own: the two borders are never empty. *)
Theorem heuristic_never_raises (K : OrdField) dense rec uni (p : poly K) : (forall t, In t p -> snd t <> 0) ->
  (forall f, exists o, dense f = Ok o) -> (forall f, exists o, rec f = Ok o) -> (forall f, exists o, uni f = Ok o) ->
  exists o, sos_struct_heuristic dense rec uni p = Ok o.
Proof. exact (heuristic_total K dense rec uni p). Qed.
Print Assumptions heuristic_never_raises.
Example never_raises_case : (forall t, In t (pnrms_coeff 4 2 3 1 (1 : QcOF)) -> snd t <> 0) /\ (forall f, exists o, rec0 f = Ok o).
Proof.
  split; [|intros [|]; eexists; reflexivity].
  intros t Ht. assert (B : forallb (fun t => negb (snd t =? 0)) (pnrms_coeff 4 2 3 1 (1 : QcOF)) = true) by (vm_compute; reflexivity).
  rewrite forallb_forall in B. specialize (B t Ht). apply negb_true_iff, feqb_neq in B. exact B.
Qed.

(** [_separate_product_wrapper]: the product abc taken out of a sum is given back to each term; the
    value is unchanged wherever abc <> 0 and the expression is defined. *)
Theorem separate_product_exact (K : OrdField) (env : nat -> K) (x : sexpr) :
  env 0%nat * env 1%nat * env 2%nat <> 0 -> sdef env x -> sval env (separate x) = sval env x /\ sdef env (separate x).
Proof. exact (separate_value K env x). Qed.
Print Assumptions separate_product_exact.
Example separate_case : separate (SMul [SCyc 2; SAdd [SMul [SCyc (-1); SOther (fun env => env 0%nat : QcOF)]; SPow (SCyc 1) 3]]) =
  SAdd [SMul [SCyc 1; SOther (fun env => env 0%nat)]; SCyc 5].
Proof. reflexivity. Qed.
