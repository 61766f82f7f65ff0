(** * C72: the null spaces of roots keep every certificate *)
From Coq Require Import Bool List Arith Lia ZArith QArith Qcanon Ring Field.
From Verif Require Import OrdField Base Congruence LinSolve LinSep Perm Poly PolyId PolyOps Partitions Shared Monomials MonomialsLemmas Coeff ClearSym SdpSos SdpSosFacts SdpSosCert SdpSosGroups SdpSosExact SdpTransform Manifold ManifoldSets ManifoldTaylor ManifoldMain ManifoldFacts.
Import ListNotations.
Local Open Scope of_scope.

(** Every vector of the null space of a constraint is annihilated by the Gram matrix of that constraint, in every
    certificate of [f].  The roots are roots of [f]; where derivatives of [f] are used, the constraints must still hold
    when a coordinate of the root grows a little ([good_root]). *)
Theorem root_nullspaces_sound (K : OrdField) n G (f : poly K) ineqs eqs Ms roots gs l :
  is_group n G -> wf n f -> symm K G f -> (forall g, In g (ineqs ++ eqs) -> wf n g) ->
  gram_blocks n (total_degree f) ineqs Ms -> gram_certificate n G f eqs Ms ->
  (forall r, In r roots -> good_root K n G f ineqs eqs r) ->
  nullspaces n G f roots gs ineqs eqs = Ok l ->
  map fst l = gs /\
  forall gM S, In gM Ms -> fst gM <> [] -> (forall t, In t (fst gM) -> snd t <> 0) -> In (fst gM, S) l -> forall w, In w S ->
    length w = length (gram_vec n (total_degree f) (fst gM)) /\ mat_kills (length (gram_vec n (total_degree f) (fst gM))) (snd gM) (vget w).
Proof. intros HG Wf Sf Hw HM HI. exact (nullspaces_kill K n G HG f Wf Sf ineqs eqs Hw Ms HM HI gs roots l). Qed.
Print Assumptions root_nullspaces_sound.

(** The binary roots satisfy the condition when the constraints are monomials, so that nothing is asked of them. *)
Theorem binary_nullspaces_keep_certificates (K : OrdField) n G (f : poly K) ineqs Ms gs l :
  is_group n G -> wf n f -> symm K G f -> (forall g, In g ineqs -> wf n g) -> monomial_constraints K ineqs ->
  gram_blocks n (total_degree f) ineqs Ms -> gram_certificate n G f [] Ms ->
  nullspaces n G f (findroot_binary n G f) gs ineqs [] = Ok l ->
  forall gM S w, In gM Ms -> In (fst gM, S) l -> In w S ->
    length w = length (gram_vec n (total_degree f) (fst gM)) /\ mat_kills (length (gram_vec n (total_degree f) (fst gM))) (snd gM) (vget w).
Proof.
  intros HG Wf Sf Hw Hm HM HI H gM T w I J Hin.
  assert (Hw' : forall g, In g (ineqs ++ []) -> wf n g) by (rewrite app_nil_r; exact Hw).
  destruct (nullspaces_kill K n G HG f Wf Sf ineqs [] Hw' Ms HM HI gs (findroot_binary n G f) l) as [_ Q]; [|exact H|].
  - intros r Hr. destruct (findroot_binary_in K n G HG f r Wf Sf Hr) as (_ & Lr & Zr & Br & _). split; [exact Lr|]. split; [exact Zr|].
    intros _ _ p i Hp Hi _ _. pose proof (is_perm_length n p (g_perm n G HG p Hp)) as Lp.
    apply (orthant_inward K n G HG); try assumption; [rewrite act_length; exact Lp|].
    intros a Ha. unfold act in Ha. apply in_map_iff in Ha. destruct Ha as (k & <- & Hk). apply (Permutation.Permutation_in _ (g_perm n G HG p Hp)) in Hk. apply in_seq in Hk.
    destruct (Br (nth k (coords r) 0)) as [E|E]; [apply nth_In; lia|rewrite E; apply fle_refl|rewrite E; apply f1_nonneg].
  - destruct (HM gM I) as (Ig & _). destruct (Hm _ Ig) as (m & c & E & Hc). apply (Q gM T I) with (w := w); try assumption; rewrite E; [discriminate|].
    intros t [<-|[]]. cbn [snd]. intro Z. rewrite Z in Hc. exact (flt_irrefl K 0 Hc).
Qed.
Print Assumptions binary_nullspaces_keep_certificates.

(** Every positive semidefinite solution of the equations of [construct] is such a certificate, so that the null spaces
    do not cut it off. *)
Theorem nullspaces_keep_solutions (K : OrdField) n G gens order (f : poly K) ineqs x0 V y gs l :
  is_group n G -> (forall p, In p G <-> generated n gens p) -> order_ok order ->
  wf n f -> (forall g, In g ineqs -> wf n g) -> distinct K ineqs -> monomial_constraints K ineqs ->
  coupled K n G f ineqs [] \/ reachable K f ineqs ->
  construct n G gens order f ineqs [] = Ok (x0, V) -> (forall row, In row V -> length row = length y) ->
  (forall g M, In (g, M) (gram_matrices n (total_degree f) ineqs (point x0 V y)) -> psd (length M) M) ->
  nullspaces n G f (findroot_binary n G f) gs ineqs [] = Ok l ->
  forall g M S w, In (g, M) (gram_matrices n (total_degree f) ineqs (point x0 V y)) -> In (g, S) l -> In w S ->
    length w = length (gram_vec n (total_degree f) g) /\ mat_kills (length (gram_vec n (total_degree f) g)) M (vget w).
Proof.
  intros HG Hgens HO Wf Hw D1 Hm HR H Hy HP HN g M T w I J Hin.
  assert (Hw' : forall g, In g (ineqs ++ []) -> wf n g) by (rewrite app_nil_r; exact Hw).
  destruct (construct_checks K n G gens order HG Hgens f ineqs [] x0 V Wf H) as (_ & Sf & _).
  apply (binary_nullspaces_keep_certificates K n G f ineqs (gram_matrices n (total_degree f) ineqs (point x0 V y)) gs l HG Wf Sf Hw Hm
    (construct_blocks K n G HG gens order Hgens HO f ineqs [] x0 V y Wf Hw' D1 HR H Hy HP)
    (construct_certificate K n G HG gens order Hgens HO f ineqs [] x0 V y Wf Hw' D1 HR H Hy) HN (g, M) T w I J Hin).
Qed.
Print Assumptions nullspaces_keep_solutions.

(** With equalities too: the solutions of the equations are certificates. *)
Theorem sdpsos_solutions_are_certificates (K : OrdField) n G gens order (f : poly K) ineqs eqs x0 V y :
  is_group n G -> (forall p, In p G <-> generated n gens p) -> order_ok order ->
  wf n f -> (forall g, In g (ineqs ++ eqs) -> wf n g) -> distinct K ineqs ->
  coupled K n G f ineqs eqs \/ reachable K f ineqs ->
  construct n G gens order f ineqs eqs = Ok (x0, V) -> (forall row, In row V -> length row = length y) ->
  gram_certificate n G f eqs (gram_matrices n (total_degree f) ineqs (point x0 V y)).
Proof. intros HG Hgens HO. exact (construct_certificate K n G HG gens order Hgens HO f ineqs eqs x0 V y). Qed.
Print Assumptions sdpsos_solutions_are_certificates.

(** The binary search returns roots of [f] other than the origin, and every binary root up to the symmetry. *)
Theorem findroot_binary_sound (K : OrdField) n G (f : poly K) r : is_group n G -> wf n f -> symm K G f -> In r (findroot_binary n G f) ->
  rational r = true /\ length (coords r) = n /\ peval (vget (coords r)) f = 0 /\ (forall a, In a (coords r) -> a = 0 \/ a = 1) /\ exists a, In a (coords r) /\ a <> 0.
Proof. intro HG. exact (findroot_binary_in K n G HG f r). Qed.
Print Assumptions findroot_binary_sound.
Theorem findroot_binary_finds (K : OrdField) n G (f : poly K) b : is_group n G -> wf n f -> symm K G f ->
  length b = n -> (forall e, In e b -> e = 0%nat \/ e = 1%nat) -> (exists e, In e b /\ e <> 0%nat) -> peval (fun i => fnat (nth i b 0%nat)) f = (0 : K) ->
  exists p r, In p G /\ In r (findroot_binary n G f) /\ coords r = map (fun k => fnat k) (act 0%nat p b).
Proof. intro HG. exact (findroot_binary_complete K n G HG f b). Qed.
Print Assumptions findroot_binary_finds.

(** Both loops stop by themselves: more fuel changes nothing. *)
Theorem derivative_loop_stops (K : OrdField) n i (r : list K) k fuel j (p : poly K) : (i < n)%nat -> (forall m, In m (keys p) -> length m = n) -> (total_degree p < fuel)%nat ->
  orders_loop n (fuel + k) i j p r = orders_loop n fuel i j p r.
Proof. intros Hi Hl Hf. exact (orders_loop_enough K n i r k Hi fuel j p Hl Hf). Qed.
Print Assumptions derivative_loop_stops.
Theorem elimination_stops sets k : eliminate (S (S (length sets)) + k) sets [None] [] = eliminate (S (S (length sets))) sets [None] [].
Proof. exact (eliminate_enough sets k). Qed.
Print Assumptions elimination_stops.

(** For an irrational root: a matrix over the smaller field that annihilates the vector annihilates its coordinates. *)
Theorem algebraic_coordinates_killed (K L : OrdField) (phi : K -> L) k e N (M : list (list K)) (c : nat -> nat -> K) :
  embedding K L phi -> independent K L phi k e ->
  (forall a, (a < N)%nat -> bsum N (fun b => phi (mget M a b) * bsum k (fun j => phi (c j b) * e j)) = 0) ->
  forall j, (j < k)%nat -> mat_kills N M (c j).
Proof. exact (coordinates_killed K L phi k e N M c). Qed.
Print Assumptions algebraic_coordinates_killed.

(** ** Without the condition on the constraints a certificate is lost *)
(** [f = a c^2 + (c - b - a) b^2] with the constraints [a >= 0] and [c - b - a >= 0] *)
Section Lost.
Variable K : OrdField.
Add Field KfLost : (F_field K).
Definition lost_f : poly K := [([1;0;2;0]%nat, 1); ([0;2;1;0]%nat, 1); ([0;3;0;0]%nat, - (1)); ([1;2;0;0]%nat, - (1))].
Definition lost_g1 : poly K := [([1;0;0;0]%nat, 1)].
Definition lost_g2 : poly K := [([0;0;1;0]%nat, 1); ([0;1;0;0]%nat, - (1)); ([1;0;0;0]%nat, - (1))].
Definition lost_M1 : list (list K) := [[0;0;0;0];[0;0;0;0];[0;0;1;0];[0;0;0;0]].
Definition lost_M2 : list (list K) := [[0;0;0;0];[0;1;0;0];[0;0;0;0];[0;0;0;0]].
Lemma lost_degree : total_degree lost_f = 3%nat. Proof. reflexivity. Qed.
Lemma lost_vec1 : gram_vec 4 3 lost_g1 = [[1;0;0;0];[0;1;0;0];[0;0;1;0];[0;0;0;1]]%nat. Proof. vm_compute. reflexivity. Qed.
Lemma lost_vec2 : gram_vec 4 3 lost_g2 = [[1;0;0;0];[0;1;0;0];[0;0;1;0];[0;0;0;1]]%nat. Proof. vm_compute. reflexivity. Qed.
Lemma lost_form1 (x : nat -> K) : qform 4 lost_M1 x = x 2%nat * x 2%nat.
Proof. unfold qform. cbn [bsum]. unfold mget, vget, lost_M1. cbn [nth]. ring. Qed.
Lemma lost_form2 (x : nat -> K) : qform 4 lost_M2 x = x 1%nat * x 1%nat.
Proof. unfold qform. cbn [bsum]. unfold mget, vget, lost_M2. cbn [nth]. ring. Qed.
Lemma lost_certificate : gram_certificate 4 [pid 4] lost_f [] [(lost_g1, lost_M1); (lost_g2, lost_M2)].
Proof.
  intros x _. rewrite lost_degree. cbn [map pid seq]. unfold gram_value. cbn [fst snd]. rewrite lost_vec1, lost_vec2. cbn [length].
  rewrite lost_form1, lost_form2. unfold peval, lost_f, lost_g1, lost_g2. cbn [map fst snd nth fsum fold_right]. rewrite !meval_cons, !meval_nil. cbn [fpow nth]. ring.
Qed.
Lemma lost_blocks : gram_blocks 4 (total_degree lost_f) [lost_g1; lost_g2] [(lost_g1, lost_M1); (lost_g2, lost_M2)].
Proof.
  rewrite lost_degree. intros gM [<-|[<-|[]]]; cbn [fst snd]; [rewrite lost_vec1|rewrite lost_vec2]; cbn [length]; (split; [cbn; auto|split]).
  - intros i j Hi Hj. do 4 (destruct i as [|i]; [do 4 (destruct j as [|j]; [reflexivity|]); lia|]). lia.
  - intro x. rewrite lost_form1. apply fsqr_nonneg.
  - intros i j Hi Hj. do 4 (destruct i as [|i]; [do 4 (destruct j as [|j]; [reflexivity|]); lia|]). lia.
  - intro x. rewrite lost_form2. apply fsqr_nonneg.
Qed.
Lemma lost_row (w : list K) : vget w 2 = 1 -> ~ mat_kills 4 lost_M1 (vget w).
Proof.
  intros E Z. specialize (Z 2%nat ltac:(lia)). cbn [bsum] in Z. rewrite E in Z. unfold mget, lost_M1 in Z. cbn [nth vget] in Z.
  apply (fneq10 K). etransitivity; [|exact Z]. unfold vget. cbn [nth]. ring.
Qed.
End Lost.
Theorem root_nullspaces_general_refuted : let K := QcOF in
  exists (f : poly K) ineqs Ms gM l w,
    is_group 4 [pid 4] /\ wf 4 f /\ symm K [pid 4] f /\ (forall g, In g ineqs -> wf 4 g) /\
    gram_blocks 4 (total_degree f) ineqs Ms /\ gram_certificate 4 [pid 4] f [] Ms /\
    In gM Ms /\ nullspace 4 [pid 4] f (findroot_binary 4 [pid 4] f) (fst gM) ineqs [] = Ok l /\ In w l /\
    ~ mat_kills (length (gram_vec 4 (total_degree f) (fst gM))) (snd gM) (vget w).
Proof.
  intro K. exists (lost_f K), [lost_g1 K; lost_g2 K], [(lost_g1 K, lost_M1 K); (lost_g2 K, lost_M2 K)], (lost_g1 K, lost_M1 K).
  destruct (nullspace 4 [pid 4] (lost_f K) (findroot_binary 4 [pid 4] (lost_f K)) (lost_g1 K) [lost_g1 K; lost_g2 K] []) as [l|e] eqn:E.
  2: { exfalso. assert (B : match nullspace 4 [pid 4] (lost_f K) (findroot_binary 4 [pid 4] (lost_f K)) (lost_g1 K) [lost_g1 K; lost_g2 K] [] with Ok _ => true | Err _ => false end = true)
         by (vm_compute; reflexivity). rewrite E in B. discriminate B. }
  assert (B : match nullspace 4 [pid 4] (lost_f K) (findroot_binary 4 [pid 4] (lost_f K)) (lost_g1 K) [lost_g1 K; lost_g2 K] [] with
              | Ok l => existsb (fun w => feqb (vget w 2) (1 : K)) l | Err _ => false end = true) by (vm_compute; reflexivity).
  rewrite E in B. apply existsb_exists in B. destruct B as (w & Hw & Ew). apply feqb_eq in Ew. exists l, w.
  split; [apply pid_group|].
  assert (W : forall g, In g [lost_f K; lost_g1 K; lost_g2 K] -> wf 4 g).
  { intros g [<-|[<-|[<-|[]]]]; (split; [cbn; repeat constructor; cbn; intuition discriminate|cbn; intuition (subst; reflexivity)]). }
  split; [apply W; left; reflexivity|]. split.
  { intros p [<-|[]] x. apply (peval_ext_len K 4); [apply W; left; reflexivity|]. intros i Hi. unfold pid. rewrite seq_nth by exact Hi. reflexivity. }
  split; [intros g Hg; apply W; right; exact Hg|]. split; [apply lost_blocks|]. split; [apply lost_certificate|]. split; [left; reflexivity|].
  split; [exact E|]. split; [exact Hw|]. rewrite lost_degree. cbn [fst snd]. rewrite lost_vec1. cbn [length]. exact (lost_row K w Ew).
Qed.
Print Assumptions root_nullspaces_general_refuted.

(** ** A case that meets the hypotheses *)
(** [f = a (b - c)^2] with [a >= 0]: the vector of (0, 1, 1) is found through the derivative with respect to [a],
    although [a] vanishes there. *)
Section Kept.
Variable K : OrdField.
Add Field KfKept : (F_field K).
Definition kept_f : poly K := [([1;2;0]%nat, 1); ([1;1;1]%nat, - (1 + 1)); ([1;0;2]%nat, 1)].
Definition kept_g : poly K := [([1;0;0]%nat, 1)].
Definition kept_M : list (list K) := [[0;0;0];[0;1;- (1)];[0;- (1);1]].
Lemma kept_vec : gram_vec 3 (total_degree kept_f) kept_g = [[1;0;0];[0;1;0];[0;0;1]]%nat. Proof. vm_compute. reflexivity. Qed.
Lemma kept_form (x : nat -> K) : qform 3 kept_M x = (x 1%nat - x 2%nat) * (x 1%nat - x 2%nat).
Proof. unfold qform. cbn [bsum]. unfold mget, vget, kept_M. cbn [nth]. ring. Qed.
Lemma kept_certificate : gram_certificate 3 [pid 3] kept_f [] [(kept_g, kept_M)].
Proof.
  intros x _. cbn [map pid seq]. unfold gram_value. cbn [fst snd]. rewrite kept_vec. cbn [length].
  rewrite kept_form. unfold peval, kept_f, kept_g. cbn [map fst snd nth fsum fold_right]. rewrite !meval_cons, !meval_nil. cbn [fpow nth]. ring.
Qed.
Lemma kept_blocks : gram_blocks 3 (total_degree kept_f) [kept_g] [(kept_g, kept_M)].
Proof.
  intros gM [<-|[]]; cbn [fst snd]; rewrite kept_vec; cbn [length]; (split; [cbn; auto|split]).
  - intros i j Hi Hj. do 3 (destruct i as [|i]; [do 3 (destruct j as [|j]; [reflexivity|]); lia|]). lia.
  - intro x. rewrite kept_form. apply fsqr_nonneg.
Qed.
Lemma kept_monomial : monomial_constraints K [kept_g].
Proof. intros g [<-|[]]. exists [1;0;0]%nat, 1. split; [reflexivity|apply f1_pos]. Qed.
End Kept.
Example kept_case : let K := QcOF in
  exists l S w, gram_blocks 3 (total_degree (kept_f K)) [kept_g K] [(kept_g K, kept_M K)] /\ gram_certificate 3 [pid 3] (kept_f K) [] [(kept_g K, kept_M K)] /\
    monomial_constraints K [kept_g K] /\ wf 3 (kept_f K) /\
    nullspaces 3 [pid 3] (kept_f K) (findroot_binary 3 [pid 3] (kept_f K)) [kept_g K] [kept_g K] [] = Ok l /\ In (kept_g K, S) l /\ In w S /\
    vget w 0 = 0 /\ vget w 1 = 1 /\ vget w 2 = 1.
Proof.
  intro K.
  assert (B : match nullspace 3 [pid 3] (kept_f K) (findroot_binary 3 [pid 3] (kept_f K)) (kept_g K) [kept_g K] [] with
              | Ok s => existsb (fun w => (feqb (vget w 0) (0 : K) && feqb (vget w 1) (1 : K) && feqb (vget w 2) (1 : K))%bool) s | Err _ => false end = true) by (vm_compute; reflexivity).
  destruct (nullspace 3 [pid 3] (kept_f K) (findroot_binary 3 [pid 3] (kept_f K)) (kept_g K) [kept_g K] []) as [s|e] eqn:E; [|discriminate B].
  apply existsb_exists in B. destruct B as (w & Hw & B). apply andb_prop in B. destruct B as [B B3]. apply andb_prop in B. destruct B as [B1 B2].
  apply feqb_eq in B1. apply feqb_eq in B2. apply feqb_eq in B3.
  exists [(kept_g K, s)], s, w. split; [apply kept_blocks|]. split; [apply kept_certificate|]. split; [apply kept_monomial|].
  split; [split; [cbn; repeat constructor; cbn; intuition discriminate|cbn; intuition (subst; reflexivity)]|].
  split; [cbn [nullspaces]; rewrite E; reflexivity|]. split; [left; reflexivity|]. auto.
Qed.
Example binary_roots_case : length (findroot_binary 3 [pid 3] (kept_f QcOF)) = 5%nat.
Proof. vm_compute. reflexivity. Qed.
