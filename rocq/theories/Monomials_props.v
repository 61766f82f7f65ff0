(** * Properties C02, C03, C04 of [MonomialManager] *)
From Coq Require Import Bool List ZArith Arith Lia.
From Verif Require Import OrdField Base Perm PermCheck Poly PolyId Partitions Monomials Coeff MonomialsLemmas.
Import ListNotations.

(** ** C02 *)
Theorem standard_monom_in_orbit n G m : is_group n G -> length m = n ->
  exists g, In g G /\ standard_monom G m = map (fun i => nth i m 0) g.
Proof.
  intros HG _. pose proof (standard_in_orbit n G HG m) as H. apply in_map_iff in H. destruct H as [g [E Hg]].
  exists g. split; [exact Hg|symmetry; exact E].
Qed.
Print Assumptions standard_monom_in_orbit.

Theorem standard_monom_decides_orbit n G m m' : is_group n G -> length m = n -> length m' = n ->
  (standard_monom G m' = standard_monom G m <-> exists g, In g G /\ m' = map (fun i => nth i m 0) g).
Proof.
  intros HG Hm Hm'. rewrite <- (standard_orbit_iff n G HG m m' Hm Hm'). unfold permute. rewrite in_map_iff.
  split; intros [g [H1 H2]]; exists g; auto.
Qed.
Print Assumptions standard_monom_decides_orbit.

Theorem standard_monom_largest n G m g : is_group n G -> In g G ->
  lex_cmp (standard_monom G m) (map (fun i => nth i m 0) g) <> Lt.
Proof. intros _ Hg. apply lex_max_ge. exact (in_map (fun p => act 0 p m) G g Hg). Qed.
Print Assumptions standard_monom_largest.

Theorem standard_monom_idempotent n G m : is_group n G -> length m = n ->
  standard_monom G (standard_monom G m) = standard_monom G m.
Proof. exact (fun HG => standard_idem n G HG m). Qed.
Print Assumptions standard_monom_idempotent.

Theorem is_standard_monom_iff n G m : is_group n G -> length m = n ->
  (is_standard_monom G m = true <-> exists m', length m' = n /\ m = standard_monom G m').
Proof.
  intros HG Hm. rewrite is_standard_iff. split.
  - intro E. exists m. auto.
  - intros [m' [Hm' ->]]. symmetry. apply (standard_idem n G HG). exact Hm'.
Qed.
Print Assumptions is_standard_monom_iff.

(** the per-degree cache is invisible: any history of requests sees the lists of [inv_monoms] *)
Theorem monomial_cache_transparent G n hom ops :
  run_register G n hom [] ops = map (inv_monoms G n hom) ops.
Proof. apply run_register_spec. intros d v []. Qed.
Print Assumptions monomial_cache_transparent.

Definition C3 : list (list nat) := [[0;1;2];[1;2;0];[2;0;1]].
Example C3_group : is_group 3 C3. Proof. apply group_check_sound. vm_compute. reflexivity. Qed.
Example C02_ex : standard_monom C3 [0;1;2] = [2;0;1] /\ is_standard_monom C3 [2;1;0] = true.
Proof. vm_compute. auto. Qed.

(** ** C03 *)
Theorem arraylize_then_invarraylize (K : OrdField) n G hom (p : poly K) :
  is_group n G -> wf n p -> (forall g, In g G -> invariant_under g p) ->
  (hom = true -> exists d, forall m, In m (keys p) -> list_sum m = d) ->
  exists v q, arraylize G n hom false n p = Ok v /\
              invarraylize G n hom n v (total_degree p) = Ok q /\
              forall m, coef q m = coef p m.
Proof. exact (fun HG => arraylize_roundtrip_lemma K n G hom HG p). Qed.
Print Assumptions arraylize_then_invarraylize.

Theorem invarraylize_symmetric (K : OrdField) n G hom (v : list K) d q :
  is_group n G -> length v = length (inv_monoms G n hom d) ->
  invarraylize G n hom n v d = Ok q -> wf n q /\ forall g, In g G -> invariant_under g q.
Proof. exact (fun HG => invarraylize_sym_lemma K n G hom HG v d q). Qed.
Print Assumptions invarraylize_symmetric.

(** the other round trip holds when the vector really describes a polynomial of that degree *)
Theorem invarraylize_then_arraylize (K : OrdField) n G hom (v : list K) d q :
  is_group n G -> length v = length (inv_monoms G n hom d) ->
  invarraylize G n hom n v d = Ok q -> total_degree q = d -> arraylize G n hom false n q = Ok v.
Proof. exact (fun HG => invarraylize_roundtrip_lemma K n G hom HG v d q). Qed.
Print Assumptions invarraylize_then_arraylize.

Theorem invarraylize_then_arraylize_homogeneous (K : OrdField) n G (v : list K) d q :
  is_group n G -> length v = length (inv_monoms G n true d) -> (exists c, In c v /\ c <> (f0 : K)) ->
  invarraylize G n true n v d = Ok q -> arraylize G n true false n q = Ok v.
Proof.
  exact (fun HG Hv Hnz Hq => invarraylize_roundtrip_lemma K n G true HG v d q Hv Hq
           (invarraylize_degree_hom K n G true HG v d q eq_refl Hv Hq Hnz)).
Qed.
Print Assumptions invarraylize_then_arraylize_homogeneous.

(** ... and fails otherwise: the zero vector of degree 2 comes back with one entry *)
Theorem zero_vector_roundtrip_refuted :
  ~ (forall (v : list QcOF) d q, length v = length (inv_monoms C3 3 true d) ->
       invarraylize C3 3 true 3 v d = Ok q -> arraylize C3 3 true false 3 q = Ok v).
Proof.
  intro H. specialize (H [q 0 1; q 0 1] 2 [] eq_refl eq_refl). vm_compute in H. discriminate.
Qed.
Print Assumptions zero_vector_roundtrip_refuted.

(** ** C04 *)
Theorem arraylize_expand_entries (K : OrdField) n G hom (p : poly K) :
  is_group n G -> wf n p ->
  exists v, arraylize G n hom true n p = Ok v /\
    v = map (fun s => fsum (map (fun g => coef p (map (fun i => nth i s 0) g)) G)) (inv_monoms G n hom (total_degree p)).
Proof. intros HG Hp. eexists. split; [apply (arraylize_expand_spec K n G hom HG p Hp)|reflexivity]. Qed.
Print Assumptions arraylize_expand_entries.

Theorem arraylize_expand_symmetrises (K : OrdField) n G hom (p : poly K) :
  is_group n G -> wf n p -> (hom = true -> exists d, forall m, In m (keys p) -> list_sum m = d) ->
  exists v q, arraylize G n hom true n p = Ok v /\
              invarraylize G n hom n v (total_degree p) = Ok q /\
              forall x : nat -> K, peval x q = fsum (map (fun g => peval (fun i => x (nth i g 0)) p) G).
Proof. exact (fun HG => expand_value_lemma K n G hom HG p). Qed.
Print Assumptions arraylize_expand_symmetrises.

(** Non-vacuity: a^2 b + b^2 c + c^2 a is invariant under C3, a^2 b alone is not. *)
Definition ex_p : poly QcOF := [([2;1;0], q 1 1); ([0;2;1], q 1 1); ([1;0;2], q 1 1)].
Example C03_ex_wf : wf 3 ex_p.
Proof. split; [repeat constructor; cbn; intuition discriminate|]. intros m [<-|[<-|[<-|[]]]]; reflexivity. Qed.
Example C03_ex_inv : forall g, In g C3 -> invariant_under g ex_p.
Proof.
  intros g Hg.
  assert (H : is_cyclic 3 C3 ex_p = true) by (vm_compute; reflexivity).
  apply (is_cyclic_spec QcOF 3 C3 ex_p C03_ex_wf) with (g := g) in H; [exact H| |apply gen_in; exact Hg].
  intros h Hh. apply (g_perm 3 C3 C3_group h Hh).
Qed.
Example C03_ex_arr : arraylize C3 3 true false 3 ex_p = Ok [q 0 1; q 1 1; q 0 1; q 0 1].
Proof. vm_compute. reflexivity. Qed.
Example C04_ex : arraylize C3 3 true true 3 [([2;1;0], q 5 1); ([1;1;1], q 1 1)] = Ok [q 0 1; q 5 1; q 0 1; q 3 1].
Proof. vm_compute. reflexivity. Qed.
