(** * Facts about cyclic expressions used by the property file *)
From Coq Require Import Bool List Arith ZArith Lia Ring Field Permutation.
From Verif Require Import OrdField Base Perm PermCheck Cyclic CyclicRw.
Import ListNotations.

Section Facts.
Variable K : OrdField.
Local Open Scope of_scope.
Add Field Kf3 : (F_field K).
Variable I : nat -> list K -> K.
Implicit Types (e : cx K) (r : nat -> K) (o : cop).

Lemma new_sound cmp fuel : sound_mk K I (new cmp fuel).
Proof. intros o e syms G W HG r. exact (proj2 (proj1 (build_ok K I cmp fuel) o e syms G W HG) r). Qed.
Lemma cyclic_sum_value_lemma cmp fuel e syms G r : wf K e -> NoDup syms -> is_group (length syms) G ->
  orbit_sum K I e syms G r (cev I (new cmp fuel OpSum e syms G) r).
Proof.
  intros W ND HG F HF. rewrite (new_sound cmp fuel OpSum e syms G W); [|split; [exact ND|split; [exact HG|discriminate]]]. exact (gsum_spec K I OpSum e syms G r ND HG F HF).
Qed.
Lemma cyclic_product_value_lemma cmp fuel e syms G r : wf K e -> NoDup syms -> is_group (length syms) G -> length G = length syms ->
  orbit_prod K I e syms G r (cev I (new cmp fuel OpProd e syms G) r).
Proof.
  intros W ND HG HL F HF. rewrite (new_sound cmp fuel OpProd e syms G W); [|split; [exact ND|split; [exact HG|auto]]]. exact (gsum_spec K I OpProd e syms G r ND HG F HF).
Qed.
Lemma product_content_lemma (c : K) e syms G r : cev I (CCyc OpProd (CMul [CNum c; e]) syms G) r = c ^ length G * cev I (CCyc OpProd e syms G) r.
Proof. cbn [cev]. unfold big. induction G as [|p G IH]; cbn in *; [ring|]. rewrite IH. ring. Qed.
Lemma xreplace_split_lemma (cmp same : cx K -> cx K -> bool) fuel o e syms G gens (ru : @rule K) r :
  (forall a b, same a b = true -> forall r, cev I a r = cev I b r) ->
  wf K e -> good o syms G -> NoDup (map fst ru) -> (forall k v, In (k, v) ru -> wf K v) ->
  (forall g, In g gens -> In g G) -> (forall p, In p G -> generated (length syms) gens p) ->
  (case_a ru syms = true -> no_capture K ru e syms) ->
  (length (stabilizer G (changed_inds K ru syms G)) * length (stabilizer G (unchanged_inds K ru syms G)) = length G)%nat ->
  cev I (xreplace same (new cmp fuel) o e syms G gens ru) r = cev I (CCyc o e syms G) (fun s => cev I (apply_rule ru s) r).
Proof. intros HS. exact (xreplace_exact K I same (new cmp fuel) HS (new_sound cmp fuel) o e syms G gens ru r). Qed.
Lemma xreplace_transitive_lemma (cmp same : cx K -> cx K -> bool) fuel o e syms G gens (ru : @rule K) r :
  (forall a b, same a b = true -> forall r, cev I a r = cev I b r) ->
  wf K e -> good o syms G -> NoDup (map fst ru) -> (forall k v, In (k, v) ru -> wf K v) ->
  (forall g, In g gens -> In g G) -> (forall p, In p G -> generated (length syms) gens p) ->
  (case_a ru syms = true -> no_capture K ru e syms) ->
  transitive (length syms) G ->
  cev I (xreplace same (new cmp fuel) o e syms G gens ru) r = cev I (CCyc o e syms G) (fun s => cev I (apply_rule ru s) r).
Proof. intros HS W HG NDk WV H1 H2 H3 HT. apply xreplace_split_lemma; auto. destruct HG as (ND & HG & _). apply transitive_count; assumption. Qed.
Lemma rewrite_lemma (cmp cmp' : cx K -> cx K -> bool) iszero fuel o e syms G symbols H T r :
  (forall a, iszero a = true -> forall r, cev I a r = 0) ->
  wf K e -> good o syms G -> (syms = symbols -> good o syms H) ->
  (subgroup H G = true -> (forall t, In t T -> In t G) /\ splits H T G) ->
  cev I (rewrite_node cmp iszero (new cmp' fuel) o e syms G symbols H T) r = cev I (CCyc o e syms G) r.
Proof. intro HZ. exact (rewrite_node_exact K I cmp iszero (new cmp' fuel) HZ (new_sound cmp' fuel) o e syms G symbols H T r). Qed.
End Facts.

Lemma standard_order_lemma syms G : NoDup syms -> is_group (length syms) G ->
  (exists x, In x G /\ std_seq syms G = act 0%nat x syms) /\
  (forall y, In y G -> lexle (std_seq syms G) (act 0%nat y syms) = true) /\
  (forall x, In x G -> std_seq (act 0%nat x syms) G = std_seq syms G) /\
  (forall p, In p G -> exists p', In p' G /\ forall s, tr (std_seq syms G) p s = tr syms p' s) /\
  (forall p', In p' G -> exists p, In p G /\ forall s, tr (std_seq syms G) p s = tr syms p' s).
Proof.
  intros ND HG. split; [exact (std_seq_act syms G HG)|]. split; [intros y Hy; exact (std_seq_least syms G y ND HG Hy)|]. split; [intros x Hx; exact (std_seq_orbit syms G x ND HG Hx)|]. exact (std_images syms G ND HG).
Qed.

Local Open Scope of_scope.
Lemma C3_group : is_group 3 C3. Proof. apply group_check_sound; vm_compute; reflexivity. Qed.
Lemma S3_group : is_group 3 S3. Proof. apply group_check_sound; vm_compute; reflexivity. Qed.
Lemma G42_group : is_group 6 G42. Proof. apply group_check_sound; vm_compute; reflexivity. Qed.
Lemma nd l : CyclicRw.nodupb l = true -> NoDup l. Proof. apply CyclicRw.nodupb_spec. Qed.
Definition pt (s : nat) : QcOF := fnat (S s).

Lemma cyclic_product_refuted_lemma :
  exists (e : cx QcOF) syms G (r : nat -> QcOF), wf QcOF e /\ NoDup syms /\ is_group (length syms) G /\
    ~ orbit_prod QcOF noI e syms G r (cev noI (new never 2 OpProd e syms G) r).
Proof.
  exists (CMul [CNum (q 2 1); CSym 0]), [0;1;2]%nat, S3, (fun _ => 1). split; [cbn; auto|]. split; [apply nd; reflexivity|]. split; [exact S3_group|]. intro H.
  specialize (H (tr [0;1;2]%nat) (fun p Hp => tr_moves [0;1;2]%nat p (nd [0;1;2]%nat eq_refl) (g_perm _ _ S3_group p Hp))). apply (f_equal (fun x => Qcanon.this x)) in H. vm_compute in H. discriminate.
Qed.
Lemma product_content_refuted_lemma : content OpProd (q 2 1) [0;1;2]%nat <> (q 2 1) ^ length S3.
Proof. intro H. apply (f_equal (fun x => Qcanon.this x)) in H. vm_compute in H. discriminate. Qed.

Lemma C3_transitive : transitive 3 C3.
Proof.
  intros i j Hi Hj. destruct i as [|[|[|i]]]; [| | |lia]; destruct j as [|[|[|j]]]; try lia;
  first [exists [0;1;2]%nat; split; [cbn; tauto|reflexivity]|exists [1;2;0]%nat; split; [cbn; tauto|reflexivity]|exists [2;0;1]%nat; split; [cbn; tauto|reflexivity]].
Qed.
Lemma C3_generated p : In p C3 -> generated 3 [[1;2;0]]%nat p.
Proof.
  assert (G1 : generated 3 [[1;2;0]]%nat [1;2;0]%nat) by (apply (gen_step 3 _ (pid 3) [1;2;0]%nat); [apply gen_id|left; reflexivity]).
  intros [<-|[<-|[<-|[]]]]; [apply gen_id|exact G1|]. apply (gen_step 3 _ [1;2;0]%nat [1;2;0]%nat); [exact G1|left; reflexivity].
Qed.
Lemma xreplace_ex_lemma :
  let ru : @rule QcOF := [(0%nat, CMul [CSym 0; CSym 1]); (1%nat, CMul [CSym 1; CSym 2]); (2%nat, CMul [CSym 2; CSym 0])] in
  let same (a b : cx QcOF) := match a, b with CMul [CSym x; CSym y], CMul [CSym u; CSym v] => ((x =? u) && (y =? v))%nat | _, _ => false end in
  let e : cx QcOF := CMul [CSym 0; CPow (CSym 1) 2] in
  is_group 3 C3 /\ transitive 3 C3 /\ (forall p, In p C3 -> generated 3 [[1;2;0]]%nat p) /\ case_a ru [0;1;2]%nat = false /\
  (forall a b, same a b = true -> forall r, cev noI a r = cev noI b r) /\
  xreplace same (new never 3) OpSum e [0;1;2]%nat C3 [[1;2;0]]%nat ru =
    CCyc OpSum (CMul [CMul [CSym 0; CSym 1]; CPow (CMul [CSym 1; CSym 2]) 2]) [0;1;2]%nat C3.
Proof.
  cbv zeta. split; [exact C3_group|]. split; [exact C3_transitive|]. split; [exact C3_generated|]. split; [reflexivity|]. split; [|reflexivity].
  intros a b H r. destruct a as [| | |l| | |]; try discriminate. destruct l as [|[] [|[] [|]]]; try discriminate. destruct b as [| | |l| | |]; try discriminate. destruct l as [|[] [|[] [|]]]; try discriminate.
  apply andb_true_iff in H. destruct H as [H1 H2]. apply Nat.eqb_eq in H1, H2. subst. reflexivity.
Qed.
Lemma xreplace_capture_lemma :
  exists (e : cx QcOF) (ru : @rule QcOF) (r : nat -> QcOF), wf QcOF e /\ good OpSum [0;1;2]%nat C3 /\ transitive 3 C3 /\
    cev noI (xreplace never (new never 3) OpSum e [0;1;2]%nat C3 [[1;2;0]]%nat ru) r <> cev noI (CCyc OpSum e [0;1;2]%nat C3) (fun s => cev noI (apply_rule ru s) r).
Proof.
  exists (CMul [CSym 0; CSym 3]), [(0%nat, CSym 3)], pt. split; [cbn; auto|]. split; [split; [apply nd; reflexivity|split; [exact C3_group|discriminate]]|]. split; [exact C3_transitive|].
  intro H. apply (f_equal (fun x => Qcanon.this x)) in H. vm_compute in H. discriminate.
Qed.
Lemma xreplace_partial_lemma :
  exists (e : cx QcOF) (ru : @rule QcOF) (r : nat -> QcOF), wf QcOF e /\ good OpSum [0;1;2;3;4;5]%nat G42 /\ case_a ru [0;1;2;3;4;5]%nat = false /\
    cev noI (xreplace never (new never 3) OpSum e [0;1;2;3;4;5]%nat G42 [[1;2;3;0;5;4]]%nat ru) r <> cev noI (CCyc OpSum e [0;1;2;3;4;5]%nat G42) (fun s => cev noI (apply_rule ru s) r).
Proof.
  exists (CMul [CSym 0; CSym 4]), [(4%nat, CNum 1)], pt. split; [cbn; auto|]. split; [split; [apply nd; reflexivity|split; [exact G42_group|discriminate]]|]. split; [reflexivity|].
  intro H. apply (f_equal (fun x => Qcanon.this x)) in H. vm_compute in H. discriminate.
Qed.
Lemma perm_decide (A B : list (list nat)) : (PermCheck.nodupb A && (length B <=? length A)%nat && forallb (fun p => mem p B) A)%bool = true -> Permutation A B.
Proof.
  rewrite !andb_true_iff, Nat.leb_le, forallb_forall. intros [[H1 H2] H3]. apply NoDup_Permutation_bis; [apply PermCheck.nodupb_spec, H1|exact H2|]. intros p Hp. apply mem_in, H3, Hp.
Qed.
Lemma rewrite_ex_lemma : subgroup C3 S3 = true /\ splits C3 [[0;1;2];[1;0;2]]%nat S3.
Proof. split; [reflexivity|]. apply perm_decide. vm_compute. reflexivity. Qed.
Lemma rewrite_refuted_lemma :
  exists (e : cx QcOF) (r : nat -> QcOF) H T, wf QcOF e /\ good OpSum [0;1;2]%nat S3 /\ good OpSum [0;1;2]%nat H /\ subgroup H S3 = true /\
    Permutation (flat_map (fun t => map (fun h => pcomp h t) H) T) S3 /\
    cev noI (rewrite_node never (fun _ => false) (new never 3) OpSum e [0;1;2]%nat S3 [0;1;2]%nat H T) r <> cev noI (CCyc OpSum e [0;1;2]%nat S3) r.
Proof.
  exists (CMul [CPow (CSym 0) 2; CSym 1]), pt, [[0;1;2];[1;0;2]]%nat, [[0;1;2];[0;2;1];[1;2;0]]%nat.
  assert (HG : is_group 3 [[0;1;2];[1;0;2]]%nat) by (apply group_check_sound; vm_compute; reflexivity).
  split; [cbn; auto|]. split; [split; [apply nd; reflexivity|split; [exact S3_group|discriminate]]|]. split; [split; [apply nd; reflexivity|split; [exact HG|discriminate]]|].
  split; [reflexivity|]. split; [apply perm_decide; vm_compute; reflexivity|].
  intro H. apply (f_equal (fun x => Qcanon.this x)) in H. vm_compute in H. discriminate.
Qed.
