(** * C01 (generate_partitions) and C17 (_degree_combinations) *)
From Coq Require Import Bool List Arith Lia Sorted.
From Verif Require Import Partitions DegreeComb.
Import ListNotations.

(** C01: exactly the tuples with the right length and sum. *)
Theorem generate_partitions_exact nvars degree equal t :
  In t (generate_partitions nvars degree equal) <->
  length t = nvars /\ (if equal then list_sum t = degree else list_sum t <= degree).
Proof. exact (generate_partitions_in nvars degree equal t). Qed.
Print Assumptions generate_partitions_exact.

(** C01: no tuple is listed twice. *)
Theorem generate_partitions_once nvars degree equal : NoDup (generate_partitions nvars degree equal).
Proof. exact (generate_partitions_NoDup nvars degree equal). Qed.
Print Assumptions generate_partitions_once.

(** C01: every tuple is lexicographically larger than all later ones. *)
Theorem generate_partitions_descending nvars degree equal :
  StronglySorted lex_gt (generate_partitions nvars degree equal).
Proof. exact (generate_partitions_sorted nvars degree equal). Qed.
Print Assumptions generate_partitions_descending.

(** C17: with at least two base degrees, the loop ends, and every result it can
    give lists exactly the exponent vectors of the requested weighted degree, once each. *)
Theorem degree_combinations_terminates ds degree req :
  2 <= length ds -> (forall d, In d ds -> 0 < d) ->
  exists fuel0, forall fuel, fuel0 <= fuel -> degree_combinations ds degree req fuel <> None.
Proof.
  intros Hn Hpos. destruct (degree_combinations_run ds degree req Hpos Hn) as [m Hm].
  exists m. intros fuel Hf. replace fuel with (m + (fuel - m)) by lia. rewrite Hm. discriminate.
Qed.
Print Assumptions degree_combinations_terminates.

Theorem degree_combinations_exact_partial ds degree req fuel out :
  2 <= length ds -> (forall d, In d ds -> 0 < d) ->
  degree_combinations ds degree req fuel = Some out ->
  NoDup out /\
  forall t, In t out <->
    length t = length ds /\ (if req then wdeg t ds = degree else wdeg t ds <= degree).
Proof.
  intros Hn Hpos H. rewrite (degree_combinations_correct ds degree req fuel out Hn Hpos H).
  split; [apply comb_NoDup|]. intro t. apply comb_in; [|exact Hpos].
  intros ->. cbn in Hn. lia.
Qed.
Print Assumptions degree_combinations_exact_partial.

(** C17 fails for a single base polynomial: [_degree_combinations([2], 4, True)] also
    returns powers of the wrong degree, and without [require_equal] it repeats powers.
    (When [i] becomes -1 the Python index wraps around to the same entry.) *)
Theorem degree_combinations_single_refuted :
  exists ds degree fuel out t,
    length ds = 1 /\ (forall d, In d ds -> 0 < d) /\
    degree_combinations ds degree true fuel = Some out /\
    In t out /\ wdeg t ds <> degree.
Proof.
  exists [2], 4, 20, [[2]; [1]; [0]], [1]. repeat split.
  - intros d [<-|[]]. lia.
  - right. left. reflexivity.
  - cbn. lia.
Qed.
Print Assumptions degree_combinations_single_refuted.

Theorem degree_combinations_single_dup_refuted :
  exists ds degree fuel out,
    length ds = 1 /\ (forall d, In d ds -> 0 < d) /\
    degree_combinations ds degree false fuel = Some out /\ ~ NoDup out.
Proof.
  exists [2], 4, 20, [[0]; [1]; [2]; [0]; [1]; [0]]. repeat split.
  - intros d [<-|[]]. lia.
  - intro H. inversion H as [|x l Hx Hl]. apply Hx. right. right. left. reflexivity.
Qed.
Print Assumptions degree_combinations_single_dup_refuted.

(** Non-vacuity *)
Example gp_ex : generate_partitions 3 2 true = [[2;0;0]; [1;1;0]; [1;0;1]; [0;2;0]; [0;1;1]; [0;0;2]].
Proof. reflexivity. Qed.
Example dc_ex : degree_combinations [2; 3; 1] 3 true 100 = Some [[0;0;3]; [0;1;0]; [1;0;1]].
Proof. vm_compute. reflexivity. Qed.
