(** * Properties of the rational approximations (C82) *)
From Coq Require Import Bool List Arith ZArith QArith Qround Qabs Lia.
From Verif Require Import Base RatApprox.
Import ListNotations.
Local Open Scope Q_scope.

(** [rationalize(v, reliable=True)] is a rational number closer than [1e-6] to [v], whatever the
    float [v], as soon as at least 20 quotients are allowed (the default is 32). *)
Theorem rationalize_reliable_close (nsimp : Q -> Q -> Q) (v rounding : Q) (n : nat) :
  (20 <= n)%nat ->
  exists x, rationalize nsimp (Float v) rounding true (Some n) = Ok (Fin x) /\
            Qabs (v - x) < 1 # 1000000.
Proof. exact (rationalize_reliable_close_lemma v n). Qed.
Print Assumptions rationalize_reliable_close.

(** 3.14159265 needs more quotients than are kept. *)
Example rationalize_reliable_example :
  rationalize (fun w _ => w) (Float (314159265 # 100000000)) (1 # 100) true (Some 32%nat)
    = Ok (Fin (355 # 113)).
Proof. vm_compute. reflexivity. Qed.
(** A cut at -1 + 1/1 evaluates [1/zoo]. *)
Example rationalize_reliable_negative :
  rationalize (fun w _ => w) (Float (- (1 # 10000000))) (1 # 100) true (Some 32%nat) = Ok (Fin 0).
Proof. vm_compute. reflexivity. Qed.

(** Exact rationals are returned as they are. *)
Theorem rationalize_exact (nsimp : Q -> Q -> Q) (x rounding : Q) (reliable : bool)
  (truncate : option nat) :
  rationalize nsimp (Exact x) rounding reliable truncate = Ok (Fin x).
Proof. exact eq_refl. Qed.
Print Assumptions rationalize_exact.

(** Refuted: [truncate] is declared optional, but [None] raises for every float, even with
    [reliable = False], where [truncate] plays no role. *)
Theorem rationalize_truncate_refuted (nsimp : Q -> Q -> Q) (v rounding : Q) (reliable : bool) :
  rationalize nsimp (Float v) rounding reliable None = Err TypeError.
Proof. exact eq_refl. Qed.
Print Assumptions rationalize_truncate_refuted.

(** [rationalize_array(x, tol)] never raises and gives as many numbers as it is given. Each is
    the entry itself, or zero for an entry smaller than [tol], or closer than [1e-6]. *)
Theorem rationalize_array_close (nsimp : Q -> Q -> Q) (l : list num) (tol : Q) :
  exists ys, rationalize_array nsimp l tol true = Ok ys /\ length ys = length l /\
  forall i, (i < length l)%nat -> exists y, nth i ys Zoo = Fin y /\
    (y == nval (nth i l (Exact 0)) \/ (y == 0 /\ Qabs (nval (nth i l (Exact 0))) < tol) \/
     Qabs (nval (nth i l (Exact 0)) - y) < 1 # 1000000).
Proof.
  exact (match rationalize_array_total nsimp l tol with
         | ex_intro _ ys E => ex_intro _ ys (conj E (rationalize_array_close_lemma nsimp l tol ys E))
         end).
Qed.
Print Assumptions rationalize_array_close.

Example rationalize_array_example :
  rationalize_array (fun w _ => w)
    [Float (1 # 100000000); Exact (2 # 3); Float (333333333 # 1000000000)] (1 # 10000000) true
    = Ok [Fin 0; Fin (2 # 3); Fin (1 # 3)].
Proof. vm_compute. reflexivity. Qed.

(** Every value that [rationalize_bound(v, direction)] yields for a float lies strictly on the
    asked side, provided [nsimplify] keeps its tolerance and the roundings are positive. *)
Theorem rationalize_bound_sound (nsimp : Q -> Q -> Q) (x : Q) (d : dir)
  (roundings : option (list Q)) (compulsory : bool) (u : Q) :
  (forall w t, 0 < t -> Qabs (nsimp w t - w) <= t) ->
  (forall rs, roundings = Some rs -> forall r, In r rs -> 0 < r) ->
  In u (rationalize_bound nsimp (Float x) d roundings compulsory) ->
  match d with Up => x < u | Any => True | Down => u < x end.
Proof. exact (rationalize_bound_sound_lemma nsimp x d roundings compulsory u). Qed.
Print Assumptions rationalize_bound_sound.

(** With [compulsory] it always yields a value within [1.1e-11] of [v]. *)
Theorem rationalize_bound_reaches (nsimp : Q -> Q -> Q) (x : Q) (d : dir)
  (roundings : option (list Q)) :
  (forall w t, 0 < t -> Qabs (nsimp w t - w) <= t) ->
  exists u, In u (rationalize_bound nsimp (Float x) d roundings true) /\
            Qabs (u - x) <= 11 # 1000000000000.
Proof. exact (rationalize_bound_reach_lemma nsimp x d roundings). Qed.
Print Assumptions rationalize_bound_reaches.

(** The hypotheses are met, e.g. by the function that changes nothing. *)
Example rationalize_bound_example :
  (forall w t, 0 < t -> Qabs ((fun w _ : Q => w) w t - w) <= t) /\
  map Qred (rationalize_bound (fun w _ => w) (Float (1 # 2)) Down (Some [1 # 2; 1 # 6]) false)
    = [- (1); 0].
Proof.
  split; [|vm_compute; reflexivity].
  intros w t Ht. setoid_replace (w - w) with 0 by ring. apply Qlt_le_weak. exact Ht.
Qed.

(** Refuted for rationals: the number itself is the only value yielded, whatever the side asked. *)
Theorem rationalize_bound_side_refuted (nsimp : Q -> Q -> Q) (x : Q) (d : dir)
  (roundings : option (list Q)) (compulsory : bool) :
  rationalize_bound nsimp (Exact x) d roundings compulsory = [x].
Proof. exact eq_refl. Qed.
Print Assumptions rationalize_bound_side_refuted.

(** What [rationalize_func] returns for a polynomial passes the validation, and the polynomial has
    the asked sign there; rational roots are exact, the other roots may be anything. *)
Theorem rationalize_func_sound (nsimp : Q -> Q -> Q) (f f' : Q -> Q) (roots : list num)
  (validation : Q -> bool) (initial : option (Q -> bool)) (d : dir) (t : Q) :
  (forall x, In (Exact x) roots -> f x == 0) ->
  rationalize_func_poly nsimp f f' roots validation initial d = Some t ->
  validation t = true /\ match d with Up => 0 <= f t | Any => True | Down => f t <= 0 end.
Proof. exact (rationalize_func_sound_lemma nsimp f f' roots validation initial d t). Qed.
Print Assumptions rationalize_func_sound.

(** [None] means that no rational root passes the validation. *)
Theorem rationalize_func_none (nsimp : Q -> Q -> Q) (f f' : Q -> Q) (roots : list num)
  (validation : Q -> bool) (initial : option (Q -> bool)) (d : dir) :
  rationalize_func_poly nsimp f f' roots validation initial d = None ->
  forall x, In (Exact x) roots -> validation x = false.
Proof. exact (rationalize_func_none_lemma nsimp f f' roots validation initial d). Qed.
Print Assumptions rationalize_func_none.

(** [t^2 - 2] with the float root 1.4142, asked to be non-negative. *)
Example rationalize_func_example :
  let f := fun t : Q => t * t - 2 in
  let roots := [Float (- (14142 # 10000)); Float (14142 # 10000)] in
  (forall x, In (Exact x) roots -> f x == 0) /\
  option_map Qred (rationalize_func_poly (fun w _ => w) f (fun t => 2 * t) roots
     (fun t => Qle_bool 0 t) None Up) = Some (14571 # 5000).
Proof.
  split; [|vm_compute; reflexivity].
  intros x H. cbn in H. destruct H as [H|[H|[]]]; discriminate H.
Qed.
