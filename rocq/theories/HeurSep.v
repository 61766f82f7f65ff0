(** * The wrapper of the recursion keeps the value *)
From Coq Require Import Bool List Arith Lia ZArith Ring Field.
From Verif Require Import OrdField Base Perm Poly Expr Amgm AmgmFacts Heur.
Import ListNotations.

Section Facts.
Variable K : OrdField.
Local Open Scope of_scope.
Add Field Kf : (F_field K).
Implicit Types (x : @sexpr K) (l : list (@sexpr K)) (env : nat -> K).

Fixpoint sexpr_ind2 (P : @sexpr K -> Prop) (H1 : forall v, P (SOther v)) (H2 : forall k, P (SCyc k)) (H3 : forall x n, P x -> P (SPow x n))
  (H4 : forall l, Forall P l -> P (SMul l)) (H5 : forall l, Forall P l -> P (SAdd l)) (x : @sexpr K) : P x :=
  let fix go l : Forall P l := match l with [] => Forall_nil P | y :: l' => Forall_cons y (sexpr_ind2 P H1 H2 H3 H4 H5 y) (go l') end in
  match x with
  | SOther v => H1 v
  | SCyc k => H2 k
  | SPow y n => H3 y n (sexpr_ind2 P H1 H2 H3 H4 H5 y)
  | SMul l => H4 l (go l)
  | SAdd l => H5 l (go l)
  end.

Lemma zp_mul_l (u v : K) n : ((n < 0)%Z -> u <> 0 /\ v <> 0) -> zp K (u * v) n = zp K u n * zp K v n.
Proof.
  intro H. unfold zp. destruct (Z.leb_spec 0 n) as [N|N]; [apply fpow_mul_l|]. destruct (H N) as [Hu Hv].
  rewrite fpow_mul_l. pose proof (fpow_neq0 K u (Z.to_nat (- n)) Hu). pose proof (fpow_neq0 K v (Z.to_nat (- n)) Hv). field. fnz.
Qed.
Lemma zp_opp (u : K) k : u <> 0 -> zp K u (- k) = 1 / zp K u k.
Proof.
  intro H. pose proof (zp_neq0 K u k H) as N. pose proof (zp_add K u (- k) k H) as E. replace (- k + k)%Z with 0%Z in E by lia.
  change (zp K u 0) with (1 : K) in E.
  transitivity (zp K u (- k) * zp K u k / zp K u k); [field; exact N|]. rewrite <- E. reflexivity.
Qed.
Lemma zp_zp (u : K) d n : u <> 0 -> zp K (zp K u d) n = zp K u (d * n).
Proof.
  intro H. unfold zp at 1. destruct (Z.leb_spec 0 n) as [N|N].
  - rewrite <- zp_mul by exact H. f_equal. rewrite Z2Nat.id by lia. apply Z.mul_comm.
  - rewrite <- zp_mul by exact H. rewrite <- zp_opp by exact H. f_equal. rewrite Z2Nat.id by lia. rewrite Z.mul_opp_l, Z.opp_involutive. apply Z.mul_comm.
Qed.
Lemma zp_1 n : zp K 1 n = 1.
Proof. unfold zp. destruct (0 <=? n)%Z; rewrite fpow_1; [reflexivity|]. field. apply fneq10. Qed.

Lemma sone_val env x : sone x = true -> sval env x = 1.
Proof. destruct x as [| | |[|]|]; cbn; intro; try discriminate. reflexivity. Qed.
Lemma smul_val env l : sval env (smul l) = fprod (map (sval env) l).
Proof.
  unfold smul. assert (E : fprod (map (sval env) (filter (fun x => negb (sone x)) l)) = fprod (map (sval env) l)).
  { induction l as [|x l IH]; [reflexivity|]. cbn [filter]. destruct (sone x) eqn:O; cbn [negb map fprod].
    - rewrite IH. change (fprod (map (sval env) (x :: l))) with (sval env x * fprod (map (sval env) l)). rewrite (sone_val env x O). ring.
    - change (sval env x * fprod (map (sval env) (filter (fun x => negb (sone x)) l)) = sval env x * fprod (map (sval env) l)). rewrite IH. reflexivity. }
  rewrite <- E. destruct (filter (fun x => negb (sone x)) l) as [|x [|y l']]; try reflexivity.
  change (sval env x = sval env x * 1). ring.
Qed.
Lemma sdef_Forall env l : fold_right and True (map (sdef env) l) <-> Forall (sdef env) (l : list (@sexpr K)).
Proof.
  induction l as [|x l IH]; cbn; [split; auto|]. rewrite IH. split; [intros []; auto|intro H; inversion H; auto].
Qed.
Lemma smul_def env l : Forall (sdef env) l -> sdef env (smul l).
Proof.
  intro H. unfold smul. assert (F : Forall (sdef env) (filter (fun x => negb (sone x)) l)).
  { rewrite Forall_forall in *. intros x Hx. apply filter_In in Hx. apply H, Hx. }
  destruct (filter (fun x => negb (sone x)) l) as [|x [|y l']]; [exact I|inversion F; assumption|]. apply sdef_Forall. exact F.
Qed.

Definition envp (env : nat -> K) : K := env 0%nat * env 1%nat * env 2%nat.
Lemma extract_spec env : envp env <> 0 -> forall x, sdef env x ->
  sval env x = zp K (envp env) (fst (extract x)) * sval env (snd (extract x)) /\ sdef env (snd (extract x)).
Proof.
  intro P. induction x as [v|k|x n IH|l IH|l IH] using sexpr_ind2; intro D.
  - split; [|exact D]. cbn [extract fst snd]. change (zp K (envp env) 0) with (1 : K). ring.
  - cbn [extract fst snd]. split; [|exact I]. change (zp K (envp env) k = zp K (envp env) k * 1). ring.
  - cbn [extract]. destruct D as [D N]. specialize (IH D). destruct (extract x) as [d r]. cbn [fst snd] in *. destruct IH as [E Dr].
    assert (Nr : (n < 0)%Z -> sval env r <> 0). { intros Hn Q. apply (N Hn). rewrite E, Q. ring. }
    change (sval env (SPow x n)) with (zp K (sval env x) n). rewrite E.
    rewrite zp_mul_l; [|intro Hn; split; [apply zp_neq0, P|exact (Nr Hn)]]. rewrite zp_zp by exact P. unfold spow. destruct (sone r) eqn:O.
    + split; [|exact Dr]. rewrite (sone_val env r O), zp_1. reflexivity.
    + split; [reflexivity|]. split; [exact Dr|exact Nr].
  - cbn [extract fst snd]. cbn [sdef] in D. apply sdef_Forall in D. rewrite smul_val. rewrite !map_map.
    change (sval env (SMul l)) with (fprod (map (sval env) l)).
    assert (Q : fprod (map (sval env) l) = zp K (envp env) (fold_right Z.add 0%Z (map (fun x => fst (extract x)) l)) * fprod (map (fun x => sval env (snd (extract x))) l)
                /\ Forall (sdef env) (map (fun x => snd (extract x)) l)).
    { induction l as [|x l IHl]; [split; [cbn; change (zp K (envp env) 0) with (1 : K); ring|constructor]|].
      inversion IH as [|? ? I1 I2]; subst. inversion D as [|? ? D1 D2]; subst. destruct (IHl I2 D2) as [E1 F1]. destruct (I1 D1) as [E2 F2].
      split; [|constructor; assumption].
      change (sval env x * fprod (map (sval env) l) = zp K (envp env) (fst (extract x) + fold_right Z.add 0%Z (map (fun x => fst (extract x)) l)) *
        (sval env (snd (extract x)) * fprod (map (fun x => sval env (snd (extract x))) l))).
      rewrite E1, E2, zp_add by exact P. ring. }
    destruct Q as [E F]. split; [exact E|]. apply smul_def. exact F.
  - split; [|exact D]. cbn [extract fst snd]. change (zp K (envp env) 0) with (1 : K). ring.
Qed.
Lemma separate_value env x : envp env <> 0 -> sdef env x -> sval env (separate x) = sval env x /\ sdef env (separate x).
Proof.
  intros P D. unfold separate. destruct (extract x) as [d r] eqn:E. destruct (extract_spec env P x D) as [V Dr]. rewrite E in V, Dr. cbn [fst snd] in V, Dr.
  destruct r as [| | | |l]; try (split; [reflexivity|exact D]). rewrite V. cbn [sdef] in Dr. apply sdef_Forall in Dr. cbn [sval]. rewrite map_map. clear V E D x.
  split.
  - rewrite <- (fsum_map_mul_l K). induction l as [|y l IH]; [reflexivity|]. inversion Dr as [|? ? D1 D2]; subst. cbn [map fsum fold_right].
    change (sval env (smul [SCyc (d + fst (extract y)); snd (extract y)]) + fsum (map (fun x0 => sval env (smul [SCyc (d + fst (extract x0)); snd (extract x0)])) l)
            = zp K (envp env) d * sval env y + fsum (map (fun i => zp K (envp env) d * sval env i) l)).
    rewrite (IH D2). destruct (extract_spec env P y D1) as [Vy _]. rewrite Vy, smul_val. cbn [map fprod fold_right].
    change (sval env (SCyc (d + fst (extract y)))) with (zp K (envp env) (d + fst (extract y))). rewrite zp_add by exact P. ring.
  - apply sdef_Forall. rewrite Forall_forall in *. intros z Hz. apply in_map_iff in Hz. destruct Hz as [y [<- Hy]].
    apply smul_def. constructor; [exact I|]. constructor; [|constructor]. apply (extract_spec env P y (Dr y Hy)).
Qed.
End Facts.
