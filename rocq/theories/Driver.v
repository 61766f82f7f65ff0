(** * Model of triples/core/sum_of_squares.py (drivers) and of the dispatcher in
    triples/core/structsos/structsos.py *)
From Coq Require Import Bool List Arith Lia ZArith Ring Field.
From Verif Require Import OrdField Base Poly Expr Sparse FreeSyms.
Import ListNotations.

(** ** [sum_of_squares] *)
Section Sos.
(** names of methods, keyword configurations, problems, solution objects *)
Variables Cfg Prob Sol : Type.
Variable empty_cfg : Cfg.
(** [NAME_TO_METHOD] (sum_of_squares.py): [None] for a name that is not in the table. Calling a
    method returns a solution or None, or raises. *)
Variable method_of : nat -> option (Cfg -> Prob -> res (option Sol)).
Variable METHOD_ORDER : list nat.
Variable DEFAULT_CONFIGS : list (nat * Cfg).

Fixpoint cfg_get (configs : list (nat * Cfg)) (m : nat) : Cfg :=
  match configs with [] => empty_cfg | (k, c) :: l => if Nat.eqb m k then c else cfg_get l m end.

(** the loop of [sum_of_squares] (sum_of_squares.py:123-129), with the list of calls made *)
Fixpoint sos_loop (configs : list (nat * Cfg)) (order : list nat) (p : Prob) : res (option Sol) * list (nat * Cfg) :=
  match order with
  | [] => (Ok None, [])
  | m :: order' =>
      let config := cfg_get configs m in
      match method_of m with
      | None => (Err KeyError, [])
      | Some f => match f config p with
                  | Err e => (Err e, [(m, config)])
                  | Ok (Some s) => (Ok (Some s), [(m, config)])
                  | Ok None => let (r, calls) := sos_loop configs order' p in (r, (m, config) :: calls)
                  end
      end
  end.
(** [sum_of_squares] (sum_of_squares.py:118-131). The decorator [sanitize_output] only writes the
    problem and the times into the solution object. *)
Definition sum_of_squares (p : Prob) (order : option (list nat)) (configs : option (list (nat * Cfg)))
  : res (option Sol) * list (nat * Cfg) :=
  let order := match order with Some o => o | None => METHOD_ORDER end in
  let configs := match configs with Some c => c | None => DEFAULT_CONFIGS end in
  sos_loop configs order p.

(** Specification: a method that is known and finds nothing; what the caller may rely on *)
Definition finds_nothing configs p m : Prop := exists f, method_of m = Some f /\ f (cfg_get configs m) p = Ok None.

Lemma sos_loop_spec configs order p :
  let (r, calls) := sos_loop configs order p in
  match r with
  | Ok (Some s) => exists l1 m l2 f, order = l1 ++ m :: l2 /\ Forall (finds_nothing configs p) l1 /\
      method_of m = Some f /\ f (cfg_get configs m) p = Ok (Some s) /\
      calls = map (fun m => (m, cfg_get configs m)) (l1 ++ [m])
  | Ok None => Forall (finds_nothing configs p) order /\ calls = map (fun m => (m, cfg_get configs m)) order
  | Err e => exists l1 m l2, order = l1 ++ m :: l2 /\ Forall (finds_nothing configs p) l1 /\
      ((method_of m = None /\ e = KeyError /\ calls = map (fun m => (m, cfg_get configs m)) l1) \/
       (exists f, method_of m = Some f /\ f (cfg_get configs m) p = Err e /\ calls = map (fun m => (m, cfg_get configs m)) (l1 ++ [m])))
  end.
Proof.
  induction order as [|m order IH]; cbn [sos_loop]; [split; [constructor|reflexivity]|].
  destruct (method_of m) as [f|] eqn:Em.
  - destruct (f (cfg_get configs m) p) as [[s|]|e] eqn:Ef.
    + exists [], m, order, f. repeat split; auto.
    + destruct (sos_loop configs order p) as [r calls].
      assert (Hn : finds_nothing configs p m) by (exists f; auto).
      destruct r as [[s|]|e].
      * destruct IH as [l1 [m' [l2 [f' [-> [H1 [H2 [H3 ->]]]]]]]]. exists (m :: l1), m', l2, f'. repeat split; auto.
      * destruct IH as [H1 ->]. split; [constructor; assumption|reflexivity].
      * destruct IH as [l1 [m' [l2 [-> [H1 H]]]]]. exists (m :: l1), m', l2. split; [reflexivity|]. split; [constructor; assumption|].
        destruct H as [[A [B ->]]|[f' [A [B ->]]]]; [left; auto|right; exists f'; auto].
    + exists [], m, order. split; [reflexivity|]. split; [constructor|]. right. exists f. auto.
  - exists [], m, order. split; [reflexivity|]. split; [constructor|]. left. auto.
Qed.
End Sos.

(** ** [sum_of_squares_multiple] *)
Section Batch.
Variables Text PolyT Sol Cell : Type.
(** [str.strip], whether the stripped string is empty, [preprocess_text] (a polynomial, or None, or
    an exception), [deg], [sum_of_squares], the attribute [is_equal]. *)
Variable strip : Text -> Text.
Variable is_empty : Text -> bool.
Variable parse : Text -> res (option PolyT).
Variable deg : PolyT -> res nat.
Variable solve : PolyT -> res (option Sol).
Variable is_equal : Sol -> bool.

(** what the caller may put in the list: a string, a polynomial, or another object *)
Inductive item : Type := IStr (s : Text) | IPoly (p : PolyT) | IOther.
Inductive status : Type := Invalid | Fail | Inaccurate | Success | ErrorS.
Record record : Type := { r_problem : item; r_deg : nat; r_status : status; r_solution : option Sol }.

(** [PolyReader.__init__] (text_process.py:498-514): strip, drop empty strings and other objects *)
Definition strip_item (i : item) : item := match i with IStr s => IStr (strip s) | _ => i end.
Definition keep_item (i : item) : bool := match i with IStr s => negb (is_empty s) | IPoly _ => true | IOther => false end.
Definition reader (items : list item) : list item := filter keep_item (map strip_item items).
(** [PolyReader.__next__] (text_process.py:528-540); the inner [except] is bare, exceptions of the
    parser all become None or ValueError *)
Definition read_next (ignore_errors : bool) (i : item) : res (option PolyT) :=
  match i with
  | IStr s => match parse s with
              | Ok r => Ok r
              | Err _ => if ignore_errors then Ok None else Err ValueError
              end
  | IPoly p => Ok (Some p)
  | IOther => Ok None
  end.
(** the loop of [sum_of_squares_multiple] (sum_of_squares.py:211-250): [deg] is called outside the
    [try]; an exception of the solver is recorded. The time is not modelled. *)
Fixpoint batch_loop (ignore_errors : bool) (items : list item) : res (list record) :=
  match items with
  | [] => Ok []
  | i :: items' =>
      match read_next ignore_errors i with
      | Err e => Err e
      | Ok None =>
          match batch_loop ignore_errors items' with
          | Err e => Err e
          | Ok rs => Ok ({| r_problem := i; r_deg := 0; r_status := Invalid; r_solution := None |} :: rs)
          end
      | Ok (Some p) =>
          match deg p with
          | Err e => Err e
          | Ok d =>
              let r := match solve p with
                       | Ok None => {| r_problem := i; r_deg := d; r_status := Fail; r_solution := None |}
                       | Ok (Some s) => {| r_problem := i; r_deg := d;
                                           r_status := if is_equal s then Success else Inaccurate; r_solution := Some s |}
                       | Err _ => {| r_problem := i; r_deg := d; r_status := ErrorS; r_solution := None |}
                       end in
              match batch_loop ignore_errors items' with
              | Err e => Err e
              | Ok rs => Ok (r :: rs)
              end
          end
      end
  end.

(** [_process_records] (sum_of_squares.py:255-312), the file name part. Paths are lists of
    characters; [SLASH] is the separator (posix). *)
Definition path : Type := list nat.
Definition SLASH : nat := 47.
Fixpoint dirname_rev (r : path) : path :=   (* argument and result reversed *)
  match r with [] => [] | c :: r' => if Nat.eqb c SLASH then r else dirname_rev r' end.
(** [os.path.dirname] up to the trailing slash, which does not matter here *)
Definition dirname (p : path) : path := rev (dirname_rev (rev p)).
Fixpoint basename_rev (r : path) : path :=
  match r with [] => [] | c :: r' => if Nat.eqb c SLASH then [] else c :: basename_rev r' end.
Definition basename (p : path) : path := rev (basename_rev (rev p)).
(** [os.path.join] *)
Definition join (d f : path) : path :=
  match d with [] => f | _ => if Nat.eqb (last d 0) SLASH then d ++ f else d ++ SLASH :: f end.
Inductive save : Type := SaveNo | SaveTrue | SaveTo (p : path).
Variable isdir : path -> bool.          (* os.path.isdir *)
Variable ends_csv : path -> bool.       (* str.endswith('.csv') *)
Variable stamp : path.                  (* strftime(...) + '.csv' *)
Variable sos_prefix : path.             (* 'sos_' *)
Variable underscore : path.             (* '_' *)
Variable getcwd : path.
Definition file_name (s : save) (source : option path) : res (option path) :=
  match s with
  | SaveNo => Ok None
  | SaveTrue => Ok (Some (join (match source with Some p => dirname p | None => getcwd end)
                               ((match source with Some p => basename p ++ underscore | None => sos_prefix end) ++ stamp)))
  | SaveTo d => if isdir d then
                  Ok (Some (join d ((match source with Some p => basename p ++ underscore | None => sos_prefix end) ++ stamp)))
                else if ends_csv d then Ok (Some d) else Err ValueError
  end.
(** [os.makedirs(os.path.dirname(filename), exist_ok=True)]: the empty path is an error
    (FileNotFoundError); directories are assumed creatable otherwise *)
Definition makedirs (d : path) : res unit := match d with [] => Err OtherError | _ => Ok tt end.
(** [_process_records]: returns the records and the file written. With no record the table has no
    column 'solution' and saving it is a KeyError (line 289). Formatting the solutions
    ([save_solution_method]) and writing the file are assumed to succeed. *)
Definition process_records (rs : list record) (s : save) (source : option path) : res (list record * option path) :=
  match s, rs with SaveTrue, [] | SaveTo _, [] => Err KeyError | _, _ =>
  match file_name s source with
  | Err e => Err e
  | Ok None => Ok (rs, None)
  | Ok (Some f) => match makedirs (dirname f) with
                   | Err e => Err e
                   | Ok _ => Ok (rs, Some f)
                   end
  end end.
Definition sum_of_squares_multiple (ignore_errors : bool) (items : list item) (s : save) (source : option path)
  : res (list record * option path) :=
  match batch_loop ignore_errors (reader items) with
  | Err e => Err e
  | Ok rs => process_records rs s source
  end.

(** Specification: the record of one problem, by itself *)
Inductive describes : item -> record -> Prop :=
| d_unread s : (exists e, parse s = Err e) \/ parse s = Ok None ->
    describes (IStr s) {| r_problem := IStr s; r_deg := 0; r_status := Invalid; r_solution := None |}
| d_read i p d r : (i = IPoly p \/ exists s, i = IStr s /\ parse s = Ok (Some p)) -> deg p = Ok d ->
    r_problem r = i -> r_deg r = d ->
    (match solve p with
     | Ok (Some s) => r_solution r = Some s /\ r_status r = if is_equal s then Success else Inaccurate
     | Ok None => r_solution r = None /\ r_status r = Fail
     | Err _ => r_solution r = None /\ r_status r = ErrorS
     end) -> describes i r.

Lemma batch_all items : (forall i p, In i items -> read_next true i = Ok (Some p) -> exists d, deg p = Ok d) ->
  (forall i, In i items -> i <> IOther) ->
  exists rs, batch_loop true items = Ok rs /\ Forall2 describes items rs.
Proof.
  induction items as [|i items IH]; intros Hd Ho; cbn [batch_loop]; [exists []; auto|].
  destruct IH as [rs [E F]]; [intros; eapply Hd; [right; eassumption|eassumption]|intros; apply Ho; right; assumption|].
  rewrite E. destruct i as [s|p|].
  - assert (Hd0 : forall p, read_next true (IStr s) = Ok (Some p) -> exists d', deg p = Ok d').
    { intros p Hp. exact (Hd (IStr s) p (or_introl eq_refl) Hp). }
    cbn [read_next] in *. destruct (parse s) as [[p|]|e] eqn:Ep.
    + destruct (Hd0 p eq_refl) as [d Hdp]. rewrite Hdp. cbv zeta.
      destruct (solve p) as [[sl|]|e] eqn:Es; eexists; (split; [reflexivity|]); constructor; try exact F;
        (eapply d_read; [right; exists s; split; [reflexivity|exact Ep]|exact Hdp|reflexivity|reflexivity|rewrite Es; split; reflexivity]).
    + eexists; split; [reflexivity|]. constructor; [|exact F]. constructor. right. exact Ep.
    + eexists; split; [reflexivity|]. constructor; [|exact F]. constructor. left. exists e. exact Ep.
  - cbn [read_next]. destruct (Hd (IPoly p) p (or_introl eq_refl) eq_refl) as [d H]; rewrite H; cbv zeta;
      destruct (solve p) as [[sl|]|e] eqn:Es; eexists; (split; [reflexivity|]); constructor; try exact F;
        (eapply d_read; [left; reflexivity|exact H|reflexivity|reflexivity|rewrite Es; split; reflexivity]).
  - exfalso. apply (Ho IOther); [left; reflexivity|reflexivity].
Qed.
Lemma reader_not_other items i : In i (reader items) -> i <> IOther.
Proof. unfold reader. intros H ->. apply filter_In in H. destruct H as [_ H]. discriminate. Qed.
(** every item read that is not blank, in order *)
Lemma reader_spec items : reader items = map strip_item (filter (fun i => keep_item (strip_item i)) items).
Proof.
  unfold reader. induction items as [|i l IH]; [reflexivity|]. cbn [map filter]. destruct (keep_item (strip_item i)); cbn; rewrite IH; reflexivity.
Qed.

(** Specification of the whole call: which inputs are problems, and the save target *)
Definition is_problem (i : item) : Prop :=
  match i with IStr s => is_empty (strip s) = false | IPoly _ => True | IOther => False end.
Definition degrees_known (items : list item) : Prop :=
  forall i p, In i items -> (i = IPoly p \/ exists s, i = IStr s /\ parse (strip s) = Ok (Some p)) -> exists d, deg p = Ok d.
Lemma reader_degrees items : degrees_known items ->
  forall i p, In i (reader items) -> read_next true i = Ok (Some p) -> exists d, deg p = Ok d.
Proof.
  intros H i p Hi Hr. unfold reader in Hi. apply filter_In in Hi. destruct Hi as [Hi _]. apply in_map_iff in Hi.
  destruct Hi as [j [<- Hj]]. apply (H j p Hj). destruct j as [s|p0|]; cbn in *.
  - right. exists s. split; [reflexivity|]. destruct (parse (strip s)) as [r|e]; [injection Hr as ->; reflexivity|discriminate].
  - left. congruence.
  - discriminate.
Qed.
Lemma keep_problem i : keep_item (strip_item i) = true <-> is_problem i.
Proof. destruct i; cbn; [rewrite negb_true_iff; tauto|tauto|split; [discriminate|tauto]]. Qed.

Lemma batch_records items : degrees_known items ->
  exists probs rs, probs = filter (fun i => keep_item (strip_item i)) items /\
    (forall i, In i probs <-> In i items /\ is_problem i) /\
    sum_of_squares_multiple true items SaveNo None = Ok (rs, None) /\ Forall2 describes (map strip_item probs) rs.
Proof.
  intro H. destruct (batch_all (reader items)) as [rs [E F]].
  - apply reader_degrees. exact H.
  - apply reader_not_other.
  - eexists; exists rs. split; [reflexivity|]. split; [intro i; rewrite filter_In, keep_problem; reflexivity|].
    unfold sum_of_squares_multiple. rewrite E. split; [destruct rs; reflexivity|]. rewrite reader_spec in F. exact F.
Qed.
(** saving: nothing is lost when the file name has a directory part and there is a record *)
Lemma batch_saved items s source rs : sum_of_squares_multiple true items SaveNo None = Ok (rs, None) -> rs <> [] ->
  (exists f, file_name s source = Ok (Some f) /\ dirname f <> []) \/ s = SaveNo ->
  exists f, sum_of_squares_multiple true items s source = Ok (rs, f).
Proof.
  unfold sum_of_squares_multiple. destruct (batch_loop true (reader items)) as [rs0|e]; [|discriminate].
  intros H Hne Hs. assert (rs0 = rs) by (destruct rs0; cbn in H; injection H as <-; reflexivity). subst rs0.
  destruct Hs as [[f [Hf Hd]]| ->]; [|exists None; exact H].
  unfold process_records. rewrite Hf. unfold makedirs. destruct (dirname f); [congruence|].
  destruct rs as [|r rs]; [congruence|]. destruct s; [exists (Some f)|exists (Some f)|exists (Some f)]; reflexivity.
Qed.
Lemma process_never_alters rs s source rs' f : process_records rs s source = Ok (rs', f) -> rs' = rs.
Proof.
  unfold process_records. destruct s; destruct rs; try discriminate; destruct (file_name _ _) as [[g|]|e]; try discriminate;
    try (destruct (makedirs _); try discriminate); congruence.
Qed.
End Batch.
Arguments IStr {Text PolyT} s. Arguments IPoly {Text PolyT} p. Arguments IOther {Text PolyT}.

(** ** The dispatcher *)
Section Dispatch.
Context {K : OrdField}.
Local Open Scope of_scope.
(** free symbols of a polynomial in [n] generators *)
Definition free_symbols (n : nat) (p : poly K) : list nat :=
  filter (fun i => existsb (fun m => Nat.ltb 0 (nth i m 0%nat)) (keys p)) (seq 0 n).
(** [Poly.is_monomial] (true for the zero polynomial) and [Poly.LC] *)
Definition is_monomial (p : poly K) : bool := Nat.leb (length p) 1.
Definition LC (p : poly K) : K := match p with [] => 0 | (_, c) :: _ => c end.

(** A solver of the package, seen from the dispatcher: it gets the active generators, the goal and
    the active constraints (positions are kept; the code drops the other generators). *)
Definition subsolver : Type := list nat -> poly K -> list (@sympoly K) -> list (@sympoly K) -> option (ex K).
(** [_structural_sos] (structsos.py:51-85) *)
Definition structural_sos_ (s2 s3 s4 nquartic quad constr : subsolver)
    (n : nat) (p : poly K) (ineqs eqs : list (@sympoly K)) : option (ex K) :=
  if is_monomial p then
    if 0 <=? LC p then Some (as_expr p) else None
  else
    let '(act, ki, ke) := clear_free_symbols n (free_symbols n p, fun x => peval x p) ineqs eqs in
    let d := total_degree p in
    let nvars := length act in
    let s := if Nat.eqb nvars 2 then s2 act p ki ke
             else if Nat.eqb nvars 3 then s3 act p ki ke
             else if Nat.eqb nvars 4 then s4 act p ki ke else None in
    let s := match s with Some e => Some e | None => if Nat.ltb 3 nvars then nquartic act p ki ke else None end in
    let s := match s with Some e => Some e | None => if (Nat.ltb 3 nvars && Nat.eqb d 2)%bool then quad act p ki ke else None end in
    match s with Some e => Some e | None => constr act p ki ke end.
(** [StructuralSOS] (structsos.py:42-48): a solution that is the number 0 for a goal that is not
    zero is ill (solution.py:142-146) *)
Definition is_zero_expr (e : ex K) : bool := match e with EC c => c =? 0 | _ => false end.
Definition StructuralSOS s2 s3 s4 nq qd co n p ineqs eqs : option (ex K) :=
  match structural_sos_ s2 s3 s4 nq qd co n p ineqs eqs with
  | None => None
  | Some e => if (is_zero_expr e && negb (forallb (fun t => snd t =? 0) p))%bool then None else Some e
  end.

(** a subsolver returns certificates that hold at the points feasible for what it was given *)
Definition sub_sound (s : subsolver) : Prop :=
  forall act p ki ke e, s act p ki ke = Some e -> certifies (feasible ki ke) p e.

Lemma dispatch_sound s2 s3 s4 nq qd co n p ineqs eqs e : wf n p ->
  sub_sound s2 -> sub_sound s3 -> sub_sound s4 -> sub_sound nq -> sub_sound qd -> sub_sound co ->
  is_monomial p = false ->
  StructuralSOS s2 s3 s4 nq qd co n p ineqs eqs = Some e -> certifies (feasible ineqs eqs) p e.
Proof.
  intros Hwf H2 H3 H4 Hn Hq Hc Hm. unfold StructuralSOS. intro H.
  assert (H' : structural_sos_ s2 s3 s4 nq qd co n p ineqs eqs = Some e).
  { destruct (structural_sos_ _ _ _ _ _ _ _ _ _ _) as [e0|]; [|discriminate]. destruct (_ && _)%bool; [discriminate|exact H]. }
  clear H. unfold structural_sos_ in H'. rewrite Hm in H'. unfold clear_free_symbols in H'. cbv zeta in H'.
  set (act := active_gens _ _ _ _) in H'.
  set (ki := filter (fun p : list nat * ((nat -> K) -> K) => is_active act (fst p)) ineqs) in H'.
  set (ke := filter (fun p : list nat * ((nat -> K) -> K) => is_active act (fst p)) eqs) in H'.
  assert (G : certifies (feasible ki ke) p e).
  { destruct (Nat.eqb (length act) 2).
    { destruct (s2 act p ki ke) eqn:E; [injection H' as <-; apply (H2 _ _ _ _ _ E)|].
      destruct (Nat.ltb 3 (length act)); cbn [andb] in H'.
      - destruct (nq act p ki ke) eqn:E2; [injection H' as <-; apply (Hn _ _ _ _ _ E2)|].
        destruct (Nat.eqb (total_degree p) 2); [destruct (qd act p ki ke) eqn:E3; [injection H' as <-; apply (Hq _ _ _ _ _ E3)|]|]; apply (Hc _ _ _ _ _ H').
      - apply (Hc _ _ _ _ _ H'). }
    destruct (Nat.eqb (length act) 3).
    { destruct (s3 act p ki ke) eqn:E; [injection H' as <-; apply (H3 _ _ _ _ _ E)|].
      destruct (Nat.ltb 3 (length act)); cbn [andb] in H'.
      - destruct (nq act p ki ke) eqn:E2; [injection H' as <-; apply (Hn _ _ _ _ _ E2)|].
        destruct (Nat.eqb (total_degree p) 2); [destruct (qd act p ki ke) eqn:E3; [injection H' as <-; apply (Hq _ _ _ _ _ E3)|]|]; apply (Hc _ _ _ _ _ H').
      - apply (Hc _ _ _ _ _ H'). }
    destruct (Nat.eqb (length act) 4).
    { destruct (s4 act p ki ke) eqn:E; [injection H' as <-; apply (H4 _ _ _ _ _ E)|].
      destruct (Nat.ltb 3 (length act)); cbn [andb] in H'.
      - destruct (nq act p ki ke) eqn:E2; [injection H' as <-; apply (Hn _ _ _ _ _ E2)|].
        destruct (Nat.eqb (total_degree p) 2); [destruct (qd act p ki ke) eqn:E3; [injection H' as <-; apply (Hq _ _ _ _ _ E3)|]|]; apply (Hc _ _ _ _ _ H').
      - apply (Hc _ _ _ _ _ H'). }
    destruct (Nat.ltb 3 (length act)); cbn [andb] in H'.
    - destruct (nq act p ki ke) eqn:E2; [injection H' as <-; apply (Hn _ _ _ _ _ E2)|].
      destruct (Nat.eqb (total_degree p) 2); [destruct (qd act p ki ke) eqn:E3; [injection H' as <-; apply (Hq _ _ _ _ _ E3)|]|]; apply (Hc _ _ _ _ _ H').
    - apply (Hc _ _ _ _ _ H'). }
  intros x [X1 X2] Hd. apply G; [|exact Hd]. split; intros p' Hp'; apply filter_In in Hp'; [apply X1|apply X2]; tauto.
Qed.

(** monomials: the answer is the polynomial itself, non-negative on the orthant *)
Lemma dispatch_monomial s2 s3 s4 nq qd co n p ineqs eqs e : wf n p -> is_monomial p = true ->
  StructuralSOS s2 s3 s4 nq qd co n p ineqs eqs = Some e ->
  (forall x, ev x e = peval x p) /\ (forall x, orthant n x -> 0 <= peval x p) /\
  (forallb (fun m => forallb Nat.even m) (keys p) = true -> forall x, 0 <= peval x p).
Proof.
  intros [Hnd Hlen] Hm. unfold StructuralSOS, structural_sos_. rewrite Hm. destruct (0 <=? LC p) eqn:E; [|discriminate].
  apply fleb_le in E. destruct (_ && _)%bool; [discriminate|]. intro H. injection H as <-.
  split; [intro x; apply ev_as_expr|]. destruct p as [|[m c] [|t p]]; [| |discriminate].
  - split; intros; unfold peval; cbn; apply fle_refl.
  - cbn [LC] in E. assert (Hl : length m = n) by (apply Hlen; left; reflexivity).
    assert (Hv : forall x, peval x [(m, c)] = c * meval x m).
    { intro x. unfold peval. cbn. pose proof (Radd_0_l (F_R (F_field K))) as R0. pose proof (Radd_comm (F_R (F_field K))) as Rc.
      rewrite Rc, R0. reflexivity. }
    split.
    + intros x Hx. rewrite Hv. apply fmul_nonneg; [exact E|]. apply meval_orthant. rewrite Hl. exact Hx.
    + cbn [keys map fst forallb]. intros He x. rewrite Hv. apply fmul_nonneg; [exact E|]. apply meval_even_nonneg. rewrite andb_true_r in He. exact He.
Qed.
End Dispatch.
