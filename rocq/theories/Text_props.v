(** * Properties of the text parser (C10, C11, C61) *)
From Coq Require Import Bool List Arith NArith ZArith Lia String.
From Verif Require Import OrdField Base Perm Text TextFacts.
Import ListNotations.
Local Open Scope N_scope.

(** C10.  For every string and all flags, completion only inserts '*' and '^' into the string
    without spaces. *)
Theorem completion_inserts sci ps pc s : ins (nospace s) (completion sci ps pc s).
Proof. exact (complete_ins sci ps pc (nospace s) 0%nat). Qed.
Print Assumptions completion_inserts.

(** an operator is missing between [c] and [d]: a number, letter or ')' before a letter or '(',
    or a letter or ')' before a digit *)
Definition missing (c d : N) : bool :=
  ((is_digit c || is_alpha c || (c =? RP)) && (is_alpha d || (d =? LP))) || ((is_alpha c || (c =? RP)) && is_digit d).
(** C10.  After completion no operator is missing, except inside a root sign that is kept. *)
Theorem completion_complete ps pc s u c d w : completion false ps pc s = u ++ c :: d :: w -> missing c d = false \/
  exists u' r w', completion false ps pc s = u' ++ r ++ w' /\
    ((ps = true /\ r = of_string "sqrt(") \/ (pc = true /\ r = of_string "cbrt(")) /\
    (List.length u' <= List.length u <= List.length u' + 3)%nat.
Proof.
  intro E. destruct (comp_tight ps pc (nospace s) u c d w E) as [G|G]; [left|right; exact G].
  unfold missing. unfold glue in G.
  assert (X : is_alpha d || (d =? LP) = (d =? LP) || is_alpha d) by apply orb_comm. rewrite X. clear X.
  destruct (is_digit c) eqn:D; cbn [orb].
  - destruct ((d =? LP) || is_alpha d); [discriminate|]. cbn. destruct (is_digit d) eqn:D'; [|apply andb_false_r].
    rewrite andb_true_r. assert (A : is_alpha c = false) by (apply digit_not_alpha, D). rewrite A. destruct (digit_facts _ D) as [_ [_ [R _]]].
    apply N.eqb_neq in R. rewrite R. reflexivity.
  - rewrite (orb_comm (is_alpha c)). destruct ((c =? RP) || is_alpha c); [|reflexivity].
    destruct ((d =? LP) || is_alpha d); [discriminate|]. destruct (is_digit d); [discriminate|reflexivity].
Qed.
Print Assumptions completion_complete.

Theorem completion_idempotent ps pc s : completion false ps pc (completion false ps pc s) = completion false ps pc s.
Proof.
  unfold completion at 1. rewrite (ins_nospace (nospace s) _ (nospace_idem s) (completion_inserts false ps pc s)).
  exact (comp_idem ps pc (nospace s)).
Qed.
Print Assumptions completion_idempotent.

(** C10.  The completed text of an expression is the text of the same expression with all
    operators written. *)
Theorem completion_means e l : ok l e = true -> plain e = true -> completion false true false (print false e) = print true e.
Proof.
  intros H P. unfold completion. rewrite nospace_tame; [exact (completion_print e l H P)|].
  intros c Hc. apply char_tame. exact (print_chars e l c H Hc).
Qed.
Print Assumptions completion_means.

Definition num (s : string) : tx := TNum (of_string s).
Definition var (s : string) : tx := TVar (hd 0 (of_string s)).
(** 1/5a3b2c - (a+2b)2sqrt(3)(c) *)
Definition ex_text : tx :=
  TBin Bsub (TJux (TJux (TJux (TBin Bdiv (num "1") (num "5")) (TPow false (var "a") (of_string "3"))) (TPow false (var "b") (of_string "2"))) (var "c"))
            (TJux (TJux (TPow false (TPar (TBin Badd (var "a") (TJux (num "2") (var "b")))) (of_string "2")) (TRoot (num "3"))) (TPar (var "c"))).
Example completion_case : ok 0 ex_text = true /\ plain ex_text = true /\
  print false ex_text = of_string "1/5a3b2c-(a+2b)2sqrt(3)(c)" /\
  completion false true false (of_string "1/5a3b2c - (a+2b)2 sqrt(3)(c)") = of_string "1/5*a^3*b^2*c-(a+2*b)^2*sqrt(3)*(c)" /\
  completion true true false (of_string "2e3a") = of_string "2e3*a" /\ completion false true false (of_string "2e3a") = of_string "2*e^3*a".
Proof. repeat split. Qed.

(** C11.  Text with nested macros s(...) and p(...): the parser hands over the text, with all
    operators, of an expression without macros, and this expression has for all values of the
    variables the value of the written one, a macro being the sum (product) over all permutations
    of the variables. *)
Theorem macros_mean names perms e l : names_ok names perms -> ok l e = true -> wordless (print false e) ->
  exists e', preprocess_text names perms false true false (print false e) = Ok (print true e') /\ ok l e' = true /\ plain e' = true /\
    forall (K : OrdField) (sqrt : K -> K) v, val K sqrt names perms v e' = val K sqrt names perms v e.
Proof.
  intros Hn H W. exists (xexp names perms e). split; [exact (preprocess_print names perms e l Hn H W)|].
  destruct (xexp_facts names perms Hn e l H) as [_ [O [P _]]]. split; [exact O|]. split; [exact P|].
  intros K sqrt v. exact (val_xexp names perms Hn K sqrt e l v H).
Qed.
Print Assumptions macros_mean.

Definition abc : list N := of_string "abc".
Definition cyc3 : list (list nat) := [[0; 1; 2]; [1; 2; 0]; [2; 0; 1]]%nat.
(** s(a2p(a-b)) - 2s(ab) *)
Definition ex_macro : tx :=
  TBin Bsub (TMac false (TJux (TPow false (var "a") (of_string "2")) (TMac true (TBin Bsub (var "a") (var "b")))))
            (TJux (num "2") (TMac false (TJux (var "a") (var "b")))).
Lemma cyc3_ok : names_ok abc cyc3.
Proof.
  split; [|split; [|discriminate]].
  - intros c Hc. cbn in Hc. destruct Hc as [<-|[<-|[<-|[]]]]; (split; [reflexivity|]); intro H; cbn in H; intuition discriminate.
  - assert (S : forall p, In p cyc3 -> exists l, p = l) by eauto. intros p Hp. unfold is_perm. cbn in Hp.
    destruct Hp as [<-|[<-|[<-|[]]]].
    + apply Permutation.Permutation_refl.
    + cbn. apply (Permutation.Permutation_app_comm [1; 2]%nat [0]%nat).
    + cbn. apply (Permutation.Permutation_app_comm [2]%nat [0; 1]%nat).
Qed.
Example macros_case : names_ok abc cyc3 /\ ok 0 ex_macro = true /\ wordless (print false ex_macro) /\
  print false ex_macro = of_string "s(a2p(a-b))-2s(ab)" /\
  preprocess_text abc cyc3 false true false (of_string "s(a2p(a-b))-2s(ab)") =
  Ok (of_string "((a^2*((a-b)*(b-c)*(c-a)))+(b^2*((b-c)*(c-a)*(a-b)))+(c^2*((c-a)*(a-b)*(b-c))))-2*((a*b)+(b*c)+(c*a))").
Proof. split; [exact cyc3_ok|]. split; [reflexivity|]. split; [repeat split|]. split; reflexivity. Qed.

(** An unmatched ')' is an IndexError, not an error message about the text. *)
Theorem unbalanced_text_refuted : expansion abc cyc3 (of_string "a)+b") = Err IndexError /\
  delatex (of_string "a)+bbbbbbb") = Err IndexError.
Proof. split; reflexivity. Qed.
Print Assumptions unbalanced_text_refuted.

(** When a variable is called q, r or t, a root inside a macro is renamed as well: in the variables
    r and x, s(sqrt(x)) becomes sqrt(x) + s*q*x*t(r). *)
Theorem macro_root_names_refuted : exists names perms e l,
  (forall c, In c names -> var_ok c = true) /\ (forall p, In p perms -> is_perm (List.length names) p) /\ perms <> [] /\
  ok l e = true /\ print false e = of_string "s(sqrt(x))" /\
  preprocess_text names perms false true false (print false e) = Ok (of_string "((sqrt(x))+(s*q*x*t*(r)))") /\
  print true (xexp names perms e) = of_string "((sqrt(x))+(sqrt(r)))".
Proof.
  exists (of_string "rx"), [[0; 1]; [1; 0]]%nat, (TMac false (TRoot (var "x"))), 0%nat.
  split; [intros c Hc; cbn in Hc; destruct Hc as [<-|[<-|[]]]; reflexivity|].
  split; [intros p [<-|[<-|[]]]; [apply Permutation.Permutation_refl|apply Permutation.perm_swap]|]. split; [discriminate|]. repeat split.
Qed.
Print Assumptions macro_root_names_refuted.

(** C61.  A LaTeX sum \sum or product \prod over a term, at the end of the text or followed by a
    sign and another term, means the sum (product) of that term.  Missing: the term after the sign
    must have at least four characters, and the sum must not stand in a bracket. *)
Theorem latex_sum_partial names perms p e e2 o : names_ok names perms -> ok 1 e = true -> ok 1 e2 = true -> o = Badd \/ o = Bsub ->
  ((2 <= List.length (print false e))%nat -> wordless ((if p : bool then of_string "prod" else of_string "sum") ++ print false e) ->
   preprocess_text names perms false true false (of_string (if p then "\prod" else "\sum") ++ print false e) = Ok (print true (xexp names perms (TMac p e)))) /\
  ((4 <= List.length (print false e2))%nat -> wordless ((if p then of_string "prod" else of_string "sum") ++ print false e ++ opc o :: print false e2) ->
   preprocess_text names perms false true false (of_string (if p then "\prod" else "\sum") ++ print false e ++ opc o :: print false e2) =
   Ok (print true (xexp names perms (TBin o (TMac p e) e2)))).
Proof.
  intros Hn H H2 Ho.
  assert (W : of_string (if p then "\prod" else "\sum") = mac_word p) by (destruct p; reflexivity). rewrite W.
  assert (F : forall e' l, ok l e' = true -> completion false true false (xtext names perms e') = print true (xexp names perms e')).
  { intros e' l' H'. destruct (xexp_facts names perms Hn e' l' H') as [E [O [P _]]]. unfold completion. rewrite E. exact (completion_print _ _ O P). }
  assert (H0 : ok 0 e = true).
      { clear -H. destruct e; try exact H; [destruct o; try exact H|]; discriminate. }
  split; intros L WD; unfold preprocess_text.
  - rewrite (delatex_sum_all p e H L WD). rewrite (expansion_print names perms (TMac p e) 1 H0). rewrite (F (TMac p e) 1%nat H0). reflexivity.
  - rewrite (delatex_sum_more p e o e2 Ho H H2 L WD).
    assert (OK : ok 0 (TBin o (TMac p e) e2) = true).
    { destruct Ho as [->| ->]; cbn [ok]; rewrite !andb_true_iff; repeat split; assumption. }
    rewrite (expansion_print names perms _ 0 OK), (F _ 0%nat OK). reflexivity.
Qed.
Print Assumptions latex_sum_partial.

Example latex_sum_case : names_ok abc cyc3 /\
  let e := TJux (TPow false (var "a") (of_string "2")) (TPar (TBin Bsub (var "b") (var "c"))) in
  let e2 := TJux (num "23") (TJux (var "a") (var "b")) in
  let e2 := TJux (TJux (num "23") (var "a")) (var "b") in
  ok 1 e = true /\ ok 1 e2 = true /\ (4 <= List.length (print false e2))%nat /\ wordless (of_string "sum" ++ print false e ++ opc Bsub :: print false e2) /\
  preprocess_text abc cyc3 false true false (of_string "\sum a^2(b-c) - 23ab") = Ok (of_string "((a^2*(b-c))+(b^2*(c-a))+(c^2*(a-b)))-23*a*b").
Proof. split; [exact cyc3_ok|]. cbv zeta. split; [reflexivity|]. split; [reflexivity|]. split; [cbn; lia|]. split; [repeat split|reflexivity]. Qed.

(** The last four characters are not looked at: \sum a + b is read as the sum of a + b, while
    \sum a + bbcc is read as (the sum of a) + bbcc. *)
Theorem latex_sum_short_refuted :
  preprocess_text abc cyc3 false true false (of_string "\sum a + b") = Ok (print true (xexp abc cyc3 (TMac false (TBin Badd (var "a") (var "b"))))) /\
  preprocess_text abc cyc3 false true false (of_string "\sum a + bbcc") =
    Ok (print true (xexp abc cyc3 (TBin Badd (TMac false (var "a")) (TJux (TJux (TJux (var "b") (var "b")) (var "c")) (var "c"))))) /\
  forall sqrt, val QcOF sqrt abc cyc3 (fun _ => q 1 1) (TMac false (TBin Badd (var "a") (var "b"))) <>
               val QcOF sqrt abc cyc3 (fun _ => q 1 1) (TBin Badd (TMac false (var "a")) (var "b")).
Proof.
  split; [reflexivity|]. split; [reflexivity|]. intros sqrt H. apply (f_equal (fun x : QcOF => Qcanon.this x)) in H. vm_compute in H. discriminate.
Qed.
Print Assumptions latex_sum_short_refuted.

(** A sum in a bracket is closed by the bracket, and the missing ')' is put at the end of the
    text: (2 + \sum a) * b is read as 2 + (the sum of a) * b. *)
Theorem latex_sum_bracket_refuted :
  preprocess_text abc cyc3 false true false (of_string "(2+\sum a)*b") =
    Ok (print true (xexp abc cyc3 (TPar (TBin Badd (num "2") (TBin Bmul (TMac false (var "a")) (var "b")))))) /\
  forall sqrt, val QcOF sqrt abc cyc3 (fun _ => q 2 1) (TPar (TBin Badd (num "2") (TBin Bmul (TMac false (var "a")) (var "b")))) <>
               val QcOF sqrt abc cyc3 (fun _ => q 2 1) (TBin Bmul (TPar (TBin Badd (num "2") (TMac false (var "a")))) (var "b")).
Proof.
  split; [reflexivity|]. intros sqrt H. apply (f_equal (fun x : QcOF => Qcanon.this x)) in H. vm_compute in H. discriminate.
Qed.
Print Assumptions latex_sum_bracket_refuted.
