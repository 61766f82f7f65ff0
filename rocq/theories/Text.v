(** * Model of the text parser in triples/utils/text_process.py *)
From Coq Require Import Bool List Arith NArith ZArith Lia Ascii String Ring Field.
From Verif Require Import OrdField Base Perm.
Import ListNotations.

(** A python string is the list of its code points. *)
Definition str := list N.
Definition of_string (s : string) : str := map N_of_ascii (list_ascii_of_string s).
Local Open Scope N_scope.
Definition is_digit (c : N) : bool := (48 <=? c) && (c <=? 57).
Definition is_alpha (c : N) : bool := (97 <=? c) && (c <=? 122).
Definition LP : N := 40.
Definition RP : N := 41.
Definition STAR : N := 42.
Definition PLUS : N := 43.
Definition MINUS : N := 45.
Definition SLASH : N := 47.
Definition CARET : N := 94.
Definition SPACE : N := 32.
Definition cS : N := 115.
Definition cP : N := 112.

Fixpoint prefix (w s : str) : bool :=
  match w, s with
  | [], _ => true
  | a :: w', b :: s' => (a =? b) && prefix w' s'
  | _ :: _, [] => false
  end.
Fixpoint contains (w s : str) : bool :=
  prefix w s || match s with [] => false | _ :: s' => contains w s' end.
Definition kSQRT : str := Eval compute in of_string "sqrt".
Definition wSQRT : str := Eval compute in of_string "sqrt(".
Definition wCBRT : str := Eval compute in of_string "cbrt(".
Definition wSUM : str := Eval compute in of_string "sum".
Definition wPROD : str := Eval compute in of_string "prod".
Definition wLEFT : str := Eval compute in of_string "left".
Definition wRIGHT : str := Eval compute in of_string "right".
Definition wFRAC : str := Eval compute in of_string "frac".

(** [str.replace] for a non-empty pattern [w]: leftmost occurrences that do not overlap *)
Fixpoint replace_from (skip : nat) (w r s : str) : str :=
  match s with
  | [] => []
  | c :: s' => match skip with
               | S k => replace_from k w r s'
               | O => if prefix w s then r ++ replace_from (List.length w - 1) w r s' else c :: replace_from 0 w r s'
               end
  end.
Definition replace (w r s : str) : str := replace_from 0 w r s.

(** ** [_preprocess_text_completion] (text_process.py:129-168) *)
Section Completion.
(** the flags scientific_notation, preserve_sqrt, preserve_cbrt *)
Variables sci psqrt pcbrt : bool.
(** [c != SCI] (147, 153-157): with scientific_notation false SCI is the empty string *)
Definition not_sci (c : N) : bool := negb (sci && (c =? 101)).
(** CHECK_SQRT, CHECK_CBRT (148-149) *)
Definition root_at (s : str) : bool := (psqrt && prefix wSQRT s) || (pcbrt && prefix wCBRT s).
(** the loop (151-166). The string is seen from position i on: an insertion at i+1 followed by
    [i += 1] and the [i += 1] at the end of the loop moves to the old character at i+1, and
    [i += 4] passes over four more characters ([skip]). *)
Fixpoint complete_loop (skip : nat) (s : str) : str :=
  match s with
  | [] => []
  | c :: s' =>
      match skip with
      | S k => c :: complete_loop k s'
      | O => match s' with
             | [] => [c]
             | d :: _ =>
                 if is_digit c then
                   if (d =? LP) || (is_alpha d && not_sci d) then c :: STAR :: complete_loop 0 s' else c :: complete_loop 0 s'
                 else if (c =? RP) || (is_alpha c && not_sci c) then
                   if root_at s then c :: complete_loop 4 s'
                   else if (d =? LP) || is_alpha d then c :: STAR :: complete_loop 0 s'
                   else if is_digit d then c :: CARET :: complete_loop 0 s'
                   else c :: complete_loop 0 s'
                 else c :: complete_loop 0 s'
             end
      end
  end.
End Completion.
(** [poly.replace(' ','')] (150) *)
Definition nospace (s : str) : str := filter (fun c => negb (c =? SPACE)) s.
Definition completion sci psqrt pcbrt (s : str) : str := complete_loop sci psqrt pcbrt 0 (nospace s).

(** ** [cycle_expansion] (text_process.py:11-45) and [_preprocess_text_expansion] (97-126) *)
Section Expansion.
(** the code points of the one-letter names of the generators, and [perm.elements] in the order in
    which the set is traversed, each as array form *)
Variable names : list N.
Variable perms : list (list nat).
Fixpoint index_of (c : N) (l : list N) : option nat :=
  match l with [] => None | x :: l' => if c =? x then Some O else option_map S (index_of c l') end.
(** [str.translate] with dict(zip(names, p(names))); [p(names)] has entry [names[p[i]]] at i. The
    names are distinct, else the last entry of the dict would win. *)
Definition trc (p : list nat) (c : N) : N :=
  match index_of c names with Some i => nth (nth i p O) names 0%N | None => c end.
Definition translate (p : list nat) (s : str) : str := map (trc p) s.
(** [sep.join(l)] *)
Fixpoint join (sep : str) (l : list str) : str :=
  match l with [] => [] | [x] => x | x :: l' => x ++ sep ++ join sep l' end.
Definition sep_of (c : N) : str := if c =? cP then [SPACE; STAR; SPACE] else [SPACE; PLUS; SPACE].
Definition cycle_expansion (f : str) (symbol : N) : str := join (sep_of symbol) (map (fun p => translate p f) perms).

(** the loop (105-125). [done] is [poly[:i]], [rest] is [poly[i:]]; the tops of the stacks
    [paren_depth] and [cycle_begin] are first. *)
Fixpoint expand_loop (done rest : str) (par : Z) (depth : list Z) (begin : list nat) : res str :=
  match rest with
  | [] => Ok done
  | c :: rest' =>
      if ((c =? cS) && (4 <=? List.length rest)%nat && negb (prefix kSQRT rest)) || (c =? cP) then
        expand_loop (done ++ [c]) rest' par (par :: depth) (List.length done :: begin)
      else if c =? LP then expand_loop (done ++ [c]) rest' (par + 1)%Z depth begin
      else if c =? RP then
        match depth with
        | [] => Err IndexError
        | d :: depth' =>
            if (d =? par - 1)%Z then
              match begin with
              | [] => Err IndexError
              | b :: begin' =>
                  let tmp := LP :: cycle_expansion (skipn (S b) done ++ [c]) (nth b done 0) ++ [RP] in
                  expand_loop (firstn b done ++ tmp) rest' (par - 1)%Z depth' begin'
              end
            else expand_loop (done ++ [c]) rest' (par - 1)%Z depth begin
        end
      else expand_loop (done ++ [c]) rest' par depth begin
  end.
Definition expansion (s : str) : res str := expand_loop [] s 0%Z [(-1)%Z] [].
End Expansion.

(** ** [_preprocess_text_delatex] (text_process.py:53-94) *)
Definition tex_char (c : N) : N := if c =? 123 then LP else if c =? 125 then RP else if (c =? 92) || (c =? 36) then SPACE else c.
Definition delatex_words (s : str) : str :=
  nospace (map tex_char (replace wFRAC [] (replace [125; 123] [RP; SLASH; LP] (replace wRIGHT [] (replace wLEFT [] (nospace s)))))).
(** the loop (69-92), with [done] = poly[:i] and [rest] = poly[i:]; the loop runs while more than
    four characters are left. Inserting ')' leaves the sign to be looked at again. The fuel only
    makes the definition total: every step uses up a character or an entry of [paren_depth]. *)
Fixpoint delatex_loop (fuel : nat) (done rest : str) (par : Z) (depth : list Z) : res str :=
  match fuel with
  | O => Err OtherError
  | S f =>
      if (4 <? List.length rest)%nat then
        if prefix wSUM rest then delatex_loop f (done ++ [cS; LP]) (skipn 3 rest) (par + 1)%Z ((par + 1)%Z :: depth)
        else if prefix wPROD rest then delatex_loop f (done ++ [cP; LP]) (skipn 4 rest) (par + 1)%Z ((par + 1)%Z :: depth)
        else match rest with
             | [] => Err OtherError
             | c :: rest' =>
                 if c =? LP then delatex_loop f (done ++ [c]) rest' (par + 1)%Z depth
                 else if c =? RP then delatex_loop f (done ++ [c]) rest' (par - 1)%Z depth
                 else match depth with
                      | [] => Err IndexError
                      | d :: depth' =>
                          if (par =? d)%Z && ((c =? PLUS) || (c =? MINUS)) then delatex_loop f (done ++ [RP]) rest (par - 1)%Z depth'
                          else delatex_loop f (done ++ [c]) rest' par depth
                      end
             end
      else Ok (done ++ rest ++ repeat RP (List.length depth - 1))
  end.
Definition delatex (s : str) : res str :=
  let s := delatex_words s in delatex_loop (2 * List.length s + 2) [] s 0%Z [(-1)%Z].

(** [preprocess_text] with return_type 'text' (text_process.py:171-226, i.e. its body 212-226). [str.lower] is modelled
    on ASCII letters. *)
Definition lower (s : str) : str := map (fun c => if (65 <=? c) && (c <=? 90) then c + 32 else c) s.
Definition preprocess_text names perms sci psqrt pcbrt (s : str) : res str :=
  match delatex (lower s) with
  | Err e => Err e
  | Ok t => match expansion names perms t with Err e => Err e | Ok u => Ok (completion sci psqrt pcbrt u) end
  end.

(** ** What texts mean *)
(** Expressions as they are written: juxtaposition is a product and an exponent may follow its
    base directly; s(...) and p(...) are sums and products over the group. *)
Inductive bin := Badd | Bsub | Bmul | Bdiv.
Inductive tx :=
| TNum (ds : str)
| TVar (c : N)
| TPar (e : tx)
| TMac (prod : bool) (e : tx)
| TRoot (e : tx)
| TPow (caret : bool) (e : tx) (ds : str)
| TJux (a b : tx)
| TBin (o : bin) (a b : tx)
| TNeg (e : tx).
Definition opc (o : bin) : N := match o with Badd => PLUS | Bsub => MINUS | Bmul => STAR | Bdiv => SLASH end.
(** the text; with [full] every product and power is written with its operator *)
Fixpoint print (full : bool) (e : tx) : str :=
  match e with
  | TNum ds => ds
  | TVar c => [c]
  | TPar e => LP :: print full e ++ [RP]
  | TMac p e => (if p then cP else cS) :: LP :: print full e ++ [RP]
  | TRoot e => wSQRT ++ print full e ++ [RP]
  | TPow cr e ds => print full e ++ (if cr || full then [CARET] else []) ++ ds
  | TJux a b => print full a ++ (if full then [STAR] else []) ++ print full b
  | TBin o a b => print full a ++ opc o :: print full b
  | TNeg e => MINUS :: print full e
  end.
Definition var_ok (c : N) : bool := is_alpha c && negb (c =? cS) && negb (c =? cP).
Definition num_ok (ds : str) : bool := forallb is_digit ds && negb (Nat.eqb (List.length ds) 0).
Definition is_num (e : tx) : bool := match e with TNum _ => true | _ => false end.
Definition starts_num (e : tx) : bool := match e with TNum _ => true | TPow _ e _ => is_num e | _ => false end.
(** the grammar: level 0 sums, 1 products (from left to right, * and / and juxtaposition alike),
    2 powers, 3 atoms *)
Fixpoint ok (l : nat) (e : tx) : bool :=
  match e with
  | TNum ds => num_ok ds
  | TVar c => var_ok c
  | TPar e => ok 0 e
  | TMac _ e => ok 0 e
  | TRoot e => ok 0 e
  | TPow cr e ds => (l <=? 2)%nat && ok 3 e && num_ok ds && (cr || negb (is_num e))
  | TJux a b => (l <=? 1)%nat && ok 1 a && ok 2 b && negb (starts_num b)
  | TBin o a b => match o with
                  | Badd | Bsub => (l <=? 0)%nat && ok 0 a && ok 1 b
                  | Bmul | Bdiv => (l <=? 1)%nat && ok 1 a && ok 2 b
                  end
  | TNeg e => (l <=? 0)%nat && ok 1 e
  end.
Fixpoint plain (e : tx) : bool :=
  match e with
  | TNum _ | TVar _ => true
  | TMac _ _ => false
  | TPar e | TRoot e | TPow _ e _ | TNeg e => plain e
  | TJux a b | TBin _ a b => plain a && plain b
  end.
Definition digit_val (c : N) : nat := N.to_nat (c - 48).
Definition num_val (ds : str) : nat := fold_left (fun a c => 10 * a + digit_val c)%nat ds O.

Section Value.
Variable K : OrdField.
Variable sqrt : K -> K.
Variable names : list N.
Variable perms : list (list nat).
Local Open Scope of_scope.
Definition fold_op (prod : bool) (l : list K) : K := if prod then fold_right fmul 1 l else fold_right fadd 0 l.
(** the value; a sum or product runs over the permutations of the variables *)
Fixpoint val (v : N -> K) (e : tx) : K :=
  match e with
  | TNum ds => fold_left (fun a c => (1+1+1+1+1+1+1+1+1+1) * a + fnat (digit_val c)) ds 0
  | TVar c => v c
  | TPar e => val v e
  | TMac p e => fold_op p (map (fun s => val (fun c => v (trc names s c)) e) perms)
  | TRoot e => sqrt (val v e)
  | TPow _ e ds => fpow (val v e) (num_val ds)
  | TJux a b => val v a * val v b
  | TBin Badd a b => val v a + val v b
  | TBin Bsub a b => val v a - val v b
  | TBin Bmul a b => val v a * val v b
  | TBin Bdiv a b => val v a / val v b
  | TNeg e => - val v e
  end.
End Value.

Section Expanded.
Variable names : list N.
Variable perms : list (list nat).
Fixpoint rename (p : list nat) (e : tx) : tx :=
  match e with
  | TNum ds => TNum ds
  | TVar c => TVar (trc names p c)
  | TPar e => TPar (rename p e)
  | TMac b e => TMac b (rename p e)
  | TRoot e => TRoot (rename p e)
  | TPow cr e ds => TPow cr (rename p e) ds
  | TJux a b => TJux (rename p a) (rename p b)
  | TBin o a b => TBin o (rename p a) (rename p b)
  | TNeg e => TNeg (rename p e)
  end.
Definition chain (o : bin) (l : list tx) : tx :=
  match l with [] => TNum [48%N] | x :: l' => fold_left (TBin o) l' x end.
(** the expression without macros *)
Fixpoint xexp (e : tx) : tx :=
  match e with
  | TNum ds => TNum ds
  | TVar c => TVar c
  | TPar e => TPar (xexp e)
  | TMac p e => TPar (chain (if p then Bmul else Badd) (map (fun s => TPar (rename s (xexp e))) perms))
  | TRoot e => TRoot (xexp e)
  | TPow cr e ds => TPow cr (xexp e) ds
  | TJux a b => TJux (xexp a) (xexp b)
  | TBin o a b => TBin o (xexp a) (xexp b)
  | TNeg e => TNeg (xexp e)
  end.
(** its text as produced by the code, with the spaces *)
Fixpoint xtext (e : tx) : str :=
  match e with
  | TNum ds => ds
  | TVar c => [c]
  | TPar e => LP :: xtext e ++ [RP]
  | TMac p e => LP :: cycle_expansion names perms (LP :: xtext e ++ [RP]) (if p then cP else cS) ++ [RP]
  | TRoot e => wSQRT ++ xtext e ++ [RP]
  | TPow cr e ds => xtext e ++ (if cr then [CARET] else []) ++ ds
  | TJux a b => xtext a ++ xtext b
  | TBin o a b => xtext a ++ opc o :: xtext b
  | TNeg e => MINUS :: xtext e
  end.
End Expanded.
