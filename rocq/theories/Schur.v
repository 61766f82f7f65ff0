(** * Schur-like forms of the heuristic method
    (triples/core/structsos/ternary/sparse.py:423-436 and 485-653) *)
From Coq Require Import Bool List Arith Lia ZArith.
From Verif Require Import OrdField Base Perm Poly PolyOps Expr.
Import ListNotations.

Section Model.
Context {K : OrdField}.
Local Open Scope of_scope.

Let a : ex K := EX 0.
Let b : ex K := EX 1.
Let c : ex K := EX 2.

(** [_acc_dict] (sparse.py:423-434): equal keys are added up, zeros are removed *)
Definition acc_dict (l : list (list nat * K)) : poly K := clean (fold_left add_term l []).

(** [Pnrms.coeff] (sparse.py:489-504) *)
Definition pnrms_coeff (n r m s : nat) (v : K) : poly K :=
  acc_dict
    [([r + s; m + n; 0], v); ([r + s; 0; m + n], v); ([m + n; r + s; 0], v); ([m + n; 0; r + s], v);
     ([0; r + s; m + n], v); ([0; m + n; r + s], v); ([m + r; n + s; 0], - v); ([m + r; 0; n + s], - v);
     ([n + s; m + r; 0], - v); ([n + s; 0; m + r], - v); ([0; m + r; n + s], - v); ([0; n + s; m + r], - v);
     ([r; m; n + s], v); ([r; n + s; m], v); ([s; n; m + r], v); ([s; m + r; n], v);
     ([m; r; n + s], v); ([m; n + s; r], v); ([n; s; m + r], v); ([n; m + r; s], v);
     ([m + r; s; n], v); ([m + r; n; s], v); ([n + s; r; m], v); ([n + s; m; r], v);
     ([r; s; m + n], - v); ([r; m + n; s], - v); ([s; r; m + n], - v); ([s; m + n; r], - v);
     ([m; n; r + s], - v); ([m; r + s; n], - v); ([n; m; r + s], - v); ([n; r + s; m], - v);
     ([r + s; m; n], - v); ([r + s; n; m], - v); ([m + n; r; s], - v); ([m + n; s; r], - v)]%nat.

(** [Pnrms._half_side] (sparse.py:523-557): the table of s(a^n(b^r-c^r)) / ((b-a)(c-b)(a-c)) *)
Definition half_side (n r : nat) : option (ex K) :=
  if Nat.leb (n + r) 12 then
    match n, r with
    | 2, 1 => Some (EC 1)
    | 3, 1 => Some (csum a)
    | 4, 1 => Some (csum (a ^ 2 + b * c))
    | 5, 1 => Some (cprod a + csum a * csum (a ^ 2))
    | 6, 1 => Some (csum (a ^ 2 * (a + b) * (a + c)) + csum (a ^ 2 * b ^ 2))
    | 7, 1 => Some (csum (a ^ 3 * (a + b) * (a + c)) + csum a * csum (a ^ 2 * b ^ 2))
    | 8, 1 => Some (csum (a ^ 2 * (EC 2 * a ^ 2 + b ^ 2 + c ^ 2) * (a + b) * (a + c)) / EC 2 + cprod (a ^ 2 + b ^ 2) / EC 2)
    | 9, 1 => Some (csum (a ^ 3 * (EC 2 * a ^ 2 + b ^ 2 + c ^ 2) * (a + b) * (a + c)) / EC 2
                    + csum a * cprod (a ^ 2 + b ^ 2) / EC 2)
    | 3, 2 => Some (csum (a * b))
    | 4, 2 => Some (cprod (a + b))
    | 5, 2 => Some (csum (a * b) * csum (a ^ 2) + csum (a ^ 2 * (b + c) ^ 2) / EC 2)
    | 6, 2 => Some (cprod (a + b) * csum (a ^ 2))
    | 7, 2 => Some (cprod (a + b) * (cprod a + csum (a ^ 3)) + csum (a ^ 3 * b ^ 3))
    | 8, 2 => Some (cprod (a + b) * csum (a ^ 4 + b ^ 2 * c ^ 2))
    | 4, 3 => Some (csum (a ^ 2 * (b + c) ^ 2) / EC 2)
    | 5, 3 => Some (csum a * csum (a ^ 2 * b ^ 2) + csum ((a + b) ^ 2) * cprod a / EC 2)
    | 6, 3 => Some (cprod (a ^ 2 + a * b + b ^ 2))
    | 7, 3 => Some (csum (a ^ 3 * (b ^ 2 + b * c + c ^ 2) * (a + b) * (a + c)) + EC 2 * csum a * cprod (a ^ 2))
    | 8, 3 => Some (csum (a ^ 4 * (b ^ 2 + c ^ 2) * (a + b) * (a + c)) + csum (a ^ 2 * b * (a + c)) * csum (a ^ 2 * c * (a + b)))
    | 5, 4 => Some (csum (a ^ 2 * b ^ 2) * csum (a * b) + cprod (a ^ 2))
    | 6, 4 => Some (cprod (a + b) * csum (a ^ 2 * b ^ 2))
    | 7, 4 => Some (EC 2 * cprod (a ^ 2) * csum (a ^ 2)
                    + csum (a * b) * (csum (a ^ 3 * b ^ 3) + csum (a ^ 2) * csum (a ^ 2 * b ^ 2)))
    | 8, 4 => Some (cprod (a + b) * cprod (a ^ 2 + b ^ 2))
    | 6, 5 => Some (csum (b ^ 3 * c ^ 3 * (a + b) * (a + c)) + csum (a ^ 2) * cprod (a ^ 2))
    | _, _ => None
    end%E
  else None.

(** [Pnrms.as_expr] (sparse.py:506-521). The square assigned first is always overwritten. *)
Definition half_sum (n r : nat) : ex K := csum (a ^ n * (b ^ r - c ^ r))%E.
Definition pnrms_expr (n r m s : nat) (v : K) : ex K :=
  if (Nat.eqb n r || Nat.eqb m s || Nat.eqb r 0 || Nat.eqb s 0)%bool then EC 0
  else
    match half_side n r, half_side m s with
    | Some f1, Some f2 => (EC v * (cprod ((a - b) ^ 2) * f1 * f2))%E
    | _, _ => (EC v * (half_sum n r * half_sum m s))%E
    end.

(** [Hnmr.coeff] (sparse.py:574-595) *)
Definition hnmr_coeff (n : Z) (m r : nat) (v : K) : poly K :=
  acc_dict
    (if (0 <=? n)%Z then
       let n := Z.to_nat n in
       [([m; n + 2 * r; 0], v); ([m; 0; n + 2 * r], v); ([n + 2 * r; m; 0], v); ([n + 2 * r; 0; m], v);
        ([0; m; n + 2 * r], v); ([0; n + 2 * r; m], v); ([m + r; n + r; 0], - v); ([m + r; 0; n + r], - v);
        ([n + r; m + r; 0], - v); ([n + r; 0; m + r], - v); ([0; m + r; n + r], - v); ([0; n + r; m + r], - v);
        ([r; n; m + r], v); ([r; m + r; n], v); ([n; r; m + r], v); ([n; m + r; r], v);
        ([m + r; r; n], v); ([m + r; n; r], v); ([r; m; n + r], - v); ([r; n + r; m], - v);
        ([m; r; n + r], - v); ([m; n + r; r], - v); ([n + r; r; m], - v); ([n + r; m; r], - v)]%nat
     else
       let n := Z.to_nat (- n) in
       [([n + r; m + n + r; 0], v); ([n + r; 0; m + n + r], v); ([m + n + r; n + r; 0], v); ([m + n + r; 0; n + r], v);
        ([0; n + r; m + n + r], v); ([0; m + n + r; n + r], v); ([n; 2 * r; m + n], v); ([n; m + n; 2 * r], v);
        ([2 * r; n; m + n], v); ([2 * r; m + n; n], v); ([m + n; n; 2 * r], v); ([m + n; 2 * r; n], v);
        ([r; n; m + n + r], - v); ([r; n + r; m + n], - v); ([r; m + n; n + r], - v); ([r; m + n + r; n], - v);
        ([n; r; m + n + r], - v); ([n; m + n + r; r], - v); ([n + r; r; m + n], - v); ([n + r; m + n; r], - v);
        ([m + n; r; n + r], - v); ([m + n; n + r; r], - v); ([m + n + r; r; n], - v); ([m + n + r; n; r], - v)]%nat).

(** [xreplace({a: a**r, b: b**r, c: c**r})] *)
Fixpoint powvars (r : nat) (e : ex K) : ex K :=
  match e with
  | EC k => EC k
  | EX i => EPow (EX i) r
  | EAdd x y => EAdd (powvars r x) (powvars r y)
  | ESub x y => ESub (powvars r x) (powvars r y)
  | EMul x y => EMul (powvars r x) (powvars r y)
  | EDiv x y => EDiv (powvars r x) (powvars r y)
  | EPow x n => EPow (powvars r x) n
  end.

(** the two tables of [Hnmr.as_expr] for m = r (sparse.py:614-621, 628-632) *)
Definition table_mul (k : nat) : option (ex K) :=
  match k with
  | 2 => Some (csum (a * (b - c) ^ 2 * (b + c - a) ^ 2))
  | 4 => Some (csum (a * (b - c) ^ 2 * (b + c - a) ^ 4) + EC 2 * csum a * cprod ((a - b) ^ 2))
  | 5 => Some (csum (a * b * (a - b) ^ 2 * (a ^ 2 + b ^ 2 - c ^ 2) ^ 2) + cprod ((a - b) ^ 2) * csum ((a - b) ^ 2) / EC 2)
  | 6 => Some (csum (a * (b - c) ^ 2 * (b + c - a) ^ 2 * (b ^ 2 + c ^ 2 - a ^ 2) ^ 2)
               + cprod ((a - b) ^ 2) * (EC (fnat 3) * csum (a * (b - c) ^ 2) + EC (fnat 22) * cprod a))
  | 7 => Some (csum (a * b * (a - b) ^ 2 * (a ^ 3 + EC 2 * a * b * c - EC 2 * a * c ^ 2 + b ^ 3 - EC 2 * b * c ^ 2 + c ^ 3) ^ 2)
               + cprod ((a - b) ^ 2) * (csum (a * b) * csum (a ^ 2) + csum ((a ^ 2 - b ^ 2) ^ 2) / EC 2))
  | 8 => Some (csum (a * (b - c) ^ 2 * (b + c - a) ^ 2 * (b ^ 3 + c ^ 3 - a ^ 3) ^ 2)
               + cprod ((a - b) ^ 2) * (csum (a * b * (a + b)) * csum a ^ 2 + csum ((a - b) ^ 2) * cprod a))
  | _ => None
  end%E.
Definition table_frac (n r : nat) : option (ex K) :=
  match n, r with
  | 1, 2 => Some (csum a * cprod ((a - b) ^ 2) + cprod a * csum ((a - b) ^ 2))
  | 3, 2 => Some (cprod ((a - b) ^ 2) * (csum a * csum (a ^ 2) + cprod (a + b)) + cprod a * csum ((a ^ 2 - b ^ 2) ^ 2 * (a + b - c) ^ 2))
  | 5, 2 => Some (cprod ((a - b) ^ 2) * (csum a ^ 2 * csum (a ^ 3) + csum (a * b) * cprod (a + b))
                  + cprod a * csum ((a ^ 2 - b ^ 2) ^ 2 * (a ^ 2 + b ^ 2 - c ^ 2) ^ 2))
  | _, _ => None
  end%E.

(** the case m = r of [Hnmr.as_expr] (sparse.py:611-651) without the factor v; r > 0 *)
Definition hnmr_tables (n r : nat) : option (ex K) :=
  if (Nat.eqb (n mod r) 0 && Nat.leb (n / r) 8)%bool then option_map (powvars r) (table_mul (n / r))
  else if (Nat.eqb n 1 && Nat.leb 2 r)%bool then
    Some (pnrms_expr (r + 1) 1 r (r - 1) 1 + cprod a * csum (c ^ (r - 2) * (a ^ r - b ^ r) ^ 2))%E
  else let d := Nat.gcd n r in option_map (powvars d) (table_frac (n / d) (r / d)).
Definition hnmr_diagonal (n m r : nat) : ex K :=
  match hnmr_tables n r with
  | Some e => e
  | None =>
      (if Nat.leb (m + r) n then
         (csum (a ^ n * (b ^ m + c ^ m) * (a ^ r - b ^ r) ^ 2 * (a ^ r - c ^ r) ^ 2) + pnrms_expr (2 * r) r n (m + r) 1)
         / (csum ((a ^ r - b ^ r) ^ 2) / EC 2)
       else
         ((if Nat.leb r n then
             csum (a ^ (n - r) * (b ^ m + c ^ m) * (a ^ r - b ^ r) ^ 2 * (a ^ r - c ^ r) ^ 2) * cprod (a ^ r)
           else
             csum (b ^ (r - n) * c ^ (r - n) * (b ^ m + c ^ m) * (a ^ r - b ^ r) ^ 2 * (a ^ r - c ^ r) ^ 2) * cprod (a ^ n))
          + pnrms_expr (2 * r) r (n + m + r) (m + r) 1)
         / (csum (a ^ (2 * r) * (b ^ r - c ^ r) ^ 2) / EC 2))%E
  end.
(** [Hnmr.as_expr] (sparse.py:597-653). The recursive call has m = 0, where it cannot recur again. *)
Definition hnmr_plain (n m r : nat) : ex K := csum (a ^ n * (b ^ m + c ^ m) * (a ^ r - b ^ r) * (a ^ r - c ^ r))%E.
Definition hnmr_first (n m r : nat) : option (ex K) :=
  if Nat.eqb n m then Some (csum (a ^ n * b ^ n * (a ^ r - b ^ r) ^ 2))%E
  else if (Nat.leb r m && Nat.eqb n (m - r))%bool then
    Some (if Nat.leb r n then csum (a ^ (n - r) * b ^ (n - r) * (a ^ r - b ^ r) ^ 2) * cprod (a ^ r)
          else csum (c ^ (r - n) * (a ^ r - b ^ r) ^ 2) * cprod (a ^ n))%E
  else None.
Definition hnmr_base (n r : nat) : ex K :=
  match hnmr_first n 0 r with Some e => e | None => hnmr_plain n 0 r end.
Definition hnmr_nonneg (n m r : nat) : ex K :=
  match hnmr_first n m r with
  | Some e => e
  | None =>
      if (Nat.eqb m (2 * r) && Nat.leb r n)%bool then
        (pnrms_expr (2 * r) r n (m - r) 1 + cprod (a ^ r) * (EC 1 * hnmr_base (n - r) r))%E
      else if Nat.eqb m r then hnmr_diagonal n m r
      else hnmr_plain n m r
  end.
Definition hnmr_neg (n m r : nat) : ex K :=
  if Nat.eqb n r then csum (c ^ (m + 2 * r) * (a ^ r - b ^ r) ^ 2)%E
  else csum (b ^ n * c ^ n * (b ^ m + c ^ m) * (a ^ r - b ^ r) * (a ^ r - c ^ r))%E.
Definition hnmr_expr (n : Z) (m r : nat) (v : K) : ex K :=
  if Nat.eqb r 0 then EC 0
  else (EC v * (if (0 <=? n)%Z then hnmr_nonneg (Z.to_nat n) m r else hnmr_neg (Z.to_nat (- n)) m r))%E.
End Model.
