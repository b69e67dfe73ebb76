(** Model of tulip/transys/cost.py: transition costs and their arithmetic.

    Simplifications.  A number is an integer or [float("inf")]; other floats are left out.  An
    operand is a number or a [VectorCost]; other operands are left out.  [==] between a number
    and a vector is Python's reflected call of [VectorCost.__eq__], and [<] that of
    [VectorCost.__gt__]. *)
From Coq Require Import List String Bool ZArith.
From Verif Require Import M_Base M_Dict M_Graph M_Machine.
Import ListNotations.
Open Scope string_scope.
Open Scope list_scope.

Inductive num := Fin (z : Z) | Inf.
Definition num_eqb (a b : num) : bool :=
  match a, b with Fin x, Fin y => Z.eqb x y | Inf, Inf => true | _, _ => false end.
Definition num_gtb (a b : num) : bool :=
  match a, b with Fin x, Fin y => Z.gtb x y | Inf, Fin _ => true | _, Inf => false end.
Definition num_add (a b : num) : num :=
  match a, b with Fin x, Fin y => Fin (x + y) | _, _ => Inf end.

Inductive cost := Sc (x : num) | Vec (l : list num).

(** cost.py:85-98, [_convert] with [_assert_equal_len] 107-116. *)
Definition convert (self : list num) (other : cost) : res (list num) :=
  let l := match other with Sc x => repeat x (List.length self) | Vec l => l end in
  if Nat.eqb (List.length self) (List.length l) then Ok l else Err "ValueError".
(** cost.py:100-107, [__add__]. *)
Definition vec_add (self : list num) (other : cost) : res (list num) :=
  do l <- convert self other; Ok (map (fun p => num_add (fst p) (snd p)) (combine self l)).
(** cost.py:125-129, [__eq__]. *)
Definition vec_eq (self : list num) (other : cost) : res bool :=
  do l <- convert self other; Ok (forallb (fun p => num_eqb (fst p) (snd p)) (combine self l)).
(** cost.py:131-137, [__gt__]. *)
Fixpoint gt_pairs (l : list (num * num)) : bool :=
  match l with
  | [] => true
  | (a, b) :: r => if num_eqb a b then gt_pairs r else num_gtb a b
  end.
Definition vec_gt (self : list num) (other : cost) : res bool :=
  do l <- convert self other; Ok (gt_pairs (combine self l)).
(** cost.py:53, [functools.total_ordering]: the other comparisons from [__gt__] and [__eq__]. *)
Definition vec_lt (self : list num) (other : cost) : res bool :=
  do g <- vec_gt self other; if g then Ok false else do e <- vec_eq self other; Ok (negb e).
Definition vec_ge (self : list num) (other : cost) : res bool :=
  do g <- vec_gt self other; if g then Ok true else vec_eq self other.
Definition vec_le (self : list num) (other : cost) : res bool :=
  do g <- vec_gt self other; Ok (negb g).

(** [a + b]; for a number and a vector it is [__radd__], cost.py:118-121. *)
Definition py_add (a b : cost) : res cost :=
  match a, b with
  | Sc x, Sc y => Ok (Sc (num_add x y))
  | Vec l, _ => do r <- vec_add l b; Ok (Vec r)
  | Sc _, Vec l => do r <- vec_add l a; Ok (Vec r)
  end.
(** [a == b], [a < b], [a > b], [a <= b], [a >= b] with the reflected calls. *)
Definition py_eq (a b : cost) : res bool :=
  match a, b with Sc x, Sc y => Ok (num_eqb x y) | Vec l, _ => vec_eq l b | Sc _, Vec l => vec_eq l a end.
Definition py_lt (a b : cost) : res bool :=
  match a, b with Sc x, Sc y => Ok (num_gtb y x) | Vec l, _ => vec_lt l b | Sc _, Vec l => vec_gt l a end.
Definition py_gt (a b : cost) : res bool :=
  match a, b with Sc x, Sc y => Ok (num_gtb x y) | Vec l, _ => vec_gt l b | Sc _, Vec l => vec_lt l a end.
Definition py_le (a b : cost) : res bool :=
  match a, b with Sc x, Sc y => Ok (negb (num_gtb x y)) | Vec l, _ => vec_le l b | Sc _, Vec l => vec_ge l a end.
Definition py_ge (a b : cost) : res bool :=
  match a, b with Sc x, Sc y => Ok (negb (num_gtb y x)) | Vec l, _ => vec_ge l b | Sc _, Vec l => vec_le l a end.
(** [bool(a)]; a vector is false when its length is zero (cost.py:80). *)
Definition truth (a : cost) : bool :=
  match a with Sc x => negb (num_eqb x (Fin 0)) | Vec l => match l with [] => false | _ => true end end.
Definition zero : cost := Sc (Fin 0).

(** cost.py:43-51, [ValidTransitionCost.__contains__]; the operands of this model never
    raise TypeError. *)
Definition valid_cost (c : cost) : res bool :=
  do _ <- py_ge c zero;
  do s <- py_add c zero;
  do g <- py_ge s zero;
  if g then py_eq s c else Ok false.
