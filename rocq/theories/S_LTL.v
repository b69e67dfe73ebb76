(** Independent meaning of formulas: linear temporal logic over infinite traces. *)
From Coq Require Import List String Ascii Bool ZArith.
From Verif Require Import M_Ast.
Import ListNotations.
Open Scope string_scope.

(** Values of variables: Boolean, integer, or element of a finite set of strings. *)
Inductive value : Type := VB (b : bool) | VZ (z : Z) | VS (s : string).

Definition state := string -> value.
Definition trace := nat -> state.

(** Decimal numerals. *)
Definition digit_val (c : ascii) : option Z :=
  let n := N_of_ascii c in
  if ((48 <=? n) && (n <=? 57))%N%bool then Some (Z.of_N (n - 48)) else None.
Fixpoint nat_text (acc : Z) (s : string) : option Z :=
  match s with
  | EmptyString => Some acc
  | String c r => match digit_val c with
                  | Some d => nat_text (10 * acc + d)%Z r
                  | None => None
                  end
  end.
Definition num_text (s : string) : option Z :=
  match s with
  | EmptyString => None
  | String "-" EmptyString => None
  | String "-" r => option_map Z.opp (nat_text 0 r)
  | _ => nat_text 0 s
  end.

Definition arith (op : string) (a b : Z) : option Z :=
  if op =? "+" then Some (a + b)%Z
  else if op =? "-" then Some (a - b)%Z
  else if op =? "*" then Some (a * b)%Z
  else None.

(** Value of a term at position [i]. *)
Fixpoint term_val (s : trace) (i : nat) (t : node) : option value :=
  match t with
  | NVar x => Some (s i x)
  | NBool v => Some (VB (v =? "True"))
  | NNum v => option_map VZ (num_text v)
  | NStr v => Some (VS v)
  | NUn op a => if op =? "X" then term_val s (S i) a else None
  | NArith op l r =>
      match term_val s i l, term_val s i r with
      | Some (VZ a), Some (VZ b) => option_map VZ (arith op a b)
      | _, _ => None
      end
  | _ => None
  end.

Definition compare_vals (op : string) (a b : value) : Prop :=
  if op =? "=" then a = b
  else if (op =? "!=") || (op =? "/=") then a <> b
  else match a, b with
       | VZ x, VZ y =>
           if op =? "<" then (x < y)%Z
           else if (op =? "<=") || (op =? "=<") then (x <= y)%Z
           else if op =? ">" then (x > y)%Z
           else if op =? ">=" then (x >= y)%Z
           else False
       | _, _ => False
       end.

(** The connectives, by their spellings. *)
Inductive conn := CAnd | COr | CXor | CImp | CIff | CUntil | CWeak | CRelease.
Definition conn_of (op : string) : option conn :=
  if op =? "&" then Some CAnd
  else if op =? "|" then Some COr
  else if op =? "^" then Some CXor
  else if (op =? "->") || (op =? "=>") then Some CImp
  else if (op =? "<->") || (op =? "<=>") then Some CIff
  else if op =? "U" then Some CUntil
  else if op =? "W" then Some CWeak
  else if op =? "V" then Some CRelease
  else None.

Inductive uconn := UNot | UNext | UAlways | UEventually.
Definition uconn_of (op : string) : option uconn :=
  if (op =? "!") || (op =? "~") then Some UNot
  else if op =? "X" then Some UNext
  else if op =? "G" then Some UAlways
  else if op =? "F" then Some UEventually
  else None.

Definition until (p q : nat -> Prop) (i : nat) : Prop :=
  exists k, i <= k /\ q k /\ forall j, i <= j < k -> p j.
Definition always (p : nat -> Prop) (i : nat) : Prop := forall j, i <= j -> p j.
Definition eventually (p : nat -> Prop) (i : nat) : Prop := exists j, i <= j /\ p j.

(** [holds s i f]: formula [f] is true on trace [s] from position [i]. *)
Fixpoint holds (s : trace) (i : nat) (f : node) : Prop :=
  match f with
  | NVar x => s i x = VB true
  | NBool v => v = "True"
  | NNum _ | NStr _ | NArith _ _ _ => False
  | NUn op a =>
      match uconn_of op with
      | Some UNot => ~ holds s i a
      | Some UNext => holds s (S i) a
      | Some UAlways => always (fun j => holds s j a) i
      | Some UEventually => eventually (fun j => holds s j a) i
      | None => False
      end
  | NBin op l r =>
      match conn_of op with
      | Some CAnd => holds s i l /\ holds s i r
      | Some COr => holds s i l \/ holds s i r
      | Some CXor => (holds s i l /\ ~ holds s i r) \/ (~ holds s i l /\ holds s i r)
      | Some CImp => holds s i l -> holds s i r
      | Some CIff => holds s i l <-> holds s i r
      | Some CUntil => until (fun j => holds s j l) (fun j => holds s j r) i
      | Some CWeak => until (fun j => holds s j l) (fun j => holds s j r) i
                      \/ always (fun j => holds s j l) i
      | Some CRelease =>
          forall j, i <= j -> holds s j r \/ exists k, i <= k < j /\ holds s k l
      | None => False
      end
  | NCmp op l r =>
      match term_val s i l, term_val s i r with
      | Some a, Some b => compare_vals op a b
      | _, _ => False
      end
  | NIte _ a b c => (holds s i a /\ holds s i b) \/ (~ holds s i a /\ holds s i c)
  end.

(** Meaning of one player's part of a GR(1) specification: initial conditions, safety
    invariants and recurrence goals. *)
Record part : Type := { p_init : list node; p_safe : list node; p_live : list node }.

Definition sat_part (s : trace) (g : part) : Prop :=
  (forall f, In f (p_init g) -> holds s 0 f) /\
  (forall f, In f (p_safe g) -> forall i, holds s i f) /\
  (forall f, In f (p_live g) -> forall i, exists j, i <= j /\ holds s j f).

(** The trace [s] with the history of variable [a] replaced by [h]. *)
Definition upd (s : trace) (a : string) (h : nat -> bool) : trace :=
  fun i x => if x =? a then VB (h i) else s i x.

(** Variables of a formula. *)
Fixpoint vars (f : node) : list string :=
  match f with
  | NVar x => [x]
  | NBool _ | NNum _ | NStr _ => []
  | NUn _ a => vars a
  | NBin _ l r | NCmp _ l r | NArith _ l r => vars l ++ vars r
  | NIte _ a b c => vars a ++ vars b ++ vars c
  end.
