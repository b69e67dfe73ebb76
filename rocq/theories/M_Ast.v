(** Model of the syntax trees of tulip/spec/ast.py. *)
From Coq Require Import List String Ascii Bool ZArith.
Import ListNotations.
Open Scope string_scope.

(** tulip/spec/ast.py:155-353, 400-437.  The classes Var, Bool, Num, Str (terminals, each
    holding a [str]), Unary, Binary, Comparator, Arithmetic and the 3-operand Operator
    ("ite").  Operators hold the operator text, exactly as stored by the parser.
    Simplified: operands are fixed by the constructor (Unary has one, Binary two, Operator
    three), which is how tulip/spec/lexyacc.py:385-470 creates them. *)
Inductive node : Type :=
| NVar (v : string)
| NBool (v : string)
| NNum (v : string)
| NStr (v : string)
| NUn (op : string) (a : node)
| NBin (op : string) (l r : node)
| NCmp (op : string) (l r : node)
| NArith (op : string) (l r : node)
| NIte (op : string) (a b c : node).

(** tulip/spec/ast.py:48-102 OPMAP: the operator texts with a canonical printed form; here
    every entry maps a text to itself. *)
Definition opmap_keys : list string :=
  ["False"; "True"; "!"; "|"; "&"; "->"; "<->"; "^"; "ite"; "X"; "G"; "F"; "U"; "W"; "V";
   "<"; "<="; "="; ">="; ">"; "!="; "+"; "-"; "*"; "/"; "<<>>"].

(** tulip/spec/ast.py:256,269,320: [self.opmap[op]]; [None] is Python's KeyError. *)
Definition opmap (op : string) : option string :=
  if existsb (String.eqb op) opmap_keys then Some op else None.

(** tulip/spec/ast.py:202-203, 253-259, 264-273, 319-320: [flatten].  [None] is the KeyError
    of a missing operator.  Note that Str prints its value without quotes. *)
Fixpoint flatten (t : node) : option string :=
  match t with
  | NVar v => Some v
  | NBool v => opmap v
  | NNum v => Some v
  | NStr v => Some v
  | NUn op a =>
      match opmap op, flatten a with
      | Some o, Some x => Some ("( " ++ o ++ " " ++ x ++ " )")
      | _, _ => None
      end
  | NBin op l r | NCmp op l r | NArith op l r =>
      match opmap op, flatten l, flatten r with
      | Some o, Some x, Some y => Some ("( " ++ x ++ " " ++ o ++ " " ++ y ++ " )")
      | _, _, _ => None
      end
  | NIte op a b c =>
      match opmap op, flatten a, flatten b, flatten c with
      | Some o, Some x, Some y, Some z =>
          Some ("( " ++ o ++ " " ++ x ++ ", " ++ y ++ ", " ++ z ++ " )")
      | _, _, _, _ => None
      end
  end.
