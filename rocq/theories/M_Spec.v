(** Model of class GRSpec, tulip/spec/form.py:310-996 (data part). *)
From Coq Require Import List String ZArith Bool.
From Verif Require Import M_Base M_Ast M_Lexer M_Parser.
Import ListNotations.
Open Scope string_scope.

(** tulip/spec/form.py:338-360: domain of a variable: 'boolean', an integer interval
    [(lo, hi)], or a list of strings. *)
Inductive dom : Type := DBool | DInt (lo hi : Z) | DEnum (vs : list string).

Definition vardecl := list (string * dom).

(** tulip/spec/form.py:436-553: the fields of a GRSpec.  The caches _ast, _cache and _bool_int
    are not part of the value; moore, plus_one and qinit are. *)
Record grspec : Type := mkspec {
  env_vars : vardecl; sys_vars : vardecl;
  env_init : list string; sys_init : list string;
  env_safety : list string; sys_safety : list string;
  env_prog : list string; sys_prog : list string;
  moore : bool; plus_one : bool; qinit : string
}.

(** tulip/spec/form.py:459-462: the defaults moore=True, plus_one=True, qinit='\A \A'. *)
Definition spec_of (ev sv : vardecl) (ei si es ss ep sp : list string) : grspec :=
  mkspec ev sv ei si es ss ep sp true true "\A \A".

(** tulip/spec/form.py:500-509: an iterable of names declares Boolean variables. *)
Definition booleans (l : list string) : vardecl := map (fun v => (v, DBool)) l.
