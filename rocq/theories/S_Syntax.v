(** Independent description of well-formed formula trees. *)
From Coq Require Import List String Ascii Bool.
From Verif Require Import M_Ast M_Lexer S_Gr1.
Import ListNotations.
Open Scope string_scope.

Definition oneof (op : string) (l : list string) : bool := existsb (String.eqb op) l.

(** Decimal digits, at least one. *)
Definition numeral (v : string) : bool :=
  match v with
  | EmptyString => false
  | String c r => digit c && forallb digit (list_ascii_of_string r)
  end.
Definition number_text (v : string) : bool :=
  match v with
  | String "-" r => numeral r
  | _ => numeral v
  end.

Definition identb (v : string) : bool := ident_chars v && negb (reserved v).

(** Trees over the grammar, with any spelling of the operators. *)
Fixpoint wf_node (t : node) : bool :=
  match t with
  | NVar v => identb v
  | NBool v => oneof v ["True"; "False"]
  | NNum v => number_text v
  | NStr v => identb v
  | NUn op a => oneof op ["!"; "~"; "G"; "F"; "X"] && wf_node a
  | NBin op l r =>
      oneof op ["&"; "|"; "^"; "->"; "=>"; "<->"; "<=>"; "U"; "W"; "V"] && wf_node l && wf_node r
  | NCmp op l r =>
      oneof op ["="; "!="; "/="; "<"; "<="; "=<"; ">"; ">="] && wf_node l && wf_node r
  | NArith op l r =>
      (oneof op ["+"; "-"; "*"; "/"]
       || ((op =? "<<>>") && match r with NNum v => numeral v | _ => false end))
      && wf_node l && wf_node r
  | NIte op a b c => (op =? "ite") && wf_node a && wf_node b && wf_node c
  end.

Fixpoint no_str (t : node) : bool :=
  match t with
  | NStr _ => false
  | NVar _ | NBool _ | NNum _ => true
  | NUn _ a => no_str a
  | NBin _ l r | NCmp _ l r | NArith _ l r => no_str l && no_str r
  | NIte _ a b c => no_str a && no_str b && no_str c
  end.

(** The operators are spelled in the printed form: not [~ => <=> /= =<]. *)
Fixpoint plain_ops (t : node) : bool :=
  match t with
  | NVar _ | NBool _ | NNum _ | NStr _ => true
  | NUn op a => negb (op =? "~") && plain_ops a
  | NBin op l r => negb (oneof op ["=>"; "<=>"]) && plain_ops l && plain_ops r
  | NCmp op l r => negb (oneof op ["/="; "=<"]) && plain_ops l && plain_ops r
  | NArith _ l r => plain_ops l && plain_ops r
  | NIte _ a b c => plain_ops a && plain_ops b && plain_ops c
  end.
