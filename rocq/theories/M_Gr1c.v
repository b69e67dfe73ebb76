(** Model of the translation of a GR(1) specification to a gr1c document. *)
From Coq Require Import List String Bool ZArith.
From Verif Require Import M_Base M_Ast M_Parser M_Spec M_Form M_Tree.
Import ListNotations.
Open Scope string_scope.

(** tulip/spec/translation.py:129-163: the operator map of the gr1c nodes. *)
Definition gr1c_opmap : list (string * string) :=
  [("False", "False"); ("True", "True"); ("!", "!"); ("|", "|"); ("&", "&"); ("->", "->"); ("<->", "<->");
   ("G", "[]"); ("F", "<>"); ("X", ""); ("<", "<"); ("<=", "<="); ("=", "="); (">=", ">="); (">", ">"); ("!=", "!=")].
(** translation.py:184-228: the operator map of the slugs nodes, which share the classes. *)
Definition slugs_opmap : list (string * string) :=
  [("False", "FALSE"); ("True", "TRUE"); ("!", "!"); ("|", "|"); ("&", "&"); ("->", "->"); ("<->", "<->");
   ("G", "[]"); ("F", "<>"); ("X", ""); ("<", "<"); ("<=", "<="); ("=", "="); (">=", ">="); (">", ">"); ("!=", "!=");
   ("+", "+"); ("-", "-")].
(** translation.py:164-180 with ast.py:202-203, 253-273, 319-320: [flatten] of these nodes.
    [prime] is the keyword passed down by [X], which prints nothing itself.  The copy made by
    [_ast_to_lang] (translation.py:650-664) has the same shape, and is left out. *)
Fixpoint gr1c_flatten (m : list (string * string)) (prime : bool) (t : node) : res string :=
  match t with
  | NVar v => Ok (v ++ (if prime then "'" else ""))
  | NNum v | NStr v => Ok v
  | NBool v => of_opt "KeyError" (lookup v m)
  | NUn op a =>
      if op =? "X" then gr1c_flatten m true a
      else do o <- of_opt "KeyError" (lookup op m); do x <- gr1c_flatten m prime a; Ok ("( " ++ o ++ " " ++ x ++ " )")
  | NBin op l r | NCmp op l r | NArith op l r =>
      do o <- of_opt "KeyError" (lookup op m);
      do x <- gr1c_flatten m prime l; do y <- gr1c_flatten m prime r; Ok ("( " ++ x ++ " " ++ o ++ " " ++ y ++ " )")
  | NIte op a b c => Err "KeyError"
  end.

(** Python's [%d] and [str] of an integer. *)
Definition str_Z (z : Z) : string :=
  if (z <? 0)%Z then "-" ++ str_nat (Z.to_nat (- z)) else str_nat (Z.to_nat z).

(** translation.py:441-454, with convert_domain 517-528. *)
Definition gr1c_var (kv : string * dom) : res string :=
  match snd kv with
  | DBool => Ok (" " ++ fst kv)
  | DInt a b => Ok (" " ++ fst kv ++ " [" ++ str_Z a ++ ", " ++ str_Z b ++ "]")
  | DEnum [] => Err "ValueError"
  | DEnum l => Ok (" " ++ fst kv ++ " [" ++ str_Z 0 ++ ", " ++ str_Z (Z.of_nat (List.length l) - 1) ++ "]")
  end.
Definition gr1c_vars (d : vardecl) : res string := do l <- mapr gr1c_var d; Ok (join "" l).
(** The newline character. *)
Definition nl : string := String (Ascii.ascii_of_nat 10) "".
(** translation.py:525-536 [_gr1c_str]. *)
Definition gr1c_str (s : list string) (name prefix : string) : string :=
  match s with
  | [] => name ++ ":;" ++ nl
  | _ => name ++ ": " ++ join (nl ++ "& ") (map (fun x => prefix ++ "(" ++ x ++ ")") s) ++ ";" ++ nl
  end.
(** translation.py:433-467 [_to_gr1c] and 594-632 [translate] for language gr1c. *)
Definition translated (g : grspec) (m : list (string * (node * string))) (l : list string) : res (list string) :=
  mapr (fun x => do bf <- of_opt "KeyError" (lookup x m); gr1c_flatten gr1c_opmap false (fst bf)) l.
Definition to_gr1c (g : grspec) : res string :=
  do _ <- check_syntax g;
  do m <- str_to_int g;
  do ei <- translated g m (env_init g); do es <- translated g m (env_safety g); do ep <- translated g m (env_prog g);
  do si <- translated g m (sys_init g); do ss <- translated g m (sys_safety g); do sp <- translated g m (sys_prog g);
  do ev <- gr1c_vars (env_vars g); do sv <- gr1c_vars (sys_vars g);
  Ok ("ENV:" ++ ev ++ ";" ++ nl ++ "SYS:" ++ sv ++ ";" ++ nl ++
      gr1c_str ei "ENVINIT" "" ++ gr1c_str es "ENVTRANS" "[]" ++ gr1c_str ep "ENVGOAL" "[]<>" ++ nl ++
      gr1c_str si "SYSINIT" "" ++ gr1c_str ss "SYSTRANS" "[]" ++ gr1c_str sp "SYSGOAL" "[]<>").
