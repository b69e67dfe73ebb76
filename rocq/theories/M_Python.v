(** Model of the translation of formulas to Python expressions. *)
From Coq Require Import List String Bool.
From Verif Require Import M_Base M_Ast M_Parser M_Spec M_Form M_Tree.
Import ListNotations.
Open Scope string_scope.

(** tulip/spec/translation.py:316-345: the operator map of the Python nodes. *)
Definition py_opmap : list (string * string) :=
  [("True", "True"); ("False", "False"); ("!", "not"); ("&", "and"); ("|", "or"); ("^", "^"); ("=", "==");
   ("!=", "!="); ("<", "<"); (">=", ">="); ("<=", "<="); (">", ">"); ("+", "+"); ("-", "-")].

(** translation.py:691-707: the asserted binary operators. *)
Definition py_binary : list string :=
  ["&"; "|"; "^"; "->"; "<->"; ">"; ">="; "="; "!="; "<="; "<"; "+"; "-"; "*"; "/"].
(** translation.py:678-707 [_ast_to_python]: only its exceptions matter, as the tree is copied
    (with '->' and '<->' nodes marked by their class, which is determined by the operator). *)
Fixpoint ast_to_python (t : node) : res node :=
  match t with
  | NVar _ | NBool _ | NNum _ | NStr _ => Ok t
  | NUn op a => if op =? "!" then do x <- ast_to_python a; Ok (NUn op x) else Err "AssertionError"
  | NBin op l r => if mem op py_binary then do x <- ast_to_python l; do y <- ast_to_python r; Ok (NBin op x y)
                   else Err "AssertionError"
  | NCmp op l r => if mem op py_binary then do x <- ast_to_python l; do y <- ast_to_python r; Ok (NCmp op x y)
                   else Err "AssertionError"
  | NArith op l r => if mem op py_binary then do x <- ast_to_python l; do y <- ast_to_python r; Ok (NArith op x y)
                     else Err "AssertionError"
  | NIte _ _ _ _ => Err "ValueError"
  end.
(** ast.py:253-273, 319-320 and translation.py:346-361: [flatten] of the Python nodes. *)
Fixpoint py_flatten (t : node) : res string :=
  let infix op l r :=
    do o <- of_opt "KeyError" (lookup op py_opmap);
    do x <- py_flatten l; do y <- py_flatten r; Ok ("( " ++ x ++ " " ++ o ++ " " ++ y ++ " )") in
  match t with
  | NVar v | NNum v | NStr v => Ok v
  | NBool v => of_opt "KeyError" (lookup v py_opmap)
  | NUn op a => do o <- of_opt "KeyError" (lookup op py_opmap); do x <- py_flatten a; Ok ("( " ++ o ++ " " ++ x ++ " )")
  | NBin op l r =>
      if op =? "->" then do x <- py_flatten l; do y <- py_flatten r; Ok ("((not (" ++ x ++ ")) or " ++ y ++ ")")
      else if op =? "<->" then do x <- py_flatten l; do y <- py_flatten r; Ok ("(" ++ x ++ " == " ++ y ++ ")")
      else infix op l r
  | NCmp op l r | NArith op l r => infix op l r
  | NIte _ _ _ _ => Err "KeyError"
  end.
(** [translate_ast(tree, 'python').flatten()] *)
Definition to_python (t : node) : res string := do u <- ast_to_python t; py_flatten u.

(** form.py:883-893, one side: the trees [ts] of its clauses. *)
Definition py_side (ts : list node) : res string :=
  do c <- mapr to_python ts;
  let s := conj c "" "and" in
  Ok (if s =? "" then "True" else s).
(** form.py:847-897 up to the call of Python's [compile]; with [no_str] the trees of the encoded
    clauses, as cached by str_to_int. *)
Definition compile_init (g : grspec) (no_str : bool) : res string :=
  do m <- str_to_int g;
  let tree x := if no_str then do bf <- of_opt "KeyError" (lookup x m); Ok (fst bf) else ast g x in
  do te <- mapr tree (env_init g); do e <- py_side te;
  do ts <- mapr tree (sys_init g); do s <- py_side ts;
  Ok ("not (" ++ e ++ ") or (" ++ s ++ ")").
