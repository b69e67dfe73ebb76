(** Model of the PLY LALR(1) parser of tulip/spec/lexyacc.py:247-482.

    The grammar is ambiguous; PLY resolves every shift/reduce conflict by the precedence table
    (266-307): reduce when the level of the rule is higher than the level of the next token, or
    equal and left-associative, else shift.  A token without entry (TRUNCATE) has level 0.  For
    this expression grammar the LALR machine is the following stack machine: [frames] are the
    shifted prefixes waiting for their last operand. *)
From Coq Require Import List String Ascii Bool Arith.
From Verif Require Import M_Ast M_Lexer.
Import ListNotations.
Open Scope string_scope.

(** tulip/spec/lexyacc.py:266-307, position in the table (1 = lowest).  All binary levels are
    'left'. *)
Definition blevel (k : bopk) : nat :=
  match k with
  | BIMP => 1 | IMP => 2 | XOR => 3 | OR => 4 | AND => 5
  | UNTIL | WEAK_UNTIL | RELEASE => 7
  | EQUALS | NEQUALS => 8
  | LT | LE | GT | GE => 9
  | PLUS => 10
  | TIMES | DIV => 11
  end.
Definition minus_level : nat := 10.

(** Shifted prefixes: unary operator with its level (391-397), left operand and binary operator
    (404-446), parenthesis (448-450), and the three stages of "ite" (417-421). *)
Inductive frame : Type :=
| FUn (lvl : nat) (op : string)
| FBin (lvl : nat) (mk : node -> node -> node) (l : node)
| FParen
| FIte1 (op : string)
| FIte2 (op : string) (a : node)
| FIte3 (op : string) (a b : node).

(** tulip/spec/lexyacc.py:404-446: which node class a binary operator builds. *)
Definition mk_bin (k : bopk) (v : string) : node -> node -> node :=
  match k with
  | AND | OR | XOR | IMP | BIMP | UNTIL | WEAK_UNTIL | RELEASE => NBin v
  | EQUALS | NEQUALS | LT | LE | GT | GE => NCmp v
  | PLUS | TIMES | DIV => NArith v
  end.

(** Reduce the pending operators whose level is at least [lvl]. *)
Fixpoint reduce (lvl : nat) (st : list frame) (e : node) : list frame * node :=
  match st with
  | FUn l op :: st' => if Nat.leb lvl l then reduce lvl st' (NUn op e) else (st, e)
  | FBin l mk a :: st' => if Nat.leb lvl l then reduce lvl st' (mk a e) else (st, e)
  | _ => (st, e)
  end.

(** tulip/spec/ast.py:306-317: Bool stores [value.title()]. *)
Definition bool_of_tok (b : bool) : node := NBool (if b then "True" else "False").

(** [pre]: an operand must start here; [post e]: operand [e] is complete.  [None] is a syntax
    error (472-482) or an exhausted input (372-383). *)
Fixpoint run (ts : list tok) (st : list frame) (m : option node) {struct ts} : option node :=
  match m with
  | None =>
    match ts with
    | TRUE _ :: ts' => run ts' st (Some (bool_of_tok true))
    | FALSE _ :: ts' => run ts' st (Some (bool_of_tok false))
    | NAME v :: ts' => run ts' st (Some (NVar v))
    | NUMBER v :: ts' => run ts' st (Some (NNum v))
    | NOT v :: ts' => run ts' (FUn 12 v :: st) None
    | ALWAYS :: ts' => run ts' (FUn 6 "G" :: st) None
    | EVENTUALLY :: ts' => run ts' (FUn 6 "F" :: st) None
    | NEXT :: ts' => run ts' (FUn 13 "X" :: st) None
    | LPAREN :: ITE v :: ts' => run ts' (FIte1 v :: st) None
    | LPAREN :: ts' => run ts' (FParen :: st) None
    | MINUS :: NUMBER v :: ts' => run ts' st (Some (NNum ("-" ++ v)))
    | DQUOTES :: NAME v :: DQUOTES :: ts' => run ts' st (Some (NStr v))
    | _ => None
    end
  | Some e =>
    match ts with
    | [] => match reduce 0 st e with ([], e') => Some e' | _ => None end
    | PRIME :: ts' => let (st', e') := reduce 14 st e in run ts' st' (Some (NUn "X" e'))
    | TRUNCATE :: NUMBER v :: ts' =>
        let (st', e') := reduce 0 st e in run ts' st' (Some (NArith "<<>>" e' (NNum v)))
    | BOP k v :: ts' =>
        let (st', e') := reduce (blevel k) st e in
        run ts' (FBin (blevel k) (mk_bin k v) e' :: st') None
    | MINUS :: ts' =>
        let (st', e') := reduce minus_level st e in
        run ts' (FBin minus_level (NArith "-") e' :: st') None
    | RPAREN :: ts' =>
        match reduce 0 st e with
        | (FParen :: st', e') => run ts' st' (Some e')
        | (FIte3 op a b :: st', e') => run ts' st' (Some (NIte op a b e'))
        | _ => None
        end
    | COMMA :: ts' =>
        match reduce 0 st e with
        | (FIte1 op :: st', e') => run ts' (FIte2 op e' :: st') None
        | (FIte2 op a :: st', e') => run ts' (FIte3 op a e' :: st') None
        | _ => None
        end
    | _ => None
    end
  end.

Definition parse_toks (ts : list tok) : option node := run ts [] None.

(** tulip/spec/parser.py:52-78, lexyacc.py:346-383 with full_operators=False. *)
Definition parse (s : string) : option node := parse_toks (lex s).
