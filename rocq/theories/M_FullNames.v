(** Model of [parse(formula, full_operators=True)], tulip/spec/parser.py:52-78 and 90-109.

    [re.sub] with the pattern [(?i)\bname\b] is modelled as the scan from left to right that it is: at each position the pattern
    is tried, a match is replaced and the scan goes on after it.  Simplified as in M_Lexer: characters are 8-bit, and the
    characters of words ([\w]) are the ASCII letters, digits and the underscore. *)
From Coq Require Import List String Ascii Bool Arith NArith.
From Verif Require Import M_Ast M_Lexer M_Parser.
Import ListNotations.
Open Scope string_scope.
Open Scope list_scope.

(** spec/ast.py:105-133 *)
Definition FULL_OPERATOR_NAMES : list (string * string) :=
  [("next", "X"); ("always", "[]"); ("eventually", "<>"); ("until", "U"); ("stronguntil", "U"); ("weakuntil", "W"); ("unless", "W");
   ("release", "V"); ("implies", "->"); ("equivalent", "<->"); ("not", "!"); ("and", "&&"); ("or", "||")].
(** [\w] *)
Definition word_char (c : ascii) : bool := in_range "A" "Z" c || in_range "a" "z" c || in_range "0" "9" c || Ascii.eqb c "_".
(** [(?i)]: the names in the table are in lower case *)
Definition lower1 (c : ascii) : ascii := if in_range "A" "Z" c then ascii_of_N (N_of_ascii c + 32) else c.
(** [\b]: [before] tells whether there is a character of a word before the position *)
Definition boundary (before : bool) (s : chars) : bool := xorb before (match s with c :: _ => word_char c | [] => false end).
Fixpoint match_name (name s : chars) : option chars :=
  match name, s with
  | [], _ => Some s
  | d :: n, c :: r => if Ascii.eqb (lower1 c) d then match_name n r else None
  | _ :: _, [] => None
  end.
Fixpoint sub_from (fuel : nat) (name symbol : chars) (before : bool) (s : chars) : chars :=
  match fuel, s with
  | O, _ | _, [] => s
  | S f, c :: r =>
      match (if boundary before s then match_name name s else None) with
      | Some rest => if boundary true rest then symbol ++ sub_from f name symbol true rest else c :: sub_from f name symbol (word_char c) r
      | None => c :: sub_from f name symbol (word_char c) r
      end
  end.
Definition sub (name symbol : string) (s : chars) : chars := sub_from (List.length s) (list_ascii_of_string name) (list_ascii_of_string symbol) false s.
(** spec/parser.py:90-109 [_replace_full_name_operators] *)
Definition replace_full_name_operators (s : string) : string :=
  str_of (fold_left (fun s ns => sub (fst ns) (snd ns) s) FULL_OPERATOR_NAMES (list_ascii_of_string s)).
(** spec/parser.py:52-78 [parse] with [full_operators=True] *)
Definition parse_full (s : string) : option node := parse (replace_full_name_operators s).
