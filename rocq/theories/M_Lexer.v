(** Model of the PLY lexer of tulip/spec/lexyacc.py:55-244.

    PLY (ply.lex, with its default flag re.VERBOSE) tries, at each position, first the rules
    given as functions in source order (t_NAME, t_ALWAYS, t_EVENTUALLY, t_AND, t_OR, t_comment,
    t_newline) and then the rules given as strings by decreasing length of the regular
    expression text (BIMP, IMP, NEQUALS, LE, NOT, then the short ones).  The nested tests below
    are that order, specialised to the first character.  Simplified: characters are 8-bit. *)
From Coq Require Import List String Ascii Bool ZArith Lia.
From Verif Require Import M_Ast.
Import ListNotations.
Open Scope char_scope.

(** tulip/spec/lexyacc.py:86-121: token types; binary operators are grouped in [BOP], MINUS is
    separate because it also starts negative numbers (464-466). *)
Inductive bopk : Type :=
| AND | OR | XOR | IMP | BIMP | UNTIL | WEAK_UNTIL | RELEASE
| EQUALS | NEQUALS | LT | LE | GT | GE | PLUS | TIMES | DIV.

Inductive tok : Type :=
| NAME (v : string) | NUMBER (v : string)
| TRUE (v : string) | FALSE (v : string)
| ITE (v : string) | LPAREN | RPAREN | DQUOTES | COMMA
| NOT (v : string) | ALWAYS | EVENTUALLY | NEXT | PRIME
| BOP (k : bopk) (v : string) | MINUS | TRUNCATE.

(** A formula text as the list of its characters. *)
Notation chars := (list ascii).

Definition in_range (lo hi c : ascii) : bool :=
  (N_of_ascii lo <=? N_of_ascii c)%N && (N_of_ascii c <=? N_of_ascii hi)%N.

(** tulip/spec/lexyacc.py:126 first class of t_NAME, [[A-Za-z_]]. *)
Definition name_start (c : ascii) : bool :=
  in_range "A" "Z" c || in_range "a" "z" c || (c =? "_").

(** tulip/spec/lexyacc.py:127 second class of t_NAME, [[A-za-z0-9._:]]; the range A-z includes
    the six characters between Z and a. *)
Definition name_char (c : ascii) : bool :=
  in_range "A" "z" c || in_range "0" "9" c || (c =? ".") || (c =? "_") || (c =? ":").

(** tulip/spec/lexyacc.py:185 t_NUMBER [\d+] (ASCII digits only). *)
Definition digit (c : ascii) : bool := in_range "0" "9" c.

Fixpoint span (f : ascii -> bool) (s : chars) : chars * chars :=
  match s with
  | c :: r => if f c then let (a, b) := span f r in (c :: a, b) else ([], s)
  | [] => ([], [])
  end.

Definition str_of (s : chars) : string := string_of_list_ascii s.

(** Python [str.upper] on ASCII. *)
Definition upper1 (c : ascii) : ascii :=
  if in_range "a" "z" c then ascii_of_N (N_of_ascii c - 32) else c.
Definition upper (s : string) : string :=
  string_of_list_ascii (map upper1 (list_ascii_of_string s)).

(** tulip/spec/lexyacc.py:62-85, 129-134: reserved words, and the value substitution
    'next' -> 'X'. *)
Definition name_tok (s : string) : tok :=
  let v := if String.eqb s "next" then "X"%string else s in
  if String.eqb (upper v) "FALSE" then FALSE v
  else if String.eqb (upper v) "TRUE" then TRUE v
  else if String.eqb v "ite" then ITE v
  else if String.eqb v "X" then NEXT
  else if String.eqb v "G" then ALWAYS
  else if String.eqb v "F" then EVENTUALLY
  else if String.eqb v "U" then BOP UNTIL v
  else if String.eqb v "W" then BOP WEAK_UNTIL v
  else if String.eqb v "V" then BOP RELEASE v
  else NAME v.

Definition peek (d : ascii) (r : chars) : option chars :=
  match r with
  | x :: r' => if x =? d then Some r' else None
  | [] => None
  end.

Definition newline : ascii := "010".
Definition tab : ascii := "009".
Definition bslash : ascii := "092".
Definition dquote : ascii := "034".
Definition squote : ascii := "039".

Definition not_newline (c : ascii) : bool := negb (c =? newline).

(** One match at the start of the non-empty text [c :: r]: the token produced, if any (blank
    space 203, comments 205-207, newlines 209-211 and unknown characters 213-217 produce
    none), and the text left over. *)
Definition lex1 (c : ascii) (r : chars) : option tok * chars :=
  if (c =? " ") || (c =? tab) then (None, r)
  else if name_start c then
    let (a, b) := span name_char r in (Some (name_tok (str_of (c :: a))), b)
  else if c =? "[" then
    match peek "]" r with Some r' => (Some ALWAYS, r') | None => (None, r) end
  else if c =? "<" then
    match peek ">" r with
    | Some r' => (Some EVENTUALLY, r')
    | None =>
      match peek "-" r with
      | Some r1 =>
          match peek ">" r1 with
          | Some r2 => (Some (BOP BIMP "<->"), r2)
          | None => (Some (BOP LT "<"), r)
          end
      | None =>
        match peek "=" r with
        | Some r1 =>
            match peek ">" r1 with
            | Some r2 => (Some (BOP BIMP "<=>"), r2)
            | None => (Some (BOP LE "<="), r1)
            end
        | None =>
          match peek "<" r with
          | Some r1 =>
              match peek ">" r1 with
              | Some r2 =>
                  match peek ">" r2 with
                  | Some r3 => (Some TRUNCATE, r3)
                  | None => (Some (BOP LT "<"), r)
                  end
              | None => (Some (BOP LT "<"), r)
              end
          | None => (Some (BOP LT "<"), r)
          end
        end
      end
    end
  else if c =? "&" then
    match peek "&" r with Some r' => (Some (BOP AND "&"), r') | None => (Some (BOP AND "&"), r) end
  else if c =? "/" then
    match peek bslash r with
    | Some r' => (Some (BOP AND "&"), r')
    | None =>
      match peek "=" r with
      | Some r' => (Some (BOP NEQUALS "/="), r')
      | None => (Some (BOP DIV "/"), r)
      end
    end
  else if c =? "|" then
    match peek "|" r with Some r' => (Some (BOP OR "|"), r') | None => (Some (BOP OR "|"), r) end
  else if c =? bslash then
    match peek "/" r with Some r' => (Some (BOP OR "|"), r') | None => (None, r) end
  else if c =? "#" then (None, snd (span not_newline r))
  else if c =? newline then (None, r)
  else if c =? "-" then
    match peek ">" r with Some r' => (Some (BOP IMP "->"), r') | None => (Some MINUS, r) end
  else if c =? "=" then
    match peek ">" r with
    | Some r' => (Some (BOP IMP "=>"), r')
    | None =>
      match peek "<" r with
      | Some r' => (Some (BOP LE "=<"), r')
      | None => (Some (BOP EQUALS "="), r)
      end
    end
  else if c =? "!" then
    match peek "=" r with
    | Some r' => (Some (BOP NEQUALS "!="), r')
    | None => (Some (NOT "!"), r)
    end
  else if c =? "~" then (Some (NOT "~"), r)
  else if c =? ">" then
    match peek "=" r with
    | Some r' => (Some (BOP GT ">="), r')
    | None => (Some (BOP GE ">"), r)
    end
  else if c =? "^" then (Some (BOP XOR "^"), r)
  else if c =? "(" then (Some LPAREN, r)
  else if c =? ")" then (Some RPAREN, r)
  else if digit c then
    let (a, b) := span digit r in (Some (NUMBER (str_of (c :: a))), b)
  else if c =? "+" then (Some (BOP PLUS "+"), r)
  else if c =? "*" then (Some (BOP TIMES "*"), r)
  else if c =? "," then (Some COMMA, r)
  else if c =? dquote then (Some DQUOTES, r)
  else if c =? squote then (Some PRIME, r)
  else (None, r).

(** The token stream; each match consumes at least one character, so the fuel
    [length s] never runs out (see L_Lexer.lex_cons). *)
Fixpoint lexf (fuel : nat) (s : chars) : list tok :=
  match fuel, s with
  | S n, c :: r =>
      let (o, r') := lex1 c r in
      match o with Some t => t :: lexf n r' | None => lexf n r' end
  | _, _ => []
  end.

Definition lexl (s : chars) : list tok := lexf (List.length s) s.

Definition lex (s : string) : list tok := lexl (list_ascii_of_string s).
