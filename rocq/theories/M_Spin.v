(** Translation of formulas from the syntax of SPIN to that of ltl2dstar:
    contrib/spin2dstar.py, character by character, with the parser that pyparsing makes of its
    grammar.

    Simplifications.  [prs.alphas] are the ASCII letters.  One unit of fuel is one level of the
    recursion of the parser; without fuel it raises, as Python does at its recursion limit. *)
From Coq Require Import List String Ascii Bool Arith.
From Verif Require Import M_Base.
Import ListNotations.
Local Open Scope string_scope.

(** contrib/spin2dstar.py:48-66, the keys of the two dictionaries. *)
Inductive unop := ONot | ONext | OAlways | OEventually.
Inductive binop := OUntil | OAnd | OOr | OImplies | OIff.
(** contrib/spin2dstar.py:69-73, [AST]; [left] is empty for unary operators, and [left] and
    [right] for identifiers. *)
Inductive ast := AIdent (s : string) | AUn (o : unop) (a : ast) | ABin (o : binop) (a b : ast).

(** contrib/spin2dstar.py:48-56. *)
Definition spin_un (o : unop) : string :=
  match o with ONot => "!" | ONext => "X" | OAlways => "[]" | OEventually => "<>" end.
Definition spin_bin (o : binop) : string :=
  match o with OUntil => "U" | OAnd => "&&" | OOr => "||" | OImplies => "->" | OIff => "<->" end.
(** contrib/spin2dstar.py:58-66. *)
Definition dstar_un (o : unop) : string :=
  match o with ONot => "!" | ONext => "X" | OAlways => "G" | OEventually => "F" end.
Definition dstar_bin (o : binop) : string :=
  match o with OUntil => "U" | OAnd => "&" | OOr => "|" | OImplies => "i" | OIff => "e" end.
(** contrib/spin2dstar.py:81-94, [to_dstar] with [pretty=True].  An identifier that is a key of
    [DSTAR_SYN] can only be [X] or [U], which stand for themselves. *)
Fixpoint to_dstar (a : ast) : string :=
  match a with
  | AIdent s => s
  | AUn o a => dstar_un o ++ " " ++ to_dstar a
  | ABin o a b => dstar_bin o ++ " " ++ to_dstar a ++ " " ++ to_dstar b
  end.

(** What pyparsing does at the start of each token. *)
Definition is_white (c : ascii) : bool :=
  Ascii.eqb c " " || Ascii.eqb c "009" || Ascii.eqb c "010" || Ascii.eqb c "013".
Fixpoint skip (s : string) : string :=
  match s with
  | String c r => if is_white c then skip r else s
  | "" => ""
  end.
(** [prs.Literal] *)
Fixpoint literal (l s : string) : option string :=
  match l, s with
  | "", _ => Some s
  | String a l', String b s' => if Ascii.eqb a b then literal l' s' else None
  | _, _ => None
  end.
(** contrib/spin2dstar.py:132-134, [identifier]. *)
Definition in_range (c lo hi : ascii) : bool :=
  (nat_of_ascii lo <=? nat_of_ascii c)%nat && (nat_of_ascii c <=? nat_of_ascii hi)%nat.
Definition is_first (c : ascii) : bool := in_range c "a" "z" || in_range c "A" "Z" || Ascii.eqb c "_".
Definition is_later (c : ascii) : bool := is_first c || in_range c "0" "9".
Fixpoint later (s : string) : string * string :=
  match s with
  | String c r => if is_later c then let '(w, r') := later r in (String c w, r') else ("", s)
  | "" => ("", "")
  end.
Definition identifier (s : string) : option (string * string) :=
  match s with
  | String c r => if is_first c then let '(w, r') := later r in Some (String c w, r') else None
  | "" => None
  end.

(** The end of a match: what is left of the text; no match; or an exception. *)
Inductive pres := PMatch (r : string) | PFail | PRaise.
(** The parser works on the list [expr_stack], which is global: what an alternative
    pushed before it failed stays (contrib/spin2dstar.py:106-119). *)
Definition stack := list ast.
(** contrib/spin2dstar.py:107-116, [push_op]. *)
Definition push_un (o : unop) (st : stack) (r : string) : stack * pres :=
  match st with a :: t => (AUn o a :: t, PMatch r) | [] => (st, PRaise) end.
Definition push_bin (o : binop) (st : stack) : option stack :=
  match st with b :: a :: t => Some (ABin o a b :: t) | _ => None end.
(** contrib/spin2dstar.py:144-148, the first operator that matches. *)
Fixpoint first_bin (l : list binop) (s : string) : option (binop * string) :=
  match l with
  | [] => None
  | o :: l => match literal (spin_bin o) s with Some r => Some (o, r) | None => first_bin l s end
  end.
Definition bin_ops : list binop := [OUntil; OAnd; OOr; OImplies; OIff].
(** contrib/spin2dstar.py:135-149, the grammar: [unary_or_less], [form] and the loop of
    [ZeroOrMore]. *)
Fixpoint parse_unary (fuel : nat) (s : string) (st : stack) : stack * pres :=
  match fuel with
  | O => (st, PRaise)
  | S f =>
      let s := skip s in
      let try_op o st (next : stack -> stack * pres) :=
        match literal (spin_un o) s with
        | None => next st
        | Some r => match parse_unary f r st with
                    | (st', PMatch r') => push_un o st' r'
                    | (st', PFail) => next st'
                    | (st', PRaise) => (st', PRaise)
                    end
        end in
      try_op ONot st (fun st => try_op ONext st (fun st => try_op OAlways st (fun st =>
      try_op OEventually st (fun st =>
        match identifier s with
        | Some (w, r) => (AIdent w :: st, PMatch r)
        | None =>
            match literal "(" s with
            | None => (st, PFail)
            | Some r => match parse_form f r st with
                        | (st', PMatch r') => match literal ")" (skip r') with
                                              | Some r'' => (st', PMatch r'')
                                              | None => (st', PFail)
                                              end
                        | x => x
                        end
            end
        end))))
  end
with parse_form (fuel : nat) (s : string) (st : stack) : stack * pres :=
  match fuel with
  | O => (st, PRaise)
  | S f => match parse_unary f s st with
           | (st', PMatch r) => parse_more f r st'
           | (st', PFail) => parse_unary f s st'
           | (st', PRaise) => (st', PRaise)
           end
  end
with parse_more (fuel : nat) (s : string) (st : stack) : stack * pres :=
  match fuel with
  | O => (st, PRaise)
  | S f => match first_bin bin_ops (skip s) with
           | None => (st, PMatch s)
           | Some (o, r) => match parse_form f r st with
                            | (st', PMatch r') => match push_bin o st' with
                                                  | Some st'' => parse_more f r' st''
                                                  | None => (st', PRaise)
                                                  end
                            | (st', PFail) => (st', PMatch s)
                            | (st', PRaise) => (st', PRaise)
                            end
           end
  end.

(** contrib/spin2dstar.py:122-152, [spin_to_AST]: the result and the global stack after the
    call. *)
Definition spin_to_AST (s : string) (st : stack) : res ast * stack :=
  match parse_form (4 * String.length s + 4) s st with
  | (st', PMatch r) =>
      match skip r with
      | "" => match st' with [a] => (Ok a, []) | _ => (Err "AssertionError", st') end
      | _ => (Err "ParseException", st')
      end
  | (st', PFail) => (Err "ParseException", st')
  | (st', PRaise) => (Err "ValueError", st')
  end.
(** contrib/spin2dstar.py:154-156, [spin_to_dstar]. *)
Definition spin_to_dstar (s : string) (st : stack) : res string * stack :=
  let '(r, st') := spin_to_AST s st in (do a <- r; Ok (to_dstar a), st').
