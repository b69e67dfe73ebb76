(** Model of tulip/interfaces/ltl2ba.py: the reader of never claims.

    Tokens are found by PLY (re.VERBOSE) with the rules given as functions first (t_newline, t_name) and then
    the rules given as strings by decreasing length of their text; the nested tests below are that order, by the first
    character.  The automaton that PLY builds from the rules (LALR, the precedences at 152-167, default reductions of
    PLY 3.10) is modelled as a recursive-descent reader with the same semantic actions in the same order, and what
    PLY does after a syntax error by [run] below.  Simplified: characters are 8-bit; ltl2ba itself is an oracle;
    its output is read at once. *)
From Coq Require Import List String Ascii Bool Arith ZArith.
From Verif Require Import M_Base M_Ast M_Lexer M_Gr1c S_LTL.
Import ListNotations.
Open Scope string_scope.
Open Scope list_scope.
Open Scope nat_scope.

(** ltl2ba.py:103-124: the tokens; those that no rule of the grammar mentions are [BOther]. *)
Inductive btok : Type :=
| BNever | BGoto | BIf | BFi | BSkip | BName (v : string) | BNumber (v : string)
| BNot | BAnd | BOr | BImp | BLp | BRp | BLb | BRb | BSemi | BColon2 | BColon | BComment | BOther.
(** ltl2ba.py:138-142, second class of t_name *)
Definition word (c : ascii) : bool := name_start c || digit c.
(** ltl2ba.py:104-114, 143: reserved words *)
Definition word_tok (v : string) : btok :=
  if (v =? "goto")%string then BGoto else if (v =? "if")%string then BIf else if (v =? "fi")%string then BFi
  else if (v =? "never")%string then BNever else if (v =? "skip")%string then BSkip else BName v.
(** ltl2ba.py:62-66 t_COMMENT after [/*]: up to the last [*/] of the line; the text left over *)
Fixpoint comment_end (s : chars) : option chars :=
  match s with
  | [] => None
  | c :: r =>
      if (c =? newline)%char then None
      else match comment_end r with
           | Some q => Some q
           | None => if (c =? "*")%char then peek "/" r else None
           end
  end.
(** One match at the start of [c :: r].  Blank space (101), newlines (129-131) and illegal characters (133-136) give
    no token. *)
Definition blex1 (c : ascii) (r : chars) : option btok * chars :=
  if (c =? " ")%char || (c =? tab)%char || (c =? newline)%char then (None, r)
  else if name_start c then let (a, b) := span word r in (Some (word_tok (str_of (c :: a))), b)
  else if (c =? "/")%char then
    match peek "*" r with
    | Some r1 => match comment_end r1 with Some r2 => (Some BComment, r2) | None => (None, r) end
    | None => (None, r)
    end
  else if (c =? "!")%char then match peek "=" r with Some r' => (Some BOther, r') | None => (Some BNot, r) end
  else if (c =? "&")%char then match peek "&" r with Some r' => (Some BAnd, r') | None => (Some BAnd, r) end
  else if (c =? "|")%char then match peek "|" r with Some r' => (Some BOr, r') | None => (Some BOr, r) end
  else if (c =? "-")%char then match peek ">" r with Some r' => (Some BImp, r') | None => (None, r) end
  else if (c =? ":")%char then match peek ":" r with Some r' => (Some BColon2, r') | None => (Some BColon, r) end
  else if (c =? "<")%char || (c =? ">")%char then match peek "=" r with Some r' => (Some BOther, r') | None => (Some BOther, r) end
  else if (c =? "=")%char || (c =? "^")%char then (Some BOther, r)
  else if (c =? "(")%char then (Some BLp, r)
  else if (c =? ")")%char then (Some BRp, r)
  else if (c =? "{")%char then (Some BLb, r)
  else if (c =? "}")%char then (Some BRb, r)
  else if (c =? ";")%char then (Some BSemi, r)
  else if digit c then let (a, b) := span digit r in (Some (BNumber (str_of (c :: a))), b)
  else (None, r).
Fixpoint blexf (fuel : nat) (s : chars) : list btok :=
  match fuel, s with
  | S n, c :: r => let (o, r') := blex1 c r in match o with Some t => t :: blexf n r' | None => blexf n r' end
  | _, _ => []
  end.
Definition blex (s : string) : list btok := let l := list_ascii_of_string s in blexf (List.length l) l.

(** A guard is a text, or an integer if it is just a number (314-316). *)
Inductive bguard : Type := GText (s : string) | GInt (n : Z).
(** Python [f'{guard}'] *)
Definition gstr (g : bguard) : string := match g with GText s => s | GInt n => str_Z n end.
(** What the actions do to the attributes of the parser: [self.symbols[x] = 'boolean'], [self.g.add_node] with the sets
    of nodes, [self.g.add_edge]. *)
Inductive event : Type := ESymbol (x : string) | ENode (s : string) | EEdge (u v : string) (g : bguard).
(** A reader: the value, what is left, and the actions so far; or a syntax error at the first of the tokens left. *)
Inductive pres (A : Type) : Type := POk (a : A) (rest : list btok) (ev : list event) | PErr (rest : list btok) (ev : list event).
Arguments POk {A}. Arguments PErr {A}.
Definition pbind {A B} (x : pres A) (f : A -> list btok -> pres B) : pres B :=
  match x with
  | PErr r ev => PErr r ev
  | POk a r ev => match f a r with POk b q ev' => POk b q (ev ++ ev') | PErr q ev' => PErr q (ev ++ ev') end
  end.
(** ltl2ba.py:327-335 [p_state] *)
Definition pstate (ts : list btok) : pres string :=
  match ts with BName s :: r => POk s r [ENode s] | _ => PErr ts [] end.
(** ltl2ba.py:298-321: expressions, with the precedences OR, AND, NOT (1, 2, 3), the binary ones to the left *)
Fixpoint bexpr (f m : nat) (ts : list btok) : pres bguard :=
  match f with
  | O => PErr ts []
  | S f =>
      match ts with
      | BName x :: r => pbind (POk (GText x) r [ESymbol x]) (bloop f m)
      | BNumber v :: r => pbind (POk (GInt (match nat_text 0 v with Some n => n | None => 0%Z end)) r []) (bloop f m)
      | BNot :: r => pbind (bexpr f 3 r) (fun g q => bloop f m (GText ("(not " ++ gstr g ++ ")")) q)
      | BLp :: r => pbind (bexpr f 1 r) (fun g q =>
          match q with BRp :: q' => bloop f m (GText ("(" ++ gstr g ++ ")")) q' | _ => PErr q [] end)
      | _ => PErr ts []
      end
  end
with bloop (f m : nat) (g : bguard) (ts : list btok) : pres bguard :=
  match f with
  | O => PErr ts []
  | S f =>
      match ts with
      | BOr :: r => if m <=? 1 then pbind (bexpr f 2 r) (fun h q => bloop f m (GText ("(" ++ gstr g ++ " or " ++ gstr h ++ ")")) q)
                    else POk g ts []
      | BAnd :: r => if m <=? 2 then pbind (bexpr f 3 r) (fun h q => bloop f m (GText ("(" ++ gstr g ++ " and " ++ gstr h ++ ")")) q)
                     else POk g ts []
      | _ => POk g ts []
      end
  end.
Definition expr (ts : list btok) : pres bguard := bexpr (S (2 * List.length ts)) 1 ts.
(** ltl2ba.py:294-296, 323-325: [case : COLON2 expr IMP goto] *)
Definition pcase (ts : list btok) : pres (bguard * string) :=
  match ts with
  | BColon2 :: r => pbind (expr r) (fun g q =>
      match q with
      | BImp :: BGoto :: q' => pbind (pstate q') (fun s p => POk (g, s) p [])
      | BImp :: q' => PErr q' []
      | _ => PErr q []
      end)
  | _ => PErr ts []
  end.
(** ltl2ba.py:286-292: one case or more *)
Fixpoint pcases (f : nat) (ts : list btok) : pres (list (bguard * string)) :=
  match f with
  | O => PErr ts []
  | S f => pbind (pcase ts) (fun c q =>
      match q with
      | BColon2 :: _ => pbind (pcases f q) (fun l p => POk (c :: l) p [])
      | _ => POk [c] q []
      end)
  end.
(** ltl2ba.py:282-284: [if_clause : IF cases FI SEMI] *)
Definition pif (ts : list btok) : pres (list (bguard * string)) :=
  match ts with
  | BIf :: r => pbind (pcases (List.length r) r) (fun l q =>
      match q with BFi :: BSemi :: q' => POk l q' [] | BFi :: q' => PErr q' [] | _ => PErr q [] end)
  | _ => PErr ts []
  end.
(** ltl2ba.py:270-280: a clause, and the edges of a clause with a label *)
Definition pclause (ts : list btok) : pres unit :=
  match ts with
  | BIf :: _ => pbind (pif ts) (fun _ q => POk tt q [])
  | _ => pbind (pstate ts) (fun u q =>
           match q with
           | BColon :: q' => pbind (pif q') (fun l p => POk tt p (map (fun c => EEdge u (snd c) (fst c)) l))
           | _ => PErr q []
           end)
  end.
(** ltl2ba.py:262-268: one clause or more *)
Fixpoint pclauses (f : nat) (ts : list btok) : pres unit :=
  match f with
  | O => PErr ts []
  | S f => pbind (pclause ts) (fun _ q =>
      match q with
      | BIf :: _ | BName _ :: _ => pclauses f q
      | _ => POk tt q []
      end)
  end.
(** ltl2ba.py:258-260: [claim : NEVER LBRACE COMMENT clauses RBRACE] *)
Definition pclaim (ts : list btok) : pres unit :=
  match ts with
  | BNever :: BLb :: BComment :: r => pbind (pclauses (List.length r) r) (fun _ q =>
      match q with BRb :: q' => POk tt q' [] | _ => PErr q [] end)
  | BNever :: BLb :: r => PErr r []
  | BNever :: r => PErr r []
  | _ => PErr ts []
  end.
(** PLY's [parse] with [p_error] (340-342).  At a token that does not fit, [p_error] writes to the log; there is no rule for
    errors, so that PLY clears its stack, forgets the token and starts anew with the tokens after it.  At the end of the
    text [p_error] is called with None, which has no [value] (AttributeError), unless fewer than three tokens have fitted
    since the last error; then PLY returns. *)
Fixpoint run (fuel : nat) (first : bool) (ts : list btok) : res (list event) :=
  match fuel with
  | O => Err "fuel"
  | S f =>
      match pclaim ts with
      | POk _ [] ev => Ok ev
      | PErr [] ev => if first || (3 <=? List.length ts) then Err "AttributeError" else Ok ev
      | POk _ (_ :: r) ev | PErr (_ :: r) ev => do ev' <- run f false r; Ok (ev ++ ev')
      end
  end.
(** The attributes after the actions: a dictionary (the keys), a multigraph, two sets. *)
Record automaton := BA { ba_symbols : list string; ba_nodes : list string; ba_edges : list (string * string * bguard);
                         ba_initial : list string; ba_accepting : list string }.
(** Python [p in s] *)
Fixpoint has (p s : string) : bool :=
  String.prefix p s || match s with EmptyString => false | String _ r => has p r end.
Definition add (x : string) (l : list string) : list string := if mem x l then l else l ++ [x].
Definition act (a : automaton) (e : event) : automaton :=
  match e with
  | ESymbol x => BA (add x (ba_symbols a)) (ba_nodes a) (ba_edges a) (ba_initial a) (ba_accepting a)
  | ENode s => BA (ba_symbols a) (add s (ba_nodes a)) (ba_edges a)
                  (if has "init" s then add s (ba_initial a) else ba_initial a)
                  (if has "init" s then ba_accepting a else if has "accept" s then add s (ba_accepting a) else ba_accepting a)
  | EEdge u v g => BA (ba_symbols a) (ba_nodes a) (ba_edges a ++ [(u, v, g)]) (ba_initial a) (ba_accepting a)
  end.
(** ltl2ba.py:219-256 [Parser.parse] *)
Definition parse (text : string) : res automaton :=
  let ts := blex text in
  do ev <- run (S (List.length ts)) true ts;
  Ok (fold_left act ev (BA [] [] [] [] [])).
(** ltl2ba.py:370-412 [call_ltl2ba]: [tool] gives the return code and the output for the arguments, [None] if
    there is no such program *)
Definition call_ltl2ba (tool : list string -> option (Z * string)) (formula : string) : res string :=
  match tool ["ltl2ba"; "-h"] with
  | None => Err "Exception"
  | Some _ => match tool ["ltl2ba"; "-f"; ("""" ++ formula ++ """")%string] with
              | None => Err "FileNotFoundError"
              | Some (code, out) => if (code =? 0)%Z then Ok out else Err "Exception"
              end
  end.
(** ltl2ba.py:345-367 [ltl2ba].  The name [ltl2baint] is not defined in the module. *)
Definition ltl2ba (tool : list string -> option (Z * string)) (formula : string) : res automaton :=
  do _ <- call_ltl2ba tool formula; Err "NameError".
