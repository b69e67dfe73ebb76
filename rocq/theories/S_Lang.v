(** Independent reading of formulas in the languages of JTLV and Wring. *)
From Coq Require Import List String Ascii Bool ZArith.
From Verif Require Import M_Ast S_LTL S_Syntax S_Python.
Import ListNotations.
Open Scope string_scope.
Open Scope list_scope.

(** * Words: blanks separate words, punctuation characters are words *)
Definition flush (acc : string) : list string := if (acc =? "")%string then [] else [acc].
Fixpoint split_words (blank punct : ascii -> bool) (l : list ascii) (acc : string) : list string :=
  match l with
  | [] => flush acc
  | c :: r => if blank c then flush acc ++ split_words blank punct r ""
              else if punct c then flush acc ++ String c "" :: split_words blank punct r ""
              else split_words blank punct r (acc ++ String c "")
  end.
Definition is_white (c : ascii) : bool := existsb (fun n => Nat.eqb (nat_of_ascii c) n) [9; 10; 11; 12; 13; 28; 29; 30; 31; 32]%nat.

(** * Formulas with prefix and infix operators

    An infix operation is in parentheses; only conjunctions have several operands.  [prefix_op] finds a
    prefix operator, [infix_op] an infix operator, [atom] an atomic formula or a term. *)
Record syntax := Syntax {
  prefix_op : list string -> option (string * list string);
  infix_op : string -> option (node -> node -> node);
  conj_op : string;
  atom : list string -> option (node * list string) }.
Inductive mode := Expr | Inside | Conjuncts.
Fixpoint read (x : syntax) (fuel : nat) (m : mode) (ws : list string) : option (node * list string) :=
  match fuel with
  | O => None
  | S n =>
    match m with
    | Expr =>
        match ws with
        | w :: r =>
            if (w =? "(")%string then read x n Inside r
            else match prefix_op x ws with
                 | Some (op, q) => match read x n Expr q with Some (a, q) => Some (NUn op a, q) | None => None end
                 | None => atom x ws
                 end
        | [] => None
        end
    | Inside =>
        match read x n Expr ws with
        | Some (a, w :: q) =>
            if (w =? ")")%string then Some (a, q)
            else if (w =? conj_op x)%string then
              match read x n Conjuncts q with Some (b, q) => Some (NBin "&" a b, q) | None => None end
            else match infix_op x w with
                 | Some f => match read x n Expr q with
                             | Some (b, v :: q) => if (v =? ")")%string then Some (f a b, q) else None
                             | _ => None
                             end
                 | None => None
                 end
        | _ => None
        end
    | Conjuncts =>
        match read x n Expr ws with
        | Some (a, w :: q) =>
            if (w =? ")")%string then Some (a, q)
            else if (w =? conj_op x)%string then
              match read x n Conjuncts q with Some (b, q) => Some (NBin "&" a b, q) | None => None end
            else None
        | _ => None
        end
    end
  end.
Definition name_text (reserved : list string) (w : string) : bool :=
  match w with
  | EmptyString => false
  | String c _ => is_letter c && forallb word_char (list_ascii_of_string w) && negb (existsb (String.eqb w) reserved)
  end.
(** One of the words [l], standing for the second component. *)
Definition one_of {A} (l : list (string * A)) (w : string) : option A :=
  option_map snd (find (fun p => (fst p =? w)%string) l).

(** * Wring: [x=1] and [x=0] are the propositions, 1 and 0 the constants *)
Definition wring_punct (c : ascii) : bool := existsb (Ascii.eqb c) ["("; ")"; "="; "*"; "+"; "!"]%char.
Definition wring_words (s : string) : list string := split_words is_white wring_punct (list_ascii_of_string s) "".
Definition wring_reserved : list string := ["G"; "F"; "X"; "U"; "R"; "V"; "W"].
Definition wring_prefix (ws : list string) : option (string * list string) :=
  match ws with
  | w :: r => option_map (fun op => (op, r)) (one_of [("!", "!"); ("X", "X"); ("G", "G"); ("F", "F")] w)
  | [] => None
  end.
Definition wring_infix (w : string) : option (node -> node -> node) :=
  one_of [("+", NBin "|"); ("->", NBin "->"); ("<->", NBin "<->"); ("^", NBin "^"); ("U", NBin "U"); ("R", NBin "V"); ("V", NBin "V")] w.
Definition wring_atom (ws : list string) : option (node * list string) :=
  match ws with
  | w :: r =>
      if (w =? "1")%string then Some (NBool "True", r)
      else if (w =? "0")%string then Some (NBool "False", r)
      else if name_text wring_reserved w then
        match r with
        | e :: v :: q => if (e =? "=")%string && (v =? "1")%string then Some (NVar w, q)
                         else if (e =? "=")%string && (v =? "0")%string then Some (NUn "!" (NVar w), q) else None
        | _ => None
        end
      else None
  | [] => None
  end.
Definition wring : syntax := Syntax wring_prefix wring_infix "*" wring_atom.
Definition wring_read (s : string) : option node :=
  let ws := wring_words s in
  match read wring (S (List.length ws)) Expr ws with Some (t, []) => Some t | _ => None end.

(** * JTLV: the variables of the environment are [e.x], those of the system [s.x] *)
Definition jtlv_punct (c : ascii) : bool := existsb (Ascii.eqb c) ["("; ")"; "["; "]"]%char.
(** Comments begin with two hyphens and end with the line. *)
Fixpoint skip_comments (inside : bool) (l : list ascii) : list ascii :=
  match l with
  | [] => []
  | c :: r =>
      if inside then (if Ascii.eqb c (ascii_of_nat 10) then c :: skip_comments false r else skip_comments true r)
      else match r with
           | d :: _ => if Ascii.eqb c "-" && Ascii.eqb d "-" then skip_comments true r else c :: skip_comments false r
           | [] => [c]
           end
  end.
Definition jtlv_words (s : string) : list string :=
  split_words is_white jtlv_punct (skip_comments false (list_ascii_of_string s)) "".
Definition jtlv_prefix (ws : list string) : option (string * list string) :=
  match ws with
  | w :: r =>
      match one_of [("!", "!"); ("next", "X"); ("<>", "F")] w with
      | Some op => Some (op, r)
      | None => match r with
                | v :: r => if (w =? "[")%string && (v =? "]")%string then Some ("G", r) else None
                | [] => None
                end
      end
  | [] => None
  end.
Definition jtlv_infix (w : string) : option (node -> node -> node) :=
  one_of [("|", NBin "|"); ("->", NBin "->"); ("<->", NBin "<->"); ("U", NBin "U");
          ("=", NCmp "="); ("!=", NCmp "!="); ("<", NCmp "<"); ("<=", NCmp "<="); (">", NCmp ">"); (">=", NCmp ">=")] w.
Definition player_var (w : string) : bool :=
  match w with
  | String c (String d x) => (Ascii.eqb c "e" || Ascii.eqb c "s") && Ascii.eqb d "." && name_text [] x
  | _ => false
  end.
Definition jtlv_atom (ws : list string) : option (node * list string) :=
  match ws with
  | w :: r =>
      if (w =? "TRUE")%string then Some (NBool "True", r)
      else if (w =? "FALSE")%string then Some (NBool "False", r)
      else if number_text w then Some (NNum w, r)
      else if player_var w then Some (NVar w, r) else None
  | [] => None
  end.
Definition jtlv : syntax := Syntax jtlv_prefix jtlv_infix "&" jtlv_atom.
(** A text is a conjunction of formulas; the empty text is the empty conjunction. *)
Fixpoint jtlv_conjuncts (fuel : nat) (ws : list string) : option (list node) :=
  match fuel with
  | O => None
  | S n =>
    match read jtlv n Expr ws with
    | Some (a, []) => Some [a]
    | Some (a, w :: q) => if (w =? "&")%string then option_map (cons a) (jtlv_conjuncts n q) else None
    | None => None
    end
  end.
Definition jtlv_read (s : string) : option (list node) :=
  match jtlv_words s with
  | [] => Some []
  | ws => jtlv_conjuncts (S (List.length ws)) ws
  end.

(** Variables renamed. *)
Fixpoint rename (f : string -> string) (t : node) : node :=
  match t with
  | NVar x => NVar (f x)
  | NBool _ | NNum _ | NStr _ => t
  | NUn op a => NUn op (rename f a)
  | NBin op l r => NBin op (rename f l) (rename f r)
  | NCmp op l r => NCmp op (rename f l) (rename f r)
  | NArith op l r => NArith op (rename f l) (rename f r)
  | NIte op a b c => NIte op (rename f a) (rename f b) (rename f c)
  end.

(** * Formulas whose atomic formulas are variables and constants *)
Fixpoint logical (t : node) : bool :=
  match t with
  | NVar _ | NBool _ => true
  | NNum _ | NStr _ => false
  | NUn _ a => logical a
  | NBin _ l r | NCmp _ l r | NArith _ l r => logical l && logical r
  | NIte _ a b c => logical a && logical b && logical c
  end.

(** * The file with the variables of the two players *)
Fixpoint file_lines (l : list ascii) (acc : string) : list string :=
  match l with
  | [] => [acc]
  | c :: r => if Ascii.eqb c (ascii_of_nat 10) then acc :: file_lines r "" else file_lines r (acc ++ String c "")
  end.
Definition line_words (s : string) : list string := split_words is_white (fun _ => false) (list_ascii_of_string s) "".
Definition partition_read (s : string) : option (list string * list string) :=
  match map line_words (file_lines (list_ascii_of_string s) "") with
  | [a :: i; b :: o] => if (a =? ".inputs")%string && (b =? ".outputs")%string then Some (i, o) else None
  | _ => None
  end.

(** * The operators that have a translation *)
Fixpoint operators (t : node) : list string :=
  match t with
  | NVar _ | NNum _ | NStr _ => []
  | NBool v => [v]
  | NUn op a => op :: operators a
  | NBin op l r | NCmp op l r | NArith op l r => op :: operators l ++ operators r
  | NIte op a b c => op :: operators a ++ operators b ++ operators c
  end.

(** * Promela: the operators of <http://spinroot.com/spin/Man/ltl.html> *)
Definition promela_words (s : string) : list string := split_words is_white jtlv_punct (list_ascii_of_string s) "".
Definition promela_prefix (ws : list string) : option (string * list string) :=
  match ws with
  | w :: r =>
      match one_of [("!", "!"); ("X", "X"); ("<>", "F")] w with
      | Some op => Some (op, r)
      | None => match r with
                | v :: r => if (w =? "[")%string && (v =? "]")%string then Some ("G", r) else None
                | [] => None
                end
      end
  | [] => None
  end.
Definition promela_infix (w : string) : option (node -> node -> node) :=
  one_of [("||", NBin "|"); ("->", NBin "->"); ("<->", NBin "<->"); ("U", NBin "U"); ("W", NBin "W"); ("V", NBin "V");
          ("==", NCmp "="); ("!=", NCmp "!="); ("<", NCmp "<"); ("<=", NCmp "<="); (">", NCmp ">"); (">=", NCmp ">=")] w.
Definition promela_reserved : list string := ["true"; "false"; "X"; "U"; "W"; "V"].
Definition promela_atom (ws : list string) : option (node * list string) :=
  match ws with
  | w :: r =>
      if (w =? "true")%string then Some (NBool "True", r)
      else if (w =? "false")%string then Some (NBool "False", r)
      else if number_text w then Some (NNum w, r)
      else if name_text promela_reserved w then Some (NVar w, r) else None
  | [] => None
  end.
Definition promela : syntax := Syntax promela_prefix promela_infix "&&" promela_atom.
Definition promela_read (s : string) : option node :=
  let ws := promela_words s in
  match read promela (S (List.length ws)) Expr ws with Some (t, []) => Some t | _ => None end.
