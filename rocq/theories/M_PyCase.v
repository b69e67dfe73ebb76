(** Model of [python_case], tulip/dumpsmach.py:64-184: a Mealy machine exported as the text of a
    Python class.

    Simplifications.  A machine is the list of its nodes in the order of iteration, the outgoing
    edges of each node in order with their labels (dictionaries, as lists of distinct keys), and the
    names of its inputs and outputs.  Values of labels are integers, Booleans and strings.  The time
    stamp is a parameter.  The text of the list of outputs in the documentation of [move] is written
    for names without quotes. *)
From Coq Require Import List String Ascii Bool Arith ZArith.
From Verif Require Import M_Base M_Tree M_Gr1c.
Import ListNotations.
Open Scope string_scope.
Open Scope list_scope.
Open Scope nat_scope.

Inductive lval := LInt (z : Z) | LBool (b : bool) | LStr (s : string).
Definition label : Type := list (string * lval).
Record pmachine (N : Type) := PMachine {
  m_nodes : list N; m_out : N -> list (N * label); m_inputs : list string; m_outputs : list string }.
Arguments m_nodes {N}. Arguments m_out {N}. Arguments m_inputs {N}. Arguments m_outputs {N}. Arguments PMachine {N}.

Definition newline : string := String (ascii_of_nat 10) "".
Definition dquote : string := String (ascii_of_nat 34) "".
(** A line of [n] tabulators of four spaces and a text. *)
Fixpoint tabs (n : nat) : string := match n with O => "" | S k => ("    " ++ tabs k)%string end.
Definition ln (n : nat) (t : string) : string := (tabs n ++ t)%string.
Definition unlines (l : list string) : string := fold_right (fun x r => (x ++ newline ++ r)%string) "" l.

(** dumpsmach.py:127-128, the second [proj]: strings are quoted, other values are formatted. *)
Definition lval_text (v : lval) : string :=
  match v with
  | LInt z => str_Z z
  | LBool b => if b then "True" else "False"
  | LStr s => ("'" ++ s ++ "'")%string
  end.
Definition proj (d : label) (keys : list string) : label := filter (fun kv => mem (fst kv) keys) d.

Section Case.
Context {N : Type} (eqb : N -> N -> bool) (M : pmachine N).

(** dumpsmach.py:85 [node_to_int] *)
Fixpoint index_from (k : nat) (l : list N) (u : N) : option nat :=
  match l with [] => None | v :: r => if eqb u v then Some k else index_from (S k) r u end.
Definition node_to_int (u : N) : option nat := index_from 0 (m_nodes M) u.

(** dumpsmach.py:134-139 *)
Definition guard (d : label) : string :=
  match m_inputs M with
  | [] => "True"
  | _ => join " and " (map (fun kv => "(" ++ fst kv ++ " == " ++ lval_text (snd kv) ++ ")")%string (proj d (m_inputs M)))
  end.
(** dumpsmach.py:140-148 *)
Definition edge_lines (ifw : string) (target : nat) (d : label) : list string :=
  ln 3 (ifw ++ " " ++ guard d ++ ":")%string ::
  ln 4 ("self.state = " ++ str_nat target)%string ::
  "" ::
  map (fun kv => ln 4 ("output[" ++ dquote ++ fst kv ++ dquote ++ "] = " ++ lval_text (snd kv))%string) (proj d (m_outputs M)).
(** dumpsmach.py:125, 132-148: the first [if], then [elif]. *)
Fixpoint edges_lines (ifw : string) (l : list (N * label)) : res (list string) :=
  match l with
  | [] => Ok []
  | (w, d) :: r =>
      do t <- of_opt "KeyError" (node_to_int w);
      do ls <- edges_lines "elif" r;
      Ok (edge_lines ifw t d ++ ls)
  end.
(** dumpsmach.py:86-87 *)
Definition input_args : string := join ", " (m_inputs M).
(** dumpsmach.py:132-157 *)
Definition node_edges (u : N) : res (list string) :=
  do ls <- edges_lines "if" (m_out M u);
  match m_out M u, m_inputs M with
  | [], _ => Ok [ln 3 ("raise RuntimeError(" ++ dquote ++ "Reached dead-end state !" ++ dquote ++ ")")%string]
  | _, [] => Ok ls
  | _, _ => Ok (ls ++ [ln 3 "else:"; ln 4 ("self._error(" ++ input_args ++ ")")%string])
  end.
(** dumpsmach.py:131, 158-165 *)
Fixpoint nodes_lines (ifu : string) (l : list N) : res (list string) :=
  match l with
  | [] => Ok []
  | u :: r =>
      do es <- node_edges u;
      do k <- of_opt "KeyError" (node_to_int u);
      do ls <- nodes_lines "elif" r;
      Ok (ln 2 (ifu ++ " self.state == " ++ str_nat k ++ ":")%string :: es ++ ls)
  end.
(** dumpsmach.py:88; and [str] of a list of names without quotes *)
Definition quoted_list (q : string) (l : list string) : string := (q ++ join (q ++ ", " ++ q) l ++ q)%string.
(** dumpsmach.py:89-123 *)
Definition header (classname date : string) (sinit : nat) : list string :=
  let q3 := (dquote ++ dquote ++ dquote)%string in
  [("class " ++ classname ++ ":")%string;
   ln 1 (q3 ++ "Mealy transducer.")%string;
   "";
   ln 1 "Internal states are integers, the current state";
   ln 1 ("is stored in the attribute " ++ dquote ++ "state" ++ dquote ++ ".")%string;
   ln 1 ("To take a transition, call method " ++ dquote ++ "move" ++ dquote ++ ".")%string;
   "";
   ln 1 "The names of input variables are stored in the";
   ln 1 ("attribute " ++ dquote ++ "input_vars" ++ dquote ++ ".")%string;
   "";
   ln 1 ("Automatically generated by tulip.dumpsmach on " ++ date)%string;
   ln 1 "To learn more about TuLiP, visit http://tulip-control.org";
   ln 1 q3;
   ln 1 "def __init__(self):";
   ln 2 ("self.state = " ++ str_nat sinit)%string;
   ln 2 ("self.input_vars = [" ++ quoted_list "'" (m_inputs M) ++ "]")%string;
   "";
   ln 1 ("def move(self, " ++ input_args ++ ") -> dict:")%string;
   ln 2 (q3 ++ "Given inputs, take move and return outputs.")%string;
   "";
   ln 2 "@return:";
   ln 2 "    dictionary with keys of the output variable names:";
   ln 2 ("    [" ++ match m_outputs M with [] => "" | _ => quoted_list "'" (m_outputs M) end ++ "]")%string;
   ln 2 q3;
   ln 2 "output = dict()"].
(** dumpsmach.py:166-183 *)
Definition footer : string :=
  (unlines
     [ln 2 "else:";
      ln 3 ("raise AssertionError(" ++ dquote ++ "Unrecognized internal state: " ++ dquote ++ " + str(self.state))")%string;
      ln 2 "return output";
      "";
      ln 1 ("def _error(self, " ++ input_args ++ "):")%string] ++
   ln 2 ("raise ValueError(" ++ dquote ++ "Unrecognized input: " ++ dquote ++ " + (") ++
   join "" (map (fun v => newline ++ ln 3 (dquote ++ v ++ " = {" ++ v ++ "}; " ++ dquote))%string (m_inputs M)) ++
   ").format(" ++
   join "," (map (fun v => newline ++ ln 4 (v ++ "=" ++ v))%string (m_inputs M)) ++
   "))" ++ newline)%string.
(** dumpsmach.py:64-184 *)
Definition python_case (classname date : string) (start : N) : res string :=
  do sinit <- of_opt "KeyError" (node_to_int start);
  do ls <- nodes_lines "if" (m_nodes M);
  Ok (unlines (header classname date sinit ++ ls) ++ footer)%string.
End Case.
