(** Writing a Mealy machine as a State Chart XML document: transys/export/machine2scxml.py
    and the call that saves it, transys/machines.py. *)
From Coq Require Import List String Ascii NArith Bool.
From Verif Require Import M_Base.
Import ListNotations.
Local Open Scope string_scope.

Section Scxml.
  (** The labels of the transitions, what the f-string prints for a state, and what it prints
      for the dictionary of a transition. *)
  Variable L : Type.
  Variable show_state : N -> string.
  Variable show_label : L -> string.

  (** The part of a Mealy machine that is read: the nodes and the edges in the order in which
      networkx lists them, and the elements of [states.initial]
      (labeled_graphs.py:135-151, machine2scxml.py:76, 92-98). *)
  Record machine := Machine {
    sm_states : list N;
    sm_edges : list (N * N * L);
    sm_initial : list N }.

  Definition newline : string := String "010" "".
  Definition tab : string := String "009" "".
  Definition quote : string := String """" "".
  (** machine2scxml.py:65-69, [indent]. *)
  Definition indent (n : nat) : string :=
    newline ++ (fix tabs n := match n with O => "" | S n => tab ++ tabs n end) n.

  (** machine2scxml.py:78-86, the text of one transition. *)
  Definition transition_str (e : N * N * L) : string :=
    let '(_, to_state, label) := e in
    indent 2 ++ "<transition " ++
    indent 3 ++ "event=" ++ quote ++ "input_present" ++ quote ++ " " ++
    indent 3 ++ "cond=" ++ quote ++ show_label label ++ quote ++ " " ++
    indent 3 ++ "target=" ++ quote ++ show_state to_state ++ quote ++ "/>" ++
    indent 2 ++ "</transition>".
  (** machine2scxml.py:70-87, [transitions_str]; [Transitions.find] with one state and no
      label gives all its edges (labeled_graphs.py:723-761, model of it in M_Graph). *)
  Definition transitions_str (m : machine) (from_state : N) : string :=
    concat "" (map transition_str
      (filter (fun e => N.eqb (fst (fst e)) from_state) (sm_edges m))).
  (** machine2scxml.py:99-102, the text of one state. *)
  Definition state_str (m : machine) (s : N) : string :=
    tab ++ "<state id=" ++ quote ++ show_state s ++ quote ++ ">" ++
    transitions_str m s ++ newline ++ tab ++ "</state>" ++ newline.
  (** machine2scxml.py:88-91, 97-104, the text for a given initial state. *)
  Definition scxml_text (m : machine) (initial_state : N) : string :=
    "<?xml version=" ++ quote ++ "1.0" ++ quote ++ " encoding=" ++ quote ++ "UTF-8" ++ quote ++ "?>" ++ newline ++
    "<scxml xmlns=" ++ quote ++ "http://www.w3.org/2005/07/scxml" ++ quote ++ " " ++
    " version=" ++ quote ++ "1.0" ++ quote ++ " " ++
    "initial=" ++ quote ++ show_state initial_state ++ quote ++ ">" ++ newline ++
    concat "" (map (state_str m) (sm_states m)) ++ "</scxml>".

  (** Calling an object of the class [SubSet].  Neither it nor [MathSet] defines [__call__]
      (mathset.py:91-655), so this raises TypeError. *)
  Definition subset_call (s : list N) : res (list N) := Err "TypeError".
  (** machine2scxml.py:36-104, [mealy2scxml], for what calling [mealy.states.initial] gives.
      The message of the exception calls it too. *)
  Definition mealy2scxml_with (call : list N -> res (list N)) (m : machine) : res string :=
    if negb (Nat.eqb (List.length (sm_initial m)) 1)
    then do _ <- call (sm_initial m); Err "Exception"
    else do l <- call (sm_initial m);
         match l with
         | [] => Err "IndexError"
         | initial_state :: _ => Ok (scxml_text m initial_state)
         end.
  Definition mealy2scxml : machine -> res string := mealy2scxml_with subset_call.
  (** machines.py:554-568, [MealyMachine._save]: what it returns, and what it writes to the
      file; the file is opened after the text is made. *)
  Definition mealy_save (m : machine) (fileformat : string) : res bool * option string :=
    if negb (String.eqb fileformat "scxml") then (Ok false, None)
    else match mealy2scxml m with
         | Ok s => (Ok true, Some s)
         | Err e => (Err e, None)
         end.
End Scxml.
Arguments Machine {L}.
Arguments sm_states {L}. Arguments sm_edges {L}. Arguments sm_initial {L}.
