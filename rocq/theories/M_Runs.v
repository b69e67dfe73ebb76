(** Model of random and interactive runs of Mealy machines, tulip/transys/machines.py:810-963.

    The draws of [random] are a parameter: the [k]-th draw from [n] values is [draws k] modulo [n], so that every outcome is
    the one of some [draws].  The lines of the standard input are a parameter, too; after its end they are empty.  Printing is
    left out. *)
From Coq Require Import List String Ascii Bool Arith ZArith.
From Verif Require Import M_Tree M_Base M_Dict M_Graph M_Machine M_Grid.
Import ListNotations.
Open Scope string_scope.
Open Scope list_scope.
Open Scope nat_scope.

Section Runs.
  Context {N V : Type} (neqb : N -> N -> bool) (veqb : V -> V -> bool).
  Variable draws : nat -> nat.
  Variable stdin : nat -> string.
  Variable m : machine N V.

  (** [mealy.transitions.find([state])] *)
  Definition leaving (s : N) : res (list (edge N V)) := find_transitions neqb veqb (mealy_config veqb m) (Some [s]) None [] (m_graph m).
  (** machines.py:836-839, 884-887 *)
  Definition start (from : option N) : res N :=
    match from with
    | Some s => Ok s
    | None => match g_init (m_graph m) with s :: _ => Ok s | [] => Err "StopIteration" end
    end.
  (** machines.py:844-858: [n] more reactions, the next one with draw [i]; [random.choice] of nothing raises IndexError *)
  Fixpoint random_loop (n i : nat) (s : N) (states : list N) (outs : list (string * list V)) : res (list N * list (string * list V)) :=
    match n with
    | O => Ok (states, outs)
    | S n' =>
        do trans <- leaving s;
        do e <- of_opt "IndexError" (nth_error trans (draws i mod List.length trans));
        do outs' <- append_outputs outs (project_dict (e_attr e) (names (m_out m)));
        random_loop n' (S i) (e_dst e) (states ++ [e_dst e]) outs'
    end.
  (** machines.py:810-870 [random_run] *)
  Definition random_run (from : option N) (n : nat) : res (list N * list (string * list V)) :=
    do s <- start from;
    random_loop n O s [] (map (fun k => (k, [])) (names (m_out m))).

  (** [line.rstrip('\r\n')] *)
  Definition newline (c : ascii) : bool := Ascii.eqb c "013" || Ascii.eqb c "010".
  Fixpoint drop_newlines (l : list ascii) : list ascii := match l with c :: r => if newline c then drop_newlines r else l | [] => [] end.
  Definition rstrip (l : list ascii) : list ascii := rev (drop_newlines (rev l)).
  (** [l[i]], also with a negative index *)
  Definition index {A} (l : list A) (i : Z) : res A :=
    let i := if (i <? 0)%Z then (i + Z.of_nat (List.length l))%Z else i in
    if (i <? 0)%Z then Err "IndexError" else of_opt "IndexError" (nth_error l (Z.to_nat i)).
  (** machines.py:935-963 [_select_transition] *)
  Definition select_transition (line : string) (trans : list (edge N V)) : res (option (edge N V)) :=
    match rstrip (list_ascii_of_string line) with
    | [] => Ok None
    | l => do i <- of_opt "ValueError" (py_int l); do e <- index trans i; Ok (Some e)
    end.
  (** machines.py:913-919: the loop has no exit; what was selected is kept until the next line is read *)
  Fixpoint ask (fuel k : nat) (trans : list (edge N V)) (selected : option (option (edge N V))) : res (option (edge N V) * nat) :=
    match fuel with
    | O => Err "(runs on)"
    | S f =>
        match select_transition (stdin k) trans with
        | Ok e => ask f (S k) trans (Some e)
        | Err _ => ask f (S k) trans selected
        end
    end.
  (** machines.py:895-932 [_interactive_run_step]: whether to go on, and the number of lines read *)
  Definition interactive_run_step (fuel k : nat) (s : N) : res (bool * nat) :=
    do trans <- leaving s;
    match trans with
    | [] => Ok (false, k)
    | _ => do r <- ask fuel k trans None;
           match fst r with None => Ok (false, snd r) | Some _ => Ok (true, snd r) end
    end.
  (** machines.py:873-892 [interactive_run]: the state is not changed *)
  Fixpoint interactive_loop (steps fuel k : nat) (s : N) : res unit :=
    match steps with
    | O => Err "(runs on)"
    | S n => do r <- interactive_run_step fuel k s; if fst r then interactive_loop n fuel (snd r) s else Ok tt
    end.
  Definition interactive_run (fuel : nat) (from : option N) : res unit := do s <- start from; interactive_loop (S fuel) fuel 0 s.
End Runs.
