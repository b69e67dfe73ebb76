(** Model of the acceptance of automata, tulip/transys/automata.py: the accepting states of [FiniteStateAutomaton] and the removal
    of its states (128-129, 179-187), and [RabinPairs] (381-580) of [RabinAutomaton] (583-604).

    The accepting states are a [SubSet] of [automaton.states] (M_Set), whose membership test asks the graph (M_Graph).  Nodes of a
    graph can be hashed, so all elements have the kind [KH]. *)
From Coq Require Import List String Bool Arith ZArith.
From Verif Require Import M_Base M_Spec M_Dict M_Set M_Graph.
Import ListNotations.
Open Scope string_scope.
Open Scope list_scope.
Open Scope nat_scope.

Section Automata.
  Context {N V : Type} (neqb : N -> N -> bool) (veqb : V -> V -> bool).
  Definition hashable (x : N) : kind := KH.
  (** [automaton.states] as the superset of a [SubSet], labeled_graphs.py:169-171 *)
  Definition states_of (g : graph N V) : super N := UObj (fun x => has_node neqb x g).

  Record automaton := Aut { a_graph : graph N V; a_acc : mathset N }.
  Definition empty_automaton : automaton := Aut empty_graph ms_empty.
  (** automata.py:179-187 [FiniteStateAutomaton.remove_node] *)
  Definition aut_remove_node (n : N) (a : automaton) : automaton * option string :=
    match ms_remove neqb hashable n (a_acc a) with
    | Err e => (a, Some e)
    | Ok acc =>
        match remove_node neqb n (a_graph a) with
        | Ok g => (Aut g acc, None)
        | Err e => (Aut (a_graph a) acc, Some e)
        end
    end.
  (** labeled_graphs.py:205-212 [States.remove], first the initial states *)
  Definition drop_initial (n : N) (g : graph N V) : graph N V :=
    Graph (g_nodes g) (g_edges g) (filter (fun x => negb (neqb x n)) (g_init g)).
  Definition aut_remove_state (n : N) (a : automaton) : automaton * option string :=
    aut_remove_node n (Aut (drop_initial n (a_graph a)) (a_acc a)).
  (** The calls of a client: those of graphs, and the methods of the set of accepting states. *)
  Inductive aop := AGraph (o : gop N V) | AAccept (x : N) | AAcceptFrom (l : list N) | AUnaccept (x : N).
  Definition astep (c : config V) (o : aop) (a : automaton) : automaton * option string :=
    let on_set o := let r := sstep neqb hashable (states_of (a_graph a)) o (a_acc a) in (Aut (a_graph a) (fst r), snd r) in
    match o with
    | AGraph (GRemoveNode n) => aut_remove_node n a
    | AGraph (GRemoveState n) => aut_remove_state n a
    | AGraph o => let r := gstep neqb veqb c o (a_graph a) in (Aut (fst r) (a_acc a), snd r)
    | AAccept x => on_set (MAdd x)
    | AAcceptFrom l => on_set (MAddFrom (SList l))
    | AUnaccept x => on_set (MRemove x)
    end.
  Definition arun (c : config V) (l : list aop) (a : automaton) : automaton := fold_left (fun a o => fst (astep c o a)) l a.

  (** ** Rabin automata: the graph and the list of pairs *)
  Record rabin := Rabin { r_graph : graph N V; r_pairs : list (mathset N * mathset N) }.
  Definition empty_rabin : rabin := Rabin empty_graph [].
  (** automata.py:486-492, 525-531 *)
  Definition make_pair (g : graph N V) (good bad : list N) : res (mathset N * mathset N) :=
    do a <- ss_add_from neqb hashable (states_of g) (SList good) ms_empty;
    do b <- ss_add_from neqb hashable (states_of g) (SList bad) ms_empty;
    Ok (a, b).
  Definition pair_eqb (p q : mathset N * mathset N) : bool := ms_eqb neqb (fst p) (fst q) && ms_eqb neqb (snd p) (snd q).
  (** [list.remove] *)
  Fixpoint remove_pair (p : mathset N * mathset N) (l : list (mathset N * mathset N)) : res (list (mathset N * mathset N)) :=
    match l with
    | [] => Err "ValueError"
    | q :: r => if pair_eqb q p then Ok r else do r' <- remove_pair p r; Ok (q :: r')
    end.
  (** An index of a list: negative ones count from the end. *)
  Definition py_index (i : Z) (n : nat) : option nat :=
    let j := if (i <? 0)%Z then (i + Z.of_nat n)%Z else i in
    if (j <? 0)%Z || (Z.of_nat n <=? j)%Z then None else Some (Z.to_nat j).
  Fixpoint set_nth {A} (k : nat) (x : A) (l : list A) : list A :=
    match l, k with [], _ => [] | _ :: r, O => x :: r | y :: r, S k' => y :: set_nth k' x r end.
  (** automata.py:534-549 [RabinPairs.add_states]: the sets are changed in place, one after the other. *)
  Definition rabin_add_states (i : Z) (good bad : list N) (a : rabin) : rabin * option string :=
    match py_index i (List.length (r_pairs a)) with
    | None => (a, Some "IndexError")
    | Some k =>
        match nth_error (r_pairs a) k with
        | None => (a, Some "IndexError")
        | Some p =>
            match ss_add_from neqb hashable (states_of (r_graph a)) (SList good) (fst p) with
            | Err e => (a, Some e)
            | Ok A =>
                match ss_add_from neqb hashable (states_of (r_graph a)) (SList bad) (snd p) with
                | Err e => (Rabin (r_graph a) (set_nth k (A, snd p) (r_pairs a)), Some e)
                | Ok B => (Rabin (r_graph a) (set_nth k (A, B) (r_pairs a)), None)
                end
            end
        end
    end.
  (** The calls of a client.  [FiniteStateAutomaton.remove_node] calls [self.accepting.remove(node)], and the method of
      [RabinPairs] takes two arguments: TypeError. *)
  Inductive rop := RGraph (o : gop N V) | RAdd (good bad : list N) | RRemove (good bad : list N) | RAddStates (i : Z) (good bad : list N).
  Definition rstep (c : config V) (o : rop) (a : rabin) : rabin * option string :=
    let ret (r : res (list (mathset N * mathset N))) := match r with Ok l => (Rabin (r_graph a) l, None) | Err e => (a, Some e) end in
    match o with
    | RGraph (GRemoveNode n) => (a, Some "TypeError")
    | RGraph (GRemoveState n) => (Rabin (drop_initial n (r_graph a)) (r_pairs a), Some "TypeError")
    | RGraph o => let r := gstep neqb veqb c o (r_graph a) in (Rabin (fst r) (r_pairs a), snd r)
    | RAdd good bad => ret (do p <- make_pair (r_graph a) good bad; Ok (r_pairs a ++ [p]))
    | RRemove good bad => ret (do p <- make_pair (r_graph a) good bad; remove_pair p (r_pairs a))
    | RAddStates i good bad => rabin_add_states i good bad a
    end.
  Definition rrun (c : config V) (l : list rop) (a : rabin) : rabin := fold_left (fun a o => fst (rstep c o a)) l a.
  (** automata.py:551-573 [good], [bad] *)
  Definition rabin_pair (i : Z) (a : rabin) : res (mathset N * mathset N) :=
    of_opt "IndexError" (match py_index i (List.length (r_pairs a)) with Some k => nth_error (r_pairs a) k | None => None end).
  (** ** Parity games: nodes with their colors, automata.py:628-695 *)
  (** [max(nodes, key=color, default=-1)]: the first node whose color is maximal *)
  Fixpoint first_max (best : N * nat) (l : list (N * nat)) : N * nat :=
    match l with
    | [] => best
    | x :: r => first_max (if snd best <? snd x then x else best) r
    end.
  (** automata.py:683-695 [ParityGame.max_color]; [minus1] is the integer -1 as a result *)
  Definition max_color (minus1 : N) (game : list (N * nat)) : N :=
    match game with [] => minus1 | x :: r => fst (first_max x r) end.
End Automata.
Arguments automaton N V : clear implicits.
Arguments rabin N V : clear implicits.
Arguments aop N V : clear implicits.
Arguments rop N V : clear implicits.
