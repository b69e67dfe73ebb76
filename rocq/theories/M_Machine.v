(** Model of tulip/transys/machines.py: Mealy and Moore machines, reactions, runs and
    conversions.

    The graph under a machine is the one of [M_Graph].  Simplifications: the masks for dot
    output and printing are left out, and the interactive and random runs are in M_Runs; a port that is both
    an input and an output is typed by the output (machines.py:586-601, calls of
    [add_outputs] come last). *)
From Coq Require Import List String Bool Arith.
From Verif Require Import M_Tree M_Base M_Dict M_Graph.
Import ListNotations.
Open Scope string_scope.
Open Scope list_scope.

(** Port types: an explicit collection, an object with its own membership test, or [None]
    (machines.py:110-166). *)
Inductive port (V : Type) : Type := PSet (l : list V) | PCheck (f : V -> bool) | PNone.
Arguments PSet {V}. Arguments PCheck {V}. Arguments PNone {V}.

(** Fields of [Transducer], machines.py:245-268. *)
Record machine (N V : Type) : Type := Machine {
  m_vars : list (string * port V); m_in : list (string * port V); m_out : list (string * port V);
  m_graph : graph N V }.
Arguments Machine {N V}. Arguments m_vars {N V}. Arguments m_in {N V}. Arguments m_out {N V}.
Arguments m_graph {N V}.

Section Machine.
  Context {N V : Type} (neqb : N -> N -> bool) (veqb : V -> V -> bool).

  Definition port_dom (p : port V) : option (V -> bool) :=
    match p with
    | PSet l => Some (fun v => existsb (veqb v) l)
    | PCheck f => Some f
    | PNone => None
    end.
  Definition port_types (ps : list (string * port V)) : types V :=
    map (fun kp => (fst kp, port_dom (snd kp))) ps.
  Definition names {A} (ps : list (string * A)) : list string := map fst ps.

  (** machines.py:270-308, 310-324, 586-601: inputs and outputs of a Mealy machine label its
      transitions, *)
  Definition mealy_config (m : machine N V) : config V :=
    Config (port_types (m_vars m)) [] (update (port_types (m_in m)) (port_types (m_out m))) [].
  (** machines.py:395-423: the outputs of a Moore machine label its states. *)
  Definition moore_config (m : machine N V) : config V :=
    Config (update (port_types (m_vars m)) (port_types (m_out m))) [] (port_types (m_in m)) [].

  (** machines.py:1160-1181 [project_dict], [trim_dict]. *)
  Definition project_dict (x : attrs V) (y : list string) : attrs V := filter (fun kv => mem (fst kv) y) x.
  Definition trim_dict {A} (x : list (string * A)) (y : list string) : list (string * A) :=
    filter (fun kv => negb (mem (fst kv) y)) x.

  (** [self.edges([s], data=True)]; a state that is not in the graph has no edges. *)
  Definition out_edges (s : N) (g : graph N V) : list (edge N V) := filter (fun e => neqb (e_src e) s) (g_edges g).

  (** machines.py:609-690 [reaction].  The three messages are kept apart. *)
  Definition reaction (m : machine N V) (s : N) (inputs : attrs V) (lazy : bool) : res (N * attrs V) :=
    let restricted := if lazy then filter (fun k => mem k (names inputs)) (names (m_in m)) else names (m_in m) in
    let enabled := filter (fun e => dict_eqb veqb (project_dict (e_attr e) restricted) inputs) (out_edges s (m_graph m)) in
    match enabled with
    | [e] => Ok (e_dst e, project_dict (e_attr e) (names (m_out m)))
    | [] => match out_edges s (m_graph m) with
            | [] => Err "ValueError: dead-end"
            | _ => Err "ValueError: not a valid input"
            end
    | _ => Err "ValueError: must be input-deterministic"
    end.

  (** One value per port at time [i]; [v[i]] cannot fail, as all lists have the length of the
      first one. *)
  Definition at_time (i : nat) (seqs : list (string * list V)) : res (attrs V) :=
    mapr (fun kv => do v <- of_opt "IndexError" (nth_error (snd kv) i); Ok (fst kv, v)) seqs.
  Definition append_outputs (acc : list (string * list V)) (out : attrs V) : res (list (string * list V)) :=
    mapr (fun kv => do v <- of_opt "KeyError" (lookup (fst kv) out); Ok (fst kv, snd kv ++ [v])) acc.
  (** The loop machines.py:793-806: [n] more reactions, the next one at time [i]. *)
  Fixpoint run_loop (m : machine N V) (seqs : list (string * list V)) (n i : nat) (s : N) (states : list N)
      (outs : list (string * list V)) : res (list N * list (string * list V)) :=
    match n with
    | O => Ok (states, outs)
    | S n' =>
        do inputs <- at_time i seqs;
        do so <- reaction m s inputs false;
        do outs' <- append_outputs outs (snd so);
        run_loop m seqs n' (S i) (fst so) (states ++ [fst so]) outs'
    end.
  (** machines.py:731-807 [guided_run].  A sequence that is not a list is [None]. *)
  Definition guided_run (m : machine N V) (from : option N) (seqs : list (string * option (list V)))
    : res (list N * list (string * list V)) :=
    if existsb (fun k => negb (mem k (names seqs))) (names (m_in m)) then Err "ValueError" else
    do ls <- mapr (fun kv => do l <- of_opt "TypeError" (snd kv); Ok (fst kv, l)) seqs;
    let lens := map (fun kv => List.length (snd kv)) ls in
    if match lens with [] => false | n :: r => negb (forallb (Nat.eqb n) r) end then Err "ValueError" else
    do s <- match from with
            | Some s => Ok s
            | None => match g_init (m_graph m) with s :: _ => Ok s | [] => Err "StopIteration" end
            end;
    do n <- match lens with n :: _ => Ok n | [] => Err "StopIteration" end;
    run_loop m ls n O s [] (map (fun k => (k, [])) (names (m_out m))).

  (** Sequencing of graph updates that stop at the first exception and whose result is then
      dropped. *)
  Fixpoint fold_res {A B} (f : A -> B -> res B) (l : list A) (b : B) : res B :=
    match l with
    | [] => Ok b
    | x :: r => do b' <- f x b; fold_res f r b'
    end.

  (** machines.py:966-1012 [moore2mealy]. *)
  Definition moore2mealy (m : machine N V) : res (machine N V) :=
    let g := m_graph m in
    let m0 := Machine [] (m_in m) (m_out m) empty_graph in
    let c := mealy_config m0 in
    do g1 <- fold_res (fun n => add_node neqb c n [] true) (node_list g) empty_graph;
    do g2 <- fold_res (add_initial neqb) (g_init g) g1;
    do g3 <- fold_res (fun na g' =>
               let out := project_dict (snd na) (names (m_out m)) in
               fold_res (fun e => add_edge neqb veqb c (e_src e) (e_dst e) None (update (e_attr e) out) true)
                 (out_edges (fst na) g) g') (g_nodes g) g2;
    Ok (Machine [] (m_in m) (m_out m) g3).

  (** machines.py:1184-1215 [strip_ports]. *)
  Definition strip_ports (m : machine N V) (ns : list string) : res (machine N V) :=
    let g := m_graph m in
    let m0 := Machine [] (trim_dict (m_in m) ns) (trim_dict (m_out m) ns) empty_graph in
    let c := mealy_config m0 in
    do g1 <- fold_res (fun n => add_node neqb c n [] true) (node_list g) empty_graph;
    do g2 <- fold_res (add_initial neqb) (g_init g) g1;
    do g3 <- fold_res (fun e => add_edge neqb veqb c (e_src e) (e_dst e) None (trim_dict (e_attr e) ns) true)
               (g_edges g) g2;
    Ok (Machine [] (m_in m0) (m_out m0) g3).
End Machine.

(** Conversion of a Mealy machine to a Moore machine.  Moore states are the strings s0, s1,
    ...; the dictionary [moore2mealy_states] is [x_map], and the relation
    [mealy2moore_states] is its inverse. *)
Section Mealy2Moore.
  Context {N V : Type} (neqb : N -> N -> bool) (veqb : V -> V -> bool).
  (** [Q.pop()] takes any element of the set. *)
  Context (pop : list string -> option (string * list string)).
  (** [list(v)[0]] for a set [v]: some element. *)
  Context (some_element : list V -> option V).

  Record conv : Type := Conv { x_graph : graph string V; x_map : list (string * N) }.

  (** machines.py:1115-1135 [_create_state_str].  The order in which the set of Moore states
      of [s] is searched does not matter: no two have the same outputs. *)
  Definition create_state (c : config V) (s : N) (out : attrs V) (x : conv) : res (string * conv) :=
    match List.find (fun qs => neqb (snd qs) s &&
                       match List.find (fun na => fst na =? fst qs)%string (g_nodes (x_graph x)) with
                       | Some na => dict_eqb veqb (snd na) out
                       | None => false
                       end) (x_map x) with
    | Some qs => Ok (fst qs, x)
    | None =>
        let q := ("s" ++ str_nat (List.length (g_nodes (x_graph x))))%string in
        do g <- add_node String.eqb c q out true (x_graph x);
        Ok (q, Conv g (x_map x ++ [(q, s)]))
    end.

  Record wl : Type := WL { w_conv : conv; w_queue : list string; w_seen : list string }.

  (** Body of the inner loop, machines.py:1074-1083. *)
  Definition conv_edge (m : machine N V) (c : config V) (q : string) (e : edge N V) (w : wl) : res wl :=
    let ins := project_dict (e_attr e) (names (m_in m)) in
    let outs := project_dict (e_attr e) (names (m_out m)) in
    do qx <- create_state c (e_dst e) outs (w_conv w);
    let q' := fst qx in
    do g <- add_edge String.eqb veqb c q q' None ins true (x_graph (snd qx));
    let x := Conv g (x_map (snd qx)) in
    if mem q' (w_seen w) then Ok (WL x (w_queue w) (w_seen w))
    else Ok (WL x (w_queue w ++ [q']) (w_seen w ++ [q'])).
  Fixpoint conv_loop (fuel : nat) (m : machine N V) (c : config V) (w : wl) : res wl :=
    match fuel with
    | O => Err "out of fuel"
    | S f =>
        match pop (w_queue w) with
        | None => Ok w
        | Some (q, r) =>
            do s <- of_opt "KeyError" (lookup q (x_map (w_conv w)));
            do w' <- fold_res (conv_edge m c q) (out_edges neqb s (m_graph m)) (WL (w_conv w) r (w_seen w));
            conv_loop f m c w'
        end
    end.
  (** machines.py:1015-1084 [mealy2moore]. *)
  Definition mealy2moore (m : machine N V) : res (machine string V) :=
    let m0 := Machine [] (m_in m) (m_out m) empty_graph in
    let c := moore_config veqb (m0 : machine N V) in
    do out <- mapr (fun kp => match snd kp with
                              | PSet l => do v <- of_opt "IndexError" (some_element l); Ok (fst kp, v)
                              | _ => Err "TypeError"
                              end) (m_out m);
    do s0 <- match g_init (m_graph m) with s :: _ => Ok s | [] => Err "IndexError" end;
    do qx <- create_state c s0 out (Conv empty_graph []);
    do g <- add_node String.eqb c (fst qx) out true (x_graph (snd qx));
    do g' <- add_initial String.eqb (fst qx) g;
    do w <- conv_loop (List.length (g_edges (m_graph m)) + 2) m c
              (WL (Conv g' (x_map (snd qx))) [fst qx] [fst qx]);
    Ok (Machine [] (m_in m) (m_out m) (x_graph (w_conv w))).
End Mealy2Moore.
