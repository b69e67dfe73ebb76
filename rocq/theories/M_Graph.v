(** Model of tulip/transys/labeled_graphs.py: the labelled directed multigraph under all
    transition systems, automata and machines, and the wrappers [States], [Transitions].

    Simplifications.  Nodes are any type with decidable equality (Python: hashable
    objects); edge keys are naturals.  The nested dictionaries of networkx are flattened:
    nodes and edges are lists in order of insertion, so iteration over all edges is in that
    order here, and grouped by source in networkx; no theorem depends on the order.  A label
    domain is a test on values and does not change during a run.  The keyword arguments
    [attr] are already merged into [attr_dict] (labeled_graphs.py:1095-1111). *)
From Coq Require Import List String Bool Arith.
From Verif Require Import M_Base M_Dict.
Import ListNotations.
Open Scope string_scope.
Open Scope list_scope.

Section Graph.
  Context {N V : Type} (neqb : N -> N -> bool) (veqb : V -> V -> bool).

  Record edge := Edge { e_src : N; e_dst : N; e_key : nat; e_attr : attrs V }.
  (** [nodes] with their attribute dictionaries, [edges], [states.initial]. *)
  Record graph := Graph { g_nodes : list (N * attrs V); g_edges : list edge; g_init : list N }.
  (** Label types and defaults, labeled_graphs.py:895-946 and 981-1020. *)
  Record config := Config { c_node_types : types V; c_node_defaults : attrs V;
                            c_edge_types : types V; c_edge_defaults : attrs V }.

  Definition nmem (x : N) (l : list N) : bool := existsb (neqb x) l.
  Definition node_list (g : graph) : list N := map fst (g_nodes g).
  Definition has_node (x : N) (g : graph) : bool := nmem x (node_list g).
  Definition between (u v : N) (e : edge) : bool := neqb (e_src e) u && neqb (e_dst e) v.
  (** [self[u][v].items()] *)
  Definition edges_between (u v : N) (g : graph) : list edge := filter (between u v) (g_edges g).
  Definition successors (u : N) (g : graph) : list N :=
    map e_dst (filter (fun e => neqb (e_src e) u) (g_edges g)).

  (** labeled_graphs.py:1022-1060. *)
  Definition check_untyped (d : attrs V) (ty : types V) (check : bool) : res unit :=
    if check && existsb (fun kv => match lookup (fst kv) ty with None => true | _ => false end) d
    then Err "AttributeError" else Ok tt.

  (** The typed dictionary made by [add_node] and [add_edge]: the defaults, then the given
      attributes, each checked against its type. *)
  Definition typed_attr (ty : types V) (defaults d : attrs V) : res (attrs V) :=
    do t <- typed_update_res ty defaults []; typed_update_res ty d t.

  (** networkx [add_node]: create the node or update its dictionary. *)
  Fixpoint nx_add_node (n : N) (d : attrs V) (l : list (N * attrs V)) : list (N * attrs V) :=
    match l with
    | [] => [(n, d)]
    | (m, a) :: r => if neqb n m then (m, update a d) :: r else (m, a) :: nx_add_node n d r
    end.
  (** labeled_graphs.py:1113-1150. *)
  Definition add_node (c : config) (n : N) (d : attrs V) (check : bool) (g : graph) : res graph :=
    do t <- typed_attr (c_node_types c) (c_node_defaults c) d;
    do _ <- check_untyped t (c_node_types c) check;
    Ok (Graph (nx_add_node n t (g_nodes g)) (g_edges g) (g_init g)).

  (** networkx [new_edge_key]: the number of parallel edges, or the next number not used. *)
  Fixpoint next_key (fuel k : nat) (ks : list nat) : nat :=
    match fuel with
    | O => k
    | S f => if existsb (Nat.eqb k) ks then next_key f (S k) ks else k
    end.
  Definition new_edge_key (u v : N) (g : graph) : nat :=
    let ks := map e_key (edges_between u v g) in next_key (List.length ks) (List.length ks) ks.

  (** networkx [add_edge] with a key: update the edge with that key or add one. *)
  Fixpoint nx_set_edge (u v : N) (k : nat) (d : attrs V) (l : list edge) : list edge :=
    match l with
    | [] => [Edge u v k d]
    | e :: r => if between u v e && (e_key e =? k)%nat
                then Edge (e_src e) (e_dst e) (e_key e) (update (e_attr e) d) :: r
                else e :: nx_set_edge u v k d r
    end.

  (** labeled_graphs.py:1178-1281.  A key given for the first edge between [u] and [v] is
      ignored (1279-1281). *)
  Definition add_edge (c : config) (u v : N) (key : option nat) (d : attrs V) (check : bool) (g : graph)
    : res graph :=
    if negb (has_node u g) then Err "ValueError" else
    if negb (has_node v g) then Err "ValueError" else
    do t <- typed_attr (c_edge_types c) (c_edge_defaults c) d;
    let ex := edges_between u v g in
    if existsb (fun e => dict_eqb veqb (e_attr e) []) ex then Err "Exception" else
    if existsb (fun e => dict_eqb veqb (e_attr e) d) ex then Ok g else
    do _ <- check_untyped t (c_edge_types c) check;
    let k := match ex with
             | [] => O
             | _ => match key with Some k => k | None => new_edge_key u v g end
             end in
    Ok (Graph (g_nodes g) (nx_set_edge u v k t (g_edges g)) (g_init g)).

  (** labeled_graphs.py:1337-1366: nothing happens if there is no such edge. *)
  Definition remove_labeled_edge (u v : N) (d : attrs V) (g : graph) : graph :=
    Graph (g_nodes g)
      (filter (fun e => negb (between u v e && dict_eqb veqb (e_attr e) d)) (g_edges g)) (g_init g).

  (** networkx [remove_node]. *)
  Definition remove_node (n : N) (g : graph) : res graph :=
    if has_node n g then
      Ok (Graph (filter (fun x => negb (neqb (fst x) n)) (g_nodes g))
            (filter (fun e => negb (neqb (e_src e) n) && negb (neqb (e_dst e) n)) (g_edges g))
            (g_init g))
    else Err "NetworkXError".

  (** Bulk calls stop at the first exception, keeping what was done before. *)
  Fixpoint seq {A} (f : A -> graph -> res graph) (l : list A) (g : graph) : graph * option string :=
    match l with
    | [] => (g, None)
    | x :: r => match f x g with Ok g' => seq f r g' | Err e => (g, Some e) end
    end.

  (** labeled_graphs.py:1152-1176, for nodes given without attributes. *)
  Definition add_nodes_from (c : config) (l : list N) (d : attrs V) (check : bool) (g : graph)
    : graph * option string :=
    seq (fun n => add_node c n d check) l g.
  (** labeled_graphs.py:1283-1335: 2-, 3- and 4-tuples as key and attributes. *)
  Definition add_edges_from (c : config) (l : list (N * N * option nat * attrs V)) (d : attrs V) (check : bool)
      (g : graph) : graph * option string :=
    seq (fun x => match x with (u, v, k, dd) => add_edge c u v k (update d dd) check end) l g.
  (** labeled_graphs.py:529-551, [Transitions.add_comb]. *)
  Definition add_comb (c : config) (us vs : list N) (d : attrs V) (check : bool) (g : graph)
    : graph * option string :=
    seq (fun x => add_edge c (fst x) (snd x) None d check) (list_prod us vs) g.
  (** labeled_graphs.py:1368-1417. *)
  Definition remove_labeled_edges_from (l : list (N * N * attrs V)) (d : attrs V) (g : graph) : graph :=
    fold_left (fun g x => remove_labeled_edge (fst (fst x)) (snd (fst x)) (update d (snd x)) g) l g.

  (** [states.initial] is a [SubSet] of the states: labeled_graphs.py:141,
      mathset.py:538-653. *)
  Definition add_initial (n : N) (g : graph) : res graph :=
    if has_node n g
    then Ok (Graph (g_nodes g) (g_edges g) (if nmem n (g_init g) then g_init g else g_init g ++ [n]))
    else Err "ValueError".
  (** labeled_graphs.py:205-212, [States.remove]. *)
  Definition states_remove (n : N) (g : graph) : res graph :=
    remove_node n (Graph (g_nodes g) (g_edges g) (filter (fun x => negb (neqb x n)) (g_init g))).
  (** labeled_graphs.py:214-224, [States.remove_from]. *)
  Definition states_remove_from (l : list N) (g : graph) : graph * option string :=
    seq states_remove l g.

  (** labeled_graphs.py:1419-1427. *)
  Definition out_degree (u : N) (g : graph) : nat := List.length (successors u g).
  Definition has_deadends (g : graph) : bool :=
    existsb (fun u => (out_degree u g =? 0)%nat) (node_list g).
  Definition deadends (g : graph) : list N :=
    filter (fun u => (out_degree u g =? 0)%nat) (node_list g).
  (** labeled_graphs.py:1429-1454.  One round of the loop per unit of fuel; the theorems show
      that one more than the number of nodes suffices. *)
  Fixpoint deadend_loop (fuel : nat) (g : graph) : graph * option string :=
    match fuel with
    | O => (g, Some "out of fuel")
    | S f => match deadends g with
             | [] => (g, None)
             | s => match states_remove_from s g with
                    | (g', None) => deadend_loop f g'
                    | r => r
                    end
             end
    end.
  Definition remove_deadends (g : graph) : graph * option string :=
    match deadend_loop (S (List.length (g_nodes g))) g with
    | (g', None) =>
        if (List.length (g_nodes g) =? 0)%nat || negb (List.length (g_nodes g') =? 0)%nat
        then (g', None) else (g', Some "AssertionError")
    | r => r
    end.

  (** labeled_graphs.py:226-269, [States.post], [States.pre]. *)
  Definition post (l : list N) (g : graph) : list N := flat_map (fun u => successors u g) l.
  Definition pre (l : list N) (g : graph) : list N :=
    flat_map (fun v => map e_src (filter (fun e => neqb (e_dst e) v) (g_edges g))) l.

  (** labeled_graphs.py:62-106, [label_is_desired], for domains that are not callable: equal
      as dictionaries.  The test [test_common_bug] needs values that are both sets and
      lists and is left out. *)
  Definition label_is_desired (d want : attrs V) : bool := dict_eqb veqb d want.
  (** labeled_graphs.py:660-761, [Transitions.find]; building the typed copy raises
      ValueError if a stored label is not allowed. *)
  Definition find_transitions (c : config) (from to : option (list N)) (want : attrs V) (g : graph) : res (list edge) :=
    let inside o x := match o with None => true | Some l => nmem x l end in
    let es := filter (fun e => inside from (e_src e) && inside to (e_dst e)) (g_edges g) in
    do oks <- mapr (fun e => match want, e_attr e with
                             | [], _ => Ok (e, true)
                             | _, [] => Ok (e, true)
                             | _, _ => do t <- typed_update_res (c_edge_types c) (e_attr e) [];
                                       Ok (e, label_is_desired t want)
                             end) es;
    Ok (map fst (filter snd oks)).

  (** The calls a client can make. *)
  Inductive gop :=
  | GAddNode (n : N) (d : attrs V) (check : bool)
  | GAddEdge (u v : N) (key : option nat) (d : attrs V) (check : bool)
  | GRemoveEdge (u v : N) (d : attrs V)
  | GRemoveNode (n : N)
  | GAddInitial (n : N)
  | GRemoveState (n : N).
  (** States.remove drops the state from the initial ones before the graph is asked to remove
      the node, labeled_graphs.py:205-212. *)
  Definition gstep (c : config) (o : gop) (g : graph) : graph * option string :=
    let ret (r : res graph) := match r with Ok g' => (g', None) | Err e => (g, Some e) end in
    match o with
    | GAddNode n d ch => ret (add_node c n d ch g)
    | GAddEdge u v k d ch => ret (add_edge c u v k d ch g)
    | GRemoveEdge u v d => (remove_labeled_edge u v d g, None)
    | GRemoveNode n => ret (remove_node n g)
    | GAddInitial n => ret (add_initial n g)
    | GRemoveState n =>
        match states_remove n g with
        | Ok g' => (g', None)
        | Err e => (Graph (g_nodes g) (g_edges g) (filter (fun x => negb (neqb x n)) (g_init g)), Some e)
        end
    end.
  Definition grun (c : config) (l : list gop) (g : graph) : graph :=
    fold_left (fun g o => fst (gstep c o g)) l g.
  Definition empty_graph : graph := Graph [] [] [].
End Graph.
Arguments edge N V : clear implicits.
Arguments graph N V : clear implicits.
Arguments config V : clear implicits.
Arguments gop N V : clear implicits.
Arguments Edge {N V}.
Arguments Graph {N V}.
Arguments Config {V}.
