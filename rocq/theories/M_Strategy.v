(** Model of tulip/synth.py:1658-2017: from the strategy of a solver to a Mealy machine, and
    the removal of nondeterminism from its first reaction.

    Simplifications.  A strategy is its nodes with the integers of the attribute ['state'], its
    edges, and [initial_nodes] if it has that attribute; iteration over [initial_nodes], a set,
    is in the order of the list.  The compiled initial condition of the specification is the
    oracle [isinit] (its meaning is C15); the name ['__builtins__'] that [eval] adds to its
    dictionary is left out.  Logging is left out. *)
From Coq Require Import List String Bool Arith ZArith.
From Verif Require Import M_Base M_Spec M_Dict M_Graph M_Machine.
Import ListNotations.
Open Scope string_scope.
Open Scope list_scope.

(** Values of ports. *)
Inductive mval : Type := VInt (z : Z) | VStr (s : string).
Definition mval_eqb (a b : mval) : bool :=
  match a, b with
  | VInt x, VInt y => Z.eqb x y
  | VStr x, VStr y => String.eqb x y
  | _, _ => false
  end.

Definition zrange (lo hi : Z) : list Z := map (fun i => (lo + Z.of_nat i)%Z) (List.seq 0 (Z.to_nat (hi - lo + 1))).

(** machines.py:78-104 [create_machine_ports]. *)
Definition create_port (d : dom) : port mval :=
  match d with
  | DBool => PSet [VInt 0; VInt 1]
  | DInt lo hi => PSet (map VInt (zrange lo hi))
  | DEnum vs => PSet (map VStr vs)
  end.
Definition create_machine_ports (vs : vardecl) : list (string * port mval) :=
  map (fun kd => (fst kd, create_port (snd kd))) vs.

(** Indexing of a list by an integer that may be negative. *)
Definition py_index {A} (l : list A) (i : Z) : res A :=
  let n := Z.of_nat (List.length l) in
  if ((0 <=? i) && (i <? n))%Z then of_opt "IndexError" (nth_error l (Z.to_nat i)) else
  if ((i <? 0) && (0 <=? i + n))%Z then of_opt "IndexError" (nth_error l (Z.to_nat (i + n))) else
  Err "IndexError".

(** synth.py:1684-1694 [str_vars]. *)
Definition str_vars (vs : vardecl) : list (string * list string) :=
  flat_map (fun kd => match snd kd with DEnum l => [(fst kd, l)] | _ => [] end) vs.
(** synth.py:1850-1874 [_int2str]. *)
Definition int2str (d : attrs Z) (sv : list (string * list string)) : res (attrs mval) :=
  mapr (fun kv => match lookup (fst kv) sv with
                  | Some l => do s <- py_index l (snd kv); Ok (fst kv, VStr s)
                  | None => Ok (fst kv, VInt (snd kv))
                  end) d.

(** Call of [Transitions.add] with the label as keyword arguments, labeled_graphs.py:488-508,
    1178-1281.  A label name that is the name of a parameter of [Transitions.add], of
    [LabeledDiGraph.add_edge] or of networkx's [add_edge] binds the parameter twice: a
    [TypeError].  A label name ["key"] becomes the key of the edge, which is ignored for the
    first edge between two nodes (1279-1281) and here every edge is the first one.  A label
    name ["check"] is the flag if the caller does not give it. *)
Definition param_names : list string :=
  ["self"; "from_state"; "to_state"; "attr_dict"; "u"; "v"; "u_for_edge"; "v_for_edge"].
Definition truthy (x : mval) : bool := match x with VInt z => negb (Z.eqb z 0) | VStr s => negb (String.eqb s "") end.

Section Strategy.
  Context {N : Type} (neqb : N -> N -> bool).

  Definition transitions_add (c : config mval) (u v : N) (d : attrs mval) (check : option bool) (g : graph N mval)
    : res (graph N mval) :=
    if existsb (fun kv => mem (fst kv) param_names) d then Err "TypeError" else
    match check with
    | Some b => if mem "check" (names d) then Err "TypeError" else
                add_edge neqb mval_eqb c u v None (trim_dict d ["key"]) b g
    | None => let b := match lookup "check" d with Some x => truthy x | None => true end in
              add_edge neqb mval_eqb c u v None (trim_dict d ["key"; "check"]) b g
    end.

  Record strategy := Strategy { st_nodes : list (N * attrs Z); st_edges : list (N * N); st_init : option (list N) }.

  Definition node_state (A : strategy) (u : N) : res (attrs Z) :=
    match List.find (fun nd => neqb (fst nd) u) (st_nodes A) with Some nd => Ok (snd nd) | None => Err "KeyError" end.
  Definition strat_succ (A : strategy) (u : N) : list N :=
    map snd (filter (fun e => neqb (fst e) u) (st_edges A)).

  (** The label of an edge into a node with state [d], synth.py:1704-1712, 1773-1778,
      1805-1810. *)
  Definition label (all : vardecl) (d : attrs Z) : res (attrs mval) :=
    int2str (filter (fun kv => mem (fst kv) (names all)) d) (str_vars all).
  (** [tuple(d[k] for k in keys)] *)
  Definition vals (keys : list string) (d : attrs Z) : res (list Z) :=
    mapr (fun k => of_opt "KeyError" (lookup k d)) keys.
  Definition zlist_mem (x : list Z) (l : list (list Z)) : bool :=
    existsb (fun y => if list_eq_dec Z.eq_dec x y then true else false) l.

  (** synth.py:1757-1786 [_init_edges_using_initial_nodes]. *)
  Definition init_edges_nodes (c : config mval) (all : vardecl) (sinit : N) (A : strategy) (l : list N)
      (g : graph N mval) : res (graph N mval) :=
    match l with [] => Err "AssertionError" | _ =>
      do r <- fold_res (fun u gs =>
          do d <- node_state A u;
          do x <- vals (names all) d;
          if zlist_mem x (snd gs) then Ok gs else
          do lab <- label all d;
          do g' <- transitions_add c sinit u lab None (fst gs);
          Ok (g', snd gs ++ [x])) l (g, []);
      Ok (fst r)
    end.
  (** synth.py:1789-1847 [_init_edges_using_compile_init].  The dictionary [tmp] given to
      [eval] collects the values of all nodes tried. *)
  Definition init_edges_compile (isinit : attrs Z -> res bool) (c : config mval) (all : vardecl) (sinit : N)
      (A : strategy) (g : graph N mval) : res (graph N mval) :=
    do r <- fold_res (fun ud gst =>
        do x <- vals (names all) (snd ud);
        if zlist_mem x (snd (fst gst)) then Ok gst else
        let tmp := update (snd gst) (snd ud) in
        do b <- isinit tmp;
        if (b : bool) then
          do lab <- label all (snd ud);
          do g' <- transitions_add c sinit (fst ud) lab (Some false) (fst (fst gst));
          Ok (g', snd (fst gst) ++ [x], tmp)
        else Ok (fst gst, tmp)) (st_nodes A) (g, [], []);
    Ok (fst (fst r)).

  (** synth.py:1658-1753 [strategy2mealy]; [sinit] is the node ['Sinit'].  [all] is
      [dict(env_vars)] updated with [sys_vars]. *)
  Definition strategy2mealy (isinit : attrs Z -> res bool) (sinit : N) (env sys : vardecl) (A : strategy)
    : res (machine N mval) :=
    match st_nodes A with
    | [] => Err "AssertionError"
    | nd :: _ =>
        let m0 := Machine [] (create_machine_ports env) (create_machine_ports sys) empty_graph in
        let c := mealy_config mval_eqb (m0 : machine N mval) in
        let all := update env sys in
        do g1 <- fold_res (fun n => add_node neqb c n [] true) (map fst (st_nodes A)) empty_graph;
        if negb (forallb (fun k => mem k (names (snd nd))) (names all)) then Err "AssertionError" else
        do g2 <- fold_res (fun u => fold_res (fun v g =>
            do d <- node_state A v;
            do lab <- label all d;
            transitions_add c u v lab (Some false) g) (strat_succ A u)) (map fst (st_nodes A)) g1;
        do g3 <- add_node neqb c sinit [] true g2;
        do g4 <- add_initial neqb sinit g3;
        do g5 <- match st_init A with
                 | Some l => init_edges_nodes c all sinit A l g4
                 | None => init_edges_compile isinit c all sinit A g4
                 end;
        if negb (List.length (g_nodes g5) =? S (List.length (st_nodes A)))%nat then Err "AssertionError" else
        match successors neqb sinit g5 with
        | [] => Err "AssertionError"
        | _ => Ok (Machine [] (create_machine_ports env) (create_machine_ports sys) g5)
        end
    end.
End Strategy.

Section Determinize.
  Context {N V : Type} (neqb : N -> N -> bool) (veqb : V -> V -> bool).
  (** The test of one edge, synth.py:1987-1991. *)
  Fixpoint differs (given : list string) (want d : attrs V) : res bool :=
    match given with
    | [] => Ok false
    | k :: r => do v <- of_opt "KeyError" (lookup k d);
                do w <- of_opt "KeyError" (lookup k want);
                if veqb v w then differs r want d else Ok true
    end.
  Definition same_edge (e e' : edge N V) : bool :=
    between neqb (e_src e') (e_dst e') e && (e_key e =? e_key e')%nat.
  (** networkx [remove_edges_from] for triples found in the graph. *)
  Definition remove_edges (rm : list (edge N V)) (g : graph N V) : graph N V :=
    Graph (g_nodes g) (filter (fun e => negb (existsb (same_edge e) rm)) (g_edges g)) (g_init g).
  Fixpoint vlist_eqb (a b : list V) : bool :=
    match a, b with
    | [], [] => true
    | x :: a', y :: b' => veqb x y && vlist_eqb a' b'
    | _, _ => false
    end.
  (** synth.py:1892-2017 [determinize_machine_init].  A state ['Sinit'] that is not in the
      graph has no edges. *)
  Definition determinize (sinit : N) (m : machine N V) (init_out : attrs V) : res (machine N V) :=
    let given := filter (fun k => mem k (names init_out)) (names (m_out m)) in
    let g := m_graph m in
    do rm1 <- fold_res (fun e rm => do b <- differs given init_out (e_attr e); Ok (if (b : bool) then rm ++ [e] else rm))
                (out_edges neqb sinit g) [];
    let g1 := remove_edges rm1 g in
    do r <- fold_res (fun e sr =>
              do x <- mapr (fun k => of_opt "KeyError" (lookup k (e_attr e))) (names (m_in m));
              Ok (if existsb (vlist_eqb x) (fst sr) then (fst sr, snd sr ++ [e]) else (fst sr ++ [x], snd sr)))
            (out_edges neqb sinit g1) ([], []);
    Ok (Machine (m_vars m) (m_in m) (m_out m) (remove_edges (snd r) g1)).
End Determinize.
