(** Model of tulip/transys/graph_algorithms.py: shortest paths.

    Simplifications.  The heap [Q] is a list; [heapq.heappush] appends and
    [heapq.heappop] removes a least entry, in Python's order of tuples.  [nlt] is [<] on nodes and is
    assumed not to raise.  A set of targets is its membership test.  The number of
    iterations is bounded by [fuel].  [cost_of] reads a label as a number or vector. *)
From Coq Require Import List String Bool ZArith.
From Verif Require Import M_Base M_Dict M_Graph M_Machine M_Cost.
Import ListNotations.
Open Scope string_scope.
Open Scope list_scope.

Section Dijkstra.
  Context {N V : Type} (neqb nlt : N -> N -> bool) (veqb : V -> V -> bool) (cost_of : V -> option cost) (c : config V).

  Record entry := Entry { q_cost : cost; q_node : N; q_path : list N }.
  (** [p < q] for lists of nodes. *)
  Fixpoint path_lt (p q : list N) : bool :=
    match p, q with
    | [], [] => false
    | [], _ => true
    | _, [] => false
    | a :: p', b :: q' => if neqb a b then path_lt p' q' else nlt a b
    end.
  (** [a < b] for tuples [(cost, node, path)]. *)
  Definition entry_lt (a b : entry) : res bool :=
    do e <- py_eq (q_cost a) (q_cost b);
    if e then Ok (if neqb (q_node a) (q_node b) then path_lt (q_path a) (q_path b) else nlt (q_node a) (q_node b))
    else py_lt (q_cost a) (q_cost b).
  (** [heapq.heappop] on the nonempty heap [e :: l]. *)
  Fixpoint heappop (e : entry) (l : list entry) : res (entry * list entry) :=
    match l with
    | [] => Ok (e, [])
    | x :: r => do b <- entry_lt x e;
                if b then do m <- heappop x r; Ok (fst m, e :: snd m)
                else do m <- heappop e r; Ok (fst m, x :: snd m)
    end.

  (** [dist.get(v, None)] *)
  Definition get_dist (v : N) (dist : list (N * cost)) : option cost := option_map snd (find (fun p => neqb v (fst p)) dist).
  (** [transition[2][cost_key]] *)
  Definition edge_cost (cost_key : string) (e : edge N V) : res cost :=
    match lookup cost_key (e_attr e) with
    | None => Err "KeyError"
    | Some v => of_opt "TypeError" (cost_of v)
    end.
  (** graph_algorithms.py:87-95: one outgoing transition of [u].  The newest pair of [dist] is in front. *)
  Definition relax (cost_key : string) (visited : list N) (cst : cost) (path_to_u : list N) (e : edge N V)
      (st : list (N * cost) * list entry) : res (list (N * cost) * list entry) :=
    let v := e_dst e in
    if nmem neqb v visited then Ok st
    else
      do w <- edge_cost cost_key e;
      do new_cost <- py_add w cst;
      do better <- (match get_dist v (fst st) with
                    | None => Ok true
                    | Some cur => if negb (truth cur) then Ok true else py_lt new_cost cur
                    end);
      if better then Ok ((v, new_cost) :: fst st, snd st ++ [Entry new_cost v path_to_u]) else Ok st.
  (** graph_algorithms.py:77-95. *)
  Fixpoint search (g : graph N V) (target : N -> bool) (cost_key : string) (fuel : nat) (dist : list (N * cost)) (visited : list N) (Q : list entry)
      : res (cost * list N) :=
    match Q with
    | [] => Ok (Sc Inf, [])
    | q :: r =>
        match fuel with
        | O => Err "out of fuel"
        | S f =>
            do p <- heappop q r;
            let (e, Q') := p in
            if nmem neqb (q_node e) visited then search g target cost_key f dist visited Q'
            else
              let visited' := q_node e :: visited in
              let path_to_u := q_path e ++ [q_node e] in
              if target (q_node e) then Ok (q_cost e, path_to_u)
              else
                do ts <- find_transitions neqb veqb c (Some [q_node e]) None [] g;
                do st <- fold_res (relax cost_key visited' (q_cost e) path_to_u) ts (dist, Q');
                search g target cost_key f (fst st) visited' (snd st)
        end
    end.
  (** graph_algorithms.py:41-98, [dijkstra_single_source_multiple_targets]. *)
  Definition dijkstra (fuel : nat) (g : graph N V) (source : N) (target : N -> bool) (cost_key : string) : res (cost * list N) :=
    search g target cost_key fuel [(source, zero)] [] [Entry zero source []].
  (** graph_algorithms.py:101-131, [dijkstra_multiple_sources_multiple_targets]. *)
  Definition from_source (fuel : nat) (g : graph N V) (target : N -> bool) (cost_key : string) (source : N) (best : cost * list N) : res (cost * list N) :=
    do r <- dijkstra fuel g source target cost_key;
    do b <- py_lt (fst r) (fst best);
    Ok (if b then r else best).
  Definition dijkstra_multiple (fuel : nat) (g : graph N V) (sources : list N) (target : N -> bool) (cost_key : string) : res (cost * list N) :=
    fold_res (from_source fuel g target cost_key) sources (Sc Inf, []).
End Dijkstra.
Arguments entry N : clear implicits.
Arguments Entry {N} _ _ _.
