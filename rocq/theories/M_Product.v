(** Model of tulip/transys/products.py: synchronous products of a transition system and a
    Buchi automaton.

    Simplifications.  States of the system ([A]), states of the automaton ([B]) and labels
    ([V], both values of 'ap' and of 'letter') are any types with decidable equality, so two
    equal sets are one value of [V].  A set is the list of its elements; sets are iterated in
    the order of the list, and [queue.pop] takes any element, chosen by [pick] from the
    round and the queue.  Logging, warnings and names are left out. *)
From Coq Require Import List String Bool Arith.
From Verif Require Import M_Base M_Dict M_Graph M_Machine.
Import ListNotations.
Open Scope string_scope.
Open Scope list_scope.

Section Product.
  Context {A B V : Type}.
  Context (aeqb : A -> A -> bool) (beqb : B -> B -> bool) (veqb : V -> V -> bool).
  (** The value [{True}]. *)
  Context (true_letter : V).

  (** Values of labels of the product: sets of automaton states, or labels of the factors. *)
  Inductive pval := PStates (l : list B) | PVal (v : V).
  Fixpoint list_eqb (l m : list B) : bool :=
    match l, m with [], [] => true | x :: l, y :: m => beqb x y && list_eqb l m | _, _ => false end.
  Definition pval_eqb (x y : pval) : bool :=
    match x, y with PStates l, PStates m => list_eqb l m | PVal v, PVal w => veqb v w | _, _ => false end.
  Definition peqb (x y : A * B) : bool := aeqb (fst x) (fst y) && beqb (snd x) (snd y).

  (** An automaton: its graph and its accepting states (automata.py:61-150). *)
  Record aut := Aut { a_graph : graph B V; a_acc : list B }.
  (** A product under construction: graph and accepting states (or their preimage). *)
  Record pst := PSt { p_graph : graph (A * B) pval; p_acc : list (A * B) }.

  Fixpoint uniq {X} (eqb : X -> X -> bool) (l : list X) : list X :=
    match l with [] => [] | x :: r => if existsb (eqb x) r then uniq eqb r else x :: uniq eqb r end.
  Definition add_to {X} (eqb : X -> X -> bool) (x : X) (l : list X) : list X :=
    if existsb (eqb x) l then l else l ++ [x].

  (** [g.nodes[s]['ap']] *)
  Definition ap_of (s : A) (ts : graph A V) : res V :=
    match find (fun na => aeqb s (fst na)) (g_nodes ts) with
    | None => Err "KeyError"
    | Some na => match lookup "ap" (snd na) with Some v => Ok v | None => Err "KeyError" end
    end.

  (** products.py:278-307.  [ct] and [cb] are the label types of the two graphs. *)
  Definition find_ba_succ (cb : config V) (q : B) (s : A) (ts : graph A V) (ba : aut) : res (list (edge B V)) :=
    do ap <- ap_of s ts;
    do l1 <- find_transitions beqb veqb cb (Some [q]) None [("letter", ap)] (a_graph ba);
    do l2 <- find_transitions beqb veqb cb (Some [q]) None [("letter", true_letter)] (a_graph ba);
    Ok (l1 ++ l2).

  (** Label types of a product transition system over the propositions [aps]
      (transys.py:515-580, products.py:214-215; its action sets hold names of action types
      only) and of a product automaton over an alphabet (automata.py:88-130). *)
  Definition fts_config (aps : list B) : config pval :=
    Config [("ap", Some (fun v => match v with PStates l => forallb (fun q => existsb (beqb q) aps) l | PVal _ => false end))]
           [("ap", PStates [])]
           [("env_actions", Some (fun _ => false)); ("sys_actions", Some (fun _ => false))] [].
  Definition ba_config (alphabet : V -> bool) : config pval :=
    Config [] [] [("letter", Some (fun v => match v with PVal v => alphabet v | PStates _ => false end))] [].

  (** [product.states[n][k] = v]: unchecked. *)
  Definition set_label (n : A * B) (k : string) (v : pval) (g : graph (A * B) pval) : graph (A * B) pval :=
    Graph (map (fun na => if peqb n (fst na) then (fst na, set_item k v (snd na)) else na) (g_nodes g)) (g_edges g) (g_init g).

  (** products.py:345-373: the transitions of the product for one transition of the system.
      [is_ba]: the product has an alphabet, otherwise it has actions. *)
  Definition add_ts_edge (is_ba : bool) (cp : config pval) (sq new : A * B) (ts : graph A V) (e : edge A V)
      (g : graph (A * B) pval) : res (graph (A * B) pval) :=
    if is_ba then
      do ap <- ap_of (e_dst e) ts;
      add_edge peqb pval_eqb cp sq new None [("letter", PVal ap)] true g
    else match e_attr e with
         | [] => add_edge peqb pval_eqb cp sq new None [] true g
         | d => match lookup "actions" d with
                | None => Err "KeyError"
                | Some v => add_edge peqb pval_eqb cp sq new None [("actions", PVal v)] true g
                end
         end.

  (** products.py:310-374, one enabled transition of the automaton; the second component
      collects [next_sqs]. *)
  Definition prod_succ1 (is_ba : bool) (cp : config pval) (ct : config V) (sq : A * B) (s' : A) (ts : graph A V) (ba : aut)
      (e : edge B V) (x : pst * list (A * B)) : res (pst * list (A * B)) :=
    let st := fst x in let next := snd x in
    if negb (beqb (e_src e) (snd sq)) then Err "AssertionError" else
    let new := (s', e_dst e) in
    let old := has_node peqb new (p_graph st) in
    do g1 <- (if old then Ok (p_graph st) else add_node peqb cp new [] true (p_graph st));
    let g2 := if is_ba then g1 else set_label new "ap" (PStates [e_dst e]) g1 in
    let acc := if existsb (beqb (e_dst e)) (a_acc ba) then add_to peqb new (p_acc st) else p_acc st in
    do es <- find_transitions aeqb veqb ct (Some [fst sq]) (Some [s']) [] ts;
    do g3 <- fold_res (add_ts_edge is_ba cp sq new ts) es g2;
    Ok (PSt g3 acc, if old then next else add_to peqb new next).
  Definition find_prod_succ (is_ba : bool) cp ct sq s' ts ba (en : list (edge B V)) (st : pst) : res (pst * list (A * B)) :=
    fold_res (prod_succ1 is_ba cp ct sq s' ts ba) en (st, []).

  (** products.py:247-262 and 118-142: the successors of one product state.  The result has
      all new successors, and those found by the last call of [find_prod_succ], if any. *)
  Definition succ1 (is_ba : bool) cp cb ct (sq : A * B) ts ba (s' : A) (x : pst * list (A * B) * option (list (A * B)))
    : res (pst * list (A * B) * option (list (A * B))) :=
    do en <- find_ba_succ cb (snd sq) s' ts ba;
    match en with
    | [] => Ok x
    | _ => do y <- find_prod_succ is_ba cp ct sq s' ts ba en (fst (fst x));
           Ok (fst y, fold_left (fun l z => add_to peqb z l) (snd y) (snd (fst x)), Some (snd y))
    end.
  Definition successors_of (is_ba : bool) cp cb ct (sq : A * B) ts ba (st : pst) : res (pst * list (A * B) * option (list (A * B))) :=
    fold_res (succ1 is_ba cp cb ct sq ts ba) (uniq aeqb (successors aeqb (fst sq) ts)) (st, [], None).

  (** products.py:221-241 and 80-107: initial states. *)
  Definition init1 (is_ba : bool) cp (ba : aut) (s0 : A) (e : edge B V) (st : pst) : res pst :=
    let new := (s0, e_dst e) in
    do g1 <- add_node peqb cp new [] true (p_graph st);
    do g2 <- add_initial peqb new g1;
    let g3 := if is_ba then g2 else set_label new "ap" (PStates [e_dst e]) g2 in
    Ok (PSt g3 (if existsb (beqb (e_dst e)) (a_acc ba) then add_to peqb new (p_acc st) else p_acc st)).
  Definition init_states (is_ba : bool) cp cb ts ba : res pst :=
    fold_res (fun (s0q0 : A * B) st => do en <- find_ba_succ cb (snd s0q0) (fst s0q0) ts ba;
                             fold_res (init1 is_ba cp ba (fst s0q0)) en st)
      (list_prod (g_init ts) (g_init (a_graph ba))) (PSt empty_graph []).

  (** [queue.pop()] *)
  Context (pick : nat -> list (A * B) -> nat).
  Definition pop (n : nat) (l : list (A * B)) : option (A * B * list (A * B)) :=
    match l with
    | [] => None
    | x :: _ => let i := pick n l mod List.length l in Some (nth i l x, firstn i l ++ skipn (S i) l)
    end.
  (** products.py:242-268. *)
  Fixpoint prod_loop cp cb ct ts ba (fuel : nat) (queue visited : list (A * B)) (st : pst) : res pst :=
    match fuel with
    | O => match queue with [] => Ok st | _ => Err "out of fuel" end
    | S f => match pop f queue with
             | None => Ok st
             | Some (sq, queue) =>
                 let visited := add_to peqb sq visited in
                 do y <- successors_of false cp cb ct sq ts ba st;
                 let new := filter (fun x => negb (existsb (peqb x) visited)) (snd (fst y)) in
                 prod_loop cp cb ct ts ba f (fold_left (fun l z => add_to peqb z l) new queue) visited (fst (fst y))
             end
    end.
  (** products.py:166-272, for an automaton over sets of propositions. *)
  Definition ts_ba_sync_prod cb ct (ts : graph A V) (ba : aut) : res pst :=
    let cp := fts_config (node_list (a_graph ba)) in
    do st <- init_states false cp cb ts ba;
    prod_loop cp cb ct ts ba (List.length (g_nodes ts) * List.length (g_nodes (a_graph ba)))
      (g_init (p_graph st)) [] st.

  (** products.py:377-433.  [contains x y] is the Python expression [x in y] that
      labeled_graphs.py:371-376 evaluates, because the state itself is passed to [states.find]
      instead of a list. *)
  Context (contains : A -> A -> res bool).
  Definition state_find (s : A) (ts : graph A V) : res (list (A * attrs V)) :=
    do l <- mapr (fun na => do b <- contains (fst na) s; Ok (na, b)) (g_nodes ts);
    Ok (map fst (filter snd l)).
  Definition ba_ts_sync_prod (alphabet : V -> bool) cb ct (ts : graph A V) (ba : aut) : res pst :=
    let cp := ba_config alphabet in
    do p <- ts_ba_sync_prod cb ct ts ba;
    do g1 <- fold_res (fun n => add_node peqb cp n [] true) (node_list (p_graph p)) empty_graph;
    do g2 <- fold_res (add_initial peqb) (g_init (p_graph p)) g1;
    do acc <- fold_res (fun n acc => if has_node peqb n g2 then Ok (add_to peqb n acc) else Err "ValueError") (p_acc p) [];
    do g3 <- fold_res (fun e g =>
        do l <- state_find (fst (e_dst e)) ts;
        match l with
        | [] => Err "IndexError"
        | na :: _ => match lookup "ap" (snd na) with
                     | None => Err "KeyError"
                     | Some v => add_edge peqb pval_eqb cp (e_src e) (e_dst e) None [("letter", PVal v)] true g
                     end
        end) (g_edges (p_graph p)) g2;
    Ok (PSt g3 acc).

  (** products.py:52-163: the automaton that extends itself.  [add_successors] returns the new
      states of the last successor that had an enabled transition (142). *)
  Definition otf_init alphabet cb ts ba : res pst := init_states true (ba_config alphabet) cb ts ba.
  Definition add_successors alphabet cb ct (sq : A * B) ts ba (st : pst) : res (pst * list (A * B)) :=
    do y <- successors_of true (ba_config alphabet) cb ct sq ts ba st;
    match snd y with None => Err "UnboundLocalError" | Some l => Ok (fst (fst y), l) end.
  Fixpoint otf_loop alphabet cb ct ts ba (fuel : nat) (Q : list (A * B)) (st : pst) : res pst :=
    match fuel with
    | O => match Q with [] => Ok st | _ => Err "out of fuel" end
    | S f => match Q with
             | [] => Ok st
             | _ => do y <- fold_res (fun sq x => do y <- add_successors alphabet cb ct sq ts ba (fst x);
                                                  Ok (fst y, fold_left (fun l z => add_to peqb z l) (snd y) (snd x)))
                              Q (st, []);
                    otf_loop alphabet cb ct ts ba f (snd y) (fst y)
             end
    end.
  Definition add_all_states alphabet cb ct ts ba (st : pst) : res pst :=
    otf_loop alphabet cb ct ts ba (S (List.length (g_nodes ts) * List.length (g_nodes (a_graph ba)))) (node_list (p_graph st)) st.
End Product.
Arguments pst A B V : clear implicits.
Arguments pval B V : clear implicits.
Arguments aut B V : clear implicits.
