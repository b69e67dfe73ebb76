(** Model of tulip/mvp.py: minimum-violation planning.

    Simplifications.  A state of the Kripke structure is any type with decidable equality, and the
    null state (mvp.py:165-167) is [None].  States of the rules' automata are strings.  A cost on a
    transition of the Kripke structure is a number.  [spec] is read through [get_rules], which lists what a loop over it
    yields (theorem [to_list_spec]).  An [itertools.product] is a list that is empty after the first loop
    over it.  The fourth result, the product automaton, is the result of [product_automaton]. *)
From Coq Require Import List String Bool ZArith.
From Verif Require Import M_Base M_Dict M_Graph M_Machine M_Cost M_Dijkstra M_Prio.
Import ListNotations.
Open Scope string_scope.
Open Scope list_scope.

(** Labels of a (weighted) Kripke structure, transys.py:86-95 and 151-159. *)
Inductive klabel := KAp (l : list string) | KCost (x : num).
Definition kripke N := graph N klabel.
(** A finite automaton whose letters are sets of propositions, with its accepting states. *)
Record automaton := Automaton { fa_graph : graph string (list string); fa_accepting : list string; fa_aps : list string }.
Definition rules := list (rule automaton).

(** Equality of Python sets, here lists. *)
Definition subset_b (a b : list string) : bool := forallb (fun x => existsb (String.eqb x) b) a.
Definition set_eqb (a b : list string) : bool := subset_b a b && subset_b b a.
(** [v in to] for strings: [v] is a substring. *)
Definition substring_of (v to : string) : bool := match String.index 0 v to with Some _ => true | None => false end.
(** labeled_graphs.py:660-758, [transitions.find(p, q)] with two strings: the edges out of [p] whose end
    [v] satisfies [v in q]. *)
Definition find_between (p q : string) (fa : automaton) : list (edge string (list string)) :=
  filter (fun e => String.eqb (e_src e) p && substring_of (e_dst e) q) (g_edges (fa_graph fa)).
Definition letter (e : edge string (list string)) : res (list string) := of_opt "KeyError" (lookup "letter" (e_attr e)).
(** [cost[n] += z] *)
Fixpoint add_at (n : nat) (z : Z) (cost : list num) : res (list num) :=
  match cost, n with
  | [], _ => Err "IndexError"
  | x :: r, O => Ok (num_add x (Fin z) :: r)
  | x :: r, S m => do r' <- add_at m z r; Ok (x :: r')
  end.
(** mvp.py:83-90: one rule. *)
Definition charge (ap : list string) (x : rule automaton * (string * string)) (cost : list num) : res (list num) :=
  let (r, pq) := x in
  do labels <- mapr letter (find_between (fst pq) (snd pq) (r_fa r));
  if existsb (set_eqb ap) labels then Ok cost else add_at (r_level r) (r_priority r) cost.
(** mvp.py:51-91, [_get_rule_violation_cost]. *)
Definition rule_violation_cost (levels : nat) (rs : rules) (from to : list string) (ap : list string) : res (list num) :=
  fold_res (charge ap) (combine rs (combine from to)) (repeat (Fin 0) levels).

Section Mvp.
  Context {N : Type} (neqb : N -> N -> bool).

  (** A state of the product. *)
  Definition pstate : Type := option N * list string.
  Fixpoint strings_eqb (a b : list string) : bool :=
    match a, b with [], [] => true | x :: a', y :: b' => String.eqb x y && strings_eqb a' b' | _, _ => false end.
  Definition opt_eqb (a b : option N) : bool := match a, b with None, None => true | Some x, Some y => neqb x y | _, _ => false end.
  Definition peqb (a b : pstate) : bool := opt_eqb (fst a) (fst b) && strings_eqb (snd a) (snd b).
  Fixpoint nums_eqb (a b : list num) : bool :=
    match a, b with [], [] => true | x :: a', y :: b' => num_eqb x y && nums_eqb a' b' | _, _ => false end.
  (** automata.py:194-214, [WeightedFiniteStateAutomaton]: the label "cost" is a valid cost. *)
  Definition valid_vector (v : list num) : bool := match valid_cost (Vec v) with Ok b => b | Err _ => false end.
  Definition wpa_config : config (list num) := Config [] [] [("cost", Some valid_vector)] [].

  (** prioritized_safety.py:186-202. *)
  Definition get_states (rs : rules) : list (list string) := iproduct (map (fun r => node_list (fa_graph (r_fa r))) rs).
  Definition get_initial_states (rs : rules) : list (list string) := iproduct (map (fun r => g_init (fa_graph (r_fa r))) rs).
  Definition get_accepting_states (rs : rules) : list (list string) := iproduct (map (fun r => fa_accepting (r_fa r)) rs).

  (** [ks.states[x]["ap"]] *)
  Definition ap_of (ks : kripke N) (x : N) : res (list string) :=
    match find (fun p => neqb x (fst p)) (g_nodes ks) with
    | None => Err "KeyError"
    | Some p => match lookup "ap" (snd p) with Some (KAp l) => Ok l | Some _ => Err "TypeError" | None => Err "KeyError" end
    end.
  (** [transition[2].get("cost", 0)] *)
  Definition trans_cost (e : edge N klabel) : res num :=
    match lookup "cost" (e_attr e) with None => Ok (Fin 0) | Some (KCost x) => Ok x | Some _ => Err "TypeError" end.
  (** mvp.py:126-147, [_add_transition_edge]. *)
  Definition add_transition_edge (levels : nat) (rs : rules) (ks : kripke N) (cst : num) (from to : pstate) (g : graph pstate (list num))
      : res (graph pstate (list num)) :=
    do ap <- (match fst to with None => Err "KeyError" | Some x => ap_of ks x end);
    do v <- rule_violation_cost levels rs (snd from) (snd to) ap;
    add_edge peqb nums_eqb wpa_config from to None [("cost", v ++ [cst])] true g.
  (** mvp.py:94-123, [_add_transition]: [tos] is used up by the first of [froms]. *)
  Definition add_transition (levels : nat) (rs : rules) (ks : kripke N) (cst : num) (froms tos : list pstate) (g : graph pstate (list num))
      : res (graph pstate (list num)) :=
    do st <- fold_res (fun from (st : list pstate * graph pstate (list num)) =>
                         do g' <- fold_res (add_transition_edge levels rs ks cst from) (fst st) (snd st); Ok ([], g')) froms (tos, g);
    Ok (snd st).
  (** [itertools.product(xs, ys)] *)
  Definition pairs (xs : list (option N)) (ys : list (list string)) : list pstate := list_prod xs ys.
  (** mvp.py:150-194, [_construct_weighted_product_automaton]: the graph and its accepting states. *)
  Definition product_automaton (levels : nat) (rs : rules) (ks : kripke N) : res (graph pstate (list num) * list pstate) :=
    let states := map Some (node_list ks) in
    do g1 <- fold_res (fun n => add_node peqb wpa_config n [] true) (pairs states (get_states rs) ++ pairs [None] (get_states rs)) (Graph [] [] []);
    do g2 <- fold_res (add_initial peqb) (pairs [None] (get_initial_states rs)) g1;
    let accepting := pairs states (get_accepting_states rs) in
    if negb (forallb (fun q => has_node peqb q g2) accepting) then Err "ValueError" else
    do g3 <- fold_res (fun e g => do cst <- trans_cost e;
                                  add_transition levels rs ks cst (pairs [Some (e_src e)] (get_states rs)) (pairs [Some (e_dst e)] (get_states rs)) g)
               (g_edges ks) g2;
    do g4 <- add_transition levels rs ks (Fin 0) (g_init g3) (pairs (map Some (g_init ks)) (get_states rs)) g3;
    Ok (g4, accepting).
  (** mvp.py:228-231. *)
  Definition goal_states (ks : kripke N) (goal : string) : res (list N) :=
    do l <- mapr (fun x => do ap <- ap_of ks x; Ok (x, existsb (String.eqb goal) ap)) (node_list ks);
    Ok (map fst (filter snd l)).
  (** mvp.py:240-243. *)
  Definition state_path (p : list pstate) : list N := flat_map (fun q => match fst q with Some x => [x] | None => [] end) p.
  (** mvp.py:197-244, [solve]; [nlt] orders states of the product and [ks_aps] is [ks.atomic_propositions]. *)
  Definition solve (nlt : pstate -> pstate -> bool) (fuel : nat) (ks_aps : list string) (ks : kripke N) (goal : string) (s : spec automaton (list string))
      : res (cost * list N * list pstate) :=
    if negb (set_eqb ks_aps (s_aps s)) then Err "ValueError" else
    let rs := get_rules s in
    do w <- product_automaton (get_num_levels s) rs ks;
    do goals <- goal_states ks goal;
    let targets := pairs (map Some goals) (get_states rs) in
    if negb (forallb (fun q => nmem peqb q (snd w)) targets) then Err "ValueError" else
    do r <- dijkstra_multiple peqb nlt nums_eqb (fun v => Some (Vec v)) wpa_config fuel (fst w) (g_init (fst w))
              (fun q => nmem peqb q targets) "cost";
    Ok (fst r, state_path (snd r), snd r).
End Mvp.
