(** Model of tulip/transys/compositions.py and of the classes it composes,
    tulip/transys/transys.py:67-213 (Kripke structures with and without weights, Markov chains,
    Markov decision processes).

    Numbers are exact rationals: Python's floats round.  Costs are numbers here, not
    [VectorCost].  The label of a state is a set of propositions, written as a list.  The states
    of all factors have one type, the states of the composition are lists of them.  Iteration over the
    set of states of a factor is in the order of insertion; no theorem depends on it. *)
From Coq Require Import List String Bool Arith QArith Qcanon.
From Verif Require Import M_Base M_Dict M_Graph M_Machine.
Import ListNotations.
Open Scope string_scope.
Open Scope list_scope.

(** Values of labels: [None], numbers, strings, tuples, and sets of propositions. *)
Inductive val := VNone | VNum (q : Qc) | VStr (s : string) | VTup (l : list val) | VSet (l : list string).
Fixpoint val_eqb (a b : val) : bool :=
  match a, b with
  | VNone, VNone => true
  | VNum x, VNum y => Qc_eq_bool x y
  | VStr x, VStr y => String.eqb x y
  | VTup x, VTup y =>
      (fix go (x y : list val) : bool :=
         match x, y with
         | [], [] => true
         | a :: x', b :: y' => val_eqb a b && go x' y'
         | _, _ => false
         end) x y
  | VSet x, VSet y => if list_eq_dec string_dec x y then true else false
  | _, _ => false
  end.

Inductive kind := KS | WKS | MC | MDP | NotKripke.
Definition kind_eqb (a b : kind) : bool :=
  match a, b with
  | KS, KS => true | WKS, WKS => true | MC, MC => true | MDP, MDP => true
  | NotKripke, NotKripke => true | _, _ => false
  end.

(** cost.py:40-51 [ValidTransitionCost]; transys.py:168-178 [ValidProbability], whose
    UnboundLocalError for other types counts as a rejection. *)
Definition valid_cost (v : val) : bool := match v with VNum q => Qle_bool 0 q | _ => false end.
Definition valid_probability (v : val) : bool :=
  match v with VNum q => Qle_bool 0 q && Qle_bool q 1 | _ => false end.
Definition vmem (v : val) (l : list val) : bool := existsb (val_eqb v) l.

(** transys.py:83-92, 146-156, 182-191, 203-212: the types of labels.  The only default is the
    empty set of propositions. *)
Definition edge_types (k : kind) (actions : list val) : types val :=
  match k with
  | WKS => [("cost", Some valid_cost)]
  | MC => [("probability", Some valid_probability)]
  | MDP => [("probability", Some valid_probability); ("action", Some (fun v => vmem v actions))]
  | _ => []
  end.
Definition in_powerset (ap : list string) (v : val) : bool :=
  match v with VSet l => forallb (fun p => mem p ap) l | _ => false end.
Definition model_config (k : kind) (ap : list string) (actions : list val) : config val :=
  Config [("ap", Some (in_powerset ap))] [("ap", VSet [])] (edge_types k actions) [].
Record model (N : Type) := Model { m_kind : kind; m_ap : list string; m_actions : list val; m_ts : graph N val }.
Arguments Model {N}. Arguments m_kind {N}. Arguments m_ap {N}. Arguments m_actions {N}. Arguments m_ts {N}.
Definition config_of {N} (m : model N) : config val := model_config (m_kind m) (m_ap m) (m_actions m).

(** compositions.py:86-87 *)
Definition is_not_none (v : val) : bool := match v with VNone => false | _ => true end.
(** Python's [+] and [*] on numbers and the [+] of strings and tuples; other operands are left
    out. *)
Definition py_add (a b : val) : res val :=
  match a, b with
  | VNum x, VNum y => Ok (VNum (x + y)%Qc)
  | VStr x, VStr y => Ok (VStr (x ++ y))
  | VTup x, VTup y => Ok (VTup (x ++ y))
  | _, _ => Err "TypeError"
  end.
Definition py_mul (a b : val) : res val :=
  match a, b with VNum x, VNum y => Ok (VNum (x * y)%Qc) | _, _ => Err "TypeError" end.
(** [functools.reduce(f, l)] *)
Definition reduce (f : val -> val -> res val) (l : list val) : res val :=
  match l with
  | [] => Err "TypeError"
  | x :: r => fold_res (fun y acc => f acc y) r x
  end.
(** compositions.py:48-83 *)
Definition sum_values (l : list val) : res val := reduce py_add (filter is_not_none l).
Definition mult_values (l : list val) : res val := reduce py_mul (filter is_not_none l).
Definition neglect_none (l : list val) : res val :=
  match filter is_not_none l with
  | [x] => Ok x
  | r => Ok (VTup r)
  end.

(** [transition_attr_operations]: a function on the list of values per key. *)
Definition operations := list (string * (list val -> res val)).
(** compositions.py:180-185 *)
Definition default_operation (k : string) (f : list val -> res val) (ops : operations) : operations :=
  match lookup k ops with Some _ => ops | None => ops ++ [(k, f)] end.
Definition with_defaults (ops : operations) : operations :=
  default_operation "action" neglect_none
    (default_operation "probability" mult_values (default_operation "cost" sum_values ops)).

(** compositions.py:277-288: the values per key, [None] where a factor has no such key. *)
Fixpoint set_nth {A} (i : nat) (x : A) (l : list A) : list A :=
  match l, i with
  | [], _ => []
  | _ :: r, O => x :: r
  | y :: r, S j => y :: set_nth j x r
  end.
Definition collect1 (n idx : nat) (kv : string * val) (d : attrs (list val)) : attrs (list val) :=
  let old := match lookup (fst kv) d with Some l => l | None => repeat VNone n end in
  set_item (fst kv) (set_nth idx (snd kv) old) d.
Fixpoint collect (n idx : nat) (l : list (attrs val)) (d : attrs (list val)) : attrs (list val) :=
  match l with
  | [] => d
  | a :: r => collect n (S idx) r (fold_left (fun d kv => collect1 n idx kv d) a d)
  end.
(** compositions.py:241-280 [_get_transition_attr]. *)
Definition apply_operation (ops : operations) (kv : string * list val) : res (string * val) :=
  match lookup (fst kv) ops with
  | None => Ok (fst kv, VTup (snd kv))
  | Some f => do v <- f (snd kv); Ok (fst kv, v)
  end.
Definition get_transition_attr (ops : operations) (l : list (attrs val)) : res (attrs val) :=
  mapr (apply_operation ops) (collect (List.length l) 0 l []).

(** [itertools.product] *)
Fixpoint product {A} (l : list (list A)) : list (list A) :=
  match l with
  | [] => [[]]
  | x :: r => flat_map (fun a => map (cons a) (product r)) x
  end.

Section Compose.
  Context {N : Type} (neqb : N -> N -> bool).
  Fixpoint leqb (a b : list N) : bool :=
    match a, b with
    | [], [] => true
    | x :: a', y :: b' => neqb x y && leqb a' b'
    | _, _ => false
    end.

  (** compositions.py:290-325 [_get_composed_model_type]. *)
  Definition composed_type (models : list (model N)) : option kind :=
    if existsb (fun m => kind_eqb (m_kind m) NotKripke) models then None
    else if existsb (fun m => kind_eqb (m_kind m) MDP) models then Some MDP
    else if existsb (fun m => kind_eqb (m_kind m) MC) models then Some MC
    else if existsb (fun m => kind_eqb (m_kind m) WKS) models then Some WKS
    else Some KS.

  (** [model.states[s]["ap"]] *)
  Definition label_of (m : model N) (s : N) : res (list string) :=
    match find (fun na => neqb s (fst na)) (g_nodes (m_ts m)) with
    | None => Err "KeyError"
    | Some (_, a) => match lookup "ap" a with
                     | Some (VSet l) => Ok l
                     | Some _ => Err "TypeError"
                     | None => Err "KeyError"
                     end
    end.
  Fixpoint labels_of (models : list (model N)) (s : list N) : res (list (list string)) :=
    match models, s with
    | [], _ => Ok []
    | m :: ms, x :: xs => do l <- label_of m x; do ls <- labels_of ms xs; Ok (l :: ls)
    | _, [] => Err "IndexError"
    end.
  Definition union (a b : list string) : list string := a ++ filter (fun p => negb (mem p a)) b.
  (** [ts.states[s]["ap"] = v]: not checked, the dictionary of a node is a plain one. *)
  Definition set_ap {M} (meqb : M -> M -> bool) (s : M) (v : val) (g : graph M val) : res (graph M val) :=
    if has_node meqb s g
    then Ok (Graph (map (fun na => if meqb s (fst na) then (fst na, set_item "ap" v (snd na)) else na) (g_nodes g))
               (g_edges g) (g_init g))
    else Err "KeyError".
  (** compositions.py:151-162: one state with its label. *)
  Definition add_state (c : config val) (models : list (model N)) (s : list N) (g : graph (list N) val)
    : res (graph (list N) val) :=
    do g1 <- add_node leqb c s [] true g;
    do ls <- labels_of models s;
    match ls with
    | [] => Err "TypeError"
    | l :: r => set_ap leqb s (VSet (fold_left union r l)) g1
    end.
  (** compositions.py:169-179: the actions of the composition. *)
  Definition composed_actions (k : kind) (models : list (model N)) : list val :=
    match k with
    | MDP => match map m_actions (filter (fun m => kind_eqb (m_kind m) MDP) models) with
             | [acts] => acts
             | l => map VTup (product l)
             end
    | _ => []
    end.
  (** compositions.py:194-196: the transitions of each factor from its state. *)
  Fixpoint factor_transitions (models : list (model N)) (s : list N) : res (list (list (edge N val))) :=
    match models, s with
    | [], _ => Ok []
    | m :: ms, x :: xs =>
        do l <- find_transitions neqb val_eqb (config_of m) (Some [x]) None [] (m_ts m);
        do ls <- factor_transitions ms xs; Ok (l :: ls)
    | _, [] => Err "IndexError"
    end.
  (** compositions.py:197-203 *)
  Definition add_transition (c : config val) (ops : operations) (s : list N) (es : list (edge N val))
      (g : graph (list N) val) : res (graph (list N) val) :=
    do d <- get_transition_attr ops (map e_attr es);
    add_edge leqb val_eqb c s (map e_dst es) None d true g.
  Definition add_transitions_from (c : config val) (ops : operations) (models : list (model N)) (s : list N)
      (g : graph (list N) val) : res (graph (list N) val) :=
    do ts <- factor_transitions models s;
    fold_res (add_transition c ops s) (product ts) g.

  (** compositions.py:93-201 [synchronous_parallel].  The caller's dictionary of operations
      is extended in place; that effect is left out. *)
  Definition synchronous_parallel (ops : operations) (models : list (model N)) : res (model (list N)) :=
    match composed_type models with
    | None => Err "TypeError"
    | Some k =>
        let ap := fold_left union (map m_ap models) [] in
        let c0 := model_config k ap [] in
        do g1 <- fold_res (add_state c0 models) (product (map (fun m => node_list (m_ts m)) models)) empty_graph;
        do g2 <- fold_res (add_initial leqb) (product (map (fun m => g_init (m_ts m)) models)) g1;
        let acts := composed_actions k models in
        let c := model_config k ap acts in
        do g3 <- fold_res (add_transitions_from c (with_defaults ops) models) (node_list g2) g2;
        Ok (Model k ap acts g3)
    end.

  (** compositions.py:227-238: the transitions of one state under the policy. *)
  Definition policy_transition (c : config val) (action : val) (e : edge N val) (g : graph N val) : res (graph N val) :=
    match lookup "action" (e_attr e) with
    | None => Err "KeyError"
    | Some a => if val_eqb a action
                then add_edge neqb val_eqb c (e_src e) (e_dst e) None (del_item "action" (e_attr e)) true g
                else Ok g
    end.
  Definition policy_state (c : config val) (policy : N -> res val) (m : model N) (s : N) (g : graph N val)
    : res (graph N val) :=
    do l <- label_of m s;
    do g1 <- set_ap neqb s (VSet l) g;
    do action <- policy s;
    do ts <- find_transitions neqb val_eqb (config_of m) (Some [s]) None [] (m_ts m);
    fold_res (policy_transition c action) ts g1.
  (** compositions.py:204-238, 328-342 [apply_policy]. *)
  Definition apply_policy (policy : N -> res val) (m : model N) : res (model N) :=
    match m_kind m with
    | MDP =>
        let c0 := model_config MC [] [] in
        do g1 <- fold_res (fun n => add_node neqb c0 n [] true) (node_list (m_ts m)) empty_graph;
        do g2 <- fold_res (add_initial neqb) (g_init (m_ts m)) g1;
        let c := model_config MC (m_ap m) [] in
        do g3 <- fold_res (policy_state c policy m) (node_list (m_ts m)) g2;
        Ok (Model MC (m_ap m) [] g3)
    | _ => Err "TypeError"
    end.
End Compose.
