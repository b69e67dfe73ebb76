(** Game graphs and parity games: transys/transys.py [GameGraph] and transys/automata.py
    [ParityGame], over the labelled graphs of M_Graph.

    Simplifications.  Labels are integers; the values of a label type are a list of
    integers (a set or a list in the code; only membership is used). *)
From Coq Require Import List String Bool ZArith.
From Verif Require Import M_Base M_Dict M_Graph.
Import ListNotations.
Open Scope string_scope.
Open Scope list_scope.

(** One of the dictionaries in [node_label_types], without a setter
    (labeled_graphs.py:1016-1029). *)
Record label_type := LabelType { lt_name : string; lt_values : list Z; lt_default : option Z }.
Definition in_values (l : list Z) (v : Z) : bool := existsb (Z.eqb v) l.
(** labeled_graphs.py:987-1034, [_init_labeling]: two dictionary comprehensions. *)
Definition init_labeling (l : list label_type) : types Z * attrs Z :=
  (fold_left (fun d t => set_item (lt_name t) (Some (in_values (lt_values t))) d) l [],
   fold_left (fun d t => match lt_default t with Some v => set_item (lt_name t) v d | None => d end) l []).
(** labeled_graphs.py:945-955, the label types that the constructor keeps. *)
Definition graph_init (node_types edge_types : list label_type) : config Z :=
  let '(nt, nd) := init_labeling node_types in
  let '(et, ed) := init_labeling edge_types in
  Config nt nd et ed.
(** transys.py:1052-1069, [GameGraph.__init__]: the label types that it keeps, and the list
    [node_label_types] of the caller afterwards. *)
Definition player_type : label_type := LabelType "player" [0; 1]%Z (Some 0%Z).
Definition game_init (node_types edge_types : list label_type) : config Z * list label_type :=
  let node_types := node_types ++ [player_type] in
  (graph_init node_types edge_types, node_types).
(** automata.py:652-664, [ParityGame.__init__]. *)
Definition color_type (c : nat) : label_type :=
  LabelType "color" (map Z.of_nat (List.seq 0 c)) (Some 0%Z).
Definition parity_init (c : nat) : config Z := fst (game_init [color_type c] []).

Section Game.
  Context {N : Type} (neqb : N -> N -> bool).
  (** [self.nodes[n][k]] *)
  Definition node_label (k : string) (n : N) (g : graph N Z) : res Z :=
    match find (fun x => neqb (fst x) n) (g_nodes g) with
    | Some (_, a) => of_opt "KeyError" (lookup k a)
    | None => Err "KeyError"
    end.
  (** transys.py:1071-1089, [GameGraph.player_states], when the iterator that it returns
      is read at once. *)
  Definition player_states (p : Z) (g : graph N Z) : res (list N) :=
    do l <- mapr (fun n => do q <- node_label "player" n g; Ok (n, q)) (node_list g);
    Ok (map fst (filter (fun x => Z.eqb p (snd x)) l)).
  (** The object returned is a [filter], which can be read once: what the first reading and
      what the second one give, of a graph that has not changed in between. *)
  Definition read_twice (p : Z) (g : graph N Z) : res (list N * list N) :=
    do l <- player_states p g; Ok (l, []).
  (** transys.py:1091-1102, [GameGraph.edge_controlled_by]. *)
  Definition edge_controlled_by (e : N * N) (g : graph N Z) : res Z := node_label "player" (fst e) g.
End Game.
