(** Model of [ppp2ts], tulip/abstract/prop2partition.py:708-738: the transition system of a proposition-preserving partition.

    A partition is given here by what the function reads: the propositions ([prop_regions]), the matrix of adjacent regions with
    [n] rows, and the propositions of each region. *)
From Coq Require Import List String Bool Arith ZArith.
From Verif Require Import M_Tree M_Base M_Dict M_Graph M_Machine M_Fts M_Part M_Discretize.
Import ListNotations.
Open Scope string_scope.
Open Scope list_scope.
Open Scope nat_scope.

Section Named.
  Variable name : nat -> obj. (* [ofts_states] *)
  (** labeled_graphs.py:590-658 [add_adj] with a list of states *)
  Definition add_adj_names (ap : list obj) (n : nat) (m : matrix) (g : graph obj pv) : res (graph obj pv) :=
    fold_res (fun ij => add_edge obj_eqb pv_eqb (fts_config ap) (name (fst ij)) (name (snd ij)) None [] true) (adj_edges n m) g.
  (** prop2partition.py:724-737: at first there are no propositions *)
  Definition named_ts (props : list string) (n : nat) (m : matrix) (regions : list (list string)) : res fts :=
    let ap := map OStr props in
    do g1 <- fold_res (fun k => add_node obj_eqb (fts_config []) (name k) [] true) (List.seq 0 n) empty_graph;
    do g2 <- add_adj_names [] n m g1;
    do g3 <- fold_res (fun kl => add_node obj_eqb (fts_config ap) (name (fst kl)) [("ap", PvSet (snd kl))] true)
               (combine (List.seq 0 n) regions) g2;
    Ok (FTS ap g3).
End Named.
(** [trs.prepend_with(range(n), 's')] *)
Definition region_state (k : nat) : obj := prepend1 (Some "s") (OInt (Z.of_nat k)).
(** prop2partition.py:708-738 [ppp2ts] *)
Definition ppp2ts (props : list string) (n : nat) (m : matrix) (regions : list (list string)) : res (fts * list obj) :=
  do ts <- named_ts region_state props n m regions;
  Ok (ts, prepend_with (map (fun k => OInt (Z.of_nat k)) (List.seq 0 n)) (Some "s")).
