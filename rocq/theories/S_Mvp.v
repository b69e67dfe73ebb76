(** Specification of minimum-violation planning for rules that look at one state at a time: each
    rule is a set of allowed labels, and every visited state with another label costs the rule's
    priority at the rule's level. *)
From Coq Require Import List String Bool ZArith.
From Verif Require Import M_Base M_Dict M_Graph M_Cost M_Prio M_Mvp S_Cost S_Dijkstra.
Import ListNotations.
Open Scope string_scope.
Open Scope list_scope.

Definition same_set (a b : list string) : Prop := forall x, In x a <-> In x b.
(** The automaton has one state, which is initial and accepting, and loops with letters. *)
Definition single (r : rule automaton) (q : string) : Prop :=
  node_list (fa_graph (r_fa r)) = [q] /\ g_init (fa_graph (r_fa r)) = [q] /\ fa_accepting (r_fa r) = [q] /\
  forall e, In e (g_edges (fa_graph (r_fa r))) -> e_src e = q /\ e_dst e = q /\ exists l, lookup "letter" (e_attr e) = Some l.
(** A loop of the automaton has the letter [ap]. *)
Definition allows (r : rule automaton) (ap : list string) : Prop :=
  exists e l, In e (g_edges (fa_graph (r_fa r))) /\ lookup "letter" (e_attr e) = Some l /\ same_set l ap.

Section Plans.
  Context {N : Type} (ks : kripke N) (goal : string) (levels : nat) (rs : rules).
  (** The labels, the prices, and which rules allow which label. *)
  Context (label : N -> list string) (price : edge N klabel -> Z) (allowed_by : rule automaton -> list string -> bool).

  Definition labelled : Prop := forall x a, In (x, a) (g_nodes ks) -> lookup "ap" a = Some (KAp (label x)).
  Definition priced : Prop := forall e, In e (g_edges ks) -> (0 <= price e)%Z /\
    (lookup "cost" (e_attr e) = Some (KCost (Fin (price e))) \/ lookup "cost" (e_attr e) = None /\ price e = 0%Z).
  (** Start at an initial state and end at a state labelled with the goal. *)
  Definition plan (x : N) (es : list (edge N klabel)) : Prop :=
    In x (g_init ks) /\ exists t, route ks x es t /\ In goal (label t).
  (** What the label [ap] costs at level [l]. *)
  Definition penalty (ap : list string) (l : nat) : Z :=
    fold_right (fun r z => if Nat.eqb (r_level r) l && negb (allowed_by r ap) then (r_priority r + z)%Z else z) 0%Z rs.
  Definition penalties (ap : list string) : list Z := map (penalty ap) (List.seq 0 levels).
  (** Penalties of all states visited, level by level, and last the prices of the transitions. *)
  Definition plan_cost (x : N) (es : list (edge N klabel)) : list Z :=
    fold_right vadd (zeros levels) (map (fun y => penalties (label y)) (nodes_of x es)) ++
    [fold_right Z.add 0%Z (map price es)].
  Definition best (x : N) (es : list (edge N klabel)) : Prop :=
    plan x es /\ forall x' es', plan x' es' -> lexle (plan_cost x es) (plan_cost x' es').
End Plans.
