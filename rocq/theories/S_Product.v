(** What a synchronous product of a transition system and an automaton is, stated on the nodes
    and edges of the factors alone (Baier and Katoen, Definition 4.62). *)
From Coq Require Import List String Bool.
From Verif Require Import M_Base M_Dict M_Graph M_Product S_Run.
Import ListNotations.
Open Scope string_scope.
Open Scope list_scope.

Section Spec.
  Context {A B V : Type} (true_letter : V).
  (** State [s] carries the label [a]. *)
  Definition label (ts : graph A V) (s : A) (a : V) : Prop :=
    exists d, In (s, d) (g_nodes ts) /\ lookup "ap" d = Some a.
  Definition tstep (ts : graph A V) (s s' : A) : Prop := exists e, In e (g_edges ts) /\ e_src e = s /\ e_dst e = s'.
  (** A transition of the automaton reads [a] if its letter is [a], or [{True}], or if it has
      no letter. *)
  Definition enables (a : V) (e : edge B V) : Prop :=
    e_attr e = [] \/ same_items (e_attr e) [("letter", a)] \/ same_items (e_attr e) [("letter", true_letter)].
  Definition bstep (ba : aut B V) (q : B) (a : V) (q' : B) : Prop :=
    exists e, In e (g_edges (a_graph ba)) /\ e_src e = q /\ e_dst e = q' /\ enables a e.
  (** Both move; the automaton reads the label of the state entered. *)
  Definition pstep ts ba (x y : A * B) : Prop :=
    tstep ts (fst x) (fst y) /\ exists a, label ts (fst y) a /\ bstep ba (snd x) a (snd y).
  Definition pinit ts ba (x : A * B) : Prop :=
    In (fst x) (g_init ts) /\ exists q0 a, In q0 (g_init (a_graph ba)) /\ label ts (fst x) a /\ bstep ba q0 a (snd x).
  Inductive reach ts ba : A * B -> Prop :=
  | reach_init x : pinit ts ba x -> reach ts ba x
  | reach_step x y : reach ts ba x -> pstep ts ba x y -> reach ts ba y.

  (** Infinite runs. *)
  Definition graph_run {N W} (g : graph N W) (r : nat -> N) : Prop :=
    In (r 0) (g_init g) /\ forall i, exists d, trans g (r i) d (r (S i)).
  (** A run [s] of the system, and the states [q] the automaton passes while reading its labels. *)
  Definition sync_run ts ba (s : nat -> A) (q : nat -> B) : Prop :=
    In (s 0) (g_init ts) /\ (forall i, tstep ts (s i) (s (S i))) /\
    exists q0 a, In q0 (g_init (a_graph ba)) /\
      (forall i, label ts (s i) (a i)) /\ bstep ba q0 (a 0) (q 0) /\ forall i, bstep ba (q i) (a (S i)) (q (S i)).
  Definition infinitely_often (P : nat -> Prop) : Prop := forall n, exists m, n <= m /\ P m.
End Spec.
