(** Runs of labelled transition relations, and the step relations of the machines, stated on
    the nodes and edges of a graph alone. *)
From Coq Require Import List String Bool.
From Verif Require Import M_Base M_Dict M_Graph M_Machine.
Import ListNotations.

(** A path and its word. *)
Inductive steps {S L : Type} (R : S -> L -> S -> Prop) : S -> list L -> S -> Prop :=
| steps_nil s : steps R s [] s
| steps_cons s l t w u : R s l t -> steps R t w u -> steps R s (l :: w) u.

(** Two dictionaries with the same items. *)
Definition same_items {V} (d e : attrs V) : Prop := forall k, lookup k d = lookup k e.
(** [d'] has the items of [d] whose key is in [ks]. *)
Definition restricts {V} (ks : list string) (d d' : attrs V) : Prop :=
  forall k v, lookup k d' = Some v <-> In k ks /\ lookup k d = Some v.

Section Steps.
  Context {N V : Type}.
  (** The graph has a transition from [u] to [v] labelled with the items of [d]. *)
  Definition trans (g : graph N V) (u : N) (d : attrs V) (v : N) : Prop :=
    exists e, In e (g_edges g) /\ e_src e = u /\ e_dst e = v /\ same_items (e_attr e) d.
  (** Input and output valuation of one reaction. *)
  Definition io : Type := attrs V * attrs V.
  (** Outputs of a Mealy machine are on the transition, *)
  Definition mealy_step (m : machine N V) (s : N) (x : io) (t : N) : Prop :=
    exists e, In e (g_edges (m_graph m)) /\ e_src e = s /\ e_dst e = t /\
      restricts (map fst (m_in m)) (e_attr e) (fst x) /\ restricts (map fst (m_out m)) (e_attr e) (snd x).
  (** those of a Moore machine on the state it leaves, *)
  Definition moore_step (m : machine N V) (s : N) (x : io) (t : N) : Prop :=
    exists e a, In e (g_edges (m_graph m)) /\ e_src e = s /\ e_dst e = t /\ In (s, a) (g_nodes (m_graph m)) /\
      restricts (map fst (m_in m)) (e_attr e) (fst x) /\ restricts (map fst (m_out m)) a (snd x).
  (** or, when outputs are read after the reaction, on the state it enters. *)
  Definition moore_step_after (m : machine N V) (s : N) (x : io) (t : N) : Prop :=
    exists e a, In e (g_edges (m_graph m)) /\ e_src e = s /\ e_dst e = t /\ In (t, a) (g_nodes (m_graph m)) /\
      restricts (map fst (m_in m)) (e_attr e) (fst x) /\ restricts (map fst (m_out m)) a (snd x).
  (** Input/output words of a machine. *)
  Definition words (R : N -> io -> N -> Prop) (g : graph N V) (w : list io) : Prop :=
    exists s t, In s (g_init g) /\ steps R s w t.
End Steps.
