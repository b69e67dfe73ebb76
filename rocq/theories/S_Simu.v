(** Bisimulations of labelled graphs (Milner), on nodes and edges alone. *)
From Coq Require Import List String Bool.
From Verif Require Import M_Base M_Dict M_Graph.
Import ListNotations.
Open Scope string_scope.

Section Spec.
  Context {N V : Type}.
  Definition moves (g : graph N V) (s t : N) : Prop := exists e, In e (g_edges g) /\ e_src e = s /\ e_dst e = t.
  Definition labelled (g : graph N V) (s : N) (v : V) : Prop :=
    exists a, In (s, a) (g_nodes g) /\ lookup "ap" a = Some v.
  (** [same]: which labels count as equal. *)
  Record bisimulation (same : V -> V -> Prop) (g : graph N V) (R : N -> N -> Prop) : Prop := {
    bis_label : forall s t v, R s t -> labelled g s v -> exists w, labelled g t w /\ same v w;
    bis_label_back : forall s t w, R s t -> labelled g t w -> exists v, labelled g s v /\ same v w;
    bis_forth : forall s t s', R s t -> moves g s s' -> exists t', moves g t t' /\ R s' t';
    bis_back : forall s t t', R s t -> moves g t t' -> exists s', moves g s s' /\ R s' t' }.
  Definition bisimilar (same : V -> V -> Prop) (g : graph N V) (s t : N) : Prop :=
    exists R, bisimulation same g R /\ R s t.
End Spec.
