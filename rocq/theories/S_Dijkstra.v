(** Specification of shortest paths: routes along edges and their total weight. *)
From Coq Require Import List ZArith.
From Verif Require Import M_Graph S_Cost.
Import ListNotations.

Section Routes.
  Context {N V : Type} (g : graph N V) (weight : edge N V -> list Z) (k : nat).
  (** The edges [es] lead from [s] to [t]. *)
  Fixpoint route (s : N) (es : list (edge N V)) (t : N) : Prop :=
    match es with
    | [] => s = t
    | e :: r => In e (g_edges g) /\ e_src e = s /\ route (e_dst e) r t
    end.
  Definition nodes_of (s : N) (es : list (edge N V)) : list N := s :: map e_dst es.
  Definition total (es : list (edge N V)) : list Z := fold_right vadd (zeros k) (map weight es).
  (** [es] is a route from a node of [S] to a node of [T], and none weighs less. *)
  Definition shortest (S T : N -> Prop) (s : N) (es : list (edge N V)) (t : N) : Prop :=
    S s /\ route s es t /\ T t /\ forall s' es' t', S s' -> route s' es' t' -> T t' -> lexle (total es) (total es').
  Definition unreachable (S T : N -> Prop) : Prop := forall s es t, S s -> route s es t -> ~ T t.
End Routes.
