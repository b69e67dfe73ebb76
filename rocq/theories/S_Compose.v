(** What the synchronous parallel composition of Kripke structures, Markov chains and Markov
    decision processes is, stated on nodes, edges and sums of rationals alone (Baier and
    Katoen, Definition 2.42), and what a policy makes of a decision process. *)
From Coq Require Import List String Bool Arith QArith Qcanon.
From Verif Require Import M_Base M_Dict M_Graph M_Compose S_Run.
Import ListNotations.
Open Scope string_scope.
Open Scope list_scope.

Definition sumq (l : list Qc) : Qc := fold_right Qcplus 0%Qc l.
Definition prodq (l : list Qc) : Qc := fold_right Qcmult 1%Qc l.
Definition value {N} (k : string) (e : edge N val) : val :=
  match lookup k (e_attr e) with Some v => v | None => VNone end.
(** The values that are there. *)
Definition present (l : list val) : list val := filter is_not_none l.
(** A transition without probability is certain. *)
Definition weight {N} (e : edge N val) : Qc :=
  match lookup "probability" (e_attr e) with Some (VNum q) => q | _ => 1%Qc end.

Section Spec.
  Context {N : Type} (neqb : N -> N -> bool).
  (** Total probability of leaving [s] with action [a]; [VNone] for no action. *)
  Definition leaves (s : N) (a : val) (e : edge N val) : bool := neqb (e_src e) s && val_eqb (value "action" e) a.
  Definition mass (g : graph N val) (s : N) (a : val) : Qc := sumq (map weight (filter (leaves s a) (g_edges g))).
  (** The probabilities of each action that can be taken sum to one. *)
  Definition stochastic (g : graph N val) : Prop :=
    forall e, In e (g_edges g) -> mass g (e_src e) (value "action" e) = 1%Qc.
  (** State [s] carries the propositions [l]. *)
  Definition state_label (g : graph N val) (s : N) (l : list string) : Prop :=
    exists a, In (s, a) (g_nodes g) /\ lookup "ap" a = Some (VSet l).
End Spec.

(** One transition of every factor, from the state of the factor. *)
Inductive joint {N} : list (model N) -> list N -> list (edge N val) -> Prop :=
| joint_nil : joint [] [] []
| joint_cons m ms x xs e es : In e (g_edges (m_ts m)) -> e_src e = x -> joint ms xs es ->
    joint (m :: ms) (x :: xs) (e :: es).
(** The label of a joint transition: products of probabilities, sums of costs, the actions of
    the factors that have one (alone if there is one only), tuples of everything else. *)
Definition joint_label {N} (es : list (edge N val)) (d : attrs val) : Prop :=
  forall k,
    (lookup k d = None <-> forall e, In e es -> lookup k (e_attr e) = None) /\
    forall v, lookup k d = Some v ->
      let vs := map (value k) es in
      (k = "probability" -> exists qs, present vs = map VNum qs /\ v = VNum (prodq qs)) /\
      (k = "cost" -> exists qs, present vs = map VNum qs /\ v = VNum (sumq qs)) /\
      (k = "action" -> present vs = [v] \/ (List.length (present vs) <> 1%nat /\ v = VTup (present vs))) /\
      (k <> "probability" -> k <> "cost" -> k <> "action" -> v = VTup vs).
(** The action of a joint transition, from those of the factors. *)
Definition joint_action (l : list val) : val :=
  match present l with [] => VNone | [a] => a | r => VTup r end.
(** The total probabilities of the factors, one action each. *)
Fixpoint masses {N} (neqb : N -> N -> bool) (models : list (model N)) (s : list N) (acts : list val) : list Qc :=
  match models, s, acts with
  | m :: ms, x :: xs, a :: r => mass neqb (m_ts m) x a :: masses neqb ms xs r
  | _, _, _ => []
  end.
