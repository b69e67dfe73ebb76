(** What a strategy graph means: its input/output words.  Independent of the conversion. *)
From Coq Require Import List String ZArith.
From Verif Require Import M_Base M_Spec M_Dict M_Graph M_Machine M_Strategy S_Run.
Import ListNotations.

(** The integer [z] stands for the value [v] of a variable with domain [d]: an index into the
    list for a finite domain, itself otherwise. *)
Definition stands (d : dom) (z : Z) (v : mval) : Prop :=
  match d with
  | DEnum l => exists i s, z = Z.of_nat i /\ nth_error l i = Some s /\ v = VStr s
  | _ => v = VInt z
  end.
(** [x] gives the values in [d] of the declared variables. *)
Definition shows (vs : vardecl) (d : attrs Z) (x : attrs mval) : Prop :=
  forall k v, lookup k x = Some v <-> exists dm z, lookup k vs = Some dm /\ lookup k d = Some z /\ stands dm z v.

Section Words.
  Context {N : Type} (env sys : vardecl) (A : @strategy N).
  (** One step of a path: the valuation is the one of the node entered. *)
  Definition strat_step (u : N) (x : attrs mval * attrs mval) (v : N) : Prop :=
    In (u, v) (st_edges A) /\ exists d, In (v, d) (st_nodes A) /\ shows env d (fst x) /\ shows sys d (snd x).
  (** A word starts with the valuation of an initial node. *)
  Definition strat_words (initial : N -> Prop) (w : list (attrs mval * attrs mval)) : Prop :=
    match w with
    | [] => True
    | x :: w' => exists u d v, initial u /\ In (u, d) (st_nodes A) /\ shows env d (fst x) /\ shows sys d (snd x) /\
                   steps strat_step u w' v
    end.
End Words.
