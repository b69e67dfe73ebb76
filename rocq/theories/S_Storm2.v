(** What stormpy does with a prism program, as far as the interface relies on it: it builds the states of
    the program that it explores, numbers them, and gives each the labels, the choices and the
    probabilities of the program. *)
From Coq Require Import List String Bool Arith ZArith QArith Qcanon.
From Verif Require Import M_Base M_Tree.
From Verif Require Import M_Dict M_Graph M_Compose S_Compose M_Storm S_Storm.
Import ListNotations.
Open Scope list_scope.
Open Scope string_scope.

(** The label [p] holds for the value [v] of the variable. *)
Definition holds_label (P : program) (v : nat) (p : string) : Prop := exists vs, In (p, vs) (pg_labels P) /\ In v vs.
Definition enabled (P : program) (v : nat) : list command := filter (fun c => Nat.eqb (cm_guard c) v) (pg_commands P).
(** The probability that command [c] goes to the value [w]. *)
Definition goes (c : command) (w : nat) : Qc := sumq (map fst (filter (fun u => Nat.eqb (snd u) w) (cm_updates c))).
(** The choice [a] of a state is the command [c]; [vals] are the values of the states. *)
Definition is_choice (vals : list nat) (a : saction) (c : command) : Prop :=
  NoDup (map fst (sa_trans a)) /\
  (forall j q, In (j, q) (sa_trans a) -> exists w, nth_error vals j = Some w /\ In w (map snd (cm_updates c)) /\ q = goes c w) /\
  (forall w, In w (map snd (cm_updates c)) -> exists j, nth_error vals j = Some w /\ In (j, goes c w) (sa_trans a)).
(** The model built of a program.  Of the labels "init" and "deadlock", which stormpy adds, and of the
    states in which no command is enabled nothing more is said. *)
Record built (P : program) (vals : list nat) (sm : smodel) : Prop := {
  b_type : sm_type sm = if pg_type P =? "mdp" then SMDP else DTMC;
  b_values : NoDup vals /\ List.length vals = List.length (sm_states sm);
  b_range : forall v, In v vals -> (pg_low P <= v <= pg_high P)%nat;
  b_init : exists i, sm_init sm = [i] /\ nth_error vals i = Some (pg_init P);
  b_labels : forall i st v, nth_error (sm_states sm) i = Some st -> nth_error vals i = Some v ->
    forall p, p <> "init" -> p <> "deadlock" -> (In p (ss_labels st) <-> holds_label P v p);
  b_choices : forall i st v, nth_error (sm_states sm) i = Some st -> nth_error vals i = Some v ->
    enabled P v <> [] -> Forall2 (is_choice vals) (ss_actions st) (enabled P v) }.

Section Reads.
  Context {N : Type} (neqb : N -> N -> bool).
  Variable m : model N.
  Definition same_labels (l l' : list string) : Prop := forall p, In p l <-> In p l'.
  (** No two states have the same labels, labels are declared, and none is one of stormpy's own. *)
  Record told_apart : Prop := {
    ta_labels : forall s s' l l', state_label (m_ts m) s l -> state_label (m_ts m) s' l' -> same_labels l l' -> s = s';
    ta_declared : forall s l p, state_label (m_ts m) s l -> In p l -> In p (m_ap m);
    ta_names : ~ In "init" (m_ap m) /\ ~ In "deadlock" (m_ap m) }.
  (** There is at most one transition between two states under one action. *)
  Definition one_transition : Prop :=
    NoDup (g_edges (m_ts m)) /\
    forall e e', In e (g_edges (m_ts m)) -> In e' (g_edges (m_ts m)) -> e_src e = e_src e' -> e_dst e = e_dst e' ->
      value "action" e = value "action" e' -> e = e'.
  (** Any two actions have different probabilities for some step that the first has in an explored state. *)
  Definition apart (tol : Qc) (explored : N -> Prop) : Prop :=
    forall a b, In a (m_actions m) -> In b (m_actions m) -> a <> b ->
      exists e e' q q', In e (g_edges (m_ts m)) /\ In e' (g_edges (m_ts m)) /\ explored (e_src e) /\
        e_src e = e_src e' /\ e_dst e = e_dst e' /\ value "action" e = a /\ value "action" e' = b /\
        value "probability" e = VNum q /\ value "probability" e' = VNum q' /\ (tol < q - q' \/ tol < q' - q)%Qc.
End Reads.

(** The choices are named after the actions of the commands, the same in every state, and no state that
    is explored is without a choice. *)
Record names_of (nm : string -> string) (P : program) (vals : list nat) (sm : smodel) : Prop := {
  no_enabled : forall v, In v vals -> enabled P v <> [];
  no_names : forall i st v, nth_error (sm_states sm) i = Some st -> nth_error vals i = Some v ->
    Forall2 (fun a c => exists t, cm_act c = Some t /\ sa_name a = nm t) (ss_actions st) (enabled P v);
  no_apart : forall t t', nm t = nm t' -> t = t' }.

(** ** Reading a model *)
(** The transitions of a model of stormpy in their order: state, name of the choice in a decision process,
    target and probability. *)
Definition key_name (t : stype) (name : string) : string := match t with SMDP => name | _ => "" end.
Definition steps_of (t : stype) (x : nat * sstate) : list (nat * string * nat * Qc) :=
  flat_map (fun a => map (fun y => (fst x, key_name t (sa_name a), fst y, snd y)) (sa_trans a)) (ss_actions (snd x)).
Definition steps (sm : smodel) : list (nat * string * nat * Qc) :=
  flat_map (steps_of (sm_type sm)) (combine (List.seq 0 (List.length (sm_states sm))) (sm_states sm)).
(** Chains and decision processes: there is one number for each state, choice and target. *)
Record good_storm (sm : smodel) : Prop := {
  gs_type : sm_type sm <> OtherModel;
  gs_init : NoDup (sm_init sm) /\ forall i, In i (sm_init sm) -> (i < List.length (sm_states sm))%nat;
  gs_range : forall i a j q, In (i, a, j, q) (steps sm) -> (j < List.length (sm_states sm))%nat /\ (0 <= q <= 1)%Qc;
  gs_once : NoDup (map fst (steps sm)) }.
Definition state_text (i : nat) : string := "s" ++ str_nat i.
(** The system [m] is the model [sm]. *)
Record reads_as (sm : smodel) (m : model string) : Prop := {
  ra_kind : m_kind m = match sm_type sm with SMDP => MDP | _ => MC end;
  ra_states : node_list (m_ts m) = map state_text (List.seq 0 (List.length (sm_states sm)));
  ra_init : g_init (m_ts m) = map state_text (sm_init sm);
  ra_labels : forall i st, nth_error (sm_states sm) i = Some st -> exists l, state_label (m_ts m) (state_text i) l /\
    forall p, In p l <-> In p (ss_labels st) /\ p <> "init" /\ p <> "deadlock";
  ra_ap : forall p, In p (m_ap m) <-> (exists st, In st (sm_states sm) /\ In p (ss_labels st)) /\ p <> "init" /\ p <> "deadlock";
  ra_actions : forall v, In v (m_actions m) <-> sm_type sm = SMDP /\ exists st a, In st (sm_states sm) /\ In a (ss_actions st) /\ v = VStr (sa_name a);
  ra_steps : map (fun e => (e_src e, e_dst e, e_attr e)) (g_edges (m_ts m)) =
    map (fun x => match x with (i, a, j, q) => (state_text i, state_text j,
      ("probability", VNum q) :: match sm_type sm with SMDP => [("action", VStr a)] | _ => [] end) end) (steps sm) }.
