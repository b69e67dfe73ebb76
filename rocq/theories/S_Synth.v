(** Independent vocabulary for the translation of transition systems. *)
From Coq Require Import List String Ascii ZArith Bool.
From Verif Require Import M_Ast M_Parser M_Spec S_LTL S_Gr1 M_Synth.
Import ListNotations.
Open Scope string_scope.
Open Scope list_scope.

(** Truth of a formula given as a text. *)
Definition text_true (s : trace) (i : nat) (x : string) : Prop :=
  match parse x with Some e => holds s i e | None => False end.

Definition at_most_one {A} (Q : A -> Prop) (l : list A) : Prop :=
  forall x y, In x l -> In y l -> Q x -> Q y -> x = y.
Definition only_one {A} (Q : A -> Prop) (l : list A) : Prop :=
  at_most_one Q l /\ exists x, In x l /\ Q x.

(** Assignments within the declared domains. *)
Definition in_domain (d : dom) (v : value) : Prop :=
  match d, v with
  | DBool, VB _ => True
  | DInt lo hi, VZ z => (lo <= z <= hi)%Z
  | DEnum vs, VS s => In s vs
  | _, _ => False
  end.
Definition allowed (d : vardecl) (st : state) : Prop :=
  forall x k, M_Base.lookup x d = Some k -> in_domain k (st x).

(** The assignment shows the value [v]: the Boolean variable named like it is true, or the
    variable [var] has that value. *)
Definition shows (as_bools : bool) (var : string) (v : sval) (st : state) : Prop :=
  match as_bools, v with
  | true, SStr x => st x = VB true
  | true, SInt _ => False
  | false, SInt z => st var = VZ z
  | false, SStr x => st var = VS x
  end.

(** [w] occurs in [k]. *)
Definition has_word (w k : string) : Prop := exists a b, k = (a ++ w ++ b)%string.

(** How the values of an action type are represented. *)
Definition type_must (t : fts) (k : string) : option must :=
  if contains "sys" k then f_sys_must t else f_env_must t.
Definition as_bools (mu : option must) (ba : bool) : bool := match mu with None => true | _ => ba end.
Definition action_shown (t : fts) (ba : bool) (k : string) (v : sval) (st : state) : Prop :=
  shows (as_bools (type_must t k) ba) k v st.
(** How many values of an action type may be shown at once. *)
Definition action_count (mu : option must) (ba : bool) (k : string) (cod : list sval) (st : state) : Prop :=
  match mu with
  | None => True
  | Some Mutex => ba = true -> at_most_one (fun v => shows true k v st) cod
  | Some Xor => ba = true -> 2 <= List.length cod -> only_one (fun v => shows true k v st) cod
  end.

(** Step [i] of the trace takes edge [e]: the actions of the label are shown at the arrival, or
    at the departure for the action types listed under 'previous'. *)
Definition edge_actions (t : fts) (ba : bool) (s : trace) (i : nat) (e : edge) : Prop :=
  (forall k v, In (k, v) (e_label e) -> has_word "sys" k \/ has_word "env" k ->
     (In k (e_prev e) -> action_shown t ba k v (s i)) /\
     (~ In k (e_prev e) -> action_shown t ba k v (s (S i)))) /\
  (forall a, In ("actions", SStr a) (e_label e) -> a <> "" ->
     (In "actions" (e_prev e) -> s i a = VB true) /\
     (~ In "actions" (e_prev e) -> s (S i) a = VB true)).

(** [loc] is the sequence of locations of the trace. *)
Definition locations (t : fts) (bs : bool) (var : string) (s : trace) (loc : nat -> sval) : Prop :=
  forall i, In (loc i) (f_states t) /\ shows bs var (loc i) (s i) /\
    forall q, In q (f_states t) -> shows bs var q (s i) -> q = loc i.

Definition labelled (t : fts) (q : sval) (p : string) : Prop :=
  exists l, In (q, Some l) (f_nodes t) /\ In p l.

(** The trace is an execution of the transition system; [E s i e] says which actions go with
    taking edge [e] at step [i]. *)
Definition executes (t : fts) (ignore : bool) (bs : bool) (var : string)
    (E : trace -> nat -> edge -> Prop) (s : trace) : Prop :=
  exists loc, locations t bs var s loc /\
    (ignore = false -> In (loc 0) (f_initial t)) /\
    (forall i, exists e, In e (f_trans t) /\ e_from e = loc i /\ e_to e = loc (S i) /\ E s i e) /\
    (forall i p, In p (f_aps t) -> (s i p = VB true <-> labelled t (loc i) p)).

(** The action counts of the types of one player hold throughout. *)
Definition sys_counts (t : fts) (ba : bool) (st : state) : Prop :=
  forall k cod, In (k, cod) (f_actions t) -> has_word "sys" k -> action_count (f_sys_must t) ba k cod st.
Definition env_counts (t : fts) (ba : bool) (st : state) : Prop :=
  forall k cod, In (k, cod) (f_actions t) -> ~ has_word "sys" k -> has_word "env" k ->
    action_count (f_env_must t) ba k cod st.

(** Environment actions of a transition. *)
Definition env_labelled (e : edge) : Prop := exists k v, In (k, v) (e_label e) /\ has_word "env" k.
Definition env_moves (t : fts) (ba : bool) (st : state) (e : edge) : Prop :=
  forall k v, In (k, v) (e_label e) -> has_word "env" k -> action_shown t ba k v st.

(** In an environment system the environment actions go with the arrival and the system actions
    with the departure. *)
Definition env_edge_actions (t : fts) (ba : bool) (s : trace) (i : nat) (e : edge) : Prop :=
  (forall k v, In (k, v) (e_label e) ->
     (has_word "env" k -> action_shown t ba k v (s (S i))) /\
     (has_word "sys" k -> action_shown t ba k v (s i))) /\
  (forall a, In ("actions", SStr a) (e_label e) -> a <> "" -> s (S i) a = VB true).
Definition sys_labelled (e : edge) : Prop := exists k v, In (k, v) (e_label e) /\ has_word "sys" k.
(** The exception of env_to_spec: every transition from [q] needs a system action and the system
    shows no action of some type. *)
Definition blocked (t : fts) (ba : bool) (q : sval) (st : state) : Prop :=
  (exists e, In e (f_trans t) /\ e_from e = q) /\
  (forall e, In e (f_trans t) -> e_from e = q -> sys_labelled e) /\
  exists k cod, In (k, cod) (f_actions t) /\ has_word "sys" k /\
    forall v, In v cod -> ~ action_shown t ba k v st.

(** Names and labels that the code can write and read back. *)
Definition good_name (v : sval) : Prop := match v with SStr x => S_Gr1.ident x | SInt _ => True end.
Definition label_ok (e : edge) : Prop :=
  NoDup (map fst (e_label e)) /\
  forall v, In ("actions", v) (e_label e) -> exists a, v = SStr a /\ (a = "" \/ S_Gr1.ident a).
Record good_fts (t : fts) : Prop := {
  g_states : NoDup (f_states t);
  g_names : forall q, In q (f_states t) -> good_name q;
  g_aps : forall p, In p (f_aps t) -> S_Gr1.ident p;
  g_types : NoDup (map fst (f_actions t));
  g_actions : forall k cod, In (k, cod) (f_actions t) ->
     S_Gr1.ident k /\ NoDup cod /\ forall v, In v cod -> good_name v;
  g_labels : forall e, In e (f_trans t) -> label_ok e }.

(** The assignment meets a constraint given as an optional text. *)
Definition meets (c : option string) (st : state) : Prop :=
  match c with None => True | Some x => text_true (fun _ => st) 0 x end.
(** Integer values without gaps. *)
Definition no_gaps (l : list sval) : Prop :=
  forall a b z, In (SInt a) l -> In (SInt b) l -> (a <= z <= b)%Z -> In (SInt z) l.
