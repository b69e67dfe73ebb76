(** Vocabulary for synthesis from transition systems: infinite words of machines and strategies,
    the traces they stand for, and what is expected of a solver. *)
From Coq Require Import List String Bool ZArith.
From Verif Require Import M_Dict M_Graph M_Machine S_Run M_Strategy S_Strategy.
From Verif Require Import M_Base M_Spec S_LTL S_Gr1 M_Synth S_Synth.
Import ListNotations.
Open Scope string_scope.

(** A value of a port stands for a value of the logic: integers for Booleans as in Python. *)
Definition reads (d : dom) (v : mval) (x : value) : Prop :=
  match d, v with
  | DBool, VInt z => x = VB (negb (z =? 0)%Z)
  | DInt _ _, VInt z => x = VZ z
  | DEnum _, VStr a => x = VS a
  | _, _ => False
  end.
(** The trace gives the variables the values they have in the word. *)
Definition trace_of (env sys : vardecl) (w : nat -> attrs mval * attrs mval) (s : trace) : Prop :=
  forall i k d,
    (lookup k env = Some d -> exists v, lookup k (fst (w i)) = Some v /\ reads d v (s i k)) /\
    (lookup k sys = Some d -> exists v, lookup k (snd (w i)) = Some v /\ reads d v (s i k)).

Section Words.
  Context {N : Type}.
  (** Infinite words of a Mealy machine, *)
  Definition machine_runs (m : machine N mval) (w : nat -> attrs mval * attrs mval) : Prop :=
    exists q : nat -> N, In (q 0) (g_init (m_graph m)) /\ forall i, mealy_step m (q i) (w i) (q (S i)).
  (** and of a strategy: the values at the nodes of an infinite path. *)
  Definition strategy_runs (env sys : vardecl) (A : @strategy N) (initial : N -> Prop)
      (w : nat -> attrs mval * attrs mval) : Prop :=
    exists u : nat -> N, initial (u 0) /\ (forall i, In (u i, u (S i)) (st_edges A)) /\
      forall i, exists d, In (u i, d) (st_nodes A) /\
        S_Strategy.shows env d (fst (w i)) /\ S_Strategy.shows sys d (snd (w i)).
  (** The nodes at which a strategy starts: those it names, or those that satisfy the initial
      condition. *)
  Definition starts_at (isinit : attrs Z -> res bool) (A : @strategy N) (u : N) : Prop :=
    match st_init A with
    | Some l => In u l
    | None => exists d, In (u, d) (st_nodes A) /\ isinit d = Ok true
    end.

  (** Every infinite path of the strategy meets the specification. *)
  Definition wins (isinit : attrs Z -> res bool) (g : grspec) (A : @strategy N) : Prop :=
    forall P Q, env_part g = Some P -> sys_part g = Some Q ->
    forall w s, strategy_runs (env_vars g) (sys_vars g) A (starts_at isinit A) w ->
      trace_of (env_vars g) (sys_vars g) w s -> sat_part s P -> sat_part s Q.

  (** The form of a strategy: a graph whose nodes give a value to the same names, with no
      negative index of a string. *)
  Record strategy_form (env sys : vardecl) (A : @strategy N) : Prop := {
    sf_nodes : NoDup (map fst (st_nodes A));
    sf_edges : NoDup (st_edges A);
    sf_ends : forall u v, In (u, v) (st_edges A) -> In u (map fst (st_nodes A)) /\ In v (map fst (st_nodes A));
    sf_once : forall u d, In (u, d) (st_nodes A) -> NoDup (map fst d);
    sf_same : forall u d u' d' k, In (u, d) (st_nodes A) -> In (u', d') (st_nodes A) -> In k (map fst d) -> In k (map fst d');
    sf_index : forall u d k z l, In (u, d) (st_nodes A) -> lookup k d = Some z ->
      lookup k env = Some (DEnum l) \/ lookup k sys = Some (DEnum l) -> (0 <= z)%Z }.
End Words.

(** Each variable is declared once, for one player. *)
Record declared_once (env sys : vardecl) : Prop := {
  do_env : NoDup (map fst env); do_sys : NoDup (map fst sys);
  do_roles : forall k, In k (map fst env) -> ~ In k (map fst sys) }.

(** What the transition systems say at the first step: one of the initial states, with its
    labels, and the number of actions. *)
Definition sys_starts (t : fts) (ignore bs ba : bool) (var : string) (s : trace) : Prop :=
  sys_counts t ba (s 0) /\
  (ignore = false -> exists q, In q (f_initial t) /\ In q (f_states t) /\ shows bs var q (s 0)) /\
  (forall q, In q (f_states t) -> shows bs var q (s 0) ->
     forall p, In p (f_aps t) -> (s 0 p = VB true <-> labelled t q p)).

(** What a system says about its environment: the number of its actions, and that at a state
    with transitions labelled for the environment it takes the actions of one of them. *)
Definition sys_allows (t : fts) (bs ba : bool) (var : string) (s : trace) : Prop :=
  forall i, env_counts t ba (s i) /\
    forall q, In q (f_states t) -> shows bs var q (s i) ->
      (exists e, In e (f_trans t) /\ e_from e = q /\ env_labelled e) ->
      exists e, In e (f_trans t) /\ e_from e = q /\ env_labelled e /\ env_moves t ba (s (S i)) e.

(** The environment starts in an initial state, takes a transition at each step unless the
    system blocks it, and shows the labels of its states. *)
Definition env_behaves (t : fts) (ignore bs ba : bool) (var : string) (s : trace) : Prop :=
  (ignore = false -> exists q, In q (f_initial t) /\ In q (f_states t) /\ shows bs var q (s 0)) /\
  (forall i, action_count (Some Xor) bs var (f_states t) (s i)) /\
  (forall i q, In q (f_states t) -> shows bs var q (s i) ->
    (exists e, In e (f_trans t) /\ e_from e = q /\ In (e_to e) (f_states t) /\
       shows bs var (e_to e) (s (S i)) /\ env_edge_actions t ba s i e) \/
    blocked t ba q (s i)) /\
  (forall i q, In q (f_states t) -> shows bs var q (s i) ->
     forall p, In p (f_aps t) -> (s i p = VB true <-> labelled t q p)) /\
  (forall i, env_counts t ba (s i)).

(** The trace shows some state at the first step. *)
Definition located (t : fts) (bs : bool) (var : string) (s : trace) : Prop :=
  exists q, In q (f_states t) /\ shows bs var q (s 0).
(** The system is executed, with the right number of actions. *)
Definition sys_executes (t : fts) (ignore bs ba : bool) (var : string) (s : trace) : Prop :=
  executes t ignore bs var (edge_actions t ba) s /\ forall i, sys_counts t ba (s i).
(** Systems for which the translations are understood. *)
Definition good_env (t : fts) : Prop :=
  good_fts t /\ forall k cod, In (k, cod) (f_actions t) -> has_word "sys" k -> cod <> [].
