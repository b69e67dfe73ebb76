(** What the inputs of the solvers say, and what is expected of their answers. *)
From Coq Require Import List String Bool ZArith.
From Verif Require Import M_Base M_Parser M_Dict M_Solvers S_LTL S_Gr1c.
Import ListNotations.
Open Scope string_scope.

(** The text, read as a formula, is true at position [i]. *)
Definition true_at (t : string) (s : trace) (i : nat) : Prop := exists e, parse t = Some e /\ holds s i e.

(** What an automaton says about the environment: its initial condition, its action at each
    step, and that no persistence goal is reached; and what it asks of the system. *)
Definition aut_assumes (a : automaton) (s : trace) : Prop :=
  true_at (a_init_env a) s 0 /\ (forall i, true_at (a_action_env a) s i) /\
  forall p, In p (a_persist a) -> ~ exists i, forall j, i <= j -> true_at p s j.
Definition aut_guarantees (a : automaton) (s : trace) : Prop :=
  true_at (a_init_sys a) s 0 /\ (forall i, true_at (a_action_sys a) s i) /\
  forall p, In p (a_recur a) -> forall i, exists j, i <= j /\ true_at p s j.

(** The integers that a variable may have, and the values they stand for. *)
Definition in_range (r : odom) (z : Z) : Prop := match r with OBool => True | ORange a b => (a <= z <= b)%Z end.
Definition value_at (r : odom) (z : Z) : value := match r with OBool => VB (negb (z =? 0)%Z) | ORange _ _ => VZ z end.

(** An answer of omega: a graph whose nodes give a value in range to each declared variable,
    and whose paths from initial nodes meet the automaton. *)
Record omega_answer {N : Type} (a : automaton) (h : @ograph N) : Prop := {
  oa_nodes : NoDup (map fst (og_nodes h));
  oa_edges : NoDup (og_edges h);
  oa_ends : forall u v, In (u, v) (og_edges h) -> In u (map fst (og_nodes h)) /\ In v (map fst (og_nodes h));
  oa_once : forall u d, In (u, d) (og_nodes h) -> NoDup (map fst d);
  oa_values : forall u d x r, In (u, d) (og_nodes h) -> lookup x (a_vars a) = Some r ->
    exists z, lookup x d = Some z /\ in_range r z;
  oa_wins : forall u s, In (u 0) (og_init h) -> (forall i, In (u i, u (S i)) (og_edges h)) ->
    (forall i, exists d, In (u i, d) (og_nodes h) /\
       forall x r, lookup x (a_vars a) = Some r -> exists z, lookup x d = Some z /\ s i x = value_at r z) ->
    aut_assumes a s -> aut_guarantees a s }.

(** The variables of a gr1c document, those of the environment first. *)
Definition as_dom (d : gdom) : odom := match d with GB => OBool | GRange a b => ORange a b end.
Definition doc_vars (d : gr_doc) : list (string * odom) :=
  map (fun kv => (fst kv, as_dom (snd kv))) (d_env d ++ d_sys d).
(** An answer of gr1c, read as JSON: the variables of the document in the same order, nodes with
    a value in range for each, and infinite paths that meet the document. *)
Record gr1c_answer (d : gr_doc) (j : jdoc) : Prop := {
  ga_env : j_env j = map fst (d_env d);
  ga_sys : j_sys j = map fst (d_sys d);
  ga_nodes : NoDup (map fst (j_nodes j));
  ga_trans : forall u n v, In (u, n) (j_nodes j) -> In v (j_trans n) -> In v (map fst (j_nodes j));
  ga_values : forall u n k x r, In (u, n) (j_nodes j) -> nth_error (doc_vars d) k = Some (x, r) ->
    exists z, nth_error (j_state n) k = Some z /\ in_range r z;
  ga_wins : forall u s, (exists n, In (u 0, n) (j_nodes j) /\ j_initial n = Some true) ->
    (forall i, exists n, In (u i, n) (j_nodes j) /\ In (u (S i)) (j_trans n) /\
       forall k x r z, nth_error (doc_vars d) k = Some (x, r) -> nth_error (j_state n) k = Some z -> s i x = value_at r z) ->
    doc_part s (d_ei d) (d_es d) (d_ep d) -> doc_part s (d_si d) (d_ss d) (d_sp d) }.
