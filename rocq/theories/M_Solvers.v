(** Model of the interfaces to solvers: tulip/interfaces/omega.py:33-77, 112-191,
    tulip/interfaces/gr1c.py:415-452, 482-582 and tulip/interfaces/gr1py.py:54-105.

    Simplifications.  What omega, gr1c and gr1py compute is an oracle.  The texts given to omega
    are kept as texts: that omega turns them into decision diagrams is left out, and so is that
    it rejects texts it cannot read.  A document of gr1c is taken after reading it as JSON: its
    version, the names in its tables of symbols (each entry of a table is a dictionary, and only
    its first key is used later) and its nodes.  Other attributes of nodes are left out.  An edge
    to a node that is not a key of the document makes networkx add a node without a state; here
    it is only an edge.  Whether the packages are installed, time measurements, logging and
    printing are left out. *)
From Coq Require Import List String Bool ZArith.
From Verif Require Import M_Base M_Ast M_Spec M_Form M_Dict M_Graph M_Machine M_Strategy M_Tree M_Gr1c M_Synthesize.
Import ListNotations.
Open Scope string_scope.
Open Scope list_scope.

(** * omega *)
Inductive odom := OBool | ORange (a b : Z).
(** The attributes of [omega.symbolic.temporal.Automaton] that are written. *)
Record automaton := Automaton {
  a_vars : list (string * odom); a_env : list string; a_sys : list string;
  a_init_env : string; a_init_sys : string; a_action_env : string; a_action_sys : string;
  a_persist : list string; a_recur : list string;
  a_moore : bool; a_plus_one : bool; a_qinit : string }.

(** omega.py:143-154. *)
Definition omega_dom (d : dom) : odom :=
  match d with
  | DBool => OBool
  | DInt a b => ORange a b
  | DEnum l => ORange 0 (Z.of_nat (List.length l) - 1)
  end.
(** [g._bool_int.__getitem__], omega.py:161. *)
Definition bool_int (m : list (string * (node * string))) (x : string) : res string :=
  do bf <- of_opt "KeyError" (lookup x m); Ok (snd bf).
(** omega.py:183-191 [_conj]. *)
Definition conj_text (m : list (string * (node * string))) (l : list string) : res string :=
  match l with
  | [] => Ok "TRUE"
  | _ => do ts <- mapr (bool_int m) l; Ok (join " & " ts)
  end.
(** omega.py:132-180 [_grspec_to_automaton]. *)
Definition to_automaton (g : grspec) : res automaton :=
  let d := map (fun kv => (fst kv, omega_dom (snd kv))) (dupdate (env_vars g) (sys_vars g)) in
  do m <- str_to_int g;
  do ie <- conj_text m (env_init g); do is <- conj_text m (sys_init g);
  do ae <- conj_text m (env_safety g); do as_ <- conj_text m (sys_safety g);
  do w1 <- match env_prog g with
           | [] => Ok ["FALSE"]
           | l => do ts <- mapr (bool_int m) l; Ok (map (fun s => "!(" ++ s ++ ")")%string ts)
           end;
  do w2 <- match sys_prog g with [] => Ok ["TRUE"] | l => mapr (bool_int m) l end;
  Ok (Automaton d (map fst (env_vars g)) (map fst (sys_vars g)) ie is ae as_ w1 w2
        (moore g) (plus_one g) (qinit g)).

Section Omega.
  Context {N : Type}.
  (** The enumerated graph: attributes of nodes, edges and initial nodes. *)
  Record ograph := OGraph { og_nodes : list (N * attrs Z); og_edges : list (N * N); og_init : list N }.
  (** omega.py:112-129 [_strategy_to_state_annotated]. *)
  Definition state_annotated (g : ograph) (aut : automaton) : @strategy N :=
    Strategy (map (fun ud => (fst ud, filter (fun kv => mem (fst kv) (map fst (a_vars aut))) (snd ud))) (og_nodes g))
      (og_edges g) (Some (og_init g)).

  (** [solve] is the solver with the enumeration of its strategy, [None] for an unrealizable
      automaton; [is_false] tells whether the action is the constant false. *)
  Context (solve : automaton -> option ograph) (is_false : automaton -> string -> bool).
  (** omega.py:48-77 [synthesize_enumerated_streett]. *)
  Definition omega_synthesize (g : grspec) : res (option (@strategy N)) :=
    do aut <- to_automaton g;
    if is_false aut (a_action_sys aut) then Err "AssertionError"
    else match solve aut with
         | None => Ok None
         | Some h => Ok (Some (state_annotated h aut))
         end.
  (** omega.py:33-45 [is_realizable]. *)
  Definition omega_realizable (g : grspec) : res bool :=
    do aut <- to_automaton g;
    Ok (match solve aut with None => false | Some _ => true end).
End Omega.

(** * gr1c and gr1py *)
Record jnode := JNode { j_initial : option bool; j_state : list Z; j_trans : list string }.
Record jdoc := JDoc { j_version : Z; j_env : list string; j_sys : list string; j_nodes : list (string * jnode) }.

(** gr1c.py:442-445: the values in the order of the symbols. *)
Fixpoint pair_values (symtab : list string) (st : list Z) : res (list (string * Z)) :=
  match symtab, st with
  | [], _ => Ok []
  | x :: r, z :: q => do l <- pair_values r q; Ok ((x, z) :: l)
  | _ :: _, [] => Err "IndexError"
  end.
(** gr1c.py:440-448: a node with its state, and whether it is initial. *)
Definition load_node (symtab : list string) (nd : string * jnode) : res ((string * attrs Z) * bool) :=
  do l <- pair_values symtab (j_state (snd nd));
  do b <- of_opt "KeyError" (j_initial (snd nd));
  Ok ((fst nd, dupdate [] l), b).
(** [A.add_edge] of networkx: an edge is there once. *)
Definition join_edge (l : list (string * string)) (e : string * string) : list (string * string) :=
  if existsb (fun f => (fst f =? fst e)%string && (snd f =? snd e)%string) l then l else l ++ [e].
(** gr1c.py:415-452 [load_aut_json]. *)
Definition load_aut_json (j : jdoc) : res (@strategy string) :=
  if negb (j_version j =? 1)%Z then Err "ValueError"
  else
    do ns <- mapr (load_node (j_env j ++ j_sys j)) (j_nodes j);
    let edges := flat_map (fun nd => map (fun v => (fst nd, v)) (j_trans (snd nd))) (j_nodes j) in
    Ok (Strategy (map fst ns) (fold_left join_edge edges [])
          (Some (map (fun n => fst (fst n)) (filter snd ns)))).

Section Gr1c.
  (** The tool, given the option about initial values and the text: [None] if it fails or the
      specification is unrealizable. *)
  Context (tool : string -> string -> option jdoc) (tool_realizable : string -> string -> bool).
  (** gr1c.py:520-582 [synthesize]; gr1py.py:74-90 [synthesize] calls a library with the same
      option and text and reads its answer with the same function. *)
  Definition gr1c_synthesize (g : grspec) : res (option (@strategy string)) :=
    do o <- select_options g;
    do s <- to_gr1c g;
    match tool o s with
    | None => Ok None
    | Some j => do A <- load_aut_json j; Ok (Some A)
    end.
  (** gr1c.py:482-512 [check_realizable]; gr1py.py:54-71 likewise. *)
  Definition gr1c_realizable (g : grspec) : res bool :=
    do o <- select_options g;
    do s <- to_gr1c g;
    Ok (tool_realizable o s).
End Gr1c.
