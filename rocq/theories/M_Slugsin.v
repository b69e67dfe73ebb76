(** Model of the translation to slugs and of the calls of slugs: tulip/spec/translation.py:185-229,
    539-589, 603-636, and tulip/interfaces/slugs.py:60-134.

    Simplifications.  What slugs computes from the text is an oracle: [None] if it reports that
    the specification is unrealizable, otherwise the variables and the nodes of the document it
    prints.  Temporary files, the search for the executable and the failures of the process are
    left out.  Only the call with [symbolic=False], the default, is modelled.  The graph that is
    returned is [M_Slugs.read_strategy]; it has no attribute [initial_nodes], and every node has
    a state once it is read. *)
From Coq Require Import List String Bool ZArith.
From Verif Require Import M_Base M_Ast M_Spec M_Form M_Dict M_Graph M_Machine M_Strategy M_Tree M_Gr1c M_Python M_Slugs S_Python.
Import ListNotations.
Open Scope string_scope.
Open Scope list_scope.

(** translation.py:573-589 [_format_slugs_vars]. *)
Definition slugs_var (kv : string * dom) : res string :=
  match snd kv with
  | DBool => Ok (fst kv)
  | DInt a b => Ok (fst kv ++ ": " ++ str_Z a ++ "..." ++ str_Z b)%string
  | DEnum _ => Err "ValueError"
  end.
Definition format_slugs_vars (vardict : vardecl) (name : string) : res string :=
  do a <- mapr slugs_var vardict;
  Ok ("[" ++ name ++ "]" ++ nl ++ join nl a ++ nl ++ nl)%string.
(** translation.py:558-570 [_slugs_str]. *)
Definition slugs_str (r : list string) (name sep : string) : string :=
  match r with
  | [] => "[" ++ name ++ "]" ++ nl
  | _ :: _ => "[" ++ name ++ "]" ++ nl ++ join (" " ++ sep ++ " ") (filter (fun x => negb (x =? "")) r) ++ nl ++ nl
  end%string.
(** translation.py:630-632 for language slugs: the clauses of one part. *)
Definition slugs_clauses (m : list (string * (node * string))) (l : list string) : res (list string) :=
  mapr (fun x => do bf <- of_opt "KeyError" (lookup x m); gr1c_flatten slugs_opmap false (fst bf)) l.
(** translation.py:539-555 [_to_slugs] and 603-636 [translate] for language slugs. *)
Definition to_slugs (g : grspec) : res string :=
  do _ <- check_syntax g;
  do m <- str_to_int g;
  do ei <- slugs_clauses m (env_init g); do es <- slugs_clauses m (env_safety g); do ep <- slugs_clauses m (env_prog g);
  do si <- slugs_clauses m (sys_init g); do ss <- slugs_clauses m (sys_safety g); do sp <- slugs_clauses m (sys_prog g);
  do ev <- format_slugs_vars (env_vars g) "INPUT"; do sv <- format_slugs_vars (sys_vars g) "OUTPUT";
  Ok (ev ++ sv ++
      slugs_str es "ENV_TRANS" nl ++ slugs_str ep "ENV_LIVENESS" nl ++ slugs_str ei "ENV_INIT" "&" ++
      slugs_str ss "SYS_TRANS" nl ++ slugs_str sp "SYS_LIVENESS" nl ++ slugs_str si "SYS_INIT" "&")%string.

(** The domains as slugs.py:103-105 finds them. *)
Definition sdom_of (d : dom) : sdom := match d with DBool => SBool | DInt a b => SPair a b | DEnum l => SList l end.
Definition svars_of (v : vardecl) : svars := map (fun kd => (fst kd, sdom_of (snd kd))) v.

Section Slugs.
  Context (tool : string -> option (list string * list jnode)).
  (** slugs.py:84-134 [synthesize]. *)
  Definition slugs_synthesize (g : grspec) : res (option (@strategy Z)) :=
    if moore g then Err "AssertionError"
    else if plus_one g then Err "AssertionError"
    else
      do struct <- to_slugs g;
      match tool struct with
      | None => Ok None
      | Some (dvars, nodes) =>
          do h <- read_strategy (svars_of (sys_vars g)) (svars_of (env_vars g)) dvars nodes;
          Ok (Some (Strategy (map (fun n => (fst n, match snd n with Some s => s | None => [] end)) (d_nodes h))
                      (d_edges h) None))
      end.
  (** slugs.py:60-81 [check_realizable] of a specification. *)
  Definition slugs_realizable (g : grspec) : res bool :=
    if moore g then Err "AssertionError"
    else if plus_one g then Err "AssertionError"
    else
      do struct <- to_slugs g;
      Ok (match tool struct with None => false | Some _ => true end).
End Slugs.

(** synth.py:1805, 1817: the compiled initial condition, evaluated on the integers of a node
    ([S_Python] reads and evaluates Python expressions). *)
Definition ints_env (d : attrs Z) : string -> option pyval := fun x => option_map PZ (M_Base.lookup x d).
Definition isinit (g : grspec) (d : attrs Z) : res bool :=
  do text <- compile_init g true;
  match py_eval (ints_env d) text with Some v => Ok (S_Python.truthy v) | None => Err "error" end.
