(** Model of tulip/synth.py:1258-1655: the specification given to a solver, and the machine made
    from its answer; and of tulip/interfaces/gr1c.py:585-620.

    Simplifications.  The solvers are oracles that map a specification to a strategy or to
    [None]; whether the interface of slugs could be imported is a parameter.  That the solvers
    add to the caches of the specification they are given is left out.  A transition system
    comes with the attributes that the functions look for: [state_varname], [moore], [plus_one]
    and [qinit], each of them possibly missing.  That an argument has the right class is taken
    for granted.  Logging is left out. *)
From Coq Require Import List String Bool ZArith.
From Verif Require Import M_Base M_Spec M_Form M_Dict M_Graph M_Machine M_Strategy M_Synth.
Import ListNotations.
Open Scope string_scope.
Open Scope list_scope.

Record ts : Type := Ts {
  ts_fts : fts; ts_state_varname : option string;
  ts_moore : option bool; ts_plus_one : option bool; ts_qinit : option string }.

Definition with_options (g : grspec) (mo po : bool) (qi : string) : grspec :=
  mkspec (env_vars g) (sys_vars g) (env_init g) (sys_init g) (env_safety g) (sys_safety g)
    (env_prog g) (sys_prog g) mo po qi.
(** synth.py:1640-1655 [_copy_options_from_ts]: [ts_spec] with the options. *)
Definition copy_options (ts_spec : grspec) (t : ts) (specs : grspec) : res grspec :=
  match ts_moore t with
  | None => Ok (with_options ts_spec (moore specs) (plus_one specs) (qinit specs))
  | Some mo => do po <- of_opt "AttributeError" (ts_plus_one t);
               do qi <- of_opt "AttributeError" (ts_qinit t);
               Ok (with_options ts_spec mo po qi)
  end.
(** The initial conditions of the system become conditions on the environment, 1604-1607,
    1625-1628. *)
Definition move_init (g : grspec) : grspec :=
  mkspec (env_vars g) (sys_vars g) (env_init g ++ sys_init g) [] (env_safety g) (sys_safety g)
    (env_prog g) (sys_prog g) (moore g) (plus_one g) (qinit g).
Definition statevar (t : ts) (default : string) : string :=
  match ts_state_varname t with Some x => x | None => default end.

(** synth.py:1578-1636 [_spec_plus_sys]. *)
Definition spec_plus_sys (specs : grspec) (env sys : option ts) (ignore_env_init ignore_sys_init : bool)
  : res grspec :=
  do specs <- match sys with
              | None => Ok specs
              | Some t =>
                  do f <- sys_to_spec (ts_fts t) ignore_sys_init (statevar t "loc") false false;
                  do f <- copy_options f t specs;
                  let f := if (qinit specs =? "\A \A")%string then move_init f else f in
                  spec_or specs f
              end;
  match env with
  | None => Ok specs
  | Some t =>
      do f <- env_to_spec (ts_fts t) ignore_env_init (statevar t "eloc") false false;
      let f := if (qinit specs =? "\A \A")%string then move_init f else f in
      do f <- copy_options f t specs;
      spec_or specs f
  end.

(** The loop of [synthesize_many], synth.py:1326-1342.  A system whose owner is neither 'sys'
    nor 'env' is passed over. *)
Definition many_step (ignore_init : option (list string)) (nt : string * ts) (specs : grspec) : res grspec :=
  do ign <- of_opt "TypeError" ignore_init;
  let ignore := mem (fst nt) ign in
  let t := snd nt in
  if (f_owner (ts_fts t) =? "sys")%string then
    do f <- sys_to_spec (ts_fts t) ignore (fst nt) false false;
    do f <- copy_options f t specs;
    spec_or specs f
  else if (f_owner (ts_fts t) =? "env")%string then
    do f <- env_to_spec (ts_fts t) ignore (fst nt) false false;
    do f <- copy_options f t specs;
    spec_or specs f
  else Ok specs.
Definition spec_plus_many (specs : grspec) (tss : option (list (string * ts))) (ignore_init : option (list string))
  : res grspec :=
  do tss <- of_opt "AssertionError" tss;
  fold_res (many_step ignore_init) tss specs.

Section Synthesize.
  Context {N : Type} (neqb : N -> N -> bool) (sinit : N).
  (** The compiled initial condition of a specification, as in [M_Strategy]. *)
  Context (isinit : grspec -> attrs Z -> res bool).
  Context (gr1c slugs gr1py omega : grspec -> res (option (@strategy N))) (slugs_imported : bool).
  Context (gr1c_check slugs_check gr1py_check omega_check : grspec -> res bool).

  (** networkx updates the graph in place; the machine keeps its ports. *)
  Definition machine_remove_deadends (m : machine N mval) : res (machine N mval) :=
    match remove_deadends neqb (m_graph m) with
    | (g, None) => Ok (Machine (m_vars m) (m_in m) (m_out m) g)
    | (_, Some e) => Err e
    end.

  (** synth.py:1498-1528 [_trim_strategy]. *)
  Definition trim_strategy (A : option strategy) (specs : grspec) (rm_deadends : bool)
    : res (option (machine N mval)) :=
    match A with
    | None => Ok None
    | Some A =>
        do ctrl <- strategy2mealy neqb (isinit specs) sinit (env_vars specs) (sys_vars specs) A;
        if rm_deadends then do m <- machine_remove_deadends ctrl; Ok (Some m) else Ok (Some ctrl)
    end.

  (** synth.py:1466-1495 [_synthesize]. *)
  Definition call_solver (solver : string) (specs : grspec) : res (option strategy) :=
    if (solver =? "gr1c")%string then gr1c specs
    else if (solver =? "slugs")%string then
      if slugs_imported then slugs specs else Err "ValueError"
    else if (solver =? "gr1py")%string then gr1py specs
    else if (solver =? "omega")%string then omega specs
    else Err "ValueError".
  Definition synthesize_spec (specs : grspec) (solver : string) (rm_deadends : bool)
    : res (option (machine N mval)) :=
    do A <- call_solver solver specs;
    trim_strategy A specs rm_deadends.

  (** synth.py:1347-1460 [synthesize]. *)
  Definition synthesize (specs : grspec) (env sys : option ts) (ignore_env_init ignore_sys_init rm_deadends : bool)
      (solver : string) : res (option (machine N mval)) :=
    do specs <- spec_plus_sys specs env sys ignore_env_init ignore_sys_init;
    synthesize_spec specs solver rm_deadends.

  (** synth.py:1258-1344 [synthesize_many]. *)
  Definition synthesize_many (specs : grspec) (tss : option (list (string * ts))) (ignore_init : option (list string))
      (solver : string) : res (option (machine N mval)) :=
    do specs <- spec_plus_many specs tss ignore_init;
    synthesize_spec specs solver true.

  (** synth.py:1533-1575 [is_realizable]. *)
  Definition is_realizable (specs : grspec) (env sys : option ts) (ignore_env_init ignore_sys_init : bool)
      (solver : string) : res bool :=
    do specs <- spec_plus_sys specs env sys ignore_env_init ignore_sys_init;
    if (solver =? "gr1c")%string then gr1c_check specs
    else if (solver =? "slugs")%string then
      if slugs_imported then slugs_check specs else Err "ValueError"
    else if (solver =? "gr1py")%string then gr1py_check specs
    else if (solver =? "omega")%string then omega_check specs
    else Err "ValueError".
End Synthesize.

(** interfaces/gr1c.py:585-620 [select_options]. *)
Definition select_options (g : grspec) : res string :=
  if moore g then Err "AssertionError"
  else if plus_one g then Err "AssertionError"
  else if (qinit g =? "\A \E")%string then Ok "ALL_ENV_EXIST_SYS_INIT"
  else if (qinit g =? "\E \A")%string then Err "ValueError"
  else if (qinit g =? "\A \A")%string then
    match sys_init g with [] => Ok "ONE_SIDE_INIT" | _ => Err "AssertionError" end
  else if (qinit g =? "\E \E")%string then
    match env_init g with [] => Ok "ONE_SIDE_INIT" | _ => Err "AssertionError" end
  else Err "ValueError".
