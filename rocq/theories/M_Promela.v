(** Model of tulip/transys/export/graph2promela.py and of the export to Promela at tulip/transys/transys.py:672-702.

    Transition systems are those of [M_Fts]; the name of the system, the text of the date and the text of a dictionary that is
    not empty are parameters.  [True] is the number 1, as in [M_Fts].  Printing to the screen is left out. *)
From Coq Require Import List String Ascii Bool Arith ZArith.
From Verif Require Import M_Tree M_Base M_Gr1c M_Dict M_Graph M_Machine M_Fts.
Import ListNotations.
Open Scope string_scope.
Open Scope list_scope.

Section Promela.
  Variable show_dict : attrs pv -> string.   (* f'{d}' *)
  Variable date : string.                    (* time.strftime('%x %X %z') *)
  Variable graph_name : string.              (* graph.name *)

  Definition nl : string := String "010" "".
  Definition tab : string := String "009" "".
  Definition dict_str (d : attrs pv) : string := match d with [] => "{}" | _ => show_dict d end.
  (** graph2promela.py:107-112 [get_label_of], with [States.find] (labeled_graphs.py:387-418) for one state *)
  Definition get_label_of (s : obj) (g : graph obj pv) : res pv :=
    match filter (fun na => obj_eqb (fst na) s) (g_nodes g) with
    | [] => Err "IndexError"
    | (_, a) :: _ => match lookup "ap" a with Some v => Ok v | None => Err "KeyError" end
    end.
  (** Python [sub in s] for texts *)
  Fixpoint part (p s : string) : bool := String.prefix p s || match s with EmptyString => false | String _ r => part p r end.
  (** [prop in ap_label] *)
  Definition in_label (p : obj) (v : pv) : res bool :=
    match v, p with
    | PvSet l, OStr s => Ok (mem s l)
    | PvSet _, _ => Ok false
    | PvStr t, OStr s => Ok (part s t)
    | PvPair o (PvStr t), _ => Ok (obj_eqb p o || obj_eqb p (OStr t))
    | PvPair o PvNone, _ => Ok (obj_eqb p o || obj_eqb p ONone)
    | PvPair o _, _ => Ok (obj_eqb p o)
    | _, _ => Err "TypeError"
    end.
  (** graph2promela.py:71-88 [state_ap2promela] *)
  Definition state_ap2promela (s : obj) (ap : list obj) (g : graph obj pv) : res string :=
    do v <- get_label_of s g;
    do l <- mapr (fun p => if obj_eqb p (OInt 1) then Ok ""
                           else do b <- in_label p v;
                                Ok (tab ++ tab ++ " " ++ str_obj p ++ (if b then " = 1;" else " = 0;") ++ nl)%string) ap;
    Ok (String.concat "" l ++ tab ++ tab ++ " printf(""State: " ++ str_obj s ++ "\n"");" ++ nl ++ tab ++ nl)%string.
  (** graph2promela.py:90-106 [trans2promela] *)
  Definition trans2promela (es : list (edge obj pv)) (ap : list obj) (g : graph obj pv) : res string :=
    do l <- mapr (fun e => do a <- state_ap2promela (e_dst e) ap g;
                           Ok (tab ++ " :: atomic{" ++ nl ++ tab ++ tab ++ " printf(""" ++ dict_str (e_attr e) ++ "\n"");" ++ nl ++ a ++
                               tab ++ tab ++ " goto " ++ str_obj (e_dst e) ++ nl ++ tab ++ " }" ++ nl)%string) es;
    Ok (tab ++ " if" ++ nl ++ String.concat "" l ++ tab ++ " fi;" ++ nl ++ nl)%string.
  (** [str.replace(' ', '_')] *)
  Fixpoint underscore (s : string) : string :=
    match s with EmptyString => "" | String c r => String (if Ascii.eqb c " " then "_" else c) (underscore r) end.
  (** graph2promela.py:39-137 [fts2promela].  [Transitions.find] has no parameter [as_dict] (129-131): it is taken for a label that the
      transitions are to have. *)
  Definition fts2promela (ts : fts) (c : config pv) (procname : option string) : res string :=
    let g := f_graph ts in
    let name := match procname with Some n => n | None => graph_name end in
    do body <- mapr (fun na =>
        do out <- find_transitions obj_eqb pv_eqb c (Some [fst na]) None [("as_dict", PvPair (OInt 1) PvNone)] g;
        do t <- trans2promela out (f_ap ts) g;
        Ok (underscore (str_obj (fst na)) ++ ":" ++ t)%string) (g_nodes g);
    Ok ("/*" ++ nl ++ " * Promela file generated with TuLiP" ++ nl ++ " * Date: " ++ date ++ nl ++ " */" ++ nl ++ nl ++
        String.concat "" (map (fun p => if obj_eqb p ONone || obj_eqb p (OInt 1) then "" else "bool " ++ str_obj p ++ ";" ++ nl) (f_ap ts)) ++
        nl ++ "active proctype " ++ name ++ "(){" ++ nl ++ tab ++ " if" ++ nl ++
        String.concat "" (map (fun s => tab ++ " :: goto " ++ str_obj s ++ nl) (g_init g)) ++
        tab ++ " fi;" ++ nl ++ String.concat "" body ++ "}" ++ nl)%string.
  (** transys.py:672-702 [_save].  Neither the class nor those it is derived from have an attribute [env_vars]. *)
  Definition save (fileformat : string) : res bool :=
    if mem fileformat ["promela"; "Promela"; "pml"] then Err "AttributeError" else Ok false.
End Promela.
