(** Model of tulip/interfaces/stormpy.py: writing a Markov chain or decision process in the
    language of prism, and reading the models and the answers of stormpy.

    Simplifications.  Numbers are exact rationals (Python: floats).  Files are texts.  stormpy is not
    modelled: what it returns are arguments of the functions below ([smodel], and the functions
    [at] and [choice] of a result).  The sets of states, actions and propositions are enumerated in the
    order of insertion; the theorems hold for every order. *)
From Coq Require Import List String Ascii Bool Arith ZArith QArith Qcanon Qround.
From Verif Require Import M_Base M_Tree.
From Verif Require Import M_Dict M_Graph M_Machine M_Compose.
Import ListNotations.
Open Scope list_scope.
Open Scope string_scope.

(** ** Numbers with four decimals, stormpy.py:291-293: [f'{prob:.4f}']

    The number of ten-thousandths nearest to [q]; the even one of two. *)
Definition round_even (q : Q) : Z :=
  let f := Qfloor q in
  match Qcompare (q - inject_Z f) (1 # 2) with
  | Lt => f
  | Gt => f + 1
  | Eq => if Z.even f then f else f + 1
  end%Z.
Definition zdigit (z : Z) : ascii := digit_char (Z.to_nat (z mod 10)).
Definition decimal4 (n : Z) : string :=
  str_nat (Z.to_nat (n / 10000)) ++ "." ++
  String (zdigit (n / 1000)) (String (zdigit (n / 100)) (String (zdigit (n / 10)) (String (zdigit n) ""))).
Definition fixed4 (q : Qc) : string :=
  let n := round_even (this q * 10000) in
  if Qle_bool 0 q then decimal4 n else "-" ++ decimal4 (round_even (- (this q * 10000))).
Definition prob_str (v : val) : res string :=
  match v with
  | VNum q => Ok (fixed4 q)
  | VStr _ => Err "ValueError"
  | _ => Err "TypeError"
  end.

(** Python's [l.index(x)] *)
Fixpoint index_by {A} (eqb : A -> A -> bool) (x : A) (l : list A) : option nat :=
  match l with
  | [] => None
  | y :: r => if eqb y x then Some O else option_map S (index_by eqb x r)
  end.
Definition newline : string := String "010" "".
Definition quote : string := String """" "".

Section Storm.
  Context {N : Type} (neqb : N -> N -> bool).

  (** stormpy.py:279-290, [get_transition_dict]: the transitions by action, 0 where there is none. *)
  Fixpoint dict_append (a : val) (x : val * N) (d : list (val * list (val * N))) : list (val * list (val * N)) :=
    match d with
    | [] => [(a, [x])]
    | (b, l) :: r => if val_eqb b a then (b, (l ++ [x])%list) :: r else (b, l) :: dict_append a x r
    end.
  (** [d.get(k)] *)
  Definition get (k : string) (d : attrs val) : val := match lookup k d with Some v => v | None => VNone end.
  Definition action_key (e : edge N val) : val :=
    match get "action" (e_attr e) with VNone => VNum 0%Qc | a => a end.
  Definition transition_dict (es : list (edge N val)) : list (val * list (val * N)) :=
    fold_left (fun d e => dict_append (action_key e) (get "probability" (e_attr e), e_dst e) d) es [].

  (** stormpy.py:298-303, [get_state_str]. *)
  Definition state_str (i : nat) (primed : bool) : string := "s" ++ (if primed then "'" else "") ++ "=" ++ str_nat i.
  (** stormpy.py:305-314, [get_transition_str]. *)
  Definition transition_str (states : list N) (l : list (val * N)) : res string :=
    do parts <- mapr (fun t =>
                  do p <- prob_str (fst t);
                  do i <- of_opt "ValueError" (index_by neqb (snd t) states);
                  Ok (p ++ " : (" ++ state_str i true ++ ")")) l;
    Ok (join " + " parts).
  (** stormpy.py:341-351: the commands of one state. *)
  Definition command_str (m : model N) (states : list N) (i : nat) (x : val * list (val * N)) : res string :=
    do act <- match m_kind m with
              | MDP => do k <- of_opt "ValueError" (index_by val_eqb (fst x) (m_actions m)); Ok ("act" ++ str_nat k)
              | _ => Ok ""
              end;
    do t <- transition_str states (snd x);
    Ok ("    [" ++ act ++ "] " ++ state_str i false ++ " -> " ++ t ++ ";" ++ newline).
  Definition state_commands (m : model N) (states : list N) (i : nat) (s : N) : res string :=
    do ts <- find_transitions neqb val_eqb (config_of m) (Some [s]) None [] (m_ts m);
    do l <- mapr (command_str m states i) (transition_dict ts);
    Ok (String.concat "" l).
  (** [enumerate] *)
  Definition enumerate {A} (l : list A) : list (nat * A) := combine (List.seq 0 (List.length l)) l.

  (** stormpy.py:318-324, 354-360: the line of a proposition. *)
  Definition label_str (m : model N) (states : list N) (p : string) : res string :=
    do ls <- mapr (fun s => do l <- label_of neqb m s; Ok (s, mem p l)) states;
    do parts <- mapr (fun s => do i <- of_opt "ValueError" (index_by neqb s states); Ok ("(" ++ state_str i false ++ ")"))
                     (map fst (filter snd ls));
    Ok ("label " ++ quote ++ p ++ quote ++ " = " ++ join "|" parts ++ ";" ++ newline).

  (** stormpy.py:243-360, [to_prism_file]: the text of the file.  What is written before an exception is
      left out. *)
  Definition to_prism (m : model N) : res string :=
    match m_kind m with
    | MC | MDP =>
        let states := node_list (m_ts m) in
        match states, g_init (m_ts m) with
        | _ :: _, [s0] =>
            do init <- of_opt "ValueError" (index_by neqb s0 states);
            do cmds <- mapr (fun x => state_commands m states (fst x) (snd x)) (enumerate states);
            do labels <- mapr (label_str m states) (m_ap m);
            Ok ((match m_kind m with MDP => "mdp" | _ => "dtmc" end) ++
                newline ++ newline ++ "module sys_model" ++ newline ++
                "    s : [0.." ++ str_nat (List.length states - 1) ++ "] init " ++ str_nat init ++ ";" ++ newline ++
                newline ++ String.concat "" cmds ++
                newline ++ "endmodule" ++ newline ++ newline ++ String.concat "" labels)
        | _, _ => Err "ValueError"
        end
    | _ => Err "TypeError"
    end.

  (** ** What stormpy returns

      A state has labels and actions, an action has a text ([str(action)]) and the columns and values
      of its transitions. *)
  Inductive stype := DTMC | SMDP | OtherModel.
  Record saction := SAction { sa_name : string; sa_trans : list (nat * Qc) }.
  Record sstate := SState { ss_labels : list string; ss_actions : list saction }.
  Record smodel := SModel { sm_type : stype; sm_states : list sstate; sm_init : list nat }.

  (** stormpy.py:139-154, [to_tulip_labels]; mathset.py:494-510. *)
  Definition to_tulip_labels (st : sstate) (m : model N) : list string :=
    filter (fun p => mem p (m_ap m)) (ss_labels st).
  Definition same_set (a b : list string) : bool := forallb (fun p => mem p b) a && forallb (fun p => mem p a) b.
  (** stormpy.py:157-181, [to_tulip_state]. *)
  Definition to_tulip_state (st : sstate) (m : model N) : res N :=
    do ls <- mapr (fun s => do l <- label_of neqb m s; Ok (s, same_set l (to_tulip_labels st m))) (node_list (m_ts m));
    match map fst (filter snd ls) with
    | [s] => Ok s
    | _ => Err "ValueError"
    end.

  (** stormpy.py:464-502, [_update_possible_actions_with_transitions]. *)
  Fixpoint remove_first (a : val) (l : list val) : list val :=
    match l with
    | [] => []
    | b :: r => if val_eqb b a then r else b :: remove_first a r
    end.
  Definition far (tol p q : Qc) : bool := negb (Qle_bool (p - q) tol && Qle_bool (q - p) tol).
  Definition check_transition (tol p : Qc) (e : edge N val) (acts : list val) : res (list val) :=
    do q <- match lookup "probability" (e_attr e) with
            | None => Err "KeyError"
            | Some (VNum q) => Ok q
            | Some _ => Err "TypeError"
            end;
    if far tol q p
    then do a <- of_opt "KeyError" (lookup "action" (e_attr e)); Ok (remove_first a acts)
    else Ok acts.
  Definition update_possible (tol : Qc) (sm : smodel) (m : model N) (s : N) (ts : list (nat * Qc)) (acts : list val) : res (list val) :=
    fold_res (fun t acts =>
      do st <- of_opt "IndexError" (nth_error (sm_states sm) (fst t));
      do s' <- to_tulip_state st m;
      do es <- find_transitions neqb val_eqb (config_of m) (Some [s]) (Some [s']) [] (m_ts m);
      fold_res (check_transition tol (snd t)) es acts) ts acts.

  (** stormpy.py:76-107, [get_action_map]. *)
  Definition action_map := list (string * list val).
  Definition tolerance : Qc := Q2Qc (1 # 1000000).
  Definition map_action (sm : smodel) (m : model N) (s : N) (a : saction) (d : action_map) : res action_map :=
    let acts := match lookup (sa_name a) d with Some l => l | None => m_actions m end in
    do acts' <- update_possible tolerance sm m s (sa_trans a) acts;
    Ok (set_item (sa_name a) acts' d).
  Definition map_state (sm : smodel) (m : model N) (st : sstate) (d : action_map) : res action_map :=
    do s <- to_tulip_state st m;
    fold_res (map_action sm m s) (ss_actions st) d.
  (** A Markov chain has no attribute [actions]: AttributeError at the first action. *)
  Definition get_action_map (sm : smodel) (m : model N) : res action_map :=
    match m_kind m with
    | MDP => fold_res (map_state sm m) (sm_states sm) []
    | _ => if existsb (fun st => match ss_actions st with [] => false | _ => true end) (sm_states sm)
           then Err "AttributeError" else do _ <- mapr (fun st => to_tulip_state st m) (sm_states sm); Ok []
    end.
  (** stormpy.py:110-133, [to_tulip_action], with a given map. *)
  Definition to_tulip_action (name : string) (d : action_map) : res val :=
    match lookup name d with
    | None => Err "KeyError"
    | Some [] => Err "ValueError"
    | Some (a :: _) => Ok a
    end.

  (** A function on states, transys/mathfunc.py:270-301 with the one key "state": see M_Func. *)
  Definition table (A : Type) := list (N * (A * list string)).
  Fixpoint table_add {A} (s : N) (x : A) (l : list string) (t : table A) : table A :=
    match t with
    | [] => [(s, (x, l))]
    | (s', y) :: r => if neqb s' s then (s', (x, l)) :: r else (s', y) :: table_add s x l r
    end.
  Fixpoint table_get {A} (s : N) (t : table A) : option A :=
    match t with
    | [] => None
    | (s', y) :: r => if neqb s' s then Some (fst y) else table_get s r
    end.
  (** stormpy.py:445-461, [_extract_probability]; [at i] is the result for state [i]. *)
  Definition extract_probability {A} (at_state : nat -> A) (sm : smodel) (m : model N) : res (table A) :=
    fold_res (fun x t => do s <- to_tulip_state (snd x) m; Ok (table_add s (at_state (fst x)) [] t))
             (enumerate (sm_states sm)) [].
  (** stormpy.py:418-442, [_extract_policy]; [choice i] is the text of the choice in state [i]. *)
  Definition extract_policy (choice : option (nat -> string)) (sm : smodel) (m : model N) : res (table val) :=
    match choice with
    | None => Err "ValueError"
    | Some ch =>
        do d <- get_action_map sm m;
        fold_res (fun x t => do s <- to_tulip_state (snd x) m;
                             do a <- to_tulip_action (ch (fst x)) d;
                             Ok (table_add s a (to_tulip_labels (snd x) m) t))
                 (enumerate (sm_states sm)) []
    end.
  (** stormpy.py:363-415, [model_checking]; [storm] parses and builds the model of a text, [check]
      checks it, with the policy if it is asked for. *)
  Definition model_checking {A} (storm : string -> res smodel)
      (check : string -> smodel -> bool -> res ((nat -> A) * option (nat -> string)))
      (m : model N) (formula : string) (policy : bool) : res (table A * option (table val)) :=
    match m_kind m with
    | MC | MDP =>
        do text <- to_prism m;
        do sm <- storm text;
        do r <- check formula sm policy;
        do prob <- extract_probability (fst r) sm m;
        if policy then do p <- extract_policy (snd r) sm m; Ok (prob, Some p) else Ok (prob, None)
    | _ => Err "TypeError"
    end.
End Storm.

(** stormpy.py:184-240, [to_tulip_transys]. *)
Definition storm_name (i : nat) : string := "s" ++ str_nat i.
Definition neglected : list string := ["init"; "deadlock"].
Definition add_new (p : string) (l : list string) : list string := if mem p l then l else (l ++ [p])%list.
Definition add_new_val (a : val) (l : list val) : list val := if vmem a l then l else (l ++ [a])%list.
Definition read_transition (k : kind) (i : nat) (name : string) (t : nat * Qc) (m : model string) : res (model string) :=
  let d := ("probability", VNum (snd t)) :: match k with MDP => [("action", VStr name)] | _ => [] end in
  do g <- add_edge String.eqb val_eqb (config_of m) (storm_name i) (storm_name (fst t)) None d true (m_ts m);
  Ok (Model k (m_ap m) (m_actions m) g).
Definition read_action (k : kind) (i : nat) (a : saction) (m : model string) : res (model string) :=
  let acts := match k with MDP => add_new_val (VStr (sa_name a)) (m_actions m) | _ => m_actions m end in
  fold_res (read_transition k i (sa_name a)) (sa_trans a) (Model k (m_ap m) acts (m_ts m)).
Definition read_state (k : kind) (x : nat * sstate) (m : model string) : res (model string) :=
  let ap := filter (fun p => negb (mem p neglected)) (ss_labels (snd x)) in
  do g <- set_ap String.eqb (storm_name (fst x)) (VSet ap) (m_ts m);
  fold_res (read_action k (fst x)) (ss_actions (snd x))
    (Model k (fold_left (fun l p => add_new p l) ap (m_ap m)) (m_actions m) g).
Definition to_tulip_transys (sm : smodel) : res (model string) :=
  match sm_type sm with
  | OtherModel => Err "ValueError"
  | t =>
      let k := match t with DTMC => MC | _ => MDP end in
      let c0 := model_config k [] [] in
      do g1 <- fold_res (fun i => add_node String.eqb c0 (storm_name i) [] true)
                        (List.seq 0 (List.length (sm_states sm))) empty_graph;
      do g2 <- fold_res (fun i => add_initial String.eqb (storm_name i)) (sm_init sm) g1;
      fold_res (read_state k) (enumerate (sm_states sm)) (Model k [] [] g2)
  end.
