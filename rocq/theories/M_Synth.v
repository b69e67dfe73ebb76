(** Model of the translation of transition systems to GR(1) specifications,
    tulip/synth.py:86-434, 437-446, 502-1188. *)
From Coq Require Import List String Ascii ZArith Bool.
From Verif Require Import M_Base M_Ast M_Lexer M_Parser M_Spec M_Form M_Tree M_Gr1c.
Import ListNotations.
Open Scope string_scope.
Open Scope list_scope.

(** States and action values are integers or strings (synth.py:267 annotation). *)
Inductive sval : Type := SInt (z : Z) | SStr (s : string).
Definition sval_eqb (a b : sval) : bool :=
  match a, b with
  | SInt x, SInt y => (x =? y)%Z
  | SStr x, SStr y => (x =? y)%string
  | _, _ => false
  end.
Definition smem (x : sval) (l : list sval) : bool := existsb (sval_eqb x) l.
(** Python's [str(x)]. *)
Definition sval_text (v : sval) : string := match v with SInt z => str_Z z | SStr s => s end.
Definition is_str (v : sval) : bool := match v with SStr _ => true | SInt _ => false end.
Definition is_int (v : sval) : bool := match v with SInt _ => true | SStr _ => false end.

(** A dictionary keyed by values: solver expressions of states or actions. *)
Definition ids := list (sval * string).
Fixpoint ids_get (v : sval) (d : ids) : option string :=
  match d with
  | [] => None
  | (k, x) :: r => if sval_eqb v k then Some x else ids_get v r
  end.

(** Python's [a in b] on strings: substring test. *)
Fixpoint contains (a b : string) : bool :=
  String.prefix a b || match b with EmptyString => false | String _ r => contains a r end.

(** synth.py:86-145. *)
Definition pstr (s : string) : string := ("(" ++ s ++ ")")%string.
Definition nonempty (s : string) : bool := negb (s =? "")%string.
Definition disj (l : list string) : string := join " || " (map pstr l).
Definition conj (l : list string) : string := join " && " (map pstr (filter nonempty l)).
Definition conj_intersection (l l1 : list string) (parenth : bool) : string :=
  let c := filter (fun x => mem x l1) l in
  join " && " (if parenth then map pstr c else c).
Definition conj_neg (l : list string) (parenth : bool) : string :=
  join " && " (map (fun x => if parenth then ("!(" ++ x ++ ")")%string else ("!" ++ x)%string) l).
Definition conj_neg_diff (l l1 : list string) (parenth : bool) : string :=
  let c := filter (fun x => negb (mem x l1)) l in
  let c := if parenth then map pstr c else c in
  join " && " (map (fun x => ("!" ++ x)%string) c).

(** synth.py:148-155. *)
Definition mutex (it : list string) : list string :=
  let it := filter nonempty it in
  match it with
  | [] | [_] => []
  | _ => [conj (map (fun x => ("!(" ++ x ++ ") || (" ++ conj_neg_diff it [x] true ++ ")")%string) it)]
  end.
(** synth.py:158-171. *)
Definition exactly_one (it : list string) : list string :=
  match it with
  | [] | [_] => map pstr it
  | _ => [("(" ++ disj (map (fun x => ("(" ++ x ++ ") && " ++ conj_neg_diff it [x] true)%string) it) ++ ")")%string]
  end.

(** An edge label: action types with values; the entry 'previous' (synth.py:900-903) is kept
    separately. *)
Definition label := list (string * sval).

(** synth.py:174-217, as called with ids=None. *)
Definition conj_action (l : label) (action_type : string) (nxt : bool) : string :=
  match lookup action_type l with
  | None => ""
  | Some a => match a with
              | SStr "" => ""
              | _ => if nxt then (" X" ++ pstr (sval_text a))%string else pstr (sval_text a)
              end
  end.
(** synth.py:220-258, with a dictionary of dictionaries [solver_expr]. *)
Definition conj_actions (l : label) (solver_expr : list (string * ids)) (nxt : bool) : res string :=
  match l with
  | [] => Ok ""
  | _ => do acts <- mapr (fun kv => do d <- of_opt "KeyError" (lookup (fst kv) solver_expr);
                                    of_opt "KeyError" (ids_get (snd kv) d)) l;
         let c := conj acts in
         Ok (if nxt then (" X" ++ pstr c)%string else pstr c)
  end.

Inductive must : Type := Mutex | Xor.
Definition zmin (l : list Z) : Z := match l with [] => 0 | x :: r => fold_left Z.min r x end%Z.
Definition zmax (l : list Z) : Z := match l with [] => 0 | x :: r => fold_left Z.max r x end%Z.
Definition ints (l : list sval) : list Z := flat_map (fun v => match v with SInt z => [z] | _ => [] end) l.
Definition strs (l : list sval) : list string := flat_map (fun v => match v with SStr z => [z] | _ => [] end) l.

(** synth.py:266-434: the declared variables, the identifiers of the values, the constraint.
    [states] is a collection without repetitions, in iteration order. *)
Definition iter2var (states : list sval) (variables : vardecl) (statevar : string)
    (bool_states : bool) (mu : option must) : res (vardecl * ids * option string) :=
  match states with
  | [] => Ok (variables, [], None)
  | _ =>
    let min_one := match mu with Some Xor => true | _ => false end in
    let bool_states := match mu with None => true | _ => bool_states end in
    if bool_states then
      if negb (forallb is_str states) then Err "TypeError"
      else
        let texts := map sval_text states in
        let state_ids := combine states texts in
        let variables := dupdate variables (map (fun s => (s, DBool)) texts) in
        match mutex texts with
        | [] => Ok (variables, state_ids, None)
        | m :: _ =>
            match mu with
            | Some Mutex => Ok (variables, state_ids, Some m)
            | Some Xor => match exactly_one texts with
                          | x :: _ => Ok (variables, state_ids, Some x)
                          | [] => Err "IndexError"
                          end
            | None => Ok (variables, state_ids, Some "True")
            end
        end
    else if has statevar variables then Err "ValueError"
    else if forallb is_int states then
      let n := if min_one then zmax (ints states) else (zmax (ints states) + 1)%Z in
      Ok (dset statevar (DInt (zmin (ints states)) n) variables,
          map (fun x => (x, (statevar ++ " = " ++ sval_text x)%string)) states, None)
    else if forallb is_str states then
      Ok (dset statevar (DEnum (strs states ++ if min_one then [] else [(statevar ++ "none")%string])) variables,
          map (fun x => (x, (statevar ++ " = " ++ String dquote (sval_text x ++ String dquote ""))%string)) states, None)
    else Err "TypeError"
  end.

(** synth.py:437-446: what is added to init and to trans. *)
Definition add_actions (c : option string) (init trans : list string) : list string * list string :=
  match c with
  | None => (init, trans)
  | Some x => (init ++ [x], trans ++ [("X (" ++ x ++ ")")%string])
  end.

(** A finite transition system as read by sys_to_spec and env_to_spec. *)
Record edge : Type := { e_from : sval; e_to : sval; e_label : label; e_prev : list string }.
Record fts : Type := {
  f_nodes : list (sval * option (list string));   (** states in order, with the label 'ap' if present *)
  f_initial : list sval;
  f_aps : list string;
  f_actions : list (string * list sval);          (** action types with their codomains *)
  f_sys_must : option must; f_env_must : option must;
  f_trans : list edge;
  f_owner : string }.
Definition f_states (t : fts) : list sval := map fst (f_nodes t).

(** tulip/transys/labeled_graphs.py [Transitions.find] with one source state and no labels. *)
Definition find_from (tr : list edge) (q : sval) : list edge :=
  filter (fun e => sval_eqb (e_from e) q) tr.

(** synth.py:781-808. *)
Definition init_from_ts (initial : list sval) (sid : ids) (ignore : bool) : res (list string) :=
  if ignore then Ok []
  else match initial with
       | [] => Err "Exception"
       | _ => do l <- mapr (fun q => of_opt "KeyError" (ids_get q sid)) initial; Ok [disj l]
       end.

Definition with_key (w : string) (l : label) : label := filter (fun kv => contains w (fst kv)) l.
Definition in_prev (p : list string) (l : label) : label := filter (fun kv => mem (fst kv) p) l.
Definition not_prev (p : list string) (l : label) : label := filter (fun kv => negb (mem (fst kv) p)) l.

(** synth.py:893-966: the condition for taking one transition. *)
Definition sys_guard (sid : ids) (sai eai : list (string * ids)) (e : edge) : res string :=
  do to <- of_opt "KeyError" (ids_get (e_to e) sid);
  let env := with_key "env" (e_label e) in
  let sys := with_key "sys" (e_label e) in
  do pe <- conj_actions (in_prev (e_prev e) env) eai false;
  do ne <- conj_actions (not_prev (e_prev e) env) eai true;
  do ps <- conj_actions (in_prev (e_prev e) sys) sai false;
  do ns <- conj_actions (not_prev (e_prev e) sys) sai true;
  Ok (conj [("X" ++ pstr to)%string; pe; ne; ps; ns;
            conj_action (e_label e) "actions" (negb (mem "actions" (e_prev e)))]).
(** synth.py:811-975. *)
Definition sys_trans_from_ts (states : list sval) (sid : ids) (tr : list edge)
    (sai eai : list (string * ids)) : res (list string) :=
  mapr (fun q =>
    do x <- of_opt "KeyError" (ids_get q sid);
    match find_from tr q with
    | [] => Ok (pstr x ++ " -> X(False)")%string
    | cur => do gs <- mapr (sys_guard sid sai eai) cur; Ok (pstr x ++ " -> (" ++ disj gs ++ ")")%string
    end) states.

(** synth.py:978-1042. *)
Fixpoint concatr {A B} (f : A -> res (list B)) (l : list A) : res (list B) :=
  match l with
  | [] => Ok []
  | x :: r => do y <- f x; do ys <- concatr f r; Ok (y ++ ys)
  end.
Definition env_trans_from_sys_ts (states : list sval) (sid : ids) (tr : list edge)
    (eai : list (string * ids)) : res (list string) :=
  match eai with
  | [] => Ok []
  | _ =>
    concatr (fun q =>
      do x <- of_opt "KeyError" (ids_get q sid);
      do combs <- concatr (fun e => match with_key "env" (e_label e) with
                                    | [] => Ok []
                                    | env => do c <- conj_actions env eai false; Ok [c]
                                    end) (find_from tr q);
      let d := disj (dedup combs) in
      Ok (if (d =? "")%string then [] else [(pstr x ++ " -> X(" ++ d ++ ")")%string])) states
  end.

(** synth.py:1082-1105: the condition for taking one transition of an environment. *)
Definition env_guard (sid : ids) (sai eai : list (string * ids)) (e : edge) : res string :=
  do to <- of_opt "KeyError" (ids_get (e_to e) sid);
  do ne <- conj_actions (with_key "env" (e_label e)) eai true;
  do ps <- conj_actions (with_key "sys" (e_label e)) sai false;
  Ok (conj [("X" ++ pstr to)%string; ne; ps; conj_action (e_label e) "actions" true]).
(** synth.py:1045-1133. *)
Definition env_trans_from_env_ts (states : list sval) (sid : ids) (tr : list edge)
    (sai eai : list (string * ids)) : res (list string) :=
  mapr (fun q =>
    do x <- of_opt "KeyError" (ids_get q sid);
    match find_from tr q with
    | [] => Ok (pstr x ++ " -> X(False)")%string
    | cur =>
        do gs <- mapr (env_guard sid sai eai) cur;
        let found_free := existsb (fun e => match with_key "sys" (e_label e) with [] => true | _ => false end) cur in
        let more := if found_free then []
                    else map (fun kv => conj_neg (map snd (snd kv)) true) sai in
        Ok (pstr (pstr x) ++ " -> (" ++ disj (gs ++ more) ++ ")")%string
    end) states.

(** synth.py:1169-1188. *)
Definition sprint_aps (lab : option (list string)) (aps : list string) : string :=
  let tmp0 := match lab with Some ap => conj_intersection aps ap false | None => "" end in
  let tmp1 := match lab with Some ap => conj_neg_diff aps ap false | None => conj_neg aps false end in
  if nonempty tmp0 && nonempty tmp1 then (tmp0 ++ " && " ++ tmp1)%string else (tmp0 ++ tmp1)%string.
(** synth.py:1136-1166. *)
Definition ap_trans_from_ts (nodes : list (sval * option (list string))) (sid : ids) (aps : list string)
    : res (list string * list string) :=
  match aps with
  | [] => Ok ([], [])
  | _ =>
    do init <- concatr (fun n => do x <- of_opt "KeyError" (ids_get (fst n) sid);
                                 let a := sprint_aps (snd n) aps in
                                 Ok (if nonempty a then [("!(" ++ pstr x ++ ") || (" ++ a ++ ")")%string] else [])) nodes;
    do trans <- concatr (fun n => do x <- of_opt "KeyError" (ids_get (fst n) sid);
                                  let a := sprint_aps (snd n) aps in
                                  Ok (if nonempty a then [("X((" ++ x ++ ") -> (" ++ a ++ "))")%string] else [])) nodes;
    Ok (init, trans)
  end.

(** The loop over action types, synth.py:602-636 and 717-750: variables, initial conditions,
    transition constraints and identifiers of the two players. *)
Record acts : Type := mkacts {
  a_sv : vardecl; a_ev : vardecl; a_si : list string; a_st : list string;
  a_ei : list string; a_et : list string; a_sids : list (string * ids); a_eids : list (string * ids) }.
Definition action_step (t : fts) (ba : bool) (a : acts) (kc : string * list sval) : res acts :=
  let (k, cod) := kc in
  if existsb (fun v => match v with SStr s => mem s (f_aps t) | _ => false end) cod
     || existsb (fun v => smem v (f_states t)) cod
     || smem (SStr k) (f_states t) || mem k (f_aps t) then Err "AssertionError"
  else if contains "sys" k then
    do (v, i, c) <- iter2var cod (a_sv a) k ba (f_sys_must t);
    let (init, trans) := add_actions c (a_si a) (a_st a) in
    Ok (mkacts v (a_ev a) init trans (a_ei a) (a_et a) (dset k i (a_sids a)) (a_eids a))
  else if contains "env" k then
    do (v, i, c) <- iter2var cod (a_ev a) k ba (f_env_must t);
    let (init, trans) := add_actions c (a_ei a) (a_et a) in
    Ok (mkacts (a_sv a) v (a_si a) (a_st a) init trans (a_sids a) (dset k i (a_eids a)))
  else Ok a.
Fixpoint foldr {A B} (f : A -> B -> res A) (l : list B) (a : A) : res A :=
  match l with
  | [] => Ok a
  | x :: r => do a' <- f a x; foldr f r a'
  end.

(** synth.py:502-660. *)
Definition sys_to_spec (t : fts) (ignore : bool) (statevar : string) (bs ba : bool) : res grspec :=
  if negb (f_owner t =? "sys")%string then Err "AssertionError"
  else if existsb (fun a => smem (SStr a) (f_states t)) (f_aps t) then Err "AssertionError"
  else
    do a <- foldr (action_step t ba) (f_actions t)
              (mkacts (map (fun p => (p, DBool)) (f_aps t)) [] [] [] [] [] [] []);
    do (sv, sid, c) <- iter2var (f_states t) (a_sv a) statevar bs (Some Xor);
    let st := match c with Some x => a_st a ++ [x] | None => a_st a end in
    do i <- init_from_ts (f_initial t) sid ignore;
    do tr <- sys_trans_from_ts (f_states t) sid (f_trans t) (a_sids a) (a_eids a);
    do (ai, at_) <- ap_trans_from_ts (f_nodes t) sid (f_aps t);
    do et <- env_trans_from_sys_ts (f_states t) sid (f_trans t) (a_eids a);
    new_spec (a_ev a) sv (CList (a_ei a)) (CList (a_si a ++ i ++ ai)) (CList (a_et a ++ et))
      (CList (st ++ tr ++ at_)) (CStr "") (CStr "") true true "\A \A".

(** synth.py:663-778. *)
Definition env_to_spec (t : fts) (ignore : bool) (statevar : string) (bs ba : bool) : res grspec :=
  if negb (f_owner t =? "env")%string then Err "AssertionError"
  else if existsb (fun a => smem (SStr a) (f_states t)) (f_aps t) then Err "AssertionError"
  else
    do a <- foldr (action_step t ba) (f_actions t)
              (mkacts [] (map (fun p => (p, DBool)) (f_aps t)) [] [] [] [] [] []);
    do (ev, sid, c) <- iter2var (f_states t) (a_ev a) statevar bs (Some Xor);
    let et := match c with Some x => a_et a ++ [x] | None => a_et a end in
    do i <- init_from_ts (f_initial t) sid ignore;
    do tr <- env_trans_from_env_ts (f_states t) sid (f_trans t) (a_sids a) (a_eids a);
    do (ai, at_) <- ap_trans_from_ts (f_nodes t) sid (f_aps t);
    new_spec ev (a_sv a) (CList (a_ei a ++ i ++ ai)) (CList (a_si a)) (CList (et ++ tr ++ at_))
      (CList (a_st a)) (CStr "") (CStr "") true true "\A \A".
