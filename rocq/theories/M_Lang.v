(** Model of the translations to JTLV, Wring, SMV and Promela, tulip/spec/translation.py:70-124, 230-312,
    383-430, 470-509, 603-675, and of the calls of Lily, tulip/interfaces/lily.py:58-259.

    Simplifications.  [_ast_to_lang] (translation.py:662-675) copies the tree to nodes of the same shape,
    and is left out.  Lily is an oracle: the text of the file it writes.  Sets are enumerated in the order of
    insertion. *)
From Coq Require Import List String Ascii Bool ZArith.
From Verif Require Import M_Base M_Ast M_Parser M_Spec M_Form M_Tree M_Gr1c.
Import ListNotations.
Open Scope list_scope.
Open Scope string_scope.

(** ast.py:202-203, 253-273, 319-320: [flatten] of the nodes, with the operator map [m], variables
    printed by [var] and strings by [str]. *)
Fixpoint print (m : list (string * string)) (var : string -> res string) (str : string -> string) (t : node) : res string :=
  match t with
  | NVar v => var v
  | NNum v => Ok v
  | NStr v => Ok (str v)
  | NBool v => of_opt "KeyError" (lookup v m)
  | NUn op a =>
      do o <- of_opt "KeyError" (lookup op m); do x <- print m var str a; Ok ("( " ++ o ++ " " ++ x ++ " )")
  | NBin op l r | NCmp op l r | NArith op l r =>
      do o <- of_opt "KeyError" (lookup op m);
      do x <- print m var str l; do y <- print m var str r; Ok ("( " ++ x ++ " " ++ o ++ " " ++ y ++ " )")
  | NIte op a b c =>
      do o <- of_opt "KeyError" (lookup op m);
      do x <- print m var str a; do y <- print m var str b; do z <- print m var str c;
      Ok ("( " ++ o ++ " " ++ x ++ ", " ++ y ++ ", " ++ z ++ " )")
  end.

(** ** JTLV *)
(** translation.py:70-105. *)
Definition jtlv_opmap : list (string * string) :=
  [("False", "FALSE"); ("True", "TRUE"); ("!", "!"); ("|", "|"); ("&", "&"); ("->", "->"); ("<->", "<->");
   ("G", "[]"); ("F", "<>"); ("X", "next"); ("U", "U");
   ("<", "<"); ("<=", "<="); ("=", "="); (">=", ">="); (">", ">"); ("!=", "!=")].
(** translation.py:111-122. *)
Definition jtlv_var (env sys : vardecl) (v : string) : res string :=
  if has v env then Ok ("(e." ++ v ++ ")")
  else if has v sys then Ok ("(s." ++ v ++ ")")
  else Err "ValueError".
(** translation.py:107-110. *)
Definition jtlv_string (v : string) : string := "(" ++ v ++ ")".
Definition jtlv_print (env sys : vardecl) : node -> res string := print jtlv_opmap (jtlv_var env sys) jtlv_string.

(** translation.py:420-423: [re.sub(r'next\s*\(', 'next(', x)].  [blanks_to_paren r]: the rest from the
    parenthesis on, if only white space precedes it. *)
Definition white (c : ascii) : bool :=
  let n := nat_of_ascii c in ((9 <=? n) && (n <=? 13) || (28 <=? n) && (n <=? 32))%nat.
Fixpoint blanks_to_paren (r : string) : option string :=
  match r with
  | EmptyString => None
  | String c q => if Ascii.eqb c "(" then Some r else if white c then blanks_to_paren q else None
  end.
Fixpoint strip_prefix (p s : string) : option string :=
  match p, s with
  | EmptyString, _ => Some s
  | String a p, String b s => if Ascii.eqb a b then strip_prefix p s else None
  | _, _ => None
  end.
Fixpoint collapse_next (fuel : nat) (s : string) : string :=
  match fuel, s with
  | O, _ | _, EmptyString => s
  | S n, String c q =>
      match strip_prefix "next" s with
      | Some r => match blanks_to_paren r with
                  | Some (String _ r) => "next(" ++ collapse_next n r
                  | _ => String c (collapse_next n q)
                  end
      | None => String c (collapse_next n q)
      end
  end.
Definition tab : string := String (Ascii.ascii_of_nat 9) "".
(** translation.py:406-430 [_jtlv_str]. *)
Definition jtlv_str (m : list string) (comment prefix : string) : string :=
  match m with
  | [] => ""
  | _ =>
      let w := map (fun x => let c := if prefix =? "[]" then collapse_next (S (String.length x)) x else x in
                             tab ++ prefix ++ "(" ++ c ++ ")")
                   (filter (fun x => negb (x =? "")) m) in
      "-- " ++ comment ++ nl ++ join (" & " ++ nl) w
  end.
(** translation.py:630-632: the clauses of one part. *)
Definition lang_clauses (f : node -> res string) (m : list (string * (node * string))) (l : list string) : res (list string) :=
  mapr (fun x => do bf <- of_opt "KeyError" (lookup x m); f (fst bf)) l.
(** translation.py:383-403 [_to_jtlv] and 603-636 [translate] for language jtlv. *)
Definition nonempty (l : list string) : list string := filter (fun x => negb (x =? "")) l.
Definition to_jtlv (g : grspec) : res (string * string) :=
  do _ <- check_syntax g;
  do m <- str_to_int g;
  let f := jtlv_print (env_vars g) (sys_vars g) in
  do ei <- lang_clauses f m (env_init g); do es <- lang_clauses f m (env_safety g); do ep <- lang_clauses f m (env_prog g);
  do si <- lang_clauses f m (sys_init g); do ss <- lang_clauses f m (sys_safety g); do sp <- lang_clauses f m (sys_prog g);
  Ok (join (" & " ++ nl) (nonempty [jtlv_str ei "valid initial env states" "";
                                    jtlv_str es "safety assumption on environment" "[]";
                                    jtlv_str ep "justice assumption on environment" "[]<>"]),
      join (" & " ++ nl) (nonempty [jtlv_str si "valid initial system states" "";
                                    jtlv_str ss "safety requirement on system" "[]";
                                    jtlv_str sp "progress requirement on system" "[]<>"])).

(** ** Wring *)
(** translation.py:265-294. *)
Definition wring_opmap : list (string * string) :=
  [("False", "0"); ("True", "1"); ("!", "!"); ("|", "+"); ("&", "*"); ("->", "->"); ("<->", "<->"); ("xor", "^");
   ("G", "G"); ("F", "F"); ("X", "X"); ("U", "U"); ("R", "R"); ("V", "V")].
(** translation.py:295-312.  The message for a variable that is not Boolean refers to [self.val], an
    attribute that does not exist. *)
Definition wring_var (env sys : vardecl) (v : string) : res string :=
  match (match lookup v env with Some d => Some d | None => lookup v sys end) with
  | None => Err "TypeError"
  | Some DBool => Ok ("(" ++ v ++ "=1)")
  | Some _ => Err "AttributeError"
  end.
Definition wring_print (env sys : vardecl) : node -> res string := print wring_opmap (wring_var env sys) (fun v => v).
(** translation.py:480-500: one player's part. *)
Definition wring_part (i s p : list string) : string :=
  let a := match i with [] => "" | _ => join " * " (map (fun f => "(" ++ f ++ ")") i) end in
  let a := match s with
           | [] => a
           | _ => a ++ (if (a =? "")%string then "" else " * ") ++ join " * " (map (fun f => "G(" ++ f ++ ")") s)
           end in
  match p with
  | [] => a
  | _ => a ++ (if (a =? "")%string then "" else " * ") ++ join " * " (map (fun f => "G(F(" ++ f ++ "))") p)
  end.
(** translation.py:470-509 [_to_wring] and 603-636 [translate] for language wring. *)
Definition to_wring (g : grspec) : res string :=
  do _ <- check_syntax g;
  do m <- str_to_int g;
  let f := wring_print (env_vars g) (sys_vars g) in
  do ei <- lang_clauses f m (env_init g); do es <- lang_clauses f m (env_safety g); do ep <- lang_clauses f m (env_prog g);
  do si <- lang_clauses f m (sys_init g); do ss <- lang_clauses f m (sys_safety g); do sp <- lang_clauses f m (sys_prog g);
  let assumption := wring_part ei es ep in
  let guarantee := wring_part si ss sp in
  Ok (if (guarantee =? "")%string then "G(1)"
      else if (assumption =? "")%string then "(" ++ guarantee ++ ")"
      else "((" ++ assumption ++ ") -> (" ++ guarantee ++ "))").

(** ** SMV and Promela: formulas only, [translate_ast(tree, lang).flatten()] *)
(** translation.py:249-262. *)
Definition smv_opmap : list (string * string) := [("X", "X"); ("G", "G"); ("F", "F"); ("U", "U"); ("R", "V")].
(** translation.py:231-246, with ast.py:48-102. *)
Definition promela_opmap : list (string * string) :=
  [("False", "false"); ("True", "true"); ("!", "!"); ("|", "|"); ("&", "&"); ("->", "->"); ("<->", "<->"); ("^", "^"); ("ite", "ite");
   ("X", "X"); ("G", "[]"); ("F", "<>"); ("U", "U"); ("W", "W"); ("V", "V");
   ("<", "<"); ("<=", "<="); ("=", "=="); (">=", ">="); (">", ">"); ("!=", "!=");
   ("+", "+"); ("-", "-"); ("*", "*"); ("/", "/"); ("<<>>", "<<>>"); ("R", "V")].
Definition plain_print (m : list (string * string)) : node -> res string := print m (fun v => Ok v) (fun v => v).

(** ** Lily *)
(** [text.splitlines()], for the line ends of ASCII texts. *)
Fixpoint split_lines (s acc : string) : list string :=
  match s with
  | EmptyString => if acc =? "" then [] else [acc]
  | String c r =>
      let n := nat_of_ascii c in
      if (n =? 13)%nat then match r with
                            | String d q => if (nat_of_ascii d =? 10)%nat then acc :: split_lines q "" else acc :: split_lines r ""
                            | EmptyString => [acc]
                            end
      else if ((10 <=? n) && (n <=? 12) || (28 <=? n) && (n <=? 30))%nat then acc :: split_lines r ""
      else split_lines r (acc ++ String c "")
  end.
(** [p in s] *)
Fixpoint contains (p s : string) : bool :=
  prefix p s || match s with EmptyString => false | String _ r => contains p r end.
(** [s.split(p)], for a text [p] that is not empty *)
Fixpoint split_on (fuel : nat) (p s acc : string) : list string :=
  match fuel, s with
  | O, _ | _, EmptyString => [acc]
  | S n, String c r =>
      match strip_prefix p s with
      | Some q => acc :: split_on n p q ""
      | None => split_on n p r (acc ++ String c "")
      end
  end.
Definition split (p s : string) : list string := split_on (S (String.length s)) p s "".
(** [s.strip()] *)
Fixpoint lstrip (s : string) : string :=
  match s with EmptyString => "" | String c r => if white c then lstrip r else s end.
Fixpoint rev_string (s acc : string) : string := match s with EmptyString => acc | String c r => rev_string r (String c acc) end.
Definition strip_white (s : string) : string := rev_string (lstrip (rev_string (lstrip s) "")) "".

(** lily.py:177-185: the end points and the annotation of a line that describes an edge. *)
Definition lily_edge (line : string) : res (string * string * string) :=
  match split "[label=""" line with
  | [edge; annot] =>
      match split "->" edge with
      | [start; stop] => Ok (strip_white start, strip_white stop, annot)
      | _ => Err "ValueError"
      end
  | _ => Err "ValueError"
  end.
(** lily.py:193-198: the node of the environment that a line describes, if it does. *)
Definition lily_node (line : string) : res (list string) :=
  match split "[" line with
  | [node; annot] => if contains "shape=" annot then Ok [] else Ok [strip_white node]
  | _ => Err "ValueError"
  end.
(** A vertex of the game: the integer of a node of the system ([mapping]), or a node of the environment. *)
Inductive lnode := LSys (n : nat) | LEnv (x : string).
Definition lnode_eqb (a b : lnode) : bool :=
  match a, b with LSys n, LSys k => Nat.eqb n k | LEnv x, LEnv y => String.eqb x y | _, _ => false end.
Fixpoint position (x : string) (l : list string) (k : nat) : option nat :=
  match l with [] => None | y :: r => if y =? x then Some k else position x r (S k) end.
Definition to_lnode (sys : list string) (x : string) : lnode := match position x sys 0 with Some k => LSys k | None => LEnv x end.
Definition dedup (l : list string) : list string := fold_left (fun acc x => if mem x acc then acc else (acc ++ [x])%list) l [].
(** The machine: states with their outputs, initial states, edges with their inputs. *)
Record lmachine := LMachine { lm_inputs : list string; lm_outputs : list string; lm_states : list nat; lm_initial : list nat;
  lm_edges : list (nat * nat * list (string * bool)) }.
(** lily.py:228-246: the reaction of one state.  The annotation is a text, so that [attr['label']] raises
    TypeError; the code after it is not reached. *)
Definition lily_react (edges : list (lnode * lnode)) (u : nat) : res unit :=
  match map snd (filter (fun e => lnode_eqb (fst e) (LSys u)) edges) with
  | v :: r => if forallb (lnode_eqb v) r then Err "TypeError" else Err "AssertionError"
  | [] => Err "AssertionError"
  end.
(** lily.py:139-247 [_lily_strategy2moore]. *)
Definition lily_machine (text : string) (env sys : list string) : res lmachine :=
  let lines := filter (fun l => prefix """" l) (split_lines text "") in
  let lines := filter (fun l => prefix """title""" l) lines in
  let edge_lines := dedup (filter (fun l => contains "->" l) lines) in
  let node_lines := dedup (filter (fun l => negb (contains "->" l)) lines) in
  do edges <- mapr lily_edge edge_lines;
  let nodes := dedup (flat_map (fun e => [fst (fst e); snd (fst e)]) edges) in
  let phantom_init := filter (fun x => prefix "init-" x) nodes in
  let game_nodes := filter (fun x => negb (prefix "init-" x)) nodes in
  do env_nodes <- mapr lily_node node_lines;
  let sys_nodes := filter (fun x => negb (mem x (List.concat env_nodes))) game_nodes in
  let es := map (fun e => (to_lnode sys_nodes (fst (fst e)), to_lnode sys_nodes (snd (fst e)))) edges in
  let initial := flat_map (fun u => map snd (filter (fun e => lnode_eqb (fst e) (to_lnode sys_nodes u)) es)) phantom_init in
  do init <- mapr (fun v => match v with LSys k => Ok k | LEnv _ => Err "ValueError" end) initial;
  do _ <- mapr (lily_react es) (List.seq 0 (List.length sys_nodes));
  Ok (LMachine env sys (List.seq 0 (List.length sys_nodes)) init []).

(** lily.py:107-110: the file with the variables of the two players. *)
Definition partition_file (env sys : list string) : string :=
  ".inputs " ++ join " " env ++ nl ++ ".outputs " ++ join " " sys.
Section Lily.
  (** The text of the file that Lily writes, given the formula and the file with the variables. *)
  Context (lily : string -> string -> string).
  (** lily.py:58-136 [synthesize] for a GR(1) specification. *)
  Definition lily_synthesize (g : grspec) : res (option lmachine) :=
    if forallb (fun kv => match snd kv with DBool => true | _ => false end) (dupdate (env_vars g) (sys_vars g)) then
      do f <- to_wring g;
      let text := lily f (partition_file (map fst (env_vars g)) (map fst (sys_vars g))) in
      if prefix "Formula is not realizable" text then Ok None
      else do m <- lily_machine text (map fst (env_vars g)) (map fst (sys_vars g)); Ok (Some m)
    else Err "TypeError".
  (** The same for a formula, given as text. *)
  Definition lily_formula (formula : string) (env sys : vardecl) : res (option lmachine) :=
    if forallb (fun kv => match snd kv with DBool => true | _ => false end) (dupdate env sys) then
      do t <- of_opt "Exception" (parse formula);
      do f <- wring_print env sys t;
      let text := lily f (partition_file (map fst env) (map fst sys)) in
      if prefix "Formula is not realizable" text then Ok None
      else do m <- lily_machine text (map fst env) (map fst sys); Ok (Some m)
    else Err "TypeError".
End Lily.
