(** Independent description of the part of Promela that is needed here: tokens, programs of one process with labels, their
    tokens, and their executions. *)
From Coq Require Import List String Ascii Bool Arith.
From Verif Require Import S_LTL S_Python.
Import ListNotations.
Open Scope string_scope.
Open Scope list_scope.

(** * Tokens: words, numbers, strings, the separator "::" and single characters. *)
Inductive ptok := TId (s : string) | TNum (s : string) | TStr (s : string) | TSep | TP (c : ascii).
Fixpoint take_while (f : ascii -> bool) (s : list ascii) : list ascii * list ascii :=
  match s with c :: r => if f c then let (a, b) := take_while f r in (c :: a, b) else ([], s) | [] => ([], []) end.
(** After the opening of a comment. *)
Fixpoint comment_rest (s : list ascii) : option (list ascii) :=
  match s with
  | [] => None
  | c :: r => if Ascii.eqb c "*" then match r with d :: r' => if Ascii.eqb d "/" then Some r' else comment_rest r | [] => None end else comment_rest r
  end.
(** After the opening quote: the characters up to the closing one. *)
Fixpoint string_rest (s : list ascii) : option (list ascii * list ascii) :=
  match s with
  | [] => None
  | c :: r =>
      if Ascii.eqb c """" then Some ([], r)
      else if Ascii.eqb c "010" then None
      else if Ascii.eqb c "\" then match r with d :: r' => match string_rest r' with Some (a, b) => Some (c :: d :: a, b) | None => None end | [] => None end
      else match string_rest r with Some (a, b) => Some (c :: a, b) | None => None end
  end.
Definition space (c : ascii) : bool := Ascii.eqb c " " || Ascii.eqb c "009" || Ascii.eqb c "010".
(** One token at the start; blanks and comments give none. *)
Definition token (c : ascii) (r : list ascii) : option ptok * list ascii :=
  if space c then (None, r)
  else if is_letter c then let (a, b) := take_while word_char r in (Some (TId (string_of_list_ascii (c :: a))), b)
  else if is_digit c then let (a, b) := take_while is_digit r in (Some (TNum (string_of_list_ascii (c :: a))), b)
  else if Ascii.eqb c """" then match string_rest r with Some (a, b) => (Some (TStr (string_of_list_ascii a)), b) | None => (Some (TP c), r) end
  else if Ascii.eqb c "/" then
    match r with
    | d :: r' => if Ascii.eqb d "*" then match comment_rest r' with Some b => (None, b) | None => (Some (TP c), r) end else (Some (TP c), r)
    | [] => (Some (TP c), r)
    end
  else if Ascii.eqb c ":" then
    match r with d :: r' => if Ascii.eqb d ":" then (Some TSep, r') else (Some (TP c), r) | [] => (Some (TP c), r) end
  else (Some (TP c), r).
Fixpoint tokens_of (fuel : nat) (s : list ascii) : list ptok :=
  match fuel, s with
  | S n, c :: r => let (o, r') := token c r in match o with Some t => t :: tokens_of n r' | None => tokens_of n r' end
  | _, _ => []
  end.
Definition promela_tokens (s : string) : list ptok := tokens_of (String.length s) (list_ascii_of_string s).

(** * Programs *)
Inductive stmt := Print (s : string) | Set_ (x : string) (b : bool).
Record branch := Branch { b_stmts : list stmt; b_goto : string }.
Record program := Program { p_vars : list string; p_name : string; p_init : list string; p_labels : list (string * list branch) }.
Definition stmt_tokens (s : stmt) : list ptok :=
  match s with
  | Print t => [TId "printf"; TP "("; TStr t; TP ")"; TP ";"]
  | Set_ x b => [TId x; TP "="; TNum (if b then "1" else "0"); TP ";"]
  end.
Definition branch_tokens (b : branch) : list ptok :=
  [TSep; TId "atomic"; TP "{"] ++ flat_map stmt_tokens (b_stmts b) ++ [TId "goto"; TId (b_goto b); TP "}"].
Definition label_tokens (l : string * list branch) : list ptok :=
  [TId (fst l); TP ":"; TId "if"] ++ flat_map branch_tokens (snd l) ++ [TId "fi"; TP ";"].
Definition program_tokens (p : program) : list ptok :=
  flat_map (fun x => [TId "bool"; TId x; TP ";"]) (p_vars p) ++
  [TId "active"; TId "proctype"; TId (p_name p); TP "("; TP ")"; TP "{"; TId "if"] ++
  flat_map (fun s => [TSep; TId "goto"; TId s]) (p_init p) ++ [TId "fi"; TP ";"] ++
  flat_map label_tokens (p_labels p) ++ [TP "}"].
Definition keywords : list string :=
  ["active"; "assert"; "atomic"; "bit"; "bool"; "break"; "byte"; "chan"; "d_step"; "D_proctype"; "do"; "else"; "empty"; "enabled"; "fi"; "for"; "full";
   "goto"; "hidden"; "if"; "init"; "inline"; "int"; "len"; "local"; "ltl"; "mtype"; "nempty"; "never"; "nfull"; "notrace"; "np_"; "od"; "of"; "pc_value"; "pid";
   "printf"; "printm"; "priority"; "proctype"; "provided"; "return"; "run"; "select"; "short"; "show"; "skip"; "timeout"; "trace"; "typedef"; "unless";
   "unsigned"; "xr"; "xs"; "true"; "false"; "c_code"; "c_decl"; "c_expr"; "c_state"; "c_track"].
Definition word (s : string) : Prop :=
  match s with EmptyString => False | String c r => is_letter c = true /\ forallb word_char (list_ascii_of_string r) = true end.
Definition promela_name (s : string) : Prop := word s /\ ~ In s keywords.
(** What a compiler asks for: names, no list of options that is empty, each label and variable declared once, no other ones used. *)
Record program_ok (p : program) : Prop := {
  ok_vars : forall x, In x (p_vars p) -> promela_name x;
  ok_vars_once : NoDup (p_vars p);
  ok_name : promela_name (p_name p);
  ok_labels : forall l, In l (p_labels p) -> promela_name (fst l) /\ snd l <> [];
  ok_labels_once : NoDup (map fst (p_labels p));
  ok_init : p_init p <> [] /\ forall s, In s (p_init p) -> In s (map fst (p_labels p));
  ok_goto : forall l b, In l (p_labels p) -> In b (snd l) -> In (b_goto b) (map fst (p_labels p));
  ok_set : forall l b x v, In l (p_labels p) -> In b (snd l) -> In (Set_ x v) (b_stmts b) -> In x (p_vars p) }.
Definition program_text (t : string) (p : program) : Prop := promela_tokens t = program_tokens p /\ program_ok p.

(** * Executions: the labels visited, the last one first, the values of the variables there and what has been printed. *)
Fixpoint after (ss : list stmt) (v : string -> bool) : string -> bool :=
  match ss with
  | [] => v
  | Print _ :: r => after r v
  | Set_ x b :: r => after r (fun y => if (y =? x)%string then b else v y)
  end.
Definition printed (ss : list stmt) : list string := flat_map (fun s => match s with Print t => [t] | _ => [] end) ss.
Inductive exec (p : program) : list string -> (string -> bool) -> list string -> Prop :=
| ex_start s : In s (p_init p) -> exec p [s] (fun _ => false) []
| ex_step u h v o bs b : exec p (u :: h) v o -> In (u, bs) (p_labels p) -> In b bs -> exec p (b_goto b :: u :: h) (after (b_stmts b) v) (o ++ printed (b_stmts b)).
