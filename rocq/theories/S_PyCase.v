(** Independent reading of the Python classes of controllers: lines, indentation, statements, and
    the effect of a call.  Only the statements that occur are understood; a text with any other
    statement has no reading. *)
From Coq Require Import List String Ascii Bool Arith ZArith.
From Verif Require Import S_Python.
Import ListNotations.
Open Scope string_scope.
Open Scope list_scope.
Open Scope nat_scope.

(** * Lines *)
Fixpoint lines_from (acc : string) (s : string) : list string :=
  match s with
  | EmptyString => match acc with EmptyString => [] | _ => [acc] end
  | String c r => if Nat.eqb (nat_of_ascii c) 10 then acc :: lines_from "" r else lines_from (acc ++ String c "") r
  end.
Definition lines (s : string) : list string := lines_from "" s.
(** Indentation and text of a line *)
Fixpoint indent (s : string) : nat * string :=
  match s with
  | String c r => if Ascii.eqb c " " then (S (fst (indent r)), snd (indent r)) else (0, s)
  | EmptyString => (0, "")
  end.
Definition line : Type := (nat * string)%type.
Definition code_lines (s : string) : list line := filter (fun l => negb (String.eqb (snd l) "")) (map indent (lines s)).

(** * Words *)
Fixpoint strip (p s : string) : option string :=
  match p, s with
  | EmptyString, _ => Some s
  | String a p', String b s' => if Ascii.eqb a b then strip p' s' else None
  | _, EmptyString => None
  end.
Definition starts_with (p s : string) : bool := match strip p s with Some _ => true | None => false end.
Fixpoint strip_colon (s : string) : option string :=
  match s with
  | EmptyString => None
  | String c EmptyString => if Ascii.eqb c ":" then Some "" else None
  | String c r => option_map (String c) (strip_colon r)
  end.
(** The text before and after the first character [c] *)
Fixpoint cut (c : ascii) (s : string) : option (string * string) :=
  match s with
  | EmptyString => None
  | String d r => if Ascii.eqb c d then Some ("", r)
                  else match cut c r with Some (a, b) => Some (String d a, b) | None => None end
  end.
Definition dq : ascii := ascii_of_nat 34.

(** * Statements *)
Inductive cond := CState (e : pyexp) | CExpr (e : pyexp).
Inductive stmt :=
| SState (e : pyexp)                      (* self.state = e *)
| SInputs                                 (* self.input_vars = ... *)
| SNew                                    (* output = dict() *)
| SOut (k : string) (e : pyexp)           (* output["k"] = e *)
| SCall (m : string)                      (* self.m(...) *)
| SRaise (x : string)                     (* raise x(...) *)
| SReturn                                 (* return output *)
| SIf (c : cond) (a b : block)
with block := BNil | BCons (s : stmt) (b : block).

Definition read_cond (t : string) : option cond :=
  match strip_colon t with
  | None => None
  | Some c =>
      match strip "self.state == " c with
      | Some e => option_map CState (py_parse e)
      | None => option_map CExpr (py_parse c)
      end
  end.
Definition read_simple (t : string) : option stmt :=
  match strip "self.state = " t with
  | Some e => option_map SState (py_parse e)
  | None =>
  if starts_with "self.input_vars = " t then Some SInputs
  else if String.eqb t "output = dict()" then Some SNew
  else
  match strip (String.append "output[" (String dq "")) t with
  | Some r =>
      match cut dq r with
      | Some (k, r') => match strip "] = " r' with Some e => option_map (SOut k) (py_parse e) | None => None end
      | None => None
      end
  | None =>
  match strip "self." t with
  | Some r => match cut "(" r with Some (m, _) => if py_name m then Some (SCall m) else None | None => None end
  | None =>
  match strip "raise " t with
  | Some r => match cut "(" r with Some (x, _) => if py_name x then Some (SRaise x) else None | None => None end
  | None => if String.eqb t "return output" then Some SReturn else None
  end end end end.
(** Blocks by indentation; enough fuel is twice the number of lines and two. *)
Fixpoint read_block (f ind : nat) (ls : list line) : option (block * list line) :=
  match f with
  | O => None
  | S f =>
      match ls with
      | [] => Some (BNil, [])
      | (i, t) :: r =>
          if i <? ind then Some (BNil, ls)
          else if ind <? i then None
          else
            match strip "if " t with
            | Some c =>
                match read_cond c, read_body f ind r with
                | Some e, Some (a, r1) =>
                    match read_else f ind r1 with
                    | Some (b, r2) =>
                        match read_block f ind r2 with
                        | Some (k, r3) => Some (BCons (SIf e a b) k, r3)
                        | None => None
                        end
                    | None => None
                    end
                | _, _ => None
                end
            | None =>
                match read_simple t, read_block f ind r with
                | Some s, Some (k, r') => Some (BCons s k, r')
                | _, _ => None
                end
            end
      end
  end
with read_else (f ind : nat) (ls : list line) : option (block * list line) :=
  match f with
  | O => None
  | S f =>
      match ls with
      | [] => Some (BNil, [])
      | (i, t) :: r =>
          if i =? ind then
            match strip "elif " t with
            | Some c =>
                match read_cond c, read_body f ind r with
                | Some e, Some (a, r1) =>
                    match read_else f ind r1 with
                    | Some (b, r2) => Some (BCons (SIf e a b) BNil, r2)
                    | None => None
                    end
                | _, _ => None
                end
            | None => if String.eqb t "else:" then read_body f ind r else Some (BNil, ls)
            end
          else Some (BNil, ls)
      end
  end
with read_body (f ind : nat) (ls : list line) : option (block * list line) :=
  match f with
  | O => None
  | S f => match ls with (j, _) :: _ => if ind <? j then read_block f j ls else None | [] => None end
  end.

(** * Methods *)
Fixpoint inner_lines (ls : list line) : list line :=
  match ls with (i, t) :: r => if 4 <? i then (i, t) :: inner_lines r else [] | [] => [] end.
Fixpoint skip_to_quotes (ls : list line) : list line :=
  match ls with
  | [] => []
  | (i, t) :: r => if String.eqb t (String dq (String dq (String dq ""))) then r else skip_to_quotes r
  end.
Definition skip_doc (ls : list line) : list line :=
  match ls with
  | (i, t) :: r => if starts_with (String dq (String dq (String dq ""))) t then skip_to_quotes r else ls
  | [] => []
  end.
(** Head and body of a method *)
Fixpoint find_method (m : string) (ls : list line) : option (string * list line) :=
  match ls with
  | [] => None
  | (i, t) :: r =>
      match i =? 4, strip ("def " ++ m ++ "(")%string t with
      | true, Some h => Some (h, skip_doc (inner_lines r))
      | _, _ => find_method m r
      end
  end.
Definition read_method (m : string) (text : string) : option block :=
  match find_method m (code_lines text) with
  | Some (_, ls) =>
      match read_block (2 * List.length ls + 2) 8 ls with Some (b, []) => Some b | _ => None end
  | None => None
  end.
(** The parameters after [self] *)
Fixpoint words (s : string) : list string :=
  match s with
  | EmptyString => [""]
  | String c r =>
      if Ascii.eqb c "," then "" :: words r
      else if Ascii.eqb c " " then words r
      else match words r with w :: ws => String c w :: ws | [] => [String c ""] end
  end.
Definition parameters (m : string) (text : string) : option (list string) :=
  match find_method m (code_lines text) with
  | Some (h, _) =>
      match cut ")" h with
      | Some (a, _) => match filter (fun w => negb (String.eqb w "")) (words a) with
                       | s :: ps => if String.eqb s "self" then Some ps else None
                       | [] => None
                       end
      | None => None
      end
  | None => None
  end.
(** The exception that a method raises at once, by its first line *)
Definition raises (m : string) (text : string) : option string :=
  match find_method m (code_lines text), parameters m text with
  | Some (_, (8, t) :: _), Some ps =>
      match read_simple t with
      | Some (SRaise x) => if existsb (String.eqb x) ps then None else Some x
      | _ => None
      end
  | _, _ => None
  end.

(** * Execution *)
Definition dict : Type := list (string * pyval).
Fixpoint set_key (k : string) (v : pyval) (d : dict) : dict :=
  match d with [] => [(k, v)] | (k', v') :: r => if String.eqb k k' then (k', v) :: r else (k', v') :: set_key k v r end.
Inductive outcome := Next (state : pyval) (out : dict) | Return (state : pyval) (out : dict) | Raise (x : string).
(** [env] has the values of the parameters, [call m] is the exception raised by method [m].  A
    parameter hides the class of an exception, or [dict]; then there is no result. *)
Section Exec.
Context (env : string -> option pyval) (call : string -> option string).
Definition holds (c : cond) (s : pyval) : option bool :=
  match c with
  | CState e => option_map (py_eqv s) (py_value env e)
  | CExpr e => option_map truthy (py_value env e)
  end.
Fixpoint exec (s : stmt) (st : pyval) (o : dict) : option outcome :=
  match s with
  | SState e => option_map (fun v => Next v o) (py_value env e)
  | SInputs => Some (Next st o)
  | SNew => match env "dict" with None => Some (Next st []) | Some _ => None end
  | SOut k e => option_map (fun v => Next st (set_key k v o)) (py_value env e)
  | SCall m => option_map Raise (call m)
  | SRaise x => match env x with None => Some (Raise x) | Some _ => None end
  | SReturn => Some (Return st o)
  | SIf c a b => match holds c st with Some true => exec_block a st o | Some false => exec_block b st o | None => None end
  end
with exec_block (b : block) (st : pyval) (o : dict) : option outcome :=
  match b with
  | BNil => Some (Next st o)
  | BCons s k => match exec s st o with Some (Next st' o') => exec_block k st' o' | r => r end
  end.
End Exec.
(** Parameters have distinct names. *)
Fixpoint distinct_names (l : list string) : bool :=
  match l with [] => true | x :: r => negb (existsb (String.eqb x) r) && distinct_names r end.
(** The state of a new object of the class *)
Definition initial_state (text : string) : option pyval :=
  match read_method "__init__" text, read_method "move" text with
  | Some b, Some _ => match exec_block (fun _ => None) (fun _ => None) b (PZ 0) [] with Some (Next s _) => Some s | _ => None end
  | _, _ => None
  end.
(** A call of [move] with the given arguments; the variable [output] of [move] is not its argument. *)
Definition move (text : string) (args : string -> option pyval) (st : pyval) : option outcome :=
  match read_method "move" text, parameters "move" text with
  | Some b, Some ps =>
      if distinct_names ("self" :: ps)
      then exec_block (fun k => if existsb (String.eqb k) ps && negb (String.eqb k "output") then args k else None)
                      (fun m => raises m text) b st []
      else None
  | _, _ => None
  end.
