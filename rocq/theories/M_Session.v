(** Model of [GR1CSession] (tulip/interfaces/gr1c.py 657-929): an interactive session with the tool gr1c.

    The tool is a parameter: a state, what it prints when it starts, and what it does with a line that it reads.  The
    output that Python has not read yet is in the process.  A call that waits for ever ends with the error [(waits)].
    Values of variables are integers; names of variables do not occur twice. *)
From Coq Require Import List String Ascii Bool Arith ZArith.
From Verif Require Import M_Tree M_Base M_Dict M_Gr1c M_Grid M_LtlFile.
Import ListNotations.
Open Scope string_scope.
Open Scope list_scope.
Open Scope nat_scope.

Definition chars (s : string) : list ascii := list_ascii_of_string s.
Definition lf : ascii := ascii_of_nat 10.
(** gr1c.py:932-937 [_join_as_str] *)
Fixpoint join_as_str (l : list Z) : list ascii :=
  match l with [] => [] | [z] => chars (str_Z z) | z :: r => chars (str_Z z) ++ " "%char :: join_as_str r end.
(** [p in s] *)
Definition in_text (p s : list ascii) : bool := match find_sub p s with Some _ => true | None => false end.

Section Session.
Context {S F : Type}.
(** Starting [gr1c -i FILE]; reading one line: new state, output, exit code if it ends *)
Variable boot : F -> S * list ascii.
Variable serve : S -> list ascii -> S * list ascii * option Z.

Record proc : Type := Proc { p_state : S; p_out : list ascii; p_exit : option Z }.
Record session : Type := Session { s_file : option F; s_sys : list string; s_env : list string; s_prompt : list ascii; s_p : option proc }.
Definition with_p (s : session) (p : option proc) : session := Session (s_file s) (s_sys s) (s_env s) (s_prompt s) p.
(** [subprocess.Popen] *)
Definition popen (f : F) : proc := Proc (fst (boot f)) (snd (boot f)) None.

(** Calls change the session and return or raise. *)
Definition act (A : Type) : Type := session -> session * res A.
Definition ret {A} (a : A) : act A := fun s => (s, Ok a).
Definition raise {A} (e : string) : act A := fun s => (s, Err e).
Definition lift {A} (r : res A) : act A := fun s => (s, r).
Definition andthen {A B} (m : act A) (k : A -> act B) : act B :=
  fun s => match m s with (s', Ok a) => k a s' | (s', Err e) => (s', Err e) end.
Notation "'run' x <- e ; f" := (andthen e (fun x => f)) (at level 200, x pattern, e at level 100, f at level 200, right associativity).

(** [self.p.stdin.write(line + '\n')] *)
Definition send (line : list ascii) : act unit := fun s =>
  match s_p s with
  | None => (s, Err "AttributeError")
  | Some p =>
      match p_exit p with
      | Some _ => (s, Err "BrokenPipeError")
      | None => let '(st, out, code) := serve (p_state p) line in (with_p s (Some (Proc st (p_out p ++ out) code)), Ok tt)
      end
  end.
(** The first line with its end, and the rest *)
Fixpoint take_line (s : list ascii) : option (list ascii * list ascii) :=
  match s with
  | [] => None
  | c :: r => if Ascii.eqb c lf then Some ([c], r) else option_map (fun lr => (c :: fst lr, snd lr)) (take_line r)
  end.
(** [self.p.stdout.readline()] *)
Definition recv : act (list ascii) := fun s =>
  match s_p s with
  | None => (s, Err "AttributeError")
  | Some p =>
      match take_line (p_out p) with
      | Some (l, r) => (with_p s (Some (Proc (p_state p) r (p_exit p))), Ok l)
      | None => match p_exit p with
                | Some _ => (with_p s (Some (Proc (p_state p) [] (p_exit p))), Ok (p_out p))
                | None => (s, Err "(waits)")
                end
      end
  end.
(** [self.p.wait()] *)
Definition wait : act Z := fun s =>
  match s_p s with
  | None => (s, Err "AttributeError")
  | Some p => match p_exit p with Some z => (s, Ok z) | None => (s, Err "(waits)") end
  end.
(** gr1c.py:754-757, 778-781, 819-822, 856-859, 874-877, 883-886 *)
Definition strip_prompt (prompt line : list ascii) : list ascii :=
  if 0 <? List.length prompt then match find_sub prompt line with Some _ => skipn (List.length prompt) line | None => line end else line.
Definition int_of (s : list ascii) : res Z := of_opt "ValueError" (py_int s).

(** gr1c.py:720-724, 744-748, 766-770, 802-809, 838-845: the values of a state in the order of the variables *)
Fixpoint set_nth (i : nat) (v : Z) (l : list Z) : list Z :=
  match l, i with [], _ => [] | _ :: r, 0 => v :: r | a :: r, Datatypes.S j => a :: set_nth j v r end.
Fixpoint fill (off : nat) (vars : list string) (state : list (string * Z)) (sv : list Z) : res (list Z) :=
  match vars with
  | [] => Ok sv
  | x :: r => do v <- of_opt "KeyError" (M_Base.lookup x state);
              if off <? List.length sv then fill (Datatypes.S off) r state (set_nth off v sv) else Err "IndexError"
  end.
Definition range_of (state : list (string * Z)) : list Z := map Z.of_nat (seq 0 (List.length state)).
Definition state_vector (s : session) (state : list (string * Z)) : res (list Z) :=
  do sv <- fill 0 (s_env s) state (range_of state); fill (List.length (s_env s)) (s_sys s) state sv.
Definition emove_vector (s : session) (mv : list (string * Z)) : res (list Z) := fill 0 (s_env s) mv (range_of mv).

(** gr1c.py:709-732 [iswinning] *)
Definition iswinning (state : list (string * Z)) : act bool := fun s =>
  (run v <- lift (state_vector s state);
   run _ <- send (chars "winning " ++ join_as_str v);
   run line <- recv;
   ret (in_text (chars "True" ++ [lf]) line)) s.
(** gr1c.py:880-887 [numgoals] *)
Definition numgoals : act Z := fun s =>
  (run _ <- send (chars "numgoals");
   run line <- recv;
   lift (int_of (removelast (strip_prompt (s_prompt s) line)))) s.
(** gr1c.py:867-878 [getvars] *)
Definition getvars : act (list ascii) := fun s =>
  (run _ <- send (chars "var");
   run line <- recv;
   ret (removelast (strip_prompt (s_prompt s) line))) s.
(** gr1c.py:741-743, 799-801 *)
Definition check_goal (goal_mode : Z) : act unit :=
  if (goal_mode <? 0)%Z then raise "ValueError"
  else run n <- numgoals; if (goal_mode >? n - 1)%Z then raise "ValueError" else ret tt.
(** gr1c.py:734-758 [getindex] *)
Definition getindex (state : list (string * Z)) (goal_mode : Z) : act Z := fun s =>
  (run _ <- check_goal goal_mode;
   run v <- lift (state_vector s state);
   run _ <- send (chars "getindex " ++ join_as_str v ++ " "%char :: chars (str_Z goal_mode));
   run line <- recv;
   lift (int_of (removelast (strip_prompt (s_prompt s) line)))) s.
(** gr1c.py:775-787, 816-828, 853-865: the lines up to ["---"] *)
Definition read_move (vars : list string) (prompt line : list ascii) : res (list (string * Z)) :=
  mapr (fun ks => do z <- int_of (snd ks); Ok (fst ks, z)) (combine vars (words [] (strip_prompt prompt line))).
Fixpoint read_moves (fuel : nat) (vars : list string) (prompt : list ascii) (moves : list (list (string * Z))) : act (list (list (string * Z))) :=
  match fuel with
  | 0 => raise "(waits)"
  | Datatypes.S k =>
      run line <- recv;
      if in_text (chars "---" ++ [lf]) line then ret moves
      else run m <- lift (read_move vars prompt line); read_moves k vars prompt (moves ++ [m])
  end.
(** After the end of the output the loop goes on for ever, so that more rounds than characters are not needed. *)
Definition moves (vars : list string) : act (list (list (string * Z))) := fun s =>
  read_moves (2 + match s_p s with Some p => List.length (p_out p) | None => 0 end) vars (s_prompt s) [] s.
(** gr1c.py:760-787 [env_next] *)
Definition env_next (state : list (string * Z)) : act (list (list (string * Z))) := fun s =>
  (run v <- lift (state_vector s state);
   run _ <- send (chars "envnext " ++ join_as_str v);
   moves (s_env s)) s.
(** gr1c.py:789-828 [sys_nextfeas] *)
Definition sys_nextfeas (state env_move : list (string * Z)) (goal_mode : Z) : act (list (list (string * Z))) := fun s =>
  (run _ <- check_goal goal_mode;
   run v <- lift (state_vector s state);
   run e <- lift (emove_vector s env_move);
   run _ <- send (chars "sysnext " ++ join_as_str v ++ " "%char :: join_as_str e ++ " "%char :: chars (str_Z goal_mode));
   moves (s_sys s)) s.
(** gr1c.py:830-865 [sys_nexta] *)
Definition sys_nexta (state env_move : list (string * Z)) : act (list (list (string * Z))) := fun s =>
  (run v <- lift (state_vector s state);
   run e <- lift (emove_vector s env_move);
   run _ <- send (chars "sysnexta " ++ join_as_str v ++ " "%char :: join_as_str e);
   moves (s_sys s)) s.
(** gr1c.py:889-920 [reset] *)
Definition reset (file : option F) : act bool := fun s =>
  let start s := let f := match file with Some f => Some f | None => s_file s end in
                 (Session f (s_sys s) (s_env s) (s_prompt s) (option_map popen f), Ok true) in
  match s_p s with
  | None => start s
  | Some _ =>
      match (run _ <- send (chars "quit"); wait) s with
      | (s', Ok z) => if (z =? 0)%Z then start (with_p s' None) else (Session None (s_sys s) (s_env s) (s_prompt s) None, Ok false)
      | (s', Err e) => (s', Err e)
      end
  end.
(** gr1c.py:922-929 [close] *)
Definition close : act bool := fun s =>
  match (run _ <- send (chars "quit"); wait) s with
  | (s', Ok z) => (with_p s' None, Ok (z =? 0)%Z)
  | (s', Err e) => (s', Err e)
  end.
(** gr1c.py:680-707 [__init__] *)
Definition new_session (file : option F) (sys_vars env_vars : list string) (prompt : list ascii) : session :=
  Session file sys_vars env_vars prompt (option_map popen file).

(** One call of a method, and its value *)
Inductive call : Type :=
| CWin (st : list (string * Z)) | CIndex (st : list (string * Z)) (g : Z) | CEnv (st : list (string * Z))
| CSys (st mv : list (string * Z)) (g : Z) | CSysA (st mv : list (string * Z)) | CVars | CGoals | CReset (f : option F) | CClose.
Inductive value : Type := VBool (b : bool) | VNum (z : Z) | VMoves (l : list (list (string * Z))) | VText (t : list ascii).
Definition as_value {A} (f : A -> value) (m : act A) : act value := run a <- m; ret (f a).
Definition do_call (c : call) : act value :=
  match c with
  | CWin st => as_value VBool (iswinning st)
  | CIndex st g => as_value VNum (getindex st g)
  | CEnv st => as_value VMoves (env_next st)
  | CSys st mv g => as_value VMoves (sys_nextfeas st mv g)
  | CSysA st mv => as_value VMoves (sys_nexta st mv)
  | CVars => as_value VText getvars
  | CGoals => as_value VNum numgoals
  | CReset f => as_value VBool (reset f)
  | CClose => as_value VBool close
  end.
(** A program that catches every error and makes the next call *)
Fixpoint do_calls (cs : list call) (s : session) : session * list (res value) :=
  match cs with
  | [] => (s, [])
  | c :: r => let (s1, v) := do_call c s in let (s2, vs) := do_calls r s1 in (s2, v :: vs)
  end.
End Session.
