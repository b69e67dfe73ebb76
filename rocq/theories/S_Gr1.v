(** Independent vocabulary for the GR(1) conversion theorems. *)
From Coq Require Import List String Ascii Bool ZArith.
From Verif Require Import M_Ast M_Lexer M_Parser M_Spec S_LTL.
Import ListNotations.
Open Scope string_scope.

(** Identifiers: a letter or underscore, then letters, digits and [_ . :], not a reserved word. *)
Definition ident_chars (a : string) : bool :=
  match a with
  | EmptyString => false
  | String c r => name_start c && forallb name_char (list_ascii_of_string r)
  end.
Definition reserved (a : string) : bool :=
  existsb (String.eqb a) ["ite"; "next"; "X"; "G"; "F"; "U"; "W"; "V"]
  || existsb (String.eqb (upper a)) ["TRUE"; "FALSE"].
Definition ident (a : string) : Prop := ident_chars a = true /\ reserved a = false.

(** The text contains no comment sign. *)
Definition no_comment (s : string) : Prop := forall c, In c (list_ascii_of_string s) -> c <> "#"%char.

Fixpoint parse_all (l : list string) : option (list node) :=
  match l with
  | [] => Some []
  | x :: r => match parse x, parse_all r with
              | Some t, Some ts => Some (t :: ts)
              | _, _ => None
              end
  end.

(** The formulas that the texts of a specification stand for, per player. *)
Definition sys_part (g : grspec) : option part :=
  match parse_all (sys_init g), parse_all (sys_safety g), parse_all (sys_prog g) with
  | Some i, Some s, Some l => Some {| p_init := i; p_safe := s; p_live := l |}
  | _, _, _ => None
  end.
Definition env_part (g : grspec) : option part :=
  match parse_all (env_init g), parse_all (env_safety g), parse_all (env_prog g) with
  | Some i, Some s, Some l => Some {| p_init := i; p_safe := s; p_live := l |}
  | _, _, _ => None
  end.
Definition no_env (g : grspec) : Prop :=
  env_vars g = [] /\ env_init g = [] /\ env_safety g = [] /\ env_prog g = [].

(** Formulas without G, F, U, W, V: their truth depends on finitely many steps. *)
Fixpoint step_formula (f : node) : bool :=
  match f with
  | NUn op a => negb (existsb (String.eqb op) ["G"; "F"]) && step_formula a
  | NBin op l r =>
      negb (existsb (String.eqb op) ["U"; "W"; "V"]) && step_formula l && step_formula r
  | NCmp _ l r | NArith _ l r => true
  | NIte _ a b c => step_formula a && step_formula b && step_formula c
  | _ => true
  end.
(** ... and no X either: it depends on the current state only. *)
Fixpoint now_term (f : node) : bool :=
  match f with
  | NUn op a => negb (existsb (String.eqb op) ["X"; "G"; "F"]) && now_term a
  | NBin op l r =>
      negb (existsb (String.eqb op) ["U"; "W"; "V"]) && now_term l && now_term r
  | NCmp _ l r | NArith _ l r => now_term l && now_term r
  | NIte _ a b c => now_term a && now_term b && now_term c
  | _ => true
  end.
Definition now_formula := now_term.

(** States 0..i of a trace. *)
Definition prefix (s : trace) (i : nat) : list state := map s (seq 0 (S i)).
