(** Independent description of the never claims that ltl2ba prints: their texts, and the infinite words that
    they accept (Promela: a claim starts with its first statement, and the labels that start with "accept" are to be visited
    infinitely often). *)
From Coq Require Import List String Ascii Bool Arith ZArith.
From Verif Require Import S_LTL S_Python.
Import ListNotations.
Open Scope string_scope.

(** Guards: constants, propositions, negation, conjunction, disjunction. *)
Inductive guard := QNum (n : Z) | QVar (x : string) | QNot (g : guard) | QAnd (g h : guard) | QOr (g h : guard).
Fixpoint holds (w : string -> bool) (g : guard) : bool :=
  match g with
  | QNum n => negb (n =? 0)%Z
  | QVar x => w x
  | QNot g => negb (holds w g)
  | QAnd g h => holds w g && holds w h
  | QOr g h => holds w g || holds w h
  end.
Fixpoint mentions (x : string) (g : guard) : Prop :=
  match g with
  | QNum _ => False
  | QVar y => x = y
  | QNot g => mentions x g
  | QAnd g h | QOr g h => mentions x g \/ mentions x h
  end.
(** What follows a label. *)
Inductive body := Cases (l : list (guard * string)) | Skip | Never.
(** Labels with what follows them; the first is the start. *)
Definition claim := list (string * body).
Definition step (c : claim) (w : string -> bool) (u v : string) : Prop :=
  (exists l g, In (u, Cases l) c /\ In (g, v) l /\ holds w g = true) \/ (In (u, Skip) c /\ v = u).
Definition accepting_label (s : string) : Prop := exists r, s = "accept" ++ r.
Definition word_of := nat -> string -> bool.
Definition claim_accepts (c : claim) (w : word_of) : Prop :=
  exists r : nat -> string, (exists b rest, c = (r 0, b) :: rest) /\ (forall i, step c (w i) (r i) (r (S i))) /\
    forall i, exists j, i <= j /\ accepting_label (r j).

(** * Texts *)
Definition blank_char (c : ascii) : bool := Ascii.eqb c " " || Ascii.eqb c "009" || Ascii.eqb c "010".
Definition blank (s : string) : Prop := forallb blank_char (list_ascii_of_string s) = true.
Definition ident (s : string) : Prop :=
  match s with
  | EmptyString => False
  | String c r => is_letter c = true /\ forallb word_char (list_ascii_of_string r) = true
  end /\ ~ In s ["goto"; "if"; "fi"; "never"; "skip"].
Definition digits (v : string) : Prop := v <> "" /\ forallb is_digit (list_ascii_of_string v) = true.
(** Levels: 0 disjunctions, 1 conjunctions, 2 the rest; both operators to the left. *)
Inductive guard_text : nat -> string -> guard -> Prop :=
| gt_num k v n : digits v -> nat_text 0 v = Some n -> guard_text k v (QNum n)
| gt_var k x : ident x -> guard_text k x (QVar x)
| gt_paren k a s b g : blank a -> blank b -> guard_text 0 s g -> guard_text k ("(" ++ a ++ s ++ b ++ ")") g
| gt_not k a s g : blank a -> guard_text 2 s g -> guard_text k ("!" ++ a ++ s) (QNot g)
| gt_and k s a b t g h : k <= 1 -> blank a -> blank b -> guard_text 1 s g -> guard_text 2 t h -> guard_text k (s ++ a ++ "&&" ++ b ++ t) (QAnd g h)
| gt_or s a b t g h : blank a -> blank b -> guard_text 0 s g -> guard_text 1 t h -> guard_text 0 (s ++ a ++ "||" ++ b ++ t) (QOr g h).
Inductive case_text : string -> guard * string -> Prop :=
| ct_case a e b c d v f g : blank a -> guard_text 0 e g -> blank b -> blank c -> blank d -> d <> "" -> ident v -> blank f -> f <> "" ->
    case_text ("::" ++ a ++ e ++ b ++ "->" ++ c ++ "goto" ++ d ++ v ++ f) (g, v).
Inductive cases_text : string -> list (guard * string) -> Prop :=
| ct_one s x : case_text s x -> cases_text s [x]
| ct_more s x t l : case_text s x -> cases_text t l -> cases_text (s ++ t) (x :: l).
Inductive body_text : string -> body -> Prop :=
| bt_if a s b l : blank a -> cases_text s l -> blank b -> body_text ("if" ++ a ++ s ++ "fi" ++ b ++ ";") (Cases l)
| bt_skip : body_text "skip" Skip
| bt_never a : blank a -> body_text ("false" ++ a ++ ";") Never.
Inductive clauses_text : string -> claim -> Prop :=
| ct_last u a b s c x : ident u -> blank a -> blank b -> body_text s x -> blank c -> clauses_text (u ++ a ++ ":" ++ b ++ s ++ c) [(u, x)]
| ct_clause u a b s c x t l : ident u -> blank a -> blank b -> body_text s x -> blank c -> clauses_text t l ->
    clauses_text (u ++ a ++ ":" ++ b ++ s ++ c ++ t) ((u, x) :: l).
Definition newline : string := String "010" "".
Inductive claim_text : string -> claim -> Prop :=
| ct_claim a b c comment d s e l : blank a -> blank b -> blank c -> ~ In "010"%char (list_ascii_of_string comment) -> blank d -> clauses_text s l -> blank e ->
    claim_text (a ++ "never" ++ b ++ "{" ++ c ++ "/*" ++ comment ++ "*/" ++ newline ++ d ++ s ++ "}" ++ e) l.

(** * Buchi automata with guards in Python *)
Definition env_of (w : string -> bool) : string -> option pyval := fun x => Some (PB (w x)).
Definition python_holds (w : string -> bool) (text : string) : Prop := exists v, py_eval (env_of w) text = Some v /\ truthy v = true.
Definition buchi_accepts (edges : string -> string -> (string -> bool) -> Prop) (initial accepting : string -> Prop) (w : word_of) : Prop :=
  exists r : nat -> string, initial (r 0) /\ (forall i, edges (r i) (r (S i)) (w i)) /\ forall i, exists j, i <= j /\ accepting (r j).
