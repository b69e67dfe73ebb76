(** Independent vocabulary for substitution and for the integer encoding of string variables. *)
From Coq Require Import List String Bool ZArith.
From Verif Require Import M_Ast M_Parser M_Spec S_LTL S_Gr1 S_Form.
Import ListNotations.
Open Scope string_scope.

(** Simultaneous substitution of formulas for variables. *)
Fixpoint subst (d : string -> option node) (t : node) : node :=
  match t with
  | NVar x => match d x with Some f => f | None => NVar x end
  | NBool _ | NNum _ | NStr _ => t
  | NUn op a => NUn op (subst d a)
  | NBin op l r => NBin op (subst d l) (subst d r)
  | NCmp op l r => NCmp op (subst d l) (subst d r)
  | NArith op l r => NArith op (subst d l) (subst d r)
  | NIte op a b c => NIte op (subst d a) (subst d b) (subst d c)
  end.

(** [s'] is [s] with every variable of [d] taking the truth value of its definition. *)
Definition defines (d : string -> option node) (s s' : trace) : Prop :=
  forall i x, match d x with
              | Some f => s' i x = VB true <-> holds s i f
              | None => s' i x = s i x
              end.

(** Variables compared or used in arithmetic, that is, not used as Booleans. *)
Fixpoint term_vars (t : node) : list string :=
  match t with
  | NVar _ | NBool _ | NNum _ | NStr _ => []
  | NUn _ a => term_vars a
  | NBin _ l r => term_vars l ++ term_vars r
  | NCmp _ l r | NArith _ l r => vars l ++ vars r
  | NIte _ a b c => term_vars a ++ term_vars b ++ term_vars c
  end.
Definition bool_only (d : string -> option node) (t : node) : Prop :=
  forall x, In x (term_vars t) -> d x = None.

(** The definitions written as texts. *)
Definition defs_of (m : list (string * string)) (x : string) : option node :=
  match find (fun p => fst p =? x) m with Some p => parse (snd p) | None => None end.

(** All formulas of a player's part. *)
Definition part_formulas (p : part) : list node := p_init p ++ p_safe p ++ p_live p.

(** * String variables as integers *)
(** [D] gives the string variables and their domains. *)
Definition enums := string -> option (list string).
Definition spec_enums (g : grspec) : enums := fun x =>
  match find (fun p => fst p =? x) (sys_vars g) with
  | Some (_, DEnum l) => Some l
  | Some _ => None
  | None => match find (fun p => fst p =? x) (env_vars g) with
            | Some (_, DEnum l) => Some l
            | _ => None
            end
  end.
(** [s'] is [s] with each string variable holding the position of its value in the domain. *)
Definition encoded (D : enums) (s s' : trace) : Prop :=
  forall i x, match D x with
              | Some l => exists v k, s i x = VS v /\ nth_error l k = Some v /\ s' i x = VZ (Z.of_nat k)
              | None => s' i x = s i x
              end.
(** A term or formula without string constants and string variables. *)
Definition pure (D : enums) (t : node) : Prop :=
  (forall c, ~ sub (NStr c) t) /\ (forall x, sub (NVar x) t -> D x = None).
(** [X ... X u] *)
Inductive nexts (u : node) : node -> Prop :=
| nx_zero : nexts u u
| nx_succ a : nexts u a -> nexts u (NUn "X" a).
Inductive string_comparison (D : enums) : node -> node -> Prop :=
| sc_const_r x c dom l r : nexts (NVar x) l -> nexts (NStr c) r -> D x = Some dom -> In c dom -> string_comparison D l r
| sc_const_l x c dom l r : nexts (NStr c) l -> nexts (NVar x) r -> D x = Some dom -> In c dom -> string_comparison D l r
| sc_vars x y dom l r : nexts (NVar x) l -> nexts (NVar y) r -> D x = Some dom -> D y = Some dom -> string_comparison D l r.
(** Formulas that use string variables only in equalities and disequalities with constants of
    their domain or with variables of the same domain. *)
Inductive typed (D : enums) : node -> Prop :=
| ty_var x : typed D (NVar x)
| ty_bool v : typed D (NBool v)
| ty_un op a : typed D a -> typed D (NUn op a)
| ty_bin op l r : typed D l -> typed D r -> typed D (NBin op l r)
| ty_ite op a b c : typed D a -> typed D b -> typed D c -> typed D (NIte op a b c)
| ty_pure t : pure D t -> typed D t
| ty_cmp op l r : In op ["="; "!="] -> string_comparison D l r -> typed D (NCmp op l r).
