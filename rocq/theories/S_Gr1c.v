(** Independent reading of gr1c documents: words, formulas, sections, and their meaning. *)
From Coq Require Import List String Ascii Bool ZArith.
From Verif Require Import M_Ast M_Spec S_LTL S_Syntax S_Python.
Import ListNotations.
Open Scope string_scope.

(** * Words *)
Definition blank (c : ascii) : bool := Ascii.eqb c " " || Ascii.eqb c (ascii_of_nat 10) || Ascii.eqb c (ascii_of_nat 9).
Definition punct (c : ascii) : bool := existsb (Ascii.eqb c) ["("; ")"; ";"; ":"; "["; "]"; ","]%char.
Definition flush (acc : string) : list string := if acc =? "" then [] else [acc].
Fixpoint words (l : list ascii) (acc : string) : list string :=
  match l with
  | [] => flush acc
  | c :: r => if blank c then (flush acc ++ words r "")%list
              else if punct c then (flush acc ++ String c "" :: words r "")%list
              else words r (acc ++ String c "")
  end.

(** * Formulas over the current and the next state *)
Inductive gexp :=
| GVar (x : string) (next : bool)
| GBool (b : bool)
| GNum (z : Z)
| GNot (a : gexp)
| GOp (op : string) (a b : gexp).
Definition gr_reserved : list string :=
  ["True"; "False"; "ENV"; "SYS"; "ENVINIT"; "ENVTRANS"; "ENVGOAL"; "SYSINIT"; "SYSTRANS"; "SYSGOAL"].
(** Letters, digits and underscore, not starting with a digit. *)
Definition gr_name (w : string) : bool :=
  match w with
  | EmptyString => false
  | String c _ => is_letter c && forallb word_char (list_ascii_of_string w) && negb (existsb (String.eqb w) gr_reserved)
  end.
(** Name and prime mark. *)
Fixpoint unprime (w : string) : string * bool :=
  match w with
  | EmptyString => ("", false)
  | String c EmptyString => if Ascii.eqb c "'" then ("", true) else (w, false)
  | String c r => (String c (fst (unprime r)), snd (unprime r))
  end.
Definition gr_atom (w : string) : option gexp :=
  if w =? "True" then Some (GBool true)
  else if w =? "False" then Some (GBool false)
  else match (if number_text w then num_text w else None) with
       | Some z => Some (GNum z)
       | None => if gr_name (fst (unprime w)) then Some (GVar (fst (unprime w)) (snd (unprime w))) else None
       end.
(** Operations are in parentheses. *)
Definition expect (w : string) (ws : list string) : option (list string) :=
  match ws with x :: r => if x =? w then Some r else None | [] => None end.
Definition closing (o : option (gexp * list string)) (f : gexp -> gexp) : option (gexp * list string) :=
  match o with
  | Some (e, q) => match expect ")" q with Some q => Some (f e, q) | None => None end
  | None => None
  end.
Fixpoint gr_expr (fuel : nat) (ws : list string) : option (gexp * list string) :=
  match fuel with
  | O => None
  | S n =>
    match expect "(" ws with
    | Some r =>
        match expect "!" r with
        | Some r => closing (gr_expr n r) GNot
        | None =>
            match gr_expr n r with
            | Some (a, op :: q) => if op =? ")" then Some (a, q) else closing (gr_expr n q) (GOp op a)
            | _ => None
            end
        end
    | None => match ws with w :: r => option_map (fun e => (e, r)) (gr_atom w) | [] => None end
    end
  end.
Definition gr_logic (op : string) (a b : bool) : option bool :=
  if op =? "&" then Some (a && b) else if op =? "|" then Some (a || b)
  else if op =? "->" then Some (negb a || b) else if op =? "<->" then Some (Bool.eqb a b)
  else if op =? "=" then Some (Bool.eqb a b) else if op =? "!=" then Some (negb (Bool.eqb a b)) else None.
Definition gr_order (op : string) (a b : Z) : option bool :=
  if op =? "=" then Some (a =? b)%Z else if op =? "!=" then Some (negb (a =? b)%Z)
  else if op =? "<" then Some (a <? b)%Z else if op =? "<=" then Some (a <=? b)%Z
  else if op =? ">" then Some (b <? a)%Z else if op =? ">=" then Some (b <=? a)%Z else None.
(** Value of an expression on a step. *)
Fixpoint gval (cur nxt : state) (e : gexp) : option value :=
  match e with
  | GVar x p => Some ((if p then nxt else cur) x)
  | GBool b => Some (VB b)
  | GNum z => Some (VZ z)
  | GNot a => match gval cur nxt a with Some (VB b) => Some (VB (negb b)) | _ => None end
  | GOp op a b =>
      match gval cur nxt a, gval cur nxt b with
      | Some (VB x), Some (VB y) => option_map VB (gr_logic op x y)
      | Some (VZ x), Some (VZ y) => option_map VB (gr_order op x y)
      | _, _ => None
      end
  end.
Definition gtrue (s : trace) (i : nat) (e : gexp) : Prop := gval (s i) (s (S i)) e = Some (VB true).
(** The meaning of a single text. *)
Definition gr_text (w : string) : option gexp :=
  let ws := words (list_ascii_of_string w) "" in
  match gr_expr (S (List.length ws)) ws with Some (e, []) => Some e | _ => None end.

(** * Documents *)
Inductive gdom := GB | GRange (a b : Z).
Record gr_doc := mkdoc { d_env : list (string * gdom); d_sys : list (string * gdom);
  d_ei : list gexp; d_es : list gexp; d_ep : list gexp; d_si : list gexp; d_ss : list gexp; d_sp : list gexp }.
(** Declarations up to the semicolon: [x] or [x \[a, b\]]. *)
Definition gr_range (ws : list string) : gdom * list string :=
  match ws with
  | o :: a :: c :: b :: e :: r =>
      match (o =? "[") && (c =? ",") && (e =? "]"), num_text a, num_text b with
      | true, Some a, Some b => (GRange a b, r)
      | _, _, _ => (GB, ws)
      end
  | _ => (GB, ws)
  end.
Fixpoint gr_decls (fuel : nat) (ws : list string) : option (list (string * gdom) * list string) :=
  match fuel with
  | O => None
  | S n =>
    match ws with
    | [] => None
    | x :: r =>
        if x =? ";" then Some ([], r)
        else if gr_name x then
          match gr_decls n (snd (gr_range r)) with
          | Some (l, q) => Some ((x, fst (gr_range r)) :: l, q)
          | None => None
          end
        else None
    end
  end.
Fixpoint strip (p ws : list string) : option (list string) :=
  match p, ws with
  | [], _ => Some ws
  | a :: p, b :: r => if a =? b then strip p r else None
  | _, _ => None
  end.
(** Conjuncts, each with prefix [p], joined by [&], up to the semicolon. *)
Fixpoint gr_conjuncts (fuel : nat) (p ws : list string) : option (list gexp * list string) :=
  match fuel with
  | O => None
  | S n =>
    match strip p ws with
    | None => None
    | Some r =>
      match gr_expr n r with
      | Some (e, w :: q) =>
          if w =? ";" then Some ([e], q)
          else if w =? "&" then match gr_conjuncts n p q with Some (l, q') => Some (e :: l, q') | None => None end
          else None
      | _ => None
      end
    end
  end.
Definition gr_section (name : string) (p ws : list string) : option (list gexp * list string) :=
  match strip [name; ":"] ws with
  | Some r => match expect ";" r with
              | Some q => Some ([], q)
              | None => gr_conjuncts (S (List.length r)) p r
              end
  | None => None
  end.
Definition gr_var_section (name : string) (ws : list string) : option (list (string * gdom) * list string) :=
  match strip [name; ":"] ws with Some r => gr_decls (S (List.length r)) r | None => None end.
Definition obind {A B} (o : option A) (f : A -> option B) : option B := match o with Some a => f a | None => None end.
Definition always_prefix := ["["; "]"].
Definition recurrence_prefix := ["["; "]"; "<>"].
Definition gr_document (text : string) : option gr_doc :=
  obind (gr_var_section "ENV" (words (list_ascii_of_string text) "")) (fun '(ev, r) =>
  obind (gr_var_section "SYS" r) (fun '(sv, r) =>
  obind (gr_section "ENVINIT" [] r) (fun '(ei, r) =>
  obind (gr_section "ENVTRANS" always_prefix r) (fun '(es, r) =>
  obind (gr_section "ENVGOAL" recurrence_prefix r) (fun '(ep, r) =>
  obind (gr_section "SYSINIT" [] r) (fun '(si, r) =>
  obind (gr_section "SYSTRANS" always_prefix r) (fun '(ss, r) =>
  obind (gr_section "SYSGOAL" recurrence_prefix r) (fun '(sp, r) =>
  match r with [] => Some (mkdoc ev sv ei es ep si ss sp) | _ => None end)))))))).
(** Behaviours allowed by one player's sections. *)
Definition doc_part (s : trace) (i t l : list gexp) : Prop :=
  (forall e, In e i -> gtrue s 0 e) /\
  (forall e, In e t -> forall k, gtrue s k e) /\
  (forall e, In e l -> forall k, exists j, k <= j /\ gtrue s j e).
(** The declared ranges: a string variable ranges over the positions of its values. *)
Definition gr_dom (d : dom) : gdom :=
  match d with DBool => GB | DInt a b => GRange a b | DEnum l => GRange 0 (Z.of_nat (List.length l) - 1) end.

(** * Formulas in which next is applied to state formulas and terms only *)
(** [b]: under a next. *)
Inductive step_term (Gamma : types) : bool -> node -> ty -> Prop :=
| st_var b x k : Gamma x = Some k -> gr_name x = true -> step_term Gamma b (NVar x) k
| st_const b v : In v ["True"; "False"] -> step_term Gamma b (NBool v) TyB
| st_num b v : number_text v = true -> step_term Gamma b (NNum v) TyZ
| st_str b v : step_term Gamma b (NStr v) TyS
| st_next a k : step_term Gamma true a k -> step_term Gamma false (NUn "X" a) k.
Inductive step_formula (Gamma : types) : bool -> node -> Prop :=
| sf_var b x : Gamma x = Some TyB -> gr_name x = true -> step_formula Gamma b (NVar x)
| sf_bool b v : In v ["True"; "False"] -> step_formula Gamma b (NBool v)
| sf_not b a : step_formula Gamma b a -> step_formula Gamma b (NUn "!" a)
| sf_next a : step_formula Gamma true a -> step_formula Gamma false (NUn "X" a)
| sf_bin b op l r : In op ["&"; "|"; "->"; "<->"] -> step_formula Gamma b l -> step_formula Gamma b r ->
    step_formula Gamma b (NBin op l r)
| sf_eq b op l r k : In op ["="; "!="] -> step_term Gamma b l k -> step_term Gamma b r k -> step_formula Gamma b (NCmp op l r)
| sf_cmp b op l r : In op ["<"; "<="; ">"; ">="] -> step_term Gamma b l TyZ -> step_term Gamma b r TyZ ->
    step_formula Gamma b (NCmp op l r).
(** The operators of gr1c, printed or (next) expressed by a prime. *)
Fixpoint gr_supported (t : node) : bool :=
  let within op ops := existsb (String.eqb op) ops in
  match t with
  | NVar _ | NBool _ | NNum _ | NStr _ => true
  | NUn op a => within op ["!"; "X"; "G"; "F"] && gr_supported a
  | NBin op l r => within op ["&"; "|"; "->"; "<->"] && gr_supported l && gr_supported r
  | NCmp op l r => within op ["="; "!="; "<"; "<="; ">"; ">="] && gr_supported l && gr_supported r
  | NArith _ _ _ | NIte _ _ _ _ => false
  end.
