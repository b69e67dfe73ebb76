(** Independent reading of structured slugs documents: words, formulas, sections, their meaning,
    and what is expected of an answer of slugs. *)
From Coq Require Import List String Ascii Bool ZArith.
From Verif Require Import M_Grid M_Base M_Ast M_Spec M_Solvers S_Solvers M_Slugs T_Slugs S_LTL S_Syntax S_Python S_Gr1c.
Import ListNotations.
Open Scope string_scope.
Open Scope list_scope.
Open Scope nat_scope.

(** * Words: the end of a line is a word *)
Definition newline : string := String (ascii_of_nat 10) "".
Definition sl_blank (c : ascii) : bool := Ascii.eqb c " " || Ascii.eqb c (ascii_of_nat 9).
Definition sl_punct (c : ascii) : bool :=
  existsb (Ascii.eqb c) ["("; ")"; "["; "]"; ":"; "."; ascii_of_nat 10]%char.
Fixpoint sl_words (l : list ascii) (acc : string) : list string :=
  match l with
  | [] => flush acc
  | c :: r => if sl_blank c then flush acc ++ sl_words r ""
              else if sl_punct c then flush acc ++ String c "" :: sl_words r ""
              else sl_words r (acc ++ String c "")
  end.

(** * Formulas, with the expressions of [S_Gr1c]; operations are in parentheses *)
Definition sl_name (w : string) : bool :=
  match w with
  | EmptyString => false
  | String c _ => is_letter c && forallb word_char (list_ascii_of_string w) && negb (existsb (String.eqb w) ["TRUE"; "FALSE"])
  end.
Definition sl_atom (w : string) : option gexp :=
  if (w =? "TRUE")%string then Some (GBool true)
  else if (w =? "FALSE")%string then Some (GBool false)
  else match (if number_text w then num_text w else None) with
       | Some z => Some (GNum z)
       | None => if sl_name (fst (unprime w)) then Some (GVar (fst (unprime w)) (snd (unprime w))) else None
       end.
Fixpoint sl_expr (fuel : nat) (ws : list string) : option (gexp * list string) :=
  match fuel with
  | O => None
  | S n =>
    match expect "(" ws with
    | Some r =>
        match expect "!" r with
        | Some r => closing (sl_expr n r) GNot
        | None =>
            match sl_expr n r with
            | Some (a, op :: q) => if (op =? ")")%string then Some (a, q) else closing (sl_expr n q) (GOp op a)
            | _ => None
            end
        end
    | None => match ws with w :: r => option_map (fun e => (e, r)) (sl_atom w) | [] => None end
    end
  end.
(** A line: a formula, or a conjunction of formulas. *)
Fixpoint sl_line (fuel : nat) (ws : list string) : option (gexp * list string) :=
  match fuel with
  | O => None
  | S n =>
    match sl_expr n ws with
    | Some (e, w :: q) =>
        if (w =? newline)%string then Some (e, q)
        else if (w =? "&")%string then
          match sl_line n q with Some (e', q') => Some (GOp "&" e e', q') | None => None end
        else None
    | _ => None
    end
  end.
(** Value on a step: in addition to the operators of [S_Gr1c], sums and differences. *)
Fixpoint sval (cur nxt : state) (e : gexp) : option value :=
  match e with
  | GVar x p => Some ((if p then nxt else cur) x)
  | GBool b => Some (VB b)
  | GNum z => Some (VZ z)
  | GNot a => match sval cur nxt a with Some (VB b) => Some (VB (negb b)) | _ => None end
  | GOp op a b =>
      match sval cur nxt a, sval cur nxt b with
      | Some (VB x), Some (VB y) => option_map VB (gr_logic op x y)
      | Some (VZ x), Some (VZ y) =>
          if (op =? "+")%string then Some (VZ (x + y)) else if (op =? "-")%string then Some (VZ (x - y))
          else option_map VB (gr_order op x y)
      | _, _ => None
      end
  end.
Definition strue (s : trace) (i : nat) (e : gexp) : Prop := sval (s i) (s (S i)) e = Some (VB true).

(** * Documents: the sections in the order in which they are written *)
(** The lines of a section, up to the next heading or the end. *)
Fixpoint sl_items {A} (line : list string -> option (A * list string)) (fuel : nat) (ws : list string)
  : option (list A * list string) :=
  match fuel with
  | O => None
  | S n =>
    match ws with
    | [] => Some ([], [])
    | w :: r =>
        if (w =? newline)%string then sl_items line n r
        else if (w =? "[")%string then Some ([], ws)
        else match line ws with
             | Some (a, q) => match sl_items line n q with Some (l, q') => Some (a :: l, q') | None => None end
             | None => None
             end
    end
  end.
Definition sl_section {A} (line : list string -> option (A * list string)) (name : string) (ws : list string)
  : option (list A * list string) :=
  match strip ["["; name; "]"; newline] ws with
  | Some r => sl_items line (S (List.length r)) r
  | None => None
  end.
(** A declaration: [x] or [x: a...b]. *)
Definition sl_decl (ws : list string) : option ((string * gdom) * list string) :=
  match ws with
  | x :: r =>
      if sl_name x then
        match expect newline r with
        | Some q => Some ((x, GB), q)
        | None =>
            match r with
            | c :: a :: d1 :: d2 :: d3 :: b :: e :: q =>
                match list_eq_dec string_dec [c; d1; d2; d3; e] [":"; "."; "."; "."; newline], num_text a, num_text b with
                | left _, Some a, Some b => Some ((x, GRange a b), q)
                | _, _, _ => None
                end
            | _ => None
            end
        end
      else None
  | [] => None
  end.
Definition sl_formulas (name : string) (ws : list string) : option (list gexp * list string) :=
  sl_section (fun r => sl_line (S (List.length r)) r) name ws.
Definition sl_document (text : string) : option gr_doc :=
  obind (sl_section sl_decl "INPUT" (sl_words (list_ascii_of_string text) "")) (fun '(ev, r) =>
  obind (sl_section sl_decl "OUTPUT" r) (fun '(sv, r) =>
  obind (sl_formulas "ENV_TRANS" r) (fun '(es, r) =>
  obind (sl_formulas "ENV_LIVENESS" r) (fun '(ep, r) =>
  obind (sl_formulas "ENV_INIT" r) (fun '(ei, r) =>
  obind (sl_formulas "SYS_TRANS" r) (fun '(ss, r) =>
  obind (sl_formulas "SYS_LIVENESS" r) (fun '(sp, r) =>
  obind (sl_formulas "SYS_INIT" r) (fun '(si, r) =>
  match r with [] => Some (mkdoc ev sv ei es ep si ss sp) | _ => None end)))))))).
(** Behaviours allowed by one player's sections. *)
Definition sl_part (s : trace) (i t l : list gexp) : Prop :=
  (forall e, In e i -> strue s 0 e) /\
  (forall e, In e t -> forall k, strue s k e) /\
  (forall e, In e l -> forall k, exists j, k <= j /\ strue s j e).

(** * Formulas over Booleans and integers in which next is applied to state formulas and terms *)
Inductive sl_term (Gamma : types) : bool -> node -> ty -> Prop :=
| slt_var b x k : Gamma x = Some k -> k <> TyS -> sl_name x = true -> sl_term Gamma b (NVar x) k
| slt_const b v : In v ["True"; "False"] -> sl_term Gamma b (NBool v) TyB
| slt_num b v : number_text v = true -> sl_term Gamma b (NNum v) TyZ
| slt_arith b op l r : In op ["+"; "-"] -> sl_term Gamma b l TyZ -> sl_term Gamma b r TyZ -> sl_term Gamma b (NArith op l r) TyZ
| slt_next a k : sl_term Gamma true a k -> sl_term Gamma false (NUn "X" a) k.
Inductive sl_formula (Gamma : types) : bool -> node -> Prop :=
| slf_var b x : Gamma x = Some TyB -> sl_name x = true -> sl_formula Gamma b (NVar x)
| slf_bool b v : In v ["True"; "False"] -> sl_formula Gamma b (NBool v)
| slf_not b a : sl_formula Gamma b a -> sl_formula Gamma b (NUn "!" a)
| slf_next a : sl_formula Gamma true a -> sl_formula Gamma false (NUn "X" a)
| slf_bin b op l r : In op ["&"; "|"; "->"; "<->"] -> sl_formula Gamma b l -> sl_formula Gamma b r ->
    sl_formula Gamma b (NBin op l r)
| slf_eq b op l r k : In op ["="; "!="] -> sl_term Gamma b l k -> sl_term Gamma b r k -> sl_formula Gamma b (NCmp op l r)
| slf_cmp b op l r : In op ["<"; "<="; ">"; ">="] -> sl_term Gamma b l TyZ -> sl_term Gamma b r TyZ ->
    sl_formula Gamma b (NCmp op l r).

(** * Answers of slugs *)
Definition as_sdom (d : gdom) : sdom := match d with GB => SBool | GRange a b => SPair a b end.
(** A number that a variable may have. *)
Definition sl_range (d : gdom) (z : Z) : Prop := match d with GB => z = 0%Z \/ z = 1%Z | GRange a b => (a <= z <= b)%Z end.
Section Answer.
  Context (d : gr_doc) (dvars : list string) (nodes : list jnode) (idn : jnode -> Z) (val : Z -> string -> Z).
  Definition at_node (u : Z) (st : state) : Prop :=
    forall x dm, In (x, dm) (d_env d ++ d_sys d) -> st x = value_at (as_dom dm) (val u x).
  Definition sl_edge (u v : Z) : Prop := exists n, In n nodes /\ idn n = u /\ In v (j_trans n).
  (** A node where the initial conditions hold, and the nodes reached from there. *)
  Definition sl_start (u : Z) : Prop :=
    forall s : trace, at_node u (s 0) -> forall e, In e (d_ei d ++ d_si d) -> strue s 0 e.
  Inductive sl_reached : Z -> Prop :=
  | sr_start n : In n nodes -> sl_start (idn n) -> sl_reached (idn n)
  | sr_step u v : sl_reached u -> sl_edge u v -> sl_reached v.
  (** The document lists its nodes with the bits of the values of the variables; every node is
      reached from a node where the initial conditions hold by steps that meet the safety
      assumptions; and every infinite path from such a node meets the specification. *)
  Record sl_describes : Prop := {
    sa_ids : forall n, In n nodes -> py_int (list_ascii_of_string (j_name n)) = Some (idn n);
    sa_distinct : NoDup (map idn nodes);
    sa_closed : forall u v, sl_edge u v -> exists n, In n nodes /\ idn n = v;
    sa_coded : forall n x dm, In n nodes -> In (x, dm) (d_env d ++ d_sys d) ->
      encodes (dict_of (combine dvars (j_state n))) (x, as_sdom dm) (val (idn n) x) /\ sl_range dm (val (idn n) x);
    sa_reached : forall n, In n nodes -> sl_reached (idn n);
    sa_steps : forall (s : trace) i u v, sl_edge u v -> at_node u (s i) -> at_node v (s (S i)) ->
      forall e, In e (d_es d) -> strue s i e;
    sa_wins : forall p s, (exists n, In n nodes /\ idn n = p 0) -> sl_start (p 0) ->
      (forall i, sl_edge (p i) (p (S i)) /\ at_node (p i) (s i)) ->
      sl_part s (d_ei d) (d_es d) (d_ep d) -> sl_part s (d_si d) (d_ss d) (d_sp d) }.
End Answer.
Definition slugs_answer (d : gr_doc) (dvars : list string) (nodes : list jnode) : Prop :=
  exists idn val, sl_describes d dvars nodes idn val.
