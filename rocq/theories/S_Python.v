(** Independent meaning of Python expressions, for the operators used here: Python's tokens,
    precedences and evaluation. *)
From Coq Require Import List String Ascii Bool ZArith Arith.
From Verif Require Import M_Ast M_Spec S_LTL S_Gr1 S_Tree.
Import ListNotations.
Open Scope string_scope.

(** * Tokens *)
Inductive pyop := OOr | OAnd | OEq | ONe | OLt | OLe | OGt | OGe | OXor | OPlus | OMinus.
Inductive pytok := KName (x : string) | KNum (n : Z) | KTrue | KFalse | KNot | KLp | KRp | KOp (o : pyop) | KStr (s : string).

Definition is_digit (c : ascii) : bool := let n := nat_of_ascii c in (48 <=? n)%nat && (n <=? 57)%nat.
Definition is_letter (c : ascii) : bool :=
  let n := nat_of_ascii c in
  ((65 <=? n)%nat && (n <=? 90)%nat) || ((97 <=? n)%nat && (n <=? 122)%nat) || (n =? 95)%nat.
Definition word_char (c : ascii) : bool := is_digit c || is_letter c.

(** Decimal literals have no leading zeros, except zero itself. *)
Definition py_number (w : string) : bool :=
  match w with
  | EmptyString => false
  | String c r => forallb is_digit (list_ascii_of_string w) &&
                  (negb (Ascii.eqb c "0") || forallb (Ascii.eqb "0") (list_ascii_of_string r))
  end.
Definition py_keywords : list string :=
  ["False"; "None"; "True"; "and"; "as"; "assert"; "async"; "await"; "break"; "class"; "continue"; "def"; "del";
   "elif"; "else"; "except"; "finally"; "for"; "from"; "global"; "if"; "import"; "in"; "is"; "lambda"; "nonlocal";
   "not"; "or"; "pass"; "raise"; "return"; "try"; "while"; "with"; "yield"].
Definition py_name (w : string) : bool :=
  match w with
  | EmptyString => false
  | String c r => is_letter c && forallb word_char (list_ascii_of_string r) && negb (existsb (String.eqb w) py_keywords)
  end.
(** The tokens of a maximal run of word characters. *)
Definition py_word (w : string) : option (list pytok) :=
  if w =? "" then Some []
  else if w =? "not" then Some [KNot]
  else if w =? "and" then Some [KOp OAnd]
  else if w =? "or" then Some [KOp OOr]
  else if w =? "True" then Some [KTrue]
  else if w =? "False" then Some [KFalse]
  else if py_name w then Some [KName w]
  else if py_number w then option_map (fun n => [KNum n]) (nat_text 0 w)
  else None.
Definition opt_app (a b : option (list pytok)) : option (list pytok) :=
  match a, b with Some x, Some y => Some (x ++ y)%list | _, _ => None end.
(** [w]: the word characters read so far.  String literals are in single quotes; those with a
    backslash or a line break are left out. *)
Fixpoint py_lex (cs : list ascii) (w : string) : option (list pytok) :=
  match cs with
  | [] => py_word w
  | c :: r =>
      if word_char c then py_lex r (w ++ String c "")
      else opt_app (py_word w)
        match c, r with
        | " "%char, _ => py_lex r ""
        | "("%char, _ => option_map (cons KLp) (py_lex r "")
        | ")"%char, _ => option_map (cons KRp) (py_lex r "")
        | "^"%char, _ => option_map (cons (KOp OXor)) (py_lex r "")
        | "+"%char, _ => option_map (cons (KOp OPlus)) (py_lex r "")
        | "-"%char, _ => option_map (cons (KOp OMinus)) (py_lex r "")
        | "="%char, "="%char :: q => option_map (cons (KOp OEq)) (py_lex q "")
        | "!"%char, "="%char :: q => option_map (cons (KOp ONe)) (py_lex q "")
        | "<"%char, "="%char :: q => option_map (cons (KOp OLe)) (py_lex q "")
        | "<"%char, _ => option_map (cons (KOp OLt)) (py_lex r "")
        | ">"%char, "="%char :: q => option_map (cons (KOp OGe)) (py_lex q "")
        | ">"%char, _ => option_map (cons (KOp OGt)) (py_lex r "")
        | "'"%char, _ => py_strlit r ""
        | _, _ => None
        end
  end
with py_strlit (cs : list ascii) (w : string) : option (list pytok) :=
  match cs with
  | [] => None
  | c :: r =>
      if Ascii.eqb c "'" then option_map (cons (KStr w)) (py_lex r "")
      else if Ascii.eqb c "\" || (nat_of_ascii c <? 32)%nat then None
      else py_strlit r (w ++ String c "")
  end.

(** * Expressions, by precedence climbing *)
Inductive pyexp := EName (x : string) | ENum (n : Z) | EBool (b : bool) | EStr (s : string) | ENot (a : pyexp) | ENeg (a : pyexp)
| EBin (o : pyop) (a b : pyexp).
(** Binding strength, weakest first: or, and, not (3), comparisons, ^, + and -. *)
Definition prec (o : pyop) : nat :=
  match o with OOr => 1 | OAnd => 2 | OXor => 5 | OPlus | OMinus => 6 | _ => 4 end.
Definition is_cmp (o : pyop) : bool := match o with OEq | ONe | OLt | OLe | OGt | OGe => true | _ => false end.
Definition starts_cmp (ts : list pytok) : bool := match ts with KOp o :: _ => is_cmp o | _ => false end.
(** Chained comparisons [a < b < c] are left out (no result). *)
Fixpoint py_expr (f m : nat) (ts : list pytok) : option (pyexp * list pytok) :=
  match f with
  | O => None
  | S f =>
      match ts with
      | KName x :: r => py_loop f m (EName x) r
      | KNum n :: r => py_loop f m (ENum n) r
      | KTrue :: r => py_loop f m (EBool true) r
      | KFalse :: r => py_loop f m (EBool false) r
      | KStr s :: r => py_loop f m (EStr s) r
      | KOp OMinus :: KNum n :: r => py_loop f m (ENeg (ENum n)) r
      | KLp :: r => match py_expr f 0 r with Some (e, KRp :: q) => py_loop f m e q | _ => None end
      | KNot :: r => if (m <=? 3)%nat then match py_expr f 3 r with Some (e, q) => py_loop f m (ENot e) q | None => None end
                     else None
      | _ => None
      end
  end
with py_loop (f m : nat) (a : pyexp) (ts : list pytok) : option (pyexp * list pytok) :=
  match f with
  | O => None
  | S f =>
      match ts with
      | KOp o :: r =>
          if (m <=? prec o)%nat then
            match py_expr f (S (prec o)) r with
            | Some (b, q) => if is_cmp o && starts_cmp q then None else py_loop f m (EBin o a b) q
            | None => None
            end
          else Some (a, ts)
      | _ => Some (a, ts)
      end
  end.
Definition py_parse (s : string) : option pyexp :=
  match py_lex (list_ascii_of_string s) "" with
  | Some ts => match py_expr (S (2 * List.length ts)) 0 ts with Some (e, []) => Some e | _ => None end
  | None => None
  end.

(** * Evaluation; [None] is an exception *)
Inductive pyval := PB (b : bool) | PZ (n : Z) | PS (s : string).
Definition truthy (v : pyval) : bool :=
  match v with PB b => b | PZ n => negb (n =? 0)%Z | PS s => negb (s =? "") end.
Definition num_of (v : pyval) : option Z :=
  match v with PB b => Some (if b then 1 else 0)%Z | PZ n => Some n | PS _ => None end.
Definition py_eqv (a b : pyval) : bool :=
  match a, b with
  | PS x, PS y => x =? y
  | _, _ => match num_of a, num_of b with Some x, Some y => (x =? y)%Z | _, _ => false end
  end.
Definition on_num (f : Z -> Z -> pyval) (a b : pyval) : option pyval :=
  match num_of a, num_of b with Some x, Some y => Some (f x y) | _, _ => None end.
Definition py_apply (o : pyop) (a b : pyval) : option pyval :=
  match o with
  | OEq => Some (PB (py_eqv a b))
  | ONe => Some (PB (negb (py_eqv a b)))
  | OLt => on_num (fun x y => PB (x <? y)%Z) a b
  | OLe => on_num (fun x y => PB (x <=? y)%Z) a b
  | OGt => on_num (fun x y => PB (y <? x)%Z) a b
  | OGe => on_num (fun x y => PB (y <=? x)%Z) a b
  | OXor => match a, b with PB x, PB y => Some (PB (xorb x y)) | _, _ => on_num (fun x y => PZ (Z.lxor x y)) a b end
  | OPlus => on_num (fun x y => PZ (x + y)) a b
  | OMinus => on_num (fun x y => PZ (x - y)) a b
  | OAnd | OOr => None
  end.
Fixpoint py_value (env : string -> option pyval) (e : pyexp) : option pyval :=
  match e with
  | EName x => env x
  | ENum n => Some (PZ n)
  | EBool b => Some (PB b)
  | EStr s => Some (PS s)
  | ENot a => option_map (fun v => PB (negb (truthy v))) (py_value env a)
  | ENeg a => match py_value env a with Some v => option_map (fun n => PZ (- n)) (num_of v) | None => None end
  | EBin OAnd a b => match py_value env a with Some v => if truthy v then py_value env b else Some v | None => None end
  | EBin OOr a b => match py_value env a with Some v => if truthy v then Some v else py_value env b | None => None end
  | EBin o a b => match py_value env a, py_value env b with Some x, Some y => py_apply o x y | _, _ => None end
  end.
(** Python's [eval(text, env)]. *)
Definition py_eval (env : string -> option pyval) (s : string) : option pyval :=
  match py_parse s with Some e => py_value env e | None => None end.

(** * States as assignments of Python values, and types *)
Definition to_pyval (v : value) : pyval := match v with VB b => PB b | VZ n => PZ n | VS s => PS s end.
(** Types of variables and terms: Boolean, integer, string. *)
Inductive ty := TyB | TyZ | TyS.
Definition types := string -> option ty.
Definition has_ty (v : value) (k : ty) : Prop :=
  match k with TyB => exists b, v = VB b | TyZ => exists n, v = VZ n | TyS => exists c, v = VS c end.
Definition assignment (Gamma : types) (s : state) : string -> option pyval :=
  fun x => match Gamma x with Some _ => Some (to_pyval (s x)) | None => None end.
Definition respects (Gamma : types) (s : state) : Prop := forall x k, Gamma x = Some k -> has_ty (s x) k.
Inductive wt_term (Gamma : types) : node -> ty -> Prop :=
| wt_var x k : Gamma x = Some k -> py_name x = true -> wt_term Gamma (NVar x) k
| wt_const v : In v ["True"; "False"] -> wt_term Gamma (NBool v) TyB
| wt_num v : py_number v = true -> wt_term Gamma (NNum v) TyZ
| wt_neg v : py_number v = true -> wt_term Gamma (NNum (String "-" v)) TyZ
| wt_str v : wt_term Gamma (NStr v) TyS
| wt_arith op l r : In op ["+"; "-"; "*"] -> wt_term Gamma l TyZ -> wt_term Gamma r TyZ ->
    wt_term Gamma (NArith op l r) TyZ.
(** Well-typed formulas over variables with Python names. *)
Inductive wt (Gamma : types) : node -> Prop :=
| wf_var x : Gamma x = Some TyB -> py_name x = true -> wt Gamma (NVar x)
| wf_bool v : In v ["True"; "False"] -> wt Gamma (NBool v)
| wf_un op a : wt Gamma a -> wt Gamma (NUn op a)
| wf_bin op l r : wt Gamma l -> wt Gamma r -> wt Gamma (NBin op l r)
| wf_eq op l r k : In op ["="; "!="] -> wt_term Gamma l k -> wt_term Gamma r k -> wt Gamma (NCmp op l r)
| wf_cmp op l r : In op ["<"; "<="; ">"; ">="] -> wt_term Gamma l TyZ -> wt_term Gamma r TyZ -> wt Gamma (NCmp op l r)
| wf_ite op a b c : wt Gamma a -> wt Gamma b -> wt Gamma c -> wt Gamma (NIte op a b c).
(** Declared types; and the types after the encoding of strings by integers. *)
Definition dom_ty (d : dom) : ty := match d with DBool => TyB | DInt _ _ => TyZ | DEnum _ => TyS end.
Definition spec_types (g : grspec) : types := fun x =>
  match find (fun p => fst p =? x) (sys_vars g) with
  | Some (_, d) => Some (dom_ty d)
  | None => match find (fun p => fst p =? x) (env_vars g) with
            | Some (_, d) => Some (dom_ty d)
            | None => None
            end
  end.
Definition int_ty (k : ty) : ty := match k with TyS => TyZ | _ => k end.
Definition int_types (Gamma : types) : types := fun x => option_map int_ty (Gamma x).

(** The operators that can be written in Python. *)
Fixpoint py_supported (t : node) : bool :=
  let within op ops := existsb (String.eqb op) ops in
  match t with
  | NVar _ | NBool _ | NNum _ | NStr _ => true
  | NUn op a => (op =? "!") && py_supported a
  | NBin op l r => within op ["&"; "|"; "^"; "->"; "<->"] && py_supported l && py_supported r
  | NCmp op l r => within op ["="; "!="; "<"; "<="; ">"; ">="] && py_supported l && py_supported r
  | NArith op l r => within op ["+"; "-"] && py_supported l && py_supported r
  | NIte _ _ _ _ => false
  end.
