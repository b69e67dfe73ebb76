(** Model of class GRSpec (operations), tulip/spec/form.py:176-190, 436-593, 698-814, 1040-1050,
    and of tulip/spec/transformation.py:226-278, 361-401, 501-519. *)
From Coq Require Import List String ZArith Bool.
From Verif Require Import M_Base M_Ast M_Lexer M_Parser M_Spec M_Split M_Gr1.
Import ListNotations.
Open Scope string_scope.

(** * Dictionaries *)
Definition has {A} (k : string) (d : list (string * A)) : bool :=
  match lookup k d with Some _ => true | None => false end.
(** [d[k] = v]: an existing key keeps its place. *)
Fixpoint dset {A} (k : string) (v : A) (d : list (string * A)) : list (string * A) :=
  match d with
  | [] => [(k, v)]
  | (k', v') :: r => if k =? k' then (k, v) :: r else (k', v') :: dset k v r
  end.
(** [d.update(e)] *)
Definition dupdate {A} (d e : list (string * A)) : list (string * A) :=
  fold_left (fun d kv => dset (fst kv) (snd kv) d) e d.

Definition dom_eqb (a b : dom) : bool :=
  match a, b with
  | DBool, DBool => true
  | DInt x y, DInt x' y' => (x =? x')%Z && (y =? y')%Z
  | DEnum l, DEnum l' => if list_eq_dec string_dec l l' then true else false
  | _, _ => false
  end.

(** * Construction: form.py:436-553 *)
(** A clause argument: a text or an iterable of texts (527-541). *)
Inductive conjuncts : Type := CStr (s : string) | CList (l : list string).
Definition mapper (c : conjuncts) : list string :=
  match c with CStr s => if s =? "" then [] else [s] | CList l => l end.

(** form.py:176-190. *)
Definition check_vars (ev sv : vardecl) : res unit :=
  if existsb (fun kv => has (fst kv) sv) ev then Err "Exception" else Ok tt.

(** form.py:436-553.  Variables are given as dictionaries. *)
Definition new_spec (ev sv : vardecl) (ei si es ss ep sp : conjuncts)
    (mo po : bool) (qi : string) : res grspec :=
  do _ <- check_vars ev sv;
  Ok (mkspec ev sv (mapper ei) (mapper si) (mapper es) (mapper ss) (mapper ep) (mapper sp) mo po qi).

(** form.py:741-755. *)
Definition copy (g : grspec) : res grspec :=
  do r <- new_spec (env_vars g) (sys_vars g) (CList (env_init g)) (CList (sys_init g))
            (CList (env_safety g)) (CList (sys_safety g)) (CList (env_prog g)) (CList (sys_prog g))
            true true "\A \A";
  Ok (mkspec (env_vars r) (sys_vars r) (env_init r) (sys_init r) (env_safety r) (sys_safety r)
        (env_prog r) (sys_prog r) (moore g) (plus_one g) (qinit g)).

(** form.py:770-776: a common variable with two domains. *)
Definition mismatch (a b : vardecl) : bool :=
  existsb (fun kv => match lookup (fst kv) b with
                     | Some d => match lookup (fst kv) a with
                                 | Some d' => negb (dom_eqb d d')
                                 | None => false
                                 end
                     | None => false
                     end) a.

(** form.py:757-783. *)
Definition spec_or (self other : grspec) : res grspec :=
  do r <- copy self;
  if negb (Bool.eqb (moore self) (moore other)) then Err "AssertionError"
  else if negb (Bool.eqb (plus_one self) (plus_one other)) then Err "AssertionError"
  else if negb (qinit self =? qinit other) then Err "AssertionError"
  else if mismatch (env_vars other) (env_vars r) then Err "ValueError"
  else if mismatch (sys_vars other) (sys_vars r) then Err "ValueError"
  else Ok (mkspec (dupdate (env_vars r) (env_vars other)) (dupdate (sys_vars r) (sys_vars other))
             (env_init r ++ env_init other) (sys_init r ++ sys_init other)
             (env_safety r ++ env_safety other) (sys_safety r ++ sys_safety other)
             (env_prog r ++ env_prog other) (sys_prog r ++ sys_prog other)
             (moore r) (plus_one r) (qinit r)).

(** * declare: form.py:555-593 *)
Inductive pyval : Type := PInt (z : Z) | PStr (s : string).
Definition declared_dom (v : list pyval) : res dom :=
  match v with
  | [PInt a; PInt b] => Ok (DInt a b)
  | _ => do l <- mapr (fun q => match q with PStr s => Ok s | PInt _ => Err "TypeError" end) v;
         Ok (DEnum l)
  end.
Definition check_decl (target other d : vardecl) : bool :=
  forallb (fun kv => negb (has (fst kv) other)
                     && match lookup (fst kv) target with
                        | Some x => dom_eqb x (snd kv)
                        | None => true
                        end) d.
(** The dictionary [d] of the call. *)
Definition decl_dict (args : list string) (kw : list (string * list pyval)) : res vardecl :=
  do d <- mapr (fun kv => do x <- declared_dom (snd kv); Ok (fst kv, x)) kw;
  Ok (dupdate d (map (fun v => (v, DBool)) args)).
(** The object after the call, and whether the call raised. *)
Definition declare (g : grspec) (env : bool) (args : list string) (kw : list (string * list pyval))
    : grspec * res unit :=
  match decl_dict args kw with
  | Err e => (g, Err e)
  | Ok d =>
      let target := if env then env_vars g else sys_vars g in
      let other := if env then sys_vars g else env_vars g in
      if check_decl target other d then
        let t' := dupdate target d in
        (mkspec (if env then t' else env_vars g) (if env then sys_vars g else t')
           (env_init g) (sys_init g) (env_safety g) (sys_safety g) (env_prog g) (sys_prog g)
           (moore g) (plus_one g) (qinit g), Ok tt)
      else (g, Err "AssertionError")
  end.

(** * to_canon: form.py:785-814, 1040-1050 *)
Definition conj (l : list string) (unary op : string) : string :=
  join (" " ++ op ++ " ") (map (fun s => unary ++ "(" ++ s ++ ")") l).
Definition conj_cstr (s : string) : string := if s =? "" then "" else " && ".
Definition canon_side (init safety prog : list string) : string :=
  let a := "" in
  let a := match init with [] => a | _ => a ++ conj_cstr a ++ conj init "" "&&" end in
  let a := match safety with [] => a | _ => a ++ conj_cstr a ++ conj safety "[]" "&&" end in
  match prog with [] => a | _ => a ++ conj_cstr a ++ conj prog "[]<>" "&&" end.
Definition to_canon (g : grspec) : string :=
  let assumption := canon_side (env_init g) (env_safety g) (env_prog g) in
  let guarantee := canon_side (sys_init g) (sys_safety g) (sys_prog g) in
  if guarantee =? "" then "True"
  else if assumption =? "" then guarantee
  else "(" ++ assumption ++ ") -> (" ++ guarantee ++ ")".

(** * Clause trees: form.py:931-975 *)
(** transformation.py:361-401 raises StopIteration when no ancestor has two operands; used by
    transformation.py:226-278 on every Num and Str.  Its domain checks are dead code: the second
    component returned is the operator, whose type is neither 'str' nor 'num'. *)
Fixpoint constants_paired (above : bool) (t : node) : bool :=
  match t with
  | NVar _ | NBool _ => true
  | NNum _ | NStr _ => above
  | NUn _ a => constants_paired above a
  | NBin _ l r | NCmp _ l r | NArith _ l r => constants_paired true l && constants_paired true r
  | NIte _ a b c => constants_paired above a && constants_paired above b && constants_paired above c
  end.
(** transformation.py:226-278; which of the two errors comes first depends on the iteration
    order, the model reports the undefined variable. *)
Definition check_identifiers (t : node) (domains : vardecl) : res unit :=
  if forallb (fun v => has v domains) (tree_vars t) then
    if constants_paired false t then Ok tt else Err "StopIteration"
  else Err "ValueError".
(** form.py:931-975 with an empty cache: one clause is looked up after all of them have been
    parsed and checked. *)
Definition clauses (g : grspec) : list string :=
  env_init g ++ sys_init g ++ env_safety g ++ sys_safety g ++ env_prog g ++ sys_prog g.
Definition vardoms (g : grspec) : vardecl := dupdate (env_vars g) (sys_vars g).
Definition parse_clause (g : grspec) (x : string) : res node :=
  match parse x with
  | None => Err "Exception"
  | Some t => do _ <- check_identifiers t (vardoms g); Ok t
  end.
Definition ast (g : grspec) (x : string) : res node :=
  do _ <- mapr (parse_clause g) (clauses g); parse_clause g x.

(** * Primed variables: transformation.py:501-519 *)
Fixpoint primed_loop (fuel : nat) (Q : list (node * bool)) (acc : list string)
    : option (list string) :=
  match fuel with
  | O => None
  | S n =>
    match Q with
    | [] => Some acc
    | (u, c) :: Q' =>
        let acc := match u with NVar v => if c then v :: acc else acc | _ => acc end in
        let c := match operator u with Some op => (op =? "X") || c | None => c end in
        primed_loop n (rev (map (fun v => (v, c)) (operands u)) ++ Q') acc
    end
  end.
Definition collect_primed_vars (t : node) : res (list string) :=
  of_opt "fuel" (primed_loop (S (size t)) [(t, false)] []).

Fixpoint iter_check {A} (f : A -> res unit) (l : list A) : res unit :=
  match l with [] => Ok tt | x :: r => do _ <- f x; iter_check f r end.
(** form.py:723-739. *)
Definition assert_no_primed (g : grspec) (l : list string) : res unit :=
  iter_check (fun f => do a <- ast g f; do p <- collect_primed_vars a;
                       match p with [] => Ok tt | _ => Err "AssertionError" end) l.
(** form.py:698-721: the fourth check reads env_prog again, not sys_prog. *)
Definition check_syntax (g : grspec) : res unit :=
  do _ <- assert_no_primed g (env_init g);
  do _ <- assert_no_primed g (sys_init g);
  do _ <- assert_no_primed g (env_prog g);
  do _ <- assert_no_primed g (env_prog g);
  iter_check (fun f => do a <- ast g f; do p <- collect_primed_vars a;
                       if existsb (fun v => has v (sys_vars g)) p then Err "AssertionError"
                       else Ok tt) (env_safety g).
