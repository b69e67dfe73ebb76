(** Model of the syntax tree as a graph, tulip/spec/transformation.py:64-160, 340-401, and of the
    rewritings built on it. *)
From Coq Require Import List String Bool Arith.
From Verif Require Import M_Base M_Ast M_Parser M_Spec M_Form.
Import ListNotations.
Open Scope string_scope.

(** * Objects *)
(** tulip/spec/ast.py:155-353: class and payload of one node object. *)
Inductive term : Type := TVar (v : string) | TBool (v : string) | TNum (v : string) | TStr (v : string).
Inductive bkind : Type := KBin | KCmp | KArith.
Inductive head : Type :=
| HTerm (t : term) | HUn (op : string) | HBin (k : bkind) (op : string) | HIte (op : string).
(** A node object: its identity ([__hash__] is [id], ast.py:181) and its class with payload. *)
Definition obj : Type := (nat * head)%type.

Definition term_eq_dec (a b : term) : {a = b} + {a <> b}.
Proof. decide equality; apply string_dec. Defined.
Definition head_eq_dec (a b : head) : {a = b} + {a <> b}.
Proof. decide equality; try apply string_dec; [apply term_eq_dec|decide equality]. Defined.
Definition obj_eq_dec (a b : obj) : {a = b} + {a <> b}.
Proof. decide equality; [apply head_eq_dec|apply Nat.eq_dec]. Defined.
Definition obj_eqb (a b : obj) : bool := if obj_eq_dec a b then true else false.
(** ast.py:198-200 [Terminal.__eq__]: same class and value; operators keep object identity. *)
Definition py_eq (a b : obj) : bool :=
  match snd a, snd b with
  | HTerm s, HTerm t => if term_eq_dec s t then true else false
  | _, _ => obj_eqb a b
  end.

(** A recursive syntax tree of objects (attribute [operands] inlined). *)
Inductive rast : Type :=
| RTerm (i : nat) (t : term)
| RUn (i : nat) (op : string) (a : rast)
| RBin (i : nat) (k : bkind) (op : string) (a b : rast)
| RIte (i : nat) (op : string) (a b c : rast).

Definition robj (t : rast) : obj :=
  match t with
  | RTerm i t => (i, HTerm t)
  | RUn i op _ => (i, HUn op)
  | RBin i k op _ _ => (i, HBin k op)
  | RIte i op _ _ _ => (i, HIte op)
  end.
Fixpoint robjs (t : rast) : list obj :=
  robj t :: match t with
            | RTerm _ _ => []
            | RUn _ _ a => robjs a
            | RBin _ _ _ a b => robjs a ++ robjs b
            | RIte _ _ a b c => robjs a ++ robjs b ++ robjs c
            end%list.

Definition term_node (t : term) : node :=
  match t with TVar v => NVar v | TBool v => NBool v | TNum v => NNum v | TStr v => NStr v end.
Definition bin_node (k : bkind) (op : string) (a b : node) : node :=
  match k with KBin => NBin op a b | KCmp => NCmp op a b | KArith => NArith op a b end.
(** The tree without the identities. *)
Fixpoint erase (t : rast) : node :=
  match t with
  | RTerm _ t => term_node t
  | RUn _ op a => NUn op (erase a)
  | RBin _ k op a b => bin_node k op (erase a) (erase b)
  | RIte _ op a b c => NIte op (erase a) (erase b) (erase c)
  end.
(** The parser creates a new object for every node of its result: identities from [n] on. *)
Fixpoint alloc (n : nat) (t : node) : rast * nat :=
  match t with
  | NVar v => (RTerm n (TVar v), S n)
  | NBool v => (RTerm n (TBool v), S n)
  | NNum v => (RTerm n (TNum v), S n)
  | NStr v => (RTerm n (TStr v), S n)
  | NUn op a => let '(x, m) := alloc (S n) a in (RUn n op x, m)
  | NBin op a b => let '(x, m) := alloc (S n) a in let '(y, k) := alloc m b in (RBin n KBin op x y, k)
  | NCmp op a b => let '(x, m) := alloc (S n) a in let '(y, k) := alloc m b in (RBin n KCmp op x y, k)
  | NArith op a b => let '(x, m) := alloc (S n) a in let '(y, k) := alloc m b in (RBin n KArith op x y, k)
  | NIte op a b c =>
      let '(x, m) := alloc (S n) a in let '(y, k) := alloc m b in let '(z, j) := alloc k c in
      (RIte n op x y z, j)
  end.

(** * The graph: transformation.py:64-160 *)
Definition edge : Type := (obj * obj * nat)%type.
Definition src (e : edge) : obj := fst (fst e).
Definition dst (e : edge) : obj := snd (fst e).
Definition key (e : edge) : nat := snd e.
Definition edge_eq_dec (a b : edge) : {a = b} + {a <> b}.
Proof. decide equality; [apply Nat.eq_dec|decide equality; apply obj_eq_dec]. Defined.

(** networkx.MultiDiGraph: nodes and keyed edges in order of insertion, and [self.root]. *)
Record graph : Type := mkgraph { g_root : obj; g_nodes : list obj; g_edges : list edge }.

Definition add_node (o : obj) (g : graph) : graph :=
  if in_dec obj_eq_dec o (g_nodes g) then g
  else mkgraph (g_root g) (g_nodes g ++ [o])%list (g_edges g).
Definition add_edge (u v : obj) (k : nat) (g : graph) : graph :=
  let g := add_node v (add_node u g) in
  if in_dec edge_eq_dec (u, v, k) (g_edges g) then g
  else mkgraph (g_root g) (g_nodes g) (g_edges g ++ [(u, v, k)])%list.
Definition remove_node (o : obj) (g : graph) : graph :=
  mkgraph (g_root g)
    (filter (fun x => negb (obj_eqb x o)) (g_nodes g))
    (filter (fun e => negb (obj_eqb (src e) o) && negb (obj_eqb (dst e) o)) (g_edges g)).
Definition out_edges (g : graph) (u : obj) : list edge :=
  filter (fun e => obj_eqb (src e) u) (g_edges g).
Definition in_edges (g : graph) (u : obj) : list edge :=
  filter (fun e => obj_eqb (dst e) u) (g_edges g).

(** transformation.py:100-126. *)
Fixpoint recurse (t : rast) (g : graph) : graph :=
  match t with
  | RTerm _ _ => add_node (robj t) g
  | RUn _ _ a => recurse a (add_edge (robj t) (robj a) 0 g)
  | RBin _ _ _ a b =>
      recurse b (add_edge (robj t) (robj b) 1 (recurse a (add_edge (robj t) (robj a) 0 g)))
  | RIte _ _ a b c =>
      recurse c (add_edge (robj t) (robj c) 2
        (recurse b (add_edge (robj t) (robj b) 1 (recurse a (add_edge (robj t) (robj a) 0 g)))))
  end.
Definition from_recursive_ast (t : rast) : graph := recurse t (mkgraph (robj t) [] []).

(** [sorted(..., key=lambda x: x[2])] *)
Fixpoint insert_edge (e : edge) (l : list edge) : list edge :=
  match l with
  | [] => [e]
  | x :: r => if (key e <=? key x)%nat then e :: x :: r else x :: insert_edge e r
  end.
Definition sort_edges (l : list edge) : list edge := fold_right insert_edge [] l.

(** transformation.py:128-143; the copies are returned as plain trees.  Recursion on fuel: the
    depth of the tree. *)
Fixpoint to_recursive (fuel : nat) (g : graph) (u : obj) : res node :=
  match fuel with
  | O => Err "fuel"
  | S n =>
      do ws <- mapr (fun e => to_recursive n g (dst e)) (sort_edges (out_edges g u));
      match snd u, ws with
      | HTerm t, [] => Ok (term_node t)
      | HUn op, [a] => Ok (NUn op a)
      | HBin k op, [a; b] => Ok (bin_node k op a b)
      | HIte op, [a; b; c] => Ok (NIte op a b c)
      | _, _ => Err "AssertionError"
      end
  end.
Definition to_recursive_ast (fuel : nat) (g : graph) : res node := to_recursive fuel g (g_root g).

(** transformation.py:145-169. *)
Definition add_subtree (leaf : obj) (tree : graph) (g : graph) : res graph :=
  match out_edges g leaf with
  | _ :: _ => Err "AssertionError"
  | [] =>
      let g := fold_left (fun g e => add_edge (src e) (dst e) (key e) g) (g_edges tree) g in
      match in_edges g leaf with
      | [] => Ok (remove_node leaf (mkgraph (g_root tree) (g_nodes g) (g_edges g)))
      | [e] => Ok (remove_node leaf (add_edge (src e) (g_root tree) (key e) g))
      | _ => Err "AssertionError"
      end
  end.

(** transformation.py:340-358. *)
Definition sub_bool_with_subtree (g : graph) (m : list (string * graph)) : res graph :=
  fold_left (fun rg u =>
      do g <- rg;
      match snd u with
      | HTerm (TVar v) => match lookup v m with Some t => add_subtree u t g | None => Ok g end
      | _ => Ok g
      end) (g_nodes g) (Ok g).

(** networkx [relabel_nodes(tree, old2new, copy=False)]; the root attribute of the tree is not
    touched. *)
Definition relabel (m : list (obj * obj)) (o : obj) : obj :=
  match find (fun p => obj_eqb (fst p) o) m with Some p => snd p | None => o end.
Definition relabel_nodes (m : list (obj * obj)) (g : graph) : graph :=
  mkgraph (g_root g) (map (relabel m) (g_nodes g))
    (map (fun e => (relabel m (src e), relabel m (dst e), key e)) (g_edges g)).

(** * Pairing constants with variables: transformation.py:361-401 *)
Definition two_operands_b (h : head) : bool := match h with HBin _ _ => true | _ => false end.
(** The first loop: [(old, c)] with [c] the nearest ancestor with two operands. *)
Fixpoint climb (fuel : nat) (g : graph) (c : obj) : res (obj * obj) :=
  match fuel with
  | O => Err "fuel"
  | S n => match in_edges g c with
           | [] => Err "StopIteration"
           | e :: _ => if two_operands_b (snd (src e)) then Ok (c, src e) else climb n g (src e)
           end
  end.
(** The distinct successors, in order of insertion. *)
Fixpoint distinct (l : list obj) : list obj :=
  match l with
  | [] => []
  | x :: r => x :: filter (fun y => negb (obj_eqb y x)) (distinct r)
  end.
Definition successors (g : graph) (u : obj) : list obj := distinct (map dst (out_edges g u)).
(** The second loop: down along first successors. *)
Fixpoint down (fuel : nat) (g : graph) (v : obj) : res obj :=
  match fuel with
  | O => Err "fuel"
  | S n => match successors g v with [] => Ok v | w :: _ => down n g w end
  end.
Definition pair_node_to_var (g : graph) (c : obj) : res (obj * obj) :=
  let n := S (List.length (g_nodes g)) in
  do oc <- climb n g c;
  match successors g (snd oc) with
  | [p; q] => let v := if py_eq q (fst oc) then p else q in
              do w <- down n g v; Ok (w, snd oc)
  | _ => Err "ValueError"
  end.

(** Python [l.index(x)]. *)
Fixpoint index_of (x : string) (l : list string) : option nat :=
  match l with
  | [] => None
  | y :: r => if x =? y then Some 0 else option_map S (index_of x r)
  end.
Definition term_text (t : term) : string :=
  match t with TVar v | TBool v | TNum v | TStr v => v end.

(** Decimal text of a natural number, Python [str(x)]. *)
Definition digit_char (d : nat) : Ascii.ascii := Ascii.ascii_of_nat (48 + d).
Fixpoint dec_digits (fuel n : nat) (acc : string) : string :=
  match fuel with
  | O => acc
  | S f => let acc := String (digit_char (n mod 10)) acc in
           match n / 10 with O => acc | m => dec_digits f m acc end
  end.
Definition str_nat (n : nat) : string := dec_digits (S n) n "".

(** transformation.py:311-336.  The new objects get identities from [fresh] on. *)
Fixpoint sub_constants_map (g : graph) (fvars : list (string * list string)) (fresh : nat)
    (us : list obj) : res (list (obj * obj)) :=
  match us with
  | [] => Ok []
  | u :: r =>
      match snd u with
      | HTerm (TStr s) =>
          do vc <- pair_node_to_var g u;
          match snd (fst vc) with
          | HTerm t =>
              do dom <- of_opt "KeyError" (lookup (term_text t) fvars);
              do x <- of_opt "ValueError" (index_of s dom);
              do m <- sub_constants_map g fvars (S fresh) r;
              Ok ((u, (fresh, HTerm (TNum (str_nat x)))) :: m)
          | _ => Err "KeyError"
          end
      | _ => sub_constants_map g fvars fresh r
      end
  end.
Definition sub_constants (g : graph) (fvars : list (string * list string)) (fresh : nat) : res graph :=
  do m <- sub_constants_map g fvars fresh (g_nodes g);
  Ok (relabel_nodes m g).

(** * Uses *)
(** form.py:1017-1024: the subtrees, each with objects of its own. *)
Fixpoint subtrees (vs : vardecl) (n : nat) (m : list (string * string))
    : res (list (string * rast) * nat) :=
  match m with
  | [] => Ok ([], n)
  | (b, f) :: r =>
      do _ <- match lookup b vs with
              | Some d => if dom_eqb d DBool then Ok tt else Err "AssertionError"
              | None => Ok tt
              end;
      do t <- of_opt "Exception" (parse f);
      let '(x, k) := alloc n t in
      do rk <- subtrees vs k r;
      Ok ((b, x) :: fst rk, snd rk)
  end.
Definition tree_fuel (t : rast) (m : list (string * rast)) : nat :=
  S (List.length (robjs t) + fold_right (fun p n => List.length (robjs (snd p)) + n) 0 m).
(** form.py:1027-1034, one clause. *)
Definition replace_clause (g : grspec) (m : list (string * rast)) (n : nat) (x : string) : res string :=
  do t <- ast g x;
  let '(r, _) := alloc n t in
  do h <- sub_bool_with_subtree (from_recursive_ast r)
            (map (fun p => (fst p, from_recursive_ast (snd p))) m);
  do u <- to_recursive_ast (tree_fuel r m) h;
  of_opt "KeyError" (flatten u).
(** form.py:999-1037.  [ast] parses and caches all clauses at its first call, so the clauses seen
    are the original ones whatever part is rewritten first. *)
Definition replace_dependent_vars (g : grspec) (m : list (string * string)) : res grspec :=
  do sn <- subtrees (vardoms g) 0 m;
  let f := mapr (replace_clause g (fst sn) (snd sn)) in
  do ei <- f (env_init g); do es <- f (env_safety g); do ep <- f (env_prog g);
  do si <- f (sys_init g); do ss <- f (sys_safety g); do sp <- f (sys_prog g);
  Ok (mkspec (env_vars g) (sys_vars g) ei si es ss ep sp (moore g) (plus_one g) (qinit g)).

(** form.py:906-928 for one clause: the tree with integers for string constants, and its text. *)
Definition finite_vars (g : grspec) : list (string * list string) :=
  flat_map (fun kv => match snd kv with DEnum l => [(fst kv, l)] | _ => [] end) (vardoms g).
Definition encode_clause (g : grspec) (x : string) : res (node * string) :=
  do t <- ast g x;
  let '(r, n) := alloc 0 t in
  do h <- sub_constants (from_recursive_ast r) (finite_vars g) n;
  do b <- to_recursive_ast (S (List.length (robjs r))) h;
  do f <- of_opt "KeyError" (flatten b);
  Ok (b, f).
(** form.py:899-929: clause text to encoded text, with an empty cache. *)
Definition str_to_int (g : grspec) : res (list (string * (node * string))) :=
  mapr (fun x => do bf <- encode_clause g x; Ok (x, bf)) (clauses g).

(** transformation.py:404-454, given the parse tree; [vs] are the names of the variables.  The
    root attribute is not updated by relabel_nodes. *)
Fixpoint quote_map (vs : list string) (fresh : nat) (us : list obj) : list (obj * obj) :=
  match us with
  | [] => []
  | u :: r =>
      match snd u with
      | HTerm (TVar v) =>
          if mem v vs then quote_map vs fresh r
          else (u, (fresh, HTerm (TStr ("""" ++ v ++ """")))) :: quote_map vs (S fresh) r
      | _ => quote_map vs fresh r
      end
  end.
Definition infer_constants (s : string) (vs : vardecl) : res string :=
  do _ <- iter_check (fun kv =>
            iter_check (fun kd => match snd kd with
                                  | DEnum l => if (fst kd =? fst kv) then Ok tt
                                               else if mem (fst kv) l then Err "Exception" else Ok tt
                                  | _ => Ok tt end) vs) vs;
  do t <- of_opt "Exception" (parse s);
  let '(r, n) := alloc 0 t in
  let g := from_recursive_ast r in
  do u <- to_recursive_ast (S (List.length (robjs r))) (relabel_nodes (quote_map (map fst vs) n (g_nodes g)) g);
  of_opt "KeyError" (flatten u).
