(** Model of substituting values for variables, tulip/spec/transformation.py:281-308 and tulip/spec/form.py:816-845, on the trees of
    M_Tree. *)
From Coq Require Import List String Bool Arith ZArith.
From Verif Require Import M_Base M_Ast M_Tree.
Import ListNotations.
Open Scope string_scope.
Open Scope list_scope.

(** A value as the function tells values apart: [bool], [int], [str] or of another type. *)
Inductive pyval : Type := VBool (b : bool) | VInt (z : Z) | VStr (s : string) | VOther.
(** transformation.py:298-305 with the constructors ast.py:168-176, 304-317, 327-341: they add a string to the value, so that values
    that are no strings raise TypeError. *)
Definition value_node (x : pyval) : res term :=
  match x with VBool _ => Err "TypeError" | VInt _ => Err "TypeError" | VStr s => Ok (TStr s) | VOther => Err "TypeError" end.
(** transformation.py:292-306: [old2new]; the new objects are numbered from [fresh]. *)
Fixpoint sub_values_map (vals : list (string * pyval)) (fresh : nat) (us : list obj) : res (list (obj * obj)) :=
  match us with
  | [] => Ok []
  | u :: r =>
      match snd u with
      | HTerm (TVar v) =>
          do x <- of_opt "KeyError" (lookup v vals);
          do t <- value_node x;
          do m <- sub_values_map vals (S fresh) r;
          Ok ((u, (fresh, HTerm t)) :: m)
      | _ => sub_values_map vals fresh r
      end
  end.
(** transformation.py:281-308 [sub_values] *)
Definition sub_values (g : graph) (vals : list (string * pyval)) (fresh : nat) : res graph :=
  do m <- sub_values_map vals fresh (g_nodes g); Ok (relabel_nodes m g).
(** form.py:840-843, one tree *)
Definition sub_values_tree (vals : list (string * pyval)) (t : node) : res node :=
  let '(r, n) := alloc 0 t in
  do h <- sub_values (from_recursive_ast r) vals n;
  to_recursive_ast (S (List.length (robjs r))) h.
(** form.py:816-845 [GRSpec.sub_values]: the trees are those in the cache [_ast], by clause. *)
Definition form_sub_values (cache : list (string * node)) (vals : list (string * pyval)) : res (list (string * node)) :=
  mapr (fun xt => do u <- sub_values_tree vals (snd xt); Ok (fst xt, u)) cache.
