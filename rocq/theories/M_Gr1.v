(** Model of the LTL to GR(1) conversions of tulip/spec/gr1_fragment.py:322-497. *)
From Coq Require Import List String Bool.
From Verif Require Import M_Base M_Ast M_Lexer M_Parser M_Spec.
Import ListNotations.
Open Scope string_scope.

(** tulip/spec/transformation.py:112-122, 494: names of the Var nodes of a tree. *)
Fixpoint tree_vars (t : node) : list string :=
  match t with
  | NVar v => [v]
  | NBool _ | NNum _ | NStr _ => []
  | NUn _ a => tree_vars a
  | NBin _ l r | NCmp _ l r | NArith _ l r => tree_vars l ++ tree_vars r
  | NIte _ a b c => tree_vars a ++ tree_vars b ++ tree_vars c
  end.

(** tulip/spec/transformation.py:487-498. *)
Definition check_var_name_conflict (f varname : string) : res (list string) :=
  match parse f with
  | None => Err "Exception"
  | Some t =>
      let v := dedup (tree_vars t) in
      if mem varname v then Err "ValueError" else Ok v
  end.

(** tulip/spec/gr1_fragment.py:496-497. *)
Definition paren (x : string) : string := "(" ++ x ++ ")".

(** tulip/spec/gr1_fragment.py:322-365.  Python sets are lists; the order is irrelevant. *)
Definition stability_to_gr1 (p aux : string) : res grspec :=
  let p := paren p in
  let a := paren aux in
  do v <- check_var_name_conflict p aux;
  Ok (spec_of [] (booleans (v ++ [aux])) []
        ["!" ++ a]
        []
        [a ++ " -> " ++ p; a ++ " -> X " ++ a]
        []
        [a]).

(** tulip/spec/gr1_fragment.py:368-407. *)
Definition response_to_gr1 (p q aux : string) : res grspec :=
  let p := paren p in
  let q := paren q in
  let a := paren aux in
  do v <- check_var_name_conflict (p ++ " -> <> " ++ q) aux;
  Ok (spec_of [] (booleans (v ++ [aux])) [] [] []
        ["(" ++ p ++ " && !" ++ q ++ ") -> X !" ++ a;
         "(!" ++ a ++ " && !" ++ q ++ ") -> X !" ++ a]
        []
        [a]).

(** tulip/spec/gr1_fragment.py:410-446. *)
Definition eventually_to_gr1 (p aux : string) : res grspec :=
  let p := paren p in
  let a := paren aux in
  do v <- check_var_name_conflict p aux;
  Ok (spec_of [] (booleans (v ++ [aux])) []
        ["!(" ++ a ++ ")"]
        []
        ["(!" ++ p ++ " && !" ++ a ++ ") -> X !" ++ a;
         a ++ " -> X " ++ a]
        []
        [a]).

(** tulip/spec/gr1_fragment.py:449-493. *)
Definition until_to_gr1 (p q aux : string) : res grspec :=
  let p := paren p in
  let q := paren q in
  let a := paren aux in
  do v <- check_var_name_conflict (p ++ " && " ++ q) aux;
  Ok (spec_of [] (booleans (v ++ [aux])) []
        ["!" ++ q ++ " -> !" ++ a]
        []
        [q ++ " -> " ++ a;
         "( (X !" ++ q ++ ") && !" ++ a ++ ") -> X !" ++ a;
         a ++ " -> X " ++ a;
         "(!" ++ a ++ ") -> " ++ p]
        []
        [a]).
