(** Model of tulip/spec/gr1_fragment.py:174-319: split_gr1, has_operator, str_to_grspec. *)
From Coq Require Import List String Bool Arith.
From Verif Require Import M_Base M_Ast M_Lexer M_Parser M_Spec.
Import ListNotations.
Open Scope string_scope.

(** The attribute [operator]; terminals have none (ast.py:155-203, 206-273). *)
Definition operator (t : node) : option string :=
  match t with
  | NVar _ | NBool _ | NNum _ | NStr _ => None
  | NUn op _ | NBin op _ _ | NCmp op _ _ | NArith op _ _ | NIte op _ _ _ => Some op
  end.
Definition operands (t : node) : list node :=
  match t with
  | NVar _ | NBool _ | NNum _ | NStr _ => []
  | NUn _ a => [a]
  | NBin _ l r | NCmp _ l r | NArith _ l r => [l; r]
  | NIte _ a b c => [a; b; c]
  end.

(** gr1_fragment.py:235-249: the loop that collects the boundary of the conjunction operators.
    [Q] is the stack (its head is the end of the Python list), [b] the result so far, in
    reverse.  [None]: out of fuel (excluded by L_Split.boundary_ok). *)
Fixpoint boundary (fuel : nat) (Q b : list node) : option (list node) :=
  match fuel with
  | O => None
  | S n =>
    match Q with
    | [] => Some (rev b)
    | u :: Q' =>
        match operator u with
        | None => boundary n Q' (u :: b)
        | Some op => if op =? "&" then boundary n (rev (operands u) ++ Q') b
                     else boundary n Q' (u :: b)
        end
    end
  end.

Fixpoint size (t : node) : nat :=
  match t with
  | NVar _ | NBool _ | NNum _ | NStr _ => 1
  | NUn _ a => S (size a)
  | NBin _ l r | NCmp _ l r | NArith _ l r => S (size l + size r)
  | NIte _ a b c => S (size a + size b + size c)
  end.

(** gr1_fragment.py:250-272: sort one boundary formula into init, G or GF. *)
Inductive slot : Type := SInit (u : node) | SG (u : node) | SGF (u : node).
Definition classify (u : node) : slot :=
  match u with
  | NUn op v =>
      if op =? "G" then
        match v with
        | NUn op' w => if op' =? "F" then SGF w else SG v
        | _ => SG v
        end
      else SInit u
  | _ => SInit u
  end.

(** gr1_fragment.py:298-319: does [u] or a descendant use one of the operators? *)
Fixpoint has_operator (ops : list string) (t : node) : bool :=
  match t with
  | NVar _ | NBool _ | NNum _ | NStr _ => false
  | NUn op a => mem op ops || has_operator ops a
  | NBin op l r | NCmp op l r | NArith op l r =>
      mem op ops || has_operator ops l || has_operator ops r
  | NIte op a b c => mem op ops || has_operator ops a || has_operator ops b || has_operator ops c
  end.

Definition pick_init (l : list node) : list node :=
  flat_map (fun u => match classify u with SInit v => [v] | _ => [] end) l.
Definition pick_G (l : list node) : list node :=
  flat_map (fun u => match classify u with SG v => [v] | _ => [] end) l.
Definition pick_GF (l : list node) : list node :=
  flat_map (fun u => match classify u with SGF v => [v] | _ => [] end) l.

Definition ops_G : list string := ["G"; "F"; "U"; "V"; "R"].
Definition ops_now : list string := "X" :: ops_G.

Definition flatten_r (t : node) : res string := of_opt "KeyError" (flatten t).

(** gr1_fragment.py:204-295 on a tree; the result is the dict's 'init', 'G', 'GF'. *)
Definition split_gr1 (t : node) : res (list string * list string * list string) :=
  match boundary (S (2 * size t)) [t] [] with
  | None => Err "fuel"
  | Some b =>
    let i := pick_init b in
    let g := pick_G b in
    let gf := pick_GF b in
    if existsb (has_operator ops_now) i || existsb (has_operator ops_G) g
       || existsb (has_operator ops_now) gf
    then Err "AssertionError"
    else
      do si <- mapr flatten_r (rev i);
      do sg <- mapr flatten_r (rev g);
      do sf <- mapr flatten_r gf;
      Ok ([join " & " si], [join " & " sg], sf)
  end.

(** gr1_fragment.py:229-232: a text is parsed first. *)
Definition split_gr1_text (f : string) : res (list string * list string * list string) :=
  match parse f with None => Err "Exception" | Some t => split_gr1 t end.

(** gr1_fragment.py:174-201. *)
Definition str_to_grspec (f : string) : res grspec :=
  match parse f with
  | None => Err "Exception"
  | Some t =>
      match t with
      | NBin op env sys =>
          if op =? "->" then
            do (ai, ag, af) <- split_gr1 env;
            do (si, sg, sf) <- split_gr1 sys;
            Ok (spec_of [] [] ai si ag sg af sf)
          else Err "AssertionError"
      | _ => match operator t with None => Err "AttributeError" | Some _ => Err "AssertionError" end
      end
  end.
