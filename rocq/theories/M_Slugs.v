(** Model of how the strategy printed by slugs is read: tulip/interfaces/slugs.py:103-164.

    Simplifications.  The decoded JSON document is given as the list of its variables and the list
    of its nodes; all values in it are integers, so [int(val, 2)] meets an optional sign and decimal
    digits only.  A domain is 'boolean', a pair of integers or a list of strings.  The process that runs slugs and the
    logging of lines 130-133 are not modelled. *)
From Coq Require Import List String Ascii Bool Arith ZArith.
From Verif Require Import M_Base M_Tree M_Gr1c M_Machine M_Grid.
Import ListNotations.
Open Scope string_scope.
Open Scope list_scope.

Inductive sdom := SBool | SPair (lo hi : Z) | SList (l : list string).
Definition svars : Type := list (string * sdom).
Definition bits : Type := list (string * Z).

(** [int.bit_length()]: the length of the binary numeral of the absolute value, 0 for 0. *)
Definition bit_length (z : Z) : nat :=
  match z with Z0 => O | Zpos p | Zneg p => Pos.size_nat p end.

(** slugs.py:153-156 *)
Definition bit_name (var : string) (i : nat) : string := (var ++ "@" ++ str_nat i)%string.
Definition first_bit_name (var : string) (lo hi : Z) : string :=
  (var ++ "@0." ++ str_Z lo ++ "." ++ str_Z hi)%string.
Definition bit_names (var : string) (lo hi : Z) : res (list string) :=
  match map (bit_name var) (List.seq 0 (bit_length hi)) with
  | [] => Err "IndexError"
  | _ :: r => Ok (first_bit_name var lo hi :: r)
  end.

(** [int(s, 2)] for a text of decimal digits with an optional sign *)
Fixpoint bin_val (acc : Z) (s : string) : option Z :=
  match s with
  | EmptyString => Some acc
  | String c r =>
      if Ascii.eqb c "0" then bin_val (2 * acc) r
      else if Ascii.eqb c "1" then bin_val (2 * acc + 1) r
      else None
  end.
Definition py_int2 (s : string) : option Z :=
  match s with
  | EmptyString => None
  | String c r =>
      if Ascii.eqb c "-" then match r with EmptyString => None | _ => option_map Z.opp (bin_val 0 r) end
      else bin_val 0 s
  end.

(** slugs.py:149-163, one variable *)
Definition decode_var (st : bits) (kd : string * sdom) : res (string * Z) :=
  match snd kd with
  | SBool => do b <- of_opt "KeyError" (lookup (fst kd) st); Ok (fst kd, b)
  | SPair lo hi =>
      do names <- bit_names (fst kd) lo hi;
      do vals <- mapr (fun n => of_opt "KeyError" (lookup n st)) names;
      do v <- of_opt "ValueError" (py_int2 (join "" (map str_Z (rev vals))));
      Ok (fst kd, v)
  | SList (_ :: _ :: _) => Err "AttributeError"
  | SList _ => Err "IndexError"
  end.
(** slugs.py:137-164 [_bitfields_to_ints]: the entries in the order of the variables. *)
Definition bitfields_to_ints (st : bits) (vrs : svars) : res bits := mapr (decode_var st) vrs.

(** [dict(zip(keys, values))]: the shorter list decides; a later entry of a key wins. *)
Fixpoint dict_set {A} (k : string) (v : A) (d : list (string * A)) : list (string * A) :=
  match d with
  | [] => [(k, v)]
  | (k', v') :: r => if String.eqb k k' then (k', v) :: r else (k', v') :: dict_set k v r
  end.
Definition dict_of {A} (l : list (string * A)) : list (string * A) :=
  fold_left (fun d kv => dict_set (fst kv) (snd kv) d) l [].

(** A node of the document: its name, the values of its variables and its successors. *)
Record jnode := JNode { j_name : string; j_state : list Z; j_trans : list Z }.

(** The graph [g] of lines 109-117: nodes in order of appearance with the data [state] once
    [add_node] has set it, edges without repetition. *)
Record dgraph (S : Type) := DGraph { d_nodes : list (Z * option S); d_edges : list (Z * Z) }.
Arguments DGraph {S}. Arguments d_nodes {S}. Arguments d_edges {S}.
Definition zz_eqb (a b : Z * Z) : bool := Z.eqb (fst a) (fst b) && Z.eqb (snd a) (snd b).
Fixpoint put_node {S} (u : Z) (s : option S) (l : list (Z * option S)) : list (Z * option S) :=
  match l with
  | [] => [(u, s)]
  | (v, t) :: r =>
      if Z.eqb u v then (v, match s with Some _ => s | None => t end) :: r else (v, t) :: put_node u s r
  end.
Definition add_node {S} (u : Z) (s : option S) (g : dgraph S) : dgraph S :=
  DGraph (put_node u s (d_nodes g)) (d_edges g).
Definition add_edge {S} (g : dgraph S) (e : Z * Z) : dgraph S :=
  let ns := put_node (snd e) None (put_node (fst e) None (d_nodes g)) in
  DGraph ns (if existsb (zz_eqb e) (d_edges g) then d_edges g else d_edges g ++ [e]).
(** slugs.py:111-117 *)
Definition load_node (dvars : list string) (g : dgraph bits) (d : jnode) : res (dgraph bits) :=
  do u <- of_opt "ValueError" (py_int (list_ascii_of_string (j_name d)));
  let st := dict_of (combine dvars (j_state d)) in
  Ok (fold_left add_edge (map (fun v => (u, v)) (j_trans d)) (add_node u (Some st) g)).
Fixpoint load_nodes (dvars : list string) (g : dgraph bits) (l : list jnode) : res (dgraph bits) :=
  match l with [] => Ok g | d :: r => do g' <- load_node dvars g d; load_nodes dvars g' r end.
(** slugs.py:118-124: the edges of [g], taken node by node, are added to [h]. *)
Definition edges_by_node {S} (g : dgraph S) : list (Z * Z) :=
  flat_map (fun n => filter (fun e => Z.eqb (fst e) (fst n)) (d_edges g)) (d_nodes g).
Fixpoint decode_nodes (vrs : svars) (h : dgraph bits) (l : list (Z * option bits)) : res (dgraph bits) :=
  match l with
  | [] => Ok h
  | (u, s) :: r =>
      do st <- of_opt "KeyError" s;
      do i <- bitfields_to_ints st vrs;
      decode_nodes vrs (add_node u (Some i) h) r
  end.
(** slugs.py:103-105: environment variables replace system variables of the same name. *)
Definition all_vars (sys env : svars) : svars := fold_left (fun d kv => dict_set (fst kv) (snd kv) d) env (dict_of sys).
(** slugs.py:84-134 [synthesize] once slugs has answered *)
Definition read_strategy (sys env : svars) (dvars : list string) (nodes : list jnode) : res (dgraph bits) :=
  do g <- load_nodes dvars (DGraph [] []) nodes;
  do h <- decode_nodes (all_vars sys env) (DGraph [] []) (d_nodes g);
  Ok (fold_left add_edge (edges_by_node g) h).
