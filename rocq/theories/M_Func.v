(** Model of tulip/transys/mathfunc.py: functions of a labeled state.

    Simplifications.  Values are [None], integers, strings and tuples of values.  Warnings are not
    printed.  [save] and [to_json] are left out. *)
From Coq Require Import List String Bool ZArith.
From Verif Require Import M_Base.
Import ListNotations.
Open Scope string_scope.
Open Scope list_scope.

Inductive pyval := PNone | PNum (z : Z) | PText (s : string) | PTuple (l : list pyval).
Fixpoint pyval_eqb (a b : pyval) : bool :=
  match a, b with
  | PNone, PNone => true
  | PNum x, PNum y => Z.eqb x y
  | PText x, PText y => String.eqb x y
  | PTuple x, PTuple y =>
      (fix eqs (x y : list pyval) : bool :=
         match x, y with [], [] => true | u :: x', v :: y' => pyval_eqb u v && eqs x' y' | _, _ => false end) x y
  | _, _ => false
  end.
(** The items that [len(v)] and [v[i]] see. *)
Definition items (v : pyval) : res (list pyval) :=
  match v with
  | PTuple l => Ok l
  | PText s => Ok (map (fun c => PText (String c EmptyString)) (list_ascii_of_string s))
  | _ => Err "TypeError"
  end.
(** A dictionary: the keys in the order of insertion. *)
Definition dict : Type := list (string * pyval).
Fixpoint dset (k : string) (v : pyval) (d : dict) : dict :=
  match d with
  | [] => [(k, v)]
  | (k', v') :: r => if String.eqb k k' then (k', v) :: r else (k', v') :: dset k v r
  end.
Fixpoint dget (k : string) (d : dict) : option pyval :=
  match d with [] => None | (k', v) :: r => if String.eqb k k' then Some v else dget k r end.
(** [d == e] *)
Definition deqb (d e : dict) : bool :=
  Nat.eqb (List.length d) (List.length e) &&
  forallb (fun kv => match dget (fst kv) e with Some v => pyval_eqb (snd kv) v | None => false end) d.

(** mathfunc.py:42-71, [LabeledStateInputOutputPair]. *)
Record pair := Pair { p_state : pyval; p_input : dict; p_output : dict; p_labels : list string }.
(** mathfunc.py:76-83, [is_at]. *)
Definition is_at (state : pyval) (input : dict) (p : pair) : bool := pyval_eqb (p_state p) state && deqb (p_input p) input.

(** mathfunc.py:105-168, [FunctionOnLabeledState]. *)
Record func := Func { f_inputs : list string; f_outputs : list string; f_state : nat; f_pairs : list pair }.
(** The argument [input_keys] or [output_keys]: one key or several. *)
Inductive keys := One (k : string) | Many (l : list string).
Definition key_list (k : keys) : list string := match k with One x => [x] | Many l => l end.
Fixpoint index_of (k : string) (l : list string) : option nat :=
  match l with [] => None | x :: r => if String.eqb k x then Some 0%nat else option_map S (index_of k r) end.
(** [input_keys.index("state")], for a string the index of the substring. *)
Definition state_index (k : keys) : res nat :=
  match k with One x => of_opt "ValueError" (String.index 0 "state" x) | Many l => of_opt "ValueError" (index_of "state" l) end.
Definition new_func (ins outs : keys) : res func :=
  do i <- state_index ins; Ok (Func (key_list ins) (key_list outs) i []).

Definition assign (ks : list string) (vs : list pyval) : dict := fold_left (fun d kv => dset (fst kv) (snd kv) d) (combine ks vs) [].
Fixpoint drop_at {A} (i : nat) (l : list A) : list A :=
  match l, i with [], _ => [] | _ :: r, O => r | x :: r, S j => x :: drop_at j r end.
(** mathfunc.py:186-209, [get_state_and_input_dict]. *)
Definition split_input (f : func) (v : pyval) : res (pyval * dict) :=
  do l <- (if Nat.eqb (List.length (f_inputs f)) 1 then Ok [v] else items v);
  if negb (Nat.eqb (List.length (f_inputs f)) (List.length l)) then Err "AssertionError"
  else
    do s <- of_opt "IndexError" (nth_error l (f_state f));
    Ok (s, assign (drop_at (f_state f) (f_inputs f)) (drop_at (f_state f) l)).
(** mathfunc.py:211-229, [get_output_dict]. *)
Definition output_dict (f : func) (v : pyval) : res dict :=
  do l <- (if Nat.eqb (List.length (f_outputs f)) 1 then Ok [v] else items v);
  if negb (Nat.eqb (List.length (f_outputs f)) (List.length l)) then Err "AssertionError" else Ok (assign (f_outputs f) l).
(** mathfunc.py:231-247, [get_output_tuple]. *)
Definition output_tuple (f : func) (d : dict) : res pyval :=
  match d with
  | [] => Ok PNone
  | [kv] => Ok (snd kv)
  | _ => do l <- mapr (fun k => of_opt "KeyError" (dget k d)) (f_outputs f); Ok (PTuple l)
  end.
(** mathfunc.py:174-184, [__getitem__]. *)
Definition getitem (f : func) (v : pyval) : res pyval :=
  do si <- split_input f v;
  match find (is_at (fst si) (snd si)) (f_pairs f) with
  | None => Err "KeyError"
  | Some p => output_tuple f (p_output p)
  end.
Fixpoint replace_first (q : pair -> bool) (upd : pair -> pair) (l : list pair) : list pair :=
  match l with [] => [] | p :: r => if q p then upd p :: r else p :: replace_first q upd r end.
(** mathfunc.py:270-301, [add]. *)
Definition add (input output : pyval) (labels : list string) (f : func) : res func :=
  do si <- split_input f input;
  do od <- output_dict f output;
  let at_input := is_at (fst si) (snd si) in
  let ps := match find at_input (f_pairs f) with
            | Some _ => replace_first at_input (fun p => Pair (p_state p) (p_input p) od labels) (f_pairs f)
            | None => f_pairs f ++ [Pair (fst si) (snd si) od labels]
            end in
  Ok (Func (f_inputs f) (f_outputs f) (f_state f) ps).
(** [len(f)] *)
Definition flen (f : func) : nat := List.length (f_pairs f).
(** Calls of [add], those that raise being ignored. *)
Definition add_many (l : list (pyval * pyval * list string)) (f : func) : func :=
  fold_left (fun f a => match add (fst (fst a)) (snd (fst a)) (snd a) f with Ok f' => f' | Err _ => f end) l f.
