(** Reading the automata that scheck and lbt write: contrib/readlbt.py, character by
    character.

    Simplifications.  [int] reads words of digits only (Python also reads signs and
    underscores).  Texts are ASCII.  The nodes of the graph are those with attributes and the ends of edges. *)
From Coq Require Import List String Ascii Bool Arith DecimalString.
From Verif Require Import M_Base.
Import ListNotations.
Local Open Scope string_scope.

(** [str.strip], [str.split] without arguments *)
Definition white (c : ascii) : bool :=
  let n := nat_of_ascii c in
  Nat.leb 9 n && Nat.leb n 13 || Nat.leb 28 n && Nat.leb n 32.
Fixpoint lstrip (s : string) : string :=
  match s with String c r => if white c then lstrip r else s | "" => "" end.
Fixpoint rstrip (s : string) : string :=
  match s with
  | "" => ""
  | String c r => match rstrip r with
                  | "" => if white c then "" else String c ""
                  | r' => String c r'
                  end
  end.
Definition strip (s : string) : string := rstrip (lstrip s).
Fixpoint words_from (cur : string) (s : string) : list string :=
  match s with
  | "" => match cur with "" => [] | _ => [cur] end
  | String c r => if white c then match cur with "" => words_from "" r | _ => cur :: words_from "" r end
                  else words_from (cur ++ String c "") r
  end.
Definition words (s : string) : list string := words_from "" s.
(** [s.split('-1')] *)
Fixpoint split_m1 (cur : string) (s : string) : list string :=
  match s with
  | "" => [cur]
  | String c r => match Ascii.eqb c "-", r with
                  | true, String d r' => if Ascii.eqb d "1" then cur :: split_m1 "" r'
                                         else split_m1 (cur ++ String c "") r
                  | _, _ => split_m1 (cur ++ String c "") r
                  end
  end.
Definition to_int (w : string) : option nat :=
  match w with "" => None | _ => option_map Nat.of_uint (NilEmpty.uint_of_string w) end.

(** Up to the first blank or new line, and from there on. *)
Fixpoint cut (s : string) : option (string * string) :=
  match s with
  | "" => None
  | String c r => if Ascii.eqb c " " || Ascii.eqb c "010" then Some ("", s)
                  else match cut r with Some (a, b) => Some (String c a, b) | None => None end
  end.
(** contrib/readlbt.py:91-116, [_split2]. *)
Definition split2 (x : string) : list string :=
  let x := strip x in
  match cut x with
  | None => [x]
  | Some (first, x) =>
      let x := strip x in
      match cut x with
      | None => [first; x]
      | Some (second, x) => [first; second; x]
      end
  end.

(** contrib/readlbt.py:68-72, [GBAutomaton]. *)
Record gba := Gba {
  gb_sets : nat;
  gb_states : list (nat * (bool * list nat));
  gb_edges : list (nat * nat * string) }.
(** [add_node] and [add_edge] of a [DiGraph] replace the attributes that are there. *)
Fixpoint put_state (n : nat) (v : bool * list nat) (l : list (nat * (bool * list nat))) :=
  match l with
  | [] => [(n, v)]
  | (m, w) :: r => if Nat.eqb n m then (n, v) :: r else (m, w) :: put_state n v r
  end.
Fixpoint put_edge (u v : nat) (g : string) (l : list (nat * nat * string)) :=
  match l with
  | [] => [(u, v, g)]
  | (a, b, h) :: r => if Nat.eqb u a && Nat.eqb v b then (u, v, g) :: r else (a, b, h) :: put_edge u v g r
  end.
(** contrib/readlbt.py:141-164, the loop over the words of the transitions of a state: targets
    with their gates, in the order in which edges are added. *)
Fixpoint transitions (succ : option nat) (gate : string) (l : list string) : list (nat * string) :=
  match l with
  | [] => match succ with Some s => [(s, gate)] | None => [] end
  | w :: r =>
      match succ, to_int w with
      | None, Some n => transitions (Some n) gate r
      | Some s, Some n => (s, gate) :: transitions (Some n) "" r
      | _, None => transitions succ (match gate with "" => w | _ => gate ++ " " ++ w end) r
      end
  end.
Definition get_int (w : string) : res nat := of_opt "ValueError" (to_int w).
(** contrib/readlbt.py:127-164, the loop over the parts: those with an even position are
    states, the others their transitions. *)
Fixpoint parts_loop (even : bool) (state_name : nat) (l : list string) (a : gba) : res gba :=
  match l with
  | [] => Ok a
  | p :: r =>
      if even then
        match split2 p with
        | n :: i :: rest =>
            do name <- get_int n;
            do acc <- match rest with x :: _ => mapr get_int (words x) | [] => Ok [] end;
            parts_loop false name r
              (Gba (gb_sets a) (put_state name (String.eqb i "1", acc) (gb_states a)) (gb_edges a))
        | n :: [] => do _ <- get_int n; Err "IndexError"
        | [] => Err "IndexError"
        end
      else
        parts_loop true state_name r
          (Gba (gb_sets a) (gb_states a)
             (fold_left (fun es x => put_edge state_name (fst x) (snd x) es)
                (transitions None "" (words p)) (gb_edges a)))
  end.
(** contrib/readlbt.py:119-165, [readlbt]. *)
Definition readlbt (s : string) : res gba :=
  match split2 s with
  | n :: r =>
      do _ <- get_int n;
      match r with
      | m :: r =>
          do sets <- get_int m;
          match r with
          | rest :: _ =>
              parts_loop true 0 (filter (fun p => match strip p with "" => false | _ => true end) (split_m1 "" rest))
                (Gba sets [] [])
          | [] => Err "IndexError"
          end
      | [] => Err "IndexError"
      end
  | [] => Err "IndexError"
  end.
