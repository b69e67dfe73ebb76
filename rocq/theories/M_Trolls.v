(** Model of [add_trolls], tulip/gridworld.py:1366-1488: the specification of a gridworld with moving obstacles. *)
From Coq Require Import List String Ascii Bool Arith ZArith.
From Verif Require Import M_Base M_Ast M_Tree M_Spec M_Form M_Gr1c M_Machine M_Grid M_GridSpec.
Import ListNotations.
Open Scope string_scope.
Open Scope list_scope.

Section Trolls.
Variable order : list string -> list string.
Variable Y : world.
Variable prefix : string.
Variables start_anywhere nonbool : bool.

(** gridworld.py:1435-1441: one axis of the trollspace: where it starts and how long it is *)
Definition extent (c radius n : Z) : Z * Z :=
  let o := Z.max 0 (c - radius) in
  let l := (c - o + radius + 1)%Z in
  (o, if (n <=? o + l)%Z then (n - o)%Z else l).
(** gridworld.py:1427-1462: the offset and the world of the troll number [id], and its states *)
Definition troll (m : mat) (id : nat) (t : ij * Z) : res (ij * world * list (list (string * Z))) :=
  let '(c, radius) := t in
  let rows := Z.of_nat (m_rows m) in let cols := Z.of_nat (m_cols m) in
  if ((rows <=? fst c) || (fst c <? 0) || (cols <=? snd c) || (snd c <? 0))%Z then Err "ValueError" else
  let '(o0, l0) := extent (fst c) radius rows in
  let '(o1, l1) := extent (snd c) radius cols in
  do x <- dump_subworld Y (l0, l1) (o0, o1) (prefix ++ "_" ++ str_nat id)%string false;
  do xm <- of_opt "ValueError" (w_W x);
  let cs := map key (cells xm) in
  do e <- mapr (fun k => do b <- is_empty x k false; Ok (k, b)) cs;
  let init := if start_anywhere then map fst (filter snd e) else [(fst c - o0, snd c - o1)%Z] in
  let x := World (w_W x) init [(fst c - o0, snd c - o1)%Z] (w_prefix x) (w_offset x) in
  do mv <- mapr (fun k => state x k (o0, o1) nonbool) cs;
  Ok ((o0, o1), x, mv).
Fixpoint trolls (m : mat) (id : nat) (l : list (ij * Z)) : res (list (ij * world * list (list (string * Z)))) :=
  match l with [] => Ok [] | t :: r => do x <- troll m id t; do xs <- trolls m (S id) r; Ok (x :: xs) end.
(** gridworld.py:1463-1466 *)
Fixpoint or_all (g : grspec) (xs : list (ij * world)) : res grspec :=
  match xs with
  | [] => Ok g
  | (o, x) :: r => do h <- spec order x (- fst o, - snd o)%Z false nonbool; do g <- spec_or g h; or_all g r
  end.
(** gridworld.py:1472-1485: a cell and a troll whose space has the cell *)
Definition covers (x : ij * world) (p : nat * nat) : bool :=
  let '(o, x) := x in
  match w_W x with
  | None => false
  | Some xm => let i := Z.of_nat (fst p) in let j := Z.of_nat (snd p) in
      ((fst o <=? i) && (i <? fst o + Z.of_nat (m_rows xm)) && (snd o <=? j) && (j <? snd o + Z.of_nat (m_cols xm)))%Z
  end.
Definition exclusion (px : (nat * nat) * (ij * world)) : res string :=
  let '(p, (o, x)) := px in
  let i := Z.of_nat (fst p) in let j := Z.of_nat (snd p) in
  let v := if nonbool then ("((X " ++ w_prefix x ++ "_r = " ++ str_Z (i - fst o) ++ ") & (X " ++ w_prefix x ++ "_c = " ++ str_Z (j - snd o) ++ "))")%string
           else ("X " ++ w_prefix x ++ "_" ++ str_Z i ++ "_" ++ str_Z j)%string in
  do a <- getitem Y (key p) true nonbool;
  Ok ("!(" ++ a ++ " && " ++ v ++ ")")%string.
(** gridworld.py:1366-1488 [add_trolls]; [moves_N] is always computed *)
Definition add_trolls (troll_list : list (ij * Z)) : res (grspec * list (list (list (string * Z)))) :=
  do m <- of_opt "ValueError" (w_W Y);
  do xs <- trolls m 0 troll_list;
  do g <- spec order Y (0, 0)%Z true nonbool;
  do g <- or_all g (map fst xs);
  do ex <- mapr exclusion (filter (fun px => covers (snd px) (fst px)) (list_prod (cells m) (map fst xs)));
  Ok (mkspec (env_vars g) (sys_vars g) (env_init g) (sys_init g) (env_safety g) (sys_safety g ++ ex) (env_prog g) (sys_prog g) (moore g) (plus_one g) (qinit g),
      map snd xs).
End Trolls.
