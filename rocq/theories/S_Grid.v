(** What a grid is, independently of how gridworld.py computes with it: a partial function from
    integer coordinates to cell values, defined on a rectangle. *)
From Coq Require Import List ZArith Bool.
From Verif Require Import M_Grid.
Import ListNotations.

Definition grid : Type := Z -> Z -> option Z.
(** The grid of a matrix; no coordinate wraps here. *)
Definition view (m : mat) : grid := fun i j =>
  if (i <? 0)%Z || (j <? 0)%Z then None
  else match nth_error (m_cells m) (Z.to_nat i) with Some row => nth_error row (Z.to_nat j) | None => None end.
(** The rows fill the shape. *)
Definition shaped (m : mat) : Prop := length (m_cells m) = m_rows m /\ Forall (fun row => length row = m_cols m) (m_cells m).

Definition free (g : grid) (k : Z * Z) : Prop := g (fst k) (snd k) = Some 0%Z.
Definition adjacent (a b : Z * Z) : Prop := (Z.abs (fst a - fst b) + Z.abs (snd a - snd b) = 1)%Z.
(** A path through horizontally or vertically adjacent free cells. *)
Fixpoint is_path (g : grid) (a : Z * Z) (p : list (Z * Z)) : Prop :=
  match p with [] => free g a | b :: r => free g a /\ adjacent a b /\ is_path g b r end.
Definition connected (g : grid) (a b : Z * Z) : Prop := exists p, is_path g a p /\ last p a = b.

(** A coordinate of an axis of length [n] as Python reads it: one negative wrap. *)
Definition within (k : Z) (n : nat) : Prop := (- Z.of_nat n <= k < Z.of_nat n)%Z.
Definition wrapped (k : Z) (n : nat) : Z := if (k <? 0)%Z then (k + Z.of_nat n)%Z else k.

(** One step of a robot: stay or move to an adjacent cell, ending in a free one. *)
Definition step (g : grid) (a b : Z * Z) : Prop := (b = a \/ adjacent a b) /\ free g b.
