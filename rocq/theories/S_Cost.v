(** Specification of costs: vectors of integers, pointwise sum and lexicographic order. *)
From Coq Require Import List ZArith.
Import ListNotations.
Open Scope Z_scope.

Definition zeros (k : nat) : list Z := repeat 0 k.
Fixpoint vadd (x y : list Z) : list Z :=
  match x, y with a :: x', b :: y' => (a + b) :: vadd x' y' | _, _ => [] end.
(** [x] comes before [y]: at the first place where they differ, [x] is smaller. *)
Definition lexlt (x y : list Z) : Prop :=
  exists p a b x' y', x = p ++ a :: x' /\ y = p ++ b :: y' /\ a < b.
Definition lexle (x y : list Z) : Prop := lexlt x y \/ x = y.
