(** Reference semantics for reachability of discrete-time linear systems with disturbances. *)
From Coq Require Import List Arith QArith Qcanon.
From Verif Require Import L_Sum M_Feas.
Import ListNotations.
Open Scope Qc_scope.

(** The value of a linear form, and the points of a polytope of width [w] *)
Definition lin (w : nat) (a x : vec) : Qc := sum w (fun j => a j * x j).
Definition inside (w : nat) (P : poly) (x : vec) : Prop := forall h, In h P -> lin w (h_a h) x <= h_b h.

(** One step: [A x + B u + E d + K] *)
Definition step (sys : sysdyn) (x u d : vec) : vec :=
  fun k => lin (sd_n sys) (sd_A sys k) x + lin (sd_m sys) (sd_B sys k) u + lin (sd_p sys) (sd_E sys k) d + sd_K sys k.
(** The state at time [t] from [x0] under inputs [u] and disturbances [d] *)
Fixpoint traj (sys : sysdyn) (x0 : vec) (u d : nat -> vec) (t : nat) : vec :=
  match t with O => x0 | S k => step sys (traj sys x0 u d k) (u k) (d k) end.

(** [Uset] constrains the input, or the input and the state *)
Definition input_ok (sys : sysdyn) (x u : vec) : Prop :=
  if (sd_Uw sys =? sd_m sys)%nat then inside (sd_m sys) (sd_U sys) u
  else inside (sd_m sys + sd_n sys) (sd_U sys)
         (fun k => if (k <? sd_m sys)%nat then u k else x (k - sd_m sys)%nat).

(** The convex hull of a list of vertices of dimension [p] *)
Definition hull (p : nat) (V : list vec) (v : vec) : Prop :=
  exists w : nat -> Qc,
    (forall k, (k < length V)%nat -> 0 <= w k) /\ sum (length V) w = 1 /\
    forall j, (j < p)%nat -> v j = sum (length V) (fun k => w k * nth k V (fun _ => 0) j).
(** Disturbances from the hull of the vertices at each step *)
Definition hull_seq (p : nat) (V : list vec) (N : nat) (d : nat -> vec) : Prop :=
  forall t, (t < N)%nat -> hull p V (d t).

(** The point [x(0), u(0), ..., u(N-1)] as one vector *)
Definition inputs (sys : sysdyn) (z : vec) (t : nat) : vec := fun c => z (sd_n sys + sd_m sys * t + c)%nat.

(** ** Games over a horizon: the controller picks an input, then the disturbance is picked. *)
(** With [E = 0] any disturbance is as good as any other; otherwise it comes from the hull. *)
Definition allowed (sys : sysdyn) (d : vec) : Prop :=
  (exists k j, (k < sd_n sys)%nat /\ (j < sd_p sys)%nat /\ sd_E sys k j <> 0) -> hull (sd_p sys) (sd_Wext sys) d.
Section Game.
Variable sys : sysdyn.
Variable mid goal : vec -> Prop.
(** The goal in exactly [k] steps, with the states before the last one in [mid] *)
Fixpoint forced (k : nat) (x : vec) : Prop :=
  match k with
  | O => goal x
  | S k' => exists u, input_ok sys x u /\
      forall d, allowed sys d -> (k' <> 0%nat -> mid (step sys x u d)) /\ forced k' (step sys x u d)
  end.
(** The goal within 1 to [k] steps *)
Fixpoint forced_within (k : nat) (x : vec) : Prop :=
  match k with
  | O => False
  | S k' => exists u, input_ok sys x u /\
      forall d, allowed sys d -> goal (step sys x u d) \/ (mid (step sys x u d) /\ forced_within k' (step sys x u d))
  end.
End Game.
