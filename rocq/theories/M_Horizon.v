(** Model of reachability over horizons: tulip/abstract/feasible.py without [createLM] (see M_Feas).

    The polytope library is a parameter: union, [pc.reduce], [pc.is_fulldim], volume, projection on the
    first coordinates, and inclusion.  A [Region] is a list of polytopes; a [Polytope] has length 0, as in
    the library.  The empty [pc.Polytope()] is a polytope without points; the library gives it arrays
    without rows, which [createLM] does not accept, so the code raises where a model of a later step
    computes an empty set.  Numbers are exact rationals.  Copies are left out. *)
From Coq Require Import List String Bool Arith QArith Qcanon.
From Verif Require Import M_Base L_Sum M_Feas.
Import ListNotations.
Open Scope string_scope.
Open Scope list_scope.
Open Scope nat_scope.

Inductive pset : Type := Pol (p : poly) | Reg (l : list poly).
(** [pc.Polytope()] *)
Definition no_points : poly := [{| h_a := fun _ => 0%Qc; h_b := (- (1))%Qc |}].
(** [len] *)
Definition plen (s : pset) : nat := match s with Pol _ => 0 | Reg l => List.length l end.

Section Horizon.
Variable union : pset -> pset -> pset.
Variable reduce : pset -> pset.
Variable fulldim : pset -> bool.
Variable volume : poly -> Qc.
(** [project n w P]: [Polytope.project] of [P] in [w] dimensions on the first [n] *)
Variable project : nat -> nat -> poly -> pset.
Variable subset : pset -> pset -> bool.
Variable sys : sysdyn.

(** feasible.py:459-475 [volumes_for_reachability]; [np.argsort] is modelled by an insertion sort,
    largest volume first *)
Fixpoint insert_vol (p : poly) (l : list poly) : list poly :=
  match l with
  | [] => [p]
  | r :: l' => if Qclt_le_dec (volume p) (volume r) then r :: insert_vol p l' else p :: l
  end.
Fixpoint sort_vol (l : list poly) : list poly := match l with [] => [] | p :: l' => insert_vol p (sort_vol l') end.
Definition volumes_for_reachability (part : pset) (max_num_poly : nat) : pset :=
  match part with
  | Pol p => Pol p
  | Reg l => if plen part <=? max_num_poly then part else Reg (firstn max_num_poly (sort_vol l))
  end.

(** feasible.py:425-456 [poly_to_poly].  For horizons longer than one step the intermediate set must
    be a polytope; [createLM] asks a [Region] for its [A]. *)
Definition poly_to_poly (p1 p2 : poly) (N : nat) (trans_set : option pset) : res pset :=
  bind (match trans_set with
        | None => Ok p1
        | Some (Pol p) => Ok p
        | Some (Reg _) => if N <=? 1 then Ok p1 else Err "AttributeError"
        end) (fun pk =>
  bind (createLM_poly sys N p1 pk p2) (fun L =>
  match reduce (Pol L) with
  | Pol L' => Ok (reduce (project (sd_n sys) (sd_n sys + N * sd_m sys) L'))
  | Reg _ => Err "AttributeError"
  end)).

(** feasible.py:379-422 [solve_open_loop] *)
Definition polys (s : pset) : res (list poly) :=
  match s with
  | Pol p => Ok [p]
  | Reg [] => Err "AttributeError"
  | Reg l => Ok l
  end.
Fixpoint union_pairs (l : list (poly * poly)) (N : nat) (trans_set : option pset) (s0 : pset) : res pset :=
  match l with
  | [] => Ok s0
  | (p1, p2) :: l' => bind (poly_to_poly p1 p2 N trans_set) (fun c => union_pairs l' N trans_set (union s0 c))
  end.
Definition solve_open_loop (P1 P2 : pset) (N : nat) (trans_set : option pset) (max_num_poly : nat) : res pset :=
  bind (polys (volumes_for_reachability P1 max_num_poly)) (fun start_polys =>
  bind (polys (volumes_for_reachability P2 max_num_poly)) (fun target_polys =>
  union_pairs (list_prod start_polys target_polys) N trans_set (Pol no_points))).

(** feasible.py:208-261 [_solve_closed_loop_fixed_horizon]: the loop with [i] from [k] down to 1.  The
    bound 5 is the default of [solve_open_loop]. *)
Fixpoint fixed_loop (k : nat) (P1 pinit p2 : pset) (trans_set : option pset) : res pset :=
  match k with
  | O => Ok p2
  | S k' =>
      let from := if k =? 1 then P1 else pinit in
      bind (solve_open_loop from p2 1 trans_set 5) (fun s =>
      let p2' := reduce s in
      if negb (fulldim p2') then Ok (Pol no_points) else fixed_loop k' P1 pinit p2' trans_set)
  end.
Definition pinit_of (P1 : pset) (trans_set : option pset) : pset := match trans_set with None => P1 | Some t => t end.
Definition fixed_horizon (P1 P2 : pset) (N : nat) (trans_set : option pset) : res pset :=
  if N =? 0 then Err "AssertionError" else fixed_loop N P1 (pinit_of P1 trans_set) P2 trans_set.

(** feasible.py:264-316 [_solve_closed_loop_bounded_horizon] *)
Fixpoint bounded_loop (k : nat) (P1 pinit p2 : pset) (trans_set : option pset) (s : pset) : res pset :=
  match k with
  | O => Ok s
  | S k' =>
      let from := if k =? 1 then P1 else pinit in
      bind (solve_open_loop from p2 1 trans_set 5) (fun r =>
      let p2' := reduce r in
      let s' := reduce (union s p2') in
      if negb (fulldim p2') then Ok s' else bounded_loop k' P1 pinit p2' trans_set s')
  end.
Definition bounded_horizon (P1 P2 : pset) (N : nat) (trans_set : option pset) : res pset :=
  bind (bounded_loop N P1 (pinit_of P1 trans_set) P2 trans_set (Reg [])) (fun s =>
  if negb (fulldim s) then Ok (Pol no_points) else Ok (reduce s)).

(** feasible.py:319-365 [_underapproximate_attractor] *)
Fixpoint attractor_loop (k : nat) (P1 pinit p2 : pset) (trans_set : option pset) (r : pset) : res pset :=
  match k with
  | O => Ok r
  | S k' =>
      let from := if k =? 1 then P1 else pinit in
      bind (solve_open_loop from p2 1 trans_set 5) (fun r' =>
      let p2' := reduce (union p2 r') in
      if negb (fulldim p2') then Ok (Pol no_points) else attractor_loop k' P1 pinit p2' trans_set r')
  end.
Definition underapproximate_attractor (P1 P2 : pset) (N : nat) (trans_set : option pset) : res pset :=
  if N =? 0 then Err "AssertionError" else attractor_loop N P1 (pinit_of P1 trans_set) P2 trans_set (Pol no_points).

(** feasible.py:99-205 [solve_feasible] *)
Definition solve_feasible (P1 P2 : pset) (N : nat) (closed_loop use_all_horizon : bool) (trans_set : option pset) (max_num_poly : nat) : res pset :=
  if closed_loop then
    if use_all_horizon then underapproximate_attractor P1 P2 N trans_set else fixed_horizon P1 P2 N trans_set
  else if use_all_horizon then Err "ValueError"
  else solve_open_loop P1 P2 N trans_set max_num_poly.
(** feasible.py:68-96 [is_feasible] *)
Definition is_feasible (from_region to_region : pset) (N : nat) (closed_loop use_all_horizon : bool) (trans_set : option pset) : res bool :=
  bind (solve_feasible from_region to_region N closed_loop use_all_horizon trans_set 5) (fun S0 => Ok (subset from_region S0)).
End Horizon.
