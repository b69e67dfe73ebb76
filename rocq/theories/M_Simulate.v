(** Model of the simulation of a controlled plant, tulip/abstract/plot.py: [simulate2d] and
    [pick_point_in_polytope].

    The parameters are those of M_Control; [contains] is membership in a region, [extreme] gives the vertices of a
    polytope.  The lists of the two coordinates of the points are one list of points, of any dimension; the cells
    are objects with [list_poly].  What is printed in each round is returned with the points; plots are left out. *)
From Coq Require Import List String Bool Arith QArith Qcanon.
From Verif Require Import M_Tree M_Base M_Dict M_Graph M_Machine L_Sum M_Feas M_Horizon M_Control.
Import ListNotations.
Open Scope string_scope.
Open Scope list_scope.
Open Scope nat_scope.

Section Simulate.
Variable union : pset -> pset -> pset.
Variable reduce : pset -> pset.
Variable fulldim : pset -> bool.
Variable volume : poly -> Qc.
Variable project : nat -> nat -> poly -> pset.
Variable lpsolve : nat -> vec -> poly -> option (vec * Qc).
Variable qp : nat -> mat -> vec -> poly -> option (vec * Qc).
Variable center : poly -> vec.
Variable qhull : list poly -> poly.
Variable contains : pset -> vec -> bool.
(** [pc.extreme]; [None] for a polytope that is empty or not full-dimensional *)
Variable extreme : poly -> option (list vec).
Variable sys : sysdyn.
Variables S V : Type.
Variable seqb : S -> S -> bool.
Variable veqb : V -> V -> bool.
Variable ctrl : machine S V.
Variable ab : abstr.
(** discretization.py:262-268, the states of the transition system in the order of the cells *)
Variable ppp2ts : list V.
Variable env_inputs : list (attrs V).

(** plot.py:507-515 [pick_point_in_polytope] *)
Definition pick_point (p : poly) : res vec :=
  match extreme p with
  | None => Err "AttributeError"
  | Some [] => Err "ZeroDivisionError"
  | Some l => Ok (fun k => (sum (List.length l) (fun i => nth i l zeros k) / Q2Qc (inject_Z (Z.of_nat (List.length l))))%Qc)
  end.
(** [ppp2ts.index(v)] *)
Fixpoint index_of (v : V) (l : list V) (i : nat) : option nat :=
  match l with [] => None | w :: l' => if veqb v w then Some i else index_of v l' (Datatypes.S i) end.
(** plot.py:418-420: [A x + B u] *)
Definition advance (x u : vec) : vec := fun k =>
  (sum (sd_n sys) (fun j => sd_A sys k j * x j) + sum (sd_m sys) (fun j => sd_B sys k j * u j))%Qc.
(** plot.py:417-422: the inputs [u[ind]] for the rest of the interval *)
Fixpoint moves (k ind : nat) (u : nat -> vec) (pts : list vec) : list vec :=
  match k with
  | O => pts
  | Datatypes.S k' => moves k' (Datatypes.S ind) u (pts ++ [advance (last pts zeros) (u ind)])
  end.
(** The exceptions of [get_input] are kept apart. *)
Definition input_for (x0 : vec) (start tgt : nat) : res vec :=
  match get_input union reduce fulldim volume project lpsolve qp center qhull sys x0 ab start tgt None None None One (Q2Qc 5) false with
  | Ok (u, _, _) => Ok u
  | Err e => Err ("get_input: " ++ e)
  end.
(** plot.py:402-430: [T] more rounds, the next one with number [i] *)
Fixpoint sim_loop (T i : nat) (nd : S) (start : nat) (pts : list vec) (outs : list (attrs V)) : res (list vec * list (attrs V)) :=
  match T with
  | O => Ok (pts, outs)
  | Datatypes.S T' =>
      let N := ab_N ab in
      do inp <- of_opt "IndexError" (nth_error env_inputs (i + 1));
      do no <- reaction seqb veqb ctrl nd inp false;
      do x0 <- of_opt "IndexError" (nth_error pts (i * N));
      do loc <- of_opt "KeyError" (lookup "loc" (snd no));
      do tgt <- of_opt "ValueError" (index_of loc ppp2ts 0);
      do u <- input_for x0 start tgt;
      let pts' := moves N 0 (u_rows sys u) pts in
      do cell <- of_opt "TypeError" (find_discrete_state contains (last pts' zeros) (ab_regions ab));
      do s0_loc <- of_opt "IndexError" (nth_error ppp2ts cell);
      if veqb s0_loc loc then sim_loop T' (i + 1) (fst no) cell pts' (outs ++ [snd no])
      else Err "AssertionError: location"
  end.
(** plot.py:383-430, after the helper for the given quantification of initial values, whose result is [init]: the cell and the
    state of the machine.  Except for [\A \A] the initial point is picked here. *)
Definition simulate_from (T : nat) (all_given : bool) (init : res (nat * S)) (x_init : option vec) : res (list vec * list (attrs V)) :=
  do sn <- init;
  do x0 <- if all_given then of_opt "TypeError" x_init
           else do region <- of_opt "IndexError" (nth_error (ab_regions ab) (fst sn));
                match region with
                | Pol _ => Err "AttributeError"
                | Reg [] => Err "IndexError"
                | Reg (p :: _) =>
                    do x <- pick_point p;
                    match find_discrete_state contains x (ab_regions ab) with
                    | Some c => if c =? fst sn then Ok x else Err "AssertionError: location"
                    | None => Err "AssertionError: location"
                    end
                end;
  sim_loop T 0 (snd sn) (fst sn) [x0] [].
(** plot.py:301-439 [simulate2d] for a value of [qinit]: the helpers (442-504) are called without the arguments that they
    take, and the one without arguments uses names that are not defined in the module. *)
Definition simulate2d (T : nat) (qinit : string) (x_init : option vec) : res (list vec * list (attrs V)) :=
  if mem qinit ["\E \A"; "\A \E"; "\E \E"] then simulate_from T false (Err "TypeError") x_init
  else if (qinit =? "\A \A")%string then simulate_from T true (Err "NameError") x_init
  else Err "ValueError".
End Simulate.
