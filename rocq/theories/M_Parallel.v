(** Model of the abstraction of switched systems by several processes: tulip/abstract/discretization.py,
    [multiproc_discretize_switched], [multiproc_discretize], [multiproc_get_transitions].

    A worker puts a message in the queue when it ends, and nothing when it raises an exception.  The order in
    which the messages of workers that all end are taken from the queue is a parameter.  The joining of
    workers, logs, prints and plots are left out. *)
From Coq Require Import List String Bool Arith ZArith QArith Qcanon.
From Verif Require Import M_Tree M_Base M_Dict M_Graph M_Machine M_Fts M_Part M_Discretize M_Switched.
Import ListNotations.
Open Scope string_scope.
Open Scope list_scope.
Open Scope nat_scope.

(** The keyword arguments given for a mode: those that [get_transitions] takes, and the names of the others *)
Record keywords : Type := Keywords { kw_N : option nat; kw_len : option nat; kw_loop : option bool; kw_others : list string }.
(** The program returns or raises an exception, or waits for ever at [q.get()]. *)
Inductive outcome (A : Type) : Type := Ends (r : res A) | Waits.
Arguments Ends {A}. Arguments Waits {A}.

Section Parallel.
Context {R : Type}.
Context (inter : R -> R -> R) (le : R -> R -> bool) (touch : @region R -> @region R -> bool).
Context (radius : R -> Qc) (same_matrices : R -> R -> bool) (in_order : list mode -> list mode).
(** [solve_feasible] with [closed_loop] *)
Context (solve : bool -> nat -> mode -> option nat -> R -> R -> R -> res R).
(** [discretize], for modes on which it ends *)
Context (disc : mode -> keywords -> res (abstraction R)).
(** The order of the messages of the workers for the modes, first of those that discretize *)
Context (first second : list mode -> list mode).

(** discretization.py:1820-1832, 1847-1857: start a worker for each mode and take as many messages.
    A worker that raises puts no message, so that one [q.get()] waits for ever. *)
Definition gather {A} (order : list mode -> list mode) (work : mode -> res A) (modes : list mode) : option (list (mode * A)) :=
  match mapr (fun m => do a <- work m; Ok (m, a)) (order modes) with Ok l => Some l | Err _ => None end.

(** discretization.py:1771-1789 [multiproc_get_transitions]; 2042-2053: the arguments of [get_transitions] and
    their defaults *)
Definition or_else {A} (a : A) (o : option A) : A := match o with Some x => x | None => a end.
Definition worker_transitions (sw : switched R) (m : mode) (p : keywords) : res matrix :=
  match kw_others p with
  | [] => get_transitions le (solve (or_else true (kw_loop p))) sw m (or_else 10 (kw_N p)) (or_else 1 (kw_len p))
  | _ => Err "TypeError"
  end.

(** discretization.py:1792-1864 [multiproc_discretize_switched], with 1748-1768 [multiproc_discretize] *)
Definition multiproc_discretize_switched (modes : list mode) (n_env n_sys : nat) (params : option (list (mode * keywords))) : outcome (switched R * fts) :=
  match params with
  | None => Ends (Err "TypeError")
  | Some d =>
      match mapr (fun m => of_opt "KeyError" (mget m d)) modes with
      | Err e => Ends (Err e)
      | Ok _ =>
          match gather first (fun m => do p <- of_opt "KeyError" (mget m d); disc m p) modes with
          | None => Waits
          | Some abs =>
              match merge_partitions inter le touch radius same_matrices in_order abs with
              | Err e => Ends (Err e)
              | Ok None => Ends (Err "TypeError")
              | Ok (Some sw) =>
                  match gather second (fun m => do p <- of_opt "KeyError" (mget m d); worker_transitions sw m p) modes with
                  | None => Waits
                  | Some trans => Ends (do ts <- merge_abstractions sw trans modes n_env n_sys; Ok (sw, ts))
                  end
              end
          end
      end
  end.
End Parallel.
