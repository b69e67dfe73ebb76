(** Model of the maps of [AbstractPwa] and of its check of transitions: tulip/abstract/discretization.py,
    [ts2ppp], [ppp2trans], [ppp2pwa], [ppp2sys], [ppp2orig], [verify_transitions].

    The abstraction is that of M_Discretize; its attribute [ppp2ts] is the list of states of the transition
    system, 1137 and 1169.  What is logged is returned; the ratio of volumes that is logged with an incorrect
    transition is left out. *)
From Coq Require Import List String Bool Arith ZArith.
From Verif Require Import M_Tree M_Base M_Dict M_Graph M_Machine M_Fts M_Part M_Discretize.
Import ListNotations.
Open Scope string_scope.
Open Scope list_scope.
Open Scope nat_scope.

(** The attribute [disc_params]: of its entries, those that are read here and the one that has a similar name *)
Record vparams : Type := VParams { vp_N : option nat; vp_close_loop : option bool; vp_closed_loop : option bool; vp_all : option bool }.
(** discretization.py:1146-1153, 1592-1599: as it is made by the two algorithms *)
Definition made_params (N : nat) (closed_loop use_all_horizon : bool) : vparams := VParams (Some N) None (Some closed_loop) (Some use_all_horizon).

Section Verify.
Context {R : Type} (le : R -> R -> bool).
(** [solve_feasible] with [N], [closed_loop], [use_all_horizon], the subsystem, the two regions and [trans_set] *)
Context (solve : nat -> bool -> bool -> option nat -> R -> R -> R -> res R).

(** [list.index] *)
Fixpoint position (s : obj) (l : list obj) : res nat :=
  match l with [] => Err "ValueError" | x :: r => if obj_eqb x s then Ok 0 else do k <- position s r; Ok (S k) end.
Definition states_of (ab : abstraction R) : list obj := map state (List.seq 0 (List.length (p_regions (ab_ppp ab)))).
(** discretization.py:353-356 [ts2ppp] *)
Definition ts2ppp (ab : abstraction R) (s : obj) : res (nat * @region R) :=
  do k <- position s (states_of ab);
  do r <- of_opt "IndexError" (nth_error (p_regions (ab_ppp ab)) k);
  Ok (k, r).
(** discretization.py:373-392 [ppp2pwa] *)
Definition ppp2pwa (ab : abstraction R) (i : nat) : res (nat * @region R) :=
  do j <- of_opt "IndexError" (nth_error (ab_ppp2pwa ab) i);
  do r <- of_opt "IndexError" (nth_error (p_regions (ab_pwa_ppp ab)) j);
  Ok (j, r).
(** discretization.py:394-414 [ppp2sys]: [None] is the whole system; [subs] is the number of subsystems *)
Definition ppp2sys (subs : nat) (ab : abstraction R) (i : nat) : res (nat * option nat) :=
  match ab_ppp2sys ab with
  | None => Ok (0, None)
  | Some l => do j <- of_opt "IndexError" (nth_error l i); if j <? subs then Ok (j, Some j) else Err "IndexError"
  end.
(** discretization.py:416-433 [ppp2orig] *)
Definition ppp2orig (orig : ppp R) (ab : abstraction R) (i : nat) : res (nat * @region R) :=
  do j <- of_opt "IndexError" (nth_error (ab_ppp2orig ab) i);
  do r <- of_opt "IndexError" (nth_error (p_regions orig) j);
  Ok (j, r).
(** discretization.py:358-371 [ppp2trans] *)
Definition ppp2trans (subs : nat) (ab : abstraction R) (i : nat) : res (@region R * option nat) :=
  do jr <- ppp2pwa ab i;
  do ks <- ppp2sys subs ab i;
  Ok (snd jr, snd ks).
(** discretization.py:486-494, feasible.py:98-116: the entries "N", "close_loop" and "use_all_horizon" are passed to
    [solve_feasible], which has no argument [close_loop]; the others have their defaults *)
Definition solve_with (p : vparams) (sub : option nat) (a b t : R) : res R :=
  match vp_close_loop p with
  | Some _ => Err "TypeError"
  | None => solve (match vp_N p with Some n => n | None => 1 end) true (match vp_all p with Some b => b | None => false end) sub a b t
  end.
(** discretization.py:480-505 [verify_transitions]: the numbers of the regions and whether the transition is
    logged as correct *)
Definition verify_edge (subs : nat) (ab : abstraction R) (p : vparams) (e : edge obj pv) : res (nat * nat * bool) :=
  do i <- ts2ppp ab (e_src e);
  do j <- ts2ppp ab (e_dst e);
  do ts <- ppp2trans subs ab (fst i);
  do S0 <- solve_with p (snd ts) (fst (snd i)) (fst (snd j)) (fst (fst ts));
  Ok (fst i, fst j, le (fst (snd i)) S0).
Definition verify_transitions (subs : nat) (ab : abstraction R) (p : vparams) : res (list (nat * nat * bool)) :=
  mapr (verify_edge subs ab p) (g_edges (f_graph (ab_ts ab))).
End Verify.
