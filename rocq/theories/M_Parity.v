(** Model of McNaughton's algorithm for parity games, contrib/parity_games/solve_parity_game.py,
    and of the class of games, tulip/transys/automata.py:628-695, tulip/transys/transys.py:1028-1103.

    Simplifications.  A game is the list of its nodes, the player and the color of each node, and
    the list of its edges (pairs of nodes; parallel edges are repeated pairs).  Prints are left out.
    Sets are lists whose order and repetitions are not significant. *)
From Coq Require Import List String Bool Arith ZArith.
From Verif Require Import M_Base.
Import ListNotations.
Open Scope string_scope.
Open Scope list_scope.
Open Scope nat_scope.

Section Game.
Context {N : Type} (N_dec : forall x y : N, {x = y} + {x <> y}).

Record game := Game { nodes : list N; owner : N -> nat; color : N -> nat; edges : list (N * N) }.

Definition inb (x : N) (l : list N) : bool := if in_dec N_dec x l then true else false.
Definition eqb (x y : N) : bool := if N_dec x y then true else false.
(** networkx: [pg.predecessors(x)], [pg.succ[x]]; both list a neighbour once. *)
Definition predecessors (g : game) (x : N) : list N :=
  nodup N_dec (map fst (filter (fun e => eqb (snd e) x) (edges g))).
Definition succ (g : game) (x : N) : list N :=
  nodup N_dec (map snd (filter (fun e => eqb (fst e) x) (edges g))).

(** solve_parity_game.py:66-88 [ctrl_next] *)
Definition ctrl_next (g : game) (player : nat) (W : list N) : list N :=
  flat_map (fun node =>
    flat_map (fun pred =>
      if Nat.eqb (owner g pred) player then [pred]
      else if Nat.eqb (List.length (succ g pred)) 1 then [pred]
      else []) (predecessors g node)) W.
Definition set_eqb (a b : list N) : bool := forallb (fun x => inb x b) a && forallb (fun x => inb x a) b.
(** solve_parity_game.py:45-63 [attractor]; [None] while the loop has not ended after [fuel] rounds. *)
Fixpoint attractor_loop (fuel : nat) (g : game) (player : nat) (W Wold : list N) : option (list N) :=
  match fuel with
  | O => None
  | S f =>
      if set_eqb W Wold then Some W
      else attractor_loop f g player (nodup N_dec (W ++ ctrl_next g player W)) W
  end.
Definition attractor (fuel : nat) (W : list N) (g : game) (player : nat) : option (list N) :=
  attractor_loop fuel g player (nodup N_dec W) [].

(** labeled_graphs.py:1419-1427 *)
Definition has_deadends (g : game) : bool := existsb (fun x => Nat.eqb (List.length (succ g x)) 0) (nodes g).
(** labeled_graphs.py:222-232: edges at the removed nodes disappear with them. *)
Definition remove_from (g : game) (a : list N) : game :=
  Game (filter (fun x => negb (inb x a)) (nodes g)) (owner g) (color g)
       (filter (fun e => negb (inb (fst e) a) && negb (inb (snd e) a)) (edges g)).
(** automata.py:683-695 [max_color]: [max(self, key=key, default=-1)] is the first node of the
    largest color, not its color; [None] is -1. *)
Fixpoint max_node (g : game) (best : N) (l : list N) : N :=
  match l with
  | [] => best
  | x :: r => max_node g (if color g best <? color g x then x else best) r
  end.
Definition max_color (g : game) : option N :=
  match nodes g with [] => None | x :: r => Some (max_node g x r) end.
End Game.
Arguments game : clear implicits.

(** Nodes are integers or strings. *)
Inductive pnode := PInt (z : Z) | PStr (s : string).
Definition pnode_dec (x y : pnode) : {x = y} + {x <> y}.
Proof. decide equality; [apply Z.eq_dec | apply string_dec]. Defined.
(** solve_parity_game.py:15-42 [McNaughton].  With [start = None] this is the body of the function,
    with [start = Some (c, w)] the loop of lines 29-42 where [w] is [W[1 - sigma]].  [c is 0] is
    identity with the integer 0.  The remainder of a string that is not a format raises TypeError.
    [None]: no result within [fuel] calls and rounds. *)
Fixpoint mcnaughton (fuel : nat) (start : option (Z * list pnode)) (p : game pnode) : option (res (list pnode * list pnode)) :=
  match fuel with
  | O => None
  | S f =>
      match start with
      | None =>
          if has_deadends pnode_dec p then Some (Err "Exception")
          else
            match max_color p with
            | None => Some (Ok ([], []))
            | Some (PStr _) => Some (Err "TypeError")
            | Some (PInt c) => if Z.eqb c 0 then Some (Ok (nodes p, [])) else mcnaughton f (Some (c, [])) p
            end
      | Some (c, w) =>
          let sigma := Z.to_nat (c mod 2) in
          let top := filter (fun x => Z.eqb (Z.of_nat (color p x)) c) (nodes p) in
          match attractor pnode_dec fuel top p sigma with
          | None => None
          | Some a =>
              match mcnaughton f None (remove_from pnode_dec p a) with
              | None => None
              | Some (Err e) => Some (Err e)
              | Some (Ok (w0, w1)) =>
                  match (if Nat.eqb sigma 0 then w1 else w0) with
                  | [] =>
                      let rest := filter (fun x => negb (inb pnode_dec x w)) (nodes p) in
                      Some (Ok (if Nat.eqb sigma 0 then (rest, w) else (w, rest)))
                  | lost =>
                      match attractor pnode_dec fuel lost p (1 - sigma) with
                      | None => None
                      | Some b => mcnaughton f (Some (c, nodup pnode_dec (w ++ b))) (remove_from pnode_dec p b)
                      end
                  end
              end
          end
      end
  end.
Definition McNaughton (fuel : nat) (p : game pnode) : option (res (list pnode * list pnode)) := mcnaughton fuel None p.
