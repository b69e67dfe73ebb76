(** Model of tulip/transys/transys.py:1146-1359: abstraction of a transition system by
    bisimulation or dual simulation.

    Simplifications.  A matrix is a function on indices, of which those below the number of
    cells count; [n_cells] is the length of [sol] (asserted at 1324).  A set is a list; only
    [next(iter(cell))] depends on the order (1231).  Labels of states are values of any type;
    [repr] is Python's, [veqb] is [==], [in_ap] is membership in the power set of [ts.aps].  The
    number of iterations is bounded by [fuel].  The graph [Part] and [hash_ap], which are never read, are
    left out.  The system has the default action types (511-533), whose values are
    taken over. *)
From Coq Require Import List String Bool Arith.
From Verif Require Import M_Base M_Dict M_Graph M_Machine.
Import ListNotations.
Open Scope string_scope.
Open Scope list_scope.
Open Scope nat_scope.

Definition matrix : Type := nat -> nat -> bool.
(** [m[j, i] = b] *)
Definition set1 (m : matrix) (j i : nat) (b : bool) : matrix :=
  fun x y => if (x =? j) && (y =? i) then b else m x y.
(** [m[j, :] = b] *)
Definition set_row (m : matrix) (j : nat) (b : bool) : matrix := fun x y => if x =? j then b else m x y.
(** [m[:, i] = v] *)
Definition set_col (m : matrix) (i : nat) (v : nat -> bool) : matrix := fun x y => if y =? i then v x else m x y.
(** [np.pad(m, (0, 1), 'constant', constant_values=b)] for a matrix of [n] rows and columns. *)
Definition pad (n : nat) (m : matrix) (b : bool) : matrix := fun x y => if (x <? n) && (y <? n) then m x y else b.
(** [((IJ - transitions) > 0).astype(int)] *)
Definition minus (m t : matrix) : matrix := fun x y => m x y && negb (t x y).
(** 1303-1307: the first nonzero entry by rows, if the sum is positive. *)
Definition first_pair (n : nat) (m : matrix) : option (nat * nat) :=
  find (fun p => m (fst p) (snd p)) (list_prod (List.seq 0 n) (List.seq 0 n)).
Fixpoint replace {A} (i : nat) (x : A) (l : list A) : list A :=
  match l, i with
  | [], _ => []
  | _ :: r, O => x :: r
  | y :: r, S k => y :: replace k x r
  end.

Section Simu.
  Context {N V : Type} (neqb : N -> N -> bool) (veqb : V -> V -> bool) (repr : V -> string).

  (** transys.py:1146-1165. *)
  Definition pre_set (g : graph N V) (l : list N) : list N :=
    flat_map (fun n => map e_src (filter (fun e => neqb (e_dst e) n) (g_edges g))) l.

  (** transys.py:1280-1301: the cells of equal labels. *)
  Fixpoint add_cell (r : string) (n : N) (l : list (string * list N)) : list (string * list N) :=
    match l with
    | [] => [(r, [n])]
    | (r', c) :: rest => if String.eqb r r' then (r', c ++ [n]) :: rest else (r', c) :: add_cell r n rest
    end.
  Definition add_node_cell (na : N * attrs V) (acc : list (string * list N)) : res (list (string * list N)) :=
    match lookup "ap" (snd na) with
    | None => Err "KeyError"
    | Some v => Ok (add_cell (repr v) (fst na) acc)
    end.
  Definition initial_cells (g : graph N V) : res (list (list N)) :=
    do l <- fold_res add_node_cell (g_nodes g) []; Ok (map snd l).

  Record part := Part { p_sol : list (list N); p_ij : matrix; p_tr : matrix }.
  Definition subset (a b : list N) : bool := forallb (fun x => nmem neqb x b) a.
  Definition same_set (a b : list N) : bool := subset a b && subset b a.
  Definition intersection (a b : list N) : list N := filter (fun x => nmem neqb x b) a.
  Definition difference (a b : list N) : list N := filter (fun x => negb (nmem neqb x b)) a.

  (** transys.py:1308-1356: one round, for the entry [j, i]. *)
  Definition refine1 (dual : bool) (g : graph N V) (j i : nat) (st : part) : part :=
    let sol := p_sol st in
    let n := List.length sol in
    let ij := set1 (p_ij st) j i false in
    let tr := p_tr st in
    let si := nth i sol [] in
    let sj := nth j sol [] in
    let pre_j := pre_set g sj in
    if subset si pre_j then
      let tr := set1 tr j i true in Part sol (minus ij tr) tr
    else
      let isect := intersection si pre_j in
      match isect with
      | [] => Part sol ij tr
      | _ =>
          match (if dual then find (fun k => same_set (nth k sol []) isect) (List.seq 0 n) else None) with
          | Some k => let tr := set1 tr j k true in Part sol (minus ij tr) tr
          | None =>
              let tr := set_row (pad n tr false) n false in
              let tr := set_col tr n (fun x => tr x i) in
              let tr := set1 tr j n true in
              let ij := pad n ij true in
              if dual then Part (sol ++ [isect]) (minus ij tr) tr
              else
                let tr := set_row tr i false in
                let tr := if i =? j then set1 tr j n false else tr in
                let ij := set_row ij i true in
                let ij := set_col ij i (fun _ => true) in
                Part (replace i (difference si isect) sol ++ [isect]) (minus ij tr) tr
          end
      end.
  (** transys.py:1302-1356. *)
  Fixpoint refine (dual : bool) (g : graph N V) (fuel : nat) (st : part) : res part :=
    match first_pair (List.length (p_sol st)) (p_ij st) with
    | None => Ok st
    | Some (j, i) => match fuel with
                     | O => Err "out of fuel"
                     | S f => refine dual g f (refine1 dual g j i st)
                     end
    end.

  (** transys.py:1214-1221: [ts2simu]. *)
  Fixpoint add_index (s : N) (i : nat) (l : list (N * list nat)) : list (N * list nat) :=
    match l with
    | [] => [(s, [i])]
    | (t, c) :: r => if neqb s t then (t, c ++ [i]) :: r else (t, c) :: add_index s i r
    end.
  Fixpoint indices (i : nat) (sol : list (list N)) (l : list (N * list nat)) : list (N * list nat) :=
    match sol with
    | [] => l
    | c :: r => indices (S i) r (fold_left (fun l s => add_index s i l) c l)
    end.
  Definition cells_of (s : N) (l : list (N * list nat)) : option (list nat) :=
    option_map snd (find (fun x => neqb s (fst x)) l).

  (** The value [set()], membership in the power set of the propositions of the system, and
      the action types. *)
  Context (empty : V) (in_ap : V -> bool) (actions : types V).
  Definition simu_config (allowed : V -> bool) : config V :=
    Config [("ap", Some allowed)] [("ap", empty)] actions [].
  (** [G.nodes[s]['ap']] *)
  Definition label_of (g : graph N V) (s : N) : res V :=
    match find (fun na => neqb s (fst na)) (g_nodes g) with
    | None => Err "KeyError"
    | Some na => match lookup "ap" (snd na) with Some v => Ok v | None => Err "KeyError" end
    end.
  Definition label_cell (g : graph N V) (ic : nat * list N) (r : graph nat V) : res (graph nat V) :=
    match snd ic with
    | [] => Err "StopIteration"
    | s :: _ => do v <- label_of g s;
                add_node Nat.eqb (simu_config in_ap) (fst ic) [("ap", v)] true r
    end.
  Definition add_cell_transition (tr : matrix) (ij : nat * nat) (r : graph nat V) : res (graph nat V) :=
    if tr (snd ij) (fst ij) then add_edge Nat.eqb veqb (simu_config in_ap) (fst ij) (snd ij) None [] true r else Ok r.
  (** transys.py:1168-1239.  The power set of no propositions has [set()] only. *)
  Definition output_fts (g : graph N V) (st : part) : res (graph nat V * list (N * list nat)) :=
    let n := List.length (p_sol st) in
    let ts2simu := indices 0 (p_sol st) [] in
    do starts <- mapr (fun s => of_opt "KeyError" (cells_of s ts2simu)) (g_init g);
    do r1 <- fold_res (fun i => add_node Nat.eqb (simu_config (fun v => veqb v empty)) i [] true) (List.seq 0 n) empty_graph;
    do r2 <- fold_res (add_initial Nat.eqb) (List.concat starts) r1;
    do r3 <- fold_res (label_cell g) (combine (List.seq 0 n) (p_sol st)) r2;
    do r4 <- fold_res (add_cell_transition (p_tr st)) (list_prod (List.seq 0 n) (List.seq 0 n)) r3;
    Ok (r4, ts2simu).

  Record abstraction := Abs { s_graph : graph nat V; s_ts2simu : list (N * list nat); s_cells : list (list N) }.
  (** transys.py:1242-1359. *)
  Definition simu_abstract (fuel : nat) (dual : bool) (g : graph N V) : res abstraction :=
    do sol <- initial_cells g;
    do st <- refine dual g fuel (Part sol (fun _ _ => true) (fun _ _ => false));
    do r <- output_fts g st;
    Ok (Abs (fst r) (snd r) (p_sol st)).
End Simu.
Arguments part N : clear implicits.
Arguments abstraction N V : clear implicits.
