(** Model of the dual-simulation abstraction of continuous systems: tulip/abstract/discretization.py,
    [_discretize_dual].  The same parameters and simplifications as in M_Discretize. *)
From Coq Require Import List String Bool Arith ZArith QArith Qcanon.
From Verif Require Import M_Tree M_Base M_Dict M_Graph M_Machine M_Fts M_Part M_Discretize.
Import ListNotations.
Open Scope string_scope.
Open Scope list_scope.
Open Scope nat_scope.

Section Dual.
Context {R : Type}.
Context (inter : R -> R -> R) (le : R -> R -> bool) (touch : @region R -> @region R -> bool).
Context (volume radius : R -> Qc) (separate : R -> list R).
Context (solve : option nat -> R -> R -> option R -> res R) (rd : option nat -> Qc).
Context (min_cell_volume abs_tol : Qc) (trans_length : nat) (conservative : bool) (orig_list : list R).

(** Equality of regions in the polytope library: each is a subset of the other. *)
Definition same (a b : R) : bool := le a b && le b a.
(** discretization.py:1460-1470: the new cell against the old neighbours [ks].  The matrix of transitions has
    not been padded yet: it has no row for the new cell. *)
Fixpoint link_one (remove_trans : bool) (sol : list (@region R)) (new : nat) (ks : list nat) (adj : matrix) : res matrix :=
  match ks with
  | [] => Ok adj
  | k :: r => if touch_at touch sol new k then link_one remove_trans sol new r (put k new true (put new k true adj))
              else if remove_trans && (trans_length =? 1) then Err "IndexError"
              else link_one remove_trans sol new r adj
  end.
(** discretization.py:1435-1492: a part of cell [i] becomes a cell of its own.  Of the connected pieces only the first is
    kept; the list of subsystems is not extended. *)
Definition add_cell (remove_trans : bool) (st : dstate R) (i j : nat) (props : list string) (isect : R) : res (dstate R) :=
  do piece <- of_opt "IndexError" (hd_error (separate isect));
  let n := List.length (d_sol st) in
  let sol := d_sol st ++ [(piece, props)] in
  let old_adj := filter (d_adj st i) (List.seq 0 n) in
  let a1 := put n n true (put n i true (put i n true (padded n (d_adj st)))) in
  let orig := if conservative then d_orig st else d_orig st ++ [nth i (d_orig st) 0] in
  do adj <- link_one remove_trans sol n (filter (fun k => negb (k =? i) && negb (k =? n)) old_adj) a1;
  let t1 := padded n (d_trans st) in
  let adj_k := reachable_within (S n) trans_length adj adj in
  let t2 := set_col n (fun a => t1 a i && adj_k a i) t1 in
  let t3 := if adj_k j n then put j n true t2 else t2 in
  let IJ := sym_adj_change adj_k t3 (sym_adj_change adj_k t3 (padded n (d_IJ st)) i) n in
  Ok (DS sol (d_sub st) orig adj t3 IJ).
(** discretization.py:1426-1434: the cells that are the intersection *)
Definition equals (sol : list (@region R)) (r : R) : list nat :=
  filter (fun k => match nth_error sol k with Some c => same (fst c) r | None => false end) (List.seq 0 (List.length sol)).
(** discretization.py:1353-1511: one round, for the pair [j], [i] *)
Definition dual_round (remove_trans : bool) (st : dstate R) (j i : nat) : res (dstate R) :=
  let IJ := put j i false (d_IJ st) in
  let st1 := DS (d_sol st) (d_sub st) (d_orig st) (d_adj st) (d_trans st) IJ in
  do si <- of_opt "IndexError" (nth_error (d_sol st) i);
  do sj <- of_opt "IndexError" (nth_error (d_sol st) j);
  do ss <- subsystem st i;
  do t <- trans_set_of conservative orig_list st i;
  do S0 <- solve ss (fst si) (fst sj) t;
  let isect := inter (fst si) S0 in
  let vol2 := (volume (fst si) - volume isect)%Qc in
  if more (volume isect) min_cell_volume && more (radius isect) (rd ss) &&
     more vol2 min_cell_volume && more (radius (fst si)) (rd ss)
  then match equals (d_sol st) isect with
       | [] => add_cell remove_trans st1 i j (snd si) isect
       | found => Ok (DS (d_sol st) (d_sub st) (d_orig st) (d_adj st) (fold_left (fun m k => put j k true m) found (d_trans st)) IJ)
       end
  else if more abs_tol vol2 then Ok (set_trans st1 IJ i j true)
  else Ok (set_trans st1 IJ i j false).
(** discretization.py:1352: [None] while the loop has not ended after [fuel] rounds *)
Fixpoint dual_loop (remove_trans : bool) (fuel : nat) (st : dstate R) : option (res (dstate R)) :=
  match first_pair (List.length (d_sol st)) (d_IJ st) with
  | None => Some (Ok st)
  | Some (j, i) =>
      match fuel with
      | O => None
      | S f => match dual_round remove_trans st j i with
               | Err e => Some (Err e)
               | Ok st' => dual_loop remove_trans f st'
               end
      end
  end.
End Dual.

Section Abstract.
Context {R : Type}.
Context (inter diff : R -> R -> R) (fulldim : R -> bool) (le : R -> R -> bool).
Context (find_adjacent : list (@region R) -> matrix) (convex : R -> list R) (touch : @region R -> @region R -> bool).
Context (volume radius : R -> Qc) (separate : R -> list R).
Context (solve : option nat -> R -> R -> option R -> res R) (rd : option nat -> Qc).
Context (min_cell_volume abs_tol : Qc) (trans_length : nat) (conservative : bool).
(** discretization.py:1179-1622 [_discretize_dual].  What precedes and follows the loop is the text of
    [_discretize_bi]: 1276-1333 and 1571-1622 against 760-819 and 1125-1176. *)
Definition discretize_dual (remove_trans : bool) (fuel : nat) (pwa : option (R * list R)) (part : ppp R) : option (res (abstraction R)) :=
  match bi_start inter diff fulldim le find_adjacent convex touch conservative pwa part with
  | Err e => Some (Err e)
  | Ok s =>
      match p_adj (s_part s) with
      | None => Some (Err "AttributeError")
      | Some adj =>
          match dual_loop inter le touch volume radius separate solve rd min_cell_volume abs_tol trans_length conservative
                  (s_orig_list s) (conservative && remove_trans) fuel (bi_init trans_length s adj) with
          | None => None
          | Some (Err e) => Some (Err e)
          | Some (Ok st) => Some (bi_result le s st)
          end
      end
  end.
End Abstract.
