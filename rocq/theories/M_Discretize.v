(** Model of the bisimulation-like abstraction of continuous systems: tulip/abstract/discretization.py,
    [_discretize_bi], [reachable_within], [sym_adj_change], and the construction of the transition
    system from a matrix of transitions ([add_adj], labeled_graphs.py:590-658).

    The polytope library is a parameter, as in M_Part; so is [solve_feasible] (see M_Horizon), applied
    to the subsystem, the cells and the set of intermediate states.  Numbers are exact rationals.
    Matrices of integers that only hold 0 and 1 are matrices of truth values.  Plots, logs, timing and
    the checks under [debug] are left out. *)
From Coq Require Import List String Bool Arith ZArith QArith Qcanon.
From Verif Require Import M_Tree M_Base M_Dict M_Graph M_Machine M_Fts M_Part.
Import ListNotations.
Open Scope string_scope.
Open Scope list_scope.
Open Scope nat_scope.

(** ** Matrices *)
(** [m[i, j] = b] *)
Definition put (i j : nat) (b : bool) (m : matrix) : matrix := fun a c => if (a =? i) && (c =? j) then b else m a c.
(** [m[i, :] = f] and [m[:, i] = f] *)
Definition set_row (i : nat) (f : nat -> bool) (m : matrix) : matrix := fun a c => if a =? i then f c else m a c.
Definition set_col (i : nat) (f : nat -> bool) (m : matrix) : matrix := fun a c => if c =? i then f a else m a c.
(** [np.pad(m, (0, k), 'constant')] of an [n x n] matrix *)
Definition padded (n : nat) (m : matrix) : matrix := fun a c => (a <? n) && (c <? n) && m a c.
(** [(np.dot(a, b) != 0).astype(int)] *)
Definition bool_dot (n : nat) (a b : matrix) : matrix := fun i j => existsb (fun k => a i k && b k j) (List.seq 0 n).
(** discretization.py:1625-1641 [reachable_within] *)
Definition reachable_within (n trans_length : nat) (adj_k adj : matrix) : matrix :=
  Nat.iter (trans_length - 1) (fun m => bool_dot n m adj) adj_k.
(** discretization.py:1644-1657 [sym_adj_change] *)
Definition sym_adj_change (adj_k transitions : matrix) (IJ : matrix) (i : nat) : matrix :=
  set_col i (fun a => adj_k a i && negb (transitions a i)) (set_row i (fun c => adj_k i c && negb (transitions i c)) IJ).
(** [np.nonzero(IJ)]: the first entry, row by row *)
Definition first_pair (n : nat) (IJ : matrix) : option (nat * nat) :=
  find (fun ji => IJ (fst ji) (snd ji)) (list_prod (List.seq 0 n) (List.seq 0 n)).

(** ** The transition system of a matrix *)
(** labeled_graphs.py:590-658 [add_adj] for a square matrix, on states [0 .. n-1]; [m i j] stands for a
    transition from [i] to [j].  networkx lists the edges row by row. *)
Definition state (k : nat) : obj := OInt (Z.of_nat k).
Definition adj_edges (n : nat) (m : matrix) : list (nat * nat) :=
  filter (fun ij => m (fst ij) (snd ij)) (list_prod (List.seq 0 n) (List.seq 0 n)).
Definition add_adj (ap : list obj) (n : nat) (m : matrix) (g : graph obj pv) : res (graph obj pv) :=
  fold_res (fun ij => add_edge obj_eqb pv_eqb (fts_config ap) (state (fst ij)) (state (snd ij)) None [] true) (adj_edges n m) g.
(** discretization.py:1134-1148 *)
Definition build_ts (props : list string) (labels : list (list string)) (m : matrix) : res fts :=
  let n := List.length labels in
  let ap := map OStr props in
  do g1 <- fold_res (fun k => add_node obj_eqb (fts_config []) (state k) [] true) (List.seq 0 n) empty_graph;
  do g2 <- add_adj [] n m g1;
  do g3 <- fold_res (fun kl => add_node obj_eqb (fts_config ap) (state (fst kl)) [("ap", PvSet (snd kl))] true)
             (combine (List.seq 0 n) labels) g2;
  Ok (FTS ap g3).

Section Discretize.
Context {R : Type}.
Context (inter diff : R -> R -> R) (fulldim : R -> bool) (le : R -> R -> bool).
Context (find_adjacent : list (@region R) -> matrix) (convex : R -> list R) (touch : @region R -> @region R -> bool).
(** Volume, radius of the Chebyshev ball, and [pc.separate]: the connected pieces, which keep the
    propositions. *)
Context (volume radius : R -> Qc) (separate : R -> list R).
(** [solve_feasible] with the index of the subsystem, the cells [si] and [sj], and [trans_set]; the
    radius of the disturbance set of the subsystem. *)
Context (solve : option nat -> R -> R -> option R -> res R) (rd : option nat -> Qc).
Context (min_cell_volume abs_tol : Qc) (trans_length : nat) (conservative : bool).

(** The variables of the loop *)
Record dstate : Type := DS {
  d_sol : list (@region R); d_sub : option (list nat); d_orig : list nat;
  d_adj : matrix; d_trans : matrix; d_IJ : matrix }.
Definition touch_at (sol : list (@region R)) (a b : nat) : bool :=
  match nth_error sol a, nth_error sol b with Some r, Some s => touch r s | _, _ => false end.
(** discretization.py:1021-1028, 1029-1037: cell [a] against the old neighbour [k] *)
Definition link (remove_trans : bool) (sol : list (@region R)) (k : nat) (at_ : matrix * matrix) (a : nat) : matrix * matrix :=
  if touch_at sol a k then (put k a true (put a k true (fst at_)), snd at_)
  else if remove_trans && (trans_length =? 1) then (fst at_, put k a false (put a k false (snd at_)))
  else at_.
(** discretization.py:1003-1010 *)
Definition link_new (sol : list (@region R)) (new_idx : list nat) (adj : matrix) : matrix :=
  fold_left (fun m rk => if (fst rk =? snd rk) then m
                         else if touch_at sol (fst rk) (snd rk) then put (snd rk) (fst rk) true (put (fst rk) (snd rk) true m) else m)
    (list_prod new_idx new_idx) adj.
(** discretization.py:934-1047: cell [i] with the given propositions is replaced by pieces of [isect] and [rest] *)
Definition split_cell (remove_trans : bool) (st : dstate) (i j : nat) (props : list string) (isect rest : R) : res dstate :=
  match separate isect with
  | [] => Err "IndexError"
  | piece :: pieces =>
      let n := List.length (d_sol st) in
      let new := separate rest ++ pieces in
      let num_new := List.length new in
      let sol := set_nth i (piece, props) (d_sol st) ++ map (fun r => (r, props)) new in
      let sub := match d_sub st with
                 | None => None
                 | Some l => Some (l ++ repeat (nth i l 0) num_new)
                 end in
      let n_cells := n + num_new in
      let new_idx := rev (List.seq n num_new) in
      (* 965-981 *)
      let t1 := set_row i (fun _ => false) (padded n (d_trans st)) in
      let t2 := fold_left (fun m r => put j r false (put i r false m)) new_idx t1 in
      let t3 := if i =? j then t2 else put j i true t2 in
      (* 987-1002 *)
      let old_adj := filter (d_adj st i) (List.seq 0 n) in
      let a1 := padded n (put i i true (set_col i (fun _ => false) (set_row i (fun _ => false) (d_adj st)))) in
      let a2 := fold_left (fun m r => put r r true (put r i true (put i r true m))) new_idx a1 in
      let orig := if conservative then d_orig st else d_orig st ++ repeat (nth i (d_orig st) 0) num_new in
      let a3 := link_new sol new_idx a2 in
      (* 1018-1037 *)
      let ks := filter (fun k => negb (k =? i) && negb (k =? n_cells - 1)) old_adj in
      let at4 := fold_left (fun at_ k => fold_left (link remove_trans sol k) (i :: new_idx) at_) ks (a3, t3) in
      (* 1039-1047 *)
      let adj_k := reachable_within n_cells trans_length (fst at4) (fst at4) in
      let IJ := fold_left (sym_adj_change adj_k (snd at4)) (i :: new_idx) (padded n (d_IJ st)) in
      Ok (DS sol sub orig (fst at4) (snd at4) IJ)
  end.

Context (orig_list : list R).
Definition set_trans (st : dstate) (IJ : matrix) (i j : nat) (b : bool) : dstate :=
  DS (d_sol st) (d_sub st) (d_orig st) (d_adj st) (put j i b (d_trans st)) IJ.
(** [>] *)
Definition more (a b : Qc) : bool := if Qclt_le_dec b a then true else false.
(** discretization.py:848-859 *)
Definition subsystem (st : dstate) (i : nat) : res (option nat) :=
  match d_sub st with
  | None => Ok None
  | Some l => do s <- of_opt "IndexError" (nth_error l i); Ok (Some s)
  end.
Definition trans_set_of (st : dstate) (i : nat) : res (option R) :=
  if conservative then Ok None
  else do o <- of_opt "IndexError" (nth_error (d_orig st) i);
       do c <- of_opt "IndexError" (nth_error orig_list o); Ok (Some c).
(** discretization.py:839-1065: one round, for the pair [j], [i] *)
Definition bi_round (remove_trans : bool) (st : dstate) (j i : nat) : res dstate :=
  let IJ := put j i false (d_IJ st) in
  let st1 := DS (d_sol st) (d_sub st) (d_orig st) (d_adj st) (d_trans st) IJ in
  do si <- of_opt "IndexError" (nth_error (d_sol st) i);
  do sj <- of_opt "IndexError" (nth_error (d_sol st) j);
  do ss <- subsystem st i;
  do t <- trans_set_of st i;
  do S0 <- solve ss (fst si) (fst sj) t;
  let isect := inter (fst si) S0 in
  let rest := diff (fst si) S0 in
  if more (volume isect) min_cell_volume && more (radius isect) (rd ss) &&
     more (volume rest) min_cell_volume && more (radius rest) (rd ss)
  then split_cell remove_trans st1 i j (snd si) isect rest
  else if more abs_tol (volume rest) then Ok (set_trans st1 IJ i j true)
  else Ok (set_trans st1 IJ i j false).
(** discretization.py:838: [None] while the loop has not ended after [fuel] rounds *)
Fixpoint bi_loop (remove_trans : bool) (fuel : nat) (st : dstate) : option (res dstate) :=
  match first_pair (List.length (d_sol st)) (d_IJ st) with
  | None => Some (Ok st)
  | Some (j, i) =>
      match fuel with
      | O => None
      | S f => match bi_round remove_trans st j i with
               | Err e => Some (Err e)
               | Ok st' => bi_loop remove_trans f st'
               end
      end
  end.
End Discretize.
Arguments dstate : clear implicits.

Section Abstract.
Context {R : Type}.
Context (inter diff : R -> R -> R) (fulldim : R -> bool) (le : R -> R -> bool).
Context (find_adjacent : list (@region R) -> matrix) (convex : R -> list R) (touch : @region R -> @region R -> bool).
Context (volume radius : R -> Qc) (separate : R -> list R).
Context (solve : option nat -> R -> R -> option R -> res R) (rd : option nat -> Qc).
Context (min_cell_volume abs_tol : Qc) (trans_length : nat) (conservative : bool).

(** The parts of [AbstractPwa] that are computed here *)
Record abstraction : Type := Abstraction {
  ab_ppp : ppp R; ab_ts : fts; ab_pwa_ppp : ppp R;
  ab_ppp2pwa : list nat; ab_ppp2sys : option (list nat); ab_ppp2orig : list nat }.
(** discretization.py:760-819: the partition that is refined, with the maps to subsystems and to the given partition.
    Without [conservative] every cell that [part2convex] makes has one polytope, so that it is its own
    entry of [orig_list]. *)
Record start : Type := Start {
  s_part : ppp R; s_sub : option (list nat); s_part2orig : list nat; s_orig_list : list R; s_orig : list nat }.
Definition bi_start (pwa : option (R * list R)) (part : ppp R) : res start :=
  do psl <- match pwa with
            | Some (dom, subs) => do q <- pwa_partition inter diff fulldim le touch dom subs part;
                                  Ok (fst (fst q), Some (snd (fst q)), snd q)
            | None => Ok (part, None, List.seq 0 (List.length (p_regions part)))
            end;
  if conservative then Ok (Start (fst (fst psl)) (snd (fst psl)) (snd psl) [] [0])
  else
    do cn <- part2convex le find_adjacent convex (fst (fst psl));
    let look (l : list nat) := mapr (fun k => of_opt "IndexError" (nth_error l k)) (snd cn) in
    do part2orig <- look (snd psl);
    do sub <- match snd (fst psl) with None => Ok None | Some l => do l' <- look l; Ok (Some l') end;
    Ok (Start (fst cn) sub part2orig (map fst (p_regions (fst cn))) (List.seq 0 (List.length (p_regions (fst cn))))).
Definition bi_init (s : start) (adj : matrix) : dstate R :=
  let n := List.length (p_regions (s_part s)) in
  DS (p_regions (s_part s)) (s_sub s) (s_orig s) adj no_entry (reachable_within n trans_length adj adj).
(** discretization.py:1125-1176 *)
Definition bi_result (s : start) (st : dstate R) : res abstraction :=
  do new_part <- make_ppp le (p_domain (s_part s)) (d_sol st) (Some (d_adj st)) (p_props (s_part s));
  do props <- of_opt "TypeError" (p_props (s_part s));
  do ts <- build_ts (map fst props) (map snd (d_sol st)) (fun i j => d_trans st j i);
  do ppp2orig <- mapr (fun x => of_opt "IndexError" (nth_error (s_part2orig s) x)) (d_orig st);
  Ok (Abstraction new_part ts (s_part s) (d_orig st) (d_sub st) ppp2orig).
(** discretization.py:663-1176 [_discretize_bi] for a linear system, or for a piecewise affine one given
    by its domain and the domains of its subsystems.  The argument [remove_trans] is forgotten without
    [conservative] (781). *)
Definition discretize_bi (remove_trans : bool) (fuel : nat) (pwa : option (R * list R)) (part : ppp R) : option (res abstraction) :=
  match bi_start pwa part with
  | Err e => Some (Err e)
  | Ok s =>
      match p_adj (s_part s) with
      | None => Some (Err "AttributeError")
      | Some adj =>
          match bi_loop inter diff touch volume radius separate solve rd min_cell_volume abs_tol trans_length conservative
                  (s_orig_list s) (conservative && remove_trans) fuel (bi_init s adj) with
          | None => None
          | Some (Err e) => Some (Err e)
          | Some (Ok st) => Some (bi_result s st)
          end
      end
  end.
End Abstract.
Arguments abstraction : clear implicits.
