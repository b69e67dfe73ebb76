(** Model of proposition-preserving partitions: tulip/abstract/prop2partition.py.

    The polytope library is a parameter: a type of regions with intersection, difference, the tests
    of full dimension, inclusion and adjacency, the radius of the Chebyshev ball, the split into
    convex parts, and boxes.  Propositions carried by regions ([Region.props]) are kept beside the
    region.  Numbers are exact rationals instead of floats.  Warnings, prints and plots are left
    out. *)
From Coq Require Import List String Bool Arith ZArith QArith.
From Verif Require Import M_Base.
Import ListNotations.
Open Scope string_scope.
Open Scope list_scope.
Open Scope nat_scope.

(** ** Helper functions *)
(** prop2partition.py:667-690 [compute_interval]; [None] while the loop has not ended after [fuel]
    rounds. *)
Definition box : Type := list Q.
Fixpoint interval_loop (fuel : nat) (high size tol : Q) (i : Q) (acc : list box) : option (list box) :=
  match fuel with
  | O => None
  | S f =>
      if Qle_bool high (i + size + tol) then Some (acc ++ [[i; high]])
      else interval_loop f high size tol (i + size)%Q (acc ++ [[i; (i + size)%Q]])
  end.
Definition compute_interval (fuel : nat) (low high size tol : Q) : option (list box) :=
  interval_loop fuel high size tol low [].
(** prop2partition.py:693-704 [product_interval] *)
Definition product_interval (l1 l2 : list box) : list box :=
  flat_map (fun a => map (fun b => a ++ b) l2) l1.

(** A matrix of zeros and ones, given by the entries that are one. *)
Definition matrix : Type := nat -> nat -> bool.
Definition no_entry : matrix := fun _ _ => false.
Definition set_one (i j : nat) (m : matrix) : matrix :=
  fun a b => (Nat.eqb a i && Nat.eqb b j) || m a b.

Section Partition.
Context {R : Type}.
Context (inter diff : R -> R -> R) (fulldim : R -> bool) (le : R -> R -> bool).

(** A region with its propositions, a set given as a list. *)
Definition region : Type := (R * list string)%type.

(** A partition: domain, regions, adjacency, proposition regions. *)
Record ppp := PPP {
  p_domain : R; p_regions : list region; p_adj : option matrix; p_props : option (list (string * R)) }.

(** prop2partition.py:156-174 [is_symbolic] *)
Definition subset (a b : list string) : bool := forallb (fun x => mem x b) a.
Definition is_symbolic (regions : list region) (props : option (list (string * R))) : res unit :=
  match props with
  | None => Ok tt
  | Some d => if forallb (fun r => subset (snd r) (map fst d)) regions then Ok tt else Err "ValueError"
  end.
(** prop2partition.py:92-144 [PropPreservingPartition.__init__] with [check=True].  The callers pass
    a square matrix of the size of the list of regions, if any. *)
Definition make_ppp (domain : R) (regions : list region) (adj : option matrix) (props : option (list (string * R))) : res ppp :=
  if forallb (fun r => le (fst r) domain) regions then
    do _ <- is_symbolic regions props;
    Ok (PPP domain regions adj props)
  else Err "ValueError".

(** prop2partition.py:324-354: one region of the list before the pass over a proposition.  The
    result is what becomes of the entry ([None] if it will be popped, because the region has moved
    to the end of the list) and what is appended. *)
Definition split_region (p : string) (P : R) (r : region) : option region * list region :=
  let dummy := inter (fst r) P in
  if fulldim dummy then
    let rest := diff (fst r) P in
    (Some (dummy, p :: snd r), if fulldim rest then [(rest, snd r)] else [])
  else (None, [r]).
(** The loop over [range(num_reg)], lines 320-354, on the list itself: entry [i] is replaced, the
    others are appended; the flags are [prop_holds_reg]. *)
Fixpoint set_nth {A} (i : nat) (x : A) (l : list A) : list A :=
  match l, i with [], _ => [] | _ :: r, O => x :: r | y :: r, S j => y :: set_nth j x r end.
Definition split_step (p : string) (P : R) (st : list region * list bool) (i : nat) : list region * list bool :=
  match nth_error (fst st) i with
  | None => st
  | Some r =>
      match split_region p P r with
      | (Some r', more) => (set_nth i r' (fst st) ++ more, snd st ++ [true])
      | (None, more) => (fst st ++ more, snd st ++ [false])
      end
  end.
(** [list.pop(i)] *)
Definition pop {A} (i : nat) (l : list A) : list A := firstn i l ++ skipn (S i) l.
(** Lines 355-359 *)
Fixpoint pop_flags (k count : nat) (flags : list bool) (l : list region) : list region :=
  match flags with
  | [] => l
  | true :: r => pop_flags (S k) count r l
  | false :: r => pop_flags (S k) (S count) r (pop (k - count) l)
  end.
Definition split_all (regions : list region) (kp : string * R) : list region :=
  let st := fold_left (split_step (fst kp) (snd kp)) (List.seq 0 (List.length regions)) (regions, []) in
  pop_flags 0 0 (snd st) (fst st).
(** prop2partition.py:286-370 [prop2part]; [find_adjacent] is polytope's [find_adjacent_regions]. *)
Context (find_adjacent : list region -> matrix).
Definition prop2part (domain : R) (props : list (string * R)) : res ppp :=
  let regions := fold_left split_all props [(domain, [])] in
  do p <- make_ppp domain regions None (Some props);
  Ok (PPP (p_domain p) (p_regions p) (Some (find_adjacent (p_regions p))) (p_props p)).

(** prop2partition.py:176-205 [preserves_predicates], [small] for the test of the volume; [None]
    when there are no proposition regions and the iteration over them raises. *)
Context (small : R -> bool).
Fixpoint all_in (d : list (string * R)) (r : R) (ps : list string) : res bool :=
  match ps with
  | [] => Ok true
  | p :: ps' => do P <- of_opt "KeyError" (lookup p d); if le r P then all_in d r ps' else Ok false
  end.
Definition region_preserves (d : list (string * R)) (r : region) : res bool :=
  do b <- all_in d (fst r) (snd r);
  if b then Ok (forallb (fun kp => mem (fst kp) (snd r) || small (inter (fst r) (snd kp))) d) else Ok false.
Fixpoint regions_preserve (d : list (string * R)) (l : list region) : res bool :=
  match l with [] => Ok true | r :: l' => do b <- region_preserves d r; if b then regions_preserve d l' else Ok false end.
Definition preserves_predicates (p : ppp) : res bool :=
  match p_props p with None => Err "TypeError" | Some d => regions_preserve d (p_regions p) end.

(** ** Refinements *)
(** prop2partition.py:373-406 [part2convex]; [convex] lists the polytopes of the simplified union of
    a region with itself. *)
Context (convex : R -> list R).
Definition enumerate {A} (l : list A) : list (nat * A) := combine (List.seq 0 (List.length l)) l.
Definition part2convex (p : ppp) : res (ppp * list nat) :=
  let cells := flat_map (fun ir => map (fun c => ((c, snd (snd ir)), fst ir)) (convex (fst (snd ir)))) (enumerate (p_regions p)) in
  do q <- make_ppp (p_domain p) [] None (p_props p);
  Ok (PPP (p_domain q) (map fst cells) (Some (find_adjacent (map fst cells))) (p_props q), map snd cells).

(** The adjacency of a refinement, prop2partition.py:480-495 and 641-655: two cells are adjacent if
    they touch and their parents are adjacent or equal. *)
Context (touch : region -> region -> bool).
Definition adj_entry (adj : matrix) (cells : list (region * nat)) (i j : nat) : bool :=
  match nth_error cells i, nth_error cells j with
  | Some (ri, pi), Some (rj, pj) => (adj pi pj || Nat.eqb pi pj) && touch ri rj
  | _, _ => false
  end.
(** Lines 483-495: for every [i], the entries with all [j < i], then the diagonal. *)
Definition adj_row_down (adj : matrix) (cells : list (region * nat)) (m : matrix) (i : nat) : matrix :=
  set_one i i (fold_left (fun m j => if adj_entry adj cells i j then set_one j i (set_one i j m) else m) (List.seq 0 i) m).
Definition pwa_adj (adj : matrix) (cells : list (region * nat)) : matrix :=
  fold_left (adj_row_down adj cells) (List.seq 0 (List.length cells)) no_entry.
(** Lines 644-655: for every [i], the diagonal, then the entries with all [j > i]. *)
Definition adj_row_up (adj : matrix) (cells : list (region * nat)) (m : matrix) (i : nat) : matrix :=
  fold_left (fun m j => if adj_entry adj cells i j then set_one j i (set_one i j m) else m)
    (List.seq (S i) (List.length cells - S i)) (set_one i i m).
Definition grid_adj (adj : matrix) (cells : list (region * nat)) : matrix :=
  fold_left (adj_row_up adj cells) (List.seq 0 (List.length cells)) no_entry.

(** prop2partition.py:409-501 [pwa_partition] for a system with the given domain and the domains of
    its subsystems.  The cells carry the index of the parent and of the subsystem.  A partition
    without adjacency raises TypeError as soon as two cells are compared. *)
Definition pwa_cells (subs : list R) (regions : list region) : list (region * nat * nat) :=
  flat_map (fun s =>
    flat_map (fun r =>
      let isect := inter (fst (snd r)) (snd s) in
      if fulldim isect then [((isect, snd (snd r)), fst r, fst s)] else [])
    (enumerate regions)) (enumerate subs).
Definition pwa_partition (sys_domain : R) (subs : list R) (p : ppp) : res (ppp * list nat * list nat) :=
  if fulldim (diff (p_domain p) sys_domain) then Err "Exception"
  else
    let cells := pwa_cells subs (p_regions p) in
    do adj <- match p_adj p with Some a => Ok a | None => if (2 <=? List.length cells)%nat then Err "TypeError" else Ok no_entry end;
    do q <- make_ppp (p_domain p) (map (fun c => fst (fst c)) cells) (Some (pwa_adj adj (map fst cells))) (p_props p);
    Ok (q, map snd cells, map (fun c => snd (fst c)) cells).

(** prop2partition.py:504-661 [add_grid].  [lows] and [highs] are the bounding box of the domain.
    The value of a parameter: absent, a number that is an int or a float, a list of such, or
    something else. *)
Inductive gsize := GInt (n : Z) | GFloat (q : Q).
Inductive garg := GNone | GOne (g : gsize) | GList (l : list gsize) | GOther.
Definition gnum (g : gsize) : Q := match g with GInt n => inject_Z n | GFloat q => q end.
Definition per_point (lo hi : Q) (g : gsize) : res Q :=
  match g with
  | GInt n => if Z.eqb n 0 then Err "ZeroDivisionError" else Ok ((hi - lo) / inject_Z n)%Q
  | GFloat _ => Err "Exception"
  end.
(** Lines 540-597: the size of the grid in every dimension. *)
Definition grid_sizes (lows highs : list Q) (grid_size num : garg) : res (list Q) :=
  match grid_size, num with
  | GNone, GNone => Err "Exception"
  | GNone, GList l => if Nat.eqb (List.length l) (List.length lows)
                      then mapr (fun t => per_point (fst (fst t)) (snd (fst t)) (snd t)) (combine (combine lows highs) l)
                      else Err "Exception"
  | GNone, GOne g => mapr (fun t => per_point (fst t) (snd t) g) (combine lows highs)
  | GNone, GOther => Err "Exception"
  | GList l, GNone => if Nat.eqb (List.length l) (List.length lows) then Ok (map gnum l) else Err "Exception"
  | GOne (GFloat q), GNone => Ok (map (fun _ => q) lows)
  | _, _ => Err "Exception"
  end.
(** Lines 598-615: the boxes.  With one dimension [re_list] is never assigned. *)
Fixpoint grid_intervals (fuel : nat) (tol : Q) (dims : list (Q * Q * Q)) : option (list (list box)) :=
  match dims with
  | [] => Some []
  | (lo, hi, sz) :: r =>
      match compute_interval fuel lo hi sz tol, grid_intervals fuel tol r with
      | Some l, Some ls => Some (l :: ls)
      | _, _ => None
      end
  end.
Definition grid_boxes (ls : list (list box)) : res (list box) :=
  match ls with
  | a :: b :: r => Ok (fold_left product_interval r (product_interval a b))
  | _ => Err "UnboundLocalError"
  end.
(** Lines 618-624: the flat list of bounds becomes a list of pairs. *)
Fixpoint pair_up (b : box) : list (Q * Q) :=
  match b with x :: y :: r => (x, y) :: pair_up r | _ => [] end.
Context (box2poly : list (Q * Q) -> R) (radius : R -> Q).
(** Lines 625-640: [tmp.intersect(region, abs_tol)] is the intersection. *)
Definition grid_cells (tol : Q) (boxes : list box) (regions : list region) : list (region * nat) :=
  flat_map (fun b =>
    flat_map (fun r =>
      let isect := inter (box2poly (pair_up b)) (fst (snd r)) in
      if Qle_bool (radius isect) (tol / 2) then [] else [((isect, snd (snd r)), fst r)])
    (enumerate regions)) boxes.
(** [None]: the loop of [compute_interval] has not ended. *)
Definition add_grid (fuel : nat) (lows highs : list Q) (p : ppp) (grid_size num : garg) (tol : Q) : option (res (ppp * list nat)) :=
  match grid_sizes lows highs grid_size num with
  | Err e => Some (Err e)
  | Ok sizes =>
      match grid_intervals fuel tol (combine (combine lows highs) sizes) with
      | None => None
      | Some ls => Some (
          do boxes <- grid_boxes ls;
          let cells := grid_cells tol boxes (p_regions p) in
          do adj <- match p_adj p with Some a => Ok a | None => if (2 <=? List.length cells)%nat then Err "TypeError" else Ok no_entry end;
          do q <- make_ppp (p_domain p) (map fst cells) (Some (grid_adj adj cells)) (p_props p);
          Ok (q, map snd cells))
      end
  end.
End Partition.
Arguments ppp : clear implicits.
