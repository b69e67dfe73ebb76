(** Model of tulip/transys/mathset.py: [MathSet], [SubSet], [PowerSet], [CartesianProduct] and
    their helper functions.

    Elements are of any type with an equality test (Python's [==]).  Each has a kind: [KH] can
    be hashed; [KC] is of a hashable type but contains something that cannot be hashed, such
    as a tuple with a list in it, so hashing raises TypeError; [KU] is of a type without hashes.
    A Python [set] is a list of elements; its order has no significance. *)
From Coq Require Import List String Bool Arith.
From Verif Require Import M_Base.
Import ListNotations.
Open Scope string_scope.
Open Scope list_scope.

Inductive kind := KH | KC | KU.

Section MathSet.
  Context {E : Type} (eeqb : E -> E -> bool) (kd : E -> kind).

  Definition emem (x : E) (l : list E) : bool := existsb (eeqb x) l.
  (** [set.add], and [list.append] when the element is not there yet. *)
  Definition insert (x : E) (l : list E) : list E := if emem x l then l else l ++ [x].
  (** [s |= l] for a Python set; [unique] of a concatenation, mathset.py:704-735 (when all
      elements can be hashed [unique] returns a set, so the order may differ). *)
  Definition insert_all (l s : list E) : list E := fold_left (fun s x => insert x s) l s.
  Definition unique (l : list E) : list E := insert_all l [].
  (** [list.remove]: the first equal element. *)
  Fixpoint remove_first (x : E) (l : list E) : option (list E) :=
    match l with
    | [] => None
    | y :: r => if eeqb x y then Some r else option_map (cons y) (remove_first x r)
    end.

  (** mathset.py:53-88: whether the lists are permutations of each other. *)
  Fixpoint compare_lists (l1 l2 : list E) : bool :=
    match l2 with
    | [] => match l1 with [] => true | _ => false end
    | y :: r => match remove_first y l1 with Some l1' => compare_lists l1' r | None => false end
    end.

  (** The fields [_set] and [_list]. *)
  Record mathset := MS { ms_set : list E; ms_list : list E }.
  Definition ms_empty : mathset := MS [] [].
  (** mathset.py:314-315. *)
  Definition ms_iter (m : mathset) : list E := ms_list m ++ ms_set m.
  (** mathset.py:317-319. *)
  Definition ms_len (m : mathset) : nat := List.length (ms_set m) + List.length (ms_list m).
  (** mathset.py:302-312. *)
  Definition ms_contains (m : mathset) (x : E) : bool :=
    match kd x with
    | KH => emem x (ms_set m)
    | _ => emem x (ms_list m)
    end.
  (** Equality of Python sets. *)
  Definition set_eqb (a b : list E) : bool :=
    forallb (fun x => emem x b) a && forallb (fun x => emem x a) b.
  (** mathset.py:287-300. *)
  Definition ms_eqb (a b : mathset) : bool :=
    set_eqb (ms_set a) (ms_set b) && compare_lists (ms_list a) (ms_list b).
  (** mathset.py:345-380. *)
  Definition ms_add (x : E) (m : mathset) : mathset :=
    match kd x with
    | KH => MS (insert x (ms_set m)) (ms_list m)
    | _ => MS (ms_set m) (insert x (ms_list m))
    end.

  (** What can be passed to [add_from]: another MathSet, a Python set, a list or other
      collection, or an iterator that can be consumed once. *)
  Inductive source := SMath (m : mathset) | SSet (l : list E) | SList (l : list E) | SIter (l : list E).
  Definition is_H (x : E) : bool := match kd x with KH => true | _ => false end.
  Definition is_U (x : E) : bool := match kd x with KU => true | _ => false end.
  Definition is_C (x : E) : bool := match kd x with KC => true | _ => false end.
  (** What an iterator still yields after the first element of kind [KC]. *)
  Fixpoint after_C (l : list E) : list E :=
    match l with [] => [] | x :: r => if is_C x then r else after_C r end.
  (** mathset.py:382-433.  [set(...)] over elements of a hashable type raises TypeError at
      the first of kind [KC]; then everything goes to the list.  An iterator has been
      consumed up to that point, and wholly if there is none. *)
  Definition ms_add_from (s : source) (m : mathset) : mathset :=
    match s with
    | SMath m' => MS (insert_all (ms_set m') (ms_set m)) (unique (ms_list m ++ ms_list m'))
    | SSet l => MS (insert_all l (ms_set m)) (ms_list m)
    | SList l =>
        if existsb is_C l then MS (ms_set m) (unique (ms_list m ++ l))
        else MS (insert_all (filter (fun x => negb (is_U x)) l) (ms_set m))
                (unique (ms_list m ++ filter is_U l))
    | SIter l =>
        if existsb is_C l then MS (ms_set m) (unique (ms_list m ++ after_C l))
        else MS (insert_all (filter (fun x => negb (is_U x)) l) (ms_set m)) (unique (ms_list m))
    end.
  (** mathset.py:435-470: an element that is not there gives ValueError from [list.remove]. *)
  Definition ms_remove (x : E) (m : mathset) : res mathset :=
    let from_list := match remove_first x (ms_list m) with
                     | Some l => Ok (MS (ms_set m) l)
                     | None => Err "ValueError"
                     end in
    match kd x with
    | KH => match remove_first x (ms_set m) with
            | Some s => Ok (MS s (ms_list m))
            | None => from_list
            end
    | _ => from_list
    end.
  (** mathset.py:118-144, constructor. *)
  Definition ms_of (s : source) : mathset := ms_add_from s ms_empty.
  (** mathset.py:157-177 *)
  Definition ms_or (m : mathset) (s : source) : mathset := ms_add_from s (ms_of (SMath m)).
  (** mathset.py:275-285 and 260-273. *)
  Definition ms_isub (l : list E) (m : mathset) : mathset :=
    fold_left (fun m x => if ms_contains m x
                          then match ms_remove x m with Ok m' => m' | Err _ => m end else m) l m.
  Definition ms_sub (m : mathset) (l : list E) : mathset := ms_isub l (ms_of (SMath m)).
  (** mathset.py:472-494.  [set.pop] returns any element: [choose] gives its index, and whether
      the random draw picks the set. *)
  Definition ms_pop (from_set : bool) (choose : nat) (m : mathset) : res (E * mathset) :=
    let pop_set := match nth_error (ms_set m) (choose mod List.length (ms_set m)) with
                   | Some x => match remove_first x (ms_set m) with
                               | Some s => Ok (x, MS s (ms_list m))
                               | None => Err "unreachable"
                               end
                   | None => Err "unreachable"
                   end in
    let pop_list := match rev (ms_list m) with
                    | x :: r => Ok (x, MS (ms_set m) (rev r))
                    | [] => Err "unreachable"
                    end in
    match ms_set m, ms_list m with
    | [], [] => Err "KeyError"
    | _ :: _, [] => pop_set
    | [], _ :: _ => pop_list
    | _, _ => if from_set then pop_set else pop_list
    end.
  (** mathset.py:496-512, 514-535. *)
  Definition ms_intersection (m : mathset) (l : list E) : mathset :=
    fold_left (fun s x => if ms_contains m x then ms_add x s else s) l ms_empty.
  Definition ms_intersects (m : mathset) (l : list E) : bool := existsb (ms_contains m) l.

  (** Calls that change a MathSet. *)
  Inductive mop := MAdd (x : E) | MAddFrom (s : source) | MRemove (x : E) | MIsub (l : list E).
  Definition mstep (o : mop) (m : mathset) : mathset * option string :=
    match o with
    | MAdd x => (ms_add x m, None)
    | MAddFrom s => (ms_add_from s m, None)
    | MRemove x => match ms_remove x m with Ok m' => (m', None) | Err e => (m, Some e) end
    | MIsub l => (ms_isub l m, None)
    end.
  Definition mrun (l : list mop) (m : mathset) : mathset := fold_left (fun m o => fst (mstep o m)) l m.

  (** The larger collection in [is_subset]: a list, a Python set, or an object with its own
      membership test, such as a MathSet or the states of a graph. *)
  Inductive super := UList (l : list E) | USet (l : list E) | UObj (f : E -> bool).
  (** Membership [x in s]; for a Python set TypeError if [x] cannot be hashed. *)
  Definition in_set (x : E) (l : list E) : res bool := if is_H x then Ok (emem x l) else Err "TypeError".
  Definition in_super (x : E) (u : super) : res bool :=
    match u with
    | UList l => Ok (emem x l)
    | USet l => in_set x l
    | UObj f => Ok (f x)
    end.
  (** [all(map(f, l))], stopping at the first false. *)
  Fixpoint allr (f : E -> res bool) (l : list E) : res bool :=
    match l with
    | [] => Ok true
    | x :: r => do b <- f x; if b then allr f r else Ok false
    end.
  (** mathset.py:745-784, for collections that are not strings: a list is made a set if its
      elements can be hashed. *)
  Definition is_subset (small : list E) (u : super) : res bool :=
    match u with
    | UList l => if forallb is_H l then allr (fun x => in_set x l) small else allr (fun x => Ok (emem x l)) small
    | _ => allr (fun x => in_super x u) small
    end.
  (** [SubSet]: mathset.py:598-621 and 623-653; the other methods are inherited. *)
  Definition ss_add (u : super) (x : E) (m : mathset) : res mathset :=
    do b <- in_super x u; if b then Ok (ms_add x m) else Err "ValueError".
  Definition source_items (s : source) : list E :=
    match s with SMath m => ms_iter m | SSet l | SList l | SIter l => l end.
  Definition ss_add_from (u : super) (s : source) (m : mathset) : res mathset :=
    do b <- is_subset (source_items s) u;
    if b then Ok (ms_add_from (SList (source_items s)) m) else Err "ValueError".
  Definition sstep (u : super) (o : mop) (m : mathset) : mathset * option string :=
    let ret (r : res mathset) := match r with Ok m' => (m', None) | Err e => (m, Some e) end in
    match o with
    | MAdd x => ret (ss_add u x m)
    | MAddFrom s => ret (ss_add_from u s m)
    | MRemove x => ret (ms_remove x m)
    | MIsub l => (ms_isub l m, None)
    end.
  Definition srun (u : super) (l : list mop) (m : mathset) : mathset := fold_left (fun m o => fst (sstep u o m)) l m.

  (** itertools.combinations. *)
  Fixpoint combinations (l : list E) (r : nat) : list (list E) :=
    match r, l with
    | O, _ => [[]]
    | S _, [] => []
    | S r', x :: t => map (cons x) (combinations t r') ++ combinations t r
    end.
  (** mathset.py:787-799. *)
  Definition powerset (l : list E) : list (list E) :=
    flat_map (combinations l) (seq 0 (List.length l + 1)).
  (** [PowerSet], mathset.py:802-911: membership, enumeration, length, sum, equality. *)
  Definition ps_contains (m : mathset) (item : list E) : res bool := is_subset item (UObj (ms_contains m)).
  Definition ps_iter (m : mathset) : list (list E) := powerset (ms_iter m).
  Definition ps_len (m : mathset) : nat := 2 ^ ms_len m.
  Definition ps_add (a b : mathset) : mathset := ms_of (SMath (ms_or a (SMath b))).
  Definition ps_eqb (a b : mathset) : bool := ms_eqb b a.

  (** mathset.py:662-675, [CartesianProduct.__contains__]: [map] passes each pair as the one
      argument of [operator.contains], which needs two, so any first pair raises TypeError. *)
  Definition cp_contains (sets : list mathset) (element : list E) : res bool :=
    match sets, element with
    | _ :: _, _ :: _ => Err "TypeError"
    | _, _ => Ok true
    end.
End MathSet.
Arguments mathset E : clear implicits.
Arguments source E : clear implicits.
Arguments mop E : clear implicits.
Arguments super E : clear implicits.
