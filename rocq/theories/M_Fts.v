(** Model of tulip/transys/transys.py:708-1008 and tulip/transys/automata.py:267-378:
    transition systems and Buchi automata from tuples of fields, lines and cycles with given
    labels.

    Python values: a state is a number, a string or [None]; a label is [None], a string, a set of
    strings or a tuple of two.  A set is written as a list; values are taken up to [==], so a
    set is to be written in one way only (say sorted).  Unpacking a set of two gives the elements in the order written.
    The numbers 1 and [True] are equal in Python; [True] is [OInt 1].  Collections of states are lists, which
    can be iterated over more than once.  Names and logging are left out. *)
From Coq Require Import List String Ascii Bool Arith ZArith.
From Verif Require Import M_Tree M_Base M_Gr1c M_Dict M_Graph M_Machine.
Import ListNotations.
Open Scope string_scope.
Open Scope list_scope.

Inductive obj := ONone | OInt (z : Z) | OStr (s : string).
Definition obj_eqb (a b : obj) : bool :=
  match a, b with
  | ONone, ONone => true
  | OInt x, OInt y => Z.eqb x y
  | OStr x, OStr y => String.eqb x y
  | _, _ => false
  end.
(** [f'{s}'] *)
Definition str_obj (o : obj) : string :=
  match o with ONone => "None" | OInt z => str_Z z | OStr s => s end.

Inductive pv := PvNone | PvStr (s : string) | PvSet (l : list string) | PvPair (o : obj) (v : pv).
Fixpoint slist_eqb (a b : list string) : bool :=
  match a, b with
  | [], [] => true
  | x :: a', y :: b' => String.eqb x y && slist_eqb a' b'
  | _, _ => false
  end.
Fixpoint pv_eqb (a b : pv) : bool :=
  match a, b with
  | PvNone, PvNone => true
  | PvStr x, PvStr y => String.eqb x y
  | PvSet x, PvSet y => slist_eqb x y
  | PvPair o x, PvPair p y => obj_eqb o p && pv_eqb x y
  | _, _ => false
  end.
Fixpoint chars (s : string) : list string :=
  match s with EmptyString => [] | String c r => String c EmptyString :: chars r end.
(** [state, label = x] *)
Definition unpack2 (x : pv) : res (obj * pv) :=
  match x with
  | PvPair o v => Ok (o, v)
  | PvSet [a; b] => Ok (OStr a, PvStr b)
  | PvStr (String a (String b EmptyString)) => Ok (OStr (String a EmptyString), PvStr (String b EmptyString))
  | PvNone => Err "TypeError"
  | _ => Err "ValueError"
  end.
(** [set(x)]; [None] stands for a TypeError. *)
Definition as_set (x : pv) : option (list obj) :=
  match x with
  | PvNone => None
  | PvStr s => Some (map OStr (chars s))
  | PvSet l => Some (map OStr l)
  | PvPair o PvNone => Some [o; ONone]
  | PvPair o (PvStr s) => Some [o; OStr s]
  | PvPair o _ => None
  end.
(** Membership in the power set of [ap], mathset.py:850-857 and 745-784; an exception counts
    as false (mathset.py:952-957).  A string is rejected. *)
Definition in_powerset (ap : list obj) (x : pv) : bool :=
  match x with
  | PvStr _ => false
  | _ => match as_set x with
         | Some l => forallb (fun o => existsb (obj_eqb o) ap) l
         | None => false
         end
  end.

Record fts := FTS { f_ap : list obj; f_graph : graph obj pv }.
(** transys.py:509-546: types of labels.  The sets of actions are empty at first. *)
Definition fts_config (ap : list obj) : config pv :=
  Config [("ap", Some (in_powerset ap))] [("ap", PvSet [])]
         [("env_actions", Some (fun _ => false)); ("sys_actions", Some (fun _ => false))] [].

(** labeled_graphs.py:1629-1662 [prepend_with]. *)
Definition prepend1 (p : option string) (o : obj) : obj :=
  match p with None => o | Some s => OStr (s ++ str_obj o) end.
Definition prepend_with (l : list obj) (p : option string) : list obj := map (prepend1 p) l.

(** [S0]: a collection, or one object that is not iterable, or a string, which is iterated
    over (transys.py:804-806). *)
Inductive some_states := Many (l : list obj) | Single (o : obj).
Definition start_states (p : option string) (s0 : some_states) : res (list obj) :=
  match s0 with
  | Many l => Ok (prepend_with l p)
  | Single (OStr s) => match p with
                       | Some _ => Ok (prepend_with (map OStr (chars s)) p)
                       | None => Err "TypeError"     (* is_subset of a string *)
                       end
  | Single o => Ok (prepend_with [o] p)
  end.

(** transys.py:776-801 [pair_labels_with_states].  The pairs are unpacked later. *)
Definition is_pairs (x : pv) : bool :=
  match x with
  | PvStr _ => false
  | PvNone => false
  | _ => match unpack2 x with Ok _ => true | Err _ => false end
  end.
Fixpoint zip {A B} (l : list A) (m : list B) : list (A * B) :=
  match l, m with x :: l', y :: m' => (x, y) :: zip l' m' | _, _ => [] end.
Definition pair_labels (S : list obj) (L : option (list pv)) : res (option (list (res (obj * pv)))) :=
  match L with
  | None => Ok None
  | Some [] => Err "IndexError"
  | Some (x :: r) =>
      if is_pairs x then Ok (Some (map unpack2 (x :: r)))
      else Ok (Some (map (fun sv => Ok sv) (zip S (x :: r))))
  end.

(** [ts.states[n]['ap'] = v]: networkx keeps a plain dictionary per node, so nothing is
    checked. *)
Definition set_node (n : obj) (k : string) (v : pv) (g : graph obj pv) : res (graph obj pv) :=
  if has_node obj_eqb n g
  then Ok (Graph (map (fun na => if obj_eqb n (fst na) then (fst na, set_item k v (snd na)) else na) (g_nodes g))
             (g_edges g) (g_init g))
  else Err "KeyError".
Definition label_or_empty (v : pv) : pv := match v with PvNone => PvSet [] | _ => v end.
(** transys.py:835-842: the name is formatted even if no prefix is given. *)
Definition label_state (p : option string) (x : res (obj * pv)) (g : graph obj pv) : res (graph obj pv) :=
  do sv <- x;
  let n := OStr ((match p with Some s => s | None => "None" end) ++ str_obj (fst sv)) in
  set_node n "ap" (label_or_empty (snd sv)) g.

(** [ts.actions |= actions] updates a dictionary: every item must be a pair. *)
Definition check_actions (acts : list pv) : res unit := do _ <- mapr unpack2 acts; Ok tt.

(** transys.py:708-867 [tuple2fts].  A transition is a pair of states, with or without an
    action. *)
Definition tuple2fts (S : list obj) (S0 : some_states) (AP : list obj) (L : option (list pv))
    (Act : option (list pv)) (trans : list (obj * obj * option pv)) (p : option string) : res fts :=
  let c := fts_config AP in
  do labels <- pair_labels S L;
  do s0 <- start_states p S0;
  do g1 <- fold_res (fun n => add_node obj_eqb (fts_config []) n [] true) (prepend_with S p) empty_graph;
  do g2 <- fold_res (add_initial obj_eqb) s0 g1;
  do g3 <- match labels with
           | None => Ok g2
           | Some l => fold_res (label_state p) l g2
           end;
  do g4 <- match Act with
           | None => fold_res (fun t g => match t with
                       | (u, v, None) => add_edge obj_eqb pv_eqb c (prepend1 p u) (prepend1 p v) None [] true g
                       | _ => Err "ValueError"
                       end) trans g3
           | Some acts =>
               do _ <- check_actions acts;
               fold_res (fun t g => match t with
                 | (u, v, Some a) => add_edge obj_eqb pv_eqb c (prepend1 p u) (prepend1 p v) None [("actions", a)] true g
                 | _ => Err "ValueError"
                 end) trans g3
           end;
  Ok (FTS AP g4).

Definition range (lo : Z) (n : nat) : list obj := map (fun i => OInt (lo + Z.of_nat i)) (List.seq 0 n).
(** transys.py:870-932 [line_labeled_with]; [{True}] is the first set of propositions. *)
Definition line_labeled_with (L : list pv) (m : Z) : res fts :=
  let n := List.length L in
  do aps <- mapr (fun v => match v with PvNone => Ok [] | _ => of_opt "TypeError" (as_set v) end) L;
  tuple2fts (range m n) (Many []) (OInt 1 :: List.concat aps) (Some L) None
    (map (fun uv => (fst uv, snd uv, None)) (zip (range m (n - 1)) (range (m + 1) (n - 1)))) (Some "s").
(** transys.py:935-977 [cycle_labeled_with]. *)
Definition cycle_labeled_with (L : list pv) : res fts :=
  do ts <- line_labeled_with L 0;
  do g <- add_edge obj_eqb pv_eqb (fts_config (f_ap ts)) (OStr ("s" ++ str_Z (Z.of_nat (List.length L) - 1))) (OStr "s0") None [] true (f_graph ts);
  Ok (FTS (f_ap ts) g).

(** labeled_graphs.py:312-416 [States.find] over all states: building the typed copy raises
    ValueError if a stored label is not allowed. *)
Definition find_states (c : config pv) (want : attrs pv) (g : graph obj pv) : res (list (obj * attrs pv)) :=
  do oks <- mapr (fun na => match want with
                            | [] => Ok (na, true)
                            | _ => do t <- typed_update_res (c_node_types c) (snd na) [];
                                   Ok (na, label_is_desired pv_eqb t want)
                            end) (g_nodes g);
  Ok (map fst (filter snd oks)).
(** transys.py:980-1008 [add_initial_states].  What is looked up is the string ['label']; a pair
    of a state and a dictionary cannot be added to the initial states. *)
Definition add_initial_states (ts : fts) (ap_labels : list pv) : res fts :=
  do g <- fold_res (fun (_ : pv) g =>
            do found <- find_states (fts_config (f_ap ts)) [("ap", PvStr "label")] g;
            match found with [] => Ok g | _ => Err "TypeError" end) ap_labels (f_graph ts);
  Ok (FTS (f_ap ts) g).

Record ba := BA { b_ap : list obj; b_graph : graph obj pv; b_acc : list obj }.
(** automata.py:84-131. *)
Definition ba_config (ap : list obj) : config pv := Config [] [] [("letter", Some (in_powerset ap))] [].
(** automata.py:267-378 [tuple2ba].  If the alphabet is not made of propositions then the set
    [Sigma] is added as one element to a set, a TypeError. *)
Definition tuple2ba (S S0 Sa : list obj) (AP : list obj) (trans : list (obj * obj * pv)) (p : option string) (ap_based : bool) : res ba :=
  let c := ba_config AP in
  do g1 <- fold_res (fun n => add_node obj_eqb c n [] true) (prepend_with S p) empty_graph;
  do g2 <- fold_res (add_initial obj_eqb) (prepend_with S0 p) g1;
  do acc <- fold_res (fun n acc => if has_node obj_eqb n g2
                                   then Ok (if nmem obj_eqb n acc then acc else acc ++ [n])
                                   else Err "ValueError") (prepend_with Sa p) [];
  if negb ap_based then Err "TypeError" else
  do g3 <- fold_res (fun t g => match t with
             | (u, v, a) => add_edge obj_eqb pv_eqb c (prepend1 p u) (prepend1 p v) None [("letter", label_or_empty a)] true g
             end) trans g2;
  Ok (BA AP g3 acc).
