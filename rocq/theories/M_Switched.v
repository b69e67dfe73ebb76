(** Model of the abstraction of switched systems: tulip/abstract/discretization.py, [discretize_switched],
    [merge_partitions], [merge_partition_pair], [get_transitions], [merge_abstractions], the maps of
    [AbstractPwa] and [AbstractSwitched], and the modes of [SwitchedSysDyn] (tulip/hybrid.py).

    The polytope library is a parameter, as in M_Discretize; [==] of regions is inclusion in both
    directions, as in the library.  A mode is a pair of names or numbers.  Plots, logs and
    prints are left out; see M_Parallel for several processes. *)
From Coq Require Import List String Bool Arith ZArith QArith Qcanon.
From Verif Require Import M_Tree M_Base M_Dict M_Graph M_Machine M_Fts M_Part M_Discretize.
Import ListNotations.
Open Scope string_scope.
Open Scope list_scope.
Open Scope nat_scope.

(** ** Modes *)
Definition mode : Type := (obj * obj)%type.
Definition mode_eqb (a b : mode) : bool := obj_eqb (fst a) (fst b) && obj_eqb (snd a) (snd b).
(** Dictionaries with modes and with numbers as keys; a list is a dictionary of its positions. *)
Definition mget {A} (m : mode) (d : list (mode * A)) : option A := option_map snd (find (fun p => mode_eqb m (fst p)) d).
Definition nget {A} (k : nat) (d : list (nat * A)) : option A := option_map snd (find (fun p => k =? fst p) d).
Fixpoint nset {A} (k : nat) (v : A) (d : list (nat * A)) : list (nat * A) :=
  match d with [] => [(k, v)] | (k', v') :: r => if k =? k' then (k', v) :: r else (k', v') :: nset k v r end.
(** [d[m][k] = v] *)
Definition mset {A} (m : mode) (k : nat) (v : A) (d : list (mode * list (nat * A))) : list (mode * list (nat * A)) :=
  map (fun p => if mode_eqb m (fst p) then (fst p, nset k v (snd p)) else p) d.

(** hybrid.py:763-783 [_check_labels], 803-815 [env_labels], [disc_sys_labels] *)
Definition check_labels (n : nat) (labels : option (list obj)) : res (list obj) :=
  match labels with
  | None => Ok (map state (List.seq 0 n))
  | Some l => if List.length l =? n then Ok l else Err "ValueError"
  end.
(** hybrid.py:682-701, 785-801: the modes of the system with dynamics for [keys] *)
Definition switched_modes (n_env n_sys : nat) (env_labels sys_labels : option (list obj)) (keys : list mode) : res (list mode) :=
  do es <- check_labels n_env env_labels;
  do ss <- check_labels n_sys sys_labels;
  if forallb (fun k => existsb (mode_eqb k) (list_prod es ss)) keys then Ok keys else Err "ValueError".

Section Merge.
Context {R : Type}.
Context (inter : R -> R -> R) (le : R -> R -> bool) (touch : @region R -> @region R -> bool).
(** The radius of the Chebyshev ball, and equality of the matrices of two polytopes *)
Context (radius : R -> Qc) (same_matrices : R -> R -> bool).
(** The order in which the set of the remaining modes is iterated over *)
Context (in_order : list mode -> list mode).

(** [==] *)
Definition same (a b : R) : bool := le a b && le b a.
(** [new_list.index(isect)] after [new_list.append(isect)] *)
Fixpoint index_of (x : R) (l : list (@region R)) : nat :=
  match l with [] => 0 | r :: l' => if same (fst r) x then 0 else S (index_of x l') end.
(** 1e-5 *)
Definition thin : Qc := Q2Qc (1 # 100000).

(** The variables [new_list], [parents], [ap_labeling] *)
Record merged : Type := Merged {
  m_list : list (@region R); m_parents : list (mode * list (nat * nat)); m_labels : list (nat * list string) }.
(** [ts.states[j]['ap']] *)
Definition ap_of_state (ts : fts) (j : nat) : res pv :=
  do na <- of_opt "KeyError" (find (fun na => obj_eqb (state j) (fst na)) (g_nodes (f_graph ts)));
  of_opt "KeyError" (lookup "ap" (snd na)).
Definition same_label (l : list string) (v : pv) : bool :=
  match v with PvSet l' => subset l l' && subset l' l | _ => false end.
(** discretization.py:2269-2316: cells [i] and [j] *)
Definition merge_one (ts2 : fts) (cur : mode) (prev : list mode) (old : merged)
    (t : (nat * @region R) * (nat * @region R)) (st : merged) : res merged :=
  let '((i, ri), (j, rj)) := t in
  let isect := inter (fst ri) (fst rj) in
  if Qclt_le_dec (radius isect) thin then Ok st
  else
    let idx := index_of isect (m_list st) in
    do ps <- fold_res (fun m ps => do old_m <- of_opt "KeyError" (mget m (m_parents old));
                                   do p <- of_opt "KeyError" (nget i old_m);
                                   Ok (mset m idx p ps)) prev (m_parents st);
    do label1 <- of_opt "KeyError" (nget i (m_labels old));
    do label2 <- ap_of_state ts2 j;
    if same_label label1 label2
    then Ok (Merged (m_list st ++ [(isect, snd ri)]) (mset cur idx j ps) (nset idx label1 (m_labels st)))
    else Err "Exception".
(** discretization.py:2219-2317 [merge_partition_pair] *)
Definition merge_partition_pair (ab2 : abstraction R) (cur : mode) (prev : list mode) (old : merged) : res merged :=
  fold_res (merge_one (ab_ts ab2) cur prev old)
    (list_prod (enumerate (m_list old)) (enumerate (p_regions (ab_ppp ab2))))
    (Merged [] (map (fun m => (m, [])) (prev ++ [cur])) []).

(** 2141-2158: [!=] of dictionaries of regions *)
Definition same_props (a b : option (list (string * R))) : bool :=
  let sub d e := forallb (fun kv => match lookup (fst kv) e with Some w => same (snd kv) w | None => false end) d in
  match a, b with
  | None, None => true
  | Some d, Some e => sub d e && sub e d
  | _, _ => false
  end.
Definition consistent (ab1 ab2 : abstraction R) : bool :=
  same_props (p_props (ab_ppp ab1)) (p_props (ab_ppp ab2)) && same_matrices (p_domain (ab_ppp ab1)) (p_domain (ab_ppp ab2)).
(** 2196-2204: the loop over the modes for regions [i] and [j] *)
Fixpoint near (parents : list (mode * list (nat * nat))) (i j : nat) (abs : list (mode * abstraction R)) : res bool :=
  match abs with
  | [] => Ok false
  | (m, ab) :: abs' =>
      do ps <- of_opt "KeyError" (mget m parents);
      do pi <- of_opt "KeyError" (nget i ps);
      do pj <- of_opt "KeyError" (nget j ps);
      do adj <- of_opt "TypeError" (p_adj (ab_ppp ab));
      if adj pi pj || (pi =? pj) then Ok true else near parents i j abs'
  end.
(** 2190-2211 *)
Definition merged_adj (abs : list (mode * abstraction R)) (st : merged) : res matrix :=
  fold_res (fun i m =>
    do m' <- fold_res (fun j m => do b <- near (m_parents st) i j abs;
                                  Ok (if b && touch_at touch (m_list st) i j then put j i true (put i j true m) else m))
               (List.seq 0 i) m;
    Ok (put i i true m')) (List.seq 0 (List.length (m_list st))) no_entry.

(** The attributes of [AbstractSwitched], 83-135 *)
Record switched : Type := Switched {
  sw_ppp : ppp R; sw_modes : list (mode * abstraction R); sw_parents : list (mode * list (nat * nat)) }.
(** discretization.py:2122-2216 [merge_partitions]; [None] for no abstractions.  The comparison of the
    original partitions, which is only logged, is left out. *)
Definition merge_partitions (abs : list (mode * abstraction R)) : res (option switched) :=
  match abs with
  | [] => Ok None
  | (m0, ab0) :: _ =>
      if forallb (fun p => forallb (fun q => consistent (snd p) (snd q)) abs) abs then
        let regions := p_regions (ab_ppp ab0) in
        let start := Merged regions [(m0, enumerate (List.seq 0 (List.length regions)))] (enumerate (map snd regions)) in
        let rest := in_order (filter (fun m => negb (mode_eqb m m0)) (map fst abs)) in
        do last <- fold_res (fun m (ps : list mode * merged) =>
                     do ab2 <- of_opt "KeyError" (mget m abs);
                     do st <- merge_partition_pair ab2 m (fst ps) (snd ps);
                     Ok (fst ps ++ [m], st)) rest ([m0], start);
        do adj <- merged_adj abs (snd last);
        do p <- make_ppp le (p_domain (ab_ppp ab0)) (m_list (snd last)) (Some adj) (p_props (ab_ppp ab0));
        Ok (Some (Switched p abs (m_parents (snd last))))
      else Err "Exception"
  end.

(** ** Maps *)
(** discretization.py:150-195 of [AbstractSwitched], 369-411 of [AbstractPwa]: the cell of the mode, the
    region it was refined from, and the number of its subsystem, [None] for a linear system. *)
Definition mode_cell (sw : switched) (m : mode) (i : nat) : res (abstraction R * nat) :=
  do ps <- of_opt "KeyError" (mget m (sw_parents sw));
  do k <- of_opt "KeyError" (nget i ps);
  do ab <- of_opt "KeyError" (mget m (sw_modes sw));
  Ok (ab, k).
Definition ppp2pwa (sw : switched) (m : mode) (i : nat) : res (nat * @region R) :=
  do ak <- mode_cell sw m i;
  do j <- of_opt "IndexError" (nth_error (ab_ppp2pwa (fst ak)) (snd ak));
  do r <- of_opt "IndexError" (nth_error (p_regions (ab_pwa_ppp (fst ak))) j);
  Ok (j, r).
Definition ppp2sys (sw : switched) (m : mode) (i : nat) : res (option nat) :=
  do ak <- mode_cell sw m i;
  match ab_ppp2sys (fst ak) with
  | None => Ok None
  | Some l => do s <- of_opt "IndexError" (nth_error l (snd ak)); Ok (Some s)
  end.

(** ** Transitions *)
(** [solve_feasible] in closed loop for the horizon [N], the mode, and its subsystem; [is_feasible],
    feasible.py:66-100, tests that it finds all of [si]. *)
Context (solve : nat -> mode -> option nat -> R -> R -> R -> res R).
Definition feasible (N : nat) (m : mode) (sub : option nat) (si sj trans_set : R) : res bool :=
  do S0 <- solve N m sub si sj trans_set; Ok (le si S0).
(** discretization.py:2042-2107 [get_transitions].  The loop takes the entries of [IJ] that are one in
    order, row by row. *)
Definition candidates (n : nat) (IJ : matrix) : list (nat * nat) :=
  filter (fun ji => IJ (fst ji) (snd ji)) (list_prod (List.seq 0 n) (List.seq 0 n)).
Definition check_pair (sw : switched) (m : mode) (N : nat) (ji : nat * nat) (t : matrix) : res matrix :=
  let (j, i) := ji in
  do si <- of_opt "IndexError" (nth_error (p_regions (sw_ppp sw)) i);
  do sj <- of_opt "IndexError" (nth_error (p_regions (sw_ppp sw)) j);
  do jr <- ppp2pwa sw m i;
  do sub <- ppp2sys sw m i;
  do b <- feasible N m sub (fst si) (fst sj) (fst (snd jr));
  Ok (put i j b t).
Definition get_transitions (sw : switched) (m : mode) (N trans_length : nat) : res matrix :=
  do adj <- of_opt "AttributeError" (p_adj (sw_ppp sw));
  let n := List.length (p_regions (sw_ppp sw)) in
  let pairs := candidates n (reachable_within n trans_length adj adj) in
  do t <- fold_res (check_pair sw m N) pairs no_entry;
  match pairs with [] => Err "AssertionError" | _ => Ok t end.

(** ** The common transition system *)
(** transys.py:509-546: types of labels with actions *)
Definition among (l : list obj) (v : pv) : bool :=
  match v with PvStr s => existsb (obj_eqb (OStr s)) l | _ => false end.
Definition actions_config (ap env sys : list obj) : config pv :=
  Config [("ap", Some (in_powerset ap))] [("ap", PvSet [])] [("env_actions", Some (among env)); ("sys_actions", Some (among sys))] [].
(** 2006-2028 *)
Definition strs (l : list obj) : list obj := map (fun o => OStr (str_obj o)) l.
Definition env_actions (n_env n_sys : nat) (modes : list mode) : list obj :=
  if n_env =? 0 then [] else if n_sys =? 0 then strs (map fst modes) else map fst modes.
Definition sys_actions (n_env n_sys : nat) (modes : list mode) : list obj :=
  if n_env =? 0 then strs (map snd modes) else if n_sys =? 0 then [] else map snd modes.
Definition mode_label (n_env n_sys : nat) (m : mode) : attrs pv :=
  if n_env =? 0 then [("sys_actions", PvStr (str_obj (snd m)))]
  else if n_sys =? 0 then [("env_actions", PvStr (str_obj (fst m)))]
  else [("env_actions", PvStr (str_obj (fst m))); ("sys_actions", PvStr (str_obj (snd m)))].
(** discretization.py:1981-2039 [merge_abstractions]; the unpacking [zip( *modes)] of no modes raises
    ValueError, after IndexError for the first of them. *)
Definition merge_abstractions (sw : switched) (trans : list (mode * matrix)) (modes : list mode) (n_env n_sys : nat) : res fts :=
  do m0 <- of_opt "IndexError" (nth_error modes 0);
  do ab0 <- of_opt "KeyError" (mget m0 (sw_modes sw));
  let ap := f_ap (ab_ts ab0) in
  let n := List.length (p_regions (sw_ppp sw)) in
  do g1 <- fold_res (fun k => add_node obj_eqb (fts_config []) (state k) [] true) (List.seq 0 n) empty_graph;
  do g2 <- fold_res (fun kr => set_node (state (fst kr)) "ap" (PvSet (snd (snd kr)))) (enumerate (p_regions (sw_ppp sw))) g1;
  let c := actions_config ap (env_actions n_env n_sys modes) (sys_actions n_env n_sys modes) in
  do g3 <- fold_res (fun m g =>
             do adj <- of_opt "KeyError" (mget m trans);
             fold_res (fun ij => add_edge obj_eqb pv_eqb c (state (fst ij)) (state (snd ij)) None (mode_label n_env n_sys m) true) (adj_edges n adj) g)
             modes g2;
  Ok (FTS ap g3).

(** ** Switched systems *)
(** The parameters of a mode: [N] and [trans_length], if given; [disc] is [discretize] with them, for
    modes on which it ends. *)
Record dparams : Type := DParams { dp_N : option nat; dp_len : option nat }.
Context (disc : mode -> dparams -> res (abstraction R)).
(** discretization.py:1867-1937 [discretize_switched].  Without parameters a dictionary with the keys
    "N" and "trans_length" is made, and asked for the first mode. *)
Definition discretize_switched (modes : list mode) (n_env n_sys : nat) (params : option (list (mode * dparams))) : res (switched * fts) :=
  let d := match params with None => [] | Some d => d end in
  do abs <- mapr (fun m => do p <- of_opt "KeyError" (mget m d); do ab <- disc m p; Ok (m, ab)) modes;
  do sw0 <- merge_partitions abs;
  do sw <- of_opt "TypeError" sw0;
  do trans <- mapr (fun m => do p <- of_opt "KeyError" (mget m d);
                             do N <- of_opt "KeyError" (dp_N p); do len <- of_opt "KeyError" (dp_len p);
                             do t <- get_transitions sw m N len; Ok (m, t)) modes;
  do ts <- merge_abstractions sw trans modes n_env n_sys;
  Ok (sw, ts).
End Merge.
Arguments merged : clear implicits.
Arguments switched : clear implicits.
