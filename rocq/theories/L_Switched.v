(** Dictionaries of modes and of numbers, and one merge of two partitions. *)
From Coq Require Import List String Bool Arith ZArith Lia QArith Qcanon.
From Verif Require Import M_Tree M_Base S_LTL M_Gr1c L_Dec M_Dict L_Dict M_Graph L_Graph M_Machine L_Build M_Fts T_Fts M_Part T_Prop2part T_Refine M_Discretize L_Ts T_Discretize M_Switched.
Import ListNotations.
Open Scope string_scope.
Open Scope list_scope.
Open Scope nat_scope.

Lemma mode_eqb_eq a b : mode_eqb a b = true <-> a = b.
Proof.
  unfold mode_eqb. rewrite andb_true_iff, !obj_eqb_eq. destruct a, b; cbn [fst snd]. split; [intros [-> ->]; reflexivity|intros [= -> ->]; auto].
Qed.
Lemma mode_eqb_refl a : mode_eqb a a = true.
Proof. apply mode_eqb_eq. reflexivity. Qed.
Lemma mode_eqb_neq a b : a <> b -> mode_eqb a b = false.
Proof. intro H. destruct (mode_eqb a b) eqn:E; [|reflexivity]. apply mode_eqb_eq in E. contradiction. Qed.
Lemma mode_in m l : existsb (mode_eqb m) l = true <-> In m l.
Proof.
  rewrite existsb_exists. split; [intros (x & I & E); apply mode_eqb_eq in E; subst; exact I|]. intro I. exists m. split; [exact I|apply mode_eqb_refl].
Qed.
Lemma mget_In {A} m (d : list (mode * A)) v : NoDup (map fst d) -> (mget m d = Some v <-> In (m, v) d).
Proof.
  unfold mget. induction d as [|[k w] d IH]; intro ND; [cbn; split; [discriminate|intros []]|]. cbn [find fst map] in *. inversion ND as [|? ? N ND']; subst.
  destruct (mode_eqb m k) eqn:E.
  - apply mode_eqb_eq in E. subst k. cbn. split; [intros [= ->]; auto|]. intros [[= ->]|I]; [reflexivity|]. exfalso. apply N. apply (in_map fst) in I. exact I.
  - rewrite IH by exact ND'. cbn [In]. split; [auto|]. intros [[= -> ->]|I]; [|exact I]. rewrite mode_eqb_refl in E. discriminate.
Qed.
Lemma mget_map {A B} (f : A -> B) m (d : list (mode * A)) : mget m (map (fun p => (fst p, f (snd p))) d) = option_map f (mget m d).
Proof.
  unfold mget. induction d as [|[k w] d IH]; [reflexivity|]. cbn [map find fst snd]. destruct (mode_eqb m k); [reflexivity|exact IH].
Qed.
Lemma nget_enumerate {A} (l : list A) k : nget k (enumerate l) = nth_error l k.
Proof.
  unfold enumerate. enough (H : forall s, nget (s + k) (combine (List.seq s (List.length l)) l) = nth_error l k) by exact (H 0).
  unfold nget. revert k. induction l as [|x l IH]; intros k s; [destruct k; reflexivity|]. cbn [List.length List.seq combine find fst].
  destruct (Nat.eqb_spec (s + k) s) as [E|NE].
  - replace k with 0 by lia. reflexivity.
  - destruct k as [|k]; [lia|]. replace (s + S k) with (S s + k) by lia. cbn [nth_error]. apply IH.
Qed.
Lemma nset_end {A} (l : list A) v : nset (List.length l) v (enumerate l) = enumerate (l ++ [v]).
Proof.
  unfold enumerate. rewrite app_length. cbn [List.length]. rewrite Nat.add_1_r.
  enough (H : forall s, nset (s + List.length l) v (combine (List.seq s (List.length l)) l) = combine (List.seq s (S (List.length l))) (l ++ [v])) by exact (H 0).
  induction l as [|x l IH]; intro s; cbn [List.length List.seq combine nset app]; [rewrite Nat.add_0_r; reflexivity|].
  destruct (Nat.eqb_spec (s + S (List.length l)) s); [lia|]. f_equal. replace (s + S (List.length l)) with (S s + List.length l) by lia. rewrite IH. reflexivity.
Qed.
Lemma enumerate_nodup {A} (l : list A) : NoDup (enumerate l).
Proof.
  apply (NoDup_map_inv fst). unfold enumerate. generalize 0. induction l as [|x l IH]; intro s; cbn; constructor; [|apply IH].
  intro I. apply in_map_iff in I. destruct I as ((i & y) & <- & I). apply enumerate_nth in I. cbn [fst] in I. lia.
Qed.

(** The label of a state, found by name *)
Lemma ap_of_state_named ts j v : NoDup (node_list (f_graph ts)) -> named (state j) v (f_graph ts) -> ap_of_state ts j = Ok v.
Proof.
  intros ND (a & I & L). unfold ap_of_state. unfold node_list in ND. induction (g_nodes (f_graph ts)) as [|[n b] l IH]; [destruct I|].
  cbn [find fst map] in *. inversion ND as [|? ? N ND']; subst. destruct (obj_eqb (state j) n) eqn:E.
  - apply obj_eqb_eq in E. subst n. cbn [of_opt bind snd]. destruct I as [[= <-]|I]; [rewrite L; reflexivity|]. exfalso. apply N. apply (in_map fst) in I. exact I.
  - destruct I as [[= -> ->]|I]; [rewrite (proj2 (obj_eqb_eq _ _) eq_refl) in E; discriminate|]. apply IH; assumption.
Qed.
Lemma subset_iff a b : subset a b = true <-> forall p, In p a -> In p b.
Proof. unfold subset. rewrite forallb_forall. split; intros H p I; [apply mem_In, H, I|apply mem_In, H, I]. Qed.

Section Pair.
Context {R : Type} (inter : R -> R -> R) (le : R -> R -> bool) (radius : R -> Qc).
Notation tuple := ((nat * @region R) * (nat * @region R))%type.
Definition isect (t : tuple) : R := inter (fst (snd (fst t))) (fst (snd (snd t))).
Definition thick (t : tuple) : bool := if Qclt_le_dec (radius (isect t)) thin then false else true.
Definition cell_of (t : tuple) : @region R := (isect t, snd (snd (fst t))).
Definition tuples (old new : list (@region R)) : list tuple := list_prod (enumerate old) (enumerate new).

Lemma index_of_new x : forall l : list (@region R), (forall r, In r l -> same le (fst r) x = false) -> index_of le x l = List.length l.
Proof.
  induction l as [|r l IH]; intro H; [reflexivity|]. cbn [index_of List.length]. rewrite (H r (or_introl eq_refl)). f_equal. apply IH. intros s I. apply H. right. exact I.
Qed.
(** Parents as functions of the pair of cells *)
Notation parents_of := (list (mode * (tuple -> nat))).
Definition recorded (pf : parents_of) (sel : list tuple) : list (mode * list (nat * nat)) :=
  map (fun mf => (fst mf, enumerate (map (snd mf) sel))) pf.
Definition during (pf : parents_of) (sel : list tuple) (t : tuple) (ms : list mode) : list (mode * list (nat * nat)) :=
  map (fun mf => (fst mf, enumerate (map (snd mf) sel ++ if existsb (mode_eqb (fst mf)) ms then [snd mf t] else []))) pf.
Lemma mset_during pf sel t ms m f : In (m, f) pf -> NoDup (map fst pf) -> ~ In m ms ->
  mset m (List.length sel) (f t) (during pf sel t ms) = during pf sel t (ms ++ [m]).
Proof.
  intros I ND N. unfold mset, during. rewrite map_map. apply map_ext_in. intros [m' f'] J. cbn [fst snd]. rewrite existsb_app. cbn [existsb].
  destruct (mode_eqb m m') eqn:E.
  - apply mode_eqb_eq in E. subst m'. assert (f' = f).
    { apply (mget_In m pf) in I; [|exact ND]. apply (mget_In m pf) in J; [|exact ND]. congruence. }
    subst f'. rewrite mode_eqb_refl. destruct (existsb (mode_eqb m) ms) eqn:X; [apply mode_in in X; contradiction|]. cbn [orb]. rewrite app_nil_r.
    f_equal. rewrite <- (map_length f sel). apply nset_end.
  - destruct (mode_eqb m' m) eqn:E'; [apply mode_eqb_eq in E'; subst; rewrite mode_eqb_refl in E; discriminate|]. rewrite orb_false_r. reflexivity.
Qed.
Lemma during_nil pf sel t : during pf sel t [] = recorded pf sel.
Proof. unfold during, recorded. apply map_ext. intros [m f]. cbn. rewrite app_nil_r. reflexivity. Qed.
Lemma during_all pf sel t ms : (forall m, In m (map fst pf) -> In m ms) -> during pf sel t ms = recorded pf (sel ++ [t]).
Proof.
  intro H. unfold during, recorded. apply map_ext_in. intros [m f] I. cbn [fst snd]. rewrite (proj2 (mode_in m ms)); [|apply H; apply (in_map fst) in I; exact I].
  rewrite map_app. reflexivity.
Qed.

(** What [merge_partition_pair] returns *)
Definition parent_funs (pl : list (mode * list nat)) (cur : mode) : parents_of :=
  map (fun mp => (fst mp, fun t : tuple => nth (fst (fst t)) (snd mp) 0)) pl ++ [(cur, fun t : tuple => fst (snd t))].
Definition pair_result (pl : list (mode * list nat)) (cur : mode) (sel : list tuple) : merged R :=
  Merged (map cell_of sel) (recorded (parent_funs pl cur) sel) (enumerate (map (fun t => snd (cell_of t)) sel)).
Lemma parent_modes pl cur : map fst (parent_funs pl cur) = map fst pl ++ [cur].
Proof. unfold parent_funs. rewrite map_app, map_map. reflexivity. Qed.

Lemma merge_pair_eq (ab2 : abstraction R) cur (pl : list (mode * list nat)) (old : merged R) :
  NoDup (map fst pl ++ [cur]) -> m_parents old = map (fun mp => (fst mp, enumerate (snd mp))) pl ->
  (forall m ps, In (m, ps) pl -> List.length ps = List.length (m_list old)) ->
  m_labels old = enumerate (map snd (m_list old)) ->
  (forall t, In t (tuples (m_list old) (p_regions (ab_ppp ab2))) -> thick t = true ->
     exists l, ap_of_state (ab_ts ab2) (fst (snd t)) = Ok (PvSet l) /\ forall p, In p (snd (snd (fst t))) <-> In p l) ->
  (forall t t', In t (tuples (m_list old) (p_regions (ab_ppp ab2))) -> In t' (tuples (m_list old) (p_regions (ab_ppp ab2))) -> t <> t' -> thick t = true ->
     same le (isect t') (isect t) = false) ->
  merge_partition_pair inter le radius ab2 cur (map fst pl) old =
    Ok (pair_result pl cur (filter thick (tuples (m_list old) (p_regions (ab_ppp ab2))))).
Proof.
  intros ND OP LP OL LB DS. unfold merge_partition_pair. fold (tuples (m_list old) (p_regions (ab_ppp ab2))). set (L := tuples _ _) in *.
  assert (NDL : NoDup L) by (apply list_prod_nodup; apply enumerate_nodup).
  assert (IN : forall t, In t L -> nth_error (m_list old) (fst (fst t)) = Some (snd (fst t)) /\ nth_error (p_regions (ab_ppp ab2)) (fst (snd t)) = Some (snd (snd t))).
  { intros [[i ri] [j rj]] I. unfold L, tuples in I. apply in_prod_iff in I. destruct I as [I J]. apply enumerate_iff in I, J. auto. }
  destruct (fold_res_total (merge_one inter le radius (ab_ts ab2) cur (map fst pl) old) (fun l1 st => st = pair_result pl cur (filter thick l1)) L
    (Merged [] (map (fun m => (m, [])) (map fst pl ++ [cur])) [])) as (st & E & ->).
  - unfold pair_result. cbn [filter map]. f_equal. unfold recorded. rewrite <- (parent_modes pl cur), map_map. reflexivity.
  - intros l1 t l2 st EL ->. assert (I : In t L) by (rewrite EL; apply in_or_app; right; left; reflexivity).
    destruct (IN t I) as [N1 N2]. destruct t as [[i ri] [j rj]]. cbn [fst snd] in N1, N2. unfold merge_one. set (t := ((i, ri), (j, rj)) : tuple) in *.
    assert (FA : filter thick (l1 ++ [t]) = filter thick l1 ++ if thick t then [t] else []) by (rewrite filter_app; reflexivity).
    assert (IS : isect t = inter (fst ri) (fst rj)) by reflexivity. rewrite <- IS.
    assert (TK : thick t = if Qclt_le_dec (radius (isect t)) thin then false else true) by reflexivity.
    destruct (Qclt_le_dec (radius (isect t)) thin) as [TH|TH].
    { eexists. split; [reflexivity|]. rewrite FA, TK, app_nil_r. reflexivity. }
    assert (X : index_of le (isect t) (m_list (pair_result pl cur (filter thick l1))) = List.length (filter thick l1)).
    { cbn [pair_result m_list]. rewrite index_of_new; [apply map_length|]. intros r J. apply in_map_iff in J. destruct J as (t' & <- & J). apply filter_In in J. cbn [cell_of fst].
      apply DS; [exact I| |intro Q; subst t'|exact TK].
      - rewrite EL. apply in_or_app. left. apply J.
      - rewrite EL in NDL. apply NoDup_remove_2 in NDL. apply NDL, in_or_app. left. apply J. }
    rewrite X. destruct (fold_res_total (fun m ps => do old_m <- of_opt "KeyError" (mget m (m_parents old)); do p <- of_opt "KeyError" (nget i old_m);
        Ok (mset m (List.length (filter thick l1)) p ps)) (fun ms ps => ps = during (parent_funs pl cur) (filter thick l1) t ms) (map fst pl)
        (m_parents (pair_result pl cur (filter thick l1)))) as (ps & -> & ->).
    { rewrite during_nil. reflexivity. }
    { intros ms m ms' ps EM ->. assert (ND' : NoDup (map fst pl)) by (apply (NoDup_remove_1 _ [] cur) in ND; rewrite app_nil_r in ND; exact ND).
      assert (J : In m (map fst pl)) by (rewrite EM; apply in_or_app; right; left; reflexivity). apply in_map_iff in J. destruct J as ((m' & pm) & Q & J). cbn in Q. subst m'.
      rewrite OP, (mget_map enumerate), (proj2 (mget_In m pl pm ND') J). cbn [option_map of_opt bind]. rewrite nget_enumerate.
      assert (LI : i < List.length pm) by (rewrite (LP m pm J); exact (nth_error_lt _ _ _ N1)).
      rewrite (nth_error_nth' pm 0 LI). cbn [of_opt bind]. eexists. split; [reflexivity|].
      apply (mset_during (parent_funs pl cur) (filter thick l1) t ms m (fun t : tuple => nth (fst (fst t)) pm 0)).
      - unfold parent_funs. apply in_or_app. left. apply in_map_iff. exists (m, pm). auto.
      - rewrite parent_modes. exact ND.
      - rewrite EM in ND'. apply NoDup_remove_2 in ND'. intro K. apply ND', in_or_app. auto. }
    cbn [bind]. rewrite OL, nget_enumerate, (map_nth_error snd _ _ N1). cbn [of_opt bind].
    destruct (LB t I TK) as (l & AL & EQ). cbn [t fst snd] in AL, EQ. rewrite AL. cbn [bind same_label].
    rewrite (proj2 (subset_iff (snd ri) l)), (proj2 (subset_iff l (snd ri))) by (intros p P; apply EQ, P). cbn [andb]. eexists. split; [reflexivity|].
    rewrite FA, TK. unfold pair_result. cbn [m_list m_parents m_labels]. f_equal.
    + rewrite map_app. cbn [map]. reflexivity.
    + rewrite <- (during_all (parent_funs pl cur) (filter thick l1) t (map fst pl ++ [cur])).
      * apply (mset_during (parent_funs pl cur) (filter thick l1) t (map fst pl) cur (fun t : tuple => fst (snd t))).
        -- unfold parent_funs. apply in_or_app. right. left. reflexivity.
        -- rewrite parent_modes. exact ND.
        -- apply NoDup_remove_2 in ND. rewrite app_nil_r in ND. exact ND.
      * intros m. rewrite parent_modes. auto.
    + rewrite <- (map_length (fun t => snd (cell_of t)) (filter thick l1)), nset_end, map_app. cbn [map]. reflexivity.
  - rewrite E. reflexivity.
Qed.
End Pair.

(** ** The common transition system *)
Lemma nmem_state k n (f : nat -> attrs pv) E I0 : k < n -> has_node obj_eqb (state k) (Graph (map (fun x => (state x, f x)) (List.seq 0 n)) E I0) = true.
Proof.
  intro K. apply (has_node_In obj_eqb obj_eqb_eq). unfold node_list. cbn [g_nodes]. rewrite map_map. apply in_map_iff. exists k. split; [reflexivity|]. apply in_seq. lia.
Qed.
Lemma set_labels {R} n (f : nat -> attrs pv) E I0 : forall (regs : list (@region R)) k g,
  k + List.length regs = n -> g = Graph (map (fun x => (state x, f x)) (List.seq 0 n)) E I0 -> (forall x, k <= x < n -> f x = ap0) ->
  fold_res (fun kr => set_node (state (fst kr)) "ap" (PvSet (snd (snd kr)))) (combine (List.seq k (List.length regs)) regs) g =
  Ok (Graph (map (fun x => (state x, if k <=? x then [("ap", PvSet (match nth_error regs (x - k) with Some r => snd r | None => [] end))] else f x)) (List.seq 0 n)) E I0).
Proof.
  intro regs. revert f. induction regs as [|r regs IH]; intros f k g L -> F; cbn [List.length List.seq combine fold_res].
  - f_equal. f_equal. apply map_ext_in. intros x X. apply in_seq in X. cbn [List.length] in L. destruct (Nat.leb_spec k x); [lia|reflexivity].
  - cbn [List.length] in L. unfold set_node at 1. cbn [fst snd]. rewrite nmem_state by lia. cbn [bind g_nodes g_edges g_init]. rewrite map_map.
    rewrite (IH (fun x => if x =? k then set_item "ap" (PvSet (snd r)) (f x) else f x) (S k)); [|lia| |].
    + f_equal. f_equal. apply map_ext_in. intros x X. apply in_seq in X. f_equal.
      destruct (Nat.leb_spec (S k) x), (Nat.leb_spec k x), (Nat.eqb_spec x k); try lia; try reflexivity.
      * replace (x - k) with (S (x - S k)) by lia. reflexivity.
      * subst x. rewrite Nat.sub_diag, F by lia. reflexivity.
    + f_equal. apply map_ext_in. intros x _. cbn [fst snd]. destruct (obj_eqb (state k) (state x)) eqn:Q.
      * apply obj_eqb_eq, state_inj in Q. subst x. rewrite Nat.eqb_refl. reflexivity.
      * destruct (Nat.eqb_spec x k); [subst; rewrite (proj2 (obj_eqb_eq _ _) eq_refl) in Q; discriminate|reflexivity].
    + intros x X. destruct (Nat.eqb_spec x k); [lia|]. apply F. lia.
Qed.
(** The edges of all modes in order *)
Definition mode_edges (n : nat) (label : mode -> attrs pv) (ms : list (mode * matrix)) : list (obj * attrs pv * obj) :=
  flat_map (fun mt => map (fun ij => (state (fst ij), label (fst mt), state (snd ij))) (adj_edges n (snd mt))) ms.
Lemma mode_edges_iff n label ms a d b : In (a, d, b) (mode_edges n label ms) <->
  exists m t i j, In (m, t) ms /\ i < n /\ j < n /\ t i j = true /\ a = state i /\ b = state j /\ d = label m.
Proof.
  unfold mode_edges. rewrite in_flat_map. split.
  - intros ([m t] & I & J). apply in_map_iff in J. destruct J as ([i j] & [= <- <- <-] & J). apply adj_edges_iff in J. exists m, t, i, j. cbn [fst snd]. tauto.
  - intros (m & t & i & j & I & A & B & C & -> & -> & ->). exists (m, t). split; [exact I|]. apply in_map_iff. exists (i, j). split; [reflexivity|]. apply adj_edges_iff. auto.
Qed.
Definition action_config (env sys : list obj) : config pv := Config [] [] [("env_actions", Some (among env)); ("sys_actions", Some (among sys))] [].
Lemma mode_edges_eq ap env sys n label (ms : list (mode * matrix)) : NoDup (map fst ms) -> forall ms' g, incl ms' ms ->
  fold_res (fun m g => do adj <- of_opt "KeyError" (mget m ms);
     fold_res (fun ij => add_edge obj_eqb pv_eqb (actions_config ap env sys) (state (fst ij)) (state (snd ij)) None (label m) true) (adj_edges n adj) g) (map fst ms') g =
  fold_res (add_trans obj_eqb pv_eqb (action_config env sys) true) (mode_edges n label ms') g.
Proof.
  intro ND. induction ms' as [|[m t] ms' IH]; intros g I; [reflexivity|]. cbn [map fold_res mode_edges flat_map fst snd].
  rewrite (proj2 (mget_In m ms t ND) (I _ (or_introl eq_refl))). cbn [of_opt bind].
  assert (I' : incl ms' ms) by (intros x J; apply I; right; exact J).
  change (flat_map _ ms') with (mode_edges n label ms'). generalize (adj_edges n t) as l. intro l. revert g. induction l as [|[i j] l IHl]; intro g; [cbn [fold_res bind map app]; apply IH, I'|].
  cbn [map app fold_res fst snd]. unfold add_trans at 1. cbn [fst snd].
  change (add_edge obj_eqb pv_eqb (action_config env sys)) with (add_edge obj_eqb pv_eqb (actions_config ap env sys)).
  destruct (add_edge obj_eqb pv_eqb (actions_config ap env sys) (state i) (state j) None (label m) true g); [cbn [bind]; apply IHl|reflexivity].
Qed.
Lemma wf_actions env sys (g : graph obj pv) : NoDup (node_list g) -> g_edges g = [] -> NoDup (g_init g) -> (forall n a, In (n, a) (g_nodes g) -> NoDup (map fst a)) -> wf (action_config env sys) g.
Proof.
  intros ND E I A. split; [exact ND| | | | |exact I]; rewrite ?E.
  - intros e [].
  - constructor.
  - intros n a J. split; [eapply A; eauto|]. apply Forall_forall. intros [k v] _. reflexivity.
  - intros e [].
Qed.
