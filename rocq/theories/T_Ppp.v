(** C87: the transition system of a partition. *)
From Coq Require Import List String Bool Arith ZArith Lia QArith Qcanon.
From Verif Require Import M_Tree M_Base S_LTL M_Gr1c L_Dec L_Gr1c M_Dict L_Dict M_Graph L_Graph M_Machine S_Run L_Build L_Machine T_Convert M_Fts T_Fts M_Part M_Discretize L_Ts M_Ppp.
Import ListNotations.
Open Scope string_scope.
Open Scope list_scope.
Open Scope nat_scope.

Section Named.
Variable name : nat -> obj.
Hypothesis name_inj : forall a b, name a = name b -> a = b.
Lemma name_relabel (d : attrs pv) : forall l k (f : nat -> attrs pv), In k l -> NoDup l ->
  nx_add_node obj_eqb (name k) d (map (fun x => (name x, f x)) l) = map (fun x => (name x, if x =? k then update (f x) d else f x)) l.
Proof.
  induction l as [|x l IH]; intros k f I ND; [destruct I|]. cbn [map nx_add_node]. inversion ND as [|? ? NI ND']; subst.
  destruct (obj_eqb (name k) (name x)) eqn:E.
  - apply obj_eqb_eq, name_inj in E. subst x. rewrite Nat.eqb_refl. f_equal. apply map_ext_in. intros a A.
    destruct (Nat.eqb_spec a k); [subst; contradiction|reflexivity].
  - destruct (Nat.eqb_spec x k) as [->|NE]; [rewrite (proj2 (obj_eqb_eq _ _) eq_refl) in E; discriminate|]. f_equal. apply IH; [|exact ND'].
    destruct I as [->|I]; [congruence|exact I].
Qed.
Lemma name_fresh (d : attrs pv) : forall l k (f : nat -> attrs pv), ~ In k l ->
  nx_add_node obj_eqb (name k) d (map (fun x => (name x, f x)) l) = map (fun x => (name x, f x)) l ++ [(name k, d)].
Proof.
  induction l as [|x l IH]; intros k f I; [reflexivity|]. cbn [map nx_add_node app].
  destruct (obj_eqb (name k) (name x)) eqn:E; [apply obj_eqb_eq, name_inj in E; subst; exfalso; apply I; left; reflexivity|].
  f_equal. apply IH. intro J. apply I. right. exact J.
Qed.
Lemma name_nodes n : fold_res (fun k => add_node obj_eqb (fts_config []) (name k) [] true) (List.seq 0 n) (@empty_graph obj pv) =
  Ok (Graph (map (fun k => (name k, ap0)) (List.seq 0 n)) [] []).
Proof.
  induction n as [|n IH]; [reflexivity|]. rewrite seq_S, Nat.add_0_l.
  apply fold_res_app. eexists. split; [exact IH|]. cbn [fold_res].
  unfold add_node. cbn [fts_config c_node_types c_node_defaults].
  change (typed_attr [("ap", Some (in_powerset []))] [("ap", PvSet [])] []) with (Ok ap0). cbn [bind].
  change (check_untyped ap0 [("ap", Some (in_powerset []))] true) with (Ok tt). cbn [bind g_nodes g_edges g_init].
  rewrite name_fresh by (rewrite in_seq; lia). rewrite map_app. reflexivity.
Qed.
Lemma add_adj_names_eq ap n m g : add_adj_names name ap n m g = fold_res (add_trans obj_eqb pv_eqb edge_config true) (map (fun ij => (name (fst ij), @nil (string * pv), name (snd ij))) (adj_edges n m)) g.
Proof.
  unfold add_adj_names. generalize (adj_edges n m) as l. intro l. revert g. induction l as [|[i j] l IH]; intro g; [reflexivity|]. cbn [map fold_res fst snd].
  unfold add_trans at 1. cbn [fst snd].
  change (add_edge obj_eqb pv_eqb edge_config) with (add_edge obj_eqb pv_eqb (fts_config ap)).
  destruct (add_edge obj_eqb pv_eqb (fts_config ap) (name i) (name j) None [] true g); [cbn [bind]; apply IH|reflexivity].
Qed.
Lemma name_labels props n (f : nat -> attrs pv) E I0 : forall labels k g,
  (forall l p, In l labels -> In p l -> In p props) -> k + List.length labels = n ->
  g = @Graph obj pv (map (fun x => (name x, f x)) (List.seq 0 n)) E I0 -> (forall x, k <= x < n -> f x = ap0) ->
  fold_res (fun kl => add_node obj_eqb (fts_config (map OStr props)) (name (fst kl)) [("ap", PvSet (snd kl))] true) (combine (List.seq k (List.length labels)) labels) g =
  Ok (Graph (map (fun x => (name x, if k <=? x then [("ap", PvSet (nth (x - k) labels []))] else f x)) (List.seq 0 n)) E I0).
Proof.
  intros labels. revert f. induction labels as [|l labels IH]; intros f k g H L -> F; cbn [List.length List.seq combine fold_res].
  - f_equal. f_equal. apply map_ext_in. intros x X. apply in_seq in X. cbn [List.length] in L. destruct (Nat.leb_spec k x); [lia|reflexivity].
  - unfold add_node at 1. cbn [fts_config c_node_types c_node_defaults fst snd]. rewrite ts_label by (intros p P; apply (H l p); [left; reflexivity|exact P]).
    cbn [bind]. change (check_untyped [("ap", PvSet l)] [("ap", Some (in_powerset (map OStr props)))] true) with (Ok tt). cbn [bind g_nodes g_edges g_init].
    cbn [List.length] in L. rewrite name_relabel; [|apply in_seq; lia|apply seq_NoDup].
    rewrite (IH (fun x => if x =? k then update (f x) [("ap", PvSet l)] else f x) (S k) _ (fun l' p A => H l' p (or_intror A)) ltac:(lia) eq_refl).
    + f_equal. f_equal. apply map_ext_in. intros x X. apply in_seq in X. f_equal.
      destruct (Nat.leb_spec (S k) x), (Nat.leb_spec k x), (Nat.eqb_spec x k); try lia; try reflexivity.
      * replace (x - k) with (S (x - S k)) by lia. reflexivity.
      * subst x. rewrite Nat.sub_diag, F by lia. reflexivity.
    + intros x X. destruct (Nat.eqb_spec x k); [lia|]. apply F. lia.
Qed.
Lemma named_ts_spec props regions m : (forall l p, In l regions -> In p l -> In p props) ->
  exists ts, named_ts name props (List.length regions) m regions = Ok ts /\ f_ap ts = map OStr props /\
    node_list (f_graph ts) = map name (List.seq 0 (List.length regions)) /\ g_init (f_graph ts) = [] /\
    (forall a e b, trans (f_graph ts) a e b <-> e = [] /\ exists i j, i < List.length regions /\ j < List.length regions /\ m i j = true /\ a = name i /\ b = name j) /\
    (forall k v, named (name k) v (f_graph ts) <-> exists l, nth_error regions k = Some l /\ v = PvSet l).
Proof.
  intro H. unfold named_ts. set (n := List.length regions). rewrite name_nodes. cbn [bind].
  set (g1 := Graph _ _ _). assert (NL1 : node_list g1 = map name (List.seq 0 n)) by (unfold node_list, g1; cbn [g_nodes]; rewrite map_map; reflexivity).
  assert (W1 : wf edge_config g1).
  { apply wf_bare; [rewrite NL1; apply FinFun.Injective_map_NoDup; [intros x y; apply name_inj|apply seq_NoDup]|reflexivity|constructor|].
    intros x a J. unfold g1 in J. cbn [g_nodes] in J. apply in_map_iff in J. destruct J as (k & [= <- <-] & _). repeat constructor. intros []. }
  rewrite add_adj_names_eq. set (L := map _ (adj_edges n m)).
  assert (U : forall x, In x L -> snd (fst x) = []) by (intros x J; apply in_map_iff in J; destruct J as [t [<- _]]; reflexivity).
  assert (LI : forall a d b, In (a, d, b) L <-> d = [] /\ exists i j, i < n /\ j < n /\ m i j = true /\ a = name i /\ b = name j).
  { intros a d b. unfold L. rewrite in_map_iff. split.
    - intros ([i j] & [= <- <- <-] & I). apply adj_edges_iff in I. cbn [fst snd]. split; [reflexivity|]. exists i, j. tauto.
    - intros (-> & i & j & A & B & C & -> & ->). exists (i, j). split; [reflexivity|]. apply adj_edges_iff. auto. }
  destruct (add_edges_total obj_eqb pv_eqb obj_eqb_eq pv_eqb_eq edge_config eq_refl true L g1 W1) as [g2 H2].
  - intros [[a d] b] J. assert (Q : d = []) by exact (U _ J). cbn [fst snd]. rewrite Q. constructor.
  - intros a d b J. apply LI in J. destruct J as (-> & i & j & A & B & _ & -> & ->). rewrite NL1.
    split; [apply in_map, in_seq; lia|]. split; [apply in_map, in_seq; lia|]. split; [constructor|]. split; [left; intros k []|].
    intros [x [Jx _]]. destruct Jx.
  - intros l1 a b l2 d E J. pose proof (U (a, d, b)) as Ud. cbn [fst snd] in Ud. rewrite Ud in J by (rewrite E; apply in_or_app; right; right; exact J).
    assert (ND : NoDup L).
    { apply FinFun.Injective_map_NoDup; [|apply adj_edges_nodup]. intros [i j] [i' j'] Q. cbn [fst snd] in Q. injection Q as E1 E2.
      apply name_inj in E1, E2. subst. reflexivity. }
    rewrite E in ND. apply NoDup_remove_2 in ND. apply ND, in_or_app. auto.
  - rewrite H2. cbn [bind].
    destruct (add_edges_trans obj_eqb pv_eqb obj_eqb_eq pv_eqb_eq edge_config eq_refl true L g1 g2 W1) as [F1 [F2 [W4 [F3 F4]]]]; [|exact H2|].
    { intros [[a d] b] J. assert (Q : d = []) by exact (U _ J). cbn [fst snd]. rewrite Q. constructor. }
    assert (G2 : g2 = Graph (map (fun x => (name x, (fun _ => ap0) x)) (List.seq 0 n)) (g_edges g2) []).
    { destruct g2 as [gn ge gi]. cbn [g_nodes g_edges g_init] in *. rewrite F1, F2. reflexivity. }
    assert (LB := name_labels props n (fun _ => ap0) (g_edges g2) [] regions 0 g2 H eq_refl G2 (fun _ _ => eq_refl)). fold n in LB. rewrite LB. clear LB. cbn [bind].
    eexists. split; [reflexivity|]. cbn [f_ap f_graph]. split; [reflexivity|]. split; [unfold node_list; cbn [g_nodes]; rewrite map_map; reflexivity|]. split; [reflexivity|]. split.
    + intros a e b. assert (T : trans (Graph (map (fun x => (name x, if 0 <=? x then [("ap", PvSet (nth (x - 0) regions []))] else ap0)) (List.seq 0 n)) (g_edges g2) []) a e b <-> trans g2 a e b) by reflexivity.
      rewrite T, F4. split.
      * intros [[x [J _]]|[d [J Sm]]]; [destruct J|]. apply LI in J. destruct J as (-> & J). apply same_items_sym, items_nil in Sm. split; [exact Sm|exact J].
      * intros (-> & J). right. exists []. split; [apply LI; auto|apply same_items_refl].
    + intros k v. unfold named. cbn [g_nodes]. split.
      * intros (a & J & Lv). apply in_map_iff in J. destruct J as (x & [= E <-] & X). apply in_seq in X. apply name_inj in E. subst x. cbn in Lv. injection Lv as <-.
        exists (nth (k - 0) regions []). split; [|reflexivity]. rewrite Nat.sub_0_r. apply nth_error_nth'. lia.
      * intros (l & J & ->). assert (K : k < n) by (apply nth_error_Some; congruence). exists [("ap", PvSet l)]. split; [|reflexivity].
        apply in_map_iff. exists k. split; [|apply in_seq; lia]. cbn [Nat.leb]. rewrite Nat.sub_0_r, (nth_error_nth regions k [] J). reflexivity.
Qed.
End Named.

(** The state of region [k] is [s] and the number. *)
Lemma region_state_text k : region_state k = OStr ("s" ++ str_Z (Z.of_nat k)).
Proof. reflexivity. Qed.
Lemma region_state_inj a b : region_state a = region_state b -> a = b.
Proof. rewrite !region_state_text. intro H. assert (E : str_Z (Z.of_nat a) = str_Z (Z.of_nat b)) by (apply (append_inj "s"); congruence). apply str_Z_inj in E. lia. Qed.
(** There is a state for each region, a transition exactly between adjacent regions, and the label of a state is the set of
    propositions of its region; the list that is returned gives the state of each region. *)
Theorem ppp2ts_spec props regions m : (forall l p, In l regions -> In p l -> In p props) ->
  exists ts, ppp2ts props (List.length regions) m regions = Ok (ts, map (fun k => OStr ("s" ++ str_Z (Z.of_nat k))) (List.seq 0 (List.length regions))) /\
    f_ap ts = map OStr props /\
    node_list (f_graph ts) = map (fun k => OStr ("s" ++ str_Z (Z.of_nat k))) (List.seq 0 (List.length regions)) /\ g_init (f_graph ts) = [] /\
    (forall a e b, trans (f_graph ts) a e b <-> e = [] /\ exists i j, i < List.length regions /\ j < List.length regions /\ m i j = true /\
       a = OStr ("s" ++ str_Z (Z.of_nat i)) /\ b = OStr ("s" ++ str_Z (Z.of_nat j))) /\
    (forall k v, named (OStr ("s" ++ str_Z (Z.of_nat k))) v (f_graph ts) <-> exists l, nth_error regions k = Some l /\ v = PvSet l).
Proof.
  intro H. destruct (named_ts_spec region_state region_state_inj props regions m H) as (ts & E & A & B & C & D & F). exists ts. unfold ppp2ts. rewrite E. cbn [bind]. split; [unfold prepend_with; rewrite map_map; reflexivity|].
  split; [exact A|]. split; [exact B|]. split; [exact C|]. split; [exact D|exact F].
Qed.
(** The states are different for different regions. *)
Theorem ppp2ts_states_differ a b : OStr ("s" ++ str_Z (Z.of_nat a)) = OStr ("s" ++ str_Z (Z.of_nat b)) -> a = b.
Proof. exact (region_state_inj a b). Qed.
(** A region with a proposition that is not one of the partition: ValueError. *)
Lemma bad_label props l p : In p l -> ~ In p props -> forall g k, add_node obj_eqb (fts_config (map OStr props)) (region_state k) [("ap", PvSet l)] true g = Err "ValueError".
Proof.
  intros I NI g k. unfold add_node. cbn [fts_config c_node_types c_node_defaults].
  assert (P : in_powerset (map OStr props) (PvSet l) = false).
  { cbn [in_powerset as_set]. destruct (forallb _ _) eqn:E; [|reflexivity]. exfalso. rewrite forallb_forall in E. specialize (E (OStr p) (in_map OStr _ _ I)). apply existsb_exists in E. destruct E as (o & O & Q).
    apply in_map_iff in O. destruct O as (q & <- & O). apply obj_eqb_eq in Q. injection Q as <-. contradiction. }
  unfold typed_attr. change (typed_update_res _ [("ap", PvSet [])] []) with (Ok [("ap", PvSet [])]). cbn [bind].
  unfold typed_update_res. cbn [typed_update]. unfold typed_set.
  assert (A : M_Dict.allowed [("ap", Some (in_powerset (map OStr props)))] "ap" (PvSet l) = false) by exact P. rewrite A. reflexivity.
Qed.
Lemma good_label props l : (forall p, In p l -> In p props) -> forall g k, exists g', add_node obj_eqb (fts_config (map OStr props)) (region_state k) [("ap", PvSet l)] true g = Ok g'.
Proof.
  intros H g k. unfold add_node. cbn [fts_config c_node_types c_node_defaults]. rewrite ts_label by exact H. cbn [bind].
  change (check_untyped [("ap", PvSet l)] [("ap", Some (in_powerset (map OStr props)))] true) with (Ok tt). cbn [bind]. eexists. reflexivity.
Qed.
Theorem ppp2ts_rejects props regions m l p : In l regions -> In p l -> ~ In p props -> ppp2ts props (List.length regions) m regions = Err "ValueError".
Proof.
  intros Il Ip NI. unfold ppp2ts, named_ts.
  destruct (named_ts_spec region_state region_state_inj [] (repeat [] (List.length regions)) m) as (ts & E & _); [intros x q X Q; apply repeat_spec in X; subst x; destruct Q|].
  rewrite repeat_length in E. unfold named_ts in E. apply bind_Ok in E. destruct E as (g1 & E1 & E). apply bind_Ok in E. destruct E as (g2 & E2 & _).
  rewrite E1. cbn [bind]. rewrite E2. cbn [bind].
  assert (G : forall ls k g, In l ls -> fold_res (fun kl => add_node obj_eqb (fts_config (map OStr props)) (region_state (fst kl)) [("ap", PvSet (snd kl))] true) (combine (List.seq k (List.length ls)) ls) g = Err "ValueError").
  { induction ls as [|x ls IH]; intros k g I; [destruct I|]. cbn [List.length List.seq combine fold_res fst snd].
    destruct (forallb (fun q => existsb (String.eqb q) props) x) eqn:F.
    - assert (Gx : forall q, In q x -> In q props) by (intros q Q; rewrite forallb_forall in F; specialize (F q Q); apply existsb_exists in F; destruct F as (y & Y & Z); apply String.eqb_eq in Z; subst y; exact Y).
      destruct I as [->|I]; [destruct (NI (Gx p Ip))|]. destruct (good_label props x Gx g k) as [g' ->]. cbn [bind]. apply IH, I.
    - assert (Bx : exists q, In q x /\ ~ In q props).
      { clear - F. induction x as [|q x IH]; [discriminate|]. cbn in F. destruct (existsb (String.eqb q) props) eqn:Q; [destruct (IH F) as (y & Y & Z); exists y; split; [right; exact Y|exact Z]|].
        exists q. split; [left; reflexivity|]. intro I. rewrite (proj2 (existsb_exists _ _)) in Q; [discriminate|]. exists q. split; [exact I|apply String.eqb_refl]. }
      destruct Bx as (q & Q1 & Q2). rewrite (bad_label props x q Q1 Q2). reflexivity. }
  rewrite (G regions 0 g2 Il). reflexivity.
Qed.
(** Three regions in a row; the middle one has no propositions. *)
Definition ex_adj : matrix := fun i j => (i =? j) || (S i =? j) || (i =? S j).
Example ex_ppp : exists ts, ppp2ts ["home"; "lot"] 3 ex_adj [["home"]; []; ["lot"; "home"]] = Ok (ts, [OStr "s0"; OStr "s1"; OStr "s2"]) /\
  List.length (g_edges (f_graph ts)) = 7 /\ map fst (g_nodes (f_graph ts)) = [OStr "s0"; OStr "s1"; OStr "s2"].
Proof. eexists. split; [vm_compute; reflexivity|]. split; vm_compute; reflexivity. Qed.
Example ex_ppp_rejected : ppp2ts ["home"] 2 ex_adj [["home"]; ["lot"]] = Err "ValueError". Proof. vm_compute. reflexivity. Qed.

Print Assumptions ppp2ts_spec.
Print Assumptions ppp2ts_states_differ.
Print Assumptions ppp2ts_rejects.
