(** The transition system built from a matrix and a list of labels. *)
From Coq Require Import List String Bool Arith ZArith Lia QArith Qcanon.
From Verif Require Import M_Tree M_Base S_LTL M_Gr1c L_Dec L_Gr1c M_Dict L_Dict M_Graph L_Graph M_Machine S_Run L_Build L_Machine T_Convert M_Fts T_Fts M_Part M_Discretize.
Import ListNotations.
Open Scope string_scope.
Open Scope list_scope.
Open Scope nat_scope.

Lemma state_inj a b : state a = state b -> a = b.
Proof. unfold state. intros [= H]. lia. Qed.
Lemma nx_relabel (d : attrs pv) : forall l k (f : nat -> attrs pv), In k l -> NoDup l ->
  nx_add_node obj_eqb (state k) d (map (fun x => (state x, f x)) l) = map (fun x => (state x, if x =? k then update (f x) d else f x)) l.
Proof.
  induction l as [|x l IH]; intros k f I ND; [destruct I|]. cbn [map nx_add_node]. inversion ND as [|? ? NI ND']; subst.
  destruct (obj_eqb (state k) (state x)) eqn:E.
  - apply obj_eqb_eq, state_inj in E. subst x. rewrite Nat.eqb_refl. f_equal. apply map_ext_in. intros a A.
    destruct (Nat.eqb_spec a k); [subst; contradiction|reflexivity].
  - destruct (Nat.eqb_spec x k) as [->|NE]; [rewrite (proj2 (obj_eqb_eq _ _) eq_refl) in E; discriminate|]. f_equal. apply IH; [|exact ND'].
    destruct I as [->|I]; [congruence|exact I].
Qed.
Lemma nx_fresh (d : attrs pv) : forall l k (f : nat -> attrs pv), ~ In k l ->
  nx_add_node obj_eqb (state k) d (map (fun x => (state x, f x)) l) = map (fun x => (state x, f x)) l ++ [(state k, d)].
Proof.
  induction l as [|x l IH]; intros k f I; [reflexivity|]. cbn [map nx_add_node app].
  destruct (obj_eqb (state k) (state x)) eqn:E; [apply obj_eqb_eq, state_inj in E; subst; exfalso; apply I; left; reflexivity|].
  f_equal. apply IH. intro J. apply I. right. exact J.
Qed.
Lemma ts_nodes n : fold_res (fun k => add_node obj_eqb (fts_config []) (state k) [] true) (List.seq 0 n) (@empty_graph obj pv) =
  Ok (Graph (map (fun k => (state k, ap0)) (List.seq 0 n)) [] []).
Proof.
  induction n as [|n IH]; [reflexivity|]. rewrite seq_S, Nat.add_0_l.
  apply fold_res_app. eexists. split; [exact IH|]. cbn [fold_res].
  unfold add_node. cbn [fts_config c_node_types c_node_defaults].
  change (typed_attr [("ap", Some (in_powerset []))] [("ap", PvSet [])] []) with (Ok ap0). cbn [bind].
  change (check_untyped ap0 [("ap", Some (in_powerset []))] true) with (Ok tt). cbn [bind g_nodes g_edges g_init].
  rewrite nx_fresh by (rewrite in_seq; lia). rewrite map_app. reflexivity.
Qed.
Lemma add_adj_eq ap n m g : add_adj ap n m g = fold_res (add_trans obj_eqb pv_eqb edge_config true) (map (fun ij => (state (fst ij), @nil (string * pv), state (snd ij))) (adj_edges n m)) g.
Proof.
  unfold add_adj. generalize (adj_edges n m) as l. intro l. revert g. induction l as [|[i j] l IH]; intro g; [reflexivity|]. cbn [map fold_res fst snd].
  unfold add_trans at 1. cbn [fst snd].
  change (add_edge obj_eqb pv_eqb edge_config) with (add_edge obj_eqb pv_eqb (fts_config ap)).
  destruct (add_edge obj_eqb pv_eqb (fts_config ap) (state i) (state j) None [] true g); [cbn [bind]; apply IH|reflexivity].
Qed.
Lemma adj_edges_iff n m i j : In (i, j) (adj_edges n m) <-> i < n /\ j < n /\ m i j = true.
Proof. unfold adj_edges. rewrite filter_In, in_prod_iff, !in_seq. cbn [fst snd]. intuition lia. Qed.
Lemma list_prod_nodup {A B} (l : list A) (l' : list B) : NoDup l -> NoDup l' -> NoDup (list_prod l l').
Proof.
  intros D D'. induction D as [|x l N D IH]; cbn [list_prod]; [constructor|]. apply NoDup_app; [|exact IH|].
  - apply FinFun.Injective_map_NoDup; [intros a b [= E]; exact E|exact D'].
  - intros [a b] I J. apply in_map_iff in I. destruct I as (y & [= <- <-] & _). apply in_prod_iff in J. tauto.
Qed.
Lemma adj_edges_nodup n m : NoDup (adj_edges n m).
Proof. apply NoDup_filter, list_prod_nodup; apply seq_NoDup. Qed.

Lemma ts_label props l : (forall p, In p l -> In p props) ->
  typed_attr [("ap", Some (in_powerset (map OStr props)))] [("ap", PvSet [])] [("ap", PvSet l)] = Ok [("ap", PvSet l)].
Proof.
  intro H. assert (P : in_powerset (map OStr props) (PvSet l) = true).
  2: { unfold typed_attr. change (typed_update_res _ [("ap", PvSet [])] []) with (Ok [("ap", PvSet [])]). cbn [bind].
       unfold typed_update_res. cbn [typed_update]. unfold typed_set.
       assert (A : M_Dict.allowed [("ap", Some (in_powerset (map OStr props)))] "ap" (PvSet l) = true) by exact P. rewrite A. reflexivity. }
  cbn [in_powerset as_set].
  apply forallb_forall. intros o I. apply in_map_iff in I. destruct I as (p & <- & I). apply existsb_exists. exists (OStr p).
  split; [apply in_map, H, I|apply obj_eqb_eq; reflexivity].
Qed.
Lemma ts_labels props n (f : nat -> attrs pv) E I0 : forall labels k g,
  (forall l p, In l labels -> In p l -> In p props) -> k + List.length labels = n ->
  g = @Graph obj pv (map (fun x => (state x, f x)) (List.seq 0 n)) E I0 -> (forall x, k <= x < n -> f x = ap0) ->
  fold_res (fun kl => add_node obj_eqb (fts_config (map OStr props)) (state (fst kl)) [("ap", PvSet (snd kl))] true) (combine (List.seq k (List.length labels)) labels) g =
  Ok (Graph (map (fun x => (state x, if k <=? x then [("ap", PvSet (nth (x - k) labels []))] else f x)) (List.seq 0 n)) E I0).
Proof.
  intros labels. revert f. induction labels as [|l labels IH]; intros f k g H L -> F; cbn [List.length List.seq combine fold_res].
  - f_equal. f_equal. apply map_ext_in. intros x X. apply in_seq in X. cbn [List.length] in L. destruct (Nat.leb_spec k x); [lia|reflexivity].
  - unfold add_node at 1. cbn [fts_config c_node_types c_node_defaults fst snd]. rewrite ts_label by (intros p P; apply (H l p); [left; reflexivity|exact P]).
    cbn [bind]. change (check_untyped [("ap", PvSet l)] [("ap", Some (in_powerset (map OStr props)))] true) with (Ok tt). cbn [bind g_nodes g_edges g_init].
    cbn [List.length] in L. rewrite nx_relabel; [|apply in_seq; lia|apply seq_NoDup].
    rewrite (IH (fun x => if x =? k then update (f x) [("ap", PvSet l)] else f x) (S k) _ (fun l' p A => H l' p (or_intror A)) ltac:(lia) eq_refl).
    + f_equal. f_equal. apply map_ext_in. intros x X. apply in_seq in X. f_equal.
      destruct (Nat.leb_spec (S k) x), (Nat.leb_spec k x), (Nat.eqb_spec x k); try lia; try reflexivity.
      * replace (x - k) with (S (x - S k)) by lia. reflexivity.
      * subst x. rewrite Nat.sub_diag, F by lia. reflexivity.
    + intros x X. destruct (Nat.eqb_spec x k); [lia|]. apply F. lia.
Qed.
Theorem build_ts_spec props labels m : (forall l p, In l labels -> In p l -> In p props) ->
  exists ts, build_ts props labels m = Ok ts /\ f_ap ts = map OStr props /\
    node_list (f_graph ts) = map state (List.seq 0 (List.length labels)) /\ g_init (f_graph ts) = [] /\
    (forall a e b, trans (f_graph ts) a e b <-> e = [] /\ exists i j, i < List.length labels /\ j < List.length labels /\ m i j = true /\ a = state i /\ b = state j) /\
    (forall k v, named (state k) v (f_graph ts) <-> exists l, nth_error labels k = Some l /\ v = PvSet l).
Proof.
  intro H. unfold build_ts. set (n := List.length labels). rewrite ts_nodes. cbn [bind].
  set (g1 := Graph _ _ _). assert (NL1 : node_list g1 = map state (List.seq 0 n)) by (unfold node_list, g1; cbn [g_nodes]; rewrite map_map; reflexivity).
  assert (W1 : wf edge_config g1).
  { apply wf_bare; [rewrite NL1; apply FinFun.Injective_map_NoDup; [intros x y; apply state_inj|apply seq_NoDup]|reflexivity|constructor|].
    intros x a J. unfold g1 in J. cbn [g_nodes] in J. apply in_map_iff in J. destruct J as (k & [= <- <-] & _). repeat constructor. intros []. }
  rewrite add_adj_eq. set (L := map _ (adj_edges n m)).
  assert (U : forall x, In x L -> snd (fst x) = []) by (intros x J; apply in_map_iff in J; destruct J as [t [<- _]]; reflexivity).
  assert (LI : forall a d b, In (a, d, b) L <-> d = [] /\ exists i j, i < n /\ j < n /\ m i j = true /\ a = state i /\ b = state j).
  { intros a d b. unfold L. rewrite in_map_iff. split.
    - intros ([i j] & [= <- <- <-] & I). apply adj_edges_iff in I. cbn [fst snd]. split; [reflexivity|]. exists i, j. tauto.
    - intros (-> & i & j & A & B & C & -> & ->). exists (i, j). split; [reflexivity|]. apply adj_edges_iff. auto. }
  destruct (add_edges_total obj_eqb pv_eqb obj_eqb_eq pv_eqb_eq edge_config eq_refl true L g1 W1) as [g2 H2].
  - intros [[a d] b] J. assert (Q : d = []) by exact (U _ J). cbn [fst snd]. rewrite Q. constructor.
  - intros a d b J. apply LI in J. destruct J as (-> & i & j & A & B & _ & -> & ->). rewrite NL1.
    split; [apply in_map, in_seq; lia|]. split; [apply in_map, in_seq; lia|]. split; [constructor|]. split; [left; intros k []|].
    intros [x [Jx _]]. destruct Jx.
  - intros l1 a b l2 d E J. pose proof (U (a, d, b)) as Ud. cbn [fst snd] in Ud. rewrite Ud in J by (rewrite E; apply in_or_app; right; right; exact J).
    assert (ND : NoDup L).
    { apply FinFun.Injective_map_NoDup; [|apply adj_edges_nodup]. intros [i j] [i' j'] Q. cbn [fst snd] in Q. injection Q as E1 E2.
      f_equal; lia. }
    rewrite E in ND. apply NoDup_remove_2 in ND. apply ND, in_or_app. auto.
  - rewrite H2. cbn [bind].
    destruct (add_edges_trans obj_eqb pv_eqb obj_eqb_eq pv_eqb_eq edge_config eq_refl true L g1 g2 W1) as [F1 [F2 [W4 [F3 F4]]]]; [|exact H2|].
    { intros [[a d] b] J. assert (Q : d = []) by exact (U _ J). cbn [fst snd]. rewrite Q. constructor. }
    assert (G2 : g2 = Graph (map (fun x => (state x, (fun _ => ap0) x)) (List.seq 0 n)) (g_edges g2) []).
    { destruct g2 as [gn ge gi]. cbn [g_nodes g_edges g_init] in *. rewrite F1, F2. reflexivity. }
    assert (LB := ts_labels props n (fun _ => ap0) (g_edges g2) [] labels 0 g2 H eq_refl G2 (fun _ _ => eq_refl)). fold n in LB. rewrite LB. clear LB. cbn [bind].
    eexists. split; [reflexivity|]. cbn [f_ap f_graph]. split; [reflexivity|]. split; [unfold node_list; cbn [g_nodes]; rewrite map_map; reflexivity|]. split; [reflexivity|]. split.
    + intros a e b. assert (T : trans (Graph (map (fun x => (state x, if 0 <=? x then [("ap", PvSet (nth (x - 0) labels []))] else ap0)) (List.seq 0 n)) (g_edges g2) []) a e b <-> trans g2 a e b) by reflexivity.
      rewrite T, F4. split.
      * intros [[x [J _]]|[d [J Sm]]]; [destruct J|]. apply LI in J. destruct J as (-> & J). apply same_items_sym, items_nil in Sm. split; [exact Sm|exact J].
      * intros (-> & J). right. exists []. split; [apply LI; auto|apply same_items_refl].
    + intros k v. unfold named. cbn [g_nodes]. split.
      * intros (a & J & Lv). apply in_map_iff in J. destruct J as (x & [= E <-] & X). apply in_seq in X. assert (x = k) by lia. subst x. cbn in Lv. injection Lv as <-.
        exists (nth (k - 0) labels []). split; [|reflexivity]. rewrite Nat.sub_0_r. apply nth_error_nth'. lia.
      * intros (l & J & ->). assert (K : k < n) by (apply nth_error_Some; congruence). exists [("ap", PvSet l)]. split; [|reflexivity].
        apply in_map_iff. exists k. split; [|apply in_seq; lia]. cbn [Nat.leb]. rewrite Nat.sub_0_r, (nth_error_nth labels k [] J). reflexivity.
Qed.
Print Assumptions build_ts_spec.
