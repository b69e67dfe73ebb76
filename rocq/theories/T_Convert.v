(** C37 (first half) and C38: moore2mealy and strip_ports. *)
From Coq Require Import List String Bool Arith Lia FinFun.
From Verif Require Import M_Base M_Dict L_Dict M_Graph L_Graph M_Machine S_Run L_Build L_Machine.
Import ListNotations.
Open Scope string_scope.
Open Scope list_scope.

Lemma fold_res_flat {A B C} (f : A -> B -> res B) (h : C -> list A) l b :
  fold_res (fun x => fold_res f (h x)) l b = fold_res f (flat_map h l) b.
Proof.
  revert b. induction l as [|x l IH]; intro b; cbn [fold_res flat_map]; [reflexivity|].
  assert (G : forall p q b, fold_res f (p ++ q) b = bind (fold_res f p b) (fold_res f q)).
  { induction p as [|y p IHp]; intros q b0; cbn [app fold_res bind]; [reflexivity|]. destruct (f y b0); cbn [bind]; auto. }
  rewrite G. destruct (fold_res f (h x) b); cbn [bind]; auto.
Qed.
Lemma fold_res_map {A B C} (f : A -> B -> res B) (h : C -> A) l b :
  fold_res f (map h l) b = fold_res (fun x => f (h x)) l b.
Proof. revert b. induction l as [|x l IH]; intro b; cbn [fold_res map]; [reflexivity|]. destruct (f (h x) b); cbn [bind]; auto. Qed.
Lemma fold_res_ext {A B} (f f' : A -> B -> res B) l b : (forall x b, In x l -> f x b = f' x b) -> fold_res f l b = fold_res f' l b.
Proof.
  revert b. induction l as [|x l IH]; intros b H; cbn [fold_res]; [reflexivity|]. rewrite H by (left; reflexivity).
  destruct (f' x b); cbn [bind]; [|reflexivity]. apply IH. intros y c I. apply H. right. exact I.
Qed.
Lemma NoDup_app_split {A} (l1 : list A) x l2 : NoDup (l1 ++ x :: l2) -> ~ In x l2.
Proof. intros H I. apply NoDup_remove_2 in H. apply H. apply in_or_app. auto. Qed.

Lemma NoDup_app {A} (l l' : list A) : NoDup l -> NoDup l' -> (forall x, In x l -> In x l' -> False) -> NoDup (l ++ l').
Proof.
  induction l as [|x l IH]; cbn [app]; intros H K D; [exact K|]. inversion H as [|? ? NI ND]; subst. constructor.
  - rewrite in_app_iff. intros [I|I]; [contradiction|]. exact (D x (or_introl eq_refl) I).
  - apply IH; auto. intros y I J. exact (D y (or_intror I) J).
Qed.

Lemma unique_key {A B} (l : list (A * B)) n a a' : NoDup (map fst l) -> In (n, a) l -> In (n, a') l -> a = a'.
Proof.
  induction l as [|[k b] r IH]; cbn [map fst In]; [intros _ []|]. intros H I J. inversion H as [|? ? NI ND]; subst.
  destruct I as [I|I], J as [J|J]; [congruence| | |auto]; exfalso; apply NI.
  - injection I as <- _. apply (in_map fst) in J. exact J.
  - injection J as <- _. apply (in_map fst) in I. exact I.
Qed.

Section Convert.
  Context {N V : Type} (neqb : N -> N -> bool) (veqb : V -> V -> bool).
  Hypothesis neqb_eq : forall a b, neqb a b = true <-> a = b.
  Hypothesis veqb_eq : forall a b, veqb a b = true <-> a = b.
  Implicit Types m : machine N V.

  (** Copy of states, initial states and a list of labelled transitions, as both functions do. *)
  Definition copy_build (c : config V) (g : graph N V) (l : list ltrans) : res (graph N V) :=
    do g1 <- fold_res (fun n => add_node neqb c n [] true) (node_list g) empty_graph;
    do g2 <- fold_res (add_initial neqb) (g_init g) g1;
    fold_res (add_trans neqb veqb c true) l g2.

  Lemma copy_build_Ok c g l g' : c_edge_defaults c = [] -> c_node_defaults c = [] ->
    (forall x, In x l -> NoDup (map fst (snd (fst x)))) -> copy_build c g l = Ok g' ->
    wf c g' /\ (forall n, In n (node_list g') <-> In n (node_list g)) /\ (forall n, In n (g_init g') <-> In n (g_init g)) /\
    forall a b e, trans g' a e b <-> exists d, In (a, d, b) l /\ same_items d e.
  Proof.
    intros D1 D2 ND H. unfold copy_build in H. apply bind_Ok in H. destruct H as [g1 [H1 H]]. apply bind_Ok in H. destruct H as [g2 [H2 H3]].
    destruct (add_nodes_plain neqb neqb_eq c D2 (node_list g) empty_graph (wf_empty c)) as [g1' [E1 [W1 [E2 [E3 E4]]]]].
    rewrite E1 in H1. injection H1 as <-.
    destruct (add_initials neqb veqb neqb_eq c (g_init g) g1' W1) as [AI _]. destruct (AI g2 H2) as [_ [W2 [B1 [B2 B3]]]].
    destruct (add_edges_trans neqb veqb neqb_eq veqb_eq c D1 true l g2 g' W2 ND H3) as [C1 [C2 [W3 [_ C3]]]].
    split; [exact W3|]. split; [|split].
    - intro n. unfold node_list at 1. rewrite C1, B1. fold (node_list g1'). rewrite E4. cbn. tauto.
    - intro n. rewrite C2, B3, E3. cbn. tauto.
    - intros a b e. rewrite C3. split; [|auto]. intros [[x [I _]]|K]; [|exact K]. rewrite B2, E2 in I. destruct I.
  Qed.
  Lemma copy_build_total c g l : c_edge_defaults c = [] -> c_node_defaults c = [] ->
    (forall x, In x l -> NoDup (map fst (snd (fst x)))) -> (forall n, In n (g_init g) -> In n (node_list g)) ->
    (forall u d v, In (u, d, v) l -> In u (node_list g) /\ In v (node_list g) /\ good (c_edge_types c) d /\ typed_keys (c_edge_types c) d) ->
    unlabelled_last l -> exists g', copy_build c g l = Ok g'.
  Proof.
    intros D1 D2 ND Ini L UL. unfold copy_build.
    destruct (add_nodes_plain neqb neqb_eq c D2 (node_list g) empty_graph (wf_empty c)) as [g1 [E1 [W1 [E2 [E3 E4]]]]].
    rewrite E1. cbn [bind].
    destruct (add_initials neqb veqb neqb_eq c (g_init g) g1 W1) as [AI AT].
    destruct AT as [g2 H2]. { intros n I. apply E4. right. auto. }
    rewrite H2. cbn [bind]. destruct (AI g2 H2) as [_ [W2 [B1 [B2 B3]]]].
    assert (NL : forall n, In n (node_list g) -> In n (node_list g2)).
    { intros n I. unfold node_list. rewrite B1. apply E4. auto. }
    apply (add_edges_total neqb veqb neqb_eq veqb_eq c D1 true l g2 W2 ND); [|exact UL].
    intros u d v I. destruct (L u d v I) as [A [B [C D]]]. do 4 (split; [auto|]).
    intros [x [J _]]. rewrite B2, E2 in J. destruct J.
  Qed.

  (** ** moore2mealy *)
  Definition m2m_list (m : machine N V) : list ltrans :=
    flat_map (fun na => map (fun e => (e_src e, update (e_attr e) (project_dict (snd na) (names (m_out m))), e_dst e))
                            (out_edges neqb (fst na) (m_graph m))) (g_nodes (m_graph m)).
  Lemma moore2mealy_eq m : moore2mealy neqb veqb m =
    do g <- copy_build (mealy_config veqb (Machine [] (m_in m) (m_out m) empty_graph : machine N V)) (m_graph m) (m2m_list m);
    Ok (Machine [] (m_in m) (m_out m) g).
  Proof.
    unfold moore2mealy, copy_build, m2m_list. destruct (fold_res _ (node_list _) _) as [g1|]; [|reflexivity]. cbn [bind].
    destruct (fold_res (add_initial neqb) _ g1) as [g2|]; [|reflexivity]. cbn [bind].
    rewrite <- fold_res_flat. f_equal. apply fold_res_ext. intros na g3 _. rewrite fold_res_map. reflexivity.
  Qed.
  Lemma m2m_list_In m u d v : In (u, d, v) (m2m_list m) <-> exists a e, In (u, a) (g_nodes (m_graph m)) /\ In e (g_edges (m_graph m)) /\
    e_src e = u /\ e_dst e = v /\ d = update (e_attr e) (project_dict a (names (m_out m))).
  Proof.
    unfold m2m_list. rewrite in_flat_map. split.
    - intros [[n a] [I J]]. cbn [fst snd] in J. apply in_map_iff in J. destruct J as [e [[= <- <- <-] K]].
      apply (out_edges_In neqb neqb_eq) in K. destruct K as [K <-]. exists a, e. auto.
    - intros [a [e [I [J [<- [<- ->]]]]]]. exists (e_src e, a). split; [exact I|]. cbn [fst snd]. apply in_map_iff. exists e.
      split; [reflexivity|]. apply (out_edges_In neqb neqb_eq). auto.
  Qed.

  Lemma m2m_nodup m : wf (moore_config veqb m) (m_graph m) ->
    forall x, In x (m2m_list m) -> NoDup (map fst (snd (fst x))).
  Proof.
    intros W [[u d] v] I. apply m2m_list_In in I. destruct I as [a [e [I [J [_ [_ ->]]]]]]. cbn [fst snd].
    apply nodup_update, (proj1 (wf_edge_attr _ _ W e J)).
  Qed.

  (** Every input/output word of the Moore machine is one of the Mealy machine and
      conversely: even the steps are the same. *)
  Theorem moore2mealy_step m m' : wf (moore_config veqb m) (m_graph m) ->
    (forall k, In k (map fst (m_in m)) -> ~ In k (map fst (m_out m))) ->
    (forall e k, In e (g_edges (m_graph m)) -> In k (map fst (e_attr e)) -> ~ In k (map fst (m_out m))) ->
    moore2mealy neqb veqb m = Ok m' ->
    m_in m' = m_in m /\ m_out m' = m_out m /\
    (forall n, In n (node_list (m_graph m')) <-> In n (node_list (m_graph m))) /\
    (forall n, In n (g_init (m_graph m')) <-> In n (g_init (m_graph m))) /\
    forall s x t, mealy_step m' s x t <-> moore_step m s x t.
  Proof.
    intros W Dj Ek H. rewrite moore2mealy_eq in H. apply bind_Ok in H. destruct H as [g [H [= <-]]]. cbn [m_in m_out m_graph].
    apply copy_build_Ok in H; [|reflexivity|reflexivity|apply m2m_nodup, W]. destruct H as [W' [HN [HI HT]]].
    do 2 (split; [reflexivity|]). split; [exact HN|]. split; [exact HI|].
    assert (Lk : forall e a k, In e (g_edges (m_graph m)) -> In (e_src e, a) (g_nodes (m_graph m)) ->
      lookup k (update (e_attr e) (project_dict a (names (m_out m)))) =
        if mem k (map fst (m_out m)) then lookup k a else lookup k (e_attr e)).
    { intros e a k I J. rewrite lookup_update, lookup_rev by (apply nodup_project, (proj1 (wf_node_attr _ _ W _ _ J))).
      rewrite lookup_project. unfold names. destruct (mem k (map fst (m_out m))) eqn:M; [|reflexivity].
      destruct (lookup k a) eqn:L; [reflexivity|]. apply lookup_None. intro K. apply mem_In in M. exact (Ek e k I K M). }
    assert (Re : forall e a i o, In e (g_edges (m_graph m)) -> In (e_src e, a) (g_nodes (m_graph m)) ->
      (restricts (map fst (m_in m)) (update (e_attr e) (project_dict a (names (m_out m)))) i <-> restricts (map fst (m_in m)) (e_attr e) i) /\
      (restricts (map fst (m_out m)) (update (e_attr e) (project_dict a (names (m_out m)))) o <-> restricts (map fst (m_out m)) a o)).
    { intros e a i o I J. unfold restricts. split; split; intros R k v; rewrite R; rewrite (Lk e a k I J); (split; intros [K Q]; (split; [exact K|])).
      - destruct (mem k (map fst (m_out m))) eqn:M; [apply mem_In in M; destruct (Dj k K M)|exact Q].
      - destruct (mem k (map fst (m_out m))) eqn:M; [apply mem_In in M; destruct (Dj k K M)|exact Q].
      - destruct (mem k (map fst (m_out m))) eqn:M; [apply mem_In in M; destruct (Dj k K M)|exact Q].
      - destruct (mem k (map fst (m_out m))) eqn:M; [apply mem_In in M; destruct (Dj k K M)|exact Q].
      - rewrite (proj2 (mem_In _ _) K) in Q. exact Q.
      - rewrite (proj2 (mem_In _ _) K). exact Q.
      - rewrite (proj2 (mem_In _ _) K). exact Q.
      - rewrite (proj2 (mem_In _ _) K) in Q. exact Q. }
    intros s [i o] t. split.
    - intros [e' [I [A [B [R1 R2]]]]]. cbn [m_graph m_in m_out fst snd] in *.
      destruct (proj1 (HT s t (e_attr e'))) as [d [J S]]. { exists e'. repeat split; auto. }
      apply m2m_list_In in J. destruct J as [a [e [J1 [J2 [<- [<- ->]]]]]].
      exists e, a. do 4 (split; [auto|]).
      pose proof (Re e a i o J2 J1) as [Q1 Q2]. split.
      + apply Q1. eapply restricts_same; [apply same_items_sym, S|apply same_items_refl|exact R1].
      + apply Q2. eapply restricts_same; [apply same_items_sym, S|apply same_items_refl|exact R2].
    - intros [e [a [I [A [B [J [R1 R2]]]]]]]. subst s t. cbn [fst snd] in *.
      destruct (proj2 (HT (e_src e) (e_dst e) (update (e_attr e) (project_dict a (names (m_out m)))))) as [e' [I' [A' [B' S]]]].
      { eexists. split; [apply m2m_list_In; exists a, e; auto|apply same_items_refl]. }
      exists e'. cbn [m_graph m_in m_out fst snd]. split; [exact I'|]. split; [exact A'|]. split; [exact B'|].
      pose proof (Re e a i o I J) as [Q1 Q2]. split.
      + eapply restricts_same; [apply same_items_sym, S|apply same_items_refl|]. apply Q1, R1.
      + eapply restricts_same; [apply same_items_sym, S|apply same_items_refl|]. apply Q2, R2.
  Qed.
  Theorem moore2mealy_words m m' : wf (moore_config veqb m) (m_graph m) ->
    (forall k, In k (map fst (m_in m)) -> ~ In k (map fst (m_out m))) ->
    (forall e k, In e (g_edges (m_graph m)) -> In k (map fst (e_attr e)) -> ~ In k (map fst (m_out m))) ->
    moore2mealy neqb veqb m = Ok m' ->
    forall w, words (mealy_step m') (m_graph m') w <-> words (moore_step m) (m_graph m) w.
  Proof.
    intros W Dj Ek H w. destruct (moore2mealy_step m m' W Dj Ek H) as [_ [_ [_ [HI HS]]]].
    split; intros [s [t [I P]]]; exists s, t; (split; [apply HI, I|]); (eapply steps_ext; [|exact P]); intros; apply HS; assumption.
  Qed.

  (** The conversion succeeds on the machines users build: initial states are states, labels
      use only the declared input ports, and parallel transitions are labelled. *)
  Theorem moore2mealy_total m : wf (moore_config veqb m) (m_graph m) ->
    NoDup (map fst (m_in m)) -> NoDup (map fst (m_out m)) -> NoDup (map fst (m_vars m)) ->
    (forall k, In k (map fst (m_in m)) -> ~ In k (map fst (m_out m))) ->
    (forall n, In n (g_init (m_graph m)) -> In n (node_list (m_graph m))) ->
    (forall e k, In e (g_edges (m_graph m)) -> In k (map fst (e_attr e)) -> In k (map fst (m_in m))) ->
    (forall e e', In e (g_edges (m_graph m)) -> In e' (g_edges (m_graph m)) -> e_src e = e_src e' -> e_dst e = e_dst e' ->
       e_attr e = [] -> e = e') ->
    exists m', moore2mealy neqb veqb m = Ok m'.
  Proof.
    intros W NDi NDo NDv Dj Ini Ek Un. rewrite moore2mealy_eq.
    set (c := mealy_config veqb (Machine [] (m_in m) (m_out m) empty_graph : machine N V)).
    assert (Kt : forall ps : list (string * port V), map fst (port_types veqb ps) = map fst ps).
    { intro ps. unfold port_types. rewrite map_map. reflexivity. }
    assert (Lt : forall k, lookup k (c_edge_types c) = match lookup k (port_types veqb (m_out m)) with Some d => Some d | None => lookup k (port_types veqb (m_in m)) end).
    { intro k. unfold c, mealy_config. cbn [c_edge_types m_in m_out]. rewrite lookup_update, lookup_rev by (rewrite Kt; exact NDo). reflexivity. }
    destruct (copy_build_total c (m_graph m) (m2m_list m)) as [g Hg]; [reflexivity|reflexivity|apply m2m_nodup, W|exact Ini| | |rewrite Hg; cbn [bind]; eauto].
    - intros u d v I. apply m2m_list_In in I. destruct I as [a [e [I [J [<- [<- ->]]]]]].
      split; [exact (proj1 (wf_ends _ _ W e J))|]. split; [exact (proj2 (wf_ends _ _ W e J))|]. split.
      + apply good_update.
        * apply Forall_forall. intros [k x] K. unfold project_dict in K. apply filter_In in K. cbn [fst snd] in K. destruct K as [K M]. cbn [fst snd].
          apply mem_In in M. pose proof (proj2 (wf_node_attr _ _ W _ _ I)) as G. unfold good in G. rewrite Forall_forall in G. specialize (G _ K).
          cbn [fst snd] in G. unfold allowed in *. rewrite Lt. unfold moore_config in G. cbn [c_node_types] in G.
          rewrite lookup_update, lookup_rev in G by (rewrite Kt; exact NDo).
          destruct (lookup k (port_types veqb (m_out m))) eqn:L; [exact G|]. apply lookup_None in L. rewrite Kt in L. contradiction.
        * apply Forall_forall. intros [k x] K. cbn [fst snd]. pose proof (proj2 (wf_edge_attr _ _ W _ J)) as G. unfold good in G. rewrite Forall_forall in G.
          specialize (G _ K). cbn [fst snd] in G. unfold allowed in *. rewrite Lt. unfold moore_config in G. cbn [c_edge_types] in G.
          destruct (lookup k (port_types veqb (m_out m))) eqn:L; [|exact G]. exfalso. apply (Dj k).
          { apply (Ek e k J). apply (in_map fst) in K. exact K. } { rewrite <- Kt. apply lookup_name. eauto. }
      + intros k K. apply lookup_name. rewrite Lt. apply lookup_name in K. destruct K as [x K]. rewrite lookup_update in K.
        destruct (lookup k (rev (project_dict a (names (m_out m))))) eqn:L.
        * rewrite lookup_rev in L by (apply nodup_project, (proj1 (wf_node_attr _ _ W _ _ I))). rewrite lookup_project in L.
          destruct (mem k (names (m_out m))) eqn:M; [|discriminate]. apply mem_In in M. unfold names in M. rewrite <- Kt in M. apply lookup_name in M.
          destruct M as [p ->]. eauto.
        * destruct (lookup k (port_types veqb (m_out m))); [eauto|]. apply lookup_name. rewrite Kt. apply (Ek e k J). apply lookup_name. eauto.
    - intros l1 u v l2 d E I.
      set (h := fun x : (N * attrs V) * edge N V => (e_src (snd x), update (e_attr (snd x)) (project_dict (snd (fst x)) (names (m_out m))), e_dst (snd x))).
      set (le := flat_map (fun na => map (fun e => (na, e)) (out_edges neqb (fst na) (m_graph m))) (g_nodes (m_graph m))).
      assert (El : m2m_list m = map h le).
      { unfold m2m_list, le. clear. induction (g_nodes (m_graph m)) as [|na r IH]; cbn [flat_map map]; [reflexivity|].
        rewrite map_app, map_map, IH. reflexivity. }
      assert (NDl : NoDup le).
      { unfold le. pose proof (wf_nodes _ _ W) as NN. unfold node_list in NN. pose proof (NoDup_of_map _ _ (wf_ident _ _ W)) as NE.
        clear - NN NE neqb_eq. induction (g_nodes (m_graph m)) as [|na r IH]; cbn [flat_map]; [constructor|]. cbn [map] in NN. inversion NN as [|? ? NI ND]; subst.
        apply NoDup_app; [|apply IH, ND|].
        - apply FinFun.Injective_map_NoDup; [intros x y [= ->]; reflexivity|]. apply NoDup_filter, NE.
        - intros [na' e] I J. apply in_map_iff in I. destruct I as [e' [[= <- <-] _]]. apply in_flat_map in J. destruct J as [nb [J K]].
          apply in_map_iff in K. destruct K as [e'' [[= -> ->] _]]. apply NI. apply in_map. exact J. }
      rewrite El in E. apply map_eq_app in E. destruct E as [p [q [Ele [<- E]]]]. apply map_eq_cons in E. destruct E as [x [q' [-> [E1 <-]]]].
      apply in_map_iff in I. destruct I as [y [E2 I]]. unfold h in E1, E2. injection E1 as A1 A2 A3. injection E2 as B1 B2 B3.
      assert (In1 : forall z, In z (p ++ x :: q') -> In (fst z) (g_nodes (m_graph m)) /\ In (snd z) (g_edges (m_graph m)) /\ e_src (snd z) = fst (fst z)).
      { intros z Z. rewrite <- Ele in Z. unfold le in Z. apply in_flat_map in Z. destruct Z as [na [Z1 Z2]]. apply in_map_iff in Z2. destruct Z2 as [e [<- Z2]].
        apply (out_edges_In neqb neqb_eq) in Z2. cbn [fst snd]. tauto. }
      destruct (In1 x) as [X1 [X2 X3]]; [apply in_or_app; right; left; reflexivity|].
      destruct (In1 y) as [Y1 [Y2 Y3]]; [apply in_or_app; right; right; exact I|].
      assert (Ex : e_attr (snd x) = []).
      { destruct (e_attr (snd x)) as [|[k w] r] eqn:Ea; [reflexivity|]. exfalso.
        pose proof (lookup_update (e_attr (snd x)) (project_dict (snd (fst x)) (names (m_out m))) k) as Lk. rewrite Ea in Lk.
        rewrite A2 in Lk. cbn [lookup] in Lk. rewrite String.eqb_refl in Lk. destruct (lookup k (rev _)); discriminate. }
      assert (Q : snd x = snd y) by (apply Un; auto; congruence).
      assert (x = y).
      { destruct x as [[n a] e], y as [[n' a'] e']. cbn [fst snd] in *. subst e' n n'. f_equal. f_equal.
        exact (unique_key _ _ _ _ (wf_nodes _ _ W) X1 Y1). }
      subst y. rewrite Ele in NDl. exact (NoDup_app_split _ _ _ NDl I).
  Qed.

  (** ** strip_ports *)
  Definition strip_list m ns : list ltrans := map (fun e => (e_src e, trim_dict (e_attr e) ns, e_dst e)) (g_edges (m_graph m)).
  Lemma strip_ports_eq m ns : strip_ports neqb veqb m ns =
    do g <- copy_build (mealy_config veqb (Machine [] (trim_dict (m_in m) ns) (trim_dict (m_out m) ns) empty_graph : machine N V)) (m_graph m) (strip_list m ns);
    Ok (Machine [] (trim_dict (m_in m) ns) (trim_dict (m_out m) ns) g).
  Proof.
    unfold strip_ports, copy_build, strip_list. destruct (fold_res _ (node_list _) _) as [g1|]; [|reflexivity]. cbn [bind].
    destruct (fold_res (add_initial neqb) _ g1) as [g2|]; [|reflexivity]. cbn [bind]. rewrite fold_res_map. reflexivity.
  Qed.
  (** [d'] is [d] without the keys [ns]. *)
  Definition stripped {A} (ns : list string) (d d' : list (string * A)) : Prop :=
    forall k v, lookup k d' = Some v <-> lookup k d = Some v /\ ~ In k ns.

  Lemma trim_stripped (ns : list string) (d : attrs V) : stripped ns d (trim_dict d ns).
  Proof.
    intros k v. rewrite lookup_trim. destruct (mem k ns) eqn:M.
    - apply mem_In in M. split; [discriminate|tauto].
    - split; [|tauto]. intro L. split; [exact L|]. intro I. apply mem_In in I. congruence.
  Qed.
  Lemma keys_trim {A} (ps : list (string * A)) ns k : In k (map fst (trim_dict ps ns)) <-> In k (map fst ps) /\ ~ In k ns.
  Proof.
    unfold trim_dict. rewrite !in_map_iff. split.
    - intros [x [<- I]]. apply filter_In in I. destruct I as [I M]. split; [eauto|]. intro J. apply mem_In in J. rewrite J in M. discriminate.
    - intros [[x [<- I]] J]. exists x. split; [reflexivity|]. apply filter_In. split; [exact I|]. destruct (mem (fst x) ns) eqn:M; [|reflexivity].
      apply mem_In in M. contradiction.
  Qed.

  Theorem strip_ports_spec m ns m' : wf (mealy_config veqb m) (m_graph m) ->
    strip_ports neqb veqb m ns = Ok m' ->
    (forall k, In k (map fst (m_in m')) <-> In k (map fst (m_in m)) /\ ~ In k ns) /\
    (forall k, In k (map fst (m_out m')) <-> In k (map fst (m_out m)) /\ ~ In k ns) /\
    (forall n, In n (node_list (m_graph m')) <-> In n (node_list (m_graph m))) /\
    (forall n, In n (g_init (m_graph m')) <-> In n (g_init (m_graph m))) /\
    (forall s d t, trans (m_graph m') s d t <-> exists d0, trans (m_graph m) s d0 t /\ stripped ns d0 d).
  Proof.
    intros W H. rewrite strip_ports_eq in H. apply bind_Ok in H. destruct H as [g [H [= <-]]]. cbn [m_in m_out m_graph].
    apply copy_build_Ok in H; [|reflexivity|reflexivity|].
    2: { intros x I. apply in_map_iff in I. destruct I as [e [<- I]]. cbn [fst snd]. apply nodup_filter, (proj1 (wf_edge_attr _ _ W e I)). }
    destruct H as [W' [HN [HI HT]]]. split; [intro; apply keys_trim|]. split; [intro; apply keys_trim|]. split; [exact HN|]. split; [exact HI|].
    intros s d t. rewrite HT. split.
    - intros [d' [I S]]. apply in_map_iff in I. destruct I as [e [[= <- <- <-] I]]. exists (e_attr e). split.
      + exists e. repeat split; auto.
      + intros k v. rewrite <- S. apply trim_stripped.
    - intros [d0 [[e [I [A [B S]]]] T]]. exists (trim_dict (e_attr e) ns). split.
      + apply in_map_iff. exists e. subst. auto.
      + intro k. destruct (lookup k d) as [v|] eqn:L.
        * apply T in L. destruct L as [L Q]. apply trim_stripped. rewrite S. auto.
        * destruct (lookup k (trim_dict (e_attr e) ns)) as [v|] eqn:L'; [|reflexivity]. apply trim_stripped in L'. rewrite S in L'.
          apply T in L'. congruence.
  Qed.
  (** Words of the stripped machine are the words of the machine without the ports. *)
  Definition io_stripped (ns : list string) (x y : @io V) : Prop := stripped ns (fst x) (fst y) /\ stripped ns (snd x) (snd y).
  Lemma stripped_restricts ns ks ks' (d d' i i' : attrs V) : (forall k, In k ks' <-> In k ks /\ ~ In k ns) ->
    stripped ns d d' -> restricts ks d i -> (restricts ks' d' i' <-> stripped ns i i').
  Proof.
    intros K S R. unfold restricts, stripped in *. split; intros H k v; rewrite H.
    - rewrite S, R, K. tauto.
    - rewrite S, R, K. tauto.
  Qed.
  Theorem strip_ports_words m ns m' : wf (mealy_config veqb m) (m_graph m) -> strip_ports neqb veqb m ns = Ok m' ->
    (forall w, words (mealy_step m) (m_graph m) w -> exists w', Forall2 (io_stripped ns) w w' /\ words (mealy_step m') (m_graph m') w') /\
    (forall w', words (mealy_step m') (m_graph m') w' -> exists w, Forall2 (io_stripped ns) w w' /\ words (mealy_step m) (m_graph m) w).
  Proof.
    intros W H. destruct (strip_ports_spec m ns m' W H) as [KI [KO [_ [HI HT]]]]. split.
    - intros w [s [t [I P]]].
      destruct (steps_sim (mealy_step m) (mealy_step m') eq (io_stripped ns)) with (s := s) (s' := s) (w := w) (t := t) as [w' [t' [F [P' _]]]]; auto.
      2: { exists w'. split; [exact F|]. exists s, t'. split; [apply HI, I|exact P']. }
      intros s1 s1' [i o] t1 <- [e [J [A [B [R1 R2]]]]]. cbn [fst snd] in *.
      destruct (proj2 (HT s1 (trim_dict (e_attr e) ns) t1)) as [e' [J' [A' [B' S']]]].
      { exists (e_attr e). split; [exists e; repeat split; auto|apply trim_stripped]. }
      assert (St : stripped ns (e_attr e) (e_attr e')) by (intros k v; rewrite S'; apply trim_stripped).
      exists (project_dict (e_attr e') (map fst (m_in m')), project_dict (e_attr e') (map fst (m_out m'))), t1.
      split; [split; cbn [fst snd]|split; [|reflexivity]].
      + refine (proj1 (stripped_restricts ns _ _ _ _ _ _ KI St R1) _). apply project_restricts.
      + refine (proj1 (stripped_restricts ns _ _ _ _ _ _ KO St R2) _). apply project_restricts.
      + exists e'. cbn [fst snd]. repeat (split; [assumption|]). split; apply project_restricts.
    - intros w' [s [t [I P]]].
      destruct (steps_sim (mealy_step m') (mealy_step m) eq (fun y x => io_stripped ns x y)) with (s := s) (s' := s) (w := w') (t := t) as [w [t' [F [P' _]]]]; auto.
      2: { exists w. split; [|exists s, t'; split; [apply HI, I|exact P']]. clear - F. induction F; constructor; auto. }
      intros s1 s1' [i o] t1 <- [e' [J [A [B [R1 R2]]]]]. cbn [fst snd] in *.
      destruct (proj1 (HT s1 (e_attr e') t1)) as [d0 [[e [J' [A' [B' S']]]] St]]. { exists e'. repeat split; auto. }
      assert (St' : stripped ns (e_attr e) (e_attr e')) by (intros k v; rewrite S'; apply St).
      exists (project_dict (e_attr e) (map fst (m_in m)), project_dict (e_attr e) (map fst (m_out m))), t1.
      split; [split; cbn [fst snd]|split; [|reflexivity]].
      + refine (proj1 (stripped_restricts ns _ _ _ _ _ _ KI St' _) R1). apply project_restricts.
      + refine (proj1 (stripped_restricts ns _ _ _ _ _ _ KO St' _) R2). apply project_restricts.
      + exists e. cbn [fst snd]. repeat (split; [assumption|]). split; apply project_restricts.
  Qed.
  (** Stripping succeeds unless it leaves an unlabelled transition beside another one. *)
  Theorem strip_ports_total m ns : wf (mealy_config veqb m) (m_graph m) ->
    NoDup (map fst (m_in m)) -> NoDup (map fst (m_out m)) ->
    (forall n, In n (g_init (m_graph m)) -> In n (node_list (m_graph m))) ->
    (forall e k, In e (g_edges (m_graph m)) -> In k (map fst (e_attr e)) -> In k (map fst (m_in m)) \/ In k (map fst (m_out m))) ->
    (forall e e', In e (g_edges (m_graph m)) -> In e' (g_edges (m_graph m)) -> e_src e = e_src e' -> e_dst e = e_dst e' ->
       (forall k, In k (map fst (e_attr e)) -> In k ns) -> e = e') ->
    exists m', strip_ports neqb veqb m ns = Ok m'.
  Proof.
    intros W NDi NDo Ini Ek Un. rewrite strip_ports_eq.
    set (c := mealy_config veqb _).
    assert (Kt : forall ps : list (string * port V), map fst (port_types veqb ps) = map fst ps).
    { intro ps. unfold port_types. rewrite map_map. reflexivity. }
    assert (TT : forall (ps : list (string * port V)) k, lookup k (port_types veqb (trim_dict ps ns)) = if mem k ns then None else lookup k (port_types veqb ps)).
    { intros ps k. unfold port_types, trim_dict. induction ps as [|[a b] r IH]; cbn [filter map lookup fst]; [destruct (mem k ns); reflexivity|].
      destruct (mem a ns) eqn:M; cbn [negb map lookup fst snd]; rewrite IH; destruct (k =? a) eqn:E; try reflexivity;
        apply String.eqb_eq in E; subst; rewrite M; reflexivity. }
    assert (ND' : forall ps : list (string * port V), NoDup (map fst ps) -> NoDup (map fst (port_types veqb (trim_dict ps ns)))).
    { intros ps Q. rewrite Kt. unfold trim_dict. apply nodup_filter, Q. }
    assert (Lt : forall k, lookup k (c_edge_types c) = if mem k ns then None else lookup k (c_edge_types (mealy_config veqb m))).
    { intro k. unfold c, mealy_config. cbn [c_edge_types m_in m_out]. rewrite !lookup_update, !lookup_rev by (try apply ND', NDo; rewrite Kt; exact NDo).
      rewrite !TT. destruct (mem k ns); reflexivity. }
    destruct (copy_build_total c (m_graph m) (strip_list m ns)) as [g Hg]; [reflexivity|reflexivity| |exact Ini| | |rewrite Hg; cbn [bind]; eauto].
    - intros x I. apply in_map_iff in I. destruct I as [e [<- I]]. cbn [fst snd]. apply nodup_filter, (proj1 (wf_edge_attr _ _ W e I)).
    - intros u d v I. apply in_map_iff in I. destruct I as [e [[= <- <- <-] J]].
      split; [exact (proj1 (wf_ends _ _ W e J))|]. split; [exact (proj2 (wf_ends _ _ W e J))|]. split.
      + apply Forall_forall. intros [k x] K. cbn [fst snd]. apply filter_In in K. cbn [fst] in K. destruct K as [K M].
        pose proof (proj2 (wf_edge_attr _ _ W _ J)) as G. unfold good in G. rewrite Forall_forall in G.
        specialize (G _ K). cbn [fst snd] in G. unfold allowed in *. rewrite Lt. destruct (mem k ns); [discriminate|exact G].
      + intros k K. apply keys_trim in K. destruct K as [K Q]. apply lookup_name. rewrite Lt. destruct (mem k ns) eqn:M; [apply mem_In in M; contradiction|].
        unfold mealy_config. cbn [c_edge_types]. rewrite lookup_update, lookup_rev by (rewrite Kt; exact NDo).
        destruct (lookup k (port_types veqb (m_out m))) eqn:L; [eauto|]. apply lookup_name. rewrite Kt.
        destruct (Ek e k J K) as [Z|Z]; [exact Z|]. apply lookup_None in L. rewrite Kt in L. contradiction.
    - intros l1 u v l2 d E I. unfold strip_list in E. apply map_eq_app in E. destruct E as [p [q [Eg [<- E]]]]. apply map_eq_cons in E. destruct E as [x [q' [-> [E1 <-]]]].
      apply in_map_iff in I. destruct I as [y [E2 I]]. injection E1 as A1 A2 A3. injection E2 as B1 B2 B3.
      assert (x = y).
      { apply Un; [rewrite Eg; apply in_or_app; right; left; reflexivity|rewrite Eg; apply in_or_app; right; right; exact I|congruence|congruence|].
        intros k K. destruct (in_dec string_dec k ns) as [Z|Z]; [exact Z|]. exfalso.
        assert (J : In k (map fst (trim_dict (e_attr x) ns))) by (apply keys_trim; auto). rewrite A2 in J. destruct J. }
      subst y. pose proof (NoDup_of_map _ _ (wf_ident _ _ W)) as NE. rewrite Eg in NE. exact (NoDup_app_split _ _ _ NE I).
  Qed.
End Convert.
Print Assumptions moore2mealy_step.
Print Assumptions moore2mealy_words.
Print Assumptions moore2mealy_total.
Print Assumptions strip_ports_spec.
Print Assumptions strip_ports_words.
Print Assumptions strip_ports_total.

(** A Moore machine that outputs the last input. *)
Definition ex_moore : machine nat nat := Machine [] [("a", PSet [0; 1])] [("y", PSet [0; 1])]
  (Graph [(0, [("y", 0)]); (1, [("y", 1)])]
     [Edge 0 0 0 [("a", 0)]; Edge 0 1 0 [("a", 1)]; Edge 1 0 0 [("a", 0)]; Edge 1 1 0 [("a", 1)]] [0]).
Example ex_moore_mealy : exists m', moore2mealy Nat.eqb Nat.eqb ex_moore = Ok m' /\
  map (fun e => (e_src e, e_dst e, e_attr e)) (g_edges (m_graph m')) =
  [(0, 0, [("a", 0); ("y", 0)]); (0, 1, [("a", 1); ("y", 0)]); (1, 0, [("a", 0); ("y", 1)]); (1, 1, [("a", 1); ("y", 1)])].
Proof. eexists. split; reflexivity. Qed.
Example ex_moore_wf : wf (moore_config Nat.eqb ex_moore) (m_graph ex_moore).
Proof.
  split; cbn; try (repeat constructor; cbn; intuition discriminate).
  - intros e [<-|[<-|[<-|[<-|[]]]]]; cbn; auto.
  - intros n a [[= <- <-]|[[= <- <-]|[]]]; split; repeat constructor; cbn; intuition discriminate.
  - intros e [<-|[<-|[<-|[<-|[]]]]]; cbn; split; repeat constructor; cbn; intuition discriminate.
Qed.
(** If a port is both an input and an output, the output overwrites the input on the
    transition and the words change. *)
Theorem moore2mealy_shared_port_refuted : exists (m m' : machine nat nat) x, moore2mealy Nat.eqb Nat.eqb m = Ok m' /\
  words (moore_step m) (m_graph m) x /\ ~ words (mealy_step m') (m_graph m') x.
Proof.
  set (m := Machine [] [("a", PSet [0; 1])] [("a", PSet [0; 1])]
    (Graph [(0, [("a", 0)])] [Edge 0 0 0 [("a", 1)]] [0]) : machine nat nat).
  eexists m, _, [([("a", 1)], [("a", 0)])]. split; [reflexivity|]. split.
  - exists 0, 0. split; [left; reflexivity|]. econstructor; [|constructor].
    exists (Edge 0 0 0 [("a", 1)]), [("a", 0)]. cbn. do 4 (split; [auto|]).
    split; intros k v; cbn; destruct (k =? "a") eqn:E; (split; [intro H; try discriminate; apply String.eqb_eq in E; subst; auto|intros [_ H]; exact H]).
  - intros [s [t [_ P]]]. inversion P as [|? ? t' ? ? [e [I [_ [_ [R _]]]]] _]; subst. destruct I as [<-|[]].
    specialize (R "a" 1). cbn in R. destruct R as [R _]. destruct (R eq_refl) as [_ Q]. discriminate.
Qed.
(** Stripping all ports of parallel transitions raises. *)
Theorem strip_ports_parallel_refuted : exists (m : machine nat nat) ns,
  wf (mealy_config Nat.eqb m) (m_graph m) /\ strip_ports Nat.eqb Nat.eqb m ns = Err "Exception".
Proof.
  exists (Machine [] [("a", PSet [0; 1])] [] (Graph [(0, [])] [Edge 0 0 0 [("a", 0)]; Edge 0 0 1 [("a", 1)]] [0])), ["a"].
  split; [|reflexivity]. split; cbn; try (repeat constructor; cbn; intuition discriminate).
  - intros e [<-|[<-|[]]]; cbn; auto.
  - intros n a [[= <- <-]|[]]; split; constructor.
  - intros e [<-|[<-|[]]]; cbn; split; repeat constructor; cbn; intuition discriminate.
Qed.
(** An example that strips one of two inputs. *)
Example strip_ex : exists m', strip_ports Nat.eqb Nat.eqb
   (Machine [] [("a", PSet [0; 1]); ("b", PSet [0; 1])] [("y", PSet [0; 1])]
      (Graph [(0, [])] [Edge 0 0 0 [("a", 0); ("b", 0); ("y", 0)]; Edge 0 0 1 [("a", 0); ("b", 1); ("y", 0)]; Edge 0 0 2 [("a", 1); ("y", 1)]] [0]))
   ["b"] = Ok m' /\ map (fun e => e_attr e) (g_edges (m_graph m')) = [[("a", 0); ("y", 0)]; [("a", 1); ("y", 1)]].
Proof. eexists. split; reflexivity. Qed.
