(** C29: the labelled multigraph. *)
From Coq Require Import List String Bool Arith Lia.
From Verif Require Import M_Base M_Dict L_Dict M_Graph L_Graph.
Import ListNotations.
Open Scope string_scope.
Open Scope list_scope.

Section C29.
  Context {N V : Type} (neqb : N -> N -> bool) (veqb : V -> V -> bool).
  Hypothesis neqb_eq : forall a b, neqb a b = true <-> a = b.
  Hypothesis veqb_eq : forall a b, veqb a b = true <-> a = b.
  Implicit Types g : graph N V.

  (** What the labels of a graph must satisfy, independent of how it was built. *)
  Definition well_typed (ty : types V) (d : attrs V) : Prop :=
    forall k v dom, lookup k d = Some v -> lookup k ty = Some (Some dom) -> dom v = true.
  Definition same_label (d e : attrs V) : Prop := forall k, lookup k d = lookup k e.

  Lemma good_well_typed ty d : good ty d -> well_typed ty d.
  Proof.
    intros G k v dom L T. apply lookup_In in L. unfold good in G. rewrite Forall_forall in G.
    specialize (G _ L). cbn [fst snd] in G. unfold allowed in G. rewrite T in G. exact G.
  Qed.

  (** After any sequence of calls: nodes are distinct, every edge joins nodes, labels of
      nodes and edges are dictionaries whose typed keys have allowed values, and an edge is
      identified by its ends and key. *)
  Theorem graph_wellformed c ops :
    let g := grun neqb veqb c ops empty_graph in
    NoDup (node_list g) /\
    (forall e, In e (g_edges g) -> In (e_src e) (node_list g) /\ In (e_dst e) (node_list g)) /\
    (forall n a, In (n, a) (g_nodes g) -> NoDup (map fst a) /\ well_typed (c_node_types c) a) /\
    (forall e, In e (g_edges g) -> NoDup (map fst (e_attr e)) /\ well_typed (c_edge_types c) (e_attr e)) /\
    (forall i j e e', nth_error (g_edges g) i = Some e -> nth_error (g_edges g) j = Some e' ->
       e_src e = e_src e' -> e_dst e = e_dst e' -> e_key e = e_key e' -> i = j).
  Proof.
    intro g. assert (W : wf c g) by (apply wf_run; auto; apply wf_empty). destruct W as [A B C D E F].
    split; [exact A|]. split; [exact B|]. split.
    { intros n a I. destruct (D n a I) as [X Y]. split; [exact X|apply good_well_typed, Y]. }
    split. { intros e I. destruct (E e I) as [X Y]. split; [exact X|apply good_well_typed, Y]. }
    intros i j e e' I J S T K. rewrite NoDup_nth_error in C. apply C.
    - rewrite map_length. apply nth_error_Some. congruence.
    - rewrite (map_nth_error _ _ _ I), (map_nth_error _ _ _ J). unfold ident. congruence.
  Qed.

  (** A call that raises leaves nodes and edges as they were. *)
  Theorem graph_raise_unchanged c o g x : snd (gstep neqb veqb c o g) = Some x ->
    g_nodes (fst (gstep neqb veqb c o g)) = g_nodes g /\ g_edges (fst (gstep neqb veqb c o g)) = g_edges g.
  Proof.
    destruct o as [n d ch|u v k d ch|u v d|n|n|n]; cbn [gstep].
    - destruct (add_node neqb c n d ch g); cbn; [discriminate|auto].
    - destruct (add_edge neqb veqb c u v k d ch g); cbn; [discriminate|auto].
    - discriminate.
    - destruct (remove_node neqb n g); cbn; [discriminate|auto].
    - destruct (add_initial neqb n g); cbn; [discriminate|auto].
    - destruct (states_remove neqb n g); cbn; [discriminate|auto].
  Qed.

  (** [add_edge] raises exactly when an end is missing, a value is not allowed, an unlabelled
      edge is in the way, or the edge is new and has an untyped key although [check] is set. *)
  Theorem add_edge_raises c u v k d ch g : wf c g -> NoDup (map fst d) -> good (c_edge_types c) (c_edge_defaults c) ->
    ((exists x, add_edge neqb veqb c u v k d ch g = Err x) <->
     (~ In u (node_list g) \/ ~ In v (node_list g) \/
      (exists k v, In (k, v) d /\ allowed (c_edge_types c) k v = false) \/
      (exists e, In e (g_edges g) /\ e_src e = u /\ e_dst e = v /\ e_attr e = []) \/
      ((forall e, In e (g_edges g) -> e_src e = u -> e_dst e = v -> ~ same_label (e_attr e) d) /\ ch = true /\
       exists k, (lookup k d <> None \/ lookup k (c_edge_defaults c) <> None) /\ lookup k (c_edge_types c) = None))).
  Proof.
    intros W ND GD. unfold add_edge.
    destruct (has_node neqb u g) eqn:U; cbn [negb].
    2: { split; [|eauto]. intros _. left. intro I. apply (has_node_In neqb neqb_eq) in I. congruence. }
    destruct (has_node neqb v g) eqn:X; cbn [negb].
    2: { split; [|eauto]. intros _. right. left. intro I. apply (has_node_In neqb neqb_eq) in I. congruence. }
    apply (has_node_In neqb neqb_eq) in U, X.
    destruct (forallb (fun kv => allowed (c_edge_types c) (fst kv) (snd kv)) d) eqn:G.
    - assert (G' : good (c_edge_types c) d) by (apply Forall_forall; rewrite forallb_forall in G; exact G).
      rewrite (typed_attr_good _ _ _ GD G'). cbn [bind].
      set (t := update (update [] (c_edge_defaults c)) d).
      destruct (existsb (fun e => dict_eqb veqb (e_attr e) []) _) eqn:Y.
      + split; [|eauto]. intros _. right. right. right. left. apply existsb_exists in Y. destruct Y as [e [I Y]].
        apply edges_between_In in I; [|exact neqb_eq]. apply dict_eqb_nil in Y. exists e. tauto.
      + assert (Y' : ~ exists e, In e (g_edges g) /\ e_src e = u /\ e_dst e = v /\ e_attr e = []).
        { intros [e [I [A [B D]]]]. enough (Q : existsb (fun e => dict_eqb veqb (e_attr e) []) (edges_between neqb u v g) = true) by congruence.
          apply existsb_exists. exists e. split; [apply edges_between_In; auto|]. rewrite D. reflexivity. }
        assert (NoBad : ~ exists k v, In (k, v) d /\ allowed (c_edge_types c) k v = false).
        { intros [k0 [v0 [I A]]]. unfold good in G'. rewrite Forall_forall in G'. specialize (G' _ I). cbn in G'. congruence. }
        destruct (existsb (fun e => dict_eqb veqb (e_attr e) d) _) eqn:Z.
        * split; [intros [x H]; discriminate|]. intros [H|[H|[H|[H|[H _]]]]]; try contradiction.
          exfalso. apply existsb_exists in Z. destruct Z as [e [I Z]]. apply edges_between_In in I; [|exact neqb_eq].
          destruct I as [I [A B]]. apply (H e I A B).
          refine (proj1 (dict_eqb_spec veqb veqb_eq _ _ _ ND) Z). apply (wf_edge_attr _ _ W e I).
        * assert (Z' : forall e, In e (g_edges g) -> e_src e = u -> e_dst e = v -> ~ same_label (e_attr e) d).
          { intros e I A B S. enough (Q : existsb (fun e => dict_eqb veqb (e_attr e) d) (edges_between neqb u v g) = true) by congruence.
            apply existsb_exists. exists e. split; [apply edges_between_In; auto|].
            apply (dict_eqb_spec veqb veqb_eq); auto. apply (wf_edge_attr _ _ W e I). }
          assert (KS : forall k, lookup k t <> None <-> (lookup k d <> None \/ lookup k (c_edge_defaults c) <> None)).
          { intro k0. unfold t. rewrite !lookup_update. cbn [lookup]. 
            assert (R : lookup k0 (rev (c_edge_defaults c)) = None <-> lookup k0 (c_edge_defaults c) = None).
            { rewrite !lookup_None, map_rev, <- in_rev. reflexivity. }
            assert (R' : lookup k0 (rev d) = None <-> lookup k0 d = None).
            { rewrite !lookup_None, map_rev, <- in_rev. reflexivity. }
            destruct (lookup k0 (rev d)), (lookup k0 d), (lookup k0 (rev (c_edge_defaults c))), (lookup k0 (c_edge_defaults c));
              intuition (try congruence). }
          assert (NT : NoDup (map fst t)) by (unfold t; repeat apply nodup_update; constructor).
          unfold check_untyped. destruct ch; cbn [andb].
          -- destruct (existsb _ t) eqn:Q.
             ++ split; [|cbn; eauto]. intros _. right. right. right. right. split; [exact Z'|]. split; [reflexivity|].
                apply existsb_exists in Q. destruct Q as [[k0 v0] [I Q]]. cbn [fst] in Q. exists k0. split.
                ** apply KS. rewrite (In_lookup _ _ _ NT I). discriminate.
                ** destruct (lookup k0 (c_edge_types c)); [discriminate|reflexivity].
             ++ split; [intros [x H]; discriminate|]. intros [H|[H|[H|[H|[_ [_ [k0 [H L]]]]]]]]; try contradiction.
                exfalso. apply KS in H. destruct (lookup k0 t) as [v0|] eqn:L0; [|congruence].
                apply lookup_In in L0.
                enough (existsb (fun kv => match lookup (fst kv) (c_edge_types c) with None => true | _ => false end) t = true) by congruence.
                apply existsb_exists. exists (k0, v0). split; [exact L0|]. cbn [fst]. rewrite L. reflexivity.
          -- split; [intros [x H]; discriminate|]. intros [H|[H|[H|[H|[_ [H _]]]]]]; try contradiction. discriminate.
    - assert (B : exists k v, In (k, v) d /\ allowed (c_edge_types c) k v = false).
      { clear - G. induction d as [|[k v] r IH]; [discriminate|]. cbn [forallb fst snd] in G.
        destruct (allowed (c_edge_types c) k v) eqn:A.
        - destruct (IH G) as [k' [v' [I B]]]. exists k', v'. split; [right; exact I|exact B].
        - exists k, v. split; [left; reflexivity|exact A]. }
      split; [intros _; auto|]. intros _. destruct (typed_attr _ _ d) as [t|x] eqn:T; [|cbn; eauto].
      exfalso. apply typed_attr_Ok in T. destruct T as [_ [_ T]]. destruct B as [k0 [v0 [I A]]].
      unfold good in T. rewrite Forall_forall in T. specialize (T _ I). cbn in T. congruence.
  Qed.

  (** A call of [add_edge] without a key that returns either finds an edge with the given
      label and changes nothing, or adds one edge, whose label is the given one completed by
      the defaults. *)
  Theorem add_edge_effect c u v d ch g g' : wf c g -> NoDup (map fst d) -> NoDup (map fst (c_edge_defaults c)) ->
    add_edge neqb veqb c u v None d ch g = Ok g' ->
    (g' = g /\ exists e, In e (g_edges g) /\ e_src e = u /\ e_dst e = v /\ same_label (e_attr e) d) \/
    (exists e, g' = Graph (g_nodes g) (g_edges g ++ [e]) (g_init g) /\ e_src e = u /\ e_dst e = v /\
       forall k, lookup k (e_attr e) = match lookup k d with Some x => Some x | None => lookup k (c_edge_defaults c) end).
  Proof.
    intros W ND NF H. apply add_edge_Ok in H; auto. destruct H as [U [X [_ [t [T [[-> [e [I E]]]|[_ [_ ->]]]]]]]].
    - left. split; [reflexivity|]. apply edges_between_In in I; auto. exists e. destruct I as [I [A B]].
      repeat (split; [assumption|]).
      refine (proj1 (dict_eqb_spec veqb veqb_eq _ _ _ ND) E). apply (wf_edge_attr _ _ W e I).
    - right. set (k := match edges_between neqb u v g with [] => 0 | _ => new_edge_key neqb u v g end).
      exists (Edge u v k t). split.
      + f_equal. apply nx_set_edge_new; auto. intros e I A B E. subst k.
        destruct (edges_between neqb u v g) eqn:Q.
        * assert (J : In e (edges_between neqb u v g)) by (apply edges_between_In; auto). rewrite Q in J. exact J.
        * revert E. apply new_edge_key_fresh; auto.
      + split; [reflexivity|]. split; [reflexivity|]. intro x. cbn [e_attr].
        apply typed_attr_Ok in T. destruct T as [-> _]. rewrite !lookup_update, !lookup_rev by assumption.
        cbn [lookup]. destruct (lookup x d); [reflexivity|]. destruct (lookup x (c_edge_defaults c)); reflexivity.
  Qed.

  (** [remove_labeled_edge] removes the edges with exactly this label, nothing else. *)
  Theorem remove_labeled_edge_effect c u v d g : wf c g -> NoDup (map fst d) ->
    g_nodes (remove_labeled_edge neqb veqb u v d g) = g_nodes g /\
    forall e, In e (g_edges (remove_labeled_edge neqb veqb u v d g)) <->
      In e (g_edges g) /\ ~ (e_src e = u /\ e_dst e = v /\ same_label (e_attr e) d).
  Proof.
    intros W ND. split; [reflexivity|]. intro e. cbn [remove_labeled_edge g_edges]. rewrite filter_In, negb_true_iff.
    split; intros [I H]; (split; [exact I|]).
    - intros [A [B S]]. assert (K : between neqb u v e && dict_eqb veqb (e_attr e) d = true); [|congruence].
      apply andb_true_iff. split; [apply between_spec; auto|]. apply (dict_eqb_spec veqb veqb_eq); auto.
      apply (wf_edge_attr _ _ W e I).
    - destruct (between neqb u v e && dict_eqb veqb (e_attr e) d) eqn:K; [|reflexivity]. exfalso. apply H.
      apply andb_true_iff in K. destruct K as [K L]. apply between_spec in K; auto. destruct K. split; [assumption|].
      split; [assumption|].
      refine (proj1 (dict_eqb_spec veqb veqb_eq _ _ _ ND) L). apply (wf_edge_attr _ _ W e I).
  Qed.

  (** [add_node] keeps all other nodes, all edges, and sets the labels of its node: given ones,
      else defaults, else what the node had. *)
  Theorem add_node_effect c n d ch g g' : wf c g -> NoDup (map fst d) -> NoDup (map fst (c_node_defaults c)) ->
    add_node neqb c n d ch g = Ok g' ->
    g_edges g' = g_edges g /\ g_init g' = g_init g /\
    (forall m, In m (node_list g') <-> m = n \/ In m (node_list g)) /\
    (forall m a, m <> n -> (In (m, a) (g_nodes g') <-> In (m, a) (g_nodes g))) /\
    (exists a, In (n, a) (g_nodes g') /\
       forall k, lookup k a = match lookup k d with Some x => Some x | None =>
                              match lookup k (c_node_defaults c) with Some x => Some x | None =>
                              match find (fun x => neqb (fst x) n) (g_nodes g) with
                              | Some x => lookup k (snd x) | None => None end end end).
  Proof.
    intros W ND NF H. apply add_node_Ok in H. destruct H as [t [T ->]]. cbn [g_edges g_init g_nodes].
    split; [reflexivity|]. split; [reflexivity|]. split.
    { intro m. unfold node_list at 1; cbn [g_nodes]. rewrite nx_add_node_keys. unfold node_list.
      destruct (nmem neqb n (map fst (g_nodes g))) eqn:M.
      - apply nmem_In in M; auto. split; [auto|]. intros [->|]; auto.
      - rewrite in_app_iff. cbn. split; [intros [|[|[]]]; auto|intros [|]; auto]. }
    split.
    { intros m a Q. induction (g_nodes g) as [|[x b] r IH]; cbn [nx_add_node].
      - split; [intros [E|[]]|intros []]. congruence.
      - destruct (neqb n x) eqn:E.
        + apply neqb_eq in E. subst x. cbn [In]. split; (intros [F|F]; [exfalso; congruence|right; exact F]).
        + cbn [In]. rewrite IH. reflexivity. }
    apply typed_attr_Ok in T. destruct T as [-> _].
    assert (L : forall a k, lookup k (update a (update (update [] (c_node_defaults c)) d)) =
         match lookup k d with Some x => Some x | None => match lookup k (c_node_defaults c) with Some x => Some x | None => lookup k a end end).
    { intros a k. rewrite lookup_update, lookup_rev by (repeat apply nodup_update; constructor).
      rewrite !lookup_update, !lookup_rev by assumption. cbn [lookup].
      destruct (lookup k d); [reflexivity|]. destruct (lookup k (c_node_defaults c)); reflexivity. }
    induction (g_nodes g) as [|[x b] r IH]; cbn [nx_add_node find fst].
    - exists (update (update [] (c_node_defaults c)) d). split; [left; reflexivity|]. intro k.
      rewrite !lookup_update, !lookup_rev by assumption. cbn [lookup].
      destruct (lookup k d); [reflexivity|]. destruct (lookup k (c_node_defaults c)); reflexivity.
    - destruct (neqb n x) eqn:E.
      + apply neqb_eq in E. subst x. rewrite (neqb_refl neqb neqb_eq). eexists. split; [left; reflexivity|].
        intro k. rewrite L. reflexivity.
      + assert (E' : neqb x n = false) by (apply (neqb_neq neqb neqb_eq); apply (neqb_neq neqb neqb_eq) in E; congruence).
        rewrite E'. destruct IH as [a [I K]]. exists a. split; [right; exact I|exact K].
  Qed.

  (** Calls that give no key and name every label that has a default. *)
  Definition explicit (c : config V) (o : gop N V) : Prop :=
    match o with
    | GAddEdge _ _ k d _ => k = None /\ NoDup (map fst d) /\
                            forall x, lookup x (c_edge_defaults c) <> None -> lookup x d <> None
    | _ => True
    end.

  (** If labels with a default are always given, no two edges between the same nodes carry the
      same label. *)
  Theorem graph_no_duplicate_edges c ops : NoDup (map fst (c_edge_defaults c)) -> Forall (explicit c) ops ->
    let g := grun neqb veqb c ops empty_graph in
    forall i j e e', nth_error (g_edges g) i = Some e -> nth_error (g_edges g) j = Some e' ->
      e_src e = e_src e' -> e_dst e = e_dst e' -> same_label (e_attr e) (e_attr e') -> i = j.
  Proof.
    intros NF H. cbn zeta.
    set (uniq := fun l : list (edge N V) => ForallOrdPairs (fun e e' => ~ (e_src e = e_src e' /\ e_dst e = e_dst e' /\
                        same_label (e_attr e) (e_attr e'))) l).
    assert (FP : forall p l, uniq l -> uniq (filter p l)).
    { intros p l U. induction U as [|x l F U IH]; cbn [filter]; [constructor|].
      destruct (p x); [|exact IH]. constructor; [|exact IH]. rewrite Forall_forall in *. intros y I.
      apply filter_In in I. apply F, I. }
    assert (ST : forall g, wf c g -> uniq (g_edges g) -> forall o, explicit c o -> uniq (g_edges (fst (gstep neqb veqb c o g)))).
    { intros g W U o X. destruct o as [n d ch|u v k d ch|u v d|n|n|n]; cbn [gstep].
      - destruct (add_node neqb c n d ch g) eqn:E; cbn [fst]; [|exact U].
        apply add_node_Ok in E. destruct E as [t [_ ->]]. exact U.
      - destruct X as [-> [ND CV]].
        destruct (add_edge neqb veqb c u v None d ch g) as [g'|] eqn:E; cbn [fst]; [|exact U].
        pose proof (add_edge_Ok neqb veqb neqb_eq _ _ _ _ _ _ _ _ E) as E'.
        pose proof (add_edge_effect _ _ _ _ _ _ _ W ND NF E) as [[-> _]|[e [-> [A [B L]]]]]; [exact U|].
        cbn [g_edges]. destruct E' as [_ [_ [_ [t [T [[E' _]|[E' _]]]]]]].
        { exfalso. apply (f_equal (fun g => List.length (g_edges g))) in E'. cbn [g_edges] in E'.
          rewrite app_length in E'. cbn in E'. lia. }
        assert (Q : Forall (fun x => ~ (e_src x = e_src e /\ e_dst x = e_dst e /\ same_label (e_attr x) (e_attr e))) (g_edges g)).
        { apply Forall_forall. intros x I [P [R S]].
          assert (J : In x (edges_between neqb u v g)) by (apply edges_between_In; auto; split; [exact I|]; split; congruence).
          specialize (E' x J). assert (dict_eqb veqb (e_attr x) d = true); [|congruence].
          apply (dict_eqb_spec veqb veqb_eq); auto. { apply (wf_edge_attr _ _ W x I). }
          intro k. rewrite S, L. destruct (lookup k d) eqn:K; [reflexivity|].
          destruct (lookup k (c_edge_defaults c)) eqn:F; [|reflexivity]. exfalso. apply (CV k); congruence. }
        clear - U Q. induction U as [|x l F U IH]; cbn [app]; [repeat constructor|].
        constructor; [|apply IH, (Forall_inv_tail Q)]. apply Forall_app. split; [exact F|].
        constructor; [exact (Forall_inv Q)|constructor].
      - cbn [fst remove_labeled_edge g_edges]. apply FP, U.
      - unfold remove_node. destruct (has_node neqb n g); cbn [fst g_edges]; [apply FP, U|exact U].
      - unfold add_initial. destruct (has_node neqb n g); cbn [fst g_edges]; exact U.
      - unfold states_remove, remove_node. destruct (has_node neqb n _); cbn [fst g_edges]; [apply FP, U|exact U]. }
    assert (U : uniq (g_edges (grun neqb veqb c ops empty_graph))).
    { assert (W : wf c (@empty_graph N V)) by apply wf_empty. assert (U : uniq (g_edges (@empty_graph N V))) by constructor.
      revert W U. generalize (@empty_graph N V). unfold grun.
      induction ops as [|o r IH]; intros g W U; cbn [fold_left]; [exact U|].
      apply IH; [exact (Forall_inv_tail H)|apply wf_step; auto|].
      apply ST; [exact W|exact U|exact (Forall_inv H)]. }
    intros i j e e' I J A B S. revert I J U. generalize (g_edges (grun neqb veqb c ops empty_graph)).
    intro l. revert i j. induction l as [|x r IH]; intros i j I J U; [destruct i; discriminate|].
    inversion U; subst. rewrite Forall_forall in H2. destruct i as [|i], j as [|j]; cbn [nth_error] in I, J.
    - reflexivity.
    - exfalso. injection I as <-. apply (H2 e'); [eapply nth_error_In, J|auto].
    - exfalso. injection J as <-. apply (H2 e); [eapply nth_error_In, I|].
      split; [congruence|]. split; [congruence|]. intro k. symmetry. apply S.
    - f_equal. apply IH; auto.
  Qed.

  (** If nodes are removed through [states] only, initial states are nodes. *)
  Theorem graph_initial_states c ops :
    Forall (fun o => match o with GRemoveNode _ => False | _ => True end) ops ->
    incl (g_init (grun neqb veqb c ops empty_graph)) (node_list (grun neqb veqb c ops empty_graph)).
  Proof.
    intro H. assert (A : forall g, incl (g_init g) (node_list g) -> incl (g_init (grun neqb veqb c ops g)) (node_list (grun neqb veqb c ops g))).
    { unfold grun. induction ops as [|o r IH]; intros g I; cbn [fold_left]; [exact I|].
      apply IH; [exact (Forall_inv_tail H)|]. apply Forall_inv in H.
      destruct o as [n d ch|u v k d ch|u v d|n|n|n]; cbn [gstep].
      - destruct (add_node neqb c n d ch g) eqn:E; cbn [fst]; [|exact I]. apply add_node_Ok in E.
        destruct E as [t [_ ->]]. cbn [g_init]. intros x J. unfold node_list; cbn [g_nodes]. rewrite nx_add_node_keys.
        specialize (I x J). unfold node_list in I. destruct (nmem neqb n (map fst (g_nodes g))); [exact I|].
        apply in_or_app; auto.
      - destruct (add_edge neqb veqb c u v k d ch g) eqn:E; cbn [fst]; [|exact I]. apply add_edge_Ok in E; auto.
        destruct E as [_ [_ [_ [t [_ [[-> _]|[_ [_ ->]]]]]]]]; exact I.
      - exact I.
      - contradiction.
      - unfold add_initial. destruct (has_node neqb n g) eqn:M; cbn [fst]; [|exact I]. apply has_node_In in M; auto.
        intros x J. change (In x (node_list g)). cbn [g_init] in J. destruct (nmem neqb n (g_init g)); [apply I, J|].
        apply in_app_iff in J. destruct J as [J|[<-|[]]]; [apply I, J|exact M].
      - unfold states_remove, remove_node. cbn [g_nodes g_edges g_init].
        destruct (has_node neqb n _); cbn [fst].
        + rewrite (node_list_filter (fun x => negb (neqb x n)) _ _ (Graph (g_nodes g) (g_edges g) (g_init g))). cbn [g_init].
          intros x J. apply filter_In in J. apply filter_In. destruct J as [J K]. split; [apply I, J|exact K].
        + intros x J. cbn [g_init] in J. apply filter_In in J. apply I, J. }
    apply A. intros x [].
  Qed.
End C29.

(** Instances: nodes and values are numbers; an edge label "day" with default 1. *)
Definition cfg1 : config nat := Config [] [] [("day", Some (fun v => Nat.ltb v 7))] [].
Definition cfg2 : config nat := Config [] [] [("day", Some (fun v => Nat.ltb v 7))] [("day", 1)].
Definition ops1 : list (gop nat nat) :=
  [GAddNode 0 [] true; GAddNode 1 [] true; GAddEdge 0 1 None [("day", 2)] true; GAddEdge 0 1 None [("day", 2)] true;
   GAddEdge 0 1 None [("day", 8)] true; GAddEdge 0 2 None [] true; GAddEdge 0 1 None [("day", 3)] true;
   GAddEdge 1 1 None [("hour", 3)] true; GAddInitial 1; GRemoveEdge 0 1 [("day", 2)]; GAddEdge 1 0 None [("day", 4)] true].
Example graph_ex :
  grun Nat.eqb Nat.eqb cfg1 ops1 empty_graph =
    Graph [(0, []); (1, [])] [Edge 0 1 1 [("day", 3)]; Edge 1 0 0 [("day", 4)]] [1] /\
  Forall (explicit cfg1) ops1.
Proof.
  split; [vm_compute; reflexivity|]. unfold ops1. repeat constructor; cbn; try intros [[=]|[]]; try (intros []); auto.
Qed.
Example graph_raise_unchanged_ex :
  snd (gstep Nat.eqb Nat.eqb cfg1 (GAddEdge 0 5 None [] true) (Graph [(0, [])] [] [])) = Some "ValueError".
Proof. reflexivity. Qed.

(** Finding: with a default label, a repeated call without that label adds a second edge with
    the same label, because the given attributes are compared before the defaults are merged. *)
Theorem graph_no_duplicate_edges_refuted :
  exists (c : config nat) ops, Forall (fun o => match o with GAddEdge _ _ k _ _ => k = None | _ => True end) ops /\
    let g := grun Nat.eqb Nat.eqb c ops empty_graph in
    exists e e', nth_error (g_edges g) 0 = Some e /\ nth_error (g_edges g) 1 = Some e' /\
      e_src e = e_src e' /\ e_dst e = e_dst e' /\ same_label (e_attr e) (e_attr e').
Proof.
  exists cfg2, [GAddNode 0 [] true; GAddEdge 0 0 None [] true; GAddEdge 0 0 None [] true].
  split; [repeat constructor|]. exists (Edge 0 0 0 [("day", 1)]), (Edge 0 0 1 [("day", 1)]). vm_compute. auto.
Qed.

(** Finding: a call with the key of an existing edge relabels that edge, possibly to the
    label of another. *)
Theorem graph_key_duplicate_refuted :
  exists (c : config nat) ops, c_edge_defaults c = [] /\
    let g := grun Nat.eqb Nat.eqb c ops empty_graph in
    exists e e', nth_error (g_edges g) 0 = Some e /\ nth_error (g_edges g) 1 = Some e' /\
      e_src e = e_src e' /\ e_dst e = e_dst e' /\ same_label (e_attr e) (e_attr e').
Proof.
  exists (Config [] [] [("a", None); ("b", None)] []),
    [GAddNode 0 [] true; GAddEdge 0 0 None [("a", 1)] true; GAddEdge 0 0 None [("a", 1); ("b", 2)] true;
     GAddEdge 0 0 (Some 0) [("b", 2)] true].
  split; [reflexivity|]. exists (Edge 0 0 0 [("a", 1); ("b", 2)]), (Edge 0 0 1 [("a", 1); ("b", 2)]). vm_compute. auto.
Qed.

(** Finding: an unlabelled edge can be added beside a labelled one, although the class says
    that labelled and unlabelled edges are not mixed. *)
Theorem graph_mixed_edges_refuted :
  exists (c : config nat) ops, c_edge_defaults c = [] /\
    g_edges (grun Nat.eqb Nat.eqb c ops empty_graph) = [Edge 0 0 0 [("day", 2)]; Edge 0 0 1 []].
Proof.
  exists cfg1, [GAddNode 0 [] true; GAddEdge 0 0 None [("day", 2)] true; GAddEdge 0 0 None [] true].
  split; reflexivity.
Qed.

(** Finding: [remove_node] leaves the node among the initial states. *)
Theorem graph_initial_states_refuted :
  exists (c : config nat) ops, let g := grun Nat.eqb Nat.eqb c ops empty_graph in
    In 0 (g_init g) /\ ~ In 0 (node_list g).
Proof.
  exists cfg1, [GAddNode 0 [] true; GAddInitial 0; GRemoveNode 0]. cbn. auto.
Qed.

Print Assumptions graph_wellformed.
Print Assumptions graph_raise_unchanged.
Print Assumptions add_edge_raises.
Print Assumptions add_edge_effect.
Print Assumptions remove_labeled_edge_effect.
Print Assumptions add_node_effect.
Print Assumptions graph_no_duplicate_edges.
Print Assumptions graph_initial_states.
Print Assumptions graph_no_duplicate_edges_refuted.
Print Assumptions graph_key_duplicate_refuted.
Print Assumptions graph_mixed_edges_refuted.
Print Assumptions graph_initial_states_refuted.
