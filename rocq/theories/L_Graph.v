(** Lemmas about labelled graphs. *)
From Coq Require Import List String Bool Arith Lia.
From Verif Require Import M_Base M_Dict L_Dict M_Graph.
Import ListNotations.
Open Scope string_scope.
Open Scope list_scope.

Section Graph.
  Context {N V : Type} (neqb : N -> N -> bool) (veqb : V -> V -> bool).
  Hypothesis neqb_eq : forall a b, neqb a b = true <-> a = b.
  Hypothesis veqb_eq : forall a b, veqb a b = true <-> a = b.
  Implicit Types g : graph N V.

  Lemma neqb_refl x : neqb x x = true. Proof. apply neqb_eq. reflexivity. Qed.
  Lemma neqb_neq a b : neqb a b = false <-> a <> b.
  Proof.
    split.
    - intros H E. apply neqb_eq in E. congruence.
    - intro H. destruct (neqb a b) eqn:E; [|reflexivity]. apply neqb_eq in E. contradiction.
  Qed.
  Lemma nmem_In x l : nmem neqb x l = true <-> In x l.
  Proof.
    unfold nmem. rewrite existsb_exists. split.
    - intros [y [I E]]. apply neqb_eq in E. subst. exact I.
    - intro I. exists x. split; [exact I|apply neqb_refl].
  Qed.
  Lemma has_node_In x g : has_node neqb x g = true <-> In x (node_list g).
  Proof. apply nmem_In. Qed.
  Lemma between_spec u v (e : edge N V) : between neqb u v e = true <-> e_src e = u /\ e_dst e = v.
  Proof. unfold between. rewrite andb_true_iff, !neqb_eq. reflexivity. Qed.
  Lemma edges_between_In u v g e : In e (edges_between neqb u v g) <-> In e (g_edges g) /\ e_src e = u /\ e_dst e = v.
  Proof. unfold edges_between. rewrite filter_In, between_spec. reflexivity. Qed.
  Lemma successors_In u v g :
    In v (successors neqb u g) <-> exists e, In e (g_edges g) /\ e_src e = u /\ e_dst e = v.
  Proof.
    unfold successors. rewrite in_map_iff. split.
    - intros [e [E I]]. apply filter_In in I. rewrite neqb_eq in I. exists e. tauto.
    - intros [e [I [A B]]]. exists e. split; [exact B|]. apply filter_In. rewrite neqb_eq. auto.
  Qed.

  (** ** networkx *)
  Lemma nx_add_node_keys n d (l : list (N * attrs V)) :
    map fst (nx_add_node neqb n d l) = if nmem neqb n (map fst l) then map fst l else map fst l ++ [n].
  Proof.
    induction l as [|[m a] r IH]; cbn [nx_add_node map fst nmem existsb]; [reflexivity|].
    destruct (neqb n m) eqn:E; cbn [map fst orb]; [reflexivity|].
    rewrite IH. change (existsb (neqb n) (map fst r)) with (nmem neqb n (map fst r)).
    destruct (nmem neqb n (map fst r)); reflexivity.
  Qed.
  Lemma NoDup_snoc {A} (l : list A) x : NoDup l -> ~ In x l -> NoDup (l ++ [x]).
  Proof.
    induction l as [|a r IH]; cbn [app]; intros H I; [repeat constructor; auto|].
    inversion H; subst. constructor.
    - rewrite in_app_iff. intros [J|[->|[]]]; [auto|apply I; left; reflexivity].
    - apply IH; [assumption|]. intro; apply I; right; assumption.
  Qed.
  Lemma nx_add_node_In n d (l : list (N * attrs V)) x a : In (x, a) (nx_add_node neqb n d l) ->
    In (x, a) l \/ (x = n /\ (a = d \/ exists a0, In (n, a0) l /\ a = update a0 d)).
  Proof.
    induction l as [|[m b] r IH]; cbn [nx_add_node].
    - intros [[= <- <-]|[]]. auto.
    - destruct (neqb n m) eqn:E.
      + apply neqb_eq in E. subst. intros [[= <- <-]|I].
        * right. split; [reflexivity|]. right. exists b. split; [left; reflexivity|reflexivity].
        * left; right; exact I.
      + intros [[= <- <-]|I]; [left; left; reflexivity|].
        destruct (IH I) as [J|[-> [->|[a0 [J ->]]]]]; [left; right; exact J|auto|].
        right. split; [reflexivity|]. right. exists a0. split; [right; exact J|reflexivity].
  Qed.

  Lemma next_key_fresh fuel k ks : List.length (filter (Nat.leb k) ks) <= fuel -> ~ In (next_key fuel k ks) ks.
  Proof.
    revert k. induction fuel as [|f IH]; intros k H; cbn [next_key].
    - intro I. assert (J : In k (filter (Nat.leb k) ks)) by (apply filter_In; split; [exact I|apply Nat.leb_refl]).
      destruct (filter (Nat.leb k) ks); [exact J|cbn in H; lia].
    - destruct (existsb (Nat.eqb k) ks) eqn:E.
      + apply IH. apply existsb_exists in E. destruct E as [y [I E]]. apply Nat.eqb_eq in E. subst y.
        enough (S (List.length (filter (Nat.leb (S k)) ks)) <= List.length (filter (Nat.leb k) ks)) by lia.
        assert (M : forall l, List.length (filter (Nat.leb (S k)) l) <= List.length (filter (Nat.leb k) l)).
        { clear. induction l as [|a r IH]; cbn [filter List.length]; [lia|].
          destruct (Nat.leb_spec (S k) a); destruct (Nat.leb_spec k a); cbn [List.length]; lia. }
        clear H IH. induction ks as [|a r IH]; [destruct I|]. destruct I as [->|I].
        * change (filter (Nat.leb (S k)) (k :: r)) with
            (if Nat.leb (S k) k then k :: filter (Nat.leb (S k)) r else filter (Nat.leb (S k)) r).
          change (filter (Nat.leb k) (k :: r)) with
            (if Nat.leb k k then k :: filter (Nat.leb k) r else filter (Nat.leb k) r).
          rewrite Nat.leb_refl. destruct (Nat.leb_spec (S k) k); [lia|]. cbn [List.length]. specialize (M r). lia.
        * specialize (IH I).
          change (filter (Nat.leb (S k)) (a :: r)) with
            (if Nat.leb (S k) a then a :: filter (Nat.leb (S k)) r else filter (Nat.leb (S k)) r).
          change (filter (Nat.leb k) (a :: r)) with
            (if Nat.leb k a then a :: filter (Nat.leb k) r else filter (Nat.leb k) r).
          destruct (Nat.leb_spec (S k) a); destruct (Nat.leb_spec k a); cbn [List.length]; lia.
      + intro I. enough (existsb (Nat.eqb k) ks = true) by congruence.
        apply existsb_exists. exists k. split; [exact I|apply Nat.eqb_refl].
  Qed.
  Lemma filter_length {A} (p : A -> bool) l : List.length (filter p l) <= List.length l.
  Proof. induction l as [|a r IH]; cbn; [lia|]. destruct (p a); cbn; lia. Qed.
  Lemma new_edge_key_fresh u v g e : In e (g_edges g) -> e_src e = u -> e_dst e = v ->
    e_key e <> new_edge_key neqb u v g.
  Proof.
    intros I A B E. unfold new_edge_key in E.
    apply (next_key_fresh (List.length (map e_key (edges_between neqb u v g)))
             (List.length (map e_key (edges_between neqb u v g))) (map e_key (edges_between neqb u v g))).
    - apply filter_length.
    - rewrite <- E. apply in_map. apply edges_between_In. auto.
  Qed.

  Lemma nx_set_edge_new u v k d (l : list (edge N V)) : (forall e, In e l -> e_src e = u -> e_dst e = v -> e_key e <> k) ->
    nx_set_edge neqb u v k d l = l ++ [Edge u v k d].
  Proof.
    induction l as [|e r IH]; intro H; cbn [nx_set_edge app]; [reflexivity|].
    destruct (between neqb u v e) eqn:B.
    - apply between_spec in B. destruct B as [B C].
      destruct (Nat.eqb_spec (e_key e) k) as [E|E]; cbn [andb].
      + exfalso. apply (H e); auto. left; reflexivity.
      + f_equal. apply IH. intros; apply H; auto. right; assumption.
    - cbn [andb]. f_equal. apply IH. intros; apply H; auto. right; assumption.
  Qed.
  Lemma nx_set_edge_In u v k d (l : list (edge N V)) e : In e (nx_set_edge neqb u v k d l) ->
    In e l \/ e = Edge u v k d \/ exists a, In (Edge u v k a) l /\ e = Edge u v k (update a d).
  Proof.
    induction l as [|x r IH]; cbn [nx_set_edge].
    - intros [<-|[]]. auto.
    - destruct (between neqb u v x && (e_key x =? k)%nat) eqn:B.
      + apply andb_true_iff in B. destruct B as [B K]. apply between_spec in B. apply Nat.eqb_eq in K.
        destruct B as [A B]. destruct x as [s t y a]. cbn [e_src e_dst e_key e_attr] in *. subst.
        intros [<-|I]; [|left; right; exact I]. right. right. exists a. split; [left; reflexivity|reflexivity].
      + intros [<-|I]; [left; left; reflexivity|].
        destruct (IH I) as [J|[J|[a [J K]]]]; [left; right; exact J|auto|].
        right. right. exists a. split; [right; exact J|exact K].
  Qed.
  Definition ident (e : edge N V) := (e_src e, e_dst e, e_key e).
  Lemma nx_set_edge_ident u v k d (l : list (edge N V)) :
    map ident (nx_set_edge neqb u v k d l) = map ident l \/
    (map ident (nx_set_edge neqb u v k d l) = map ident l ++ [(u, v, k)] /\ ~ In (u, v, k) (map ident l)).
  Proof.
    induction l as [|x r IH]; cbn [nx_set_edge].
    - right. split; [reflexivity|auto].
    - destruct (between neqb u v x && (e_key x =? k)%nat) eqn:B.
      + left. destruct x; reflexivity.
      + cbn [map]. destruct IH as [IH|[IH J]]; rewrite IH; [left; reflexivity|].
        right. split; [reflexivity|]. intros [E|I]; [|auto].
        destruct x as [s t y a]. unfold ident in E. cbn [e_src e_dst e_key] in E. injection E as -> -> ->.
        unfold between in B. cbn [e_src e_dst e_key] in B. rewrite !neqb_refl, Nat.eqb_refl in B. discriminate.
  Qed.

  (** ** Typed attributes *)
  Lemma typed_attr_Ok (ty : types V) df d t : typed_attr ty df d = Ok t ->
    t = update (update [] df) d /\ good ty df /\ good ty d.
  Proof.
    unfold typed_attr, bind. destruct (typed_update_res ty df []) as [t0|] eqn:E; [|discriminate].
    apply typed_update_res_Ok in E. destruct E as [-> G]. intro E.
    apply typed_update_res_Ok in E. destruct E as [-> K]. auto.
  Qed.
  Lemma typed_attr_good (ty : types V) df d : good ty df -> good ty d -> typed_attr ty df d = Ok (update (update [] df) d).
  Proof.
    intros G K. unfold typed_attr, typed_update_res, bind.
    destruct (typed_update_spec ty df []) as [[_ ->]|[e1 [k [v [e2 [-> [_ [A _]]]]]]]].
    2: { unfold good in G. rewrite Forall_app in G. destruct G as [_ G]. apply Forall_inv in G. cbn in G. congruence. }
    destruct (typed_update_spec ty d (update [] df)) as [[_ ->]|[e1 [k [v [e2 [-> [_ [A _]]]]]]]]; [reflexivity|].
    unfold good in K. rewrite Forall_app in K. destruct K as [_ K]. apply Forall_inv in K. cbn in K. congruence.
  Qed.
  Lemma typed_attr_keys (ty : types V) df d t : typed_attr ty df d = Ok t -> NoDup (map fst t).
  Proof. intro H. apply typed_attr_Ok in H. destruct H as [-> _]. repeat apply nodup_update. constructor. Qed.
  Lemma typed_attr_goodt (ty : types V) df d t : typed_attr ty df d = Ok t -> good ty t.
  Proof.
    intro H. apply typed_attr_Ok in H. destruct H as [-> [A B]]. repeat apply good_update; auto. constructor.
  Qed.

  (** ** The invariant of the graph *)
  Record wf (c : config V) g : Prop := {
    wf_nodes : NoDup (node_list g);
    wf_ends : forall e, In e (g_edges g) -> In (e_src e) (node_list g) /\ In (e_dst e) (node_list g);
    wf_ident : NoDup (map ident (g_edges g));
    wf_node_attr : forall n a, In (n, a) (g_nodes g) -> NoDup (map fst a) /\ good (c_node_types c) a;
    wf_edge_attr : forall e, In e (g_edges g) -> NoDup (map fst (e_attr e)) /\ good (c_edge_types c) (e_attr e);
    wf_init_nodup : NoDup (g_init g) }.

  Lemma wf_empty c : wf c empty_graph.
  Proof. split; cbn; try (apply NoDup_nil); try (intros ? ? []); intros ? []. Qed.

  Lemma add_node_Ok c n d ch g g' : add_node neqb c n d ch g = Ok g' ->
    exists t, typed_attr (c_node_types c) (c_node_defaults c) d = Ok t /\
      g' = Graph (nx_add_node neqb n t (g_nodes g)) (g_edges g) (g_init g).
  Proof.
    unfold add_node, bind. destruct (typed_attr _ _ d) as [t|] eqn:E; [|discriminate].
    destruct (check_untyped t _ ch); [|discriminate]. intros [= <-]. exists t. auto.
  Qed.
  Lemma add_edge_Ok c u v k d ch g g' : add_edge neqb veqb c u v k d ch g = Ok g' ->
    In u (node_list g) /\ In v (node_list g) /\
    (forall e, In e (edges_between neqb u v g) -> e_attr e <> []) /\
    exists t, typed_attr (c_edge_types c) (c_edge_defaults c) d = Ok t /\
    ((g' = g /\ exists e, In e (edges_between neqb u v g) /\ dict_eqb veqb (e_attr e) d = true) \/
     ((forall e, In e (edges_between neqb u v g) -> dict_eqb veqb (e_attr e) d = false) /\
      check_untyped t (c_edge_types c) ch = Ok tt /\
      g' = Graph (g_nodes g)
             (nx_set_edge neqb u v
                match edges_between neqb u v g with
                | [] => O
                | _ => match k with Some k => k | None => new_edge_key neqb u v g end
                end t (g_edges g)) (g_init g))).
  Proof.
    unfold add_edge, bind. destruct (has_node neqb u g) eqn:U; cbn [negb]; [|discriminate].
    destruct (has_node neqb v g) eqn:W; cbn [negb]; [|discriminate].
    destruct (typed_attr _ _ d) as [t|] eqn:E; [|discriminate].
    destruct (existsb (fun e => dict_eqb veqb (e_attr e) []) _) eqn:X; [discriminate|].
    intro H. split; [apply has_node_In, U|]. split; [apply has_node_In, W|]. split.
    { intros e I Z. enough (existsb (fun e => dict_eqb veqb (e_attr e) []) (edges_between neqb u v g) = true) by congruence.
      apply existsb_exists. exists e. split; [exact I|]. rewrite Z. reflexivity. }
    exists t. split; [reflexivity|].
    destruct (existsb (fun e => dict_eqb veqb (e_attr e) d) _) eqn:Y.
    - left. injection H as <-. split; [reflexivity|]. apply existsb_exists in Y. exact Y.
    - right. split.
      + intros e I. destruct (dict_eqb veqb (e_attr e) d) eqn:Z; [|reflexivity].
        enough (existsb (fun e => dict_eqb veqb (e_attr e) d) (edges_between neqb u v g) = true) by congruence.
        apply existsb_exists. exists e. auto.
      + destruct (check_untyped t _ ch) as [[]|]; [|discriminate]. injection H as <-. auto.
  Qed.

  Lemma wf_add_node c n d ch g g' : wf c g -> add_node neqb c n d ch g = Ok g' -> wf c g'.
  Proof.
    intros W H. apply add_node_Ok in H. destruct H as [t [T ->]]. destruct W as [A B C D E F].
    assert (K : node_list (Graph (nx_add_node neqb n t (g_nodes g)) (g_edges g) (g_init g))
                = if nmem neqb n (node_list g) then node_list g else node_list g ++ [n]) by apply nx_add_node_keys.
    assert (S : forall x, In x (node_list g) -> In x (if nmem neqb n (node_list g) then node_list g else node_list g ++ [n])).
    { intros x I. destruct (nmem neqb n (node_list g)); [exact I|]. apply in_or_app. auto. }
    split; cbn [g_edges g_init].
    - rewrite K. destruct (nmem neqb n (node_list g)) eqn:M; [exact A|]. apply NoDup_snoc; [exact A|].
      intro I. apply nmem_In in I. congruence.
    - intros e I. rewrite K. destruct (B e I). auto.
    - exact C.
    - cbn [g_nodes]. intros x a I. apply nx_add_node_In in I. destruct I as [I|[-> [->|[a0 [I ->]]]]].
      + exact (D x a I).
      + split; [exact (typed_attr_keys _ _ _ _ T)|exact (typed_attr_goodt _ _ _ _ T)].
      + destruct (D n a0 I). split; [apply nodup_update; assumption|].
        apply good_update; [exact (typed_attr_goodt _ _ _ _ T)|assumption].
    - exact E.
    - exact F.
  Qed.
  Lemma wf_add_edge c u v k d ch g g' : wf c g -> add_edge neqb veqb c u v k d ch g = Ok g' -> wf c g'.
  Proof.
    intros W H. apply add_edge_Ok in H. destruct H as [U [X [_ [t [T [[-> _]|[_ [_ ->]]]]]]]]; [exact W|].
    destruct W as [A B C D E F].
    set (kk := match edges_between neqb u v g with [] => 0
               | _ => match k with Some k => k | None => new_edge_key neqb u v g end end).
    split; cbn [g_edges g_nodes g_init]; try assumption.
    - intros e I. apply nx_set_edge_In in I. unfold node_list; cbn [g_nodes].
      destruct I as [I|[->|[a [I ->]]]]; [exact (B e I)|split; assumption|split; assumption].
    - destruct (nx_set_edge_ident u v kk t (g_edges g)) as [->|[-> I]]; [exact C|].
      apply NoDup_snoc; assumption.
    - intros e I. apply nx_set_edge_In in I. destruct I as [I|[->|[a [I ->]]]]; cbn [e_attr].
      + exact (E e I).
      + split; [exact (typed_attr_keys _ _ _ _ T)|exact (typed_attr_goodt _ _ _ _ T)].
      + destruct (E _ I). split; [apply nodup_update; assumption|].
        apply good_update; [exact (typed_attr_goodt _ _ _ _ T)|assumption].
  Qed.
  Lemma wf_filter_edges c p g : wf c g -> wf c (Graph (g_nodes g) (filter p (g_edges g)) (g_init g)).
  Proof.
    intros [A B C D E F]. split; cbn [g_edges g_nodes g_init]; try assumption.
    - intros e I. apply filter_In in I. exact (B e (proj1 I)).
    - apply nodup_filter, C.
    - intros e I. apply filter_In in I. exact (E e (proj1 I)).
  Qed.
  Lemma node_list_filter (p : N -> bool) es (i : list N) g :
    node_list (Graph (filter (fun x => p (fst x)) (g_nodes g)) es i) = filter p (node_list g).
  Proof.
    unfold node_list. cbn [g_nodes]. induction (g_nodes g) as [|x r IH]; cbn [filter map]; [reflexivity|].
    destruct (p (fst x)); cbn [map]; rewrite IH; reflexivity.
  Qed.
  Lemma wf_remove_node c n g g' : wf c g -> remove_node neqb n g = Ok g' -> wf c g'.
  Proof.
    intros [A B C D E F] H. unfold remove_node in H. destruct (has_node neqb n g); [|discriminate].
    injection H as <-.
    assert (K : node_list (Graph (filter (fun x => negb (neqb (fst x) n)) (g_nodes g))
                (filter (fun e => negb (neqb (e_src e) n) && negb (neqb (e_dst e) n)) (g_edges g)) (g_init g))
                = filter (fun x => negb (neqb x n)) (node_list g))
      by (apply (node_list_filter (fun x => negb (neqb x n)))).
    split; cbn [g_edges g_nodes g_init]; try rewrite K; try assumption.
    - apply NoDup_filter, A.
    - intros e I. apply filter_In in I. destruct I as [I P]. apply andb_true_iff in P. destruct P as [P Q].
      rewrite !filter_In. destruct (B e I). auto.
    - apply nodup_filter, C.
    - intros m a I. apply filter_In in I. exact (D m a (proj1 I)).
    - intros e I. apply filter_In in I. exact (E e (proj1 I)).
  Qed.
  Lemma wf_init c i g : NoDup i -> wf c g -> wf c (Graph (g_nodes g) (g_edges g) i).
  Proof. intros H [A B C D E F]. split; assumption. Qed.
  Lemma wf_step c o g : wf c g -> wf c (fst (gstep neqb veqb c o g)).
  Proof.
    intro W. destruct o as [n d ch|u v k d ch|u v d|n|n|n]; cbn [gstep].
    - destruct (add_node neqb c n d ch g) eqn:E; cbn [fst]; [exact (wf_add_node _ _ _ _ _ _ W E)|exact W].
    - destruct (add_edge neqb veqb c u v k d ch g) eqn:E; cbn [fst]; [exact (wf_add_edge _ _ _ _ _ _ _ _ W E)|exact W].
    - cbn [fst]. apply wf_filter_edges, W.
    - destruct (remove_node neqb n g) eqn:E; cbn [fst]; [exact (wf_remove_node _ _ _ _ W E)|exact W].
    - unfold add_initial. destruct (has_node neqb n g); cbn [fst]; [|exact W].
      apply wf_init; [|exact W]. pose proof (wf_init_nodup _ _ W). destruct (nmem neqb n (g_init g)) eqn:E; [assumption|].
      apply NoDup_snoc; [assumption|]. intro I. apply nmem_In in I. congruence.
    - assert (W' : wf c (Graph (g_nodes g) (g_edges g) (filter (fun x => negb (neqb x n)) (g_init g))))
        by (apply wf_init; [apply NoDup_filter, (wf_init_nodup _ _ W)|exact W]).
      unfold states_remove. destruct (remove_node neqb n _) eqn:E; cbn [fst]; [|exact W'].
      exact (wf_remove_node _ _ _ _ W' E).
  Qed.
  Lemma wf_run c l g : wf c g -> wf c (grun neqb veqb c l g).
  Proof.
    unfold grun. revert g. induction l as [|o r IH]; intros g W; cbn [fold_left]; [exact W|]. apply IH, wf_step, W.
  Qed.
End Graph.
