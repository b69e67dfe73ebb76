(** Lemmas about building graphs edge by edge. *)
From Coq Require Import List String Bool Arith Lia.
From Verif Require Import M_Base M_Dict L_Dict M_Graph L_Graph M_Machine S_Run.
Import ListNotations.
Open Scope string_scope.
Open Scope list_scope.

Section FoldRes.
  Context {A B : Type}.
  Lemma fold_res_app (f : A -> B -> res B) l l' b b' :
    fold_res f (l ++ l') b = Ok b' <-> exists b1, fold_res f l b = Ok b1 /\ fold_res f l' b1 = Ok b'.
  Proof.
    revert b. induction l as [|x r IH]; intro b; cbn [app fold_res].
    - split; [intro H; exists b; auto|intros [b1 [[= ->] H]]; exact H].
    - unfold bind. destruct (f x b) as [b2|]; [apply IH|]. split; [discriminate|intros [? [? _]]; discriminate].
  Qed.
  (** An invariant of the loop, over the part already done. *)
  Lemma fold_res_inv (f : A -> B -> res B) (P : list A -> B -> Prop) l b b' :
    P [] b ->
    (forall l1 x l2 b1 b2, l = l1 ++ x :: l2 -> P l1 b1 -> f x b1 = Ok b2 -> P (l1 ++ [x]) b2) ->
    fold_res f l b = Ok b' -> P l b'.
  Proof.
    intros H0 HS. enough (G : forall l2 l1 b1, l = l1 ++ l2 -> P l1 b1 -> fold_res f l2 b1 = Ok b' -> P l b').
    { intro H. exact (G l [] b eq_refl H0 H). }
    induction l2 as [|x r IH]; intros l1 b1 E Pb H; cbn [fold_res] in H.
    - injection H as <-. rewrite app_nil_r in E. subst. exact Pb.
    - unfold bind in H. destruct (f x b1) as [b2|] eqn:F; [|discriminate].
      apply (IH (l1 ++ [x]) b2); [rewrite <- app_assoc; exact E| |exact H].
      exact (HS l1 x r b1 b2 E Pb F).
  Qed.
  Lemma fold_res_total (f : A -> B -> res B) (P : list A -> B -> Prop) l b :
    P [] b ->
    (forall l1 x l2 b1, l = l1 ++ x :: l2 -> P l1 b1 -> exists b2, f x b1 = Ok b2 /\ P (l1 ++ [x]) b2) ->
    exists b', fold_res f l b = Ok b' /\ P l b'.
  Proof.
    intros H0 HS. enough (G : forall l2 l1 b1, l = l1 ++ l2 -> P l1 b1 -> exists b', fold_res f l2 b1 = Ok b' /\ P l b').
    { exact (G l [] b eq_refl H0). }
    induction l2 as [|x r IH]; intros l1 b1 E Pb; cbn [fold_res].
    - rewrite app_nil_r in E. subst. eauto.
    - destruct (HS l1 x r b1 E Pb) as [b2 [F Pb2]]. rewrite F. cbn [bind].
      apply (IH (l1 ++ [x]) b2); [rewrite <- app_assoc; exact E|exact Pb2].
  Qed.
End FoldRes.

Section Build.
  Context {N V : Type} (neqb : N -> N -> bool) (veqb : V -> V -> bool).
  Hypothesis neqb_eq : forall a b, neqb a b = true <-> a = b.
  Hypothesis veqb_eq : forall a b, veqb a b = true <-> a = b.
  Implicit Types g : graph N V.

  Lemma same_items_refl (d : attrs V) : same_items d d. Proof. intro k; reflexivity. Qed.
  Lemma same_items_sym (d e : attrs V) : same_items d e -> same_items e d. Proof. intros H k. symmetry. apply H. Qed.
  Lemma same_items_trans (d e f : attrs V) : same_items d e -> same_items e f -> same_items d f.
  Proof. intros H K k. rewrite H. apply K. Qed.
  Lemma update_nil_items (d : attrs V) : NoDup (map fst d) -> same_items (update [] d) d.
  Proof. intros H k. rewrite lookup_update, lookup_rev by exact H. destruct (lookup k d); reflexivity. Qed.
  Lemma update_nil2 (d : attrs V) : NoDup (map fst d) -> same_items (update (update [] []) d) d.
  Proof. exact (update_nil_items d). Qed.

  Lemma items_nil (d : attrs V) : same_items d [] <-> d = [].
  Proof.
    split; [|intros ->; apply same_items_refl]. destruct d as [|[k v] r]; [reflexivity|]. intro H. specialize (H k).
    cbn [lookup] in H. rewrite String.eqb_refl in H. discriminate.
  Qed.
  Lemma trans_same g u d d' v : same_items d d' -> trans g u d v -> trans g u d' v.
  Proof.
    intros S [e [I [A [B C]]]]. exists e. repeat split; auto. eapply same_items_trans; eauto.
  Qed.

  (** Typing of a whole label. *)
  Definition typed_keys (ty : types V) (d : attrs V) : Prop := forall k, In k (map fst d) -> In k (map fst ty).
  Lemma check_untyped_ok ty (d : attrs V) ch : typed_keys ty d -> check_untyped d ty ch = Ok tt.
  Proof.
    intro H. unfold check_untyped. destruct (ch && existsb _ d) eqn:E; [|reflexivity].
    apply andb_true_iff in E. destruct E as [_ E]. apply existsb_exists in E. destruct E as [[k v] [I E]].
    cbn [fst] in E. destruct (lookup k ty) eqn:L; [discriminate|]. apply lookup_None in L. exfalso. apply L, H.
    apply (in_map fst) in I. exact I.
  Qed.
  Lemma check_untyped_inv ty (d : attrs V) : check_untyped d ty true = Ok tt -> typed_keys ty d.
  Proof.
    unfold check_untyped. cbn [andb]. destruct (existsb _ d) eqn:E; [discriminate|]. intros _ k I.
    apply in_map_iff in I. destruct I as [[k' v] [<- I]]. cbn [fst].
    destruct (lookup k' ty) eqn:L.
    - apply lookup_In in L. apply (in_map fst) in L. exact L.
    - enough (X : existsb (fun kv => match lookup (fst kv) ty with None => true | _ => false end) d = true) by congruence.
      apply existsb_exists. exists (k', v). cbn [fst]. rewrite L. auto.
  Qed.
  Lemma keys_update_nil (d : attrs V) k : In k (map fst (update [] d)) <-> In k (map fst d).
  Proof.
    split; intro I.
    - destruct (lookup k d) eqn:L.
      + apply lookup_In in L. apply (in_map fst) in L. exact L.
      + destruct (in_dec string_dec k (map fst d)) as [J|J]; [exact J|].
        assert (Z : lookup k (update [] d) = None).
        { rewrite lookup_update. replace (lookup k (rev d)) with (@None V); [reflexivity|].
          symmetry. apply lookup_None. rewrite map_rev, <- in_rev. exact J. }
        apply lookup_None in Z. contradiction.
    - destruct (in_dec string_dec k (map fst (update [] d))) as [J|J]; [exact J|].
      apply lookup_None in J. rewrite lookup_update in J. destruct (lookup k (rev d)) eqn:L; [discriminate|].
      apply lookup_None in L. rewrite map_rev, <- in_rev in L. contradiction.
  Qed.

  (** A configuration without defaults. *)
  Context (c : config V).
  Hypothesis no_defaults : c_edge_defaults c = [].
  Hypothesis no_node_defaults : c_node_defaults c = [].

  (** Adding an edge adds exactly the labelled transition. *)
  Lemma add_edge_trans u v d ch g g' : wf c g -> NoDup (map fst d) ->
    add_edge neqb veqb c u v None d ch g = Ok g' ->
    g_nodes g' = g_nodes g /\ g_init g' = g_init g /\ In u (node_list g) /\ In v (node_list g) /\
    good (c_edge_types c) d /\ wf c g' /\
    forall a b e, trans g' a e b <-> trans g a e b \/ (a = u /\ b = v /\ same_items d e).
  Proof.
    intros W ND H. pose proof (wf_add_edge neqb veqb neqb_eq c u v None d ch g g' W H) as W'.
    apply (add_edge_Ok neqb veqb neqb_eq) in H.
    destruct H as [U [X [Un [t [T H]]]]]. apply typed_attr_Ok in T. destruct T as [-> [_ Gd]].
    rewrite no_defaults in H. change (update [] []) with (@nil (string * V)) in H.
    destruct H as [[-> [e0 [I0 D0]]]|[_ [_ ->]]].
    - do 6 (split; [auto|]).
      intros a b e. split; [auto|]. intros [K|[-> [-> S]]]; [exact K|].
      apply (edges_between_In neqb neqb_eq) in I0. destruct I0 as [I0 [A0 B0]]. exists e0. repeat split; auto.
      pose proof (proj1 (dict_eqb_spec veqb veqb_eq _ _ (proj1 (wf_edge_attr c g W e0 I0)) ND) D0) as D1.
      eapply same_items_trans; [exact D1|exact S].
    - split; [reflexivity|]. split; [reflexivity|]. split; [exact U|]. split; [exact X|]. split; [exact Gd|].
      split; [exact W'|]. cbn [g_edges].
      rewrite (nx_set_edge_new neqb neqb_eq).
      2: { intros e I A B. destruct (edges_between neqb u v g) eqn:Eb.
           - assert (J : In e (edges_between neqb u v g)) by (apply (edges_between_In neqb neqb_eq); auto).
             rewrite Eb in J. destruct J.
           - apply (new_edge_key_fresh neqb neqb_eq u v g e I A B). }
      intros a b e. unfold trans. cbn [g_edges]. split.
      + intros [x [I [A [B S]]]]. apply in_app_iff in I. destruct I as [I|[<-|[]]].
        * left. exists x. auto.
        * right. cbn in A, B, S. subst. repeat split; auto.
          eapply same_items_trans; [apply same_items_sym, update_nil_items; exact ND|exact S].
      + intros [[x [I [A [B S]]]]|[-> [-> S]]].
        * exists x. rewrite in_app_iff. auto.
        * eexists. split; [apply in_or_app; right; left; reflexivity|]. cbn. repeat split; auto.
          eapply same_items_trans; [apply update_nil_items; exact ND|exact S].
  Qed.

  (** No unlabelled transition from [u] to [v]. *)
  Definition labelled_between g u v : Prop := ~ trans g u [] v.
  Lemma add_edge_total u v d ch g : In u (node_list g) -> In v (node_list g) -> good (c_edge_types c) d ->
    typed_keys (c_edge_types c) d \/ ch = false -> labelled_between g u v ->
    exists g', add_edge neqb veqb c u v None d ch g = Ok g'.
  Proof.
    intros U X G T L. unfold add_edge. rewrite (proj2 (has_node_In neqb neqb_eq u g) U), (proj2 (has_node_In neqb neqb_eq v g) X).
    cbn [negb]. rewrite typed_attr_good by (try exact G; rewrite no_defaults; constructor). cbn [bind].
    destruct (existsb (fun e => dict_eqb veqb (e_attr e) []) _) eqn:E.
    { exfalso. apply existsb_exists in E. destruct E as [e [I E]]. apply dict_eqb_nil in E.
      apply (edges_between_In neqb neqb_eq) in I. destruct I as [I [A B]]. apply L. exists e. rewrite E. repeat split; auto. }
    destruct (existsb (fun e => dict_eqb veqb (e_attr e) d) _); [eauto|].
    assert (Z : check_untyped (update (update [] (c_edge_defaults c)) d) (c_edge_types c) ch = Ok tt).
    { destruct T as [T| ->]; [|reflexivity]. apply check_untyped_ok. rewrite no_defaults. intros k I.
      apply (proj1 (keys_update_nil d k)) in I. auto. }
    rewrite Z. cbn [bind]. eauto.
  Qed.

  (** ** Many edges *)
  Definition ltrans : Type := N * attrs V * N.
  Definition add_trans (ch : bool) (x : ltrans) : graph N V -> res (graph N V) :=
    add_edge neqb veqb c (fst (fst x)) (snd x) None (snd (fst x)) ch.
  Lemma add_edges_trans ch (l : list ltrans) g g' : wf c g -> (forall x, In x l -> NoDup (map fst (snd (fst x)))) ->
    fold_res (add_trans ch) l g = Ok g' ->
    g_nodes g' = g_nodes g /\ g_init g' = g_init g /\ wf c g' /\
    (forall x, In x l -> In (fst (fst x)) (node_list g) /\ In (snd x) (node_list g) /\ good (c_edge_types c) (snd (fst x))) /\
    forall a b e, trans g' a e b <-> trans g a e b \/ exists d, In (a, d, b) l /\ same_items d e.
  Proof.
    intros W ND H. apply (fold_res_inv (add_trans ch) (fun l1 g1 => g_nodes g1 = g_nodes g /\ g_init g1 = g_init g /\ wf c g1 /\
      (forall x, In x l1 -> In (fst (fst x)) (node_list g) /\ In (snd x) (node_list g) /\ good (c_edge_types c) (snd (fst x))) /\
      forall a b e, trans g1 a e b <-> trans g a e b \/ exists d, In (a, d, b) l1 /\ same_items d e) l g g'); [| |exact H].
    - do 3 (split; [auto|]). split; [intros x []|]. intros a b e. split; [auto|]. intros [K|[d [[] _]]]. exact K.
    - intros l1 x l2 g1 g2 E [A [B [W1 [C T]]]] F. destruct x as [[u d] v]. unfold add_trans in F. cbn [fst snd] in F.
      apply add_edge_trans in F; [|exact W1|apply (ND (u, d, v)); subst; apply in_or_app; right; left; reflexivity].
      destruct F as [N1 [I1 [U [X [Gd [W2 T2]]]]]]. split; [congruence|]. split; [congruence|]. split; [exact W2|].
      assert (NL : node_list g1 = node_list g) by (unfold node_list; rewrite A; reflexivity).
      rewrite NL in U, X. split.
      { intros y J. apply in_app_iff in J. destruct J as [J|[<-|[]]]; [apply C, J|cbn; auto]. }
      intros a b e. rewrite T2, T. split.
      + intros [[K|[d' [J S]]]|[-> [-> S]]]; [auto| |].
        * right. exists d'. rewrite in_app_iff. auto.
        * right. exists d. rewrite in_app_iff. split; [right; left; reflexivity|exact S].
      + intros [K|[d' [J S]]]; [auto|]. apply in_app_iff in J. destruct J as [J|[[= -> -> ->]|[]]]; [|auto].
        left. right. eauto.
  Qed.

  (** No transition of the list comes after an unlabelled one with the same ends. *)
  Definition unlabelled_last (l : list ltrans) : Prop :=
    forall l1 u v l2 d, l = l1 ++ (u, [], v) :: l2 -> ~ In (u, d, v) l2.
  Lemma add_edges_total ch (l : list ltrans) g : wf c g -> (forall x, In x l -> NoDup (map fst (snd (fst x)))) ->
    (forall u d v, In (u, d, v) l -> In u (node_list g) /\ In v (node_list g) /\ good (c_edge_types c) d /\
       (typed_keys (c_edge_types c) d \/ ch = false) /\ labelled_between g u v) ->
    unlabelled_last l ->
    exists g', fold_res (add_trans ch) l g = Ok g'.
  Proof.
    intros W ND H UL.
    destruct (fold_res_total (add_trans ch) (fun l1 g1 => fold_res (add_trans ch) l1 g = Ok g1) l g) as [g' [K _]]; [reflexivity| |eauto].
    intros l1 [[u d] v] l2 g1 E F. assert (I : In (u, d, v) l) by (subst; apply in_or_app; right; left; reflexivity).
    destruct (add_edges_trans ch l1 g g1 W) as [A [B [W1 [C T]]]]; [|exact F|].
    { intros x J. apply ND. subst. apply in_or_app. auto. }
    destruct (H u d v I) as [U [X [Gd [Tk Lb]]]].
    destruct (add_edge_total u v d ch g1) as [g2 K]; auto.
    { unfold node_list. rewrite A. exact U. } { unfold node_list. rewrite A. exact X. }
    { intro Z. apply T in Z. destruct Z as [Z|[d' [J S]]]; [exact (Lb Z)|]. apply items_nil in S. subst d'.
      apply in_split in J. destruct J as [p [q ->]]. apply (UL p u v (q ++ (u, d, v) :: l2) d).
      - rewrite E, <- app_assoc. reflexivity.
      - apply in_or_app. right. left. reflexivity. }
    exists g2. unfold add_trans at 1. cbn [fst snd]. split; [exact K|]. apply fold_res_app. exists g1. split; [exact F|].
    cbn [fold_res]. unfold add_trans. cbn [fst snd]. rewrite K. reflexivity.
  Qed.

  (** ** Nodes and initial states *)
  Lemma add_nodes_plain (l : list N) g : wf c g -> exists g', fold_res (fun n => add_node neqb c n [] true) l g = Ok g' /\
    wf c g' /\ g_edges g' = g_edges g /\ g_init g' = g_init g /\
    (forall n, In n (node_list g') <-> In n (node_list g) \/ In n l).
  Proof.
    intro W. apply (fold_res_total _ (fun l1 g1 => wf c g1 /\ g_edges g1 = g_edges g /\ g_init g1 = g_init g /\
      (forall n, In n (node_list g1) <-> In n (node_list g) \/ In n l1))).
    - do 3 (split; [auto|]). intro n. cbn. tauto.
    - intros l1 n l2 g1 _ [W1 [E1 [I1 K]]].
      assert (H : exists g2, add_node neqb c n [] true g1 = Ok g2).
      { unfold add_node, typed_attr. rewrite no_node_defaults. cbn. eauto. }
      destruct H as [g2 H]. exists g2. split; [exact H|]. split; [eapply wf_add_node; eauto|].
      apply add_node_Ok in H. destruct H as [t [_ ->]]. cbn [g_edges g_init]. split; [exact E1|]. split; [exact I1|].
      intro x. unfold node_list at 1. cbn [g_nodes]. rewrite (nx_add_node_keys neqb n t (g_nodes g1)).
      change (map fst (g_nodes g1)) with (node_list g1). rewrite in_app_iff.
      destruct (nmem neqb n (node_list g1)) eqn:M.
      + apply (nmem_In neqb neqb_eq) in M. rewrite K. cbn. split; [tauto|]. intros [J|[J|[<-|[]]]]; [auto|auto|]. apply K, M.
      + rewrite in_app_iff, K. cbn. tauto.
  Qed.
  Lemma add_initial_Ok n g g' : add_initial neqb n g = Ok g' -> In n (node_list g) /\
    g_nodes g' = g_nodes g /\ g_edges g' = g_edges g /\ (forall x, In x (g_init g') <-> In x (g_init g) \/ x = n) /\
    (wf c g -> wf c g').
  Proof.
    unfold add_initial. destruct (has_node neqb n g) eqn:E; [|discriminate]. intros [= <-]. cbn [g_nodes g_edges g_init].
    split; [apply (has_node_In neqb neqb_eq), E|]. do 2 (split; [auto|]). split.
    - intro x. destruct (nmem neqb n (g_init g)) eqn:M.
      + apply (nmem_In neqb neqb_eq) in M. split; [auto|]. intros [J| ->]; auto.
      + rewrite in_app_iff. cbn. split; [intros [J|[->|[]]]; auto|intros [J| ->]; auto].
    - intro W. pose proof (wf_step neqb veqb neqb_eq c (GAddInitial n) g W) as K. cbn [gstep] in K. unfold add_initial in K.
      rewrite E in K. exact K.
  Qed.
  Lemma add_initials (l : list N) g : wf c g ->
    (forall g', fold_res (add_initial neqb) l g = Ok g' ->
       (forall n, In n l -> In n (node_list g)) /\ wf c g' /\ g_nodes g' = g_nodes g /\ g_edges g' = g_edges g /\
       (forall n, In n (g_init g') <-> In n (g_init g) \/ In n l)) /\
    ((forall n, In n l -> In n (node_list g)) -> exists g', fold_res (add_initial neqb) l g = Ok g').
  Proof.
    intro W. split.
    - intros g' H.
      apply (fold_res_inv (add_initial neqb) (fun l1 g1 => (forall n, In n l1 -> In n (node_list g)) /\ wf c g1 /\
        g_nodes g1 = g_nodes g /\ g_edges g1 = g_edges g /\ (forall n, In n (g_init g1) <-> In n (g_init g) \/ In n l1)) l g g'); [| |exact H].
      + split; [intros n []|]. do 3 (split; [auto|]). intro n. cbn. tauto.
      + intros l1 n l2 g1 g2 _ [A [W1 [B [C D]]]] F. apply add_initial_Ok in F. destruct F as [F1 [F2 [F3 [F4 F5]]]].
        assert (NL : node_list g1 = node_list g) by (unfold node_list; rewrite B; reflexivity). rewrite NL in F1.
        split. { intros x I. apply in_app_iff in I. destruct I as [I|[<-|[]]]; auto. }
        split; [auto|]. split; [congruence|]. split; [congruence|].
        intro x. rewrite F4, D, in_app_iff. cbn. split; [intros [[?|?]| ->]; auto|intros [?|[?|[<-|[]]]]; auto].
    - intro H. destruct (fold_res_total (add_initial neqb) (fun _ g1 => g_nodes g1 = g_nodes g) l g) as [g' [K _]]; [reflexivity| |eauto].
      intros l1 n l2 g1 E B. unfold add_initial.
      replace (has_node neqb n g1) with true.
      + eexists. split; [reflexivity|]. exact B.
      + symmetry. apply (has_node_In neqb neqb_eq). unfold node_list. rewrite B. apply H. subst. apply in_or_app. right. left. reflexivity.
  Qed.
End Build.
