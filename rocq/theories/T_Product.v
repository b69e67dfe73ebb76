(** C33: synchronous products of transition systems and automata. *)
From Coq Require Import List String Bool Arith Lia.
From Verif Require Import M_Base M_Dict M_Graph M_Machine M_Product S_Run S_Product L_Gr1 L_Dict L_Graph T_Graph T_Deadends L_Build L_Machine T_Convert.
Import ListNotations.
Open Scope string_scope.
Open Scope list_scope.

Section Lists.
  Context {X : Type} (eqb : X -> X -> bool).
  Hypothesis eqb_eq : forall a b, eqb a b = true <-> a = b.
  Lemma mem_In x l : existsb (eqb x) l = true <-> In x l.
  Proof. exact (nmem_In eqb eqb_eq x l). Qed.
  Lemma uniq_In x l : In x (uniq eqb l) <-> In x l.
  Proof.
    induction l as [|y r IH]; cbn [uniq]; [reflexivity|]. destruct (existsb (eqb y) r) eqn:E; cbn [In]; rewrite IH; [|reflexivity].
    apply mem_In in E. split; [auto|]. intros [<-|J]; auto.
  Qed.
  Lemma uniq_NoDup l : NoDup (uniq eqb l).
  Proof.
    induction l as [|y r IH]; cbn [uniq]; [constructor|]. destruct (existsb (eqb y) r) eqn:E; [exact IH|]. constructor; [|exact IH].
    rewrite uniq_In. intro J. apply mem_In in J. congruence.
  Qed.
  Lemma add_to_In x y l : In x (add_to eqb y l) <-> In x l \/ x = y.
  Proof.
    unfold add_to. destruct (existsb (eqb y) l) eqn:E.
    - apply mem_In in E. split; [auto|]. intros [J| ->]; auto.
    - rewrite in_app_iff. cbn. split; intros [J|J]; auto. destruct J as [<-|[]]; auto.
  Qed.
  Lemma add_to_NoDup y l : NoDup l -> NoDup (add_to eqb y l).
  Proof.
    intro N. unfold add_to. destruct (existsb (eqb y) l) eqn:E; [exact N|]. apply NoDup_snoc; [exact N|]. intro J. apply mem_In in J. congruence.
  Qed.
  Lemma add_all_In x l m : In x (fold_left (fun l z => add_to eqb z l) m l) <-> In x l \/ In x m.
  Proof.
    revert l. induction m as [|y m IH]; intro l; cbn [fold_left In]; [tauto|]. rewrite IH, add_to_In. split; [intros [[J| ->]|J]; auto|intros [J|[<-|J]]; auto].
  Qed.
  Lemma add_all_NoDup l m : NoDup l -> NoDup (fold_left (fun l z => add_to eqb z l) m l).
  Proof. revert l. induction m as [|y m IH]; intros l N; cbn [fold_left]; [exact N|]. apply IH, add_to_NoDup, N. Qed.
End Lists.

Section Product.
  Context {A B V : Type}.
  Context (aeqb : A -> A -> bool) (beqb : B -> B -> bool) (veqb : V -> V -> bool).
  Hypothesis aeqb_eq : forall a b, aeqb a b = true <-> a = b.
  Hypothesis beqb_eq : forall a b, beqb a b = true <-> a = b.
  Hypothesis veqb_eq : forall a b, veqb a b = true <-> a = b.
  Context (tl : V).
  Notation peqb := (peqb aeqb beqb).
  Notation weqb := (pval_eqb beqb veqb).
  Lemma peqb_eq x y : peqb x y = true <-> x = y.
  Proof.
    unfold M_Product.peqb. rewrite andb_true_iff, aeqb_eq, beqb_eq. destruct x, y; cbn. split; [intros [-> ->]; reflexivity|intros [= -> ->]; auto].
  Qed.
  Lemma list_eqb_eq l m : list_eqb beqb l m = true <-> l = m.
  Proof.
    revert m. induction l as [|x l IH]; intros [|y m]; cbn; split; intro H; try discriminate; try reflexivity.
    - apply andb_true_iff in H. destruct H as [H K]. apply beqb_eq in H. apply IH in K. congruence.
    - injection H as -> ->. apply andb_true_iff. split; [apply beqb_eq; reflexivity|apply IH; reflexivity].
  Qed.
  Lemma weqb_eq x y : weqb x y = true <-> x = y.
  Proof.
    destruct x as [l|v], y as [m|w]; cbn; try (split; discriminate).
    - rewrite list_eqb_eq. split; congruence.
    - rewrite veqb_eq. split; congruence.
  Qed.

  Context (cb ct : config V) (ts : graph A V) (ba : aut B V).
  Hypothesis wf_ts : wf ct ts.
  Hypothesis wf_ba : wf cb (a_graph ba).

  Lemma ap_of_spec s v : ap_of aeqb s ts = Ok v <-> label ts s v.
  Proof.
    unfold ap_of, label. destruct (find _ _) as [[n d]|] eqn:F.
    - apply find_some in F. destruct F as [I E]. cbn [fst] in E. apply aeqb_eq in E. subst n. cbn [snd]. split.
      + intro H. exists d. split; [exact I|]. destruct (lookup "ap" d); congruence.
      + intros [d' [I' L]]. assert (d' = d); [|subst; rewrite L; reflexivity].
        pose proof (wf_nodes _ _ wf_ts) as N. unfold node_list in N. revert I I' N. clear. induction (g_nodes ts) as [|[n e] l IH]; [intros []|].
        cbn [map fst In]. intros [Q|I] [Q'|I'] N; inversion N as [|? ? NI ND]; subst.
        * congruence.
        * injection Q as -> ->. exfalso. apply NI. apply (in_map fst) in I'. exact I'.
        * injection Q' as -> ->. exfalso. apply NI. apply (in_map fst) in I. exact I.
        * auto.
    - split; [discriminate|]. intros [d [I _]]. pose proof (find_none _ _ F _ I) as E. cbn [fst] in E.
      assert (aeqb s s = true) by (apply aeqb_eq; reflexivity). congruence.
  Qed.
  Lemma label_unique s a b : label ts s a -> label ts s b -> a = b.
  Proof. intros H K. apply ap_of_spec in H, K. congruence. Qed.
  Lemma find_ba_succ_total q s a : label ts s a -> exists en, find_ba_succ aeqb beqb veqb tl cb q s ts ba = Ok en /\
    (forall e, In e en <-> In e (g_edges (a_graph ba)) /\ e_src e = q /\ enables tl a e).
  Proof.
    intro L. unfold find_ba_succ. rewrite (proj2 (ap_of_spec s a) L). cbn [bind].
    destruct (find_transitions_spec beqb veqb beqb_eq veqb_eq cb (Some [q]) None [("letter", a)] (a_graph ba) wf_ba) as [l1 [-> S1]]; [repeat constructor; intros []|].
    cbn [bind].
    destruct (find_transitions_spec beqb veqb beqb_eq veqb_eq cb (Some [q]) None [("letter", tl)] (a_graph ba) wf_ba) as [l2 [-> S2]]; [repeat constructor; intros []|].
    cbn [bind]. eexists. split; [reflexivity|]. intro e. rewrite in_app_iff, S1, S2.
    assert (Q : (forall s0 : list B, Some [q] = Some s0 -> In (e_src e) s0) <-> e_src e = q).
    { split; [intro H; destruct (H [q] eq_refl) as [E|[]]; auto|]. intros <- s0 [= <-]. left. reflexivity. }
    rewrite Q. unfold enables, same_label, same_items. split.
    - intros [[I [E [_ [K|[K|K]]]]]|[I [E [_ [K|[K|K]]]]]]; try discriminate; auto.
    - intros [I [E [K|[K|K]]]]; [left|left|right]; split; auto; split; auto; (split; [intros s0 [=]|auto]).
  Qed.
  Lemma find_ba_succ_Ok q s en : find_ba_succ aeqb beqb veqb tl cb q s ts ba = Ok en -> exists a, label ts s a /\
    (forall e, In e en <-> In e (g_edges (a_graph ba)) /\ e_src e = q /\ enables tl a e).
  Proof.
    intro H. assert (E : exists a, label ts s a).
    { unfold find_ba_succ in H. apply bind_Ok in H. destruct H as [a [H _]]. exists a. apply ap_of_spec, H. }
    destruct E as [a L]. exists a. split; [exact L|]. destruct (find_ba_succ_total q s a L) as [en' [E' S']]. assert (en' = en) by congruence. subst. exact S'.
  Qed.
  Lemma ts_edges_between s s' : exists l, find_transitions aeqb veqb ct (Some [s]) (Some [s']) [] ts = Ok l /\
    (forall e, In e l <-> In e (g_edges ts) /\ e_src e = s /\ e_dst e = s').
  Proof.
    destruct (find_transitions_spec aeqb veqb aeqb_eq veqb_eq ct (Some [s]) (Some [s']) [] ts wf_ts) as [l [E S]]; [constructor|].
    exists l. split; [exact E|]. intro e. rewrite S. split.
    - intros [I [K [M _]]]. destruct (K _ eq_refl) as [<-|[]]. destruct (M _ eq_refl) as [<-|[]]. auto.
    - intros [I [<- <-]]. split; [exact I|]. split; [intros s0 [= <-]; left; reflexivity|]. split; [intros s0 [= <-]; left; reflexivity|auto].
  Qed.

  (** ** One step of the construction *)
  Context (alphabet : V -> bool).
  Definition cp (k : bool) : config (pval B V) := if k then ba_config alphabet else fts_config beqb (node_list (a_graph ba)).
  (** The same label types of edges, and none of nodes. *)
  Definition ec (k : bool) : config (pval B V) := Config [] [] (c_edge_types (cp k)) [].
  Definition plab (k : bool) (a : V) : attrs (pval B V) := if k then [("letter", PVal a)] else [].
  Record inv (k : bool) (st : pst A B V) : Prop := {
    i_wf : wf (ec k) (p_graph st);
    i_plain : k = false -> forall e, In e (g_edges (p_graph st)) -> e_attr e = [];
    i_ap : k = false -> forall n d, In (n, d) (g_nodes (p_graph st)) -> d = [("ap", PStates [snd n])] }.

  Lemma good_any (d : attrs (pval B V)) : good [] d.
  Proof. apply Forall_forall. intros [k v] _. reflexivity. Qed.
  Definition relab (k : bool) (new : A * B) (g : graph (A * B) (pval B V)) : graph (A * B) (pval B V) :=
    if k then g else set_label aeqb beqb new "ap" (PStates [snd new]) g.
  Lemma relab_nodes k new g : node_list (relab k new g) = node_list g.
  Proof.
    destruct k; [reflexivity|]. unfold relab, set_label, node_list. cbn [g_nodes]. rewrite map_map. apply map_ext. intros [n d]. cbn [fst]. destruct (peqb new n); reflexivity.
  Qed.
  Lemma relab_edges k new g : g_edges (relab k new g) = g_edges g /\ g_init (relab k new g) = g_init g.
  Proof. destruct k; split; reflexivity. Qed.
  Lemma relab_wf k new g : wf (ec k) g -> wf (ec k) (relab k new g).
  Proof.
    destruct k; [auto|]. intros [W1 W2 W3 W4 W5 W6]. pose proof (relab_nodes false new g) as NL. split; rewrite ?NL; auto.
    intros n a J. split; [|apply good_any]. unfold relab, set_label in J. cbn [g_nodes] in J. apply in_map_iff in J. destruct J as [[m d] [Q J]]. cbn [fst snd] in Q.
    destruct (W4 m d J) as [N _]. destruct (peqb new m); injection Q as <- <-; [apply nodup_set, N|exact N].
  Qed.
  (** Adding a state (or not, if it is there), then labelling it. *)
  Lemma touch k new (g : graph (A * B) (pval B V)) : wf (ec k) g ->
    (k = false -> forall n d, In (n, d) (g_nodes g) -> d = [("ap", PStates [snd n])]) ->
    exists g1, add_node peqb (cp k) new [] true g = Ok g1 /\ wf (ec k) g1 /\
      g_edges g1 = g_edges g /\ g_init g1 = g_init g /\
      (forall n, In n (node_list g1) <-> In n (node_list g) \/ n = new) /\
      (k = false -> forall n d, In (n, d) (g_nodes (relab k new g1)) -> d = [("ap", PStates [snd n])]).
  Proof.
    intros W Ap. set (t := update (update [] (c_node_defaults (cp k))) []).
    assert (T : typed_attr (c_node_types (cp k)) (c_node_defaults (cp k)) [] = Ok t).
    { apply typed_attr_good; [|constructor]. destruct k; [constructor|]. constructor; [reflexivity|constructor]. }
    assert (Un : check_untyped t (c_node_types (cp k)) true = Ok tt) by (destruct k; reflexivity).
    exists (Graph (nx_add_node peqb new t (g_nodes g)) (g_edges g) (g_init g)).
    assert (H : add_node peqb (cp k) new [] true g = Ok (Graph (nx_add_node peqb new t (g_nodes g)) (g_edges g) (g_init g))).
    { unfold add_node. rewrite T. cbn [bind]. rewrite Un. reflexivity. }
    split; [exact H|]. assert (NLn : forall n, In n (map fst (nx_add_node peqb new t (g_nodes g))) <-> In n (node_list g) \/ n = new).
    { intro n. rewrite (nx_add_node_keys peqb new t (g_nodes g)). change (map fst (g_nodes g)) with (node_list g).
      destruct (nmem peqb new (node_list g)) eqn:M; [apply (nmem_In peqb peqb_eq) in M; split; [auto|intros [J| ->]; auto]|].
      rewrite in_app_iff. cbn. split; intros [J|J]; auto. destruct J as [<-|[]]; auto. }
    split.
    { destruct W as [W1 W2 W3 W4 W5 W6]. split; cbn [g_edges g_init g_nodes]; auto.
      - unfold node_list. cbn [g_nodes]. rewrite (nx_add_node_keys peqb new t (g_nodes g)). change (map fst (g_nodes g)) with (node_list g).
        destruct (nmem peqb new (node_list g)) eqn:M; [exact W1|]. apply NoDup_snoc; [exact W1|]. intro J. apply (nmem_In peqb peqb_eq) in J. congruence.
      - intros e J. split; apply NLn; left; apply W2, J.
      - intros n a J. split; [|apply good_any]. assert (Nt : NoDup (map fst t)) by (apply nodup_update, nodup_update; constructor).
        apply (nx_add_node_In peqb peqb_eq) in J. destruct J as [J|[_ [->|[a0 [J ->]]]]]; [apply W4 in J; apply J|exact Nt|]. apply nodup_update. apply W4 in J. apply J. }
    do 2 (split; [reflexivity|]). split; [exact NLn|]. intros ->. intros n d J. unfold relab, set_label in J. cbn [g_nodes] in J.
    apply in_map_iff in J. destruct J as [[m a] [Q J]]. cbn [fst snd] in Q. apply (nx_add_node_In peqb peqb_eq) in J.
    destruct (peqb new m) eqn:E.
    - apply peqb_eq in E. subst m. injection Q as <- <-.
      destruct J as [J|[_ [->|[a0 [J ->]]]]]; [rewrite (Ap eq_refl _ _ J); reflexivity|reflexivity|]. rewrite (Ap eq_refl _ _ J). reflexivity.
    - injection Q as <- <-. destruct J as [J|[-> _]]; [exact (Ap eq_refl _ _ J)|]. rewrite (proj2 (peqb_eq new new) eq_refl) in E. discriminate.
  Qed.

  Lemma add_edge_ec k u v d g : add_edge peqb weqb (cp k) u v None d true g = add_edge peqb weqb (ec k) u v None d true g.
  Proof. destruct k; reflexivity. Qed.
  Notation add_ts := (add_ts_edge aeqb beqb veqb).
  (** One transition of the system gives one transition of the product. *)
  Lemma add_ts_edge_Ok k sq new e (g g' : graph (A * B) (pval B V)) : wf (ec k) g -> (k = false -> forall e, In e (g_edges g) -> e_attr e = []) ->
    add_ts k (cp k) sq new ts e g = Ok g' -> (k = false -> e_attr e = []) /\
    exists a, (k = true -> label ts (e_dst e) a) /\
      add_edge peqb weqb (ec k) sq new None (plab k a) true g = Ok g'.
  Proof.
    intros W Pl H. unfold add_ts_edge in H. destruct k.
    - apply bind_Ok in H. destruct H as [a [L H]]. apply ap_of_spec in L. split; [discriminate|]. exists a. split; [auto|exact H].
    - destruct (e_attr e) as [|kv d] eqn:E.
      + split; [reflexivity|]. exists tl. split; [discriminate|exact H].
      + exfalso. destruct (lookup "actions" (kv :: d)) as [v|]; [|discriminate]. rewrite (add_edge_ec false) in H.
        unfold add_edge in H. destruct (negb (has_node peqb sq g)); [discriminate|]. destruct (negb (has_node peqb new g)); [discriminate|].
        apply bind_Ok in H. destruct H as [t [T H]]. destruct (existsb (fun e => dict_eqb weqb (e_attr e) []) _); [discriminate|].
        destruct (existsb _ _) eqn:Ex.
        * apply existsb_exists in Ex. destruct Ex as [x [J Ex]]. apply (edges_between_In peqb peqb_eq) in J. rewrite (Pl eq_refl x (proj1 J)) in Ex. discriminate.
        * apply bind_Ok in H. destruct H as [[] [K _]]. apply check_untyped_inv in K. apply typed_attr_Ok in T. destruct T as [-> _].
          destruct (K "actions") as [Q|[Q|[]]]; [left; reflexivity|discriminate|discriminate].
  Qed.
  Lemma add_ts_fold k sq new a es (g g' : graph (A * B) (pval B V)) : wf (ec k) g -> (k = false -> forall e, In e (g_edges g) -> e_attr e = []) ->
    label ts (fst new) a -> (forall e, In e es -> e_dst e = fst new) ->
    fold_res (add_ts k (cp k) sq new ts) es g = Ok g' ->
    wf (ec k) g' /\ (k = false -> forall e, In e (g_edges g') -> e_attr e = []) /\ g_nodes g' = g_nodes g /\ g_init g' = g_init g /\
    (k = false -> forall e, In e es -> e_attr e = []) /\
    forall x y d, trans g' x d y <-> trans g x d y \/ (x = sq /\ y = new /\ es <> [] /\ same_items (plab k a) d).
  Proof.
    intros W Pl L Ds H.
    apply (fold_res_inv (add_ts k (cp k) sq new ts) (fun l g' => wf (ec k) g' /\ (k = false -> forall e, In e (g_edges g') -> e_attr e = []) /\ g_nodes g' = g_nodes g /\ g_init g' = g_init g /\
      (k = false -> forall e, In e l -> e_attr e = []) /\
      forall x y d, trans g' x d y <-> trans g x d y \/ (x = sq /\ y = new /\ l <> [] /\ same_items (plab k a) d)) es g g'); [| |exact H].
    - split; [exact W|]. split; [exact Pl|]. do 2 (split; [reflexivity|]). split; [intros _ e []|]. intros x y d. split; [auto|]. intros [T|[_ [_ [N _]]]]; [exact T|]. exfalso. apply N. reflexivity.
    - intros l1 e l2 g1 g2 E [W1 [P1 [N1 [I1 [U1 T1]]]]] F. destruct (add_ts_edge_Ok k sq new e g1 g2 W1 P1 F) as [U [a' [La F']]].
      assert (Pa : plab k a' = plab k a).
      { destruct k; [|reflexivity]. unfold plab. specialize (La eq_refl). rewrite (Ds e) in La by (rewrite E; apply in_or_app; right; left; reflexivity). rewrite (label_unique _ _ _ La L). reflexivity. }
      rewrite Pa in F'. assert (ND : NoDup (map fst (plab k a))) by (destruct k; repeat constructor; intros []).
      destruct (add_edge_trans peqb weqb peqb_eq weqb_eq (ec k) eq_refl sq new (plab k a) true g1 g2 W1 ND F') as [N2 [I2 [_ [_ [_ [W2 T2]]]]]].
      split; [exact W2|]. split; [|split; [congruence|split; [congruence|split]]].
      + intros -> e0 J. assert (Q : trans g2 (e_src e0) (e_attr e0) (e_dst e0)) by (exists e0; repeat split; auto).
        apply T2 in Q. destruct Q as [[e1 [J1 [_ [_ Sm]]]]|[_ [_ Sm]]]; [rewrite (P1 eq_refl e1 J1) in Sm|]; apply items_nil, same_items_sym, Sm.
      + intros -> e0 J. apply in_app_iff in J. destruct J as [J|[<-|[]]]; auto.
      + intros x y d. rewrite T2, T1. assert (NN : l1 ++ [e] <> []) by (destruct l1; discriminate). split; [intros [[T|[-> [-> [_ Sm]]]]|[-> [-> Sm]]]; auto|].
        intros [T|[-> [-> [_ Sm]]]]; auto.
  Qed.

  Notation prod1 := (prod_succ1 aeqb beqb veqb).
  Lemma prod_succ1_Ok k sq s' e st next st' next' : inv k st ->
    prod1 k (cp k) ct sq s' ts ba e (st, next) = Ok (st', next') -> tstep ts (fst sq) s' -> forall a, label ts s' a ->
    inv k st' /\ g_init (p_graph st') = g_init (p_graph st) /\ e_src e = snd sq /\
    (forall n, In n (node_list (p_graph st')) <-> In n (node_list (p_graph st)) \/ n = (s', e_dst e)) /\
    (forall n, In n (p_acc st') <-> In n (p_acc st) \/ (n = (s', e_dst e) /\ In (e_dst e) (a_acc ba))) /\
    (forall n, In n next' <-> In n next \/ (n = (s', e_dst e) /\ ~ In n (node_list (p_graph st)))) /\
    (forall x y d, trans (p_graph st') x d y <-> trans (p_graph st) x d y \/ (x = sq /\ y = (s', e_dst e) /\ same_items (plab k a) d)).
  Proof.
    intros Iv H [et [It [Es Ed]]] a L. unfold prod_succ1 in H. cbn [fst snd] in H. set (new := (s', e_dst e)) in *.
    destruct (beqb (e_src e) (snd sq)) eqn:Eb; [|discriminate]. apply beqb_eq in Eb. cbn [negb] in H.
    apply bind_Ok in H. destruct H as [g1 [H1 H]]. apply bind_Ok in H. destruct H as [es [H2 H]]. apply bind_Ok in H. destruct H as [g3 [H3 H]].
    apply Ok_inj in H. assert (Q1 := f_equal fst H). assert (Q2 := f_equal snd H). cbn [fst snd] in Q1, Q2. clear H.
    change (if k then g1 else set_label aeqb beqb new "ap" (PStates [e_dst e]) g1) with (relab k new g1) in H3.
    destruct (ts_edges_between (fst sq) s') as [es' [E' S']]. rewrite H2 in E'. apply Ok_inj in E'. subst es'.
    destruct (touch k new (p_graph st) (i_wf _ _ Iv) (i_ap _ _ Iv)) as [gt [Ht [Wt [Et [It' [Nt At]]]]]].
    assert (G1 : wf (ec k) g1 /\ g_edges g1 = g_edges (p_graph st) /\ g_init g1 = g_init (p_graph st) /\
      (forall n, In n (node_list g1) <-> In n (node_list (p_graph st)) \/ n = new) /\
      (k = false -> forall n d, In (n, d) (g_nodes (relab k new g1)) -> d = [("ap", PStates [snd n])])).
    { destruct (has_node peqb new (p_graph st)) eqn:Hn.
      - apply Ok_inj in H1. subst g1. apply (has_node_In peqb peqb_eq) in Hn. split; [apply Iv|]. do 2 (split; [reflexivity|]).
        split; [intro n; split; [auto|intros [J| ->]; auto]|]. intros -> n d J. unfold relab, set_label in J. cbn [g_nodes] in J. apply in_map_iff in J.
        destruct J as [[m b] [Q J]]. cbn [fst snd] in Q. pose proof (i_ap _ _ Iv eq_refl _ _ J) as ->. destruct (peqb new m) eqn:E; injection Q as <- <-; [|reflexivity].
        apply peqb_eq in E. subst m. reflexivity.
      - rewrite H1 in Ht. apply Ok_inj in Ht. subst gt. auto. }
    destruct G1 as [W1 [E1 [I1 [N1 A1]]]]. destruct (relab_edges k new g1) as [RE RI].
    assert (Pl : k = false -> forall e, In e (g_edges (relab k new g1)) -> e_attr e = []) by (intros Q x J; rewrite RE, E1 in J; exact (i_plain _ _ Iv Q x J)).
    destruct (add_ts_fold k sq new a es (relab k new g1) g3 (relab_wf k new g1 W1) Pl L) as [W3 [P3 [N3 [I3 [_ T3]]]]]; [intros x J; apply S' in J; apply J|exact H3|].
    assert (NE : es <> []) by (intros ->; assert (J : In et []) by (apply S'; auto); destruct J).
    assert (NL3 : node_list g3 = node_list g1) by (rewrite <- (relab_nodes k new g1); unfold node_list; rewrite N3; reflexivity).
    subst st'. split; [|split; [|split; [exact Eb|split; [|split; [|split]]]]]; cbn [p_graph p_acc].
    - split; cbn [p_graph]; [exact W3|exact P3|]. intros Q n d. rewrite N3. apply A1, Q.
    - rewrite I3, RI. exact I1.
    - intro n. rewrite NL3. apply N1.
    - intro n. destruct (existsb (beqb (e_dst e)) (a_acc ba)) eqn:M.
      + apply (mem_In beqb beqb_eq) in M. rewrite (add_to_In peqb peqb_eq). tauto.
      + assert (NM : ~ In (e_dst e) (a_acc ba)) by (intro J; apply (mem_In beqb beqb_eq) in J; congruence). tauto.
    - intro n. subst next'. destruct (has_node peqb new (p_graph st)) eqn:Hn.
      + apply (has_node_In peqb peqb_eq) in Hn. split; [auto|]. intros [J|[-> J]]; [exact J|contradiction].
      + rewrite (add_to_In peqb peqb_eq). assert (NM : ~ In new (node_list (p_graph st))) by (intro J; apply (has_node_In peqb peqb_eq) in J; congruence).
        split; [intros [J| ->]; auto|]. intros [J|[-> _]]; auto.
    - intros x y d. rewrite T3. assert (Q : trans (relab k new g1) x d y <-> trans (p_graph st) x d y) by (unfold trans; rewrite RE, E1; reflexivity).
      rewrite Q. tauto.
  Qed.

  Lemma find_prod_succ_Ok k sq s' en st st' next' : inv k st ->
    find_prod_succ aeqb beqb veqb k (cp k) ct sq s' ts ba en st = Ok (st', next') -> tstep ts (fst sq) s' -> forall a, label ts s' a ->
    inv k st' /\ g_init (p_graph st') = g_init (p_graph st) /\ (forall e, In e en -> e_src e = snd sq) /\
    (forall n, In n (node_list (p_graph st')) <-> In n (node_list (p_graph st)) \/ exists e, In e en /\ n = (s', e_dst e)) /\
    (forall n, In n (p_acc st') <-> In n (p_acc st) \/ exists e, In e en /\ n = (s', e_dst e) /\ In (e_dst e) (a_acc ba)) /\
    (forall n, In n next' <-> ~ In n (node_list (p_graph st)) /\ exists e, In e en /\ n = (s', e_dst e)) /\
    (forall x y d, trans (p_graph st') x d y <-> trans (p_graph st) x d y \/ exists e, In e en /\ x = sq /\ y = (s', e_dst e) /\ same_items (plab k a) d).
  Proof.
    intros Iv H Ts a L. unfold find_prod_succ in H.
    apply (fold_res_inv (prod1 k (cp k) ct sq s' ts ba) (fun l (x : pst A B V * list (A * B)) => inv k (fst x) /\ g_init (p_graph (fst x)) = g_init (p_graph st) /\ (forall e, In e l -> e_src e = snd sq) /\
    (forall n, In n (node_list (p_graph (fst x))) <-> In n (node_list (p_graph st)) \/ exists e, In e l /\ n = (s', e_dst e)) /\
    (forall n, In n (p_acc (fst x)) <-> In n (p_acc st) \/ exists e, In e l /\ n = (s', e_dst e) /\ In (e_dst e) (a_acc ba)) /\
    (forall n, In n (snd x) <-> ~ In n (node_list (p_graph st)) /\ exists e, In e l /\ n = (s', e_dst e)) /\
    (forall y z d, trans (p_graph (fst x)) y d z <-> trans (p_graph st) y d z \/ exists e, In e l /\ y = sq /\ z = (s', e_dst e) /\ same_items (plab k a) d)) en (st, []) (st', next')); [| |exact H].
    - cbn [fst snd]. split; [exact Iv|]. split; [reflexivity|]. split; [intros e []|]. split; [intro n; split; [auto|intros [J|[e [[] _]]]; exact J]|].
      split; [intro n; split; [auto|intros [J|[e [[] _]]]; exact J]|]. split; [intro n; split; [intros []|intros [_ [e [[] _]]]]|]. intros x y d. split; [auto|intros [J|[e [[] _]]]; exact J].
    - intros l1 e l2 [st1 n1] [st2 n2] E [Iv1 [I1 [S1 [N1 [A1 [X1 T1]]]]]] F. cbn [fst snd] in *.
      destruct (prod_succ1_Ok k sq s' e st1 n1 st2 n2 Iv1 F Ts a L) as [Iv2 [I2 [S2 [N2 [A2 [X2 T2]]]]]].
      split; [exact Iv2|]. split; [congruence|]. split; [intros x J; apply in_app_iff in J; destruct J as [J|[<-|[]]]; auto|].
      assert (Ex : forall P : edge B V -> Prop, (exists x, In x (l1 ++ [e]) /\ P x) <-> (exists x, In x l1 /\ P x) \/ P e).
      { intro P. split.
        - intros [x [J Px]]. apply in_app_iff in J. destruct J as [J|[<-|[]]]; [left; exists x|right]; auto.
        - intros [[x [J Px]]|Pe]; [exists x|exists e]; split; auto; apply in_or_app; [left|right; left]; auto. }
      split; [intro n; rewrite N2, N1, Ex; tauto|]. split; [intro n; rewrite A2, A1, Ex; tauto|].
      split; [|intros y z d; rewrite T2, T1, Ex; tauto]. intro n. rewrite X2, X1, N1, Ex. split.
      + intros [[J1 J2]|[-> J]]; [auto|]. split; auto.
      + intros [J1 [J2|J2]]; [auto|]. destruct (has_node peqb n (p_graph st1)) eqn:Hn.
        * apply (has_node_In peqb peqb_eq), N1 in Hn. destruct Hn as [J|J]; [contradiction|]. auto.
        * right. split; [exact J2|]. intro J. apply N1, (has_node_In peqb peqb_eq) in J. congruence.
  Qed.

  (** ** All successors of a product state *)
  Lemma wf_label s : In s (node_list ts) -> forall a, label ts s a -> exists d, In (s, d) (g_nodes ts).
  Proof. intros _ a [d [J _]]. eauto. Qed.
  Notation succs := (successors_of aeqb beqb veqb tl).
  (** After the successors in [l]. *)
  Definition after (k : bool) (sq : A * B) (st : pst A B V) (l : list A) (r : pst A B V * list (A * B) * option (list (A * B))) : Prop :=
      let st' := fst (fst r) in
      inv k st' /\ g_init (p_graph st') = g_init (p_graph st) /\
      (forall n, In n (node_list (p_graph st')) <-> In n (node_list (p_graph st)) \/ (In (fst n) l /\ pstep tl ts ba sq n)) /\
      (forall n, In n (p_acc st') <-> In n (p_acc st) \/ (In (fst n) l /\ pstep tl ts ba sq n /\ In (snd n) (a_acc ba))) /\
      (forall n, In n (snd (fst r)) <-> ~ In n (node_list (p_graph st)) /\ In (fst n) l /\ pstep tl ts ba sq n) /\
      (forall x y d, trans (p_graph st') x d y <-> trans (p_graph st) x d y \/
         (x = sq /\ In (fst y) l /\ pstep tl ts ba sq y /\ exists a, label ts (fst y) a /\ same_items (plab k a) d)) /\
      (forall m, snd r = Some m -> forall n, In n m -> ~ In n (node_list (p_graph st)) /\ pstep tl ts ba sq n).
  Lemma succ_fold_Ok k sq st ss r : inv k st -> NoDup ss -> (forall s', In s' ss -> tstep ts (fst sq) s') ->
    fold_res (succ1 aeqb beqb veqb tl k (cp k) cb ct sq ts ba) ss (st, [], None) = Ok r -> after k sq st ss r.
  Proof.
    intros Iv ND Ss H. apply (fold_res_inv (succ1 aeqb beqb veqb tl k (cp k) cb ct sq ts ba) (after k sq st)) in H; [exact H| |].
    - unfold after. cbn zeta. cbn [fst snd]. split; [exact Iv|]. split; [reflexivity|]. split; [intro n; split; [auto|intros [J|[[] _]]; exact J]|].
      split; [intro n; split; [auto|intros [J|[[] _]]; exact J]|]. split; [intro n; split; [intros []|intros [_ [[] _]]]|].
      split; [intros x y d; split; [auto|intros [J|[_ [[] _]]]; exact J]|]. intros l [=].
    - intros l1 s' l2 [[st1 n1] o1] [[st2 n2] o2] E [Iv1 [I1 [N1 [A1 [X1 [T1 O1]]]]]] F. unfold after. cbn zeta in *. cbn [fst snd] in *.
      assert (Ts : tstep ts (fst sq) s') by (apply Ss; rewrite E; apply in_or_app; right; left; reflexivity).
      assert (NI : ~ In s' l1).
      { rewrite E in ND. apply NoDup_remove_2 in ND. intro J. apply ND, in_or_app. auto. }
      unfold succ1 in F. apply bind_Ok in F. destruct F as [en [Fe F]]. apply find_ba_succ_Ok in Fe. destruct Fe as [a [L Sn]].
      assert (Ps : forall n, (fst n = s' /\ pstep tl ts ba sq n) <-> exists e, In e en /\ n = (s', e_dst e)).
      { intros [n1' n2']. cbn [fst]. split.
        - intros [-> [_ [a' [La [e [Je [Es [Ed En]]]]]]]]. cbn [fst snd] in *. rewrite (label_unique _ _ _ La L) in En. exists e. split; [apply Sn; auto|]. congruence.
        - intros [e [Je Q]]. injection Q as -> ->. apply Sn in Je. destruct Je as [J1 [J2 J3]]. split; [reflexivity|]. split; [exact Ts|]. exists a. split; [exact L|]. exists e. auto. }
      assert (In1 : forall x, In x (l1 ++ [s']) <-> In x l1 \/ x = s') by (intro x; rewrite in_app_iff; cbn; intuition).
      assert (F' : (en = [] /\ (st2, n2, o2) = (st1, n1, o1)) \/ exists y, find_prod_succ aeqb beqb veqb k (cp k) ct sq s' ts ba en st1 = Ok y /\
          st2 = fst y /\ n2 = fold_left (fun l z => add_to peqb z l) (snd y) n1 /\ o2 = Some (snd y)).
      { destruct en as [|e0 en0]; [left; split; [reflexivity|congruence]|]. right. apply bind_Ok in F. destruct F as [y [F1 F2]]. exists y. injection F2 as <- <- <-. auto. }
      clear F. destruct F' as [[-> F]|[[sty ny] [F1 [-> [-> ->]]]]].
      + injection F as -> -> ->. assert (NP : forall n, fst n = s' -> pstep tl ts ba sq n -> False) by (intros n Q P; destruct (proj1 (Ps n) (conj Q P)) as [e [[] _]]).
        split; [exact Iv1|]. split; [exact I1|].
        split; [intro n; rewrite N1, In1; split; [tauto|intros [J|[[J|J] P]]; auto; destruct (NP _ J P)]|].
        split; [intro n; rewrite A1, In1; split; [tauto|intros [J|[[J|J] [P P']]]; auto; destruct (NP _ J P)]|].
        split; [intro n; rewrite X1, In1; split; [tauto|intros [J' [[J|J] P]]; auto; destruct (NP _ J P)]|].
        split; [|exact O1]. intros x y d. rewrite T1, In1. split; [tauto|intros [J'|[J1 [[J|J] [P P']]]]; auto; destruct (NP _ J P)].
      + cbn [fst snd].
        destruct (find_prod_succ_Ok k sq s' en st1 sty ny Iv1 F1 Ts a L) as [Iv2 [I2 [_ [N2 [A2 [X2 T2]]]]]].
        split; [exact Iv2|]. split; [congruence|]. split; [|split; [|split; [|split]]].
        * intro n. rewrite N2, N1, <- Ps, In1. tauto.
        * intro n. rewrite A2, A1, In1. split.
          -- intros [[J|J]|[e [J1 [J2 J3]]]]; [tauto|tauto|]. right. assert (Q : fst n = s' /\ pstep tl ts ba sq n) by (apply Ps; eauto). split; [tauto|]. split; [tauto|]. rewrite J2. exact J3.
          -- intros [J|[[J|J] [P Q]]]; [tauto|tauto|]. right. destruct (proj1 (Ps n) (conj J P)) as [e [J1 J2]]. exists e. split; [exact J1|]. split; [exact J2|]. rewrite J2 in Q. exact Q.
        * intro n. rewrite (add_all_In peqb peqb_eq), X1, X2, <- Ps, N1, In1. split; [|intros [J1 [[J2|J2] J3]]; [tauto|]; right; split; [intros [J|[J _]]; [tauto|]; rewrite J2 in J; contradiction|tauto]].
          intros [J|[J1 J2]]; tauto.
        * intros x y d. rewrite T2, T1, In1. split.
          -- intros [[J|J]|[e [J1 [-> [J2 J3]]]]]; [tauto|tauto|]. right. split; [reflexivity|]. assert (Q : fst y = s' /\ pstep tl ts ba sq y) by (apply Ps; eauto).
             split; [tauto|]. split; [tauto|]. exists a. rewrite (proj1 Q). auto.
          -- intros [J|[-> [[J|J] [P Q]]]]; [tauto|tauto|]. right. destruct (proj1 (Ps y) (conj J P)) as [e [J1 J2]]. exists e. do 3 (split; [auto|]).
             destruct Q as [a' [La Sm]]. rewrite J in La. rewrite (label_unique _ _ _ L La). exact Sm.
        * intros m [= <-] n J. apply X2 in J. destruct J as [J1 J2]. split; [intro Q; apply J1, N1; auto|]. apply Ps in J2. apply J2.
  Qed.

  Lemma successors_of_Ok k sq st r : inv k st -> succs k (cp k) cb ct sq ts ba st = Ok r ->
    let st' := fst (fst r) in
    inv k st' /\ g_init (p_graph st') = g_init (p_graph st) /\
    (forall n, In n (node_list (p_graph st')) <-> In n (node_list (p_graph st)) \/ pstep tl ts ba sq n) /\
    (forall n, In n (p_acc st') <-> In n (p_acc st) \/ (pstep tl ts ba sq n /\ In (snd n) (a_acc ba))) /\
    (forall n, In n (snd (fst r)) <-> ~ In n (node_list (p_graph st)) /\ pstep tl ts ba sq n) /\
    (forall x y d, trans (p_graph st') x d y <-> trans (p_graph st) x d y \/
       (x = sq /\ pstep tl ts ba sq y /\ exists a, label ts (fst y) a /\ same_items (plab k a) d)) /\
    (forall l, snd r = Some l -> forall n, In n l -> ~ In n (node_list (p_graph st)) /\ pstep tl ts ba sq n).
  Proof.
    intros Iv H. cbn zeta. unfold successors_of in H. set (ss := uniq aeqb (successors aeqb (fst sq) ts)) in *.
    assert (Ss : forall s', In s' ss <-> tstep ts (fst sq) s') by (intro s'; unfold ss; rewrite (uniq_In aeqb aeqb_eq); apply (successors_In aeqb aeqb_eq)).
    apply succ_fold_Ok in H; [|exact Iv|apply uniq_NoDup, aeqb_eq|intros s' J; apply Ss, J].
    unfold after in H. cbn zeta in H. destruct H as [C1 [C2 [C3 [C4 [C5 [C6 C7]]]]]]. assert (P : forall n, pstep tl ts ba sq n -> In (fst n) ss) by (intros n [T _]; apply Ss, T).
      split; [exact C1|]. split; [exact C2|]. split; [intro n; rewrite C3; split; [tauto|intros [J|J]; auto]|].
      split; [intro n; rewrite C4; split; [tauto|intros [J|[J1 J2]]; auto]|]. split; [intro n; rewrite C5; split; [tauto|intros [J1 J2]; auto]|].
      split; [|exact C7]. intros x y d. rewrite C6. split; [tauto|]. intros [J|[J1 [J2 J3]]]; [auto|]. right. auto.
  Qed.

  (** ** Initial states *)
  Lemma init_states_Ok k st : init_states aeqb beqb veqb tl k (cp k) cb ts ba = Ok st ->
    inv k st /\ g_edges (p_graph st) = [] /\
    (forall n, In n (node_list (p_graph st)) <-> pinit tl ts ba n) /\ (forall n, In n (g_init (p_graph st)) <-> pinit tl ts ba n) /\
    (forall n, In n (p_acc st) <-> pinit tl ts ba n /\ In (snd n) (a_acc ba)).
  Proof.
    set (P := fun l (n : A * B) => exists q0 a, In (fst n, q0) l /\ label ts (fst n) a /\ bstep tl ba q0 a (snd n)).
    intro H. unfold init_states in H.
    assert (G : inv k st /\ g_edges (p_graph st) = [] /\ (forall n, In n (node_list (p_graph st)) <-> P (list_prod (g_init ts) (g_init (a_graph ba))) n) /\
       (forall n, In n (g_init (p_graph st)) <-> P (list_prod (g_init ts) (g_init (a_graph ba))) n) /\
       (forall n, In n (p_acc st) <-> P (list_prod (g_init ts) (g_init (a_graph ba))) n /\ In (snd n) (a_acc ba))).
    2: { assert (Q : forall n, P (list_prod (g_init ts) (g_init (a_graph ba))) n <-> pinit tl ts ba n).
         { intro n. unfold P, pinit. split.
           - intros [q0 [a [J K]]]. apply in_prod_iff in J. split; [apply J|]. exists q0, a. tauto.
           - intros [J [q0 [a [J' K]]]]. exists q0, a. split; [apply in_prod; auto|exact K]. }
         destruct G as [G1 [G2 [G3 [G4 G5]]]]. split; [exact G1|]. split; [exact G2|]. split; [intro n; rewrite G3; apply Q|]. split; [intro n; rewrite G4; apply Q|]. intro n. rewrite G5, Q. reflexivity. }
    match type of H with fold_res ?f _ _ = _ => apply (fold_res_inv f (fun l st => inv k st /\ g_edges (p_graph st) = [] /\ (forall n, In n (node_list (p_graph st)) <-> P l n) /\
       (forall n, In n (g_init (p_graph st)) <-> P l n) /\ (forall n, In n (p_acc st) <-> P l n /\ In (snd n) (a_acc ba)))) in H; [exact H| |] end.
    - cbn [p_graph p_acc]. assert (NP : forall n, ~ P [] n) by (intros n [q0 [a [[] _]]]). split; [split; cbn; [apply wf_empty|intros _ e []|intros _ n d []]|]. split; [reflexivity|].
      split; [intro n; split; [intros []|intro J; destruct (NP n J)]|]. split; [intro n; split; [intros []|intro J; destruct (NP n J)]|]. intro n; split; [intros []|intros [J _]; destruct (NP n J)].
    - intros l1 [s0 q0] l2 st1 st2 _ [Iv1 [E1 [N1 [I1 A1]]]] F. cbn [fst snd] in F. apply bind_Ok in F. destruct F as [en [Fe F]]. apply find_ba_succ_Ok in Fe. destruct Fe as [a [L Sn]].
      set (R := fun (l : list (edge B V)) (n : A * B) => exists e, In e l /\ n = (s0, e_dst e)).
      assert (Pn : forall n, P (l1 ++ [(s0, q0)]) n <-> P l1 n \/ R en n).
      { intros [n1 n2]. unfold P, R. cbn [fst snd]. split.
        - intros [q [b [J [Lb [e [Je [Es [Ed En]]]]]]]]. apply in_app_iff in J. destruct J as [J|[Q|[]]]; [left; exists q, b; split; [exact J|]; split; [exact Lb|]; exists e; auto|].
          injection Q as -> ->. right. exists e. rewrite (label_unique _ _ _ Lb L) in En. split; [apply Sn; auto|congruence].
        - intros [[q [b [J K]]]|[e [Je Q]]]; [exists q, b; split; [apply in_or_app; auto|exact K]|]. injection Q as -> ->. exists q0, a. split; [apply in_or_app; right; left; reflexivity|].
          split; [exact L|]. apply Sn in Je. exists e. tauto. }
      assert (G : inv k st2 /\ g_edges (p_graph st2) = [] /\ (forall n, In n (node_list (p_graph st2)) <-> P l1 n \/ R en n) /\
         (forall n, In n (g_init (p_graph st2)) <-> P l1 n \/ R en n) /\ (forall n, In n (p_acc st2) <-> (P l1 n \/ R en n) /\ In (snd n) (a_acc ba))).
      2: { destruct G as [G1 [G2 [G3 [G4 G5]]]]. split; [exact G1|]. split; [exact G2|]. split; [intro n; rewrite G3, Pn; reflexivity|]. split; [intro n; rewrite G4, Pn; reflexivity|]. intro n; rewrite G5, Pn; reflexivity. }
      match type of F with fold_res ?f _ _ = _ => apply (fold_res_inv f (fun l st2 => inv k st2 /\ g_edges (p_graph st2) = [] /\ (forall n, In n (node_list (p_graph st2)) <-> P l1 n \/ R l n) /\
         (forall n, In n (g_init (p_graph st2)) <-> P l1 n \/ R l n) /\ (forall n, In n (p_acc st2) <-> (P l1 n \/ R l n) /\ In (snd n) (a_acc ba)))) in F; [exact F| |] end.
      + assert (NR : forall n, ~ R [] n) by (intros n [e [[] _]]). split; [exact Iv1|]. split; [exact E1|].
        split; [intro n; rewrite N1; specialize (NR n); tauto|]. split; [intro n; rewrite I1; specialize (NR n); tauto|]. intro n; rewrite A1; specialize (NR n); tauto.
      + intros m1 e m2 sta stb _ [Iva [Ea [Na [Ia Aa]]]] K. unfold init1 in K. apply bind_Ok in K. destruct K as [g1 [K1 K]]. apply bind_Ok in K. destruct K as [g2 [K2 K]].
        set (new := (s0, e_dst e)) in *. change (if k then g2 else set_label aeqb beqb new "ap" (PStates [e_dst e]) g2) with (relab k new g2) in K. apply Ok_inj in K. subst stb. cbn [p_graph p_acc].
        assert (Rn : forall n, R (m1 ++ [e]) n <-> R m1 n \/ n = new).
        { intro n. unfold R. split; [intros [x [J Q]]; apply in_app_iff in J; destruct J as [J|[<-|[]]]; [left; exists x; auto|auto]|].
          intros [[x [J Q]]| ->]; [exists x|exists e]; split; auto; apply in_or_app; [left|right; left]; auto. }
        destruct (touch k new (p_graph sta) (i_wf _ _ Iva) (i_ap _ _ Iva)) as [gt [Ht [Wt [Et [It' [Nt At]]]]]]. rewrite K1 in Ht. apply Ok_inj in Ht. subst gt.
        destruct (add_initial_Ok peqb weqb peqb_eq (ec k) new g1 g2 K2) as [_ [D2 [D3 [D4 D5]]]]. specialize (D5 Wt).
        destruct (relab_edges k new g2) as [RE RI].
        assert (NL : node_list (relab k new g2) = node_list g1) by (rewrite relab_nodes; unfold node_list; rewrite D2; reflexivity).
        split; [|split; [|split; [|split]]].
        * split; cbn [p_graph]; [apply relab_wf, D5|intros _ x J; rewrite RE, D3, Et, Ea in J; destruct J|]. intros Q n d J. apply (At Q n d). clear - J D2. destruct k; unfold relab, set_label in *; cbn [g_nodes] in *; rewrite D2 in J; exact J.
        * rewrite RE, D3, Et. exact Ea.
        * intro n. rewrite NL, Nt, Na, Rn. tauto.
        * intro n. rewrite RI, D4, It', Ia, Rn. tauto.
        * intro n. rewrite Rn. destruct (existsb (beqb (e_dst e)) (a_acc ba)) eqn:M.
          -- apply (mem_In beqb beqb_eq) in M. rewrite (add_to_In peqb peqb_eq), Aa. split; [intros [J| ->]; [tauto|]; split; [auto|exact M]|]. intros [[J|[J| ->]] Q]; auto.
          -- rewrite Aa. split; [tauto|]. intros [[J|[J| ->]] Q]; auto. apply (mem_In beqb beqb_eq) in Q. cbn [snd new] in Q. congruence.
  Qed.

  (** ** The loop *)
  Context (pick : nat -> list (A * B) -> nat).
  Lemma pop_spec n l : match pop pick n l with
    | None => l = []
    | Some (x, r) => NoDup l -> NoDup r /\ ~ In x r /\ forall y, In y l <-> y = x \/ In y r
    end.
  Proof.
    destruct l as [|a l]; [reflexivity|]. unfold pop. set (m := a :: l) in *. set (i := pick n m mod List.length m).
    assert (Li : i < List.length m) by (apply Nat.mod_upper_bound; discriminate). clearbody i.
    assert (E : m = firstn i m ++ nth i m a :: skipn (S i) m).
    { clear - Li. revert i Li. generalize m. clear m. induction m as [|y m IH]; intros i Li; [cbn in Li; lia|]. destruct i as [|i]; [reflexivity|].
      change (y :: m = y :: firstn i m ++ nth i m a :: skipn (S i) m). f_equal. apply IH. cbn in Li. lia. }
    intro ND. rewrite E in ND. split; [apply NoDup_remove_1 in ND; exact ND|]. split; [apply NoDup_remove_2 in ND; exact ND|].
    intro y. rewrite E at 1. rewrite !in_app_iff. cbn [In]. intuition.
  Qed.

  Record linv (queue visited : list (A * B)) (st : pst A B V) : Prop := {
    l_inv : inv false st; l_nq : NoDup queue; l_nv : NoDup visited; l_dis : forall x, In x queue -> ~ In x visited;
    l_nodes : forall n, In n (node_list (p_graph st)) <-> In n queue \/ In n visited;
    l_reach : forall n, In n (node_list (p_graph st)) -> reach tl ts ba n;
    l_acc : forall n, In n (p_acc st) <-> In n (node_list (p_graph st)) /\ In (snd n) (a_acc ba);
    l_trans : forall x y d, trans (p_graph st) x d y <-> In x visited /\ pstep tl ts ba x y /\ d = [] }.
  Lemma plab_false a d : same_items (plab false a) d <-> d = [].
  Proof. cbn [plab]. split; [intro H; apply items_nil, same_items_sym, H|intros ->; apply same_items_refl]. Qed.
  Lemma loop_step sq queue visited st r : linv (sq :: queue) visited st ->
    succs false (cp false) cb ct sq ts ba st = Ok r ->
    linv (fold_left (fun l z => add_to peqb z l) (filter (fun x => negb (existsb (peqb x) (add_to peqb sq visited))) (snd (fst r))) queue)
         (add_to peqb sq visited) (fst (fst r)) /\ g_init (p_graph (fst (fst r))) = g_init (p_graph st).
  Proof.
    intros [L1 L2 L3 L4 L5 L6 L7 L8] H. destruct (successors_of_Ok false sq st r L1 H) as [C1 [C2 [C3 [C4 [C5 [C6 _]]]]]]. split; [|exact C2].
    set (new := filter _ _).
    assert (NV : ~ In sq visited) by (apply L4; left; reflexivity). assert (RS : reach tl ts ba sq) by (apply L6, L5; left; left; reflexivity).
    inversion L2 as [|? ? NQ NDq]; subst.
    assert (Ne : forall x, In x new <-> ~ In x (node_list (p_graph st)) /\ pstep tl ts ba sq x).
    { intro x. unfold new. rewrite filter_In, C5, negb_true_iff. split; [tauto|]. intros J. split; [exact J|].
      destruct (existsb (peqb x) (add_to peqb sq visited)) eqn:M; [|reflexivity]. apply (mem_In peqb peqb_eq), (add_to_In peqb peqb_eq) in M. exfalso. apply (proj1 J), L5.
      destruct M as [M| ->]; [right; exact M|left; left; reflexivity]. }
    split.
    - exact C1.
    - apply add_all_NoDup; [exact peqb_eq|exact NDq].
    - apply add_to_NoDup; [exact peqb_eq|exact L3].
    - intros x J K. apply (add_all_In peqb peqb_eq) in J. apply (add_to_In peqb peqb_eq) in K. destruct J as [J|J].
      + destruct K as [K| ->]; [exact (L4 x (or_intror J) K)|contradiction].
      + apply Ne in J. apply (proj1 J), L5. destruct K as [K| ->]; [right; exact K|left; left; reflexivity].
    - intro n. rewrite (add_all_In peqb peqb_eq), (add_to_In peqb peqb_eq), Ne, C3, L5. cbn [In]. split.
      + intros [[[Q|J]|J]|J]; subst; auto. destruct (has_node peqb n (p_graph st)) eqn:Hn.
        * apply (has_node_In peqb peqb_eq), L5 in Hn. destruct Hn as [[Q|K]|K]; subst; auto.
        * left. right. split; [|exact J]. intro K. apply L5, (has_node_In peqb peqb_eq) in K. congruence.
      + intros [[J|J]|[J|J]]; subst; tauto.
    - intros n J. apply C3 in J. destruct J as [J|J]; [auto|]. eapply reach_step; eauto.
    - intro n. rewrite C4, C3, L7. tauto.
    - intros x y d. rewrite C6, L8, (add_to_In peqb peqb_eq). split.
      + intros [J|[-> [P [a [_ Sm]]]]]; [tauto|]. apply plab_false in Sm. auto.
      + intros [[J| ->] [P ->]]; [auto|]. right. split; [reflexivity|]. split; [exact P|]. destruct P as [_ [a [La _]]]. exists a. split; [exact La|]. apply plab_false. reflexivity.
  Qed.
  Lemma linv_queue q q' v st : (forall x, In x q <-> In x q') -> NoDup q' -> linv q v st -> linv q' v st.
  Proof.
    intros E N [L1 L2 L3 L4 L5 L6 L7 L8]. split; auto; [intros x J; apply L4, E, J|]. intro n. rewrite L5, E. reflexivity.
  Qed.
  Notation ploop := (prod_loop aeqb beqb veqb tl pick (cp false) cb ct ts ba).
  Lemma prod_loop_Ok fuel queue visited st st' : linv queue visited st -> ploop fuel queue visited st = Ok st' ->
    g_init (p_graph st') = g_init (p_graph st) /\ exists visited', linv [] visited' st'.
  Proof.
    revert queue visited st. induction fuel as [|f IH]; intros queue visited st Lv H; cbn [prod_loop] in H.
    - destruct queue; [|discriminate]. apply Ok_inj in H. subst. eauto.
    - pose proof (pop_spec f queue) as Pp. destruct (pop pick f queue) as [[sq rest]|].
      + destruct (Pp (l_nq _ _ _ Lv)) as [P1 [P2 P3]]. apply bind_Ok in H. destruct H as [r [Hr H]].
        assert (Lv' : linv (sq :: rest) visited st) by (apply (linv_queue queue); [intro x; rewrite P3; cbn; intuition|constructor; auto|exact Lv]).
        destruct (loop_step sq rest visited st r Lv' Hr) as [L I]. destruct (IH _ _ _ L H) as [E [v' Lf]]. split; [congruence|eauto].
      + apply Ok_inj in H. subst. eauto.
  Qed.

  (** No step of the construction reports that rounds are used up. *)
  Definition in_time {X} (r : res X) : Prop := r <> Err "out of fuel".
  Lemma in_time_bind {X Y} (r : res X) (f : X -> res Y) : in_time r -> (forall x, in_time (f x)) -> in_time (bind r f).
  Proof. intros H K. destruct r as [x|e]; [apply K|]. cbn. intro Q. apply H. congruence. Qed.
  Lemma in_time_fold {X Y} (f : X -> Y -> res Y) l b : (forall x b, in_time (f x b)) -> in_time (fold_res f l b).
  Proof. intro H. revert b. induction l as [|x l IH]; intro b; cbn [fold_res]; [discriminate|]. apply in_time_bind; auto. Qed.
  Lemma in_time_mapr {X Y} (f : X -> res Y) l : (forall x, in_time (f x)) -> in_time (mapr f l).
  Proof. intro H. induction l as [|x l IH]; cbn [mapr]; [discriminate|]. apply in_time_bind; auto. intro y. apply in_time_bind; [exact IH|discriminate]. Qed.
  Lemma in_time_typed {W} (ty : types W) d e : in_time (typed_update_res ty d e).
  Proof.
    unfold typed_update_res. revert e. induction d as [|[k v] d IH]; intro e; cbn [typed_update]; [discriminate|].
    destruct (typed_set ty k v e) as [e'|m] eqn:E; [apply IH|]. unfold typed_set in E. intro Q. injection Q as ->. repeat match type of E with context [if ?b then _ else _] => destruct b | context [match ?b with Some _ => _ | None => _ end] => destruct b end; discriminate.
  Qed.
  Lemma in_time_find {N} (neqb : N -> N -> bool) (c : config V) from to want (g : graph N V) : in_time (find_transitions neqb veqb c from to want g).
  Proof.
    unfold find_transitions. apply in_time_bind; [|discriminate]. apply in_time_mapr. intro e. destruct want; [discriminate|]. destruct (e_attr e); [discriminate|]. apply in_time_bind; [apply in_time_typed|discriminate].
  Qed.
  Lemma in_time_node k n (g : graph (A * B) (pval B V)) : in_time (add_node peqb (cp k) n [] true g).
  Proof.
    unfold add_node, typed_attr. apply in_time_bind; [apply in_time_bind; [apply in_time_typed|intro; apply in_time_typed]|]. intro t. apply in_time_bind; [|discriminate]. unfold check_untyped. destruct (_ && _); discriminate.
  Qed.
  Lemma in_time_edge c u v d (g : graph (A * B) (pval B V)) : in_time (add_edge peqb weqb c u v None d true g).
  Proof.
    unfold add_edge, typed_attr. destruct (negb _); [discriminate|]. destruct (negb _); [discriminate|]. apply in_time_bind; [apply in_time_bind; [apply in_time_typed|intro; apply in_time_typed]|]. intro t.
    destruct (existsb _ _); [discriminate|]. destruct (existsb _ _); [discriminate|]. apply in_time_bind; [|discriminate]. unfold check_untyped. destruct (_ && _); discriminate.
  Qed.
  Lemma in_time_ap s : in_time (ap_of aeqb s ts).
  Proof. unfold ap_of. destruct (find _ _); [|discriminate]. destruct (lookup _ _); discriminate. Qed.
  Lemma in_time_ba q s : in_time (find_ba_succ aeqb beqb veqb tl cb q s ts ba).
  Proof. unfold find_ba_succ. apply in_time_bind; [apply in_time_ap|]. intro a. apply in_time_bind; [apply in_time_find|]. intro l. apply in_time_bind; [apply in_time_find|discriminate]. Qed.
  Lemma in_time_init k : in_time (init_states aeqb beqb veqb tl k (cp k) cb ts ba).
  Proof.
    unfold init_states. apply in_time_fold. intros x st. apply in_time_bind; [apply in_time_ba|]. intro en. apply in_time_fold. intros e st1. unfold init1.
    apply in_time_bind; [apply in_time_node|]. intro g1. apply in_time_bind; [unfold add_initial; destruct (has_node _ _ _); discriminate|discriminate].
  Qed.
  Lemma in_time_succ k sq st : in_time (succs k (cp k) cb ct sq ts ba st).
  Proof.
    unfold successors_of. apply in_time_fold. intros s' x. unfold succ1. apply in_time_bind; [apply in_time_ba|]. intro en. destruct en; [discriminate|]. apply in_time_bind; [|discriminate].
    unfold find_prod_succ. apply in_time_fold. intros e0 y. unfold prod_succ1. destruct (negb _); [discriminate|]. apply in_time_bind; [destruct (has_node _ _ _); [discriminate|apply in_time_node]|].
    intro g1. apply in_time_bind; [apply in_time_find|]. intro es. apply in_time_bind; [|discriminate]. apply in_time_fold. intros e1 g. unfold add_ts_edge. destruct k.
    - apply in_time_bind; [apply in_time_ap|]. intro a. apply in_time_edge.
    - destruct (e_attr e1); [apply in_time_edge|]. destruct (lookup _ _); [apply in_time_edge|discriminate].
  Qed.

  Notation product := (ts_ba_sync_prod aeqb beqb veqb tl pick cb ct ts ba).
  (** C33: when the construction succeeds, its result is the reachable synchronous product,
      whatever order the queue is emptied in. *)
  Theorem sync_prod_spec st : product = Ok st ->
    (forall n, In n (node_list (p_graph st)) <-> reach tl ts ba n) /\
    (forall n, In n (g_init (p_graph st)) <-> pinit tl ts ba n) /\
    (forall x d y, trans (p_graph st) x d y <-> reach tl ts ba x /\ pstep tl ts ba x y /\ d = []) /\
    (forall n, In n (p_acc st) <-> reach tl ts ba n /\ In (snd n) (a_acc ba)) /\
    (forall n d, In (n, d) (g_nodes (p_graph st)) -> d = [("ap", PStates [snd n])]) /\
    NoDup (node_list (p_graph st)).
  Proof.
    intro H. unfold ts_ba_sync_prod in H. apply bind_Ok in H. destruct H as [st0 [H0 H]]. change (fts_config beqb (node_list (a_graph ba))) with (cp false) in H0, H.
    apply init_states_Ok in H0. destruct H0 as [Iv [E0 [N0 [I0 A0]]]].
    assert (Lv : linv (g_init (p_graph st0)) [] st0).
    { split; [exact Iv|exact (wf_init_nodup _ _ (i_wf _ _ Iv))|constructor|intros x _ []| | | |].
      - intro n. rewrite N0, I0. cbn. tauto.
      - intros n J. apply reach_init, N0, J.
      - intro n. rewrite A0, N0. reflexivity.
      - intros x y d. split; [intros [e [J _]]; rewrite E0 in J; destruct J|intros [[] _]]. }
    destruct (prod_loop_Ok _ _ _ _ _ Lv H) as [Ei [v [L1 L2 L3 L4 L5 L6 L7 L8]]].
    assert (R : forall n, In n (node_list (p_graph st)) <-> reach tl ts ba n).
    { intro n. split; [apply L6|]. intro Rn. induction Rn as [x Px|x y Rx IHx Px].
      - assert (J : In x (g_init (p_graph st))) by (rewrite Ei; apply I0, Px).
        clear - J H Px N0 Ei Lv L5 I0 L1 wf_ts wf_ba aeqb_eq beqb_eq veqb_eq.
        enough (G : forall fuel q v0 s0, linv q v0 s0 -> ploop fuel q v0 s0 = Ok st -> forall n, In n (node_list (p_graph s0)) -> In n (node_list (p_graph st))) by (apply (G _ _ _ _ Lv H), N0, Px).
        clear - wf_ts wf_ba aeqb_eq beqb_eq veqb_eq. induction fuel as [|f IH]; intros q v s0 Lv H n J; cbn [prod_loop] in H.
        + destruct q; [|discriminate]. apply Ok_inj in H. subst. exact J.
        + pose proof (pop_spec f q) as Pp. destruct (pop pick f q) as [[sq rest]|]; [|apply Ok_inj in H; subst; exact J].
          destruct (Pp (l_nq _ _ _ Lv)) as [P1 [P2 P3]]. apply bind_Ok in H. destruct H as [r [Hr H]].
          assert (Lv' : linv (sq :: rest) v s0) by (apply (linv_queue q); [intro x; rewrite P3; cbn; intuition|constructor; auto|exact Lv]).
          destruct (loop_step sq rest v s0 r Lv' Hr) as [L _]. apply (IH _ _ _ L H). destruct (successors_of_Ok false sq s0 r (l_inv _ _ _ Lv) Hr) as [_ [_ [C3 _]]]. apply C3. auto.
      - assert (T : trans (p_graph st) x [] y) by (apply L8; split; [apply L5 in IHx; destruct IHx as [[]|J]; exact J|auto]).
        destruct T as [e [J [_ [<- _]]]]. apply (wf_ends _ _ (i_wf _ _ L1)), J. }
    split; [exact R|]. split; [intro n; rewrite Ei; apply I0|]. split; [|split; [|split]].
    - intros x d y. rewrite L8, <- R, L5. cbn. tauto.
    - intro n. rewrite L7, R. reflexivity.
    - exact (i_ap _ _ L1 eq_refl).
    - exact (wf_nodes _ _ (i_wf _ _ L1)).
  Qed.

  (** ** Runs of the product are pairs of runs of the factors *)
  Theorem sync_prod_runs st : product = Ok st -> forall r,
    graph_run (p_graph st) r <-> sync_run tl ts ba (fun i => fst (r i)) (fun i => snd (r i)).
  Proof.
    intros H r. destruct (sync_prod_spec st H) as [R [I [T _]]]. unfold graph_run, sync_run. split.
    - intros [J K]. apply I in J. destruct J as [J [q0 [a0 [Jq [La Bq]]]]].
      assert (P : forall i, pstep tl ts ba (r i) (r (S i))) by (intro i; destruct (K i) as [d Td]; apply T in Td; apply Td).
      assert (AL : forall i, exists a, ap_of aeqb (fst (r i)) ts = Ok a).
      { intros [|i]; [exists a0; apply ap_of_spec, La|]. destruct (P i) as [_ [a [L _]]]. exists a. apply ap_of_spec, L. }
      split; [exact J|]. split; [intro i; apply P|]. exists q0, (fun i => match ap_of aeqb (fst (r i)) ts with Ok a => a | Err _ => tl end).
      assert (LL : forall i, label ts (fst (r i)) (match ap_of aeqb (fst (r i)) ts with Ok a => a | Err _ => tl end)) by (intro i; destruct (AL i) as [a Ea]; rewrite Ea; apply ap_of_spec, Ea).
      split; [exact Jq|]. split; [exact LL|]. split; [rewrite (label_unique _ _ _ (LL 0) La); exact Bq|].
      intro i. destruct (P i) as [_ [a [L Bs]]]. rewrite (label_unique _ _ _ (LL (S i)) L). exact Bs.
    - intros [J [Ts [q0 [a [Jq [L [B0 Bs]]]]]]].
      assert (P0 : pinit tl ts ba (r 0)) by (split; [exact J|]; exists q0, (a 0); auto).
      assert (P : forall i, pstep tl ts ba (r i) (r (S i))) by (intro i; split; [apply Ts|]; exists (a (S i)); auto).
      assert (Rr : forall i, reach tl ts ba (r i)) by (induction i as [|i IH]; [apply reach_init, P0|eapply reach_step; eauto]).
      split; [apply I, P0|]. intro i. exists []. apply T. auto.
  Qed.
  Theorem sync_prod_acceptance st : product = Ok st -> forall r, graph_run (p_graph st) r ->
    (infinitely_often (fun i => In (r i) (p_acc st)) <-> infinitely_often (fun i => In (snd (r i)) (a_acc ba))).
  Proof.
    intros H r G. destruct (sync_prod_spec st H) as [R [I [T [Ac _]]]].
    assert (Rr : forall i, reach tl ts ba (r i)).
    { destruct G as [J K]. induction i as [|i IH]; [apply reach_init, I, J|]. destruct (K i) as [d Td]. apply T in Td. eapply reach_step; [exact IH|apply Td]. }
    unfold infinitely_often. split; intros Q n; destruct (Q n) as [m [Lm Jm]]; exists m; split; auto; [apply Ac in Jm; apply Jm|apply Ac; auto].
  Qed.

  (** ** When the construction succeeds *)
  Definition prod_args : Prop :=
    (forall s, In s (g_init ts) -> In s (node_list ts)) /\
    (forall s, In s (node_list ts) -> exists a, label ts s a /\ a <> tl) /\
    (forall e, In e (g_edges ts) -> e_attr e = []) /\
    (forall e e', In e (g_edges ts) -> In e' (g_edges ts) -> e_src e = e_src e' -> e_dst e = e_dst e' -> e = e') /\
    (forall e, In e (g_edges (a_graph ba)) -> e_attr e <> []) /\
    (forall s a e e', label ts s a -> In e (g_edges (a_graph ba)) -> In e' (g_edges (a_graph ba)) ->
       e_src e = e_src e' -> e_dst e = e_dst e' -> enables tl a e -> enables tl a e' -> e = e').
  Lemma find_transitions_NoDup {N} (neqb : N -> N -> bool) (c : config V) from to want (g : graph N V) l :
    NoDup (g_edges g) -> find_transitions neqb veqb c from to want g = Ok l -> NoDup l.
  Proof.
    intros ND H. unfold find_transitions in H. apply bind_Ok in H. destruct H as [oks [H K]]. apply Ok_inj in K. subst l.
    apply nodup_filter. replace (map fst oks) with (filter (fun e => match from with None => true | Some l => nmem neqb (e_src e) l end && match to with None => true | Some l => nmem neqb (e_dst e) l end) (g_edges g)).
    - apply NoDup_filter, ND.
    - apply (proj1 (mapr_Forall2 _ _ _)) in H. induction H as [|e o es os Q F IH]; [reflexivity|]. cbn [map]. f_equal; [|exact IH].
      destruct want; [apply Ok_inj in Q; subst; reflexivity|]. destruct (e_attr e); [apply Ok_inj in Q; subst; reflexivity|]. apply bind_Ok in Q. destruct Q as [t [_ Q]]. apply Ok_inj in Q. subst. reflexivity.
  Qed.
  Lemma nodup_edges {N} (c : config V) (g : graph N V) : wf c g -> NoDup (g_edges g).
  Proof. intro W. apply NoDup_map_inv with (f := ident). apply (wf_ident _ _ W). Qed.

  Lemma ba_succ_nodup q s en : prod_args -> find_ba_succ aeqb beqb veqb tl cb q s ts ba = Ok en -> NoDup (map (@e_dst B V) en).
  Proof.
    intros [_ [P1 [_ [_ [P4 P5]]]]] H. destruct (find_ba_succ_Ok q s en H) as [a [L Sn]].
    assert (ND : NoDup en).
    { unfold find_ba_succ in H. apply bind_Ok in H. destruct H as [a' [Ha H]]. apply ap_of_spec in Ha. assert (a' = a) by (eapply label_unique; eauto). subst a'.
      apply bind_Ok in H. destruct H as [l1 [H1 H]]. apply bind_Ok in H. destruct H as [l2 [H2 H]]. apply Ok_inj in H. subst en.
      pose proof (find_transitions_NoDup _ _ _ _ _ _ _ (nodup_edges cb _ wf_ba) H1) as N1. pose proof (find_transitions_NoDup _ _ _ _ _ _ _ (nodup_edges cb _ wf_ba) H2) as N2.
      destruct (find_transitions_spec beqb veqb beqb_eq veqb_eq cb (Some [q]) None [("letter", a)] (a_graph ba) wf_ba) as [m1 [E1 S1]]; [repeat constructor; intros []|].
      destruct (find_transitions_spec beqb veqb beqb_eq veqb_eq cb (Some [q]) None [("letter", tl)] (a_graph ba) wf_ba) as [m2 [E2 S2]]; [repeat constructor; intros []|].
      rewrite H1 in E1. rewrite H2 in E2. apply Ok_inj in E1, E2. subst m1 m2. apply NoDup_app; auto. intros e J1 J2. apply S1 in J1. apply S2 in J2.
      destruct J1 as [Je [_ [_ [K1|[K1|K1]]]]]; [discriminate|exact (P4 e Je K1)|]. destruct J2 as [_ [_ [_ [K2|[K2|K2]]]]]; [discriminate|exact (P4 e Je K2)|].
      assert (Q : a = tl) by (specialize (K1 "letter"); specialize (K2 "letter"); rewrite K1 in K2; cbn in K2; congruence).
      destruct L as [d [Jd Ld]]. destruct (P1 s) as [b [Lb Nb]]; [apply (in_map fst) in Jd; exact Jd|]. apply Nb. rewrite <- Q. eapply label_unique; [exact Lb|]. exists d. auto. }
    clear H. assert (Inj : forall e e', In e en -> In e' en -> e_dst e = e_dst e' -> e = e').
    { intros e e' J J' Q. apply Sn in J, J'. destruct J as [J1 [J2 J3]], J' as [J1' [J2' J3']]. eapply P5; eauto. congruence. }
    clear - ND Inj. induction en as [|e en IH]; [constructor|]. inversion ND as [|? ? NI ND']; subst. cbn [map]. constructor.
    - intro J. apply in_map_iff in J. destruct J as [e' [Q J]]. apply NI. rewrite <- (Inj e' e); auto; [right; exact J|left; reflexivity].
    - apply IH; [exact ND'|]. intros x y Jx Jy. apply Inj; right; auto.
  Qed.

  Lemma prod_succ1_total sq s' e st next : prod_args -> inv false st -> In sq (node_list (p_graph st)) -> e_src e = snd sq ->
    (exists a, label ts s' a) -> ~ trans (p_graph st) sq [] (s', e_dst e) ->
    exists x, prod1 false (cp false) ct sq s' ts ba e (st, next) = Ok x.
  Proof.
    intros [_ [_ [P2 [P3 _]]]] Iv J Es [a La] Nt. unfold prod_succ1. cbn [fst snd]. rewrite (proj2 (beqb_eq _ _) Es). cbn [negb]. set (new := (s', e_dst e)) in *.
    destruct (touch false new (p_graph st) (i_wf _ _ Iv) (i_ap _ _ Iv)) as [gt [Ht [Wt [Et [It' [Nd At]]]]]].
    assert (G : exists g1, (if has_node peqb new (p_graph st) then Ok (p_graph st) else add_node peqb (cp false) new [] true (p_graph st)) = Ok g1 /\
       wf (ec false) g1 /\ g_edges g1 = g_edges (p_graph st) /\ (forall n, In n (node_list g1) <-> In n (node_list (p_graph st)) \/ n = new)).
    { destruct (has_node peqb new (p_graph st)) eqn:Hn; [|exists gt; auto]. exists (p_graph st). apply (has_node_In peqb peqb_eq) in Hn. split; [reflexivity|]. split; [apply Iv|]. split; [reflexivity|].
      intro n. split; [auto|]. intros [K| ->]; auto. }
    destruct G as [g1 [E1 [W1 [Eg N1]]]]. rewrite E1. cbn [bind].
    destruct (ts_edges_between (fst sq) s') as [es [E2 S2]]. rewrite E2. cbn [bind].
    change (set_label aeqb beqb new "ap" (PStates [e_dst e]) g1) with (relab false new g1).
    enough (Q : exists g3, fold_res (add_ts false (cp false) sq new ts) es (relab false new g1) = Ok g3) by (destruct Q as [g3 Q]; rewrite Q; cbn [bind]; eauto).
    pose proof (find_transitions_NoDup _ _ _ _ _ _ _ (nodup_edges ct _ wf_ts) E2) as ND.
    destruct es as [|e1 [|e2 es]]; [cbn; eauto| |].
    - cbn [fold_res]. unfold add_ts_edge. rewrite (P2 e1) by (apply S2; left; reflexivity).
      destruct (add_edge_total peqb weqb peqb_eq (cp false) eq_refl sq new [] true (relab false new g1)) as [g3 H3].
      + rewrite relab_nodes. apply N1. auto.
      + rewrite relab_nodes. apply N1. auto.
      + constructor.
      + left. intros x [].
      + unfold labelled_between, trans. rewrite (proj1 (relab_edges false new g1)), Eg. exact Nt.
      + rewrite H3. cbn [bind]. eauto.
    - exfalso. assert (Q : e1 = e2); [|subst; inversion ND as [|? ? NI _]; apply NI; left; reflexivity].
      assert (J1 : In e1 (e1 :: e2 :: es)) by (left; reflexivity). assert (J2 : In e2 (e1 :: e2 :: es)) by (right; left; reflexivity).
      apply S2 in J1, J2. destruct J1 as [A1 [A2 A3]], J2 as [B1 [B2 B3]]. apply P3; congruence.
  Qed.
  Lemma find_prod_succ_total sq s' en st : prod_args -> inv false st -> In sq (node_list (p_graph st)) -> tstep ts (fst sq) s' -> NoDup (map (@e_dst B V) en) ->
    (forall e, In e en -> e_src e = snd sq /\ ~ trans (p_graph st) sq [] (s', e_dst e)) -> (exists a, label ts s' a) ->
    exists x, find_prod_succ aeqb beqb veqb false (cp false) ct sq s' ts ba en st = Ok x.
  Proof.
    intros Pa Iv J Ts ND Ne [a La]. unfold find_prod_succ.
    destruct (fold_res_total (prod1 false (cp false) ct sq s' ts ba) (fun l x => fold_res (prod1 false (cp false) ct sq s' ts ba) l (st, []) = Ok x) en (st, [])) as [x [H _]]; [reflexivity| |eauto].
    intros l1 e l2 [st1 n1] E F. destruct (find_prod_succ_Ok false sq s' l1 st st1 n1 Iv F Ts a La) as [Iv1 [_ [_ [N1 [_ [_ T1]]]]]].
    destruct (Ne e) as [Es Nt]; [rewrite E; apply in_or_app; right; left; reflexivity|].
    destruct (prod_succ1_total sq s' e st1 n1 Pa Iv1) as [x Hx]; [apply N1; auto|exact Es|eauto| |].
    - intro T. apply T1 in T. destruct T as [T|[e' [Je [_ [Q _]]]]]; [contradiction|]. injection Q as Q. rewrite E, map_app in ND. cbn [map] in ND. apply NoDup_remove_2 in ND.
      apply ND, in_or_app. left. rewrite Q. apply in_map, Je.
    - exists x. split; [exact Hx|]. apply fold_res_app. exists (st1, n1). split; [exact F|]. cbn [fold_res]. rewrite Hx. reflexivity.
  Qed.
  Lemma successors_total sq st : prod_args -> inv false st -> In sq (node_list (p_graph st)) -> (forall y, ~ trans (p_graph st) sq [] y) ->
    exists r, succs false (cp false) cb ct sq ts ba st = Ok r.
  Proof.
    intros Pa Iv J Nt. unfold successors_of. set (ss := uniq aeqb (successors aeqb (fst sq) ts)).
    assert (Ss : forall s', In s' ss <-> tstep ts (fst sq) s') by (intro s'; unfold ss; rewrite (uniq_In aeqb aeqb_eq); apply (successors_In aeqb aeqb_eq)).
    assert (ND : NoDup ss) by (apply uniq_NoDup, aeqb_eq). set (f := succ1 aeqb beqb veqb tl false (cp false) cb ct sq ts ba).
    destruct (fold_res_total f (fun l x => fold_res f l (st, [], None) = Ok x) ss (st, [], None)) as [x [H _]]; [reflexivity| |eauto].
    intros l1 s' l2 x1 E F. assert (Js : forall x, In x l1 \/ x = s' -> tstep ts (fst sq) x) by (intros x Q; apply Ss; rewrite E; apply in_or_app; destruct Q as [Q| ->]; [left|right; left]; auto).
    rewrite E in ND. pose proof (NoDup_remove_2 _ _ _ ND) as NI. assert (ND1 : NoDup l1) by (apply NoDup_remove_1 in ND; clear - ND; induction l1 as [|a l IH]; [constructor|]; inversion ND as [|? ? N1 N2]; subst; constructor; [intro J; apply N1, in_or_app; auto|auto]).
    destruct (succ_fold_Ok false sq st l1 x1 Iv ND1 (fun x J => Js x (or_introl J)) F) as [Iv1 [_ [N1 [_ [_ [T1 _]]]]]].
    assert (La : exists a, label ts s' a).
    { destruct (Js s' (or_intror eq_refl)) as [e [Je [_ <-]]]. destruct (wf_ends _ _ wf_ts e Je) as [_ K]. destruct Pa as [_ [P1 _]]. destruct (P1 _ K) as [a [L _]]. eauto. }
    destruct La as [a La]. enough (G : exists x2, f s' x1 = Ok x2).
    { destruct G as [x2 G]. exists x2. split; [exact G|]. apply fold_res_app. exists x1. split; [exact F|]. cbn [fold_res]. rewrite G. reflexivity. }
    unfold f, succ1. destruct (find_ba_succ_total (snd sq) s' a La) as [en [Een Sn]]. rewrite Een. cbn [bind].
    destruct (find_prod_succ_total sq s' en (fst (fst x1)) Pa Iv1) as [y Hy].
    - apply N1. auto.
    - apply Js. auto.
    - eapply ba_succ_nodup; eauto.
    - intros e Je. split; [apply Sn in Je; apply Je|]. intro T. apply T1 in T. destruct T as [T|[_ [K _]]]; [exact (Nt _ T)|]. cbn [fst] in K. apply NI, in_or_app. auto.
    - eauto.
    - destruct en; [eauto|]. rewrite Hy. cbn [bind]. eauto.
  Qed.
  Lemma reach_nodes n : reach tl ts ba n -> In n (list_prod (node_list ts) (node_list (a_graph ba))).
  Proof.
    intro R. assert (G : exists q a, label ts (fst n) a /\ bstep tl ba q a (snd n)) by (destruct R as [x [_ [q [a [_ K]]]]|x y _ [_ [a K]]]; eauto).
    destruct G as [q [a [[d [J _]] [e [Je [_ [Ed _]]]]]]]. destruct n as [s q']. cbn [fst snd] in *. apply in_prod; [apply (in_map fst) in J; exact J|]. rewrite <- Ed. apply (wf_ends _ _ wf_ba e Je).
  Qed.
  (** C33: the construction succeeds, and stops, on systems without action labels and automata
      where at most one transition to a state reads a label. *)
  Theorem sync_prod_total : prod_args -> exists st, product = Ok st.
  Proof.
    intro Pa. unfold ts_ba_sync_prod. change (fts_config beqb (node_list (a_graph ba))) with (cp false).
    assert (H0 : exists st0, init_states aeqb beqb veqb tl false (cp false) cb ts ba = Ok st0).
    { unfold init_states. match goal with |- exists st0, fold_res ?f ?l ?b = _ => destruct (fold_res_total f (fun _ st => inv false st) l b) as [st0 [H _]]; [split; cbn; [apply wf_empty|intros _ e []|intros _ n d []]| |eauto] end.
      intros l1 [s0 q0] l2 st1 E Iv. cbn [fst snd]. assert (J : In s0 (g_init ts)) by (assert (K : In (s0, q0) (list_prod (g_init ts) (g_init (a_graph ba)))) by (rewrite E; apply in_or_app; right; left; reflexivity); apply in_prod_iff in K; apply K).
      destruct Pa as [P0 [P1 _]]. destruct (P1 s0 (P0 s0 J)) as [a [La _]]. destruct (find_ba_succ_total q0 s0 a La) as [en [-> _]]. cbn [bind].
      match goal with |- exists b2, fold_res ?f ?l ?b = _ /\ _ => apply (fold_res_total f (fun _ st => inv false st) l b); [exact Iv|] end.
      intros m1 e m2 sta _ Iva. unfold init1. set (new := (s0, e_dst e)).
      destruct (touch false new (p_graph sta) (i_wf _ _ Iva) (i_ap _ _ Iva)) as [g1 [H1 [W1 [E1 [I1 [N1 A1]]]]]]. rewrite H1. cbn [bind].
      unfold add_initial. rewrite (proj2 (has_node_In peqb peqb_eq new g1)) by (apply N1; auto). cbn [bind]. eexists. split; [reflexivity|].
      change (set_label aeqb beqb new "ap" (PStates [e_dst e])) with (relab false new). set (g2 := Graph _ _ _).
      assert (W2 : wf (ec false) g2).
      { unfold g2. apply wf_init; [|exact W1]. destruct (nmem peqb new (g_init g1)) eqn:M; [apply (wf_init_nodup _ _ W1)|]. apply NoDup_snoc; [apply (wf_init_nodup _ _ W1)|].
        intro K. apply (nmem_In peqb peqb_eq) in K. congruence. }
      split; cbn [p_graph]; [apply relab_wf, W2| |].
      - intros Q x K. apply (i_plain _ _ Iva Q). rewrite <- E1. exact K.
      - intros Q n d K. apply (A1 Q n d). exact K. }
    destruct H0 as [st0 H0]. rewrite H0. cbn [bind]. apply init_states_Ok in H0. destruct H0 as [Iv [E0 [N0 [I0 A0]]]].
    assert (Lv : linv (g_init (p_graph st0)) [] st0).
    { split; [exact Iv|exact (wf_init_nodup _ _ (i_wf _ _ Iv))|constructor|intros x _ []| | | |].
      - intro n. rewrite N0, I0. cbn. tauto.
      - intros n J. apply reach_init, N0, J.
      - intro n. rewrite A0, N0. reflexivity.
      - intros x y d. split; [intros [e [J _]]; rewrite E0 in J; destruct J|intros [[] _]]. }
    set (U := list_prod (node_list ts) (node_list (a_graph ba))).
    assert (LU : List.length U = List.length (g_nodes ts) * List.length (g_nodes (a_graph ba))) by (unfold U, node_list; rewrite prod_length, !map_length; reflexivity).
    rewrite <- LU. enough (G : forall fuel q v st, linv q v st -> List.length U <= fuel + List.length v -> exists st', ploop fuel q v st = Ok st') by (apply (G _ _ _ _ Lv); cbn; lia).
    clear Lv Iv E0 N0 I0 A0 st0 LU. induction fuel as [|f IH]; intros q v st Lv Lf; cbn [prod_loop].
    - destruct q as [|x q]; [eauto|]. exfalso.
      assert (Nx : ~ In x v) by (apply (l_dis _ _ _ Lv); left; reflexivity).
      assert (Le : List.length (x :: v) <= List.length U).
      { apply NoDup_incl_length; [constructor; [exact Nx|apply (l_nv _ _ _ Lv)]|]. intros y J. apply reach_nodes, (l_reach _ _ _ Lv), (l_nodes _ _ _ Lv). destruct J as [<-|J]; [left; left; reflexivity|right; exact J]. }
      cbn in Le, Lf. lia.
    - pose proof (pop_spec f q) as Pp. destruct (pop pick f q) as [[sq rest]|]; [|eauto]. destruct (Pp (l_nq _ _ _ Lv)) as [Q1 [Q2 Q3]].
      assert (Lv' : linv (sq :: rest) v st) by (apply (linv_queue q); [intro x; rewrite Q3; cbn; intuition|constructor; auto|exact Lv]).
      assert (Nv : ~ In sq v) by (apply (l_dis _ _ _ Lv'); left; reflexivity).
      destruct (successors_total sq st Pa (l_inv _ _ _ Lv)) as [r Hr].
      + apply (l_nodes _ _ _ Lv'). left. left. reflexivity.
      + intros y T. apply (l_trans _ _ _ Lv) in T. apply Nv, T.
      + rewrite Hr. cbn [bind]. destruct (loop_step sq rest v st r Lv' Hr) as [L _]. apply (IH _ _ _ L).
        unfold add_to. destruct (existsb (peqb sq) v) eqn:M; [apply (mem_In peqb peqb_eq) in M; contradiction|]. rewrite app_length. cbn. lia.
  Qed.
  (** It always stops, also when it fails: the loop never runs out of rounds. *)
  Theorem sync_prod_terminates : product <> Err "out of fuel".
  Proof.
    unfold ts_ba_sync_prod. change (fts_config beqb (node_list (a_graph ba))) with (cp false). intro H.
    destruct (init_states aeqb beqb veqb tl false (cp false) cb ts ba) as [st0|e] eqn:H0; cbn [bind] in H.
    2: { apply (in_time_init false). congruence. }
    apply init_states_Ok in H0. destruct H0 as [Iv [E0 [N0 [I0 A0]]]].
    assert (Lv : linv (g_init (p_graph st0)) [] st0).
    { split; [exact Iv|exact (wf_init_nodup _ _ (i_wf _ _ Iv))|constructor|intros x _ []| | | |].
      - intro n. rewrite N0, I0. cbn. tauto.
      - intros n J. apply reach_init, N0, J.
      - intro n. rewrite A0, N0. reflexivity.
      - intros x y d. split; [intros [e [J _]]; rewrite E0 in J; destruct J|intros [[] _]]. }
    set (U := list_prod (node_list ts) (node_list (a_graph ba))).
    assert (LU : List.length U = List.length (g_nodes ts) * List.length (g_nodes (a_graph ba))) by (unfold U, node_list; rewrite prod_length, !map_length; reflexivity).
    rewrite <- LU in H. revert H. enough (G : forall fuel q v st, linv q v st -> List.length U <= fuel + List.length v -> ploop fuel q v st <> Err "out of fuel") by (apply (G _ _ _ _ Lv); cbn; lia).
    clear Lv Iv E0 N0 I0 A0 st0 LU. induction fuel as [|f IH]; intros q v st Lv Lf; cbn [prod_loop].
    - destruct q as [|x q]; [discriminate|]. exfalso.
      assert (Nx : ~ In x v) by (apply (l_dis _ _ _ Lv); left; reflexivity).
      assert (Le : List.length (x :: v) <= List.length U).
      { apply NoDup_incl_length; [constructor; [exact Nx|apply (l_nv _ _ _ Lv)]|]. intros y J. apply reach_nodes, (l_reach _ _ _ Lv), (l_nodes _ _ _ Lv). destruct J as [<-|J]; [left; left; reflexivity|right; exact J]. }
      cbn in Le, Lf. lia.
    - pose proof (pop_spec f q) as Pp. destruct (pop pick f q) as [[sq rest]|]; [|discriminate]. destruct (Pp (l_nq _ _ _ Lv)) as [Q1 [Q2 Q3]].
      assert (Lv' : linv (sq :: rest) v st) by (apply (linv_queue q); [intro x; rewrite Q3; cbn; intuition|constructor; auto|exact Lv]).
      assert (Nv : ~ In sq v) by (apply (l_dis _ _ _ Lv'); left; reflexivity).
      destruct (succs false (cp false) cb ct sq ts ba st) as [r|e] eqn:Hr; cbn [bind].
      + destruct (loop_step sq rest v st r Lv' Hr) as [L _]. apply (IH _ _ _ L).
        unfold add_to. destruct (existsb (peqb sq) v) eqn:M; [apply (mem_In peqb peqb_eq) in M; contradiction|]. rewrite app_length. cbn. lia.
      + intro Q. apply (in_time_succ false sq st). congruence.
  Qed.

  (** ** The product as an automaton *)
  Context (contains : A -> A -> res bool).
  Hypothesis exact : forall n s, In n (node_list ts) -> In s (node_list ts) -> contains n s = Ok (aeqb n s).
  Lemma state_find_exact s a : label ts s a -> exists d l, state_find contains s ts = Ok ((s, d) :: l) /\ lookup "ap" d = Some a.
  Proof.
    intros [d [J L]]. unfold state_find. assert (Js : In s (node_list ts)) by (apply (in_map fst) in J; exact J).
    assert (M : mapr (fun na => do b <- contains (fst na) s; Ok (na, b)) (g_nodes ts) = Ok (map (fun na => (na, aeqb (fst na) s)) (g_nodes ts))).
    { assert (Q : forall na, In na (g_nodes ts) -> contains (fst na) s = Ok (aeqb (fst na) s)) by (intros na K; apply exact; [apply in_map, K|exact Js]).
      clear - Q. induction (g_nodes ts) as [|na l IH]; [reflexivity|]. cbn [mapr map]. rewrite (Q na) by (left; reflexivity). cbn [bind]. rewrite IH by (intros x K; apply Q; right; exact K). reflexivity. }
    rewrite M. cbn [bind]. pose proof (wf_nodes _ _ wf_ts) as ND. unfold node_list in ND. clear - J L ND aeqb_eq.
    induction (g_nodes ts) as [|[n e] l IH]; [destruct J|]. cbn [map filter fst snd]. inversion ND as [|? ? NI ND']; subst. destruct J as [Q|J].
    - injection Q as -> ->. rewrite (proj2 (aeqb_eq s s) eq_refl). cbn [map fst]. eauto.
    - destruct (aeqb n s) eqn:E; [apply aeqb_eq in E; subst n; exfalso; apply NI; apply (in_map fst) in J; exact J|]. apply IH; assumption.
  Qed.
  (** C33: the automaton over the same states; its letters are the labels of the states
      entered, provided looking up a state by name finds that state only. *)
  Theorem ba_ts_sync_prod_spec r : ba_ts_sync_prod aeqb beqb veqb tl pick contains alphabet cb ct ts ba = Ok r ->
    (forall n, In n (node_list (p_graph r)) <-> reach tl ts ba n) /\
    (forall n, In n (g_init (p_graph r)) <-> pinit tl ts ba n) /\
    (forall n, In n (p_acc r) <-> reach tl ts ba n /\ In (snd n) (a_acc ba)) /\
    (forall x d y, trans (p_graph r) x d y <-> reach tl ts ba x /\ pstep tl ts ba x y /\ exists a, label ts (fst y) a /\ same_items [("letter", PVal a)] d).
  Proof.
    intro H. unfold ba_ts_sync_prod in H. apply bind_Ok in H. destruct H as [p [Hp H]]. destruct (sync_prod_spec p Hp) as [R [I [T [Ac _]]]].
    set (c := ba_config alphabet) in *. destruct (add_nodes_plain peqb peqb_eq c eq_refl (node_list (p_graph p)) empty_graph (wf_empty c)) as [g1 [E1 [W1 [B1 [B2 B3]]]]].
    rewrite E1 in H. cbn [bind] in H. apply bind_Ok in H. destruct H as [g2 [H2 H]]. destruct (add_initials peqb weqb peqb_eq c (g_init (p_graph p)) g1 W1) as [AI _].
    destruct (AI g2 H2) as [_ [W2 [C2 [C3 C4]]]]. apply bind_Ok in H. destruct H as [acc [H3 H]]. apply bind_Ok in H. destruct H as [g3 [H4 H]]. apply Ok_inj in H. subst r. cbn [p_graph p_acc].
    assert (NL2 : node_list g2 = node_list g1) by (unfold node_list; rewrite C2; reflexivity).
    assert (G : wf c g3 /\ g_nodes g3 = g_nodes g2 /\ g_init g3 = g_init g2 /\ forall x y d, trans g3 x d y <-> exists e a, In e (g_edges (p_graph p)) /\ x = e_src e /\ y = e_dst e /\ label ts (fst y) a /\ same_items [("letter", PVal a)] d).
    { match type of H4 with fold_res ?f _ _ = _ => apply (fold_res_inv f (fun l g3 => wf c g3 /\ g_nodes g3 = g_nodes g2 /\ g_init g3 = g_init g2 /\ forall x y d, trans g3 x d y <-> exists e a, In e l /\ x = e_src e /\ y = e_dst e /\ label ts (fst y) a /\ same_items [("letter", PVal a)] d)) in H4; [exact H4| |] end.
      - split; [exact W2|]. do 2 (split; [reflexivity|]). intros x y d. split; [intros [e [J _]]; rewrite C3, B1 in J; destruct J|intros [e [a [[] _]]]].
      - intros l1 e l2 ga gb E [Wa [Na [Ia Ta]]] F. assert (Je : In e (g_edges (p_graph p))) by (rewrite E; apply in_or_app; right; left; reflexivity).
        assert (Pe : trans (p_graph p) (e_src e) (e_attr e) (e_dst e)) by (exists e; repeat split; auto). apply T in Pe. destruct Pe as [_ [[_ [a [La _]]] _]].
        destruct (state_find_exact _ _ La) as [d [l [Es Ld]]]. rewrite Es in F. cbn [bind snd] in F. rewrite Ld in F.
        destruct (add_edge_trans peqb weqb peqb_eq weqb_eq c eq_refl (e_src e) (e_dst e) [("letter", PVal a)] true ga gb Wa) as [N2 [I2 [_ [_ [_ [Wb Tb]]]]]]; [repeat constructor; intros []|exact F|].
        split; [exact Wb|]. split; [congruence|]. split; [congruence|]. intros x y d0. rewrite Tb, Ta. split.
        + intros [[e' [a' [J K]]]|[-> [-> Sm]]]; [exists e', a'; split; [apply in_or_app; auto|exact K]|]. exists e, a. split; [apply in_or_app; right; left; reflexivity|]. auto.
        + intros [e' [a' [J [-> [-> [La' Sm]]]]]]. apply in_app_iff in J. destruct J as [J|[<-|[]]]; [left; exists e', a'; auto|]. right. rewrite (label_unique _ _ _ La La'). auto. }
    destruct G as [W3 [N3 [I3 T3]]]. assert (NL3 : node_list g3 = node_list g1) by (unfold node_list; rewrite N3, C2; reflexivity).
    split; [intro n; rewrite NL3, B3, <- R; cbn; tauto|]. split; [intro n; rewrite I3, C4, B2, <- I; cbn; tauto|]. split.
    - intro n. rewrite <- Ac. match type of H3 with fold_res ?f _ _ = _ => apply (fold_res_inv f (fun l acc => In n acc <-> In n l)) in H3; [exact H3|reflexivity|] end.
      intros l1 x l2 a1 a2 _ Q F. destruct (has_node peqb x g2); [|discriminate]. apply Ok_inj in F. subst a2. rewrite (add_to_In peqb peqb_eq), Q, in_app_iff. cbn. intuition.
    - intros x d y. rewrite T3. split.
      + intros [e [a [Je [-> [-> [La Sm]]]]]]. assert (Pe : trans (p_graph p) (e_src e) (e_attr e) (e_dst e)) by (exists e; repeat split; auto). apply T in Pe. destruct Pe as [P1 [P2 _]].
        split; [exact P1|]. split; [exact P2|]. eauto.
      + intros [P1 [P2 [a [La Sm]]]]. assert (Pe : trans (p_graph p) x [] y) by (apply T; auto). destruct Pe as [e [Je [<- [<- _]]]]. exists e, a. auto.
  Qed.
  Theorem ba_ts_sync_prod_total : prod_args -> (forall s a, label ts s a -> alphabet a = true) ->
    exists r, ba_ts_sync_prod aeqb beqb veqb tl pick contains alphabet cb ct ts ba = Ok r.
  Proof.
    intros Pa Al. destruct (sync_prod_total Pa) as [p Hp]. destruct (sync_prod_spec p Hp) as [R [I [T [Ac _]]]]. unfold ba_ts_sync_prod. rewrite Hp. cbn [bind].
    set (c := ba_config alphabet). destruct (add_nodes_plain peqb peqb_eq c eq_refl (node_list (p_graph p)) empty_graph (wf_empty c)) as [g1 [E1 [W1 [B1 [B2 B3]]]]]. rewrite E1. cbn [bind].
    assert (N1 : forall n, In n (node_list g1) <-> reach tl ts ba n) by (intro n; rewrite B3, <- R; cbn; tauto).
    destruct (add_initials peqb weqb peqb_eq c (g_init (p_graph p)) g1 W1) as [AI AT]. destruct AT as [g2 H2]; [intros n J; apply N1, reach_init, I, J|]. rewrite H2. cbn [bind].
    destruct (AI g2 H2) as [_ [W2 [C2 [C3 C4]]]]. assert (NL2 : node_list g2 = node_list g1) by (unfold node_list; rewrite C2; reflexivity).
    match goal with |- context [fold_res ?f (p_acc p) []] => destruct (fold_res_total f (fun _ _ => True) (p_acc p) []) as [acc [H3 _]]; [exact Logic.I| |] end.
    { intros l1 x l2 b E _. rewrite (proj2 (has_node_In peqb peqb_eq x g2)); [eauto|]. rewrite NL2. apply N1. assert (J : In x (p_acc p)) by (rewrite E; apply in_or_app; right; left; reflexivity). apply Ac in J. apply J. }
    rewrite H3. cbn [bind].
    match goal with |- context [fold_res ?f (g_edges (p_graph p)) g2] => destruct (fold_res_total f (fun _ g => node_list g = node_list g1 /\ wf c g /\ forall x y, ~ trans g x [] y) (g_edges (p_graph p)) g2) as [g3 [H4 _]] end.
    - split; [exact NL2|]. split; [exact W2|]. intros x y [e [J _]]. rewrite C3, B1 in J. destruct J.
    - intros l1 e l2 g E [Ng [Wg Ug]]. assert (Je : In e (g_edges (p_graph p))) by (rewrite E; apply in_or_app; right; left; reflexivity).
      assert (Pe : trans (p_graph p) (e_src e) (e_attr e) (e_dst e)) by (exists e; repeat split; auto). apply T in Pe. destruct Pe as [Rx [P2 _]]. pose proof P2 as [_ [a [La _]]].
      destruct (state_find_exact _ _ La) as [d [l [Es Ld]]]. rewrite Es. cbn [bind snd]. rewrite Ld.
      destruct (add_edge_total peqb weqb peqb_eq c eq_refl (e_src e) (e_dst e) [("letter", PVal a)] true g) as [g' Hg].
      + rewrite Ng. apply N1, Rx.
      + rewrite Ng. apply N1. eapply reach_step; eauto.
      + constructor; [exact (Al _ _ La)|constructor].
      + left. intros k [<-|[]]. left. reflexivity.
      + apply Ug.
      + exists g'. split; [exact Hg|]. destruct (add_edge_trans peqb weqb peqb_eq weqb_eq c eq_refl (e_src e) (e_dst e) [("letter", PVal a)] true g g' Wg) as [N' [_ [_ [_ [_ [Wb Tb]]]]]]; [repeat constructor; intros []|exact Hg|].
        split; [rewrite <- Ng; unfold node_list; rewrite N'; reflexivity|]. split; [exact Wb|]. intros x y Q. apply Tb in Q. destruct Q as [Q|[_ [_ Q]]]; [exact (Ug _ _ Q)|]. apply items_nil in Q. discriminate.
    - rewrite H4. cbn [bind]. eauto.
  Qed.

  (** ** The automaton that extends itself *)
  (** One call of [add_successors] adds exactly the successors of the state. *)
  Theorem add_successors_spec sq st st' l : inv true st ->
    add_successors aeqb beqb veqb tl alphabet cb ct sq ts ba st = Ok (st', l) ->
    inv true st' /\ g_init (p_graph st') = g_init (p_graph st) /\
    (forall n, In n (node_list (p_graph st')) <-> In n (node_list (p_graph st)) \/ pstep tl ts ba sq n) /\
    (forall n, In n (p_acc st') <-> In n (p_acc st) \/ (pstep tl ts ba sq n /\ In (snd n) (a_acc ba))) /\
    (forall x y d, trans (p_graph st') x d y <-> trans (p_graph st) x d y \/
       (x = sq /\ pstep tl ts ba sq y /\ exists a, label ts (fst y) a /\ same_items [("letter", PVal a)] d)) /\
    (forall n, In n l -> ~ In n (node_list (p_graph st)) /\ pstep tl ts ba sq n).
  Proof.
    intros Iv H. unfold add_successors in H. apply bind_Ok in H. destruct H as [r [Hr H]]. destruct (successors_of_Ok true sq st r Iv Hr) as [C1 [C2 [C3 [C4 [C5 [C6 C7]]]]]].
    destruct (snd r) as [m|] eqn:E; [|discriminate]. injection H as <- <-. do 5 (split; [assumption|]). apply C7. reflexivity.
  Qed.
  Definition sound (st : pst A B V) : Prop := inv true st /\ (forall n, In n (node_list (p_graph st)) -> reach tl ts ba n) /\
    (forall n, In n (g_init (p_graph st)) <-> pinit tl ts ba n) /\
    (forall n, In n (p_acc st) <-> In n (node_list (p_graph st)) /\ In (snd n) (a_acc ba)) /\
    (forall x y d, trans (p_graph st) x d y -> reach tl ts ba x /\ pstep tl ts ba x y /\ exists a, label ts (fst y) a /\ same_items [("letter", PVal a)] d).
  (** C33: whatever [add_all_states] adds belongs to the product. *)
  Theorem add_all_states_sound st0 st : otf_init aeqb beqb veqb tl alphabet cb ts ba = Ok st0 ->
    add_all_states aeqb beqb veqb tl alphabet cb ct ts ba st0 = Ok st -> sound st.
  Proof.
    intros H0 H. unfold otf_init in H0. apply init_states_Ok in H0. destruct H0 as [Iv [E0 [N0 [I0 A0]]]].
    assert (S0 : sound st0).
    { split; [exact Iv|]. split; [intros n J; apply reach_init, N0, J|]. split; [exact I0|]. split; [intro n; rewrite A0, N0; reflexivity|]. intros x y d [e [J _]]. rewrite E0 in J. destruct J. }
    unfold add_all_states in H. revert H. assert (SQ : forall n, In n (node_list (p_graph st0)) -> In n (node_list (p_graph st0))) by auto. revert SQ.
    generalize (node_list (p_graph st0)) at 1 3 as Q. generalize (S (List.length (g_nodes ts) * List.length (g_nodes (a_graph ba)))) as fuel. clear - S0 wf_ts wf_ba aeqb_eq beqb_eq veqb_eq.
    intro fuel. revert st0 S0. induction fuel as [|f IH]; intros st0 S0 Q SQ H; cbn [otf_loop] in H.
    - destruct Q; [|discriminate]. apply Ok_inj in H. subst. exact S0.
    - destruct Q as [|q Q]; [apply Ok_inj in H; subst; exact S0|]. apply bind_Ok in H. destruct H as [[st1 Q1] [H1 H]]. cbn [fst snd] in H.
      enough (G : sound st1 /\ forall n, In n Q1 -> In n (node_list (p_graph st1))) by (destruct G as [G1 G2]; exact (IH st1 G1 Q1 G2 H)).
      clear H IH. match type of H1 with fold_res ?f _ _ = _ => apply (fold_res_inv f (fun _ (x : pst A B V * list (A * B)) => sound (fst x) /\ (forall n, In n (node_list (p_graph st0)) -> In n (node_list (p_graph (fst x)))) /\ forall n, In n (snd x) -> In n (node_list (p_graph (fst x))))) in H1 end.
      + destruct H1 as [G1 [_ G2]]. auto.
      + split; [exact S0|]. split; [auto|intros n []].
      + intros l1 sq l2 [sa na] [sb nb] E [Sa [Mo Na]] F. cbn [fst snd] in *. apply bind_Ok in F. destruct F as [[sc nc] [Fc F]]. injection F as <- <-.
        destruct Sa as [Sa1 [Sa2 [Sa3 [Sa4 Sa5]]]]. destruct (add_successors_spec sq sa sc nc Sa1 Fc) as [C1 [C2 [C3 [C4 [C5 C6]]]]]. cbn [fst snd].
        assert (Rs : reach tl ts ba sq) by (apply Sa2, Mo, SQ; rewrite E; apply in_or_app; right; left; reflexivity).
        split; [|split; [intros n J; apply C3; auto|]].
        * split; [exact C1|]. split; [intros n J; apply C3 in J; destruct J as [J|J]; [auto|eapply reach_step; eauto]|]. split; [intro n; rewrite C2; apply Sa3|].
          split; [intro n; rewrite C4, C3, Sa4; tauto|]. intros x y d J. apply C5 in J. destruct J as [J|[-> [P K]]]; auto.
        * intros n J. apply (add_all_In peqb peqb_eq) in J. apply C3. destruct J as [J|J]; [left; auto|right; apply C6, J].
  Qed.
End Product.
Print Assumptions sync_prod_spec.
Print Assumptions sync_prod_runs.
Print Assumptions sync_prod_acceptance.
Print Assumptions sync_prod_total.
Print Assumptions sync_prod_terminates.
Print Assumptions ba_ts_sync_prod_spec.
Print Assumptions ba_ts_sync_prod_total.
Print Assumptions add_successors_spec.
Print Assumptions add_all_states_sound.

(** ** Cases *)
(** Labels: a set of propositions, or [{True}]. *)
Definition val : Type := option (list string).
Fixpoint strs_eqb (l m : list string) : bool :=
  match l, m with [], [] => true | x :: l, y :: m => String.eqb x y && strs_eqb l m | _, _ => false end.
Definition val_eqb (v w : val) : bool := match v, w with None, None => true | Some l, Some m => strs_eqb l m | _, _ => false end.
Definition ex_cb : config val := Config [] [] [("letter", Some (fun _ => true))] [].
Definition ex_ct : config val := Config [("ap", Some (fun _ => true))] [("ap", Some [])] [("env_actions", Some (fun _ => true)); ("sys_actions", Some (fun _ => true))] [].
Definition lab (l : list string) : attrs val := [("ap", Some l)].
Definition let_ (l : list string) : attrs val := [("letter", Some l)].
(** Python's [x in y] for strings. *)
Definition str_in (x y : string) : res bool := Ok (match String.index 0 x y with Some _ => true | None => false end).
(** Two states, labelled [p] and nothing, visited alternately; the automaton remembers the
    last label and accepts when it was [p]. *)
Definition ex_ts : graph string val :=
  Graph [("s1", lab ["p"]); ("s10", lab [])] [Edge "s1" "s10" 0 []; Edge "s10" "s1" 0 []; Edge "s10" "s10" 0 []] ["s1"].
Definition ex_ba : aut nat val :=
  Aut (Graph [(0, []); (1, [])] [Edge 0 0 0 (let_ []); Edge 0 1 0 (let_ ["p"]); Edge 1 1 0 (let_ ["p"]); Edge 1 0 0 (let_ [])] [0]) [1].
Definition pick0 {X} (n : nat) (l : list X) : nat := n.
Definition ex_prod := ts_ba_sync_prod String.eqb Nat.eqb val_eqb None pick0 ex_cb ex_ct.
Lemma ex_wf : wf ex_ct ex_ts /\ wf ex_cb (a_graph ex_ba).
Proof.
  split; split; cbn.
  1, 7: repeat constructor; cbn; intuition discriminate.
  1, 6: intros e J; repeat (destruct J as [<-|J]; [cbn; auto|]); destruct J.
  1, 5: repeat constructor; cbn; intuition discriminate.
  1, 4: intros n a J; repeat (destruct J as [Q|J]; [injection Q as <- <-; split; repeat constructor; intros []|]); destruct J.
  1, 3: intros e J; repeat (destruct J as [<-|J]; [split; repeat constructor; intros []|]); destruct J.
  all: repeat constructor; intros [].
Qed.
Example sync_prod_ex : prod_args None ex_ts ex_ba /\
  exists st, ex_prod ex_ts ex_ba = Ok st /\ node_list (p_graph st) = [("s1", 1); ("s10", 0)] /\ List.length (g_edges (p_graph st)) = 3 /\ p_acc st = [("s1", 1)].
Proof.
  split; [|eexists; split; [vm_compute; reflexivity|]; repeat split].
  split; [intros s [<-|[]]; left; reflexivity|]. split.
  { intros s [<-|[<-|[]]]; [exists (Some ["p"])|exists (Some [])]; (split; [|discriminate]); [exists (lab ["p"])|exists (lab [])]; split; [left|reflexivity|right; left|]; reflexivity. }
  split; [intros e J; repeat (destruct J as [<-|J]; [reflexivity|]); destruct J|].
  split; [intros e e' J J'; repeat (destruct J as [<-|J]; [repeat (destruct J' as [<-|J']; [reflexivity||(cbn; discriminate)|]); destruct J'|]); destruct J|].
  split; [intros e J; repeat (destruct J as [<-|J]; [discriminate|]); destruct J|].
  intros s a e e' _ J J'; repeat (destruct J as [<-|J]; [repeat (destruct J' as [<-|J']; [reflexivity||(cbn; discriminate)|]); destruct J'|]); destruct J.
Qed.
(** A transition with an action makes the construction fail: it asks for a label type
    'actions', which no transition system can have. *)
Theorem sync_prod_actions_refuted : exists ts, wf ex_ct ts /\ In "s1" (g_init ts) /\
  ts_ba_sync_prod String.eqb Nat.eqb val_eqb None pick0 ex_cb ex_ct ts ex_ba = Err "KeyError".
Proof.
  exists (Graph [("s1", lab ["p"]); ("s10", lab [])] [Edge "s1" "s10" 0 [("sys_actions", Some ["go"])]] ["s1"]).
  split; [|split; [left; reflexivity|vm_compute; reflexivity]].
  split; cbn; try (repeat constructor; cbn; intuition discriminate).
  - intros e [<-|[]]. cbn. auto.
  - intros n a J; repeat (destruct J as [Q|J]; [injection Q as <- <-; split; repeat constructor; intros []|]); destruct J.
  - intros e [<-|[]]. split; repeat constructor; intros [].
Qed.
(** Two transitions of the automaton to the same state, reading [p] and anything: the second
    adds an unlabelled transition again, which is an error. *)
Definition ba_two : aut nat val :=
  Aut (Graph [(0, []); (1, [])] [Edge 0 0 0 (let_ ["p"]); Edge 0 0 1 [("letter", None)]] [0]) [0].
Theorem sync_prod_parallel_refuted : wf ex_cb (a_graph ba_two) /\ ex_prod ex_ts ba_two = Err "Exception".
Proof.
  split; [|vm_compute; reflexivity]. split; cbn; try (repeat constructor; cbn; intuition discriminate).
  - intros e J; repeat (destruct J as [<-|J]; [cbn; auto|]); destruct J.
  - intros n a J; repeat (destruct J as [Q|J]; [injection Q as <- <-; split; repeat constructor; intros []|]); destruct J.
  - intros e J; repeat (destruct J as [<-|J]; [split; repeat constructor; intros []|]); destruct J.
Qed.
(** An unlabelled transition of the automaton is found twice, with the same effect. *)
Definition ba_unlabelled : aut nat val := Aut (Graph [(0, [])] [Edge 0 0 0 []] [0]) [0].
Theorem sync_prod_unlabelled_refuted : wf ex_cb (a_graph ba_unlabelled) /\ ex_prod ex_ts ba_unlabelled = Err "Exception".
Proof.
  split; [|vm_compute; reflexivity]. split; cbn; try (repeat constructor; cbn; intuition discriminate).
  - intros e J; repeat (destruct J as [<-|J]; [cbn; auto|]); destruct J.
  - intros n a J; repeat (destruct J as [Q|J]; [injection Q as <- <-; split; repeat constructor; intros []|]); destruct J.
  - intros e J; repeat (destruct J as [<-|J]; [split; repeat constructor; intros []|]); destruct J.
Qed.
(** The name "s1" is contained in "s10", so the transition entering "s10" gets the letter of
    "s1". *)
Theorem ba_ts_sync_prod_refuted : exists r, ba_ts_sync_prod String.eqb Nat.eqb val_eqb None pick0 str_in (fun _ => true) ex_cb ex_ct ex_ts ex_ba = Ok r /\
  label ex_ts "s10" (Some []) /\ trans (p_graph r) ("s1", 1) [("letter", PVal (Some ["p"]))] ("s10", 0) /\
  ~ trans (p_graph r) ("s1", 1) [("letter", PVal (Some []))] ("s10", 0).
Proof.
  eexists. split; [vm_compute; reflexivity|]. split; [exists (lab []); split; [right; left; reflexivity|reflexivity]|]. split.
  - eexists. split; [left; reflexivity|]. repeat split.
  - intros [e [J [E1 [E2 Sm]]]]. specialize (Sm "letter"). repeat (destruct J as [<-|J]; [first [discriminate E1|discriminate E2|discriminate Sm]|]). destruct J.
Qed.
Example ba_ts_sync_prod_ex : exists r, ba_ts_sync_prod String.eqb Nat.eqb val_eqb None pick0 (fun x y => Ok (String.eqb x y)) (fun _ => true) ex_cb ex_ct ex_ts ex_ba = Ok r /\
  trans (p_graph r) ("s1", 1) [("letter", PVal (Some []))] ("s10", 0).
Proof. eexists. split; [vm_compute; reflexivity|]. eexists. split; [left; reflexivity|]. repeat split. Qed.
(** With integer states, the same lookup is an error. *)
Theorem ba_ts_sync_prod_int_refuted : exists e,
  ba_ts_sync_prod Nat.eqb Nat.eqb val_eqb None pick0 (fun _ _ => Err "TypeError") (fun _ => true) ex_cb ex_ct
    (Graph [(0, lab ["p"])] [Edge 0 0 0 []] [0]) ex_ba = Err e.
Proof. eexists. vm_compute. reflexivity. Qed.

(** [add_all_states] explores only the new states of the last successor: of the two successors
    of "a", "b" is added but not explored, so "d" is never found. *)
Definition fork_ts : graph string val :=
  Graph [("a", lab ["p"]); ("b", lab ["p"]); ("c", lab ["p"]); ("d", lab ["p"]); ("e", lab ["p"])]
        [Edge "a" "b" 0 []; Edge "a" "c" 0 []; Edge "b" "d" 0 []; Edge "c" "e" 0 []; Edge "d" "d" 0 []; Edge "e" "e" 0 []] ["a"].
Definition one_ba : aut nat val := Aut (Graph [(0, [])] [Edge 0 0 0 (let_ ["p"])] [0]) [0].
Theorem add_all_states_refuted : exists st0 st, otf_init String.eqb Nat.eqb val_eqb None (fun _ => true) ex_cb fork_ts one_ba = Ok st0 /\
  add_all_states String.eqb Nat.eqb val_eqb None (fun _ => true) ex_cb ex_ct fork_ts one_ba st0 = Ok st /\
  reach None fork_ts one_ba ("d", 0) /\ ~ In ("d", 0) (node_list (p_graph st)).
Proof.
  do 2 eexists. split; [vm_compute; reflexivity|]. split; [vm_compute; reflexivity|]. split; [|intro J; repeat (destruct J as [Q|J]; [discriminate Q|]); destruct J].
  assert (L : forall s, In s ["a"; "b"; "d"] -> label fork_ts s (Some ["p"])) by (intros s [<-|[<-|[<-|[]]]]; exists (lab ["p"]); (split; [cbn; auto 6|reflexivity])).
  assert (Bs : bstep None one_ba 0 (Some ["p"]) 0) by (eexists; split; [left; reflexivity|]; do 2 (split; [reflexivity|]); right; left; intro k; reflexivity).
  apply (reach_step None fork_ts one_ba ("b", 0)); [apply (reach_step None fork_ts one_ba ("a", 0)); [apply reach_init|]|].
  - split; [left; reflexivity|]. exists 0, (Some ["p"]). split; [left; reflexivity|]. split; [apply L; cbn; auto|exact Bs].
  - split; [eexists; split; [left; reflexivity|]; split; reflexivity|]. exists (Some ["p"]). split; [apply L; cbn; auto|exact Bs].
  - split; [eexists; split; [right; right; left; reflexivity|]; split; reflexivity|]. exists (Some ["p"]). split; [apply L; cbn; auto|exact Bs].
Qed.
(** A state without successors is an error. *)
Theorem add_all_states_deadend_refuted : exists st0,
  otf_init String.eqb Nat.eqb val_eqb None (fun _ => true) ex_cb (Graph [("a", lab ["p"])] [] ["a"]) one_ba = Ok st0 /\
  add_all_states String.eqb Nat.eqb val_eqb None (fun _ => true) ex_cb ex_ct (Graph [("a", lab ["p"])] [] ["a"]) one_ba st0 = Err "UnboundLocalError".
Proof. eexists. split; [vm_compute; reflexivity|]. vm_compute. reflexivity. Qed.
Print Assumptions sync_prod_actions_refuted.
Print Assumptions sync_prod_parallel_refuted.
Print Assumptions sync_prod_unlabelled_refuted.
Print Assumptions ba_ts_sync_prod_refuted.
Print Assumptions add_all_states_refuted.
Print Assumptions add_all_states_deadend_refuted.
