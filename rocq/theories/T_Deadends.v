(** C30: removing dead ends; and looking up transitions (C57). *)
From Coq Require Import List String Bool Arith Lia.
From Verif Require Import M_Base M_Dict L_Dict M_Graph L_Graph T_Graph.
Import ListNotations.
Open Scope string_scope.
Open Scope list_scope.

Section C30.
  Context {N V : Type} (neqb : N -> N -> bool) (veqb : V -> V -> bool).
  Hypothesis neqb_eq : forall a b, neqb a b = true <-> a = b.
  Hypothesis veqb_eq : forall a b, veqb a b = true <-> a = b.
  Implicit Types g : graph N V.

  (** An infinite path of the graph starts at [n]. *)
  Definition inf_path g (n : N) : Prop :=
    exists f : nat -> N, f 0 = n /\
      forall i, exists e, In e (g_edges g) /\ e_src e = f i /\ e_dst e = f (S i).

  (** The graph induced by the nodes that satisfy [k]. *)
  Definition induced (k : N -> bool) g : graph N V :=
    Graph (filter (fun x => k (fst x)) (g_nodes g))
      (filter (fun e => k (e_src e) && k (e_dst e)) (g_edges g)) (filter k (g_init g)).

  Lemma filter_filter {A} (p q : A -> bool) l : filter p (filter q l) = filter (fun x => q x && p x) l.
  Proof.
    induction l as [|a r IH]; cbn [filter]; [reflexivity|]. destruct (q a); cbn [andb filter]; [|exact IH].
    destruct (p a); rewrite IH; reflexivity.
  Qed.
  Lemma induced_ext k k' g : (forall x, k x = k' x) -> induced k g = induced k' g.
  Proof.
    intro H. unfold induced. f_equal; apply filter_ext; intro; rewrite ?H; reflexivity.
  Qed.
  Lemma induced_induced k k' g : induced k (induced k' g) = induced (fun x => k' x && k x) g.
  Proof.
    unfold induced. cbn [g_nodes g_edges g_init]. rewrite !filter_filter. f_equal. apply filter_ext. intro e.
    destruct (k' (e_src e)), (k' (e_dst e)), (k (e_src e)), (k (e_dst e)); reflexivity.
  Qed.
  Lemma node_list_induced k g : node_list (induced k g) = filter k (node_list g).
  Proof. apply node_list_filter. Qed.
  Lemma induced_true g : induced (fun _ => true) g = g.
  Proof.
    unfold induced. destruct g as [n e i]. cbn [g_nodes g_edges g_init]. f_equal;
      (match goal with |- filter _ ?l = _ => induction l as [|a r IH]; cbn; [reflexivity|f_equal; exact IH] end).
  Qed.

  Lemma states_remove_from_Ok l g : NoDup l -> incl l (node_list g) ->
    states_remove_from neqb l g = (induced (fun x => negb (nmem neqb x l)) g, None).
  Proof.
    revert g. unfold states_remove_from. induction l as [|n r IH]; intros g ND I; cbn [seq].
    - cbn [nmem existsb negb]. rewrite induced_true. reflexivity.
    - inversion ND; subst. unfold states_remove, remove_node.
      assert (M : has_node neqb n (Graph (g_nodes g) (g_edges g) (filter (fun x => negb (neqb x n)) (g_init g))) = true).
      { apply has_node_In; auto. apply I. left; reflexivity. }
      rewrite M. cbn [g_nodes g_edges g_init].
      assert (E : Graph (filter (fun x => negb (neqb (fst x) n)) (g_nodes g))
                (filter (fun e => negb (neqb (e_src e) n) && negb (neqb (e_dst e) n)) (g_edges g))
                (filter (fun x => negb (neqb x n)) (g_init g)) = induced (fun x => negb (neqb x n)) g) by reflexivity.
      rewrite E. rewrite IH.
      + f_equal. rewrite induced_induced. apply induced_ext. intro x. cbn [nmem existsb].
        rewrite negb_orb. reflexivity.
      + assumption.
      + intros x J. rewrite node_list_induced. apply filter_In. split; [apply I; right; exact J|].
        apply negb_true_iff. apply (neqb_neq neqb neqb_eq). intros ->. contradiction.
  Qed.

  Lemma deadends_In g n : In n (deadends neqb g) <-> In n (node_list g) /\ forall e, In e (g_edges g) -> e_src e <> n.
  Proof.
    unfold deadends, out_degree. rewrite filter_In. apply and_iff_compat_l. split.
    - intros H e I A. apply Nat.eqb_eq in H. assert (J : In (e_dst e) (successors neqb n g)).
      { apply successors_In; auto. exists e. auto. } destruct (successors neqb n g); [exact J|discriminate].
    - intro H. destruct (successors neqb n g) as [|v r] eqn:E; [reflexivity|].
      assert (J : In v (successors neqb n g)) by (rewrite E; left; reflexivity).
      apply successors_In in J; auto. destruct J as [e [I [A _]]]. exfalso. exact (H e I A).
  Qed.

  Lemma inf_path_step g n : inf_path g n -> exists e, In e (g_edges g) /\ e_src e = n /\ inf_path g (e_dst e).
  Proof.
    intros [f [A B]]. destruct (B 0) as [e [I [C D]]]. exists e. split; [exact I|]. split; [congruence|].
    exists (fun i => f (S i)). split; [auto|]. intro i. apply B.
  Qed.

  Definition ends_in g := forall e, In e (g_edges g) -> In (e_src e) (node_list g) /\ In (e_dst e) (node_list g).

  Lemma deadend_loop_spec g fuel k : NoDup (node_list g) -> ends_in g ->
    (forall n, inf_path g n -> k n = true) ->
    List.length (g_nodes (induced k g)) < fuel ->
    exists k', deadend_loop neqb fuel (induced k g) = (induced k' g, None) /\
      (forall n, inf_path g n -> k' n = true) /\ deadends neqb (induced k' g) = [].
  Proof.
    intros ND EI. revert k. induction fuel as [|f IH]; intros k K L; [lia|].
    cbn [deadend_loop]. destruct (deadends neqb (induced k g)) as [|d s] eqn:D.
    { exists k. auto. }
    rewrite states_remove_from_Ok.
    2: { rewrite <- D. apply NoDup_filter. rewrite node_list_induced. apply NoDup_filter, ND. }
    2: { rewrite <- D. intros x I. apply deadends_In in I. apply I. }
    rewrite <- D, induced_induced. apply IH.
    - intros n P. rewrite (K n P). cbn [andb]. apply negb_true_iff.
      destruct (nmem neqb n (deadends neqb (induced k g))) eqn:M; [|reflexivity].
      apply nmem_In in M; auto. apply deadends_In in M. exfalso. destruct (inf_path_step g n P) as [e [I [A Q]]].
      apply (proj2 M e); [|exact A]. cbn [induced g_edges]. apply filter_In. split; [exact I|].
      rewrite A, (K n P), (K _ Q). reflexivity.
    - assert (J : In d (deadends neqb (induced k g))) by (rewrite D; left; reflexivity).
      rewrite <- induced_induced. cbn [induced g_nodes].
      enough (List.length (filter (fun x => negb (nmem neqb (fst x) (deadends neqb (induced k g)))) (g_nodes (induced k g)))
              < List.length (g_nodes (induced k g))) by (cbn [induced g_nodes] in *; lia).
      apply deadends_In in J as J'. destruct J' as [J' _]. unfold node_list in J'. apply in_map_iff in J'.
      destruct J' as [[x a] [E I]]. cbn in E. subst x.
      revert I. generalize (g_nodes (induced k g)). intro l.
      induction l as [|y r IHl]; [intros []|]. cbn [filter List.length]. intros [->|I].
      + cbn [fst]. rewrite (proj2 (nmem_In neqb neqb_eq d _) J). cbn [negb].
        pose proof (filter_length (fun x => negb (nmem neqb (fst x) (deadends neqb (induced k g)))) r). lia.
      + specialize (IHl I). destruct (negb _); cbn [List.length]; lia.
  Qed.

  (** If no dead end is left, every node has an infinite path. *)
  Lemma no_deadend_inf g n : ends_in g -> deadends neqb g = [] -> In n (node_list g) -> inf_path g n.
  Proof.
    intros EI D I. set (step := fun u => match successors neqb u g with v :: _ => v | [] => u end).
    exists (fun i => Nat.iter i step n). split; [reflexivity|].
    assert (A : forall u, In u (node_list g) -> exists e, In e (g_edges g) /\ e_src e = u /\ e_dst e = step u).
    { intros u J. unfold step. destruct (successors neqb u g) as [|v r] eqn:E.
      - exfalso. assert (K : In u (deadends neqb g)); [|rewrite D in K; exact K]. apply filter_In. split; [exact J|].
        unfold out_degree. rewrite E. reflexivity.
      - assert (K : In v (successors neqb u g)) by (rewrite E; left; reflexivity). apply successors_In in K; auto. }
    intro i. assert (J : In (Nat.iter i step n) (node_list g)).
    { induction i as [|i IH]; [exact I|]. destruct (A _ IH) as [e [K [_ Q]]]. change (In (step (Nat.iter i step n)) (node_list g)).
      rewrite <- Q. apply (EI e K). }
    destruct (A _ J) as [e [K [B C]]]. exists e. auto.
  Qed.
  Lemma inf_path_mono g g' n : (forall e, In e (g_edges g') -> In e (g_edges g)) -> inf_path g' n -> inf_path g n.
  Proof. intros H [f [A B]]. exists f. split; [exact A|]. intro i. destruct (B i) as [e [I C]]. exists e. auto. Qed.
  Lemma inf_path_node g n : ends_in g -> inf_path g n -> In n (node_list g).
  Proof. intros E P. apply inf_path_step in P. destruct P as [e [I [<- _]]]. apply (E e I). Qed.

  (** [remove_deadends] keeps exactly the nodes with an infinite path, with their labels, the
      edges among them and the initial states among them; no dead end remains.  It raises
      exactly when a graph with nodes has no infinite path (after emptying it). *)
  Theorem remove_deadends_spec g : NoDup (node_list g) -> ends_in g -> incl (g_init g) (node_list g) ->
    let g' := fst (remove_deadends neqb g) in
    (forall n a, In (n, a) (g_nodes g') <-> In (n, a) (g_nodes g) /\ inf_path g n) /\
    (forall e, In e (g_edges g') <-> In e (g_edges g) /\ inf_path g (e_src e) /\ inf_path g (e_dst e)) /\
    (forall n, In n (g_init g') <-> In n (g_init g) /\ inf_path g n) /\
    has_deadends neqb g' = false /\
    (snd (remove_deadends neqb g) = None <-> (g_nodes g = [] \/ exists n, inf_path g n)) /\
    (snd (remove_deadends neqb g) = None \/ snd (remove_deadends neqb g) = Some "AssertionError").
  Proof.
    intros ND EI II. unfold remove_deadends.
    destruct (deadend_loop_spec g (S (List.length (g_nodes g))) (fun _ => true) ND EI) as [k [E [K D]]].
    { auto. } { rewrite induced_true. lia. }
    rewrite induced_true in E. rewrite E.
    assert (EI' : ends_in (induced k g)).
    { intros e I. cbn [induced g_edges] in I. apply filter_In in I. destruct I as [I J]. apply andb_true_iff in J.
      rewrite node_list_induced, !filter_In. destruct (EI e I). tauto. }
    assert (P : forall n, In n (node_list g) -> (k n = true <-> inf_path g n)).
    { intros n I. split; [|apply K]. intro H. apply (inf_path_mono g (induced k g)).
      - intros e J. cbn [induced g_edges] in J. apply filter_In in J. apply J.
      - apply no_deadend_inf; auto. rewrite node_list_induced. apply filter_In. auto. }
    set (o := if _ || _ then (induced k g, None) else (induced k g, Some "AssertionError")).
    assert (F : fst o = induced k g) by (unfold o; destruct (_ || _); reflexivity).
    rewrite F. split; [|split; [|split; [|split; [|split]]]].
    - intros n a. cbn [induced g_nodes]. rewrite filter_In. cbn [fst]. split; intros [I H]; (split; [exact I|]).
      + apply P; [|exact H]. apply in_map_iff. exists (n, a). auto.
      + apply K, H.
    - intro e. cbn [induced g_edges]. rewrite filter_In, andb_true_iff. split.
      + intros [I [A B]]. destruct (EI e I). split; [exact I|]. split; apply P; auto.
      + intros [I [A B]]. split; [exact I|]. split; apply K; assumption.
    - intro n. cbn [induced g_init]. rewrite filter_In. split; intros [I H]; (split; [exact I|]).
      + apply P; auto.
      + apply K, H.
    - unfold has_deadends. unfold deadends in D.
      destruct (existsb (fun u => (out_degree neqb u (induced k g) =? 0)%nat) (node_list (induced k g))) eqn:X; [|reflexivity].
      apply existsb_exists in X. destruct X as [x [I X]].
      assert (J : In x (filter (fun u => (out_degree neqb u (induced k g) =? 0)%nat) (node_list (induced k g)))) by (apply filter_In; auto).
      rewrite D in J. destruct J.
    - unfold o. destruct (g_nodes g) as [|x r] eqn:G.
      + cbn. split; auto.
      + rewrite <- G. destruct (Nat.eqb_spec (List.length (g_nodes g)) 0) as [Z|Z]; [rewrite G in Z; discriminate|].
        cbn [orb]. destruct (Nat.eqb_spec (List.length (g_nodes (induced k g))) 0) as [Y|Y]; cbn [negb snd].
        * split; [discriminate|]. intros [H|[n H]]; [rewrite G in H; discriminate|]. exfalso.
          assert (I : In n (node_list (induced k g))).
          { rewrite node_list_induced. apply filter_In. split; [apply inf_path_node; auto|apply K, H]. }
          unfold node_list in I. destruct (g_nodes (induced k g)); [destruct I|discriminate].
        * split; [intros _|reflexivity]. right. destruct (g_nodes (induced k g)) as [|[n a] l] eqn:Q; [contradiction|].
          exists n. apply P.
          -- assert (J : In (n, a) (g_nodes (induced k g))) by (rewrite Q; left; reflexivity).
             cbn [induced g_nodes] in J. apply filter_In in J. apply in_map_iff. exists (n, a). tauto.
          -- assert (J : In (n, a) (g_nodes (induced k g))) by (rewrite Q; left; reflexivity).
             cbn [induced g_nodes] in J. apply filter_In in J. apply J.
    - unfold o. destruct (_ || _); auto.
  Qed.

  (** C57: [transitions.find] returns exactly the edges between the given sets of states whose
      label is the desired one, or that have no label, or all if no label is asked for. *)
  Theorem find_transitions_spec c from to want g : wf c g -> NoDup (map fst want) ->
    exists l, find_transitions neqb veqb c from to want g = Ok l /\
    forall e, In e l <-> In e (g_edges g) /\ (forall s, from = Some s -> In (e_src e) s) /\
      (forall s, to = Some s -> In (e_dst e) s) /\
      (want = [] \/ e_attr e = [] \/ same_label (e_attr e) want).
  Proof.
    intros W NW. unfold find_transitions.
    set (inside := fun (o : option (list N)) x => match o with None => true | Some l => nmem neqb x l end).
    set (es := filter (fun e => inside from (e_src e) && inside to (e_dst e)) (g_edges g)).
    set (want_of := fun e : edge N V => match want, e_attr e with [], _ => true | _, [] => true
                                 | _, _ => label_is_desired veqb (e_attr e) want end).
    assert (Hm : mapr (fun e => match want, e_attr e with
                             | [], _ => Ok (e, true)
                             | _, [] => Ok (e, true)
                             | _, _ => do t <- typed_update_res (c_edge_types c) (e_attr e) [];
                                       Ok (e, label_is_desired veqb t want)
                             end) es = Ok (map (fun e => (e, want_of e)) es)).
    { assert (S : incl es (g_edges g)) by (intros e I; apply filter_In in I; apply I).
      induction es as [|e r IH]; [reflexivity|]. cbn [mapr map].
      assert (X : (match want, e_attr e with
                             | [], _ => Ok (e, true)
                             | _, [] => Ok (e, true)
                             | _, _ => do t <- typed_update_res (c_edge_types c) (e_attr e) [];
                                       Ok (e, label_is_desired veqb t want)
                             end) = Ok (e, want_of e)).
      { unfold want_of. destruct want as [|w ws]; [reflexivity|]. destruct (e_attr e) as [|a l] eqn:A; [reflexivity|].
        rewrite <- A. destruct (wf_edge_attr _ _ W e (S e (or_introl eq_refl))) as [K G].
        unfold typed_update_res. destruct (typed_update_spec (c_edge_types c) (e_attr e) []) as [[_ ->]|[e1 [k [v [e2 [E [_ [B _]]]]]]]].
        - cbn [bind]. do 2 f_equal. unfold label_is_desired.
          assert (Y : forall k, lookup k (update [] (e_attr e)) = lookup k (e_attr e)).
          { intro k. rewrite lookup_update, lookup_rev by exact K. cbn [lookup]. destruct (lookup k (e_attr e)); reflexivity. }
          destruct (dict_eqb veqb (e_attr e) (w :: ws)) eqn:Q.
          + apply (dict_eqb_spec veqb veqb_eq); auto. { apply nodup_update; constructor. }
            intro k. rewrite Y. revert k. refine (proj1 (dict_eqb_spec veqb veqb_eq _ _ K NW) Q).
          + destruct (dict_eqb veqb (update [] (e_attr e)) (w :: ws)) eqn:Q'; [|reflexivity].
            enough (dict_eqb veqb (e_attr e) (w :: ws) = true) by congruence.
            apply (dict_eqb_spec veqb veqb_eq); auto. intro k. rewrite <- Y. revert k.
            refine (proj1 (dict_eqb_spec veqb veqb_eq _ _ _ NW) Q'). apply nodup_update; constructor.
        - exfalso. unfold good in G. rewrite E, Forall_app in G. destruct G as [_ G]. apply Forall_inv in G.
          cbn in G. congruence. }
      rewrite X. cbn [bind]. rewrite IH; [reflexivity|]. intros y I. apply S. right; exact I. }
    cbv zeta. match goal with |- context [mapr ?f ?x] => change x with es end. rewrite Hm. cbn [bind]. eexists. split; [reflexivity|]. intro e.
    assert (IN : forall o x, inside o x = true <-> forall s, o = Some s -> In x s).
    { intros [s|] x; cbn [inside].
      - rewrite (nmem_In neqb neqb_eq). split; [intros I s' [= <-]; exact I|intro H; apply H; reflexivity].
      - split; [intros _ s [=]|reflexivity]. }
    rewrite in_map_iff. split.
    - intros [[x b] [E I]]. cbn [fst] in E. subst x. apply filter_In in I. cbn [snd] in I. destruct I as [I ->].
      apply in_map_iff in I. destruct I as [y [E I]]. injection E as -> Q. unfold es in I. apply filter_In in I.
      destruct I as [I J]. apply andb_true_iff in J. destruct J as [J1 J2]. pose proof (proj1 (IN _ _) J1) as K1. pose proof (proj1 (IN _ _) J2) as K2.
      repeat (split; [assumption|]). unfold want_of in Q. destruct want as [|w ws]; [auto|].
      destruct (e_attr e) as [|a l] eqn:A; [auto|]. right. right.
      refine (proj1 (dict_eqb_spec veqb veqb_eq _ _ _ NW) Q). rewrite <- A. apply (wf_edge_attr _ _ W e I).
    - intros [I [J1 [J2 Q]]]. exists (e, true). split; [reflexivity|]. apply filter_In. split; [|reflexivity].
      apply in_map_iff. exists e. split.
      + f_equal. unfold want_of. destruct want as [|w ws]; [reflexivity|]. destruct (e_attr e) as [|a l] eqn:A; [reflexivity|].
        destruct Q as [Q|[Q|Q]]; [discriminate|discriminate|]. rewrite <- A in *. unfold label_is_desired.
        apply (dict_eqb_spec veqb veqb_eq); auto. apply (wf_edge_attr _ _ W e I).
      + unfold es. apply filter_In. split; [exact I|]. apply andb_true_iff. split; apply (proj2 (IN _ _)); assumption.
  Qed.
End C30.

(** 0 -> 1 -> 2 -> 1, 1 -> 3 -> 4: 3 and 4 are removed. *)
Definition g30 : graph nat nat :=
  Graph [(0, []); (1, [("x", 5)]); (2, []); (3, []); (4, [])]
    [Edge 0 1 0 []; Edge 1 2 0 []; Edge 2 1 0 []; Edge 1 3 0 []; Edge 3 4 0 []] [0; 3].
Example remove_deadends_ex :
  remove_deadends Nat.eqb g30 =
    (Graph [(0, []); (1, [("x", 5)]); (2, [])] [Edge 0 1 0 []; Edge 1 2 0 []; Edge 2 1 0 []] [0], None) /\
  NoDup (node_list g30) /\ ends_in g30 /\ incl (g_init g30) (node_list g30).
Proof.
  split; [vm_compute; reflexivity|]. split; [repeat constructor; cbn; intuition discriminate|]. split.
  - intros e I. cbn in I. decompose [or] I; subst; cbn; auto 10; contradiction.
  - intros x I. cbn in *. intuition.
Qed.
Example remove_deadends_raise_ex :
  snd (remove_deadends Nat.eqb (Graph [(0, []); (1, [])] [Edge 0 1 0 []] [] : graph nat nat)) = Some "AssertionError".
Proof. reflexivity. Qed.

Definition g57 : graph nat nat :=
  Graph [(0, []); (1, [])] [Edge 0 1 0 [("day", 2)]; Edge 0 1 1 [("day", 3)]; Edge 1 1 0 []; Edge 1 0 0 [("day", 2)]] [].
Example find_transitions_ex :
  find_transitions Nat.eqb Nat.eqb cfg1 None (Some [1]) [("day", 2)] g57 = Ok [Edge 0 1 0 [("day", 2)]; Edge 1 1 0 []].
Proof. vm_compute. reflexivity. Qed.
(** Finding: an edge without a label is returned whatever label is asked for. *)
Theorem find_transitions_labelled_refuted :
  exists (c : config nat) want (g : graph nat nat) l e, find_transitions Nat.eqb Nat.eqb c None None want g = Ok l /\
    In e l /\ want <> [] /\ ~ same_label (e_attr e) want.
Proof.
  exists cfg1, [("day", 2)], g57, [Edge 0 1 0 [("day", 2)]; Edge 1 1 0 []; Edge 1 0 0 [("day", 2)]], (Edge 1 1 0 []).
  split; [vm_compute; reflexivity|]. split; [cbn; auto|]. split; [discriminate|]. intro H. specialize (H "day"). discriminate.
Qed.

Print Assumptions remove_deadends_spec.
Print Assumptions find_transitions_spec.
Print Assumptions find_transitions_labelled_refuted.
