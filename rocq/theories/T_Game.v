(** C91: game graphs and parity games. *)
From Coq Require Import List String Bool ZArith Lia.
From Verif Require Import M_Base M_Dict L_Dict M_Graph L_Graph T_Graph M_Game.
Import ListNotations.
Open Scope string_scope.
Open Scope list_scope.

Lemma update_has {V} k (d e : attrs V) :
  In k (map fst d) \/ In k (map fst e) -> In k (map fst (update d e)).
Proof.
  intros H. destruct (in_dec string_dec k (map fst (update d e))) as [I|I]; [exact I|exfalso].
  apply lookup_None in I. rewrite lookup_update in I.
  destruct (lookup k (rev e)) eqn:E; [discriminate|].
  apply lookup_None in E. apply lookup_None in I. rewrite map_rev, <- in_rev in E. tauto.
Qed.

Section C91.
  Context {N : Type} (neqb : N -> N -> bool).
  Hypothesis neqb_eq : forall a b, neqb a b = true <-> a = b.
  Local Notation run c ops := (grun neqb Z.eqb c ops (@empty_graph N Z)).

  (** Every label that has a default is there. *)
  Definition labelled (c : config Z) (g : graph N Z) : Prop :=
    forall n a k, In (n, a) (g_nodes g) -> In k (map fst (c_node_defaults c)) -> In k (map fst a).
  Lemma labelled_sub c g g' : labelled c g -> incl (g_nodes g') (g_nodes g) -> labelled c g'.
  Proof. intros H I n a k In1 In2. apply (H n a k); auto. Qed.
  Lemma labelled_remove c n g g' : labelled c g -> remove_node neqb n g = Ok g' -> labelled c g'.
  Proof.
    intros H. unfold remove_node. destruct (has_node neqb n g); [|discriminate].
    intros E. injection E as <-. apply (labelled_sub c g); [exact H|].
    cbn [g_nodes]. intros x Hx. apply filter_In in Hx. tauto.
  Qed.
  Lemma labelled_step c o g : labelled c g -> labelled c (fst (gstep neqb Z.eqb c o g)).
  Proof.
    intros H. destruct o as [n d ch|u v k d ch|u v d|n|n|n]; cbn [gstep].
    - destruct (add_node neqb c n d ch g) eqn:E; cbn [fst]; [|exact H].
      apply add_node_Ok in E. destruct E as [t [T ->]]. intros m b k I K. cbn [g_nodes] in I.
      apply typed_attr_Ok in T. destruct T as [-> _].
      assert (Kt : In k (map fst (update (update [] (c_node_defaults c)) d)))
        by (apply update_has; left; apply update_has; right; exact K).
      apply nx_add_node_In in I; [|exact neqb_eq].
      destruct I as [I|[_ [->|[a0 [_ ->]]]]]; [exact (H _ _ _ I K)|exact Kt|].
      apply update_has. right. exact Kt.
    - destruct (add_edge neqb Z.eqb c u v k d ch g) as [g1|x1] eqn:E; cbn [fst]; [|exact H].
      assert (Q : g_nodes g1 = g_nodes g).
      { revert E. unfold add_edge.
        destruct (negb (has_node neqb u g)); [discriminate|].
        destruct (negb (has_node neqb v g)); [discriminate|].
        unfold bind. destruct (typed_attr _ _ d); [|discriminate].
        destruct (existsb _ _); [discriminate|]. destruct (existsb _ _).
        + intros E. injection E as <-. reflexivity.
        + destruct (check_untyped _ _ _); [|discriminate]. intros E. injection E as <-. reflexivity. }
      intros m b k' I. rewrite Q in I. apply (H m b k' I).
    - exact H.
    - destruct (remove_node neqb n g) eqn:E; cbn [fst]; [|exact H]. eapply labelled_remove; eauto.
    - unfold add_initial. destruct (has_node neqb n g); exact H.
    - unfold states_remove. destruct (remove_node neqb n _) eqn:E; cbn [fst]; [|exact H].
      eapply labelled_remove; [|exact E]. exact H.
  Qed.
  Lemma labelled_run c ops : labelled c (run c ops).
  Proof.
    assert (A : forall g, labelled c g -> labelled c (grun neqb Z.eqb c ops g)).
    { induction ops as [|o ops IH]; intros g H; [exact H|]. apply IH, labelled_step, H. }
    apply A. intros n a k [].
  Qed.

  (** Finding a node. *)
  Lemma find_first l n (a : attrs Z) : NoDup (map fst l) -> In (n, a) l ->
    find (fun x : N * attrs Z => neqb (fst x) n) l = Some (n, a).
  Proof.
    induction l as [|[m b] l IH]; intros D I; [destruct I|]. cbn [find fst].
    inversion D as [|? ? D1 D2]; subst. destruct (neqb m n) eqn:E.
    - apply neqb_eq in E. subst m. destruct I as [I|I]; [congruence|].
      exfalso. apply D1. apply in_map_iff. exists (n, a). auto.
    - destruct I as [I|I]; [|auto]. injection I as -> ->.
      rewrite (proj2 (neqb_eq n n) eq_refl) in E. discriminate.
  Qed.
  Lemma node_label_spec c ops n k v :
    node_label neqb k n (run c ops) = Ok v <->
    exists a, In (n, a) (g_nodes (run c ops)) /\ lookup k a = Some v.
  Proof.
    pose proof (wf_nodes _ _ (wf_run neqb Z.eqb neqb_eq c ops empty_graph (wf_empty c))) as D.
    unfold node_label. split.
    - destruct (find _ _) as [[m a]|] eqn:F; [|discriminate]. apply find_some in F.
      destruct F as [F E]. cbn [fst] in E. apply neqb_eq in E. subst m.
      unfold of_opt. destruct (lookup k a) eqn:L; [|discriminate].
      intros E. injection E as <-. exists a. auto.
    - intros [a [I L]]. rewrite (find_first _ _ _ D I), L. reflexivity.
  Qed.

  Lemma node_label_err k n (g : graph N Z) x : node_label neqb k n g = Err x -> x = "KeyError".
  Proof.
    unfold node_label, of_opt. destruct (find _ _) as [[m a]|]; [destruct (lookup k a)|]; congruence.
  Qed.

  (** The labels of a game: its last type is that of the player, whatever the caller gives. *)
  Lemma game_player_type nts ets :
    lookup "player" (c_node_types (fst (game_init nts ets))) = Some (Some (in_values [0; 1]%Z)) /\
    lookup "player" (c_node_defaults (fst (game_init nts ets))) = Some 0%Z.
  Proof.
    unfold game_init, graph_init, init_labeling. cbn [fst c_node_types c_node_defaults].
    rewrite !fold_left_app. cbn [fold_left player_type lt_name lt_values lt_default].
    rewrite !lookup_set. split; reflexivity.
  Qed.

  (** Every state of a game belongs to player 0 or 1, after any calls. *)
  Lemma game_player nts ets ops n :
    let g := run (fst (game_init nts ets)) ops in
    In n (node_list g) -> exists p, node_label neqb "player" n g = Ok p /\ (p = 0 \/ p = 1)%Z.
  Proof.
    intros g I. destruct (game_player_type nts ets) as [Ty De].
    unfold node_list in I. apply in_map_iff in I. destruct I as [[m a] [E I]]. cbn [fst] in E. subst m.
    assert (K : In "player" (map fst a)).
    { apply (labelled_run (fst (game_init nts ets)) ops n a "player" I).
      apply lookup_In in De. apply (in_map fst) in De. exact De. }
    destruct (lookup "player" a) as [p|] eqn:L; [|apply lookup_None in L; contradiction].
    exists p. split; [apply node_label_spec; exists a; auto|].
    destruct (graph_wellformed neqb Z.eqb neqb_eq (fst (game_init nts ets)) ops) as [_ [_ [W _]]].
    destruct (W n a I) as [_ W']. specialize (W' "player" p _ L Ty).
    unfold in_values in W'. cbn [existsb] in W'.
    destruct (Z.eqb_spec p 0); [auto|]. destruct (Z.eqb_spec p 1); [auto|discriminate].
  Qed.

  Lemma mapr_ok {A B} (f : A -> res B) l : (forall x, In x l -> exists y, f x = Ok y) ->
    exists ys, mapr f l = Ok ys /\ Forall2 (fun x y => f x = Ok y) l ys.
  Proof.
    induction l as [|x l IH]; intros H; [exists []; split; [reflexivity|constructor]|].
    destruct (H x (or_introl eq_refl)) as [y Hy].
    destruct IH as [ys [E F]]; [intros; apply H; right; assumption|].
    exists (y :: ys). cbn [mapr]. rewrite Hy. cbn [bind]. rewrite E. split; [reflexivity|].
    constructor; assumption.
  Qed.

  Lemma player_states_spec nts ets ops p :
    let g := run (fst (game_init nts ets)) ops in
    exists l, player_states neqb p g = Ok l /\
      l = filter (fun n => match node_label neqb "player" n g with Ok q => Z.eqb p q | Err _ => false end) (node_list g).
  Proof.
    intros g. unfold player_states.
    destruct (mapr_ok (fun n => do q <- node_label neqb "player" n g; Ok (n, q)) (node_list g)) as [ys [E F]].
    { intros n I. destruct (game_player nts ets ops n I) as [q [Q _]]. fold g in Q. rewrite Q. eexists. reflexivity. }
    rewrite E. cbn [bind]. eexists. split; [reflexivity|].
    clear E. revert F. generalize (node_list g). intros l F. induction F as [|n y l ys Hy F IH]; [reflexivity|].
    cbn [filter]. destruct (node_label neqb "player" n g) as [q|]; [|discriminate].
    cbn [bind] in Hy. injection Hy as <-. cbn [snd]. destruct (Z.eqb p q); cbn [map fst]; rewrite IH; reflexivity.
  Qed.

  (** [player_states] of the two players: no state twice, each state of the game in exactly one of
      them, and nothing else. *)
  Theorem game_player_states nts ets ops :
    let g := run (fst (game_init nts ets)) ops in
    exists l0 l1, player_states neqb 0 g = Ok l0 /\ player_states neqb 1 g = Ok l1 /\
      NoDup l0 /\ NoDup l1 /\
      (forall n, In n (node_list g) <-> In n l0 \/ In n l1) /\
      (forall n, ~ (In n l0 /\ In n l1)) /\
      (forall p l n, player_states neqb p g = Ok l ->
         (In n l <-> exists a, In (n, a) (g_nodes g) /\ lookup "player" a = Some p)).
  Proof.
    intros g. destruct (player_states_spec nts ets ops 0) as [l0 [E0 S0]].
    destruct (player_states_spec nts ets ops 1) as [l1 [E1 S1]]. fold g in E0, E1, S0, S1.
    pose proof (wf_nodes _ _ (wf_run neqb Z.eqb neqb_eq (fst (game_init nts ets)) ops empty_graph (wf_empty _))) as D.
    fold g in D.
    exists l0, l1. split; [exact E0|]. split; [exact E1|].
    split; [subst l0; apply NoDup_filter, D|]. split; [subst l1; apply NoDup_filter, D|].
    split; [|split].
    - intros n. subst l0 l1. rewrite !filter_In. split; [|tauto]. intros I.
      destruct (game_player nts ets ops n I) as [p [P [ -> | -> ]]]; fold g in P; rewrite P; auto.
    - intros n. subst l0 l1. rewrite !filter_In. intros [[_ A] [_ B]].
      destruct (node_label neqb "player" n g) as [q|]; [|discriminate].
      apply Z.eqb_eq in A, B. lia.
    - intros p l n E. destruct (player_states_spec nts ets ops p) as [l' [E' S']]. fold g in E', S'.
      rewrite E' in E. injection E as ->. subst l. rewrite filter_In. split.
      + intros [I A]. destruct (node_label neqb "player" n g) as [q|] eqn:Q; [|discriminate].
        apply Z.eqb_eq in A. subst q. apply node_label_spec in Q. exact Q.
      + intros H. pose proof H as [a [I _]]. apply node_label_spec in H. fold g in H. rewrite H, Z.eqb_refl.
        split; [|reflexivity]. unfold node_list. apply (in_map fst) in I. exact I.
  Qed.

  (** An edge is controlled by the player to whom its source belongs. *)
  Theorem game_edge_controlled nts ets ops e :
    let g := run (fst (game_init nts ets)) ops in
    In e (g_edges g) ->
    exists p a, edge_controlled_by neqb (e_src e, e_dst e) g = Ok p /\ (p = 0 \/ p = 1)%Z /\
      In (e_src e, a) (g_nodes g) /\ lookup "player" a = Some p.
  Proof.
    intros g I.
    destruct (graph_wellformed neqb Z.eqb neqb_eq (fst (game_init nts ets)) ops) as [_ [W _]].
    destruct (W e I) as [Hs _]. destruct (game_player nts ets ops _ Hs) as [p [P Q]].
    pose proof P as P'. apply node_label_spec in P'. destruct P' as [a [A L]].
    exists p, a. auto.
  Qed.

  (** Adding a state: it belongs to the player that is named, and to player 0 if none is, even if it
      was there before; the players of the other states stay. *)
  Theorem game_add_state nts ets ops n d ch g' :
    let g := run (fst (game_init nts ets)) ops in
    NoDup (map fst d) -> add_node neqb (fst (game_init nts ets)) n d ch g = Ok g' ->
    node_label neqb "player" n g' = Ok (match lookup "player" d with Some p => p | None => 0%Z end) /\
    (forall m, m <> n -> node_label neqb "player" m g' = node_label neqb "player" m g).
  Proof.
    intros g Hd E. set (c := fst (game_init nts ets)) in *.
    assert (G' : g' = run c (ops ++ [GAddNode n d ch])).
    { unfold grun. rewrite fold_left_app. cbn [fold_left gstep].
      change (fold_left _ ops empty_graph) with g. rewrite E. reflexivity. }
    assert (ND : NoDup (map fst (c_node_defaults c))).
    { unfold c, game_init, graph_init, init_labeling. cbn [fst c_node_defaults].
      assert (A : forall l (d0 : attrs Z), NoDup (map fst d0) -> NoDup (map fst (fold_left
        (fun d t => match lt_default t with Some v => set_item (lt_name t) v d | None => d end) l d0))).
      { induction l as [|t l IH]; intros d0 H0; [exact H0|]. cbn [fold_left]. apply IH.
        destruct (lt_default t); [apply nodup_set|]; exact H0. }
      apply A. constructor. }
    destruct (add_node_effect neqb neqb_eq c n d ch g g' (wf_run neqb Z.eqb neqb_eq c ops empty_graph (wf_empty c)) Hd ND E)
      as [_ [_ [_ [Ho [a [Ia La]]]]]].
    destruct (game_player_type nts ets) as [_ De]. fold c in De. split.
    - rewrite G'. apply node_label_spec. exists a. rewrite <- G'. split; [exact Ia|].
      rewrite La, De. destruct (lookup "player" d); reflexivity.
    - intros m Hm.
      assert (A : forall v, node_label neqb "player" m g' = Ok v <-> node_label neqb "player" m g = Ok v).
      { intros v. rewrite G'. unfold g. rewrite !node_label_spec. rewrite <- G'. fold g.
        split; intros [b [Ib Lb]]; exists b; (split; [apply (Ho m b Hm); exact Ib|exact Lb]). }
      destruct (node_label neqb "player" m g') as [v|x] eqn:E1.
      + symmetry. apply A. reflexivity.
      + destruct (node_label neqb "player" m g) as [v|y] eqn:E2.
        * exfalso. destruct (A v) as [_ A2]. specialize (A2 eq_refl). discriminate.
        * apply node_label_err in E1, E2. congruence.
  Qed.

  (** Colors of a parity game are 0, ..., c - 1. *)
  Theorem parity_colors c ops n :
    let g := run (parity_init c) ops in
    In n (node_list g) -> exists k, node_label neqb "color" n g = Ok (Z.of_nat k) /\ k < c.
  Proof.
    intros g I.
    unfold node_list in I. apply in_map_iff in I. destruct I as [[m a] [E I]]. cbn [fst] in E. subst m.
    assert (K : In "color" (map fst a)).
    { apply (labelled_run (parity_init c) ops n a "color" I). cbn. auto. }
    destruct (lookup "color" a) as [v|] eqn:L; [|apply lookup_None in L; contradiction].
    destruct (graph_wellformed neqb Z.eqb neqb_eq (parity_init c) ops) as [_ [_ [W _]]].
    destruct (W n a I) as [_ W']. specialize (W' "color" v _ L eq_refl).
    unfold in_values in W'. apply existsb_exists in W'. destruct W' as [x [X Y]].
    apply Z.eqb_eq in Y. subst x. apply in_map_iff in X. destruct X as [k [<- X]]. apply in_seq in X.
    exists k. split; [apply node_label_spec; exists a; auto|lia].
  Qed.

  (** A parity game with no colors has no states: adding one raises. *)
  Theorem parity_no_colors n d ch g : add_node neqb (parity_init 0) n d ch g = Err "ValueError".
  Proof. reflexivity. Qed.

  (** With at least one color a state with allowed labels can be added. *)
  Theorem parity_add_state c n k p g : k < S c -> (p = 0 \/ p = 1)%Z ->
    exists g', add_node neqb (parity_init (S c)) n [("color", Z.of_nat k); ("player", p)] true g = Ok g'.
  Proof.
    intros Hk Hp. unfold add_node.
    assert (G : typed_attr (c_node_types (parity_init (S c))) (c_node_defaults (parity_init (S c)))
                  [("color", Z.of_nat k); ("player", p)] = Ok [("color", Z.of_nat k); ("player", p)]).
    { rewrite typed_attr_good; [reflexivity| |].
      - repeat constructor.
      - constructor; [|constructor; [|constructor]]; cbn [fst snd].
        + unfold allowed.
          change (lookup "color" _) with (Some (Some (in_values (map Z.of_nat (List.seq 0 (S c)))))).
          apply existsb_exists. exists (Z.of_nat k). split; [|apply Z.eqb_refl].
          apply in_map, in_seq. lia.
        + destruct Hp as [ -> | -> ]; reflexivity. }
    rewrite G. cbn [bind].
    change (check_untyped _ _ true) with (Ok tt). eexists. reflexivity.
  Qed.
End C91.

(** The constructor appends to the list that it is given: a graph made next with the same list
    has players too, and the list grows with each game. *)
Theorem game_init_list_refuted nts ets :
  snd (game_init nts ets) <> nts /\
  lookup "player" (c_node_defaults (graph_init (snd (game_init nts ets)) ets)) = Some 0%Z /\
  snd (game_init (snd (game_init nts ets)) ets) = nts ++ [player_type; player_type].
Proof.
  split; [|split].
  - cbn [snd game_init]. intros E. apply (f_equal (@List.length label_type)) in E.
    rewrite app_length in E. cbn in E. lia.
  - apply (proj2 (game_player_type nts ets)).
  - cbn [snd game_init]. rewrite <- app_assoc. reflexivity.
Qed.

(** A small game: states 5 (player 1), 6 (player 0) and an edge between them. *)
Definition ex_ops : list (gop nat Z) :=
  [GAddNode 5 [("color", 1%Z); ("player", 1%Z)] true; GAddNode 6 [] true; GAddEdge 5 6 None [] true].
Definition ex_game := grun Nat.eqb Z.eqb (parity_init 2) ex_ops empty_graph.
Example ex_players : player_states Nat.eqb 0 ex_game = Ok [6] /\ player_states Nat.eqb 1 ex_game = Ok [5] /\
  edge_controlled_by Nat.eqb (5, 6) ex_game = Ok 1%Z /\ List.length (g_edges ex_game) = 1.
Proof. vm_compute. auto. Qed.

(** Naming only the color of a state that is there gives the state to player 0. *)
Theorem game_recolor_refuted :
  exists ops n (g' : graph nat Z), let g := grun Nat.eqb Z.eqb (parity_init 2) ops empty_graph in
    add_node Nat.eqb (parity_init 2) n [("color", 0%Z)] true g = Ok g' /\
    node_label Nat.eqb "player" n g = Ok 1%Z /\ node_label Nat.eqb "player" n g' = Ok 0%Z.
Proof.
  exists ex_ops, 5. eexists. vm_compute. split; [reflexivity|]. auto.
Qed.
(** A second reading differs from the first. *)
Theorem player_states_set_refuted :
  exists l l', read_twice Nat.eqb 1 ex_game = Ok (l, l') /\ l <> l'.
Proof. exists [5], []. split; [reflexivity|discriminate]. Qed.

Print Assumptions game_player_states.
Print Assumptions game_edge_controlled.
Print Assumptions game_add_state.
Print Assumptions parity_colors.
Print Assumptions parity_no_colors.
Print Assumptions parity_add_state.
Print Assumptions game_init_list_refuted.
Print Assumptions game_recolor_refuted.
Print Assumptions player_states_set_refuted.
