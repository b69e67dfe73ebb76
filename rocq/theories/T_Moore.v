(** C37 (second half): mealy2moore. *)
From Coq Require Import List String Bool Arith Lia FinFun Permutation.
From Verif Require Import M_Tree L_Dec M_Base M_Dict L_Dict M_Graph L_Graph M_Machine S_Run L_Build L_Machine T_Convert.
Import ListNotations.
Open Scope string_scope.
Open Scope list_scope.

Local Lemma ok_inj {A} (a b : A) : Ok a = Ok b -> a = b.
Proof. congruence. Qed.
Lemma pigeon {A B} (R : A -> B -> Prop) (l : list A) (l' : list B) : NoDup l ->
  (forall x, In x l -> exists y, In y l' /\ R x y) -> (forall x x' y, In x l -> In x' l -> R x y -> R x' y -> x = x') ->
  List.length l <= List.length l'.
Proof.
  revert l'. induction l as [|x l IH]; intros l' ND Ex Inj; cbn [List.length]; [lia|]. inversion ND as [|? ? NI ND']; subst.
  destruct (Ex x (or_introl eq_refl)) as [y [Iy Ry]]. apply in_split in Iy. destruct Iy as [p [q ->]].
  assert (H : List.length l <= List.length (p ++ q)).
  { apply IH; [exact ND'| |].
    - intros z Iz. destruct (Ex z (or_intror Iz)) as [u [Iu Ru]]. exists u. split; [|exact Ru]. apply in_app_iff in Iu. apply in_or_app.
      destruct Iu as [Iu|[->|Iu]]; auto. exfalso. apply NI. rewrite (Inj x z u); auto; [left; reflexivity|right; exact Iz].
    - intros a b c Ia Ib. apply Inj; right; assumption. }
  rewrite app_length in *. cbn [List.length]. lia.
Qed.

Section Moore.
  Context {N V : Type} (neqb : N -> N -> bool) (veqb : V -> V -> bool).
  Hypothesis neqb_eq : forall a b, neqb a b = true <-> a = b.
  Hypothesis veqb_eq : forall a b, veqb a b = true <-> a = b.
  Context (pop : list string -> option (string * list string)).
  Hypothesis pop_None : forall l, pop l = None -> l = [].
  Hypothesis pop_Some : forall l q r, pop l = Some (q, r) -> Permutation l (q :: r).
  Context (some_element : list V -> option V).
  Context (m : machine N V).
  Let M := m_graph m.
  Hypothesis Wm : wf (mealy_config veqb m) M.
  Let c := moore_config veqb (Machine [] (m_in m) (m_out m) empty_graph : machine N V).
  Let ins (e : edge N V) := project_dict (e_attr e) (names (m_in m)).
  Let outs (e : edge N V) := project_dict (e_attr e) (names (m_out m)).

  Definition nm (i : nat) : string := ("s" ++ str_nat i)%string.
  Lemma nm_inj i j : nm i = nm j -> i = j.
  Proof.
    unfold nm. intro H. assert (T : forall a b c d, String a b = String c d -> b = d) by (intros ? ? ? ? Z; injection Z; auto).
    apply str_nat_inj, (T _ _ _ _ H).
  Qed.

  (** Moore state [q] stands for Mealy state [s] entered with outputs [a]. *)
  Definition rep (x : conv) (q : string) (s : N) (a : attrs V) : Prop :=
    In (q, s) (x_map x) /\ In (q, a) (g_nodes (x_graph x)).

  Record inv (q0 : string) (cur : option (string * list (edge N V))) (x : @conv N V) (queue seen : list string) : Prop := {
    i_wf : wf c (x_graph x);
    i_map : map fst (x_map x) = node_list (x_graph x);
    i_names : node_list (x_graph x) = map nm (List.seq 0 (List.length (g_nodes (x_graph x))));
    i_inj : forall q q' s a a', rep x q s a -> rep x q' s a' -> same_items a a' -> q = q';
    i_seen : forall q, In q seen <-> In q (node_list (x_graph x));
    i_nseen : NoDup seen;
    i_nqueue : NoDup queue;
    i_queue : incl queue seen;
    i_cur : forall q l, cur = Some (q, l) -> ~ In q queue /\ In q seen;
    i_orig : forall q s a, rep x q s a -> q = q0 \/ exists e, In e (g_edges M) /\ e_dst e = s /\ same_items a (outs e);
    i_edge : forall q i q', trans (x_graph x) q i q' -> ~ In q queue /\ exists e s s' a', In e (g_edges M) /\ e_src e = s /\ e_dst e = s' /\
               (exists a, rep x q s a) /\ rep x q' s' a' /\ same_items a' (outs e) /\ same_items i (ins e) /\
               forall l, cur = Some (q, l) -> In e l;
    i_done : forall q s a e, rep x q s a -> ~ In q queue -> In e (g_edges M) -> e_src e = s ->
               match cur with Some (q1, l) => q1 = q -> In e l | None => True end ->
               exists q' a', trans (x_graph x) q (ins e) q' /\ rep x q' (e_dst e) a' /\ same_items a' (outs e);
    i_init : g_init (x_graph x) = [q0] }.

  Lemma rep_fun x q s s' a a' : wf c (x_graph x) -> map fst (x_map x) = node_list (x_graph x) ->
    rep x q s a -> rep x q s' a' -> s = s' /\ a = a'.
  Proof.
    intros W E [A B] [A' B']. split.
    - eapply unique_key; [|exact A|exact A']. rewrite E. exact (wf_nodes _ _ W).
    - eapply unique_key; [|exact B|exact B']. exact (wf_nodes _ _ W).
  Qed.
  Lemma rep_ex x q : map fst (x_map x) = node_list (x_graph x) -> In q (node_list (x_graph x)) -> exists s a, rep x q s a.
  Proof.
    intros E I. pose proof I as J. rewrite <- E in J. apply in_map_iff in J. destruct J as [[q1 s] [E1 J]].
    apply in_map_iff in I. destruct I as [[q2 a] [E2 I]]. cbn [fst] in *. subst. exists s, a. split; assumption.
  Qed.
  Lemma rep_node x q s a : rep x q s a -> In q (node_list (x_graph x)).
  Proof. intros [_ B]. apply (in_map fst) in B. exact B. Qed.

  Lemma nx_add_node_fresh {N1} (eqb : N1 -> N1 -> bool) (Heq : forall a b, eqb a b = true <-> a = b) n (d : attrs V) l :
    ~ In n (map fst l) -> nx_add_node eqb n d l = l ++ [(n, d)].
  Proof.
    induction l as [|[k a] r IH]; cbn [nx_add_node map fst app]; intro H; [reflexivity|].
    destruct (eqb n k) eqn:E; [exfalso; apply H; left; symmetry; apply Heq, E|]. rewrite IH; [reflexivity|]. intro I. apply H. right. exact I.
  Qed.

  Lemma find_node q (l : list (string * attrs V)) : NoDup (map fst l) -> In q (map fst l) ->
    exists a, List.find (fun na => fst na =? q)%string l = Some (q, a) /\ In (q, a) l.
  Proof.
    induction l as [|[k a] r IH]; cbn [map fst List.find In]; [intros _ []|]. intros ND I. inversion ND as [|? ? NI ND']; subst.
    destruct (String.eqb_spec k q) as [->|Ne]; [exists a; auto|]. destruct I as [->|I]; [contradiction|].
    destruct (IH ND' I) as [b [A B]]. eauto.
  Qed.

  (** The state returned by [_create_state_str]. *)
  Lemma create_state_spec s out x : wf c (x_graph x) -> map fst (x_map x) = node_list (x_graph x) ->
    node_list (x_graph x) = map nm (List.seq 0 (List.length (g_nodes (x_graph x)))) -> NoDup (map fst out) ->
    forall q x', create_state neqb veqb c s out x = Ok (q, x') ->
    (exists a, rep x' q s a /\ same_items a out) /\
    ((x' = x /\ In q (node_list (x_graph x))) \/
     (q = nm (List.length (g_nodes (x_graph x))) /\ ~ In q (node_list (x_graph x)) /\
      x_map x' = x_map x ++ [(q, s)] /\ g_nodes (x_graph x') = g_nodes (x_graph x) ++ [(q, update [] out)] /\
      g_edges (x_graph x') = g_edges (x_graph x) /\ g_init (x_graph x') = g_init (x_graph x) /\ wf c (x_graph x') /\
      forall q1 a1, rep x q1 s a1 -> ~ same_items a1 out)).
  Proof.
    intros W E Nm ND q x' H. unfold create_state in H.
    destruct (List.find _ (x_map x)) as [[q1 s1]|] eqn:F.
    - injection H as <- <-. cbn [fst]. apply find_some in F. cbn [fst snd] in F. destruct F as [I F]. apply andb_true_iff in F. destruct F as [F1 F2].
      apply neqb_eq in F1. subst s1.
      assert (J : In q1 (node_list (x_graph x))) by (rewrite <- E; apply (in_map fst) in I; exact I).
      destruct (find_node q1 (g_nodes (x_graph x)) (wf_nodes _ _ W) J) as [a [A B]]. rewrite A in F2. cbn [snd] in F2.
      split; [exists a; split; [split; assumption|]|left; auto].
      exact (proj1 (dict_eqb_spec veqb veqb_eq _ _ (proj1 (wf_node_attr _ _ W _ _ B)) ND) F2).
    - apply bind_Ok in H. destruct H as [g [H K]]. injection K as <- <-. fold (nm (List.length (g_nodes (x_graph x)))) in *.
      pose proof (wf_add_node String.eqb String.eqb_eq c _ _ _ _ _ W H) as W'. apply add_node_Ok in H. destruct H as [t [T ->]].
      apply typed_attr_Ok in T. destruct T as [-> _]. change (update (update [] (c_node_defaults c)) out) with (update (@nil (string * V)) out) in *.
      assert (Fr : ~ In (nm (List.length (g_nodes (x_graph x)))) (node_list (x_graph x))).
      { rewrite Nm. intro I. apply in_map_iff in I. destruct I as [i [Ei I]]. apply nm_inj in Ei. apply in_seq in I. lia. }
      rewrite (nx_add_node_fresh String.eqb String.eqb_eq) in * by exact Fr.
      split.
      + exists (update [] out). split; [|apply update_nil_items, ND]. split; cbn [x_map x_graph g_nodes]; apply in_or_app; right; left; reflexivity.
      + right. cbn [x_map x_graph g_nodes g_edges g_init]. do 6 (split; [auto|]). split; [exact W'|].
        intros q1 a1 [A B] S. pose proof (find_none _ _ F _ A) as Z. cbn [fst snd] in Z.
        rewrite (proj2 (neqb_eq s s) eq_refl) in Z. cbn [andb] in Z.
        destruct (find_node q1 (g_nodes (x_graph x)) (wf_nodes _ _ W)) as [a [A' B']]. { apply (in_map fst) in B. exact B. }
        rewrite A' in Z. cbn [snd] in Z. assert (a = a1) by (eapply unique_key; [exact (wf_nodes _ _ W)|exact B'|exact B]). subst a.
        rewrite (proj2 (dict_eqb_spec veqb veqb_eq _ _ (proj1 (wf_node_attr _ _ W _ _ B)) ND) S) in Z. discriminate.
  Qed.

  Lemma outs_nodup e : In e (g_edges M) -> NoDup (map fst (outs e)).
  Proof. intro I. apply nodup_project, (proj1 (wf_edge_attr _ _ Wm e I)). Qed.
  Lemma ins_nodup e : In e (g_edges M) -> NoDup (map fst (ins e)).
  Proof. intro I. apply nodup_project, (proj1 (wf_edge_attr _ _ Wm e I)). Qed.

  (** One transition of the Mealy machine. *)
  Lemma conv_edge_inv q0 q s a l1 e w w' : inv q0 (Some (q, l1)) (w_conv w) (w_queue w) (w_seen w) -> rep (w_conv w) q s a ->
    In e (g_edges M) -> e_src e = s -> conv_edge neqb veqb m c q e w = Ok w' ->
    inv q0 (Some (q, l1 ++ [e])) (w_conv w') (w_queue w') (w_seen w') /\ (forall q1 s1 a1, rep (w_conv w) q1 s1 a1 -> rep (w_conv w') q1 s1 a1) /\
    List.length (w_seen w') + List.length (w_queue w) = List.length (w_queue w') + List.length (w_seen w).
  Proof.
    intros Iv Rq Ie Es H. destruct Iv as [W1 E1 Nm1 Inj1 Seen1 NS1 NQ1 Q1 Cur1 Or1 Ed1 Dn1 In1].
    unfold conv_edge in H. fold (ins e) in H. fold (outs e) in H.
    apply bind_Ok in H. destruct H as [[q' x'] [C H]]. cbn [fst snd] in H. apply bind_Ok in H. destruct H as [g [A H]].
    destruct (create_state_spec _ _ _ W1 E1 Nm1 (outs_nodup e Ie) q' x' C) as [[a' [Rq' Sa']] Cs].
    (* facts about x' that hold in both cases *)
    assert (X : wf c (x_graph x') /\ map fst (x_map x') = node_list (x_graph x') /\
                node_list (x_graph x') = map nm (List.seq 0 (List.length (g_nodes (x_graph x')))) /\
                g_edges (x_graph x') = g_edges (x_graph (w_conv w)) /\ g_init (x_graph x') = g_init (x_graph (w_conv w)) /\
                (forall q1, In q1 (node_list (x_graph x')) <-> In q1 (node_list (x_graph (w_conv w))) \/ q1 = q') /\
                (forall q1 s1 a1, rep (w_conv w) q1 s1 a1 -> rep x' q1 s1 a1) /\
                (forall q1 s1 a1, rep x' q1 s1 a1 -> rep (w_conv w) q1 s1 a1 \/ (q1 = q' /\ s1 = e_dst e /\ a1 = a')) /\
                (forall q q' s a a', rep x' q s a -> rep x' q' s a' -> same_items a a' -> q = q')).
    { destruct Cs as [[-> J]|[Eq [Fr [Em [En [Ee [Ei [W' Un]]]]]]]].
      - do 5 (split; [assumption|| reflexivity|]). split; [|split; [auto|split; [auto|exact Inj1]]].
        intro q1. split; [auto|]. intros [K| ->]; assumption.
      - assert (Nl : node_list (x_graph x') = node_list (x_graph (w_conv w)) ++ [q']).
        { unfold node_list. rewrite En, map_app. reflexivity. }
        assert (Mp : map fst (x_map x') = node_list (x_graph x')).
        { rewrite Em, map_app, E1, Nl. reflexivity. }
        assert (Rinv : forall q1 s1 a1, rep x' q1 s1 a1 -> rep (w_conv w) q1 s1 a1 \/ (q1 = q' /\ s1 = e_dst e /\ a1 = a')).
        { intros q1 s1 a1 [Ha Hb]. destruct (string_dec q1 q') as [->|Ne].
          - right. destruct (rep_fun x' q' s1 (e_dst e) a1 a' W' Mp (conj Ha Hb) Rq') as [-> ->]. auto.
          - left. rewrite Em in Ha. rewrite En in Hb. apply in_app_iff in Ha. apply in_app_iff in Hb. split.
            + destruct Ha as [Ha|[Ha|[]]]; [exact Ha|exfalso; apply Ne; injection Ha; congruence].
            + destruct Hb as [Hb|[Hb|[]]]; [exact Hb|exfalso; apply Ne; injection Hb; congruence]. }
        split; [exact W'|]. split; [exact Mp|]. split.
        { rewrite Nl, Nm1, En, app_length. cbn [List.length]. rewrite Nat.add_1_r, seq_S, map_app. cbn [map plus]. rewrite Eq. reflexivity. }
        do 2 (split; [assumption|]). split; [|split; [|split; [exact Rinv|]]].
        + intro q1. rewrite Nl, in_app_iff. cbn. split; [intros [K|[->|[]]]; auto|intros [K| ->]; auto].
        + intros q1 s1 a1 [Ha Hb]. split; [rewrite Em|rewrite En]; apply in_or_app; auto.
        + intros p p' s1 b b' Rp Rp' S. destruct (Rinv _ _ _ Rp) as [K|[-> [-> ->]]], (Rinv _ _ _ Rp') as [K'|[-> [Z ->]]].
          * eapply Inj1; eauto.
          * exfalso. subst s1. apply (Un p b K). eapply same_items_trans; eauto.
          * exfalso. apply (Un p' b' K'). eapply same_items_trans; [apply same_items_sym, S|exact Sa'].
          * reflexivity. }
    destruct X as [W2 [E2 [Nm2 [Ee2 [Ei2 [Nl2 [Rx [Rinv Inj2]]]]]]]].
    destruct (add_edge_trans String.eqb veqb String.eqb_eq veqb_eq c eq_refl q q' (ins e) true (x_graph x') g W2 (ins_nodup e Ie) A)
      as [G1 [G2 [G3 [G4 [_ [W3 T3]]]]]].
    assert (T2 : forall a b d, trans g a d b <-> trans (x_graph (w_conv w)) a d b \/ (a = q /\ b = q' /\ same_items (ins e) d)).
    { intros u v d. rewrite T3. unfold trans. rewrite Ee2. reflexivity. }
    set (x'' := Conv g (x_map x')) in *.
    assert (Rg : forall q1 s1 a1, rep x'' q1 s1 a1 <-> rep x' q1 s1 a1) by (intros; unfold rep, x''; cbn [x_map x_graph]; rewrite G1; reflexivity).
    assert (Nl3 : node_list g = node_list (x_graph x')) by (unfold node_list; rewrite G1; reflexivity).
    assert (Cq : ~ In q (w_queue w) /\ In q (w_seen w)) by (eapply Cur1; reflexivity).
    (* the queue and the set of seen states *)
    assert (QS : exists queue' seen', w' = WL x'' queue' seen' /\ (forall q1, In q1 seen' <-> In q1 (w_seen w) \/ q1 = q') /\ NoDup seen' /\ NoDup queue' /\
              incl queue' seen' /\ incl (w_queue w) queue' /\ (forall q1, In q1 queue' -> In q1 (w_queue w) \/ (q1 = q' /\ ~ In q' (w_seen w))) /\
              (~ In q' (w_seen w) -> In q' queue') /\
              List.length seen' + List.length (w_queue w) = List.length queue' + List.length (w_seen w)).
    { destruct (mem q' (w_seen w)) eqn:Mm; injection H as <-; eexists; eexists; (split; [reflexivity|]).
      - apply mem_In in Mm. split; [intro q1; split; [auto|intros [K| ->]; auto]|]. split; [exact NS1|]. split; [exact NQ1|]. split; [exact Q1|].
        split; [apply incl_refl|]. split; [auto|]. split; [intro; contradiction|lia].
      - assert (Ns : ~ In q' (w_seen w)) by (intro K; apply mem_In in K; congruence).
        assert (Nq : ~ In q' (w_queue w)) by (intro K; apply Ns, Q1, K).
        split; [intro q1; rewrite in_app_iff; cbn; split; [intros [K|[->|[]]]; auto|intros [K| ->]; auto]|].
        split; [apply NoDup_snoc; auto|]. split; [apply NoDup_snoc; auto|]. split; [|split; [|split; [|split]]].
        + intros z Z. apply in_app_iff in Z. apply in_or_app. destruct Z as [Z|Z]; [left; apply Q1, Z|right; exact Z].
        + intros z Z. apply in_or_app. auto.
        + intros z Z. apply in_app_iff in Z. destruct Z as [Z|[<-|[]]]; auto.
        + intros _. apply in_or_app. right. left. reflexivity.
        + rewrite !app_length. cbn. lia. }
    destruct QS as [queue' [seen' [-> [S' [NS' [NQ' [QI' [QM' [QE' [QN' QL']]]]]]]]]]. cbn [w_conv w_queue w_seen].
    assert (Qnew : forall q1, In q1 queue' -> ~ In q1 (w_queue w) -> q1 = q' /\ ~ In q' (w_seen w)).
    { intros q1 K L. destruct (QE' q1 K) as [Z|Z]; [contradiction|exact Z]. }
    split; [|split; [|exact QL']].
    - split; cbn [x_graph x_map].
      + exact W3.
      + change (map fst (x_map x') = node_list g). rewrite Nl3. exact E2.
      + change (node_list g = map nm (List.seq 0 (List.length (g_nodes g)))). rewrite Nl3, G1. exact Nm2.
      + intros q1 q2 s1 a1 a2 R1 R2. apply Rg in R1. apply Rg in R2. eapply Inj2; eauto.
      + intro q1. change (In q1 seen' <-> In q1 (node_list g)). rewrite Nl3, Nl2, S', Seen1. reflexivity.
      + exact NS'. + exact NQ'. + exact QI'.
      + intros q1 l [= <- <-]. split; [|apply S'; left; exact (proj2 Cq)].
        intro K. destruct (Qnew q K (proj1 Cq)) as [-> Z]. apply Z. exact (proj2 Cq).
      + intros q1 s1 a1 R. apply Rg in R. destruct (Rinv _ _ _ R) as [K|[-> [-> ->]]]; [eapply Or1; eauto|].
        right. exists e. auto.
      + intros q1 i q2 T. apply T2 in T. destruct T as [T|[-> [-> Si]]].
        * destruct (Ed1 _ _ _ T) as [Z [e1 [s1 [s2 [a2 [B1 [B2 [B3 [[a3 B4] [B5 [B6 [B7 B8]]]]]]]]]]]]. split.
          { intro K. destruct (Qnew q1 K Z) as [-> Z']. apply Z'. apply Seen1. eapply rep_node; eauto. }
          exists e1, s1, s2, a2. do 3 (split; [assumption|]). split; [exists a3; apply Rg, Rx, B4|]. split; [apply Rg, Rx, B5|]. do 2 (split; [assumption|]).
          intros l [= -> <-]. apply in_or_app. left. apply B8. reflexivity.
        * split. { intro K. destruct (Qnew q K (proj1 Cq)) as [-> Z]. apply Z. exact (proj2 Cq). }
          exists e, s, (e_dst e), a'. do 3 (split; [auto|]). split; [exists a; apply Rg, Rx, Rq|]. split; [apply Rg, Rq'|]. split; [exact Sa'|].
          split; [apply same_items_sym, Si|]. intros l [= <-]. apply in_or_app. right. left. reflexivity.
      + intros q1 s1 a1 e1 R NQ Ie1 Es1 Cur. apply Rg in R.
        assert (R0 : rep (w_conv w) q1 s1 a1).
        { destruct (Rinv _ _ _ R) as [K|[-> [-> ->]]]; [exact K|]. assert (Z : In q' (w_seen w)).
          { destruct (in_dec string_dec q' (w_seen w)) as [Z|Z]; [exact Z|]. exfalso. apply NQ, QN', Z. }
          apply Seen1 in Z. destruct (rep_ex _ _ E1 Z) as [s2 [a2 Z2]]. destruct (rep_fun x' q' _ _ _ _ W2 E2 (Rx _ _ _ Z2) Rq') as [-> ->]. exact Z2. }
        destruct (string_dec q q1) as [->|Ne].
        * specialize (Cur eq_refl). apply in_app_iff in Cur. destruct Cur as [Cur|[<-|[]]].
          -- destruct (Dn1 q1 s1 a1 e1 R0 (fun K => NQ (QM' _ K)) Ie1 Es1 (fun _ => Cur)) as [q2 [a2 [B1 [B2 B3]]]].
             exists q2, a2. split; [apply T2; left; exact B1|]. split; [apply Rg, Rx, B2|exact B3].
          -- exists q', a'. split; [apply T2; right; repeat split; reflexivity|]. split; [apply Rg, Rq'|exact Sa'].
        * destruct (Dn1 q1 s1 a1 e1 R0 (fun K => NQ (QM' _ K)) Ie1 Es1 (fun K => False_ind _ (Ne K))) as [q2 [a2 [B1 [B2 B3]]]].
          exists q2, a2. split; [apply T2; left; exact B1|]. split; [apply Rg, Rx, B2|exact B3].
      + change (g_init g = [q0]). rewrite G2, Ei2. exact In1.
    - intros q1 s1 a1 R. apply Rg, Rx, R.
  Qed.

  Lemma inner_inv q0 q s a : forall l w w', inv q0 (Some (q, [])) (w_conv w) (w_queue w) (w_seen w) -> rep (w_conv w) q s a ->
    (forall e, In e l -> In e (g_edges M) /\ e_src e = s) -> fold_res (conv_edge neqb veqb m c q) l w = Ok w' ->
    inv q0 (Some (q, l)) (w_conv w') (w_queue w') (w_seen w') /\ (forall q1 s1 a1, rep (w_conv w) q1 s1 a1 -> rep (w_conv w') q1 s1 a1).
  Proof.
    intros l w w' Iv R L H. refine (fold_res_inv (conv_edge neqb veqb m c q) (fun l1 w1 => inv q0 (Some (q, l1)) (w_conv w1) (w_queue w1) (w_seen w1) /\
      (forall q1 s1 a1, rep (w_conv w) q1 s1 a1 -> rep (w_conv w1) q1 s1 a1)) l w w' _ _ H).
    - split; [exact Iv|auto].
    - intros l1 e l2 w1 w2 -> [I1 R1] F. destruct (L e) as [Ie Es]; [apply in_or_app; right; left; reflexivity|].
      destruct (conv_edge_inv q0 q s a l1 e w1 w2 I1 (R1 _ _ _ R) Ie Es F) as [A [B C]]. split; [exact A|auto].
  Qed.

  Lemma inv_start q0 x queue seen q r s a : inv q0 None x queue seen -> Permutation queue (q :: r) -> rep x q s a ->
    inv q0 (Some (q, [])) x r seen.
  Proof.
    intros [W1 E1 Nm1 Inj1 Seen1 NS1 NQ1 Q1 Cur1 Or1 Ed1 Dn1 In1] P R.
    assert (NQ : NoDup (q :: r)) by (eapply Permutation_NoDup; eauto). inversion NQ as [|? ? NI ND]; subst.
    split; auto.
    - intros z Z. apply Q1. eapply Permutation_in; [apply Permutation_sym, P|right; exact Z].
    - intros q1 l [= <- <-]. split; [exact NI|]. apply Q1. eapply Permutation_in; [apply Permutation_sym, P|left; reflexivity].
    - intros q1 i q2 T. destruct (Ed1 _ _ _ T) as [Z K].
      assert (Z' : ~ In q1 (q :: r)) by (intro K'; apply Z; eapply Permutation_in; [apply Permutation_sym, P|exact K']).
      split; [intro K'; apply Z'; right; exact K'|]. destruct K as [e [s1 [s2 [a2 [B1 [B2 [B3 [B4 [B5 [B6 [B7 _]]]]]]]]]]].
      exists e, s1, s2, a2. do 7 (split; [assumption|]). intros l [= <- _]. exfalso. apply Z'. left. reflexivity.
    - intros q1 s1 a1 e R1 NQ' Ie Es Cur. destruct (string_dec q q1) as [->|Ne]; [destruct (Cur eq_refl)|].
      apply (Dn1 q1 s1 a1 e); auto. intro K. apply (Permutation_in _ P) in K. destruct K as [K|K]; contradiction.
  Qed.
  Lemma inv_finish q0 q s a x queue seen : inv q0 (Some (q, out_edges neqb s M)) x queue seen -> rep x q s a -> inv q0 None x queue seen.
  Proof.
    intros [W1 E1 Nm1 Inj1 Seen1 NS1 NQ1 Q1 Cur1 Or1 Ed1 Dn1 In1] R. split; auto.
    - intros q1 l K. discriminate.
    - intros q1 i q2 T. destruct (Ed1 _ _ _ T) as [Z [e [s1 [s2 [a2 [B1 [B2 [B3 [B4 [B5 [B6 [B7 _]]]]]]]]]]]].
      split; [exact Z|]. exists e, s1, s2, a2. do 7 (split; [assumption|]). discriminate.
    - intros q1 s1 a1 e R1 NQ Ie Es _. apply (Dn1 q1 s1 a1 e); auto. intros <-.
      destruct (rep_fun x q _ _ _ _ W1 E1 R R1) as [-> _]. apply (out_edges_In neqb neqb_eq). auto.
  Qed.
  Lemma conv_loop_inv q0 : forall fuel w w', inv q0 None (w_conv w) (w_queue w) (w_seen w) ->
    conv_loop neqb veqb pop fuel m c w = Ok w' -> inv q0 None (w_conv w') [] (w_seen w') /\
    (forall q1 s1 a1, rep (w_conv w) q1 s1 a1 -> rep (w_conv w') q1 s1 a1).
  Proof.
    induction fuel as [|f IH]; intros w w' Iv H; cbn [conv_loop] in H; [discriminate|].
    destruct (pop (w_queue w)) as [[q r]|] eqn:P.
    - apply pop_Some in P. apply bind_Ok in H. destruct H as [s [L H]]. apply bind_Ok in H. destruct H as [w1 [F H]].
      assert (Ls : lookup q (x_map (w_conv w)) = Some s) by (destruct (lookup q (x_map (w_conv w))); cbn in L; congruence).
      assert (Iq : In q (node_list (x_graph (w_conv w)))).
      { rewrite <- (i_map _ _ _ _ _ Iv). apply lookup_In in Ls. apply (in_map fst) in Ls. exact Ls. }
      destruct (rep_ex _ _ (i_map _ _ _ _ _ Iv) Iq) as [s' [a R]].
      assert (s' = s). { destruct R as [R _]. apply lookup_In in Ls. eapply unique_key; [|exact R|exact Ls]. rewrite (i_map _ _ _ _ _ Iv). exact (wf_nodes _ _ (i_wf _ _ _ _ _ Iv)). }
      subst s'. pose proof (inv_start q0 _ _ _ q r s a Iv P R) as Iv'.
      destruct (inner_inv q0 q s a (out_edges neqb s M) (WL (w_conv w) r (w_seen w)) w1 Iv' R) as [I1 R1]; [|exact F|].
      { intros e I. apply (out_edges_In neqb neqb_eq), I. }
      destruct (IH w1 w') as [A B]; [eapply inv_finish; eauto|exact H|]. split; [exact A|]. intros q1 s1 a1 K. apply B, R1, K.
    - injection H as <-. apply pop_None in P. rewrite P in Iv. auto.
  Qed.

  (** The initial state. *)
  Definition initial_out : res (attrs V) :=
    mapr (fun kp => match snd kp with
                    | PSet l => do v <- of_opt "IndexError" (some_element l); Ok (fst kp, v)
                    | _ => Err "TypeError"
                    end) (m_out m).
  Lemma initial_out_keys out : initial_out = Ok out -> map fst out = map fst (m_out m).
  Proof.
    unfold initial_out. intro F. apply (proj1 (mapr_Forall2 _ _ _)) in F. induction F as [|[k p] [k' v] l l' E _ IH]; cbn [map]; [reflexivity|].
    rewrite IH. cbn [fst snd] in *. destruct p as [d|f|]; try discriminate. destruct (some_element d); cbn in E; [|discriminate]. injection E as <- <-. reflexivity.
  Qed.
  Lemma mealy2moore_parts m' : NoDup (map fst (m_out m)) -> mealy2moore neqb veqb pop some_element m = Ok m' ->
    exists out s0 i0 x, initial_out = Ok out /\ g_init M = s0 :: i0 /\ inv "s0" None x [] (node_list (x_graph x)) /\
      rep x "s0" s0 (update (update [] out) (update [] out)) /\ m' = Machine [] (m_in m) (m_out m) (x_graph x).
  Proof.
    intros ND H. unfold mealy2moore in H. fold initial_out in H. apply bind_Ok in H. destruct H as [out [Ho H]].
    apply bind_Ok in H. destruct H as [s0 [Hs H]]. fold c in H. apply bind_Ok in H. destruct H as [[q x] [Hc H]]. cbn [fst snd] in H.
    apply bind_Ok in H. destruct H as [g [Hg H]]. apply bind_Ok in H. destruct H as [g' [Hi H]]. apply bind_Ok in H. destruct H as [w [Hw H]].
    apply ok_inj in H. exists out, s0. destruct (g_init (m_graph m)) as [|s1 i0] eqn:Ei; [discriminate|]. apply ok_inj in Hs. subst s1. exists i0, (w_conv w).
    assert (NDo : NoDup (map fst out)) by (rewrite (initial_out_keys out Ho); exact ND).
    destruct (create_state_spec s0 out (Conv empty_graph []) (wf_empty c) eq_refl eq_refl NDo q x Hc) as [_ [[_ []]|[Eq [_ [Em [En [Ee [Ein [Wx _]]]]]]]]].
    cbn in Eq. subst q. change (nm (List.length (@g_nodes string V (x_graph (@Conv N V empty_graph []))))) with "s0" in *. cbn [x_map app] in Em. cbn [x_graph g_nodes empty_graph app] in En.
    pose proof (wf_add_node String.eqb String.eqb_eq c _ _ _ _ _ Wx Hg) as Wg. apply add_node_Ok in Hg. destruct Hg as [t [T Eg]].
    apply typed_attr_Ok in T. destruct T as [-> _]. change (update (update [] (c_node_defaults c)) out) with (update (@nil (string * V)) out) in *.
    rewrite En in Eg. cbn [nx_add_node] in Eg. change ("s0" =? "s0")%string with true in Eg. cbv iota in Eg.
    assert (Wg' := wf_step String.eqb veqb String.eqb_eq c (GAddInitial "s0") g Wg). cbn [gstep] in Wg'. rewrite Hi in Wg'. cbn [fst] in Wg'.
    set (a0 := update (update [] out) (update [] out)) in *.
    assert (G' : g_nodes g' = [("s0", a0)] /\ g_edges g' = [] /\ g_init g' = ["s0"]).
    { unfold add_initial in Hi. destruct (has_node _ _ g); [|discriminate]. apply ok_inj in Hi. subst g' g. cbn [g_nodes g_edges g_init]. rewrite Ee, Ein. split; [reflexivity|]. split; reflexivity. }
    destruct G' as [G1 [G2 G3]].
    set (x0 := Conv g' (x_map x)) in *. assert (R0 : forall q s a, rep x0 q s a <-> q = "s0" /\ s = s0 /\ a = a0).
    { intros q s a. unfold rep, x0. cbn [x_map x_graph]. rewrite Em, G1. cbn. split.
      - intros [[[= <- <-]|[]] [[= <-]|[]]]. auto.
      - intros [-> [-> ->]]. auto. }
    assert (Iv : inv "s0" None x0 ["s0"] ["s0"]).
    { split; unfold x0; cbn [x_graph x_map].
      - exact Wg'.
      - unfold node_list. rewrite Em, G1. reflexivity.
      - unfold node_list. rewrite G1. reflexivity.
      - intros q q' s a a' A B _. apply R0 in A. apply R0 in B. intuition congruence.
      - intro q. unfold node_list. rewrite G1. reflexivity.
      - repeat constructor. intros [].
      - repeat constructor. intros [].
      - apply incl_refl.
      - discriminate.
      - intros q s a A. apply R0 in A. tauto.
      - intros q i q' [e [I _]]. rewrite G2 in I. destruct I.
      - intros q s a e A B. apply R0 in A. destruct A as [-> _]. exfalso. apply B. left. reflexivity.
      - exact G3. }
    destruct (conv_loop_inv "s0" _ (WL x0 ["s0"] ["s0"]) w Iv Hw) as [Fin Mon].
    split; [exact Ho|]. split; [exact Ei|].
    assert (Keep : rep (w_conv w) "s0" s0 a0) by (apply Mon, R0; auto).
    split; [|split; [exact Keep|symmetry; exact H]].
    destruct Fin as [W1 E1 Nm1 Inj1 Seen1 NS1 NQ1 Q1 Cur1 Or1 Ed1 Dn1 In1]. split; auto.
    - intro q. reflexivity.
    - exact (wf_nodes _ _ W1).
    - intros q [].
    - discriminate.
  Qed.

  Lemma project_same (d d' : attrs V) ks i : same_items d (project_dict d' ks) -> (restricts ks d i <-> restricts ks d' i).
  Proof.
    intro S. assert (E : forall k v, In k ks /\ lookup k d = Some v <-> In k ks /\ lookup k d' = Some v).
    { intros k v. rewrite (S k), lookup_project. split; (intros [I L]; split; [exact I|]); rewrite (proj2 (mem_In _ _) I) in *; exact L. }
    split; intros R k v; rewrite (R k v); [apply E|symmetry; apply E].
  Qed.

  (** The Moore machine simulates the Mealy machine from its first initial state, step by
      step, with the outputs of a reaction found at the state entered. *)
  Theorem mealy2moore_simulates m' : NoDup (map fst (m_out m)) -> mealy2moore neqb veqb pop some_element m = Ok m' ->
    m_in m' = m_in m /\ m_out m' = m_out m /\
    exists (R : string -> N -> Prop) q0 s0 i0, g_init (m_graph m) = s0 :: i0 /\ g_init (m_graph m') = [q0] /\ R q0 s0 /\
      (forall q s x q', R q s -> moore_step_after m' q x q' -> exists t, mealy_step m s x t /\ R q' t) /\
      (forall q s x t, R q s -> mealy_step m s x t -> exists q', moore_step_after m' q x q' /\ R q' t).
  Proof.
    intros ND H. destruct (mealy2moore_parts m' ND H) as [out [s0 [i0 [x [_ [Ei [Iv [R0 ->]]]]]]]]. cbn [m_in m_out m_graph].
    do 2 (split; [reflexivity|]). exists (fun q s => exists a, rep x q s a), "s0", s0, i0. fold M. destruct Iv as [W1 E1 Nm1 Inj1 Seen1 NS1 NQ1 Q1 Cur1 Or1 Ed1 Dn1 In1].
    split; [exact Ei|]. split; [exact In1|]. split; [eauto|]. split.
    - intros q s [i o] q' [a Rq] [e' [a2 [I [A [B [J [Ri Ro]]]]]]]. cbn [m_graph m_in m_out fst snd] in *.
      destruct (Ed1 q (e_attr e') q') as [_ [e [s1 [s2 [a3 [B1 [B2 [B3 [[a4 B4] [B5 [B6 [B7 _]]]]]]]]]]]]. { exists e'. repeat split; auto. }
      destruct (rep_fun x q _ _ _ _ W1 E1 Rq B4) as [-> _].
      assert (a2 = a3) by (eapply unique_key; [exact (wf_nodes _ _ W1)|exact J|exact (proj2 B5)]). subst a3.
      exists (e_dst e). split; [|exists a2; rewrite B3; exact B5].
      exists e. cbn [fst snd]. do 3 (split; [auto|]). split.
      + refine (proj1 (project_same _ _ _ _ B7) Ri).
      + refine (proj1 (project_same _ _ _ _ B6) Ro).
    - intros q s [i o] t [a Rq] [e [I [A [B [Ri Ro]]]]]. cbn [fst snd] in *. fold M in I.
      destruct (Dn1 q s a e Rq) as [q' [a' [[e' [C1 [C2 [C3 C4]]]] [C5 C6]]]]; auto.
      exists q'. split; [|exists a'; rewrite <- B; exact C5]. exists e', a'. cbn [m_graph m_in m_out fst snd]. do 3 (split; [auto|]). split; [exact (proj2 C5)|]. split.
      + refine (proj2 (project_same _ _ _ _ C4) Ri).
      + refine (proj2 (project_same _ _ _ _ C6) Ro).
  Qed.
  (** With one initial state the input/output words agree. *)
  Theorem mealy2moore_words m' s0 : NoDup (map fst (m_out m)) -> mealy2moore neqb veqb pop some_element m = Ok m' ->
    g_init (m_graph m) = [s0] ->
    forall w, words (moore_step_after m') (m_graph m') w <-> words (mealy_step m) (m_graph m) w.
  Proof.
    intros ND H Hi w. destruct (mealy2moore_simulates m' ND H) as [_ [_ [R [q0 [s1 [i0 [E1 [E2 [R0 [S1 S2]]]]]]]]]].
    rewrite Hi in E1. injection E1 as <- <-. split.
    - intros [q [q' [I P]]]. rewrite E2 in I. destruct I as [<-|[]].
      destruct (steps_sim (moore_step_after m') (mealy_step m) R eq) with (s := q0) (s' := s0) (w := w) (t := q') as [w' [t' [F [P' _]]]]; auto.
      { intros s s' l t Rs St. destruct (S1 _ _ _ _ Rs St) as [t' [A B]]. eauto. }
      apply Forall2_eq in F. subst w'. exists s0, t'. rewrite Hi. split; [left; reflexivity|exact P'].
    - intros [s [t [I P]]]. rewrite Hi in I. destruct I as [<-|[]].
      destruct (steps_sim (mealy_step m) (moore_step_after m') (fun s q => R q s) eq) with (s := s0) (s' := q0) (w := w) (t := t) as [w' [t' [F [P' _]]]]; auto.
      { intros s s' l t' Rs St. destruct (S2 _ _ _ _ Rs St) as [q' [A B]]. eauto. }
      apply Forall2_eq in F. subst w'. exists q0, t'. rewrite E2. split; [left; reflexivity|exact P'].
  Qed.

  (** ** Termination and success *)
  Hypothesis NDo : NoDup (map fst (m_out m)).
  Hypothesis Dj : forall k, In k (map fst (m_in m)) -> ~ In k (map fst (m_out m)).
  (** Labels give all inputs, and a label occurs once between two states. *)
  Hypothesis Given : forall e k, In e (g_edges M) -> In k (map fst (m_in m)) -> lookup k (e_attr e) <> None.
  Hypothesis Once : forall e e', In e (g_edges M) -> In e' (g_edges M) -> e_src e = e_src e' -> e_dst e = e_dst e' ->
    same_items (ins e) (ins e') -> same_items (outs e) (outs e') -> e = e'.

  Lemma types_keys (ps : list (string * port V)) : map fst (port_types veqb ps) = map fst ps.
  Proof. unfold port_types. rewrite map_map. reflexivity. Qed.
  Lemma node_types_lookup k : lookup k (c_node_types c) = lookup k (port_types veqb (m_out m)).
  Proof.
    unfold c, moore_config. cbn [c_node_types m_vars m_out]. rewrite lookup_update, lookup_rev by (rewrite types_keys; exact NDo).
    destruct (lookup k (port_types veqb (m_out m))); reflexivity.
  Qed.
  Lemma mealy_types_lookup k : lookup k (c_edge_types (mealy_config veqb m)) =
    match lookup k (port_types veqb (m_out m)) with Some d => Some d | None => lookup k (port_types veqb (m_in m)) end.
  Proof. unfold mealy_config. cbn [c_edge_types]. rewrite lookup_update, lookup_rev by (rewrite types_keys; exact NDo). reflexivity. Qed.
  Lemma outs_good e : In e (g_edges M) -> good (c_node_types c) (outs e) /\ typed_keys (c_node_types c) (outs e).
  Proof.
    intro I. split.
    - apply Forall_forall. intros [k v] K. cbn [fst snd]. apply filter_In in K. cbn [fst] in K. destruct K as [K Mk]. apply mem_In in Mk.
      pose proof (proj2 (wf_edge_attr _ _ Wm e I)) as G. unfold good in G. rewrite Forall_forall in G. specialize (G _ K). cbn [fst snd] in G.
      unfold allowed in *. rewrite node_types_lookup. rewrite mealy_types_lookup in G. destruct (lookup k (port_types veqb (m_out m))) eqn:L; [exact G|reflexivity].
    - intros k K. apply lookup_name. rewrite node_types_lookup. apply lookup_name. rewrite types_keys. apply in_map_iff in K. destruct K as [[k' v] [<- K]].
      apply filter_In in K. apply mem_In. exact (proj2 K).
  Qed.
  Lemma ins_good e : In e (g_edges M) -> good (c_edge_types c) (ins e) /\ typed_keys (c_edge_types c) (ins e).
  Proof.
    intro I. unfold c, moore_config. cbn [c_edge_types m_in]. split.
    - apply Forall_forall. intros [k v] K. cbn [fst snd]. apply filter_In in K. cbn [fst] in K. destruct K as [K Mk]. apply mem_In in Mk.
      pose proof (proj2 (wf_edge_attr _ _ Wm e I)) as G. unfold good in G. rewrite Forall_forall in G. specialize (G _ K). cbn [fst snd] in G.
      unfold allowed in *. rewrite mealy_types_lookup in G. destruct (lookup k (port_types veqb (m_out m))) eqn:L; [|exact G].
      exfalso. apply (Dj k Mk). rewrite <- types_keys. apply lookup_name. eauto.
    - intros k K. rewrite types_keys. apply in_map_iff in K. destruct K as [[k' v] [<- K]]. apply filter_In in K. apply mem_In. exact (proj2 K).
  Qed.
  Lemma add_node_total q (d : attrs V) (g : graph string V) : good (c_node_types c) d -> typed_keys (c_node_types c) d ->
    exists g', add_node String.eqb c q d true g = Ok g'.
  Proof.
    intros G T. unfold add_node. rewrite typed_attr_good by (try exact G; constructor). cbn [bind].
    rewrite check_untyped_ok; [cbn [bind]; eauto|]. intros k K. apply T. apply (proj1 (keys_update_nil d k)). exact K.
  Qed.

  Lemma conv_edge_total q0 q s a l1 e w : inv q0 (Some (q, l1)) (w_conv w) (w_queue w) (w_seen w) -> rep (w_conv w) q s a ->
    In e (g_edges M) -> e_src e = s -> ~ In e l1 -> exists w', conv_edge neqb veqb m c q e w = Ok w'.
  Proof.
    intros Iv Rq Ie Es NI. unfold conv_edge. fold (ins e). fold (outs e).
    assert (C : exists qx, create_state neqb veqb c (e_dst e) (outs e) (w_conv w) = Ok qx).
    { unfold create_state. destruct (List.find _ (x_map (w_conv w))); [eauto|].
      destruct (add_node_total ("s" ++ str_nat (List.length (g_nodes (x_graph (w_conv w)))))%string (outs e) (x_graph (w_conv w))) as [g ->];
        [apply outs_good, Ie|apply outs_good, Ie|]. cbn [bind]. eauto. }
    destruct C as [[q' x'] C]. rewrite C. cbn [bind fst snd].
    destruct (create_state_spec _ _ _ (i_wf _ _ _ _ _ Iv) (i_map _ _ _ _ _ Iv) (i_names _ _ _ _ _ Iv) (outs_nodup e Ie) q' x' C) as [[a' [Rq' Sa']] Cs].
    assert (X : (forall q1 s1 a1, rep (w_conv w) q1 s1 a1 -> rep x' q1 s1 a1) /\ g_edges (x_graph x') = g_edges (x_graph (w_conv w)) /\
                wf c (x_graph x') /\ map fst (x_map x') = node_list (x_graph x')).
    { destruct Cs as [[-> _]|[Eq [Fr [Em [En [Ee [Ei [W' Un]]]]]]]].
      - split; [auto|]. split; [reflexivity|]. split; [exact (i_wf _ _ _ _ _ Iv)|exact (i_map _ _ _ _ _ Iv)].
      - split; [|split; [exact Ee|split; [exact W'|]]].
        + intros q1 s1 a1 [Ha Hb]. split; [rewrite Em|rewrite En]; apply in_or_app; auto.
        + unfold node_list. rewrite Em, En, !map_app, (i_map _ _ _ _ _ Iv). reflexivity. }
    destruct X as [Rx [Ee [Wx Mx]]].
    destruct (add_edge_total String.eqb veqb String.eqb_eq c eq_refl q q' (ins e) true (x_graph x')) as [g Hg].
    - eapply rep_node, Rx, Rq.
    - eapply rep_node, Rq'.
    - apply ins_good, Ie.
    - left. apply ins_good, Ie.
    - intro T. assert (T' : trans (x_graph (w_conv w)) q [] q') by (unfold trans in *; rewrite Ee in T; exact T).
      destruct (i_edge _ _ _ _ _ Iv _ _ _ T') as [_ [e1 [s1 [s2 [a2 [B1 [B2 [B3 [[a4 B4] [B5 [B6 [B7 B8]]]]]]]]]]]].
      specialize (B8 l1 eq_refl). apply NI. replace e with e1; [exact B8|].
      destruct (rep_fun _ q _ _ _ _ (i_wf _ _ _ _ _ Iv) (i_map _ _ _ _ _ Iv) Rq B4) as [<- _].
      destruct (rep_fun x' q' _ _ _ _ Wx Mx (Rx _ _ _ B5) Rq') as [E2 ->].
      assert (Em : m_in m = []).
      { assert (Cs2 : m_in m = [] \/ exists k p r, m_in m = (k, p) :: r) by (clear; destruct (m_in m) as [|[k p] r]; eauto).
        destruct Cs2 as [Em|[k [p [r Em]]]]; [exact Em|exfalso].
        assert (Ik : In k (map fst (m_in m))) by (rewrite Em; left; reflexivity).
        specialize (B7 k). unfold ins in B7. rewrite lookup_project in B7. unfold names in B7. rewrite (proj2 (mem_In _ _) Ik) in B7. cbn in B7.
        exact (Given e1 k B1 Ik (eq_sym B7)). }
      apply Once; auto; [congruence|congruence| |].
      + unfold ins. rewrite Em. intro k. rewrite !lookup_project. reflexivity.
      + eapply same_items_trans; [apply same_items_sym, B6|exact Sa'].
    - rewrite Hg. cbn [bind]. destruct (mem q' (w_seen w)); eauto.
  Qed.

  Lemma seen_bound q0 cur x queue seen : inv q0 cur x queue seen -> List.length seen <= S (List.length (g_edges M)).
  Proof.
    intros [W1 E1 Nm1 Inj1 Seen1 NS1 NQ1 Q1 Cur1 Or1 Ed1 Dn1 In1].
    assert (H : List.length (remove string_dec q0 seen) <= List.length (g_edges M)).
    { apply (pigeon (fun q e => q <> q0 /\ exists s a, rep x q s a /\ e_dst e = s /\ same_items a (outs e))).
      - clear - NS1. induction seen as [|q r IH]; cbn [remove]; [constructor|]. inversion NS1 as [|? ? NI ND]; subst.
        destruct (string_dec q0 q); [apply IH, ND|]. constructor; [|apply IH, ND]. intro I. apply in_remove in I. tauto.
      - intros q I. apply in_remove in I. destruct I as [I Ne]. apply Seen1 in I. destruct (rep_ex _ _ E1 I) as [s [a R]].
        destruct (Or1 _ _ _ R) as [->|[e [A [B C]]]]; [contradiction|]. exists e. split; [exact A|]. split; [exact Ne|]. exists s, a. auto.
      - intros q q' e _ _ [_ [s [a [R [E S]]]]] [_ [s' [a' [R' [E' S']]]]]. subst s s'. eapply Inj1; [exact R|exact R'|].
        eapply same_items_trans; [exact S|apply same_items_sym, S']. }
    enough (List.length seen <= S (List.length (remove string_dec q0 seen))) by lia.
    clear - NS1. induction seen as [|q r IH]; cbn [remove List.length]; [lia|]. inversion NS1 as [|? ? NI ND]; subst.
    destruct (string_dec q0 q) as [->|Ne]; [|cbn [List.length]; specialize (IH ND); lia].
    rewrite notin_remove by exact NI. lia.
  Qed.

  Lemma conv_loop_total q0 : forall fuel w, inv q0 None (w_conv w) (w_queue w) (w_seen w) ->
    List.length (w_queue w) + List.length (g_edges M) + 2 <= fuel + List.length (w_seen w) ->
    exists w', conv_loop neqb veqb pop fuel m c w = Ok w'.
  Proof.
    induction fuel as [|f IH]; intros w Iv Fu; cbn [conv_loop].
    - exfalso. pose proof (seen_bound _ _ _ _ _ Iv). lia.
    - destruct (pop (w_queue w)) as [[q r]|] eqn:P; [|eauto]. apply pop_Some in P.
      assert (Iq : In q (node_list (x_graph (w_conv w)))).
      { apply (i_seen _ _ _ _ _ Iv), (i_queue _ _ _ _ _ Iv). eapply Permutation_in; [apply Permutation_sym, P|left; reflexivity]. }
      destruct (rep_ex _ _ (i_map _ _ _ _ _ Iv) Iq) as [s [a R]].
      assert (L : lookup q (x_map (w_conv w)) = Some s).
      { apply In_lookup; [|exact (proj1 R)]. rewrite (i_map _ _ _ _ _ Iv). exact (wf_nodes _ _ (i_wf _ _ _ _ _ Iv)). }
      rewrite L. cbn [of_opt bind]. pose proof (inv_start q0 _ _ _ q r s a Iv P R) as Iv'.
      destruct (fold_res_total (conv_edge neqb veqb m c q) (fun l1 w2 => inv q0 (Some (q, l1)) (w_conv w2) (w_queue w2) (w_seen w2) /\ rep (w_conv w2) q s a /\
          List.length (w_seen w2) + List.length r = List.length (w_queue w2) + List.length (w_seen w))
          (out_edges neqb s M) (WL (w_conv w) r (w_seen w))) as [w1 [F [I1 [R1 Ln]]]].
      + cbn [w_conv w_queue w_seen]. split; [exact Iv'|]. split; [exact R|lia].
      + intros l1 e l2 w2 El [I2 [R2 Ln]].
        assert (Ie : In e (g_edges M) /\ e_src e = s) by (apply (out_edges_In neqb neqb_eq); rewrite El; apply in_or_app; right; left; reflexivity).
        assert (NI : ~ In e l1).
        { assert (NDe : NoDup (out_edges neqb s M)) by (apply NoDup_filter, (NoDup_of_map _ _ (wf_ident _ _ Wm))).
          rewrite El in NDe. apply NoDup_remove_2 in NDe. intro K. apply NDe. apply in_or_app. auto. }
        destruct (conv_edge_total q0 q s a l1 e w2 I2 R2 (proj1 Ie) (proj2 Ie) NI) as [w3 F2].
        destruct (conv_edge_inv q0 q s a l1 e w2 w3 I2 R2 (proj1 Ie) (proj2 Ie) F2) as [A [B C]].
        exists w3. split; [exact F2|]. split; [exact A|]. split; [apply B, R2|]. lia.
      + fold M. rewrite F. cbn [bind]. apply IH; [eapply inv_finish; eauto|].
        apply Permutation_length in P. cbn [List.length] in P. lia.
  Qed.

  (** The conversion of such a machine returns. *)
  Theorem mealy2moore_total : g_init M <> [] ->
    (forall k p, In (k, p) (m_out m) -> exists l v, p = PSet l /\ some_element l = Some v /\ In v l) ->
    exists m', mealy2moore neqb veqb pop some_element m = Ok m'.
  Proof.
    intros Ini El. unfold mealy2moore. fold initial_out. fold c.
    assert (O : exists out, initial_out = Ok out /\ good (c_node_types c) out /\ typed_keys (c_node_types c) out).
    { assert (O : exists out, initial_out = Ok out /\ forall k v, In (k, v) out -> exists l, In (k, PSet l) (m_out m) /\ In v l).
      { unfold initial_out. clear - El. induction (m_out m) as [|[k p] r IH]; [exists []; split; [reflexivity|intros ? ? []]|].
        destruct IH as [out [E G]]. { intros k' p' I. apply (El k' p'). right. exact I. }
        destruct (El k p (or_introl eq_refl)) as [l [v [-> [Sv Iv]]]]. exists ((k, v) :: out). cbn [mapr fst snd]. rewrite Sv. cbn [of_opt bind]. rewrite E. cbn [bind].
        split; [reflexivity|]. intros k' v' [[= <- <-]|I]; [exists l; split; [left; reflexivity|exact Iv]|]. destruct (G k' v' I) as [l' [A B]]. exists l'. split; [right; exact A|exact B]. }
      destruct O as [out [E G]]. exists out. split; [exact E|]. split.
      - apply Forall_forall. intros [k v] I. cbn [fst snd]. destruct (G k v I) as [l [A B]]. unfold allowed. rewrite node_types_lookup.
        assert (L : lookup k (port_types veqb (m_out m)) = Some (port_dom veqb (PSet l))).
        { apply In_lookup; [rewrite types_keys; exact NDo|]. apply in_map_iff. exists (k, PSet l). auto. }
        rewrite L. cbn [port_dom]. apply existsb_exists. exists v. split; [exact B|]. apply veqb_eq. reflexivity.
      - intros k K. apply lookup_name. rewrite node_types_lookup. apply lookup_name. rewrite types_keys, <- (initial_out_keys out E). exact K. }
    destruct O as [out [E [Go To]]]. rewrite E. cbn [bind]. fold M. destruct (g_init M) as [|s0 i0] eqn:Ei; [contradiction|]. cbn [bind].
    assert (NDo' : NoDup (map fst out)) by (rewrite (initial_out_keys out E); exact NDo).
    assert (Cs : exists qx, create_state neqb veqb c s0 out (Conv empty_graph []) = Ok qx).
    { unfold create_state. cbn [x_map List.find x_graph g_nodes empty_graph List.length].
      destruct (add_node_total ("s" ++ str_nat 0)%string out empty_graph Go To) as [g ->]. cbn [bind]. eauto. }
    destruct Cs as [[q x] Hc]. rewrite Hc. cbn [bind fst snd].
    destruct (create_state_spec s0 out (Conv empty_graph []) (wf_empty c) eq_refl eq_refl NDo' q x Hc) as [_ [[_ []]|[Eq [_ [Em [En [Ee [Ein [Wx _]]]]]]]]].
    cbn in Eq. subst q. change (nm (List.length (@g_nodes string V (x_graph (@Conv N V empty_graph []))))) with "s0" in *. cbn [x_map app] in Em. cbn [x_graph g_nodes empty_graph app] in En.
    destruct (add_node_total "s0" out (x_graph x) Go To) as [g Hg]. rewrite Hg. cbn [bind].
    pose proof (wf_add_node String.eqb String.eqb_eq c _ _ _ _ _ Wx Hg) as Wg. apply add_node_Ok in Hg. destruct Hg as [t [T Eg]].
    apply typed_attr_Ok in T. destruct T as [-> _]. change (update (update [] (c_node_defaults c)) out) with (update (@nil (string * V)) out) in *.
    rewrite En in Eg. cbn [nx_add_node] in Eg. change ("s0" =? "s0")%string with true in Eg. cbv iota in Eg.
    set (a0 := update (update [] out) (update [] out)) in *.
    assert (Hi : add_initial String.eqb "s0" g = Ok (Graph [("s0", a0)] [] ["s0"])).
    { subst g. unfold add_initial, has_node, node_list. cbn [g_nodes g_edges g_init map fst nmem existsb]. rewrite Ee, Ein. reflexivity. }
    rewrite Hi. cbn [bind].
    assert (Wg' := wf_step String.eqb veqb String.eqb_eq c (GAddInitial "s0") g Wg). cbn [gstep] in Wg'. rewrite Hi in Wg'. cbn [fst] in Wg'.
    set (x0 := Conv (Graph [("s0", a0)] [] ["s0"]) (x_map x)) in *. assert (R0 : forall q s a, rep x0 q s a <-> q = "s0" /\ s = s0 /\ a = a0).
    { intros q s a. unfold rep, x0. cbn [x_map x_graph g_nodes]. rewrite Em. cbn. split.
      - intros [[[= <- <-]|[]] [[= <-]|[]]]. auto.
      - intros [-> [-> ->]]. auto. }
    assert (Iv : inv "s0" None x0 ["s0"] ["s0"]).
    { split; unfold x0; cbn [x_graph x_map].
      - exact Wg'.
      - rewrite Em. reflexivity.
      - reflexivity.
      - intros q q' s a a' A B _. apply R0 in A. apply R0 in B. intuition congruence.
      - intro q. reflexivity.
      - repeat constructor. intros [].
      - repeat constructor. intros [].
      - apply incl_refl.
      - discriminate.
      - intros q s a A. apply R0 in A. tauto.
      - intros q i q' [e [I _]]. destruct I.
      - intros q s a e A B. apply R0 in A. destruct A as [-> _]. exfalso. apply B. left. reflexivity.
      - reflexivity. }
    destruct (conv_loop_total "s0" (List.length (g_edges M) + 2) (WL x0 ["s0"] ["s0"]) Iv) as [w Hw]; [cbn [w_queue w_seen List.length]; lia|].
    rewrite Hw. cbn [bind]. eauto.
  Qed.
End Moore.
Print Assumptions mealy2moore_simulates.
Print Assumptions mealy2moore_words.
Print Assumptions mealy2moore_total.

(** ** A machine meeting the hypotheses *)
Definition pop_hd (l : list string) : option (string * list string) := match l with [] => None | q :: r => Some (q, r) end.
Lemma pop_hd_None l : pop_hd l = None -> l = [].
Proof. destruct l; [reflexivity|discriminate]. Qed.
Lemma pop_hd_Some l q r : pop_hd l = Some (q, r) -> Permutation l (q :: r).
Proof. destruct l; [discriminate|]. intros [= -> ->]. apply Permutation_refl. Qed.
Definition some_hd (l : list nat) : option nat := match l with [] => None | x :: _ => Some x end.
Definition mm_ex : machine nat nat := Machine [] [("a", PSet [0; 1])] [("y", PSet [0; 1])]
  (Graph [(0, []); (1, [])]
     [Edge 0 0 0 [("a", 0); ("y", 0)]; Edge 0 1 0 [("a", 1); ("y", 1)];
      Edge 1 0 0 [("a", 0); ("y", 1)]; Edge 1 1 0 [("a", 1); ("y", 0)]] [0]).
Example mm_ex_wf : wf (mealy_config Nat.eqb mm_ex) (m_graph mm_ex).
Proof.
  split; cbn; try (repeat constructor; cbn; intuition discriminate).
  - intros e [<-|[<-|[<-|[<-|[]]]]]; cbn; auto.
  - intros n a [[= <- <-]|[[= <- <-]|[]]]; split; constructor.
  - intros e [<-|[<-|[<-|[<-|[]]]]]; cbn; split; repeat constructor; cbn; intuition discriminate.
Qed.
(** Two Mealy states entered with two outputs each: four Moore states. *)
Example mm_ex_result : exists m', mealy2moore Nat.eqb Nat.eqb pop_hd some_hd mm_ex = Ok m' /\
  g_nodes (m_graph m') = [("s0", [("y", 0)]); ("s1", [("y", 1)]); ("s2", [("y", 1)]); ("s3", [("y", 0)])] /\
  List.length (g_edges (m_graph m')) = 8 /\ g_init (m_graph m') = ["s0"].
Proof.
  let r := eval vm_compute in (mealy2moore Nat.eqb Nat.eqb pop_hd some_hd mm_ex) in match r with Ok ?x => exists x end.
  split; [vm_compute; reflexivity|]. split; [reflexivity|split; reflexivity].
Qed.
Example mm_ex_total : exists m', mealy2moore Nat.eqb Nat.eqb pop_hd some_hd mm_ex = Ok m'.
Proof.
  apply (mealy2moore_total Nat.eqb Nat.eqb Nat.eqb_eq Nat.eqb_eq pop_hd pop_hd_Some some_hd mm_ex mm_ex_wf); cbn.
  - constructor; [intros []|constructor].
  - intros k [<-|[]] [H|[]]. discriminate H.
  - intros e k [<-|[<-|[<-|[<-|[]]]]] [<-|[]]; discriminate.
  - intros e e' I I' S D A B. specialize (A "a"). specialize (B "y").
    destruct I as [<-|[<-|[<-|[<-|[]]]]]; destruct I' as [<-|[<-|[<-|[<-|[]]]]]; cbn in S, D, A, B; try discriminate; reflexivity.
  - discriminate.
  - intros k p [[= <- <-]|[]]. exists [0; 1], 0. cbn. auto.
Qed.
(** Only the first initial state is converted (machines.py:1056): with a second one, words
    of the Mealy machine are missing. *)
Theorem mealy2moore_many_initial_refuted : exists (m : machine nat nat) m' x, wf (mealy_config Nat.eqb m) (m_graph m) /\
  mealy2moore Nat.eqb Nat.eqb pop_hd some_hd m = Ok m' /\
  words (mealy_step m) (m_graph m) x /\ ~ words (moore_step_after m') (m_graph m') x.
Proof.
  set (m := Machine [] [("a", PSet [0; 1])] [("y", PSet [0; 1])]
    (Graph [(0, []); (1, [])] [Edge 0 0 0 [("a", 0); ("y", 0)]; Edge 1 1 0 [("a", 0); ("y", 1)]] [0; 1]) : machine nat nat).
  assert (W : wf (mealy_config Nat.eqb m) (m_graph m)).
  { split; cbn; try (repeat constructor; cbn; intuition discriminate).
    - intros e [<-|[<-|[]]]; cbn; auto.
    - intros n a [[= <- <-]|[[= <- <-]|[]]]; split; constructor.
    - intros e [<-|[<-|[]]]; cbn; split; repeat constructor; cbn; intuition discriminate. }
  exists m. let r := eval vm_compute in (mealy2moore Nat.eqb Nat.eqb pop_hd some_hd m) in match r with Ok ?x => exists x end.
  exists [([("a", 0)], [("y", 1)])]. split; [exact W|]. split; [vm_compute; reflexivity|]. split.
  - exists 1, 1. split; [right; left; reflexivity|]. econstructor; [|constructor].
    exists (Edge 1 1 0 [("a", 0); ("y", 1)]). cbn. do 3 (split; [auto|]). split; intros k v; cbn.
    + destruct (k =? "a")%string eqn:E; [apply String.eqb_eq in E; subst k; cbn; tauto|]. split; [discriminate|]. intros [[<-|[]] _]. discriminate.
    + destruct (k =? "y")%string eqn:E; [apply String.eqb_eq in E; subst k; cbn; tauto|]. split; [discriminate|]. intros [[<-|[]] _]. discriminate.
  - intros [s [t [_ P]]]. inversion P as [|? ? t' ? ? [e [a [I [_ [D [J [_ R]]]]]]] _]; subst. cbn in I.
    destruct I as [<-|[]]. cbn in J. destruct J as [[= <-]|[]].
    specialize (R "y" 1). cbn in R. destruct R as [R _]. destruct (R eq_refl) as [_ Q]. discriminate.
Qed.
Print Assumptions mealy2moore_many_initial_refuted.
