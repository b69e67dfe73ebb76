(** C23: determinize_machine_init. *)
From Coq Require Import List String Bool Arith Lia.
From Verif Require Import M_Base M_Spec M_Dict L_Dict M_Graph L_Graph M_Machine S_Run L_Build L_Machine T_Convert T_Reaction M_Strategy.
Import ListNotations.
Open Scope string_scope.
Open Scope list_scope.

(** An edge agrees with the requested values of those outputs that are requested. *)
Definition agrees {N V} (m : machine N V) (want : attrs V) (e : edge N V) : Prop :=
  forall k w, In k (map fst (m_out m)) -> lookup k want = Some w -> lookup k (e_attr e) = Some w.
(** Two edges react to the same input. *)
Definition same_input {N V} (m : machine N V) (e e' : edge N V) : Prop :=
  forall k, In k (map fst (m_in m)) -> lookup k (e_attr e) = lookup k (e_attr e').

Section Determinize.
  Context {N V : Type} (neqb : N -> N -> bool) (veqb : V -> V -> bool).
  Hypothesis neqb_eq : forall a b, neqb a b = true <-> a = b.
  Hypothesis veqb_eq : forall a b, veqb a b = true <-> a = b.
  Implicit Types (m : machine N V) (e : edge N V).

  Lemma vlist_eqb_eq : forall a b, vlist_eqb veqb a b = true <-> a = b.
  Proof.
    induction a as [|x a IH]; intros [|y b]; cbn [vlist_eqb]; try (split; [reflexivity || discriminate|reflexivity || discriminate]).
    rewrite andb_true_iff, veqb_eq, IH. split; [intros [-> ->]; reflexivity|intros [= -> ->]; auto].
  Qed.

  Lemma differs_false given want d : differs veqb given want d = Ok false <->
    forall k, In k given -> exists v, lookup k want = Some v /\ lookup k d = Some v.
  Proof.
    induction given as [|k r IH]; cbn [differs]; [split; [intros _ ? []|reflexivity]|]. split.
    - intro H. apply bind_Ok in H. destruct H as [v [Hv H]]. apply bind_Ok in H. destruct H as [w [Hw H]].
      destruct (veqb v w) eqn:E; [|discriminate]. apply veqb_eq in E. subst w.
      destruct (lookup k d) eqn:L1; [|discriminate]. destruct (lookup k want) eqn:L2; [|discriminate]. cbn in Hv, Hw.
      intros k' [<-|I]; [exists v; split; congruence|]. apply IH; auto.
    - intro H. destruct (H k (or_introl eq_refl)) as [v [A B]]. rewrite A, B. cbn [of_opt bind].
      rewrite (proj2 (veqb_eq v v) eq_refl). apply IH. intros k' I. apply H. right. exact I.
  Qed.
  Lemma differs_total given want d : (forall k, In k given -> lookup k want <> None /\ lookup k d <> None) ->
    exists b, differs veqb given want d = Ok b.
  Proof.
    induction given as [|k r IH]; cbn [differs]; [eauto|]. intro H. destruct (H k (or_introl eq_refl)) as [A B].
    destruct (lookup k d) as [v|]; [|congruence]. destruct (lookup k want) as [w|]; [|congruence]. cbn [of_opt bind].
    destruct (veqb v w); [|eauto]. apply IH. intros k' I. apply H. right. exact I.
  Qed.

  Lemma same_edge_eq (g : graph N V) e e' : NoDup (map ident (g_edges g)) -> In e (g_edges g) -> In e' (g_edges g) ->
    same_edge neqb e e' = true -> e = e'.
  Proof.
    intros ND I J H. unfold same_edge, between in H. apply andb_true_iff in H. destruct H as [H K]. apply andb_true_iff in H. destruct H as [A B].
    apply neqb_eq in A. apply neqb_eq in B. apply Nat.eqb_eq in K.
    assert (Q : ident e = ident e') by (unfold ident; congruence).
    clear - ND I J Q. induction (g_edges g) as [|x l IH]; [destruct I|]. cbn [map] in ND. inversion ND as [|? ? NI ND']; subst.
    destruct I as [->|I], J as [->|J]; [reflexivity| | |auto]; exfalso; apply NI.
    - rewrite Q. apply in_map, J.
    - rewrite <- Q. apply in_map, I.
  Qed.
  Lemma same_edge_refl e : same_edge neqb e e = true.
  Proof.
    unfold same_edge, between. rewrite (proj2 (neqb_eq (e_src e) (e_src e)) eq_refl), (proj2 (neqb_eq (e_dst e) (e_dst e)) eq_refl), Nat.eqb_refl. reflexivity.
  Qed.
  Lemma remove_edges_In rm (g : graph N V) e : NoDup (map ident (g_edges g)) -> (forall x, In x rm -> In x (g_edges g)) ->
    (In e (g_edges (remove_edges neqb rm g)) <-> In e (g_edges g) /\ ~ In e rm).
  Proof.
    intros ND Sub. unfold remove_edges. cbn [g_edges]. rewrite filter_In. split; intros [I H]; (split; [exact I|]).
    - intro J. assert (existsb (same_edge neqb e) rm = true) by (apply existsb_exists; exists e; split; [exact J|apply same_edge_refl]).
      rewrite H0 in H. discriminate.
    - destruct (existsb (same_edge neqb e) rm) eqn:X; [|reflexivity]. apply existsb_exists in X. destruct X as [x [Ix Sx]].
      rewrite (same_edge_eq g e x ND I (Sub x Ix) Sx) in H. contradiction.
  Qed.
  Lemma remove_edges_ident rm (g : graph N V) : NoDup (map ident (g_edges g)) -> NoDup (map ident (g_edges (remove_edges neqb rm g))).
  Proof.
    unfold remove_edges. cbn [g_edges]. generalize (fun e => negb (existsb (same_edge neqb e) rm)). intros p.
    induction (g_edges g) as [|x l IH]; cbn [map filter]; intro ND; [constructor|]. inversion ND as [|? ? NI ND']; subst.
    destruct (p x); [|auto]. cbn [map]. constructor; [|auto]. intro I. apply NI. apply in_map_iff in I. destruct I as [y [E I]].
    apply filter_In in I. rewrite <- E. apply in_map, I.
  Qed.

  Definition inputs_of m e : res (list V) := mapr (fun k => of_opt "KeyError" (lookup k (e_attr e))) (names (m_in m)).
  Lemma inputs_of_Ok m e x : inputs_of m e = Ok x <-> Forall2 (fun k v => lookup k (e_attr e) = Some v) (names (m_in m)) x.
  Proof.
    unfold inputs_of. rewrite mapr_Forall2. split; apply Forall2_impl; intros k v H; destruct (lookup k (e_attr e)); cbn in *; congruence.
  Qed.
  Lemma inputs_same m e e' x x' : inputs_of m e = Ok x -> inputs_of m e' = Ok x' -> (x = x' <-> same_input m e e').
  Proof.
    intros A B. apply inputs_of_Ok in A. apply inputs_of_Ok in B. unfold same_input. fold (names (m_in m)).
    revert x' B. induction A as [|k v l x E _ IH]; intros x' B; inversion B as [|? v' ? y E' B']; subst.
    - split; [intros _ ? []|reflexivity].
    - specialize (IH _ B'). split.
      + intros [= -> ->]. intros k' [<-|I]; [congruence|]. apply IH; auto.
      + intro H. pose proof (H k (or_introl eq_refl)) as H1. f_equal; [congruence|]. apply IH. intros k' I. apply H. right. exact I.
  Qed.

  (** What the two loops compute. *)
  Lemma loop1 m want l rm : fold_res (fun e rm => do b <- differs veqb (filter (fun k => mem k (names want)) (names (m_out m))) want (e_attr e);
      Ok (if (b : bool) then rm ++ [e] else rm)) l [] = Ok rm ->
    (forall e, In e rm -> In e l /\ ~ agrees m want e) /\ (forall e, In e l -> In e rm \/ agrees m want e).
  Proof.
    set (given := filter _ _). assert (Gv : forall e, differs veqb given want (e_attr e) = Ok false <-> agrees m want e).
    { intro e. rewrite differs_false. unfold given, agrees. fold (names (m_out m)). split.
      - intros H k w I L. destruct (H k) as [v [A B]]; [|congruence]. apply filter_In. split; [exact I|]. apply mem_In. apply lookup_name. eauto.
      - intros H k I. apply filter_In in I. destruct I as [I M]. apply mem_In in M. apply lookup_name in M. destruct M as [v L]. eauto. }
    intro H. refine (fold_res_inv _ (fun l1 rm => (forall e, In e rm -> In e l1 /\ ~ agrees m want e) /\ (forall e, In e l1 -> In e rm \/ agrees m want e)) l [] rm _ _ H).
    - split; intros ? [].
    - clear rm H. intros l1 x l2 r r' _ [IH1 IH2] F. apply bind_Ok in F. destruct F as [b [D F]].
      destruct b; injection F as <-; split; intros e I.
      + apply in_app_iff in I. rewrite in_app_iff. destruct I as [I|[<-|[]]]; [destruct (IH1 e I); auto|].
        split; [right; left; reflexivity|]. intro K. apply Gv in K. congruence.
      + apply in_app_iff in I. rewrite in_app_iff. destruct I as [I|[<-|[]]]; [destruct (IH2 e I); auto|]. left. right. left. reflexivity.
      + destruct (IH1 e I). rewrite in_app_iff. auto.
      + apply in_app_iff in I. destruct I as [I|[<-|[]]]; [auto|]. right. apply Gv, D.
  Qed.
  Lemma loop2 m l r : NoDup l ->
    fold_res (fun e sr => do x <- inputs_of m e;
              Ok (if existsb (vlist_eqb veqb x) (fst sr) then (fst sr, snd sr ++ [e]) else (fst sr ++ [x], snd sr))) l ([], []) = Ok r ->
    (forall e, In e (snd r) -> In e l) /\
    (forall e e', In e l -> In e' l -> ~ In e (snd r) -> ~ In e' (snd r) -> same_input m e e' -> e = e') /\
    (forall e, In e l -> exists e', In e' l /\ ~ In e' (snd r) /\ same_input m e e').
  Proof.
    intros ND H.
    assert (P : (forall e, In e (snd r) -> In e l) /\ (forall e, In e l -> exists x, inputs_of m e = Ok x) /\
              (forall x, In x (fst r) -> exists e, In e l /\ ~ In e (snd r) /\ inputs_of m e = Ok x) /\
              (forall e x, In e l -> inputs_of m e = Ok x -> In x (fst r)) /\
              (forall e e', In e l -> In e' l -> ~ In e (snd r) -> ~ In e' (snd r) -> same_input m e e' -> e = e')).
    { refine (fold_res_inv _ (fun l1 r => (forall e, In e (snd r) -> In e l1) /\ (forall e, In e l1 -> exists x, inputs_of m e = Ok x) /\
              (forall x, In x (fst r) -> exists e, In e l1 /\ ~ In e (snd r) /\ inputs_of m e = Ok x) /\
              (forall e x, In e l1 -> inputs_of m e = Ok x -> In x (fst r)) /\
              (forall e e', In e l1 -> In e' l1 -> ~ In e (snd r) -> ~ In e' (snd r) -> same_input m e e' -> e = e')) l ([], []) r _ _ H).
      - cbn. do 4 (split; [intros; contradiction|]). intros; contradiction.
      - clear r H. intros l1 y l2 r r' El [A [B [C [D E]]]] F. apply bind_Ok in F. destruct F as [x [X F]].
        assert (Ny : ~ In y l1). { rewrite El in ND. apply NoDup_remove_2 in ND. intro K. apply ND, in_or_app. auto. }
        destruct (existsb (vlist_eqb veqb x) (fst r)) eqn:Ex; injection F as <-; cbn [fst snd].
        + apply existsb_exists in Ex. destruct Ex as [x' [Ix Ex]]. apply vlist_eqb_eq in Ex. subst x'.
          assert (Z : forall e, In e (l1 ++ [y]) -> ~ In e (snd r ++ [y]) -> In e l1 /\ ~ In e (snd r)).
          { intros e I K. apply in_app_iff in I. destruct I as [I|[<-|[]]].
            - split; [exact I|]. intro Q. apply K, in_or_app. auto.
            - exfalso. apply K, in_or_app. right. left. reflexivity. }
          split; [|split; [|split; [|split]]].
          * intros e I. apply in_app_iff in I. apply in_or_app. destruct I as [I|I]; auto.
          * intros e I. apply in_app_iff in I. destruct I as [I|[<-|[]]]; [auto|eauto].
          * intros z Iz. destruct (C z Iz) as [e [I [NI Oe]]]. exists e. split; [apply in_or_app; auto|]. split; [|exact Oe].
            intro K. apply in_app_iff in K. destruct K as [K|[<-|[]]]; contradiction.
          * intros e z I Oe. apply in_app_iff in I. destruct I as [I|[<-|[]]]; [eauto|]. rewrite X in Oe. injection Oe as <-. exact Ix.
          * intros e e' I I' K K'. destruct (Z e I K), (Z e' I' K'). apply E; auto.
        + assert (Nx : forall z, In z (fst r) -> z <> x).
          { intros z Iz ->. assert (existsb (vlist_eqb veqb x) (fst r) = true) by (apply existsb_exists; exists x; split; [exact Iz|apply vlist_eqb_eq; reflexivity]). congruence. }
          split; [|split; [|split; [|split]]].
          * intros e I. apply in_or_app. auto.
          * intros e I. apply in_app_iff in I. destruct I as [I|[<-|[]]]; [auto|eauto].
          * intros z Iz. apply in_app_iff in Iz. destruct Iz as [Iz|[<-|[]]].
            -- destruct (C z Iz) as [e [I [NI Oe]]]. exists e. split; [apply in_or_app; auto|auto].
            -- exists y. split; [apply in_or_app; right; left; reflexivity|]. split; [|exact X]. intro K. apply Ny, A, K.
          * intros e z I Oe. apply in_or_app. apply in_app_iff in I. destruct I as [I|[<-|[]]]; [left; eauto|right; left; congruence].
          * intros e e' I I' K K' S. apply in_app_iff in I. apply in_app_iff in I'.
            destruct I as [I|[<-|[]]], I' as [I'|[<-|[]]]; [apply E; auto| | |reflexivity]; exfalso.
            -- destruct (B e I) as [z Oz]. apply (Nx z (D e z I Oz)). apply (inputs_same m e y z x Oz X). exact S.
            -- destruct (B e' I') as [z Oz]. apply (Nx z (D e' z I' Oz)). symmetry. apply (inputs_same m y e' x z X Oz). exact S. }
    destruct P as [A [B [C [D E]]]]. split; [exact A|]. split; [exact E|].
    intros e I. destruct (B e I) as [x X]. destruct (C x (D e x I X)) as [e' [I' [NI X']]]. exists e'. split; [exact I'|]. split; [exact NI|].
    apply (inputs_same m e e' x x X X'). reflexivity.
  Qed.

  (** The result of the removal. *)
  Theorem determinize_spec sinit m want m' : wf (mealy_config veqb m) (m_graph m) -> determinize neqb veqb sinit m want = Ok m' ->
    m_in m' = m_in m /\ m_out m' = m_out m /\ g_nodes (m_graph m') = g_nodes (m_graph m) /\ g_init (m_graph m') = g_init (m_graph m) /\
    (** transitions come from the machine, and those of other states stay *)
    (forall e, In e (g_edges (m_graph m')) -> In e (g_edges (m_graph m))) /\
    (forall e, e_src e <> sinit -> In e (g_edges (m_graph m)) -> In e (g_edges (m_graph m'))) /\
    (** first reactions agree with the request and are unique *)
    (forall e, In e (g_edges (m_graph m')) -> e_src e = sinit -> agrees m want e) /\
    (forall e e', In e (g_edges (m_graph m')) -> In e' (g_edges (m_graph m')) -> e_src e = sinit -> e_src e' = sinit ->
       same_input m e e' -> e = e') /\
    (** an input with an acceptable reaction keeps one *)
    (forall e, In e (g_edges (m_graph m)) -> e_src e = sinit -> agrees m want e ->
       exists e', In e' (g_edges (m_graph m')) /\ e_src e' = sinit /\ same_input m e e').
  Proof.
    intros W H. unfold determinize in H. apply bind_Ok in H. destruct H as [rm1 [H1 H]]. apply bind_Ok in H. destruct H as [r [H2 H]].
    injection H as <-. cbn [m_in m_out m_graph]. destruct (loop1 m want _ _ H1) as [L1 L1'].
    pose proof (wf_ident _ _ W) as ND. set (g1 := remove_edges neqb rm1 (m_graph m)) in *.
    assert (ND1 : NoDup (map ident (g_edges g1))) by (apply remove_edges_ident, ND).
    assert (I1 : forall e, In e (g_edges g1) <-> In e (g_edges (m_graph m)) /\ (e_src e = sinit -> agrees m want e)).
    { intro e. unfold g1. rewrite remove_edges_In; [|exact ND|].
      - split; intros [I J]; (split; [exact I|]).
        + intro S. destruct (L1' e) as [K|K]; [apply (out_edges_In neqb neqb_eq); auto|contradiction|exact K].
        + intro K. apply L1 in K. destruct K as [K NK]. apply (out_edges_In neqb neqb_eq) in K. apply NK, J, K.
      - intros x Ix. apply L1 in Ix. destruct Ix as [Ix _]. apply (out_edges_In neqb neqb_eq) in Ix. tauto. }
    assert (NDo : NoDup (out_edges neqb sinit g1)) by (apply NoDup_filter, (NoDup_of_map _ _ ND1)).
    destruct (loop2 m _ r NDo H2) as [S1 [S2 S3]].
    assert (I2 : forall e, In e (g_edges (remove_edges neqb (snd r) g1)) <-> In e (g_edges g1) /\ ~ In e (snd r)).
    { intro e. apply remove_edges_In; [exact ND1|]. intros x Ix. apply S1 in Ix. apply (out_edges_In neqb neqb_eq) in Ix. tauto. }
    do 4 (split; [reflexivity|]). split; [|split; [|split; [|split]]].
    - intros e I. apply I2 in I. apply I1, I.
    - intros e S I. apply I2. split; [apply I1; split; [exact I|intro; contradiction]|]. intro K. apply S1 in K. apply (out_edges_In neqb neqb_eq) in K. tauto.
    - intros e I S. apply I2 in I. apply I1; tauto.
    - intros e e' I I' S S'. apply I2 in I. apply I2 in I'. apply S2; try (apply (out_edges_In neqb neqb_eq)); tauto.
    - intros e I S A. destruct (S3 e) as [e' [J [NJ Sm]]]; [apply (out_edges_In neqb neqb_eq); split; [apply I1; auto|exact S]|].
      apply (out_edges_In neqb neqb_eq) in J. exists e'. split; [apply I2; tauto|]. tauto.
  Qed.

  (** It raises only if a first reaction does not give an input or a requested output. *)
  Theorem determinize_total sinit m want : wf (mealy_config veqb m) (m_graph m) ->
    (forall e k, In e (g_edges (m_graph m)) -> e_src e = sinit -> In k (map fst (m_in m)) \/ In k (map fst (m_out m)) ->
       lookup k (e_attr e) <> None) ->
    exists m', determinize neqb veqb sinit m want = Ok m'.
  Proof.
    intros W Given. unfold determinize.
    destruct (fold_res_total (fun e rm => do b <- differs veqb (filter (fun k => mem k (names want)) (names (m_out m))) want (e_attr e);
      Ok (if (b : bool) then rm ++ [e] else rm)) (fun _ rm => forall e, In e rm -> In e (g_edges (m_graph m))) (out_edges neqb sinit (m_graph m)) []) as [rm1 [E1 Sub]].
    - intros ? [].
    - intros l1 e l2 rm El P. assert (Ie : In e (g_edges (m_graph m)) /\ e_src e = sinit) by (apply (out_edges_In neqb neqb_eq); rewrite El; apply in_or_app; right; left; reflexivity).
      destruct (differs_total (filter (fun k => mem k (names want)) (names (m_out m))) want (e_attr e)) as [b Db].
      { intros k I. apply filter_In in I. destruct I as [I M]. apply mem_In in M. split; [apply lookup_name in M; destruct M as [v ->]; discriminate|].
        apply Given; [tauto|tauto|right; exact I]. }
      rewrite Db. cbn [bind]. eexists. split; [reflexivity|]. intros x Ix. destruct b; [|auto]. apply in_app_iff in Ix. destruct Ix as [Ix|[<-|[]]]; [auto|tauto].
    - rewrite E1. cbn [bind].
      destruct (fold_res_total (fun e sr => do x <- inputs_of m e;
              Ok (if existsb (vlist_eqb veqb x) (fst sr) then (fst sr, snd sr ++ [e]) else (fst sr ++ [x], snd sr))) (fun _ _ => True)
              (out_edges neqb sinit (remove_edges neqb rm1 (m_graph m))) ([], [])) as [r [E2 _]]; [exact I| |].
      + intros l1 e l2 sr El _.
        assert (Ie : In e (g_edges (remove_edges neqb rm1 (m_graph m))) /\ e_src e = sinit) by (apply (out_edges_In neqb neqb_eq); rewrite El; apply in_or_app; right; left; reflexivity).
        destruct Ie as [Ie Es]. apply (remove_edges_In rm1 (m_graph m) e (wf_ident _ _ W) Sub) in Ie.
        assert (X : exists x, inputs_of m e = Ok x).
        { unfold inputs_of. assert (Q : forall k, In k (names (m_in m)) -> lookup k (e_attr e) <> None) by (intros k Ik; apply Given; [tauto|exact Es|left; exact Ik]).
          induction (names (m_in m)) as [|k l IH]; cbn [mapr]; [eauto|].
          destruct (lookup k (e_attr e)) as [v|] eqn:L; [|exfalso; apply (Q k); [left; reflexivity|exact L]]. cbn [of_opt bind].
          destruct IH as [x ->]; [intros k' Ik; apply Q; right; exact Ik|]. cbn [bind]. eauto. }
        destruct X as [x X]. rewrite X. cbn [bind]. eexists. split; [reflexivity|exact I].
      + unfold inputs_of in E2. rewrite E2. cbn [bind]. eauto.
  Qed.
End Determinize.
Print Assumptions determinize_spec.
Print Assumptions determinize_total.

(** A first reaction with two choices of [x] for the same input, of which one is asked for. *)
Definition det_ex : machine nat nat := Machine [] [("a", PSet [0; 1])] [("x", PSet [0; 1]); ("y", PSet [0; 1])]
  (Graph [(0, []); (1, []); (2, [])]
     [Edge 0 1 0 [("a", 0); ("x", 0); ("y", 0)]; Edge 0 2 0 [("a", 0); ("x", 1); ("y", 0)]; Edge 0 1 1 [("a", 0); ("x", 1); ("y", 1)];
      Edge 0 1 2 [("a", 1); ("x", 0); ("y", 0)]; Edge 1 1 0 [("a", 0); ("x", 0); ("y", 0)]; Edge 1 2 0 [("a", 0); ("x", 1); ("y", 0)]] [0]).
Example det_ex_wf : wf (mealy_config Nat.eqb det_ex) (m_graph det_ex).
Proof.
  split; cbn; try (repeat constructor; cbn; intuition discriminate).
  - intros e [<-|[<-|[<-|[<-|[<-|[<-|[]]]]]]]; cbn; auto.
  - intros n a [[= <- <-]|[[= <- <-]|[[= <- <-]|[]]]]; split; constructor.
  - intros e [<-|[<-|[<-|[<-|[<-|[<-|[]]]]]]]; cbn; split; repeat constructor; cbn; intuition discriminate.
Qed.
Example det_ex_result : exists m', determinize Nat.eqb Nat.eqb 0 det_ex [("x", 1); ("z", 5)] = Ok m' /\
  g_edges (m_graph m') = [Edge 0 2 0 [("a", 0); ("x", 1); ("y", 0)];
                          Edge 1 1 0 [("a", 0); ("x", 0); ("y", 0)]; Edge 1 2 0 [("a", 0); ("x", 1); ("y", 0)]].
Proof. eexists. split; reflexivity. Qed.
