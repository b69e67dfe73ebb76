(** C34, C35: synchronous parallel compositions, and policies applied to decision processes. *)
From Coq Require Import List String Bool Arith Lia QArith Qcanon FinFun.
From Verif Require Import M_Base M_Dict M_Graph M_Machine M_Compose S_Run S_Compose L_Dict L_Graph T_Graph T_Deadends L_Build L_Machine L_Compose.
Import ListNotations.
Open Scope string_scope.
Open Scope list_scope.
Open Scope nat_scope.

(** ** Folds *)
Lemma fold_res_flat {A B C} (f : B -> C -> res C) (h : A -> list B) l c :
  fold_res f (flat_map h l) c = fold_res (fun x => fold_res f (h x)) l c.
Proof.
  revert c. induction l as [|x r IH]; intro c; cbn [flat_map fold_res]; [reflexivity|].
  assert (E : forall m c0, fold_res f (m ++ flat_map h r) c0 = bind (fold_res f m c0) (fold_res f (flat_map h r))).
  { induction m as [|y m IHm]; intro c0; cbn [app fold_res bind]; [reflexivity|]. destruct (f y c0); cbn [bind]; [apply IHm|reflexivity]. }
  rewrite E. destruct (fold_res f (h x) c); cbn [bind]; [apply IH|reflexivity].
Qed.
Lemma fold_res_ext {A B} (f g : A -> B -> res B) l b : (forall x b', In x l -> f x b' = g x b') -> fold_res f l b = fold_res g l b.
Proof.
  revert b. induction l as [|x r IH]; intros b H; cbn [fold_res]; [reflexivity|]. rewrite H by (left; reflexivity).
  destruct (g x b); cbn [bind]; [|reflexivity]. apply IH. intros; apply H; right; assumption.
Qed.
Lemma fold_res_map {A B C} (f : B -> C -> res C) (h : A -> B) l c : fold_res f (map h l) c = fold_res (fun x => f (h x)) l c.
Proof. revert c. induction l as [|x r IH]; intro c; cbn [map fold_res]; [reflexivity|]. destruct (f (h x) c); cbn [bind]; auto. Qed.

Definition ec (k : kind) (acts : list val) : config val := Config [] [] (edge_types k acts) [].

(** The labels that the classes allow. *)
Section Typing.
  Lemma typed_label k acts (d : attrs val) key v : good (edge_types k acts) d -> typed_keys (edge_types k acts) d ->
    lookup key d = Some v -> allowed (edge_types k acts) key v = true /\ In key (map fst (edge_types k acts)).
  Proof.
    intros G T L. apply lookup_In in L. unfold good in G. rewrite Forall_forall in G. split; [exact (G _ L)|].
    apply T. apply (in_map fst) in L. exact L.
  Qed.
  Lemma Qcle_bool x y : Qle_bool (this x) (this y) = true <-> (x <= y)%Qc.
  Proof. apply Qle_bool_iff. Qed.
  Lemma typed_probability k acts d v : good (edge_types k acts) d -> typed_keys (edge_types k acts) d ->
    lookup "probability" d = Some v -> exists q, v = VNum q /\ (0 <= q)%Qc /\ (q <= 1)%Qc.
  Proof.
    intros G T L. destruct (typed_label _ _ _ _ _ G T L) as [A I]. destruct k; cbn in I;
      try (destruct I as [I|[]]; discriminate); try contradiction; unfold allowed in A; cbn in A;
      destruct v as [|q| | |]; try discriminate; apply andb_true_iff in A; destruct A as [A B];
      exists q; (split; [reflexivity|split]); apply Qle_bool_iff; assumption.
  Qed.
  Lemma typed_cost k acts d v : good (edge_types k acts) d -> typed_keys (edge_types k acts) d ->
    lookup "cost" d = Some v -> exists q, v = VNum q /\ (0 <= q)%Qc.
  Proof.
    intros G T L. destruct (typed_label _ _ _ _ _ G T L) as [A I]. destruct k; cbn in I; try contradiction;
      try (repeat (destruct I as [I|I]; [discriminate|]); contradiction).
    unfold allowed in A; cbn in A; destruct v as [|q| | |]; try discriminate. exists q. split; [reflexivity|].
    apply Qle_bool_iff. exact A.
  Qed.
  Lemma vmem_In v l : vmem v l = true <-> In v l.
  Proof. exact (nmem_In val_eqb val_eqb_eq v l). Qed.
  Lemma typed_action k acts d v : good (edge_types k acts) d -> typed_keys (edge_types k acts) d ->
    lookup "action" d = Some v -> k = MDP /\ In v acts.
  Proof.
    intros G T L. destruct (typed_label _ _ _ _ _ G T L) as [A I]. destruct k; cbn in I; try contradiction;
      try (destruct I as [I|[]]; discriminate).
    unfold allowed in A; cbn in A. split; [reflexivity|]. apply vmem_In, A.
  Qed.
End Typing.

(** ** Models *)
Section Models.
  Context {N : Type}.
  Implicit Types (m : model N) (models : list (model N)) (e : edge N val) (es : list (edge N val)).
  (** What the classes keep when a model is built through their methods. *)
  Record wf_model (m : model N) : Prop := {
    wm_wf : wf (ec (m_kind m) (m_actions m)) (m_ts m);
    wm_ap : forall s a, In (s, a) (g_nodes (m_ts m)) -> exists l, lookup "ap" a = Some (VSet l);
    wm_init : forall s, In s (g_init (m_ts m)) -> In s (node_list (m_ts m));
    wm_typed : forall e, In e (g_edges (m_ts m)) -> typed_keys (edge_types (m_kind m) (m_actions m)) (e_attr e) }.
  Lemma wm_good m e : wf_model m -> In e (g_edges (m_ts m)) -> good (edge_types (m_kind m) (m_actions m)) (e_attr e).
  Proof. intros W I. exact (proj2 (wf_edge_attr _ _ (wm_wf m W) e I)). Qed.
  Lemma wm_keys m e : wf_model m -> In e (g_edges (m_ts m)) -> NoDup (map fst (e_attr e)).
  Proof. intros W I. exact (proj1 (wf_edge_attr _ _ (wm_wf m W) e I)). Qed.

  Lemma joint_edges models s es : joint models s es -> Forall2 (fun m e => In e (g_edges (m_ts m))) models es.
  Proof. induction 1; constructor; auto. Qed.
  Lemma joint_In models s es e : joint models s es -> In e es -> exists m, In m models /\ In e (g_edges (m_ts m)).
  Proof.
    induction 1 as [|m ms x xs e' es I S J IH]; [intros []|]. intros [->|K]; [exists m; split; [left; reflexivity|exact I]|].
    destruct (IH K) as [m' [A B]]. exists m'. split; [right; exact A|exact B].
  Qed.
  Lemma joint_src models s es : joint models s es -> s = map e_src es.
  Proof. induction 1; cbn [map]; congruence. Qed.

  (** Labels whose values under [k] are numbers or absent. *)
  Lemma present_nums (l : list val) : (forall v, In v l -> v = VNone \/ exists q, v = VNum q) -> exists qs, present l = map VNum qs.
  Proof.
    induction l as [|v l IH]; intro H; [exists []; reflexivity|]. destruct IH as [qs E]; [intros; apply H; right; assumption|].
    cbn [present filter] in *. destruct (H v (or_introl eq_refl)) as [-> | [q ->]]; cbn [is_not_none]; [exists qs; exact E|].
    exists (q :: qs). cbn [map]. f_equal. exact E.
  Qed.
  Lemma VNum_inj qs qs' : map VNum qs = map VNum qs' -> qs = qs'.
  Proof. revert qs'. induction qs as [|q qs IH]; intros [|q' qs'] H; try discriminate; [reflexivity|]. injection H as -> H. f_equal. auto. Qed.

  Lemma joint_label_unique (es : list (edge N val)) d d' : joint_label es d -> joint_label es d' -> same_items d d'.
  Proof.
    intros H K k. destruct (H k) as [A B], (K k) as [A' B']. destruct (lookup k d) as [v|] eqn:E, (lookup k d') as [v'|] eqn:E'.
    - destruct (B v eq_refl) as [P [C [T O]]], (B' v' eq_refl) as [P' [C' [T' O']]]. f_equal.
      destruct (string_dec k "probability") as [->|NP].
      { destruct (P eq_refl) as [qs [X ->]], (P' eq_refl) as [qs' [X' ->]]. rewrite X in X'. apply VNum_inj in X'. congruence. }
      destruct (string_dec k "cost") as [->|NC].
      { destruct (C eq_refl) as [qs [X ->]], (C' eq_refl) as [qs' [X' ->]]. rewrite X in X'. apply VNum_inj in X'. congruence. }
      destruct (string_dec k "action") as [->|NA].
      { destruct (T eq_refl) as [X|[X ->]], (T' eq_refl) as [X'|[X' ->]]; try congruence.
        - rewrite X in X'. cbn in X'. congruence.
        - rewrite X' in X. cbn in X. congruence. }
      rewrite (O NP NC NA), (O' NP NC NA). reflexivity.
    - exfalso. pose proof (proj2 A (proj1 A' eq_refl)). congruence.
    - exfalso. pose proof (proj2 A' (proj1 A eq_refl)). congruence.
    - reflexivity.
  Qed.
  Lemma joint_label_same (es : list (edge N val)) d d' : same_items d d' -> joint_label es d -> joint_label es d'.
  Proof. intros S H k. rewrite <- (S k). exact (H k). Qed.

  Lemma val_of_value k (es : list (edge N val)) : map (val_of k) (map e_attr es) = map (value k) es.
  Proof. rewrite map_map. reflexivity. Qed.
  Definition numeric (k : string) (es : list (edge N val)) : Prop :=
    forall e v, In e es -> lookup k (e_attr e) = Some v -> exists q, v = VNum q.
  Lemma numeric_present k es : numeric k es -> exists qs, present (map (value k) es) = map VNum qs.
  Proof.
    intro H. apply present_nums. intros v I. apply in_map_iff in I. destruct I as [e [<- I]]. unfold value.
    destruct (lookup k (e_attr e)) as [v|] eqn:L; [right; exact (H e v I L)|left; reflexivity].
  Qed.
  Lemma numeric_nonempty k es qs e v : numeric k es -> In e es -> lookup k (e_attr e) = Some v ->
    present (map (value k) es) = map VNum qs -> qs <> [].
  Proof.
    intros H I L P ->. destruct (H e v I L) as [q ->]. assert (J : In (VNum q) (present (map (value k) es))).
    { apply filter_In. split; [|reflexivity]. apply in_map_iff. exists e. unfold value. rewrite L. auto. }
    rewrite P in J. exact J.
  Qed.
  Lemma label_with_joint (es : list (edge N val)) d : numeric "probability" es -> numeric "cost" es ->
    (label_with (with_defaults []) (map e_attr es) d -> joint_label es d).
  Proof.
    intros HP HC [_ H] k. destruct (H k) as [A B]. split.
    - rewrite A. split; [intros X e I; apply X, in_map, I|intros X a I; apply in_map_iff in I; destruct I as [e [<- I]]; auto].
    - intros v L. specialize (B v L). rewrite with_defaults_nil, val_of_value in B. cbn zeta.
      assert (Ex : exists e w, In e es /\ lookup k (e_attr e) = Some w).
      { destruct (existsb (fun e => match lookup k (e_attr e) with Some _ => true | None => false end) es) eqn:X.
        - apply existsb_exists in X. destruct X as [e [I X]]. destruct (lookup k (e_attr e)) eqn:Y; [eauto|discriminate].
        - exfalso. enough (Z : lookup k d = None) by congruence. apply A. intros a I. apply in_map_iff in I. destruct I as [e [<- I]].
          destruct (lookup k (e_attr e)) eqn:Y; [|reflexivity]. exfalso.
          enough (T : existsb (fun e => match lookup k (e_attr e) with Some _ => true | None => false end) es = true) by congruence.
          apply existsb_exists. exists e. rewrite Y. auto. }
      destruct Ex as [e [w [I Lw]]].
      split; [|split; [|split]].
      + intros ->. cbn in B. destruct (numeric_present _ _ HP) as [qs P]. exists qs. split; [exact P|].
        rewrite (mult_values_nums _ qs P (numeric_nonempty _ _ _ _ _ HP I Lw P)) in B. injection B as <-. reflexivity.
      + intros ->. cbn in B. destruct (numeric_present _ _ HC) as [qs P]. exists qs. split; [exact P|].
        rewrite (sum_values_nums _ qs P (numeric_nonempty _ _ _ _ _ HC I Lw P)) in B. injection B as <-. reflexivity.
      + intros ->. cbn in B. apply neglect_none_spec, B.
      + intros NP NC NA. apply String.eqb_neq in NP, NC, NA. rewrite NP, NC, NA in B. exact B.
  Qed.
End Models.

(** ** Building the composition *)
Section Build.
  Context {N : Type} (neqb : N -> N -> bool).
  Hypothesis neqb_eq : forall a b, neqb a b = true <-> a = b.
  Implicit Types (m : model N) (models : list (model N)) (e : edge N val) (es : list (edge N val)).
  Lemma leqb_eq a b : leqb neqb a b = true <-> a = b.
  Proof.
    revert b. induction a as [|x a IH]; intros [|y b]; cbn [leqb]; try (split; [discriminate|congruence]); [tauto|].
    rewrite andb_true_iff, IH, neqb_eq. split; [intros [-> ->]; reflexivity|intros [= -> ->]; auto].
  Qed.

  Lemma find_node {M} (eqb : M -> M -> bool) (eqb_eq : forall a b, eqb a b = true <-> a = b) (l : list (M * attrs val)) s a :
    NoDup (map fst l) -> In (s, a) l -> find (fun na => eqb s (fst na)) l = Some (s, a).
  Proof.
    induction l as [|[x b] r IH]; intros ND I; [destruct I|]. cbn [find fst]. cbn [map fst] in ND. inversion ND as [|? ? NI ND']; subst.
    destruct (eqb s x) eqn:E.
    - apply eqb_eq in E. subst x. destruct I as [[= ->]|I]; [reflexivity|]. exfalso. apply NI. apply (in_map fst) in I. exact I.
    - destruct I as [[= -> ->]|I]; [|apply IH; auto]. rewrite (proj2 (eqb_eq s s) eq_refl) in E. discriminate.
  Qed.
  Lemma label_of_spec m s l : wf_model m -> (label_of neqb m s = Ok l <-> state_label (m_ts m) s l).
  Proof.
    intro W. unfold label_of. split.
    - destruct (find _ _) as [[x a]|] eqn:F; [|discriminate]. apply find_some in F. destruct F as [I E]. cbn [fst] in E. apply neqb_eq in E. subst x.
      intro H. exists a. split; [exact I|]. destruct (lookup "ap" a) as [[| | | |]|]; try discriminate. injection H as ->. reflexivity.
    - intros [a [I L]]. rewrite (find_node neqb neqb_eq _ s a (wf_nodes _ _ (wm_wf m W)) I), L. reflexivity.
  Qed.
  Lemma label_of_total m s : wf_model m -> In s (node_list (m_ts m)) -> exists l, label_of neqb m s = Ok l.
  Proof.
    intros W I. apply in_map_iff in I. destruct I as [[x a] [E I]]. cbn [fst] in E. subst x. destruct (wm_ap m W s a I) as [l L].
    exists l. apply label_of_spec; [exact W|]. exists a. auto.
  Qed.
  Lemma labels_of_total models s : Forall wf_model models -> Forall2 (fun x m => In x (node_list (m_ts m))) s models ->
    exists ls, labels_of neqb models s = Ok ls /\ List.length ls = List.length models /\
      forall p, In p (List.concat ls) <-> exists i m x l, nth_error models i = Some m /\ nth_error s i = Some x /\ state_label (m_ts m) x l /\ In p l.
  Proof.
    intros W F. revert W. induction F as [|x m s models I F IH]; intro W; cbn [labels_of].
    - exists []. split; [reflexivity|]. split; [reflexivity|]. intro p. split; [intros []|]. intros [[|i] [? [? [? [X _]]]]]; discriminate.
    - pose proof (Forall_inv W) as Wm. destruct (label_of_total m x Wm I) as [l L]. destruct (IH (Forall_inv_tail W)) as [ls [E [Len K]]].
      exists (l :: ls). rewrite L, E. split; [reflexivity|]. split; [cbn; congruence|]. intro p. cbn [List.concat]. rewrite in_app_iff, K. split.
      + intros [J|[i [m' [x' [l' [A [B [C D]]]]]]]].
        * exists 0, m, x, l. repeat split; auto. apply label_of_spec; auto.
        * exists (S i), m', x', l'. auto.
      + intros [[|i] [m' [x' [l' [A [B [C D]]]]]]]; cbn in A, B.
        * injection A as <-. injection B as <-. left. apply label_of_spec in C; [|exact Wm]. congruence.
        * right. eauto 8.
  Qed.
  Lemma union_In a b p : In p (union a b) <-> In p a \/ In p b.
  Proof.
    unfold union. rewrite in_app_iff, filter_In. destruct (mem p a) eqn:E.
    - apply mem_In in E. tauto.
    - cbn. tauto.
  Qed.
  Lemma unions_In r l p : In p (fold_left union r l) <-> In p l \/ In p (List.concat r).
  Proof.
    revert l. induction r as [|a r IH]; intro l; cbn [fold_left List.concat]; [cbn; tauto|]. rewrite IH, union_In, in_app_iff. tauto.
  Qed.
  Definition joined (models : list (model N)) (s : list N) : list string :=
    match labels_of neqb models s with Ok (l :: r) => fold_left union r l | _ => [] end.
  Definition state_node models (s : list N) : list N * attrs val := (s, [("ap", VSet (joined models s))]).

  Lemma add_state_fresh k ap models s l1 : models <> [] -> Forall wf_model models ->
    Forall2 (fun x m => In x (node_list (m_ts m))) s models -> ~ In s l1 ->
    add_state neqb (model_config k ap []) models s (Graph (map (state_node models) l1) [] []) =
    Ok (Graph (map (state_node models) (l1 ++ [s])) [] []).
  Proof.
    intros NE W F NI. unfold add_state, add_node. cbn [model_config c_node_types c_node_defaults].
    assert (X : nx_add_node (leqb neqb) s [("ap", VSet [])] (map (state_node models) l1) = map (state_node models) l1 ++ [(s, [("ap", VSet [])])]).
    { clear - NI neqb_eq. induction l1 as [|t l1 IH]; [reflexivity|]. cbn [map nx_add_node state_node app].
      destruct (leqb neqb s t) eqn:E; [apply leqb_eq in E; exfalso; apply NI; left; auto|]. rewrite IH; [reflexivity|]. intro I. apply NI. right. exact I. }
    destruct (labels_of_total models s W F) as [ls [E [Len _]]].
    change (typed_attr [("ap", Some (in_powerset ap))] [("ap", VSet [])] []) with (Ok [("ap", VSet [])]). cbn [bind].
    change (check_untyped [("ap", VSet [])] [("ap", Some (in_powerset ap))] true) with (Ok tt). cbn [bind g_nodes g_edges g_init].
    rewrite X, E. cbn [bind]. destruct ls as [|l r]; [destruct models; [congruence|discriminate]|].
    unfold set_ap, has_node, nmem, node_list. cbn [g_nodes g_edges g_init]. rewrite map_app, existsb_app. cbn [map fst existsb].
    rewrite (proj2 (leqb_eq s s) eq_refl). rewrite orb_comm. cbn [orb]. f_equal. f_equal. rewrite !map_app. cbn [map fst snd].
    rewrite (proj2 (leqb_eq s s) eq_refl). f_equal.
    - clear X. induction l1 as [|t l1 IH]; [reflexivity|]. cbn [map state_node fst].
      destruct (leqb neqb s t) eqn:Z; [apply leqb_eq in Z; exfalso; apply NI; left; auto|]. f_equal. apply IH. intro I. apply NI. right. exact I.
    - unfold state_node, joined. rewrite E. reflexivity.
  Qed.
  Lemma add_states k ap models l : models <> [] -> Forall wf_model models -> NoDup l ->
    (forall s, In s l -> Forall2 (fun x m => In x (node_list (m_ts m))) s models) ->
    fold_res (add_state neqb (model_config k ap []) models) l empty_graph = Ok (Graph (map (state_node models) l) [] []).
  Proof.
    intros NE W. enough (G : forall l2 l1, NoDup (l1 ++ l2) -> (forall s, In s l2 -> Forall2 (fun x m => In x (node_list (m_ts m))) s models) ->
      fold_res (add_state neqb (model_config k ap []) models) l2 (Graph (map (state_node models) l1) [] []) = Ok (Graph (map (state_node models) (l1 ++ l2)) [] [])).
    { intros ND H. exact (G l [] ND H). }
    induction l2 as [|s l2 IH]; intros l1 ND H; cbn [fold_res]; [rewrite app_nil_r; reflexivity|].
    rewrite add_state_fresh; auto.
    - cbn [bind]. replace (l1 ++ s :: l2) with ((l1 ++ [s]) ++ l2) by (rewrite <- app_assoc; reflexivity). apply IH.
      + rewrite <- app_assoc. exact ND.
      + intros t I. apply H. right. exact I.
    - apply H. left. reflexivity.
    - apply NoDup_remove_2 in ND. intro I. apply ND, in_or_app. left. exact I.
  Qed.
  (** An empty list of models raises. *)
  Lemma add_states_nil k ap : fold_res (add_state neqb (model_config k ap []) []) (product (map (fun m => node_list (m_ts m)) [])) empty_graph = Err "TypeError".
  Proof. reflexivity. Qed.

  (** ** The transitions *)
  Definition outs1 m (x : N) : list (edge N val) := filter (fun e => neqb (e_src e) x) (g_edges (m_ts m)).
  Fixpoint outs models (s : list N) : list (list (edge N val)) :=
    match models, s with m :: ms, x :: xs => outs1 m x :: outs ms xs | _, _ => [] end.
  Lemma find_all (c : config val) x (g : graph N val) : find_transitions neqb val_eqb c (Some [x]) None [] g =
    Ok (filter (fun e => neqb (e_src e) x) (g_edges g)).
  Proof.
    unfold find_transitions. cbn zeta.
    replace (filter (fun e => nmem neqb (e_src e) [x] && true) (g_edges g)) with (filter (fun e => neqb (e_src e) x) (g_edges g)).
    2: { apply filter_ext. intro e. cbn. rewrite orb_false_r, andb_true_r. reflexivity. }
    match goal with |- bind (mapr ?f ?l) _ = _ => assert (E : mapr f l = Ok (map (fun e => (e, true)) l)) end.
    { match goal with |- mapr _ ?l = _ => induction l as [|e r IH]; cbn [mapr map]; [reflexivity|] end. cbn [bind]. rewrite IH. reflexivity. }
    rewrite E. cbn [bind]. f_equal. clear E. induction (filter _ (g_edges g)) as [|e r IH]; cbn [map filter snd fst]; [reflexivity|]. rewrite IH. reflexivity.
  Qed.
  Lemma factor_transitions_Ok models s : List.length s = List.length models -> factor_transitions neqb models s = Ok (outs models s).
  Proof.
    revert s. induction models as [|m models IH]; intros [|x s] L; try discriminate; [reflexivity|]. cbn [factor_transitions outs].
    rewrite find_all. cbn [bind]. injection L as L. rewrite (IH s L). reflexivity.
  Qed.
  Lemma outs_joint models s es : List.length s = List.length models -> (In es (product (outs models s)) <-> joint models s es).
  Proof.
    intro L. rewrite product_In. revert s es L. induction models as [|m models IH]; intros [|x s] es L; try discriminate; cbn [outs].
    - split; [intro H; inversion H; constructor|intro H; inversion H; constructor].
    - injection L as L. split; intro H.
      + inversion H as [|e ? es' ? I F]; subst. apply filter_In in I. destruct I as [I E]. apply neqb_eq in E.
        constructor; [exact I|exact E|]. apply IH; auto.
      + inversion H as [|? ? ? ? e es' I E J]; subst. constructor; [apply filter_In; split; [exact I|apply neqb_eq; reflexivity]|]. apply IH; auto.
  Qed.
  Lemma joint_length models s es : joint models s es -> List.length s = List.length models /\ List.length es = List.length models.
  Proof. induction 1 as [|? ? ? ? ? ? ? ? ? [A B]]; cbn; auto. Qed.

  (** All pairs of a state and a joint transition from it, in the order of the loops. *)
  Definition moves models (l : list (list N)) : list (list N * list (edge N val)) :=
    flat_map (fun s => map (pair s) (product (outs models s))) l.
  Lemma moves_In models l s es : (forall s, In s l -> List.length s = List.length models) ->
    (In (s, es) (moves models l) <-> In s l /\ joint models s es).
  Proof.
    intro L. unfold moves. rewrite in_flat_map. split.
    - intros [t [I J]]. apply in_map_iff in J. destruct J as [es' [[= -> ->] J]]. split; [exact I|]. apply outs_joint; auto.
    - intros [I J]. exists s. split; [exact I|]. apply in_map, outs_joint; auto.
  Qed.
  Definition move_of (ops : operations) (x : list N * list (edge N val)) (y : list N * attrs val * list N) : Prop :=
    fst (fst y) = fst x /\ snd y = map e_dst (snd x) /\ get_transition_attr ops (map e_attr (snd x)) = Ok (snd (fst y)).
  Lemma fold_moves c ops P (g g' : graph (list N) val) :
    fold_res (fun x => add_transition neqb c ops (fst x) (snd x)) P g = Ok g' <->
    exists L, Forall2 (move_of ops) P L /\ fold_res (add_trans (leqb neqb) val_eqb c true) L g = Ok g'.
  Proof.
    revert g. induction P as [|[s es] P IH]; intro g; cbn [fold_res].
    - split; [intro H; exists []; split; [constructor|exact H]|]. intros [L [F H]]. inversion F; subst. exact H.
    - unfold add_transition at 1. cbn [fst snd]. split.
      + intro H. apply bind_Ok in H. destruct H as [g1 [H K]]. apply bind_Ok in H. destruct H as [d [D H]]. apply IH in K.
        destruct K as [L [F K]]. exists ((s, d, map e_dst es) :: L). split; [constructor; [repeat split; auto|exact F]|]. cbn [fold_res].
        unfold add_trans at 1. cbn [fst snd]. rewrite H. exact K.
      + intros [L [F H]]. inversion F as [|? [[u d] v] ? L' [A [B C]] F']; subst. cbn [fst snd] in *. subst. rewrite C. cbn [bind fold_res] in *.
        apply bind_Ok in H. destruct H as [g1 [H K]]. unfold add_trans in H. cbn [fst snd] in H. rewrite H. cbn [bind]. apply IH. eauto.
  Qed.
  Lemma add_all_moves c ops models l (g : graph (list N) val) : (forall s, In s l -> List.length s = List.length models) ->
    fold_res (add_transitions_from neqb c ops models) l g =
    fold_res (fun x => add_transition neqb c ops (fst x) (snd x)) (moves models l) g.
  Proof.
    intro L. unfold moves. rewrite fold_res_flat. apply fold_res_ext. intros s g1 I. unfold add_transitions_from.
    rewrite factor_transitions_Ok by (apply L, I). cbn [bind]. rewrite fold_res_map. reflexivity.
  Qed.

  (** ** The whole composition *)
  Definition all_states models : list (list N) := product (map (fun m => node_list (m_ts m)) models).
  Definition all_initial models : list (list N) := product (map (fun m => g_init (m_ts m)) models).
  Definition all_ap models : list string := fold_left union (map m_ap models) [].
  Lemma Forall2_map_r {A B C} (R : A -> C -> Prop) (f : B -> C) l l' : Forall2 R l (map f l') <-> Forall2 (fun a b => R a (f b)) l l'.
  Proof.
    split.
    - revert l. induction l' as [|b l' IH]; intros l H; cbn [map] in H; inversion H; subst; constructor; auto.
    - induction 1; cbn [map]; constructor; auto.
  Qed.
  Lemma all_states_In models s : In s (all_states models) <-> Forall2 (fun x m => In x (node_list (m_ts m))) s models.
  Proof. unfold all_states. rewrite product_In. apply Forall2_map_r. Qed.
  Lemma all_initial_In models s : In s (all_initial models) <-> Forall2 (fun x m => In x (g_init (m_ts m))) s models.
  Proof. unfold all_initial. rewrite product_In. apply Forall2_map_r. Qed.
  Lemma Forall2_length' {A B} (R : A -> B -> Prop) l l' : Forall2 R l l' -> List.length l = List.length l'.
  Proof. induction 1; cbn; congruence. Qed.
  Lemma all_states_length models s : In s (all_states models) -> List.length s = List.length models.
  Proof. intro H. apply all_states_In in H. exact (Forall2_length' _ _ _ H). Qed.
  Lemma all_states_NoDup models : Forall wf_model models -> NoDup (all_states models).
  Proof.
    intro W. apply product_NoDup. apply Forall_forall. intros l I. apply in_map_iff in I. destruct I as [m [<- I]].
    rewrite Forall_forall in W. exact (wf_nodes _ _ (wm_wf m (W m I))).
  Qed.
  Lemma joint_states models s es : Forall wf_model models -> joint models s es -> In s (all_states models) /\ In (map e_dst es) (all_states models).
  Proof.
    intros W J. rewrite !all_states_In. induction J as [|m ms x xs e es I E J IH]; cbn [map]; [split; constructor|].
    destruct (IH (Forall_inv_tail W)) as [A B]. destruct (wf_ends _ _ (wm_wf m (Forall_inv W)) e I) as [C D]. subst x. split; constructor; auto.
  Qed.
  Lemma node_list_states models l ed i : node_list (Graph (map (state_node models) l) ed i : graph (list N) val) = l.
  Proof. unfold node_list. cbn [g_nodes]. rewrite map_map. apply map_id. Qed.

  Definition base_graph models (i : list (list N)) : graph (list N) val := Graph (map (state_node models) (all_states models)) [] i.
  Lemma base_wf c models i : c_node_types c = [] -> Forall wf_model models -> NoDup i -> wf c (base_graph models i).
  Proof.
    intros C W ND. unfold base_graph. split; cbn [g_edges g_init].
    - rewrite node_list_states. apply all_states_NoDup, W.
    - intros e [].
    - constructor.
    - intros n a I. cbn [g_nodes] in I. apply in_map_iff in I. destruct I as [s [[= <- <-] I]]. split; [repeat constructor; auto|].
      apply Forall_forall. intros kv J. unfold allowed. rewrite C. reflexivity.
    - intros e [].
    - exact ND.
  Qed.
  Lemma parallel_Ok ops models ts : Forall wf_model models -> synchronous_parallel neqb ops models = Ok ts ->
    models <> [] /\ exists k i g L, composed_type models = Some k /\ ts = Model k (all_ap models) (composed_actions k models) g /\
      NoDup i /\ (forall s, In s i <-> In s (all_initial models)) /\
      Forall2 (move_of (with_defaults ops)) (moves models (all_states models)) L /\
      fold_res (add_trans (leqb neqb) val_eqb (ec k (composed_actions k models)) true) L (base_graph models i) = Ok g.
  Proof.
    intros W H. unfold synchronous_parallel in H. destruct (composed_type models) as [k|] eqn:K; [|discriminate]. cbn zeta in H.
    apply bind_Ok in H. destruct H as [g1 [H1 H]]. apply bind_Ok in H. destruct H as [g2 [H2 H]]. apply bind_Ok in H. destruct H as [g3 [H3 H]].
    assert (NE : models <> []). { intros ->. rewrite add_states_nil in H1. discriminate. }
    split; [exact NE|]. fold (all_states models) in H1. fold (all_initial models) in H2.
    rewrite (add_states k (fold_left union (map m_ap models) []) models (all_states models)) in H1; auto.
    2: { apply all_states_NoDup, W. } 2: { intros s I. apply all_states_In, I. }
    injection H1 as <-. fold (base_graph models []) in H2.
    destruct (proj1 (add_initials (leqb neqb) val_eqb leqb_eq (ec k []) (all_initial models) (base_graph models [])
      (base_wf (ec k []) _ _ eq_refl W (NoDup_nil _))) g2 H2) as [_ [W2 [N2 [E2 I2]]]].
    assert (G2 : g2 = base_graph models (g_init g2)). { destruct g2 as [n e0 i0]. cbn in N2, E2 |- *. unfold base_graph. congruence. }
    exists k, (g_init g2), g3. rewrite G2 in H3. unfold base_graph in H3 at 1. rewrite node_list_states in H3.
    rewrite add_all_moves in H3 by (intro s; apply all_states_length). apply fold_moves in H3. destruct H3 as [L [F H3]]. exists L.
    split; [reflexivity|]. split; [injection H as <-; reflexivity|]. split; [exact (wf_init_nodup _ _ W2)|].
    split; [intro s; rewrite I2; cbn; tauto|]. split; [exact F|]. exact H3.
  Qed.

  Lemma joint_numeric k models s es : Forall wf_model models -> joint models s es -> k = "probability" \/ k = "cost" -> numeric k es.
  Proof.
    intros W J K e v I L. destruct (joint_In _ _ _ _ J I) as [m [Im Ie]]. rewrite Forall_forall in W. specialize (W m Im).
    destruct K as [-> | ->].
    - destruct (typed_probability _ _ _ _ (wm_good m e W Ie) (wm_typed m W e Ie) L) as [q [-> _]]. eauto.
    - destruct (typed_cost _ _ _ _ (wm_good m e W Ie) (wm_typed m W e Ie) L) as [q [-> _]]. eauto.
  Qed.
  Lemma joint_keys models s es : Forall wf_model models -> joint models s es -> Forall (fun a : attrs val => NoDup (map fst a)) (map e_attr es).
  Proof.
    intros W J. apply Forall_forall. intros a I. apply in_map_iff in I. destruct I as [e [<- I]]. destruct (joint_In _ _ _ _ J I) as [m [Im Ie]].
    rewrite Forall_forall in W. exact (wm_keys m e (W m Im) Ie).
  Qed.
  Lemma move_label models s es d : Forall wf_model models -> joint models s es ->
    get_transition_attr (with_defaults []) (map e_attr es) = Ok d -> NoDup (map fst d) /\ joint_label es d.
  Proof.
    intros W J H. apply get_transition_attr_spec in H; [|exact (joint_keys _ _ _ W J)]. split; [exact (proj1 H)|].
    apply label_with_joint; [eapply joint_numeric; eauto|eapply joint_numeric; eauto|exact H].
  Qed.

  Lemma Forall2_In_l {A B} (R : A -> B -> Prop) l l' x : Forall2 R l l' -> In x l -> exists y, In y l' /\ R x y.
  Proof. induction 1 as [|a b l l' H F IH]; intros []; [subst; exists b; split; [left; reflexivity|exact H]|]. destruct (IH H0) as [y [I K]]. exists y. split; [right; exact I|exact K]. Qed.
  Lemma Forall2_In_r {A B} (R : A -> B -> Prop) l l' y : Forall2 R l l' -> In y l' -> exists x, In x l /\ R x y.
  Proof. induction 1 as [|a b l l' H F IH]; intros []; [subst; exists a; split; [left; reflexivity|exact H]|]. destruct (IH H0) as [x [I K]]. exists x. split; [right; exact I|exact K]. Qed.
  Lemma moves_spec ops models L : Forall2 (move_of ops) (moves models (all_states models)) L ->
    (forall u d v, In (u, d, v) L -> exists es, joint models u es /\ v = map e_dst es /\ get_transition_attr ops (map e_attr es) = Ok d) /\
    (forall s es, Forall wf_model models -> joint models s es -> exists d, In (s, d, map e_dst es) L /\ get_transition_attr ops (map e_attr es) = Ok d).
  Proof.
    intro F. split.
    - intros u d v I. destruct (Forall2_In_r _ _ _ _ F I) as [[s es] [J [A [B C]]]]. cbn [fst snd] in *. subst.
      apply moves_In in J; [|intro s0; apply all_states_length]. exists es. tauto.
    - intros s es W J. destruct (Forall2_In_l _ _ _ (s, es) F) as [[[u d] v] [I [A [B C]]]].
      + apply moves_In; [intro s0; apply all_states_length|]. split; [|exact J]. exact (proj1 (joint_states _ _ _ W J)).
      + cbn [fst snd] in *. subst. eauto.
  Qed.

  (** C34, the structure: states are the tuples of states, initial states the tuples of initial
      states, the label of a state is the union of the factors' labels, and the transitions are
      the joint transitions; probabilities multiply, costs add up and actions are paired. *)
  Theorem synchronous_parallel_spec models ts : Forall wf_model models -> synchronous_parallel neqb [] models = Ok ts ->
    (forall s, In s (node_list (m_ts ts)) <-> Forall2 (fun x m => In x (node_list (m_ts m))) s models) /\
    (forall s, In s (g_init (m_ts ts)) <-> Forall2 (fun x m => In x (g_init (m_ts m))) s models) /\
    (forall s l, state_label (m_ts ts) s l -> forall p, In p l <->
       exists i m x lx, nth_error models i = Some m /\ nth_error s i = Some x /\ state_label (m_ts m) x lx /\ In p lx) /\
    (forall s d t, trans (m_ts ts) s d t <-> exists es, joint models s es /\ t = map e_dst es /\ joint_label es d) /\
    wf_model ts.
  Proof.
    intros W H. destruct (parallel_Ok [] models ts W H) as [NE [k [i [g [L [K [-> [NDi [Ii [F Fo]]]]]]]]]]. cbn [m_ts].
    destruct (moves_spec _ _ _ F) as [M1 M2].
    destruct (add_edges_trans (leqb neqb) val_eqb leqb_eq val_eqb_eq (ec k (composed_actions k models)) eq_refl true L (base_graph models i) g)
      as [Gn [Gi [Gw [_ Gt]]]]; [apply base_wf; auto| |exact Fo|].
    { intros [[u d] v] I. cbn [fst snd]. destruct (M1 u d v I) as [es [J [_ D]]]. exact (proj1 (move_label _ _ _ _ W J D)). }
    assert (NL : node_list g = all_states models). { unfold node_list. rewrite Gn. exact (node_list_states models (all_states models) [] i). }
    split; [intro s; rewrite NL; apply all_states_In|]. split; [intro s; rewrite Gi; cbn [base_graph g_init]; rewrite Ii; apply all_initial_In|].
    assert (Lab : forall s a, In (s, a) (g_nodes g) -> In s (all_states models) /\ a = [("ap", VSet (joined models s))]).
    { intros s a I. rewrite Gn in I. cbn [base_graph g_nodes] in I. apply in_map_iff in I. destruct I as [s' [[= -> <-] I]]. auto. }
    split.
    { intros s l [a [I La]] p. destruct (Lab s a I) as [Is ->]. cbn in La. injection La as <-.
      apply all_states_In in Is. destruct (labels_of_total models s W Is) as [ls [E [Len Sp]]]. unfold joined. rewrite E.
      rewrite <- Sp. destruct ls as [|x r]; [destruct models; [congruence|discriminate]|]. rewrite unions_In. cbn [List.concat]. rewrite in_app_iff. reflexivity. }
    split.
    { intros s d t. rewrite Gt. split.
      - intros [[e [[] _]]|[d' [I S]]]. destruct (M1 s d' t I) as [es [J [-> D]]]. exists es. split; [exact J|]. split; [reflexivity|].
        apply (joint_label_same es d' d S). exact (proj2 (move_label _ _ _ _ W J D)).
      - intros [es [J [-> JL]]]. right. destruct (M2 s es W J) as [d' [I D]]. exists d'. split; [exact I|].
        apply (joint_label_unique es); [exact (proj2 (move_label _ _ _ _ W J D))|exact JL]. }
    split; cbn [m_kind m_actions m_ts m_ap].
    - exact Gw.
    - intros s a I. destruct (Lab s a I) as [_ ->]. exists (joined models s). reflexivity.
    - intros s I. rewrite NL. rewrite Gi in I. cbn [base_graph g_init] in I. apply Ii in I. apply all_initial_In in I. apply all_states_In.
      clear - I W. induction I as [|x m s models I F IH]; constructor; [exact (wm_init m (Forall_inv W) x I)|exact (IH (Forall_inv_tail W))].
    - apply (fold_res_inv (add_trans (leqb neqb) val_eqb (ec k (composed_actions k models)) true)
        (fun _ g1 => forall e : edge (list N) val, In e (g_edges g1) -> typed_keys (edge_types k (composed_actions k models)) (e_attr e)) L (base_graph models i) g); [| |exact Fo].
      + intros e [].
      + intros l1 x l2 g1 g2 _ IH X. unfold add_trans in X. apply (add_edge_Ok (leqb neqb) val_eqb leqb_eq) in X.
        destruct X as [_ [_ [_ [t [T [[-> _]|[_ [Ck ->]]]]]]]]; [exact IH|]. cbn [g_edges]. intros e I.
        apply (check_untyped_inv _ _) in Ck. apply (nx_set_edge_In (leqb neqb)) in I; [|exact leqb_eq].
        destruct I as [I|[->|[a [I ->]]]]; [exact (IH e I)|exact Ck|]. cbn [e_attr].
        intros k' J. specialize (IH _ I). cbn [e_attr] in IH. destruct (in_dec string_dec k' (map fst t)) as [Y|Y]; [exact (Ck k' Y)|].
        apply IH. destruct (in_dec string_dec k' (map fst a)) as [Z|Z]; [exact Z|]. exfalso. apply lookup_None in Z, Y.
        enough (Q : lookup k' (update a t) = None) by (apply lookup_None in Q; contradiction).
        rewrite lookup_update. rewrite lookup_rev, Y, Z; [reflexivity|]. exact (typed_attr_keys _ _ _ _ T).
  Qed.

  (** ** The composition does not raise *)
  (** Every transition of a decision process has an action. *)
  Definition acts m : Prop := m_kind m = MDP -> forall e, In e (g_edges (m_ts m)) -> exists a, lookup "action" (e_attr e) = Some a /\ a <> VNone.
  (** A transition without any label is the only one between its ends. *)
  Definition lonely m : Prop := forall e e', In e (g_edges (m_ts m)) -> In e' (g_edges (m_ts m)) ->
    e_src e = e_src e' -> e_dst e = e_dst e' -> e_attr e = [] -> e = e'.
  (** Weighted structures do not go with probabilities. *)
  Definition compatible models : Prop :=
    (forall m, In m models -> m_kind m <> NotKripke) /\
    forall m m', In m models -> In m' models -> m_kind m = WKS -> m_kind m' <> MC /\ m_kind m' <> MDP.

  Lemma kind_eqb_eq a b : kind_eqb a b = true <-> a = b.
  Proof. destruct a, b; cbn; split; congruence. Qed.
  Lemma exists_kind models k : existsb (fun m => kind_eqb (m_kind m) k) models = true <-> exists m, In m models /\ m_kind m = k.
  Proof. rewrite existsb_exists. split; intros [m [I E]]; exists m; [rewrite kind_eqb_eq in E|rewrite kind_eqb_eq]; auto. Qed.
  Lemma composed_compatible models : compatible models -> exists k, composed_type models = Some k /\ forall m, In m models ->
    (m_kind m = MDP -> k = MDP) /\ (m_kind m = MC -> k = MC \/ k = MDP) /\ (m_kind m = WKS -> k = WKS).
  Proof.
    intros [H K]. unfold composed_type.
    destruct (existsb (fun m => kind_eqb (m_kind m) NotKripke) models) eqn:E0.
    { apply exists_kind in E0. destruct E0 as [m [I E]]. destruct (H m I E). }
    destruct (existsb (fun m => kind_eqb (m_kind m) MDP) models) eqn:E1.
    { exists MDP. split; [reflexivity|]. intros m I. split; [auto|]. split; [auto|]. intro Wk. apply exists_kind in E1. destruct E1 as [m' [I' E]].
      destruct (K m m' I I' Wk); congruence. }
    assert (F : forall k0 m, existsb (fun m => kind_eqb (m_kind m) k0) models = false -> In m models -> m_kind m <> k0).
    { intros k0 m X I Y. enough (existsb (fun m => kind_eqb (m_kind m) k0) models = true) by congruence. apply exists_kind. eauto. }
    destruct (existsb (fun m => kind_eqb (m_kind m) MC) models) eqn:E2.
    { exists MC. split; [reflexivity|]. intros m I. split; [intro Z; destruct (F _ _ E1 I Z)|]. split; [auto|]. intro Wk. apply exists_kind in E2. destruct E2 as [m' [I' E]].
      destruct (K m m' I I' Wk); congruence. }
    destruct (existsb (fun m => kind_eqb (m_kind m) WKS) models) eqn:E3.
    { exists WKS. split; [reflexivity|]. intros m I. split; [intro Z; destruct (F _ _ E1 I Z)|]. split; [intro Z; destruct (F _ _ E2 I Z)|auto]. }
    exists KS. split; [reflexivity|]. intros m I. split; [intro Z; destruct (F _ _ E1 I Z)|]. split; [intro Z; destruct (F _ _ E2 I Z)|intro Z; destruct (F _ _ E3 I Z)].
  Qed.

  Lemma edge_kind m e k v : wf_model m -> In e (g_edges (m_ts m)) -> lookup k (e_attr e) = Some v ->
    (k = "probability" /\ (m_kind m = MC \/ m_kind m = MDP)) \/ (k = "cost" /\ m_kind m = WKS) \/ (k = "action" /\ m_kind m = MDP).
  Proof.
    intros W I L. destruct (typed_label _ _ _ _ _ (wm_good m e W I) (wm_typed m W e I) L) as [_ J].
    destruct (m_kind m); cbn in J; repeat (destruct J as [J|J]; [subst k; auto|]); contradiction.
  Qed.
  (** The actions of a joint transition are those of the decision processes, in order. *)
  Lemma joint_acts models s es : Forall wf_model models -> Forall acts models -> joint models s es ->
    Forall2 (@In val) (present (map (value "action") es)) (map m_actions (filter (fun m => kind_eqb (m_kind m) MDP) models)).
  Proof.
    intros W A J. induction J as [|m ms x xs e es I E J IH]; [constructor|]. cbn [map filter present].
    specialize (IH (Forall_inv_tail W) (Forall_inv_tail A)). pose proof (Forall_inv W) as Wm. pose proof (Forall_inv A) as Am.
    destruct (kind_eqb (m_kind m) MDP) eqn:K.
    - apply kind_eqb_eq in K. destruct (Am K e I) as [a [L NN]]. destruct (typed_action _ _ _ _ (wm_good m e Wm I) (wm_typed m Wm e I) L) as [_ Ia].
      assert (V : value "action" e = a) by (unfold value; rewrite L; reflexivity). rewrite V. cbn [map].
      destruct a; cbn [is_not_none]; try congruence; (constructor; [exact Ia|exact IH]).
    - destruct (lookup "action" (e_attr e)) as [a|] eqn:L.
      2: { assert (V : value "action" e = VNone) by (unfold value; rewrite L; reflexivity). rewrite V. exact IH. }
      destruct (typed_action _ _ _ _ (wm_good m e Wm I) (wm_typed m Wm e I) L) as [X _]. rewrite X in K. discriminate.
  Qed.
  Lemma unit_prod qs : (forall q, In q qs -> (0 <= q)%Qc /\ (q <= 1)%Qc) -> (0 <= prodq qs)%Qc /\ (prodq qs <= 1)%Qc.
  Proof.
    induction qs as [|q qs IH]; intro H; [rewrite prodq_nil; split; [discriminate|apply Qcle_refl]|]. rewrite prodq_cons.
    destruct (H q (or_introl eq_refl)) as [A B]. destruct IH as [C D]; [intros; apply H; right; assumption|]. split.
    - replace 0%Qc with (0 * prodq qs)%Qc by ring. apply Qcmult_le_compat_r; assumption.
    - apply Qcle_trans with (1 * prodq qs)%Qc; [apply Qcmult_le_compat_r; assumption|]. replace (1 * prodq qs)%Qc with (prodq qs) by ring. exact D.
  Qed.
  Lemma pos_sum qs : (forall q, In q qs -> (0 <= q)%Qc) -> (0 <= sumq qs)%Qc.
  Proof.
    induction qs as [|q qs IH]; intro H; [rewrite sumq_nil; apply Qcle_refl|]. rewrite sumq_cons.
    replace 0%Qc with (0 + 0)%Qc by ring. apply Qcplus_le_compat; [apply H; left; reflexivity|apply IH; intros; apply H; right; assumption].
  Qed.
  Lemma present_value k es q : In (VNum q) (present (map (value k) es)) -> exists e, In e es /\ lookup k (e_attr e) = Some (VNum q).
  Proof.
    intro I. apply filter_In in I. destruct I as [I _]. apply in_map_iff in I. destruct I as [e [E I]]. exists e. split; [exact I|].
    unfold value in E. destruct (lookup k (e_attr e)); [congruence|discriminate].
  Qed.
  Lemma joint_label_typed models k s es d : Forall wf_model models -> Forall acts models -> compatible models -> composed_type models = Some k ->
    joint models s es -> NoDup (map fst d) -> joint_label es d ->
    good (edge_types k (composed_actions k models)) d /\ typed_keys (edge_types k (composed_actions k models)) d.
  Proof.
    intros W A C K J ND JL. destruct (composed_compatible models C) as [k' [K' Hk]]. rewrite K in K'. injection K' as <-.
    enough (X : forall key v, lookup key d = Some v -> allowed (edge_types k (composed_actions k models)) key v = true /\ In key (map fst (edge_types k (composed_actions k models)))).
    { split.
      - apply Forall_forall. intros [key v] I. exact (proj1 (X key v (In_lookup _ _ _ ND I))).
      - intros key I. apply in_map_iff in I. destruct I as [[key' v] [<- I]]. exact (proj2 (X key' v (In_lookup _ _ _ ND I))). }
    intros key v L. destruct (JL key) as [Z B]. destruct (B v L) as [BP [BC [BA _]]].
    assert (Ex : exists e w, In e es /\ lookup key (e_attr e) = Some w).
    { destruct (existsb (fun e => match lookup key (e_attr e) with Some _ => true | None => false end) es) eqn:X.
      - apply existsb_exists in X. destruct X as [e [I X]]. destruct (lookup key (e_attr e)) eqn:Y; [eauto|discriminate].
      - exfalso. enough (Q : lookup key d = None) by congruence. apply Z. intros e I.
        destruct (lookup key (e_attr e)) eqn:Y; [|reflexivity]. exfalso.
        enough (T : existsb (fun e => match lookup key (e_attr e) with Some _ => true | None => false end) es = true) by congruence.
        apply existsb_exists. exists e. rewrite Y. auto. }
    destruct Ex as [e [w [Ie Lw]]]. destruct (joint_In _ _ _ _ J Ie) as [m [Im Ig]].
    assert (Wf : forall m0, In m0 models -> wf_model m0) by (rewrite Forall_forall in W; exact W).
    destruct (Hk m Im) as [KD [KM KW]].
    destruct (edge_kind m e key w (Wf m Im) Ig Lw) as [[-> Km]|[[-> Km]|[-> Km]]].
    - destruct (BP eq_refl) as [qs [P ->]]. assert (U : (0 <= prodq qs)%Qc /\ (prodq qs <= 1)%Qc).
      { apply unit_prod. intros q Iq. assert (Iv : In (VNum q) (present (map (value "probability") es))) by (rewrite P; apply in_map, Iq).
        apply present_value in Iv. destruct Iv as [e1 [I1 L1]]. destruct (joint_In _ _ _ _ J I1) as [m1 [Im1 Ig1]].
        destruct (typed_probability _ _ _ _ (wm_good m1 e1 (Wf _ Im1) Ig1) (wm_typed m1 (Wf _ Im1) e1 Ig1) L1) as [q' [[= <-] Y]]. exact Y. }
      assert (V : valid_probability (VNum (prodq qs)) = true).
      { cbn [valid_probability]. apply andb_true_iff. split; apply Qle_bool_iff; [exact (proj1 U)|exact (proj2 U)]. }
      assert (Ks : k = MC \/ k = MDP). { destruct Km as [Km|Km]; [exact (KM Km)|right; exact (KD Km)]. }
      destruct Ks as [-> | ->]; cbn [edge_types]; unfold allowed; cbn [lookup]; (split; [exact V|left; reflexivity]).
    - specialize (KW Km). subst k. destruct (BC eq_refl) as [qs [P ->]]. cbn [edge_types]. unfold allowed. cbn [lookup]. split; [|left; reflexivity].
      cbn [valid_cost]. apply Qle_bool_iff. apply pos_sum. intros q Iq.
      assert (Iv : In (VNum q) (present (map (value "cost") es))) by (rewrite P; apply in_map, Iq).
      apply present_value in Iv. destruct Iv as [e1 [I1 L1]]. destruct (joint_In _ _ _ _ J I1) as [m1 [Im1 Ig1]].
      destruct (typed_cost _ _ _ _ (wm_good m1 e1 (Wf _ Im1) Ig1) (wm_typed m1 (Wf _ Im1) e1 Ig1) L1) as [q' [[= <-] Y]]. exact Y.
    - specialize (KD Km). subst k. cbn [edge_types]. unfold allowed. cbn [lookup]. split; [|right; left; reflexivity].
      change ("action" =? "probability")%string with false. cbn match. change ("action" =? "action")%string with true. cbn match.
      apply vmem_In. pose proof (joint_acts models s es W A J) as F. unfold composed_actions.
      destruct (BA eq_refl) as [P|[P ->]].
      + rewrite P in F. destruct (map m_actions (filter _ models)) as [|x [|y r]].
        * inversion F.
        * inversion F; subst. assumption.
        * exfalso. inversion F as [|? ? ? ? _ F']; inversion F'.
      + assert (Fp : In (VTup (present (map (value "action") es))) (map VTup (product (map m_actions (filter (fun m => kind_eqb (m_kind m) MDP) models))))).
        { apply in_map, product_In, F. }
        destruct (map m_actions (filter _ models)) as [|x [|y r]]; [exact Fp| |exact Fp].
        exfalso. apply P. exact (Forall2_length' _ _ _ F).
  Qed.

  Lemma edges_NoDup m : wf_model m -> NoDup (g_edges (m_ts m)).
  Proof. intro W. exact (NoDup_map_inv _ _ (wf_ident _ _ (wm_wf m W))). Qed.
  Lemma outs_NoDup models s : Forall wf_model models -> Forall (@NoDup (edge N val)) (outs models s).
  Proof.
    intro W. revert s. induction models as [|m models IH]; intros [|x s]; cbn [outs]; constructor.
    - apply NoDup_filter, edges_NoDup, (Forall_inv W).
    - apply IH, (Forall_inv_tail W).
  Qed.
  Lemma moves_NoDup models l : Forall wf_model models -> NoDup l -> NoDup (moves models l).
  Proof.
    intros W ND. unfold moves. induction ND as [|s l NI ND IH]; cbn [flat_map]; [constructor|]. apply nodup_app; [|exact IH|].
    - apply Injective_map_NoDup; [intros a b [= ->]; reflexivity|]. apply product_NoDup, outs_NoDup, W.
    - intros x I J. apply in_map_iff in I. destruct I as [es [<- _]]. apply in_flat_map in J. destruct J as [t [It J]].
      apply in_map_iff in J. destruct J as [es' [[= -> _] _]]. exact (NI It).
  Qed.
  Lemma lonely_joint models s es es' : Forall lonely models -> joint models s es -> joint models s es' ->
    map e_dst es = map e_dst es' -> (forall e, In e es -> e_attr e = []) -> es = es'.
  Proof.
    intros Lo J. revert es'. induction J as [|m ms x xs e es I E J IH]; intros es' J' D U; inversion J' as [|? ? ? ? e' es2 I' E' J2]; subst; [reflexivity|].
    cbn [map] in D. injection D as D1 D2. f_equal.
    - apply (Forall_inv Lo); auto. apply U. left. reflexivity.
    - apply IH; auto; [exact (Forall_inv_tail Lo)|]. intros y Iy. apply U. right. exact Iy.
  Qed.
  Lemma joint_label_nil es d : joint_label es d -> d = [] -> forall e, In e es -> e_attr e = [].
  Proof.
    intros JL -> e I. destruct (e_attr e) as [|[k v] r] eqn:E; [reflexivity|]. exfalso. destruct (JL k) as [A _].
    pose proof (proj1 A eq_refl e I) as X. rewrite E in X. cbn [lookup] in X. rewrite String.eqb_refl in X. discriminate.
  Qed.
  Lemma Forall2_build {A B} (R : A -> B -> Prop) l : (forall x, In x l -> exists y, R x y) -> exists l', Forall2 R l l'.
  Proof.
    induction l as [|x l IH]; intro H; [exists []; constructor|]. destruct (H x (or_introl eq_refl)) as [y Y].
    destruct IH as [l' F]; [intros; apply H; right; assumption|]. exists (y :: l'). constructor; auto.
  Qed.
  Lemma attr_total models s es : Forall wf_model models -> joint models s es -> exists d, get_transition_attr (with_defaults []) (map e_attr es) = Ok d.
  Proof.
    intros W J. apply get_transition_attr_total; [exact (joint_keys _ _ _ W J)|]. intros k f F [a [v [I L]]].
    apply in_map_iff in I. destruct I as [e [<- I]]. rewrite with_defaults_nil in F. rewrite val_of_value.
    destruct (String.eqb_spec k "cost") as [->|NC].
    { injection F as <-. assert (HN : numeric "cost" es) by (eapply joint_numeric; eauto).
      destruct (numeric_present _ _ HN) as [qs P]. rewrite (sum_values_nums _ qs P (numeric_nonempty _ _ _ _ _ HN I L P)). eauto. }
    destruct (String.eqb_spec k "probability") as [->|NP].
    { injection F as <-. assert (HN : numeric "probability" es) by (eapply joint_numeric; eauto).
      destruct (numeric_present _ _ HN) as [qs P]. rewrite (mult_values_nums _ qs P (numeric_nonempty _ _ _ _ _ HN I L P)). eauto. }
    destruct (String.eqb_spec k "action") as [->|NA]; [|discriminate]. injection F as <-. unfold neglect_none. destruct (filter _ _) as [|? [|? ?]]; eauto.
  Qed.

  Theorem synchronous_parallel_total models : models <> [] -> Forall wf_model models -> compatible models ->
    Forall acts models -> Forall lonely models -> exists ts, synchronous_parallel neqb [] models = Ok ts.
  Proof.
    intros NE W C A Lo. destruct (composed_compatible models C) as [k [K _]]. unfold synchronous_parallel. rewrite K. cbn zeta.
    fold (all_states models). fold (all_initial models).
    rewrite (add_states k (fold_left union (map m_ap models) []) models (all_states models)); auto.
    2: { apply all_states_NoDup, W. } 2: { intros s I. apply all_states_In, I. }
    cbn [bind]. fold (base_graph models []).
    destruct (add_initials (leqb neqb) val_eqb leqb_eq (ec k []) (all_initial models) (base_graph models [])
      (base_wf (ec k []) _ _ eq_refl W (NoDup_nil _))) as [HI HT].
    destruct HT as [g2 H2].
    { intros s I. unfold base_graph. rewrite node_list_states. apply all_states_In. apply all_initial_In in I.
      clear - I W. induction I as [|x m s models I F IH]; constructor; [exact (wm_init m (Forall_inv W) x I)|exact (IH (Forall_inv_tail W))]. }
    destruct (HI g2 H2) as [_ [W2 [N2 [E2 I2]]]]. rewrite H2. cbn [bind].
    assert (G2 : g2 = base_graph models (g_init g2)). { destruct g2 as [n e0 i0]. cbn in N2, E2 |- *. unfold base_graph. congruence. }
    rewrite G2. unfold base_graph at 1. rewrite node_list_states. rewrite add_all_moves by (intro s; apply all_states_length).
    destruct (Forall2_build (move_of (with_defaults [])) (moves models (all_states models))) as [L F].
    { intros [s es] I. apply moves_In in I; [|intro s0; apply all_states_length]. destruct (attr_total models s es W (proj2 I)) as [d D].
      exists (s, d, map e_dst es). repeat split; auto. }
    destruct (moves_spec _ _ _ F) as [M1 _].
    set (c := ec k (composed_actions k models)).
    destruct (add_edges_total (leqb neqb) val_eqb leqb_eq val_eqb_eq c eq_refl true L (base_graph models (g_init g2))) as [g3 H3].
    - apply base_wf; auto. exact (wf_init_nodup _ _ W2).
    - intros [[u d] v] I. cbn [fst snd]. destruct (M1 u d v I) as [es [J [_ D]]]. exact (proj1 (move_label _ _ _ _ W J D)).
    - intros u d v I. destruct (M1 u d v I) as [es [J [-> D]]]. destruct (joint_states _ _ _ W J) as [Iu Iv].
      destruct (move_label _ _ _ _ W J D) as [ND JL]. destruct (joint_label_typed models k u es d W A C K J ND JL) as [Gd Tk].
      unfold base_graph. rewrite !node_list_states. do 2 (split; [assumption|]). split; [exact Gd|]. split; [left; exact Tk|].
      intros [e [[] _]].
    - intros l1 u v l2 d E I. rewrite E in F. apply Forall2_app_inv_r in F. destruct F as [p1 [p2 [F1 [F2 EP]]]].
      inversion F2 as [|[s es] ? p3 ? M F3]; subst. destruct (Forall2_In_r _ _ _ _ F3 I) as [[s' es'] [I' M']].
      destruct M as [A1 [A2 A3]], M' as [B1 [B2 B3]]. cbn [fst snd] in *. subst.
      assert (Ia : In (s', es) (moves models (all_states models))) by (rewrite EP; apply in_or_app; right; left; reflexivity).
      assert (Ib : In (s', es') (moves models (all_states models))) by (rewrite EP; apply in_or_app; right; right; exact I').
      apply moves_In in Ia, Ib; try (intro s0; apply all_states_length). destruct Ia as [_ Ja], Ib as [_ Jb].
      assert (X : es = es'). { apply (lonely_joint models s' es es' Lo Ja Jb); [exact B2|]. apply (joint_label_nil es []); [|reflexivity]. exact (proj2 (move_label _ _ _ _ W Ja A3)). }
      subst es'. pose proof (moves_NoDup models (all_states models) W (all_states_NoDup models W)) as ND. rewrite EP in ND.
      apply NoDup_remove_2 in ND. apply ND, in_or_app. right. exact I'.
    - match goal with |- context [fold_res ?f ?l ?g] => assert (X : fold_res f l g = Ok g3) end.
      { apply fold_moves. exists L. split; [exact F|exact H3]. }
      rewrite X. cbn [bind]. eauto.
  Qed.

  (** ** Probabilities *)
  (** At most one transition between two states with one action. *)
  Definition simple m : Prop := NoDup (map (fun e => (e_src e, value "action" e, e_dst e)) (g_edges (m_ts m))).
  Lemma simple_eq m e e' : simple m -> In e (g_edges (m_ts m)) -> In e' (g_edges (m_ts m)) ->
    e_src e = e_src e' -> e_dst e = e_dst e' -> value "action" e = value "action" e' -> e = e'.
  Proof.
    unfold simple. intros S I I' A B C. revert S I I'. induction (g_edges (m_ts m)) as [|x l IH]; intros S I I'; [destruct I|].
    cbn [map] in S. inversion S as [|? ? NI ND]; subst.
    destruct I as [->|I], I' as [->|I']; [reflexivity| | |auto].
    - exfalso. apply NI. apply in_map_iff. exists e'. rewrite A, B, C. auto.
    - exfalso. apply NI. apply in_map_iff. exists e. rewrite A, B, C. auto.
  Qed.

  Lemma set_item_new {V} k (v : V) d : ~ In k (map fst d) -> set_item k v d = d ++ [(k, v)].
  Proof.
    induction d as [|[k' w] d IH]; intro NI; cbn [set_item app]; [reflexivity|]. destruct (k =? k')%string eqn:E.
    - apply String.eqb_eq in E. exfalso. apply NI. left. auto.
    - rewrite IH; [reflexivity|]. intro I. apply NI. right. exact I.
  Qed.
  Lemma update_new {V} (d1 d : attrs V) : NoDup (map fst (d1 ++ d)) -> update d1 d = d1 ++ d.
  Proof.
    unfold update. revert d1. induction d as [|[k v] d IH]; intros d1 ND; cbn [fold_left]; [rewrite app_nil_r; reflexivity|]. cbn [fst snd].
    rewrite set_item_new.
    - rewrite IH; [rewrite <- app_assoc; reflexivity|]. rewrite <- app_assoc. exact ND.
    - rewrite map_app in ND. cbn [map fst] in ND. apply NoDup_remove_2 in ND. intro I. apply ND, in_or_app. left. exact I.
  Qed.
  Definition strip {M} (e : edge M val) : M * attrs val * M := (e_src e, e_attr e, e_dst e).
  Section Fresh.
    Context {M : Type} (meqb : M -> M -> bool) (meqb_eq : forall a b, meqb a b = true <-> a = b) (c : config val) (nd : c_edge_defaults c = []).
    Lemma add_edge_fresh u v d (g g' : graph M val) : wf c g -> NoDup (map fst d) ->
      (forall e : edge M val, In e (g_edges g) -> e_src e = u -> e_dst e = v -> ~ same_items (e_attr e) d) ->
      add_edge meqb val_eqb c u v None d true g = Ok g' -> map strip (g_edges g') = map strip (g_edges g) ++ [(u, d, v)].
    Proof.
      intros W ND D H. apply (add_edge_Ok meqb val_eqb meqb_eq) in H. destruct H as [_ [_ [_ [t [T [[-> [e [I E]]]|[_ [_ ->]]]]]]]].
      - exfalso. apply (edges_between_In meqb meqb_eq) in I. destruct I as [I [A B]]. apply (D e I A B).
        exact (proj1 (dict_eqb_spec val_eqb val_eqb_eq _ _ (proj1 (wf_edge_attr c g W e I)) ND) E).
      - cbn [g_edges]. apply typed_attr_Ok in T. destruct T as [-> _]. rewrite nd. change (update [] []) with (@nil (string * val)).
        rewrite (update_new [] d) by exact ND. cbn [app]. rewrite (nx_set_edge_new meqb meqb_eq).
        + rewrite map_app. reflexivity.
        + intros e I A B. destruct (edges_between meqb u v g) eqn:Eb.
          * assert (J : In e (edges_between meqb u v g)) by (apply (edges_between_In meqb meqb_eq); auto). rewrite Eb in J. destruct J.
          * apply (new_edge_key_fresh meqb meqb_eq u v g e I A B).
    Qed.
    Lemma add_edges_fresh L (g g' : graph M val) : wf c g -> (forall x, In x L -> NoDup (map fst (snd (fst x)))) ->
      (forall (e : edge M val) u d v, In e (g_edges g) -> In (u, d, v) L -> e_src e = u -> e_dst e = v -> ~ same_items (e_attr e) d) ->
      (forall l1 u d v l2 d', L = l1 ++ (u, d, v) :: l2 -> In (u, d', v) l1 -> ~ same_items d' d) ->
      fold_res (add_trans meqb val_eqb c true) L g = Ok g' -> map strip (g_edges g') = map strip (g_edges g) ++ L.
    Proof.
      intros W ND D0 D H.
      enough (X : wf c g' /\ map strip (g_edges g') = map strip (g_edges g) ++ L) by exact (proj2 X).
      apply (fold_res_inv (add_trans meqb val_eqb c true) (fun l1 g1 => wf c g1 /\ map strip (g_edges g1) = map strip (g_edges g) ++ l1) L g g'); [| |exact H].
      - rewrite app_nil_r. auto.
      - intros l1 [[u d] v] l2 g1 g2 EL [W1 S] F. unfold add_trans in F. cbn [fst snd] in F.
        assert (IL : In (u, d, v) L) by (rewrite EL; apply in_or_app; right; left; reflexivity).
        split; [exact (wf_add_edge meqb val_eqb meqb_eq c _ _ _ _ _ _ _ W1 F)|]. etransitivity; [apply (add_edge_fresh u v d g1); auto| rewrite S; symmetry; apply app_assoc].
        + apply (ND (u, d, v) IL).
        + intros e I A B Sm. apply (in_map strip) in I. rewrite S in I. apply in_app_iff in I. assert (Es : strip e = (u, e_attr e, v)) by (unfold strip; rewrite A, B; reflexivity). rewrite Es in I. destruct I as [I|I].
          * apply in_map_iff in I. destruct I as [e' [E I]]. injection E as E1 E2 E3. rewrite <- E2 in Sm. exact (D0 e' u d v I IL E1 E3 Sm).
          * exact (D l1 u d v l2 (e_attr e) EL I Sm).
    Qed.
  End Fresh.

  Lemma joint_action_inj l l' : Forall2 (fun a b => a = VNone <-> b = VNone) l l' -> joint_action l = joint_action l' -> l = l'.
  Proof.
    intro F. assert (Len : List.length (present l) = List.length (present l')).
    { induction F as [|a b l l' H F IH]; [reflexivity|]. unfold present in *. cbn [filter].
      destruct a, b; cbn [is_not_none]; try (exfalso; destruct H as [H1 H2]; (try discriminate (H1 eq_refl)); discriminate (H2 eq_refl)); cbn [List.length]; auto. }
    intro E. assert (P : present l = present l').
    { unfold joint_action in E. destruct (present l) as [|x [|y r]], (present l') as [|x' [|y' r']]; try discriminate; try reflexivity; congruence. }
    clear E Len. induction F as [|a b l l' H F IH]; [reflexivity|]. unfold present in *. cbn [filter] in P.
    assert (C : is_not_none a = is_not_none b).
    { destruct a, b; cbn; try reflexivity; destruct H as [H1 H2]; (try discriminate (H1 eq_refl)); discriminate (H2 eq_refl). }
    rewrite <- C in P. destruct (is_not_none a) eqn:X.
    - injection P as -> P. f_equal. auto.
    - f_equal; auto. destruct a; try discriminate. symmetry. apply H. reflexivity.
  Qed.
  Definition pattern models (l : list val) : Prop := Forall2 (fun m a => m_kind m = MDP <-> a <> VNone) models l.
  Lemma joint_pattern models s es : Forall wf_model models -> Forall acts models -> joint models s es -> pattern models (map (value "action") es).
  Proof.
    intros W A J. induction J as [|m ms x xs e es I E J IH]; cbn [map]; constructor; [|exact (IH (Forall_inv_tail W) (Forall_inv_tail A))].
    unfold value. split.
    - intro K. destruct (Forall_inv A K e I) as [a [L NN]]. rewrite L. exact NN.
    - destruct (lookup "action" (e_attr e)) as [a|] eqn:L; [|congruence]. intros _. pose proof (Forall_inv W) as Wm.
      exact (proj1 (typed_action _ _ _ _ (wm_good m e Wm I) (wm_typed m Wm e I) L)).
  Qed.
  Lemma pattern_same models l l' : pattern models l -> pattern models l' -> Forall2 (fun a b => a = VNone <-> b = VNone) l l'.
  Proof.
    intro P. revert l'. induction P as [|m a ms l H P IH]; intros l' P'; inversion P' as [|? b ? l2 H' P2]; subst; constructor; [|apply IH, P2].
    destruct a, b; split; intro X; try reflexivity; try discriminate; exfalso.
    all: destruct H as [H1 H2], H' as [H3 H4].
    all: try (assert (Y : m_kind m = MDP) by (apply H2; discriminate); apply (H3 Y); reflexivity).
    all: try (assert (Y : m_kind m = MDP) by (apply H4; discriminate); apply (H1 Y); reflexivity).
  Qed.
  Lemma joint_same models s es es' : Forall simple models -> joint models s es -> joint models s es' ->
    map e_dst es = map e_dst es' -> map (value "action") es = map (value "action") es' -> es = es'.
  Proof.
    intros S J. revert es'. induction J as [|m ms x xs e es I E J IH]; intros es' J' D V; inversion J' as [|? ? ? ? e' es2 I' E' J2]; subst; [reflexivity|].
    cbn [map] in D, V. injection D as D1 D2. injection V as V1 V2. f_equal; [|apply IH; auto; exact (Forall_inv_tail S)].
    apply (simple_eq m); auto. exact (Forall_inv S).
  Qed.
  (** The action and the probability of a joint transition. *)
  Definition act_of (d : attrs val) : val := match lookup "action" d with Some v => v | None => VNone end.
  Definition weight_of (d : attrs val) : Qc := match lookup "probability" d with Some (VNum q) => q | _ => 1%Qc end.
  Lemma label_action models s es d : Forall wf_model models -> Forall acts models -> joint models s es -> joint_label es d ->
    act_of d = joint_action (map (value "action") es).
  Proof.
    intros W A J JL. destruct (JL "action") as [Z B]. unfold act_of, joint_action. destruct (lookup "action" d) as [v|] eqn:L.
    - destruct (B v eq_refl) as [_ [_ [T _]]]. destruct (T eq_refl) as [P|[P ->]]; [rewrite P; reflexivity|].
      destruct (present (map (value "action") es)) as [|x [|y r]] eqn:Pr; [|cbn in P; congruence|reflexivity]. exfalso.
      enough (Q : Some (VTup []) = @None val) by discriminate. apply Z. intros e I.
      destruct (lookup "action" (e_attr e)) as [a|] eqn:La; [|reflexivity]. exfalso.
      destruct (joint_In _ _ _ _ J I) as [m [Im Ig]]. rewrite Forall_forall in W, A.
      pose proof (proj1 (typed_action _ _ _ _ (wm_good m e (W m Im) Ig) (wm_typed m (W m Im) e Ig) La)) as K.
      destruct (A m Im K e Ig) as [a' [La' NN]]. rewrite La in La'. injection La' as <-.
      assert (X : In a (present (map (value "action") es))).
      { apply filter_In. split; [apply in_map_iff; exists e; unfold value; rewrite La; auto|]. destruct a; try reflexivity. congruence. }
      rewrite Pr in X. destruct X.
    - replace (present (map (value "action") es)) with (@nil val); [reflexivity|]. pose proof (proj1 Z eq_refl) as Q. clear - Q.
      induction es as [|e es IH]; [reflexivity|]. unfold present. cbn [map filter]. unfold value at 1. rewrite (Q e (or_introl eq_refl)). cbn [is_not_none].
      apply IH. intros; apply Q; right; assumption.
  Qed.
  Lemma label_weight es d : numeric "probability" es -> joint_label es d -> weight_of d = prodq (map weight es).
  Proof.
    intros HN JL. destruct (JL "probability") as [Z B]. unfold weight_of. destruct (lookup "probability" d) as [v|] eqn:L.
    - destruct (B v eq_refl) as [P _]. destruct (P eq_refl) as [qs [Pr ->]]. clear - HN Pr. revert qs Pr.
      induction es as [|e es IH]; intros qs Pr; [destruct qs; [reflexivity|discriminate]|]. unfold present in *. cbn [map filter] in Pr |- *. rewrite prodq_cons.
      assert (HN' : numeric "probability" es) by (intros e' v' I' L'; apply (HN e' v'); [right; exact I'|exact L']).
      assert (X : value "probability" e = match lookup "probability" (e_attr e) with Some v => v | None => VNone end) by reflexivity.
      assert (Y : weight e = match lookup "probability" (e_attr e) with Some (VNum q) => q | _ => 1%Qc end) by reflexivity.
      destruct (lookup "probability" (e_attr e)) as [w|] eqn:L.
      + destruct (HN e w (or_introl eq_refl) L) as [q ->]. rewrite X in Pr. cbn [is_not_none] in Pr. destruct qs as [|q' qs]; [discriminate|].
        cbn [map] in Pr. injection Pr as -> Pr. rewrite Y, prodq_cons. f_equal. exact (IH HN' qs Pr).
      + rewrite X in Pr. cbn [is_not_none] in Pr. rewrite Y, Qcmult_1_l. exact (IH HN' qs Pr).
    - pose proof (proj1 Z eq_refl) as Q. clear - Q. induction es as [|e es IH]; cbn [map]; [reflexivity|]. rewrite prodq_cons.
      assert (Y : weight e = 1%Qc) by (unfold weight; rewrite (Q e (or_introl eq_refl)); reflexivity). rewrite Y, Qcmult_1_l.
      apply IH. intros; apply Q; right; assumption.
  Qed.

  Lemma sum_pointwise {A B} (p : A -> bool) (w : A -> Qc) (p' : B -> bool) (w' : B -> Qc) l l' :
    Forall2 (fun x y => p x = p' y /\ (p x = true -> w x = w' y)) l l' -> sumq (map w (filter p l)) = sumq (map w' (filter p' l')).
  Proof.
    induction 1 as [|x y l l' [E Wt] F IH]; cbn [filter]; [reflexivity|]. rewrite <- E. destruct (p x); [|exact IH].
    cbn [map]. rewrite !sumq_cons, IH, Wt by reflexivity. reflexivity.
  Qed.
  Lemma filter_one {A B} (p : A -> B -> bool) (h : A -> list B) (eqb : A -> A -> bool) (eqb_eq : forall a b, eqb a b = true <-> a = b) l s :
    NoDup l -> In s l -> filter (fun x => eqb (fst x) s && p (fst x) (snd x)) (flat_map (fun a => map (pair a) (h a)) l) = map (pair s) (filter (p s) (h s)).
  Proof.
    intros ND I. induction ND as [|a l NI ND IH]; [destruct I|]. cbn [flat_map]. rewrite filter_app, filter_map. cbn [fst snd].
    destruct (eqb a s) eqn:E.
    - apply eqb_eq in E. subst a. cbn [andb]. replace (filter _ (flat_map _ l)) with (@nil (A * B)); [rewrite app_nil_r; reflexivity|].
      symmetry. clear IH I ND. induction l as [|b l IH]; [reflexivity|]. cbn [flat_map]. rewrite filter_app, filter_map. cbn [fst].
      destruct (eqb b s) eqn:E; [apply eqb_eq in E; exfalso; apply NI; left; exact E|]. cbn [andb].
      rewrite IH by (intro; apply NI; right; assumption). rewrite app_nil_r. clear. induction (h b); cbn; auto.
    - cbn [andb]. destruct I as [->|I]; [rewrite (proj2 (eqb_eq s s) eq_refl) in E; discriminate|]. rewrite (IH I).
      replace (filter (fun _ => false) (h a)) with (@nil B); [reflexivity|]. clear. induction (h a); cbn; auto.
  Qed.
  Lemma masses_outs models s l : List.length s = List.length models -> List.length l = List.length models ->
    map (fun x => sumq (map weight x)) (filters (fun a e => val_eqb (value "action" e) a) l (outs models s)) = masses neqb models s l.
  Proof.
    revert s l. induction models as [|m models IH]; intros [|x s] [|a l] L1 L2; try discriminate; [reflexivity|]. cbn [outs filters map masses].
    injection L1 as L1. injection L2 as L2. rewrite (IH s l L1 L2). f_equal. unfold mass, outs1. f_equal. f_equal.
    induction (g_edges (m_ts m)) as [|e r IHr]; [reflexivity|]. cbn [filter]. unfold leaves at 1.
    destruct (neqb (e_src e) x); cbn [filter andb]; [destruct (val_eqb _ a)|]; rewrite IHr; reflexivity.
  Qed.
  Lemma outs_length models s : List.length s = List.length models -> List.length (outs models s) = List.length models.
  Proof. revert s. induction models as [|m models IH]; intros [|x s] L; try discriminate; [reflexivity|]. cbn. f_equal. apply IH. cbn in L. congruence. Qed.

  (** C34, probabilities: if the factors have at most one transition between two states per
      action, the probability of leaving a state with a joint action is the product of the
      probabilities of the factors. *)
  Theorem synchronous_parallel_mass models ts s l : Forall wf_model models -> Forall acts models -> Forall simple models ->
    synchronous_parallel neqb [] models = Ok ts -> In s (node_list (m_ts ts)) -> pattern models l ->
    mass (leqb neqb) (m_ts ts) s (joint_action l) = prodq (masses neqb models s l).
  Proof.
    intros W A S H Is Pt. pose proof (synchronous_parallel_spec models ts W H) as [Sp _]. apply Sp in Is. clear Sp.
    pose proof (proj2 (all_states_In models s) Is) as Ia. pose proof (all_states_length models s Ia) as Len.
    destruct (parallel_Ok [] models ts W H) as [NE [k [i [g [L [K [-> [NDi [_ [F Fo]]]]]]]]]]. cbn [m_ts].
    destruct (moves_spec _ _ _ F) as [M1 _].
    assert (Fj : Forall2 (fun x y => joint models (fst x) (snd x) /\ fst (fst y) = fst x /\ snd y = map e_dst (snd x) /\ NoDup (map fst (snd (fst y))) /\ joint_label (snd x) (snd (fst y)))
                   (moves models (all_states models)) L).
    { assert (X : forall x, In x (moves models (all_states models)) -> joint models (fst x) (snd x)).
      { intros [s0 es] I. apply moves_In in I; [exact (proj2 I)|intro s1; apply all_states_length]. }
      clear - F X W. induction F as [|x y P L [B1 [B2 B3]] F IH]; constructor; [|apply IH; intros; apply X; right; assumption].
      pose proof (X x (or_introl eq_refl)) as J. destruct (move_label _ _ _ _ W J B3) as [ND JL]. auto. }
    assert (St : map strip (g_edges g) = L).
    { change L with (map strip (g_edges (base_graph models i)) ++ L). apply (add_edges_fresh (leqb neqb) leqb_eq (ec k (composed_actions k models)) eq_refl L (base_graph models i) g); [apply base_wf; auto| |intros e0 ? ? ? []| |exact Fo].
      - intros [[u d] v] I. cbn [fst snd]. destruct (M1 u d v I) as [es [J [_ D]]]. exact (proj1 (move_label _ _ _ _ W J D)).
      - intros l1 u d v l2 d' E I Sm. rewrite E in Fj. apply Forall2_app_inv_r in Fj. destruct Fj as [p1 [p2 [F1 [F2 EP]]]].
        inversion F2 as [|[s1 es1] ? p3 ? [J1 [B1 [B2 [_ B3]]]] _]; subst. destruct (Forall2_In_r _ _ _ _ F1 I) as [[s2 es2] [I2 [J2 [C1 [C2 [_ C3]]]]]].
        cbn [fst snd] in *. subst s1 s2.
        assert (X : es2 = es1).
        { apply (joint_same models u es2 es1 S J2 J1); [congruence|]. apply joint_action_inj.
          - apply (pattern_same models); eapply joint_pattern; eauto.
          - rewrite <- (label_action models u es2 d' W A J2 C3), <- (label_action models u es1 d W A J1 B3). unfold act_of. rewrite (Sm "action"). reflexivity. }
        subst es2. pose proof (moves_NoDup models (all_states models) W (all_states_NoDup models W)) as ND. rewrite EP in ND.
        apply NoDup_remove_2 in ND. apply ND, in_or_app. left. exact I2. }
    assert (E1 : mass (leqb neqb) g s (joint_action l) = sumq (map (fun y => weight_of (snd (fst y))) (filter (fun y => leqb neqb (fst (fst y)) s && val_eqb (act_of (snd (fst y))) (joint_action l)) L))).
    { rewrite <- St. unfold mass. rewrite filter_map, map_map. reflexivity. }
    rewrite E1. clear E1.
    rewrite <- (sum_pointwise (fun x => leqb neqb (fst x) s && all2 (fun a e => val_eqb (value "action" e) a) l (snd x)) (fun x => prodq (map weight (snd x)))
       (fun y => leqb neqb (fst (fst y)) s && val_eqb (act_of (snd (fst y))) (joint_action l)) (fun y => weight_of (snd (fst y))) (moves models (all_states models)) L).
    - unfold moves. rewrite (filter_one (fun _ es => all2 (fun a e => val_eqb (value "action" e) a) l es) (fun s0 => product (outs models s0)) (leqb neqb) leqb_eq (all_states models) s); [|apply all_states_NoDup, W|exact Ia].
      rewrite map_map. cbn [snd]. pose proof (Forall2_length' _ _ _ Pt) as Ll.
      rewrite filter_product by (rewrite outs_length; auto). rewrite sum_product, masses_outs; auto.
    - clear - Fj Pt W A neqb_eq. induction Fj as [|[s1 es] [[u d] v] P L [J [B1 [B2 [_ B3]]]] F IH]; constructor; [|exact IH]. cbn [fst snd] in *. subst u. split.
      + f_equal. rewrite (label_action models s1 es d W A J B3).
        destruct (all2 _ l es) eqn:E.
        * symmetry. apply val_eqb_eq. f_equal. apply all2_Forall2 in E. clear - E. induction E as [|a e l es H E IH]; cbn [map]; [reflexivity|].
          apply val_eqb_eq in H. congruence.
        * symmetry. destruct (val_eqb _ _) eqn:V; [|reflexivity]. apply val_eqb_eq in V. apply joint_action_inj in V; [|apply (pattern_same models); [eapply joint_pattern; eauto|exact Pt]].
          exfalso. enough (X : all2 (fun a e => val_eqb (value "action" e) a) l es = true) by congruence. subst l. clear.
          apply all2_Forall2. induction es as [|e es IH]; cbn [map]; constructor; [apply val_eqb_eq; reflexivity|exact IH].
      + intros _. symmetry. apply label_weight; [eapply joint_numeric; eauto|exact B3].
  Qed.

  (** If in every factor the probabilities of each available action sum to one, they do in the
      composition. *)
  Theorem synchronous_parallel_stochastic models ts : Forall wf_model models -> Forall acts models -> Forall simple models ->
    Forall (fun m => stochastic neqb (m_ts m)) models -> synchronous_parallel neqb [] models = Ok ts -> stochastic (leqb neqb) (m_ts ts).
  Proof.
    intros W A S St H e I. destruct (synchronous_parallel_spec models ts W H) as [_ [_ [_ [Tr Wt]]]].
    destruct (proj1 (Tr (e_src e) (e_attr e) (e_dst e))) as [es [J [_ JL]]]. { exists e. repeat split; auto. }
    assert (V : value "action" e = joint_action (map (value "action") es)) by exact (label_action models _ _ _ W A J JL).
    rewrite V, (synchronous_parallel_mass models ts (e_src e) (map (value "action") es) W A S H).
    - clear - J St. induction J as [|m ms x xs e0 es I E J IH]; [reflexivity|]. cbn [map masses]. rewrite prodq_cons, (IH (Forall_inv_tail St)).
      subst x. rewrite (Forall_inv St e0 I). ring.
    - exact (proj1 (wf_ends _ _ (wm_wf ts Wt) e I)).
    - eapply joint_pattern; eauto.
  Qed.
End Build.

(** ** Policies *)
Section Policy.
  Context {N : Type} (neqb : N -> N -> bool).
  Hypothesis neqb_eq : forall a b, neqb a b = true <-> a = b.
  Context (policy : N -> res val) (m : model N).
  Hypothesis W : wf_model m.
  Notation c := (ec MC []).

  Lemma add_nodes_base k ap (l : list N) : NoDup l ->
    fold_res (fun n => add_node neqb (model_config k ap []) n [] true) l empty_graph = Ok (Graph (map (fun n => (n, [("ap", VSet [])])) l) [] []).
  Proof.
    enough (G : forall l2 l1, NoDup (l1 ++ l2) ->
      fold_res (fun n => add_node neqb (model_config k ap []) n [] true) l2 (Graph (map (fun n => (n, [("ap", VSet [])])) l1) [] []) = Ok (Graph (map (fun n => (n, [("ap", VSet [])])) (l1 ++ l2)) [] [])).
    { intro ND. exact (G l [] ND). }
    induction l2 as [|n l2 IH]; intros l1 ND; cbn [fold_res]; [rewrite app_nil_r; reflexivity|].
    assert (X : add_node neqb (model_config k ap []) n [] true (Graph (map (fun n => (n, [("ap", VSet [])])) l1) [] []) = Ok (Graph (map (fun n => (n, [("ap", VSet [])])) (l1 ++ [n])) [] [])).
    { unfold add_node. cbn [model_config c_node_types c_node_defaults].
      change (typed_attr [("ap", Some (in_powerset ap))] [("ap", VSet [])] []) with (Ok [("ap", VSet [])]). cbn [bind].
      change (check_untyped [("ap", VSet [])] [("ap", Some (in_powerset ap))] true) with (Ok tt). cbn [bind g_nodes g_edges g_init]. f_equal. f_equal.
      apply NoDup_remove_2 in ND. assert (NI : ~ In n l1) by (intro I; apply ND, in_or_app; left; exact I). clear - NI neqb_eq.
      induction l1 as [|x l1 IH]; [reflexivity|]. cbn [map nx_add_node app]. destruct (neqb n x) eqn:E; [apply neqb_eq in E; exfalso; apply NI; left; auto|].
      rewrite IH; [reflexivity|]. intro I. apply NI. right. exact I. }
    rewrite X. cbn [bind]. replace (l1 ++ n :: l2) with ((l1 ++ [n]) ++ l2) by (rewrite <- app_assoc; reflexivity). apply IH. rewrite <- app_assoc. exact ND.
  Qed.

  Definition chosen (a : val) (e : edge N val) : bool := match lookup "action" (e_attr e) with Some b => val_eqb b a | None => false end.
  Definition resolved (e : edge N val) : N * attrs val * N := (e_src e, del_item "action" (e_attr e), e_dst e).
  Lemma policy_fold a ts (g : graph N val) g' : fold_res (policy_transition neqb c a) ts g = Ok g' <->
    (forall e, In e ts -> exists b, lookup "action" (e_attr e) = Some b) /\
    fold_res (add_trans neqb val_eqb c true) (map resolved (filter (chosen a) ts)) g = Ok g'.
  Proof.
    revert g. induction ts as [|e ts IH]; intro g; cbn [fold_res filter map]; [split; [intro H; split; [intros e []|exact H]|tauto]|].
    unfold policy_transition at 1. unfold chosen at 1. destruct (lookup "action" (e_attr e)) as [b|] eqn:L.
    - assert (X : forall Q : Prop, ((forall e0, In e0 (e :: ts) -> exists b0, lookup "action" (e_attr e0) = Some b0) /\ Q) <-> ((forall e0, In e0 ts -> exists b0, lookup "action" (e_attr e0) = Some b0) /\ Q)).
      { intro Q. split; intros [A B]; (split; [|exact B]). - intros e0 I. apply A. right. exact I. - intros e0 [<-|I]; eauto. }
      rewrite X. clear X. destruct (val_eqb b a).
      + cbn [map fold_res]. unfold add_trans at 1. cbn [resolved fst snd]. destruct (add_edge _ _ _ _ _ _ _ _ g) as [g1|]; cbn [bind]; [apply IH|].
        split; [discriminate|]. intros [_ Z]. discriminate.
      + cbn [bind]. apply IH.
    - cbn [bind]. split; [discriminate|]. intros [A _]. destruct (A e (or_introl eq_refl)) as [b Z]. congruence.
  Qed.

  Lemma set_ap_facts s v (g g' : graph N val) : wf c g -> set_ap neqb s v g = Ok g' ->
    wf c g' /\ node_list g' = node_list g /\ g_edges g' = g_edges g /\ g_init g' = g_init g /\
    (forall n a, In (n, a) (g_nodes g') -> exists a0, In (n, a0) (g_nodes g) /\ a = if neqb s n then set_item "ap" v a0 else a0).
  Proof.
    intros Wg H. unfold set_ap in H. destruct (has_node neqb s g) eqn:E; [|discriminate]. injection H as <-.
    assert (NL : node_list (Graph (map (fun na => if neqb s (fst na) then (fst na, set_item "ap" v (snd na)) else na) (g_nodes g)) (g_edges g) (g_init g)) = node_list g).
    { unfold node_list. cbn [g_nodes]. rewrite map_map. apply map_ext. intros [n a]. cbn [fst]. destruct (neqb s n); reflexivity. }
    assert (At : forall n a, In (n, a) (map (fun na => if neqb s (fst na) then (fst na, set_item "ap" v (snd na)) else na) (g_nodes g)) ->
       exists a0, In (n, a0) (g_nodes g) /\ a = if neqb s n then set_item "ap" v a0 else a0).
    { intros n a I. apply in_map_iff in I. destruct I as [[x b] [E1 I]]. cbn [fst snd] in E1. exists b.
      destruct (neqb s x) eqn:Z; injection E1 as <- <-; rewrite Z; auto. }
    split; [|auto]. destruct Wg as [A B C D F G]. split; rewrite ?NL; auto.
    intros n a I. destruct (At n a I) as [a0 [I0 ->]]. destruct (D n a0 I0) as [D1 D2]. split.
    - destruct (neqb s n); [apply nodup_set, D1|exact D1].
    - apply Forall_forall. intros kv _. reflexivity.
  Qed.
  (** Invariant of the loop over the states. *)
  Record policy_inv (l1 : list N) (g : graph N val) : Prop := {
    pi_wf : wf c g;
    pi_nodes : node_list g = node_list (m_ts m);
    pi_ap : forall n a, In (n, a) (g_nodes g) -> exists l, lookup "ap" a = Some (VSet l) /\ (In n l1 -> state_label (m_ts m) n l);
    pi_trans : forall s d t, trans g s d t <-> exists e a, In s l1 /\ In e (g_edges (m_ts m)) /\ e_src e = s /\ e_dst e = t /\
                 policy s = Ok a /\ lookup "action" (e_attr e) = Some a /\ same_items (del_item "action" (e_attr e)) d;
    pi_typed : forall e, In e (g_edges g) -> typed_keys (edge_types MC []) (e_attr e) }.
  Lemma del_keys (d : attrs val) k : NoDup (map fst d) -> NoDup (map fst (del_item k d)).
  Proof. apply nodup_filter. Qed.
  Lemma chosen_outs a s e : In e (filter (chosen a) (outs1 neqb m s)) <->
    In e (g_edges (m_ts m)) /\ e_src e = s /\ lookup "action" (e_attr e) = Some a.
  Proof.
    unfold outs1. rewrite !filter_In, neqb_eq. unfold chosen. destruct (lookup "action" (e_attr e)) as [b|]; [rewrite val_eqb_eq|]; split; intros H; try tauto.
    - destruct H as [[A B] ->]. auto.
    - destruct H as [A [B [= ->]]]. auto.
    - destruct H as [_ H]. discriminate.
    - destruct H as [_ [_ H]]. discriminate.
  Qed.
  Lemma policy_step l1 s g g' : policy_inv l1 g -> policy_state neqb c policy m s g = Ok g' ->
    policy_inv (l1 ++ [s]) g' /\ g_init g' = g_init g /\ (forall e, In e (g_edges (m_ts m)) -> e_src e = s -> exists b, lookup "action" (e_attr e) = Some b) /\
    exists a g1, policy s = Ok a /\ g_edges g1 = g_edges g /\ wf c g1 /\
      fold_res (add_trans neqb val_eqb c true) (map resolved (filter (chosen a) (outs1 neqb m s))) g1 = Ok g'.
  Proof.
    intros [Wg Ng Ag Tg Yg] H. unfold policy_state in H. apply bind_Ok in H. destruct H as [l [L H]]. apply bind_Ok in H. destruct H as [g1 [G1 H]].
    apply bind_Ok in H. destruct H as [a [Pa H]]. rewrite find_all in H. cbn [bind] in H. fold (outs1 neqb m s) in H.
    apply policy_fold in H. destruct H as [Ha H]. apply (label_of_spec neqb neqb_eq m s l W) in L.
    destruct (set_ap_facts _ _ _ _ Wg G1) as [W1 [N1 [E1 [I1 A1]]]].
    assert (ND : forall x, In x (map resolved (filter (chosen a) (outs1 neqb m s))) -> NoDup (map fst (snd (fst x)))).
    { intros x I. apply in_map_iff in I. destruct I as [e [<- I]]. apply chosen_outs in I. cbn [resolved fst snd]. apply del_keys, (wm_keys m e W), (proj1 I). }
    destruct (add_edges_trans neqb val_eqb neqb_eq val_eqb_eq c eq_refl true _ g1 g' W1 ND H) as [Gn [Gi [Gw [_ Gt]]]].
    split; [|split; [congruence|split]].
    - split; [exact Gw|transitivity (node_list g1); [unfold node_list; rewrite Gn; reflexivity|congruence]| | |].
      + intros n b I. rewrite Gn in I. destruct (A1 n b I) as [b0 [I0 ->]]. destruct (neqb s n) eqn:Z.
        * apply neqb_eq in Z. subst n. exists l. split; [rewrite lookup_set; reflexivity|]. intros _. exact L.
        * destruct (Ag n b0 I0) as [l0 [L0 K0]]. exists l0. split; [exact L0|]. intro In1. apply K0. apply in_app_iff in In1.
          destruct In1 as [In1|[->|[]]]; [exact In1|]. rewrite (proj2 (neqb_eq n n) eq_refl) in Z. discriminate.
      + intros u d v. rewrite Gt. assert (T1 : trans g1 u d v <-> trans g u d v) by (unfold trans; rewrite E1; reflexivity). rewrite T1, Tg. split.
        * intros [[e [b [I K]]]|[d' [I Sm]]].
          -- exists e, b. rewrite in_app_iff. tauto.
          -- apply in_map_iff in I. destruct I as [e [E I]]. injection E as <- <- <-. apply chosen_outs in I. destruct I as [I [Es La]].
             exists e, a. split; [apply in_or_app; right; left; symmetry; exact Es|]. rewrite Es. do 5 (split; [auto|]). exact Sm.
        * intros [e [b [I [Ie [Es [Ed [Pb [La Sm]]]]]]]]. apply in_app_iff in I. destruct I as [I|[->|[]]]; [left; exists e, b; auto 8|].
          right. exists (del_item "action" (e_attr e)). split; [|exact Sm]. apply in_map_iff. exists e. unfold resolved. rewrite Es, Ed. split; [reflexivity|].
          apply chosen_outs. rewrite Pb in Pa. injection Pa as ->. auto.
      + apply (fold_res_inv (add_trans neqb val_eqb c true) (fun _ g0 => forall e : edge N val, In e (g_edges g0) -> typed_keys (edge_types MC []) (e_attr e)) (map resolved (filter (chosen a) (outs1 neqb m s))) g1 g'); [rewrite E1; exact Yg| |exact H].
        intros p1 x p2 h1 h2 _ IH X. unfold add_trans in X. apply (add_edge_Ok neqb val_eqb neqb_eq) in X.
        destruct X as [_ [_ [_ [t [T [[-> _]|[_ [Ck ->]]]]]]]]; [exact IH|]. cbn [g_edges]. intros e I.
        apply (check_untyped_inv _ _) in Ck. apply (nx_set_edge_In neqb) in I; [|exact neqb_eq].
        destruct I as [I|[->|[b [I ->]]]]; [exact (IH e I)|exact Ck|]. cbn [e_attr].
        intros k' J. specialize (IH _ I). cbn [e_attr] in IH. destruct (in_dec string_dec k' (map fst t)) as [Y|Y]; [exact (Ck k' Y)|].
        apply IH. destruct (in_dec string_dec k' (map fst b)) as [Z|Z]; [exact Z|]. exfalso. apply lookup_None in Z, Y.
        enough (Q : lookup k' (update b t) = None) by (apply lookup_None in Q; contradiction).
        rewrite lookup_update. rewrite lookup_rev, Y, Z; [reflexivity|]. exact (typed_attr_keys _ _ _ _ T).
    - intros e I E. apply Ha. unfold outs1. apply filter_In. rewrite neqb_eq. auto.
    - exists a, g1. auto.
  Qed.
  Lemma base_policy i : NoDup i -> policy_inv [] (Graph (map (fun n => (n, [("ap", VSet [])])) (node_list (m_ts m))) [] i).
  Proof.
    intro ND. assert (NL : node_list (Graph (map (fun n => (n, [("ap", VSet [])])) (node_list (m_ts m))) [] i : graph N val) = node_list (m_ts m)).
    { unfold node_list at 1. cbn [g_nodes]. rewrite map_map. apply map_id. }
    assert (At : forall n a, In (n, a) (map (fun n => (n, [("ap", VSet [])])) (node_list (m_ts m))) -> a = [("ap", VSet [])]).
    { intros n a I. apply in_map_iff in I. destruct I as [x [[= _ <-] _]]. reflexivity. }
    split; [|exact NL| | |intros e []].
    - split; [rewrite NL; exact (wf_nodes _ _ (wm_wf m W))|intros e []|constructor| |intros e []|exact ND].
      intros n a I. rewrite (At n a I). split; [repeat constructor; auto|]. apply Forall_forall. reflexivity.
    - intros n a I. rewrite (At n a I). exists []. split; [reflexivity|intros []].
    - intros s d t. split; [intros [e [[] _]]|intros [e [a [[] _]]]].
  Qed.

  Lemma policy_Ok r : apply_policy neqb policy m = Ok r -> exists i, m_kind m = MDP /\ NoDup i /\ (forall s, In s i <-> In s (g_init (m_ts m))) /\
    fold_res (policy_state neqb c policy m) (node_list (m_ts m)) (Graph (map (fun n => (n, [("ap", VSet [])])) (node_list (m_ts m))) [] i) = Ok (m_ts r) /\
    r = Model MC (m_ap m) [] (m_ts r).
  Proof.
    unfold apply_policy. destruct (m_kind m); try discriminate. rewrite add_nodes_base by exact (wf_nodes _ _ (wm_wf m W)). cbn zeta. cbn [bind].
    intro H. apply bind_Ok in H. destruct H as [g2 [H2 H]]. apply bind_Ok in H. destruct H as [g3 [H3 H]]. injection H as <-. cbn [m_ts].
    destruct (proj1 (add_initials neqb val_eqb neqb_eq c (g_init (m_ts m)) _ (pi_wf _ _ (base_policy [] (NoDup_nil _)))) g2 H2) as [_ [W2 [N2 [E2 I2]]]].
    exists (g_init g2). split; [reflexivity|]. split; [exact (wf_init_nodup _ _ W2)|]. split; [intro s; rewrite I2; cbn; tauto|]. split; [|reflexivity].
    rewrite <- H3. f_equal. destruct g2. cbn in *. congruence.
  Qed.

  (** C35: the policy's Markov chain has the states, initial states and labels of the decision
      process and exactly the transitions of the chosen actions, without the action. *)
  Theorem apply_policy_spec r : apply_policy neqb policy m = Ok r ->
    m_kind r = MC /\ m_ap r = m_ap m /\ wf_model r /\
    node_list (m_ts r) = node_list (m_ts m) /\ (forall s, In s (g_init (m_ts r)) <-> In s (g_init (m_ts m))) /\
    (forall s l, state_label (m_ts r) s l <-> state_label (m_ts m) s l) /\
    (forall s d t, trans (m_ts r) s d t <-> exists e a, In e (g_edges (m_ts m)) /\ e_src e = s /\ e_dst e = t /\
       policy s = Ok a /\ lookup "action" (e_attr e) = Some a /\ same_items (del_item "action" (e_attr e)) d) /\
    (forall s, In s (node_list (m_ts m)) -> exists a, policy s = Ok a) /\
    (forall e, In e (g_edges (m_ts m)) -> exists a, lookup "action" (e_attr e) = Some a).
  Proof.
    intro H. destruct (policy_Ok r H) as [i [Km [NDi [Ii [F ->]]]]]. cbn [m_kind m_ap m_ts].
    assert (X : policy_inv (node_list (m_ts m)) (m_ts r) /\ g_init (m_ts r) = i /\
      (forall s, In s (node_list (m_ts m)) -> (exists a, policy s = Ok a) /\ forall e, In e (g_edges (m_ts m)) -> e_src e = s -> exists b, lookup "action" (e_attr e) = Some b)).
    { apply (fold_res_inv (policy_state neqb c policy m) (fun l1 g => policy_inv l1 g /\ g_init g = i /\
        (forall s, In s l1 -> (exists a, policy s = Ok a) /\ forall e, In e (g_edges (m_ts m)) -> e_src e = s -> exists b, lookup "action" (e_attr e) = Some b))) in F; [exact F| |].
      - split; [apply base_policy, NDi|]. split; [reflexivity|intros s []].
      - intros l1 s l2 g1 g2 _ [P [Ig Q]] St. destruct (policy_step l1 s g1 g2 P St) as [P2 [I2 [A2 [a [_ [Pa _]]]]]]. split; [exact P2|]. split; [congruence|].
        intros s' J. apply in_app_iff in J. destruct J as [J|[<-|[]]]; [exact (Q s' J)|]. eauto. }
    destruct X as [[Wr Nr Ar Tr Yr] [Ir Q]].
    split; [reflexivity|]. split; [reflexivity|]. split; [|split; [exact Nr|split; [|split; [|split; [|split]]]]].
    - split; cbn [m_kind m_actions m_ts]; [exact Wr| | |exact Yr].
      + intros s a I. destruct (Ar s a I) as [l [L _]]. eauto.
      + intros s I. rewrite Ir in I. apply Ii in I. rewrite Nr. exact (wm_init m W s I).
    - intro s. rewrite Ir. apply Ii.
    - intros s l. split.
      + intros [a [I L]]. destruct (Ar s a I) as [l' [L' K]]. assert (l' = l) by congruence. subst l'. apply K.
        rewrite <- Nr. apply (in_map fst) in I. exact I.
      + intro SL. assert (Is : In s (node_list (m_ts r))). { rewrite Nr. destruct SL as [a [I _]]. apply (in_map fst) in I. exact I. }
        pose proof Is as Is2. apply in_map_iff in Is. destruct Is as [[x a] [E I]]. cbn [fst] in E. subst x. destruct (Ar s a I) as [l' [L' K]].
        rewrite Nr in Is2. specialize (K Is2). apply (label_of_spec neqb neqb_eq m s _ W) in SL, K. rewrite SL in K. injection K as <-. exists a. auto.
    - intros s d t. rewrite Tr. split; [intros [e [a [A B]]]; exists e, a; exact B|]. intros [e [a [A [B C]]]]. exists e, a. split; [|auto].
      rewrite <- B. exact (proj1 (wf_ends _ _ (wm_wf m W) e A)).
    - intros s I. exact (proj1 (Q s I)).
    - intros e I. apply (proj2 (Q (e_src e) (proj1 (wf_ends _ _ (wm_wf m W) e I))) e I eq_refl).
  Qed.

  (** The probabilities are those of the chosen actions, if no two transitions agree in ends
      and label, which [add_edge] sees to. *)
  Definition distinct : Prop := forall e e', In e (g_edges (m_ts m)) -> In e' (g_edges (m_ts m)) ->
    e_src e = e_src e' -> e_dst e = e_dst e' -> same_items (e_attr e) (e_attr e') -> e = e'.
  Definition picked (s : N) : list (N * attrs val * N) :=
    match policy s with Ok a => map resolved (filter (chosen a) (outs1 neqb m s)) | Err _ => [] end.
  Lemma NoDup_map_split {A B} (f : A -> B) (l : list A) l1 y l2 : map f l = l1 ++ y :: l2 ->
    exists p x q, l = p ++ x :: q /\ map f p = l1 /\ f x = y /\ map f q = l2.
  Proof.
    revert l1. induction l as [|a l IH]; intros [|b l1] E; cbn [map app] in E; try discriminate.
    - injection E as E1 E2. exists [], a, l. auto.
    - injection E as E1 E2. destruct (IH l1 E2) as [p [x [q [A1 [A2 [A3 A4]]]]]]. exists (a :: p), x, q. cbn. repeat split; try congruence.
  Qed.
  Lemma policy_strip r : distinct -> apply_policy neqb policy m = Ok r -> map strip (g_edges (m_ts r)) = flat_map picked (node_list (m_ts m)).
  Proof.
    intros D H. destruct (policy_Ok r H) as [i [_ [NDi [_ [F _]]]]].
    pose proof (wf_nodes _ _ (wm_wf m W)) as NDn.
    apply (fold_res_inv (policy_state neqb c policy m) (fun l1 g => policy_inv l1 g /\ map strip (g_edges g) = flat_map picked l1)) in F; [exact (proj2 F)| |].
    - split; [apply base_policy, NDi|reflexivity].
    - intros l1 s l2 g1 g2 EL [P S] St. destruct (policy_step l1 s g1 g2 P St) as [P2 [_ [_ [a [h [Pa [Eh [Wh Fh]]]]]]]]. split; [exact P2|].
      rewrite flat_map_app. cbn [flat_map]. rewrite app_nil_r. unfold picked at 2. rewrite Pa. rewrite <- S, <- Eh.
      apply (add_edges_fresh neqb neqb_eq c eq_refl _ h g2 Wh); [| | |exact Fh].
      + intros x I. apply in_map_iff in I. destruct I as [e [<- I]]. apply chosen_outs in I. cbn [resolved fst snd]. apply del_keys, (wm_keys m e W), (proj1 I).
      + intros e u d v I J Eu _ _. apply in_map_iff in J. destruct J as [e' [[= <- <- <-] J]]. apply chosen_outs in J. destruct J as [_ [Es _]].
        rewrite Eh in I. apply (in_map strip) in I. rewrite S in I. apply in_flat_map in I. destruct I as [s' [Is I]]. unfold picked in I.
        destruct (policy s') as [a'|]; [|destruct I]. apply in_map_iff in I. destruct I as [e2 [E2 I2]]. apply chosen_outs in I2.
        assert (X : s' = s). { injection E2 as E2 _ _. destruct I2 as [_ [I2 _]]. congruence. } subst s'.
        rewrite EL in NDn. apply NoDup_remove_2 in NDn. apply NDn, in_or_app. left. exact Is.
      + intros q1 u d v q2 d' E I Sm. apply NoDup_map_split in E. destruct E as [p [e [q [Eq [Ep [Ee _]]]]]]. rewrite <- Ep in I. apply in_map_iff in I.
        destruct I as [e' [E' I']]. unfold resolved in Ee, E'. injection Ee as Eu Ed Ev. injection E' as Eu' Ed' Ev'.
        assert (J : In e (filter (chosen a) (outs1 neqb m s))) by (rewrite Eq; apply in_or_app; right; left; reflexivity).
        assert (J' : In e' (filter (chosen a) (outs1 neqb m s))) by (rewrite Eq; apply in_or_app; left; exact I').
        apply chosen_outs in J, J'. destruct J as [J [_ La]], J' as [J' [_ La']].
        assert (X : e' = e).
        { apply D; try congruence. intro k. subst d d'. specialize (Sm k). rewrite !lookup_del in Sm. destruct (k =? "action")%string eqn:K; [|exact Sm].
          apply String.eqb_eq in K. subst k. congruence. }
        subst e'. assert (ND : NoDup (filter (chosen a) (outs1 neqb m s))) by (apply NoDup_filter, NoDup_filter, edges_NoDup, W).
        rewrite Eq in ND. apply NoDup_remove_2 in ND. apply ND, in_or_app. left. exact I'.
  Qed.
  Theorem apply_policy_mass r s a : distinct -> apply_policy neqb policy m = Ok r -> In s (node_list (m_ts m)) -> policy s = Ok a ->
    mass neqb (m_ts r) s VNone = mass neqb (m_ts m) s a.
  Proof.
    intros D H Is Pa. pose proof (policy_strip r D H) as S. destruct (apply_policy_spec r H) as [_ [_ [_ [_ [_ [_ [_ [_ HA]]]]]]]].
    set (p := fun y : N * attrs val * N => neqb (fst (fst y)) s && val_eqb (act_of (snd (fst y))) VNone).
    assert (E1 : mass neqb (m_ts r) s VNone = sumq (map (fun y => weight_of (snd (fst y))) (filter p (map strip (g_edges (m_ts r)))))).
    { unfold mass. rewrite filter_map, map_map. reflexivity. }
    assert (Pk : forall t y, In y (picked t) -> fst (fst y) = t /\ act_of (snd (fst y)) = VNone).
    { intros t y I. unfold picked in I. destruct (policy t) as [b|]; [|destruct I]. apply in_map_iff in I. destruct I as [e [<- I]].
      apply chosen_outs in I. cbn [resolved fst snd]. split; [exact (proj1 (proj2 I))|]. unfold act_of. rewrite lookup_del. reflexivity. }
    assert (E2 : filter p (flat_map picked (node_list (m_ts m))) = picked s).
    { pose proof (wf_nodes _ _ (wm_wf m W)) as ND. fold (node_list (m_ts m)) in ND. clear S H HA E1. revert Is ND. generalize (node_list (m_ts m)).
      intros l Is ND. induction ND as [|t l NI ND IH]; [destruct Is|]. cbn [flat_map]. rewrite filter_app.
      assert (Fs : forall t0, t0 = s -> filter p (picked t0) = picked t0).
      { intros t0 ->. pose proof (Pk s) as Q. clear - Q neqb_eq. induction (picked s) as [|y r IH]; [reflexivity|]. cbn [filter]. destruct (Q y (or_introl eq_refl)) as [A B].
        unfold p at 1. rewrite A, B, (proj2 (neqb_eq s s) eq_refl). cbn. f_equal. apply IH. intros; apply Q; right; assumption. }
      assert (Fn : forall t0, t0 <> s -> filter p (picked t0) = []).
      { intros t0 NE. pose proof (Pk t0) as Q. clear - Q neqb_eq NE. induction (picked t0) as [|y r IH]; [reflexivity|]. cbn [filter]. destruct (Q y (or_introl eq_refl)) as [A B].
        unfold p at 1. rewrite A. replace (neqb t0 s) with false; [cbn [andb]; apply IH; intros; apply Q; right; assumption|].
        symmetry. apply (neqb_neq neqb neqb_eq). exact NE. }
      destruct Is as [->|Is].
      - rewrite (Fs s eq_refl). replace (filter p (flat_map picked l)) with (@nil (N * attrs val * N)); [apply app_nil_r|].
        symmetry. clear - NI Fn. induction l as [|t l IH]; [reflexivity|]. cbn [flat_map]. rewrite filter_app, Fn, IH; [reflexivity| |].
        + intro I. apply NI. right. exact I.
        + intros ->. apply NI. left. reflexivity.
      - rewrite Fn, (IH Is); [reflexivity|]. intros ->. exact (NI Is). }
    rewrite E1, S, E2. unfold picked, mass. rewrite Pa, map_map. f_equal. unfold outs1.
    assert (G : forall l, (forall e, In e l -> exists b, lookup "action" (e_attr e) = Some b) ->
      map (fun e => weight_of (snd (fst (resolved e)))) (filter (chosen a) (filter (fun e => neqb (e_src e) s) l)) = map weight (filter (leaves neqb s a) l)).
    { induction l as [|e l IH]; intro HL; [reflexivity|]. cbn [filter]. unfold leaves at 1.
      specialize (IH (fun e0 I0 => HL e0 (or_intror I0))). destruct (neqb (e_src e) s); cbn [andb filter]; [|exact IH].
      destruct (HL e (or_introl eq_refl)) as [b Lb]. unfold chosen at 1. unfold value. rewrite Lb. destruct (val_eqb b a); [|exact IH].
      cbn [map]. f_equal; [|exact IH]. unfold weight_of, weight, resolved. cbn [fst snd]. rewrite lookup_del. reflexivity. }
    apply G, HA.
  Qed.

  (** A policy for every state, an action and a probability on every transition: no
      exception. *)
  Theorem apply_policy_total : m_kind m = MDP -> (forall s, In s (node_list (m_ts m)) -> exists a, policy s = Ok a) ->
    (forall e, In e (g_edges (m_ts m)) -> lookup "action" (e_attr e) <> None /\ lookup "probability" (e_attr e) <> None) ->
    exists r, apply_policy neqb policy m = Ok r.
  Proof.
    intros K HP HE. unfold apply_policy. rewrite K, add_nodes_base by exact (wf_nodes _ _ (wm_wf m W)). cbn zeta. cbn [bind].
    destruct (add_initials neqb val_eqb neqb_eq c (g_init (m_ts m)) _ (pi_wf _ _ (base_policy [] (NoDup_nil _)))) as [HI HT].
    destruct HT as [g2 H2].
    { intros s I. unfold node_list at 1. cbn [g_nodes]. rewrite map_map. cbn [fst]. rewrite map_id. exact (wm_init m W s I). }
    destruct (HI g2 H2) as [_ [W2 [N2 [E2 _]]]]. rewrite H2. cbn [bind].
    assert (B : policy_inv [] g2).
    { destruct g2 as [n2 e2 i2]. cbn in N2, E2. subst n2 e2. apply base_policy. exact (wf_init_nodup _ _ W2). }
    match goal with |- exists r, bind (fold_res ?f ?l ?g) _ = _ => destruct (fold_res_total f (fun l1 g1 => policy_inv l1 g1) l g) as [g3 [H3 _]] end.
    - exact B.
    - intros l1 s l2 g1 EL P.
      assert (Is : In s (node_list (m_ts m))) by (rewrite EL; apply in_or_app; right; left; reflexivity).
      enough (X : exists g', policy_state neqb c policy m s g1 = Ok g').
      { destruct X as [g' X]. exists g'. split; [exact X|]. exact (proj1 (policy_step l1 s g1 g' P X)). }
      destruct (label_of_total neqb neqb_eq m s W Is) as [l L]. destruct (HP s Is) as [a Pa].
      unfold policy_state. rewrite L. cbn [bind]. destruct (set_ap neqb s (VSet l) g1) as [h|] eqn:Sa.
      2: { exfalso. unfold set_ap in Sa. replace (has_node neqb s g1) with true in Sa; [discriminate|]. symmetry. apply (has_node_In neqb neqb_eq). rewrite (pi_nodes _ _ P). exact Is. }
      cbn [bind]. rewrite Pa. cbn [bind]. rewrite find_all. cbn [bind]. fold (outs1 neqb m s).
      destruct (set_ap_facts _ _ _ _ (pi_wf _ _ P) Sa) as [Wh [Nh [Eh _]]].
      assert (Rs : forall u d v, In (u, d, v) (map resolved (filter (chosen a) (outs1 neqb m s))) -> exists e, In e (g_edges (m_ts m)) /\ u = e_src e /\ v = e_dst e /\ d = del_item "action" (e_attr e)).
      { intros u d v I. apply in_map_iff in I. destruct I as [e [E I]]. injection E as <- <- <-. apply chosen_outs in I. exists e. tauto. }
      assert (NE : forall e, In e (g_edges (m_ts m)) -> del_item "action" (e_attr e) <> []).
      { intros e I E. destruct (HE e I) as [_ Q]. apply Q. assert (Z : lookup "probability" (del_item "action" (e_attr e)) = None) by (rewrite E; reflexivity). rewrite lookup_del in Z. exact Z. }
      destruct (add_edges_total neqb val_eqb neqb_eq val_eqb_eq c eq_refl true (map resolved (filter (chosen a) (outs1 neqb m s))) h Wh) as [g' G].
      + intros [[u d] v] I. destruct (Rs u d v I) as [e [Ie [-> [-> ->]]]]. cbn [fst snd]. apply del_keys, (wm_keys m e W Ie).
      + intros u d v I. destruct (Rs u d v I) as [e [Ie [-> [-> ->]]]]. destruct (wf_ends _ _ (wm_wf m W) e Ie) as [Iu Iv]. rewrite Nh, (pi_nodes _ _ P).
        split; [exact Iu|]. split; [exact Iv|]. pose proof (wm_good m e W Ie) as Gd. pose proof (wm_typed m W e Ie) as Tk. rewrite K in Gd, Tk.
        assert (Tk' : typed_keys (edge_types MC []) (del_item "action" (e_attr e))).
        { intros k I'. apply in_map_iff in I'. destruct I' as [[k' v'] [<- I']]. cbn [fst]. apply filter_In in I'. destruct I' as [I' NA]. cbn [fst] in NA.
          apply (in_map fst) in I'. cbn [fst] in I'. apply Tk in I'. cbn in I'. destruct I' as [<-|[<-|[]]]; [left; reflexivity|]. cbn in NA. discriminate. }
        split; [|split; [left; exact Tk'|]].
        * apply Forall_forall. intros [k' v'] I'. cbn [fst snd]. apply filter_In in I'. destruct I' as [I' NA]. cbn [fst] in NA.
          unfold good in Gd. rewrite Forall_forall in Gd. specialize (Gd _ I'). cbn [fst snd] in Gd.
          apply (in_map fst) in I'. cbn [fst] in I'. apply Tk in I'. cbn in I'. destruct I' as [<-|[<-|[]]]; [exact Gd|]. cbn in NA. discriminate.
        * intro T. unfold trans in T. rewrite Eh in T. apply (proj1 (pi_trans _ _ P _ _ _)) in T. destruct T as [e2 [b [_ [I2 [_ [_ [_ [_ Sm]]]]]]]].
          apply items_nil in Sm. exact (NE e2 I2 Sm).
      + intros q1 u v q2 d E I. destruct (Rs u [] v) as [e [Ie [_ [_ Z]]]]; [rewrite E; apply in_or_app; right; left; reflexivity|]. exact (NE e Ie (eq_sym Z)).
      + exists g'. apply (policy_fold a). split; [|exact G]. intros e I. unfold outs1 in I. apply filter_In in I. destruct (HE e (proj1 I)) as [Q _].
        destruct (lookup "action" (e_attr e)) as [b|]; [eauto|congruence].
    - exists (Model MC (m_ap m) [] g3). rewrite H3. reflexivity.
  Qed.
End Policy.

(** ** A robot and a light *)
Open Scope nat_scope.
Definition pr (n d : positive) : val := VNum (Q2Qc (Zpos n # d)).
Definition act (s : string) : val := VStr s.
(** A light that stays as it is with probability one half. *)
Definition light : model nat := Model MC ["on"] []
  (Graph [(0, [("ap", VSet [])]); (1, [("ap", VSet ["on"])])]
     [Edge 0 0 0 [("probability", pr 1 2)]; Edge 0 1 0 [("probability", pr 1 2)];
      Edge 1 0 0 [("probability", pr 1 3)]; Edge 1 1 0 [("probability", pr 2 3)]] [0]).
(** A robot that can stay or try to move. *)
Definition robot : model nat := Model MDP ["home"] [act "stay"; act "go"]
  (Graph [(0, [("ap", VSet ["home"])]); (1, [("ap", VSet [])])]
     [Edge 0 0 0 [("probability", pr 1 1); ("action", act "stay")];
      Edge 0 1 0 [("probability", pr 3 4); ("action", act "go")];
      Edge 0 0 1 [("probability", pr 1 4); ("action", act "go")];
      Edge 1 1 0 [("action", act "stay"); ("probability", pr 1 1)]] [0]).
Ltac nd := repeat first [apply NoDup_nil | apply NoDup_cons; [let H := fresh in cbn; intro H; repeat (destruct H as [H|H]; [discriminate H|]); exact H|]].
Lemma light_wf : wf_model light.
Proof.
  split.
  - split; cbn.
    + nd.
    + cbn. intros e H. repeat (destruct H as [<-|H]; [cbn; tauto|]). destruct H.
    + nd.
    + intros n a H. repeat (destruct H as [[= <- <-]|H]; [split; [nd|repeat constructor]|]). destruct H.
    + intros e H. repeat (destruct H as [<-|H]; [split; [nd|repeat constructor]|]). destruct H.
    + nd.
  - cbn. intros s a H. repeat (destruct H as [[= <- <-]|H]; [eexists; reflexivity|]). destruct H.
  - cbn. intros s [<-|[]]. tauto.
  - cbn. intros e H k. repeat (destruct H as [<-|H]; [cbn; tauto|]). destruct H.
Qed.
Lemma robot_wf : wf_model robot.
Proof.
  split.
  - split; cbn.
    + nd.
    + cbn. intros e H. repeat (destruct H as [<-|H]; [cbn; tauto|]). destruct H.
    + nd.
    + intros n a H. repeat (destruct H as [[= <- <-]|H]; [split; [nd|repeat constructor]|]). destruct H.
    + intros e H. repeat (destruct H as [<-|H]; [split; [nd|repeat constructor]|]). destruct H.
    + nd.
  - cbn. intros s a H. repeat (destruct H as [[= <- <-]|H]; [eexists; reflexivity|]). destruct H.
  - cbn. intros s [<-|[]]. tauto.
  - cbn. intros e H k. repeat (destruct H as [<-|H]; [cbn; tauto|]). destruct H.
Qed.
Lemma light_stochastic : stochastic Nat.eqb (m_ts light).
Proof. cbn. intros e H. repeat (destruct H as [<-|H]; [apply Qc_is_canon; vm_compute; reflexivity|]). destruct H. Qed.
Lemma robot_stochastic : stochastic Nat.eqb (m_ts robot).
Proof. cbn. intros e H. repeat (destruct H as [<-|H]; [apply Qc_is_canon; vm_compute; reflexivity|]). destruct H. Qed.
Example synchronous_parallel_example : exists ts, synchronous_parallel Nat.eqb [] [robot; light] = Ok ts /\
  stochastic (leqb Nat.eqb) (m_ts ts) /\ In [0; 1] (node_list (m_ts ts)) /\ In [0; 0] (g_init (m_ts ts)) /\
  mass (leqb Nat.eqb) (m_ts ts) [0; 1] (act "go") = 1%Qc /\
  trans (m_ts ts) [0; 1] [("probability", pr 1 2); ("action", act "go")] [1; 1].
Proof.
  assert (Ac : Forall acts [robot; light]).
  { repeat constructor; [|intro; discriminate]. intros _ e H. cbn in H. repeat (destruct H as [<-|H]; [eexists; split; [reflexivity|discriminate]|]). destruct H. }
  assert (Wf : Forall wf_model [robot; light]) by (constructor; [apply robot_wf|constructor; [apply light_wf|constructor]]).
  assert (Si : Forall simple [robot; light]) by (repeat (apply Forall_cons; [unfold simple; cbn; nd|]); apply Forall_nil).
  destruct (synchronous_parallel_total Nat.eqb Nat.eqb_eq [robot; light]) as [ts H]; auto; [discriminate| | |].
  { split; [|]; cbn; [intros m [<-|[<-|[]]]; discriminate|intros m m' [<-|[<-|[]]]; discriminate]. }
  { repeat constructor; intros e e' H _ _ _ E; exfalso; cbn in H; repeat (destruct H as [<-|H]; [discriminate E|]); destruct H. }
  exists ts. split; [exact H|].
  destruct (synchronous_parallel_spec Nat.eqb Nat.eqb_eq [robot; light] ts Wf H) as [S1 [S2 [_ [S4 _]]]].
  assert (I : In [0; 1] (node_list (m_ts ts))) by (apply S1; repeat constructor; cbn; tauto).
  split; [apply (synchronous_parallel_stochastic Nat.eqb Nat.eqb_eq [robot; light]); auto; repeat constructor; [apply robot_stochastic|apply light_stochastic]|].
  split; [exact I|]. split; [apply S2; repeat constructor; cbn; tauto|]. split.
  - change (act "go") with (joint_action [act "go"; VNone]).
    rewrite (synchronous_parallel_mass Nat.eqb Nat.eqb_eq [robot; light] ts [0; 1] [act "go"; VNone] Wf Ac Si H I).
    + apply Qc_is_canon. vm_compute. reflexivity.
    + constructor; [split; [discriminate|reflexivity]|]. constructor; [split; [discriminate|intro X; congruence]|constructor].
  - apply S4. eexists [Edge 0 1 0 [("probability", pr 3 4); ("action", act "go")]; Edge 1 1 0 [("probability", pr 2 3)]].
    split; [|split; [reflexivity|]].
    + constructor; [cbn; tauto|reflexivity|]. constructor; [cbn; tauto|reflexivity|constructor].
    + intro k. cbn [lookup map e_attr]. split.
      * split.
        -- destruct (String.eqb_spec k "probability"); [discriminate|]. destruct (String.eqb_spec k "action"); [discriminate|].
           intros _ e [<-|[<-|[]]]; cbn [e_attr lookup]; destruct (String.eqb_spec k "probability"); try congruence; destruct (String.eqb_spec k "action"); congruence.
        -- intro A. pose proof (A _ (or_introl eq_refl)) as B. cbn [e_attr lookup] in B. destruct (String.eqb k "probability"); [discriminate|]. destruct (String.eqb k "action"); [discriminate|reflexivity].
      * intros v L. destruct (String.eqb_spec k "probability") as [->|NP].
        -- injection L as <-. split; [|split; [discriminate|split; [discriminate|congruence]]].
           intros _. exists [Q2Qc (3 # 4); Q2Qc (2 # 3)]. split; [reflexivity|]. unfold pr. f_equal. apply Qc_is_canon. vm_compute. reflexivity.
        -- destruct (String.eqb_spec k "action") as [->|NA]; [|discriminate]. injection L as <-.
           split; [congruence|]. split; [discriminate|]. split; [|congruence]. intros _. left. reflexivity.
Qed.

(** The robot under the policy that goes from home and stays elsewhere. *)
Definition go_out (s : nat) : res val := match s with 0 => Ok (act "go") | _ => Ok (act "stay") end.
Example apply_policy_example : exists r, apply_policy Nat.eqb go_out robot = Ok r /\ m_kind r = MC /\ wf_model r /\
  mass Nat.eqb (m_ts r) 0 VNone = 1%Qc /\ trans (m_ts r) 0 [("probability", pr 3 4)] 1 /\ ~ trans (m_ts r) 0 [("probability", pr 1 1)] 0.
Proof.
  destruct (apply_policy_total Nat.eqb Nat.eqb_eq go_out robot robot_wf eq_refl) as [r H].
  { intros [|s] _; cbn; eauto. }
  { cbn. intros e H. repeat (destruct H as [<-|H]; [split; discriminate|]). destruct H. }
  exists r. split; [exact H|]. destruct (apply_policy_spec Nat.eqb Nat.eqb_eq go_out robot robot_wf r H) as [K [_ [Wr [_ [_ [_ [T _]]]]]]].
  split; [exact K|]. split; [exact Wr|]. split; [|split].
  - rewrite (apply_policy_mass Nat.eqb Nat.eqb_eq go_out robot robot_wf r 0 (act "go")); auto; [|intros e e' I J A B S|cbn; tauto].
    + apply Qc_is_canon. vm_compute. reflexivity.
    + cbn in I, J. pose proof (S "action") as SA.
      repeat (destruct I as [<-|I]; [repeat (destruct J as [<-|J]; [first [reflexivity|discriminate]|]); destruct J|]). destruct I.
  - apply T. exists (Edge 0 1 0 [("probability", pr 3 4); ("action", act "go")]), (act "go"). repeat split; try reflexivity. cbn. tauto.
  - intro X. apply T in X. destruct X as [e [a [I [A [B [P [L S]]]]]]]. injection P as <-. cbn in I.
    repeat (destruct I as [<-|I]; [try discriminate; specialize (S "probability"); discriminate S|]). destruct I.
Qed.

(** ** What does not hold *)
(** Two transitions between the same states with different probabilities: the composition has
    both joint transitions of equal product once only, and the total drops below one. *)
Definition twice : model nat := Model MC [] []
  (Graph [(0, [("ap", VSet [])])] [Edge 0 0 0 [("probability", pr 3 10)]; Edge 0 0 1 [("probability", pr 7 10)]] [0]).
Theorem synchronous_parallel_mass_refuted : exists m ts, wf_model m /\ acts m /\ stochastic Nat.eqb (m_ts m) /\
  synchronous_parallel Nat.eqb [] [m; m] = Ok ts /\ In [0; 0] (node_list (m_ts ts)) /\
  mass (leqb Nat.eqb) (m_ts ts) [0; 0] VNone = Q2Qc (79 # 100) /\ ~ stochastic (leqb Nat.eqb) (m_ts ts).
Proof.
  exists twice. eexists. split; [|split; [intro; discriminate|split; [|split; [vm_compute; reflexivity|]]]].
  - split.
    + split; cbn.
      * nd.
      * cbn. intros e H. repeat (destruct H as [<-|H]; [cbn; tauto|]). destruct H.
      * nd.
      * intros n a H. repeat (destruct H as [[= <- <-]|H]; [split; [nd|repeat constructor]|]). destruct H.
      * intros e H. repeat (destruct H as [<-|H]; [split; [nd|repeat constructor]|]). destruct H.
      * nd.
    + cbn. intros s a H. repeat (destruct H as [[= <- <-]|H]; [eexists; reflexivity|]). destruct H.
    + cbn. intros s [<-|[]]. tauto.
    + cbn. intros e H k. repeat (destruct H as [<-|H]; [cbn; tauto|]). destruct H.
  - cbn. intros e H. repeat (destruct H as [<-|H]; [apply Qc_is_canon; vm_compute; reflexivity|]). destruct H.
  - split; [vm_compute; tauto|]. split; [apply Qc_is_canon; vm_compute; reflexivity|].
    intro S. specialize (S _ (or_introl eq_refl)). apply (f_equal this) in S. vm_compute in S. discriminate.
Qed.

(** Costs and probabilities do not go together; no factor at all; a transition of a decision
    process without an action. *)
Definition tolls : model nat := Model WKS [] [] (Graph [(0, [("ap", VSet [])])] [Edge 0 0 0 [("cost", pr 3 1)]] [0]).
Definition idle : model nat := Model MDP [] [act "stay"]
  (Graph [(0, [("ap", VSet [])])] [Edge 0 0 0 [("probability", pr 1 1)]; Edge 0 0 1 [("probability", pr 1 1); ("action", act "stay")]] [0]).
Theorem synchronous_parallel_total_refuted :
  synchronous_parallel Nat.eqb [] [tolls; light] = Err "AttributeError" /\
  synchronous_parallel Nat.eqb [] ([] : list (model nat)) = Err "TypeError" /\
  synchronous_parallel Nat.eqb [] [robot; idle] = Err "ValueError" /\
  apply_policy Nat.eqb (fun _ => Ok (act "stay")) idle = Err "KeyError" /\
  apply_policy Nat.eqb (fun _ => Ok (act "stay")) light = Err "TypeError".
Proof. vm_compute. repeat split; reflexivity. Qed.

Print Assumptions synchronous_parallel_spec.
Print Assumptions synchronous_parallel_total.
Print Assumptions synchronous_parallel_mass.
Print Assumptions synchronous_parallel_stochastic.
Print Assumptions synchronous_parallel_mass_refuted.
Print Assumptions synchronous_parallel_total_refuted.
Print Assumptions apply_policy_spec.
Print Assumptions apply_policy_mass.
Print Assumptions apply_policy_total.
