(** C70, continued: from the answers of slugs to machines. *)
From Coq Require Import List String Bool Arith ZArith Lia.
From Verif Require Import M_Dict L_Dict M_Graph M_Machine S_Run L_Machine M_Strategy S_Strategy T_Strategy M_Grid.
From Verif Require Import M_Base M_Ast M_Lexer M_Parser M_Spec S_LTL S_Gr1 S_Form S_Syntax S_Tree S_Python M_Form M_Tree M_Python L_Lexer L_Gr1 L_Form L_Encode T_Encode T_Python.
From Verif Require Import M_Gr1c S_Gr1c T_Gr1c M_Synth S_Synth M_Synthesize S_Synthesize L_Synthesize T_Synthesize T_Synthesize2 M_Solvers S_Solvers T_Solvers T_Solvers2 T_Solvers3.
From Verif Require Import M_Slugs T_Slugs S_LTL M_Slugsin S_Slugsin L_Slugsin T_Slugsin.
Import ListNotations.
Open Scope string_scope.
Open Scope list_scope.
Open Scope nat_scope.

Lemma lookup_pairs {A} (f : string -> A) k : forall l : list (string * sdom), In k (map fst l) ->
  M_Base.lookup k (map (fun kd => (fst kd, f (fst kd))) l) = Some (f k).
Proof.
  induction l as [|[x d] l IH]; intro I; [destruct I|]. cbn [map fst M_Base.lookup]. destruct (k =? x)%string eqn:E.
  - apply String.eqb_eq in E. subst. reflexivity.
  - apply IH. destruct I as [I|I]; [cbn in I; subst; rewrite String.eqb_refl in E; discriminate|exact I].
Qed.
Lemma lookup_pairs_in {A} (f : string -> A) k z : forall l : list (string * sdom),
  M_Base.lookup k (map (fun kd => (fst kd, f (fst kd))) l) = Some z -> In k (map fst l) /\ z = f k.
Proof.
  induction l as [|[x d] l IH]; cbn [map fst M_Base.lookup]; [discriminate|]. destruct (k =? x)%string eqn:E.
  - apply String.eqb_eq in E. subst. intros [= <-]. split; [left; reflexivity|reflexivity].
  - intro H. destruct (IH H). split; [right; assumption|assumption].
Qed.

(** Paths from reached nodes keep to the safety and liveness guarantees. *)
Section Reached.
  Context (d : gr_doc) (dvars : list string) (nodes : list jnode) (idn : jnode -> Z) (val : Z -> string -> Z).
  Hypothesis D : sl_describes d dvars nodes idn val.
  Hypothesis Nd : NoDup (map fst (d_env d ++ d_sys d)).
  Definition node_state (u : Z) : S_LTL.state := fun x =>
    match M_Base.lookup x (d_env d ++ d_sys d) with Some dm => value_at (as_dom dm) (val u x) | None => VB false end.
  Lemma node_state_at u : at_node d val u (node_state u).
  Proof.
    intros x dm I. unfold node_state. destruct (M_Base.lookup x (d_env d ++ d_sys d)) as [dm'|] eqn:L.
    - apply lookup_in in L. rewrite (nodup_unique _ _ _ _ Nd L I). reflexivity.
    - apply lookup_none_iff in L. apply (in_map fst) in I. contradiction.
  Qed.
  Lemma strue_shift (s : trace) (s' : trace) i e : s' (S i) = s i -> s' (S (S i)) = s (S i) -> (strue s' (S i) e <-> strue s i e).
  Proof. intros E1 E2. unfold strue. rewrite E1, E2. tauto. Qed.
  Lemma reached_wins v : sl_reached d nodes idn val v -> forall p s, p 0 = v -> (forall i, sl_edge nodes idn (p i) (p (S i)) /\ at_node d val (p i) (s i)) ->
    (forall e, In e (d_es d) -> forall k, strue s k e) -> (forall e, In e (d_ep d) -> forall k, exists j, k <= j /\ strue s j e) ->
    (forall e, In e (d_ss d) -> forall k, strue s k e) /\ (forall e, In e (d_sp d) -> forall k, exists j, k <= j /\ strue s j e).
  Proof.
    intro R. induction R as [n I St|u v R IH E]; intros p s P0 P Es Ep.
    - assert (W : sl_part s (d_si d) (d_ss d) (d_sp d)).
      { apply (sa_wins _ _ _ _ _ D p s); [exists n; split; [exact I|symmetry; exact P0]|rewrite P0; exact St|exact P|].
        split; [|split; assumption]. intros e J. apply (St s); [rewrite <- P0; apply P|apply in_app_iff; auto]. }
      destruct W as (_ & W1 & W2). auto.
    - set (p' := fun i => match i with 0 => u | S i => p i end). set (s' := (fun i => match i with 0 => node_state u | S i => s i end) : trace).
      destruct (IH p' s') as [W1 W2].
      + reflexivity.
      + intros [|i]; cbn [p' s']; [split; [rewrite P0; exact E|apply node_state_at]|apply P].
      + intros e J [|k]; [|apply (proj2 (strue_shift s s' k e eq_refl eq_refl)); auto].
        apply (sa_steps _ _ _ _ _ D s' 0 u v E); [apply node_state_at|cbn [s']; rewrite <- P0; apply P|exact J].
      + intros e J k. destruct (Ep e J (pred k)) as (j & Lj & K). exists (S j). split; [lia|]. apply (proj2 (strue_shift s s' j e eq_refl eq_refl)). exact K.
      + split.
        * intros e J k. apply (proj1 (strue_shift s s' k e eq_refl eq_refl)). apply W1. exact J.
        * intros e J k. destruct (W2 e J (S k)) as (j & Lj & K). destruct j as [|j]; [lia|]. exists j. split; [lia|]. apply (proj1 (strue_shift s s' j e eq_refl eq_refl)). exact K.
  Qed.
End Reached.

Lemma sl_term_pure g b t k : (forall x, spec_enums g x = None) -> sl_term (spec_types g) b t k -> pure (spec_enums g) t.
Proof.
  intros N H. split; [|intros; apply N]. induction H; intros c K; inversion K; subst; try (eapply IHsl_term; eassumption); try (eapply IHsl_term1; eassumption); try (eapply IHsl_term2; eassumption).
Qed.
Lemma sl_formula_typed g b t : (forall x, spec_enums g x = None) -> sl_formula (spec_types g) b t -> typed (spec_enums g) t.
Proof.
  intros N H. induction H; try (constructor; assumption).
  - apply ty_pure. split; [|intros; apply N]. intros c K. pose proof (proj1 (sl_term_pure g _ _ _ N H0) c). pose proof (proj1 (sl_term_pure g _ _ _ N H1) c). inversion K; subst; auto.
  - apply ty_pure. split; [|intros; apply N]. intros c K. pose proof (proj1 (sl_term_pure g _ _ _ N H0) c). pose proof (proj1 (sl_term_pure g _ _ _ N H1) c). inversion K; subst; auto.
Qed.

Section SlugsSolves.
  Context (tool : string -> option (list string * list jnode)).

  (** If the answers of slugs meet the documents it is given, then what is returned meets the
      specification, and has the form that the rest of the program needs. *)
  Theorem slugs_solves : forall g A,
    slugs_synthesize tool g = Ok (Some A) ->
    (forall text d dvars nodes, tool text = Some (dvars, nodes) -> sl_document text = Some d -> slugs_answer d dvars nodes) ->
    declared_once (env_vars g) (sys_vars g) -> snamed (env_vars g) -> snamed (sys_vars g) ->
    (forall x t, In x (clauses g) -> parse x = Some t -> sl_formula (spec_types g) false t) ->
    (forall x t, In x (env_init g ++ sys_init g) -> parse x = Some t -> wt (spec_types g) t) ->
    strategy_form (env_vars g) (sys_vars g) A /\ wins (M_Slugsin.isinit g) g A.
  Proof.
    intros g A H Sol Once NE NS T W. unfold slugs_synthesize in H. destruct (moore g); [discriminate|]. destruct (plus_one g); [discriminate|].
    apply L_Machine.bind_Ok in H. destruct H as (text & Ht & H). destruct (tool text) as [[dvars nodes]|] eqn:Hj; [|discriminate].
    apply L_Machine.bind_Ok in H. destruct H as (h & Hh & H). apply Ok_inj in H. injection H as <-.
    destruct (slugs_document_ok g text Ht NE NS T) as (d & Hd & De & Ds & NoE & M). destruct (Sol text d dvars nodes Hj Hd) as (idn & val & D).
    set (all := all_vars (svars_of (sys_vars g)) (svars_of (env_vars g))).
    assert (Fst : forall v, map fst (svars_of v) = map fst v) by (intro v; unfold svars_of; rewrite map_map; reflexivity).
    destruct (all_vars_spec (svars_of (sys_vars g)) (svars_of (env_vars g))) as [A1 A2]; [rewrite Fst; apply (do_sys _ _ Once)|rewrite Fst; apply (do_env _ _ Once)|]. fold all in A1, A2.
    assert (SE : forall x dm, sys_or_env g x = Some dm <-> In (x, dm) (env_vars g ++ sys_vars g)).
    { intros x dm. unfold sys_or_env. rewrite in_app_iff. destruct (lookup x (sys_vars g)) as [d0|] eqn:L.
      - apply lookup_in in L. split; [intros [= <-]; auto|]. intros [I|I].
        + exfalso. apply (in_map fst) in L, I. apply (do_roles _ _ Once x I L).
        + f_equal. eapply nodup_unique; [apply (do_sys _ _ Once)|exact L|exact I].
      - apply lookup_none_iff in L. split; [intro I; left; apply lookup_in; exact I|]. intros [I|I]; [|apply (in_map fst) in I; contradiction].
        destruct (lookup x (env_vars g)) as [d0|] eqn:L'; [|apply lookup_none_iff in L'; apply (in_map fst) in I; contradiction].
        apply lookup_in in L'. f_equal. eapply nodup_unique; [apply (do_env _ _ Once)|exact L'|exact I]. }
    assert (DV : forall x dm, sys_or_env g x = Some dm -> In (x, gr_dom dm) (d_env d ++ d_sys d)).
    { intros x dm I. apply SE in I. rewrite De, Ds, <- map_app. apply in_map_iff. exists (x, dm). auto. }
    assert (NoEnum : forall x l, sys_or_env g x <> Some (DEnum l)).
    { intros x l K. apply SE in K. apply in_app_iff in K. destruct K as [K|K]; [apply (proj1 (NoE x l) K)|apply (proj2 (NoE x l) K)]. }
    assert (NE' : forall x, spec_enums g x = None).
    { intro x. rewrite enums_declared. destruct (sys_or_env g x) as [[]|] eqn:E; try reflexivity. destruct (NoEnum x _ E). }
    assert (AV : forall kd, In kd all <-> exists dm, sys_or_env g (fst kd) = Some dm /\ snd kd = sdom_of dm).
    { assert (Sv : forall v k sd, In (k, sd) (svars_of v) <-> exists dm, In (k, dm) v /\ sd = sdom_of dm).
      { intros v k sd. unfold svars_of. rewrite in_map_iff. split; [intros ((x & dm) & [= <- <-] & I); eauto|intros (dm & I & ->); exists (k, dm); auto]. }
      intros [k sd]. rewrite A2, !Sv, Fst. cbn [fst snd]. split.
      - intros [(dm & I & ->)|[(dm & I & ->) _]]; exists dm; (split; [apply SE, in_app_iff; auto|reflexivity]).
      - intros (dm & I & ->). apply SE in I. apply in_app_iff in I. destruct I as [I|I]; [left; eauto|right]. split; [eauto|].
        intro J. apply (in_map fst) in I. apply (do_roles _ _ Once k J I). }
    assert (Asd : forall x dm, sys_or_env g x = Some dm -> as_sdom (gr_dom dm) = sdom_of dm).
    { intros x dm I. destruct dm; try reflexivity. destruct (NoEnum x _ I). }
    assert (Ndv : NoDup (map fst (d_env d ++ d_sys d))).
    { rewrite De, Ds, <- map_app, map_map. cbn [fst]. rewrite map_app. destruct Once as [D1 D2 D3]. clear - D1 D2 D3.
      induction (map fst (env_vars g)) as [|x l IH]; [exact D2|]. inversion D1; subst. cbn [app]. constructor.
      - intro I. apply in_app_iff in I. destruct I as [I|I]; [contradiction|]. apply (D3 x); [left; reflexivity|exact I].
      - apply IH; auto. intros k I. apply D3. right. exact I. }
    assert (Cod : forall n kd, In n nodes -> In kd all -> encodes (dict_of (combine dvars (j_state n))) kd (val (idn n) (fst kd))).
    { intros n [k sd] I K. apply AV in K. cbn [fst snd] in K. destruct K as (dm & K & ->). rewrite <- (Asd k dm K). apply (proj1 (sa_coded _ _ _ _ _ D n k (gr_dom dm) I (DV k dm K))). }
    destruct (read_strategy_graph (svars_of (sys_vars g)) (svars_of (env_vars g)) dvars nodes idn val) as (h' & Hh' & G1 & G2 & G3 & G4).
    { apply (sa_ids _ _ _ _ _ D). } { apply (sa_distinct _ _ _ _ _ D). }
    { intros n v I J. apply (sa_closed _ _ _ _ _ D (idn n) v). exists n. auto. }
    { exact Cod. }
    rewrite Hh in Hh'. apply Ok_inj in Hh'. subst h'.
    set (nds := map (fun n => (fst n, match snd n with Some s => s | None => [] end)) (d_nodes h)).
    assert (Nodes : forall u dd, In (u, dd) nds <-> exists n, In n nodes /\ u = idn n /\ dd = map (fun kd => (fst kd, val u (fst kd))) all).
    { intros u dd. unfold nds. rewrite in_map_iff. split.
      - intros ((u' & s) & [= <- <-] & I). apply G3 in I. destruct I as (n & I & U & ->). exists n. auto.
      - intros (n & I & U & ->). exists (u, Some (ints (svars_of (sys_vars g)) (svars_of (env_vars g)) val u)). split; [reflexivity|]. apply G3. exists n. auto. }
    assert (Fsts : map fst nds = map fst (d_nodes h)) by (unfold nds; rewrite map_map; reflexivity).
    assert (Val : forall u dd x dm, In (u, dd) nds -> sys_or_env g x = Some dm -> lookup x dd = Some (val u x)).
    { intros u dd x dm I K. apply Nodes in I. destruct I as (n & I & U & ->). apply (lookup_pairs (val u)). apply in_map_iff. exists (x, sdom_of dm). split; [reflexivity|]. apply AV. eauto. }
    split; [constructor; cbn [st_nodes st_edges]|].
    - change (NoDup (map fst nds)). rewrite Fsts. exact G1.
    - exact G2.
    - intros u v I. apply G4 in I. cbn [fst snd] in I. destruct I as (n & I & -> & J). change (In (idn n) (map fst nds) /\ In v (map fst nds)). split.
      + apply in_map_iff. eexists (idn n, _). split; [reflexivity|]. apply Nodes. exists n. auto.
      + destruct (sa_closed _ _ _ _ _ D (idn n) v) as (n' & I' & <-); [exists n; auto|]. apply in_map_iff. eexists (idn n', _). split; [reflexivity|]. apply Nodes. exists n'. auto.
    - intros u dd I. apply Nodes in I. destruct I as (n & _ & _ & ->). rewrite map_map. exact A1.
    - intros u dd u' dd' k I I' K. apply Nodes in I, I'. destruct I as (n & _ & _ & ->). destruct I' as (n' & _ & _ & ->). rewrite map_map in *. exact K.
    - intros u dd k z l I Lz [K|K]; apply lookup_in in K; exfalso; [apply (proj1 (NoE k l) K)|apply (proj2 (NoE k l) K)].
    - intros P Q HP HQ w s (u & U0 & Ue & Un) Tr Sat. destruct (parts_trees g P Q HP HQ) as [-> ->].
      cbn [st_nodes st_edges st_init] in *. fold nds in Un. unfold starts_at in U0. cbn [st_init st_nodes] in U0. fold nds in U0.
      assert (Rv : forall i x dm, sys_or_env g x = Some dm -> exists v, stands dm (val (u i) x) v /\ reads dm v (s i x)).
      { intros i x dm K. destruct (Un i) as (dd & I & S1 & S2). destruct (run_values g dd (w i) w s i x dm eq_refl S1 S2 Tr K) as (z & v & Lz & St & R).
        rewrite (Val _ _ _ _ I K) in Lz. injection Lz as <-. eauto. }
      assert (Rs : forall i, respects (spec_types g) (s i)).
      { apply (run_respects g s). intros i x dm K. destruct (Rv i x dm K) as (v & V). eauto. }
      assert (Sv : forall i x dm, sys_or_env g x = Some dm -> s i x = value_at (as_dom (gr_dom dm)) (val (u i) x)).
      { intros i x dm K. destruct (Rv i x dm K) as (v & St & R). destruct dm; [| |destruct (NoEnum x _ K)]; cbn in St; subst v; exact R. }
      assert (Num : forall i, exists n, In n nodes /\ idn n = u i).
      { intro i. destruct (Un i) as (dd & I & _). apply Nodes in I. destruct I as (n & I & E & _). exists n. auto. }
      assert (At : forall i, at_node d val (u i) (s i)).
      { intros i x dm I. rewrite De, Ds, <- map_app in I. apply in_map_iff in I. destruct I as ((x' & dm') & [= <- <-] & I). cbn [fst snd]. apply SE in I. apply Sv. exact I. }
      destruct (M s Rs) as (M1 & M2 & M3). pose proof (proj2 M1 Sat) as (_ & SatS & SatL).
      destruct (Num 0) as (n0 & I0 & E0).
      destruct (reached_wins d dvars nodes idn val D Ndv (u 0)) with (p := u) (s := s) as [R1 R2].
      { rewrite <- E0. apply (sa_reached _ _ _ _ _ D). exact I0. } { reflexivity. }
      { intro i. split; [|apply At]. specialize (Ue i). apply G4 in Ue. cbn [fst snd] in Ue. destruct Ue as (n & I & E & J). exists n. auto. }
      { exact SatS. } { exact SatL. }
      apply M2. split; [|split; [exact R1|exact R2]]. apply M3.
      destruct U0 as (dd & Idd & Ini).
      assert (GD : good_domains g). { split; [apply (do_env _ _ Once)|]. split; [apply (do_sys _ _ Once)|]. intros x l E. rewrite NE' in E. discriminate. }
      assert (IC : forall x, In x (env_init g ++ sys_init g) -> In x (clauses g)). { intros x I. unfold clauses. rewrite !in_app_iff in *. tauto. }
      assert (Cond : init_condition g s).
      { apply (isinit_meaning g dd true Ini GD NE'); [|apply Rs| |reflexivity].
        - intros x t I Pt. split; [apply (W x t I Pt)|]. apply (sl_formula_typed g false); auto. apply (T x); auto.
        - intros x k E. rewrite types_declared in E. destruct (sys_or_env g x) as [dm|] eqn:K; [|discriminate]. injection E as <-.
          exists (val (u 0) x). split; [apply (Val _ _ _ _ Idd K)|]. rewrite (Sv 0 x dm K). destruct dm as [|a b|l]; cbn; [|reflexivity|destruct (NoEnum x _ K)].
          destruct (proj2 (sa_coded _ _ _ _ _ D n0 x GB I0 (DV x DBool K))) as [Z|Z]; rewrite E0 in Z; rewrite Z; cbn; auto. }
      intros t It. unfold clause_trees in It. apply in_flat_map in It. destruct It as (x & Ix & It). destruct (parse x) as [t'|] eqn:Pt; [|destruct It]. destruct It as [<-|[]].
      apply (Cond) with (x := x); auto. intros y t2 Iy Py. destruct Sat as (Sat0 & _). apply Sat0. apply (in_trees y (env_init g) t2 Iy Py).
  Qed.
End SlugsSolves.
Print Assumptions slugs_solves.

Lemma lookup_same (d d' : attrs Z) : same_items d d' -> forall x, M_Base.lookup x d = M_Base.lookup x d'.
Proof. intros H x. apply H. Qed.
Lemma py_value_ext e1 e2 : (forall x, e1 x = e2 x) -> forall e, py_value e1 e = py_value e2 e.
Proof.
  intros E. induction e as [x|n|b|s|a IH|a IH|o a IHa b IHb]; cbn [py_value]; try rewrite IH; try rewrite IHa; try rewrite IHb; auto.
Qed.
Theorem isinit_items : forall g d d', same_items d d' -> M_Slugsin.isinit g d = M_Slugsin.isinit g d'.
Proof.
  intros g d d' H. unfold M_Slugsin.isinit. destruct (compile_init g true) as [text|]; [|reflexivity]. cbn [bind]. unfold py_eval. destruct (py_parse text) as [e|]; [|reflexivity].
  rewrite (py_value_ext (ints_env d) (ints_env d')); [reflexivity|]. intro x. unfold ints_env. rewrite (lookup_same d d' H). reflexivity.
Qed.

Section Machines.
  Context (sinit : Z) (gr1c gr1py omega : grspec -> res (option (@strategy Z))).
  Context (tool : string -> option (list string * list jnode)).

  (** From the user's specification to the machine, for transition systems whose states and
      actions are integers or Booleans. *)
  Theorem synthesize_with_slugs :
    (forall text d dvars nodes, tool text = Some (dvars, nodes) -> sl_document text = Some d -> slugs_answer d dvars nodes) ->
    forall specs env sys ie is rm m P Q r,
    synthesize Z.eqb sinit M_Slugsin.isinit gr1c (slugs_synthesize tool) gr1py omega true specs env sys ie is rm "slugs" = Ok (Some m) ->
    spec_plus_sys specs env sys ie is = Ok r ->
    snamed (env_vars r) -> snamed (sys_vars r) ->
    (forall x t, In x (clauses r) -> parse x = Some t -> sl_formula (spec_types r) false t) ->
    (forall x t, In x (env_init r ++ sys_init r) -> parse x = Some t -> wt (spec_types r) t) ->
    NoDup (map fst (env_vars specs)) -> NoDup (map fst (sys_vars specs)) ->
    (forall k, In k (map fst (env_vars r)) -> ~ In k (map fst (sys_vars r))) ->
    (forall k, In k (map fst (env_vars r)) \/ In k (map fst (sys_vars r)) -> ~ In k T_Strategy.reserved) ->
    (forall t, sys = Some t -> good_fts (ts_fts t) /\ S_Gr1.ident (sys_var t)) ->
    (forall t, env = Some t -> good_env (ts_fts t) /\ S_Gr1.ident (env_var t)) ->
    S_Gr1.env_part specs = Some P -> S_Gr1.sys_part specs = Some Q ->
    controls specs r env sys ie is P Q m.
  Proof.
    intros Sol specs env sys ie is rm m P Q r H Hr Ne Ns T W N1 N2 Dj Res Gs Ge HP HQ w Hw.
    refine (synthesize_correct Z.eqb Z.eqb_eq sinit M_Slugsin.isinit isinit_items gr1c (slugs_synthesize tool) gr1py omega true specs env sys ie is rm "slugs" m P Q r H Hr _ N1 N2 Dj Res Gs Ge HP HQ w Hw).
    assert (Once : declared_once (env_vars r) (sys_vars r)). { destruct (spec_plus_sys_nodup _ _ _ _ _ _ Hr N1 N2). constructor; auto. }
    intros A HA. change (slugs_synthesize tool r = Ok (Some A)) in HA. apply (slugs_solves tool r A HA); auto.
  Qed.

  (** The two calls agree. *)
  Theorem slugs_agrees : forall g,
    (slugs_realizable tool g = Ok false <-> slugs_synthesize tool g = Ok None) /\
    (forall A, slugs_synthesize tool g = Ok (Some A) -> slugs_realizable tool g = Ok true).
  Proof.
    intro g. unfold slugs_realizable, slugs_synthesize. destruct (moore g); [split; [split|]; intros; discriminate|]. destruct (plus_one g); [split; [split|]; intros; discriminate|].
    destruct (to_slugs g) as [text|]; cbn [bind]; [|split; [split|]; intros; discriminate]. destruct (tool text) as [[dv nodes]|]; [|split; [tauto|intros; discriminate]].
    destruct (read_strategy _ _ dv nodes); cbn [bind]; (split; [split; intros; discriminate|intros; first [reflexivity|discriminate]]).
  Qed.

  (** The options that a specification has by default are refused. *)
  Theorem slugs_options_refuted : forall g, moore g = true \/ plus_one g = true ->
    slugs_synthesize tool g = Err "AssertionError" /\ slugs_realizable tool g = Err "AssertionError".
  Proof. intros g [E|E]; unfold slugs_synthesize, slugs_realizable; rewrite E; [auto|]. destruct (moore g); auto. Qed.

  (** No machine for a transition system whose states are strings. *)
  Lemma dupdate_last {A} x (k : A) : forall b a, In x (map fst b) -> (forall k', In (x, k') b -> k' = k) -> In (x, k) (dupdate a b).
  Proof.
    unfold dupdate. intro b. induction b as [|[y v] b IH] using rev_ind; intros a I U; [destruct I|]. rewrite fold_left_app. cbn [fold_left fst snd].
    destruct (string_dec y x) as [->|N].
    - rewrite (U v) by (apply in_app_iff; right; left; reflexivity). apply lookup_in. rewrite lookup_dset, String.eqb_refl. reflexivity.
    - assert (J : In (x, k) (fold_left (fun e p => dset (fst p) (snd p) e) b a)).
      { apply IH; [|intros; apply U, in_app_iff; auto]. rewrite map_app, in_app_iff in I. destruct I as [I|[I|[]]]; [exact I|cbn in I; congruence]. }
      clear - J N. induction (fold_left _ b a) as [|[z w] l IHl]; [destruct J|]. cbn [dset]. destruct (y =? z)%string eqn:E.
      + apply String.eqb_eq in E. subst z. destruct J as [[= E ->]|J]; [congruence|right; exact J].
      + destruct J as [J|J]; [left; exact J|right; auto].
  Qed.
  Lemma dset_new {A} x (k : A) : forall d, has x d = false -> dset x k d = d ++ [(x, k)] /\ ~ In x (map fst d).
  Proof.
    unfold has. induction d as [|[y v] d IH]; cbn [dset app map fst M_Base.lookup]; [auto|]. destruct (x =? y)%string eqn:E; [discriminate|]. intro F. destruct (IH F) as [-> N].
    split; [reflexivity|]. intros [->|I]; [rewrite String.eqb_refl in E; discriminate|auto].
  Qed.
  Lemma iter2var_strings states vars var vs sid c q : iter2var states vars var false (Some Xor) = Ok (vs, sid, c) -> In (SStr q) states ->
    exists l, In var (map fst vs) /\ forall k, In (var, k) vs -> k = DEnum l.
  Proof.
    intros H I. unfold iter2var in H. destruct states as [|q0 st]; [destruct I|]. remember (q0 :: st) as states eqn:Es.
    destruct (has var vars) eqn:Hv; [discriminate|]. destruct (forallb is_int states) eqn:Fi.
    - rewrite forallb_forall in Fi. apply Fi in I. discriminate.
    - destruct (forallb is_str states); [|discriminate]. apply Ok_inj in H. injection H as <- _ _. eexists.
      match goal with |- context[dset var ?k vars] => destruct (dset_new var k vars Hv) as [-> N] end. split.
      + rewrite map_app, in_app_iff. right. left. reflexivity.
      + intros k K. apply in_app_iff in K. destruct K as [K|[[= <-]|[]]]; [apply (in_map fst) in K; contradiction|reflexivity].
  Qed.
  Definition has_strings (t : ts) : Prop := exists q, In (SStr q) (f_states (ts_fts t)).
  Lemma sys_strings t ig var f : sys_to_spec (ts_fts t) ig var false false = Ok f -> has_strings t ->
    exists l, In var (map fst (sys_vars f)) /\ forall k, In (var, k) (sys_vars f) -> k = DEnum l.
  Proof.
    intros H (q & I). unfold sys_to_spec in H. destruct (negb _); [discriminate|]. destruct (existsb _ _); [discriminate|].
    apply L_Machine.bind_Ok in H. destruct H as (a & _ & H). apply L_Machine.bind_Ok in H. destruct H as (((sv & sid) & c) & Hi & H). cbn beta iota in H.
    apply L_Machine.bind_Ok in H. destruct H as (i & _ & H). apply L_Machine.bind_Ok in H. destruct H as (tr & _ & H). apply L_Machine.bind_Ok in H. destruct H as ((ai & at_) & _ & H). cbn beta iota in H.
    apply L_Machine.bind_Ok in H. destruct H as (et & _ & H). unfold new_spec in H. apply L_Machine.bind_Ok in H. destruct H as (u & _ & H). apply Ok_inj in H. subst f. cbn [sys_vars].
    exact (iter2var_strings _ _ _ _ _ _ q Hi I).
  Qed.
  Lemma env_strings t ig var f : env_to_spec (ts_fts t) ig var false false = Ok f -> has_strings t ->
    exists l, In var (map fst (env_vars f)) /\ forall k, In (var, k) (env_vars f) -> k = DEnum l.
  Proof.
    intros H (q & I). unfold env_to_spec in H. destruct (negb _); [discriminate|]. destruct (existsb _ _); [discriminate|].
    apply L_Machine.bind_Ok in H. destruct H as (a & _ & H). apply L_Machine.bind_Ok in H. destruct H as (((sv & sid) & c) & Hi & H). cbn beta iota in H.
    apply L_Machine.bind_Ok in H. destruct H as (i & _ & H). apply L_Machine.bind_Ok in H. destruct H as (tr & _ & H). apply L_Machine.bind_Ok in H. destruct H as ((ai & at_) & _ & H). cbn beta iota in H.
    unfold new_spec in H. apply L_Machine.bind_Ok in H. destruct H as (u & _ & H). apply Ok_inj in H. subst f. cbn [env_vars].
    exact (iter2var_strings _ _ _ _ _ _ q Hi I).
  Qed.
  Theorem slugs_string_states_refuted : forall specs env sys ie is rm t, has_strings t -> env = Some t \/ (env = None /\ sys = Some t) ->
    forall x, synthesize Z.eqb sinit M_Slugsin.isinit gr1c (slugs_synthesize tool) gr1py omega true specs env sys ie is rm "slugs" <> Ok x.
  Proof.
    intros specs env sys ie is rm t St Hs x H. unfold synthesize in H. apply L_Machine.bind_Ok in H. destruct H as (r & Hr & H).
    unfold synthesize_spec in H. apply L_Machine.bind_Ok in H. destruct H as (A & HA & _). change (slugs_synthesize tool r = Ok A) in HA.
    assert (E : exists k l, In (k, DEnum l) (env_vars r) \/ In (k, DEnum l) (sys_vars r)).
    { unfold spec_plus_sys in Hr. destruct Hs as [->|[-> ->]].
      - apply L_Machine.bind_Ok in Hr. destruct Hr as (r1 & _ & Hr). apply L_Machine.bind_Ok in Hr. destruct Hr as (f & Hf & Hr).
        destruct (env_strings t _ _ f Hf St) as (l & I & U). apply L_Machine.bind_Ok in Hr. destruct Hr as (f' & Hf' & Hr).
        apply copy_options_parts in Hf'. destruct Hf' as (mo & po & qi & ->). apply or_inv in Hr. destruct Hr as (_ & _ & _ & _ & _ & _ & ->). cbn [env_vars sys_vars with_options].
        exists (statevar t "eloc"), l. left. apply dupdate_last; destruct (qinit r1 =? _)%string; assumption.
      - apply L_Machine.bind_Ok in Hr. destruct Hr as (r1 & Hr & E). apply Ok_inj in E. subst r1. apply L_Machine.bind_Ok in Hr. destruct Hr as (f & Hf & Hr).
        destruct (sys_strings t _ _ f Hf St) as (l & I & U). apply L_Machine.bind_Ok in Hr. destruct Hr as (f' & Hf' & Hr).
        apply copy_options_parts in Hf'. destruct Hf' as (mo & po & qi & ->). apply or_inv in Hr. destruct Hr as (_ & _ & _ & _ & _ & _ & ->). cbn [env_vars sys_vars with_options].
        exists (statevar t "loc"), l. right. apply dupdate_last; destruct (qinit specs =? _)%string; assumption. }
    destruct E as (k & l & E). unfold slugs_synthesize in HA. destruct (moore r); [discriminate|]. destruct (plus_one r); [discriminate|].
    apply L_Machine.bind_Ok in HA. destruct HA as (text & Ht & _). exact (slugs_strings_refuted r k l E text Ht).
  Qed.
End Machines.
Print Assumptions isinit_items.
Print Assumptions synthesize_with_slugs.
Print Assumptions slugs_agrees.
Print Assumptions slugs_options_refuted.
Print Assumptions slugs_string_states_refuted.

(** ** A concrete case *)
(** A counter that jumps between 0 and 2 while the environment never raises [x] twice in a row. *)
Definition jump : grspec :=
  mkspec [("x", DBool)] [("n", DInt 0 2)] [] ["n = 0"] ["x -> X(!x)"] ["(n = 0 -> X(n) = 2) & (n = 2 -> X(n) + 2 <= n)"]
    ["!x"] ["n > 1"] false false "\A \E".
Definition jump_text : string := Eval vm_compute in match to_slugs jump with Ok t => t | Err _ => "" end.
Definition jump_doc : gr_doc := Eval vm_compute in
  match sl_document jump_text with Some d => d | None => mkdoc [] [] [] [] [] [] [] [] end.
Definition jump_vars : list string := ["x"; "n@0.0.2"; "n@1"].
Definition jump_nodes : list jnode :=
  [JNode "0" [0; 0; 0] [2; 3]; JNode "1" [1; 0; 0] [2]; JNode "2" [0; 0; 1] [0; 1]; JNode "3" [1; 0; 1] [0]]%Z.
Definition jump_tool (text : string) : option (list string * list jnode) :=
  if (text =? jump_text)%string then Some (jump_vars, jump_nodes) else None.
Definition jump_val (u : Z) (x : string) : Z :=
  if (x =? "x")%string then (if Z.odd u then 1 else 0)%Z else (if (u <? 2)%Z then 0 else 2)%Z.
Definition jump_id (n : jnode) : Z := match py_int (list_ascii_of_string (j_name n)) with Some z => z | None => 0%Z end.
Lemma jump_text_ok : to_slugs jump = Ok jump_text /\ sl_document jump_text = Some jump_doc.
Proof. split; vm_compute; reflexivity. Qed.
Lemma jump_edges u v : sl_edge jump_nodes jump_id u v ->
  (u = 0 \/ u = 1 \/ u = 2 \/ u = 3)%Z /\ (v = 0 \/ v = 1 \/ v = 2 \/ v = 3)%Z /\ (u <? 2)%Z = negb (v <? 2)%Z /\ (Z.odd u = true -> Z.odd v = false).
Proof.
  intros (n & I & <- & J). cbn in I. destruct I as [<-|[<-|[<-|[<-|[]]]]]; cbn in J; repeat (destruct J as [<-|J]; [cbn; repeat split; auto; discriminate|]); destruct J.
Qed.
Lemma jump_answer : slugs_answer jump_doc jump_vars jump_nodes.
Proof.
  exists jump_id, jump_val.
  assert (V : forall u st, at_node jump_doc jump_val u st -> st "x" = VB (Z.odd u) /\ st "n" = VZ (if (u <? 2)%Z then 0 else 2)%Z).
  { intros u st A. split; [rewrite (A "x" GB) by (cbn; auto); cbn; destruct (Z.odd u); reflexivity|rewrite (A "n" (GRange 0 2)) by (cbn; auto); reflexivity]. }
  constructor.
  - intros n I. cbn in I. destruct I as [<-|[<-|[<-|[<-|[]]]]]; reflexivity.
  - vm_compute. repeat constructor; cbn; intuition discriminate.
  - intros u v E. apply jump_edges in E. destruct E as (_ & E & _). set (nd := fun k => nth k jump_nodes (JNode "" [] [])).
    destruct E as [->|[->|[->| ->]]]; [exists (nd 0)|exists (nd 1)|exists (nd 2)|exists (nd 3)]; (split; [cbn; auto|reflexivity]).
  - assert (B : forall w i, width 2 w -> 1 <= i < w -> i = 1).
    { intros w i W L. assert (w < 3) as L3; [|lia]. destruct (le_lt_dec 3 w) as [G|G]; [|exact G]. exfalso. unfold width in W.
      assert (2 ^ 2 <= 2 ^ (Z.of_nat w - 1))%Z by (apply Z.pow_le_mono_r; lia). lia. }
    intros n x dm I J. cbn in J. destruct J as [[= <- <-]|[[= <- <-]|[]]].
    + cbn in I. destruct I as [<-|[<-|[<-|[<-|[]]]]]; (split; [vm_compute; reflexivity|cbn; auto]).
    + cbn in I. destruct I as [<-|[<-|[<-|[<-|[]]]]]; (split; [|vm_compute; split; discriminate]); (split; [vm_compute; split; discriminate|]); (split; [lia|]); (split; [vm_compute; reflexivity|]);
      intros w i W L; rewrite (B w i W L); vm_compute; reflexivity.
  - assert (S0 : forall u, (u <? 2)%Z = true -> sl_start jump_doc jump_val u).
    { intros u U s A e J. destruct (V u _ A) as [_ V2]. rewrite U in V2. cbn in J. destruct J as [<-|[]]. unfold strue. cbn. rewrite V2. reflexivity. }
    assert (R0 : sl_reached jump_doc jump_nodes jump_id jump_val 0).
    { apply (sr_start jump_doc jump_nodes jump_id jump_val (JNode "0" [0; 0; 0] [2; 3])%Z); [cbn; auto|apply S0; reflexivity]. }
    intros n I. cbn in I. destruct I as [<-|[<-|[<-|[<-|[]]]]]; cbn.
    + exact R0.
    + apply (sr_start jump_doc jump_nodes jump_id jump_val (JNode "1" [1; 0; 0] [2])%Z); [cbn; auto|apply S0; reflexivity].
    + apply (sr_step jump_doc jump_nodes jump_id jump_val 0%Z); [exact R0|]. eexists. split; [left; reflexivity|]. cbn. auto.
    + apply (sr_step jump_doc jump_nodes jump_id jump_val 0%Z); [exact R0|]. eexists. split; [left; reflexivity|]. cbn. auto.
  - intros s i u v E A B e J. destruct (V u _ A) as [V1 _]. destruct (V v _ B) as [V2 _]. apply jump_edges in E. destruct E as (_ & _ & _ & E).
    cbn in J. destruct J as [<-|[]]. unfold strue. cbn. rewrite V1, V2. destruct (Z.odd u); [rewrite E by reflexivity; reflexivity|destruct (Z.odd v); reflexivity].
  - intros p s _ St P _.
    assert (F : forall i, s i "n" = VZ (if (p i <? 2)%Z then 0 else 2)%Z /\ (p (S i) <? 2)%Z = negb (p i <? 2)%Z).
    { intro i. destruct (P i) as [E A]. destruct (V _ _ A) as [_ V2]. apply jump_edges in E. destruct E as (_ & _ & E & _). split; [exact V2|]. rewrite E, negb_involutive. reflexivity. }
    split; [|split].
    + intros e J. apply (St s); [apply (P 0)|apply in_app_iff; auto].
    + intros e J k. cbn in J. destruct J as [<-|[]]. unfold strue. destruct (F k) as [F1 F2]. destruct (F (S k)) as [F3 _]. cbn. rewrite F1, F3, F2. destruct (p k <? 2)%Z; reflexivity.
    + intros e J k. cbn in J. destruct J as [<-|[]]. unfold strue. destruct (F k) as [F1 F2]. destruct (p k <? 2)%Z eqn:E.
      * exists (S k). split; [lia|]. destruct (F (S k)) as [F3 _]. rewrite F2 in F3. cbn. rewrite F3. reflexivity.
      * exists k. split; [lia|]. cbn. rewrite F1. reflexivity.
Qed.
Example jump_case : exists m P Q,
  synthesize Z.eqb (-1)%Z M_Slugsin.isinit (fun _ => Ok None) (slugs_synthesize jump_tool) (fun _ => Ok None) (fun _ => Ok None) true jump None None false false true "slugs" = Ok (Some m) /\
  (forall text d dvars nodes, jump_tool text = Some (dvars, nodes) -> sl_document text = Some d -> slugs_answer d dvars nodes) /\
  snamed (env_vars jump) /\ snamed (sys_vars jump) /\
  (forall x t, In x (clauses jump) -> parse x = Some t -> sl_formula (spec_types jump) false t) /\
  (forall x t, In x (env_init jump ++ sys_init jump) -> parse x = Some t -> wt (spec_types jump) t) /\
  (forall k, In k (map fst (env_vars jump)) -> ~ In k (map fst (sys_vars jump))) /\
  (forall k, In k (map fst (env_vars jump)) \/ In k (map fst (sys_vars jump)) -> ~ In k T_Strategy.reserved) /\
  S_Gr1.env_part jump = Some P /\ S_Gr1.sys_part jump = Some Q /\
  List.length (M_Graph.g_edges (m_graph m)) = 8.
Proof.
  do 3 eexists. split; [vm_compute; reflexivity|]. split.
  { intros text d dv nodes H1 H2. unfold jump_tool in H1. destruct (text =? jump_text)%string eqn:E; [|discriminate]. apply String.eqb_eq in E. subst text.
    injection H1 as <- <-. rewrite (proj2 jump_text_ok) in H2. injection H2 as <-. exact jump_answer. }
  split; [intros kv [<-|[]]; reflexivity|]. split; [intros kv [<-|[]]; reflexivity|]. split.
  { assert (Tn : forall b, sl_term (spec_types jump) b (NVar "n") TyZ) by (intro b; apply slt_var; [reflexivity|discriminate|reflexivity]).
    assert (Fx : forall b, sl_formula (spec_types jump) b (NVar "x")) by (intro b; apply slf_var; reflexivity).
    assert (Tc : forall b v, number_text v = true -> sl_term (spec_types jump) b (NNum v) TyZ) by (intros; apply slt_num; auto).
    intros x t I P. cbn in I. repeat (destruct I as [<-|I]; [vm_compute in P; injection P as <-; repeat first
      [apply Tn|apply Fx|apply Tc; reflexivity|apply slf_bin; [cbn; solve [auto]| |]|apply slf_not|apply slf_next|apply slt_next|apply slt_arith; [cbn; solve [auto]| |]|apply slf_cmp; [cbn; solve [auto 6]| |]|eapply slf_eq; [cbn; solve [auto]| |]]|]). destruct I. }
  split. { intros x t I P. cbn in I. destruct I as [<-|[]]. vm_compute in P. injection P as <-. eapply wf_eq; [cbn; auto|apply wt_var; reflexivity|apply wt_num; reflexivity]. }
  split; [cbn; intuition congruence|]. split; [intros k K; vm_compute; cbn in K; intuition (subst; discriminate)|]. split; [vm_compute; reflexivity|]. split; [vm_compute; reflexivity|vm_compute; reflexivity].
Qed.
