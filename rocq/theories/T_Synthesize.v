(** C68: synthesis from a specification and transition systems. *)
From Coq Require Import List String Bool ZArith Arith Lia.
From Verif Require Import M_Dict L_Dict M_Graph L_Graph M_Machine S_Run L_Build L_Machine T_Convert T_Deadends M_Strategy S_Strategy T_Strategy.
From Verif Require Import M_Base M_Ast M_Parser M_Spec S_LTL S_Gr1 S_Form M_Form L_Form T_Form M_Synth S_Synth M_Synthesize S_Synthesize L_Synthesize.
Import ListNotations.
Open Scope string_scope.
Open Scope list_scope.
Open Scope nat_scope.

(** ** The specification given to the solver *)
(** With this quantification no initial value is left to the system. *)
Definition all_all : string := "\A \A".
(** The names of the variables for the states. *)
Definition sys_var (t : ts) : string := match ts_state_varname t with Some x => x | None => "loc" end.
Definition env_var (t : ts) : string := match ts_state_varname t with Some x => x | None => "eloc" end.

Lemma merge_step (b : bool) specs f f' r A S es P Q : env_part f = Some A -> sys_part f = Some S -> parse_all (sys_init f) = Some es ->
  env_part f' = env_part (if b then move_init f else f) -> sys_part f' = sys_part (if b then move_init f else f) ->
  spec_or specs f' = Ok r -> env_part specs = Some P -> sys_part specs = Some Q ->
  exists R T, env_part r = Some R /\ sys_part r = Some T /\
    (forall s, sat_part s R <-> sat_part s P /\ sat_part s A /\ (b = true -> forall e, In e es -> holds s 0 e)) /\
    (forall s, sat_part s T /\ (b = true -> forall e, In e es -> holds s 0 e) <-> sat_part s Q /\ sat_part s S).
Proof.
  intros HA HS Hes E1 E2 HO HP HQ. destruct (moved b f A S es HA HS Hes) as (A' & S' & EA & ES & MA & MS).
  rewrite <- E1 in EA. rewrite <- E2 in ES.
  destruct (or_meaning specs f' r P A' Q S' HO HP EA HQ ES) as (R & T & ER & ET & MR & MT).
  exists R, T. split; [exact ER|]. split; [exact ET|]. split; intro s.
  - rewrite (MR s), (MA s). reflexivity.
  - rewrite (MT s), <- (MS s). tauto.
Qed.
Lemma options_parts (b : bool) f t specs f' : copy_options f t specs = Ok f' ->
  env_part (if b then move_init f' else f') = env_part (if b then move_init f else f) /\
  sys_part (if b then move_init f' else f') = sys_part (if b then move_init f else f) /\
  env_part f' = env_part f /\ sys_part f' = sys_part f.
Proof. intro H. destruct (copy_options_parts _ _ _ _ H) as (mo & po & qi & ->). destruct b; repeat split; reflexivity. Qed.

(** What the specification given to the solver says: the assumptions and guarantees of the user,
    that the systems are executed, and, if no initial value is left to the system, the initial
    conditions of the systems as assumptions. *)
Theorem spec_plus_sys_meaning : forall specs env sys ie is r P Q,
  spec_plus_sys specs env sys ie is = Ok r ->
  (forall t, sys = Some t -> good_fts (ts_fts t) /\ S_Gr1.ident (sys_var t)) ->
  (forall t, env = Some t -> good_env (ts_fts t) /\ S_Gr1.ident (env_var t)) ->
  env_part specs = Some P -> sys_part specs = Some Q ->
  exists R T, env_part r = Some R /\ sys_part r = Some T /\
  forall s, (forall t, sys = Some t -> is = true -> located (ts_fts t) false (sys_var t) s) ->
    let first := (forall t, sys = Some t -> sys_starts (ts_fts t) is false false (sys_var t) s) /\
                 (forall t, env = Some t -> sys_counts (ts_fts t) false (s 0)) in
    (sat_part s R <-> sat_part s P /\
       (forall t, sys = Some t -> sys_allows (ts_fts t) false false (sys_var t) s) /\
       (forall t, env = Some t -> env_behaves (ts_fts t) ie false false (env_var t) s) /\
       (qinit specs = all_all -> first)) /\
    (sat_part s T /\ (qinit specs = all_all -> first) <->
       sat_part s Q /\
       (forall t, sys = Some t -> sys_executes (ts_fts t) is false false (sys_var t) s) /\
       (forall t, env = Some t -> forall i, sys_counts (ts_fts t) false (s i))).
Proof.
  intros specs env sys ie is r P Q H Gs Ge HP HQ. unfold spec_plus_sys in H. apply bind_Ok in H. destruct H as (r1 & H1 & H2).
  assert (X1 : qinit r1 = qinit specs /\ exists R T, env_part r1 = Some R /\ sys_part r1 = Some T /\
    forall s, (forall t, sys = Some t -> is = true -> located (ts_fts t) false (sys_var t) s) ->
    (sat_part s R <-> sat_part s P /\
       (forall t, sys = Some t -> sys_allows (ts_fts t) false false (sys_var t) s) /\
       (qinit specs = all_all -> (forall t, sys = Some t -> sys_starts (ts_fts t) is false false (sys_var t) s))) /\
    (sat_part s T /\ (qinit specs = all_all -> (forall t, sys = Some t -> sys_starts (ts_fts t) is false false (sys_var t) s)) <->
       sat_part s Q /\
       (forall t, sys = Some t -> sys_executes (ts_fts t) is false false (sys_var t) s))).
  { destruct sys as [t|].
    - apply bind_Ok in H1. destruct H1 as (f & Ef & H1). apply bind_Ok in H1. destruct H1 as (f' & Ec & H1).
      destruct (Gs t eq_refl) as [Gt It]. change (statevar t "loc") with (sys_var t) in Ef.
      destruct (sys_clauses _ _ _ _ _ _ Gt It Ef) as (A & S & es & EA & ES & Ees & MA & MS & Me).
      destruct (options_parts (qinit specs =? "\A \A")%string _ _ _ _ Ec) as (O1 & O2 & _).
      split; [apply (or_options _ _ _ H1)|].
      destruct (merge_step (qinit specs =? "\A \A")%string specs f _ r1 A S es P Q EA ES Ees O1 O2 H1 HP HQ) as (R & T & ER & ET & MR & MT).
      exists R, T. split; [exact ER|]. split; [exact ET|]. intros s Hl.
      specialize (MR s). specialize (MT s). rewrite String.eqb_eq, (Me s) in MR. rewrite String.eqb_eq, (Me s) in MT.
      rewrite (MA s) in MR. rewrite (MS s (Hl t eq_refl)) in MT. fold all_all in MR, MT.
      assert (E1 : forall X : ts -> Prop, (forall t0, Some t = Some t0 -> X t0) <-> X t) by (intro X; split; [auto|intros K t' [= <-]; exact K]).
      rewrite !E1. split; [rewrite MR; tauto|exact MT].
    - injection H1 as <-. split; [reflexivity|]. exists P, Q. split; [exact HP|]. split; [exact HQ|]. intros s _.
      assert (E1 : forall X : ts -> Prop, (forall t0, None = Some t0 -> X t0) <-> True) by (intro X; split; [auto|intros _ t' [=]]).
      rewrite !E1. tauto. }
  destruct X1 as (Eq1 & P1 & Q1 & HP1 & HQ1 & M1).
  destruct env as [t|].
  - apply bind_Ok in H2. destruct H2 as (f & Ef & H2). apply bind_Ok in H2. destruct H2 as (f' & Ec & H2).
    destruct (Ge t eq_refl) as [Gt It]. change (statevar t "eloc") with (env_var t) in Ef.
    destruct (env_clauses _ _ _ _ _ _ Gt It Ef) as (A & S & es & EA & ES & Ees & MA & MS & Me).
    destruct (options_parts false _ _ _ _ Ec) as (_ & _ & O1 & O2).
    destruct (merge_step (qinit r1 =? "\A \A")%string r1 f _ r A S es P1 Q1 EA ES Ees O1 O2 H2 HP1 HQ1) as (R & T & ER & ET & MR & MT).
    exists R, T. split; [exact ER|]. split; [exact ET|]. intros s Hl. destruct (M1 s Hl) as [M1a M1b].
    specialize (MR s). specialize (MT s). rewrite String.eqb_eq, Eq1, (Me s) in MR. rewrite String.eqb_eq, Eq1, (Me s) in MT.
    fold all_all in MR, MT. rewrite (MA s) in MR. rewrite (MS s) in MT.
    assert (E1 : forall X : ts -> Prop, (forall t0, Some t = Some t0 -> X t0) <-> X t) by (intro X; split; [auto|intros K t' [= <-]; exact K]).
    cbv zeta. rewrite !E1. split; [rewrite MR, M1a; tauto|]. split.
    + intros [K1 K2]. assert (K3 : sat_part s T /\ (qinit specs = all_all -> sys_counts (ts_fts t) false (s 0))) by (split; [exact K1|apply K2]).
      apply (proj1 MT) in K3. destruct K3 as [K3 K4]. assert (K5 := proj1 M1b (Logic.conj K3 (fun e => proj1 (K2 e)))). tauto.
    + intros (K1 & K2 & K3). destruct (proj2 M1b (Logic.conj K1 K2)) as [K4 K5]. destruct (proj2 MT (Logic.conj K4 K3)) as [K6 K7]. tauto.
  - injection H2 as <-. exists P1, Q1. split; [exact HP1|]. split; [exact HQ1|]. intros s Hl. destruct (M1 s Hl) as [M1a M1b].
    assert (E1 : forall X : ts -> Prop, (forall t0, None = Some t0 -> X t0) <-> True) by (intro X; split; [auto|intros _ t' [=]]).
    cbv zeta. rewrite !E1. tauto.
Qed.

(** The options of the result are those of the user; a system that has options must agree. *)
Theorem spec_plus_sys_options : forall specs env sys ie is r,
  spec_plus_sys specs env sys ie is = Ok r ->
  (moore r = moore specs /\ plus_one r = plus_one specs /\ qinit r = qinit specs) /\
  forall t mo, sys = Some t \/ env = Some t -> ts_moore t = Some mo ->
    mo = moore specs /\ ts_plus_one t = Some (plus_one specs) /\ ts_qinit t = Some (qinit specs).
Proof.
  intros specs env sys ie is r H. unfold spec_plus_sys in H. apply bind_Ok in H. destruct H as (r1 & H1 & H2).
  assert (C : forall f t g f' (b : bool) r', copy_options f t g = Ok f' -> spec_or g (if b then move_init f' else f') = Ok r' ->
    (moore r' = moore g /\ plus_one r' = plus_one g /\ qinit r' = qinit g) /\
    forall mo, ts_moore t = Some mo -> mo = moore g /\ ts_plus_one t = Some (plus_one g) /\ ts_qinit t = Some (qinit g)).
  { intros f t g f' b r' Hc Ho. destruct (or_options _ _ _ Ho) as (A1 & A2 & A3 & A4 & A5 & A6). split; [auto|].
    intros mo E. unfold copy_options in Hc. rewrite E in Hc. destruct (ts_plus_one t) as [po|]; [|discriminate]. cbn [of_opt bind] in Hc.
    destruct (ts_qinit t) as [qi|]; [|discriminate]. cbn [of_opt bind] in Hc. injection Hc as <-.
    destruct b; cbn in A4, A5, A6; subst; auto. }
  assert (X1 : (moore r1 = moore specs /\ plus_one r1 = plus_one specs /\ qinit r1 = qinit specs) /\
    forall t mo, sys = Some t -> ts_moore t = Some mo -> mo = moore specs /\ ts_plus_one t = Some (plus_one specs) /\ ts_qinit t = Some (qinit specs)).
  { destruct sys as [t|]; [|injection H1 as <-; split; [auto|intros t mo [=]]].
    apply bind_Ok in H1. destruct H1 as (f & Ef & H1). apply bind_Ok in H1. destruct H1 as (f' & Ec & H1).
    destruct (C _ _ _ _ _ _ Ec H1) as [A B]. split; [exact A|]. intros t' mo [= <-]. apply B. }
  destruct X1 as [(A1 & A2 & A3) A4].
  destruct env as [t|]; [|injection H2 as <-; split; [auto|intros t mo [E|[=]]; apply A4, E]].
  apply bind_Ok in H2. destruct H2 as (f & Ef & H2). apply bind_Ok in H2. destruct H2 as (f' & Ec & H2).
  destruct (C _ _ _ _ false _ Ec H2) as [(B1 & B2 & B3) B4]. rewrite B1, B2, B3. split; [auto|]. rewrite <- A1, <- A2, <- A3.
  intros t' mo [E|[= <-]]; [|apply B4]. rewrite A1, A2, A3. apply A4, E.
Qed.

(** ** From the strategy to the machine *)
Section Trim.
  Context {N : Type} (neqb : N -> N -> bool).
  Hypothesis neqb_eq : forall a b, neqb a b = true <-> a = b.
  Context (sinit : N) (isinit : grspec -> attrs Z -> res bool).
  Hypothesis isinit_ext : forall g d d', same_items d d' -> isinit g d = isinit g d'.
  Context (g : grspec) (A : @strategy N).
  Hypothesis Once : declared_once (env_vars g) (sys_vars g).
  Hypothesis Res : forall k, In k (map fst (env_vars g)) \/ In k (map fst (sys_vars g)) -> ~ In k T_Strategy.reserved.
  Hypothesis Form : strategy_form (env_vars g) (sys_vars g) A.

  Definition machine_of := strategy2mealy neqb (isinit g) sinit (env_vars g) (sys_vars g) A.

  Lemma whole_sound ctrl w : machine_of = Ok ctrl -> machine_runs ctrl w ->
    strategy_runs (env_vars g) (sys_vars g) A (starts_at (isinit g) A) w.
  Proof.
    destruct Once as [D1 D2 D3], Form as [F1 F2 F3 F4 F5 F6].
    intros H (q & Q0 & Qs).
    destruct (strategy2mealy_parts neqb neqb_eq _ sinit _ _ A D2 Res F1 F3 F4 F5 F6 (isinit_ext g) ctrl H)
      as [K [H1 [H2 [W [Ns [Hi [_ [_ [HK [_ [_ T]]]]]]]]]]].
    apply Hi in Q0.
    assert (St := fun i => step_iff sinit _ _ A D1 D2 D3 F6 ctrl K H1 H2 T _ _ _ (Qs i)).
    assert (Nq : forall i, In (q (S i)) (map fst (st_nodes A))).
    { intro i. destruct (St i) as [_ [d [J _]]]. apply (in_map fst) in J. exact J. }
    exists (fun i => q (S i)). split; [|split].
    - destruct (St 0) as [[E|[_ Iu]] _]; [exfalso; apply Ns; rewrite <- Q0; apply (F3 _ _ E)|]. apply (HK _ Iu).
    - intro i. destruct (St (S i)) as [[E|[E _]] _]; [exact E|]. exfalso. apply Ns. rewrite <- E. apply Nq.
    - intro i. destruct (St i) as [_ P]. exact P.
  Qed.
  Lemma whole_complete ctrl w : machine_of = Ok ctrl ->
    (forall u u' d d', starts_at (isinit g) A u -> starts_at (isinit g) A u' -> In (u, d) (st_nodes A) -> In (u', d') (st_nodes A) ->
       (forall k, In k (map fst (env_vars g)) \/ In k (map fst (sys_vars g)) -> lookup k d = lookup k d') -> u = u') ->
    strategy_runs (env_vars g) (sys_vars g) A (starts_at (isinit g) A) w -> machine_runs ctrl w.
  Proof.
    destruct Once as [D1 D2 D3], Form as [F1 F2 F3 F4 F5 F6].
    intros H Un (u & U0 & Ue & Us).
    destruct (strategy2mealy_parts neqb neqb_eq _ sinit _ _ A D2 Res F1 F3 F4 F5 F6 (isinit_ext g) ctrl H)
      as [K [H1 [H2 [W [Ns [Hi [_ [_ [HK [_ [Ha T]]]]]]]]]]].
    pose proof (parts_labels neqb neqb_eq (isinit g) sinit (env_vars g) (sys_vars g) A D2 Res F1 F3 F4 F5 F6 ctrl H) as Lb0.
    assert (Lb : forall a b d, (In (a, b) (st_edges A) \/ (a = sinit /\ In b K)) -> In (b, d) (st_nodes A) ->
      exists lab, M_Strategy.label (update (env_vars g) (sys_vars g)) d = Ok lab).
    { intros a b db [E|[-> Ib]] Jb; [eauto|].
      destruct (HK b Ib) as [_ [d1 [lab1 [Z1 Z2]]]]. assert (d1 = db) by (eapply unique_key; [exact F1|exact Z1|exact Jb]). subst d1. eauto. }
    assert (K0 : In (u 0) K).
    { destruct (Us 0) as [d [J _]]. destruct (Ha (u 0) d U0 J) as [u' [d' [Ku [J' Sv]]]].
      rewrite (Un (u 0) u' d d' U0 (proj1 (HK _ Ku)) J J' Sv). exact Ku. }
    exists (fun i => match i with 0 => sinit | S j => u j end). split; [apply Hi; reflexivity|].
    intro i. destruct (Us i) as [d [J [Si So]]].
    apply (step_iff' sinit _ _ A D1 D2 D3 F6 ctrl K H1 H2 T Lb _ (w i) (u i) d); auto.
    destruct i; [right; auto|left; apply Ue].
  Qed.

  (** Removing dead ends keeps the infinite runs. *)
  Lemma deadends_runs ctrl m w : machine_of = Ok ctrl -> machine_remove_deadends neqb ctrl = Ok m ->
    (machine_runs m w <-> machine_runs ctrl w).
  Proof.
    destruct Once as [D1 D2 D3], Form as [F1 F2 F3 F4 F5 F6]. intros H R.
    destruct (strategy2mealy_parts neqb neqb_eq _ sinit _ _ A D2 Res F1 F3 F4 F5 F6 (isinit_ext g) ctrl H)
      as [K [H1 [H2 [W [Ns [Hi [_ [Hn _]]]]]]]].
    assert (II : incl (g_init (m_graph ctrl)) (node_list (m_graph ctrl))) by (intros n I; apply Hn; left; apply Hi, I).
    destruct (remove_deadends_spec neqb neqb_eq (m_graph ctrl) (wf_nodes _ _ W) (wf_ends _ _ W) II) as [_ [Xe [Xi _]]].
    unfold machine_remove_deadends in R. destruct (remove_deadends neqb (m_graph ctrl)) as [g' [e|]]; [discriminate|]. cbn [fst] in Xe, Xi.
    injection R as <-. split.
    - intros (q & Q0 & Qs). exists q. cbn [m_graph] in *. split; [apply Xi, Q0|]. intro i. destruct (Qs i) as [e [I [E1 [E2 [R1 R2]]]]].
      cbn [m_graph m_in m_out] in *. exists e. split; [apply Xe, I|]. auto.
    - intros (q & Q0 & Qs).
      assert (P : forall i, inf_path (m_graph ctrl) (q i)).
      { intro i. exists (fun j => q (i + j)). split; [f_equal; lia|]. intro j. destruct (Qs (i + j)) as [e [I [E1 [E2 _]]]].
        exists e. split; [exact I|]. split; [exact E1|]. rewrite E2. f_equal. lia. }
      exists q. cbn [m_graph]. split; [apply Xi; auto|]. intro i. destruct (Qs i) as [e [I [E1 [E2 [R1 R2]]]]].
      exists e. cbn [m_graph m_in m_out]. split; [apply Xe; rewrite E1, E2; auto|]. auto.
  Qed.

  Lemma trim_inv o rm m : trim_strategy neqb sinit isinit o g rm = Ok (Some m) ->
    exists A' ctrl, o = Some A' /\ strategy2mealy neqb (isinit g) sinit (env_vars g) (sys_vars g) A' = Ok ctrl /\
      (rm = true -> machine_remove_deadends neqb ctrl = Ok m) /\ (rm = false -> m = ctrl).
  Proof.
    unfold trim_strategy. destruct o as [A'|]; [|discriminate]. intro H. apply bind_Ok in H. destruct H as (ctrl & Hc & H).
    exists A', ctrl. split; [reflexivity|]. split; [exact Hc|]. destruct rm.
    - apply bind_Ok in H. destruct H as (m' & Hm & H). injection H as <-. split; [auto|discriminate].
    - injection H as <-. split; [discriminate|auto].
  Qed.

  (** The machine has exactly the infinite words of the strategy, if different starts of the
      strategy have different values; in any case it has no others. *)
  Theorem trim_strategy_words : forall rm m, trim_strategy neqb sinit isinit (Some A) g rm = Ok (Some m) ->
    (forall w, machine_runs m w -> strategy_runs (env_vars g) (sys_vars g) A (starts_at (isinit g) A) w) /\
    ((forall u u' d d', starts_at (isinit g) A u -> starts_at (isinit g) A u' -> In (u, d) (st_nodes A) -> In (u', d') (st_nodes A) ->
       (forall k, In k (map fst (env_vars g)) \/ In k (map fst (sys_vars g)) -> lookup k d = lookup k d') -> u = u') ->
     forall w, strategy_runs (env_vars g) (sys_vars g) A (starts_at (isinit g) A) w -> machine_runs m w).
  Proof.
    intros rm m H. apply trim_inv in H. destruct H as (A' & ctrl & [= <-] & Hc & H1 & H2).
    assert (E : forall w, machine_runs m w <-> machine_runs ctrl w).
    { intro w. destruct rm; [apply (deadends_runs ctrl m w Hc (H1 eq_refl))|rewrite (H2 eq_refl); reflexivity]. }
    split; [intros w K; apply (whole_sound ctrl w Hc), E, K|]. intros Un w K. apply E, (whole_complete ctrl w Hc Un K).
  Qed.

  (** After the removal of dead ends the machine never gets stuck. *)
  Theorem trim_strategy_live : forall m, trim_strategy neqb sinit isinit (Some A) g true = Ok (Some m) ->
    forall n, In n (node_list (m_graph m)) -> exists x n', mealy_step m n x n'.
  Proof.
    intros m H n I. apply trim_inv in H. destruct H as (A' & ctrl & [= <-] & Hc & H1 & _). specialize (H1 eq_refl).
    destruct Once as [D1 D2 D3], Form as [F1 F2 F3 F4 F5 F6].
    destruct (strategy2mealy_parts neqb neqb_eq _ sinit _ _ A D2 Res F1 F3 F4 F5 F6 (isinit_ext g) ctrl Hc)
      as [K [P1 [P2 [W [Ns [Hi [_ [Hn _]]]]]]]].
    assert (II : incl (g_init (m_graph ctrl)) (node_list (m_graph ctrl))) by (intros k J; apply Hn; left; apply Hi, J).
    destruct (remove_deadends_spec neqb neqb_eq (m_graph ctrl) (wf_nodes _ _ W) (wf_ends _ _ W) II) as [Xn [Xe [Xi [Xd _]]]].
    unfold machine_remove_deadends in H1. destruct (remove_deadends neqb (m_graph ctrl)) as [g' [e|]]; [discriminate|]. cbn [fst] in *.
    injection H1 as <-. cbn [m_graph] in I. unfold node_list in I. apply in_map_iff in I. destruct I as [[n' a] [E I]]. cbn [fst] in E. subst n'.
    apply Xn in I. destruct I as [I P]. destruct (inf_path_step _ _ P) as [e [J [E1 P']]].
    exists (project_dict (e_attr e) (map fst (m_in ctrl)), project_dict (e_attr e) (map fst (m_out ctrl))), (e_dst e).
    exists e. cbn [m_graph m_in m_out fst snd]. split; [apply Xe; rewrite E1; auto|]. split; [exact E1|]. split; [reflexivity|].
    assert (Rs : forall ks, restricts ks (e_attr e) (project_dict (e_attr e) ks)).
    { intros ks k v. unfold project_dict. rewrite (lookup_filter_key (fun k => mem k ks) (e_attr e) k). destruct (mem k ks) eqn:M.
      - apply mem_In in M. tauto.
      - split; [discriminate|]. intros [J' _]. apply mem_In in J'. congruence. }
    split; apply Rs.
  Qed.

  (** Every word of the machine stands for a trace. *)
  Theorem trim_strategy_traces : forall rm m w, trim_strategy neqb sinit isinit (Some A) g rm = Ok (Some m) -> machine_runs m w ->
    exists s, trace_of (env_vars g) (sys_vars g) w s.
  Proof.
    intros rm m w H Hw. apply trim_inv in H. destruct H as (A' & ctrl & [= <-] & Hc & H1 & H2).
    assert (E : machine_runs ctrl w).
    { destruct rm; [apply (deadends_runs ctrl m w Hc (H1 eq_refl)), Hw|rewrite <- (H2 eq_refl); exact Hw]. }
    destruct Once as [D1 D2 D3], Form as [F1 F2 F3 F4 F5 F6].
    destruct (strategy2mealy_parts neqb neqb_eq _ sinit _ _ A D2 Res F1 F3 F4 F5 F6 (isinit_ext g) ctrl Hc)
      as [K [P1 [P2 [W [Ns [Hi [_ [Hn [_ [_ [_ T]]]]]]]]]]].
    set (all := update (env_vars g) (sys_vars g)) in *.
    assert (Fst : forall u d k, In (u, d) (st_nodes A) -> In k (map fst (env_vars g)) \/ In k (map fst (sys_vars g)) -> exists z, lookup k d = Some z).
    { intros u d k J Ik. apply lookup_name. unfold strategy2mealy in Hc. destruct (st_nodes A) as [|nd0 rest] eqn:En; [discriminate|].
      apply bind_Ok in Hc. destruct Hc as [g1 [_ Hc]]. fold all in Hc.
      destruct (forallb (fun k => mem k (names (snd nd0))) (names all)) eqn:Fa; [|discriminate].
      rewrite forallb_forall in Fa. apply (F5 (fst nd0) (snd nd0) u d k); [left; destruct nd0; reflexivity|exact J|].
      apply mem_In, Fa. apply (all_names (env_vars g) (sys_vars g) D2). exact Ik. }
    destruct E as (q & Q0 & Qs).
    assert (V : forall i k dm, (lookup k (env_vars g) = Some dm -> exists v x, lookup k (fst (w i)) = Some v /\ reads dm v x) /\
                               (lookup k (sys_vars g) = Some dm -> exists v x, lookup k (snd (w i)) = Some v /\ reads dm v x)).
    { intros i k dm. destruct (Qs i) as [e [I [E1 [E2 [R1 R2]]]]].
      assert (X : trans (m_graph ctrl) (q i) (e_attr e) (q (S i))) by (exists e; repeat split; auto; intro; reflexivity).
      apply T in X. destruct X as [_ [d [lab [J [L Sm]]]]]. rewrite P1, ports_names in R1. rewrite P2, ports_names in R2.
      destruct (label_shows (env_vars g) (sys_vars g) A D1 D2 D3 F6 _ d lab (fst (w i)) (snd (w i)) J L) as [Li Lo].
      assert (Y : forall vs y, (forall k, In k (map fst vs) -> In k (map fst (env_vars g)) \/ In k (map fst (sys_vars g))) ->
        (forall dm0, lookup k vs = Some dm0 -> lookup k all = Some dm0) ->
        restricts (map fst vs) (e_attr e) y -> lookup k vs = Some dm -> exists v x, lookup k y = Some v /\ reads dm v x).
      { intros vs y Hk Ha Ry Lk. assert (Ik : In k (map fst vs)) by (apply lookup_name; eauto).
        destruct (Fst _ d k J (Hk k Ik)) as [z Lz].
        assert (Il : In k (map fst lab)).
        { rewrite (int2str_keys _ _ _ L). apply lookup_name. rewrite (lookup_filter_key (fun k => mem k (names all)) d k).
          assert (M : mem k (names all) = true) by (apply mem_In, lookup_name; exists dm; apply Ha, Lk). rewrite M. eauto. }
        apply lookup_name in Il. destruct Il as [v Lv].
        destruct (proj1 (label_lookup (env_vars g) (sys_vars g) A D1 D2 F6 _ d lab k v J L) Lv) as [dm' [z' [La [Lz' St]]]].
        fold all in La. rewrite (Ha dm Lk) in La. injection La as <-.
        exists v. assert (Ly : lookup k y = Some v) by (apply Ry; split; [exact Ik|rewrite <- (Sm k); exact Lv]).
        destruct dm as [|lo hi|l]; cbn [stands] in St.
        - subst v. eexists. split; [exact Ly|]. cbn. reflexivity.
        - subst v. eexists. split; [exact Ly|]. cbn. reflexivity.
        - destruct St as [j [a [_ [_ ->]]]]. eexists. split; [exact Ly|]. cbn. reflexivity. }
      split; intro Lk.
      - apply (Y (env_vars g) (fst (w i))); auto. intros dm0 L0. unfold all. rewrite (all_lookup (env_vars g) (sys_vars g) D2).
        destruct (lookup k (sys_vars g)) eqn:Q; [|exact L0]. exfalso. apply (D3 k); apply lookup_name; eauto.
      - apply (Y (sys_vars g) (snd (w i))); auto. intros dm0 L0. unfold all. rewrite (all_lookup (env_vars g) (sys_vars g) D2), L0. reflexivity. }
    exists (fun i k =>
      let val := fun dm v => match dm, v with
                             | DBool, VInt z => VB (negb (z =? 0)%Z) | DInt _ _, VInt z => VZ z | DEnum _, VStr a => VS a
                             | _, _ => VB false end in
      match lookup k (env_vars g), lookup k (fst (w i)) with
      | Some dm, Some v => val dm v
      | _, _ => match lookup k (sys_vars g), lookup k (snd (w i)) with Some dm, Some v => val dm v | _, _ => VB false end
      end).
    assert (Rv : forall dm v x, reads dm v x -> reads dm v (match dm, v with
                             | DBool, VInt z => VB (negb (z =? 0)%Z) | DInt _ _, VInt z => VZ z | DEnum _, VStr a => VS a
                             | _, _ => VB false end)).
    { intros dm v x Rx. destruct dm, v; cbn in *; auto. }
    intros i k dm. destruct (V i k dm) as [V1 V2]. split; intro L.
    - destruct (V1 L) as (v & x & Lv & Rx). exists v. split; [exact Lv|]. cbv zeta. rewrite L, Lv. apply (Rv _ _ _ Rx).
    - destruct (V2 L) as (v & x & Lv & Rx). exists v. split; [exact Lv|]. cbv zeta.
      destruct (lookup k (env_vars g)) eqn:Q; [exfalso; apply (D3 k); apply lookup_name; eauto|]. rewrite L, Lv. apply (Rv _ _ _ Rx).
  Qed.
End Trim.
Print Assumptions spec_plus_sys_meaning.
Print Assumptions spec_plus_sys_options.
Print Assumptions trim_strategy_words.
Print Assumptions trim_strategy_live.
Print Assumptions trim_strategy_traces.

(** ** Synthesis *)
Lemma or_nodup a b r : spec_or a b = Ok r -> NoDup (map fst (env_vars a)) -> NoDup (map fst (sys_vars a)) ->
  NoDup (map fst (env_vars r)) /\ NoDup (map fst (sys_vars r)).
Proof.
  intro H. apply or_inv in H. destruct H as (_ & _ & _ & _ & _ & _ & ->). cbn [env_vars sys_vars]. intros. split; apply dupdate_nodup; assumption.
Qed.
Lemma spec_plus_sys_nodup specs env sys ie is r : spec_plus_sys specs env sys ie is = Ok r ->
  NoDup (map fst (env_vars specs)) -> NoDup (map fst (sys_vars specs)) ->
  NoDup (map fst (env_vars r)) /\ NoDup (map fst (sys_vars r)).
Proof.
  intros H N1 N2. unfold spec_plus_sys in H. apply bind_Ok in H. destruct H as (r1 & H1 & H2).
  assert (X : NoDup (map fst (env_vars r1)) /\ NoDup (map fst (sys_vars r1))).
  { destruct sys as [t|]; [|injection H1 as <-; auto]. apply bind_Ok in H1. destruct H1 as (f & _ & H1). apply bind_Ok in H1. destruct H1 as (f' & _ & H1).
    apply (or_nodup _ _ _ H1 N1 N2). }
  destruct X as [X1 X2]. destruct env as [t|]; [|injection H2 as <-; auto].
  apply bind_Ok in H2. destruct H2 as (f & _ & H2). apply bind_Ok in H2. destruct H2 as (f' & _ & H2). apply (or_nodup _ _ _ H2 X1 X2).
Qed.

Section Correct.
  Context {N : Type} (neqb : N -> N -> bool).
  Hypothesis neqb_eq : forall a b, neqb a b = true <-> a = b.
  Context (sinit : N) (isinit : grspec -> attrs Z -> res bool).
  Hypothesis isinit_ext : forall g d d', same_items d d' -> isinit g d = isinit g d'.
  Context (gr1c slugs gr1py omega : grspec -> res (option (@strategy N))) (slugs_imported : bool).

  (** What is expected of the solver for this specification. *)
  Definition solves (solver : string) (g : grspec) : Prop :=
    forall A, call_solver gr1c slugs gr1py omega slugs_imported solver g = Ok (Some A) ->
      strategy_form (env_vars g) (sys_vars g) A /\ wins (isinit g) g A.

  Lemma solved (g : grspec) solver rm m P Q :
    synthesize_spec neqb sinit isinit gr1c slugs gr1py omega slugs_imported g solver rm = Ok (Some m) ->
    solves solver g -> declared_once (env_vars g) (sys_vars g) ->
    (forall k, In k (map fst (env_vars g)) \/ In k (map fst (sys_vars g)) -> ~ In k T_Strategy.reserved) ->
    env_part g = Some P -> sys_part g = Some Q ->
    forall w, machine_runs m w ->
      (exists s, trace_of (env_vars g) (sys_vars g) w s) /\
      forall s, trace_of (env_vars g) (sys_vars g) w s -> sat_part s P -> sat_part s Q.
  Proof.
    intros H Sol Once Res HP HQ w Hw. unfold synthesize_spec in H. apply bind_Ok in H. destruct H as (o & Ho & H).
    destruct (trim_inv neqb sinit isinit g o rm m H) as (A & _ & -> & _). destruct (Sol A Ho) as [Fm Wn]. split.
    - apply (trim_strategy_traces neqb neqb_eq sinit isinit isinit_ext g A Once Res Fm rm m w H Hw).
    - intros s Ht Hs. apply (Wn P Q HP HQ w s); auto.
      apply (proj1 (trim_strategy_words neqb neqb_eq sinit isinit isinit_ext g A Once Res Fm rm m H) w Hw).
  Qed.

  (** The machine makes the guarantees of the user hold, and executes the system, on every
      infinite run on which the assumptions of the user hold and the environment is executed. *)
  Theorem synthesize_correct : forall specs env sys ie is rm solver m P Q r,
    synthesize neqb sinit isinit gr1c slugs gr1py omega slugs_imported specs env sys ie is rm solver = Ok (Some m) ->
    spec_plus_sys specs env sys ie is = Ok r ->
    solves solver r ->
    NoDup (map fst (env_vars specs)) -> NoDup (map fst (sys_vars specs)) ->
    (forall k, In k (map fst (env_vars r)) -> ~ In k (map fst (sys_vars r))) ->
    (forall k, In k (map fst (env_vars r)) \/ In k (map fst (sys_vars r)) -> ~ In k T_Strategy.reserved) ->
    (forall t, sys = Some t -> good_fts (ts_fts t) /\ S_Gr1.ident (sys_var t)) ->
    (forall t, env = Some t -> good_env (ts_fts t) /\ S_Gr1.ident (env_var t)) ->
    env_part specs = Some P -> sys_part specs = Some Q ->
    forall w, machine_runs m w ->
      (exists s, trace_of (env_vars r) (sys_vars r) w s) /\
      forall s, trace_of (env_vars r) (sys_vars r) w s ->
        (forall t, sys = Some t -> is = true -> located (ts_fts t) false (sys_var t) s) ->
        sat_part s P ->
        (forall t, sys = Some t -> sys_allows (ts_fts t) false false (sys_var t) s) ->
        (forall t, env = Some t -> env_behaves (ts_fts t) ie false false (env_var t) s) ->
        (qinit specs = all_all ->
           (forall t, sys = Some t -> sys_starts (ts_fts t) is false false (sys_var t) s) /\
           (forall t, env = Some t -> sys_counts (ts_fts t) false (s 0))) ->
        sat_part s Q /\
        (forall t, sys = Some t -> sys_executes (ts_fts t) is false false (sys_var t) s) /\
        (forall t, env = Some t -> forall i, sys_counts (ts_fts t) false (s i)).
  Proof.
    intros specs env sys ie is rm solver m P Q r H Hr Sol N1 N2 Dj Res Gs Ge HP HQ w Hw.
    unfold synthesize in H. rewrite Hr in H. cbn [bind] in H.
    destruct (spec_plus_sys_meaning specs env sys ie is r P Q Hr Gs Ge HP HQ) as (R & T & HR & HT & M).
    destruct (spec_plus_sys_nodup _ _ _ _ _ _ Hr N1 N2) as [N1' N2'].
    destruct (solved r solver rm m R T H Sol (Build_declared_once _ _ N1' N2' Dj) Res HR HT w Hw) as [Ex K].
    split; [exact Ex|]. intros s Ht Hl A1 A2 A3 A4. destruct (M s Hl) as [M1 M2].
    apply M2. split; [|exact A4]. apply (K s Ht), M1. auto.
  Qed.

  (** No machine is returned exactly if the solver returns no strategy. *)
  Theorem synthesize_none : forall specs env sys ie is rm solver,
    synthesize neqb sinit isinit gr1c slugs gr1py omega slugs_imported specs env sys ie is rm solver = Ok None <->
    exists r, spec_plus_sys specs env sys ie is = Ok r /\
      (solver = "gr1c" /\ gr1c r = Ok None \/ solver = "slugs" /\ slugs_imported = true /\ slugs r = Ok None \/
       solver = "gr1py" /\ gr1py r = Ok None \/ solver = "omega" /\ omega r = Ok None).
  Proof.
    intros. unfold synthesize. destruct (spec_plus_sys specs env sys ie is) as [r|e]; cbn [bind]; [|split; [discriminate|intros (r & [=] & _)]].
    assert (X : synthesize_spec neqb sinit isinit gr1c slugs gr1py omega slugs_imported r solver rm = Ok None <->
      call_solver gr1c slugs gr1py omega slugs_imported solver r = Ok None).
    { unfold synthesize_spec. destruct (call_solver _ _ _ _ _ solver r) as [[A|]|e]; cbn [bind]; [|split; intros _; reflexivity|split; discriminate].
      split; [|discriminate]. unfold trim_strategy. intro H. apply bind_Ok in H. destruct H as (c & _ & H). destruct rm; [|discriminate].
      apply bind_Ok in H. destruct H as (c' & _ & H). discriminate. }
    rewrite X. unfold call_solver. split.
    - intro H. exists r. split; [reflexivity|].
      destruct (String.eqb_spec solver "gr1c"); [auto|]. destruct (String.eqb_spec solver "slugs"); [destruct slugs_imported; [auto|discriminate]|].
      destruct (String.eqb_spec solver "gr1py"); [auto|]. destruct (String.eqb_spec solver "omega"); [auto 6|discriminate].
    - intros (r' & [= <-] & [[-> H]|[(-> & -> & H)|[[-> H]|[-> H]]]]); exact H.
  Qed.

  (** ** Many systems *)
  Definition all_of (who : string) (tss : list (string * ts)) (X : string -> fts -> Prop) : Prop :=
    forall n t, In (n, t) tss -> f_owner (ts_fts t) = who -> X n (ts_fts t).
  Lemma all_of_cons who n t tss X : all_of who ((n, t) :: tss) X <-> (f_owner (ts_fts t) = who -> X n (ts_fts t)) /\ all_of who tss X.
  Proof.
    unfold all_of. split.
    - intro H. split; [intro E; apply H; [left; reflexivity|exact E]|intros n' t' I; apply H; right; exact I].
    - intros [H1 H2] n' t' [[= <- <-]|I]; auto.
  Qed.
  Lemma all_of_nil who X : all_of who [] X <-> True.
  Proof. split; [auto|intros _ n t []]. Qed.
  Lemma mem_ig n ig : mem n ig = true <-> In n ig. Proof. apply mem_In. Qed.

  (** The specification given to the solver: the clauses of the user, and that the systems are
      executed, each with the variable of its name. *)
  Theorem spec_plus_many_meaning : forall tss ig specs r P Q,
    spec_plus_many specs (Some tss) (Some ig) = Ok r ->
    (forall n t, In (n, t) tss -> S_Gr1.ident n /\ good_env (ts_fts t)) ->
    env_part specs = Some P -> sys_part specs = Some Q ->
    exists R T, env_part r = Some R /\ sys_part r = Some T /\
    forall s, all_of "sys" tss (fun n t => In n ig -> located t false n s) ->
      (sat_part s R <-> sat_part s P /\
         all_of "sys" tss (fun n t => sys_allows t false false n s) /\
         all_of "env" tss (fun n t => env_behaves t (mem n ig) false false n s)) /\
      (sat_part s T <-> sat_part s Q /\
         all_of "sys" tss (fun n t => sys_executes t (mem n ig) false false n s) /\
         all_of "env" tss (fun n t => forall i, sys_counts t false (s i))).
  Proof.
    intros tss ig. unfold spec_plus_many. cbn [of_opt bind]. induction tss as [|[n t] tss IH]; intros specs r P Q H G HP HQ; cbn [fold_res] in H.
    - injection H as <-. exists P, Q. split; [exact HP|]. split; [exact HQ|]. intros s _. rewrite !all_of_nil. tauto.
    - apply bind_Ok in H. destruct H as (r1 & H1 & H). destruct (G n t (or_introl eq_refl)) as [In_ Gt].
      assert (X : exists P1 Q1, env_part r1 = Some P1 /\ sys_part r1 = Some Q1 /\
        forall s, (f_owner (ts_fts t) = "sys" -> In n ig -> located (ts_fts t) false n s) ->
        (sat_part s P1 <-> sat_part s P /\ (f_owner (ts_fts t) = "sys" -> sys_allows (ts_fts t) false false n s) /\
           (f_owner (ts_fts t) = "env" -> env_behaves (ts_fts t) (mem n ig) false false n s)) /\
        (sat_part s Q1 <-> sat_part s Q /\ (f_owner (ts_fts t) = "sys" -> sys_executes (ts_fts t) (mem n ig) false false n s) /\
           (f_owner (ts_fts t) = "env" -> forall i, sys_counts (ts_fts t) false (s i)))).
      { unfold many_step in H1. cbn [of_opt bind fst snd] in H1.
        destruct (String.eqb_spec (f_owner (ts_fts t)) "sys") as [E|Ne].
        - apply bind_Ok in H1. destruct H1 as (f & Ef & H1). apply bind_Ok in H1. destruct H1 as (f' & Ec & H1).
          destruct (sys_clauses _ _ _ _ _ _ (proj1 Gt) In_ Ef) as (A & S & es & EA & ES & Ees & MA & MS & Me).
          destruct (options_parts false _ _ _ _ Ec) as (_ & _ & O1 & O2).
          destruct (merge_step false specs f f' r1 A S es P Q EA ES Ees O1 O2 H1 HP HQ) as (R & T & ER & ET & MR & MT).
          exists R, T. split; [exact ER|]. split; [exact ET|]. intros s Hl. specialize (MR s). specialize (MT s).
          rewrite (MA s) in MR. rewrite (MS s (fun e => Hl E (proj1 (mem_ig _ _) e))) in MT. rewrite E. split; [rewrite MR; intuition discriminate|].
          split; [intro K; assert (K' := proj1 MT (Logic.conj K (fun e : false = true => match Bool.diff_false_true e with end))); intuition discriminate|].
          intros (K1 & K2 & _). apply MT. auto.
        - destruct (String.eqb_spec (f_owner (ts_fts t)) "env") as [E|Ne'].
          + apply bind_Ok in H1. destruct H1 as (f & Ef & H1). apply bind_Ok in H1. destruct H1 as (f' & Ec & H1).
            destruct (env_clauses _ _ _ _ _ _ Gt In_ Ef) as (A & S & es & EA & ES & Ees & MA & MS & Me).
            destruct (options_parts false _ _ _ _ Ec) as (_ & _ & O1 & O2).
            destruct (merge_step false specs f f' r1 A S es P Q EA ES Ees O1 O2 H1 HP HQ) as (R & T & ER & ET & MR & MT).
            exists R, T. split; [exact ER|]. split; [exact ET|]. intros s _. specialize (MR s). specialize (MT s).
            rewrite (MA s) in MR. rewrite (MS s) in MT. split; [rewrite MR; intuition discriminate|].
            split; [intro K; assert (K' := proj1 MT (Logic.conj K (fun e : false = true => match Bool.diff_false_true e with end))); intuition discriminate|].
            intros (K1 & _ & K2). apply MT. auto.
          + injection H1 as <-. exists P, Q. split; [exact HP|]. split; [exact HQ|]. intros s _. split; intuition congruence. }
      destruct X as (P1 & Q1 & HP1 & HQ1 & M1).
      destruct (IH r1 r P1 Q1 H (fun n' t' I => G n' t' (or_intror I)) HP1 HQ1) as (R & T & HR & HT & M).
      exists R, T. split; [exact HR|]. split; [exact HT|]. intros s Hl. rewrite all_of_cons in Hl. destruct Hl as [Hl1 Hl2].
      destruct (M s Hl2) as [Ma Mb]. destruct (M1 s Hl1) as [M1a M1b]. rewrite !all_of_cons, Ma, Mb, M1a, M1b. tauto.
  Qed.
  Lemma spec_plus_many_nodup ig : forall tss specs r, spec_plus_many specs (Some tss) (Some ig) = Ok r ->
    NoDup (map fst (env_vars specs)) -> NoDup (map fst (sys_vars specs)) ->
    NoDup (map fst (env_vars r)) /\ NoDup (map fst (sys_vars r)).
  Proof.
    unfold spec_plus_many. cbn [of_opt bind]. induction tss as [|[n t] tss IH]; intros specs r H N1 N2; cbn [fold_res] in H; [injection H as <-; auto|].
    apply bind_Ok in H. destruct H as (r1 & H1 & H). unfold many_step in H1. cbn [of_opt bind fst snd] in H1.
    assert (X : NoDup (map fst (env_vars r1)) /\ NoDup (map fst (sys_vars r1))); [|destruct X; apply (IH r1 r H); auto].
    destruct (f_owner (ts_fts t) =? "sys")%string; [|destruct (f_owner (ts_fts t) =? "env")%string; [|injection H1 as <-; auto]];
      (apply bind_Ok in H1; destruct H1 as (f & _ & H1); apply bind_Ok in H1; destruct H1 as (f' & _ & H1); apply (or_nodup _ _ _ H1 N1 N2)).
  Qed.

  Theorem synthesize_many_correct : forall specs tss ig solver m P Q r,
    synthesize_many neqb sinit isinit gr1c slugs gr1py omega slugs_imported specs (Some tss) (Some ig) solver = Ok (Some m) ->
    spec_plus_many specs (Some tss) (Some ig) = Ok r ->
    solves solver r ->
    NoDup (map fst (env_vars specs)) -> NoDup (map fst (sys_vars specs)) ->
    (forall k, In k (map fst (env_vars r)) -> ~ In k (map fst (sys_vars r))) ->
    (forall k, In k (map fst (env_vars r)) \/ In k (map fst (sys_vars r)) -> ~ In k T_Strategy.reserved) ->
    (forall n t, In (n, t) tss -> S_Gr1.ident n /\ good_env (ts_fts t)) ->
    env_part specs = Some P -> sys_part specs = Some Q ->
    forall w, machine_runs m w ->
      (exists s, trace_of (env_vars r) (sys_vars r) w s) /\
      forall s, trace_of (env_vars r) (sys_vars r) w s ->
        all_of "sys" tss (fun n t => In n ig -> located t false n s) ->
        sat_part s P ->
        all_of "sys" tss (fun n t => sys_allows t false false n s) ->
        all_of "env" tss (fun n t => env_behaves t (mem n ig) false false n s) ->
        sat_part s Q /\
        all_of "sys" tss (fun n t => sys_executes t (mem n ig) false false n s) /\
        all_of "env" tss (fun n t => forall i, sys_counts t false (s i)).
  Proof.
    intros specs tss ig solver m P Q r H Hr Sol N1 N2 Dj Res G HP HQ w Hw.
    unfold synthesize_many in H. rewrite Hr in H. cbn [bind] in H.
    destruct (spec_plus_many_meaning tss ig specs r P Q Hr G HP HQ) as (R & T & HR & HT & M).
    destruct (spec_plus_many_nodup _ _ _ _ Hr N1 N2) as [N1' N2'].
    destruct (solved r solver true m R T H Sol (Build_declared_once _ _ N1' N2' Dj) Res HR HT w Hw) as [Ex K].
    split; [exact Ex|]. intros s Ht Hl A1 A2 A3. destruct (M s Hl) as [M1 M2]. apply M2, (K s Ht), M1. auto.
  Qed.
End Correct.
Print Assumptions synthesize_correct.
Print Assumptions synthesize_none.
Print Assumptions spec_plus_many_meaning.
Print Assumptions synthesize_many_correct.
