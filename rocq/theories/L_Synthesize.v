(** Lemmas for T_Synthesize. *)
From Coq Require Import List String Bool ZArith Arith Lia.
From Verif Require Import M_Dict L_Dict M_Graph L_Graph M_Machine S_Run L_Build L_Machine T_Convert T_Deadends M_Strategy S_Strategy T_Strategy.
From Verif Require Import M_Base M_Ast M_Parser M_Spec S_LTL S_Gr1 S_Form M_Form L_Form L_Den M_Synth S_Synth L_Synth L_Synth2 L_Synth3 L_Synth4 L_Gr1 M_Synthesize S_Synthesize.
Import ListNotations.
Open Scope string_scope.
Open Scope list_scope.
Open Scope nat_scope.

(** ** The first step of a system *)
Lemma sys_starts_init t ignore var bs ba g : good_fts t -> ident var -> sys_to_spec t ignore var bs ba = Ok g ->
  exists es, parse_all (sys_init g) = Some es /\
    forall s, (forall e, In e es -> holds s 0 e) <-> sys_starts t ignore bs ba var s.
Proof.
  intros G Hv H. unfold sys_to_spec in H.
  destruct (negb (f_owner t =? "sys")%string); [discriminate|].
  destruct (existsb (fun a => smem (SStr a) (f_states t)) (f_aps t)); [discriminate|].
  destruct (foldr _ _ _) as [a|] eqn:Ea; [|discriminate]. cbn [bind] in H.
  pose proof (actions_inv t ba G (f_actions t) [] _ _ eq_refl (actions_start t ba _ _) Ea) as V.
  destruct (iter2var (f_states t) (a_sv a) var bs (Some Xor)) as [[[sv sid] c]|] eqn:Ei; [|discriminate]. cbn [bind] in H.
  destruct (iter2var_ok _ _ _ _ _ _ _ _ Ei Hv (g_states t G) (g_names t G)) as [IO CO]. cbn [as_bools] in IO.
  destruct (init_from_ts (f_initial t) sid ignore) as [i0|] eqn:E0; [|discriminate]. cbn [bind] in H.
  destruct (sys_trans_from_ts (f_states t) sid (f_trans t) (a_sids a) (a_eids a)) as [tr|] eqn:Et; [|discriminate]. cbn [bind] in H.
  destruct (ap_trans_from_ts (f_nodes t) sid (f_aps t)) as [[ai at_]|] eqn:Ep; [|discriminate]. cbn [bind] in H.
  destruct (env_trans_from_sys_ts (f_states t) sid (f_trans t) (a_eids a)) as [et|] eqn:Ee; [|discriminate]. cbn [bind] in H.
  unfold new_spec in H. destruct (check_vars (a_ev a) sv); [|discriminate]. cbn [bind] in H. apply Ok_inj in H.
  pose proof (d_init t bs var sid IO _ _ E0) as D0.
  destruct (d_aps t bs var sid IO (g_aps t G) ai at_ (fun n st _ => shows_dec bs var (fst n) st) Ep) as [Da Da'].
  assert (D : dens (sys_init g) _) by (subst g; exact (dens_app _ _ _ _ (v_si _ _ _ _ V) (dens_app _ _ _ _ D0 Da))).
  destruct (dens_parse _ _ D) as (es & Ees & M). exists es. split; [exact Ees|]. intro s. rewrite (M s 0). unfold sys_starts.
  split.
  - intros (C0 & K0 & L0). split; [exact C0|]. split; [exact K0|]. intros q Iq Sq p Ip.
    unfold f_states in Iq. apply in_map_iff in Iq. destruct Iq as ([q' lab] & E & I). cbn [fst] in E. subst q'.
    rewrite (L0 _ I Sq p Ip). cbn [snd]. unfold labelled. split.
    + intros (l & -> & J). eauto.
    + intros (l & J1 & J2). exists l. split; [|exact J2]. apply (node_unique t G q lab (Some l) I J1).
  - intros (C0 & K0 & L0). split; [exact C0|]. split; [exact K0|]. intros [q lab] I Sq p Ip. cbn [fst snd] in *.
    rewrite (L0 q (in_map fst _ _ I) Sq p Ip). unfold labelled. split.
    + intros (l & J1 & J2). exists l. split; [|exact J2]. apply (node_unique t G q lab (Some l) I J1).
    + intros (l & -> & J). eauto.
Qed.
Lemma env_starts_init t ignore var bs ba g : good_fts t -> env_to_spec t ignore var bs ba = Ok g ->
  exists es, parse_all (sys_init g) = Some es /\
    forall s, (forall e, In e es -> holds s 0 e) <-> sys_counts t ba (s 0).
Proof.
  intros G H. unfold env_to_spec in H.
  destruct (negb (f_owner t =? "env")%string); [discriminate|].
  destruct (existsb (fun a => smem (SStr a) (f_states t)) (f_aps t)); [discriminate|].
  destruct (foldr _ _ _) as [a|] eqn:Ea; [|discriminate]. cbn [bind] in H.
  pose proof (actions_inv t ba G (f_actions t) [] _ _ eq_refl (actions_start t ba _ _) Ea) as V.
  destruct (iter2var (f_states t) (a_ev a) var bs (Some Xor)) as [[[sv sid] c]|] eqn:Ei; [|discriminate]. cbn [bind] in H.
  destruct (init_from_ts (f_initial t) sid ignore) as [i0|] eqn:E0; [|discriminate]. cbn [bind] in H.
  destruct (env_trans_from_env_ts (f_states t) sid (f_trans t) (a_sids a) (a_eids a)) as [tr|] eqn:Et; [|discriminate]. cbn [bind] in H.
  destruct (ap_trans_from_ts (f_nodes t) sid (f_aps t)) as [[ai at_]|] eqn:Ep; [|discriminate]. cbn [bind] in H.
  unfold new_spec in H. destruct (check_vars sv (a_sv a)); [|discriminate]. cbn [bind] in H. apply Ok_inj in H.
  assert (D : dens (sys_init g) _) by (subst g; exact (v_si _ _ _ _ V)).
  destruct (dens_parse _ _ D) as (es & Ees & M). exists es. split; [exact Ees|]. intro s. apply (M s 0).
Qed.

(** ** Moving initial conditions *)
Lemma move_init_parts g A G : env_part g = Some A -> sys_part g = Some G ->
  exists A' G' es, env_part (move_init g) = Some A' /\ sys_part (move_init g) = Some G' /\ parse_all (sys_init g) = Some es /\
    (forall s, sat_part s A' <-> sat_part s A /\ (forall e, In e es -> holds s 0 e)) /\
    (forall s, sat_part s G' /\ (forall e, In e es -> holds s 0 e) <-> sat_part s G).
Proof.
  unfold env_part, sys_part. cbn [move_init env_init sys_init env_safety sys_safety env_prog sys_prog].
  rewrite parse_all_app. intros HA HG.
  destruct (parse_all (env_init g)) as [a|]; [|discriminate]. destruct (parse_all (env_safety g)) as [b|]; [|discriminate].
  destruct (parse_all (env_prog g)) as [c|]; [|discriminate]. destruct (parse_all (sys_init g)) as [d|]; [|discriminate].
  destruct (parse_all (sys_safety g)) as [e|]; [|discriminate]. destruct (parse_all (sys_prog g)) as [f|]; [|discriminate].
  injection HA as <-. injection HG as <-. eexists _, _, d. split; [reflexivity|]. split; [reflexivity|]. split; [reflexivity|].
  split; intro s; unfold sat_part; cbn [p_init p_safe p_live].
  - split.
    + intros (H1 & H2 & H3). split; [split; [intros x I; apply H1, in_or_app; auto|auto]|intros x I; apply H1, in_or_app; auto].
    + intros ((H1 & H2 & H3) & H4). split; [|auto]. intros x I. apply in_app_or in I. destruct I; auto.
  - split.
    + intros ((_ & H2 & H3) & H4). auto.
    + intros (H1 & H2 & H3). split; [split; [intros x []|auto]|auto].
Qed.
Lemma with_options_parts g mo po qi : env_part (with_options g mo po qi) = env_part g /\ sys_part (with_options g mo po qi) = sys_part g.
Proof. split; reflexivity. Qed.
Lemma copy_options_parts f t specs f' : copy_options f t specs = Ok f' ->
  exists mo po qi, f' = with_options f mo po qi.
Proof.
  unfold copy_options. destruct (ts_moore t); [|intros [= <-]; eauto].
  destruct (ts_plus_one t); [|discriminate]. cbn [of_opt bind]. destruct (ts_qinit t); [|discriminate]. cbn [of_opt bind].
  intros [= <-]. eauto.
Qed.

(** ** The clauses of one system *)
Lemma labels_iff t bs var s i : good_fts t ->
  (forall n, In n (f_nodes t) -> shows bs var (fst n) (s i) -> ap_at t (snd n) s i) <->
  (forall q, In q (f_states t) -> shows bs var q (s i) ->
     forall p, In p (f_aps t) -> (s i p = VB true <-> labelled t q p)).
Proof.
  intro G. split.
  - intros L0 q Iq Sq p Ip.
    unfold f_states in Iq. apply in_map_iff in Iq. destruct Iq as ([q' lab] & E & I). cbn [fst] in E. subst q'.
    rewrite (L0 _ I Sq p Ip). cbn [snd]. unfold labelled. split.
    + intros (l & -> & J). eauto.
    + intros (l & J1 & J2). exists l. split; [|exact J2]. apply (node_unique t G q lab (Some l) I J1).
  - intros L0 [q lab] I Sq p Ip. cbn [fst snd] in *.
    rewrite (L0 q (in_map fst _ _ I) Sq p Ip). unfold labelled. split.
    + intros (l & J1 & J2). exists l. split; [|exact J2]. apply (node_unique t G q lab (Some l) I J1).
    + intros (l & -> & J). eauto.
Qed.
Lemma env_clauses t ignore var bs ba g : good_env t -> ident var -> env_to_spec t ignore var bs ba = Ok g ->
  exists A S es, env_part g = Some A /\ sys_part g = Some S /\ parse_all (sys_init g) = Some es /\
    (forall s, sat_part s A <-> env_behaves t ignore bs ba var s) /\
    (forall s, sat_part s S <-> forall i, sys_counts t ba (s i)) /\
    (forall s, (forall e, In e es -> holds s 0 e) <-> sys_counts t ba (s 0)).
Proof.
  intros [G NE] Hv H. destruct (env_to_spec_ok _ _ _ _ _ _ G Hv NE H) as [(A & EA & MA) (S & ES & MS)].
  destruct (env_starts_init _ _ _ _ _ _ G H) as (es & Ee & Me).
  exists A, S, es. do 3 (split; [assumption|]). split; [|split; assumption].
  intro s. rewrite (MA s). unfold env_behaves, env_steps.
  assert (E : (forall i n, In n (f_nodes t) -> shows bs var (fst n) (s i) -> ap_at t (snd n) s i) <->
    (forall i q, In q (f_states t) -> shows bs var q (s i) -> forall p, In p (f_aps t) -> (s i p = VB true <-> labelled t q p))).
  { split; intros K i; apply (labels_iff t bs var s i G), K. }
  rewrite E. reflexivity.
Qed.
Lemma sys_clauses t ignore var bs ba g : good_fts t -> ident var -> sys_to_spec t ignore var bs ba = Ok g ->
  exists A S es, env_part g = Some A /\ sys_part g = Some S /\ parse_all (sys_init g) = Some es /\
    (forall s, sat_part s A <-> sys_allows t bs ba var s) /\
    (forall s, (ignore = true -> located t bs var s) -> (sat_part s S <-> sys_executes t ignore bs ba var s)) /\
    (forall s, (forall e, In e es -> holds s 0 e) <-> sys_starts t ignore bs ba var s).
Proof.
  intros G Hv H. destruct (sys_to_spec_ok _ _ _ _ _ _ G Hv H) as [(S & ES & MS) (A & EA & MA)].
  destruct (sys_starts_init _ _ _ _ _ _ G Hv H) as (es & Ee & Me).
  exists A, S, es. do 6 (split; try assumption).
Qed.

(** The clauses of a system, with the initial conditions moved or not. *)
Lemma moved (b : bool) f A S es : env_part f = Some A -> sys_part f = Some S -> parse_all (sys_init f) = Some es ->
  exists A' S', env_part (if b then move_init f else f) = Some A' /\ sys_part (if b then move_init f else f) = Some S' /\
    (forall s, sat_part s A' <-> sat_part s A /\ (b = true -> forall e, In e es -> holds s 0 e)) /\
    (forall s, sat_part s S' /\ (b = true -> forall e, In e es -> holds s 0 e) <-> sat_part s S).
Proof.
  intros HA HS Hes. destruct b.
  - destruct (move_init_parts f A S HA HS) as (A' & S' & es' & E1 & E2 & E3 & M1 & M2). rewrite Hes in E3. injection E3 as <-.
    exists A', S'. split; [exact E1|]. split; [exact E2|]. split; intro s.
    + rewrite (M1 s). intuition.
    + rewrite <- (M2 s). intuition.
  - exists A, S. split; [exact HA|]. split; [exact HS|]. split; intro s; intuition discriminate.
Qed.
Lemma or_options a b r : spec_or a b = Ok r -> moore r = moore a /\ plus_one r = plus_one a /\ qinit r = qinit a /\
  moore b = moore a /\ plus_one b = plus_one a /\ qinit b = qinit a.
Proof. intro H. apply or_inv in H. destruct H as (_ & H1 & H2 & H3 & _ & _ & ->). cbn. repeat split; auto. Qed.
