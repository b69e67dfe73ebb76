(** The specifications produced for a system and for an environment. *)
From Coq Require Import List String Ascii Bool Arith ZArith Lia.
From Verif Require Import M_Base M_Ast M_Lexer M_Parser M_Spec M_Form M_Tree M_Gr1c M_Synth.
From Verif Require Import S_LTL S_Gr1 S_Syntax S_Synth.
From Verif Require Import L_Lexer L_Parser L_Template L_Gr1 L_RoundTrip L_Text L_Den L_Form L_Gr1c L_Synth L_Synth2 L_Synth3.
Import ListNotations.
Open Scope string_scope.
Open Scope list_scope.

Lemma all_means es (Q : tpred) s : (forall s i, (forall e, In e es -> holds s i e) <-> Q s i) ->
  (forall e, In e es -> forall i, holds s i e) <-> forall i, Q s i.
Proof.
  intro H. split.
  - intros K i. apply H. intros e I. apply K; auto.
  - intros K e I i. apply (proj2 (H s i)); auto.
Qed.

(** Both players' parts of a specification without recurrence goals. *)
Lemma part_ok g (Qi Qs : tpred) : dens (sys_init g) Qi -> dens (sys_safety g) Qs -> sys_prog g = [] ->
  exists S, sys_part g = Some S /\ forall s, sat_part s S <-> Qi s 0 /\ forall i, Qs s i.
Proof.
  intros Hi Hs Hp. destruct (dens_parse _ _ Hi) as (ei & Ei & Mi). destruct (dens_parse _ _ Hs) as (es & Es & Ms).
  unfold sys_part. rewrite Ei, Es, Hp. cbn [parse_all]. eexists. split; [reflexivity|].
  intro s. unfold sat_part. cbn [p_init p_safe p_live]. rewrite (Mi s 0), (all_means es Qs s Ms). split.
  - tauto.
  - intros [A B]. repeat split; auto. intros f [].
Qed.
Lemma part_ok_env g (Qi Qs : tpred) : dens (env_init g) Qi -> dens (env_safety g) Qs -> env_prog g = [] ->
  exists S, env_part g = Some S /\ forall s, sat_part s S <-> Qi s 0 /\ forall i, Qs s i.
Proof.
  intros Hi Hs Hp. destruct (dens_parse _ _ Hi) as (ei & Ei & Mi). destruct (dens_parse _ _ Hs) as (es & Es & Ms).
  unfold env_part. rewrite Ei, Es, Hp. cbn [parse_all]. eexists. split; [reflexivity|].
  intro s. unfold sat_part. cbn [p_init p_safe p_live]. rewrite (Mi s 0), (all_means es Qs s Ms). split.
  - tauto.
  - intros [A B]. repeat split; auto. intros f [].
Qed.

Lemma sysc_all t ba st : sysc t ba (f_actions t) st <-> sys_counts t ba st.
Proof. reflexivity. Qed.
Lemma envc_all t ba st : envc t ba (f_actions t) st <-> env_counts t ba st.
Proof. reflexivity. Qed.
Lemma throughout (P : state -> Prop) (s : trace) : (P (s 0) /\ forall i, P (s (S i))) <-> forall i, P (s i).
Proof. split; [intros [A B] [|i]; auto|auto]. Qed.

(** What the environment may do next at the current location, according to the system. *)
Definition env_choice (t : fts) (bs ba : bool) (var : string) (s : trace) (i : nat) : Prop :=
  forall q, In q (f_states t) -> shows bs var q (s i) ->
    (exists e, In e (f_trans t) /\ e_from e = q /\ env_labelled e) ->
    exists e, In e (f_trans t) /\ e_from e = q /\ env_labelled e /\ env_moves t ba (s (S i)) e.

Lemma sys_to_spec_ok t ignore var bs ba g : good_fts t -> ident var ->
  sys_to_spec t ignore var bs ba = Ok g ->
  (exists S, sys_part g = Some S /\
    forall s, (ignore = true -> exists q, In q (f_states t) /\ shows bs var q (s 0)) ->
      (sat_part s S <-> executes t ignore bs var (edge_actions t ba) s /\ forall i, sys_counts t ba (s i))) /\
  (exists A, env_part g = Some A /\
    forall s, sat_part s A <-> forall i, env_counts t ba (s i) /\ env_choice t bs ba var s i).
Proof.
  intros G Hv H. unfold sys_to_spec in H.
  destruct (negb (f_owner t =? "sys")%string); [discriminate|].
  destruct (existsb (fun a => smem (SStr a) (f_states t)) (f_aps t)); [discriminate|].
  destruct (foldr _ _ _) as [a|] eqn:Ea; [|discriminate]. cbn [bind] in H.
  pose proof (actions_inv t ba G (f_actions t) [] _ _ eq_refl (actions_start t ba _ _) Ea) as V.
  destruct (iter2var (f_states t) (a_sv a) var bs (Some Xor)) as [[[sv sid] c]|] eqn:Ei; [|discriminate]. cbn [bind] in H.
  destruct (iter2var_ok _ _ _ _ _ _ _ _ Ei Hv (g_states t G) (g_names t G)) as [IO CO]. cbn [as_bools] in IO.
  destruct (init_from_ts (f_initial t) sid ignore) as [i0|] eqn:E0; [|discriminate]. cbn [bind] in H.
  destruct (sys_trans_from_ts (f_states t) sid (f_trans t) (a_sids a) (a_eids a)) as [tr|] eqn:Et; [|discriminate]. cbn [bind] in H.
  destruct (ap_trans_from_ts (f_nodes t) sid (f_aps t)) as [[ai at_]|] eqn:Ep; [|discriminate]. cbn [bind] in H.
  destruct (env_trans_from_sys_ts (f_states t) sid (f_trans t) (a_eids a)) as [et|] eqn:Ee; [|discriminate]. cbn [bind] in H.
  unfold new_spec in H. destruct (check_vars (a_ev a) sv); [|discriminate]. cbn [bind] in H. apply Ok_inj in H.
  pose proof (acts_ok_s t ba _ _ V) as AS. pose proof (acts_ok_e t ba _ _ V) as AE.
  pose proof (d_init t bs var sid IO _ _ E0) as D0.
  pose proof (d_sys_trans t bs ba var sid _ _ IO AS AE _ _ (g_labels t G) Et) as Dt.
  destruct (d_aps t bs var sid IO (g_aps t G) ai at_ (fun n st _ => shows_dec bs var (fst n) st) Ep) as [Da Da'].
  pose proof (dens_state c _ _ _ (v_st _ _ _ _ V) CO) as Dc.
  split.
  - assert (K := part_ok g _ _
      (ltac:(subst g; exact (dens_app _ _ _ _ (v_si _ _ _ _ V) (dens_app _ _ _ _ D0 Da))) : dens (sys_init g) _)
      (ltac:(subst g; exact (dens_app _ _ _ _ Dc (dens_app _ _ _ _ Dt Da'))) : dens (sys_safety g) _)
      (ltac:(subst g; reflexivity))).
    destruct K as (S & ES & MS). exists S. split; auto. intros s Hig. rewrite (MS s). clear MS.
    rewrite <- (run_iff t bs var ignore (edge_actions t ba) G s Hig).
    assert (R : forall i, step_rel t bs var (edge_actions t ba) s i <->
      forall q, In q (f_states t) -> shows bs var q (s i) -> exists e, In e (f_trans t) /\ e_from e = q /\ guard t bs ba var e s i).
    { intro i. unfold step_rel, guard. split; intros K q Iq Sq; destruct (K q Iq Sq) as (e & Ie & Ef & Q).
      - exists e. tauto.
      - exists e. split; [tauto|]. split; [tauto|]. split; [|tauto]. apply (guard_to _ _ _ _ _ _ _ _ _ IO Et); [tauto|]. rewrite Ef. exact Iq. }
    unfold init_rel, label_rel. split.
    + intros ((C0 & K0 & L0) & K). split.
      * split; [exact K0|]. split; [exact L0|]. intro i. destruct (K i) as ((C & U) & T & L). split; [exact U|]. split; [apply R, T|exact L].
      * apply (throughout (sys_counts t ba)). split; [exact C0|]. intro i. apply (K i).
    + intros ((K0 & L0 & K) & C). split; [split; [apply (C 0)|split; auto]|]. intro i. destruct (K i) as (U & T & L).
      split; [split; [apply (C (Datatypes.S i))|exact U]|]. split; [apply R, T|exact L].
  - assert (Hno : a_eids a = [] -> forall e, In e (f_trans t) -> In (e_from e) (f_states t) -> ~ env_labelled e).
    { intros Z e Ie If (k & v & I & W). destruct (trans_keys _ _ _ _ _ _ _ _ _ Et Ie If I W) as (d & Hd). rewrite Z in Hd. discriminate. }
    pose proof (d_env_trans t bs ba var sid _ IO AE et Hno Ee) as De.
    assert (K := part_ok_env g _ _
      (ltac:(subst g; exact (v_ei _ _ _ _ V)) : dens (env_init g) _)
      (ltac:(subst g; exact (dens_app _ _ _ _ (v_et _ _ _ _ V) De)) : dens (env_safety g) _)
      (ltac:(subst g; reflexivity))).
    destruct K as (A & EA & MA). exists A. split; auto. intro s. rewrite (MA s). clear MA. split.
    + intros (C0 & K) i. split; [|unfold env_choice; apply (K i)]. apply (throughout (env_counts t ba) s). split; [exact C0|]. intro j. apply (K j).
    + intro K. split; [apply (K 0)|]. intro i. split; [apply (K (Datatypes.S i))|destruct (K i) as [_ Y]; exact Y].
Qed.

(** ** Environments *)
Lemma ids_get_In v x d : NoDup (map fst d) -> In (v, x) d -> ids_get v d = Some x.
Proof.
  induction d as [|[w y] d IH]; [intros _ []|]. cbn [map fst]. intros N I. inversion N as [|? ? N1 N2]; subst.
  cbn [ids_get]. destruct (sval_eqb v w) eqn:E.
  - apply sval_eqb_eq in E. subst w. destruct I as [X|I]; [injection X as <-; reflexivity|].
    exfalso. apply N1. apply (in_map fst) in I. exact I.
  - destruct I as [X|I]; [injection X as -> ->; rewrite (proj2 (sval_eqb_eq v v) eq_refl) in E; discriminate|]. apply IH; auto.
Qed.

Section EnvClauses.
  Variable t : fts.
  Variables (bs ba : bool) (var : string).
  Hypothesis G : good_fts t.
  Variable sid : ids.
  Variable a : acts.
  Hypothesis IO : ids_ok bs var (f_states t) sid.
  Hypothesis V : ainv t ba (f_actions t) a.
  Hypothesis NE : forall k cod, In (k, cod) (f_actions t) -> has_word "sys" k -> cod <> [].

  Definition eguard (e : edge) : tpred := fun s i => shows bs var (e_to e) (s (S i)) /\ env_edge_actions t ba s i e.

  Lemma d_env_guard e x : label_ok e -> env_guard sid (a_sids a) (a_eids a) e = Ok x -> den x (eguard e).
  Proof.
    intros Le H. unfold env_guard in H.
    destruct (ids_get (e_to e) sid) as [to|] eqn:Eto; [|discriminate]. cbn [of_opt bind] in H.
    destruct (conj_actions (with_key "env" (e_label e)) (a_eids a) true) as [ne|] eqn:E1; [|discriminate]. cbn [bind] in H.
    destruct (conj_actions (with_key "sys" (e_label e)) (a_sids a) false) as [ps|] eqn:E2; [|discriminate]. cbn [bind] in H.
    apply Ok_inj in H. subst x.
    destruct IO as (_ & B & _). destruct (B _ _ Eto) as [Ito Dto].
    pose proof (d_X _ _ Dto) as DX. apply dpre_den in DX. fold (pstr to) in DX.
    apply (d_actions t ba) in E1; [|apply (acts_ok_e t ba _ _ V)].
    apply (d_actions t ba) in E2; [|apply (acts_ok_s t ba _ _ V)].
    pose proof (d_action e true Le) as DA.
    eapply den_ext.
    - eapply dchain_den. apply d_conj.
      + constructor; [right; exact DX|]. constructor; [exact E1|]. constructor; [exact E2|].
        constructor; [exact DA|constructor].
      + eexists. split; [left; reflexivity|]. discriminate.
    - intros s i. cbv beta. unfold eguard, env_edge_actions. split.
      + intro K.
        pose proof (Forall_inv K) as K0. apply Forall_inv_tail in K. pose proof (Forall_inv K) as K1. apply Forall_inv_tail in K.
        pose proof (Forall_inv K) as K2. apply Forall_inv_tail in K. pose proof (Forall_inv K) as K3. clear K. cbv beta in *.
        split; [exact K0|]. split; [|exact K3].
        intros k v I. split; intro W; apply contains_spec in W; [apply K1|apply K2]; unfold with_key;
               rewrite !filter_In; cbn [fst]; rewrite W; repeat split; auto.
      + intros (K0 & K & KA). repeat constructor; auto; intros k v I; unfold with_key in I; rewrite filter_In in I;
          cbn [fst] in I; destruct I as [I W]; apply contains_spec in W; apply (K k v I); auto.
  Qed.

  (** No value of the type is shown. *)
  Definition silent (kv : string * ids) : tpred := fun s i =>
    forall v, In v (map fst (snd kv)) -> ~ action_shown t ba (fst kv) v (s i).
  Lemma d_silent kv : In kv (a_sids a) -> den (conj_neg (map snd (snd kv)) true) (silent kv).
  Proof.
    intro I. destruct kv as [k d]. cbn [snd].
    assert (L : lookup k (a_sids a) = Some d) by (apply (In_lookup _ _ _ (v_nd _ _ _ _ V)); exact I).
    destruct (v_s _ _ _ _ V k d L) as (W & cod & Ic & O).
    destruct (g_actions t G k cod Ic) as (_ & Nc & _).
    assert (T : type_must t k = f_sys_must t) by (unfold type_must; apply contains_spec in W; rewrite W; auto).
    destruct O as (_ & B & F). unfold conj_neg.
    eapply den_ext.
    - eapply dchain_den. apply (d_join_and _ (map (fun vx s i => ~ action_shown t ba k (fst vx) (s i)) d)).
      + intro Z. apply (NE k cod Ic W). rewrite <- F. destruct d; [reflexivity|discriminate].
      + rewrite map_map. apply Forall2_map_l. apply Forall2_same. intros [v x] J. cbn [fst snd].
        apply dpre_dchain; [lia|]. apply (d_not x (fun s i => action_shown t ba k v (s i))).
        unfold action_shown. rewrite T. apply B. apply ids_get_In; auto. rewrite F. exact Nc.
    - intros s i. cbv beta. rewrite (Forall_map_iff (fun vx s i => ~ action_shown t ba k (fst vx) (s i)) (fun P => P s i)).
      unfold silent. cbn [fst snd]. split.
      + intros K v Iv. apply in_map_iff in Iv. destruct Iv as ([w x] & <- & J). apply (K (w, x) J).
      + intros K [v x] J. apply K. apply (in_map fst) in J. exact J.
  Qed.

  Lemma sids_silent (st : trace) i :
    (exists kv, In kv (a_sids a) /\ silent kv st i) <->
    exists k cod, In (k, cod) (f_actions t) /\ has_word "sys" k /\ forall v, In v cod -> ~ action_shown t ba k v (st i).
  Proof.
    split.
    - intros ([k d] & I & S). assert (L : lookup k (a_sids a) = Some d) by (apply (In_lookup _ _ _ (v_nd _ _ _ _ V)); exact I).
      destruct (v_s _ _ _ _ V k d L) as (W & cod & Ic & O). exists k, cod. split; auto. split; auto.
      intros v Iv. apply S. cbn [fst snd]. destruct O as (_ & _ & ->). exact Iv.
    - intros (k & cod & Ic & W & S). destruct (v_sc _ _ _ _ V k cod Ic W) as (d & L). exists (k, d). split; [apply lookup_In; auto|].
      intros v Iv. cbn [fst snd] in *. apply S. destruct (v_s _ _ _ _ V k d L) as (_ & cod' & Ic' & O).
      destruct O as (_ & _ & F). rewrite F in Iv. replace cod with cod'; auto.
      pose proof (In_lookup _ _ _ (g_types t G) Ic). pose proof (In_lookup _ _ _ (g_types t G) Ic'). congruence.
  Qed.

  Lemma free_spec cur : existsb (fun e => match with_key "sys" (e_label e) with [] => true | _ => false end) cur = false <->
    forall e, In e cur -> sys_labelled e.
  Proof.
    split.
    - intros H e I. destruct (with_key "sys" (e_label e)) as [|[k v] r] eqn:E.
      + exfalso. assert (X : existsb (fun e => match with_key "sys" (e_label e) with [] => true | _ => false end) cur = true).
        { apply existsb_exists. exists e. rewrite E. auto. } congruence.
      + exists k, v. assert (J : In (k, v) (with_key "sys" (e_label e))) by (rewrite E; left; auto).
        unfold with_key in J. rewrite filter_In in J. cbn [fst] in J. destruct J as [J W]. apply contains_spec in W. auto.
    - intro H. apply not_true_is_false. intro K. apply existsb_exists in K. destruct K as (e & I & E).
      destruct (H e I) as (k & v & J & W). apply contains_spec in W.
      assert (X : In (k, v) (with_key "sys" (e_label e))) by (unfold with_key; rewrite filter_In; auto).
      destruct (with_key "sys" (e_label e)); [destruct X|discriminate].
  Qed.

  Lemma d_env_env_trans xs :
    env_trans_from_env_ts (f_states t) sid (f_trans t) (a_sids a) (a_eids a) = Ok xs ->
    dens xs (fun s i => forall q, In q (f_states t) -> shows bs var q (s i) ->
       (exists e, In e (f_trans t) /\ e_from e = q /\ eguard e s i) \/ blocked t ba q (s i)).
  Proof.
    intro H. unfold env_trans_from_env_ts in H.
    eapply (dens_mapr _ (fun q s i => shows bs var q (s i) ->
      (exists e, In e (f_trans t) /\ e_from e = q /\ eguard e s i) \/ blocked t ba q (s i))) in H; [exact H|].
    intros q y Iq K. cbv beta in K.
    destruct (ids_get q sid) as [x|] eqn:Ex; [|discriminate]. cbn [of_opt bind] in K.
    assert (Dx : den x (fun s i => shows bs var q (s i))) by (destruct IO as (_ & B & _); apply (B _ _ Ex)).
    destruct (find_from (f_trans t) q) as [|e0 cur] eqn:Ef.
    - apply Ok_inj in K. subst y. eapply den_ext; [apply (d_imp_text x _ "X(False)" (fun s i => False) Dx)|].
      + apply dpre_dchain; [lia|]. exact (d_X "False" (fun _ _ => False) (datom_den _ _ d_false)).
      + intros s i. cbv beta. split; [tauto|]. intros M N.
        assert (Z : exists e, In e (f_trans t) /\ e_from e = q).
        { destruct (M N) as [(e & Ie & E & _)|(Z & _)]; eauto. }
        destruct Z as (e & Ie & E).
        assert (I : In e (find_from (f_trans t) q)) by (apply find_from_In; auto). rewrite Ef in I. destruct I.
    - match type of K with ?l = Ok y => match l with context [@mapr ?A ?B ?f _] =>
        destruct (@mapr A B f (e0 :: cur)) as [gs|] eqn:Eg; [|discriminate] end end.
      cbn [bind] in K. apply Ok_inj in K.
      assert (Ff : forall e, In e (e0 :: cur) <-> In e (f_trans t) /\ e_from e = q) by (intro e; rewrite <- Ef; apply find_from_In).
      remember (e0 :: cur) as cu eqn:Ecu.
      set (fr := existsb (fun e => match with_key "sys" (e_label e) with [] => true | _ => false end) cu) in *.
      set (more := if fr then [] else map (fun kv => conj_neg (map snd (snd kv)) true) (a_sids a)) in *.
      assert (Dm : exists Ps, Forall2 den more Ps /\ forall s i, Exists (fun P : tpred => P s i) Ps <->
          fr = false /\ exists kv, In kv (a_sids a) /\ silent kv s i).
      { unfold more. destruct fr.
        - exists []. split; [constructor|]. intros s i. split; [intro Z; inversion Z|intros [Z _]; discriminate].
        - exists (map silent (a_sids a)). split.
          + apply Forall2_map_l, Forall2_same. intros kv I. apply d_silent, I.
          + intros s i. rewrite (Exists_map_iff silent (fun P => P s i)). tauto. }
      destruct Dm as (Pm & Fm & Em).
      assert (Dg : Forall2 den gs (map eguard cu)).
      { apply Forall2_flip_map. eapply mapr_Forall2; [exact Eg|]. intros e z I Z. apply d_env_guard; auto.
        apply (g_labels t G). apply Ff in I. tauto. }
      assert (Dp : den (pstr x) (fun s i => shows bs var q (s i))) by (apply datom_den, d_pstr, Dx).
      subst y. eapply den_ext; [eapply (d_imp_text (pstr x) _ ("(" ++ disj (gs ++ more) ++ ")") _ Dp)|].
      + apply datom_dchain, d_paren. eapply dchain_den, d_disj.
        * intro Z. apply app_eq_nil in Z. destruct Z as [Z _]. subst gs. apply mapr_nil in Eg. congruence.
        * apply Forall2_app; eauto.
      + intros s i. cbv beta. rewrite Exists_app, Em, (Exists_map_iff eguard (fun P => P s i)), sids_silent.
        unfold blocked. unfold fr. rewrite free_spec.
        assert (C0 : exists e, In e (f_trans t) /\ e_from e = q) by (exists e0; apply Ff; rewrite Ecu; left; auto).
        split; intros M N; destruct (M N) as [(e & I & Q)|Q].
        * left. exists e. apply Ff in I. tauto.
        * right. destruct Q as [Q R]. split; [exact C0|]. split; [|exact R]. intros e I E. apply Q, Ff; auto.
        * left. exists e. rewrite Ff. tauto.
        * right. destruct Q as (_ & Q & R). split; [|exact R]. intros e I. apply Ff in I. apply Q; tauto.
  Qed.
End EnvClauses.

(** The environment's behaviour according to its own system, with the exception. *)
Definition env_steps (t : fts) (bs ba : bool) (var : string) (s : trace) : Prop :=
  forall i q, In q (f_states t) -> shows bs var q (s i) ->
    (exists e, In e (f_trans t) /\ e_from e = q /\ In (e_to e) (f_states t) /\ shows bs var (e_to e) (s (S i)) /\ env_edge_actions t ba s i e) \/
    blocked t ba q (s i).

Lemma env_to sts sid sai eai tr xs e bs var : ids_ok bs var sts sid -> env_trans_from_env_ts sts sid tr sai eai = Ok xs -> In e tr -> In (e_from e) sts ->
  In (e_to e) sts.
Proof.
  intros (_ & B & _) H Ie If. unfold env_trans_from_env_ts in H. destruct (mapr_In _ _ _ _ H If) as (y & Y & _).
  destruct (ids_get (e_from e) sid) as [x|]; [|discriminate]. cbn [of_opt bind] in Y.
  assert (J : In e (find_from tr (e_from e))) by (apply find_from_In; auto).
  destruct (find_from tr (e_from e)) as [|e0 cur] eqn:Ef; [destruct J|].
  match type of Y with ?l = Ok y => match l with context [@mapr ?A ?B ?f _] =>
        destruct (@mapr A B f (e0 :: cur)) as [gs|] eqn:Em; [|discriminate] end end.
  destruct (mapr_In _ _ _ _ Em J) as (g & Eg & _). unfold env_guard in Eg.
  destruct (ids_get (e_to e) sid) as [to|] eqn:Eto; [|discriminate]. apply (B _ _ Eto).
Qed.

Lemma env_to_spec_ok t ignore var bs ba g : good_fts t -> ident var ->
  (forall k cod, In (k, cod) (f_actions t) -> has_word "sys" k -> cod <> []) ->
  env_to_spec t ignore var bs ba = Ok g ->
  (exists A, env_part g = Some A /\
    forall s, sat_part s A <->
      (ignore = false -> exists q, In q (f_initial t) /\ In q (f_states t) /\ shows bs var q (s 0)) /\
      (forall i, action_count (Some Xor) bs var (f_states t) (s i)) /\
      env_steps t bs ba var s /\
      (forall i n, In n (f_nodes t) -> shows bs var (fst n) (s i) -> ap_at t (snd n) s i) /\
      forall i, env_counts t ba (s i)) /\
  (exists S, sys_part g = Some S /\ forall s, sat_part s S <-> forall i, sys_counts t ba (s i)).
Proof.
  intros G Hv NE H. unfold env_to_spec in H.
  destruct (negb (f_owner t =? "env")%string); [discriminate|].
  destruct (existsb (fun a => smem (SStr a) (f_states t)) (f_aps t)); [discriminate|].
  destruct (foldr _ _ _) as [a|] eqn:Ea; [|discriminate]. cbn [bind] in H.
  pose proof (actions_inv t ba G (f_actions t) [] _ _ eq_refl (actions_start t ba _ _) Ea) as V.
  destruct (iter2var (f_states t) (a_ev a) var bs (Some Xor)) as [[[sv sid] c]|] eqn:Ei; [|discriminate]. cbn [bind] in H.
  destruct (iter2var_ok _ _ _ _ _ _ _ _ Ei Hv (g_states t G) (g_names t G)) as [IO CO]. cbn [as_bools] in IO.
  destruct (init_from_ts (f_initial t) sid ignore) as [i0|] eqn:E0; [|discriminate]. cbn [bind] in H.
  destruct (env_trans_from_env_ts (f_states t) sid (f_trans t) (a_sids a) (a_eids a)) as [tr|] eqn:Et; [|discriminate]. cbn [bind] in H.
  destruct (ap_trans_from_ts (f_nodes t) sid (f_aps t)) as [[ai at_]|] eqn:Ep; [|discriminate]. cbn [bind] in H.
  unfold new_spec in H. destruct (check_vars sv (a_sv a)); [|discriminate]. cbn [bind] in H. apply Ok_inj in H.
  pose proof (d_init t bs var sid IO _ _ E0) as D0.
  pose proof (d_env_env_trans t bs ba var G sid a IO V NE _ Et) as Dt.
  destruct (d_aps t bs var sid IO (g_aps t G) ai at_ (fun n st _ => shows_dec bs var (fst n) st) Ep) as [Da Da'].
  pose proof (dens_state c _ _ _ (v_et _ _ _ _ V) CO) as Dc.
  split.
  - assert (K := part_ok_env g _ _
      (ltac:(subst g; exact (dens_app _ _ _ _ (v_ei _ _ _ _ V) (dens_app _ _ _ _ D0 Da))) : dens (env_init g) _)
      (ltac:(subst g; exact (dens_app _ _ _ _ Dc (dens_app _ _ _ _ Dt Da'))) : dens (env_safety g) _)
      (ltac:(subst g; reflexivity))).
    destruct K as (A & EA & MA). exists A. split; auto. intro s. rewrite (MA s). clear MA.
    assert (R : env_steps t bs ba var s <-> forall i q, In q (f_states t) -> shows bs var q (s i) ->
       (exists e, In e (f_trans t) /\ e_from e = q /\ eguard t bs ba var e s i) \/ blocked t ba q (s i)).
    { unfold env_steps, eguard. split; intros K i q Iq Sq; destruct (K i q Iq Sq) as [(e & Ie & Ef & Q)|Q]; auto; left; exists e.
      - tauto.
      - split; [tauto|]. split; [tauto|]. split; [|tauto]. apply (env_to _ _ _ _ _ _ _ _ _ IO Et); [tauto|]. rewrite Ef. exact Iq. }
    rewrite R. split.
    + intros ((C0 & K0 & L0) & K). split; [exact K0|]. split; [intro i; apply (K i)|]. split; [intro i; apply (K i)|]. split.
      * intros [|i]; [exact L0|]. apply (K i).
      * apply (throughout (env_counts t ba)). split; [exact C0|]. intro i. apply (K i).
    + intros (K0 & U & T & L & C). split; [split; [apply (C 0)|split; [auto|apply (L 0)]]|]. intro i.
      split; [split; [apply (C (Datatypes.S i))|apply U]|]. split; [apply T|apply (L (Datatypes.S i))].
  - assert (K := part_ok g _ _
      (ltac:(subst g; exact (v_si _ _ _ _ V)) : dens (sys_init g) _)
      (ltac:(subst g; exact (v_st _ _ _ _ V)) : dens (sys_safety g) _)
      (ltac:(subst g; reflexivity))).
    destruct K as (S & ES & MS). exists S. split; auto. intro s. rewrite (MS s). apply (throughout (sys_counts t ba)).
Qed.

(** When no state is ever blocked, the environment's part says that the trace executes the system. *)
Lemma env_exec t ignore bs ba var : good_fts t ->
  forall s, (ignore = true -> exists q, In q (f_states t) /\ shows bs var q (s 0)) ->
  (forall i q, In q (f_states t) -> shows bs var q (s i) -> ~ blocked t ba q (s i)) ->
  ((ignore = false -> exists q, In q (f_initial t) /\ In q (f_states t) /\ shows bs var q (s 0)) /\
      (forall i, action_count (Some Xor) bs var (f_states t) (s i)) /\
      env_steps t bs ba var s /\
      (forall i n, In n (f_nodes t) -> shows bs var (fst n) (s i) -> ap_at t (snd n) s i) <->
   executes t ignore bs var (env_edge_actions t ba) s).
Proof.
  intros G s Hig NB. rewrite <- (run_iff t bs var ignore (env_edge_actions t ba) G s Hig).
  unfold init_rel, label_rel, step_rel, env_steps. split.
  - intros (K0 & U & T & L). split; [exact K0|]. split; [apply (L 0)|]. intro i. split; [apply U|]. split; [|apply (L (S i))].
    intros q Iq Sq. destruct (T i q Iq Sq) as [Q|Q]; [exact Q|]. exfalso. apply (NB i q Iq Sq Q).
  - intros (K0 & L0 & K). split; [exact K0|]. split; [intro i; apply (K i)|]. split.
    + intros i q Iq Sq. left. apply (K i); auto.
    + intros [|i]; [exact L0|apply (K i)].
Qed.
