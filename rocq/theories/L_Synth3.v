(** The clauses of sys_to_spec and env_to_spec together. *)
From Coq Require Import List String Ascii Bool Arith ZArith Lia.
From Verif Require Import M_Base M_Ast M_Lexer M_Parser M_Spec M_Form M_Tree M_Gr1c M_Synth.
From Verif Require Import S_LTL S_Gr1 S_Syntax S_Synth.
From Verif Require Import L_Lexer L_Parser L_Template L_Gr1 L_RoundTrip L_Text L_Den L_Form L_Gr1c L_Synth L_Synth2.
Import ListNotations.
Open Scope string_scope.
Open Scope list_scope.

Lemma contains_false w k : contains w k = false <-> ~ has_word w k.
Proof. rewrite <- contains_spec. destruct (contains w k); split; intro H; auto; try discriminate. destruct H; auto. Qed.
Lemma word_dec w k : has_word w k \/ ~ has_word w k.
Proof. destruct (contains w k) eqn:E; [left; apply contains_spec; auto|right; apply contains_false; auto]. Qed.

(** * Action types *)
Section Actions.
  Variable t : fts.
  Variable ba : bool.
  Hypothesis G : good_fts t.

  Definition sysc (done : list (string * list sval)) (st : state) : Prop :=
    forall k cod, In (k, cod) done -> has_word "sys" k -> action_count (f_sys_must t) ba k cod st.
  Definition envc (done : list (string * list sval)) (st : state) : Prop :=
    forall k cod, In (k, cod) done -> ~ has_word "sys" k -> has_word "env" k -> action_count (f_env_must t) ba k cod st.

  Record ainv (done : list (string * list sval)) (a : acts) : Prop := {
    v_s : forall k d, lookup k (a_sids a) = Some d -> has_word "sys" k /\
          exists cod, In (k, cod) done /\ ids_ok (as_bools (f_sys_must t) ba) k cod d;
    v_e : forall k d, lookup k (a_eids a) = Some d -> ~ has_word "sys" k /\ has_word "env" k /\
          exists cod, In (k, cod) done /\ ids_ok (as_bools (f_env_must t) ba) k cod d;
    v_sc : forall k cod, In (k, cod) done -> has_word "sys" k -> exists d, lookup k (a_sids a) = Some d;
    v_ec : forall k cod, In (k, cod) done -> ~ has_word "sys" k -> has_word "env" k -> exists d, lookup k (a_eids a) = Some d;
    v_nd : NoDup (map fst (a_sids a));
    v_si : dens (a_si a) (fun s i => sysc done (s i));
    v_st : dens (a_st a) (fun s i => sysc done (s (S i)));
    v_ei : dens (a_ei a) (fun s i => envc done (s i));
    v_et : dens (a_et a) (fun s i => envc done (s (S i))) }.

  Lemma add_dens c init trans (P Q : trace -> nat -> Prop) (R : state -> Prop) i' t' :
    add_actions c init trans = (i', t') -> dens init P -> dens trans Q ->
    match c with None => forall st, R st | Some x => den x (fun s i => R (s i)) end ->
    dens i' (fun s i => P s i /\ R (s i)) /\ dens t' (fun s i => Q s i /\ R (s (S i))).
  Proof.
    intros E Hi Ht Hc. destruct c as [x|]; cbn [add_actions] in E; injection E as <- <-.
    - split; apply dens_app; auto; apply dens_one; auto.
      apply dpre_den. apply (d_X_sp x _ Hc).
    - split; [eapply dens_ext; [exact Hi|]|eapply dens_ext; [exact Ht|]]; intros s i; split; try tauto; intro; split; auto.
  Qed.

  Lemma sysc_snoc done k cod st : sysc (done ++ [(k, cod)]) st <->
    sysc done st /\ (has_word "sys" k -> action_count (f_sys_must t) ba k cod st).
  Proof.
    unfold sysc. split.
    - intro H. split; [intros; apply H; auto; apply in_or_app; auto|intro; apply H; auto; apply in_or_app; simpl; auto].
    - intros [A B] k' cod' I W. apply in_app_or in I. destruct I as [I|[E|[]]]; [auto|]. injection E as <- <-. auto.
  Qed.
  Lemma envc_snoc done k cod st : envc (done ++ [(k, cod)]) st <->
    envc done st /\ (~ has_word "sys" k -> has_word "env" k -> action_count (f_env_must t) ba k cod st).
  Proof.
    unfold envc. split.
    - intro H. split; [intros; apply H; auto; apply in_or_app; auto|intros; apply H; auto; apply in_or_app; simpl; auto].
    - intros [A B] k' cod' I W. apply in_app_or in I. destruct I as [I|[E|[]]]; [auto|]. injection E as <- <-. auto.
  Qed.

  Lemma action_step_inv done a k cod a' : ainv done a -> In (k, cod) (f_actions t) ->
    action_step t ba a (k, cod) = Ok a' -> ainv (done ++ [(k, cod)]) a'.
  Proof.
    intros V I H. unfold action_step in H.
    match type of H with (if ?b then _ else _) = _ => destruct b; [discriminate|] end.
    destruct (g_actions t G k cod I) as (Hk & Nc & Gc).
    destruct (contains "sys" k) eqn:Es; [|destruct (contains "env" k) eqn:Ee].
    - apply contains_spec in Es.
      destruct (iter2var cod (a_sv a) k ba (f_sys_must t)) as [[[vs d] c]|] eqn:Ei; [|discriminate]. cbn [bind] in H.
      destruct (iter2var_ok _ _ _ _ _ _ _ _ Ei Hk Nc Gc) as [IO CO].
      destruct (add_actions c (a_si a) (a_st a)) as [init trans] eqn:Ea.
      destruct (add_dens c _ _ _ _ (action_count (f_sys_must t) ba k cod) _ _ Ea (v_si _ _ V) (v_st _ _ V)) as [D1 D2].
      { destruct c; [exact CO|exact CO]. }
      apply Ok_inj in H. subst a'. constructor; cbn.
      + intros k' d'. rewrite lookup_dset. destruct (k' =? k)%string eqn:E.
        * apply String.eqb_eq in E. subst. intro X. injection X as <-. split; auto. exists cod. split; auto. apply in_or_app; simpl; auto.
        * intro X. apply (v_s _ _ V) in X. destruct X as (W & cod' & I' & X). split; auto. exists cod'. split; auto. apply in_or_app; auto.
      + intros k' d' X. apply (v_e _ _ V) in X. destruct X as (W & W' & cod' & I' & X). split; auto. split; auto. exists cod'. split; auto. apply in_or_app; auto.
      + intros k' cod' I' W. rewrite lookup_dset. destruct (k' =? k)%string eqn:E; [eauto|].
        apply in_app_or in I'. destruct I' as [I'|[X|[]]]; [eapply (v_sc _ _ V); eauto|]. injection X as <- <-. rewrite String.eqb_refl in E. discriminate.
      + intros k' cod' I' W W'. apply in_app_or in I'. destruct I' as [I'|[X|[]]]; [eapply (v_ec _ _ V); eauto|]. injection X as <- <-. contradiction.
      + apply dset_nodup, (v_nd _ _ V).
      + eapply dens_ext; [exact D1|]. intros s i. cbv beta. rewrite sysc_snoc. tauto.
      + eapply dens_ext; [exact D2|]. intros s i. cbv beta. rewrite sysc_snoc. tauto.
      + eapply dens_ext; [apply (v_ei _ _ V)|]. intros s i. cbv beta. rewrite envc_snoc. tauto.
      + eapply dens_ext; [apply (v_et _ _ V)|]. intros s i. cbv beta. rewrite envc_snoc. tauto.
    - apply contains_false in Es. apply contains_spec in Ee.
      destruct (iter2var cod (a_ev a) k ba (f_env_must t)) as [[[vs d] c]|] eqn:Ei; [|discriminate]. cbn [bind] in H.
      destruct (iter2var_ok _ _ _ _ _ _ _ _ Ei Hk Nc Gc) as [IO CO].
      destruct (add_actions c (a_ei a) (a_et a)) as [init trans] eqn:Ea.
      destruct (add_dens c _ _ _ _ (action_count (f_env_must t) ba k cod) _ _ Ea (v_ei _ _ V) (v_et _ _ V)) as [D1 D2].
      { destruct c; [exact CO|exact CO]. }
      apply Ok_inj in H. subst a'. constructor; cbn.
      + intros k' d' X. apply (v_s _ _ V) in X. destruct X as (W & cod' & I' & X). split; auto. exists cod'. split; auto. apply in_or_app; auto.
      + intros k' d'. rewrite lookup_dset. destruct (k' =? k)%string eqn:E.
        * apply String.eqb_eq in E. subst. intro X. injection X as <-. split; auto. split; auto. exists cod. split; auto. apply in_or_app; simpl; auto.
        * intro X. apply (v_e _ _ V) in X. destruct X as (W & W' & cod' & I' & X). split; auto. split; auto. exists cod'. split; auto. apply in_or_app; auto.
      + intros k' cod' I' W. apply in_app_or in I'. destruct I' as [I'|[X|[]]]; [eapply (v_sc _ _ V); eauto|]. injection X as <- <-. contradiction.
      + intros k' cod' I' W W'. rewrite lookup_dset. destruct (k' =? k)%string eqn:E; [eauto|].
        apply in_app_or in I'. destruct I' as [I'|[X|[]]]; [eapply (v_ec _ _ V); eauto|]. injection X as <- <-. rewrite String.eqb_refl in E. discriminate.
      + apply (v_nd _ _ V).
      + eapply dens_ext; [apply (v_si _ _ V)|]. intros s i. cbv beta. rewrite sysc_snoc. tauto.
      + eapply dens_ext; [apply (v_st _ _ V)|]. intros s i. cbv beta. rewrite sysc_snoc. tauto.
      + eapply dens_ext; [exact D1|]. intros s i. cbv beta. rewrite envc_snoc. tauto.
      + eapply dens_ext; [exact D2|]. intros s i. cbv beta. rewrite envc_snoc. tauto.
    - apply contains_false in Es, Ee. apply Ok_inj in H. subst a'. constructor.
      + intros k' d' X. apply (v_s _ _ V) in X. destruct X as (W & cod' & I' & X). split; auto. exists cod'. split; auto. apply in_or_app; auto.
      + intros k' d' X. apply (v_e _ _ V) in X. destruct X as (W & W' & cod' & I' & X). split; auto. split; auto. exists cod'. split; auto. apply in_or_app; auto.
      + intros k' cod' I' W. apply in_app_or in I'. destruct I' as [I'|[X|[]]]; [eapply (v_sc _ _ V); eauto|]. injection X as <- <-. contradiction.
      + intros k' cod' I' W W'. apply in_app_or in I'. destruct I' as [I'|[X|[]]]; [eapply (v_ec _ _ V); eauto|]. injection X as <- <-. contradiction.
      + apply (v_nd _ _ V).
      + eapply dens_ext; [apply (v_si _ _ V)|]. intros s i. cbv beta. rewrite sysc_snoc. tauto.
      + eapply dens_ext; [apply (v_st _ _ V)|]. intros s i. cbv beta. rewrite sysc_snoc. tauto.
      + eapply dens_ext; [apply (v_ei _ _ V)|]. intros s i. cbv beta. rewrite envc_snoc. tauto.
      + eapply dens_ext; [apply (v_et _ _ V)|]. intros s i. cbv beta. rewrite envc_snoc. tauto.
  Qed.

  Lemma actions_inv todo : forall done a a', f_actions t = done ++ todo -> ainv done a ->
    foldr (action_step t ba) todo a = Ok a' -> ainv (f_actions t) a'.
  Proof.
    induction todo as [|[k cod] todo IH]; intros done a a' E V H; cbn [foldr] in H.
    - apply Ok_inj in H. subst. rewrite E, app_nil_r. exact V.
    - destruct (action_step t ba a (k, cod)) as [a1|] eqn:E1; [|discriminate]. cbn [bind] in H.
      apply (IH (done ++ [(k, cod)]) a1 a'); auto.
      + rewrite <- app_assoc. exact E.
      + eapply action_step_inv; eauto. rewrite E. apply in_or_app. simpl; auto.
  Qed.
  Lemma actions_start sv ev : ainv [] (mkacts sv ev [] [] [] [] [] []).
  Proof.
    constructor; cbn; try discriminate; try (intros ? ? []); try constructor;
      (exists []; split; [constructor|]; intros s i; split; [intros _ ? ? []|constructor]).
  Qed.

  Lemma acts_ok_s done a : ainv done a -> acts_ok t ba (a_sids a).
  Proof.
    intros V k d H. destruct (v_s _ _ V k d H) as (W & cod & _ & O). exists cod. unfold type_must.
    apply contains_spec in W. rewrite W. exact O.
  Qed.
  Lemma acts_ok_e done a : ainv done a -> acts_ok t ba (a_eids a).
  Proof.
    intros V k d H. destruct (v_e _ _ V k d H) as (W & W' & cod & _ & O). exists cod. unfold type_must.
    apply contains_false in W. rewrite W. exact O.
  Qed.
End Actions.

(** * Locations *)
Lemma shows_dec ab var v st : shows ab var v st \/ ~ shows ab var v st.
Proof.
  destruct ab, v as [z|x]; cbn [shows].
  - right; auto.
  - apply VB_dec.
  - destruct (st var) as [b|w|y]; try (right; discriminate). destruct (Z.eq_dec w z); [left; congruence|right; congruence].
  - destruct (st var) as [b|w|y]; try (right; discriminate). destruct (string_dec y x); [left; congruence|right; congruence].
Qed.
Definition showsb (ab : bool) (var : string) (st : state) (v : sval) : bool :=
  match ab, v with
  | true, SStr x => match st x with VB true => true | _ => false end
  | true, SInt _ => false
  | false, SInt z => match st var with VZ w => (w =? z)%Z | _ => false end
  | false, SStr x => match st var with VS w => (w =? x)%string | _ => false end
  end.
Lemma showsb_ok ab var st v : showsb ab var st v = true <-> shows ab var v st.
Proof.
  destruct ab, v as [z|x]; cbn [shows showsb].
  - split; [discriminate|tauto].
  - destruct (st x) as [[]|w|w]; split; congruence.
  - destruct (st var) as [b|w|w]; try (split; congruence). rewrite Z.eqb_eq. split; congruence.
  - destruct (st var) as [b|w|w]; try (split; congruence). rewrite String.eqb_eq. split; congruence.
Qed.

Section Run.
  Variable t : fts.
  Variables (bs : bool) (var : string) (ignore : bool).
  Variable E : trace -> nat -> edge -> Prop.
  Hypothesis G : good_fts t.

  Definition step_rel (s : trace) (i : nat) : Prop :=
    forall q, In q (f_states t) -> shows bs var q (s i) ->
      exists e, In e (f_trans t) /\ e_from e = q /\ In (e_to e) (f_states t) /\ shows bs var (e_to e) (s (S i)) /\ E s i e.
  Definition label_rel (s : trace) (i : nat) : Prop :=
    forall n, In n (f_nodes t) -> shows bs var (fst n) (s i) -> ap_at t (snd n) s i.
  Definition init_rel (s : trace) : Prop :=
    ignore = false -> exists q, In q (f_initial t) /\ In q (f_states t) /\ shows bs var q (s 0).

  Lemma unique_location st : action_count (Some Xor) bs var (f_states t) st ->
    at_most_one (fun v => shows bs var v st) (f_states t).
  Proof.
    intro H. destruct bs eqn:Eb.
    - destruct (f_states t) as [|a [|b r]] eqn:El; [intros x y []|intros x y [<-|[]] [<-|[]]; auto|].
      cbn [action_count] in H. apply (H eq_refl). simpl. lia.
    - intros x y Ix Iy. destruct x, y; cbn [shows]; congruence.
  Qed.
  Lemma node_of q : In q (f_states t) -> exists lab, In (q, lab) (f_nodes t).
  Proof. intro I. unfold f_states in I. apply in_map_iff in I. destruct I as ([q' lab] & <- & I). eauto. Qed.
  Lemma node_unique q lab lab' : In (q, lab) (f_nodes t) -> In (q, lab') (f_nodes t) -> lab = lab'.
  Proof.
    pose proof (g_states t G) as N. unfold f_states in N. induction (f_nodes t) as [|[q0 l0] r IH]; [intros []|].
    cbn [map fst] in N. inversion N as [|? ? N1 N2]; subst.
    intros [X|X] [Y|Y]; try congruence.
    - injection X as -> ->. destruct N1. apply (in_map fst) in Y. exact Y.
    - injection Y as -> ->. destruct N1. apply (in_map fst) in X. exact X.
    - auto.
  Qed.

  Lemma run_iff s : (ignore = true -> exists q, In q (f_states t) /\ shows bs var q (s 0)) ->
    ((init_rel s /\ label_rel s 0 /\ forall i, action_count (Some Xor) bs var (f_states t) (s i) /\ step_rel s i /\ label_rel s (S i)) <->
     executes t ignore bs var E s).
  Proof.
    intro Hig. split.
    - intros (Hi & Hl0 & Hs).
      assert (L0 : exists q, In q (f_states t) /\ shows bs var q (s 0)).
      { destruct ignore eqn:Eg; [apply Hig; auto|]. destruct (Hi Eg) as (q & _ & A & B). eauto. }
      assert (L : forall i, exists q, In q (f_states t) /\ shows bs var q (s i)).
      { induction i as [|i (q & Iq & Sq)]; auto. destruct (Hs i) as (_ & R & _).
        destruct (R q Iq Sq) as (e & _ & _ & I & S' & _). eauto. }
      set (loc := fun i => match find (showsb bs var (s i)) (f_states t) with Some q => q | None => SInt 0 end).
      assert (Lo : locations t bs var s loc).
      { intro i. unfold loc. destruct (find (showsb bs var (s i)) (f_states t)) as [q|] eqn:Ef.
        - apply find_some in Ef. destruct Ef as [I S']. apply showsb_ok in S'. split; auto. split; auto.
          intros q' I' S2. apply (unique_location (s i)); auto. apply (Hs i).
        - exfalso. destruct (L i) as (q & I & S'). apply showsb_ok in S'.
          rewrite (find_none _ _ Ef q I) in S'. discriminate. }
      exists loc. split; auto. split; [|split].
      + intro Z. destruct (Hi Z) as (q & A & B & C). destruct (Lo 0) as (_ & _ & U). rewrite <- (U q B C). exact A.
      + intro i. destruct (Lo i) as (I & S' & U). destruct (Hs i) as (_ & R & _). destruct (R (loc i) I S') as (e & Ie & Ef & It & St & K).
        exists e. split; auto. split; auto. split; auto. destruct (Lo (S i)) as (_ & _ & U'). apply U'; auto.
      + intros i p Ip. destruct (Lo i) as (I & S' & U).
        assert (Hl : label_rel s i) by (destruct i; [exact Hl0|apply (Hs i)]).
        destruct (node_of _ I) as (lab & In'). pose proof (Hl _ In' S' p Ip) as K. cbn [snd] in K. rewrite K.
        unfold labelled. split.
        * intros (l & -> & Hp). eauto.
        * intros (l & Il & Hp). exists l. split; auto. eapply node_unique; eauto.
    - intros (loc & Lo & Hi & Hs & Hp).
      assert (U : forall i q, In q (f_states t) -> shows bs var q (s i) -> q = loc i) by (intro i; apply (Lo i)).
      assert (HL : forall i, label_rel s i).
      { intros i [q lab] In' S' p Ip. cbn [fst snd] in *.
        assert (Iq : In q (f_states t)) by (apply (in_map fst) in In'; exact In').
        rewrite (Hp i p Ip), <- (U i q Iq S'). unfold labelled. split.
        - intros (l & Il & Hl). exists l. split; auto. eapply node_unique; eauto.
        - intros (l & -> & Hl). eauto. }
      split; [|split; [apply HL|]].
      + intro Z. exists (loc 0). destruct (Lo 0) as (A & B & _). auto.
      + intro i. split; [|split; [|apply HL]].
        * cbn [action_count]. intros Eb _. rewrite <- Eb. split.
          -- intros x y Ix Iy Sx Sy. rewrite (U i x), (U i y); auto.
          -- exists (loc i). destruct (Lo i) as (A & B & _). auto.
        * intros q Iq Sq. rewrite (U i q Iq Sq). destruct (Hs i) as (e & Ie & Ef & Et & K). exists e.
          destruct (Lo (S i)) as (A & B & _). rewrite Et. repeat split; auto.
  Qed.
End Run.

(** * sys_to_spec *)
Lemma nohash_sat ts Q : dens ts Q -> exists es, parse_all ts = Some es /\ forall s i, (forall e, In e es -> holds s i e) <-> Q s i.
Proof. apply dens_parse. Qed.

Lemma dens_state c st P R : dens st P ->
  match c with None => forall x : state, R x | Some x => den x (fun s i => R (s i)) end ->
  dens (match c with Some x => st ++ [x] | None => st end) (fun s i => P s i /\ R (s i)).
Proof.
  intros H Hc. destruct c as [x|].
  - apply dens_app; auto. apply dens_one; auto.
  - eapply dens_ext; [exact H|]. intros s i. split; [split; auto|tauto].
Qed.

(** Environment clauses derived from a system. *)
Lemma text_den x P : den x P -> peq (fun s i => text_true s i x) P.
Proof. intros (_ & e & H & M) s i. unfold text_true. rewrite H. apply M. Qed.
Lemma dedup_nil l : dedup l = [] -> l = [].
Proof.
  intro H. destruct l as [|x l]; auto. exfalso. assert (I : In x (dedup (x :: l))) by (apply dedup_In; left; auto).
  rewrite H in I. destruct I.
Qed.
Lemma disj_empty l : (forall x, In x l -> x <> "") -> disj l = "" -> l = [].
Proof.
  intros _ H. destruct l as [|x [|y l]]; auto; discriminate.
Qed.

Section EnvFromSys.
  Variable t : fts.
  Variables (bs ba : bool) (var : string).
  Variable sid : ids.
  Variable eai : list (string * ids).
  Hypothesis Hsid : ids_ok bs var (f_states t) sid.
  Hypothesis Heai : acts_ok t ba eai.

  Lemma with_key_In w l k v : In (k, v) (with_key w l) <-> In (k, v) l /\ has_word w k.
  Proof. unfold with_key. rewrite filter_In. cbn [fst]. rewrite contains_spec. reflexivity. Qed.
  Lemma labelled_iff w e : with_key w (e_label e) <> [] <-> exists k v, In (k, v) (e_label e) /\ has_word w k.
  Proof.
    split.
    - intro H. destruct (with_key w (e_label e)) as [|[k v] r] eqn:E; [congruence|]. exists k, v. apply with_key_In. rewrite E. left; auto.
    - intros (k & v & I & W) Z. assert (J : In (k, v) (with_key w (e_label e))) by (apply with_key_In; auto). rewrite Z in J. destruct J.
  Qed.

  Definition combf (e : edge) : res (list string) :=
    match with_key "env" (e_label e) with
    | [] => Ok []
    | env => do c <- conj_actions env eai false; Ok [c]
    end.
  Lemma combs_ok es : forall cs, concatr combf es = Ok cs ->
    (forall c, In c cs -> exists e, In e es /\ env_labelled e /\ den c (fun s i => env_moves t ba (s i) e)) /\
    (forall e, In e es -> env_labelled e -> exists c, In c cs /\ den c (fun s i => env_moves t ba (s i) e)).
  Proof.
    induction es as [|e es IH]; intros cs H; cbn [concatr] in H.
    - apply Ok_inj in H. subst. split; [intros c []|intros e []].
    - destruct (combf e) as [y|] eqn:Ee; [|discriminate]. cbn [bind] in H.
      destruct (concatr combf es) as [ys|] eqn:Es; [|discriminate]. cbn [bind] in H. apply Ok_inj in H. subst cs.
      destruct (IH ys eq_refl) as [IH1 IH2].
      assert (D : (y = [] /\ ~ env_labelled e) \/ (exists c, y = [c] /\ env_labelled e /\ den c (fun s i => env_moves t ba (s i) e))).
      { unfold combf in Ee. destruct (with_key "env" (e_label e)) as [|kv r] eqn:Ew.
        - apply Ok_inj in Ee. left. split; auto. unfold env_labelled. rewrite <- labelled_iff, Ew. intro Z. apply Z. reflexivity.
        - right. rewrite <- Ew in Ee. destruct (conj_actions (with_key "env" (e_label e)) eai false) as [c|] eqn:Ec; [|discriminate].
          cbn [bind] in Ee. apply Ok_inj in Ee. exists c. split; auto. split.
          + unfold env_labelled. rewrite <- labelled_iff, Ew. discriminate.
          + pose proof (d_actions t ba _ _ _ _ Heai Ec) as D. destruct D as [[-> _]|D].
            { exfalso. unfold conj_actions in Ec. rewrite Ew in Ec.
              match type of Ec with (do _ <- ?m; _) = _ => destruct m; [|discriminate] end. cbn in Ec. apply Ok_inj in Ec. discriminate. }
            eapply den_ext; [exact D|]. intros s i. cbn [later]. unfold env_moves. split.
            * intros K k v I W. apply K. apply with_key_In; auto.
            * intros K k v I. apply with_key_In in I. apply K; tauto. }
      destruct D as [[-> D]|(c & -> & D & Dc)]; split.
      + intros c I. destruct (IH1 c I) as (e' & A & B & C). exists e'. simpl; auto.
      + intros e' [<-|I] L; [contradiction|]. destruct (IH2 e' I L) as (c & A & B). exists c. auto.
      + intros c' [<-|I]; [exists e; simpl; auto|]. destruct (IH1 c' I) as (e' & A & B & C). exists e'. simpl; auto.
      + intros e' [<-|I] L; [exists c; simpl; auto|]. destruct (IH2 e' I L) as (c' & A & B). exists c'. simpl; auto.
  Qed.

  Lemma d_env_trans xs : (eai = [] -> forall e, In e (f_trans t) -> In (e_from e) (f_states t) -> ~ env_labelled e) ->
    env_trans_from_sys_ts (f_states t) sid (f_trans t) eai = Ok xs ->
    dens xs (fun s i => forall q, In q (f_states t) -> shows bs var q (s i) ->
      (exists e, In e (f_trans t) /\ e_from e = q /\ env_labelled e) ->
      exists e, In e (f_trans t) /\ e_from e = q /\ env_labelled e /\ env_moves t ba (s (S i)) e).
  Proof.
    intros He H. unfold env_trans_from_sys_ts in H. destruct eai as [|ea er] eqn:Ee.
    { apply Ok_inj in H. subst. eapply dens_ext; [apply dens_nil|]. intros s i. split; auto. intros _ q Iq _ (e & Ie & Ef & L).
      exfalso. apply (He eq_refl e Ie); [congruence|auto]. }
    rewrite <- Ee in *.
    eapply (concatr_dens _ (fun q s i => shows bs var q (s i) ->
      (exists e, In e (f_trans t) /\ e_from e = q /\ env_labelled e) ->
      exists e, In e (f_trans t) /\ e_from e = q /\ env_labelled e /\ env_moves t ba (s (S i)) e)) in H; [exact H|].
    intros q y Iq K. cbv beta in K.
    destruct (ids_get q sid) as [x|] eqn:Ex; [|discriminate]. cbn [of_opt bind] in K.
    destruct Hsid as (_ & B & _). destruct (B _ _ Ex) as [_ Dx].
    change ((do combs <- concatr combf (find_from (f_trans t) q);
       Ok (if (disj (dedup combs) =? "")%string then [] else [(pstr x ++ " -> X(" ++ disj (dedup combs) ++ ")")%string])) = Ok y) in K.
    destruct (concatr combf (find_from (f_trans t) q)) as [cs|] eqn:Ec; [|discriminate]. cbn [bind] in K.
    destruct (combs_ok _ _ Ec) as [C1 C2]. apply Ok_inj in K. subst y.
    destruct (disj (dedup cs) =? "")%string eqn:Ed.
    - apply String.eqb_eq in Ed. eapply dens_ext; [apply dens_nil|]. intros s i. split; auto. intros _ _ (e & Ie & Ef & L). exfalso.
      apply disj_empty in Ed; [|intros c I; apply (proj1 (dedup_In _ _)) in I; destruct (C1 c I) as (e' & _ & _ & D); eapply den_nonempty; eauto].
      apply dedup_nil in Ed. destruct (C2 e) as (c & I & _); [apply find_from_In; auto|auto|]. rewrite Ed in I. destruct I.
    - apply dens_one.
      replace (pstr x ++ " -> X(" ++ disj (dedup cs) ++ ")")%string with (pstr x ++ " -> " ++ ("X(" ++ disj (dedup cs) ++ ")"))%string by reflexivity.
      eapply den_ext.
      + apply d_imp_text; [exact Dx|]. apply dpre_dchain; [lia|]. apply d_X. eapply dchain_den, d_disj.
        * intro Z. rewrite Z in Ed. discriminate.
        * apply Forall2_same with (g := fun c s i => text_true s i c). intros c I. apply (proj1 (dedup_In _ _)) in I.
          destruct (C1 c I) as (e' & _ & _ & D). eapply den_ext; [exact D|]. intros s i. symmetry. apply (text_den c _ D).
      + intros s i. cbv beta. rewrite (Exists_map_iff (fun c s i => text_true s i c) (fun P => P s (S i))). split.
        * intros K Sq _. destruct (K Sq) as (c & I & T). apply (proj1 (dedup_In _ _)) in I. destruct (C1 c I) as (e' & I' & L & D).
          apply find_from_In in I'. exists e'. apply (text_den c _ D) in T. tauto.
        * intros K Sq.
          assert (X : exists e, In e (f_trans t) /\ e_from e = q /\ env_labelled e).
          { destruct (dedup cs) as [|c r] eqn:Eq; [discriminate|].
            assert (I : In c cs) by (apply dedup_In; rewrite Eq; left; auto).
            destruct (C1 c I) as (e' & I' & L & D). apply find_from_In in I'. exists e'. tauto. }
          destruct (K Sq X) as (e & Ie & Ef & L & M). destruct (C2 e) as (c & I & D); [apply find_from_In; auto|auto|].
          exists c. split; [apply dedup_In; auto|]. apply (text_den c _ D). exact M.
  Qed.
End EnvFromSys.

(** Every environment action of a transition was declared. *)
Lemma guard_keys sid sai eai e x k v : sys_guard sid sai eai e = Ok x -> In (k, v) (e_label e) -> has_word "env" k ->
  exists d, lookup k eai = Some d.
Proof.
  intros H I W. unfold sys_guard in H.
  destruct (ids_get (e_to e) sid) as [to|] eqn:Eto; [|discriminate]. cbn [of_opt bind] in H.
  destruct (conj_actions (in_prev (e_prev e) (with_key "env" (e_label e))) eai false) as [pe|] eqn:E1; [|discriminate]. cbn [bind] in H.
  destruct (conj_actions (not_prev (e_prev e) (with_key "env" (e_label e))) eai true) as [ne|] eqn:E2; [|discriminate].
  assert (J : forall l b y, In (k, v) l -> conj_actions l eai b = Ok y -> exists d, lookup k eai = Some d).
  { intros l b y Il Hl. unfold conj_actions in Hl. destruct l as [|kv l']; [destruct Il|].
    match type of Hl with (do _ <- mapr ?f ?l; _) = _ => destruct (mapr f l) as [ys|] eqn:Em; [|discriminate] end.
    destruct (mapr_In _ _ _ _ Em Il) as (z & Z & _). cbn [fst snd] in Z. destruct (lookup k eai); [eauto|discriminate]. }
  destruct (mem k (e_prev e)) eqn:M.
  - eapply J; [|exact E1]. unfold in_prev, with_key. rewrite !filter_In. cbn [fst]. apply contains_spec in W. auto.
  - eapply J; [|exact E2]. unfold not_prev, with_key. rewrite !filter_In. cbn [fst]. apply contains_spec in W. rewrite M. auto.
Qed.
Lemma trans_keys sts sid tr sai eai xs e k v : sys_trans_from_ts sts sid tr sai eai = Ok xs -> In e tr -> In (e_from e) sts ->
  In (k, v) (e_label e) -> has_word "env" k -> exists d, lookup k eai = Some d.
Proof.
  intros H Ie If I W. unfold sys_trans_from_ts in H. destruct (mapr_In _ _ _ _ H If) as (y & Y & _).
  destruct (ids_get (e_from e) sid) as [x|]; [|discriminate]. cbn [of_opt bind] in Y.
  assert (J : In e (find_from tr (e_from e))) by (apply find_from_In; auto).
  destruct (find_from tr (e_from e)) as [|e0 cur] eqn:Ef; [destruct J|]. 
  match type of Y with (do _ <- mapr ?f ?l; _) = _ => destruct (mapr f l) as [gs|] eqn:Em; [|discriminate] end.
  destruct (mapr_In _ _ _ _ Em J) as (g & Eg & _). eapply guard_keys; eauto.
Qed.
Lemma guard_to sts sid sai eai tr xs e bs var : ids_ok bs var sts sid -> sys_trans_from_ts sts sid tr sai eai = Ok xs -> In e tr -> In (e_from e) sts ->
  In (e_to e) sts.
Proof.
  intros (_ & B & _) H Ie If. unfold sys_trans_from_ts in H. destruct (mapr_In _ _ _ _ H If) as (y & Y & _).
  destruct (ids_get (e_from e) sid) as [x|]; [|discriminate]. cbn [of_opt bind] in Y.
  assert (J : In e (find_from tr (e_from e))) by (apply find_from_In; auto).
  destruct (find_from tr (e_from e)) as [|e0 cur] eqn:Ef; [destruct J|].
  match type of Y with (do _ <- mapr ?f ?l; _) = _ => destruct (mapr f l) as [gs|] eqn:Em; [|discriminate] end.
  destruct (mapr_In _ _ _ _ Em J) as (g & Eg & _). unfold sys_guard in Eg.
  destruct (ids_get (e_to e) sid) as [to|] eqn:Eto; [|discriminate]. apply (B _ _ Eto).
Qed.
