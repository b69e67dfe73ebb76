(** What is read from stormpy's models and answers (C71): states, probabilities and policies. *)
From Coq Require Import List String Ascii Bool Arith ZArith QArith Qcanon Qabs Lia Lqa.
From Verif Require Import M_Base M_Lexer M_Tree S_Syntax S_LTL L_Dec.
From Verif Require Import M_Dict M_Graph M_Machine M_Compose S_Compose L_Compose T_Compose M_Storm S_Storm S_Storm2 L_Storm T_Storm.
Import ListNotations.
Open Scope list_scope.
Open Scope string_scope.

Lemma filter_one {A} (p : A -> bool) l x : NoDup l -> In x l -> p x = true -> (forall y, In y l -> p y = true -> y = x) -> filter p l = [x].
Proof.
  induction 1 as [|y l NI ND IH]; intros I P U; [destruct I|]. cbn [filter]. destruct (p y) eqn:Y.
  - assert (y = x) by (apply U; [left; reflexivity|exact Y]). subst y. f_equal.
    destruct (filter p l) as [|z r] eqn:F; [reflexivity|]. exfalso. assert (J : In z (filter p l)) by (rewrite F; left; reflexivity).
    apply filter_In in J. destruct J as [J1 J2]. rewrite (U z (or_intror J1) J2) in J1. contradiction.
  - destruct I as [->|I]; [congruence|]. apply IH; auto. intros z J. apply U. right. exact J.
Qed.

Lemma forallb_filter_id {A} (p : A -> bool) l : forallb p l = true -> filter p l = l.
Proof. induction l as [|x l IH]; [reflexivity|]. cbn. rewrite andb_true_iff. intros [-> H]. rewrite (IH H). reflexivity. Qed.

Section Read.
  Context {N : Type} (neqb : N -> N -> bool) (neqb_eq : forall a b, neqb a b = true <-> a = b).
  Variable m : model N.
  Hypothesis GM : good_markov m.
  Let states := node_list (m_ts m).

  (** ** States *)
  Lemma same_set_spec a b : same_set a b = true <-> same_labels a b.
  Proof.
    unfold same_set, same_labels. rewrite andb_true_iff, !forallb_forall. split.
    - intros [A B] p. split; intro I; [apply mem_In, A|apply mem_In, B]; exact I.
    - intro H. split; intros p I; apply mem_In, H, I.
  Qed.
  Lemma to_tulip_state_eq st : to_tulip_state neqb st m =
    match filter (fun s => same_set (lab neqb m s) (to_tulip_labels st m)) states with [s] => Ok s | _ => Err "ValueError" end.
  Proof.
    unfold to_tulip_state. rewrite (mapr_val _ (fun s => (s, same_set (lab neqb m s) (to_tulip_labels st m)))).
    2: { intros t It. rewrite (proj2 (lab_label neqb neqb_eq m GM t It)). reflexivity. }
    cbn [bind]. fold states.
    assert (E : forall l, map fst (filter snd (map (fun s => (s, same_set (lab neqb m s) (to_tulip_labels st m))) l)) =
      filter (fun s => same_set (lab neqb m s) (to_tulip_labels st m)) l).
    { induction l as [|t r IH]; [reflexivity|]. cbn [map filter snd]. destruct (same_set _ _); cbn [map fst]; rewrite IH; reflexivity. }
    rewrite E. reflexivity.
  Qed.
  (** Theorem.  The state that is found is the only one that carries exactly those labels of the model
      that the state of stormpy carries. *)
  Theorem to_tulip_state_spec st s : to_tulip_state neqb st m = Ok s <->
    (exists l, state_label (m_ts m) s l /\ forall p, In p l <-> In p (ss_labels st) /\ In p (m_ap m)) /\
    (forall s' l', state_label (m_ts m) s' l' -> (forall p, In p l' <-> In p (ss_labels st) /\ In p (m_ap m)) -> s' = s).
  Proof.
    assert (V : forall l, same_labels l (to_tulip_labels st m) <-> forall p, In p l <-> In p (ss_labels st) /\ In p (m_ap m)).
    { intro l. unfold same_labels, to_tulip_labels. split; intros H p; rewrite (H p); [|symmetry]; rewrite filter_In, mem_In; tauto. }
    rewrite to_tulip_state_eq. split.
    - destruct (filter _ states) as [|t [|]] eqn:F; try discriminate. intros [= ->].
      assert (I : In s (filter (fun s => same_set (lab neqb m s) (to_tulip_labels st m)) states)) by (rewrite F; left; reflexivity).
      apply filter_In in I. destruct I as [I S]. apply same_set_spec in S. split.
      + exists (lab neqb m s). split; [apply (lab_label neqb neqb_eq m GM s I)|]. apply V. exact S.
      + intros s' l' SL E. pose proof (state_label_In m s' l' SL) as I'.
        assert (J : In s' (filter (fun s => same_set (lab neqb m s) (to_tulip_labels st m)) states)).
        { apply filter_In. split; [exact I'|]. apply same_set_spec. rewrite (state_label_fun neqb neqb_eq m GM s' _ l' (proj1 (lab_label neqb neqb_eq m GM s' I')) SL). apply V. exact E. }
        rewrite F in J. destruct J as [->|[]]. reflexivity.
    - intros [(l & SL & E) U]. pose proof (state_label_In m s l SL) as I.
      rewrite (filter_one _ states s); [reflexivity|apply (gm_states m GM)|exact I| |].
      + apply same_set_spec. rewrite (state_label_fun neqb neqb_eq m GM s _ l (proj1 (lab_label neqb neqb_eq m GM s I)) SL). apply V. exact E.
      + intros y Iy Sy. apply same_set_spec in Sy. apply (U y (lab neqb m y)); [apply (lab_label neqb neqb_eq m GM y Iy)|]. apply V. exact Sy.
  Qed.

  (** The states of the model built of a program that describes [m] are recovered. *)
  Section Recover.
    Variables (eps : Qc) (P : program) (vals : list nat) (sm : smodel).
    Hypotheses (D : describes neqb str_nat m eps P) (B : built P vals sm) (TA : told_apart m).
    Lemma value_state i v : nth_error vals i = Some v -> exists s, nth_error states v = Some s.
    Proof.
      intro H. destruct (b_range P vals sm B v (nth_error_In _ _ H)) as [_ R]. destruct (d_range _ _ _ _ _ D) as [_ L]. fold states in L.
      destruct (nth_error states v) eqn:E; [eauto|]. apply nth_error_None in E. lia.
    Qed.
    Lemma storm_state i v : nth_error vals i = Some v -> exists st, nth_error (sm_states sm) i = Some st.
    Proof.
      intro H. destruct (nth_error (sm_states sm) i) eqn:E; [eauto|]. apply nth_error_None in E.
      assert (i < List.length vals)%nat by (apply nth_error_Some; congruence). rewrite (proj2 (b_values P vals sm B)) in H0. lia.
    Qed.
    Lemma storm_value i st : nth_error (sm_states sm) i = Some st -> exists v, nth_error vals i = Some v.
    Proof.
      intro H. destruct (nth_error vals i) eqn:E; [eauto|]. apply nth_error_None in E.
      assert (i < List.length (sm_states sm))%nat by (apply nth_error_Some; congruence). rewrite (proj2 (b_values P vals sm B)) in E. lia.
    Qed.
    Lemma label_holds v s l : nth_error states v = Some s -> state_label (m_ts m) s l -> forall p, In p (m_ap m) -> (holds_label P v p <-> In p l).
    Proof.
      intros Nv SL p Ip. destruct (d_labels _ _ _ _ _ D) as [DA DB]. unfold holds_label. split.
      - intros (vs & I & J). apply (DB p vs I) in J. destruct J as (s' & l' & Ns & SL' & J). fold states in Ns. assert (s' = s) by congruence. subst s'.
        rewrite (state_label_fun neqb neqb_eq m GM s l l' SL SL'). exact J.
      - intro J. rewrite <- DA in Ip. apply in_map_iff in Ip. destruct Ip as ([p' vs] & E & Ip). cbn [fst] in E. subst p'.
        exists vs. split; [exact Ip|]. apply (DB p vs Ip). exists s, l. auto.
    Qed.
    Lemma state_recovered i st v s : nth_error (sm_states sm) i = Some st -> nth_error vals i = Some v -> nth_error states v = Some s ->
      to_tulip_state neqb st m = Ok s.
    Proof.
      intros Hi Hv Hs. apply to_tulip_state_spec. assert (Is : In s states) by exact (nth_error_In _ _ Hs).
      destruct (state_label_ex m GM s Is) as [l SL].
      assert (V : forall p, In p l <-> In p (ss_labels st) /\ In p (m_ap m)).
      { intro p. split.
        - intro I. pose proof (ta_declared m TA s l p SL I) as Ip. split; [|exact Ip].
          apply (b_labels P vals sm B i st v Hi Hv).
          + intros ->. exact (proj1 (ta_names m TA) Ip).
          + intros ->. exact (proj2 (ta_names m TA) Ip).
          + apply (label_holds v s l Hs SL p Ip). exact I.
        - intros [I Ip]. apply (label_holds v s l Hs SL p Ip). apply (b_labels P vals sm B i st v Hi Hv) in I; [exact I| |].
          + intros ->. exact (proj1 (ta_names m TA) Ip).
          + intros ->. exact (proj2 (ta_names m TA) Ip). }
      split; [exists l; auto|]. intros s' l' SL' V'. apply (ta_labels m TA s' s l' l SL' SL). intro p. rewrite V'. symmetry. apply V.
    Qed.
    Lemma state_recovered_ex i st : nth_error (sm_states sm) i = Some st -> exists v s, nth_error vals i = Some v /\ nth_error states v = Some s /\ to_tulip_state neqb st m = Ok s.
    Proof.
      intro H. destruct (storm_value i st H) as [v V]. destruct (value_state i v V) as [s S]. exists v, s. split; [exact V|]. split; [exact S|].
      exact (state_recovered i st v s H V S).
    Qed.
  End Recover.

  (** ** Tables *)
  Section Tables.
    Context {X A : Type}.
    Variables (key : X -> res N) (val : X -> res A) (labels : X -> list string).
    Lemma table_get_add (s s' : N) (a : A) l (t : table A) : table_get neqb s (table_add neqb s' a l t) = if neqb s' s then Some a else table_get neqb s t.
    Proof.
      assert (Z : forall x y, neqb x y = false <-> x <> y).
      { intros x y. destruct (neqb x y) eqn:E; [apply neqb_eq in E; split; [discriminate|congruence]|]. split; auto. intros _ ->. rewrite (proj2 (neqb_eq y y) eq_refl) in E. discriminate. }
      induction t as [|[u y] t IH]; cbn [table_add table_get].
      - reflexivity.
      - destruct (neqb u s') eqn:E; cbn [table_get fst].
        + apply neqb_eq in E. subst u. destruct (neqb s' s); reflexivity.
        + rewrite IH. destruct (neqb u s) eqn:F; [|reflexivity]. apply neqb_eq in F. subst u. apply Z in E. destruct (neqb s' s) eqn:G; [apply neqb_eq in G; congruence|reflexivity].
    Qed.
    Lemma fold_table xs : forall t0, (forall x, In x xs -> exists s a, key x = Ok s /\ val x = Ok a) ->
      (forall x y s, In x xs -> In y xs -> key x = Ok s -> key y = Ok s -> x = y) ->
      exists t, fold_res (fun x t => do s <- key x; do a <- val x; Ok (table_add neqb s a (labels x) t)) xs t0 = Ok t /\
        (forall x s a, In x xs -> key x = Ok s -> val x = Ok a -> table_get neqb s t = Some a) /\
        (forall s, (forall x, In x xs -> key x <> Ok s) -> table_get neqb s t = table_get neqb s t0).
    Proof.
      induction xs as [|x xs IH]; intros t0 H U; [exists t0; split; [reflexivity|split; [intros x s a []|auto]]|].
      destruct (H x (or_introl eq_refl)) as (s & a & Ks & Va). cbn [fold_res]. rewrite Ks, Va. cbn [bind].
      destruct (IH (table_add neqb s a (labels x) t0)) as (t & F & G1 & G2).
      { intros y I. apply H. right. exact I. } { intros y z w I J. apply U; right; assumption. }
      exists t. split; [exact F|]. split.
      - intros y s' a' [<-|I] Ky Vy; [|exact (G1 y s' a' I Ky Vy)]. rewrite Ks in Ky. injection Ky as <-. rewrite Va in Vy. injection Vy as <-.
        destruct (existsb (fun y => match key y with Ok s' => neqb s' s | Err _ => false end) xs) eqn:Ex.
        + apply existsb_exists in Ex. destruct Ex as (y & I & E). destruct (key y) as [s'|] eqn:Ky; [|discriminate]. apply neqb_eq in E. subst s'.
          assert (x = y) by (apply (U x y s); [left; reflexivity|right; exact I|exact Ks|exact Ky]). subst y. exact (G1 x s a I Ks Va).
        + rewrite G2, table_get_add, (proj2 (neqb_eq s s) eq_refl); [reflexivity|]. intros y I Ky.
          assert (existsb (fun y => match key y with Ok s' => neqb s' s | Err _ => false end) xs = true).
          { apply existsb_exists. exists y. split; [exact I|]. rewrite Ky. apply neqb_eq. reflexivity. } congruence.
      - intros s' NK. rewrite G2, table_get_add by (intros y I; apply NK; right; exact I).
        destruct (neqb s s') eqn:E; [|reflexivity]. apply neqb_eq in E. subst s'. exfalso. exact (NK x (or_introl eq_refl) Ks).
    Qed.
  End Tables.
  Lemma fold_res_ext2 {X Y} (f g : X -> Y -> res Y) l b : (forall x b', f x b' = g x b') -> fold_res f l b = fold_res g l b.
  Proof. intro H. revert b. induction l as [|x l IH]; intro b; [reflexivity|]. cbn [fold_res]. rewrite H. destruct (g x b); cbn [bind]; auto. Qed.

  Section Probability.
    Variables (eps : Qc) (P : program) (vals : list nat) (sm : smodel).
    Hypotheses (D : describes neqb str_nat m eps P) (B : built P vals sm) (TA : told_apart m).
    Lemma states_distinct x y s : In x (enumerate (sm_states sm)) -> In y (enumerate (sm_states sm)) ->
      to_tulip_state neqb (snd x) m = Ok s -> to_tulip_state neqb (snd y) m = Ok s -> x = y.
    Proof.
      destruct x as [i st], y as [j st']. intros Ii Ij. apply enumerate_nth in Ii. apply enumerate_nth in Ij. cbn [snd]. intros Hi Hj.
      destruct (state_recovered_ex eps P vals sm D B TA i st Ii) as (v & t & V & S & R).
      destruct (state_recovered_ex eps P vals sm D B TA j st' Ij) as (v' & t' & V' & S' & R').
      rewrite Hi in R. rewrite Hj in R'. injection R as <-. injection R' as <-.
      assert (v = v') by exact (nth_unique states v v' s (gm_states m GM) S S'). subst v'.
      assert (i = j) by exact (nth_unique vals i j v (proj1 (b_values P vals sm B)) V V'). subst j. congruence.
    Qed.
    (** Theorem.  The function that is returned gives every explored state of the model what stormpy
        says of it, and nothing for the other states. *)
    Theorem extract_probability_spec {A} (at_state : nat -> A) :
      exists t, extract_probability neqb at_state sm m = Ok t /\
        (forall i v s, nth_error vals i = Some v -> nth_error states v = Some s -> table_get neqb s t = Some (at_state i)) /\
        (forall s, (forall v, In v vals -> nth_error states v <> Some s) -> table_get neqb s t = None).
    Proof.
      destruct (fold_table (fun x => to_tulip_state neqb (snd x) m) (fun x : nat * sstate => Ok (at_state (fst x))) (fun _ => []) (enumerate (sm_states sm)) [])
        as (t & F & G1 & G2).
      - intros [i st] I. apply enumerate_nth in I. destruct (state_recovered_ex eps P vals sm D B TA i st I) as (v & s & _ & _ & R). exists s, (at_state i). auto.
      - intros x y s. apply states_distinct.
      - exists t. split; [|split].
        + unfold extract_probability. rewrite <- F. apply fold_res_ext2. intros x t'. destruct (to_tulip_state neqb (snd x) m); reflexivity.
        + intros i v s V S. destruct (storm_state P vals sm B i v V) as [st St]. apply (G1 (i, st)); [apply enumerate_nth; exact St| |reflexivity].
          exact (state_recovered eps P vals sm D B TA i st v s St V S).
        + intros s NE. rewrite G2; [reflexivity|]. intros [i st] I R. apply enumerate_nth in I. cbn [snd] in R.
          destruct (state_recovered_ex eps P vals sm D B TA i st I) as (v & s' & V & S & R'). rewrite R in R'. injection R' as <-.
          exact (NE v (nth_error_In _ _ V) S).
    Qed.
  End Probability.
End Read.

(** ** Actions *)
Section Actions.
  Context {N : Type} (neqb : N -> N -> bool) (neqb_eq : forall a b, neqb a b = true <-> a = b).
  Variable m : model N.
  Hypothesis GM : good_markov m.
  Let states := node_list (m_ts m).

  Definition between (s s' : N) : list (edge N val) := filter (fun e => neqb (e_src e) s && neqb (e_dst e) s') (g_edges (m_ts m)).
  Lemma find_between s s' : find_transitions neqb val_eqb (config_of m) (Some [s]) (Some [s']) [] (m_ts m) = Ok (between s s').
  Proof.
    unfold find_transitions, between. cbn zeta.
    rewrite (filter_ext (fun e => nmem neqb (e_src e) [s] && nmem neqb (e_dst e) [s']) (fun e => neqb (e_src e) s && neqb (e_dst e) s')).
    2: { intro e. cbn. rewrite !orb_false_r. reflexivity. }
    match goal with |- bind (mapr ?f ?l) _ = _ => assert (E : mapr f l = Ok (map (fun e => (e, true)) l)) end.
    { match goal with |- mapr _ ?l = _ => induction l as [|e r IH]; cbn [mapr map]; [reflexivity|] end. cbn [bind]. rewrite IH. reflexivity. }
    rewrite E. cbn [bind]. f_equal. clear E. induction (filter _ (g_edges (m_ts m))) as [|e r IH]; cbn [map filter snd fst]; [reflexivity|]. rewrite IH. reflexivity.
  Qed.
  Lemma between_In e s s' : In e (between s s') <-> In e (g_edges (m_ts m)) /\ e_src e = s /\ e_dst e = s'.
  Proof. unfold between. rewrite filter_In, andb_true_iff, !neqb_eq. tauto. Qed.

  Definition hits (tol p : Qc) (a : val) (e : edge N val) : bool :=
    match value "probability" e with VNum q => far tol q p | _ => false end && val_eqb (value "action" e) a.
  Lemma remove_filter a l : NoDup l -> remove_first a l = filter (fun b => negb (val_eqb a b)) l.
  Proof.
    induction 1 as [|b l NI ND IH]; [reflexivity|]. cbn [remove_first filter]. destruct (val_eqb b a) eqn:E.
    - apply val_eqb_eq in E. subst b. rewrite (proj2 (val_eqb_eq a a) eq_refl). cbn [negb]. symmetry. apply forallb_filter_id. apply forallb_forall. intros c I.
      destruct (val_eqb a c) eqn:F; [apply val_eqb_eq in F; subst c; contradiction|reflexivity].
    - destruct (val_eqb a b) eqn:F; [apply val_eqb_eq in F; subst b; rewrite (proj2 (val_eqb_eq a a) eq_refl) in E; discriminate|]. cbn [negb]. f_equal. exact IH.
  Qed.
  Lemma check_spec tol p es acts : m_kind m = MDP -> (forall e, In e es -> In e (g_edges (m_ts m))) -> NoDup acts ->
    fold_res (check_transition tol p) es acts = Ok (filter (fun a => negb (existsb (hits tol p a) es)) acts).
  Proof.
    intro K. revert acts. induction es as [|e es IH]; intros acts Sub ND.
    - cbn. f_equal. symmetry. apply forallb_filter_id. apply forallb_forall. reflexivity.
    - cbn [fold_res]. destruct (gm_prob m GM e (Sub e (or_introl eq_refl))) as (q & Pq & _). pose proof (gm_action m GM e (Sub e (or_introl eq_refl))) as Ae. rewrite K in Ae.
      destruct Ae as (a & Aa & _).
      assert (C : check_transition tol p e acts = Ok (filter (fun b => negb (hits tol p b e)) acts)).
      { unfold check_transition, hits, value. rewrite Pq, Aa. cbn [bind]. destruct (far tol q p); cbn [of_opt bind andb].
        - rewrite (remove_filter a acts ND). reflexivity.
        - f_equal. symmetry. apply forallb_filter_id. apply forallb_forall. reflexivity. }
      rewrite C. cbn [bind]. rewrite IH; [|intros x I; apply Sub; right; exact I|apply NoDup_filter; exact ND].
      f_equal. rewrite filter_filter. apply filter_ext. intro b. cbn [existsb]. destruct (hits tol p b e), (existsb (hits tol p b) es); reflexivity.
  Qed.

  Section Map.
    Variable sm : smodel.
    Hypothesis K : m_kind m = MDP.
    Hypothesis RS : forall i st, nth_error (sm_states sm) i = Some st -> exists s, to_tulip_state neqb st m = Ok s.
    Hypothesis RC : forall st act j p, In st (sm_states sm) -> In act (ss_actions st) -> In (j, p) (sa_trans act) -> exists st', nth_error (sm_states sm) j = Some st'.

    (** What the transition [t] of a choice in state [s] says against action [a]. *)
    Definition against (s : N) (a : val) (t : nat * Qc) : bool :=
      match nth_error (sm_states sm) (fst t) with
      | Some st' => match to_tulip_state neqb st' m with
                    | Ok s' => existsb (hits tolerance (snd t) a) (between s s')
                    | Err _ => false
                    end
      | None => false
      end.
    Lemma update_spec s ts acts : (forall t, In t ts -> exists st', nth_error (sm_states sm) (fst t) = Some st') -> NoDup acts ->
      update_possible neqb tolerance sm m s ts acts = Ok (filter (fun a => negb (existsb (against s a) ts)) acts).
    Proof.
      unfold update_possible. revert acts. induction ts as [|t ts IH]; intros acts C ND.
      - cbn. f_equal. symmetry. apply forallb_filter_id. apply forallb_forall. reflexivity.
      - cbn [fold_res]. destruct (C t (or_introl eq_refl)) as [st' St]. destruct (RS (fst t) st' St) as [s' Rs].
        rewrite St. cbn [of_opt bind]. rewrite Rs. cbn [bind]. rewrite find_between. cbn [bind].
        rewrite (check_spec tolerance (snd t) (between s s') acts K); [|intros e I; apply between_In in I; tauto|exact ND]. cbn [bind].
        rewrite IH; [|intros x I; apply C; right; exact I|apply NoDup_filter; exact ND]. f_equal. rewrite filter_filter. apply filter_ext. intro b. cbn [existsb].
        unfold against at 2. rewrite St, Rs. destruct (existsb (hits tolerance (snd t) b) (between s s')), (existsb (against s b) ts); reflexivity.
    Qed.

    (** The choices met so far, each with the state that it is in. *)
    Definition named (x : string) (L : list (N * saction)) : list (N * saction) := filter (fun y => sa_name (snd y) =? x) L.
    Definition kept (M : list (N * saction)) : list val :=
      filter (fun a => forallb (fun y => negb (existsb (against (fst y) a) (sa_trans (snd y)))) M) (m_actions m).
    Definition mapped (L : list (N * saction)) (d : action_map) : Prop :=
      forall x, lookup x d = match named x L with [] => None | M => Some (kept M) end.
    Lemma lookup_set {V} k k' (v : V) d : lookup k (set_item k' v d) = if k' =? k then Some v else lookup k d.
    Proof.
      induction d as [|[j w] d IH]; cbn [set_item lookup].
      - rewrite (String.eqb_sym k k'). destruct (k' =? k); reflexivity.
      - destruct (k' =? j) eqn:E; cbn [lookup].
        + apply String.eqb_eq in E. subst j. rewrite (String.eqb_sym k k'). destruct (k' =? k); reflexivity.
        + rewrite IH. destruct (k =? j) eqn:F; [|reflexivity]. apply String.eqb_eq in F. subst j. rewrite E. reflexivity.
    Qed.
    Lemma kept_snoc M y : kept (M ++ [y])%list = filter (fun a => negb (existsb (against (fst y) a) (sa_trans (snd y)))) (kept M).
    Proof.
      unfold kept. rewrite filter_filter. apply filter_ext. intro a. rewrite forallb_app. cbn [forallb]. rewrite andb_true_r. reflexivity.
    Qed.
    Lemma map_action_spec s act L d : mapped L d -> (forall t, In t (sa_trans act) -> exists st', nth_error (sm_states sm) (fst t) = Some st') ->
      exists d', map_action neqb sm m s act d = Ok d' /\ mapped (L ++ [(s, act)])%list d'.
    Proof.
      intros MP C. unfold map_action.
      assert (A : match lookup (sa_name act) d with Some l => l | None => m_actions m end = kept (named (sa_name act) L)).
      { rewrite (MP (sa_name act)). destruct (named (sa_name act) L) eqn:E; [|reflexivity]. unfold kept. cbn. symmetry. apply forallb_filter_id. apply forallb_forall. reflexivity. }
      rewrite A, update_spec; [|exact C|apply NoDup_filter; apply (gm_actions m GM)]. cbn [bind]. eexists. split; [reflexivity|].
      intro x. rewrite lookup_set. unfold named at 2. rewrite filter_app. cbn [filter snd]. fold (named x L). destruct (sa_name act =? x) eqn:E.
      - apply String.eqb_eq in E. subst x. replace (filter _ (kept _)) with (kept (named (sa_name act) L ++ [(s, act)])%list) by (rewrite kept_snoc; reflexivity).
        destruct (named (sa_name act) L); reflexivity.
      - rewrite app_nil_r. apply MP.
    Qed.
    Definition choices (st : sstate) : list (N * saction) :=
      match to_tulip_state neqb st m with Ok s => map (fun a => (s, a)) (ss_actions st) | Err _ => [] end.
    Lemma map_actions_spec s acts : forall L d, mapped L d -> (forall act t, In act acts -> In t (sa_trans act) -> exists st', nth_error (sm_states sm) (fst t) = Some st') ->
      exists d', fold_res (map_action neqb sm m s) acts d = Ok d' /\ mapped (L ++ map (fun a => (s, a)) acts)%list d'.
    Proof.
      induction acts as [|act acts IH]; intros L d MP C; cbn [fold_res map].
      - exists d. split; [reflexivity|]. rewrite app_nil_r. exact MP.
      - destruct (map_action_spec s act L d MP) as (d1 & E1 & M1); [intros t I; apply (C act t (or_introl eq_refl) I)|]. rewrite E1. cbn [bind].
        destruct (IH _ d1 M1) as (d2 & E2 & M2); [intros a t I J; apply (C a t (or_intror I) J)|]. exists d2. split; [exact E2|]. rewrite <- app_assoc in M2. exact M2.
    Qed.
    Lemma action_map_mapped : exists d, get_action_map neqb sm m = Ok d /\ mapped (flat_map choices (sm_states sm)) d.
    Proof.
      unfold get_action_map. rewrite K.
      assert (G : forall sts L d, (forall st, In st sts -> In st (sm_states sm)) -> mapped L d -> exists d', fold_res (map_state neqb sm m) sts d = Ok d' /\ mapped (L ++ flat_map choices sts)%list d').
      { induction sts as [|st sts IH]; intros L d Sub MP; cbn [fold_res flat_map].
        - exists d. split; [reflexivity|]. rewrite app_nil_r. exact MP.
        - pose proof (Sub st (or_introl eq_refl)) as I. destruct (In_nth_error _ _ I) as [i Hi]. destruct (RS i st Hi) as [s Rs].
          unfold map_state at 1. rewrite Rs. cbn [bind]. destruct (map_actions_spec s (ss_actions st) L d MP) as (d1 & E1 & M1).
          { intros act [j p] Ia It. exact (RC st act j p I Ia It). }
          rewrite E1. cbn [bind]. destruct (IH _ d1 (fun x J => Sub x (or_intror J)) M1) as (d2 & E2 & M2). exists d2. split; [exact E2|].
          unfold choices at 1. rewrite Rs, app_assoc. exact M2. }
      destruct (G (sm_states sm) [] [] (fun _ I => I)) as (d & E & MP); [intro x; reflexivity|]. exists d. auto.
    Qed.
    Lemma choices_In s act : In (s, act) (flat_map choices (sm_states sm)) <-> exists st, In st (sm_states sm) /\ to_tulip_state neqb st m = Ok s /\ In act (ss_actions st).
    Proof.
      rewrite in_flat_map. unfold choices. split.
      - intros (st & I & J). destruct (to_tulip_state neqb st m) as [s'|] eqn:R; [|destruct J]. apply in_map_iff in J. destruct J as (a & [= <- <-] & J). eauto.
      - intros (st & I & R & J). exists st. split; [exact I|]. rewrite R. apply in_map_iff. eauto.
    Qed.
    (** [a] agrees with the choices that are named [x]: where the model has a step under [a] between two
        states, and a choice named [x] goes from the one to the other, the probabilities are the same up
        to a millionth. *)
    Definition agrees (x : string) (a : val) : Prop :=
      forall st act j p st' s s' e q, In st (sm_states sm) -> In act (ss_actions st) -> sa_name act = x -> In (j, p) (sa_trans act) ->
        nth_error (sm_states sm) j = Some st' -> to_tulip_state neqb st m = Ok s -> to_tulip_state neqb st' m = Ok s' ->
        In e (g_edges (m_ts m)) -> e_src e = s -> e_dst e = s' -> value "action" e = a -> value "probability" e = VNum q ->
        (q - p <= Q2Qc (1 # 1000000) /\ p - q <= Q2Qc (1 # 1000000))%Qc.
    Lemma far_false tol p q : far tol p q = false <-> (p - q <= tol /\ q - p <= tol)%Qc.
    Proof.
      unfold far. rewrite negb_false_iff, andb_true_iff, !Qle_bool_iff.
      assert (E : forall x y : Qc, (this x - this y <= this tol)%Q <-> (x - y <= tol)%Qc).
      { intros x y. unfold Qcle, Qcminus, Qcplus, Qcopp. cbn [this Q2Qc]. rewrite !Qred_correct. reflexivity. }
      rewrite !E. reflexivity.
    Qed.
    Lemma kept_agrees x a : In a (kept (named x (flat_map choices (sm_states sm)))) <-> In a (m_actions m) /\ agrees x a.
    Proof.
      unfold kept. rewrite filter_In, forallb_forall. split; intros [I H]; (split; [exact I|]).
      - intros st act j p st' s s' e q Is Ia Nm It Hj Rs Rs' Ie Es Ed Ea Pq.
        assert (Y : In (s, act) (named x (flat_map choices (sm_states sm)))).
        { unfold named. apply filter_In. split; [apply choices_In; eauto|]. cbn [snd]. apply String.eqb_eq. exact Nm. }
        apply H in Y. cbn [fst snd] in Y. rewrite negb_true_iff in Y. apply far_false.
        destruct (far _ q p) eqn:F; [|reflexivity]. rewrite <- Y. symmetry. apply existsb_exists. exists (j, p). split; [exact It|].
        unfold against. cbn [fst snd]. rewrite Hj, Rs'. apply existsb_exists. exists e. split; [apply between_In; auto|]. unfold hits. rewrite Pq. unfold tolerance.
        rewrite F, Ea, (proj2 (val_eqb_eq a a) eq_refl). reflexivity.
      - intros [s act] Y. unfold named in Y. apply filter_In in Y. destruct Y as [Y Nm]. cbn [snd] in Nm. apply String.eqb_eq in Nm. apply choices_In in Y.
        destruct Y as (st & Is & Rs & Ia). cbn [fst snd]. rewrite negb_true_iff. destruct (existsb _ (sa_trans act)) eqn:Ex; [|reflexivity]. exfalso.
        apply existsb_exists in Ex. destruct Ex as ([j p] & It & Ag). unfold against in Ag. cbn [fst snd] in Ag.
        destruct (nth_error (sm_states sm) j) as [st'|] eqn:Hj; [|discriminate]. destruct (to_tulip_state neqb st' m) as [s'|] eqn:Rs'; [|discriminate].
        apply existsb_exists in Ag. destruct Ag as (e & Ie & Hi). apply between_In in Ie. destruct Ie as (Ie & Es & Ed). unfold hits in Hi. apply andb_true_iff in Hi.
        destruct Hi as [F Ea]. apply val_eqb_eq in Ea. destruct (value "probability" e) as [|q| | |] eqn:Pq; try discriminate.
        pose proof (H st act j p st' s s' e q Is Ia Nm It Hj Rs Rs' Ie Es Ed Ea Pq) as Ok. apply far_false in Ok. fold tolerance in Ok. congruence.
    Qed.
    Theorem action_map_exact : exists d, get_action_map neqb sm m = Ok d /\
      forall x, (lookup x d = None <-> forall st act, In st (sm_states sm) -> In act (ss_actions st) -> sa_name act <> x) /\
        forall l, lookup x d = Some l -> (exists f, l = filter f (m_actions m)) /\ forall a, In a l <-> In a (m_actions m) /\ agrees x a.
    Proof.
      destruct action_map_mapped as (d & E & MP). exists d. split; [exact E|]. intro x. rewrite (MP x). split.
      - split.
        + intros H st act Is Ia Nm. destruct (In_nth_error _ _ Is) as [i Hi]. destruct (RS i st Hi) as [s Rs].
          assert (Y : In (s, act) (named x (flat_map choices (sm_states sm)))).
          { unfold named. apply filter_In. split; [apply choices_In; eauto|]. cbn [snd]. apply String.eqb_eq. exact Nm. }
          destruct (named x _); [destruct Y|discriminate].
        + intro H. destruct (named x _) as [|[s act] r] eqn:Y; [reflexivity|]. exfalso.
          assert (I : In (s, act) (named x (flat_map choices (sm_states sm)))) by (rewrite Y; left; reflexivity).
          unfold named in I. apply filter_In in I. destruct I as [I Nm]. apply choices_In in I. destruct I as (st & Is & _ & Ia). apply String.eqb_eq in Nm. exact (H st act Is Ia Nm).
      - intros l H.
        assert (L : l = kept (named x (flat_map choices (sm_states sm)))) by (destruct (named x _); [discriminate|injection H as <-; reflexivity]).
        rewrite L. split; [unfold kept; eauto|]. intro a. apply kept_agrees.
    Qed.
  End Map.
End Actions.

(** ** Policies *)
Section Policy.
  Context {N : Type} (neqb : N -> N -> bool) (neqb_eq : forall a b, neqb a b = true <-> a = b).
  Variable m : model N.
  Hypothesis GM : good_markov m.
  Hypothesis K : m_kind m = MDP.
  Let states := node_list (m_ts m).

  Lemma append_same p a b : p ++ a = p ++ b -> a = b.
  Proof. induction p as [|c p IH]; cbn [String.append]; [auto|]. intros [= H]. auto. Qed.
  Lemma action_text_inj a b t : action_text str_nat m a t -> action_text str_nat m b t -> a = b.
  Proof.
    unfold action_text. rewrite K. intros (k & A & ->) (k' & B & E). injection E as E. apply str_nat_inj in E. subst k'. congruence.
  Qed.
  Lemma action_text_fun a t t' : action_text str_nat m a t -> action_text str_nat m a t' -> t = t'.
  Proof.
    unfold action_text. rewrite K. intros (k & A & ->) (k' & B & ->). rewrite (nth_unique (m_actions m) k k' a (proj1 (gm_actions m GM)) A B). reflexivity.
  Qed.

  Lemma filter_none {A} (p : A -> bool) l : (forall x, In x l -> p x = false) -> filter p l = [].
  Proof. induction l as [|x l IH]; [reflexivity|]. intro H. cbn. rewrite (H x (or_introl eq_refl)). apply IH. intros y I. apply H. right. exact I. Qed.
  Lemma Forall2_In_l {A B} (R : A -> B -> Prop) l l' x : Forall2 R l l' -> In x l -> exists y, In y l' /\ R x y.
  Proof. induction 1 as [|a b l l' H F IH]; intros []; [subst; exists b; cbn; auto|]. destruct (IH H0) as (y & I & J). exists y. cbn. auto. Qed.
  Lemma Forall2_In_r {A B} (R : A -> B -> Prop) l l' y : Forall2 R l l' -> In y l' -> exists x, In x l /\ R x y.
  Proof. induction 1 as [|a b l l' H F IH]; intros []; [subst; exists a; cbn; auto|]. destruct (IH H0) as (x & I & J). exists x. cbn. auto. Qed.
  Lemma Forall2_both {A B} (R S : A -> B -> Prop) l l' : Forall2 R l l' -> Forall2 S l l' -> Forall2 (fun x y => R x y /\ S x y) l l'.
  Proof. induction 1; intro H'; inversion H'; subst; constructor; auto. Qed.

  Lemma update_alone us es e w q : Forall2 (update_of m 0%Qc) us es -> NoDup es -> In e es -> nth_error states w = Some (e_dst e) ->
    (forall e', In e' es -> e_dst e' = e_dst e -> e' = e) -> value "probability" e = VNum q ->
    exists u, filter (fun u => Nat.eqb (snd u) w) us = [u] /\ fst u = q.
  Proof.
    intros F ND I W U Q. induction F as [|u e' us es R F IH]; [destruct I|]. inversion ND as [|? ? NI ND']; subst. destruct R as [Ru (q' & Vq & Near)]. cbn [filter]. fold states in Ru.
    destruct I as [->|I].
    - rewrite (nth_unique states (snd u) w (e_dst e) (gm_states m GM) Ru W), Nat.eqb_refl. exists u. split.
      + f_equal. apply filter_none. intros u' Iu. destruct (Forall2_In_l _ _ _ _ F Iu) as (e' & Ie & [Ru' _]). apply Nat.eqb_neq. intro X. subst w. fold states in Ru'.
        assert (e_dst e' = e_dst e) by congruence. apply NI. rewrite <- (U e' (or_intror Ie) H). exact Ie.
      + rewrite Q in Vq. injection Vq as <-. apply Qc_is_canon. apply Qabs_Qle_condition in Near. change (this 0%Qc) with 0%Q in Near. lra.
    - destruct (Nat.eqb (snd u) w) eqn:X.
      + apply Nat.eqb_eq in X. subst w. assert (e_dst e' = e_dst e) by congruence. exfalso. apply NI. rewrite (U e' (or_introl eq_refl) H). exact I.
      + apply IH; auto. intros e'' I'' . apply U. right. exact I''.
  Qed.

  Section Of.
    Variables (P : program) (vals : list nat) (sm : smodel) (nm : string -> string).
    Hypotheses (D : describes neqb str_nat m 0%Qc P) (B : built P vals sm) (TA : told_apart m)
      (ONE : one_transition m) (NM : names_of nm P vals sm)
      (AP : apart m tolerance (fun s => exists v, In v vals /\ nth_error states v = Some s)).

    Lemma under_In e s a : In e (under neqb m s a) <-> In e (g_edges (m_ts m)) /\ e_src e = s /\ value "action" e = a.
    Proof. unfold under. rewrite filter_In, andb_true_iff, neqb_eq, val_eqb_eq. tauto. Qed.
    Lemma command_goes c s a e w q : In c (pg_commands P) -> nth_error states (cm_guard c) = Some s -> action_text str_nat m a (cm_act c) ->
      In e (g_edges (m_ts m)) -> e_src e = s -> value "action" e = a -> nth_error states w = Some (e_dst e) -> value "probability" e = VNum q ->
      In w (map snd (cm_updates c)) /\ goes c w = q.
    Proof.
      intros Ic G A Ie Es Ea W Q. destruct (d_sound _ _ _ _ _ D c Ic) as (s' & a' & G' & A' & _ & F). fold states in G'. assert (s' = s) by congruence. subst s'.
      assert (a' = a) by exact (action_text_inj a' a _ A' A). subst a'.
      destruct (update_alone (cm_updates c) (under neqb m s a) e w q F) as (u & Fu & Q'); auto.
      - unfold under. apply NoDup_filter. apply (proj1 ONE).
      - apply under_In. auto.
      - intros e' I' Ed. apply under_In in I'. destruct I' as (I' & Es' & Ea'). apply (proj2 ONE); congruence.
      - split; [|unfold goes; rewrite Fu; cbn [map]; rewrite sumq_cons, sumq_nil, Q'; ring].
        assert (Iu : In u (filter (fun u => Nat.eqb (snd u) w) (cm_updates c))) by (rewrite Fu; left; reflexivity).
        apply filter_In in Iu. destruct Iu as [Iu X]. apply Nat.eqb_eq in X. subst w. apply in_map. exact Iu.
    Qed.
    (** The choices of a state and the commands. *)
    Lemma choice_command i st v act : nth_error (sm_states sm) i = Some st -> nth_error vals i = Some v -> In act (ss_actions st) ->
      exists c t, In c (pg_commands P) /\ cm_guard c = v /\ cm_act c = Some t /\ sa_name act = nm t /\ is_choice vals act c.
    Proof.
      intros Hi Hv Ia. pose proof (b_choices P vals sm B i st v Hi Hv (no_enabled _ _ _ _ NM v (nth_error_In _ _ Hv))) as F.
      pose proof (no_names _ _ _ _ NM i st v Hi Hv) as G. destruct (Forall2_In_l _ _ _ _ (Forall2_both _ _ _ _ F G) Ia) as (c & Ic & C & t & T1 & T2).
      unfold enabled in Ic. apply filter_In in Ic. destruct Ic as [Ic X]. apply Nat.eqb_eq in X. exists c, t. auto.
    Qed.
    Lemma command_choice i st v c : nth_error (sm_states sm) i = Some st -> nth_error vals i = Some v -> In c (pg_commands P) -> cm_guard c = v ->
      exists act t, In act (ss_actions st) /\ cm_act c = Some t /\ sa_name act = nm t /\ is_choice vals act c.
    Proof.
      intros Hi Hv Ic Gc. pose proof (b_choices P vals sm B i st v Hi Hv (no_enabled _ _ _ _ NM v (nth_error_In _ _ Hv))) as F.
      pose proof (no_names _ _ _ _ NM i st v Hi Hv) as G.
      assert (Ic' : In c (enabled P v)) by (apply filter_In; split; [exact Ic|apply Nat.eqb_eq; exact Gc]).
      destruct (Forall2_In_r _ _ _ _ (Forall2_both _ _ _ _ F G) Ic') as (act & Ia & C & t & T1 & T2). exists act, t. auto.
    Qed.
    Lemma recovered i st v : nth_error (sm_states sm) i = Some st -> nth_error vals i = Some v -> exists s, nth_error states v = Some s /\ to_tulip_state neqb st m = Ok s.
    Proof.
      intros Hi Hv. destruct (value_state neqb m 0%Qc P vals sm D B i v Hv) as [s S]. exists s. split; [exact S|].
      exact (state_recovered neqb neqb_eq m GM 0%Qc P vals sm D B TA i st v s Hi Hv S).
    Qed.
    Lemma right_agrees a t : action_text str_nat m a (Some t) -> agrees neqb m sm (nm t) a.
    Proof.
      intros A st act j p st' s s' e q Is Ia Nm It Hj Rs Rs' Ie Es Ed Ea Q.
      destruct (In_nth_error _ _ Is) as [i Hi]. destruct (storm_value P vals sm B i st Hi) as [v Hv]. destruct (recovered i st v Hi Hv) as (s1 & S1 & R1).
      rewrite Rs in R1. injection R1 as <-. destruct (choice_command i st v act Hi Hv Ia) as (c & t' & Ic & G & T & Nm' & (_ & C2 & _)).
      assert (t' = t) by (apply (no_apart _ _ _ _ NM); congruence). subst t'.
      destruct (C2 j p It) as (w & Hw & _ & ->). destruct (recovered j st' w Hj Hw) as (s2 & S2 & R2). rewrite Rs' in R2. injection R2 as <-.
      destruct (command_goes c s a e w q Ic) as [_ ->]; auto; try congruence.
      assert (E : (q - q = 0)%Qc) by ring. rewrite E. split; unfold Qcle; cbn; unfold Qle; cbn; lia.
    Qed.
    Lemma wrong_disagrees a b t : action_text str_nat m a (Some t) -> In b (m_actions m) -> a <> b -> ~ agrees neqb m sm (nm t) b.
    Proof.
      intros A Ib NE AG. assert (Ia : In a (m_actions m)) by (unfold action_text in A; rewrite K in A; destruct A as (k & A & _); exact (nth_error_In _ _ A)).
      destruct (AP a b Ia Ib NE) as (e & e' & q & q' & Ie & Ie' & (v & Iv & Sv) & Es & Ed & Va & Vb & Q & Q' & Far).
      destruct (In_nth_error _ _ Iv) as [i Hv]. destruct (storm_state P vals sm B i v Hv) as [st Hi].
      destruct (d_complete _ _ _ _ _ D e Ie) as (c & v' & Ic & S' & G & T). fold states in S'.
      assert (Ev : v' = v) by exact (nth_unique states v' v (e_src e) (gm_states m GM) S' Sv). rewrite Ev in G.
      rewrite Va in T. destruct (command_choice i st v c Hi Hv Ic G) as (act & t' & Iact & Tc & Nm & (_ & _ & C3)).
      assert (t' = t) by (rewrite Tc in T; pose proof (action_text_fun a _ _ T A); congruence). subst t'.
      destruct (gm_ends m GM e Ie) as [_ Idst]. destruct (In_nth_error _ _ Idst) as [w Hw]. fold states in Hw.
      destruct (command_goes c (e_src e) a e w q Ic) as [Iw Gw]; auto; try (rewrite G; assumption).
      destruct (C3 w Iw) as (j & Hj & It). rewrite Gw in It. destruct (storm_state P vals sm B j w Hj) as [st' Hst'].
      destruct (recovered i st v Hi Hv) as (s1 & S1 & R1). destruct (recovered j st' w Hst' Hj) as (s2 & S2 & R2).
      assert (s1 = e_src e) by congruence. assert (s2 = e_dst e) by congruence. subst s1 s2.
      pose proof (AG st act j q st' (e_src e) (e_dst e) e' q' (nth_error_In _ _ Hi) Iact Nm It Hst' R1 R2 Ie' (eq_sym Es) (eq_sym Ed) Vb Q') as [L1 L2].
      destruct Far as [Far|Far]; fold tolerance in L1, L2; exact (Qclt_not_le _ _ Far ltac:(assumption)).
    Qed.
    Lemma kept_right a t d l : action_text str_nat m a (Some t) -> get_action_map neqb sm m = Ok d -> lookup (nm t) d = Some l -> l = [a].
    Proof.
      intros A E L.
      assert (RS : forall i st, nth_error (sm_states sm) i = Some st -> exists s, to_tulip_state neqb st m = Ok s).
      { intros i st Hi. destruct (storm_value P vals sm B i st Hi) as [v Hv]. destruct (recovered i st v Hi Hv) as (s & _ & R). eauto. }
      assert (RC : forall st act j p, In st (sm_states sm) -> In act (ss_actions st) -> In (j, p) (sa_trans act) -> exists st', nth_error (sm_states sm) j = Some st').
      { intros st act j p Is Ia It. destruct (In_nth_error _ _ Is) as [i Hi]. destruct (storm_value P vals sm B i st Hi) as [v Hv].
        destruct (choice_command i st v act Hi Hv Ia) as (c & t' & _ & _ & _ & _ & (_ & C2 & _)). destruct (C2 j p It) as (w & Hw & _). exact (storm_state P vals sm B j w Hw). }
      destruct (action_map_exact neqb neqb_eq m GM sm K RS RC) as (d' & E' & H). assert (d' = d) by congruence. subst d'.
      destruct (proj2 (H (nm t)) l L) as ((f & ->) & M).
      assert (Ia : In a (m_actions m)) by (unfold action_text in A; rewrite K in A; destruct A as (k & A & _); exact (nth_error_In _ _ A)).
      apply filter_one; [apply (gm_actions m GM)|exact Ia| |].
      - assert (X : In a (filter f (m_actions m))) by (apply M; split; [exact Ia|apply right_agrees; exact A]). apply filter_In in X. tauto.
      - intros b Ib Fb. assert (X : In b (filter f (m_actions m))) by (apply filter_In; auto). apply M in X. destruct X as [_ AG].
        destruct (val_eqb a b) eqn:Eab; [apply val_eqb_eq in Eab; auto|]. exfalso. apply (wrong_disagrees a b t A Ib); [|exact AG].
        intros ->. rewrite (proj2 (val_eqb_eq b b) eq_refl) in Eab. discriminate.
    Qed.
    Theorem extract_policy_spec ch :
      (forall i v, nth_error vals i = Some v -> exists c t, In c (enabled P v) /\ cm_act c = Some t /\ ch i = nm t) ->
      exists tbl, extract_policy neqb (Some ch) sm m = Ok tbl /\
        (forall i v s c t, nth_error vals i = Some v -> nth_error states v = Some s -> In c (enabled P v) -> cm_act c = Some t -> ch i = nm t ->
           exists a, table_get neqb s tbl = Some a /\ action_text str_nat m a (Some t) /\ Forall2 (update_of m 0%Qc) (cm_updates c) (under neqb m s a)) /\
        (forall s, (forall v, In v vals -> nth_error states v <> Some s) -> table_get neqb s tbl = None).
    Proof.
      intro CH.
      assert (RS : forall i st, nth_error (sm_states sm) i = Some st -> exists s, to_tulip_state neqb st m = Ok s).
      { intros i st Hi. destruct (storm_value P vals sm B i st Hi) as [v Hv]. destruct (recovered i st v Hi Hv) as (s & _ & R). eauto. }
      assert (RC : forall st act j p, In st (sm_states sm) -> In act (ss_actions st) -> In (j, p) (sa_trans act) -> exists st', nth_error (sm_states sm) j = Some st').
      { intros st act j p Is Ia It. destruct (In_nth_error _ _ Is) as [i Hi]. destruct (storm_value P vals sm B i st Hi) as [v Hv].
        destruct (choice_command i st v act Hi Hv Ia) as (c & t' & _ & _ & _ & _ & (_ & C2 & _)). destruct (C2 j p It) as (w & Hw & _). exact (storm_state P vals sm B j w Hw). }
      destruct (action_map_exact neqb neqb_eq m GM sm K RS RC) as (d & E & H).
      assert (ACT : forall i v c t, nth_error vals i = Some v -> In c (enabled P v) -> cm_act c = Some t ->
        exists s a, nth_error states v = Some s /\ action_text str_nat m a (Some t) /\ to_tulip_action (nm t) d = Ok a /\ Forall2 (update_of m 0%Qc) (cm_updates c) (under neqb m s a)).
      { intros i v c t Hv Ic T. unfold enabled in Ic. apply filter_In in Ic. destruct Ic as [Ic G]. apply Nat.eqb_eq in G.
        destruct (d_sound _ _ _ _ _ D c Ic) as (s & a & S & A & _ & F). fold states in S. rewrite G in S. rewrite T in A. exists s, a. split; [exact S|]. split; [exact A|]. split; [|exact F].
        destruct (storm_state P vals sm B i v Hv) as [st Hi]. destruct (command_choice i st v c Hi Hv Ic G) as (act & t' & Iact & T' & Nm & _).
        assert (t' = t) by congruence. subst t'. unfold to_tulip_action. destruct (lookup (nm t) d) as [l|] eqn:L.
        - rewrite (kept_right a t d l A E L). reflexivity.
        - exfalso. exact (proj1 (proj1 (H (nm t))) L st act (nth_error_In _ _ Hi) Iact Nm). }
      unfold extract_policy. rewrite E. cbn [bind].
      destruct (fold_table neqb neqb_eq (fun x => to_tulip_state neqb (snd x) m) (fun x : nat * sstate => to_tulip_action (ch (fst x)) d) (fun x => to_tulip_labels (snd x) m) (enumerate (sm_states sm)) [])
        as (tbl & F & G1 & G2).
      - intros [i st] I. apply enumerate_nth in I. destruct (storm_value P vals sm B i st I) as [v Hv]. destruct (recovered i st v I Hv) as (s & _ & R).
        destruct (CH i v Hv) as (c & t & Ic & T & C). destruct (ACT i v c t Hv Ic T) as (s' & a & _ & _ & TA' & _). exists s, a. cbn [fst snd]. rewrite C. auto.
      - intros x y s. apply (states_distinct neqb neqb_eq m GM 0%Qc P vals sm D B TA).
      - exists tbl. split; [exact F|]. split.
        + intros i v s c t Hv S Ic T C. destruct (ACT i v c t Hv Ic T) as (s' & a & S' & A & TA' & U). assert (s' = s) by congruence. subst s'. exists a. split; [|auto].
          destruct (storm_state P vals sm B i v Hv) as [st Hi]. destruct (recovered i st v Hi Hv) as (s' & S2 & R). assert (s' = s) by congruence. subst s'.
          apply (G1 (i, st)); [apply enumerate_nth; exact Hi|exact R|]. cbn [fst]. rewrite C. exact TA'.
        + intros s NE. rewrite G2; [reflexivity|]. intros [i st] I R. apply enumerate_nth in I. cbn [snd] in R.
          destruct (storm_value P vals sm B i st I) as [v Hv]. destruct (recovered i st v I Hv) as (s' & S & R'). rewrite R in R'. injection R' as <-.
          exact (NE v (nth_error_In _ _ Hv) S).
    Qed.
  End Of.
End Policy.
