(** Reading a model of stormpy into a system (C71): stormpy.py, [to_tulip_transys]. *)
From Coq Require Import List String Ascii Bool Arith ZArith QArith Qcanon Lia.
From Verif Require Import M_Base M_Lexer M_Tree S_Syntax S_LTL L_Dec.
From Verif Require Import M_Dict M_Graph L_Graph M_Machine M_Compose S_Compose L_Compose L_Build T_Compose M_Storm S_Storm S_Storm2 L_Storm T_Storm T_Storm2.
Import ListNotations.
Open Scope list_scope.
Open Scope string_scope.

Lemma storm_name_inj i j : storm_name i = storm_name j -> i = j.
Proof. intro H. injection H as H. apply str_nat_inj. exact H. Qed.
Lemma enumerate_combine {A} (l : list A) : enumerate l = combine (List.seq 0 (List.length l)) l.
Proof. reflexivity. Qed.

Lemma NoDup_app_l {A} (l l' : list A) : NoDup (l ++ l')%list -> NoDup l.
Proof. induction l as [|x l IH]; [constructor|]. cbn. intro H. inversion H as [|? ? NI ND]; subst. constructor; [|auto]. intro J. apply NI. apply in_app_iff. auto. Qed.

Section Reading.
  Variable ty : stype.
  Hypothesis TY : ty <> OtherModel.
  Definition kind_of : kind := match ty with DTMC => MC | _ => MDP end.
  Notation k := kind_of.
  Lemma k_cases : (ty = DTMC /\ k = MC) \/ (ty = SMDP /\ k = MDP).
  Proof. unfold kind_of. destruct ty; auto. contradiction. Qed.
  Definition attr_of (a : string) (q : Qc) : attrs val := ("probability", VNum q) :: match k with MDP => [("action", VStr a)] | _ => [] end.
  Definition raw := (nat * string * nat * Qc)%type.
  Definition arrow_of (x : raw) : string * string * attrs val := match x with (i, a, j, q) => (storm_name i, storm_name j, attr_of a q) end.
  Definition cell (n : nat) (L : nat -> list string) : list (string * attrs val) := map (fun i => (storm_name i, [("ap", VSet (L i))])) (List.seq 0 n).
  Record inv (n : nat) (L : nat -> list string) (init : list string) (ap : list string) (acts : list val) (T : list raw) (m : model string) : Prop := {
    iv_kind : m_kind m = k; iv_ap : m_ap m = ap; iv_acts : m_actions m = acts;
    iv_nodes : g_nodes (m_ts m) = cell n L; iv_init : g_init (m_ts m) = init;
    iv_edges : map (fun e => (e_src e, e_dst e, e_attr e)) (g_edges (m_ts m)) = map arrow_of T }.

  Lemma cell_names n L : map fst (cell n L) = map storm_name (List.seq 0 n).
  Proof. unfold cell. rewrite map_map. reflexivity. Qed.
  Lemma has_cell n L init ap acts T m i : inv n L init ap acts T m -> (i < n)%nat -> has_node String.eqb (storm_name i) (m_ts m) = true.
  Proof.
    intros I H. apply (has_node_In String.eqb String.eqb_eq). unfold node_list. rewrite (iv_nodes _ _ _ _ _ _ _ I), cell_names. apply in_map. apply in_seq. lia.
  Qed.
  Lemma typed_here acts a q : (0 <= q <= 1)%Qc -> (k = MDP -> In (VStr a) acts) ->
    typed_attr (edge_types k acts) [] (attr_of a q) = Ok (attr_of a q) /\ check_untyped (attr_of a q) (edge_types k acts) true = Ok tt.
  Proof.
    intros [Q0 Q1] A. unfold Qcle in Q0, Q1.
    assert (V : valid_probability (VNum q) = true).
    { unfold valid_probability. apply andb_true_iff. split; apply Qle_bool_iff; assumption. }
    unfold attr_of, typed_attr, check_untyped. destruct k_cases as [[_ K]|[_ K]]; rewrite K in A |- *.
    - cbn -[valid_probability]. unfold typed_update_res. cbn -[valid_probability]. unfold typed_set, allowed. cbn -[valid_probability]. rewrite V. auto.
    - cbn -[valid_probability vmem]. unfold typed_update_res. cbn -[valid_probability vmem]. unfold typed_set, allowed. cbn -[valid_probability vmem]. rewrite V.
      assert (M : vmem (VStr a) acts = true) by (apply existsb_exists; exists (VStr a); split; [auto|apply val_eqb_eq; reflexivity]). rewrite M. auto.
  Qed.
  Lemma attr_nonempty a q : dict_eqb val_eqb (attr_of a q) [] = false.
  Proof. unfold attr_of, dict_eqb. destruct k; reflexivity. Qed.
  Lemma attr_differs a q a' q' : k = MDP -> a <> a' -> dict_eqb val_eqb (attr_of a q) (attr_of a' q') = false.
  Proof.
    intros K NE. unfold attr_of, dict_eqb. rewrite K. cbn [sub_dict forallb lookup fst snd String.eqb Ascii.eqb Bool.eqb].
    assert (E : val_eqb (VStr a) (VStr a') = false) by (cbn; apply String.eqb_neq; exact NE).
    cbn -[val_eqb] in *. rewrite ?E, ?andb_false_r. cbn -[val_eqb]. rewrite ?E, ?andb_false_r. reflexivity.
  Qed.
  Lemma step_edge n L init ap acts T m i name j q : inv n L init ap acts T m -> (i < n)%nat -> (j < n)%nat -> (0 <= q <= 1)%Qc ->
    (k = MDP -> In (VStr name) acts) -> ~ In (i, key_name ty name, j) (map fst T) -> (forall x, In x T -> k <> MDP -> snd (fst (fst x)) = "") ->
    exists m', read_transition k i name (j, q) m = Ok m' /\ inv n L init ap acts (T ++ [(i, key_name ty name, j, q)])%list m'.
  Proof.
    intros I Hi Hj Q A NI E0. unfold read_transition. cbn [fst snd].
    assert (KN : match k with MDP => [("action", VStr name)] | _ => [] end = match k with MDP => [("action", VStr (key_name ty name))] | _ => [] end).
    { destruct k_cases as [[_ K]|[Y K]]; rewrite K; [reflexivity|]. rewrite Y. reflexivity. }
    rewrite KN. fold (attr_of (key_name ty name) q).
    assert (A' : k = MDP -> In (VStr (key_name ty name)) acts) by (intro K; destruct k_cases as [[_ K']|[Y _]]; [congruence|rewrite Y; exact (A K)]).
    destruct (typed_here acts (key_name ty name) q Q A') as [T1 T2].
    unfold add_edge. rewrite (has_cell _ _ _ _ _ _ _ i I Hi), (has_cell _ _ _ _ _ _ _ j I Hj). cbn [negb].
    unfold config_of. rewrite (iv_kind _ _ _ _ _ _ _ I), (iv_acts _ _ _ _ _ _ _ I). cbn [model_config c_edge_types c_edge_defaults]. rewrite T1. cbn [bind].
    assert (Old : forall e, In e (edges_between String.eqb (storm_name i) (storm_name j) (m_ts m)) ->
      exists a' q', e_attr e = attr_of a' q' /\ In (i, a', j, q') T).
    { intros e J. apply (edges_between_In String.eqb String.eqb_eq) in J. destruct J as (J & S & D).
      assert (X : In (e_src e, e_dst e, e_attr e) (map arrow_of T)) by (rewrite <- (iv_edges _ _ _ _ _ _ _ I); apply in_map_iff; exists e; auto).
      apply in_map_iff in X. destruct X as ([[[i' a'] j'] q'] & X & IT). cbn [arrow_of] in X. injection X as X1 X2 X3. rewrite S in X1. rewrite D in X2.
      assert (i' = i) by (apply storm_name_inj; exact X1). assert (j' = j) by (apply storm_name_inj; exact X2). subst i' j'. exists a', q'. auto. }
    assert (N1 : existsb (fun e => dict_eqb val_eqb (e_attr e) []) (edges_between String.eqb (storm_name i) (storm_name j) (m_ts m)) = false).
    { apply Bool.not_true_iff_false. intro X. apply existsb_exists in X. destruct X as (e & J & X). destruct (Old e J) as (a' & q' & Y & _). rewrite Y, attr_nonempty in X. discriminate. }
    assert (N2 : existsb (fun e => dict_eqb val_eqb (e_attr e) (attr_of (key_name ty name) q)) (edges_between String.eqb (storm_name i) (storm_name j) (m_ts m)) = false).
    { apply Bool.not_true_iff_false. intro X. apply existsb_exists in X. destruct X as (e & J & X). destruct (Old e J) as (a' & q' & Y & IT). rewrite Y in X.
      assert (NE : a' <> key_name ty name) by (intros ->; apply NI; apply in_map_iff; exists (i, key_name ty name, j, q'); auto).
      assert (K : k = MDP).
      { destruct k_cases as [[Y' K]|[_ K]]; [|exact K]. exfalso. apply NE. rewrite Y'. apply (E0 (i, a', j, q') IT). congruence. }
      rewrite attr_differs in X; [discriminate|exact K|exact NE]. }
    rewrite N1, N2, T2. cbn [bind]. eexists. split; [reflexivity|].
    rewrite (nx_set_edge_new String.eqb String.eqb_eq).
    - destruct I as [I1 I2 I3 I4 I5 I6]. constructor; cbn [m_kind m_ap m_actions m_ts g_nodes g_init g_edges]; auto.
      rewrite map_app, I6, map_app. reflexivity.
    - intros e J S D. destruct (edges_between String.eqb (storm_name i) (storm_name j) (m_ts m)) eqn:Eb.
      + assert (X : In e (edges_between String.eqb (storm_name i) (storm_name j) (m_ts m))) by (apply (edges_between_In String.eqb String.eqb_eq); auto). rewrite Eb in X. destruct X.
      + apply (new_edge_key_fresh String.eqb String.eqb_eq _ _ (m_ts m) e J S D).
  Qed.

  (** The transitions of one choice. *)
  Definition part (i : nat) (name : string) (ts : list (nat * Qc)) : list raw := map (fun y => (i, key_name ty name, fst y, snd y)) ts.
  Definition plain (T : list raw) : Prop := forall x, In x T -> k <> MDP -> snd (fst (fst x)) = "".
  Lemma plain_part T i name ts : plain T -> plain (T ++ part i name ts)%list.
  Proof.
    intros H x J NK. apply in_app_iff in J. destruct J as [J|J]; [exact (H x J NK)|]. unfold part in J. apply in_map_iff in J. destruct J as (y & <- & _). cbn.
    destruct k_cases as [[Y' K]|[_ K]]; [rewrite Y'; reflexivity|congruence].
  Qed.
  Lemma step_edges n L init ap acts i name ts : forall T m, inv n L init ap acts T m -> (i < n)%nat ->
    (forall x, In x (part i name ts) -> (snd (fst x) < n)%nat /\ (0 <= snd x <= 1)%Qc) -> (k = MDP -> In (VStr name) acts) ->
    NoDup (map fst (T ++ part i name ts)%list) -> plain T ->
    exists m', fold_res (read_transition k i name) ts m = Ok m' /\ inv n L init ap acts (T ++ part i name ts)%list m'.
  Proof.
    induction ts as [|[j q] ts IH]; intros T m I Hi R A ND E0.
    - exists m. cbn. rewrite app_nil_r. auto.
    - destruct (R _ (or_introl eq_refl)) as [Rj Rq]. cbn [fst snd] in Rj, Rq.
      destruct (step_edge n L init ap acts T m i name j q I Hi Rj Rq A) as (m1 & E1 & I1); [|exact E0|].
      + intro J. rewrite map_app in ND. cbn [part map fst] in ND. apply NoDup_remove_2 in ND. apply ND. apply in_app_iff. left. exact J.
      + cbn [fold_res]. rewrite E1. cbn [bind].
        assert (Eq : (T ++ part i name ((j, q) :: ts))%list = ((T ++ [(i, key_name ty name, j, q)]) ++ part i name ts)%list) by (rewrite <- app_assoc; reflexivity).
        rewrite Eq. apply IH; auto.
        * intros x J. apply R. right. exact J.
        * rewrite <- Eq. exact ND.
        * exact (plain_part T i name [(j, q)] E0).
  Qed.
  Definition add_act (a : saction) (acts : list val) : list val := match k with MDP => add_new_val (VStr (sa_name a)) acts | _ => acts end.
  Lemma add_new_val_In v w l : In v (add_new_val w l) <-> In v l \/ v = w.
  Proof.
    unfold add_new_val. destruct (vmem w l) eqn:E; [|rewrite in_app_iff; cbn; intuition].
    apply existsb_exists in E. destruct E as (x & I & E). apply val_eqb_eq in E. subst x. intuition (subst; auto).
  Qed.
  Lemma step_action n L init ap acts T m i a : inv n L init ap acts T m -> (i < n)%nat ->
    (forall x, In x (part i (sa_name a) (sa_trans a)) -> (snd (fst x) < n)%nat /\ (0 <= snd x <= 1)%Qc) ->
    NoDup (map fst (T ++ part i (sa_name a) (sa_trans a))%list) -> plain T ->
    exists m', read_action k i a m = Ok m' /\ inv n L init ap (add_act a acts) (T ++ part i (sa_name a) (sa_trans a))%list m'.
  Proof.
    intros I Hi R ND E0. unfold read_action. apply step_edges; auto.
    - destruct I as [I1 I2 I3 I4 I5 I6]. constructor; cbn [m_kind m_ap m_actions m_ts]; auto. rewrite I3. reflexivity.
    - intro K. unfold add_act. rewrite K. apply add_new_val_In. auto.
  Qed.
  Lemma step_actions n L init ap i acts' : forall acts T m, inv n L init ap acts T m -> (i < n)%nat ->
    (forall x, In x (flat_map (fun a => part i (sa_name a) (sa_trans a)) acts') -> (snd (fst x) < n)%nat /\ (0 <= snd x <= 1)%Qc) ->
    NoDup (map fst (T ++ flat_map (fun a => part i (sa_name a) (sa_trans a)) acts')%list) -> plain T ->
    exists m', fold_res (read_action k i) acts' m = Ok m' /\
      inv n L init ap (fold_left (fun l a => add_act a l) acts' acts) (T ++ flat_map (fun a => part i (sa_name a) (sa_trans a)) acts')%list m' /\
      plain (T ++ flat_map (fun a => part i (sa_name a) (sa_trans a)) acts')%list.
  Proof.
    induction acts' as [|a acts' IH]; intros acts T m I Hi R ND E0.
    - exists m. cbn. rewrite app_nil_r. auto.
    - cbn [flat_map] in *.
      destruct (step_action n L init ap acts T m i a I Hi) as (m1 & E1 & I1); [intros x J; apply R; apply in_app_iff; auto| |exact E0|].
      + rewrite app_assoc, map_app in ND. exact (NoDup_app_l _ _ ND).
      + cbn [fold_res]. rewrite E1. cbn [bind fold_left]. rewrite app_assoc. apply IH; auto.
        * intros x J. apply R. apply in_app_iff. auto.
        * rewrite <- app_assoc. exact ND.
        * apply plain_part. exact E0.
  Qed.
  Definition visible (st : sstate) : list string := filter (fun p => negb (mem p neglected)) (ss_labels st).
  Definition put (i : nat) (l : list string) (L : nat -> list string) : nat -> list string := fun j => if Nat.eqb j i then l else L j.
  Lemma steps_of_parts i st : steps_of ty (i, st) = flat_map (fun a => part i (sa_name a) (sa_trans a)) (ss_actions st).
  Proof. reflexivity. Qed.
  Lemma step_state n L init ap acts T m i st : inv n L init ap acts T m -> (i < n)%nat ->
    (forall x, In x (steps_of ty (i, st)) -> (snd (fst x) < n)%nat /\ (0 <= snd x <= 1)%Qc) ->
    NoDup (map fst (T ++ steps_of ty (i, st))%list) -> plain T ->
    exists m', read_state k (i, st) m = Ok m' /\
      inv n (put i (visible st) L) init (fold_left (fun l p => add_new p l) (visible st) ap) (fold_left (fun l a => add_act a l) (ss_actions st) acts)
        (T ++ steps_of ty (i, st))%list m' /\ plain (T ++ steps_of ty (i, st))%list.
  Proof.
    intros I Hi R ND E0. unfold read_state. cbn [fst snd]. fold (visible st).
    unfold set_ap. rewrite (has_cell _ _ _ _ _ _ _ i I Hi). cbn [bind]. rewrite steps_of_parts in *. apply step_actions; auto.
    destruct I as [I1 I2 I3 I4 I5 I6]. constructor; cbn [m_kind m_ap m_actions m_ts g_nodes g_init g_edges]; auto.
    - rewrite I2. reflexivity.
    - rewrite I4. unfold cell. rewrite map_map. apply map_ext. intro j. cbn [fst snd]. unfold put.
      destruct (String.eqb (storm_name i) (storm_name j)) eqn:E.
      + apply String.eqb_eq, storm_name_inj in E. subst j. rewrite Nat.eqb_refl. reflexivity.
      + destruct (Nat.eqb_spec j i) as [->|NE]; [rewrite String.eqb_refl in E; discriminate|reflexivity].
  Qed.
  Definition ap_after (xs : list (nat * sstate)) (ap : list string) : list string := fold_left (fun ap x => fold_left (fun l p => add_new p l) (visible (snd x)) ap) xs ap.
  Definition acts_after (xs : list (nat * sstate)) (acts : list val) : list val := fold_left (fun acts x => fold_left (fun l a => add_act a l) (ss_actions (snd x)) acts) xs acts.
  Definition labels_after (xs : list (nat * sstate)) (L : nat -> list string) : nat -> list string := fold_left (fun L x => put (fst x) (visible (snd x)) L) xs L.
  Lemma step_states n init xs : forall L ap acts T m, inv n L init ap acts T m -> (forall x, In x xs -> (fst x < n)%nat) ->
    (forall x, In x (flat_map (steps_of ty) xs) -> (snd (fst x) < n)%nat /\ (0 <= snd x <= 1)%Qc) ->
    NoDup (map fst (T ++ flat_map (steps_of ty) xs)%list) -> plain T ->
    exists m', fold_res (read_state k) xs m = Ok m' /\ inv n (labels_after xs L) init (ap_after xs ap) (acts_after xs acts) (T ++ flat_map (steps_of ty) xs)%list m'.
  Proof.
    induction xs as [|[i st] xs IH]; intros L ap acts T m I Hi R ND E0.
    - exists m. cbn. rewrite app_nil_r. auto.
    - cbn [flat_map] in *. destruct (step_state n L init ap acts T m i st I (Hi _ (or_introl eq_refl))) as (m1 & E1 & I1 & P1).
      + intros x J. apply R. apply in_app_iff. auto.
      + rewrite app_assoc, map_app in ND. exact (NoDup_app_l _ _ ND).
      + exact E0.
      + cbn [fold_res]. rewrite E1. cbn [bind]. rewrite app_assoc.
        apply (IH (put i (visible st) L) _ _ (T ++ steps_of ty (i, st))%list m1 I1).
        * intros x J. apply Hi. right. exact J.
        * intros x J. apply R. apply in_app_iff. auto.
        * rewrite <- app_assoc. exact ND.
        * exact P1.
  Qed.
  Lemma add_new_In p q l : In p (add_new q l) <-> In p l \/ p = q.
  Proof. unfold add_new. destruct (mem q l) eqn:E; [apply mem_In in E; intuition (subst; auto)|rewrite in_app_iff; cbn; intuition]. Qed.
  Lemma ap_after_In xs p : forall ap, In p (ap_after xs ap) <-> In p ap \/ exists x, In x xs /\ In p (visible (snd x)).
  Proof.
    assert (F : forall l ap, In p (fold_left (fun l p => add_new p l) l ap) <-> In p ap \/ In p l).
    { induction l as [|q l IH]; intro ap; cbn [fold_left]; [cbn; tauto|]. rewrite IH, add_new_In. cbn. intuition. }
    unfold ap_after. induction xs as [|x xs IH]; intro ap; cbn [fold_left]; [split; [auto|intros [H|(x & [] & _)]; exact H]|]. rewrite IH, F. split.
    - intros [[H|H]|(y & J & H)]; [auto|right; exists x; split; [left; reflexivity|exact H]|right; exists y; split; [right; exact J|exact H]].
    - intros [H|(y & [<-|J] & H)]; [auto|auto|]. right. exists y. auto.
  Qed.
  Lemma acts_after_In xs v : forall acts, In v (acts_after xs acts) <-> In v acts \/ (k = MDP /\ exists x a, In x xs /\ In a (ss_actions (snd x)) /\ v = VStr (sa_name a)).
  Proof.
    assert (F : forall l acts, In v (fold_left (fun l a => add_act a l) l acts) <-> In v acts \/ (k = MDP /\ exists a, In a l /\ v = VStr (sa_name a))).
    { induction l as [|a l IH]; intro acts; cbn [fold_left]; [split; [auto|intros [H|(_ & a & [] & _)]; exact H]|]. rewrite IH.
      assert (A : In v (add_act a acts) <-> In v acts \/ (k = MDP /\ v = VStr (sa_name a))).
      { unfold add_act. destruct k; rewrite ?add_new_val_In; intuition discriminate. }
      rewrite A. split.
      - intros [[H|[K H]]|(K & b & J & H)]; [auto|right; split; [exact K|exists a; split; [left; reflexivity|exact H]]|right; split; [exact K|exists b; split; [right; exact J|exact H]]].
      - intros [H|(K & b & [<-|J] & H)]; [auto|auto|]. right. split; [exact K|]. exists b. auto. }
    unfold acts_after. induction xs as [|x xs IH]; intro acts; cbn [fold_left]; [split; [auto|intros [H|(_ & x & a & [] & _)]; exact H]|]. rewrite IH, F. split.
    - intros [[H|(K & a & J & H)]|(K & y & a & J & H)]; [auto|right; split; [exact K|exists x, a; split; [left; reflexivity|auto]]|right; split; [exact K|exists y, a; split; [right; exact J|exact H]]].
    - intros [H|(K & y & a & [<-|J] & Ia & H)]; [auto|left; right; split; [exact K|exists a; auto]|]. right. split; [exact K|]. exists y, a. auto.
  Qed.
  Lemma labels_after_at xs i st : forall L, NoDup (map fst xs) -> In (i, st) xs -> labels_after xs L i = visible st.
  Proof.
    assert (Z : forall xs L, ~ In i (map fst xs) -> labels_after xs L i = L i).
    { induction xs0 as [|x xs0 IH]; intros L N; [reflexivity|]. cbn [labels_after fold_left]. change (labels_after xs0 (put (fst x) (visible (snd x)) L) i = L i).
      rewrite IH by (intro J; apply N; right; exact J). unfold put. destruct (Nat.eqb_spec i (fst x)) as [->|]; [exfalso; apply N; left; reflexivity|reflexivity]. }
    induction xs as [|x xs IH]; intros L ND I; [destruct I|]. inversion ND; subst. change (labels_after xs (put (fst x) (visible (snd x)) L) i = visible st).
    destruct I as [->|I]; [|apply IH; assumption]. rewrite Z by assumption. unfold put. cbn [fst snd]. rewrite Nat.eqb_refl. reflexivity.
  Qed.

  (** Adding the states. *)
  Lemma add_states n : fold_res (fun i => add_node String.eqb (model_config k [] []) (storm_name i) [] true) (List.seq 0 n) empty_graph =
    Ok (Graph (cell n (fun _ => [])) [] []).
  Proof.
    induction n as [|n IH]; [reflexivity|]. rewrite seq_S. apply fold_res_app. exists (Graph (cell n (fun _ => [])) [] []). split; [exact IH|]. cbn [fold_res Nat.add]. unfold add_node. cbn [model_config c_node_types c_node_defaults].
    change (typed_attr [("ap", Some (in_powerset []))] [("ap", VSet [])] []) with (Ok [("ap", VSet [])]). cbn [bind]. change (check_untyped [("ap", VSet [])] [("ap", Some (in_powerset []))] true) with (Ok tt).
    cbn [bind g_nodes g_edges g_init]. do 2 f_equal. unfold cell. rewrite seq_S, map_app. cbn [map Nat.add].
    assert (A : forall l, ~ In n l -> nx_add_node String.eqb (storm_name n) [("ap", VSet [])] (map (fun i => (storm_name i, [("ap", VSet [])])) l) =
      (map (fun i => (storm_name i, [("ap", VSet [])])) l ++ [(storm_name n, [("ap", VSet [])])])%list).
    { induction l as [|i l IHl]; intro NI; [reflexivity|]. cbn [map nx_add_node app]. destruct (String.eqb (storm_name n) (storm_name i)) eqn:E.
      - apply String.eqb_eq, storm_name_inj in E. subst i. exfalso. apply NI. left. reflexivity.
      - rewrite IHl; [reflexivity|]. intro J. apply NI. right. exact J. }
    apply A. intro J. apply in_seq in J. lia.
  Qed.
  Lemma add_inits n l : forall init, (forall i, In i l -> (i < n)%nat) -> NoDup (init ++ map storm_name l)%list ->
    fold_res (fun i => add_initial String.eqb (storm_name i)) l (Graph (cell n (fun _ => [])) [] init) = Ok (Graph (cell n (fun _ => [])) [] (init ++ map storm_name l)%list).
  Proof.
    induction l as [|i l IH]; intros init R ND; cbn [fold_res map].
    - rewrite app_nil_r. reflexivity.
    - unfold add_initial at 1.
      assert (H : has_node String.eqb (storm_name i) (Graph (cell n (fun _ => [])) ([] : list (edge string val)) init) = true).
      { apply (has_node_In String.eqb String.eqb_eq). unfold node_list. cbn [g_nodes]. rewrite cell_names. apply in_map, in_seq. pose proof (R i (or_introl eq_refl)). lia. }
      rewrite H. cbn [g_init g_nodes g_edges bind].
      assert (M : nmem String.eqb (storm_name i) init = false).
      { apply Bool.not_true_iff_false. intro J. apply (nmem_In String.eqb String.eqb_eq) in J. cbn [map] in ND. apply NoDup_remove_2 in ND. apply ND. apply in_app_iff. auto. }
      rewrite M. rewrite IH; [rewrite <- app_assoc; reflexivity|intros j J; apply R; right; exact J|]. rewrite <- app_assoc. exact ND.
  Qed.
End Reading.

(** Theorem (C71, reading).  The system that is read is the model of stormpy: the same states, initial
    states, labels, actions, transitions and probabilities, in the same order. *)
Theorem to_tulip_transys_spec sm : good_storm sm -> exists m, to_tulip_transys sm = Ok m /\ reads_as sm m.
Proof.
  intros [TY [NDI RI] RS ND]. unfold to_tulip_transys. set (n := List.length (sm_states sm)) in *.
  set (k := kind_of (sm_type sm)).
  assert (Eq : forall r, match sm_type sm with OtherModel => Err "ValueError" | _ => r end = r :> res (model string)) by (destruct (sm_type sm); [reflexivity|reflexivity|contradiction]).
  assert (G : exists m, (do g1 <- fold_res (fun i => add_node String.eqb (model_config k [] []) (storm_name i) [] true) (List.seq 0 n) empty_graph;
                     do g2 <- fold_res (fun i => add_initial String.eqb (storm_name i)) (sm_init sm) g1;
                     fold_res (read_state k) (enumerate (sm_states sm)) (Model k [] [] g2)) = Ok m /\ reads_as sm m).
  { unfold k. rewrite (add_states (sm_type sm) n). cbn [bind]. rewrite (add_inits n (sm_init sm) []); [|exact RI|].
    2: { cbn [app]. apply FinFun.Injective_map_NoDup; [intros x y; apply storm_name_inj|exact NDI]. }
    cbn [bind app]. rewrite enumerate_combine. fold n.
    assert (FST : map fst (combine (List.seq 0 n) (sm_states sm)) = List.seq 0 n).
    { unfold n. clear. generalize 0. induction (sm_states sm) as [|x l IH]; intro a; [reflexivity|]. cbn. f_equal. apply IH. }
    destruct (step_states (sm_type sm) TY n (map storm_name (sm_init sm)) (combine (List.seq 0 n) (sm_states sm)) (fun _ => []) [] [] []
      (Model k [] [] (Graph (cell n (fun _ => [])) [] (map storm_name (sm_init sm))))) as (m & E & I).
    - constructor; reflexivity.
    - intros x J. assert (In (fst x) (map fst (combine (List.seq 0 n) (sm_states sm)))) by (apply in_map; exact J). rewrite FST in H. apply in_seq in H. lia.
    - intros [[[i a] j] q] J. cbn [fst snd]. exact (RS i a j q J).
    - exact ND.
    - intros x [].
    - exists m. split; [exact E|]. cbn [app] in I. constructor.
      + rewrite (iv_kind _ _ _ _ _ _ _ _ I). destruct (sm_type sm); [reflexivity|reflexivity|contradiction].
      + unfold node_list. rewrite (iv_nodes _ _ _ _ _ _ _ _ I), cell_names. reflexivity.
      + exact (iv_init _ _ _ _ _ _ _ _ I).
      + intros i st Hi. exists (visible st). split.
        * unfold state_label. rewrite (iv_nodes _ _ _ _ _ _ _ _ I). exists [("ap", VSet (visible st))]. split; [|reflexivity].
          unfold cell. apply in_map_iff. exists i. split.
          -- rewrite (labels_after_at (combine (List.seq 0 n) (sm_states sm)) i st); [reflexivity|rewrite FST; apply seq_NoDup|].
             unfold n. rewrite <- enumerate_combine. apply enumerate_nth. exact Hi.
          -- apply in_seq. assert (i < n)%nat by (apply nth_error_Some; congruence). lia.
        * intro p. unfold visible. rewrite filter_In, negb_true_iff. unfold neglected, mem. cbn. rewrite orb_false_r, orb_false_iff, !String.eqb_neq. intuition.
      + intro p. rewrite (iv_ap _ _ _ _ _ _ _ _ I), ap_after_In. unfold visible. split.
        * intros [[]|(x & J & V)]. apply filter_In in V. destruct V as [V1 V2]. rewrite negb_true_iff in V2. unfold neglected, mem in V2. cbn in V2. rewrite orb_false_r, orb_false_iff, !String.eqb_neq in V2.
          split; [|intuition]. exists (snd x). split; [|exact V1]. destruct x as [i st]. exact (in_combine_r _ _ _ _ J).
        * intros ((st & Is & V) & N1 & N2). right. destruct (In_nth_error _ _ Is) as [i Hi]. exists (i, st). split; [unfold n; rewrite <- enumerate_combine; apply enumerate_nth; exact Hi|].
          cbn [snd]. apply filter_In. split; [exact V|]. rewrite negb_true_iff. unfold neglected, mem. cbn. rewrite orb_false_r, orb_false_iff, !String.eqb_neq. auto.
      + intro v. rewrite (iv_acts _ _ _ _ _ _ _ _ I), acts_after_In. split.
        * intros [[]|(K & x & a & J & Ia & ->)]. split; [destruct (sm_type sm); [discriminate|reflexivity|contradiction]|]. destruct x as [i st]. exists st, a. split; [exact (in_combine_r _ _ _ _ J)|auto].
        * intros (T & st & a & Is & Ia & ->). right. rewrite T. split; [reflexivity|]. destruct (In_nth_error _ _ Is) as [i Hi]. exists (i, st), a.
          split; [unfold n; rewrite <- enumerate_combine; apply enumerate_nth; exact Hi|auto].
      + rewrite (iv_edges _ _ _ _ _ _ _ _ I). unfold steps. fold n. apply map_ext. intros [[[i a] j] q]. unfold arrow_of, attr_of, state_text, storm_name.
        destruct (sm_type sm); [reflexivity|reflexivity|contradiction]. }
  destruct G as (m & E & H). exists m. split; [|exact H]. cbn zeta. rewrite <- E. destruct (sm_type sm); [reflexivity|reflexivity|contradiction].
Qed.
Print Assumptions to_tulip_transys_spec.
Theorem to_tulip_transys_only sm m : to_tulip_transys sm = Ok m -> sm_type sm <> OtherModel.
Proof. unfold to_tulip_transys. destruct (sm_type sm); discriminate. Qed.
Print Assumptions to_tulip_transys_only.

(** A concrete case: the model of the vehicle, with choices numbered within each state. *)
Definition vehicle_read : smodel := SModel SMDP
  [SState ["init"; "a8"] [SAction "0" [(0, Q2Qc (1 # 10)); (1, Q2Qc (9 # 10))]; SAction "1" [(0, Q2Qc (8 # 10)); (1, Q2Qc (2 # 10))]];
   SState ["a4"; "slow"] [SAction "0" [(1, Q2Qc (2 # 10)); (2, Q2Qc (8 # 10))]];
   SState ["a9"; "deadlock"] [SAction "0" [(2, 1%Qc)]]] [0].
Example vehicle_read_good : good_storm vehicle_read.
Proof.
  constructor.
  - discriminate.
  - split; [repeat constructor; intros []|]. cbn. intros i [<-|[]]. lia.
  - intros i a j q H. cbn in H. repeat (destruct H as [H|H]; [injection H as <- <- <- <-; split; [cbn; lia|split; unfold Qcle; cbn; unfold Qle; cbn; lia]|]). destruct H.
  - cbn. repeat constructor; cbn; intuition discriminate.
Qed.
Example vehicle_read_as : exists m, to_tulip_transys vehicle_read = Ok m /\ node_list (m_ts m) = ["s0"; "s1"; "s2"] /\ g_init (m_ts m) = ["s0"] /\
  m_ap m = ["a8"; "a4"; "slow"; "a9"] /\ m_actions m = [VStr "0"; VStr "1"] /\ List.length (g_edges (m_ts m)) = 7.
Proof. eexists. split; [vm_compute; reflexivity|]. repeat split. Qed.
