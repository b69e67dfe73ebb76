(** The prism text written for a Markov chain or decision process says what the model is, with
    probabilities rounded to four decimals (C71). *)
From Coq Require Import List String Ascii Bool Arith ZArith QArith Qcanon Qabs Lia Lqa.
From Verif Require Import M_Base M_Lexer M_Tree S_Syntax S_LTL L_Dec.
From Verif Require Import M_Dict M_Graph M_Machine M_Compose S_Compose L_Compose T_Compose M_Storm S_Storm L_Storm.
Import ListNotations.
Open Scope list_scope.
Open Scope string_scope.

(** ** Positions in lists *)
Section Positions.
  Context {A : Type} (eqb : A -> A -> bool) (eqb_eq : forall a b, eqb a b = true <-> a = b).
  Lemma index_by_nth x l i : index_by eqb x l = Some i -> nth_error l i = Some x.
  Proof.
    revert i. induction l as [|y l IH]; intros i H; [discriminate|]. cbn [index_by] in H. destruct (eqb y x) eqn:E.
    - injection H as <-. apply eqb_eq in E. subst. reflexivity.
    - destruct (index_by eqb x l) as [j|]; [|discriminate]. injection H as <-. cbn. apply IH. reflexivity.
  Qed.
  Lemma index_by_In x l : In x l -> exists i, index_by eqb x l = Some i /\ nth_error l i = Some x.
  Proof.
    intro I. assert (E : exists i, index_by eqb x l = Some i).
    { induction l as [|y l IH]; [destruct I|]. cbn [index_by]. destruct (eqb y x) eqn:E; [eexists; reflexivity|].
      destruct I as [->|I]; [rewrite (proj2 (eqb_eq x x) eq_refl) in E; discriminate|]. destruct (IH I) as [i ->]. eexists. reflexivity. }
    destruct E as [i E]. exists i. split; [exact E|]. apply index_by_nth. exact E.
  Qed.
  Lemma index_by_Err x l : ~ In x l -> index_by eqb x l = None.
  Proof.
    induction l as [|y l IH]; intro H; [reflexivity|]. cbn [index_by]. destruct (eqb y x) eqn:E.
    - apply eqb_eq in E. exfalso. apply H. left. exact E.
    - rewrite IH; [reflexivity|]. intro I. apply H. right. exact I.
  Qed.
  (** The position as a number. *)
  Definition pos (l : list A) (x : A) : nat := match index_by eqb x l with Some i => i | None => 0%nat end.
  Lemma pos_nth l x : In x l -> nth_error l (pos l x) = Some x /\ index_by eqb x l = Some (pos l x).
  Proof. intro I. unfold pos. destruct (index_by_In x l I) as (i & E & F). rewrite E. auto. Qed.
  Lemma pos_inj l x y : In x l -> In y l -> pos l x = pos l y -> x = y.
  Proof. intros I J E. destruct (pos_nth l x I) as [A1 _]. destruct (pos_nth l y J) as [B1 _]. rewrite E in A1. congruence. Qed.
End Positions.
Lemma nth_unique {A} (l : list A) i j x : NoDup l -> nth_error l i = Some x -> nth_error l j = Some x -> i = j.
Proof. intros ND H K. apply (proj1 (NoDup_nth_error l) ND); [apply nth_error_Some; congruence|congruence]. Qed.
Lemma enumerate_nth {A} (l : list A) i x : In (i, x) (enumerate l) <-> nth_error l i = Some x.
Proof.
  unfold enumerate. enough (G : forall n, In (i, x) (combine (List.seq n (List.length l)) l) <-> (n <= i)%nat /\ nth_error l (i - n) = Some x).
  { rewrite (G 0%nat). rewrite Nat.sub_0_r. split; [tauto|]. intro H. split; [lia|exact H]. }
  revert i. induction l as [|y l IH]; intros i n; cbn [List.length List.seq combine In].
  - split; [tauto|]. intros [_ H]. destruct (i - n)%nat; discriminate.
  - rewrite IH. split.
    + intros [[= -> ->]|[L H]]; [split; [lia|]; rewrite Nat.sub_diag; reflexivity|]. split; [lia|].
      replace (i - n)%nat with (S (i - S n)) by lia. exact H.
    + intros [L H]. destruct (Nat.eq_dec i n) as [->|NE].
      * rewrite Nat.sub_diag in H. injection H as ->. left. reflexivity.
      * right. split; [lia|]. replace (i - n)%nat with (S (i - S n)) in H by lia. exact H.
Qed.
Lemma enumerate_fst {A} (l : list A) : map fst (enumerate l) = List.seq 0 (List.length l).
Proof. unfold enumerate. generalize 0%nat. induction l as [|y l IH]; intro n; cbn; [reflexivity|]. rewrite IH. reflexivity. Qed.
Lemma Forall2_same {A B C} (R : B -> C -> Prop) (f : A -> B) (g : A -> C) l : (forall x, In x l -> R (f x) (g x)) -> Forall2 R (map f l) (map g l).
Proof. induction l as [|x l IH]; intro H; constructor; [apply H; left; reflexivity|]. apply IH. intros y I. apply H. right. exact I. Qed.
Lemma flat_map_flat_map {A B C} (f : B -> list C) (g : A -> list B) l : flat_map f (flat_map g l) = flat_map (fun x => flat_map f (g x)) l.
Proof. induction l as [|x l IH]; [reflexivity|]. cbn [flat_map]. rewrite flat_map_app, IH. reflexivity. Qed.
Lemma flat_map_map {A B C} (f : B -> list C) (g : A -> B) l : flat_map f (map g l) = flat_map (fun x => f (g x)) l.
Proof. induction l as [|x l IH]; [reflexivity|]. cbn [map flat_map]. rewrite IH. reflexivity. Qed.
Lemma mapr_val {A B} (f : A -> res B) (g : A -> B) l : (forall x, In x l -> f x = Ok (g x)) -> mapr f l = Ok (map g l).
Proof.
  induction l as [|x l IH]; intro H; [reflexivity|]. cbn [mapr map]. rewrite (H x (or_introl eq_refl)). cbn [bind].
  rewrite IH; [reflexivity|]. intros y I. apply H. right. exact I.
Qed.
Lemma NoDup_flat_map {A B} (f : A -> list B) l : NoDup l -> (forall x, In x l -> NoDup (f x)) ->
  (forall x y z, In x l -> In y l -> In z (f x) -> In z (f y) -> x = y) -> NoDup (flat_map f l).
Proof.
  induction 1 as [|x l NI ND IH]; intros H D; [constructor|]. cbn [flat_map].
  assert (G : forall a b : list B, NoDup a -> NoDup b -> (forall z, In z a -> In z b -> False) -> NoDup (a ++ b)%list).
  { induction a as [|z a IHa]; intros b Na Nb X; [exact Nb|]. inversion Na; subst. cbn [app]. constructor.
    - rewrite in_app_iff. intros [I|I]; [contradiction|]. apply (X z (or_introl eq_refl) I).
    - apply IHa; auto. intros w I J. apply (X w); [right; exact I|exact J]. }
  apply G.
  - apply H. left. reflexivity.
  - apply IH; [intros; apply H; right; assumption|]. intros a b z I J. apply D; right; assumption.
  - intros z I J. apply in_flat_map in J. destruct J as (y & Iy & Jy). apply NI.
    rewrite (D x y z (or_introl eq_refl) (or_intror Iy) I Jy). exact Iy.
Qed.

Lemma filter_filter {A} (p q : A -> bool) l : filter q (filter p l) = filter (fun x => p x && q x) l.
Proof. induction l as [|x l IH]; [reflexivity|]. cbn [filter]. destruct (p x); cbn [filter andb]; [destruct (q x); rewrite IH; reflexivity|exact IH]. Qed.

Section Write.
  Context {N : Type} (neqb : N -> N -> bool) (neqb_eq : forall a b, neqb a b = true <-> a = b).

  (** ** The dictionary of transitions *)
  Definition entry (e : edge N val) : val * N := (get "probability" (e_attr e), e_dst e).
  Definition with_key (a : val) (es : list (edge N val)) := filter (fun e => val_eqb (action_key e) a) es.
  Lemma val_eqb_refl a : val_eqb a a = true.
  Proof. apply val_eqb_eq. reflexivity. Qed.
  Lemma dict_append_keys a (x : val * N) d : In a (map fst d) /\ map fst (dict_append a x d) = map fst d \/
    ~ In a (map fst d) /\ dict_append a x d = (d ++ [(a, [x])])%list.
  Proof.
    induction d as [|[b l] d IH]; [right; split; [intros []|reflexivity]|]. cbn [dict_append map fst In]. destruct (val_eqb b a) eqn:E.
    - apply val_eqb_eq in E. subst. left. split; [left; reflexivity|reflexivity].
    - destruct IH as [[I K]|[I K]]; [left; split; [right; exact I|cbn; rewrite K; reflexivity]|].
      right. split; [|rewrite K; reflexivity]. intros [->|J]; [rewrite val_eqb_refl in E; discriminate|exact (I J)].
  Qed.
  Lemma dict_append_In a (x : val * N) d b l : NoDup (map fst d) -> In a (map fst d) -> In (b, l) (dict_append a x d) ->
    (b <> a /\ In (b, l) d) \/ (b = a /\ exists l0, In (a, l0) d /\ l = (l0 ++ [x])%list).
  Proof.
    induction d as [|[c l0] d IH]; [intros _ []|]. cbn [map fst dict_append]. intros ND I H. inversion ND as [|? ? NI ND']; subst.
    destruct (val_eqb c a) eqn:E.
    - apply val_eqb_eq in E. subst. destruct H as [[= <- <-]|H]; [right; split; [reflexivity|]; exists l0; split; [left; reflexivity|reflexivity]|].
      left. split; [|right; exact H]. intros ->. apply NI. apply (in_map fst _ (a, l)). exact H.
    - destruct I as [->|I]; [rewrite val_eqb_refl in E; discriminate|]. destruct H as [[= <- <-]|H].
      + left. split; [intros ->; rewrite val_eqb_refl in E; discriminate|left; reflexivity].
      + destruct (IH ND' I H) as [[X Y]|[X (l1 & Y & Z)]]; [left; split; [exact X|right; exact Y]|].
        right. split; [exact X|]. exists l1. split; [right; exact Y|exact Z].
  Qed.
  Lemma transition_dict_spec es :
    NoDup (map fst (transition_dict es)) /\
    (forall a l, In (a, l) (transition_dict es) -> l = map entry (with_key a es) /\ with_key a es <> []) /\
    (forall e, In e es -> In (action_key e) (map fst (transition_dict es))).
  Proof.
    induction es as [|e es IH] using rev_ind; [split; [constructor|split; [intros a l []|intros e []]]|]. destruct IH as (K1 & K2 & K3).
    unfold transition_dict in *. rewrite fold_left_app. cbn [fold_left]. set (d := fold_left _ es []) in *.
    change (get "probability" (e_attr e), e_dst e) with (entry e).
    assert (F : forall a, with_key a (es ++ [e]) = (with_key a es ++ if val_eqb (action_key e) a then [e] else [])%list).
    { intro a. unfold with_key. rewrite filter_app. cbn [filter]. destruct (val_eqb (action_key e) a); reflexivity. }
    destruct (dict_append_keys (action_key e) (entry e) d) as [[I K]|[I K]].
    - split; [rewrite K; exact K1|]. split.
      + intros a l H. rewrite F. destruct (dict_append_In _ _ _ _ _ K1 I H) as [[X Y]|[-> (l0 & Y & ->)]].
        * destruct (K2 a l Y) as [Z1 Z2]. destruct (val_eqb (action_key e) a) eqn:E; [apply val_eqb_eq in E; congruence|]. rewrite app_nil_r. auto.
        * destruct (K2 _ _ Y) as [Z1 Z2]. rewrite val_eqb_refl, map_app, <- Z1. cbn [map]. split; [reflexivity|]. destruct (with_key _ es); discriminate.
      + intros e' H. rewrite K. apply in_app_iff in H. destruct H as [H|[<-|[]]]; [apply K3; exact H|exact I].
    - rewrite K. rewrite map_app. cbn [map fst]. split; [|split].
      + apply (NoDup_Add (a := action_key e) (l := map fst d)); [|auto]. rewrite <- (app_nil_r (map fst d)) at 1. apply Add_app.
      + intros a l H. rewrite F. apply in_app_iff in H. destruct H as [H|[[= <- <-]|[]]].
        * destruct (K2 a l H) as [Z1 Z2]. destruct (val_eqb (action_key e) a) eqn:E.
          { apply val_eqb_eq in E. exfalso. apply I. rewrite E. apply (in_map fst _ (a, l)). exact H. }
          rewrite app_nil_r. auto.
        * rewrite val_eqb_refl. assert (E : with_key (action_key e) es = []).
          { destruct (with_key (action_key e) es) as [|e' r] eqn:W; [reflexivity|]. exfalso. apply I.
            assert (J : In e' (with_key (action_key e) es)) by (rewrite W; left; reflexivity). apply filter_In in J. destruct J as [J1 J2].
            apply val_eqb_eq in J2. rewrite <- J2. apply K3. exact J1. }
          rewrite E. cbn. split; [reflexivity|discriminate].
      + intros e' H. apply in_or_app. apply in_app_iff in H. destruct H as [H|[<-|[]]]; [left; apply K3; exact H|right; left; reflexivity].
  Qed.

  (** ** Labels of states *)
  Variable m : model N.
  Hypothesis GM : good_markov m.
  Let states := node_list (m_ts m).
  Lemma find_node s a : In (s, a) (g_nodes (m_ts m)) -> find (fun na => neqb s (fst na)) (g_nodes (m_ts m)) = Some (s, a).
  Proof.
    pose proof (gm_states m GM) as ND. unfold node_list in ND. induction (g_nodes (m_ts m)) as [|[t b] l IH]; [intros []|].
    cbn [map fst] in ND. inversion ND as [|? ? NI ND']; subst. intros [[= -> ->]|I]; cbn [find fst].
    - rewrite (proj2 (neqb_eq s s) eq_refl). reflexivity.
    - destruct (neqb s t) eqn:E; [|apply IH; assumption]. apply neqb_eq in E. subst. exfalso. apply NI. apply (in_map fst _ (t, a)). exact I.
  Qed.
  Lemma label_of_state s l : label_of neqb m s = Ok l <-> state_label (m_ts m) s l.
  Proof.
    unfold label_of, state_label. split.
    - destruct (find _ _) as [[t a]|] eqn:F; [|discriminate]. pose proof (find_some _ _ F) as [I E]. cbn [fst] in E. apply neqb_eq in E. subst t.
      destruct (gm_label m GM s a I) as [l' L]. rewrite L. intros [= <-]. eauto.
    - intros (a & I & L). rewrite (find_node s a I), L. reflexivity.
  Qed.
  Lemma state_label_ex s : In s states -> exists l, state_label (m_ts m) s l.
  Proof.
    intro I. unfold states, node_list in I. apply in_map_iff in I. destruct I as ([t a] & E & I). cbn [fst] in E. subst t.
    destruct (gm_label m GM s a I) as [l L]. exists l, a. auto.
  Qed.
  Lemma state_label_In s l : state_label (m_ts m) s l -> In s states.
  Proof. intros (a & I & _). apply (in_map fst _ (s, a)). exact I. Qed.
  Definition lab (s : N) : list string := match label_of neqb m s with Ok l => l | Err _ => [] end.
  Lemma lab_label s : In s states -> state_label (m_ts m) s (lab s) /\ label_of neqb m s = Ok (lab s).
  Proof. intro I. destruct (state_label_ex s I) as [l L]. pose proof (proj2 (label_of_state s l) L) as E. unfold lab. rewrite E. auto. Qed.
  Lemma state_label_fun s l l' : state_label (m_ts m) s l -> state_label (m_ts m) s l' -> l = l'.
  Proof. intros H K. apply label_of_state in H. apply label_of_state in K. congruence. Qed.

  (** ** The program that is written *)
  Definition act_text (a : val) : option string :=
    match m_kind m with MDP => Some ("act" ++ str_nat (pos val_eqb (m_actions m) a)) | _ => None end.
  Definition num (v : val) : Qc := match v with VNum q => q | _ => 0%Qc end.
  Definition update_data (t : val * N) : Qc * nat := (rounded (num (fst t)), pos neqb states (snd t)).
  Definition command_data (i : nat) (x : val * list (val * N)) : command := Command (act_text (fst x)) i (map update_data (snd x)).
  Definition outgoing (s : N) : list (edge N val) := filter (fun e => neqb (e_src e) s) (g_edges (m_ts m)).
  Definition commands_data (x : nat * N) : list command := map (command_data (fst x)) (transition_dict (outgoing (snd x))).
  Definition label_data (p : string) : string * list nat := (p, map (pos neqb states) (filter (fun s => mem p (lab s)) states)).
  Definition program_data (s0 : N) : program :=
    Program (match m_kind m with MDP => "mdp" | _ => "dtmc" end) 0 (List.length states - 1) (pos neqb states s0)
      (flat_map commands_data (enumerate states)) (map label_data (m_ap m)).

  (** What the entries of the dictionaries are. *)
  Lemma outgoing_In s e : In e (outgoing s) <-> In e (g_edges (m_ts m)) /\ e_src e = s.
  Proof. unfold outgoing. rewrite filter_In, neqb_eq. tauto. Qed.
  Lemma key_action e : In e (g_edges (m_ts m)) -> match m_kind m with
    | MDP => action_key e = value "action" e /\ In (action_key e) (m_actions m)
    | _ => action_key e = VNum 0%Qc /\ value "action" e = VNone end.
  Proof.
    intro I. pose proof (gm_action m GM e I) as H. unfold action_key, value, get. destruct (m_kind m); try (rewrite H; split; reflexivity).
    destruct H as (a & L & J). rewrite L. destruct a; try (split; [reflexivity|exact J]). exfalso. exact (proj2 (gm_actions m GM) J).
  Qed.
  (** The action of a key: the key itself, no action for a chain. *)
  Definition key_act (a : val) : val := match m_kind m with MDP => a | _ => VNone end.
  Lemma dict_key s a l : In (a, l) (transition_dict (outgoing s)) ->
    l = map entry (under neqb m s (key_act a)) /\ under neqb m s (key_act a) <> [] /\ match m_kind m with MDP => In a (m_actions m) | _ => a = VNum 0%Qc end.
  Proof.
    intro H. destruct (proj1 (proj2 (transition_dict_spec (outgoing s))) a l H) as [A B].
    assert (E : exists e, In e (g_edges (m_ts m)) /\ action_key e = a).
    { destruct (with_key a (outgoing s)) as [|e r] eqn:W; [congruence|]. exists e. assert (J : In e (with_key a (outgoing s))) by (rewrite W; left; reflexivity).
      apply filter_In in J. destruct J as [J1 J2]. apply outgoing_In in J1. apply val_eqb_eq in J2. tauto. }
    destruct E as (e & Ie & Ke). pose proof (key_action e Ie) as KA.
    assert (U : with_key a (outgoing s) = under neqb m s (key_act a)).
    { unfold with_key, outgoing, under.
      transitivity (filter (fun e0 => neqb (e_src e0) s && val_eqb (action_key e0) a) (g_edges (m_ts m))).
      { apply filter_filter. }
      apply filter_ext_in. intros e0 I0. pose proof (key_action e0 I0) as K0. f_equal. unfold key_act.
      destruct (m_kind m); try (destruct K0 as [-> ->]; destruct KA as [KA1 _]; rewrite <- Ke, KA1; reflexivity).
      destruct K0 as [-> _]. reflexivity. }
    rewrite <- U. split; [exact A|]. split; [exact B|]. rewrite <- Ke. destruct (m_kind m); tauto.
  Qed.
  Lemma under_In s a e : In e (under neqb m s a) <-> In e (g_edges (m_ts m)) /\ e_src e = s /\ value "action" e = a.
  Proof. unfold under. rewrite filter_In, andb_true_iff, neqb_eq, val_eqb_eq. tauto. Qed.
  Lemma entry_data s a e : In e (under neqb m s a) -> exists q, entry e = (VNum q, e_dst e) /\ value "probability" e = VNum q /\ (0 <= q)%Qc /\ In (e_dst e) states.
  Proof.
    intro I. apply under_In in I. destruct I as [I _]. destruct (gm_prob m GM e I) as (q & L & Q). exists q. unfold entry, get, value. rewrite L.
    split; [reflexivity|]. split; [reflexivity|]. split; [exact Q|]. apply (gm_ends m GM e I).
  Qed.

  (** ** The texts *)
  Lemma state_str_runs i (primed : bool) : runs Between (state_str i primed) (TId "s" :: (if primed then [TSym "'"] else []) ++ [TSym "="])%list (Number (str_nat i)).
  Proof.
    unfold state_str. destruct primed; cbn [append app].
    - eapply runs_eq; [eapply runs_cons; [reflexivity|]; eapply runs_cons; [reflexivity|]; eapply runs_cons; [reflexivity|apply runs_nat]|reflexivity].
    - eapply runs_eq; [eapply runs_cons; [reflexivity|]; eapply runs_cons; [reflexivity|apply runs_nat]|reflexivity].
  Qed.
  Lemma after_number i s l : runs Between s l Between -> forall c l1, fresh c = Some (Between, l1) -> is_digit c = false -> c <> "."%char ->
    runs (Number (str_nat i)) (String c s) (TNum i :: l1 ++ l)%list Between.
  Proof.
    intros R c l1 F D E. eapply runs_eq; [eapply runs_cons; [|exact R]|].
    - cbn [next]. rewrite D. destruct (Ascii.eqb_spec c "."); [contradiction|]. rewrite F. cbn [emit]. reflexivity.
    - rewrite number_str_nat. reflexivity.
  Qed.
  Lemma update_runs (t : val * N) q : fst t = VNum q -> (0 <= q)%Qc -> In (snd t) states ->
    exists txt, (do p <- prob_str (fst t); do i <- of_opt "ValueError" (index_by neqb (snd t) states);
                 Ok (p ++ " : (" ++ state_str i true ++ ")")) = Ok txt /\ runs Between txt (update_tokens (update_data t)) Between.
  Proof.
    intros E Q I. destruct (pos_nth neqb neqb_eq states (snd t) I) as [_ P]. rewrite E. cbn [prob_str bind]. rewrite P. cbn [of_opt bind].
    eexists. split; [reflexivity|]. destruct (runs_fixed4 q Q) as (a & b & R & D). unfold update_data, update_tokens. cbn [fst snd]. rewrite E. cbn [num].
    rewrite <- D. eapply runs_eq; [eapply runs_app; [exact R|]; eapply runs_app|].
    - runs_const.
    - eapply runs_app; [apply state_str_runs|]. eapply after_number; [apply runs_nil|reflexivity|reflexivity|discriminate].
    - reflexivity.
  Qed.
  Lemma join_runs {A} (sep : string) (st : token) (g : A -> list token) (h : list A -> list token) l ts : l <> [] ->
    (forall x, h [x] = g x) -> (forall x y r, h (x :: y :: r) = (g x ++ st :: h (y :: r))%list) ->
    runs Between sep [st] Between -> Forall2 (fun x t => runs Between t (g x) Between) l ts -> runs Between (join sep ts) (h l) Between.
  Proof.
    intros NE H1 H2 S F. induction F as [|x t l ts R F IH]; [congruence|]. destruct F as [|y t2 l ts R2 F].
    - rewrite H1. exact R.
    - rewrite H2. cbn [join]. eapply runs_eq; [eapply runs_app; [exact R|]; eapply runs_app; [exact S|apply IH; discriminate]|reflexivity].
  Qed.
  Lemma command_runs i s x : In x (transition_dict (outgoing s)) ->
    exists txt, command_str neqb m states i x = Ok txt /\ runs Between txt (command_tokens (command_data i x)) Between /\ cm_updates (command_data i x) <> [].
  Proof.
    intro I. destruct x as [a l]. destruct (dict_key s a l I) as (E & NE & KA).
    assert (NL : l <> []) by (rewrite E; destruct (under neqb m s (key_act a)); [congruence|discriminate]).
    assert (T : exists txt, transition_str neqb states l = Ok txt /\ runs Between txt (plus_tokens (map update_data l)) Between).
    { unfold transition_str.
      destruct (mapr_texts (fun t txt => runs Between txt (update_tokens (update_data t)) Between)
        (fun t => do p <- prob_str (fst t); do i0 <- of_opt "ValueError" (index_by neqb (snd t) states); Ok (p ++ " : (" ++ state_str i0 true ++ ")")) l) as (ts & M & F).
      { intros t J. rewrite E in J. apply in_map_iff in J. destruct J as (e & <- & Je). destruct (entry_data s _ e Je) as (q & Ee & _ & Q & Id).
        pose proof (update_runs (entry e) q) as X. rewrite Ee in *. apply X; auto. }
      rewrite M. cbn [bind]. eexists. split; [reflexivity|].
      apply (join_runs " + " (TSym "+") (fun t => update_tokens (update_data t)) (fun l => plus_tokens (map update_data l))); auto.
      eapply runs_eq; [runs_const|reflexivity]. }
    destruct T as (txt & T & R). unfold command_str. cbn [fst snd].
    assert (KD : forall c, Some c = act_text a -> m_kind m = MDP /\ c = "act" ++ str_nat (pos val_eqb (m_actions m) a)).
    { unfold act_text. destruct (m_kind m); intros c [=]; subst; auto. }
    unfold command_tokens, command_data, act_text in *. cbn [fst snd cm_act cm_guard cm_updates]. destruct (m_kind m) eqn:K.
    1,2,3,5: cbn [bind]; rewrite T; cbn [bind]; (eexists; split; [reflexivity|split; [|destruct l; [congruence|discriminate]]]);
      eapply runs_eq; [eapply runs_app; [runs_const|]; eapply runs_app; [runs_const|]; eapply runs_app; [runs_const|];
        eapply runs_app; [apply state_str_runs|]; eapply runs_app; [eapply (after_number i "-> "); [runs_const|reflexivity|reflexivity|discriminate]|];
        eapply runs_app; [exact R|]; eapply runs_app; [runs_const|]; runs_const|reflexivity].
    destruct (pos_nth val_eqb val_eqb_eq (m_actions m) a KA) as [_ P]. rewrite P. cbn [of_opt bind]. rewrite T. cbn [bind].
    eexists. split; [reflexivity|]. split; [|destruct l; [congruence|discriminate]].
    eapply runs_eq; [eapply runs_app; [runs_const|]; eapply runs_app; [eapply runs_app; [runs_const|apply runs_word, str_nat_all]|]; eapply runs_app; [runs_const|];
        eapply runs_app; [apply state_str_runs|]; eapply runs_app; [eapply (after_number i "-> "); [runs_const|reflexivity|reflexivity|discriminate]|];
        eapply runs_app; [exact R|]; eapply runs_app; [runs_const|]; runs_const|reflexivity].
  Qed.

  Lemma label_runs p : In p (m_ap m) -> exists txt, label_str neqb m states p = Ok txt /\ runs Between txt (label_tokens (label_data p)) Between /\ snd (label_data p) <> [].
  Proof.
    intro I. destruct (gm_ap m GM p I) as (NQ & s & l & SL & Ip). unfold label_str.
    rewrite (mapr_val _ (fun s => (s, mem p (lab s)))).
    2: { intros t It. rewrite (proj2 (lab_label t It)). reflexivity. }
    cbn [bind].
    assert (E : map fst (filter snd (map (fun s => (s, mem p (lab s))) states)) = filter (fun s => mem p (lab s)) states).
    { clear. induction states as [|t r IH]; [reflexivity|]. cbn [map filter snd]. destruct (mem p (lab t)); cbn [map fst]; rewrite IH; reflexivity. }
    rewrite E. clear E. unfold label_data, label_tokens. cbn [fst snd].
    assert (NE : filter (fun s => mem p (lab s)) states <> []).
    { intro Z. pose proof (state_label_In s l SL) as Is. assert (J : In s (filter (fun s => mem p (lab s)) states)).
      { apply filter_In. split; [exact Is|]. rewrite (state_label_fun s (lab s) l (proj1 (lab_label s Is)) SL). apply mem_In. exact Ip. }
      rewrite Z in J. destruct J. }
    set (ls := filter _ states) in *.
    destruct (mapr_texts (fun s txt => runs Between txt [TSym "("; TId "s"; TSym "="; TNum (pos neqb states s); TSym ")"] Between)
      (fun s => do i <- of_opt "ValueError" (index_by neqb s states); Ok ("(" ++ state_str i false ++ ")")) ls) as (ts & M & F).
    { intros t J. apply filter_In in J. destruct J as [J _]. rewrite (proj2 (pos_nth neqb neqb_eq states t J)). cbn [of_opt bind].
      eexists. split; [reflexivity|]. eapply runs_eq; [eapply runs_cons; [reflexivity|]; eapply runs_app; [apply state_str_runs|];
        eapply after_number; [apply runs_nil|reflexivity|reflexivity|discriminate]|reflexivity]. }
    rewrite M. cbn [bind]. eexists. split; [reflexivity|]. split; [|destruct ls; [congruence|discriminate]].
    assert (R : runs Between (join "|" ts) (or_tokens (map (pos neqb states) ls)) Between).
    { apply (join_runs "|" (TSym "|") (fun s => [TSym "("; TId "s"; TSym "="; TNum (pos neqb states s); TSym ")"]) (fun l => or_tokens (map (pos neqb states) l))); auto.
      eapply runs_eq; [runs_const|reflexivity]. }
    eapply runs_eq; [eapply runs_app; [runs_const|]; eapply runs_app; [runs_const|]; eapply runs_app; [apply (runs_quoted p); exact NQ|];
      eapply runs_app; [runs_const|]; eapply runs_app; [runs_const|]; eapply runs_app; [exact R|]; eapply runs_app; [runs_const|]; runs_const|reflexivity].
  Qed.
  Lemma to_prism_reads s0 : g_init (m_ts m) = [s0] -> exists txt, to_prism neqb m = Ok txt /\ prism_read txt = Some (program_data s0).
  Proof.
    intro I0. assert (Is : In s0 states). { destruct (gm_init m GM) as (t & E & I). rewrite I0 in E. injection E as <-. exact I. }
    unfold to_prism. fold states. rewrite I0.
    destruct (mapr_texts (fun x txt => runs Between txt (flat_map command_tokens (commands_data x)) Between)
      (fun x => state_commands neqb m states (fst x) (snd x)) (enumerate states)) as (cmds & MC & FC).
    { intros [i s] J. unfold state_commands. cbn [fst snd]. rewrite find_all. cbn [bind].
      destruct (mapr_texts (fun x txt => runs Between txt (command_tokens (command_data i x)) Between) (command_str neqb m states i)
        (transition_dict (outgoing s))) as (ts & M & F).
      { intros x Ix. destruct (command_runs i s x Ix) as (t & A & B & _). eauto. }
      change (filter (fun e => neqb (e_src e) s) (g_edges (m_ts m))) with (outgoing s). rewrite M. cbn [bind].
      eexists. split; [reflexivity|]. unfold commands_data. cbn [fst snd]. rewrite flat_map_map. apply runs_concat. exact F. }
    destruct (mapr_texts (fun p txt => runs Between txt (label_tokens (label_data p)) Between) (label_str neqb m states) (m_ap m)) as (ls & ML & FL).
    { intros p Ip. destruct (label_runs p Ip) as (t & A & B & _). eauto. }
    rewrite MC, ML, (proj2 (pos_nth neqb neqb_eq states s0 Is)). cbn [of_opt bind].
    apply runs_concat in FC. apply runs_concat in FL.
    assert (HC : forall c, In c (pg_commands (program_data s0)) -> cm_updates c <> []).
    { intros c J. cbn [program_data pg_commands] in J. apply in_flat_map in J. destruct J as ([i s] & _ & J). unfold commands_data in J. cbn [fst snd] in J.
      apply in_map_iff in J. destruct J as (x & <- & J). destruct (command_runs i s x J) as (t & _ & _ & B). exact B. }
    assert (HL : forall x, In x (pg_labels (program_data s0)) -> snd x <> []).
    { intros x J. cbn [program_data pg_labels] in J. apply in_map_iff in J. destruct J as (p & <- & J). destruct (label_runs p J) as (t & _ & _ & B). exact B. }
    pose proof (parse_tokens _ HC HL) as PT.
    assert (MM : forall X Y : res string, match states with [] => Y | _ :: _ => X end = X) by (intros X Y; destruct states; [destruct Is|reflexivity]).
    assert (KT : runs Between (match m_kind m with MDP => "mdp" | _ => "dtmc" end) [] (Word (match m_kind m with MDP => "mdp" | _ => "dtmc" end))).
    { destruct (m_kind m); (eapply runs_eq; [runs_const|reflexivity]). }
    destruct (gm_kind m GM) as [K|K]; rewrite K in *; (eexists; split; [apply MM|]); unfold prism_read;
    (rewrite (runs_all _ _ (program_tokens (program_data s0))); [exact PT|]);
    unfold program_tokens; cbn [program_data pg_type pg_low pg_high pg_init pg_commands pg_labels]; rewrite K, flat_map_flat_map, flat_map_map;
    (eapply runs_eq; [eapply runs_app; [exact KT|]; eapply runs_app; [runs_const|]; eapply runs_app; [runs_const|]; eapply runs_app; [runs_const|];
       eapply runs_app; [runs_const|]; eapply runs_app; [runs_const|]; eapply runs_app; [apply runs_nat|];
       eapply (after_number _ (" init " ++ _)); [|reflexivity|reflexivity|discriminate];
       eapply runs_app; [runs_const|]; eapply runs_app; [apply runs_nat|];
       eapply (after_number _ (newline ++ _)); [|reflexivity|reflexivity|discriminate];
       eapply runs_app; [runs_const|]; eapply runs_app; [runs_const|]; eapply runs_app; [exact FC|];
       eapply runs_app; [runs_const|]; eapply runs_app; [runs_const|]; eapply runs_app; [runs_const|]; eapply runs_app; [runs_const|]; exact FL|]);
    repeat (rewrite <- ?app_assoc; cbn [app]); reflexivity.
  Qed.

  (** ** What the program says *)
  Lemma act_text_spec a : match m_kind m with MDP => In a (m_actions m) | _ => True end -> action_text str_nat m (key_act a) (act_text a).
  Proof.
    unfold action_text, key_act, act_text. destruct (m_kind m); auto. intro I. exists (pos val_eqb (m_actions m) a). split; [|reflexivity].
    apply (pos_nth val_eqb val_eqb_eq). exact I.
  Qed.
  Lemma describes_data s0 eps : g_init (m_ts m) = [s0] ->
    (forall e q, In e (g_edges (m_ts m)) -> value "probability" e = VNum q -> (Qabs (this (rounded q) - this q) <= this eps)%Q) ->
    describes neqb str_nat m eps (program_data s0).
  Proof.
    intros I0 EPS. assert (Is : In s0 states). { destruct (gm_init m GM) as (t & E & I). rewrite I0 in E. injection E as <-. exact I. }
    pose proof (gm_states m GM) as NDs. fold states in NDs.
    assert (KA : forall s a l, In (a, l) (transition_dict (outgoing s)) -> match m_kind m with MDP => In a (m_actions m) | _ => True end).
    { intros s a l J. destruct (dict_key s a l J) as (_ & _ & K). destruct (m_kind m); auto. }
    constructor; cbn [program_data pg_type pg_low pg_high pg_init pg_commands pg_labels].
    - reflexivity.
    - fold states. split; [reflexivity|]. destruct states; [destruct Is|cbn; lia].
    - exists s0. split; [exact I0|]. apply (pos_nth neqb neqb_eq). exact Is.
    - intros c J. apply in_flat_map in J. destruct J as ([i s] & Ii & J). apply enumerate_nth in Ii. unfold commands_data in J. cbn [fst snd] in J.
      apply in_map_iff in J. destruct J as ([a l] & <- & J). destruct (dict_key s a l J) as (E & NE & _).
      exists s, (key_act a). cbn [command_data cm_guard cm_act cm_updates fst snd]. split; [exact Ii|]. split; [apply act_text_spec; exact (KA s a l J)|].
      split; [exact NE|]. rewrite E, map_map. rewrite <- (map_id (under neqb m s (key_act a))) at 2. apply Forall2_same.
      intros e Ie. destruct (entry_data s (key_act a) e Ie) as (q & En & V & _ & Id). unfold update_of, update_data. rewrite En. cbn [fst snd num].
      split; [apply (pos_nth neqb neqb_eq); exact Id|]. exists q. split; [exact V|]. apply under_In in Ie. apply (EPS e q); tauto.
    - intros e Ie. pose proof (proj1 (gm_ends m GM e Ie)) as Src. fold states in Src. destruct (pos_nth neqb neqb_eq states (e_src e) Src) as [P _].
      assert (Io : In e (outgoing (e_src e))) by (apply outgoing_In; auto).
      pose proof (proj2 (proj2 (transition_dict_spec (outgoing (e_src e)))) e Io) as K. apply in_map_iff in K. destruct K as ([a l] & Ea & K). cbn [fst] in Ea.
      exists (command_data (pos neqb states (e_src e)) (a, l)), (pos neqb states (e_src e)). split; [|split; [exact P|split; [reflexivity|]]].
      + apply in_flat_map. exists (pos neqb states (e_src e), e_src e). split; [apply enumerate_nth; exact P|]. unfold commands_data. cbn [fst snd]. apply in_map. exact K.
      + cbn [command_data cm_act fst]. pose proof (key_action e Ie) as KE. replace (value "action" e) with (key_act a); [apply act_text_spec; exact (KA _ a l K)|].
        unfold key_act. rewrite Ea. destruct (m_kind m); try (symmetry; apply KE). apply KE.
    - rewrite flat_map_concat_map, concat_map, map_map, <- flat_map_concat_map. apply NoDup_flat_map.
      + apply (NoDup_map_inv fst). rewrite enumerate_fst. apply seq_NoDup.
      + intros [i s] _. unfold commands_data. cbn [fst snd]. rewrite map_map. cbn [command_data cm_guard cm_act fst].
        assert (G : forall d, NoDup (map fst d) -> (forall a l, In (a, l) d -> match m_kind m with MDP => In a (m_actions m) | _ => a = VNum 0%Qc end) ->
          NoDup (map (fun x : val * list (val * N) => (i, act_text (fst x))) d)).
        { induction d as [|[a l] d IH]; intros ND H; [constructor|]. cbn [map fst] in ND |- *. inversion ND as [|? ? NI ND']; subst. constructor.
          - intro X. apply in_map_iff in X. destruct X as ([b l'] & E & X). injection E as E. cbn [fst] in E. apply NI.
            enough (b = a) as <- by (apply (in_map fst _ (b, l')); exact X).
            pose proof (H a l (or_introl eq_refl)) as Ha. pose proof (H b l' (or_intror X)) as Hb. unfold act_text in E.
            destruct (m_kind m); try congruence. injection E as E. apply str_nat_inj in E. apply (pos_inj val_eqb val_eqb_eq (m_actions m)); auto.
          - apply IH; auto. intros b l' X. apply (H b l'). right. exact X. }
        apply G; [apply (proj1 (transition_dict_spec (outgoing s)))|]. intros a l J. apply (dict_key s a l J).
      + intros [i s] [j t] [k c] Ii Ij J K. apply enumerate_nth in Ii. apply enumerate_nth in Ij. unfold commands_data in J, K. cbn [fst snd] in J, K.
        rewrite map_map in J, K. apply in_map_iff in J. apply in_map_iff in K. destruct J as (x & [= <- _] & _). destruct K as (y & [= <- _] & _). congruence.
    - rewrite map_map. cbn [label_data fst]. rewrite map_id. split; [reflexivity|]. intros p vs J i. apply in_map_iff in J. destruct J as (p' & [= <- <-] & J).
      rewrite in_map_iff. split.
      + intros (s & <- & Js). apply filter_In in Js. destruct Js as [Js M]. exists s, (lab s). split; [apply (pos_nth neqb neqb_eq); exact Js|].
        split; [apply lab_label; exact Js|apply mem_In; exact M].
      + intros (s & l & Ni & SL & Ip). exists s. pose proof (state_label_In s l SL) as Js. split.
        * apply (nth_unique states _ _ s NDs); [apply (pos_nth neqb neqb_eq); exact Js|exact Ni].
        * apply filter_In. split; [exact Js|]. rewrite (state_label_fun s (lab s) l (proj1 (lab_label s Js)) SL). apply mem_In. exact Ip.
  Qed.
End Write.

(** Theorem (C71, writing).  For every Markov chain or decision process with one initial state whose
    propositions all label a state, a text is written; it is a program of prism, and this program is the
    model, up to an error of 1/20000 in each probability. *)
Theorem to_prism_describes {N} (neqb : N -> N -> bool) (m : model N) : (forall a b, neqb a b = true <-> a = b) -> good_markov m ->
  exists txt P, to_prism neqb m = Ok txt /\ prism_read txt = Some P /\ describes neqb str_nat m (Q2Qc (1 # 20000)) P.
Proof.
  intros E GM. destruct (gm_init m GM) as (s0 & I0 & _). destruct (to_prism_reads neqb E m GM s0 I0) as (txt & A & B).
  exists txt, (program_data neqb m s0). split; [exact A|]. split; [exact B|]. apply (describes_data neqb E m GM s0); [exact I0|].
  intros e q _ _. apply rounded_near.
Qed.
Print Assumptions to_prism_describes.
(** With probabilities of four decimals the program is exactly the model. *)
Theorem to_prism_exact {N} (neqb : N -> N -> bool) (m : model N) : (forall a b, neqb a b = true <-> a = b) -> good_markov m -> four_decimals m ->
  exists txt P, to_prism neqb m = Ok txt /\ prism_read txt = Some P /\ describes neqb str_nat m 0%Qc P.
Proof.
  intros E GM FD. destruct (gm_init m GM) as (s0 & I0 & _). destruct (to_prism_reads neqb E m GM s0 I0) as (txt & A & B).
  exists txt, (program_data neqb m s0). split; [exact A|]. split; [exact B|]. apply (describes_data neqb E m GM s0); [exact I0|].
  intros e q Ie V. destruct (gm_prob m GM e Ie) as (q' & L & _). unfold value in V. rewrite L in V. injection V as ->.
  destruct (FD e q Ie L) as (z & Z). rewrite (rounded_exact q z Z). apply Qabs_Qle_condition. change (this 0%Qc) with 0%Q. split; lra.
Qed.
Print Assumptions to_prism_exact.

(** Nothing is written for anything else. *)
Theorem to_prism_only {N} (neqb : N -> N -> bool) (m : model N) txt : to_prism neqb m = Ok txt ->
  (m_kind m = MC \/ m_kind m = MDP) /\ node_list (m_ts m) <> [] /\ exists s0, g_init (m_ts m) = [s0].
Proof.
  unfold to_prism. destruct (m_kind m); try discriminate;
  (destruct (node_list (m_ts m)) as [|s r]; [discriminate|]; destruct (g_init (m_ts m)) as [|s0 [|]]; try discriminate;
   intros _; split; [auto|split; [discriminate|eauto]]).
Qed.
Print Assumptions to_prism_only.

(** ** A concrete decision process: the autonomous vehicle of tests/models/ma.nm *)
Definition node (s : string) (l : list string) : string * attrs val := (s, [("ap", VSet l)]).
Definition arc (u v : string) (k : nat) (q : Q) (a : string) : edge string val :=
  Edge u v k [("probability", VNum (Q2Qc q)); ("action", VStr a)].
Definition vehicle : model string := Model MDP ["a8"; "a4"; "a9"] [VStr "acc"; VStr "brake"]
  (Graph [node "8" ["a8"]; node "4" ["a4"]; node "9" ["a9"]]
     [arc "8" "8" 0 (1 # 10) "acc"; arc "8" "4" 0 (9 # 10) "acc"; arc "8" "8" 1 (8 # 10) "brake"; arc "8" "4" 1 (2 # 10) "brake";
      arc "4" "4" 0 (2 # 10) "acc"; arc "4" "9" 0 (8 # 10) "acc"; arc "4" "4" 1 (9 # 10) "brake"; arc "4" "9" 1 (1 # 10) "brake";
      arc "9" "9" 0 1 "brake"] ["8"]).
Ltac members H := cbn in H; repeat (destruct H as [<-|H]); [..|destruct H].
Example vehicle_good : good_markov vehicle.
Proof.
  constructor.
  - right. reflexivity.
  - cbn. repeat constructor; cbn; intuition discriminate.
  - exists "8". split; [reflexivity|cbn; tauto].
  - intros e H. members H; cbn; tauto.
  - intros e H. members H; (eexists; split; [reflexivity|]; unfold Qcle; cbn; unfold Qle; cbn; lia).
  - intros e H. cbn [m_kind vehicle]. members H; (eexists; split; [reflexivity|cbn; tauto]).
  - split; [cbn; repeat constructor; cbn; intuition discriminate|cbn; intuition discriminate].
  - intros s a H. cbn in H. destruct H as [[= <- <-]|[[= <- <-]|[[= <- <-]|[]]]]; eexists; reflexivity.
  - intros p H. cbn in H. destruct H as [<-|[<-|[<-|[]]]]; (split; [cbn; intuition discriminate|]).
    + exists "8", ["a8"]. split; [|cbn; tauto]. exists [("ap", VSet ["a8"])]. cbn. tauto.
    + exists "4", ["a4"]. split; [|cbn; tauto]. exists [("ap", VSet ["a4"])]. cbn. tauto.
    + exists "9", ["a9"]. split; [|cbn; tauto]. exists [("ap", VSet ["a9"])]. cbn. tauto.
Qed.
Example vehicle_text : to_prism String.eqb vehicle = Ok "mdp

module sys_model
    s : [0..2] init 0;

    [act0] s=0 -> 0.1000 : (s'=0) + 0.9000 : (s'=1);
    [act1] s=0 -> 0.8000 : (s'=0) + 0.2000 : (s'=1);
    [act0] s=1 -> 0.2000 : (s'=1) + 0.8000 : (s'=2);
    [act1] s=1 -> 0.9000 : (s'=1) + 0.1000 : (s'=2);
    [act1] s=2 -> 1.0000 : (s'=2);

endmodule

label ""a8"" = (s=0);
label ""a4"" = (s=1);
label ""a9"" = (s=2);
".
Proof. vm_compute. reflexivity. Qed.
Example vehicle_exact : four_decimals vehicle /\ exists txt P, to_prism String.eqb vehicle = Ok txt /\ prism_read txt = Some P /\ describes String.eqb str_nat vehicle 0%Qc P.
Proof.
  assert (F : four_decimals vehicle).
  { intros e q H L. members H; cbn in L; injection L as <-;
    [exists 1000%Z|exists 9000%Z|exists 8000%Z|exists 2000%Z|exists 2000%Z|exists 8000%Z|exists 9000%Z|exists 1000%Z|exists 10000%Z];
    apply Qc_is_canon; vm_compute; reflexivity. }
  split; [exact F|]. apply to_prism_exact; [apply String.eqb_eq|apply vehicle_good|exact F].
Qed.

(** ** What is not so

    Rounding: the probabilities of a state of a stochastic chain need not add up to 1 in the text. *)
Definition thirds : model string := Model MC ["p"] []
  (Graph [node "a" ["p"]; node "b" []; node "c" []]
     [Edge "a" "a" 0 [("probability", VNum (Q2Qc (1 # 3)))]; Edge "a" "b" 0 [("probability", VNum (Q2Qc (1 # 3)))];
      Edge "a" "c" 0 [("probability", VNum (Q2Qc (1 # 3)))]; Edge "b" "b" 0 [("probability", VNum 1%Qc)]; Edge "c" "c" 0 [("probability", VNum 1%Qc)]] ["a"]).
Theorem prism_rounding_refuted : exists m : model string, good_markov m /\ stochastic String.eqb (m_ts m) /\
  exists txt P c, to_prism String.eqb m = Ok txt /\ prism_read txt = Some P /\ In c (pg_commands P) /\ sumq (map fst (cm_updates c)) <> 1%Qc.
Proof.
  exists thirds. split; [|split].
  - constructor.
    + left. reflexivity.
    + cbn. repeat constructor; cbn; intuition discriminate.
    + exists "a". split; [reflexivity|cbn; tauto].
    + intros e H. members H; cbn; tauto.
    + intros e H. members H; (eexists; split; [reflexivity|]; unfold Qcle; cbn; unfold Qle; cbn; lia).
    + intros e H. cbn [m_kind thirds]. members H; reflexivity.
    + split; [constructor|intros []].
    + intros s a H. cbn in H. destruct H as [[= <- <-]|[[= <- <-]|[[= <- <-]|[]]]]; eexists; reflexivity.
    + intros p H. cbn in H. destruct H as [<-|[]]. split; [cbn; intuition discriminate|]. exists "a", ["p"]. split; [|cbn; tauto]. exists [("ap", VSet ["p"])]. cbn. tauto.
  - intros e H. members H; apply Qc_is_canon; vm_compute; reflexivity.
  - eexists. eexists. eexists (Command None 0 _). split; [vm_compute; reflexivity|]. split; [vm_compute; reflexivity|]. split; [left; reflexivity|].
    intro H. apply (f_equal this) in H. vm_compute in H. discriminate H.
Qed.
Print Assumptions prism_rounding_refuted.
(** A proposition that labels no state makes the text unreadable, and so does a quote in a proposition. *)
Theorem prism_unused_label_refuted : exists (m : model string) txt, m_ap m = ["p"; "q"] /\
  to_prism String.eqb m = Ok txt /\ prism_read txt = None /\
  exists txt' P, to_prism String.eqb (Model (m_kind m) ["p"] (m_actions m) (m_ts m)) = Ok txt' /\ prism_read txt' = Some P.
Proof.
  exists (Model MC ["p"; "q"] [] (m_ts thirds)). eexists. split; [reflexivity|]. split; [vm_compute; reflexivity|]. split; [vm_compute; reflexivity|].
  eexists. eexists. split; [vm_compute; reflexivity|vm_compute; reflexivity].
Qed.
Print Assumptions prism_unused_label_refuted.
Theorem prism_quoted_label_refuted : exists (m : model string) p txt, m_ap m = [p] /\ (exists s l, state_label (m_ts m) s l /\ In p l) /\
  to_prism String.eqb m = Ok txt /\ prism_read txt = None.
Proof.
  exists (Model MC ["6"""] [] (Graph [node "a" ["6"""]] [Edge "a" "a" 0 [("probability", VNum 1%Qc)]] ["a"])), "6""". eexists. split; [reflexivity|]. split.
  - exists "a", ["6"""]. split; [|cbn; tauto]. exists [("ap", VSet ["6"""])]. cbn. tauto.
  - split; [vm_compute; reflexivity|vm_compute; reflexivity].
Qed.
Print Assumptions prism_quoted_label_refuted.
