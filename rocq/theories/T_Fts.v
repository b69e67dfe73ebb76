(** C39, C40: transition systems and automata from tuples; lines and cycles. *)
From Coq Require Import List String Ascii Bool Arith ZArith Lia.
From Verif Require Import M_Tree M_Base S_LTL M_Gr1c L_Dec L_Gr1c M_Dict L_Dict M_Graph L_Graph M_Machine S_Run L_Build L_Machine T_Convert M_Fts.
Import ListNotations.
Open Scope string_scope.
Open Scope list_scope.

Lemma obj_eqb_eq a b : obj_eqb a b = true <-> a = b.
Proof.
  destruct a as [|x|x], b as [|y|y]; cbn [obj_eqb]; try (split; congruence).
  - rewrite Z.eqb_eq. split; congruence.
  - rewrite String.eqb_eq. split; congruence.
Qed.
Lemma slist_eqb_eq a b : slist_eqb a b = true <-> a = b.
Proof.
  revert b. induction a as [|x a IH]; intros [|y b]; cbn [slist_eqb]; try (split; congruence).
  rewrite andb_true_iff, String.eqb_eq, IH. split; [intros [-> ->]; reflexivity|intros [= -> ->]; auto].
Qed.
Lemma pv_eqb_eq a b : pv_eqb a b = true <-> a = b.
Proof.
  revert b. induction a as [|x|x|o v IH]; intros [|y|y|p w]; cbn [pv_eqb]; try (split; congruence).
  - rewrite String.eqb_eq. split; congruence.
  - rewrite slist_eqb_eq. split; congruence.
  - rewrite andb_true_iff, obj_eqb_eq, IH. split; [intros [-> ->]; reflexivity|intros [= -> ->]; auto].
Qed.
Notation neqb := obj_eqb.
Notation veqb := pv_eqb.

(** ** Specification *)
(** What the argument [L] says: pairs of a state and its label, or labels in the order of the
    states. *)
Definition unlike_pair (v : pv) : Prop :=
  match v with PvPair _ _ => False | PvSet l => List.length l <> 2 | _ => True end.
Definition labelling (S : list obj) (L : option (list pv)) (ps : list (obj * pv)) : Prop :=
  match L with
  | None => ps = []
  | Some vs => vs <> [] /\
      (vs = map (fun x => PvPair (fst x) (snd x)) ps \/
       (ps = combine S vs /\ match vs with v :: _ => unlike_pair v | [] => True end))
  end.
(** The last pair for the name [n] gives [v]. *)
Definition assigned (name : obj -> obj) (ps : list (obj * pv)) (n : obj) (v : pv) : Prop :=
  exists l1 s l2, ps = l1 ++ (s, v) :: l2 /\ name s = n /\ forall s' v', In (s', v') l2 -> name s' <> n.
Definition named (n : obj) (v : pv) (g : graph obj pv) : Prop :=
  exists a, In (n, a) (g_nodes g) /\ lookup "ap" a = Some v.
(** [None] as a label means no propositions. *)
Definition meant (v : pv) : pv := match v with PvNone => PvSet [] | _ => v end.

(** ** Nodes *)
Definition ap0 : attrs pv := [("ap", PvSet [])].
Lemma add_nodes_ap (l : list obj) : exists g', fold_res (fun n => add_node neqb (fts_config []) n [] true) l empty_graph = Ok g' /\
  NoDup (node_list g') /\ g_edges g' = [] /\ g_init g' = [] /\ (forall n, In n (node_list g') <-> In n l) /\
  (forall n a, In (n, a) (g_nodes g') -> a = ap0).
Proof.
  apply (fold_res_total _ (fun l1 g1 => NoDup (node_list g1) /\ g_edges g1 = [] /\ g_init g1 = [] /\
      (forall n, In n (node_list g1) <-> In n l1) /\ (forall n a, In (n, a) (g_nodes g1) -> a = ap0)) l (@empty_graph obj pv)).
  - do 3 (split; [try constructor|]). split; [intro n; cbn; tauto|intros n a []].
  - intros l1 n l2 g1 _ [ND [E1 [I1 [K A]]]]. unfold add_node. cbn [typed_attr fts_config c_node_types c_node_defaults].
    change (typed_attr [("ap", Some (in_powerset []))] [("ap", PvSet [])] []) with (Ok ap0). cbn [bind].
    change (check_untyped ap0 [("ap", Some (in_powerset []))] true) with (Ok tt). cbn [bind]. eexists. split; [reflexivity|].
    unfold node_list. cbn [g_nodes g_edges g_init]. rewrite (nx_add_node_keys neqb n ap0 (g_nodes g1)).
    change (map fst (g_nodes g1)) with (node_list g1). split; [|split; [exact E1|split; [exact I1|split]]].
    + destruct (nmem neqb n (node_list g1)) eqn:M; [exact ND|]. apply NoDup_app; [exact ND|repeat constructor; intros []|].
      intros x J [<-|[]]. apply (nmem_In neqb obj_eqb_eq) in J. congruence.
    + intro x. rewrite in_app_iff. destruct (nmem neqb n (node_list g1)) eqn:M.
      * apply (nmem_In neqb obj_eqb_eq) in M. rewrite K. cbn. split; [tauto|]. intros [J|[<-|[]]]; [auto|]. apply K, M.
      * rewrite in_app_iff, K. cbn. tauto.
    + clear - A. revert A. generalize (g_nodes g1) as l. induction l as [|[m b] r IH]; intros A x a; cbn [nx_add_node].
      * intros [[= _ <-]|[]]. reflexivity.
      * destruct (neqb n m); intros [Q|J].
        -- injection Q as _ <-. rewrite (A m b (or_introl eq_refl)). reflexivity.
        -- apply (A x a). right. exact J.
        -- injection Q as <- <-. apply (A m b). left. reflexivity.
        -- eapply IH; [|exact J]. intros y c Q. apply (A y c). right. exact Q.
Qed.

(** ** Labels *)
Definition relabel (name : obj -> obj) (ps : list (obj * pv)) (n : obj) (a : attrs pv) : attrs pv :=
  fold_left (fun a sv => if neqb (name (fst sv)) n then set_item "ap" (meant (snd sv)) a else a) ps a.
Lemma label_fold pre ps g :
  (forall g', fold_res (label_state (Some pre)) (map (fun x => Ok x) ps) g = Ok g' ->
     (forall sv, In sv ps -> In (prepend1 (Some pre) (fst sv)) (node_list g)) /\
     g_edges g' = g_edges g /\ g_init g' = g_init g /\
     g_nodes g' = map (fun na => (fst na, relabel (prepend1 (Some pre)) ps (fst na) (snd na))) (g_nodes g)) /\
  ((forall sv, In sv ps -> In (prepend1 (Some pre) (fst sv)) (node_list g)) ->
     exists g', fold_res (label_state (Some pre)) (map (fun x => Ok x) ps) g = Ok g').
Proof.
  revert g. induction ps as [|[s v] ps IH]; intro g; cbn [map fold_res].
  - split; [|eauto]. intros g' [= <-]. split; [intros sv []|]. do 2 (split; [reflexivity|]). cbn [relabel fold_left].
    symmetry. rewrite map_ext with (g := fun x => x); [apply map_id|]. intros []; reflexivity.
  - unfold label_state at 1 3. cbn [bind fst snd]. change (OStr (pre ++ str_obj s)) with (prepend1 (Some pre) s).
    unfold set_node. destruct (has_node neqb (prepend1 (Some pre) s) g) eqn:H; cbn [bind].
    + apply (has_node_In neqb obj_eqb_eq) in H.
      set (g1 := Graph _ _ _). destruct (IH g1) as [A B].
      assert (NL : node_list g1 = node_list g).
      { unfold node_list, g1. cbn [g_nodes]. rewrite map_map. apply map_ext. intros [n a]. cbn [fst]. destruct (neqb (prepend1 (Some pre) s) n); reflexivity. }
      split.
      * intros g' Hg. destruct (A g' Hg) as [C1 [C2 [C3 C4]]]. rewrite NL in C1. split; [intros sv [<-|J]; auto|]. split; [exact C2|]. split; [exact C3|].
        rewrite C4. unfold g1. cbn [g_nodes]. rewrite map_map. apply map_ext. intros [n a]. cbn [fst snd].
        unfold relabel at 2. cbn [fold_left fst snd]. destruct (neqb (prepend1 (Some pre) s) n) eqn:E; cbn [fst snd]; reflexivity.
      * intro Q. apply B. rewrite NL. intros sv J. apply Q. right. exact J.
    + split; [discriminate|]. intro Q. specialize (Q (s, v) (or_introl eq_refl)). cbn [fst] in Q. apply (has_node_In neqb obj_eqb_eq) in Q. congruence.
Qed.
Lemma relabel_lookup name ps n a :
  (exists v, assigned name ps n v /\ lookup "ap" (relabel name ps n a) = Some (meant v)) \/
  ((forall s v, In (s, v) ps -> name s <> n) /\ relabel name ps n a = a).
Proof.
  induction ps as [|[s v] ps IH] using rev_ind; [right; split; [intros s v []|reflexivity]|].
  unfold relabel in *. rewrite fold_left_app. cbn [fold_left fst snd]. destruct (neqb (name s) n) eqn:E.
  - left. exists v. split; [|rewrite lookup_set, String.eqb_refl; reflexivity]. apply obj_eqb_eq in E. exists ps, s, []. repeat split; auto.
  - assert (Ne : name s <> n) by (intro Q; apply obj_eqb_eq in Q; congruence). destruct IH as [[w [[l1 [s1 [l2 [-> [E1 F]]]]] L]]|[F L]].
    + left. exists w. split; [|exact L]. exists l1, s1, (l2 ++ [(s, v)]). rewrite <- app_assoc. split; [reflexivity|]. split; [exact E1|].
      intros s' v' J. apply in_app_iff in J. destruct J as [J|[[= <- <-]|[]]]; eauto.
    + right. split; [|exact L]. intros s' v' J. apply in_app_iff in J. destruct J as [J|[[= <- <-]|[]]]; eauto.
Qed.
Lemma assigned_unique name ps n v w : assigned name ps n v -> assigned name ps n w -> v = w.
Proof.
  intros [l1 [s [l2 [-> [E F]]]]] [m1 [t [m2 [Eq [E' F']]]]].
  revert m1 Eq. induction l1 as [|x l1 IH]; intros [|y m1] Eq; cbn [app] in Eq.
  - congruence.
  - injection Eq as <- Eq. exfalso. apply (F t w); [rewrite Eq; apply in_or_app; right; left; reflexivity|exact E'].
  - injection Eq as -> Eq. exfalso. apply (F' s v); [rewrite <- Eq; apply in_or_app; right; left; reflexivity|exact E].
  - injection Eq as _ Eq. eauto.
Qed.

(** ** Transitions *)
Definition edge_config : config pv := Config [] [] [("env_actions", Some (fun _ => false)); ("sys_actions", Some (fun _ => false))] [].
(** A graph without transitions and with any labels of states. *)
Lemma wf_bare (g : graph obj pv) : NoDup (node_list g) -> g_edges g = [] -> NoDup (g_init g) -> (forall n a, In (n, a) (g_nodes g) -> NoDup (map fst a)) -> wf edge_config g.
Proof.
  intros ND E I A. split; [exact ND| | | | |exact I]; rewrite ?E.
  - intros e [].
  - constructor.
  - intros n a J. split; [eapply A; eauto|]. apply Forall_forall. intros [k v] _. reflexivity.
  - intros e [].
Qed.
Lemma add_edges_nodup (c : config pv) ch l g g' : c_edge_defaults c = [] -> wf c g -> (forall x, In x l -> snd (fst x) = []) ->
  fold_res (add_trans neqb veqb c ch) l g = Ok g' -> NoDup l.
Proof.
  intros D W U H.
  apply (fold_res_inv (add_trans neqb veqb c ch) (fun l1 g1 => NoDup l1 /\ fold_res (add_trans neqb veqb c ch) l1 g = Ok g1) l g g'); [| |exact H].
  - split; [constructor|reflexivity].
  - intros l1 x l2 g1 g2 E [ND F] S. split.
    + apply NoDup_app; [exact ND|repeat constructor; intros []|]. intros y J [<-|[]].
      assert (U1 : forall y, In y l1 -> NoDup (map fst (snd (fst y)))) by (intros [[y1 y2] y3] Jy; assert (Q : y2 = []) by (apply (U (y1, y2, y3)); rewrite E; apply in_or_app; auto); cbn [fst snd]; rewrite Q; constructor).
      destruct (add_edges_trans neqb veqb obj_eqb_eq pv_eqb_eq c D ch l1 g g1 W U1 F) as [_ [_ [_ [_ T]]]].
      destruct x as [[u d] v]. assert (d = []) by (apply (U (u, d, v)); rewrite E; apply in_or_app; right; left; reflexivity). subst d.
      unfold add_trans in S. cbn [fst snd] in S. apply (add_edge_Ok neqb veqb obj_eqb_eq) in S. destruct S as [_ [_ [Un _]]].
      assert (Q : trans g1 u [] v) by (apply T; right; exists []; split; [exact J|apply same_items_refl]).
      destruct Q as [e [I [Es [Ed Sm]]]]. apply (Un e); [apply (edges_between_In neqb obj_eqb_eq); auto|]. apply items_nil, Sm.
    + apply fold_res_app. exists g1. split; [exact F|]. cbn [fold_res]. rewrite S. reflexivity.
Qed.

(** ** tuple2fts without actions *)
Definition fts_args (p : option string) (S S0 : list obj) (ps : list (obj * pv)) (ts : list (obj * obj * option pv)) : Prop :=
  let nm := prepend1 p in
  (forall s, In s S0 -> In (nm s) (map nm S)) /\
  (forall s v, In (s, v) ps -> In (nm s) (map nm S)) /\
  (forall u v a, In (u, v, a) ts -> a = None /\ In (nm u) (map nm S) /\ In (nm v) (map nm S)) /\
  NoDup (map (fun t => (nm (fst (fst t)), nm (snd (fst t)))) ts).
Definition fts_result (p : option string) (S S0 AP : list obj) (ps : list (obj * pv)) (ts : list (obj * obj * option pv)) (r : fts) : Prop :=
  let nm := prepend1 p in let g := f_graph r in
  f_ap r = AP /\ NoDup (node_list g) /\
  (forall n, In n (node_list g) <-> exists s, In s S /\ n = nm s) /\
  (forall n, In n (g_init g) <-> exists s, In s S0 /\ n = nm s) /\
  (forall a e b, trans g a e b <-> e = [] /\ exists u v, In (u, v, None) ts /\ a = nm u /\ b = nm v) /\
  (forall n w, named n w g <-> In n (map nm S) /\
     ((exists v, assigned nm ps n v /\ w = meant v) \/ ((forall s v, In (s, v) ps -> nm s <> n) /\ w = PvSet []))).

Lemma pair_labels_spec S L ps : labelling S L ps ->
  pair_labels S L = Ok (match L with None => None | Some _ => Some (map (fun x => Ok x) ps) end).
Proof.
  destruct L as [vs|]; cbn [labelling pair_labels]; [|reflexivity]. intros [NE [->|[-> U]]].
  - destruct ps as [|[s v] ps]; [exfalso; apply NE; reflexivity|]. cbn [map fst snd is_pairs unpack2]. do 3 f_equal. rewrite map_map. apply map_ext. intros []; reflexivity.
  - destruct vs as [|v vs]; [exfalso; apply NE; reflexivity|].
    assert (Z : forall A B (l : list A) (m : list B), zip l m = combine l m) by (induction l as [|x l IH]; intros [|y m]; cbn; congruence).
    assert (P : is_pairs v = false).
    { destruct v as [|s|l|]; try reflexivity; [|destruct U]. destruct l as [|a [|b [|]]]; try reflexivity. exfalso. apply U. reflexivity. }
    rewrite P, Z. reflexivity.
Qed.
Definition plain (p : option string) (t : obj * obj * option pv) : ltrans := (prepend1 p (fst (fst t)), @nil (string * pv), prepend1 p (snd (fst t))).
Lemma plain_fold AP p ts g g' :
  fold_res (fun t g => match t with
      | (u, v, None) => add_edge neqb veqb (fts_config AP) (prepend1 p u) (prepend1 p v) None [] true g
      | _ => Err "ValueError"
      end) ts g = Ok g' <->
  (forall u v a, In (u, v, a) ts -> a = None) /\ fold_res (add_trans neqb veqb edge_config true) (map (plain p) ts) g = Ok g'.
Proof.
  revert g. induction ts as [|[[u v] a] ts IH]; intro g; cbn [fold_res map].
  - split; [intro H; split; [intros u v a []|exact H]|intros [_ H]; exact H].
  - rewrite !bind_Ok. unfold add_trans at 1. cbn [plain fst snd]. split.
    + intros [g1 [H1 H2]]. destruct a as [a|]; [discriminate|]. apply IH in H2. destruct H2 as [A B]. split; [intros x y b [Q|J]; [congruence|eauto]|]. exists g1. auto.
    + intros [A [g1 [H1 H2]]]. rewrite (A u v a (or_introl eq_refl)). exists g1. split; [exact H1|]. apply IH. split; [|exact H2]. intros x y b J. eapply A. right. exact J.
Qed.

Theorem tuple2fts_spec S S0 AP L ts p ps : labelling S L ps -> (p = None -> L = None) ->
  (forall r, tuple2fts S (Many S0) AP L None ts p = Ok r -> fts_args p S S0 ps ts /\ fts_result p S S0 AP ps ts r /\ wf edge_config (f_graph r)) /\
  (fts_args p S S0 ps ts -> exists r, tuple2fts S (Many S0) AP L None ts p = Ok r).
Proof.
  intros Lb Pn. unfold tuple2fts. rewrite (pair_labels_spec S L ps Lb). cbn [bind start_states].
  destruct (add_nodes_ap (prepend_with S p)) as [g1 [H1 [ND1 [E1 [I1 [N1 A1]]]]]]. rewrite H1. cbn [bind].
  assert (W1 : wf edge_config g1) by (apply wf_bare; [exact ND1|exact E1|rewrite I1; constructor|intros n a J; rewrite (A1 n a J); repeat constructor; intros []]).
  destruct (add_initials neqb veqb obj_eqb_eq edge_config (prepend_with S0 p) g1 W1) as [AI AT].
  assert (LF : forall g2, g_nodes g2 = g_nodes g1 ->
    let f := match match L with None => None | Some _ => Some (map (fun x => Ok x) ps) end with None => Ok g2 | Some l => fold_res (label_state p) l g2 end in
    (forall g3, f = Ok g3 -> (forall s v, In (s, v) ps -> In (prepend1 p s) (node_list g2)) /\ g_edges g3 = g_edges g2 /\ g_init g3 = g_init g2 /\
       g_nodes g3 = map (fun na => (fst na, relabel (prepend1 p) ps (fst na) (snd na))) (g_nodes g2)) /\
    ((forall s v, In (s, v) ps -> In (prepend1 p s) (node_list g2)) -> exists g3, f = Ok g3)).
  { intros g2 _. cbv zeta. destruct L as [vs|].
    - destruct p as [pre|]; [|specialize (Pn eq_refl); discriminate]. destruct (label_fold pre ps g2) as [A B]. split.
      + intros g3 H. destruct (A g3 H) as [C [D [E F]]]. split; [intros s v J; exact (C (s, v) J)|auto].
      + intro Q. apply B. intros [s v] J. exact (Q s v J).
    - cbn [labelling] in Lb. subst ps. split; [|eauto]. intros g3 [= <-]. split; [intros s v []|]. do 2 (split; [reflexivity|]).
      cbn [relabel fold_left]. symmetry. rewrite map_ext with (g := fun x => x); [apply map_id|]. intros []; reflexivity. }
  assert (WL : forall g2 g3, g_nodes g2 = g_nodes g1 -> g_edges g2 = g_edges g1 -> NoDup (g_init g2) ->
     g_edges g3 = g_edges g2 -> g_init g3 = g_init g2 -> g_nodes g3 = map (fun na => (fst na, relabel (prepend1 p) ps (fst na) (snd na))) (g_nodes g2) ->
     wf edge_config g3 /\ node_list g3 = node_list g1).
  { intros g2 g3 B1 B2 B3 C1 C2 C3. assert (NL : node_list g3 = node_list g1) by (unfold node_list; rewrite C3, map_map, B1; reflexivity).
    split; [|exact NL]. apply wf_bare; [rewrite NL; exact ND1|congruence|congruence|]. rewrite C3, B1. intros n a J. apply in_map_iff in J. destruct J as [[n' a'] [Q J]].
    injection Q as <- <-. rewrite (A1 n' a' J). cbn [fst snd]. clear. unfold relabel.
    assert (G : forall a, NoDup (map fst a) -> NoDup (map fst (fold_left (fun (a : attrs pv) sv => if neqb (prepend1 p (fst sv)) n' then set_item "ap" (meant (snd sv)) a else a) ps a))).
    { induction ps as [|x l IH]; intros a D; [exact D|]. cbn [fold_left]. apply IH. destruct (neqb _ n'); [apply nodup_set, D|exact D]. }
    apply G. repeat constructor. intros []. }
  assert (Sn : forall n, In n (node_list g1) <-> In n (map (prepend1 p) S)) by (intro n; rewrite N1; reflexivity).
  split.
  - intros r H. apply bind_Ok in H. destruct H as [g2 [H2 H]]. apply bind_Ok in H. destruct H as [g3 [H3 H]]. apply bind_Ok in H. destruct H as [g4 [H4 H]]. injection H as <-.
    destruct (AI g2 H2) as [B1 [W2 [B2 [B3 B4]]]]. destruct (LF g2 B2) as [LFa _]. destruct (LFa g3 H3) as [C1 [C2 [C3 C4]]].
    destruct (WL g2 g3 B2 B3 (wf_init_nodup _ _ W2) C2 C3 C4) as [W3 NL3].
    apply plain_fold in H4. destruct H4 as [D1 D2].
    assert (U : forall x, In x (map (plain p) ts) -> snd (fst x) = []) by (intros x J; apply in_map_iff in J; destruct J as [t [<- _]]; reflexivity).
    destruct (add_edges_trans neqb veqb obj_eqb_eq pv_eqb_eq edge_config eq_refl true (map (plain p) ts) g3 g4 W3) as [F1 [F2 [W4 [F3 F4]]]]; [intros [[y1 y2] y3] J; assert (Q : y2 = []) by exact (U _ J); cbn [fst snd]; rewrite Q; constructor|exact D2|].
    assert (NL2 : node_list g2 = node_list g1) by (unfold node_list; rewrite B2; reflexivity).
    split.
    + split; [|split; [|split]].
      * intros s J. apply Sn, B1, in_map, J.
      * intros s v J. apply Sn. rewrite <- NL2. eapply C1; eauto.
      * intros u v a J. split; [eauto|]. destruct (F3 (plain p (u, v, a)) (in_map _ _ _ J)) as [G1 [G2 _]]. cbn [plain fst snd] in G1, G2. rewrite NL3 in G1, G2. split; apply Sn; assumption.
      * pose proof (add_edges_nodup edge_config true _ g3 g4 eq_refl W3 U D2) as ND.
        apply (NoDup_map_inv (fun q => (fst q, @nil (string * pv), snd q))). rewrite map_map. exact ND.
    + split; [|exact W4]. unfold fts_result. cbn [f_graph f_ap].
      assert (NL4 : node_list g4 = node_list g1) by (unfold node_list in *; rewrite F1; exact NL3).
      split; [reflexivity|]. split; [rewrite NL4; exact ND1|]. split; [|split; [|split]].
      * intro n. rewrite NL4, Sn, in_map_iff. split; [intros [s [E J]]; exists s; auto|intros [s [J E]]; exists s; auto].
      * intro n. rewrite F2, C3, B4, I1. unfold prepend_with. rewrite in_map_iff. cbn. split; [intros [[]|[s [E J]]]; exists s; auto|intros [s [J E]]; right; exists s; auto].
      * intros a e b. rewrite F4. split.
        -- intros [[x [J _]]|[d [J Sm]]]; [rewrite C2, B3, E1 in J; destruct J|]. pose proof (U _ J) as Q. cbn [fst snd] in Q. subst d. apply same_items_sym, items_nil in Sm. split; [exact Sm|].
           apply in_map_iff in J. destruct J as [[[u v] o] [Q J]]. injection Q as <- <-. exists u, v. cbn [fst snd]. rewrite <- (D1 u v o J) at 1. auto.
        -- intros [-> [u [v [J [-> ->]]]]]. right. exists []. split; [|apply same_items_refl]. apply (in_map (plain p)) in J. exact J.
      * intros n w. unfold named. rewrite F1, C4, B2. split.
        -- intros [a [J Lw]]. apply in_map_iff in J. destruct J as [[n' a'] [Q J]]. injection Q as -> <-. cbn [fst snd] in Lw.
           split; [apply Sn; apply (in_map fst) in J; exact J|]. destruct (relabel_lookup (prepend1 p) ps n a') as [[v [As L1]]|[Nas L1]].
           ++ left. exists v. split; [exact As|]. congruence.
           ++ right. split; [exact Nas|]. rewrite L1, (A1 n a' J) in Lw. injection Lw as <-. reflexivity.
        -- intros [J Q]. apply Sn in J. apply in_map_iff in J. destruct J as [[n' a'] [E J]]. cbn [fst] in E. subst n'.
           exists (relabel (prepend1 p) ps n a'). split; [apply in_map_iff; exists (n, a'); auto|].
           destruct (relabel_lookup (prepend1 p) ps n a') as [[v [As L1]]|[Nas L1]], Q as [[v' [As' ->]]|[Nas' ->]].
           ++ rewrite (assigned_unique _ _ _ _ _ As' As). exact L1.
           ++ exfalso. destruct As as [l1 [s [l2 [-> [E _]]]]]. apply (Nas' s v); [apply in_or_app; right; left; reflexivity|exact E].
           ++ exfalso. destruct As' as [l1 [s [l2 [-> [E _]]]]]. apply (Nas s v'); [apply in_or_app; right; left; reflexivity|exact E].
           ++ rewrite L1, (A1 n a' J). reflexivity.
  - intros [Q1 [Q2 [Q3 Q4]]]. destruct AT as [g2 H2].
    { intros n J. apply in_map_iff in J. destruct J as [s [<- J]]. apply Sn, Q1, J. }
    rewrite H2. cbn [bind]. destruct (AI g2 H2) as [_ [W2 [B2 [B3 B4]]]]. destruct (LF g2 B2) as [LFa LFb].
    assert (NL2 : node_list g2 = node_list g1) by (unfold node_list; rewrite B2; reflexivity).
    destruct LFb as [g3 H3]; [intros s v J; rewrite NL2; apply Sn; eapply Q2; eauto|]. rewrite H3. cbn [bind].
    destruct (LFa g3 H3) as [_ [C2 [C3 C4]]]. destruct (WL g2 g3 B2 B3 (wf_init_nodup _ _ W2) C2 C3 C4) as [W3 NL3].
    assert (U : forall x, In x (map (plain p) ts) -> snd (fst x) = []) by (intros x J; apply in_map_iff in J; destruct J as [t [<- _]]; reflexivity).
    destruct (add_edges_total neqb veqb obj_eqb_eq pv_eqb_eq edge_config eq_refl true (map (plain p) ts) g3 W3) as [g4 H4].
    + intros [[y1 y2] y3] J. assert (Q : y2 = []) by exact (U _ J). cbn [fst snd]. rewrite Q. constructor.
    + intros a d b J. pose proof (U _ J) as E. cbn [fst snd] in E. subst d. apply in_map_iff in J. destruct J as [[[u v] o] [Q J]]. injection Q as <- <-.
      destruct (Q3 u v o J) as [_ [G1 G2]]. cbn [fst snd]. rewrite NL3. split; [apply Sn; exact G1|]. split; [apply Sn; exact G2|]. split; [constructor|]. split; [left; intros k []|].
      intros [x [Jx _]]. rewrite C2, B3, E1 in Jx. destruct Jx.
    + intros l1 a b l2 d E J. pose proof (U (a, d, b)) as Ud. cbn [fst snd] in Ud. rewrite Ud in J by (rewrite E; apply in_or_app; right; right; exact J).
      assert (ND : NoDup (map (plain p) ts)).
      { replace (map (plain p) ts) with (map (fun q => (fst q, @nil (string * pv), snd q)) (map (fun t : obj * obj * option pv => (prepend1 p (fst (fst t)), prepend1 p (snd (fst t)))) ts)) by (rewrite map_map; reflexivity).
        apply FinFun.Injective_map_NoDup; [|exact Q4]. intros [x y] [x' y'] Eq. cbn [fst snd] in Eq. congruence. }
      rewrite E in ND. apply NoDup_remove_2 in ND. apply ND, in_or_app. auto.
    + assert (H5 := proj2 (plain_fold AP p ts g3 g4) (Logic.conj (fun u v a J => proj1 (Q3 u v a J)) H4)). rewrite H5. cbn [bind]. eauto.
Qed.
Print Assumptions tuple2fts_spec.

(** ** The renaming *)
Definition ints (l : list obj) : Prop := forall o, In o l -> exists z, o = OInt z.
Definition strs (l : list obj) : Prop := forall o, In o l -> exists s, o = OStr s.
Lemma str_Z_inj a b : str_Z a = str_Z b -> a = b.
Proof. intro H. apply (f_equal num_text) in H. rewrite !(proj2 (str_Z_number _)) in H. injection H as H. exact H. Qed.
Lemma append_inj p a b : (p ++ a)%string = (p ++ b)%string -> a = b.
Proof.
  assert (G : forall c x y, String c x = String c y -> x = y) by (intros c x y H; injection H; auto).
  induction p as [|c p IH]; cbn [append]; [auto|]. intro H. apply IH, (G c), H.
Qed.
(** States of one kind keep apart when prefixed; a number and a string may not. *)
Theorem prefix_injective p l a b : ints l \/ strs l -> In a l -> In b l -> prepend1 p a = prepend1 p b -> a = b.
Proof.
  destruct p as [p|]; [|auto]. cbn [prepend1]. intros K Ia Ib H.
  assert (H' : str_obj a = str_obj b) by (apply (append_inj p); congruence).
  destruct K as [K|K]; destruct (K a Ia) as [x ->], (K b Ib) as [y ->]; cbn [str_obj] in H'; [apply str_Z_inj in H'|]; congruence.
Qed.
Theorem prefix_injective_refuted : exists r, tuple2fts [OInt 1; OStr "1"] (Many []) [] None None [] (Some "s") = Ok r /\
  node_list (f_graph r) = [OStr "s1"].
Proof. eexists. split; vm_compute; reflexivity. Qed.

(** ** What does not work *)
(** With actions no transition can be added: the label ['actions'] has no type. *)
Theorem tuple2fts_actions_refuted S S0 AP L acts ts p r : tuple2fts S S0 AP L (Some acts) ts p = Ok r -> ts = [].
Proof.
  unfold tuple2fts. intro H. apply bind_Ok in H. destruct H as [lab [_ H]]. apply bind_Ok in H. destruct H as [s0 [_ H]]. apply bind_Ok in H. destruct H as [g1 [H1 H]].
  apply bind_Ok in H. destruct H as [g2 [H2 H]]. apply bind_Ok in H. destruct H as [g3 [H3 H]]. apply bind_Ok in H. destruct H as [g4 [H4 _]]. apply bind_Ok in H4. destruct H4 as [u [_ H4]].
  assert (E3 : g_edges g3 = []).
  { destruct (add_nodes_ap (prepend_with S p)) as [g1' [Q1 [_ [E1 _]]]]. assert (g1' = g1) by congruence. subst g1'.
    assert (E2 : g_edges g2 = []).
    { rewrite <- E1. apply (fold_res_inv (add_initial neqb) (fun _ g => g_edges g = g_edges g1) s0 g1 g2); [reflexivity| |exact H2].
      intros l1 n l2 ga gb _ Ea. unfold add_initial. destruct (has_node neqb n ga); [|discriminate]. intros [= <-]. exact Ea. }
    rewrite <- E2. destruct lab as [l|]; [|injection H3 as <-; reflexivity].
    apply (fold_res_inv (label_state p) (fun _ g => g_edges g = g_edges g2) l g2 g3); [reflexivity| |exact H3].
    intros l1 x l2 ga gb _ Ea Hx. unfold label_state in Hx. apply bind_Ok in Hx. destruct Hx as [[s v] [_ Hx]]. unfold set_node in Hx. destruct (has_node neqb _ ga); [|discriminate].
    injection Hx as <-. exact Ea. }
  destruct ts as [|[[a b] [x|]] ts]; [reflexivity| |discriminate]. exfalso. cbn [fold_res] in H4. apply bind_Ok in H4. destruct H4 as [g5 [H4 _]].
  apply (add_edge_Ok neqb veqb obj_eqb_eq) in H4. destruct H4 as [_ [_ [_ [t [T Q]]]]]. unfold edges_between in Q. rewrite E3 in Q.
  destruct Q as [[_ [e [[] _]]]|[_ [Q _]]]. apply typed_attr_Ok in T. destruct T as [-> _]. cbn in Q. discriminate.
Qed.
(** Labels without a prefix are looked up under the name ['None...']. *)
Theorem tuple2fts_no_prefix_refuted : 
  tuple2fts [OStr "a"] (Many [OStr "a"]) [OStr "q"] (Some [PvPair (OStr "a") (PvSet ["q"])]) None [] None = Err "KeyError" /\
  exists r, tuple2fts [OStr "a"] (Many [OStr "a"]) [OStr "q"] (Some [PvPair (OStr "a") (PvSet ["q"])]) None [] (Some "") = Ok r.
Proof. split; [vm_compute; reflexivity|eexists; vm_compute; reflexivity]. Qed.
(** A label with propositions that are not declared is accepted. *)
Theorem tuple2fts_label_refuted : exists r,
  tuple2fts [OInt 0] (Many []) [OStr "q"] (Some [PvSet ["undeclared"]]) None [] (Some "s") = Ok r /\
  named (OStr "s0") (PvSet ["undeclared"]) (f_graph r) /\ in_powerset (f_ap r) (PvSet ["undeclared"]) = false.
Proof. eexists. split; [vm_compute; reflexivity|]. split; [|reflexivity]. eexists. split; [left; reflexivity|reflexivity]. Qed.
(** Arguments that meet the hypotheses of [tuple2fts_spec]. *)
Example tuple2fts_ex : 
  let S := [OStr "a"; OStr "b"; OStr "c"] in let L := Some [PvSet ["q"]; PvNone; PvSet ["q"; "r"]] in
  let ts := [(OStr "a", OStr "b", None); (OStr "b", OStr "c", None); (OStr "b", OStr "a", None); (OStr "c", OStr "c", None)] in
  labelling S L [(OStr "a", PvSet ["q"]); (OStr "b", PvNone); (OStr "c", PvSet ["q"; "r"])] /\
  (exists r, tuple2fts S (Many [OStr "a"; OStr "c"]) [OStr "q"; OStr "r"] L None ts (Some "x_") = Ok r /\ List.length (g_edges (f_graph r)) = 4).
Proof.
  cbv zeta. split.
  - split; [discriminate|]. right. split; [reflexivity|]. cbn. discriminate.
  - eexists. split; vm_compute; reflexivity.
Qed.

(** ** Lines and cycles *)
Definition st (z : Z) : obj := OStr ("s" ++ str_Z z).
Lemma st_inj a b : st a = st b -> a = b.
Proof. intro H. apply str_Z_inj. apply (append_inj "s"). unfold st in H. congruence. Qed.
(** Labels along paths that end in a state without successors. *)
Inductive reads (g : graph obj pv) : obj -> list pv -> Prop :=
| reads_end n v : named n v g -> (forall e m, ~ trans g n e m) -> reads g n [v]
| reads_next n v e m w : named n v g -> trans g n e m -> reads g m w -> reads g n (v :: w).
(** Labels that can be iterated over; the first is not taken for a pair. *)
Definition good_labels (L : list pv) : Prop :=
  (forall v, In v L -> match v with PvPair _ (PvSet _) => False | PvPair _ (PvPair _ _) => False | _ => True end) /\
  match L with v :: _ => unlike_pair v | [] => False end.

Lemma combine_map {A B C} (f : A -> B) (h : A -> C) l : combine (map f l) (map h l) = map (fun x => (f x, h x)) l.
Proof. induction l as [|x l IH]; cbn; congruence. Qed.
Lemma zip_combine {A B} (l : list A) (m : list B) : zip l m = combine l m.
Proof. revert m. induction l as [|x l IH]; intros [|y m]; cbn; congruence. Qed.
Lemma in_combine_range m (L : list pv) z v : In (OInt z, v) (combine (range m (List.length L)) L) <->
  exists i, z = (m + Z.of_nat i)%Z /\ nth_error L i = Some v.
Proof.
  unfold range. assert (G : forall k, In (OInt z, v) (combine (map (fun i => OInt (m + Z.of_nat i)) (List.seq k (List.length L))) L) <->
     exists i, z = (m + Z.of_nat (k + i))%Z /\ nth_error L i = Some v).
  { induction L as [|x L IH]; intro k; cbn [List.length List.seq map combine].
    - split; [intros []|]. intros [i [_ H]]. destruct i; discriminate.
    - cbn [In]. rewrite IH. split.
      + intros [H|[i [E H]]]; [|exists (S i); split; [rewrite E; f_equal; f_equal; lia|exact H]].
        injection H as H1 H2. exists O. split; [rewrite <- H1; do 2 f_equal; lia|cbn; congruence].
      + intros [[|i] [E H]]; [left; cbn in H; injection H as ->; f_equal; f_equal; rewrite E; do 2 f_equal; lia|].
        right. exists i. split; [rewrite E; do 2 f_equal; lia|exact H]. }
  exact (G O).
Qed.
Lemma range_In m n o : In o (range m n) <-> exists i, i < n /\ o = OInt (m + Z.of_nat i).
Proof.
  unfold range. rewrite in_map_iff. split.
  - intros [i [<- I]]. apply in_seq in I. exists i. split; [lia|reflexivity].
  - intros [i [I ->]]. exists i. split; [reflexivity|]. apply in_seq. lia.
Qed.
Definition line_ts (m : Z) (n : nat) : list (obj * obj * option pv) :=
  map (fun uv => (fst uv, snd uv, None)) (zip (range m (n - 1)) (range (m + 1) (n - 1))).
Lemma line_ts_eq m n : line_ts m n = map (fun i => (OInt (m + Z.of_nat i), OInt (m + 1 + Z.of_nat i), None)) (List.seq 0 (n - 1)).
Proof. unfold line_ts, range. rewrite zip_combine, combine_map, map_map. reflexivity. Qed.

Definition is_line (m : Z) (L : list pv) (g : graph obj pv) : Prop :=
  (forall n, In n (node_list g) <-> exists i, i < List.length L /\ n = st (m + Z.of_nat i)) /\
  (forall i v w, nth_error L i = Some v -> (named (st (m + Z.of_nat i)) w g <-> w = meant v)) /\
  (forall a e b, trans g a e b <-> e = [] /\ exists i, S i < List.length L /\ a = st (m + Z.of_nat i) /\ b = st (m + Z.of_nat (S i))).
Lemma line_ok L m : good_labels L -> exists ts, line_labeled_with L m = Ok ts /\ g_init (f_graph ts) = [] /\ wf edge_config (f_graph ts) /\ is_line m L (f_graph ts).
Proof.
  intros [Gl Gf]. unfold line_labeled_with.
  assert (A : exists aps, mapr (fun v => match v with PvNone => Ok [] | _ => of_opt "TypeError" (as_set v) end) L = Ok aps).
  { clear Gf. induction L as [|v L IH]; cbn [mapr]; [eauto|]. destruct IH as [aps ->]; [intros x J; apply Gl; right; exact J|].
    specialize (Gl v (or_introl eq_refl)). destruct v as [| | |o [| | |]]; cbn [as_set of_opt bind]; try (eexists; reflexivity); destruct Gl. }
  destruct A as [aps ->]. cbn [bind]. fold (line_ts m (List.length L)).
  set (ps := combine (range m (List.length L)) L). set (ap := OInt 1 :: List.concat aps).
  assert (Ne : L <> []) by (destruct L; [destruct Gf|discriminate]).
  assert (Lb : labelling (range m (List.length L)) (Some L) ps) by (split; [exact Ne|]; right; split; [reflexivity|clear - Gf; destruct L; [exact I|exact Gf]]).
  destruct (tuple2fts_spec (range m (List.length L)) [] ap (Some L) (line_ts m (List.length L)) (Some "s") ps Lb) as [A B]; [discriminate|].
  assert (NmS : forall n, In n (map (prepend1 (Some "s")) (range m (List.length L))) <-> exists i, i < List.length L /\ n = st (m + Z.of_nat i)).
  { intro n. rewrite in_map_iff. split.
    - intros [o [<- J]]. apply range_In in J. destruct J as [i [I ->]]. exists i. auto.
    - intros [i [I ->]]. exists (OInt (m + Z.of_nat i)). split; [reflexivity|]. apply range_In. eauto. }
  assert (Ps : forall s v, In (s, v) ps -> exists i, s = OInt (m + Z.of_nat i) /\ nth_error L i = Some v).
  { intros s v J. pose proof (in_combine_l _ _ _ _ J) as Js. apply range_In in Js. destruct Js as [i [_ ->]]. apply in_combine_range in J. destruct J as [j [E N]]. exists j. rewrite E. auto. }
  destruct B as [ts H].
  { split; [intros s []|]. split; [|split].
    - intros s v J. apply Ps in J. destruct J as [i [-> N]]. apply NmS. exists i. split; [apply nth_error_Some; congruence|reflexivity].
    - rewrite line_ts_eq. intros u v a J. apply in_map_iff in J. destruct J as [i [Q J]]. injection Q as <- <- <-. apply in_seq in J. split; [reflexivity|]. split; apply NmS.
      + exists i. split; [lia|reflexivity].
      + exists (S i). split; [lia|]. unfold prepend1, str_obj, st. do 3 f_equal. lia.
    - rewrite line_ts_eq, map_map. cbn [fst snd]. apply FinFun.Injective_map_NoDup; [|apply seq_NoDup]. intros i j Eq.
      assert (Q : st (m + Z.of_nat i) = st (m + Z.of_nat j)) by (unfold st; exact (f_equal fst Eq)). apply st_inj in Q. lia. }
  exists ts. split; [exact H|]. destruct (A ts H) as [_ [[_ [_ [R1 [R2 [R3 R4]]]]] W]]. split; [|split; [exact W|split; [|split]]].
  - destruct (g_init (f_graph ts)) as [|n l]; [reflexivity|]. destruct (proj1 (R2 n) (or_introl eq_refl)) as [s [[] _]].
  - intro n. rewrite R1, <- NmS, in_map_iff. split; intros [s [E J]]; exists s; auto.
  - intros i v w N. rewrite R4. assert (As : assigned (prepend1 (Some "s")) ps (st (m + Z.of_nat i)) v).
    { assert (J : In (OInt (m + Z.of_nat i), v) ps) by (apply in_combine_range; eauto). pose proof J as J0. apply in_split in J. destruct J as [l1 [l2 E]].
      exists l1, (OInt (m + Z.of_nat i)), l2. split; [exact E|]. split; [reflexivity|]. intros s' v' J' Eq.
      destruct (Ps s' v') as [j [-> _]]; [rewrite E; apply in_or_app; right; right; exact J'|].
      assert (Q : (m + Z.of_nat j)%Z = (m + Z.of_nat i)%Z) by (apply st_inj; exact Eq).
      assert (ND : NoDup (map fst ps)).
      { unfold ps. clear. assert (ND : NoDup (range m (List.length L))) by (unfold range; apply FinFun.Injective_map_NoDup; [|apply seq_NoDup]; intros x y Q; injection Q as Q; lia).
        revert ND. generalize (range m (List.length L)) as l. intros l ND.
        revert L. induction l as [|x l IH]; intros [|y L]; cbn; try constructor. { inversion ND as [|? ? NI ND']; subst. intro J. apply NI. apply in_map_iff in J. destruct J as [[a b] [<- J]]. eapply in_combine_l; eauto. } inversion ND; auto. }
      rewrite E, map_app in ND. cbn [map fst] in ND. apply NoDup_remove_2 in ND. apply ND, in_or_app. right. rewrite <- Q. apply (in_map fst) in J'. exact J'. }
    split.
    + intros [_ [[v' [As' ->]]|[Na _]]]; [rewrite (assigned_unique _ _ _ _ _ As' As); reflexivity|].
      exfalso. destruct As as [l1 [s [l2 [E [Es _]]]]]. apply (Na s v); [rewrite E; apply in_or_app; right; left; reflexivity|exact Es].
    + intros ->. split; [apply NmS; exists i; split; [apply nth_error_Some; congruence|reflexivity]|]. left. exists v. auto.
  - intros a e b. rewrite R3, line_ts_eq. split.
    + intros [-> [u [v [J [-> ->]]]]]. split; [reflexivity|]. apply in_map_iff in J. destruct J as [i [Q J]]. injection Q as <- <-. apply in_seq in J. exists i. split; [lia|]. split; [reflexivity|].
      unfold prepend1, str_obj, st. do 3 f_equal. lia.
    + intros [-> [i [I [-> ->]]]]. split; [reflexivity|]. exists (OInt (m + Z.of_nat i)), (OInt (m + 1 + Z.of_nat i)). split; [|split; [reflexivity|]].
      * apply in_map_iff. exists i. split; [reflexivity|]. apply in_seq. lia.
      * unfold prepend1, str_obj, st. do 3 f_equal. lia.
Qed.
Lemma skipn_nth {A} (l : list A) k x : nth_error l k = Some x -> skipn k l = x :: skipn (S k) l.
Proof. revert l. induction k as [|k IH]; intros [|y l] H; try discriminate; cbn in *; [congruence|]. rewrite (IH l H). reflexivity. Qed.

Theorem line_words L m : good_labels L -> exists ts, line_labeled_with L m = Ok ts /\
  g_init (f_graph ts) = [] /\
  (forall n, In n (node_list (f_graph ts)) <-> exists i, i < List.length L /\ n = st (m + Z.of_nat i)) /\
  (forall w, reads (f_graph ts) (st m) w <-> w = map meant L).
Proof.
  intro G. destruct (line_ok L m G) as [ts [H [I0 [_ [Hn [Hl Ht]]]]]]. exists ts. do 3 (split; [assumption|]). set (g := f_graph ts) in *.
  assert (K : forall d k, k + S d = List.length L -> forall w, reads g (st (m + Z.of_nat k)) w <-> w = map meant (skipn k L)).
  { induction d as [|d IH]; intros k Ek w.
    - destruct (nth_error L k) as [v|] eqn:N; [|apply nth_error_None in N; lia]. rewrite (skipn_nth L k v N), (skipn_all2 L (n := S k)) by lia. cbn [map].
      assert (Dead : forall e b, ~ trans g (st (m + Z.of_nat k)) e b).
      { intros e b T. apply Ht in T. destruct T as [_ [i [Ii [E _]]]]. apply st_inj in E. lia. }
      split.
      + intro R. inversion R as [n x Nx _|n x e b w' Nx T _]; subst; [|exfalso; eapply Dead; eauto]. apply (Hl k v _ N) in Nx. congruence.
      + intros ->. apply reads_end; [|exact Dead]. apply (Hl k v _ N). reflexivity.
    - destruct (nth_error L k) as [v|] eqn:N; [|apply nth_error_None in N; lia]. rewrite (skipn_nth L k v N). cbn [map].
      assert (T0 : trans g (st (m + Z.of_nat k)) [] (st (m + Z.of_nat (S k)))) by (apply Ht; split; [reflexivity|]; exists k; repeat split; auto; lia).
      split.
      + intro R. inversion R as [n x Nx Dd|n x e b w' Nx T R']; subst; [exfalso; eapply Dd; eauto|]. apply (Hl k v _ N) in Nx. subst x. f_equal.
        apply Ht in T. destruct T as [_ [i [Ii [E ->]]]]. apply st_inj in E. assert (i = k) by lia. subst i. apply IH in R'; [exact R'|lia].
      + intros ->. eapply reads_next; [apply (Hl k v _ N); reflexivity|exact T0|]. apply IH; [lia|reflexivity]. }
  assert (Ln : 0 < List.length L) by (destruct G as [_ G]; destruct L; [destruct G|cbn; lia]).
  intro w. specialize (K (List.length L - 1) O ltac:(lia) w). rewrite Z.add_0_r in K. exact K.
Qed.

Theorem cycle_words L : good_labels L -> exists ts, cycle_labeled_with L = Ok ts /\ g_init (f_graph ts) = [] /\
  let g := f_graph ts in let n := List.length L in
  (forall x, In x (node_list g) <-> exists i, i < n /\ x = st (Z.of_nat i)) /\
  (forall x, In x (node_list g) -> exists e y, trans g x e y) /\
  (forall f : nat -> obj, f O = st 0 -> (forall k, exists e, trans g (f k) e (f (S k))) ->
     forall k v, named (f k) v g <-> exists x, nth_error L (k mod n) = Some x /\ v = meant x).
Proof.
  intro G. destruct (line_ok L 0 G) as [ts [H [I0 [W [Hn [Hl Ht]]]]]]. unfold cycle_labeled_with. rewrite H. cbn [bind].
  assert (Ln : 0 < List.length L) by (destruct G as [_ G]; destruct L; [destruct G|cbn; lia]).
  change (OStr ("s" ++ str_Z (Z.of_nat (List.length L) - 1))) with (st (Z.of_nat (List.length L) - 1)).
  change (OStr "s0") with (st 0).
  set (g0 := f_graph ts) in *.
  change (add_edge neqb veqb (fts_config (f_ap ts))) with (add_edge neqb veqb edge_config).
  assert (Hn' : forall i, i < List.length L -> In (st (Z.of_nat i)) (node_list g0)) by (intros i Hi; apply Hn; exists i; split; [exact Hi|rewrite Z.add_0_l; reflexivity]).
  assert (E1 : (Z.of_nat (List.length L) - 1)%Z = Z.of_nat (List.length L - 1)) by lia. rewrite E1.
  destruct (add_edge_total neqb veqb obj_eqb_eq edge_config eq_refl (st (Z.of_nat (List.length L - 1))) (st 0) [] true g0) as [g1 H1].
  { apply Hn'. lia. } { apply (Hn' O Ln). } { constructor. } { left. intros k []. }
  { intro T. apply Ht in T. destruct T as [_ [i [Hi [E _]]]]. rewrite Z.add_0_l in E. apply st_inj in E. lia. }
  rewrite H1. cbn [bind]. eexists. split; [reflexivity|]. cbn [f_graph].
  destruct (add_edge_trans neqb veqb obj_eqb_eq pv_eqb_eq edge_config eq_refl _ _ [] _ _ _ W (NoDup_nil _) H1) as [F1 [F2 [_ [_ [_ [_ T1]]]]]].
  assert (NL : node_list g1 = node_list g0) by (unfold node_list; rewrite F1; reflexivity).
  assert (Step : forall i, i < List.length L -> forall e y, trans g1 (st (Z.of_nat i)) e y <-> e = [] /\ y = st (Z.of_nat (S i mod List.length L))).
  { intros i Hi e y. rewrite T1, Ht. destruct (Nat.eq_dec (S i) (List.length L)) as [El|Nl].
    - rewrite El, Nat.mod_same by lia. split.
      + intros [[_ [j [Hj [E _]]]]|[_ [-> S]]]; [rewrite Z.add_0_l in E; apply st_inj in E; lia|]. split; [apply items_nil, same_items_sym, S|reflexivity].
      + intros [-> ->]. right. split; [f_equal; lia|]. split; [reflexivity|apply same_items_refl].
    - rewrite Nat.mod_small by lia. split.
      + intros [[-> [j [Hj [E ->]]]]|[E [_ _]]]; [rewrite Z.add_0_l in *; apply st_inj in E; assert (j = i) by lia; subst j; auto|]. apply st_inj in E. lia.
      + intros [-> ->]. left. split; [reflexivity|]. exists i. rewrite !Z.add_0_l. repeat split. lia. }
  split; [rewrite F2; exact I0|]. cbv zeta. split; [|split].
  - intro x. rewrite NL, Hn. split; intros [i [Hi ->]]; exists i; rewrite Z.add_0_l; auto.
  - intros x J. rewrite NL in J. apply Hn in J. destruct J as [i [Hi ->]]. rewrite Z.add_0_l. exists [], (st (Z.of_nat (S i mod List.length L))). apply (Step i Hi). auto.
  - intros f F0 Fs. assert (Fk : forall k, f k = st (Z.of_nat (k mod List.length L))).
    { induction k as [|k IH]; [rewrite F0, Nat.mod_0_l by lia; reflexivity|]. destruct (Fs k) as [e T]. rewrite IH in T.
      apply Step in T; [|apply Nat.mod_upper_bound; lia]. destruct T as [_ T]. rewrite T. do 2 f_equal.
      rewrite <- (Nat.add_1_r (k mod _)), Nat.add_mod_idemp_l, Nat.add_1_r by lia. reflexivity. }
    intros k v. rewrite Fk. assert (B : k mod List.length L < List.length L) by (apply Nat.mod_upper_bound; lia).
    destruct (nth_error L (k mod List.length L)) as [x|] eqn:N; [|apply nth_error_None in N; lia].
    assert (Q : named (st (Z.of_nat (k mod List.length L))) v g1 <-> v = meant x).
    { rewrite <- (Hl _ x v N), Z.add_0_l. unfold named. rewrite F1. reflexivity. }
    rewrite Q. split; [intros ->; eauto|]. intros [y [[= <-] ->]]. reflexivity.
Qed.
Print Assumptions line_words.
Print Assumptions cycle_words.
Example line_ex : good_labels [PvSet ["p"]; PvStr "q"; PvNone; PvSet ["p"; "q"]].
Proof. split; [|cbn; discriminate]. intros v [<-|[<-|[<-|[<-|[]]]]]; exact I. Qed.
(** A first label with two propositions is taken for a pair of a state and a label. *)
Theorem line_two_propositions_refuted :
  line_labeled_with [PvSet ["p"; "q"]; PvSet ["p"]] 0 = Err "KeyError" /\
  cycle_labeled_with [PvSet ["p"; "q"]; PvSet ["p"]] = Err "KeyError" /\
  (exists r, line_labeled_with [PvSet ["p"]; PvSet ["p"; "q"]] 0 = Ok r) /\
  (exists r, line_labeled_with [PvSet ["0"; "q"]] 0 = Ok r /\ named (OStr "s0") (PvStr "q") (f_graph r)).
Proof.
  split; [vm_compute; reflexivity|]. split; [vm_compute; reflexivity|]. split; [eexists; vm_compute; reflexivity|].
  eexists. split; [vm_compute; reflexivity|]. eexists. split; [left; reflexivity|reflexivity].
Qed.
Theorem line_empty_refuted m : line_labeled_with [] m = Err "IndexError".
Proof. reflexivity. Qed.

(** [add_initial_states] never adds an initial state. *)
Theorem add_initial_states_refuted ts labels r : add_initial_states ts labels = Ok r -> r = ts.
Proof.
  unfold add_initial_states. intro H. apply bind_Ok in H. destruct H as [g [H K]]. injection K as <-.
  assert (Q : g = f_graph ts); [|destruct ts; cbn in *; congruence].
  match type of H with fold_res ?f _ _ = _ => apply (fold_res_inv f (fun _ g => g = f_graph ts) labels (f_graph ts) g); [reflexivity| |exact H] end.
  intros l1 x l2 ga gb _ -> F. apply bind_Ok in F. destruct F as [found [_ F]]. destruct found; [congruence|discriminate].
Qed.
Theorem add_initial_states_ex_refuted : exists ts, line_labeled_with [PvSet ["home"]] 0 = Ok ts /\
  named (OStr "s0") (PvSet ["home"]) (f_graph ts) /\ add_initial_states ts [PvSet ["home"]] = Ok ts /\ g_init (f_graph ts) = [].
Proof. eexists. split; [vm_compute; reflexivity|]. split; [eexists; split; [left; reflexivity|reflexivity]|]. split; vm_compute; reflexivity. Qed.

(** ** tuple2ba *)
(** A letter is a set of declared propositions, or [None] for the empty set. *)
Definition letter (AP : list obj) (v : pv) : Prop :=
  match v with PvNone => True | PvSet l => forall x, In x l -> In (OStr x) AP | _ => False end.
Definition ba_args (p : option string) (S S0 Sa AP : list obj) (ts : list (obj * obj * pv)) : Prop :=
  let nm := prepend1 p in
  (forall s, In s S0 \/ In s Sa -> In (nm s) (map nm S)) /\
  (forall u v a, In (u, v, a) ts -> letter AP a /\ In (nm u) (map nm S) /\ In (nm v) (map nm S)).
Definition ba_result (p : option string) (S S0 Sa AP : list obj) (ts : list (obj * obj * pv)) (r : ba) : Prop :=
  let nm := prepend1 p in let g := b_graph r in
  b_ap r = AP /\ NoDup (node_list g) /\
  (forall n, In n (node_list g) <-> exists s, In s S /\ n = nm s) /\
  (forall n, In n (g_init g) <-> exists s, In s S0 /\ n = nm s) /\
  (forall n, In n (b_acc r) <-> exists s, In s Sa /\ n = nm s) /\
  (forall a e b, trans g a e b <-> exists u v x, In (u, v, x) ts /\ a = nm u /\ b = nm v /\ same_items [("letter", meant x)] e).

Lemma in_powerset_letter AP a : match a with PvPair _ _ => False | _ => True end ->
  (in_powerset AP (meant a) = true <-> letter AP a).
Proof.
  intro Np. destruct a as [|s|l|]; cbn [meant in_powerset as_set letter]; try tauto; [split; [discriminate|intros []]|].
  rewrite forallb_forall. split.
  - intros H x J. apply (in_map OStr) in J. apply H in J. apply existsb_exists in J. destruct J as [y [J E]]. apply obj_eqb_eq in E. subst y. exact J.
  - intros H o J. apply in_map_iff in J. destruct J as [x [<- J]]. apply existsb_exists. exists (OStr x). split; [apply H, J|apply obj_eqb_eq; reflexivity].
Qed.
Theorem tuple2ba_spec S S0 Sa AP ts p : (forall u v a, In (u, v, a) ts -> match a with PvPair _ _ => False | _ => True end) ->
  (forall r, tuple2ba S S0 Sa AP ts p true = Ok r -> ba_args p S S0 Sa AP ts /\ ba_result p S S0 Sa AP ts r) /\
  (ba_args p S S0 Sa AP ts -> exists r, tuple2ba S S0 Sa AP ts p true = Ok r).
Proof.
  intro Np. unfold tuple2ba. set (c := ba_config AP). cbn [negb].
  destruct (add_nodes_plain neqb obj_eqb_eq c eq_refl (prepend_with S p) empty_graph (wf_empty c)) as [g1 [E1 [W1 [B1 [B2 B3]]]]].
  rewrite E1. cbn [bind]. destruct (add_initials neqb veqb obj_eqb_eq c (prepend_with S0 p) g1 W1) as [AI AT].
  assert (Sn : forall n, In n (node_list g1) <-> In n (map (prepend1 p) S)) by (intro n; rewrite B3; cbn; tauto).
  set (step := fun (g2 : graph obj pv) (n : obj) (acc : list obj) => if has_node neqb n g2 then Ok (if nmem neqb n acc then acc else acc ++ [n]) else Err "ValueError").
  assert (Acc : forall g2 l, g_nodes g2 = g_nodes g1 ->
     (forall acc, fold_res (step g2) l [] = Ok acc -> (forall n, In n l -> In n (node_list g1)) /\ forall n, In n acc <-> In n l) /\
     ((forall n, In n l -> In n (node_list g1)) -> exists acc, fold_res (step g2) l [] = Ok acc)).
  { intros g2 l Eg. assert (NL : node_list g2 = node_list g1) by (unfold node_list; rewrite Eg; reflexivity). split.
    - intros acc H. apply (fold_res_inv (step g2) (fun l1 acc => (forall n, In n l1 -> In n (node_list g1)) /\ forall n, In n acc <-> In n l1) l [] acc); [| |exact H].
      + split; [intros n []|]. intro n. tauto.
      + intros l1 n l2 a1 a2 _ [Q1 Q2] F. unfold step in F. destruct (has_node neqb n g2) eqn:Hn; [|discriminate]. apply (has_node_In neqb obj_eqb_eq) in Hn. rewrite NL in Hn.
        split; [intros x J; apply in_app_iff in J; destruct J as [J|[<-|[]]]; auto|]. intro x. injection F as <-. rewrite in_app_iff. destruct (nmem neqb n a1) eqn:M.
        * apply (nmem_In neqb obj_eqb_eq) in M. rewrite Q2. split; [auto|]. intros [J|[<-|[]]]; [exact J|]. apply Q2, M.
        * rewrite in_app_iff, Q2. reflexivity.
    - intro Q. destruct (fold_res_total (step g2) (fun _ _ => True) l []) as [acc [H _]]; [exact I| |eauto].
      intros l1 n l2 a1 -> _. unfold step. rewrite (proj2 (has_node_In neqb obj_eqb_eq n g2)); [eauto|]. rewrite NL. apply Q, in_or_app. right. left. reflexivity. }
  set (lt := fun t : obj * obj * pv => (prepend1 p (fst (fst t)), [("letter", meant (snd t))], prepend1 p (snd (fst t))) : ltrans).
  assert (Ef : forall g, fold_res (fun t g => match t with (u, v, a) => add_edge neqb veqb c (prepend1 p u) (prepend1 p v) None [("letter", label_or_empty a)] true g end) ts g =
                         fold_res (add_trans neqb veqb c true) (map lt ts) g).
  { clear. induction ts as [|[[u v] a] l IH]; intro g; cbn [fold_res map]; [reflexivity|]. unfold add_trans at 1. cbn [lt fst snd]. change (label_or_empty a) with (meant a).
    destruct (add_edge _ _ _ _ _ _ _ _ g); cbn [bind]; auto. }
  assert (NDl : forall x, In x (map lt ts) -> NoDup (map fst (snd (fst x)))) by (intros x J; apply in_map_iff in J; destruct J as [t [<- _]]; repeat constructor; intros []).
  assert (Gd : forall a, good (c_edge_types c) [("letter", meant a)] <-> in_powerset AP (meant a) = true).
  { intro a. split; [intro H; exact (Forall_inv H)|intro H; constructor; [exact H|constructor]]. }
  split.
  - intros r H. apply bind_Ok in H. destruct H as [g2 [H2 H]]. apply bind_Ok in H. destruct H as [acc [H3 H]]. apply bind_Ok in H. destruct H as [g3 [H4 H]]. injection H as <-.
    destruct (AI g2 H2) as [C1 [W2 [C2 [C3 C4]]]]. destruct (Acc g2 (prepend_with Sa p) C2) as [A1 _]. destruct (A1 acc H3) as [D1 D2].
    rewrite Ef in H4. destruct (add_edges_trans neqb veqb obj_eqb_eq pv_eqb_eq c eq_refl true (map lt ts) g2 g3 W2 NDl H4) as [F1 [F2 [W3 [F3 F4]]]].
    assert (NL2 : node_list g2 = node_list g1) by (unfold node_list; rewrite C2; reflexivity).
    assert (NL3 : node_list g3 = node_list g1) by (unfold node_list; rewrite F1, C2; reflexivity). split.
    + split.
      * intros s [J|J]; apply Sn; [apply C1|apply D1]; apply in_map, J.
      * intros u v a J. destruct (F3 (lt (u, v, a)) (in_map _ _ _ J)) as [G1 [G2 G3]]. cbn [lt fst snd] in G1, G2, G3. rewrite NL2 in G1, G2.
        split; [apply in_powerset_letter; [eapply Np; eauto|]; apply Gd; exact G3|]. split; apply Sn; assumption.
    + unfold ba_result. cbn [b_graph b_ap b_acc]. split; [reflexivity|]. split; [rewrite NL3; exact (wf_nodes _ _ W1)|]. split; [|split; [|split]].
      * intro n. rewrite NL3, Sn, in_map_iff. split; intros [s [E J]]; exists s; auto.
      * intro n. rewrite F2, C4, B2. unfold prepend_with. rewrite in_map_iff. cbn. split; [intros [[]|[s [E J]]]; exists s; auto|intros [s [J E]]; right; exists s; auto].
      * intro n. rewrite D2. unfold prepend_with. rewrite in_map_iff. split; intros [s [E J]]; exists s; auto.
      * intros a e b. rewrite F4. split.
        -- intros [[x [J _]]|[d [J Sm]]]; [rewrite C3, B1 in J; destruct J|]. apply in_map_iff in J. destruct J as [[[u v] x] [Q J]]. injection Q as <- <- <-. exists u, v, x. auto.
        -- intros [u [v [x [J [-> [-> Sm]]]]]]. right. exists [("letter", meant x)]. split; [|exact Sm]. apply (in_map lt) in J. exact J.
  - intros [Q1 Q2]. destruct AT as [g2 H2]; [intros n J; apply in_map_iff in J; destruct J as [s [<- J]]; apply Sn, Q1; auto|]. rewrite H2. cbn [bind].
    destruct (AI g2 H2) as [_ [W2 [C2 [C3 C4]]]]. destruct (Acc g2 (prepend_with Sa p) C2) as [_ A2].
    destruct A2 as [acc H3]; [intros n J; apply in_map_iff in J; destruct J as [s [<- J]]; apply Sn, Q1; auto|]. unfold step in H3. rewrite H3. cbn [bind]. rewrite Ef.
    assert (NL2 : node_list g2 = node_list g1) by (unfold node_list; rewrite C2; reflexivity).
    destruct (add_edges_total neqb veqb obj_eqb_eq pv_eqb_eq c eq_refl true (map lt ts) g2 W2 NDl) as [g3 H4].
    + intros a d b J. apply in_map_iff in J. destruct J as [[[u v] x] [Q J]]. injection Q as <- <- <-. cbn [fst snd]. destruct (Q2 u v x J) as [G1 [G2 G3]]. rewrite NL2.
      split; [apply Sn, G2|]. split; [apply Sn, G3|]. split; [apply Gd, in_powerset_letter; [eapply Np; eauto|exact G1]|]. split; [left; intros k [<-|[]]; left; reflexivity|].
      intros [y [Jy _]]. rewrite C3, B1 in Jy. destruct Jy.
    + intros l1 a b l2 d E _. assert (J : In (a, [], b) (map lt ts)) by (rewrite E; apply in_or_app; right; left; reflexivity).
      apply in_map_iff in J. destruct J as [t [Q _]]. discriminate Q.
    + rewrite H4. cbn [bind]. eauto.
Qed.
Print Assumptions tuple2ba_spec.
Example tuple2ba_ex : exists r, tuple2ba [OInt 0; OInt 1] [OInt 0] [OInt 1] [OStr "p"; OStr "q"]
    [(OInt 0, OInt 1, PvSet ["p"]); (OInt 0, OInt 1, PvSet ["p"; "q"]); (OInt 1, OInt 1, PvNone); (OInt 1, OInt 1, PvSet ["q"])] (Some "q") true = Ok r /\
  List.length (g_edges (b_graph r)) = 4 /\ b_acc r = [OStr "q1"].
Proof. eexists. split; [vm_compute; reflexivity|]. split; reflexivity. Qed.
(** An automaton over a plain alphabet cannot be built. *)
Theorem tuple2ba_alphabet_refuted S S0 Sa Sigma ts p r : tuple2ba S S0 Sa Sigma ts p false <> Ok r.
Proof.
  unfold tuple2ba. intro H. apply bind_Ok in H. destruct H as [g1 [_ H]]. apply bind_Ok in H. destruct H as [g2 [_ H]].
  apply bind_Ok in H. destruct H as [acc [_ H]]. discriminate.
Qed.
Print Assumptions prefix_injective.
Print Assumptions prefix_injective_refuted.
Print Assumptions tuple2fts_actions_refuted.
Print Assumptions tuple2fts_no_prefix_refuted.
Print Assumptions tuple2fts_label_refuted.
Print Assumptions line_two_propositions_refuted.
Print Assumptions line_empty_refuted.
Print Assumptions add_initial_states_refuted.
Print Assumptions add_initial_states_ex_refuted.
Print Assumptions tuple2ba_alphabet_refuted.
