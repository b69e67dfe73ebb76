(** C22: strategy2mealy. *)
From Coq Require Import List String Bool Arith ZArith Lia.
From Verif Require Import M_Base M_Spec M_Dict L_Dict M_Graph L_Graph M_Machine S_Run L_Build L_Machine T_Convert M_Strategy S_Strategy.
Import ListNotations.
Open Scope string_scope.
Open Scope list_scope.

Lemma mval_eqb_eq a b : mval_eqb a b = true <-> a = b.
Proof.
  destruct a as [x|x], b as [y|y]; cbn [mval_eqb].
  - rewrite Z.eqb_eq. split; congruence.
  - split; discriminate.
  - split; discriminate.
  - rewrite String.eqb_eq. split; congruence.
Qed.
Lemma of_opt_Ok {A} e (o : option A) x : of_opt e o = Ok x <-> o = Some x.
Proof. destruct o; cbn; split; congruence. Qed.
Lemma py_index_nonneg {A} (l : list A) i x : (0 <= i)%Z -> (py_index l i = Ok x <-> nth_error l (Z.to_nat i) = Some x).
Proof.
  intro P. unfold py_index. rewrite (proj2 (Z.leb_le 0 i) P). cbn [andb]. destruct (Z.ltb_spec i (Z.of_nat (List.length l))) as [L|L].
  - apply of_opt_Ok.
  - rewrite (proj2 (Z.ltb_ge i 0) P). cbn [andb]. split; [discriminate|]. intro H.
    assert (K : nth_error l (Z.to_nat i) <> None) by congruence. apply nth_error_Some in K. lia.
Qed.
(** A fold whose step first computes something from the item alone. *)
Lemma fold_res_pre {A B C} (h : A -> res C) (f : C -> B -> res B) l b b' :
  fold_res (fun x b => do y <- h x; f y b) l b = Ok b' <-> exists ys, mapr h l = Ok ys /\ fold_res f ys b = Ok b'.
Proof.
  revert b. induction l as [|x l IH]; intro b; cbn [fold_res mapr].
  - split; [intro H; exists []; auto|]. intros [ys [[= <-] H]]. exact H.
  - rewrite bind_Ok. split.
    + intros [b1 [H K]]. apply bind_Ok in H. destruct H as [y [Hy H]]. apply IH in K. destruct K as [ys [Ky K]].
      exists (y :: ys). rewrite Hy. cbn [bind]. rewrite Ky. cbn [bind fold_res]. rewrite H. auto.
    + intros [ys [H K]]. apply bind_Ok in H. destruct H as [y [Hy H]]. apply bind_Ok in H. destruct H as [ys' [Hys H]]. injection H as <-.
      cbn [fold_res] in K. apply bind_Ok in K. destruct K as [b1 [K1 K2]]. exists b1. rewrite Hy. cbn [bind]. split; [exact K1|]. apply IH. eauto.
Qed.

(** Names that must not be used for variables. *)
Definition reserved : list string := "key" :: "check" :: param_names.

Section Strategy.
  Context {N : Type} (neqb : N -> N -> bool).
  Hypothesis neqb_eq : forall a b, neqb a b = true <-> a = b.
  Context (isinit : attrs Z -> res bool) (sinit : N) (env sys : vardecl) (A : @strategy N).
  (** Variables: declared once, and not named like a parameter. *)
  Hypothesis NDe : NoDup (map fst env).
  Hypothesis NDs : NoDup (map fst sys).
  Hypothesis Dj : forall k, In k (map fst env) -> ~ In k (map fst sys).
  Hypothesis Res : forall k, In k (map fst env) \/ In k (map fst sys) -> ~ In k reserved.
  (** A graph: nodes are listed once, as are edges, which have their ends among the nodes. *)
  Hypothesis NDn : NoDup (map fst (st_nodes A)).
  Hypothesis NDg : NoDup (st_edges A).
  Hypothesis Ends : forall u v, In (u, v) (st_edges A) -> In u (map fst (st_nodes A)) /\ In v (map fst (st_nodes A)).
  (** Node labels: dictionaries with the same names, and no negative indices. *)
  Hypothesis NDd : forall u d, In (u, d) (st_nodes A) -> NoDup (map fst d).
  Hypothesis Same : forall u d u' d' k, In (u, d) (st_nodes A) -> In (u', d') (st_nodes A) -> In k (map fst d) -> In k (map fst d').
  Hypothesis Nneg : forall u d k z l, In (u, d) (st_nodes A) -> lookup k d = Some z ->
    lookup k env = Some (DEnum l) \/ lookup k sys = Some (DEnum l) -> (0 <= z)%Z.
  Let all := update env sys.
  Let c := mealy_config mval_eqb (Machine [] (create_machine_ports env) (create_machine_ports sys) empty_graph : machine N mval).

  Lemma all_lookup k : lookup k all = match lookup k sys with Some d => Some d | None => lookup k env end.
  Proof. unfold all. rewrite lookup_update, lookup_rev by exact NDs. reflexivity. Qed.
  Lemma all_nodup : NoDup (map fst all).
  Proof. apply nodup_update, NDe. Qed.
  Lemma all_names k : In k (map fst all) <-> In k (map fst env) \/ In k (map fst sys).
  Proof.
    split.
    - intro I. apply lookup_name in I. destruct I as [d L]. rewrite all_lookup in L. destruct (lookup k sys) eqn:E.
      + right. apply lookup_name. eauto.
      + left. apply lookup_name. eauto.
    - intro I. apply lookup_name. rewrite all_lookup. destruct (lookup k sys) eqn:E; [eauto|].
      destruct I as [I|I]; apply lookup_name in I; destruct I as [d L]; [eauto|congruence].
  Qed.
  Lemma str_vars_lookup k : forall vs : vardecl, NoDup (map fst vs) ->
    lookup k (str_vars vs) = match lookup k vs with Some (DEnum l) => Some l | _ => None end.
  Proof.
    induction vs as [|[n d] r IH]; intro ND; [reflexivity|]. cbn [map fst] in ND. inversion ND as [|? ? NI ND']; subst. specialize (IH ND').
    assert (E : str_vars ((n, d) :: r) = match d with DEnum l => [(n, l)] | _ => [] end ++ str_vars r) by reflexivity.
    rewrite E. cbn [lookup]. destruct (k =? n)%string eqn:Q.
    - apply String.eqb_eq in Q. subst n. apply lookup_None in NI. rewrite NI in IH.
      destruct d as [|lo hi|l]; cbn [app lookup]; try exact IH. rewrite String.eqb_refl. reflexivity.
    - destruct d as [|lo hi|l]; cbn [app lookup]; try exact IH. rewrite Q. exact IH.
  Qed.

  (** What the label of a node shows. *)
  Lemma int2str_lookup sv : forall d lab, int2str d sv = Ok lab -> forall k v, lookup k lab = Some v <->
    exists z, lookup k d = Some z /\ match lookup k sv with Some l => exists s, py_index l z = Ok s /\ v = VStr s | None => v = VInt z end.
  Proof.
    induction d as [|[n z] r IH]; intros lab H k v.
    - injection H as <-. cbn. split; [discriminate|intros [z [E _]]; discriminate].
    - unfold int2str in H. cbn [mapr fst snd] in H. apply bind_Ok in H. destruct H as [[n' v'] [H1 H]]. apply bind_Ok in H. destruct H as [lab' [H2 H]].
      injection H as <-. fold (int2str r sv) in H2. specialize (IH _ H2). cbn [lookup].
      assert (E : n' = n /\ match lookup n sv with Some l => exists s, py_index l z = Ok s /\ v' = VStr s | None => v' = VInt z end).
      { destruct (lookup n sv) as [l|]; [|injection H1 as <- <-; auto]. apply bind_Ok in H1. destruct H1 as [s [P Q]]. injection Q as <- <-. eauto. }
      destruct E as [-> E]. destruct (k =? n)%string eqn:Q; [|apply IH]. apply String.eqb_eq in Q. subst n. split.
      + intros [= <-]. eauto.
      + intros [z' [[= <-] K]]. destruct (lookup k sv) as [l|]; [|congruence]. destruct E as [s [P ->]], K as [s' [P' ->]]. congruence.
  Qed.
  Lemma int2str_keys sv d lab : int2str d sv = Ok lab -> map fst lab = map fst d.
  Proof.
    unfold int2str. intro H. apply (proj1 (mapr_Forall2 _ _ _)) in H. induction H as [|[n z] [n' v] r lab' E _ IH]; [reflexivity|].
    cbn [map fst]. rewrite IH. f_equal. cbn [fst snd] in E. destruct (lookup n sv); [|congruence]. apply bind_Ok in E. destruct E as [s [_ E]]. congruence.
  Qed.
  Lemma label_nodup u d lab : In (u, d) (st_nodes A) -> label all d = Ok lab -> NoDup (map fst lab).
  Proof. intros I H. rewrite (int2str_keys _ _ _ H). apply nodup_filter, (NDd u d I). Qed.
  Lemma label_names d lab k : label all d = Ok lab -> In k (map fst lab) -> In k (map fst env) \/ In k (map fst sys).
  Proof.
    intros H I. rewrite (int2str_keys _ _ _ H) in I. apply in_map_iff in I. destruct I as [[k' z] [<- I]]. apply filter_In in I. cbn [fst] in I.
    apply all_names, mem_In. exact (proj2 I).
  Qed.
  Lemma label_lookup u d lab k v : In (u, d) (st_nodes A) -> label all d = Ok lab ->
    (lookup k lab = Some v <-> exists dm z, lookup k all = Some dm /\ lookup k d = Some z /\ stands dm z v).
  Proof.
    intros I H. rewrite (int2str_lookup _ _ _ H). rewrite (str_vars_lookup k all all_nodup).
    rewrite (lookup_filter_key (fun k => mem k (names all)) d k). split.
    - intros [z [L K]]. destruct (mem k (names all)) eqn:M; [|discriminate]. apply mem_In in M. apply lookup_name in M. destruct M as [dm M].
      exists dm, z. split; [exact M|]. split; [exact L|]. rewrite M in K. destruct dm as [|lo hi|l]; cbn [stands]; try exact K.
      destruct K as [s [P ->]]. assert (Z0 : (0 <= z)%Z).
      { eapply Nneg; [exact I|exact L|]. rewrite all_lookup in M. destruct (lookup k sys); [right|left]; exact M. }
      apply (py_index_nonneg l z s Z0) in P. exists (Z.to_nat z), s. split; [symmetry; apply Z2Nat.id, Z0|]. auto.
    - intros [dm [z [L1 [L2 K]]]]. exists z. assert (M : mem k (names all) = true) by (apply mem_In, lookup_name; eauto).
      rewrite M. split; [exact L2|]. rewrite L1. destruct dm as [|lo hi|l]; cbn [stands] in K; try exact K.
      destruct K as [i [s [-> [P ->]]]]. exists s. split; [|reflexivity]. apply py_index_nonneg; [lia|]. rewrite Nat2Z.id. exact P.
  Qed.
  Lemma ports_names vs : map fst (create_machine_ports vs) = map fst vs.
  Proof. unfold create_machine_ports. rewrite map_map. reflexivity. Qed.
  Lemma label_shows u d lab i o : In (u, d) (st_nodes A) -> label all d = Ok lab ->
    (restricts (map fst env) lab i <-> shows env d i) /\ (restricts (map fst sys) lab o <-> shows sys d o).
  Proof.
    intros I H. unfold restricts, shows.
    assert (E : forall k v, In k (map fst env) /\ lookup k lab = Some v <-> exists dm z, lookup k env = Some dm /\ lookup k d = Some z /\ stands dm z v).
    { intros k v. rewrite (label_lookup u d lab k v I H). split.
      - intros [Ik [dm [z [L1 [L2 L3]]]]]. exists dm, z. split; [|auto]. rewrite all_lookup in L1. destruct (lookup k sys) eqn:Q; [|exact L1].
        exfalso. apply (Dj k Ik). apply lookup_name. eauto.
      - intros [dm [z [L1 [L2 L3]]]]. assert (Ik : In k (map fst env)) by (apply lookup_name; eauto). split; [exact Ik|]. exists dm, z. split; [|auto].
        rewrite all_lookup. destruct (lookup k sys) eqn:Q; [|exact L1]. exfalso. apply (Dj k Ik). apply lookup_name. eauto. }
    assert (S : forall k v, In k (map fst sys) /\ lookup k lab = Some v <-> exists dm z, lookup k sys = Some dm /\ lookup k d = Some z /\ stands dm z v).
    { intros k v. rewrite (label_lookup u d lab k v I H). split.
      - intros [Ik [dm [z [L1 [L2 L3]]]]]. exists dm, z. split; [|auto]. rewrite all_lookup in L1. apply lookup_name in Ik. destruct Ik as [dm' Ik]. rewrite Ik in *. exact L1.
      - intros [dm [z [L1 [L2 L3]]]]. split; [apply lookup_name; eauto|]. exists dm, z. split; [|auto]. rewrite all_lookup, L1. reflexivity. }
    split; split; intros R k v; specialize (R k v); [rewrite R; apply E|rewrite R; symmetry; apply E|rewrite R; apply S|rewrite R; symmetry; apply S].
  Qed.

  (** Calls with keyword arguments. *)
  Lemma trim_none (d : attrs mval) ks : (forall k, In k (map fst d) -> ~ In k ks) -> trim_dict d ks = d.
  Proof.
    unfold trim_dict. induction d as [|[k v] r IH]; intro H; [reflexivity|]. cbn [filter fst].
    assert (M : mem k ks = false). { destruct (mem k ks) eqn:M; [|reflexivity]. apply mem_In in M. destruct (H k (or_introl eq_refl) M). }
    rewrite M. cbn [negb]. f_equal. apply IH. intros k' I. apply H. right. exact I.
  Qed.
  Lemma transitions_add_eq u v d lab ch (g : graph N mval) : label all d = Ok lab ->
    transitions_add neqb c u v lab ch g = add_edge neqb mval_eqb c u v None lab (match ch with Some b => b | None => true end) g.
  Proof.
    intro H. assert (F : forall k, In k (map fst lab) -> ~ In k reserved) by (intros k I; apply Res, (label_names d lab k H I)).
    unfold transitions_add. destruct (existsb _ lab) eqn:E.
    { apply existsb_exists in E. destruct E as [[k x] [I M]]. apply mem_In in M. cbn [fst] in M. exfalso. apply (F k).
      - apply (in_map fst) in I. exact I.
      - right. right. exact M. }
    assert (Ck : mem "check" (names lab) = false). { destruct (mem "check" (names lab)) eqn:M; [|reflexivity]. apply mem_In in M. exfalso. apply (F _ M). right. left. reflexivity. }
    destruct ch as [b|].
    - rewrite Ck, trim_none; [reflexivity|]. intros k I [<-|[]]. apply (F _ I). left. reflexivity.
    - rewrite trim_none.
      + destruct (lookup "check" lab) eqn:L; [|reflexivity]. exfalso. assert (K : In "check" (map fst lab)) by (apply lookup_name; eauto). apply mem_In in K. unfold names in Ck. congruence.
      + intros k I [<-|[<-|[]]]; apply (F _ I); [left|right; left]; reflexivity.
  Qed.

  Lemma node_state_Ok u d : node_state neqb A u = Ok d <-> In (u, d) (st_nodes A).
  Proof.
    unfold node_state. split.
    - destruct (List.find _ _) as [[n d']|] eqn:F; [|discriminate]. intros [= <-]. apply find_some in F. cbn [fst] in F. destruct F as [I E]. apply neqb_eq in E. subst n. exact I.
    - intro I. destruct (List.find _ _) as [[n d']|] eqn:F.
      + apply find_some in F. cbn [fst] in F. destruct F as [I' E]. apply neqb_eq in E. subst n. cbn [snd]. f_equal. eapply unique_key; eauto.
      + pose proof (find_none _ _ F _ I) as Z. cbn [fst] in Z. rewrite (proj2 (neqb_eq u u) eq_refl) in Z. discriminate.
  Qed.
  Lemma strat_succ_In u v : In v (strat_succ neqb A u) <-> In (u, v) (st_edges A).
  Proof.
    unfold strat_succ. rewrite in_map_iff. split.
    - intros [[a b] [<- I]]. apply filter_In in I. cbn [fst] in I. destruct I as [I E]. apply neqb_eq in E. subst a. exact I.
    - intro I. exists (u, v). split; [reflexivity|]. apply filter_In. split; [exact I|]. apply neqb_eq. reflexivity.
  Qed.

  Definition edge_of (p : N * N) : res (N * attrs mval * N) :=
    do d <- node_state neqb A (snd p); do lab <- label all d; Ok (fst p, lab, snd p).
  Definition pairs : list (N * N) := flat_map (fun u => map (fun v => (u, v)) (strat_succ neqb A u)) (map fst (st_nodes A)).
  Lemma pairs_In u v : In (u, v) pairs <-> In (u, v) (st_edges A).
  Proof.
    unfold pairs. rewrite in_flat_map. split.
    - intros [u' [_ I]]. apply in_map_iff in I. destruct I as [v' [[= -> ->] I]]. apply strat_succ_In, I.
    - intro I. exists u. split; [apply (Ends u v I)|]. apply in_map_iff. exists v. split; [reflexivity|]. apply strat_succ_In, I.
  Qed.
  Lemma edges_loop g g' :
    fold_res (fun u => fold_res (fun v g => do d <- node_state neqb A v; do lab <- label all d; transitions_add neqb c u v lab (Some false) g)
       (strat_succ neqb A u)) (map fst (st_nodes A)) g = Ok g' <->
    exists ls, mapr edge_of pairs = Ok ls /\ fold_res (add_trans neqb mval_eqb c false) ls g = Ok g'.
  Proof.
    rewrite <- fold_res_pre.
    assert (E : fold_res (fun u => fold_res (fun v g => do d <- node_state neqb A v; do lab <- label all d; transitions_add neqb c u v lab (Some false) g)
       (strat_succ neqb A u)) (map fst (st_nodes A)) g = fold_res (fun x b => do y <- edge_of x; add_trans neqb mval_eqb c false y b) pairs g).
    { unfold pairs. rewrite <- fold_res_flat. apply fold_res_ext. intros u b _. rewrite fold_res_map. apply fold_res_ext. intros v b' _.
      unfold edge_of. cbn [fst snd]. destruct (node_state neqb A v) as [d|]; [|reflexivity]. cbn [bind].
      destruct (label all d) as [lab|] eqn:L; [|reflexivity]. cbn [bind]. rewrite (transitions_add_eq u v d lab (Some false) b' L). reflexivity. }
    rewrite E. reflexivity.
  Qed.
  Lemma edges_In ls u lab v : mapr edge_of pairs = Ok ls ->
    (In (u, lab, v) ls <-> In (u, v) (st_edges A) /\ exists d, In (v, d) (st_nodes A) /\ label all d = Ok lab).
  Proof.
    intro H. apply (proj1 (mapr_Forall2 _ _ _)) in H.
    assert (E : forall p y, edge_of p = Ok y <-> exists d lab, In (snd p, d) (st_nodes A) /\ label all d = Ok lab /\ y = (fst p, lab, snd p)).
    { intros p y. unfold edge_of. rewrite bind_Ok. split.
      - intros [d [D K]]. apply node_state_Ok in D. apply bind_Ok in K. destruct K as [l [L [= <-]]]. eauto.
      - intros [d [l [I [L ->]]]]. exists d. split; [apply node_state_Ok, I|]. rewrite L. reflexivity. }
    rewrite <- pairs_In. clear - H E. induction H as [|p y l ls Hp _ IH]; cbn [In].
    - split; [intros []|intros [[] _]].
    - apply E in Hp. destruct Hp as [d [l' [I [L ->]]]]. split.
      + intros [[= <- <- <-]|J]; [split; [left; destruct p; reflexivity|eauto]|]. apply IH in J. tauto.
      + intros [[->|J] [d' [I' L']]]; [|right; apply IH; eauto]. cbn [fst snd] in *. left.
        assert (E2 : edge_of (u, v) = Ok (u, l', v)) by (apply E; cbn [fst snd]; eauto).
        assert (E3 : edge_of (u, v) = Ok (u, lab, v)) by (apply E; cbn [fst snd]; eauto). congruence.
  Qed.

  (** Values compared by the initial loops. *)
  Lemma vals_Ok d x : vals (names all) d = Ok x <-> Forall2 (fun k z => lookup k d = Some z) (names all) x.
  Proof. unfold vals. rewrite mapr_Forall2. split; apply Forall2_impl; intros k z; apply of_opt_Ok. Qed.
  Lemma vals_same d d' x : vals (names all) d = Ok x -> vals (names all) d' = Ok x -> forall k, In k (map fst all) -> lookup k d = lookup k d'.
  Proof.
    intros H K. apply vals_Ok in H. apply vals_Ok in K. unfold names in *. revert K. induction H as [|k z l x E _ IH]; intro K; [intros ? []|].
    inversion K; subst. intros k' [<-|I]; [congruence|auto].
  Qed.
  Lemma vals_eq d d' x x' : vals (names all) d = Ok x -> vals (names all) d' = Ok x' -> (forall k, In k (map fst all) -> lookup k d = lookup k d') -> x = x'.
  Proof.
    intros H K. apply vals_Ok in H. apply vals_Ok in K. unfold names in *. revert x' K. induction H as [|k z l x E _ IH]; intros x' K S; inversion K; subst; [reflexivity|].
    f_equal; [|apply IH; auto; intros; apply S; right; assumption]. assert (lookup k d = lookup k d') by (apply S; left; reflexivity). congruence.
  Qed.
  Lemma zlist_mem_In x l : zlist_mem x l = true <-> In x l.
  Proof.
    unfold zlist_mem. rewrite existsb_exists. split.
    - intros [y [I H]]. destruct (list_eq_dec Z.eq_dec x y); [subst; exact I|discriminate].
    - intro I. exists x. split; [exact I|]. destruct (list_eq_dec Z.eq_dec x x); [reflexivity|contradiction].
  Qed.

  (** Equal values of all variables, so equal valuations. *)
  Definition same_vals (d d' : attrs Z) : Prop := forall k, In k (map fst env) \/ In k (map fst sys) -> lookup k d = lookup k d'.

  (** State of the two initial loops: [K] are the nodes that got an edge. *)
  Record ini (g0 : graph N mval) (P : N -> attrs Z -> Prop) (tried : list N) (g : graph N mval) (seen : list (list Z)) (K : list N) : Prop := {
    n_wf : wf c g; n_nodes : g_nodes g = g_nodes g0; n_init : g_init g = g_init g0;
    n_K : forall u, In u K -> In u tried /\ exists d x, In (u, d) (st_nodes A) /\ P u d /\ vals (names all) d = Ok x /\ In x seen /\ exists lab, label all d = Ok lab;
    n_seen : forall x, In x seen -> exists u d, In u K /\ In (u, d) (st_nodes A) /\ vals (names all) d = Ok x;
    n_uniq : forall u u' d d', In u K -> In u' K -> In (u, d) (st_nodes A) -> In (u', d') (st_nodes A) -> same_vals d d' -> u = u';
    n_all : forall u d, In u tried -> In (u, d) (st_nodes A) -> P u d -> exists u' d', In u' K /\ In (u', d') (st_nodes A) /\ same_vals d d';
    n_trans : forall a e b, trans g a e b <-> trans g0 a e b \/
       (a = sinit /\ In b K /\ exists d lab, In (b, d) (st_nodes A) /\ label all d = Ok lab /\ same_items lab e) }.

  Lemma ini_skip g0 (P : N -> attrs Z -> Prop) l g seen K u d x : ini g0 P l g seen K -> In (u, d) (st_nodes A) -> vals (names all) d = Ok x -> In x seen ->
    ini g0 P (l ++ [u]) g seen K.
  Proof.
    intros [W1 W2 W3 HK Hs Hu Ha Ht] I V S. split; auto.
    - intros u' I'. destruct (HK u' I') as [A1 A2]. split; [apply in_or_app; auto|exact A2].
    - intros u' d' I' J Pu. apply in_app_iff in I'. destruct I' as [I'|[<-|[]]]; [eauto|].
      assert (d' = d) by (eapply unique_key; [exact NDn|exact J|exact I]). subst d'.
      destruct (Hs x S) as [v [dv [Iv [Jv Vv]]]]. exists v, dv. split; [exact Iv|]. split; [exact Jv|]. intros k Ik. apply (vals_same d dv x V Vv). apply all_names, Ik.
  Qed.
  Lemma ini_reject g0 (P : N -> attrs Z -> Prop) l g seen K u d : ini g0 P l g seen K -> In (u, d) (st_nodes A) -> ~ P u d -> ini g0 P (l ++ [u]) g seen K.
  Proof.
    intros [W1 W2 W3 HK Hs Hu Ha Ht] I NP. split; auto.
    - intros u' I'. destruct (HK u' I') as [A1 A2]. split; [apply in_or_app; auto|exact A2].
    - intros u' d' I' J Pu. apply in_app_iff in I'. destruct I' as [I'|[<-|[]]]; [eauto|].
      assert (d' = d) by (eapply unique_key; [exact NDn|exact J|exact I]). subst d'. contradiction.
  Qed.
  Lemma ini_add g0 (P : N -> attrs Z -> Prop) l g seen K u d x lab ch g' : ini g0 P l g seen K -> In (u, d) (st_nodes A) -> P u d -> vals (names all) d = Ok x ->
    ~ In x seen -> label all d = Ok lab -> add_edge neqb mval_eqb c sinit u None lab ch g = Ok g' ->
    ini g0 P (l ++ [u]) g' (seen ++ [x]) (K ++ [u]).
  Proof.
    intros [W1 W2 W3 HK Hs Hu Ha Ht] I Pu V S L H.
    destruct (add_edge_trans neqb mval_eqb neqb_eq mval_eqb_eq c eq_refl sinit u lab ch g g' W1 (label_nodup u d lab I L) H) as [G1 [G2 [_ [_ [_ [W' T]]]]]].
    assert (Sep : forall v dv, In v K -> In (v, dv) (st_nodes A) -> ~ same_vals d dv).
    { intros v dv Iv Jv Q. destruct (HK v Iv) as [_ [dv' [xv [Jv' [_ [Vv [Sx _]]]]]]].
      assert (dv' = dv) by (eapply unique_key; [exact NDn|exact Jv'|exact Jv]). subst dv'. apply S.
      rewrite (vals_eq d dv x xv V Vv); [exact Sx|]. intros k Ik. apply Q, all_names, Ik. }
    split.
    - exact W'.
    - congruence.
    - congruence.
    - intros v Iv. apply in_app_iff in Iv. destruct Iv as [Iv|[<-|[]]].
      + destruct (HK v Iv) as [A1 [dv [xv [A2 [A3 [A4 [A5 A6]]]]]]]. split; [apply in_or_app; auto|]. exists dv, xv. do 3 (split; [assumption|]). split; [apply in_or_app; auto|exact A6].
      + split; [apply in_or_app; right; left; reflexivity|]. exists d, x. do 3 (split; [assumption|]). split; [apply in_or_app; right; left; reflexivity|eauto].
    - intros y Iy. apply in_app_iff in Iy. destruct Iy as [Iy|[<-|[]]].
      + destruct (Hs y Iy) as [v [dv [A1 A2]]]. exists v, dv. split; [apply in_or_app; auto|exact A2].
      + exists u, d. split; [apply in_or_app; right; left; reflexivity|auto].
    - intros v v' dv dv' Iv Iv' Jv Jv' Q. apply in_app_iff in Iv. apply in_app_iff in Iv'.
      destruct Iv as [Iv|[<-|[]]], Iv' as [Iv'|[<-|[]]]; [eauto| | |reflexivity]; exfalso.
      + assert (dv' = d) by (eapply unique_key; [exact NDn|exact Jv'|exact I]). subst dv'. apply (Sep v dv Iv Jv). intros k Ik. symmetry. apply Q, Ik.
      + assert (dv = d) by (eapply unique_key; [exact NDn|exact Jv|exact I]). subst dv. apply (Sep v' dv' Iv' Jv'). exact Q.
    - intros v dv Iv Jv Pv. apply in_app_iff in Iv. destruct Iv as [Iv|[<-|[]]].
      + destruct (Ha v dv Iv Jv Pv) as [v' [dv' [A1 [A2 A3]]]]. exists v', dv'. split; [apply in_or_app; auto|auto].
      + exists u, dv. split; [apply in_or_app; right; left; reflexivity|]. split; [exact Jv|]. intros k _. reflexivity.
    - intros a e b. rewrite T, Ht. split.
      + intros [[Q|[-> [Ib Q]]]|[-> [-> Q]]]; [auto| |].
        * right. split; [reflexivity|]. split; [apply in_or_app; auto|exact Q].
        * right. split; [reflexivity|]. split; [apply in_or_app; right; left; reflexivity|]. exists d, lab. auto.
      + intros [Q|[-> [Ib [db [lb [Jb [Lb Q]]]]]]]; [auto|]. apply in_app_iff in Ib. destruct Ib as [Ib|[<-|[]]].
        * left. right. split; [reflexivity|]. split; [exact Ib|]. eauto.
        * right. do 2 (split; [reflexivity|]). assert (db = d) by (eapply unique_key; [exact NDn|exact Jb|exact I]). subst db.
          rewrite L in Lb. injection Lb as <-. exact Q.
  Qed.
  Lemma ini_start g0 (P : N -> attrs Z -> Prop) : wf c g0 -> ini g0 P [] g0 [] [].
  Proof.
    intro W. split; auto.
    - intros u [].
    - intros x [].
    - intros u u' d d' [].
    - intros u d [].
    - intros a e b. split; [auto|]. intros [Q|[_ [[] _]]]. exact Q.
  Qed.

  (** Initial nodes of the strategy: those listed, or those that satisfy the initial
      condition. *)
  Definition initial (u : N) : Prop :=
    match st_init A with
    | Some l => In u l
    | None => exists d, In (u, d) (st_nodes A) /\ isinit d = Ok true
    end.
  Hypothesis isinit_ext : forall d d', same_items d d' -> isinit d = isinit d'.

  Lemma nodes_loop g0 l g : wf c g0 -> init_edges_nodes neqb c all sinit A l g0 = Ok g ->
    exists seen K, ini g0 (fun _ _ => True) l g seen K.
  Proof.
    intros W H. unfold init_edges_nodes in H. destruct l as [|u0 l0] eqn:El; [discriminate|]. rewrite <- El in *. clear u0 l0 El.
    apply bind_Ok in H. destruct H as [[g1 seen] [H E]]. injection E as <-. exists seen.
    refine (fold_res_inv _ (fun l1 gs => exists K, ini g0 (fun _ _ => True) l1 (fst gs) (snd gs) K) l (g0, []) (g1, seen) _ _ H).
    - exists []. apply ini_start, W.
    - intros l1 u l2 [ga sa] [gb sb] _ [K Q] F. cbn [fst snd] in *. apply bind_Ok in F. destruct F as [d [D F]]. apply node_state_Ok in D.
      apply bind_Ok in F. destruct F as [x [V F]]. destruct (zlist_mem x sa) eqn:Z.
      + injection F as <- <-. apply zlist_mem_In in Z. exists K. eapply ini_skip; eauto.
      + apply bind_Ok in F. destruct F as [lab [L F]]. apply bind_Ok in F. destruct F as [g' [F E]]. injection E as <- <-.
        rewrite (transitions_add_eq sinit u d lab None ga L) in F. exists (K ++ [u]). eapply ini_add; eauto.
        intro J. apply zlist_mem_In in J. congruence.
  Qed.
  Lemma compile_loop g0 g : wf c g0 -> init_edges_compile neqb isinit c all sinit A g0 = Ok g ->
    exists seen K, ini g0 (fun _ d => isinit d = Ok true) (map fst (st_nodes A)) g seen K.
  Proof.
    intros W H. unfold init_edges_compile in H. apply bind_Ok in H. destruct H as [[[g1 seen] tmp] [H E]]. injection E as <-. exists seen.
    enough (Q : (exists K, ini g0 (fun _ d => isinit d = Ok true) (map fst (st_nodes A)) g1 seen K) /\
                forall k, In k (map fst tmp) -> exists u d, In (u, d) (st_nodes A) /\ In k (map fst d)) by exact (proj1 Q).
    refine (fold_res_inv _ (fun l1 gst => (exists K, ini g0 (fun _ d => isinit d = Ok true) (map fst l1) (fst (fst gst)) (snd (fst gst)) K) /\
                forall k, In k (map fst (snd gst)) -> exists u d, In (u, d) (st_nodes A) /\ In k (map fst d)) (st_nodes A) (g0, [], []) (g1, seen, tmp) _ _ H).
    - split; [exists []; apply ini_start, W|intros k []].
    - intros l1 [u d] l2 [[ga sa] ta] [[gb sb] tb] El [[K Q] T] F. cbn [fst snd] in *. rewrite map_app. cbn [map fst].
      assert (I : In (u, d) (st_nodes A)) by (rewrite El; apply in_or_app; right; left; reflexivity).
      apply bind_Ok in F. destruct F as [x [V F]]. destruct (zlist_mem x sa) eqn:Z.
      + injection F as <- <- <-. apply zlist_mem_In in Z. split; [exists K; eapply ini_skip; eauto|exact T].
      + apply bind_Ok in F. destruct F as [b [B F]].
        assert (Eu : same_items (update ta d) d).
        { intro k. rewrite lookup_update, lookup_rev by (eapply NDd; eauto). destruct (lookup k d) eqn:L; [reflexivity|].
          apply lookup_None. intro J. destruct (T k J) as [u' [d' [I' J']]]. apply lookup_None in L. apply L. eapply Same; eauto. }
        rewrite (isinit_ext _ _ Eu) in B.
        assert (T' : forall k, In k (map fst (update ta d)) -> exists u d, In (u, d) (st_nodes A) /\ In k (map fst d)).
        { intros k J. exists u, d. split; [exact I|]. apply lookup_name in J. destruct J as [z J]. rewrite (Eu k) in J. apply lookup_name. eauto. }
        destruct b.
        * apply bind_Ok in F. destruct F as [lab [L F]]. apply bind_Ok in F. destruct F as [g' [F E]]. injection E as <- <- <-.
          rewrite (transitions_add_eq sinit u d lab (Some false) ga L) in F. split; [|exact T']. exists (K ++ [u]). eapply ini_add; eauto.
          intro J. apply zlist_mem_In in J. congruence.
        * injection F as <- <- <-. split; [|exact T']. exists K. eapply ini_reject; eauto. cbv beta. congruence.
  Qed.

  Lemma strategy2mealy_parts m : strategy2mealy neqb isinit sinit env sys A = Ok m ->
    exists K, m_in m = create_machine_ports env /\ m_out m = create_machine_ports sys /\ wf c (m_graph m) /\
      ~ In sinit (map fst (st_nodes A)) /\ (forall n, In n (g_init (m_graph m)) <-> n = sinit) /\ K <> [] /\
      (forall n, In n (node_list (m_graph m)) <-> n = sinit \/ In n (map fst (st_nodes A))) /\
      (forall u, In u K -> initial u /\ exists d lab, In (u, d) (st_nodes A) /\ label all d = Ok lab) /\
      (forall u u' d d', In u K -> In u' K -> In (u, d) (st_nodes A) -> In (u', d') (st_nodes A) -> same_vals d d' -> u = u') /\
      (forall u d, initial u -> In (u, d) (st_nodes A) -> exists u' d', In u' K /\ In (u', d') (st_nodes A) /\ same_vals d d') /\
      (forall a e b, trans (m_graph m) a e b <->
         (In (a, b) (st_edges A) \/ (a = sinit /\ In b K)) /\ exists d lab, In (b, d) (st_nodes A) /\ label all d = Ok lab /\ same_items lab e).
  Proof.
    intro H. unfold strategy2mealy in H. destruct (st_nodes A) as [|nd0 rest] eqn:En; [discriminate|]. rewrite <- En in *. fold all c in H.
    apply bind_Ok in H. destruct H as [g1 [H1 H]]. destruct (negb (forallb _ (names all))); [discriminate|].
    apply bind_Ok in H. destruct H as [g2 [H2 H]]. apply bind_Ok in H. destruct H as [g3 [H3 H]]. apply bind_Ok in H. destruct H as [g4 [H4 H]].
    apply bind_Ok in H. destruct H as [g5 [H5 H]].
    destruct (List.length (g_nodes g5) =? S (List.length (st_nodes A)))%nat eqn:Len; [|discriminate]. cbn [negb] in H. apply Nat.eqb_eq in Len.
    destruct (successors neqb sinit g5) as [|n0 ns] eqn:Sc; [discriminate|]. injection H as <-. cbn [m_in m_out m_graph].
    destruct (add_nodes_plain neqb neqb_eq c eq_refl (map fst (st_nodes A)) empty_graph (wf_empty c)) as [g1' [E1 [W1 [B1 [B2 B3]]]]].
    rewrite E1 in H1. injection H1 as <-.
    apply edges_loop in H2. destruct H2 as [ls [Hl H2]].
    assert (NDl : forall x, In x ls -> NoDup (map fst (snd (fst x)))).
    { intros [[u lab] v] I. cbn [fst snd]. apply (edges_In ls u lab v Hl) in I. destruct I as [_ [d [I L]]]. eapply label_nodup; eauto. }
    destruct (add_edges_trans neqb mval_eqb neqb_eq mval_eqb_eq c eq_refl false ls g1' g2 W1 NDl H2) as [C1 [C2 [W2 [_ C3]]]].
    pose proof (wf_add_node neqb neqb_eq c _ _ _ _ _ W2 H3) as W3. apply add_node_Ok in H3. destruct H3 as [t [T ->]].
    destruct (add_initial_Ok neqb mval_eqb neqb_eq c sinit _ _ H4) as [D1 [D2 [D3 [D4 D5]]]]. specialize (D5 W3). cbn [g_nodes g_edges g_init] in D2, D3, D4.
    assert (N4 : forall n, In n (node_list g4) <-> n = sinit \/ In n (map fst (st_nodes A))).
    { intro n. unfold node_list at 1. rewrite D2, (nx_add_node_keys neqb sinit t (g_nodes g2)). change (map fst (g_nodes g2)) with (node_list g2).
      assert (N2 : node_list g2 = node_list g1') by (unfold node_list; rewrite C1; reflexivity). rewrite N2.
      assert (N1 : forall n, In n (node_list g1') <-> In n (map fst (st_nodes A))) by (intro x; rewrite B3; cbn; tauto).
      destruct (nmem neqb sinit (node_list g1')) eqn:M.
      - apply (nmem_In neqb neqb_eq) in M. rewrite N1. split; [auto|]. intros [->|I]; [apply N1, M|exact I].
      - rewrite in_app_iff, N1. cbn. split; [intros [I|[->|[]]]; auto|intros [->|I]; auto]. }
    assert (I4 : forall n, In n (g_init g4) <-> n = sinit) by (intro n; rewrite D4, C2, B2; cbn; tauto).
    assert (T4 : forall a e b, trans g4 a e b <-> In (a, b) (st_edges A) /\ exists d lab, In (b, d) (st_nodes A) /\ label all d = Ok lab /\ same_items lab e).
    { intros a e b. assert (E4 : trans g4 a e b <-> trans g2 a e b) by (unfold trans; rewrite D3; reflexivity). rewrite E4, C3. split.
      - intros [[x [I _]]|[lab [I S]]]; [rewrite B1 in I; destruct I|]. apply (edges_In ls a lab b Hl) in I. destruct I as [I [d [J L]]]. split; [exact I|]. exists d, lab. auto.
      - intros [I [d [lab [J [L S]]]]]. right. exists lab. split; [|exact S]. apply (edges_In ls a lab b Hl). eauto. }
    assert (L5 : exists P tried seen K, ini g4 P tried g5 seen K /\ (forall u d, In u tried -> In (u, d) (st_nodes A) -> P u d -> initial u) /\
                   (forall u d, initial u -> In (u, d) (st_nodes A) -> In u tried /\ P u d)).
    { unfold initial. destruct (st_init A) as [l|].
      - destruct (nodes_loop g4 l g5 D5 H5) as [seen [K Q]]. exists (fun _ _ => True), l, seen, K. split; [exact Q|]. split; [auto|]. auto.
      - destruct (compile_loop g4 g5 D5 H5) as [seen [K Q]]. exists (fun _ d => isinit d = Ok true), (map fst (st_nodes A)), seen, K. split; [exact Q|]. split; [eauto|].
        intros u d [d' [I E]] J. assert (d' = d) by (eapply unique_key; [exact NDn|exact I|exact J]). subst d'. split; [apply (in_map fst) in J; exact J|exact E]. }
    destruct L5 as [P [tried [seen [K [[W5 Q2 Q3 QK Qs Qu Qa Qt] [P1 P2]]]]]].
    assert (N5 : node_list g5 = node_list g4) by (unfold node_list; rewrite Q2; reflexivity).
    assert (Ns : ~ In sinit (map fst (st_nodes A))).
    { intro I. assert (Le : List.length (node_list g5) <= List.length (map fst (st_nodes A))).
      { apply NoDup_incl_length; [exact (wf_nodes _ _ W5)|]. intros n J. rewrite N5 in J. apply N4 in J. destruct J as [->|J]; assumption. }
      unfold node_list in Le. rewrite !map_length in Le. lia. }
    exists K. do 2 (split; [reflexivity|]). split; [exact W5|]. split; [exact Ns|]. split; [intro n; rewrite Q3; apply I4|]. split; [|split; [|split; [|split; [|split]]]].
    - intros ->. assert (J : In n0 (successors neqb sinit g5)) by (rewrite Sc; left; reflexivity).
      unfold successors in J. apply in_map_iff in J. destruct J as [e [_ J]]. apply filter_In in J. destruct J as [J E]. apply neqb_eq in E.
      assert (T5 : trans g5 sinit (e_attr e) (e_dst e)) by (exists e; repeat split; auto; intro; reflexivity).
      apply Qt in T5. destruct T5 as [T5|[_ [[] _]]]. apply T4 in T5. destruct T5 as [T5 _]. apply Ns, (Ends _ _ T5).
    - intro n. rewrite N5. apply N4.
    - intros u I. destruct (QK u I) as [It [d [x [J [Pd [_ [_ [lab L]]]]]]]]. split; [eapply P1; eauto|]. exists d, lab. auto.
    - exact Qu.
    - intros u d Iu J. destruct (P2 u d Iu J) as [A1 A2]. exact (Qa u d A1 J A2).
    - intros a e b. rewrite Qt, T4. split.
      + intros [[I Q]|[-> [I Q]]]; auto.
      + intros [[I|[-> I]] Q]; auto.
  Qed.

  Lemma same_vals_shows d d' i o : same_vals d d' -> (shows env d i <-> shows env d' i) /\ (shows sys d o <-> shows sys d' o).
  Proof.
    intro S. unfold shows. split; (split; intros R k v; rewrite (R k v); (split; intros [dm [z [L1 [L2 L3]]]]; exists dm, z; (split; [exact L1|]); (split; [|exact L3]))).
    - rewrite <- S; [exact L2|left; apply lookup_name; eauto].
    - rewrite S; [exact L2|left; apply lookup_name; eauto].
    - rewrite S; [exact L2|left; apply lookup_name; eauto].
    - rewrite <- S; [exact L2|left; apply lookup_name; eauto].
    - rewrite <- S; [exact L2|right; apply lookup_name; eauto].
    - rewrite S; [exact L2|right; apply lookup_name; eauto].
    - rewrite S; [exact L2|right; apply lookup_name; eauto].
    - rewrite <- S; [exact L2|right; apply lookup_name; eauto].
  Qed.

  (** Steps of the machine. *)
  Lemma step_iff m K (H1 : m_in m = create_machine_ports env) (H2 : m_out m = create_machine_ports sys)
    (T : forall a e b, trans (m_graph m) a e b <-> (In (a, b) (st_edges A) \/ (a = sinit /\ In b K)) /\
         exists d lab, In (b, d) (st_nodes A) /\ label all d = Ok lab /\ same_items lab e) a x b :
    mealy_step m a x b -> (In (a, b) (st_edges A) \/ (a = sinit /\ In b K)) /\ exists d, In (b, d) (st_nodes A) /\ shows env d (fst x) /\ shows sys d (snd x).
  Proof.
    intros [e [I [Ea [Eb [Ri Ro]]]]]. rewrite H1, ports_names in Ri. rewrite H2, ports_names in Ro.
    assert (Q : trans (m_graph m) a (e_attr e) b) by (exists e; repeat split; auto; intro; reflexivity).
    apply T in Q. destruct Q as [Q [d [lab [J [L S]]]]]. split; [exact Q|]. exists d. split; [exact J|].
    destruct (label_shows b d lab (fst x) (snd x) J L) as [Hi Ho]. split.
    - apply Hi. eapply restricts_same; [apply same_items_sym, S|apply same_items_refl|exact Ri].
    - apply Ho. eapply restricts_same; [apply same_items_sym, S|apply same_items_refl|exact Ro].
  Qed.
  Lemma step_iff' m K (H1 : m_in m = create_machine_ports env) (H2 : m_out m = create_machine_ports sys)
    (T : forall a e b, trans (m_graph m) a e b <-> (In (a, b) (st_edges A) \/ (a = sinit /\ In b K)) /\
         exists d lab, In (b, d) (st_nodes A) /\ label all d = Ok lab /\ same_items lab e)
    (Lb : forall a b d, (In (a, b) (st_edges A) \/ (a = sinit /\ In b K)) -> In (b, d) (st_nodes A) -> exists lab, label all d = Ok lab) a x b d :
    (In (a, b) (st_edges A) \/ (a = sinit /\ In b K)) -> In (b, d) (st_nodes A) -> shows env d (fst x) -> shows sys d (snd x) -> mealy_step m a x b.
  Proof.
    intros E J Si So. destruct (Lb a b d E J) as [lab L].
    assert (Q : trans (m_graph m) a lab b) by (apply T; split; [exact E|]; exists d, lab; repeat split; auto; intro; reflexivity).
    destruct Q as [e [I [Ea [Eb S]]]]. exists e. do 3 (split; [assumption|]). rewrite H1, H2, !ports_names.
    destruct (label_shows b d lab (fst x) (snd x) J L) as [Hi Ho]. apply Hi in Si. apply Ho in So. split.
    - eapply restricts_same; [apply same_items_sym, S|apply same_items_refl|exact Si].
    - eapply restricts_same; [apply same_items_sym, S|apply same_items_refl|exact So].
  Qed.
  Lemma parts_labels m : strategy2mealy neqb isinit sinit env sys A = Ok m -> forall u v d, In (u, v) (st_edges A) -> In (v, d) (st_nodes A) -> exists lab, label all d = Ok lab.
  Proof.
    intro H. unfold strategy2mealy in H. destruct (st_nodes A) as [|nd0 rest] eqn:En; [discriminate|]. rewrite <- En in *. fold all c in H.
    apply bind_Ok in H. destruct H as [g1 [H1 H]]. destruct (negb (forallb _ (names all))); [discriminate|].
    apply bind_Ok in H. destruct H as [g2 [H2 H]]. apply edges_loop in H2. destruct H2 as [ls [Hl _]]. apply (proj1 (mapr_Forall2 _ _ _)) in Hl.
    intros u v d I J. apply pairs_In in I. induction Hl as [|p y l ls' Hp _ IH]; [destruct I|]. destruct I as [->|I]; [|auto].
    unfold edge_of in Hp. cbn [fst snd] in Hp. rewrite (proj2 (node_state_Ok v d) J) in Hp. cbn [bind] in Hp. apply bind_Ok in Hp. destruct Hp as [lab [L _]]. eauto.
  Qed.

  (** Words of the machine are words of the strategy. *)
  Theorem strategy2mealy_sound m w : strategy2mealy neqb isinit sinit env sys A = Ok m ->
    words (mealy_step m) (m_graph m) w -> strat_words env sys A initial w.
  Proof.
    intros H [s [t [Is P]]]. destruct (strategy2mealy_parts m H) as [K [H1 [H2 [W [Ns [Hi [_ [_ [HK [_ [_ T]]]]]]]]]]].
    apply Hi in Is. subst s. destruct w as [|x w]; [exact I|]. inversion P as [|? ? u ? ? St P']; subst. cbn [strat_words].
    destruct (step_iff m K H1 H2 T _ _ _ St) as [[E|[_ Iu]] [d [J [Si So]]]]; [exfalso; apply Ns, (Ends _ _ E)|].
    exists u, d, t. split; [apply (HK u Iu)|]. do 3 (split; [assumption|]).
    assert (Nu : In u (map fst (st_nodes A))) by (apply (in_map fst) in J; exact J). clear - P' Nu H1 H2 T Ns Ends NDd NDe NDs Dj Nneg Res neqb_eq NDn.
    induction P' as [s|s l b w b' St _ IH]; [constructor|].
    destruct (step_iff m K H1 H2 T _ _ _ St) as [[E|[-> Ib]] [d [J [Si So]]]]; [|contradiction].
    econstructor; [split; [exact E|]; exists d; auto|]. apply IH. apply (Ends _ _ E).
  Qed.
  (** Words of the strategy are words of the machine if no two initial nodes have the same
      values of all variables. *)
  Theorem strategy2mealy_complete m w : strategy2mealy neqb isinit sinit env sys A = Ok m ->
    (forall u u' d d', initial u -> initial u' -> In (u, d) (st_nodes A) -> In (u', d') (st_nodes A) -> same_vals d d' -> u = u') ->
    strat_words env sys A initial w -> words (mealy_step m) (m_graph m) w.
  Proof.
    intros H Un Q. destruct (strategy2mealy_parts m H) as [K [H1 [H2 [W [Ns [Hi [_ [_ [HK [_ [Ha T]]]]]]]]]]].
    pose proof (parts_labels m H) as Lb0.
    exists sinit. destruct w as [|x w]; [exists sinit; split; [apply Hi; reflexivity|constructor]|].
    destruct Q as [u [d [v [Iu [J [Si [So P]]]]]]]. exists v. split; [apply Hi; reflexivity|].
    destruct (Ha u d Iu J) as [u' [d' [Ku [J' S]]]]. assert (u' = u) by (symmetry; eapply Un; [exact Iu|exact (proj1 (HK u' Ku))|exact J|exact J'|exact S]). subst u'.
    assert (Lb : forall a b d, (In (a, b) (st_edges A) \/ (a = sinit /\ In b K)) -> In (b, d) (st_nodes A) -> exists lab, label all d = Ok lab).
    { intros a b db [E|[-> Ib]] Jb; [eauto|].
      destruct (HK b Ib) as [_ [d1 [lab1 [Z1 Z2]]]]. assert (d1 = db) by (eapply unique_key; [exact NDn|exact Z1|exact Jb]). subst d1. eauto. }
    econstructor; [eapply (step_iff' m K H1 H2 T Lb); [right; split; [reflexivity|exact Ku]|exact J|exact Si|exact So]|].
    eapply steps_ext; [|exact P]. intros s l t [E [dt [Jt [S1 S2]]]]. eapply (step_iff' m K H1 H2 T Lb); eauto.
  Qed.
  (** In any case the machine can start with the valuation of every initial node, in one way. *)
  Theorem strategy2mealy_first m : strategy2mealy neqb isinit sinit env sys A = Ok m ->
    (forall n, In n (g_init (m_graph m)) <-> n = sinit) /\
    (forall x, strat_words env sys A initial [x] -> exists u, mealy_step m sinit x u) /\
    (forall x u u', (forall k, In k (map fst env) -> lookup k (fst x) <> None) -> (forall k, In k (map fst sys) -> lookup k (snd x) <> None) ->
       (forall k l, lookup k env = Some (DEnum l) \/ lookup k sys = Some (DEnum l) -> NoDup l) ->
       mealy_step m sinit x u -> mealy_step m sinit x u' -> u = u').
  Proof.
    intro H. destruct (strategy2mealy_parts m H) as [K [H1 [H2 [W [Ns [Hi [_ [_ [HK [Hu [Ha T]]]]]]]]]]].
    assert (Lb : forall a b d, (In (a, b) (st_edges A) \/ (a = sinit /\ In b K)) -> In (b, d) (st_nodes A) -> exists lab, label all d = Ok lab).
    { pose proof (parts_labels m H) as Lb0. intros a b db [E|[-> Ib]] Jb; [eauto|].
      destruct (HK b Ib) as [_ [d1 [lab1 [Z1 Z2]]]]. assert (d1 = db) by (eapply unique_key; [exact NDn|exact Z1|exact Jb]). subst d1. eauto. }
    split; [exact Hi|]. split.
    - intros x [u [d [v [Iu [J [Si [So _]]]]]]]. destruct (Ha u d Iu J) as [u' [d' [Ku [J' S]]]]. exists u'.
      destruct (same_vals_shows d d' (fst x) (snd x) S) as [E1 E2]. eapply (step_iff' m K H1 H2 T Lb); [right; split; [reflexivity|exact Ku]|exact J'|apply E1, Si|apply E2, So].
    - intros x u u' Fe Fs NDl S S'. apply (step_iff m K H1 H2 T) in S. apply (step_iff m K H1 H2 T) in S'.
      destruct S as [[E|[_ Iu]] [d [J [Si So]]]]; [exfalso; apply Ns, (Ends _ _ E)|]. destruct S' as [[E|[_ Iu']] [d' [J' [Si' So']]]]; [exfalso; apply Ns, (Ends _ _ E)|].
      apply (Hu u u' d d' Iu Iu' J J').
      assert (G : forall vs y k, NoDup (map fst vs) -> (forall l, lookup k vs = Some (DEnum l) -> NoDup l) -> In k (map fst vs) -> lookup k y <> None ->
        shows vs d y -> shows vs d' y -> lookup k d = lookup k d').
      { intros vs y k _ Nl Ik F S1 S2. destruct (lookup k y) as [v|] eqn:L; [|congruence]. pose proof (proj1 (S1 k v) L) as Q1. pose proof (proj1 (S2 k v) L) as Q2.
        destruct Q1 as [dm [z [L1 [L2 L3]]]], Q2 as [dm' [z' [L1' [L2' L3']]]]. assert (dm' = dm) by congruence. subst dm'. rewrite L2, L2'. f_equal.
        destruct dm as [|lo hi|l]; cbn [stands] in L3, L3'; try congruence. destruct L3 as [i [s [-> [N1 E1]]]], L3' as [j [s' [-> [N2 E2]]]].
        assert (s' = s) by congruence. subst s'. f_equal. apply (NoDup_nth_error l) with (1 := Nl l L1); [apply nth_error_Some; congruence|congruence]. }
      intros k [Ik|Ik].
      + eapply G; [exact NDe|intros l Ll; eapply NDl; left; exact Ll|exact Ik|exact (Fe k Ik)|exact Si|exact Si'].
      + eapply G; [exact NDs|intros l Ll; eapply NDl; right; exact Ll|exact Ik|exact (Fs k Ik)|exact So|exact So'].
  Qed.

  (** ** Success *)
  Definition in_dom (d : dom) (z : Z) : Prop :=
    match d with
    | DBool => z = 0%Z \/ z = 1%Z
    | DInt lo hi => (lo <= z <= hi)%Z
    | DEnum l => (0 <= z < Z.of_nat (List.length l))%Z
    end.
  Hypothesis Full : forall u d k dm, In (u, d) (st_nodes A) -> lookup k env = Some dm \/ lookup k sys = Some dm ->
    exists z, lookup k d = Some z /\ in_dom dm z.

  Lemma all_dom u d k dm : In (u, d) (st_nodes A) -> lookup k all = Some dm -> exists z, lookup k d = Some z /\ in_dom dm z.
  Proof. intros I L. eapply Full; [exact I|]. rewrite all_lookup in L. destruct (lookup k sys); auto. Qed.
  Lemma label_total u d : In (u, d) (st_nodes A) -> exists lab, label all d = Ok lab.
  Proof.
    intro I. unfold label, int2str.
    assert (G : forall r, (forall k z, In (k, z) r -> In (k, z) d /\ mem k (names all) = true) ->
      exists lab, mapr (fun kv => match lookup (fst kv) (str_vars all) with Some l => do s <- py_index l (snd kv); Ok (fst kv, VStr s) | None => Ok (fst kv, VInt (snd kv)) end) r = Ok lab).
    { induction r as [|[k z] r IH]; intro Q; cbn [mapr fst snd]; [eauto|]. destruct IH as [lab IH]; [intros k' z' J; apply Q; right; exact J|]. rewrite IH.
      destruct (Q k z (or_introl eq_refl)) as [J M]. apply mem_In in M. apply lookup_name in M. destruct M as [dm M].
      rewrite (str_vars_lookup k all all_nodup), M. destruct dm as [|lo hi|l]; cbn [bind]; try (eexists; reflexivity).
      destruct (all_dom u d k _ I M) as [z' [L D]]. assert (z' = z). { rewrite (In_lookup _ _ _ (NDd u d I) J) in L. congruence. } subst z'. cbn [in_dom] in D.
      destruct (nth_error l (Z.to_nat z)) as [s|] eqn:E.
      - rewrite (proj2 (py_index_nonneg l z s (proj1 D)) E). cbn [bind]. eauto.
      - apply nth_error_None in E. lia. }
    apply G. intros k z J. apply filter_In in J. exact J.
  Qed.
  Lemma vals_total u d : In (u, d) (st_nodes A) -> exists x, vals (names all) d = Ok x.
  Proof.
    intro I. unfold vals. assert (Q : forall k, In k (names all) -> lookup k d <> None).
    { intros k Ik. apply lookup_name in Ik. destruct Ik as [dm L]. destruct (all_dom u d k dm I L) as [z [Z _]]. congruence. }
    induction (names all) as [|k l IH]; cbn [mapr]; [eauto|]. destruct (lookup k d) as [z|] eqn:L; [|exfalso; apply (Q k); [left; reflexivity|exact L]].
    cbn [of_opt bind]. destruct IH as [x ->]; [intros k' J; apply Q; right; exact J|]. cbn [bind]. eauto.
  Qed.
  Lemma zrange_In lo hi z : In z (zrange lo hi) <-> (lo <= z <= hi)%Z.
  Proof.
    unfold zrange. rewrite in_map_iff. split.
    - intros [i [<- I]]. apply in_seq in I. lia.
    - intro H. exists (Z.to_nat (z - lo)). split; [lia|]. apply in_seq. lia.
  Qed.
  Lemma edge_type k : lookup k (c_edge_types c) = match lookup k all with Some dm => Some (port_dom mval_eqb (create_port dm)) | None => None end.
  Proof.
    assert (P : forall vs, lookup k (port_types mval_eqb (create_machine_ports vs)) = match lookup k vs with Some dm => Some (port_dom mval_eqb (create_port dm)) | None => None end).
    { induction vs as [|[n d] r IH]; [reflexivity|]. cbn [create_machine_ports port_types map fst snd lookup]. destruct (k =? n)%string; [reflexivity|exact IH]. }
    unfold c, mealy_config. cbn [c_edge_types m_in m_out]. rewrite lookup_update, lookup_rev.
    - rewrite !P, all_lookup. destruct (lookup k sys); reflexivity.
    - unfold port_types. rewrite map_map. cbn [fst]. rewrite ports_names. exact NDs.
  Qed.
  Lemma label_good u d lab : In (u, d) (st_nodes A) -> label all d = Ok lab -> good (c_edge_types c) lab /\ typed_keys (c_edge_types c) lab.
  Proof.
    intros I L. split.
    - apply Forall_forall. intros [k v] J. cbn [fst snd]. unfold allowed. rewrite edge_type.
      assert (Lk : lookup k lab = Some v) by (apply In_lookup; [eapply label_nodup; eauto|exact J]).
      apply (label_lookup u d lab k v I L) in Lk. destruct Lk as [dm [z [L1 [L2 L3]]]]. rewrite L1.
      destruct (all_dom u d k dm I L1) as [z' [L2' D]]. assert (z' = z) by congruence. subst z'.
      assert (G : forall l, In v l -> existsb (mval_eqb v) l = true) by (intros l Iv; apply existsb_exists; exists v; split; [exact Iv|apply mval_eqb_eq; reflexivity]).
      destruct dm as [|lo hi|l]; cbn [stands in_dom create_port port_dom] in *.
      + subst v. apply G. destruct D as [->| ->]; cbn; auto.
      + subst v. apply G, in_map, zrange_In, D.
      + destruct L3 as [i [s [_ [E ->]]]]. apply G, in_map. eapply nth_error_In; eauto.
    - intros k J. apply lookup_name. rewrite edge_type. apply lookup_name in J. destruct J as [v J]. apply (label_lookup u d lab k v I L) in J.
      destruct J as [dm [z [L1 _]]]. rewrite L1. eauto.
  Qed.
  Lemma pairs_nodup : NoDup pairs.
  Proof.
    unfold pairs. assert (S : forall u, NoDup (strat_succ neqb A u)).
    { intro u. unfold strat_succ. assert (Q : NoDup (filter (fun e => neqb (fst e) u) (st_edges A))) by (apply NoDup_filter, NDg).
      assert (Q2 : forall e, In e (filter (fun e => neqb (fst e) u) (st_edges A)) -> fst e = u) by (intros e J; apply filter_In in J; apply neqb_eq; tauto).
      induction (filter (fun e => neqb (fst e) u) (st_edges A)) as [|[a b] l IH]; cbn [map]; [constructor|]. inversion Q as [|? ? NI ND]; subst.
      constructor; [|apply IH; [exact ND|intros e J; apply Q2; right; exact J]]. intro J. apply in_map_iff in J. destruct J as [[a' b'] [E J]]. cbn [snd] in E. subst b'.
      assert (a' = u) by (apply (Q2 (a', b)); right; exact J). assert (a = u) by (apply (Q2 (a, b)); left; reflexivity). subst. contradiction. }
    induction (map fst (st_nodes A)) as [|u l IH] in NDn |- *; cbn [flat_map]; [constructor|]. inversion NDn as [|? ? NI ND]; subst. apply NoDup_app.
    - specialize (S u). induction (strat_succ neqb A u) as [|v r IHr]; cbn [map]; [constructor|]. inversion S as [|? ? NI' ND']; subst. constructor; [|auto].
      intro J. apply in_map_iff in J. destruct J as [v' [[= ->] J]]. contradiction.
    - apply IH, ND.
    - intros [a b] J K. apply in_map_iff in J. destruct J as [v [[= <- <-] _]]. apply in_flat_map in K. destruct K as [u' [K1 K2]].
      apply in_map_iff in K2. destruct K2 as [v' [[= -> ->] _]]. contradiction.
  Qed.
  Lemma ls_pairs ls : mapr edge_of pairs = Ok ls -> map (fun y => (fst (fst y), snd y)) ls = pairs.
  Proof.
    intro H. apply (proj1 (mapr_Forall2 _ _ _)) in H. induction H as [|[a b] y l ls' E _ IH]; [reflexivity|]. cbn [map]. rewrite IH. f_equal.
    unfold edge_of in E. cbn [fst snd] in E. apply bind_Ok in E. destruct E as [d [_ E]]. apply bind_Ok in E. destruct E as [lab [_ E]]. injection E as <-. reflexivity.
  Qed.
  Lemma ini_edge_total g0 P l g seen K u d x lab ch : ini g0 P l g seen K -> In (u, d) (st_nodes A) -> vals (names all) d = Ok x -> ~ In x seen -> label all d = Ok lab ->
    In sinit (node_list g0) -> (forall n, In n (map fst (st_nodes A)) -> In n (node_list g0)) -> (forall e b, ~ trans g0 sinit e b) ->
    exists g', add_edge neqb mval_eqb c sinit u None lab ch g = Ok g'.
  Proof.
    intros [W1 W2 W3 HK Hs Hu Ha Ht] I V S L Hi Hn Ht0. destruct (label_good u d lab I L) as [G T].
    assert (E : node_list g = node_list g0) by (unfold node_list; rewrite W2; reflexivity).
    apply (add_edge_total neqb mval_eqb neqb_eq c eq_refl); auto.
    - rewrite E. exact Hi.
    - rewrite E. apply Hn. apply (in_map fst) in I. exact I.
    - intro Q. apply Ht in Q. destruct Q as [Q|[_ [Q _]]]; [exact (Ht0 _ _ Q)|]. destruct (HK u Q) as [_ [d' [x' [J [_ [V' [S' _]]]]]]].
      assert (d' = d) by (eapply unique_key; [exact NDn|exact J|exact I]). subst d'. rewrite V in V'. injection V' as <-. contradiction.
  Qed.

  Theorem strategy2mealy_total : ~ In sinit (map fst (st_nodes A)) -> (exists u, initial u) ->
    (forall l, st_init A = Some l -> forall u, In u l -> In u (map fst (st_nodes A))) ->
    (st_init A = None -> forall u d, In (u, d) (st_nodes A) -> exists b, isinit d = Ok b) ->
    exists m, strategy2mealy neqb isinit sinit env sys A = Ok m.
  Proof.
    intros Ns [u0 Iu0] Il Ic. unfold strategy2mealy. fold all c.
    assert (J0 : exists d0, In (u0, d0) (st_nodes A)).
    { unfold initial in Iu0. destruct (st_init A) as [l|] eqn:Si; [|destruct Iu0 as [d [J _]]; eauto].
      pose proof (Il l eq_refl u0 Iu0) as J. apply in_map_iff in J. destruct J as [[a d] [E J]]. cbn [fst] in E. subst a. eauto. }
    destruct J0 as [d0 J0]. destruct (st_nodes A) as [|nd0 rest] eqn:En; [destruct J0|]. rewrite <- En in *.
    destruct (add_nodes_plain neqb neqb_eq c eq_refl (map fst (st_nodes A)) empty_graph (wf_empty c)) as [g1 [E1 [W1 [B1 [B2 B3]]]]].
    rewrite E1. cbn [bind].
    assert (F0 : forallb (fun k => mem k (names (snd nd0))) (names all) = true).
    { apply forallb_forall. intros k Ik. apply mem_In, lookup_name. apply lookup_name in Ik. destruct Ik as [dm L].
      destruct (all_dom (fst nd0) (snd nd0) k dm) as [z [Z _]]; [rewrite En; left; destruct nd0; reflexivity|exact L|eauto]. }
    rewrite F0. cbn [negb].
    assert (Hl : exists ls, mapr edge_of pairs = Ok ls).
    { assert (Q : forall p, In p pairs -> exists y, edge_of p = Ok y).
      { intros [a b] J. apply pairs_In in J. destruct (Ends a b J) as [_ Jb]. apply in_map_iff in Jb. destruct Jb as [[b' d] [E Jb]]. cbn [fst] in E. subst b'.
        destruct (label_total b d Jb) as [lab L]. unfold edge_of. cbn [fst snd]. rewrite (proj2 (node_state_Ok b d) Jb). cbn [bind]. rewrite L. cbn [bind]. eauto. }
      induction pairs as [|p l IH]; cbn [mapr]; [eauto|]. destruct (Q p (or_introl eq_refl)) as [y Y]. rewrite Y. cbn [bind].
      destruct IH as [ls ->]; [intros q J; apply Q; right; exact J|]. cbn [bind]. eauto. }
    destruct Hl as [ls Hl].
    assert (NDl : forall x, In x ls -> NoDup (map fst (snd (fst x)))).
    { intros [[u lab] v] I. cbn [fst snd]. apply (edges_In ls u lab v Hl) in I. destruct I as [_ [d [I L]]]. eapply label_nodup; eauto. }
    assert (N1 : forall n, In n (node_list g1) <-> In n (map fst (st_nodes A))) by (intro x; rewrite B3; cbn; tauto).
    destruct (add_edges_total neqb mval_eqb neqb_eq mval_eqb_eq c eq_refl false ls g1 W1 NDl) as [g2 H2].
    { intros u lab v I. apply (edges_In ls u lab v Hl) in I. destruct I as [I [d [J L]]]. destruct (Ends u v I). destruct (label_good v d lab J L).
      split; [apply N1; assumption|]. split; [apply N1; assumption|]. split; [assumption|]. split; [auto|]. intros [e [Q _]]. rewrite B1 in Q. destruct Q. }
    { intros l1 u v l2 d E Q. pose proof pairs_nodup as ND. rewrite <- (ls_pairs ls Hl), E, map_app in ND. cbn [map fst snd] in ND.
      apply NoDup_remove_2 in ND. apply ND, in_or_app. right. apply (in_map (fun y => (fst (fst y), snd y))) in Q. exact Q. }
    rewrite (proj2 (edges_loop g1 g2) (ex_intro _ ls (Logic.conj Hl H2))). cbn [bind].
    destruct (add_edges_trans neqb mval_eqb neqb_eq mval_eqb_eq c eq_refl false ls g1 g2 W1 NDl H2) as [C1 [C2 [W2 [_ C3]]]].
    destruct (add_nodes_plain neqb neqb_eq c eq_refl [sinit] g2 W2) as [g3 [E3 [W3 [D1 [D2 D3]]]]].
    cbn [fold_res] in E3. apply bind_Ok in E3. destruct E3 as [g3' [E3 Q]]. injection Q as ->. rewrite E3. cbn [bind].
    destruct (add_initials neqb mval_eqb neqb_eq c [sinit] g3 W3) as [AI AT]. destruct AT as [g4 E4]; [intros n [<-|[]]; apply D3; right; left; reflexivity|].
    destruct (AI g4 E4) as [_ [W4 [F1 [F2 F3]]]]. cbn [fold_res] in E4. apply bind_Ok in E4. destruct E4 as [g4' [E4 Q]]. injection Q as ->. rewrite E4. cbn [bind].
    assert (N2 : node_list g2 = node_list g1) by (unfold node_list; rewrite C1; reflexivity).
    assert (N4' : node_list g4 = node_list g3) by (unfold node_list; rewrite F1; reflexivity).
    assert (N4 : forall n, In n (node_list g4) <-> n = sinit \/ In n (map fst (st_nodes A))).
    { intro n. rewrite N4', D3, N2, N1. cbn. split; [intros [Q|[->|[]]]; auto|intros [->|Q]; auto]. }
    assert (T4 : forall a e b, trans g4 a e b -> In (a, b) (st_edges A)).
    { intros a e b Q. assert (Q2 : trans g2 a e b) by (unfold trans in *; rewrite F2, D1 in Q; exact Q). apply C3 in Q2.
      destruct Q2 as [[y [Q2 _]]|[lab [Q2 _]]]; [rewrite B1 in Q2; destruct Q2|]. apply (edges_In ls a lab b Hl) in Q2. tauto. }
    assert (T4s : forall e b, ~ trans g4 sinit e b) by (intros e b Q; apply T4 in Q; apply Ns, (Ends _ _ Q)).
    assert (Si : In sinit (node_list g4)) by (apply N4; auto). assert (Sn : forall n, In n (map fst (st_nodes A)) -> In n (node_list g4)) by (intros n J; apply N4; auto).
    assert (L5 : exists g5 P tried seen K, (match st_init A with Some l => init_edges_nodes neqb c all sinit A l g4 | None => init_edges_compile neqb isinit c all sinit A g4 end) = Ok g5 /\
                   ini g4 P tried g5 seen K /\ In u0 tried /\ P u0 d0).
    { unfold initial in Iu0. destruct (st_init A) as [l|] eqn:El.
      - assert (Q : exists g5, init_edges_nodes neqb c all sinit A l g4 = Ok g5).
        { unfold init_edges_nodes. destruct l as [|a l'] eqn:Ell; [destruct Iu0|]. rewrite <- Ell in *. clear a l' Ell.
          match goal with |- context [fold_res ?f l (g4, [])] => destruct (fold_res_total f (fun l1 gs => exists K, ini g4 (fun _ _ => True) l1 (fst gs) (snd gs) K) l (g4, [])) as [r [Er _]] end.
          - exists []. apply ini_start, W4.
          - intros l1 u l2 [ga sa] Eq [K Q]. cbn [fst snd] in *.
            assert (Ju : In u (map fst (st_nodes A))) by (apply (Il l eq_refl); rewrite Eq; apply in_or_app; right; left; reflexivity).
            apply in_map_iff in Ju. destruct Ju as [[u' d] [E Ju]]. cbn [fst] in E. subst u'. rewrite (proj2 (node_state_Ok u d) Ju). cbn [bind].
            destruct (vals_total u d Ju) as [x V]. rewrite V. cbn [bind]. destruct (zlist_mem x sa) eqn:Z.
            + exists (ga, sa). split; [reflexivity|]. apply zlist_mem_In in Z. exists K. eapply ini_skip; eauto.
            + assert (NZ : ~ In x sa) by (intro Y; apply zlist_mem_In in Y; congruence).
              destruct (label_total u d Ju) as [lab L]. rewrite L. cbn [bind]. rewrite (transitions_add_eq sinit u d lab None ga L).
              destruct (ini_edge_total g4 _ l1 ga sa K u d x lab true Q Ju V NZ L Si Sn T4s) as [g' Hg]. rewrite Hg. cbn [bind].
              exists (g', sa ++ [x]). split; [reflexivity|]. exists (K ++ [u]). cbn [fst snd]. eapply ini_add; eauto.
          - rewrite Er. cbn [bind]. eauto. }
        destruct Q as [g5 H5]. destruct (nodes_loop g4 l g5 W4 H5) as [seen [K Q]]. exists g5, (fun _ _ => True), l, seen, K. auto.
      - assert (Q : exists g5, init_edges_compile neqb isinit c all sinit A g4 = Ok g5).
        { unfold init_edges_compile.
          match goal with |- context [fold_res ?f (st_nodes A) (g4, [], [])] => destruct (fold_res_total f (fun l1 gst =>
             (exists K, ini g4 (fun _ d => isinit d = Ok true) (map fst l1) (fst (fst gst)) (snd (fst gst)) K) /\
             forall k, In k (map fst (snd gst)) -> exists u d, In (u, d) (st_nodes A) /\ In k (map fst d)) (st_nodes A) (g4, [], [])) as [r [Er _]] end.
          - split; [exists []; apply ini_start, W4|intros k []].
          - intros l1 [u d] l2 [[ga sa] ta] Eq [[K Q] T]. cbn [fst snd] in *. rewrite map_app. cbn [map fst].
            assert (Ju : In (u, d) (st_nodes A)) by (rewrite Eq; apply in_or_app; right; left; reflexivity).
            destruct (vals_total u d Ju) as [x V]. rewrite V. cbn [bind]. destruct (zlist_mem x sa) eqn:Z.
            + exists (ga, sa, ta). cbn [fst snd]. split; [reflexivity|]. apply zlist_mem_In in Z. split; [exists K; eapply ini_skip; eauto|exact T].
            + assert (NZ : ~ In x sa) by (intro Y; apply zlist_mem_In in Y; congruence).
              assert (Eu : same_items (update ta d) d).
              { intro k. rewrite lookup_update, lookup_rev by (eapply NDd; eauto). destruct (lookup k d) eqn:L; [reflexivity|].
                apply lookup_None. intro J. destruct (T k J) as [u' [d' [I' J']]]. apply lookup_None in L. apply L. eapply Same; eauto. }
              assert (T' : forall k, In k (map fst (update ta d)) -> exists u d, In (u, d) (st_nodes A) /\ In k (map fst d)).
              { intros k J. exists u, d. split; [exact Ju|]. apply lookup_name in J. destruct J as [z J]. rewrite (Eu k) in J. apply lookup_name. eauto. }
              rewrite (isinit_ext _ _ Eu). destruct (Ic eq_refl u d Ju) as [b Hb]. rewrite Hb. cbn [bind]. destruct b.
              * destruct (label_total u d Ju) as [lab L]. rewrite L. cbn [bind]. rewrite (transitions_add_eq sinit u d lab (Some false) ga L).
                destruct (ini_edge_total g4 _ (map fst l1) ga sa K u d x lab false Q Ju V NZ L Si Sn T4s) as [g' Hg]. rewrite Hg. cbn [bind].
                exists (g', sa ++ [x], update ta d). cbn [fst snd]. split; [reflexivity|]. split; [|exact T']. exists (K ++ [u]). eapply ini_add; eauto.
              * exists (ga, sa, update ta d). cbn [fst snd]. split; [reflexivity|]. split; [|exact T']. exists K. eapply ini_reject; eauto. cbv beta. congruence.
          - rewrite Er. cbn [bind]. eauto. }
        destruct Q as [g5 H5]. destruct (compile_loop g4 g5 W4 H5) as [seen [K Q]]. exists g5, (fun _ d => isinit d = Ok true), (map fst (st_nodes A)), seen, K.
        split; [exact H5|]. split; [exact Q|]. split; [apply (in_map fst) in J0; exact J0|]. destruct Iu0 as [d' [J' E']]. assert (d' = d0) by (eapply unique_key; [exact NDn|exact J'|exact J0]). subst d'. exact E'. }
    destruct L5 as [g5 [P [tried [seen [K [H5 [[W5 Q2 Q3 QK Qs Qu Qa Qt] [It Pt]]]]]]]]. rewrite H5. cbn [bind].
    assert (Len : List.length (g_nodes g5) = S (List.length (st_nodes A))).
    { rewrite Q2. assert (Le : List.length (node_list g4) = List.length (sinit :: map fst (st_nodes A))).
      { apply Nat.le_antisymm; apply NoDup_incl_length.
        - exact (wf_nodes _ _ W4).
        - intros n J. apply N4 in J. destruct J as [->|J]; [left; reflexivity|right; exact J].
        - constructor; assumption.
        - intros n [<-|J]; apply N4; auto. }
      unfold node_list in Le. cbn [List.length] in Le. rewrite !map_length in Le. exact Le. }
    rewrite Len, Nat.eqb_refl. cbn [negb].
    destruct (Qa u0 d0 It J0 Pt) as [u' [d' [Ku [J' _]]]]. destruct (QK u' Ku) as [_ [d1 [x1 [J1 [_ [_ [_ [lab1 L1]]]]]]]].
    assert (T5 : trans g5 sinit lab1 u') by (apply Qt; right; split; [reflexivity|]; split; [exact Ku|]; exists d1, lab1; repeat split; auto; intro; reflexivity).
    destruct T5 as [e [I5 [S5 [D5 _]]]]. destruct (successors neqb sinit g5) as [|n ns] eqn:Sc; [|eauto]. exfalso.
    assert (Q : In u' (successors neqb sinit g5)). { unfold successors. apply in_map_iff. exists e. split; [exact D5|]. apply filter_In. split; [exact I5|]. apply neqb_eq, S5. }
    rewrite Sc in Q. destruct Q.
  Qed.
End Strategy.
Print Assumptions strategy2mealy_sound.
Print Assumptions strategy2mealy_complete.
Print Assumptions strategy2mealy_first.
Print Assumptions strategy2mealy_total.

(** ** Counterexamples *)
(** Two initial nodes with the same values but different futures: the second is lost. *)
Definition lost_ex : @strategy string :=
  Strategy [("0", [("x", 0%Z)]); ("1", [("x", 0%Z)]); ("2", [("x", 1%Z)])] [("0", "2"); ("1", "1"); ("2", "2")] (Some ["0"; "1"]).
Theorem strategy2mealy_lost_words_refuted : exists m w,
  strategy2mealy String.eqb (fun _ => Ok true) "Sinit" [("x", DBool)] [] lost_ex = Ok m /\
  strat_words [("x", DBool)] [] lost_ex (fun u => In u ["0"; "1"]) w /\ ~ words (mealy_step m) (m_graph m) w.
Proof.
  let r := eval vm_compute in (strategy2mealy String.eqb (fun _ => Ok true) "Sinit" [("x", DBool)] [] lost_ex) in
    match r with Ok ?x => exists x end.
  assert (S0 : shows [("x", DBool)] [("x", 0%Z)] [("x", VInt 0)]).
  { intros k v. cbn [lookup]. split.
    - destruct (k =? "x")%string; [|discriminate]. intros [= <-]. exists DBool, 0%Z. cbn. auto.
    - intros [dm [z [L1 [L2 L3]]]]. destruct (k =? "x")%string; [|discriminate]. injection L1 as <-. injection L2 as <-. cbn in L3. congruence. }
  assert (S1 : forall d, shows [] d []).
  { intros d k v. cbn [lookup]. split; [discriminate|]. intros [dm [z [L _]]]. discriminate. }
  exists [([("x", VInt 0)], []); ([("x", VInt 0)], [])]. split; [vm_compute; reflexivity|]. split.
  - exists "1", [("x", 0%Z)], "1". split; [right; left; reflexivity|]. split; [right; left; reflexivity|]. do 2 (split; [auto|]).
    econstructor; [|constructor]. split; [right; left; reflexivity|]. exists [("x", 0%Z)]. split; [right; left; reflexivity|]. auto.
  - intros [s [t [Is P]]]. cbn in Is. destruct Is as [<-|[]]. inversion P as [|? ? u ? ? St P']; subst. inversion P' as [|? ? u' ? ? St' P'']; subst.
    clear - St St'. destruct St as [e [I [Ea [Eb _]]]]. destruct St' as [e' [I' [Ea' [_ [Ri _]]]]]. cbn in I, I'.
    assert (e_src e' = "0"). { rewrite Ea', <- Eb. repeat (destruct I as [<-|I]; [cbn in *; congruence|]). destruct I. }
    clear - I' H Ri. repeat (destruct I' as [<-|I']; [cbn in *; try discriminate|]); [|destruct I'].
    destruct (proj1 (Ri "x" (VInt 0)) eq_refl) as [_ Q]. discriminate Q.
Qed.
(** A variable named like the parameter [key] is dropped from the labels. *)
Definition key_ex (k : string) : @strategy string :=
  Strategy [("0", [(k, 0%Z)]); ("1", [(k, 1%Z)])] [("0", "1"); ("1", "0")] (Some ["0"]).
Theorem strategy2mealy_reserved_name_refuted :
  (exists m, strategy2mealy String.eqb (fun _ => Ok true) "Sinit" [("key", DBool)] [] (key_ex "key") = Ok m /\
     forall e, In e (g_edges (m_graph m)) -> e_attr e = []) /\
  (exists m, strategy2mealy String.eqb (fun _ => Ok true) "Sinit" [("kez", DBool)] [] (key_ex "kez") = Ok m /\
     forall e, In e (g_edges (m_graph m)) -> e_attr e <> []) /\
  (forall k, In k param_names -> strategy2mealy String.eqb (fun _ => Ok true) "Sinit" [(k, DBool)] [] (key_ex k) = Err "TypeError").
Proof.
  split; [|split].
  - let r := eval vm_compute in (strategy2mealy String.eqb (fun _ => Ok true) "Sinit" [("key", DBool)] [] (key_ex "key")) in
      match r with Ok ?x => exists x end. split; [vm_compute; reflexivity|]. intros e I. cbn in I. repeat (destruct I as [<-|I]; [reflexivity|]). destruct I.
  - let r := eval vm_compute in (strategy2mealy String.eqb (fun _ => Ok true) "Sinit" [("kez", DBool)] [] (key_ex "kez")) in
      match r with Ok ?x => exists x end. split; [vm_compute; reflexivity|]. intros e I. cbn in I. repeat (destruct I as [<-|I]; [discriminate|]). destruct I.
  - intros k I. cbn in I. repeat (destruct I as [<-|I]; [vm_compute; reflexivity|]). destruct I.
Qed.

(** ** A strategy that meets all hypotheses *)
Definition strat_ex_env : vardecl := [("x", DBool); ("n", DInt 2 5)].
Definition strat_ex_sys : vardecl := [("y", DEnum ["a"; "b"])].
Definition strat_ex : @strategy string :=
  Strategy [("0", [("x", 0%Z); ("n", 3%Z); ("y", 1%Z)]); ("1", [("x", 1%Z); ("n", 2%Z); ("y", 0%Z)]); ("2", [("x", 1%Z); ("n", 5%Z); ("y", 0%Z)])]
           [("0", "1"); ("1", "2"); ("2", "0"); ("1", "1")] (Some ["0"; "2"]).
Example strat_ex_hyps :
  NoDup (map fst strat_ex_env) /\ NoDup (map fst strat_ex_sys) /\
  (forall k, In k (map fst strat_ex_env) -> ~ In k (map fst strat_ex_sys)) /\
  (forall k, In k (map fst strat_ex_env) \/ In k (map fst strat_ex_sys) -> ~ In k reserved) /\
  NoDup (map fst (st_nodes strat_ex)) /\ NoDup (st_edges strat_ex) /\
  (forall u v, In (u, v) (st_edges strat_ex) -> In u (map fst (st_nodes strat_ex)) /\ In v (map fst (st_nodes strat_ex))) /\
  (forall u d, In (u, d) (st_nodes strat_ex) -> NoDup (map fst d) /\ map fst d = ["x"; "n"; "y"] /\
     forall k dm, lookup k strat_ex_env = Some dm \/ lookup k strat_ex_sys = Some dm -> exists z, lookup k d = Some z /\ in_dom dm z).
Proof.
  assert (D : forall (A : Type) (eqd : forall a b : A, {a = b} + {a <> b}) (l : list A), nodup eqd l = l -> NoDup l) by (intros A eqd l <-; apply NoDup_nodup).
  split; [apply (D _ string_dec); reflexivity|]. split; [apply (D _ string_dec); reflexivity|].
  split; [intros k [<-|[<-|[]]] [E|[]]; discriminate|].
  split; [intros k [[<-|[<-|[]]]|[<-|[]]] I; cbn in I; intuition discriminate|].
  split; [apply (D _ string_dec); reflexivity|].
  split; [repeat constructor; cbn; intuition congruence|].
  split; [intros u v I; cbn in I; repeat (destruct I as [[= <- <-]|I]; [cbn; auto 8|]); destruct I|].
  intros u d I. cbn in I.
  assert (Q : d = [("x", 0%Z); ("n", 3%Z); ("y", 1%Z)] \/ d = [("x", 1%Z); ("n", 2%Z); ("y", 0%Z)] \/ d = [("x", 1%Z); ("n", 5%Z); ("y", 0%Z)]).
  { destruct I as [[= _ <-]|[[= _ <-]|[[= _ <-]|[]]]]; auto. }
  clear I. assert (F : map fst d = ["x"; "n"; "y"]) by (destruct Q as [->|[->| ->]]; reflexivity).
  split; [rewrite F; apply (D _ string_dec); reflexivity|]. split; [exact F|].
  intros k dm L. cbn [lookup strat_ex_env strat_ex_sys] in L.
  destruct (k =? "x")%string eqn:Kx; [apply String.eqb_eq in Kx; subst k; assert (dm = DBool) by (destruct L as [L|L]; cbn in L; congruence)|
  destruct (k =? "n")%string eqn:Kn; [apply String.eqb_eq in Kn; subst k; assert (dm = DInt 2 5) by (destruct L as [L|L]; cbn in L; congruence)|
  destruct (k =? "y")%string eqn:Ky; [apply String.eqb_eq in Ky; subst k; assert (dm = DEnum ["a"; "b"]) by (destruct L as [L|L]; cbn in L; congruence)|
  destruct L; discriminate]]]; subst dm; destruct Q as [->|[->| ->]]; (eexists; split; [reflexivity|cbn; lia]).
Qed.
Example strat_ex_result : exists m, strategy2mealy String.eqb (fun _ => Ok true) "Sinit" strat_ex_env strat_ex_sys strat_ex = Ok m /\
  List.length (g_edges (m_graph m)) = 6 /\ In (Edge "Sinit" "2" 0 [("x", VInt 1); ("n", VInt 5); ("y", VStr "a")]) (g_edges (m_graph m)).
Proof.
  let r := eval vm_compute in (strategy2mealy String.eqb (fun _ => Ok true) "Sinit" strat_ex_env strat_ex_sys strat_ex) in
    match r with Ok ?x => exists x end. split; [vm_compute; reflexivity|]. split; [reflexivity|]. cbn. auto 10.
Qed.
Print Assumptions strategy2mealy_lost_words_refuted.
Print Assumptions strategy2mealy_reserved_name_refuted.
