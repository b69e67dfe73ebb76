(** C41: Dijkstra's search returns a shortest route, or finds that there is none. *)
From Coq Require Import List String Bool ZArith Lia Permutation.
From Verif Require Import M_Base M_Dict M_Graph M_Machine M_Cost M_Dijkstra S_Cost S_Dijkstra L_Dict L_Graph L_Build L_Cost L_Machine T_Cost.
Import ListNotations.
Open Scope string_scope.
Open Scope list_scope.
Open Scope nat_scope.

(** ** Arithmetic on costs that stand for vectors *)
Lemma vadd_repeat a b k : vadd (repeat a k) (repeat b k) = repeat (a + b)%Z k.
Proof. induction k as [|k IH]; [reflexivity|]. cbn. rewrite IH. reflexivity. Qed.
Lemma combine_add x : forall y, List.length x = List.length y ->
  map (fun p => num_add (fst p) (snd p)) (combine (vec x) (vec y)) = vec (vadd x y).
Proof. induction x as [|a x IH]; intros [|b y] L; try discriminate; [reflexivity|]. injection L as L. cbn. f_equal. exact (IH y L). Qed.
Lemma add_stands k a b x y : stands k a x -> stands k b y -> exists s, py_add a b = Ok s /\ stands k s (vadd x y).
Proof.
  intros A B. pose proof (proj1 A) as La. pose proof (proj1 B) as Lb.
  assert (LL : List.length (vadd x y) = k) by (rewrite vadd_length; congruence).
  destruct (proj2 A) as [-> |[z [-> ->]]].
  - cbn [py_add vcost]. unfold vec_add. rewrite (convert_stands k x b y La B). cbn [bind]. rewrite combine_add by congruence.
    eexists. split; [reflexivity|]. split; [exact LL|left; reflexivity].
  - destruct (proj2 B) as [-> |[z' [-> ->]]].
    + cbn [py_add vcost]. unfold vec_add. rewrite (convert_stands k y (Sc (Fin z)) (repeat z k) Lb A). cbn [bind].
      rewrite combine_add by congruence. eexists. split; [reflexivity|]. rewrite vadd_comm. split; [rewrite vadd_length; congruence|left; reflexivity].
    + cbn [py_add num_add]. eexists. split; [reflexivity|]. split; [exact LL|]. right. exists (z + z')%Z. split; [reflexivity|apply vadd_repeat].
Qed.
Lemma lexlt_repeat a b k : 0 < k -> (a < b)%Z -> lexlt (repeat a k) (repeat b k).
Proof. intros P L. destruct k; [lia|]. cbn. apply lexlt_cons. left. exact L. Qed.
Lemma lt_stands k a b x y : 0 < k -> stands k a x -> stands k b y ->
  exists r, py_lt a b = Ok r /\ (r = true -> lexle x y) /\ (r = false -> lexle y x).
Proof.
  intros P A B. pose proof (proj1 A) as La. pose proof (proj1 B) as Lb.
  destruct (proj2 A) as [-> |[z [-> ->]]].
  - destruct (vec_lt_stands k x b y La B) as [r [H R]]. exists r. split; [exact H|]. split.
    + intro E. left. apply R, E.
    + intro E. destruct (lex_total x y) as [K|[-> |K]]; [congruence|apply R in K; congruence|apply lexle_refl|left; exact K].
  - destruct (proj2 B) as [-> |[z' [-> ->]]].
    + destruct (vec_gt_stands k y (Sc (Fin z)) (repeat z k) Lb A) as [r [H R]]. exists r. split; [exact H|]. split.
      * apply R.
      * intro E. destruct (lex_total (repeat z k) y) as [K|[K|K]]; [congruence| | |left; exact K].
        -- assert (X : lexle (repeat z k) y) by (left; exact K). apply R in X. congruence.
        -- right. auto.
    + cbn [py_lt num_gtb]. eexists. split; [reflexivity|]. rewrite Z.gtb_ltb. split; intro E.
      * left. apply Z.ltb_lt in E. apply lexlt_repeat; assumption.
      * apply Z.ltb_ge in E. assert (z' = z \/ z' < z)%Z as [-> |K] by lia; [apply lexle_refl|left; apply lexlt_repeat; assumption].
Qed.
Lemma eq_stands k a b x y : stands k a x -> stands k b y -> exists r, py_eq a b = Ok r /\ (r = true -> x = y).
Proof.
  intros A B. pose proof (proj1 A) as La. pose proof (proj1 B) as Lb.
  destruct (proj2 A) as [-> |[z [-> ->]]].
  - destruct (vec_eq_stands k x b y La B) as [r [H R]]. exists r. split; [exact H|apply R].
  - destruct (proj2 B) as [-> |[z' [-> ->]]].
    + destruct (vec_eq_stands k y (Sc (Fin z)) (repeat z k) Lb A) as [r [H R]]. exists r. split; [exact H|]. intro E. symmetry. apply R, E.
    + cbn [py_eq num_eqb]. eexists. split; [reflexivity|]. intro E. apply Z.eqb_eq in E. congruence.
Qed.
Lemma zero_stands k : stands k zero (zeros k).
Proof. split; [apply zeros_length|right; exists 0%Z; auto]. Qed.
Lemma stands_fun k c x y : 0 < k -> stands k c x -> stands k c y -> x = y.
Proof.
  intros P [Lx [Ex|[z [Ex Vx]]]] [Ly [Ey|[z' [Ey Vy]]]]; rewrite Ex in Ey.
  - injection Ey as E. revert E. clear. revert y. unfold vec. induction x as [|a x IH]; intros [|b y] E; try discriminate; [reflexivity|].
    cbn in E. injection E as -> E. f_equal. exact (IH y E).
  - discriminate.
  - discriminate.
  - injection Ey as ->. congruence.
Qed.

Section Search.
  Context {N V : Type} (neqb nlt : N -> N -> bool) (veqb : V -> V -> bool) (cost_of : V -> option cost) (c : config V).
  Hypothesis neqb_eq : forall a b, neqb a b = true <-> a = b.
  Variables (g : graph N V) (cost_key : string) (k : nat) (weight : edge N V -> list Z).
  Hypothesis k_pos : 0 < k.
  (** Every edge carries a cost that stands for its weight, which is not below zero. *)
  Hypothesis weights : forall e, In e (g_edges g) ->
    exists w, edge_cost cost_of cost_key e = Ok w /\ stands k w (weight e) /\ lexle (zeros k) (weight e).
  Variables (source : N) (target : N -> bool).

  Notation route := (route g).
  Notation total := (total weight k).

  Lemma weight_length e : In e (g_edges g) -> List.length (weight e) = k.
  Proof. intro I. destruct (weights e I) as [w [_ [[L _] _]]]. exact L. Qed.
  Lemma route_app s es1 es2 t : route s (es1 ++ es2) t <-> exists u, route s es1 u /\ route u es2 t.
  Proof.
    revert s. induction es1 as [|e r IH]; intro s; cbn [S_Dijkstra.route app].
    - split; [intro H; exists s; auto|intros [u [-> H]]; exact H].
    - rewrite IH. split; [intros [A [B [u [C D]]]]; exists u; auto|intros [u [[A [B C]] D]]; eauto].
  Qed.
  Lemma route_snoc s es e t : route s (es ++ [e]) t <-> route s es (e_src e) /\ In e (g_edges g) /\ t = e_dst e.
  Proof.
    rewrite route_app. cbn [S_Dijkstra.route]. split.
    - intros [u [A [B [C D]]]]. subst. auto.
    - intros [A [B ->]]. exists (e_src e). auto.
  Qed.
  Lemma route_edges s es : forall t, route s es t -> forall e, In e es -> In e (g_edges g).
  Proof. revert s. induction es as [|x r IH]; intros s t; cbn [S_Dijkstra.route]; [intros _ e []|]. intros [A [B C]] e [<-|I]; [exact A|eauto]. Qed.
  Lemma total_length s es t : route s es t -> List.length (total es) = k.
  Proof.
    revert s. induction es as [|e r IH]; intros s; cbn [S_Dijkstra.route]; [intros _; apply zeros_length|]. intros [A [B C]].
    unfold S_Dijkstra.total. cbn [map fold_right]. rewrite vadd_length; [apply weight_length, A|].
    rewrite (weight_length e A). symmetry. exact (IH _ C).
  Qed.
  Lemma total_snoc s es e t : route s (es ++ [e]) t -> total (es ++ [e]) = vadd (weight e) (total es).
  Proof.
    revert s. induction es as [|x r IH]; intro s; cbn [app S_Dijkstra.route].
    - intros [A _]. reflexivity.
    - intros [A [B C]]. unfold S_Dijkstra.total. cbn [map fold_right]. fold (total (r ++ [e])). rewrite (IH _ C). fold (total r).
      rewrite !vadd_assoc. f_equal. apply vadd_comm.
  Qed.
  Lemma total_grows s es e t : route s (es ++ [e]) t -> lexle (total es) (total (es ++ [e])).
  Proof.
    intro H. rewrite (total_snoc _ _ _ _ H). apply route_snoc in H. destruct H as [A [B _]]. destruct (weights e B) as [w [_ [[L _] Z]]].
    apply (vadd_le_r _ _ k); [exact (total_length _ _ _ A)|exact L|exact Z].
  Qed.
  Lemma total_nonneg es : forall s t, route s es t -> lexle (zeros k) (total es).
  Proof.
    induction es as [|e es IH] using rev_ind; intros s t H; [apply lexle_refl|].
    eapply lexle_trans; [|exact (total_grows _ _ _ _ H)]. apply route_snoc in H. destruct H as [A _]. eauto.
  Qed.

  (** ** The heap *)
  Definition sound (q : entry N) : Prop :=
    exists es, route source es (q_node q) /\ stands k (q_cost q) (total es) /\ q_path q ++ [q_node q] = nodes_of source es.
  Definition costs (q : entry N) (v : list Z) : Prop := stands k (q_cost q) v.
  Lemma sound_costs q : sound q -> exists v, costs q v.
  Proof. intros [es [_ [S _]]]. exists (total es). exact S. Qed.
  Lemma entry_lt_spec a b x y : costs a x -> costs b y ->
    exists r, entry_lt neqb nlt a b = Ok r /\ (r = true -> lexle x y) /\ (r = false -> lexle y x).
  Proof.
    intros A B. unfold entry_lt. destruct (eq_stands k _ _ x y A B) as [e [-> E]]. cbn [bind]. destruct e.
    - rewrite (E eq_refl). eexists. split; [reflexivity|]. split; intros _; apply lexle_refl.
    - exact (lt_stands k _ _ x y k_pos A B).
  Qed.
  Lemma heappop_spec l : forall e, Forall (fun q => exists v, costs q v) (e :: l) ->
    exists m r, heappop neqb nlt e l = Ok (m, r) /\ Permutation (m :: r) (e :: l) /\
      forall q x y, In q (e :: l) -> costs m x -> costs q y -> lexle x y.
  Proof.
    induction l as [|x r IH]; intros e F; cbn [heappop].
    - exists e, []. split; [reflexivity|]. split; [reflexivity|]. intros q x y [<-|[]] A B. rewrite (stands_fun k _ _ _ k_pos A B). apply lexle_refl.
    - pose proof (Forall_inv F) as [ve Ce]. pose proof (Forall_inv (Forall_inv_tail F)) as [vx Cx]. pose proof (Forall_inv_tail (Forall_inv_tail F)) as Fr.
      destruct (entry_lt_spec x e vx ve Cx Ce) as [b [-> [B1 B2]]]. cbn [bind]. destruct b.
      + destruct (IH x) as [m [r' [-> [P M]]]]; [constructor; eauto|]. exists m, (e :: r'). cbn [bind fst snd]. split; [reflexivity|]. split.
        * rewrite perm_swap, P. reflexivity.
        * intros q a b [<-|I] A B; [|exact (M q a b I A B)]. rewrite (stands_fun k _ _ _ k_pos B Ce).
          eapply lexle_trans; [exact (M x a vx (or_introl eq_refl) A Cx)|auto].
      + destruct (IH e) as [m [r' [-> [P M]]]]; [constructor; eauto|]. exists m, (x :: r'). cbn [bind fst snd]. split; [reflexivity|]. split.
        * rewrite perm_swap, P. apply perm_swap.
        * intros q a b [<-|[<-|I]] A B; [exact (M e a b (or_introl eq_refl) A B)| |exact (M q a b (or_intror I) A B)].
          rewrite (stands_fun k _ _ _ k_pos B Cx). eapply lexle_trans; [exact (M e a ve (or_introl eq_refl) A Ce)|auto].
  Qed.

  (** ** The invariant *)
  Record inv (dist : list (N * cost)) (visited : list N) (Q : list (entry N)) : Prop := {
    i_sound : Forall sound Q;
    i_done : forall u, In u visited -> target u = false /\
      exists d, List.length d = k /\ (forall es, route source es u -> lexle d (total es)) /\
        forall e, In e (g_edges g) -> e_src e = u -> ~ In (e_dst e) visited ->
          exists q v, In q Q /\ q_node q = e_dst e /\ costs q v /\ lexle v (vadd (weight e) d);
    i_dist : forall v cur, get_dist neqb v dist = Some cur -> ~ In v visited -> exists q, In q Q /\ q_node q = v /\ q_cost q = cur;
    i_source : ~ In source visited -> exists q, In q Q /\ q_node q = source /\ costs q (zeros k) }.

  Lemma cut dist visited Q : inv dist visited Q -> forall es t, route source es t -> ~ In t visited ->
    exists q v, In q Q /\ costs q v /\ lexle v (total es).
  Proof.
    intros I es. induction es as [|e es IH] using rev_ind; intros t H D.
    - cbn in H. subst t. destruct (i_source _ _ _ I D) as [q [A [B C]]]. exists q, (zeros k). split; [exact A|]. split; [exact C|]. apply lexle_refl.
    - pose proof H as H'. apply route_snoc in H'. destruct H' as [A [B ->]].
      destruct (nmem neqb (e_src e) visited) eqn:M.
      + apply (nmem_In neqb neqb_eq) in M. destruct (i_done _ _ _ I _ M) as [_ [d [Ld [O X]]]].
        destruct (X e B eq_refl D) as [q [v [I1 [_ [I3 I4]]]]]. exists q, v. split; [exact I1|]. split; [exact I3|].
        eapply lexle_trans; [exact I4|]. rewrite (total_snoc _ _ _ _ H). rewrite (vadd_comm (weight e) d), (vadd_comm (weight e)).
        apply vadd_lexle; [rewrite (weight_length e B); exact Ld|rewrite (weight_length e B); exact (total_length _ _ _ A)|]. apply O, A.
      + destruct (IH (e_src e) A) as [q [v [I1 [I2 I3]]]].
        { intro J. apply (nmem_In neqb neqb_eq) in J. congruence. }
        exists q, v. split; [exact I1|]. split; [exact I2|]. eapply lexle_trans; [exact I3|]. exact (total_grows _ _ _ _ H).
  Qed.

  Lemma get_dist_cons v u x (dist : list (N * cost)) : get_dist neqb v ((u, x) :: dist) = if neqb v u then Some x else get_dist neqb v dist.
  Proof. unfold get_dist. cbn [find fst]. destruct (neqb v u); reflexivity. Qed.

  (** The transitions leaving [u], which was reached by the route [es] at cost [cst]. *)
  Lemma relax_all u es cst visited Q0 : let vs := u :: visited in
    route source es u -> stands k cst (total es) ->
    forall ts dist Q, (forall e, In e ts -> In e (g_edges g) /\ e_src e = u) ->
    Forall sound Q -> incl Q0 Q ->
    (forall v cur, get_dist neqb v dist = Some cur -> ~ In v vs -> exists q, In q Q /\ q_node q = v /\ q_cost q = cur) ->
    exists dist' Q', fold_res (relax neqb cost_of cost_key vs cst (nodes_of source es)) ts (dist, Q) = Ok (dist', Q') /\
      Forall sound Q' /\ incl Q Q' /\ List.length Q' <= List.length Q + List.length ts /\
      (forall v cur, get_dist neqb v dist' = Some cur -> ~ In v vs -> exists q, In q Q' /\ q_node q = v /\ q_cost q = cur) /\
      (forall e, In e ts -> ~ In (e_dst e) vs -> exists q v, In q Q' /\ q_node q = e_dst e /\ costs q v /\ lexle v (vadd (weight e) (total es))).
  Proof.
    intros vs R S ts. induction ts as [|e ts IH]; intros dist Q T F J D.
    - exists dist, Q. cbn [fold_res]. split; [reflexivity|]. split; [exact F|]. split; [apply incl_refl|]. split; [cbn; lia|]. split; [exact D|]. intros e [].
    - destruct (T e (or_introl eq_refl)) as [Ie Se]. destruct (weights e Ie) as [w [Ew [Sw _]]].
      assert (T' : forall x, In x ts -> In x (g_edges g) /\ e_src x = u) by (intros x I; apply T; right; exact I).
      cbn [fold_res]. unfold relax at 1. destruct (nmem neqb (e_dst e) vs) eqn:M.
      + cbn [bind]. destruct (IH dist Q T' F J D) as [d' [Q' [H [A1 [A2 [A3 [A4 A5]]]]]]]. exists d', Q'. split; [exact H|].
        split; [exact A1|]. split; [exact A2|]. split; [cbn; lia|]. split; [exact A4|].
        intros x [<-|I] NI; [|exact (A5 x I NI)]. destruct NI. apply (nmem_In neqb neqb_eq), M.
      + rewrite Ew. cbn [bind]. destruct (add_stands k w cst (weight e) (total es) Sw S) as [s [-> Ss]]. cbn [bind fst snd].
        assert (NI : ~ In (e_dst e) vs). { intro K. apply (nmem_In neqb neqb_eq) in K. congruence. }
        assert (R' : route source (es ++ [e]) (e_dst e)). { apply route_snoc. rewrite Se. auto. }
        assert (PUSH : exists d' Q', fold_res (relax neqb cost_of cost_key vs cst (nodes_of source es)) ts
                  ((e_dst e, s) :: dist, Q ++ [Entry s (e_dst e) (nodes_of source es)]) = Ok (d', Q') /\
           Forall sound Q' /\ incl Q Q' /\ List.length Q' <= List.length Q + List.length (e :: ts) /\
           (forall v cur, get_dist neqb v d' = Some cur -> ~ In v vs -> exists q, In q Q' /\ q_node q = v /\ q_cost q = cur) /\
           (forall x, In x (e :: ts) -> ~ In (e_dst x) vs -> exists q v, In q Q' /\ q_node q = e_dst x /\ costs q v /\ lexle v (vadd (weight x) (total es)))).
        { destruct (IH ((e_dst e, s) :: dist) (Q ++ [Entry s (e_dst e) (nodes_of source es)]) T') as [d' [Q' [H [A1 [A2 [A3 [A4 A5]]]]]]].
          - apply Forall_app. split; [exact F|]. constructor; [|constructor]. exists (es ++ [e]). cbn [q_node q_cost q_path]. split; [exact R'|].
            split; [rewrite (total_snoc _ _ _ _ R'); exact Ss|]. unfold nodes_of. rewrite map_app. reflexivity.
          - intros q I. apply in_or_app. left. apply J, I.
          - intros v cur. rewrite get_dist_cons. destruct (neqb v (e_dst e)) eqn:Ev.
            + intros [= <-] _. apply neqb_eq in Ev. subst v. eexists. split; [apply in_or_app; right; left; reflexivity|]. auto.
            + intros G NV. destruct (D v cur G NV) as [q [B1 B2]]. exists q. split; [apply in_or_app; left; exact B1|exact B2].
          - exists d', Q'. split; [exact H|]. split; [exact A1|]. split; [intros q I; apply A2, in_or_app; left; exact I|].
            split; [rewrite app_length in A3; cbn in A3 |- *; lia|]. split; [exact A4|].
            intros x [<-|I] NX; [|exact (A5 x I NX)]. exists (Entry s (e_dst e) (nodes_of source es)), (vadd (weight e) (total es)).
            split; [apply A2, in_or_app; right; left; reflexivity|]. split; [reflexivity|]. split; [exact Ss|apply lexle_refl]. }
        destruct (get_dist neqb (e_dst e) dist) as [cur|] eqn:G; [|exact PUSH].
        destruct (negb (truth cur)); [exact PUSH|].
        destruct (D _ _ G NI) as [q [Q1 [Q2 Q3]]]. pose proof (proj1 (Forall_forall _ _) F q Q1) as SQ. destruct (sound_costs q SQ) as [vc Vc].
        pose proof Vc as Vc'. unfold costs in Vc'. rewrite Q3 in Vc'.
        destruct (lt_stands k s cur _ vc k_pos Ss Vc') as [b [-> [B1 B2]]]. cbn [bind]. destruct b; [exact PUSH|].
        destruct (IH dist Q T' F J D) as [d' [Q' [H [A1 [A2 [A3 [A4 A5]]]]]]]. exists d', Q'. split; [exact H|].
        split; [exact A1|]. split; [exact A2|]. split; [cbn; lia|]. split; [exact A4|].
        intros x [<-|I] NX; [|exact (A5 x I NX)]. exists q, vc. split; [apply A2, Q1|]. split; [exact Q2|]. split; [exact Vc|auto].
  Qed.

  Lemma find_from u : find_transitions neqb veqb c (Some [u]) None [] g = Ok (filter (fun e => neqb (e_src e) u) (g_edges g)).
  Proof.
    unfold find_transitions.
    assert (A : forall l : list (edge N V), mapr (fun e => Ok (e, true)) l = Ok (map (fun e => (e, true)) l)).
    { induction l as [|x l IH]; [reflexivity|]. cbn [mapr bind]. rewrite IH. reflexivity. }
    rewrite A. cbn [bind]. f_equal. rewrite <- (map_id (filter (fun e => neqb (e_src e) u) (g_edges g))).
    clear weights. induction (g_edges g) as [|x l IH]; [reflexivity|]. cbn [filter nmem existsb].
    destruct (neqb (e_src x) u); cbn [orb andb filter map snd fst]; [f_equal|]; exact IH.
  Qed.

  Definition result (r : cost * list N) : Prop :=
    (r = (Sc Inf, []) /\ unreachable g (eq source) (fun t => target t = true)) \/
    exists es t, snd r = nodes_of source es /\ stands k (fst r) (total es) /\
      shortest g weight k (eq source) (fun t => target t = true) source es t.

  Definition todo (visited : list N) : list (edge N V) := filter (fun e => negb (nmem neqb (e_src e) visited)) (g_edges g).
  Lemma todo_step u visited : nmem neqb u visited = false ->
    List.length (todo visited) = List.length (todo (u :: visited)) + List.length (filter (fun e => neqb (e_src e) u) (g_edges g)).
  Proof.
    intro M. change (todo (u :: visited)) with (filter (fun e => negb (neqb (e_src e) u || nmem neqb (e_src e) visited)) (g_edges g)).
    unfold todo. clear weights. induction (g_edges g) as [|e l IH]; [reflexivity|]. cbn [filter].
    destruct (neqb (e_src e) u) eqn:E.
    - apply neqb_eq in E. rewrite E, M. cbn [negb orb List.length]. lia.
    - cbn [orb]. destruct (nmem neqb (e_src e) visited); cbn [negb List.length]; lia.
  Qed.

  Lemma search_spec fuel : forall dist visited Q, inv dist visited Q -> List.length Q + List.length (todo visited) <= fuel ->
    exists r, search neqb nlt veqb cost_of c g target cost_key fuel dist visited Q = Ok r /\ result r.
  Proof.
    induction fuel as [|fuel IH]; intros dist visited Q I L; destruct Q as [|q rest]; cbn [search].
    - eexists. split; [reflexivity|]. left. split; [reflexivity|]. intros s es t <- R T.
      destruct (nmem neqb t visited) eqn:M; [apply (nmem_In neqb neqb_eq) in M; destruct (i_done _ _ _ I t M); congruence|].
      destruct (cut _ _ _ I es t R) as [q [v [[] _]]]. intro K. apply (nmem_In neqb neqb_eq) in K. congruence.
    - cbn in L. lia.
    - eexists. split; [reflexivity|]. left. split; [reflexivity|]. intros s es t <- R T.
      destruct (nmem neqb t visited) eqn:M; [apply (nmem_In neqb neqb_eq) in M; destruct (i_done _ _ _ I t M); congruence|].
      destruct (cut _ _ _ I es t R) as [q [v [[] _]]]. intro K. apply (nmem_In neqb neqb_eq) in K. congruence.
    - destruct (heappop_spec rest q) as [m [r [-> [P M]]]].
      { eapply Forall_impl; [|exact (i_sound _ _ _ I)]. exact sound_costs. }
      cbn [bind].
      assert (Sm : sound m). { apply (proj1 (Forall_forall _ _) (i_sound _ _ _ I)). apply (Permutation_in m P). left. reflexivity. }
      assert (Sr : Forall sound r). { apply Forall_forall. intros x J. apply (proj1 (Forall_forall _ _) (i_sound _ _ _ I)). apply (Permutation_in x P). right. exact J. }
      assert (KEEP : forall x, In x (q :: rest) -> q_node x <> q_node m -> In x r).
      { intros x J D. apply Permutation_sym in P. apply (Permutation_in x P) in J. destruct J as [J|J]; [congruence|exact J]. }
      assert (LQ : List.length (q :: rest) = S (List.length r)). { rewrite <- (Permutation_length P). reflexivity. }
      destruct (nmem neqb (q_node m) visited) eqn:MV.
      + apply (nmem_In neqb neqb_eq) in MV. apply IH; [|lia]. split.
        * exact Sr.
        * intros u J. destruct (i_done _ _ _ I u J) as [T [d [D1 [D2 D3]]]]. split; [exact T|]. exists d. split; [exact D1|]. split; [exact D2|].
          intros e E1 E2 E3. destruct (D3 e E1 E2 E3) as [x [v [X1 [X2 X3]]]]. exists x, v. split; [|auto]. apply KEEP; [exact X1|]. intro K. apply E3. rewrite <- X2, K. exact MV.
        * intros v cur G NV. destruct (i_dist _ _ _ I v cur G NV) as [x [X1 [X2 X3]]]. exists x. split; [|auto]. apply KEEP; [exact X1|]. intro K. apply NV. rewrite <- X2, K. exact MV.
        * intro NS. destruct (i_source _ _ _ I NS) as [x [X1 [X2 X3]]]. exists x. split; [|auto]. apply KEEP; [exact X1|]. intro K. apply NS. rewrite <- X2, K. exact MV.
      + assert (NV : ~ In (q_node m) visited). { intro K. apply (nmem_In neqb neqb_eq) in K. congruence. }
        destruct Sm as [es [R [S E]]].
        assert (OPT : forall es' t, route source es' t -> ~ In t visited -> lexle (total es) (total es')).
        { intros es' t R' NT. destruct (cut _ _ _ I es' t R' NT) as [x [v [X1 [X2 X3]]]]. eapply lexle_trans; [|exact X3]. exact (M x _ v X1 S X2). }
        destruct (target (q_node m)) eqn:T.
        * eexists. split; [reflexivity|]. right. exists es, (q_node m). cbn [fst snd]. split; [exact E|]. split; [exact S|].
          split; [reflexivity|]. split; [exact R|]. split; [exact T|]. intros s' es' t' <- R' T'. apply (OPT es' t' R').
          intro K. destruct (i_done _ _ _ I t' K). congruence.
        * rewrite find_from. cbn [bind]. rewrite E.
          destruct (relax_all (q_node m) es (q_cost m) visited r R S (filter (fun e => neqb (e_src e) (q_node m)) (g_edges g)) dist r) as
            [d' [Q' [-> [A1 [A2 [A3 [A4 A5]]]]]]].
          { intros e J. apply filter_In in J. destruct J as [J K]. split; [exact J|apply neqb_eq, K]. }
          { exact Sr. } { apply incl_refl. }
          { intros v cur G NI. destruct (i_dist _ _ _ I v cur G) as [x [X1 [X2 X3]]]; [intro K; apply NI; right; exact K|]. exists x. split; [|auto].
            apply KEEP; [exact X1|]. intro K. apply NI. left. congruence. }
          cbn [bind fst snd]. apply IH; [|pose proof (todo_step (q_node m) visited MV); lia]. split.
          -- exact A1.
          -- intros u [<-|J].
             ++ split; [exact T|]. exists (total es). split; [exact (total_length _ _ _ R)|]. split; [intros es' R'; exact (OPT es' _ R' NV)|].
                intros e E1 E2 E3. apply A5; [|exact E3]. apply filter_In. split; [exact E1|apply neqb_eq, E2].
             ++ destruct (i_done _ _ _ I u J) as [T' [d [D1 [D2 D3]]]]. split; [exact T'|]. exists d. split; [exact D1|]. split; [exact D2|].
                intros e E1 E2 E3. destruct (D3 e E1 E2) as [x [v [X1 [X2 X3]]]]; [intro K; apply E3; right; exact K|]. exists x, v. split; [|auto].
                apply A2. apply KEEP; [exact X1|]. intro K. apply E3. left. congruence.
          -- exact A4.
          -- intro NS. destruct (i_source _ _ _ I) as [x [X1 [X2 X3]]]; [intro K; apply NS; right; exact K|]. exists x. split; [|auto].
             apply A2. apply KEEP; [exact X1|]. intro K. apply NS. left. congruence.
  Qed.

  (** One source: within one round more than there are edges, the search returns a shortest
      route to a target together with its weight, or infinity if there is no route. *)
  Theorem dijkstra_spec fuel : S (List.length (g_edges g)) <= fuel ->
    exists r, dijkstra neqb nlt veqb cost_of c fuel g source target cost_key = Ok r /\ result r.
  Proof.
    intro L. unfold dijkstra. apply search_spec.
    - split.
      + constructor; [|constructor]. exists []. cbn [q_node q_cost q_path]. split; [reflexivity|]. split; [apply zero_stands|reflexivity].
      + intros u [].
      + intros v cur. rewrite get_dist_cons. destruct (neqb v source) eqn:E; [|discriminate]. intros [= <-] _. apply neqb_eq in E.
        eexists. split; [left; reflexivity|]. auto.
      + intros _. eexists. split; [left; reflexivity|]. split; [reflexivity|apply zero_stands].
    - unfold todo. cbn. assert (X : forall l : list (edge N V), List.length (filter (fun _ => true) l) = List.length l).
      { induction l as [|x l IHl]; [reflexivity|]. cbn. congruence. }
      rewrite X. exact L.
  Qed.
End Search.

Section Multiple.
  Context {N V : Type} (neqb nlt : N -> N -> bool) (veqb : V -> V -> bool) (cost_of : V -> option cost) (c : config V).
  Hypothesis neqb_eq : forall a b, neqb a b = true <-> a = b.
  Variables (g : graph N V) (cost_key : string) (k : nat) (weight : edge N V -> list Z).
  Hypothesis k_pos : 0 < k.
  Hypothesis weights : forall e, In e (g_edges g) ->
    exists w, edge_cost cost_of cost_key e = Ok w /\ stands k w (weight e) /\ lexle (zeros k) (weight e).
  Variables (target : N -> bool).

  Lemma lt_inf cc v : stands k cc v -> py_lt cc (Sc Inf) = Ok true /\ py_lt (Sc Inf) cc = Ok false.
  Proof.
    intros [L [-> |[z [-> ->]]]]; [|split; reflexivity]. cbn [py_lt vcost]. unfold vec_lt, vec_gt, vec_eq, convert.
    rewrite repeat_length, Nat.eqb_refl. cbn [bind]. destruct v as [|a v]; [cbn in L; lia|]. split; reflexivity.
  Qed.
  Definition result_multiple (sources : list N) (r : cost * list N) : Prop :=
    (r = (Sc Inf, []) /\ unreachable g (fun s => In s sources) (fun t => target t = true)) \/
    exists s es t, snd r = nodes_of s es /\ stands k (fst r) (total weight k es) /\
      shortest g weight k (fun s => In s sources) (fun t => target t = true) s es t.

  (** Several sources: the shortest route over all of them. *)
  Theorem dijkstra_multiple_spec fuel sources : S (List.length (g_edges g)) <= fuel ->
    exists r, dijkstra_multiple neqb nlt veqb cost_of c fuel g sources target cost_key = Ok r /\ result_multiple sources r.
  Proof.
    intro L. unfold dijkstra_multiple.
    assert (GEN : forall rest done best, result_multiple done best ->
      exists r, fold_res (from_source neqb nlt veqb cost_of c fuel g target cost_key) rest best = Ok r /\ result_multiple (done ++ rest) r).
    { induction rest as [|s rest IH]; intros done best B.
      - exists best. rewrite app_nil_r. split; [reflexivity|exact B].
      - cbn [fold_res]. unfold from_source at 1.
        destruct (dijkstra_spec neqb nlt veqb cost_of c neqb_eq g cost_key k weight k_pos weights s target fuel L) as [r [-> R]]. cbn [bind].
        assert (X : exists b, py_lt (fst r) (fst best) = Ok b /\ result_multiple (done ++ [s]) (if b then r else best)).
        { destruct B as [[-> UB]|[sb [eb [tb [B1 [B2 [B3 [B4 [B5 B6]]]]]]]]], R as [[-> UR]|[er [tr [R1 [R2 [R3 [R4 [R5 R6]]]]]]]].
          - exists false. split; [reflexivity|]. left. split; [reflexivity|]. intros x es t J. apply in_app_or in J. destruct J as [J|[<-|[]]]; [exact (UB x es t J)|exact (UR s es t eq_refl)].
          - exists true. split; [exact (proj1 (lt_inf _ _ R2))|]. right. exists s, er, tr. split; [exact R1|]. split; [exact R2|].
            split; [apply in_or_app; right; left; reflexivity|]. split; [exact R4|]. split; [exact R5|]. intros s' es' t' J R' T'.
            apply in_app_or in J. destruct J as [J|[<-|[]]]; [destruct (UB s' es' t' J R' T')|exact (R6 s es' t' eq_refl R' T')].
          - exists false. split; [exact (proj2 (lt_inf _ _ B2))|]. right. exists sb, eb, tb. split; [exact B1|]. split; [exact B2|].
            split; [apply in_or_app; left; exact B3|]. split; [exact B4|]. split; [exact B5|]. intros s' es' t' J R' T'.
            apply in_app_or in J. destruct J as [J|[<-|[]]]; [exact (B6 s' es' t' J R' T')|destruct (UR s es' t' eq_refl R' T')].
          - destruct (lt_stands k _ _ _ _ k_pos R2 B2) as [b [-> [X1 X2]]]. exists b. split; [reflexivity|]. destruct b.
            + right. exists s, er, tr. split; [exact R1|]. split; [exact R2|].
              split; [apply in_or_app; right; left; reflexivity|]. split; [exact R4|]. split; [exact R5|]. intros s' es' t' J R' T'.
              apply in_app_or in J. destruct J as [J|[<-|[]]]; [eapply lexle_trans; [exact (X1 eq_refl)|exact (B6 s' es' t' J R' T')]|exact (R6 s es' t' eq_refl R' T')].
            + right. exists sb, eb, tb. split; [exact B1|]. split; [exact B2|].
              split; [apply in_or_app; left; exact B3|]. split; [exact B4|]. split; [exact B5|]. intros s' es' t' J R' T'.
              apply in_app_or in J. destruct J as [J|[<-|[]]]; [exact (B6 s' es' t' J R' T')|eapply lexle_trans; [exact (X2 eq_refl)|exact (R6 s es' t' eq_refl R' T')]]. }
        destruct X as [b [-> X]]. cbn [bind]. destruct (IH (done ++ [s]) _ X) as [r' [H R']]. exists r'. split; [exact H|]. rewrite <- app_assoc in R'. exact R'. }
    apply (GEN sources []). left. split; [reflexivity|]. intros s es t [].
  Qed.
End Multiple.

(** ** Concrete graphs *)
Definition read_cost (v : cost) : option cost := Some v.
Definition roads : graph nat cost :=
  Graph [(0, []); (1, []); (2, []); (3, []); (4, [])]
    [Edge 0 1 0 [("cost", Sc (Fin 4))]; Edge 0 2 0 [("cost", Sc (Fin 1))]; Edge 2 1 0 [("cost", Sc (Fin 2))]; Edge 1 3 0 [("cost", Sc (Fin 1))];
     Edge 3 0 0 [("cost", Sc (Fin 0))]; Edge 0 1 1 [("cost", Sc (Fin 9))]] [].
Definition tolls : graph nat cost :=
  Graph [(0, []); (1, []); (2, [])]
    [Edge 0 2 0 [("cost", vcost [1; 0]%Z)]; Edge 0 1 0 [("cost", vcost [0; 7]%Z)]; Edge 1 2 0 [("cost", vcost [0; 9]%Z)]] [].
Definition cfg : config cost := Config [] [] [] [].
Definition eqc (a b : cost) : bool := false.
Definition weight1 (e : edge nat cost) : list Z := match lookup "cost" (e_attr e) with Some (Sc (Fin z)) => [z] | _ => [] end.
Definition weight2 (e : edge nat cost) : list Z :=
  match lookup "cost" (e_attr e) with Some (Vec l) => map (fun x => match x with Fin z => z | Inf => 0%Z end) l | _ => [] end.
Lemma roads_weights e : In e (g_edges roads) ->
  exists w, edge_cost read_cost "cost" e = Ok w /\ stands 1 w (weight1 e) /\ lexle (zeros 1) (weight1 e).
Proof.
  assert (X : forall z : Z, (0 <= z)%Z -> lexle (zeros 1) [z]).
  { intros z H. assert (z = 0 \/ 0 < z)%Z as [-> |K] by lia; [right; reflexivity|left; apply lexlt_cons; left; exact K]. }
  cbn [g_edges roads]. intro H. repeat (destruct H as [<-|H]; [eexists; split; [reflexivity|]; split; [split; [reflexivity|]; right; eexists; split; reflexivity|apply X; cbn; lia]|]).
  destruct H.
Qed.
Lemma tolls_weights e : In e (g_edges tolls) ->
  exists w, edge_cost read_cost "cost" e = Ok w /\ stands 2 w (weight2 e) /\ lexle (zeros 2) (weight2 e).
Proof.
  assert (X : forall z y : Z, (0 <= z)%Z -> (0 <= y)%Z -> lexle (zeros 2) [z; y]).
  { intros z y H J. unfold lexle. assert (z = 0 \/ 0 < z)%Z as [-> |K] by lia; [|left; apply lexlt_cons; left; exact K].
    assert (y = 0 \/ 0 < y)%Z as [-> |K] by lia; [right; reflexivity|left; apply lexlt_cons; right; split; [reflexivity|]; apply lexlt_cons; left; exact K]. }
  cbn [g_edges tolls]. intro H. repeat (destruct H as [<-|H]; [eexists; split; [reflexivity|]; split; [split; [reflexivity|]; left; reflexivity|apply X; cbn; lia]|]).
  destruct H.
Qed.
Example roads_example : dijkstra Nat.eqb Nat.ltb eqc read_cost cfg 7 roads 0 (Nat.eqb 3) "cost" = Ok (Sc (Fin 4), [0; 2; 1; 3]) /\
  dijkstra Nat.eqb Nat.ltb eqc read_cost cfg 7 roads 0 (Nat.eqb 4) "cost" = Ok (Sc Inf, []) /\
  dijkstra_multiple Nat.eqb Nat.ltb eqc read_cost cfg 7 roads [0; 2; 4] (Nat.eqb 3) "cost" = Ok (Sc (Fin 3), [2; 1; 3]) /\
  exists r, dijkstra Nat.eqb Nat.ltb eqc read_cost cfg 7 roads 0 (Nat.eqb 3) "cost" = Ok r /\ result roads 1 weight1 0 (Nat.eqb 3) r.
Proof.
  do 3 (split; [vm_compute; reflexivity|]).
  apply (dijkstra_spec Nat.eqb Nat.ltb eqc read_cost cfg Nat.eqb_eq roads "cost" 1 weight1 (le_n 1) roads_weights 0 (Nat.eqb 3) 7). cbn. lia.
Qed.
Example tolls_example : dijkstra Nat.eqb Nat.ltb eqc read_cost cfg 4 tolls 0 (Nat.eqb 2) "cost" = Ok (vcost [0; 16]%Z, [0; 1; 2]) /\
  exists r, dijkstra_multiple Nat.eqb Nat.ltb eqc read_cost cfg 4 tolls [0; 1] (Nat.eqb 2) "cost" = Ok r /\ result_multiple tolls 2 weight2 (Nat.eqb 2) [0; 1] r.
Proof.
  split; [vm_compute; reflexivity|].
  apply (dijkstra_multiple_spec Nat.eqb Nat.ltb eqc read_cost cfg Nat.eqb_eq tolls "cost" 2 weight2 (le_S _ _ (le_n 1)) tolls_weights (Nat.eqb 2) 4). cbn. lia.
Qed.

Print Assumptions dijkstra_spec.
Print Assumptions dijkstra_multiple_spec.
