(** C43: minimum-violation planning. *)
From Coq Require Import List String Bool ZArith Lia.
From Verif Require Import M_Base M_Dict M_Graph M_Machine M_Cost M_Dijkstra M_Prio M_Mvp S_Run S_Cost S_Dijkstra S_Mvp.
From Verif Require Import L_Dict L_Graph L_Build L_Cost L_Machine T_Cost T_Dijkstra.
Import ListNotations.
Open Scope string_scope.
Open Scope list_scope.
Open Scope nat_scope.

(** ** Equality tests *)
Lemma strings_eqb_eq a : forall b, strings_eqb a b = true <-> a = b.
Proof.
  induction a as [|x a IH]; intros [|y b]; cbn; try (split; congruence). rewrite andb_true_iff, String.eqb_eq, IH. split; [intros [-> ->]; reflexivity|intros [= -> ->]; auto].
Qed.
Lemma num_eqb_eq a b : num_eqb a b = true <-> a = b.
Proof. destruct a, b; cbn; try (split; congruence). rewrite Z.eqb_eq. split; congruence. Qed.
Lemma nums_eqb_eq a : forall b, nums_eqb a b = true <-> a = b.
Proof.
  induction a as [|x a IH]; intros [|y b]; cbn; try (split; congruence). rewrite andb_true_iff, num_eqb_eq, IH. split; [intros [-> ->]; reflexivity|intros [= -> ->]; auto].
Qed.
Lemma set_eqb_spec a b : set_eqb a b = true <-> same_set a b.
Proof.
  unfold set_eqb, subset_b, same_set. rewrite andb_true_iff, !forallb_forall.
  assert (X : forall (a b : list string), (forall x, In x a -> existsb (String.eqb x) b = true) <-> forall x, In x a -> In x b).
  { intros u v. split; intros H x I; specialize (H x I).
    - apply existsb_exists in H. destruct H as [y [J E]]. apply String.eqb_eq in E. congruence.
    - apply existsb_exists. exists x. split; [exact H|apply String.eqb_refl]. }
  rewrite !X. firstorder.
Qed.
Lemma index_refl s : String.index 0 s s = Some 0.
Proof.
  assert (P : prefix s s = true). { induction s as [|c s IH]; [reflexivity|]. cbn. destruct (Ascii.ascii_dec c c); [exact IH|congruence]. }
  destruct s as [|c s]; [reflexivity|]. cbn [String.index]. rewrite P. reflexivity.
Qed.

(** ** Vectors *)
Definition nonneg (v : list Z) : Prop := forall z, In z v -> (0 <= z)%Z.
Lemma nonneg_lexle v : nonneg v -> lexle (zeros (List.length v)) v.
Proof.
  induction v as [|a v IH]; intro H; [right; reflexivity|]. cbn. assert (0 <= a)%Z by (apply H; left; reflexivity).
  destruct (Z.eq_dec a 0) as [-> |NE].
  - destruct IH as [K|K]; [intros z I; apply H; right; exact I|left; apply lexlt_cons; right; auto|right; unfold zeros in K at 1; cbn in K; rewrite <- K at 2; reflexivity].
  - left. apply lexlt_cons. left. lia.
Qed.
Lemma vadd_snoc a : forall b x y, List.length a = List.length b -> vadd (a ++ [x]) (b ++ [y]) = vadd a b ++ [(x + y)%Z].
Proof. induction a as [|p a IH]; intros [|q b] x y L; try discriminate; [reflexivity|]. injection L as L. cbn. rewrite IH by exact L. reflexivity. Qed.
Lemma zeros_snoc k : zeros (S k) = zeros k ++ [0%Z].
Proof. induction k as [|k IH]; [reflexivity|]. cbn in *. unfold zeros in IH. cbn in IH. f_equal. exact IH. Qed.

(** ** Violations *)
Section Violations.
  Variable allowed_by : rule automaton -> list string -> bool.
  Hypothesis allowed_spec : forall r ap, allowed_by r ap = true <-> allows r ap.

  Lemma add_at_spec z : forall n a m f, n < m ->
    add_at n z (vec (map f (List.seq a m))) = Ok (vec (map (fun l => if Nat.eqb l (a + n) then (f l + z)%Z else f l) (List.seq a m))).
  Proof.
    induction n as [|n IH]; intros a [|m] f L; try lia; cbn [List.seq map vec add_at].
    - rewrite Nat.add_0_r, Nat.eqb_refl. cbn [num_add]. do 3 f_equal. apply map_ext_in. intros l I. apply in_seq in I.
      destruct (Nat.eqb_spec l a); [lia|reflexivity].
    - change (map Fin (map f (List.seq (S a) m))) with (vec (map f (List.seq (S a) m))). rewrite IH by lia. cbn [bind].
      destruct (Nat.eqb_spec a (a + S n)); [lia|]. do 2 f_equal. replace (a + S n) with (S a + n) by lia. reflexivity.
  Qed.
  Lemma labels_ok (q : string) (l : list (edge string (list string))) :
    (forall e, In e l -> e_src e = q /\ e_dst e = q /\ exists w, lookup "letter" (e_attr e) = Some w) ->
    filter (fun e => String.eqb (e_src e) q && substring_of (e_dst e) q) l = l /\
    exists ls, mapr letter l = Ok ls /\ forall w, In w ls <-> exists e, In e l /\ lookup "letter" (e_attr e) = Some w.
  Proof.
    induction l as [|e l IH]; intro H.
    - split; [reflexivity|]. exists []. split; [reflexivity|]. intro w. split; [intros []|intros [e [[] _]]].
    - destruct IH as [F [ls [M E]]]; [intros x I; apply H; right; exact I|]. destruct (H e (or_introl eq_refl)) as [A [B [w C]]]. split.
      + cbn [filter]. rewrite A, B, String.eqb_refl. unfold substring_of. rewrite index_refl. cbn [andb]. f_equal. exact F.
      + exists (w :: ls). cbn [mapr]. unfold letter at 1. rewrite C. cbn [of_opt bind]. rewrite M. cbn [bind]. split; [reflexivity|]. intro v. split.
        * intros [<-|I]; [exists e; split; [left; reflexivity|exact C]|]. apply E in I. destruct I as [e' [I K]]. exists e'. split; [right; exact I|exact K].
        * intros [e' [[<-|I] K]]; [left; congruence|]. right. apply E. eauto.
  Qed.
  Lemma violation_spec levels (rs : rules) qs ap : Forall2 single rs qs -> (forall r, In r rs -> r_level r < levels) ->
    rule_violation_cost levels rs qs qs ap = Ok (vec (penalties levels rs allowed_by ap)).
  Proof.
    intros F L. unfold rule_violation_cost.
    assert (G : forall f, fold_res (charge ap) (combine rs (combine qs qs)) (vec (map f (List.seq 0 levels))) =
      Ok (vec (map (fun l => (f l + penalty rs allowed_by ap l)%Z) (List.seq 0 levels)))).
    { induction F as [|r q rs qs S F IH]; intro f.
      - cbn [combine fold_res]. do 2 f_equal. apply map_ext. intro l. cbn. lia.
      - cbn [combine fold_res]. unfold charge at 1. cbn [fst snd]. destruct S as [_ [_ [_ S]]]. destruct (labels_ok q _ S) as [E [ls [M K]]].
        unfold find_between. rewrite E, M. cbn [bind].
        assert (X : existsb (set_eqb ap) ls = allowed_by r ap).
        { apply eq_true_iff_eq. rewrite allowed_spec, existsb_exists. unfold allows. split.
          - intros [w [I J]]. apply set_eqb_spec in J. apply K in I. destruct I as [e [I Y]]. exists e, w. split; [exact I|]. split; [exact Y|]. intro x. symmetry. apply J.
          - intros [e [w [I [Y J]]]]. exists w. split; [apply K; eauto|]. apply set_eqb_spec. intro x. symmetry. apply J. }
        rewrite X. destruct (allowed_by r ap) eqn:A.
        + cbn [bind]. rewrite IH by (intros; apply L; right; assumption). do 2 f_equal. apply map_ext. intro l. cbn [penalty fold_right]. rewrite A, andb_false_r. reflexivity.
        + rewrite add_at_spec by (apply L; left; reflexivity). cbn [bind]. rewrite IH by (intros; apply L; right; assumption). do 2 f_equal. apply map_ext. intro l.
          cbn [penalty fold_right]. rewrite A, andb_true_r. cbn [Nat.add]. rewrite (Nat.eqb_sym (r_level r) l). fold (penalty rs allowed_by ap l). destruct (Nat.eqb l (r_level r)); lia. }
    assert (Z0 : repeat (Fin 0) levels = vec (map (fun _ => 0%Z) (List.seq 0 levels))).
    { clear. unfold vec. rewrite map_map. generalize 0. induction levels as [|n IH]; intro a; [reflexivity|]. cbn. f_equal. apply IH. }
    rewrite Z0, G. do 2 f_equal.
  Qed.
  Lemma penalty_nonneg (rs : rules) ap l : (forall r, In r rs -> (0 < r_priority r)%Z) -> (0 <= penalty rs allowed_by ap l)%Z.
  Proof.
    induction rs as [|r rs IH]; intro H; cbn [penalty fold_right]; [lia|]. assert (0 < r_priority r)%Z by (apply H; left; reflexivity).
    assert (0 <= penalty rs allowed_by ap l)%Z by (apply IH; intros; apply H; right; assumption). unfold penalty in *. destruct (_ && _); lia.
  Qed.
  Lemma penalties_nonneg levels (rs : rules) ap : (forall r, In r rs -> (0 < r_priority r)%Z) -> nonneg (penalties levels rs allowed_by ap).
  Proof. intros H z I. apply in_map_iff in I. destruct I as [l [<- _]]. apply penalty_nonneg, H. Qed.
  Lemma penalties_length levels (rs : rules) ap : List.length (penalties levels rs allowed_by ap) = levels.
  Proof. unfold penalties. rewrite map_length. apply seq_length. Qed.
End Violations.

Lemma iproduct_single (get : rule automaton -> list string) (rs : rules) qs : Forall2 (fun r q => get r = [q]) rs qs -> iproduct (map get rs) = [qs].
Proof. induction 1 as [|r q rs qs E F IH]; [reflexivity|]. cbn [map iproduct]. rewrite E, IH. reflexivity. Qed.
Lemma Forall2_weaken {A B} (P Q : A -> B -> Prop) l m : (forall a b, P a b -> Q a b) -> Forall2 P l m -> Forall2 Q l m.
Proof. intros H F. induction F; constructor; auto. Qed.

Section Solve.
  Context {N : Type} (neqb : N -> N -> bool) (nlt : @pstate N -> @pstate N -> bool).
  Hypothesis neqb_eq : forall a b, neqb a b = true <-> a = b.
  Variables (ks : kripke N) (goal : string) (levels : nat) (rs : rules) (qs : list string).
  Variables (label : N -> list string) (price : edge N klabel -> Z) (allowed_by : rule automaton -> list string -> bool).
  Hypothesis allowed_spec : forall r ap, allowed_by r ap = true <-> allows r ap.
  Hypothesis singles : Forall2 single rs qs.
  Hypothesis levels_ok : forall r, In r rs -> r_level r < levels /\ (0 < r_priority r)%Z.
  Hypothesis ends : forall e, In e (g_edges ks) -> In (e_src e) (node_list ks) /\ In (e_dst e) (node_list ks).
  Hypothesis inits : forall x, In x (g_init ks) -> In x (node_list ks).
  Hypothesis is_labelled : labelled ks label.
  Hypothesis is_priced : priced ks price.
  Notation pg := (graph (@pstate N) (list num)).
  Notation pen := (penalties levels rs allowed_by).

  Lemma peqb_eq (a b : @pstate N) : peqb neqb a b = true <-> a = b.
  Proof.
    destruct a as [x a], b as [y b]. unfold peqb. cbn [fst snd]. rewrite andb_true_iff, strings_eqb_eq. destruct x as [x|], y as [y|]; cbn; rewrite ?neqb_eq;
      (split; [intros [? ?]; congruence|intro E; try discriminate E; injection E; intros; subst; auto]).
  Qed.
  Lemma states_q : get_states rs = [qs].
  Proof. apply iproduct_single. eapply Forall2_weaken; [|exact singles]. intros r q H. apply H. Qed.
  Lemma initial_q : get_initial_states rs = [qs].
  Proof. apply iproduct_single. eapply Forall2_weaken; [|exact singles]. intros r q H. apply H. Qed.
  Lemma accepting_q : get_accepting_states rs = [qs].
  Proof. apply iproduct_single. eapply Forall2_weaken; [|exact singles]. intros r q H. apply H. Qed.

  Lemma ap_of_spec x : In x (node_list ks) -> ap_of neqb ks x = Ok (label x).
  Proof.
    intro I. unfold ap_of. apply in_map_iff in I. destruct I as [[y a] [E I]]. cbn in E. subst y.
    destruct (find (fun p => neqb x (fst p)) (g_nodes ks)) as [[y b]|] eqn:F.
    - apply find_some in F. destruct F as [J E]. cbn in E. apply neqb_eq in E. subst y. cbn [snd]. rewrite (is_labelled x b J). reflexivity.
    - apply (find_none _ _ F) in I. cbn in I. rewrite (proj2 (neqb_eq x x) eq_refl) in I. discriminate.
  Qed.
  Lemma trans_cost_spec e : In e (g_edges ks) -> trans_cost e = Ok (Fin (price e)).
  Proof. intro I. unfold trans_cost. destruct (is_priced e I) as [_ [-> |[-> ->]]]; reflexivity. Qed.

  (** The labels of the product. *)
  Definition W (x : N) (z : Z) : list Z := pen (label x) ++ [z].
  Definition arc (from : @pstate N) (x : N) (z : Z) : ltrans (N := @pstate N) (V := list num) := (from, [("cost", vec (W x z))], (Some x, qs)).
  Definition adding := add_trans (peqb neqb) nums_eqb wpa_config true.
  Lemma W_length x z : List.length (W x z) = S levels.
  Proof. unfold W. rewrite app_length, penalties_length. cbn. lia. Qed.
  Lemma W_nonneg x z : (0 <= z)%Z -> nonneg (W x z).
  Proof.
    intros H y I. apply in_app_or in I. destruct I as [I|[<-|[]]]; [|exact H]. revert I. apply penalties_nonneg. intros r J. apply levels_ok, J.
  Qed.
  Lemma W_valid x z : (0 <= z)%Z -> valid_vector (vec (W x z)) = true.
  Proof.
    intro H. unfold valid_vector. destruct (valid_cost_spec (S levels) (Vec (vec (W x z))) (W x z)) as [b [E K]]; [split; [apply W_length|left; reflexivity]|lia|].
    rewrite E. apply K. rewrite <- (W_length x z). apply nonneg_lexle, W_nonneg, H.
  Qed.
  Lemma vec_app a b : vec (a ++ b) = vec a ++ vec b. Proof. apply map_app. Qed.

  Lemma edge_arc z from x g : In x (node_list ks) -> snd from = qs ->
    add_transition_edge neqb levels rs ks (Fin z) from (Some x, qs) g = adding (arc from x z) g.
  Proof.
    intros I Q. unfold add_transition_edge. cbn [fst snd]. rewrite ap_of_spec by exact I. cbn [bind]. rewrite Q.
    rewrite (violation_spec allowed_by allowed_spec levels rs qs (label x) singles) by (intros r J; apply levels_ok, J). cbn [bind].
    unfold adding, add_trans, arc, W. cbn [fst snd]. rewrite vec_app. reflexivity.
  Qed.
  Lemma fold_res_map {A B} (f : A -> pg -> res pg) (h : A -> B) (f' : B -> pg -> res pg) l : (forall x g, In x l -> f x g = f' (h x) g) ->
    forall g, fold_res f l g = fold_res f' (map h l) g.
  Proof.
    induction l as [|x l IH]; intros H g; [reflexivity|]. cbn [fold_res map]. rewrite H by (left; reflexivity). destruct (f' (h x) g); cbn [bind]; [|reflexivity].
    apply IH. intros; apply H; right; assumption.
  Qed.
  Lemma one_source z from (xs : list N) g : (forall x, In x xs -> In x (node_list ks)) -> snd from = qs ->
    add_transition neqb levels rs ks (Fin z) [from] (pairs (map Some xs) (get_states rs)) g = fold_res adding (map (fun x => arc from x z) xs) g.
  Proof.
    intros I Q. unfold add_transition. cbn [fold_res fst snd]. rewrite states_q.
    assert (E : pairs (map Some xs) [qs] = map (fun x => (Some x, qs)) xs). { unfold pairs. clear. induction xs as [|x xs IH]; [reflexivity|]. cbn. f_equal. exact IH. }
    rewrite E. assert (X : fold_res (add_transition_edge neqb levels rs ks (Fin z) from) (map (fun x => (Some x, qs)) xs) g = fold_res adding (map (fun x => arc from x z) xs) g).
    { revert g. induction xs as [|x xs IH]; intro g; [reflexivity|]. cbn [map fold_res]. rewrite edge_arc by (try exact Q; apply I; left; reflexivity).
      destruct (adding (arc from x z) g); cbn [bind]; [|reflexivity]. apply IH; [intros; apply I; right; assumption|].
      clear. unfold pairs. induction xs as [|y xs IH]; [reflexivity|]. cbn. f_equal. exact IH. }
    rewrite X. destruct (fold_res adding _ g); reflexivity.
  Qed.

  Definition arcs : list (ltrans (N := @pstate N) (V := list num)) :=
    map (fun e => arc (Some (e_src e), qs) (e_dst e) (price e)) (g_edges ks) ++ map (fun x => arc (None, qs) x 0%Z) (g_init ks).
  Lemma arcs_In t : In t arcs <-> (exists e, In e (g_edges ks) /\ t = arc (Some (e_src e), qs) (e_dst e) (price e)) \/
                                  (exists x, In x (g_init ks) /\ t = arc (None, qs) x 0%Z).
  Proof. unfold arcs. rewrite in_app_iff, !in_map_iff. split; (intros [[e [A B]]|[e [A B]]]; [left|right]; exists e; auto). Qed.

  Lemma product_spec : exists g, product_automaton neqb levels rs ks = Ok (g, map (fun x => (Some x, qs)) (node_list ks)) /\
    g_init g = [(None, qs)] /\ forall a b d, trans g a d b <-> exists d', In (a, d', b) arcs /\ same_items d' d.
  Proof.
    unfold product_automaton. rewrite states_q, initial_q, accepting_q.
    assert (PM : forall xs, pairs (map Some xs) [qs] = map (fun x : N => (Some x, qs)) xs).
    { intro xs. unfold pairs. induction xs as [|x xs IH]; [reflexivity|]. cbn. f_equal. exact IH. }
    rewrite PM. cbn [pairs list_prod map app].
    destruct (add_nodes_plain (peqb neqb) peqb_eq wpa_config eq_refl (map (fun x => (Some x, qs)) (node_list ks) ++ [(None, qs)]) _ (wf_empty wpa_config)) as [g1 [E1 [W1 [D1 [J1 N1]]]]].
    change (Graph [] [] []) with (@empty_graph (@pstate N) (list num)).
    match goal with |- context [bind (fold_res ?f ?l empty_graph) _] => change (fold_res f l empty_graph) with (fold_res (fun n => add_node (peqb neqb) wpa_config n [] true) (map (fun x => (Some x, qs)) (node_list ks) ++ [(None, qs)]) empty_graph) end.
    rewrite E1. cbn [bind fold_res].
    assert (NN : forall q, In q (node_list g1) <-> In q (map (fun x => (Some x, qs)) (node_list ks)) \/ q = (None, qs)).
    { intro q. rewrite N1. cbn. rewrite in_app_iff. cbn. split; [intros [[]|[K|[K|[]]]]; auto|intros [K|K]; auto]. }
    unfold add_initial at 1. rewrite (proj2 (has_node_In (peqb neqb) peqb_eq (None, qs) g1)) by (apply NN; right; reflexivity).
    assert (I1 : g_init g1 = []) by (rewrite J1; reflexivity). rewrite I1. cbn [nmem existsb app bind].
    set (g2 := Graph (g_nodes g1) (g_edges g1) [(None, qs)]).
    assert (W2 : wf wpa_config g2).
    { destruct (add_initial_Ok (peqb neqb) nums_eqb peqb_eq wpa_config (None, qs) g1 g2) as [_ [_ [_ [_ K]]]]; [|exact (K W1)].
      unfold add_initial. rewrite (proj2 (has_node_In (peqb neqb) peqb_eq (None, qs) g1)) by (apply NN; right; reflexivity). rewrite I1. reflexivity. }
    assert (A : forallb (fun q => has_node (peqb neqb) q g2) (map (fun x => (Some x, qs)) (node_list ks)) = true).
    { apply forallb_forall. intros q I. apply (has_node_In (peqb neqb) peqb_eq). apply NN. left. exact I. }
    match goal with |- context [negb (forallb ?f ?l)] => replace (forallb f l) with true by (symmetry; exact A) end. cbn [negb].
    assert (T2 : forall a b d, ~ trans g2 a d b). { intros a b d [e [I _]]. cbn in I. rewrite D1 in I. destruct I. }
    (** all additions at once *)
    assert (ND : forall x, In x arcs -> NoDup (map fst (snd (fst x)))).
    { intros x I. apply arcs_In in I. destruct I as [[e [_ ->]]|[y [_ ->]]]; cbn; repeat constructor; intros []. }
    assert (TOT : exists g4, fold_res adding arcs g2 = Ok g4).
    { apply add_edges_total; try exact peqb_eq; try exact nums_eqb_eq; try reflexivity; [exact W2|exact ND| |].
      - intros u d v I. apply arcs_In in I.
        assert (G : forall x z, (0 <= z)%Z -> good (c_edge_types wpa_config) [("cost", vec (W x z))] /\ (typed_keys (c_edge_types wpa_config) [("cost", vec (W x z))] \/ true = false) /\ labelled_between g2 u v).
        { intros x z H. split; [|split].
          - constructor; [|constructor]. cbn. apply W_valid, H.
          - left. intros k [<-|[]]. left. reflexivity.
          - intros T. exact (T2 _ _ _ T). }
        destruct I as [[e [I [= -> -> ->]]]|[x [I [= -> -> ->]]]].
        + split; [apply NN; left; apply in_map_iff; exists (e_src e); split; [reflexivity|apply ends, I]|].
          split; [apply NN; left; apply in_map_iff; exists (e_dst e); split; [reflexivity|apply ends, I]|]. apply G. apply is_priced, I.
        + split; [apply NN; right; reflexivity|]. split; [apply NN; left; apply in_map_iff; exists x; split; [reflexivity|apply inits, I]|]. apply G. lia.
      - intros l1 u v l2 d E _. assert (I : In (u, [], v) arcs) by (rewrite E; apply in_or_app; right; left; reflexivity).
        apply arcs_In in I. destruct I as [[e [_ [=]]]|[x [_ [=]]]]. }
    destruct TOT as [g4 F]. exists g4. pose proof F as F'. unfold arcs in F. apply fold_res_app in F. destruct F as [g3 [F3 F4]].
    assert (H3 : fold_res (fun e g => do cst <- trans_cost e; add_transition neqb levels rs ks cst [(Some (e_src e), qs)] [(Some (e_dst e), qs)] g) (g_edges ks) g2 = Ok g3).
    { rewrite <- F3. apply fold_res_map. intros e g I. rewrite trans_cost_spec by exact I. cbn [bind].
      pose proof (one_source (price e) (Some (e_src e), qs) [e_dst e] g) as O. rewrite states_q in O. unfold pairs in O. cbn [map list_prod app] in O. rewrite O.
      - cbn [fold_res]. destruct (adding _ g); reflexivity.
      - intros x [<-|[]]. apply ends, I.
      - reflexivity. }
    match goal with |- context [bind (fold_res ?f ?l ?g) _] => replace (fold_res f l g) with (Ok g3) by (symmetry; exact H3) end. cbn [bind].
    assert (I3 : g_init g3 = [(None, qs)]).
    { apply (add_edges_trans (peqb neqb) nums_eqb peqb_eq nums_eqb_eq wpa_config eq_refl true _ _ _ W2) in F3; [|intros x I; apply ND; unfold arcs; apply in_or_app; left; exact I].
      destruct F3 as [_ [K _]]. rewrite K. reflexivity. }
    rewrite I3. pose proof (one_source 0 (None, qs) (g_init ks) g3 inits eq_refl) as O. rewrite states_q, PM in O. 
    match goal with |- context [bind (add_transition ?a ?b ?c ?d ?e ?f ?h ?g) _] => replace (add_transition a b c d e f h g) with (Ok g4) by (symmetry; rewrite <- F4, <- O; f_equal; apply PM) end. cbn [bind].
    split; [reflexivity|].
    apply (add_edges_trans (peqb neqb) nums_eqb peqb_eq nums_eqb_eq wpa_config eq_refl true _ _ _ W2 ND) in F'. destruct F' as [_ [K [_ [_ T]]]]. split; [exact K|].
    intros a b d. rewrite T. split; [intros [X|X]; [destruct (T2 _ _ _ X)|exact X]|auto].
  Qed.

  (** ** Routes of the product and plans *)
  Definition unfin (x : num) : Z := match x with Fin z => z | Inf => 0%Z end.
  Definition weight (e : edge (@pstate N) (list num)) : list Z := match lookup "cost" (e_attr e) with Some l => map unfin l | None => [] end.
  Lemma unfin_vec v : map unfin (vec v) = v.
  Proof. unfold vec. rewrite map_map. apply map_id. Qed.
  Section Routes.
    Variable g : pg.
    Hypothesis T : forall a b d, trans g a d b <-> exists d', In (a, d', b) arcs /\ same_items d' d.
    Lemma edge_back e : In e (g_edges g) ->
      (exists k, In k (g_edges ks) /\ e_src e = (Some (e_src k), qs) /\ e_dst e = (Some (e_dst k), qs) /\ lookup "cost" (e_attr e) = Some (vec (W (e_dst k) (price k)))) \/
      (exists x, In x (g_init ks) /\ e_src e = (None, qs) /\ e_dst e = (Some x, qs) /\ lookup "cost" (e_attr e) = Some (vec (W x 0))).
    Proof.
      intro I. assert (X : trans g (e_src e) (e_attr e) (e_dst e)) by (exists e; repeat split; auto). apply T in X. destruct X as [d [J E]].
      specialize (E "cost"). apply arcs_In in J. destruct J as [[k [J [= A B C]]]|[x [J [= A B C]]]]; [left; exists k|right; exists x]; subst d; (split; [exact J|]; split; [exact A|]; split; [exact C|]; symmetry; exact E).
    Qed.
    Lemma edge_forth a d b : In (a, d, b) arcs -> exists e, In e (g_edges g) /\ e_src e = a /\ e_dst e = b /\ lookup "cost" (e_attr e) = lookup "cost" d.
    Proof.
      intro I. assert (X : trans g a d b) by (apply T; exists d; split; [exact I|intro; reflexivity]). destruct X as [e [J [A [B C]]]]. exists e. split; [exact J|]. split; [exact A|]. split; [exact B|apply C].
    Qed.
    Lemma weight_of e v : lookup "cost" (e_attr e) = Some (vec v) -> weight e = v.
    Proof. intro H. unfold weight. rewrite H. apply unfin_vec. Qed.
    Lemma weights_ok e : In e (g_edges g) -> exists w, edge_cost (fun v => Some (Vec v)) "cost" e = Ok w /\ stands (S levels) w (weight e) /\ lexle (zeros (S levels)) (weight e).
    Proof.
      intro I. assert (X : exists x z, (0 <= z)%Z /\ lookup "cost" (e_attr e) = Some (vec (W x z))).
      { apply edge_back in I. destruct I as [[k [J [_ [_ K]]]]|[x [J [_ [_ K]]]]]; [exists (e_dst k), (price k); split; [apply is_priced, J|exact K]|exists x, 0%Z; split; [lia|exact K]]. }
      destruct X as [x [z [Z0 L]]]. rewrite (weight_of _ _ L). exists (Vec (vec (W x z))). unfold edge_cost. rewrite L. split; [reflexivity|]. split.
      - split; [apply W_length|left; reflexivity].
      - rewrite <- (W_length x z). apply nonneg_lexle, W_nonneg, Z0.
    Qed.
    Definition hops (es : list (edge N klabel)) : list (list Z) := map (fun k => W (e_dst k) (price k)) es.
    Lemma route_back : forall es x q, route g (Some x, qs) es q -> exists ks' t, q = (Some t, qs) /\ route ks x ks' t /\ map weight es = hops ks' /\ map e_dst es = map (fun k => (Some (e_dst k), qs)) ks'.
    Proof.
      induction es as [|e es IH]; intros x q R.
      - cbn in R. subst q. exists [], x. cbn. auto.
      - destruct R as [I [S R]]. destruct (edge_back e I) as [[k [J [A [B C]]]]|[y [J [A _]]]]; [|congruence].
        rewrite B in R. apply IH in R. destruct R as [ks' [t [-> [R [M D]]]]]. exists (k :: ks'), t. split; [reflexivity|]. split; [|split].
        + split; [exact J|]. split; [congruence|exact R].
        + cbn. rewrite M, (weight_of _ _ C). reflexivity.
        + cbn. rewrite D, B. reflexivity.
    Qed.
    Lemma route_forth : forall ks' x t, route ks x ks' t -> exists es, route g (Some x, qs) es (Some t, qs) /\ map weight es = hops ks'.
    Proof.
      induction ks' as [|k ks' IH]; intros x t R.
      - cbn in R. subst t. exists []. cbn. auto.
      - destruct R as [I [S R]]. apply IH in R. destruct R as [es [R M]].
        destruct (edge_forth (Some (e_src k), qs) [("cost", vec (W (e_dst k) (price k)))] (Some (e_dst k), qs)) as [e [J [A [B C]]]]; [apply arcs_In; left; exists k; auto|].
        exists (e :: es). split.
        + split; [exact J|]. split; [congruence|]. rewrite B. exact R.
        + cbn. rewrite M, (weight_of e (W (e_dst k) (price k)) C). reflexivity.
    Qed.
    Lemma hops_total x es : fold_right vadd (zeros (S levels)) (W x 0 :: hops es) = plan_cost levels rs label price allowed_by x es.
    Proof.
      unfold plan_cost, nodes_of. cbn [map fold_right].
      assert (H : fold_right vadd (zeros (S levels)) (hops es) = fold_right vadd (zeros levels) (map (fun y => pen (label y)) (map e_dst es)) ++ [fold_right Z.add 0%Z (map price es)] /\
        List.length (fold_right vadd (zeros levels) (map (fun y => pen (label y)) (map e_dst es))) = levels).
      { induction es as [|k es [IH L]]; [split; [apply zeros_snoc|apply zeros_length]|]. change (hops (k :: es)) with (W (e_dst k) (price k) :: hops es). cbn [map fold_right]. rewrite IH. unfold W.
        rewrite vadd_snoc by (rewrite L; apply penalties_length). split; [reflexivity|]. rewrite vadd_length; [apply penalties_length|rewrite L; apply penalties_length]. }
      destruct H as [H L]. rewrite H. unfold W. rewrite vadd_snoc by (rewrite L; apply penalties_length). reflexivity.
    Qed.
    Lemma plan_back es q : (exists t, q = (Some t, qs) /\ In goal (label t)) -> route g (None, qs) es q ->
      exists x ks', plan ks goal label x ks' /\ total weight (S levels) es = plan_cost levels rs label price allowed_by x ks' /\ state_path (nodes_of (None, qs) es) = nodes_of x ks'.
    Proof.
      intros [t [-> G]] R. destruct es as [|e es]; [discriminate R|]. destruct R as [I [S R]]. destruct (edge_back e I) as [[k [J [A _]]]|[x [J [_ [B C]]]]]; [congruence|].
      rewrite B in R. apply route_back in R. destruct R as [ks' [t' [E [R [M D]]]]]. injection E as <-. exists x, ks'. split; [|split].
      - split; [exact J|]. exists t. auto.
      - unfold total. cbn [map]. rewrite M, (weight_of _ _ C). apply hops_total.
      - transitivity (state_path ((None, qs) :: (Some x, qs) :: map (fun k => (Some (e_dst k), qs)) ks')); [unfold nodes_of; cbn [map]; do 2 f_equal; f_equal; [exact B|exact D]|].
        cbn. unfold nodes_of. f_equal. clear. induction ks' as [|k ks' IH]; [reflexivity|]. cbn. f_equal. exact IH.
    Qed.
    Lemma plan_forth x ks' : plan ks goal label x ks' -> exists es t, route g (None, qs) es (Some t, qs) /\ In t (node_list ks) /\ In goal (label t) /\ total weight (S levels) es = plan_cost levels rs label price allowed_by x ks'.
    Proof.
      intros [I [t [R G]]]. destruct (edge_forth (None, qs) [("cost", vec (W x 0))] (Some x, qs)) as [e [J [A [B C]]]]; [apply arcs_In; right; exists x; auto|].
      pose proof R as R0. apply route_forth in R. destruct R as [es [R M]]. exists (e :: es), t. split; [|split; [|split; [exact G|]]].
      - split; [exact J|]. split; [exact A|]. rewrite B. exact R.
      - clear - R0 I ends inits. assert (In x (node_list ks)) as X by auto. clear I. revert x R0 X. induction ks' as [|k ks' IH]; intros x R X; [cbn in R; subst; exact X|]. destruct R as [K [_ R]]. apply (IH _ R). apply ends, K.
      - unfold total. cbn [map]. rewrite M, (weight_of e _ C). apply hops_total.
    Qed.
  End Routes.

  Lemma goals_spec : exists gs, goal_states neqb ks goal = Ok gs /\ forall x, In x gs <-> In x (node_list ks) /\ In goal (label x).
  Proof.
    unfold goal_states. assert (X : forall l, (forall x, In x l -> In x (node_list ks)) ->
      mapr (fun x => do ap <- ap_of neqb ks x; Ok (x, existsb (String.eqb goal) ap)) l = Ok (map (fun x => (x, existsb (String.eqb goal) (label x))) l)).
    { induction l as [|x l IH]; intro H; [reflexivity|]. cbn [mapr map]. rewrite ap_of_spec by (apply H; left; reflexivity). cbn [bind].
      rewrite IH by (intros; apply H; right; assumption). reflexivity. }
    rewrite X by auto. cbn [bind]. eexists. split; [reflexivity|]. intro x. rewrite in_map_iff. split.
    - intros [[y b] [E I]]. cbn in E. subst y. apply filter_In in I. destruct I as [I B]. cbn in B. subst b. apply in_map_iff in I. destruct I as [y [[= -> B] I]].
      split; [exact I|]. apply existsb_exists in B. destruct B as [z [J B]]. apply String.eqb_eq in B. congruence.
    - intros [I J]. exists (x, true). split; [reflexivity|]. apply filter_In. split; [|reflexivity]. apply in_map_iff. exists x. split; [|exact I]. f_equal.
      apply existsb_exists. exists goal. split; [exact J|apply String.eqb_refl].
  Qed.
End Solve.

(** [best_plan r path]: the cost [r] and the states [path] of a plan of least cost, or infinity and no states if
    there is no plan. *)
Definition best_plan {N} (ks : kripke N) goal levels rs label price allowed_by (r : cost) (path : list N) : Prop :=
  (r = Sc Inf /\ path = [] /\ forall x es, ~ plan ks goal label x es) \/
  exists x es, best ks goal levels rs label price allowed_by x es /\ path = nodes_of x es /\
    stands (S levels) r (plan_cost levels rs label price allowed_by x es).

(** For rules that look at one state at a time, the planner finds a plan of least cost. *)
Theorem solve_single_partial {N} (neqb : N -> N -> bool) (nlt : @pstate N -> @pstate N -> bool) :
  (forall a b, neqb a b = true <-> a = b) ->
  forall (ks : kripke N) goal (s : spec automaton (list string)) ks_aps qs label price allowed_by,
  (forall r ap, allowed_by r ap = true <-> allows r ap) ->
  same_set ks_aps (s_aps s) ->
  Forall2 single (get_rules s) qs ->
  (forall r, In r (get_rules s) -> r_level r < get_num_levels s /\ (0 < r_priority r)%Z) ->
  (forall e, In e (g_edges ks) -> In (e_src e) (node_list ks) /\ In (e_dst e) (node_list ks)) ->
  (forall x, In x (g_init ks) -> In x (node_list ks)) ->
  labelled ks label -> priced ks price ->
  exists fuel0, forall fuel, fuel0 <= fuel -> exists r path prod_path,
    solve neqb nlt fuel ks_aps ks goal s = Ok (r, path, prod_path) /\
    best_plan ks goal (get_num_levels s) (get_rules s) label price allowed_by r path.
Proof.
  intros NE ks goal s ks_aps qs label price allowed_by AS AP SI LV EN IN LB PR.
  destruct (product_spec neqb NE ks (get_num_levels s) (get_rules s) qs label price allowed_by AS SI LV EN IN LB PR) as [g [PG [GI T]]].
  destruct (goals_spec neqb NE ks goal label LB) as [gs [GS GM]].
  set (levels := get_num_levels s) in *. set (rs := get_rules s) in *.
  exists (S (List.length (g_edges g))). intros fuel F. unfold solve. rewrite (proj2 (set_eqb_spec _ _) AP). cbn [negb].
  fold levels rs. rewrite PG. cbn [bind]. rewrite GS. cbn [bind fst snd].
  assert (ST : get_states rs = [qs]) by exact (states_q rs qs SI).
  set (targets := pairs (map Some gs) (get_states rs)).
  assert (TI : forall q, In q targets <-> exists t, q = (Some t, qs) /\ In t gs).
  { intros [o p]. unfold targets, pairs. rewrite ST. transitivity (In o (map Some gs) /\ In p [qs]); [apply in_prod_iff|]. rewrite in_map_iff. split.
    - intros [[t [<- I]] [<-|[]]]. eauto.
    - intros [t [[= -> ->] I]]. split; [eauto|left; reflexivity]. }
  pose proof (peqb_eq neqb NE) as PE.
  assert (AC : forallb (fun q => nmem (peqb neqb) q (map (fun x => (Some x, qs)) (node_list ks))) targets = true).
  { apply forallb_forall. intros q I. apply (nmem_In (peqb neqb) PE). apply TI in I. destruct I as [t [-> I]]. apply in_map_iff. exists t. split; [reflexivity|]. apply GM, I. }
  match goal with |- context [negb (forallb ?f ?l)] => replace (forallb f l) with true by (symmetry; exact AC) end. cbn [negb]. rewrite GI.
  pose proof (weights_ok ks levels rs qs label price allowed_by LV PR g T) as WO.
  destruct (dijkstra_multiple_spec (peqb neqb) nlt nums_eqb (fun v => Some (Vec v)) wpa_config PE g "cost" (S levels) weight (Nat.lt_0_succ levels) WO
    (fun q => nmem (peqb neqb) q targets) fuel [(None, qs)] F) as [r [DJ R]].
  match goal with |- context [bind ?d _] => replace d with (Ok r) by (symmetry; exact DJ) end. cbn [bind]. exists (fst r), (state_path (snd r)), (snd r). split; [reflexivity|].
  assert (TG : forall q, nmem (peqb neqb) q targets = true -> exists t, q = (Some t, qs) /\ In goal (label t)).
  { intros q H. apply (nmem_In (peqb neqb) PE), TI in H. destruct H as [t [-> I]]. exists t. split; [reflexivity|]. apply GM, I. }
  assert (PF : forall x es, plan ks goal label x es -> exists es' q, route g (None, qs) es' q /\ nmem (peqb neqb) q targets = true /\
     total weight (S levels) es' = plan_cost levels rs label price allowed_by x es).
  { intros x es P. destruct (plan_forth ks goal levels rs qs label price allowed_by EN IN g T x es P) as [es' [t [R1 [R2 [R3 R4]]]]].
    exists es', (Some t, qs). split; [exact R1|]. split; [|exact R4]. apply (nmem_In (peqb neqb) PE), TI. exists t. split; [reflexivity|]. apply GM. auto. }
  destruct R as [[-> U]|[s0 [es [t [E1 [E2 [E3 [E4 [E5 E6]]]]]]]]].
  - left. split; [reflexivity|]. split; [reflexivity|]. intros x es P. apply PF in P. destruct P as [es' [q [P1 [P2 _]]]]. exact (U (None, qs) es' q (or_introl eq_refl) P1 P2).
  - right. destruct E3 as [<-|[]].
    destruct (plan_back ks goal levels rs qs label price allowed_by g T es t (TG t E5) E4) as [x [ks' [P1 [P2 P3]]]].
    exists x, ks'. split; [|split].
    + split; [exact P1|]. intros x' es' P. apply PF in P. destruct P as [es2 [q [Q1 [Q2 Q3]]]]. rewrite <- P2, <- Q3. exact (E6 (None, qs) es2 q (or_introl eq_refl) Q1 Q2).
    + rewrite E1. exact P3.
    + rewrite <- P2. exact E2.
Qed.

(** ** Concrete planning problems *)
Definition aps_mvp : list string := ["a"; "b"; "g"].
(** [always]: one state with loops for the allowed letters. *)
Definition always (letters : list (list string)) : automaton :=
  Automaton (Graph [("q", [])] (map (fun l => Edge "q" "q" (List.length l) [("letter", l)]) letters) ["q"]) ["q"] aps_mvp.
Definition never_b : automaton := always [[]; ["a"]; ["g"]; ["a"; "g"]].
Definition never_a : automaton := always [[]; ["b"]; ["g"]; ["g"; "b"]].
Definition two_rules : spec automaton (list string) :=
  add_all fa_aps strings_eqb [(never_b, PInt 1, 0%Z); (never_a, PInt 5, 1%Z)] (new_spec []).
(** From 0 to 3, through 1 in "b", or through 2 in "a". *)
Definition map_ks : kripke nat :=
  Graph [(0, [("ap", KAp [])]); (1, [("ap", KAp ["b"])]); (2, [("ap", KAp ["a"])]); (3, [("ap", KAp ["g"])])]
    [Edge 0 1 0 [("cost", KCost (Fin 1))]; Edge 1 3 0 [("cost", KCost (Fin 1))]; Edge 0 2 0 [("cost", KCost (Fin 7))]; Edge 2 3 0 []] [0].
Definition no_order (a b : @pstate nat) : bool := false.
Definition allowed_dec (r : rule automaton) (ap : list string) : bool :=
  existsb (fun e => match lookup "letter" (e_attr e) with Some l => set_eqb l ap | None => false end) (g_edges (fa_graph (r_fa r))).
Lemma allowed_dec_spec r ap : allowed_dec r ap = true <-> allows r ap.
Proof.
  unfold allowed_dec, allows. rewrite existsb_exists. split.
  - intros [e [I H]]. destruct (lookup "letter" (e_attr e)) as [l|] eqn:L; [|discriminate]. exists e, l. split; [exact I|]. split; [exact L|]. apply set_eqb_spec, H.
  - intros [e [l [I [L H]]]]. exists e. split; [exact I|]. rewrite L. apply set_eqb_spec, H.
Qed.
Definition map_label (n : nat) : list string := match n with 1 => ["b"] | 2 => ["a"] | 3 => ["g"] | _ => [] end.
Definition map_price (e : edge nat klabel) : Z := match lookup "cost" (e_attr e) with Some (KCost (Fin z)) => z | _ => 0%Z end.
Example map_case : exists fuel0, forall fuel, fuel0 <= fuel -> exists r path prod_path,
  solve Nat.eqb no_order fuel aps_mvp map_ks "g" two_rules = Ok (r, path, prod_path) /\
  best_plan map_ks "g" 2 (get_rules two_rules) map_label map_price allowed_dec r path.
Proof.
  apply (solve_single_partial Nat.eqb no_order Nat.eqb_eq map_ks "g" two_rules aps_mvp ["q"; "q"] map_label map_price allowed_dec allowed_dec_spec).
  - intro x. reflexivity.
  - change (Forall2 single [Rule never_b 1%Z 0; Rule never_a 5%Z 1] ["q"; "q"]).
    assert (S : forall ls z l, single (Rule (always ls) z l) "q").
    { intros ls z l. do 3 (split; [reflexivity|]). intros e I. cbn in I. apply in_map_iff in I. destruct I as [w [<- _]]. cbn. eauto. }
    apply Forall2_cons; [apply S|]. apply Forall2_cons; [apply S|]. apply Forall2_nil.
  - intros r I. change (In r [Rule never_b 1%Z 0; Rule never_a 5%Z 1]) in I. change (get_num_levels two_rules) with 2. destruct I as [<-|[<-|[]]]; cbn; lia.
  - intros e I. cbn in I. repeat (destruct I as [<-|I]; [cbn; tauto|]). destruct I.
  - intros x I. cbn in *. tauto.
  - intros x a I. cbn in I. repeat (destruct I as [[= <- <-]|I]; [reflexivity|]). destruct I.
  - intros e I. cbn in I. repeat (destruct I as [<-|I]; [split; [cbn; lia|cbn; auto]|]). destruct I.
Qed.
Example map_result : solve Nat.eqb no_order 20 aps_mvp map_ks "g" two_rules =
  Ok (Vec [Fin 0; Fin 5; Fin 7], [0; 2; 3], [(None, ["q"; "q"]); (Some 0, ["q"; "q"]); (Some 2, ["q"; "q"]); (Some 3, ["q"; "q"])]).
Proof. vm_compute. reflexivity. Qed.
Example map_no_goal : solve Nat.eqb no_order 20 aps_mvp map_ks "b" two_rules <> solve Nat.eqb no_order 20 aps_mvp map_ks "c" two_rules /\
  solve Nat.eqb no_order 20 aps_mvp map_ks "c" two_rules = Ok (Sc Inf, [], []).
Proof. split; vm_compute; [discriminate|reflexivity]. Qed.

(** ** Rules with memory *)
(** The automaton reads the labels [w] from [q] to [q']. *)
Inductive reads (fa : automaton) : string -> list (list string) -> string -> Prop :=
| reads_nil q : reads fa q [] q
| reads_cons e l w q : In e (g_edges (fa_graph fa)) -> lookup "letter" (e_attr e) = Some l -> reads fa (e_dst e) w q -> reads fa (e_src e) (l :: w) q.
(** The plan violates no rule: some run of the automaton from an initial state reads its labels and accepts. *)
Definition accepts (fa : automaton) (w : list (list string)) : Prop :=
  exists q q', In q (g_init (fa_graph fa)) /\ reads fa q w q' /\ In q' (fa_accepting fa).

Definition first_a : automaton :=
  Automaton (Graph [("q0", []); ("q1", [])]
    [Edge "q0" "q1" 0 [("letter", ["a"])]; Edge "q1" "q1" 0 [("letter", ["a"])]; Edge "q1" "q1" 1 [("letter", ["a"; "g"])]] ["q0"]) ["q0"; "q1"] aps_mvp.
Definition chain : kripke nat :=
  Graph [(0, [("ap", KAp ["a"])]); (1, [("ap", KAp ["a"])]); (2, [("ap", KAp ["a"; "g"])])] [Edge 0 1 0 []; Edge 1 2 0 []] [0].
Definition rule_a (fa : automaton) : spec automaton (list string) := add_all fa_aps strings_eqb [(fa, PInt 1, 0%Z)] (new_spec []).
Definition chain_label (n : nat) : list string := match n with 2 => ["a"; "g"] | _ => ["a"] end.
Definition chain_plan : list (edge nat klabel) := [Edge 0 1 0 []; Edge 1 2 0 []].
Lemma first_a_reads : reads first_a "q0" (map chain_label (nodes_of 0 chain_plan)) "q1".
Proof.
  apply (reads_cons first_a (Edge "q0" "q1" 0 [("letter", ["a"])]) ["a"]); [left; reflexivity|reflexivity|].
  apply (reads_cons first_a (Edge "q1" "q1" 0 [("letter", ["a"])]) ["a"]); [right; left; reflexivity|reflexivity|].
  apply (reads_cons first_a (Edge "q1" "q1" 1 [("letter", ["a"; "g"])]) ["a"; "g"]); [right; right; left; reflexivity|reflexivity|]. apply reads_nil.
Qed.
Lemma chain_is_plan : plan chain "g" chain_label 0 chain_plan.
Proof. split; [left; reflexivity|]. exists 2. split; [repeat split; cbn; auto|right; left; reflexivity]. Qed.
(** With an automaton of two states the answer is wrong: the rule accepts the only plan, and the cost is 3.  Only the first
    state of the automaton gets transitions, because the iterator over the others is used up. *)
Theorem solve_memory_refuted : exists (ks : kripke nat) label goal fa x es fuel path prod_path,
  labelled ks label /\ plan ks goal label x es /\ accepts fa (map label (nodes_of x es)) /\ node_list (fa_graph fa) = fa_accepting fa /\
  solve Nat.eqb no_order fuel aps_mvp ks goal (rule_a fa) = Ok (Vec [Fin 3; Fin 0], path, prod_path).
Proof.
  exists chain, chain_label, "g", first_a, 0, chain_plan, 20, [0; 1; 2], [(None, ["q0"]); (Some 0, ["q0"]); (Some 1, ["q0"]); (Some 2, ["q0"])].
  split; [|split; [exact chain_is_plan|split; [|split; [reflexivity|vm_compute; reflexivity]]]].
  - intros x a I. cbn in I. repeat (destruct I as [[= <- <-]|I]; [reflexivity|]). destruct I.
  - exists "q0", "q1". split; [left; reflexivity|]. split; [exact first_a_reads|right; left; reflexivity].
Qed.
(** If some state of an automaton is not accepting, the planner raises ValueError. *)
Definition first_a_strict : automaton := Automaton (fa_graph first_a) ["q1"] aps_mvp.
Theorem solve_accepting_refuted : exists (ks : kripke nat) label goal fa x es,
  labelled ks label /\ plan ks goal label x es /\ accepts fa (map label (nodes_of x es)) /\
  forall fuel, solve Nat.eqb no_order fuel aps_mvp ks goal (rule_a fa) = Err "ValueError".
Proof.
  exists chain, chain_label, "g", first_a_strict, 0, chain_plan. split; [|split; [exact chain_is_plan|split]].
  - intros x a I. cbn in I. repeat (destruct I as [[= <- <-]|I]; [reflexivity|]). destruct I.
  - exists "q0", "q1". split; [left; reflexivity|]. split; [|left; reflexivity].
    apply (reads_cons first_a_strict (Edge "q0" "q1" 0 [("letter", ["a"])]) ["a"]); [left; reflexivity|reflexivity|].
    apply (reads_cons first_a_strict (Edge "q1" "q1" 0 [("letter", ["a"])]) ["a"]); [right; left; reflexivity|reflexivity|].
    apply (reads_cons first_a_strict (Edge "q1" "q1" 1 [("letter", ["a"; "g"])]) ["a"; "g"]); [right; right; left; reflexivity|reflexivity|]. apply reads_nil.
  - intro fuel. vm_compute. reflexivity.
Qed.

Print Assumptions solve_single_partial.
Print Assumptions solve_memory_refuted.
Print Assumptions solve_accepting_refuted.
