(** C86: accepting states and Rabin pairs. *)
From Coq Require Import List String Bool Arith ZArith Lia.
From Verif Require Import M_Base M_Spec M_Dict L_Dict M_Set T_Set M_Graph L_Graph M_Automata.
Import ListNotations.
Open Scope string_scope.
Open Scope list_scope.
Open Scope nat_scope.

Section C86.
  Context {N V : Type} (neqb : N -> N -> bool) (veqb : V -> V -> bool).
  Hypothesis neqb_eq : forall a b, neqb a b = true <-> a = b.
  Implicit Types a : automaton N V.
  Implicit Types m : mathset N.
  Notation astep := (astep neqb veqb).
  Notation arun := (arun neqb veqb).
  Notation rstep := (rstep neqb veqb).
  Notation rrun := (rrun neqb veqb).
  Notation inv := (inv hashable).

  (** Specification: what is in a set, which states there are *)
  Definition elem m (x : N) : Prop := In x (ms_list m ++ ms_set m).
  Definition state (g : graph N V) (x : N) : Prop := In x (map fst (g_nodes g)).

  Lemma state_has g x : has_node neqb x g = true <-> state g x.
  Proof. apply (has_node_In neqb neqb_eq). Qed.
  Lemma tame_list (l : list N) : tame_source (hashable (N := N)) (SList l).
  Proof. intros (x & _ & K). discriminate. Qed.
  Lemma ss_add_from_cases g l m : inv m ->
    (exists m', ss_add_from neqb hashable (states_of neqb g) (SList l) m = Ok m' /\ inv m' /\ (forall x, elem m' x <-> In x l \/ elem m x) /\ forall x, In x l -> state g x) \/
    (ss_add_from neqb hashable (states_of neqb g) (SList l) m = Err "ValueError" /\ exists x, In x l /\ ~ state g x).
  Proof.
    intro I. unfold ss_add_from, states_of. cbn [source_items is_subset in_super].
    assert (A : forall l, (allr (fun x => Ok (has_node neqb x g)) l = Ok true /\ forall x, In x l -> state g x) \/ (allr (fun x => Ok (has_node neqb x g)) l = Ok false /\ exists x, In x l /\ ~ state g x)).
    { induction l0 as [|y l0 IH]; cbn [allr bind]; [left; split; [reflexivity|intros x []]|]. destruct (has_node neqb y g) eqn:E.
      - destruct IH as [[-> H]|[-> (x & X & H)]]; [left|right]; (split; [reflexivity|]); [intros x [<-|X]; [apply state_has, E|exact (H x X)]|exists x; split; [right; exact X|exact H]].
      - right. split; [reflexivity|]. exists y. split; [left; reflexivity|]. intro S. apply state_has in S. congruence. }
    destruct (A l) as [[E H]|[E H]]; rewrite E; cbn [bind].
    - left. eexists. split; [reflexivity|]. destruct (add_from_ok neqb hashable neqb_eq (SList l) m I (tame_list l)) as [I' S]. split; [exact I'|]. split; [exact S|exact H].
    - right. split; [reflexivity|exact H].
  Qed.

  (** ** Graph calls that remove no state *)
  Definition removes (o : gop N V) : option N := match o with GRemoveNode n | GRemoveState n => Some n | _ => None end.
  Lemma gstep_states c o g : removes o = None -> forall x, state g x -> state (fst (gstep neqb veqb c o g)) x.
  Proof.
    intros R x S. destruct o as [n d ch|u v k d ch|u v d|n|n|n]; cbn [gstep]; try discriminate R.
    - destruct (add_node neqb c n d ch g) as [g'|] eqn:E; cbn [fst]; [|exact S]. apply add_node_Ok in E. destruct E as (t & _ & ->). unfold state. cbn [g_nodes]. rewrite (nx_add_node_keys neqb). destruct (nmem neqb n _); [exact S|]. apply in_app_iff. left. exact S.
    - destruct (add_edge neqb veqb c u v k d ch g) as [g'|] eqn:E; cbn [fst]; [|exact S]. apply (add_edge_Ok neqb veqb neqb_eq) in E. destruct E as (_ & _ & _ & t & _ & [[-> _]|(_ & _ & ->)]); exact S.
    - exact S.
    - unfold add_initial. destruct (has_node neqb n g); exact S.
  Qed.
  Lemma remove_node_states n g : state g n -> exists g', remove_node neqb n g = Ok g' /\ (forall x, state g' x <-> state g x /\ x <> n) /\
    (forall e, In e (g_edges g') <-> In e (g_edges g) /\ e_src e <> n /\ e_dst e <> n) /\ g_init g' = g_init g /\
    (forall x b, x <> n -> (In (x, b) (g_nodes g') <-> In (x, b) (g_nodes g))).
  Proof.
    intro S. unfold remove_node. rewrite (proj2 (state_has g n) S). eexists. split; [reflexivity|]. split; [|split; [|split; [reflexivity|]]]; unfold state; cbn [g_nodes g_edges].
    - intro x. rewrite !in_map_iff. split.
      + intros ([y b] & <- & I). apply filter_In in I. destruct I as [I Q]. cbn in *. apply negb_true_iff, (neqb_neq neqb neqb_eq) in Q. split; [exists (y, b); auto|exact Q].
      + intros [([y b] & <- & I) NE]. exists (y, b). split; [reflexivity|]. apply filter_In. split; [exact I|]. apply negb_true_iff, (neqb_neq neqb neqb_eq), NE.
    - intro e. rewrite filter_In, andb_true_iff, !negb_true_iff, !(neqb_neq neqb neqb_eq). reflexivity.
    - intros x b NE. rewrite filter_In. cbn. split; [intros [I _]; exact I|]. intro I. split; [exact I|]. apply negb_true_iff, (neqb_neq neqb neqb_eq), NE.
  Qed.

  (** ** Accepting states *)
  Definition aut_ok a : Prop := inv (a_acc a) /\ forall x, elem (a_acc a) x -> state (a_graph a) x.
  Lemma remove_node_ok n a : aut_ok a -> aut_ok (fst (aut_remove_node neqb n a)).
  Proof.
    intros [I S]. unfold aut_remove_node. pose proof (remove_ok neqb hashable neqb_eq n (a_acc a) I) as R. destruct (ms_remove neqb hashable n (a_acc a)) as [acc|e]; [|split; assumption].
    destruct R as (In_n & I' & M). destruct (remove_node_states n (a_graph a) (S n In_n)) as (g & -> & St & _). cbn [fst]. split; [exact I'|]. cbn [a_acc a_graph]. intros x X. apply M in X. apply St. split; [apply S, X|apply X].
  Qed.
  Lemma astep_ok c o a : aut_ok a -> aut_ok (fst (astep c o a)).
  Proof.
    intros [I S]. destruct o as [o|x|l|x]; cbn [M_Automata.astep].
    - destruct (removes o) as [n|] eqn:R.
      + destruct o; try discriminate R; injection R as ->; [exact (remove_node_ok n a (Logic.conj I S))|]. apply remove_node_ok. split; assumption.
      + assert (G : aut_ok (Aut (fst (gstep neqb veqb c o (a_graph a))) (a_acc a))) by (split; [exact I|intros x X; exact (gstep_states c o _ R x (S x X))]).
        destruct o; try discriminate R; exact G.
    - cbn [fst sstep]. unfold ss_add. cbn [states_of in_super bind]. destruct (has_node neqb x (a_graph a)) eqn:E; cbn [fst]; [|split; assumption].
      destruct (add_ok neqb hashable neqb_eq x (a_acc a) I) as [I' M]. split; [exact I'|]. cbn [a_acc a_graph]. intros y Y. apply M in Y. destruct Y as [->|Y]; [apply state_has, E|exact (S y Y)].
    - cbn [fst sstep]. destruct (ss_add_from_cases (a_graph a) l (a_acc a) I) as [(m' & -> & I' & M & L)|[-> _]]; cbn [fst]; [|split; assumption]. split; [exact I'|]. cbn [a_acc a_graph]. intros y Y. apply M in Y. destruct Y as [Y|Y]; [exact (L y Y)|exact (S y Y)].
    - cbn [fst sstep]. pose proof (remove_ok neqb hashable neqb_eq x (a_acc a) I) as R. destruct (ms_remove neqb hashable x (a_acc a)) as [acc|e]; cbn [fst]; [|split; assumption]. destruct R as (_ & I' & M). split; [exact I'|]. cbn [a_acc a_graph]. intros y Y. apply M in Y. exact (S y (proj1 Y)).
  Qed.
  Lemma arun_ok c l : forall a, aut_ok a -> aut_ok (arun c l a).
  Proof. unfold M_Automata.arun. induction l as [|o l IH]; intros a W; [exact W|]. cbn [fold_left]. apply IH, astep_ok, W. Qed.
  Lemma empty_ok : aut_ok empty_automaton.
  Proof. split; [apply inv_empty|]. intros x []. Qed.
  (** Whatever is called, the accepting states are states, and no state is there twice. *)
  Theorem accepting_states c l : let a := arun c l empty_automaton in NoDup (ms_list (a_acc a) ++ ms_set (a_acc a)) /\ forall x, elem (a_acc a) x -> state (a_graph a) x.
  Proof. cbv zeta. destruct (arun_ok c l _ empty_ok) as [I S]. split; [exact (inv_iter hashable _ I)|exact S]. Qed.
  (** An accepting state is removed from the states, the initial and the accepting ones, with its transitions, and nothing else. *)
  Theorem remove_accepting c l n : let a := arun c l empty_automaton in elem (a_acc a) n ->
    exists a', astep c (AGraph (GRemoveState n)) a = (a', None) /\
      (forall x, state (a_graph a') x <-> state (a_graph a) x /\ x <> n) /\
      (forall x b, x <> n -> (In (x, b) (g_nodes (a_graph a')) <-> In (x, b) (g_nodes (a_graph a)))) /\
      (forall x, elem (a_acc a') x <-> elem (a_acc a) x /\ x <> n) /\
      (forall x, In x (g_init (a_graph a')) <-> In x (g_init (a_graph a)) /\ x <> n) /\
      (forall e, In e (g_edges (a_graph a')) <-> In e (g_edges (a_graph a)) /\ e_src e <> n /\ e_dst e <> n).
  Proof.
    cbv zeta. intro In_n. destruct (arun_ok c l _ empty_ok) as [I S]. set (a := arun c l empty_automaton) in *. cbn [M_Automata.astep]. unfold aut_remove_state, aut_remove_node. cbn [a_acc a_graph].
    pose proof (remove_ok neqb hashable neqb_eq n (a_acc a) I) as R. destruct (ms_remove neqb hashable n (a_acc a)) as [acc|e]; [|destruct (proj1 R In_n)]. destruct R as (_ & I' & M).
    destruct (remove_node_states n (drop_initial neqb n (a_graph a)) (S n In_n)) as (g & -> & St & Ed & It & Nd). eexists. split; [reflexivity|]. cbn [a_graph a_acc].
    split; [exact St|]. split; [exact Nd|]. split; [exact M|]. split; [|exact Ed]. intro x. rewrite It. cbn [drop_initial g_init]. rewrite filter_In, negb_true_iff, (neqb_neq neqb neqb_eq). reflexivity.
  Qed.
  (** But a state that is not accepting cannot be removed: ValueError, and it is no longer initial. *)
  Theorem remove_not_accepting_refuted c l n : let a := arun c l empty_automaton in ~ elem (a_acc a) n ->
    exists a', astep c (AGraph (GRemoveState n)) a = (a', Some "ValueError") /\
      g_nodes (a_graph a') = g_nodes (a_graph a) /\ g_edges (a_graph a') = g_edges (a_graph a) /\ a_acc a' = a_acc a /\
      (forall x, In x (g_init (a_graph a')) <-> In x (g_init (a_graph a)) /\ x <> n).
  Proof.
    cbv zeta. intro NI. destruct (arun_ok c l _ empty_ok) as [I S]. set (a := arun c l empty_automaton) in *. cbn [M_Automata.astep]. unfold aut_remove_state, aut_remove_node. cbn [a_acc a_graph].
    pose proof (remove_ok neqb hashable neqb_eq n (a_acc a) I) as R. destruct (ms_remove neqb hashable n (a_acc a)) as [acc|e]; [destruct (NI (proj1 R))|]. destruct R as [_ ->].
    eexists. split; [reflexivity|]. cbn [a_graph a_acc drop_initial g_nodes g_edges g_init]. do 3 (split; [reflexivity|]). intro x. rewrite filter_In, negb_true_iff, (neqb_neq neqb neqb_eq). reflexivity.
  Qed.

  (** ** Rabin pairs *)
  Implicit Types r : rabin N V.
  Definition pair_in (g : graph N V) (p : mathset N * mathset N) : Prop :=
    inv (fst p) /\ inv (snd p) /\ (forall x, elem (fst p) x -> state g x) /\ (forall x, elem (snd p) x -> state g x).
  Definition rabin_ok r : Prop := forall p, In p (r_pairs r) -> pair_in (r_graph r) p.
  Lemma make_pair_cases g good bad :
    (exists p, make_pair neqb g good bad = Ok p /\ pair_in g p /\ (forall x, elem (fst p) x <-> In x good) /\ (forall x, elem (snd p) x <-> In x bad) /\ (forall x, In x good \/ In x bad -> state g x)) \/
    (make_pair neqb g good bad = Err "ValueError" /\ exists x, (In x good \/ In x bad) /\ ~ state g x).
  Proof.
    unfold make_pair. destruct (ss_add_from_cases g good ms_empty (inv_empty hashable)) as [(m1 & -> & I1 & M1 & L1)|[-> (x & X & H)]]; cbn [bind]; [|right; split; [reflexivity|eauto]].
    destruct (ss_add_from_cases g bad ms_empty (inv_empty hashable)) as [(m2 & -> & I2 & M2 & L2)|[-> (x & X & H)]]; cbn [bind]; [|right; split; [reflexivity|eauto]].
    left. exists (m1, m2). split; [reflexivity|]. cbn [fst snd].
    assert (E1 : forall x, elem m1 x <-> In x good) by (intro x; rewrite M1; split; [intros [H|[]]; exact H|auto]).
    assert (E2 : forall x, elem m2 x <-> In x bad) by (intro x; rewrite M2; split; [intros [H|[]]; exact H|auto]).
    split; [split; [exact I1|split; [exact I2|split; cbn; intros x X; [apply L1, E1, X|apply L2, E2, X]]]|]. split; [exact E1|]. split; [exact E2|]. intros x [X|X]; auto.
  Qed.
  Lemma remove_pair_cases p : forall l, inv (fst p) -> inv (snd p) -> (forall q, In q l -> inv (fst q) /\ inv (snd q)) ->
    let same q := (forall x, elem (fst q) x <-> elem (fst p) x) /\ (forall x, elem (snd q) x <-> elem (snd p) x) in
    (exists l1 q l2, l = l1 ++ q :: l2 /\ remove_pair neqb p l = Ok (l1 ++ l2) /\ same q /\ forall q', In q' l1 -> ~ same q') \/
    (remove_pair neqb p l = Err "ValueError" /\ forall q, In q l -> ~ same q).
  Proof.
    intros l Ip Ip' W same. induction l as [|q l IH]; cbn [remove_pair]; [right; split; [reflexivity|intros q []]|].
    destruct (W q (or_introl eq_refl)) as [Iq Iq']. assert (E : pair_eqb neqb q p = true <-> same q).
    { unfold pair_eqb. rewrite andb_true_iff, (eqb_ok neqb hashable neqb_eq _ _ Iq Ip), (eqb_ok neqb hashable neqb_eq _ _ Iq' Ip'). reflexivity. }
    destruct (pair_eqb neqb q p); [left; exists [], q, l; split; [reflexivity|]; split; [reflexivity|]; split; [apply E; reflexivity|intros q' []]|].
    assert (NS : ~ same q) by (intro S; apply E in S; discriminate).
    destruct IH as [(l1 & q1 & l2 & -> & -> & S & P)|[-> P]]; [intros x X; apply W; right; exact X| |]; cbn [bind].
    - left. exists (q :: l1), q1, l2. split; [reflexivity|]. split; [reflexivity|]. split; [exact S|]. intros q' [<-|X]; [exact NS|exact (P q' X)].
    - right. split; [reflexivity|]. intros q' [<-|X]; [exact NS|exact (P q' X)].
  Qed.
  Lemma set_nth_In {A} k (y : A) l p : In p (set_nth k y l) -> p = y \/ In p l.
  Proof. revert k. induction l as [|z l IH]; intros [|k] I; cbn in *; auto; destruct I as [<-|I]; auto. destruct (IH k I); auto. Qed.
  Lemma rstep_ok c o r : rabin_ok r -> rabin_ok (fst (rstep c o r)).
  Proof.
    intro W. assert (MONO : forall g', (forall x, state (r_graph r) x -> state g' x) -> rabin_ok (Rabin g' (r_pairs r))).
    { intros g' H p I. destruct (W p I) as (A & B & C & D). split; [exact A|]. split; [exact B|]. split; cbn [r_graph]; auto. }
    destruct o as [o|good bad|good bad|i good bad]; cbn [M_Automata.rstep].
    - destruct (removes o) as [n|] eqn:R.
      + destruct o; try discriminate R; cbn [fst]; [exact W|]. apply MONO. intros x X; exact X.
      + assert (G : rabin_ok (Rabin (fst (gstep neqb veqb c o (r_graph r))) (r_pairs r))) by (apply MONO; exact (gstep_states c o _ R)). destruct o; try discriminate R; exact G.
    - destruct (make_pair_cases (r_graph r) good bad) as [(p & -> & P & _)|[-> _]]; cbn [bind fst]; [|exact W]. intros q I. cbn [r_pairs r_graph] in *. apply in_app_iff in I. destruct I as [I|[<-|[]]]; [exact (W q I)|exact P].
    - destruct (make_pair_cases (r_graph r) good bad) as [(p & -> & P & _)|[-> _]]; cbn [bind fst]; [|exact W].
      destruct (remove_pair_cases p (r_pairs r) (proj1 P) (proj1 (proj2 P)) (fun q I => Logic.conj (proj1 (W q I)) (proj1 (proj2 (W q I))))) as [(l1 & q & l2 & E & -> & _)|[-> _]]; cbn [fst]; [|exact W].
      intros x I. cbn [r_pairs r_graph] in *. apply W. rewrite E. apply in_app_iff in I. apply in_app_iff. destruct I; [left|right; right]; assumption.
    - unfold rabin_add_states. destruct (py_index i _) as [k|]; [|exact W]. destruct (nth_error (r_pairs r) k) as [p|] eqn:E; [|exact W]. apply nth_error_In in E. destruct (W p E) as (Ia & Ib & Sa & Sb).
      destruct (ss_add_from_cases (r_graph r) good (fst p) Ia) as [(m1 & -> & I1 & M1 & L1)|[-> _]]; [|exact W].
      assert (S1 : forall x, elem m1 x -> state (r_graph r) x) by (intros x X; apply M1 in X; destruct X; auto).
      destruct (ss_add_from_cases (r_graph r) bad (snd p) Ib) as [(m2 & -> & I2 & M2 & L2)|[-> _]]; cbn [fst]; intros q I; cbn [r_pairs r_graph] in *; apply set_nth_In in I; destruct I as [->|I]; try exact (W q I).
      + split; [exact I1|]. split; [exact I2|]. split; [exact S1|]. cbn. intros x X; apply M2 in X; destruct X; auto.
      + split; [exact I1|]. split; [exact Ib|]. split; [exact S1|exact Sb].
  Qed.
  Lemma rrun_ok c l : forall r, rabin_ok r -> rabin_ok (rrun c l r).
  Proof. unfold M_Automata.rrun. induction l as [|o l IH]; intros r W; [exact W|]. cbn [fold_left]. apply IH, rstep_ok, W. Qed.
  (** Whatever is called, the good and the bad states of all pairs are states. *)
  Theorem rabin_states c l : let r := rrun c l empty_rabin in forall A B, In (A, B) (r_pairs r) -> forall x, elem A x \/ elem B x -> state (r_graph r) x.
  Proof. cbv zeta. intros A B I x X. destruct (rrun_ok c l empty_rabin (fun p (Q : In p []) => match Q with end) (A, B) I) as (_ & _ & S1 & S2). destruct X; [exact (S1 x H)|exact (S2 x H)]. Qed.
  (** [add]: a new last pair with exactly these sets, if all are states; otherwise ValueError and no change. *)
  Theorem rabin_add_pair c l good bad : let r := rrun c l empty_rabin in
    ((forall x, In x good \/ In x bad -> state (r_graph r) x) ->
      exists A B, rstep c (RAdd good bad) r = (Rabin (r_graph r) (r_pairs r ++ [(A, B)]), None) /\ (forall x, elem A x <-> In x good) /\ (forall x, elem B x <-> In x bad)) /\
    ((exists x, (In x good \/ In x bad) /\ ~ state (r_graph r) x) -> rstep c (RAdd good bad) r = (r, Some "ValueError")).
  Proof.
    cbv zeta. set (r := rrun c l empty_rabin). cbn [M_Automata.rstep]. destruct (make_pair_cases (r_graph r) good bad) as [([A B] & -> & P & E1 & E2 & H)|[-> (x & X & H)]]; cbn [bind].
    - split; [intros _; exists A, B; auto|]. intros (x & X & K). destruct (K (H x X)).
    - split; [intro K; destruct (H (K x X))|]. reflexivity.
  Qed.
  (** [remove]: the first pair with these sets, if there is one. *)
  Theorem rabin_remove_pair c l good bad : let r := rrun c l empty_rabin in
    let same (q : mathset N * mathset N) := (forall x, elem (fst q) x <-> In x good) /\ (forall x, elem (snd q) x <-> In x bad) in
    ((exists q, In q (r_pairs r) /\ same q) ->
      exists l1 q l2, r_pairs r = l1 ++ q :: l2 /\ same q /\ (forall q', In q' l1 -> ~ same q') /\ rstep c (RRemove good bad) r = (Rabin (r_graph r) (l1 ++ l2), None)) /\
    ((forall q, In q (r_pairs r) -> ~ same q) -> rstep c (RRemove good bad) r = (r, Some "ValueError")).
  Proof.
    cbv zeta. pose proof (rrun_ok c l empty_rabin (fun p (Q : In p []) => match Q with end)) as W. set (r := rrun c l empty_rabin) in *. cbn [M_Automata.rstep].
    destruct (make_pair_cases (r_graph r) good bad) as [(p & -> & P & E1 & E2 & H)|[-> (x & X & H)]]; cbn [bind].
    - assert (SAME : forall q : mathset N * mathset N, ((forall x, elem (fst q) x <-> elem (fst p) x) /\ (forall x, elem (snd q) x <-> elem (snd p) x)) <-> ((forall x, elem (fst q) x <-> In x good) /\ (forall x, elem (snd q) x <-> In x bad))).
      { intro q. split; intros [K1 K2]; split; intro x; [rewrite K1; apply E1|rewrite K2; apply E2|rewrite K1; symmetry; apply E1|rewrite K2; symmetry; apply E2]. }
      destruct (remove_pair_cases p (r_pairs r) (proj1 P) (proj1 (proj2 P)) (fun q I => Logic.conj (proj1 (W q I)) (proj1 (proj2 (W q I))))) as [(l1 & q & l2 & E & -> & S & B)|[-> B]].
      + split.
        * intros _. exists l1, q, l2. split; [exact E|]. split; [apply SAME, S|]. split; [intros q' I K; apply (B q' I), SAME, K|reflexivity].
        * intro K. exfalso. apply (K q); [rewrite E; apply in_app_iff; right; left; reflexivity|apply SAME, S].
      + split; [intros (q & I & K); exfalso; apply (B q I), SAME, K|reflexivity].
    - split; [|reflexivity]. intros (q & I & K1 & K2). exfalso. apply H. destruct (W q I) as (_ & _ & S1 & S2). destruct X as [X|X]; [apply S1, K1, X|apply S2, K2, X].
  Qed.
  (** [add_states] is not atomic: bad states that are no states leave the good ones added. *)
  Theorem rabin_add_states_refuted c l k good bad p : let r := rrun c l empty_rabin in
    nth_error (r_pairs r) k = Some p -> (forall x, In x good -> state (r_graph r) x) -> (exists x, In x bad /\ ~ state (r_graph r) x) ->
    exists A r', rstep c (RAddStates (Z.of_nat k) good bad) r = (r', Some "ValueError") /\ nth_error (r_pairs r') k = Some (A, snd p) /\ (forall x, elem A x <-> In x good \/ elem (fst p) x).
  Proof.
    cbv zeta. pose proof (rrun_ok c l empty_rabin (fun p (Q : In p []) => match Q with end)) as W. set (r := rrun c l empty_rabin) in *. intros E G (x & X & B). cbn [M_Automata.rstep]. unfold rabin_add_states.
    assert (L : k < List.length (r_pairs r)) by (apply nth_error_Some; congruence).
    assert (PI : py_index (Z.of_nat k) (List.length (r_pairs r)) = Some k).
    { unfold py_index. destruct (Z.ltb_spec (Z.of_nat k) 0); [lia|]. destruct (Z.ltb_spec (Z.of_nat k) 0); [lia|]. destruct (Z.leb_spec (Z.of_nat (List.length (r_pairs r))) (Z.of_nat k)); [lia|]. cbn. f_equal. lia. }
    rewrite PI, E. destruct (W p (nth_error_In _ _ E)) as (Ia & Ib & _).
    destruct (ss_add_from_cases (r_graph r) good (fst p) Ia) as [(m1 & -> & I1 & M1 & L1)|[_ (y & Y & K)]]; [|destruct (K (G y Y))].
    destruct (ss_add_from_cases (r_graph r) bad (snd p) Ib) as [(m2 & _ & _ & _ & L2)|[-> _]]; [destruct (B (L2 x X))|].
    exists m1. eexists. split; [reflexivity|]. cbn [r_pairs]. split; [|exact M1]. clear - L. revert k L. induction (r_pairs r) as [|q qs IH]; intros [|k] L; cbn in *; try lia; [reflexivity|]. apply IH. lia.
  Qed.
  (** With states only, both sets grow by exactly these. *)
  Theorem rabin_add_states_pair c l k good bad p : let r := rrun c l empty_rabin in
    nth_error (r_pairs r) k = Some p -> (forall x, In x good \/ In x bad -> state (r_graph r) x) ->
    exists A B, rstep c (RAddStates (Z.of_nat k) good bad) r = (Rabin (r_graph r) (firstn k (r_pairs r) ++ (A, B) :: skipn (S k) (r_pairs r)), None) /\
      (forall x, elem A x <-> In x good \/ elem (fst p) x) /\ (forall x, elem B x <-> In x bad \/ elem (snd p) x).
  Proof.
    cbv zeta. pose proof (rrun_ok c l empty_rabin (fun p (Q : In p []) => match Q with end)) as W. set (r := rrun c l empty_rabin) in *. intros E G. cbn [M_Automata.rstep]. unfold rabin_add_states.
    assert (L : k < List.length (r_pairs r)) by (apply nth_error_Some; congruence).
    assert (PI : py_index (Z.of_nat k) (List.length (r_pairs r)) = Some k).
    { unfold py_index. destruct (Z.ltb_spec (Z.of_nat k) 0); [lia|]. destruct (Z.ltb_spec (Z.of_nat k) 0); [lia|]. destruct (Z.leb_spec (Z.of_nat (List.length (r_pairs r))) (Z.of_nat k)); [lia|]. cbn. f_equal. lia. }
    rewrite PI, E. destruct (W p (nth_error_In _ _ E)) as (Ia & Ib & _).
    destruct (ss_add_from_cases (r_graph r) good (fst p) Ia) as [(m1 & -> & I1 & M1 & L1)|[_ (y & Y & K)]]; [|destruct (K (G y (or_introl Y)))].
    destruct (ss_add_from_cases (r_graph r) bad (snd p) Ib) as [(m2 & -> & _ & M2 & L2)|[_ (y & Y & K)]]; [|destruct (K (G y (or_intror Y)))].
    exists m1, m2. split; [|split; [exact M1|exact M2]]. f_equal. f_equal. clear - L. revert k L. induction (r_pairs r) as [|q qs IH]; intros [|k] L; cbn in *; try lia; [reflexivity|]. f_equal. apply IH. lia.
  Qed.
  (** No state can be removed from a Rabin automaton: TypeError, and it is no longer initial. *)
  Theorem rabin_remove_state_refuted c r n :
    snd (rstep c (RGraph (GRemoveState n)) r) = Some "TypeError" /\ g_nodes (r_graph (fst (rstep c (RGraph (GRemoveState n)) r))) = g_nodes (r_graph r) /\
    ~ In n (g_init (r_graph (fst (rstep c (RGraph (GRemoveState n)) r)))).
  Proof. split; [reflexivity|]. split; [reflexivity|]. cbn. rewrite filter_In, (neqb_refl neqb neqb_eq). intros [_ H]. discriminate. Qed.
  (** Pairs by number: from the start, and negative numbers from the end. *)
  Theorem rabin_pair_index r i : rabin_pair i r =
    match (if (0 <=? i)%Z then nth_error (r_pairs r) (Z.to_nat i) else nth_error (rev (r_pairs r)) (Z.to_nat (- i - 1))) with Some p => Ok p | None => Err "IndexError" end.
  Proof.
    unfold rabin_pair, of_opt, py_index. set (n := List.length (r_pairs r)). destruct (Z.leb_spec 0 i) as [H|H].
    - destruct (Z.ltb_spec i 0); [lia|]. destruct (Z.ltb_spec i 0); [lia|]. destruct (Z.leb_spec (Z.of_nat n) i) as [K|K]; cbn [orb]; [|reflexivity]. rewrite (proj2 (nth_error_None (r_pairs r) (Z.to_nat i))); [reflexivity|]. fold n. lia.
    - destruct (Z.ltb_spec i 0); [|lia]. destruct (Z.ltb_spec (i + Z.of_nat n) 0) as [K|K]; cbn [orb].
      + rewrite (proj2 (nth_error_None (rev (r_pairs r)) (Z.to_nat (- i - 1)))); [reflexivity|]. rewrite rev_length. fold n. lia.
      + destruct (Z.leb_spec (Z.of_nat n) (i + Z.of_nat n)); [lia|]. cbn [orb].
        destruct (nth_error (r_pairs r) (Z.to_nat (i + Z.of_nat n))) as [p|] eqn:E; [|apply nth_error_None in E; fold n in E; lia].
        assert (D : nth (Z.to_nat (- i - 1)) (rev (r_pairs r)) p = p).
        { rewrite rev_nth by (fold n; lia). fold n. replace (n - S (Z.to_nat (- i - 1))) with (Z.to_nat (i + Z.of_nat n)) by lia. apply nth_error_nth, E. }
        rewrite (nth_error_nth' (rev (r_pairs r)) p) by (rewrite rev_length; fold n; lia). rewrite D. reflexivity.
  Qed.

  (** ** Parity games *)
  Lemma first_max_spec l : forall b, In (first_max b l) (b :: l) /\ forall x, In x (b :: l) -> snd x <= snd (first_max (N := N) b l).
  Proof.
    induction l as [|y l IH]; intro b; cbn [first_max]; [split; [left; reflexivity|intros x [<-|[]]; apply le_n]|].
    destruct (IH (if snd b <? snd y then y else b)) as [I M]. destruct (Nat.ltb_spec (snd b) (snd y)) as [L|L].
    - split; [destruct I as [I|I]; [right; left; exact I|right; right; exact I]|]. intros x [<-|[<-|X]]; [pose proof (M y (or_introl eq_refl)); lia|exact (M y (or_introl eq_refl))|exact (M x (or_intror X))].
    - split; [destruct I as [I|I]; [left; exact I|right; right; exact I]|]. intros x [<-|[<-|X]]; [exact (M b (or_introl eq_refl))|pose proof (M b (or_introl eq_refl)); lia|exact (M x (or_intror X))].
  Qed.
  (** [max_color] returns a node of maximal color, not the color. *)
  Theorem max_color_refuted (minus1 : N) (game : list (N * nat)) : game <> [] -> exists k, In (max_color minus1 game, k) game /\ forall x j, In (x, j) game -> j <= k.
  Proof.
    destruct game as [|x r]; [contradiction|]. intros _. cbn [max_color]. destruct (first_max_spec r x) as [I M]. exists (snd (first_max x r)). rewrite <- surjective_pairing. split; [exact I|]. intros y j J. exact (M (y, j) J).
  Qed.
End C86.

Example ex_max_color : max_color (N := Z) (-1)%Z [(7%Z, 0); (8%Z, 1); (9%Z, 1)] = 8%Z. Proof. reflexivity. Qed.

(** ** Cases *)
Definition ex_conf : config nat := Config [] [] [] [].
Definition ex_calls : list (aop nat nat) :=
  [AGraph (GAddNode 0 [] true); AGraph (GAddNode 1 [] true); AGraph (GAddNode 2 [] true); AGraph (GAddInitial 0); AGraph (GAddInitial 1);
   AGraph (GAddEdge 0 1 None [] true); AGraph (GAddEdge 1 2 None [] true); AGraph (GAddEdge 2 0 None [] true); AAcceptFrom [1; 2]; AAccept 5].
Definition ex_aut := arun Nat.eqb Nat.eqb ex_conf ex_calls empty_automaton.
Example ex_accepting : ms_iter (a_acc ex_aut) = [1; 2] /\ node_list (a_graph ex_aut) = [0; 1; 2]. Proof. vm_compute. auto. Qed.
Example ex_remove_1 : let r := astep Nat.eqb Nat.eqb ex_conf (AGraph (GRemoveState 1)) ex_aut in
  snd r = None /\ node_list (a_graph (fst r)) = [0; 2] /\ ms_iter (a_acc (fst r)) = [2] /\ g_init (a_graph (fst r)) = [0] /\ List.length (g_edges (a_graph (fst r))) = 1.
Proof. vm_compute. auto 6. Qed.
Example ex_remove_0 : let r := astep Nat.eqb Nat.eqb ex_conf (AGraph (GRemoveState 0)) ex_aut in
  snd r = Some "ValueError" /\ node_list (a_graph (fst r)) = [0; 1; 2] /\ g_init (a_graph (fst r)) = [1].
Proof. vm_compute. auto. Qed.
(** As in tests/transys_automata_test.py *)
Definition ex_rabin_calls : list (rop nat nat) :=
  map (fun n => RGraph (GAddNode n [] true)) [0; 1; 2; 3; 4] ++
  [RAdd [1; 2] [3; 4]; RRemove [2; 1] [4; 3]; RAdd [1] [2; 4]; RAddStates 0 [2] []; RAdd [2; 1] []; RAdd [1] [9]].
Definition ex_rabin := rrun Nat.eqb Nat.eqb ex_conf ex_rabin_calls empty_rabin.
Example ex_pairs : map (fun p => (ms_iter (fst p), ms_iter (snd p))) (r_pairs ex_rabin) = [([1; 2], [2; 4]); ([2; 1], [])]. Proof. vm_compute. reflexivity. Qed.
Example ex_add_states : let r := rstep Nat.eqb Nat.eqb ex_conf (RAddStates 1 [3] [9]) ex_rabin in
  snd r = Some "ValueError" /\ map (fun p => (ms_iter (fst p), ms_iter (snd p))) (r_pairs (fst r)) = [([1; 2], [2; 4]); ([2; 1; 3], [])].
Proof. vm_compute. auto. Qed.

Print Assumptions accepting_states.
Print Assumptions remove_accepting.
Print Assumptions remove_not_accepting_refuted.
Print Assumptions rabin_states.
Print Assumptions rabin_add_pair.
Print Assumptions rabin_remove_pair.
Print Assumptions rabin_add_states_refuted.
Print Assumptions rabin_add_states_pair.
Print Assumptions rabin_remove_state_refuted.
Print Assumptions rabin_pair_index.
Print Assumptions max_color_refuted.
