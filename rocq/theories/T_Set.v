(** C25, C26, C27: MathSet, SubSet, PowerSet. *)
From Coq Require Import List String Bool Arith Lia Permutation.
From Verif Require Import M_Base M_Set.
Import ListNotations.
Open Scope string_scope.
Open Scope list_scope.

Section Sets.
  Context {E : Type} (eeqb : E -> E -> bool) (kd : E -> kind).
  Hypothesis eeqb_eq : forall a b, eeqb a b = true <-> a = b.
  Implicit Types m : mathset E.

  Notation emem := (emem eeqb).
  Notation insert := (insert eeqb).
  Notation insert_all := (insert_all eeqb).
  Notation H x := (kd x = KH).

  Lemma emem_In x l : emem x l = true <-> In x l.
  Proof.
    unfold M_Set.emem. rewrite existsb_exists. split.
    - intros [y [I Q]]. apply eeqb_eq in Q. subst. exact I.
    - intro I. exists x. split; [exact I|apply eeqb_eq; reflexivity].
  Qed.
  Lemma emem_dec (x : E) l : In x l \/ ~ In x l.
  Proof. destruct (emem x l) eqn:Q; [left; apply emem_In, Q|right; intro I; apply emem_In in I; congruence]. Qed.
  Lemma insert_In x l y : In y (insert x l) <-> y = x \/ In y l.
  Proof.
    unfold M_Set.insert. destruct (emem x l) eqn:Q.
    - apply emem_In in Q. split; [auto|]. intros [->|]; auto.
    - rewrite in_app_iff. cbn. split; [intros [|[|[]]]; auto|intros [|]; auto].
  Qed.
  Lemma snoc_NoDup (l : list E) x : NoDup l -> ~ In x l -> NoDup (l ++ [x]).
  Proof.
    induction l as [|a r IH]; cbn [app]; intros N I; [repeat constructor; auto|].
    inversion N; subst. constructor.
    - rewrite in_app_iff. intros [J|[->|[]]]; [auto|apply I; left; reflexivity].
    - apply IH; [assumption|]. intro; apply I; right; assumption.
  Qed.
  Lemma insert_NoDup x l : NoDup l -> NoDup (insert x l).
  Proof.
    intro N. unfold M_Set.insert. destruct (emem x l) eqn:Q; [exact N|]. apply snoc_NoDup; [exact N|].
    intro I. apply emem_In in I. congruence.
  Qed.
  Lemma insert_all_In l s y : In y (insert_all l s) <-> In y l \/ In y s.
  Proof.
    unfold M_Set.insert_all. revert s. induction l as [|a r IH]; intro s; cbn [fold_left In]; [tauto|].
    rewrite IH, insert_In. intuition.
  Qed.
  Lemma insert_all_NoDup l s : NoDup s -> NoDup (insert_all l s).
  Proof.
    unfold M_Set.insert_all. revert s. induction l as [|a r IH]; intros s N; cbn [fold_left]; [exact N|].
    apply IH, insert_NoDup, N.
  Qed.
  Lemma unique_In l y : In y (unique eeqb l) <-> In y l.
  Proof. unfold unique. rewrite insert_all_In. cbn. tauto. Qed.
  Lemma unique_NoDup l : NoDup (unique eeqb l).
  Proof. apply insert_all_NoDup. constructor. Qed.

  Lemma remove_first_Some x l l' : remove_first eeqb x l = Some l' -> Permutation l (x :: l').
  Proof.
    revert l'. induction l as [|y r IH]; intros l' Q; cbn [remove_first] in Q; [discriminate|].
    destruct (eeqb x y) eqn:B.
    - apply eeqb_eq in B. injection Q as <-. subst. reflexivity.
    - destruct (remove_first eeqb x r) as [r'|] eqn:F; [|discriminate]. injection Q as <-.
      rewrite (IH r' eq_refl). apply perm_swap.
  Qed.
  Lemma remove_first_None x l : remove_first eeqb x l = None <-> ~ In x l.
  Proof.
    induction l as [|y r IH]; cbn [remove_first In]; [split; auto|].
    destruct (eeqb x y) eqn:B.
    - apply eeqb_eq in B. subst. split; [discriminate|intro K; exfalso; auto].
    - assert (y <> x) by (intros ->; rewrite (proj2 (eeqb_eq x x) eq_refl) in B; discriminate).
      destruct (remove_first eeqb x r) as [r'|]; cbn [option_map].
      + split; [discriminate|]. intro K. exfalso. assert (Z : Some r' = None) by (apply IH; tauto). discriminate.
      + split; [|reflexivity]. intros _ [K|K]; [contradiction|]. apply IH; auto.
  Qed.
  (** [compare_lists] decides whether one list is a permutation of the other. *)
  Theorem compare_lists_spec l1 l2 : compare_lists eeqb l1 l2 = true <-> Permutation l1 l2.
  Proof.
    revert l1. induction l2 as [|y r IH]; intro l1; cbn [compare_lists].
    - destruct l1; split; try reflexivity; try discriminate; try constructor.
      intro P. apply Permutation_sym, Permutation_nil in P. discriminate.
    - destruct (remove_first eeqb y l1) as [l1'|] eqn:Q.
      + apply remove_first_Some in Q. rewrite IH. split; intro P.
        * rewrite Q. constructor. exact P.
        * apply (Permutation_cons_inv (a := y)). rewrite <- Q. exact P.
      + split; [discriminate|]. intro P. exfalso. apply remove_first_None in Q. apply Q.
        apply (Permutation_in y (Permutation_sym P)). left; reflexivity.
  Qed.

  (** How a MathSet stores its elements. *)
  Record inv m : Prop := {
    inv_set : forall x, In x (ms_set m) -> H x;
    inv_list : forall x, In x (ms_list m) -> kd x <> KH;
    inv_nd_set : NoDup (ms_set m);
    inv_nd_list : NoDup (ms_list m) }.
  Lemma inv_empty : inv ms_empty.
  Proof. split; cbn; try (intros ? []); constructor. Qed.

  Lemma inv_iter m : inv m -> NoDup (ms_iter m).
  Proof.
    intros [A B C D]. unfold ms_iter. induction (ms_list m) as [|x r IH]; cbn [app]; [exact C|].
    inversion D; subst. constructor.
    - rewrite in_app_iff. intros [I|I]; [auto|]. apply (B x); [left; reflexivity|apply A, I].
    - apply IH; auto. intros y I. apply B. right; exact I.
  Qed.
  Lemma contains_iter m x : inv m -> (ms_contains eeqb kd m x = true <-> In x (ms_iter m)).
  Proof.
    intros [A B C D]. unfold ms_contains, ms_iter. rewrite in_app_iff.
    destruct (kd x) eqn:K; rewrite emem_In; split; auto; intros [I|I]; auto; exfalso.
    - exact (B x I K).
    - rewrite (A x I) in K. discriminate.
    - rewrite (A x I) in K. discriminate.
  Qed.

  (** The mathematical set meant by a sequence of calls. *)
  Definition items (s : source E) : list E :=
    match s with SMath m => ms_iter m | SSet l | SList l | SIter l => l end.
  Definition spec_step (o : mop E) (P : E -> Prop) : E -> Prop := fun x =>
    match o with
    | MAdd y => x = y \/ P x
    | MAddFrom s => In x (items s) \/ P x
    | MRemove y => P x /\ x <> y
    | MIsub l => P x /\ ~ In x l
    end.
  Definition spec (ops : list (mop E)) : E -> Prop := fold_left (fun P o => spec_step o P) ops (fun _ => False).

  (** Arguments of [add_from] that are stored properly: a collection does not mix elements
      that can be hashed with elements that hide something unhashable, and an iterator yields
      only elements that can be hashed. *)
  Definition tame_source (s : source E) : Prop :=
    match s with
    | SMath m => inv m
    | SSet l | SIter l => Forall (fun x => H x) l
    | SList l => (exists x, In x l /\ kd x = KC) -> forall x, In x l -> kd x <> KH
    end.
  Definition tame (o : mop E) : Prop := match o with MAddFrom s => tame_source s | _ => True end.

  Lemma add_ok x m : inv m -> inv (ms_add eeqb kd x m) /\ forall y, In y (ms_iter (ms_add eeqb kd x m)) <-> y = x \/ In y (ms_iter m).
  Proof.
    intros [A B C D]. unfold ms_add. split.
    - destruct (kd x) eqn:K; split; cbn [ms_set ms_list]; auto using insert_NoDup;
        intros y I; apply insert_In in I; destruct I as [->|I]; auto; congruence.
    - intro y. unfold ms_iter. rewrite in_app_iff. destruct (kd x); cbn [ms_set ms_list]; rewrite in_app_iff, insert_In; tauto.
  Qed.
  Lemma is_C_ex l : existsb (is_C kd) l = true <-> exists x, In x l /\ kd x = KC.
  Proof.
    rewrite existsb_exists. split; intros [x [I K]]; exists x; (split; [exact I|]); unfold is_C in *;
      [destruct (kd x); congruence|rewrite K; reflexivity].
  Qed.
  Lemma add_from_ok s m : inv m -> tame_source s ->
    inv (ms_add_from eeqb kd s m) /\ forall y, In y (ms_iter (ms_add_from eeqb kd s m)) <-> In y (items s) \/ In y (ms_iter m).
  Proof.
    intros [A B C D] T. destruct s as [m'|l|l|l]; cbn [ms_add_from items tame_source] in *.
    - destruct T as [A' B' C' D']. split.
      + split; cbn [ms_set ms_list]; auto using insert_all_NoDup, unique_NoDup.
        * intros x I. apply insert_all_In in I. destruct I; auto.
        * intros x I. apply unique_In, in_app_iff in I. destruct I; auto.
      + intro y. unfold ms_iter. cbn [ms_set ms_list]. rewrite !in_app_iff, unique_In, insert_all_In, in_app_iff. tauto.
    - rewrite Forall_forall in T. split.
      + split; cbn [ms_set ms_list]; auto using insert_all_NoDup.
        intros x I. apply insert_all_In in I. destruct I; auto.
      + intro y. unfold ms_iter. cbn [ms_set ms_list]. rewrite !in_app_iff, insert_all_In. tauto.
    - destruct (existsb (is_C kd) l) eqn:X.
      + apply is_C_ex in X. specialize (T X). split.
        * split; cbn [ms_set ms_list]; auto using unique_NoDup.
          intros x I. apply unique_In, in_app_iff in I. destruct I; auto.
        * intro y. unfold ms_iter. cbn [ms_set ms_list]. rewrite !in_app_iff, unique_In, in_app_iff. tauto.
      + assert (NC : forall x, In x l -> kd x <> KC).
        { intros x I K. assert (existsb (is_C kd) l = true) by (apply is_C_ex; eauto). congruence. }
        assert (U : forall x, In x (filter (is_U kd) l) <-> In x l /\ kd x = KU).
        { intro x. rewrite filter_In. apply and_iff_compat_l. unfold is_U. destruct (kd x); split; congruence. }
        assert (HH : forall x, In x (filter (fun x => negb (is_U kd x)) l) <-> In x l /\ kd x <> KU).
        { intro x. rewrite filter_In. apply and_iff_compat_l. unfold is_U. destruct (kd x); cbn; split; congruence. }
        split.
        * split; cbn [ms_set ms_list]; auto using insert_all_NoDup, unique_NoDup.
          -- intros x I. apply insert_all_In in I. rewrite HH in I. destruct I as [[I K]|I]; [|auto].
             specialize (NC x I). destruct (kd x); congruence.
          -- intros x I. apply unique_In, in_app_iff in I. rewrite U in I. destruct I as [I|[I K]]; [auto|congruence].
        * intro y. unfold ms_iter. cbn [ms_set ms_list]. rewrite !in_app_iff, unique_In, insert_all_In, in_app_iff, U, HH.
          split; [tauto|]. intros [I|[I|I]]; auto. destruct (kd y) eqn:K.
          -- right. left. split; [exact I|discriminate].
          -- exfalso. exact (NC y I K).
          -- auto.
    - rewrite Forall_forall in T. assert (X : existsb (is_C kd) l = false).
      { destruct (existsb (is_C kd) l) eqn:X; [|reflexivity]. apply is_C_ex in X. destruct X as [x [I K]].
        rewrite (T x I) in K. discriminate. }
      rewrite X. assert (HH : forall x, In x (filter (fun x => negb (is_U kd x)) l) <-> In x l).
      { intro x. rewrite filter_In. split; [tauto|]. intro I. split; [exact I|]. unfold is_U. rewrite (T x I). reflexivity. }
      split.
      + split; cbn [ms_set ms_list]; auto using insert_all_NoDup, unique_NoDup.
        * intros x I. apply insert_all_In in I. rewrite HH in I. destruct I; auto.
        * intros x I. apply (proj1 (unique_In _ _)) in I. auto.
      + intro y. unfold ms_iter. cbn [ms_set ms_list]. rewrite !in_app_iff, unique_In, insert_all_In, HH. tauto.
  Qed.
  Lemma perm_remove x (l l' : list E) : Permutation l (x :: l') -> NoDup l ->
    NoDup l' /\ forall y, In y l' <-> In y l /\ y <> x.
  Proof.
    intros P N. pose proof (Permutation_NoDup P N) as N'. inversion N'; subst. split; [assumption|].
    intro y. split.
    - intro I. split; [apply (Permutation_in y (Permutation_sym P)); right; exact I|]. intros ->. contradiction.
    - intros [I K]. apply (Permutation_in y P) in I. destruct I as [->|I]; [contradiction|exact I].
  Qed.
  Lemma remove_ok x m : inv m ->
    match ms_remove eeqb kd x m with
    | Ok m' => In x (ms_iter m) /\ inv m' /\ forall y, In y (ms_iter m') <-> In y (ms_iter m) /\ y <> x
    | Err e => ~ In x (ms_iter m) /\ e = "ValueError"
    end.
  Proof.
    intros [A B C D]. unfold ms_remove.
    destruct (remove_first eeqb x (ms_set m)) as [s'|] eqn:RS.
    - pose proof (remove_first_Some _ _ _ RS) as P. destruct (perm_remove _ _ _ P C) as [ND IN].
      assert (K : H x) by (apply A, (Permutation_in x (Permutation_sym P)); left; reflexivity). rewrite K.
      split; [unfold ms_iter; apply in_app_iff; right; apply (Permutation_in x (Permutation_sym P)); left; reflexivity|].
      split; [split; cbn [ms_set ms_list]; auto; intros y I; apply IN in I; apply A, I|].
      intro y. unfold ms_iter. cbn [ms_set ms_list]. rewrite !in_app_iff, IN. split; [|tauto].
      intros [I|I]; [|tauto]. split; [auto|]. intros ->. exact (B x I K).
    - apply remove_first_None in RS. destruct (remove_first eeqb x (ms_list m)) as [l'|] eqn:RL.
      + pose proof (remove_first_Some _ _ _ RL) as P. destruct (perm_remove _ _ _ P D) as [ND IN].
        assert (Q : In x (ms_iter m) /\ inv (MS (ms_set m) l') /\
                    forall y, In y (ms_iter (MS (ms_set m) l')) <-> In y (ms_iter m) /\ y <> x).
        { split; [unfold ms_iter; apply in_app_iff; left; apply (Permutation_in x (Permutation_sym P)); left; reflexivity|].
          split; [split; cbn [ms_set ms_list]; auto; intros y I; apply IN in I; apply B, I|].
          intro y. unfold ms_iter. cbn [ms_set ms_list]. rewrite !in_app_iff, IN. split; [|tauto].
          intros [I|I]; [tauto|]. split; [auto|]. intros ->. contradiction. }
        destruct (kd x); exact Q.
      + apply remove_first_None in RL.
        assert (~ In x (ms_iter m)) by (unfold ms_iter; rewrite in_app_iff; tauto).
        destruct (kd x); auto.
  Qed.
  Lemma isub_ok l m : inv m ->
    inv (ms_isub eeqb kd l m) /\ forall y, In y (ms_iter (ms_isub eeqb kd l m)) <-> In y (ms_iter m) /\ ~ In y l.
  Proof.
    unfold ms_isub. revert m. induction l as [|x r IH]; intros m I; cbn [fold_left In]; [split; [exact I|tauto]|].
    destruct (ms_contains eeqb kd m x) eqn:Q.
    - pose proof (remove_ok x m I) as R. destruct (ms_remove eeqb kd x m) as [m'|].
      + destruct R as [_ [I' S]]. destruct (IH m' I') as [I2 S2]. split; [exact I2|]. intro y. rewrite S2, S. intuition congruence.
      + exfalso. apply (proj1 R). apply contains_iter; assumption.
    - destruct (IH m I) as [I2 S2]. split; [exact I2|]. intro y. rewrite S2. split; [|tauto].
      intros [J K]. split; [exact J|]. intros [->|L]; [|contradiction].
      apply (contains_iter m y I) in J. congruence.
  Qed.
  Lemma step_ok o m P : inv m -> tame o -> (forall x, In x (ms_iter m) <-> P x) ->
    inv (fst (mstep eeqb kd o m)) /\ forall x, In x (ms_iter (fst (mstep eeqb kd o m))) <-> spec_step o P x.
  Proof.
    intros I T S. destruct o as [x|s|x|l]; cbn [mstep spec_step tame] in *.
    - destruct (add_ok x m I) as [I' S']. split; [exact I'|]. intro y. cbn [fst]. rewrite S', S. reflexivity.
    - destruct (add_from_ok s m I T) as [I' S']. split; [exact I'|]. intro y. cbn [fst]. rewrite S', S. reflexivity.
    - pose proof (remove_ok x m I) as R. destruct (ms_remove eeqb kd x m) as [m'|e]; cbn [fst].
      + destruct R as [_ [I' S']]. split; [exact I'|]. intro y. rewrite S', S. reflexivity.
      + split; [exact I|]. intro y. rewrite <- S. split; [|tauto]. intro J. split; [exact J|]. intros ->. tauto.
    - destruct (isub_ok l m I) as [I' S']. split; [exact I'|]. intro y. cbn [fst]. rewrite S', S. reflexivity.
  Qed.
  Lemma run_ok ops : Forall tame ops ->
    inv (mrun eeqb kd ops ms_empty) /\ forall x, In x (ms_iter (mrun eeqb kd ops ms_empty)) <-> spec ops x.
  Proof.
    intro T. unfold mrun, spec.
    assert (G : forall m P, inv m -> (forall x, In x (ms_iter m) <-> P x) ->
              inv (fold_left (fun m o => fst (mstep eeqb kd o m)) ops m) /\
              forall x, In x (ms_iter (fold_left (fun m o => fst (mstep eeqb kd o m)) ops m)) <->
                        fold_left (fun P o => spec_step o P) ops P x).
    { induction ops as [|o r IH]; intros m P I S; cbn [fold_left]; [auto|].
      destruct (step_ok o m P I (Forall_inv T) S) as [I' S']. apply IH; [exact (Forall_inv_tail T)|exact I'|exact S']. }
    apply G; [apply inv_empty|]. intro x. cbn. tauto.
  Qed.

  (** After any sequence of calls, membership, iteration and size are those of the
      mathematical set; no element occurs twice. *)
  Theorem mathset_is_set ops : Forall tame ops ->
    let m := mrun eeqb kd ops ms_empty in
    (forall x, ms_contains eeqb kd m x = true <-> spec ops x) /\
    (forall x, In x (ms_iter m) <-> spec ops x) /\ NoDup (ms_iter m) /\ ms_len m = List.length (ms_iter m).
  Proof.
    intro T. cbv zeta. destruct (run_ok ops T) as [I S]. split.
    - intro x. rewrite <- S. apply contains_iter, I.
    - split; [exact S|]. split; [apply inv_iter, I|]. unfold ms_len, ms_iter. rewrite app_length. lia.
  Qed.
  Lemma eqb_ok a b : inv a -> inv b -> (ms_eqb eeqb a b = true <-> forall x, In x (ms_iter a) <-> In x (ms_iter b)).
  Proof.
    intros [A B C D] [A' B' C' D']. unfold ms_eqb, set_eqb. rewrite !andb_true_iff, !forallb_forall, compare_lists_spec.
    unfold ms_iter. split.
    - intros [[X Y] P] x. rewrite !in_app_iff. split; (intros [I|I]; [left|right]).
      + exact (Permutation_in x P I).
      + apply emem_In, X, I.
      + exact (Permutation_in x (Permutation_sym P) I).
      + apply emem_In, Y, I.
    - intro Q. assert (Q1 : forall x, In x (ms_set a) <-> In x (ms_set b)).
      { intro x. specialize (Q x). rewrite !in_app_iff in Q. split; intro I.
        - destruct (proj1 Q (or_intror I)) as [J|J]; [|exact J]. exfalso. exact (B' x J (A x I)).
        - destruct (proj2 Q (or_intror I)) as [J|J]; [|exact J]. exfalso. exact (B x J (A' x I)). }
      split; [split; intros x I; apply emem_In, Q1, I|]. apply NoDup_Permutation; auto.
      intro x. specialize (Q x). rewrite !in_app_iff in Q. split; intro I.
      + destruct (proj1 Q (or_introl I)) as [J|J]; [exact J|]. exfalso. exact (B x I (A' x J)).
      + destruct (proj2 Q (or_introl I)) as [J|J]; [exact J|]. exfalso. exact (B' x I (A x J)).
  Qed.
  (** Two MathSets are equal exactly when the mathematical sets are. *)
  Theorem mathset_eq ops ops' : Forall tame ops -> Forall tame ops' ->
    (ms_eqb eeqb (mrun eeqb kd ops ms_empty) (mrun eeqb kd ops' ms_empty) = true <-> forall x, spec ops x <-> spec ops' x).
  Proof.
    intros T T'. destruct (run_ok ops T) as [I S], (run_ok ops' T') as [I' S']. rewrite eqb_ok by assumption.
    split; intros Q x; specialize (Q x); [rewrite <- S, <- S'; exact Q|rewrite S, S'; exact Q].
  Qed.
  (** [remove] raises exactly when the element is not there, and then changes nothing. *)
  Theorem mathset_remove ops x : Forall tame ops ->
    let m := mrun eeqb kd ops ms_empty in
    (~ spec ops x <-> mstep eeqb kd (MRemove x) m = (m, Some "ValueError")) /\
    (spec ops x <-> snd (mstep eeqb kd (MRemove x) m) = None).
  Proof.
    intro T. cbv zeta. destruct (run_ok ops T) as [I S]. pose proof (remove_ok x _ I) as R. cbn [mstep].
    destruct (ms_remove eeqb kd x (mrun eeqb kd ops ms_empty)) as [m'|e]; cbn [snd]; rewrite <- S.
    - destruct R as [R _]. split; split; try tauto. discriminate.
    - destruct R as [R ->]. split; split; try tauto. discriminate.
  Qed.
  (** The operators that make a new set. *)
  Theorem mathset_operators ops s l : Forall tame ops -> tame_source s ->
    let m := mrun eeqb kd ops ms_empty in
    (forall x, ms_contains eeqb kd (ms_or eeqb kd m s) x = true <-> spec ops x \/ In x (items s)) /\
    (forall x, ms_contains eeqb kd (ms_sub eeqb kd m l) x = true <-> spec ops x /\ ~ In x l) /\
    (forall x, ms_contains eeqb kd (ms_intersection eeqb kd m l) x = true <-> spec ops x /\ In x l) /\
    (ms_intersects eeqb kd m l = true <-> exists x, spec ops x /\ In x l) /\
    NoDup (ms_iter (ms_or eeqb kd m s)) /\ NoDup (ms_iter (ms_sub eeqb kd m l)) /\ NoDup (ms_iter (ms_intersection eeqb kd m l)).
  Proof.
    intros T TS. cbv zeta. destruct (run_ok ops T) as [I S]. set (m := mrun eeqb kd ops ms_empty) in *.
    destruct (add_from_ok (SMath m) ms_empty inv_empty I) as [I0 S0]. fold (ms_of eeqb kd (SMath m)) in I0, S0.
    assert (S1 : forall y, In y (ms_iter (ms_of eeqb kd (SMath m))) <-> In y (ms_iter m)) by (intro y; rewrite S0; cbn; tauto).
    destruct (add_from_ok s _ I0 TS) as [Io So]. destruct (isub_ok l _ I0) as [Is Ss].
    assert (Ii : forall l acc, inv acc -> inv (fold_left (fun s x => if ms_contains eeqb kd m x then ms_add eeqb kd x s else s) l acc) /\
       forall y, In y (ms_iter (fold_left (fun s x => if ms_contains eeqb kd m x then ms_add eeqb kd x s else s) l acc)) <->
                 In y (ms_iter acc) \/ (In y (ms_iter m) /\ In y l)).
    { clear - I eeqb_eq. induction l as [|x r IH]; intros acc A; cbn [fold_left In]; [split; [exact A|tauto]|].
      destruct (ms_contains eeqb kd m x) eqn:Q.
      - destruct (add_ok x acc A) as [A' S']. destruct (IH _ A') as [A2 S2]. split; [exact A2|]. intro y.
        rewrite S2, S'. apply contains_iter in Q; [|exact I]. split; [|intuition congruence].
        intros [[->|J]|J]; tauto.
      - destruct (IH _ A) as [A2 S2]. split; [exact A2|]. intro y. rewrite S2. split; [tauto|].
        intros [J|[J [->|K]]]; auto. apply (contains_iter m y I) in J. congruence. }
    destruct (Ii l ms_empty inv_empty) as [In' Sn].
    split. { intro x. rewrite contains_iter by exact Io. unfold ms_or. rewrite So, S1, S. tauto. }
    split. { intro x. rewrite contains_iter by exact Is. unfold ms_sub. rewrite Ss, S1, S. tauto. }
    split. { intro x. rewrite contains_iter by exact In'. unfold ms_intersection. rewrite Sn, S. cbn. tauto. }
    split.
    { unfold ms_intersects. rewrite existsb_exists. split; intros [x [A B]]; exists x.
      - apply (contains_iter m x I) in B. rewrite S in B. auto.
      - split; [exact B|]. apply contains_iter; [exact I|]. apply S, A. }
    split; [apply inv_iter, Io|]. split; [apply inv_iter, Is|apply inv_iter, In'].
  Qed.
  (** [pop] takes one element out, and raises exactly on the empty set. *)
  Theorem mathset_pop ops from_set choose : Forall tame ops ->
    match ms_pop eeqb from_set choose (mrun eeqb kd ops ms_empty) with
    | Ok (x, m') => spec ops x /\ forall y, ms_contains eeqb kd m' y = true <-> spec ops y /\ y <> x
    | Err e => e = "KeyError" /\ forall x, ~ spec ops x
    end.
  Proof.
    intro T. destruct (run_ok ops T) as [I S]. set (m := mrun eeqb kd ops ms_empty) in *. unfold ms_pop.
    set (ps := match nth_error (ms_set m) _ with Some _ => _ | None => _ end).
    set (pl := match rev (ms_list m) with [] => _ | _ => _ end).
    assert (PS : ms_set m <> [] -> match ps with
                 | Ok (x, m') => spec ops x /\ forall y, ms_contains eeqb kd m' y = true <-> spec ops y /\ y <> x
                 | Err e => e = "KeyError" /\ forall x, ~ spec ops x end).
    { intro NE. unfold ps. destruct (nth_error (ms_set m) (choose mod List.length (ms_set m))) as [x|] eqn:X.
      - assert (J : In x (ms_set m)) by (eapply nth_error_In, X). pose proof (remove_ok x m I) as R. unfold ms_remove in R.
        rewrite (inv_set _ I x J) in R. destruct (remove_first eeqb x (ms_set m)) as [s'|] eqn:RS.
        + destruct R as [R1 [R2 R3]]. split; [apply S, R1|]. intro y. rewrite contains_iter by exact R2. rewrite R3, S. reflexivity.
        + apply remove_first_None in RS. contradiction.
      - apply nth_error_None in X. exfalso. assert (List.length (ms_set m) <> 0) by (destruct (ms_set m); [congruence|discriminate]).
        pose proof (Nat.mod_upper_bound choose _ H). lia. }
    assert (PL : ms_list m <> [] -> match pl with
                 | Ok (x, m') => spec ops x /\ forall y, ms_contains eeqb kd m' y = true <-> spec ops y /\ y <> x
                 | Err e => e = "KeyError" /\ forall x, ~ spec ops x end).
    { intro NE. unfold pl. destruct (rev (ms_list m)) as [|x r] eqn:X.
      - exfalso. apply NE. apply (f_equal (@rev E)) in X. rewrite rev_involutive in X. exact X.
      - assert (Q : ms_list m = rev r ++ [x]) by (rewrite <- (rev_involutive (ms_list m)), X; reflexivity).
        destruct I as [A B C D].
        assert (P : Permutation (ms_list m) (x :: rev r)) by (rewrite Q; symmetry; apply Permutation_cons_append).
        destruct (perm_remove _ _ _ P D) as [ND IN].
        assert (J : In x (ms_list m)) by (apply (Permutation_in x (Permutation_sym P)); left; reflexivity).
        assert (I' : inv (MS (ms_set m) (rev r))) by (split; cbn [ms_set ms_list]; auto; intros y K; apply IN in K; apply B, K).
        split; [apply S; unfold ms_iter; apply in_app_iff; auto|]. intro y. rewrite contains_iter by exact I'. rewrite <- S.
        unfold ms_iter. cbn [ms_set ms_list]. rewrite !in_app_iff, IN. split; [|tauto].
        intros [K|K]; [tauto|]. split; [auto|]. intros ->. exact (B x J (A x K)). }
    destruct (ms_set m) as [|a s] eqn:MS, (ms_list m) as [|b l] eqn:ML.
    - split; [reflexivity|]. intros x K. apply S in K. unfold ms_iter in K. rewrite MS, ML in K. exact K.
    - apply PL. discriminate.
    - apply PS. discriminate.
    - destruct from_set; [apply PS|apply PL]; discriminate.
  Qed.

  (** ** C26 *)
  Definition below (u : super E) (x : E) : Prop :=
    match u with UList l | USet l => In x l | UObj f => f x = true end.
  Lemma in_super_true x u : in_super eeqb kd x u = Ok true -> below u x.
  Proof.
    destruct u as [l|l|f]; cbn [in_super below].
    - intros [= Q]. apply emem_In, Q.
    - unfold in_set. destruct (is_H kd x); [|discriminate]. intros [= Q]. apply emem_In, Q.
    - intros [= Q]. exact Q.
  Qed.
  Lemma allr_true f (l : list E) : allr f l = Ok true -> forall x, In x l -> f x = Ok true.
  Proof.
    induction l as [|a r IH]; cbn [allr]; [intros _ x []|]. destruct (f a) as [[]|] eqn:F; cbn [bind]; try discriminate.
    intros Q x [<-|I]; auto.
  Qed.
  Lemma is_subset_true small u : is_subset eeqb kd small u = Ok true -> forall x, In x small -> below u x.
  Proof.
    intros Q x I. destruct u as [l|l|f]; cbn [is_subset] in Q.
    - destruct (forallb (is_H kd) l); apply (allr_true _ _ Q) in I.
      + unfold in_set in I. destruct (is_H kd x); [|discriminate]. injection I as I. apply emem_In, I.
      + injection I as I. apply emem_In, I.
    - apply (allr_true _ _ Q) in I. apply in_super_true, I.
    - apply (allr_true _ _ Q) in I. apply in_super_true, I.
  Qed.
  Lemma after_C_In l x : In x (after_C kd l) -> In x l.
  Proof. induction l as [|a r IH]; cbn [after_C]; [auto|]. destruct (is_C kd a); intro I; right; auto. Qed.
  Lemma iter_add_from l m x : In x (ms_iter (ms_add_from eeqb kd (SList l) m)) -> In x l \/ In x (ms_iter m).
  Proof.
    cbn [ms_add_from]. destruct (existsb (is_C kd) l); unfold ms_iter; cbn [ms_set ms_list];
      rewrite !in_app_iff, unique_In, ?insert_all_In, in_app_iff; [tauto|]. rewrite !filter_In. tauto.
  Qed.
  Lemma iter_remove x m m' y : ms_remove eeqb kd x m = Ok m' -> In y (ms_iter m') -> In y (ms_iter m).
  Proof.
    unfold ms_remove, ms_iter. destruct (remove_first eeqb x (ms_list m)) as [l'|] eqn:RL.
    - apply remove_first_Some in RL. destruct (kd x).
      + destruct (remove_first eeqb x (ms_set m)) as [s'|] eqn:RS; intros [= <-]; cbn [ms_set ms_list]; rewrite !in_app_iff.
        * apply remove_first_Some in RS. intros [I|I]; auto. right. apply (Permutation_in y (Permutation_sym RS)). right; exact I.
        * intros [I|I]; auto. left. apply (Permutation_in y (Permutation_sym RL)). right; exact I.
      + intros [= <-]; cbn [ms_set ms_list]; rewrite !in_app_iff. intros [I|I]; auto. left.
        apply (Permutation_in y (Permutation_sym RL)). right; exact I.
      + intros [= <-]; cbn [ms_set ms_list]; rewrite !in_app_iff. intros [I|I]; auto. left.
        apply (Permutation_in y (Permutation_sym RL)). right; exact I.
    - destruct (kd x); try discriminate.
      destruct (remove_first eeqb x (ms_set m)) as [s'|] eqn:RS; [|discriminate].
      intros [= <-]; cbn [ms_set ms_list]; rewrite !in_app_iff.
      apply remove_first_Some in RS. intros [I|I]; auto. right. apply (Permutation_in y (Permutation_sym RS)). right; exact I.
  Qed.
  (** Whatever is added, removed or rejected, every element of a SubSet is in its superset. *)
  Theorem subset_below u ops : forall x, In x (ms_iter (srun eeqb kd u ops ms_empty)) -> below u x.
  Proof.
    assert (G : forall m, (forall x, In x (ms_iter m) -> below u x) -> forall x, In x (ms_iter (srun eeqb kd u ops m)) -> below u x).
    { unfold srun. induction ops as [|o r IH]; intros m B; cbn [fold_left]; [exact B|]. apply IH.
      destruct o as [y|s|y|l]; cbn [sstep].
      - unfold ss_add. destruct (in_super eeqb kd y u) as [[]|] eqn:Q; cbn [bind fst]; try exact B.
        intros x I. unfold ms_add, ms_iter in I.
        assert (J : x = y \/ In x (ms_iter m)).
        { unfold ms_iter. rewrite in_app_iff. destruct (kd y); cbn [ms_set ms_list] in I; rewrite in_app_iff, insert_In in I; tauto. }
        destruct J as [->|J]; [apply in_super_true, Q|apply B, J].
      - unfold ss_add_from. destruct (is_subset eeqb kd (source_items s) u) as [[]|] eqn:Q; cbn [bind fst]; try exact B.
        intros x I. apply iter_add_from in I. destruct I as [I|I]; [eapply is_subset_true; eassumption|apply B, I].
      - destruct (ms_remove eeqb kd y m) as [m'|] eqn:Q; cbn [fst]; [|exact B]. intros x I. apply B. eapply iter_remove; eassumption.
      - cbn [fst]. unfold ms_isub. clear IH r. revert m B. induction l as [|a l IHl]; intros m B; cbn [fold_left]; [exact B|].
        apply IHl. destruct (ms_contains eeqb kd m a); [|exact B]. destruct (ms_remove eeqb kd a m) as [m'|] eqn:Q; [|exact B].
        intros x I. apply B. eapply iter_remove; eassumption. }
    apply G. intros x [].
  Qed.
  (** A call that raises changes nothing. *)
  Theorem subset_reject_unchanged u o m e : snd (sstep eeqb kd u o m) = Some e -> fst (sstep eeqb kd u o m) = m.
  Proof.
    destruct o as [y|s|y|l]; cbn [sstep].
    - destruct (ss_add eeqb kd u y m); cbn; [discriminate|auto].
    - destruct (ss_add_from eeqb kd u s m); cbn; [discriminate|auto].
    - destruct (ms_remove eeqb kd y m); cbn; [discriminate|auto].
    - discriminate.
  Qed.
  (** [add] accepts exactly the elements of the superset, [add_from] exactly the collections of
      them, and the accepted elements are then there. *)
  Theorem subset_accepts u s m : (match u with USet l => Forall (fun x => H x) l | _ => True end) ->
    tame_source (SList (items s)) ->
    (forall x, (snd (sstep eeqb kd u (MAdd x) m) = None <-> below u x) /\
               (below u x -> ms_contains eeqb kd (fst (sstep eeqb kd u (MAdd x) m)) x = true)) /\
    (snd (sstep eeqb kd u (MAddFrom s) m) = None <-> forall x, In x (items s) -> below u x) /\
    ((forall x, In x (items s) -> below u x) -> forall x, In x (items s) ->
      ms_contains eeqb kd (fst (sstep eeqb kd u (MAddFrom s) m)) x = true).
  Proof.
    intros US TS.
    assert (IS : forall x, below u x -> in_super eeqb kd x u = Ok true).
    { intros x B. destruct u as [l|l|f]; cbn [in_super below] in *.
      - f_equal. apply emem_In, B.
      - rewrite Forall_forall in US. unfold in_set, is_H. rewrite (US x B). f_equal. apply emem_In, B.
      - f_equal. exact B. }
    assert (AL : forall f (l : list E), (forall x, In x l -> f x = Ok true) -> allr f l = Ok true).
    { induction l as [|a r IH]; intro Q; cbn [allr]; [reflexivity|]. rewrite (Q a (or_introl eq_refl)). cbn [bind].
      apply IH. intros y I. apply Q. right; exact I. }
    assert (SB : (forall x, In x (items s) -> below u x) -> is_subset eeqb kd (source_items s) u = Ok true).
    { intro B. change (source_items s) with (items s). destruct u as [l|l|f]; cbn [is_subset].
      - destruct (forallb (is_H kd) l) eqn:F.
        + apply AL. intros x I. specialize (B x I). cbn [below] in B. rewrite forallb_forall in F.
          unfold in_set. rewrite (F x B). f_equal. apply emem_In, B.
        + apply AL. intros x I. f_equal. apply emem_In, (B x I).
      - apply AL. intros x I. apply IS, B, I.
      - apply AL. intros x I. apply IS, B, I. }
    split; [intro x; split|split].
    - cbn [sstep]. unfold ss_add. split.
      + destruct (in_super eeqb kd x u) as [[]|] eqn:Q; cbn; try discriminate. intros _. apply in_super_true, Q.
      + intro B. rewrite (IS x B). reflexivity.
    - intro B. cbn [sstep]. unfold ss_add. rewrite (IS x B). cbn [bind fst]. unfold ms_contains, ms_add.
      destruct (kd x) eqn:K; cbn [ms_set ms_list]; apply emem_In, insert_In; auto.
    - cbn [sstep]. unfold ss_add_from. split.
      + destruct (is_subset eeqb kd (source_items s) u) as [[]|] eqn:Q; cbn; try discriminate. intros _.
        exact (is_subset_true _ _ Q).
      + intro B. rewrite (SB B). reflexivity.
    - intros B x I. cbn [sstep]. unfold ss_add_from. rewrite (SB B). cbn [bind fst]. change (source_items s) with (items s).
      cbn [tame_source] in TS. cbn [ms_add_from]. unfold ms_contains.
      destruct (existsb (is_C kd) (items s)) eqn:X.
      + apply is_C_ex in X. specialize (TS X x I). destruct (kd x); [congruence| |]; cbn [ms_list];
          apply emem_In, unique_In, in_app_iff; auto.
      + assert (NC : kd x <> KC).
        { intros K. assert (existsb (is_C kd) (items s) = true) by (apply is_C_ex; eauto). congruence. }
        destruct (kd x) eqn:K; [|congruence|]; cbn [ms_set ms_list]; apply emem_In.
        * apply insert_all_In. left. apply filter_In. split; [exact I|]. unfold is_U. rewrite K. reflexivity.
        * apply unique_In, in_app_iff. right. apply filter_In. split; [exact I|]. unfold is_U. rewrite K. reflexivity.
  Qed.

  (** ** C27 *)
  (** [s] is obtained from [l] by leaving elements out. *)
  Inductive sublist : list E -> list E -> Prop :=
  | sub_nil : sublist [] []
  | sub_skip x s l : sublist s l -> sublist s (x :: l)
  | sub_take x s l : sublist s l -> sublist (x :: s) (x :: l).
  Lemma combinations_spec (l : list E) r s : In s (combinations l r) <-> sublist s l /\ List.length s = r.
  Proof.
    revert r s. induction l as [|x t IH]; intros r s; destruct r as [|r]; cbn [combinations].
    - cbn. split; [intros [<-|[]]; split; [constructor|reflexivity]|]. intros [A B]. destruct s; [auto|discriminate].
    - cbn. split; [intros []|]. intros [A B]. inversion A; subst. discriminate.
    - cbn. split.
      + intros [<-|[]]. split; [|reflexivity]. apply sub_skip. destruct (proj1 (IH 0 [])) as [K _]; [|exact K].
        destruct t; left; reflexivity.
      + intros [_ B]. destruct s; [auto|discriminate].
    - rewrite in_app_iff, in_map_iff. split.
      + intros [[s' [<- I]]|I].
        * apply IH in I. destruct I. split; [apply sub_take; assumption|cbn; congruence].
        * apply IH in I. destruct I. split; [apply sub_skip; assumption|assumption].
      + intros [A B]. inversion A; subst.
        * right. apply IH. auto.
        * left. exists s0. split; [reflexivity|]. apply IH. split; [assumption|]. cbn in B. congruence.
  Qed.
  Lemma powerset_In (l : list E) s : In s (powerset l) <-> sublist s l.
  Proof.
    unfold powerset. rewrite in_flat_map. split.
    - intros [r [_ I]]. apply combinations_spec in I. apply I.
    - intro S. exists (List.length s). split; [|apply combinations_spec; auto].
      apply in_seq. assert (List.length s <= List.length l) by (induction S; cbn; lia). lia.
  Qed.
  Lemma sublist_In s l x : sublist s l -> In x s -> In x l.
  Proof. induction 1; intro I; [exact I|right; auto|destruct I; [left; auto|right; auto]]. Qed.
  Lemma sublist_ext l s s' : NoDup l -> sublist s l -> sublist s' l -> (forall x, In x s <-> In x s') -> s = s'.
  Proof.
    intros N S. revert s'. induction S as [|x s l S IH|x s l S IH]; intros s' S' Q.
    - inversion S'; reflexivity.
    - inversion N as [|? ? NI ND]; subst. inversion S'; subst.
      + apply IH; assumption.
      + exfalso. apply NI. apply (sublist_In s l x S), Q. left; reflexivity.
    - inversion N as [|? ? NI ND]; subst. inversion S'; subst.
      + exfalso. apply NI. apply (sublist_In s' l x); [assumption|]. apply Q. left; reflexivity.
      + f_equal. apply IH; [assumption|assumption|]. intro y. specialize (Q y). cbn [In] in Q.
        assert (NX : forall z, sublist z l -> ~ In x z) by (intros z Z I; apply NI; eapply sublist_In; eassumption).
        split; intro I.
        * destruct (proj1 Q (or_intror I)) as [->|J]; [exfalso; exact (NX _ S I)|exact J].
        * destruct (proj2 Q (or_intror I)) as [->|J]; [exfalso; eapply NX; eassumption|exact J].
  Qed.
  Lemma combinations_NoDup (l : list E) r : NoDup l -> NoDup (combinations l r).
  Proof.
    intro N. revert r. induction l as [|x t IH]; intro r; destruct r as [|r]; cbn [combinations]; try (repeat constructor; cbn; tauto).
    inversion N as [|? ? NI ND]; subst.
    assert (A : NoDup (map (cons x) (combinations t r))).
    { specialize (IH ND r). induction (combinations t r) as [|c cs IHc]; cbn [map]; [constructor|]. inversion IH; subst.
      constructor; [|auto]. rewrite in_map_iff. intros [c' [Q I]]. injection Q as ->. contradiction. }
    assert (B : NoDup (combinations t (S r))) by auto.
    assert (D : forall c, In c (map (cons x) (combinations t r)) -> ~ In c (combinations t (S r))).
    { intros c I J. apply in_map_iff in I. destruct I as [c' [<- _]]. apply combinations_spec in J. apply NI.
      apply (sublist_In (x :: c') t x); [apply J|left; reflexivity]. }
    induction (map (cons x) (combinations t r)) as [|c cs IHc]; cbn [app]; [exact B|]. inversion A; subst. constructor.
    - rewrite in_app_iff. intros [I|I]; [contradiction|]. exact (D c (or_introl eq_refl) I).
    - apply IHc; [assumption|]. intros d I. apply D. right; exact I.
  Qed.
  Lemma powerset_NoDup (l : list E)  : NoDup l -> NoDup (powerset l).
  Proof.
    intro N. unfold powerset. enough (G : forall n a, NoDup (flat_map (combinations l) (seq a n))) by apply G. intro n. induction n as [|n IH]; intro a; cbn [seq flat_map]; [constructor|].
    pose proof (combinations_NoDup l a N) as A. specialize (IH (S a)).
    assert (D : forall c, In c (combinations l a) -> ~ In c (flat_map (combinations l) (seq (S a) n))).
    { intros c I J. apply in_flat_map in J. destruct J as [r [R J]]. apply in_seq in R. apply combinations_spec in I, J. lia. }
    induction (combinations l a) as [|c cs IHc]; cbn [app]; [exact IH|]. inversion A; subst. constructor.
    - rewrite in_app_iff. intros [I|I]; [contradiction|]. exact (D c (or_introl eq_refl) I).
    - apply IHc; [assumption|]. intros d I. apply D. right; exact I.
  Qed.
  Lemma combinations_big (l : list E) r : List.length l < r -> combinations l r = [].
  Proof.
    intro L. destruct (combinations l r) as [|c cs] eqn:Q; [reflexivity|]. assert (I : In c (combinations l r)) by (rewrite Q; left; reflexivity).
    apply combinations_spec in I. destruct I as [S <-]. assert (List.length c <= List.length l) by (clear -S; induction S; cbn; lia). lia.
  Qed.
  Lemma powerset_length (l : list E)  : List.length (powerset l) = 2 ^ List.length l.
  Proof.
    unfold powerset. induction l as [|x t IH]; [reflexivity|].
    assert (G : forall n a, List.length (flat_map (combinations (x :: t)) (seq (S a) n)) =
                List.length (flat_map (combinations t) (seq a n)) + List.length (flat_map (combinations t) (seq (S a) n))).
    { induction n as [|n IHn]; intro a; [reflexivity|]. cbn [seq flat_map]. rewrite !app_length, IHn.
      cbn [combinations]. rewrite app_length, map_length. cbn [seq flat_map]. lia. }
    replace (List.length (x :: t) + 1) with (S (S (List.length t))) by (cbn [List.length]; lia).
    cbn [seq flat_map]. rewrite app_length.
    change (combinations (x :: t) 1 ++ flat_map (combinations (x :: t)) (seq 2 (List.length t)))
      with (flat_map (combinations (x :: t)) (seq 1 (S (List.length t)))). rewrite G.
    replace (List.length t + 1) with (S (List.length t)) in IH by lia.
    rewrite IH. cbn [List.length Nat.pow].
    assert (C0 : forall l : list E, combinations l 0 = [[]]) by (intros []; reflexivity). rewrite C0. cbn [List.length].
    assert (Q : List.length (flat_map (combinations t) (seq 1 (S (List.length t)))) + 1 = 2 ^ List.length t).
    { rewrite <- IH. rewrite (seq_S (List.length t) 1), flat_map_app, app_length. cbn [flat_map].
      rewrite combinations_big by lia. cbn [seq flat_map app List.length]. rewrite app_length, C0. cbn [List.length]. lia. }
    lia.
  Qed.

  (** Membership: a collection is in the PowerSet exactly when its elements are in the base. *)
  Theorem powerset_contains ops item : Forall tame ops ->
    exists b, ps_contains eeqb kd (mrun eeqb kd ops ms_empty) item = Ok b /\ (b = true <-> forall x, In x item -> spec ops x).
  Proof.
    intro T. destruct (run_ok ops T) as [I S]. set (m := mrun eeqb kd ops ms_empty) in *. unfold ps_contains, is_subset.
    induction item as [|a r [b [IH K]]]; cbn [allr].
    - exists true. split; [reflexivity|]. split; [intros _ x []|reflexivity].
    - cbn [in_super bind]. destruct (ms_contains eeqb kd m a) eqn:Q.
      + exists b. split; [exact IH|]. rewrite K. apply (contains_iter m a I) in Q. apply S in Q. split.
        * intros G x [<-|J]; auto.
        * intros G x J. apply G. right; exact J.
      + exists false. split; [reflexivity|]. split; [discriminate|]. intro G. exfalso.
        assert (J : In a (ms_iter m)) by (apply S, G; left; reflexivity). apply (contains_iter m a I) in J. congruence.
  Qed.
  (** The enumeration lists every subset of the base exactly once, each without repetition; the
      length is the number of subsets listed. *)
  Theorem powerset_enumerates ops : Forall tame ops ->
    let p := ps_iter (mrun eeqb kd ops ms_empty) in
    (forall s, In s p -> NoDup s /\ forall x, In x s -> spec ops x) /\
    (forall l, (forall x, In x l -> spec ops x) -> exists s, In s p /\ forall x, In x s <-> In x l) /\
    (forall i j s s', nth_error p i = Some s -> nth_error p j = Some s' -> (forall x, In x s <-> In x s') -> i = j) /\
    ps_len (mrun eeqb kd ops ms_empty) = List.length p.
  Proof.
    intro T. cbv zeta. destruct (run_ok ops T) as [I S]. set (m := mrun eeqb kd ops ms_empty) in *. unfold ps_iter.
    pose proof (inv_iter m I) as N. split; [|split; [|split]].
    - intros s J. apply powerset_In in J. split.
      + clear - J N. induction J as [|x s l J IH|x s l J IH]; [constructor| |]; inversion N as [|? ? NI ND]; subst; auto.
        constructor; auto. intro K. apply NI. eapply sublist_In; eassumption.
      + intros x K. apply S. eapply sublist_In; eassumption.
    - intros l B. exists (filter (fun x => emem x l) (ms_iter m)). split.
      + apply powerset_In. clear S. induction (ms_iter m) as [|a r IH]; cbn [filter]; [constructor|]. inversion N; subst.
        destruct (emem a l); [apply sub_take|apply sub_skip]; auto.
      + intro x. rewrite filter_In, emem_In, S. split; [tauto|]. auto.
    - intros i j s s' J K Q. assert (s = s').
      { apply (sublist_ext (ms_iter m)); auto; apply powerset_In; eapply nth_error_In; eassumption. }
      subst s'. pose proof (powerset_NoDup _ N) as ND. rewrite NoDup_nth_error in ND. apply ND; [|congruence].
      apply nth_error_Some. congruence.
    - rewrite powerset_length. unfold ps_len, ms_len, ms_iter. rewrite app_length. f_equal. lia.
  Qed.
  (** The sum of PowerSets is the PowerSet of the union; equality is equality of the bases. *)
  Theorem powerset_add_eq ops ops' : Forall tame ops -> Forall tame ops' ->
    let a := mrun eeqb kd ops ms_empty in let b := mrun eeqb kd ops' ms_empty in
    (forall x, ms_contains eeqb kd (ps_add eeqb kd a b) x = true <-> spec ops x \/ spec ops' x) /\
    (ps_eqb eeqb a b = true <-> forall x, spec ops x <-> spec ops' x).
  Proof.
    intros T T'. cbv zeta. destruct (run_ok ops T) as [I S], (run_ok ops' T') as [I' S']. split.
    - intro x. unfold ps_add, ms_of, ms_or. set (a := mrun eeqb kd ops ms_empty) in *. set (b := mrun eeqb kd ops' ms_empty) in *.
      destruct (add_from_ok (SMath a) ms_empty inv_empty I) as [I0 S0].
      destruct (add_from_ok (SMath b) _ I0 I') as [I1 S1].
      destruct (add_from_ok (SMath _) ms_empty inv_empty I1) as [I2 S2].
      rewrite contains_iter by exact I2. rewrite S2. cbn [items]. rewrite S1. cbn [items]. unfold ms_of. rewrite S0. cbn [items].
      cbn. rewrite S, S'. tauto.
    - unfold ps_eqb. rewrite eqb_ok by assumption. split; intros Q x; specialize (Q x).
      + rewrite <- S, <- S'. symmetry. exact Q.
      + rewrite S, S'. symmetry. exact Q.
  Qed.
End Sets.

(** Elements for the examples: numbers, lists of numbers, and tuples holding one list. *)
Inductive pyobj := PNum (n : nat) | PList (l : list nat) | PTup (l : list nat).
Definition kd1 (x : pyobj) : kind := match x with PNum _ => KH | PList _ => KU | PTup _ => KC end.
Definition nl_eqb (a b : list nat) : bool := if list_eq_dec Nat.eq_dec a b then true else false.
Definition eq1 (a b : pyobj) : bool :=
  match a, b with
  | PNum n, PNum m => Nat.eqb n m
  | PList l, PList k | PTup l, PTup k => nl_eqb l k
  | _, _ => false
  end.
Lemma eq1_eq a b : eq1 a b = true <-> a = b.
Proof.
  destruct a, b; cbn; unfold nl_eqb; try (split; discriminate);
    try (destruct (list_eq_dec Nat.eq_dec l l0); split; congruence).
  rewrite Nat.eqb_eq. split; congruence.
Qed.
Definition ops25 : list (mop pyobj) :=
  [MAdd (PNum 1); MAddFrom (SList [PNum 2; PList [1; 2]; PList [1; 2]; PNum 2]); MAdd (PTup [3]); MRemove (PNum 1);
   MRemove (PNum 7); MAddFrom (SList [PTup [3]; PTup [4]]); MIsub [PList [9]; PTup [3]]].
Example mathset_ex : Forall (tame kd1) ops25 /\
  mrun eq1 kd1 ops25 ms_empty = MS [PNum 2] [PList [1; 2]; PTup [4]].
Proof.
  split; [|vm_compute; reflexivity]. unfold ops25. repeat constructor; cbn [tame tame_source].
  - intros [x [I K]]. cbn in I. decompose [or] I; subst; try discriminate; contradiction.
  - intros _ x I. cbn in I. decompose [or] I; subst; try discriminate; contradiction.
Qed.
Example subset_ex :
  srun eq1 kd1 (UList [PNum 1; PNum 2]) [MAdd (PNum 1); MAdd (PNum 5); MAddFrom (SList [PNum 2; PNum 5])] ms_empty
    = MS [PNum 1] [] /\
  sstep eq1 kd1 (UList [PNum 1; PNum 2]) (MAddFrom (SIter [PNum 2])) (MS [PNum 1] []) = (MS [PNum 1; PNum 2] [], None).
Proof. vm_compute. auto. Qed.
Example powerset_ex :
  ps_iter (MS [PNum 1] [PList [2]; PList []]) =
    [[]; [PList [2]]; [PList []]; [PNum 1]; [PList [2]; PList []]; [PList [2]; PNum 1]; [PList []; PNum 1];
     [PList [2]; PList []; PNum 1]] /\
  ps_contains eq1 kd1 (MS [PNum 1] [PList [2]]) [PList [2]; PNum 1] = Ok true.
Proof. vm_compute. auto. Qed.

(** Finding: a list that mixes hashable elements with a tuple holding something unhashable puts
    the hashable ones where membership does not look; adding one again makes it occur twice. *)
Theorem mathset_is_set_refuted :
  exists ops x, let m := mrun eq1 kd1 ops ms_empty in
    spec ops x /\ ms_contains eq1 kd1 m x = false /\
    let m' := mrun eq1 kd1 (ops ++ [MAdd x]) ms_empty in
    ~ NoDup (ms_iter m').
Proof.
  exists [MAddFrom (SList [PNum 1; PTup [2]])], (PNum 1). split; [cbn; auto|]. split; [vm_compute; reflexivity|].
  vm_compute. intro N. inversion N; subst. apply H1. right. left. reflexivity.
Qed.
(** Finding: elements that cannot be hashed are lost when they come from an iterator. *)
Theorem mathset_iterator_refuted :
  exists l x, In x l /\ ms_contains eq1 kd1 (ms_of eq1 kd1 (SIter l)) x = false /\
    (forall y, In y l -> kd1 y <> KC).
Proof.
  exists [PNum 1; PList [2]], (PList [2]). split; [cbn; auto|]. split; [vm_compute; reflexivity|].
  intros y I. cbn in I. decompose [or] I; subst; try discriminate; contradiction.
Qed.
(** Finding: equal objects of different kinds, such as a [set] and a [frozenset], are not found
    and are stored twice.  Here numbers [2 n] and [2 n + 1] are equal, odd ones not hashable. *)
Theorem mathset_equal_kinds_refuted :
  exists (eqv : nat -> nat -> bool) (k : nat -> kind) x y, eqv x y = true /\
    let m := mrun eqv k [MAdd x; MAdd y] ms_empty in
    ms_len m = 2 /\ ms_contains eqv k (mrun eqv k [MAdd x] ms_empty) y = false.
Proof.
  exists (fun a b => Nat.eqb (Nat.div2 a) (Nat.div2 b)), (fun n => if Nat.odd n then KU else KH), 2, 3.
  vm_compute. auto.
Qed.

Print Assumptions compare_lists_spec.
Print Assumptions mathset_is_set.
Print Assumptions mathset_eq.
Print Assumptions mathset_remove.
Print Assumptions mathset_operators.
Print Assumptions mathset_pop.
Print Assumptions mathset_is_set_refuted.
Print Assumptions mathset_iterator_refuted.
Print Assumptions mathset_equal_kinds_refuted.
Print Assumptions subset_below.
Print Assumptions subset_reject_unchanged.
Print Assumptions subset_accepts.
Print Assumptions powerset_contains.
Print Assumptions powerset_enumerates.
Print Assumptions powerset_add_eq.
