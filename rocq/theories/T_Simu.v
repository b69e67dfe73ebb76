(** C31, C32: abstraction by bisimulation and by dual simulation. *)
From Coq Require Import List String Bool Arith Lia Permutation.
From Verif Require Import M_Base M_Dict M_Graph M_Machine M_Simu S_Simu L_Dict L_Graph L_Build L_Machine.
Import ListNotations.
Open Scope string_scope.
Open Scope list_scope.
Open Scope nat_scope.

(** ** Lists and matrices *)
Lemma nth_error_replace {A} i (x : A) l k y : nth_error l i = Some y ->
  nth_error (replace i x l) k = if k =? i then Some x else nth_error l k.
Proof.
  revert l k. induction i as [|i IH]; intros [|z l] k H; try discriminate; cbn [replace].
  - destruct k; reflexivity.
  - destruct k as [|k]; cbn [nth_error Nat.eqb]; [reflexivity|]. apply IH, H.
Qed.
Lemma replace_length {A} i (x : A) l : List.length (replace i x l) = List.length l.
Proof. revert l. induction i as [|i IH]; intros [|y l]; cbn; auto. Qed.
Lemma replace_split {A} i (x y : A) l : nth_error l i = Some y -> exists l1 l2, l = l1 ++ y :: l2 /\ replace i x l = l1 ++ x :: l2 /\ List.length l1 = i.
Proof.
  revert l. induction i as [|i IH]; intros [|z l] H; try discriminate; cbn [replace].
  - injection H as ->. exists [], l. auto.
  - destruct (IH l H) as [l1 [l2 [-> [E L]]]]. exists (z :: l1), l2. rewrite E. cbn. auto.
Qed.
Lemma nth_error_snoc {A} (l : list A) x k y : nth_error (l ++ [x]) k = Some y <-> nth_error l k = Some y \/ (k = List.length l /\ y = x).
Proof.
  destruct (Nat.lt_ge_cases k (List.length l)) as [L|L].
  - rewrite nth_error_app1 by exact L. split; [auto|]. intros [H|[-> _]]; [exact H|lia].
  - rewrite nth_error_app2 by exact L. rewrite (proj2 (nth_error_None l k) L). destruct (k - List.length l) as [|m] eqn:E; cbn.
    + split; [intros [= <-]; right; split; [lia|reflexivity]|]. intros [H|[_ ->]]; [discriminate|reflexivity].
    + replace (nth_error [] m) with (@None A) by (destruct m; reflexivity). split; [discriminate|]. intros [H|[H _]]; [discriminate|lia].
Qed.
Lemma split_cells {A} i (si d s : A) l k c : nth_error l i = Some si ->
  nth_error (replace i d l ++ [s]) k = Some c <-> (k = i /\ c = d) \/ (k <> i /\ nth_error l k = Some c) \/ (k = List.length l /\ c = s).
Proof.
  intro H. rewrite nth_error_snoc, replace_length, (nth_error_replace i d l k si H). destruct (Nat.eqb_spec k i) as [->|NE].
  - split; [intros [[= <-]|[-> ->]]; auto|]. intros [[_ ->]|[[NE _]|[-> ->]]]; auto; congruence.
  - split; [intros [X|X]; auto|]. intros [[X _]|[[_ X]|X]]; auto; congruence.
Qed.
Lemma lt_nth {A} (l : list A) i c : nth_error l i = Some c -> i < List.length l.
Proof. intro H. apply nth_error_Some. congruence. Qed.
Lemma nth_nth_error {A} (l : list A) i d : i < List.length l -> nth_error l i = Some (nth i l d).
Proof. intro H. exact (nth_error_nth' l d H). Qed.
Lemma first_pair_Some n m j i : first_pair n m = Some (j, i) -> j < n /\ i < n /\ m j i = true.
Proof.
  intro H. apply find_some in H. cbn [fst snd] in H. destruct H as [I H]. apply in_prod_iff in I. rewrite !in_seq in I. repeat split; try lia. exact H.
Qed.
Lemma first_pair_None n m : first_pair n m = None -> forall j i, j < n -> i < n -> m j i = false.
Proof. intros H j i J I. apply (find_none _ _ H (j, i)). apply in_prod_iff. rewrite !in_seq. lia. Qed.

(** Number of entries still to be looked at. *)
Definition count (n : nat) (m : matrix) : nat :=
  List.length (filter (fun p => m (fst p) (snd p)) (list_prod (List.seq 0 n) (List.seq 0 n))).
Lemma filter_le {A} (p q : A -> bool) l : (forall x, In x l -> q x = true -> p x = true) ->
  List.length (filter q l) <= List.length (filter p l).
Proof.
  induction l as [|a l IH]; intro H; [apply le_n|]. cbn [filter]. specialize (IH (fun x I => H x (or_intror I))).
  specialize (H a (or_introl eq_refl)). destruct (q a), (p a); cbn; try lia; discriminate (H eq_refl).
Qed.
Lemma filter_lt {A} (p q : A -> bool) l x : (forall x, In x l -> q x = true -> p x = true) -> In x l -> p x = true -> q x = false ->
  List.length (filter q l) < List.length (filter p l).
Proof.
  induction l as [|a l IH]; intros H I P Q; [destruct I|]. cbn [filter]. pose proof (filter_le p q l (fun x I => H x (or_intror I))) as LE.
  destruct I as [->|I].
  - rewrite P, Q. cbn. lia.
  - specialize (IH (fun x I => H x (or_intror I)) I P Q). specialize (H a (or_introl eq_refl)). destruct (q a), (p a); cbn; try lia; discriminate (H eq_refl).
Qed.
Lemma filter_length_le {A} (p : A -> bool) l : List.length (filter p l) <= List.length l.
Proof. induction l as [|a l IH]; cbn; [lia|]. destruct (p a); cbn; lia. Qed.
Lemma count_le n m : count n m <= n * n.
Proof. unfold count. rewrite filter_length_le, prod_length, seq_length. apply le_n. Qed.
Lemma count_lt n m m' j i : j < n -> i < n -> m j i = true -> (forall x y, m' x y = true -> m x y = true /\ ~ (x = j /\ y = i)) -> count n m' < count n m.
Proof.
  intros J I M H. unfold count. apply (filter_lt _ _ _ (j, i)); cbn [fst snd].
  - intros [x y] _ E. exact (proj1 (H x y E)).
  - apply in_prod_iff. rewrite !in_seq. lia.
  - exact M.
  - destruct (m' j i) eqn:E; [|reflexivity]. destruct (H j i E) as [_ X]. tauto.
Qed.

Lemma Forall2_len {A B} (R : A -> B -> Prop) l m : Forall2 R l m -> List.length l = List.length m.
Proof. induction 1; cbn; congruence. Qed.
Lemma in_eq_list {A} (l m : list A) x : l = m -> In x m -> In x l.
Proof. intros ->. auto. Qed.
Lemma combine_keys {B C} (f : B -> C) (vs : list B) k n : List.length vs = n -> map fst (combine (List.seq k n) (map f vs)) = List.seq k n.
Proof. intros <-. revert k. induction vs as [|v vs IH]; intro k; cbn; [reflexivity|]. f_equal. apply IH. Qed.
Lemma key_unique {A B} (l : list (A * B)) k a b : NoDup (map fst l) -> In (k, a) l -> In (k, b) l -> a = b.
Proof.
  induction l as [|[x c] l IH]; intros ND I J; [destruct I|]. cbn [map fst] in ND. inversion ND as [|? ? NI ND']. subst.
  destruct I as [I|I], J as [J|J]; auto.
  - congruence.
  - exfalso. injection I as -> ->. apply NI. apply (in_map fst) in J. exact J.
  - exfalso. injection J as -> ->. apply NI. apply (in_map fst) in I. exact I.
Qed.

Section Simu.
  Context {N V : Type} (neqb : N -> N -> bool) (veqb : V -> V -> bool) (repr : V -> string).
  Hypothesis neqb_eq : forall a b, neqb a b = true <-> a = b.
  Context (g : graph N V).
  Notation refine1 := (refine1 neqb).
  Notation refine := (refine neqb).

  Lemma nmem_spec x l : nmem neqb x l = true <-> In x l.
  Proof. apply (nmem_In neqb neqb_eq). Qed.
  Lemma subset_spec a b : subset neqb a b = true <-> forall x, In x a -> In x b.
  Proof. unfold subset. rewrite forallb_forall. split; intros H x I; apply nmem_spec, H, I. Qed.
  Lemma same_set_spec a b : same_set neqb a b = true <-> forall x, In x a <-> In x b.
  Proof.
    unfold same_set. rewrite andb_true_iff, !subset_spec. split; [intros [A B] x; split; auto|].
    intro H. split; intros x I; apply H, I.
  Qed.
  Lemma intersection_In a b x : In x (intersection neqb a b) <-> In x a /\ In x b.
  Proof. unfold intersection. rewrite filter_In, nmem_spec. tauto. Qed.
  Lemma difference_In a b x : In x (difference neqb a b) <-> In x a /\ ~ In x b.
  Proof. unfold difference. rewrite filter_In, negb_true_iff, <- (not_true_iff_false (nmem neqb x b)), nmem_spec. tauto. Qed.
  Lemma pre_set_In l x : In x (pre_set neqb g l) <-> exists t, In t l /\ moves g x t.
  Proof.
    unfold pre_set. rewrite in_flat_map. split.
    - intros [n [I H]]. apply in_map_iff in H. destruct H as [e [E H]]. apply filter_In in H. destruct H as [H D]. apply neqb_eq in D.
      exists n. split; [exact I|]. exists e. auto.
    - intros [t [I [e [H [E D]]]]]. exists t. split; [exact I|]. apply in_map_iff. exists e. split; [exact E|]. apply filter_In. split; [exact H|]. apply neqb_eq, D.
  Qed.

  (** ** The loop *)
  Definition shrinks (st st' : part N) (j i : nat) : Prop :=
    List.length (p_sol st') = List.length (p_sol st) /\ forall x y, p_ij st' x y = true -> p_ij st x y = true /\ ~ (x = j /\ y = i).
  Lemma refine1_shape dual j i st : shrinks st (refine1 dual g j i st) j i \/ List.length (p_sol (refine1 dual g j i st)) = S (List.length (p_sol st)).
  Proof.
    assert (A : forall x y, set1 (p_ij st) j i false x y = true -> p_ij st x y = true /\ ~ (x = j /\ y = i)).
    { intros x y. unfold set1. destruct (Nat.eqb_spec x j), (Nat.eqb_spec y i); cbn; try discriminate; intuition. }
    assert (B : forall t x y, minus (set1 (p_ij st) j i false) t x y = true -> p_ij st x y = true /\ ~ (x = j /\ y = i)).
    { intros t x y H. apply andb_true_iff in H. apply A, H. }
    unfold M_Simu.refine1. cbn zeta. destruct (subset neqb _ _); [left; split; [reflexivity|apply B]|].
    destruct (intersection neqb _ _); [left; split; [reflexivity|apply A]|].
    destruct (if dual then _ else _); [left; split; [reflexivity|apply B]|].
    right. destruct dual; cbn [p_sol]; rewrite app_length; cbn; [lia|]. rewrite replace_length. lia.
  Qed.
  Section Loop.
    Context (dual : bool) (I : part N -> Prop).
    Hypothesis step : forall j i st, I st -> j < List.length (p_sol st) -> i < List.length (p_sol st) -> p_ij st j i = true -> I (refine1 dual g j i st).
    Definition settled (st : part N) : Prop := forall j i, j < List.length (p_sol st) -> i < List.length (p_sol st) -> p_ij st j i = false.
    Lemma refine_spec fuel st st' : I st -> refine dual g fuel st = Ok st' -> I st' /\ settled st'.
    Proof.
      revert st. induction fuel as [|f IH]; intros st H; cbn [M_Simu.refine]; destruct (first_pair _ _) as [[j i]|] eqn:F; try discriminate.
      - intros [= <-]. split; [exact H|]. exact (first_pair_None _ _ F).
      - intro R. apply IH in R; [exact R|]. apply first_pair_Some in F. apply step; tauto.
      - intros [= <-]. split; [exact H|]. exact (first_pair_None _ _ F).
    Qed.
    Context (M : nat) (bound : forall st, I st -> List.length (p_sol st) <= M).
    Definition measure (st : part N) : nat := (M - List.length (p_sol st)) * (M * M + 1) + count (List.length (p_sol st)) (p_ij st).
    Lemma refine_total fuel st : I st -> measure st <= fuel -> exists st', refine dual g fuel st = Ok st'.
    Proof.
      revert st. induction fuel as [|f IH]; intros st H L; cbn [M_Simu.refine]; destruct (first_pair _ _) as [[j i]|] eqn:F; eauto.
      - exfalso. apply first_pair_Some in F. destruct F as [J [K E]]. pose proof (count_lt _ (p_ij st) (fun _ _ => false) j i J K E) as C.
        specialize (C ltac:(discriminate)). unfold measure in L. lia.
      - apply first_pair_Some in F. destruct F as [J [K E]]. pose proof (step j i st H J K E) as H'. apply IH; [exact H'|].
        unfold measure in *. pose proof (bound _ H) as B. pose proof (bound _ H') as B'.
        destruct (refine1_shape dual j i st) as [[L1 S]|L1]; rewrite L1 in *.
        + pose proof (count_lt _ (p_ij st) (p_ij (refine1 dual g j i st)) j i J K E S). lia.
        + pose proof (count_le (S (List.length (p_sol st))) (p_ij (refine1 dual g j i st))) as C.
          assert (Q : S (List.length (p_sol st)) * S (List.length (p_sol st)) <= M * M) by (apply Nat.mul_le_mono; exact B').
          replace (M - List.length (p_sol st)) with (S (M - S (List.length (p_sol st)))) in L by lia. cbn [Nat.mul] in L. lia.
    Qed.
    Lemma measure_le st : I st -> measure st <= (M + 1) * (M * M + 1).
    Proof.
      intro H. unfold measure. pose proof (bound _ H) as B. pose proof (count_le (List.length (p_sol st)) (p_ij st)) as C.
      assert (Q : List.length (p_sol st) * List.length (p_sol st) <= M * M) by (apply Nat.mul_le_mono; exact B).
      assert (R : (M - List.length (p_sol st)) * (M * M + 1) <= M * (M * M + 1)) by (apply Nat.mul_le_mono_r; lia).
      lia.
    Qed.
  End Loop.

  (** ** Systems *)
  Record system : Prop := {
    sy_nodes : NoDup (node_list g);
    sy_ends : forall e, In e (g_edges g) -> In (e_src e) (node_list g) /\ In (e_dst e) (node_list g);
    sy_label : forall s a, In (s, a) (g_nodes g) -> exists v, lookup "ap" a = Some v }.
  Hypothesis sys : system.
  Definition same_repr (v w : V) : Prop := repr v = repr w.
  Lemma node_label s : In s (node_list g) -> exists v, labelled g s v.
  Proof.
    intro H. apply in_map_iff in H. destruct H as [[x a] [<- I]]. destruct (sy_label sys _ _ I) as [v L]. exists v, a. auto.
  Qed.
  Lemma labelled_node s v : labelled g s v -> In s (node_list g).
  Proof. intros [a [I _]]. apply (in_map fst) in I. exact I. Qed.
  Lemma labelled_unique s v w : labelled g s v -> labelled g s w -> v = w.
  Proof.
    intros [a [I L]] [b [J K]]. assert (a = b) by exact (key_unique _ s a b (sy_nodes sys) I J). congruence.
  Qed.

  (** ** The first partition *)
  Lemma add_cell_spec r n (l : list (string * list N)) : NoDup (map fst l) ->
    NoDup (map fst (add_cell r n l)) /\ Permutation (List.concat (map snd (add_cell r n l))) (n :: List.concat (map snd l)) /\
    (forall k c, In (k, c) (add_cell r n l) -> In (k, c) l \/ (k = r /\ (c = [n] \/ exists c0, In (r, c0) l /\ c = c0 ++ [n]))) /\
    (forall k, In k (map fst (add_cell r n l)) <-> In k (map fst l) \/ k = r).
  Proof.
    induction l as [|[k0 c0] l IH]; intro ND; cbn [add_cell].
    - repeat split; try apply Permutation_refl; [constructor; [intros []|constructor]| | |].
      + intros k c [[= <- <-]|[]]. auto.
      + intros [<-|[]]. auto.
      + intros [[]| ->]. left. reflexivity.
    - cbn [map fst] in ND. inversion ND as [|? ? NI ND']. subst. destruct (String.eqb_spec r k0) as [<-|NE].
      + split; [exact ND|]. split; [|split].
        * cbn [map snd List.concat]. rewrite <- app_assoc. apply Permutation_sym, Permutation_middle.
        * intros k c [[= <- <-]|I]; [right; split; [reflexivity|]; right; exists c0; split; [left|]; reflexivity|left; right; exact I].
        * intro k. cbn [map fst In]. split; [tauto|]. intros [H| ->]; tauto.
      + destruct (IH ND') as [A [B [C D]]]. split; [|split; [|split]].
        * cbn [map fst]. constructor; [|exact A]. intro I. apply D in I. destruct I as [I| ->]; [exact (NI I)|congruence].
        * cbn [map snd List.concat]. rewrite B. apply Permutation_sym, Permutation_middle.
        * intros k c [[= <- <-]|I]; [left; left; reflexivity|]. destruct (C k c I) as [J|[-> [-> |[c1 [J ->]]]]]; [left; right; exact J|right; auto|].
          right. split; [reflexivity|]. right. exists c1. split; [right; exact J|reflexivity].
        * intro k. cbn [map fst In]. rewrite D. tauto.
  Qed.
  Lemma initial_cells_spec : exists sol, initial_cells repr g = Ok sol /\ Permutation (List.concat sol) (node_list g) /\
    (forall c, In c sol -> c <> []) /\
    (forall c s t v w, In c sol -> In s c -> labelled g s v -> labelled g t w -> (In t c <-> same_repr v w)).
  Proof.
    destruct (fold_res_total (add_node_cell repr) (fun l1 acc => Permutation (List.concat (map snd acc)) (map fst l1) /\ NoDup (map fst acc) /\
      forall k c, In (k, c) acc -> c <> [] /\ forall s, In s c -> exists a v, In (s, a) l1 /\ lookup "ap" a = Some v /\ repr v = k) (g_nodes g) []) as [acc [F [P [ND Q]]]].
    - split; [apply Permutation_refl|]. split; [constructor|intros k c []].
    - intros l1 [n a] l2 acc E [P [ND Q]]. assert (I : In (n, a) (g_nodes g)) by (rewrite E; apply in_or_app; right; left; reflexivity).
      destruct (sy_label sys n a I) as [v L]. exists (add_cell (repr v) n acc). unfold add_node_cell. cbn [snd fst]. rewrite L. split; [reflexivity|].
      destruct (add_cell_spec (repr v) n acc ND) as [A [B [C D]]]. split; [|split; [exact A|]].
      + rewrite B, map_app. cbn [map fst]. rewrite P. apply Permutation_cons_append.
      + assert (New : exists a0 v0, In (n, a0) (l1 ++ [(n, a)]) /\ lookup "ap" a0 = Some v0 /\ repr v0 = repr v).
        { exists a, v. split; [apply in_or_app; right; left; reflexivity|auto]. }
        intros k c J. destruct (C k c J) as [K|[-> [-> |[c0 [K ->]]]]].
        * destruct (Q k c K) as [Q1 Q2]. split; [exact Q1|]. intros s Is. destruct (Q2 s Is) as [b [w [Ib X]]]. exists b, w. split; [apply in_or_app; left; exact Ib|exact X].
        * split; [discriminate|]. intros s [<-|[]]. exact New.
        * split; [destruct c0; discriminate|]. intros s Is. apply in_app_iff in Is. destruct Is as [Is|[<-|[]]]; [|exact New].
          destruct (Q _ _ K) as [_ Q2]. destruct (Q2 s Is) as [b [w [Ib X]]]. exists b, w. split; [apply in_or_app; left; exact Ib|exact X].
    - exists (map snd acc). unfold initial_cells. rewrite F. cbn [bind]. split; [reflexivity|]. split; [exact P|]. split.
      + intros c I. apply in_map_iff in I. destruct I as [[k c0] [<- I]]. exact (proj1 (Q k c0 I)).
      + intros c s t v w I Is Lv Lw. apply in_map_iff in I. destruct I as [[k c0] [E I]]. cbn [snd] in E. subst c0.
        destruct (Q k c I) as [_ Q2]. destruct (Q2 s Is) as [a [v' [Ia [La Rv]]]]. assert (v' = v) by (apply (labelled_unique s); [exists a; auto|exact Lv]). subst v'.
        split.
        * intro It. destruct (Q2 t It) as [b [w' [Ib [Lb Rw]]]]. assert (w' = w) by (apply (labelled_unique t); [exists b; auto|exact Lw]). subst w'. unfold same_repr. congruence.
        * intro R. assert (It : In t (List.concat (map snd acc))). { apply (Permutation_in t (Permutation_sym P)). exact (labelled_node t w Lw). }
          apply in_concat in It. destruct It as [c' [Ic It]]. apply in_map_iff in Ic. destruct Ic as [[k' c0] [E I']]. cbn [snd] in E. subst c0.
          destruct (Q k' c' I') as [_ Q2']. destruct (Q2' t It) as [b [w' [Ib [Lb Rw]]]]. assert (w' = w) by (apply (labelled_unique t); [exists b; auto|exact Lw]). subst w'.
          assert (H : k' = k) by (unfold same_repr in R; congruence).
          assert (X : c' = c) by (rewrite H in I'; exact (key_unique acc k c' c ND I' I)).
          subst c'. exact It.
  Qed.

  (** ** Bisimulation *)
  Notation bisim := (bisimilar same_repr g).
  Record bi_inv (st : part N) : Prop := {
    bi_perm : Permutation (List.concat (p_sol st)) (node_list g);
    bi_ne : forall c, In c (p_sol st) -> c <> [];
    bi_lab : forall c s t v w, In c (p_sol st) -> In s c -> In t c -> labelled g s v -> labelled g t w -> same_repr v w;
    bi_sound : forall i j ci cj, nth_error (p_sol st) i = Some ci -> nth_error (p_sol st) j = Some cj -> p_tr st j i = true ->
      forall s, In s ci -> exists t, In t cj /\ moves g s t;
    bi_done : forall i j ci cj, nth_error (p_sol st) i = Some ci -> nth_error (p_sol st) j = Some cj -> p_ij st j i = false -> p_tr st j i = false ->
      forall s t, In s ci -> In t cj -> ~ moves g s t;
    bi_coarse : forall c s t, In c (p_sol st) -> bisim s t -> In s c -> In t c }.

  Lemma split_concat (l1 l2 : list (list N)) si p : Permutation (List.concat (l1 ++ filter (fun x => negb (p x)) si :: l2) ++ filter p si) (List.concat (l1 ++ si :: l2)).
  Proof.
    rewrite !concat_app. cbn [List.concat]. rewrite <- !app_assoc. apply Permutation_app_head.
    assert (S : Permutation (filter (fun x => negb (p x)) si ++ filter p si) si).
    { induction si as [|x si IH]; [constructor|]. cbn [filter]. destruct (p x); cbn [negb app]; [|constructor; exact IH].
      rewrite <- Permutation_middle. constructor. exact IH. }
    rewrite (Permutation_app_comm (List.concat l2)), app_assoc, S. reflexivity.
  Qed.
  Lemma filter_filter_ext (si sj : list N) : filter (fun x => negb (nmem neqb x (filter (fun x => nmem neqb x sj) si))) si = filter (fun x => negb (nmem neqb x sj)) si.
  Proof.
    apply filter_ext_in. intros x I. f_equal. apply eq_true_iff_eq. rewrite nmem_spec, filter_In. tauto.
  Qed.
  Lemma tr_split tr n i j x y : i < n -> j < n -> x <= n -> y <= n ->
    (let tr1 := set_row (pad n tr false) n false in
     let tr2 := set_col tr1 n (fun x => tr1 x i) in
     let tr3 := set_row (set1 tr2 j n true) i false in
     if i =? j then set1 tr3 j n false else tr3) x y =
    if (x =? i) || (x =? n) then false else if y =? n then (x =? j) || tr x i else tr x y.
  Proof.
    intros I J X Y. cbn zeta. unfold set1, set_row, set_col, pad.
    destruct (Nat.eqb_spec i j), (Nat.eqb_spec x i), (Nat.eqb_spec x n), (Nat.eqb_spec y n), (Nat.eqb_spec x j), (Nat.ltb_spec x n), (Nat.ltb_spec y n), (Nat.ltb_spec i n);
      subst; cbn; try reflexivity; try lia; try congruence;
      rewrite ?Nat.eqb_refl; cbn; try reflexivity; try lia; try congruence.
  Qed.
  Lemma ij_split ij n i j x y : i < n -> j < n -> x <= n -> y <= n ->
    set_col (set_row (pad n (set1 ij j i false) true) i true) i (fun _ => true) x y =
    if (x =? i) || (x =? n) || (y =? i) || (y =? n) then true else ij x y.
  Proof.
    intros I J X Y. unfold set1, set_row, set_col, pad.
    destruct (Nat.eqb_spec x i), (Nat.eqb_spec y i), (Nat.eqb_spec x n), (Nat.eqb_spec y n), (Nat.eqb_spec x j), (Nat.ltb_spec x n), (Nat.ltb_spec y n);
      subst; cbn; try reflexivity; try lia; try congruence.
  Qed.

  Lemma bi_step j i st : bi_inv st -> j < List.length (p_sol st) -> i < List.length (p_sol st) -> p_ij st j i = true -> bi_inv (refine1 false g j i st).
  Proof.
    intros [P Ne Lab So Do Co] J I IJ. pose proof (nth_nth_error (p_sol st) i [] I) as Ni. pose proof (nth_nth_error (p_sol st) j [] J) as Nj.
    unfold M_Simu.refine1. cbn zeta. set (si := nth i (p_sol st) []) in *. set (sj := nth j (p_sol st) []) in *. set (n := List.length (p_sol st)) in *.
    destruct (subset neqb si (pre_set neqb g sj)) eqn:Sub.
    { rewrite subset_spec in Sub. split; cbn [p_sol p_ij p_tr]; auto.
      - intros i' j' ci cj Hi Hj T s Is. unfold set1 in T. destruct (Nat.eqb_spec j' j) as [->|], (Nat.eqb_spec i' i) as [->|]; cbn [andb] in T; try exact (So _ _ ci cj Hi Hj T s Is).
        assert (ci = si) by congruence. assert (cj = sj) by congruence. subst ci cj. apply pre_set_In, Sub, Is.
      - intros i' j' ci cj Hi Hj E T. unfold minus in E. rewrite T in E. cbn [negb] in E. rewrite andb_true_r in E. unfold set1 in E, T.
        destruct (Nat.eqb_spec j' j) as [->|], (Nat.eqb_spec i' i) as [->|]; cbn [andb] in E, T; try discriminate; exact (Do _ _ ci cj Hi Hj E T). }
    destruct (intersection neqb si (pre_set neqb g sj)) as [|x0 xs] eqn:Is.
    { split; cbn [p_sol p_ij p_tr]; auto.
      intros i' j' ci cj Hi Hj E T. unfold set1 in E. destruct (Nat.eqb_spec j' j) as [->|], (Nat.eqb_spec i' i) as [->|]; cbn [andb] in E; try exact (Do _ _ ci cj Hi Hj E T).
      assert (ci = si) by congruence. assert (cj = sj) by congruence. subst ci cj. intros s t Hs Ht M.
      assert (X : In s (intersection neqb si (pre_set neqb g sj))) by (apply intersection_In; split; [exact Hs|apply pre_set_In; eauto]). rewrite Is in X. exact X. }
    assert (NE : intersection neqb si (pre_set neqb g sj) <> []) by (rewrite Is; discriminate). rewrite <- Is. clear Is x0 xs.
    set (is_ := intersection neqb si (pre_set neqb g sj)) in *.
    assert (HI : forall x, In x is_ <-> In x si /\ exists t, In t sj /\ moves g x t) by (intro x; unfold is_; rewrite intersection_In, pre_set_In; reflexivity).
    assert (HD : forall x, In x (difference neqb si is_) <-> In x si /\ ~ exists t, In t sj /\ moves g x t) by (intro x; rewrite difference_In, HI; tauto).
    assert (NED : difference neqb si is_ <> []).
    { intro E. enough (X : subset neqb si (pre_set neqb g sj) = true) by congruence. apply subset_spec. intros x Ix.
      destruct (nmem neqb x (pre_set neqb g sj)) eqn:Mx; [apply nmem_spec, Mx|]. exfalso.
      assert (X : In x (difference neqb si is_)) by (apply HD; split; [exact Ix|]; intro Y; apply pre_set_In, nmem_spec in Y; congruence). rewrite E in X. exact X. }
    assert (Cells : forall c, In c (replace i (difference neqb si is_) (p_sol st) ++ [is_]) -> c = difference neqb si is_ \/ In c (p_sol st) \/ c = is_).
    { intros c Ic. apply In_nth_error in Ic. destruct Ic as [k Hk]. apply (split_cells i si) in Hk; [|exact Ni].
      destruct Hk as [[_ ->]|[[_ Hk]|[_ ->]]]; auto. right. left. eapply nth_error_In; exact Hk. }
    assert (Isi : In si (p_sol st)) by (eapply nth_error_In; exact Ni). assert (Isj : In sj (p_sol st)) by (eapply nth_error_In; exact Nj).
    split; cbn [p_sol p_ij p_tr].
    - rewrite concat_app. cbn [List.concat]. rewrite app_nil_r. destruct (replace_split i (difference neqb si is_) si (p_sol st) Ni) as [l1 [l2 [E [-> _]]]].
      unfold difference, is_, intersection. rewrite filter_filter_ext. rewrite split_concat, <- E. exact P.
    - intros c Ic. destruct (Cells c Ic) as [->|[K| ->]]; auto.
    - intros c s t v w Ic Hs Ht. destruct (Cells c Ic) as [->|[K| ->]].
      + apply HD in Hs, Ht. apply (Lab si); tauto.
      + apply (Lab c); assumption.
      + apply HI in Hs, Ht. apply (Lab si); tauto.
    - intros a b ca cb Ha Hb T s Hs. assert (La := lt_nth _ _ _ Ha). assert (Lb := lt_nth _ _ _ Hb). rewrite app_length, replace_length in La, Lb. cbn [List.length] in La, Lb. fold n in La, Lb.
      rewrite tr_split in T by lia. apply (split_cells i si) in Ha; [|exact Ni]. apply (split_cells i si) in Hb; [|exact Ni]. fold n in Ha, Hb.
      destruct (Nat.eqb_spec b i) as [->|NBi]; [discriminate|]. destruct (Nat.eqb_spec b n) as [->|NBn]; [discriminate|]. cbn [orb] in T.
      destruct Hb as [[? _]|[[_ Hb]|[? _]]]; try congruence.
      destruct (Nat.eqb_spec a n) as [->|NAn].
      + assert (ca = is_). { destruct Ha as [[? _]|[[_ Ha]|[_ ?]]]; [lia| |assumption]. apply lt_nth in Ha. fold n in Ha. lia. } subst ca. apply HI in Hs. destruct Hs as [Hs X].
        apply orb_true_iff in T. destruct T as [T|T].
        * apply Nat.eqb_eq in T. subst b. assert (cb = sj) by congruence. subst cb. exact X.
        * exact (So i b si cb Ni Hb T s Hs).
      + destruct Ha as [[-> ->]|[[_ Ha]|[? _]]]; try congruence.
        * apply HD in Hs. exact (So i b si cb Ni Hb T s (proj1 Hs)).
        * exact (So a b ca cb Ha Hb T s Hs).
    - intros a b ca cb Ha Hb E T. assert (La := lt_nth _ _ _ Ha). assert (Lb := lt_nth _ _ _ Hb). rewrite app_length, replace_length in La, Lb. cbn [List.length] in La, Lb. fold n in La, Lb.
      unfold minus in E. rewrite T in E. cbn [negb] in E. rewrite andb_true_r, ij_split in E by lia. rewrite tr_split in T by lia.
      apply (split_cells i si) in Ha; [|exact Ni]. apply (split_cells i si) in Hb; [|exact Ni]. fold n in Ha, Hb.
      destruct (Nat.eqb_spec b i) as [->|NBi]; [discriminate|]. destruct (Nat.eqb_spec b n) as [->|NBn]; [discriminate|].
      destruct (Nat.eqb_spec a i) as [->|NAi]; [discriminate|]. destruct (Nat.eqb_spec a n) as [->|NAn]; [discriminate|]. cbn [orb] in E, T.
      destruct Ha as [[? _]|[[_ Ha]|[? _]]]; try congruence. destruct Hb as [[? _]|[[_ Hb]|[? _]]]; try congruence.
      exact (Do a b ca cb Ha Hb E T).
    - assert (Bs : forall s t, bisim s t -> (exists u, In u sj /\ moves g s u) -> exists u, In u sj /\ moves g t u).
      { intros s t [R [B Rst]] [u [Iu Mu]]. destruct (bis_forth _ _ _ B _ _ _ Rst Mu) as [u' [Mu' Ru]]. exists u'. split; [|exact Mu'].
        apply (Co sj u u' Isj); [exists R; auto|exact Iu]. }
      assert (Bk : forall s t, bisim s t -> bisim t s).
      { intros s t [R [B Rst]]. exists (fun x y => R y x). split; [|exact Rst]. split.
        - intros x y v Ryx L. destruct (bis_label_back _ _ _ B _ _ _ Ryx L) as [w [Lw E]]. exists w. split; [exact Lw|exact (eq_sym E)].
        - intros x y v Ryx L. destruct (bis_label _ _ _ B _ _ _ Ryx L) as [w [Lw E]]. exists w. split; [exact Lw|exact (eq_sym E)].
        - intros x y x' Ryx M. destruct (bis_back _ _ _ B _ _ _ Ryx M) as [y' [M' R']]. eauto.
        - intros x y y' Ryx M. destruct (bis_forth _ _ _ B _ _ _ Ryx M) as [x' [M' R']]. eauto. }
      intros c s t Ic Bst Hs. destruct (Cells c Ic) as [->|[K| ->]].
      + apply HD in Hs. destruct Hs as [Hs Nx]. apply HD. split; [exact (Co si s t Isi Bst Hs)|]. intro X. apply Nx. apply (Bs t s); [apply Bk, Bst|exact X].
      + exact (Co c s t K Bst Hs).
      + apply HI in Hs. destruct Hs as [Hs X]. apply HI. split; [exact (Co si s t Isi Bst Hs)|exact (Bs s t Bst X)].
  Qed.

  Lemma concat_length_ge (sol : list (list N)) : (forall c, In c sol -> c <> []) -> List.length sol <= List.length (List.concat sol).
  Proof.
    induction sol as [|c sol IH]; intro H; cbn [List.concat List.length]; [lia|]. rewrite app_length.
    specialize (IH (fun c I => H c (or_intror I))). specialize (H c (or_introl eq_refl)). destruct c; [congruence|]. cbn. lia.
  Qed.
  Lemma bi_bound st : bi_inv st -> List.length (p_sol st) <= List.length (node_list g).
  Proof. intros [P Ne _ _ _ _]. rewrite <- (Permutation_length P). apply concat_length_ge, Ne. Qed.

  (** ** Dual simulation *)
  Record dual_inv (st : part N) : Prop := {
    du_nodes : forall c s, In c (p_sol st) -> In s c -> In s (node_list g);
    du_cover : forall s, In s (node_list g) -> exists c, In c (p_sol st) /\ In s c;
    du_ne : forall c, In c (p_sol st) -> c <> [];
    du_lab : forall c s t v w, In c (p_sol st) -> In s c -> In t c -> labelled g s v -> labelled g t w -> same_repr v w;
    du_new : forall i j ci cj, nth_error (p_sol st) i = Some ci -> nth_error (p_sol st) j = Some cj -> (forall s, In s ci <-> In s cj) -> i = j;
    du_sound : forall i j ci cj, nth_error (p_sol st) i = Some ci -> nth_error (p_sol st) j = Some cj -> p_tr st j i = true ->
      forall s, In s ci -> exists t, In t cj /\ moves g s t;
    du_done : forall i j ci cj, nth_error (p_sol st) i = Some ci -> nth_error (p_sol st) j = Some cj -> p_ij st j i = false -> p_tr st j i = false ->
      (forall s t, In s ci -> In t cj -> ~ moves g s t) \/
      exists k ck, nth_error (p_sol st) k = Some ck /\ p_tr st j k = true /\ forall s, In s ck <-> In s ci /\ exists t, In t cj /\ moves g s t }.

  Lemma tr_grow tr n i j x y : i < n -> j < n -> x <= n -> y <= n ->
    (let tr1 := set_row (pad n tr false) n false in
     set1 (set_col tr1 n (fun x => tr1 x i)) j n true) x y =
    if x =? n then false else if y =? n then (x =? j) || tr x i else tr x y.
  Proof.
    intros I J X Y. cbn zeta. unfold set1, set_row, set_col, pad.
    destruct (Nat.eqb_spec x n), (Nat.eqb_spec y n), (Nat.eqb_spec x j), (Nat.ltb_spec x n), (Nat.ltb_spec y n), (Nat.ltb_spec i n);
      subst; cbn; try reflexivity; try lia; try congruence.
  Qed.
  Lemma ij_grow ij n i j x y : x <= n -> y <= n ->
    pad n (set1 ij j i false) true x y = if (x =? n) || (y =? n) then true else if (x =? j) && (y =? i) then false else ij x y.
  Proof.
    intros X Y. unfold set1, pad. destruct (Nat.eqb_spec x n), (Nat.eqb_spec y n), (Nat.ltb_spec x n), (Nat.ltb_spec y n); cbn; try reflexivity; lia.
  Qed.
  Lemma dual_step j i st : dual_inv st -> j < List.length (p_sol st) -> i < List.length (p_sol st) -> p_ij st j i = true -> dual_inv (refine1 true g j i st).
  Proof.
    intros [Nd Cv Ne Lab Nw So Do] J I IJ. pose proof (nth_nth_error (p_sol st) i [] I) as Ni. pose proof (nth_nth_error (p_sol st) j [] J) as Nj.
    unfold M_Simu.refine1. cbn zeta. set (si := nth i (p_sol st) []) in *. set (sj := nth j (p_sol st) []) in *. set (n := List.length (p_sol st)) in *.
    assert (Mono : forall b a k v, p_tr st b a = true -> v = true -> set1 (p_tr st) j k v b a = true).
    { intros b a k v T E. unfold set1. rewrite E. destruct ((b =? j) && (a =? k)); auto. }
    (* only transitions change *)
    assert (Same : forall k ck, nth_error (p_sol st) k = Some ck -> (forall s, In s ck -> exists t, In t sj /\ moves g s t) ->
      (forall s, In s si -> (exists t, In t sj /\ moves g s t) -> In s ck) -> (forall s, In s ck -> In s si) ->
      dual_inv (Part (p_sol st) (minus (set1 (p_ij st) j i false) (set1 (p_tr st) j k true)) (set1 (p_tr st) j k true))).
    { intros k ck Hk Hs1 Hs2 Hs3. split; cbn [p_sol p_ij p_tr]; auto.
      - intros i' j' ci cj Hi Hj T s Is. unfold set1 in T. destruct (Nat.eqb_spec j' j) as [->|], (Nat.eqb_spec i' k) as [->|]; cbn [andb] in T; try exact (So _ _ ci cj Hi Hj T s Is).
        assert (ci = ck) by congruence. assert (cj = sj) by congruence. subst ci cj. exact (Hs1 s Is).
      - intros i' j' ci cj Hi Hj E T. unfold minus in E. rewrite T in E. cbn [negb] in E. rewrite andb_true_r in E.
        assert (T0 : p_tr st j' i' = false). { destruct (p_tr st j' i') eqn:T0; [|reflexivity]. rewrite (Mono _ _ k true T0 eq_refl) in T. discriminate. }
        unfold set1 in E. destruct (Nat.eqb_spec j' j) as [->|], (Nat.eqb_spec i' i) as [->|]; cbn [andb] in E.
        + right. exists k, ck. split; [exact Hk|]. split; [unfold set1; rewrite !Nat.eqb_refl; reflexivity|].
          assert (ci = si) by congruence. assert (cj = sj) by congruence. subst ci cj. intro s. split; [intro X; split; [apply Hs3, X|apply Hs1, X]|intros [A B]; apply Hs2; assumption].
        + destruct (Do _ _ ci cj Hi Hj E T0) as [X|[k' [ck' [A [B C]]]]]; [left; exact X|right; exists k', ck'; auto].
        + destruct (Do _ _ ci cj Hi Hj E T0) as [X|[k' [ck' [A [B C]]]]]; [left; exact X|right; exists k', ck'; auto].
        + destruct (Do _ _ ci cj Hi Hj E T0) as [X|[k' [ck' [A [B C]]]]]; [left; exact X|right; exists k', ck'; auto]. }
    destruct (subset neqb si (pre_set neqb g sj)) eqn:Sub.
    { rewrite subset_spec in Sub. apply (Same i si Ni); auto. intros s Is. apply pre_set_In, Sub, Is. }
    destruct (intersection neqb si (pre_set neqb g sj)) as [|x0 xs] eqn:Is.
    { split; cbn [p_sol p_ij p_tr]; auto.
      intros i' j' ci cj Hi Hj E T. unfold set1 in E. destruct (Nat.eqb_spec j' j) as [->|], (Nat.eqb_spec i' i) as [->|]; cbn [andb] in E; try exact (Do _ _ ci cj Hi Hj E T).
      assert (ci = si) by congruence. assert (cj = sj) by congruence. subst ci cj. left. intros s t Hs Ht M.
      assert (X : In s (intersection neqb si (pre_set neqb g sj))) by (apply intersection_In; split; [exact Hs|apply pre_set_In; eauto]). rewrite Is in X. exact X. }
    assert (NE : intersection neqb si (pre_set neqb g sj) <> []) by (rewrite Is; discriminate). rewrite <- Is. clear Is x0 xs.
    set (is_ := intersection neqb si (pre_set neqb g sj)) in *.
    assert (HI : forall x, In x is_ <-> In x si /\ exists t, In t sj /\ moves g x t) by (intro x; unfold is_; rewrite intersection_In, pre_set_In; reflexivity).
    destruct (find (fun k => same_set neqb (nth k (p_sol st) []) is_) (List.seq 0 n)) as [k|] eqn:Fk.
    { apply find_some in Fk. destruct Fk as [Ik Fk]. apply in_seq in Ik. rewrite same_set_spec in Fk.
      apply (Same k (nth k (p_sol st) [])); [apply nth_nth_error; fold n; lia| | |].
      - intros s Hs. apply Fk, HI in Hs. tauto.
      - intros s Hs Mv. apply Fk, HI. tauto.
      - intros s Hs. apply Fk, HI in Hs. tauto. }
    pose proof (find_none _ _ Fk) as NF. clear Fk.
    assert (Isi : In si (p_sol st)) by (eapply nth_error_In; exact Ni).
    split; cbn [p_sol p_ij p_tr].
    - intros c s Ic Hs. apply in_app_iff in Ic. destruct Ic as [Ic|[<-|[]]]; [exact (Nd c s Ic Hs)|]. apply HI in Hs. exact (Nd si s Isi (proj1 Hs)).
    - intros s Hs. destruct (Cv s Hs) as [c [Ic X]]. exists c. split; [apply in_or_app; left; exact Ic|exact X].
    - intros c Ic. apply in_app_iff in Ic. destruct Ic as [Ic|[<-|[]]]; auto.
    - intros c s t v w Ic Hs Ht. apply in_app_iff in Ic. destruct Ic as [Ic|[<-|[]]]; [apply (Lab c); assumption|].
      apply HI in Hs, Ht. apply (Lab si); tauto.
    - assert (Fresh : forall k ck, nth_error (p_sol st) k = Some ck -> ~ (forall s, In s ck <-> In s is_)).
      { intros k ck Hk X. pose proof (lt_nth _ _ _ Hk) as Lk. fold n in Lk. specialize (NF k ltac:(apply in_seq; lia)). cbn beta in NF.
        rewrite (nth_nth_error (p_sol st) k []) in Hk by exact Lk. injection Hk as Hk. rewrite Hk in NF. rewrite (proj2 (same_set_spec ck is_) X) in NF. discriminate. }
      intros a b ca cb Ha Hb X. apply nth_error_snoc in Ha, Hb. destruct Ha as [Ha|[-> ->]], Hb as [Hb|[-> ->]].
      + exact (Nw a b ca cb Ha Hb X).
      + exfalso. exact (Fresh a ca Ha X).
      + exfalso. apply (Fresh b cb Hb). intro s. symmetry. apply X.
      + reflexivity.
    - intros a b ca cb Ha Hb T s Hs. assert (La := lt_nth _ _ _ Ha). assert (Lb := lt_nth _ _ _ Hb). rewrite app_length in La, Lb. cbn [List.length] in La, Lb. fold n in La, Lb.
      rewrite tr_grow in T by lia. apply nth_error_snoc in Ha, Hb. fold n in Ha, Hb.
      destruct (Nat.eqb_spec b n) as [->|NBn]; [discriminate|]. destruct Hb as [Hb|[? _]]; [|congruence].
      destruct (Nat.eqb_spec a n) as [->|NAn].
      + assert (ca = is_). { destruct Ha as [Ha|[_ ?]]; [|assumption]. apply lt_nth in Ha. fold n in Ha. lia. } subst ca. apply HI in Hs. destruct Hs as [Hs X].
        apply orb_true_iff in T. destruct T as [T|T].
        * apply Nat.eqb_eq in T. subst b. assert (cb = sj) by congruence. subst cb. exact X.
        * exact (So i b si cb Ni Hb T s Hs).
      + destruct Ha as [Ha|[? _]]; [|congruence]. exact (So a b ca cb Ha Hb T s Hs).
    - intros a b ca cb Ha Hb E T. assert (La := lt_nth _ _ _ Ha). assert (Lb := lt_nth _ _ _ Hb). rewrite app_length in La, Lb. cbn [List.length] in La, Lb. fold n in La, Lb.
      unfold minus in E. rewrite T in E. cbn [negb] in E. rewrite andb_true_r, ij_grow in E by lia. rewrite tr_grow in T by lia.
      apply nth_error_snoc in Ha, Hb. fold n in Ha, Hb.
      destruct (Nat.eqb_spec b n) as [->|NBn]; [discriminate|]. destruct (Nat.eqb_spec a n) as [->|NAn]; [discriminate|]. cbn [orb] in E, T.
      destruct Ha as [Ha|[? _]]; [|congruence]. destruct Hb as [Hb|[? _]]; [|congruence].
      destruct ((b =? j) && (a =? i)) eqn:Q.
      + apply andb_true_iff in Q. destruct Q as [Q1 Q2]. apply Nat.eqb_eq in Q1, Q2. subst a b.
        assert (ca = si) by congruence. assert (cb = sj) by congruence. subst ca cb.
        right. exists n, is_. split; [apply nth_error_snoc; right; auto|]. split; [|exact HI].
        rewrite tr_grow by lia. destruct (Nat.eqb_spec j n); [lia|]. rewrite !Nat.eqb_refl. reflexivity.
      + destruct (Do a b ca cb Ha Hb E T) as [X|[k' [ck' [A [B C]]]]]; [left; exact X|right]. exists k', ck'.
        split; [apply nth_error_snoc; left; exact A|]. split; [|exact C]. pose proof (lt_nth _ _ _ A) as Lk. fold n in Lk.
        rewrite tr_grow by lia. destruct (Nat.eqb_spec b n); [lia|]. destruct (Nat.eqb_spec k' n); [lia|exact B].
  Qed.

  Fixpoint vectors (n : nat) : list (list bool) :=
    match n with O => [[]] | S k => map (cons true) (vectors k) ++ map (cons false) (vectors k) end.
  Lemma vectors_In l : In l (vectors (List.length l)).
  Proof.
    induction l as [|[|] l IH]; cbn [vectors List.length]; [left; reflexivity| |]; apply in_or_app; [left|right]; apply in_map, IH.
  Qed.
  Lemma vectors_length n : List.length (vectors n) = 2 ^ n.
  Proof. induction n as [|n IH]; [reflexivity|]. cbn [vectors Nat.pow]. rewrite app_length, !map_length, IH. lia. Qed.
  Lemma dual_bound st : dual_inv st -> List.length (p_sol st) <= 2 ^ List.length (node_list g).
  Proof.
    intros [Nd _ _ _ Nw _ _]. set (f := fun c => map (fun s => nmem neqb s c) (node_list g)).
    rewrite <- (map_length f (p_sol st)), <- vectors_length. apply NoDup_incl_length.
    - apply NoDup_nth_error. intros i j Hi E. rewrite map_length in Hi. pose proof (nth_nth_error (p_sol st) i [] Hi) as Ni.
      rewrite (map_nth_error f i (p_sol st) Ni) in E. symmetry in E.
      assert (Hj : j < List.length (p_sol st)). { rewrite <- (map_length f). apply nth_error_Some. congruence. }
      pose proof (nth_nth_error (p_sol st) j [] Hj) as Nj. rewrite (map_nth_error f j (p_sol st) Nj) in E. injection E as E.
      apply (Nw i j _ _ Ni Nj). intro s.
      assert (X : forall a b, In (nth a (p_sol st) []) (p_sol st) -> f (nth a (p_sol st) []) = f (nth b (p_sol st) []) -> In s (nth a (p_sol st) []) -> In s (nth b (p_sol st) [])).
      { intros a b Ia Ef Is. pose proof (Nd _ s Ia Is) as In_. apply nmem_spec. rewrite <- (proj2 (nmem_spec s (nth a (p_sol st) [])) Is).
        unfold f in Ef. clear - Ef In_. revert Ef In_. induction (node_list g) as [|x l IH]; intros Ef In_; [destruct In_|]. cbn [map] in Ef. injection Ef as Ef1 Ef2.
        destruct In_ as [->|In_]; [symmetry; exact Ef1|exact (IH Ef2 In_)]. }
      split; apply X; try (symmetry; exact E); try exact E; apply nth_In; assumption.
    - intros v Iv. apply in_map_iff in Iv. destruct Iv as [c [<- _]]. replace (List.length (node_list g)) with (List.length (f c)) by apply map_length. apply vectors_In.
  Qed.

  (** ** Both start from the first partition *)
  Lemma start_bi : exists sol, initial_cells repr g = Ok sol /\ bi_inv (Part sol (fun _ _ => true) (fun _ _ => false)).
  Proof.
    destruct initial_cells_spec as [sol [E [P [Ne L]]]]. exists sol. split; [exact E|].
    assert (Nd : forall c s, In c sol -> In s c -> In s (node_list g)).
    { intros c s Ic Is. apply (Permutation_in s P), in_concat. eauto. }
    split; cbn [p_sol p_ij p_tr]; auto; try discriminate.
    - intros c s t v w Ic Is It Lv Lw. apply (L c s t v w); assumption.
    - intros c s t Ic [R [B Rst]] Is. destruct (node_label s (Nd c s Ic Is)) as [v Lv]. destruct (bis_label _ _ _ B _ _ _ Rst Lv) as [w [Lw S]].
      apply (L c s t v w Ic Is Lv Lw), S.
  Qed.
  Lemma start_dual : exists sol, initial_cells repr g = Ok sol /\ dual_inv (Part sol (fun _ _ => true) (fun _ _ => false)).
  Proof.
    destruct initial_cells_spec as [sol [E [P [Ne L]]]]. exists sol. split; [exact E|].
    assert (Nd : forall c s, In c sol -> In s c -> In s (node_list g)).
    { intros c s Ic Is. apply (Permutation_in s P), in_concat. eauto. }
    split; cbn [p_sol p_ij p_tr]; auto; try discriminate.
    - intros s Is. apply (Permutation_in s (Permutation_sym P)), in_concat in Is. exact Is.
    - intros c s t v w Ic Is It Lv Lw. apply (L c s t v w); assumption.
    - intros i j ci cj Hi Hj X. assert (ND : NoDup (List.concat sol)) by (apply (Permutation_NoDup (Permutation_sym P)), (sy_nodes sys)).
      assert (Ci : ci <> []) by (apply Ne; eapply nth_error_In; exact Hi). destruct ci as [|s ci]; [congruence|].
      assert (Sj : In s cj) by (apply X; left; reflexivity). clear - ND Hi Hj Sj. revert i j Hi Hj.
      induction sol as [|c sol IH]; intros [|i] [|j] Hi Hj; try discriminate; auto.
      + exfalso. injection Hi as ->. cbn [List.concat app] in ND. inversion ND as [|? ? NI ND']. apply NI, in_or_app. right. apply in_concat. exists cj. split; [eapply nth_error_In; exact Hj|exact Sj].
      + exfalso. injection Hj as ->. cbn [List.concat] in ND. destruct (in_split _ _ Sj) as [a [b ->]]. rewrite <- app_assoc in ND. cbn [app] in ND. apply NoDup_remove_2 in ND.
        apply ND. rewrite !in_app_iff. right. right. apply in_concat. exists (s :: ci). split; [eapply nth_error_In; exact Hi|left; reflexivity].
      + f_equal. apply IH; auto. cbn [List.concat] in ND. clear - ND. induction c as [|x c IHc]; [exact ND|]. cbn [app] in ND. apply NoDup_cons_iff in ND. apply IHc, ND.
  Qed.

  (** ** The maps between states and cells *)
  Definition at_cell (s : N) (i : nat) (l : list (N * list nat)) : Prop := exists c, cells_of neqb s l = Some c /\ In i c.
  Lemma add_index_spec s i l s' i' : at_cell s' i' (add_index neqb s i l) <-> at_cell s' i' l \/ (s' = s /\ i' = i).
  Proof.
    unfold at_cell. induction l as [|[t c] l IH]; cbn [add_index].
    - unfold cells_of. cbn [find fst snd option_map]. destruct (neqb s' s) eqn:E; cbn [option_map snd].
      + apply neqb_eq in E. subst. split; [intros [c [[= <-] [<-|[]]]]; auto|]. intros [[c [H _]]|[_ ->]]; [discriminate|]. exists [i]. cbn. auto.
      + split; [intros [c [H _]]; discriminate|]. intros [[c [H _]]|[-> _]]; [discriminate|]. rewrite (proj2 (neqb_eq s s) eq_refl) in E. discriminate.
    - destruct (neqb s t) eqn:E.
      + apply neqb_eq in E. subst t. unfold cells_of. cbn [find fst]. destruct (neqb s' s) eqn:E'; cbn [option_map snd].
        * apply neqb_eq in E'. subst. split.
          -- intros [d [[= <-] H]]. apply in_app_iff in H. destruct H as [H|[<-|[]]]; eauto.
          -- intros [[d [[= <-] H]]|[_ ->]]; eexists; (split; [reflexivity|]); apply in_app_iff; cbn; auto.
        * split; [auto|]. intros [H|[-> _]]; [exact H|]. rewrite (proj2 (neqb_eq s s) eq_refl) in E'. discriminate.
      + unfold cells_of in *. cbn [find fst]. destruct (neqb s' t) eqn:E'; [|exact IH].
        cbn [option_map snd]. split; [auto|]. intros [H|[-> _]]; [exact H|congruence].
  Qed.
  Lemma indices_spec sol i0 l s i : at_cell s i (indices neqb i0 sol l) <->
    at_cell s i l \/ exists k c, i = i0 + k /\ nth_error sol k = Some c /\ In s c.
  Proof.
    revert i0 l. induction sol as [|c sol IH]; intros i0 l; cbn [indices].
    - split; [auto|]. intros [H|[k [c [_ [H _]]]]]; [exact H|]. destruct k; discriminate.
    - rewrite IH. assert (F : forall c l, at_cell s i (fold_left (fun l s => add_index neqb s i0 l) c l) <-> at_cell s i l \/ (In s c /\ i = i0)).
      { clear IH l c. induction c as [|x c IH]; intro l; cbn [fold_left]; [cbn; tauto|]. rewrite IH, add_index_spec. cbn. intuition. }
      rewrite F. split.
      + intros [[H|[H ->]]|[k [d [-> H]]]]; [auto| |].
        * right. exists 0, c. cbn. repeat split; auto.
        * right. exists (S k), d. split; [lia|exact H].
      + intros [H|[[|k] [d [-> [H I]]]]]; [auto| |].
        * cbn in H. injection H as <-. left. right. split; [exact I|lia].
        * right. exists k, d. split; [lia|]. auto.
  Qed.
  Lemma cells_of_known s l : (exists i, at_cell s i l) -> exists c, cells_of neqb s l = Some c.
  Proof. intros [i [c [H _]]]. eauto. Qed.

  (** ** The abstract system *)
  Context (empty : V) (in_ap : V -> bool) (actions : types V).
  Hypothesis empty_same : veqb empty empty = true.
  Hypothesis empty_ap : in_ap empty = true.
  Notation simu_config := (simu_config empty actions).
  Definition bare : config V := Config [] [] [] [].

  Lemma add_fresh (l : list nat) (r : graph nat V) : NoDup (node_list r ++ l) ->
    fold_res (fun i => add_node Nat.eqb (simu_config (fun v => veqb v empty)) i [] true) l r =
    Ok (Graph (g_nodes r ++ map (fun i => (i, [("ap", empty)])) l) (g_edges r) (g_init r)).
  Proof.
    revert r. induction l as [|i l IH]; intros r ND; cbn [fold_res map].
    - rewrite app_nil_r. destruct r. reflexivity.
    - replace (add_node Nat.eqb (simu_config (fun v => veqb v empty)) i [] true r) with (Ok (Graph (g_nodes r ++ [(i, [("ap", empty)])]) (g_edges r) (g_init r))).
      + cbn [bind]. rewrite IH; cbn [g_nodes g_edges g_init].
        * rewrite <- app_assoc. reflexivity.
        * unfold node_list. cbn [g_nodes]. rewrite map_app. cbn [map fst]. rewrite <- app_assoc. exact ND.
      + symmetry. unfold add_node, typed_attr, typed_update_res. cbn. unfold typed_set, allowed. cbn. rewrite empty_same. cbn. f_equal. f_equal.
        apply NoDup_remove_2 in ND. assert (NI : ~ In i (map fst (g_nodes r))) by (intro X; apply ND, in_or_app; left; exact X).
        clear - NI. induction (g_nodes r) as [|[m a] ns IH]; cbn [nx_add_node app]; [reflexivity|]. cbn [map fst] in NI.
        destruct (Nat.eqb_spec i m) as [->|NE]; [exfalso; apply NI; left; reflexivity|]. f_equal. apply IH. intro X. apply NI. right. exact X.
  Qed.
  Lemma label_of_labelled s v : labelled g s v -> label_of neqb g s = Ok v.
  Proof.
    intros [a [I L]]. unfold label_of. destruct (find (fun na => neqb s (fst na)) (g_nodes g)) as [[x b]|] eqn:F.
    - apply find_some in F. destruct F as [J E]. cbn [fst] in E. apply neqb_eq in E. subst x. cbn [snd].
      rewrite (key_unique _ s b a (sy_nodes sys) J I), L. reflexivity.
    - pose proof (find_none _ _ F (s, a) I) as X. cbn [fst] in X. rewrite (proj2 (neqb_eq s s) eq_refl) in X. discriminate.
  Qed.
  Hypothesis labels_ap : forall s v, labelled g s v -> in_ap v = true.
  Lemma add_labelled i v (pre : list (nat * attrs V)) post es ini : ~ In i (map fst pre) -> in_ap v = true ->
    add_node Nat.eqb (simu_config in_ap) i [("ap", v)] true (Graph (pre ++ (i, [("ap", empty)]) :: post) es ini) =
    Ok (Graph (pre ++ (i, [("ap", v)]) :: post) es ini).
  Proof.
    intros NI A. unfold add_node, typed_attr, typed_update_res. cbn. unfold typed_set, allowed. cbn. rewrite empty_ap. cbn. rewrite A. cbn. f_equal. f_equal.
    induction pre as [|[m a] pre IH]; cbn [app nx_add_node].
    - rewrite Nat.eqb_refl. reflexivity.
    - cbn [map fst] in NI. destruct (Nat.eqb_spec i m) as [->|NE]; [exfalso; apply NI; left; reflexivity|]. f_equal. apply IH. intro X. apply NI. right. exact X.
  Qed.
  Lemma label_cells sol k pre es ini : (forall c, In c sol -> c <> []) -> (forall c s, In c sol -> In s c -> In s (node_list g)) ->
    (forall i, In i (map fst pre) -> i < k) ->
    exists vs, Forall2 (fun c v => exists s, In s c /\ labelled g s v) sol vs /\
      fold_res (label_cell neqb empty in_ap actions g) (combine (List.seq k (List.length sol)) sol)
        (Graph (pre ++ map (fun i => (i, [("ap", empty)])) (List.seq k (List.length sol))) es ini) =
      Ok (Graph (pre ++ combine (List.seq k (List.length sol)) (map (fun v => [("ap", v)]) vs)) es ini).
  Proof.
    revert k pre. induction sol as [|c sol IH]; intros k pre Ne Nd Lt; cbn [List.length List.seq combine map fold_res].
    - exists []. split; [constructor|reflexivity].
    - destruct c as [|s c]; [exfalso; exact (Ne [] (or_introl eq_refl) eq_refl)|].
      destruct (node_label s (Nd (s :: c) s (or_introl eq_refl) (or_introl eq_refl))) as [v Lv].
      destruct (IH (S k) (pre ++ [(k, [("ap", v)])])) as [vs [F E]].
      { intros d I. apply Ne. right. exact I. } { intros d t I. apply Nd. right. exact I. }
      { intros i I. rewrite map_app in I. apply in_app_iff in I. destruct I as [I|[<-|[]]]; [specialize (Lt i I); lia|cbn; lia]. }
      exists (v :: vs). split; [constructor; [exists s; split; [left; reflexivity|exact Lv]|exact F]|].
      unfold label_cell at 1. cbn [snd fst]. rewrite (label_of_labelled s v Lv). cbn [bind].
      rewrite add_labelled; [|intro X; specialize (Lt k X); lia|exact (labels_ap s v Lv)]. cbn [bind].
      rewrite <- !app_assoc in E. cbn [app] in E. exact E.
  Qed.
  Lemma add_unlabelled u v (r : graph nat V) : In u (node_list r) -> In v (node_list r) ->
    (forall e, In e (g_edges r) -> ~ (e_src e = u /\ e_dst e = v)) ->
    add_edge Nat.eqb veqb (simu_config in_ap) u v None [] true r = Ok (Graph (g_nodes r) (g_edges r ++ [Edge u v 0 []]) (g_init r)).
  Proof.
    intros Iu Iv Fr. unfold add_edge. rewrite (proj2 (has_node_In Nat.eqb Nat.eqb_eq u r) Iu), (proj2 (has_node_In Nat.eqb Nat.eqb_eq v r) Iv). cbn [negb].
    assert (E : edges_between Nat.eqb u v r = []).
    { destruct (edges_between Nat.eqb u v r) as [|e es] eqn:E; [reflexivity|]. exfalso.
      assert (I : In e (edges_between Nat.eqb u v r)) by (rewrite E; left; reflexivity). apply (edges_between_In Nat.eqb Nat.eqb_eq) in I.
      destruct I as [I [A B]]. exact (Fr e I (conj A B)). }
    cbn zeta. rewrite E. cbn. rewrite (nx_set_edge_new Nat.eqb Nat.eqb_eq); [reflexivity|].
    intros e I A B. exfalso. exact (Fr e I (conj A B)).
  Qed.
  Lemma add_all_transitions tr l (r : graph nat V) : NoDup l -> (forall i j, In (i, j) l -> In i (node_list r) /\ In j (node_list r)) ->
    (forall e, In e (g_edges r) -> ~ In (e_src e, e_dst e) l) ->
    fold_res (add_cell_transition veqb empty in_ap actions tr) l r =
    Ok (Graph (g_nodes r) (g_edges r ++ map (fun ij => Edge (fst ij) (snd ij) 0 []) (filter (fun ij => tr (snd ij) (fst ij)) l)) (g_init r)).
  Proof.
    revert r. induction l as [|[i j] l IH]; intros r ND Nd Fr; cbn [fold_res filter map].
    - rewrite app_nil_r. destruct r. reflexivity.
    - apply NoDup_cons_iff in ND. destruct ND as [NI ND]. unfold add_cell_transition at 1. cbn [fst snd]. destruct (tr j i).
      + destruct (Nd i j (or_introl eq_refl)) as [Ii Ij]. rewrite add_unlabelled; auto.
        2: { intros e Ie [A B]. apply (Fr e Ie). left. congruence. }
        cbn [bind]. rewrite IH; cbn [g_nodes g_edges g_init map].
        * rewrite <- app_assoc. reflexivity.
        * exact ND.
        * intros a b I. apply Nd. right. exact I.
        * intros e I X. apply in_app_iff in I. destruct I as [I|[<-|[]]]; [apply (Fr e I); right; exact X|exact (NI X)].
      + cbn [bind]. apply IH; auto.
        * intros a b I. apply Nd. right. exact I.
        * intros e I X. apply (Fr e I). right. exact X.
  Qed.
  Lemma NoDup_pairs {A B} (l : list A) (m : list B) : NoDup l -> NoDup m -> NoDup (list_prod l m).
  Proof.
    intros Hl Hm. induction Hl as [|x l NI Hl IH]; cbn [list_prod]; [constructor|].
    assert (G : forall m', NoDup m' -> NoDup (map (fun y => (x, y)) m' ++ list_prod l m)).
    { intros m' H'. induction H' as [|y m' NI' H' IH']; [exact IH|]. cbn [map app]. constructor; [|exact IH']. intro X. apply in_app_iff in X. destruct X as [X|X].
      - apply in_map_iff in X. destruct X as [z [[= ->] Z]]. exact (NI' Z).
      - apply in_prod_iff in X. exact (NI (proj1 X)). }
    exact (G m Hm).
  Qed.

  Definition output_ok (st : part N) (h : graph nat V) : Prop :=
    node_list h = List.seq 0 (List.length (p_sol st)) /\
    (forall i c, nth_error (p_sol st) i = Some c -> exists v s, labelled h i v /\ In s c /\ labelled g s v) /\
    (forall i j, moves h i j <-> i < List.length (p_sol st) /\ j < List.length (p_sol st) /\ p_tr st j i = true) /\
    (forall e, In e (g_edges h) -> e_attr e = []) /\
    (forall i, In i (g_init h) <-> exists s c, In s (g_init g) /\ nth_error (p_sol st) i = Some c /\ In s c).
  Lemma combine_nth {A B} (l : list A) (m : list B) i a b : nth_error l i = Some a -> nth_error m i = Some b -> In (a, b) (combine l m).
  Proof. revert m i. induction l as [|x l IH]; intros [|y m] [|i]; cbn; try discriminate; [intros [= <-] [= <-]; auto|]. intros H K. right. exact (IH m i H K). Qed.
  Lemma output_spec st : (forall c, In c (p_sol st) -> c <> []) -> (forall c s, In c (p_sol st) -> In s c -> In s (node_list g)) ->
    (forall x, output_fts neqb veqb empty in_ap actions g st = Ok x -> output_ok st (fst x) /\ snd x = indices neqb 0 (p_sol st) []) /\
    ((forall s, In s (g_init g) -> exists c, In c (p_sol st) /\ In s c) -> exists x, output_fts neqb veqb empty in_ap actions g st = Ok x).
  Proof.
    intros Ne Nd. unfold output_fts. cbn zeta. set (n := List.length (p_sol st)).
    rewrite add_fresh by (cbn [empty_graph node_list g_nodes map app]; apply seq_NoDup). cbn [empty_graph g_nodes g_edges g_init app].
    assert (W : wf bare (Graph (map (fun i => (i, [("ap", empty)])) (List.seq 0 n)) [] [])).
    { assert (NL : node_list (Graph (map (fun i => (i, [("ap", empty)])) (List.seq 0 n)) [] []) = List.seq 0 n) by (unfold node_list; cbn [g_nodes]; rewrite map_map; apply map_id).
      split.
      - fold (node_list (Graph (map (fun i => (i, [("ap", empty)])) (List.seq 0 n)) [] [])). rewrite NL. apply seq_NoDup.
      - intros e [].
      - constructor.
      - intros i a I. apply in_map_iff in I. destruct I as [k [[= _ <-] _]]. split; [constructor; [intros []|constructor]|apply Forall_forall; reflexivity].
      - intros e [].
      - constructor. }
    assert (After : forall starts r2, fold_res (add_initial Nat.eqb) (List.concat starts) (Graph (map (fun i => (i, [("ap", empty)])) (List.seq 0 n)) [] []) = Ok r2 ->
      exists vs, Forall2 (fun c v => exists s, In s c /\ labelled g s v) (p_sol st) vs /\
      (do r3 <- fold_res (label_cell neqb empty in_ap actions g) (combine (List.seq 0 n) (p_sol st)) r2;
       do r4 <- fold_res (add_cell_transition veqb empty in_ap actions (p_tr st)) (list_prod (List.seq 0 n) (List.seq 0 n)) r3;
       Ok (r4, indices neqb 0 (p_sol st) [])) =
      Ok (Graph (combine (List.seq 0 n) (map (fun v => [("ap", v)]) vs))
             (map (fun ij => Edge (fst ij) (snd ij) 0 []) (filter (fun ij => p_tr st (snd ij) (fst ij)) (list_prod (List.seq 0 n) (List.seq 0 n)))) (g_init r2), indices neqb 0 (p_sol st) [])).
    { intros starts r2 H. destruct (add_initials Nat.eqb veqb Nat.eqb_eq bare (List.concat starts) _ W) as [HI _]. destruct (HI r2 H) as [_ [_ [N2 [E2 _]]]]. clear HI.
      destruct (label_cells (p_sol st) 0 [] [] (g_init r2) Ne Nd) as [vs [F E]]; [intros i []|]. exists vs. split; [exact F|].
      destruct r2 as [n2 e2 i2]. cbn [g_nodes g_edges g_init] in *. subst n2 e2. cbn [app] in E. unfold n. rewrite E. cbn [bind].
      rewrite add_all_transitions; cbn [g_nodes g_edges g_init].
      - reflexivity.
      - apply NoDup_pairs; apply seq_NoDup.
      - intros i j I. apply in_prod_iff in I. unfold node_list. cbn [g_nodes].
        assert (L : List.length vs = List.length (p_sol st)) by (symmetry; exact (Forall2_len _ _ _ F)).
        pose proof (combine_keys (fun v => [("ap", v)]) vs 0 _ L) as KK. split; (apply (in_eq_list _ _ _ KK); tauto).
      - intros e []. }
    split.
    - intros x H. apply bind_Ok in H. destruct H as [starts [S H]]. cbn [bind] in H. apply bind_Ok in H. destruct H as [r2 [R2 H]].
      destruct (After starts r2 R2) as [vs [F E]]. assert (x = (Graph (combine (List.seq 0 n) (map (fun v => [("ap", v)]) vs))
             (map (fun ij => Edge (fst ij) (snd ij) 0 []) (filter (fun ij => p_tr st (snd ij) (fst ij)) (list_prod (List.seq 0 n) (List.seq 0 n)))) (g_init r2), indices neqb 0 (p_sol st) [])) by congruence.
      subst x. cbn [fst snd]. split; [|reflexivity]. clear E H After.
      assert (L : List.length vs = n) by (symmetry; exact (Forall2_len _ _ _ F)).
      split; [|split; [|split; [|split]]].
      + exact (combine_keys (fun v => [("ap", v)]) vs 0 n L).
      + intros i c Hi. assert (Li := lt_nth _ _ _ Hi). fold n in Li.
        destruct (nth_error vs i) as [v|] eqn:Hv; [|apply nth_error_None in Hv; lia].
        assert (X : exists s, In s c /\ labelled g s v). { clear - F Hi Hv. revert i Hi Hv. induction F as [|c0 v0 sol vs X F IH]; intros [|i] Hi Hv; try discriminate; [cbn in Hi, Hv; injection Hi as <-; injection Hv as <-; exact X|exact (IH i Hi Hv)]. }
        destruct X as [s [Is Lv]]. exists v, s. split; [|auto]. exists [("ap", v)]. split; [|reflexivity]. cbn [g_nodes].
        apply (combine_nth _ _ i); [|exact (map_nth_error (fun v => [("ap", v)]) i vs Hv)]. rewrite (nth_nth_error _ i 0) by (rewrite seq_length; exact Li). rewrite seq_nth by exact Li. reflexivity.
      + intros i j. split.
        * intros [e [I [A B]]]. cbn [g_edges] in I. apply in_map_iff in I. destruct I as [[a b] [<- I]]. cbn [e_src e_dst fst snd] in A, B. subst.
          apply filter_In in I. cbn [fst snd] in I. destruct I as [I T]. apply in_prod_iff in I. rewrite !in_seq in I. repeat split; [fold n; lia|fold n; lia|exact T].
        * intros [A [B T]]. exists (Edge i j 0 []). split; [|auto]. cbn [g_edges]. apply in_map_iff. exists (i, j). split; [reflexivity|]. apply filter_In. cbn [fst snd]. split; [|exact T].
          apply in_prod_iff. rewrite !in_seq. fold n in A, B. lia.
      + intros e I. cbn [g_edges] in I. apply in_map_iff in I. destruct I as [ij [<- _]]. reflexivity.
      + intro i. cbn [g_init]. destruct (add_initials Nat.eqb veqb Nat.eqb_eq bare (List.concat starts) _ W) as [HI _]. destruct (HI r2 R2) as [_ [_ [_ [_ I2]]]].
        rewrite I2. cbn [g_init]. apply mapr_Forall2 in S. rewrite in_concat.
        assert (Q : (exists l, In l starts /\ In i l) <-> exists s, In s (g_init g) /\ at_cell s i (indices neqb 0 (p_sol st) [])).
        { clear - S. induction S as [|s l ss ls X S IH]; [split; [intros [l [[] _]]|intros [s [[] _]]]|].
          assert (K : cells_of neqb s (indices neqb 0 (p_sol st) []) = Some l) by (destruct (cells_of neqb s _); [injection X as ->; reflexivity|discriminate]).
          split.
          - intros [l' [[<-|I] J]]; [exists s; split; [left; reflexivity|exists l; auto]|]. destruct (proj1 IH) as [t [It At]]; [eauto|]. exists t. split; [right; exact It|exact At].
          - intros [t [[<-|It] At]]; [destruct At as [l' [K' J]]; exists l; split; [left; reflexivity|congruence]|]. destruct (proj2 IH) as [l' [I J]]; [eauto|]. exists l'. split; [right; exact I|exact J]. }
        rewrite Q. split.
        * intros [[]|[s [Is At]]]. apply indices_spec in At. destruct At as [[c [At _]]|[k [c [-> [Hk Ic]]]]]; [discriminate|]. exists s, c. auto.
        * intros [s [c [Is [Hi Ic]]]]. right. exists s. split; [exact Is|]. apply indices_spec. right. exists i, c. auto.
    - intro Cov. assert (S : exists starts, mapr (fun s => of_opt "KeyError" (cells_of neqb s (indices neqb 0 (p_sol st) []))) (g_init g) = Ok starts /\
        forall i, In i (List.concat starts) -> i < n).
      { assert (Cv : forall s, In s (g_init g) -> exists c, cells_of neqb s (indices neqb 0 (p_sol st) []) = Some c).
        { intros s Is. destruct (Cov s Is) as [c [Ic Sc]]. apply In_nth_error in Ic. destruct Ic as [k Hk]. apply cells_of_known. exists k. apply indices_spec. right. exists k, c. auto. }
        assert (Lt : forall s c i, cells_of neqb s (indices neqb 0 (p_sol st) []) = Some c -> In i c -> i < n).
        { intros s c i H I. assert (At : at_cell s i (indices neqb 0 (p_sol st) [])) by (exists c; auto). apply indices_spec in At.
          destruct At as [[d [At _]]|[k [d [-> [Hk _]]]]]; [discriminate|]. apply lt_nth in Hk. exact Hk. }
        induction (g_init g) as [|s l IH]; cbn [mapr]; [exists []; split; [reflexivity|intros i []]|].
        destruct (Cv s (or_introl eq_refl)) as [c Hc]. destruct IH as [ls [E K]]; [intros t It; apply Cov; right; exact It|intros t It; apply Cv; right; exact It|].
        exists (c :: ls). rewrite Hc. cbn [of_opt bind]. rewrite E. cbn [bind]. split; [reflexivity|].
        intros i I. cbn [List.concat] in I. apply in_app_iff in I. destruct I as [I|I]; [exact (Lt s c i Hc I)|exact (K i I)]. }
      destruct S as [starts [S Lt]]. rewrite S. cbn [bind].
      destruct (add_initials Nat.eqb veqb Nat.eqb_eq bare (List.concat starts) _ W) as [_ HT]. destruct HT as [r2 R2].
      { intros i I. unfold node_list. cbn [g_nodes]. rewrite map_map. cbn [fst]. rewrite map_id. apply in_seq. specialize (Lt i I). lia. }
      rewrite R2. cbn [bind]. destruct (After starts r2 R2) as [vs [_ E]]. eauto.
  Qed.

  (** ** The bisimulation quotient *)
  Notation simu_abstract := (simu_abstract neqb veqb repr empty in_ap actions).
  Definition cell (r : abstraction N V) (i : nat) (c : list N) : Prop := nth_error (s_cells r) i = Some c.
  Theorem simu_bi_spec fuel r : simu_abstract fuel false g = Ok r ->
    Permutation (List.concat (s_cells r)) (node_list g) /\ (forall c, In c (s_cells r) -> c <> []) /\
    (forall i c s t, cell r i c -> In s c -> (In t c <-> bisimilar same_repr g s t)) /\
    node_list (s_graph r) = List.seq 0 (List.length (s_cells r)) /\
    (forall i c, cell r i c -> exists v, labelled (s_graph r) i v /\ forall s w, In s c -> labelled g s w -> same_repr v w) /\
    (forall i j ci cj, cell r i ci -> cell r j cj ->
       (moves (s_graph r) i j <-> forall s, In s ci -> exists t, In t cj /\ moves g s t) /\
       (moves (s_graph r) i j <-> exists s t, In s ci /\ In t cj /\ moves g s t)) /\
    (forall i j, moves (s_graph r) i j -> (exists ci, cell r i ci) /\ (exists cj, cell r j cj)) /\
    (forall i, In i (g_init (s_graph r)) <-> exists s c, In s (g_init g) /\ cell r i c /\ In s c) /\
    (forall s i, at_cell s i (s_ts2simu r) <-> exists c, cell r i c /\ In s c).
  Proof.
    intro H. unfold M_Simu.simu_abstract in H. destruct start_bi as [sol [E B0]]. rewrite E in H. cbn [bind] in H.
    apply bind_Ok in H. destruct H as [st [R H]]. apply bind_Ok in H. destruct H as [x [O H]]. injection H as <-. unfold cell. cbn [s_cells s_graph s_ts2simu].
    destruct (refine_spec false bi_inv bi_step fuel _ st B0 R) as [[P Ne Lab So Do Co] Se].
    assert (Nd : forall c s, In c (p_sol st) -> In s c -> In s (node_list g)).
    { intros c s Ic Is. apply (Permutation_in s P), in_concat. eauto. }
    assert (Cv : forall s, In s (node_list g) -> exists c, In c (p_sol st) /\ In s c).
    { intros s Is. apply (Permutation_in s (Permutation_sym P)), in_concat in Is. exact Is. }
    destruct (output_spec st Ne Nd) as [OS _]. destruct (OS x O) as [[O1 [O2 [O3 [O4 O5]]]] O6]. clear OS.
    assert (Tr : forall i j ci cj, nth_error (p_sol st) i = Some ci -> nth_error (p_sol st) j = Some cj -> p_tr st j i = false -> forall s t, In s ci -> In t cj -> ~ moves g s t).
    { intros i j ci cj Hi Hj T. apply (Do i j ci cj Hi Hj); [|exact T]. apply Se; [exact (lt_nth _ _ _ Hj)|exact (lt_nth _ _ _ Hi)]. }
    assert (Mv : forall i j ci cj, nth_error (p_sol st) i = Some ci -> nth_error (p_sol st) j = Some cj ->
       (moves (fst x) i j <-> forall s, In s ci -> exists t, In t cj /\ moves g s t) /\
       (moves (fst x) i j <-> exists s t, In s ci /\ In t cj /\ moves g s t)).
    { intros i j ci cj Hi Hj. rewrite O3. assert (Li := lt_nth _ _ _ Hi). assert (Lj := lt_nth _ _ _ Hj).
      assert (Ci : exists s, In s ci). { destruct ci as [|s ci]; [exfalso; apply (Ne []); [eapply nth_error_In; exact Hi|reflexivity]|]. exists s. left. reflexivity. }
      destruct Ci as [s0 Is0]. destruct (p_tr st j i) eqn:T.
      - pose proof (So i j ci cj Hi Hj T) as S. split; split; auto.
        + intros _. destruct (S s0 Is0) as [t [It M]]. eauto.
      - pose proof (Tr i j ci cj Hi Hj T) as S. split; split; try (intros [_ [_ X]]; discriminate).
        + intro X. destruct (X s0 Is0) as [t [It M]]. exfalso. exact (S s0 t Is0 It M).
        + intros [s [t [Is [It M]]]]. exfalso. exact (S s t Is It M). }
    split; [exact P|]. split; [exact Ne|]. split; [|split; [exact O1|split; [|split; [exact Mv|split; [|split]]]]].
    - intros i c s t Hi Is. split.
      + intro It. exists (fun a b => exists d, In d (p_sol st) /\ In a d /\ In b d). split; [|exists c; split; [eapply nth_error_In; exact Hi|auto]].
        assert (Fw : forall a b a' d, In d (p_sol st) -> In a d -> In b d -> moves g a a' -> exists b', moves g b b' /\ exists d, In d (p_sol st) /\ In a' d /\ In b' d).
        { intros a b a' d Id Ia Ib M. destruct M as [e [Ie [<- <-]]]. destruct (Cv (e_dst e) (proj2 (sy_ends sys e Ie))) as [d' [Id' Ia']].
          apply In_nth_error in Id. destruct Id as [k Hk]. pose proof Id' as Id''. apply In_nth_error in Id'. destruct Id' as [k' Hk'].
          destruct (Mv k k' d d' Hk Hk') as [M1 M2]. destruct (proj1 M1) with (s := b) as [b' [Ib' Mb]].
          - apply M2. exists (e_src e), (e_dst e). split; [exact Ia|]. split; [exact Ia'|]. exists e. auto.
          - exact Ib.
          - exists b'. split; [exact Mb|]. exists d'. auto. }
        split.
        * intros a b v [d [Id [Ia Ib]]] Lv. destruct (node_label b (Nd d b Id Ib)) as [w Lw]. exists w. split; [exact Lw|]. exact (Lab d a b v w Id Ia Ib Lv Lw).
        * intros a b w [d [Id [Ia Ib]]] Lw. destruct (node_label a (Nd d a Id Ia)) as [v Lv]. exists v. split; [exact Lv|]. exact (Lab d a b v w Id Ia Ib Lv Lw).
        * intros a b a' [d [Id [Ia Ib]]] M. exact (Fw a b a' d Id Ia Ib M).
        * intros a b b' [d [Id [Ia Ib]]] M. destruct (Fw b a b' d Id Ib Ia M) as [a' [Ma [d' [Id' [J1 J2]]]]]. exists a'. split; [exact Ma|]. exists d'. auto.
      + intro B. apply (Co c s t); [eapply nth_error_In; exact Hi|exact B|exact Is].
    - intros i c Hi. destruct (O2 i c Hi) as [v [s [Lv [Is Ls]]]]. exists v. split; [exact Lv|]. intros t w It Lw. apply (Lab c s t v w); auto. eapply nth_error_In; exact Hi.
    - intros i j M. apply O3 in M. destruct M as [A [B _]]. split; [exists (nth i (p_sol st) [])|exists (nth j (p_sol st) [])]; apply nth_nth_error; assumption.
    - exact O5.
    - intros s i. rewrite O6, indices_spec. split.
      + intros [[c [X _]]|[k [c [-> X]]]]; [discriminate|]. exists c. exact X.
      + intros [c X]. right. exists i, c. split; [reflexivity|exact X].
  Qed.
  Definition bound (n : nat) : nat := (n + 1) * (n * n + 1).
  Theorem simu_bi_total fuel : bound (List.length (g_nodes g)) <= fuel -> (forall s, In s (g_init g) -> In s (node_list g)) ->
    exists r, simu_abstract fuel false g = Ok r.
  Proof.
    intros L Hi. unfold M_Simu.simu_abstract. destruct start_bi as [sol [E B0]]. rewrite E. cbn [bind].
    destruct (refine_total false bi_inv bi_step (List.length (node_list g)) bi_bound fuel _ B0) as [st R].
    { pose proof (measure_le bi_inv (List.length (node_list g)) bi_bound _ B0) as Me. unfold bound in L. unfold node_list in *. rewrite map_length in *. lia. }
    rewrite R. cbn [bind]. destruct (refine_spec false bi_inv bi_step fuel _ st B0 R) as [[P Ne _ _ _ _] _].
    destruct (output_spec st Ne) as [_ OT].
    { intros c s Ic Is. apply (Permutation_in s P), in_concat. eauto. }
    destruct OT as [x O]. { intros s Is. apply Hi in Is. apply (Permutation_in s (Permutation_sym P)), in_concat in Is. exact Is. }
    rewrite O. cbn [bind]. eauto.
  Qed.

  (** ** The dual simulation *)
  Theorem simu_dual_spec fuel r : simu_abstract fuel true g = Ok r ->
    (forall s, In s (node_list g) <-> exists i c, cell r i c /\ In s c) /\ (forall c, In c (s_cells r) -> c <> []) /\
    (forall i j ci cj, cell r i ci -> cell r j cj -> (forall s, In s ci <-> In s cj) -> i = j) /\
    node_list (s_graph r) = List.seq 0 (List.length (s_cells r)) /\
    (forall i c, cell r i c -> exists v, labelled (s_graph r) i v /\ forall s w, In s c -> labelled g s w -> same_repr v w) /\
    (forall i j ci cj, cell r i ci -> cell r j cj -> moves (s_graph r) i j -> forall s, In s ci -> exists t, In t cj /\ moves g s t) /\
    (forall i j ci cj s t, cell r i ci -> cell r j cj -> In s ci -> In t cj -> moves g s t ->
       exists k ck, cell r k ck /\ moves (s_graph r) k j /\ In s ck /\ forall s', In s' ck -> In s' ci) /\
    (forall i j, moves (s_graph r) i j -> (exists ci, cell r i ci) /\ (exists cj, cell r j cj)) /\
    (forall i, In i (g_init (s_graph r)) <-> exists s c, In s (g_init g) /\ cell r i c /\ In s c) /\
    (forall s i, at_cell s i (s_ts2simu r) <-> exists c, cell r i c /\ In s c).
  Proof.
    intro H. unfold M_Simu.simu_abstract in H. destruct start_dual as [sol [E B0]]. rewrite E in H. cbn [bind] in H.
    apply bind_Ok in H. destruct H as [st [R H]]. apply bind_Ok in H. destruct H as [x [O H]]. injection H as <-. unfold cell. cbn [s_cells s_graph s_ts2simu].
    destruct (refine_spec true dual_inv dual_step fuel _ st B0 R) as [[Nd Cv Ne Lab Nw So Do] Se].
    destruct (output_spec st Ne Nd) as [OS _]. destruct (OS x O) as [[O1 [O2 [O3 [O4 O5]]]] O6]. clear OS.
    split; [|split; [exact Ne|split; [exact Nw|split; [exact O1|split; [|split; [|split; [|split; [|split]]]]]]]].
    - intro s. split.
      + intro Is. destruct (Cv s Is) as [c [Ic Sc]]. apply In_nth_error in Ic. destruct Ic as [k Hk]. eauto.
      + intros [i [c [Hi Is]]]. apply (Nd c); [eapply nth_error_In; exact Hi|exact Is].
    - intros i c Hi. destruct (O2 i c Hi) as [v [s [Lv [Is Ls]]]]. exists v. split; [exact Lv|]. intros t w It Lw. apply (Lab c s t v w); auto. eapply nth_error_In; exact Hi.
    - intros i j ci cj Hi Hj M. apply O3 in M. exact (So i j ci cj Hi Hj (proj2 (proj2 M))).
    - intros i j ci cj s t Hi Hj Is It M. assert (Li := lt_nth _ _ _ Hi). assert (Lj := lt_nth _ _ _ Hj). destruct (p_tr st j i) eqn:T.
      + exists i, ci. split; [exact Hi|]. split; [apply O3; auto|]. auto.
      + destruct (Do i j ci cj Hi Hj (Se j i Lj Li) T) as [X|[k [ck [Hk [Tk K]]]]]; [exfalso; exact (X s t Is It M)|].
        exists k, ck. split; [exact Hk|]. split; [apply O3; split; [exact (lt_nth _ _ _ Hk)|auto]|]. split; [apply K; eauto|]. intros s' Is'. apply K in Is'. tauto.
    - intros i j M. apply O3 in M. destruct M as [A [B _]]. split; [exists (nth i (p_sol st) [])|exists (nth j (p_sol st) [])]; apply nth_nth_error; assumption.
    - exact O5.
    - intros s i. rewrite O6, indices_spec. split.
      + intros [[c [X _]]|[k [c [-> X]]]]; [discriminate|]. exists c. exact X.
      + intros [c X]. right. exists i, c. split; [reflexivity|exact X].
  Qed.
  Theorem simu_dual_total fuel : bound (2 ^ List.length (g_nodes g)) <= fuel -> (forall s, In s (g_init g) -> In s (node_list g)) ->
    exists r, simu_abstract fuel true g = Ok r.
  Proof.
    intros L Hi. unfold M_Simu.simu_abstract. destruct start_dual as [sol [E B0]]. rewrite E. cbn [bind].
    destruct (refine_total true dual_inv dual_step (2 ^ List.length (node_list g)) dual_bound fuel _ B0) as [st R].
    { pose proof (measure_le dual_inv (2 ^ List.length (node_list g)) dual_bound _ B0) as Me. unfold bound in L. unfold node_list in *. rewrite map_length in *. lia. }
    rewrite R. cbn [bind]. destruct (refine_spec true dual_inv dual_step fuel _ st B0 R) as [[Nd Cv Ne _ _ _ _] _].
    destruct (output_spec st Ne Nd) as [_ OT]. destruct OT as [x O]. { intros s Is. apply Cv, Hi, Is. }
    rewrite O. cbn [bind]. eauto.
  Qed.
End Simu.

(** If [repr] tells labels apart as [==] does, cells are the classes of bisimilarity. *)
Theorem simu_bi_equal {N V} (neqb : N -> N -> bool) (veqb : V -> V -> bool) (repr : V -> string) (neqb_eq : forall a b, neqb a b = true <-> a = b)
    (g : graph N V) (empty : V) (in_ap : V -> bool) (actions : types V) :
  system g -> veqb empty empty = true -> in_ap empty = true -> (forall s v, labelled g s v -> in_ap v = true) ->
  (forall v w, repr v = repr w <-> veqb v w = true) ->
  forall fuel r, simu_abstract neqb veqb repr empty in_ap actions fuel false g = Ok r ->
  forall i c s t, nth_error (s_cells r) i = Some c -> In s c -> (In t c <-> bisimilar (fun v w => veqb v w = true) g s t).
Proof.
  intros S E1 E2 L R fuel r H i c s t Hi Is.
  destruct (simu_bi_spec neqb veqb repr neqb_eq g S empty in_ap actions E1 E2 L fuel r H) as [_ [_ [B _]]].
  rewrite (B i c s t Hi Is). split; intros [Q [HQ X]]; exists Q; (split; [|exact X]); destruct HQ as [A1 A2 A3 A4]; split; auto.
  - intros x y v RX Lv. destruct (A1 x y v RX Lv) as [w [Lw K]]. exists w. split; [exact Lw|apply R, K].
  - intros x y v RX Lv. destruct (A2 x y v RX Lv) as [w [Lw K]]. exists w. split; [exact Lw|apply R, K].
  - intros x y v RX Lv. destruct (A1 x y v RX Lv) as [w [Lw K]]. exists w. split; [exact Lw|apply R, K].
  - intros x y v RX Lv. destruct (A2 x y v RX Lv) as [w [Lw K]]. exists w. split; [exact Lw|apply R, K].
Qed.

(** ** A concrete system: two rooms that look alike, one of which has no way back *)
Definition rooms : graph nat string :=
  Graph [(0, [("ap", "{'home'}")]); (1, [("ap", "set()")]); (2, [("ap", "set()")]); (3, [("ap", "set()")])]
    [Edge 0 1 0 []; Edge 0 3 0 []; Edge 1 0 0 []; Edge 1 2 0 []; Edge 2 2 0 []; Edge 3 0 0 []; Edge 3 2 0 []] [0].
Definition any (v : string) : bool := true.
Lemma rooms_system : system rooms.
Proof.
  split.
  - cbn. repeat constructor; cbn; intuition discriminate.
  - cbn. intros e H. repeat (destruct H as [<-|H]; [cbn; tauto|]). destruct H.
  - cbn. intros s a H. repeat (destruct H as [[= <- <-]|H]; [eexists; reflexivity|]). destruct H.
Qed.
Example simu_bi_example : exists r, simu_abstract Nat.eqb String.eqb (fun v => v) "set()" any [] 200 false rooms = Ok r /\
  s_cells r = [[0]; [2]; [1; 3]] /\ g_init (s_graph r) = [0] /\ bisimilar (fun v w => String.eqb v w = true) rooms 1 3 /\ ~ bisimilar (fun v w => String.eqb v w = true) rooms 1 2.
Proof.
  destruct (simu_bi_total Nat.eqb String.eqb (fun v => v) Nat.eqb_eq rooms rooms_system "set()" any [] eq_refl eq_refl (fun _ _ _ => eq_refl) 200) as [r H].
  { vm_compute. repeat constructor. } { intros s [<-|[]]. left. reflexivity. }
  exists r. split; [exact H|].
  pose proof (simu_bi_equal Nat.eqb String.eqb (fun v => v) Nat.eqb_eq rooms "set()" any [] rooms_system eq_refl eq_refl (fun _ _ _ => eq_refl)
    (fun v w => iff_sym (String.eqb_eq v w)) 200 r H) as B.
  assert (C : s_cells r = [[0]; [2]; [1; 3]] /\ g_init (s_graph r) = [0]). { vm_compute in H. injection H as <-. split; reflexivity. }
  destruct C as [C I]. rewrite C in B. split; [exact C|]. split; [exact I|]. split.
  - apply (B 2 [1; 3] 1 3 eq_refl); cbn; auto.
  - intro X. clear H C I. apply (B 2 [1; 3] 1 2 eq_refl) in X; [|left; reflexivity]. destruct X as [X|[X|[]]]; discriminate.
Qed.
Example simu_dual_example : exists r, simu_abstract Nat.eqb String.eqb (fun v => v) "set()" any [] 5000 true rooms = Ok r /\
  s_cells r = [[0]; [1; 2; 3]; [1; 3]] /\ moves (s_graph r) 2 0 /\ moves (s_graph r) 1 1 /\ ~ moves (s_graph r) 1 0.
Proof.
  destruct (simu_dual_total Nat.eqb String.eqb (fun v => v) Nat.eqb_eq rooms rooms_system "set()" any [] eq_refl eq_refl (fun _ _ _ => eq_refl) 5000) as [r H].
  { apply Nat.leb_le. vm_compute. reflexivity. } { intros s [<-|[]]. left. reflexivity. }
  exists r. split; [exact H|]. vm_compute in H. injection H as <-. cbn [s_cells s_graph]. split; [reflexivity|]. unfold moves. cbn [g_edges].
  split; [exists (Edge 2 0 0 []); split; [cbn; tauto|split; reflexivity]|]. split; [exists (Edge 1 1 0 []); split; [cbn; tauto|split; reflexivity]|].
  intros [e [H [A B]]]. repeat (destruct H as [<-|H]; [discriminate|]). destruct H.
Qed.

(** ** What does not hold *)
(** Equal sets can have different texts, because the order of a set depends on how it was
    made; then bisimilar states are kept apart. *)
Definition set_eqb (a b : list string) : bool := forallb (fun x => existsb (String.eqb x) b) a && forallb (fun x => existsb (String.eqb x) a) b.
Definition set_repr (l : list string) : string := "{" ++ String.concat ", " l ++ "}".
Theorem simu_bi_repr_refuted : exists (g : graph nat (list string)) r, system g /\
  simu_abstract Nat.eqb set_eqb set_repr [] (fun _ => true) [] 100 false g = Ok r /\ s_cells r = [[0]; [1]] /\
  bisimilar (fun v w => set_eqb v w = true) g 0 1.
Proof.
  exists (Graph [(0, [("ap", ["a"; "b"])]); (1, [("ap", ["b"; "a"])])] [] [0]). eexists. split; [|split; [vm_compute; reflexivity|split; [reflexivity|]]].
  - split; cbn.
    + repeat constructor; cbn; intuition discriminate.
    + intros e [].
    + intros s a H. repeat (destruct H as [[= <- <-]|H]; [eexists; reflexivity|]). destruct H.
  - exists (fun s t => s = 0 /\ t = 1). split; [|auto]. split.
    + intros s t v [-> ->] [a [[[= <-]|[H|[]]] L]]; [|discriminate]. injection L as <-. exists ["b"; "a"]. split; [exists [("ap", ["b"; "a"])]; cbn; auto|reflexivity].
    + intros s t v [-> ->] [a [[H|[[= <-]|[]]] L]]; [discriminate|]. injection L as <-. exists ["a"; "b"]. split; [exists [("ap", ["a"; "b"])]; cbn; auto|reflexivity].
    + intros s t s' _ [e [[] _]].
    + intros s t s' _ [e [[] _]].
Qed.
(** An initial state that is no state (networkx [remove_node] leaves it) raises. *)
Theorem simu_stale_initial_refuted : exists g : graph nat string, system g /\
  simu_abstract Nat.eqb String.eqb (fun v => v) "set()" any [] 100 false g = Err "KeyError".
Proof.
  exists (Graph [(0, [("ap", "set()")])] [] [1]). split; [|reflexivity]. split; cbn.
  - repeat constructor; cbn; tauto.
  - intros e [].
  - intros s a [[= <- <-]|[]]. eexists. reflexivity.
Qed.

Print Assumptions simu_bi_spec.
Print Assumptions simu_bi_equal.
Print Assumptions simu_bi_total.
Print Assumptions simu_bi_repr_refuted.
Print Assumptions simu_stale_initial_refuted.
Print Assumptions simu_dual_spec.
Print Assumptions simu_dual_total.
