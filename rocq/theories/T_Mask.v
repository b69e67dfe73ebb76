(** C85: masking outputs, and the strategy on a partition. *)
From Coq Require Import List String Bool Arith ZArith Lia.
From Verif Require Import M_Base M_Spec M_Dict L_Dict M_Graph L_Graph M_Machine L_Build L_Machine M_Strategy M_Mask.
Import ListNotations.
Open Scope string_scope.
Open Scope list_scope.
Open Scope nat_scope.

Section C85.
  Context {N V : Type}.
  Variable zero : V -> bool.
  Implicit Types m : machine N V.

  (** An edge shows a zero output. *)
  Definition shows_zero m (e : edge N V) : Prop := exists k v, In k (map fst (m_out m)) /\ lookup k (e_attr e) = Some v /\ zero v = true.
  Lemma pop_length k (d : attrs V) : In k (map fst d) -> NoDup (map fst d) -> S (List.length (pop k d)) = List.length d.
  Proof.
    induction d as [|[x v] d IH]; intros I ND; [destruct I|]. cbn [map fst] in *. inversion ND as [|? ? NI ND']; subst. unfold pop in *. cbn [filter fst]. destruct (String.eqb_spec x k) as [->|NE]; cbn [negb List.length].
    - f_equal. assert (E : filter (fun kv => negb (String.eqb (fst kv) k)) d = d).
      { clear - NI. induction d as [|[y w] d IH]; [reflexivity|]. cbn in NI |- *. destruct (String.eqb_spec y k) as [->|]; [exfalso; apply NI; left; reflexivity|]. cbn. f_equal. apply IH. intro I. apply NI. right. exact I. }
      rewrite E. reflexivity.
    - destruct I as [E|I]; [contradiction|]. rewrite (IH I ND'). reflexivity.
  Qed.
  Lemma mask_keys_changed outs size ks d : List.length d <> size -> mask_keys zero outs size ks d = (d, Some "RuntimeError").
  Proof. intro H. destruct ks; cbn [mask_keys]; destruct (Nat.eqb_spec (List.length d) size); try contradiction; reflexivity. Qed.
  (** One dictionary: nothing happens, or one key is erased and the iteration fails. *)
  Lemma mask_keys_cases outs d : NoDup (map fst d) -> forall ks, (forall k, In k ks -> In k (map fst d)) ->
    (mask_keys zero outs (List.length d) ks d = (d, None) /\ forall k v, In k ks -> In k outs -> lookup k d = Some v -> zero v = false) \/
    (exists k v, In k ks /\ In k outs /\ lookup k d = Some v /\ zero v = true /\ mask_keys zero outs (List.length d) ks d = (pop k d, Some "RuntimeError")).
  Proof.
    intro ND. induction ks as [|k ks IH]; intro S; cbn [mask_keys]; rewrite Nat.eqb_refl; cbn [negb]; [left; split; [reflexivity|intros k v []]|].
    destruct (mem k outs) eqn:M; cbn [andb].
    - destruct (lookup k d) as [v|] eqn:L; [destruct (zero v) eqn:Z|].
      + right. exists k, v. split; [left; reflexivity|]. split; [apply mem_In, M|]. split; [exact L|]. split; [exact Z|]. apply mask_keys_changed.
        pose proof (pop_length k d (S k (or_introl eq_refl)) ND). lia.
      + destruct IH as [[E H]|(k' & v' & I & O & L' & Z' & E)]; [intros x I; apply S; right; exact I| |].
        * left. split; [exact E|]. intros x w [<-|I] O Lx; [congruence|exact (H x w I O Lx)].
        * right. exists k', v'. split; [right; exact I|]. auto.
      + destruct IH as [[E H]|(k' & v' & I & O & L' & Z' & E)]; [intros x I; apply S; right; exact I| |].
        * left. split; [exact E|]. intros x w [<-|I] O Lx; [congruence|exact (H x w I O Lx)].
        * right. exists k', v'. split; [right; exact I|]. auto.
    - destruct IH as [[E H]|(k' & v' & I & O & L' & Z' & E)]; [intros x I; apply S; right; exact I| |].
      + left. split; [exact E|]. intros x w [<-|I] O Lx; [exfalso; apply mem_In in O; congruence|exact (H x w I O Lx)].
      + right. exists k', v'. split; [right; exact I|]. auto.
  Qed.
  Lemma edge_eta (e : edge N V) : Edge (e_src e) (e_dst e) (e_key e) (e_attr e) = e.
  Proof. destruct e; reflexivity. Qed.
  Lemma mask_edges_cases m : forall es, (forall e, In e es -> NoDup (map fst (e_attr e))) ->
    (mask_edges zero (names (m_out m)) es = (es, None) /\ forall e, In e es -> ~ shows_zero m e) \/
    (exists p e q k v, es = p ++ e :: q /\ In k (map fst (m_out m)) /\ lookup k (e_attr e) = Some v /\ zero v = true /\ (forall x, In x p -> ~ shows_zero m x) /\
       mask_edges zero (names (m_out m)) es = (p ++ Edge (e_src e) (e_dst e) (e_key e) (pop k (e_attr e)) :: q, Some "RuntimeError")).
  Proof.
    induction es as [|e es IH]; intro ND; [left; split; [reflexivity|intros e []]|]. cbn [mask_edges].
    destruct (mask_keys_cases (names (m_out m)) (e_attr e) (ND e (or_introl eq_refl)) (names (e_attr e)) (fun k I => I)) as [[E H]|(k & v & I & O & L & Z & E)]; rewrite E; cbn [fst snd].
    - rewrite edge_eta. assert (NZ : ~ shows_zero m e).
      { intros (k & v & O & L & Z). assert (Ik : In k (names (e_attr e))) by (apply lookup_name; eauto). rewrite (H k v Ik O L) in Z. discriminate. }
      destruct IH as [[E' H']|(p & e' & q & k & v & -> & O & L & Z & P & E')]; [intros x I; apply ND; right; exact I| |]; rewrite E'; cbn [fst snd].
      + left. split; [reflexivity|]. intros x [<-|I]; [exact NZ|exact (H' x I)].
      + right. exists (e :: p), e', q, k, v. split; [reflexivity|]. do 3 (split; [assumption|]). split; [|reflexivity]. intros x [<-|I]; [exact NZ|exact (P x I)].
    - right. exists [], e, es, k, v. split; [reflexivity|]. do 3 (split; [assumption|]). split; [intros x []|reflexivity].
  Qed.
  (** Without zero outputs nothing changes. With one the function fails, and exactly one output, on the first edge with a zero
      output, has been erased. *)
  Theorem mask_outputs_cases m : (forall e, In e (g_edges (m_graph m)) -> NoDup (map fst (e_attr e))) ->
    ((forall e, In e (g_edges (m_graph m)) -> ~ shows_zero m e) -> mask_outputs zero m = (m, None)) /\
    ((exists e, In e (g_edges (m_graph m)) /\ shows_zero m e) ->
       snd (mask_outputs zero m) = Some "RuntimeError" /\
       exists p e q k v, g_edges (m_graph m) = p ++ e :: q /\ In k (map fst (m_out m)) /\ lookup k (e_attr e) = Some v /\ zero v = true /\
         (forall x, In x p -> ~ shows_zero m x) /\
         g_edges (m_graph (fst (mask_outputs zero m))) = p ++ Edge (e_src e) (e_dst e) (e_key e) (filter (fun kv => negb (String.eqb (fst kv) k)) (e_attr e)) :: q).
  Proof.
    intro ND. unfold mask_outputs. cbn [fst snd m_graph g_edges]. destruct (mask_edges_cases m _ ND) as [[E H]|(p & e & q & k & v & Es & O & L & Z & P & E)]; rewrite E; cbn [fst snd].
    - split; [intros _; destruct m as [a b c [x y z]]; reflexivity|]. intros (e & I & S). destruct (H e I S).
    - split; [intro H; exfalso; apply (H e); [rewrite Es; apply in_app_iff; right; left; reflexivity|exists k, v; auto]|].
      intros _. split; [reflexivity|]. exists p, e, q, k, v. auto 8.
  Qed.
  (** So it fails on every machine on which it has something to erase. *)
  Theorem mask_outputs_refuted m : (forall e, In e (g_edges (m_graph m)) -> NoDup (map fst (e_attr e))) ->
    (exists e, In e (g_edges (m_graph m)) /\ shows_zero m e) -> snd (mask_outputs zero m) <> None.
  Proof. intros ND S. rewrite (proj1 (proj2 (mask_outputs_cases m ND) S)). discriminate. Qed.
End C85.

Section Projected.
  Context {N : Type} (neqb : N -> N -> bool).
  Hypothesis neqb_eq : forall a b, neqb a b = true <-> a = b.
  Implicit Types m : machine N mval.

  (** The region of a state: its label [loc], an index of a region, negative from the end *)
  Definition region (n : nat) m (u : N) (i : nat) : Prop :=
    exists a z, In (u, a) (g_nodes (m_graph m)) /\ lookup "loc" a = Some (VInt z) /\ i < n /\ (z = Z.of_nat i \/ z = (Z.of_nat i - Z.of_nat n)%Z).
  Lemma row_spec n v i : row n v = Ok i <-> exists z, v = VInt z /\ i < n /\ (z = Z.of_nat i \/ z = (Z.of_nat i - Z.of_nat n)%Z).
  Proof.
    destruct v as [z|s]; cbn [row]; [|split; [discriminate|intros (z & E & _); discriminate]]. split.
    - intro H. exists z. split; [reflexivity|]. destruct (Z.ltb_spec z 0) as [Hz|Hz].
      + destruct (Z.ltb_spec (z + Z.of_nat n) 0); [discriminate|]. destruct (Z.leb_spec (Z.of_nat n) (z + Z.of_nat n)); [discriminate|]. cbn in H. injection H as <-. lia.
      + destruct (Z.ltb_spec z 0); [lia|]. destruct (Z.leb_spec (Z.of_nat n) z); [discriminate|]. cbn in H. injection H as <-. lia.
    - intros (z' & [= <-] & L & H). destruct (Z.ltb_spec z 0) as [Hz|Hz].
      + destruct (Z.ltb_spec (z + Z.of_nat n) 0); [lia|]. destruct (Z.leb_spec (Z.of_nat n) (z + Z.of_nat n)); [lia|]. cbn. f_equal. lia.
      + destruct (Z.ltb_spec z 0); [lia|]. destruct (Z.leb_spec (Z.of_nat n) z); [lia|]. cbn. f_equal. lia.
  Qed.
  Lemma state_label_In m u a : NoDup (node_list (m_graph m)) -> (state_label neqb m u = Ok a <-> In (u, a) (g_nodes (m_graph m))).
  Proof.
    intro ND. unfold state_label, of_opt, node_list in *. induction (g_nodes (m_graph m)) as [|[x b] l IH]; cbn [List.find option_map fst]; [split; [discriminate|intros []]|].
    cbn [map fst] in ND. inversion ND as [|? ? NI ND']; subst. destruct (neqb u x) eqn:E.
    - apply neqb_eq in E. subst x. cbn [option_map snd]. split; [intros [= ->]; left; reflexivity|]. intros [[= ->]|I]; [reflexivity|]. exfalso. apply NI, (in_map fst _ _ I).
    - rewrite (IH ND'). split; [right; assumption|]. intros [[= -> ->]|I]; [|exact I]. rewrite (proj2 (neqb_eq u u) eq_refl) in E. discriminate.
  Qed.
  Lemma project_loop n m : NoDup (node_list (m_graph m)) -> forall es acc l,
    fold_res (fun (e : edge N mval) acc => do a <- state_label neqb m (e_src e); do b <- state_label neqb m (e_dst e);
        match lookup "loc" a, lookup "loc" b with Some x, Some y => do i <- row n x; do j <- row n y; Ok (acc ++ [(i, j)]) | _, _ => Ok acc end) es acc = Ok l ->
    forall i j, In (i, j) l <-> In (i, j) acc \/ exists e, In e es /\ region n m (e_src e) i /\ region n m (e_dst e) j.
  Proof.
    intro ND. induction es as [|e es IH]; intros acc l H i j; cbn [fold_res] in H.
    - injection H as <-. split; [auto|]. intros [I|(e & [] & _)]. exact I.
    - apply bind_Ok in H. destruct H as (acc' & S & H). apply bind_Ok in S. destruct S as (a & A & S). apply bind_Ok in S. destruct S as (b & B & S).
      apply (state_label_In m _ _ ND) in A, B. rewrite (IH _ _ H i j).
      assert (U : forall u a a', In (u, a) (g_nodes (m_graph m)) -> In (u, a') (g_nodes (m_graph m)) -> a = a') by (intros u x y X Y; apply (state_label_In m u _ ND) in X, Y; congruence).
      assert (K : In (i, j) acc' <-> In (i, j) acc \/ (region n m (e_src e) i /\ region n m (e_dst e) j)).
      { destruct (lookup "loc" a) as [x|] eqn:Lx; [destruct (lookup "loc" b) as [y|] eqn:Ly|].
        - apply bind_Ok in S. destruct S as (i' & I' & S). apply bind_Ok in S. destruct S as (j' & J' & S). injection S as <-. rewrite in_app_iff. cbn [In].
          assert (Ri : region n m (e_src e) i <-> i = i').
          { split.
            - intros (a' & z & X & Lz & Q). rewrite (U _ _ _ X A), Lx in Lz. injection Lz as ->. assert (R : row n (VInt z) = Ok i) by (apply row_spec; exists z; auto). congruence.
            - intros ->. apply row_spec in I'. destruct I' as (z & -> & Q). exists a, z. auto. }
          assert (Rj : region n m (e_dst e) j <-> j = j').
          { split.
            - intros (a' & z & X & Lz & Q). rewrite (U _ _ _ X B), Ly in Lz. injection Lz as ->. assert (R : row n (VInt z) = Ok j) by (apply row_spec; exists z; auto). congruence.
            - intros ->. apply row_spec in J'. destruct J' as (z & -> & Q). exists b, z. auto. }
          rewrite Ri, Rj. split; [intros [I|[[= <- <-]|[]]]; auto|intros [I|[-> ->]]; auto].
        - injection S as <-. split; [auto|]. intros [I|[_ (b' & z & X & Lz & _)]]; [exact I|]. rewrite (U _ _ _ X B) in Lz. congruence.
        - injection S as <-. split; [auto|]. intros [I|[(a' & z & X & Lz & _) _]]; [exact I|]. rewrite (U _ _ _ X A) in Lz. congruence. }
      rewrite K. split.
      + intros [[I|[R1 R2]]|(x & X & R)]; [left; exact I|right; exists e; split; [left; reflexivity|auto]|right; exists x; split; [right; exact X|exact R]].
      + intros [I|(x & [<-|X] & R)]; [auto|auto|right; exists x; auto].
  Qed.
  (** The matrix has a 1 exactly at the pairs of regions of the transitions between states with regions. *)
  Theorem project_strategy_regions n m l : NoDup (node_list (m_graph m)) -> project_strategy neqb n m = Ok l ->
    forall i j, In (i, j) l <-> exists e, In e (g_edges (m_graph m)) /\ region n m (e_src e) i /\ region n m (e_dst e) j.
  Proof. intros ND H i j. rewrite (project_loop n m ND _ _ _ H i j). split; [intros [[]|H']; exact H'|auto]. Qed.

  (** But the states of a synthesized machine have no labels. *)
  Definition unlabeled (g : graph N mval) : Prop := forall n a, In (n, a) (g_nodes g) -> a = [].
  Lemma add_node_unlabeled c n b g g' : c_node_types c = [] -> c_node_defaults c = [] -> unlabeled g -> add_node neqb c n [] b g = Ok g' -> unlabeled g'.
  Proof.
    intros T D U H. apply add_node_Ok in H. destruct H as (t & E & ->). rewrite T, D in E. cbn in E. injection E as <-. unfold unlabeled in *. cbn [g_nodes]. clear - U. revert U. induction (g_nodes g) as [|[x a] l IH]; intro U; cbn [nx_add_node].
    - intros y b [[= <- <-]|[]]. reflexivity.
    - destruct (neqb n x).
      + intros y b' [[= <- <-]|I]; [|exact (U y b' (or_intror I))]. rewrite (U x a (or_introl eq_refl)). reflexivity.
      + intros y b' [[= <- <-]|I]; [exact (U x a (or_introl eq_refl))|]. exact (IH (fun n a J => U n a (or_intror J)) y b' I).
  Qed.
  Lemma fold_keeps {A} (f : A -> graph N mval -> res (graph N mval)) l : (forall x g g', In x l -> unlabeled g -> f x g = Ok g' -> unlabeled g') ->
    forall g g', unlabeled g -> fold_res f l g = Ok g' -> unlabeled g'.
  Proof.
    induction l as [|x l IH]; intros H g g' U E; cbn [fold_res] in E; [injection E as <-; exact U|]. apply bind_Ok in E. destruct E as (g1 & E1 & E).
    apply (IH (fun y h h' I => H y h h' (or_intror I)) g1 g'); [|exact E]. exact (H x g g1 (or_introl eq_refl) U E1).
  Qed.
  Lemma transitions_add_unlabeled c u v d b g g' : unlabeled g -> transitions_add neqb c u v d b g = Ok g' -> unlabeled g'.
  Proof.
    intros U H. unfold transitions_add in H. destruct (existsb _ d); [discriminate|].
    assert (K : forall d' k ch, add_edge neqb mval_eqb c u v k d' ch g = Ok g' -> unlabeled g').
    { intros d' k ch E. apply (add_edge_Ok neqb mval_eqb neqb_eq) in E. destruct E as (_ & _ & _ & t & _ & [[-> _]|(_ & _ & ->)]); exact U. }
    destruct b as [b|]; [destruct (mem "check" (names d)); [discriminate|]|]; exact (K _ _ _ H).
  Qed.
  Lemma fold_P {A S} (P : S -> Prop) (f : A -> S -> res S) l : (forall x g g', P g -> f x g = Ok g' -> P g') -> forall g g', P g -> fold_res f l g = Ok g' -> P g'.
  Proof.
    intro H. induction l as [|x l IH]; intros g g' U E; cbn [fold_res] in E; [injection E as <-; exact U|]. apply bind_Ok in E. destruct E as (g1 & E1 & E).
    exact (IH g1 g' (H x g g1 U E1) E).
  Qed.
  Theorem synthesized_unlabeled isinit sinit env sys A m : strategy2mealy neqb isinit sinit env sys A = Ok m -> unlabeled (m_graph m).
  Proof.
    intro H. unfold strategy2mealy in H. destruct (st_nodes A) as [|nd0 rest] eqn:En; [discriminate|]. rewrite <- En in *.
    apply bind_Ok in H. destruct H as [g1 [H1 H]]. destruct (negb (forallb _ _)); [discriminate|].
    apply bind_Ok in H. destruct H as [g2 [H2 H]]. apply bind_Ok in H. destruct H as [g3 [H3 H]]. apply bind_Ok in H. destruct H as [g4 [H4 H]].
    apply bind_Ok in H. destruct H as [g5 [H5 H]]. destruct (negb _); [discriminate|]. destruct (successors neqb sinit g5); [discriminate|]. injection H as <-. cbn [m_graph].
    assert (U1 : unlabeled g1).
    { refine (fold_keeps _ _ _ empty_graph g1 _ H1); [|intros ? ? []]. intros x g g' _ U E. eapply add_node_unlabeled; [| |exact U|exact E]; reflexivity. }
    assert (U2 : unlabeled g2).
    { eapply fold_keeps; [|exact U1|exact H2]. intros u g g' _ U E. cbv beta in E. eapply fold_keeps; [|exact U|exact E]. intros v h h' _ U' E'. cbv beta in E'.
      apply bind_Ok in E'. destruct E' as (d & _ & E'). apply bind_Ok in E'. destruct E' as (lab & _ & E'). exact (transitions_add_unlabeled _ _ _ _ _ _ _ U' E'). }
    assert (U3 : unlabeled g3) by (eapply add_node_unlabeled; [| |exact U2|exact H3]; reflexivity).
    assert (U4 : unlabeled g4) by (unfold add_initial in H4; destruct (has_node neqb sinit g3); [|discriminate]; injection H4 as <-; exact U3).
    destruct (st_init A) as [ini|].
    - unfold init_edges_nodes in H5. destruct ini as [|n0 ini0]; [discriminate|]. apply bind_Ok in H5. destruct H5 as (r & F & E). injection E as <-.
      refine (fold_P (fun r => unlabeled (fst r)) _ _ _ (g4, []) r U4 F). clear F r. intros u [g s] g' U E. cbv beta in E. cbn [fst snd] in *. apply bind_Ok in E. destruct E as (d & _ & E). apply bind_Ok in E. destruct E as (x & _ & E).
      destruct (zlist_mem x s); [injection E as <-; exact U|]. apply bind_Ok in E. destruct E as (lab & _ & E). apply bind_Ok in E. destruct E as (g'' & T & E). injection E as <-. exact (transitions_add_unlabeled _ _ _ _ _ _ _ U T).
    - unfold init_edges_compile in H5. apply bind_Ok in H5. destruct H5 as (r & F & E). injection E as <-.
      refine (fold_P (fun r => unlabeled (fst (fst r))) _ _ _ (g4, [], []) r U4 F). clear F r. intros ud [[g s] t] g' U E. cbn [fst snd] in *. apply bind_Ok in E. destruct E as (x & _ & E).
      destruct (zlist_mem x s); [injection E as <-; exact U|]. apply bind_Ok in E. destruct E as (b & _ & E). destruct b; [|injection E as <-; exact U].
      apply bind_Ok in E. destruct E as (lab & _ & E). apply bind_Ok in E. destruct E as (g'' & T & E). injection E as <-. exact (transitions_add_unlabeled _ _ _ _ _ _ _ U T).
  Qed.
  (** So the projection of every synthesized strategy is the zero matrix. *)
  Theorem project_synthesized_refuted isinit sinit env sys A m n l : strategy2mealy neqb isinit sinit env sys A = Ok m -> project_strategy neqb n m = Ok l -> l = [].
  Proof.
    intros S H. apply synthesized_unlabeled in S. unfold project_strategy in H. assert (G : forall es acc,
      fold_res (fun (e : edge N mval) acc => do a <- state_label neqb m (e_src e); do b <- state_label neqb m (e_dst e);
        match lookup "loc" a, lookup "loc" b with Some x, Some y => do i <- row n x; do j <- row n y; Ok (acc ++ [(i, j)]) | _, _ => Ok acc end) es acc = Ok l -> l = acc).
    { induction es as [|e es IH]; intros acc E; cbn [fold_res] in E; [injection E as <-; reflexivity|]. apply bind_Ok in E. destruct E as (acc' & E1 & E). apply IH in E. subst l.
      apply bind_Ok in E1. destruct E1 as (a & A1 & E1). apply bind_Ok in E1. destruct E1 as (b & B1 & E1). unfold state_label, of_opt in A1. destruct (List.find _ _) as [[x y]|] eqn:F; [|discriminate]. cbn in A1. injection A1 as ->.
      apply find_some in F. destruct F as [F _]. apply S in F. subst a. cbn [lookup] in E1. injection E1 as <-. reflexivity. }
    exact (G _ _ H).
  Qed.
End Projected.

Definition ex_mask : machine nat nat := Machine [] [("a", PNone)] [("y", PNone); ("z", PNone)]
  (Graph [(0, []); (1, [])] [Edge 0 1 0 [("a", 0); ("y", 3); ("z", 1)]; Edge 1 0 0 [("a", 1); ("y", 0); ("z", 0)]; Edge 1 1 0 [("a", 0); ("y", 0); ("z", 2)]] [0]).
Example ex_mask_outputs : mask_outputs (Nat.eqb 0) ex_mask =
  (Machine [] [("a", PNone)] [("y", PNone); ("z", PNone)]
    (Graph [(0, []); (1, [])] [Edge 0 1 0 [("a", 0); ("y", 3); ("z", 1)]; Edge 1 0 0 [("a", 1); ("z", 0)]; Edge 1 1 0 [("a", 0); ("y", 0); ("z", 2)]] [0]), Some "RuntimeError").
Proof. vm_compute. reflexivity. Qed.
Definition ex_located : machine nat mval := Machine [] [] [] (Graph [(0, [("loc", VInt 2)]); (1, [("loc", VInt (-3))]); (2, [])] [Edge 0 1 0 []; Edge 1 2 0 []; Edge 1 1 0 []] [0]).
Example ex_project : project_strategy Nat.eqb 3 ex_located = Ok [(2, 0); (0, 0)].
Proof. vm_compute. reflexivity. Qed.
(** A synthesized machine that moves between two values of [loc], and its projection. *)
Definition ex_strategy : @strategy nat := Strategy [(0, [("loc", 0%Z)]); (1, [("loc", 1%Z)])] [(0, 1); (1, 0)] (Some [0]).
Example ex_synthesized : exists m, strategy2mealy Nat.eqb (fun _ => Ok true) 9 [] [("loc", DInt 0 1)] ex_strategy = Ok m /\
  List.length (g_edges (m_graph m)) = 3 /\ project_strategy Nat.eqb 2 m = Ok [].
Proof. eexists. split; [vm_compute; reflexivity|]. split; vm_compute; reflexivity. Qed.

Print Assumptions mask_outputs_cases.
Print Assumptions mask_outputs_refuted.
Print Assumptions project_strategy_regions.
Print Assumptions synthesized_unlabeled.
Print Assumptions project_synthesized_refuted.
