(** C82: random and interactive runs of Mealy machines. *)
From Coq Require Import List String Ascii Bool Arith ZArith Lia.
From Verif Require Import M_Base M_Dict L_Dict M_Graph L_Graph M_Machine S_Run L_Build L_Machine T_Reaction M_Grid M_Runs.
From Verif Require M_Lexer M_Gr1c T_Grid.
Import ListNotations.
Open Scope string_scope.
Open Scope list_scope.
Open Scope nat_scope.

Section C82.
  Context {N V : Type} (neqb : N -> N -> bool) (veqb : V -> V -> bool).
  Hypothesis neqb_eq : forall a b, neqb a b = true <-> a = b.
  Hypothesis veqb_eq : forall a b, veqb a b = true <-> a = b.
  Implicit Types m : machine N V.

  (** ** The transitions that leave a state *)
  Lemma leaving_ok m s : leaving neqb veqb m s = Ok (out_edges neqb s (m_graph m)).
  Proof.
    unfold leaving, find_transitions, out_edges.
    set (es := filter _ _). assert (E : es = filter (fun e => neqb (e_src e) s) (g_edges (m_graph m))).
    { unfold es. apply filter_ext. intro e. rewrite andb_true_r. unfold nmem. cbn [existsb]. rewrite orb_false_r. reflexivity. }
    rewrite <- E. clearbody es. clear E.
    assert (H : mapr (fun e : edge N V => Ok (e, true)) es = Ok (map (fun e => (e, true)) es)) by (induction es as [|e r IH]; cbn [mapr map bind]; [reflexivity|]; rewrite IH; reflexivity).
    rewrite H. cbn [bind]. f_equal. clear H. induction es as [|e r IH]; cbn; [reflexivity|]. f_equal. exact IH.
  Qed.
  Definition dead_end m (s : N) : Prop := forall e, In e (g_edges (m_graph m)) -> e_src e <> s.
  Lemma leaving_nil m s : out_edges neqb s (m_graph m) = [] <-> dead_end m s.
  Proof.
    split.
    - intros E e I A. assert (J : In e (out_edges neqb s (m_graph m))) by (apply (out_edges_In neqb neqb_eq); auto). rewrite E in J. destruct J.
    - intro D. destruct (out_edges neqb s (m_graph m)) as [|e r] eqn:E; [reflexivity|]. assert (J : In e (out_edges neqb s (m_graph m))) by (rewrite E; left; reflexivity).
      apply (out_edges_In neqb neqb_eq) in J. exfalso. exact (D e (proj1 J) (proj2 J)).
  Qed.

  (** ** Random runs *)
  Lemma random_loop_sound draws m n : forall i s sts outs sts' outs', random_loop neqb veqb draws m n i s sts outs = Ok (sts', outs') ->
    exists w l, sts' = sts ++ l /\ mrun m s w l /\ List.length w = n /\
      Forall2 (fun a b => fst b = fst a /\ map Some (snd b) = map Some (snd a) ++ outs_of w (fst a)) outs outs'.
  Proof.
    induction n as [|n IH]; intros i s sts outs sts' outs' H; cbn [random_loop] in H.
    - injection H as <- <-. exists [], []. rewrite app_nil_r. split; [reflexivity|]. split; [constructor|]. split; [reflexivity|].
      clear. induction outs; constructor; auto. rewrite app_nil_r. auto.
    - rewrite leaving_ok in H. cbn [bind] in H. destruct (nth_error _ _) as [e|] eqn:E; [|discriminate]. cbn [of_opt bind] in H.
      apply nth_error_In, (out_edges_In neqb neqb_eq) in E. apply bind_Ok in H. destruct H as [outs1 [O H]].
      apply IH in H. destruct H as (w & l & -> & M & L & F). exists ((project_dict (e_attr e) (names (m_in m)), project_dict (e_attr e) (names (m_out m))) :: w), (e_dst e :: l).
      split; [rewrite <- app_assoc; reflexivity|]. split; [econstructor; [|exact M]|].
      { exists e. destruct E as [I A]. split; [exact I|]. split; [exact A|]. split; [reflexivity|]. split; apply project_restricts. }
      split; [cbn; congruence|]. apply append_outputs_spec in O. clear - O F. revert outs' F. induction O as [|x y p q [E1 [E2 _]] O IH]; intros outs' F.
      + inversion F. constructor.
      + inversion F as [|? z ? r [F1 F2] F3]; subst. constructor; [|apply IH, F3]. split; [congruence|].
        rewrite F2, E2, E1, <- app_assoc. reflexivity.
  Qed.
  Lemma start_starts m from s : start m from = Ok s <-> starts m from s.
  Proof.
    unfold start, starts. destruct from as [a|]; [split; [intros [= ->]; reflexivity|intros ->; reflexivity]|].
    destruct (g_init (m_graph m)) as [|a r]; split; try discriminate; [intros [r' E]; discriminate|intros [= ->]; eauto|intros [r' [= -> _]]; reflexivity].
  Qed.
  Lemma outs_lists (w : list (@io V)) ks outs : Forall2 (fun a b => fst b = fst a /\ map Some (snd b) = map Some (snd a) ++ outs_of w (fst a)) (map (fun k => (k, [])) ks) outs ->
    map fst outs = ks /\ forall k l, In (k, l) outs -> outs_of w k = map Some l.
  Proof.
    revert outs. induction ks as [|k ks IH]; intros outs F; inversion F as [|? [k' l] ? o' [A B] F']; subst; cbn [map fst snd] in *; [split; [reflexivity|intros k l []]|].
    destruct (IH o' F') as [I1 I2]. split; [congruence|]. intros k0 l0 [[= <- <-]|I]; [subst; symmetry; exact B|exact (I2 k0 l0 I)].
  Qed.
  (** For all draws, the result is a run of the machine with as many reactions as asked for, and its outputs. *)
  Theorem random_run_sound draws m from n sts outs : random_run neqb veqb draws m from n = Ok (sts, outs) ->
    exists s w, starts m from s /\ mrun m s w sts /\ List.length w = n /\ map fst outs = map fst (m_out m) /\ forall k l, In (k, l) outs -> outs_of w k = map Some l.
  Proof.
    unfold random_run. intro H. apply bind_Ok in H. destruct H as [s [St H]]. apply random_loop_sound in H. destruct H as (w & l & -> & M & L & F).
    exists s, w. split; [apply start_starts, St|]. split; [exact M|]. split; [exact L|]. apply outs_lists, F.
  Qed.

  Lemma append_given m e outs : outputs_given m -> In e (g_edges (m_graph m)) -> (forall k, In k (map fst outs) -> In k (map fst (m_out m))) ->
    exists outs', append_outputs outs (project_dict (e_attr e) (names (m_out m))) = Ok outs' /\ map fst outs' = map fst outs.
  Proof.
    intros O I K. induction outs as [|[k l] r IH]; [exists []; split; reflexivity|]. destruct IH as (o & A & B); [intros k' J; apply K; right; exact J|].
    assert (Z : exists v, lookup k (project_dict (e_attr e) (names (m_out m))) = Some v).
    { destruct (lookup k (e_attr e)) as [v|] eqn:L; [|exfalso; apply (O e k I); [apply K; left; reflexivity|exact L]].
      exists v. apply project_restricts. split; [apply K; left; reflexivity|exact L]. }
    destruct Z as [v Z]. exists ((k, l ++ [v]) :: o). unfold append_outputs in *. cbn [mapr fst snd]. rewrite Z. cbn [of_opt bind]. rewrite A. cbn. rewrite B. auto.
  Qed.
  Lemma names_nil (l : list string) : map fst (map (fun k => (k, @nil V)) l) = l.
  Proof. rewrite map_map. cbn [fst]. apply map_id. Qed.
  Lemma last_cons (l : list N) : forall d s, last (d :: l) s = last l d.
  Proof.
    induction l as [|a l IH]; intros d s; [reflexivity|]. change (last (a :: l) s = last (a :: l) d). rewrite !IH. reflexivity.
  Qed.
  Lemma random_loop_fails draws m : outputs_given m -> forall n i s sts outs e, (forall k, In k (map fst outs) -> In k (map fst (m_out m))) ->
    random_loop neqb veqb draws m n i s sts outs = Err e -> e = "IndexError" /\ exists w l, mrun m s w l /\ List.length w < n /\ dead_end m (last l s).
  Proof.
    intro O. induction n as [|n IH]; intros i s sts outs e K H; cbn [random_loop] in H; [discriminate|]. rewrite leaving_ok in H. cbn [bind] in H.
    destruct (nth_error _ _) as [x|] eqn:E; cbn [of_opt bind] in H.
    - apply nth_error_In, (out_edges_In neqb neqb_eq) in E. destruct E as [I A]. destruct (append_given m x outs O I K) as (o & B & C). rewrite B in H. cbn [bind] in H.
      apply IH in H; [|intros k J; apply K; rewrite <- C; exact J]. destruct H as (-> & w & l & M & L & D). split; [reflexivity|].
      exists ((project_dict (e_attr x) (names (m_in m)), project_dict (e_attr x) (names (m_out m))) :: w), (e_dst x :: l). split.
      + econstructor; [|exact M]. exists x. split; [exact I|]. split; [exact A|]. split; [reflexivity|]. split; apply project_restricts.
      + split; [cbn; lia|]. replace (last (e_dst x :: l) s) with (last l (e_dst x)); [exact D|]. symmetry. apply last_cons.
    - injection H as <-. split; [reflexivity|]. exists [], []. split; [constructor|]. split; [cbn; lia|]. cbn [last]. apply leaving_nil.
      destruct (out_edges neqb s (m_graph m)) as [|a r] eqn:Q; [reflexivity|]. apply nth_error_None in E. cbn [List.length] in E. pose proof (Nat.mod_upper_bound (draws i) (S (List.length r))). lia.
  Qed.
  (** It fails only where the machine blocks: the draws before led to a state without transitions. *)
  Theorem random_run_blocks draws m from n s e : outputs_given m -> starts m from s -> random_run neqb veqb draws m from n = Err e ->
    e = "IndexError" /\ exists w l, mrun m s w l /\ List.length w < n /\ dead_end m (last l s).
  Proof.
    intros O St H. unfold random_run in H. apply start_starts in St. rewrite St in H. cbn [bind] in H. apply random_loop_fails in H; [exact H|exact O|].
    intros k I. rewrite names_nil in I. exact I.
  Qed.

  (** Every run is the one of some draws. *)
  Lemma random_loop_complete m : outputs_given m -> forall w s l, mrun m s w l -> exists picks, List.length picks = List.length w /\
    forall draws i sts outs, (forall j d, nth_error picks j = Some d -> draws (i + j) = d) -> (forall k, In k (map fst outs) -> In k (map fst (m_out m))) ->
      exists outs', random_loop neqb veqb draws m (List.length w) i s sts outs = Ok (sts ++ l, outs') /\
        Forall2 (fun a b => fst b = fst a /\ map Some (snd b) = map Some (snd a) ++ outs_of w (fst a)) outs outs'.
  Proof.
    intros O. induction w as [|x w IH]; intros s l M; inversion M as [|? ? t ? l' St M']; subst.
    - exists []. split; [reflexivity|]. intros draws i sts outs _ _. exists outs. cbn [List.length random_loop]. rewrite app_nil_r. split; [reflexivity|]. clear. induction outs; constructor; auto. rewrite app_nil_r. auto.
    - destruct (IH t l' M') as (picks & L & H). destruct St as (e & I & A & D & R1 & R2).
      assert (J : In e (out_edges neqb s (m_graph m))) by (apply (out_edges_In neqb neqb_eq); auto). apply In_nth_error in J. destruct J as [p J].
      exists (p :: picks). split; [cbn; congruence|]. intros draws i sts outs Dr K. cbn [List.length random_loop]. rewrite leaving_ok. cbn [bind].
      assert (Di : draws i = p) by (rewrite <- (Nat.add_0_r i); apply Dr; reflexivity).
      assert (Lp : p < List.length (out_edges neqb s (m_graph m))) by (apply nth_error_Some; congruence).
      rewrite Di, Nat.mod_small by exact Lp. rewrite J. cbn [of_opt bind]. destruct (append_given m e outs O I K) as (o & B & C). rewrite B. cbn [bind]. rewrite D.
      destruct (H draws (S i) (sts ++ [t]) o) as (outs' & H1 & H2); [intros j d E; rewrite Nat.add_succ_comm; exact (Dr (S j) d E)|intros k Ik; apply K; rewrite <- C; exact Ik|].
      exists outs'. split; [rewrite H1, <- app_assoc; reflexivity|]. apply append_outputs_spec in B.
      pose proof (restricts_fun _ _ _ _ (project_restricts (e_attr e) (names (m_out m))) R2) as SI.
      clear - B H2 SI. revert outs' H2. induction B as [|a b p q [E1 [E2 _]] B IH]; intros outs' F; [inversion F; constructor|].
      inversion F as [|? z ? r [F1 F2] F3]; subst. constructor; [|apply IH, F3]. split; [congruence|]. rewrite F2, E2, E1, <- app_assoc. cbn [outs_of map app]. rewrite (SI (fst a)). reflexivity.
  Qed.
  Theorem random_run_complete m from s w sts : outputs_given m -> starts m from s -> mrun m s w sts ->
    exists draws outs, random_run neqb veqb draws m from (List.length w) = Ok (sts, outs) /\ map fst outs = map fst (m_out m) /\ forall k l, In (k, l) outs -> outs_of w k = map Some l.
  Proof.
    intros O St M. destruct (random_loop_complete m O w s sts M) as (picks & L & H). exists (fun i => nth i picks 0).
    destruct (H (fun i => nth i picks 0) 0 [] (map (fun k => (k, [])) (names (m_out m)))) as (outs & H1 & H2); [intros j d E; exact (nth_error_nth picks j 0 E)|intros k I; rewrite names_nil in I; exact I|].
    exists outs. split; [unfold random_run; rewrite (proj2 (start_starts m from s) St); exact H1|]. apply outs_lists, H2.
  Qed.

  (** On a deterministic machine the random run is the guided run on the inputs that were drawn. *)
  Definition inputs_given m : Prop := forall e k, In e (g_edges (m_graph m)) -> In k (map fst (m_in m)) -> lookup k (e_attr e) <> None.
  Lemma all_some (l : list (option V)) : (forall x, In x l -> x <> None) -> exists vs, l = map Some vs.
  Proof. induction l as [|[v|] l IH]; intro H; [exists []; reflexivity| |exfalso; apply (H None); [left; reflexivity|reflexivity]]. destruct IH as [vs ->]; [intros x I; apply H; right; exact I|]. exists (v :: vs). reflexivity. Qed.
  Lemma mrun_inputs m s w l : inputs_given m -> mrun m s w l -> forall x k, In x w -> (lookup k (fst x) <> None <-> In k (map fst (m_in m))).
  Proof.
    intros G M. induction M as [s|s x t w l St M IH]; intros y k I; [destruct I|]. destruct I as [<-|I]; [|exact (IH y k I)].
    destruct St as (e & Ie & _ & _ & R & _). split.
    - intro E. destruct (lookup k (fst x)) as [v|] eqn:L; [|contradiction]. apply R in L. exact (proj1 L).
    - intros K E. destruct (lookup k (e_attr e)) as [v|] eqn:L; [|exact (G e k Ie K L)]. assert (Q : lookup k (fst x) = Some v) by (apply R; auto). congruence.
  Qed.
  Theorem random_run_guided draws m from n sts outs : wf (mealy_config veqb m) (m_graph m) -> deterministic m -> outputs_given m -> inputs_given m ->
    m_in m <> [] -> NoDup (map fst (m_in m)) -> random_run neqb veqb draws m from n = Ok (sts, outs) ->
    exists seqs, map fst seqs = map fst (m_in m) /\ guided_run neqb veqb m from seqs = Ok (sts, outs).
  Proof.
    intros W D O G NE ND H. apply random_run_sound in H. destruct H as (s & w & St & M & L & Ko & Vo).
    assert (Q : forall k, exists vs, In k (map fst (m_in m)) -> ins_of w k = map Some vs).
    { intro k. destruct (in_dec string_dec k (map fst (m_in m))) as [I|NI]; [|exists []; contradiction].
      destruct (all_some (ins_of w k)) as [vs E]; [|exists vs; intros _; exact E]. intros x J. unfold ins_of in J. apply in_map_iff in J. destruct J as (y & <- & J). apply (mrun_inputs m s w sts G M y k J), I. }
    assert (F : exists seqs : list (string * option (list V)), map fst seqs = map fst (m_in m) /\ forall k o, In (k, o) seqs -> exists vs, o = Some vs /\ ins_of w k = map Some vs).
    { clear - Q. assert (Q' : forall k, In k (map fst (m_in m)) -> exists vs, ins_of w k = map Some vs) by (intros k I; destruct (Q k) as [vs E]; eauto). clear Q.
      induction (map fst (m_in m)) as [|k r IH]; [exists []; split; [reflexivity|intros k o []]|]. destruct IH as (sq & A & B); [intros k' I; apply Q'; right; exact I|].
      destruct (Q' k (or_introl eq_refl)) as [vs E]. exists ((k, Some vs) :: sq). split; [cbn; congruence|]. intros k' o [[= <- <-]|I]; [eauto|exact (B k' o I)]. }
    destruct F as (seqs & Ks & Vs). exists seqs. split; [exact Ks|].
    assert (NDs : NoDup (map fst seqs)) by (rewrite Ks; exact ND).
    destruct (guided_run_complete neqb veqb neqb_eq veqb_eq m from seqs s w sts W NDs D O) as [outs' GR].
    - intros ->. cbn in Ks. destruct (m_in m); [contradiction|discriminate].
    - exact St.
    - exact M.
    - split; [intros k I; rewrite Ks; exact I|]. intros k o I. destruct (Vs k o I) as (vs & -> & E). exists vs. split; [reflexivity|]. apply (f_equal (@List.length _)) in E. unfold ins_of in E. rewrite !map_length in E. symmetry. exact E.
    - intros k l I. destruct (Vs k (Some l) I) as (vs & [= <-] & E). exact E.
    - intros k x I E. rewrite Ks. apply (mrun_inputs m s w sts G M x k I), E.
    - rewrite GR. f_equal. f_equal. destruct (guided_run_sound neqb veqb neqb_eq veqb_eq m from seqs sts outs' W NDs GR) as (s' & w' & St' & M' & In' & Ko' & Vo' & U).
      assert (s' = s) by (clear - St St'; unfold starts in *; destruct from; [congruence|destruct St as [r E], St' as [r' E']; congruence]). subst s'.
      assert (LW : List.length w' = List.length w).
      { destruct seqs as [|[k o] r]; [cbn in Ks; destruct (m_in m); [contradiction|discriminate]|]. destruct (Vs k o (or_introl eq_refl)) as (vs & -> & E). specialize (In' k vs (or_introl eq_refl)). apply (f_equal (@List.length _)) in E. apply (f_equal (@List.length _)) in In'. unfold ins_of in E, In'. rewrite !map_length in E. rewrite !map_length in In'. exact (eq_trans In' (eq_sym E)). }
      assert (SI : Forall2 (fun x y => same_items (fst x) (fst y)) w' w).
      { assert (P : forall k j x y, nth_error w' j = Some x -> nth_error w j = Some y -> lookup k (fst x) = lookup k (fst y)).
        { intros k j x y X Y. destruct (in_dec string_dec k (map fst (m_in m))) as [I|NI].
          - rewrite <- Ks in I. apply in_map_iff in I. destruct I as ([k' o] & <- & I). destruct (Vs k' o I) as (vs & -> & E). specialize (In' k' vs I). rewrite <- E in In'. apply (f_equal (fun q => nth_error q j)) in In'. unfold ins_of in In'. rewrite !nth_error_map in In'.
            assert (X' : option_map (fun x : io => lookup k' (fst x)) (nth_error w' j) = Some (lookup k' (fst x))) by exact (f_equal (option_map _) X).
            assert (Y' : option_map (fun x : io => lookup k' (fst x)) (nth_error w j) = Some (lookup k' (fst y))) by exact (f_equal (option_map _) Y).
            pose proof (eq_trans (eq_sym X') (eq_trans In' Y')) as Z. injection Z as Z. exact Z.
          - assert (A : forall z, In z w' \/ In z w -> lookup k (fst z) = None).
            { intros z Iz. destruct (lookup k (fst z)) eqn:E; [|reflexivity]. exfalso. apply NI. destruct Iz as [Iz|Iz]; [apply (mrun_inputs m s w' sts G M' z k Iz)|apply (mrun_inputs m s w sts G M z k Iz)]; congruence. }
            rewrite (A x), (A y); [reflexivity|right; exact (nth_error_In _ _ Y)|left; exact (nth_error_In _ _ X)]. }
        clear - P LW. revert w P LW. induction w' as [|a w' IH]; intros [|b w] P LW; try discriminate; constructor; [intro k; exact (P k 0 a b eq_refl eq_refl)|]. apply IH; [intros k j x y X Y; exact (P k (S j) x y X Y)|injection LW as LW; exact LW]. }
      destruct (U w sts M SI) as [_ SO].
      assert (OE : forall k, outs_of w' k = outs_of w k) by (intro k; clear - SO; induction SO as [|x y p q E _ IH]; [reflexivity|]; exact (f_equal2 cons (E k) IH)).
      assert (Inj : forall a b : list V, map Some a = map Some b -> a = b) by (induction a as [|x a IHa]; intros [|y b] E; try discriminate; [reflexivity|]; cbn in E; injection E as E1 E2; f_equal; auto).
      clear - Ko Ko' Vo Vo' OE Inj. revert outs Ko Vo Ko' Vo'. generalize (map fst (m_out m)) as ks. revert outs'.
      induction outs' as [|[k l] o' IH]; intros ks outs Ko Vo Ko' Vo'; [cbn in Ko'; subst ks; destruct outs; [reflexivity|discriminate]|].
      destruct outs as [|[k2 l2] o2]; [cbn in *; congruence|]. cbn [map fst] in *. subst ks. injection Ko' as -> Ko'.
      assert (l = l2). { apply Inj. rewrite <- (Vo k2 l2 (or_introl eq_refl)), <- (Vo' k2 l (or_introl eq_refl)). apply OE. } subst l2.
      f_equal. apply (IH (map fst o2) o2); [reflexivity|intros k0 l0 I0; apply Vo; right; exact I0|exact Ko'|intros k0 l0 I0; apply Vo'; right; exact I0].
  Qed.

  (** ** Interactive runs *)
  (** The line with the number of a transition selects it; one with a negative number selects from the end; a number outside of
      both ranges is refused, and an empty line selects none. *)
  Definition numbered {A} (l : list A) (z : Z) (e : A) : Prop :=
    (exists i, z = Z.of_nat i /\ nth_error l i = Some e) \/ (exists i, z = (- Z.of_nat (S i))%Z /\ nth_error (rev l) i = Some e).
  Lemma index_numbered {A} (l : list A) z e : index l z = Ok e <-> numbered l z e.
  Proof.
    unfold index, numbered, of_opt. split.
    - destruct (Z.ltb_spec z 0) as [Hz|Hz].
      + destruct (Z.ltb_spec (z + Z.of_nat (List.length l)) 0) as [Hn|Hn]; [discriminate|]. destruct (nth_error l _) as [x|] eqn:E; [|discriminate]. intros [= <-]. right.
        exists (Z.to_nat (- z - 1)). split; [lia|]. assert (B : Z.to_nat (z + Z.of_nat (List.length l)) < List.length l) by (apply nth_error_Some; congruence).
        rewrite (nth_error_nth' (rev l) x) by (rewrite rev_length; lia). f_equal. rewrite rev_nth by lia. apply nth_error_nth. rewrite <- E. f_equal. lia.
      + destruct (Z.ltb_spec z 0); [lia|]. destruct (nth_error l _) as [x|] eqn:E; [|discriminate]. intros [= <-]. left. exists (Z.to_nat z). split; [lia|exact E].
    - intros [(i & -> & E)|(i & -> & E)].
      + destruct (Z.ltb_spec (Z.of_nat i) 0); [lia|]. destruct (Z.ltb_spec (Z.of_nat i) 0); [lia|]. rewrite Nat2Z.id, E. reflexivity.
      + destruct (Z.ltb_spec (- Z.of_nat (S i)) 0); [|lia]. assert (B : i < List.length (rev l)) by (apply nth_error_Some; congruence). rewrite rev_length in B.
        destruct (Z.ltb_spec (- Z.of_nat (S i) + Z.of_nat (List.length l)) 0); [lia|].
        replace (Z.to_nat (- Z.of_nat (S i) + Z.of_nat (List.length l))) with (List.length l - S i) by lia.
        rewrite (nth_error_nth' l e) by lia. rewrite <- rev_nth by lia. rewrite (nth_error_nth (rev l) i e E). reflexivity.
  Qed.
  Lemma rstrip_plain l r : (forall c, In c l -> newline c = false) -> (forall c, In c r -> newline c = true) -> rstrip (l ++ r) = l.
  Proof.
    intros P Q. unfold rstrip. rewrite rev_app_distr. assert (Q' : forall c, In c (rev r) -> newline c = true) by (intros c I; apply Q, in_rev, I). clear Q. revert Q'. generalize (rev r). intro q.
    assert (D : drop_newlines (rev l) = rev l).
    { destruct (rev l) as [|c k] eqn:E; [reflexivity|]. cbn [drop_newlines]. rewrite P; [reflexivity|]. apply in_rev. rewrite E. left. reflexivity. }
    induction q as [|c q IH]; intro Q; cbn [app]; [rewrite D; apply rev_involutive|]. cbn [drop_newlines]. rewrite Q by (left; reflexivity). apply IH. intros x I. apply Q. right. exact I.
  Qed.
  Lemma list_ascii_app a b : list_ascii_of_string (a ++ b)%string = list_ascii_of_string a ++ list_ascii_of_string b.
  Proof. induction a as [|c a IH]; [reflexivity|]. cbn. f_equal. exact IH. Qed.
  Definition line_end (nl : string) : Prop := nl = "" \/ nl = String "010" "" \/ nl = String "013" (String "010" "").
  Lemma line_end_newlines nl : line_end nl -> forall c, In c (list_ascii_of_string nl) -> newline c = true.
  Proof. intros [ -> | [ -> | -> ] ] c I; cbn in I; intuition; subst; reflexivity. Qed.
  Lemma str_Z_cons z : list_ascii_of_string (M_Gr1c.str_Z z) <> [].
  Proof. intro E. pose proof (T_Grid.py_int_str_Z z) as P. rewrite E in P. discriminate. Qed.
  Theorem select_transition_number (trans : list (edge N V)) z nl : line_end nl ->
    (forall e, select_transition (M_Gr1c.str_Z z ++ nl) trans = Ok (Some e) <-> numbered trans z e) /\
    ((forall e, ~ numbered trans z e) -> select_transition (M_Gr1c.str_Z z ++ nl) trans = Err "IndexError") /\
    select_transition nl trans = Ok None.
  Proof.
    intro E. assert (R : rstrip (list_ascii_of_string (M_Gr1c.str_Z z ++ nl)) = list_ascii_of_string (M_Gr1c.str_Z z)).
    { rewrite list_ascii_app. apply rstrip_plain; [|apply line_end_newlines, E]. intros c I. apply T_Grid.str_Z_plain in I. destruct c as [[] [] [] [] [] [] [] []]; try discriminate I; reflexivity. }
    assert (S : select_transition (M_Gr1c.str_Z z ++ nl) trans = do e <- index trans z; Ok (Some e)).
    { unfold select_transition. rewrite R. pose proof (str_Z_cons z) as NE. pose proof (T_Grid.py_int_str_Z z) as P. destruct (list_ascii_of_string (M_Gr1c.str_Z z)); [contradiction|]. rewrite P. reflexivity. }
    rewrite S. split; [|split].
    - intro e. rewrite <- index_numbered. destruct (index trans z) as [x|]; cbn [bind]; split; try discriminate; congruence.
    - intro No. destruct (index trans z) as [x|y] eqn:I; [exfalso; apply (No x), index_numbered, I|]. cbn [bind]. unfold index, of_opt in I. match type of I with (if ?b then _ else _) = _ => destruct b end; [congruence|]. destruct (nth_error _ _); congruence.
    - unfold select_transition. replace (rstrip (list_ascii_of_string nl)) with (@nil ascii); [reflexivity|]. symmetry. apply (rstrip_plain [] _); [intros c []|apply line_end_newlines, E].
  Qed.
  Lemma ask_runs_on stdin fuel : forall k trans sel, @ask N V stdin fuel k trans sel = Err "(runs on)".
  Proof. induction fuel as [|f IH]; intros k trans sel; cbn [ask]; [reflexivity|]. destruct (select_transition _ _); apply IH. Qed.
  (** Whatever is typed, also an empty line or the end of the input, the function does not return and nothing moves, unless the
      first state has no transitions; then it returns. *)
  Theorem interactive_run_refuted stdin m from s fuel : starts m from s ->
    ((exists e, In e (g_edges (m_graph m)) /\ e_src e = s) -> interactive_run neqb veqb stdin m fuel from = Err "(runs on)") /\
    (dead_end m s -> interactive_run neqb veqb stdin m fuel from = Ok tt).
  Proof.
    intro St. apply start_starts in St. unfold interactive_run. rewrite St. cbn [bind interactive_loop]. unfold interactive_run_step. rewrite leaving_ok. cbn [bind]. split.
    - intros (e & I & A). destruct (out_edges neqb s (m_graph m)) as [|x r] eqn:E; [exfalso; apply (proj1 (leaving_nil m s) E e I A)|]. rewrite ask_runs_on. reflexivity.
    - intro D. apply leaving_nil in D. rewrite D. reflexivity.
  Qed.
End C82.

Example ex_random : random_run Nat.eqb Nat.eqb (fun i => nth i [1; 3; 0] 0) ex_machine None 3 = Ok ([1; 1; 0], [("y", [1; 2; 1])]).
Proof. reflexivity. Qed.
Example ex_random_guided : guided_run Nat.eqb Nat.eqb ex_machine None [("a", Some [1; 1; 0])] = Ok ([1; 1; 0], [("y", [1; 2; 1])]).
Proof. reflexivity. Qed.
Example ex_given : inputs_given ex_machine /\ outputs_given ex_machine.
Proof. split; intros e k I K; cbn in I, K; destruct K as [<-|[]]; destruct I as [<-|[<-|[<-|[<-|[]]]]]; discriminate. Qed.
(** A machine that blocks after one reaction. *)
Definition ex_blocking : machine nat nat := Machine [] ex_ports ex_outs (Graph [(0, []); (1, [])] [Edge 0 1 0 [("a", 1); ("y", 1)]] [0]).
Example ex_random_blocks : random_run Nat.eqb Nat.eqb (fun _ => 0) ex_blocking None 2 = Err "IndexError" /\ dead_end ex_blocking 1.
Proof. split; [reflexivity|]. intros e [<-|[]] E. discriminate. Qed.
Example ex_interactive : interactive_run Nat.eqb Nat.eqb (fun _ => "") ex_machine 100 None = Err "(runs on)" /\
  interactive_run Nat.eqb Nat.eqb (fun _ => "") ex_blocking 100 (Some 1) = Ok tt.
Proof. split; reflexivity. Qed.
Example ex_select : select_transition (String "1" (String "010" "")) (g_edges (m_graph ex_machine)) = Ok (Some (Edge 0 1 0 [("a", 1); ("y", 1)])) /\
  select_transition (String "-" (String "1" "")) (g_edges (m_graph ex_machine)) = Ok (Some (Edge 1 1 0 [("a", 1); ("y", 2)])) /\
  select_transition (String "4" "") (g_edges (m_graph ex_machine)) = Err "IndexError".
Proof. repeat split; reflexivity. Qed.

Print Assumptions random_run_sound.
Print Assumptions random_run_blocks.
Print Assumptions random_run_complete.
Print Assumptions random_run_guided.
Print Assumptions select_transition_number.
Print Assumptions interactive_run_refuted.
