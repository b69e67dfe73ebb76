(** C36: reactions and guided runs of Mealy machines. *)
From Coq Require Import List String Bool Arith Lia.
From Verif Require Import M_Base M_Dict L_Dict M_Graph L_Graph M_Machine S_Run L_Build L_Machine.
Import ListNotations.
Open Scope string_scope.
Open Scope list_scope.

Section C36.
  Context {N V : Type} (neqb : N -> N -> bool) (veqb : V -> V -> bool).
  Hypothesis neqb_eq : forall a b, neqb a b = true <-> a = b.
  Hypothesis veqb_eq : forall a b, veqb a b = true <-> a = b.
  Implicit Types m : machine N V.

  (** The edge leaves [s] and its input ports have exactly the values given; in lazy mode,
      only the values given are compared. *)
  Definition matches m (lazy : bool) (s : N) (inputs : attrs V) (e : edge N V) : Prop :=
    In e (g_edges (m_graph m)) /\ e_src e = s /\
    if lazy then forall k v, lookup k inputs = Some v -> In k (map fst (m_in m)) /\ lookup k (e_attr e) = Some v
    else restricts (map fst (m_in m)) (e_attr e) inputs.

  Lemma matches_enabled m lazy s inputs e : wf (mealy_config veqb m) (m_graph m) -> NoDup (map fst inputs) ->
    (In e (enabled neqb veqb m s inputs lazy) <-> matches m lazy s inputs e).
  Proof.
    intros W ND. rewrite (enabled_In neqb veqb neqb_eq veqb_eq m s inputs lazy e W ND). unfold matches, asked. destruct lazy; [|reflexivity].
    split; intros [I [A B]]; (split; [exact I|]; split; [exact A|]).
    - intros k v L. apply B in L. destruct L as [J L]. apply filter_In in J. split; [exact (proj1 J)|exact L].
    - intros k v. split.
      + intro L. destruct (B k v L) as [J K]. split; [|exact K]. apply filter_In. split; [exact J|].
        apply mem_In. apply lookup_name. eauto.
      + intros [J L]. apply filter_In in J. destruct J as [_ J]. apply mem_In in J. apply lookup_name in J.
        destruct J as [w J]. destruct (B k w J) as [_ K]. congruence.
  Qed.

  (** [reaction] returns the unique matching transition, *)
  Theorem reaction_unique m lazy s inputs e : wf (mealy_config veqb m) (m_graph m) -> NoDup (map fst inputs) ->
    matches m lazy s inputs e -> (forall e', matches m lazy s inputs e' -> e' = e) ->
    exists o, reaction neqb veqb m s inputs lazy = Ok (e_dst e, o) /\ restricts (map fst (m_out m)) (e_attr e) o.
  Proof.
    intros W ND M U. rewrite reaction_eq.
    assert (E : enabled neqb veqb m s inputs lazy = [e]).
    { pose proof (enabled_nodup neqb veqb m s inputs lazy W) as NE.
      apply (matches_enabled m lazy s inputs e W ND) in M.
      assert (U' : forall e', In e' (enabled neqb veqb m s inputs lazy) -> e' = e) by (intros e' I; apply U, matches_enabled; auto).
      destruct (enabled neqb veqb m s inputs lazy) as [|x [|y r]]; [destruct M|f_equal; apply U'; left; reflexivity|].
      exfalso. assert (x = e) by (apply U'; left; reflexivity). assert (y = e) by (apply U'; right; left; reflexivity).
      subst. inversion NE as [|? ? NI _]. apply NI. left. reflexivity. }
    rewrite E. eexists. split; [reflexivity|]. apply project_restricts.
  Qed.
  (** and raises otherwise, with a message that says why. *)
  Theorem reaction_raises m lazy s inputs : wf (mealy_config veqb m) (m_graph m) -> NoDup (map fst inputs) ->
    ((forall e, In e (g_edges (m_graph m)) -> e_src e <> s) ->
       reaction neqb veqb m s inputs lazy = Err "ValueError: dead-end") /\
    ((exists e, In e (g_edges (m_graph m)) /\ e_src e = s) -> (forall e, ~ matches m lazy s inputs e) ->
       reaction neqb veqb m s inputs lazy = Err "ValueError: not a valid input") /\
    (forall e e', matches m lazy s inputs e -> matches m lazy s inputs e' -> e <> e' ->
       reaction neqb veqb m s inputs lazy = Err "ValueError: must be input-deterministic").
  Proof.
    intros W ND. rewrite reaction_eq. split; [|split].
    - intro H.
      assert (E : enabled neqb veqb m s inputs lazy = []).
      { destruct (enabled neqb veqb m s inputs lazy) as [|x r] eqn:E; [reflexivity|].
        assert (I : In x (enabled neqb veqb m s inputs lazy)) by (rewrite E; left; reflexivity).
        apply (matches_enabled m lazy s inputs x W ND) in I. destruct I as [I [A _]]. exfalso. exact (H x I A). }
      assert (F : out_edges neqb s (m_graph m) = []).
      { destruct (out_edges neqb s (m_graph m)) as [|x r] eqn:F; [reflexivity|].
        assert (I : In x (out_edges neqb s (m_graph m))) by (rewrite F; left; reflexivity).
        apply (out_edges_In neqb neqb_eq) in I. exfalso. exact (H x (proj1 I) (proj2 I)). }
      rewrite E, F. reflexivity.
    - intros [e [I A]] H.
      assert (E : enabled neqb veqb m s inputs lazy = []).
      { destruct (enabled neqb veqb m s inputs lazy) as [|x r] eqn:E; [reflexivity|].
        assert (J : In x (enabled neqb veqb m s inputs lazy)) by (rewrite E; left; reflexivity).
        apply (matches_enabled m lazy s inputs x W ND) in J. exfalso. exact (H x J). }
      rewrite E. assert (J : In e (out_edges neqb s (m_graph m))) by (apply (out_edges_In neqb neqb_eq); auto).
      destruct (out_edges neqb s (m_graph m)); [destruct J|reflexivity].
    - intros e e' M M' D. apply (matches_enabled m lazy s inputs e W ND) in M. apply (matches_enabled m lazy s inputs e' W ND) in M'.
      destruct (enabled neqb veqb m s inputs lazy) as [|x [|y r]]; [destruct M| |reflexivity].
      destruct M as [->|[]]. destruct M' as [->|[]]. contradiction.
  Qed.
  (** So a result is always a transition of the machine. *)
  Theorem reaction_sound m s inputs t o : wf (mealy_config veqb m) (m_graph m) -> NoDup (map fst inputs) ->
    reaction neqb veqb m s inputs false = Ok (t, o) ->
    mealy_step m s (inputs, o) t /\
    forall t' x, mealy_step m s x t' -> same_items (fst x) inputs -> t' = t /\ same_items (snd x) o.
  Proof.
    intros W ND H. rewrite reaction_eq in H.
    assert (K : forall e, In e (enabled neqb veqb m s inputs false) <-> matches m false s inputs e) by (intro; apply matches_enabled; auto).
    destruct (enabled neqb veqb m s inputs false) as [|e [|y r]]; [destruct (out_edges _ _ _); discriminate| |discriminate].
    injection H as <- <-. destruct (proj1 (K e) (or_introl eq_refl)) as [I [A B]]. split.
    - exists e. cbn [fst snd]. repeat (split; [assumption|reflexivity|]). split; [exact I|]. split; [exact A|]. split; [reflexivity|].
      split; [exact B|apply project_restricts].
    - intros t' [i o'] [e' [I' [A' [B' [C' D']]]]] S. cbn [fst snd] in *.
      assert (M : matches m false s inputs e').
      { split; [exact I'|]. split; [exact A'|]. eapply restricts_same; [apply same_items_refl|exact S|exact C']. }
      apply K in M. destruct M as [->|[]]. split; [auto|]. eapply restricts_fun; [exact D'|apply project_restricts].
  Qed.

  (** ** Runs *)
  Inductive mrun m : N -> list io -> list N -> Prop :=
  | mrun_nil s : mrun m s [] []
  | mrun_cons s x t w l : mealy_step m s x t -> mrun m t w l -> mrun m s (x :: w) (t :: l).
  (** The values of port [k] along the word, in the inputs or in the outputs. *)
  Definition ins_of (w : list io) (k : string) : list (option V) := map (fun x => lookup k (fst x)) w.
  Definition outs_of (w : list io) (k : string) : list (option V) := map (fun x => lookup k (snd x)) w.

  Lemma at_time_spec i (ls : list (string * list V)) a : NoDup (map fst ls) -> at_time i ls = Ok a ->
    map fst a = map fst ls /\ (forall k l, In (k, l) ls -> exists v, nth_error l i = Some v /\ lookup k a = Some v) /\
    forall k v, lookup k a = Some v -> exists l, In (k, l) ls /\ nth_error l i = Some v.
  Proof.
    intros ND H. unfold at_time in H. apply mapr_Forall2 in H.
    assert (F : Forall2 (fun kl kv => fst kv = fst kl /\ nth_error (snd kl) i = Some (snd kv)) ls a).
    { eapply Forall2_impl; [|exact H]. intros [k l] [k' v] E. cbn [fst snd] in *.
      destruct (nth_error l i) as [v'|] eqn:X; [|discriminate]. cbn in E. injection E as <- <-. auto. }
    clear H. assert (E : map fst a = map fst ls).
    { clear ND. induction F as [|x y l l' [A _] _ IH]; cbn [map]; [reflexivity|]. congruence. }
    assert (NA : NoDup (map fst a)) by (rewrite E; exact ND).
    split; [exact E|]. split.
    - intros k l I. clear ND. induction F as [|x y p q [A B] F IH]; [destruct I|]. destruct y as [k' v]. cbn [fst snd] in *.
      destruct I as [->|I]; cbn [fst snd] in *.
      + exists v. split; [exact B|]. subst. cbn [lookup]. rewrite String.eqb_refl. reflexivity.
      + injection E as E1 E2. cbn [map fst] in NA. inversion NA as [|? ? NI ND2]; subst. destruct (IH E2 ND2 I) as [v' [X Y]]. exists v'. split; [exact X|].
        cbn [lookup]. destruct (String.eqb_spec k (fst x)) as [Z|Z]; [|exact Y]. exfalso. apply NI. rewrite <- Z.
        apply lookup_name. eauto.
    - intros k v L. apply lookup_In in L. clear ND NA E. induction F as [|x y p q [A B] F IH]; [destruct L|].
      destruct L as [->|L]; cbn [fst snd] in *.
      + exists (snd x). split; [left; destruct x; cbn in *; congruence|exact B].
      + destruct (IH L) as [l [X Y]]. exists l. split; [right; exact X|exact Y].
  Qed.
  Lemma append_outputs_spec (acc : list (string * list V)) o acc' : append_outputs acc o = Ok acc' ->
    Forall2 (fun a b => fst b = fst a /\ map Some (snd b) = map Some (snd a) ++ [lookup (fst a) o] /\ lookup (fst a) o <> None) acc acc'.
  Proof.
    unfold append_outputs. rewrite mapr_Forall2. intro H. eapply Forall2_impl; [|exact H].
    intros [k l] [k' l'] E. cbn [fst snd] in *. destruct (lookup k o) as [v|]; [|discriminate]. cbn in E. injection E as <- <-.
    rewrite map_app. split; [reflexivity|]. split; [reflexivity|discriminate].
  Qed.

  Lemma run_loop_sound m ls n : wf (mealy_config veqb m) (m_graph m) -> NoDup (map fst ls) ->
    forall i s sts outs sts' outs', run_loop neqb veqb m ls n i s sts outs = Ok (sts', outs') ->
    exists w l, sts' = sts ++ l /\ mrun m s w l /\ List.length w = n /\
      (forall j x, nth_error w j = Some x -> at_time (i + j) ls = Ok (fst x)) /\
      Forall2 (fun a b => fst b = fst a /\ map Some (snd b) = map Some (snd a) ++ outs_of w (fst a)) outs outs' /\
      (forall w' l', mrun m s w' l' -> Forall2 (fun x y => same_items (fst x) (fst y)) w w' ->
         l' = l /\ Forall2 (fun x y => same_items (snd x) (snd y)) w w').
  Proof.
    intros W ND. induction n as [|n IH]; intros i s sts outs sts' outs' H; cbn [run_loop] in H.
    - injection H as <- <-. exists [], []. rewrite app_nil_r. split; [reflexivity|]. split; [constructor|]. split; [reflexivity|].
      split; [intros [|j] x E; discriminate|]. split.
      + clear. induction outs; constructor; auto. rewrite app_nil_r. auto.
      + intros w' l' R F. inversion F; subst. inversion R; subst. auto.
    - apply bind_Ok in H. destruct H as [a [A H]]. apply bind_Ok in H. destruct H as [[t o] [R H]]. cbn [fst snd] in H.
      apply bind_Ok in H. destruct H as [outs1 [O H]].
      assert (NA : NoDup (map fst a)) by (rewrite (proj1 (at_time_spec _ _ _ ND A)); exact ND).
      apply reaction_sound in R; [|exact W|exact NA]. destruct R as [R U].
      apply IH in H. destruct H as [w [l [-> [M [Lw [T [F Un]]]]]]].
      exists ((a, o) :: w), (t :: l). split; [rewrite <- app_assoc; reflexivity|]. split; [econstructor; eauto|].
      split; [cbn; congruence|]. split; [|split].
      + intros [|j] x E; cbn in E.
        * injection E as <-. rewrite Nat.add_0_r. exact A.
        * rewrite Nat.add_succ_r. apply T, E.
      + apply append_outputs_spec in O. clear - O F. revert outs' F. induction O as [|x y p q [E1 [E2 _]] O IH]; intros outs' F.
        * inversion F. constructor.
        * inversion F as [|? z ? r [F1 F2] F3]; subst. constructor; [|apply IH, F3]. split; [congruence|].
          rewrite F2, E2, E1, <- app_assoc. reflexivity.
      + intros w' l' R' S. inversion S as [|? y ? ys S1 S2]; subst. inversion R' as [|? ? t' ? ? R1 R2]; subst.
        cbn [fst] in S1. destruct (U t' y R1 (same_items_sym _ _ S1)) as [-> Sy].
        destruct (Un _ _ R2 S2) as [-> Fy]. split; [reflexivity|]. constructor; [apply same_items_sym, Sy|exact Fy].
  Qed.

  (** The dictionary of lists has equally long lists, one for each input port. *)
  Definition sequences m (seqs : list (string * option (list V))) (n : nat) : Prop :=
    (forall k, In k (map fst (m_in m)) -> In k (map fst seqs)) /\
    (forall k o, In (k, o) seqs -> exists l, o = Some l /\ List.length l = n).
  Definition starts m (from : option N) (s : N) : Prop :=
    match from with Some s' => s = s' | None => exists r, g_init (m_graph m) = s :: r end.

  Lemma guided_parts m from seqs r : guided_run neqb veqb m from seqs = Ok r <->
    exists n ls s, sequences m seqs n /\ seqs = map (fun kl => (fst kl, Some (snd kl))) ls /\ ls <> [] /\ starts m from s /\
      run_loop neqb veqb m ls n O s [] (map (fun k => (k, [])) (map fst (m_out m))) = Ok r.
  Proof.
    unfold guided_run.
    assert (P1 : existsb (fun k => negb (mem k (names seqs))) (names (m_in m)) = false <->
                 (forall k, In k (map fst (m_in m)) -> In k (map fst seqs))).
    { split.
      - intros E k I. destruct (mem k (names seqs)) eqn:M; [apply mem_In, M|].
        enough (existsb (fun k => negb (mem k (names seqs))) (names (m_in m)) = true) by congruence.
        apply existsb_exists. exists k. rewrite M. split; [exact I|reflexivity].
      - intro H. destruct (existsb _ _) eqn:E; [|reflexivity]. apply existsb_exists in E. destruct E as [k [I E]].
        apply H in I. apply mem_In in I. unfold names in E. rewrite I in E. discriminate. }
    destruct (existsb _ _).
    { split; [discriminate|]. intros [n [ls [s [[Q _] _]]]]. apply P1 in Q. discriminate. }
    assert (P2 : forall ls, mapr (fun kv => do l <- of_opt "TypeError" (snd kv); Ok (fst kv, l)) seqs = Ok ls <->
                 seqs = map (fun kl : string * list V => (fst kl, Some (snd kl))) ls).
    { clear P1. intro ls. rewrite mapr_Forall2. split.
      - intro F. induction F as [|[k o] [k' l] p q E _ IH]; cbn [map]; [reflexivity|]. rewrite IH. f_equal.
        cbn [fst snd] in *. destruct o; cbn in E; [|discriminate]. injection E as <- <-. reflexivity.
      - intros ->. clear. induction ls as [|[k l] r IH]; cbn [map]; constructor; auto. }
    rewrite bind_Ok. split.
    - intros [ls [E H]]. apply P2 in E. destruct ls as [|[k0 l0] rest]; [cbn in H; destruct from; [discriminate|destruct (g_init _); discriminate]|].
      cbn [map snd] in H. set (n := List.length l0) in *. destruct (forallb (Nat.eqb n) _) eqn:FB; cbn [negb] in H; [|discriminate].
      apply bind_Ok in H. destruct H as [s [St H]]. cbn [bind] in H.
      exists n, ((k0, l0) :: rest), s. split; [|split; [exact E|split; [discriminate|split; [|exact H]]]].
      + split; [apply P1; reflexivity|]. intros k o I. rewrite E in I. apply in_map_iff in I. destruct I as [[k' l] [[= <- <-] I]].
        exists l. split; [reflexivity|]. destruct I as [[= <- <-]|I]; [reflexivity|].
        rewrite forallb_forall in FB. symmetry. apply Nat.eqb_eq, FB. apply (in_map (fun kv => List.length (snd kv))) in I. exact I.
      + destruct from; cbn [starts]; [congruence|]. destruct (g_init (m_graph m)) as [|s' r']; [discriminate|]. injection St as <-. eauto.
    - intros [n [ls [s [[Q1 Q2] [E [Ne [St H]]]]]]]. exists ls. split; [apply P2, E|].
      assert (L : forall k l, In (k, l) ls -> List.length l = n).
      { intros k l I. destruct (Q2 k (Some l)) as [l' [[= <-] Z]]; [|exact Z]. rewrite E. apply (in_map (fun kl => (fst kl, Some (snd kl)))) in I. exact I. }
      destruct ls as [|[k0 l0] rest]; [contradiction|]. cbn [map snd].
      rewrite (L k0 l0 (or_introl eq_refl)).
      assert (FB : forallb (Nat.eqb n) (map (fun kv : string * list V => List.length (snd kv)) rest) = true).
      { apply forallb_forall. intros x I. apply in_map_iff in I. destruct I as [[k l] [<- I]]. apply Nat.eqb_eq. symmetry. apply (L k l). right. exact I. }
      rewrite FB. cbn [negb].
      assert (St' : match from with Some s => Ok s | None => match g_init (m_graph m) with s :: _ => Ok s | [] => Err "StopIteration" end end = Ok s).
      { destruct from; cbn [starts] in St; [congruence|]. destruct St as [r' ->]. reflexivity. }
      rewrite St'. cbn [bind]. exact H.
  Qed.

  (** [guided_run] returns the run on the given inputs, and that is the only one. *)
  Theorem guided_run_sound m from seqs sts outs : wf (mealy_config veqb m) (m_graph m) -> NoDup (map fst seqs) ->
    guided_run neqb veqb m from seqs = Ok (sts, outs) ->
    exists s w, starts m from s /\ mrun m s w sts /\
      (forall k l, In (k, Some l) seqs -> ins_of w k = map Some l) /\
      map fst outs = map fst (m_out m) /\ (forall k l, In (k, l) outs -> outs_of w k = map Some l) /\
      (forall w' sts', mrun m s w' sts' -> Forall2 (fun x y => same_items (fst x) (fst y)) w w' ->
         sts' = sts /\ Forall2 (fun x y => same_items (snd x) (snd y)) w w').
  Proof.
    intros W ND H. apply guided_parts in H. destruct H as [n [ls [s [[Q1 Q2] [E [Ne [St H]]]]]]].
    assert (ND' : NoDup (map fst ls)).
    { rewrite E, map_map in ND. cbn [fst] in ND. exact ND. }
    apply run_loop_sound in H; [|exact W|exact ND']. destruct H as [w [l [Es [M [Lw [T [F U]]]]]]]. cbn [app] in Es. subst l.
    exists s, w. split; [exact St|]. split; [exact M|]. split; [|split; [|split; [|exact U]]].
    - intros k l I. destruct (Q2 _ _ I) as [l' [[= <-] L]].
      assert (J : In (k, l) ls).
      { rewrite E in I. apply in_map_iff in I. destruct I as [[k' l'] [[= <- <-] I]]. exact I. }
      apply nth_error_ext. intro j. unfold ins_of. rewrite !nth_error_map.
      destruct (nth_error w j) as [x|] eqn:X.
      + pose proof (T j x X) as A. cbn in A. destruct (at_time_spec _ _ _ ND' A) as [_ [B _]]. destruct (B k l J) as [v [Y Z]].
        rewrite Y. etransitivity; [exact (f_equal (option_map (fun x : io => lookup k (fst x))) X)|]. cbn [option_map]. f_equal. exact Z.
      + etransitivity; [exact (f_equal (option_map (fun x : io => lookup k (fst x))) X)|].
        apply nth_error_None in X. rewrite (proj2 (nth_error_None l j)) by lia. reflexivity.
    - clear - F. revert outs F. induction (map fst (m_out m)) as [|k r IH]; intros outs F; inversion F as [|? [k' l] ? o' [A _] F']; subst; cbn [map]; [reflexivity|].
      cbn [fst] in *. f_equal; [exact A|]. apply IH, F'.
    - intros k l I. clear - F I. revert outs F I. induction (map fst (m_out m)) as [|k0 r IH]; intros outs F I;
        inversion F as [|? [k' l'] ? o' [A B] F']; subst; [destruct I|]. cbn [fst snd map app] in *. destruct I as [[= <- <-]|I].
      + subst. auto.
      + eapply IH; eauto.
  Qed.

  (** On a deterministic machine that gives every output at every transition, every run is
      found. *)
  Definition deterministic m : Prop := forall e e' i, In e (g_edges (m_graph m)) -> In e' (g_edges (m_graph m)) ->
    e_src e = e_src e' -> restricts (map fst (m_in m)) (e_attr e) i -> restricts (map fst (m_in m)) (e_attr e') i -> e = e'.
  Definition outputs_given m : Prop := forall e k, In e (g_edges (m_graph m)) -> In k (map fst (m_out m)) -> lookup k (e_attr e) <> None.

  Lemma run_loop_complete m ls : wf (mealy_config veqb m) (m_graph m) -> NoDup (map fst ls) -> deterministic m -> outputs_given m ->
    forall w l s i sts outs, mrun m s w l ->
    (forall j x, nth_error w j = Some x -> exists a, at_time (i + j) ls = Ok a /\ same_items a (fst x)) ->
    (forall k, In k (map fst outs) -> In k (map fst (m_out m))) ->
    exists outs', run_loop neqb veqb m ls (List.length w) i s sts outs = Ok (sts ++ l, outs').
  Proof.
    intros W ND D O. induction w as [|x w IH]; intros l s i sts outs M T K.
    - inversion M; subst. cbn. rewrite app_nil_r. eauto.
    - inversion M as [|? ? t ? l' S M']; subst. cbn [List.length run_loop]. destruct (T 0 x eq_refl) as [a [A Sa]]. rewrite Nat.add_0_r in A.
      rewrite A. cbn [bind].
      assert (NA : NoDup (map fst a)) by (rewrite (proj1 (at_time_spec _ _ _ ND A)); exact ND).
      destruct S as [e [I [E1 [E2 [R1 R2]]]]].
      assert (Ra : restricts (map fst (m_in m)) (e_attr e) a) by (eapply restricts_same; [apply same_items_refl|apply same_items_sym, Sa|exact R1]).
      destruct (reaction_unique m false s a e W NA) as [o [Re Ro]].
      { split; [exact I|]. split; [exact E1|]. exact Ra. }
      { intros e' [I' [E' R']]. apply (D e' e a); auto. congruence. }
      rewrite Re. cbn [bind fst snd].
      assert (AO : exists outs1, append_outputs outs o = Ok outs1 /\ map fst outs1 = map fst outs).
      { clear - O Ro I K. induction outs as [|[k l] r IH]; [exists []; split; reflexivity|].
        destruct IH as [o1 [A B]]. { intros k' J. apply K. right. exact J. }
        assert (Z : exists v, lookup k o = Some v).
        { destruct (lookup k (e_attr e)) as [v|] eqn:L; [|exfalso; apply (O e k I); [apply K; left; reflexivity|exact L]].
          exists v. apply Ro. split; [apply K; left; reflexivity|exact L]. }
        destruct Z as [v Z]. exists ((k, l ++ [v]) :: o1). unfold append_outputs in *. cbn [mapr fst snd]. rewrite Z. cbn [of_opt bind].
        rewrite A. cbn. rewrite B. auto. }
      destruct AO as [outs1 [AO AK]]. rewrite AO. cbn [bind]. rewrite E2.
      destruct (IH l' t (S i) (sts ++ [t]) outs1 M') as [outs' H].
      { intros j y Y. destruct (T (S j) y Y) as [b B]. exists b. rewrite Nat.add_succ_r in B. exact B. }
      { intros k J. rewrite AK in J. auto. }
      exists outs'. rewrite H, <- app_assoc. reflexivity.
  Qed.
  Theorem guided_run_complete m from seqs s w sts : wf (mealy_config veqb m) (m_graph m) -> NoDup (map fst seqs) ->
    deterministic m -> outputs_given m -> seqs <> [] -> starts m from s -> mrun m s w sts ->
    sequences m seqs (List.length w) ->
    (forall k l, In (k, Some l) seqs -> ins_of w k = map Some l) ->
    (forall k x, In x w -> lookup k (fst x) <> None -> In k (map fst seqs)) ->
    exists outs, guided_run neqb veqb m from seqs = Ok (sts, outs).
  Proof.
    intros W ND D O Ne St M Q Ins Ks.
    assert (LS : exists ls, seqs = map (fun kl => (fst kl, Some (snd kl))) ls).
    { destruct Q as [_ Q]. clear - Q. induction seqs as [|[k o] r IH]; [exists []; reflexivity|].
      destruct IH as [ls ->]. { intros k' o' I. apply (Q k' o'). right. exact I. }
      destruct (Q k o (or_introl eq_refl)) as [l [-> _]]. exists ((k, l) :: ls). reflexivity. }
    destruct LS as [ls E]. assert (ND' : NoDup (map fst ls)) by (rewrite E, map_map in ND; exact ND).
    assert (IL : forall k l, In (k, l) ls -> In (k, Some l) seqs).
    { intros k l I. rewrite E. apply (in_map (fun kl => (fst kl, Some (snd kl)))) in I. exact I. }
    destruct (run_loop_complete m ls W ND' D O w sts s 0 [] (map (fun k => (k, [])) (map fst (m_out m))) M) as [outs H].
    - intros j x X. cbn [plus].
      assert (A : exists a, at_time j ls = Ok a).
      { assert (Lj : forall k l, In (k, l) ls -> nth_error l j <> None).
        { intros k l I. destruct Q as [_ Q]. destruct (Q k (Some l) (IL k l I)) as [l' [[= <-] L]].
          apply nth_error_Some. rewrite L. apply nth_error_Some. congruence. }
        clear - Lj. unfold at_time. induction ls as [|[k l] r IH]; [exists []; reflexivity|].
        destruct IH as [a A]. { intros k' l' I. apply (Lj k' l'). right. exact I. }
        destruct (nth_error l j) as [v|] eqn:L; [|exfalso; exact (Lj k l (or_introl eq_refl) L)].
        exists ((k, v) :: a). cbn [mapr fst snd]. rewrite L. cbn [of_opt bind]. rewrite A. reflexivity. }
      destruct A as [a A]. exists a. split; [exact A|]. destruct (at_time_spec _ _ _ ND' A) as [B1 [B2 B3]].
      intro k. destruct (lookup k a) as [v|] eqn:L.
      + destruct (B3 k v L) as [l [I Y]]. pose proof (Ins k l (IL k l I)) as Z. apply (f_equal (fun q => nth_error q j)) in Z.
        unfold ins_of in Z. rewrite !nth_error_map, Y in Z.
        pose proof (eq_trans (eq_sym (f_equal (option_map (fun x : io => lookup k (fst x))) X)) Z) as Z'. cbn in Z'. congruence.
      + destruct (lookup k (fst x)) as [v|] eqn:Lx; [|reflexivity]. exfalso. apply lookup_None in L. apply L. rewrite B1.
        assert (J : In k (map fst seqs)) by (apply (Ks k x); [eapply nth_error_In; eauto|congruence]).
        rewrite E, map_map in J. exact J.
    - intros k I. rewrite map_map in I. cbn [fst] in I. rewrite map_id in I. exact I.
    - exists outs. apply guided_parts. exists (List.length w), ls, s. split; [exact Q|]. split; [exact E|]. split; [|split; [exact St|exact H]].
      intros ->. apply Ne. exact E.
  Qed.
End C36.
Print Assumptions reaction_unique.
Print Assumptions reaction_raises.
Print Assumptions reaction_sound.
Print Assumptions guided_run_sound.
Print Assumptions guided_run_complete.

(** A two-state machine that answers [a] with [y], remembering the last input. *)
Definition ex_ports : list (string * port nat) := [("a", PSet [0; 1])].
Definition ex_outs : list (string * port nat) := [("y", PSet [0; 1; 2])].
Definition ex_machine : machine nat nat := Machine [] ex_ports ex_outs
  (Graph [(0, []); (1, [])]
     [Edge 0 0 0 [("a", 0); ("y", 0)]; Edge 0 1 0 [("a", 1); ("y", 1)];
      Edge 1 0 0 [("a", 0); ("y", 1)]; Edge 1 1 0 [("a", 1); ("y", 2)]] [0]).
Example ex_machine_wf : wf (mealy_config Nat.eqb ex_machine) (m_graph ex_machine).
Proof.
  split; cbn; try (repeat constructor; cbn; intuition discriminate).
  - intros e [<-|[<-|[<-|[<-|[]]]]]; cbn; auto.
  - intros n a [[= <- <-]|[[= <- <-]|[]]]; split; constructor.
  - intros e [<-|[<-|[<-|[<-|[]]]]]; cbn; split; repeat constructor; cbn; intuition discriminate.
Qed.
Example ex_machine_run :
  guided_run Nat.eqb Nat.eqb ex_machine None [("a", Some [1; 1; 0; 1])] = Ok ([1; 1; 0; 1], [("y", [1; 2; 1; 1])]).
Proof. reflexivity. Qed.
Example ex_machine_deterministic : deterministic ex_machine.
Proof.
  intros e e' i I I' S R R'. pose proof (restricts_fun _ _ _ _ (project_restricts (e_attr e) ["a"]) R) as A.
  pose proof (restricts_fun _ _ _ _ (project_restricts (e_attr e') ["a"]) R') as B. specialize (A "a"). specialize (B "a").
  rewrite <- B in A. cbn in I, I'.
  destruct I as [<-|[<-|[<-|[<-|[]]]]]; destruct I' as [<-|[<-|[<-|[<-|[]]]]]; cbn in S, A; try discriminate; reflexivity.
Qed.
Example ex_machine_lazy : reaction Nat.eqb Nat.eqb ex_machine 0 [] true = Err "ValueError: must be input-deterministic".
Proof. reflexivity. Qed.
