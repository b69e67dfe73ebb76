(** C69, continued: from the answers of solvers to machines. *)
From Coq Require Import List String Bool ZArith Arith Lia.
From Verif Require Import M_Dict L_Dict M_Graph M_Machine S_Run L_Machine M_Strategy S_Strategy T_Strategy.
From Verif Require Import M_Base M_Ast M_Lexer M_Parser M_Spec S_LTL S_Gr1 S_Form S_Syntax S_Tree S_Python M_Form M_Tree L_Lexer L_Gr1 L_Form L_Encode T_Encode.
From Verif Require Import M_Gr1c S_Gr1c T_Gr1c M_Synth S_Synth M_Synthesize S_Synthesize L_Synthesize T_Synthesize T_Synthesize2 M_Solvers S_Solvers T_Solvers.
Import ListNotations.
Open Scope string_scope.
Open Scope list_scope.
Open Scope nat_scope.

(** ** Encoding the trace of a run *)
Lemma index_nth v : forall l k, index_of v l = Some k -> nth_error l k = Some v.
Proof.
  induction l as [|x l IH]; intros k H; cbn in H; [discriminate|]. destruct (v =? x)%string eqn:E.
  - injection H as <-. apply String.eqb_eq in E. subst. reflexivity.
  - destruct (index_of v l) as [j|]; [|discriminate]. injection H as <-. cbn. auto.
Qed.
Lemma nth_index v : forall l k, NoDup l -> nth_error l k = Some v -> index_of v l = Some k.
Proof.
  induction l as [|x l IH]; intros k N H; [destruct k; discriminate|]. inversion N as [|? ? N1 N2]; subst. cbn. destruct k as [|k]; cbn in H.
  - injection H as ->. rewrite String.eqb_refl. reflexivity.
  - destruct (v =? x)%string eqn:E; [apply String.eqb_eq in E; subst; apply nth_error_In in H; contradiction|]. rewrite (IH k); auto.
Qed.

Section Coded.
  Variable g : grspec.
  Hypothesis GD : good_domains g.
  Hypothesis Once : declared_once (env_vars g) (sys_vars g).
  Definition coded (s : trace) : trace := fun i x =>
    match spec_enums g x, s i x with
    | Some l, VS v => match index_of v l with Some k => VZ (Z.of_nat k) | None => s i x end
    | _, _ => s i x
    end.
  Lemma enums_declared x : spec_enums g x = match sys_or_env g x with Some (DEnum l) => Some l | _ => None end.
  Proof. unfold spec_enums, sys_or_env. rewrite !find_lookup. destruct (lookup x (sys_vars g)) as [[]|]; cbn; auto. destruct (lookup x (env_vars g)) as [[]|]; auto. Qed.
  Lemma types_declared x : spec_types g x = option_map dom_ty (sys_or_env g x).
  Proof. unfold spec_types, sys_or_env. rewrite !find_lookup. destruct (lookup x (sys_vars g)) as [[]|]; cbn; auto. destruct (lookup x (env_vars g)) as [[]|]; auto. Qed.

  (** The values at the nodes of a run and those in its trace. *)
  Lemma run_values d wi w s i x dm : wi = w i -> S_Strategy.shows (env_vars g) d (fst wi) -> S_Strategy.shows (sys_vars g) d (snd wi) ->
    trace_of (env_vars g) (sys_vars g) w s -> sys_or_env g x = Some dm ->
    exists z v, lookup x d = Some z /\ stands dm z v /\ reads dm v (s i x).
  Proof.
    intros -> S1 S2 Tr H. unfold sys_or_env in H. destruct (lookup x (sys_vars g)) as [d0|] eqn:L.
    - injection H as <-. destruct (proj2 (Tr i x d0) L) as (v & Lv & R). apply S2 in Lv. destruct Lv as (dm & z & Ld & Lz & St).
      rewrite L in Ld. injection Ld as <-. eauto.
    - destruct (proj1 (Tr i x dm) H) as (v & Lv & R). apply S1 in Lv. destruct Lv as (dm' & z & Ld & Lz & St).
      rewrite H in Ld. injection Ld as <-. eauto.
  Qed.
  Lemma coded_value s i x dm z v : sys_or_env g x = Some dm -> stands dm z v -> reads dm v (s i x) ->
    coded s i x = value_at (omega_dom dm) z.
  Proof.
    intros H St R. unfold coded. pose proof (enums_declared x) as E. rewrite H in E. destruct dm as [|p q|l]; rewrite E.
    - cbn in St. subst v. exact R.
    - cbn in St. subst v. exact R.
    - destruct St as (k & a & -> & Hk & ->). cbn in R. rewrite R. destruct GD as (_ & _ & Nd). rewrite (nth_index a l k (Nd x l E) Hk). reflexivity.
  Qed.
  Lemma coded_encoded s : (forall i x dm, sys_or_env g x = Some dm -> exists z v, stands dm z v /\ reads dm v (s i x)) -> encoded (spec_enums g) s (coded s).
  Proof.
    intros H i x. destruct (spec_enums g x) as [l|] eqn:E; [|unfold coded; rewrite E; reflexivity].
    pose proof E as E'. rewrite enums_declared in E'. destruct (sys_or_env g x) as [[|p q|l']|] eqn:D; try discriminate. injection E' as ->.
    destruct (H i x _ D) as (z & v & (k & a & -> & Hk & ->) & R). exists a, k. split; [exact R|]. split; [exact Hk|].
    rewrite (coded_value s i x (DEnum l) (Z.of_nat k) (VStr a) D); [reflexivity| |exact R]. exists k, a. auto.
  Qed.
  Lemma run_respects (s : trace) : (forall i x dm, sys_or_env g x = Some dm -> exists z v, stands dm z v /\ reads dm v (s i x)) ->
    forall i, respects (spec_types g) (s i).
  Proof.
    intros H i x k E. rewrite types_declared in E. destruct (sys_or_env g x) as [dm|] eqn:D; [|discriminate]. injection E as <-.
    destruct (H i x dm D) as (z & v & St & R). destruct dm as [|p q|l], v; cbn in R |- *; try contradiction; eauto.
  Qed.
End Coded.

(** ** omega *)
Section Omega.
  Context {N : Type} (solve : automaton -> option (@ograph N)) (is_false : automaton -> string -> bool) (isinit : attrs Z -> res bool).

  (** If the answers of omega meet the automaton, then what is returned meets the
      specification, and has the form that the rest of the program needs. *)
  Theorem omega_solves : forall g A,
    omega_synthesize solve is_false g = Ok (Some A) ->
    (forall a h, solve a = Some h -> omega_answer a h) ->
    good_domains g -> declared_once (env_vars g) (sys_vars g) ->
    (forall x t, In x (clauses g) -> parse x = Some t -> typed (spec_enums g) t) ->
    strategy_form (env_vars g) (sys_vars g) A /\ wins isinit g A.
  Proof.
    intros g A H Sol GD Once T. unfold omega_synthesize in H. apply bind_Ok in H. destruct H as (a & Ha & H).
    destruct (is_false a _); [discriminate|]. destruct (solve a) as [h|] eqn:Hs; [|discriminate]. apply Ok_inj in H. injection H as <-.
    destruct (Sol a h Hs) as [F1 F2 F3 F4 F5 F6]. destruct (to_automaton_inv g a Ha) as (m & _ & V & _).
    assert (LV : forall x, lookup x (a_vars a) = option_map omega_dom (sys_or_env g x)).
    { intro x. rewrite V, lookup_map_snd, lookup_dupdate by apply Once. unfold sys_or_env. destruct (lookup x (sys_vars g)); reflexivity. }
    assert (Nodes : forall u d, In (u, d) (st_nodes (state_annotated h a)) -> exists d0, In (u, d0) (og_nodes h) /\
        d = filter (fun kv => mem (fst kv) (map fst (a_vars a))) d0).
    { intros u d I. apply in_map_iff in I. destruct I as ([u0 d0] & [= <- <-] & I). eauto. }
    assert (Mem : forall x, mem x (map fst (a_vars a)) = true <-> exists r, lookup x (a_vars a) = Some r).
    { intro x. unfold mem. rewrite existsb_exists. split.
      - intros (y & I & E). apply String.eqb_eq in E. subst y. destruct (lookup x (a_vars a)) eqn:L; [eauto|]. apply lookup_none_iff in L. contradiction.
      - intros [r L]. apply lookup_in, (in_map fst) in L. exists x. split; [exact L|apply String.eqb_refl]. }
    split; [constructor|].
    - cbn [st_nodes state_annotated]. rewrite map_map. cbn [fst]. exact F1.
    - exact F2.
    - cbn [st_nodes st_edges state_annotated]. rewrite map_map. cbn [fst]. exact F3.
    - intros u d I. destruct (Nodes u d I) as (d0 & I0 & ->). specialize (F4 u d0 I0). clear - F4.
      induction d0 as [|[k z] d0 IH]; cbn [filter map fst] in *; [constructor|]. inversion F4 as [|? ? N1 N2]; subst.
      destruct (mem k _); [cbn [map fst]; constructor; auto|auto]. intro I. apply N1. apply in_map_iff in I. destruct I as (kv & <- & I).
      apply filter_In in I. apply in_map, I.
    - intros u d u' d' k I I' K. destruct (Nodes u d I) as (d0 & I0 & ->). destruct (Nodes u' d' I') as (d0' & I0' & ->).
      apply in_map_iff in K. destruct K as ([k0 z0] & E & K). cbn [fst] in E. subst k0. apply filter_In in K. destruct K as [_ K]. cbn [fst] in K.
      pose proof K as M. apply Mem in K. destruct K as [r L]. destruct (F5 u' d0' k r I0' L) as (z & Lz & _). apply in_map_iff. exists (k, z). split; [reflexivity|].
      apply filter_In. split; [apply lookup_in, Lz|exact M].
    - intros u d k z l I Lz D. destruct (Nodes u d I) as (d0 & I0 & ->). rewrite (lookup_filter_key (fun x => mem x (map fst (a_vars a)))) in Lz.
      destruct (mem k (map fst (a_vars a))) eqn:M; [|discriminate].
      assert (D' : sys_or_env g k = Some (DEnum l)).
      { unfold sys_or_env. destruct D as [D|D]; [|rewrite D; reflexivity]. destruct (lookup k (sys_vars g)) eqn:L; [|exact D].
        exfalso. apply lookup_in, (in_map fst) in L. apply lookup_in, (in_map fst) in D. apply (do_roles _ _ Once k D L). }
      assert (L := LV k). rewrite D' in L. cbn [option_map omega_dom] in L. destruct (F5 u d0 k _ I0 L) as (z' & Lz' & R). rewrite Lz in Lz'. injection Lz' as <-. cbn in R. lia.
    - intros P Q HP HQ w s (u & U0 & Ue & Un) Tr Sat.
      assert (Rv : forall i, exists d0, In (u i, d0) (og_nodes h) /\ forall x dm, sys_or_env g x = Some dm ->
          exists z v, lookup x d0 = Some z /\ stands dm z v /\ reads dm v (s i x)).
      { intro i. destruct (Un i) as (d & I & S1 & S2). destruct (Nodes _ d I) as (d0 & I0 & ->). exists d0. split; [exact I0|]. intros x dm D.
        destruct (run_values g _ (w i) w s i x dm eq_refl S1 S2 Tr D) as (z & v & Lz & St & R). exists z, v. split; [|auto].
        rewrite (lookup_filter_key (fun x => mem x (map fst (a_vars a)))) in Lz. destruct (mem x _); [exact Lz|discriminate]. }
      assert (Rs : forall i x dm, sys_or_env g x = Some dm -> exists z v, stands dm z v /\ reads dm v (s i x)).
      { intros i x dm D. destruct (Rv i) as (d0 & _ & K). destruct (K x dm D) as (z & v & _ & K'). eauto. }
      destruct (automaton_meaning g a P Q Ha GD T HP HQ s (coded g s) (coded_encoded g GD s Rs)) as (_ & M1 & M2).
      apply M2. apply (F6 u); [exact U0|exact Ue| |apply M1, Sat].
      intro i. destruct (Rv i) as (d0 & I0 & K). exists d0. split; [exact I0|]. intros x r L. rewrite LV in L.
      destruct (sys_or_env g x) as [dm|] eqn:D; [|discriminate]. injection L as <-. destruct (K x dm D) as (z & v & Lz & St & R).
      exists z. split; [exact Lz|]. apply (coded_value g GD s i x dm z v D St R).
  Qed.

  (** The two calls agree on a specification whose action is not the constant false. *)
  Theorem omega_agrees : forall g, match to_automaton g with
    | Err e => omega_synthesize solve is_false g = Err e /\ omega_realizable solve g = Err e
    | Ok a => is_false a (a_action_sys a) = false ->
        (omega_realizable solve g = Ok true <-> exists A, omega_synthesize solve is_false g = Ok (Some A)) /\
        (omega_realizable solve g = Ok false <-> omega_synthesize solve is_false g = Ok None)
    end.
  Proof.
    intro g. unfold omega_synthesize, omega_realizable. destruct (to_automaton g) as [a|e]; [|split; reflexivity]. cbn [bind]. intros ->.
    destruct (solve a) as [h|]; split; split; intro H; try reflexivity; try discriminate; eauto. destruct H as [A H]. discriminate.
  Qed.
End Omega.
Print Assumptions omega_solves.
Print Assumptions omega_agrees.

(** ** Reading the answer of gr1c *)
Lemma lookup_dupdate_last {A} x z : forall (l : list (string * A)) d, lookup x (dupdate d l) = Some z <->
  (exists k, nth_error l k = Some (x, z) /\ forall k' z', k < k' -> nth_error l k' <> Some (x, z')) \/
  (~ In x (map fst l) /\ lookup x d = Some z).
Proof.
  unfold dupdate. induction l as [|[y v] l IH]; intro d; cbn [fold_left map fst snd].
  - split; [intro H; right; auto|]. intros [(k & K & _)|[_ H]]; [destruct k; discriminate|exact H].
  - rewrite IH, lookup_dset. split.
    + intros [(k & K & L)|[I H]]; [left; exists (S k); split; [exact K|intros [|k'] z' J; [lia|apply L; lia]]|].
      destruct (x =? y)%string eqn:E.
      * injection H as ->. apply String.eqb_eq in E. subst y. left. exists 0. split; [reflexivity|]. intros [|k'] z' J; [lia|]. cbn. intro K. apply nth_error_In in K. apply (in_map fst) in K. contradiction.
      * right. split; [|exact H]. apply String.eqb_neq in E. intros [J|J]; [congruence|contradiction].
    + intros [([|k] & K & L)|[I H]].
      * cbn in K. injection K as -> ->. rewrite String.eqb_refl. right. split; [|reflexivity]. intro I. apply in_map_iff in I. destruct I as ([x' z'] & E & I). cbn in E. subst x'.
        apply In_nth_error in I. destruct I as [k' I]. apply (L (S k') z'); [lia|exact I].
      * left. exists k. split; [exact K|]. intros k' z' J. apply (L (S k') z'). lia.
      * right. split; [intro J; apply I; right; exact J|]. destruct (x =? y)%string eqn:E; [|exact H]. apply String.eqb_eq in E. subst. exfalso. apply I. left. reflexivity.
Qed.
Lemma pair_values_ok : forall names st l, pair_values names st = Ok l ->
  List.length names <= List.length st /\ forall k x z, nth_error l k = Some (x, z) <-> nth_error names k = Some x /\ nth_error st k = Some z.
Proof.
  induction names as [|x names IH]; intros st l H; cbn in H.
  - apply Ok_inj in H. subst. split; [cbn; lia|]. intros k x z. destruct k; cbn; split; intro K; try discriminate; destruct K; discriminate.
  - destruct st as [|z st]; [discriminate|]. apply bind_Ok in H. destruct H as (l' & H & E). apply Ok_inj in E. subst l. destruct (IH _ _ H) as [I1 I2].
    split; [cbn; lia|]. intros [|k] y v; cbn; [|apply I2]. split; [intros [= <- <-]; auto|intros [[= <-] [= <-]]; auto].
Qed.
Lemma pair_values_exists : forall names st, List.length names <= List.length st -> exists l, pair_values names st = Ok l.
Proof.
  induction names as [|x names IH]; intros st H; cbn; [eauto|]. destruct st as [|z st]; [cbn in H; lia|].
  destruct (IH st) as [l ->]; [cbn in H; lia|]. cbn [bind]. eauto.
Qed.
Lemma load_node_ok names nd r : load_node names nd = Ok r -> fst (fst r) = fst nd /\ j_initial (snd nd) = Some (snd r) /\
  List.length names <= List.length (j_state (snd nd)) /\ NoDup (map fst (snd (fst r))) /\
  forall x z, lookup x (snd (fst r)) = Some z <-> exists k, nth_error names k = Some x /\ nth_error (j_state (snd nd)) k = Some z /\
    forall k', k < k' -> nth_error names k' <> Some x.
Proof.
  intro H. unfold load_node in H. apply bind_Ok in H. destruct H as (l & Hl & H). destruct (j_initial (snd nd)) as [b|]; [|discriminate]. cbn in H. apply Ok_inj in H. subst r.
  destruct (pair_values_ok _ _ _ Hl) as [L K]. cbn [fst snd]. split; [reflexivity|]. split; [reflexivity|]. split; [exact L|]. split; [apply dupdate_nodup; constructor|].
  intros x z. rewrite lookup_dupdate_last. split.
  - intros [(k & H & M)|[_ H]]; [|discriminate]. apply K in H. destruct H as [H1 H2]. exists k. split; [exact H1|]. split; [exact H2|]. intros k' J E.
    destruct (nth_error (j_state (snd nd)) k') as [z'|] eqn:Z; [apply (M k' z' J), K; auto|].
    apply nth_error_None in Z. assert (k' < List.length names) by (apply nth_error_Some; congruence). lia.
  - intros (k & H1 & H2 & M). left. exists k. split; [apply K; auto|]. intros k' z' J E. apply K in E. apply (M k' J), E.
Qed.
Lemma join_edges e : forall es l, In e (fold_left join_edge es l) <-> In e l \/ In e es.
Proof.
  induction es as [|f es IH]; intro l; cbn [fold_left]; [cbn; tauto|]. rewrite IH. unfold join_edge.
  destruct (existsb _ l) eqn:E; [|rewrite in_app_iff; cbn; tauto].
  apply existsb_exists in E. destruct E as ([a b] & I & E). destruct f as [c d]. cbn in E. apply andb_prop in E. destruct E as [E1 E2]. apply String.eqb_eq in E1, E2. subst. cbn. intuition (subst; auto).
Qed.
Lemma join_edges_nodup : forall es l, NoDup l -> NoDup (fold_left join_edge es l).
Proof.
  induction es as [|f es IH]; intros l N; cbn [fold_left]; [exact N|]. apply IH. unfold join_edge. destruct (existsb _ l) eqn:E; [exact N|].
  apply NoDup_Add with (a := f) (l := l). { replace (l ++ [f]) with (l ++ f :: []) by reflexivity. rewrite <- (app_nil_r l) at 1. apply Add_app. }
  split; [exact N|]. intro I. rewrite <- not_true_iff_false in E. apply E. apply existsb_exists. exists f. split; [exact I|]. rewrite !String.eqb_refl. reflexivity.
Qed.

(** Which documents are read, *)
Theorem load_json_accepts : forall j, (exists A, load_aut_json j = Ok A) <->
  j_version j = 1%Z /\ forall u n, In (u, n) (j_nodes j) ->
    List.length (j_env j) + List.length (j_sys j) <= List.length (j_state n) /\ j_initial n <> None.
Proof.
  intro j. unfold load_aut_json. destruct (j_version j =? 1)%Z eqn:V; cbn [negb].
  - apply Z.eqb_eq in V. split.
    + intros [A H]. split; [exact V|]. apply bind_Ok in H. destruct H as (ns & H & _). intros u n I.
      assert (X : exists r, load_node (j_env j ++ j_sys j) (u, n) = Ok r).
      { clear - H I. revert ns H. induction (j_nodes j) as [|nd l IH]; intros ns H; [destruct I|]. cbn [mapr] in H. apply bind_Ok in H. destruct H as (r & Hr & H).
        apply bind_Ok in H. destruct H as (rs & Hrs & _). destruct I as [->|I]; eauto. }
      destruct X as [r X]. apply load_node_ok in X. cbn [snd] in X. rewrite app_length in X. destruct X as (_ & X & L & _). split; [exact L|congruence].
    + intros [_ H]. destruct (mapr_exists (load_node (j_env j ++ j_sys j)) (j_nodes j)) as [ns E]; [|rewrite E; cbn [bind]; cbv zeta; eauto].
      intros [u n] I. destruct (H u n I) as [L J]. unfold load_node. destruct (pair_values_exists (j_env j ++ j_sys j) (j_state n)) as [l E]; [rewrite app_length; exact L|].
      cbn [snd]. rewrite E. cbn [bind]. destruct (j_initial n); [cbn; eauto|contradiction].
  - apply Z.eqb_neq in V. split; [intros [A H]; discriminate|intros [H _]; contradiction].
Qed.
(** and what is read: each value belongs to the symbol at its position, an edge for each
    successor, and the nodes marked as initial. *)
Theorem load_json_meaning : forall j A, load_aut_json j = Ok A ->
  (forall u, (exists n, In (u, n) (j_nodes j)) <-> exists d, In (u, d) (st_nodes A)) /\
  map fst (st_nodes A) = map fst (j_nodes j) /\
  (forall u d, In (u, d) (st_nodes A) -> NoDup (map fst d) /\ exists n, In (u, n) (j_nodes j) /\
     forall x z, lookup x d = Some z <-> exists k, nth_error (j_env j ++ j_sys j) k = Some x /\ nth_error (j_state n) k = Some z /\
       forall k', k < k' -> nth_error (j_env j ++ j_sys j) k' <> Some x) /\
  NoDup (st_edges A) /\
  (forall u v, In (u, v) (st_edges A) <-> exists n, In (u, n) (j_nodes j) /\ In v (j_trans n)) /\
  (exists l, st_init A = Some l /\ forall u, In u l <-> exists n, In (u, n) (j_nodes j) /\ j_initial n = Some true).
Proof.
  intros j A H. unfold load_aut_json in H. destruct (negb _); [discriminate|]. apply bind_Ok in H. destruct H as (ns & H & E). cbv zeta in E. apply Ok_inj in E. subst A.
  cbn [st_nodes st_edges st_init].
  assert (F : Forall2 (fun nd r => load_node (j_env j ++ j_sys j) nd = Ok r) (j_nodes j) ns).
  { clear - H. revert ns H. induction (j_nodes j) as [|nd l IH]; intros ns H; cbn [mapr] in H; [apply Ok_inj in H; subst; constructor|].
    apply bind_Ok in H. destruct H as (r & Hr & H). apply bind_Ok in H. destruct H as (rs & Hrs & H). apply Ok_inj in H. subst. constructor; auto. }
  assert (M : map fst (map fst ns) = map fst (j_nodes j)).
  { clear - F. induction F as [|nd r l rs Hr F IH]; [reflexivity|]. cbn [map]. rewrite IH. f_equal. apply load_node_ok in Hr. apply Hr. }
  split.
  { intro u. split; intros [n I].
    - apply (in_map fst) in I. cbn [fst] in I. rewrite <- M in I. apply in_map_iff in I. destruct I as ([u' d] & <- & I). cbn [fst]. eauto.
    - apply (in_map fst) in I. rewrite M in I. apply in_map_iff in I. destruct I as ([u' d] & E & I). cbn [fst] in E. subst. eauto. }
  split; [exact M|]. split; [|split; [|split]].
  - intros u d I. apply in_map_iff in I. destruct I as (r & E & I). clear - F E I.
    induction F as [|nd r' l rs Hr F IH]; [destruct I|]. destruct I as [->|I].
    + apply load_node_ok in Hr. rewrite E in Hr. cbn [fst snd] in Hr. destruct Hr as (E1 & _ & _ & N & K). split; [exact N|]. destruct nd as [u' n]. cbn in E1, K. subst u'.
      exists n. split; [left; reflexivity|exact K].
    + destruct (IH I) as (N & n & J & K). split; [exact N|]. exists n. split; [right; exact J|exact K].
  - apply join_edges_nodup. constructor.
  - intros u v. rewrite join_edges. split.
    + intros [[]|I]. apply in_flat_map in I. destruct I as ([u' n] & I & J). apply in_map_iff in J. destruct J as (v' & [= <- <-] & J). eauto.
    + intros (n & I & J). right. apply in_flat_map. exists (u, n). split; [exact I|]. apply in_map_iff. eauto.
  - eexists. split; [reflexivity|]. intro u. rewrite in_map_iff. split.
    + intros (r & E & I). apply filter_In in I. destruct I as [I B]. clear - F E I B. induction F as [|nd r' l rs Hr F IH]; [destruct I|]. destruct I as [->|I].
      * apply load_node_ok in Hr. destruct Hr as (E1 & E2 & _). destruct nd as [u' n]. cbn in *. exists n. split; [left; congruence|congruence].
      * destruct (IH I) as (n & J & K). exists n. split; [right; exact J|exact K].
    + intros (n & I & B). clear - F I B. induction F as [|nd r' l rs Hr F IH]; [destruct I|]. destruct I as [->|I].
      * apply load_node_ok in Hr. destruct Hr as (E1 & E2 & _). cbn in *. exists r'. split; [exact E1|]. rewrite B in E2. injection E2 as E2. rewrite <- E2. left. reflexivity.
      * destruct (IH I) as (r & E & J). exists r. split; [exact E|]. cbn [filter]. destruct (snd r'); [right|]; exact J.
Qed.
Print Assumptions load_json_accepts.
Print Assumptions load_json_meaning.

(** ** gr1c and gr1py *)
Lemma parse_all_trees : forall l ts, parse_all l = Some ts -> ts = clause_trees l.
Proof.
  induction l as [|x l IH]; intros ts H; cbn in H |- *; [congruence|]. destruct (parse x); [|discriminate]. destruct (parse_all l); [|discriminate].
  injection H as <-. cbn. f_equal. auto.
Qed.
Lemma parts_trees g P Q : S_Gr1.env_part g = Some P -> S_Gr1.sys_part g = Some Q -> P = T_Gr1c.env_part g /\ Q = T_Gr1c.sys_part g.
Proof.
  unfold S_Gr1.env_part, S_Gr1.sys_part. intros HP HQ.
  destruct (parse_all (env_init g)) eqn:P1; [|discriminate]. destruct (parse_all (env_safety g)) eqn:P2; [|discriminate]. destruct (parse_all (env_prog g)) eqn:P3; [|discriminate].
  destruct (parse_all (sys_init g)) eqn:P4; [|discriminate]. destruct (parse_all (sys_safety g)) eqn:P5; [|discriminate]. destruct (parse_all (sys_prog g)) eqn:P6; [|discriminate].
  injection HP as <-. injection HQ as <-. unfold T_Gr1c.env_part, T_Gr1c.sys_part.
  rewrite (parse_all_trees _ _ P1), (parse_all_trees _ _ P2), (parse_all_trees _ _ P3), (parse_all_trees _ _ P4), (parse_all_trees _ _ P5), (parse_all_trees _ _ P6). auto.
Qed.
Lemma nth_unique {A} : forall (l : list A) j k x, NoDup l -> nth_error l j = Some x -> nth_error l k = Some x -> j = k.
Proof. intros l j k x N H1 H2. apply (proj1 (NoDup_nth_error l) N); [apply nth_error_Some; congruence|congruence]. Qed.

Section Gr1cSolves.
  Context (tool : string -> string -> option jdoc) (isinit : attrs Z -> res bool).

  (** If the answers of gr1c meet the documents it is given, then what is returned meets the
      specification, and has the form that the rest of the program needs. *)
  Theorem gr1c_solves : forall g A,
    gr1c_synthesize tool g = Ok (Some A) ->
    (forall o text d j, tool o text = Some j -> gr_document text = Some d -> gr1c_answer d j) ->
    good_domains g -> declared_once (env_vars g) (sys_vars g) -> named (env_vars g) -> named (sys_vars g) ->
    (forall x t, In x (clauses g) -> parse x = Some t -> step_formula (spec_types g) false t /\ typed (spec_enums g) t) ->
    strategy_form (env_vars g) (sys_vars g) A /\ wins isinit g A.
  Proof.
    intros g A H Sol GD Once NE NS T. unfold gr1c_synthesize in H. apply bind_Ok in H. destruct H as (o & _ & H). apply bind_Ok in H. destruct H as (text & Ht & H).
    destruct (tool o text) as [j|] eqn:Hj; [|discriminate]. apply bind_Ok in H. destruct H as (A' & HA & H). apply Ok_inj in H. injection H as ->.
    destruct (gr1c_document_meaning g text Ht GD NE NS T) as (d & Hd & De & Ds & M). destruct (Sol o text d j Hj Hd) as [E1 E2 F1 F2 F3 F4].
    destruct (load_json_meaning j A HA) as (J0 & J1 & J2 & J3 & J4 & (init & J5 & J6)).
    assert (V : doc_vars d = map (fun kv => (fst kv, omega_dom (snd kv))) (env_vars g ++ sys_vars g)).
    { unfold doc_vars. rewrite De, Ds, <- map_app, map_map. apply map_ext. intros [x []]; reflexivity. }
    assert (Nm : j_env j ++ j_sys j = map fst (doc_vars d)).
    { unfold doc_vars. rewrite E1, E2, map_map. cbn [fst]. rewrite map_app. reflexivity. }
    assert (Nd : NoDup (j_env j ++ j_sys j)).
    { rewrite Nm, V, map_map. cbn [fst]. rewrite map_app. destruct Once as [D1 D2 D3]. clear - D1 D2 D3.
      induction (map fst (env_vars g)) as [|x l IH]; [exact D2|]. inversion D1; subst. cbn [app]. constructor.
      - intro I. apply in_app_iff in I. destruct I as [I|I]; [contradiction|]. apply (D3 x); [left; reflexivity|exact I].
      - apply IH; auto. intros k I. apply D3. right. exact I. }
    assert (Pos : forall x dm, sys_or_env g x = Some dm -> exists k, nth_error (doc_vars d) k = Some (x, omega_dom dm)).
    { intros x dm D. apply In_nth_error. rewrite V. apply in_map_iff. exists (x, dm). split; [reflexivity|]. apply in_app_iff. unfold sys_or_env in D.
      destruct (lookup x (sys_vars g)) eqn:L; [injection D as <-; right; apply lookup_in; exact L|left; apply lookup_in; exact D]. }
    assert (At : forall k x r, nth_error (doc_vars d) k = Some (x, r) -> exists dm, sys_or_env g x = Some dm /\ r = omega_dom dm).
    { intros k x r K. apply nth_error_In in K. rewrite V in K. apply in_map_iff in K. destruct K as ([x' dm] & [= -> <-] & I). exists dm. split; [|reflexivity].
      unfold sys_or_env. apply in_app_iff in I. destruct I as [I|I].
      - destruct (lookup x (sys_vars g)) eqn:L; [exfalso; apply lookup_in, (in_map fst) in L; apply (in_map fst) in I; apply (do_roles _ _ Once x I L)|].
        destruct (lookup x (env_vars g)) as [d1|] eqn:L'; [|apply lookup_none_iff in L'; apply (in_map fst) in I; contradiction].
        f_equal. eapply nodup_unique; [apply Once|apply lookup_in; exact L'|exact I].
      - destruct (lookup x (sys_vars g)) as [d1|] eqn:L'; [|apply lookup_none_iff in L'; apply (in_map fst) in I; contradiction].
        f_equal. eapply nodup_unique; [apply (do_sys _ _ Once)|apply lookup_in; exact L'|exact I]. }
    assert (Names : forall k x, nth_error (j_env j ++ j_sys j) k = Some x <-> exists r, nth_error (doc_vars d) k = Some (x, r)).
    { intros k x. rewrite Nm. clear. revert k. induction (doc_vars d) as [|[y r] l IH]; intro k; [destruct k; cbn; (split; [intro K; discriminate|intros [r K]; discriminate])|].
      destruct k as [|k]; cbn; [|apply IH]. split; [intros [= ->]; eauto|intros [r' [= -> _]]; reflexivity]. }
    assert (Val : forall u dd, In (u, dd) (st_nodes A) -> NoDup (map fst dd) /\ exists n, In (u, n) (j_nodes j) /\ forall x z,
        lookup x dd = Some z <-> exists k r, nth_error (doc_vars d) k = Some (x, r) /\ nth_error (j_state n) k = Some z).
    { intros u dd I. destruct (J2 u dd I) as (N & n & In_ & K). split; [exact N|]. exists n. split; [exact In_|]. intros x z. rewrite K. split.
      - intros (k & K1 & K2 & _). apply Names in K1. destruct K1 as [r K1]. eauto.
      - intros (k & r & K1 & K2). exists k. assert (X : nth_error (j_env j ++ j_sys j) k = Some x) by (apply Names; eauto).
        split; [exact X|]. split; [exact K2|]. intros k' Lt X'. pose proof (nth_unique _ _ _ _ Nd X X'). lia. }
    split; [constructor|].
    - rewrite J1. exact F1.
    - exact J3.
    - intros u v I. apply J4 in I. destruct I as (n & I & K). rewrite J1. split; [apply (in_map fst) in I; exact I|apply (F2 u n v I K)].
    - intros u dd I. apply (Val u dd I).
    - intros u dd u' dd' k I I' K. destruct (Val u dd I) as (_ & n & _ & L). destruct (Val u' dd' I') as (_ & n' & In' & L').
      apply in_map_iff in K. destruct K as ([k0 z] & E & K). cbn [fst] in E. subst k0.
      destruct (lookup k dd) as [z0|] eqn:Lk; [|apply lookup_none_iff in Lk; apply (in_map fst) in K; contradiction].
      apply L in Lk. destruct Lk as (i & r & Ki & _). destruct (F3 u' n' i k r In' Ki) as (z' & Z & _).
      assert (Q : lookup k dd' = Some z') by (apply L'; eauto). apply lookup_in, (in_map fst) in Q. exact Q.
    - intros u dd k z l I Lz D. destruct (Val u dd I) as (_ & n & In_ & L). apply L in Lz. destruct Lz as (i & r & Ki & Kz).
      destruct (At i k r Ki) as (dm & D' & ->). destruct (F3 u n i k _ In_ Ki) as (z' & Z & R). rewrite Kz in Z. injection Z as <-.
      assert (dm = DEnum l). { unfold sys_or_env in D'. destruct D as [D|D].
        - destruct (lookup k (sys_vars g)) eqn:X; [exfalso; apply lookup_in, (in_map fst) in X; apply lookup_in, (in_map fst) in D; apply (do_roles _ _ Once k D X)|congruence].
        - rewrite D in D'. congruence. }
      subst dm. cbn in R. lia.
    - intros P Q HP HQ w s (u & U0 & Ue & Un) Tr Sat. destruct (parts_trees g P Q HP HQ) as [-> ->].
      assert (Rv : forall i, exists n, In (u i, n) (j_nodes j) /\ forall x dm, sys_or_env g x = Some dm ->
          exists k z v, nth_error (doc_vars d) k = Some (x, omega_dom dm) /\ nth_error (j_state n) k = Some z /\ stands dm z v /\ reads dm v (s i x)).
      { intro i. destruct (Un i) as (dd & I & S1 & S2). destruct (Val _ dd I) as (_ & n & In_ & L). exists n. split; [exact In_|]. intros x dm D.
        destruct (run_values g dd (w i) w s i x dm eq_refl S1 S2 Tr D) as (z & v & Lz & St & R). apply L in Lz. destruct Lz as (k & r & K1 & K2).
        destruct (At k x r K1) as (dm' & D' & ->). rewrite D in D'. injection D' as <-. exists k, z, v. auto. }
      assert (Rs : forall i x dm, sys_or_env g x = Some dm -> exists z v, stands dm z v /\ reads dm v (s i x)).
      { intros i x dm D. destruct (Rv i) as (n & _ & K). destruct (K x dm D) as (k & z & v & _ & _ & K'). eauto. }
      destruct (M s (coded g s) (run_respects g s Rs) (coded_encoded g GD s Rs)) as [M1 M2]. apply M2.
      apply (F4 u); [| |apply M1; exact Sat].
      + unfold starts_at in U0. rewrite J5 in U0. apply J6, U0.
      + intro i. destruct (Rv i) as (n & In_ & K). exists n. split; [exact In_|]. split.
        * specialize (Ue i). apply J4 in Ue. destruct Ue as (n' & In' & Tn). rewrite (nodup_unique _ _ _ _ F1 In_ In'). exact Tn.
        * intros k x r z K1 K2. destruct (At k x r K1) as (dm & D & ->). destruct (K x dm D) as (k' & z' & v & K1' & K2' & St & R).
          assert (k = k'). { apply (nth_unique (j_env j ++ j_sys j) k k' x Nd); apply Names; eauto. } subst k'. rewrite K2 in K2'. injection K2' as <-.
          apply (coded_value g GD s i x dm z v D St R).
  Qed.
End Gr1cSolves.
Print Assumptions gr1c_solves.
