(** Proofs: substitution of formulas for Boolean variables. *)
From Coq Require Import List String Bool Arith Lia.
From Verif Require Import M_Base M_Ast M_Parser M_Spec M_Form M_Tree.
From Verif Require Import S_LTL S_Gr1 S_Form S_Syntax S_Tree.
From Verif Require Import L_LTL L_Gr1 L_Form L_Split L_RoundTrip L_ParseWf L_Tree.
Import ListNotations.
Open Scope string_scope.
Open Scope list_scope.

(** * Meaning *)
Lemma defines_term d s s' : defines d s s' -> forall t, (forall x, In x (vars t) -> d x = None) ->
  forall i, term_val s' i t = term_val s i t /\ subst d t = t.
Proof.
  intros D t. induction t; intros H i; cbn [vars] in H; cbn [term_val subst]; try solve [auto].
  - specialize (D i v). rewrite (H v) in * by (left; auto). rewrite D. auto.
  - destruct (IHt H (S i)) as [E1 E2], (IHt H i) as [E3 _]. rewrite E1, E2. auto.
  - destruct (IHt1 (fun x K => H x (in_or_app _ _ _ (or_introl K))) i) as [_ ->].
    destruct (IHt2 (fun x K => H x (in_or_app _ _ _ (or_intror K))) i) as [_ ->]. auto.
  - destruct (IHt1 (fun x K => H x (in_or_app _ _ _ (or_introl K))) i) as [_ ->].
    destruct (IHt2 (fun x K => H x (in_or_app _ _ _ (or_intror K))) i) as [_ ->]. auto.
  - destruct (IHt1 (fun x K => H x (in_or_app _ _ _ (or_introl K))) i) as [-> ->].
    destruct (IHt2 (fun x K => H x (in_or_app _ _ _ (or_intror K))) i) as [-> ->]. auto.
  - destruct (IHt1 (fun x K => H x (in_or_app _ _ _ (or_introl K))) i) as [_ ->].
    destruct (IHt2 (fun x K => H x (in_or_app _ _ _ (or_intror (in_or_app _ _ _ (or_introl K))))) i) as [_ ->].
    destruct (IHt3 (fun x K => H x (in_or_app _ _ _ (or_intror (in_or_app _ _ _ (or_intror K))))) i) as [_ ->]. auto.
Qed.

Lemma until_iff (p p' q q' : nat -> Prop) i : (forall j, p j <-> p' j) -> (forall j, q j <-> q' j) ->
  (until p q i <-> until p' q' i).
Proof.
  intros P Q. unfold until. split; intros (k & K1 & K2 & K3); exists k; (split; [auto|]); (split; [apply Q; auto|]);
    intros j J; apply P; auto.
Qed.
Lemma always_iff (p p' : nat -> Prop) i : (forall j, p j <-> p' j) -> (always p i <-> always p' i).
Proof. intros P. unfold always. split; intros H j J; apply P; auto. Qed.
Lemma eventually_iff (p p' : nat -> Prop) i : (forall j, p j <-> p' j) -> (eventually p i <-> eventually p' i).
Proof. intros P. unfold eventually. split; intros (j & J & K); exists j; (split; [auto|apply P; auto]). Qed.

Lemma subst_meaning_ok d s s' : defines d s s' -> forall t, bool_only d t ->
  forall i, holds s' i t <-> holds s i (subst d t).
Proof.
  intros D t. induction t; intros B i; unfold bool_only in B; cbn [term_vars] in B; cbn [holds subst]; try tauto.
  - specialize (D i v). destruct (d v) as [f|]; [exact D|]. cbn [holds]. rewrite D. tauto.
  - destruct (uconn_of op) as [[]|]; [rewrite (IHt B i); tauto|apply (IHt B)|apply always_iff; auto|apply eventually_iff; auto|tauto].
  - assert (B1 : bool_only d t1) by (intros x K; apply B, in_or_app; auto).
    assert (B2 : bool_only d t2) by (intros x K; apply B, in_or_app; auto).
    specialize (IHt1 B1). specialize (IHt2 B2).
    destruct (conn_of op) as [[]|]; try (rewrite (IHt1 i), (IHt2 i); tauto); try tauto.
    + apply until_iff; auto.
    + rewrite (until_iff _ _ _ _ i IHt1 IHt2), (always_iff _ _ i IHt1). tauto.
    + split; intros H j J; destruct (H j J) as [K|(k & K1 & K2)];
        [left; apply IHt2; auto|right; exists k; split; [auto|apply IHt1; auto]
        |left; apply IHt2; auto|right; exists k; split; [auto|apply IHt1; auto]].
  - destruct (defines_term d s s' D t1 (fun x K => B x (in_or_app _ _ _ (or_introl K))) i) as [-> ->].
    destruct (defines_term d s s' D t2 (fun x K => B x (in_or_app _ _ _ (or_intror K))) i) as [-> ->]. tauto.
  - rewrite (IHt1 (fun x K => B x (in_or_app _ _ _ (or_introl K))) i).
    rewrite (IHt2 (fun x K => B x (in_or_app _ _ _ (or_intror (in_or_app _ _ _ (or_introl K))))) i).
    rewrite (IHt3 (fun x K => B x (in_or_app _ _ _ (or_intror (in_or_app _ _ _ (or_intror K))))) i). tauto.
Qed.

(** * Fresh objects *)
Lemma alloc_ok t : forall n r m, alloc n t = (r, m) ->
  erase r = t /\ n < m /\ NoDup (robjs r) /\ forall o, In o (robjs r) -> n <= fst o < m.
Proof.
  assert (NC : forall n h l, (forall o : obj, In o l -> S n <= fst o) -> NoDup l -> NoDup ((n, h) :: l)).
  { intros n h l H N. constructor; [|auto]. intro K. specialize (H _ K). cbn in H. lia. }
  assert (DJ : forall a b k : nat, forall l1 l2 : list obj, (forall o, In o l1 -> a <= fst o < b) -> (forall o, In o l2 -> b <= fst o < k) ->
    NoDup l1 -> NoDup l2 -> NoDup (l1 ++ l2)).
  { intros a b k l1 l2 H1 H2 N1 N2. apply NoDup_app_iff. split; [auto|]. split; [auto|].
    intros x K1 K2. specialize (H1 x K1). specialize (H2 x K2). lia. }
  induction t; intros n rr m H; cbn [alloc] in H.
  1-4: inversion H; subst; cbn [erase term_node robjs robj]; split; [auto|]; split; [lia|];
       split; [constructor; [intros []|constructor]|]; intros o [<-|[]]; cbn; lia.
  - destruct (alloc (S n) t) as [x k] eqn:E. inversion H; subst. destruct (IHt _ _ _ E) as (A1 & A2 & A3 & A4).
    cbn [erase robjs robj]. rewrite A1. split; [auto|]. split; [lia|]. split; [apply NC; auto; intros o Ho; apply A4; auto|].
    intros o [<-|Ho]; [cbn; lia|]. specialize (A4 o Ho). lia.
  - destruct (alloc (S n) t1) as [x k] eqn:E. destruct (alloc k t2) as [y j] eqn:F. inversion H; subst.
    destruct (IHt1 _ _ _ E) as (A1 & A2 & A3 & A4). destruct (IHt2 _ _ _ F) as (B1 & B2 & B3 & B4).
    cbn [erase robjs robj bin_node]. rewrite A1, B1. split; [auto|]. split; [lia|].
    assert (R : forall o, In o (robjs x ++ robjs y) -> S n <= fst o < m).
    { intros o Ho. apply in_app_iff in Ho. destruct Ho as [Ho|Ho]; [specialize (A4 o Ho)|specialize (B4 o Ho)]; lia. }
    split; [apply NC; [intros o Ho; apply R; auto|eapply DJ; eauto]|].
    intros o [<-|Ho]; [cbn; lia|]. specialize (R o Ho). lia.
  - destruct (alloc (S n) t1) as [x k] eqn:E. destruct (alloc k t2) as [y j] eqn:F. inversion H; subst.
    destruct (IHt1 _ _ _ E) as (A1 & A2 & A3 & A4). destruct (IHt2 _ _ _ F) as (B1 & B2 & B3 & B4).
    cbn [erase robjs robj bin_node]. rewrite A1, B1. split; [auto|]. split; [lia|].
    assert (R : forall o, In o (robjs x ++ robjs y) -> S n <= fst o < m).
    { intros o Ho. apply in_app_iff in Ho. destruct Ho as [Ho|Ho]; [specialize (A4 o Ho)|specialize (B4 o Ho)]; lia. }
    split; [apply NC; [intros o Ho; apply R; auto|eapply DJ; eauto]|].
    intros o [<-|Ho]; [cbn; lia|]. specialize (R o Ho). lia.
  - destruct (alloc (S n) t1) as [x k] eqn:E. destruct (alloc k t2) as [y j] eqn:F. inversion H; subst.
    destruct (IHt1 _ _ _ E) as (A1 & A2 & A3 & A4). destruct (IHt2 _ _ _ F) as (B1 & B2 & B3 & B4).
    cbn [erase robjs robj bin_node]. rewrite A1, B1. split; [auto|]. split; [lia|].
    assert (R : forall o, In o (robjs x ++ robjs y) -> S n <= fst o < m).
    { intros o Ho. apply in_app_iff in Ho. destruct Ho as [Ho|Ho]; [specialize (A4 o Ho)|specialize (B4 o Ho)]; lia. }
    split; [apply NC; [intros o Ho; apply R; auto|eapply DJ; eauto]|].
    intros o [<-|Ho]; [cbn; lia|]. specialize (R o Ho). lia.
  - destruct (alloc (S n) t1) as [x k] eqn:E. destruct (alloc k t2) as [y j] eqn:F. destruct (alloc j t3) as [z i] eqn:G. inversion H; subst.
    destruct (IHt1 _ _ _ E) as (A1 & A2 & A3 & A4). destruct (IHt2 _ _ _ F) as (B1 & B2 & B3 & B4).
    destruct (IHt3 _ _ _ G) as (C1 & C2 & C3 & C4).
    cbn [erase robjs robj bin_node]. rewrite A1, B1, C1. split; [auto|]. split; [lia|].
    assert (R1 : forall o, In o (robjs y ++ robjs z) -> k <= fst o < m).
    { intros o Ho. apply in_app_iff in Ho. destruct Ho as [Ho|Ho]; [specialize (B4 o Ho)|specialize (C4 o Ho)]; lia. }
    assert (R : forall o, In o (robjs x ++ robjs y ++ robjs z) -> S n <= fst o < m).
    { intros o Ho. apply in_app_iff in Ho. destruct Ho as [Ho|Ho]; [specialize (A4 o Ho)|specialize (R1 o Ho)]; lia. }
    split; [apply NC; [intros o Ho; apply R; auto|eapply DJ; eauto]|].
    intros o [<-|Ho]; [cbn; lia|]. specialize (R o Ho). lia.
Qed.

(** * The graph rewriting is substitution *)
Lemma erase_rsubst m t : erase (rsubst m t) = subst (fun x => option_map erase (lookup x m)) (erase t).
Proof.
  induction t as [i [v|v|v|v]|i op a IH|i k op a IHa b IHb|i op a IHa b IHb c IHc]; cbn [rsubst erase term_node subst]; auto.
  - destruct (lookup v m); reflexivity.
  - rewrite IH. reflexivity.
  - rewrite IHa, IHb. destruct k; reflexivity.
  - rewrite IHa, IHb, IHc. reflexivity.
Qed.

Lemma sub_bool_tree t m : NoDup (robjs t) ->
  (forall v u, lookup v m = Some u -> NoDup (robjs u)) ->
  (forall v u, lookup v m = Some u -> forall o, In o (robjs t) -> In o (robjs u) -> False) ->
  (forall v u w x, lookup v m = Some u -> lookup w m = Some x -> v <> w ->
    forall o, In o (robjs u) -> In o (robjs x) -> False) ->
  exists g', sub_bool_with_subtree (from_recursive_ast t) (map (fun p => (fst p, from_recursive_ast (snd p))) m) = Ok g' /\
    to_recursive_ast (tree_fuel t m) g' = Ok (subst (fun x => option_map erase (lookup x m)) (erase t)).
Proof.
  intros H1 H2 H3 H4. destruct (sub_bool_ok t m H1 H2 H3 H4) as (g' & G1 & G2 & G3).
  exists g'. split; [exact G1|]. unfold to_recursive_ast. rewrite G2, <- erase_rsubst. apply to_rec_ok; [exact G3|].
  pose proof (rdepth_rsubst m t). pose proof (rdepth_le t). unfold tree_fuel. lia.
Qed.

Lemma subtrees_ok vs : forall m n l k, subtrees vs n m = Ok (l, k) ->
  n <= k /\
  (forall v, option_map erase (lookup v l) = defs_of m v) /\
  (forall v u, lookup v l = Some u -> NoDup (robjs u) /\ forall o, In o (robjs u) -> n <= fst o < k) /\
  (forall v u w x, lookup v l = Some u -> lookup w l = Some x -> v <> w ->
    forall o, In o (robjs u) -> In o (robjs x) -> False).
Proof.
  induction m as [|[b f] m IH]; intros n l k H; cbn [subtrees] in H.
  - inversion H; subst. cbn. repeat split; auto; discriminate.
  - destruct (match lookup b vs with Some d => _ | None => _ end); [|discriminate]. cbn [bind] in H.
    destruct (parse f) as [t|] eqn:P; [|discriminate]. cbn [of_opt bind] in H.
    destruct (alloc n t) as [x j] eqn:A. destruct (subtrees vs j m) as [[l' k']|] eqn:S; [|discriminate].
    cbn [bind fst snd] in H. inversion H; subst. destruct (alloc_ok _ _ _ _ A) as (A1 & A2 & A3 & A4).
    destruct (IH _ _ _ S) as (B1 & B2 & B3 & B4). split; [lia|]. split; [|split].
    + intro v. unfold defs_of in *. cbn [lookup find fst]. rewrite String.eqb_sym. destruct (b =? v)%string; [|apply B2].
      cbn [option_map snd]. rewrite A1, P. reflexivity.
    + intros v u. cbn [lookup]. destruct (v =? b)%string; intro L.
      * inversion L; subst. split; [auto|]. intros o Ho. specialize (A4 o Ho). lia.
      * destruct (B3 v u L) as [C1 C2]. split; [auto|]. intros o Ho. specialize (C2 o Ho). lia.
    + intros v u w y. cbn [lookup]. destruct (v =? b)%string eqn:E1, (w =? b)%string eqn:E2; intros L1 L2 NE.
      * apply String.eqb_eq in E1, E2. congruence.
      * inversion L1; subst. intros o O1 O2. apply A4 in O1. destruct (B3 w y L2) as [_ C]. specialize (C o O2). lia.
      * inversion L2; subst. intros o O1 O2. apply A4 in O2. destruct (B3 v u L1) as [_ C]. specialize (C o O1). lia.
      * eapply B4; eauto.
Qed.

Lemma subst_ext d d' t : (forall x, d x = d' x) -> subst d t = subst d' t.
Proof. intro H. induction t; cbn [subst]; rewrite ?H; congruence. Qed.

Lemma replace_clause_eq g m l n x t : subtrees (vardoms g) 0 m = Ok (l, n) -> ast g x = Ok t ->
  replace_clause g l n x = of_opt "KeyError" (flatten (subst (defs_of m) t)).
Proof.
  intros S A. destruct (subtrees_ok _ _ _ _ _ S) as (B1 & B2 & B3 & B4).
  unfold replace_clause. rewrite A. cbn [bind]. destruct (alloc n t) as [r k] eqn:R.
  destruct (alloc_ok _ _ _ _ R) as (C1 & C2 & C3 & C4).
  destruct (sub_bool_tree r l C3) as (g' & G1 & G2).
  - intros v u L. apply (B3 v u L).
  - intros v u L o O1 O2. apply C4 in O1. destruct (B3 v u L) as [_ K]. specialize (K o O2). lia.
  - exact B4.
  - rewrite G1. cbn [bind]. rewrite G2. cbn [bind]. rewrite C1.
    rewrite (subst_ext _ (defs_of m)); [reflexivity|auto].
Qed.

(** * The whole specification *)
Lemma wf_subst d t : wf_node t = true -> (forall x f, d x = Some f -> wf_node f = true) ->
  bool_only d t -> wf_node (subst d t) = true.
Proof.
  intros W D. induction t; intro B; unfold bool_only in B; cbn [term_vars] in B; cbn [subst wf_node] in *; auto.
  - destruct (d v) eqn:E; eauto.
  - apply andb_true_iff in W. destruct W as [-> W]. rewrite IHt; auto.
  - apply andb_true_iff in W. destruct W as [W W2]. apply andb_true_iff in W. destruct W as [-> W1].
    rewrite IHt1, IHt2; auto; intros x K; apply B, in_or_app; auto.
  - assert (K : forall t, (forall x, In x (vars t) -> d x = None) -> subst d t = t).
    { clear. intro t. induction t; cbn [vars subst]; intro H; auto.
      - rewrite H by (left; auto). auto.
      - rewrite IHt; auto.
      - rewrite IHt1, IHt2; auto; intros; apply H, in_or_app; auto.
      - rewrite IHt1, IHt2; auto; intros; apply H, in_or_app; auto.
      - rewrite IHt1, IHt2; auto; intros; apply H, in_or_app; auto.
      - rewrite IHt1, IHt2, IHt3; auto; intros; apply H, in_or_app; auto; right; apply in_or_app; auto. }
    rewrite !K; auto; intros x H; apply B, in_or_app; auto.
  - assert (K : forall t, (forall x, In x (vars t) -> d x = None) -> subst d t = t).
    { clear. intro t. induction t; cbn [vars subst]; intro H; auto.
      - rewrite H by (left; auto). auto.
      - rewrite IHt; auto.
      - rewrite IHt1, IHt2; auto; intros; apply H, in_or_app; auto.
      - rewrite IHt1, IHt2; auto; intros; apply H, in_or_app; auto.
      - rewrite IHt1, IHt2; auto; intros; apply H, in_or_app; auto.
      - rewrite IHt1, IHt2, IHt3; auto; intros; apply H, in_or_app; auto; right; apply in_or_app; auto. }
    rewrite !K; auto; intros x H; apply B, in_or_app; auto.
  - apply andb_true_iff in W. destruct W as [W W3]. apply andb_true_iff in W. destruct W as [W W2].
    apply andb_true_iff in W. destruct W as [-> W1].
    rewrite IHt1, IHt2, IHt3; auto; intros x K; apply B, in_or_app; auto; right; apply in_or_app; auto.
Qed.
Lemma no_str_subst d t : no_str t = true -> (forall x f, d x = Some f -> no_str f = true) ->
  no_str (subst d t) = true.
Proof.
  intros W D. induction t; cbn [subst no_str] in *; rewrite ?andb_true_iff in *; intuition.
  destruct (d v) eqn:E; eauto.
Qed.
Lemma plain_subst d t : plain_ops t = true -> (forall x f, d x = Some f -> plain_ops f = true) ->
  plain_ops (subst d t) = true.
Proof.
  intros W D. induction t; cbn [subst plain_ops] in *; rewrite ?andb_true_iff in *; intuition.
  destruct (d v) eqn:E; eauto.
Qed.

Lemma replaced_parses g m l n x t y :
  subtrees (vardoms g) 0 m = Ok (l, n) -> ast g x = Ok t -> replace_clause g l n x = Ok y ->
  parse x = Some t -> no_str t = true -> bool_only (defs_of m) t ->
  (forall v f, defs_of m v = Some f -> no_str f = true) ->
  parse y = Some (subst (defs_of m) t).
Proof.
  intros S A R P N B D. rewrite (replace_clause_eq g m l n x t S A) in R.
  destruct (flatten (subst (defs_of m) t)) as [s|] eqn:F; [|discriminate]. cbn in R. inversion R; subst.
  assert (W : forall v f, defs_of m v = Some f -> wf_node f = true).
  { intros v f H. unfold defs_of in H. destruct (find _ m) as [[b u]|]; [|discriminate]. eapply parse_wf; eauto. }
  eapply parse_flatten; eauto using no_str_subst. apply wf_subst; eauto using parse_wf.
Qed.

Lemma ast_parse g x t : ast g x = Ok t -> parse x = Some t.
Proof.
  unfold ast. destruct (mapr (parse_clause g) (clauses g)); [|discriminate]. cbn [bind]. intro H.
  apply parse_clause_ok in H. apply H.
Qed.

Lemma replace_list g m l n : subtrees (vardoms g) 0 m = Ok (l, n) ->
  (forall v f, defs_of m v = Some f -> no_str f = true) ->
  forall xs ys ts, mapr (replace_clause g l n) xs = Ok ys -> parse_all xs = Some ts ->
  (forall t, In t ts -> no_str t = true /\ bool_only (defs_of m) t) ->
  parse_all ys = Some (map (subst (defs_of m)) ts).
Proof.
  intros S D. induction xs as [|x xs IH]; intros ys ts M P K; cbn [mapr parse_all] in *.
  - inversion M; inversion P; subst. reflexivity.
  - destruct (replace_clause g l n x) as [y|] eqn:R; [|discriminate]. cbn [bind] in M.
    destruct (mapr (replace_clause g l n) xs) as [ys'|] eqn:M2; [|discriminate]. cbn [bind] in M. inversion M; subst.
    destruct (parse x) as [t|] eqn:Px; [|discriminate]. destruct (parse_all xs) as [ts'|] eqn:P2; [|discriminate].
    inversion P; subst. cbn [parse_all map].
    assert (A : ast g x = Ok t).
    { unfold replace_clause in R. destruct (ast g x) as [u|] eqn:A; [|discriminate]. pose proof (ast_parse _ _ _ A). congruence. }
    destruct (K t (or_introl eq_refl)). rewrite (replaced_parses g m l n x t y); auto.
    rewrite (IH ys' ts'); auto. intros u Hu. apply K. right; auto.
Qed.

Definition subst_part (d : string -> option node) (p : part) : part :=
  {| p_init := map (subst d) (p_init p); p_safe := map (subst d) (p_safe p); p_live := map (subst d) (p_live p) |}.
Lemma sat_subst_part d s s' p : defines d s s' -> (forall t, In t (part_formulas p) -> bool_only d t) ->
  (sat_part s (subst_part d p) <-> sat_part s' p).
Proof.
  intros D B. unfold sat_part, subst_part, part_formulas in *. cbn [p_init p_safe p_live].
  assert (H : forall t, In t (p_init p ++ p_safe p ++ p_live p) -> forall i, holds s' i t <-> holds s i (subst d t)).
  { intros t Ht i. apply subst_meaning_ok; auto. }
  split; intros (H1 & H2 & H3); (split; [|split]).
  - intros f F. apply H; [rewrite !in_app_iff; auto|]. apply H1. apply in_map; auto.
  - intros f F i. apply H; [rewrite !in_app_iff; auto|]. apply H2. apply in_map; auto.
  - intros f F i. destruct (H3 (subst d f) (in_map _ _ _ F) i) as (j & J & K). exists j. split; [auto|].
    apply H; [rewrite !in_app_iff; auto|auto].
  - intros f F. apply in_map_iff in F. destruct F as (t & <- & T). apply H; [rewrite !in_app_iff; auto|auto].
  - intros f F i. apply in_map_iff in F. destruct F as (t & <- & T). apply H; [rewrite !in_app_iff; auto|auto].
  - intros f F i. apply in_map_iff in F. destruct F as (t & <- & T). destruct (H3 t T i) as (j & J & K).
    exists j. split; [auto|]. apply H; [rewrite !in_app_iff; auto|auto].
Qed.

Lemma replace_inv g m g' : replace_dependent_vars g m = Ok g' -> exists l n,
  subtrees (vardoms g) 0 m = Ok (l, n) /\ env_vars g' = env_vars g /\ sys_vars g' = sys_vars g /\
  mapr (replace_clause g l n) (env_init g) = Ok (env_init g') /\
  mapr (replace_clause g l n) (env_safety g) = Ok (env_safety g') /\
  mapr (replace_clause g l n) (env_prog g) = Ok (env_prog g') /\
  mapr (replace_clause g l n) (sys_init g) = Ok (sys_init g') /\
  mapr (replace_clause g l n) (sys_safety g) = Ok (sys_safety g') /\
  mapr (replace_clause g l n) (sys_prog g) = Ok (sys_prog g').
Proof.
  unfold replace_dependent_vars. destruct (subtrees (vardoms g) 0 m) as [[l n]|]; [|discriminate].
  cbn [bind fst snd]. intro H. exists l, n.
  destruct (mapr _ (env_init g)); [|discriminate]. cbn [bind] in H.
  destruct (mapr _ (env_safety g)); [|discriminate]. cbn [bind] in H.
  destruct (mapr _ (env_prog g)); [|discriminate]. cbn [bind] in H.
  destruct (mapr _ (sys_init g)); [|discriminate]. cbn [bind] in H.
  destruct (mapr _ (sys_safety g)); [|discriminate]. cbn [bind] in H.
  destruct (mapr _ (sys_prog g)); [|discriminate]. cbn [bind] in H.
  apply Ok_inj in H. subst g'. cbn. repeat split; auto.
Qed.

Lemma replace_meaning_ok g m g' A G : replace_dependent_vars g m = Ok g' ->
  env_part g = Some A -> sys_part g = Some G ->
  (forall t, In t (part_formulas A ++ part_formulas G) -> no_str t = true /\ bool_only (defs_of m) t) ->
  (forall v f, defs_of m v = Some f -> no_str f = true) ->
  exists A' G', env_part g' = Some A' /\ sys_part g' = Some G' /\
    forall s s', defines (defs_of m) s s' ->
      (sat_part s A' <-> sat_part s' A) /\ (sat_part s G' <-> sat_part s' G).
Proof.
  intros R HA HG K D. apply replace_inv in R.
  destruct R as (l & n & S & _ & _ & R1 & R2 & R3 & R4 & R5 & R6).
  unfold env_part, sys_part in *.
  destruct (parse_all (env_init g)) as [ei|] eqn:E1; [|discriminate].
  destruct (parse_all (env_safety g)) as [es|] eqn:E2; [|discriminate].
  destruct (parse_all (env_prog g)) as [ep|] eqn:E3; [|discriminate].
  destruct (parse_all (sys_init g)) as [si|] eqn:E4; [|discriminate].
  destruct (parse_all (sys_safety g)) as [ss|] eqn:E5; [|discriminate].
  destruct (parse_all (sys_prog g)) as [sp|] eqn:E6; [|discriminate].
  inversion HA; inversion HG; subst. unfold part_formulas in K. cbn [p_init p_safe p_live] in K.
  rewrite (replace_list g m l n S D _ _ _ R1 E1), (replace_list g m l n S D _ _ _ R2 E2), (replace_list g m l n S D _ _ _ R3 E3),
    (replace_list g m l n S D _ _ _ R4 E4), (replace_list g m l n S D _ _ _ R5 E5), (replace_list g m l n S D _ _ _ R6 E6);
    try (intros t Ht; apply K; rewrite !in_app_iff; tauto).
  eexists. eexists. split; [reflexivity|]. split; [reflexivity|]. intros s s' Ds.
  split; [apply (sat_subst_part _ _ _ {| p_init := ei; p_safe := es; p_live := ep |})
         |apply (sat_subst_part _ _ _ {| p_init := si; p_safe := ss; p_live := sp |})]; auto;
    unfold part_formulas; cbn; intros t Ht; apply K; rewrite !in_app_iff in *; tauto.
Qed.

(** Success. *)
Lemma subtrees_total vs : forall m n,
  (forall b f, In (b, f) m -> (exists t, parse f = Some t) /\ forall d, lookup b vs = Some d -> d = DBool) ->
  exists l k, subtrees vs n m = Ok (l, k).
Proof.
  induction m as [|[b f] m IH]; intros n H; cbn [subtrees]; [eauto|].
  destruct (H b f (or_introl eq_refl)) as ((t & T) & D).
  assert (E : (match lookup b vs with Some d => if dom_eqb d DBool then Ok tt else Err "AssertionError" | None => Ok tt end) = Ok tt).
  { destruct (lookup b vs) as [d|]; [|auto]. rewrite (D d eq_refl). reflexivity. }
  rewrite E, T. cbn [bind of_opt]. destruct (alloc n t) as [x j].
  destruct (IH j) as (l & k & ->); [intros; apply H; right; auto|]. cbn [bind]. eauto.
Qed.

Lemma replace_total_ok g m :
  (forall y, In y (clauses g) -> exists t, clause_ok g y t /\ plain_ops t = true /\ bool_only (defs_of m) t) ->
  (forall b f, In (b, f) m -> (exists t, parse f = Some t /\ plain_ops t = true) /\
     forall d, lookup b (vardoms g) = Some d -> d = DBool) ->
  exists g', replace_dependent_vars g m = Ok g'.
Proof.
  intros H D. destruct (subtrees_total (vardoms g) m 0) as (l & n & S).
  { intros b f I. destruct (D b f I) as ((t & T & _) & E). eauto. }
  assert (P : forall v f, defs_of m v = Some f -> plain_ops f = true /\ wf_node f = true).
  { intros v f E. unfold defs_of in E. destruct (find _ m) as [[b u]|] eqn:F; [|discriminate].
    apply find_some in F. destruct F as [F _]. destruct (D b u F) as ((t & T & Q) & _). cbn [snd] in E.
    assert (t = f) by congruence. subst. split; [auto|]. eapply parse_wf; eauto. }
  assert (R : forall xs, (forall x, In x xs -> In x (clauses g)) -> exists ys, mapr (replace_clause g l n) xs = Ok ys).
  { intros xs I. apply mapr_all. intros x X. destruct (H x (I x X)) as (t & C & Q & B).
    rewrite (replace_clause_eq g m l n x t S).
    - assert (W : wf_node (subst (defs_of m) t) = true).
      { apply wf_subst; auto; [eapply parse_wf; apply C|]. intros; eapply P; eauto. }
      assert (PL : plain_ops (subst (defs_of m) t) = true) by (apply plain_subst; auto; intros; eapply P; eauto).
      apply (flatten_plain _ W) in PL. destruct PL as [s ->]. cbn. eauto.
    - apply ast_ok; [intros y Y; destruct (H y Y) as (u & U & _); eauto|auto|apply C]. }
  unfold replace_dependent_vars. rewrite S. cbn [bind fst snd].
  unfold clauses in R.
  destruct (R (env_init g)) as [a1 ->]; [intros; rewrite !in_app_iff; tauto|]. cbn [bind].
  destruct (R (env_safety g)) as [a2 ->]; [intros; rewrite !in_app_iff; tauto|]. cbn [bind].
  destruct (R (env_prog g)) as [a3 ->]; [intros; rewrite !in_app_iff; tauto|]. cbn [bind].
  destruct (R (sys_init g)) as [a4 ->]; [intros; rewrite !in_app_iff; tauto|]. cbn [bind].
  destruct (R (sys_safety g)) as [a5 ->]; [intros; rewrite !in_app_iff; tauto|]. cbn [bind].
  destruct (R (sys_prog g)) as [a6 ->]; [intros; rewrite !in_app_iff; tauto|]. cbn [bind]. eauto.
Qed.

(** The trace with the replaced variables redefined exists when the definitions are decidable. *)
Lemma defines_exists d s : (forall x f, d x = Some f -> step_formula f = true) -> exists s', defines d s s'.
Proof.
  intro H.
  assert (D : forall i x, { v : value | match d x with Some f => v = VB true <-> holds s i f | None => v = s i x end }).
  { intros i x. destruct (d x) as [f|] eqn:E; [|eauto].
    destruct (step_dec f (H x f E) s i) as [K|K].
    - exists (VB true). split; auto.
    - exists (VB false). split; [discriminate|]. intro; contradiction. }
  exists (fun i x => proj1_sig (D i x)). intros i x. destruct (D i x) as [v V]. exact V.
Qed.
