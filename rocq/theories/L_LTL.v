(** Facts about the trace semantics. *)
From Coq Require Import List String Ascii Bool Arith ZArith Lia.
From Verif Require Import M_Ast M_Lexer M_Parser M_Spec S_LTL S_Gr1.
Import ListNotations.
Open Scope string_scope.
Open Scope list_scope.

Lemma term_ext (s s' : trace) : forall f i,
  (forall j x, In x (vars f) -> s j x = s' j x) -> term_val s i f = term_val s' i f.
Proof.
  induction f; intros i H; cbn [term_val vars] in *; auto.
  - rewrite H; auto. left; auto.
  - destruct (op =? "X"); auto.
  - rewrite (IHf1 i), (IHf2 i); auto; intros; apply H; apply in_or_app; auto.
Qed.

Lemma holds_ext : forall f (s s' : trace) i,
  (forall j x, In x (vars f) -> s j x = s' j x) -> (holds s i f <-> holds s' i f).
Proof.
  induction f; intros s s' i H; cbn [holds vars] in *; try tauto.
  - rewrite (H i v); [tauto|left; auto].
  - destruct (uconn_of op) as [[]|]; try tauto.
    + rewrite (IHf s s' i H). tauto.
    + apply (IHf s s' (S i) H).
    + unfold always. split; intros K j Hj; apply (IHf s s' j H); auto.
    + unfold eventually. split; intros [j [Hj K]]; exists j; split; auto; apply (IHf s s' j H); auto.
  - assert (H1 : forall j, holds s j f1 <-> holds s' j f1).
    { intro j; apply IHf1; intros; apply H; apply in_or_app; auto. }
    assert (H2 : forall j, holds s j f2 <-> holds s' j f2).
    { intro j; apply IHf2; intros; apply H; apply in_or_app; auto. }
    assert (HU : until (fun j => holds s j f1) (fun j => holds s j f2) i <->
                 until (fun j => holds s' j f1) (fun j => holds s' j f2) i).
    { unfold until. split; intros (k & A & B & C); exists k; repeat split; auto;
        try (apply H2; auto); intros j Hj; apply H1; auto. }
    assert (HA : always (fun j => holds s j f1) i <-> always (fun j => holds s' j f1) i).
    { unfold always. split; intros K j Hj; apply H1; auto. }
    destruct (conn_of op) as [[]|]; try tauto; try (rewrite H1, H2; tauto).
    + split; intros K j Hj; destruct (K j Hj) as [A|[k [A B]]]; auto;
        try (left; apply H2; auto; fail); right; exists k; split; auto; apply H1; auto.
  - rewrite (term_ext s s' f1 i), (term_ext s s' f2 i);
      try (intros; apply H; apply in_or_app; auto). tauto.
  - rewrite (IHf1 s s' i), (IHf2 s s' i), (IHf3 s s' i); [tauto| | | ];
      intros; apply H; apply in_or_app; auto; right; apply in_or_app; auto.
Qed.

Lemma upd_same s a h i : upd s a h i a = VB (h i).
Proof. unfold upd. rewrite String.eqb_refl. reflexivity. Qed.
Lemma upd_other s a h i x : x <> a -> upd s a h i x = s i x.
Proof. intro H. unfold upd. apply String.eqb_neq in H. rewrite H. reflexivity. Qed.

Lemma holds_upd f s a h i : ~ In a (vars f) -> (holds (upd s a h) i f <-> holds s i f).
Proof.
  intro H. apply holds_ext. intros j x Hx. apply upd_other. intros ->. auto.
Qed.

Lemma holds_upd_var s a h i : holds (upd s a h) i (NVar a) <-> h i = true.
Proof.
  cbn [holds]. rewrite upd_same. split; congruence.
Qed.

(** Decidability of step formulas. *)
Lemma value_eq_dec (a b : value) : {a = b} + {a <> b}.
Proof.
  decide equality; [apply bool_dec|apply Z.eq_dec|apply string_dec].
Qed.

Lemma compare_dec op a b : {compare_vals op a b} + {~ compare_vals op a b}.
Proof.
  unfold compare_vals.
  destruct (op =? "="); [apply value_eq_dec|].
  destruct ((op =? "!=") || (op =? "/=")).
  { destruct (value_eq_dec a b); [right|left]; auto. }
  destruct a; try (right; tauto); destruct b; try (right; tauto).
  destruct (op =? "<"); [apply Z_lt_dec|].
  destruct ((op =? "<=") || (op =? "=<")); [apply Z_le_dec|].
  destruct (op =? ">"); [apply Z_gt_dec|].
  destruct (op =? ">="); [apply Z_ge_dec|]. right; tauto.
Qed.

Lemma uconn_G op : uconn_of op = Some UAlways -> op = "G".
Proof.
  unfold uconn_of. destruct (op =? "!") eqn:A; simpl; [discriminate|].
  destruct (op =? "~"); simpl; [discriminate|]. destruct (op =? "X"); [discriminate|].
  destruct (op =? "G") eqn:E; [intro; apply String.eqb_eq; auto|].
  destruct (op =? "F"); discriminate.
Qed.
Lemma uconn_F op : uconn_of op = Some UEventually -> op = "F".
Proof.
  unfold uconn_of. destruct (op =? "!") eqn:A; simpl; [discriminate|].
  destruct (op =? "~"); simpl; [discriminate|]. destruct (op =? "X"); [discriminate|].
  destruct (op =? "G") eqn:E; [discriminate|].
  destruct (op =? "F") eqn:E2; [intro; apply String.eqb_eq; auto|discriminate].
Qed.
Lemma conn_temporal op c : conn_of op = Some c ->
  match c with CUntil => op = "U" | CWeak => op = "W" | CRelease => op = "V" | _ => True end.
Proof.
  unfold conn_of. intro H.
  repeat match type of H with
  | (if ?b then _ else _) = _ =>
      let E := fresh "E" in destruct b eqn:E;
      [inversion H; subst; auto; apply String.eqb_eq; assumption|]
  end. discriminate.
Qed.

Lemma step_dec : forall f, step_formula f = true ->
  forall s i, {holds s i f} + {~ holds s i f}.
Proof.
  induction f; cbn [step_formula holds]; intros H s i; try (right; tauto).
  - apply value_eq_dec.
  - apply string_dec.
  - apply andb_prop in H. destruct H as [Ho Ha].
    destruct (uconn_of op) as [[]|] eqn:E.
    + destruct (IHf Ha s i); [right|left]; auto.
    + apply IHf; auto.
    + apply uconn_G in E. subst. discriminate.
    + apply uconn_F in E. subst. discriminate.
    + right; auto.
  - apply andb_prop in H. destruct H as [H Hr]. apply andb_prop in H. destruct H as [Ho Hl].
    destruct (IHf1 Hl s i), (IHf2 Hr s i);
    destruct (conn_of op) as [c|] eqn:E; try (right; tauto);
    pose proof (conn_temporal op c E) as T;
    destruct c; try (subst; discriminate); try (left; tauto); right; tauto.
  - destruct (term_val s i f1); [|right; tauto]. destruct (term_val s i f2); [|right; tauto].
    apply compare_dec.
  - apply andb_prop in H. destruct H as [H H3]. apply andb_prop in H. destruct H as [H1 H2].
    destruct (IHf1 H1 s i), (IHf2 H2 s i), (IHf3 H3 s i); (left; tauto) || (right; tauto).
Qed.

(** Formulas about the current state. *)
Lemma now_term_val : forall f, now_term f = true ->
  forall s i s' i', (forall x, s i x = s' i' x) -> term_val s i f = term_val s' i' f.
Proof.
  induction f; cbn [now_term term_val]; intros H s i s' i' E; auto.
  - rewrite E; auto.
  - destruct (op =? "X") eqn:Eo; auto. apply String.eqb_eq in Eo. subst. discriminate.
  - apply andb_prop in H. destruct H. rewrite (IHf1 H s i s' i' E), (IHf2 H0 s i s' i' E). auto.
Qed.

Lemma uconn_X op : uconn_of op = Some UNext -> op = "X".
Proof.
  unfold uconn_of. destruct ((op =? "!") || (op =? "~")); [discriminate|].
  destruct (op =? "X") eqn:E; [intro; apply String.eqb_eq; auto|].
  destruct (op =? "G"); [discriminate|]. destruct (op =? "F"); discriminate.
Qed.

Lemma now_holds : forall f, now_formula f = true ->
  forall s i s' i', (forall x, s i x = s' i' x) -> (holds s i f <-> holds s' i' f).
Proof.
  unfold now_formula.
  induction f; cbn [now_term holds]; intros H s i s' i' E; try tauto.
  - rewrite E. tauto.
  - apply andb_prop in H. destruct H as [Ho Ha].
    destruct (uconn_of op) as [[]|] eqn:Eo; try tauto.
    + rewrite (IHf Ha s i s' i' E). tauto.
    + apply uconn_X in Eo. subst. discriminate.
    + apply uconn_G in Eo. subst. discriminate.
    + apply uconn_F in Eo. subst. discriminate.
  - apply andb_prop in H. destruct H as [H Hr]. apply andb_prop in H. destruct H as [Ho Hl].
    specialize (IHf1 Hl s i s' i' E). specialize (IHf2 Hr s i s' i' E).
    destruct (conn_of op) as [c|] eqn:Eo; try tauto.
    pose proof (conn_temporal op c Eo) as T.
    destruct c; try (subst; discriminate); tauto.
  - apply andb_prop in H. destruct H as [Hl Hr].
    rewrite (now_term_val f1 Hl s i s' i' E), (now_term_val f2 Hr s i s' i' E). tauto.
  - apply andb_prop in H. destruct H as [H H3]. apply andb_prop in H. destruct H as [H1 H2].
    rewrite (IHf1 H1 s i s' i' E), (IHf2 H2 s i s' i' E), (IHf3 H3 s i s' i' E). tauto.
Qed.

Lemma now_step : forall f, now_formula f = true -> step_formula f = true.
Proof.
  unfold now_formula.
  induction f; cbn [now_term step_formula]; intro H; auto.
  - apply andb_prop in H. destruct H as [Ho Ha]. rewrite IHf by auto.
    cbn [existsb] in Ho |- *. apply negb_true_iff in Ho.
    apply orb_false_iff in Ho. destruct Ho as [_ Ho]. rewrite Ho. reflexivity.
  - apply andb_prop in H. destruct H as [H Hr]. apply andb_prop in H. destruct H as [Ho Hl].
    rewrite Ho, IHf1, IHf2; auto.
  - apply andb_prop in H. destruct H as [H H3]. apply andb_prop in H. destruct H as [H1 H2].
    rewrite IHf1, IHf2, IHf3; auto.
Qed.

(** A Boolean sequence that reflects a formula along a trace. *)
Definition reflects (s : trace) (f : node) (b : nat -> bool) : Prop :=
  forall i, b i = true <-> holds s i f.

Lemma dec_reflects s f (D : forall i, {holds s i f} + {~ holds s i f}) :
  { b | reflects s f b }.
Proof.
  exists (fun i => if D i then true else false). intro i.
  destruct (D i); split; intros; auto; try discriminate; contradiction.
Qed.
