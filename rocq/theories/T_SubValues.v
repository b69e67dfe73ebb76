(** C84: substituting values for variables in trees. *)
From Coq Require Import List String Bool Arith ZArith Lia.
From Verif Require Import M_Base M_Ast M_Parser M_Spec M_Form M_Tree.
From Verif Require Import S_LTL S_Gr1 S_Form S_Syntax S_Tree.
From Verif Require Import L_Machine.
From Verif Require Import L_LTL L_Gr1 L_Form L_Split L_RoundTrip L_ParseWf L_Tree L_Subst L_Dec L_Encode M_SubValues.
Import ListNotations.
Open Scope string_scope.
Open Scope list_scope.

(** ** Specification *)
(** The variables at the leaves, and the tree with values there *)
Fixpoint leaves (t : node) : list string :=
  match t with
  | NVar v => [v]
  | NBool _ | NNum _ | NStr _ => []
  | NUn _ a => leaves a
  | NBin _ a b | NCmp _ a b | NArith _ a b => leaves a ++ leaves b
  | NIte _ a b c => leaves a ++ leaves b ++ leaves c
  end.
Fixpoint put (f : string -> string) (t : node) : node :=
  match t with
  | NVar v => NStr (f v)
  | NBool _ | NNum _ | NStr _ => t
  | NUn op a => NUn op (put f a)
  | NBin op a b => NBin op (put f a) (put f b)
  | NCmp op a b => NCmp op (put f a) (put f b)
  | NArith op a b => NArith op (put f a) (put f b)
  | NIte op a b c => NIte op (put f a) (put f b) (put f c)
  end.
(** All variables have strings as values. *)
Definition strings_for (vals : list (string * pyval)) (f : string -> string) (t : node) : Prop := forall v, In v (leaves t) -> lookup v vals = Some (VStr (f v)).

(** ** Proofs *)
Lemma leaves_obj r v : In v (leaves (erase r)) <-> exists i, In (i, HTerm (TVar v)) (robjs r).
Proof.
  induction r as [i h|i op a IH|i k op a IHa b IHb|i op a IHa b IHb c IHc]; cbn [erase robjs robj].
  - destruct h as [x|x|x|x]; cbn; (split; [intros H|intros [j [H|[]]]]); try (destruct H; fail); try discriminate; [destruct H as [->|[]]; eauto|injection H as _ ->; auto].
  - cbn [leaves]. rewrite IH. split; intros [j H]; exists j; [right; exact H|]. destruct H as [H|H]; [discriminate|exact H].
  - assert (E : leaves (bin_node k op (erase a) (erase b)) = leaves (erase a) ++ leaves (erase b)) by (destruct k; reflexivity). rewrite E, in_app_iff, IHa, IHb. split.
    + intros [[j H]|[j H]]; exists j; right; apply in_app_iff; auto.
    + intros [j [H|H]]; [discriminate|]. apply in_app_iff in H. destruct H; eauto.
  - cbn [leaves]. rewrite !in_app_iff, IHa, IHb, IHc. split.
    + intros [[j H]|[[j H]|[j H]]]; exists j; right; rewrite !in_app_iff; auto.
    + intros [j [H|H]]; [discriminate|]. rewrite !in_app_iff in H. destruct H as [H|[H|H]]; eauto.
Qed.
Lemma map_ok vals : forall us fresh m, sub_values_map vals fresh us = Ok m ->
  (forall o o', In (o, o') m -> exists i v j s, o = (i, HTerm (TVar v)) /\ o' = (j, HTerm (TStr s)) /\ lookup v vals = Some (VStr s)) /\
  (forall i v, In (i, HTerm (TVar v)) us -> exists o', In ((i, HTerm (TVar v)), o') m).
Proof.
  induction us as [|[i h] us IH]; intros fresh m H; cbn [sub_values_map snd] in H.
  - apply Ok_inj in H. subst m. split; [intros ? ? []|intros ? ? []].
  - assert (SKIP : (forall v, h <> HTerm (TVar v)) -> sub_values_map vals fresh us = Ok m ->
      (forall o o', In (o, o') m -> exists i v j s, o = (i, HTerm (TVar v)) /\ o' = (j, HTerm (TStr s)) /\ lookup v vals = Some (VStr s)) /\
      (forall i' v, In (i', HTerm (TVar v)) ((i, h) :: us) -> exists o', In ((i', HTerm (TVar v)), o') m)).
    { intros NS H'. destruct (IH _ _ H') as [A B]. split; [exact A|]. intros i' v [E|I]; [injection E as -> ->; exfalso; exact (NS v eq_refl)|exact (B i' v I)]. }
    destruct h as [[v|v|v|v]|op|k op|op]; try (apply SKIP; [intros c; discriminate|exact H]). clear SKIP.
    apply bind_Ok in H. destruct H as (x & X & H). apply bind_Ok in H. destruct H as (t & T & H). apply bind_Ok in H. destruct H as (m' & M & H). apply Ok_inj in H. subst m.
    destruct (IH _ _ M) as [A B]. destruct (lookup v vals) as [y|] eqn:L; [|discriminate]. cbn in X. injection X as <-. destruct y as [b|z|s|]; try discriminate. cbn in T. injection T as <-. split.
    + intros o o' [E|I]; [injection E as <- <-; eauto 8|exact (A o o' I)].
    + intros i' v' [E|I]; [injection E as <- <-; eexists; left; reflexivity|]. destruct (B _ _ I) as [o' O]. exists o'. right. exact O.
Qed.
Lemma map_total vals f : forall us fresh, (forall i v, In (i, HTerm (TVar v)) us -> lookup v vals = Some (VStr (f v))) -> exists m, sub_values_map vals fresh us = Ok m.
Proof.
  induction us as [|[i h] us IH]; intros fresh H; cbn [sub_values_map snd]; [eauto|].
  destruct h as [[v|v|v|v]|op|k op|op]; try (apply IH; intros j w I; apply (H j); right; exact I).
  rewrite (H i v (or_introl eq_refl)). cbn [of_opt bind value_node]. destruct (IH (S fresh)) as [m M]; [intros j w I; apply (H j); right; exact I|]. rewrite M. cbn [bind]. eauto.
Qed.
Lemma relabel_put vals f fresh us m : sub_values_map vals fresh us = Ok m ->
  forall u, (forall o, In o (robjs u) -> In o us) -> strings_for vals f (erase u) -> erase (rrel m u) = put f (erase u).
Proof.
  intro M. destruct (map_ok _ _ _ _ M) as [A B]. induction u as [i h|i op a IH|i k op a IHa b IHb|i op a IHa b IHb c IHc]; intros I S.
  - cbn [rrel]. unfold relabel. destruct (find _ m) as [[o o']|] eqn:F.
    + apply find_some in F. destruct F as [J E]. cbn [fst] in E. apply obj_eqb_eq in E. subst o. destruct (A _ _ J) as (i' & v & j & s & Q & -> & L). injection Q as <- ->. cbn [snd erase term_node put].
      specialize (S v (or_introl eq_refl)). rewrite L in S. injection S as <-. reflexivity.
    + destruct h as [v|v|v|v]; try reflexivity. exfalso. destruct (B i v) as [o' O]; [apply I; left; reflexivity|]. apply (find_none _ _ F) in O. cbn [fst] in O. rewrite obj_eqb_refl in O. discriminate.
  - cbn [rrel erase put]. f_equal. apply IH; [intros o H; apply I; right; exact H|exact S].
  - cbn [rrel erase]. assert (Sa : strings_for vals f (erase a)) by (intros v H; apply S; destruct k; apply in_app_iff; left; exact H).
    assert (Sb : strings_for vals f (erase b)) by (intros v H; apply S; destruct k; apply in_app_iff; right; exact H).
    assert (Ia : forall o, In o (robjs a) -> In o us) by (intros o H; apply I; right; apply in_app_iff; left; exact H).
    assert (Ib : forall o, In o (robjs b) -> In o us) by (intros o H; apply I; right; apply in_app_iff; right; exact H).
    rewrite (IHa Ia Sa), (IHb Ib Sb). destruct k; reflexivity.
  - cbn [rrel erase put]. f_equal; [apply IHa|apply IHb|apply IHc]; try (intros o H; apply I; right; rewrite !in_app_iff; auto); intros v H; apply S; cbn [erase leaves]; rewrite !in_app_iff; auto.
Qed.
Lemma map_terms_ok vals fresh us m : sub_values_map vals fresh us = Ok m -> forall o o', In (o, o') m -> exists i h j h', o = (i, HTerm h) /\ o' = (j, HTerm h').
Proof. intros M o o' I. destruct (map_ok _ _ _ _ M) as [A _]. destruct (A _ _ I) as (i & v & j & s & -> & -> & _). eauto 8. Qed.
Lemma depth_rrel m u : rdepth (rrel m u) = rdepth u.
Proof. induction u; cbn [rrel rdepth]; auto. destruct (relabel m (i, HTerm t)) as [j []]; reflexivity. Qed.

(** With a string for each variable, every variable below the root is replaced by its value, and nothing else. *)
Theorem sub_values_put vals f t : strings_for vals f t -> (forall v, t <> NVar v) -> sub_values_tree vals t = Ok (put f t).
Proof.
  intros S NV. unfold sub_values_tree. destruct (alloc 0 t) as [r n] eqn:R. destruct (alloc_ok _ _ _ _ R) as (E & _ & Nd & _). unfold sub_values.
  assert (In_nodes : forall o, In o (g_nodes (from_recursive_ast r)) <-> In o (robjs r)) by apply from_rec_ok.
  destruct (map_total vals f (g_nodes (from_recursive_ast r)) n) as [m M].
  { intros i v I. apply S. rewrite <- E. apply leaves_obj. exists i. apply In_nodes. exact I. }
  rewrite M. cbn [bind]. unfold to_recursive_ast. cbn [relabel_nodes g_root]. rewrite (proj1 (from_rec_ok r)).
  assert (Rt : robj r = robj (rrel m r)).
  { rewrite (rrel_robj m (map_terms_ok _ _ _ _ M)). destruct r as [i h|i op a|i k op a b|i op a b c]; cbn [robj]; try (symmetry; apply (relabel_op m (map_terms_ok _ _ _ _ M)); intro; discriminate).
    unfold relabel. destruct (find _ m) as [[o o']|] eqn:F; [|reflexivity]. exfalso. apply find_some in F. destruct F as [J Q]. cbn [fst] in Q. apply obj_eqb_eq in Q. subst o.
    destruct (proj1 (map_ok _ _ _ _ M) _ _ J) as (i' & v & j & s & Q & _). injection Q as _ ->. apply (NV v). rewrite <- E. reflexivity. }
  rewrite Rt, to_rec_ok.
  - f_equal. rewrite <- E. apply (relabel_put vals f n _ m M r); [intros o H; apply In_nodes, H|rewrite E; exact S].
  - apply relabel_unfolds; [exact Nd|exact (map_terms_ok _ _ _ _ M)].
  - rewrite depth_rrel. pose proof (rdepth_le r). lia.
Qed.
(** It succeeds only then: a variable without a value, or with a value that is a Boolean or an integer, makes it fail. *)
Theorem sub_values_needs_strings vals t u : sub_values_tree vals t = Ok u -> forall v, In v (leaves t) -> exists s, lookup v vals = Some (VStr s).
Proof.
  unfold sub_values_tree. destruct (alloc 0 t) as [r n] eqn:R. destruct (alloc_ok _ _ _ _ R) as (E & _ & Nd & _). unfold sub_values. intro H.
  apply bind_Ok in H. destruct H as (g & G & _). apply bind_Ok in G. destruct G as (m & M & _). intros v I. rewrite <- E in I. apply leaves_obj in I. destruct I as [i I].
  destruct (map_ok _ _ _ _ M) as [A B]. destruct (B i v) as [o' O]; [apply from_rec_ok, I|]. destruct (A _ _ O) as (i' & v' & j & s & Q & _ & L). injection Q as _ <-. eauto.
Qed.
Lemma map_error vals : forall us fresh e, sub_values_map vals fresh us = Err e -> e = "KeyError" \/ e = "TypeError".
Proof.
  induction us as [|[i h] us IH]; intros fresh e H; cbn [sub_values_map snd] in H; [discriminate|]. destruct h as [[v|v|v|v]|op|k op|op]; try exact (IH _ _ H).
  destruct (lookup v vals) as [x|]; cbn [of_opt bind] in H; [|injection H as <-; auto]. destruct (value_node x) as [t|y] eqn:T; cbn [bind] in H.
  - destruct (sub_values_map vals (S fresh) us) as [m|y] eqn:M; cbn [bind] in H; [discriminate|]. injection H as <-. exact (IH _ _ M).
  - injection H as <-. right. destruct x; cbn in T; congruence.
Qed.
(** The documentation says that a variable may be replaced by a Boolean or a number. *)
Theorem sub_values_typed_refuted vals t v : In v (leaves t) -> (exists b, lookup v vals = Some (VBool b)) \/ (exists z, lookup v vals = Some (VInt z)) ->
  exists e, sub_values_tree vals t = Err e /\ (e = "KeyError" \/ e = "TypeError").
Proof.
  intros I V. unfold sub_values_tree. destruct (alloc 0 t) as [r n] eqn:R. destruct (alloc_ok _ _ _ _ R) as (E & _ & Nd & _). unfold sub_values.
  destruct (sub_values_map vals n (g_nodes (from_recursive_ast r))) as [m|e] eqn:M; cbn [bind]; [|exists e; split; [reflexivity|exact (map_error _ _ _ _ M)]].
  exfalso. rewrite <- E in I. apply leaves_obj in I. destruct I as [i I]. destruct (map_ok _ _ _ _ M) as [A B]. destruct (B i v) as [o' O]; [apply from_rec_ok, I|].
  destruct (A _ _ O) as (i' & v' & j & s & Q & _ & L). injection Q as _ <-. destruct V as [[b V]|[z V]]; congruence.
Qed.
(** A formula that is one variable is left as it is: the root of the graph is not changed. *)
Theorem sub_values_root_refuted vals v s : lookup v vals = Some (VStr s) -> sub_values_tree vals (NVar v) = Ok (NVar v).
Proof. intro L. unfold sub_values_tree, sub_values. cbn [alloc from_recursive_ast recurse M_Tree.add_node g_nodes existsb sub_values_map snd robj]. cbn. rewrite L. reflexivity. Qed.
(** The method works on the cached trees, for each clause. *)
Theorem form_sub_values_put cache vals f : (forall x t, In (x, t) cache -> strings_for vals f t /\ forall v, t <> NVar v) ->
  form_sub_values cache vals = Ok (map (fun xt => (fst xt, put f (snd xt))) cache).
Proof.
  unfold form_sub_values. induction cache as [|[x t] r IH]; intro H; [reflexivity|]. cbn [mapr map fst snd]. destruct (H x t (or_introl eq_refl)) as [S N]. rewrite (sub_values_put vals f t S N). cbn [bind].
  rewrite IH by (intros y u I; apply (H y); right; exact I). reflexivity.
Qed.

Definition ex_values : list (string * pyval) := [("x", VStr "red"); ("y", VStr "blue"); ("n", VInt 3)].
Definition ex_values_tree : node := NBin "&" (NCmp "=" (NVar "x") (NStr "red")) (NUn "X" (NCmp "!=" (NVar "y") (NVar "x"))).
Example ex_sub_values : sub_values_tree ex_values ex_values_tree = Ok (NBin "&" (NCmp "=" (NStr "red") (NStr "red")) (NUn "X" (NCmp "!=" (NStr "blue") (NStr "red")))).
Proof. vm_compute. reflexivity. Qed.
Example ex_strings_for : strings_for ex_values (fun v => if String.eqb v "x" then "red" else "blue") ex_values_tree.
Proof. intros v I. cbn in I. destruct I as [<-|[<-|[<-|[]]]]; reflexivity. Qed.
Example ex_sub_number : sub_values_tree ex_values (NCmp "<" (NVar "n") (NNum "5")) = Err "TypeError".
Proof. vm_compute. reflexivity. Qed.
Example ex_sub_cache_empty : form_sub_values [] ex_values = Ok [].
Proof. reflexivity. Qed.

Print Assumptions sub_values_put.
Print Assumptions sub_values_needs_strings.
Print Assumptions sub_values_typed_refuted.
Print Assumptions sub_values_root_refuted.
Print Assumptions form_sub_values_put.
