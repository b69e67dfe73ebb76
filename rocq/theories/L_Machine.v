(** Lemmas about machines. *)
From Coq Require Import List String Bool Arith Lia.
From Verif Require Import M_Base M_Dict L_Dict M_Graph L_Graph M_Machine S_Run L_Build.
Import ListNotations.
Open Scope string_scope.
Open Scope list_scope.

Lemma bind_Ok {A B} (x : res A) (f : A -> res B) y : bind x f = Ok y <-> exists a, x = Ok a /\ f a = Ok y.
Proof.
  destruct x as [a|e]; cbn [bind]; split.
  - eauto.
  - intros [b [[= ->] H]]. exact H.
  - discriminate.
  - intros [b [H _]]. discriminate.
Qed.
Lemma mapr_Forall2 {A B} (f : A -> res B) l r : mapr f l = Ok r <-> Forall2 (fun x y => f x = Ok y) l r.
Proof.
  revert r. induction l as [|x l IH]; intro r; cbn [mapr].
  - split; [intros [= <-]; constructor|intro H; inversion H; reflexivity].
  - rewrite bind_Ok. split.
    + intros [y [E H]]. apply bind_Ok in H. destruct H as [ys [F [= <-]]]. constructor; [exact E|apply IH, F].
    + intro H. inversion H as [|? y ? ys E F]; subst. exists y. split; [exact E|]. rewrite (proj2 (IH ys) F). reflexivity.
Qed.
Lemma filter_unique {A} (p : A -> bool) l e : NoDup l -> In e l -> p e = true ->
  (forall e', In e' l -> p e' = true -> e' = e) -> filter p l = [e].
Proof.
  induction l as [|x l IH]; cbn [filter In]; intros ND I P U; [destruct I|]. inversion ND as [|? ? NI ND']; subst.
  destruct (p x) eqn:X.
  - assert (x = e) by (apply U; auto). subst x. f_equal.
    destruct (filter p l) as [|y r] eqn:F; [reflexivity|].
    assert (J : In y (filter p l)) by (rewrite F; left; reflexivity). apply filter_In in J. destruct J as [J Y].
    assert (y = e) by (apply U; auto). subst. contradiction.
  - destruct I as [->|I]; [congruence|]. apply IH; auto.
Qed.
Lemma Forall2_impl {A B} (P Q : A -> B -> Prop) l r : (forall x y, P x y -> Q x y) -> Forall2 P l r -> Forall2 Q l r.
Proof. intros H F. induction F; constructor; auto. Qed.
Lemma nth_error_ext {A} (l l' : list A) : (forall i, nth_error l i = nth_error l' i) -> l = l'.
Proof.
  revert l'. induction l as [|x l IH]; intros [|y l'] H; [reflexivity|specialize (H 0); discriminate|specialize (H 0); discriminate|].
  pose proof (H 0) as H0. injection H0 as <-. f_equal. apply IH. intro i. exact (H (S i)).
Qed.
Lemma NoDup_of_map {A B} (f : A -> B) l : NoDup (map f l) -> NoDup l.
Proof. apply NoDup_map_inv. Qed.

Section Lookup.
  Context {V : Type}.
  Lemma lookup_filter_key (p : string -> bool) (d : attrs V) k :
    lookup k (filter (fun kv => p (fst kv)) d) = if p k then lookup k d else None.
  Proof.
    induction d as [|[a b] r IH]; cbn [filter lookup fst]; [destruct (p k); reflexivity|].
    destruct (p a) eqn:P; cbn [lookup]; rewrite IH; destruct (k =? a) eqn:E; try reflexivity.
    - apply String.eqb_eq in E. subst. rewrite P. reflexivity.
    - apply String.eqb_eq in E. subst. rewrite P. reflexivity.
  Qed.
  Lemma lookup_project (d : attrs V) ks k : lookup k (project_dict d ks) = if mem k ks then lookup k d else None.
  Proof. exact (lookup_filter_key (fun k => mem k ks) d k). Qed.
  Lemma lookup_trim (d : attrs V) ks k : lookup k (trim_dict d ks) = if mem k ks then None else lookup k d.
  Proof.
    unfold trim_dict. rewrite (lookup_filter_key (fun k => negb (mem k ks)) d k). destruct (mem k ks); reflexivity.
  Qed.
  Lemma project_restricts (d : attrs V) ks : restricts ks d (project_dict d ks).
  Proof.
    intros k v. rewrite lookup_project. destruct (mem k ks) eqn:M.
    - apply mem_In in M. tauto.
    - split; [discriminate|]. intros [I _]. apply mem_In in I. congruence.
  Qed.
  Lemma restricts_fun ks (d a b : attrs V) : restricts ks d a -> restricts ks d b -> same_items a b.
  Proof.
    intros A B k. destruct (lookup k a) as [v|] eqn:E.
    - symmetry. apply B, A, E.
    - destruct (lookup k b) as [v|] eqn:F; [|reflexivity]. apply B in F. apply A in F. congruence.
  Qed.
  Lemma restricts_same ks (d d' a b : attrs V) : same_items d d' -> same_items a b -> restricts ks d a -> restricts ks d' b.
  Proof. intros S T R k v. rewrite <- T, <- S. apply R. Qed.
  Lemma restricts_same_iff ks (d a : attrs V) : restricts ks d a <-> same_items (project_dict d ks) a.
  Proof.
    split; [intro H; eapply restricts_fun; [apply project_restricts|exact H]|].
    intro S. eapply restricts_same; [apply same_items_refl|exact S|apply project_restricts].
  Qed.
  Lemma nodup_project (d : attrs V) ks : NoDup (map fst d) -> NoDup (map fst (project_dict d ks)).
  Proof. apply nodup_filter. Qed.
  Lemma lookup_name (d : attrs V) k : In k (map fst d) <-> exists v, lookup k d = Some v.
  Proof.
    split.
    - intro I. destruct (lookup k d) eqn:L; [eauto|]. apply lookup_None in L. contradiction.
    - intros [v L]. apply lookup_In in L. apply (in_map fst) in L. exact L.
  Qed.
End Lookup.

(** Paths under simulations. *)
Section Simulation.
  Context {S S' L L' : Type} (R : S -> L -> S -> Prop) (R' : S' -> L' -> S' -> Prop)
    (rel : S -> S' -> Prop) (lrel : L -> L' -> Prop).
  Hypothesis sim : forall s s' l t, rel s s' -> R s l t -> exists l' t', lrel l l' /\ R' s' l' t' /\ rel t t'.
  Lemma steps_sim s s' w t : rel s s' -> steps R s w t -> exists w' t', Forall2 lrel w w' /\ steps R' s' w' t' /\ rel t t'.
  Proof.
    intros Q H. revert s' Q. induction H as [s|s l t w u H _ IH]; intros s' Q.
    - exists [], s'. split; [constructor|]. split; [constructor|exact Q].
    - destruct (sim _ _ _ _ Q H) as [l' [t' [A [B C]]]]. destruct (IH _ C) as [w' [u' [D [E F]]]].
      exists (l' :: w'), u'. split; [constructor; auto|]. split; [econstructor; eauto|exact F].
  Qed.
End Simulation.
Lemma Forall2_eq {A} (l l' : list A) : Forall2 eq l l' -> l = l'.
Proof. induction 1; congruence. Qed.
Lemma steps_ext {S L} (R R' : S -> L -> S -> Prop) s w t : (forall s l t, R s l t -> R' s l t) -> steps R s w t -> steps R' s w t.
Proof. intros H K. induction K as [s|s l t w u A _ IH]; econstructor; eauto. Qed.
Lemma steps_app {S L} (R : S -> L -> S -> Prop) s w w' t u : steps R s w t -> steps R t w' u -> steps R s (w ++ w') u.
Proof. induction 1 as [s|s l t' w u' A _ IH]; cbn [app]; [auto|]. intro H. econstructor; eauto. Qed.

Section Machines.
  Context {N V : Type} (neqb : N -> N -> bool) (veqb : V -> V -> bool).
  Hypothesis neqb_eq : forall a b, neqb a b = true <-> a = b.
  Hypothesis veqb_eq : forall a b, veqb a b = true <-> a = b.
  Implicit Types m : machine N V.

  Lemma out_edges_In s (g : graph N V) e : In e (out_edges neqb s g) <-> In e (g_edges g) /\ e_src e = s.
  Proof. unfold out_edges. rewrite filter_In, neqb_eq. reflexivity. Qed.

  (** Which edges [reaction] matches. *)
  Definition asked m (inputs : attrs V) (lazy : bool) : list string :=
    if lazy then filter (fun k => mem k (names inputs)) (names (m_in m)) else names (m_in m).
  Definition enabled m s inputs lazy : list (edge N V) :=
    filter (fun e => dict_eqb veqb (project_dict (e_attr e) (asked m inputs lazy)) inputs) (out_edges neqb s (m_graph m)).
  Lemma enabled_In m s inputs lazy e : wf (mealy_config veqb m) (m_graph m) -> NoDup (map fst inputs) ->
    (In e (enabled m s inputs lazy) <-> In e (g_edges (m_graph m)) /\ e_src e = s /\ restricts (asked m inputs lazy) (e_attr e) inputs).
  Proof.
    intros W ND. unfold enabled. rewrite filter_In, out_edges_In. split.
    - intros [[I A] B]. split; [exact I|]. split; [exact A|]. apply restricts_same_iff.
      refine (proj1 (dict_eqb_spec veqb veqb_eq _ _ _ ND) B). apply nodup_project, (proj1 (wf_edge_attr _ _ W e I)).
    - intros [I [A B]]. split; [auto|]. apply restricts_same_iff in B.
      refine (proj2 (dict_eqb_spec veqb veqb_eq _ _ _ ND) B). apply nodup_project, (proj1 (wf_edge_attr _ _ W e I)).
  Qed.
  Lemma enabled_nodup m s inputs lazy : wf (mealy_config veqb m) (m_graph m) -> NoDup (enabled m s inputs lazy).
  Proof. intro W. unfold enabled, out_edges. repeat apply NoDup_filter. exact (NoDup_of_map _ _ (wf_ident _ _ W)). Qed.
  Lemma reaction_eq m s inputs lazy : reaction neqb veqb m s inputs lazy =
    match enabled m s inputs lazy with
    | [e] => Ok (e_dst e, project_dict (e_attr e) (names (m_out m)))
    | [] => match out_edges neqb s (m_graph m) with
            | [] => Err "ValueError: dead-end"
            | _ => Err "ValueError: not a valid input"
            end
    | _ => Err "ValueError: must be input-deterministic"
    end.
  Proof. reflexivity. Qed.
End Machines.
