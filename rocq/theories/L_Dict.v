(** Lemmas about dictionaries. *)
From Coq Require Import List String Bool.
From Verif Require Import M_Base M_Dict.
Import ListNotations.
Open Scope string_scope.
Open Scope list_scope.

Section Dict.
  Context {V : Type} (veqb : V -> V -> bool).
  Hypothesis veqb_eq : forall a b, veqb a b = true <-> a = b.
  Implicit Types d e : attrs V.

  Lemma lookup_set k v d k' : lookup k' (set_item k v d) = if k' =? k then Some v else lookup k' d.
  Proof.
    induction d as [|[a b] r IH]; cbn [set_item lookup].
    - destruct (k' =? k); reflexivity.
    - destruct (k =? a) eqn:E.
      + apply String.eqb_eq in E. subst. cbn [lookup]. destruct (k' =? a); reflexivity.
      + cbn [lookup]. destruct (k' =? a) eqn:F; [|exact IH].
        apply String.eqb_eq in F. subst. rewrite String.eqb_sym, E. reflexivity.
  Qed.

  Lemma keys_set k v d : map fst (set_item k v d) = if existsb (String.eqb k) (map fst d) then map fst d
                                                    else map fst d ++ [k].
  Proof.
    induction d as [|[a b] r IH]; cbn [set_item map fst existsb app]; [reflexivity|].
    destruct (k =? a) eqn:E; cbn [map fst orb]; [reflexivity|].
    rewrite IH. destruct (existsb _ (map fst r)); reflexivity.
  Qed.

  Lemma nodup_set k v d : NoDup (map fst d) -> NoDup (map fst (set_item k v d)).
  Proof.
    intro H. rewrite keys_set. destruct (existsb _ _) eqn:E; [exact H|].
    assert (~ In k (map fst d)).
    { intro I. assert (T : existsb (String.eqb k) (map fst d) = true)
        by (apply existsb_exists; exists k; split; [exact I|apply String.eqb_refl]). congruence. }
    clear E. induction (map fst d) as [|a r IH]; cbn [app].
    - repeat constructor; auto.
    - inversion H; subst. constructor.
      + rewrite in_app_iff. cbn. intros [I|[I|[]]]; [auto|subst; apply H0; left; reflexivity].
      + apply IH; auto. intro; apply H0; right; assumption.
  Qed.

  Lemma lookup_In k v d : lookup k d = Some v -> In (k, v) d.
  Proof.
    induction d as [|[a b] r IH]; cbn [lookup]; [discriminate|].
    destruct (k =? a) eqn:E.
    - apply String.eqb_eq in E. intros [= ->]. subst. left; reflexivity.
    - intro; right; auto.
  Qed.
  Lemma In_lookup k v d : NoDup (map fst d) -> In (k, v) d -> lookup k d = Some v.
  Proof.
    induction d as [|[a b] r IH]; cbn [lookup map fst]; [intros _ []|].
    intros H I. inversion H; subst. destruct I as [I|I].
    - injection I as -> ->. rewrite String.eqb_refl. reflexivity.
    - destruct (k =? a) eqn:E; [|auto].
      apply String.eqb_eq in E. subst. exfalso. apply H2. apply in_map_iff. exists (a, v). auto.
  Qed.
  Lemma lookup_None k d : lookup k d = None <-> ~ In k (map fst d).
  Proof.
    induction d as [|[a b] r IH]; cbn [lookup map fst In]; [split; auto|].
    destruct (k =? a) eqn:E.
    - apply String.eqb_eq in E. subst. split; [discriminate|intro H; exfalso; auto].
    - rewrite IH. apply String.eqb_neq in E. split; intros H; [intros [|]; congruence || auto|auto].
  Qed.

  Lemma lookup_update d e k :
    lookup k (update d e) = match lookup k (rev e) with Some v => Some v | None => lookup k d end.
  Proof.
    unfold update. revert d. induction e as [|[a b] r IH]; intro d; cbn [fold_left rev lookup]; [reflexivity|].
    rewrite IH. cbn [fst snd]. rewrite lookup_set.
    assert (A : forall l, lookup k (l ++ [(a, b)]) = match lookup k l with Some v => Some v | None =>
                                            if k =? a then Some b else None end).
    { induction l as [|[a' b'] l IHl]; cbn [app lookup]; [reflexivity|]. destruct (k =? a'); auto. }
    rewrite A. destruct (lookup k (rev r)); [reflexivity|]. destruct (k =? a); reflexivity.
  Qed.
  Lemma nodup_update d e : NoDup (map fst d) -> NoDup (map fst (update d e)).
  Proof.
    unfold update. revert d. induction e as [|x r IH]; intros d H; cbn [fold_left]; [exact H|].
    apply IH, nodup_set, H.
  Qed.
  Lemma lookup_rev k d : NoDup (map fst d) -> lookup k (rev d) = lookup k d.
  Proof.
    intro H. destruct (lookup k d) eqn:E.
    - apply In_lookup.
      + rewrite map_rev. apply NoDup_rev, H.
      + apply -> in_rev. apply lookup_In, E.
    - apply lookup_None. rewrite map_rev. intro I. apply in_rev in I. apply lookup_None in E. auto.
  Qed.

  Lemma sub_dict_spec d e : NoDup (map fst d) ->
    (sub_dict veqb d e = true <-> forall k v, lookup k d = Some v -> lookup k e = Some v).
  Proof.
    intro H. unfold sub_dict. rewrite forallb_forall. split.
    - intros A k v L. specialize (A _ (lookup_In _ _ _ L)). cbn [fst snd] in A.
      destruct (lookup k e); [|discriminate]. apply veqb_eq in A. congruence.
    - intros A [k v] I. cbn [fst snd]. rewrite (A k v (In_lookup _ _ _ H I)). apply veqb_eq. reflexivity.
  Qed.
  (** Dictionaries are equal exactly when they map every key to the same value. *)
  Lemma dict_eqb_spec d e : NoDup (map fst d) -> NoDup (map fst e) ->
    (dict_eqb veqb d e = true <-> forall k, lookup k d = lookup k e).
  Proof.
    intros H K. unfold dict_eqb. rewrite andb_true_iff, !sub_dict_spec by assumption. split.
    - intros [A B] k. destruct (lookup k d) eqn:E.
      + symmetry. apply A, E.
      + destruct (lookup k e) eqn:F; [|reflexivity]. apply B in F. congruence.
    - intro A. split; intros k v; rewrite A; auto.
  Qed.
  Lemma dict_eqb_nil d : dict_eqb veqb d [] = true <-> d = [].
  Proof.
    split; [|intros ->; reflexivity]. destruct d as [|[k v] r]; [reflexivity|].
    unfold dict_eqb, sub_dict. cbn. discriminate.
  Qed.

  Lemma set_item_In k v d x : In x (set_item k v d) -> x = (k, v) \/ In x d.
  Proof.
    induction d as [|[a b] r IH]; cbn [set_item].
    - intros [<-|[]]; auto.
    - destruct (k =? a) eqn:E.
      + apply String.eqb_eq in E. subst. intros [<-|I]; [left; reflexivity|right; right; assumption].
      + intros [<-|I]; [right; left; reflexivity|]. destruct (IH I); [auto|right; right; assumption].
  Qed.

  Lemma typed_update_spec ty e d :
    (Forall (fun kv => allowed ty (fst kv) (snd kv) = true) e /\ typed_update ty e d = (update d e, None))
    \/ exists e1 k v e2, e = e1 ++ (k, v) :: e2 /\ Forall (fun kv => allowed ty (fst kv) (snd kv) = true) e1 /\
         allowed ty k v = false /\ typed_update ty e d = (update d e1, Some "ValueError").
  Proof.
    revert d. induction e as [|[k v] r IH]; intro d; cbn [typed_update].
    - left. split; [constructor|reflexivity].
    - unfold typed_set. destruct (allowed ty k v) eqn:A.
      + destruct (IH (set_item k v d)) as [[F E]|[e1 [k' [v' [e2 [-> [F [A' E]]]]]]]].
        * left. split; [constructor; auto|exact E].
        * right. exists ((k, v) :: e1), k', v', e2.
          repeat (split; [constructor || reflexivity || auto; auto|]). exact E.
      + right. exists [], k, v, r. repeat (split; [constructor || reflexivity || auto|]). reflexivity.
  Qed.
  Lemma typed_update_res_Ok ty e d t : typed_update_res ty e d = Ok t ->
    t = update d e /\ Forall (fun kv => allowed ty (fst kv) (snd kv) = true) e.
  Proof.
    unfold typed_update_res. destruct (typed_update_spec ty e d) as [[F ->]|[e1 [k [v [e2 [_ [_ [_ ->]]]]]]]];
      [|discriminate]. intros [= <-]. auto.
  Qed.

  Definition good (ty : types V) d := Forall (fun kv => allowed ty (fst kv) (snd kv) = true) d.
  Lemma good_set ty k v d : allowed ty k v = true -> good ty d -> good ty (set_item k v d).
  Proof.
    intros A G. apply Forall_forall. intros x I. apply set_item_In in I. destruct I as [->|I]; [exact A|].
    unfold good in G. rewrite Forall_forall in G. auto.
  Qed.
  Lemma good_update ty e d : good ty e -> good ty d -> good ty (update d e).
  Proof.
    unfold update. revert d. induction e as [|x r IH]; intros d E G; cbn [fold_left]; [exact G|].
    apply IH; [exact (Forall_inv_tail E)|]. apply good_set; [exact (Forall_inv E)|exact G].
  Qed.
  Lemma good_del ty k d : good ty d -> good ty (del_item k d).
  Proof.
    intro G. apply Forall_forall. intros x I. apply filter_In in I. destruct I as [I _].
    unfold good in G. rewrite Forall_forall in G. auto.
  Qed.
  Lemma nodup_filter {A B} (f : A -> B) p l : NoDup (map f l) -> NoDup (map f (filter p l)).
  Proof.
    induction l as [|x r IH]; cbn [map filter]; [auto|]. intro H. inversion H; subst.
    destruct (p x); cbn [map]; auto. constructor; auto. intro I. apply H2.
    apply in_map_iff in I. destruct I as [y [E I]]. apply filter_In in I. apply in_map_iff. exists y. tauto.
  Qed.
  Lemma lookup_del k d k' : lookup k' (del_item k d) = if k' =? k then None else lookup k' d.
  Proof.
    unfold del_item. induction d as [|[a b] r IH]; cbn [filter lookup fst].
    - destruct (k' =? k); reflexivity.
    - destruct (a =? k) eqn:E; cbn [negb lookup].
      + apply String.eqb_eq in E. subst. rewrite IH. destruct (k' =? k); reflexivity.
      + rewrite IH. destruct (k' =? a) eqn:F; [|reflexivity].
        apply String.eqb_eq in F. subst. rewrite E. reflexivity.
  Qed.
End Dict.
