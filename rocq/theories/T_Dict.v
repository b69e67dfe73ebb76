(** C28: the type-checking dictionary. *)
From Coq Require Import List String Bool Arith.
From Verif Require Import M_Base M_Dict L_Dict.
Import ListNotations.
Open Scope string_scope.
Open Scope list_scope.

Section C28.
  Context {V : Type}.
  Implicit Types d e : attrs V.

  (** The call goes through [TypedDict.__setitem__] (or deletes). *)
  Definition checked (o : dop V) : Prop := match o with TIor _ => False | _ => True end.

  (** After any sequence of assignments, updates, [setdefault] and deletions, each key
      occurs once and every typed key has a value its type allows. *)
  Theorem typeddict_values_allowed ty ops : Forall checked ops ->
    NoDup (map fst (drun ty ops [])) /\
    (forall k v dom, lookup k (drun ty ops []) = Some v -> lookup k ty = Some (Some dom) -> dom v = true).
  Proof.
    intro H. assert (A : forall d, NoDup (map fst d) /\ good ty d ->
                               NoDup (map fst (drun ty ops d)) /\ good ty (drun ty ops d)).
    { unfold drun. induction ops as [|o r IH]; intros d [K G]; cbn [fold_left]; [auto|].
      apply IH; [exact (Forall_inv_tail H)|]. apply Forall_inv in H.
      destruct o as [k v|e|k v|k|e]; cbn [checked] in H; cbn [dstep].
      - unfold typed_set. destruct (allowed ty k v) eqn:E; cbn [fst]; [|auto].
        split; [apply nodup_set|apply good_set]; auto.
      - destruct (typed_update_spec ty e d) as [[F ->]|[e1 [k [v [e2 [_ [F [_ ->]]]]]]]]; cbn [fst];
          split; try (apply nodup_update); try (apply good_update); auto.
      - unfold typed_setdefault, typed_set. destruct (lookup k d); [auto|].
        destruct (allowed ty k v) eqn:E; cbn [fst]; [|auto]. split; [apply nodup_set|apply good_set]; auto.
      - destruct (lookup k d); cbn [fst]; [|auto]. split; [apply nodup_filter|apply good_del]; auto.
      - contradiction. }
    destruct (A []) as [K G]; [split; constructor|]. split; [exact K|].
    intros k v dom L T. apply lookup_In in L. unfold good in G. rewrite Forall_forall in G.
    specialize (G _ L). cbn [fst snd] in G. unfold allowed in G. rewrite T in G. exact G.
  Qed.

  (** An assignment succeeds exactly when the value is allowed (or the key has no type); it
      then changes that key only.  Otherwise nothing changes. *)
  Theorem typeddict_setitem ty k v d :
    (forall k', dstep ty (TSet k v) d = (d, Some "ValueError") \/
       (snd (dstep ty (TSet k v) d) = None /\
        lookup k' (fst (dstep ty (TSet k v) d)) = if k' =? k then Some v else lookup k' d)) /\
    (snd (dstep ty (TSet k v) d) = None <->
     (lookup k ty = None \/ lookup k ty = Some None \/ exists dom, lookup k ty = Some (Some dom) /\ dom v = true)).
  Proof.
    cbn [dstep]. unfold typed_set, allowed. split.
    - intro k'. destruct (match lookup k ty with Some (Some dom) => dom v | _ => true end); [right|left; reflexivity].
      split; [reflexivity|]. apply lookup_set.
    - destruct (lookup k ty) as [[dom|]|].
      + destruct (dom v) eqn:E; cbn [snd]; split; try discriminate; eauto.
        intros [H|[H|[dom' [H K]]]]; try discriminate. congruence.
      + cbn [snd]. split; auto.
      + cbn [snd]. split; auto.
  Qed.

  (** [update] stores the pairs in order up to the first that is not allowed; it raises
      exactly when there is one. *)
  Theorem typeddict_update ty e d :
    (Forall (fun kv => allowed ty (fst kv) (snd kv) = true) e /\ snd (dstep ty (TUpdate e) d) = None /\
      forall k, lookup k (fst (dstep ty (TUpdate e) d)) =
                match lookup k (rev e) with Some v => Some v | None => lookup k d end) \/
    (exists e1 kv e2, e = e1 ++ kv :: e2 /\ allowed ty (fst kv) (snd kv) = false /\
      Forall (fun kv => allowed ty (fst kv) (snd kv) = true) e1 /\
      snd (dstep ty (TUpdate e) d) = Some "ValueError" /\
      forall k, lookup k (fst (dstep ty (TUpdate e) d)) =
                match lookup k (rev e1) with Some v => Some v | None => lookup k d end).
  Proof.
    cbn [dstep]. destruct (typed_update_spec ty e d) as [[F ->]|[e1 [k [v [e2 [E [F [A ->]]]]]]]].
    - left. split; [exact F|]. split; [reflexivity|]. intro k. apply lookup_update.
    - right. exists e1, (k, v), e2. repeat (split; [assumption || reflexivity|]). intro k'. apply lookup_update.
  Qed.

  (** [setdefault] never overwrites. *)
  Theorem typeddict_setdefault ty k v d v0 : lookup k d = Some v0 ->
    dstep ty (TSetdefault k v) d = (d, None).
  Proof. intro H. cbn [dstep]. unfold typed_setdefault. rewrite H. reflexivity. Qed.
End C28.

(** A dictionary with a key "n" whose values must be below 10. *)
Definition ty1 : types nat := [("n", Some (fun v => Nat.ltb v 10)); ("m", None)].
Example typeddict_values_allowed_ex :
  Forall checked [TSet "n" 3; TSet "n" 12; TUpdate [("x", 40); ("n", 4); ("n", 50); ("y", 1)];
                  TSetdefault "m" 77; TDel "x"]
  /\ drun ty1 [TSet "n" 3; TSet "n" 12; TUpdate [("x", 40); ("n", 4); ("n", 50); ("y", 1)];
               TSetdefault "m" 77; TDel "x"] [] = [("n", 4); ("m", 77)].
Proof. split; [repeat constructor|vm_compute; reflexivity]. Qed.
Example typeddict_setitem_ex :
  dstep ty1 (TSet "n" 12) [("n", 3)] = ([("n", 3)], Some "ValueError") /\
  dstep ty1 (TSet "n" 9) [("n", 3)] = ([("n", 9)], None).
Proof. vm_compute. auto. Qed.
Example typeddict_update_ex :
  dstep ty1 (TUpdate [("n", 5); ("m", 90)]) [("n", 3)] = ([("n", 5); ("m", 90)], None).
Proof. vm_compute. auto. Qed.
Example typeddict_setdefault_ex : dstep ty1 (TSetdefault "n" 4) [("n", 3)] = ([("n", 3)], None).
Proof. apply (typeddict_setdefault ty1 "n" 4 [("n", 3)] 3). reflexivity. Qed.

(** Finding: a rejected [update] is not undone. *)
Theorem typeddict_update_atomic_refuted :
  exists (ty : types nat) e d, snd (dstep ty (TUpdate e) d) = Some "ValueError" /\ fst (dstep ty (TUpdate e) d) <> d.
Proof. exists ty1, [("m", 1); ("n", 50)], []. vm_compute. split; [reflexivity|discriminate]. Qed.

(** Finding: [d |= e], inherited from [dict], is not checked. *)
Theorem typeddict_ior_refuted :
  exists (ty : types nat) e, snd (dstep ty (TIor e) []) = None /\
    exists k v dom, lookup k (fst (dstep ty (TIor e) [])) = Some v /\ lookup k ty = Some (Some dom) /\ dom v = false.
Proof.
  exists ty1, [("n", 50)]. split; [reflexivity|]. exists "n", 50, (fun v => Nat.ltb v 10).
  repeat split.
Qed.

(** Finding: [is_consistent] unpacks the keys instead of the items.  It accepts a
    dictionary that holds a value outside its domain, and raises on a consistent one. *)
Definition in_dom0 (s : string) (dom : option (nat -> bool)) : res bool :=
  match dom with Some f => Ok (f (String.length s)) | None => Err "TypeError" end.
Theorem typeddict_is_consistent_refuted :
  (exists (ty : types nat) d k v dom, is_consistent in_dom0 ty d = Ok true /\
     lookup k d = Some v /\ lookup k ty = Some (Some dom) /\ dom v = false) /\
  (exists (ty : types nat) d, is_consistent in_dom0 ty d = Err "ValueError" /\
     forall k v, lookup k d = Some v -> allowed ty k v = true).
Proof.
  split.
  - exists [("ap", Some (fun v => Nat.ltb v 10))], [("ap", 50)], "ap", 50, (fun v => Nat.ltb v 10). vm_compute. auto.
  - exists ty1, [("n", 3)]. split; [reflexivity|]. intros k v H. unfold lookup in H.
    destruct (k =? "n")%string eqn:E; [|discriminate]. apply String.eqb_eq in E. injection H as <-. subst. reflexivity.
Qed.

Print Assumptions typeddict_values_allowed.
Print Assumptions typeddict_setitem.
Print Assumptions typeddict_update.
Print Assumptions typeddict_setdefault.
Print Assumptions typeddict_update_atomic_refuted.
Print Assumptions typeddict_ior_refuted.
Print Assumptions typeddict_is_consistent_refuted.
