(** The table of dependent variables. *)
From Coq Require Import List String Ascii Bool Arith ZArith Lia Permutation.
From Verif Require Import M_Base M_Ast M_Lexer M_Parser M_Spec M_Form M_Tree M_Gr1c M_Synth M_Dep.
From Verif Require Import S_LTL S_Gr1 S_Form S_Syntax S_Tree S_Synth.
From Verif Require Import L_Lexer L_Parser L_Template L_Gr1 L_RoundTrip L_Text L_Form L_Gr1c L_Den L_Synth L_Synth2 L_Synth3 L_Synth4 L_Synth5.
Import ListNotations.
Open Scope string_scope.
Open Scope list_scope.

Lemma table_add_keys p u tab tab' : table_add p u tab = Ok tab' -> map fst tab' = map fst tab.
Proof.
  revert tab'. induction tab as [|[k l] r IH]; intros tab' H; cbn [table_add] in H; [discriminate|].
  destruct (p =? k)%string; [apply Ok_inj in H; subst; reflexivity|].
  destruct (table_add p u r) as [r'|] eqn:E; [|discriminate]. cbn [bind] in H. apply Ok_inj in H. subst. cbn. rewrite (IH r'); auto.
Qed.
Lemma table_add_lookup p u tab tab' : table_add p u tab = Ok tab' ->
  In p (map fst tab) /\
  forall k l, lookup k tab = Some l -> exists l', lookup k tab' = Some l' /\
    forall v, In v l' <-> In v l \/ (k = p /\ v = u).
Proof.
  revert tab'. induction tab as [|[k0 l0] r IH]; intros tab' H; cbn [table_add] in H; [discriminate|].
  destruct (p =? k0)%string eqn:E.
  - apply Ok_inj in H. subst. apply String.eqb_eq in E. subst k0. split; [left; auto|]. intros k l L. cbn [lookup] in *.
    destruct (k =? p)%string eqn:E.
    + apply String.eqb_eq in E. subst k. injection L as <-. eexists. split; [reflexivity|]. intro v.
      destruct (smem u l0) eqn:S.
      * apply smem_In in S. split; [auto|]. intros [?|[_ ->]]; auto.
      * rewrite in_app_iff. cbn. split; [intros [?|[<-|[]]]; auto|intros [?|[_ ->]]; auto].
    + eexists. split; [exact L|]. intro v. split; [auto|]. intros [?|[-> _]]; auto. rewrite String.eqb_refl in E. discriminate.
  - destruct (table_add p u r) as [r'|] eqn:E'; [|discriminate]. cbn [bind] in H. apply Ok_inj in H. subst.
    destruct (IH r' eq_refl) as [A B]. split; [right; auto|]. intros k l L. cbn [lookup] in *.
    destruct (k =? k0)%string eqn:E2; [|apply B; auto]. eexists. split; [exact L|]. intro v. split; [auto|]. intros [?|[-> _]]; auto.
    apply String.eqb_eq in E2. subst. rewrite String.eqb_refl in E. discriminate.
Qed.

Lemma label_fold u l : forall tab tab', foldr (fun tab p => table_add p u tab) l tab = Ok tab' ->
  map fst tab' = map fst tab /\ (forall p, In p l -> In p (map fst tab)) /\
  forall k x, lookup k tab = Some x -> exists x', lookup k tab' = Some x' /\ forall v, In v x' <-> In v x \/ (In k l /\ v = u).
Proof.
  induction l as [|p l IH]; intros tab tab' H; cbn [foldr] in H.
  - apply Ok_inj in H. subst. split; auto. split; [intros p []|]. intros k x L. exists x. split; auto. intro v. simpl. tauto.
  - destruct (table_add p u tab) as [t1|] eqn:E; [|discriminate]. cbn [bind] in H.
    destruct (IH _ _ H) as (A & B & C). destruct (table_add_lookup _ _ _ _ E) as [D F]. pose proof (table_add_keys _ _ _ _ E) as K.
    split; [congruence|]. split; [intros q [<-|I]; auto; rewrite <- K; auto|].
    intros k x L. destruct (F k x L) as (x1 & L1 & M1). destruct (C k x1 L1) as (x2 & L2 & M2). exists x2. split; auto.
    intro v. rewrite M2, M1. simpl. split; [intros [[?|[-> ->]]|[? ->]]; auto|intros [?|[[->|?] ->]]; auto].
Qed.

Lemma ap_table ns : forall tab tab',
  foldr (fun tab n => do l <- of_opt "KeyError" (snd n); foldr (fun tab p => table_add p (fst n) tab) l tab) ns tab = Ok tab' ->
  map fst tab' = map fst tab /\ (forall n, In n ns -> exists l, snd n = Some l /\ forall p, In p l -> In p (map fst tab)) /\
  forall k x, lookup k tab = Some x -> exists x', lookup k tab' = Some x' /\
    forall v, In v x' <-> In v x \/ exists l, In (v, Some l) ns /\ In k l.
Proof.
  induction ns as [|[u lab] ns IH]; intros tab tab' H; cbn [foldr] in H.
  - apply Ok_inj in H. subst. split; auto. split; [intros n []|]. intros k x L. exists x. split; auto. intro v. split; auto. intros [?|(l & [] & _)]; auto.
  - cbn [fst snd] in H. destruct lab as [l|]; [|discriminate]. cbn [of_opt bind] in H.
    destruct (foldr (fun tab p => table_add p u tab) l tab) as [t1|] eqn:E; [|discriminate]. cbn [bind] in H.
    destruct (IH _ _ H) as (A & B & C). destruct (label_fold _ _ _ _ E) as (D & F & G).
    split; [congruence|]. split.
    + intros n [<-|I]; [exists l; auto|]. destruct (B n I) as (l' & X & Y). exists l'. split; auto. intros. rewrite <- D. auto.
    + intros k x L. destruct (G k x L) as (x1 & L1 & M1). destruct (C k x1 L1) as (x2 & L2 & M2). exists x2. split; auto.
      intro v. rewrite M2, M1. split.
      * intros [[?|[I ->]]|(l' & I & J)]; auto; right; [exists l; simpl; auto|exists l'; simpl; auto].
      * intros [?|(l' & [X|I] & J)]; auto; [injection X as <- <-; auto|right; eauto].
Qed.

Lemma map_ap_ok t tab : map_ap_to_states t = Ok tab ->
  map fst tab = f_aps t /\
  forall p l, In p (f_aps t) -> lookup p tab = Some l -> forall v, In v l <-> labelled t v p.
Proof.
  intro H. destruct (ap_table _ _ _ H) as (A & _ & C). rewrite map_map in A. cbn [fst] in A. rewrite map_id in A.
  split; auto. intros p l I L v. destruct (C p []) as (x & Lx & M).
  { clear -I. induction (f_aps t) as [|a r IH]; [destruct I|]. cbn [map lookup]. destruct (p =? a)%string eqn:E; auto.
    destruct I as [<-|I]; [rewrite String.eqb_refl in E; discriminate|auto]. }
  rewrite L in Lx. injection Lx as <-. rewrite M. unfold labelled. split; [intros [[]|?]; auto|auto].
Qed.
Lemma map_ap_total t : (forall n, In n (f_nodes t) -> exists l, snd n = Some l /\ forall p, In p l -> In p (f_aps t)) ->
  exists tab, map_ap_to_states t = Ok tab.
Proof.
  unfold map_ap_to_states. intro H.
  assert (TA : forall p u tab, In p (map fst tab) -> exists tab', table_add p u tab = Ok tab').
  { intros p u tab. induction tab as [|[k l] r IH]; [intros []|]. cbn [table_add map fst]. intro I.
    destruct (p =? k)%string eqn:E; [eauto|]. destruct IH as (r' & ->); [|cbn; eauto].
    destruct I as [->|I]; auto. rewrite String.eqb_refl in E. discriminate. }
  assert (LF : forall u l tab, (forall p, In p l -> In p (map fst tab)) -> exists tab', foldr (fun tab p => table_add p u tab) l tab = Ok tab').
  { intros u l. induction l as [|p l IH]; intros tab K; cbn [foldr]; [eauto|]. destruct (TA p u tab) as (t1 & E); [apply K; left; auto|].
    rewrite E. cbn [bind]. apply IH. intros q I. rewrite (table_add_keys _ _ _ _ E). apply K; right; auto. }
  assert (G : forall ns tab, (forall n, In n ns -> exists l, snd n = Some l /\ forall p, In p l -> In p (map fst tab)) ->
    exists tab', foldr (fun tab n => do l <- of_opt "KeyError" (snd n); foldr (fun tab p => table_add p (fst n) tab) l tab) ns tab = Ok tab').
  { induction ns as [|[u lab] ns IH]; intros tab K; cbn [foldr]; [eauto|]. cbn [fst snd].
    destruct (K (u, lab) (or_introl eq_refl)) as (l & E & M). cbn [snd] in E. subst lab. cbn [of_opt bind].
    destruct (LF u l tab M) as (t1 & E). rewrite E. cbn [bind]. apply IH. intros n I. destruct (label_fold _ _ _ _ E) as (D & _). rewrite D. apply K. right; auto. }
  apply G. intros n I. rewrite map_map. cbn [fst]. rewrite map_id. auto.
Qed.

Section Table.
  Variable iter_set : list sval -> list sval.
  Hypothesis order : forall l, Permutation (iter_set l) l.
  Variable t : fts.
  Variable var : string.
  Hypothesis Gs : NoDup (f_states t).
  Hypothesis Gn : forall q, In q (f_states t) -> good_name q.
  Hypothesis Gp : NoDup (f_aps t).
  Hypothesis Hv : ident var.

  Lemma Permutation_In l v : In v (iter_set l) <-> In v l.
  Proof. split; apply Permutation_in; [apply order|apply Permutation_sym, order]. Qed.

  Lemma dep_table m : build_dependent_var_table iter_set t var = Ok m ->
    map fst m = f_aps t /\
    forall p x, In (p, x) m ->
      ((forall q, ~ labelled t q p) /\ x = "") \/
      ((exists q, labelled t q p) /\ den x (fun s i => exists q, labelled t q p /\ In q (f_states t) /\ shows false var q (s i))).
  Proof.
    intro H. unfold build_dependent_var_table in H.
    destruct (iter2var (f_states t) [] var false (Some Xor)) as [[[vs sid] c]|] eqn:Ei; [|discriminate]. cbn [bind] in H.
    destruct (iter2var_ok _ _ _ _ _ _ _ _ Ei Hv Gs Gn) as [IO _]. cbn [as_bools] in IO.
    destruct (map_ap_to_states t) as [tab|] eqn:Et; [|discriminate]. cbn [bind] in H.
    destruct (map_ap_ok _ _ Et) as [A B].
    assert (F : Forall2 (fun kv y => exists l, mapr (fun x => of_opt "KeyError" (ids_get x sid)) (iter_set (snd kv)) = Ok l /\ y = (fst kv, disj l)) tab m).
    { eapply mapr_Forall2; [exact H|]. intros kv y I K. cbv beta in K. destruct (mapr _ (iter_set (snd kv))) as [l|] eqn:E; [|discriminate].
      cbn [bind] in K. apply Ok_inj in K. subst y. eauto. }
    split.
    - rewrite <- A. clear -F. induction F as [|kv y tab m (l & _ & ->) F IH]; cbn; congruence.
    - intros p x I.
      assert (J : exists l0 l, In (p, l0) tab /\ mapr (fun x => of_opt "KeyError" (ids_get x sid)) (iter_set l0) = Ok l /\ x = disj l).
      { clear -F I. induction F as [|[k l0] y tab m (l & E & ->) F IH]; [destruct I|]. cbn [fst snd] in *.
        destruct I as [X|I]; [injection X as <- <-; exists l0, l; simpl; auto|].
        destruct (IH I) as (a & b & ? & ? & ?). exists a, b. simpl; auto. }
      destruct J as (l0 & l & I0 & Em & ->).
      assert (Ip : In p (f_aps t)) by (rewrite <- A; apply (in_map fst) in I0; exact I0).
      assert (L : lookup p tab = Some l0) by (apply In_lookup; [rewrite A; auto|exact I0]).
      specialize (B p l0 Ip L). destruct l0 as [|q0 r0] eqn:El.
      + left. split; [intros q Hq; apply B in Hq; destruct Hq|].
        assert (Z : iter_set [] = []) by (apply Permutation_nil, Permutation_sym, order). rewrite Z in Em. apply Ok_inj in Em. subst. reflexivity.
      + right. split; [exists q0; apply B; left; auto|]. rewrite <- El in *.
        assert (D : Forall2 den l (map (fun q s i => In q (f_states t) /\ shows false var q (s i)) (iter_set l0))).
        { apply Forall2_flip_map. eapply mapr_Forall2; [exact Em|]. intros q y Iq K. cbv beta in K. apply of_opt_ok in K.
          destruct IO as (_ & BO & _). apply BO in K. destruct K as [Is D]. eapply den_ext; [exact D|]. intros s i. tauto. }
        eapply den_ext; [eapply dchain_den, d_disj; [|exact D]|].
        * intros ->. apply mapr_nil in Em. assert (X : In q0 (iter_set l0)) by (apply Permutation_In; rewrite El; left; auto). rewrite Em in X. destruct X.
        * intros s i. cbv beta. rewrite (Exists_map_iff (fun q s i => In q (f_states t) /\ shows false var q (s i)) (fun P => P s i)).
          split; intros (q & Iq & K); exists q; [split; [apply B, Permutation_In; exact Iq|exact K]|].
          apply B in Iq. split; [apply Permutation_In; auto|auto].
  Qed.

  (** For integer states the entries contain no string constant. *)
  Lemma dep_no_str m : build_dependent_var_table iter_set t var = Ok m ->
    (forall q, In q (f_states t) -> exists z, q = SInt z) ->
    forall p x e, In (p, x) m -> parse x = Some e -> no_str e = true /\ plain_ops e = true.
  Proof.
    intros H SI p x e I P. unfold build_dependent_var_table in H.
    destruct (iter2var (f_states t) [] var false (Some Xor)) as [[[vs sid] c]|] eqn:Ei; [|discriminate]. cbn [bind] in H.
    assert (Sid : forall v y, ids_get v sid = Some y -> exists z, y = (var ++ " = " ++ str_Z z)%string).
    { unfold iter2var in Ei. destruct (f_states t) as [|q0 r0] eqn:Es; [apply Ok_inj in Ei; injection Ei as _ <- _; discriminate|].
      rewrite <- Es in *. cbn [has existsb lookup] in Ei.
      assert (FI : forallb is_int (f_states t) = true).
      { apply forallb_forall. intros v Iv. destruct (SI v Iv) as (z & ->). reflexivity. }
      rewrite FI in Ei. apply Ok_inj in Ei. injection Ei as _ <- _. intros v y K.
      apply (ids_get_map_inv (fun x => (var ++ " = " ++ sval_text x)%string)) in K. destruct K as [Iv ->].
      destruct (SI v Iv) as (z & ->). exists z. reflexivity. }
    destruct (map_ap_to_states t) as [tab|]; [|discriminate]. cbn [bind] in H.
    assert (J : exists l0 l, mapr (fun x => of_opt "KeyError" (ids_get x sid)) (iter_set l0) = Ok l /\ x = disj l).
    { apply (mapr_Forall2 _ (fun kv y => exists l, mapr (fun x => of_opt "KeyError" (ids_get x sid)) (iter_set (snd kv)) = Ok l /\ y = (fst kv, disj l))) in H.
      - clear -H I. induction H as [|[k l0] y tab m (l & E & ->) F IH]; [destruct I|]. cbn [fst snd] in *.
        destruct I as [X|I]; [injection X as <- <-; exists l0, l; simpl; auto|auto].
      - intros kv y _ K. cbv beta in K. destruct (mapr _ (iter_set (snd kv))) as [l|] eqn:E; [|discriminate].
        cbn [bind] in K. apply Ok_inj in K. subst y. eauto. }
    destruct J as (l0 & l & Em & ->).
    assert (F : Forall (fun y => exists z, y = (var ++ " = " ++ str_Z z)%string) l).
    { apply (mapr_Forall2 _ (fun _ y => exists z, y = (var ++ " = " ++ str_Z z)%string)) in Em.
      - clear -Em. induction Em; constructor; auto.
      - intros q y _ K. apply of_opt_ok in K. eapply Sid; eauto. }
    assert (C : exists es, Forall2 (chain 5) (map pstr l) es /\ Forall (fun e => no_str e = true /\ plain_ops e = true) es).
    { clear -F Hv. induction F as [|y l Hz F IH]; [exists []; split; constructor|]. destruct Hz as (z & ->), IH as (es & C & D).
      exists (NCmp "=" (NVar var) (NNum (str_Z z)) :: es). split; constructor; auto.
      apply atom_chain. unfold pstr. apply (atom_paren_chain 8). apply chain_eq; apply atom_chain; [apply atom_ident|apply atom_num]; auto.
      apply (proj1 (str_Z_number z)). }
    destruct C as (es & C & D). unfold disj in P. destruct C as [|y e0 r es C0 C].
    - cbn in P. discriminate.
    - pose proof (chain_parse _ _ _ (chain_join_or _ _ _ _ C0 C)) as P'. rewrite P in P'. injection P' as ->.
      inversion D as [|? ? D0 D']; subst. clear -D0 D'. revert e0 D0. unfold fold_op.
      induction es as [|e es IH]; intros e0 D0; cbn [fold_left]; auto. inversion D' as [|? ? X Y]; subst. apply IH; auto.
      unfold mk_bin. cbn [no_str plain_ops]. destruct D0 as [-> ->], X as [-> ->]. auto.
  Qed.

  (** On executions the replaced propositions have the values of their definitions. *)
  Lemma dep_defines m : build_dependent_var_table iter_set t var = Ok m ->
    (forall p, In p (f_aps t) -> exists q, labelled t q p) ->
    forall s ignore E, executes t ignore false var E s -> defines (defs_of m) s s.
  Proof.
    intros H All s ignore E (loc & L & _ & _ & Lab). destruct (dep_table m H) as [A B].
    intros i x. unfold defs_of. destruct (find (fun p => (fst p =? x)%string) m) as [[k f]|] eqn:F; [|reflexivity].
    apply find_some in F. destruct F as [I E']. cbn [fst] in E'. apply String.eqb_eq in E'. subst k. cbn [snd].
    assert (Ix : In x (f_aps t)) by (rewrite <- A; apply (in_map fst) in I; exact I).
    destruct (B x f I) as [[N _]|[_ (_ & e & P & M)]]; [destruct (All x Ix) as (q & Q); destruct (N q Q)|].
    rewrite P. rewrite (M s i), (Lab i x Ix). destruct (L i) as (Il & Sl & U). split.
    - intro K. exists (loc i). auto.
    - intros (q & K & Iq & Sq). rewrite <- (U q Iq Sq). exact K.
  Qed.
End Table.
