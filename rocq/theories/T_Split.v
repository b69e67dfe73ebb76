(** C06, C07: splitting a formula into the parts of a GR(1) specification.
    tulip/spec/gr1_fragment.py:174-319 *)
From Coq Require Import List String Bool.
From Verif Require Import M_Base M_Ast M_Parser M_Spec M_Split S_LTL S_Gr1 S_Syntax S_Split.
From Verif Require Import L_Gr1 L_RoundTrip L_ParseWf L_Split.
Import ListNotations.
Open Scope string_scope.

(** C06.  Whenever a text is split, the formulas of the parts hold (initially / always /
    infinitely often) on exactly the traces on which the text holds.  String constants are
    excluded, because printing drops their quotes (T_Syntax.round_trip_strings_refuted); a part
    to which nothing belongs is the text [""], which stands for no formula. *)
Theorem split_gr1_meaning : forall f t d,
  parse f = Some t -> no_str t = true -> split_gr1_text f = Ok d ->
  exists G, split_part d = Some G /\ forall s, sat_part s G <-> holds s 0 t.
Proof.
  intros f t d P N H. unfold split_gr1_text in H. rewrite P in H.
  eapply split_meaning; eauto. split; auto. eapply parse_wf; eauto.
Qed.
Print Assumptions split_gr1_meaning.

Example split_gr1_case : exists t,
  parse "p && [](q -> X p) && []<> r && [](x = 3 || p)" = Some t /\ no_str t = true /\
  split_gr1_text "p && [](q -> X p) && []<> r && [](x = 3 || p)"
  = Ok (["p"], ["( q -> ( X p ) ) & ( ( x = 3 ) | p )"], ["r"]).
Proof. eexists. repeat split; vm_compute; reflexivity. Qed.

(** C06 for str_to_grspec: the specification's assumption implies its guarantee on exactly the
    traces of the formula. *)
Theorem str_to_grspec_meaning : forall f t g,
  parse f = Some t -> no_str t = true -> str_to_grspec f = Ok g ->
  exists A G,
    split_part (env_init g, env_safety g, env_prog g) = Some A /\
    split_part (sys_init g, sys_safety g, sys_prog g) = Some G /\
    (forall s, (sat_part s A -> sat_part s G) <-> holds s 0 t) /\
    env_vars g = [] /\ sys_vars g = [].
Proof.
  intros f t g P N H. unfold str_to_grspec in H. rewrite P in H.
  pose proof (parse_wf f t P) as W.
  destruct t; try discriminate. destruct (op =? "->") eqn:E; [|discriminate].
  apply String.eqb_eq in E. subst.
  cbn [wf_node no_str] in *.
  apply andb_prop in W. destruct W as [W Wr]. apply andb_prop in W. destruct W as [_ Wl].
  apply andb_prop in N. destruct N as [Nl Nr].
  destruct (split_gr1 t1) as [[[ai ag] af]|] eqn:E1; [|discriminate]. cbn [bind] in H.
  destruct (split_gr1 t2) as [[[si sg] sf]|] eqn:E2; [|discriminate]. cbn [bind] in H.
  apply Ok_inj in H. subst g.
  destruct (split_meaning t1 _ (conj Wl Nl) E1) as (A & PA & SA).
  destruct (split_meaning t2 _ (conj Wr Nr) E2) as (G & PG & SG).
  exists A, G. split; [exact PA|]. split; [exact PG|]. split; [|split; reflexivity].
  intro s. change (holds s 0 (NBin "->" t1 t2)) with (holds s 0 t1 -> holds s 0 t2).
  rewrite SA, SG. reflexivity.
Qed.
Print Assumptions str_to_grspec_meaning.

Example str_to_grspec_case : exists t,
  parse "(a && []<> b) -> ([](c -> X a) && []<> c)" = Some t /\ no_str t = true /\
  str_to_grspec "(a && []<> b) -> ([](c -> X a) && []<> c)"
  = Ok (spec_of [] [] ["a"] [""] [""] ["( c -> ( X a ) )"] ["b"] ["c"]).
Proof. eexists. repeat split; vm_compute; reflexivity. Qed.

(** The statement that every text of the result is a formula is false: a part without formulas
    is the empty text, which does not parse. *)
Theorem split_gr1_texts_parse_refuted : exists f d,
  split_gr1_text f = Ok d /\ In "" (fst (fst d)) /\ parse "" = None.
Proof.
  exists "[] p", ([""], ["p"], []). repeat split; vm_compute; auto.
Qed.
Print Assumptions split_gr1_texts_parse_refuted.

(** C07.  Only conjunctions of the three GR(1) shapes are split, up to weak until; the other
    formulas raise AssertionError. *)
Theorem split_gr1_accepts_only : forall f t d,
  parse f = Some t -> split_gr1_text f = Ok d -> gr1 ["G"; "F"; "U"; "V"] t.
Proof.
  intros f t d P H. unfold split_gr1_text in H. rewrite P in H.
  eapply split_accepts_only; eauto. eapply parse_wf; eauto.
Qed.
Print Assumptions split_gr1_accepts_only.

Theorem split_gr1_decides : forall f t,
  parse f = Some t -> plain_ops t = true ->
  (gr1 ["G"; "F"; "U"; "V"] t -> exists d, split_gr1_text f = Ok d) /\
  (~ gr1 ["G"; "F"; "U"; "V"] t -> split_gr1_text f = Err "AssertionError").
Proof.
  intros f t P O. unfold split_gr1_text. rewrite P.
  apply split_total; auto. eapply parse_wf; eauto.
Qed.
Print Assumptions split_gr1_decides.

Example split_gr1_rejects : exists t,
  parse "p && [] (q U r)" = Some t /\ plain_ops t = true /\
  split_gr1_text "p && [] (q U r)" = Err "AssertionError" /\
  ~ gr1 ["G"; "F"; "U"; "V"] t.
Proof.
  eexists. repeat split; try (vm_compute; reflexivity).
  intro H.
  assert (K : exists t, parse "p && [] (q U r)" = Some t /\ plain_ops t = true) by
    (eexists; split; vm_compute; reflexivity).
  destruct K as (t & P & O).
  destruct (split_gr1_decides _ _ P O) as [K _].
  vm_compute in P. injection P as <-. destruct (K H) as [d Hd]. vm_compute in Hd. discriminate.
Qed.

(** The full statement, with W among the excluded operators, is false: a weak until is neither
    an initial condition nor an invariant of GR(1), but is accepted in both places. *)
Theorem split_gr1_weak_until_refuted : exists f t d,
  parse f = Some t /\ split_gr1_text f = Ok d /\ ~ gr1 ["G"; "F"; "U"; "V"; "W"] t.
Proof.
  exists "p W q". eexists. exists (["( p W q )"], [""], []).
  split; [vm_compute; reflexivity|]. split; [vm_compute; reflexivity|].
  intro H. inversion H as [|? F| |]; subst. apply (F "W"); [simpl; tauto|constructor].
Qed.
Print Assumptions split_gr1_weak_until_refuted.
