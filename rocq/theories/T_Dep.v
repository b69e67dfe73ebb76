(** C21: replacing dependent propositions. *)
From Coq Require Import List String Ascii Bool Arith ZArith Lia Permutation.
From Verif Require Import M_Base M_Ast M_Lexer M_Parser M_Spec M_Form M_Tree M_Synth M_Dep.
From Verif Require Import S_LTL S_Gr1 S_Form S_Syntax S_Tree S_Synth.
From Verif Require Import L_Gr1 L_Form L_Den L_Synth L_Synth2 L_Dep T_Subst T_Synth.
Import ListNotations.
Open Scope string_scope.
Open Scope list_scope.

(** Each proposition gets a formula true exactly at the locations labelled with it, whatever the
    order in which sets are iterated; a proposition labelling no state gets the empty text. *)
Theorem dependent_table : forall iter_set, (forall l, Permutation (iter_set l) l) ->
  forall t var m, NoDup (f_states t) -> (forall q, In q (f_states t) -> good_name q) -> NoDup (f_aps t) -> ident var ->
  build_dependent_var_table iter_set t var = Ok m ->
  map fst m = f_aps t /\
  forall p x, In (p, x) m ->
    ((forall q, ~ labelled t q p) /\ x = "") \/
    ((exists q, labelled t q p) /\
     forall s i, text_true s i x <-> exists q, labelled t q p /\ In q (f_states t) /\ shows false var q (s i)).
Proof.
  intros iter O t var m Gs Gn Gp Hv H. destruct (dep_table iter O t var Gs Gn Gp Hv m H) as [A B]. split; auto.
  intros p x I. destruct (B p x I) as [K|[E D]]; [left; auto|right]. split; auto. intros s i.
  apply (den_text x _ s i D).
Qed.
Print Assumptions dependent_table.

(** On executions of the system the rewritten specification holds exactly when the given one does. *)
Theorem dependent_replacement : forall iter_set, (forall l, Permutation (iter_set l) l) ->
  forall t var m g g' A G, NoDup (f_states t) -> NoDup (f_aps t) -> ident var ->
  (forall q, In q (f_states t) -> exists z, q = SInt z) ->
  (forall p, In p (f_aps t) -> exists q, labelled t q p) ->
  build_dependent_var_table iter_set t var = Ok m -> replace_dependent_vars g m = Ok g' ->
  env_part g = Some A -> sys_part g = Some G ->
  (forall f, In f (part_formulas A ++ part_formulas G) -> no_str f = true /\ forall p, In p (f_aps t) -> ~ In p (term_vars f)) ->
  exists A' G', env_part g' = Some A' /\ sys_part g' = Some G' /\
    forall s ignore E, executes t ignore false var E s ->
      (sat_part s A' <-> sat_part s A) /\ (sat_part s G' <-> sat_part s G).
Proof.
  intros iter O t var m g g' A G Gs Gp Hv SI All H R EA EG F.
  assert (Gn : forall q, In q (f_states t) -> good_name q) by (intros q I; destruct (SI q I) as (z & ->); exact Logic.I).
  destruct (dep_table iter O t var Gs Gn Gp Hv m H) as [K B].
  destruct (replace_meaning g m g' A G R EA EG) as (A' & G' & EA' & EG' & M).
  - intros f I. destruct (F f I) as [N T]. split; auto. intros x J. unfold defs_of.
    destruct (find (fun p => (fst p =? x)%string) m) as [[k y]|] eqn:E; auto.
    apply find_some in E. destruct E as [I' E]. cbn [fst] in E. apply String.eqb_eq in E. subst k.
    exfalso. apply (T x); auto. rewrite <- K. apply (in_map fst) in I'. exact I'.
  - intros v f D. unfold defs_of in D. destruct (find (fun p => (fst p =? v)%string) m) as [[k y]|] eqn:E; [|discriminate].
    apply find_some in E. destruct E as [I' E]. cbn [snd] in D. apply (dep_no_str iter t var Gs Gn Hv m H SI k y f I' D).
  - exists A', G'. split; auto. split; auto. intros s ig E X. apply M. eapply dep_defines; eauto.
Qed.
Print Assumptions dependent_replacement.

(** A system with integer states; the table and the rewritten clauses. *)
Definition t6 : fts := {|
  f_nodes := [(SInt 0, Some ["p"]); (SInt 1, Some ["p"; "q"]); (SInt 2, Some [])];
  f_initial := [SInt 0]; f_aps := ["p"; "q"]; f_actions := []; f_sys_must := None; f_env_must := None;
  f_trans := [{| e_from := SInt 0; e_to := SInt 1; e_label := []; e_prev := [] |};
              {| e_from := SInt 1; e_to := SInt 2; e_label := []; e_prev := [] |};
              {| e_from := SInt 2; e_to := SInt 0; e_label := []; e_prev := [] |}]; f_owner := "sys" |}.
Definition g6 : grspec := spec_of [] [("p", DBool); ("q", DBool); ("loc", DInt 0 2)] [] ["p"] [] ["q -> X(! p)"] [] ["p & ! q"].
Example dependent_case :
  build_dependent_var_table (fun l => l) t6 "loc" = Ok [("p", "(loc = 0) || (loc = 1)"); ("q", "(loc = 1)")] /\
  (exists g', replace_dependent_vars g6 [("p", "(loc = 0) || (loc = 1)"); ("q", "(loc = 1)")] = Ok g' /\
     sys_safety g' = ["( ( loc = 1 ) -> ( X ( ! ( ( loc = 0 ) | ( loc = 1 ) ) ) ) )"]) /\
  (forall p, In p (f_aps t6) -> exists q, labelled t6 q p) /\
  (forall q, In q (f_states t6) -> exists z, q = SInt z) /\
  (exists A G, env_part g6 = Some A /\ sys_part g6 = Some G /\
   forall f, In f (part_formulas A ++ part_formulas G) -> no_str f = true /\ forall p, In p (f_aps t6) -> ~ In p (term_vars f)) /\
  executes t6 false false "loc" (edge_actions t6 false)
    (fun i x => if (x =? "loc")%string then VZ (Z.of_nat (i mod 3)) else VB (if (x =? "p")%string then negb (i mod 3 =? 2)%nat else (i mod 3 =? 1)%nat)).
Proof.
  split; [vm_compute; reflexivity|]. split; [eexists; vm_compute; split; reflexivity|]. split; [|split; [|split]].
  - intros p I. cbn in I. ins; subst p; [exists (SInt 0), ["p"]|exists (SInt 1), ["p"; "q"]]; cbn; auto.
  - intros q I. cbn in I. ins; subst q; eauto.
  - eexists _, _. split; [vm_compute; reflexivity|]. split; [vm_compute; reflexivity|].
    intros f I. cbn in I. ins; subst f; (split; [reflexivity|]); intros p Ip; cbn; tauto.
  - exists (fun i => SInt (Z.of_nat (i mod 3))).
    assert (C : forall i, i mod 3 = 0 \/ i mod 3 = 1 \/ i mod 3 = 2) by (intro i; pose proof (Nat.mod_upper_bound i 3); lia).
    assert (N : forall i, S i mod 3 = if (i mod 3 =? 2)%nat then 0 else S (i mod 3)).
    { intro i. replace (S i) with (1 + i) by lia. rewrite <- Nat.add_mod_idemp_r by lia. destruct (C i) as [->|[->| ->]]; reflexivity. }
    split; [|split; [|split]].
    + intro i. split; [destruct (C i) as [->|[->| ->]]; cbn; auto|]. split; [reflexivity|].
      intros q I Sq. cbn in I. cbn -[Nat.modulo Z.of_nat] in Sq. ins; subst q; congruence.
    + intros _. left. reflexivity.
    + intro i. rewrite N.
      destruct (C i) as [->|[->| ->]];
        [exists {| e_from := SInt 0; e_to := SInt 1; e_label := []; e_prev := [] |}
        |exists {| e_from := SInt 1; e_to := SInt 2; e_label := []; e_prev := [] |}
        |exists {| e_from := SInt 2; e_to := SInt 0; e_label := []; e_prev := [] |}];
        (split; [cbn; auto|]); (split; [reflexivity|]); (split; [reflexivity|]); (split; [intros k v []|intros a []]).
    + intros i p I. cbn in I. unfold labelled. ins; subst p; cbn -[Nat.modulo Z.of_nat]; destruct (C i) as [->|[->| ->]]; cbn; split; try discriminate; auto;
        try (intros _; solve [exists ["p"]; cbn; auto | exists ["p"; "q"]; cbn; auto]);
        intros (l & I & J); exfalso; ins; try discriminate; injection I as <-; cbn in J; ins; discriminate.
Qed.

(** A proposition that labels no state has the empty definition, which does not parse. *)
Theorem dependent_unlabelled_refuted : exists t var m,
  build_dependent_var_table (fun l => l) t var = Ok m /\ good_fts t /\
  forall g, exists e, replace_dependent_vars g m = Err e.
Proof.
  exists {| f_nodes := [(SInt 0, Some [])]; f_initial := [SInt 0]; f_aps := ["p"]; f_actions := [];
            f_sys_must := None; f_env_must := None;
            f_trans := [{| e_from := SInt 0; e_to := SInt 0; e_label := []; e_prev := [] |}]; f_owner := "sys" |}, "loc".
  eexists. split; [vm_compute; reflexivity|]. split.
  - constructor; cbn -[ident]; try (intros; ins; contradiction).
    + nodup.
    + intros q I. ins; subst q; exact Logic.I.
    + intros p I. idents.
    + constructor.
    + intros e I. ins; subst e; (split; [constructor|intros v []]).
  - intro g. unfold replace_dependent_vars. cbn [subtrees]. destruct (lookup "p" (vardoms g)) as [[]|]; cbn; eauto.
Qed.
Print Assumptions dependent_unlabelled_refuted.

(** With string states the constants lose their quotes when the clause is printed, and the
    rewritten clause compares the location with an undeclared variable. *)
Theorem dependent_strings_refuted : exists t var m g g',
  good_fts t /\ build_dependent_var_table (fun l => l) t var = Ok m /\
  replace_dependent_vars g m = Ok g' /\ check_syntax g = Ok tt /\ check_syntax g' = Err "ValueError".
Proof.
  exists {| f_nodes := [(SStr "s0", Some ["p"])]; f_initial := [SStr "s0"]; f_aps := ["p"]; f_actions := [];
            f_sys_must := None; f_env_must := None;
            f_trans := [{| e_from := SStr "s0"; e_to := SStr "s0"; e_label := []; e_prev := [] |}]; f_owner := "sys" |}, "loc".
  eexists. exists (spec_of [] [("p", DBool); ("loc", DEnum ["s0"])] [] ["p"] [] [] [] []). eexists.
  split; [|split; [vm_compute; reflexivity|]; split; [vm_compute; reflexivity|]; split; vm_compute; reflexivity].
  constructor; cbn -[ident]; try (intros; ins; contradiction).
  - nodup.
  - intros q I. idents.
  - intros p I. idents.
  - constructor.
  - intros e I. ins; subst e; (split; [constructor|intros v []]).
Qed.
Print Assumptions dependent_strings_refuted.
