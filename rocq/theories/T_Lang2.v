(** C72: the interface to Lily; translation of formulas to SMV and Promela. *)
From Coq Require Import List String Ascii Bool Arith ZArith Lia.
From Verif Require Import M_Base M_Ast M_Parser M_Spec M_Form M_Tree M_Gr1c M_Lang.
From Verif Require Import S_LTL S_Gr1 S_Form S_Syntax S_Tree S_Python S_Lang.
From Verif Require Import L_Gr1 L_Form L_ParseWf L_Encode L_Python L_Lang T_Encode T_Lang.
From Verif Require L_Tree L_Synth2.
Import ListNotations.
Open Scope string_scope.
Open Scope list_scope.
Open Scope nat_scope.

(** * The file with the variables *)
Definition dark (c : ascii) : bool := negb (is_white c).
Lemma words_dark l : Forall (fun w => w <> "" /\ forallb dark (chars w) = true) l ->
  line_words (" " ++ join " " l) = l.
Proof.
  unfold line_words. cbn [append list_ascii_of_string split_words]. change (is_white " ") with true. cbn iota. change (flush "") with (@nil string). cbn [app].
  intro F. induction F as [|w l [NE D] F IH]; [reflexivity|].
  assert (S : solid is_white (fun _ => false) w = true).
  { unfold solid. rewrite forallb_forall in *. intros c C. rewrite orb_false_r. apply (D c C). }
  destruct l as [|v l].
  - cbn [join]. pose proof (solid_lexes is_white (fun _ => false) w S NE [] Logic.I) as E. rewrite app_nil_r in E. exact E.
  - change (join " " (w :: v :: l)) with (w ++ " " ++ join " " (v :: l))%string. rewrite chars_cat.
    rewrite (solid_lexes is_white (fun _ => false) w S NE) by reflexivity. cbn [append list_ascii_of_string split_words app]. change (is_white " ") with true. cbn iota.
    change (flush "") with (@nil string). cbn [app]. f_equal. exact IH.
Qed.
Definition unbroken (s : string) : bool := forallb (fun c => negb (Ascii.eqb c (ascii_of_nat 10))) (chars s).
Lemma lines_unbroken s rest : forall acc, unbroken s = true -> file_lines (chars s ++ rest) acc = file_lines rest (acc ++ s).
Proof.
  unfold unbroken. induction s as [|c s IH]; intros acc H; cbn [list_ascii_of_string app].
  - f_equal. clear. induction acc; cbn; congruence.
  - cbn [list_ascii_of_string forallb] in H. apply andb_true_iff in H. destruct H as [H1 H2]. cbn [file_lines]. apply negb_true_iff in H1. rewrite H1, IH by exact H2.
    f_equal. clear. induction acc; cbn; congruence.
Qed.
Lemma unbroken_app a b : unbroken a = true -> unbroken b = true -> unbroken (a ++ b) = true.
Proof. unfold unbroken. intros A B. rewrite chars_cat, forallb_app, A, B. reflexivity. Qed.
Lemma unbroken_join l : Forall (fun w => w <> "" /\ forallb dark (chars w) = true) l -> unbroken (join " " l) = true.
Proof.
  induction 1 as [|w l [_ D] F IH]; [reflexivity|].
  assert (U : unbroken w = true).
  { unfold unbroken. rewrite forallb_forall in *. intros c C. specialize (D c C). destruct (Ascii.eqb_spec c (ascii_of_nat 10)); [subst c; discriminate|reflexivity]. }
  destruct l as [|v l]; [exact U|]. change (join " " (w :: v :: l)) with (w ++ " " ++ join " " (v :: l))%string. repeat apply unbroken_app; auto.
Qed.
Lemma name_dark res w : name_text res w = true -> w <> "" /\ forallb dark (chars w) = true.
Proof.
  intro N. destruct (name_parts res w N) as (c & r & -> & _ & W & _). split; [discriminate|].
  eapply forallb_weaken; [|exact W]. intros [[] [] [] [] [] [] [] []] H; vm_compute in H; try discriminate H; reflexivity.
Qed.
Theorem partition_reading : forall env sys, (forall v, In v (env ++ sys) -> exists r, name_text r v = true) ->
  partition_read (partition_file env sys) = Some (env, sys).
Proof.
  intros env sys N. assert (E : Forall (fun w => w <> "" /\ forallb dark (chars w) = true) env /\ Forall (fun w => w <> "" /\ forallb dark (chars w) = true) sys).
  { split; apply Forall_forall; intros v V; destruct (N v) as [r R]; try (apply in_or_app; auto); apply (name_dark r v R). }
  destruct E as [E S]. unfold partition_read, partition_file.
  replace (".inputs " ++ join " " env ++ nl ++ ".outputs " ++ join " " sys)%string with ((".inputs" ++ " " ++ join " " env) ++ nl ++ (".outputs" ++ " " ++ join " " sys))%string
    by (rewrite !str_assoc; reflexivity).
  rewrite chars_cat, lines_unbroken by (repeat apply unbroken_app; [reflexivity|reflexivity|apply unbroken_join, E]).
  change (chars (nl ++ (".outputs" ++ " " ++ join " " sys)%string)) with (ascii_of_nat 10 :: chars (".outputs" ++ " " ++ join " " sys)).
  change (file_lines (ascii_of_nat 10 :: chars (".outputs" ++ " " ++ join " " sys)) ("" ++ ".inputs" ++ " " ++ join " " env)) with
    ((".inputs" ++ " " ++ join " " env)%string :: file_lines (chars (".outputs" ++ " " ++ join " " sys)) "").
  rewrite <- (app_nil_r (chars (".outputs" ++ " " ++ join " " sys))), lines_unbroken by (repeat apply unbroken_app; [reflexivity|reflexivity|apply unbroken_join, S]).
  cbn [file_lines map].
  change (line_words (".inputs" ++ " " ++ join " " env)) with (".inputs" :: line_words (" " ++ join " " env)).
  change (line_words ("" ++ ".outputs" ++ " " ++ join " " sys)) with (".outputs" :: line_words (" " ++ join " " sys)).
  rewrite !words_dark by assumption. reflexivity.
Qed.
Print Assumptions partition_reading.
Example partition_case : partition_file ["a"; "b1"] ["c"] = (".inputs a b1" ++ nl ++ ".outputs c")%string /\
  (forall v, In v (["a"; "b1"] ++ ["c"]) -> exists r, name_text r v = true).
Proof. split; [reflexivity|]. cbn. intros v [<-|[<-|[<-|[]]]]; exists []; reflexivity. Qed.

(** * The answer of Lily *)
(** Lily is given the formula and the variables; None is returned iff the file says so. *)
Theorem lily_given : forall lily g r, lily_synthesize lily g = Ok r ->
  (forall v, In v (map fst (env_vars g ++ sys_vars g)) -> name_text wring_reserved v = true) ->
  (forall x t, In x (clauses g) -> parse x = Some t -> logical t = true) ->
  exists f p t, wring_read f = Some t /\ (forall s, holds s 0 t <-> (sat_part s (env_part g) -> sat_part s (sys_part g))) /\
    partition_read p = Some (map fst (env_vars g), map fst (sys_vars g)) /\
    (r = None <-> exists rest, lily f p = ("Formula is not realizable" ++ rest)%string).
Proof.
  intros lily g r H N L. unfold lily_synthesize in H. destruct (forallb _ _); [|discriminate]. destruct (to_wring g) as [f|] eqn:W; [|discriminate]. cbn [bind] in H.
  destruct (wring_document g f W N L) as (t & R & M). exists f, (partition_file (map fst (env_vars g)) (map fst (sys_vars g))), t. split; [exact R|]. split; [exact M|]. split.
  - apply partition_reading. intros v V. rewrite <- map_app in V. eauto.
  - assert (P : forall p s : string, String.prefix p s = true <-> exists rest, s = (p ++ rest)%string).
    { clear. induction p as [|a p IH]; intro s; cbn [String.prefix append]; [split; [intros _; exists s; reflexivity|intros _; destruct s; reflexivity]|]. destruct s as [|b s]; [split; [discriminate|intros [q Q]; discriminate]|].
      cbn [String.prefix]. destruct (ascii_dec a b) as [->|D].
      - destruct (IH s) as [I1 I2]. split; [intro X; destruct (I1 X) as [q Q]; exists q; congruence|intros [q Q]; apply I2; exists q; congruence].
      - split; [discriminate|intros [q Q]; congruence]. }
    rewrite <- P. cbv zeta in H. destruct (String.prefix _ _) eqn:E.
    + apply Ok_inj in H. subst r. tauto.
    + destruct (lily_machine _ _ _); [|discriminate]. cbn [bind] in H. apply Ok_inj in H. subst r. split; discriminate.
Qed.
Print Assumptions lily_given.
Theorem lily_types : forall lily g, (exists r, lily_synthesize lily g = Ok r) -> NoDup (map fst (env_vars g ++ sys_vars g)) ->
  forall v d, In (v, d) (env_vars g ++ sys_vars g) -> d = DBool.
Proof.
  intros lily g [r H] ND v d I. unfold lily_synthesize in H. destruct (forallb _ _) eqn:F; [|discriminate]. rewrite forallb_forall in F.
  assert (J : In (v, d) (dupdate (env_vars g) (sys_vars g))).
  { apply L_Form.lookup_in. rewrite map_app in ND. apply L_Tree.NoDup_app_iff in ND. destruct ND as (NE & NS & D). rewrite L_Form.lookup_dupdate by exact NS.
    apply in_app_or in I. destruct I as [I|I].
    - assert (E : lookup v (sys_vars g) = None) by (apply L_Form.lookup_none_iff; intro K; apply (D v); [apply (in_map fst) in I; exact I|exact K]).
      rewrite E. apply L_Synth2.In_lookup; assumption.
    - rewrite (L_Synth2.In_lookup v _ d NS I). reflexivity. }
  specialize (F _ J). cbn in F. destruct d; congruence.
Qed.
Print Assumptions lily_types.
Example lily_types_case : lily_synthesize (fun _ _ => "Formula is not realizable") ex_wring = Ok None /\ NoDup (map fst (env_vars ex_wring ++ sys_vars ex_wring)).
Proof. split; [vm_compute; reflexivity|]. repeat constructor; cbn; intuition discriminate. Qed.

(** Whatever Lily answers, a machine that is returned has no states: only title lines are kept. *)
Lemma mapr_fails {A B} (f : A -> res B) l ys : (forall x, exists e, f x = Err e) -> mapr f l = Ok ys -> l = [].
Proof. intros E H. destruct l as [|x l]; [reflexivity|]. cbn [mapr] in H. destruct (E x) as [e X]. rewrite X in H. discriminate. Qed.
Theorem lily_no_states : forall text env sys m, lily_machine text env sys = Ok m ->
  lm_states m = [] /\ lm_initial m = [] /\ lm_edges m = [].
Proof.
  intros text env sys m H. unfold lily_machine in H. cbv zeta in H. destruct (mapr lily_edge _) as [edges|]; [|discriminate]. cbn [bind] in H.
  destruct (mapr lily_node _) as [en|]; [|discriminate]. cbn [bind] in H. set (sn := filter _ (filter _ _)) in H.
  destruct (mapr _ (flat_map _ _)) as [init|] eqn:I; [|discriminate]. cbn [bind] in H. destruct (mapr (lily_react _) _) as [u|] eqn:R; [|discriminate]. cbn [bind] in H.
  apply Ok_inj in H. subst m. cbn [lm_states lm_initial lm_edges]. apply mapr_fails in R.
  2: { intro x. unfold lily_react. destruct (map snd _) as [|v r]; [eauto|]. destruct (forallb _ r); eauto. }
  split; [exact R|]. split; [|reflexivity]. assert (E : sn = []) by (destruct sn; [reflexivity|discriminate R]). rewrite E in I. clear - I.
  assert (Q : forall v, In v (flat_map (fun u => map snd (filter (fun e => lnode_eqb (fst e) (to_lnode [] u)) (map (fun e : string * string * string => (to_lnode [] (fst (fst e)), to_lnode [] (snd (fst e)))) edges)))
     (filter (fun x => String.prefix "init-" x) (dedup (flat_map (fun e => [fst (fst e); snd (fst e)]) edges)))) -> exists x, v = LEnv x).
  { intros v V. apply in_flat_map in V. destruct V as (u & _ & V). apply in_map_iff in V. destruct V as (e & <- & V). apply filter_In in V. destruct V as [V _].
    apply in_map_iff in V. destruct V as (d & <- & _). cbn. eauto. }
  destruct (flat_map _ _) as [|v l]; [cbn in I; apply Ok_inj in I; congruence|]. cbn [mapr] in I. destruct (Q v (or_introl eq_refl)) as [x ->]. discriminate I.
Qed.
Print Assumptions lily_no_states.
(** Hence no answer of Lily leads to a transducer: the specification below requires a state. *)
Theorem lily_returns_machine_refuted : exists g, (exists t, to_wring g = Ok t) /\
  (exists s, sat_part s (env_part g)) /\ (forall s, sat_part s (env_part g) -> sat_part s (sys_part g)) /\
  forall lily m, lily_synthesize lily g = Ok (Some m) -> lm_states m = [].
Proof.
  exists (spec_of [("a", DBool)] [("b", DBool)] [] [] [] ["b | !b"] [] []). split; [eexists; vm_compute; reflexivity|]. split.
  { exists (fun _ _ => VB true). repeat split; intros f []. }
  split.
  { intros s _. split; [intros f []|]. split; [|intros f []]. intros f F i. vm_compute in F. destruct F as [<-|[]]. cbn. destruct (s i "b") as [[]| |]; auto; right; discriminate. }
  intros lily m H. unfold lily_synthesize in H. destruct (forallb _ _); [|discriminate]. destruct (to_wring _); [|discriminate]. cbn [bind] in H. cbv zeta in H.
  destruct (String.prefix _ _); [discriminate|]. destruct (lily_machine _ _ _) as [m'|] eqn:M; [|discriminate]. cbn [bind] in H. apply Ok_inj in H. injection H as ->. apply (lily_no_states _ _ _ _ M).
Qed.
Print Assumptions lily_returns_machine_refuted.
(** An answer with the states and the edges of a transducer. *)
Example lily_case : lily_machine ("digraph ""Game"" {" ++ nl ++ """title"" [label=""a""];" ++ nl ++ """s0"" [shape=box];" ++ nl ++ """init-0"" -> ""s0"" [label=""""];" ++ nl ++
  """s0"" -> ""e0"" [label="" b = 1 ""];" ++ nl ++ """e0"" -> ""s0"" [label="" a = 1 ""];" ++ nl ++ "}") ["a"] ["b"] = Ok (LMachine ["a"] ["b"] [] [] []).
Proof. vm_compute. reflexivity. Qed.

(** * SMV and Promela *)
Definition smv_operators : list string := ["X"; "G"; "F"; "U"].
Theorem smv_supported : forall t, wf_node t = true ->
  (exists y, plain_print smv_opmap t = Ok y) <-> (forall op, In op (operators t) -> In op smv_operators).
Proof.
  intros t W. unfold plain_print. rewrite print_iff. rewrite (mapped smv_opmap smv_operators t W) by reflexivity. split; [tauto|]. intro H. split; [exact H|eauto].
Qed.
Print Assumptions smv_supported.
(** No formula with a negation, a conjunction or a Boolean constant has a translation to SMV. *)
Theorem smv_connectives_refuted : forall op, In op ["!"; "&"; "|"; "->"; "<->"; "V"; "True"; "="] ->
  exists x t, parse x = Some t /\ In op (operators t) /\ plain_print smv_opmap t = Err "KeyError".
Proof.
  intros op I. cbn in I. destruct I as [<-|[<-|[<-|[<-|[<-|[<-|[<-|[<-|[]]]]]]]]];
    [exists "!p"|exists "p & q"|exists "p | q"|exists "p -> q"|exists "p <-> q"|exists "p V q"|exists "True"|exists "x = 1"];
    eexists; (split; [vm_compute; reflexivity|]); (split; [cbn; auto|vm_compute; reflexivity]).
Qed.
Print Assumptions smv_connectives_refuted.

Definition promela_operators : list string :=
  ["True"; "False"; "!"; "->"; "<->"; "X"; "G"; "F"; "U"; "W"; "V"; "="; "!="; "<"; "<="; ">"; ">="].
Ltac infix Tl Tr :=
  match goal with |- text _ _ _ ("( " ++ _ ++ " " ++ ?o ++ " " ++ _ ++ " )") _ =>
    assert (LO : lexes is_white jtlv_punct o [o]) by (first [apply solid_lexes; [reflexivity|discriminate]|apply any_lexes; lit]);
    refine (text_infix_words promela is_white jtlv_punct eq_refl eq_refl eq_refl eq_refl eq_refl o o _ _ _ _ _ LO Tl Tr _) end;
  let wa := fresh in let wb := fresh in let RA := fresh in let RB := fresh in intros wa wb RA RB;
  eapply (reads_infix promela); [exact RA|exact RB|reflexivity|discriminate|discriminate].
Lemma promela_text t : forall y, plain_print promela_opmap t = Ok y -> wf_node t = true -> no_str t = true ->
  (forall op, In op (operators t) -> In op promela_operators) ->
  (forall v, In v (vars t) -> name_text promela_reserved v = true) -> text promela is_white jtlv_punct y t.
Proof.
  unfold plain_print.
  induction t as [v|v|v|v|op a IH|op l IHl r IHr|op l IHl r IHr|op l IHl r IHr|op a IHa b IHb c IHc];
    intros y H W L P N; cbn [print] in H; cbn [wf_node] in W; cbn [no_str] in L; cbn [vars] in N; cbn [operators] in P; try discriminate L.
  - pose proof (N v (or_introl eq_refl)) as Nv. destruct (name_parts _ _ Nv) as (c & r & E & Lc & Wc & _). apply Ok_inj in H. subst y.
    split; [subst v; discriminate|]. exists [v]. split; [apply solid_lexes; [unfold solid; eapply forallb_weaken; [apply word_jtlv|exact Wc]|subst v; discriminate]|].
    apply reads_atom.
    + discriminate.
    + cbn. intros ->. discriminate Nv.
    + intro q. cbn [app prefix_op promela promela_prefix]. unfold S_Lang.one_of; cbn [find fst snd]. rewrite !(String.eqb_sym _ v). rewrite !(name_other _ v _ Nv) by reflexivity.
      cbn [option_map]. destruct q; reflexivity.
    + intro q. cbn [app atom promela promela_atom]. rewrite !(name_other _ v _ Nv) by reflexivity. rewrite (name_not_number _ _ Nv), Nv. reflexivity.
  - assert (I : In v ["True"; "False"]) by (apply oneof_In; exact W). destruct I as [<-|[<-|[]]]; vm_compute in H; apply Ok_inj in H; subst y;
      (split; [discriminate|]; eexists [_]; split; [apply solid_lexes; [reflexivity|discriminate]|apply reads_atom; [discriminate|discriminate|intros [|? ?]; reflexivity|reflexivity]]).
  - apply Ok_inj in H. subst y. destruct (number_solid v W) as [S1 S2]. split; [exact S2|]. exists [v]. split; [apply solid_lexes; assumption|]. apply reads_atom.
    + discriminate.
    + cbn. intros ->. discriminate.
    + intro q. cbn [app prefix_op promela promela_prefix]. unfold S_Lang.one_of; cbn [find fst snd]. rewrite !(String.eqb_sym _ v). rewrite !(number_other v _ W) by reflexivity.
      cbn [option_map andb]. destruct q; reflexivity.
    + intro q. cbn [app atom promela promela_atom]. rewrite !(number_other v _ W) by reflexivity. rewrite W. reflexivity.
  - apply andb_true_iff in W. destruct W as [O W]. apply oneof_In in O. pieces. apply Ok_inj in H. subst y.
    pose proof (IH _ eq_refl W L (fun op I => P op (or_intror I)) N) as T. clear P.
    destruct O as [<-|[<-|[<-|[<-|[<-|[]]]]]]; cbn in Heqo; try discriminate; injection Heqo as <-.
    + apply (text_prefix promela is_white jtlv_punct eq_refl eq_refl eq_refl eq_refl eq_refl "!" ["!"]); [apply solid_lexes; [reflexivity|discriminate]|reflexivity|discriminate|discriminate|exact T].
    + apply (text_prefix promela is_white jtlv_punct eq_refl eq_refl eq_refl eq_refl eq_refl "[]" ["["; "]"]); [apply any_lexes; lit|reflexivity|discriminate|discriminate|exact T].
    + apply (text_prefix promela is_white jtlv_punct eq_refl eq_refl eq_refl eq_refl eq_refl "<>" ["<>"]); [apply solid_lexes; [reflexivity|discriminate]|reflexivity|discriminate|discriminate|exact T].
    + apply (text_prefix promela is_white jtlv_punct eq_refl eq_refl eq_refl eq_refl eq_refl "X" ["X"]); [apply solid_lexes; [reflexivity|discriminate]|reflexivity|discriminate|discriminate|exact T].
  - rewrite !andb_true_iff in W. destruct W as [[O Wl] Wr]. apply andb_true_iff in L. destruct L as [Ll Lr]. pieces. apply Ok_inj in H. subst y.
    pose proof (IHl _ eq_refl Wl Ll (fun op I => P op (or_intror (in_or_app _ _ _ (or_introl I)))) (fun v I => N v (in_or_app _ _ _ (or_introl I)))) as Tl.
    pose proof (IHr _ eq_refl Wr Lr (fun op I => P op (or_intror (in_or_app _ _ _ (or_intror I)))) (fun v I => N v (in_or_app _ _ _ (or_intror I)))) as Tr.
    specialize (P op (or_introl eq_refl)). clear N. cbn [promela_operators In] in P.
    repeat (destruct P as [<-|P]; [try (vm_compute in O; discriminate O); try (cbn in Heqo; injection Heqo as <-; infix Tl Tr)|]). destruct P.
  - rewrite !andb_true_iff in W. destruct W as [[O Wl] Wr]. apply andb_true_iff in L. destruct L as [Ll Lr]. pieces. apply Ok_inj in H. subst y.
    pose proof (IHl _ eq_refl Wl Ll (fun op I => P op (or_intror (in_or_app _ _ _ (or_introl I)))) (fun v I => N v (in_or_app _ _ _ (or_introl I)))) as Tl.
    pose proof (IHr _ eq_refl Wr Lr (fun op I => P op (or_intror (in_or_app _ _ _ (or_intror I)))) (fun v I => N v (in_or_app _ _ _ (or_intror I)))) as Tr.
    specialize (P op (or_introl eq_refl)). clear N. cbn [promela_operators In] in P.
    repeat (destruct P as [<-|P]; [try (vm_compute in O; discriminate O); try (cbn in Heqo; injection Heqo as <-; infix Tl Tr)|]). destruct P.
  - rewrite !andb_true_iff in W. destruct W as [[O _] _]. specialize (P op (or_introl eq_refl)). cbn [promela_operators In] in P.
    repeat (destruct P as [<-|P]; [vm_compute in O; discriminate O|]). destruct P.
  - rewrite !andb_true_iff in W. destruct W as [[[O _] _] _]. apply String.eqb_eq in O. subst op. specialize (P _ (or_introl eq_refl)). cbn in P. intuition discriminate.
Qed.
(** With these operators, a formula is read as the same formula. *)
Theorem promela_reading : forall t y, plain_print promela_opmap t = Ok y -> wf_node t = true -> no_str t = true ->
  (forall op, In op (operators t) -> In op promela_operators) ->
  (forall v, In v (vars t) -> name_text promela_reserved v = true) -> promela_read y = Some t.
Proof. intros t y H W L P N. apply (text_read promela is_white jtlv_punct), promela_text; assumption. Qed.
Print Assumptions promela_reading.
Example promela_case : exists t, parse "[](p -> X(q W !(x <= 3))) U (<> x = 2)" = Some t /\
  plain_print promela_opmap t = Ok "( [] ( ( p -> ( X ( q W ( ! ( x <= 3 ) ) ) ) ) U ( <> ( x == 2 ) ) ) )" /\
  wf_node t = true /\ no_str t = true /\ (forall op, In op (operators t) -> In op promela_operators) /\
  (forall v, In v (vars t) -> name_text promela_reserved v = true).
Proof.
  eexists. split; [vm_compute; reflexivity|]. split; [vm_compute; reflexivity|]. split; [reflexivity|]. split; [reflexivity|].
  split; [cbn; intuition|cbn; intuition (subst; reflexivity)].
Qed.
(** Conjunction and disjunction are printed as bitwise operators, which are not in the grammar. *)
Theorem promela_connectives_refuted : forall op, In op ["&"; "|"] ->
  exists x t y, parse x = Some t /\ operators t = [op] /\ plain_print promela_opmap t = Ok y /\ promela_read y = None.
Proof.
  intros op I. cbn in I. destruct I as [<-|[<-|[]]]; [exists "p & q"|exists "p | q"]; do 2 eexists; (split; [vm_compute; reflexivity|]);
    (split; [reflexivity|]); (split; [vm_compute; reflexivity|]); vm_compute; reflexivity.
Qed.
Print Assumptions promela_connectives_refuted.
