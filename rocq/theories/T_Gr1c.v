(** C16: translation to gr1c. *)
From Coq Require Import List String Bool Arith ZArith Lia.
From Verif Require Import M_Base M_Ast M_Parser M_Spec M_Form M_Tree M_Gr1c.
From Verif Require Import S_LTL S_Gr1 S_Form S_Syntax S_Tree S_Python S_Gr1c.
From Verif Require Import L_Gr1 L_Form L_RoundTrip L_ParseWf L_Subst L_Encode L_Python L_Gr1c T_Encode T_Python.
Import ListNotations.
Open Scope string_scope.

(** A clause in which next is applied to state formulas only: gr1c reads its text as a formula
    over the current and the next state with the same meaning. *)
Theorem gr1c_clause_meaning : forall Gamma t x, (forall v, Gamma v <> Some TyS) ->
  step_formula Gamma false t -> no_str t = true -> gr1c_flatten gr1c_opmap false t = Ok x ->
  exists e, gr_text x = Some e /\
    forall s i, respects Gamma (s i) -> respects Gamma (s (S i)) -> (gtrue s i e <-> holds s i t).
Proof.
  intros Gamma t x NS W N F. destruct (clause_reads Gamma t x NS W N F) as (e & A & B). exists e. split; [apply gatom_text; auto|].
  intros s i R0 R1. destruct (B s i R0 R1) as (c & C & D). unfold gtrue. rewrite C, <- D. split; intro K; [inversion K|subst]; auto.
Qed.
Print Assumptions gr1c_clause_meaning.

(** Formulas over other operators are rejected. *)
Theorem gr1c_translation_supported : forall t, wf_node t = true ->
  ((exists x, gr1c_flatten gr1c_opmap false t = Ok x) <-> gr_supported t = true).
Proof. intros. apply gr1c_supported_iff. auto. Qed.
Print Assumptions gr1c_translation_supported.

(** The document: declarations with string variables as ranges of integers, and for each player
    the sections allow, over the integer-encoded trace, exactly the behaviours of the clauses. *)
Definition clause_trees (l : list string) : list node :=
  flat_map (fun x => match parse x with Some t => [t] | None => [] end) l.
Definition env_part (g : grspec) : part :=
  {| p_init := clause_trees (env_init g); p_safe := clause_trees (env_safety g); p_live := clause_trees (env_prog g) |}.
Definition sys_part (g : grspec) : part :=
  {| p_init := clause_trees (sys_init g); p_safe := clause_trees (sys_safety g); p_live := clause_trees (sys_prog g) |}.
Definition named (d : list (string * dom)) : Prop := forall kv, In kv d -> gr_name (fst kv) = true.

Lemma in_trees x l t : In x l -> parse x = Some t -> In t (clause_trees l).
Proof. intros I P. apply in_flat_map. exists x. rewrite P. cbn. auto. Qed.
Lemma in_trees_inv l t : In t (clause_trees l) -> exists x, In x l /\ parse x = Some t.
Proof. intro I. apply in_flat_map in I. destruct I as (x & I & P). destruct (parse x) eqn:E; [|destruct P]. destruct P as [<-|[]]. eauto. Qed.

Section document.
  Variables (g : grspec) (m : list (string * (node * string))).
  Hypothesis S : str_to_int g = Ok m.
  Hypothesis GD : good_domains g.
  Hypothesis T : forall x t, In x (clauses g) -> parse x = Some t -> step_formula (spec_types g) false t /\ typed (spec_enums g) t.
  Definition means (x : string) (e : gexp) : Prop := exists t, parse x = Some t /\
    forall s s' i, respects (spec_types g) (s i) -> respects (spec_types g) (s (i + 1)) -> encoded (spec_enums g) s s' -> (gtrue s' i e <-> holds s i t).
  Lemma translated_ok : forall l xs, (forall x, In x l -> In x (clauses g)) -> translated g m l = Ok xs ->
    exists es, Forall2 gatom xs es /\ Forall2 means l es.
  Proof.
    unfold translated. induction l as [|x l IH]; intros xs I H; cbn [mapr] in H.
    - apply Ok_inj in H. subst xs. exists []. split; constructor.
    - destruct (lookup x m) as [[b f]|] eqn:L; [|discriminate]. cbn [of_opt bind fst] in H.
      destruct (gr1c_flatten gr1c_opmap false b) as [y|] eqn:F; [|discriminate]. cbn [bind] in H.
      destruct (mapr _ l) as [ys|]; [|discriminate]. cbn [bind] in H. apply Ok_inj in H. subst xs.
      destruct (IH ys) as (es & E1 & E2); auto; [intros; apply I; right; auto|].
      apply lookup_in in L. pose proof (str_to_int_meaning g m S GD) as [M1 M2].
      assert (EC : encode_clause g x = Ok (b, f)). { pose proof S as S'. apply mapr_pair in S'. destruct S' as [_ S']. apply S'; auto. }
      apply encode_inv in EC. destruct EC as (t & Pt & A & En' & Fl). destruct (T x t (I x (or_introl eq_refl)) Pt) as [W Ty].
      destruct (M2 x b f t L Pt) as (_ & NS & M3).
      destruct (clause_reads _ b y (int_types_no_string (spec_types g)) (enc_step _ _ _ _ W _ _ En') NS F) as (e & G1 & G2).
      exists (e :: es). split; constructor; auto. exists t. split; [auto|]. intros s s' i R0 R1 En. rewrite (M3 Ty s s' En i).
      destruct (G2 s' i (respects_int g s s' i R0 En)) as (c & C & D); [rewrite Nat.add_1_r in R1; apply (respects_int g s s' _ R1 En)|].
      unfold gtrue. rewrite C, <- D. split; intro K; [inversion K|subst]; auto.
  Qed.
  Lemma means_all l es s s' i : Forall2 means l es -> respects (spec_types g) (s i) -> respects (spec_types g) (s (i + 1)) -> encoded (spec_enums g) s s' ->
    ((forall e, In e es -> gtrue s' i e) <-> (forall t, In t (clause_trees l) -> holds s i t)).
  Proof.
    intros F R0 R1 En. induction F as [|x e l es (t & P & M) F IH]; [split; intros ? ? []|]. split.
    - intros H u U. unfold clause_trees in U. cbn [flat_map] in U. rewrite P in U. destruct U as [<-|U].
      + apply (M s s' i); auto. apply H. left. auto.
      + apply IH; auto. intros; apply H; right; auto.
    - intros H u [<-|U].
      + apply (M s s' i); auto. apply H. eapply in_trees; [left|]; eauto.
      + apply IH; auto. intros w W. apply H. unfold clause_trees. cbn [flat_map]. apply in_app_iff. right. exact W.
  Qed.
  Lemma means_each l es s s' : Forall2 means l es -> (forall i, respects (spec_types g) (s i)) -> encoded (spec_enums g) s s' ->
    ((forall e, In e es -> forall i, exists j, i <= j /\ gtrue s' j e) <-> (forall t, In t (clause_trees l) -> forall i, exists j, i <= j /\ holds s j t)).
  Proof.
    intros F R En. induction F as [|x e l es (t & P & M) F IH]; [split; intros ? ? []|]. split.
    - intros H u U i. unfold clause_trees in U. cbn [flat_map] in U. rewrite P in U. destruct U as [<-|U].
      + destruct (H e (or_introl eq_refl) i) as (j & J & K). exists j. split; [auto|]. apply (M s s' j); auto.
      + apply IH; auto. intros; apply H; right; auto.
    - intros H u [<-|U] i.
      + destruct (H t (in_trees x (x :: l) t (or_introl eq_refl) P) i) as (j & J & K). exists j. split; [auto|]. apply (M s s' j); auto.
      + apply IH; auto. intros w W. apply H. unfold clause_trees. cbn [flat_map]. apply in_app_iff. right. exact W.
  Qed.
  Lemma part_means li ls ll ei es el s s' : Forall2 means li ei -> Forall2 means ls es -> Forall2 means ll el ->
    (forall i, respects (spec_types g) (s i)) -> encoded (spec_enums g) s s' ->
    (doc_part s' ei es el <-> sat_part s {| p_init := clause_trees li; p_safe := clause_trees ls; p_live := clause_trees ll |}).
  Proof.
    intros A B C R En. unfold doc_part, sat_part. cbn [p_init p_safe p_live].
    rewrite (means_all _ _ s s' 0 A (R 0) (R _) En), (means_each _ _ s s' C R En).
    assert (Q : (forall e, In e es -> forall k, gtrue s' k e) <-> (forall f, In f (clause_trees ls) -> forall i, holds s i f)).
    { split; intros H u U i; [apply (proj1 (means_all _ _ s s' i B (R i) (R _) En)); auto|apply (proj2 (means_all _ _ s s' i B (R i) (R _) En)); auto]. }
    rewrite Q. tauto.
  Qed.
End document.

Theorem gr1c_document_meaning : forall g text, to_gr1c g = Ok text -> good_domains g -> named (env_vars g) -> named (sys_vars g) ->
  (forall x t, In x (clauses g) -> parse x = Some t -> step_formula (spec_types g) false t /\ typed (spec_enums g) t) ->
  exists d, gr_document text = Some d /\
    d_env d = map (fun kv => (fst kv, gr_dom (snd kv))) (env_vars g) /\
    d_sys d = map (fun kv => (fst kv, gr_dom (snd kv))) (sys_vars g) /\
    forall s s', (forall i, respects (spec_types g) (s i)) -> encoded (spec_enums g) s s' ->
      (doc_part s' (d_ei d) (d_es d) (d_ep d) <-> sat_part s (env_part g)) /\
      (doc_part s' (d_si d) (d_ss d) (d_sp d) <-> sat_part s (sys_part g)).
Proof.
  intros g text H GD NE NS T. unfold to_gr1c in H. destruct (check_syntax g); [|discriminate]. cbn [bind] in H.
  destruct (str_to_int g) as [m|] eqn:S; [|discriminate]. cbn [bind] in H.
  destruct (translated g m (env_init g)) as [ei|] eqn:E1; [|discriminate]. cbn [bind] in H.
  destruct (translated g m (env_safety g)) as [es|] eqn:E2; [|discriminate]. cbn [bind] in H.
  destruct (translated g m (env_prog g)) as [ep|] eqn:E3; [|discriminate]. cbn [bind] in H.
  destruct (translated g m (sys_init g)) as [si|] eqn:E4; [|discriminate]. cbn [bind] in H.
  destruct (translated g m (sys_safety g)) as [ss|] eqn:E5; [|discriminate]. cbn [bind] in H.
  destruct (translated g m (sys_prog g)) as [sp|] eqn:E6; [|discriminate]. cbn [bind] in H.
  destruct (gr1c_vars (env_vars g)) as [ev|] eqn:E7; [|discriminate]. cbn [bind] in H.
  destruct (gr1c_vars (sys_vars g)) as [sv|] eqn:E8; [|discriminate]. cbn [bind] in H.
  apply Ok_inj in H. subst text.
  assert (IC : forall l, In l [env_init g; sys_init g; env_safety g; sys_safety g; env_prog g; sys_prog g] -> forall x, In x l -> In x (clauses g)).
  { intros l L x X. unfold clauses. rewrite !in_app_iff. cbn in L. destruct L as [<-|[<-|[<-|[<-|[<-|[<-|[]]]]]]]; tauto. }
  destruct (translated_ok g m S GD T _ _ (IC (env_init g) ltac:(cbn; tauto)) E1) as (xei & A1 & B1).
  destruct (translated_ok g m S GD T _ _ (IC (env_safety g) ltac:(cbn; tauto)) E2) as (xes & A2 & B2).
  destruct (translated_ok g m S GD T _ _ (IC (env_prog g) ltac:(cbn; tauto)) E3) as (xep & A3 & B3).
  destruct (translated_ok g m S GD T _ _ (IC (sys_init g) ltac:(cbn; tauto)) E4) as (xsi & A4 & B4).
  destruct (translated_ok g m S GD T _ _ (IC (sys_safety g) ltac:(cbn; tauto)) E5) as (xss & A5 & B5).
  destruct (translated_ok g m S GD T _ _ (IC (sys_prog g) ltac:(cbn; tauto)) E6) as (xsp & A6 & B6).
  destruct (var_section_ok "ENV" _ _ E7 NE) as (w1 & L1 & R1); [wlit|].
  destruct (var_section_ok "SYS" _ _ E8 NS) as (w2 & L2 & R2); [wlit|].
  destruct (section_ok "ENVINIT" "" [] _ _ ltac:(left; reflexivity) ltac:(wlit) ltac:(wlit) A1) as (w3 & L3 & R3).
  destruct (section_ok "ENVTRANS" "[]" always_prefix _ _ ltac:(right; left; reflexivity) ltac:(wlit) ltac:(wlit) A2) as (w4 & L4 & R4).
  destruct (section_ok "ENVGOAL" "[]<>" recurrence_prefix _ _ ltac:(right; right; reflexivity) ltac:(wlit) ltac:(wlit) A3) as (w5 & L5 & R5).
  destruct (section_ok "SYSINIT" "" [] _ _ ltac:(left; reflexivity) ltac:(wlit) ltac:(wlit) A4) as (w6 & L6 & R6).
  destruct (section_ok "SYSTRANS" "[]" always_prefix _ _ ltac:(right; left; reflexivity) ltac:(wlit) ltac:(wlit) A5) as (w7 & L7 & R7).
  destruct (section_ok "SYSGOAL" "[]<>" recurrence_prefix _ _ ltac:(right; right; reflexivity) ltac:(wlit) ltac:(wlit) A6) as (w8 & L8 & R8).
  eexists. split; [|split; [|split]].
  - match goal with |- gr_document ?t = _ => assert (W : words (list_ascii_of_string t) "" = (w1 ++ w2 ++ w3 ++ w4 ++ w5 ++ w6 ++ w7 ++ w8 ++ [])%list) end.
    { match goal with |- words (list_ascii_of_string ?t) _ = _ => assert (Q : wlex_any t (w1 ++ w2 ++ w3 ++ w4 ++ w5 ++ [] ++ w6 ++ w7 ++ w8)%list) end.
      { match goal with |- wlex_any ?t _ => replace t with (("ENV:" ++ ev ++ ";" ++ nl) ++ ("SYS:" ++ sv ++ ";" ++ nl) ++
          gr1c_str ei "ENVINIT" "" ++ gr1c_str es "ENVTRANS" "[]" ++ gr1c_str ep "ENVGOAL" "[]<>" ++ nl ++
          gr1c_str si "SYSINIT" "" ++ gr1c_str ss "SYSTRANS" "[]" ++ gr1c_str sp "SYSGOAL" "[]<>")%string by (rewrite !str_assoc; reflexivity) end.
        repeat (apply wany_app; [first [assumption|wlit]|]). assumption. }
      specialize (Q []). rewrite app_nil_r in Q. rewrite Q. cbn [app]. rewrite <- !app_assoc. reflexivity. }
    unfold gr_document. rewrite W. rewrite R1. cbn [obind]. rewrite R2. cbn [obind]. rewrite R3. cbn [obind]. rewrite R4. cbn [obind].
    rewrite R5. cbn [obind]. rewrite R6. cbn [obind]. rewrite R7. cbn [obind]. rewrite R8. cbn [obind]. reflexivity.
  - reflexivity.
  - reflexivity.
  - intros s s' R En. cbn [d_ei d_es d_ep d_si d_ss d_sp]. split; apply (part_means g); auto.
Qed.
Print Assumptions gr1c_document_meaning.

(** A nested next is silently translated to a single step. *)
Theorem gr1c_nested_next_refuted : exists g text d s,
  to_gr1c g = Ok text /\ gr_document text = Some d /\ (forall i, respects (spec_types g) (s i)) /\ encoded (spec_enums g) s s /\
  sat_part s (sys_part g) /\ ~ doc_part s (d_si d) (d_ss d) (d_sp d).
Proof.
  exists (spec_of [] [("p", DBool)] [] [] [] ["X (X p) <-> p"] [] []). do 2 eexists. exists (fun i _ => VB (Nat.even i)).
  split; [vm_compute; reflexivity|]. split; [vm_compute; reflexivity|]. split.
  { intros i x k. unfold spec_types. cbn [sys_vars env_vars spec_of find fst]. destruct ("p" =? x)%string; intro H; inversion H; subst. cbn. eauto. }
  split.
  { intros i x. unfold spec_enums. cbn [sys_vars env_vars spec_of find fst snd]. destruct ("p" =? x)%string; reflexivity. }
  split.
  { split; [intros f []|]. split; [|intros f []]. intros f [<-|[]] i. cbn. tauto. }
  intros (_ & H & _). specialize (H _ (or_introl eq_refl) 0). vm_compute in H. discriminate H.
Qed.
Print Assumptions gr1c_nested_next_refuted.

(** Non-trivial case. *)
Definition ex_gr : grspec :=
  spec_of [("e", DBool); ("m", DEnum ["on"; "off"])] [("x", DEnum ["red"; "green"; "blue"]); ("n", DInt (-2)%Z 5%Z)]
    ["e & m = ""on"""] ["x = ""blue"""] ["e -> X(m = ""off"" | e)"] ["e -> X(n <= 3)"; "x != ""red"" <-> X(x) = ""green"""] [] ["x = ""red"""].
Example gr1c_case : to_gr1c ex_gr = Ok (
  "ENV: e m [0, 1];" ++ nl ++ "SYS: x [0, 2] n [-2, 5];" ++ nl ++
  "ENVINIT: (( e & ( m = 0 ) ));" ++ nl ++ "ENVTRANS: [](( e -> ( ( m' = 1 ) | e' ) ));" ++ nl ++ "ENVGOAL:;" ++ nl ++ nl ++
  "SYSINIT: (( x = 2 ));" ++ nl ++ "SYSTRANS: [](( e -> ( n' <= 3 ) ))" ++ nl ++ "& [](( ( x != 0 ) <-> ( x' = 1 ) ));" ++ nl ++
  "SYSGOAL: []<>(( x = 0 ));" ++ nl) /\
  good_domains ex_gr /\ named (env_vars ex_gr) /\ named (sys_vars ex_gr) /\
  (forall x t, In x (clauses ex_gr) -> parse x = Some t -> step_formula (spec_types ex_gr) false t /\ typed (spec_enums ex_gr) t) /\
  exists s s', (forall i, respects (spec_types ex_gr) (s i)) /\ encoded (spec_enums ex_gr) s s'.
Proof.
  split; [vm_compute; reflexivity|]. split.
  { split; [repeat constructor; cbn; intuition discriminate|]. split; [repeat constructor; cbn; intuition discriminate|].
    intros x l. unfold spec_enums. cbn [sys_vars env_vars spec_of ex_gr find fst snd].
    repeat match goal with |- context[(?a =? x)%string] => destruct (a =? x)%string end; intro E; inversion E;
      repeat constructor; cbn; intuition discriminate. }
  split; [intros kv [<-|[<-|[]]]; reflexivity|]. split; [intros kv [<-|[<-|[]]]; reflexivity|]. split.
  { assert (SC : forall b v dom c op, spec_enums ex_gr v = Some dom -> In c dom -> In op ["="; "!="] -> gr_name v = true ->
     step_formula (spec_types ex_gr) b (NCmp op (NVar v) (NStr c)) /\ typed (spec_enums ex_gr) (NCmp op (NVar v) (NStr c))).
    { intros b v dom c op D I O N. split.
      - eapply sf_eq; [auto|apply st_var; auto; apply spec_types_enum; eauto|apply st_str].
      - apply ty_cmp; auto. eapply sc_const_r; [constructor|constructor|eauto|auto]. }
    Ltac sc SC := first [eapply (SC false); [reflexivity|cbn; solve [auto]|cbn; solve [auto]|reflexivity]|eapply (SC true); [reflexivity|cbn; solve [auto]|cbn; solve [auto]|reflexivity]].
    intros x t I P. cbn in I. destruct I as [<-|[<-|[<-|[<-|[<-|[<-|[]]]]]]]; vm_compute in P; inversion P; subst t; clear P.
    - split; [apply sf_bin; [cbn; auto|apply sf_var; reflexivity|sc SC]|apply ty_bin; [constructor|sc SC]].
    - split; sc SC.
    - split; [apply sf_bin; [cbn; auto|apply sf_var; reflexivity|apply sf_next, sf_bin; [cbn; auto|sc SC|apply sf_var; reflexivity]]|].
      apply ty_bin; [constructor|apply ty_un, ty_bin; [sc SC|constructor]].
    - split; [apply sf_bin; [cbn; auto|apply sf_var; reflexivity|apply sf_next, sf_cmp; [cbn; auto|apply st_var; reflexivity|apply st_num; reflexivity]]|].
      apply ty_bin; [constructor|apply ty_un, ty_pure]. split; [intros c K|intros v K]; repeat match goal with H : sub _ _ |- _ => inversion H; subst; clear H end; reflexivity.
    - split; [apply sf_bin; [cbn; auto|sc SC|eapply sf_eq; [cbn; auto|apply st_next, st_var; reflexivity|apply st_str]]|].
      apply ty_bin; [sc SC|]. apply ty_cmp; [cbn; auto|]. eapply sc_const_r; [apply nx_succ; constructor|constructor|reflexivity|cbn; auto].
    - split; sc SC. }
  set (s := (fun _ x => if x =? "e" then VB true else if x =? "m" then VS "on" else if x =? "x" then VS "green" else VZ 2) : trace).
  exists s. destruct (encoding_exists (spec_enums ex_gr) s) as [s' E].
  { intros i x l. unfold spec_enums. cbn [sys_vars env_vars spec_of ex_gr find fst snd]. rewrite !(String.eqb_sym _ x). unfold s.
    destruct (x =? "e") eqn:E1; [apply String.eqb_eq in E1; subst x; cbn; discriminate|].
    destruct (x =? "m") eqn:E2; [apply String.eqb_eq in E2; subst x; cbn; intro H; inversion H; exists "on"; cbn; auto|].
    destruct (x =? "x") eqn:E3; [intro H; inversion H; exists "green"; cbn; auto|].
    destruct (x =? "n") eqn:E4; discriminate. }
  exists s'. split; [|exact E].
  intros i x k. unfold spec_types. cbn [sys_vars env_vars spec_of ex_gr find fst snd]. rewrite !(String.eqb_sym _ x). unfold s.
  destruct (x =? "e") eqn:E1; [apply String.eqb_eq in E1; subst x; cbn; intro H; inversion H; cbn; eauto|].
  destruct (x =? "m") eqn:E2; [apply String.eqb_eq in E2; subst x; cbn; intro H; inversion H; cbn; eauto|].
  destruct (x =? "x") eqn:E3; [intro H; inversion H; cbn; eauto|].
  destruct (x =? "n") eqn:E4; [intro H; inversion H; cbn; eauto|]. discriminate.
Qed.
