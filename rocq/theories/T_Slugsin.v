(** C70: what slugs is given, and what is made of its answers. *)
From Coq Require Import List String Bool Arith ZArith Lia.
From Verif Require Import M_Dict L_Dict M_Graph M_Machine S_Run L_Machine M_Strategy S_Strategy T_Strategy.
From Verif Require Import M_Base M_Ast M_Lexer M_Parser M_Spec M_Form M_Tree M_Gr1c.
From Verif Require Import S_LTL S_Gr1 S_Form S_Syntax S_Tree S_Python S_Gr1c.
From Verif Require Import L_Gr1 L_Form L_RoundTrip L_ParseWf L_Subst L_Encode L_Python L_Gr1c T_Encode T_Python T_Gr1c.
From Verif Require Import M_Slugsin S_Slugsin L_Slugsin.
Import ListNotations.
Open Scope string_scope.
Open Scope list_scope.
Open Scope nat_scope.

(** ** The text *)
(** The operators of slugs, printed or (next) expressed by a prime. *)
Fixpoint sl_supported (t : node) : bool :=
  let within op ops := existsb (String.eqb op) ops in
  match t with
  | NVar _ | NBool _ | NNum _ | NStr _ => true
  | NUn op a => within op ["!"; "X"; "G"; "F"] && sl_supported a
  | NBin op l r => within op ["&"; "|"; "->"; "<->"] && sl_supported l && sl_supported r
  | NCmp op l r => within op ["="; "!="; "<"; "<="; ">"; ">="] && sl_supported l && sl_supported r
  | NArith op l r => within op ["+"; "-"] && sl_supported l && sl_supported r
  | NIte _ _ _ _ => false
  end.
Ltac sup l r p :=
  cbn [existsb String.eqb Ascii.eqb Bool.eqb andb orb M_Base.lookup slugs_opmap of_opt bind];
  try (split; [intros [x E]; discriminate|intros [[E _] _]; discriminate]);
  (destruct (gr1c_flatten slugs_opmap p l); cbn [bind]; [destruct (gr1c_flatten slugs_opmap p r); cbn [bind]|];
   (split; [intros [x E]|intros [[_ [x E]] [y E']]]); try discriminate; eauto 6).
Theorem slugs_translation_supported : forall t, wf_node t = true -> forall p,
  (exists x, gr1c_flatten slugs_opmap p t = Ok x) <-> sl_supported t = true.
Proof.
  induction t as [v|v|v|v|op a IH|op l IHl r IHr|op l IHl r IHr|op l IHl r IHr|op a IHa b IHb c IHc]; intros W p; cbn [wf_node] in W; cbn [gr1c_flatten sl_supported].
  1,3,4: split; eauto.
  - apply oneof_In in W. destruct W as [<-|[<-|[]]]; cbn; split; eauto.
  - apply andb_true_iff in W. destruct W as [O W]. apply oneof_In in O.
    destruct O as [<-|[<-|[<-|[<-|[<-|[]]]]]]; cbn [existsb String.eqb Ascii.eqb Bool.eqb andb orb M_Base.lookup slugs_opmap of_opt bind];
      try (split; [intros [x E]; discriminate|discriminate]);
      try (apply (IH W true));
      (rewrite <- (IH W p); destruct (gr1c_flatten slugs_opmap p a); cbn [bind]; split; intros [x E]; eauto; discriminate).
  - rewrite !andb_true_iff in W. destruct W as [[O Wl] Wr]. apply oneof_In in O.
    rewrite !andb_true_iff, <- (IHl Wl p), <- (IHr Wr p).
    destruct O as [<-|[<-|[<-|[<-|[<-|[<-|[<-|[<-|[<-|[<-|[]]]]]]]]]]]; sup l r p.
  - rewrite !andb_true_iff in W. destruct W as [[O Wl] Wr]. apply oneof_In in O.
    rewrite !andb_true_iff, <- (IHl Wl p), <- (IHr Wr p).
    destruct O as [<-|[<-|[<-|[<-|[<-|[<-|[<-|[<-|[]]]]]]]]]; sup l r p.
  - rewrite !andb_true_iff in W. destruct W as [[O Wl] Wr].
    rewrite !andb_true_iff. apply orb_true_iff in O. destruct O as [O|O].
    + apply oneof_In in O. rewrite <- (IHl Wl p), <- (IHr Wr p). destruct O as [<-|[<-|[<-|[<-|[]]]]]; sup l r p.
    + apply andb_true_iff in O. destruct O as [O _]. apply String.eqb_eq in O. subst op. cbn.
      split; [intros [x E]; discriminate|intros [[E _] _]; discriminate].
  - split; [intros [x E]|]; discriminate.
Qed.
Print Assumptions slugs_translation_supported.

Definition snamed (d : list (string * dom)) : Prop := forall kv, In kv d -> sl_name (fst kv) = true.

Section document.
  Variables (g : grspec) (m : list (string * (node * string))).
  Hypothesis S : str_to_int g = Ok m.
  Hypothesis T : forall x t, In x (clauses g) -> parse x = Some t -> sl_formula (spec_types g) false t.
  Definition smeans (x : string) (e : gexp) : Prop := exists t, parse x = Some t /\
    forall s i, respects (spec_types g) (s i) -> respects (spec_types g) (s (i + 1)) -> exists c, sval (s i) (s (Datatypes.S i)) e = Some (VB c) /\ (c = true <-> holds s i t).
  Lemma smeans_true s i e t : (exists c, sval (s i) (s (Datatypes.S i)) e = Some (VB c) /\ (c = true <-> holds s i t)) -> (strue s i e <-> holds s i t).
  Proof. intros (c & C & D). unfold strue. rewrite C, <- D. split; intro K; [inversion K|subst]; auto. Qed.
  Lemma slugs_clauses_ok : forall l xs, (forall x, In x l -> In x (clauses g)) -> slugs_clauses m l = Ok xs ->
    exists es, Forall2 satom xs es /\ Forall2 smeans l es.
  Proof.
    unfold slugs_clauses. induction l as [|x l IH]; intros xs I H; cbn [mapr] in H.
    - apply Ok_inj in H. subst xs. exists []. split; constructor.
    - destruct (M_Base.lookup x m) as [[b f]|] eqn:L; [|discriminate]. cbn [of_opt bind fst] in H.
      destruct (gr1c_flatten slugs_opmap false b) as [y|] eqn:F; [|discriminate]. cbn [bind] in H.
      destruct (mapr _ l) as [ys|]; [|discriminate]. cbn [bind] in H. apply Ok_inj in H. subst xs.
      destruct (IH ys) as (es & E1 & E2); auto; [intros; apply I; right; auto|].
      apply lookup_in in L. assert (EC : encode_clause g x = Ok (b, f)). { pose proof S as S'. apply mapr_pair in S'. destruct S' as [_ S']. apply S'; auto. }
      apply encode_inv in EC. destruct EC as (t & Pt & A & En' & Fl). pose proof (T x t (I x (or_introl eq_refl)) Pt) as W.
      rewrite (sl_formula_enc _ _ _ _ W) in En'. injection En' as ->.
      destruct (sclause_reads _ b y W F) as (e & G1 & G2).
      exists (e :: es). split; constructor; auto. exists b. split; [auto|]. intros s i R0 R1. rewrite Nat.add_1_r in R1. apply G2; auto.
  Qed.
  Lemma smeans_all l es s i : Forall2 smeans l es -> respects (spec_types g) (s i) -> respects (spec_types g) (s (i + 1)) ->
    ((forall e, In e es -> strue s i e) <-> (forall t, In t (clause_trees l) -> holds s i t)).
  Proof.
    intros F R0 R1. induction F as [|x e l es (t & P & M) F IH]; [split; intros ? ? []|]. split.
    - intros H u U. unfold clause_trees in U. cbn [flat_map] in U. rewrite P in U. destruct U as [<-|U].
      + apply (smeans_true s i e t (M s i R0 R1)). apply H. left. auto.
      + apply IH; auto. intros; apply H; right; auto.
    - intros H u [<-|U].
      + apply (smeans_true s i e t (M s i R0 R1)). apply H. eapply in_trees; [left|]; eauto.
      + apply IH; auto. intros w W. apply H. unfold clause_trees. cbn [flat_map]. apply in_app_iff. right. exact W.
  Qed.
  Lemma smeans_each l es s : Forall2 smeans l es -> (forall i, respects (spec_types g) (s i)) ->
    ((forall e, In e es -> forall i, exists j, i <= j /\ strue s j e) <-> (forall t, In t (clause_trees l) -> forall i, exists j, i <= j /\ holds s j t)).
  Proof.
    intros F R. induction F as [|x e l es (t & P & M) F IH]; [split; intros ? ? []|]. split.
    - intros H u U i. unfold clause_trees in U. cbn [flat_map] in U. rewrite P in U. destruct U as [<-|U].
      + destruct (H e (or_introl eq_refl) i) as (j & J & K). exists j. split; [auto|]. apply (smeans_true s j e t (M s j (R j) (R (j + 1)))). auto.
      + apply IH; auto. intros; apply H; right; auto.
    - intros H u [<-|U] i.
      + destruct (H t (in_trees x (x :: l) t (or_introl eq_refl) P) i) as (j & J & K). exists j. split; [auto|]. apply (smeans_true s j e t (M s j (R j) (R (j + 1)))). auto.
      + apply IH; auto. intros w W. apply H. unfold clause_trees. cbn [flat_map]. apply in_app_iff. right. exact W.
  Qed.
  (** A conjunction is true iff its parts are, where each of them has a truth value. *)
  Lemma conj_true s i : forall es, (forall e, In e es -> exists c, sval (s i) (s (Datatypes.S i)) e = Some (VB c)) -> es <> [] ->
    (exists c, sval (s i) (s (Datatypes.S i)) (conj_exp es) = Some (VB c)) /\ (strue s i (conj_exp es) <-> forall e, In e es -> strue s i e).
  Proof.
    induction es as [|e es IH]; [congruence|]. intros H _. destruct (H e (or_introl eq_refl)) as [c C]. destruct es as [|e' es].
    - cbn [conj_exp]. split; [eauto|]. split; [intros K u [<-|[]]; exact K|intro K; apply K; left; reflexivity].
    - destruct (IH (fun u U => H u (or_intror U)) ltac:(discriminate)) as [[c' C'] Q]. change (conj_exp (e :: e' :: es)) with (GOp "&" e (conj_exp (e' :: es))).
      unfold strue in *. cbn [sval]. rewrite C, C'. cbn [gr_logic String.eqb Ascii.eqb Bool.eqb option_map].
      change (gr_logic "&" c c') with (Some (c && c')). cbn [option_map]. split; [eauto|]. split.
      + intros [= K] u U. apply andb_true_iff in K. destruct K as [-> ->]. destruct U as [<-|U]; [exact C|apply (proj1 Q); auto].
      + intro K. pose proof (K e (or_introl eq_refl)) as K1. rewrite C in K1. injection K1 as ->.
        assert (K2 : sval (s i) (s (Datatypes.S i)) (conj_exp (e' :: es)) = Some (VB true)) by (apply Q; intros u U; apply K; right; exact U).
        rewrite C' in K2. injection K2 as ->. reflexivity.
  Qed.
End document.
Section parts.
  Variable g : grspec.
  Lemma init_means l es s : Forall2 (smeans g) l es -> (forall i, respects (spec_types g) (s i)) ->
    ((forall e, In e (init_of es) -> strue s 0 e) <-> (forall t, In t (clause_trees l) -> holds s 0 t)).
  Proof.
    intros F R. rewrite <- (smeans_all g l es s 0 F (R _) (R _)).
    destruct es as [|e es]; [cbn; tauto|]. cbn [init_of].
    assert (V : forall u, In u (e :: es) -> exists c, sval (s 0) (s 1) u = Some (VB c)).
    { intros u U. clear - F R U. induction F as [|x u' l0 es0 (t & P & M) F IH]; [destruct U|]. destruct U as [->|U]; [|auto].
      destruct (M s 0 (R _) (R _)) as (c & C & _). eauto. }
    destruct (conj_true s 0 (e :: es) V ltac:(discriminate)) as [_ Q]. rewrite <- Q. split; [intro H; apply H; left; reflexivity|intros H u [<-|[]]; exact H].
  Qed.
  Lemma sl_part_means li ls ll ei es el s : Forall2 (smeans g) li ei -> Forall2 (smeans g) ls es -> Forall2 (smeans g) ll el ->
    (forall i, respects (spec_types g) (s i)) ->
    (sl_part s (init_of ei) es el <-> sat_part s {| p_init := clause_trees li; p_safe := clause_trees ls; p_live := clause_trees ll |}).
  Proof.
    intros A B C R. unfold sl_part, sat_part. cbn [p_init p_safe p_live].
    rewrite (init_means _ _ s A R), (smeans_each g _ _ s C R).
    assert (Q : (forall e, In e es -> forall k, strue s k e) <-> (forall f, In f (clause_trees ls) -> forall i, holds s i f)).
    { split; intros H u U i; [apply (proj1 (smeans_all g _ _ s i B (R i) (R _))); auto|apply (proj2 (smeans_all g _ _ s i B (R i) (R _))); auto]. }
    rewrite Q. tauto.
  Qed.
End parts.

Lemma plain_doms name d x : format_slugs_vars d name = Ok x -> map (fun kv => (fst kv, sgdom (snd kv))) d = map (fun kv => (fst kv, gr_dom (snd kv))) d.
Proof.
  intro H. apply map_ext_in. intros [k dm] I. cbn [fst snd]. destruct dm; try reflexivity. destruct (slugs_vars_plain _ _ _ H _ _ I).
Qed.

Lemma slugs_document_ok g text : to_slugs g = Ok text -> snamed (env_vars g) -> snamed (sys_vars g) ->
  (forall x t, In x (clauses g) -> parse x = Some t -> sl_formula (spec_types g) false t) ->
  exists d, sl_document text = Some d /\
    d_env d = map (fun kv => (fst kv, gr_dom (snd kv))) (env_vars g) /\
    d_sys d = map (fun kv => (fst kv, gr_dom (snd kv))) (sys_vars g) /\
    (forall k l, ~ In (k, DEnum l) (env_vars g) /\ ~ In (k, DEnum l) (sys_vars g)) /\
    forall s, (forall i, respects (spec_types g) (s i)) ->
      (sl_part s (d_ei d) (d_es d) (d_ep d) <-> sat_part s (env_part g)) /\
      (sl_part s (d_si d) (d_ss d) (d_sp d) <-> sat_part s (sys_part g)) /\
      ((forall e, In e (d_si d) -> strue s 0 e) <-> (forall t, In t (clause_trees (sys_init g)) -> holds s 0 t)).
Proof.
  intros H NE NS T. unfold to_slugs in H. destruct (check_syntax g); [|discriminate]. cbn [bind] in H.
  destruct (str_to_int g) as [m|] eqn:S; [|discriminate]. cbn [bind] in H.
  destruct (slugs_clauses m (env_init g)) as [ei|] eqn:E1; [|discriminate]. cbn [bind] in H.
  destruct (slugs_clauses m (env_safety g)) as [es|] eqn:E2; [|discriminate]. cbn [bind] in H.
  destruct (slugs_clauses m (env_prog g)) as [ep|] eqn:E3; [|discriminate]. cbn [bind] in H.
  destruct (slugs_clauses m (sys_init g)) as [si|] eqn:E4; [|discriminate]. cbn [bind] in H.
  destruct (slugs_clauses m (sys_safety g)) as [ss|] eqn:E5; [|discriminate]. cbn [bind] in H.
  destruct (slugs_clauses m (sys_prog g)) as [sp|] eqn:E6; [|discriminate]. cbn [bind] in H.
  destruct (format_slugs_vars (env_vars g) "INPUT") as [ev|] eqn:E7; [|discriminate]. cbn [bind] in H.
  destruct (format_slugs_vars (sys_vars g) "OUTPUT") as [sv|] eqn:E8; [|discriminate]. cbn [bind] in H.
  apply Ok_inj in H. subst text.
  assert (IC : forall l, In l [env_init g; sys_init g; env_safety g; sys_safety g; env_prog g; sys_prog g] -> forall x, In x l -> In x (clauses g)).
  { intros l L x X. unfold clauses. rewrite !in_app_iff. cbn in L. destruct L as [<-|[<-|[<-|[<-|[<-|[<-|[]]]]]]]; tauto. }
  destruct (slugs_clauses_ok g m S T _ _ (IC (env_init g) ltac:(cbn; tauto)) E1) as (xei & A1 & B1).
  destruct (slugs_clauses_ok g m S T _ _ (IC (env_safety g) ltac:(cbn; tauto)) E2) as (xes & A2 & B2).
  destruct (slugs_clauses_ok g m S T _ _ (IC (env_prog g) ltac:(cbn; tauto)) E3) as (xep & A3 & B3).
  destruct (slugs_clauses_ok g m S T _ _ (IC (sys_init g) ltac:(cbn; tauto)) E4) as (xsi & A4 & B4).
  destruct (slugs_clauses_ok g m S T _ _ (IC (sys_safety g) ltac:(cbn; tauto)) E5) as (xss & A5 & B5).
  destruct (slugs_clauses_ok g m S T _ _ (IC (sys_prog g) ltac:(cbn; tauto)) E6) as (xsp & A6 & B6).
  destruct (slugs_vars_ok "INPUT" _ _ E7 NE) as (w1 & L1 & Z1 & R1); [slit|].
  destruct (slugs_vars_ok "OUTPUT" _ _ E8 NS) as (w2 & L2 & Z2 & R2); [slit|].
  destruct (slugs_section_ok "ENV_TRANS" _ _ ltac:(slit) A2) as (w3 & L3 & Z3 & R3).
  destruct (slugs_section_ok "ENV_LIVENESS" _ _ ltac:(slit) A3) as (w4 & L4 & Z4 & R4).
  destruct (slugs_init_ok "ENV_INIT" _ _ ltac:(slit) A1) as (w5 & L5 & Z5 & R5).
  destruct (slugs_section_ok "SYS_TRANS" _ _ ltac:(slit) A5) as (w6 & L6 & Z6 & R6).
  destruct (slugs_section_ok "SYS_LIVENESS" _ _ ltac:(slit) A6) as (w7 & L7 & Z7 & R7).
  destruct (slugs_init_ok "SYS_INIT" _ _ ltac:(slit) A4) as (w8 & L8 & Z8 & R8).
  assert (SN : sec_rest []) by reflexivity.
  assert (SA : forall a b, sec_rest a -> sec_rest b -> sec_rest (a ++ b)) by (intros [|? ?] b X Y; [exact Y|exact X]).
  eexists. split; [|split; [|split; [|split]]].
  - match goal with |- sl_document ?t = _ => assert (W : sl_words (list_ascii_of_string t) "" = (w1 ++ w2 ++ w3 ++ w4 ++ w5 ++ w6 ++ w7 ++ w8 ++ [])%list) end.
    { match goal with |- sl_words (list_ascii_of_string ?t) _ = _ => assert (Q : slex_any t (w1 ++ w2 ++ w3 ++ w4 ++ w5 ++ w6 ++ w7 ++ w8)%list) end.
      { repeat (apply sany_app; [first [assumption|slit]|]). assumption. }
      specialize (Q []). rewrite app_nil_r in Q. rewrite Q. cbn [app]. rewrite <- !app_assoc. reflexivity. }
    unfold sl_document. rewrite W. rewrite R1 by auto 12. cbn [obind]. rewrite R2 by auto 12. cbn [obind]. rewrite R3 by auto 12. cbn [obind]. rewrite R4 by auto 12. cbn [obind].
    rewrite R5 by auto 12. cbn [obind]. rewrite R6 by auto 12. cbn [obind]. rewrite R7 by auto 12. cbn [obind]. rewrite R8 by auto 12. cbn [obind]. reflexivity.
  - cbn [d_env]. exact (plain_doms _ _ _ E7).
  - cbn [d_sys]. exact (plain_doms _ _ _ E8).
  - intros k l. split; [exact (slugs_vars_plain _ _ _ E7 k l)|exact (slugs_vars_plain _ _ _ E8 k l)].
  - intros s R. cbn [d_ei d_es d_ep d_si d_ss d_sp]. split; [|split]; try (apply (sl_part_means g); auto). apply (init_means g); auto.
Qed.
(** The text passed to slugs declares the variables of the specification, and each player's
    sections allow the behaviours of that player's part of the specification. *)
Theorem slugs_document_meaning : forall g text, to_slugs g = Ok text -> snamed (env_vars g) -> snamed (sys_vars g) ->
  (forall x t, In x (clauses g) -> parse x = Some t -> sl_formula (spec_types g) false t) ->
  exists d, sl_document text = Some d /\
    d_env d = map (fun kv => (fst kv, gr_dom (snd kv))) (env_vars g) /\
    d_sys d = map (fun kv => (fst kv, gr_dom (snd kv))) (sys_vars g) /\
    forall s, (forall i, respects (spec_types g) (s i)) ->
      (sl_part s (d_ei d) (d_es d) (d_ep d) <-> sat_part s (env_part g)) /\
      (sl_part s (d_si d) (d_ss d) (d_sp d) <-> sat_part s (sys_part g)).
Proof.
  intros g text H NE NS T. destruct (slugs_document_ok g text H NE NS T) as (d & D & E & S & _ & M). exists d. split; [exact D|]. split; [exact E|]. split; [exact S|].
  intros s R. destruct (M s R) as (M1 & M2 & _). auto.
Qed.
Print Assumptions slugs_document_meaning.

(** A nested next is silently translated to a single step. *)
Theorem slugs_nested_next_refuted : exists g text d s,
  to_slugs g = Ok text /\ sl_document text = Some d /\ (forall i, respects (spec_types g) (s i)) /\
  sat_part s (sys_part g) /\ ~ sl_part s (d_si d) (d_ss d) (d_sp d).
Proof.
  exists (spec_of [] [("p", DBool)] [] [] [] ["X (X p) <-> p"] [] []). do 2 eexists. exists (fun i _ => VB (Nat.even i)).
  split; [vm_compute; reflexivity|]. split; [vm_compute; reflexivity|]. split.
  { intros i x k. unfold spec_types. cbn [sys_vars env_vars spec_of find fst]. destruct ("p" =? x)%string; intro H; inversion H; subst. cbn. eauto. }
  split.
  { split; [intros f []|]. split; [|intros f []]. intros f [<-|[]] i. cbn. tauto. }
  intros (_ & H & _). specialize (H _ (or_introl eq_refl) 0). vm_compute in H. discriminate H.
Qed.
Print Assumptions slugs_nested_next_refuted.

(** Variables with a domain of strings are refused. *)
Theorem slugs_strings_refuted : forall g k l, In (k, DEnum l) (env_vars g) \/ In (k, DEnum l) (sys_vars g) -> forall text, to_slugs g <> Ok text.
Proof.
  intros g k l I text H. unfold to_slugs in H.
  repeat (apply L_Machine.bind_Ok in H; let x := fresh "x" in let E := fresh "E" in destruct H as (x & E & H)).
  match goal with E7 : format_slugs_vars (env_vars g) _ = Ok _, E8 : format_slugs_vars (sys_vars g) _ = Ok _ |- _ =>
    destruct I as [I|I]; [apply (slugs_vars_plain _ _ _ E7 k l I)|apply (slugs_vars_plain _ _ _ E8 k l I)] end.
Qed.
Print Assumptions slugs_strings_refuted.

(** ** The initial condition on the integers of a node *)
(** Python values that are equal numbers. *)
Definition alike (a b : pyval) : Prop := (exists z, num_of a = Some z /\ num_of b = Some z) \/ a = b.
Lemma alike_truthy a b : alike a b -> truthy a = truthy b.
Proof.
  intros [(z & A & B)|<-]; [|reflexivity]. destruct a as [x|x|x], b as [y|y|y]; cbn in *; try discriminate; injection A as A; injection B as B; subst.
  - destruct x, y; cbn in *; try reflexivity; discriminate.
  - destruct x; reflexivity.
  - destruct y; reflexivity.
  - reflexivity.
Qed.
Lemma alike_eqv a b c d : alike a c -> alike b d -> py_eqv a b = py_eqv c d.
Proof.
  intros A B. destruct A as [(z & A & A')|<-], B as [(y & B & B')|<-]; [| |  |reflexivity].
  - destruct a, b, c, d; cbn in *; try discriminate; injection A as A; injection B as B; injection A' as A'; injection B' as B'; rewrite A, B, A', B'; reflexivity.
  - destruct a, c; try discriminate; destruct b; cbn in *; try reflexivity; injection A as A; injection A' as A'; rewrite A, A'; reflexivity.
  - destruct b, d; try discriminate; destruct a; cbn in *; try reflexivity; injection B as B; injection B' as B'; rewrite B, B'; reflexivity.
Qed.
Lemma alike_num f a b c d v : alike a c -> alike b d -> on_num f a b = Some v -> exists w, on_num f c d = Some w /\ alike v w.
Proof.
  unfold on_num. intros A B H. assert (num_of a = num_of c) as Na by (destruct A as [(z & A & A')|<-]; congruence). assert (num_of b = num_of d) as Nb by (destruct B as [(z & B & B')|<-]; congruence).
  rewrite <- Na, <- Nb. exists v. split; [exact H|right; reflexivity].
Qed.
Lemma alike_apply o a b c d v : alike a c -> alike b d -> py_apply o a b = Some v -> exists w, py_apply o c d = Some w /\ alike v w.
Proof.
  intros A B H. destruct o; cbn [py_apply] in *; try (eapply alike_num; eassumption); try discriminate.
  - injection H as <-. rewrite (alike_eqv a b c d A B). eexists. split; [reflexivity|right; reflexivity].
  - injection H as <-. rewrite (alike_eqv a b c d A B). eexists. split; [reflexivity|right; reflexivity].
  - assert (X : forall e f u, match e, f with PB x, PB y => Some (PB (xorb x y)) | _, _ => on_num (fun x y => PZ (Z.lxor x y)) e f end = Some u ->
        exists u', on_num (fun x y => PZ (Z.lxor x y)) e f = Some u' /\ alike u u').
    { intros [x|x|x] [y|y|y] u E; try (cbn in E; discriminate); try (eexists; split; [exact E|right; reflexivity]).
      injection E as <-. cbn. eexists. split; [reflexivity|]. left. destruct x, y; cbn; eauto. }
    assert (Y : forall e f u', on_num (fun x y => PZ (Z.lxor x y)) e f = Some u' -> exists u, match e, f with PB x, PB y => Some (PB (xorb x y)) | _, _ => on_num (fun x y => PZ (Z.lxor x y)) e f end = Some u /\ alike u' u).
    { intros [x|x|x] [y|y|y] u E; try (cbn in E; discriminate); try (eexists; split; [exact E|right; reflexivity]).
      cbn in E. injection E as <-. eexists. split; [reflexivity|]. left. destruct x, y; cbn; eauto. }
    destruct (X a b v H) as (u' & U & V). destruct (alike_num _ a b c d u' A B U) as (u2 & U2 & V2). destruct (Y c d u2 U2) as (w & W & V3). exists w. split; [exact W|].
    assert (Num : exists z, num_of v = Some z). { clear - H. destruct a as [x|x|x], b as [y|y|y]; cbn in H; try discriminate; injection H as <-; cbn; eauto. }
    destruct Num as [z Nv]. left. exists z. split; [exact Nv|].
    assert (Tr : forall p q, alike p q -> num_of p = num_of q) by (intros p q [(z' & P & Q)|<-]; congruence). rewrite <- (Tr _ _ V3), <- (Tr _ _ V2), <- (Tr _ _ V). exact Nv.
Qed.
Lemma alike_value (e1 e2 : string -> option pyval) : (forall x v, e1 x = Some v -> exists w, e2 x = Some w /\ alike v w) ->
  forall e v, py_value e1 e = Some v -> exists w, py_value e2 e = Some w /\ alike v w.
Proof.
  intro E. induction e as [x|n|b|s|a IH|a IH|o a IHa b IHb]; intros v H.
  - apply E. exact H.
  - eexists. split; [exact H|right; reflexivity].
  - eexists. split; [exact H|right; reflexivity].
  - eexists. split; [exact H|right; reflexivity].
  - cbn [py_value] in *. destruct (py_value e1 a) as [u|]; [|discriminate]. injection H as <-. destruct (IH u eq_refl) as (w & -> & A). cbn [option_map].
    rewrite (alike_truthy _ _ A). eexists. split; [reflexivity|right; reflexivity].
  - cbn [py_value] in *. destruct (py_value e1 a) as [u|]; [|discriminate]. destruct (IH u eq_refl) as (w & -> & A).
    destruct (num_of u) as [z|] eqn:U; [|discriminate]. injection H as <-. assert (num_of w = Some z) as -> by (destruct A as [(z' & P & Q)|<-]; congruence).
    eexists. split; [reflexivity|right; reflexivity].
  - destruct o; cbn [py_value] in *;
      try (destruct (py_value e1 a) as [u|]; [|discriminate]; destruct (py_value e1 b) as [u'|]; [|discriminate];
           destruct (IHa u eq_refl) as (w & -> & A); destruct (IHb u' eq_refl) as (w' & -> & A'); exact (alike_apply _ _ _ _ _ _ A A' H)).
    + destruct (py_value e1 a) as [u|]; [|discriminate]. destruct (IHa u eq_refl) as (w & -> & A). rewrite <- (alike_truthy _ _ A).
      destruct (truthy u); first [apply IHb; exact H|injection H as <-; eauto].
    + destruct (py_value e1 a) as [u|]; [|discriminate]. destruct (IHa u eq_refl) as (w & -> & A). rewrite <- (alike_truthy _ _ A).
      destruct (truthy u); first [apply IHb; exact H|injection H as <-; eauto].
Qed.
(** The initial condition, compiled to Python, is true on the integers at a node iff the initial
    condition of the specification holds there. *)
Theorem isinit_meaning : forall g d b, isinit g d = Ok b -> good_domains g -> (forall x, spec_enums g x = None) ->
  (forall x t, In x (env_init g ++ sys_init g) -> parse x = Some t -> wt (spec_types g) t /\ typed (spec_enums g) t) ->
  forall s : trace, respects (spec_types g) (s 0) ->
  (forall x k, spec_types g x = Some k -> exists z, M_Base.lookup x d = Some z /\ match k with TyB => s 0 x = VB (z =? 1)%Z /\ (z = 0%Z \/ z = 1%Z) | _ => s 0 x = VZ z end) ->
  b = true <-> init_condition g s.
Proof.
  intros g d b H GD NE T s R D. unfold isinit in H. apply L_Machine.bind_Ok in H. destruct H as (text & C & H).
  destruct (py_eval (ints_env d) text) as [v|] eqn:V; [|discriminate]. apply Ok_inj in H. subst b.
  assert (En : encoded (spec_enums g) s s) by (intros i x; rewrite NE; reflexivity).
  destruct (compile_init_meaning g text C GD T s s R En) as (c & K & <-). unfold py_eval in *. destruct (py_parse text) as [e|]; [|discriminate].
  destruct (alike_value (assignment (int_types (spec_types g)) (s 0)) (ints_env d)) with (e := e) (v := PB c) as (w & W & A); [|exact K|].
  - intros x u. unfold assignment, int_types, ints_env. destruct (spec_types g x) as [k|] eqn:Tx; [|discriminate]. cbn [option_map]. intros [= <-].
    destruct (D x k Tx) as (z & -> & Z). cbn [option_map]. eexists. split; [reflexivity|]. left. exists z. split; [|reflexivity].
    destruct k; [destruct Z as [-> [-> | ->]]; reflexivity| |]; rewrite Z; reflexivity.
  - rewrite V in W. injection W as <-. rewrite <- (alike_truthy _ _ A). cbn. tauto.
Qed.
Print Assumptions isinit_meaning.
