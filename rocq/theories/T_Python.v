(** C15: Python expressions of formulas, and the compiled initial condition. *)
From Coq Require Import List String Bool Arith ZArith Lia.
From Verif Require Import M_Base M_Ast M_Parser M_Spec M_Form M_Tree M_Python.
From Verif Require Import S_LTL S_Gr1 S_Form S_Syntax S_Tree S_Python.
From Verif Require Import L_Gr1 L_Form L_RoundTrip L_ParseWf L_Subst L_Encode L_Python T_Encode.
Import ListNotations.
Open Scope string_scope.

(** The text is a Python expression that evaluates, over an assignment of the variables, to the
    truth value of the formula. *)
Theorem python_translation_meaning : forall Gamma t text,
  wf_node t = true -> wt Gamma t -> no_str t = true -> to_python t = Ok text ->
  forall s i, respects Gamma (s i) ->
  exists b, py_eval (assignment Gamma (s i)) text = Some (PB b) /\ (b = true <-> holds s i t).
Proof.
  intros Gamma t text WF W N T s i R.
  assert (SU : py_supported t = true) by (apply (to_python_supported t WF); eauto).
  unfold to_python in T. destruct (ast_to_python t) as [u|] eqn:A; [|discriminate]. cbn [bind] in T.
  apply ast_to_python_id in A. subst u. destruct (text_ok Gamma s i R t W text N SU T) as (e & b & (ts & L & A) & V & B).
  exists b. split; [|exact B]. unfold py_eval, py_parse. specialize (L [] I). rewrite app_nil_r in L. rewrite L.
  change (py_lex [] "") with (Some (@nil pytok)). cbn [option_map]. rewrite app_nil_r. pose proof (atoms_len _ _ A) as Ln. destruct A as [_ A].
  rewrite <- (app_nil_r ts) at 2. rewrite A by lia. destruct (S (2 * List.length ts) - 1) eqn:K; [lia|]. cbn [py_loop]. exact V.
Qed.
Print Assumptions python_translation_meaning.

(** Exactly the formulas over the operators that Python has are translated: temporal operators,
    if-then-else, multiplication and division raise. *)
Theorem python_translation_supported : forall t, wf_node t = true ->
  ((exists text, to_python t = Ok text) <-> py_supported t = true).
Proof. apply to_python_supported. Qed.
Print Assumptions python_translation_supported.

Lemma mapr_tree (f : string -> res node) : forall l ts, mapr f l = Ok ts ->
  (forall t, In t ts -> exists x, In x l /\ f x = Ok t) /\ (forall x, In x l -> exists t, In t ts /\ f x = Ok t).
Proof.
  induction l as [|x l IH]; intros ts H; cbn [mapr] in H.
  - apply Ok_inj in H. subst. split; intros ? [].
  - destruct (f x) as [y|] eqn:F; [|discriminate]. cbn [bind] in H. destruct (mapr f l) as [r|]; [|discriminate].
    cbn [bind] in H. apply Ok_inj in H. subst. destruct (IH r eq_refl) as [A B]. split.
    + intros t [<-|T]; [exists x; split; [left|]; auto|]. destruct (A t T) as (z & Z & E). exists z. split; [right|]; auto.
    + intros z [<-|Z]; [exists y; split; [left|]; auto|]. destruct (B z Z) as (t & T & E). exists t. split; [right|]; auto.
Qed.
Lemma lookup_in {A} (x : string) (m : list (string * A)) v : lookup x m = Some v -> In (x, v) m.
Proof.
  induction m as [|[y w] m IH]; [discriminate|]. cbn. destruct (String.eqb _ _) eqn:E; [|auto].
  apply String.eqb_eq in E. subst. intro H. inversion H. auto.
Qed.

(** The initial condition, with strings encoded by integers: over the integer-encoded initial
    state the compiled expression is true iff the system's initial condition holds whenever the
    environment's does. *)
Definition init_condition (g : grspec) (s : trace) : Prop :=
  (forall x t, In x (env_init g) -> parse x = Some t -> holds s 0 t) ->
  forall x t, In x (sys_init g) -> parse x = Some t -> holds s 0 t.
Theorem compile_init_meaning : forall g text, compile_init g true = Ok text -> good_domains g ->
  (forall x t, In x (env_init g ++ sys_init g)%list -> parse x = Some t -> wt (spec_types g) t /\ typed (spec_enums g) t) ->
  forall s s', respects (spec_types g) (s 0) -> encoded (spec_enums g) s s' ->
  exists b, py_eval (assignment (int_types (spec_types g)) (s' 0)) text = Some (PB b) /\
    (b = true <-> init_condition g s).
Proof.
  intros g text H GD T s s' R En. unfold compile_init in H. destruct (str_to_int g) as [m|] eqn:S; [|discriminate]. cbn [bind] in H.
  set (tree := fun x => do bf <- of_opt "KeyError" (lookup x m); Ok (fst bf)) in H.
  destruct (mapr tree (env_init g)) as [te|] eqn:Te; [|discriminate]. cbn [bind] in H. destruct (py_side te) as [e|] eqn:E; [|discriminate]. cbn [bind] in H.
  destruct (mapr tree (sys_init g)) as [ts|] eqn:Ts; [|discriminate]. cbn [bind] in H. destruct (py_side ts) as [q|] eqn:Q; [|discriminate]. cbn [bind] in H.
  apply Ok_inj in H. subst text.
  assert (P : forall x b, In x (env_init g ++ sys_init g)%list -> tree x = Ok b -> exists t, parse x = Some t /\
     wt (int_types (spec_types g)) b /\ no_str b = true /\ wf_node b = true /\ (holds s 0 t <-> holds s' 0 b)).
  { intros x b I X. unfold tree in X. destruct (lookup x m) as [[b' f]|] eqn:L; [|discriminate]. cbn in X. apply Ok_inj in X. subst b'.
    apply lookup_in in L. pose proof (str_to_int_meaning g m S GD) as [M1 M2].
    assert (EC : encode_clause g x = Ok (b, f)). { apply mapr_pair in S. destruct S as [_ S]. apply S; auto. }
    apply encode_inv in EC. destruct EC as (t & Pt & A & En' & F). exists t. split; [auto|]. destruct (T x t I Pt) as [W Ty].
    destruct (M2 x b f t L Pt) as (_ & NS & M3). split; [eapply enc_wt; eauto|]. split; [auto|].
    split; [eapply enc_wf; eauto; eapply parse_wf; eauto|]. apply (M3 Ty s s' En). }
  destruct (mapr_tree _ _ _ Te) as [E1 E2]. destruct (mapr_tree _ _ _ Ts) as [S1 S2].
  destruct (init_ok _ s' 0 (respects_int g s s' 0 R En) te ts e q) as (b & B1 & B2); auto.
  { intros t I. apply in_app_iff in I. destruct I as [I|I].
    - destruct (E1 t I) as (x & X & Xt). destruct (P x t) as (u & _ & W & N & F & _); auto. apply in_app_iff; auto.
    - destruct (S1 t I) as (x & X & Xt). destruct (P x t) as (u & _ & W & N & F & _); auto. apply in_app_iff; auto. }
  exists b. split; [exact B1|]. rewrite B2. unfold init_condition. split.
  - intros K He x t X Pt. destruct (S2 x X) as (b' & I & Xb). destruct (P x b') as (u & U & _ & _ & _ & Hu); auto; [apply in_app_iff; auto|].
    assert (u = t) by congruence. subst u. apply Hu. apply K; auto. intros b2 I2. destruct (E1 b2 I2) as (y & Y & Yb).
    destruct (P y b2) as (v & V & _ & _ & _ & Hv); auto; [apply in_app_iff; auto|]. apply Hv. eapply He; eauto.
  - intros K He b2 I2. destruct (S1 b2 I2) as (x & X & Xb). destruct (P x b2) as (u & U & _ & _ & _ & Hu); auto; [apply in_app_iff; auto|].
    apply Hu. eapply K; eauto. intros y t Y Pt. destruct (E2 y Y) as (b' & I & Yb).
    destruct (P y b') as (v & V & _ & _ & _ & Hv); auto; [apply in_app_iff; auto|].
    assert (v = t) by congruence. subst v. apply Hv, He. auto.
Qed.
Print Assumptions compile_init_meaning.

(** Without the encoding: for clauses without string constants. *)
Theorem compile_init_plain : forall g text, compile_init g false = Ok text ->
  (forall x t, In x (env_init g ++ sys_init g)%list -> parse x = Some t -> wt (spec_types g) t /\ no_str t = true) ->
  forall s, respects (spec_types g) (s 0) ->
  exists b, py_eval (assignment (spec_types g) (s 0)) text = Some (PB b) /\ (b = true <-> init_condition g s).
Proof.
  intros g text H T s R. unfold compile_init in H. destruct (str_to_int g) as [m|] eqn:S; [|discriminate]. cbn [bind] in H.
  destruct (mapr (ast g) (env_init g)) as [te|] eqn:Te; [|discriminate]. cbn [bind] in H. destruct (py_side te) as [e|] eqn:E; [|discriminate]. cbn [bind] in H.
  destruct (mapr (ast g) (sys_init g)) as [ts|] eqn:Ts; [|discriminate]. cbn [bind] in H. destruct (py_side ts) as [q|] eqn:Q; [|discriminate]. cbn [bind] in H.
  apply Ok_inj in H. subst text. destruct (mapr_tree _ _ _ Te) as [E1 E2]. destruct (mapr_tree _ _ _ Ts) as [S1 S2].
  destruct (init_ok _ s 0 R te ts e q) as (b & B1 & B2); auto.
  { intros t I. apply in_app_iff in I. destruct I as [I|I].
    - destruct (E1 t I) as (x & X & Xt). apply ast_parse in Xt. destruct (T x t); [apply in_app_iff; auto|auto|]. repeat split; auto. eapply parse_wf; eauto.
    - destruct (S1 t I) as (x & X & Xt). apply ast_parse in Xt. destruct (T x t); [apply in_app_iff; auto|auto|]. repeat split; auto. eapply parse_wf; eauto. }
  exists b. split; [exact B1|]. rewrite B2. unfold init_condition. split.
  - intros K He x t X Pt. destruct (S2 x X) as (b' & I & Xb). apply ast_parse in Xb. assert (b' = t) by congruence. subst b'.
    apply K; auto. intros b2 I2. destruct (E1 b2 I2) as (y & Y & Yb). apply ast_parse in Yb. eauto.
  - intros K He b2 I2. destruct (S1 b2 I2) as (x & X & Xb). apply ast_parse in Xb. eapply K; eauto.
    intros y t Y Pt. destruct (E2 y Y) as (b' & I & Yb). apply ast_parse in Yb. assert (b' = t) by congruence. subst b'. auto.
Qed.
Print Assumptions compile_init_plain.

(** Without the encoding string constants lose their quotes: the expression refers to a variable
    that does not exist. *)
Theorem compile_init_strings_refuted : exists g text s,
  compile_init g false = Ok text /\ respects (spec_types g) (s 0) /\
  (forall x t, In x (env_init g ++ sys_init g)%list -> parse x = Some t -> wt (spec_types g) t /\ typed (spec_enums g) t) /\
  init_condition g s /\ py_eval (assignment (spec_types g) (s 0)) text = None.
Proof.
  exists (spec_of [] [("x", DEnum ["a"; "b"])] [] ["x = ""a"""] [] [] [] []). eexists. exists (fun _ _ => VS "a").
  split; [vm_compute; reflexivity|]. split.
  { intros x k. unfold spec_types. cbn [sys_vars env_vars spec_of find fst]. destruct ("x" =? x)%string; intro H; inversion H; subst. cbn. eauto. }
  split.
  { intros x t [<-|[]] P. vm_compute in P. inversion P; subst t. split.
    - eapply wf_eq; [cbn; auto|apply wt_var; reflexivity|apply wt_str].
    - apply ty_cmp; [cbn; auto|]. eapply sc_const_r; [constructor|constructor|reflexivity|cbn; auto]. }
  split; [|vm_compute; reflexivity].
  intros _ x t [<-|[]] P. vm_compute in P. inversion P; subst t. vm_compute. reflexivity.
Qed.
Print Assumptions compile_init_strings_refuted.

(** Non-trivial case: strings, integers and Booleans on both sides. *)
Definition ex_py : grspec :=
  spec_of [("e", DBool); ("m", DEnum ["on"; "off"])] [("x", DEnum ["red"; "green"]); ("n", DInt 0%Z 5%Z)]
    ["e <-> m = ""on"""; "m != ""off"" | !e"] ["x = ""green"" -> n + 1 <= 3"; "e ^ x = ""red"""] [] [] [] [].
Example compile_init_case :
  compile_init ex_py true = Ok "not (((e == ( m == 0 ))) and (( ( m != 1 ) or ( not e ) ))) or ((((not (( x == 1 ))) or ( ( n + 1 ) <= 3 ))) and (( e ^ ( x == 0 ) )))" /\
  good_domains ex_py /\
  (forall x t, In x (env_init ex_py ++ sys_init ex_py)%list -> parse x = Some t -> wt (spec_types ex_py) t /\ typed (spec_enums ex_py) t) /\
  respects (spec_types ex_py) (fun x => if x =? "e" then VB true else if x =? "m" then VS "on" else if x =? "x" then VS "green" else VZ 2).
Proof.
  split; [vm_compute; reflexivity|]. split.
  { split; [repeat constructor; cbn; intuition discriminate|]. split; [repeat constructor; cbn; intuition discriminate|].
    intros x l. unfold spec_enums. cbn [sys_vars env_vars spec_of ex_py find fst snd].
    repeat match goal with |- context[(?a =? x)%string] => destruct (a =? x)%string end; intro E; inversion E;
      repeat constructor; cbn; intuition discriminate. }
  assert (SC : forall v dom c op, spec_enums ex_py v = Some dom -> In c dom -> In op ["="; "!="] -> py_name v = true ->
     wt (spec_types ex_py) (NCmp op (NVar v) (NStr c)) /\ typed (spec_enums ex_py) (NCmp op (NVar v) (NStr c))).
  { intros v dom c op D I O N. split.
    - eapply wf_eq; [auto|apply wt_var; auto; apply spec_types_enum; eauto|apply wt_str].
    - apply ty_cmp; auto. eapply sc_const_r; [constructor|constructor|eauto|auto]. }
  split.
  { intros x t I P. cbn in I. destruct I as [<-|[<-|[<-|[<-|[]]]]]; vm_compute in P; inversion P; subst t; clear P.
    - split; [apply wf_bin; [apply wf_var; reflexivity|]|apply ty_bin; [constructor|]]; (eapply SC; [reflexivity|cbn; auto|cbn; auto|reflexivity]).
    - split; [apply wf_bin; [|apply wf_un, wf_var; reflexivity]|apply ty_bin; [|repeat constructor]]; (eapply SC; [reflexivity|cbn; auto|cbn; auto|reflexivity]).
    - split; [apply wf_bin|apply ty_bin].
      + (eapply SC; [reflexivity|cbn; auto|cbn; auto|reflexivity]).
      + apply wf_cmp; [cbn; auto|apply wt_arith; [cbn; auto|apply wt_var; reflexivity|apply wt_num; reflexivity]|apply wt_num; reflexivity].
      + (eapply SC; [reflexivity|cbn; auto|cbn; auto|reflexivity]).
      + apply ty_pure. split; [intros c K|intros v K]; repeat match goal with H : sub _ _ |- _ => inversion H; subst; clear H end; reflexivity.
    - split; [apply wf_bin; [apply wf_var; reflexivity|]|apply ty_bin; [constructor|]]; (eapply SC; [reflexivity|cbn; auto|cbn; auto|reflexivity]). }
  intros x k. unfold spec_types. cbn [sys_vars env_vars spec_of ex_py find fst snd]. rewrite !(String.eqb_sym _ x).
  destruct (x =? "e") eqn:E1; [apply String.eqb_eq in E1; subst x; cbn; intro H; inversion H; cbn; eauto|].
  destruct (x =? "m") eqn:E2; [apply String.eqb_eq in E2; subst x; cbn; intro H; inversion H; cbn; eauto|].
  destruct (x =? "x") eqn:E3; [intro H; inversion H; cbn; eauto|].
  destruct (x =? "n") eqn:E4; [intro H; inversion H; cbn; eauto|]. discriminate.
Qed.
Example python_unsupported : to_python (NUn "X" (NVar "x")) = Err "AssertionError" /\ to_python (NArith "*" (NNum "2") (NVar "x")) = Err "KeyError".
Proof. split; reflexivity. Qed.
