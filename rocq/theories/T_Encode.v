(** C13: encoding string values as integers. *)
From Coq Require Import List String Bool Arith ZArith Lia.
From Verif Require Import M_Base M_Ast M_Parser M_Spec M_Form M_Tree.
From Verif Require Import S_LTL S_Gr1 S_Form S_Syntax S_Tree.
From Verif Require Import L_Gr1 L_Form L_RoundTrip L_ParseWf L_Subst L_Encode.
Import ListNotations.
Open Scope string_scope.

(** The variables are the keys of Python dictionaries, and the domains have no duplicates. *)
Definition good_domains (g : grspec) : Prop :=
  NoDup (map fst (env_vars g)) /\ NoDup (map fst (sys_vars g)) /\
  forall x l, spec_enums g x = Some l -> NoDup l.

Lemma mapr_pair {A B} (f : A -> res B) : forall l out, mapr (fun x => do y <- f x; Ok (x, y)) l = Ok out ->
  map fst out = l /\ forall x y, In (x, y) out -> f x = Ok y.
Proof.
  induction l as [|x l IH]; intros out H; cbn [mapr] in H.
  - apply Ok_inj in H. subst. split; [reflexivity|intros ? ? []].
  - destruct (f x) as [y|] eqn:F; [|discriminate]. cbn [bind] in H.
    destruct (mapr _ l) as [r|]; [|discriminate]. cbn [bind] in H. apply Ok_inj in H. subst.
    destruct (IH r eq_refl) as [A1 A2]. split; [cbn; congruence|]. intros u v [E|I]; [inversion E; subst; auto|auto].
Qed.
Lemma encode_inv g x b f : encode_clause g x = Ok (b, f) -> exists t, parse x = Some t /\ ast g x = Ok t /\
  enc (finite_vars g) None t = Some b /\ flatten b = Some f.
Proof.
  intro H. destruct (ast g x) as [t|] eqn:A; [|unfold encode_clause in H; rewrite A in H; discriminate].
  exists t. pose proof (encode_clause_eq g x t A) as E. destruct (enc _ None t) as [b'|].
  - rewrite E in H. destruct (flatten b') eqn:F; [|discriminate]. apply Ok_inj in H. inversion H; subst. eauto using ast_parse.
  - destruct E as [e E]. congruence.
Qed.

(** Every clause gets an encoded text that parses to a tree without string constants, which holds
    on the integer-encoded trace exactly when the clause holds on the trace. *)
Theorem str_to_int_meaning : forall g out, str_to_int g = Ok out -> good_domains g ->
  map fst out = clauses g /\
  forall x b f t, In (x, (b, f)) out -> parse x = Some t ->
    parse f = Some b /\ no_str b = true /\
    (typed (spec_enums g) t -> forall s s', encoded (spec_enums g) s s' ->
       forall i, holds s i t <-> holds s' i b).
Proof.
  intros g out H (Ne & Ns & Nd). apply mapr_pair in H. destruct H as [H1 H2]. split; [exact H1|].
  intros x b f t I P. apply H2, encode_inv in I. destruct I as (t' & P' & A & E & F).
  assert (t' = t) by congruence. subst t'.
  assert (N : no_str b = true) by (eapply enc_no_str; eauto).
  split; [|split; [exact N|]].
  - eapply parse_flatten; eauto. eapply enc_wf; eauto. eapply parse_wf; eauto.
  - intros T s s' En i.
    destruct (enc_meaning (spec_enums g) (finite_vars g) (finite_vars_enums g Ne Ns) Nd s s' En t T None) as (b' & B1 & B2).
    assert (b' = b) by congruence. subst b'. apply B2.
Qed.
Print Assumptions str_to_int_meaning.

(** The encoding succeeds on declared, typed clauses with plain operators. *)
Theorem str_to_int_total : forall g, good_domains g ->
  (forall y, In y (clauses g) -> exists t, clause_ok g y t /\ plain_ops t = true /\ typed (spec_enums g) t) ->
  exists out, str_to_int g = Ok out.
Proof.
  intros g (Ne & Ns & Nd) H. apply mapr_all. intros x I. destruct (H x I) as (t & C & P & T).
  assert (A : ast g x = Ok t).
  { apply ast_ok; auto; [|apply C]. intros y Y. destruct (H y Y) as (u & U & _). eauto. }
  destruct (enc_total (spec_enums g) (finite_vars g) (finite_vars_enums g Ne Ns) t T None) as [b B].
  pose proof (encode_clause_eq g x t A) as E. rewrite B in E.
  assert (W : wf_node b = true) by (eapply enc_wf; eauto; eapply parse_wf; apply C).
  assert (F : exists f, flatten b = Some f) by (apply flatten_plain; auto; rewrite (enc_plain _ _ _ _ B); auto).
  destruct F as [f F]. rewrite F in E. rewrite E. cbn. eauto.
Qed.
Print Assumptions str_to_int_total.

(** A constant outside the domain of the variable it is compared to, or compared to a variable
    that is not a string variable, is rejected. *)
Theorem str_to_int_rejects : forall g x t op l r v c,
  NoDup (map fst (env_vars g)) -> NoDup (map fst (sys_vars g)) ->
  In x (clauses g) -> parse x = Some t -> sub (NCmp op l r) t ->
  (nexts (NVar v) l /\ nexts (NStr c) r \/ nexts (NStr c) l /\ nexts (NVar v) r) ->
  (forall dom, spec_enums g v = Some dom -> ~ In c dom) ->
  exists e, str_to_int g = Err e.
Proof.
  intros g x t op l r v c Ne Ns I P S H N.
  destruct (ast g x) as [t'|e] eqn:A.
  - assert (t' = t) by (apply ast_parse in A; congruence). subst t'.
    pose proof (encode_clause_eq g x t A) as E. rewrite (bad_comparison _ t op l r v c H) in E; auto.
    + destruct E as [e E]. eapply (mapr_err _ _ x e I). rewrite E. reflexivity.
    + intros dom L. rewrite finite_vars_enums in L by auto. auto.
  - eapply (mapr_err _ _ x e I). unfold encode_clause. rewrite A. reflexivity.
Qed.
Print Assumptions str_to_int_rejects.

(** Every trace whose string variables stay in their domains has an encoding. *)
Theorem encoding_exists : forall D s,
  (forall i x l, D x = Some l -> exists v, s i x = VS v /\ In v l) -> exists s', encoded D s s'.
Proof.
  intros D s H. exists (fun i x => match D x with
    | Some l => match s i x with
                | VS v => match index_of v l with Some k => VZ (Z.of_nat k) | None => VZ 0 end
                | _ => VZ 0 end
    | None => s i x end).
  intros i x. destruct (D x) as [l|] eqn:E; [|reflexivity]. destruct (H i x l E) as (v & V & I).
  rewrite V. apply index_of_in in I. destruct I as [k K]. rewrite K. exists v, k. split; [auto|]. split; [|auto].
  apply index_of_nth; auto.
Qed.
Print Assumptions encoding_exists.

(** Variables of different domains cannot be compared: the positions differ. *)
Theorem compared_domains_refuted : exists g out x b f t s s',
  str_to_int g = Ok out /\ good_domains g /\ In (x, (b, f)) out /\ parse x = Some t /\
  encoded (spec_enums g) s s' /\ holds s 0 t /\ ~ holds s' 0 b.
Proof.
  exists (spec_of [] [("x", DEnum ["a"; "b"]); ("y", DEnum ["b"; "a"])] [] ["x = y"] [] [] [] []).
  do 5 eexists. exists (fun _ _ => VS "a"), (fun _ x => if x =? "x" then VZ 0 else if x =? "y" then VZ 1 else VS "a").
  split; [vm_compute; reflexivity|]. split.
  { split; [constructor|]. split.
    - repeat constructor; cbn; intuition discriminate.
    - intros x l. unfold spec_enums. cbn [sys_vars env_vars spec_of find fst snd].
      destruct ("x" =? x); [intro E; inversion E; repeat constructor; cbn; intuition discriminate|].
      destruct ("y" =? x); [intro E; inversion E; repeat constructor; cbn; intuition discriminate|discriminate]. }
  split; [left; reflexivity|]. split; [vm_compute; reflexivity|]. split; [|split].
  - intros i x. unfold spec_enums. cbn [sys_vars env_vars spec_of find fst snd].
    rewrite (String.eqb_sym "x" x), (String.eqb_sym "y" x).
    destruct (x =? "x") eqn:E1; [exists "a", 0; auto|]. destruct (x =? "y") eqn:E2; [exists "a", 1; auto|]. reflexivity.
  - vm_compute. reflexivity.
  - vm_compute. discriminate.
Qed.
Print Assumptions compared_domains_refuted.

(** Non-trivial case: constants on either side, under next, in a larger formula. *)
Definition ex_enc : grspec :=
  spec_of [("e", DEnum ["on"; "off"])] [("x", DEnum ["red"; "green"; "blue"]); ("y", DEnum ["red"; "green"; "blue"]); ("n", DInt 0%Z 5%Z)]
    [] ["x = ""blue"""] [] ["e != ""on"" & n + 1 <= 3 -> X(""green"" = x) | X(x) = y"] [] ["x != y"].
Example encode_case :
  (exists out, str_to_int ex_enc = Ok out /\ map (fun p => snd (snd p)) out =
    ["( x = 2 )"; "( ( ( e != 0 ) & ( ( n + 1 ) <= 3 ) ) -> ( ( X ( 1 = x ) ) | ( ( X x ) = y ) ) )"; "( x != y )"]) /\
  good_domains ex_enc /\
  forall y, In y (clauses ex_enc) -> exists t, clause_ok ex_enc y t /\ plain_ops t = true /\ typed (spec_enums ex_enc) t.
Proof.
  split; [eexists; split; vm_compute; reflexivity|]. split.
  { split; [repeat constructor; cbn; intuition discriminate|]. split; [repeat constructor; cbn; intuition discriminate|].
    intros x l. unfold spec_enums. cbn [sys_vars env_vars spec_of ex_enc find fst snd].
    repeat match goal with |- context[(?a =? x)%string] => destruct (a =? x)%string end; intro E; inversion E;
      repeat constructor; cbn; intuition discriminate. }
  intros y Y. cbn in Y. destruct Y as [<-|[<-|[<-|[]]]].
  - eexists. split; [apply parse_clause_ok; vm_compute; reflexivity|]. split; [reflexivity|].
    apply ty_cmp; [cbn; auto|]. eapply sc_const_r; [constructor|constructor|reflexivity|cbn; auto].
  - eexists. split; [apply parse_clause_ok; vm_compute; reflexivity|]. split; [reflexivity|].
    apply ty_bin; [apply ty_bin|apply ty_bin; [apply ty_un|]].
    + apply ty_cmp; [cbn; auto|]. eapply sc_const_r; [constructor|constructor|reflexivity|cbn; auto].
    + apply ty_pure. split; [intros c K|intros v K]; repeat match goal with H : sub _ _ |- _ => inversion H; subst; clear H end; reflexivity.
    + apply ty_cmp; [cbn; auto|]. eapply sc_const_l; [constructor|constructor|reflexivity|cbn; auto].
    + apply ty_cmp; [cbn; auto|]. eapply sc_vars; [apply nx_succ; constructor|constructor|reflexivity|reflexivity].
  - eexists. split; [apply parse_clause_ok; vm_compute; reflexivity|]. split; [reflexivity|].
    apply ty_cmp; [cbn; auto|]. eapply sc_vars; [constructor|constructor|reflexivity|reflexivity].
Qed.
Example encode_rejects_case :
  str_to_int (spec_of [] [("x", DEnum ["a"; "b"])] [] ["x = ""c"""] [] [] [] []) = Err "ValueError".
Proof. vm_compute. reflexivity. Qed.
