(** Every tree returned by the parser is well formed. *)
From Coq Require Import List String Ascii Bool Arith Lia.
From Verif Require Import M_Base M_Ast M_Lexer M_Parser S_LTL S_Gr1 S_Syntax.
From Verif Require Import L_Lexer L_Parser L_Gr1 L_RoundTrip.
Import ListNotations.
Open Scope string_scope.
Open Scope list_scope.

Definition bop_ok (k : bopk) (v : string) : bool :=
  match k with
  | AND | OR | XOR | IMP | BIMP | UNTIL | WEAK_UNTIL | RELEASE =>
      oneof v ["&"; "|"; "^"; "->"; "=>"; "<->"; "<=>"; "U"; "W"; "V"]
  | EQUALS | NEQUALS | LT | LE | GT | GE => oneof v ["="; "!="; "/="; "<"; "<="; "=<"; ">"; ">="]
  | PLUS | TIMES | DIV => oneof v ["+"; "*"; "/"]
  end.
Definition wf_tok (t : tok) : Prop :=
  match t with
  | NAME v => ident v
  | NUMBER v => numeral v = true
  | ITE v => v = "ite"
  | NOT v => oneof v ["!"; "~"] = true
  | BOP k v => bop_ok k v = true
  | _ => True
  end.

Lemma span_fst_all f l : forallb f (fst (span f l)) = true.
Proof.
  induction l as [|c r IH]; simpl; auto. destruct (f c) eqn:E; simpl; auto.
  destruct (span f r). simpl in *. rewrite E. auto.
Qed.

Lemma name_tok_wf a : ident_chars a = true -> wf_tok (name_tok a).
Proof.
  intro H. unfold name_tok.
  set (v := if (a =? "next")%string then "X" else a).
  destruct (upper v =? "FALSE")%string eqn:E1; [exact I|].
  destruct (upper v =? "TRUE")%string eqn:E2; [exact I|].
  destruct (v =? "ite")%string eqn:E3; [apply String.eqb_eq in E3; exact E3|].
  destruct (v =? "X")%string eqn:E4; [exact I|].
  destruct (v =? "G")%string eqn:E5; [exact I|].
  destruct (v =? "F")%string eqn:E6; [exact I|].
  destruct (v =? "U")%string eqn:E7; [apply String.eqb_eq in E7; rewrite E7; reflexivity|].
  destruct (v =? "W")%string eqn:E8; [apply String.eqb_eq in E8; rewrite E8; reflexivity|].
  destruct (v =? "V")%string eqn:E9; [apply String.eqb_eq in E9; rewrite E9; reflexivity|].
  unfold v in *. destruct (a =? "next")%string eqn:E0; [discriminate|].
  cbn [wf_tok]. split; [assumption|].
  unfold reserved. cbn [existsb]. rewrite E0, E1, E2, E3, E4, E5, E6, E7, E8, E9. reflexivity.
Qed.

Lemma lex1_wf c r t : fst (lex1 c r) = Some t -> wf_tok t.
Proof.
  unfold lex1.
  destruct ((c =? " ") || (c =? tab))%char; [discriminate|].
  destruct (name_start c) eqn:Hc.
  { pose proof (span_fst_all name_char r) as Hs. destruct (span name_char r) as [x y]; simpl in *.
    intro H. inversion H; subst. apply name_tok_wf. cbn [str_of string_of_list_ascii ident_chars].
    unfold str_of. rewrite list_ascii_of_string_of_list_ascii, Hc, Hs. reflexivity. }
  assert (Hdig : digit c = true -> forall y, fst (span digit r) = y -> numeral (str_of (c :: y)) = true).
  { intros D y <-. unfold str_of. cbn [string_of_list_ascii numeral].
    rewrite list_ascii_of_string_of_list_ascii, D, span_fst_all. reflexivity. }
  destruct (digit c) eqn:D.
  { destruct (span digit r) as [x y]; simpl in *.
    repeat (match goal with
      | |- context [if ?b then _ else _] => destruct b
      | |- context [match peek ?d ?r with _ => _ end] => destruct (peek d r)
      end); simpl; intro H; inversion H; subst; simpl; auto; try reflexivity. }
  repeat (match goal with
    | |- context [if ?b then _ else _] => destruct b
    | |- context [match peek ?d ?r with _ => _ end] => destruct (peek d r)
    end); simpl; intro H; inversion H; subst; simpl; auto; try reflexivity.
Qed.

Lemma lexl_wf : forall n s, List.length s <= n -> Forall wf_tok (lexl s).
Proof.
  induction n; intros s H.
  - destruct s; [constructor|simpl in H; lia].
  - destruct s as [|c r]; [constructor|]. rewrite lexl_cons.
    pose proof (lex1_length c r). pose proof (lex1_wf c r).
    simpl in H.
    destruct (fst (lex1 c r)); [constructor; auto|]; apply IHn; lia.
Qed.

Definition wf_frame (f : frame) : Prop :=
  match f with
  | FUn _ op => oneof op ["!"; "~"; "G"; "F"; "X"] = true
  | FBin _ mk l => forall e, wf_node e = true -> wf_node (mk l e) = true
  | FParen => True
  | FIte1 op => op = "ite"
  | FIte2 op a => op = "ite" /\ wf_node a = true
  | FIte3 op a b => op = "ite" /\ wf_node a = true /\ wf_node b = true
  end.

Lemma reduce_wf lvl : forall st e st' e', Forall wf_frame st -> wf_node e = true ->
  reduce lvl st e = (st', e') -> Forall wf_frame st' /\ wf_node e' = true.
Proof.
  induction st as [|f st IH]; intros e st' e' Hst He HR; cbn [reduce] in HR.
  - inversion HR; subst; auto.
  - inversion Hst; subst.
    destruct f; try (inversion HR; subst; auto; fail); destruct (Nat.leb lvl lvl0);
      try (inversion HR; subst; auto; fail).
    + eapply IH in HR; auto. cbn [wf_node wf_frame] in *. rewrite H1, He. reflexivity.
    + eapply IH in HR; auto.
Qed.

Lemma mk_bin_wf k v l : bop_ok k v = true -> wf_node l = true -> forall e, wf_node e = true ->
  wf_node (mk_bin k v l e) = true.
Proof.
  intros Hk Hl e He. destruct k; cbn [bop_ok mk_bin wf_node] in *; rewrite ?Hl, ?He, ?Hk; auto;
  ops Hk; reflexivity.
Qed.

Lemma run_wf : forall n ts st m P, List.length ts <= n ->
  Forall wf_tok ts -> Forall wf_frame st ->
  match m with Some e => wf_node e = true | None => True end ->
  run ts st m = Some P -> wf_node P = true.
Proof.
  induction n; intros ts st m P Hn Ht Hst Hm HP.
  - destruct ts; [|simpl in Hn; lia]. destruct m as [e|]; [|discriminate].
    simpl in HP. destruct (reduce 0 st e) as [st' e'] eqn:E.
    destruct st'; [|discriminate]. inversion HP; subst.
    destruct (reduce_wf _ _ _ _ _ Hst Hm E); auto.
  - destruct ts as [|x ts].
    { apply (IHn [] st m P); auto. simpl; lia. }
    simpl in Hn. inversion Ht as [|? ? Hx Hts]; subst. clear Ht.
    destruct m as [e|].
    + destruct x; cbn [run] in HP; try discriminate.
      * destruct (reduce 0 st e) as [st' e'] eqn:E.
        destruct (reduce_wf _ _ _ _ _ Hst Hm E) as [W1 W2].
        destruct st' as [|[] st']; try discriminate; inversion W1; subst.
        -- eapply IHn in HP; eauto; lia.
        -- eapply IHn in HP; eauto; try lia. cbn [wf_frame] in H1. destruct H1 as (-> & A & B).
           cbn [wf_node]. rewrite A, B, W2. reflexivity.
      * destruct (reduce 0 st e) as [st' e'] eqn:E.
        destruct (reduce_wf _ _ _ _ _ Hst Hm E) as [W1 W2].
        destruct st' as [|[] st']; try discriminate; inversion W1; subst.
        -- eapply IHn in HP; eauto; try lia; try exact I. constructor; auto. split; auto.
        -- eapply IHn in HP; eauto; try lia; try exact I. constructor; auto.
           destruct H1; repeat split; auto.
      * destruct (reduce 14 st e) as [st' e'] eqn:E.
        destruct (reduce_wf _ _ _ _ _ Hst Hm E) as [W1 W2].
        eapply IHn in HP; eauto; lia.
      * destruct (reduce (blevel k) st e) as [st' e'] eqn:E.
        destruct (reduce_wf _ _ _ _ _ Hst Hm E) as [W1 W2].
        eapply IHn in HP; eauto; try lia; try exact I. constructor; auto.
        cbn [wf_frame]. apply mk_bin_wf; auto.
      * destruct (reduce minus_level st e) as [st' e'] eqn:E.
        destruct (reduce_wf _ _ _ _ _ Hst Hm E) as [W1 W2].
        eapply IHn in HP; eauto; try lia; try exact I. constructor; auto.
        cbn [wf_frame wf_node]. intros r Hr. rewrite W2, Hr. reflexivity.
      * destruct ts as [|[] ts]; try discriminate.
        destruct (reduce 0 st e) as [st' e'] eqn:E.
        destruct (reduce_wf _ _ _ _ _ Hst Hm E) as [W1 W2].
        inversion Hts; subst. simpl in Hn.
        eapply IHn in HP; eauto; try lia.
        cbn [wf_node wf_tok] in *. rewrite W2, H1.
        replace (number_text v) with true; [reflexivity|].
        destruct v as [|[[] [] [] [] [] [] [] []] v]; try exact (eq_sym H1); discriminate.
    + destruct x; cbn [run] in HP; try discriminate;
        try (eapply IHn in HP; eauto; try lia; try exact I; try reflexivity; fail).
      * eapply IHn in HP; eauto; try lia. apply identb_ident; auto.
      * eapply IHn in HP; eauto; try lia. cbn [wf_node wf_tok] in *.
        destruct v as [|[[] [] [] [] [] [] [] []] v]; try exact Hx; discriminate.
      * destruct ts as [|y ts]; [discriminate|]. simpl in Hn.
        assert (HF : Forall wf_frame (FParen :: st)) by (constructor; [exact I|assumption]).
        destruct y; try (eapply (IHn _ (FParen :: st) None) in HP; auto; simpl; lia).
        inversion Hts; subst. eapply IHn in HP; eauto; try lia; try exact I; constructor; auto.
      * destruct ts as [|[] ts]; try discriminate. destruct ts as [|[] ts]; try discriminate.
        inversion Hts as [|? ? Hv Hts']; subst. inversion Hts'; subst. simpl in Hn.
        eapply IHn in HP; eauto; try lia. cbn [wf_node]. apply identb_ident; auto.
      * eapply IHn in HP; eauto; try lia; try exact I. constructor; auto.
        cbn [wf_tok wf_frame] in *. ops Hx; reflexivity.
      * eapply IHn in HP; eauto; try lia; try exact I. constructor; auto. reflexivity.
      * eapply IHn in HP; eauto; try lia; try exact I. constructor; auto. reflexivity.
      * eapply IHn in HP; eauto; try lia; try exact I. constructor; auto. reflexivity.
      * destruct ts as [|[] ts]; try discriminate. inversion Hts; subst. simpl in Hn.
        eapply IHn in HP; eauto; try lia.
Qed.

Lemma parse_wf s t : parse s = Some t -> wf_node t = true.
Proof.
  unfold parse, parse_toks. intro H.
  eapply run_wf in H; eauto; try exact I.
  unfold lex. eapply lexl_wf. reflexivity.
Qed.
