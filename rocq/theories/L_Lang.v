(** Proofs: the texts for JTLV and Wring are read as the formulas they were printed from. *)
From Coq Require Import List String Ascii Bool Arith ZArith Lia.
From Verif Require Import M_Base M_Ast M_Lexer M_Parser M_Spec M_Form M_Tree M_Gr1c M_Lang.
From Verif Require Import S_LTL S_Gr1 S_Form S_Syntax S_Tree S_Python S_Lang.
From Verif Require Import L_LTL L_Gr1 L_Form L_Dec L_Encode L_Python.
From Verif Require L_RoundTrip.
Import ListNotations.
Open Scope string_scope.
Open Scope list_scope.
Open Scope nat_scope.
Notation chars := list_ascii_of_string.

Lemma oneof_In op l : oneof op l = true -> In op l.
Proof. apply L_RoundTrip.oneof_In. Qed.

(** * Words *)
Section words.
  Variables blank punct : ascii -> bool.
  Notation W := (split_words blank punct).
  Definition edge (rest : list ascii) : Prop := match rest with [] => True | c :: _ => blank c || punct c = true end.
  Definition lexes (s : string) (ws : list string) : Prop := forall rest, edge rest -> W (chars s ++ rest) "" = ws ++ W rest "".
  Definition lexes_any (s : string) (ws : list string) : Prop := forall rest, W (chars s ++ rest) "" = ws ++ W rest "".
  Lemma chars_cat a b : chars (a ++ b) = chars a ++ chars b.
  Proof. induction a; cbn; congruence. Qed.
  Lemma any_lexes s ws : lexes_any s ws -> lexes s ws.
  Proof. intros H rest _. apply H. Qed.
  Lemma any_app a wa b wb : lexes_any a wa -> lexes_any b wb -> lexes_any (a ++ b) (wa ++ wb).
  Proof. intros A B rest. rewrite chars_cat, <- app_assoc, A, B, app_assoc. reflexivity. Qed.
  Lemma lex_then a wa l b wb : lexes a wa -> edge (chars l) -> l <> "" -> lexes_any (l ++ b) wb -> lexes_any (a ++ l ++ b) (wa ++ wb).
  Proof. intros A N NE B rest. rewrite chars_cat, <- app_assoc, A, B, app_assoc; [reflexivity|]. destruct l; [congruence|exact N]. Qed.
  Lemma lex_end a wa l wb : lexes a wa -> edge (chars l) -> l <> "" -> lexes_any l wb -> lexes_any (a ++ l) (wa ++ wb).
  Proof. intros A N NE B rest. rewrite chars_cat, <- app_assoc, A, B, app_assoc; [reflexivity|]. destruct l; [congruence|exact N]. Qed.
  Definition solid (w : string) : bool := forallb (fun c => negb (blank c || punct c)) (chars w).
  Lemma split_solid w rest : forall acc, solid w = true -> W (chars w ++ rest) acc = W rest (acc ++ w)%string.
  Proof.
    unfold solid. induction w as [|c w IH]; intros acc H; cbn [list_ascii_of_string app].
    - f_equal. clear. induction acc; cbn; congruence.
    - cbn [list_ascii_of_string forallb] in H. apply andb_true_iff in H. destruct H as [H1 H2]. cbn [split_words].
      apply negb_true_iff, orb_false_iff in H1. destruct H1 as [-> ->]. rewrite IH by auto. f_equal. clear. induction acc; cbn; congruence.
  Qed.
  Lemma solid_lexes w : solid w = true -> w <> "" -> lexes w [w].
  Proof.
    intros P NE rest D. rewrite split_solid by auto. cbn [append]. assert (F : flush w = [w]).
    { unfold flush. destruct (w =? "")%string eqn:E; [apply String.eqb_eq in E; congruence|reflexivity]. }
    destruct rest as [|c r]; cbn [split_words]; [exact F|]. cbn in D. apply orb_true_iff in D.
    destruct (blank c) eqn:B; [rewrite F; reflexivity|]. destruct D as [D|D]; [discriminate|]. rewrite D, F. reflexivity.
  Qed.
End words.
Ltac lit := let r := fresh in intro r; reflexivity.

(** * Reading *)
Section reading.
  Variable x : syntax.
  Hypothesis paren_op : conj_op x <> ")".
  Definition reads (ws : list string) (t : node) : Prop :=
    ws <> [] /\ forall f rest, List.length ws <= f -> read x f Expr (ws ++ rest) = Some (t, rest).
  Ltac len L := cbn [List.length app] in L; rewrite ?app_length in L; cbn [List.length] in L; rewrite ?app_length in L; cbn [List.length] in L.
  Lemma reads_paren ws t : reads ws t -> reads ("(" :: ws ++ [")"]) t.
  Proof.
    intros [N H]. split; [discriminate|]. intros f rest L. len L. destruct f as [|[|f]]; try lia.
    cbn [app read]. change (("(" =? "(")%string) with true. cbn iota. rewrite <- app_assoc. rewrite H by lia. reflexivity.
  Qed.
  Lemma reads_prefix p op ws t : (forall r, prefix_op x (p ++ r) = Some (op, r)) -> p <> [] -> hd "" p <> "(" -> reads ws t -> reads (p ++ ws) (NUn op t).
  Proof.
    intros P N E [_ H]. split; [destruct p; [congruence|discriminate]|]. intros f rest L. len L. rewrite <- app_assoc.
    pose proof (P (ws ++ rest)) as Q. destruct p as [|w p]; [congruence|]. cbn in E. destruct f as [|f]; [cbn in L; lia|].
    cbn [app read] in *. destruct (String.eqb_spec w "("); [congruence|]. rewrite Q, H by (cbn in L; lia). reflexivity.
  Qed.
  Lemma reads_infix wa a op f wb b : reads wa a -> reads wb b -> infix_op x op = Some f -> op <> ")" -> op <> conj_op x ->
    reads ("(" :: wa ++ op :: wb ++ [")"]) (f a b).
  Proof.
    intros [NA A] [NB B] I O C. split; [discriminate|]. intros n rest L. len L. destruct n as [|[|n]]; try lia.
    cbn [app read]. change (("(" =? "(")%string) with true. cbn iota. rewrite <- app_assoc. cbn [app]. rewrite <- app_assoc. cbn [app]. rewrite A by lia.
    destruct (String.eqb_spec op ")"); [congruence|]. destruct (String.eqb_spec op (conj_op x)); [congruence|].
    rewrite I, B by lia. reflexivity.
  Qed.
  (** Conjunctions. *)
  Definition chain (ws : list string) (t : node) : Prop :=
    forall f rest, S (List.length ws) <= f -> read x f Conjuncts (ws ++ ")" :: rest) = Some (t, rest).
  Lemma chain_one ws t : reads ws t -> chain ws t.
  Proof. intros [_ H] f rest L. destruct f as [|f]; [lia|]. cbn [read]. rewrite H by lia. reflexivity. Qed.
  Lemma chain_more wa a wb b : reads wa a -> chain wb b -> chain (wa ++ conj_op x :: wb) (NBin "&" a b).
  Proof.
    intros [NA A] B f rest L. len L. destruct f as [|f]; [lia|]. cbn [read]. rewrite <- app_assoc. cbn [app]. rewrite A by lia.
    destruct (String.eqb_spec (conj_op x) ")"); [congruence|]. rewrite String.eqb_refl. rewrite B; [reflexivity|].
    destruct wa; [congruence|]. cbn [List.length] in L. lia.
  Qed.
  Lemma reads_chain ws t : ws <> [] -> chain ws t -> reads ("(" :: ws ++ [")"]) t.
  Proof.
    intros N H. split; [discriminate|]. intros f rest L. len L. destruct f as [|[|f]]; try lia.
    cbn [app read]. change (("(" =? "(")%string) with true. cbn iota. rewrite <- app_assoc. cbn [app].
    specialize (H (S f) rest ltac:(lia)). cbn [read] in H. destruct (read x f Expr (ws ++ ")" :: rest)) as [[a [|w q]]|]; try discriminate.
    destruct (w =? ")")%string; [exact H|]. destruct (w =? conj_op x)%string; [exact H|discriminate].
  Qed.
  Lemma reads_conj wa a wb b : reads wa a -> reads wb b -> reads ("(" :: wa ++ conj_op x :: wb ++ [")"]) (NBin "&" a b).
  Proof.
    intros A B. replace ("(" :: wa ++ conj_op x :: wb ++ [")"]) with ("(" :: (wa ++ conj_op x :: wb) ++ [")"]) by (rewrite <- app_assoc; reflexivity).
    apply reads_chain; [destruct wa; discriminate|]. apply chain_more; [exact A|apply chain_one, B].
  Qed.
  Lemma reads_atom ws t : ws <> [] -> hd "" ws <> "(" -> (forall r, prefix_op x (ws ++ r) = None) -> (forall r, atom x (ws ++ r) = Some (t, r)) -> reads ws t.
  Proof.
    intros N E P A. split; [exact N|]. intros f rest L. destruct ws as [|w ws]; [congruence|]. cbn in E. destruct f as [|f]; [cbn in L; lia|].
    specialize (P rest). specialize (A rest). cbn [app read] in *. destruct (String.eqb_spec w "("); [congruence|]. rewrite P. exact A.
  Qed.

  (** * Texts *)
  Variables blank punct : ascii -> bool.
  Hypothesis space : blank " " = true.
  Hypothesis space_punct : punct " " = false.
  Hypothesis open : blank "(" = false.
  Hypothesis open_punct : punct "(" = true.
  Hypothesis close : blank ")" = false.
  Hypothesis close_punct : punct ")" = true.
  Notation lexes := (lexes blank punct).
  Notation lexes_any := (lexes_any blank punct).
  Definition text (s : string) (t : node) : Prop := s <> "" /\ exists ws, lexes s ws /\ reads ws t.
  Definition closed (s : string) (t : node) : Prop := exists ws, lexes_any s ws /\ reads ws t.
  Lemma closed_text s t : closed s t -> s <> "" -> text s t.
  Proof. intros (ws & L & R) N. split; [exact N|]. exists ws. split; [apply any_lexes, L|exact R]. Qed.
  Lemma lex_open : lexes_any "( " ["("].
  Proof. intro r. cbn [list_ascii_of_string app split_words]. rewrite open, open_punct, space. reflexivity. Qed.
  Lemma lex_open1 : lexes_any "(" ["("].
  Proof. intro r. cbn [list_ascii_of_string app split_words]. rewrite open, open_punct. reflexivity. Qed.
  Lemma lex_close : lexes_any " )" [")"].
  Proof. intro r. cbn [list_ascii_of_string app split_words]. rewrite close, close_punct, space. reflexivity. Qed.
  Lemma lex_close1 : lexes_any ")" [")"].
  Proof. intro r. cbn [list_ascii_of_string app split_words]. rewrite close, close_punct. reflexivity. Qed.
  Lemma edge_close : edge blank punct (chars " )").
  Proof. cbn. rewrite space. reflexivity. Qed.
  Lemma edge_close1 : edge blank punct (chars ")").
  Proof. cbn. rewrite close_punct. apply orb_true_r. Qed.
  Lemma edge_blank l : edge blank punct (chars (" " ++ l)).
  Proof. cbn. rewrite space. reflexivity. Qed.
  (** A word between blanks. *)
  Lemma lex_spaced o ws : lexes o ws -> lexes_any (" " ++ o ++ " ") ws.
  Proof.
    intros L r. cbn [append list_ascii_of_string app split_words]. rewrite space. cbn [flush app]. change (flush "") with (@nil string). cbn [app].
    rewrite chars_cat, <- app_assoc. rewrite L by (cbn; rewrite space; reflexivity). cbn [list_ascii_of_string app split_words]. rewrite space. reflexivity.
  Qed.
  Lemma lex_after o ws : lexes o ws -> lexes_any (o ++ " ") ws.
  Proof.
    intros L r. rewrite chars_cat, <- app_assoc. rewrite L by (cbn; rewrite space; reflexivity). cbn [list_ascii_of_string app split_words]. rewrite space. reflexivity.
  Qed.
  Lemma text_prefix o p op s t : lexes o p -> (forall r, prefix_op x (p ++ r) = Some (op, r)) -> p <> [] -> hd "" p <> "(" -> text s t ->
    text ("( " ++ o ++ " " ++ s ++ " )") (NUn op t).
  Proof.
    intros LO P NP E (_ & ws & L & R). apply closed_text; [|discriminate]. exists ("(" :: (p ++ ws) ++ [")"]). split.
    - replace ("( " ++ o ++ " " ++ s ++ " )")%string with ("( " ++ (o ++ " ") ++ s ++ " )")%string by (rewrite !str_assoc; reflexivity).
      change ("(" :: (p ++ ws) ++ [")"]) with (["("] ++ (p ++ ws) ++ [")"]). rewrite <- app_assoc. apply any_app; [apply lex_open|]. apply any_app; [apply lex_after, LO|].
      apply lex_end; [exact L|apply edge_close|discriminate|apply lex_close].
    - apply reads_paren. apply reads_prefix; auto.
  Qed.
  Lemma text_infix_words o op a ta b tb t : lexes o [op] -> text a ta -> text b tb ->
    (forall wa wb, reads wa ta -> reads wb tb -> reads ("(" :: wa ++ op :: wb ++ [")"]) t) ->
    text ("( " ++ a ++ " " ++ o ++ " " ++ b ++ " )") t.
  Proof.
    intros LO (_ & wa & LA & RA) (_ & wb & LB & RB) H. apply closed_text; [|discriminate]. exists ("(" :: wa ++ op :: wb ++ [")"]). split; [|auto].
    replace ("( " ++ a ++ " " ++ o ++ " " ++ b ++ " )")%string with ("( " ++ a ++ (" " ++ o ++ " ") ++ b ++ " )")%string by (rewrite !str_assoc; reflexivity).
    change ("(" :: wa ++ op :: wb ++ [")"]) with (["("] ++ wa ++ [op] ++ wb ++ [")"]). apply any_app; [apply lex_open|].
    apply lex_then; [exact LA|apply edge_blank|discriminate|]. apply any_app; [apply lex_spaced, LO|].
    apply lex_end; [exact LB|apply edge_close|discriminate|apply lex_close].
  Qed.
  (** [o(s)] *)
  Lemma closed_apply o p op s t : lexes o p -> (forall r, prefix_op x (p ++ r) = Some (op, r)) -> p <> [] -> hd "" p <> "(" -> text s t ->
    closed (o ++ "(" ++ s ++ ")") (NUn op t).
  Proof.
    intros LO P NP E (_ & ws & L & R). exists (p ++ "(" :: ws ++ [")"]). split.
    - change (p ++ "(" :: ws ++ [")"]) with (p ++ ["("] ++ ws ++ [")"]). apply lex_then; [exact LO|cbn; rewrite open_punct; apply orb_true_r|discriminate|].
      apply any_app; [apply lex_open1|]. apply lex_end; [exact L|apply edge_close1|discriminate|apply lex_close1].
    - apply reads_prefix; auto. apply reads_paren, R.
  Qed.
  Lemma closed_paren s t : text s t -> closed ("(" ++ s ++ ")") t.
  Proof.
    intros (_ & ws & L & R). exists ("(" :: ws ++ [")"]). split; [|apply reads_paren, R].
    change ("(" :: ws ++ [")"]) with (["("] ++ ws ++ [")"]). apply any_app; [apply lex_open1|]. apply lex_end; [exact L|apply edge_close1|discriminate|apply lex_close1].
  Qed.
End reading.

(** * Printing succeeds iff the operators are known and the variables can be printed *)
Lemma print_iff m var str t :
  (exists y, print m var str t = Ok y) <->
  (forall op, In op (operators t) -> exists o, lookup op m = Some o) /\ (forall v, In v (vars t) -> exists y, var v = Ok y).
Proof.
  assert (B : forall op (a b : node) (o : option string), 
     ((exists y, print m var str a = Ok y) <-> (forall op, In op (operators a) -> exists o, lookup op m = Some o) /\ (forall v, In v (vars a) -> exists y, var v = Ok y)) ->
     ((exists y, print m var str b = Ok y) <-> (forall op, In op (operators b) -> exists o, lookup op m = Some o) /\ (forall v, In v (vars b) -> exists y, var v = Ok y)) ->
     ((exists y, (do o <- of_opt "KeyError" (lookup op m); do x <- print m var str a; do y <- print m var str b; Ok ("( " ++ x ++ " " ++ o ++ " " ++ y ++ " )")%string) = Ok y) <->
      (forall op', In op' (op :: operators a ++ operators b) -> exists o, lookup op' m = Some o) /\ (forall v, In v (vars a ++ vars b) -> exists y, var v = Ok y))).
  { intros op a b _ HA HB. split.
    - intros [y E]. destruct (lookup op m) as [o|] eqn:L; [|discriminate]. cbn [of_opt bind] in E. destruct (print m var str a) as [xa|] eqn:EA; [|discriminate].
      destruct (print m var str b) as [xb|] eqn:EB; [|discriminate]. destruct (proj1 HA (ex_intro _ xa eq_refl)) as [A1 A2]. destruct (proj1 HB (ex_intro _ xb eq_refl)) as [B1 B2].
      split; [intros op' [<-|I]; [eauto|]|intros v I]; apply in_app_or in I; destruct I; auto.
    - intros [O V]. destruct (O op (or_introl eq_refl)) as [o L]. rewrite L. cbn [of_opt bind].
      destruct (proj2 HA) as [xa EA]; [split; [intros; apply O; right; apply in_or_app; auto|intros; apply V, in_or_app; auto]|]. rewrite EA. cbn [bind].
      destruct (proj2 HB) as [xb EB]; [split; [intros; apply O; right; apply in_or_app; auto|intros; apply V, in_or_app; auto]|]. rewrite EB. cbn [bind]. eauto. }
  induction t as [v|v|v|v|op a IH|op l IHl r IHr|op l IHl r IHr|op l IHl r IHr|op a IHa b IHb c IHc]; cbn [print operators vars].
  - split; [intro E; split; [intros ? []|intros w [<-|[]]; exact E]|intros [_ H]; apply H; left; reflexivity].
  - split.
    + intros [y E]. split; [|intros ? []]. intros op [<-|[]]. destruct (lookup v m); [eauto|discriminate].
    + intros [H _]. destruct (H v (or_introl eq_refl)) as [o ->]. cbn. eauto.
  - split; [intros _; split; intros ? []|eauto].
  - split; [intros _; split; intros ? []|eauto].
  - split.
    + intros [y E]. destruct (lookup op m) as [o|] eqn:L; [|discriminate]. cbn [of_opt bind] in E. destruct (print m var str a) as [xa|] eqn:EA; [|discriminate].
      destruct (proj1 IH (ex_intro _ xa eq_refl)) as [A1 A2]. split; [intros op' [<-|I]; eauto|exact A2].
    + intros [O V]. destruct (O op (or_introl eq_refl)) as [o L]. rewrite L. cbn [of_opt bind].
      destruct (proj2 IH) as [xa EA]; [split; [intros; apply O; right; auto|exact V]|]. rewrite EA. cbn [bind]. eauto.
  - apply B; [exact None|exact IHl|exact IHr].
  - apply B; [exact None|exact IHl|exact IHr].
  - apply B; [exact None|exact IHl|exact IHr].
  - split.
    + intros [y E]. destruct (lookup op m) as [o|] eqn:L; [|discriminate]. cbn [of_opt bind] in E. destruct (print m var str a) as [xa|] eqn:EA; [|discriminate].
      destruct (print m var str b) as [xb|] eqn:EB; [|discriminate]. destruct (print m var str c) as [xc|] eqn:EC; [|discriminate].
      destruct (proj1 IHa (ex_intro _ xa eq_refl)) as [A1 A2]. destruct (proj1 IHb (ex_intro _ xb eq_refl)) as [B1 B2]. destruct (proj1 IHc (ex_intro _ xc eq_refl)) as [C1 C2].
      split; [intros op' [<-|I]; [eauto|]|intros v I]; rewrite !in_app_iff in I; destruct I as [I|[I|I]]; auto.
    + intros [O V]. destruct (O op (or_introl eq_refl)) as [o L]. rewrite L. cbn [of_opt bind].
      destruct (proj2 IHa) as [xa EA]; [split; [intros; apply O; right; rewrite !in_app_iff; auto|intros; apply V; rewrite !in_app_iff; auto]|]. rewrite EA. cbn [bind].
      destruct (proj2 IHb) as [xb EB]; [split; [intros; apply O; right; rewrite !in_app_iff; auto|intros; apply V; rewrite !in_app_iff; auto]|]. rewrite EB. cbn [bind].
      destruct (proj2 IHc) as [xc EC]; [split; [intros; apply O; right; rewrite !in_app_iff; auto|intros; apply V; rewrite !in_app_iff; auto]|]. rewrite EC. cbn [bind]. eauto.
Qed.

(** * Names and numbers *)
Lemma name_parts res w : name_text res w = true -> exists c r, w = String c r /\ is_letter c = true /\ forallb word_char (chars w) = true /\ existsb (String.eqb w) res = false.
Proof.
  destruct w as [|c r]; [discriminate|]. unfold name_text. rewrite !andb_true_iff, negb_true_iff. intros [[A B] C]. eauto 7.
Qed.
Lemma forallb_weaken {A} (p q : A -> bool) l : (forall a, p a = true -> q a = true) -> forallb p l = true -> forallb q l = true.
Proof. intros H. rewrite !forallb_forall. auto. Qed.
Lemma word_wring c : word_char c = true -> negb (is_white c || wring_punct c) = true.
Proof. destruct c as [[] [] [] [] [] [] [] []]; vm_compute; auto. Qed.
Lemma word_jtlv c : word_char c = true -> negb (is_white c || jtlv_punct c) = true.
Proof. destruct c as [[] [] [] [] [] [] [] []]; vm_compute; auto. Qed.
Lemma name_not_number res w : name_text res w = true -> number_text w = false.
Proof.
  intro N. destruct (name_parts res w N) as (c & r & -> & L & _). unfold number_text.
  destruct c as [[] [] [] [] [] [] [] []]; try reflexivity; vm_compute in L; discriminate.
Qed.
(** A name differs from every word that does not begin with a letter, and from reserved words. *)
Lemma name_other res w v : name_text res w = true -> name_text res v = false -> (w =? v)%string = false.
Proof. intros A B. apply String.eqb_neq. intros ->. congruence. Qed.

Ltac pieces :=
  repeat match goal with
  | H : bind (of_opt _ ?o) _ = Ok _ |- _ => destruct o eqn:?; [cbn [of_opt bind] in H|discriminate]
  | H : bind ?r _ = Ok _ |- _ => destruct r eqn:?; [cbn [bind] in H|discriminate]
  end.

(** * Wring *)
Lemma wring_text env sys t : forall y, wring_print env sys t = Ok y -> wf_node t = true -> logical t = true ->
  (forall v, In v (vars t) -> name_text wring_reserved v = true) -> text wring is_white wring_punct y t.
Proof.
  unfold wring_print.
  induction t as [v|v|v|v|op a IH|op l IHl r IHr|op l IHl r IHr|op l IHl r IHr|op a IHa b IHb c IHc];
    intros y H W L N; cbn [print] in H; cbn [wf_node] in W; cbn [logical] in L; cbn [vars] in N; try discriminate L.
  - pose proof (N v (or_introl eq_refl)) as Nv. destruct (name_parts _ _ Nv) as (c & r & E & Lc & Wc & _).
    unfold wring_var in H. destruct (match lookup v env with Some d => Some d | None => lookup v sys end) as [[| |]|]; try discriminate. apply Ok_inj in H. subst y.
    apply closed_text; [|discriminate]. exists ("(" :: [v; "="; "1"] ++ [")"]). split.
    + change ("(" :: [v; "="; "1"] ++ [")"]) with (["("] ++ [v] ++ ["="; "1"; ")"]). apply any_app; [lit|].
      apply lex_end; [apply solid_lexes; [unfold solid; eapply forallb_weaken; [apply word_wring|exact Wc]|subst v; discriminate]|reflexivity|discriminate|lit].
    + apply reads_paren. apply reads_atom.
      * discriminate.
      * cbn. intros ->. discriminate Nv.
      * intro q. cbn [app prefix_op wring wring_prefix].
        unfold S_Lang.one_of; cbn [find fst snd]. rewrite !(String.eqb_sym _ v). rewrite !(name_other _ v _ Nv) by reflexivity. reflexivity.
      * intro q. cbn [app atom wring wring_atom]. rewrite !(name_other _ v _ Nv) by reflexivity. rewrite Nv. reflexivity.
  - assert (I : In v ["True"; "False"]) by (apply oneof_In; exact W). destruct I as [<-|[<-|[]]]; vm_compute in H; apply Ok_inj in H; subst y;
      (split; [discriminate|]; eexists [_]; split; [apply solid_lexes; [reflexivity|discriminate]|apply reads_atom; [discriminate|discriminate|reflexivity|reflexivity]]).
  - apply andb_true_iff in W. destruct W as [O W]. apply oneof_In in O. pieces. apply Ok_inj in H. subst y. pose proof (IH _ eq_refl W L N) as T.
    destruct O as [<-|[<-|[<-|[<-|[<-|[]]]]]]; cbn in Heqo; try discriminate; injection Heqo as <-;
      match goal with |- text _ _ _ ("( " ++ ?o ++ " " ++ _ ++ " )") _ =>
        apply (text_prefix wring is_white wring_punct eq_refl eq_refl eq_refl eq_refl eq_refl o [o]);
          [first [apply solid_lexes; [reflexivity|discriminate]|apply any_lexes; lit]|reflexivity|discriminate|discriminate|exact T] end.
  - rewrite !andb_true_iff in W. destruct W as [[O Wl] Wr]. apply oneof_In in O. apply andb_true_iff in L. destruct L as [Ll Lr]. pieces. apply Ok_inj in H. subst y.
    pose proof (IHl _ eq_refl Wl Ll (fun v I => N v (in_or_app _ _ _ (or_introl I)))) as Tl. pose proof (IHr _ eq_refl Wr Lr (fun v I => N v (in_or_app _ _ _ (or_intror I)))) as Tr.
    destruct O as [<-|[<-|[<-|[<-|[<-|[<-|[<-|[<-|[<-|[<-|[]]]]]]]]]]]; cbn in Heqo; try discriminate; injection Heqo as <-;
      (match goal with |- text _ _ _ ("( " ++ _ ++ " " ++ ?o ++ " " ++ _ ++ " )") _ =>
        assert (LO : lexes is_white wring_punct o [o]) by (first [apply solid_lexes; [reflexivity|discriminate]|apply any_lexes; lit]);
        refine (text_infix_words wring is_white wring_punct eq_refl eq_refl eq_refl eq_refl eq_refl o o _ _ _ _ _ LO Tl Tr _) end;
       intros wa wb RA RB);
      first [exact (reads_conj wring ltac:(discriminate) _ _ _ _ RA RB)
            |eapply (reads_infix wring); [exact RA|exact RB|reflexivity|discriminate|discriminate]].
  - rewrite !andb_true_iff in W. destruct W as [[O Wl] Wr]. apply oneof_In in O. pieces.
    destruct O as [<-|[<-|[<-|[<-|[<-|[<-|[<-|[<-|[]]]]]]]]]; cbn in Heqo; discriminate.
  - rewrite !andb_true_iff in W. destruct W as [[O Wl] Wr]. pieces. apply orb_true_iff in O. destruct O as [O|O].
    + apply oneof_In in O. destruct O as [<-|[<-|[<-|[<-|[]]]]]; cbn in Heqo; discriminate.
    + apply andb_true_iff in O. destruct O as [O _]. apply String.eqb_eq in O. subst op. cbn in Heqo. discriminate.
  - rewrite !andb_true_iff in W. destruct W as [[[O _] _] _]. apply String.eqb_eq in O. subst op. cbn in H. discriminate.
Qed.

(** * JTLV *)
Lemma number_other w v : number_text w = true -> number_text v = false -> (w =? v)%string = false.
Proof. intros A B. apply String.eqb_neq. intros ->. congruence. Qed.
Lemma digit_jtlv c : digit c = true -> negb (is_white c || jtlv_punct c) = true.
Proof. destruct c as [[] [] [] [] [] [] [] []]; vm_compute; auto. Qed.
Lemma number_solid v : number_text v = true -> solid is_white jtlv_punct v = true /\ v <> "".
Proof.
  intro H. split; [|intros ->; discriminate]. unfold solid.
  unfold number_text in H. destruct v as [|c r]; [discriminate|].
  assert (M : c = "-"%char /\ numeral r = true \/ numeral (String c r) = true).
  { destruct (ascii_dec c "-"); [subst; auto|]. right. destruct c as [[] [] [] [] [] [] [] []]; solve [auto|congruence]. }
  destruct M as [[-> N]|N].
  - cbn [list_ascii_of_string forallb]. destruct r as [|d r]; [discriminate|]. cbn [numeral] in N.
    rewrite (forallb_weaken _ _ (chars (String d r)) digit_jtlv N). reflexivity.
  - apply (forallb_weaken _ _ _ digit_jtlv). exact N.
Qed.

(** No comment begins in the text, or at its end. *)
Fixpoint calm (s : string) : bool :=
  match s with
  | EmptyString => true
  | String c r => (if Ascii.eqb c "-" then match r with String d _ => negb (Ascii.eqb d "-") | EmptyString => false end else true) && calm r
  end.
Lemma calm_app a b : calm a = true -> calm b = true -> calm (a ++ b) = true.
Proof.
  intros A B. induction a as [|c a IH]; [exact B|]. cbn [calm append] in *. apply andb_true_iff in A. destruct A as [A1 A2]. rewrite (IH A2), andb_true_r.
  destruct (Ascii.eqb c "-"); [|reflexivity]. destruct a; [discriminate|exact A1].
Qed.
Lemma calm_skip s rest : calm s = true -> skip_comments false (chars s ++ rest) = chars s ++ skip_comments false rest.
Proof.
  induction s as [|c s IH]; intro C; [reflexivity|]. cbn [calm] in C. apply andb_true_iff in C. destruct C as [C1 C2]. cbn [list_ascii_of_string app skip_comments].
  rewrite (IH C2). destruct (Ascii.eqb c "-") eqn:E.
  - destruct s as [|d s]; [discriminate|]. apply negb_true_iff in C1. cbn [list_ascii_of_string app]. rewrite C1. reflexivity.
  - cbn [andb]. destruct (chars s ++ rest) as [|d q] eqn:Q; [|reflexivity]. destruct s; [|discriminate]. cbn in Q. subst rest. reflexivity.
Qed.
Lemma word_calm w : forallb word_char (chars w) = true -> calm w = true.
Proof.
  induction w as [|c w IH]; [reflexivity|]. cbn [list_ascii_of_string forallb calm]. intro H. apply andb_true_iff in H. destruct H as [A B]. rewrite (IH B), andb_true_r.
  destruct (Ascii.eqb_spec c "-"); [subst c; discriminate|reflexivity].
Qed.
Lemma numeral_calm r : forallb digit (chars r) = true -> calm r = true.
Proof.
  induction r as [|c w IH]; [reflexivity|]. cbn [list_ascii_of_string forallb calm]. intro H. apply andb_true_iff in H. destruct H as [A B]. rewrite (IH B), andb_true_r.
  destruct (Ascii.eqb_spec c "-"); [subst c; discriminate|reflexivity].
Qed.
Lemma number_calm v : number_text v = true -> calm v = true.
Proof.
  intro H. unfold number_text in H. destruct v as [|c r]; [discriminate|].
  assert (M : c = "-"%char /\ numeral r = true \/ numeral (String c r) = true).
  { destruct (ascii_dec c "-"); [subst; auto|]. right. destruct c as [[] [] [] [] [] [] [] []]; solve [auto|congruence]. }
  destruct M as [[-> N]|N].
  - destruct r as [|d r]; [discriminate|]. cbn [numeral] in N. cbn [calm]. rewrite Ascii.eqb_refl.
    pose proof (numeral_calm (String d r) N) as Q. cbn [calm] in Q. rewrite Q, andb_true_r. cbn [list_ascii_of_string forallb] in N. apply andb_true_iff in N. destruct N as [N _].
    destruct (Ascii.eqb_spec d "-"); [subst d; discriminate|reflexivity].
  - apply numeral_calm. exact N.
Qed.
(** The texts [lit] of operators. *)
Ltac calms := repeat first [assumption|reflexivity|apply calm_app].

Definition owner (env : vardecl) (v : string) : string := ((if has v env then "e." else "s.") ++ v)%string.
Lemma owner_reads env v : name_text [] v = true -> reads jtlv [owner env v] (NVar (owner env v)).
Proof.
  intro N. unfold owner. destruct (has v env); (apply reads_atom; [discriminate|discriminate|intros [|? ?]; reflexivity|intro r]);
    match goal with |- ?l = Some (NVar ?w, _) => change (l) with (if name_text [] v then Some (NVar w, r) else None) end; rewrite N; reflexivity.
Qed.
Lemma owner_lexes env v : name_text [] v = true -> lexes is_white jtlv_punct (owner env v) [owner env v] /\ calm (owner env v) = true.
Proof.
  intro N. destruct (name_parts _ _ N) as (c & r & E & Lc & Wc & _). unfold owner. split.
  - apply solid_lexes; [|destruct (has v env); discriminate]. unfold solid. rewrite chars_cat, forallb_app, (forallb_weaken _ _ _ word_jtlv Wc). destruct (has v env); reflexivity.
  - apply calm_app; [destruct (has v env); reflexivity|apply word_calm; exact Wc].
Qed.
Lemma jtlv_text env sys t : forall y, jtlv_print env sys t = Ok y -> wf_node t = true -> no_str t = true ->
  (forall v, In v (vars t) -> name_text [] v = true) -> text jtlv is_white jtlv_punct y (rename (owner env) t) /\ calm y = true.
Proof.
  unfold jtlv_print.
  induction t as [v|v|v|v|op a IH|op l IHl r IHr|op l IHl r IHr|op l IHl r IHr|op a IHa b IHb c IHc];
    intros y H W L N; cbn [print] in H; cbn [wf_node] in W; cbn [no_str] in L; cbn [vars] in N; cbn [rename]; try discriminate L.
  - pose proof (N v (or_introl eq_refl)) as Nv.
    assert (E : y = ("(" ++ owner env v ++ ")")%string).
    { unfold jtlv_var in H. unfold owner. destruct (has v env); [apply Ok_inj in H; subst; reflexivity|]. destruct (has v sys); [|discriminate]. apply Ok_inj in H. subst; reflexivity. }
    subst y. destruct (owner_lexes env v Nv) as [LO C]. split; [|calms].
    apply closed_text; [|discriminate]. apply closed_paren; try reflexivity. split; [unfold owner; destruct (has v env); discriminate|]. exists [owner env v]. split; [exact LO|]. apply owner_reads, Nv.
  - assert (I : In v ["True"; "False"]) by (apply oneof_In; exact W). destruct I as [<-|[<-|[]]]; vm_compute in H; apply Ok_inj in H; subst y;
      (split; [|reflexivity]; split; [discriminate|]; eexists [_]; split; [apply solid_lexes; [reflexivity|discriminate]|apply reads_atom; [discriminate|discriminate|intros [|? ?]; reflexivity|reflexivity]]).
  - apply Ok_inj in H. subst y. split; [|apply number_calm, W]. destruct (number_solid v W) as [S1 S2]. split; [exact S2|]. exists [v]. split; [apply solid_lexes; assumption|]. apply reads_atom.
    + discriminate.
    + cbn. intros ->. discriminate.
    + intro q. cbn [app prefix_op jtlv jtlv_prefix]. unfold S_Lang.one_of; cbn [find fst snd]. rewrite !(String.eqb_sym _ v). rewrite !(number_other v _ W) by reflexivity.
      cbn [option_map andb]. destruct q; reflexivity.
    + intro q. cbn [app atom jtlv jtlv_atom]. rewrite !(number_other v _ W) by reflexivity. rewrite W. reflexivity.
  - apply andb_true_iff in W. destruct W as [O W]. apply oneof_In in O. pieces. apply Ok_inj in H. subst y. destruct (IH _ eq_refl W L N) as [T C].
    destruct O as [<-|[<-|[<-|[<-|[<-|[]]]]]]; cbn in Heqo; try discriminate; injection Heqo as <-; (split; [|calms]).
    + apply (text_prefix jtlv is_white jtlv_punct eq_refl eq_refl eq_refl eq_refl eq_refl "!" ["!"]); [apply solid_lexes; [reflexivity|discriminate]|reflexivity|discriminate|discriminate|exact T].
    + apply (text_prefix jtlv is_white jtlv_punct eq_refl eq_refl eq_refl eq_refl eq_refl "[]" ["["; "]"]); [apply any_lexes; lit|reflexivity|discriminate|discriminate|exact T].
    + apply (text_prefix jtlv is_white jtlv_punct eq_refl eq_refl eq_refl eq_refl eq_refl "<>" ["<>"]); [apply solid_lexes; [reflexivity|discriminate]|reflexivity|discriminate|discriminate|exact T].
    + apply (text_prefix jtlv is_white jtlv_punct eq_refl eq_refl eq_refl eq_refl eq_refl "next" ["next"]); [apply solid_lexes; [reflexivity|discriminate]|reflexivity|discriminate|discriminate|exact T].
  - rewrite !andb_true_iff in W. destruct W as [[O Wl] Wr]. apply oneof_In in O. apply andb_true_iff in L. destruct L as [Ll Lr]. pieces. apply Ok_inj in H. subst y.
    destruct (IHl _ eq_refl Wl Ll (fun v I => N v (in_or_app _ _ _ (or_introl I)))) as [Tl Cl]. destruct (IHr _ eq_refl Wr Lr (fun v I => N v (in_or_app _ _ _ (or_intror I)))) as [Tr Cr].
    destruct O as [<-|[<-|[<-|[<-|[<-|[<-|[<-|[<-|[<-|[<-|[]]]]]]]]]]]; cbn in Heqo; try discriminate; injection Heqo as <-; (split; [|calms]);
      (match goal with |- text _ _ _ ("( " ++ _ ++ " " ++ ?o ++ " " ++ _ ++ " )") _ =>
        assert (LO : lexes is_white jtlv_punct o [o]) by (first [apply solid_lexes; [reflexivity|discriminate]|apply any_lexes; lit]);
        refine (text_infix_words jtlv is_white jtlv_punct eq_refl eq_refl eq_refl eq_refl eq_refl o o _ _ _ _ _ LO Tl Tr _) end;
       intros wa wb RA RB);
      first [exact (reads_conj jtlv ltac:(discriminate) _ _ _ _ RA RB)
            |eapply (reads_infix jtlv); [exact RA|exact RB|reflexivity|discriminate|discriminate]].
  - rewrite !andb_true_iff in W. destruct W as [[O Wl] Wr]. apply oneof_In in O. apply andb_true_iff in L. destruct L as [Ll Lr]. pieces. apply Ok_inj in H. subst y.
    destruct (IHl _ eq_refl Wl Ll (fun v I => N v (in_or_app _ _ _ (or_introl I)))) as [Tl Cl]. destruct (IHr _ eq_refl Wr Lr (fun v I => N v (in_or_app _ _ _ (or_intror I)))) as [Tr Cr].
    destruct O as [<-|[<-|[<-|[<-|[<-|[<-|[<-|[<-|[]]]]]]]]]; cbn in Heqo; try discriminate; injection Heqo as <-; (split; [|calms]);
      (match goal with |- text _ _ _ ("( " ++ _ ++ " " ++ ?o ++ " " ++ _ ++ " )") _ =>
        assert (LO : lexes is_white jtlv_punct o [o]) by (first [apply solid_lexes; [reflexivity|discriminate]|apply any_lexes; lit]);
        refine (text_infix_words jtlv is_white jtlv_punct eq_refl eq_refl eq_refl eq_refl eq_refl o o _ _ _ _ _ LO Tl Tr _) end;
       intros wa wb RA RB; eapply (reads_infix jtlv); [exact RA|exact RB|reflexivity|discriminate|discriminate]).
  - rewrite !andb_true_iff in W. destruct W as [[O Wl] Wr]. pieces. apply orb_true_iff in O. destruct O as [O|O].
    + apply oneof_In in O. destruct O as [<-|[<-|[<-|[<-|[]]]]]; cbn in Heqo; discriminate.
    + apply andb_true_iff in O. destruct O as [O _]. apply String.eqb_eq in O. subst op. cbn in Heqo. discriminate.
  - rewrite !andb_true_iff in W. destruct W as [[[O _] _] _]. apply String.eqb_eq in O. subst op. cbn in H. discriminate.
Qed.

(** ** Collapsing the space after next *)
Lemma white_is_white c : white c = is_white c.
Proof. destruct c as [[] [] [] [] [] [] [] []]; reflexivity. Qed.
Lemma strip_prefix_app p : forall s r, strip_prefix p s = Some r -> s = (p ++ r)%string.
Proof.
  induction p as [|a p IH]; intros s r H; cbn [strip_prefix] in H; [injection H as <-; reflexivity|]. destruct s as [|b s]; [discriminate|].
  destruct (Ascii.eqb_spec a b); [|discriminate]. subst b. rewrite (IH _ _ H). reflexivity.
Qed.
Lemma blanks_split r : forall q, blanks_to_paren r = Some q -> exists b q', r = (b ++ String "(" q')%string /\ q = String "(" q' /\ forallb is_white (chars b) = true.
Proof.
  induction r as [|c r IH]; intros q H; cbn [blanks_to_paren] in H; [discriminate|]. destruct (Ascii.eqb_spec c "(").
  - injection H as <-. subst c. exists "", r. auto.
  - destruct (white c) eqn:E; [|discriminate]. destruct (IH q H) as (b & q' & -> & -> & B). exists (String c b), q'. split; [reflexivity|]. split; [reflexivity|].
    cbn [list_ascii_of_string forallb]. rewrite <- white_is_white, E, B. reflexivity.
Qed.
Lemma skip_blanks b rest : forallb is_white (chars b) = true -> split_words is_white jtlv_punct (chars b ++ rest) "" = split_words is_white jtlv_punct rest "".
Proof.
  induction b as [|c b IH]; [reflexivity|]. cbn [list_ascii_of_string forallb app split_words]. intro H. apply andb_true_iff in H. destruct H as [-> B]. exact (IH B).
Qed.
Lemma collapse_words n : forall s acc rest, split_words is_white jtlv_punct (chars (collapse_next n s) ++ rest) acc = split_words is_white jtlv_punct (chars s ++ rest) acc.
Proof.
  induction n as [|n IH]; intros s acc rest; [reflexivity|]. destruct s as [|c q]; [reflexivity|]. cbn [collapse_next].
  assert (Same : split_words is_white jtlv_punct (chars (String c (collapse_next n q)) ++ rest) acc = split_words is_white jtlv_punct (chars (String c q) ++ rest) acc).
  { cbn [list_ascii_of_string app split_words]. rewrite !IH. reflexivity. }
  destruct (strip_prefix "next" (String c q)) as [r|] eqn:S; [|exact Same]. destruct (blanks_to_paren r) as [[|d p]|] eqn:B; try exact Same.
  destruct (blanks_split r _ B) as (b & q' & -> & [= -> <-] & W). apply strip_prefix_app in S. rewrite S.
  assert (P : forall l acc', split_words is_white jtlv_punct ("("%char :: l) acc' = flush acc' ++ "(" :: split_words is_white jtlv_punct l "") by reflexivity.
  assert (E1 : chars ("next(" ++ collapse_next n p) ++ rest = chars "next" ++ "("%char :: chars (collapse_next n p) ++ rest) by reflexivity.
  assert (E2 : chars ("next" ++ b ++ String "(" p) ++ rest = chars "next" ++ chars b ++ "("%char :: chars p ++ rest).
  { rewrite !chars_cat, <- !app_assoc. reflexivity. }
  rewrite E1, E2, !(split_solid _ _ "next") by reflexivity. rewrite P, IH. destruct b as [|d b]; [rewrite <- P; reflexivity|].
  cbn [list_ascii_of_string forallb] in W. apply andb_true_iff in W. destruct W as [D W]. cbn [list_ascii_of_string app split_words]. rewrite D.
  rewrite (skip_blanks b) by exact W. rewrite P. reflexivity.
Qed.
Lemma white_calm b s : forallb is_white (chars b) = true -> calm (b ++ s) = calm s.
Proof.
  induction b as [|c b IH]; [reflexivity|]. cbn [list_ascii_of_string forallb append calm]. intro H. apply andb_true_iff in H. destruct H as [A B]. rewrite (IH B).
  destruct (Ascii.eqb_spec c "-"); [subst c; discriminate|reflexivity].
Qed.
Definition starts (s : string) : option ascii := match s with String c _ => Some c | EmptyString => None end.
Lemma collapse_starts n s : starts (collapse_next n s) = starts s.
Proof.
  destruct n; [reflexivity|]. destruct s as [|c q]; [reflexivity|]. cbn [collapse_next]. destruct (strip_prefix "next" (String c q)) as [r|] eqn:S; [|reflexivity].
  apply strip_prefix_app in S. cbn [append] in S. injection S as -> ->. destruct (blanks_to_paren r) as [[|d p]|]; reflexivity.
Qed.
Lemma collapse_calm n : forall s, calm (collapse_next n s) = calm s.
Proof.
  induction n as [|n IH]; intro s; [reflexivity|]. destruct s as [|c q]; [reflexivity|]. cbn [collapse_next].
  assert (Same : calm (String c (collapse_next n q)) = calm (String c q)).
  { cbn [calm]. rewrite IH. pose proof (collapse_starts n q) as E. destruct (collapse_next n q), q; cbn in E; try discriminate; [reflexivity|]. injection E as ->. reflexivity. }
  destruct (strip_prefix "next" (String c q)) as [r|] eqn:S; [|exact Same]. destruct (blanks_to_paren r) as [[|d p]|] eqn:B; try exact Same.
  destruct (blanks_split r _ B) as (b & q' & -> & [= -> <-] & W). apply strip_prefix_app in S. rewrite S.
  cbn [append]. cbn [calm]. rewrite IH. change (calm (b ++ String "(" p)) with (calm (b ++ String "(" p)). rewrite (white_calm b _ W). reflexivity.
Qed.
Lemma collapse_text n s t : text jtlv is_white jtlv_punct s t -> text jtlv is_white jtlv_punct (collapse_next n s) t.
Proof.
  intros (N & ws & L & R). split.
  - intro E. pose proof (collapse_starts n s) as Q. rewrite E in Q. destruct s; [congruence|discriminate].
  - exists ws. split; [|exact R]. intros rest D. rewrite collapse_words. apply L, D.
Qed.

(** ** Texts with comments *)
Definition said (s : string) (ws : list string) : Prop :=
  forall rest, split_words is_white jtlv_punct (skip_comments false (chars s ++ rest)) "" = ws ++ split_words is_white jtlv_punct (skip_comments false rest) "".
Lemma said_app a wa b wb : said a wa -> said b wb -> said (a ++ b) (wa ++ wb).
Proof. intros A B rest. rewrite chars_cat, <- app_assoc, A, B, app_assoc. reflexivity. Qed.
Lemma calm_said s ws : lexes_any is_white jtlv_punct s ws -> calm s = true -> said s ws.
Proof. intros L C rest. rewrite calm_skip by exact C. apply L. Qed.
(** Lists of words with "&" between them. *)
Fixpoint amp (l : list (list string)) : list string :=
  match l with [] => [] | [a] => a | a :: r => a ++ "&" :: amp r end.
Lemma amp_app a b : a <> [] -> b <> [] -> amp (a ++ b) = amp a ++ "&" :: amp b.
Proof.
  intros A B. induction a as [|x a IH]; [congruence|]. destruct a as [|y a].
  - cbn [app amp]. destruct b; [congruence|reflexivity].
  - change ((x :: y :: a) ++ b) with (x :: (y :: a) ++ b). change (amp (x :: (y :: a) ++ b)) with (x ++ "&" :: amp ((y :: a) ++ b)).
    rewrite IH by discriminate. change (amp (x :: y :: a)) with (x ++ "&" :: amp (y :: a)). rewrite <- app_assoc. reflexivity.
Qed.
Lemma said_join texts wss : Forall2 said texts wss -> said (join (" & " ++ nl) texts) (amp wss).
Proof.
  induction 1 as [|a wa l wss A L IH]; [intro; reflexivity|]. destruct L as [|b wb l wss B L]; [exact A|].
  change (join (" & " ++ nl) (a :: b :: l)) with (a ++ (" & " ++ nl) ++ join (" & " ++ nl) (b :: l))%string.
  change (amp (wa :: wb :: wss)) with (wa ++ ["&"] ++ amp (wb :: wss)). apply said_app; [exact A|]. apply said_app; [|exact IH].
  apply calm_said; [intro r; reflexivity|reflexivity].
Qed.
Lemma conjuncts_amp wss ts : Forall2 (reads jtlv) wss ts -> wss <> [] -> forall f, S (List.length (amp wss)) <= f -> jtlv_conjuncts f (amp wss) = Some ts.
Proof.
  induction 1 as [|wa a wss ts [NA A] L IH]; [congruence|]. intros _ f Lf. destruct f as [|f]; [lia|]. cbn [jtlv_conjuncts]. destruct L as [|wb b wss ts B L].
  - cbn [amp] in *. specialize (A f [] ltac:(lia)). rewrite app_nil_r in A. rewrite A. reflexivity.
  - change (amp (wa :: wb :: wss)) with (wa ++ "&" :: amp (wb :: wss)) in *. rewrite app_length in Lf. cbn [List.length] in Lf.
    rewrite A by lia. change (("&" =? "&")%string) with true. cbn iota. rewrite IH; [reflexivity|discriminate|]. destruct wa; [congruence|]. cbn [List.length] in Lf. lia.
Qed.
Lemma amp_nonempty wss ts : Forall2 (reads jtlv) wss ts -> wss <> [] -> amp wss <> [].
Proof. destruct 1 as [|wa a wss ts [NA _] L]; [congruence|]. intros _. destruct wa; [congruence|]. destruct wss; discriminate. Qed.
Lemma said_read s wss ts : said s (amp wss) -> Forall2 (reads jtlv) wss ts -> jtlv_read s = Some ts.
Proof.
  intros S R. unfold jtlv_read. pose proof (S []) as W. rewrite app_nil_r in W. cbn [skip_comments split_words flush] in W. change (flush "") with (@nil string) in W. rewrite app_nil_r in W.
  unfold jtlv_words. rewrite W. destruct wss as [|w wss].
  - inversion R; subst. reflexivity.
  - pose proof (amp_nonempty _ _ R ltac:(discriminate)) as N. destruct (amp (w :: wss)) eqn:E; [congruence|]. rewrite <- E. apply conjuncts_amp; [exact R|discriminate|lia].
Qed.

(** ** Parts of documents *)
Lemma amp_concat l : (forall a, In a l -> a <> []) -> amp (map amp l) = amp (List.concat l).
Proof.
  induction l as [|a l IH]; intro N; [reflexivity|]. cbn [map List.concat]. destruct l as [|b l].
  - cbn [map amp List.concat]. rewrite app_nil_r. reflexivity.
  - change (amp (amp a :: map amp (b :: l))) with (amp a ++ "&" :: amp (map amp (b :: l))). rewrite IH by (intros; apply N; right; auto).
    rewrite amp_app; [reflexivity|apply N; left; reflexivity|]. cbn [List.concat]. intro E. apply app_eq_nil in E. destruct E as [E _]. apply (N b); [right; left; reflexivity|exact E].
Qed.
Definition part_said (s : string) (wss : list (list string)) : Prop := (s = "" /\ wss = []) \/ (s <> "" /\ wss <> [] /\ said s (amp wss)).
Lemma parts_said ss wsss : Forall2 part_said ss wsss -> said (join (" & " ++ nl) (nonempty ss)) (amp (List.concat wsss)).
Proof.
  intro F. assert (Q : exists l, Forall2 said (nonempty ss) (map amp l) /\ (forall a, In a l -> a <> []) /\ List.concat l = List.concat wsss).
  { induction F as [|s w ss wsss [[-> ->]|(NS & NW & S)] F (l & A & B & C)].
    - exists []. split; [constructor|]. split; [intros ? []|reflexivity].
    - exists l. split; [exact A|]. split; [exact B|]. cbn. exact C.
    - exists (w :: l). split; [|split; [intros a [<-|I]; auto|cbn; congruence]]. unfold nonempty in *. cbn [filter map].
      destruct (String.eqb_spec s ""); [congruence|]. constructor; assumption. }
  destruct Q as (l & A & B & C). rewrite <- C, <- amp_concat by exact B. apply said_join, A.
Qed.
(** The formulas with which the three kinds of clauses appear. *)
Definition wrap (p : string) (t : node) : node :=
  if (p =? "[]")%string then NUn "G" t else if (p =? "[]<>")%string then NUn "G" (NUn "F" t) else t.
Definition jtext (y : string) (t : node) : Prop := text jtlv is_white jtlv_punct y t /\ calm y = true.
Lemma jtlv_item p y t : In p [""; "[]"; "[]<>"] -> jtext y t ->
  exists ws, said (tab ++ p ++ "(" ++ (if (p =? "[]")%string then collapse_next (S (String.length y)) y else y) ++ ")") ws /\ reads jtlv ws (wrap p t).
Proof.
  intros I [T C].
  assert (K : forall s ws u, lexes_any is_white jtlv_punct s ws -> reads jtlv ws u -> calm s = true -> exists ws, said (tab ++ s) ws /\ reads jtlv ws u).
  { intros s ws u L R Q. exists ([] ++ ws). split; [|exact R]. apply said_app; [apply calm_said; [intro r; reflexivity|reflexivity]|apply calm_said; assumption]. }
  destruct I as [<-|[<-|[<-|[]]]].
  - destruct (closed_paren jtlv is_white jtlv_punct eq_refl eq_refl eq_refl eq_refl y t T) as (ws & L & R). apply (K ("" ++ "(" ++ y ++ ")")%string ws); [exact L|exact R|calms].
  - pose proof (collapse_text (S (String.length y)) y t T) as T'. pose proof (collapse_calm (S (String.length y)) y) as C'. rewrite C in C'.
    destruct (closed_apply jtlv is_white jtlv_punct eq_refl eq_refl eq_refl eq_refl "[]" ["["; "]"] "G" _ _ (any_lexes is_white jtlv_punct "[]" ["["; "]"] ltac:(lit)) ltac:(reflexivity) ltac:(discriminate) ltac:(discriminate) T') as (ws & L & R).
    apply (K _ ws); [exact L|exact R|]. cbn [String.eqb Ascii.eqb Bool.eqb]. calms.
  - destruct (closed_paren jtlv is_white jtlv_punct eq_refl eq_refl eq_refl eq_refl y t T) as (ws & L & R).
    apply (K _ (["["; "]"; "<>"] ++ ws)); [|change (wrap "[]<>" t) with (NUn "G" (NUn "F" t))|cbn [String.eqb Ascii.eqb Bool.eqb]; calms].
    + cbn [String.eqb Ascii.eqb Bool.eqb]. change ("[]<>" ++ "(" ++ y ++ ")")%string with ("[]<>" ++ "(" ++ (y ++ ")"))%string.
      replace ws with ([] ++ ws) by reflexivity. apply (lex_then is_white jtlv_punct "[]<>" ["["; "]"; "<>"]); [intros r D|reflexivity|discriminate|exact L].
      change (chars "[]<>") with (chars "[]" ++ chars "<>"). rewrite <- app_assoc. change (split_words is_white jtlv_punct (chars "[]" ++ chars "<>" ++ r) "") with ("[" :: "]" :: split_words is_white jtlv_punct (chars "<>" ++ r) "").
      rewrite (solid_lexes is_white jtlv_punct "<>" eq_refl ltac:(discriminate) r D). reflexivity.
    + change (["["; "]"; "<>"] ++ ws) with (["["; "]"] ++ ["<>"] ++ ws). apply reads_prefix; [reflexivity|discriminate|discriminate|]. apply reads_prefix; [reflexivity|discriminate|discriminate|exact R].
Qed.
Lemma jtlv_part ys ts comment p : In p [""; "[]"; "[]<>"] -> Forall2 jtext ys ts -> said ("-- " ++ comment ++ nl) [] ->
  exists wss, part_said (jtlv_str ys comment p) wss /\ Forall2 (reads jtlv) wss (map (wrap p) ts).
Proof.
  intros I F C. destruct ys as [|y0 ys0]; [inversion F; subst; exists []; split; [left; auto|constructor]|].
  assert (Q : exists wss, Forall2 said (map (fun x => (tab ++ p ++ "(" ++ (if (p =? "[]")%string then collapse_next (S (String.length x)) x else x) ++ ")")%string)
                (filter (fun x => negb (x =? "")%string) (y0 :: ys0))) wss /\ Forall2 (reads jtlv) wss (map (wrap p) ts)).
  { clear C. induction F as [|y t ys ts T F (wss & A & B)]; [exists []; split; constructor|]. destruct (jtlv_item p y t I T) as (ws & S & R). exists (ws :: wss).
    cbn [filter]. destruct (String.eqb_spec y "") as [E|_]; [destruct T as [[N _] _]; congruence|]. cbn [negb map]. split; constructor; assumption. }
  destruct Q as (wss & A & B). exists wss. split; [right|exact B].
  assert (S : said (jtlv_str (y0 :: ys0) comment p) (amp wss)).
  { unfold jtlv_str. set (l := map _ _). replace ("-- " ++ comment ++ nl ++ join (" & " ++ nl) l)%string with (("-- " ++ comment ++ nl) ++ join (" & " ++ nl) l)%string by (rewrite !str_assoc; reflexivity).
    change (amp wss) with ([] ++ amp wss). apply said_app; [exact C|]. apply said_join. exact A. }
  split; [unfold jtlv_str; discriminate|]. split; [|exact S]. inversion F; subst. inversion B; subst. discriminate.
Qed.

(** ** Wring documents *)
Fixpoint conj_tree (l : list node) : node := match l with [] => NBool "True" | [a] => a | a :: r => NBin "&" a (conj_tree r) end.
Notation wclosed := (closed wring is_white wring_punct).
Notation wtext := (text wring is_white wring_punct).
Lemma wring_join texts ts : Forall2 wclosed texts ts -> ts <> [] ->
  exists ws, ws <> [] /\ lexes_any is_white wring_punct (join " * " texts) ws /\ chain wring ws (conj_tree ts).
Proof.
  induction 1 as [|a ta l ts (wa & LA & RA) F IH]; [congruence|]. intros _. destruct F as [|b tb l ts B F].
  - exists wa. split; [destruct RA as [N _]; exact N|]. split; [exact LA|]. apply chain_one, RA.
  - destruct (IH ltac:(discriminate)) as (wb & NB & LB & CB). exists (wa ++ "*" :: wb). split; [destruct wa; discriminate|]. split.
    + change (join " * " (a :: b :: l)) with (a ++ " * " ++ join " * " (b :: l))%string. change (wa ++ "*" :: wb) with (wa ++ ["*"] ++ wb).
      apply any_app; [exact LA|]. apply any_app; [lit|exact LB].
    + change (conj_tree (ta :: tb :: ts)) with (NBin "&" ta (conj_tree (tb :: ts))). apply (chain_more wring ltac:(discriminate)); assumption.
Qed.
Lemma join_app sep a b : a <> [] -> b <> [] -> join sep (a ++ b) = (join sep a ++ sep ++ join sep b)%string.
Proof.
  intros A B. induction a as [|x a IH]; [congruence|]. destruct a as [|y a].
  - cbn [app join]. destruct b; [congruence|reflexivity].
  - change ((x :: y :: a) ++ b) with (x :: (y :: a) ++ b). change (join sep (x :: (y :: a) ++ b)) with (x ++ sep ++ join sep ((y :: a) ++ b))%string.
    rewrite IH by discriminate. change (join sep (x :: y :: a)) with (x ++ sep ++ join sep (y :: a))%string. rewrite !str_assoc. reflexivity.
Qed.
Lemma join_empty sep l : (forall x, In x l -> x <> "") -> l <> [] -> join sep l <> "".
Proof. destruct l as [|x l]; [congruence|]. intros H _. pose proof (H x (or_introl eq_refl)) as N. destruct x; [congruence|]. destruct l; discriminate. Qed.
Lemma wring_part_join i s p : wring_part i s p =
  join " * " (map (fun f => "(" ++ f ++ ")")%string i ++ map (fun f => "G(" ++ f ++ ")")%string s ++ map (fun f => "G(F(" ++ f ++ "))")%string p).
Proof.
  assert (NE : forall x l, l <> [] -> (forall y : string, In y l -> exists c r, y = String c r) -> (join x l =? "")%string = false).
  { intros x l N H. apply String.eqb_neq. apply join_empty; [|exact N]. intros y Y. destruct (H y Y) as (c & r & ->). discriminate. }
  set (I := map (fun f => "(" ++ f ++ ")")%string i). set (G := map (fun f => "G(" ++ f ++ ")")%string s). set (P := map (fun f => "G(F(" ++ f ++ "))")%string p).
  assert (HI : forall y : string, In y I -> exists c r, y = String c r) by (intros y Y; apply in_map_iff in Y; destruct Y as (f & <- & _); cbn; eauto).
  assert (HG : forall y : string, In y (I ++ G) -> exists c r, y = String c r).
  { intros y Y. apply in_app_or in Y. destruct Y as [Y|Y]; [auto|]. apply in_map_iff in Y; destruct Y as (f & <- & _); cbn; eauto. }
  assert (E1 : match i with [] => "" | _ => join " * " I end = join " * " I) by (destruct i; reflexivity).
  assert (E2 : match s with [] => join " * " I | _ => (join " * " I ++ (if (join " * " I =? "")%string then "" else " * ") ++ join " * " G)%string end = join " * " (I ++ G)).
  { destruct s as [|f s']; [cbn; rewrite app_nil_r; reflexivity|]. destruct I as [|a I'] eqn:EI; [reflexivity|]. rewrite (NE " * " (a :: I')) by (discriminate || exact HI).
    rewrite join_app by discriminate. reflexivity. }
  unfold wring_part. fold I G P. rewrite E1, E2. rewrite app_assoc. destruct p as [|f p']; [unfold P; cbn [map]; rewrite app_nil_r; reflexivity|].
  destruct (I ++ G) as [|a l] eqn:E; [reflexivity|]. rewrite (NE " * " (a :: l)) by (discriminate || exact HG). rewrite join_app by (discriminate || unfold P; discriminate). reflexivity.
Qed.
