(** Proofs: the gr1c document is read as the specification. *)
From Coq Require Import List String Ascii Bool Arith ZArith Lia.
From Verif Require Import M_Base M_Ast M_Lexer M_Parser M_Spec M_Form M_Tree M_Gr1c.
From Verif Require Import S_LTL S_Gr1 S_Form S_Syntax S_Tree S_Python S_Gr1c.
From Verif Require Import L_LTL L_Gr1 L_Form L_Dec L_Encode L_Python.
Import ListNotations.
Open Scope string_scope.
Open Scope list_scope.

(** * Words *)
Definition delim (c : ascii) : bool := blank c || punct c.
Definition delim_start (rest : list ascii) : Prop := match rest with [] => True | c :: _ => delim c = true end.
Definition wlex (s : string) (ws : list string) : Prop :=
  forall rest, delim_start rest -> words (chars s ++ rest) "" = ws ++ words rest "".
Definition wlex_any (s : string) (ws : list string) : Prop :=
  forall rest, words (chars s ++ rest) "" = ws ++ words rest "".
Lemma wany_lex s ws : wlex_any s ws -> wlex s ws.
Proof. intros H rest _. apply H. Qed.
Lemma wany_app a wa b wb : wlex_any a wa -> wlex_any b wb -> wlex_any (a ++ b) (wa ++ wb).
Proof. intros A B rest. rewrite chars_app, <- app_assoc, A, B, app_assoc. reflexivity. Qed.
Lemma wtext a wa l b wb : wlex a wa -> delim_start (chars l) -> l <> "" -> wlex_any (l ++ b) wb -> wlex_any (a ++ l ++ b) (wa ++ wb).
Proof.
  intros A N NE B rest. rewrite chars_app, <- app_assoc, A, B, app_assoc; [reflexivity|]. destruct l; [congruence|exact N].
Qed.
Lemma wend a wa l wb : wlex a wa -> delim_start (chars l) -> l <> "" -> wlex_any l wb -> wlex_any (a ++ l) (wa ++ wb).
Proof.
  intros A N NE B rest. rewrite chars_app, <- app_assoc, A, B, app_assoc; [reflexivity|]. destruct l; [congruence|exact N].
Qed.
Lemma wlit_lex l wl b wb : wlex_any l wl -> wlex b wb -> wlex (l ++ b) (wl ++ wb).
Proof. intros A B rest N. rewrite chars_app, <- app_assoc, A, B, app_assoc; auto. Qed.
Definition plain (w : string) : bool := forallb (fun c => negb (delim c)) (chars w).
Lemma words_plain w rest : forall acc, plain w = true -> words (chars w ++ rest) acc = words rest (acc ++ w)%string.
Proof.
  unfold plain. induction w as [|c w IH]; intros acc H; cbn [list_ascii_of_string app].
  - f_equal. clear. induction acc; cbn; congruence.
  - cbn [list_ascii_of_string forallb] in H. apply andb_true_iff in H. destruct H as [H1 H2]. cbn [words].
    apply negb_true_iff, orb_false_iff in H1. destruct H1 as [-> ->]. rewrite IH by auto. f_equal. clear. induction acc; cbn; congruence.
Qed.
Lemma plain_lex w : plain w = true -> w <> "" -> wlex w [w].
Proof.
  intros P NE rest D. rewrite words_plain by auto. cbn [append]. assert (F : flush w = [w]).
  { unfold flush. destruct (w =? "")%string eqn:E; [apply String.eqb_eq in E; congruence|reflexivity]. }
  destruct rest as [|c r]; cbn [words]; [exact F|]. cbn in D. unfold delim in D. apply orb_true_iff in D.
  destruct (blank c) eqn:B; [rewrite F; reflexivity|]. destruct D as [D|D]; [discriminate|]. rewrite D, F. reflexivity.
Qed.
Ltac wlit := let r := fresh in intro r; reflexivity.

(** * Expressions *)
Definition reads (ws : list string) (e : gexp) : Prop :=
  ws <> [] /\ forall f rest, List.length ws <= f -> gr_expr f (ws ++ rest) = Some (e, rest).
Lemma reads_not ws e : reads ws e -> reads ("(" :: "!" :: ws ++ [")"]) (GNot e).
Proof.
  intros [N H]. split; [discriminate|]. intros f rest L. destruct f as [|f]; [cbn in L; lia|]. cbn [app gr_expr]. norm.
  cbn [List.length] in L. rewrite app_length in L. cbn [List.length] in L. cbn [expect String.eqb Ascii.eqb Bool.eqb andb].
  rewrite H by lia. reflexivity.
Qed.
Definition no_bang (ws : list string) : Prop := match ws with [] => False | w :: _ => w <> "!" end.
Lemma reads_no_bang ws e : reads ws e -> no_bang ws.
Proof.
  intros [N H]. destruct ws as [|w ws]; [congruence|]. cbn. intros ->.
  specialize (H (S (List.length ws)) [] ltac:(cbn; lia)). cbn in H. discriminate.
Qed.
Lemma expect_bang ws rest : no_bang ws -> expect "!" (ws ++ rest) = None.
Proof. destruct ws as [|w ws]; [intros []|]. cbn. intro H. destruct (String.eqb_spec w "!"); congruence. Qed.
Lemma reads_op wa a op wb b : reads wa a -> reads wb b -> op <> ")" -> reads ("(" :: wa ++ op :: wb ++ [")"]) (GOp op a b).
Proof.
  intros A B O. pose proof (reads_no_bang _ _ A) as NB. destruct A as [_ A], B as [_ B].
  split; [discriminate|]. intros f rest L. destruct f as [|f]; [cbn in L; lia|].
  cbn [List.length] in L. rewrite app_length in L. cbn [List.length] in L. rewrite app_length in L. cbn [List.length] in L.
  norm. cbn [gr_expr expect String.eqb Ascii.eqb Bool.eqb andb]. rewrite expect_bang by auto. rewrite A by lia.
  destruct (String.eqb_spec op ")"); [congruence|]. rewrite B by lia. reflexivity.
Qed.
Lemma reads_paren wa a : reads wa a -> reads ("(" :: wa ++ [")"]) a.
Proof.
  intros A. pose proof (reads_no_bang _ _ A) as NB. destruct A as [_ A].
  split; [discriminate|]. intros f rest L. destruct f as [|f]; [cbn in L; lia|].
  cbn [List.length] in L. rewrite app_length in L. cbn [List.length] in L.
  norm. cbn [gr_expr expect String.eqb Ascii.eqb Bool.eqb andb]. rewrite expect_bang by auto. rewrite A by lia. reflexivity.
Qed.
Lemma reads_atom w e : w <> "(" -> gr_atom w = Some e -> reads [w] e.
Proof.
  intros N A. split; [discriminate|]. intros f rest L. destruct f as [|f]; [cbn in L; lia|]. cbn [app gr_expr expect].
  destruct (String.eqb_spec w "("); [congruence|]. rewrite A. reflexivity.
Qed.

Definition gatom (s : string) (e : gexp) : Prop := exists ws, wlex s ws /\ reads ws e.
Lemma gatom_word w e : plain w = true -> w <> "" -> w <> "(" -> gr_atom w = Some e -> gatom w e.
Proof. intros P N1 N2 A. exists [w]. split; [apply plain_lex; auto|apply reads_atom; auto]. Qed.
Lemma gatom_not s e : gatom s e -> gatom ("( ! " ++ s ++ " )") (GNot e).
Proof.
  intros (ws & L & R). exists ("(" :: "!" :: ws ++ [")"]). split; [|apply reads_not; auto]. apply wany_lex.
  change ("(" :: "!" :: ws ++ [")"]) with (["("; "!"] ++ ws ++ [")"]). apply wany_app; [wlit|]. apply wend; auto; [reflexivity|discriminate|wlit].
Qed.
Lemma gatom_op a ea b eb o op : gatom a ea -> gatom b eb -> wlex_any o [op] -> delim_start (chars o) -> o <> "" -> op <> ")" ->
  gatom ("( " ++ a ++ o ++ b ++ " )") (GOp op ea eb).
Proof.
  intros (wa & LA & RA) (wb & LB & RB) O D N NO. exists ("(" :: wa ++ op :: wb ++ [")"]). split; [|apply reads_op; auto]. apply wany_lex.
  change ("(" :: wa ++ op :: wb ++ [")"]) with (["("] ++ wa ++ [op] ++ wb ++ [")"]). apply wany_app; [wlit|].
  apply wtext; auto. apply wany_app; [auto|]. apply wend; auto; [reflexivity|discriminate|wlit].
Qed.

(** ** Atoms *)
Lemma word_char_plain c : word_char c = true -> negb (delim c) = true.
Proof. destruct c as [[] [] [] [] [] [] [] []]; vm_compute; auto. Qed.
Lemma forallb_imp {A} (f g : A -> bool) l : (forall x, f x = true -> g x = true) -> forallb f l = true -> forallb g l = true.
Proof. intros H. rewrite !forallb_forall. auto. Qed.
Lemma unprime_plain w : forallb word_char (chars w) = true -> unprime w = (w, false).
Proof.
  induction w as [|c w IH]; [reflexivity|]. cbn [list_ascii_of_string forallb]. intro H. apply andb_true_iff in H. destruct H as [H1 H2].
  cbn [unprime]. destruct w as [|d w]; [|rewrite (IH H2); reflexivity].
  destruct (Ascii.eqb_spec c "'"); [subst; discriminate|reflexivity].
Qed.
Lemma unprime_prime w : forallb word_char (chars w) = true -> unprime (w ++ "'") = (w, true).
Proof.
  induction w as [|c w IH]; [reflexivity|]. cbn [list_ascii_of_string forallb]. intro H. apply andb_true_iff in H. destruct H as [H1 H2].
  specialize (IH H2). cbn [append unprime]. destruct (w ++ "'")%string as [|d r] eqn:E; [destruct w; discriminate|].
  rewrite IH. reflexivity.
Qed.
Lemma name_parts w : gr_name w = true -> exists c r, w = String c r /\ is_letter c = true /\ forallb word_char (chars w) = true /\
  existsb (String.eqb w) gr_reserved = false.
Proof.
  destruct w as [|c r]; [discriminate|]. unfold gr_name. rewrite !andb_true_iff, negb_true_iff. intros [[A B] C]. eauto 7.
Qed.
Lemma letter_not_number c r : is_letter c = true -> number_text (String c r) = false.
Proof. destruct c as [[] [] [] [] [] [] [] []]; vm_compute; congruence. Qed.
Lemma atom_name w (p : bool) : gr_name w = true -> gr_atom (w ++ (if p then "'" else "")) = Some (GVar w p).
Proof.
  intro N. destruct (name_parts w N) as (c & r & E & L & W & R).
  assert (NN : number_text (w ++ (if p then "'" else "")) = false) by (rewrite E; apply letter_not_number; auto).
  assert (U : unprime (w ++ (if p then "'" else "")) = (w, p)).
  { destruct p; [apply unprime_prime; auto|]. replace (w ++ "")%string with w by (clear; induction w; cbn; congruence). apply unprime_plain; auto. }
  unfold gr_atom. rewrite NN, U. cbn [fst snd]. rewrite N.
  destruct (String.eqb_spec (w ++ (if p then "'" else "")) "True") as [T|_].
  { exfalso. destruct p; [rewrite T in U; vm_compute in U; inversion U|]. rewrite T in U. vm_compute in U. inversion U as [U']. rewrite <- U' in N. vm_compute in N. discriminate N. }
  destruct (String.eqb_spec (w ++ (if p then "'" else "")) "False") as [T|_].
  { exfalso. destruct p; [rewrite T in U; vm_compute in U; inversion U|]. rewrite T in U. vm_compute in U. inversion U as [U']. rewrite <- U' in N. vm_compute in N. discriminate N. }
  reflexivity.
Qed.
Lemma gatom_name w (p : bool) : gr_name w = true -> gatom (w ++ (if p then "'" else "")) (GVar w p).
Proof.
  intro N. pose proof (atom_name w p N) as A. destruct (name_parts w N) as (c & r & E & L & W & R). apply gatom_word; auto.
  - unfold plain. rewrite chars_app, forallb_app, (forallb_imp _ _ _ word_char_plain W). destruct p; reflexivity.
  - subst w. discriminate.
  - subst w. cbn [append]. intro Q. inversion Q; subst c. discriminate.
Qed.
Lemma digit_delim c : digit c = true -> negb (delim c) = true.
Proof. destruct c as [[] [] [] [] [] [] [] []]; vm_compute; auto. Qed.
Lemma number_num v : number_text v = true -> exists z, num_text v = Some z.
Proof.
  assert (D : forall r a, forallb digit (chars r) = true -> exists z, nat_text a r = Some z).
  { induction r as [|c r IH]; intros a H; cbn [nat_text]; [eauto|]. cbn [list_ascii_of_string forallb] in H.
    apply andb_true_iff in H. destruct H as [H1 H2]. assert (exists d, digit_val c = Some d) as [d ->].
    { destruct c as [[] [] [] [] [] [] [] []]; vm_compute in H1; try discriminate; vm_compute; eauto. }
    eauto. }
  intro H. assert (M : (exists r, v = String "-" r /\ numeral r = true) \/ numeral v = true).
  { unfold number_text in H. destruct v as [|c r]; [discriminate|].
    destruct (ascii_dec c "-"); [subst; left; eauto|]. right. destruct c as [[] [] [] [] [] [] [] []]; solve [auto|congruence]. }
  destruct M as [(r & -> & N)|N].
  - destruct r as [|c r]; [discriminate|]. cbn [numeral] in N. destruct (D (String c r) 0%Z N) as [z Z]. exists (-z)%Z.
    unfold num_text. rewrite Z. reflexivity.
  - rewrite num_text_numeral by auto. destruct v as [|c r]; [discriminate|]. apply D. exact N.
Qed.
Lemma number_plain v : number_text v = true -> plain v = true /\ v <> "" /\ v <> "(" /\ v <> "True" /\ v <> "False".
Proof.
  intro H. repeat split; try (intros ->; discriminate). unfold plain.
  unfold number_text in H. destruct v as [|c r]; [discriminate|].
  assert (M : c = "-"%char /\ numeral r = true \/ numeral (String c r) = true).
  { destruct (ascii_dec c "-"); [subst; auto|]. right. destruct c as [[] [] [] [] [] [] [] []]; solve [auto|congruence]. }
  destruct M as [[-> N]|N].
  - cbn [list_ascii_of_string forallb]. destruct r as [|d r]; [discriminate|]. cbn [numeral] in N.
    rewrite (forallb_imp _ _ (chars (String d r)) digit_delim); [reflexivity|exact N].
  - apply (forallb_imp _ _ _ digit_delim). exact N.
Qed.
Lemma gatom_num v z : number_text v = true -> num_text v = Some z -> gatom v (GNum z).
Proof.
  intros N Z. destruct (number_plain v N) as (P & N1 & N2 & N3 & N4). apply gatom_word; auto. unfold gr_atom.
  destruct (String.eqb_spec v "True"); [congruence|]. destruct (String.eqb_spec v "False"); [congruence|]. rewrite N, Z. reflexivity.
Qed.

(** ** The meaning of translated clauses *)
Definition sp_op (o : string) : string := (" " ++ o ++ " ")%string.
Lemma sp_infix x o y : ("( " ++ x ++ " " ++ o ++ " " ++ y ++ " )")%string = ("( " ++ x ++ sp_op o ++ y ++ " )")%string.
Proof. unfold sp_op. cbn. rewrite !str_assoc. reflexivity. Qed.
Section meaning.
  Variables (Gamma : types) (s : trace) (i : nat).
  Hypothesis H0 : respects Gamma (s i).
  Hypothesis H1 : respects Gamma (s (S i)).
  Hypothesis NoS : forall x, Gamma x <> Some TyS.
  Let at_ (b : bool) : nat := if b then S i else i.
  Lemma term_reads b t k : step_term Gamma b t k -> forall x, no_str t = true -> gr1c_flatten gr1c_opmap b t = Ok x ->
    exists e v, gatom x e /\ gval (s i) (s (S i)) e = Some v /\ term_val s (at_ b) t = Some v /\ has_ty v k.
  Proof.
    induction 1 as [b x k G N|b v I|b v N|b v|a k T IH]; intros y NS F; cbn [gr1c_flatten] in F.
    - apply Ok_inj in F. subst y. exists (GVar x b), (s (at_ b) x). split; [apply gatom_name; auto|]. split.
      + destruct b; reflexivity.
      + split; [destruct b; reflexivity|]. destruct b; [apply (H1 _ _ G)|apply (H0 _ _ G)].
    - destruct I as [<-|[<-|[]]]; vm_compute in F; apply Ok_inj in F; subst y.
      + exists (GBool true), (VB true). split; [apply gatom_word; try reflexivity; discriminate|]. cbn. eauto.
      + exists (GBool false), (VB false). split; [apply gatom_word; try reflexivity; discriminate|]. cbn. eauto.
    - apply Ok_inj in F. subst y. destruct (number_num v N) as [z Z]. exists (GNum z), (VZ z). split; [apply gatom_num; auto|].
      cbn. rewrite Z. cbn. eauto.
    - discriminate.
    - cbn [String.eqb Ascii.eqb Bool.eqb andb] in F. destruct (IH y NS F) as (e & v & A & B & C & D). exists e, v. auto.
  Qed.
  Lemma no_string_terms b t : step_term Gamma b t TyS -> no_str t = true -> False.
  Proof.
    intro T. remember TyS as k. induction T as [b x k G N| | | |]; subst; try discriminate; auto. intros _. apply (NoS x G).
  Qed.
  Lemma formula_reads b t : step_formula Gamma b t -> forall x, no_str t = true -> gr1c_flatten gr1c_opmap b t = Ok x ->
    exists e c, gatom x e /\ gval (s i) (s (S i)) e = Some (VB c) /\ (c = true <-> holds s (at_ b) t).
  Proof.
    induction 1 as [b x G N|b v I|b a T IH|a T IH|b op l r O L IHl R IHr|b op l r k O L R|b op l r O L R]; intros y NS F;
      cbn [no_str] in NS; rewrite ?andb_true_iff in NS.
    - destruct (term_reads b (NVar x) TyB (st_var _ b _ _ G N) y eq_refl F) as (e & v & A & B & C & c & ->).
      exists e, c. split; [auto|]. split; [auto|]. cbn [holds]. cbn [term_val] in C. inversion C as [D]. rewrite D.
      split; [intros ->|intro K; inversion K]; auto.
    - destruct (term_reads b (NBool v) TyB (st_const _ b _ I) y eq_refl F) as (e & w & A & B & C & c & ->).
      exists e, c. split; [auto|]. split; [auto|]. cbn [holds]. cbn [term_val] in C. inversion C as [D]. apply String.eqb_eq.
    - cbn in F. destruct (gr1c_flatten gr1c_opmap b a) as [x|] eqn:E; [|discriminate]. cbn [bind] in F. apply Ok_inj in F. subst y.
      destruct (IH x NS eq_refl) as (e & c & A & B & C). exists (GNot e), (negb c). split; [apply gatom_not; auto|]. cbn [gval]. rewrite B.
      split; [reflexivity|]. cbn [holds uconn_of String.eqb Ascii.eqb Bool.eqb andb orb]. rewrite <- C. destruct c; cbn; intuition congruence.
    - cbn [gr1c_flatten String.eqb Ascii.eqb Bool.eqb andb] in F. destruct (IH y NS F) as (e & c & A & B & C). exists e, c. auto.
    - cbn [gr1c_flatten] in F. destruct (lookup op gr1c_opmap) as [o|] eqn:E; [|discriminate]. cbn [of_opt bind] in F.
      destruct (gr1c_flatten gr1c_opmap b l) as [xl|] eqn:El; [|discriminate]. cbn [bind] in F.
      destruct (gr1c_flatten gr1c_opmap b r) as [xr|] eqn:Er; [|discriminate]. cbn [bind] in F. apply Ok_inj in F. subst y.
      destruct NS as [N1 N2]. destruct (IHl xl N1 eq_refl) as (el & cl & A1 & A2 & A3). destruct (IHr xr N2 eq_refl) as (er & cr & B1 & B2 & B3).
      rewrite sp_infix. cbn [holds]. exists (GOp op el er).
      assert (Q : exists c, gr_logic op cl cr = Some c /\ (c = true <-> match conn_of op with Some CAnd => holds s (at_ b) l /\ holds s (at_ b) r
        | Some COr => holds s (at_ b) l \/ holds s (at_ b) r | Some CImp => holds s (at_ b) l -> holds s (at_ b) r
        | Some CIff => holds s (at_ b) l <-> holds s (at_ b) r | _ => False end) /\ o = op).
      { destruct O as [<-|[<-|[<-|[<-|[]]]]]; cbn in E; inversion E; cbn; eexists; (split; [reflexivity|split; [|reflexivity]]);
          rewrite <- A3, <- B3; destruct cl, cr; cbn; intuition congruence. }
      destruct Q as (c & Q1 & Q2 & ->). exists c. split; [|split].
      + apply gatom_op; auto; destruct O as [<-|[<-|[<-|[<-|[]]]]]; try wlit; try reflexivity; discriminate.
      + cbn [gval]. rewrite A2, B2, Q1. reflexivity.
      + rewrite Q2. destruct O as [<-|[<-|[<-|[<-|[]]]]]; cbn; tauto.
    - cbn [gr1c_flatten] in F. destruct (lookup op gr1c_opmap) as [o|] eqn:E; [|discriminate]. cbn [of_opt bind] in F.
      destruct (gr1c_flatten gr1c_opmap b l) as [xl|] eqn:El; [|discriminate]. cbn [bind] in F.
      destruct (gr1c_flatten gr1c_opmap b r) as [xr|] eqn:Er; [|discriminate]. cbn [bind] in F. apply Ok_inj in F. subst y.
      destruct NS as [N1 N2]. destruct (term_reads _ _ _ L xl N1 El) as (el & vl & A1 & A2 & A3 & A4).
      destruct (term_reads _ _ _ R xr N2 Er) as (er & vr & B1 & B2 & B3 & B4).
      rewrite sp_infix. cbn [holds]. rewrite A3, B3. exists (GOp op el er).
      assert (Q : exists c, match vl, vr with VB x, VB y => gr_logic op x y | VZ x, VZ y => gr_order op x y | _, _ => None end = Some c /\
         (c = true <-> compare_vals op vl vr) /\ o = op).
      { destruct k; destruct A4 as [x ->], B4 as [y ->].
        - destruct O as [<-|[<-|[]]]; cbn in E; inversion E; cbn; eexists; (split; [reflexivity|split; [|reflexivity]]);
            destruct x, y; cbn; intuition congruence.
        - destruct O as [<-|[<-|[]]]; cbn in E; inversion E; cbn; eexists; (split; [reflexivity|split; [|reflexivity]]);
            destruct (Z.eqb_spec x y); cbn; intuition congruence.
        - exfalso. apply (no_string_terms _ _ L N1). }
      destruct Q as (c & Q1 & Q2 & ->). exists c. split; [|split].
      + apply gatom_op; auto; destruct O as [<-|[<-|[]]]; try wlit; try reflexivity; discriminate.
      + cbn [gval]. rewrite A2, B2. destruct vl, vr; try discriminate; rewrite Q1; reflexivity.
      + exact Q2.
    - cbn [gr1c_flatten] in F. destruct (lookup op gr1c_opmap) as [o|] eqn:E; [|discriminate]. cbn [of_opt bind] in F.
      destruct (gr1c_flatten gr1c_opmap b l) as [xl|] eqn:El; [|discriminate]. cbn [bind] in F.
      destruct (gr1c_flatten gr1c_opmap b r) as [xr|] eqn:Er; [|discriminate]. cbn [bind] in F. apply Ok_inj in F. subst y.
      destruct NS as [N1 N2]. destruct (term_reads _ _ _ L xl N1 El) as (el & vl & A1 & A2 & A3 & zl & ->).
      destruct (term_reads _ _ _ R xr N2 Er) as (er & vr & B1 & B2 & B3 & zr & ->).
      rewrite sp_infix. cbn [holds]. rewrite A3, B3. exists (GOp op el er).
      assert (Q : exists c, gr_order op zl zr = Some c /\ (c = true <-> compare_vals op (VZ zl) (VZ zr)) /\ o = op).
      { destruct O as [<-|[<-|[<-|[<-|[]]]]]; cbn in E; inversion E; cbn; eexists; (split; [reflexivity|split; [|reflexivity]]).
        - apply Z.ltb_lt. - apply Z.leb_le. - rewrite Z.ltb_lt. lia. - rewrite Z.leb_le. lia. }
      destruct Q as (c & Q1 & Q2 & ->). exists c. split; [|split].
      + apply gatom_op; auto; destruct O as [<-|[<-|[<-|[<-|[]]]]]; try wlit; try reflexivity; discriminate.
      + cbn [gval]. rewrite A2, B2, Q1. reflexivity.
      + exact Q2.
  Qed.
End meaning.

Lemma gatom_text x e : gatom x e -> gr_text x = Some e.
Proof.
  intros (ws & L & _ & R). unfold gr_text. specialize (L [] I). rewrite app_nil_r in L. rewrite L. cbn [words flush]. change (flush "") with (@nil string).
  rewrite app_nil_r. specialize (R (S (List.length ws)) [] ltac:(lia)). rewrite app_nil_r in R. rewrite R. reflexivity.
Qed.
(** A trace of the types of the variables. *)
Definition default_trace (Gamma : types) : trace := fun _ x =>
  match Gamma x with Some TyB => VB false | Some TyS => VS "" | _ => VZ 0 end.
Lemma default_respects Gamma i : respects Gamma (default_trace Gamma i).
Proof. intros x k G. unfold default_trace. rewrite G. destruct k; cbn; eauto. Qed.
Lemma clause_reads Gamma t x : (forall v, Gamma v <> Some TyS) -> step_formula Gamma false t -> no_str t = true ->
  gr1c_flatten gr1c_opmap false t = Ok x ->
  exists e, gatom x e /\ forall s i, respects Gamma (s i) -> respects Gamma (s (S i)) ->
    exists c, gval (s i) (s (S i)) e = Some (VB c) /\ (c = true <-> holds s i t).
Proof.
  intros NS W N F.
  destruct (formula_reads Gamma (default_trace Gamma) 0 (default_respects _ _) (default_respects _ _) NS false t W x N F) as (e & _ & A & _).
  exists e. split; [exact A|]. intros s i R0 R1.
  destruct (formula_reads Gamma s i R0 R1 NS false t W x N F) as (e' & c & A' & B & C).
  apply gatom_text in A, A'. assert (e' = e) by congruence. subst e'. eauto.
Qed.
Lemma enc_step_term fv Gamma b t k : step_term Gamma b t k -> forall ctx u, enc fv ctx t = Some u -> step_term (int_types Gamma) b u (int_ty k).
Proof.
  induction 1 as [b x k G N|b v I|b v N|b v|a k T IH]; intros ctx u H; cbn [enc] in H.
  - inversion H; subst. constructor; auto. unfold int_types. rewrite G. reflexivity.
  - inversion H; subst. apply st_const. auto.
  - inversion H; subst. apply st_num. auto.
  - unfold enc_const in H. destruct ctx as [w|]; [|discriminate]. destruct (is_term _); [|discriminate].
    destruct (lookup _ _); [|discriminate]. destruct (index_of _ _); [|discriminate]. inversion H; subst. apply st_num, str_nat_number.
  - destruct (enc _ _ a) eqn:E; [|discriminate]. inversion H; subst. apply st_next. eauto.
Qed.
Lemma enc_step fv Gamma b t : step_formula Gamma b t -> forall ctx u, enc fv ctx t = Some u -> step_formula (int_types Gamma) b u.
Proof.
  induction 1 as [b x G N|b v I|b a T IH|a T IH|b op l r O L IHl R IHr|b op l r k O L R|b op l r O L R]; intros ctx u H; cbn [enc] in H.
  - inversion H; subst. constructor; auto. unfold int_types. rewrite G. reflexivity.
  - inversion H; subst. constructor. auto.
  - destruct (enc _ _ a) eqn:E; [|discriminate]. inversion H; subst. constructor. eauto.
  - destruct (enc _ _ a) eqn:E; [|discriminate]. inversion H; subst. constructor. eauto.
  - destruct (enc _ _ l) eqn:El; [|discriminate]. destruct (enc _ _ r) eqn:Er; [|discriminate]. inversion H; subst. constructor; eauto.
  - destruct (enc _ _ l) eqn:El; [|discriminate]. destruct (enc _ _ r) eqn:Er; [|discriminate]. inversion H; subst.
    eapply sf_eq; [auto|eapply enc_step_term; [exact L|exact El]|eapply enc_step_term; [exact R|exact Er]].
  - destruct (enc _ _ l) eqn:El; [|discriminate]. destruct (enc _ _ r) eqn:Er; [|discriminate]. inversion H; subst.
    apply sf_cmp; [auto|apply (enc_step_term _ _ _ _ _ L _ _ El)|apply (enc_step_term _ _ _ _ _ R _ _ Er)].
Qed.
Lemma int_types_no_string Gamma v : int_types Gamma v <> Some TyS.
Proof. unfold int_types. destruct (Gamma v) as [[]|]; discriminate. Qed.
Lemma oneof_In op l : oneof op l = true -> In op l.
Proof. apply (mem_In op l). Qed.
Lemma gr1c_supported_iff t : wf_node t = true -> forall p, (exists x, gr1c_flatten gr1c_opmap p t = Ok x) <-> gr_supported t = true.
Proof.
  induction t as [v|v|v|v|op a IH|op l IHl r IHr|op l IHl r IHr|op l IHl r IHr|op a IHa b IHb c IHc]; intros W p; cbn [wf_node] in W; cbn [gr1c_flatten gr_supported].
  1,3,4: split; eauto.
  - apply oneof_In in W. destruct W as [<-|[<-|[]]]; cbn; split; eauto.
  - apply andb_true_iff in W. destruct W as [O W]. apply oneof_In in O.
    destruct O as [<-|[<-|[<-|[<-|[<-|[]]]]]]; cbn [existsb String.eqb Ascii.eqb Bool.eqb andb orb lookup gr1c_opmap of_opt bind];
      try (split; [intros [x E]; discriminate|discriminate]);
      try (apply (IH W true));
      (rewrite <- (IH W p); destruct (gr1c_flatten gr1c_opmap p a); cbn [bind]; split; intros [x E]; eauto; discriminate).
  - rewrite !andb_true_iff in W. destruct W as [[O Wl] Wr]. apply oneof_In in O.
    rewrite !andb_true_iff, <- (IHl Wl p), <- (IHr Wr p).
    destruct O as [<-|[<-|[<-|[<-|[<-|[<-|[<-|[<-|[<-|[<-|[]]]]]]]]]]]; cbn [existsb String.eqb Ascii.eqb Bool.eqb andb orb lookup gr1c_opmap of_opt bind];
      try (split; [intros [x E]; discriminate|intros [[E _] _]; discriminate]);
      (destruct (gr1c_flatten gr1c_opmap p l); cbn [bind]; [destruct (gr1c_flatten gr1c_opmap p r); cbn [bind]|];
       (split; [intros [x E]|intros [[_ [x E]] [y E']]]); try discriminate; eauto 6).
  - rewrite !andb_true_iff in W. destruct W as [[O Wl] Wr]. apply oneof_In in O.
    rewrite !andb_true_iff, <- (IHl Wl p), <- (IHr Wr p).
    destruct O as [<-|[<-|[<-|[<-|[<-|[<-|[<-|[<-|[]]]]]]]]]; cbn [existsb String.eqb Ascii.eqb Bool.eqb andb orb lookup gr1c_opmap of_opt bind];
      try (split; [intros [x E]; discriminate|intros [[E _] _]; discriminate]);
      (destruct (gr1c_flatten gr1c_opmap p l); cbn [bind]; [destruct (gr1c_flatten gr1c_opmap p r); cbn [bind]|];
       (split; [intros [x E]|intros [[_ [x E]] [y E']]]); try discriminate; eauto 6).
  - split; [|discriminate]. rewrite !andb_true_iff in W. destruct W as [[O _] _]. apply orb_true_iff in O.
    intros [x E]. exfalso. destruct O as [O|O].
    + apply oneof_In in O. destruct O as [<-|[<-|[<-|[<-|[]]]]]; discriminate.
    + apply andb_true_iff in O. destruct O as [O _]. apply String.eqb_eq in O. subst op. discriminate.
  - split; [intros [x E]|]; discriminate.
Qed.

(** * Sections *)
Definition pcase (pfx : string) (pw : list string) : Prop :=
  (pfx, pw) = ("", []) \/ (pfx, pw) = ("[]", always_prefix) \/ (pfx, pw) = ("[]<>", recurrence_prefix).
Fixpoint sec_words (pw : list string) (items : list (list string)) : list string :=
  match items with
  | [] => []
  | [ws] => pw ++ "(" :: ws ++ [")"]
  | ws :: r => (pw ++ "(" :: ws ++ [")"]) ++ "&" :: sec_words pw r
  end.
Lemma item_lex pfx pw x ws : pcase pfx pw -> wlex x ws -> wlex_any (pfx ++ "(" ++ x ++ ")") (pw ++ "(" :: ws ++ [")"]).
Proof.
  intros P W. assert (T : wlex_any (x ++ ")") (ws ++ [")"])) by (apply wend; auto; [reflexivity|discriminate|wlit]).
  destruct P as [E|[E|E]]; inversion E; subst.
  - apply (wany_app "(" ["("]); [wlit|auto].
  - apply (wany_app "[](" ["["; "]"; "("]); [wlit|auto].
  - apply (wany_app "[]<>(" ["["; "]"; "<>"; "("]); [wlit|auto].
Qed.
Lemma sec_lex pfx pw : pcase pfx pw -> forall xs items, Forall2 wlex xs items -> xs <> [] ->
  wlex_any (join (nl ++ "& ") (map (fun x => pfx ++ "(" ++ x ++ ")")%string xs)) (sec_words pw items).
Proof.
  intros P xs items F. induction F as [|x ws xs items W F IH]; [congruence|]. intros _. destruct F as [|x' ws' xs items W' F].
  - cbn [map join sec_words]. apply item_lex; auto.
  - change (sec_words pw (ws :: ws' :: items)) with ((pw ++ "(" :: ws ++ [")"]) ++ ["&"] ++ sec_words pw (ws' :: items)).
    change (join (nl ++ "& ") (map (fun x => pfx ++ "(" ++ x ++ ")")%string (x :: x' :: xs))) with
      ((pfx ++ "(" ++ x ++ ")") ++ (nl ++ "& ") ++ join (nl ++ "& ") (map (fun x => pfx ++ "(" ++ x ++ ")") (x' :: xs)))%string.
    apply wany_app; [apply item_lex; auto|]. apply wany_app; [wlit|]. apply IH. discriminate.
Qed.
Lemma strip_app p q : strip p (p ++ q) = Some q.
Proof. induction p as [|a p IH]; cbn; [reflexivity|]. rewrite String.eqb_refl. exact IH. Qed.
Lemma sec_read pw : forall items es, Forall2 reads items es -> items <> [] -> forall f rest,
  List.length (sec_words pw items) < f -> gr_conjuncts f pw (sec_words pw items ++ ";" :: rest) = Some (es, rest).
Proof.
  intros items es F. induction F as [|ws e items es R F IH]; [congruence|]. intros _ f rest L. destruct f as [|f]; [lia|].
  pose proof (reads_paren _ _ R) as [_ RP]. destruct F as [|ws' e' items es R' F].
  - cbn [sec_words] in *. rewrite app_length in L. cbn [gr_conjuncts]. rewrite <- app_assoc, strip_app.
    rewrite RP by lia. reflexivity.
  - change (sec_words pw (ws :: ws' :: items)) with ((pw ++ "(" :: ws ++ [")"]) ++ "&" :: sec_words pw (ws' :: items)) in *.
    rewrite !app_length in L. cbn [List.length] in L. rewrite app_length in L. cbn [List.length] in L. cbn [gr_conjuncts].
    rewrite <- !app_assoc, strip_app.
    rewrite RP by (cbn [List.length]; rewrite app_length; cbn [List.length]; lia).
    cbn [app]. change ("&" =? ";")%string with false. change ("&" =? "&")%string with true. cbv iota.
    rewrite IH; [reflexivity|discriminate|lia].
Qed.
Lemma gatoms_split xs es : Forall2 gatom xs es -> exists items, Forall2 wlex xs items /\ Forall2 reads items es.
Proof.
  induction 1 as [|x e xs es (ws & A & B) F (items & C & D)]; [exists []; split; constructor|]. exists (ws :: items). split; constructor; auto.
Qed.
Lemma section_ok name pfx pw xs es :
  pcase pfx pw ->
  wlex_any (name ++ ": ") [name; ":"] -> wlex_any (name ++ ":;" ++ nl) [name; ":"; ";"] ->
  Forall2 gatom xs es ->
  exists ws, wlex_any (gr1c_str xs name pfx) ws /\ forall rest, gr_section name pw (ws ++ rest) = Some (es, rest).
Proof.
  intros P N1 N2 F. destruct (gatoms_split _ _ F) as (items & L & R). destruct xs as [|x xs].
  - inversion F; subst. exists [name; ":"; ";"]. split; [exact N2|]. intro rest. unfold gr_section. cbn [app strip]. rewrite !String.eqb_refl. reflexivity.
  - exists ([name; ":"] ++ sec_words pw items ++ [";"]). split.
    + unfold gr1c_str. replace (name ++ ": " ++ join (nl ++ "& ") (map (fun x0 => pfx ++ "(" ++ x0 ++ ")") (x :: xs)) ++ ";" ++ nl)%string
        with ((name ++ ": ") ++ join (nl ++ "& ") (map (fun x0 => pfx ++ "(" ++ x0 ++ ")") (x :: xs)) ++ ";" ++ nl)%string by apply str_assoc.
      apply wany_app; [exact N1|]. apply wany_app; [apply sec_lex; auto; discriminate|wlit].
    + intro rest. unfold gr_section. rewrite <- app_assoc, strip_app, <- app_assoc. cbn [app].
      assert (NE : items <> []) by (inversion L; discriminate).
      assert (E : expect ";" (sec_words pw items ++ ";" :: rest) = None).
      { destruct items as [|i items]; [congruence|].
        destruct P as [E|[E|E]]; inversion E; subst; destruct items; reflexivity. }
      rewrite E. apply sec_read; auto. rewrite app_length. cbn. lia.
Qed.

(** * Declarations *)
Lemma join_cons x r : join "" (x :: r) = (x ++ join "" r)%string.
Proof. destruct r; cbn; [clear; induction x; cbn; congruence|reflexivity]. Qed.
Lemma str_Z_number z : number_text (str_Z z) = true /\ num_text (str_Z z) = Some z.
Proof.
  unfold str_Z. destruct (Z.ltb_spec z 0).
  - pose proof (str_nat_numeral (Z.to_nat (- z))) as N. pose proof (num_text_str_nat (Z.to_nat (-z))) as V. rewrite num_text_numeral in V by auto. split; [exact N|].
    destruct (str_nat (Z.to_nat (- z))) as [|c r]; [discriminate|]. cbn [append]. unfold num_text. rewrite V. cbn. f_equal. lia.
  - split; [apply str_nat_number|]. rewrite num_text_str_nat. f_equal. lia.
Qed.
Definition decl_words (kv : string * dom) : list string :=
  match gr_dom (snd kv) with GB => [fst kv] | GRange a b => [fst kv; "["; str_Z a; ","; str_Z b; "]"] end.
Lemma name_lex w : gr_name w = true -> wlex w [w].
Proof.
  intro N. destruct (name_parts w N) as (c & r & E & L & W & R). apply plain_lex; [|subst; discriminate].
  apply (forallb_imp _ _ _ word_char_plain W).
Qed.
Lemma num_lex z : wlex (str_Z z) [str_Z z].
Proof. destruct (str_Z_number z) as [N _]. destruct (number_plain _ N) as (P & NE & _). apply plain_lex; auto. Qed.
Lemma decl_range x a b : gr_name x = true -> wlex_any (x ++ " [" ++ str_Z a ++ ", " ++ str_Z b ++ "]") [x; "["; str_Z a; ","; str_Z b; "]"].
Proof.
  intro N. apply (wtext x [x] " [" _ ["["; str_Z a; ","; str_Z b; "]"]); [apply name_lex; auto|reflexivity|discriminate|].
  apply (wany_app " [" ["["]); [wlit|]. apply (wtext (str_Z a) [str_Z a] ", " _ [","; str_Z b; "]"]); [apply num_lex|reflexivity|discriminate|].
  apply (wany_app ", " [","]); [wlit|]. apply (wend (str_Z b) [str_Z b] "]" ["]"]); [apply num_lex|reflexivity|discriminate|wlit].
Qed.
Lemma decl_lex kv x : gr_name (fst kv) = true -> gr1c_var kv = Ok x -> wlex x (decl_words kv) /\ delim_start (chars x) /\ x <> "".
Proof.
  destruct kv as [v d]. unfold gr1c_var, decl_words. cbn [fst snd]. intros N H. destruct d as [|a b|l].
  - apply Ok_inj in H. subst x. split; [|split; [reflexivity|discriminate]]. apply (wlit_lex " " []); [wlit|apply name_lex; auto].
  - apply Ok_inj in H. subst x. split; [|split; [reflexivity|discriminate]]. apply wany_lex. apply (wany_app " " []); [wlit|apply decl_range; auto].
  - destruct l as [|y l]; [discriminate|]. apply Ok_inj in H. subst x. split; [|split; [reflexivity|discriminate]].
    apply wany_lex. apply (wany_app " " []); [wlit|apply decl_range; auto].
Qed.
Lemma decls_lex : forall d xs, mapr gr1c_var d = Ok xs -> (forall kv, In kv d -> gr_name (fst kv) = true) ->
  wlex_any (join "" xs ++ ";" ++ nl) (flat_map decl_words d ++ [";"]) /\ delim_start (chars (join "" xs ++ ";" ++ nl)%string).
Proof.
  induction d as [|kv d IH]; intros xs H N; cbn [mapr] in H.
  - apply Ok_inj in H. subst xs. split; [wlit|reflexivity].
  - destruct (gr1c_var kv) as [x|] eqn:E; [|discriminate]. cbn [bind] in H. destruct (mapr gr1c_var d) as [r|]; [|discriminate].
    cbn [bind] in H. apply Ok_inj in H. subst xs. destruct (IH r eq_refl) as [A B]; [intros; apply N; right; auto|].
    destruct (decl_lex kv x (N kv (or_introl eq_refl)) E) as (C & D & NE). rewrite join_cons, str_assoc.
    cbn [flat_map]. rewrite <- app_assoc. split.
    + apply wend; auto. destruct (join "" r); discriminate.
    + destruct x; [congruence|]. exact D.
Qed.
Lemma name_not_punct x : gr_name x = true -> (x =? "[")%string = false /\ (x =? ";")%string = false.
Proof. intro N. destruct (name_parts x N) as (c & r & -> & L & _). split; destruct r; destruct c as [[] [] [] [] [] [] [] []]; vm_compute in L |- *; congruence. Qed.
Lemma range_none w r : (w =? "[")%string = false -> gr_range (w :: r) = (GB, w :: r).
Proof. intro H. unfold gr_range. destruct r as [|a [|c [|b [|e r]]]]; auto. rewrite H. reflexivity. Qed.
Lemma decls_read : forall d f rest, (forall kv, In kv d -> gr_name (fst kv) = true) -> List.length d < f ->
  gr_decls f (flat_map decl_words d ++ ";" :: rest) = Some (map (fun kv => (fst kv, gr_dom (snd kv))) d, rest).
Proof.
  induction d as [|[v t] d IH]; intros f rest N L; destruct f as [|f]; try (cbn in L; lia); [reflexivity|].
  pose proof (N _ (or_introl eq_refl)) as Nv. cbn [fst] in Nv. destruct (name_not_punct v Nv) as [_ P2].
  assert (IH' : gr_decls f (flat_map decl_words d ++ ";" :: rest) = Some (map (fun kv => (fst kv, gr_dom (snd kv))) d, rest)).
  { apply IH; [intros; apply N; right; auto|cbn in L; lia]. }
  assert (HB : gr_range (flat_map decl_words d ++ ";" :: rest) = (GB, flat_map decl_words d ++ ";" :: rest)).
  { destruct d as [|[v' t'] d]; [apply range_none; reflexivity|]. pose proof (N _ (or_intror (or_introl eq_refl))) as N'. cbn [fst] in N'.
    cbn [flat_map]. unfold decl_words at 1 3. cbn [fst snd]. destruct (gr_dom t'); cbn [app]; apply range_none, name_not_punct; auto. }
  cbn [flat_map map fst snd]. rewrite <- app_assoc. unfold decl_words at 1. cbn [fst snd]. destruct (gr_dom t) as [|a b]; cbn [app gr_decls]; rewrite P2, Nv.
  - rewrite HB. cbn [fst snd]. rewrite IH'. reflexivity.
  - cbn [gr_range String.eqb Ascii.eqb Bool.eqb andb]. destruct (str_Z_number a) as [_ ->], (str_Z_number b) as [_ ->]. cbn [fst snd]. rewrite IH'. reflexivity.
Qed.
Lemma decls_len d : List.length d <= List.length (flat_map decl_words d).
Proof. induction d as [|kv d IH]; cbn; [lia|]. rewrite app_length. unfold decl_words at 1. destruct (gr_dom (snd kv)); cbn; lia. Qed.
Lemma var_section_ok name d x : gr1c_vars d = Ok x -> (forall kv, In kv d -> gr_name (fst kv) = true) -> wlex_any (name ++ ":") [name; ":"] ->
  exists ws, wlex_any (name ++ ":" ++ x ++ ";" ++ nl) ws /\
    forall rest, gr_var_section name (ws ++ rest) = Some (map (fun kv => (fst kv, gr_dom (snd kv))) d, rest).
Proof.
  intros H N L. unfold gr1c_vars in H. destruct (mapr gr1c_var d) as [xs|] eqn:E; [|discriminate]. cbn [bind] in H. apply Ok_inj in H. subst x.
  exists ([name; ":"] ++ flat_map decl_words d ++ [";"]). split.
  - rewrite <- str_assoc. apply wany_app; [auto|]. apply (decls_lex _ _ E N).
  - intro rest. unfold gr_var_section. rewrite <- app_assoc, strip_app, <- app_assoc. apply decls_read; auto.
    rewrite app_length. pose proof (decls_len d). lia.
Qed.
