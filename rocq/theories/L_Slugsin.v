(** Proofs: the slugs document is read as the specification. *)
From Coq Require Import List String Ascii Bool Arith ZArith Lia.
From Verif Require Import M_Base M_Ast M_Lexer M_Parser M_Spec M_Form M_Tree M_Gr1c.
From Verif Require Import S_LTL S_Gr1 S_Form S_Syntax S_Tree S_Python S_Gr1c.
From Verif Require Import L_LTL L_Gr1 L_Form L_Dec L_Encode L_Python L_Gr1c M_Slugsin S_Slugsin.
From Verif Require L_Machine.
Import ListNotations.
Open Scope string_scope.
Open Scope list_scope.
Open Scope nat_scope.

(** * Words *)
Definition sdelim (c : ascii) : bool := sl_blank c || sl_punct c.
Definition sdelim_start (rest : list ascii) : Prop := match rest with [] => True | c :: _ => sdelim c = true end.
Definition slex (s : string) (ws : list string) : Prop :=
  forall rest, sdelim_start rest -> sl_words (chars s ++ rest) "" = ws ++ sl_words rest "".
Definition slex_any (s : string) (ws : list string) : Prop :=
  forall rest, sl_words (chars s ++ rest) "" = ws ++ sl_words rest "".
Lemma sany_lex s ws : slex_any s ws -> slex s ws.
Proof. intros H rest _. apply H. Qed.
Lemma sany_app a wa b wb : slex_any a wa -> slex_any b wb -> slex_any (a ++ b) (wa ++ wb).
Proof. intros A B rest. rewrite chars_app, <- app_assoc, A, B, app_assoc. reflexivity. Qed.
Lemma stext a wa l b wb : slex a wa -> sdelim_start (chars l) -> l <> "" -> slex_any (l ++ b) wb -> slex_any (a ++ l ++ b) (wa ++ wb).
Proof.
  intros A N NE B rest. rewrite chars_app, <- app_assoc, A, B, app_assoc; [reflexivity|]. destruct l; [congruence|exact N].
Qed.
Lemma send a wa l wb : slex a wa -> sdelim_start (chars l) -> l <> "" -> slex_any l wb -> slex_any (a ++ l) (wa ++ wb).
Proof.
  intros A N NE B rest. rewrite chars_app, <- app_assoc, A, B, app_assoc; [reflexivity|]. destruct l; [congruence|exact N].
Qed.
Definition splain (w : string) : bool := forallb (fun c => negb (sdelim c)) (chars w).
Lemma swords_plain w rest : forall acc, splain w = true -> sl_words (chars w ++ rest) acc = sl_words rest (acc ++ w)%string.
Proof.
  unfold splain. induction w as [|c w IH]; intros acc H; cbn [list_ascii_of_string app].
  - f_equal. clear. induction acc; cbn; congruence.
  - cbn [list_ascii_of_string forallb] in H. apply andb_true_iff in H. destruct H as [H1 H2]. cbn [sl_words].
    apply negb_true_iff, orb_false_iff in H1. destruct H1 as [-> ->]. rewrite IH by auto. f_equal. clear. induction acc; cbn; congruence.
Qed.
Lemma splain_lex w : splain w = true -> w <> "" -> slex w [w].
Proof.
  intros P NE rest D. rewrite swords_plain by auto. cbn [append]. assert (F : flush w = [w]).
  { unfold flush. destruct (w =? "")%string eqn:E; [apply String.eqb_eq in E; congruence|reflexivity]. }
  destruct rest as [|c r]; cbn [sl_words]; [exact F|]. cbn in D. unfold sdelim in D. apply orb_true_iff in D.
  destruct (sl_blank c) eqn:B; [rewrite F; reflexivity|]. destruct D as [D|D]; [discriminate|]. rewrite D, F. reflexivity.
Qed.
Ltac slit := let r := fresh in intro r; reflexivity.

(** * Expressions *)
Definition sreads (ws : list string) (e : gexp) : Prop :=
  ws <> [] /\ forall f rest, List.length ws <= f -> sl_expr f (ws ++ rest) = Some (e, rest).
Lemma sreads_not ws e : sreads ws e -> sreads ("(" :: "!" :: ws ++ [")"]) (GNot e).
Proof.
  intros [N H]. split; [discriminate|]. intros f rest L. destruct f as [|f]; [cbn in L; lia|]. cbn [app sl_expr]. norm.
  cbn [List.length] in L. rewrite app_length in L. cbn [List.length] in L. cbn [expect String.eqb Ascii.eqb Bool.eqb andb].
  rewrite H by lia. reflexivity.
Qed.
Lemma sreads_no_bang ws e : sreads ws e -> no_bang ws.
Proof.
  intros [N H]. destruct ws as [|w ws]; [congruence|]. cbn. intros ->.
  specialize (H (S (List.length ws)) [] ltac:(cbn; lia)). cbn in H. discriminate.
Qed.
Lemma sreads_op wa a op wb b : sreads wa a -> sreads wb b -> op <> ")" -> sreads ("(" :: wa ++ op :: wb ++ [")"]) (GOp op a b).
Proof.
  intros A B O. pose proof (sreads_no_bang _ _ A) as NB. destruct A as [_ A], B as [_ B].
  split; [discriminate|]. intros f rest L. destruct f as [|f]; [cbn in L; lia|].
  cbn [List.length] in L. rewrite app_length in L. cbn [List.length] in L. rewrite app_length in L. cbn [List.length] in L.
  norm. cbn [sl_expr expect String.eqb Ascii.eqb Bool.eqb andb]. rewrite expect_bang by auto. rewrite A by lia.
  destruct (String.eqb_spec op ")"); [congruence|]. rewrite B by lia. reflexivity.
Qed.
Lemma sreads_atom w e : w <> "(" -> sl_atom w = Some e -> sreads [w] e.
Proof.
  intros N A. split; [discriminate|]. intros f rest L. destruct f as [|f]; [cbn in L; lia|]. cbn [app sl_expr expect].
  destruct (String.eqb_spec w "("); [congruence|]. rewrite A. reflexivity.
Qed.
(** The first word is neither the end of a line nor a bracket. *)
Definition sfirst (ws : list string) : Prop := match ws with [] => False | w :: _ => w <> newline /\ w <> "[" end.
Lemma sreads_first ws e : sreads ws e -> sfirst ws.
Proof.
  intros [N H]. destruct ws as [|w ws]; [congruence|]. specialize (H (S (List.length ws)) [] ltac:(cbn; lia)). cbn [app sl_expr] in H.
  split; intros ->; cbn in H; discriminate.
Qed.

(** A text that is read as an expression, and is not empty. *)
Definition satom (s : string) (e : gexp) : Prop := s <> "" /\ exists ws, slex s ws /\ sreads ws e.
Lemma satom_word w e : splain w = true -> w <> "" -> w <> "(" -> sl_atom w = Some e -> satom w e.
Proof. intros P N1 N2 A. split; [exact N1|]. exists [w]. split; [apply splain_lex; auto|apply sreads_atom; auto]. Qed.
Lemma satom_not s e : satom s e -> satom ("( ! " ++ s ++ " )") (GNot e).
Proof.
  intros (_ & ws & L & R). split; [discriminate|]. exists ("(" :: "!" :: ws ++ [")"]). split; [|apply sreads_not; auto]. apply sany_lex.
  change ("(" :: "!" :: ws ++ [")"]) with (["("; "!"] ++ ws ++ [")"]). apply sany_app; [slit|]. apply send; auto; [reflexivity|discriminate|slit].
Qed.
Lemma satom_op a ea b eb o op : satom a ea -> satom b eb -> slex_any o [op] -> sdelim_start (chars o) -> o <> "" -> op <> ")" ->
  satom ("( " ++ a ++ o ++ b ++ " )") (GOp op ea eb).
Proof.
  intros (_ & wa & LA & RA) (_ & wb & LB & RB) O D N NO. split; [discriminate|]. exists ("(" :: wa ++ op :: wb ++ [")"]). split; [|apply sreads_op; auto]. apply sany_lex.
  change ("(" :: wa ++ op :: wb ++ [")"]) with (["("] ++ wa ++ [op] ++ wb ++ [")"]). apply sany_app; [slit|].
  apply stext; auto. apply sany_app; [auto|]. apply send; auto; [reflexivity|discriminate|slit].
Qed.

(** ** Atoms *)
Lemma word_char_splain c : word_char c = true -> negb (sdelim c) = true.
Proof. destruct c as [[] [] [] [] [] [] [] []]; vm_compute; auto. Qed.
Lemma sname_parts w : sl_name w = true -> exists c r, w = String c r /\ is_letter c = true /\ forallb word_char (chars w) = true /\
  existsb (String.eqb w) ["TRUE"; "FALSE"] = false.
Proof.
  destruct w as [|c r]; [discriminate|]. unfold sl_name. rewrite !andb_true_iff, negb_true_iff. intros [[A B] C]. eauto 7.
Qed.
Lemma satom_name w (p : bool) : sl_name w = true -> satom (w ++ (if p then "'" else "")) (GVar w p).
Proof.
  intro N. destruct (sname_parts w N) as (c & r & E & L & W & R).
  assert (NN : number_text (w ++ (if p then "'" else "")) = false) by (rewrite E; apply letter_not_number; auto).
  assert (U : unprime (w ++ (if p then "'" else "")) = (w, p)).
  { destruct p; [apply unprime_prime; auto|]. replace (w ++ "")%string with w by (clear; induction w; cbn; congruence). apply unprime_plain; auto. }
  apply satom_word.
  - unfold splain. rewrite chars_app, forallb_app, (forallb_imp _ _ _ word_char_splain W). destruct p; reflexivity.
  - subst w. discriminate.
  - subst w. cbn [append]. intro Q. inversion Q; subst c. discriminate.
  - unfold sl_atom. rewrite NN, U. cbn [fst snd]. rewrite N.
    destruct (String.eqb_spec (w ++ (if p then "'" else "")) "TRUE") as [T|_].
    { exfalso. destruct p; [rewrite T in U; vm_compute in U; inversion U|]. rewrite T in U. vm_compute in U. inversion U as [U']. rewrite <- U' in N. vm_compute in N. discriminate N. }
    destruct (String.eqb_spec (w ++ (if p then "'" else "")) "FALSE") as [T|_].
    { exfalso. destruct p; [rewrite T in U; vm_compute in U; inversion U|]. rewrite T in U. vm_compute in U. inversion U as [U']. rewrite <- U' in N. vm_compute in N. discriminate N. }
    reflexivity.
Qed.
Lemma digit_sdelim c : digit c = true -> negb (sdelim c) = true.
Proof. destruct c as [[] [] [] [] [] [] [] []]; vm_compute; auto. Qed.
Lemma number_splain v : number_text v = true -> splain v = true /\ v <> "" /\ v <> "(" /\ v <> "TRUE" /\ v <> "FALSE".
Proof.
  intro H. repeat split; try (intros ->; discriminate). unfold splain.
  unfold number_text in H. destruct v as [|c r]; [discriminate|].
  assert (M : c = "-"%char /\ numeral r = true \/ numeral (String c r) = true).
  { destruct (ascii_dec c "-"); [subst; auto|]. right. destruct c as [[] [] [] [] [] [] [] []]; solve [auto|congruence]. }
  destruct M as [[-> N]|N].
  - cbn [list_ascii_of_string forallb]. destruct r as [|d r]; [discriminate|]. cbn [numeral] in N.
    rewrite (forallb_imp _ _ (chars (String d r)) digit_sdelim); [reflexivity|exact N].
  - apply (forallb_imp _ _ _ digit_sdelim). exact N.
Qed.
Lemma satom_num v z : number_text v = true -> num_text v = Some z -> satom v (GNum z).
Proof.
  intros N Z. destruct (number_splain v N) as (P & N1 & N2 & N3 & N4). apply satom_word; auto. unfold sl_atom.
  destruct (String.eqb_spec v "TRUE"); [congruence|]. destruct (String.eqb_spec v "FALSE"); [congruence|]. rewrite N, Z. reflexivity.
Qed.

(** ** The meaning of translated clauses *)
Section meaning.
  Variables (Gamma : types) (s : trace) (i : nat).
  Hypothesis H0 : respects Gamma (s i).
  Hypothesis H1 : respects Gamma (s (S i)).
  Let at_ (b : bool) : nat := if b then S i else i.
  Lemma sterm_reads b t k : sl_term Gamma b t k -> forall x, gr1c_flatten slugs_opmap b t = Ok x ->
    k <> TyS /\ exists e v, satom x e /\ sval (s i) (s (S i)) e = Some v /\ term_val s (at_ b) t = Some v /\ has_ty v k.
  Proof.
    induction 1 as [b x k G NS N|b v I|b v N|b op l r O L IHl R IHr|a k T IH]; intros y F; cbn [gr1c_flatten] in F.
    - apply Ok_inj in F. subst y. split; [exact NS|]. exists (GVar x b), (s (at_ b) x). split; [apply satom_name; auto|]. split.
      + destruct b; reflexivity.
      + split; [destruct b; reflexivity|]. destruct b; [apply (H1 _ _ G)|apply (H0 _ _ G)].
    - split; [discriminate|]. destruct I as [<-|[<-|[]]]; vm_compute in F; apply Ok_inj in F; subst y.
      + exists (GBool true), (VB true). split; [apply satom_word; try reflexivity; discriminate|]. cbn. eauto.
      + exists (GBool false), (VB false). split; [apply satom_word; try reflexivity; discriminate|]. cbn. eauto.
    - split; [discriminate|]. apply Ok_inj in F. subst y. destruct (number_num v N) as [z Z]. exists (GNum z), (VZ z). split; [apply satom_num; auto|].
      cbn. rewrite Z. cbn. eauto.
    - split; [discriminate|]. destruct (lookup op slugs_opmap) as [o|] eqn:E; [|discriminate]. cbn [of_opt bind] in F.
      destruct (gr1c_flatten slugs_opmap b l) as [xl|] eqn:El; [|discriminate]. cbn [bind] in F.
      destruct (gr1c_flatten slugs_opmap b r) as [xr|] eqn:Er; [|discriminate]. cbn [bind] in F. apply Ok_inj in F. subst y.
      destruct (IHl xl eq_refl) as (_ & el & vl & A1 & A2 & A3 & zl & ->). destruct (IHr xr eq_refl) as (_ & er & vr & B1 & B2 & B3 & zr & ->).
      rewrite sp_infix. exists (GOp op el er). cbn [term_val sval]. rewrite A2, A3, B2, B3.
      destruct O as [<-|[<-|[]]]; cbn in E; injection E as <-; eexists; (split; [apply satom_op; auto; try slit; try reflexivity; discriminate|]);
        (split; [reflexivity|]); (split; [reflexivity|cbn; eauto]).
    - cbn [String.eqb Ascii.eqb Bool.eqb andb] in F. destruct (IH y F) as (NS & e & v & A & B & C & D). split; [exact NS|]. exists e, v. auto.
  Qed.
  Lemma sformula_reads b t : sl_formula Gamma b t -> forall x, gr1c_flatten slugs_opmap b t = Ok x ->
    exists e c, satom x e /\ sval (s i) (s (S i)) e = Some (VB c) /\ (c = true <-> holds s (at_ b) t).
  Proof.
    induction 1 as [b x G N|b v I|b a T IH|a T IH|b op l r O L IHl R IHr|b op l r k O L R|b op l r O L R]; intros y F.
    - destruct (sterm_reads b (NVar x) TyB (slt_var _ b _ _ G ltac:(discriminate) N) y F) as (_ & e & v & A & B & C & c & ->).
      exists e, c. split; [auto|]. split; [auto|]. cbn [holds]. cbn [term_val] in C. inversion C as [D]. rewrite D.
      split; [intros ->|intro K; inversion K]; auto.
    - destruct (sterm_reads b (NBool v) TyB (slt_const _ b _ I) y F) as (_ & e & w & A & B & C & c & ->).
      exists e, c. split; [auto|]. split; [auto|]. cbn [holds]. cbn [term_val] in C. inversion C as [D]. apply String.eqb_eq.
    - cbn in F. destruct (gr1c_flatten slugs_opmap b a) as [x|] eqn:E; [|discriminate]. cbn [bind] in F. apply Ok_inj in F. subst y.
      destruct (IH x eq_refl) as (e & c & A & B & C). exists (GNot e), (negb c). split; [apply satom_not; auto|]. cbn [sval]. rewrite B.
      split; [reflexivity|]. cbn [holds uconn_of String.eqb Ascii.eqb Bool.eqb andb orb]. rewrite <- C. destruct c; cbn; intuition congruence.
    - cbn [gr1c_flatten String.eqb Ascii.eqb Bool.eqb andb] in F. destruct (IH y F) as (e & c & A & B & C). exists e, c. auto.
    - cbn [gr1c_flatten] in F. destruct (lookup op slugs_opmap) as [o|] eqn:E; [|discriminate]. cbn [of_opt bind] in F.
      destruct (gr1c_flatten slugs_opmap b l) as [xl|] eqn:El; [|discriminate]. cbn [bind] in F.
      destruct (gr1c_flatten slugs_opmap b r) as [xr|] eqn:Er; [|discriminate]. cbn [bind] in F. apply Ok_inj in F. subst y.
      destruct (IHl xl eq_refl) as (el & cl & A1 & A2 & A3). destruct (IHr xr eq_refl) as (er & cr & B1 & B2 & B3).
      rewrite sp_infix. cbn [holds]. exists (GOp op el er).
      assert (Q : exists c, gr_logic op cl cr = Some c /\ (c = true <-> match conn_of op with Some CAnd => holds s (at_ b) l /\ holds s (at_ b) r
        | Some COr => holds s (at_ b) l \/ holds s (at_ b) r | Some CImp => holds s (at_ b) l -> holds s (at_ b) r
        | Some CIff => holds s (at_ b) l <-> holds s (at_ b) r | _ => False end) /\ o = op).
      { destruct O as [<-|[<-|[<-|[<-|[]]]]]; cbn in E; inversion E; cbn; eexists; (split; [reflexivity|split; [|reflexivity]]);
          rewrite <- A3, <- B3; destruct cl, cr; cbn; intuition congruence. }
      destruct Q as (c & Q1 & Q2 & ->). exists c. split; [|split].
      + apply satom_op; auto; destruct O as [<-|[<-|[<-|[<-|[]]]]]; try slit; try reflexivity; discriminate.
      + cbn [sval]. rewrite A2, B2, Q1. reflexivity.
      + rewrite Q2. destruct O as [<-|[<-|[<-|[<-|[]]]]]; cbn; tauto.
    - cbn [gr1c_flatten] in F. destruct (lookup op slugs_opmap) as [o|] eqn:E; [|discriminate]. cbn [of_opt bind] in F.
      destruct (gr1c_flatten slugs_opmap b l) as [xl|] eqn:El; [|discriminate]. cbn [bind] in F.
      destruct (gr1c_flatten slugs_opmap b r) as [xr|] eqn:Er; [|discriminate]. cbn [bind] in F. apply Ok_inj in F. subst y.
      destruct (sterm_reads _ _ _ L xl El) as (NS & el & vl & A1 & A2 & A3 & A4).
      destruct (sterm_reads _ _ _ R xr Er) as (_ & er & vr & B1 & B2 & B3 & B4).
      rewrite sp_infix. cbn [holds]. rewrite A3, B3. exists (GOp op el er).
      assert (Q : exists c, match vl, vr with VB x, VB y => gr_logic op x y | VZ x, VZ y => gr_order op x y | _, _ => None end = Some c /\
         (c = true <-> compare_vals op vl vr) /\ o = op).
      { destruct k; [| |congruence]; destruct A4 as [x ->], B4 as [y ->].
        - destruct O as [<-|[<-|[]]]; cbn in E; inversion E; cbn; eexists; (split; [reflexivity|split; [|reflexivity]]);
            destruct x, y; cbn; intuition congruence.
        - destruct O as [<-|[<-|[]]]; cbn in E; inversion E; cbn; eexists; (split; [reflexivity|split; [|reflexivity]]);
            destruct (Z.eqb_spec x y); cbn; intuition congruence. }
      destruct Q as (c & Q1 & Q2 & ->). exists c. split; [|split].
      + apply satom_op; auto; destruct O as [<-|[<-|[]]]; try slit; try reflexivity; discriminate.
      + cbn [sval]. rewrite A2, B2. destruct vl, vr; try discriminate; rewrite Q1; destruct O as [<-|[<-|[]]]; reflexivity.
      + exact Q2.
    - cbn [gr1c_flatten] in F. destruct (lookup op slugs_opmap) as [o|] eqn:E; [|discriminate]. cbn [of_opt bind] in F.
      destruct (gr1c_flatten slugs_opmap b l) as [xl|] eqn:El; [|discriminate]. cbn [bind] in F.
      destruct (gr1c_flatten slugs_opmap b r) as [xr|] eqn:Er; [|discriminate]. cbn [bind] in F. apply Ok_inj in F. subst y.
      destruct (sterm_reads _ _ _ L xl El) as (_ & el & vl & A1 & A2 & A3 & zl & ->).
      destruct (sterm_reads _ _ _ R xr Er) as (_ & er & vr & B1 & B2 & B3 & zr & ->).
      rewrite sp_infix. cbn [holds]. rewrite A3, B3. exists (GOp op el er).
      assert (Q : exists c, gr_order op zl zr = Some c /\ (c = true <-> compare_vals op (VZ zl) (VZ zr)) /\ o = op).
      { destruct O as [<-|[<-|[<-|[<-|[]]]]]; cbn in E; inversion E; cbn; eexists; (split; [reflexivity|split; [|reflexivity]]).
        - apply Z.ltb_lt. - apply Z.leb_le. - rewrite Z.ltb_lt. lia. - rewrite Z.leb_le. lia. }
      destruct Q as (c & Q1 & Q2 & ->). exists c. split; [|split].
      + apply satom_op; auto; destruct O as [<-|[<-|[<-|[<-|[]]]]]; try slit; try reflexivity; discriminate.
      + cbn [sval]. rewrite A2, B2, Q1. destruct O as [<-|[<-|[<-|[<-|[]]]]]; reflexivity.
      + exact Q2.
  Qed.
End meaning.

(** A text is read in one way. *)
Lemma satom_unique x e e' : satom x e -> satom x e' -> e = e'.
Proof.
  intros (_ & ws & L & _ & R) (_ & ws' & L' & _ & R'). specialize (L [] Logic.I). specialize (L' [] Logic.I). rewrite L in L'.
  change (sl_words [] "") with (@nil string) in L'. rewrite !app_nil_r in L'. subst ws'.
  specialize (R (List.length ws) [] (le_n _)). specialize (R' (List.length ws) [] (le_n _)). congruence.
Qed.
Lemma sclause_reads Gamma t x : sl_formula Gamma false t -> gr1c_flatten slugs_opmap false t = Ok x ->
  exists e, satom x e /\ forall s i, respects Gamma (s i) -> respects Gamma (s (S i)) ->
    exists c, sval (s i) (s (S i)) e = Some (VB c) /\ (c = true <-> holds s i t).
Proof.
  intros W F.
  destruct (sformula_reads Gamma (default_trace Gamma) 0 (default_respects _ _) (default_respects _ _) false t W x F) as (e & _ & A & _).
  exists e. split; [exact A|]. intros s i R0 R1.
  destruct (sformula_reads Gamma s i R0 R1 false t W x F) as (e' & c & A' & B & C).
  rewrite (satom_unique _ _ _ A A'). eauto.
Qed.

(** Without string constants, nothing is encoded. *)
Lemma sl_term_enc fv Gamma b t k : sl_term Gamma b t k -> forall ctx, enc fv ctx t = Some t.
Proof.
  induction 1; intro ctx; cbn [enc]; try reflexivity.
  - rewrite IHsl_term1, IHsl_term2. reflexivity.
  - rewrite IHsl_term. reflexivity.
Qed.
Lemma sl_formula_enc fv Gamma b t : sl_formula Gamma b t -> forall ctx, enc fv ctx t = Some t.
Proof.
  induction 1; intro ctx; cbn [enc]; try reflexivity.
  - rewrite IHsl_formula. reflexivity.
  - rewrite IHsl_formula. reflexivity.
  - rewrite IHsl_formula1, IHsl_formula2. reflexivity.
  - rewrite (sl_term_enc fv _ _ _ _ H0), (sl_term_enc fv _ _ _ _ H1). reflexivity.
  - rewrite (sl_term_enc fv _ _ _ _ H0), (sl_term_enc fv _ _ _ _ H1). reflexivity.
Qed.

(** * Sections *)
Definition sec_rest (rest : list string) : Prop := match rest with [] => True | w :: _ => w = "[" end.
Definition with_ends (items : list (list string)) : list string := flat_map (fun ws => ws ++ [newline]) items.
Definition line_reads {A} (line : list string -> option (A * list string)) (ws : list string) (a : A) : Prop :=
  sfirst ws /\ forall rest, line (ws ++ newline :: rest) = Some (a, rest).
Lemma items_read {A} (line : list string -> option (A * list string)) : forall items es, Forall2 (line_reads line) items es ->
  forall k f rest, sec_rest rest -> List.length (with_ends items) + k < f ->
  sl_items line f (with_ends items ++ repeat newline k ++ rest) = Some (es, rest).
Proof.
  intros items es F. induction F as [|ws e items es [S1 R] F IH]; intros k f rest SR L.
  - revert f L. induction k as [|k IHk]; intros f L; (destruct f as [|f]; [lia|]); cbn [with_ends flat_map app repeat sl_items].
    + destruct rest as [|w r]; [reflexivity|]. cbn in SR. subst w. reflexivity.
    + cbn [String.eqb Ascii.eqb Bool.eqb]. rewrite String.eqb_refl. apply IHk. cbn in L |- *. lia.
  - destruct f as [|f]; [lia|]. destruct ws as [|w ws]; [destruct S1|]. cbn [with_ends flat_map]. cbn in S1. destruct S1 as [S1 S2].
    fold (with_ends items). rewrite <- !app_assoc. change ([newline] ++ with_ends items ++ repeat newline k ++ rest) with (newline :: (with_ends items ++ repeat newline k ++ rest)).
    cbn [app sl_items].
    destruct (String.eqb_spec w newline); [congruence|]. destruct (String.eqb_spec w "["); [congruence|].
    change (w :: ws ++ newline :: with_ends items ++ repeat newline k ++ rest) with ((w :: ws) ++ newline :: (with_ends items ++ repeat newline k ++ rest)).
    rewrite R, IH; [reflexivity|exact SR|]. cbn [with_ends flat_map] in L. rewrite app_length in L. cbn in L. rewrite app_length in L. cbn in L. unfold with_ends. lia.
Qed.
Lemma section_read {A} (line : list string -> option (A * list string)) name items es k rest :
  Forall2 (line_reads line) items es -> sec_rest rest ->
  sl_section line name ((["["; name; "]"; newline] ++ with_ends items ++ repeat newline k) ++ rest) = Some (es, rest).
Proof.
  intros F SR. unfold sl_section. rewrite <- app_assoc, strip_app, <- app_assoc. apply items_read; auto.
  rewrite !app_length, repeat_length. lia.
Qed.

(** ** Lines *)
Lemma line_read_one ws e : sreads ws e -> line_reads (fun r => sl_line (S (List.length r)) r) ws e.
Proof.
  intro R. split; [apply (sreads_first _ _ R)|]. intro rest. destruct R as [_ R].
  set (f := List.length (ws ++ newline :: rest)). cbn [sl_line]. rewrite R.
  - rewrite String.eqb_refl. reflexivity.
  - unfold f. rewrite app_length. lia.
Qed.
Fixpoint conj_words (items : list (list string)) : list string :=
  match items with
  | [] => []
  | [ws] => ws
  | ws :: r => ws ++ "&" :: conj_words r
  end.
Fixpoint conj_exp (es : list gexp) : gexp :=
  match es with
  | [] => GBool true
  | [e] => e
  | e :: r => GOp "&" e (conj_exp r)
  end.
Lemma line_read_conj : forall items es, Forall2 sreads items es -> items <> [] ->
  forall f rest, List.length (conj_words items) < f -> sl_line f (conj_words items ++ newline :: rest) = Some (conj_exp es, rest).
Proof.
  intros items es F. induction F as [|ws e items es R F IH]; [congruence|]. intros _ f rest L. destruct f as [|f]; [lia|].
  destruct R as [_ R]. destruct F as [|ws' e' items es R' F].
  - cbn [conj_words conj_exp] in *. cbn [sl_line]. rewrite R by lia. rewrite String.eqb_refl. reflexivity.
  - change (conj_words (ws :: ws' :: items)) with (ws ++ "&" :: conj_words (ws' :: items)) in *. change (conj_exp (e :: e' :: es)) with (GOp "&" e (conj_exp (e' :: es))).
    rewrite app_length in L. cbn [List.length] in L. rewrite <- app_assoc. cbn [sl_line]. rewrite R by lia. cbn [app].
    change ("&" =? newline)%string with false. change ("&" =? "&")%string with true. cbv iota. rewrite IH; [reflexivity|discriminate|lia].
Qed.
Lemma line_reads_conj items es : Forall2 sreads items es -> items <> [] ->
  line_reads (fun r => sl_line (S (List.length r)) r) (conj_words items) (conj_exp es).
Proof.
  intros F NE. split.
  - inversion F as [|ws e items' es' R F']; subst; [congruence|]. pose proof (sreads_first _ _ R) as Q.
    destruct items'; [exact Q|]. destruct ws as [|w ws]; [destruct Q|exact Q].
  - intro rest. apply line_read_conj; auto. rewrite app_length. lia.
Qed.

(** ** Texts *)
Lemma nl_newline : nl = newline. Proof. reflexivity. Qed.
Lemma lines_lex xs items : Forall2 slex xs items -> xs <> [] ->
  slex_any (join (" " ++ nl ++ " ") xs ++ nl ++ nl) (with_ends items ++ [newline]).
Proof.
  induction 1 as [|x ws xs items W F IH]; [congruence|]. intros _. destruct F as [|x' ws' xs items W' F].
  - cbn [join with_ends flat_map]. rewrite app_nil_r, <- app_assoc. apply send; [exact W|reflexivity|discriminate|slit].
  - change (with_ends (ws :: ws' :: items)) with ((ws ++ [newline]) ++ with_ends (ws' :: items)). rewrite <- !app_assoc.
    change (join (" " ++ nl ++ " ") (x :: x' :: xs)) with (x ++ (" " ++ nl ++ " ") ++ join (" " ++ nl ++ " ") (x' :: xs))%string.
    rewrite !str_assoc. apply (stext x ws (" ")%string); [exact W|reflexivity|discriminate|].
    rewrite <- !str_assoc. rewrite !str_assoc. change (newline :: nil) with [newline].
    replace (" " ++ nl ++ " " ++ join (" " ++ nl ++ " ") (x' :: xs) ++ nl ++ nl)%string with ((" " ++ nl ++ " ") ++ (join (" " ++ nl ++ " ") (x' :: xs) ++ nl ++ nl))%string by (rewrite !str_assoc; reflexivity).
    apply sany_app; [slit|]. apply IH. discriminate.
Qed.
Lemma conj_lex xs items : Forall2 slex xs items -> xs <> [] ->
  slex_any (join " & " xs ++ nl ++ nl) (with_ends [conj_words items] ++ [newline]).
Proof.
  intros F NE. cbn [with_ends flat_map]. rewrite app_nil_r, <- app_assoc.
  induction F as [|x ws xs items W F IH]; [congruence|]. destruct F as [|x' ws' xs items W' F].
  - cbn [join conj_words]. apply send; [exact W|reflexivity|discriminate|slit].
  - change (conj_words (ws :: ws' :: items)) with (ws ++ ["&"] ++ conj_words (ws' :: items)). rewrite <- !app_assoc.
    change (join " & " (x :: x' :: xs)) with (x ++ " & " ++ join " & " (x' :: xs))%string.
    rewrite !str_assoc. apply (stext x ws " & "%string); [exact W|reflexivity|discriminate|].
    apply sany_app; [slit|]. apply IH. discriminate.
Qed.
Lemma satoms_split xs es : Forall2 satom xs es -> exists items, Forall2 slex xs items /\ Forall2 sreads items es.
Proof.
  induction 1 as [|x e xs es (_ & ws & A & B) F (items & C & D)]; [exists []; split; constructor|]. exists (ws :: items). split; constructor; auto.
Qed.
Lemma satoms_kept xs es : Forall2 satom xs es -> filter (fun x => negb (x =? "")%string) xs = xs.
Proof.
  induction 1 as [|x e xs es (N & _) F IH]; [reflexivity|]. cbn [filter]. destruct (String.eqb_spec x ""); [congruence|]. cbn [negb]. rewrite IH. reflexivity.
Qed.
Definition heading (name : string) : Prop := slex_any ("[" ++ name ++ "]" ++ nl) ["["; name; "]"; newline].
Lemma section_text name body ws : heading name -> slex_any body ws -> slex_any ("[" ++ name ++ "]" ++ nl ++ body) (["["; name; "]"; newline] ++ ws).
Proof.
  intros H B. replace ("[" ++ name ++ "]" ++ nl ++ body)%string with (("[" ++ name ++ "]" ++ nl) ++ body)%string by (rewrite !str_assoc; reflexivity).
  apply sany_app; auto.
Qed.
(** What the formulas of a section of initial conditions mean. *)
Definition init_of (es : list gexp) : list gexp := match es with [] => [] | _ :: _ => [conj_exp es] end.
Lemma slugs_section_ok name xs es : heading name -> Forall2 satom xs es ->
  exists ws, slex_any (slugs_str xs name nl) ws /\ sec_rest ws /\ forall rest, sec_rest rest -> sl_formulas name (ws ++ rest) = Some (es, rest).
Proof.
  intros H F. destruct (satoms_split _ _ F) as (items & L & R). unfold slugs_str. rewrite (satoms_kept _ _ F). destruct xs as [|x xs].
  - inversion F; subst. exists ["["; name; "]"; newline]. split; [exact H|]. split; [reflexivity|]. intros rest SR.
    apply (section_read _ name [] [] 0 rest); [constructor|exact SR].
  - exists (["["; name; "]"; newline] ++ with_ends items ++ [newline]). split.
    + apply section_text; [exact H|]. apply lines_lex; [exact L|discriminate].
    + split; [reflexivity|]. intros rest SR. apply (section_read _ name items es 1 rest); [|exact SR].
      clear - R. induction R; constructor; auto. apply line_read_one. assumption.
Qed.
Lemma slugs_init_ok name xs es : heading name -> Forall2 satom xs es ->
  exists ws, slex_any (slugs_str xs name "&") ws /\ sec_rest ws /\ forall rest, sec_rest rest -> sl_formulas name (ws ++ rest) = Some (init_of es, rest).
Proof.
  intros H F. destruct (satoms_split _ _ F) as (items & L & R). unfold slugs_str. rewrite (satoms_kept _ _ F). destruct xs as [|x xs].
  - inversion F; subst. exists ["["; name; "]"; newline]. split; [exact H|]. split; [reflexivity|]. intros rest SR.
    apply (section_read _ name [] [] 0 rest); [constructor|exact SR].
  - exists (["["; name; "]"; newline] ++ with_ends [conj_words items] ++ [newline]). split.
    + apply section_text; [exact H|]. apply conj_lex; [exact L|discriminate].
    + split; [reflexivity|]. intros rest SR. inversion F; subst. cbn [init_of]. apply (section_read _ name [conj_words items] _ 1 rest); [|exact SR].
      constructor; [|constructor]. apply line_reads_conj; [exact R|]. inversion R; discriminate.
Qed.

(** ** Declarations *)
Definition sgdom (d : dom) : gdom := match d with DBool => GB | DInt a b => GRange a b | DEnum _ => GB end.
Definition sdecl_words (kv : string * dom) : list string :=
  match snd kv with DInt a b => [fst kv; ":"; str_Z a; "."; "."; "."; str_Z b] | _ => [fst kv] end.
Lemma sname_lex w : sl_name w = true -> slex w [w].
Proof.
  intro N. destruct (sname_parts w N) as (c & r & E & L & W & R). apply splain_lex; [|subst; discriminate].
  apply (forallb_imp _ _ _ word_char_splain W).
Qed.
Lemma snum_lex z : slex (str_Z z) [str_Z z].
Proof. destruct (str_Z_number z) as [N _]. destruct (number_splain _ N) as (P & NE & _). apply splain_lex; auto. Qed.
Lemma sdecl_lex kv x : sl_name (fst kv) = true -> slugs_var kv = Ok x -> slex x (sdecl_words kv).
Proof.
  destruct kv as [v d]. unfold slugs_var, sdecl_words. cbn [fst snd]. intros N H. destruct d as [|a b|l]; [| |discriminate]; apply Ok_inj in H; subst x.
  - apply sname_lex; auto.
  - intros rest D. rewrite chars_app, <- app_assoc, (sname_lex v N) by reflexivity. rewrite chars_app, <- app_assoc.
    change (sl_words (chars ": " ++ chars (str_Z a ++ "..." ++ str_Z b) ++ rest) "") with (":" :: sl_words (chars (str_Z a ++ "..." ++ str_Z b) ++ rest) "").
    rewrite chars_app, <- app_assoc, (snum_lex a) by reflexivity. rewrite chars_app, <- app_assoc.
    change (sl_words (chars "..." ++ chars (str_Z b) ++ rest) "") with ("." :: "." :: "." :: sl_words (chars (str_Z b) ++ rest) "").
    rewrite (snum_lex b) by exact D. reflexivity.
Qed.
Lemma name_first x r : sl_name x = true -> sfirst (x :: r).
Proof. intro N. destruct (sname_parts x N) as (c & q & -> & L & _). cbn. split; intro E; inversion E; subst c; discriminate. Qed.
Lemma sdecl_read kv x : sl_name (fst kv) = true -> slugs_var kv = Ok x -> line_reads sl_decl (sdecl_words kv) (fst kv, sgdom (snd kv)).
Proof.
  destruct kv as [v d]. unfold slugs_var, sdecl_words. cbn [fst snd]. intros N H. destruct d as [|a b|l]; [| |discriminate].
  - split; [apply name_first; auto|]. intro rest. cbn [app sl_decl]. rewrite N. cbn [expect]. rewrite String.eqb_refl. reflexivity.
  - split; [apply name_first; auto|]. intro rest. cbn [app sl_decl]. rewrite N. cbn [expect]. change (":" =? newline)%string with false. cbv iota.
    destruct (str_Z_number a) as [_ Ea], (str_Z_number b) as [_ Eb]. rewrite Ea, Eb.
    destruct (list_eq_dec string_dec [":"; "."; "."; "."; newline] [":"; "."; "."; "."; newline]); [reflexivity|congruence].
Qed.
Lemma decl_lines_lex xs items : Forall2 slex xs items -> slex_any (join nl xs ++ nl ++ nl) (with_ends items ++ repeat newline (match items with [] => 2 | _ => 1 end)).
Proof.
  induction 1 as [|x ws xs items W F IH]; [slit|]. destruct F as [|x' ws' xs items W' F].
  - cbn [join with_ends flat_map repeat]. rewrite app_nil_r, <- app_assoc. apply send; [exact W|reflexivity|discriminate|slit].
  - change (with_ends (ws :: ws' :: items)) with ((ws ++ [newline]) ++ with_ends (ws' :: items)). rewrite <- !app_assoc.
    change (join nl (x :: x' :: xs)) with (x ++ nl ++ join nl (x' :: xs))%string. rewrite !str_assoc.
    apply (stext x ws nl); [exact W|reflexivity|discriminate|]. apply sany_app; [slit|]. apply IH.
Qed.
Lemma slugs_vars_ok name d x : format_slugs_vars d name = Ok x -> (forall kv, In kv d -> sl_name (fst kv) = true) -> heading name ->
  exists ws, slex_any x ws /\ sec_rest ws /\
    forall rest, sec_rest rest -> sl_section sl_decl name (ws ++ rest) = Some (map (fun kv => (fst kv, sgdom (snd kv))) d, rest).
Proof.
  intros H N Hd. unfold format_slugs_vars in H. apply L_Machine.bind_Ok in H. destruct H as (a & Ha & H). apply Ok_inj in H. subst x.
  assert (Q : Forall2 slex a (map sdecl_words d) /\ Forall2 (line_reads sl_decl) (map sdecl_words d) (map (fun kv => (fst kv, sgdom (snd kv))) d)).
  { revert a Ha. induction d as [|kv d IH]; intros a Ha; cbn [mapr] in Ha.
    - apply Ok_inj in Ha. subst a. split; constructor.
    - apply L_Machine.bind_Ok in Ha. destruct Ha as (x & Hx & Ha). apply L_Machine.bind_Ok in Ha. destruct Ha as (r & Hr & Ha). apply Ok_inj in Ha. subst a.
      destruct (IH (fun kv K => N kv (or_intror K)) r Hr) as [I1 I2]. pose proof (N kv (or_introl eq_refl)) as Nk.
      split; cbn [map]; constructor; auto; [apply sdecl_lex; auto|eapply sdecl_read; eauto]. }
  destruct Q as [Q1 Q2]. eexists. split; [apply section_text; [exact Hd|apply (decl_lines_lex _ _ Q1)]|]. split; [reflexivity|].
  intros rest SR. apply section_read; auto.
Qed.
Lemma slugs_vars_plain name d x : format_slugs_vars d name = Ok x -> forall k l, ~ In (k, DEnum l) d.
Proof.
  unfold format_slugs_vars. intro H. apply L_Machine.bind_Ok in H. destruct H as (a & Ha & _). revert a Ha. induction d as [|kv d IH]; intros a Ha k l; [intros []|].
  cbn [mapr] in Ha. apply L_Machine.bind_Ok in Ha. destruct Ha as (x' & Hx & Ha). apply L_Machine.bind_Ok in Ha. destruct Ha as (r & Hr & Ha).
  intros [->|K]; [discriminate Hx|]. apply (IH r Hr k l K).
Qed.
