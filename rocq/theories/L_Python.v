(** Proofs: the Python texts mean what the formulas mean. *)
From Coq Require Import List String Ascii Bool Arith ZArith Lia.
From Verif Require Import M_Base M_Ast M_Parser M_Spec M_Form M_Tree M_Python.
From Verif Require Import S_LTL S_Gr1 S_Form S_Syntax S_Tree S_Python.
From Verif Require Import L_LTL L_Gr1 L_Form L_Dec L_Encode.
Import ListNotations.
Open Scope string_scope.
Open Scope list_scope.

(** * Lexing *)
Notation chars := list_ascii_of_string.
Lemma chars_app a b : chars (a ++ b)%string = chars a ++ chars b.
Proof. induction a; cbn; congruence. Qed.
Definition nonword_start (rest : list ascii) : Prop := match rest with [] => True | c :: _ => word_char c = false end.
Definition lexes (s : string) (ts : list pytok) : Prop :=
  forall rest, nonword_start rest -> py_lex (chars s ++ rest) "" = option_map (app ts) (py_lex rest "").
(** Texts that end with a delimiter. *)
Definition lexes_any (s : string) (ts : list pytok) : Prop :=
  forall rest, py_lex (chars s ++ rest) "" = option_map (app ts) (py_lex rest "").

Lemma any_lexes s ts : lexes_any s ts -> lexes s ts.
Proof. intros H rest _. apply H. Qed.
Lemma app_nil_opt (o : option (list pytok)) : option_map (app []) o = o.
Proof. destruct o; reflexivity. Qed.
Lemma any_app a ta b tb : lexes_any a ta -> lexes_any b tb -> lexes_any (a ++ b) (ta ++ tb).
Proof.
  intros A B rest. rewrite chars_app, <- app_assoc, A, B. destruct (py_lex rest ""); cbn; [rewrite app_assoc|]; auto.
Qed.
Lemma lexes_app_any a ta b tb : lexes a ta -> lexes_any b tb -> nonword_start (chars b) -> b <> "" -> lexes_any (a ++ b) (ta ++ tb).
Proof.
  intros A B N NE rest. rewrite chars_app, <- app_assoc, A, B.
  - destruct (py_lex rest ""); cbn; [rewrite app_assoc|]; auto.
  - destruct b; [congruence|exact N].
Qed.
Lemma any_app_lexes a ta b tb : lexes_any a ta -> lexes b tb -> lexes (a ++ b) (ta ++ tb).
Proof.
  intros A B rest N. rewrite chars_app, <- app_assoc, A, B by auto.
  destruct (py_lex rest ""); cbn; [rewrite app_assoc|]; auto.
Qed.
Lemma lex_word w rest : forall acc, forallb word_char (chars w) = true -> py_lex (chars w ++ rest) acc = py_lex rest (acc ++ w)%string.
Proof.
  induction w as [|c w IH]; intros acc H; cbn [list_ascii_of_string app].
  - f_equal. clear. induction acc; cbn; congruence.
  - cbn [list_ascii_of_string forallb] in H. apply andb_true_iff in H. destruct H as [H1 H2]. cbn [py_lex]. rewrite H1.
    rewrite IH by auto. f_equal. clear. induction acc; cbn; congruence.
Qed.
Lemma word_lexes w ts : forallb word_char (chars w) = true -> py_word w = Some ts -> lexes w ts.
Proof.
  intros H W rest N. rewrite lex_word by auto. cbn [append]. destruct rest as [|c r].
  - cbn [py_lex]. rewrite W. cbn. rewrite app_nil_r. reflexivity.
  - cbn [nonword_start] in N. cbn [py_lex]. rewrite N. change (py_word "") with (Some (@nil pytok)). rewrite W.
    match goal with |- opt_app _ ?x = _ => destruct x; reflexivity end.
Qed.
Ltac lit := let r := fresh in intro r; cbn; destruct (py_lex r ""); reflexivity.

(** * Parsing: an atom is read at any level *)
Definition atoms (ts : list pytok) (e : pyexp) : Prop :=
  ts <> [] /\ forall f m rest, 2 * List.length ts <= f -> py_expr f m (ts ++ rest) = py_loop (f - 1) m e rest.
Definition py_atom (s : string) (e : pyexp) : Prop := exists ts, lexes s ts /\ atoms ts e.

Lemma atoms_len ts e : atoms ts e -> 1 <= List.length ts.
Proof. intros [H _]. destruct ts; [congruence|cbn; lia]. Qed.
Ltac norm := repeat (rewrite <- app_assoc || cbn [app]).

Lemma loop_rp f m a rest : 0 < f -> py_loop f m a (KRp :: rest) = Some (a, KRp :: rest).
Proof. destruct f; [lia|reflexivity]. Qed.
Lemma atoms_bin o ta tb a b : atoms ta a -> atoms tb b -> atoms (KLp :: ta ++ KOp o :: tb ++ [KRp]) (EBin o a b).
Proof.
  intros A B. pose proof (atoms_len _ _ A). pose proof (atoms_len _ _ B). destruct A as [_ A], B as [_ B].
  split; [discriminate|]. intros f m rest L. cbn [List.length] in L. rewrite app_length in L. cbn [List.length] in L.
  rewrite app_length in L. cbn [List.length] in L.
  destruct f as [|f]; [lia|]. cbn [app]. norm. cbn [py_expr]. rewrite A by lia.
  destruct (f - 1) as [|k] eqn:E; [lia|]. cbn [py_loop]. replace (0 <=? prec o)%nat with true by reflexivity.
  rewrite B by lia. rewrite loop_rp by lia. cbn [starts_cmp]. rewrite andb_false_r. rewrite loop_rp by lia.
  replace (S f - 1) with f by lia. reflexivity.
Qed.
Lemma atoms_not ta a : atoms ta a -> atoms (KLp :: KNot :: ta ++ [KRp]) (ENot a).
Proof.
  intros A. pose proof (atoms_len _ _ A). destruct A as [_ A].
  split; [discriminate|]. intros f m rest L. cbn [List.length] in L. rewrite app_length in L. cbn [List.length] in L.
  destruct f as [|f]; [lia|]. cbn [app]. norm. cbn [py_expr]. destruct f as [|f]; [lia|]. cbn [py_expr Nat.leb].
  rewrite A by lia. rewrite loop_rp by lia. rewrite loop_rp by lia. reflexivity.
Qed.
Lemma atoms_paren ta a : atoms ta a -> atoms (KLp :: ta ++ [KRp]) a.
Proof.
  intros A. pose proof (atoms_len _ _ A). destruct A as [_ A].
  split; [discriminate|]. intros f m rest L. cbn [List.length] in L. rewrite app_length in L. cbn [List.length] in L.
  destruct f as [|f]; [lia|]. cbn [app]. norm. cbn [py_expr].
  rewrite A by lia. rewrite loop_rp by lia. replace (S f - 1) with f by lia. reflexivity.
Qed.
Lemma atoms_name x : atoms [KName x] (EName x).
Proof. split; [discriminate|]. intros [|f] m rest L; cbn [List.length] in L; [lia|]. cbn. rewrite Nat.sub_0_r. reflexivity. Qed.
Lemma atoms_num x : atoms [KNum x] (ENum x).
Proof. split; [discriminate|]. intros [|f] m rest L; cbn [List.length] in L; [lia|]. cbn. rewrite Nat.sub_0_r. reflexivity. Qed.
Lemma atoms_true : atoms [KTrue] (EBool true).
Proof. split; [discriminate|]. intros [|f] m rest L; cbn [List.length] in L; [lia|]. cbn. rewrite Nat.sub_0_r. reflexivity. Qed.
Lemma atoms_false : atoms [KFalse] (EBool false).
Proof. split; [discriminate|]. intros [|f] m rest L; cbn [List.length] in L; [lia|]. cbn. rewrite Nat.sub_0_r. reflexivity. Qed.
Lemma atoms_neg x : atoms [KOp OMinus; KNum x] (ENeg (ENum x)).
Proof. split; [discriminate|]. intros [|f] m rest L; cbn [List.length] in L; [lia|]. cbn. rewrite Nat.sub_0_r. reflexivity. Qed.

(** * Texts *)
Lemma seg_lit l tl b tb : lexes_any l tl -> lexes_any b tb -> lexes_any (l ++ b) (tl ++ tb).
Proof. apply any_app. Qed.
Lemma seg_text a ta l b tb : lexes a ta -> nonword_start (chars l) -> l <> "" -> lexes_any (l ++ b) tb ->
  lexes_any (a ++ l ++ b) (ta ++ tb).
Proof.
  intros A N NE B. apply lexes_app_any; auto; destruct l; try congruence; cbn in *; auto; discriminate.
Qed.
Lemma seg_end a ta l tl : lexes a ta -> nonword_start (chars l) -> l <> "" -> lexes_any l tl -> lexes_any (a ++ l) (ta ++ tl).
Proof. intros. apply lexes_app_any; auto. Qed.

Lemma py_atom_bin l o a b ea eb : lexes_any l [KOp o] -> nonword_start (chars l) -> l <> "" ->
  py_atom a ea -> py_atom b eb -> py_atom ("( " ++ a ++ l ++ b ++ " )") (EBin o ea eb).
Proof.
  intros L N NE (ta & La & Aa) (tb & Lb & Ab). eexists. split; [|apply atoms_bin; eauto]. apply any_lexes.
  change (KLp :: ta ++ KOp o :: tb ++ [KRp]) with ([KLp] ++ ta ++ [KOp o] ++ tb ++ [KRp]).
  apply seg_lit; [lit|]. apply seg_text; auto. apply seg_lit; auto. apply seg_end; auto; [reflexivity|discriminate|lit].
Qed.
Lemma py_atom_iff a b ea eb : py_atom a ea -> py_atom b eb -> py_atom ("(" ++ a ++ " == " ++ b ++ ")") (EBin OEq ea eb).
Proof.
  intros (ta & La & Aa) (tb & Lb & Ab). eexists. split; [|apply atoms_bin; eauto]. apply any_lexes.
  change (KLp :: ta ++ KOp OEq :: tb ++ [KRp]) with ([KLp] ++ ta ++ [KOp OEq] ++ tb ++ [KRp]).
  apply seg_lit; [lit|]. apply seg_text; [auto|reflexivity|discriminate|]. apply seg_lit; [lit|].
  apply seg_end; auto; [reflexivity|discriminate|lit].
Qed.
Lemma py_atom_imp a b ea eb : py_atom a ea -> py_atom b eb ->
  py_atom ("((not (" ++ a ++ ")) or " ++ b ++ ")") (EBin OOr (ENot ea) eb).
Proof.
  intros (ta & La & Aa) (tb & Lb & Ab). eexists. split; [|apply atoms_bin; [apply atoms_not, atoms_paren|]; eauto]. apply any_lexes.
  change (KLp :: (KLp :: KNot :: (KLp :: ta ++ [KRp]) ++ [KRp]) ++ KOp OOr :: tb ++ [KRp])
    with ([KLp; KLp; KNot; KLp] ++ ((ta ++ [KRp]) ++ [KRp]) ++ [KOp OOr] ++ tb ++ [KRp]).
  rewrite <- !app_assoc. change ([KRp] ++ [KRp] ++ [KOp OOr] ++ tb ++ [KRp]) with ([KRp; KRp; KOp OOr] ++ tb ++ [KRp]).
  apply seg_lit; [lit|]. apply seg_text; [auto|reflexivity|discriminate|]. apply seg_lit; [lit|].
  apply seg_end; auto; [reflexivity|discriminate|lit].
Qed.
Lemma py_atom_not a ea : py_atom a ea -> py_atom ("( not " ++ a ++ " )") (ENot ea).
Proof.
  intros (ta & La & Aa). eexists. split; [|apply atoms_not; eauto]. apply any_lexes.
  change (KLp :: KNot :: ta ++ [KRp]) with ([KLp; KNot] ++ ta ++ [KRp]).
  apply seg_lit; [lit|]. apply seg_end; auto; [reflexivity|discriminate|lit].
Qed.
Lemma py_atom_paren a ea : py_atom a ea -> py_atom ("(" ++ a ++ ")") ea.
Proof.
  intros (ta & La & Aa). eexists. split; [|apply atoms_paren; eauto]. apply any_lexes.
  change (KLp :: ta ++ [KRp]) with ([KLp] ++ ta ++ [KRp]).
  apply seg_lit; [lit|]. apply seg_end; auto; [reflexivity|discriminate|lit].
Qed.

Lemma py_name_word x : py_name x = true -> forallb word_char (chars x) = true /\ py_word x = Some [KName x].
Proof.
  intro H. split.
  - destruct x as [|c r]; [reflexivity|]. cbn [py_name] in H. apply andb_true_iff in H. destruct H as [H _].
    apply andb_true_iff in H. destruct H as [H1 H2]. cbn [list_ascii_of_string forallb]. rewrite H2. unfold word_char at 1. rewrite H1, orb_true_r. reflexivity.
  - unfold py_word. rewrite H.
    assert (K : forall k, existsb (String.eqb k) py_keywords = true -> (x =? k)%string = false).
    { intros k K. apply String.eqb_neq. intros ->. destruct k as [|c r]; [discriminate|]. unfold py_name in H. rewrite K in H.
      rewrite andb_false_r in H. discriminate. }
    assert (E : (x =? "")%string = false) by (destruct x; [discriminate|reflexivity]). rewrite E.
    rewrite !K by reflexivity. reflexivity.
Qed.
Lemma is_digit_val c : is_digit c = true -> exists d, digit_val c = Some d.
Proof.
  unfold is_digit, digit_val. intro H. replace ((48 <=? N_of_ascii c)%N && (N_of_ascii c <=? 57)%N) with true; [eauto|].
  unfold nat_of_ascii in H. symmetry. apply andb_true_iff in H. destruct H as [H1 H2]. apply Nat.leb_le in H1, H2.
  apply andb_true_iff. split; apply N.leb_le; lia.
Qed.
Lemma digits_val s : forall a, forallb is_digit (chars s) = true -> exists z, nat_text a s = Some z.
Proof.
  induction s as [|c s IH]; intros a H; cbn [nat_text]; [eauto|]. cbn [list_ascii_of_string forallb] in H.
  apply andb_true_iff in H. destruct H as [H1 H2]. destruct (is_digit_val c H1) as [d ->]. apply IH. auto.
Qed.
Lemma digit_not_letter c : is_digit c = true -> is_letter c = false.
Proof.
  unfold is_digit, is_letter. intro H. apply andb_true_iff in H. destruct H as [H1 H2]. apply Nat.leb_le in H1, H2.
  repeat (apply orb_false_iff; split); try apply andb_false_iff; try (left; apply Nat.leb_gt; lia). apply Nat.eqb_neq. lia.
Qed.
Lemma py_number_word v : py_number v = true -> forallb word_char (chars v) = true /\
  exists z, py_word v = Some [KNum z] /\ num_text v = Some z /\ nat_text 0 v = Some z.
Proof.
  intro H. destruct v as [|c r]; [discriminate|]. pose proof H as P. cbn [py_number] in H. apply andb_true_iff in H. destruct H as [H _].
  assert (D : is_digit c = true) by (cbn in H; apply andb_true_iff in H; apply H).
  destruct (digits_val _ 0%Z H) as [z Z]. split.
  - rewrite forallb_forall in *. intros x X. unfold word_char. rewrite (H x X). reflexivity.
  - exists z. split; [|split; auto].
    + unfold py_word. assert (K : forall k, (match k with String d _ => is_digit d = false | _ => True end) -> (String c r =? k)%string = false).
      { intros k K. apply String.eqb_neq. intros <-. congruence. }
      rewrite !K by reflexivity. assert (N : py_name (String c r) = false) by (cbn [py_name]; rewrite (digit_not_letter c D); reflexivity).
      rewrite N, P, Z. reflexivity.
    + rewrite <- Z. unfold num_text. destruct c as [[] [] [] [] [] [] [] []]; try reflexivity. discriminate D.
Qed.

(** * Meaning *)
Definition lit_of (o : string) : string := (" " ++ o ++ " ")%string.
Lemma str_assoc a b c : ((a ++ b) ++ c)%string = (a ++ b ++ c)%string.
Proof. induction a; cbn; congruence. Qed.
Lemma infix_text x o y : ("( " ++ x ++ " " ++ o ++ " " ++ y ++ " )")%string = ("( " ++ x ++ lit_of o ++ y ++ " )")%string.
Proof. unfold lit_of. rewrite !str_assoc. reflexivity. Qed.

Section meaning.
  Variables (Gamma : types) (s : trace) (i : nat).
  Hypothesis Hs : respects Gamma (s i).
  Let env := assignment Gamma (s i).

  (** The text [x] is an expression for the term [t]. *)
  Lemma term_text_ok t k : wt_term Gamma t k -> forall x, no_str t = true -> py_flatten t = Ok x ->
    exists e v, py_atom x e /\ py_value env e = Some (to_pyval v) /\ term_val s i t = Some v /\ has_ty v k.
  Proof.
    induction 1 as [y k G N|v I|v N|v N|v|op l r O L IHl R IHr]; intros x NS F; cbn [py_flatten] in F.
    - apply Ok_inj in F. subst x. destruct (py_name_word _ N) as [W1 W2]. exists (EName y), (s i y). split; [|split; [|split]].
      + exists [KName y]. split; [apply word_lexes; auto|apply atoms_name].
      + cbn. unfold env, assignment. rewrite G. reflexivity.
      + reflexivity.
      + apply Hs; auto.
    - destruct I as [<-|[<-|[]]]; apply Ok_inj in F; subst x.
      + exists (EBool true), (VB true). split; [exists [KTrue]; split; [apply word_lexes; reflexivity|apply atoms_true]|]. repeat split. cbn. eauto.
      + exists (EBool false), (VB false). split; [exists [KFalse]; split; [apply word_lexes; reflexivity|apply atoms_false]|]. repeat split. cbn. eauto.
    - apply Ok_inj in F. subst x. destruct (py_number_word _ N) as (W1 & z & W2 & W3 & _). exists (ENum z), (VZ z). split; [|split; [|split]].
      + exists [KNum z]. split; [apply word_lexes; auto|apply atoms_num].
      + reflexivity.
      + cbn [term_val]. rewrite W3. reflexivity.
      + cbn. eauto.
    - apply Ok_inj in F. subst x. destruct (py_number_word _ N) as (W1 & z & W2 & _ & W4). exists (ENeg (ENum z)), (VZ (- z)). split; [|split; [|split]].
      + exists ([KOp OMinus] ++ [KNum z]). split; [|apply atoms_neg]. change (String "-" v) with ("-" ++ v)%string.
        apply any_app_lexes; [lit|apply word_lexes; auto].
      + reflexivity.
      + cbn [term_val]. destruct v as [|c v]; [discriminate|]. change (num_text (String "-" (String c v))) with (option_map Z.opp (nat_text 0 (String c v))).
        rewrite W4. reflexivity.
      + cbn. eauto.
    - discriminate.
    - cbn [no_str] in NS. apply andb_true_iff in NS. destruct NS as [NS1 NS2].
      destruct (lookup op py_opmap) as [o|] eqn:E; [|discriminate]. cbn [of_opt bind] in F.
      destruct (py_flatten l) as [xl|]; [|discriminate]. destruct (py_flatten r) as [xr|]; [|discriminate]. cbn [bind] in F.
      apply Ok_inj in F. subst x. destruct (IHl _ NS1 eq_refl) as (el & vl & A1 & A2 & A3 & n & ->). destruct (IHr _ NS2 eq_refl) as (er & vr & B1 & B2 & B3 & k & ->).
      rewrite infix_text. cbn [term_val]. rewrite A3, B3. destruct O as [<-|[<-|[<-|[]]]]; inversion E; subst o.
      + exists (EBin OPlus el er), (VZ (n + k)). split; [apply py_atom_bin; auto; [lit|reflexivity|discriminate]|]. cbn [py_value]. rewrite A2, B2. repeat split. cbn. eauto.
      + exists (EBin OMinus el er), (VZ (n - k)). split; [apply py_atom_bin; auto; [lit|reflexivity|discriminate]|]. cbn [py_value]. rewrite A2, B2. repeat split. cbn. eauto.
  Qed.
  Lemma text_ok t : wt Gamma t -> forall x, no_str t = true -> py_supported t = true -> py_flatten t = Ok x ->
    exists e b, py_atom x e /\ py_value env e = Some (PB b) /\ (b = true <-> holds s i t).
  Proof.
    induction 1 as [y G N|v I|op a T IH|op l r L IHl R IHr|op l r k O L R|op l r O L R|]; intros x NS S F; cbn [py_flatten] in F; cbn [py_supported] in S; cbn [no_str] in NS; rewrite ?andb_true_iff in NS.
    - destruct (term_text_ok (NVar y) TyB (wt_var _ _ _ G N) x eq_refl F) as (e & v & A & B & C & c & ->).
      exists e, c. split; [exact A|]. split; [exact B|]. cbn [holds term_val] in *. inversion C as [D]. rewrite D.
      split; [intros ->|intro K; inversion K]; auto.
    - destruct (term_text_ok (NBool v) TyB (wt_const _ _ I) x eq_refl F) as (e & w & A & B & C & c & ->).
      exists e, c. split; [exact A|]. split; [exact B|]. cbn [holds term_val] in *. inversion C as [D]. rewrite String.eqb_eq. tauto.
    - apply andb_true_iff in S. destruct S as [S1 S2]. apply String.eqb_eq in S1. subst op. cbn in F.
      destruct (py_flatten a) as [y|]; [|discriminate]. cbn [bind] in F. apply Ok_inj in F. subst x.
      destruct (IH _ NS S2 eq_refl) as (e & b & A & B & C). exists (ENot e), (negb b). split; [apply (py_atom_not y); auto|]. cbn [py_value].
      rewrite B. split; [reflexivity|]. cbn. rewrite <- C. destruct b; cbn; intuition congruence.
    - apply andb_true_iff in S. destruct S as [S S3]. apply andb_true_iff in S. destruct S as [S1 S2].
      apply existsb_exists in S1. destruct S1 as (o & O & Q). apply String.eqb_eq in Q. subst o.
      destruct (py_flatten l) as [xl|]; [|cbn in O; repeat (destruct O as [<-|O]; [discriminate|]); contradiction].
      destruct (py_flatten r) as [xr|]; [|cbn in O; repeat (destruct O as [<-|O]; [discriminate|]); contradiction].
      destruct (IHl _ (proj1 NS) S2 eq_refl) as (el & bl & A1 & A2 & A3). destruct (IHr _ (proj2 NS) S3 eq_refl) as (er & br & B1 & B2 & B3).
      cbn [In] in O. destruct O as [<-|[<-|[<-|[<-|[<-|[]]]]]]; cbn -[append] in F; apply Ok_inj in F; subst x; try rewrite infix_text.
      + exists (EBin OAnd el er), (bl && br). split; [apply py_atom_bin; auto; [lit|reflexivity|discriminate]|]. cbn [py_value]. rewrite A2, B2.
        split; [destruct bl; reflexivity|]. cbn. rewrite <- A3, <- B3. apply andb_true_iff.
      + exists (EBin OOr el er), (bl || br). split; [apply py_atom_bin; auto; [lit|reflexivity|discriminate]|]. cbn [py_value]. rewrite A2, B2.
        split; [destruct bl; reflexivity|]. cbn. rewrite <- A3, <- B3. apply orb_true_iff.
      + exists (EBin OXor el er), (xorb bl br). split; [apply py_atom_bin; auto; [lit|reflexivity|discriminate]|]. cbn [py_value]. rewrite A2, B2.
        split; [destruct bl; reflexivity|]. cbn. rewrite <- A3, <- B3. destruct bl, br; cbn; intuition congruence.
      + exists (EBin OOr (ENot el) er), (negb bl || br). split; [apply py_atom_imp; auto|]. cbn [py_value]. rewrite A2, B2.
        split; [destruct bl; reflexivity|]. cbn. rewrite <- A3, <- B3. destruct bl, br; cbn; intuition congruence.
      + exists (EBin OEq el er), (Bool.eqb bl br). split; [apply py_atom_iff; auto|]. cbn [py_value]. rewrite A2, B2.
        split; [destruct bl, br; reflexivity|]. cbn. rewrite <- A3, <- B3. destruct bl, br; cbn; intuition congruence.
    - destruct (lookup op py_opmap) as [o|] eqn:E; [|discriminate]. cbn [of_opt bind] in F.
      destruct (py_flatten l) as [xl|] eqn:Fl; [|discriminate]. destruct (py_flatten r) as [xr|] eqn:Fr; [|discriminate]. cbn [bind] in F.
      apply Ok_inj in F. subst x. destruct (term_text_ok l k L xl (proj1 NS) Fl) as (el & vl & A1 & A2 & A3 & A4). destruct (term_text_ok r k R xr (proj2 NS) Fr) as (er & vr & B1 & B2 & B3 & B4).
      rewrite infix_text. cbn [holds]. rewrite A3, B3.
      assert (Q : py_eqv (to_pyval vl) (to_pyval vr) = true <-> vl = vr).
      { destruct k.
        - destruct A4 as [p ->], B4 as [q ->]. destruct p, q; cbn; intuition congruence.
        - destruct A4 as [p ->], B4 as [q ->]. cbn. rewrite Z.eqb_eq. intuition congruence.
        - destruct A4 as [p ->], B4 as [q ->]. cbn. rewrite String.eqb_eq. intuition congruence. }
      destruct O as [<-|[<-|[]]]; inversion E; subst o.
      + exists (EBin OEq el er), (py_eqv (to_pyval vl) (to_pyval vr)). split; [apply py_atom_bin; auto; [lit|reflexivity|discriminate]|].
        cbn [py_value]. rewrite A2, B2. split; [reflexivity|]. exact Q.
      + exists (EBin ONe el er), (negb (py_eqv (to_pyval vl) (to_pyval vr))). split; [apply py_atom_bin; auto; [lit|reflexivity|discriminate]|].
        cbn [py_value]. rewrite A2, B2. split; [reflexivity|]. unfold compare_vals. cbn. rewrite <- Q.
        destruct (py_eqv _ _); cbn; intuition congruence.
    - destruct (lookup op py_opmap) as [o|] eqn:E; [|discriminate]. cbn [of_opt bind] in F.
      destruct (py_flatten l) as [xl|] eqn:Fl; [|discriminate]. destruct (py_flatten r) as [xr|] eqn:Fr; [|discriminate]. cbn [bind] in F.
      apply Ok_inj in F. subst x. destruct (term_text_ok l TyZ L xl (proj1 NS) Fl) as (el & vl & A1 & A2 & A3 & n & ->).
      destruct (term_text_ok r TyZ R xr (proj2 NS) Fr) as (er & vr & B1 & B2 & B3 & k & ->).
      rewrite infix_text. cbn [holds]. rewrite A3, B3.
      destruct O as [<-|[<-|[<-|[<-|[]]]]]; inversion E; subst o.
      + exists (EBin OLt el er), (n <? k)%Z. split; [apply py_atom_bin; auto; [lit|reflexivity|discriminate]|].
        cbn [py_value]. rewrite A2, B2. split; [reflexivity|]. unfold compare_vals. cbn. apply Z.ltb_lt.
      + exists (EBin OLe el er), (n <=? k)%Z. split; [apply py_atom_bin; auto; [lit|reflexivity|discriminate]|].
        cbn [py_value]. rewrite A2, B2. split; [reflexivity|]. unfold compare_vals. cbn. apply Z.leb_le.
      + exists (EBin OGt el er), (k <? n)%Z. split; [apply py_atom_bin; auto; [lit|reflexivity|discriminate]|].
        cbn [py_value]. rewrite A2, B2. split; [reflexivity|]. unfold compare_vals. cbn. rewrite Z.ltb_lt. lia.
      + exists (EBin OGe el er), (k <=? n)%Z. split; [apply py_atom_bin; auto; [lit|reflexivity|discriminate]|].
        cbn [py_value]. rewrite A2, B2. split; [reflexivity|]. unfold compare_vals. cbn. rewrite Z.leb_le. lia.
    - discriminate.
  Qed.
End meaning.

Lemma ast_to_python_id t : forall u, ast_to_python t = Ok u -> u = t.
Proof.
  induction t; intros u H; cbn [ast_to_python] in H; try (apply Ok_inj in H; auto; fail).
  - destruct (op =? "!")%string; [|discriminate]. destruct (ast_to_python t); [|discriminate]. cbn [bind] in H. apply Ok_inj in H. rewrite <- H. f_equal. auto.
  - destruct (mem op py_binary); [|discriminate]. destruct (ast_to_python t1); [|discriminate]. destruct (ast_to_python t2); [|discriminate].
    cbn [bind] in H. apply Ok_inj in H. rewrite <- H. f_equal; auto.
  - destruct (mem op py_binary); [|discriminate]. destruct (ast_to_python t1); [|discriminate]. destruct (ast_to_python t2); [|discriminate].
    cbn [bind] in H. apply Ok_inj in H. rewrite <- H. f_equal; auto.
  - destruct (mem op py_binary); [|discriminate]. destruct (ast_to_python t1); [|discriminate]. destruct (ast_to_python t2); [|discriminate].
    cbn [bind] in H. apply Ok_inj in H. rewrite <- H. f_equal; auto.
  - discriminate.
Qed.
Lemma to_python_supported t : wf_node t = true -> ((exists x, to_python t = Ok x) <-> py_supported t = true).
Proof.
  unfold to_python.
  induction t; cbn [wf_node py_supported ast_to_python py_flatten]; intro W; try (split; intros; cbn; eauto; fail).
  - destruct (oneof v ["True"; "False"]) eqn:O; [|discriminate]. unfold oneof in O. apply existsb_exists in O. destruct O as (o & O & Q).
    apply String.eqb_eq in Q. subst o. destruct O as [<-|[<-|[]]]; split; intros; cbn; eauto.
  - apply andb_true_iff in W. destruct W as [W1 W2]. destruct (op =? "!")%string eqn:E; [|split; [intros [x X]; discriminate|discriminate]].
    apply String.eqb_eq in E. subst op. rewrite <- IHt by auto. destruct (ast_to_python t); cbn [bind]; [|split; intros [x X]; discriminate].
    cbn. destruct (py_flatten a); cbn [bind]; split; intros [x X]; eauto; discriminate.
  - rewrite !andb_true_iff in W. destruct W as [[W1 W2] W3]. unfold oneof in W1. apply existsb_exists in W1. destruct W1 as (o & O & Q).
    apply String.eqb_eq in Q. subst o. rewrite !andb_true_iff, <- IHt1, <- IHt2 by auto.
    destruct (ast_to_python t1); cbn [bind]; [|split; [destruct (mem op py_binary); intros [x X]; discriminate|intros [[_ [x X]] _]; discriminate]].
    destruct (ast_to_python t2); cbn [bind]; [|split; [destruct (mem op py_binary); intros [x X]; discriminate|intros [_ [x X]]; discriminate]].
    cbn [In] in O. repeat (destruct O as [<-|O]; [cbn; (split; [try (intros [x X]; discriminate)|try (intros [[X _] _]; discriminate)]); 
      cbn [py_flatten]; cbn; (destruct (py_flatten a); cbn [bind]; [|(intros [x X]; discriminate) || (intros [[_ [x X]] _]; discriminate)]);
      (destruct (py_flatten a0); cbn [bind]; [|(intros [x X]; discriminate) || (intros [_ [x X]]; discriminate)]); intros; repeat split; eauto|]). contradiction.
  - rewrite !andb_true_iff in W. destruct W as [[W1 W2] W3]. unfold oneof in W1. apply existsb_exists in W1. destruct W1 as (o & O & Q).
    apply String.eqb_eq in Q. subst o. rewrite !andb_true_iff, <- IHt1, <- IHt2 by auto.
    destruct (ast_to_python t1); cbn [bind]; [|split; [destruct (mem op py_binary); intros [x X]; discriminate|intros [[_ [x X]] _]; discriminate]].
    destruct (ast_to_python t2); cbn [bind]; [|split; [destruct (mem op py_binary); intros [x X]; discriminate|intros [_ [x X]]; discriminate]].
    cbn [In] in O. repeat (destruct O as [<-|O]; [cbn; (split; [try (intros [x X]; discriminate)|try (intros [[X _] _]; discriminate)]); 
      cbn [py_flatten]; cbn; (destruct (py_flatten a); cbn [bind]; [|(intros [x X]; discriminate) || (intros [[_ [x X]] _]; discriminate)]);
      (destruct (py_flatten a0); cbn [bind]; [|(intros [x X]; discriminate) || (intros [_ [x X]]; discriminate)]); intros; repeat split; eauto|]). contradiction.
  - rewrite !andb_true_iff in W. destruct W as [[W1 W2] W3].
    assert (O : In op ["+"; "-"; "*"; "/"; "<<>>"]).
    { apply orb_true_iff in W1. destruct W1 as [W1|W1].
      - unfold oneof in W1. apply existsb_exists in W1. destruct W1 as (o & O & Q). apply String.eqb_eq in Q. subst o. cbn in *. tauto.
      - apply andb_true_iff in W1. destruct W1 as [W1 _]. apply String.eqb_eq in W1. subst. cbn. tauto. }
    clear W1. rewrite !andb_true_iff, <- IHt1, <- IHt2 by auto.
    destruct (ast_to_python t1); cbn [bind]; [|split; [destruct (mem op py_binary); intros [x X]; discriminate|intros [[_ [x X]] _]; discriminate]].
    destruct (ast_to_python t2); cbn [bind]; [|split; [destruct (mem op py_binary); intros [x X]; discriminate|intros [_ [x X]]; discriminate]].
    cbn [In] in O. repeat (destruct O as [<-|O]; [cbn; (split; [try (intros [x X]; discriminate)|try (intros [[X _] _]; discriminate)]); 
      cbn [py_flatten]; cbn; (destruct (py_flatten a); cbn [bind]; [|(intros [x X]; discriminate) || (intros [[_ [x X]] _]; discriminate)]);
      (destruct (py_flatten a0); cbn [bind]; [|(intros [x X]; discriminate) || (intros [_ [x X]]; discriminate)]); intros; repeat split; eauto|]). contradiction.
  - split; [intros [x X]; discriminate|discriminate].
Qed.

(** * compile_init *)
Definition inner (ts : list pytok) (e : pyexp) : Prop :=
  forall f rest, 2 * List.length ts < f -> py_expr f 0 (ts ++ KRp :: rest) = Some (e, KRp :: rest).
Lemma atoms_inner ts e : atoms ts e -> inner ts e.
Proof.
  intros A f rest L. pose proof (atoms_len _ _ A). destruct A as [_ A]. rewrite A by lia. apply loop_rp. lia.
Qed.
Lemma inner_paren ts e : inner ts e -> atoms (KLp :: ts ++ [KRp]) e.
Proof.
  intros A. split; [discriminate|]. intros f m rest L. cbn [List.length] in L. rewrite app_length in L. cbn [List.length] in L.
  destruct f as [|f]; [lia|]. cbn [app]. norm. cbn [py_expr].
  rewrite A by lia. replace (S f - 1) with f by lia. reflexivity.
Qed.
Definition more (l : list (list pytok * pyexp)) : list pytok := List.concat (map (fun p => KOp OAnd :: fst p) l).
Lemma loop_and : forall l a f rest, Forall (fun p => atoms (fst p) (snd p)) l -> 2 * List.length (more l) < f ->
  py_loop f 0 a (more l ++ KRp :: rest) = Some (fold_left (fun a p => EBin OAnd a (snd p)) l a, KRp :: rest).
Proof.
  induction l as [|[t e] l IH]; intros a f rest F L.
  - apply loop_rp. lia.
  - unfold more in L. cbn [map List.concat fst] in L. fold (more l) in L. rewrite app_length in L. cbn [List.length] in L.
    unfold more. cbn [map List.concat fst]. fold (more l). inversion F as [|? ? A F']; subst. cbn [fst snd] in A.
    pose proof (atoms_len _ _ A). destruct A as [_ A]. destruct f as [|f]; [lia|]. norm. cbn [py_loop prec Nat.leb].
    rewrite A by lia. destruct (f - 1) as [|k] eqn:E; [lia|].
    assert (Q : py_loop (S k) 3 e (more l ++ KRp :: rest) = Some (e, more l ++ KRp :: rest)).
    { destruct l as [|[t' e'] l']; reflexivity. }
    rewrite Q. cbn [is_cmp andb fold_left snd]. apply IH; auto. lia.
Qed.
Lemma inner_and t e l : atoms t e -> Forall (fun p => atoms (fst p) (snd p)) l ->
  inner (t ++ more l) (fold_left (fun a p => EBin OAnd a (snd p)) l e).
Proof.
  intros A F f rest L. rewrite app_length in L. pose proof (atoms_len _ _ A). destruct A as [_ A]. rewrite <- app_assoc, A by lia.
  apply loop_and; auto. lia.
Qed.

(** [x]: a text that can stand between parentheses. *)
Definition py_inner (x : string) (e : pyexp) : Prop := exists ts, lexes x ts /\ inner ts e.
Lemma conj_inner xs es : Forall2 py_atom xs es -> xs <> [] ->
  exists e l, es = e :: l /\ py_inner (conj xs "" "and") (fold_left (EBin OAnd) l e).
Proof.
  intros F N. destruct F as [|x e xs l A F]; [congruence|]. exists e, l. split; [auto|]. clear N.
  assert (P : exists t r, lexes_any ("(" ++ x ++ ")") t /\ atoms t e /\ map snd r = l /\ Forall (fun p => atoms (fst p) (snd p)) r /\
     (xs <> [] -> lexes_any (" and " ++ conj xs "" "and") (more r)) /\ (xs = [] -> r = [])).
  { destruct A as (t & T1 & T2). exists (KLp :: t ++ [KRp]).
    assert (LP : forall x t, lexes x t -> lexes_any ("(" ++ x ++ ")") (KLp :: t ++ [KRp])).
    { clear. intros x t T1. change (KLp :: t ++ [KRp]) with ([KLp] ++ t ++ [KRp]). apply seg_lit; [lit|]. apply seg_end; auto; [reflexivity|discriminate|lit]. }
    assert (R : exists r, map snd r = l /\ Forall (fun p => atoms (fst p) (snd p)) r /\
       (xs <> [] -> lexes_any (" and " ++ conj xs "" "and") (more r)) /\ (xs = [] -> r = [])).
    { clear T1 T2 t x e. induction F as [|x e xs l A F IH].
      - exists []. repeat split; auto. congruence.
      - destruct A as (t & T1 & T2). destruct IH as (r & R1 & R2 & R3 & R4). exists ((KLp :: t ++ [KRp], e) :: r).
        split; [cbn; congruence|]. split; [constructor; auto; cbn; apply atoms_paren; auto|]. split; [|discriminate]. intros _.
        unfold more. cbn [map List.concat fst]. fold (more r).
        change ((KOp OAnd :: KLp :: t ++ [KRp]) ++ more r) with ([KOp OAnd] ++ (KLp :: t ++ [KRp]) ++ more r).
        unfold conj in *. cbn [map join]. apply seg_lit; [lit|]. destruct xs as [|x' xs].
        + cbn [map join]. rewrite (R4 eq_refl). change (more []) with (@nil pytok). rewrite app_nil_r. apply LP; auto.
        + cbn [map join]. change ("" ++ "(" ++ x ++ ")")%string with ("(" ++ x ++ ")")%string.
          apply seg_lit; [apply LP; auto|]. apply R3. discriminate. }
    destruct R as (r & R1 & R2 & R3 & R4). exists r. split; [apply LP; auto|]. split; [apply atoms_paren; auto|]. auto. }
  destruct P as (t & r & P1 & P2 & P3 & P4 & P5 & P6). exists (t ++ more r). split.
  - apply any_lexes. unfold conj in *. cbn [map join]. destruct xs as [|x' xs].
    + cbn [map join]. rewrite (P6 eq_refl). change (more []) with (@nil pytok). rewrite app_nil_r. exact P1.
    + cbn [map join]. change ("" ++ "(" ++ x ++ ")")%string with ("(" ++ x ++ ")")%string. apply seg_lit; [exact P1|].
      apply P5. discriminate.
  - rewrite <- P3. replace (fold_left (EBin OAnd) (map snd r) e) with (fold_left (fun a p => EBin OAnd a (snd p)) r e).
    + apply inner_and; auto.
    + clear. revert e. induction r; intro e; cbn; auto.
Qed.
Lemma init_text_parse a ea b eb : py_inner a ea -> py_inner b eb ->
  py_parse ("not (" ++ a ++ ") or (" ++ b ++ ")") = Some (EBin OOr (ENot ea) eb).
Proof.
  intros (ta & La & Aa) (tb & Lb & Ab).
  set (ts := [KNot; KLp] ++ ta ++ [KRp; KOp OOr; KLp] ++ tb ++ [KRp]).
  assert (L : lexes_any ("not (" ++ a ++ ") or (" ++ b ++ ")") ts).
  { apply seg_lit; [lit|]. apply seg_text; [auto|reflexivity|discriminate|]. apply seg_lit; [lit|].
    apply seg_end; auto; [reflexivity|discriminate|lit]. }
  unfold py_parse. specialize (L []). rewrite app_nil_r in L. rewrite L. change (py_lex [] "") with (Some (@nil pytok)). cbn [option_map].
  rewrite app_nil_r. assert (Len : List.length ts = List.length ta + List.length tb + 6).
  { unfold ts. rewrite !app_length. cbn [List.length]. lia. }
  rewrite Len. set (n := List.length ta + List.length tb) in *.
  replace (S (2 * (n + 6))) with (S (S (2 * n + 11))) by lia. unfold ts. cbn [app]. cbn [py_expr Nat.leb].
  rewrite Aa by lia. replace (2 * n + 11) with (S (2 * n + 10)) by lia. cbn [py_loop prec Nat.leb is_cmp andb].
  destruct (inner_paren _ _ Ab) as [_ PB']. rewrite <- (app_nil_r (KLp :: tb ++ [KRp])).
  rewrite PB' by (cbn [List.length]; rewrite app_length; cbn [List.length]; lia).
  replace (S (2 * n + 10) - 1) with (S (2 * n + 9)) by lia. reflexivity.
Qed.

Section side.
  Variables (Gamma : types) (s : trace) (i : nat).
  Hypothesis Hs : respects Gamma (s i).
  Let env := assignment Gamma (s i).
  Lemma fold_and_value : forall l a b, py_value env a = Some (PB b) ->
    (forall e, In e l -> exists c, py_value env e = Some (PB c)) ->
    exists c, py_value env (fold_left (EBin OAnd) l a) = Some (PB c) /\
      (c = true <-> b = true /\ forall e, In e l -> py_value env e = Some (PB true)).
  Proof.
    induction l as [|x l IH]; intros a b A H; cbn [fold_left].
    - exists b. split; [exact A|]. split; [intro; split; [auto|intros ? []]|tauto].
    - destruct (H x (or_introl eq_refl)) as [cx X]. destruct (IH (EBin OAnd a x) (b && cx)) as (c & C1 & C2).
      + cbn [py_value]. rewrite A. cbn [truthy]. destruct b; [exact X|reflexivity].
      + intros e E. apply H. right. auto.
      + exists c. split; [exact C1|]. rewrite C2, andb_true_iff. split.
        * intros [[-> ->] K]. split; [auto|]. intros e [<-|E]; auto.
        * intros [-> K]. rewrite (K x (or_introl eq_refl)) in X. inversion X. split; [auto|]. intros e E. apply K. right. auto.
  Qed.
  Lemma side_ok ts x : (forall t, In t ts -> wt Gamma t /\ no_str t = true /\ wf_node t = true) -> py_side ts = Ok x ->
    exists e b, py_inner x e /\ py_value env e = Some (PB b) /\ (b = true <-> forall t, In t ts -> holds s i t).
  Proof.
    intros H S. unfold py_side in S. destruct (mapr to_python ts) as [c|] eqn:M; [|discriminate]. cbn [bind] in S. apply Ok_inj in S.
    assert (P : exists es, Forall2 py_atom c es /\ Forall2 (fun t e => exists b, py_value env e = Some (PB b) /\ (b = true <-> holds s i t)) ts es).
    { clear S. revert c M. induction ts as [|t ts IH]; intros c M; cbn [mapr] in M.
      - apply Ok_inj in M. subst c. exists []. split; constructor.
      - destruct (to_python t) as [y|] eqn:T; [|discriminate]. destruct (mapr to_python ts) as [ys|]; [|discriminate].
        cbn [bind] in M. apply Ok_inj in M. subst c. destruct (IH (fun t I => H t (or_intror I)) ys eq_refl) as (es & E1 & E2).
        destruct (H t (or_introl eq_refl)) as (W & N & WF).
        assert (SU : py_supported t = true) by (apply (to_python_supported t WF); eauto).
        unfold to_python in T. destruct (ast_to_python t) as [u|] eqn:A; [|discriminate]. cbn [bind] in T.
        apply ast_to_python_id in A. subst u. destruct (text_ok Gamma s i Hs t W y N SU T) as (e & b & B1 & B2 & B3).
        exists (e :: es). split; constructor; eauto. }
    destruct P as (es & P1 & P2). destruct c as [|y ys].
    - inversion P1; subst es. inversion P2; subst ts. cbn in S. subst x. exists (EBool true), true. split.
      + exists [KTrue]. split; [apply word_lexes; reflexivity|apply atoms_inner, atoms_true].
      + split; [reflexivity|]. split; auto. intros _ t [].
    - destruct (conj_inner _ _ P1) as (e & l & -> & I); [discriminate|].
      assert (NE : (conj (y :: ys) "" "and" =? "")%string = false).
      { unfold conj. cbn [map]. destruct ys; reflexivity. }
      rewrite NE in S. subst x. inversion P2 as [|t ? ts' ? (b & B1 & B2) P3]; subst.
      destruct (fold_and_value l e b B1) as (cc & C1 & C2).
      { intros e' E. clear -P3 E. induction P3 as [|? ? ? ? (q & Q & _) ? IH]; [destruct E|]. destruct E as [<-|E]; eauto. }
      exists (fold_left (EBin OAnd) l e), cc. split; [exact I|]. split; [exact C1|]. rewrite C2. split.
      + intros [-> K] t' [<-|T]; [apply B2; auto|]. clear -P3 K T. induction P3 as [|t'' e' ? ? (q & Q1 & Q2) ? IH]; [destruct T|].
        destruct T as [<-|T]; [|apply IH; auto; intros; apply K; right; auto]. apply Q2. specialize (K e' (or_introl eq_refl)). congruence.
      + intro K. split; [apply B2, K; left; auto|]. intros e' E. clear -P3 K E.
        assert (K' : forall t', In t' ts' -> holds s i t') by (intros; apply K; right; auto). clear K.
        induction P3 as [|t'' e'' ? ? (q & Q1 & Q2) ? IH]; [destruct E|].
        destruct E as [<-|E]; [|apply IH; auto; intros; apply K'; right; auto]. rewrite Q1. do 2 f_equal. apply Q2, K'. left; auto.
  Qed.
  Lemma init_ok te ts e g : (forall t, In t (te ++ ts) -> wt Gamma t /\ no_str t = true /\ wf_node t = true) ->
    py_side te = Ok e -> py_side ts = Ok g ->
    exists b, py_eval env ("not (" ++ e ++ ") or (" ++ g ++ ")") = Some (PB b) /\
      (b = true <-> ((forall t, In t te -> holds s i t) -> forall t, In t ts -> holds s i t)).
  Proof.
    intros H E G. destruct (side_ok te e) as (ee & be & A1 & A2 & A3); [intros; apply H, in_app_iff; auto|auto|].
    destruct (side_ok ts g) as (eg & bg & B1 & B2 & B3); [intros; apply H, in_app_iff; auto|auto|].
    exists (negb be || bg). unfold py_eval. rewrite (init_text_parse _ _ _ _ A1 B1). cbn [py_value]. rewrite A2, B2. cbn [option_map truthy].
    split; [destruct be, bg; reflexivity|]. rewrite <- A3, <- B3. destruct be, bg; cbn; intuition congruence.
  Qed.
End side.

(** * The encoded clauses are well typed over integers *)
Lemma is_digit_char d : d < 10 -> is_digit (digit_char d) = true.
Proof. intro H. apply digit_cases in H. cbn in H. repeat (destruct H as [<-|H]; [reflexivity|]). contradiction. Qed.
Lemma digit_char_zero d : d < 10 -> digit_char d = "0"%char -> d = 0.
Proof. intro H. apply digit_cases in H. cbn in H. repeat (destruct H as [<-|H]; [reflexivity || discriminate|]). contradiction. Qed.
Lemma dec_digits_py : forall f n acc, n < f -> forallb is_digit (chars acc) = true -> (n = 0 -> acc = "") -> py_number (dec_digits f n acc) = true.
Proof.
  induction f as [|f IH]; intros n acc H A Z; [lia|]. cbn [dec_digits]. pose proof (Nat.mod_upper_bound n 10 ltac:(lia)) as B.
  pose proof (Nat.div_mod n 10 ltac:(lia)) as E.
  destruct (n / 10) as [|m] eqn:Q.
  - cbn [py_number list_ascii_of_string forallb]. rewrite is_digit_char, A by auto. cbn [andb].
    destruct (Ascii.eqb (digit_char (n mod 10)) "0") eqn:K; [|reflexivity]. apply Ascii.eqb_eq, digit_char_zero in K; [|auto].
    rewrite Z by lia. reflexivity.
  - rewrite <- Q. apply IH.
    + assert (n / 10 < n); [apply Nat.div_lt; lia|lia].
    + cbn [list_ascii_of_string forallb]. rewrite is_digit_char, A by auto. reflexivity.
    + intro K. rewrite K in Q. discriminate.
Qed.
Lemma py_number_str_nat k : py_number (str_nat k) = true.
Proof. apply dec_digits_py; auto. Qed.
Lemma enc_wt_term fv Gamma t k : wt_term Gamma t k -> forall ctx b, enc fv ctx t = Some b -> wt_term (int_types Gamma) b (int_ty k).
Proof.
  induction 1 as [x k G N|v I|v N|v N|v|op l r O L IHl R IHr]; intros ctx b H; cbn [enc] in H.
  - inversion H; subst. constructor; auto. unfold int_types. rewrite G. reflexivity.
  - inversion H; subst. apply wt_const. auto.
  - inversion H; subst. apply wt_num. auto.
  - inversion H; subst. apply wt_neg. auto.
  - unfold enc_const in H. destruct ctx as [w|]; [|discriminate]. destruct (is_term _); [|discriminate].
    destruct (lookup _ _); [|discriminate]. destruct (index_of _ _); [|discriminate]. inversion H; subst. apply wt_num, py_number_str_nat.
  - destruct (enc _ _ l) eqn:El; [|discriminate]. destruct (enc _ _ r) eqn:Er; [|discriminate]. inversion H; subst.
    apply wt_arith; [auto|eapply IHl; eauto|eapply IHr; eauto].
Qed.
Lemma enc_wt fv Gamma t : wt Gamma t -> forall ctx b, enc fv ctx t = Some b -> wt (int_types Gamma) b.
Proof.
  induction 1 as [x G N|v I|op a T IH|op l r L IHl R IHr|op l r k O L R|op l r O L R|op x y z X IHx Y IHy Z IHz]; intros ctx b H; cbn [enc] in H.
  - inversion H; subst. constructor; auto. unfold int_types. rewrite G. reflexivity.
  - inversion H; subst. constructor. auto.
  - destruct (enc _ _ a) eqn:E; [|discriminate]. inversion H; subst. constructor. eauto.
  - destruct (enc _ _ l) eqn:El; [|discriminate]. destruct (enc _ _ r) eqn:Er; [|discriminate]. inversion H; subst. constructor; eauto.
  - destruct (enc _ _ l) eqn:El; [|discriminate]. destruct (enc _ _ r) eqn:Er; [|discriminate]. inversion H; subst.
    eapply wf_eq; [auto|eapply enc_wt_term; [exact L|exact El]|eapply enc_wt_term; [exact R|exact Er]].
  - destruct (enc _ _ l) eqn:El; [|discriminate]. destruct (enc _ _ r) eqn:Er; [|discriminate]. inversion H; subst.
    apply wf_cmp; [auto|apply (enc_wt_term _ _ _ _ L _ _ El)|apply (enc_wt_term _ _ _ _ R _ _ Er)].
  - destruct (enc _ _ x) eqn:E1; [|discriminate]. destruct (enc _ _ y) eqn:E2; [|discriminate]. destruct (enc _ _ z) eqn:E3; [|discriminate].
    inversion H; subst. constructor; eauto.
Qed.
Lemma spec_types_enum g x : (exists l, spec_enums g x = Some l) <-> spec_types g x = Some TyS.
Proof.
  unfold spec_enums, spec_types. destruct (find _ (sys_vars g)) as [[y [| |l]]|]; cbn;
    [..|destruct (find _ (env_vars g)) as [[y [| |l]]|]; cbn];
    (split; [intros [l' H]|intro H]; try discriminate; eauto).
Qed.
Lemma respects_int g s s' i : respects (spec_types g) (s i) -> encoded (spec_enums g) s s' -> respects (int_types (spec_types g)) (s' i).
Proof.
  intros R E x k K. unfold int_types in K. destruct (spec_types g x) as [t|] eqn:T; [|discriminate]. cbn in K. inversion K; subst k.
  specialize (E i x). destruct (spec_enums g x) as [l|] eqn:D.
  - destruct E as (v & n & _ & _ & ->). assert (Q : spec_types g x = Some TyS) by (apply spec_types_enum; eauto).
    assert (t = TyS) by congruence. subst t. cbn. eauto.
  - rewrite E. assert (t <> TyS). { intros ->. apply spec_types_enum in T. destruct T. congruence. }
    pose proof (R x t T) as V. destruct t; auto. congruence.
Qed.
