(** Lemmas for the reader of never claims: tokens of texts, guards. *)
From Coq Require Import List String Ascii Bool Arith ZArith Lia.
From Verif Require Import M_Base M_Ast M_Lexer M_Gr1c S_LTL L_Dec S_Python L_Python L_PyCase M_Ltl2ba S_Never.
Import ListNotations.
Open Scope string_scope.
Open Scope list_scope.
Open Scope nat_scope.
Notation chars s := (list_ascii_of_string s).

(** * Tokens *)
Lemma span_len f s : List.length (snd (span f s)) <= List.length s.
Proof. induction s as [|c s IH]; cbn [span]; [cbn; lia|]. destruct (f c); [|cbn; lia]. destruct (span f s); cbn in *; lia. Qed.
Lemma peek_len d r q : peek d r = Some q -> List.length q <= List.length r.
Proof. destruct r as [|x r]; cbn; [discriminate|]. destruct (x =? d)%char; [|discriminate]. intros [= ->]. lia. Qed.
Lemma comment_len s : forall q, comment_end s = Some q -> List.length q <= List.length s.
Proof.
  induction s as [|c s IH]; cbn [comment_end]; [discriminate|]. intro q. destruct (c =? M_Lexer.newline)%char; [discriminate|]. destruct (comment_end s) as [r|]; [intros [= <-]; cbn; assert (H := IH r eq_refl); lia|].
  destruct (c =? "*")%char; [|discriminate]. intro H. apply peek_len in H. cbn. lia.
Qed.
Lemma blex1_len c r : List.length (snd (blex1 c r)) <= List.length r.
Proof.
  unfold blex1. repeat match goal with
  | |- context [let (_, _) := span ?f ?s in _] => assert (L := span_len f s); destruct (span f s); cbn in *; clear - L; lia
  | |- context [match peek ?d ?s with _ => _ end] => let P := fresh in destruct (peek d s) eqn:P; [apply peek_len in P|]
  | |- context [match comment_end ?s with _ => _ end] => let P := fresh in destruct (comment_end s) eqn:P; [apply comment_len in P|]
  | |- context [if ?b then _ else _] => destruct b
  end; cbn; lia.
Qed.
Lemma blexf_more n : forall s, List.length s <= n -> blexf n s = blexf (List.length s) s.
Proof.
  induction n as [n IH] using lt_wf_ind. intros s L. destruct s as [|c r], n as [|n]; cbn [List.length] in *; [reflexivity|reflexivity|lia|]. cbn [blexf].
  assert (B := blex1_len c r). destruct (blex1 c r) as [o r']. cbn [snd] in B. rewrite (IH n) by lia.
  assert (E : blexf (List.length r) r' = blexf (List.length r') r') by (destruct (Nat.eq_dec (List.length r) n) as [<-|]; apply IH; lia). rewrite E. reflexivity.
Qed.
Definition bl (s : list ascii) : list btok := blexf (List.length s) s.
Lemma bl_cons c r : bl (c :: r) = match fst (blex1 c r) with Some t => t :: bl (snd (blex1 c r)) | None => bl (snd (blex1 c r)) end.
Proof.
  unfold bl at 1. cbn [List.length blexf]. assert (B := blex1_len c r). destruct (blex1 c r) as [o r']. cbn [fst snd] in *. rewrite blexf_more by lia. reflexivity.
Qed.
(** A text that gives tokens whatever follows; one that does if no word character follows. *)
Definition gives (s : string) (ts : list btok) : Prop := forall rest, bl (chars s ++ rest) = ts ++ bl rest.
Definition wgives (s : string) (ts : list btok) : Prop := forall rest, nonword_start rest -> bl (chars s ++ rest) = ts ++ bl rest.
Lemma gives_w s ts : gives s ts -> wgives s ts.
Proof. intros H rest _. apply H. Qed.
Lemma gives_app a ta b tb : gives a ta -> gives b tb -> gives (a ++ b)%string (ta ++ tb).
Proof. intros A B rest. rewrite chars_app, <- app_assoc, A, B, app_assoc. reflexivity. Qed.
Lemma gives_wapp a ta b tb : gives a ta -> wgives b tb -> wgives (a ++ b)%string (ta ++ tb).
Proof. intros A B rest N. rewrite chars_app, <- app_assoc, A, B, app_assoc by exact N. reflexivity. Qed.
(** The next characters are not those of a word. *)
Definition delimited (b : string) : Prop := match chars b with [] => False | c :: _ => word_char c = false end.
Lemma wgives_app a ta b tb : wgives a ta -> gives b tb -> delimited b -> gives (a ++ b)%string (ta ++ tb).
Proof.
  intros A B D rest. rewrite chars_app, <- app_assoc, A, B, app_assoc; [reflexivity|]. unfold delimited in D. destruct (chars b); [contradiction|exact D].
Qed.
Lemma wgives_wapp a ta b tb : wgives a ta -> wgives b tb -> delimited b -> wgives (a ++ b)%string (ta ++ tb).
Proof.
  intros A B D rest N. rewrite chars_app, <- app_assoc, A, B, app_assoc; [reflexivity|exact N|]. unfold delimited in D. destruct (chars b); [contradiction|exact D].
Qed.
Lemma blank_not_word c : blank_char c = true -> word_char c = false.
Proof. destruct c as [[] [] [] [] [] [] [] []]; vm_compute; congruence. Qed.
Lemma blank_gives s : blank s -> gives s [].
Proof.
  unfold blank. induction s as [|c s IH]; intros H rest; [reflexivity|]. cbn [list_ascii_of_string forallb] in H. apply andb_true_iff in H. destruct H as [H1 H2].
  cbn [list_ascii_of_string app]. rewrite bl_cons. replace (blex1 c (chars s ++ rest)) with (@None btok, chars s ++ rest).
  - cbn [fst snd]. apply (IH H2).
  - unfold blex1. unfold blank_char in H1. change tab with "009"%char. change M_Lexer.newline with "010"%char. rewrite H1. reflexivity.
Qed.
Lemma blank_delimited s : blank s -> s <> "" -> delimited s.
Proof. unfold blank, delimited. destruct s as [|c s]; [congruence|]. cbn. intros H _. apply andb_true_iff in H. apply blank_not_word, H. Qed.
Lemma delimited_app a b : blank a -> delimited b -> delimited (a ++ b)%string.
Proof. destruct a as [|c a]; [intros _ H; exact H|]. intros H _. apply (blank_delimited (String c a) H). discriminate. Qed.
Lemma name_start_letter c : name_start c = is_letter c.
Proof. destruct c as [[] [] [] [] [] [] [] []]; vm_compute; reflexivity. Qed.
Lemma word_same c : word c = word_char c.
Proof. destruct c as [[] [] [] [] [] [] [] []]; vm_compute; reflexivity. Qed.
Lemma digit_same c : digit c = is_digit c.
Proof. destruct c as [[] [] [] [] [] [] [] []]; vm_compute; reflexivity. Qed.
Lemma span_all f s rest : forallb f s = true -> match rest with [] => True | c :: _ => f c = false end -> span f (s ++ rest) = (s, rest).
Proof.
  induction s as [|c s IH]; intros H N; cbn [app].
  - destruct rest as [|c r]; [reflexivity|]. cbn [span]. rewrite N. reflexivity.
  - cbn [forallb] in H. apply andb_true_iff in H. destruct H as [H1 H2]. cbn [span]. rewrite H1, (IH H2 N). reflexivity.
Qed.
Lemma str_of_chars s : str_of (chars s) = s.
Proof. apply string_of_list_ascii_of_string. Qed.
Lemma word_gives c r : is_letter c = true -> forallb word_char (chars r) = true -> wgives (String c r) [word_tok (String c r)].
Proof.
  intros H1 H2 rest N. cbn [list_ascii_of_string app]. rewrite bl_cons.
  assert (E : blex1 c (chars r ++ rest) = (Some (word_tok (String c r)), rest)).
  { unfold blex1. replace ((c =? " ")%char || (c =? tab)%char || (c =? M_Lexer.newline)%char) with false.
    - rewrite name_start_letter, H1. rewrite span_all; [change (c :: chars r) with (chars (String c r)); rewrite str_of_chars; reflexivity| |].
      + clear - H2. induction (chars r) as [|d l IH]; [reflexivity|]. cbn [forallb] in *. apply andb_true_iff in H2. destruct H2 as [A B]. rewrite word_same, A. apply IH, B.
      + destruct rest as [|d q]; [exact I|]. rewrite word_same. exact N.
    - symmetry. revert H1. clear. destruct c as [[] [] [] [] [] [] [] []]; vm_compute; congruence. }
  rewrite E. reflexivity.
Qed.
Lemma ident_gives x : ident x -> wgives x [BName x].
Proof.
  intros [H K]. destruct x as [|c r]; [contradiction|]. destruct H as [H1 H2]. replace (BName (String c r)) with (word_tok (String c r)); [apply word_gives; assumption|].
  unfold word_tok. destruct (String c r =? "goto")%string eqn:E; [apply String.eqb_eq in E; rewrite E in K; cbn in K; tauto|]. clear E.
  destruct (String c r =? "if")%string eqn:E; [apply String.eqb_eq in E; rewrite E in K; cbn in K; tauto|]. clear E.
  destruct (String c r =? "fi")%string eqn:E; [apply String.eqb_eq in E; rewrite E in K; cbn in K; tauto|]. clear E.
  destruct (String c r =? "never")%string eqn:E; [apply String.eqb_eq in E; rewrite E in K; cbn in K; tauto|]. clear E.
  destruct (String c r =? "skip")%string eqn:E; [apply String.eqb_eq in E; rewrite E in K; cbn in K; tauto|]. reflexivity.
Qed.
Lemma number_gives v : digits v -> wgives v [BNumber v].
Proof.
  intros [NE H] rest N. destruct v as [|c r]; [congruence|]. cbn [list_ascii_of_string forallb] in H. apply andb_true_iff in H. destruct H as [H1 H2]. cbn [list_ascii_of_string app]. rewrite bl_cons.
  assert (E : blex1 c (chars r ++ rest) = (Some (BNumber (String c r)), rest)).
  { assert (S1 : span digit (chars r ++ rest) = (chars r, rest)).
    { apply span_all.
      - clear - H2. induction (chars r) as [|d l IH]; [reflexivity|]. cbn [forallb] in *. apply andb_true_iff in H2. destruct H2 as [A B]. rewrite digit_same, A. apply IH, B.
      - destruct rest as [|d q]; [exact I|]. unfold nonword_start, word_char in N. apply orb_false_iff in N. rewrite digit_same. apply N. }
    assert (E : blex1 c (chars r ++ rest) = let (a, b) := span digit (chars r ++ rest) in (Some (BNumber (str_of (c :: a))), b)).
    { assert (NO : forall d, is_digit d = false -> (c =? d)%char = false) by (intros d D; destruct (Ascii.eqb_spec c d) as [->|]; congruence).
      unfold blex1. rewrite name_start_letter, (digit_not_letter c H1), digit_same, H1. rewrite !NO by reflexivity. reflexivity. }
    rewrite E, S1. change (c :: chars r) with (chars (String c r)). rewrite str_of_chars. reflexivity. }
  rewrite E. reflexivity.
Qed.
(** Fixed texts *)
Lemma sym1 s t : (forall rest, bl (chars s ++ rest) = t :: bl rest) -> gives s [t].
Proof. intro H. exact H. Qed.
Ltac fixed := intro rest; cbn [list_ascii_of_string app]; rewrite bl_cons; reflexivity.
Lemma lp_gives : gives "(" [BLp]. Proof. fixed. Qed.
Lemma rp_gives : gives ")" [BRp]. Proof. fixed. Qed.
Lemma and_gives : gives "&&" [BAnd]. Proof. fixed. Qed.
Lemma or_gives : gives "||" [BOr]. Proof. fixed. Qed.
Lemma colon2_gives : gives "::" [BColon2]. Proof. fixed. Qed.
Lemma imp_gives : gives "->" [BImp]. Proof. fixed. Qed.
Lemma semi_gives : gives ";" [BSemi]. Proof. fixed. Qed.
Lemma lb_gives : gives "{" [BLb]. Proof. fixed. Qed.
Lemma rb_gives : gives "}" [BRb]. Proof. fixed. Qed.
Lemma goto_gives : wgives "goto" [BGoto]. Proof. apply (word_gives "g" "oto"); reflexivity. Qed.
Lemma if_gives : wgives "if" [BIf]. Proof. apply (word_gives "i" "f"); reflexivity. Qed.
Lemma fi_gives : wgives "fi" [BFi]. Proof. apply (word_gives "f" "i"); reflexivity. Qed.
Lemma never_gives : wgives "never" [BNever]. Proof. apply (word_gives "n" "ever"); reflexivity. Qed.
(** A text does not start with the given character. *)
Definition starts_not (d : ascii) (s : string) : Prop := match chars s with [] => False | c :: _ => c <> d end.
Lemma starts_not_app d a b : blank a -> ~ blank_char d = true -> starts_not d b -> starts_not d (a ++ b)%string.
Proof.
  intros A D B. destruct a as [|c a]; [exact B|]. unfold starts_not. cbn. intros ->. unfold blank in A. cbn in A. apply andb_true_iff in A. apply D, A.
Qed.
Lemma starts_not_more d a b : starts_not d a -> starts_not d (a ++ b)%string.
Proof. unfold starts_not. rewrite chars_app. destruct (chars a); [contradiction|]. intro H. exact H. Qed.
Lemma peek_not d s rest : starts_not d s -> peek d (chars s ++ rest) = None.
Proof. unfold starts_not. destruct (chars s) as [|c l]; [contradiction|]. intro H. cbn [app peek]. destruct (Ascii.eqb_spec c d); [contradiction|reflexivity]. Qed.
Lemma not_gives s ts : gives s ts -> starts_not "=" s -> gives ("!" ++ s)%string (BNot :: ts).
Proof. intros H N rest. cbn [String.append list_ascii_of_string app]. rewrite bl_cons. unfold blex1. cbn -[peek bl]. rewrite (peek_not _ _ _ N). cbn [fst snd]. rewrite H. reflexivity. Qed.
Lemma not_wgives s ts : wgives s ts -> starts_not "=" s -> wgives ("!" ++ s)%string (BNot :: ts).
Proof. intros H N rest W. cbn [String.append list_ascii_of_string app]. rewrite bl_cons. unfold blex1. cbn -[peek bl]. rewrite (peek_not _ _ _ N). cbn [fst snd]. rewrite H by exact W. reflexivity. Qed.
Lemma colon_gives s ts : gives s ts -> starts_not ":" s -> gives (":" ++ s)%string (BColon :: ts).
Proof. intros H N rest. cbn [String.append list_ascii_of_string app]. rewrite bl_cons. unfold blex1. cbn -[peek bl]. rewrite (peek_not _ _ _ N). cbn [fst snd]. rewrite H. reflexivity. Qed.
(** Comments *)
Lemma comment_line comment rest : ~ In "010"%char (chars comment) -> comment_end (chars comment ++ "*"%char :: "/"%char :: "010"%char :: rest) = Some ("010"%char :: rest).
Proof.
  induction comment as [|c s IH]; intro N; cbn [list_ascii_of_string app].
  - reflexivity.
  - cbn [comment_end]. change M_Lexer.newline with "010"%char. destruct (Ascii.eqb_spec c "010") as [->|NE]; [exfalso; apply N; left; reflexivity|].
    rewrite IH; [reflexivity|]. intro I. apply N. right. exact I.
Qed.
Lemma comment_gives comment : ~ In "010"%char (chars comment) -> gives ("/*" ++ comment ++ "*/" ++ newline)%string [BComment].
Proof.
  intros N rest. assert (E : chars (comment ++ "*/" ++ newline)%string ++ rest = chars comment ++ "*"%char :: "/"%char :: "010"%char :: rest) by (rewrite chars_app, <- app_assoc; reflexivity).
  change (chars ("/*" ++ comment ++ "*/" ++ newline)%string ++ rest) with ("/"%char :: "*"%char :: (chars (comment ++ "*/" ++ newline)%string ++ rest)). rewrite E, bl_cons.
  assert (B : blex1 "/" ("*"%char :: (chars comment ++ "*"%char :: "/"%char :: "010"%char :: rest)) = (Some BComment, "010"%char :: rest)).
  { unfold blex1. cbn [Ascii.eqb Bool.eqb orb name_start peek]. match goal with |- (if ?b then _ else _) = _ => change b with false end. cbv iota. match goal with |- (if ?b then _ else _) = _ => change b with false end. cbv iota.
    rewrite (comment_line comment rest N). reflexivity. }
  rewrite B. cbn [fst snd app]. rewrite (bl_cons "010"). reflexivity.
Qed.

(** * Guards *)
Fixpoint gexp (g : guard) : pyexp :=
  match g with
  | QNum n => ENum n
  | QVar x => EName x
  | QNot g => ENot (gexp g)
  | QAnd g h => EBin OAnd (gexp g) (gexp h)
  | QOr g h => EBin OOr (gexp g) (gexp h)
  end.
Lemma gexp_value w g : exists v, py_value (env_of w) (gexp g) = Some v /\ truthy v = holds w g.
Proof.
  induction g as [n|x|g IH|g IHg h IHh|g IHg h IHh]; cbn [gexp py_value holds].
  - exists (PZ n). split; reflexivity.
  - exists (PB (w x)). split; reflexivity.
  - destruct IH as (v & -> & <-). exists (PB (negb (truthy v))). split; reflexivity.
  - destruct IHg as (v & -> & <-). destruct IHh as (u & -> & <-). destruct (truthy v) eqn:T; [exists u|exists v]; split; auto.
  - destruct IHg as (v & -> & <-). destruct IHh as (u & -> & <-). destruct (truthy v) eqn:T; [exists v|exists u]; split; auto.
Qed.
Lemma atom_op l o a b ea eb : lexes_any l [KOp o] -> nonword_start (chars l) -> l <> "" -> py_atom a ea -> py_atom b eb -> py_atom ("(" ++ a ++ l ++ b ++ ")")%string (EBin o ea eb).
Proof.
  intros L N NE (ta & La & Aa) (tb & Lb & Ab). eexists. split; [|apply atoms_bin; eauto]. apply any_lexes.
  change (KLp :: ta ++ KOp o :: tb ++ [KRp]) with ([KLp] ++ ta ++ [KOp o] ++ tb ++ [KRp]).
  apply seg_lit; [lit|]. apply seg_text; auto. apply seg_lit; auto. apply seg_end; auto; [reflexivity|discriminate|lit].
Qed.
Lemma atom_neg a ea : py_atom a ea -> py_atom ("(not " ++ a ++ ")")%string (ENot ea).
Proof.
  intros (ta & La & Aa). eexists. split; [|apply atoms_not; eauto]. apply any_lexes.
  change (KLp :: KNot :: ta ++ [KRp]) with ([KLp; KNot] ++ ta ++ [KRp]).
  apply seg_lit; [lit|]. apply seg_end; auto; [reflexivity|discriminate|lit].
Qed.
Lemma nat_text_pos v : forall a n, (0 <= a)%Z -> nat_text a v = Some n -> (0 <= n)%Z.
Proof.
  induction v as [|c v IH]; intros a n A H; cbn [nat_text] in H; [congruence|]. destruct (digit_val c) as [d|] eqn:D; [|discriminate].
  apply (IH (10 * a + d)%Z n); [|exact H]. unfold digit_val in D. destruct (_ && _); [|discriminate]. injection D as <-. lia.
Qed.
Lemma atom_num n : (0 <= n)%Z -> py_atom (str_Z n) (ENum n).
Proof. intro P. exists [KNum n]. split; [|apply atoms_num]. unfold str_Z. replace (n <? 0)%Z with false by (symmetry; apply Z.ltb_ge, P). replace n with (Z.of_nat (Z.to_nat n)) at 2 by lia. apply lex_nat. Qed.

Lemma pbind_assoc {A B C} (x : pres A) (f : A -> list btok -> pres B) (g : B -> list btok -> pres C) : pbind (pbind x f) g = pbind x (fun a r => pbind (f a r) g).
Proof.
  destruct x as [a r ev|r ev]; [|reflexivity]. cbn [pbind]. destruct (f a r) as [b q ev'|q ev']; [|reflexivity]. cbn [pbind]. destruct (g b q) as [c p ev''|p ev'']; rewrite app_assoc; reflexivity.
Qed.
Lemma pbind_ok {A B} (a : A) r ev (f : A -> list btok -> pres B) b q ev' : f a r = POk b q ev' -> pbind (POk a r ev) f = POk b q (ev ++ ev').
Proof. intro H. cbn [pbind]. rewrite H. reflexivity. Qed.
Definition no_and (ts : list btok) : Prop := match ts with BAnd :: _ => False | _ => True end.
Definition closes (ts : list btok) : Prop := match ts with BAnd :: _ | BOr :: _ => False | _ => True end.
Lemma loop_closed f m g ts : closes ts -> 1 <= f -> bloop f m g ts = POk g ts [].
Proof. intros C F. destruct f as [|f]; [lia|]. destruct ts as [|t ts]; [reflexivity|]. destruct t; try contradiction; reflexivity. Qed.
Lemma loop_tight f g ts : 1 <= f -> bloop f 3 g ts = POk g ts [].
Proof. intros F. destruct f as [|f]; [lia|]. destruct ts as [|t ts]; [reflexivity|]. destruct t; reflexivity. Qed.
Lemma loop_conj f g ts : 1 <= f -> no_and ts -> bloop f 2 g ts = POk g ts [].
Proof. intros F N. destruct f as [|f]; [lia|]. destruct ts as [|t ts]; [reflexivity|]. destruct t; try contradiction; reflexivity. Qed.
Definition reads (k : nat) (ts : list btok) (G : bguard) (ev : list event) : Prop :=
  forall f m rest, m <= S k -> 2 * List.length ts <= f -> (k = 0 -> no_and rest) ->
  exists f', f - 2 * List.length ts + 1 <= f' /\ f' < f /\ bexpr f m (ts ++ rest) = pbind (POk G rest ev) (bloop f' m).
Lemma reads_tight ts G ev f rest : reads 2 ts G ev -> 2 * List.length ts <= f -> bexpr f 3 (ts ++ rest) = POk G rest ev.
Proof.
  intros R F. destruct (R f 3 rest) as (f' & F1 & F2 & ->); [lia|exact F|discriminate|]. rewrite (pbind_ok _ _ _ _ G rest []); [rewrite app_nil_r; reflexivity|]. apply loop_tight. lia.
Qed.
Lemma reads_conj ts G ev f rest : reads 1 ts G ev -> 2 * List.length ts <= f -> no_and rest -> bexpr f 2 (ts ++ rest) = POk G rest ev.
Proof.
  intros R F N. destruct (R f 2 rest) as (f' & F1 & F2 & ->); [lia|exact F|discriminate|]. rewrite (pbind_ok _ _ _ _ G rest []); [rewrite app_nil_r; reflexivity|]. apply loop_conj; [lia|exact N].
Qed.
Lemma reads_closed ts G ev f rest : reads 0 ts G ev -> 2 * List.length ts <= f -> closes rest -> bexpr f 1 (ts ++ rest) = POk G rest ev.
Proof.
  intros R F N. destruct (R f 1 rest) as (f' & F1 & F2 & ->); [lia|exact F|intros _; destruct rest as [|[] r]; cbn in *; auto|]. rewrite (pbind_ok _ _ _ _ G rest []); [rewrite app_nil_r; reflexivity|]. apply loop_closed; [exact N|lia].
Qed.
Definition starts_guard (s : string) : Prop := exists c r, s = String c r /\ (word_char c = true \/ c = "("%char \/ c = "!"%char).
Lemma guard_start k s g : guard_text k s g -> starts_guard s.
Proof.
  assert (AP : forall s t, starts_guard s -> starts_guard (s ++ t)%string) by (intros s' t (c & r & -> & H); exists c, (r ++ t)%string; split; [reflexivity|exact H]).
  intro H. induction H.
  - destruct H as [NE D]. destruct v as [|c r]; [congruence|]. exists c, r. split; [reflexivity|]. left. cbn in D. apply andb_true_iff in D. unfold word_char. rewrite (proj1 D). reflexivity.
  - destruct H as [H _]. destruct x as [|c r]; [contradiction|]. exists c, r. split; [reflexivity|]. left. unfold word_char. rewrite (proj1 H). apply orb_true_r.
  - exists "("%char. eexists. split; [reflexivity|auto].
  - exists "!"%char. eexists. split; [reflexivity|auto].
  - apply AP. exact IHguard_text1.
  - apply AP. exact IHguard_text1.
Qed.
Lemma start_guard_not s d : starts_guard s -> word_char d = false -> d <> "("%char -> d <> "!"%char -> starts_not d s.
Proof. intros (c & r & -> & H) A B C. unfold starts_not. cbn. intros ->. destruct H as [H|[H|H]]; congruence. Qed.
Lemma blank_eq : ~ blank_char "=" = true. Proof. discriminate. Qed.
Lemma blank_colon : ~ blank_char ":" = true. Proof. discriminate. Qed.
Lemma guard_read k s g : guard_text k s g -> (forall x, mentions x g -> py_name x = true) ->
  exists ts G ev, wgives s ts /\ reads k ts G ev /\ py_atom (gstr G) (gexp g) /\ (forall n, G = GInt n -> g = QNum n) /\
    (forall e, In e ev <-> exists x, e = ESymbol x /\ mentions x g).
Proof.
  intro H. induction H as [k v n D NT|k x I|k a s b g A B _ IH|k a s g A T IH|k s a b t g h K A B T1 IH1 T2 IH2|s a b t g h A B T1 IH1 T2 IH2]; intro PN.
  - exists [BNumber v], (GInt n), []. split; [apply number_gives, D|]. split; [|split; [cbn [gstr gexp]; apply atom_num, (nat_text_pos v 0 n); [lia|exact NT]|split; [intros ? [= ->]; reflexivity|]; intro e; cbn [In mentions]; split; [intros []|intros (x & _ & [])]]].
    intros f m rest M F _. cbn [List.length] in F. destruct f as [|f]; [lia|]. exists f. cbn [List.length]. split; [lia|]. split; [lia|]. cbn [app bexpr]. rewrite NT. reflexivity.
  - exists [BName x], (GText x), [ESymbol x]. split; [apply ident_gives, I|]. split; [|split; [cbn [gstr gexp]; apply name_atom, PN; reflexivity|split; [discriminate|]]].
    + intros f m rest M F _. cbn [List.length] in F. destruct f as [|f]; [lia|]. exists f. cbn [List.length]. split; [lia|]. split; [lia|]. reflexivity.
    + intro e. cbn [In mentions]. split; [intros [<-|[]]; eauto|intros (y & -> & ->); auto].
  - destruct (IH PN) as (ts & G & ev & L & R & P & _ & E). exists (BLp :: ts ++ [BRp]), (GText ("(" ++ gstr G ++ ")")), ev. split; [|split; [|split; [|split; [discriminate|exact E]]]].
    + apply gives_w. apply (gives_app "(" [BLp] _ (ts ++ [BRp]) lp_gives). apply (gives_app a [] _ (ts ++ [BRp]) (blank_gives a A)).
      apply (wgives_app s ts (b ++ ")")%string [BRp] L); [apply (gives_app b [] ")" [BRp] (blank_gives b B) rp_gives)|apply delimited_app; [exact B|reflexivity]].
    + intros f m rest M F _. cbn [List.length] in F. rewrite app_length in F. cbn [List.length] in F. destruct f as [|f]; [lia|]. exists f. cbn [List.length]. rewrite app_length. cbn [List.length].
      split; [lia|]. split; [lia|]. cbn [app bexpr]. rewrite <- app_assoc. rewrite (reads_closed ts G ev f ([BRp] ++ rest) R) by (cbn; auto; lia). reflexivity.
    + cbn [gstr]. apply py_atom_paren, P.
  - destruct (IH PN) as (ts & G & ev & L & R & P & _ & E). exists (BNot :: ts), (GText ("(not " ++ gstr G ++ ")")), ev. split; [|split; [|split; [|split; [discriminate|exact E]]]].
    + apply not_wgives; [apply (gives_wapp a [] s ts (blank_gives a A) L)|]. apply starts_not_app; [exact A|exact blank_eq|]. apply start_guard_not; [apply (guard_start _ _ _ T)|reflexivity|discriminate|discriminate].
    + intros f m rest M F _. cbn [List.length] in F. destruct f as [|f]; [lia|]. exists f. cbn [List.length]. split; [lia|]. split; [lia|]. cbn [app bexpr].
      rewrite (reads_tight ts G ev f rest R) by lia. reflexivity.
    + cbn [gstr gexp]. apply atom_neg, P.
  - destruct (IH1 (fun x M => PN x (or_introl M))) as (ts & G & ev & L & R & P & _ & E). destruct (IH2 (fun x M => PN x (or_intror M))) as (us & G' & ev' & L' & R' & P' & _ & E').
    exists (ts ++ BAnd :: us), (GText ("(" ++ gstr G ++ " and " ++ gstr G' ++ ")")), (ev ++ ev'). split; [|split; [|split; [|split; [discriminate|]]]].
    + apply (wgives_wapp s ts _ (BAnd :: us) L); [|apply delimited_app; [exact A|reflexivity]]. apply (gives_wapp a [] _ (BAnd :: us) (blank_gives a A)).
      apply (gives_wapp "&&" [BAnd] _ us and_gives). apply (gives_wapp b [] t us (blank_gives b B) L').
    + intros f m rest M F N. rewrite app_length in F. cbn [List.length] in F. rewrite app_length. cbn [List.length].
      rewrite <- app_assoc. cbn [app]. destruct (R f m (BAnd :: us ++ rest)) as (f1 & F1 & F2 & ->); [lia|lia|discriminate|]. destruct f1 as [|f1]; [lia|]. exists f1. split; [lia|]. split; [lia|].
      cbn [pbind bloop]. replace (m <=? 2) with true by (symmetry; apply Nat.leb_le; lia). rewrite (reads_tight us G' ev' f1 rest R') by lia. cbn [pbind].
      destruct (bloop f1 m _ rest); rewrite app_assoc; reflexivity.
    + cbn [gstr gexp]. apply (atom_op " and " OAnd); [lit|reflexivity|discriminate|exact P|exact P'].
    + intro e. rewrite in_app_iff, E, E'. cbn [mentions]. split; [intros [(x & -> & M)|(x & -> & M)]; exists x; auto|intros (x & -> & [M|M]); [left|right]; exists x; auto].
  - destruct (IH1 (fun x M => PN x (or_introl M))) as (ts & G & ev & L & R & P & _ & E). destruct (IH2 (fun x M => PN x (or_intror M))) as (us & G' & ev' & L' & R' & P' & _ & E').
    exists (ts ++ BOr :: us), (GText ("(" ++ gstr G ++ " or " ++ gstr G' ++ ")")), (ev ++ ev'). split; [|split; [|split; [|split; [discriminate|]]]].
    + apply (wgives_wapp s ts _ (BOr :: us) L); [|apply delimited_app; [exact A|reflexivity]]. apply (gives_wapp a [] _ (BOr :: us) (blank_gives a A)).
      apply (gives_wapp "||" [BOr] _ us or_gives). apply (gives_wapp b [] t us (blank_gives b B) L').
    + intros f m rest M F N. rewrite app_length in F. cbn [List.length] in F. rewrite app_length. cbn [List.length].
      rewrite <- app_assoc. cbn [app]. destruct (R f m (BOr :: us ++ rest)) as (f1 & F1 & F2 & ->); [lia|lia|intros _; exact I|]. destruct f1 as [|f1]; [lia|]. exists f1. split; [lia|]. split; [lia|].
      cbn [pbind bloop]. replace (m <=? 1) with true by (symmetry; apply Nat.leb_le; lia). rewrite (reads_conj us G' ev' f1 rest R') by (auto; lia). cbn [pbind].
      destruct (bloop f1 m _ rest); rewrite app_assoc; reflexivity.
    + cbn [gstr gexp]. apply (atom_op " or " OOr); [lit|reflexivity|discriminate|exact P|exact P'].
    + intro e. rewrite in_app_iff, E, E'. cbn [mentions]. split; [intros [(x & -> & M)|(x & -> & M)]; exists x; auto|intros (x & -> & [M|M]); [left|right]; exists x; auto].
Qed.
