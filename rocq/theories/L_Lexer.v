(** Facts about the lexer: fuel is never exhausted, and a text may be cut at a delimiter. *)
From Coq Require Import List String Ascii Bool Arith Lia.
From Verif Require Import M_Ast M_Lexer.
Import ListNotations.
Open Scope list_scope.
Open Scope char_scope.

Lemma span_length f s : List.length (snd (span f s)) <= List.length s.
Proof.
  induction s as [|c r IH]; simpl; auto.
  destruct (f c); simpl; auto.
  destruct (span f r); simpl in *. lia.
Qed.

Lemma peek_length d r r' : peek d r = Some r' -> List.length r' < List.length r.
Proof.
  destruct r as [|x r]; simpl; [discriminate|].
  destruct (x =? d); intro H; inversion H; subst; simpl; lia.
Qed.

Ltac peeks :=
  repeat match goal with
  | |- context [match peek ?d ?r with _ => _ end] =>
      let E := fresh "P" in destruct (peek d r) eqn:E; [apply peek_length in E|]
  end.

Lemma lex1_length c r : List.length (snd (lex1 c r)) <= List.length r.
Proof.
  unfold lex1.
  destruct ((c =? " ") || (c =? tab)); [simpl; lia|].
  destruct (name_start c).
  { pose proof (span_length name_char r). destruct (span name_char r); simpl in *; lia. }
  destruct (c =? "["); [peeks; simpl; lia|].
  destruct (c =? "<"); [peeks; simpl; lia|].
  destruct (c =? "&"); [peeks; simpl; lia|].
  destruct (c =? "/"); [peeks; simpl; lia|].
  destruct (c =? "|"); [peeks; simpl; lia|].
  destruct (c =? bslash); [peeks; simpl; lia|].
  destruct (c =? "#"); [apply span_length|].
  destruct (c =? newline); [simpl; lia|].
  destruct (c =? "-"); [peeks; simpl; lia|].
  destruct (c =? "="); [peeks; simpl; lia|].
  destruct (c =? "!"); [peeks; simpl; lia|].
  destruct (c =? "~"); [simpl; lia|].
  destruct (c =? ">"); [peeks; simpl; lia|].
  destruct (c =? "^"); [simpl; lia|].
  destruct (c =? "("); [simpl; lia|].
  destruct (c =? ")"); [simpl; lia|].
  destruct (digit c).
  { pose proof (span_length digit r). destruct (span digit r); simpl in *; lia. }
  repeat match goal with |- context [if ?b then _ else _] => destruct b end; simpl; lia.
Qed.

Lemma lexf_enough : forall n m s, List.length s <= n -> List.length s <= m -> lexf n s = lexf m s.
Proof.
  induction n; intros m s Hn Hm.
  - destruct s; simpl in *; [destruct m; reflexivity|lia].
  - destruct s as [|c r]; [destruct m; reflexivity|].
    destruct m; simpl in *; [lia|].
    pose proof (lex1_length c r).
    destruct (lex1 c r) as [o r']; simpl in *.
    rewrite (IHn m r') by lia. reflexivity.
Qed.

(** The unfolding equation of the token stream (no fuel left). *)
Lemma lexl_cons c r :
  lexl (c :: r) =
  match fst (lex1 c r) with
  | Some t => t :: lexl (snd (lex1 c r))
  | None => lexl (snd (lex1 c r))
  end.
Proof.
  unfold lexl. simpl. pose proof (lex1_length c r).
  destruct (lex1 c r) as [o r']; simpl in *.
  rewrite (lexf_enough (List.length r) (List.length r') r') by lia. reflexivity.
Qed.

(** Characters at which no token continues. *)
Definition delim (d : ascii) : Prop := d = " " \/ d = "(" \/ d = ")" \/ d = "," \/ d = "010".

Lemma peek_app d x r t : delim d -> (d =? x) = false ->
  peek x (r ++ d :: t) = option_map (fun r' => r' ++ d :: t) (peek x r).
Proof.
  intros _ H. destruct r as [|y r]; simpl.
  - rewrite H. reflexivity.
  - destruct (y =? x); reflexivity.
Qed.

Lemma span_app f d r t : f d = false ->
  span f (r ++ d :: t) = (fst (span f r), snd (span f r) ++ d :: t).
Proof.
  intro H. induction r as [|c r IH]; simpl.
  - rewrite H. reflexivity.
  - destruct (f c); simpl; [|reflexivity].
    rewrite IH. destruct (span f r); reflexivity.
Qed.

Ltac peekapp Hd :=
  repeat match goal with
  | |- context [peek ?x (?r ++ ?d :: ?t)] =>
      rewrite (peek_app d x r t Hd) by (destruct Hd as [->|[->|[->|[->| ->]]]]; reflexivity);
      destruct (peek x r) eqn:?; cbn [option_map]
  end.

Lemma lex1_app c d r t : delim d -> (c =? "#") = false ->
  lex1 c (r ++ d :: t) = (fst (lex1 c r), snd (lex1 c r) ++ d :: t).
Proof.
  intros Hd Hc. unfold lex1. rewrite Hc.
  destruct ((c =? " ") || (c =? tab)); [reflexivity|].
  destruct (name_start c).
  { rewrite span_app by (destruct Hd as [->|[->|[->|[->| ->]]]]; reflexivity).
    destruct (span name_char r); reflexivity. }
  destruct (c =? "["); [peekapp Hd; reflexivity|].
  destruct (c =? "<"); [peekapp Hd; reflexivity|].
  destruct (c =? "&"); [peekapp Hd; reflexivity|].
  destruct (c =? "/"); [peekapp Hd; reflexivity|].
  destruct (c =? "|"); [peekapp Hd; reflexivity|].
  destruct (c =? bslash); [peekapp Hd; reflexivity|].
  destruct (c =? newline); [reflexivity|].
  destruct (c =? "-"); [peekapp Hd; reflexivity|].
  destruct (c =? "="); [peekapp Hd; reflexivity|].
  destruct (c =? "!"); [peekapp Hd; reflexivity|].
  destruct (c =? "~"); [reflexivity|].
  destruct (c =? ">"); [peekapp Hd; reflexivity|].
  destruct (c =? "^"); [reflexivity|].
  destruct (c =? "("); [reflexivity|].
  destruct (c =? ")"); [reflexivity|].
  destruct (digit c).
  { rewrite span_app by (destruct Hd as [->|[->|[->|[->| ->]]]]; reflexivity).
    destruct (span digit r); reflexivity. }
  repeat match goal with |- context [if ?b then _ else _] => destruct b end; reflexivity.
Qed.

(** No comment character. *)
Definition no_hash (s : list ascii) : Prop := forall c, In c s -> (c =? "#") = false.

Lemma span_incl f s c : In c (snd (span f s)) -> In c s.
Proof.
  induction s as [|x r IH]; simpl; auto.
  destruct (f x); simpl; auto. destruct (span f r); simpl in *; auto.
Qed.

Lemma peek_incl d r r' c : peek d r = Some r' -> In c r' -> In c r.
Proof.
  destruct r as [|x r]; simpl; [discriminate|].
  destruct (x =? d); intro H; inversion H; subst; auto.
Qed.

Lemma lex1_incl c r x : In x (snd (lex1 c r)) -> In x r.
Proof.
  unfold lex1.
  destruct ((c =? " ") || (c =? tab)); [auto|].
  destruct (name_start c).
  { pose proof (span_incl name_char r x). destruct (span name_char r); simpl in *; auto. }
  Local Ltac pinc := repeat match goal with
    | |- context [match peek ?d ?r with _ => _ end] =>
      let E := fresh "P" in destruct (peek d r) eqn:E end; simpl; eauto using peek_incl.
  destruct (c =? "["); [pinc|].
  destruct (c =? "<"); [pinc|].
  destruct (c =? "&"); [pinc|].
  destruct (c =? "/"); [pinc|].
  destruct (c =? "|"); [pinc|].
  destruct (c =? bslash); [pinc|].
  destruct (c =? "#"); [apply span_incl|].
  destruct (c =? newline); [auto|].
  destruct (c =? "-"); [pinc|].
  destruct (c =? "="); [pinc|].
  destruct (c =? "!"); [pinc|].
  destruct (c =? "~"); [auto|].
  destruct (c =? ">"); [pinc|].
  destruct (c =? "^"); [auto|].
  destruct (c =? "("); [auto|].
  destruct (c =? ")"); [auto|].
  destruct (digit c).
  { pose proof (span_incl digit r x). destruct (span digit r); simpl in *; auto. }
  repeat match goal with |- context [if ?b then _ else _] => destruct b end; auto.
Qed.

(** Cutting the token stream at a delimiter. *)
Lemma lexl_app : forall n s d t, List.length s <= n -> delim d -> no_hash s ->
  lexl (s ++ d :: t) = lexl s ++ lexl (d :: t).
Proof.
  induction n; intros s d t Hn Hd Hh.
  - destruct s; simpl in *; [reflexivity|lia].
  - destruct s as [|c r]; [reflexivity|].
    cbn [app]. rewrite !(lexl_cons c).
    rewrite lex1_app; [|assumption|apply Hh; left; reflexivity].
    cbn [fst snd]. pose proof (lex1_length c r) as HL.
    assert (Hh' : no_hash (snd (lex1 c r))).
    { intros x Hx. apply Hh. right. eapply lex1_incl; eauto. }
    rewrite (IHn (snd (lex1 c r))); simpl in *; [|lia|assumption|assumption].
    destruct (fst (lex1 c r)); reflexivity.
Qed.

Lemma lexl_space t : lexl (" " :: t) = lexl t.
Proof. rewrite lexl_cons. reflexivity. Qed.
Lemma lexl_lparen t : lexl ("(" :: t) = LPAREN :: lexl t.
Proof. rewrite lexl_cons. reflexivity. Qed.
Lemma lexl_rparen t : lexl (")" :: t) = RPAREN :: lexl t.
Proof. rewrite lexl_cons. reflexivity. Qed.

Lemma lexl_newline t : lexl ("010" :: t) = lexl t.
Proof. rewrite lexl_cons. reflexivity. Qed.

Lemma lexl_comma t : lexl ("," :: t) = COMMA :: lexl t.
Proof. rewrite lexl_cons. reflexivity. Qed.

Lemma las_app s t :
  list_ascii_of_string (s ++ t) = (list_ascii_of_string s ++ list_ascii_of_string t)%list.
Proof. induction s; simpl; congruence. Qed.

Definition nohash (s : string) : Prop := no_hash (list_ascii_of_string s).

Lemma nohash_app s t : nohash s -> nohash t -> nohash (s ++ t).
Proof.
  unfold nohash, no_hash. rewrite las_app. intros H1 H2 c Hc.
  apply in_app_or in Hc. destruct Hc; auto.
Qed.

(** String-level cut: [t] starts with a delimiter. *)
Definition starts_delim (t : string) : Prop :=
  match t with String d _ => delim d | EmptyString => True end.

Lemma lex_app s t : nohash s -> starts_delim t -> lex (s ++ t) = (lex s ++ lex t)%list.
Proof.
  intros Hh Hd. unfold lex. rewrite las_app.
  destruct t as [|d t]; simpl in *.
  - unfold lexl at 3. simpl. rewrite !app_nil_r. reflexivity.
  - apply lexl_app with (n := List.length (list_ascii_of_string s)); auto.
Qed.

(** A text ending in a delimiter also allows a cut. *)
Lemma lex_app_r s d t : nohash s -> delim d ->
  lex (s ++ String d t) = (lex (s ++ String d EmptyString) ++ lex t)%list.
Proof.
  intros Hh Hd. rewrite (lex_app s (String d t)), (lex_app s (String d "")); auto.
  rewrite <- app_assoc. f_equal.
  unfold lex. simpl. destruct Hd as [->|[->|[->|[->| ->]]]].
  - rewrite !lexl_space. reflexivity.
  - rewrite !lexl_lparen. reflexivity.
  - rewrite !lexl_rparen. reflexivity.
  - rewrite !lexl_comma. reflexivity.
  - rewrite !lexl_newline. reflexivity.
Qed.
