(** Facts about the parser: a text that parses also parses between parentheses, anywhere. *)
From Coq Require Import List String Ascii Bool Arith Lia.
From Verif Require Import M_Ast M_Lexer M_Parser L_Lexer.
Import ListNotations.
Open Scope string_scope.
Open Scope list_scope.

(** Frames that [reduce] never removes. *)
Definition barrier (f : frame) : Prop :=
  match f with FUn _ _ | FBin _ _ _ => False | _ => True end.

Lemma reduce_app lvl f base (Hb : barrier f) : forall st e,
  reduce lvl (st ++ f :: base) e =
  (fst (reduce lvl st e) ++ f :: base, snd (reduce lvl st e)).
Proof.
  induction st as [|x st IH]; intros e; cbn [app reduce fst snd].
  - destruct f; simpl in Hb; try contradiction; reflexivity.
  - destruct x; cbn [reduce]; try reflexivity; destruct (Nat.leb lvl lvl0); try reflexivity; apply IH.
Qed.

(** What closes a barrier frame, and the state reached. *)
Definition closes (f : frame) (t : tok) (st : list frame) (e : node) : option (list frame * option node) :=
  match f, t with
  | FParen, RPAREN => Some (st, Some e)
  | FIte3 op a b, RPAREN => Some (st, Some (NIte op a b e))
  | FIte1 op, COMMA => Some (FIte2 op e :: st, None)
  | FIte2 op a, COMMA => Some (FIte3 op a e :: st, None)
  | _, _ => None
  end.

Lemma closes_run f t base e st' m' ts :
  closes f t base e = Some (st', m') ->
  run (t :: ts) (f :: base) (Some e) = run ts st' m'.
Proof.
  destruct f, t; simpl; try discriminate; intro H; inversion H; subst; reflexivity.
Qed.

Lemma run_frame : forall n ts st m P f t base st' m' rest,
  List.length ts <= n -> barrier f ->
  run ts st m = Some P ->
  closes f t base P = Some (st', m') ->
  run (ts ++ t :: rest) (st ++ f :: base) m = run rest st' m'.
Proof.
  induction n; intros ts st m P f t base st' m' rest Hn Hb HP Hc.
  - destruct ts; [|simpl in Hn; lia].
    destruct m as [e|]; [|simpl in HP; discriminate].
    simpl in HP. cbn [app].
    destruct (reduce 0 st e) as [r e'] eqn:E. destruct r; [|discriminate]. inversion HP; subst.
    pose proof (reduce_app 0 f base Hb st e) as HR. rewrite E in HR. cbn [fst snd app] in HR.
    destruct f, t; simpl in Hc; try discriminate; inversion Hc; subst;
      cbn [run]; rewrite HR; reflexivity.
  - destruct ts as [|x ts].
    { apply (IHn [] st m P f t base st' m' rest); auto; simpl; lia. }
    cbn [List.length] in Hn.
    assert (IH : forall ts0 st0 m0, List.length ts0 <= n ->
      run ts0 st0 m0 = Some P ->
      run (ts0 ++ t :: rest) (st0 ++ f :: base) m0 = run rest st' m').
    { intros. eapply IHn; eauto. }
    clear IHn.
    cbn [app].
    destruct m as [e|].
    + destruct x; cbn [run] in HP |- *; try discriminate;
        try rewrite (reduce_app _ f base Hb); cbn [fst snd] in *.
      * (* RPAREN *)
        destruct (reduce 0 st e) as [r e']; cbn [fst snd app].
        destruct r as [|[]]; try discriminate; cbn [app]; apply IH; auto; lia.
      * destruct (reduce 0 st e) as [r e']; cbn [fst snd app].
        destruct r as [|[]]; try discriminate; cbn [app].
        -- rewrite <- IH with (ts0 := ts) (st0 := FIte2 op e' :: r) (m0 := None); auto; lia.
        -- rewrite <- IH with (ts0 := ts) (st0 := FIte3 op a e' :: r) (m0 := None); auto; lia.
      * destruct (reduce 14 st e) as [r e']; cbn [fst snd]. apply IH; auto; lia.
      * destruct (reduce (blevel k) st e) as [r e']; cbn [fst snd].
        rewrite <- IH with (ts0 := ts) (st0 := FBin (blevel k) (mk_bin k v) e' :: r) (m0 := None);
          auto; lia.
      * destruct (reduce minus_level st e) as [r e']; cbn [fst snd].
        rewrite <- IH with (ts0 := ts) (st0 := FBin minus_level (NArith "-") e' :: r) (m0 := None);
          auto; lia.
      * destruct ts as [|[] ts]; try discriminate. cbn [app].
        try rewrite (reduce_app _ f base Hb).
        destruct (reduce 0 st e) as [r e']; cbn [fst snd].
        apply IH; auto; simpl in *; lia.
    + destruct x; cbn [run] in HP |- *; try discriminate;
        try (apply IH; [lia|assumption]).
      * destruct ts as [|y ts]; [discriminate|]. cbn [app].
        destruct y; try (
          match goal with |- context [FParen :: st ++ f :: base] =>
            change (FParen :: st ++ f :: base) with ((FParen :: st) ++ f :: base) end;
          match goal with |- run (?y :: ts ++ t :: rest) _ _ = _ =>
            change (y :: ts ++ t :: rest) with ((y :: ts) ++ t :: rest) end;
          apply IH; [simpl in *; lia | assumption]).
        change (FIte1 v :: st ++ f :: base) with ((FIte1 v :: st) ++ f :: base).
        apply IH; [simpl in *; lia | assumption].
      * destruct ts as [|y ts]; [discriminate|]. destruct y; try discriminate.
        destruct ts as [|y ts]; [discriminate|]. destruct y; try discriminate.
        cbn [app]. apply IH; [simpl in *; lia | assumption].
      * change (FUn 12 v :: st ++ f :: base) with ((FUn 12 v :: st) ++ f :: base).
        apply IH; [lia|assumption].
      * change (FUn 6 "G" :: st ++ f :: base) with ((FUn 6 "G" :: st) ++ f :: base).
        apply IH; [lia|assumption].
      * change (FUn 6 "F" :: st ++ f :: base) with ((FUn 6 "F" :: st) ++ f :: base).
        apply IH; [lia|assumption].
      * change (FUn 13 "X" :: st ++ f :: base) with ((FUn 13 "X" :: st) ++ f :: base).
        apply IH; [lia|assumption].
      * destruct ts as [|y ts]; [discriminate|]. destruct y; try discriminate.
        cbn [app]. apply IH; [simpl in *; lia | assumption].
Qed.

(** A parsable token list does not start with ITE. *)
Lemma parse_not_ite ts P : parse_toks ts = Some P -> forall v r, ts <> ITE v :: r.
Proof. intros H v r ->. discriminate. Qed.

(** The frame lemma for parentheses. *)
Lemma run_paren ts P st rest :
  parse_toks ts = Some P ->
  run (LPAREN :: ts ++ RPAREN :: rest) st None = run rest st (Some P).
Proof.
  intro H.
  assert (E : run (LPAREN :: ts ++ RPAREN :: rest) st None
              = run (ts ++ RPAREN :: rest) (FParen :: st) None).
  { destruct ts as [|[] ts]; try reflexivity. discriminate. }
  rewrite E.
  apply (run_frame (List.length ts) ts [] None P FParen RPAREN st st (Some P) rest); simpl; auto.
Qed.

Lemma run_paren_name a st rest :
  run (LPAREN :: NAME a :: RPAREN :: rest) st None = run rest st (Some (NVar a)).
Proof. reflexivity. Qed.

(** Cutting texts. *)
Fixpoint ends_delim (s : string) : bool :=
  match s with
  | EmptyString => false
  | String c EmptyString => ((c =? " ") || (c =? "(") || (c =? ")"))%char
  | String _ r => ends_delim r
  end.

Definition nohashb (s : string) : bool :=
  forallb (fun c => negb (c =? "#")%char) (list_ascii_of_string s).

Lemma nohashb_ok s : nohashb s = true <-> nohash s.
Proof.
  unfold nohashb, nohash, no_hash. rewrite forallb_forall.
  split; intros H c Hc; specialize (H c Hc); destruct (c =? "#")%char; auto; discriminate.
Qed.

Lemma ends_delim_split s : ends_delim s = true ->
  exists s' d, delim d /\ s = (s' ++ String d "")%string.
Proof.
  induction s as [|c r IH]; [discriminate|].
  destruct r as [|c' r].
  - cbn [ends_delim]. intro H. exists ""%string, c. split; [|reflexivity].
    apply orb_true_iff in H. destruct H as [H|H].
    + apply orb_true_iff in H. unfold delim. destruct H as [H|H]; apply Ascii.eqb_eq in H; auto.
    + apply Ascii.eqb_eq in H. unfold delim; auto 6.
  - intro H. destruct (IH H) as (s' & d & Hd & E).
    exists (String c s'), d. split; auto. rewrite E. reflexivity.
Qed.

Lemma string_app_assoc (a b c : string) : (a ++ (b ++ c) = (a ++ b) ++ c)%string.
Proof. induction a; simpl; congruence. Qed.

Lemma nohash_cut (a b : string) : nohash (a ++ b) -> nohash a /\ nohash b.
Proof.
  unfold nohash, no_hash. rewrite las_app. intro H. split; intros c Hc; apply H;
  apply in_or_app; auto.
Qed.

Lemma lex_lit s t : nohashb s = true -> ends_delim s = true ->
  lex (s ++ t) = lex s ++ lex t.
Proof.
  intros Hh He. apply nohashb_ok in Hh.
  destruct (ends_delim_split s He) as (s' & d & Hd & ->).
  apply nohash_cut in Hh. destruct Hh as [Hh _].
  rewrite <- string_app_assoc. cbn [String.append].
  apply lex_app_r; assumption.
Qed.

Lemma parse_paren p P : nohash p -> parse p = Some P -> parse ("(" ++ p ++ ")") = Some P.
Proof.
  intros Hh Hp. unfold parse in *.
  rewrite lex_lit by reflexivity. rewrite lex_app by (simpl; unfold delim; auto).
  change (lex "(") with [LPAREN]. change (lex ")") with [RPAREN]. cbn [app].
  unfold parse_toks. rewrite run_paren with (P := P); auto.
Qed.
