(** C92: translation of formulas for ltl2dstar. *)
From Coq Require Import List String Ascii Bool Arith Lia.
From Verif Require Import M_Base M_Spin.
Import ListNotations.
Local Open Scope string_scope.

(** * Specification *)

(** Formulas written with blanks, and parentheses around each binary operator, with the signs
    that SPIN has. *)
Definition un_sign (o : unop) : string :=
  match o with ONot => "!" | ONext => "X" | OAlways => "[]" | OEventually => "<>" end.
Definition bin_sign (o : binop) : string :=
  match o with OUntil => "U" | OAnd => "&&" | OOr => "||" | OImplies => "->" | OIff => "<->" end.
Fixpoint written (a : ast) : string :=
  match a with
  | AIdent s => s
  | AUn o a => un_sign o ++ " " ++ written a
  | ABin o a b => "(" ++ written a ++ " " ++ bin_sign o ++ " " ++ written b ++ ")"
  end.
(** Names of letters, digits and underscores that start neither with a digit nor with X. *)
Fixpoint occurs (c : ascii) (s : string) : bool :=
  match s with "" => false | String d r => Ascii.eqb c d || occurs c r end.
Definition letters : string := "abcdefghijklmnopqrstuvwxyzABCDEFGHIJKLMNOPQRSTUVWXYZ_".
Fixpoint all_later (s : string) : bool :=
  match s with "" => true | String c r => (occurs c letters || occurs c "0123456789") && all_later r end.
Definition name_ok (s : string) : bool :=
  match s with "" => false | String c r => occurs c letters && negb (Ascii.eqb c "X") && all_later r end.
Fixpoint names_ok (a : ast) : bool :=
  match a with
  | AIdent s => name_ok s
  | AUn _ a => names_ok a
  | ABin _ a b => names_ok a && names_ok b
  end.

(** How ltl2dstar reads a formula: operators before their arguments, each word one token. *)
Definition un_words : list (string * unop) :=
  [("!", ONot); ("X", ONext); ("G", OAlways); ("F", OEventually)].
Definition bin_words : list (string * binop) :=
  [("U", OUntil); ("&", OAnd); ("|", OOr); ("i", OImplies); ("e", OIff)].
Fixpoint read_prefix (fuel : nat) (l : list string) : option (ast * list string) :=
  match fuel, l with
  | S f, w :: r =>
      match lookup w un_words, lookup w bin_words with
      | Some o, _ => match read_prefix f r with Some (a, r') => Some (AUn o a, r') | None => None end
      | None, Some o =>
          match read_prefix f r with
          | Some (a, r') => match read_prefix f r' with
                            | Some (b, r'') => Some (ABin o a b, r'')
                            | None => None
                            end
          | None => None
          end
      | None, None => Some (AIdent w, r)
      end
  | _, _ => None
  end.
(** A text denotes a formula: the words between blanks are read as that formula, to the end. *)
Definition denotes (t : string) (a : ast) : Prop :=
  exists ws, t = concat " " ws /\ read_prefix (List.length ws) ws = Some (a, []).
(** Names that are not read as operators. *)
Definition not_word (s : string) : bool :=
  match lookup s un_words, lookup s bin_words with None, None => true | _, _ => false end.
Fixpoint no_words (a : ast) : bool :=
  match a with
  | AIdent s => not_word s
  | AUn _ a => no_words a
  | ABin _ a b => no_words a && no_words b
  end.

(** * Output *)

Lemma app_assoc_s : forall a b c : string, (a ++ b) ++ c = a ++ (b ++ c).
Proof. induction a; simpl; intros; [|f_equal]; auto. Qed.
Lemma app_nil_s : forall a : string, a ++ "" = a.
Proof. induction a; simpl; [|f_equal]; auto. Qed.
Lemma app_length_s : forall a b, String.length (a ++ b) = String.length a + String.length b.
Proof. induction a; simpl; intros; auto. Qed.

Fixpoint dwords (a : ast) : list string :=
  match a with
  | AIdent s => [s]
  | AUn o a => dstar_un o :: dwords a
  | ABin o a b => dstar_bin o :: dwords a ++ dwords b
  end.
Lemma dwords_ne a : dwords a <> [].
Proof. destruct a; discriminate. Qed.
Lemma concat_cons2 s x l : l <> [] -> concat s (x :: l) = x ++ s ++ concat s l.
Proof. destruct l; [contradiction|reflexivity]. Qed.
Lemma concat_app s k l : k <> [] -> l <> [] -> concat s (k ++ l) = concat s k ++ s ++ concat s l.
Proof.
  intros Hk Hl. induction k as [|x k IH]; [contradiction|]. destruct k as [|y k].
  - cbn [app]. rewrite concat_cons2 by assumption. reflexivity.
  - change ((x :: y :: k) ++ l)%list with (x :: ((y :: k) ++ l))%list.
    rewrite concat_cons2 by discriminate. rewrite IH by discriminate.
    rewrite (concat_cons2 s x (y :: k)) by discriminate. rewrite !app_assoc_s. reflexivity.
Qed.
Lemma to_dstar_words a : to_dstar a = concat " " (dwords a).
Proof.
  induction a as [s|o a IH|o a IHa b IHb]; cbn [to_dstar dwords].
  - reflexivity.
  - rewrite concat_cons2 by apply dwords_ne. rewrite IH. reflexivity.
  - rewrite concat_cons2 by (intros E; apply app_eq_nil in E; destruct (dwords_ne a); tauto).
    rewrite concat_app by apply dwords_ne. rewrite IHa, IHb. reflexivity.
Qed.
Lemma read_words a : no_words a = true -> forall fuel r, List.length (dwords a) <= fuel ->
  read_prefix fuel (dwords a ++ r) = Some (a, r).
Proof.
  induction a as [s|o a IH|o a IHa b IHb]; cbn [no_words dwords]; intros H fuel r L.
  - destruct fuel; [cbn in L; lia|]. cbn [read_prefix app]. unfold not_word in H.
    destruct (lookup s un_words); [discriminate|]. destruct (lookup s bin_words); [discriminate|reflexivity].
  - cbn in L. destruct fuel; [lia|]. cbn [read_prefix app].
    replace (lookup (dstar_un o) un_words) with (Some o) by (destruct o; reflexivity).
    rewrite IH by (assumption || lia). reflexivity.
  - apply andb_prop in H as [Ha Hb]. cbn [List.length] in L. rewrite app_length in L.
    destruct fuel; [lia|]. cbn [read_prefix app].
    replace (lookup (dstar_bin o) un_words) with (@None unop) by (destruct o; reflexivity).
    replace (lookup (dstar_bin o) bin_words) with (Some o) by (destruct o; reflexivity).
    rewrite <- app_assoc, IHa, IHb by (assumption || lia). reflexivity.
Qed.

(** The text that is made of a formula denotes this formula. *)
Theorem dstar_denotes a : no_words a = true -> denotes (to_dstar a) a.
Proof.
  intros H. exists (dwords a). split; [apply to_dstar_words|].
  rewrite <- (app_nil_r (dwords a)) at 2. apply read_words; auto.
Qed.

(** * The parser *)

Lemma first_spec c : occurs c letters = is_first c.
Proof. destruct c as [[] [] [] [] [] [] [] []]; vm_compute; reflexivity. Qed.
Lemma later_spec c : occurs c letters || occurs c "0123456789" = is_later c.
Proof. destruct c as [[] [] [] [] [] [] [] []]; vm_compute; reflexivity. Qed.
Lemma first_char c : is_first c = true ->
  is_white c = false /\ Ascii.eqb "!" c = false /\ Ascii.eqb "[" c = false /\ Ascii.eqb "<" c = false.
Proof. destruct c as [[] [] [] [] [] [] [] []]; vm_compute; try discriminate; auto. Qed.
Definition stops (r : string) : bool := match r with "" => true | String c _ => negb (is_later c) end.
Lemma later_all s r : all_later s = true -> stops r = true -> later (s ++ r) = (s, r).
Proof.
  intros H Hr. induction s as [|c s IH].
  - cbn [append]. destruct r as [|c r]; [reflexivity|]. cbn [later].
    cbn in Hr. apply negb_true_iff in Hr. rewrite Hr. reflexivity.
  - cbn [all_later] in H. rewrite later_spec in H. apply andb_prop in H as [H1 H2]. cbn [append later]. rewrite H1, IH by assumption. reflexivity.
Qed.

Fixpoint need (a : ast) : nat :=
  match a with AIdent _ => 1 | AUn _ a => 1 + need a | ABin _ a b => 4 + need a + need b end.
Lemma need_pos a : 1 <= need a.
Proof. destruct a; cbn [need]; lia. Qed.
Lemma need_length a : names_ok a = true -> need a <= 4 * String.length (written a).
Proof.
  induction a as [s|o a IH|o a IHa b IHb]; cbn [names_ok need written]; intros H.
  - destruct s; [discriminate|]. cbn [String.length]. lia.
  - specialize (IH H). rewrite !app_length_s. cbn [String.length]. lia.
  - apply andb_prop in H as [Ha Hb]. specialize (IHa Ha). specialize (IHb Hb).
    rewrite !app_length_s. cbn [String.length]. lia.
Qed.

(** No operator at the start of what is left. *)
Definition ends (r : string) : Prop := r = "" \/ exists r', r = String ")" r'.
Lemma more_ends f r st : ends r -> parse_more (S f) r st = (st, PMatch r).
Proof. intros [->|[r' ->]]; reflexivity. Qed.
Lemma ends_stops r : ends r -> stops r = true.
Proof. intros [->|[r' ->]]; reflexivity. Qed.

Lemma skip_blank f s st : parse_unary f (String " " s) st = parse_unary f s st.
Proof. destruct f; reflexivity. Qed.
Lemma form_blank f s st : parse_form f (String " " s) st = parse_form f s st.
Proof. destruct f; [reflexivity|]. cbn [parse_form]. rewrite skip_blank.
  destruct (parse_unary f s st) as [st' []]; [reflexivity|apply skip_blank|reflexivity].
Qed.

Lemma parse_bin_op o s : first_bin bin_ops (skip (String " " (bin_sign o ++ String " " s))) = Some (o, String " " s).
Proof. destruct o; reflexivity. Qed.

Lemma parse_written a : names_ok a = true -> forall fuel r st, need a <= fuel -> stops r = true ->
  parse_unary fuel (written a ++ r) st = (a :: st, PMatch r).
Proof.
  induction a as [s|o a IH|o a IHa b IHb]; cbn [names_ok need written]; intros H fuel r st L Hr.
  - destruct fuel as [|f]; [lia|]. destruct s as [|c s]; [discriminate|].
    unfold name_ok in H. rewrite first_spec in H. apply andb_prop in H as [H Hs]. apply andb_prop in H as [Hc Hx].
    apply negb_true_iff in Hx. destruct (first_char c Hc) as [W [A [B D]]].
    cbn [append parse_unary skip]. rewrite W. cbn [literal spin_un]. rewrite A, B, D.
    rewrite Ascii.eqb_sym, Hx. cbn [identifier]. rewrite Hc, later_all by assumption. reflexivity.
  - destruct fuel as [|f]; [lia|].
    assert (E : parse_unary f (String " " (written a ++ r)) st = (a :: st, PMatch r))
      by (rewrite skip_blank; apply IH; (assumption || lia)).
    rewrite !app_assoc_s. cbn [append].
    destruct o; cbn [un_sign spin_un append parse_unary skip is_white literal Ascii.eqb Bool.eqb orb];
      rewrite E; reflexivity.
  - apply andb_prop in H as [Ha Hb]. pose proof (need_pos a). pose proof (need_pos b).
    destruct fuel as [|[|[|f]]]; [lia|lia|lia|].
    assert (Ef : parse_form (S (S f)) (written a ++ String " " (bin_sign o ++ String " " (written b ++ String ")" r))) st =
                 (ABin o a b :: st, PMatch (String ")" r))).
    { cbn [parse_form]. rewrite IHa by (assumption || lia || reflexivity).
      cbn [parse_more]. rewrite parse_bin_op.
      destruct f as [|f']; [lia|].
      rewrite form_blank. cbn [parse_form]. rewrite IHb by (assumption || lia || reflexivity).
      destruct f' as [|f'']; [lia|]. rewrite more_ends by (right; eauto). cbn [push_bin].
      apply more_ends. right. eauto. }
    rewrite !app_assoc_s. cbn [append]. rewrite ?app_assoc_s. cbn [append].
    cbn [parse_unary skip is_white literal spin_un Ascii.eqb Bool.eqb orb identifier].
    change (is_white "(") with false. change (is_first "(") with false. cbn iota.
    rewrite Ef. reflexivity.
Qed.

(** Every formula, written with parentheses, is read as it is, and the text made of it denotes
    it; the global stack is left empty. *)
Theorem spin_dstar_correct a : names_ok a = true -> no_words a = true ->
  exists t, spin_to_dstar (written a) [] = (Ok t, []) /\ denotes t a.
Proof.
  intros H Hw. exists (to_dstar a). split; [|apply dstar_denotes, Hw].
  unfold spin_to_dstar, spin_to_AST. pose proof (need_length a H).
  destruct (4 * String.length (written a) + 4) as [|[|f]] eqn:E; [lia|lia|].
  cbn [parse_form].
  assert (P : parse_unary (S f) (written a) [] = ([a], PMatch "")).
  { rewrite <- (app_nil_s (written a)). apply parse_written; [assumption|lia|reflexivity]. }
  rewrite P. rewrite more_ends by (left; reflexivity). reflexivity.
Qed.

(** * The global stack *)

(** A match pushes one formula, and nothing is ever removed from what was there before. *)
Definition pushes (st : stack) (x : stack * pres) : Prop :=
  match snd x with
  | PMatch _ => exists junk a, fst x = (a :: junk ++ st)%list
  | _ => exists junk, fst x = (junk ++ st)%list
  end.
Lemma pushes_junk (junk st : stack) x : pushes (junk ++ st)%list x -> pushes st x.
Proof.
  unfold pushes. destruct (snd x).
  - intros [j [a ->]]. exists (j ++ junk)%list, a. rewrite app_assoc. reflexivity.
  - intros [j ->]. exists (j ++ junk)%list. rewrite app_assoc. reflexivity.
  - intros [j ->]. exists (j ++ junk)%list. rewrite app_assoc. reflexivity.
Qed.
Lemma parse_pushes f :
  (forall s st, pushes st (parse_unary f s st)) /\
  (forall s st, pushes st (parse_form f s st)) /\
  (forall s a st, pushes st (parse_more f s (a :: st))).
Proof.
  induction f as [|f [IU [IF IM]]].
  - split; [|split]; intros; cbn.
    + exists []. reflexivity.
    + exists []. reflexivity.
    + exists [a]. reflexivity.
  - split; [|split].
    + intros s st. cbn [parse_unary]. generalize (skip s). clear s. intros s.
      assert (T : forall o st0 next, (forall st1, pushes st1 (next st1)) ->
        pushes st0 match literal (spin_un o) s with
          | None => next st0
          | Some r => match parse_unary f r st0 with
                      | (st', PMatch r') => push_un o st' r'
                      | (st', PFail) => next st'
                      | (st', PRaise) => (st', PRaise)
                      end
          end).
      { intros o st0 next Hn. destruct (literal (spin_un o) s) as [r|]; [|apply Hn].
        pose proof (IU r st0) as Hu. destruct (parse_unary f r st0) as [st' [r'| |]].
        - destruct Hu as [junk [a E]]. cbn [fst] in E. subst st'. exists junk, (AUn o a). reflexivity.
        - destruct Hu as [junk E]. cbn [fst] in E. subst st'. apply (pushes_junk junk). apply Hn.
        - exact Hu. }
      apply T. intros st1. apply T. intros st2. apply T. intros st3. apply T. intros st4.
      destruct (identifier s) as [[w r]|]; [exists [], (AIdent w); reflexivity|].
      destruct (literal "(" s) as [r|]; [|exists []; reflexivity].
      pose proof (IF r st4) as Hf. destruct (parse_form f r st4) as [st' [r'| |]]; [|exact Hf|exact Hf].
      destruct (literal ")" (skip r')); [exact Hf|].
      destruct Hf as [junk [a E]]. exists (a :: junk). exact E.
    + intros s st. cbn [parse_form].
      pose proof (IU s st) as Hu. destruct (parse_unary f s st) as [st' [r'| |]].
      * destruct Hu as [junk [a E]]. cbn [fst] in E. subst st'. apply (pushes_junk junk). apply IM.
      * destruct Hu as [junk E]. cbn [fst] in E. subst st'. apply (pushes_junk junk). apply IU.
      * exact Hu.
    + intros s a st. cbn [parse_more]. destruct (first_bin bin_ops (skip s)) as [[o r]|].
      2: { exists [], a. reflexivity. }
      pose proof (IF r (a :: st)) as Hf. destruct (parse_form f r (a :: st)) as [st' [r'| |]].
      * destruct Hf as [junk [b E]]. cbn [fst] in E. subst st'. destruct junk as [|j junk].
        -- cbn [app push_bin]. apply IM.
        -- cbn [app push_bin]. apply (pushes_junk (junk ++ [a])%list). rewrite <- app_assoc. apply IM.
      * destruct Hf as [junk E]. cbn [fst] in E. subst st'. destruct junk as [|j junk].
        -- exists [], a. reflexivity.
        -- exists (junk ++ [a])%list, j. rewrite <- app_assoc. reflexivity.
      * destruct Hf as [junk E]. cbn [fst] in E. subst st'. exists (junk ++ [a])%list.
        rewrite <- app_assoc. reflexivity.
Qed.

(** While a formula of an earlier call is on the stack no call returns, and it stays there. *)
Lemma spin_stuck s st : st <> [] -> exists e st', spin_to_dstar s st = (Err e, st') /\ st' <> [].
Proof.
  intros H. unfold spin_to_dstar, spin_to_AST.
  destruct (parse_pushes (4 * String.length s + 4)) as [_ [F _]]. specialize (F s st).
  destruct (parse_form _ s st) as [st' [r| |]].
  - destruct F as [junk [a E]]. cbn [fst] in E. subst st'.
    destruct (skip r); [|eexists; eexists; split; [reflexivity|discriminate]].
    destruct (junk ++ st)%list as [|b l] eqn:E.
    + apply app_eq_nil in E. destruct H. tauto.
    + eexists. eexists. split; [reflexivity|discriminate].
  - destruct F as [junk E]. cbn [fst] in E. subst st'. eexists. eexists. split; [reflexivity|].
    intros E. apply app_eq_nil in E. tauto.
  - destruct F as [junk E]. cbn [fst] in E. subst st'. eexists. eexists. split; [reflexivity|].
    intros E. apply app_eq_nil in E. tauto.
Qed.
(** The results of calls one after the other in one process. *)
Fixpoint calls (l : list string) (st : stack) : list (res string) :=
  match l with
  | [] => []
  | s :: l => let '(r, st') := spin_to_dstar s st in r :: calls l st'
  end.
Theorem spin_calls_stuck s l : snd (spin_to_dstar s []) <> [] ->
  Forall (fun r => exists e, r = Err e) (calls l (snd (spin_to_dstar s []))).
Proof.
  generalize (snd (spin_to_dstar s [])). induction l as [|t l IH]; intros st H; [constructor|].
  cbn [calls]. destruct (spin_stuck t st H) as [e [st' [E H']]]. rewrite E.
  constructor; [eauto|]. apply IH, H'.
Qed.
(** Formulas that can be read are read by any number of calls, as each leaves the stack empty. *)
Theorem spin_calls_correct l : Forall (fun a => names_ok a = true /\ no_words a = true) l ->
  Forall2 (fun a r => exists t, r = Ok t /\ denotes t a) l (calls (map written l) []).
Proof.
  induction l as [|a l IH]; intros H; [constructor|].
  inversion H as [|? ? [Ha Hw] Hl]; subst. cbn [map calls].
  destruct (spin_dstar_correct a Ha Hw) as [t [E D]]. rewrite E. constructor; [eauto|auto].
Qed.

(** * Cases *)

Definition ex_a := ABin OImplies (AUn OAlways (AUn OEventually (AIdent "a"))) (ABin OUntil (AIdent "p0") (AUn ONot (AIdent "b_1"))).
Example ex_ok : names_ok ex_a = true /\ no_words ex_a = true /\
  written ex_a = "([] <> a -> (p0 U ! b_1))" /\
  spin_to_dstar (written ex_a) [] = (Ok "i G F a U p0 ! b_1", []).
Proof. vm_compute. auto. Qed.
Example ex_tests :
  fst (spin_to_dstar "[]<> a" []) = Ok "G F a" /\ fst (spin_to_dstar "p0 && p1" []) = Ok "& p0 p1" /\
  fst (spin_to_dstar "([] <> a) -> ([] <> b)" []) = Ok "i G F a G F b" /\
  fst (spin_to_dstar "(p U q) || (r U z)" []) = Ok "| U p q U r z".
Proof. vm_compute. auto. Qed.

(** One text with a mistake and no later formula is translated. *)
Theorem spin_after_error_refuted :
  exists s a, names_ok a = true /\ no_words a = true /\
    fst (spin_to_dstar s []) = Err "ParseException" /\
    forall l, Forall (fun r => exists e, r = Err e) (calls l (snd (spin_to_dstar s []))) /\
    calls [s; written a] [] = [Err "ParseException"; Err "AssertionError"].
Proof.
  exists "a &&", (AIdent "b"). split; [reflexivity|]. split; [reflexivity|]. split; [reflexivity|].
  intros l. split; [|vm_compute; reflexivity]. apply spin_calls_stuck. vm_compute. discriminate.
Qed.
(** SPIN reads [a && b || c] as a disjunction; here all operators are alike and group to
    the right. *)
Theorem spin_precedence_refuted :
  exists t, fst (spin_to_dstar "a && b || c" []) = Ok t /\
    denotes t (ABin OAnd (AIdent "a") (ABin OOr (AIdent "b") (AIdent "c"))) /\
    fst (spin_to_dstar (written (ABin OOr (ABin OAnd (AIdent "a") (AIdent "b")) (AIdent "c"))) []) <> Ok t.
Proof.
  exists "& a | b c". split; [vm_compute; reflexivity|]. split; [exists ["&"; "a"; "|"; "b"; "c"]; split; reflexivity|].
  vm_compute. discriminate.
Qed.
(** A name that starts with X is read as the operator next; names of operators of ltl2dstar are
    written as they are. *)
Theorem spin_names_refuted :
  fst (spin_to_dstar "Xray" []) = Ok "X ray" /\ fst (spin_to_dstar "pUq" []) = Ok "pUq" /\
  fst (spin_to_dstar "p Until" []) = Ok "U p ntil" /\
  fst (spin_to_dstar "! F" []) = Ok "! F" /\ ~ denotes "! F" (AUn ONot (AIdent "F")).
Proof.
  split; [vm_compute; reflexivity|]. split; [vm_compute; reflexivity|].
  split; [vm_compute; reflexivity|]. split; [vm_compute; reflexivity|].
  intros [ws [_ H]].
  assert (A : forall fuel l a r, read_prefix fuel l = Some (a, r) -> no_words a = true).
  { induction fuel as [|fuel IH]; intros l a r E; [discriminate|]. destruct l as [|w l]; [discriminate|].
    cbn [read_prefix] in E.
    destruct (lookup w un_words) eqn:U.
    - destruct (read_prefix fuel l) as [[a' r']|] eqn:E1; [|discriminate].
      injection E as <- <-. cbn [no_words]. eapply IH; eauto.
    - destruct (lookup w bin_words) eqn:B.
      + destruct (read_prefix fuel l) as [[a' r']|] eqn:E1; [|discriminate].
        destruct (read_prefix fuel r') as [[b' r'']|] eqn:E2; [|discriminate].
        injection E as <- <-. cbn [no_words]. rewrite (IH _ _ _ E1), (IH _ _ _ E2). reflexivity.
      + injection E as <- <-. cbn [no_words]. unfold not_word. rewrite U, B. reflexivity. }
  apply A in H. discriminate.
Qed.

Print Assumptions dstar_denotes.
Print Assumptions spin_dstar_correct.
Print Assumptions spin_calls_stuck.
Print Assumptions spin_calls_correct.
Print Assumptions spin_after_error_refuted.
Print Assumptions spin_precedence_refuted.
Print Assumptions spin_names_refuted.
