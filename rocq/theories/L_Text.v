(** Parsing of texts assembled from smaller texts: a small calculus of operand texts. *)
From Coq Require Import List String Ascii Bool Arith Lia.
From Verif Require Import M_Base M_Ast M_Lexer M_Parser S_LTL S_Gr1 S_Syntax.
From Verif Require Import L_Lexer L_Parser L_Template L_Gr1 L_RoundTrip.
Import ListNotations.
Open Scope string_scope.
Open Scope list_scope.

Definition flevel (lvl : nat) (f : frame) : Prop :=
  match f with FUn l _ | FBin l _ _ => lvl <= l | _ => False end.
Definition below (lvl : nat) (st : list frame) : Prop :=
  match st with FUn l _ :: _ | FBin l _ _ :: _ => l < lvl | _ => True end.
Definition build (fr : list frame) (e : node) : node :=
  fold_left (fun e f => match f with FUn _ op => NUn op e | FBin _ mk a => mk a e | _ => e end) fr e.

Lemma reduce_fr lvl st : forall fr P, Forall (flevel lvl) fr ->
  reduce lvl (fr ++ st) P = reduce lvl st (build fr P).
Proof.
  induction fr as [|f fr IH]; intros P H; [reflexivity|].
  inversion H as [|? ? Hf Hr]; subst.
  destruct f; simpl in Hf; try contradiction; cbn [app reduce build fold_left];
    rewrite (proj2 (Nat.leb_le lvl lvl0) Hf); apply IH; assumption.
Qed.
Lemma reduce_below lvl st e : below lvl st -> reduce lvl st e = (st, e).
Proof.
  destruct st as [|[] st]; simpl; auto; intro H;
    rewrite (proj2 (Nat.leb_gt lvl lvl0) H); reflexivity.
Qed.

(** An operand whose pending operators all bind at least as strongly as [lvl]. *)
Definition chain (lvl : nat) (s : string) (e : node) : Prop :=
  nohash s /\ forall st, below lvl st -> exists fr P,
    Forall (flevel lvl) fr /\ build fr P = e /\
    forall rest, run (lex s ++ rest) st None = run rest (fr ++ st) (Some P).
(** A prefix operator applied to an operand; safe after any operator. *)
Definition pre (s : string) (e : node) : Prop :=
  nohash s /\ exists fr P, Forall (flevel 6) fr /\ build fr P = e /\
    forall st rest, run (lex s ++ rest) st None = run rest (fr ++ st) (Some P).
Definition atom (s : string) (e : node) : Prop :=
  nohash s /\ forall st rest, run (lex s ++ rest) st None = run rest st (Some e).

Lemma atom_pre s e : atom s e -> pre s e.
Proof. intros [N H]. split; auto. exists [], e. repeat split; auto. Qed.
Lemma atom_chain l s e : atom s e -> chain l s e.
Proof. intros [N H]. split; auto. intros st _. exists [], e. repeat split; auto. Qed.
Lemma pre_chain l s e : l <= 6 -> pre s e -> chain l s e.
Proof.
  intros Hl [N (fr & P & F & B & H)]. split; auto. intros st _. exists fr, P. repeat split; auto.
  eapply Forall_impl; [|exact F]. intros [] K; simpl in *; auto; lia.
Qed.
Lemma chain_mono l l' s e : l <= l' -> chain l' s e -> chain l s e.
Proof.
  intros Hl [N H]. split; auto. intros st Hb.
  destruct (H st) as (fr & P & F & B & R).
  { destruct st as [|[] st]; simpl in *; auto; lia. }
  exists fr, P. repeat split; auto. eapply Forall_impl; [|exact F]. intros [] K; simpl in *; auto; lia.
Qed.

Lemma chain_parse l s e : chain l s e -> parse s = Some e.
Proof.
  intros [N H]. destruct (H [] I) as (fr & P & F & B & R).
  unfold parse, parse_toks. rewrite <- (app_nil_r (lex s)), R. cbn [run].
  rewrite app_nil_r, <- (app_nil_r fr).
  rewrite reduce_fr. { cbn [reduce]. congruence. }
  eapply Forall_impl; [|exact F]. intros [] K; simpl in *; auto; lia.
Qed.
Lemma pre_parse s e : pre s e -> parse s = Some e.
Proof. intro H. eapply chain_parse, (pre_chain 0); [lia|eauto]. Qed.
Lemma atom_parse s e : atom s e -> parse s = Some e.
Proof. intro H. apply pre_parse, atom_pre, H. Qed.

Lemma atom_paren s e : nohash s -> parse s = Some e -> atom ("(" ++ s ++ ")") e.
Proof.
  intros N H. split.
  - apply (nohash_app "("); [apply nohashb_ok; reflexivity|]. apply nohash_app; auto. apply nohashb_ok; reflexivity.
  - intros st rest. rewrite lex_lit by reflexivity. rewrite lex_app by (simpl; unfold delim; auto).
    change (lex "(") with [LPAREN]. change (lex ")") with [RPAREN]. cbn [app].
    rewrite <- app_assoc. cbn [app]. rewrite (run_paren (lex s) e); auto.
Qed.
(** Parentheses with padding, as printed by the tree printer. *)
Lemma atom_paren_sp s e : nohash s -> parse s = Some e -> atom ("( " ++ s ++ " )") e.
Proof.
  intros N H. split.
  - apply (nohash_app "( "); [apply nohashb_ok; reflexivity|]. apply nohash_app; auto. apply nohashb_ok; reflexivity.
  - intros st rest. rewrite lex_lit by reflexivity. rewrite lex_app by (simpl; unfold delim; auto).
    change (lex "( ") with [LPAREN]. change (lex " )") with [RPAREN]. cbn [app].
    rewrite <- app_assoc. cbn [app]. rewrite (run_paren (lex s) e); auto.
Qed.
Lemma atom_paren_chain l s e : chain l s e -> atom ("(" ++ s ++ ")") e.
Proof. intro H. apply atom_paren; [apply H|eapply chain_parse; eauto]. Qed.
Lemma atom_paren_chain_sp l s e : chain l s e -> atom ("( " ++ s ++ " )") e.
Proof. intro H. apply atom_paren_sp; [apply H|eapply chain_parse; eauto]. Qed.
Lemma atom_ident a : ident a -> atom a (NVar a).
Proof.
  intro H. split; [apply ident_nohash; auto|]. intros. rewrite ident_lex by auto. reflexivity.
Qed.
Lemma atom_num v : number_text v = true -> atom v (NNum v).
Proof.
  intro H. split; [apply number_nohash; auto|]. intros. rewrite number_lex by auto. apply num_run; auto.
Qed.
Lemma atom_true : atom "True" (NBool "True").
Proof. split; [apply nohashb_ok; reflexivity|reflexivity]. Qed.
Lemma atom_false : atom "False" (NBool "False").
Proof. split; [apply nohashb_ok; reflexivity|reflexivity]. Qed.
Lemma atom_flatten t s : wf_node t = true -> no_str t = true -> flatten t = Some s -> atom s t.
Proof.
  intros W N F. split; [eapply flatten_nohash; eauto|]. intros.
  rewrite (flatten_lex t s) by auto. eapply toks_run; eauto.
Qed.

(** Prefix operators. *)
Lemma pre_un op lvl tk o s e : nohash o -> lex (o ++ s) = tk :: lex s -> 6 <= lvl ->
  (forall ts st, run (tk :: ts) st None = run ts (FUn lvl op :: st) None) ->
  pre s e -> pre (o ++ s) (NUn op e).
Proof.
  intros No L Hl R [N (fr & P & F & B & H)]. split; [apply nohash_app; auto|].
  exists (fr ++ [FUn lvl op]), P. split; [|split].
  - apply Forall_app. split; auto.
  - unfold build in *. rewrite fold_left_app. cbn [fold_left]. rewrite B. reflexivity.
  - intros st rest. rewrite L. cbn [app]. rewrite R, H, <- app_assoc. reflexivity.
Qed.
Lemma nohash_lit s : nohashb s = true -> nohash s.
Proof. apply nohashb_ok. Qed.
Lemma pre_G s e : pre s e -> pre ("[]" ++ s) (NUn "G" e).
Proof.
  apply pre_un with (lvl := 6) (tk := ALWAYS); [apply nohash_lit; reflexivity| |lia|reflexivity].
  unfold lex. cbn [append list_ascii_of_string]. apply lexl_alw.
Qed.
Lemma pre_F s e : pre s e -> pre ("<>" ++ s) (NUn "F" e).
Proof.
  apply pre_un with (lvl := 6) (tk := EVENTUALLY); [apply nohash_lit; reflexivity| |lia|reflexivity].
  unfold lex. cbn [append list_ascii_of_string]. apply lexl_ev.
Qed.
Lemma pre_X s e : pre s e -> pre ("X " ++ s) (NUn "X" e).
Proof.
  apply pre_un with (lvl := 13) (tk := NEXT); [apply nohash_lit; reflexivity| |lia|reflexivity].
  rewrite lex_lit by reflexivity. reflexivity.
Qed.
Lemma pre_Xp s e : pre ("(" ++ s) e -> pre ("X(" ++ s) (NUn "X" e).
Proof.
  change ("X(" ++ s)%string with ("X" ++ ("(" ++ s))%string.
  apply pre_un with (lvl := 13) (tk := NEXT); [apply nohash_lit; reflexivity| |lia|reflexivity].
  unfold lex. cbn [append list_ascii_of_string]. apply lexl_next_p.
Qed.
Lemma pre_not_sp s e : pre s e -> pre ("! " ++ s) (NUn "!" e).
Proof.
  apply pre_un with (lvl := 12) (tk := NOT "!"); [apply nohash_lit; reflexivity| |lia|reflexivity].
  rewrite lex_lit by reflexivity. reflexivity.
Qed.
Lemma pre_not_p s e : pre ("(" ++ s) e -> pre ("!(" ++ s) (NUn "!" e).
Proof.
  change ("!(" ++ s)%string with ("!" ++ ("(" ++ s))%string.
  apply pre_un with (lvl := 12) (tk := NOT "!"); [apply nohash_lit; reflexivity| |lia|reflexivity].
  unfold lex. cbn [append list_ascii_of_string]. apply lexl_not.
Qed.
Lemma pre_not_ident a : ident a -> pre ("!" ++ a) (NUn "!" (NVar a)).
Proof.
  intro H. apply pre_un with (lvl := 12) (tk := NOT "!"); auto; try lia.
  - apply nohash_lit; reflexivity.
  - destruct H as [H _]. destruct a as [|c r]; [discriminate|].
    unfold lex. cbn [append list_ascii_of_string]. rewrite lexl_cons.
    assert (E : (c =? "=")%char = false).
    { cbn [ident_chars] in H. apply andb_prop in H. destruct H as [H _].
      destruct (c =? "=")%char eqn:E; auto. apply Ascii.eqb_eq in E. subst. discriminate. }
    cbn -[lexl]. unfold peek. cbn -[lexl]. rewrite E. reflexivity.
  - apply atom_pre, atom_ident; auto.
Qed.

(** Binary operators, left associative. *)
Lemma chain_bin k v lit a b ea eb :
  starts_delim lit -> nohashb lit = true -> ends_delim lit = true -> lex lit = [BOP k v] ->
  chain (blevel k) a ea -> chain (S (blevel k)) b eb ->
  chain (blevel k) (a ++ lit ++ b) (mk_bin k v ea eb).
Proof.
  intros Hs Hn He Hl [Na Ha] [Nb Hb]. split.
  - apply nohash_app; auto. apply nohash_app; auto. apply nohash_lit; auto.
  - intros st B. destruct (Ha st B) as (fa & Pa & Fa & Ba & Ra).
    destruct (Hb (FBin (blevel k) (mk_bin k v) ea :: st)) as (fb & Pb & Fb & Bb & Rb).
    { simpl. lia. }
    exists (fb ++ [FBin (blevel k) (mk_bin k v) ea]), Pb. split; [|split].
    + apply Forall_app. split.
      * eapply Forall_impl; [|exact Fb]. intros [] K; simpl in *; auto; lia.
      * constructor; [simpl; lia|constructor].
    + unfold build in *. rewrite fold_left_app. cbn [fold_left]. rewrite Bb. reflexivity.
    + intro rest. rewrite lex_app; auto.
      2:{ destruct lit; simpl in *; auto; discriminate. }
      rewrite (lex_lit lit) by auto. rewrite Hl, <- !app_assoc, Ra. cbn [app].
      rewrite run_bop, reduce_fr, Ba, reduce_below by auto. cbn [fst snd].
      rewrite Rb. reflexivity.
Qed.

Lemma chain_and a b ea eb : chain 5 a ea -> chain 6 b eb -> chain 5 (a ++ " && " ++ b) (NBin "&" ea eb).
Proof. apply (chain_bin AND "&" " && "); try reflexivity. simpl; unfold delim; auto. Qed.
Lemma chain_and1 a b ea eb : chain 5 a ea -> chain 6 b eb -> chain 5 (a ++ " & " ++ b) (NBin "&" ea eb).
Proof. apply (chain_bin AND "&" " & "); try reflexivity. simpl; unfold delim; auto. Qed.
Lemma chain_or a b ea eb : chain 4 a ea -> chain 5 b eb -> chain 4 (a ++ " || " ++ b) (NBin "|" ea eb).
Proof. apply (chain_bin OR "|" " || "); try reflexivity. simpl; unfold delim; auto. Qed.
Lemma chain_or1 a b ea eb : chain 4 a ea -> chain 5 b eb -> chain 4 (a ++ " | " ++ b) (NBin "|" ea eb).
Proof. apply (chain_bin OR "|" " | "); try reflexivity. simpl; unfold delim; auto. Qed.
Lemma chain_imp a b ea eb : chain 2 a ea -> chain 3 b eb -> chain 2 (a ++ " -> " ++ b) (NBin "->" ea eb).
Proof. apply (chain_bin IMP "->" " -> "); try reflexivity. simpl; unfold delim; auto. Qed.
Lemma chain_iff a b ea eb : chain 1 a ea -> chain 2 b eb -> chain 1 (a ++ " <-> " ++ b) (NBin "<->" ea eb).
Proof. apply (chain_bin BIMP "<->" " <-> "); try reflexivity. simpl; unfold delim; auto. Qed.
Lemma chain_eq a b ea eb : chain 8 a ea -> chain 9 b eb -> chain 8 (a ++ " = " ++ b) (NCmp "=" ea eb).
Proof. apply (chain_bin EQUALS "=" " = "); try reflexivity. simpl; unfold delim; auto. Qed.

(** Lists joined by an operator. *)
Definition fold_op (k : bopk) (v : string) (e : node) (l : list node) : node :=
  fold_left (mk_bin k v) l e.
Lemma chain_join k v lit (Hs : starts_delim lit) (Hn : nohashb lit = true) (He : ends_delim lit = true)
  (Hl : lex lit = [BOP k v]) : forall l es s e, chain (blevel k) s e ->
  Forall2 (chain (S (blevel k))) l es ->
  chain (blevel k) (join lit (s :: l)) (fold_op k v e es).
Proof.
  (* generalise: the first element may be a longer prefix *)
  assert (assoc : forall l (x y : string), join lit ((x ++ lit ++ y)%string :: l) = (x ++ lit ++ join lit (y :: l))%string).
  { destruct l as [|z l]; intros; [reflexivity|].
    change (join lit ((x ++ lit ++ y)%string :: z :: l)) with ((x ++ lit ++ y) ++ lit ++ join lit (z :: l))%string.
    change (join lit (y :: z :: l)) with (y ++ lit ++ join lit (z :: l))%string.
    rewrite !string_app_assoc. reflexivity. }
  induction l as [|y l IH]; intros es s e H F.
  - inversion F; subst. exact H.
  - inversion F as [|? ey ? es' Hy Hr]; subst.
    change (join lit (s :: y :: l)) with (s ++ lit ++ join lit (y :: l))%string.
    rewrite <- assoc. cbn [fold_op fold_left]. apply IH; auto. apply chain_bin; auto.
Qed.

Lemma chain_join_and s e l es : chain 6 s e -> Forall2 (chain 6) l es ->
  chain 5 (join " && " (s :: l)) (fold_op AND "&" e es).
Proof.
  intros H F. apply (chain_join AND "&" " && "); auto; try reflexivity.
  - simpl; unfold delim; auto.
  - eapply chain_mono; [|eauto]. simpl; lia.
Qed.
Lemma chain_join_or s e l es : chain 5 s e -> Forall2 (chain 5) l es ->
  chain 4 (join " || " (s :: l)) (fold_op OR "|" e es).
Proof.
  intros H F. apply (chain_join OR "|" " || "); auto; try reflexivity.
  - simpl; unfold delim; auto.
  - eapply chain_mono; [|eauto]. simpl; lia.
Qed.

Lemma fold_and_holds s i : forall l e, holds s i (fold_op AND "&" e l) <->
  holds s i e /\ forall f, In f l -> holds s i f.
Proof.
  induction l as [|x l IH]; intro e; cbn [fold_op fold_left].
  - split; [intro H; split; [auto|intros u []]|tauto].
  - change (fold_left (mk_bin AND "&") l (mk_bin AND "&" e x)) with (fold_op AND "&" (NBin "&" e x) l).
    rewrite IH. change (holds s i (NBin "&" e x)) with (holds s i e /\ holds s i x). split.
    + intros [[H1 H2] H3]. split; auto. intros u [<-|Hu]; auto.
    + intros [H1 H2]. repeat split; auto; intros; apply H2; simpl; auto.
Qed.
Lemma fold_or_holds s i : forall l e, holds s i (fold_op OR "|" e l) <->
  holds s i e \/ exists f, In f l /\ holds s i f.
Proof.
  induction l as [|x l IH]; intro e; cbn [fold_op fold_left].
  - split; [auto|]. intros [H|(f & [] & _)]; auto.
  - change (fold_left (mk_bin OR "|") l (mk_bin OR "|" e x)) with (fold_op OR "|" (NBin "|" e x) l).
    rewrite IH. change (holds s i (NBin "|" e x)) with (holds s i e \/ holds s i x). split.
    + intros [[H1|H1]|(f & A & B)]; [auto| |]; right; [exists x; split; [left; auto|auto]|exists f; split; [right; auto|auto]].
    + intros [H|(f & [<-|A] & B)]; eauto.
Qed.
