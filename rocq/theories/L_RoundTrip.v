(** Printing and parsing are inverse. *)
From Coq Require Import List String Ascii Bool Arith Lia.
From Verif Require Import M_Base M_Ast M_Lexer M_Parser S_LTL S_Gr1 S_Syntax.
From Verif Require Import L_Lexer L_Parser L_Template L_Gr1.
Import ListNotations.
Open Scope string_scope.
Open Scope list_scope.

Lemma identb_ident v : identb v = true <-> ident v.
Proof.
  unfold identb, ident. rewrite andb_true_iff, negb_true_iff. tauto.
Qed.

(** Expected tokens of a printed tree. *)
Definition bop_tok (op : string) : list tok := lex op.
Definition num_toks (v : string) : list tok :=
  match v with
  | String "-" r => [MINUS; NUMBER r]
  | _ => [NUMBER v]
  end.
Fixpoint toks (t : node) : list tok :=
  match t with
  | NVar v => [NAME v]
  | NBool v => lex v
  | NNum v => num_toks v
  | NStr v => [NAME v]
  | NUn op a => LPAREN :: lex op ++ toks a ++ [RPAREN]
  | NBin op l r | NCmp op l r | NArith op l r =>
      LPAREN :: toks l ++ lex op ++ toks r ++ [RPAREN]
  | NIte op a b c =>
      LPAREN :: lex op ++ toks a ++ COMMA :: toks b ++ COMMA :: toks c ++ [RPAREN]
  end.

Lemma numeral_lex v : numeral v = true -> lex v = [NUMBER v].
Proof.
  destruct v as [|c r]; [discriminate|]. cbn [numeral]. intro H.
  apply andb_prop in H. destruct H as [Hc Hr].
  unfold lex. cbn [list_ascii_of_string]. rewrite lexl_cons.
  assert (E : lex1 c (list_ascii_of_string r) =
    (Some (NUMBER (str_of (c :: list_ascii_of_string r))), [])).
  { unfold digit, in_range in Hc. apply andb_prop in Hc. destruct Hc as [H1 H2].
    destruct c as [[] [] [] [] [] [] [] []]; try discriminate H1; try discriminate H2;
      unfold lex1; cbn -[str_of span]; rewrite span_all by assumption; reflexivity. }
  rewrite E. cbn [fst snd]. unfold str_of. simpl. rewrite string_of_las. reflexivity.
Qed.

Lemma number_lex v : number_text v = true -> lex v = num_toks v.
Proof.
  unfold number_text, num_toks. intro H.
  destruct v as [|c r]; [discriminate|].
  destruct (Ascii.eqb c "-") eqn:E.
  - apply Ascii.eqb_eq in E. subst. change (numeral r = true) in H. change (lex (String "-" r) = [MINUS; NUMBER r]).
    pose proof (numeral_lex r H) as L. unfold lex in *. cbn [list_ascii_of_string].
    rewrite lexl_cons.
    destruct r as [|d r]; [discriminate|]. cbn [numeral] in H. apply andb_prop in H. destruct H as [Hd _].
    assert (Ed : lex1 "-" (list_ascii_of_string (String d r)) = (Some MINUS, list_ascii_of_string (String d r))).
    { unfold lex1. cbn -[list_ascii_of_string]. cbn [list_ascii_of_string peek].
      destruct (d =? ">")%char eqn:Eg; [apply Ascii.eqb_eq in Eg; subst; discriminate|reflexivity]. }
    rewrite Ed. cbn [fst snd]. rewrite L. reflexivity.
  - assert (HH : match String c r with String "-" r0 => numeral r0 | _ => numeral (String c r) end
                 = numeral (String c r) /\
                 match String c r with String "-" r0 => [MINUS; NUMBER r0] | _ => [NUMBER (String c r)] end
                 = [NUMBER (String c r)]).
    { destruct c as [[] [] [] [] [] [] [] []]; try (split; reflexivity); discriminate. }
    destruct HH as [H1 H2]. rewrite H1 in H. rewrite H2. apply numeral_lex, H.
Qed.

Lemma numeral_nohash v : numeral v = true -> nohash v.
Proof.
  destruct v as [|c r]; [discriminate|]. cbn [numeral]. intro H.
  apply andb_prop in H. destruct H as [Hc Hr]. intros x Hx. simpl in Hx.
  assert (D : digit x = true).
  { destruct Hx as [<-|Hx]; auto. rewrite forallb_forall in Hr. auto. }
  destruct (x =? "#")%char eqn:E; auto. apply Ascii.eqb_eq in E. subst. discriminate.
Qed.

Lemma number_nohash v : number_text v = true -> nohash v.
Proof.
  intro H. destruct v as [|c r]; [discriminate|].
  destruct (Ascii.eqb c "-") eqn:E.
  - apply Ascii.eqb_eq in E. subst. cbn in H.
    apply (nohash_app "-" r); [apply nohashb_ok; reflexivity|apply numeral_nohash; assumption].
  - apply numeral_nohash. destruct c as [[] [] [] [] [] [] [] []]; try exact H; discriminate.
Qed.

Lemma oneof_In op l : oneof op l = true <-> In op l.
Proof.
  unfold oneof. rewrite existsb_exists. split.
  - intros [y [H E]]. apply String.eqb_eq in E. subst. assumption.
  - intro H. exists op. split; [assumption|apply String.eqb_refl].
Qed.

(** Operator spellings contain no '#'. *)
Definition all_ops : list string := opmap_keys.
Lemma opmap_inv op o : opmap op = Some o -> o = op /\ In op all_ops.
Proof.
  unfold opmap. destruct (existsb (String.eqb op) opmap_keys) eqn:E; [|discriminate].
  intro H. inversion H; subst o. split; auto. apply oneof_In. exact E.
Qed.
Lemma op_nohash op : In op all_ops -> nohash op.
Proof.
  intro H. apply nohashb_ok. unfold all_ops, opmap_keys in H. cbn [In] in H.
  repeat (destruct H as [<-|H]; [reflexivity|]). contradiction.
Qed.

Lemma flatten_nohash : forall t s, wf_node t = true -> no_str t = true ->
  flatten t = Some s -> nohash s.
Proof.
  assert (lit : forall s, nohashb s = true -> nohash s) by (intros; apply nohashb_ok; auto).
  induction t; intros s Hw Hs Hf; cbn [wf_node no_str flatten] in *.
  - inversion Hf; subst. apply ident_nohash, identb_ident; auto.
  - apply opmap_inv in Hf. destruct Hf as [-> Hf]. apply op_nohash; auto.
  - inversion Hf; subst. apply number_nohash; auto.
  - discriminate.
  - apply andb_prop in Hw. destruct Hw as [Ho Ha].
    destruct (opmap op) as [o|] eqn:Eo; [|discriminate]. apply opmap_inv in Eo. destruct Eo as [-> Eo].
    destruct (flatten t) as [x|]; [|discriminate]. inversion Hf; subst.
    apply (nohash_app "( "); [auto|]. apply nohash_app; [apply op_nohash; auto|].
    apply (nohash_app " "); [auto|]. apply nohash_app; auto.
  - apply andb_prop in Hw. destruct Hw as [Hw Hr]. apply andb_prop in Hw. destruct Hw as [Ho Hl].
    apply andb_prop in Hs. destruct Hs as [Sl Sr].
    destruct (opmap op) as [o|] eqn:Eo; [|discriminate]. apply opmap_inv in Eo. destruct Eo as [-> Eo].
    destruct (flatten t1) as [x|]; [|discriminate]. destruct (flatten t2) as [y|]; [|discriminate].
    inversion Hf; subst.
    apply (nohash_app "( "); [auto|]. apply nohash_app; [auto|].
    apply (nohash_app " "); [auto|]. apply nohash_app; [apply op_nohash; auto|].
    apply (nohash_app " "); [auto|]. apply nohash_app; auto.
  - apply andb_prop in Hw. destruct Hw as [Hw Hr]. apply andb_prop in Hw. destruct Hw as [Ho Hl].
    apply andb_prop in Hs. destruct Hs as [Sl Sr].
    destruct (opmap op) as [o|] eqn:Eo; [|discriminate]. apply opmap_inv in Eo. destruct Eo as [-> Eo].
    destruct (flatten t1) as [x|]; [|discriminate]. destruct (flatten t2) as [y|]; [|discriminate].
    inversion Hf; subst.
    apply (nohash_app "( "); [auto|]. apply nohash_app; [auto|].
    apply (nohash_app " "); [auto|]. apply nohash_app; [apply op_nohash; auto|].
    apply (nohash_app " "); [auto|]. apply nohash_app; auto.
  - apply andb_prop in Hw. destruct Hw as [Hw Hr]. apply andb_prop in Hw. destruct Hw as [Ho Hl].
    apply andb_prop in Hs. destruct Hs as [Sl Sr].
    destruct (opmap op) as [o|] eqn:Eo; [|discriminate]. apply opmap_inv in Eo. destruct Eo as [-> Eo].
    destruct (flatten t1) as [x|]; [|discriminate]. destruct (flatten t2) as [y|]; [|discriminate].
    inversion Hf; subst.
    apply (nohash_app "( "); [auto|]. apply nohash_app; [auto|].
    apply (nohash_app " "); [auto|]. apply nohash_app; [apply op_nohash; auto|].
    apply (nohash_app " "); [auto|]. apply nohash_app; auto.
  - apply andb_prop in Hw. destruct Hw as [Hw H3]. apply andb_prop in Hw. destruct Hw as [Hw H2].
    apply andb_prop in Hw. destruct Hw as [Ho H1].
    apply andb_prop in Hs. destruct Hs as [Hs S3]. apply andb_prop in Hs. destruct Hs as [S1 S2].
    destruct (opmap op) as [o|] eqn:Eo; [|discriminate]. apply opmap_inv in Eo. destruct Eo as [-> Eo].
    destruct (flatten t1) as [x|]; [|discriminate]. destruct (flatten t2) as [y|]; [|discriminate].
    destruct (flatten t3) as [z|]; [|discriminate]. inversion Hf; subst.
    apply (nohash_app "( "); [auto|]. apply nohash_app; [apply op_nohash; auto|].
    apply (nohash_app " "); [auto|]. apply nohash_app; [auto|].
    apply (nohash_app ", "); [auto|]. apply nohash_app; [auto|].
    apply (nohash_app ", "); [auto|]. apply nohash_app; auto.
Qed.

(** Lexing a printed tree. *)
Ltac lexcut :=
  unfold lex; repeat rewrite las_app; cbn [list_ascii_of_string app];
  repeat rewrite <- app_assoc; cbn [app];
  repeat first
    [ rewrite lexl_space | rewrite lexl_lparen | rewrite lexl_rparen | rewrite lexl_comma
    | rewrite lexl_nil
    | rewrite lexl_cut by (first [assumption | exact delim_sp | exact delim_lp | exact delim_rp | exact delim_co]) ].

Lemma bin_lex op x y l r : nohash op -> nohash x -> nohash y -> lex x = l -> lex y = r ->
  lex ("( " ++ x ++ " " ++ op ++ " " ++ y ++ " )") = LPAREN :: l ++ lex op ++ r ++ [RPAREN].
Proof.
  unfold nohash. intros N1 N2 N3 <- <-. lexcut. reflexivity.
Qed.
Lemma un_lex op x l : nohash op -> nohash x -> lex x = l ->
  lex ("( " ++ op ++ " " ++ x ++ " )") = LPAREN :: lex op ++ l ++ [RPAREN].
Proof.
  unfold nohash. intros N1 N2 <-. lexcut. reflexivity.
Qed.
Lemma ite_lex op x y z a b c : nohash op -> nohash x -> nohash y -> nohash z ->
  lex x = a -> lex y = b -> lex z = c ->
  lex ("( " ++ op ++ " " ++ x ++ ", " ++ y ++ ", " ++ z ++ " )")
  = LPAREN :: lex op ++ a ++ COMMA :: b ++ COMMA :: c ++ [RPAREN].
Proof.
  unfold nohash. intros N1 N2 N3 N4 <- <- <-. lexcut. reflexivity.
Qed.

Lemma flatten_lex : forall t s, wf_node t = true -> no_str t = true ->
  flatten t = Some s -> lex s = toks t.
Proof.
  induction t; intros s Hw Hs Hf;
    try (pose proof (flatten_nohash _ _ Hw Hs Hf) as HN); cbn [wf_node no_str flatten toks] in *.
  - inversion Hf; subst. apply ident_lex, identb_ident; auto.
  - apply opmap_inv in Hf. destruct Hf as [-> Hf]. reflexivity.
  - inversion Hf; subst. apply number_lex; auto.
  - discriminate.
  - apply andb_prop in Hw. destruct Hw as [Ho Ha].
    destruct (opmap op) as [o|] eqn:Eo; [|discriminate]. apply opmap_inv in Eo. destruct Eo as [-> Eo].
    destruct (flatten t) as [x|] eqn:E1; [|discriminate]. apply (f_equal (fun o => match o with Some v => v | None => s end)) in Hf. cbn beta iota in Hf. subst s.
    apply un_lex; auto using op_nohash. eapply flatten_nohash; eauto.
  - apply andb_prop in Hw. destruct Hw as [Hw Hr]. apply andb_prop in Hw. destruct Hw as [Ho Hl].
    apply andb_prop in Hs. destruct Hs as [Sl Sr].
    destruct (opmap op) as [o|] eqn:Eo; [|discriminate]. apply opmap_inv in Eo. destruct Eo as [-> Eo].
    destruct (flatten t1) as [x|] eqn:E1; [|discriminate]. destruct (flatten t2) as [y|] eqn:E2; [|discriminate].
    apply (f_equal (fun o => match o with Some v => v | None => s end)) in Hf. cbn beta iota in Hf. subst s.
    apply bin_lex; auto using op_nohash; [eapply (flatten_nohash t1)|eapply (flatten_nohash t2)]; eauto.
  - apply andb_prop in Hw. destruct Hw as [Hw Hr]. apply andb_prop in Hw. destruct Hw as [Ho Hl].
    apply andb_prop in Hs. destruct Hs as [Sl Sr].
    destruct (opmap op) as [o|] eqn:Eo; [|discriminate]. apply opmap_inv in Eo. destruct Eo as [-> Eo].
    destruct (flatten t1) as [x|] eqn:E1; [|discriminate]. destruct (flatten t2) as [y|] eqn:E2; [|discriminate].
    apply (f_equal (fun o => match o with Some v => v | None => s end)) in Hf. cbn beta iota in Hf. subst s.
    apply bin_lex; auto using op_nohash; [eapply (flatten_nohash t1)|eapply (flatten_nohash t2)]; eauto.
  - apply andb_prop in Hw. destruct Hw as [Hw Hr]. apply andb_prop in Hw. destruct Hw as [Ho Hl].
    apply andb_prop in Hs. destruct Hs as [Sl Sr].
    destruct (opmap op) as [o|] eqn:Eo; [|discriminate]. apply opmap_inv in Eo. destruct Eo as [-> Eo].
    destruct (flatten t1) as [x|] eqn:E1; [|discriminate]. destruct (flatten t2) as [y|] eqn:E2; [|discriminate].
    apply (f_equal (fun o => match o with Some v => v | None => s end)) in Hf. cbn beta iota in Hf. subst s.
    apply bin_lex; auto using op_nohash; [eapply (flatten_nohash t1)|eapply (flatten_nohash t2)]; eauto.
  - apply andb_prop in Hw. destruct Hw as [Hw H3]. apply andb_prop in Hw. destruct Hw as [Hw H2].
    apply andb_prop in Hw. destruct Hw as [Ho H1].
    apply andb_prop in Hs. destruct Hs as [Hs S3]. apply andb_prop in Hs. destruct Hs as [S1 S2].
    destruct (opmap op) as [o|] eqn:Eo; [|discriminate]. apply opmap_inv in Eo. destruct Eo as [-> Eo].
    destruct (flatten t1) as [x|] eqn:E1; [|discriminate]. destruct (flatten t2) as [y|] eqn:E2; [|discriminate].
    destruct (flatten t3) as [z|] eqn:E3; [|discriminate].
    apply (f_equal (fun o => match o with Some v => v | None => s end)) in Hf. cbn beta iota in Hf. subst s.
    apply ite_lex; auto using op_nohash; [eapply (flatten_nohash t1)|eapply (flatten_nohash t2)|eapply (flatten_nohash t3)]; eauto.
Qed.

(** Parsing those tokens, in any context. *)
Definition head_ok (ts : list tok) : Prop := forall v r, ts <> ITE v :: r.

Lemma run_lparen ts st : head_ok ts -> run (LPAREN :: ts) st None = run ts (FParen :: st) None.
Proof.
  intro H. destruct ts as [|[] ts]; try reflexivity. exfalso. eapply H; reflexivity.
Qed.

Lemma toks_head t ts : wf_node t = true -> no_str t = true -> head_ok (toks t ++ ts).
Proof.
  intros Hw Hs v r. destruct t; cbn [toks wf_node no_str] in *; try discriminate.
  - apply oneof_In in Hw. cbn [In] in Hw.
    destruct Hw as [<-|[<-|[]]]; discriminate.
  - unfold num_toks. destruct v0 as [|[[] [] [] [] [] [] [] []] v0]; discriminate.
Qed.

Lemma num_run v ts st : number_text v = true -> run (num_toks v ++ ts) st None = run ts st (Some (NNum v)).
Proof.
  intro H. destruct v as [|c r]; [discriminate|].
  unfold num_toks.
  destruct (Ascii.eqb c "-") eqn:E.
  - apply Ascii.eqb_eq in E. subst. reflexivity.
  - destruct c as [[] [] [] [] [] [] [] []]; try reflexivity; discriminate.
Qed.

Lemma opmap_some_plain op : oneof op ["~"; "=>"; "<=>"; "/="; "=<"] = true -> opmap op = None.
Proof.
  intro H. apply oneof_In in H. cbn [In] in H.
  repeat (destruct H as [<-|H]; [reflexivity|]). contradiction.
Qed.

Ltac ops H := apply oneof_In in H; cbn [In] in H;
  repeat (destruct H as [<-|H]; [|]); try contradiction; try discriminate.

Lemma toks_run : forall t s ts st, wf_node t = true -> no_str t = true -> flatten t = Some s ->
  run (toks t ++ ts) st None = run ts st (Some t).
Proof.
  induction t; intros s ts st Hw Hs Hf; cbn [wf_node no_str flatten toks] in *.
  - reflexivity.
  - ops Hw; reflexivity.
  - apply num_run; auto.
  - discriminate.
  - apply andb_prop in Hw. destruct Hw as [Ho Ha].
    destruct (opmap op) as [o|] eqn:Eo; [|discriminate].
    destruct (flatten t) as [x|] eqn:E1; [|discriminate].
    specialize (IHt x). cbn [app]. rewrite <- !app_assoc. cbn [app].
    ops Ho; cbn [app].
    + change (run (LPAREN :: NOT "!" :: toks t ++ RPAREN :: ts) st None = run ts st (Some (NUn "!" t))).
      rewrite run_lp_not, IHt by auto. rewrite run_rp. reflexivity.
    + change (run (LPAREN :: ALWAYS :: toks t ++ RPAREN :: ts) st None = run ts st (Some (NUn "G" t))).
      rewrite run_lp_alw, IHt by auto. rewrite run_rp. reflexivity.
    + change (run (toks t ++ RPAREN :: ts) (FUn 6 "F" :: FParen :: st) None = run ts st (Some (NUn "F" t))).
      rewrite IHt by auto. rewrite run_rp. reflexivity.
    + change (run (toks t ++ RPAREN :: ts) (FUn 13 "X" :: FParen :: st) None = run ts st (Some (NUn "X" t))).
      rewrite IHt by auto. rewrite run_rp. reflexivity.
  - apply andb_prop in Hw. destruct Hw as [Hw Hr]. apply andb_prop in Hw. destruct Hw as [Ho Hl].
    apply andb_prop in Hs. destruct Hs as [Sl Sr].
    destruct (opmap op) as [o|] eqn:Eo; [|discriminate].
    destruct (flatten t1) as [x|] eqn:E1; [|discriminate]. destruct (flatten t2) as [y|] eqn:E2; [|discriminate].
    specialize (IHt1 x). specialize (IHt2 y).
    cbn [app]. rewrite <- !app_assoc. rewrite run_lparen by (apply toks_head; auto).
    rewrite IHt1 by auto.
    ops Ho;
      match goal with |- run (lex ?o ++ _) _ _ = _ => let l := eval vm_compute in (lex o) in change (lex o) with l end;
      cbn [app]; rewrite run_bop; cbn [reduce fst snd blevel]; rewrite IHt2 by auto;
      cbn [app]; rewrite run_rp; reflexivity.
  - apply andb_prop in Hw. destruct Hw as [Hw Hr]. apply andb_prop in Hw. destruct Hw as [Ho Hl].
    apply andb_prop in Hs. destruct Hs as [Sl Sr].
    destruct (opmap op) as [o|] eqn:Eo; [|discriminate].
    destruct (flatten t1) as [x|] eqn:E1; [|discriminate]. destruct (flatten t2) as [y|] eqn:E2; [|discriminate].
    specialize (IHt1 x). specialize (IHt2 y).
    cbn [app]. rewrite <- !app_assoc. rewrite run_lparen by (apply toks_head; auto).
    rewrite IHt1 by auto.
    ops Ho;
      match goal with |- run (lex ?o ++ _) _ _ = _ => let l := eval vm_compute in (lex o) in change (lex o) with l end;
      cbn [app]; rewrite run_bop; cbn [reduce fst snd blevel]; rewrite IHt2 by auto;
      cbn [app]; rewrite run_rp; reflexivity.
  - apply andb_prop in Hw. destruct Hw as [Hw Hr]. apply andb_prop in Hw. destruct Hw as [Ho Hl].
    apply andb_prop in Hs. destruct Hs as [Sl Sr].
    destruct (opmap op) as [o|] eqn:Eo; [|discriminate].
    destruct (flatten t1) as [x|] eqn:E1; [|discriminate]. destruct (flatten t2) as [y|] eqn:E2; [|discriminate].
    specialize (IHt1 x). specialize (IHt2 y).
    cbn [app]. rewrite <- !app_assoc. rewrite run_lparen by (apply toks_head; auto).
    rewrite IHt1 by auto.
    apply orb_true_iff in Ho. destruct Ho as [Ho|Ho].
    + ops Ho;
      match goal with |- run (lex ?o ++ _) _ _ = _ => let l := eval vm_compute in (lex o) in change (lex o) with l end;
      cbn [app].
      * rewrite run_bop; cbn [reduce fst snd blevel]; rewrite IHt2 by auto;
          cbn [app]; rewrite run_rp; reflexivity.
      * change (run (toks t2 ++ [RPAREN] ++ ts) (FBin minus_level (NArith "-") t1 :: FParen :: st) None
                = run ts st (Some (NArith "-" t1 t2))).
        rewrite IHt2 by auto. cbn [app]; rewrite run_rp; reflexivity.
      * rewrite run_bop; cbn [reduce fst snd blevel]; rewrite IHt2 by auto;
          cbn [app]; rewrite run_rp; reflexivity.
      * rewrite run_bop; cbn [reduce fst snd blevel]; rewrite IHt2 by auto;
          cbn [app]; rewrite run_rp; reflexivity.
    + apply andb_prop in Ho. destruct Ho as [Ho Hv]. apply String.eqb_eq in Ho. subst op.
      destruct t2; try discriminate. cbn [toks].
      assert (Hn : num_toks v = [NUMBER v]).
      { destruct v as [|[[] [] [] [] [] [] [] []] v]; try reflexivity; discriminate. }
      rewrite Hn. reflexivity.
  - apply andb_prop in Hw. destruct Hw as [Hw H3]. apply andb_prop in Hw. destruct Hw as [Hw H2].
    apply andb_prop in Hw. destruct Hw as [Ho H1].
    apply andb_prop in Hs. destruct Hs as [Hs S3]. apply andb_prop in Hs. destruct Hs as [S1 S2].
    destruct (opmap op) as [o|] eqn:Eo; [|discriminate].
    destruct (flatten t1) as [x|] eqn:E1; [|discriminate]. destruct (flatten t2) as [y|] eqn:E2; [|discriminate].
    destruct (flatten t3) as [z|] eqn:E3; [|discriminate].
    apply String.eqb_eq in Ho. subst op.
    specialize (IHt1 x). specialize (IHt2 y). specialize (IHt3 z).
    change (run ((toks t1 ++ COMMA :: toks t2 ++ COMMA :: toks t3 ++ [RPAREN]) ++ ts) (FIte1 "ite" :: st) None
            = run ts st (Some (NIte "ite" t1 t2 t3))).
    rewrite <- !app_assoc. cbn [app]. rewrite IHt1 by auto.
    change (run ((toks t2 ++ COMMA :: toks t3 ++ [RPAREN]) ++ ts) (FIte2 "ite" t1 :: st) None
            = run ts st (Some (NIte "ite" t1 t2 t3))).
    rewrite <- !app_assoc. cbn [app]. rewrite IHt2 by auto.
    change (run ((toks t3 ++ [RPAREN]) ++ ts) (FIte3 "ite" t1 t2 :: st) None
            = run ts st (Some (NIte "ite" t1 t2 t3))).
    rewrite <- !app_assoc. cbn [app]. rewrite IHt3 by auto. reflexivity.
Qed.

Lemma parse_flatten t s : wf_node t = true -> no_str t = true -> flatten t = Some s ->
  parse s = Some t.
Proof.
  intros Hw Hs Hf. unfold parse, parse_toks. rewrite (flatten_lex t s Hw Hs Hf).
  rewrite <- (app_nil_r (toks t)). rewrite (toks_run t s [] [] Hw Hs Hf). reflexivity.
Qed.

(** Printing succeeds exactly on plain operators. *)
Lemma flatten_plain : forall t, wf_node t = true ->
  (plain_ops t = true <-> exists s, flatten t = Some s).
Proof.
  induction t; intros Hw; cbn [wf_node plain_ops flatten] in *.
  - split; eauto.
  - ops Hw; split; intros; eauto; eexists; reflexivity.
  - split; eauto.
  - split; eauto.
  - apply andb_prop in Hw. destruct Hw as [Ho Ha]. specialize (IHt Ha).
    rewrite andb_true_iff, IHt.
    ops Ho; cbn; (split; [intros [H1 [x E1]]; try discriminate; rewrite E1; eauto
                        |intros [s H]; try discriminate; destruct (flatten t); try discriminate; eauto]).
  - apply andb_prop in Hw. destruct Hw as [Hw Hr]. apply andb_prop in Hw. destruct Hw as [Ho Hl].
    rewrite !andb_true_iff, (IHt1 Hl), (IHt2 Hr).
    ops Ho; cbn; (split; [intros [[H1 [x E1]] [y E2]]; try discriminate; rewrite E1, E2; eauto
      |intros [s H]; try discriminate; destruct (flatten t1); try discriminate;
       destruct (flatten t2); try discriminate; eauto 6]).
  - apply andb_prop in Hw. destruct Hw as [Hw Hr]. apply andb_prop in Hw. destruct Hw as [Ho Hl].
    rewrite !andb_true_iff, (IHt1 Hl), (IHt2 Hr).
    ops Ho; cbn; (split; [intros [[H1 [x E1]] [y E2]]; try discriminate; rewrite E1, E2; eauto
      |intros [s H]; try discriminate; destruct (flatten t1); try discriminate;
       destruct (flatten t2); try discriminate; eauto 6]).
  - apply andb_prop in Hw. destruct Hw as [Hw Hr]. apply andb_prop in Hw. destruct Hw as [Ho Hl].
    rewrite !andb_true_iff, (IHt1 Hl), (IHt2 Hr).
    assert (Eo : opmap op = Some op).
    { apply orb_true_iff in Ho. destruct Ho as [Ho|Ho].
      - ops Ho; reflexivity.
      - apply andb_prop in Ho. destruct Ho as [Ho _]. apply String.eqb_eq in Ho. subst. reflexivity. }
    rewrite Eo. split.
    + intros [[x ->] [y ->]]. eauto.
    + intros [s H]. destruct (flatten t1); [|discriminate]. destruct (flatten t2); [|discriminate]. eauto.
  - apply andb_prop in Hw. destruct Hw as [Hw H3]. apply andb_prop in Hw. destruct Hw as [Hw H2].
    apply andb_prop in Hw. destruct Hw as [Ho H1]. apply String.eqb_eq in Ho. subst op.
    rewrite !andb_true_iff, (IHt1 H1), (IHt2 H2), (IHt3 H3). cbn. split.
    + intros [[[x ->] [y ->]] [z ->]]. eauto.
    + intros [s H]. destruct (flatten t1); [|discriminate]. destruct (flatten t2); [|discriminate].
      destruct (flatten t3); [|discriminate]. eauto 6.
Qed.
