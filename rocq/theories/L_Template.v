(** Lexing and parsing of texts built by concatenation (format strings with holes). *)
From Coq Require Import List String Ascii Bool Arith Lia.
From Verif Require Import M_Ast M_Lexer M_Parser L_Lexer L_Parser.
Import ListNotations.
Open Scope list_scope.
Open Scope char_scope.

Lemma lexl_nil : lexl [] = [].
Proof. reflexivity. Qed.
Lemma lexl_not t : lexl ("!" :: "(" :: t) = NOT "!" :: lexl ("(" :: t).
Proof. rewrite lexl_cons. reflexivity. Qed.
Lemma lexl_not_sp t : lexl ("!" :: " " :: t) = NOT "!" :: lexl t.
Proof. rewrite lexl_cons. cbn -[lexl]. apply f_equal, lexl_space. Qed.
Lemma lexl_next t : lexl ("X" :: " " :: t) = NEXT :: lexl t.
Proof. rewrite lexl_cons. cbn -[lexl]. apply f_equal, lexl_space. Qed.
Lemma lexl_next_p t : lexl ("X" :: "(" :: t) = NEXT :: lexl ("(" :: t).
Proof. rewrite lexl_cons. reflexivity. Qed.
Lemma lexl_imp t : lexl ("-" :: ">" :: t) = BOP IMP "->" :: lexl t.
Proof. rewrite lexl_cons. reflexivity. Qed.
Lemma lexl_iff t : lexl ("<" :: "-" :: ">" :: t) = BOP BIMP "<->" :: lexl t.
Proof. rewrite lexl_cons. reflexivity. Qed.
Lemma lexl_and t : lexl ("&" :: "&" :: t) = BOP AND "&" :: lexl t.
Proof. rewrite lexl_cons. reflexivity. Qed.
Lemma lexl_and1 t : lexl ("&" :: " " :: t) = BOP AND "&" :: lexl t.
Proof. rewrite lexl_cons. cbn -[lexl]. apply f_equal, lexl_space. Qed.
Lemma lexl_or t : lexl ("|" :: "|" :: t) = BOP OR "|" :: lexl t.
Proof. rewrite lexl_cons. reflexivity. Qed.
Lemma lexl_or1 t : lexl ("|" :: " " :: t) = BOP OR "|" :: lexl t.
Proof. rewrite lexl_cons. cbn -[lexl]. apply f_equal, lexl_space. Qed.
Lemma lexl_ev t : lexl ("<" :: ">" :: t) = EVENTUALLY :: lexl t.
Proof. rewrite lexl_cons. reflexivity. Qed.
Lemma lexl_alw t : lexl ("[" :: "]" :: t) = ALWAYS :: lexl t.
Proof. rewrite lexl_cons. reflexivity. Qed.
Lemma lexl_eq t : lexl ("=" :: " " :: t) = BOP EQUALS "=" :: lexl t.
Proof. rewrite lexl_cons. cbn -[lexl]. apply f_equal, lexl_space. Qed.

Lemma lexl_cut s d t : no_hash s -> delim d -> lexl (s ++ d :: t) = lexl s ++ lexl (d :: t).
Proof. intros. apply lexl_app with (n := List.length s); auto. Qed.

Lemma delim_sp : delim " ". Proof. unfold delim; auto. Qed.
Lemma delim_lp : delim "(". Proof. unfold delim; auto. Qed.
Lemma delim_rp : delim ")". Proof. unfold delim; auto. Qed.
Lemma delim_co : delim ",". Proof. unfold delim; auto. Qed.

(** Turn [lex text] into tokens; holes stay as [lex hole]. *)
Ltac lex_text :=
  unfold lex; repeat rewrite las_app; cbn [list_ascii_of_string app];
  repeat rewrite <- app_assoc; cbn [app];
  repeat first
    [ rewrite lexl_space | rewrite lexl_lparen | rewrite lexl_rparen | rewrite lexl_comma
    | rewrite lexl_imp | rewrite lexl_and | rewrite lexl_or | rewrite lexl_ev | rewrite lexl_alw
    | rewrite lexl_and1 | rewrite lexl_or1 | rewrite lexl_iff | rewrite lexl_eq
    | rewrite lexl_not | rewrite lexl_not_sp | rewrite lexl_next | rewrite lexl_next_p
    | rewrite lexl_nil
    | rewrite lexl_cut by (first [assumption | exact delim_sp | exact delim_lp | exact delim_rp | exact delim_co]) ].

Lemma run_lp_lp ts st : run (LPAREN :: LPAREN :: ts) st None = run (LPAREN :: ts) (FParen :: st) None.
Proof. reflexivity. Qed.
Lemma run_lp_not v ts st : run (LPAREN :: NOT v :: ts) st None = run ts (FUn 12 v :: FParen :: st) None.
Proof. reflexivity. Qed.
Lemma run_lp_next ts st : run (LPAREN :: NEXT :: ts) st None = run ts (FUn 13 "X" :: FParen :: st) None.
Proof. reflexivity. Qed.
Lemma run_lp_name v ts st : run (LPAREN :: NAME v :: ts) st None = run ts (FParen :: st) (Some (NVar v)).
Proof. reflexivity. Qed.
Lemma run_lp_alw ts st : run (LPAREN :: ALWAYS :: ts) st None = run ts (FUn 6 "G" :: FParen :: st) None.
Proof. reflexivity. Qed.
Lemma run_name v ts st : run (NAME v :: ts) st None = run ts st (Some (NVar v)).
Proof. reflexivity. Qed.
Lemma run_not v ts st : run (NOT v :: ts) st None = run ts (FUn 12 v :: st) None.
Proof. reflexivity. Qed.
Lemma run_next ts st : run (NEXT :: ts) st None = run ts (FUn 13 "X" :: st) None.
Proof. reflexivity. Qed.
Lemma run_alw ts st : run (ALWAYS :: ts) st None = run ts (FUn 6 "G" :: st) None.
Proof. reflexivity. Qed.
Lemma run_ev ts st : run (EVENTUALLY :: ts) st None = run ts (FUn 6 "F" :: st) None.
Proof. reflexivity. Qed.
Lemma run_bop k v ts st e : run (BOP k v :: ts) st (Some e) =
  run ts (FBin (blevel k) (mk_bin k v) (snd (reduce (blevel k) st e)) ::
          fst (reduce (blevel k) st e)) None.
Proof. cbn [run]. destruct (reduce (blevel k) st e); reflexivity. Qed.
Lemma run_rp ts st e : run (RPAREN :: ts) st (Some e) =
  match reduce 0 st e with
  | (FParen :: st', e') => run ts st' (Some e')
  | (FIte3 op a b :: st', e') => run ts st' (Some (NIte op a b e'))
  | _ => None
  end.
Proof. reflexivity. Qed.
Lemma run_nil st e : run [] st (Some e) =
  match reduce 0 st e with ([], e') => Some e' | _ => None end.
Proof. reflexivity. Qed.

(** Run the parser on tokens with holes [lexl hole], given [parse_toks (lexl hole) = Some _]. *)
Ltac run_text :=
  unfold parse_toks;
  repeat (first
    [ rewrite run_paren_name
    | match goal with
      | H : parse_toks ?l = Some ?P |- context [run (LPAREN :: ?l ++ RPAREN :: ?r) ?st None] =>
          rewrite (run_paren l P st r H)
      end
    | rewrite run_lp_lp | rewrite run_lp_not | rewrite run_lp_next | rewrite run_lp_name
    | rewrite run_lp_alw
    | rewrite run_name
    | rewrite run_not | rewrite run_next | rewrite run_alw | rewrite run_ev
    | rewrite run_bop | rewrite run_rp | rewrite run_nil ];
    cbn [app reduce Nat.leb blevel fst snd mk_bin minus_level]).
