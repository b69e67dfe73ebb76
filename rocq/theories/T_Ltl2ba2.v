(** The reader of never claims, continued: the labels that ltl2ba uses, texts that are cut off, and the claims that are not
    read as they are. *)
From Coq Require Import List String Ascii Bool Arith ZArith Lia.
From Verif Require Import M_Base M_Ast M_Lexer M_Gr1c S_LTL S_Python L_Python L_PyCase M_Ltl2ba S_Never L_Ltl2ba T_Ltl2ba.
Import ListNotations.
Open Scope string_scope.
Open Scope list_scope.
Open Scope nat_scope.

(** * The labels of ltl2ba *)
Inductive inner_label : string -> Prop :=
| il_state i j : digits i -> digits j -> inner_label ("T" ++ i ++ "_S" ++ j)%string
| il_accept j : digits j -> inner_label ("accept_S" ++ j)%string
| il_all : inner_label "accept_all".
Definition first_label (s : string) : Prop := exists i, digits i /\ s = ("T" ++ i ++ "_init")%string.
Lemma chars_app' a b : list_ascii_of_string (a ++ b)%string = list_ascii_of_string a ++ list_ascii_of_string b.
Proof. induction a as [|c a IH]; [reflexivity|]. cbn. rewrite IH. reflexivity. Qed.
Lemma contains_in p s c : contains p s -> In c (list_ascii_of_string p) -> In c (list_ascii_of_string s).
Proof. intros (a & b & ->) I. rewrite !chars_app', !in_app_iff. auto. Qed.
Lemma no_char c j : digits j -> is_digit c = false -> ~ In c (list_ascii_of_string j).
Proof. intros [_ F] D I. rewrite forallb_forall in F. specialize (F c I). congruence. Qed.
Ltac no_in := repeat match goal with
  | H : In _ (_ ++ _) |- _ => apply in_app_iff in H; destruct H as [H|H]
  | H : In ?c (list_ascii_of_string ?j), D : digits ?j |- _ => exfalso; exact (no_char c j D eq_refl H)
  | H : In _ (list_ascii_of_string _) |- _ => cbn in H
  | H : In _ (_ :: _) |- _ => destruct H as [H|H]; [discriminate|]
  | H : _ \/ _ |- _ => destruct H as [H|H]; [discriminate|]
  | H : In _ [] |- _ => destruct H
  | H : False |- _ => destruct H
  end.
Lemma inner_no_init s : inner_label s -> ~ contains "init" s.
Proof.
  intros L C. assert (I := contains_in "init" s "i" C (or_introl eq_refl)). destruct L as [i j D E|j D|]; rewrite ?chars_app' in I; no_in.
Qed.
Lemma inner_accept s : inner_label s -> contains "accept" s -> accepting_label s.
Proof.
  intros L C. assert (I := contains_in "accept" s "a" C (or_introl eq_refl)). destruct L as [i j D E|j D|]; rewrite ?chars_app' in I.
  - no_in.
  - exists ("_S" ++ j)%string. reflexivity.
  - exists "_all"%string. reflexivity.
Qed.
Lemma first_accept s : first_label s -> ~ contains "accept" s.
Proof. intros (i & D & ->) C. assert (I := contains_in "accept" _ "a" C (or_introl eq_refl)). rewrite ?chars_app' in I. no_in. Qed.
Lemma first_init s : first_label s -> contains "init" s.
Proof. intros (i & D & ->). exists ("T" ++ i ++ "_")%string, ""%string. rewrite !L_Python.str_assoc. reflexivity. Qed.
(** The labels of a claim of ltl2ba whose first state is not accepting. *)
Definition tool_labels (c : claim) : Prop := exists u b r, c = (u, b) :: r /\ first_label u /\ forall s, is_state c s -> s <> u -> inner_label s.
Lemma tool_telling c : tool_labels c -> telling c.
Proof.
  intros (u & b & r & -> & F & L). split; [|split].
  - intros s S. split.
    + intro C. destruct (string_dec s u) as [->|N]; [exists b, r; reflexivity|]. destruct (inner_no_init s (L s S N) C).
    + intros (b' & r' & [= <- _ _]). apply first_init, F.
  - intros s S C (q & E). destruct (string_dec s u) as [->|N].
    + apply (first_accept u F). exists ""%string, q. exact E.
    + exact (inner_no_init s (L s S N) C).
  - intros s S C. destruct (string_dec s u) as [->|N]; [destruct (first_accept u F C)|]. apply inner_accept; [exact (L s S N)|exact C].
Qed.
(** With these labels and only lists of cases, the automaton accepts the words that the claim accepts. *)
Theorem tool_language t c : claim_text t c -> only_cases c -> tool_labels c ->
  exists a, parse t = Ok a /\ forall w, language a w <-> claim_accepts c w.
Proof. intros H O L. exact (never_language t c H O (tool_telling c L)). Qed.
(** * Texts that are cut off *)
(** If the closing brace is missing, an AttributeError is raised. *)
Theorem cut_text a b c comment d s l : blank a -> blank b -> blank c -> ~ In "010"%char (list_ascii_of_string comment) -> blank d -> clauses_text s l -> only_cases l ->
  parse (a ++ "never" ++ b ++ "{" ++ c ++ "/*" ++ comment ++ "*/" ++ newline ++ d ++ s)%string = Err "AttributeError".
Proof.
  intros A B C CM D S O. destruct (clauses_read s l S O) as (u & ts & ev & G & R & _).
  assert (T : blex (a ++ "never" ++ b ++ "{" ++ c ++ "/*" ++ comment ++ "*/" ++ newline ++ d ++ s)%string = BNever :: BLb :: BComment :: BName u :: ts).
  { assert (GG : gives (a ++ "never" ++ b ++ "{" ++ c ++ "/*" ++ comment ++ "*/" ++ newline ++ d ++ s)%string (BNever :: BLb :: BComment :: BName u :: ts)).
    { apply (gives_app a [] _ _ (blank_gives a A)).
      apply (wgives_app "never" [BNever] _ (BLb :: BComment :: BName u :: ts) never_gives); [|apply delimited_app; [exact B|reflexivity]].
      apply (gives_app b [] _ _ (blank_gives b B)). apply (gives_app "{" [BLb] _ (BComment :: BName u :: ts) lb_gives). apply (gives_app c [] _ _ (blank_gives c C)).
      replace ("/*" ++ comment ++ "*/" ++ newline ++ d ++ s)%string with (("/*" ++ comment ++ "*/" ++ newline) ++ d ++ s)%string by (rewrite !L_Python.str_assoc; reflexivity).
      apply (gives_app _ [BComment] _ (BName u :: ts) (comment_gives comment CM)). apply (gives_app d [] _ _ (blank_gives d D)). exact G. }
    specialize (GG []). rewrite !app_nil_r in GG. exact GG. }
  unfold parse. rewrite T. cbn [List.length run]. unfold pclaim.
  assert (P : pclauses (List.length (BName u :: ts)) (BName u :: ts) = POk tt [] ev) by (rewrite <- (app_nil_r (BName u :: ts)) at 2; apply R; [cbn [List.length]; lia|exact I]).
  rewrite P. cbn [pbind]. reflexivity.
Qed.
(** * Calling the tool *)
(** The text is the output of [ltl2ba -f "formula"] and the tool has ended without error. *)
Theorem call_output tool formula out : call_ltl2ba tool formula = Ok out <->
  (exists r, tool ["ltl2ba"; "-h"] = Some r) /\ tool ["ltl2ba"; "-f"; (String """" formula ++ """")%string] = Some (0%Z, out).
Proof.
  unfold call_ltl2ba. cbn [append]. destruct (tool ["ltl2ba"; "-h"]) as [r|]; [|split; [discriminate|intros [(r & [=]) _]]].
  destruct (tool ["ltl2ba"; "-f"; (String """" (formula ++ """"))%string]) as [[code o]|]; [|split; [discriminate|intros [_ [=]]]].
  destruct (Z.eqb_spec code 0) as [->|N]; split.
  - intros [= ->]. split; [exists r; reflexivity|reflexivity].
  - intros [_ [= ->]]. reflexivity.
  - discriminate.
  - intros [_ [= E _]]. contradiction.
Qed.
(** The function of the interface never returns an automaton. *)
Theorem ltl2ba_returns_refuted tool formula : (forall a, ltl2ba tool formula <> Ok a) /\ (forall out, call_ltl2ba tool formula = Ok out -> ltl2ba tool formula = Err "NameError").
Proof. unfold ltl2ba. split; [intros a; destruct (call_ltl2ba tool formula); discriminate|intros out ->; reflexivity]. Qed.

(** * Claims of ltl2ba *)
Definition nl : string := String "010" "".
Definition tb : string := String "009" "".
Definition case_line (g v : string) : string := ("::" ++ " " ++ ("(" ++ "" ++ g ++ "" ++ ")") ++ " " ++ "->" ++ " " ++ "goto" ++ " " ++ v ++ (nl ++ tb))%string.
Lemma case_line_text x v : ident x -> ident v -> case_text (case_line x v) (QVar x, v).
Proof. intros X V. constructor; try exact eq_refl; try discriminate; [apply gt_paren; try exact eq_refl; apply gt_var, X|exact V]. Qed.
Lemma true_line_text v : ident v -> case_text (case_line "1" v) (QNum 1, v).
Proof. intro V. constructor; try exact eq_refl; try discriminate; [apply gt_paren; try exact eq_refl; apply gt_num; [split; [discriminate|reflexivity]|reflexivity]|exact V]. Qed.
Definition if_clause (u cases : string) : string := (u ++ "" ++ ":" ++ (nl ++ tb) ++ ("if" ++ (nl ++ tb) ++ cases ++ "fi" ++ "" ++ ";") ++ nl)%string.
Definition claim_of (formula clauses : string) : string := ("" ++ "never" ++ " " ++ "{" ++ " " ++ "/*" ++ (" " ++ formula ++ " ") ++ "*/" ++ newline ++ "" ++ clauses ++ "}" ++ nl)%string.
Lemma claim_of_text formula clauses c : ~ In "010"%char (list_ascii_of_string (" " ++ formula ++ " ")%string) -> clauses_text clauses c -> claim_text (claim_of formula clauses) c.
Proof. intros N C. constructor; try exact eq_refl; assumption. Qed.
Lemma ident_p : ident "p". Proof. split; [split; reflexivity|cbn; intuition discriminate]. Qed.
Lemma ident_T0_init : ident "T0_init". Proof. split; [split; reflexivity|cbn; intuition discriminate]. Qed.
Lemma ident_accept_init : ident "accept_init". Proof. split; [split; reflexivity|cbn; intuition discriminate]. Qed.
Lemma ident_accept_all : ident "accept_all". Proof. split; [split; reflexivity|cbn; intuition discriminate]. Qed.
Lemma ident_accept_S1 : ident "accept_S1". Proof. split; [split; reflexivity|cbn; intuition discriminate]. Qed.
Lemma ident_T0_S2 : ident "T0_S2". Proof. split; [split; reflexivity|cbn; intuition discriminate]. Qed.
Lemma no_newline s : existsb (Ascii.eqb "010") (list_ascii_of_string s) = false -> ~ In "010"%char (list_ascii_of_string s).
Proof. intros E I. assert (X : existsb (Ascii.eqb "010") (list_ascii_of_string s) = true) by (apply existsb_exists; exists "010"%char; split; [exact I|reflexivity]). congruence. Qed.

(** [] <> p *)
Definition gf_text : string := claim_of "[] <> p" (if_clause "T0_init" (case_line "1" "T0_init" ++ case_line "p" "accept_S1") ++ if_clause "accept_S1" (case_line "1" "T0_init" ++ case_line "p" "accept_S1"))%string.
Definition gf_cases : list (guard * string) := [(QNum 1, "T0_init"); (QVar "p", "accept_S1")]%string.
Definition gf_claim : claim := [("T0_init", Cases gf_cases); ("accept_S1", Cases gf_cases)]%string.
Lemma gf_cases_text : cases_text (case_line "1" "T0_init" ++ case_line "p" "accept_S1")%string gf_cases.
Proof. apply ct_more; [apply true_line_text, ident_T0_init|]. apply ct_one. apply case_line_text; [exact ident_p|exact ident_accept_S1]. Qed.
Lemma if_last u t l : ident u -> cases_text t l -> clauses_text (if_clause u t) [(u, Cases l)].
Proof. intros U T. unfold if_clause. apply ct_last; try exact eq_refl; [exact U|]. apply bt_if; [exact eq_refl|exact T|exact eq_refl]. Qed.
Lemma if_more u t l s c : ident u -> cases_text t l -> clauses_text s c -> clauses_text (if_clause u t ++ s)%string ((u, Cases l) :: c).
Proof.
  intros U T S. unfold if_clause. rewrite !(L_Python.str_assoc u), !(L_Python.str_assoc ""), !(L_Python.str_assoc ":"), !(L_Python.str_assoc (nl ++ tb)).
  rewrite (L_Python.str_assoc ("if" ++ _)%string nl s). apply ct_clause; try exact eq_refl; [exact U| |exact S]. apply bt_if; [exact eq_refl|exact T|exact eq_refl].
Qed.
Example gf_is_claim : claim_text gf_text gf_claim.
Proof. apply claim_of_text; [apply no_newline; reflexivity|]. apply if_more; [exact ident_T0_init|exact gf_cases_text|]. apply if_last; [exact ident_accept_S1|exact gf_cases_text]. Qed.
Lemma gf_names : names_ok gf_cases.
Proof. intros g v x [[= <- <-]|[[= <- <-]|[]]] M; cbn [mentions] in M; [destruct M|subst x; reflexivity]. Qed.
Example gf_only_cases : only_cases gf_claim.
Proof. intros u b [[= <- <-]|[[= <- <-]|[]]]; exists gf_cases; (split; [reflexivity|exact gf_names]). Qed.
Example gf_labels : tool_labels gf_claim.
Proof.
  exists "T0_init"%string, (Cases gf_cases), [("accept_S1", Cases gf_cases)]%string. split; [reflexivity|]. split; [exists "0"%string; split; [split; [discriminate|reflexivity]|reflexivity]|].
  assert (A : inner_label "accept_S1") by (apply (il_accept "1"); split; [discriminate|reflexivity]).
  intros s [(b & [[= <- <-]|[[= <- <-]|[]]])|(u & g & I)] N; [congruence|exact A|]. cbn in I.
  repeat match goal with H : _ \/ _ |- _ => destruct H as [H|H] end; try (injection I as _ <- _); [congruence|exact A|congruence|exact A|destruct I].
Qed.
Example gf_language : exists a, parse gf_text = Ok a /\ forall w, language a w <-> claim_accepts gf_claim w.
Proof. exact (tool_language _ _ gf_is_claim gf_only_cases gf_labels). Qed.
Example gf_automaton : parse gf_text = Ok (BA ["p"] ["T0_init"; "accept_S1"]
  [("T0_init", "T0_init", GText "(1)"); ("T0_init", "accept_S1", GText "(p)"); ("accept_S1", "T0_init", GText "(1)"); ("accept_S1", "accept_S1", GText "(p)")] ["T0_init"] ["accept_S1"])%string.
Proof. vm_compute. reflexivity. Qed.

(** * Claims that are not read as they are *)
Lemma no_accepting a : ba_accepting a = [] -> forall w, ~ language a w.
Proof. intros E w (r & _ & _ & A). destruct (A 0) as (j & _ & J). rewrite E in J. exact J. Qed.
Definition always_p : word_of := fun _ _ => true.
(** [] p: the only state is both the first and accepting, and is not taken to be accepting. *)
Definition g_text : string := claim_of "[] p" (if_clause "accept_init" (case_line "p" "accept_init")).
Definition g_claim : claim := [("accept_init", Cases [(QVar "p", "accept_init")])]%string.
Theorem accept_init_refuted : claim_text g_text g_claim /\ only_cases g_claim /\
  (exists a, parse g_text = Ok a /\ forall w, ~ language a w) /\ (forall w, (forall i, w i "p"%string = true) -> claim_accepts g_claim w).
Proof.
  split; [|split; [|split]].
  - apply claim_of_text; [apply no_newline; reflexivity|]. apply if_last; [exact ident_accept_init|]. apply ct_one, case_line_text; [exact ident_p|exact ident_accept_init].
  - intros u b [[= <- <-]|[]]. eexists. split; [reflexivity|]. intros g v x [[= <- <-]|[]] M. cbn [mentions] in M. subst x. reflexivity.
  - eexists. split; [vm_compute; reflexivity|]. apply no_accepting. reflexivity.
  - intros w W. exists (fun _ => "accept_init"%string). split; [eexists; eexists; reflexivity|]. split; [|intro i; exists i; split; [lia|exists "_init"%string; reflexivity]].
    intro i. left. exists [(QVar "p", "accept_init")]%string, (QVar "p"). split; [left; reflexivity|]. split; [left; reflexivity|]. apply W.
Qed.
(** <> p: after "skip" there is no way on. *)
Definition f_text : string := claim_of "<> p" (if_clause "T0_init" (case_line "1" "T0_init" ++ case_line "p" "accept_all") ++ ("accept_all" ++ "" ++ ":" ++ (nl ++ tb) ++ "skip" ++ nl))%string.
Definition f_claim : claim := [("T0_init", Cases [(QNum 1, "T0_init"); (QVar "p", "accept_all")]); ("accept_all", Skip)]%string.
Theorem skip_refuted : claim_text f_text f_claim /\ tool_labels f_claim /\
  (exists a, parse f_text = Ok a /\ forall w, ~ language a w) /\ (forall w, w 0 "p"%string = true -> claim_accepts f_claim w).
Proof.
  split; [|split; [|split]].
  - apply claim_of_text; [apply no_newline; reflexivity|]. apply if_more; [exact ident_T0_init| |].
    + apply ct_more; [apply true_line_text, ident_T0_init|]. apply ct_one, case_line_text; [exact ident_p|exact ident_accept_all].
    + apply ct_last; try exact eq_refl; [exact ident_accept_all|constructor].
  - exists "T0_init"%string. eexists. eexists. split; [reflexivity|]. split; [exists "0"%string; split; [split; [discriminate|reflexivity]|reflexivity]|].
    intros s [(b & [[= <- <-]|[[= <- <-]|[]]])|(u & g & I)] N; [congruence|constructor|]. cbn in I.
    repeat match goal with H : _ \/ _ |- _ => destruct H as [H|H] end; try (injection I as _ <- _); [congruence|constructor|destruct I].
  - eexists. split; [vm_compute; reflexivity|]. intros w (r & _ & Q & A). destruct (A 0) as (j & _ & J). cbn in J. destruct J as [J|[]]. destruct (Q j) as (G & x & I & _). rewrite <- J in I. cbn in I.
    destruct I as [I|[I|[]]]; injection I; discriminate.
  - intros w W. exists (fun i => match i with O => "T0_init" | _ => "accept_all" end)%string. split; [eexists; eexists; reflexivity|]. split.
    + intros [|i]; [left|right; split; [right; left; reflexivity|reflexivity]].
      eexists. exists (QVar "p"). split; [left; reflexivity|]. split; [right; left; reflexivity|exact W].
    + intro i. exists (S i). split; [lia|exists "_all"%string; reflexivity].
Qed.
(** After a label with "false" the labels that follow are not read. *)
Definition d_text : string := claim_of "<> [] p" (if_clause "T0_init" (case_line "1" "T0_S2" ++ case_line "p" "accept_S1") ++ ("T0_S2" ++ "" ++ ":" ++ (nl ++ tb) ++ ("false" ++ "" ++ ";") ++ nl ++ if_clause "accept_S1" (case_line "p" "accept_S1")))%string.
Definition d_claim : claim := [("T0_init", Cases [(QNum 1, "T0_S2"); (QVar "p", "accept_S1")]); ("T0_S2", Never); ("accept_S1", Cases [(QVar "p", "accept_S1")])]%string.
Theorem false_refuted : claim_text d_text d_claim /\ tool_labels d_claim /\
  (exists a, parse d_text = Ok a /\ forall w, ~ language a w) /\ (forall w, (forall i, w i "p"%string = true) -> claim_accepts d_claim w).
Proof.
  split; [|split; [|split]].
  - apply claim_of_text; [apply no_newline; reflexivity|]. apply if_more; [exact ident_T0_init| |].
    + apply ct_more; [apply true_line_text, ident_T0_S2|]. apply ct_one, case_line_text; [exact ident_p|exact ident_accept_S1].
    + apply ct_clause; try exact eq_refl; [exact ident_T0_S2|apply bt_never; exact eq_refl|]. apply if_last; [exact ident_accept_S1|]. apply ct_one, case_line_text; [exact ident_p|exact ident_accept_S1].
  - exists "T0_init"%string. eexists. eexists. split; [reflexivity|]. split; [exists "0"%string; split; [split; [discriminate|reflexivity]|reflexivity]|].
    assert (A : inner_label "accept_S1") by (apply (il_accept "1"); split; [discriminate|reflexivity]).
    assert (B : inner_label "T0_S2") by (apply (il_state "0" "2"); (split; [discriminate|reflexivity])).
    intros s [(b & [[= <- <-]|[[= <- <-]|[[= <- <-]|[]]]])|(u & g & I)] N; [congruence|exact B|exact A|]. cbn in I.
    repeat match goal with H : _ \/ _ |- _ => destruct H as [H|H] end; try (injection I as _ <- _); [exact B|exact A|exact A|destruct I].
  - eexists. split; [vm_compute; reflexivity|]. intros w (r & IN & Q & A). cbn in IN. destruct IN as [IN|[]]. destruct (Q 0) as (G & x & I & _). destruct (Q 1) as (G' & x' & I' & _). rewrite <- IN in I. cbn in I.
    destruct I as [I|[I|[]]]; injection I as E _; rewrite <- E in I'; cbn in I'; destruct I' as [I'|[I'|[]]]; injection I'; discriminate.
  - intros w W. exists (fun i => match i with O => "T0_init" | _ => "accept_S1" end)%string. split; [eexists; eexists; reflexivity|]. split.
    + intros [|i]; left.
      * eexists. exists (QVar "p"). split; [left; reflexivity|]. split; [right; left; reflexivity|apply W].
      * eexists. exists (QVar "p"). split; [right; right; left; reflexivity|]. split; [left; reflexivity|apply W].
    + intro i. exists (S i). split; [lia|exists "_S1"%string; reflexivity].
Qed.
(** The full statement is false. *)
Theorem never_language_refuted : ~ forall t c, claim_text t c -> exists a, parse t = Ok a /\ forall w, language a w <-> claim_accepts c w.
Proof.
  intro H. destruct accept_init_refuted as (C & _ & (a & P & N) & A). destruct (H _ _ C) as (a' & P' & L). rewrite P in P'. injection P' as <-. apply (N always_p), L, A. reflexivity.
Qed.
Example cut_case : parse (substring 0 (String.length gf_text - 2) gf_text) = Err "AttributeError".
Proof. vm_compute. reflexivity. Qed.
Print Assumptions tool_language.
Print Assumptions cut_text.
Print Assumptions call_output.
Print Assumptions ltl2ba_returns_refuted.
Print Assumptions accept_init_refuted.
Print Assumptions skip_refuted.
Print Assumptions false_refuted.
Print Assumptions never_language_refuted.
