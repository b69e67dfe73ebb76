(** Lemmas on the texts of exported classes: expressions, lines, statements and blocks. *)
From Coq Require Import List String Ascii Bool Arith ZArith Lia.
From Verif Require Import M_Base M_Tree M_Gr1c L_Dec S_Python L_Python M_PyCase S_PyCase.
Import ListNotations.
Open Scope string_scope.
Open Scope list_scope.
Open Scope nat_scope.
Notation chars := list_ascii_of_string.

(** * Values *)
Definition lval_py (v : lval) : pyval := match v with LInt z => PZ z | LBool b => PB b | LStr s => PS s end.
(** Texts that can stand between quotes of either kind *)
Definition clean_char (c : ascii) : bool :=
  Nat.leb 32 (nat_of_ascii c) && negb (Ascii.eqb c "'") && negb (Ascii.eqb c dq) && negb (Ascii.eqb c "\").
Definition clean (s : string) : bool := forallb clean_char (chars s).
Definition clean_val (v : lval) : bool := match v with LStr s => clean s | _ => true end.
Definition lval_exp (v : lval) : pyexp :=
  match v with
  | LInt z => if (z <? 0)%Z then ENeg (ENum (- z)) else ENum z
  | LBool b => EBool b
  | LStr s => EStr s
  end.
Lemma lval_value env v : py_value env (lval_exp v) = Some (lval_py v).
Proof.
  destruct v as [z|b|s]; cbn [lval_exp lval_py]; [|reflexivity..]. destruct (z <? 0)%Z; cbn; [|reflexivity]. rewrite Z.opp_involutive. reflexivity.
Qed.
Lemma lex_nat n : lexes (str_nat n) [KNum (Z.of_nat n)].
Proof.
  destruct (py_number_word _ (py_number_str_nat n)) as (W & z & P & Q & _). rewrite num_text_str_nat in Q.
  apply word_lexes; auto. rewrite P. congruence.
Qed.
Lemma lex_strlit s : clean s = true -> forall rest w, py_strlit (chars s ++ "'"%char :: rest) w = option_map (cons (KStr (w ++ s))) (py_lex rest "").
Proof.
  unfold clean. induction s as [|c s IH]; intros C rest w; cbn [list_ascii_of_string app].
  - cbn [py_strlit]. rewrite Ascii.eqb_refl. replace (w ++ "")%string with w by (clear; induction w; cbn; congruence). reflexivity.
  - cbn [list_ascii_of_string forallb] in C. apply andb_true_iff in C. destruct C as [C D]. unfold clean_char in C.
    apply andb_true_iff in C. destruct C as [C C4]. apply andb_true_iff in C. destruct C as [C C3].
    apply andb_true_iff in C. destruct C as [C1 C2].
    cbn [py_strlit]. apply negb_true_iff in C2, C4. rewrite C2, C4. apply Nat.leb_le in C1.
    replace (nat_of_ascii c <? 32) with false by (symmetry; apply Nat.ltb_ge; auto). cbn [orb].
    rewrite IH by auto. rewrite L_Python.str_assoc. reflexivity.
Qed.
Lemma val_atom v : clean_val v = true -> py_atom (lval_text v) (lval_exp v).
Proof.
  intro C. destruct v as [z|[|]|s]; cbn [lval_text lval_exp].
  - unfold str_Z. destruct (z <? 0)%Z eqn:Z0.
    + exists ([KOp OMinus] ++ [KNum (- z)]). split; [|apply atoms_neg]. apply any_app_lexes; [lit|].
      apply Z.ltb_lt in Z0. replace (- z)%Z with (Z.of_nat (Z.to_nat (- z))) at 2 by lia. apply lex_nat.
    + exists [KNum z]. split; [|apply atoms_num]. apply Z.ltb_ge in Z0. replace z with (Z.of_nat (Z.to_nat z)) at 2 by lia. apply lex_nat.
  - exists [KTrue]. split; [|apply atoms_true]. apply word_lexes; reflexivity.
  - exists [KFalse]. split; [|apply atoms_false]. apply word_lexes; reflexivity.
  - exists [KStr s]. split.
    + apply any_lexes. intro rest. change ("'" ++ s ++ "'")%string with (String "'" (s ++ "'")). cbn [list_ascii_of_string app py_lex].
      change (word_char "'") with false. cbn [opt_app]. change (py_word "") with (Some (@nil pytok)).
      rewrite chars_app, <- app_assoc. cbn [list_ascii_of_string app]. rewrite lex_strlit by auto.
      destruct (py_lex rest ""); reflexivity.
    + split; [discriminate|]. intros [|f] m rest L; cbn [List.length] in L; [lia|]. cbn. rewrite Nat.sub_0_r. reflexivity.
Qed.
Lemma name_atom x : py_name x = true -> py_atom x (EName x).
Proof. intro P. destruct (py_name_word x P) as [A B]. exists [KName x]. split; [apply word_lexes; auto|apply atoms_name]. Qed.

Lemma parse_atom s e : py_atom s e -> py_parse s = Some e.
Proof.
  intros (ts & L & A). unfold py_parse. specialize (L [] I). rewrite app_nil_r in L. rewrite L. cbn [py_lex option_map].
  change (py_word "") with (Some (@nil pytok)). cbn [option_map]. rewrite app_nil_r. pose proof (atoms_len _ _ A).
  destruct A as [_ A]. specialize (A (S (2 * List.length ts)) 0 []). rewrite app_nil_r in A. rewrite A by lia.
  destruct (List.length ts) as [|k]; [lia|]. cbn [Nat.mul Nat.sub]. reflexivity.
Qed.
Lemma parse_nat n : py_parse (str_nat n) = Some (ENum (Z.of_nat n)).
Proof. apply parse_atom. exists [KNum (Z.of_nat n)]. split; [apply lex_nat|apply atoms_num]. Qed.

(** * Guards *)
Lemma loop_and_end : forall l a f, Forall (fun p => atoms (fst p) (snd p)) l -> 2 * List.length (more l) < f ->
  py_loop f 0 a (more l) = Some (fold_left (fun a p => EBin OAnd a (snd p)) l a, []).
Proof.
  induction l as [|[t e] l IH]; intros a f F L.
  - destruct f; [cbn in L; lia|]. reflexivity.
  - destruct f as [|f]; [lia|]. cbn [more map List.concat fst app]. fold (more l).
    pose proof (Forall_inv F) as A. cbn [fst snd] in A. pose proof (atoms_len _ _ A) as Lt. destruct A as [_ A].
    cbn [more map List.concat fst app List.length] in L. fold (more l) in L. rewrite app_length in L.
    cbn [py_loop prec Nat.leb]. rewrite A by lia. destruct f as [|f]; [lia|]. replace (S f - 1) with f by lia.
    assert (P : py_loop f 3 e (more l) = Some (e, more l)).
    { destruct f as [|f]; [lia|]. destruct l as [|[t' e'] l]; reflexivity. }
    rewrite P. cbn [is_cmp andb]. apply IH; [apply (Forall_inv_tail F)|]. lia.
Qed.
Definition eq_text (kv : string * lval) : string := ("(" ++ fst kv ++ " == " ++ lval_text (snd kv) ++ ")")%string.
Definition eq_exp (kv : string * lval) : pyexp := EBin OEq (EName (fst kv)) (lval_exp (snd kv)).
Lemma eq_lexes kv : py_name (fst kv) = true -> clean_val (snd kv) = true ->
  exists ts, lexes_any (eq_text kv) ts /\ atoms ts (eq_exp kv).
Proof.
  intros P C. destruct (name_atom _ P) as (ta & La & Aa). destruct (val_atom _ C) as (tb & Lb & Ab).
  eexists. split; [|apply atoms_bin; eauto].
  change (KLp :: ta ++ KOp OEq :: tb ++ [KRp]) with ([KLp] ++ ta ++ [KOp OEq] ++ tb ++ [KRp]). unfold eq_text.
  apply seg_lit; [lit|]. apply seg_text; [auto|reflexivity|discriminate|]. apply seg_lit; [lit|].
  apply seg_end; auto; [reflexivity|discriminate|lit].
Qed.
Definition guard_exp (d : label) : pyexp :=
  match d with [] => EBool true | kv :: r => fold_left (fun a p => EBin OAnd a (eq_exp p)) r (eq_exp kv) end.
Lemma guard_parse d : d <> [] -> (forall kv, In kv d -> py_name (fst kv) = true /\ clean_val (snd kv) = true) ->
  py_parse (join " and " (map eq_text d)) = Some (guard_exp d).
Proof.
  intros NE H. destruct d as [|kv r]; [congruence|]. clear NE.
  destruct (eq_lexes kv) as (t0 & L0 & A0); [apply H; left; auto|apply H; left; auto|].
  assert (P : exists l, Forall (fun p => atoms (fst p) (snd p)) l /\ map snd l = map eq_exp r /\
    lexes_any (join " and " (map eq_text (kv :: r))) (t0 ++ more l)).
  { revert kv t0 L0 A0 H. induction r as [|kv' r IH]; intros kv t0 L0 A0 H.
    - exists []. repeat split; auto. rewrite app_nil_r. exact L0.
    - destruct (eq_lexes kv') as (t1 & L1 & A1); [apply H; right; left; auto|apply H; right; left; auto|].
      destruct (IH kv' t1 L1 A1) as (l & F & M & L); [intros; apply H; right; auto|].
      exists ((t1, eq_exp kv') :: l). split; [constructor; auto|]. split; [cbn [map snd]; rewrite M; auto|].
      change (join " and " (map eq_text (kv :: kv' :: r))) with (eq_text kv ++ " and " ++ join " and " (map eq_text (kv' :: r)))%string.
      change (more ((t1, eq_exp kv') :: l)) with ([KOp OAnd] ++ t1 ++ more l). apply any_app; auto. apply any_app; [lit|auto]. }
  destruct P as (l & F & Ml & L). unfold py_parse. specialize (L []). rewrite app_nil_r in L. rewrite L. cbn [py_lex].
  change (py_word "") with (Some (@nil pytok)). cbn [option_map]. rewrite app_nil_r. pose proof (atoms_len _ _ A0) as LA. destruct A0 as [_ A0].
  rewrite A0 by (rewrite app_length; lia). rewrite loop_and_end; auto; [|rewrite app_length; lia].
  f_equal. unfold guard_exp. clear -Ml. revert Ml. generalize (eq_exp kv) as a. revert r. induction l as [|p l IH]; intros [|q r] a Ml; try discriminate; [reflexivity|].
  cbn [map] in Ml. injection Ml as M1 M2. cbn [fold_left]. rewrite M1. apply IH. auto.
Qed.
(** The meaning of a guard *)
Lemma guard_value env d : (forall kv, In kv d -> env (fst kv) <> None) ->
  option_map truthy (py_value env (guard_exp d)) = Some (forallb (fun kv => match env (fst kv) with Some v => py_eqv v (lval_py (snd kv)) | None => false end) d).
Proof.
  intro H. destruct d as [|kv r]; [reflexivity|]. cbn [guard_exp forallb].
  assert (A : forall q, In q (kv :: r) -> py_value env (eq_exp q) = Some (PB match env (fst q) with Some v => py_eqv v (lval_py (snd q)) | None => false end)).
  { intros q Q. specialize (H q Q). unfold eq_exp. cbn [py_value]. destruct (env (fst q)) as [v|]; [|congruence]. rewrite lval_value. reflexivity. }
  assert (G : forall l e b, (forall q, In q l -> In q (kv :: r)) -> py_value env e = Some (PB b) ->
    py_value env (fold_left (fun a p => EBin OAnd a (eq_exp p)) l e) =
    Some (PB (b && forallb (fun kv => match env (fst kv) with Some v => py_eqv v (lval_py (snd kv)) | None => false end) l))).
  { induction l as [|q l IH]; intros e b S E; cbn [fold_left forallb]; [rewrite andb_true_r; auto|].
    rewrite (IH (EBin OAnd e (eq_exp q)) (b && match env (fst q) with Some v => py_eqv v (lval_py (snd q)) | None => false end)).
    - rewrite andb_assoc. reflexivity.
    - intros; apply S; right; auto.
    - cbn [py_value]. rewrite E. cbn [truthy]. destruct b; [|reflexivity]. apply A, S. left; auto. }
  rewrite (G r (eq_exp kv) _) by (try (intros; right; assumption); apply A; left; reflexivity). reflexivity.
Qed.

(** * Lines *)
Definition oneline (s : string) : bool := forallb (fun c => negb (Nat.eqb (nat_of_ascii c) 10)) (chars s).
Lemma oneline_app a b : oneline (a ++ b) = oneline a && oneline b.
Proof. unfold oneline. rewrite chars_app, forallb_app. reflexivity. Qed.
Lemma str_nil_r (a : string) : (a ++ "")%string = a.
Proof. induction a; cbn; congruence. Qed.
Lemma lines_from_line : forall x acc r, oneline x = true -> lines_from acc (x ++ newline ++ r) = (acc ++ x)%string :: lines_from "" r.
Proof.
  induction x as [|c x IH]; intros acc r O.
  - cbn. rewrite str_nil_r. reflexivity.
  - unfold oneline in O. cbn [list_ascii_of_string forallb] in O. apply andb_true_iff in O. destruct O as [O1 O2].
    cbn [append lines_from]. apply negb_true_iff in O1. rewrite O1, IH by auto. rewrite L_Python.str_assoc. reflexivity.
Qed.
Lemma lines_unlines ls s : forallb oneline ls = true -> lines (unlines ls ++ s) = ls ++ lines s.
Proof.
  unfold lines. induction ls as [|x ls IH]; intro O; [reflexivity|]. cbn [forallb] in O. apply andb_true_iff in O. destruct O as [O1 O2].
  unfold unlines. cbn [fold_right]. fold (unlines ls). rewrite !L_Python.str_assoc. rewrite lines_from_line by auto. cbn [append app]. rewrite IH; auto.
Qed.
(** The first line begins with a text that has no line break. *)
Lemma lines_prefix : forall p acc s, oneline p = true -> (acc ++ p)%string <> "" -> exists x r, lines_from acc (p ++ s) = (acc ++ p ++ x)%string :: r.
Proof.
  induction p as [|c p IH]; intros acc s O NE.
  - rewrite str_nil_r in NE. cbn [append]. clear O. revert acc NE. induction s as [|c s IH]; intros acc NE; cbn [lines_from].
    + exists "", []. rewrite str_nil_r. destruct acc; [congruence|reflexivity].
    + destruct (nat_of_ascii c =? 10).
      * exists "", (lines_from "" s). rewrite str_nil_r. reflexivity.
      * destruct (IH (acc ++ String c "")%string) as (x & r & E); [destruct acc; discriminate|].
        exists (String c x), r. rewrite E, L_Python.str_assoc. reflexivity.
  - unfold oneline in O. cbn [list_ascii_of_string forallb] in O. apply andb_true_iff in O. destruct O as [O1 O2].
    cbn [append lines_from]. apply negb_true_iff in O1. rewrite O1.
    destruct (IH (acc ++ String c "")%string s O2) as (x & r & E); [destruct acc; discriminate|].
    exists x, r. rewrite E, L_Python.str_assoc. reflexivity.
Qed.
Definition cl (ls : list string) : list line := filter (fun l => negb (String.eqb (snd l) "")) (map indent ls).
Lemma cl_app a b : cl (a ++ b) = cl a ++ cl b.
Proof. unfold cl. rewrite map_app, filter_app. reflexivity. Qed.
Definition tight (t : string) : bool := match t with EmptyString => false | String c _ => negb (Ascii.eqb c " ") end.
Lemma indent_ln n t : tight t = true -> indent (ln n t) = (4 * n, t).
Proof.
  intro T. unfold ln. induction n as [|n IH].
  - cbn [tabs append]. destruct t as [|c t]; [discriminate|]. cbn [tight] in T. apply negb_true_iff in T. cbn [indent]. rewrite T. reflexivity.
  - cbn [tabs append]. cbn [indent]. rewrite !Ascii.eqb_refl. cbn [fst snd]. rewrite IH. cbn [fst snd]. f_equal. lia.
Qed.
Lemma cl_ln n t r : tight t = true -> cl (ln n t :: r) = (4 * n, t) :: cl r.
Proof.
  intro T. unfold cl. cbn [map filter]. rewrite indent_ln by auto. cbn [snd]. destruct t; [discriminate|]. reflexivity.
Qed.
Lemma cl_blank r : cl ("" :: r) = cl r.
Proof. reflexivity. Qed.
Lemma tight_app a b : tight a = true -> tight (a ++ b) = true.
Proof. destruct a; [discriminate|auto]. Qed.

(** * Statements *)
Lemma read_state k : read_simple ("self.state = " ++ str_nat k) = Some (SState (ENum (Z.of_nat k))).
Proof.
  assert (P : forall x, read_simple ("self.state = " ++ x) = option_map SState (py_parse x)) by reflexivity.
  rewrite P, parse_nat. reflexivity.
Qed.
Lemma cut_app c : forall a b, forallb (fun d => negb (Ascii.eqb c d)) (chars a) = true -> cut c (a ++ String c b) = Some (a, b).
Proof.
  induction a as [|d a IH]; intros b F; cbn [append cut].
  - rewrite Ascii.eqb_refl. reflexivity.
  - cbn [list_ascii_of_string forallb] in F. apply andb_true_iff in F. destruct F as [F1 F2]. apply negb_true_iff in F1. rewrite F1, IH by auto. reflexivity.
Qed.
Definition out_text (kv : string * lval) : string := ("output[" ++ dquote ++ fst kv ++ dquote ++ "] = " ++ lval_text (snd kv))%string.
Lemma read_out kv : clean (fst kv) = true -> clean_val (snd kv) = true -> read_simple (out_text kv) = Some (SOut (fst kv) (lval_exp (snd kv))).
Proof.
  intros C V. unfold out_text.
  assert (P : forall x, read_simple ("output[" ++ dquote ++ x) = match cut dq x with
      | Some (k, r') => match strip "] = " r' with Some e => option_map (SOut k) (py_parse e) | None => None end
      | None => None end) by reflexivity.
  rewrite P. change (dquote ++ "] = " ++ lval_text (snd kv))%string with (String dq ("] = " ++ lval_text (snd kv))).
  rewrite cut_app.
  - assert (Q : forall x, strip "] = " ("] = " ++ x) = Some x) by reflexivity. rewrite Q, (parse_atom _ _ (val_atom _ V)). reflexivity.
  - unfold clean in C. rewrite forallb_forall in *. intros c I. specialize (C c I). unfold clean_char in C.
    apply andb_true_iff in C. destruct C as [C _]. apply andb_true_iff in C. destruct C as [_ C]. rewrite Ascii.eqb_sym. auto.
Qed.

(** * Blocks *)
Definition low (ind : nat) (rest : list line) : Prop := match rest with [] => True | (i, _) :: _ => i < ind end.
Lemma block_end f ind rest : 0 < f -> low ind rest -> read_block f ind rest = Some (BNil, rest).
Proof.
  intros F L. destruct f as [|f]; [lia|]. destruct rest as [|[i t] r]; [reflexivity|]. cbn [low] in L. cbn [read_block].
  apply Nat.ltb_lt in L. rewrite L. reflexivity.
Qed.
Lemma block_simple f ind t s r : strip "if " t = None -> read_simple t = Some s ->
  read_block (S f) ind ((ind, t) :: r) = match read_block f ind r with Some (k, r') => Some (BCons s k, r') | None => None end.
Proof. intros I R. cbn [read_block]. rewrite Nat.ltb_irrefl, I, R. reflexivity. Qed.
Lemma block_if f ind c t e r a r1 b r2 k r3 : strip "if " t = Some c -> read_cond c = Some e -> read_body f ind r = Some (a, r1) ->
  read_else f ind r1 = Some (b, r2) -> read_block f ind r2 = Some (k, r3) ->
  read_block (S f) ind ((ind, t) :: r) = Some (BCons (SIf e a b) k, r3).
Proof. intros I C A E K. cbn [read_block]. rewrite Nat.ltb_irrefl, I, C, A, E, K. reflexivity. Qed.
Lemma else_elif f ind c t e r a r1 b r2 : strip "elif " t = Some c -> read_cond c = Some e -> read_body f ind r = Some (a, r1) ->
  read_else f ind r1 = Some (b, r2) -> read_else (S f) ind ((ind, t) :: r) = Some (BCons (SIf e a b) BNil, r2).
Proof. intros I C A E. cbn [read_else]. rewrite Nat.eqb_refl, I, C, A, E. reflexivity. Qed.
Lemma else_else f ind r : read_else (S f) ind ((ind, "else:") :: r) = read_body f ind r.
Proof. cbn [read_else]. rewrite Nat.eqb_refl. reflexivity. Qed.
Lemma else_none f ind rest : 0 < f -> low ind rest -> read_else f ind rest = Some (BNil, rest).
Proof.
  intros F L. destruct f as [|f]; [lia|]. destruct rest as [|[i t] r]; [reflexivity|]. cbn [low] in L. cbn [read_else].
  replace (i =? ind) with false by (symmetry; apply Nat.eqb_neq; lia). reflexivity.
Qed.
Lemma body_block f ind j t r : ind < j -> read_body (S f) ind ((j, t) :: r) = read_block f j ((j, t) :: r).
Proof. intro L. cbn [read_body]. apply Nat.ltb_lt in L. rewrite L. reflexivity. Qed.

(** The statements of an edge *)
Fixpoint outs_block (l : label) : block :=
  match l with [] => BNil | kv :: r => BCons (SOut (fst kv) (lval_exp (snd kv))) (outs_block r) end.
Definition edge_block (t : nat) (outs : label) : block := BCons (SState (ENum (Z.of_nat t))) (outs_block outs).
Definition edge_body (t : nat) (outs : label) : list line :=
  (16, "self.state = " ++ str_nat t)%string :: map (fun kv => (16, out_text kv)) outs.
Lemma read_outs : forall outs f rest, Forall (fun kv => clean (fst kv) = true /\ clean_val (snd kv) = true) outs -> low 16 rest ->
  List.length outs < f -> read_block f 16 (map (fun kv => (16, out_text kv)) outs ++ rest) = Some (outs_block outs, rest).
Proof.
  induction outs as [|kv outs IH]; intros f rest F L H; cbn [map app].
  - apply block_end; auto.
  - destruct f as [|f]; [lia|]. destruct (Forall_inv F) as [A B]. erewrite block_simple; [|reflexivity|apply read_out; auto].
    rewrite IH; [reflexivity|apply (Forall_inv_tail F)|auto|cbn [List.length] in H; lia].
Qed.
Lemma read_edge_body t outs f rest : Forall (fun kv => clean (fst kv) = true /\ clean_val (snd kv) = true) outs -> low 16 rest ->
  List.length (edge_body t outs) + 1 < f -> read_body f 12 (edge_body t outs ++ rest) = Some (edge_block t outs, rest).
Proof.
  intros F L H. unfold edge_body in *. cbn [List.length app] in *. rewrite map_length in H. destruct f as [|f]; [lia|]. rewrite body_block by lia.
  destruct f as [|f]; [lia|]. erewrite block_simple; [|reflexivity|apply read_state]. rewrite read_outs; auto; lia.
Qed.
Lemma strip_colon_app x : strip_colon (x ++ ":") = Some x.
Proof.
  induction x as [|c x IH]; [reflexivity|]. cbn [append strip_colon]. rewrite IH. destruct x; reflexivity.
Qed.
Lemma read_guard g e : py_parse g = Some e -> strip "self.state == " g = None -> read_cond (g ++ ":") = Some (CExpr e).
Proof. intros P N. unfold read_cond. rewrite strip_colon_app, N, P. reflexivity. Qed.
Lemma read_state_cond k : read_cond ("self.state == " ++ str_nat k ++ ":") = Some (CState (ENum (Z.of_nat k))).
Proof.
  unfold read_cond. rewrite <- L_Python.str_assoc, strip_colon_app.
  assert (Q : forall x, strip "self.state == " ("self.state == " ++ x) = Some x) by reflexivity. rewrite Q, parse_nat. reflexivity.
Qed.
Lemma exec_cons env call s k st o : exec_block env call (BCons s k) st o =
  match exec env call s st o with Some (Next st' o') => exec_block env call k st' o' | r => r end.
Proof. reflexivity. Qed.
Lemma code_unlines ls s : forallb oneline ls = true -> code_lines (unlines ls ++ s) = cl ls ++ code_lines s.
Proof. intro O. unfold code_lines. rewrite lines_unlines by auto. rewrite map_app, filter_app. reflexivity. Qed.
