(** C72: translation to Wring and JTLV. *)
From Coq Require Import List String Ascii Bool Arith ZArith Lia.
From Verif Require Import M_Base M_Ast M_Parser M_Spec M_Form M_Tree M_Gr1c M_Lang.
From Verif Require Import S_LTL S_Gr1 S_Form S_Syntax S_Tree S_Python S_Lang.
From Verif Require Import L_Gr1 L_Form L_ParseWf L_Encode L_Python L_Lang T_Encode.
From Verif Require T_Gr1c.
Import ListNotations.
Open Scope string_scope.
Open Scope list_scope.
Open Scope nat_scope.
Notation clause_trees := T_Gr1c.clause_trees.
Notation env_part := T_Gr1c.env_part.
Notation sys_part := T_Gr1c.sys_part.

Lemma text_read x blank punct y t : text x blank punct y t ->
  (let ws := split_words blank punct (chars y) "" in match read x (S (List.length ws)) Expr ws with Some (t, []) => Some t | _ => None end) = Some t.
Proof.
  intros (N & ws & L & [NW R]). specialize (L [] Logic.I). rewrite app_nil_r in L. cbn [split_words] in L. change (flush "") with (@nil string) in L. rewrite app_nil_r in L.
  cbv zeta. rewrite L. specialize (R (S (List.length ws)) [] ltac:(lia)). rewrite app_nil_r in R. rewrite R. reflexivity.
Qed.

(** * Formulas *)
(** The first declaration of the variable says that it is Boolean. *)
Definition boolean (env sys : vardecl) (v : string) : Prop := find (fun p => (fst p =? v)%string) (env ++ sys) = Some (v, DBool).
Lemma wring_var_ok env sys v : (exists y, wring_var env sys v = Ok y) <-> boolean env sys v.
Proof.
  unfold wring_var, boolean. assert (E : find (fun p => (fst p =? v)%string) (env ++ sys) =
    option_map (fun d => (v, d)) (match lookup v env with Some d => Some d | None => lookup v sys end)).
  { induction env as [|[k d] env IH]; cbn [app find fst lookup].
    - apply find_lookup.
    - rewrite (String.eqb_sym k v). destruct (String.eqb_spec v k); [subst; reflexivity|exact IH]. }
  rewrite E. destruct (match lookup v env with Some d => Some d | None => lookup v sys end) as [[| |]|]; cbn [option_map]; split; intro H;
    try (destruct H; discriminate); try discriminate; try (injection H; discriminate); eauto.
Qed.
Definition wring_operators : list string := ["True"; "False"; "!"; "&"; "|"; "->"; "<->"; "X"; "G"; "F"; "U"; "V"].
Definition jtlv_operators : list string :=
  ["True"; "False"; "!"; "&"; "|"; "->"; "<->"; "X"; "G"; "F"; "U"; "="; "!="; "<"; "<="; ">"; ">="].
Lemma wf_operators t : wf_node t = true -> forall op, In op (operators t) ->
  In op ["True"; "False"; "!"; "~"; "G"; "F"; "X"; "&"; "|"; "^"; "->"; "=>"; "<->"; "<=>"; "U"; "W"; "V"; "="; "!="; "/="; "<"; "<="; "=<"; ">"; ">="; "+"; "-"; "*"; "/"; "<<>>"; "ite"].
Proof.
  induction t as [v|v|v|v|op a IH|op l IHl r IHr|op l IHl r IHr|op l IHl r IHr|op a IHa b IHb c IHc]; intros W o I; cbn [operators] in I; cbn [wf_node] in W; try destruct I as [<-|I].
  - destruct I.
  - apply oneof_In in W. cbn in W |- *. intuition.
  - destruct I.
  - destruct I.
  - destruct I.
  - apply andb_true_iff in W. destruct W as [O _]. apply oneof_In in O. cbn in O |- *. intuition.
  - apply andb_true_iff in W. destruct W as [_ W]. auto.
  - rewrite !andb_true_iff in W. destruct W as [[O _] _]. apply oneof_In in O. cbn in O |- *. intuition.
  - rewrite !andb_true_iff in W. destruct W as [[_ Wl] Wr]. apply in_app_or in I. destruct I; auto.
  - rewrite !andb_true_iff in W. destruct W as [[O _] _]. apply oneof_In in O. cbn in O |- *. intuition.
  - rewrite !andb_true_iff in W. destruct W as [[_ Wl] Wr]. apply in_app_or in I. destruct I; auto.
  - rewrite !andb_true_iff in W. destruct W as [[O _] _]. apply orb_true_iff in O. destruct O as [O|O].
    + apply oneof_In in O. cbn in O |- *. intuition.
    + apply andb_true_iff in O. destruct O as [O _]. apply String.eqb_eq in O. subst op. cbn. intuition.
  - rewrite !andb_true_iff in W. destruct W as [[_ Wl] Wr]. apply in_app_or in I. destruct I; auto.
  - rewrite !andb_true_iff in W. destruct W as [[[O _] _] _]. apply String.eqb_eq in O. subst op. cbn. intuition.
  - rewrite !andb_true_iff in W. destruct W as [[[_ Wa] Wb] Wc]. rewrite !in_app_iff in I. destruct I as [I|[I|I]]; auto.
Qed.
Lemma mapped (m : list (string * string)) l t : wf_node t = true ->
  forallb (fun op => Bool.eqb (match lookup op m with Some _ => true | None => false end) (existsb (String.eqb op) l))
    ["True"; "False"; "!"; "~"; "G"; "F"; "X"; "&"; "|"; "^"; "->"; "=>"; "<->"; "<=>"; "U"; "W"; "V"; "="; "!="; "/="; "<"; "<="; "=<"; ">"; ">="; "+"; "-"; "*"; "/"; "<<>>"; "ite"] = true ->
  ((forall op, In op (operators t) -> exists o, lookup op m = Some o) <-> (forall op, In op (operators t) -> In op l)).
Proof.
  intros W A. rewrite forallb_forall in A.
  assert (E : forall op, In op (operators t) -> ((exists o, lookup op m = Some o) <-> In op l)).
  { intros op I. specialize (A op (wf_operators t W op I)). apply Bool.eqb_prop in A. split.
    - intros [o E]. rewrite E in A. symmetry in A. apply existsb_exists in A. destruct A as (x & X & Y). apply String.eqb_eq in Y. congruence.
    - intro J. destruct (lookup op m); [eauto|]. exfalso. assert (K : existsb (String.eqb op) l = true) by (apply existsb_exists; exists op; split; [exact J|apply String.eqb_refl]). congruence. }
  split; intros H op I; apply (E op I), H, I.
Qed.

(** A formula has a translation to Wring iff its operators are these, and its variables are Boolean. *)
Theorem wring_supported : forall env sys t, wf_node t = true ->
  (exists y, wring_print env sys t = Ok y) <->
  (forall op, In op (operators t) -> In op wring_operators) /\ (forall v, In v (vars t) -> boolean env sys v).
Proof.
  intros env sys t W. unfold wring_print. rewrite print_iff. rewrite (mapped wring_opmap wring_operators t W) by reflexivity.
  split; intros [A B]; (split; [exact A|]); intros v V; apply wring_var_ok; auto.
Qed.
Print Assumptions wring_supported.
(** Then it is read as the same formula. *)
Theorem wring_reading : forall env sys t y, wring_print env sys t = Ok y -> wf_node t = true -> logical t = true ->
  (forall v, In v (vars t) -> name_text wring_reserved v = true) -> wring_read y = Some t.
Proof. intros env sys t y H W L N. apply (text_read wring is_white wring_punct), (wring_text env sys); assumption. Qed.
Print Assumptions wring_reading.
Example wring_case : exists t, parse "[](p -> X(q V !r)) | <>(p U q)" = Some t /\
  wring_print [("p", DBool)] [("q", DBool); ("r", DBool)] t =
    Ok "( ( G ( (p=1) -> ( X ( (q=1) V ( ! (r=1) ) ) ) ) ) + ( F ( (p=1) U (q=1) ) ) )" /\
  wf_node t = true /\ logical t = true /\ (forall v, In v (vars t) -> name_text wring_reserved v = true).
Proof.
  eexists. split; [vm_compute; reflexivity|]. split; [vm_compute; reflexivity|]. split; [reflexivity|]. split; [reflexivity|].
  cbn. intuition (subst; reflexivity).
Qed.
(** Exclusive or, which Wring has, and weak until are not translated: the key is "xor", which no
    formula contains. *)
Theorem wring_xor_refuted : exists x t, parse x = Some t /\ logical t = true /\ (forall v, In v (vars t) -> boolean [("p", DBool)] [("q", DBool)] v) /\
  In "^" (map snd wring_opmap) /\ wring_print [("p", DBool)] [("q", DBool)] t = Err "KeyError".
Proof.
  exists "p ^ q". eexists. split; [vm_compute; reflexivity|]. split; [reflexivity|]. split; [cbn; intros v [<-|[<-|[]]]; reflexivity|].
  split; [cbn; intuition|vm_compute; reflexivity].
Qed.
Print Assumptions wring_xor_refuted.
(** A variable that is not Boolean is reported with the wrong exception. *)
Theorem wring_not_boolean_refuted : exists env t, parse "x" = Some t /\ wring_print env [] t = Err "AttributeError".
Proof. exists [("x", DInt 0 3)]. eexists. split; vm_compute; reflexivity. Qed.
Print Assumptions wring_not_boolean_refuted.

(** JTLV: the player who owns the variable. *)
Definition qualified (env : vardecl) (v : string) : string :=
  ((if existsb (fun d => (fst d =? v)%string) env then "e." else "s.") ++ v)%string.
Lemma has_existsb v (env : vardecl) : has v env = existsb (fun d => (fst d =? v)%string) env.
Proof.
  unfold has. induction env as [|[k d] env IH]; [reflexivity|]. cbn [lookup existsb fst]. rewrite (String.eqb_sym k v). destruct (v =? k)%string; [reflexivity|exact IH].
Qed.
Lemma owner_qualified env t : rename (owner env) t = rename (qualified env) t.
Proof.
  induction t; cbn [rename]; try congruence. f_equal. unfold owner, qualified. rewrite has_existsb. reflexivity.
Qed.
Theorem jtlv_supported : forall env sys t, wf_node t = true ->
  (exists y, jtlv_print env sys t = Ok y) <->
  (forall op, In op (operators t) -> In op jtlv_operators) /\ (forall v, In v (vars t) -> In v (map fst (env ++ sys))).
Proof.
  intros env sys t W. unfold jtlv_print. rewrite print_iff. rewrite (mapped jtlv_opmap jtlv_operators t W) by reflexivity.
  assert (E : forall v, (exists y, jtlv_var env sys v = Ok y) <-> In v (map fst (env ++ sys))).
  { intro v. unfold jtlv_var. rewrite !has_existsb, map_app, in_app_iff.
    assert (Q : forall l : vardecl, existsb (fun d => (fst d =? v)%string) l = true <-> In v (map fst l)).
    { intro l. rewrite existsb_exists, in_map_iff. split; intros (d & A & B); exists d; [apply String.eqb_eq in B; auto|subst v; split; [exact B|apply String.eqb_refl]]. }
    rewrite <- !Q. destruct (existsb _ env); [split; eauto|]. destruct (existsb _ sys); [split; eauto|]. split; [intros [y H]; discriminate|intros [H|H]; discriminate]. }
  split; intros [A B]; (split; [exact A|]); intros v V; apply E; auto.
Qed.
Print Assumptions jtlv_supported.
(** A formula is read as the same formula, with its variables qualified by their players. *)
Theorem jtlv_reading : forall env sys t y, jtlv_print env sys t = Ok y -> wf_node t = true -> no_str t = true ->
  (forall v, In v (vars t) -> name_text [] v = true) -> jtlv_read y = Some [rename (qualified env) t].
Proof.
  intros env sys t y H W L N. destruct (jtlv_text env sys t y H W L N) as [(NE & ws & LX & R) C]. rewrite <- owner_qualified.
  unfold jtlv_read, jtlv_words. pose proof (calm_skip y [] C) as K. cbn [skip_comments] in K. rewrite !app_nil_r in K. rewrite K.
  specialize (LX [] Logic.I). rewrite app_nil_r in LX. rewrite LX. change (split_words is_white jtlv_punct [] "") with (@nil string). rewrite app_nil_r.
  pose proof R as [NW _]. destruct ws as [|w ws]; [congruence|]. exact (conjuncts_amp [w :: ws] [_] (Forall2_cons _ _ R (Forall2_nil _)) ltac:(discriminate) _ (le_n _)).
Qed.
Print Assumptions jtlv_reading.
Example jtlv_case : exists t, parse "[](p & x = -3 -> X(q U !r)) | <>(x < 5)" = Some t /\
  jtlv_print [("p", DBool); ("x", DInt (-4) 7)] [("q", DBool); ("r", DBool)] t =
    Ok "( ( [] ( ( (e.p) & ( (e.x) = -3 ) ) -> ( next ( (s.q) U ( ! (s.r) ) ) ) ) ) | ( <> ( (e.x) < 5 ) ) )" /\
  wf_node t = true /\ no_str t = true /\ (forall v, In v (vars t) -> name_text [] v = true).
Proof.
  eexists. split; [vm_compute; reflexivity|]. split; [vm_compute; reflexivity|]. split; [reflexivity|]. split; [reflexivity|].
  cbn. intuition (subst; reflexivity).
Qed.

(** * Documents *)
Definition items (li ls ll : list node) : list node := li ++ map (NUn "G") ls ++ map (fun f => NUn "G" (NUn "F" f)) ll.
Lemma items_sat s li ls ll : (forall u, In u (items li ls ll) -> holds s 0 u) <-> sat_part s {| p_init := li; p_safe := ls; p_live := ll |}.
Proof.
  unfold items, sat_part. cbn [p_init p_safe p_live]. split.
  - intro H. split; [intros f F; apply H, in_or_app; left; exact F|]. split.
    + intros f F i. specialize (H (NUn "G" f)). rewrite !in_app_iff in H. specialize (H (or_intror (or_introl (in_map (NUn "G") _ _ F)))). cbn in H. apply H. lia.
    + intros f F i. specialize (H (NUn "G" (NUn "F" f))). rewrite !in_app_iff in H. specialize (H (or_intror (or_intror (in_map (fun f => NUn "G" (NUn "F" f)) _ _ F)))). cbn in H.
      apply (H i). lia.
  - intros (A & B & C) u U. rewrite !in_app_iff in U. destruct U as [U|[U|U]]; [auto|apply in_map_iff in U; destruct U as (f & <- & F)|apply in_map_iff in U; destruct U as (f & <- & F)].
    + cbn. intros j _. auto.
    + cbn. intros j _. apply (C f F j).
Qed.
Lemma clauses_parts g : forall l, In l [env_init g; sys_init g; env_safety g; sys_safety g; env_prog g; sys_prog g] -> forall x, In x l -> In x (clauses g).
Proof. intros l L x X. unfold clauses. rewrite !in_app_iff. cbn in L. destruct L as [<-|[<-|[<-|[<-|[<-|[<-|[]]]]]]]; tauto. Qed.
Lemma clauses_inv g m f : str_to_int g = Ok m -> forall l xs, lang_clauses f m l = Ok xs ->
  Forall2 (fun x y => exists t b fl, parse x = Some t /\ In (x, (b, fl)) m /\ enc (finite_vars g) None t = Some b /\ f b = Ok y) l xs.
Proof.
  intros S. unfold lang_clauses. induction l as [|x l IH]; intros xs H; cbn [mapr] in H.
  - apply Ok_inj in H. subst xs. constructor.
  - destruct (lookup x m) as [[b fl]|] eqn:L; [|discriminate]. cbn [of_opt bind fst] in H.
    destruct (f b) as [y|] eqn:F; [|discriminate]. cbn [bind] in H.
    destruct (mapr _ l) as [ys|] eqn:E; [|discriminate]. cbn [bind] in H. apply Ok_inj in H. subst xs. constructor; [|apply IH; reflexivity].
    apply lookup_in in L. assert (EC : encode_clause g x = Ok (b, fl)). { pose proof S as S'. apply mapr_pair in S'. destruct S' as [_ S']. apply S'; auto. }
    apply encode_inv in EC. destruct EC as (t & Pt & A & En & Fl). exists t, b, fl. auto.
Qed.

(** ** Wring *)
Lemma logical_no_str t : logical t = true -> forall c, ~ sub (NStr c) t.
Proof.
  intros L c S. remember (NStr c) as u eqn:E. induction S; subst; cbn [logical] in L; try discriminate L; rewrite ?andb_true_iff in L; try (destruct L as [[? ?] ?]); try (destruct L as [? ?]); auto.
Qed.
Lemma wring_clauses g m : str_to_int g = Ok m ->
  (forall v, In v (map fst (env_vars g ++ sys_vars g)) -> name_text wring_reserved v = true) ->
  forall l, (forall x t, In x l -> parse x = Some t -> logical t = true) ->
  forall xs, lang_clauses (wring_print (env_vars g) (sys_vars g)) m l = Ok xs -> Forall2 wtext xs (clause_trees l).
Proof.
  intros S N l L xs H. apply (clauses_inv g m _ S) in H. induction H as [|x y l xs (t & b & fl & P & _ & E & F) H IH]; [constructor|].
  unfold T_Gr1c.clause_trees. cbn [flat_map]. rewrite P. cbn [app]. constructor; [|apply IH; intros; eapply L; [right|]; eauto].
  pose proof (L x t (or_introl eq_refl) P) as Lt. rewrite (enc_pure _ _ None (logical_no_str t Lt)) in E. injection E as <-.
  assert (W : wf_node t = true) by (eapply parse_wf; eauto). apply (wring_text (env_vars g) (sys_vars g)); auto.
  intros v V. apply N. destruct (proj1 (wring_supported (env_vars g) (sys_vars g) t W) (ex_intro _ y F)) as [_ B]. specialize (B v V). unfold boolean in B.
  apply find_some in B. destruct B as [B _]. apply in_map_iff. exists (v, DBool). auto.
Qed.
Lemma wring_items i s p ti ts tp : Forall2 wtext i ti -> Forall2 wtext s ts -> Forall2 wtext p tp ->
  Forall2 wclosed (map (fun f => "(" ++ f ++ ")")%string i ++ map (fun f => "G(" ++ f ++ ")")%string s ++ map (fun f => "G(F(" ++ f ++ "))")%string p) (items ti ts tp).
Proof.
  intros A B C. unfold items. apply Forall2_app; [|apply Forall2_app].
  - clear - A. induction A as [|y t ys ts T A IH]; constructor; [|exact IH]. apply closed_paren; try reflexivity. exact T.
  - clear - B. induction B as [|y t ys ts T A IH]; constructor; [|exact IH].
    apply (closed_apply wring is_white wring_punct eq_refl eq_refl eq_refl eq_refl "G" ["G"] "G" y t); [apply solid_lexes; [reflexivity|discriminate]|reflexivity|discriminate|discriminate|exact T].
  - clear - C. induction C as [|y t ys ts T A IH]; constructor; [|exact IH].
    replace ("G(F(" ++ y ++ "))")%string with ("G" ++ "(" ++ ("F" ++ "(" ++ y ++ ")") ++ ")")%string by (cbn [append]; do 4 f_equal; rewrite str_assoc; reflexivity).
    apply (closed_apply wring is_white wring_punct eq_refl eq_refl eq_refl eq_refl "G" ["G"] "G"); [apply solid_lexes; [reflexivity|discriminate]|reflexivity|discriminate|discriminate|].
    apply closed_text; [|discriminate]. apply (closed_apply wring is_white wring_punct eq_refl eq_refl eq_refl eq_refl "F" ["F"] "F"); [apply solid_lexes; [reflexivity|discriminate]|reflexivity|discriminate|discriminate|exact T].
Qed.
Lemma conj_tree_holds s i l : holds s i (conj_tree l) <-> forall u, In u l -> holds s i u.
Proof.
  induction l as [|a l IH]; [cbn; split; [intros _ u []|reflexivity]|]. destruct l as [|b l].
  - cbn [conj_tree]. split; [intros H u [<-|[]]; exact H|intro H; apply H; left; reflexivity].
  - change (conj_tree (a :: b :: l)) with (NBin "&" a (conj_tree (b :: l))). cbn [holds]. change (conn_of "&") with (Some CAnd). cbn iota. rewrite IH. split.
    + intros [A B] u [<-|U]; auto.
    + intro H. split; [apply H; left; reflexivity|intros u U; apply H; right; exact U].
Qed.

(** The document is a formula which is true of the behaviours in which the system meets its part if
    the environment meets its part. *)
Theorem wring_document : forall g text, to_wring g = Ok text ->
  (forall v, In v (map fst (env_vars g ++ sys_vars g)) -> name_text wring_reserved v = true) ->
  (forall x t, In x (clauses g) -> parse x = Some t -> logical t = true) ->
  exists t, wring_read text = Some t /\
    forall s, holds s 0 t <-> (sat_part s (env_part g) -> sat_part s (sys_part g)).
Proof.
  intros g text H N L. unfold to_wring in H. destruct (check_syntax g); [|discriminate]. cbn [bind] in H.
  destruct (str_to_int g) as [m|] eqn:S; [|discriminate]. cbn [bind] in H. cbv zeta in H. pieces. apply Ok_inj in H. subst text.
  pose proof (clauses_parts g) as IC.
  assert (K : forall l xs, In l [env_init g; sys_init g; env_safety g; sys_safety g; env_prog g; sys_prog g] ->
    lang_clauses (wring_print (env_vars g) (sys_vars g)) m l = Ok xs -> Forall2 wtext xs (clause_trees l)).
  { intros l xs I E. apply (wring_clauses g m S N); [|exact E]. intros x t X. apply L. apply (IC l I), X. }
  pose proof (wring_items _ _ _ _ _ _ (K (env_init g) _ ltac:(cbn; tauto) Heqr) (K (env_safety g) _ ltac:(cbn; tauto) Heqr0) (K (env_prog g) _ ltac:(cbn; tauto) Heqr1)) as FE.
  pose proof (wring_items _ _ _ _ _ _ (K (sys_init g) _ ltac:(cbn; tauto) Heqr2) (K (sys_safety g) _ ltac:(cbn; tauto) Heqr3) (K (sys_prog g) _ ltac:(cbn; tauto) Heqr4)) as FS.
  rewrite !wring_part_join. set (te := items (clause_trees (env_init g)) _ _) in *. set (ts := items (clause_trees (sys_init g)) _ _) in *.
  assert (SE : forall s, sat_part s (env_part g) <-> forall u, In u te -> holds s 0 u) by (intro s; symmetry; apply items_sat).
  assert (SS : forall s, sat_part s (sys_part g) <-> forall u, In u ts -> holds s 0 u) by (intro s; symmetry; apply items_sat).
  clearbody te ts. set (le := map _ (_ : list string) ++ _) in FE |- *. set (ls := _ ++ _ ++ _) in FS |- *. clearbody le ls.
  assert (JE : forall l t, Forall2 wclosed l t -> t <> [] -> (join " * " l =? "")%string = false).
  { intros l t F NE. apply String.eqb_neq. intro E. destruct (wring_join l t F NE) as (ws & NW & LX & _). rewrite E in LX. specialize (LX []). cbn in LX. rewrite app_nil_r in LX. congruence. }
  destruct ts as [|s0 ts].
  { inversion FS; subst. cbn. exists (NUn "G" (NBool "True")). split; [vm_compute; reflexivity|]. intro s. rewrite SS. split; [intros _ _ u []|intros _ j _; reflexivity]. }
  rewrite (JE ls (s0 :: ts)) by (assumption || discriminate).
  destruct (wring_join ls (s0 :: ts) FS ltac:(discriminate)) as (ws & NW & LS & CS). pose proof (reads_chain wring ws _ NW CS) as RS.
  destruct te as [|e0 te].
  { inversion FE; subst. cbn [join String.eqb]. exists (conj_tree (s0 :: ts)). split.
    - apply (text_read wring is_white wring_punct). apply closed_text; [|discriminate]. exists ("(" :: ws ++ [")"]). split; [|exact RS].
      change ("(" :: ws ++ [")"]) with (["("] ++ ws ++ [")"]). apply any_app; [lit|]. apply any_app; [exact LS|lit].
    - intro s. rewrite SE, SS, conj_tree_holds. split; [intros Q _; exact Q|intro Q; apply Q; intros u []]. }
  rewrite (JE le (e0 :: te)) by (assumption || discriminate).
  destruct (wring_join le (e0 :: te) FE ltac:(discriminate)) as (we & NE & LE & CE). pose proof (reads_chain wring we _ NE CE) as RE.
  exists (NBin "->" (conj_tree (e0 :: te)) (conj_tree (s0 :: ts))). split.
  - apply (text_read wring is_white wring_punct). apply closed_text; [|discriminate].
    exists ("(" :: ("(" :: we ++ [")"]) ++ "->" :: ("(" :: ws ++ [")"]) ++ [")"]). split.
    + replace ("((" ++ join " * " le ++ ") -> (" ++ join " * " ls ++ "))")%string with ("((" ++ join " * " le ++ ") -> (" ++ join " * " ls ++ "))")%string by reflexivity.
      replace ("(" :: ("(" :: we ++ [")"]) ++ "->" :: ("(" :: ws ++ [")"]) ++ [")"]) with (["("; "("] ++ we ++ [")"; "->"; "("] ++ ws ++ [")"; ")"]).
      2: { cbn [app]. rewrite <- !app_assoc. reflexivity. }
      apply any_app; [lit|]. apply any_app; [exact LE|]. apply any_app; [lit|]. apply any_app; [exact LS|lit].
    + apply (reads_infix wring); [exact RE|exact RS|reflexivity|discriminate|discriminate].
  - intro s. rewrite SE, SS. cbn [holds]. change (conn_of "->") with (Some CImp). cbn iota. rewrite !conj_tree_holds. reflexivity.
Qed.
Print Assumptions wring_document.
Definition ex_wring : grspec :=
  spec_of [("a", DBool)] [("b", DBool); ("c", DBool)] ["a"] ["!b"; "c"] ["a -> X(!a)"] ["b -> X(a | c)"] ["a"] ["b"; "c & X(b)"].
Example wring_document_case : to_wring ex_wring = Ok
  ("((((a=1)) * G(( (a=1) -> ( X ( ! (a=1) ) ) )) * G(F((a=1)))) -> " ++
   "((( ! (b=1) )) * ((c=1)) * G(( (b=1) -> ( X ( (a=1) + (c=1) ) ) )) * G(F((b=1))) * G(F(( (c=1) * ( X (b=1) ) )))))")%string /\
  (forall v, In v (map fst (env_vars ex_wring ++ sys_vars ex_wring)) -> name_text wring_reserved v = true) /\
  (forall x t, In x (clauses ex_wring) -> parse x = Some t -> logical t = true).
Proof.
  split; [vm_compute; reflexivity|]. split; [cbn; intros v [<-|[<-|[<-|[]]]]; reflexivity|].
  intros x t I P. cbn in I. destruct I as [<-|[<-|[<-|[<-|[<-|[<-|[<-|[<-|[]]]]]]]]]; vm_compute in P; inversion P; reflexivity.
Qed.

(** ** JTLV *)
Lemma holds_rename (s : trace) f t : forall i, holds s i (rename f t) <-> holds (fun j x => s j (f x)) i t.
Proof.
  assert (V : forall t i, term_val s i (rename f t) = term_val (fun j x => s j (f x)) i t).
  { clear t. induction t; intro i; cbn [rename term_val]; auto.
    - destruct (op =? "X")%string; auto.
    - rewrite IHt1, IHt2. reflexivity. }
  induction t; intro i; cbn [rename holds]; try tauto.
  - destruct (uconn_of op) as [[]|]; try tauto.
    + rewrite IHt. tauto.
    + apply IHt.
    + unfold always. split; intros K j Hj; apply IHt; auto.
    + unfold eventually. split; intros [j [Hj K]]; exists j; split; auto; apply IHt; auto.
  - assert (HU : until (fun j => holds s j (rename f t1)) (fun j => holds s j (rename f t2)) i <->
                 until (fun j => holds (fun j x => s j (f x)) j t1) (fun j => holds (fun j x => s j (f x)) j t2) i).
    { unfold until. split; intros (k & A & B & C); exists k; repeat split; auto; try (apply IHt2; auto); intros j Hj; apply IHt1; auto. }
    assert (HA : always (fun j => holds s j (rename f t1)) i <-> always (fun j => holds (fun j x => s j (f x)) j t1) i).
    { unfold always. split; intros K j Hj; apply IHt1; auto. }
    destruct (conn_of op) as [[]|]; try tauto; try (rewrite IHt1, IHt2; tauto).
    split; intros K j Hj; destruct (K j Hj) as [A|[k [A B]]]; try (left; apply IHt2; exact A); right; exists k; split; auto; apply IHt1; auto.
  - rewrite !V. tauto.
  - rewrite IHt1, IHt2, IHt3. tauto.
Qed.
(** A behaviour of the variables as JTLV names them. *)
Definition renamed (g : grspec) (s s' : trace) : Prop :=
  (forall i x, In x (map fst (env_vars g)) -> s' i ("e." ++ x)%string = s i x) /\
  (forall i x, In x (map fst (sys_vars g)) -> s' i ("s." ++ x)%string = s i x).
Lemma renamed_qualified g s s' x : renamed g s s' -> In x (map fst (env_vars g ++ sys_vars g)) -> forall i, s' i (qualified (env_vars g) x) = s i x.
Proof.
  intros [E S] I i. unfold qualified. destruct (existsb _ (env_vars g)) eqn:X.
  - apply E. apply existsb_exists in X. destruct X as (d & D & Y). apply String.eqb_eq in Y. subst x. apply in_map, D.
  - apply S. rewrite map_app, in_app_iff in I. destruct I as [I|I]; [|exact I]. exfalso. apply in_map_iff in I. destruct I as (d & <- & D).
    assert (existsb (fun d0 => (fst d0 =? fst d)%string) (env_vars g) = true) by (apply existsb_exists; exists d; split; [exact D|apply String.eqb_refl]). congruence.
Qed.
(** [u] says about the renamed and encoded behaviour what [t] says about the behaviour. *)
Definition says (g : grspec) (t u : node) : Prop :=
  forall s s' s'', encoded (spec_enums g) s s' -> renamed g s' s'' -> forall i, holds s'' i u <-> holds s i t.
Lemma jtlv_clauses g m : str_to_int g = Ok m -> good_domains g ->
  (forall v, In v (map fst (env_vars g ++ sys_vars g)) -> name_text [] v = true) ->
  forall l, (forall x, In x l -> In x (clauses g)) -> (forall x t, In x l -> parse x = Some t -> typed (spec_enums g) t) ->
  forall xs, lang_clauses (jtlv_print (env_vars g) (sys_vars g)) m l = Ok xs ->
  exists us, Forall2 jtext xs us /\ Forall2 (says g) (clause_trees l) us.
Proof.
  intros S GD N l LC T xs H. apply (clauses_inv g m _ S) in H. induction H as [|x y l xs (t & b & fl & P & I & E & F) H IH]; [exists []; split; constructor|].
  destruct IH as (us & A & B); [intros; apply LC; right; auto|intros; eapply T; [right|]; eauto|].
  unfold T_Gr1c.clause_trees. cbn [flat_map]. rewrite P. cbn [app]. exists (rename (owner (env_vars g)) b :: us).
  assert (W : wf_node b = true) by (eapply enc_wf; eauto; eapply parse_wf; eauto).
  assert (NS : no_str b = true) by (eapply enc_no_str; eauto).
  assert (D : forall v, In v (vars b) -> In v (map fst (env_vars g ++ sys_vars g))) by apply (proj1 (jtlv_supported (env_vars g) (sys_vars g) b W) (ex_intro _ y F)).
  split; constructor; auto.
  - apply (jtlv_text (env_vars g) (sys_vars g)); auto.
  - intros s s' s'' En R i. rewrite owner_qualified, holds_rename.
    destruct (str_to_int_meaning g m S GD) as [_ M]. destruct (M _ _ _ _ I P) as (_ & _ & M'). rewrite (M' (T x t (or_introl eq_refl) P) s s' En i).
    apply L_LTL.holds_ext. intros j v V. apply (renamed_qualified g s' s''); auto.
Qed.
Lemma jtlv_side g cs ys ti ts tp : Forall2 jtext (nth 0 ys []) ti -> Forall2 jtext (nth 1 ys []) ts -> Forall2 jtext (nth 2 ys []) tp ->
  Forall (fun c => said ("-- " ++ c ++ nl) []) cs -> List.length cs = 3 -> List.length ys = 3 ->
  forall ui us up, Forall2 (says g) ui ti -> Forall2 (says g) us ts -> Forall2 (says g) up tp ->
  exists l, jtlv_read (join (" & " ++ nl) (nonempty [jtlv_str (nth 0 ys []) (nth 0 cs "") ""; jtlv_str (nth 1 ys []) (nth 1 cs "") "[]"; jtlv_str (nth 2 ys []) (nth 2 cs "") "[]<>"])) = Some l /\
    forall s s' s'', encoded (spec_enums g) s s' -> renamed g s' s'' ->
    ((forall u, In u l -> holds s'' 0 u) <-> sat_part s {| p_init := ui; p_safe := us; p_live := up |}).
Proof.
  intros A B C K LC LY ui us up UI US UP. destruct cs as [|c1 [|c2 [|c3 [|]]]]; try discriminate LC. destruct ys as [|y1 [|y2 [|y3 [|]]]]; try discriminate LY. cbn [nth] in *.
  inversion K as [|? ? K1 K']; subst. inversion K' as [|? ? K2 K'']; subst. inversion K'' as [|? ? K3 _]; subst. clear K K' K''.
  destruct (jtlv_part y1 ti c1 "" ltac:(cbn; tauto) A K1) as (w1 & P1 & R1). destruct (jtlv_part y2 ts c2 "[]" ltac:(cbn; tauto) B K2) as (w2 & P2 & R2).
  destruct (jtlv_part y3 tp c3 "[]<>" ltac:(cbn; tauto) C K3) as (w3 & P3 & R3).
  exists (items ti ts tp). split.
  - apply said_read with (wss := List.concat [w1; w2; w3]).
    + apply parts_said. repeat (apply Forall2_cons; [assumption|]). apply Forall2_nil.
    + cbn [List.concat]. rewrite app_nil_r. unfold items. apply Forall2_app; [|apply Forall2_app].
      * replace ti with (map (wrap "") ti) by (rewrite <- (map_id ti) at 2; reflexivity). exact R1.
      * exact R2.
      * exact R3.
  - intros s s' s'' En Rn. rewrite items_sat.
    assert (Q : forall us ts, Forall2 (says g) us ts -> (forall t, In t ts -> exists u, In u us /\ says g u t) /\ (forall u, In u us -> exists t, In t ts /\ says g u t)).
    { clear. induction 1 as [|u t us ts X F [I1 I2]]; [split; intros ? []|]. split.
      - intros t' [<-|T]; [exists u; cbn; auto|]. destruct (I1 _ T) as (v & V & W). exists v. cbn. auto.
      - intros t' [<-|T]; [exists t; cbn; auto|]. destruct (I2 _ T) as (v & V & W). exists v. cbn. auto. }
    destruct (Q _ _ UI) as [I1 I2], (Q _ _ US) as [S1 S2], (Q _ _ UP) as [P1' P2']. unfold sat_part. cbn [p_init p_safe p_live]. split; intros (X & Y & Z); (split; [|split]).
    + intros f F. destruct (I2 f F) as (t & T & W). apply (W _ _ _ En Rn), X, T.
    + intros f F i. destruct (S2 f F) as (t & T & W). apply (W _ _ _ En Rn), Y, T.
    + intros f F i. destruct (P2' f F) as (t & T & W). destruct (Z t T i) as (j & J & H). exists j. split; [exact J|]. apply (W _ _ _ En Rn), H.
    + intros f F. destruct (I1 f F) as (t & T & W). apply (W _ _ _ En Rn), X, T.
    + intros f F i. destruct (S1 f F) as (t & T & W). apply (W _ _ _ En Rn), Y, T.
    + intros f F i. destruct (P1' f F) as (t & T & W). destruct (Z t T i) as (j & J & H). exists j. split; [exact J|]. apply (W _ _ _ En Rn), H.
Qed.

(** Each of the two documents is a conjunction which is true of the (encoded) behaviours in which the
    player meets its part. *)
Theorem jtlv_document : forall g a u, to_jtlv g = Ok (a, u) -> good_domains g ->
  (forall v, In v (map fst (env_vars g ++ sys_vars g)) -> name_text [] v = true) ->
  (forall x t, In x (clauses g) -> parse x = Some t -> typed (spec_enums g) t) ->
  exists la lu, jtlv_read a = Some la /\ jtlv_read u = Some lu /\
    forall s s' s'', encoded (spec_enums g) s s' -> renamed g s' s'' ->
      ((forall f, In f la -> holds s'' 0 f) <-> sat_part s (env_part g)) /\
      ((forall f, In f lu -> holds s'' 0 f) <-> sat_part s (sys_part g)).
Proof.
  intros g a u H GD N T. unfold to_jtlv in H. destruct (check_syntax g); [|discriminate]. cbn [bind] in H.
  destruct (str_to_int g) as [m|] eqn:S; [|discriminate]. cbn [bind] in H. cbv zeta in H. pieces. apply Ok_inj in H. injection H as <- <-.
  pose proof (clauses_parts g) as IC.
  assert (K : forall l xs, In l [env_init g; sys_init g; env_safety g; sys_safety g; env_prog g; sys_prog g] ->
    lang_clauses (jtlv_print (env_vars g) (sys_vars g)) m l = Ok xs -> exists us, Forall2 jtext xs us /\ Forall2 (says g) (clause_trees l) us).
  { intros l xs I E. apply (jtlv_clauses g m S GD N); [exact (IC l I)| |exact E]. intros x t X. apply T. apply (IC l I), X. }
  destruct (K (env_init g) _ ltac:(cbn; tauto) Heqr) as (t1 & A1 & B1). destruct (K (env_safety g) _ ltac:(cbn; tauto) Heqr0) as (t2 & A2 & B2).
  destruct (K (env_prog g) _ ltac:(cbn; tauto) Heqr1) as (t3 & A3 & B3). destruct (K (sys_init g) _ ltac:(cbn; tauto) Heqr2) as (t4 & A4 & B4).
  destruct (K (sys_safety g) _ ltac:(cbn; tauto) Heqr3) as (t5 & A5 & B5). destruct (K (sys_prog g) _ ltac:(cbn; tauto) Heqr4) as (t6 & A6 & B6).
  assert (C1 : Forall (fun c => said ("-- " ++ c ++ nl) []) ["valid initial env states"; "safety assumption on environment"; "justice assumption on environment"]).
  { repeat constructor; intro; reflexivity. }
  assert (C2 : Forall (fun c => said ("-- " ++ c ++ nl) []) ["valid initial system states"; "safety requirement on system"; "progress requirement on system"]).
  { repeat constructor; intro; reflexivity. }
  match type of A1 with Forall2 _ ?y _ => match type of A2 with Forall2 _ ?z _ => match type of A3 with Forall2 _ ?w _ =>
    destruct (jtlv_side g _ [y; z; w] t1 t2 t3 A1 A2 A3 C1 eq_refl eq_refl _ _ _ B1 B2 B3) as (la & La & Sa) end end end.
  match type of A4 with Forall2 _ ?y _ => match type of A5 with Forall2 _ ?z _ => match type of A6 with Forall2 _ ?w _ =>
    destruct (jtlv_side g _ [y; z; w] t4 t5 t6 A4 A5 A6 C2 eq_refl eq_refl _ _ _ B4 B5 B6) as (lu & Lu & Su) end end end.
  exists la, lu. split; [exact La|]. split; [exact Lu|]. intros s s' s'' En Rn. split; [apply (Sa s s' s'' En Rn)|apply (Su s s' s'' En Rn)].
Qed.
Print Assumptions jtlv_document.

Example jtlv_document_case :
  to_jtlv T_Gr1c.ex_gr = Ok (
    "-- valid initial env states" ++ nl ++ tab ++ "(( (e.e) & ( (e.m) = 0 ) )) & " ++ nl ++
    "-- safety assumption on environment" ++ nl ++ tab ++ "[](( (e.e) -> ( next( ( (e.m) = 1 ) | (e.e) ) ) ))",
    "-- valid initial system states" ++ nl ++ tab ++ "(( (s.x) = 2 )) & " ++ nl ++
    "-- safety requirement on system" ++ nl ++ tab ++ "[](( (e.e) -> ( next( (s.n) <= 3 ) ) )) & " ++ nl ++
    tab ++ "[](( ( (s.x) != 0 ) <-> ( ( next(s.x) ) = 1 ) )) & " ++ nl ++
    "-- progress requirement on system" ++ nl ++ tab ++ "[]<>(( (s.x) = 0 ))")%string /\
  good_domains T_Gr1c.ex_gr /\
  (forall v, In v (map fst (env_vars T_Gr1c.ex_gr ++ sys_vars T_Gr1c.ex_gr)) -> name_text [] v = true) /\
  (forall x t, In x (clauses T_Gr1c.ex_gr) -> parse x = Some t -> typed (spec_enums T_Gr1c.ex_gr) t) /\
  exists s s' s'', encoded (spec_enums T_Gr1c.ex_gr) s s' /\ renamed T_Gr1c.ex_gr s' s''.
Proof.
  pose proof T_Gr1c.gr1c_case as (_ & GD & _ & _ & T & s & s' & _ & En). split; [vm_compute; reflexivity|]. split; [exact GD|].
  split; [cbn; intros v [<-|[<-|[<-|[<-|[]]]]]; reflexivity|]. split; [intros x t I P; apply (T x t I P)|].
  exists s, s', (fun i y => match y with String _ (String _ x) => s' i x | _ => VB true end). split; [exact En|]. split; intros; reflexivity.
Qed.
