(** The export of transition systems to Promela: the text is a program whose executions are the paths of the system. *)
From Coq Require Import List String Ascii Bool Arith ZArith Lia.
From Verif Require Import M_Tree M_Base M_Gr1c M_Dict M_Graph M_Machine M_Fts S_LTL S_Python L_Python M_Promela S_Promela L_Promela.
Import ListNotations.
Open Scope string_scope.
Open Scope list_scope.
Open Scope nat_scope.

(** * What is to be exported *)
(** States and propositions have names of Promela, the transitions have no labels, each state has a successor. *)
Record exportable (ts : fts) : Prop := {
  ex_states : forall n a, In (n, a) (g_nodes (f_graph ts)) -> exists s l, n = OStr s /\ promela_name s /\ lookup "ap" a = Some (PvSet l);
  ex_once : NoDup (map fst (g_nodes (f_graph ts)));
  ex_ap : forall p, In p (f_ap ts) -> exists x, p = OStr x /\ promela_name x;
  ex_ap_once : NoDup (f_ap ts);
  ex_edges : forall e, In e (g_edges (f_graph ts)) -> e_attr e = [] /\ In (e_dst e) (map fst (g_nodes (f_graph ts)));
  ex_out : forall n, In n (map fst (g_nodes (f_graph ts))) -> exists e, In e (g_edges (f_graph ts)) /\ e_src e = n;
  ex_init : g_init (f_graph ts) <> [] /\ forall n, In n (g_init (f_graph ts)) -> In n (map fst (g_nodes (f_graph ts))) }.
(** The label of a state *)
Definition has_label (ts : fts) (s x : string) : Prop := exists a l, In (OStr s, a) (g_nodes (f_graph ts)) /\ lookup "ap" a = Some (PvSet l) /\ In x l.
(** Paths, the last state first *)
Inductive path (ts : fts) : list string -> Prop :=
| pa_start s : In (OStr s) (g_init (f_graph ts)) -> path ts [s]
| pa_step u v h e : path ts (u :: h) -> In e (g_edges (f_graph ts)) -> e_src e = OStr u -> e_dst e = OStr v -> path ts (v :: u :: h).
(** What the variables show after a path: the label of the last state, or nothing at the first state. *)
Definition shown (ts : fts) (h : list string) (x : string) : Prop := exists s u r, h = s :: u :: r /\ In (OStr x) (f_ap ts) /\ has_label ts s x.
Fixpoint lines (h : list string) : list string :=
  match h with
  | s :: ((_ :: _) as r) => lines r ++ ["{}\n"; "State: " ++ s ++ "\n"]%string
  | _ => []
  end.

(** * The program *)
Definition name_of (o : obj) : string := match o with OStr s => s | _ => ""%string end.
Section Export.
  Variable show_dict : attrs pv -> string.
  Variables date graph_name : string.
  Variable ts : fts.
  Notation g := (f_graph ts).
  Definition label_of (s : string) : list string := match get_label_of (OStr s) g with Ok (PvSet l) => l | _ => [] end.
  Definition branch_of (e : edge obj pv) : branch :=
    let s := name_of (e_dst e) in
    Branch (Print "{}\n" :: map (fun p => Set_ (name_of p) (mem (name_of p) (label_of s))) (f_ap ts) ++ [Print ("State: " ++ s ++ "\n")%string]) s.
  Definition out_edges (n : obj) : list (edge obj pv) := filter (fun e => obj_eqb (e_src e) n) (g_edges g).
  Definition program_of (name : string) : program :=
    Program (map name_of (f_ap ts)) name (map name_of (g_init g)) (map (fun na => (name_of (fst na), map branch_of (out_edges (fst na)))) (g_nodes g)).

  Lemma obj_eqb_eq a b : obj_eqb a b = true <-> a = b.
  Proof.
    destruct a, b; cbn; try (split; [discriminate|congruence]); [split; reflexivity| |].
    - rewrite Z.eqb_eq. split; congruence.
    - rewrite String.eqb_eq. split; congruence.
  Qed.
  Lemma mapr_ok {A B} (f : A -> res B) (h : A -> B) l : (forall x, In x l -> f x = Ok (h x)) -> mapr f l = Ok (map h l).
  Proof. induction l as [|x l IH]; intro H; [reflexivity|]. cbn [mapr map]. rewrite (H x (or_introl eq_refl)). cbn [bind]. rewrite IH by (intros y I; apply H; right; exact I). reflexivity. Qed.
  Hypothesis E : exportable ts.

  Lemma find_first {A} (l : list (obj * A)) n a : NoDup (map fst l) -> In (n, a) l -> filter (fun na => obj_eqb (fst na) n) l = [(n, a)].
  Proof.
    induction l as [|[m b] l IH]; intros N I; [destruct I|]. cbn [map fst] in N. inversion N as [|? ? NI N']. subst. cbn [filter fst]. destruct I as [[= -> ->]|I].
    - rewrite (proj2 (obj_eqb_eq n n) eq_refl). f_equal. assert (Z : forall k, In k l -> obj_eqb (fst k) n = false).
      { intros k J. destruct (obj_eqb (fst k) n) eqn:Q; [|reflexivity]. apply obj_eqb_eq in Q. destruct NI. rewrite <- Q. apply in_map, J. }
      clear - Z. induction l as [|k l IH]; [reflexivity|]. cbn [filter]. rewrite (Z k (or_introl eq_refl)). apply IH. intros k' J. apply Z. right. exact J.
    - destruct (obj_eqb m n) eqn:Q; [apply obj_eqb_eq in Q; subst; destruct NI; apply in_map_iff; exists (n, a); auto|]. apply IH; assumption.
  Qed.
  Lemma get_label s : In (OStr s) (map fst (g_nodes g)) -> exists a l, In (OStr s, a) (g_nodes g) /\ lookup "ap" a = Some (PvSet l) /\ get_label_of (OStr s) g = Ok (PvSet l).
  Proof.
    intro I. apply in_map_iff in I. destruct I as ([n a] & Q & I). cbn [fst] in Q. subst n. destruct (ex_states ts E _ _ I) as (s' & l & _ & _ & L). exists a, l. split; [exact I|]. split; [exact L|].
    unfold get_label_of. rewrite (find_first _ _ _ (ex_once ts E) I), L. reflexivity.
  Qed.
  Lemma label_of_iff s x : In (OStr s) (map fst (g_nodes g)) -> (In x (label_of s) <-> has_label ts s x).
  Proof.
    intro I. destruct (get_label s I) as (a & l & J & L & G). unfold label_of. rewrite G. split.
    - intro X. exists a, l. auto.
    - intros (a' & l' & J' & L' & X). assert (Q : (OStr s, a') = (OStr s, a)).
      { assert (F := find_first _ _ _ (ex_once ts E) J). rewrite (find_first _ _ _ (ex_once ts E) J') in F. injection F as ->. reflexivity. }
      injection Q as ->. congruence.
  Qed.
  (** Texts of the parts *)
  Lemma blank_app a b tb : gives a [] -> gives b tb -> gives (a ++ b)%string tb.
  Proof. intros A B. exact (gives_app a [] b tb A B). Qed.
  Lemma tab_gives : gives tab []. Proof. unfold tab. lits. Qed.
  Lemma nl_gives : gives nl []. Proof. unfold nl. lits. Qed.
  Lemma set_gives x (b : bool) : word x -> gives (tab ++ tab ++ " " ++ x ++ (if b then " = 1;" else " = 0;") ++ nl)%string (stmt_tokens (Set_ x b)).
  Proof.
    intro W. apply blank_app; [exact tab_gives|]. apply blank_app; [exact tab_gives|]. apply (blank_app " "); [lits|].
    destruct b; (apply (word_gives x " "); [exact W|reflexivity|]); lits.
  Qed.
  Lemma print_gives s b tb : plain s -> gives b tb -> gives (" printf(""" ++ s ++ "\n"");" ++ b)%string (stmt_tokens (Print (s ++ "\n")%string) ++ tb).
  Proof.
    intros P B. change (gives (" printf(" ++ String """" (s ++ "\n""" ++ (");" ++ b)))%string ([TId "printf"; TP "("] ++ (TStr (s ++ "\n")%string :: [TP ")"; TP ";"] ++ tb))).
    apply gives_app; [lits|]. apply string_gives; [exact P|]. apply gives_app; [lits|exact B].
  Qed.
  Lemma goto_gives x b tb : word x -> gives b tb -> gives (" goto " ++ x ++ nl ++ b)%string ([TId "goto"; TId x] ++ tb).
  Proof.
    intros W B. apply (gives_app " goto " [TId "goto"] _ (TId x :: tb)); [lits|]. apply (word_gives x "010" b tb W); [reflexivity|]. apply (blank_app nl b tb nl_gives B).
  Qed.
  Lemma word_plain s : word s -> plain s.
  Proof.
    intros W c I. assert (X : word_char c = true).
    { destruct s as [|d r]; [destruct I|]. destruct W as [L F]. destruct I as [<-|I]; [unfold word_char; rewrite L, orb_true_r; reflexivity|]. rewrite forallb_forall in F. exact (F c I). }
    repeat split; intro Q; subst c; discriminate.
  Qed.
  Lemma underscore_word s : word s -> underscore s = s.
  Proof.
    intro W. assert (X : forall c, In c (chars s) -> c <> " "%char).
    { intros c I Q. subst c. destruct s as [|d r]; [destruct I|]. destruct W as [L F]. destruct I as [->|I]; [discriminate|]. rewrite forallb_forall in F. discriminate (F _ I). }
    clear W. induction s as [|c s IH]; [reflexivity|]. cbn [underscore]. rewrite (proj2 (Ascii.eqb_neq c " ") (X c (or_introl eq_refl))), IH; [reflexivity|]. intros d I. apply X. right. exact I.
  Qed.
  Lemma ap_name p : In p (f_ap ts) -> p = OStr (name_of p) /\ word (name_of p).
  Proof. intro I. destruct (ex_ap ts E p I) as (x & -> & W & _). split; [reflexivity|exact W]. Qed.
  Lemma node_name n : In n (map fst (g_nodes g)) -> n = OStr (name_of n) /\ promela_name (name_of n).
  Proof. intro I. apply in_map_iff in I. destruct I as ([m a] & Q & I). cbn [fst] in Q. subst m. destruct (ex_states ts E n a I) as (s & l & -> & P & _). split; [reflexivity|exact P]. Qed.
  Lemma state_text s : In (OStr s) (map fst (g_nodes g)) -> exists t, state_ap2promela (OStr s) (f_ap ts) g = Ok t /\
    gives t (flat_map stmt_tokens (map (fun p => Set_ (name_of p) (mem (name_of p) (label_of s))) (f_ap ts) ++ [Print ("State: " ++ s ++ "\n")%string])).
  Proof.
    intro I. destruct (get_label s I) as (a & l & J & L & G). assert (LO : label_of s = l) by (unfold label_of; rewrite G; reflexivity). unfold state_ap2promela. rewrite G. cbn [bind].
    rewrite (mapr_ok _ (fun p => tab ++ tab ++ " " ++ name_of p ++ (if mem (name_of p) l then " = 1;" else " = 0;") ++ nl)%string).
    - eexists. split; [reflexivity|]. rewrite flat_map_app, LO. cbn [flat_map]. rewrite flat_map_concat_map, map_map, <- flat_map_concat_map.
      apply gives_app; [apply gives_concat; intros p IP; apply set_gives; apply (ap_name p IP)|].
      apply blank_app; [exact tab_gives|]. apply blank_app; [exact tab_gives|].
      apply (print_gives ("State: " ++ s)%string (nl ++ tab ++ nl)%string []).
      + assert (P := word_plain s (proj1 (proj2 (node_name _ I)))). intros c IC. rewrite chars_app in IC. apply in_app_iff in IC. destruct IC as [IC|IC]; [|apply P, IC].
        cbn in IC. repeat (destruct IC as [<-|IC]; [repeat split; discriminate|]). destruct IC.
      + unfold nl, tab. lits.
    - intros p IP. destruct (ex_ap ts E p IP) as (x & -> & _). cbn [obj_eqb in_label bind str_obj name_of]. reflexivity.
  Qed.
  Lemma dst_name e : In e (g_edges g) -> In (OStr (name_of (e_dst e))) (map fst (g_nodes g)) /\ e_dst e = OStr (name_of (e_dst e)).
  Proof. intro I. destruct (ex_edges ts E e I) as [_ D]. destruct (node_name _ D) as [Q _]. split; [rewrite <- Q; exact D|exact Q]. Qed.
  Definition edge_text (e : edge obj pv) : res string :=
    do a <- state_ap2promela (e_dst e) (f_ap ts) g;
    Ok (tab ++ " :: atomic{" ++ nl ++ tab ++ tab ++ " printf(""" ++ dict_str show_dict (e_attr e) ++ "\n"");" ++ nl ++ a ++
        tab ++ tab ++ " goto " ++ str_obj (e_dst e) ++ nl ++ tab ++ " }" ++ nl)%string.
  Lemma edge_gives e : In e (g_edges g) -> exists t, edge_text e = Ok t /\ gives t (branch_tokens (branch_of e)).
  Proof.
    intro I. destruct (dst_name e I) as [D Q]. destruct (ex_edges ts E e I) as [A _]. destruct (state_text _ D) as (a & S & G). unfold edge_text. rewrite Q, S. cbn [bind]. eexists. split; [reflexivity|].
    rewrite A. cbn [dict_str]. unfold branch_tokens, branch_of. cbn [b_stmts b_goto].
    set (st := map (fun p => Set_ (name_of p) (mem (name_of p) (label_of (name_of (e_dst e))))) (f_ap ts) ++ [Print ("State: " ++ name_of (e_dst e) ++ "\n")%string]) in *.
    assert (H : gives (a ++ tab ++ tab ++ " goto " ++ str_obj (OStr (name_of (e_dst e))) ++ nl ++ tab ++ " }" ++ nl)%string (flat_map stmt_tokens st ++ [TId "goto"; TId (name_of (e_dst e)); TP "}"])).
    { apply gives_app; [exact G|]. apply blank_app; [exact tab_gives|]. apply blank_app; [exact tab_gives|]. apply (goto_gives _ (tab ++ " }" ++ nl)%string [TP "}"]); [apply (node_name _ D)|unfold tab, nl; lits]. }
    apply blank_app; [exact tab_gives|]. apply (gives_app " :: atomic{" [TSep; TId "atomic"; TP "{"]); [lits|]. apply blank_app; [exact nl_gives|]. apply blank_app; [exact tab_gives|]. apply blank_app; [exact tab_gives|].
    change (flat_map stmt_tokens (Print "{}\n" :: st)) with (stmt_tokens (Print ("{}" ++ "\n")%string) ++ flat_map stmt_tokens st). rewrite <- app_assoc.
    apply (print_gives "{}"); [intros c IC; cbn in IC; repeat (destruct IC as [<-|IC]; [repeat split; discriminate|]); destruct IC|]. apply (blank_app nl); [exact nl_gives|exact H].
  Qed.
  Lemma mapr_gives {A} (f : A -> res string) (h : A -> list ptok) l : (forall x, In x l -> exists t, f x = Ok t /\ gives t (h x)) -> exists ls, mapr f l = Ok ls /\ gives (String.concat "" ls) (flat_map h l).
  Proof.
    induction l as [|x l IH]; intro H; [exists []; split; [reflexivity|intro rest; reflexivity]|]. destruct (H x (or_introl eq_refl)) as (t & F & G).
    destruct IH as (ls & M & GG); [intros y I; apply H; right; exact I|]. exists (t :: ls). split; [cbn [mapr]; rewrite F; cbn [bind]; rewrite M; reflexivity|].
    cbn [flat_map]. destruct ls as [|u ls].
    - intro rest. cbn [String.concat]. specialize (GG rest). cbn [String.concat list_ascii_of_string app] in GG. rewrite (G rest), <- app_assoc, <- GG. reflexivity.
    - change (String.concat "" (t :: u :: ls)) with (t ++ String.concat "" (u :: ls))%string. apply gives_app; assumption.
  Qed.
  Lemma trans_gives es : (forall e, In e es -> In e (g_edges g)) -> exists t, trans2promela show_dict es (f_ap ts) g = Ok t /\
    gives (":" ++ t)%string ([TP ":"; TId "if"] ++ flat_map branch_tokens (map branch_of es) ++ [TId "fi"; TP ";"]).
  Proof.
    intro I. unfold trans2promela. destruct (mapr_gives edge_text (fun e => branch_tokens (branch_of e)) es) as (ls & M & G); [intros e IE; apply edge_gives, I, IE|].
    unfold edge_text in M. rewrite M. cbn [bind]. eexists. split; [reflexivity|]. rewrite flat_map_concat_map, map_map, <- flat_map_concat_map.
    change (":" ++ tab ++ " if" ++ nl ++ String.concat "" ls ++ tab ++ " fi;" ++ nl ++ nl)%string with ((":" ++ tab ++ " if" ++ nl) ++ String.concat "" ls ++ tab ++ " fi;" ++ nl ++ nl)%string.
    apply gives_app; [unfold tab, nl; lits|]. apply gives_app; [exact G|]. unfold tab, nl. lits.
  Qed.
  Lemma find_out c n : find_transitions obj_eqb pv_eqb c (Some [n]) None [("as_dict", PvPair (OInt 1) PvNone)]%string g = Ok (out_edges n).
  Proof.
    unfold find_transitions. cbn zeta. set (es := filter _ _). assert (Q : es = out_edges n).
    { unfold es, out_edges. apply filter_ext. intro e. cbn [nmem existsb]. rewrite orb_false_r, andb_true_r. destruct (obj_eqb (e_src e) n) eqn:X; reflexivity. }
    rewrite (mapr_ok _ (fun e => (e, true))).
    - cbn [bind]. f_equal. rewrite <- Q. clear. induction es as [|e es IH]; [reflexivity|]. cbn. rewrite IH. reflexivity.
    - intros e I. assert (A : e_attr e = []) by (apply (ex_edges ts E e); subst es; apply filter_In in I; apply I). rewrite A. reflexivity.
  Qed.
  Lemma out_in n e : In e (out_edges n) <-> In e (g_edges g) /\ e_src e = n.
  Proof. unfold out_edges. rewrite filter_In, obj_eqb_eq. reflexivity. Qed.
  Lemma text_tokens c name : no_star date -> word name -> exists t, fts2promela show_dict date graph_name ts c (Some name) = Ok t /\ promela_tokens t = program_tokens (program_of name).
  Proof.
    intros NS W. unfold fts2promela. cbn zeta.
    destruct (mapr_gives (fun na => do out <- find_transitions obj_eqb pv_eqb c (Some [fst na]) None [("as_dict", PvPair (OInt 1) PvNone)]%string g;
        do t <- trans2promela show_dict out (f_ap ts) g; Ok (underscore (str_obj (fst na)) ++ ":" ++ t)%string)
      (fun na => label_tokens (name_of (fst na), map branch_of (out_edges (fst na)))) (g_nodes g)) as (ls & M & G).
    { intros na I. rewrite find_out. cbn [bind]. destruct (trans_gives (out_edges (fst na))) as (t & T & GT); [intros e IE; apply out_in in IE; apply IE|]. rewrite T. cbn [bind]. eexists. split; [reflexivity|].
      assert (IN : In (fst na) (map fst (g_nodes g))) by (apply in_map, I). destruct (node_name _ IN) as [Q [WN _]]. rewrite Q at 1. cbn [str_obj]. rewrite (underscore_word _ WN).
      apply (word_gives _ ":" t); [exact WN|reflexivity|]. exact GT. }
    rewrite M. cbn [bind]. eexists. split; [reflexivity|]. rewrite tokens_tk.
    match goal with |- tk (chars ?s) = _ => assert (H : gives s (program_tokens (program_of name))) end.
    2:{ specialize (H []). rewrite !app_nil_r in H. exact H. }
    match goal with |- gives ("/*" ++ nl ++ ?a ++ nl ++ ?b ++ date ++ nl ++ ?c0 ++ nl ++ nl ++ ?r)%string _ =>
      assert (C : gives r (program_tokens (program_of name)) -> gives ("/*" ++ nl ++ a ++ nl ++ b ++ date ++ nl ++ c0 ++ nl ++ nl ++ r)%string (program_tokens (program_of name))) end.
    { intros H rest. rewrite chars_app. cbn [list_ascii_of_string app]. rewrite tk_cons.
      match goal with |- context [token "/" ("*"%char :: chars (nl ++ ?a ++ nl ++ ?b ++ date ++ nl ++ ?c0 ++ nl ++ nl ++ ?r) ++ rest)] => set (aa := a); set (bb := b); set (rr := r) end.
      assert (TK : token "/" ("*"%char :: chars (nl ++ aa ++ nl ++ bb ++ date ++ nl ++ " */" ++ nl ++ nl ++ rr)%string ++ rest) = (None, chars (nl ++ nl ++ rr)%string ++ rest)).
      { unfold token. cbn [space is_letter is_digit Ascii.eqb orb andb].
        assert (CR : comment_rest (chars (nl ++ aa ++ nl ++ bb ++ date ++ nl ++ " */" ++ nl ++ nl ++ rr)%string ++ rest) = Some (chars (nl ++ nl ++ rr)%string ++ rest)).
        { rewrite chars_app, <- app_assoc. rewrite comment_rest_skip by (cbn; intros [X|[]]; discriminate).
          unfold aa, bb. rewrite chars_app, <- app_assoc. 
          change (chars " * Promela file generated with TuLiP") with ((" "%char :: ["*"%char]) ++ chars " Promela file generated with TuLiP").
          change ((" "%char :: ["*"%char]) ++ chars " Promela file generated with TuLiP") with (" "%char :: "*"%char :: chars " Promela file generated with TuLiP"). cbn [app comment_rest].
          change (Ascii.eqb " " "*") with false. change (Ascii.eqb "*" "*") with true. cbv iota. cbn [list_ascii_of_string app]. change (Ascii.eqb " " "/") with false. cbv iota.
          change (comment_rest (chars " Promela file generated with TuLiP" ++ chars (nl ++ " * Date: " ++ date ++ nl ++ " */" ++ nl ++ nl ++ rr)%string ++ rest) = Some (chars (nl ++ nl ++ rr)%string ++ rest)).
          rewrite comment_rest_skip by (cbn; intro X; repeat (destruct X as [X|X]; [discriminate|]); destruct X).
          change (chars (nl ++ " * Date: " ++ date ++ nl ++ " */" ++ nl ++ nl ++ rr)%string) with ("010"%char :: " "%char :: "*"%char :: chars (" Date: " ++ date ++ nl ++ " */" ++ nl ++ nl ++ rr)%string).
          cbn [app comment_rest]. change (Ascii.eqb "010" "*") with false. change (Ascii.eqb " " "*") with false. change (Ascii.eqb "*" "*") with true. cbv iota.
          rewrite chars_app, <- app_assoc. cbn [list_ascii_of_string app]. change (Ascii.eqb " " "/") with false. cbv iota.
          change (comment_rest (chars " Date: " ++ chars (date ++ nl ++ " */" ++ nl ++ nl ++ rr)%string ++ rest) = Some (chars (nl ++ nl ++ rr)%string ++ rest)).
          rewrite comment_rest_skip by (cbn; intro X; repeat (destruct X as [X|X]; [discriminate|]); destruct X).
          rewrite chars_app, <- app_assoc. rewrite comment_rest_skip by exact NS. reflexivity. }
        rewrite CR. reflexivity. }
      change (chars ("*" ++ nl ++ aa ++ nl ++ bb ++ date ++ nl ++ " */" ++ nl ++ nl ++ rr)%string ++ rest) with ("*"%char :: chars (nl ++ aa ++ nl ++ bb ++ date ++ nl ++ " */" ++ nl ++ nl ++ rr)%string ++ rest) in *.
      rewrite TK. cbn [fst snd]. apply (blank_app nl _ _ nl_gives (blank_app nl _ _ nl_gives H)). }
    apply C. clear C. unfold program_tokens, program_of. cbn [p_vars p_name p_init p_labels].
    rewrite (flat_map_concat_map _ (map name_of (f_ap ts))), map_map, <- flat_map_concat_map.
    apply gives_app.
    { apply gives_concat. intros p I. destruct (ap_name p I) as [Q WP]. rewrite Q. cbn [obj_eqb orb str_obj name_of]. apply (gives_app "bool " [TId "bool"]); [lits|]. apply (word_gives (name_of p) ";" nl); [exact WP|reflexivity|]. unfold nl. lits. }
    change (nl ++ "active proctype " ++ ?x)%string with ((nl ++ "active proctype ") ++ x)%string.
    rewrite (flat_map_concat_map _ (map name_of (g_init g))), map_map, <- flat_map_concat_map. rewrite (flat_map_concat_map _ (map _ (g_nodes g))), map_map, <- flat_map_concat_map.
    apply (blank_app nl); [exact nl_gives|]. apply (gives_app "active proctype " [TId "active"; TId "proctype"]); [lits|].
    apply (word_gives name "("); [exact W|reflexivity|].
    match goal with |- gives _ (_ :: _ :: _ :: _ :: ?r) => apply (gives_app ("(){" ++ nl ++ tab ++ " if" ++ nl)%string [TP "("; TP ")"; TP "{"; TId "if"] _ r) end; [unfold tab, nl; lits|].
    apply gives_app.
    { apply gives_concat. intros n I. destruct (node_name n (proj2 (ex_init ts E) n I)) as [Q [WN _]]. rewrite Q at 1. cbn [str_obj]. apply blank_app; [exact tab_gives|]. 
      apply (gives_app " :: goto " [TSep; TId "goto"]); [lits|]. apply (word_gives (name_of n) "010" ""); [exact WN|reflexivity|]. lits. }
    match goal with |- gives _ ([TId "fi"; TP ";"] ++ ?r) => apply (gives_app (tab ++ " fi;" ++ nl)%string [TId "fi"; TP ";"] _ r) end; [unfold tab, nl; lits|].
    apply gives_app; [exact G|]. unfold nl. lits.
  Qed.
  Lemma names_nodup l : (forall n, In n l -> n = OStr (name_of n)) -> NoDup l -> NoDup (map name_of l).
  Proof.
    intros H N. induction N as [|n l NI _ IH]; [constructor|]. cbn [map]. constructor; [|apply IH; intros m I; apply H; right; exact I].
    intro I. apply in_map_iff in I. destruct I as (m & Q & I). apply NI. rewrite (H n (or_introl eq_refl)), <- Q, <- (H m (or_intror I)). exact I.
  Qed.
  Lemma labels_names name : map fst (p_labels (program_of name)) = map name_of (map fst (g_nodes g)).
  Proof. cbn [p_labels program_of]. rewrite !map_map. reflexivity. Qed.
  Lemma label_in name l : In l (p_labels (program_of name)) -> exists n, In n (map fst (g_nodes g)) /\ l = (name_of n, map branch_of (out_edges n)).
  Proof. cbn [p_labels program_of]. intro I. apply in_map_iff in I. destruct I as (na & <- & I). exists (fst na). split; [apply in_map, I|reflexivity]. Qed.
  Lemma branch_in n b : In b (map branch_of (out_edges n)) -> exists e, In e (g_edges g) /\ e_src e = n /\ b = branch_of e.
  Proof. intro I. apply in_map_iff in I. destruct I as (e & <- & I). apply out_in in I. exists e. tauto. Qed.
  Lemma the_program_ok name : promela_name name -> program_ok (program_of name).
  Proof.
    intro P. constructor.
    - cbn [p_vars program_of]. intros x I. apply in_map_iff in I. destruct I as (p & <- & I). destruct (ex_ap ts E p I) as (y & -> & Y). exact Y.
    - apply names_nodup; [intros p I; apply (ap_name p I)|apply (ex_ap_once ts E)].
    - exact P.
    - intros l I. destruct (label_in name l I) as (n & IN & ->). cbn [fst snd]. split; [apply (node_name n IN)|]. destruct (ex_out ts E n IN) as (e & IE & Q).
      intro Z. assert (X : In (branch_of e) (map branch_of (out_edges n))) by (apply in_map, out_in; auto). rewrite Z in X. exact X.
    - rewrite labels_names. apply names_nodup; [intros n I; apply (node_name n I)|apply (ex_once ts E)].
    - rewrite labels_names. cbn [p_init program_of]. destruct (ex_init ts E) as [NE I]. split; [destruct (g_init g); [congruence|discriminate]|].
      intros s J. apply in_map_iff in J. destruct J as (n & <- & J). apply in_map, I, J.
    - intros l b I J. rewrite labels_names. destruct (label_in name l I) as (n & IN & ->). cbn [snd] in J. destruct (branch_in n b J) as (e & IE & _ & ->). cbn [b_goto branch_of]. apply in_map, (ex_edges ts E e IE).
    - intros l b x v I J K. destruct (label_in name l I) as (n & IN & ->). cbn [snd] in J. destruct (branch_in n b J) as (e & IE & _ & ->). cbn [b_stmts branch_of p_vars program_of] in *.
      destruct K as [K|K]; [discriminate|]. apply in_app_iff in K. destruct K as [K|[K|[]]]; [|discriminate]. apply in_map_iff in K. destruct K as (p & [= <- _] & K). apply in_map, K.
  Qed.
  Lemma after_app a b v : after (a ++ b) v = after b (after a v).
  Proof. revert v. induction a as [|[t|x c] a IH]; intro v; [reflexivity| |]; cbn [app after]; apply IH. Qed.
  Lemma after_sets ps (f : string -> bool) v x : after (map (fun p => Set_ (name_of p) (f (name_of p))) ps) v x = if mem x (map name_of ps) then f x else v x.
  Proof.
    revert v. induction ps as [|p ps IH]; intro v; [reflexivity|]. cbn [map after mem existsb]. rewrite IH. unfold mem. cbn [existsb].
    destruct (String.eqb_spec x (name_of p)) as [->|N]; cbn [orb]; [|reflexivity]. destruct (existsb (String.eqb (name_of p)) (map name_of ps)); reflexivity.
  Qed.
  Lemma printed_sets ps (f : string -> bool) : printed (map (fun p => Set_ (name_of p) (f (name_of p))) ps) = [].
  Proof. unfold printed. induction ps as [|p ps IH]; [reflexivity|exact IH]. Qed.
  Lemma ap_in x : In x (map name_of (f_ap ts)) <-> In (OStr x) (f_ap ts).
  Proof.
    rewrite in_map_iff. split.
    - intros (p & <- & I). destruct (ap_name p I) as [Q _]. rewrite <- Q. exact I.
    - intro I. exists (OStr x). auto.
  Qed.
  Lemma last_in h : path ts h -> match h with s :: _ => In (OStr s) (map fst (g_nodes g)) | [] => False end.
  Proof. intro P. destruct P as [s I|u v h e _ I _ D]; [apply (ex_init ts E), I|]. rewrite <- D. apply (ex_edges ts E e I). Qed.
  Lemma shown_step s u r x : In (OStr s) (map fst (g_nodes g)) -> (In (OStr x) (f_ap ts) /\ In x (label_of s) <-> shown ts (s :: u :: r) x).
  Proof.
    intro I. unfold shown. split.
    - intros [A B]. exists s, u, r. split; [reflexivity|]. split; [exact A|]. apply label_of_iff; assumption.
    - intros (s' & u' & r' & [= <- <- <-] & A & B). split; [exact A|]. apply label_of_iff; assumption.
  Qed.
  Lemma branch_after e v x : after (b_stmts (branch_of e)) v x = if mem x (map name_of (f_ap ts)) then mem x (label_of (name_of (e_dst e))) else v x.
  Proof. cbn [b_stmts branch_of after]. rewrite after_app. cbn [after]. apply (after_sets (f_ap ts) (fun y => mem y (label_of (name_of (e_dst e))))). Qed.
  Lemma branch_prints e : printed (b_stmts (branch_of e)) = ["{}\n"; "State: " ++ name_of (e_dst e) ++ "\n"]%string.
  Proof.
    cbn [b_stmts branch_of]. unfold printed. cbn [flat_map app]. rewrite flat_map_app. f_equal. cbn [flat_map app].
    assert (P := printed_sets (f_ap ts) (fun y => mem y (label_of (name_of (e_dst e))))). unfold printed in P. cbv beta in P. rewrite P. reflexivity.
  Qed.
  Lemma exec_path name h v o : exec (program_of name) h v o -> path ts h /\ (forall x, v x = true <-> shown ts h x) /\ o = lines h.
  Proof.
    intro X. induction X as [s I|u h v o bs b X (P & V & O) I J].
    - cbn [p_init program_of] in I. apply in_map_iff in I. destruct I as (n & <- & I). destruct (node_name n (proj2 (ex_init ts E) n I)) as [Q _].
      split; [apply pa_start; rewrite <- Q; exact I|]. split; [|reflexivity]. intro x. split; [discriminate|intros (? & ? & ? & D & _); discriminate].
    - destruct (label_in name _ I) as (n & IN & [= -> ->]). destruct (branch_in n b J) as (e & IE & SE & ->). destruct (dst_name e IE) as [D QD]. destruct (node_name n IN) as [QN _].
      split; [cbn [b_goto branch_of]; apply (pa_step ts (name_of n) _ h e); [exact P|exact IE|congruence|exact QD]|]. split.
      + intro x. rewrite branch_after. cbn [b_goto branch_of]. rewrite <- (shown_step _ (name_of n) h x D), <- ap_in. destruct (mem x (map name_of (f_ap ts))) eqn:M.
        * apply mem_In in M. rewrite mem_In. tauto.
        * assert (NM : ~ In x (map name_of (f_ap ts))) by (intro Y; apply mem_In in Y; congruence). rewrite V. split; [|tauto].
          intros (s' & u' & r' & _ & A & _). apply ap_in in A. contradiction.
      + rewrite branch_prints, O. reflexivity.
  Qed.
  Lemma path_exec name h : path ts h -> exists v o, exec (program_of name) h v o.
  Proof.
    intro P. induction P as [s I|u v h e P (w & o & X) I S D].
    - exists (fun _ => false), []. apply ex_start. cbn [p_init program_of]. apply in_map_iff. exists (OStr s). auto.
    - assert (U := last_in _ P). cbn [fst] in U. assert (G := ex_step (program_of name) u h w o (map branch_of (out_edges (OStr u))) (branch_of e) X).
      cbn [b_goto branch_of] in G. rewrite D in G. cbn [name_of] in G. eexists. eexists. apply G; [|apply in_map, out_in; auto].
      cbn [p_labels program_of]. apply in_map_iff in U. destruct U as (na & Q & U). apply in_map_iff. exists na. rewrite Q. auto.
  Qed.
End Export.
(** * C75 *)
(** For every system without labels of transitions, in which each state has a successor and the names are names of
    Promela, the text is a program for Promela with the propositions as variables.  Its executions are the paths of the system;
    after each transition the variables show the label of the state that has been reached, and its name has been printed. *)
Theorem promela_export show_dict date graph_name ts c name : exportable ts -> no_star date -> promela_name name ->
  exists t p, fts2promela show_dict date graph_name ts c (Some name) = Ok t /\ program_text t p /\ p_name p = name /\ (forall x, In x (p_vars p) <-> In (OStr x) (f_ap ts)) /\
    (forall h v o, exec p h v o -> path ts h /\ (forall x, v x = true <-> shown ts h x) /\ o = lines h) /\
    (forall h, path ts h -> exists v o, exec p h v o).
Proof.
  intros E NS N. destruct (text_tokens show_dict date graph_name ts E c name NS (proj1 N)) as (t & T & K). exists t, (program_of ts name).
  split; [exact T|]. split; [split; [exact K|apply the_program_ok; assumption]|]. split; [reflexivity|]. split; [intro x; apply (ap_in ts E)|]. split.
  - intros h v o. apply exec_path, E.
  - intro h. apply path_exec, E.
Qed.
(** Without a name for the process, the name of the system is taken. *)
Theorem promela_default_name show_dict date graph_name ts c : fts2promela show_dict date graph_name ts c None = fts2promela show_dict date graph_name ts c (Some graph_name).
Proof. reflexivity. Qed.
Print Assumptions promela_export.
Print Assumptions promela_default_name.
