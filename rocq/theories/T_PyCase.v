(** C52: the exported Python class is the machine. *)
From Coq Require Import List String Ascii Bool Arith ZArith Lia.
From Verif Require Import M_Base M_Tree M_Gr1c M_PyCase S_Python L_Python S_PyCase L_PyCase.
Import ListNotations.
Open Scope string_scope.
Open Scope list_scope.
Open Scope nat_scope.

(** * The machine, independently of its text *)
Section Machine.
Context {N : Type} (eqb : N -> N -> bool) (M : pmachine N).
(** The label's values of the inputs equal the arguments (Python's [==]). *)
Definition fires (args : string -> pyval) (d : label) : Prop :=
  forall k v, In (k, v) d -> In k (m_inputs M) -> py_eqv (args k) (lval_py v) = true.
(** The first outgoing edge that fires *)
Inductive first_edge (args : string -> pyval) : list (N * label) -> N -> label -> Prop :=
| first_here w d r : fires args d -> first_edge args ((w, d) :: r) w d
| first_later w d r w' d' : ~ fires args d -> first_edge args r w' d' -> first_edge args ((w, d) :: r) w' d'.
Definition no_edge (args : string -> pyval) (l : list (N * label)) : Prop := forall w d, In (w, d) l -> ~ fires args d.
(** The outputs of a label *)
Definition is_outputs (d : label) (o : dict) : Prop :=
  forall k v, In (k, v) o <-> exists x, v = lval_py x /\ In (k, x) d /\ In k (m_outputs M).
(** The number of a node *)
Definition numbered (u : N) (i : nat) : Prop := nth_error (m_nodes M) i = Some u.

Record exportable : Prop := {
  ex_nodes : NoDup (m_nodes M);
  ex_eqb : forall u v, eqb u v = true <-> u = v;
  ex_targets : forall u w d, In u (m_nodes M) -> In (w, d) (m_out M u) -> In w (m_nodes M);
  ex_inputs : NoDup (m_inputs M);
  ex_names : forall x, In x (m_inputs M) -> py_name x = true /\ ~ In x ["self"; "output"; "dict"; "RuntimeError"; "ValueError"];
  ex_outputs : forall x, In x (m_outputs M) -> clean x = true;
  ex_labels : forall u w d, In u (m_nodes M) -> In (w, d) (m_out M u) -> NoDup (map fst d);
  ex_values : forall u w d k v, In u (m_nodes M) -> In (w, d) (m_out M u) -> In (k, v) d -> clean_val v = true;
  (** every edge mentions an input, unless there are none *)
  ex_guards : forall u w d, In u (m_nodes M) -> In (w, d) (m_out M u) -> m_inputs M <> [] -> exists k v, In (k, v) d /\ In k (m_inputs M) }.
End Machine.

(** * Proofs *)
Section Proof.
Context {N : Type} (eqb : N -> N -> bool) (M : pmachine N) (EX : exportable eqb M).
Definition idx (u : N) : nat := match node_to_int eqb M u with Some k => k | None => 0 end.

Lemma eqb_refl' u : eqb u u = true.
Proof. apply (ex_eqb _ _ EX). reflexivity. Qed.
Lemma index_from_spec : forall l k u, In u l -> exists i, index_from eqb k l u = Some (k + i) /\ nth_error l i = Some u.
Proof.
  induction l as [|v l IH]; intros k u I; [destruct I|]. cbn [index_from]. destruct (eqb u v) eqn:E.
  - apply (ex_eqb _ _ EX) in E. subst. exists 0. split; [f_equal; lia|reflexivity].
  - destruct I as [->|I]; [rewrite eqb_refl' in E; discriminate|]. destruct (IH (S k) u I) as (i & A & B). exists (S i).
    split; [rewrite A; f_equal; lia|exact B].
Qed.
Lemma to_int u : In u (m_nodes M) -> node_to_int eqb M u = Some (idx u) /\ numbered M u (idx u).
Proof.
  intro I. unfold idx, node_to_int. destruct (index_from_spec _ 0 u I) as (i & A & B). rewrite A. cbn [Nat.add]. split; auto.
Qed.
Lemma idx_inj u v : In u (m_nodes M) -> In v (m_nodes M) -> idx u = idx v -> u = v.
Proof.
  intros U V E. destruct (to_int u U) as [_ A], (to_int v V) as [_ B]. unfold numbered in *. rewrite E in A. congruence.
Qed.
Lemma numbered_idx u i : numbered M u i -> In u (m_nodes M) /\ idx u = i.
Proof.
  unfold numbered. intro H. pose proof (nth_error_In _ _ H) as I. split; auto. destruct (to_int u I) as [_ A]. unfold numbered in A.
  apply (proj1 (NoDup_nth_error _) (ex_nodes _ _ EX)); [apply nth_error_Some; congruence|congruence].
Qed.

(** ** Lines of edges and nodes *)
Fixpoint pure_edges (ifw : string) (l : list (N * label)) : list string :=
  match l with [] => [] | (w, d) :: r => edge_lines M ifw (idx w) d ++ pure_edges "elif" r end.
Lemma edges_ok : forall l ifw, (forall w d, In (w, d) l -> In w (m_nodes M)) -> edges_lines eqb M ifw l = Ok (pure_edges ifw l).
Proof.
  induction l as [|[w d] l IH]; intros ifw T; cbn [edges_lines pure_edges]; [reflexivity|].
  rewrite (proj1 (to_int w (T w d (or_introl eq_refl)))). cbn [of_opt bind]. rewrite IH by (intros; eapply T; right; eauto). reflexivity.
Qed.
Definition pure_node (u : N) : list string :=
  match m_out M u, m_inputs M with
  | [], _ => [ln 3 ("raise RuntimeError(" ++ dquote ++ "Reached dead-end state !" ++ dquote ++ ")")%string]
  | l, [] => pure_edges "if" l
  | l, _ => pure_edges "if" l ++ [ln 3 "else:"; ln 4 ("self._error(" ++ input_args M ++ ")")%string]
  end.
Lemma node_ok u : In u (m_nodes M) -> node_edges eqb M u = Ok (pure_node u).
Proof.
  intro I. unfold node_edges, pure_node. rewrite edges_ok by (intros; eapply (ex_targets _ _ EX); eauto). cbn [bind].
  destruct (m_out M u); [reflexivity|]. destruct (m_inputs M); reflexivity.
Qed.
Fixpoint pure_nodes (ifu : string) (l : list N) : list string :=
  match l with [] => [] | u :: r => ln 2 (ifu ++ " self.state == " ++ str_nat (idx u) ++ ":")%string :: pure_node u ++ pure_nodes "elif" r end.
Lemma nodes_ok : forall l ifu, incl l (m_nodes M) -> nodes_lines eqb M ifu l = Ok (pure_nodes ifu l).
Proof.
  induction l as [|u l IH]; intros ifu I; cbn [nodes_lines pure_nodes]; [reflexivity|].
  rewrite node_ok by (apply I; left; auto). cbn [bind]. rewrite (proj1 (to_int u (I u (or_introl eq_refl)))). cbn [of_opt bind].
  rewrite IH by (intros x X; apply I; right; auto). reflexivity.
Qed.

(** ** Lines as indentations and texts *)
Definition code_edge (ifw : string) (e : N * label) : list line :=
  (12, ifw ++ " " ++ guard M (snd e) ++ ":")%string :: edge_body (idx (fst e)) (proj (snd e) (m_outputs M)).
Fixpoint code_edges (ifw : string) (l : list (N * label)) : list line :=
  match l with [] => [] | e :: r => code_edge ifw e ++ code_edges "elif" r end.
Lemma cl_outs l : cl (map (fun kv => ln 4 (out_text kv)) l) = map (fun kv => (16, out_text kv)) l.
Proof. induction l as [|kv l IH]; [reflexivity|]. cbn [map]. rewrite cl_ln by reflexivity. rewrite IH. reflexivity. Qed.
Lemma cl_edges : forall l ifw, tight ifw = true -> cl (pure_edges ifw l) = code_edges ifw l.
Proof.
  induction l as [|[w d] l IH]; intros ifw T; cbn [pure_edges code_edges]; [reflexivity|]. rewrite cl_app, IH by reflexivity.
  f_equal. unfold edge_lines, code_edge, edge_body. cbn [fst snd]. rewrite cl_ln by (apply tight_app; auto).
  rewrite cl_ln by reflexivity. rewrite cl_blank. change (4 * 3) with 12. change (4 * 4) with 16.
  do 2 f_equal. apply (cl_outs (proj d (m_outputs M))).
Qed.
Definition code_tail (l : list (N * label)) : list line :=
  match m_inputs M with [] => [] | _ => [(12, "else:"); (16, "self._error(" ++ input_args M ++ ")")%string] end.
Definition code_node (u : N) : list line :=
  match m_out M u with
  | [] => [(12, "raise RuntimeError(" ++ dquote ++ "Reached dead-end state !" ++ dquote ++ ")")%string]
  | l => code_edges "if" l ++ code_tail l
  end.
Lemma cl_node u : cl (pure_node u) = code_node u.
Proof.
  unfold pure_node, code_node, code_tail. destruct (m_out M u) as [|e l]; [reflexivity|]. destruct (m_inputs M).
  - rewrite app_nil_r. apply cl_edges. reflexivity.
  - rewrite cl_app, cl_edges by reflexivity. f_equal.
Qed.
Fixpoint code_nodes (ifu : string) (l : list N) : list line :=
  match l with [] => [] | u :: r => (8, ifu ++ " self.state == " ++ str_nat (idx u) ++ ":")%string :: code_node u ++ code_nodes "elif" r end.
Lemma cl_nodes : forall l ifu, tight ifu = true -> cl (pure_nodes ifu l) = code_nodes ifu l.
Proof.
  induction l as [|u l IH]; intros ifu T; cbn [pure_nodes code_nodes]; [reflexivity|].
  rewrite cl_ln by (apply tight_app; auto). rewrite cl_app, cl_node, IH by reflexivity. reflexivity.
Qed.

(** ** Blocks *)
Definition good_label (d : label) : Prop :=
  (forall k v, In (k, v) d -> clean_val v = true) /\ (m_inputs M <> [] -> proj d (m_inputs M) <> []) /\ NoDup (map fst d).
Lemma good_out u e : In u (m_nodes M) -> In e (m_out M u) -> good_label (snd e).
Proof.
  intros U I. destruct e as [w d]. cbn [snd]. repeat split.
  - intros k v K. eapply (ex_values _ _ EX); eauto.
  - intros NE E. destruct (ex_guards _ _ EX u w d U I NE) as (k & v & A & B).
    assert (In (k, v) (proj d (m_inputs M))) as X by (unfold proj; apply filter_In; split; [auto|apply mem_In; auto]). rewrite E in X. destruct X.
  - eapply (ex_labels _ _ EX); eauto.
Qed.
Lemma guard_text d : m_inputs M <> [] -> guard M d = join " and " (map eq_text (proj d (m_inputs M))).
Proof. unfold guard. destruct (m_inputs M); [congruence|reflexivity]. Qed.
Lemma guard_reads d : good_label d -> read_cond (guard M d ++ ":") = Some (CExpr (guard_exp (proj d (m_inputs M)))).
Proof.
  intros (V & NE & _). destruct (m_inputs M) eqn:EI.
  - unfold guard. rewrite EI. replace (proj d []) with (@nil (string * lval)); [reflexivity|]. clear. induction d as [|kv d IH]; cbn; auto.
  - rewrite <- EI in *. assert (NI : m_inputs M <> []) by (rewrite EI; discriminate). specialize (NE NI). rewrite (guard_text d NI). apply read_guard.
    + apply guard_parse; auto. intros [k v] I. unfold proj in I. apply filter_In in I. destruct I as [I J]. cbn [fst snd] in *.
      split; [apply (ex_names _ _ EX), mem_In; auto|eapply V; eauto].
    + destruct (proj d (m_inputs M)) as [|kv r]; [congruence|]. destruct r; reflexivity.
Qed.
Definition tail_block : block := match m_inputs M with [] => BNil | _ => BCons (SCall "_error") BNil end.
Definition e_guard (e : N * label) : cond := CExpr (guard_exp (proj (snd e) (m_inputs M))).
Definition e_block (e : N * label) : block := edge_block (idx (fst e)) (proj (snd e) (m_outputs M)).
Fixpoint chain_block (l : list (N * label)) : block :=
  match l with [] => tail_block | e :: r => BCons (SIf (e_guard e) (e_block e) (chain_block r)) BNil end.
Lemma e_body e f rest : good_label (snd e) -> low 16 rest -> List.length (edge_body (idx (fst e)) (proj (snd e) (m_outputs M))) + 1 < f ->
  read_body f 12 (edge_body (idx (fst e)) (proj (snd e) (m_outputs M)) ++ rest) = Some (e_block e, rest).
Proof.
  intros (V & _ & _) L H. apply read_edge_body; auto. apply Forall_forall. intros [k v] I. unfold proj in I. apply filter_In in I.
  destruct I as [I J]. cbn [fst snd] in *. split; [apply (ex_outputs _ _ EX), mem_In; auto|eapply V; eauto].
Qed.
Lemma tail_len l : List.length (code_tail l) <= 2.
Proof. unfold code_tail. destruct (m_inputs M); cbn; lia. Qed.
Lemma low_weaken a b r : a <= b -> low a r -> low b r.
Proof. unfold low. destruct r as [|[i t] r]; [auto|]. lia. Qed.
Lemma read_chain : forall l f rest, (forall e, In e l -> good_label (snd e)) -> low 12 rest ->
  2 * List.length (code_edges "elif" l ++ code_tail l) + 1 <= f ->
  read_else f 12 (code_edges "elif" l ++ code_tail l ++ rest) = Some (chain_block l, rest).
Proof.
  induction l as [|e l IH]; intros f rest G L F.
  - cbn [code_edges app chain_block] in *. unfold code_tail, tail_block in *. destruct (m_inputs M) eqn:EI.
    + apply else_none; auto. 
    + cbn [List.length] in F. destruct f as [|[|[|[|f]]]]; try lia. cbn [app]. rewrite else_else, body_block by lia.
      erewrite block_simple; [|reflexivity|].
      * rewrite block_end; [reflexivity|lia|eapply low_weaken; [|eauto]; lia].
      * assert (P : forall x, read_simple ("self._error(" ++ x) = Some (SCall "_error")) by reflexivity. apply P.
  - change (code_tail (e :: l)) with (code_tail l) in *. cbn [code_edges chain_block] in *. unfold code_edge in *.
    cbn [app List.length] in *. rewrite !app_length in F. rewrite <- app_assoc. destruct f as [|f]; [lia|].
    eapply else_elif.
    + assert (P : forall x, strip "elif " ("elif" ++ " " ++ x) = Some x) by reflexivity. apply P.
    + apply guard_reads, G. left. auto.
    + apply e_body; [apply G; left; auto| |lia].
      destruct l as [|e' l]; [|cbn; lia]. cbn [code_edges app]. unfold code_tail. destruct (m_inputs M); [|cbn; lia].
      cbn [app]. eapply low_weaken; [|eauto]; lia.
    + apply IH; [intros; apply G; right; auto|auto|]. rewrite app_length. lia.
Qed.
Definition node_block (u : N) : block :=
  match m_out M u with [] => BCons (SRaise "RuntimeError") BNil | l => chain_block l end.
Lemma read_node u f rest : In u (m_nodes M) -> low 12 rest -> 2 * List.length (code_node u) + 2 <= f ->
  read_body f 8 (code_node u ++ rest) = Some (node_block u, rest).
Proof.
  intros U L F. unfold code_node, node_block in *. pose proof (good_out u) as G. destruct (m_out M u) as [|e l].
  - cbn [app List.length] in *. destruct f as [|[|f]]; try lia. rewrite body_block by lia.
    erewrite block_simple; [|reflexivity|reflexivity]. rewrite block_end; [reflexivity|lia|auto].
  - cbn [code_edges chain_block app] in *. unfold code_edge in *. cbn [app List.length] in *. rewrite !app_length in F.
    rewrite <- !app_assoc. destruct f as [|[|f]]; try lia. rewrite body_block by lia. change (code_tail (e :: l)) with (code_tail l) in *.
    eapply block_if with (r2 := rest).
    + assert (P : forall x, strip "if " ("if" ++ " " ++ x) = Some x) by reflexivity. apply P.
    + apply guard_reads, G; auto. left. auto.
    + apply e_body; [apply G; auto; left; auto| |lia].
      destruct l as [|e' l]; [|cbn; lia]. cbn [code_edges app]. unfold code_tail. destruct (m_inputs M); [|cbn; lia].
      cbn [app]. eapply low_weaken; [|eauto]; lia.
    + apply read_chain; [intros; apply G; auto; right; auto|auto|]. rewrite app_length. lia.
    + apply block_end; auto. lia.
Qed.
Definition assertion : list line :=
  [(8, "else:"); (12, "raise AssertionError(" ++ dquote ++ "Unrecognized internal state: " ++ dquote ++ " + str(self.state))")%string].
Fixpoint switch (l : list N) : block :=
  match l with
  | [] => BCons (SRaise "AssertionError") BNil
  | u :: r => BCons (SIf (CState (ENum (Z.of_nat (idx u)))) (node_block u) (switch r)) BNil
  end.
Lemma low_nodes l rest : low 12 (code_nodes "elif" l ++ assertion ++ rest).
Proof. destruct l; cbn; lia. Qed.
Lemma read_switch : forall l f rest, incl l (m_nodes M) -> low 12 rest -> 2 * List.length (code_nodes "elif" l ++ assertion) + 1 <= f ->
  read_else f 8 (code_nodes "elif" l ++ assertion ++ rest) = Some (switch l, rest).
Proof.
  induction l as [|u l IH]; intros f rest I L F; cbn [code_nodes switch app] in *.
  - unfold assertion in *. cbn [app List.length] in *. destruct f as [|[|[|[|f]]]]; try lia. rewrite else_else, body_block by lia.
    erewrite block_simple; [|reflexivity|reflexivity]. rewrite block_end; [reflexivity|lia|auto].
  - cbn [List.length] in F. rewrite !app_length in F. rewrite <- !app_assoc. destruct f as [|f]; [lia|]. eapply else_elif.
    + assert (P : forall x, strip "elif " ("elif" ++ " self.state == " ++ x) = Some ("self.state == " ++ x)%string) by reflexivity. apply P.
    + apply read_state_cond.
    + apply read_node; [apply I; left; auto|apply low_nodes|lia].
    + apply IH; [intros x X; apply I; right; auto|auto|]. rewrite app_length. lia.
Qed.
Definition move_lines : list line :=
  (8, "output = dict()") :: code_nodes "if" (m_nodes M) ++ assertion ++ [(8, "return output")].
Definition move_block : block :=
  match m_nodes M with
  | [] => BNil
  | u :: r => BCons SNew (BCons (SIf (CState (ENum (Z.of_nat (idx u)))) (node_block u) (switch r)) (BCons SReturn BNil))
  end.
Lemma read_move_block : m_nodes M <> [] -> read_block (2 * List.length move_lines + 2) 8 move_lines = Some (move_block, []).
Proof.
  intro NE. unfold move_lines, move_block. pose proof (incl_refl (m_nodes M)) as I. destruct (m_nodes M) as [|u l] eqn:EN; [congruence|]. clear NE. rewrite <- EN in I.
  cbn [code_nodes app List.length].
  match goal with |- read_block (2 * S (S ?n) + 2) _ _ = _ => replace (2 * S (S n) + 2) with (S (S (2 * n + 4))) by lia end.
  erewrite block_simple; [|reflexivity|reflexivity].
  erewrite block_if with (r2 := [(8, "return output")]).
  - reflexivity.
  - assert (P : forall x, strip "if " ("if" ++ " self.state == " ++ x) = Some ("self.state == " ++ x)%string) by reflexivity. apply P.
  - apply read_state_cond.
  - rewrite <- app_assoc. apply read_node; [rewrite EN; left; auto|apply low_nodes|]. rewrite !app_length. lia.
  - apply read_switch; [intros x X; rewrite EN; right; auto|cbn; lia|]. rewrite !app_length. lia.
  - rewrite !app_length. match goal with |- read_block (2 * ?n + 4) _ _ = _ => replace (2 * n + 4) with (S (S (2 * n + 2))) by lia end.
    erewrite block_simple; [|reflexivity|reflexivity]. rewrite block_end; [reflexivity|lia|exact Logic.I].
Qed.

(** ** Execution of a call *)
Section Call.
Context (args : string -> pyval) (call : string -> option string).
Definition menv (k : string) : option pyval :=
  if existsb (String.eqb k) (m_inputs M) && negb (String.eqb k "output") then Some (args k) else None.
Lemma menv_in k : In k (m_inputs M) -> menv k = Some (args k).
Proof.
  intro I. unfold menv. replace (existsb (String.eqb k) (m_inputs M)) with true by (symmetry; apply mem_In; auto).
  destruct (String.eqb k "output") eqn:E; [|reflexivity]. apply String.eqb_eq in E. subst.
  exfalso. apply (proj2 (ex_names _ _ EX "output" I)). cbn. tauto.
Qed.
Lemma menv_out k : ~ In k (m_inputs M) -> menv k = None.
Proof.
  intro I. unfold menv. replace (existsb (String.eqb k) (m_inputs M)) with false; [reflexivity|]. symmetry. apply not_true_iff_false.
  intro H. apply I, mem_In. auto.
Qed.
Definition fires_b (d : label) : bool :=
  forallb (fun kv => match menv (fst kv) with Some v => py_eqv v (lval_py (snd kv)) | None => false end) (proj d (m_inputs M)).
Lemma fires_iff d : fires_b d = true <-> fires M args d.
Proof.
  unfold fires_b, fires. rewrite forallb_forall. split.
  - intros H k v I J. specialize (H (k, v)). cbn [fst snd] in H. rewrite menv_in in H by auto. apply H.
    unfold proj. apply filter_In. split; [auto|apply mem_In; auto].
  - intros H [k v] I. unfold proj in I. apply filter_In in I. destruct I as [I J]. cbn [fst snd] in *. apply mem_In in J. rewrite menv_in by auto. auto.
Qed.
Lemma guard_holds e st : holds menv (e_guard e) st = Some (fires_b (snd e)).
Proof.
  unfold holds, e_guard, fires_b. apply guard_value. intros [k v] I. unfold proj in I. apply filter_In in I. destruct I as [_ J].
  cbn [fst] in *. apply mem_In in J. rewrite menv_in by auto. discriminate.
Qed.
Lemma set_key_new k v : forall o, ~ In k (map fst o) -> set_key k v o = o ++ [(k, v)].
Proof.
  induction o as [|[k' v'] o IH]; intro H; cbn [set_key app]; [reflexivity|]. destruct (String.eqb k k') eqn:E.
  - apply String.eqb_eq in E. subst. exfalso. apply H. left. reflexivity.
  - rewrite IH; auto. intro. apply H. right. auto.
Qed.
Definition pairs (l : label) : dict := map (fun kv => (fst kv, lval_py (snd kv))) l.
Lemma exec_outs : forall l st o, NoDup (map fst o ++ map fst l) -> exec_block menv call (outs_block l) st o = Some (Next st (o ++ pairs l)).
Proof.
  induction l as [|[k v] l IH]; intros st o ND; cbn [outs_block pairs map fst snd].
  - rewrite app_nil_r. reflexivity.
  - rewrite exec_cons. cbn [exec]. rewrite lval_value. cbn [option_map]. rewrite set_key_new.
    + rewrite IH; [rewrite <- app_assoc; reflexivity|]. rewrite map_app. cbn [map fst] in *. rewrite <- app_assoc. exact ND.
    + cbn [map fst] in ND. apply NoDup_remove_2 in ND. intro H. apply ND. apply in_app_iff. auto.
Qed.
Lemma exec_edge e st : good_label (snd e) -> exec_block menv call (e_block e) st [] = Some (Next (PZ (Z.of_nat (idx (fst e)))) (pairs (proj (snd e) (m_outputs M)))).
Proof.
  intros (_ & _ & ND). unfold e_block, edge_block. rewrite exec_cons. cbn [exec py_value option_map]. rewrite exec_outs; [reflexivity|].
  cbn [map app]. unfold proj. clear -ND. induction (snd e) as [|kv d IH]; cbn [filter map] in *; [constructor|]. inversion ND as [|x xs A B]; subst.
  destruct (mem (fst kv) (m_outputs M)); cbn [map]; auto. constructor; auto. intro H. apply A. apply in_map_iff in H. destruct H as (q & E & I).
  apply filter_In in I. apply in_map_iff. exists q. tauto.
Qed.
Lemma exec_one s st o : exec_block menv call (BCons s BNil) st o = exec menv call s st o.
Proof. rewrite exec_cons. destruct (exec menv call s st o) as [[]|]; reflexivity. Qed.
Lemma exec_chain_some : forall l w d st, (forall e, In e l -> good_label (snd e)) -> first_edge M args l w d ->
  exec_block menv call (chain_block l) st [] = Some (Next (PZ (Z.of_nat (idx w))) (pairs (proj d (m_outputs M)))).
Proof.
  intros l w d st G F. induction F as [w d r F|w d r w' d' F R IH]; cbn [chain_block]; rewrite exec_one; cbn [exec]; rewrite guard_holds; cbn [snd].
  - rewrite (proj2 (fires_iff d) F). apply (exec_edge (w, d)). apply (G (w, d)). left. auto.
  - replace (fires_b d) with false by (symmetry; apply not_true_iff_false; rewrite fires_iff; auto). apply IH. intros; apply G; right; auto.
Qed.
Lemma exec_chain_none : forall l st, no_edge M args l -> exec_block menv call (chain_block l) st [] = exec_block menv call (tail_block) st [].
Proof.
  induction l as [|[w d] l IH]; intros st NE; cbn [chain_block]; [reflexivity|]. rewrite exec_one. cbn [exec]. rewrite guard_holds. cbn [snd].
  replace (fires_b d) with false by (symmetry; apply not_true_iff_false; rewrite fires_iff; apply (NE w); left; auto).
  apply IH. intros w' d' I. apply (NE w'). right. auto.
Qed.
Lemma exec_switch : forall l u o, incl l (m_nodes M) -> In u l ->
  exec_block menv call (switch l) (PZ (Z.of_nat (idx u))) o = exec_block menv call (node_block u) (PZ (Z.of_nat (idx u))) o.
Proof.
  induction l as [|v l IH]; intros u o I U; [destruct U|]. cbn [switch]. rewrite exec_one. cbn [exec holds py_value option_map py_eqv num_of].
  destruct (Z.eqb_spec (Z.of_nat (idx u)) (Z.of_nat (idx v))) as [E|E].
  - replace v with u; [reflexivity|]. apply idx_inj; [destruct U; subst; apply I; [left|right]; auto|apply I; left; auto|lia].
  - destruct U as [->|U]; [congruence|]. apply IH; auto. intros x X. apply I. right. auto.
Qed.
Lemma exec_move u : In u (m_nodes M) -> exec_block menv call (move_block) (PZ (Z.of_nat (idx u))) [] =
  match exec_block menv call (node_block u) (PZ (Z.of_nat (idx u))) [] with
  | Some (Next st o) => Some (Return st o)
  | r => r
  end.
Proof.
  intro U. unfold move_block. pose proof (exec_switch (m_nodes M) u [] (incl_refl _) U) as S. destruct (m_nodes M) as [|v l] eqn:EN; [destruct U|].
  assert (D : menv "dict" = None). { apply menv_out. intro I. apply (proj2 (ex_names _ _ EX _ I)). cbn. tauto. }
  cbn [switch] in S. rewrite exec_one in S.
  rewrite exec_cons. cbn [exec]. rewrite D, exec_cons, S. destruct (exec_block menv call (node_block u) _ _) as [[]|]; reflexivity.
Qed.
End Call.

(** ** The text *)
Lemma oneline_join sep : oneline sep = true -> forall l, forallb oneline l = true -> oneline (join sep l) = true.
Proof.
  intro S. induction l as [|x l IH]; intro O; [reflexivity|]. cbn [forallb] in O. apply andb_true_iff in O. destruct O as [O1 O2].
  destruct l as [|y l]; [exact O1|]. change (join sep (x :: y :: l)) with (x ++ sep ++ join sep (y :: l))%string.
  rewrite !oneline_app, O1, S, IH by auto. reflexivity.
Qed.
Lemma word_oneline s : forallb word_char (chars s) = true -> oneline s = true.
Proof.
  unfold oneline. rewrite !forallb_forall. intros H c I. specialize (H c I). apply negb_true_iff, Nat.eqb_neq. intro E.
  replace c with (ascii_of_nat 10) in H by (rewrite <- E; apply ascii_nat_embedding). discriminate.
Qed.
Lemma clean_oneline s : clean s = true -> oneline s = true.
Proof.
  unfold clean, oneline. rewrite !forallb_forall. intros H c I. specialize (H c I). apply negb_true_iff, Nat.eqb_neq. intro E.
  unfold clean_char in H. rewrite E in H. discriminate.
Qed.
Lemma nat_oneline k : oneline (str_nat k) = true.
Proof. apply word_oneline. apply (py_number_word _ (py_number_str_nat k)). Qed.
Lemma val_oneline v : clean_val v = true -> oneline (lval_text v) = true.
Proof.
  destruct v as [z|[|]|s]; cbn [clean_val lval_text]; intro C; try reflexivity.
  - unfold str_Z. destruct (z <? 0)%Z; [rewrite oneline_app|]; rewrite nat_oneline; reflexivity.
  - rewrite !oneline_app, (clean_oneline s) by auto. reflexivity.
Qed.
Lemma input_oneline x : In x (m_inputs M) -> oneline x = true.
Proof. intro I. apply word_oneline. apply py_name_word, (ex_names _ _ EX); auto. Qed.
Lemma inputs_oneline : forallb oneline (m_inputs M) = true.
Proof. apply forallb_forall. apply input_oneline. Qed.
Lemma args_oneline : oneline (input_args M) = true.
Proof. apply oneline_join; [reflexivity|apply inputs_oneline]. Qed.
Lemma ln_oneline n t : oneline (ln n t) = oneline t.
Proof. unfold ln. rewrite oneline_app. replace (oneline (tabs n)) with true; [reflexivity|]. induction n; [reflexivity|]. cbn [tabs]. rewrite oneline_app, <- IHn. reflexivity. Qed.
Lemma guard_oneline d : good_label d -> oneline (guard M d) = true.
Proof.
  intros (V & _ & _). unfold guard. destruct (m_inputs M) eqn:EI; [reflexivity|]. rewrite <- EI. apply oneline_join; [reflexivity|].
  apply forallb_forall. intros x I. apply in_map_iff in I. destruct I as ([k v] & <- & I). unfold proj in I. apply filter_In in I. destruct I as [I J].
  cbn [fst snd] in *. rewrite !oneline_app, (input_oneline k), val_oneline; [reflexivity|eapply V; eauto|apply mem_In; auto].
Qed.
Lemma edges_oneline : forall l ifw, oneline ifw = true -> (forall e, In e l -> good_label (snd e)) -> forallb oneline (pure_edges ifw l) = true.
Proof.
  induction l as [|[w d] l IH]; intros ifw O G; [reflexivity|]. cbn [pure_edges]. rewrite forallb_app, IH by (auto || (intros; apply G; right; auto)).
  rewrite andb_true_r. pose proof (G (w, d) (or_introl eq_refl)) as Gd. cbn [snd] in Gd. unfold edge_lines. cbn [forallb].
  rewrite !ln_oneline, !oneline_app, O, guard_oneline, nat_oneline by auto. cbn [andb].
  change (oneline " " && (true && oneline ":")) with true. change (oneline "self.state = " && true) with true. change (oneline "") with true. cbn [andb].
  apply forallb_forall. intros x I. apply in_map_iff in I. destruct I as ([k v] & <- & I). unfold proj in I. apply filter_In in I. destruct I as [I J].
  cbn [fst snd] in *. rewrite ln_oneline, !oneline_app. rewrite val_oneline by (eapply (proj1 Gd); eauto).
  rewrite (clean_oneline k) by (apply (ex_outputs _ _ EX), mem_In; auto). reflexivity.
Qed.
Lemma node_oneline u : In u (m_nodes M) -> forallb oneline (pure_node u) = true.
Proof.
  intro U. unfold pure_node. pose proof (good_out u) as G. destruct (m_out M u) as [|e l]; [reflexivity|].
  destruct (m_inputs M); [apply edges_oneline; auto|]. rewrite forallb_app, edges_oneline by auto. cbn [forallb]. rewrite !ln_oneline, !oneline_app, args_oneline. reflexivity.
Qed.
Lemma nodes_oneline : forall l ifu, oneline ifu = true -> incl l (m_nodes M) -> forallb oneline (pure_nodes ifu l) = true.
Proof.
  induction l as [|u l IH]; intros ifu O I; [reflexivity|]. cbn [pure_nodes forallb].
  rewrite forallb_app, IH, node_oneline by (reflexivity || (apply I; left; reflexivity) || (intros x X; apply I; right; auto)).
  rewrite ln_oneline, !oneline_app, O, nat_oneline. reflexivity.
Qed.
Lemma quoted_oneline q l : oneline q = true -> forallb oneline l = true -> oneline (quoted_list q l) = true.
Proof.
  intros Q L. unfold quoted_list. rewrite !oneline_app, Q, oneline_join; auto. rewrite !oneline_app, Q. reflexivity.
Qed.
Lemma header_oneline classname date k : oneline classname = true -> oneline date = true -> forallb oneline (header M classname date k) = true.
Proof.
  intros C D. unfold header. cbn [forallb]. rewrite !ln_oneline, !oneline_app, C, D, nat_oneline, args_oneline.
  rewrite quoted_oneline by (reflexivity || apply inputs_oneline).
  replace (oneline match m_outputs M with [] => "" | _ => quoted_list "'" (m_outputs M) end) with true; [reflexivity|].
  symmetry. destruct (m_outputs M) eqn:E; [reflexivity|]. rewrite <- E. apply quoted_oneline; [reflexivity|].
  apply forallb_forall. intros x I. apply clean_oneline, (ex_outputs _ _ EX). auto.
Qed.

(** ** Methods *)
Definition class_lines (classname date : string) : list line :=
  let q3 := (dquote ++ dquote ++ dquote)%string in
  [(0, "class " ++ classname ++ ":")%string;
   (4, q3 ++ "Mealy transducer.")%string;
   (4, "Internal states are integers, the current state");
   (4, "is stored in the attribute " ++ dquote ++ "state" ++ dquote ++ ".")%string;
   (4, "To take a transition, call method " ++ dquote ++ "move" ++ dquote ++ ".")%string;
   (4, "The names of input variables are stored in the");
   (4, "attribute " ++ dquote ++ "input_vars" ++ dquote ++ ".")%string;
   (4, "Automatically generated by tulip.dumpsmach on " ++ date)%string;
   (4, "To learn more about TuLiP, visit http://tulip-control.org");
   (4, q3)].
Definition init_lines (k : nat) : list line :=
  [(8, "self.state = " ++ str_nat k)%string; (8, "self.input_vars = [" ++ quoted_list "'" (m_inputs M) ++ "]")%string].
Definition doc_lines : list line :=
  let q3 := (dquote ++ dquote ++ dquote)%string in
  [(8, q3 ++ "Given inputs, take move and return outputs.")%string;
   (8, "@return:");
   (12, "dictionary with keys of the output variable names:");
   (12, "[" ++ match m_outputs M with [] => "" | _ => quoted_list "'" (m_outputs M) end ++ "]")%string;
   (8, q3)].
Lemma cl_header classname date k : cl (header M classname date k) =
  class_lines classname date ++ (4, "def __init__(self):") :: init_lines k ++
  (4, "def move(self, " ++ input_args M ++ ") -> dict:")%string :: doc_lines ++ [(8, "output = dict()")].
Proof.
  unfold header. change (("class " ++ classname ++ ":")%string) with (ln 0 ("class " ++ classname ++ ":")).
  unfold doc_lines, class_lines, init_lines. generalize (match m_outputs M with [] => "" | _ => quoted_list "'" (m_outputs M) end) as outs.
  generalize (quoted_list "'" (m_inputs M)) as ins. generalize (str_nat k) as ks. generalize (input_args M) as ar. intros. reflexivity.
Qed.
Definition error_line (x : string) : line := (8, "raise ValueError(" ++ x)%string.
Lemma code_footer : exists x tail, code_lines (footer M) =
  assertion ++ (8, "return output") :: (4, "def _error(self, " ++ input_args M ++ "):")%string :: error_line x :: tail.
Proof.
  unfold footer, code_lines. rewrite lines_unlines by (cbn [forallb]; rewrite !ln_oneline, !oneline_app, args_oneline; reflexivity).
  rewrite map_app, filter_app.
  match goal with |- context [lines (?p ++ ?s)] =>
    assert (X : exists y r, lines (p ++ s) = (p ++ y)%string :: r) by exact (lines_prefix p "" s eq_refl ltac:(discriminate)) end.
  destruct X as (x & r & E). rewrite E. clear E.
  assert (IN : forall n t y, tight t = true -> indent (ln n t ++ y) = (4 * n, t ++ y)%string).
  { intros n t y T. unfold ln. rewrite L_Python.str_assoc. apply (indent_ln n (t ++ y)). apply tight_app. auto. }
  cbn [map]. rewrite IN by reflexivity.
  exists (dquote ++ "Unrecognized input: " ++ dquote ++ " + (" ++ x)%string, (filter (fun l => negb (String.eqb (snd l) "")) (map indent r)).
  unfold assertion, error_line.
  generalize (input_args M) as ar. intros. reflexivity.
Qed.
Lemma code_text classname date k : oneline classname = true -> oneline date = true -> exists x tail,
  code_lines (unlines (header M classname date k ++ pure_nodes "if" (m_nodes M)) ++ footer M) =
  class_lines classname date ++ (4, "def __init__(self):") :: init_lines k ++
  (4, "def move(self, " ++ input_args M ++ ") -> dict:")%string :: doc_lines ++
  move_lines ++ (4, "def _error(self, " ++ input_args M ++ "):")%string :: error_line x :: tail.
Proof.
  intros C D. destruct code_footer as (x & tail & E). exists x, tail.
  rewrite code_unlines by (rewrite forallb_app, header_oneline, nodes_oneline by (auto || apply incl_refl); reflexivity). rewrite E.
  rewrite cl_app, cl_header, cl_nodes by reflexivity. unfold move_lines. repeat (rewrite <- app_assoc || cbn [app]). reflexivity.
Qed.

Lemma find_skip m a b : Forall (fun l : line => fst l <> 4) a -> find_method m (a ++ b) = find_method m b.
Proof.
  induction 1 as [|[i t] a H _ IH]; [reflexivity|]. cbn [app find_method]. cbn [fst] in H. apply Nat.eqb_neq in H. rewrite H. exact IH.
Qed.
Lemma inner_app a t r : Forall (fun l : line => 4 < fst l) a -> inner_lines (a ++ (4, t) :: r) = a.
Proof.
  induction 1 as [|[i x] a H _ IH]; [reflexivity|]. cbn [app inner_lines]. cbn [fst] in H. apply Nat.ltb_lt in H. rewrite H, IH. reflexivity.
Qed.
Lemma deep_edges : forall l ifw, Forall (fun l : line => 4 < fst l) (code_edges ifw l).
Proof.
  induction l as [|e l IH]; intro ifw; cbn [code_edges]; [constructor|]. apply Forall_app. split; [|apply IH].
  unfold code_edge, edge_body. constructor; [cbn; lia|]. constructor; [cbn; lia|]. apply Forall_forall. intros y I. apply in_map_iff in I.
  destruct I as (kv & <- & _). cbn. lia.
Qed.
Lemma deep_node u : Forall (fun l : line => 4 < fst l) (code_node u).
Proof.
  unfold code_node. destruct (m_out M u) as [|e l]; [repeat constructor|]. apply Forall_app. split; [apply deep_edges|].
  unfold code_tail. destruct (m_inputs M); repeat constructor.
Qed.
Lemma deep_nodes : forall l ifu, Forall (fun l : line => 4 < fst l) (code_nodes ifu l).
Proof.
  induction l as [|u l IH]; intro ifu; cbn [code_nodes]; [constructor|]. constructor; [cbn; lia|]. apply Forall_app. split; [apply deep_node|apply IH].
Qed.
Lemma deep_move : Forall (fun l : line => 4 < fst l) move_lines.
Proof.
  unfold move_lines. constructor; [cbn; lia|]. apply Forall_app. split; [apply deep_nodes|]. repeat constructor.
Qed.
Section Text.
Context (classname date : string) (k : nat) (text x : string) (tail : list line).
Hypothesis CODE : code_lines text =
  class_lines classname date ++ (4, "def __init__(self):") :: init_lines k ++
  (4, "def move(self, " ++ input_args M ++ ") -> dict:")%string :: doc_lines ++
  move_lines ++ (4, "def _error(self, " ++ input_args M ++ "):")%string :: error_line x :: tail.
Lemma find_init : find_method "__init__" (code_lines text) = Some ("self):", init_lines k).
Proof.
  rewrite CODE. generalize (doc_lines ++ move_lines ++ (4, "def _error(self, " ++ input_args M ++ "):")%string :: error_line x :: tail) as rest.
  unfold class_lines, init_lines. generalize (quoted_list "'" (m_inputs M)) as ins. generalize (str_nat k) as ks. generalize (input_args M) as ar. intros. reflexivity.
Qed.
Lemma find_move : find_method "move" (code_lines text) = Some ("self, " ++ input_args M ++ ") -> dict:", move_lines)%string.
Proof.
  rewrite CODE. set (rest := doc_lines ++ _).
  assert (R : skip_doc (inner_lines rest) = move_lines).
  { unfold rest. rewrite app_assoc, inner_app.
    - unfold doc_lines. generalize (match m_outputs M with [] => "" | _ => quoted_list "'" (m_outputs M) end) as outs. intros. reflexivity.
    - apply Forall_app. split; [|apply deep_move]. unfold doc_lines. repeat constructor. }
  rewrite <- R. clearbody rest. clear R.
  unfold class_lines, init_lines. generalize (quoted_list "'" (m_inputs M)) as ins. generalize (str_nat k) as ks. generalize (input_args M) as ar. intros. reflexivity.
Qed.
Lemma find_error : exists r, find_method "_error" (code_lines text) = Some ("self, " ++ input_args M ++ "):", error_line x :: r)%string.
Proof.
  rewrite CODE.
  assert (P : forall ar rest, find_method "_error" (class_lines classname date ++ (4, "def __init__(self):") :: init_lines k ++
    (4, "def move(self, " ++ ar ++ ") -> dict:")%string :: rest) = find_method "_error" rest).
  { unfold class_lines, init_lines. generalize (quoted_list "'" (m_inputs M)) as ins. generalize (str_nat k) as ks. intros. reflexivity. }
  rewrite P. rewrite app_assoc, find_skip.
  - eexists. assert (Q : forall ar r, find_method "_error" ((4, "def _error(self, " ++ ar ++ "):")%string :: r) = Some ("self, " ++ ar ++ "):", skip_doc (inner_lines r))%string) by reflexivity.
    rewrite Q. unfold error_line. cbn [inner_lines]. change (4 <? 8) with true. reflexivity.
  - apply Forall_app. split; [unfold doc_lines; repeat constructor; discriminate|].
    eapply Forall_impl; [|apply deep_move]. cbn. intros. lia.
Qed.
(** Parameters *)
Lemma words_word : forall w s, forallb word_char (chars w) = true -> words (w ++ s) = match words s with v :: r => (w ++ v)%string :: r | [] => [w] end.
Proof.
  assert (NE : forall s, words s <> []).
  { induction s as [|c s IH]; cbn [words]; [discriminate|]. destruct (Ascii.eqb c ","); [discriminate|]. destruct (Ascii.eqb c " "); [auto|]. destruct (words s); discriminate. }
  induction w as [|c w IH]; intros s W; cbn [append].
  - specialize (NE s). destruct (words s); [congruence|reflexivity].
  - cbn [list_ascii_of_string forallb] in W. apply andb_true_iff in W. destruct W as [W1 W2]. cbn [words].
    destruct (Ascii.eqb_spec c ","); [subst; discriminate|]. destruct (Ascii.eqb_spec c " "); [subst; discriminate|].
    rewrite IH by auto. specialize (NE s). destruct (words s); [congruence|reflexivity].
Qed.
Lemma words_join : forall l, (forall y, In y l -> py_name y = true) -> filter (fun w => negb (String.eqb w "")) (words (join ", " l)) = l.
Proof.
  induction l as [|y l IH]; intro H; [reflexivity|]. pose proof (H y (or_introl eq_refl)) as Py. destruct (py_name_word y Py) as [W _].
  assert (NE : String.eqb y "" = false) by (destruct y; [discriminate|reflexivity]).
  destruct l as [|z l].
  - change (join ", " [y]) with y. rewrite <- (str_nil_r y) at 1. rewrite words_word by auto. cbn [words]. rewrite str_nil_r. cbn [filter]. rewrite NE. reflexivity.
  - change (join ", " (y :: z :: l)) with (y ++ ", " ++ join ", " (z :: l))%string. rewrite words_word by auto.
    change (words (", " ++ join ", " (z :: l))) with ("" :: words (join ", " (z :: l))). cbv beta iota. rewrite str_nil_r. cbn [filter]. rewrite NE. cbn [negb].
    rewrite IH; [reflexivity|]. intros; apply H; right; auto.
Qed.
Lemma args_no_paren : forallb (fun d => negb (Ascii.eqb ")" d)) (chars ("self, " ++ input_args M)) = true.
Proof.
  rewrite chars_app, forallb_app. change (forallb _ (chars "self, ")) with true. cbn [andb]. unfold input_args.
  pose proof (ex_names _ _ EX) as NM. revert NM. generalize (m_inputs M) as l. induction l as [|y l IH]; intro NM; [reflexivity|].
  assert (Y : forallb (fun d => negb (Ascii.eqb ")" d)) (chars y) = true).
  { apply forallb_forall. intros c I. destruct (py_name_word y (proj1 (NM y (or_introl eq_refl)))) as [W _]. rewrite forallb_forall in W. specialize (W c I).
    destruct (Ascii.eqb_spec ")" c); [subst; discriminate|reflexivity]. }
  destruct l as [|z l]; [exact Y|]. change (join ", " (y :: z :: l)) with (y ++ ", " ++ join ", " (z :: l))%string.
  rewrite !chars_app, !forallb_app, Y. change (forallb _ (chars ", ")) with true. cbn [andb]. apply IH. intros; apply NM; right; auto.
Qed.
Lemma params_of m ls r : find_method m (code_lines text) = Some ("self, " ++ input_args M ++ String ")" r, ls)%string ->
  parameters m text = Some (m_inputs M).
Proof.
  intro F. unfold parameters. rewrite F. rewrite <- L_Python.str_assoc, cut_app by apply args_no_paren.
  change (words ("self, " ++ input_args M)) with ("self" :: words (input_args M)). cbn [filter].
  change (negb (String.eqb "self" "")) with true. cbv iota. unfold input_args. rewrite words_join by (intros; apply (ex_names _ _ EX); auto). reflexivity.
Qed.
Lemma move_params : parameters "move" text = Some (m_inputs M).
Proof. eapply params_of. apply find_move. Qed.
Lemma error_raises : raises "_error" text = Some "ValueError".
Proof.
  unfold raises. destruct find_error as (r & F). rewrite F. erewrite params_of by apply F. unfold error_line.
  assert (P : forall y, read_simple ("raise ValueError(" ++ y) = Some (SRaise "ValueError")) by reflexivity. rewrite P.
  replace (existsb (String.eqb "ValueError") (m_inputs M)) with false; [reflexivity|]. symmetry. apply not_true_iff_false. intro H.
  apply mem_In in H. apply (proj2 (ex_names _ _ EX _ H)). cbn. tauto.
Qed.
Lemma move_read : m_nodes M <> [] -> read_method "move" text = Some move_block.
Proof. intro NE. unfold read_method. rewrite find_move, read_move_block by auto. reflexivity. Qed.
Lemma init_read : read_method "__init__" text = Some (BCons (SState (ENum (Z.of_nat k))) (BCons SInputs BNil)).
Proof.
  unfold read_method. rewrite find_init. unfold init_lines. cbn [List.length].
  change (2 * 2 + 2) with 6. erewrite block_simple; [|reflexivity|apply read_state].
  assert (P : forall y, read_simple ("self.input_vars = [" ++ y) = Some SInputs) by reflexivity.
  erewrite block_simple; [|reflexivity|apply P]. reflexivity.
Qed.
Lemma names_distinct : distinct_names ("self" :: m_inputs M) = true.
Proof.
  assert (D : forall l, NoDup l -> distinct_names l = true).
  { induction 1 as [|y l A B IH]; cbn [distinct_names]; [reflexivity|]. rewrite IH, andb_true_r. apply negb_true_iff, not_true_iff_false. intro H. apply A, mem_In. auto. }
  apply D. constructor; [|apply (ex_inputs _ _ EX)]. intro I. apply (proj2 (ex_names _ _ EX _ I)). cbn. tauto.
Qed.
Lemma move_exec args st : m_nodes M <> [] -> move text (fun n => Some (args n)) st = exec_block (menv args) (fun m => raises m text) move_block st [].
Proof. intro NE. unfold move. rewrite move_read, move_params by auto. rewrite names_distinct. reflexivity. Qed.
End Text.
End Proof.

(** * Theorems *)
Lemma edge_dec {N} (M : pmachine N) args l : (exists w d, first_edge M args l w d) \/ no_edge M args l.
Proof.
  assert (D : forall d, fires M args d \/ ~ fires M args d).
  { intro d. unfold fires. induction d as [|[k v] d [IH|IH]].
    - left. intros k v [].
    - destruct (py_eqv (args k) (lval_py v)) eqn:E.
      + left. intros k' v' [Q|I] J; [congruence|eauto].
      + destruct (in_dec string_dec k (m_inputs M)) as [J|J].
        * right. intro H. specialize (H k v (or_introl eq_refl) J). congruence.
        * left. intros k' v' [Q|I] J'; [congruence|eauto].
    - right. intro H. apply IH. intros k' v' I J. apply H; auto. right. auto. }
  induction l as [|[w d] l IH]; [right; intros w d []|]. destruct (D d) as [F|F]; [left; exists w, d; constructor; auto|].
  destruct IH as [(w' & d' & H)|H]; [left; exists w', d'; constructor 2; auto|right]. intros w' d' [Q|I]; [congruence|eauto].
Qed.
(** The text is a class whose object starts in [start], whose method [move] takes the inputs, and
    whose calls follow the machine: the first edge that fires is taken and its outputs returned; a
    call with other inputs is a [ValueError]; a call in a node without edges is a [RuntimeError]. *)
Theorem python_case_class {N} eqb (M : pmachine N) classname date start :
  exportable eqb M -> In start (m_nodes M) -> oneline classname = true -> oneline date = true ->
  exists text,
    python_case eqb M classname date start = Ok text /\
    parameters "move" text = Some (m_inputs M) /\
    (exists i, numbered M start i /\ initial_state text = Some (PZ (Z.of_nat i))) /\
    forall u i args, numbered M u i ->
      let call := move text (fun k => Some (args k)) (PZ (Z.of_nat i)) in
      (forall w d, first_edge M args (m_out M u) w d ->
        exists j o, numbered M w j /\ is_outputs M d o /\ NoDup (map fst o) /\ call = Some (Return (PZ (Z.of_nat j)) o)) /\
      (m_out M u <> [] -> no_edge M args (m_out M u) -> call = Some (Raise "ValueError")) /\
      (m_out M u = [] -> call = Some (Raise "RuntimeError")).
Proof.
  intros EX IS C D. destruct (to_int eqb M EX start IS) as [S1 S2].
  destruct (code_text eqb M EX classname date (idx eqb M start) C D) as (x & tail & CODE).
  set (text := (unlines (header M classname date (idx eqb M start) ++ pure_nodes eqb M "if" (m_nodes M)) ++ footer M)%string) in *.
  assert (NE : m_nodes M <> []) by (intro E; rewrite E in IS; destruct IS).
  exists text. split; [|split; [|split]].
  - unfold python_case. rewrite S1. cbn [of_opt bind]. rewrite (nodes_ok eqb M EX) by apply incl_refl. reflexivity.
  - eapply move_params; eauto.
  - exists (idx eqb M start). split; auto. unfold initial_state. erewrite init_read by apply CODE. rewrite (move_read eqb M EX _ _ _ _ _ _ CODE NE). reflexivity.
  - intros u i args NU call. destruct (numbered_idx eqb M EX u i NU) as [U E]. subst i.
    assert (CALL : call = match exec_block (menv M args) (fun m => raises m text) (node_block eqb M u) (PZ (Z.of_nat (idx eqb M u))) [] with
      | Some (Next st o) => Some (Return st o) | r => r end).
    { unfold call. rewrite (move_exec eqb M EX _ _ _ _ _ _ CODE args _ NE). apply (exec_move eqb M EX). auto. }
    pose proof (fun e => good_out eqb M EX u e U) as G. unfold node_block in CALL. rewrite CALL. clear CALL call. repeat split.
    + intros w d F. destruct (m_out M u) as [|e l] eqn:EO; [inversion F|]. rewrite <- EO in *.
      rewrite (exec_chain_some eqb M EX args _ _ w d _ G F). exists (idx eqb M w), (pairs (proj d (m_outputs M))).
      assert (I : In (w, d) (m_out M u)) by (clear -F; induction F; [left|right]; auto).
      assert (W : In w (m_nodes M)) by (eapply (ex_targets _ _ EX); eauto). destruct (to_int eqb M EX w W) as [_ NW].
      repeat split; auto.
      * intro H. unfold pairs in H. apply in_map_iff in H. destruct H as ([k' x'] & Q & J). cbn [fst snd] in Q. unfold proj in J.
        apply filter_In in J. destruct J as [J1 J2]. cbn [fst] in J2. apply mem_In in J2. inversion Q; subst. eauto.
      * intros (y & -> & J1 & J2). unfold pairs. apply in_map_iff. exists (k, y). split; [reflexivity|]. unfold proj. apply filter_In. split; [auto|apply mem_In; auto].
      * destruct (G _ I) as (_ & _ & ND). cbn [snd] in ND. unfold pairs. rewrite map_map. cbn [fst]. unfold proj. clear -ND.
        induction d as [|kv d IH]; cbn [filter map] in *; [constructor|]. inversion ND as [|y ys A B]; subst.
        destruct (mem (fst kv) (m_outputs M)); cbn [map]; auto. constructor; auto. intro H. apply A. apply in_map_iff in H. destruct H as (q & E & I).
        apply filter_In in I. apply in_map_iff. exists q. tauto.
    + intros EO NEd. destruct (m_out M u) as [|e l] eqn:EQ; [congruence|]. rewrite <- EQ in *. rewrite (exec_chain_none eqb M EX) by auto.
      unfold tail_block. destruct (m_inputs M) as [|n ns] eqn:EI.
      * exfalso. destruct e as [w d]. apply (NEd w d); [rewrite EQ; left; auto|]. intros k v _ J. rewrite EI in J. destruct J.
      * cbn [exec_block exec]. erewrite error_raises by (apply EX || apply CODE). reflexivity.
    + intro EO. rewrite EO. cbn [exec_block exec].
      rewrite menv_out; [reflexivity|]. intro I. apply (proj2 (ex_names _ _ EX _ I)). cbn. tauto.
Qed.
Print Assumptions python_case_class.

(** Sequences of calls.  A run of the machine: the node reached and the labels taken. *)
Inductive machine_run {N} (M : pmachine N) : N -> list (string -> pyval) -> list label -> N -> Prop :=
| run_nil u : machine_run M u [] [] u
| run_cons u args w d l ds v : first_edge M args (m_out M u) w d -> machine_run M w l ds v -> machine_run M u (args :: l) (d :: ds) v.
(** Successive calls of [move] that return; the state of the object at the end *)
Fixpoint calls (text : string) (st : pyval) (l : list (string -> pyval)) : option (list dict * pyval) :=
  match l with
  | [] => Some ([], st)
  | args :: r =>
      match move text (fun k => Some (args k)) st with
      | Some (Return st' o) => match calls text st' r with Some (os, e) => Some (o :: os, e) | None => None end
      | _ => None
      end
  end.
Theorem python_case_run {N} eqb (M : pmachine N) classname date start text l :
  exportable eqb M -> In start (m_nodes M) -> oneline classname = true -> oneline date = true ->
  python_case eqb M classname date start = Ok text ->
  exists s0, initial_state text = Some s0 /\
    (forall ds v, machine_run M start l ds v -> exists os j, numbered M v j /\ Forall2 (is_outputs M) ds os /\ calls text s0 l = Some (os, PZ (Z.of_nat j))) /\
    ((forall ds v, ~ machine_run M start l ds v) -> calls text s0 l = None).
Proof.
  intros EX IS C D P. destruct (python_case_class eqb M classname date start EX IS C D) as (t & Q & _ & (i & NS & IN) & MV).
  assert (t = text) by congruence. subst t. exists (PZ (Z.of_nat i)). split; auto. clear IN P Q IS.
  revert start i NS. induction l as [|args l IH]; intros u i NU; split.
  - intros ds v R. inversion R; subst. exists [], i. repeat split; auto.
  - intro H. exfalso. apply (H [] u). constructor.
  - intros ds v R. inversion R as [|u' a w d l' ds' v' F R']; subst. destruct (MV u i args NU) as (A & _ & _). destruct (A w d F) as (j & o & NW & O & _ & E).
    cbn [calls]. rewrite E. destruct (proj1 (IH w j NW) _ _ R') as (os & j' & NV & OS & CE). rewrite CE. exists (o :: os), j'. repeat split; auto.
  - intro H. cbn [calls]. destruct (MV u i args NU) as (A & B & G). destruct (edge_dec M args (m_out M u)) as [(w & d & F)|NE].
    + destruct (A w d F) as (j & o & NW & _ & _ & E). rewrite E. rewrite (proj2 (IH w j NW)); [reflexivity|].
      intros ds v R. apply (H (d :: ds) v). econstructor; eauto.
    + destruct (m_out M u) as [|e r] eqn:EO; [rewrite G by auto; reflexivity|]. rewrite B by (auto || discriminate). reflexivity.
Qed.
Print Assumptions python_case_run.

(** * Examples and refutations *)
Definition pc_m : pmachine nat := PMachine [7; 8; 9]
  (fun u => match u with
            | 7 => [(8, [("x", LInt 1); ("y", LStr "go")]); (7, [("x", LInt 2); ("y", LBool true); ("z", LInt (-3))])]
            | 8 => [(9, [("x", LInt 0)])]
            | _ => []
            end) ["x"] ["y"; "z"].
Lemma pc_exportable : exportable Nat.eqb pc_m.
Proof.
  constructor; cbn.
  - repeat constructor; cbn; intuition discriminate.
  - apply Nat.eqb_eq.
  - intros u w d [<-|[<-|[<-|[]]]]; cbn; intros I; repeat (destruct I as [I|I]; [injection I as <- <-; auto|]); destruct I.
  - repeat constructor. auto.
  - intros x [<-|[]]. split; [reflexivity|]. cbn. intuition discriminate.
  - intros x [<-|[<-|[]]]; reflexivity.
  - intros u w d [<-|[<-|[<-|[]]]]; cbn; intros I; repeat (destruct I as [I|I]; [injection I as <- <-; repeat constructor; cbn; intuition discriminate|]); destruct I.
  - intros u w d k v [<-|[<-|[<-|[]]]]; cbn; intros I J; repeat (destruct I as [I|I]; [injection I as <- <-; cbn in J; repeat (destruct J as [J|J]; [injection J as <- <-; reflexivity|]); destruct J|]); destruct I.
  - intros u w d [<-|[<-|[<-|[]]]]; cbn; intros I _; repeat (destruct I as [I|I]; [injection I as <- <-; eexists "x", _; split; [left; reflexivity|left; reflexivity]|]); destruct I.
Qed.
Definition pc_text (M : pmachine nat) : string := match python_case Nat.eqb M "Strategy" "2026" (hd 0 (m_nodes M)) with Ok t => t | Err e => e end.
Definition pc_x (z : Z) : string -> pyval := fun _ => PZ z.
Example pc_runs :
  initial_state (pc_text pc_m) = Some (PZ 0) /\
  calls (pc_text pc_m) (PZ 0) [pc_x 2; pc_x 1; pc_x 0] = Some ([[("y", PB true); ("z", PZ (-3))]; [("y", PS "go")]; []], PZ 2) /\
  move (pc_text pc_m) (fun _ => Some (PZ 5)) (PZ 0) = Some (Raise "ValueError") /\
  move (pc_text pc_m) (fun _ => Some (PZ 5)) (PZ 2) = Some (Raise "RuntimeError").
Proof. repeat split; vm_compute; reflexivity. Qed.
(** An edge that mentions no input, of a machine with inputs, has an empty condition: the text is
    not a Python class. *)
Theorem python_case_unlabeled_refuted : exists M : pmachine nat,
  (forall u w d, In (w, d) (m_out M u) -> In w (m_nodes M)) /\
  exists text, python_case Nat.eqb M "Strategy" "2026" 0 = Ok text /\ initial_state text = None /\ forall args st, move text args st = None.
Proof.
  exists (PMachine [0] (fun _ => [(0, [("y", LInt 1)])]) ["x"] ["y"]). split.
  - cbn. intros u w d [I|[]]. inversion I. auto.
  - eexists. split; [vm_compute; reflexivity|]. split; [vm_compute; reflexivity|]. intros. vm_compute. reflexivity.
Qed.
Print Assumptions python_case_unlabeled_refuted.
(** Neither is it with a quote in a string value. *)
Theorem python_case_quote_refuted : exists M : pmachine nat,
  exists text, python_case Nat.eqb M "Strategy" "2026" 0 = Ok text /\ initial_state text = None.
Proof.
  exists (PMachine [0] (fun _ => [(0, [("x", LInt 1); ("y", LStr "don't")])]) ["x"] ["y"]).
  eexists. split; [vm_compute; reflexivity|]. vm_compute. reflexivity.
Qed.
Print Assumptions python_case_quote_refuted.
(** An input named [output] or [dict] has no value in the calls, although its edge fires. *)
Theorem python_case_names_refuted : forall n, In n ["output"; "dict"] -> exists M : pmachine nat, m_inputs M = [n] /\
  exists text, python_case Nat.eqb M "Strategy" "2026" 0 = Ok text /\ parameters "move" text = Some [n] /\
    first_edge M (fun _ => PZ 1) (m_out M 0) 0 [(n, LInt 1)] /\ move text (fun _ => Some (PZ 1)) (PZ 0) = None.
Proof.
  intros n I. exists (PMachine [0] (fun _ => [(0, [(n, LInt 1)])]) [n] []). split; [reflexivity|].
  destruct I as [<-|[<-|[]]]; (eexists; split; [vm_compute; reflexivity|]; split; [vm_compute; reflexivity|]; split;
    [constructor; intros k v [E|[]] _; inversion E; reflexivity|vm_compute; reflexivity]).
Qed.
Print Assumptions python_case_names_refuted.
