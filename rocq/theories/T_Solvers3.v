(** C69, concluded: machines from omega and from gr1c, a concrete case, and findings. *)
From Coq Require Import List String Bool ZArith Arith Lia.
From Verif Require Import M_Dict L_Dict M_Graph M_Machine S_Run L_Machine M_Strategy S_Strategy T_Strategy.
From Verif Require Import M_Base M_Ast M_Lexer M_Parser M_Spec S_LTL S_Gr1 S_Form S_Syntax S_Tree S_Python M_Form M_Tree L_Lexer L_Gr1 L_Form L_Encode T_Encode.
From Verif Require Import M_Gr1c S_Gr1c T_Gr1c M_Synth S_Synth M_Synthesize S_Synthesize L_Synthesize T_Synthesize T_Synthesize2 M_Solvers S_Solvers T_Solvers T_Solvers2.
Import ListNotations.
Open Scope string_scope.
Open Scope list_scope.
Open Scope nat_scope.

(** ** From the user's specification to the machine *)
(** What the machine is to do: guarantee what the user asks for and execute the system, as long
    as the assumptions hold. *)
Definition controls {N} (specs r : grspec) (env sys : option ts) (ie is : bool) (P Q : part) (m : machine N mval) : Prop :=
  forall w, machine_runs m w ->
    (exists s, trace_of (env_vars r) (sys_vars r) w s) /\
    forall s, trace_of (env_vars r) (sys_vars r) w s ->
      (forall t, sys = Some t -> is = true -> located (ts_fts t) false (sys_var t) s) ->
      sat_part s P ->
      (forall t, sys = Some t -> sys_allows (ts_fts t) false false (sys_var t) s) ->
      (forall t, env = Some t -> env_behaves (ts_fts t) ie false false (env_var t) s) ->
      (qinit specs = all_all ->
         (forall t, sys = Some t -> sys_starts (ts_fts t) is false false (sys_var t) s) /\
         (forall t, env = Some t -> sys_counts (ts_fts t) false (s 0))) ->
      sat_part s Q /\
      (forall t, sys = Some t -> sys_executes (ts_fts t) is false false (sys_var t) s) /\
      (forall t, env = Some t -> forall i, sys_counts (ts_fts t) false (s i)).

Section Machines.
  Context {N : Type} (neqb : N -> N -> bool).
  Hypothesis neqb_eq : forall a b, neqb a b = true <-> a = b.
  Context (sinit : N) (isinit : grspec -> attrs Z -> res bool).
  Hypothesis isinit_ext : forall g d d', same_items d d' -> isinit g d = isinit g d'.
  Context (gr1c slugs gr1py omega : grspec -> res (option (@strategy N))) (slugs_imported : bool).

  Theorem synthesize_with_omega : forall solve is_false,
    omega = omega_synthesize solve is_false ->
    (forall a h, solve a = Some h -> omega_answer a h) ->
    forall specs env sys ie is rm m P Q r,
    synthesize neqb sinit isinit gr1c slugs gr1py omega slugs_imported specs env sys ie is rm "omega" = Ok (Some m) ->
    spec_plus_sys specs env sys ie is = Ok r ->
    good_domains r ->
    (forall x t, In x (clauses r) -> parse x = Some t -> typed (spec_enums r) t) ->
    NoDup (map fst (env_vars specs)) -> NoDup (map fst (sys_vars specs)) ->
    (forall k, In k (map fst (env_vars r)) -> ~ In k (map fst (sys_vars r))) ->
    (forall k, In k (map fst (env_vars r)) \/ In k (map fst (sys_vars r)) -> ~ In k T_Strategy.reserved) ->
    (forall t, sys = Some t -> good_fts (ts_fts t) /\ S_Gr1.ident (sys_var t)) ->
    (forall t, env = Some t -> good_env (ts_fts t) /\ S_Gr1.ident (env_var t)) ->
    S_Gr1.env_part specs = Some P -> S_Gr1.sys_part specs = Some Q ->
    controls specs r env sys ie is P Q m.
  Proof.
    intros solve is_false Eo Sol specs env sys ie is rm m P Q r H Hr GD T N1 N2 Dj Res Gs Ge HP HQ w Hw.
    refine (synthesize_correct neqb neqb_eq sinit isinit isinit_ext gr1c slugs gr1py omega slugs_imported specs env sys ie is rm "omega" m P Q r H Hr _ N1 N2 Dj Res Gs Ge HP HQ w Hw).
    intros A HA. change (omega r = Ok (Some A)) in HA. rewrite Eo in HA. apply (omega_solves solve is_false (isinit r) r A HA Sol GD); [|exact T].
    destruct (spec_plus_sys_nodup _ _ _ _ _ _ Hr N1 N2). constructor; auto.
  Qed.
End Machines.

Section Gr1cMachines.
  Context (sinit : string) (isinit : grspec -> attrs Z -> res bool).
  Hypothesis isinit_ext : forall g d d', same_items d d' -> isinit g d = isinit g d'.
  Context (slugs omega : grspec -> res (option (@strategy string))) (slugs_imported : bool).
  (** The tool gr1c and the library gr1py. *)
  Context (tool lib : string -> string -> option jdoc).

  Theorem synthesize_with_gr1c : forall solver, In solver ["gr1c"; "gr1py"] ->
    (forall o text d j, tool o text = Some j \/ lib o text = Some j -> gr_document text = Some d -> gr1c_answer d j) ->
    forall specs env sys ie is rm m P Q r,
    synthesize String.eqb sinit isinit (gr1c_synthesize tool) slugs (gr1c_synthesize lib) omega slugs_imported specs env sys ie is rm solver = Ok (Some m) ->
    spec_plus_sys specs env sys ie is = Ok r ->
    good_domains r -> named (env_vars r) -> named (sys_vars r) ->
    (forall x t, In x (clauses r) -> parse x = Some t -> step_formula (spec_types r) false t /\ typed (spec_enums r) t) ->
    NoDup (map fst (env_vars specs)) -> NoDup (map fst (sys_vars specs)) ->
    (forall k, In k (map fst (env_vars r)) -> ~ In k (map fst (sys_vars r))) ->
    (forall k, In k (map fst (env_vars r)) \/ In k (map fst (sys_vars r)) -> ~ In k T_Strategy.reserved) ->
    (forall t, sys = Some t -> good_fts (ts_fts t) /\ S_Gr1.ident (sys_var t)) ->
    (forall t, env = Some t -> good_env (ts_fts t) /\ S_Gr1.ident (env_var t)) ->
    S_Gr1.env_part specs = Some P -> S_Gr1.sys_part specs = Some Q ->
    controls specs r env sys ie is P Q m.
  Proof.
    intros solver Is Sol specs env sys ie is rm m P Q r H Hr GD Ne Ns T N1 N2 Dj Res Gs Ge HP HQ w Hw.
    refine (synthesize_correct String.eqb String.eqb_eq sinit isinit isinit_ext (gr1c_synthesize tool) slugs (gr1c_synthesize lib) omega slugs_imported specs env sys ie is rm solver m P Q r H Hr _ N1 N2 Dj Res Gs Ge HP HQ w Hw).
    assert (Once : declared_once (env_vars r) (sys_vars r)). { destruct (spec_plus_sys_nodup _ _ _ _ _ _ Hr N1 N2). constructor; auto. }
    intros A HA. destruct Is as [<-|[<-|[]]].
    - apply (gr1c_solves tool (isinit r) r A HA); auto. intros o text d j K. apply (Sol o text d j (or_introl K)).
    - apply (gr1c_solves lib (isinit r) r A HA); auto. intros o text d j K. apply (Sol o text d j (or_intror K)).
  Qed.
End Gr1cMachines.
Print Assumptions synthesize_with_omega.
Print Assumptions synthesize_with_gr1c.

(** ** A concrete case *)
(** The switch of [T_Synthesize2], with the automaton that omega is given, the document that
    gr1c is given, and answers of both. *)
Definition sw_aut : automaton := Eval vm_compute in
  match to_automaton sw_spec with Ok a => a | Err _ => Automaton [] [] [] "" "" "" "" [] [] false false "" end.
Lemma sw_aut_ok : to_automaton sw_spec = Ok sw_aut.
Proof. vm_compute. reflexivity. Qed.
Definition sw_doc : gr_doc := Eval vm_compute in
  match to_gr1c sw_spec with Ok t => match gr_document t with Some d => d | None => mkdoc [] [] [] [] [] [] [] [] end | Err _ => mkdoc [] [] [] [] [] [] [] [] end.
Definition sw_text : string := Eval vm_compute in match to_gr1c sw_spec with Ok t => t | Err _ => "" end.
Lemma sw_text_ok : to_gr1c sw_spec = Ok sw_text /\ gr_document sw_text = Some sw_doc.
Proof. split; vm_compute; reflexivity. Qed.
(** omega adds a variable for the goal it pursues. *)
Definition sw_graph : @ograph nat :=
  OGraph (map (fun nd => (fst nd, ("_goal", 0%Z) :: snd nd)) (st_nodes sw_strategy)) (st_edges sw_strategy) [0; 1].
Definition sw_json : jdoc :=
  JDoc 1 ["x"] ["p"; "loc"]
    [("0", JNode (Some true) [0; 0; 0]%Z ["2"; "3"]); ("1", JNode (Some true) [1; 0; 0]%Z ["2"; "3"]);
     ("2", JNode (Some false) [0; 1; 1]%Z ["0"; "1"]); ("3", JNode (Some false) [1; 1; 1]%Z ["0"; "1"])].

Lemma sw_domains : good_domains sw_spec.
Proof.
  split; [cbn; repeat constructor; cbn; intuition discriminate|]. split; [cbn; repeat constructor; cbn; intuition discriminate|].
  intros x l. unfold spec_enums. cbn [sys_vars env_vars sw_spec find fst snd].
  repeat match goal with |- context[(?a =? x)%string] => destruct (a =? x)%string end; intro E; inversion E; repeat constructor; cbn; intuition discriminate.
Qed.
Lemma sw_clauses x t : In x (clauses sw_spec) -> parse x = Some t -> step_formula (spec_types sw_spec) false t /\ typed (spec_enums sw_spec) t.
Proof.
  assert (SC : forall b c, In c ["s0"; "s1"] -> step_formula (spec_types sw_spec) b (NCmp "=" (NVar "loc") (NStr c)) /\ typed (spec_enums sw_spec) (NCmp "=" (NVar "loc") (NStr c))).
  { intros b c I. split; [eapply sf_eq; [cbn; auto|apply st_var; reflexivity|apply st_str]|].
    apply ty_cmp; [cbn; auto|]. eapply sc_const_r; [constructor|constructor|reflexivity|exact I]. }
  intros I P. cbn in I. repeat (destruct I as [<-|I]; [vm_compute in P; injection P as <-;
    (split; repeat first [apply (SC false); solve [cbn; auto]|apply (SC true); solve [cbn; auto]|apply sf_bin; [cbn; solve [auto]| |]|apply sf_not|apply sf_next|apply sf_var; reflexivity|apply ty_bin|apply ty_un|apply ty_var])|]).
  destruct I.
Qed.
(** A trace with the values along the paths meets the specification. *)
Lemma sw_trace (s' : trace) (b : nat -> bool) Q : S_Gr1.sys_part sw_spec = Some Q ->
  (forall i, s' i "x" = VB (b i) /\ s' i "loc" = VZ (if Nat.even i then 0 else 1)%Z /\ s' i "p" = VB (negb (Nat.even i))) ->
  exists s, encoded (spec_enums sw_spec) s s' /\ (forall i, respects (spec_types sw_spec) (s i)) /\ sat_part s Q.
Proof.
  intros HQ V. set (s := (fun i x => if (x =? "loc")%string then VS (if Nat.even i then "s0" else "s1") else s' i x) : trace). exists s. split; [|split].
  - intros i x. unfold spec_enums. cbn [sys_vars env_vars sw_spec find fst snd]. rewrite !(String.eqb_sym _ x). unfold s.
    destruct (x =? "loc")%string eqn:E.
    + apply String.eqb_eq in E. subst x. cbn. destruct (V i) as (_ & -> & _).
      destruct (Nat.even i); [exists "s0", 0|exists "s1", 1]; repeat split; reflexivity.
    + destruct (x =? "p")%string; [reflexivity|]. destruct (x =? "x")%string; reflexivity.
  - intros i x k. unfold spec_types. cbn [sys_vars env_vars sw_spec find fst snd]. rewrite !(String.eqb_sym _ x). unfold s. destruct (V i) as (V1 & V2 & V3).
    destruct (x =? "p")%string eqn:E1; [apply String.eqb_eq in E1; subst x; intros [= <-]; cbn; eauto|].
    destruct (x =? "loc")%string eqn:E2; [intros [= <-]; cbn; eauto|].
    destruct (x =? "x")%string eqn:E3; [apply String.eqb_eq in E3; subst x; intros [= <-]; cbn; eauto|discriminate].
  - set (n := fun i => (if Nat.even i then 0 else 2) + (if b i then 1 else 0)).
    set (w := fun i => ([("x", VInt (if b i then 1 else 0))], [("p", VInt (if Nat.even i then 0 else 1)); ("loc", VStr (if Nat.even i then "s0" else "s1"))]) : attrs mval * attrs mval).
    apply (sw_meets Q w s HQ).
    + exists n. split; [unfold n; cbn; destruct (b 0); auto|]. split.
      * intro i. unfold n. rewrite Nat.even_succ, <- Nat.negb_even. destruct (Nat.even i), (b i), (b (S i)); cbn; auto 12.
      * intro i. exists [("x", if b i then 1 else 0); ("loc", if Nat.even i then 0 else 1); ("p", if Nat.even i then 0 else 1)]%Z. split; [|split].
        -- unfold n. destruct (Nat.even i), (b i); cbn; auto 8.
        -- intros k v. cbn. destruct (k =? "x")%string; [|split; [discriminate|intros (dm & z & K & _); discriminate]].
           split; [intros [= <-]; eexists _, _; repeat split|]. intros (dm & z & [= <-] & [= <-] & St). cbn in St. rewrite St. reflexivity.
        -- intros k v. cbn. destruct (k =? "p")%string eqn:E1.
           { apply String.eqb_eq in E1. subst k. cbn. split; [intros [= <-]; eexists _, _; repeat split|]. intros (dm & z & [= <-] & [= <-] & St). cbn in St. rewrite St. reflexivity. }
           destruct (k =? "loc")%string eqn:E2; [|split; [discriminate|intros (dm & z & K & _); discriminate]].
           apply String.eqb_eq in E2. subst k. cbn. split.
           ++ intros [= <-]. eexists _, _. split; [reflexivity|]. split; [reflexivity|]. destruct (Nat.even i); [exists 0, "s0"|exists 1, "s1"]; auto.
           ++ intros (dm & z & [= <-] & [= <-] & (k & a & E & K & ->)). destruct (Nat.even i).
              ** destruct k; [|lia]. cbn in K. injection K as <-. reflexivity.
              ** destruct k as [|[|k]]; [lia| |lia]. cbn in K. injection K as <-. reflexivity.
    + intros i k d. destruct (V i) as (V1 & V2 & V3). split.
      * cbn. destruct (k =? "x")%string eqn:E; [|discriminate]. apply String.eqb_eq in E. subst k. intros [= <-]. eexists. split; [reflexivity|]. cbn. unfold s. cbn. rewrite V1. destruct (b i); reflexivity.
      * cbn. destruct (k =? "p")%string eqn:E1.
        { apply String.eqb_eq in E1. subst k. intros [= <-]. eexists. split; [reflexivity|]. unfold s. cbn. rewrite V3. destruct (Nat.even i); reflexivity. }
        destruct (k =? "loc")%string eqn:E2; [|discriminate]. apply String.eqb_eq in E2. subst k. intros [= <-]. eexists. split; [reflexivity|]. reflexivity.
Qed.
Lemma sw_parts : exists P Q, S_Gr1.env_part sw_spec = Some P /\ S_Gr1.sys_part sw_spec = Some Q.
Proof. eexists _, _. split; vm_compute; reflexivity. Qed.
Lemma sw_omega_answer : omega_answer sw_aut sw_graph.
Proof.
  constructor.
  - cbn. repeat constructor; cbn; lia.
  - cbn. repeat constructor; cbn; intuition congruence.
  - intros u v I. cbn in I |- *. repeat (destruct I as [[= <- <-]|I]; [auto 8|]). destruct I.
  - intros u d I. cbn in I. repeat (destruct I as [[= <- <-]|I]; [repeat constructor; cbn; intuition discriminate|]). destruct I.
  - assert (L : forall x r, lookup x (a_vars sw_aut) = Some r -> x = "x" /\ r = OBool \/ x = "p" /\ r = OBool \/ x = "loc" /\ r = ORange 0 1).
    { intros x r L. cbn in L. destruct (x =? "x")%string eqn:E1; [apply String.eqb_eq in E1; injection L as <-; auto|].
      destruct (x =? "p")%string eqn:E2; [apply String.eqb_eq in E2; injection L as <-; auto|].
      destruct (x =? "loc")%string eqn:E3; [apply String.eqb_eq in E3; injection L as <-; auto|discriminate]. }
    intros u d x r I Lx. apply L in Lx. cbn in I.
    repeat (destruct I as [[= <- <-]|I]; [destruct Lx as [[-> ->]|[[-> ->]|[-> ->]]]; cbn; (eexists; split; [reflexivity|first [lia|exact Logic.I]])|]). destruct I.
  - intros u s U0 Ue Un _. destruct sw_parts as (P & Q & HP & HQ).
    assert (Pu : forall i, (u i <? 2) = Nat.even i /\ u i <= 3).
    { induction i as [|i [IH IH']]; [cbn in U0; destruct U0 as [<-|[<-|[]]]; cbn; lia|].
      specialize (Ue i). rewrite Nat.even_succ, <- Nat.negb_even, <- IH. clear IH IH'. cbn in Ue.
      repeat (destruct Ue as [Ue|Ue]; [injection Ue as <- <-; cbn; lia|]). destruct Ue. }
    destruct (sw_trace s (fun i => Nat.odd (u i)) Q HQ) as (s0 & En & _ & Sat).
    + intro i. destruct (Pu i) as [P1 _]. destruct (Un i) as (d & I & K). rewrite <- P1.
      destruct (K "x" OBool eq_refl) as (z1 & L1 & ->). destruct (K "loc" (ORange 0 1) eq_refl) as (z2 & L2 & ->). destruct (K "p" OBool eq_refl) as (z3 & L3 & ->).
      clear - I L1 L2 L3. cbn in I. repeat (destruct I as [I|I]; [injection I as E <-; rewrite <- E; cbn in L1, L2, L3; injection L1 as <-; injection L2 as <-; injection L3 as <-; repeat split; reflexivity|]). destruct I.
    + apply (automaton_meaning sw_spec sw_aut P Q sw_aut_ok sw_domains (fun x t I K => proj2 (sw_clauses x t I K)) HP HQ s0 s En). exact Sat.
Qed.
Lemma sw_gr1c_answer : gr1c_answer sw_doc sw_json.
Proof.
  constructor.
  - reflexivity.
  - reflexivity.
  - cbn. repeat constructor; cbn; intuition discriminate.
  - intros u n v I J. cbn in I |- *. repeat (destruct I as [[= <- <-]|I]; [cbn in J; repeat (destruct J as [<-|J]; [auto 8|]); destruct J|]). destruct I.
  - intros u n k x r I K. cbn in I.
    repeat (destruct I as [[= <- <-]|I]; [destruct k as [|[|[|k]]]; cbn in K; [..|destruct k; discriminate K]; injection K as <- <-; (eexists; split; [reflexivity|cbn; first [lia|exact Logic.I]])|]). destruct I.
  - intros u s (n0 & I0 & J0) Un _. destruct sw_parts as (P & Q & HP & HQ).
    assert (Pu : forall i, ((u i =? "0")%string || (u i =? "1")%string) = Nat.even i).
    { assert (F : (u 0 =? "0")%string || (u 0 =? "1")%string = true).
      { cbn in I0. repeat (destruct I0 as [I0|I0]; [injection I0 as <- <-; first [reflexivity|discriminate J0]|]). destruct I0. }
      induction i as [|i IH]; [exact F|]. rewrite Nat.even_succ, <- Nat.negb_even, <- IH. destruct (Un i) as (n & I & T & _). clear - I T.
      cbn in I. repeat (destruct I as [I|I]; [injection I as <- <-; cbn in T; repeat (destruct T as [<-|T]; [reflexivity|]); destruct T|]). destruct I. }
    destruct (sw_trace s (fun i => (u i =? "1")%string || (u i =? "3")%string) Q HQ) as (s0 & En & Rs & Sat).
    + intro i. rewrite <- (Pu i). destruct (Un i) as (n & I & _ & K). clear - I K.
      pose proof (fun z => K 0 "x" OBool z eq_refl) as K1. pose proof (fun z => K 1 "p" OBool z eq_refl) as K2. pose proof (fun z => K 2 "loc" (ORange 0 1) z eq_refl) as K3. clear K.
      cbn in I. repeat (destruct I as [I|I]; [injection I as <- <-; rewrite (K1 _ eq_refl), (K2 _ eq_refl), (K3 _ eq_refl); repeat split; reflexivity|]). destruct I.
    + destruct sw_text_ok as [T1 T2].
      destruct (gr1c_document_meaning sw_spec sw_text T1 sw_domains) as (d & Hd & _ & _ & M); [intros kv [<-|[]]; reflexivity|intros kv [<-|[<-|[]]]; reflexivity|exact sw_clauses|].
      rewrite T2 in Hd. injection Hd as <-. destruct (parts_trees sw_spec P Q HP HQ) as [_ ->]. apply (M s0 s Rs En). exact Sat.
Qed.

(** Oracles that know the switch only. *)
Definition automaton_dec (a b : automaton) : {a = b} + {a <> b}.
Proof. repeat decide equality. Defined.
Definition sw_omega (a : automaton) : option (@ograph nat) := if automaton_dec a sw_aut then Some sw_graph else None.
Definition sw_false (a : automaton) (t : string) : bool := match parse t with Some (NBool "False") => true | _ => false end.
Definition sw_tool (o text : string) : option jdoc := if (text =? sw_text)%string then Some sw_json else None.
(** With each of the solvers the hypotheses are met for the switch, and the machines are those
    of the strategies. *)
Example omega_case : exists A m,
  (forall a h, sw_omega a = Some h -> omega_answer a h) /\
  omega_synthesize sw_omega sw_false sw_spec = Ok (Some A) /\
  st_nodes A = st_nodes sw_strategy /\
  synthesize Nat.eqb 4 sw_isinit sw_solver sw_solver sw_solver (omega_synthesize sw_omega sw_false) true
    sw_user None (Some sw_ts) false false true "omega" = Ok (Some m) /\
  List.length (M_Graph.g_edges (m_graph m)) = 10 /\
  good_domains sw_spec /\ (forall x t, In x (clauses sw_spec) -> parse x = Some t -> typed (spec_enums sw_spec) t) /\
  to_automaton sw_spec = Ok sw_aut /\
  a_action_sys sw_aut = "( ( loc = 0 ) -> ( ( X ( loc = 1 ) ) | ( X ( loc = 0 ) ) ) ) & ( ( loc = 1 ) -> ( X ( loc = 0 ) ) ) & ( X ( ( loc = 0 ) -> ( ! p ) ) ) & ( X ( ( loc = 1 ) -> p ) )" /\
  a_persist sw_aut = ["!(x)"].
Proof.
  eexists _, _. split. { intros a h H. unfold sw_omega in H. destruct (automaton_dec a sw_aut) as [->|]; [|discriminate]. injection H as <-. exact sw_omega_answer. }
  split; [vm_compute; reflexivity|]. split; [reflexivity|]. split; [vm_compute; reflexivity|]. split; [reflexivity|].
  split; [exact sw_domains|]. split; [intros x t I K; apply (sw_clauses x t I K)|]. split; [exact sw_aut_ok|]. split; reflexivity.
Qed.
Example gr1c_synthesis_case : exists A m,
  (forall o text d j, sw_tool o text = Some j -> gr_document text = Some d -> gr1c_answer d j) /\
  gr1c_synthesize sw_tool sw_spec = Ok (Some A) /\
  st_init A = Some ["0"; "1"] /\ List.length (st_edges A) = 8 /\
  synthesize String.eqb "Sinit" sw_isinit (gr1c_synthesize sw_tool) (fun _ => Ok None) (gr1c_synthesize sw_tool) (fun _ => Ok None) true
    sw_user None (Some sw_ts) false false true "gr1py" = Ok (Some m) /\
  List.length (M_Graph.g_edges (m_graph m)) = 10 /\
  to_gr1c sw_spec = Ok sw_text /\ named (env_vars sw_spec) /\ named (sys_vars sw_spec) /\
  forall x t, In x (clauses sw_spec) -> parse x = Some t -> step_formula (spec_types sw_spec) false t.
Proof.
  destruct sw_text_ok as [T1 T2]. eexists _, _. split.
  { intros o text d j H D. unfold sw_tool in H. destruct (text =? sw_text)%string eqn:E; [|discriminate]. injection H as <-. apply String.eqb_eq in E. subst text.
    rewrite T2 in D. injection D as <-. exact sw_gr1c_answer. }
  split; [vm_compute; reflexivity|]. split; [reflexivity|]. split; [reflexivity|]. split; [vm_compute; reflexivity|]. split; [reflexivity|].
  split; [exact T1|]. split; [intros kv [<-|[]]; reflexivity|]. split; [intros kv [<-|[<-|[]]]; reflexivity|]. intros x t I K. apply (sw_clauses x t I K).
Qed.

(** ** Findings *)
(** A specification whose safety guarantees are contradictory makes the synthesis with omega fail
    on an assertion, while the question about realizability is answered. *)
Theorem omega_false_action_refuted : exists g, forall N (solve : automaton -> option (@ograph N)) is_false,
  (forall a t, parse t = Some (NBool "False") -> is_false a t = true) ->
  omega_synthesize solve is_false g = Err "AssertionError" /\ exists b, omega_realizable solve g = Ok b.
Proof.
  exists (mkspec [] [("y", DBool)] [] [] [] ["False"] [] [] false false "\A \E"). intros N solve is_false F.
  unfold omega_synthesize, omega_realizable.
  match goal with |- context[to_automaton ?g] => let v := eval vm_compute in (to_automaton g) in replace (to_automaton g) with v by (vm_compute; reflexivity) end.
  cbn [bind a_action_sys]. rewrite F by (vm_compute; reflexivity). split; [reflexivity|eexists; reflexivity].
Qed.
(** An assumption about the next value of a variable of the system is given to omega, although
    the translation for the other solvers rejects it. *)
Theorem omega_unchecked_refuted : exists g a, to_automaton g = Ok a /\ a_action_env a = "( X y )" /\
  In "y" (a_sys a) /\ ~ In "y" (a_env a) /\ to_gr1c g = Err "AssertionError".
Proof.
  exists (mkspec [("x", DBool)] [("y", DBool)] [] [] ["X y"] [] [] [] false false "\A \E"). eexists.
  split; [vm_compute; reflexivity|]. split; [reflexivity|]. split; [cbn; auto|]. split; [cbn; intuition discriminate|]. vm_compute. reflexivity.
Qed.
(** A variable declared for both players is given to both, with the domain of the system. *)
Theorem omega_roles_refuted : exists g a, to_automaton g = Ok a /\ lookup "x" (env_vars g) = Some (DInt 0 7) /\
  In "x" (a_env a) /\ In "x" (a_sys a) /\ a_vars a = [("x", OBool)].
Proof.
  exists (mkspec [("x", DInt 0 7)] [("x", DBool)] [] [] [] [] [] [] false false "\A \E"). eexists.
  split; [vm_compute; reflexivity|]. split; [reflexivity|]. cbn. auto.
Qed.
Print Assumptions omega_false_action_refuted.
Print Assumptions omega_unchecked_refuted.
Print Assumptions omega_roles_refuted.
