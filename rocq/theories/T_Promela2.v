(** The export of transition systems to Promela, continued: systems whose text is not the program that it is to be. *)
From Coq Require Import List String Ascii Bool Arith ZArith Lia.
From Verif Require Import M_Tree M_Base M_Gr1c M_Dict M_Graph M_Machine M_Fts S_LTL S_Python L_Python M_Promela S_Promela L_Promela T_Promela.
Import ListNotations.
Open Scope string_scope.
Open Scope list_scope.
Open Scope nat_scope.

(** * A system that is exported *)
Definition node (n : string) (l : list string) : obj * attrs pv := (OStr n, [("ap", PvSet l)]).
Definition plain_edge (u v : string) : edge obj pv := Edge (OStr u) (OStr v) 0 [].
Definition lamp : fts := FTS [OStr "p"] (Graph [node "s0" ["p"]; node "s1" []] [plain_edge "s0" "s1"; plain_edge "s1" "s0"; plain_edge "s1" "s1"] [OStr "s0"]).
Lemma name_by s : word s -> mem s keywords = false -> promela_name s.
Proof. intros W M. split; [exact W|]. intro I. apply mem_In in I. congruence. Qed.
Ltac name := apply name_by; [split; reflexivity|reflexivity].
Example lamp_exportable : exportable lamp.
Proof.
  constructor; cbn.
  - intros n a [[= <- <-]|[[= <- <-]|[]]]; [exists "s0", ["p"]|exists "s1", []]; (split; [reflexivity|split; [name|reflexivity]]).
  - repeat constructor; cbn; intuition discriminate.
  - intros p [<-|[]]. exists "p". split; [reflexivity|name].
  - repeat constructor; cbn; intuition discriminate.
  - intros e [<-|[<-|[<-|[]]]]; (split; [reflexivity|cbn; auto]).
  - intros n [<-|[<-|[]]]; [exists (plain_edge "s0" "s1")|exists (plain_edge "s1" "s0")]; cbn; auto.
  - split; [discriminate|]. intros n [<-|[]]. auto.
Qed.
Definition no_dict (d : attrs pv) : string := "{...}".
Definition today : string := "11/16/26 18:00:00 +0000".
Example lamp_program : exists t p, fts2promela no_dict today "" lamp (fts_config [OStr "p"]) (Some "lamp") = Ok t /\ program_text t p /\ exec p ["s0"; "s1"; "s0"] (after [Set_ "p" false; Set_ "p" true] (fun _ => false)) ["{}\n"; "State: s1\n"; "{}\n"; "State: s0\n"].
Proof.
  assert (NS : no_star today) by (intro I; cbn in I; repeat (destruct I as [I|I]; [discriminate|]); destruct I).
  destruct (text_tokens no_dict today "" lamp lamp_exportable (fts_config [OStr "p"]) "lamp" NS) as (t & T & K); [split; reflexivity|].
  exists t, (program_of lamp "lamp"). split; [exact T|]. split; [split; [exact K|apply the_program_ok; [exact lamp_exportable|name]]|].
  assert (X0 : exec (program_of lamp "lamp") ["s0"] (fun _ => false) []) by (apply ex_start; left; reflexivity).
  assert (X1 := ex_step _ "s0" [] _ _ _ (branch_of lamp (plain_edge "s0" "s1")) X0 (or_introl eq_refl) (or_introl eq_refl)).
  exact (ex_step _ "s1" _ _ _ _ (branch_of lamp (plain_edge "s1" "s0")) X1 (or_intror (or_introl eq_refl)) (or_introl eq_refl)).
Qed.
(** * What a program looks like *)
Definition quiet (t : ptok) : bool := match t with TId x => negb (mem x ["if"; "goto"; "proctype"]) | _ => true end.
(** Options follow "if", a name that ends the branch follows "goto", a name follows "proctype". *)
Fixpoint fits (l : list ptok) : bool :=
  match l with
  | [] => true
  | t :: r =>
      (match t with
       | TId x =>
           if (x =? "if")%string then match r with TSep :: _ => true | _ => false end
           else if (x =? "goto")%string then match r with
                                      | TId _ :: TSep :: _ => true
                                      | TId _ :: TP c :: _ => Ascii.eqb c "}"
                                      | TId _ :: TId y :: _ => (y =? "fi")%string
                                      | _ => false
                                      end
           else if (x =? "proctype")%string then match r with TId _ :: _ => true | _ => false end
           else true
       | _ => true
       end) && fits r
  end.
Lemma fits_quiet a r : forallb quiet a = true -> fits (a ++ r) = fits r.
Proof.
  induction a as [|t a IH]; intro Q; [reflexivity|]. cbn [forallb] in Q. apply andb_true_iff in Q. destruct Q as [Q1 Q2]. cbn [app fits]. rewrite (IH Q2). destruct t as [x| | | |]; try reflexivity.
  unfold quiet, mem in Q1. cbn [existsb] in Q1. apply negb_true_iff in Q1. apply orb_false_iff in Q1. destruct Q1 as [A Q1]. apply orb_false_iff in Q1. destruct Q1 as [B Q1]. apply orb_false_iff in Q1. destruct Q1 as [C _].
  rewrite A, B, C. reflexivity.
Qed.
Lemma name_quiet x : promela_name x -> quiet (TId x) = true.
Proof.
  intros [_ N]. unfold quiet. destruct (mem x ["if"; "goto"; "proctype"]) eqn:M; [|reflexivity]. apply mem_In in M. destruct N. cbn in M. unfold keywords. cbn [In]. destruct M as [<-|[<-|[<-|[]]]]; tauto.
Qed.
Lemma flat_quiet {A} (f : A -> list ptok) l : (forall x, In x l -> forallb quiet (f x) = true) -> forallb quiet (flat_map f l) = true.
Proof. induction l as [|x l IH]; intro H; [reflexivity|]. cbn [flat_map]. rewrite forallb_app, (H x (or_introl eq_refl)). apply IH. intros y I. apply H. right. exact I. Qed.
Lemma fits_init l r : (forall s, In s l -> promela_name s) -> fits (flat_map (fun s => [TSep; TId "goto"; TId s]) l ++ TId "fi" :: r) = fits r.
Proof.
  induction l as [|s l IH]; intro N; [reflexivity|]. cbn [flat_map app]. cbn [fits]. change ("goto" =? "if")%string with false. change ("goto" =? "goto")%string with true. cbv iota.
  assert (IH' := IH (fun s' I => N s' (or_intror I))). assert (Q := fits_quiet [TId s] (flat_map (fun s => [TSep; TId "goto"; TId s]) l ++ TId "fi" :: r)). cbn [forallb app] in Q.
  rewrite (name_quiet s (N s (or_introl eq_refl))) in Q. specialize (Q eq_refl). cbn [fits] in Q. rewrite Q, IH'. destruct l as [|s' l]; reflexivity.
Qed.
Lemma fits_branches bs r : (forall b, In b bs -> promela_name (b_goto b) /\ forall x v, In (Set_ x v) (b_stmts b) -> promela_name x) -> fits (flat_map branch_tokens bs ++ r) = fits r.
Proof.
  induction bs as [|b bs IH]; intro N; [reflexivity|]. cbn [flat_map]. rewrite <- app_assoc. destruct (N b (or_introl eq_refl)) as [NG NX]. unfold branch_tokens at 1. rewrite <- !app_assoc.
  rewrite (fits_quiet [TSep; TId "atomic"; TP "{"]) by reflexivity. rewrite fits_quiet.
  - cbn [app fits]. change ("goto" =? "if")%string with false. change ("goto" =? "goto")%string with true. cbv iota.
    assert (Q := fits_quiet [TId (b_goto b); TP "}"] (flat_map branch_tokens bs ++ r)). cbn [forallb app] in Q. rewrite (name_quiet _ NG) in Q. specialize (Q eq_refl). cbn [fits] in Q. rewrite Q.
    apply IH. intros b' I. apply N. right. exact I.
  - apply flat_quiet. intros [t|x v] I; [reflexivity|]. cbn [stmt_tokens forallb]. rewrite (name_quiet x (NX x v I)). reflexivity.
Qed.
Lemma program_fits p : program_ok p -> fits (program_tokens p) = true.
Proof.
  intros [V VO N L LO [I1 I2] G S]. assert (LN : forall s, In s (map fst (p_labels p)) -> promela_name s) by (intros s I; apply in_map_iff in I; destruct I as (l & <- & I); apply (L l I)).
  unfold program_tokens. rewrite fits_quiet by (apply flat_quiet; intros x I; cbn [forallb]; rewrite (name_quiet x (V x I)); reflexivity).
  assert (LAB : forall ls r, (forall l, In l ls -> In l (p_labels p)) -> fits (flat_map label_tokens ls ++ r) = fits r).
  { induction ls as [|l ls IH]; intros r I; [reflexivity|]. cbn [flat_map]. rewrite <- app_assoc. assert (IL := I l (or_introl eq_refl)). destruct (L l IL) as [NL NE].
    unfold label_tokens at 1. rewrite <- !app_assoc.
    cbn [app].
    match goal with |- fits (?a :: ?b :: ?q) = _ => change (fits ([a; b] ++ q) = fits r) end. rewrite (fits_quiet [TId (fst l); TP ":"]) by (cbn [forallb]; rewrite (name_quiet _ NL); reflexivity).
    assert (B : fits (flat_map branch_tokens (snd l) ++ TId "fi" :: TP ";" :: flat_map label_tokens ls ++ r) = fits r).
    { rewrite fits_branches; [change (fits ([TId "fi"; TP ";"] ++ (flat_map label_tokens ls ++ r)) = fits r); rewrite fits_quiet by reflexivity; apply IH; intros l' J; apply I; right; exact J|]. intros b J. split; [apply LN, (G l b IL J)|]. intros x v K. apply V, (S l b x v IL J K). }
    cbn [fits]. change ("if" =? "if")%string with true. cbv iota. rewrite B. destruct (snd l) as [|b bs]; [congruence|reflexivity]. }
  cbn [app]. cbn [fits].
  change ("active" =? "if")%string with false. change ("active" =? "goto")%string with false. change ("active" =? "proctype")%string with false.
  change ("proctype" =? "if")%string with false. change ("proctype" =? "goto")%string with false. change ("proctype" =? "proctype")%string with true. change ("if" =? "if")%string with true. cbv iota.
  assert (NQ := name_quiet _ N). assert (Q := fits_quiet [TId (p_name p)] [TSep]). cbn [forallb app] in Q. rewrite NQ in Q. specialize (Q eq_refl). cbn [fits] in Q.
  assert (IN : fits (flat_map (fun s => [TSep; TId "goto"; TId s]) (p_init p) ++ TId "fi" :: TP ";" :: flat_map label_tokens (p_labels p) ++ [TP "}"]) = true).
  { rewrite fits_init by (intros s I; apply LN, I2, I). cbn [fits andb]. rewrite LAB by auto. reflexivity. }
  rewrite IN. destruct (p_init p) as [|s0 ss]; [congruence|]. cbn [flat_map app andb].
  assert (X : (p_name p =? "if")%string = false /\ (p_name p =? "goto")%string = false /\ (p_name p =? "proctype")%string = false).
  { unfold quiet, mem in NQ. cbn [existsb] in NQ. apply negb_true_iff in NQ. apply orb_false_iff in NQ. destruct NQ as [A NQ]. apply orb_false_iff in NQ. destruct NQ as [B NQ]. apply orb_false_iff in NQ. tauto. }
  destruct X as (A & B & C). rewrite A, B, C. reflexivity.
Qed.
Lemma no_program t : fits (promela_tokens t) = false -> ~ exists p, program_text t p.
Proof. intros F (p & T & O). rewrite T, (program_fits p O) in F. discriminate. Qed.
(** * Refuted *)
(** The export that is meant: for each system there is a text, a program whose executions are the paths and show the labels. *)
Definition exports (t : string) (ts : fts) : Prop :=
  exists p, program_text t p /\ (forall h v o, exec p h v o -> path ts h) /\ (forall h, path ts h -> exists v o, exec p h v o).
(** At the first state the variables are false, whatever its label. *)
Theorem first_label_refuted : exists ts t p s x, exportable ts /\ fts2promela no_dict today "" ts (fts_config (f_ap ts)) (Some "lamp") = Ok t /\ program_text t p /\
  path ts [s] /\ In (OStr x) (f_ap ts) /\ has_label ts s x /\ forall v o, exec p [s] v o -> v x = false.
Proof.
  destruct (promela_export no_dict today "" lamp (fts_config [OStr "p"]) "lamp" lamp_exportable) as (t & p & T & P & _ & _ & X & _); [intro I; cbn in I; repeat (destruct I as [I|I]; [discriminate|]); destruct I|name|].
  exists lamp, t, p, "s0", "p". split; [exact lamp_exportable|]. split; [exact T|]. split; [exact P|]. split; [apply pa_start; left; reflexivity|]. split; [left; reflexivity|].
  split; [eexists; eexists; split; [left; reflexivity|split; [reflexivity|left; reflexivity]]|]. intros v o E. destruct (X _ _ _ E) as (_ & V & _).
  destruct (v "p") eqn:Q; [|reflexivity]. apply V in Q. destruct Q as (? & ? & ? & D & _). discriminate.
Qed.
(** Transitions with labels are left out. *)
Definition acting (v : pv) : bool := pv_eqb v (PvStr "go").
Definition go_config : config pv := Config [("ap", Some (in_powerset []))] [("ap", PvSet [])] [("env_actions", Some (fun _ => false)); ("sys_actions", Some acting)] [].
Definition goer : fts := FTS [] (Graph [node "s0" []; node "s1" []] [plain_edge "s0" "s0"; Edge (OStr "s0") (OStr "s1") 0 [("sys_actions", PvStr "go")]; plain_edge "s1" "s0"] [OStr "s0"]).
Fixpoint no_goto (s : string) (l : list ptok) : bool :=
  match l with
  | TId x :: r => negb ((x =? "goto")%string && match r with TId y :: _ => (y =? s)%string | _ => false end) && no_goto s r
  | _ :: r => no_goto s r
  | [] => true
  end.
Lemma no_goto_app s a z : no_goto s (a ++ TId "goto" :: TId s :: z) = false.
Proof.
  induction a as [|t a IH]; cbn [app no_goto]; [rewrite !String.eqb_refl; reflexivity|]. destruct t; try exact IH. rewrite IH, andb_false_r. reflexivity.
Qed.
Lemma goto_in p l b : In l (p_labels p) -> In b (snd l) -> exists a z, program_tokens p = a ++ TId "goto" :: TId (b_goto b) :: z.
Proof.
  intros I J. apply in_split in I. destruct I as (l1 & l2 & I). apply in_split in J. destruct J as (b1 & b2 & J). unfold program_tokens. rewrite I, flat_map_app. cbn [flat_map]. unfold label_tokens at 2. rewrite J, flat_map_app. cbn [flat_map].
  unfold branch_tokens at 2. repeat rewrite <- app_assoc. 
  match goal with |- exists a z, ?A ++ ?B ++ ?C ++ ?D ++ ?E ++ ?F ++ ?G ++ ?H ++ ?K ++ [TId "goto"; TId _; _] ++ ?Z = _ => exists (A ++ B ++ C ++ D ++ E ++ F ++ G ++ H ++ K), (TP "}" :: Z) end.
  repeat rewrite <- app_assoc. reflexivity.
Qed.
Theorem labelled_transitions_refuted : exists t, fts2promela no_dict today "" goer go_config (Some "goer") = Ok t /\ path goer ["s1"; "s0"] /\
  (exists p, program_text t p) /\ (forall p, program_text t p -> forall v o, ~ exec p ["s1"; "s0"] v o) /\ ~ exports t goer.
Proof.
  eexists. split; [vm_compute; reflexivity|].
  match goal with |- _ /\ (exists p, program_text ?t p) /\ _ => set (text := t) end.
  assert (PA : path goer ["s1"; "s0"]) by (apply (pa_step goer "s0" "s1" [] (Edge (OStr "s0") (OStr "s1") 0 [("sys_actions", PvStr "go")])); [apply pa_start; left; reflexivity|cbn; auto|reflexivity|reflexivity]).
  assert (NO : forall p, program_text text p -> forall v o, ~ exec p ["s1"; "s0"] v o).
  { intros p [T _] v o X. inversion X as [|u h v' o' bs b X' I J Q]. destruct (goto_in p _ b I J) as (a & z & Z). rewrite Q in Z.
    assert (K : no_goto "s1" (promela_tokens text) = true) by (vm_compute; reflexivity). rewrite T, Z, no_goto_app in K. discriminate. }
  split; [exact PA|]. split; [|split; [exact NO|]].
  - set (small := FTS [] (Graph [node "s0" []; node "s1" []] [plain_edge "s0" "s0"; plain_edge "s1" "s0"] [OStr "s0"])). exists (program_of small "goer"). split; [vm_compute; reflexivity|]. apply the_program_ok; [|name].
    constructor; cbn.
    + intros n a [[= <- <-]|[[= <- <-]|[]]]; [exists "s0", []|exists "s1", []]; (split; [reflexivity|split; [name|reflexivity]]).
    + repeat constructor; cbn; intuition discriminate.
    + intros p [].
    + constructor.
    + intros e [<-|[<-|[]]]; (split; [reflexivity|cbn; auto]).
    + intros n [<-|[<-|[]]]; [exists (plain_edge "s0" "s0")|exists (plain_edge "s1" "s0")]; cbn; auto.
    + split; [discriminate|]. intros n [<-|[]]. auto.
  - intros (p & T & _ & R). destruct (R _ PA) as (v & o & X). exact (NO p T v o X).
Qed.
(** A state without successor gives a list of options that is empty, numbers as states and states with blanks in their
    names give no labels, and a system without a name gives a process without one: the text is not a program. *)
Definition stuck : fts := FTS [] (Graph [node "s0" []] [] [OStr "s0"]).
Definition numbered : fts := FTS [] (Graph [(OInt 0, [("ap", PvSet [])])] [Edge (OInt 0) (OInt 0) 0 []] [OInt 0]).
Definition spaced : fts := FTS [] (Graph [node "my room" []] [plain_edge "my room" "my room"] [OStr "my room"]).
Theorem no_program_refuted :
  (exists t, fts2promela no_dict today "" stuck (fts_config []) (Some "stuck") = Ok t /\ ~ exists p, program_text t p) /\
  (exists t, fts2promela no_dict today "" numbered (fts_config []) (Some "numbered") = Ok t /\ ~ exists p, program_text t p) /\
  (exists t, fts2promela no_dict today "" spaced (fts_config []) (Some "spaced") = Ok t /\ ~ exists p, program_text t p) /\
  (exists t, fts2promela no_dict today "" lamp (fts_config [OStr "p"]) None = Ok t /\ ~ exists p, program_text t p).
Proof. repeat split; (eexists; split; [vm_compute; reflexivity|apply no_program; vm_compute; reflexivity]). Qed.
(** The method that is to write the text to a file raises an exception for each of its formats. *)
Theorem save_promela_refuted f : (In f ["promela"; "Promela"; "pml"] -> save f = Err "AttributeError") /\ (~ In f ["promela"; "Promela"; "pml"] -> save f = Ok false).
Proof.
  unfold save. destruct (mem f ["promela"; "Promela"; "pml"]) eqn:M; split; intro H; try reflexivity.
  - apply mem_In in M. contradiction.
  - apply mem_In in H. congruence.
Qed.
Print Assumptions first_label_refuted.
Print Assumptions labelled_transitions_refuted.
Print Assumptions no_program_refuted.
Print Assumptions save_promela_refuted.
