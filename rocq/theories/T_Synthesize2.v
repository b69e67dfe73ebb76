(** C68 continued: what solvers accept, the check for realizability, a run of synthesis, and the
    findings. *)
From Coq Require Import List String Bool ZArith Arith Lia.
From Verif Require Import M_Dict L_Dict M_Graph L_Graph M_Machine S_Run L_Build L_Machine T_Convert T_Deadends M_Strategy S_Strategy T_Strategy.
From Verif Require Import M_Base M_Ast M_Parser M_Spec S_LTL S_Gr1 S_Form M_Form L_Form T_Form M_Synth S_Synth M_Synthesize S_Synthesize L_Synthesize T_Synth T_Synthesize.
Import ListNotations.
Open Scope string_scope.
Open Scope list_scope.
Open Scope nat_scope.

Section Realizable.
  Context {N : Type} (neqb : N -> N -> bool) (sinit : N) (isinit : grspec -> attrs Z -> res bool).
  Context (gr1c slugs gr1py omega : grspec -> res (option (@strategy N))) (slugs_imported : bool).
  Context (gr1c_check slugs_check gr1py_check omega_check : grspec -> res bool).
  (** The check of a solver says whether the solver finds a strategy. *)
  Definition agree (check : grspec -> res bool) (solve : grspec -> res (option (@strategy N))) : Prop :=
    forall g b, check g = Ok b -> exists o, solve g = Ok o /\ (b = true <-> o <> None).

  (** If each solver is consistent, then so are the two functions: the answer is negative exactly
      if synthesis returns no machine for the same arguments. *)
  Theorem is_realizable_agrees : forall specs env sys ie is rm solver b,
    agree gr1c_check gr1c -> agree slugs_check slugs -> agree gr1py_check gr1py -> agree omega_check omega ->
    is_realizable slugs_imported gr1c_check slugs_check gr1py_check omega_check specs env sys ie is solver = Ok b ->
    (b = false <-> synthesize neqb sinit isinit gr1c slugs gr1py omega slugs_imported specs env sys ie is rm solver = Ok None).
  Proof.
    intros specs env sys ie is rm solver b A1 A2 A3 A4 H. unfold is_realizable in H. apply bind_Ok in H. destruct H as (r & Hr & H).
    assert (E : forall check solve, agree check solve -> check r = Ok b -> (b = false <-> solve r = Ok None)).
    { intros check solve Ag Hc. destruct (Ag r b Hc) as (o & -> & Iff). destruct b, o; split; try discriminate; try reflexivity.
      - intros _. exfalso. apply (proj1 Iff eq_refl). reflexivity. - intros _. exfalso. assert (false = true) by (apply Iff; discriminate). discriminate. }
    rewrite synthesize_none. rewrite Hr.
    assert (D : forall X : grspec -> Prop, (exists r0, Ok r = Ok r0 /\ X r0) <-> X r) by (intro X; split; [intros (r0 & [= <-] & K); exact K|eauto]).
    rewrite D.
    destruct (String.eqb_spec solver "gr1c"); [subst solver; rewrite (E _ _ A1 H); intuition discriminate|].
    destruct (String.eqb_spec solver "slugs"); [subst solver; destruct slugs_imported; [|discriminate]; rewrite (E _ _ A2 H); intuition discriminate|].
    destruct (String.eqb_spec solver "gr1py"); [subst solver; rewrite (E _ _ A3 H); intuition discriminate|].
    destruct (String.eqb_spec solver "omega"); [subst solver; rewrite (E _ _ A4 H); intuition discriminate|discriminate].
  Qed.
End Realizable.
Print Assumptions is_realizable_agrees.

(** ** What gr1c accepts *)
Lemma plus_sys_init specs env sys ie is r : spec_plus_sys specs env sys ie is = Ok r -> qinit specs = "\A \A" -> sys_init r = sys_init specs.
Proof.
  intros H Eq. unfold spec_plus_sys in H. apply bind_Ok in H. destruct H as (r1 & H1 & H2).
  assert (X : sys_init r1 = sys_init specs /\ qinit r1 = "\A \A").
  { destruct sys as [t|]; [|injection H1 as <-; auto]. apply bind_Ok in H1. destruct H1 as (f & Ef & H1). apply bind_Ok in H1. destruct H1 as (f' & Ec & H1).
    rewrite Eq in H1. cbn in H1. apply or_inv in H1. destruct H1 as (_ & _ & _ & _ & _ & _ & ->). cbn. rewrite app_nil_r. auto. }
  destruct X as [X1 X2]. destruct env as [t|]; [|injection H2 as <-; auto].
  apply bind_Ok in H2. destruct H2 as (f & Ef & H2). apply bind_Ok in H2. destruct H2 as (f' & Ec & H2).
  rewrite X2 in Ec. cbn in Ec. destruct (copy_options_parts _ _ _ _ Ec) as (mo & po & qi & ->).
  apply or_inv in H2. destruct H2 as (_ & _ & _ & _ & _ & _ & ->). cbn. rewrite app_nil_r. exact X1.
Qed.
(** gr1c accepts the specification exactly if it accepts that of the user, unless all initial
    values are quantified existentially: with all of them quantified universally the systems add
    no initial condition on the system. *)
Theorem spec_plus_sys_accepted : forall specs env sys ie is r,
  spec_plus_sys specs env sys ie is = Ok r -> qinit specs <> "\E \E" ->
  select_options r = select_options specs.
Proof.
  intros specs env sys ie is r H Ne. destruct (spec_plus_sys_options _ _ _ _ _ _ H) as [(E1 & E2 & E3) _].
  unfold select_options. rewrite E1, E2, E3. destruct (String.eqb_spec (qinit specs) "\A \A") as [E|_].
  - rewrite (plus_sys_init _ _ _ _ _ _ H E). rewrite E. reflexivity.
  - destruct (String.eqb_spec (qinit specs) "\E \E"); [contradiction|]. reflexivity.
Qed.
(** Which specifications gr1c accepts. *)
Theorem select_options_iff : forall g, (exists o, select_options g = Ok o) <->
  moore g = false /\ plus_one g = false /\
  (qinit g = "\A \E" \/ qinit g = "\A \A" /\ sys_init g = [] \/ qinit g = "\E \E" /\ env_init g = []).
Proof.
  intro g. unfold select_options. destruct (moore g); [split; [intros [o [=]]|intros ([=] & _)]|].
  destruct (plus_one g); [split; [intros [o [=]]|intros (_ & [=] & _)]|].
  destruct (String.eqb_spec (qinit g) "\A \E") as [E|N1]; [split; eauto|].
  destruct (String.eqb_spec (qinit g) "\E \A") as [E|N2]; [rewrite E; split; [intros [o K]; discriminate|intros (_ & _ & K); exfalso; intuition discriminate]|].
  destruct (String.eqb_spec (qinit g) "\A \A") as [E|N3].
  { rewrite E. destruct (sys_init g); (split; [intros [o K]|intros (_ & _ & K)]); try discriminate; eauto 8; exfalso; intuition discriminate. }
  destruct (String.eqb_spec (qinit g) "\E \E") as [E|N4].
  { rewrite E. destruct (env_init g); (split; [intros [o K]|intros (_ & _ & K)]); try discriminate; eauto 8; exfalso; intuition discriminate. }
  split; [intros [o K]; discriminate|]. intros (_ & _ & K). exfalso. intuition.
Qed.
Print Assumptions spec_plus_sys_accepted.
Print Assumptions select_options_iff.

(** ** A run of synthesis *)
Definition sw : fts := {|
  f_nodes := [(SStr "s0", Some []); (SStr "s1", Some ["p"])]; f_initial := [SStr "s0"]; f_aps := ["p"]; f_actions := [];
  f_sys_must := None; f_env_must := None;
  f_trans := [{| e_from := SStr "s0"; e_to := SStr "s1"; e_label := []; e_prev := [] |};
              {| e_from := SStr "s0"; e_to := SStr "s0"; e_label := []; e_prev := [] |};
              {| e_from := SStr "s1"; e_to := SStr "s0"; e_label := []; e_prev := [] |}]; f_owner := "sys" |}.
Lemma sw_good : good_fts sw.
Proof.
  constructor; cbn -[ident].
  - nodup. - intros q I. idents. - intros q I. idents. - nodup. - intros k cod [].
  - intros e I. ins; subst e; (split; [nodup|]); cbn; intros v [].
Qed.
Definition sw_ts : ts := Ts sw None None None None.
(** The user wants [p] again and again, and owns the variable [x] of the environment. *)
Definition sw_user : grspec := mkspec [("x", DBool)] [] [] [] [] [] ["x"] ["p"] false false "\A \E".
Definition sw_strategy : @strategy nat :=
  Strategy [(0, [("x", 0%Z); ("loc", 0%Z); ("p", 0%Z)]); (1, [("x", 1%Z); ("loc", 0%Z); ("p", 0%Z)]);
            (2, [("x", 0%Z); ("loc", 1%Z); ("p", 1%Z)]); (3, [("x", 1%Z); ("loc", 1%Z); ("p", 1%Z)])]
           [(0, 2); (0, 3); (1, 2); (1, 3); (2, 0); (2, 1); (3, 0); (3, 1)] (Some [0; 1]).
Definition sw_spec : grspec :=
  Eval vm_compute in match spec_plus_sys sw_user None (Some sw_ts) false false with Ok r => r | Err _ => sw_user end.
Lemma sw_spec_ok : spec_plus_sys sw_user None (Some sw_ts) false false = Ok sw_spec.
Proof. vm_compute. reflexivity. Qed.
Definition sw_solver : grspec -> res (option (@strategy nat)) := fun _ => Ok (Some sw_strategy).
Definition sw_isinit : grspec -> attrs Z -> res bool := fun _ _ => Ok true.
Lemma sw_form : strategy_form (env_vars sw_spec) (sys_vars sw_spec) sw_strategy.
Proof.
  constructor; cbn.
  - repeat constructor; cbn; lia.
  - repeat constructor; cbn; intuition congruence.
  - intros u v I. repeat (destruct I as [[= <- <-]|I]; [auto 8|]). destruct I.
  - intros u d I. repeat (destruct I as [[= <- <-]|I]; [repeat constructor; cbn; intuition discriminate|]). destruct I.
  - intros u d u' d' k I I' J.
    assert (E : forall d0, (exists u0, (0, [("x", 0%Z); ("loc", 0%Z); ("p", 0%Z)]) = (u0, d0) \/ (1, [("x", 1%Z); ("loc", 0%Z); ("p", 0%Z)]) = (u0, d0) \/
            (2, [("x", 0%Z); ("loc", 1%Z); ("p", 1%Z)]) = (u0, d0) \/ (3, [("x", 1%Z); ("loc", 1%Z); ("p", 1%Z)]) = (u0, d0) \/ False) -> map fst d0 = ["x"; "loc"; "p"]).
    { intros d0 [u0 K]. repeat (destruct K as [[= _ <-]|K]; [reflexivity|]). destruct K. }
    rewrite (E d' (ex_intro _ u' I')), <- (E d (ex_intro _ u I)). exact J.
  - intros u d k z l I L _.
    repeat (destruct I as [[= <- <-]|I]; [cbn in L; repeat (destruct (k =? _)%string; [injection L as <-; lia|]); discriminate L|]). destruct I.
Qed.
(** The values of the location and of the label along a path. *)
Lemma sw_values w s : strategy_runs (env_vars sw_spec) (sys_vars sw_spec) sw_strategy (starts_at (sw_isinit sw_spec) sw_strategy) w ->
  trace_of (env_vars sw_spec) (sys_vars sw_spec) w s ->
  forall i, s i "loc" = VS (if Nat.even i then "s0" else "s1") /\ s i "p" = VB (negb (Nat.even i)).
Proof.
  intros (u & U0 & Ue & Un) Tr.
  assert (Pu : forall i, (u i <? 2) = Nat.even i /\ u i <= 3).
  { induction i as [|i [IH IH']]; [cbn in U0; destruct U0 as [<-|[<-|[]]]; cbn; lia|].
    specialize (Ue i). rewrite Nat.even_succ, <- Nat.negb_even, <- IH. clear IH IH'. cbn in Ue.
    repeat (destruct Ue as [Ue|Ue]; [injection Ue as <- <-; cbn; lia|]). destruct Ue. }
  intro i. destruct (Pu i) as [P1 P2]. destruct (Un i) as (d & J & _ & So). rewrite <- P1. clear P1 Pu Ue.
  destruct (proj2 (Tr i "loc" (DEnum ["s0"; "s1"])) eq_refl) as (v & Lv & Rv).
  destruct (proj2 (Tr i "p" DBool) eq_refl) as (v' & Lv' & Rv').
  apply So in Lv. destruct Lv as (dm & z & Ld & Lz & St). cbn in Ld. injection Ld as <-.
  apply So in Lv'. destruct Lv' as (dm' & z' & Ld' & Lz' & St'). cbn in Ld'. injection Ld' as <-.
  cbn in St, St'. destruct St as (j & a & E1 & E2 & ->). subst v'. cbn in Rv, Rv'. rewrite Rv, Rv'. clear Rv Rv'.
  cbn in J. repeat (destruct J as [J|J]; [injection J as <- <-; cbn in Lz, Lz' |- *; injection Lz as <-; injection Lz' as <-;
    assert (Z.to_nat (Z.of_nat j) = Z.to_nat 0 \/ Z.to_nat (Z.of_nat j) = Z.to_nat 1) as Ej by (rewrite <- E1; auto); rewrite Nat2Z.id in Ej|]); [..|destruct J].
  all: assert (j = 0 \/ j = 1) as K by (cbn in Ej; lia); destruct K; subst j; try discriminate E1; cbn in E2; injection E2 as <-; auto.
Qed.
Lemma sw_meets Q w s : sys_part sw_spec = Some Q ->
  strategy_runs (env_vars sw_spec) (sys_vars sw_spec) sw_strategy (starts_at (sw_isinit sw_spec) sw_strategy) w ->
  trace_of (env_vars sw_spec) (sys_vars sw_spec) w s -> sat_part s Q.
Proof.
  intros HQ Hr Ht.
  assert (V := sw_values w s Hr Ht). clear Hr Ht.
  destruct (spec_plus_sys_meaning sw_user None (Some sw_ts) false false sw_spec
     {| p_init := []; p_safe := []; p_live := [NVar "x"] |} {| p_init := []; p_safe := []; p_live := [NVar "p"] |} sw_spec_ok) as (R & T & HR & HT & M).
  - intros t [= <-]. split; [exact sw_good|split; reflexivity].
  - intros t [=].
  - vm_compute. reflexivity.
  - vm_compute. reflexivity.
  - rewrite HT in HQ. injection HQ as <-. assert (Hl : forall t, Some sw_ts = Some t -> false = true -> located (ts_fts t) false (sys_var t) s) by (intros t _ [=]).
    destruct (M s Hl) as [_ M2]. cbv zeta in M2.
    apply M2. split; [|split; [|intros t [=]]].
    + split; [intros f []|]. split; [intros f []|]. cbn [p_live]. intros f [<-|[]] i. exists (if Nat.even i then S i else i). split; [destruct (Nat.even i); lia|].
      cbn. destruct (Nat.even i) eqn:E; rewrite (proj2 (V _)); [rewrite Nat.even_succ, <- Nat.negb_even, E; reflexivity|rewrite E; reflexivity].
    + intros t [= <-]. split; [|intros i k cod []].
      exists (fun i => SStr (if Nat.even i then "s0" else "s1")). split; [|split; [|split]].
      * intro i. split; [destruct (Nat.even i); cbn; auto|]. split; [exact (proj1 (V i))|].
        intros q I E. cbn in I. destruct I as [<-|[<-|[]]]; cbn in E; unfold sys_var in E; cbn in E; rewrite (proj1 (V i)) in E; injection E as E; rewrite E; reflexivity.
      * intros _. cbn. auto.
      * intro i. rewrite Nat.even_succ, <- Nat.negb_even.
        destruct (Nat.even i); cbn [negb]; [eexists; split; [left; reflexivity|]|eexists; split; [right; right; left; reflexivity|]];
          (split; [reflexivity|]; split; [reflexivity|]; split; [intros k v []|intros a []]).
      * intros i p [<-|[]]. rewrite (proj2 (V i)). unfold labelled. cbn. split.
        -- destruct (Nat.even i); [discriminate|]. intros _. exists ["p"]. split; [auto|left; reflexivity].
        -- intros (l & [K|[K|[]]] & J); destruct (Nat.even i); try discriminate; [injection K as <-; destruct J|reflexivity].
Qed.
Lemma sw_wins : wins (sw_isinit sw_spec) sw_spec sw_strategy.
Proof. intros P Q HP HQ w s Hr Ht Hs. apply (sw_meets Q w s HQ Hr Ht). Qed.
(** All hypotheses of [synthesize_correct] are met, and the machine runs forever. *)
Example synthesize_case : exists m,
  synthesize Nat.eqb 4 sw_isinit sw_solver sw_solver sw_solver sw_solver true sw_user None (Some sw_ts) false false true "omega" = Ok (Some m) /\
  spec_plus_sys sw_user None (Some sw_ts) false false = Ok sw_spec /\
  solves sw_isinit sw_solver sw_solver sw_solver sw_solver true "omega" sw_spec /\
  (forall k, In k (map fst (env_vars sw_spec)) -> ~ In k (map fst (sys_vars sw_spec))) /\
  (forall k, In k (map fst (env_vars sw_spec)) \/ In k (map fst (sys_vars sw_spec)) -> ~ In k T_Strategy.reserved) /\
  List.length (g_edges (m_graph m)) = 10 /\
  forall n, In n (node_list (m_graph m)) -> exists x n', mealy_step m n x n'.
Proof.
  assert (Once : declared_once (env_vars sw_spec) (sys_vars sw_spec)).
  { constructor; cbn; [nodup|nodup|intros k [<-|[]] I; intuition discriminate]. }
  assert (Res : forall k, In k (map fst (env_vars sw_spec)) \/ In k (map fst (sys_vars sw_spec)) -> ~ In k T_Strategy.reserved).
  { intros k [I|I] J; cbn in I, J; intuition (subst; discriminate). }
  let r := eval vm_compute in (synthesize Nat.eqb 4 sw_isinit sw_solver sw_solver sw_solver sw_solver true sw_user None (Some sw_ts) false false true "omega") in
    match r with Ok (Some ?x) => exists x end.
  split; [vm_compute; reflexivity|]. split; [exact sw_spec_ok|]. split; [|split; [exact (do_roles _ _ Once)|split; [exact Res|split; [reflexivity|]]]].
  - intros A [= <-]. split; [exact sw_form|exact sw_wins].
  - refine (trim_strategy_live Nat.eqb Nat.eqb_eq 4 sw_isinit _ sw_spec sw_strategy Once Res sw_form _ _); [reflexivity|]. vm_compute. reflexivity.
Qed.

(** ** Findings *)
(** The default of [ignore_init] fails for every nonempty dictionary of systems, and the default
    of [ts] fails always. *)
Theorem synthesize_many_defaults_refuted : forall specs nt tss ig,
  spec_plus_many specs (Some (nt :: tss)) None = Err "TypeError" /\
  spec_plus_many specs None ig = Err "AssertionError".
Proof. intros. split; reflexivity. Qed.
(** A system whose owner is not one of the two players is left out without notice. *)
Definition owned (t : fts) (o : string) : fts := {| f_nodes := f_nodes t; f_initial := f_initial t; f_aps := f_aps t; f_actions := f_actions t;
  f_sys_must := f_sys_must t; f_env_must := f_env_must t; f_trans := f_trans t; f_owner := o |}.
Theorem synthesize_many_owner_refuted : exists specs t r R, good_fts t /\
  spec_plus_many specs (Some [("a", Ts t None None None None)]) (Some []) = Ok r /\ sys_part r = Some R /\
  (forall s, sat_part s R) /\ exists s, ~ sys_executes t false false false "a" s.
Proof.
  exists (mkspec [] [] [] [] [] [] [] [] false false "\A \E"), (owned sw "Sys"). eexists _, _.
  split; [destruct sw_good; constructor; assumption|]. split; [vm_compute; reflexivity|]. split; [vm_compute; reflexivity|].
  split; [intro s; split; [|split]; intros f []|]. exists (fun _ _ => VB false). intros [(loc & L & _) _].
  destruct (L 0) as (_ & S0 & _). destruct (loc 0); discriminate S0.
Qed.
(** With all initial values quantified universally, the initial conditions of the systems are
    moved to the environment by one function and not by the other, and then gr1c refuses. *)
Theorem synthesize_many_all_all_refuted : exists specs r r',
  qinit specs = "\A \A" /\
  spec_plus_sys specs None (Some (Ts sw (Some "loc") None None None)) false false = Ok r /\ select_options r = Ok "ONE_SIDE_INIT" /\
  spec_plus_many specs (Some [("loc", Ts sw (Some "loc") None None None)]) (Some []) = Ok r' /\ select_options r' = Err "AssertionError".
Proof.
  exists (mkspec [("x", DBool)] [] [] [] [] [] ["x"] ["p"] false false "\A \A"). eexists _, _.
  split; [reflexivity|]. split; [vm_compute; reflexivity|]. split; [reflexivity|]. split; [vm_compute; reflexivity|]. reflexivity.
Qed.
(** With all initial values quantified existentially, the initial states of an environment are
    not moved to the system, and gr1c refuses, although it accepts what the user wrote. *)
Theorem spec_plus_sys_exists_refuted : exists specs t r,
  good_env t /\ qinit specs = "\E \E" /\ select_options specs = Ok "ONE_SIDE_INIT" /\
  spec_plus_sys specs (Some (Ts t None None None None)) None false false = Ok r /\ select_options r = Err "AssertionError".
Proof.
  exists (mkspec [("x", DBool)] [] [] [] [] [] ["x"] ["x"] false false "\E \E"), (owned sw "env"). eexists.
  split; [split; [destruct sw_good; constructor; assumption|intros k cod []]|]. split; [reflexivity|]. split; [reflexivity|]. split; [vm_compute; reflexivity|]. reflexivity.
Qed.
(** A variable of the environment with the name of the state variable becomes one of both. *)
Theorem spec_plus_sys_roles_refuted : exists specs r,
  declared_once (env_vars specs) (sys_vars specs) /\
  spec_plus_sys specs None (Some sw_ts) false false = Ok r /\
  In "loc" (map fst (env_vars r)) /\ In "loc" (map fst (sys_vars r)).
Proof.
  exists (mkspec [("loc", DBool)] [] [] [] [] [] [] [] false false "\A \E"). eexists.
  split; [constructor; [cbn; nodup|constructor|intros k _ []]|]. split; [vm_compute; reflexivity|]. cbn. auto.
Qed.
(** Two systems with the same name of an action type share its variable, so that one action
    moves both; if their actions differ the call fails. *)
Definition acting (l : list sval) (a b : sval) : fts := {|
  f_nodes := [(SInt 0, None); (SInt 1, None)]; f_initial := [SInt 0]; f_aps := []; f_actions := [("sys_actions", l)];
  f_sys_must := Some Xor; f_env_must := None;
  f_trans := [{| e_from := SInt 0; e_to := SInt 1; e_label := [("sys_actions", a)]; e_prev := [] |};
              {| e_from := SInt 1; e_to := SInt 0; e_label := [("sys_actions", b)]; e_prev := [] |}]; f_owner := "sys" |}.
Theorem synthesize_many_actions_refuted : forall specs r, specs = mkspec [] [] [] [] [] [] [] [] false false "\A \E" ->
  r = (fun t u => spec_plus_many specs (Some [("m", Ts t None None None None); ("n", Ts u None None None None)]) (Some [])) ->
  (exists g, r (acting [SStr "go"; SStr "back"] (SStr "go") (SStr "back")) (acting [SStr "go"; SStr "back"] (SStr "back") (SStr "go")) = Ok g /\
     map fst (sys_vars g) = ["sys_actions"; "m"; "n"]) /\
  r (acting [SStr "go"; SStr "back"] (SStr "go") (SStr "back")) (acting [SStr "up"; SStr "down"] (SStr "up") (SStr "down")) = Err "ValueError".
Proof. intros specs r -> ->. split; [eexists; split; vm_compute; reflexivity|vm_compute; reflexivity]. Qed.
Print Assumptions synthesize_many_defaults_refuted.
Print Assumptions synthesize_many_owner_refuted.
Print Assumptions synthesize_many_all_all_refuted.
Print Assumptions spec_plus_sys_exists_refuted.
Print Assumptions spec_plus_sys_roles_refuted.
Print Assumptions synthesize_many_actions_refuted.
