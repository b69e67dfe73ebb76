(** C17-C20: cardinality constraints, identifiers of values, specifications of transition systems. *)
From Coq Require Import List String Ascii Bool Arith ZArith Lia.
From Verif Require Import M_Base M_Ast M_Lexer M_Parser M_Spec M_Form M_Synth.
From Verif Require Import S_LTL S_Gr1 S_Synth.
From Verif Require Import L_Gr1 L_Form L_Template L_Den L_Synth L_Synth2 L_Synth3 L_Synth4 L_Synth5.
Import ListNotations.
Open Scope string_scope.
Open Scope list_scope.

(** ** C17 *)
Lemma den_text t P s i : den t P -> (text_true s i t <-> P s i).
Proof. intros (_ & e & E & M). unfold text_true. rewrite E. apply M. Qed.

(** Propositions given as formulas whose truth is decided. *)
Theorem mutex_formulas : forall ps s i, NoDup ps ->
  (forall p, In p ps -> no_comment p /\ exists e, parse p = Some e) ->
  (forall p s i, In p ps -> text_true s i p \/ ~ text_true s i p) ->
  ((forall f, In f (mutex ps) -> text_true s i f) <-> at_most_one (text_true s i) ps).
Proof.
  intros ps s i N P D.
  assert (HD : forall x, In x ps -> den x (fun s i => text_true s i x)).
  { intros x I. destruct (P x I) as (C & e & E). eapply den_ext; [apply (parse_den x e C E)|].
    intros s' i'. unfold text_true. rewrite E. reflexivity. }
  destruct (le_lt_dec (List.length ps) 1) as [L|L].
  - rewrite (mutex_short (fun x s i => text_true s i x) ps HD L). split; [|intros _ f []]. intros _ x y Ix Iy _ _.
    destruct ps as [|a [|b r]]; [destruct Ix| |simpl in L; lia]. destruct Ix as [<-|[]], Iy as [<-|[]]; auto.
  - destruct (mutex_den (fun x s i => text_true s i x) ps HD N) as (t & E & M); [lia|intros; apply D; auto|].
    rewrite E. split.
    + intro K. apply (den_text _ _ s i M). apply K. left; auto.
    + intros K f [<-|[]]. apply (den_text _ _ s i M). exact K.
Qed.
Print Assumptions mutex_formulas.

Theorem mutex_meaning : forall ps s i, NoDup ps -> (forall p, In p ps -> ident p) ->
  ((forall f, In f (mutex ps) -> text_true s i f) <-> at_most_one (fun p => s i p = VB true) ps).
Proof.
  intros ps s i N P.
  assert (T : forall p s i, In p ps -> (text_true s i p <-> s i p = VB true)).
  { intros p s' i' I. apply (den_text p _ s' i' (datom_den _ _ (d_ident p (P p I)))). }
  rewrite (mutex_formulas ps s i N).
  - unfold at_most_one. split; intros K x y Ix Iy Tx Ty; apply K; auto; apply T; auto.
  - intros p I. split; [apply no_comment_nohash, ident_nohash; auto|]. destruct (datom_den _ _ (d_ident p (P p I))) as (_ & e & E & _). eauto.
  - intros p s' i' I. rewrite (T p s' i' I). apply VB_dec.
Qed.
Print Assumptions mutex_meaning.

Theorem exactly_one_formulas : forall ps s i, NoDup ps -> ps <> [] ->
  (forall p, In p ps -> no_comment p /\ exists e, parse p = Some e) ->
  ((forall f, In f (exactly_one ps) -> text_true s i f) <-> only_one (text_true s i) ps).
Proof.
  intros ps s i N Hne P.
  assert (HD : forall x, In x ps -> den x (fun s i => text_true s i x)).
  { intros x I. destruct (P x I) as (C & e & E). eapply den_ext; [apply (parse_den x e C E)|].
    intros s' i'. unfold text_true. rewrite E. reflexivity. }
  destruct (exactly_one_den (fun x s i => text_true s i x) ps HD N) as (t & E & M).
  { destruct ps; [congruence|simpl; lia]. }
  apply datom_den in M. rewrite E. split.
  - intro K. apply (den_text _ _ s i M). apply K. left; auto.
  - intros K f [<-|[]]. apply (den_text _ _ s i M). exact K.
Qed.
Print Assumptions exactly_one_formulas.

Theorem exactly_one_meaning : forall ps s i, NoDup ps -> ps <> [] -> (forall p, In p ps -> ident p) ->
  ((forall f, In f (exactly_one ps) -> text_true s i f) <-> only_one (fun p => s i p = VB true) ps).
Proof.
  intros ps s i N Hne P.
  assert (T : forall p s i, In p ps -> (text_true s i p <-> s i p = VB true)).
  { intros p s' i' I. apply (den_text p _ s' i' (datom_den _ _ (d_ident p (P p I)))). }
  rewrite (exactly_one_formulas ps s i N Hne).
  - unfold only_one, at_most_one. split; intros [K (z & Iz & Tz)];
      (split; [intros x y Ix Iy Tx Ty; apply K; auto; apply T; auto|exists z; split; auto; apply T; auto]).
  - intros p I. split; [apply no_comment_nohash, ident_nohash; auto|]. destruct (datom_den _ _ (d_ident p (P p I))) as (_ & e & E & _). eauto.
Qed.
Print Assumptions exactly_one_meaning.

Ltac ins := repeat match goal with H : In _ (_ :: _) |- _ => destruct H as [H|H] | H : In _ [] |- _ => destruct H | H : _ \/ _ |- _ => destruct H as [H|H] | H : False |- _ => destruct H end.
Ltac idents := ins; subst; split; reflexivity.
Ltac nodup := repeat constructor; simpl; intuition discriminate.
Example cardinality_case :
  NoDup ["p"; "q"; "r"] /\ (forall p, In p ["p"; "q"; "r"] -> ident p) /\
  mutex ["p"; "q"; "r"] = ["(!(p) || (!(q) && !(r))) && (!(q) || (!(p) && !(r))) && (!(r) || (!(p) && !(q)))"] /\
  exactly_one ["p"; "q"] = ["(((p) && !(q)) || ((q) && !(p)))"].
Proof. split; [nodup|]. split; [intros p I; idents|]. split; reflexivity. Qed.

(** Nothing is required of the empty collection, although no element can be true; with a
    repeated proposition the result is not a formula. *)
Theorem exactly_one_refuted :
  (exists s i, (forall f, In f (exactly_one []) -> text_true s i f) /\ ~ only_one (fun p => s i p = VB true) []) /\
  (exists f, exactly_one ["p"; "p"] = [f] /\ parse f = None) /\
  (exists f, mutex ["p"; "p"] = [f] /\ parse f = None).
Proof.
  split; [|split].
  - exists (fun _ _ => VB true), 0. split; [intros f []|]. intros [_ (x & [] & _)].
  - eexists. split; vm_compute; reflexivity.
  - eexists. split; vm_compute; reflexivity.
Qed.
Print Assumptions exactly_one_refuted.

(** ** C18 *)
(** Each value has an identifier, a formula true exactly when the value is shown. *)
Theorem iter2var_identifiers : forall states vars var b mu vs d c,
  iter2var states vars var b mu = Ok (vs, d, c) -> ident var -> NoDup states ->
  (forall v, In v states -> good_name v) ->
  map fst d = states /\
  forall v x, In (v, x) d -> forall s i, text_true s i x <-> shows (as_bools mu b) var v (s i).
Proof.
  intros states vars var b mu vs d c H Hv N Gn. destruct (iter2var_ok _ _ _ _ _ _ _ _ H Hv N Gn) as [(_ & B & F) _].
  split; auto. intros v x I s i. apply (den_text x (fun s i => shows (as_bools mu b) var v (s i)) s i). apply B. apply ids_get_In; auto. rewrite F. exact N.
Qed.
Print Assumptions iter2var_identifiers.

(** Every value is shown alone by some assignment within the domains that meets the constraint,
    whatever the other variables are. *)
Theorem iter2var_representable : forall states vars var b mu vs d c,
  iter2var states vars var b mu = Ok (vs, d, c) -> ident var -> NoDup states ->
  (forall v, In v states -> good_name v) ->
  forall st0 v, allowed vars st0 -> In v states ->
  exists st, allowed vs st /\ meets c st /\
    (forall w, In w states -> (shows (as_bools mu b) var w st <-> w = v)) /\
    (forall x, x <> var -> ~ In (SStr x) states -> st x = st0 x).
Proof. exact iter2var_repr. Qed.
Print Assumptions iter2var_representable.

(** At most one value is shown, in either mode of exclusion. *)
Theorem iter2var_mutex : forall states vars var b m vs d c,
  iter2var states vars var b (Some m) = Ok (vs, d, c) -> ident var -> NoDup states ->
  (forall v, In v states -> good_name v) -> forall st, meets c st -> at_most_one (fun v => shows b var v st) states.
Proof. exact iter2var_at_most. Qed.
Print Assumptions iter2var_mutex.

(** Under 'mutex' none need be shown; without exclusion any subset can be. *)
Theorem iter2var_mutex_none : forall states vars var b vs d c,
  iter2var states vars var b (Some Mutex) = Ok (vs, d, c) -> ident var -> NoDup states ->
  (forall v, In v states -> good_name v) -> ~ In (SStr (var ++ "none")) states ->
  forall st0, allowed vars st0 ->
  exists st, allowed vs st /\ meets c st /\ forall w, In w states -> ~ shows b var w st.
Proof. exact iter2var_none. Qed.
Print Assumptions iter2var_mutex_none.
Theorem iter2var_free_subsets : forall states vars var b vs d c (f : sval -> bool),
  iter2var states vars var b None = Ok (vs, d, c) -> ident var -> NoDup states ->
  (forall v, In v states -> good_name v) ->
  forall st0, allowed vars st0 ->
  exists st, allowed vs st /\ meets c st /\ forall w, In w states -> (shows true var w st <-> f w = true).
Proof. exact iter2var_subset. Qed.
Print Assumptions iter2var_free_subsets.

(** Exactly one under 'xor'. *)
Theorem iter2var_xor : forall states vars var b vs d c,
  iter2var states vars var b (Some Xor) = Ok (vs, d, c) -> ident var -> NoDup states -> states <> [] ->
  (forall v, In v states -> good_name v) -> (b = true -> 2 <= List.length states) -> (b = false -> no_gaps states) ->
  forall st, allowed vs st -> meets c st -> only_one (fun v => shows b var v st) states.
Proof. exact iter2var_exactly. Qed.
Print Assumptions iter2var_xor.

Example iter2var_case : exists vs d x,
  iter2var [SStr "a"; SStr "b"; SStr "c"] [("y", DBool)] "loc" true (Some Xor) = Ok (vs, d, Some x) /\
  (exists vs' d', iter2var [SInt 2; SInt 1; SInt 3] [("y", DBool)] "loc" false (Some Xor) = Ok (vs', d', None) /\
     lookup "loc" vs' = Some (DInt 1 3) /\ ids_get (SInt 2) d' = Some "loc = 2") /\
  no_gaps [SInt 2; SInt 1; SInt 3] /\ NoDup [SStr "a"; SStr "b"; SStr "c"] /\
  (forall v, In v [SStr "a"; SStr "b"; SStr "c"] -> good_name v) /\ ident "loc" /\ allowed [("y", DBool)] (fun _ => VB true).
Proof.
  eexists _, _, _. split; [vm_compute; reflexivity|]. split; [eexists _, _; vm_compute; repeat split; reflexivity|].
  split. { intros a b z Ia Ib L. simpl in *.
    assert (z = 1 \/ z = 2 \/ z = 3)%Z by (destruct Ia as [E|[E|[E|[]]]], Ib as [F|[F|[F|[]]]]; injection E as <-; injection F as <-; lia).
    destruct H as [->|[->| ->]]; auto. }
  split; [nodup|]. split; [intros v I; idents|]. split; [split; reflexivity|].
  intros x k H. cbn in H. destruct (x =? "y")%string; [injection H as <-; exact I|discriminate].
Qed.

(** Under 'xor', gaps between integers leave assignments showing no value; so does a single
    Boolean value. *)
Theorem iter2var_xor_refuted :
  (exists vs d c st, iter2var [SInt 0; SInt 2] [] "loc" false (Some Xor) = Ok (vs, d, c) /\
     allowed vs st /\ meets c st /\ forall v, In v [SInt 0; SInt 2] -> ~ shows false "loc" v st) /\
  (exists vs d c st, iter2var [SStr "a"] [] "loc" true (Some Xor) = Ok (vs, d, c) /\
     allowed vs st /\ meets c st /\ forall v, In v [SStr "a"] -> ~ shows true "loc" v st).
Proof.
  split.
  - eexists _, _, _, (fun _ => VZ 1). split; [vm_compute; reflexivity|]. split; [|split; [exact I|]].
    + intros x k H. cbn in H. destruct (x =? "loc")%string; [injection H as <-; cbn; lia|discriminate].
    + intros v [<-|[<-|[]]]; cbn; discriminate.
  - eexists _, _, _, (fun _ => VB false). split; [vm_compute; reflexivity|]. split; [|split; [exact I|]].
    + intros x k H. cbn in H. destruct (x =? "a")%string; [injection H as <-; exact I|discriminate].
    + intros v [<-|[]]; cbn; discriminate.
Qed.
Print Assumptions iter2var_xor_refuted.

(** ** C19 *)
Lemma loc_ident : ident "loc". Proof. split; reflexivity. Qed.
(** The system's clauses hold exactly on the executions of the transition system. *)
Theorem sys_to_spec_executions : forall t ignore var bs ba g, good_fts t -> ident var ->
  sys_to_spec t ignore var bs ba = Ok g ->
  exists S, sys_part g = Some S /\
    forall s, (ignore = true -> exists q, In q (f_states t) /\ shows bs var q (s 0)) ->
      (sat_part s S <-> executes t ignore bs var (edge_actions t ba) s /\ forall i, sys_counts t ba (s i)).
Proof. intros t ignore var bs ba g G V H. apply (sys_to_spec_ok _ _ _ _ _ _ G V H). Qed.
Print Assumptions sys_to_spec_executions.

(** A system with a deadlock, two kinds of actions, labels and a string-valued location. *)
Definition t0 : fts := {|
  f_nodes := [(SStr "s0", Some ["p"]); (SStr "s1", Some []); (SStr "s2", None)];
  f_initial := [SStr "s0"]; f_aps := ["p"; "q"];
  f_actions := [("sys_actions", [SStr "stay"; SStr "move"]); ("env_actions", [SStr "dry"; SStr "wet"])];
  f_sys_must := Some Xor; f_env_must := Some Mutex;
  f_trans := [{| e_from := SStr "s0"; e_to := SStr "s1"; e_label := [("sys_actions", SStr "move"); ("env_actions", SStr "dry")]; e_prev := [] |};
              {| e_from := SStr "s0"; e_to := SStr "s0"; e_label := [("sys_actions", SStr "stay"); ("env_actions", SStr "wet")]; e_prev := ["env_actions"] |};
              {| e_from := SStr "s1"; e_to := SStr "s0"; e_label := [("sys_actions", SStr "move"); ("env_actions", SStr "dry")]; e_prev := [] |};
              {| e_from := SStr "s1"; e_to := SStr "s2"; e_label := [("sys_actions", SStr "move"); ("env_actions", SStr "wet")]; e_prev := [] |}];
  f_owner := "sys" |}.
Lemma t0_good : good_fts t0.
Proof.
  constructor; cbn -[ident].
  - nodup.
  - intros q I. idents.
  - intros q I. idents.
  - nodup.
  - intros k cod I. ins; injection I as <- <-; (split; [split; reflexivity|]; split; [nodup|]); intros v J; idents.
  - intros e I. ins; subst e; (split; [nodup|]); cbn; intros v J; ins; discriminate.
Qed.
Definition s0 : trace := fun i x =>
  if (x =? "loc")%string then VS (if Nat.even i then "s0" else "s1")
  else if (x =? "p")%string then VB (Nat.even i)
  else if (x =? "sys_actions")%string then VS "move"
  else if (x =? "env_actions")%string then VS "dry" else VB false.
Example sys_to_spec_case : good_fts t0 /\ ident "loc" /\
  (exists g, sys_to_spec t0 false "loc" false false = Ok g) /\
  executes t0 false false "loc" (edge_actions t0 false) s0 /\ (forall i, sys_counts t0 false (s0 i)) /\
  ~ executes t0 false false "loc" (edge_actions t0 false) (fun i => s0 (S i)).
Proof.
  split; [exact t0_good|]. split; [split; reflexivity|]. split; [eexists; vm_compute; reflexivity|].
  split; [|split].
  - exists (fun i => SStr (if Nat.even i then "s0" else "s1")). split; [|split; [|split]].
    + intro i. split; [destruct (Nat.even i); cbn; auto|]. split; [reflexivity|].
      intros q I E. cbn in I. ins; subst q; cbn in E; injection E as E; rewrite E; reflexivity.
    + intros _. left; reflexivity.
    + intro i. rewrite (Nat.even_succ i), <- Nat.negb_even.
      destruct (Nat.even i) eqn:E; cbn [negb];
        [exists {| e_from := SStr "s0"; e_to := SStr "s1"; e_label := [("sys_actions", SStr "move"); ("env_actions", SStr "dry")]; e_prev := [] |}
        |exists {| e_from := SStr "s1"; e_to := SStr "s0"; e_label := [("sys_actions", SStr "move"); ("env_actions", SStr "dry")]; e_prev := [] |}];
        (split; [cbn; auto|]; split; [reflexivity|]; split; [reflexivity|]; split;
         [intros k v I _; cbn in I; ins; injection I as <- <-; (split; [intros []|intros _; reflexivity])
         |intros a I; cbn in I; ins; discriminate]).
    + intros i p I. cbn in I. unfold labelled. ins; subst p; cbn -[Nat.even].
      * destruct (Nat.even i); split; try discriminate; auto.
        -- intros _. exists ["p"]. split; left; reflexivity.
        -- intros (l & I & J). exfalso. cbn in I. ins; try discriminate; injection I as <-; destruct J.
      * split; [discriminate|]. intros (l & I & J). exfalso. destruct (Nat.even i); cbn in I; ins; try discriminate; injection I as <-; ins; discriminate.
  - intros i k cod I W. cbn in I. ins; injection I as <- <-; cbn; discriminate.
  - intros (loc & L & I & _). destruct (L 0) as (Il & Sl & _). specialize (I eq_refl). cbn in I. ins. rewrite <- I in Sl. cbn in Sl. discriminate.
Qed.

(** Ignoring the initial condition, a trace that shows no location at the start satisfies the
    clauses without being an execution. *)
Definition t1 : fts := {|
  f_nodes := [(SInt 0, None); (SInt 2, None)]; f_initial := []; f_aps := []; f_actions := [];
  f_sys_must := None; f_env_must := None;
  f_trans := [{| e_from := SInt 0; e_to := SInt 0; e_label := []; e_prev := [] |};
              {| e_from := SInt 2; e_to := SInt 2; e_label := []; e_prev := [] |}]; f_owner := "sys" |}.
Theorem sys_to_spec_unlocated_refuted : exists t var bs ba g S s, good_fts t /\ ident var /\
  sys_to_spec t true var bs ba = Ok g /\ sys_part g = Some S /\
  (forall i x k, lookup x (sys_vars g) = Some k -> in_domain k (s i x)) /\
  sat_part s S /\ ~ executes t true bs var (edge_actions t ba) s.
Proof.
  exists t1, "loc", false, false. eexists _, _, (fun _ _ => VZ 1).
  split. { constructor; cbn; try (intros; ins; contradiction).
    - nodup. - intros q I. ins; subst q; exact I. - constructor.
    - intros e I. ins; subst e; (split; [constructor|intros v []]). }
  split; [split; reflexivity|]. split; [vm_compute; reflexivity|]. split; [vm_compute; reflexivity|]. split; [|split].
  - intros i x k H. cbn in H. destruct (x =? "loc")%string; [injection H as <-; cbn; lia|discriminate].
  - unfold sat_part. cbn [p_init p_safe p_live]. split; [intros e []|]. split; [|intros e []].
    intros e I i. cbn in I. ins; subst e; cbn; intro K; discriminate.
  - intros (loc & L & _). destruct (L 0) as (I & Sh & _). cbn in I. destruct I as [E|[E|[]]]; rewrite <- E in Sh; discriminate.
Qed.
Print Assumptions sys_to_spec_unlocated_refuted.

(** ** C20 *)
(** The environment's clauses derived from a system: the counts of environment actions, and at a
    location with a transition labelled for the environment, the actions of one of those. *)
Theorem sys_to_spec_environment : forall t ignore var bs ba g, good_fts t -> ident var ->
  sys_to_spec t ignore var bs ba = Ok g ->
  exists A, env_part g = Some A /\
    forall s, sat_part s A <-> forall i, env_counts t ba (s i) /\ env_choice t bs ba var s i.
Proof. intros t ignore var bs ba g G V H. apply (sys_to_spec_ok _ _ _ _ _ _ G V H). Qed.
Print Assumptions sys_to_spec_environment.

(** When the transitions from each location are all labelled for the environment or none is, the
    clauses forbid only actions for which the system has no transition. *)
Theorem sys_to_spec_environment_only : forall t ignore var bs ba g, good_fts t -> ident var ->
  sys_to_spec t ignore var bs ba = Ok g ->
  (forall e e', In e (f_trans t) -> In e' (f_trans t) -> e_from e = e_from e' -> env_labelled e -> env_labelled e') ->
  exists A, env_part g = Some A /\
    forall s, (sat_part s A <-> forall i, env_counts t ba (s i) /\
      forall q, In q (f_states t) -> shows bs var q (s i) ->
        (exists e, In e (f_trans t) /\ e_from e = q) ->
        exists e, In e (f_trans t) /\ e_from e = q /\ env_moves t ba (s (S i)) e).
Proof.
  intros t ignore var bs ba g G V H U. destruct (sys_to_spec_environment _ _ _ _ _ _ G V H) as (A & EA & MA).
  exists A. split; auto. intro s. rewrite (MA s). unfold env_choice.
  split; intros K i; destruct (K i) as [C N]; split; auto; intros q Iq Sq (e & Ie & Q).
  - destruct (with_key "env" (e_label e)) as [|[k v] r] eqn:W.
    + exists e. split; auto. split; auto. intros k v I X. exfalso. apply contains_spec in X.
      assert (J : In (k, v) (with_key "env" (e_label e))) by (unfold with_key; rewrite filter_In; auto). rewrite W in J. destruct J.
    + destruct (N q Iq Sq) as (e' & I' & F' & _ & M'); [|eauto].
      exists e. split; auto. split; auto. exists k, v.
      assert (J : In (k, v) (with_key "env" (e_label e))) by (rewrite W; left; auto).
      unfold with_key in J. rewrite filter_In in J. cbn [fst] in J. destruct J as [J X]. apply contains_spec in X. auto.
  - destruct Q as [Q L]. destruct (N q Iq Sq) as (e' & I' & F' & M'); [eauto|].
    exists e'. split; auto. split; auto. split; auto. apply (U e e'); auto. congruence.
Qed.
Print Assumptions sys_to_spec_environment_only.

Example sys_to_spec_environment_case : good_fts t0 /\ (exists g, sys_to_spec t0 false "loc" false false = Ok g) /\
  (forall e e', In e (f_trans t0) -> In e' (f_trans t0) -> e_from e = e_from e' -> env_labelled e -> env_labelled e') /\
  (forall i, env_counts t0 false (s0 i) /\ env_choice t0 false false "loc" s0 i).
Proof.
  split; [exact t0_good|]. split; [eexists; vm_compute; reflexivity|].
  assert (L : forall e, In e (f_trans t0) -> env_labelled e).
  { intros e I. cbn in I. ins; subst e; exists "env_actions"; eexists; (split; [right; left; reflexivity|exists "", "_actions"; reflexivity]). }
  split; [intros; apply L; auto|]. intro i. split.
  - intros k cod I _ _. cbn in I. ins; injection I as <- <-; cbn; discriminate.
  - intros q Iq Sq _. 
    assert (E : forall e, In e (f_trans t0) -> In ("env_actions", SStr "dry") (e_label e) -> env_moves t0 false (s0 (S i)) e).
    { intros e I J k v Ik W. cbn in I. ins; subst e; cbn in J, Ik; ins; try discriminate; try (injection Ik as <- <-); try reflexivity;
        destruct W as (a & b & W); destruct a as [|? [|? [|? [|? [|? [|? [|? [|? [|? [|? [|? [|? ?]]]]]]]]]]]]; discriminate. }
    cbn in Iq. ins; subst q.
    + eexists. split; [left; reflexivity|]. split; [reflexivity|]. split; [apply L; left; auto|]. apply E; [left; auto|cbn; auto].
    + eexists. split; [right; right; left; reflexivity|]. split; [reflexivity|]. split; [apply L; cbn; auto|]. apply E; cbn; auto.
    + exfalso. cbn in Sq. destruct (Nat.even i); discriminate.
Qed.

(** With an unlabelled transition beside a labelled one, the clauses forbid the environment
    behaviour of an execution that takes the unlabelled one. *)
Definition t2 : fts := {|
  f_nodes := [(SStr "a", None); (SStr "b", None)]; f_initial := [SStr "a"]; f_aps := [];
  f_actions := [("env_actions", [SStr "rain"; SStr "snow"])]; f_sys_must := None; f_env_must := Some Mutex;
  f_trans := [{| e_from := SStr "a"; e_to := SStr "b"; e_label := [("env_actions", SStr "rain")]; e_prev := [] |};
              {| e_from := SStr "a"; e_to := SStr "a"; e_label := []; e_prev := [] |};
              {| e_from := SStr "b"; e_to := SStr "b"; e_label := []; e_prev := [] |}]; f_owner := "sys" |}.
Lemma t2_good o : good_fts {| f_nodes := f_nodes t2; f_initial := f_initial t2; f_aps := f_aps t2; f_actions := f_actions t2;
  f_sys_must := f_sys_must t2; f_env_must := f_env_must t2; f_trans := f_trans t2; f_owner := o |}.
Proof.
  constructor; cbn -[ident].
  - nodup.
  - intros q I. idents.
  - intros q I. idents.
  - nodup.
  - intros k cod I. ins; injection I as <- <-; (split; [split; reflexivity|]; split; [nodup|]); intros v J; idents.
  - intros e I. ins; subst e; (split; [nodup|]); cbn; intros v J; ins; discriminate.
Qed.
Theorem sys_to_spec_environment_refuted : exists t var bs ba g A s, good_fts t /\ ident var /\
  sys_to_spec t false var bs ba = Ok g /\ env_part g = Some A /\
  executes t false bs var (edge_actions t ba) s /\ (forall i, env_counts t ba (s i)) /\ ~ sat_part s A.
Proof.
  destruct (sys_to_spec t2 false "loc" false false) as [g|] eqn:H; [|vm_compute in H; discriminate].
  destruct (sys_to_spec_environment _ _ _ _ _ _ (t2_good "sys") loc_ident H) as (A & EA & MA).
  exists t2, "loc", false, false, g, A, (fun _ x => if (x =? "loc")%string then VS "a" else VS "env_actionsnone").
  split; [apply (t2_good "sys")|]. split; [split; reflexivity|]. split; [exact H|]. split; [exact EA|]. split; [|split].
  - exists (fun _ => SStr "a"). split; [|split; [|split]].
    + intro i. split; [left; reflexivity|]. split; [reflexivity|]. intros q I Sq. cbn in I. ins; subst q; [reflexivity|discriminate].
    + intros _. left; reflexivity.
    + intro i. exists {| e_from := SStr "a"; e_to := SStr "a"; e_label := []; e_prev := [] |}.
      split; [cbn; auto|]. split; [reflexivity|]. split; [reflexivity|]. split; [intros k v []|intros a []].
    + intros i p [].
  - intros i k cod I _ _. cbn in I. ins; injection I as <- <-; cbn; discriminate.
  - intro K. rewrite MA in K. destruct (K 0) as [_ C].
    destruct (C (SStr "a")) as (e & I & F & L & M); [left; reflexivity|reflexivity| |].
    + eexists. split; [left; reflexivity|]. split; [reflexivity|]. exists "env_actions", (SStr "rain").
      split; [left; reflexivity|exists "", "_actions"; reflexivity].
    + cbn in I. ins; subst e.
      * specialize (M "env_actions" (SStr "rain") (or_introl eq_refl)). 
        assert (W : has_word "env" "env_actions") by (exists "", "_actions"; reflexivity). specialize (M W). cbn in M. discriminate.
      * destruct L as (k & v & [] & _).
      * discriminate.
Qed.
Print Assumptions sys_to_spec_environment_refuted.

(** The clauses of an environment system: initial location, location counts, steps with the
    exception [blocked], labels, counts of environment actions. *)
Theorem env_to_spec_environment : forall t ignore var bs ba g, good_fts t -> ident var ->
  (forall k cod, In (k, cod) (f_actions t) -> has_word "sys" k -> cod <> []) ->
  env_to_spec t ignore var bs ba = Ok g ->
  (exists A, env_part g = Some A /\
    forall s, sat_part s A <->
      (ignore = false -> exists q, In q (f_initial t) /\ In q (f_states t) /\ shows bs var q (s 0)) /\
      (forall i, action_count (Some Xor) bs var (f_states t) (s i)) /\
      env_steps t bs ba var s /\
      (forall i n, In n (f_nodes t) -> shows bs var (fst n) (s i) -> ap_at t (snd n) s i) /\
      forall i, env_counts t ba (s i)) /\
  (exists S, sys_part g = Some S /\ forall s, sat_part s S <-> forall i, sys_counts t ba (s i)).
Proof. exact env_to_spec_ok. Qed.
Print Assumptions env_to_spec_environment.

(** On traces in which the system never blocks a location, they hold exactly on the executions. *)
Theorem env_to_spec_executions : forall t ignore var bs ba g, good_fts t -> ident var ->
  (forall k cod, In (k, cod) (f_actions t) -> has_word "sys" k -> cod <> []) ->
  env_to_spec t ignore var bs ba = Ok g ->
  exists A, env_part g = Some A /\
    forall s, (ignore = true -> exists q, In q (f_states t) /\ shows bs var q (s 0)) ->
      (forall i q, In q (f_states t) -> shows bs var q (s i) -> ~ blocked t ba q (s i)) ->
      (sat_part s A <-> executes t ignore bs var (env_edge_actions t ba) s /\ forall i, env_counts t ba (s i)).
Proof.
  intros t ignore var bs ba g G V NE H. destruct (env_to_spec_ok _ _ _ _ _ _ G V NE H) as [(A & EA & MA) _].
  exists A. split; auto. intros s Hi NB. rewrite (MA s), <- (env_exec t ignore bs ba var G s Hi NB). tauto.
Qed.
Print Assumptions env_to_spec_executions.

(** In particular when every location with transitions has one without system actions. *)
Theorem env_to_spec_executions_free : forall t ignore var bs ba g, good_fts t -> ident var ->
  (forall k cod, In (k, cod) (f_actions t) -> has_word "sys" k -> cod <> []) ->
  env_to_spec t ignore var bs ba = Ok g ->
  (forall e, In e (f_trans t) -> exists e', In e' (f_trans t) /\ e_from e' = e_from e /\ ~ sys_labelled e') ->
  exists A, env_part g = Some A /\
    forall s, (ignore = true -> exists q, In q (f_states t) /\ shows bs var q (s 0)) ->
      (sat_part s A <-> executes t ignore bs var (env_edge_actions t ba) s /\ forall i, env_counts t ba (s i)).
Proof.
  intros t ignore var bs ba g G V NE H F. destruct (env_to_spec_executions _ _ _ _ _ _ G V NE H) as (A & EA & MA).
  exists A. split; auto. intros s Hi. apply MA; auto. intros i q Iq Sq ((e & Ie & Ef) & All & _).
  destruct (F e Ie) as (e' & I' & E' & N'). apply N', All; auto. congruence.
Qed.
Print Assumptions env_to_spec_executions_free.

Definition t3 : fts := {| f_nodes := f_nodes t2; f_initial := f_initial t2; f_aps := f_aps t2; f_actions := f_actions t2;
  f_sys_must := f_sys_must t2; f_env_must := f_env_must t2; f_trans := f_trans t2; f_owner := "env" |}.
Example env_to_spec_case : good_fts t3 /\ (exists g, env_to_spec t3 false "loc" false false = Ok g) /\
  (forall e, In e (f_trans t3) -> exists e', In e' (f_trans t3) /\ e_from e' = e_from e /\ ~ sys_labelled e').
Proof.
  split; [apply t2_good|]. split; [eexists; vm_compute; reflexivity|].
  assert (N : forall e, In e (f_trans t3) -> ~ sys_labelled e).
  { intros e I (k & v & J & a & b & W). cbn in I. ins; subst e; cbn in J; ins. injection J as <- <-.
    destruct a as [|? [|? [|? [|? [|? [|? [|? [|? [|? [|? [|? [|? ?]]]]]]]]]]]]; discriminate. }
  intros e I. exists e. auto.
Qed.

(** In general the exception lets the environment jump: here the only transition from "a" needs
    the system action "go", the system does nothing, and the trace leaves for "c", to which there
    is no transition. *)
Definition t4 : fts := {|
  f_nodes := [(SStr "a", None); (SStr "b", None); (SStr "c", None)]; f_initial := [SStr "a"]; f_aps := [];
  f_actions := [("sys_actions", [SStr "go"; SStr "stop"])]; f_sys_must := Some Mutex; f_env_must := None;
  f_trans := [{| e_from := SStr "a"; e_to := SStr "b"; e_label := [("sys_actions", SStr "go")]; e_prev := [] |};
              {| e_from := SStr "c"; e_to := SStr "c"; e_label := []; e_prev := [] |}]; f_owner := "env" |}.
Theorem env_to_spec_refuted : exists t var bs ba g A s, good_fts t /\ ident var /\
  (forall k cod, In (k, cod) (f_actions t) -> has_word "sys" k -> cod <> []) /\
  env_to_spec t false var bs ba = Ok g /\ env_part g = Some A /\ sat_part s A /\
  (forall loc, locations t bs var s loc -> exists i, forall e, In e (f_trans t) -> e_from e = loc i -> e_to e <> loc (S i)).
Proof.
  assert (G : good_fts t4).
  { constructor; cbn -[ident].
    - nodup.
    - intros q I. idents.
    - intros q I. idents.
    - nodup.
    - intros k cod I. ins; injection I as <- <-; (split; [split; reflexivity|]; split; [nodup|]); intros v J; idents.
    - intros e I. ins; subst e; (split; [nodup|]); cbn; intros v J; ins; discriminate. }
  assert (NE : forall k cod, In (k, cod) (f_actions t4) -> has_word "sys" k -> cod <> []).
  { intros k cod I _. cbn in I. ins. injection I as <- <-. discriminate. }
  destruct (env_to_spec t4 false "loc" false false) as [g|] eqn:H; [|vm_compute in H; discriminate].
  destruct (env_to_spec_environment _ _ _ _ _ _ G loc_ident NE H) as ((A & EA & MA) & _).
  set (s := fun (i : nat) x => if (x =? "loc")%string then VS (match i with 0 => "a" | _ => "c" end) else VS "sys_actionsnone").
  exists t4, "loc", false, false, g, A, s.
  split; [exact G|]. split; [split; reflexivity|]. split; [exact NE|]. split; [exact H|]. split; [exact EA|]. split.
  - apply MA. split; [intros _; exists (SStr "a"); cbn; auto|]. split; [intros i; cbn; discriminate|]. split; [|split].
    + intros i q I Sq. cbn in I. destruct i as [|i]; ins; subst q; try discriminate.
      * right. split; [eexists; split; [left; reflexivity|reflexivity]|]. split.
        -- intros e Ie Ef. cbn in Ie. ins; subst e; [|discriminate]. exists "sys_actions", (SStr "go").
           split; [left; auto|exists "", "_actions"; reflexivity].
        -- exists "sys_actions", [SStr "go"; SStr "stop"]. split; [left; auto|]. split; [exists "", "_actions"; reflexivity|].
           intros v Iv. ins; subst v; cbn; discriminate.
      * left. eexists. split; [right; left; reflexivity|]. split; [reflexivity|]. split; [cbn; auto|]. split; [reflexivity|].
        split; [intros k v []|intros a []].
    + intros i n _ _ p [].
    + intros i k cod I NS. exfalso. apply NS. cbn in I. ins. injection I as <- <-. exists "", "_actions"; reflexivity.
  - intros loc L. exists 0. destruct (L 0) as (I0 & S0 & _). destruct (L 1) as (I1 & S1 & _).
    intros e I F. cbn in I, I0, I1. ins; subst e; cbn in F |- *; intro T;
      rewrite <- ?F in *; rewrite <- ?T in *; cbn in S0, S1; try discriminate.
Qed.
Print Assumptions env_to_spec_refuted.

(** An action type without values makes the exception "()", which is not a formula. *)
Definition t5 : fts := {|
  f_nodes := [(SStr "a", None)]; f_initial := [SStr "a"]; f_aps := [];
  f_actions := [("sys_actions", []); ("sys_more", [SStr "go"])]; f_sys_must := Some Mutex; f_env_must := None;
  f_trans := [{| e_from := SStr "a"; e_to := SStr "a"; e_label := [("sys_more", SStr "go")]; e_prev := [] |}]; f_owner := "env" |}.
Theorem env_to_spec_empty_type_refuted : exists g, env_to_spec t5 false "loc" false false = Ok g /\ env_part g = None.
Proof. eexists. split; vm_compute; reflexivity. Qed.
Print Assumptions env_to_spec_empty_type_refuted.
