(** Model checking with stormpy (C71): what is returned, a concrete case, and what is wrong. *)
From Coq Require Import List String Ascii Bool Arith ZArith QArith Qcanon Qabs Lia Lqa.
From Verif Require Import M_Base M_Lexer M_Tree S_Syntax S_LTL L_Dec.
From Verif Require Import M_Dict M_Graph M_Machine M_Compose S_Compose L_Compose T_Compose M_Storm S_Storm S_Storm2 L_Storm T_Storm T_Storm2.
Import ListNotations.
Open Scope list_scope.
Open Scope string_scope.

Print Assumptions to_tulip_state_spec.
Print Assumptions extract_probability_spec.
Print Assumptions action_map_exact.
Print Assumptions extract_policy_spec.

(** Theorem (C71, results).  If stormpy builds the model of the text that it is given, and gives each of
    its states the value of the formula, then the function that is returned gives the states of the model
    the values of the formula in a program that is the model, and it has a value for the initial state. *)
Theorem model_checking_values {N A} (neqb : N -> N -> bool) (m : model N) (storm : string -> res smodel)
    (check : string -> smodel -> bool -> res ((nat -> A) * option (nat -> string))) (val_of : program -> string -> nat -> A) formula eps :
  (forall a b, neqb a b = true <-> a = b) -> good_markov m -> told_apart m ->
  (eps = Q2Qc (1 # 20000) \/ eps = 0%Qc /\ four_decimals m) ->
  (forall txt P, to_prism neqb m = Ok txt -> prism_read txt = Some P -> exists vals sm, storm txt = Ok sm /\ built P vals sm /\
     exists at_state ch, check formula sm false = Ok (at_state, ch) /\ forall i v, nth_error vals i = Some v -> at_state i = val_of P formula v) ->
  exists P t, describes neqb str_nat m eps P /\ model_checking neqb storm check m formula false = Ok (t, None) /\
    (forall s y, table_get neqb s t = Some y -> exists v, nth_error (node_list (m_ts m)) v = Some s /\ y = val_of P formula v) /\
    exists s0, g_init (m_ts m) = [s0] /\ nth_error (node_list (m_ts m)) (pg_init P) = Some s0 /\ table_get neqb s0 t = Some (val_of P formula (pg_init P)).
Proof.
  intros E GM TA EPS ST.
  assert (X : exists txt P, to_prism neqb m = Ok txt /\ prism_read txt = Some P /\ describes neqb str_nat m eps P).
  { destruct EPS as [->|[-> FD]]; [apply to_prism_describes|apply to_prism_exact]; assumption. }
  destruct X as (txt & P & T & R & D). destruct (ST txt P T R) as (vals & sm & S & B & at_state & ch & C & V).
  destruct (extract_probability_spec neqb E m GM eps P vals sm D B TA at_state) as (t & F & G1 & G2).
  exists P, t. split; [exact D|]. split; [|split].
  - unfold model_checking. rewrite T. cbn [bind]. rewrite S. cbn [bind]. rewrite C. cbn [bind fst]. rewrite F. cbn [bind].
    destruct (gm_kind m GM) as [->| ->]; reflexivity.
  - intros s y H.
    assert (Z : (exists i v, nth_error vals i = Some v /\ nth_error (node_list (m_ts m)) v = Some s) \/ (forall v, In v vals -> nth_error (node_list (m_ts m)) v <> Some s)).
    { destruct (existsb (fun v => match nth_error (node_list (m_ts m)) v with Some s' => neqb s' s | None => false end) vals) eqn:Ex.
      - left. apply existsb_exists in Ex. destruct Ex as (v & I & Y). destruct (nth_error (node_list (m_ts m)) v) eqn:Hs; [|discriminate]. apply E in Y. subst n.
        destruct (In_nth_error _ _ I) as [i Hi]. eauto.
      - right. intros v I Y. assert (existsb (fun v => match nth_error (node_list (m_ts m)) v with Some s' => neqb s' s | None => false end) vals = true); [|congruence].
        apply existsb_exists. exists v. split; [exact I|]. rewrite Y. apply E. reflexivity. }
    destruct Z as [(i & v & Hv & Hs)|NE]; [|rewrite (G2 s NE) in H; discriminate]. rewrite (G1 i v s Hv Hs) in H. injection H as <-. exists v. split; [exact Hs|]. apply V. exact Hv.
  - destruct (d_init _ _ _ _ _ D) as (s0 & I0 & N0). destruct (b_init P vals sm B) as (i & _ & Hi). exists s0. split; [exact I0|]. split; [exact N0|].
    rewrite (G1 i (pg_init P) s0 Hi N0). f_equal. apply V. exact Hi.
Qed.
Print Assumptions model_checking_values.

(** Theorem (C71, policies).  If furthermore stormpy names the choices after the actions, and picks a good
    command in each state, then the policy has for each state that has an entry the action of a good
    command, provided that probabilities have four decimals and each two actions differ by more than a
    millionth in the probability of some explored step. *)
Theorem model_checking_policy {N A} (neqb : N -> N -> bool) (m : model N) (storm : string -> res smodel)
    (check : string -> smodel -> bool -> res ((nat -> A) * option (nat -> string))) (good : program -> string -> nat -> command -> Prop)
    (nm : string -> string) formula :
  (forall a b, neqb a b = true <-> a = b) -> good_markov m -> told_apart m -> m_kind m = MDP -> four_decimals m -> one_transition m ->
  (forall txt P, to_prism neqb m = Ok txt -> prism_read txt = Some P -> exists vals sm, storm txt = Ok sm /\ built P vals sm /\ names_of nm P vals sm /\
     apart m (Q2Qc (1 # 1000000)) (fun s => exists v, In v vals /\ nth_error (node_list (m_ts m)) v = Some s) /\
     exists at_state ch, check formula sm true = Ok (at_state, Some ch) /\
       forall i v, nth_error vals i = Some v -> exists c t, In c (enabled P v) /\ cm_act c = Some t /\ ch i = nm t /\ good P formula v c) ->
  exists P t pol, describes neqb str_nat m 0%Qc P /\ model_checking neqb storm check m formula true = Ok (t, Some pol) /\
    (forall s a, table_get neqb s pol = Some a -> exists v c, nth_error (node_list (m_ts m)) v = Some s /\ In c (enabled P v) /\
       action_text str_nat m a (cm_act c) /\ Forall2 (update_of m 0%Qc) (cm_updates c) (under neqb m s a) /\ good P formula v c) /\
    exists s0 a, g_init (m_ts m) = [s0] /\ table_get neqb s0 pol = Some a.
Proof.
  intros E GM TA K FD ONE ST. destruct (to_prism_exact neqb m E GM FD) as (txt & P & T & R & D).
  destruct (ST txt P T R) as (vals & sm & S & B & NM & AP & at_state & ch & C & V).
  destruct (extract_probability_spec neqb E m GM 0%Qc P vals sm D B TA at_state) as (t & F & _ & _).
  destruct (extract_policy_spec neqb E m GM K P vals sm nm D B TA ONE NM AP ch) as (pol & Fp & G1 & G2).
  { intros i v Hv. destruct (V i v Hv) as (c & t' & Ic & Tc & Cc & _). eauto. }
  exists P, t, pol. split; [exact D|]. split; [|split].
  - unfold model_checking. rewrite T. cbn [bind]. rewrite S. cbn [bind]. rewrite C. cbn [bind fst snd]. rewrite F. cbn [bind]. rewrite Fp. rewrite K. reflexivity.
  - intros s a H.
    assert (Z : (exists i v, nth_error vals i = Some v /\ nth_error (node_list (m_ts m)) v = Some s) \/ (forall v, In v vals -> nth_error (node_list (m_ts m)) v <> Some s)).
    { destruct (existsb (fun v => match nth_error (node_list (m_ts m)) v with Some s' => neqb s' s | None => false end) vals) eqn:Ex.
      - left. apply existsb_exists in Ex. destruct Ex as (v & I & Y). destruct (nth_error (node_list (m_ts m)) v) eqn:Hs; [|discriminate]. apply E in Y. subst n.
        destruct (In_nth_error _ _ I) as [i Hi]. eauto.
      - right. intros v I Y. assert (existsb (fun v => match nth_error (node_list (m_ts m)) v with Some s' => neqb s' s | None => false end) vals = true); [|congruence].
        apply existsb_exists. exists v. split; [exact I|]. rewrite Y. apply E. reflexivity. }
    destruct Z as [(i & v & Hv & Hs)|NE]; [|rewrite (G2 s NE) in H; discriminate]. destruct (V i v Hv) as (c & t' & Ic & Tc & Cc & Gc).
    destruct (G1 i v s c t' Hv Hs Ic Tc Cc) as (a' & Ga & At & U). rewrite H in Ga. injection Ga as <-. exists v, c. rewrite Tc. auto 8.
  - destruct (d_init _ _ _ _ _ D) as (s0 & I0 & N0). destruct (b_init P vals sm B) as (i & _ & Hi). destruct (V i _ Hi) as (c & t' & Ic & Tc & Cc & _).
    destruct (G1 i _ s0 c t' Hi N0 Ic Tc Cc) as (a & Ga & _). exists s0, a. auto.
Qed.
Print Assumptions model_checking_policy.

(** ** The vehicle *)
Definition program_of (m : model string) : program :=
  match to_prism String.eqb m with
  | Ok t => match prism_read t with Some P => P | None => Program "" 0 0 0 [] [] end
  | Err _ => Program "" 0 0 0 [] []
  end.
Definition tr (j : nat) (q : Q) : nat * Qc := (j, Q2Qc q).
(** The model that stormpy builds, with the names [n0] and [n1] of the choices in the first two states and
    [n2] in the last. *)
Definition vehicle_built (n0 n1 n2 : string) : smodel := SModel SMDP
  [SState ["init"; "a8"] [SAction n0 [tr 0 (1 # 10); tr 1 (9 # 10)]; SAction n1 [tr 0 (8 # 10); tr 1 (2 # 10)]];
   SState ["a4"] [SAction n0 [tr 1 (2 # 10); tr 2 (8 # 10)]; SAction n1 [tr 1 (9 # 10); tr 2 (1 # 10)]];
   SState ["a9"] [SAction n2 [tr 2 1]]] [0].

(** A check that a model is the one built of a program. *)
Section Checker.
  Fixpoint nodupb (l : list nat) : bool := match l with [] => true | x :: r => negb (existsb (Nat.eqb x) r) && nodupb r end.
  Lemma nodupb_ok l : nodupb l = true -> NoDup l.
  Proof.
    induction l as [|x l IH]; [constructor|]. cbn. rewrite andb_true_iff, negb_true_iff. intros [A B]. constructor; [|auto].
    intro I. assert (existsb (Nat.eqb x) l = true); [|congruence]. apply existsb_exists. exists x. split; [exact I|apply Nat.eqb_refl].
  Qed.
  Definition choiceb (vals : list nat) (a : saction) (c : command) : bool :=
    nodupb (map fst (sa_trans a)) &&
    forallb (fun t => match nth_error vals (fst t) with
                      | Some w => existsb (Nat.eqb w) (map snd (cm_updates c)) && Qc_eq_bool (snd t) (goes c w)
                      | None => false end) (sa_trans a) &&
    forallb (fun w => existsb (fun t => match nth_error vals (fst t) with
                                        | Some w' => Nat.eqb w' w && Qc_eq_bool (snd t) (goes c w)
                                        | None => false end) (sa_trans a)) (map snd (cm_updates c)).
  Lemma choiceb_ok vals a c : choiceb vals a c = true -> is_choice vals a c.
  Proof.
    unfold choiceb. rewrite !andb_true_iff, !forallb_forall. intros [[A B] C]. split; [apply nodupb_ok; exact A|]. split.
    - intros j q I. specialize (B _ I). cbn [fst snd] in B. destruct (nth_error vals j) as [w|]; [|discriminate]. exists w. split; [reflexivity|].
      apply andb_true_iff in B. destruct B as [B1 B2]. split; [|apply Qc_eq_bool_correct; exact B2].
      apply existsb_exists in B1. destruct B1 as (w' & I' & E). apply Nat.eqb_eq in E. subst w'. exact I'.
    - intros w I. specialize (C _ I). apply existsb_exists in C. destruct C as ([j q] & It & E). cbn [fst snd] in E. destruct (nth_error vals j) as [w'|] eqn:H; [|discriminate].
      apply andb_true_iff in E. destruct E as [E1 E2]. apply Nat.eqb_eq in E1. subst w'. apply Qc_eq_bool_correct in E2. subst q. eauto.
  Qed.
  Fixpoint forall2b {A B} (p : A -> B -> bool) (l : list A) (l' : list B) : bool :=
    match l, l' with [], [] => true | x :: r, y :: r' => p x y && forall2b p r r' | _, _ => false end.
  Lemma forall2b_ok {A B} (p : A -> B -> bool) (R : A -> B -> Prop) l l' : (forall x y, p x y = true -> R x y) -> forall2b p l l' = true -> Forall2 R l l'.
  Proof. intro H. revert l'. induction l as [|x l IH]; intros [|y l']; try discriminate; [constructor|]. cbn. rewrite andb_true_iff. intros [A1 A2]. constructor; auto. Qed.
  Definition holdsb (P : program) (v : nat) (p : string) : bool := existsb (fun x => (fst x =? p) && existsb (Nat.eqb v) (snd x)) (pg_labels P).
  Lemma holdsb_ok P v p : holdsb P v p = true <-> holds_label P v p.
  Proof.
    unfold holdsb, holds_label. rewrite existsb_exists. split.
    - intros ([p' vs] & I & E). cbn [fst snd] in E. apply andb_true_iff in E. destruct E as [E1 E2]. apply String.eqb_eq in E1. subst p'. exists vs. split; [exact I|].
      apply existsb_exists in E2. destruct E2 as (w & J & E). apply Nat.eqb_eq in E. subst w. exact J.
    - intros (vs & I & J). exists (p, vs). split; [exact I|]. cbn [fst snd]. rewrite String.eqb_refl. apply existsb_exists. exists v. split; [exact J|apply Nat.eqb_refl].
  Qed.
  Definition stateb (P : program) (vals : list nat) (st : sstate) (v : nat) : bool :=
    forallb (fun p => (p =? "init") || (p =? "deadlock") || Bool.eqb (mem p (ss_labels st)) (holdsb P v p)) (ss_labels st ++ map fst (pg_labels P))%list &&
    match enabled P v with [] => true | cs => forall2b (choiceb vals) (ss_actions st) cs end.
  Definition builtb (P : program) (vals : list nat) (sm : smodel) : bool :=
    match sm_type sm with DTMC => negb (pg_type P =? "mdp") | SMDP => pg_type P =? "mdp" | OtherModel => false end &&
    nodupb vals && Nat.eqb (List.length vals) (List.length (sm_states sm)) &&
    forallb (fun v => Nat.leb (pg_low P) v && Nat.leb v (pg_high P)) vals &&
    match sm_init sm with [i] => match nth_error vals i with Some v => Nat.eqb v (pg_init P) | None => false end | _ => false end &&
    forall2b (stateb P vals) (sm_states sm) vals.
  Lemma Forall2_nth {A B} (R : A -> B -> Prop) l l' i x y : Forall2 R l l' -> nth_error l i = Some x -> nth_error l' i = Some y -> R x y.
  Proof. intro F. revert i. induction F as [|a b l l' H F IH]; intros [|i]; cbn; try discriminate; [congruence|apply IH]. Qed.
  Lemma builtb_ok P vals sm : builtb P vals sm = true -> built P vals sm.
  Proof.
    unfold builtb. rewrite !andb_true_iff. intros [[[[[T ND] L] R] I] S].
    pose proof (forall2b_ok _ (fun st v => stateb P vals st v = true) _ _ (fun _ _ H => H) S) as F. constructor.
    - destruct (sm_type sm); [apply negb_true_iff in T| |discriminate]; rewrite T; reflexivity.
    - split; [apply nodupb_ok; exact ND|apply Nat.eqb_eq; exact L].
    - intros v Iv. rewrite forallb_forall in R. specialize (R v Iv). apply andb_true_iff in R. destruct R as [A B]. apply Nat.leb_le in A. apply Nat.leb_le in B. auto.
    - destruct (sm_init sm) as [|i [|]]; try discriminate. exists i. split; [reflexivity|]. destruct (nth_error vals i); [|discriminate]. apply Nat.eqb_eq in I. congruence.
    - intros i st v Hi Hv p NI ND'. pose proof (Forall2_nth _ _ _ _ _ _ F Hi Hv) as X. cbn beta in X. unfold stateb in X. apply andb_true_iff in X. destruct X as [X _].
      rewrite forallb_forall in X. rewrite <- (mem_In p (ss_labels st)), <- holdsb_ok.
      assert (Y : In p (ss_labels st ++ map fst (pg_labels P))%list -> mem p (ss_labels st) = holdsb P v p).
      { intro J. specialize (X p J). apply orb_true_iff in X. destruct X as [X|X]; [|apply Bool.eqb_prop; exact X]. apply orb_true_iff in X. destruct X as [X|X]; apply String.eqb_eq in X; contradiction. }
      split; intro H.
      + rewrite <- Y; [exact H|]. apply in_app_iff. left. apply mem_In. exact H.
      + rewrite Y; [exact H|]. apply in_app_iff. right. apply holdsb_ok in H. destruct H as (vs & J & _). apply in_map_iff. exists (p, vs). auto.
    - intros i st v Hi Hv NE. pose proof (Forall2_nth _ _ _ _ _ _ F Hi Hv) as X. cbn beta in X. unfold stateb in X. apply andb_true_iff in X. destruct X as [_ X].
      destruct (enabled P v) as [|c cs]; [congruence|]. exact (forall2b_ok _ _ _ _ (choiceb_ok vals) X).
  Qed.
  Definition namesb (nm : string -> string) (P : program) (vals : list nat) (sm : smodel) : bool :=
    forallb (fun v => match enabled P v with [] => false | _ => true end) vals &&
    forall2b (fun st v => forall2b (fun a c => match cm_act c with Some t => sa_name a =? nm t | None => false end) (ss_actions st) (enabled P v)) (sm_states sm) vals.
  Lemma namesb_ok nm P vals sm : (forall t t', nm t = nm t' -> t = t') -> namesb nm P vals sm = true -> names_of nm P vals sm.
  Proof.
    intros Inj H. unfold namesb in H. apply andb_true_iff in H. destruct H as [A B]. rewrite forallb_forall in A. constructor; [| |exact Inj].
    - intros v Iv E. specialize (A v Iv). rewrite E in A. discriminate.
    - intros i st v Hi Hv. pose proof (forall2b_ok _ (fun st v => _ = true) _ _ (fun _ _ H => H) B) as F. pose proof (Forall2_nth _ _ _ _ _ _ F Hi Hv) as X. cbn beta in X.
      refine (forall2b_ok _ _ _ _ _ X). intros a c Y. destruct (cm_act c) as [t|]; [|discriminate]. apply String.eqb_eq in Y. eauto.
  Qed.
End Checker.

Ltac stated H := destruct H as (?at_ & ?Hin & ?Hlk); cbn in Hin;
  repeat (destruct Hin as [Hin|Hin]; [injection Hin as <- <-; cbn in Hlk; injection Hlk as <-|]); try contradiction.
Example vehicle_told : told_apart vehicle.
Proof.
  constructor.
  - intros s s' l l' H H' E. stated H; stated H'; try reflexivity; exfalso;
      (destruct (E "a8") as [E1 _]; destruct (E "a4") as [E2 _]; destruct (E "a9") as [E3 _]; cbn in E1, E2, E3; intuition discriminate).
  - intros s l p H I. stated H; cbn in I |- *; tauto.
  - cbn. split; intuition discriminate.
Qed.
Example vehicle_one : one_transition vehicle.
Proof.
  split.
  - cbn [g_edges m_ts vehicle]. repeat (constructor; [cbn; intro H; repeat (destruct H as [H|H]; [discriminate H|]); exact H|]). constructor.
  - intros e e' I I' A B C. cbn in I, I'. repeat (destruct I as [<-|I]); try contradiction; repeat (destruct I' as [<-|I']); try contradiction; try reflexivity; cbn in A, B, C; discriminate.
Qed.
Example vehicle_apart (explored : string -> Prop) : explored "8" -> apart vehicle (Q2Qc (1 # 1000000)) explored.
Proof.
  intros X a b Ia Ib NE. cbn in Ia, Ib. destruct Ia as [<-|[<-|[]]]; destruct Ib as [<-|[<-|[]]]; try congruence.
  - exists (arc "8" "8" 0 (1 # 10) "acc"), (arc "8" "8" 1 (8 # 10) "brake"). do 2 eexists. cbn. repeat (split; [tauto || reflexivity|]). right. reflexivity.
  - exists (arc "8" "8" 1 (8 # 10) "brake"), (arc "8" "8" 0 (1 # 10) "acc"). do 2 eexists. cbn. repeat (split; [tauto || reflexivity|]). left. reflexivity.
Qed.
Definition vehicle_check (value : list Q) (choice : list string) : string -> smodel -> bool -> res ((nat -> Q) * option (nat -> string)) :=
  fun _ _ pol => Ok (fun i => nth i value 0%Q, if pol then Some (fun i => nth i choice "") else None).
(** With the choices named as in the program, the policy is the one that stormpy chose, and so are the
    probabilities; the theorems apply. *)
Example vehicle_checked :
  built (program_of vehicle) [0; 1; 2] (vehicle_built "act0" "act1" "act1") /\
  names_of (fun t => t) (program_of vehicle) [0; 1; 2] (vehicle_built "act0" "act1" "act1") /\
  model_checking String.eqb (fun _ => Ok (vehicle_built "act0" "act1" "act1")) (vehicle_check [1%Q; 1%Q; 1%Q] ["act0"; "act1"; "act1"]) vehicle "Pmax=? [F ""a9""]" true =
    Ok ([("8", (1%Q, [])); ("4", (1%Q, [])); ("9", (1%Q, []))],
        Some [("8", (VStr "acc", ["a8"])); ("4", (VStr "brake", ["a4"])); ("9", (VStr "brake", ["a9"]))]).
Proof.
  split; [apply builtb_ok; vm_compute; reflexivity|]. split; [apply namesb_ok; [auto|vm_compute; reflexivity]|]. vm_compute. reflexivity.
Qed.

(** ** What is wrong *)
(** The choices of stormpy are numbered within each state.  The policy of the vehicle then holds an action
    that the state does not have. *)
Theorem policy_names_refuted : exists (m : model string) P vals sm ch tbl,
  good_markov m /\ told_apart m /\ four_decimals m /\ one_transition m /\
  apart m (Q2Qc (1 # 1000000)) (fun s => exists v, In v vals /\ nth_error (node_list (m_ts m)) v = Some s) /\
  describes String.eqb str_nat m 0%Qc P /\ built P vals sm /\
  (forall st k act, In st (sm_states sm) -> nth_error (ss_actions st) k = Some act -> sa_name act = str_nat k) /\
  (forall i v, nth_error vals i = Some v -> exists k c, ch i = str_nat k /\ nth_error (enabled P v) k = Some c) /\
  extract_policy String.eqb (Some ch) sm m = Ok tbl /\
  exists s a, In s (node_list (m_ts m)) /\ table_get String.eqb s tbl = Some a /\ under String.eqb m s a = [].
Proof.
  exists vehicle, (program_of vehicle), [0; 1; 2], (vehicle_built "0" "1" "0"), (fun i => "0"). eexists.
  split; [exact vehicle_good|]. split; [exact vehicle_told|]. split; [apply vehicle_exact|]. split; [exact vehicle_one|].
  split; [apply vehicle_apart; exists 0; split; [cbn; tauto|reflexivity]|].
  split; [|split; [apply builtb_ok; vm_compute; reflexivity|]].
  { destruct vehicle_exact as (_ & txt & P & T & R & D). unfold program_of. rewrite T, R. exact D. }
  split; [|split; [|split; [vm_compute; reflexivity|]]].
  - intros st k act I H. cbn in I. destruct I as [<-|[<-|[<-|[]]]]; destruct k as [|[|k]]; cbn in H; try (injection H as <-; reflexivity); try discriminate; destruct k; discriminate.
  - intros i v H. exists 0. destruct i as [|[|[|i]]]; cbn in H; try (injection H as <-); try (destruct i; discriminate); (eexists; split; [reflexivity|vm_compute; reflexivity]).
  - exists "9", (VStr "acc"). split; [cbn; tauto|]. split; reflexivity.
Qed.
Print Assumptions policy_names_refuted.

Ltac good_tac := constructor;
  [right; reflexivity|cbn; repeat constructor; cbn; intuition discriminate|eexists; split; [reflexivity|cbn; tauto]
  |intros ?e ?H; members H; cbn; tauto
  |intros ?e ?H; members H; (eexists; split; [reflexivity|]; unfold Qcle; cbn; unfold Qle; cbn; lia)
  |intros ?e ?H; cbn [m_kind]; members H; (eexists; split; [reflexivity|cbn; tauto])
  |split; [cbn; repeat constructor; cbn; intuition discriminate|cbn; intuition discriminate]
  |intros ?s ?a ?H; cbn in H; repeat (destruct H as [H|H]; [injection H as <- <-; eexists; reflexivity|]); contradiction
  |].

(** Two actions that lead to different states: with choices named after the actions, the policy holds the
    other action. *)
Definition fork : model string := Model MDP ["p"; "q"; "r"] [VStr "a"; VStr "b"]
  (Graph [node "0" ["p"]; node "1" ["q"]; node "2" ["r"]] [arc "0" "1" 0 1 "a"; arc "0" "2" 0 1 "b"; arc "1" "1" 0 1 "a"; arc "2" "2" 0 1 "a"] ["0"]).
Definition fork_built : smodel := SModel SMDP
  [SState ["init"; "p"] [SAction "act0" [tr 1 1]; SAction "act1" [tr 2 1]]; SState ["q"] [SAction "act0" [tr 1 1]]; SState ["r"] [SAction "act0" [tr 2 1]]] [0].
Example fork_good : good_markov fork.
Proof.
  good_tac. intros p H. cbn in H. destruct H as [<-|[<-|[<-|[]]]]; (split; [cbn; intuition discriminate|]).
  - exists "0", ["p"]. split; [|cbn; tauto]. exists [("ap", VSet ["p"])]. cbn. tauto.
  - exists "1", ["q"]. split; [|cbn; tauto]. exists [("ap", VSet ["q"])]. cbn. tauto.
  - exists "2", ["r"]. split; [|cbn; tauto]. exists [("ap", VSet ["r"])]. cbn. tauto.
Qed.
Example fork_told : told_apart fork.
Proof.
  constructor.
  - intros s s' l l' H H' E. stated H; stated H'; try reflexivity; exfalso;
      (destruct (E "p") as [E1 _]; destruct (E "q") as [E2 _]; destruct (E "r") as [E3 _]; cbn in E1, E2, E3; intuition discriminate).
  - intros s l p H I. stated H; cbn in I |- *; tauto.
  - cbn. split; intuition discriminate.
Qed.
Example fork_four : four_decimals fork.
Proof. intros e q H. members H; cbn; intros [= <-]; exists 10000%Z; apply Qc_is_canon; reflexivity. Qed.
Theorem policy_targets_refuted : exists (m : model string) P vals sm ch tbl,
  good_markov m /\ told_apart m /\ four_decimals m /\ one_transition m /\
  describes String.eqb str_nat m 0%Qc P /\ built P vals sm /\ names_of (fun t => t) P vals sm /\
  (forall i v, nth_error vals i = Some v -> exists c, In c (enabled P v) /\ cm_act c = Some (ch i)) /\
  extract_policy String.eqb (Some ch) sm m = Ok tbl /\
  exists i v s a, nth_error vals i = Some v /\ nth_error (node_list (m_ts m)) v = Some s /\ table_get String.eqb s tbl = Some a /\
    ~ action_text str_nat m a (Some (ch i)).
Proof.
  exists fork, (program_of fork), [0; 1; 2], fork_built, (fun i => nth i ["act1"; "act0"; "act0"] ""). eexists.
  split; [exact fork_good|]. split; [exact fork_told|]. split; [exact fork_four|]. split.
  { split.
    - cbn [g_edges m_ts fork]. repeat (constructor; [cbn; intro H; repeat (destruct H as [H|H]; [discriminate H|]); exact H|]). constructor.
    - intros e e' I I' A B C. cbn in I, I'. repeat (destruct I as [<-|I]); try contradiction; repeat (destruct I' as [<-|I']); try contradiction; try reflexivity; cbn in A, B, C; discriminate. }
  split.
  { destruct (to_prism_exact String.eqb fork String.eqb_eq fork_good fork_four) as (txt & P & T & R & D). unfold program_of. rewrite T, R. exact D. }
  split; [apply builtb_ok; vm_compute; reflexivity|]. split; [apply namesb_ok; [auto|vm_compute; reflexivity]|].
  split; [|split; [vm_compute; reflexivity|]].
  - intros i v H. destruct i as [|[|[|i]]]; cbn in H; try (injection H as <-); try (destruct i; discriminate).
    + eexists. split; [apply nth_error_In with (n := 1); vm_compute; reflexivity|reflexivity].
    + eexists. split; [apply nth_error_In with (n := 0); vm_compute; reflexivity|reflexivity].
    + eexists. split; [apply nth_error_In with (n := 0); vm_compute; reflexivity|reflexivity].
  - exists 0, 0, "0", (VStr "a"). do 3 (split; [reflexivity|]). intro X.
    assert (Y : action_text str_nat fork (VStr "b") (Some "act1")) by (exists 1; split; reflexivity). pose proof (action_text_inj fork eq_refl _ _ _ X Y) as Z. discriminate Z.
Qed.
Print Assumptions policy_targets_refuted.

(** Probabilities that four decimals cannot write: the one right action is ruled out, and there is no
    policy at all. *)
Definition third : model string := Model MDP ["p"; "q"] [VStr "a"]
  (Graph [node "0" ["p"]; node "1" ["q"]] [arc "0" "1" 0 (1 # 3) "a"; arc "0" "0" 0 (2 # 3) "a"; arc "1" "1" 0 1 "a"] ["0"]).
Definition third_built : smodel := SModel SMDP
  [SState ["init"; "p"] [SAction "act0" [tr 0 (6667 # 10000); tr 1 (3333 # 10000)]]; SState ["q"] [SAction "act0" [tr 1 1]]] [0].
Theorem policy_rounding_refuted : exists (m : model string) txt P vals sm ch,
  good_markov m /\ told_apart m /\ one_transition m /\ stochastic String.eqb (m_ts m) /\ List.length (m_actions m) = 1 /\
  to_prism String.eqb m = Ok txt /\ prism_read txt = Some P /\ built P vals sm /\ names_of (fun t => t) P vals sm /\
  (forall i v, nth_error vals i = Some v -> exists c, In c (enabled P v) /\ cm_act c = Some (ch i)) /\
  extract_policy String.eqb (Some ch) sm m = Err "ValueError".
Proof.
  exists third. eexists. exists (program_of third), [0; 1], third_built, (fun _ => "act0"). split.
  { good_tac. intros p H. cbn in H. destruct H as [<-|[<-|[]]]; (split; [cbn; intuition discriminate|]).
    - exists "0", ["p"]. split; [|cbn; tauto]. exists [("ap", VSet ["p"])]. cbn. tauto.
    - exists "1", ["q"]. split; [|cbn; tauto]. exists [("ap", VSet ["q"])]. cbn. tauto. }
  split.
  { constructor.
    - intros s s' l l' H H' E. stated H; stated H'; try reflexivity; exfalso;
        (destruct (E "p") as [E1 _]; destruct (E "q") as [E2 _]; cbn in E1, E2; intuition discriminate).
    - intros s l p H I. stated H; cbn in I |- *; tauto.
    - cbn. split; intuition discriminate. }
  split.
  { split.
    - cbn [g_edges m_ts third]. repeat (constructor; [cbn; intro H; repeat (destruct H as [H|H]; [discriminate H|]); exact H|]). constructor.
    - intros e e' I I' A B C. cbn in I, I'. repeat (destruct I as [<-|I]); try contradiction; repeat (destruct I' as [<-|I']); try contradiction; try reflexivity; cbn in A, B, C; discriminate. }
  split; [intros e H; members H; apply Qc_is_canon; vm_compute; reflexivity|]. split; [reflexivity|].
  split; [vm_compute; reflexivity|]. split; [vm_compute; reflexivity|].
  split; [apply builtb_ok; vm_compute; reflexivity|]. split; [apply namesb_ok; [auto|vm_compute; reflexivity]|]. split; [|vm_compute; reflexivity].
  intros i v H. destruct i as [|[|i]]; cbn in H; try (injection H as <-); try (destruct i; discriminate); (eexists; split; [apply nth_error_In with (n := 0); vm_compute; reflexivity|reflexivity]).
Qed.
Print Assumptions policy_rounding_refuted.

(** Two states with the same labels: no result is returned at all. *)
Definition twins : model string := Model MC ["p"] []
  (Graph [node "0" ["p"]; node "1" ["p"]] [Edge "0" "1" 0 [("probability", VNum 1%Qc)]; Edge "1" "1" 0 [("probability", VNum 1%Qc)]] ["0"]).
Definition twins_built : smodel := SModel DTMC [SState ["init"; "p"] [SAction "0" [tr 1 1]]; SState ["p"] [SAction "0" [tr 1 1]]] [0].
Theorem same_labels_refuted : exists (m : model string) txt P vals sm,
  good_markov m /\ to_prism String.eqb m = Ok txt /\ prism_read txt = Some P /\ built P vals sm /\
  forall at_state : nat -> Q, extract_probability String.eqb at_state sm m = Err "ValueError".
Proof.
  exists twins. eexists. exists (program_of twins), [0; 1], twins_built. split.
  { constructor.
    + left. reflexivity.
    + cbn. repeat constructor; cbn; intuition discriminate.
    + eexists. split; [reflexivity|cbn; tauto].
    + intros e H. members H; cbn; tauto.
    + intros e H. members H; (eexists; split; [reflexivity|]; unfold Qcle; cbn; unfold Qle; cbn; lia).
    + intros e H. cbn [m_kind twins]. members H; reflexivity.
    + split; [constructor|intros []].
    + intros s a H. cbn in H. destruct H as [[= <- <-]|[[= <- <-]|[]]]; eexists; reflexivity.
    + intros p H. cbn in H. destruct H as [<-|[]]. split; [cbn; intuition discriminate|]. exists "0", ["p"]. split; [|cbn; tauto]. exists [("ap", VSet ["p"])]. cbn. tauto. }
  split; [vm_compute; reflexivity|]. split; [vm_compute; reflexivity|]. split; [apply builtb_ok; vm_compute; reflexivity|]. intro at_state. reflexivity.
Qed.
Print Assumptions same_labels_refuted.
