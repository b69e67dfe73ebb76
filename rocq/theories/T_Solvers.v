(** C69: what solvers are given, and what becomes of their answers. *)
From Coq Require Import List String Bool ZArith Arith Lia.
From Verif Require Import M_Dict L_Dict M_Graph M_Machine S_Run L_Machine M_Strategy S_Strategy T_Strategy.
From Verif Require Import M_Base M_Ast M_Lexer M_Parser M_Spec S_LTL S_Gr1 S_Form S_Syntax S_Tree S_Python M_Form M_Tree L_Lexer L_Gr1 L_Form L_RoundTrip L_ParseWf L_Text L_Den L_Encode T_Encode.
From Verif Require Import M_Gr1c S_Gr1c T_Gr1c M_Synth S_Synth M_Synthesize S_Synthesize T_Synthesize M_Solvers S_Solvers.
Import ListNotations.
Open Scope string_scope.
Open Scope list_scope.
Open Scope nat_scope.

Notation env_part := S_Gr1.env_part.
Notation sys_part := S_Gr1.sys_part.

(** ** The automaton given to omega *)
Definition sys_or_env (g : grspec) (x : string) : option dom :=
  match lookup x (sys_vars g) with Some d => Some d | None => lookup x (env_vars g) end.
Definition range_of (d : dom) (r : odom) : Prop :=
  match d with
  | DBool => r = OBool
  | DInt a b => r = ORange a b
  | DEnum l => exists a b, r = ORange a b /\ forall z, (a <= z <= b)%Z <-> exists k v, z = Z.of_nat k /\ nth_error l k = Some v
  end.

Lemma lookup_map_snd {A B} (f : A -> B) x (l : list (string * A)) :
  lookup x (map (fun kv => (fst kv, f (snd kv))) l) = option_map f (lookup x l).
Proof. induction l as [|[k v] l IH]; cbn [map lookup fst snd]; [reflexivity|]. destruct (x =? k)%string; auto. Qed.

Lemma to_automaton_inv g a : to_automaton g = Ok a -> exists m, str_to_int g = Ok m /\
  a_vars a = map (fun kv => (fst kv, omega_dom (snd kv))) (dupdate (env_vars g) (sys_vars g)) /\
  a_env a = map fst (env_vars g) /\ a_sys a = map fst (sys_vars g) /\
  conj_text m (env_init g) = Ok (a_init_env a) /\ conj_text m (sys_init g) = Ok (a_init_sys a) /\
  conj_text m (env_safety g) = Ok (a_action_env a) /\ conj_text m (sys_safety g) = Ok (a_action_sys a) /\
  match env_prog g with [] => a_persist a = ["FALSE"] | _ :: _ => exists ts, mapr (bool_int m) (env_prog g) = Ok ts /\ a_persist a = map (fun s => "!(" ++ s ++ ")")%string ts end /\
  match sys_prog g with [] => a_recur a = ["TRUE"] | _ :: _ => mapr (bool_int m) (sys_prog g) = Ok (a_recur a) end /\
  a_moore a = moore g /\ a_plus_one a = plus_one g /\ a_qinit a = qinit g.
Proof.
  intro H. unfold to_automaton in H. apply bind_Ok in H. destruct H as (m & Hm & H). exists m. split; [exact Hm|].
  apply bind_Ok in H. destruct H as (ie & H1 & H). apply bind_Ok in H. destruct H as (is & H2 & H).
  apply bind_Ok in H. destruct H as (ae & H3 & H). apply bind_Ok in H. destruct H as (as_ & H4 & H).
  apply bind_Ok in H. destruct H as (w1 & H5 & H). apply bind_Ok in H. destruct H as (w2 & H6 & H).
  apply Ok_inj in H. subst a. cbn [a_vars a_env a_sys a_init_env a_init_sys a_action_env a_action_sys a_persist a_recur a_moore a_plus_one a_qinit].
  do 7 (split; [reflexivity || assumption|]). split; [|split; [|auto]].
  - destruct (env_prog g) as [|x l]; [apply Ok_inj in H5; auto|]. apply bind_Ok in H5. destruct H5 as (ts & T & H5). apply Ok_inj in H5. eauto.
  - destruct (sys_prog g) as [|x l]; [apply Ok_inj in H6; auto|exact H6].
Qed.

(** The declared variables with their ranges, the players, and the options.  A string variable
    ranges over the positions of its values. *)
Theorem automaton_declares : forall g a, to_automaton g = Ok a -> NoDup (map fst (sys_vars g)) ->
  (forall x, match sys_or_env g x with
             | Some d => exists r, lookup x (a_vars a) = Some r /\ range_of d r
             | None => lookup x (a_vars a) = None
             end) /\
  a_env a = map fst (env_vars g) /\ a_sys a = map fst (sys_vars g) /\
  a_moore a = moore g /\ a_plus_one a = plus_one g /\ a_qinit a = qinit g.
Proof.
  intros g a H Nd. destruct (to_automaton_inv g a H) as (m & _ & V & E1 & E2 & _ & _ & _ & _ & _ & _ & M1 & M2 & M3).
  split; [|auto]. intro x. rewrite V, lookup_map_snd, lookup_dupdate by assumption. unfold sys_or_env.
  assert (R : forall d, exists r, Some (omega_dom d) = Some r /\ range_of d r).
  { intro d. exists (omega_dom d). split; [reflexivity|]. destruct d as [|p q|l]; cbn [omega_dom range_of]; try reflexivity.
    eexists _, _. split; [reflexivity|]. intro z. split.
    - intros Z. destruct (nth_error l (Z.to_nat z)) as [v|] eqn:E; [exists (Z.to_nat z), v; split; [lia|exact E]|].
      apply nth_error_None in E. lia.
    - intros (k & v & -> & K). assert (k < List.length l) by (apply nth_error_Some; congruence). lia. }
  destruct (lookup x (sys_vars g)); cbn [option_map]; [apply R|]. destruct (lookup x (env_vars g)); cbn [option_map]; [apply R|reflexivity].
Qed.
Print Assumptions automaton_declares.

(** Every specification whose clauses can be encoded is accepted. *)
Lemma mapr_exists {A B} (f : A -> res B) l : (forall x, In x l -> exists y, f x = Ok y) -> exists ys, mapr f l = Ok ys.
Proof.
  induction l as [|x l IH]; intro H; cbn [mapr]; [eauto|]. destruct (H x (or_introl eq_refl)) as [y ->]. cbn [bind].
  destruct IH as [ys ->]; [intros; apply H; right; auto|]. cbn [bind]. eauto.
Qed.
Lemma in_clauses g : Forall (fun l => forall x, In x l -> In x (clauses g)) [env_init g; sys_init g; env_safety g; sys_safety g; env_prog g; sys_prog g].
Proof. unfold clauses. repeat constructor; intros x I; rewrite !in_app_iff; tauto. Qed.
Theorem automaton_accepted : forall g, (exists a, to_automaton g = Ok a) <-> (forall x, In x (clauses g) -> exists bf, encode_clause g x = Ok bf).
Proof.
  intro g. split.
  - intros [a H] x I. destruct (to_automaton_inv g a H) as (m & S & _). apply mapr_pair in S. destruct S as [S1 S2].
    rewrite <- S1 in I. apply in_map_iff in I. destruct I as ([x' bf] & <- & I). exists bf. apply S2, I.
  - intro H. assert (S : exists m, str_to_int g = Ok m).
    { apply mapr_exists. intros x I. destruct (H x I) as [bf ->]. cbn [bind]. eauto. }
    destruct S as [m S]. pose proof S as S'. apply mapr_pair in S'. destruct S' as [S1 _].
    assert (B : forall l, (forall x, In x l -> In x (clauses g)) -> exists ts, mapr (bool_int m) l = Ok ts).
    { intros l I. apply mapr_exists. intros x J. unfold bool_int. apply I in J. rewrite <- S1 in J.
      destruct (lookup x m) as [bf|] eqn:L; [cbn; eauto|]. apply lookup_none_iff in L. contradiction. }
    assert (C : forall l, (forall x, In x l -> In x (clauses g)) -> exists t, conj_text m l = Ok t).
    { intros l I. destruct l as [|x l]; [cbn; eauto|]. destruct (B _ I) as [ts Q]. unfold conj_text. rewrite Q. cbn [bind]. eauto. }
    pose proof (in_clauses g) as IC. repeat match goal with K : Forall _ (_ :: _) |- _ => inversion K; clear K; subst end.
    unfold to_automaton. rewrite S. cbn [bind]. cbv zeta.
    repeat match goal with K : forall x, In x ?l -> In x (clauses g) |- context [conj_text m ?l] => destruct (C l K) as [? ->]; clear K; cbn [bind] end.
    destruct (B (env_prog g)) as [ts1 T1]; [assumption|]. destruct (B (sys_prog g)) as [ts2 T2]; [assumption|].
    destruct (env_prog g); [|rewrite T1]; cbn [bind]; (destruct (sys_prog g); [|rewrite T2]; cbn [bind]; eauto).
Qed.
Print Assumptions automaton_accepted.

Section Meaning.
  Variables (g : grspec) (m : list (string * (node * string))).
  Hypothesis S : str_to_int g = Ok m.
  Hypothesis GD : good_domains g.
  Hypothesis T : forall x t, In x (clauses g) -> parse x = Some t -> typed (spec_enums g) t.

  (** The text [y] says of encoded traces what the tree [t] says of traces. *)
  Definition codes (y : string) (t : node) : Prop := exists b, atom y b /\
    forall s s', encoded (spec_enums g) s s' -> forall i, holds s i t <-> holds s' i b.
  Lemma bool_int_codes x y : In x (clauses g) -> bool_int m x = Ok y -> exists t, parse x = Some t /\ codes y t.
  Proof.
    intros I H. unfold bool_int in H. destruct (lookup x m) as [[b f]|] eqn:L; [|discriminate]. cbn in H. apply Ok_inj in H. subst f.
    apply lookup_in in L. pose proof (str_to_int_meaning g m S GD) as [_ M2].
    assert (EC : encode_clause g x = Ok (b, y)). { pose proof S as S'. apply mapr_pair in S'. destruct S' as [_ S']. apply S'; auto. }
    apply encode_inv in EC. destruct EC as (t & Pt & A & En & Fl). exists t. split; [exact Pt|].
    destruct (M2 x b y t L Pt) as (_ & NS & M3). exists b. split; [|intros; apply M3; auto; apply (T x); auto].
    apply atom_flatten; auto. eapply enc_wf; eauto. eapply parse_wf; eauto.
  Qed.
  Lemma list_codes l ys ts : (forall x, In x l -> In x (clauses g)) -> mapr (bool_int m) l = Ok ys -> parse_all l = Some ts -> Forall2 codes ys ts.
  Proof.
    revert ys ts. induction l as [|x l IH]; intros ys ts I H P; cbn [mapr parse_all] in *.
    - apply Ok_inj in H. subst. injection P as <-. constructor.
    - destruct (bool_int m x) as [y|] eqn:B; [|discriminate]. cbn [bind] in H. destruct (mapr _ l) as [ys'|]; [|discriminate]. cbn [bind] in H.
      apply Ok_inj in H. subst ys. destruct (bool_int_codes x y (I x (or_introl eq_refl)) B) as (t & Pt & C). rewrite Pt in P.
      destruct (parse_all l) as [ts'|]; [|discriminate]. injection P as <-. constructor; [exact C|]. apply IH; auto. intros; apply I; right; auto.
  Qed.
  Lemma codes_true y t s s' i : codes y t -> encoded (spec_enums g) s s' -> (true_at y s' i <-> holds s i t).
  Proof.
    intros (b & A & M) En. apply atom_parse in A. unfold true_at. rewrite (M s s' En i). split; [|eauto].
    intros (e & P & H). rewrite A in P. injection P as <-. exact H.
  Qed.
  Lemma true_TRUE s i : true_at "TRUE" s i.
  Proof. exists (NBool "True"). split; [vm_compute; reflexivity|]. cbn. auto. Qed.
  Lemma conj_codes l ts txt s s' i : (forall x, In x l -> In x (clauses g)) -> conj_text m l = Ok txt -> parse_all l = Some ts ->
    encoded (spec_enums g) s s' -> (true_at txt s' i <-> forall t, In t ts -> holds s i t).
  Proof.
    intros I H P En. destruct l as [|x l].
    - apply Ok_inj in H. injection P as <-. subst txt. split; [intros _ t []|intros _; apply true_TRUE].
    - apply bind_Ok in H. destruct H as (ys & H & Q). apply Ok_inj in Q. subst txt. pose proof (list_codes _ _ _ I H P) as F.
      assert (Ne : ys <> []). { cbn [mapr] in H. destruct (bool_int m x); [|discriminate]. destruct (mapr _ l); [|discriminate]. apply Ok_inj in H. subst ys. discriminate. }
      clear I H P. assert (X : exists bs, Forall2 atom ys bs /\ ((forall b, In b bs -> holds s' i b) <-> forall t, In t ts -> holds s i t)).
      { clear - F En. induction F as [|y t ys ts (b & A & M) F (bs & B1 & B2)]; [exists []; split; [constructor|split; intros _ ? []]|].
        exists (b :: bs). split; [constructor; auto|]. split.
        - intros H u [<-|U]; [apply (M s s' En), H; left; auto|]. apply B2; auto. intros; apply H; right; auto.
        - intros H u [<-|U]; [apply (M s s' En), H; left; auto|]. apply B2; auto. intros; apply H; right; auto. }
      destruct X as (bs & A & X). rewrite <- X. clear X F. destruct A as [|y b ys bs A0 A]; [contradiction|].
      assert (C : chain 5 (join " & " (y :: ys)) (fold_op AND "&" b bs)).
      { apply (chain_join AND "&" " & "); try reflexivity; [simpl; unfold delim; auto|apply atom_chain; exact A0|].
        clear - A. induction A; constructor; auto. apply atom_chain. assumption. }
      apply chain_parse in C. unfold true_at. rewrite C. split.
      + intros (e & [= <-] & H). apply fold_and_holds in H. destruct H as [H1 H2]. intros u [<-|U]; auto.
      + intro H. eexists. split; [reflexivity|]. apply fold_and_holds. split; [apply H; left; auto|intros; apply H; right; auto].
  Qed.
  Lemma persist_codes l ts ps s s' : (forall x, In x l -> In x (clauses g)) -> parse_all l = Some ts ->
    match l with [] => ps = ["FALSE"] | l => exists ys, mapr (bool_int m) l = Ok ys /\ ps = map (fun s => "!(" ++ s ++ ")")%string ys end ->
    encoded (spec_enums g) s s' ->
    ((forall p, In p ps -> ~ exists i, forall j, i <= j -> true_at p s' j) <->
     (forall t, In t ts -> ~ exists i, forall j, i <= j -> ~ holds s j t)).
  Proof.
    intros I P H En. destruct l as [|x l].
    - injection P as <-. subst ps. split; [intros _ t []|]. intros _ p [<-|[]] (i & K). destruct (K i (le_n i)) as (e & E & F).
      assert (E' : parse "FALSE" = Some (NBool "False")) by (vm_compute; reflexivity). rewrite E' in E. injection E as <-. cbn in F. discriminate F.
    - destruct H as (ys & H & ->). pose proof (list_codes _ _ _ I H P) as F. clear I H P.
      assert (N : forall y t j, codes y t -> (true_at ("!(" ++ y ++ ")") s' j <-> ~ holds s j t)).
      { intros y t j (b & A & M). rewrite (M s s' En j). assert (D : den y (fun s i => holds s i b)).
        { split; [apply A|]. exists b. split; [apply atom_parse; auto|]. intros ? ?. reflexivity. }
        apply d_not, dpre_den in D. destruct D as (_ & e & Pe & Me). unfold true_at. split.
        - intros (e' & Q & K). rewrite Pe in Q. injection Q as <-. apply Me in K. exact K.
        - intro K. exists e. split; [exact Pe|]. apply Me. exact K. }
      induction F as [|y t ys ts C F IH]; [split; intros _ ? []|]. cbn [map]. split.
      + intros H u [<-|U] (i & K).
        * apply (H _ (or_introl eq_refl)). exists i. intros j J. apply (N y t j C). auto.
        * revert U K. intros U K. apply (proj1 IH) in U; [apply U; eauto|]. intros; apply H; right; auto.
      + intros H u [<-|U] (i & K).
        * apply (H _ (or_introl eq_refl)). exists i. intros j J. apply (N y t j C). auto.
        * apply (proj2 IH) in U; [apply U; eauto|]. intros; apply H; right; auto.
  Qed.
  Lemma recur_codes l ts rs s s' : (forall x, In x l -> In x (clauses g)) -> parse_all l = Some ts ->
    match l with [] => rs = ["TRUE"] | l => mapr (bool_int m) l = Ok rs end ->
    encoded (spec_enums g) s s' ->
    ((forall p, In p rs -> forall i, exists j, i <= j /\ true_at p s' j) <->
     (forall t, In t ts -> forall i, exists j, i <= j /\ holds s j t)).
  Proof.
    intros I P H En. destruct l as [|x l].
    - injection P as <-. subst rs. split; [intros _ t []|]. intros _ p [<-|[]] i. exists i. split; [auto|apply true_TRUE].
    - pose proof (list_codes _ _ _ I H P) as F. clear I H P. induction F as [|y t ys ts C F IH]; [split; intros _ ? []|]. split.
      + intros H u [<-|U] i.
        * destruct (H _ (or_introl eq_refl) i) as (j & J & K). exists j. split; [auto|]. apply (codes_true _ _ _ _ _ C En). exact K.
        * apply (proj1 IH); auto. intros; apply H; right; auto.
      + intros H u [<-|U] i.
        * destruct (H _ (or_introl eq_refl) i) as (j & J & K). exists j. split; [auto|]. apply (codes_true _ _ _ _ _ C En). exact K.
        * apply (proj2 IH); auto. intros; apply H; right; auto.
  Qed.
End Meaning.

(** What the automaton says of integer-encoded traces is what the specification says of traces.
    A recurrence goal of the environment appears as a persistence goal with the negation. *)
Theorem automaton_meaning : forall g a P Q, to_automaton g = Ok a -> good_domains g ->
  (forall x t, In x (clauses g) -> parse x = Some t -> typed (spec_enums g) t) ->
  env_part g = Some P -> sys_part g = Some Q ->
  forall s s', encoded (spec_enums g) s s' ->
    (aut_assumes a s' <->
       (forall f, In f (p_init P) -> holds s 0 f) /\ (forall f, In f (p_safe P) -> forall i, holds s i f) /\
       (forall f, In f (p_live P) -> ~ exists i, forall j, i <= j -> ~ holds s j f)) /\
    (sat_part s P -> aut_assumes a s') /\
    (aut_guarantees a s' <-> sat_part s Q).
Proof.
  intros g a P Q H GD T HP HQ s s' En. destruct (to_automaton_inv g a H) as (m & Sm & _ & _ & _ & I1 & I2 & A1 & A2 & W1 & W2 & _).
  pose proof (in_clauses g) as IC. repeat match goal with K : Forall _ (_ :: _) |- _ => inversion K; clear K; subst end.
  unfold env_part, sys_part in *.
  destruct (parse_all (env_init g)) as [ei|] eqn:P1; [|discriminate]. destruct (parse_all (env_safety g)) as [es|] eqn:P2; [|discriminate].
  destruct (parse_all (env_prog g)) as [ep|] eqn:P3; [|discriminate]. injection HP as <-.
  destruct (parse_all (sys_init g)) as [si|] eqn:P4; [|discriminate]. destruct (parse_all (sys_safety g)) as [ss|] eqn:P5; [|discriminate].
  destruct (parse_all (sys_prog g)) as [sp|] eqn:P6; [|discriminate]. injection HQ as <-. unfold sat_part. cbn [p_init p_safe p_live].
  assert (CC := fun l ts txt i K L O => conj_codes g m Sm GD T l ts txt s s' i K L O En).
  assert (E : aut_assumes a s' <->
       (forall f, In f ei -> holds s 0 f) /\ (forall f, In f es -> forall i, holds s i f) /\
       (forall f, In f ep -> ~ exists i, forall j, i <= j -> ~ holds s j f)).
  { unfold aut_assumes. rewrite (CC (env_init g) ei _ 0 ltac:(assumption) I1 P1), (persist_codes g m Sm GD T (env_prog g) ep _ s s' ltac:(assumption) P3 W1 En).
    assert (X : (forall i, true_at (a_action_env a) s' i) <-> (forall f, In f es -> forall i, holds s i f)).
    { split; [intros K f F i|intros K i]; [apply (proj1 (CC (env_safety g) es _ i ltac:(assumption) A1 P2) (K i)); auto|].
      apply (CC (env_safety g) es _ i ltac:(assumption) A1 P2). auto. }
    rewrite X. reflexivity. }
  split; [exact E|]. split.
  - intros (K1 & K2 & K3). apply E. split; [exact K1|]. split; [exact K2|]. intros f F (i & K). destruct (K3 f F i) as (j & J & L). apply (K j J L).
  - unfold aut_guarantees. rewrite (CC (sys_init g) si _ 0 ltac:(assumption) I2 P4), (recur_codes g m Sm GD T (sys_prog g) sp _ s s' ltac:(assumption) P6 W2 En).
    assert (X : (forall i, true_at (a_action_sys a) s' i) <-> (forall f, In f ss -> forall i, holds s i f)).
    { split; [intros K f F i|intros K i]; [apply (proj1 (CC (sys_safety g) ss _ i ltac:(assumption) A2 P5) (K i)); auto|].
      apply (CC (sys_safety g) ss _ i ltac:(assumption) A2 P5). auto. }
    rewrite X. reflexivity.
Qed.
Print Assumptions automaton_meaning.
