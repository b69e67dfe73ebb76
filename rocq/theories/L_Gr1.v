(** Proofs for the GR(1) conversions. *)
From Coq Require Import List String Ascii Bool Arith Lia.
From Verif Require Import M_Base M_Ast M_Lexer M_Parser M_Spec M_Gr1 S_LTL S_Gr1.
From Verif Require Import L_Lexer L_Parser L_Template L_LTL.
Import ListNotations.
Open Scope string_scope.
Open Scope list_scope.

Lemma no_comment_nohash s : no_comment s <-> nohash s.
Proof.
  unfold no_comment, nohash, no_hash. split; intros H c Hc; specialize (H c Hc).
  - apply Ascii.eqb_neq. assumption.
  - apply Ascii.eqb_neq in H. assumption.
Qed.

Lemma span_all f l : forallb f l = true -> span f l = (l, []).
Proof.
  induction l as [|c r IH]; simpl; auto. intro H. apply andb_prop in H. destruct H as [-> H].
  rewrite IH; auto.
Qed.

(** An identifier lexes as one NAME token. *)
Lemma name_tok_ident a : reserved a = false -> name_tok a = NAME a.
Proof.
  unfold reserved, name_tok. cbn [existsb]. intro H.
  repeat (apply orb_false_iff in H; destruct H as [H ?]).
  repeat match goal with K : (_ || _)%bool = false |- _ => apply orb_false_iff in K; destruct K end.
  repeat match goal with K : (_ =? _)%string = false |- _ => rewrite K; clear K end.
  reflexivity.
Qed.

Lemma name_start_first c r :
  name_start c = true ->
  lex1 c r = (Some (name_tok (str_of (c :: fst (span name_char r)))), snd (span name_char r)).
Proof.
  intro H. unfold lex1. rewrite H.
  assert (E : ((c =? " ") || (c =? tab))%char = false).
  { destruct (c =? " ")%char eqn:E1; [apply Ascii.eqb_eq in E1; subst; discriminate|].
    destruct (c =? tab)%char eqn:E2; [apply Ascii.eqb_eq in E2; subst; discriminate|]. reflexivity. }
  rewrite E. destruct (span name_char r). reflexivity.
Qed.

Lemma string_of_las s : string_of_list_ascii (list_ascii_of_string s) = s.
Proof. apply string_of_list_ascii_of_string. Qed.

Lemma ident_lex a : ident a -> lex a = [NAME a].
Proof.
  intros [H1 H2]. destruct a as [|c r]; [discriminate|].
  simpl in H1. apply andb_prop in H1. destruct H1 as [Hc Hr].
  unfold lex. cbn [list_ascii_of_string]. rewrite lexl_cons, name_start_first by assumption.
  rewrite span_all by assumption. cbn [fst snd].
  replace (str_of (c :: list_ascii_of_string r)) with (String c r).
  - rewrite name_tok_ident by assumption. reflexivity.
  - unfold str_of. simpl. rewrite string_of_las. reflexivity.
Qed.

Lemma name_char_nohash c : name_char c = true -> (c =? "#")%char = false.
Proof. intro H. destruct (c =? "#")%char eqn:E; auto. apply Ascii.eqb_eq in E. subst. discriminate. Qed.

Lemma ident_nohash a : ident a -> nohash a.
Proof.
  intros [H _]. destruct a as [|c r]; [discriminate|]. simpl in H. apply andb_prop in H.
  destruct H as [Hc Hr]. intros x Hx. simpl in Hx. destruct Hx as [<-|Hx].
  - destruct (c =? "#")%char eqn:E; auto. apply Ascii.eqb_eq in E. subst. discriminate.
  - rewrite forallb_forall in Hr. apply name_char_nohash, Hr, Hx.
Qed.

Section Texts.
Variables (p q a : string) (P Q : node).
Hypothesis Np : nohash p.
Hypothesis Nq : nohash q.
Hypothesis Na : nohash a.
Hypothesis Hp : parse p = Some P.
Hypothesis Hq : parse q = Some Q.
Hypothesis Ha : lex a = [NAME a].

Ltac prep :=
  unfold parse, paren in *; unfold nohash in *;
  unfold lex in Hp, Hq, Ha; lex_text; rewrite ?Ha; cbn [app]; run_text; reflexivity.

Lemma tx_a : parse (paren a) = Some (NVar a).
Proof. prep. Qed.
Lemma tx_p : parse (paren p) = Some P.
Proof. prep. Qed.
Lemma tx_not_a : parse ("!" ++ paren a) = Some (NUn "!" (NVar a)).
Proof. prep. Qed.
Lemma tx_not_pa : parse ("!(" ++ paren a ++ ")") = Some (NUn "!" (NVar a)).
Proof. prep. Qed.
Lemma tx_a_imp_p : parse (paren a ++ " -> " ++ paren p) = Some (NBin "->" (NVar a) P).
Proof. prep. Qed.
Lemma tx_p_imp_a : parse (paren p ++ " -> " ++ paren a) = Some (NBin "->" P (NVar a)).
Proof. prep. Qed.
Lemma tx_a_imp_Xa : parse (paren a ++ " -> X " ++ paren a)
  = Some (NBin "->" (NVar a) (NUn "X" (NVar a))).
Proof. prep. Qed.
Lemma tx_resp1 : parse ("(" ++ paren p ++ " && !" ++ paren q ++ ") -> X !" ++ paren a)
  = Some (NBin "->" (NBin "&" P (NUn "!" Q)) (NUn "X" (NUn "!" (NVar a)))).
Proof. prep. Qed.
Lemma tx_resp2 : parse ("(!" ++ paren a ++ " && !" ++ paren q ++ ") -> X !" ++ paren a)
  = Some (NBin "->" (NBin "&" (NUn "!" (NVar a)) (NUn "!" Q)) (NUn "X" (NUn "!" (NVar a)))).
Proof. prep. Qed.
Lemma tx_ev1 : parse ("(!" ++ paren p ++ " && !" ++ paren a ++ ") -> X !" ++ paren a)
  = Some (NBin "->" (NBin "&" (NUn "!" P) (NUn "!" (NVar a))) (NUn "X" (NUn "!" (NVar a)))).
Proof. prep. Qed.
Lemma tx_unt0 : parse ("!" ++ paren q ++ " -> !" ++ paren a)
  = Some (NBin "->" (NUn "!" Q) (NUn "!" (NVar a))).
Proof. prep. Qed.
Lemma tx_unt2 : parse ("( (X !" ++ paren q ++ ") && !" ++ paren a ++ ") -> X !" ++ paren a)
  = Some (NBin "->" (NBin "&" (NUn "X" (NUn "!" Q)) (NUn "!" (NVar a)))
                    (NUn "X" (NUn "!" (NVar a)))).
Proof. prep. Qed.
Lemma tx_unt4 : parse ("(!" ++ paren a ++ ") -> " ++ paren p)
  = Some (NBin "->" (NUn "!" (NVar a)) P).
Proof. prep. Qed.
Lemma tx_pair : parse (paren p ++ " && " ++ paren q) = Some (NBin "&" P Q).
Proof. prep. Qed.
Lemma tx_presp : parse (paren p ++ " -> <> " ++ paren q) = Some (NBin "->" P (NUn "F" Q)).
Proof. prep. Qed.
End Texts.

Lemma Ok_inj {A} (x y : A) : Ok x = Ok y -> x = y.
Proof. intro H. inversion H. reflexivity. Qed.

(** The formulas that the four conversions produce. *)
Section Parts.
Variables (P Q : node) (a : string).
Let A := NVar a.
Definition stab_part : part :=
  {| p_init := [NUn "!" A];
     p_safe := [NBin "->" A P; NBin "->" A (NUn "X" A)]; p_live := [A] |}.
Definition resp_part : part :=
  {| p_init := [];
     p_safe := [NBin "->" (NBin "&" P (NUn "!" Q)) (NUn "X" (NUn "!" A));
                NBin "->" (NBin "&" (NUn "!" A) (NUn "!" Q)) (NUn "X" (NUn "!" A))];
     p_live := [A] |}.
Definition ev_part : part :=
  {| p_init := [NUn "!" A];
     p_safe := [NBin "->" (NBin "&" (NUn "!" P) (NUn "!" A)) (NUn "X" (NUn "!" A));
                NBin "->" A (NUn "X" A)];
     p_live := [A] |}.
Definition unt_part : part :=
  {| p_init := [NBin "->" (NUn "!" Q) (NUn "!" A)];
     p_safe := [NBin "->" Q A;
                NBin "->" (NBin "&" (NUn "X" (NUn "!" Q)) (NUn "!" A)) (NUn "X" (NUn "!" A));
                NBin "->" A (NUn "X" A);
                NBin "->" (NUn "!" A) P];
     p_live := [A] |}.
End Parts.

Lemma tree_vars_eq t : tree_vars t = vars t.
Proof. induction t; simpl; congruence. Qed.

Lemma conflict_inv f x v t : parse f = Some t -> check_var_name_conflict f x = Ok v ->
  v = dedup (vars t) /\ ~ In x (vars t).
Proof.
  unfold check_var_name_conflict. intros ->. change (tree_vars t) with (vars t).
  destruct (mem x (dedup (vars t))) eqn:E; intro H; inversion H; subst. split; auto.
  intro K. apply (dedup_In x) in K. apply mem_In in K. congruence.
Qed.

Lemma conflict_ok f x t : parse f = Some t -> ~ In x (vars t) ->
  check_var_name_conflict f x = Ok (dedup (vars t)).
Proof.
  unfold check_var_name_conflict. intros ->. change (tree_vars t) with (vars t). intro H.
  destruct (mem x (dedup (vars t))) eqn:E; auto.
  apply mem_In in E. apply (proj1 (dedup_In _ _)) in E. exfalso; exact (H E).
Qed.

Lemma conflict_err f x t : parse f = Some t -> In x (vars t) ->
  check_var_name_conflict f x = Err "ValueError".
Proof.
  unfold check_var_name_conflict. intros ->. change (tree_vars t) with (vars t). intro H.
  apply (proj2 (dedup_In _ _)) in H. apply mem_In in H. rewrite H. reflexivity.
Qed.

(** What each conversion returns, given that its inputs parse. *)
Section Results.
Variables (p q a : string) (P Q : node).
Hypothesis Cp : no_comment p.
Hypothesis Cq : no_comment q.
Hypothesis Ia : ident a.
Hypothesis Hp : parse p = Some P.
Hypothesis Hq : parse q = Some Q.

Let Np : nohash p. Proof. apply no_comment_nohash; assumption. Qed.
Let Nq : nohash q. Proof. apply no_comment_nohash; assumption. Qed.
Let Na : nohash a. Proof. apply ident_nohash; assumption. Qed.
Let La : lex a = [NAME a]. Proof. apply ident_lex; assumption. Qed.

Definition shape (g : grspec) (G : part) (vs : list string) : Prop :=
  sys_part g = Some G /\ no_env g /\
  (forall x d, In (x, d) (sys_vars g) <-> d = DBool /\ In x (vs ++ [a])).

Lemma booleans_In x d l : In (x, d) (booleans l) <-> d = DBool /\ In x l.
Proof.
  unfold booleans. rewrite in_map_iff. split.
  - intros [y [E H]]. inversion E; subst; auto.
  - intros [-> H]. exists x; auto.
Qed.

Lemma dedup_app_In x l r : In x (dedup l ++ r) <-> In x (l ++ r).
Proof. rewrite !in_app_iff, dedup_In. tauto. Qed.

Lemma parse_all_nil : parse_all [] = Some [].
Proof. reflexivity. Qed.
Lemma parse_all_cons x t r ts : parse x = Some t -> parse_all r = Some ts ->
  parse_all (x :: r) = Some (t :: ts).
Proof. intros E1 E2. cbn [parse_all]. rewrite E1, E2. reflexivity. Qed.
Lemma sys_part_spec ev sv ei si es ss ep sp i s l :
  parse_all si = Some i -> parse_all ss = Some s -> parse_all sp = Some l ->
  sys_part (spec_of ev sv ei si es ss ep sp) = Some {| p_init := i; p_safe := s; p_live := l |}.
Proof. unfold sys_part. intros H1 H2 H3. cbn [sys_init sys_safety sys_prog spec_of]. rewrite H1, H2, H3. reflexivity. Qed.

Hint Resolve tx_not_a tx_not_pa tx_a_imp_p tx_p_imp_a tx_a_imp_Xa tx_a tx_ev1 tx_resp1 tx_resp2
  tx_unt0 tx_unt2 tx_unt4 : texts.
Ltac shape_tac := split; [apply sys_part_spec;
   repeat (apply parse_all_nil || (apply parse_all_cons; [eauto with texts|])) |
  split; [repeat split | intros x d; cbn [sys_vars spec_of]; rewrite booleans_In, dedup_app_In; tauto]].

Lemma stability_result g : stability_to_gr1 p a = Ok g ->
  ~ In a (vars P) /\ shape g (stab_part P a) (vars P).
Proof.
  unfold stability_to_gr1. intro H.
  destruct (check_var_name_conflict (paren p) a) as [v|] eqn:E; [|discriminate].
  apply (conflict_inv _ _ _ P) in E; [|eapply tx_p; eauto]. destruct E as [-> N].
  cbn [bind] in H. apply Ok_inj in H. subst g. split; [assumption|]. shape_tac.
Qed.

Lemma eventually_result g : eventually_to_gr1 p a = Ok g ->
  ~ In a (vars P) /\ shape g (ev_part P a) (vars P).
Proof.
  unfold eventually_to_gr1. intro H.
  destruct (check_var_name_conflict (paren p) a) as [v|] eqn:E; [|discriminate].
  apply (conflict_inv _ _ _ P) in E; [|eapply tx_p; eauto]. destruct E as [-> N].
  cbn [bind] in H. apply Ok_inj in H. subst g. split; [assumption|]. shape_tac.
Qed.

Lemma response_result g : response_to_gr1 p q a = Ok g ->
  ~ In a (vars P ++ vars Q) /\ shape g (resp_part P Q a) (vars P ++ vars Q).
Proof.
  unfold response_to_gr1. intro H.
  destruct (check_var_name_conflict (paren p ++ " -> <> " ++ paren q) a) as [v|] eqn:E; [|discriminate].
  apply (conflict_inv _ _ _ (NBin "->" P (NUn "F" Q))) in E; [|eapply tx_presp; eauto].
  destruct E as [-> N]. cbn [vars] in *.
  cbn [bind] in H. apply Ok_inj in H. subst g. split; [assumption|]. shape_tac.
Qed.

Lemma until_result g : until_to_gr1 p q a = Ok g ->
  ~ In a (vars P ++ vars Q) /\ shape g (unt_part P Q a) (vars P ++ vars Q).
Proof.
  unfold until_to_gr1. intro H.
  destruct (check_var_name_conflict (paren p ++ " && " ++ paren q) a) as [v|] eqn:E; [|discriminate].
  apply (conflict_inv _ _ _ (NBin "&" P Q)) in E; [|eapply tx_pair; eauto].
  destruct E as [-> N]. cbn [vars] in *.
  cbn [bind] in H. apply Ok_inj in H. subst g. split; [assumption|]. shape_tac.
Qed.

(** When they raise. *)
Lemma stability_total : (In a (vars P) -> stability_to_gr1 p a = Err "ValueError") /\
  (~ In a (vars P) -> exists g, stability_to_gr1 p a = Ok g).
Proof.
  unfold stability_to_gr1. split; intro H.
  - erewrite conflict_err; [reflexivity|eapply tx_p; eauto|assumption].
  - erewrite conflict_ok; [cbn; eauto|eapply tx_p; eauto|assumption].
Qed.
Lemma eventually_total : (In a (vars P) -> eventually_to_gr1 p a = Err "ValueError") /\
  (~ In a (vars P) -> exists g, eventually_to_gr1 p a = Ok g).
Proof.
  unfold eventually_to_gr1. split; intro H.
  - erewrite conflict_err; [reflexivity|eapply tx_p; eauto|assumption].
  - erewrite conflict_ok; [cbn; eauto|eapply tx_p; eauto|assumption].
Qed.
Lemma response_total : (In a (vars P ++ vars Q) -> response_to_gr1 p q a = Err "ValueError") /\
  (~ In a (vars P ++ vars Q) -> exists g, response_to_gr1 p q a = Ok g).
Proof.
  unfold response_to_gr1. split; intro H.
  - erewrite conflict_err; [reflexivity|eapply tx_presp; eauto|assumption].
  - erewrite conflict_ok; [cbn; eauto|eapply tx_presp; eauto|assumption].
Qed.
Lemma until_total : (In a (vars P ++ vars Q) -> until_to_gr1 p q a = Err "ValueError") /\
  (~ In a (vars P ++ vars Q) -> exists g, until_to_gr1 p q a = Ok g).
Proof.
  unfold until_to_gr1. split; intro H.
  - erewrite conflict_err; [reflexivity|eapply tx_pair; eauto|assumption].
  - erewrite conflict_ok; [cbn; eauto|eapply tx_pair; eauto|assumption].
Qed.
End Results.

(** * The arithmetic of Boolean sequences *)
Definition io (h : nat -> bool) : Prop := forall i, exists j, i <= j /\ h j = true.

Lemma first_true (h : nat -> bool) : forall n, h n = true ->
  exists k, k <= n /\ h k = true /\ forall j, j < k -> h j = false.
Proof.
  induction n as [n IH] using lt_wf_ind. intro H.
  destruct (existsb h (seq 0 n)) eqn:E.
  - apply existsb_exists in E. destruct E as [m [Hm Em]]. apply in_seq in Hm.
    destruct (IH m) as (k & K1 & K2 & K3); [lia|assumption|]. exists k. split; [lia|auto].
  - exists n. split; [lia|]. split; auto. intros j Hj.
    destruct (h j) eqn:Ej; auto.
    assert (existsb h (seq 0 n) = true); [|congruence].
    apply existsb_exists. exists j. split; [apply in_seq; lia|assumption].
Qed.

Section Seqs.
Variables (p q h : nat -> bool).

Definition c_until : Prop :=
  (q 0 = false -> h 0 = false) /\
  (forall i, q i = true -> h i = true) /\
  (forall i, q (S i) = false -> h i = false -> h (S i) = false) /\
  (forall i, h i = true -> h (S i) = true) /\
  (forall i, h i = false -> p i = true) /\ io h.

Lemma c_until_sound : c_until ->
  exists k, q k = true /\ forall j, j < k -> p j = true.
Proof.
  intros (H0 & H1 & H2 & H3 & H4 & H5).
  destruct (H5 0) as (n & _ & Hn).
  destruct (first_true h n Hn) as (k & _ & Hk & Hlt).
  exists k. split.
  - destruct k as [|k].
    + destruct (q 0); auto. rewrite H0 in Hk; auto.
    + destruct (q (S k)) eqn:E; auto. rewrite H2 in Hk; auto.
  - intros j Hj. apply H4, Hlt, Hj.
Qed.

Definition c_ev : Prop :=
  h 0 = false /\
  (forall i, p i = false -> h i = false -> h (S i) = false) /\
  (forall i, h i = true -> h (S i) = true) /\ io h.

Lemma c_ev_sound : c_ev -> exists k, p k = true.
Proof.
  intros (H0 & H1 & H2 & H3).
  destruct (H3 0) as (n & _ & Hn).
  destruct (first_true h n Hn) as (k & _ & Hk & Hlt).
  destruct k as [|k]; [congruence|]. exists k.
  destruct (p k) eqn:E; auto. rewrite H1 in Hk; auto.
Qed.

Definition c_resp : Prop :=
  (forall i, p i = true -> q i = false -> h (S i) = false) /\
  (forall i, h i = false -> q i = false -> h (S i) = false) /\ io h.

Lemma c_resp_sound : c_resp -> forall i, p i = true -> exists j, i <= j /\ q j = true.
Proof.
  intros (H1 & H2 & H3) i Hi.
  destruct (q i) eqn:Eq; [exists i; auto|].
  destruct (H3 (S i)) as (n & Hn & En).
  assert (Hd : existsb q (seq i (n - i)) = true).
  { destruct (existsb q (seq i (n - i))) eqn:E; auto. exfalso.
    assert (Hq : forall j, i <= j < n -> q j = false).
    { intros j Hj. destruct (q j) eqn:Ej; auto.
      assert (existsb q (seq i (n - i)) = true); [|congruence].
      apply existsb_exists. exists j. split; [apply in_seq; lia|assumption]. }
    assert (Hh : forall d, S i + d <= n -> h (S i + d) = false).
    { induction d; intro Hd'.
      - rewrite Nat.add_0_r. apply H1; auto.
      - replace (S i + S d) with (S (S i + d)) by lia. apply H2; [apply IHd; lia|apply Hq; lia]. }
    specialize (Hh (n - S i)). replace (S i + (n - S i)) with n in Hh by lia.
    rewrite Hh in En; [discriminate|lia]. }
  apply existsb_exists in Hd. destruct Hd as (j & Hj & Ej). apply in_seq in Hj.
  exists j. split; [lia|assumption].
Qed.

Definition c_stab : Prop :=
  h 0 = false /\ (forall i, h i = true -> p i = true) /\
  (forall i, h i = true -> h (S i) = true) /\ io h.

Lemma c_stab_sound : c_stab -> exists k, forall j, k <= j -> p j = true.
Proof.
  intros (H0 & H1 & H2 & H3). destruct (H3 0) as (n & _ & Hn). exists n.
  intros j Hj. apply H1. induction Hj; auto.
Qed.
End Seqs.

(** Witnesses. *)
Definition w_until (q : nat -> bool) (i : nat) : bool := existsb q (seq 0 (S i)).
Lemma existsb_seq_S q i : existsb q (seq 0 (S i)) = (existsb q (seq 0 i) || q i)%bool.
Proof. rewrite seq_S, existsb_app. simpl. rewrite orb_false_r. reflexivity. Qed.
Lemma existsb_seq_true q i : existsb q (seq 0 i) = true <-> exists j, j < i /\ q j = true.
Proof.
  rewrite existsb_exists. split; intros (j & A & B); exists j; split; auto.
  - apply in_seq in A. lia.
  - apply in_seq. lia.
Qed.
Lemma existsb_seq_mono q i j : i <= j -> existsb q (seq 0 i) = true -> existsb q (seq 0 j) = true.
Proof.
  rewrite !existsb_seq_true. intros H (k & A & B). exists k. split; [lia|auto].
Qed.

Lemma w_until_ok p q k : q k = true -> (forall j, j < k -> p j = true) -> c_until p q (w_until q).
Proof.
  intros Hk Hp. unfold c_until, w_until. repeat split.
  - intro H. simpl. rewrite H. reflexivity.
  - intros i H. rewrite existsb_seq_S, H. apply orb_true_r.
  - intros i H1 H2. rewrite existsb_seq_S, H1, H2. reflexivity.
  - intros i H. eapply existsb_seq_mono; [|apply H]. lia.
  - intros i H. apply Hp. destruct (Nat.lt_ge_cases i k) as [L|L]; auto.
    assert (existsb q (seq 0 (S i)) = true); [|congruence].
    apply existsb_seq_true. exists k. split; [lia|auto].
  - intro i. exists (i + k). split; [lia|]. apply existsb_seq_true. exists k. split; [lia|auto].
Qed.

Definition w_ev (p : nat -> bool) (i : nat) : bool := existsb p (seq 0 i).
Lemma w_ev_ok p k : p k = true -> c_ev p (w_ev p).
Proof.
  intro Hk. unfold c_ev, w_ev. repeat split.
  - intros i H1 H2. rewrite existsb_seq_S, H1, H2. reflexivity.
  - intros i H. eapply existsb_seq_mono; [|apply H]. lia.
  - intro i. exists (i + S k). split; [lia|]. apply existsb_seq_true. exists k. split; [lia|auto].
Qed.

Fixpoint w_resp (p q : nat -> bool) (i : nat) : bool :=
  match i with
  | 0 => true
  | S j => (q j || (w_resp p q j && negb (p j)))%bool
  end.
Lemma w_resp_ok p q : (forall i, p i = true -> exists j, i <= j /\ q j = true) ->
  c_resp p q (w_resp p q).
Proof.
  intro H. unfold c_resp. repeat split.
  - intros i H1 H2. simpl. rewrite H1, H2. simpl. apply andb_false_r.
  - intros i H1 H2. simpl. rewrite H1, H2. reflexivity.
  - intro i.
    (* either aux stays true forever from some point, or it is reset by q *)
    destruct (w_resp p q i) eqn:E; [exists i; auto|].
    (* a pending request exists before i *)
    assert (HP : forall m, w_resp p q m = false ->
               exists r, r < m /\ p r = true /\ forall j, r <= j < m -> q j = false).
    { induction m; simpl; [discriminate|]. intro Hm.
      apply orb_false_iff in Hm. destruct Hm as [Hq Hm].
      destruct (p m) eqn:Ep.
      - exists m. split; [lia|]. split; auto. intros j Hj. replace j with m by lia. auto.
      - rewrite andb_true_r in Hm. destruct (IHm Hm) as (r & A & B & C).
        exists r. split; [lia|]. split; auto. intros j Hj.
        destruct (Nat.eq_dec j m); [subst; auto|apply C; lia]. }
    destruct (HP i E) as (r & A & B & C).
    destruct (H r B) as (j & D & F).
    assert (i <= j).
    { destruct (Nat.lt_ge_cases j i); auto. rewrite C in F by lia. discriminate. }
    exists (S j). split; [lia|]. simpl. rewrite F. reflexivity.
Qed.

Definition w_stab (k : nat) (i : nat) : bool := Nat.ltb k i.
Lemma w_stab_ok p k : (forall j, k <= j -> p j = true) -> c_stab p (w_stab k).
Proof.
  intro H. unfold c_stab, w_stab. repeat split.
  - intros i Hi. apply Nat.ltb_lt in Hi. apply H. lia.
  - intros i Hi. apply Nat.ltb_lt in Hi. apply Nat.ltb_lt. lia.
  - intro i. exists (i + S k). split; [lia|]. apply Nat.ltb_lt. lia.
Qed.

(** * From formulas to sequences *)
Section Sem.
Variables (s : trace) (P Q : node) (a : string) (h p q : nat -> bool).
Hypothesis RP : reflects s P p.
Hypothesis RQ : reflects s Q q.
Let RP' : forall i, p i = true <-> holds s i P := RP.
Let RQ' : forall i, q i = true <-> holds s i Q := RQ.

Lemma reflects_false f b i : reflects s f b -> (b i = false <-> ~ holds s i f).
Proof. intro R. rewrite <- (R i). destruct (b i); split; intros; congruence. Qed.

Lemma nota i : ~ holds (upd s a h) i (NVar a) <-> h i = false.
Proof. rewrite holds_upd_var. destruct (h i); split; intros; congruence. Qed.

Ltac core := cbn [holds uconn_of conn_of String.eqb Ascii.eqb Bool.eqb orb].

Lemma live_a : (forall i, exists j, i <= j /\ holds (upd s a h) j (NVar a)) <-> io h.
Proof.
  unfold io. split; intros H i; destruct (H i) as (j & A & B); exists j; split; auto;
    apply (holds_upd_var s a h j); assumption.
Qed.

Lemma sat_part_iff s0 g : sat_part s0 g <->
  (Forall (fun f => holds s0 0 f) (p_init g) /\
   Forall (fun f => forall i, holds s0 i f) (p_safe g) /\
   Forall (fun f => forall i, exists j, i <= j /\ holds s0 j f) (p_live g)).
Proof. unfold sat_part. rewrite !Forall_forall. tauto. Qed.

Lemma Forall1 {T} (R : T -> Prop) x : Forall R [x] <-> R x.
Proof. split; intro H; [inversion H; auto|constructor; auto]. Qed.
Lemma Forall_c {T} (R : T -> Prop) x y l : Forall R (x :: y :: l) <-> R x /\ Forall R (y :: l).
Proof. split; intro H; [inversion H; auto|constructor; tauto]. Qed.
Lemma Forall_n {T} (R : T -> Prop) : Forall R [] <-> True.
Proof. split; auto. Qed.

Lemma h_imp i f g : holds (upd s a h) i (NBin "->" f g) <->
  (holds (upd s a h) i f -> holds (upd s a h) i g).
Proof. reflexivity. Qed.
Lemma h_and i f g : holds (upd s a h) i (NBin "&" f g) <->
  (holds (upd s a h) i f /\ holds (upd s a h) i g).
Proof. reflexivity. Qed.
Lemma h_not i f : holds (upd s a h) i (NUn "!" f) <-> ~ holds (upd s a h) i f.
Proof. reflexivity. Qed.
Lemma h_next i f : holds (upd s a h) i (NUn "X" f) <-> holds (upd s a h) (S i) f.
Proof. reflexivity. Qed.

Lemma until_seq : ~ In a (vars P ++ vars Q) ->
  (sat_part (upd s a h) (unt_part P Q a) <-> c_until p q h).
Proof.
  intro N.
  assert (NP : ~ In a (vars P)) by (intro; apply N, in_or_app; auto).
  assert (NQ : ~ In a (vars Q)) by (intro; apply N, in_or_app; auto).
  rewrite sat_part_iff. unfold unt_part, c_until. cbn [p_init p_safe p_live].
  rewrite !Forall_c, !Forall1, live_a.
  cbv beta. setoid_rewrite h_imp. setoid_rewrite h_and. setoid_rewrite h_next. setoid_rewrite h_not.
  setoid_rewrite holds_upd_var. setoid_rewrite (holds_upd P s a h); auto.
  setoid_rewrite (holds_upd Q s a h); auto.
  setoid_rewrite <- RQ'. setoid_rewrite <- RP'.
  setoid_rewrite not_true_iff_false. intuition.
Qed.

Lemma ev_seq : ~ In a (vars P) ->
  (sat_part (upd s a h) (ev_part P a) <-> c_ev p h).
Proof.
  intro NP.
  rewrite sat_part_iff. unfold ev_part, c_ev. cbn [p_init p_safe p_live].
  rewrite !Forall_c, !Forall1, live_a.
  cbv beta. setoid_rewrite h_imp. setoid_rewrite h_and. setoid_rewrite h_next. setoid_rewrite h_not.
  setoid_rewrite holds_upd_var. setoid_rewrite (holds_upd P s a h); auto.
  setoid_rewrite <- RP'.
  setoid_rewrite not_true_iff_false. intuition.
Qed.

Lemma resp_seq : ~ In a (vars P ++ vars Q) ->
  (sat_part (upd s a h) (resp_part P Q a) <-> c_resp p q h).
Proof.
  intro N.
  assert (NP : ~ In a (vars P)) by (intro; apply N, in_or_app; auto).
  assert (NQ : ~ In a (vars Q)) by (intro; apply N, in_or_app; auto).
  rewrite sat_part_iff. unfold resp_part, c_resp. cbn [p_init p_safe p_live].
  rewrite !Forall_c, !Forall1, !Forall_n, live_a.
  cbv beta. setoid_rewrite h_imp. setoid_rewrite h_and. setoid_rewrite h_next. setoid_rewrite h_not.
  setoid_rewrite holds_upd_var. setoid_rewrite (holds_upd P s a h); auto.
  setoid_rewrite (holds_upd Q s a h); auto.
  setoid_rewrite <- RQ'. setoid_rewrite <- RP'.
  setoid_rewrite not_true_iff_false. intuition.
Qed.

Lemma stab_seq : ~ In a (vars P) ->
  (sat_part (upd s a h) (stab_part P a) <-> c_stab p h).
Proof.
  intro NP.
  rewrite sat_part_iff. unfold stab_part, c_stab. cbn [p_init p_safe p_live].
  rewrite !Forall_c, !Forall1, live_a.
  cbv beta. setoid_rewrite h_imp. setoid_rewrite h_next. setoid_rewrite h_not.
  setoid_rewrite holds_upd_var. setoid_rewrite (holds_upd P s a h); auto.
  setoid_rewrite <- RP'.
  setoid_rewrite not_true_iff_false. intuition.
Qed.

(** The original formulas as statements about sequences. *)
Lemma until_orig : holds s 0 (NBin "U" P Q) <->
  exists k, q k = true /\ forall j, j < k -> p j = true.
Proof.
  change (until (fun j => holds s j P) (fun j => holds s j Q) 0 <->
          exists k, q k = true /\ forall j, j < k -> p j = true).
  unfold until. split.
  - intros (k & _ & A & B). exists k. split; [apply RQ; auto|]. intros j Hj. apply RP, B. lia.
  - intros (k & A & B). exists k. repeat split; [lia|apply RQ; auto|]. intros j Hj. apply RP, B. lia.
Qed.
Lemma ev_orig : holds s 0 (NUn "F" P) <-> exists k, p k = true.
Proof.
  change ((exists j, 0 <= j /\ holds s j P) <-> exists k, p k = true).
  split; [intros (k & _ & A)|intros (k & A)]; exists k; [|split; [lia|]]; apply RP; auto.
Qed.
Lemma resp_orig : holds s 0 (NUn "G" (NBin "->" P (NUn "F" Q))) <->
  forall i, p i = true -> exists j, i <= j /\ q j = true.
Proof.
  change ((forall i, 0 <= i -> holds s i P -> exists j, i <= j /\ holds s j Q) <->
          forall i, p i = true -> exists j, i <= j /\ q j = true).
  split; intros H i.
  - intro Hi. destruct (H i) as (j & A & B); [lia|apply RP; auto|]. exists j. split; auto. apply RQ; auto.
  - intros _ Hi. destruct (H i) as (j & A & B); [apply RP; auto|]. exists j. split; auto. apply RQ; auto.
Qed.
Lemma stab_orig : holds s 0 (NUn "F" (NUn "G" P)) <-> exists k, forall j, k <= j -> p j = true.
Proof.
  change ((exists k, 0 <= k /\ forall j, k <= j -> holds s j P) <->
          exists k, forall j, k <= j -> p j = true).
  split; [intros (k & _ & A)|intros (k & A)]; exists k; [|split; [lia|]]; intros; apply RP; auto.
Qed.
End Sem.
