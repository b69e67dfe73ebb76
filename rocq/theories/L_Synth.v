(** The clauses produced from transition systems: what each text means. *)
From Coq Require Import List String Ascii Bool Arith ZArith Lia.
From Verif Require Import M_Base M_Ast M_Lexer M_Parser M_Spec M_Form M_Tree M_Gr1c M_Synth.
From Verif Require Import S_LTL S_Gr1 S_Syntax S_Synth.
From Verif Require Import L_Lexer L_Parser L_Template L_Gr1 L_RoundTrip L_Text L_Den L_Form L_Gr1c.
Import ListNotations.
Open Scope string_scope.
Open Scope list_scope.

(** * Text combinators *)
Lemma d_pstr t P : den t P -> datom (pstr t) P.
Proof. apply d_paren. Qed.
Lemma d_disj ts Ps : ts <> [] -> Forall2 den ts Ps ->
  dchain 4 (disj ts) (fun s i => Exists (fun P : tpred => P s i) Ps).
Proof.
  intros Hne F. unfold disj. apply d_join_or.
  - destruct ts; [congruence|discriminate].
  - apply Forall2_map_l. eapply Forall2_imp; [|exact F]. intros t P H. apply datom_dchain, d_pstr, H.
Qed.
(** An optional conjunct: absent or a text. *)
Definition oden (t : string) (P : tpred) : Prop := (t = "" /\ forall s i, P s i) \/ den t P.
Lemma d_conj ts Ps : Forall2 oden ts Ps -> (exists t, In t ts /\ t <> "") ->
  dchain 5 (conj ts) (fun s i => Forall (fun P : tpred => P s i) Ps).
Proof.
  intros F Hne. unfold conj.
  assert (K : exists Qs, Forall2 (dchain 6) (map pstr (filter nonempty ts)) Qs /\
     forall s i, Forall (fun P : tpred => P s i) Qs <-> Forall (fun P : tpred => P s i) Ps).
  { clear Hne. induction F as [|t P ts Ps H F (Qs & C & E)].
    - exists []. split; [constructor|reflexivity].
    - cbn [filter]. destruct H as [[-> H]|H].
      + exists Qs. split; [exact C|]. intros s i. rewrite E. split; [constructor; auto|intro K; inversion K; auto].
      + assert (N : nonempty t = true).
        { unfold nonempty. apply den_nonempty in H. apply String.eqb_neq in H. rewrite H. reflexivity. }
        rewrite N. exists (P :: Qs). split.
        * cbn [map]. constructor; auto. apply datom_dchain, d_pstr, H.
        * intros s i. split; intro K; inversion K; subst; constructor; auto; apply E; auto. }
  destruct K as (Qs & C & E). eapply dchain_ext; [apply d_join_and; [|exact C]|exact E].
  destruct Hne as (t & I & N). intro Z. apply map_eq_nil in Z.
  assert (In t (filter nonempty ts)). { apply filter_In. split; auto. unfold nonempty. apply String.eqb_neq in N. rewrite N. reflexivity. }
  rewrite Z in H. contradiction.
Qed.
Lemma den_nonemptyb t P : den t P -> nonempty t = true.
Proof. intro H. unfold nonempty. apply den_nonempty in H. apply String.eqb_neq in H. rewrite H. reflexivity. Qed.

Lemma Forall_map_iff {A B} (f : A -> B) (R : B -> Prop) l : Forall R (map f l) <-> forall x, In x l -> R (f x).
Proof. rewrite Forall_map, Forall_forall. reflexivity. Qed.
Lemma Exists_map_iff {A B} (f : A -> B) (R : B -> Prop) l : Exists R (map f l) <-> exists x, In x l /\ R (f x).
Proof. rewrite Exists_exists. split.
  - intros (y & I & H). apply in_map_iff in I. destruct I as (x & <- & I). eauto.
  - intros (x & I & H). exists (f x). split; auto. apply in_map; auto.
Qed.

(** * mutex, exactly_one: C17 *)
Section Cardinality.
  Variable Q : string -> tpred.
  Variable ts : list string.
  Hypothesis HD : forall x, In x ts -> den x (Q x).

  Lemma d_conj_neg l : l <> [] -> incl l ts -> dchain 5 (conj_neg l true) (fun s i => forall x, In x l -> ~ Q x s i).
  Proof.
    intros Hne Hi. unfold conj_neg.
    eapply dchain_ext; [apply (d_join_and _ (map (fun x s i => ~ Q x s i) l))|].
    - destruct l; [congruence|discriminate].
    - apply Forall2_map_l. apply Forall2_same. intros x I. apply dpre_dchain; [lia|]. apply d_not, HD, Hi, I.
    - intros s i. apply (Forall_map_iff (fun x s i => ~ Q x s i) (fun P => P s i)).
  Qed.
  Lemma conj_neg_diff_eq l m : conj_neg_diff l m true = conj_neg (filter (fun x => negb (mem x m)) l) true.
  Proof. unfold conj_neg_diff, conj_neg. rewrite map_map. reflexivity. Qed.
  Lemma others x : NoDup ts -> In x ts -> 2 <= List.length ts ->
    filter (fun y => negb (mem y [x])) ts <> [].
  Proof.
    intros N I L. intro E.
    assert (A : forall y, In y ts -> y = x).
    { intros y Iy. destruct (mem y [x]) eqn:M.
      - apply mem_In in M. destruct M as [->|[]]. reflexivity.
      - assert (H : In y (filter (fun y => negb (mem y [x])) ts)) by (apply filter_In; rewrite M; auto).
        rewrite E in H. contradiction. }
    destruct ts as [|a [|b r]]; simpl in L; try lia. inversion N as [|? ? N1 N2]; subst.
    apply N1. rewrite (A a), (A b) by (simpl; auto). left; auto.
  Qed.
  Lemma d_others x : NoDup ts -> In x ts -> 2 <= List.length ts ->
    dchain 5 (conj_neg_diff ts [x] true) (fun s i => forall y, In y ts -> y <> x -> ~ Q y s i).
  Proof.
    intros N I L. rewrite conj_neg_diff_eq. eapply dchain_ext; [apply d_conj_neg|].
    - apply others; auto.
    - intros y Iy. apply filter_In in Iy. tauto.
    - intros s i. split.
      + intros H y Iy Ny. apply H. apply filter_In. split; auto.
        destruct (mem y [x]) eqn:M; auto. apply mem_In in M. destruct M as [->|[]]. congruence.
      + intros H y Iy. apply filter_In in Iy. destruct Iy as [Iy M]. apply H; auto. intros ->.
        cbn in M. rewrite String.eqb_refl in M. discriminate.
  Qed.

  Lemma filter_ne : filter nonempty ts = ts.
  Proof.
    clear -HD. induction ts as [|x r IH]; auto. cbn [filter].
    rewrite (den_nonemptyb x (Q x)) by (apply HD; left; auto). rewrite IH; auto. intros; apply HD; right; auto.
  Qed.

  Lemma mutex_short : List.length ts <= 1 -> mutex ts = [].
  Proof. intro L. unfold mutex. rewrite filter_ne. destruct ts as [|a [|b r]]; auto. simpl in L. lia. Qed.
  Lemma mutex_den : NoDup ts -> 2 <= List.length ts -> (forall x s i, In x ts -> Q x s i \/ ~ Q x s i) ->
    exists t, mutex ts = [t] /\ den t (fun s i => at_most_one (fun x => Q x s i) ts).
  Proof.
    intros N L Dec. unfold mutex. rewrite filter_ne.
    set (f := fun x => ("!(" ++ x ++ ") || (" ++ conj_neg_diff ts [x] true ++ ")")%string).
    exists (conj (map f ts)). split.
    { destruct ts as [|a [|b r]]; simpl in L; try lia. reflexivity. }
    assert (Df : forall x, In x ts -> den (f x) (fun s i => ~ Q x s i \/ forall y, In y ts -> y <> x -> ~ Q y s i)).
    { intros x I. unfold f.
      replace ("!(" ++ x ++ ") || (" ++ conj_neg_diff ts [x] true ++ ")")%string
        with (("!(" ++ x ++ ")") ++ " || " ++ ("(" ++ conj_neg_diff ts [x] true ++ ")"))%string.
      2:{ rewrite <- !string_app_assoc. reflexivity. }
      eapply dchain_den, d_or.
      - apply dpre_dchain; [lia|]. apply d_not, HD, I.
      - apply datom_dchain, d_paren. eapply dchain_den, d_others; auto. }
    eapply den_ext.
    - eapply dchain_den. apply d_conj.
      + apply Forall2_map_l. apply Forall2_same with (g := fun x s i => ~ Q x s i \/ forall y, In y ts -> y <> x -> ~ Q y s i).
        intros x I. right. apply Df, I.
      + destruct ts as [|a r]; [simpl in L; lia|]. exists (f a). split; [left; auto|].
        eapply den_nonempty, Df. left; auto.
    - intros s i. cbv beta.
      rewrite (Forall_map_iff (fun x s i => ~ Q x s i \/ forall y, In y ts -> y <> x -> ~ Q y s i) (fun P => P s i)). split.
      + intros H x y Ix Iy Qx Qy. destruct (H x Ix) as [K|K]; [contradiction|].
        destruct (string_dec y x); [congruence|]. destruct (K y); auto.
      + intros H x Ix. destruct (Dec x s i Ix) as [D|D]; [right|left; auto].
        intros y Iy Ny Qy. apply Ny. apply H; auto.
  Qed.

  Lemma exactly_one_den : NoDup ts -> 1 <= List.length ts ->
    exists t, exactly_one ts = [t] /\ datom t (fun s i => only_one (fun x => Q x s i) ts).
  Proof.
    intros N L. destruct ts as [|a [|b r]] eqn:E; [simpl in L; lia| |].
    - exists (pstr a). split; [reflexivity|].
      destruct (d_pstr a (Q a)) as (e & A & M); [apply HD; left; auto|]. exists e. split; auto.
      intros s i. rewrite (M s i). unfold only_one, at_most_one. split.
      + intro H. split; [intros x y [<-|[]] [<-|[]]; auto|exists a; simpl; auto].
      + intros [_ (x & [<-|[]] & H)]. exact H.
    - rewrite <- E in HD, N. rewrite <- E.
      set (f := fun x => ("(" ++ x ++ ") && " ++ conj_neg_diff ts [x] true)%string).
      assert (L2 : 2 <= List.length ts) by (rewrite E; simpl; lia).
      exists ("(" ++ disj (map f ts) ++ ")")%string. split; [unfold f; rewrite E; reflexivity|].
      assert (HD' : forall x, In x ts -> den x (Q x)) by exact HD.
      assert (Df : forall x, In x ts -> den (f x) (fun s i => Q x s i /\ forall y, In y ts -> y <> x -> ~ Q y s i)).
      { intros x I. unfold f.
        replace ("(" ++ x ++ ") && " ++ conj_neg_diff ts [x] true)%string
          with (join " && " (("(" ++ x ++ ")")%string :: map (fun y => ("!(" ++ y ++ ")")%string) (filter (fun y => negb (mem y [x])) ts))).
        2:{ assert (O : filter (fun y => negb (mem y [x])) ts <> []).
            { clear -I N L2. intro Z.
              assert (A : forall y, In y ts -> y = x).
              { intros y Iy. destruct (mem y [x]) eqn:M.
                - apply mem_In in M. destruct M as [->|[]]. reflexivity.
                - assert (H : In y (filter (fun y => negb (mem y [x])) ts)) by (apply filter_In; rewrite M; auto).
                  rewrite Z in H. contradiction. }
              destruct ts as [|a [|b r]]; simpl in L2; try lia. inversion N as [|? ? N1 N2]; subst.
              apply N1. rewrite (A a), (A b) by (simpl; auto). left; auto. }
            rewrite conj_neg_diff_eq. unfold conj_neg.
            destruct (filter (fun y => negb (mem y [x])) ts) as [|c l]; [congruence|].
            change (join " && " (("(" ++ x ++ ")")%string :: map (fun y => ("!(" ++ y ++ ")")%string) (c :: l)))
              with (("(" ++ x ++ ")") ++ " && " ++ join " && " (map (fun y => ("!(" ++ y ++ ")")%string) (c :: l)))%string.
            rewrite <- !string_app_assoc. reflexivity. }
        eapply den_ext.
        - eapply dchain_den. apply d_join_and; [discriminate|].
          constructor; [apply datom_dchain, d_paren, HD', I|].
          apply Forall2_map_l. apply Forall2_same with (g := fun y s i => ~ Q y s i).
          intros y Iy. apply filter_In in Iy. apply dpre_dchain; [lia|]. apply d_not, HD'. tauto.
        - intros s i. cbv beta. split.
          + intro K. pose proof (Forall_inv K) as K1; pose proof (Forall_inv_tail K) as K2; cbv beta in K1. split; auto. intros y Iy Ny.
            rewrite (Forall_map_iff (fun y s i => ~ Q y s i) (fun P => P s i)) in K2. apply K2. apply filter_In. split; auto.
            destruct (mem y [x]) eqn:M; auto. apply mem_In in M. destruct M as [->|[]]. congruence.
          + intros [K1 K2]. constructor; auto. rewrite (Forall_map_iff (fun y s i => ~ Q y s i) (fun P => P s i)).
            intros y Iy. apply filter_In in Iy. destruct Iy as [Iy M]. apply K2; auto. intros ->.
            cbn in M. rewrite String.eqb_refl in M. discriminate. }
      assert (De : dchain 4 (disj (map f ts)) (fun s i => only_one (fun x => Q x s i) ts)).
      { eapply dchain_ext.
        - apply d_disj; [rewrite E; discriminate|]. apply Forall2_map_l.
          apply Forall2_same with (g := fun x s i => Q x s i /\ forall y, In y ts -> y <> x -> ~ Q y s i). exact Df.
        - intros s i. cbv beta.
          rewrite (Exists_map_iff (fun x s i => Q x s i /\ forall y, In y ts -> y <> x -> ~ Q y s i) (fun P => P s i)).
          unfold only_one, at_most_one. split.
          + intros (x & I & Qx & H). split; [|eauto]. intros y z Iy Iz Qy Qz.
            destruct (string_dec y x) as [->|]; [|destruct (H y); auto].
            destruct (string_dec z x) as [->|]; [auto|destruct (H z); auto].
          + intros [H (x & I & Qx)]. exists x. split; [auto|split; [auto|]]. intros y Iy Ny Qy. apply Ny. apply H; auto. }
      apply d_paren. eapply dchain_den, De.
  Qed.
End Cardinality.

(** * Identifiers of values *)
Definition quoted (x : string) : string := String dquote (x ++ String dquote "")%string.
Lemma lex_quoted x : ident x -> lex (quoted x) = [DQUOTES; NAME x; DQUOTES].
Proof.
  intros [H1 H2]. destruct x as [|c r]; [discriminate|].
  simpl in H1. apply andb_prop in H1. destruct H1 as [Hc Hr].
  unfold quoted, lex. cbn [list_ascii_of_string append]. rewrite las_app. cbn [list_ascii_of_string].
  rewrite lexl_cons. change (lex1 dquote (c :: list_ascii_of_string r ++ [dquote]))
    with (Some DQUOTES, c :: list_ascii_of_string r ++ [dquote]). cbn [fst snd].
  rewrite lexl_cons, name_start_first by assumption. rewrite span_app by reflexivity.
  rewrite span_all by assumption. cbn [fst snd app].
  replace (str_of (c :: list_ascii_of_string r)) with (String c r).
  - rewrite name_tok_ident by assumption. reflexivity.
  - unfold str_of. simpl. rewrite string_of_las. reflexivity.
Qed.
Lemma nohash_quoted x : ident x -> nohash (quoted x).
Proof.
  intro H. unfold quoted. change (String dquote (x ++ String dquote ""))%string with (String dquote "" ++ (x ++ String dquote ""))%string.
  apply nohash_app; [apply nohash_lit; reflexivity|]. apply nohash_app; [apply ident_nohash; auto|apply nohash_lit; reflexivity].
Qed.
Lemma atom_quoted x : ident x -> atom (quoted x) (NStr x).
Proof. intro H. split; [apply nohash_quoted; auto|]. intros. rewrite lex_quoted by auto. reflexivity. Qed.

Lemma d_eq_int a z : ident a -> dchain 8 (a ++ " = " ++ str_Z z) (fun s i => s i a = VZ z).
Proof.
  intro H. destruct (str_Z_number z) as [N V]. exists (NCmp "=" (NVar a) (NNum (str_Z z))). split.
  - apply chain_eq; apply atom_chain; [apply atom_ident|apply atom_num]; auto.
  - intros s i. cbn [holds term_val]. rewrite V. cbn. reflexivity.
Qed.
Lemma d_eq_str a x : ident a -> ident x -> dchain 8 (a ++ " = " ++ quoted x) (fun s i => s i a = VS x).
Proof.
  intros H Hx. exists (NCmp "=" (NVar a) (NStr x)). split.
  - apply chain_eq; apply atom_chain; [apply atom_ident|apply atom_quoted]; auto.
  - intros s i. cbn [holds term_val]. cbn. reflexivity.
Qed.

Lemma sval_eqb_eq a b : sval_eqb a b = true <-> a = b.
Proof.
  destruct a, b; cbn; split; intro H; try discriminate.
  - apply Z.eqb_eq in H. congruence.
  - injection H as ->. apply Z.eqb_refl.
  - apply String.eqb_eq in H. congruence.
  - injection H as ->. apply String.eqb_refl.
Qed.
Lemma smem_In v l : smem v l = true <-> In v l.
Proof.
  unfold smem. rewrite existsb_exists. split.
  - intros (x & I & E). apply sval_eqb_eq in E. subst. auto.
  - intro I. exists v. split; auto. apply sval_eqb_eq. auto.
Qed.
Lemma ids_get_map f l v : In v l -> ids_get v (map (fun x => (x, f x)) l) = Some (f v).
Proof.
  induction l as [|x l IH]; [intros []|]. cbn [map ids_get]. intro I.
  destruct (sval_eqb v x) eqn:E; [apply sval_eqb_eq in E; subst; auto|].
  apply IH. destruct I as [->|I]; auto. rewrite (proj2 (sval_eqb_eq v v)) in E by auto. discriminate.
Qed.
Lemma ids_get_map_inv f l v x : ids_get v (map (fun x => (x, f x)) l) = Some x -> In v l /\ x = f v.
Proof.
  induction l as [|y l IH]; [discriminate|]. cbn [map ids_get].
  destruct (sval_eqb v y) eqn:E; intro H.
  - apply sval_eqb_eq in E. subst. injection H as <-. split; [left; auto|auto].
  - destruct (IH H). split; [right; auto|auto].
Qed.
Lemma combine_map {A B} (f : A -> B) l : combine l (map f l) = map (fun x => (x, f x)) l.
Proof. induction l; cbn; f_equal; auto. Qed.

Definition ids_ok (ab : bool) (var : string) (states : list sval) (d : ids) : Prop :=
  (forall v, In v states -> exists x, ids_get v d = Some x) /\
  (forall v x, ids_get v d = Some x -> In v states /\ den x (fun s i => shows ab var v (s i))) /\
  map fst d = states.

Lemma VB_dec (v : value) b : v = VB b \/ v <> VB b.
Proof. destruct v as [c|z|x]; try (right; discriminate). destruct c, b; (left; reflexivity) || (right; discriminate). Qed.

Lemma texts_den states : forallb is_str states = true -> (forall v, In v states -> good_name v) ->
  forall x, In x (map sval_text states) -> den x (fun s i => s i x = VB true).
Proof.
  intros H G x I. apply in_map_iff in I. destruct I as (v & <- & I).
  rewrite forallb_forall in H. specialize (H v I). specialize (G v I). destruct v; [discriminate|].
  apply datom_den, d_ident. exact G.
Qed.
Lemma texts_nodup states : forallb is_str states = true -> NoDup states -> NoDup (map sval_text states).
Proof.
  intros H N. induction N as [|v l Nv N IH]; cbn [map]; [constructor|].
  cbn [forallb] in H. apply andb_prop in H. destruct H as [Hv H]. constructor; auto.
  intro I. apply in_map_iff in I. destruct I as (w & E & I).
  rewrite forallb_forall in H. specialize (H w I). destruct v, w; try discriminate. cbn in E. subst. contradiction.
Qed.
Lemma at_most_texts states var st : forallb is_str states = true ->
  at_most_one (fun x => st x = VB true) (map sval_text states) <-> at_most_one (fun v => shows true var v st) states.
Proof.
  intro H. rewrite forallb_forall in H. unfold at_most_one. split; intros K v w Iv Iw A B.
  - specialize (H v Iv) as Hv. specialize (H w Iw) as Hw. destruct v, w; try discriminate. f_equal.
    apply K; auto; [apply (in_map sval_text) in Iv|apply (in_map sval_text) in Iw]; auto.
  - apply in_map_iff in Iv, Iw. destruct Iv as (v' & <- & Iv), Iw as (w' & <- & Iw).
    specialize (H v' Iv) as Hv. specialize (H w' Iw) as Hw. destruct v', w'; try discriminate.
    f_equal. apply K; auto.
Qed.
Lemma only_texts states var st : forallb is_str states = true ->
  only_one (fun x => st x = VB true) (map sval_text states) <-> only_one (fun v => shows true var v st) states.
Proof.
  intro H. unfold only_one. rewrite (at_most_texts states var st H). rewrite forallb_forall in H.
  split; intros [A (x & I & B)]; (split; [exact A|]).
  - apply in_map_iff in I. destruct I as (v & <- & I). exists v. split; auto. specialize (H v I). destruct v; [discriminate|exact B].
  - exists (sval_text x). split; [apply in_map; auto|]. specialize (H x I). destruct x; [discriminate|exact B].
Qed.

Lemma iter2var_ok states vars var b mu vs d c :
  iter2var states vars var b mu = Ok (vs, d, c) -> ident var -> NoDup states ->
  (forall v, In v states -> good_name v) ->
  ids_ok (as_bools mu b) var states d /\
  match c with
  | None => forall st, action_count mu b var states st
  | Some t => den t (fun s i => action_count mu b var states (s i))
  end.
Proof.
  intros H Hv N G. unfold iter2var in H.
  destruct states as [|q0 st0] eqn:Es.
  { apply Ok_inj in H. injection H as <- <- <-. split.
    - repeat split; try discriminate; try (intros ? []).
    - intro st. destruct mu as [[]|]; cbn; auto; [intros _ x y []|intros _ L; lia]. }
  rewrite <- Es in *. 
  destruct (match mu with None => true | _ => b end) eqn:Ab; change (as_bools mu b = true) in Ab || change (as_bools mu b = false) in Ab; rewrite Ab.
  - (* Booleans *)
    destruct (forallb is_str states) eqn:S; [|discriminate]. cbn [negb] in H.
    set (texts := map sval_text states) in *.
    pose proof (texts_den states S G) as HD. pose proof (texts_nodup states S N) as ND.
    fold texts in HD, ND.
    assert (IO : ids_ok true var states (combine states texts)).
    { unfold texts. rewrite combine_map. split; [|split].
      - intros v I. exists (sval_text v). apply (ids_get_map sval_text); auto.
      - intros v x K. apply (ids_get_map_inv sval_text) in K. destruct K as [I ->]. split; auto.
        rewrite forallb_forall in S. specialize (S v I). eapply den_ext; [apply HD, in_map; auto|].
        intros s i. destruct v; [discriminate|reflexivity].
      - rewrite map_map. cbn [fst]. apply map_id. }
    assert (Len : List.length texts = List.length states) by apply map_length.
    destruct (le_lt_dec (List.length texts) 1) as [L|L].
    + rewrite (mutex_short (fun x s i => s i x = VB true) texts HD L) in H. apply Ok_inj in H.
      injection H as <- <- <-. split; auto. intro st. destruct mu as [[]|]; cbn; auto.
      * intros _ x y Ix Iy _ _. rewrite Len in L. destruct states as [|a [|a' r]]; [contradiction| |simpl in L; lia].
        destruct Ix as [<-|[]], Iy as [<-|[]]; auto.
      * intros _ L2. lia.
    + destruct (mutex_den (fun x s i => s i x = VB true) texts HD ND) as (m & Em & Dm); [lia|intros; apply VB_dec|].
      destruct (exactly_one_den (fun x s i => s i x = VB true) texts HD ND) as (x & Ex & Dx); [lia|].
      rewrite Em in H. destruct mu as [[]|].
      * apply Ok_inj in H. injection H as <- <- <-. split; auto. cbn in Ab. subst b.
        eapply den_ext; [exact Dm|]. intros s i. cbn [action_count]. unfold texts. rewrite (at_most_texts states var (s i) S). split; auto.
      * rewrite Ex in H. apply Ok_inj in H. injection H as <- <- <-. split; auto. cbn in Ab. subst b.
        eapply den_ext; [apply datom_den, Dx|]. intros s i. cbn [action_count]. unfold texts. rewrite (only_texts states var (s i) S).
        split; auto. intro K. apply K; auto. lia.
      * apply Ok_inj in H. injection H as <- <- <-. split; auto. eapply den_ext; [apply datom_den, d_true|].
        intros s i. reflexivity.
  - (* one variable *)
    assert (AC : forall st, action_count mu b var states st).
    { intro st. destruct mu as [[]|]; cbn in *; auto; intro; congruence. }
    destruct (has var vars); [discriminate|].
    destruct (forallb is_int states) eqn:SI; [|destruct (forallb is_str states) eqn:SS; [|discriminate]].
    + apply Ok_inj in H. injection H as <- <- <-. split; auto. split; [|split].
      * intros v I. eexists. apply ids_get_map; auto.
      * intros v x K. apply (ids_get_map_inv (fun x => (var ++ " = " ++ sval_text x)%string)) in K. destruct K as [I ->].
        split; auto. rewrite forallb_forall in SI. specialize (SI v I). destruct v; [|discriminate].
        cbn [sval_text shows]. eapply dchain_den, d_eq_int; auto.
      * rewrite map_map. cbn [fst]. apply map_id.
    + apply Ok_inj in H. injection H as <- <- <-. split; auto. split; [|split].
      * intros v I. eexists. apply ids_get_map; auto.
      * intros v x K. apply (ids_get_map_inv (fun x => (var ++ " = " ++ quoted (sval_text x))%string)) in K. destruct K as [I ->].
        split; auto. rewrite forallb_forall in SS. specialize (SS v I). specialize (G v I). destruct v; [discriminate|].
        cbn [sval_text shows]. eapply dchain_den, d_eq_str; auto.
      * rewrite map_map. cbn [fst]. apply map_id.
Qed.
