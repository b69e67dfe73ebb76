(** Clauses for transitions and labels. *)
From Coq Require Import List String Ascii Bool Arith ZArith Lia.
From Verif Require Import M_Base M_Ast M_Lexer M_Parser M_Spec M_Form M_Tree M_Gr1c M_Synth.
From Verif Require Import S_LTL S_Gr1 S_Syntax S_Synth.
From Verif Require Import L_Lexer L_Parser L_Template L_Gr1 L_RoundTrip L_Text L_Den L_Form L_Gr1c L_Synth.
Import ListNotations.
Open Scope string_scope.
Open Scope list_scope.

Lemma append_nil_r (s : string) : (s ++ "")%string = s.
Proof. induction s; cbn; congruence. Qed.
Lemma prefix_spec w k : String.prefix w k = true <-> exists b, k = (w ++ b)%string.
Proof.
  revert k. induction w as [|c w IH]; intro k; cbn.
  - split; [intros _; exists k; destruct k; reflexivity|destruct k; auto].
  - destruct k as [|c' k]; [split; [discriminate|intros [b H]; discriminate]|].
    simpl String.prefix. cbn [append]. destruct (ascii_dec c c') as [->|Hc].
    + rewrite IH. split; intros [b H]; exists b; congruence.
    + split; [discriminate|]. intros [b H]. congruence.
Qed.
Lemma contains_spec w k : contains w k = true <-> has_word w k.
Proof.
  unfold has_word. induction k as [|c k IH]; cbn [contains].
  - rewrite orb_false_r, prefix_spec. split.
    + intros [b H]. exists "", b. exact H.
    + intros (a & b & H). destruct a; [exists b; exact H|discriminate].
  - rewrite orb_true_iff, prefix_spec, IH. split.
    + intros [[b H]|(a & b & H)]; [exists "", b; exact H|exists (String c a), b; cbn; congruence].
    + intros (a & b & H). destruct a as [|c' a]; [left; exists b; exact H|right].
      cbn in H. injection H as <- H. eauto.
Qed.

Lemma mapr_In {A B} (f : A -> res B) xs ys x : mapr f xs = Ok ys -> In x xs -> exists y, f x = Ok y /\ In y ys.
Proof.
  revert ys. induction xs as [|z xs IH]; intros ys H I; [destruct I|]. cbn [mapr] in H.
  destruct (f z) as [y|] eqn:E; [|discriminate]. cbn [bind] in H.
  destruct (mapr f xs) as [ys'|] eqn:E'; [|discriminate]. cbn [bind] in H. apply Ok_inj in H. subst.
  destruct I as [->|I]; [exists y; simpl; auto|]. destruct (IH _ eq_refl I) as (y' & Y1 & Y2). exists y'. simpl; auto.
Qed.
Lemma mapr_nil {A B} (f : A -> res B) xs : mapr f xs = Ok [] -> xs = [].
Proof.
  destruct xs as [|x xs]; auto. cbn [mapr]. destruct (f x); [|discriminate]. cbn [bind]. destruct (mapr f xs); discriminate.
Qed.
Lemma of_opt_ok {A} e (o : option A) x : of_opt e o = Ok x -> o = Some x.
Proof. destruct o; cbn; intro H; [apply Ok_inj in H; congruence|discriminate]. Qed.

Lemma lookup_In {A} k (d : list (string * A)) v : lookup k d = Some v -> In (k, v) d.
Proof.
  induction d as [|[k' v'] d IH]; [discriminate|]. cbn [lookup]. destruct (k =? k')%string eqn:E; intro H.
  - apply String.eqb_eq in E. subst. injection H as <-. left; auto.
  - right; auto.
Qed.
Lemma In_lookup {A} k (d : list (string * A)) v : NoDup (map fst d) -> In (k, v) d -> lookup k d = Some v.
Proof.
  induction d as [|[k' v'] d IH]; intros N I; [destruct I|]. cbn [lookup]. inversion N as [|? ? N1 N2]; subst.
  destruct I as [E|I].
  - injection E as -> ->. rewrite String.eqb_refl. reflexivity.
  - destruct (k =? k')%string eqn:E; [|auto]. apply String.eqb_eq in E. subst. destruct N1. apply (in_map fst) in I. exact I.
Qed.

Lemma mem_false x l : mem x l = false <-> ~ In x l.
Proof. rewrite <- mem_In. destruct (mem x l); split; intro H; auto; try discriminate; try congruence. Qed.

Section Clauses.
  Variable t : fts.
  Variables (bs ba : bool) (var : string).
  Variable sid : ids.
  Variables sai eai : list (string * ids).
  Hypothesis Hsid : ids_ok bs var (f_states t) sid.
  Definition acts_ok (l : list (string * ids)) : Prop :=
    forall k d, lookup k l = Some d -> exists cod, ids_ok (as_bools (type_must t k) ba) k cod d.
  Hypothesis Hsai : acts_ok sai.
  Hypothesis Heai : acts_ok eai.

  Definition later (nxt : bool) (i : nat) : nat := if nxt then S i else i.

  Lemma d_actions l se nxt x : acts_ok se -> conj_actions l se nxt = Ok x ->
    oden x (fun s i => forall k v, In (k, v) l -> action_shown t ba k v (s (later nxt i))).
  Proof.
    intros Hse H. unfold conj_actions in H. destruct l as [|kv0 l0] eqn:El.
    { apply Ok_inj in H. subst. left. split; auto. intros s i k v []. }
    rewrite <- El in *.
    match type of H with (do _ <- mapr ?f _; _) = _ => set (F := f) in * end.
    destruct (mapr F l) as [xs|] eqn:E; [|discriminate]. cbn [bind] in H. apply Ok_inj in H.
    assert (D : Forall2 den xs (map (fun kv s i => action_shown t ba (fst kv) (snd kv) (s i)) l)).
    { apply Forall2_flip_map. eapply mapr_Forall2; [exact E|]. intros [k v] y I K. unfold F in K. cbn [fst snd] in *.
      destruct (lookup k se) as [d|] eqn:Ek; [|discriminate]. cbn [of_opt bind] in K. apply of_opt_ok in K.
      destruct (Hse k d Ek) as (cod & _ & B & _). apply B in K. apply K. }
    assert (C : dchain 5 (conj xs) (fun s i => forall k v, In (k, v) l -> action_shown t ba k v (s i))).
    { eapply dchain_ext; [apply d_conj|].
      - eapply Forall2_imp; [|exact D]. intros a b K. right. exact K.
      - rewrite El in D. inversion D as [|? ? ? ? K1 K2]; subst. eexists. split; [left; reflexivity|]. eapply den_nonempty; eauto.
      - intros s i. cbv beta. rewrite (Forall_map_iff (fun kv s i => action_shown t ba (fst kv) (snd kv) (s i)) (fun P => P s i)).
        split; [intros K k v I; apply (K (k, v) I)|intros K [k v] I; apply K; auto]. }
    apply dchain_den in C. right. subst x. destruct nxt; cbn [later].
    - apply (den_sp ("X(" ++ conj xs ++ ")")). apply dpre_den. apply (d_X _ _ C).
    - apply datom_den, d_pstr, C.
  Qed.

  Lemma d_action e nxt : label_ok e ->
    oden (conj_action (e_label e) "actions" nxt)
      (fun s i => forall a, In ("actions", SStr a) (e_label e) -> a <> "" -> s (later nxt i) a = VB true).
  Proof.
    intros [N L]. unfold conj_action. destruct (lookup "actions" (e_label e)) as [v|] eqn:E.
    - apply lookup_In in E as I. destruct (L v I) as (a & -> & Ha).
      assert (U : forall b, In ("actions", SStr b) (e_label e) -> b = a).
      { intros b Ib. apply (In_lookup _ _ _ N) in Ib. congruence. }
      destruct Ha as [->|Ha].
      + left. split; auto. intros s i b Ib Nb. apply U in Ib. congruence.
      + right. assert (Da : den a (fun s i => s i a = VB true)) by (apply datom_den, d_ident, Ha).
        assert (Na : a <> "") by (eapply den_nonempty; eauto).
        cbn [sval_text].
        replace (match a with "" => "" | _ => if nxt then (" X" ++ pstr a)%string else pstr a end)
          with (if nxt then (" X" ++ pstr a)%string else pstr a) by (destruct a; [congruence|reflexivity]).
        eapply den_ext.
        * instantiate (1 := fun s i => s (later nxt i) a = VB true). destruct nxt; cbn [later].
          -- apply (den_sp ("X(" ++ a ++ ")")). apply dpre_den. apply (d_X _ _ Da).
          -- apply datom_den, d_pstr, Da.
        * intros s i. split; [intros K b Ib Nb; apply U in Ib; subst; auto|intro K; apply K; auto].
    - left. split; auto. intros s i a I. apply (In_lookup _ _ _ N) in I. congruence.
  Qed.

  (** The condition of a transition. *)
  Definition guard (e : edge) : tpred := fun s i => shows bs var (e_to e) (s (S i)) /\ edge_actions t ba s i e.

  Lemma d_sys_guard e x : label_ok e -> sys_guard sid sai eai e = Ok x -> den x (guard e).
  Proof.
    intros Le H. unfold sys_guard in H.
    destruct (ids_get (e_to e) sid) as [to|] eqn:Eto; [|discriminate]. cbn [of_opt bind] in H.
    destruct (conj_actions (in_prev (e_prev e) (with_key "env" (e_label e))) eai false) as [pe|] eqn:E1; [|discriminate]. cbn [bind] in H.
    destruct (conj_actions (not_prev (e_prev e) (with_key "env" (e_label e))) eai true) as [ne|] eqn:E2; [|discriminate]. cbn [bind] in H.
    destruct (conj_actions (in_prev (e_prev e) (with_key "sys" (e_label e))) sai false) as [ps|] eqn:E3; [|discriminate]. cbn [bind] in H.
    destruct (conj_actions (not_prev (e_prev e) (with_key "sys" (e_label e))) sai true) as [ns|] eqn:E4; [|discriminate]. cbn [bind] in H.
    apply Ok_inj in H. subst x.
    destruct Hsid as (_ & B & _). destruct (B _ _ Eto) as [Ito Dto].
    pose proof (d_X _ _ Dto) as DX. apply dpre_den in DX. fold (pstr to) in DX.
    apply d_actions in E1, E2, E3, E4; auto.
    pose proof (d_action e (negb (mem "actions" (e_prev e))) Le) as DA.
    eapply den_ext.
    - eapply dchain_den. apply d_conj.
      + constructor; [right; exact DX|]. constructor; [exact E1|]. constructor; [exact E2|].
        constructor; [exact E3|]. constructor; [exact E4|]. constructor; [exact DA|constructor].
      + eexists. split; [left; reflexivity|]. discriminate.
    - intros s i. cbv beta. unfold guard, edge_actions. split.
      + intro K.
        pose proof (Forall_inv K) as K0. apply Forall_inv_tail in K. pose proof (Forall_inv K) as K1. apply Forall_inv_tail in K.
        pose proof (Forall_inv K) as K2. apply Forall_inv_tail in K. pose proof (Forall_inv K) as K3. apply Forall_inv_tail in K.
        pose proof (Forall_inv K) as K4. apply Forall_inv_tail in K. pose proof (Forall_inv K) as K5. clear K. cbv beta in *.
        split; [exact K0|]. split.
        * intros k v I W. split; intro P.
          -- destruct W as [W|W]; apply contains_spec in W; [apply K3|apply K1]; unfold in_prev, with_key;
               rewrite !filter_In; cbn [fst]; rewrite W; repeat split; auto; apply mem_In; auto.
          -- destruct W as [W|W]; apply contains_spec in W; [apply K4|apply K2]; unfold not_prev, with_key;
               rewrite !filter_In; cbn [fst]; rewrite W; repeat split; auto; apply mem_false in P; rewrite P; auto.
        * intros a I Na. split; intro P.
          -- apply mem_In in P. specialize (K5 a I Na). rewrite P in K5. exact K5.
          -- apply mem_false in P. specialize (K5 a I Na). rewrite P in K5. exact K5.
      + intros (K0 & K & KA). repeat constructor; auto.
        * intros k v I. unfold in_prev, with_key in I. rewrite !filter_In in I. cbn [fst] in I. destruct I as [[I W] P].
          apply contains_spec in W. apply mem_In in P. apply (K k v I); auto.
        * intros k v I. unfold not_prev, with_key in I. rewrite !filter_In in I. cbn [fst] in I. destruct I as [[I W] P].
          apply contains_spec in W. apply negb_true_iff, mem_false in P. apply (K k v I); auto.
        * intros k v I. unfold in_prev, with_key in I. rewrite !filter_In in I. cbn [fst] in I. destruct I as [[I W] P].
          apply contains_spec in W. apply mem_In in P. apply (K k v I); auto.
        * intros k v I. unfold not_prev, with_key in I. rewrite !filter_In in I. cbn [fst] in I. destruct I as [[I W] P].
          apply contains_spec in W. apply negb_true_iff, mem_false in P. apply (K k v I); auto.
        * intros a I Na. destruct (mem "actions" (e_prev e)) eqn:P; cbn [negb later].
          -- apply mem_In in P. apply (KA a I Na); auto.
          -- apply mem_false in P. apply (KA a I Na); auto.
  Qed.

  Lemma find_from_In tr q e : In e (find_from tr q) <-> In e tr /\ e_from e = q.
  Proof. unfold find_from. rewrite filter_In, sval_eqb_eq. reflexivity. Qed.

  Lemma d_imp_text x P y Q : den x P -> dchain 3 y Q -> den (pstr x ++ " -> " ++ y) (fun s i => P s i -> Q s i).
  Proof. intros Hx Hy. eapply dchain_den, d_imp; [apply datom_dchain, d_pstr, Hx|exact Hy]. Qed.

  Lemma d_sys_trans tr xs : (forall e, In e tr -> label_ok e) ->
    sys_trans_from_ts (f_states t) sid tr sai eai = Ok xs ->
    dens xs (fun s i => forall q, In q (f_states t) -> shows bs var q (s i) ->
       exists e, In e tr /\ e_from e = q /\ guard e s i).
  Proof.
    intros Hl H. unfold sys_trans_from_ts in H.
    eapply (dens_mapr _ (fun q s i => shows bs var q (s i) -> exists e, In e tr /\ e_from e = q /\ guard e s i)) in H; [exact H|].
    intros q y Iq K. cbv beta in K.
    destruct (ids_get q sid) as [x|] eqn:Ex; [|discriminate]. cbn [of_opt bind] in K.
    destruct Hsid as (_ & B & _). destruct (B _ _ Ex) as [_ Dx].
    destruct (find_from tr q) as [|e0 cur] eqn:Ef.
    - apply Ok_inj in K. subst y. eapply den_ext; [apply (d_imp_text x _ "X(False)" (fun s i => False) Dx)|].
      + apply dpre_dchain; [lia|]. exact (d_X "False" (fun _ _ => False) (datom_den _ _ d_false)).
      + intros s i. cbv beta. split; [tauto|]. intros M N. destruct (M N) as (e & Ie & E & _).
        assert (I : In e (find_from tr q)) by (apply find_from_In; auto). rewrite Ef in I. destruct I.
    - assert (K' : (do gs <- mapr (sys_guard sid sai eai) (e0 :: cur); Ok (pstr x ++ " -> (" ++ disj gs ++ ")")%string) = Ok y) by exact K.
      clear K. rename K' into K. rewrite <- Ef in K. remember (find_from tr q) as cu eqn:Ecu.
      destruct (mapr (sys_guard sid sai eai) cu) as [gs|] eqn:Eg; [|discriminate]. cbn [bind] in K. apply Ok_inj in K. subst y.
      eapply den_ext; [eapply (d_imp_text x _ ("(" ++ disj gs ++ ")") _ Dx)|].
      + apply datom_dchain, d_paren. eapply dchain_den, d_disj.
        * intros ->. apply mapr_nil in Eg. congruence.
        * apply Forall2_flip_map with (g := guard). eapply mapr_Forall2; [exact Eg|]. intros e y I G.
          apply d_sys_guard; auto. apply Hl. rewrite Ecu in I. apply find_from_In in I. tauto.
      + intros s i. cbv beta. rewrite (Exists_map_iff guard (fun P => P s i)).
        split; intros M N; destruct (M N) as (e & I & G).
        * rewrite Ecu in I. apply find_from_In in I. exists e. tauto.
        * exists e. rewrite Ecu, find_from_In. tauto.
  Qed.

  (** Initial states. *)
  Lemma d_init xs ignore : init_from_ts (f_initial t) sid ignore = Ok xs ->
    dens xs (fun s i => ignore = false -> exists q, In q (f_initial t) /\ In q (f_states t) /\ shows bs var q (s i)).
  Proof.
    intro H. unfold init_from_ts in H. destruct ignore.
    - apply Ok_inj in H. subst. eapply dens_ext; [apply dens_nil|]. intros s i. split; [discriminate|auto].
    - destruct (f_initial t) as [|q0 l0] eqn:E; [discriminate|]. rewrite <- E in *.
      destruct (mapr (fun q => of_opt "KeyError" (ids_get q sid)) (f_initial t)) as [l|] eqn:Em; [|discriminate].
      cbn [bind] in H. apply Ok_inj in H. subst xs. eapply dens_ext; [apply dens_one|].
      + eapply dchain_den, d_disj.
        * intros ->. apply mapr_nil in Em. congruence.
        * apply Forall2_flip_map with (g := fun q s i => In q (f_states t) /\ shows bs var q (s i)).
          eapply mapr_Forall2; [exact Em|]. intros q y I K. apply of_opt_ok in K.
          destruct Hsid as (_ & B & _). destruct (B _ _ K) as [Iq D]. eapply den_ext; [exact D|]. intros s i. tauto.
      + intros s i. cbv beta. rewrite (Exists_map_iff (fun q s i => In q (f_states t) /\ shows bs var q (s i)) (fun P => P s i)).
        split; [intros M _; exact M|intro M; apply M; reflexivity].
  Qed.

  (** Atomic propositions. *)
  Hypothesis Hap : forall p, In p (f_aps t) -> ident p.
  Definition ap_at (lab : option (list string)) : tpred := fun s i =>
    forall p, In p (f_aps t) -> (s i p = VB true <-> exists l, lab = Some l /\ In p l).

  Lemma d_aps_list l (f : string -> bool) (g : string -> string) (P : string -> tpred) :
    (forall p, In p l -> dchain 6 (g p) (P p)) -> l <> [] ->
    dchain 5 (join " && " (map g l)) (fun s i => forall p, In p l -> P p s i).
  Proof.
    intros H Hne. eapply dchain_ext; [apply (d_join_and _ (map P l))|].
    - destruct l; [congruence|discriminate].
    - apply Forall2_map_l, Forall2_same. exact H.
    - intros s i. apply (Forall_map_iff P (fun P => P s i)).
  Qed.

  Lemma d_sprint lab : f_aps t <> [] -> den (sprint_aps lab (f_aps t)) (ap_at lab).
  Proof.
    intro Hne. set (L := match lab with Some l => l | None => [] end).
    assert (E : sprint_aps lab (f_aps t) =
      join " && " (map (fun p => p) (filter (fun x => mem x L) (f_aps t)) ++ map (fun x => "!" ++ x)%string (filter (fun x => negb (mem x L)) (f_aps t)))).
    { unfold sprint_aps.
      replace (match lab with Some ap => conj_intersection (f_aps t) ap false | None => "" end)
        with (join " && " (filter (fun x => mem x L) (f_aps t))).
      2:{ destruct lab; cbn [L]; auto. unfold L. clear. induction (f_aps t); cbn; auto. }
      replace (match lab with Some ap => conj_neg_diff (f_aps t) ap false | None => conj_neg (f_aps t) false end)
        with (join " && " (map (fun x => "!" ++ x)%string (filter (fun x => negb (mem x L)) (f_aps t)))).
      2:{ destruct lab; cbn [L]; auto. unfold L, conj_neg. f_equal. f_equal. clear. induction (f_aps t); cbn; f_equal; auto. }
      rewrite map_id. set (A := filter (fun x => mem x L) (f_aps t)). set (B := map (fun x => "!" ++ x)%string (filter (fun x => negb (mem x L)) (f_aps t))).
      assert (NA : A <> [] -> nonempty (join " && " A) = true).
      { destruct A as [|a r] eqn:EA; [intro Z; destruct Z; reflexivity|]. intros _. unfold nonempty.
        assert (Ia : In a (f_aps t)) by (assert (In a A) by (rewrite EA; left; auto); unfold A in H; apply filter_In in H; tauto).
        assert (a <> "") by (eapply den_nonempty, datom_den, d_ident, Hap, Ia).
        destruct a; [congruence|]. destruct r; reflexivity. }
      assert (NB : B <> [] -> nonempty (join " && " B) = true).
      { unfold B. destruct (filter (fun x => negb (mem x L)) (f_aps t)) as [|b [|c r]]; [intro Z; destruct Z; reflexivity|intros _; reflexivity|intros _; reflexivity]. }
      destruct A as [|a r] eqn:EA.
      - cbn [join]. change (nonempty "") with false. cbn [andb app]. reflexivity.
      - destruct B as [|b r'] eqn:EB.
        + change (join " && " []) with "". change (nonempty "") with false. rewrite andb_false_r, app_nil_r. rewrite append_nil_r. reflexivity.
        + rewrite NA, NB by discriminate. cbn [andb]. rewrite <- join_app by discriminate. reflexivity. }
    rewrite E. eapply den_ext.
    - eapply dchain_den, d_join_and.
      + intro Z. apply app_eq_nil in Z. destruct Z as [Z1 Z2]. apply map_eq_nil in Z1, Z2.
        destruct (f_aps t) as [|p r]; [congruence|]. cbn [filter] in Z1, Z2. destruct (mem p L); discriminate.
      + apply Forall2_app.
        * apply Forall2_map_l, Forall2_same with (g := fun p s i => s i p = VB true). intros p I. apply filter_In in I.
          apply datom_dchain, d_ident, Hap. tauto.
        * apply Forall2_map_l, Forall2_same with (g := fun p s i => ~ s i p = VB true). intros p I. apply filter_In in I.
          apply dpre_dchain; [lia|]. apply d_not_ident, Hap. tauto.
    - intros s i. cbv beta. rewrite Forall_app.
      rewrite (Forall_map_iff (fun p s i => s i p = VB true) (fun P => P s i)), (Forall_map_iff (fun p s i => ~ s i p = VB true) (fun P => P s i)).
      unfold ap_at.
      assert (HL : forall p, In p L <-> exists l, lab = Some l /\ In p l).
      { intro p. unfold L. destruct lab as [l|]; split.
        - intro; eauto.
        - intros (l' & EE & I). injection EE as <-. auto.
        - intros [].
        - intros (l' & EE & _). discriminate. }
      split.
      + intros [K1 K2] p I. rewrite <- HL. split; intro M.
        * destruct (mem p L) eqn:Em; [apply mem_In; auto|]. exfalso. apply (K2 p); auto. apply filter_In. rewrite Em. auto.
        * apply K1. apply filter_In. split; auto. apply mem_In; auto.
      + intro K. split; intros p I; apply filter_In in I; destruct I as [I M]; rewrite (K p I), <- HL.
        * apply mem_In; auto.
        * apply negb_true_iff, mem_false in M. exact M.
  Qed.

  Lemma concatr_dens {A} (f : A -> res (list string)) (Q : A -> tpred) xs ys : concatr f xs = Ok ys ->
    (forall x y, In x xs -> f x = Ok y -> dens y (Q x)) ->
    dens ys (fun s i => forall x, In x xs -> Q x s i).
  Proof.
    revert ys. induction xs as [|x xs IH]; intros ys H D; cbn [concatr] in H.
    - apply Ok_inj in H. subst. eapply dens_ext; [apply dens_nil|]. intros s i. split; [intros _ x []|auto].
    - destruct (f x) as [y|] eqn:E; [|discriminate]. cbn [bind] in H.
      destruct (concatr f xs) as [ys'|] eqn:E'; [|discriminate]. cbn [bind] in H. apply Ok_inj in H. subst.
      eapply dens_ext; [apply (dens_app y ys')|].
      + apply (D x y); simpl; auto.
      + apply IH; auto. intros; apply D; simpl; auto.
      + intros s i. split; [intros [K L] z [<-|I]; auto|intro K; split; [apply K; left; auto|intros; apply K; right; auto]].
  Qed.

  Lemma d_aps ai at_ : (forall n st, In n (f_nodes t) -> shows bs var (fst n) st \/ ~ shows bs var (fst n) st) ->
    ap_trans_from_ts (f_nodes t) sid (f_aps t) = Ok (ai, at_) ->
    dens ai (fun s i => forall n, In n (f_nodes t) -> shows bs var (fst n) (s i) -> ap_at (snd n) s i) /\
    dens at_ (fun s i => forall n, In n (f_nodes t) -> shows bs var (fst n) (s (S i)) -> ap_at (snd n) s (S i)).
  Proof.
    intros Dec H. unfold ap_trans_from_ts in H. destruct (f_aps t) as [|p0 r0] eqn:Ea.
    { apply Ok_inj in H. injection H as <- <-. split; (eapply dens_ext; [apply dens_nil|]); intros s i;
        (split; [intros _ n _ _ p I; rewrite Ea in I; destruct I|auto]). }
    rewrite <- Ea in *. assert (Hne : f_aps t <> []) by (rewrite Ea; discriminate).
    match type of H with (do _ <- concatr ?f _; _) = _ => destruct (concatr f (f_nodes t)) as [l1|] eqn:E1; [|discriminate] end.
    cbn [bind] in H.
    match type of H with (do _ <- concatr ?f _; _) = _ => destruct (concatr f (f_nodes t)) as [l2|] eqn:E2; [|discriminate] end.
    cbn [bind] in H. apply Ok_inj in H. injection H as <- <-. destruct Hsid as (_ & B & _). split.
    - eapply (concatr_dens _ (fun n s i => shows bs var (fst n) (s i) -> ap_at (snd n) s i)) in E1; [exact E1|].
      intros n y I K. cbv beta in K. destruct (ids_get (fst n) sid) as [x|] eqn:Ex; [|discriminate]. cbn [of_opt bind] in K.
      destruct (B _ _ Ex) as [_ Dx]. pose proof (d_sprint (snd n) Hne) as Ds.
      rewrite (den_nonemptyb _ _ Ds) in K. apply Ok_inj in K. subst y. apply dens_one.
      replace ("!(" ++ pstr x ++ ") || (" ++ sprint_aps (snd n) (f_aps t) ++ ")")%string
        with (("!(" ++ pstr x ++ ")") ++ " || " ++ ("(" ++ sprint_aps (snd n) (f_aps t) ++ ")"))%string
        by (rewrite <- !string_app_assoc; reflexivity).
      eapply den_ext; [eapply dchain_den, d_or|].
      + apply dpre_dchain; [lia|]. apply d_not. apply datom_den, d_pstr, Dx.
      + apply datom_dchain, d_paren, Ds.
      + intros s i. cbv beta. destruct (Dec n (s i) I); tauto.
    - eapply (concatr_dens _ (fun n s i => shows bs var (fst n) (s (S i)) -> ap_at (snd n) s (S i))) in E2; [exact E2|].
      intros n y I K. cbv beta in K. destruct (ids_get (fst n) sid) as [x|] eqn:Ex; [|discriminate]. cbn [of_opt bind] in K.
      destruct (B _ _ Ex) as [_ Dx]. pose proof (d_sprint (snd n) Hne) as Ds.
      rewrite (den_nonemptyb _ _ Ds) in K. apply Ok_inj in K. subst y. apply dens_one.
      replace ("X((" ++ x ++ ") -> (" ++ sprint_aps (snd n) (f_aps t) ++ "))")%string
        with ("X(" ++ (pstr x ++ " -> " ++ ("(" ++ sprint_aps (snd n) (f_aps t) ++ ")")) ++ ")")%string
        by (unfold pstr; rewrite <- !string_app_assoc; reflexivity).
      eapply den_ext; [eapply dpre_den, d_X, d_imp_text|].
      + exact Dx.
      + apply datom_dchain, d_paren, Ds.
      + intros s i. cbv beta. reflexivity.
  Qed.
End Clauses.
