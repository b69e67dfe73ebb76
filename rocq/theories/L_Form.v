(** Proofs about GRSpec operations. *)
From Coq Require Import List String Ascii Bool Arith Lia ZArith.
From Verif Require Import M_Base M_Ast M_Lexer M_Parser M_Spec M_Split M_Gr1 M_Form.
From Verif Require Import S_LTL S_Gr1 S_Syntax S_Form.
From Verif Require Import L_Lexer L_Parser L_Template L_Gr1 L_RoundTrip L_ParseWf L_Text.
Import ListNotations.
Open Scope string_scope.
Open Scope list_scope.

(** * to_canon *)
Definition ucl (u : list string) (t : node) : node := fold_right NUn t u.

Lemma conj_chain (un : string) (w : node -> node) :
  (forall s e, pre s e -> pre (un ++ s) (w e)) ->
  forall l ts, (forall x, In x l -> no_comment x) -> parse_all l = Some ts ->
  Forall2 (chain 6) (map (fun s => un ++ "(" ++ s ++ ")")%string l) (map w ts).
Proof.
  intros Hw. induction l as [|x l IH]; intros ts Hn Hp; cbn [parse_all] in Hp.
  - inversion Hp; subst. constructor.
  - destruct (parse x) as [t|] eqn:E; [|discriminate].
    destruct (parse_all l) as [ts'|] eqn:E2; [|discriminate]. inversion Hp; subst.
    cbn [map]. constructor; [|apply IH; auto; intros; apply Hn; right; auto].
    apply pre_chain; [lia|]. apply Hw, atom_pre, atom_paren; auto.
    apply no_comment_nohash, Hn. left; auto.
Qed.

(** One side's text: all its pieces, joined. *)
Definition pieces (i s p : list string) : list string :=
  map (fun x => "" ++ "(" ++ x ++ ")")%string i ++ map (fun x => "[]" ++ "(" ++ x ++ ")")%string s
  ++ map (fun x => "[]<>" ++ "(" ++ x ++ ")")%string p.

Lemma join_cons sep (x : string) l : l <> [] -> join sep (x :: l) = (x ++ sep ++ join sep l)%string.
Proof. destruct l; [congruence|reflexivity]. Qed.
Lemma join_app sep : forall a b, a <> [] -> b <> [] ->
  join sep (a ++ b) = (join sep a ++ sep ++ join sep b)%string.
Proof.
  induction a as [|x a IH]; intros b Ha Hb; [congruence|].
  destruct a as [|y a].
  - cbn [app]. rewrite join_cons by auto. reflexivity.
  - change ((x :: y :: a) ++ b) with (x :: ((y :: a) ++ b)).
    rewrite join_cons by (simpl; congruence). rewrite (join_cons sep x (y :: a)) by congruence.
    rewrite IH by congruence. rewrite !string_app_assoc. reflexivity.
Qed.
Lemma nonnil_app {A} (a b : list A) : a <> [] -> a ++ b <> [].
Proof. destruct a; [congruence|discriminate]. Qed.

Lemma join_nonempty sep x l : x <> "" -> join sep (x :: l) <> "".
Proof.
  intros H. destruct l; [auto|]. cbn [join]. destruct x; [congruence|discriminate].
Qed.
Lemma conj_nonempty u x l : conj (x :: l) u "&&" <> "".
Proof.
  unfold conj. cbn [map]. apply join_nonempty. destruct u; discriminate.
Qed.
Lemma conj_cstr_ne s : s <> "" -> conj_cstr s = " && ".
Proof. intro H. unfold conj_cstr. apply String.eqb_neq in H. rewrite H. reflexivity. Qed.

Lemma canon_side_join i s p : canon_side i s p = join " && " (pieces i s p).
Proof.
  unfold canon_side, pieces.
  assert (C : forall l u, conj l u "&&" = join " && " (map (fun x => u ++ "(" ++ x ++ ")")%string l)) by reflexivity.
  assert (E0 : forall x, ("" ++ x)%string = x) by reflexivity.
  (* init *)
  set (A := match i with [] => "" | _ => ("" ++ conj_cstr "" ++ conj i "" "&&")%string end).
  assert (HA : A = join " && " (map (fun x => "" ++ "(" ++ x ++ ")")%string i)).
  { unfold A. destruct i; reflexivity. }
  assert (NA : i <> [] -> A <> "").
  { intro K. unfold A. destruct i; [congruence|]. apply conj_nonempty. }
  assert (NA' : i = [] -> A = "") by (intros ->; reflexivity).
  clearbody A.
  set (B := match s with [] => A | _ => (A ++ conj_cstr A ++ conj s "[]" "&&")%string end).
  assert (HB : B = join " && " (map (fun x => "" ++ "(" ++ x ++ ")")%string i ++ map (fun x => "[]" ++ "(" ++ x ++ ")")%string s)).
  { unfold B. destruct s as [|y s].
    - cbn [map]. rewrite app_nil_r. exact HA.
    - destruct i as [|z i].
      + rewrite NA' by auto. reflexivity.
      + rewrite conj_cstr_ne by (apply NA; discriminate). rewrite C, HA.
        rewrite <- join_app; [reflexivity| |]; discriminate. }
  assert (NB : i <> [] \/ s <> [] -> B <> "").
  { intros K. unfold B. destruct s as [|y s].
    - destruct K as [K|K]; [auto|congruence].
    - intro E. destruct (conj_nonempty "[]" y s). 
      destruct (A ++ conj_cstr A ++ conj (y :: s) "[]" "&&")%string eqn:F; [|discriminate].
      clear -F. destruct A; [|discriminate]. cbn in F. exact F. }
  assert (NB' : i = [] -> s = [] -> B = "") by (intros -> ->; unfold B; apply NA'; auto).
  clearbody B.
  destruct p as [|y p].
  - cbn [map]. rewrite app_nil_r. exact HB.
  - destruct (map (fun x => "" ++ "(" ++ x ++ ")")%string i ++ map (fun x => "[]" ++ "(" ++ x ++ ")")%string s) as [|h t] eqn:E.
    + apply app_eq_nil in E. destruct E as [E1 E2]. apply map_eq_nil in E1, E2. subst.
      rewrite NB' by auto. reflexivity.
    + rewrite conj_cstr_ne.
      * rewrite C, HB, app_assoc, E. rewrite <- join_app; [reflexivity| |]; discriminate.
      * apply NB. destruct i; [right|left]; [|discriminate]. destruct s; [discriminate|discriminate].
Qed.

Lemma side_chain i s p I S P :
  (forall x, In x (i ++ s ++ p) -> no_comment x) ->
  parse_all i = Some I -> parse_all s = Some S -> parse_all p = Some P ->
  i ++ s ++ p <> [] ->
  exists e, chain 5 (canon_side i s p) e /\
    forall tr, holds tr 0 e <-> sat_part tr {| p_init := I; p_safe := S; p_live := P |}.
Proof.
  intros Hn HI HS HP Hne. rewrite canon_side_join.
  assert (F : Forall2 (chain 6) (pieces i s p)
               (map (fun t => t) I ++ map (NUn "G") S ++ map (fun t => NUn "G" (NUn "F" t)) P)).
  { unfold pieces. apply Forall2_app; [|apply Forall2_app].
    - apply (conj_chain ""); auto. intros; apply Hn; apply in_or_app; auto.
    - apply (conj_chain "[]"); [apply pre_G| |auto]. intros; apply Hn; apply in_or_app; right; apply in_or_app; auto.
    - apply (conj_chain "[]<>"); [|intros; apply Hn; apply in_or_app; right; apply in_or_app; auto|auto].
      intros x e H. apply (pre_G ("<>" ++ x)). apply pre_F. auto. }
  assert (Hl : forall tr,
     (forall f, In f (map (fun t => t) I ++ map (NUn "G") S ++ map (fun t => NUn "G" (NUn "F" t)) P) -> holds tr 0 f) <->
     sat_part tr {| p_init := I; p_safe := S; p_live := P |}).
  { intro tr. unfold sat_part. cbn [p_init p_safe p_live]. rewrite map_id. split.
    - intro H. split; [|split].
      + intros f Hf. apply H. apply in_or_app; auto.
      + intros f Hf j.
        assert (K : holds tr 0 (NUn "G" f)) by (apply H, in_or_app; right; apply in_or_app; left; apply in_map; auto).
        apply K. lia.
      + intros f Hf j.
        assert (K : holds tr 0 (NUn "G" (NUn "F" f))) by
          (apply H, in_or_app; right; apply in_or_app; right; apply (in_map (fun t => NUn "G" (NUn "F" t))); auto).
        apply (K j). lia.
    - intros (H1 & H2 & H3) f Hf. apply in_app_or in Hf. destruct Hf as [Hf|Hf]; [auto|].
      apply in_app_or in Hf. destruct Hf as [Hf|Hf]; apply in_map_iff in Hf; destruct Hf as (g & <- & Hg).
      + intros j _. apply H2; auto.
      + intros j _. apply H3; auto. }
  remember (pieces i s p) as L eqn:EL.
  destruct F as [|x e xs es Hx Hxs].
  - exfalso. symmetry in EL. unfold pieces in EL. apply app_eq_nil in EL. destruct EL as [E1 EL].
    apply app_eq_nil in EL. destruct EL as [E2 E3]. apply map_eq_nil in E1, E2, E3. subst. apply Hne. reflexivity.
  - exists (fold_op AND "&" e es). split; [apply chain_join_and; auto|].
    intro tr. rewrite fold_and_holds, <- Hl. split.
    + intros [H1 H2] f [<-|Hf]; auto.
    + intro H. split; [apply H; left; auto|intros; apply H; right; auto].
Qed.

Lemma side_empty i s p : i ++ s ++ p = [] -> canon_side i s p = "".
Proof.
  intro H. apply app_eq_nil in H. destruct H as [-> H]. apply app_eq_nil in H. destruct H as [-> ->]. reflexivity.
Qed.
Lemma chain_nonempty l s e : chain l s e -> s <> "".
Proof. intros H ->. apply chain_parse in H. discriminate. Qed.

Lemma to_canon_ok g A G :
  (forall x, In x (clauses g) -> no_comment x) ->
  env_part g = Some A -> sys_part g = Some G ->
  exists t, parse (to_canon g) = Some t /\
    forall s, holds s 0 t <-> (sat_part s A -> sat_part s G).
Proof.
  intros Hn HA HG. unfold env_part in HA. unfold sys_part in HG.
  destruct (parse_all (env_init g)) as [ai|] eqn:A1; [|discriminate].
  destruct (parse_all (env_safety g)) as [as_|] eqn:A2; [|discriminate].
  destruct (parse_all (env_prog g)) as [ap|] eqn:A3; [|discriminate].
  destruct (parse_all (sys_init g)) as [gi|] eqn:G1; [|discriminate].
  destruct (parse_all (sys_safety g)) as [gs|] eqn:G2; [|discriminate].
  destruct (parse_all (sys_prog g)) as [gp|] eqn:G3; [|discriminate].
  inversion HA; subst A. inversion HG; subst G. clear HA HG.
  unfold clauses in Hn.
  assert (NA : forall x, In x (env_init g ++ env_safety g ++ env_prog g) -> no_comment x).
  { intros x Hx. apply Hn. rewrite !in_app_iff in *. tauto. }
  assert (NG : forall x, In x (sys_init g ++ sys_safety g ++ sys_prog g) -> no_comment x).
  { intros x Hx. apply Hn. rewrite !in_app_iff in *. tauto. }
  unfold to_canon.
  destruct (sys_init g ++ sys_safety g ++ sys_prog g) as [|y r] eqn:EG.
  { rewrite (side_empty (sys_init g)) by auto. change ("" =? "")%string with true. cbv iota.
    exists (NBool "True"). split; [reflexivity|]. intro s. cbn [holds]. split; [|auto]. intros _ _.
    apply app_eq_nil in EG. destruct EG as [E1 EG]. apply app_eq_nil in EG. destruct EG as [E2 E3].
    rewrite E1 in G1. rewrite E2 in G2. rewrite E3 in G3. inversion G1; inversion G2; inversion G3; subst.
    split; [|split]; intros f []. }
  rewrite <- EG in NG.
  destruct (side_chain _ _ _ gi gs gp NG G1 G2 G3) as (eg & Cg & Sg); [congruence|].
  pose proof (chain_nonempty _ _ _ Cg) as Ng. apply String.eqb_neq in Ng. rewrite Ng.
  destruct (env_init g ++ env_safety g ++ env_prog g) as [|z q] eqn:EA.
  { rewrite (side_empty (env_init g)) by auto. change ("" =? "")%string with true. cbv iota.
    exists eg. split; [eapply chain_parse; eauto|]. intro s. rewrite Sg. split; [auto|].
    intro H. apply H.
    apply app_eq_nil in EA. destruct EA as [E1 EA]. apply app_eq_nil in EA. destruct EA as [E2 E3].
    rewrite E1 in A1. rewrite E2 in A2. rewrite E3 in A3. inversion A1; inversion A2; inversion A3; subst.
    split; [|split]; intros f []. }
  rewrite <- EA in NA.
  destruct (side_chain _ _ _ ai as_ ap NA A1 A2 A3) as (ea & Ca & Sa); [congruence|].
  pose proof (chain_nonempty _ _ _ Ca) as Na. apply String.eqb_neq in Na. rewrite Na.
  exists (NBin "->" ea eg). split.
  - apply (chain_parse 2).
    set (a := canon_side (env_init g) (env_safety g) (env_prog g)) in *.
    set (b := canon_side (sys_init g) (sys_safety g) (sys_prog g)) in *.
    assert (E : ("(" ++ a ++ ") -> (" ++ b ++ ")" = ("(" ++ a ++ ")") ++ " -> " ++ ("(" ++ b ++ ")"))%string).
    { rewrite <- !string_app_assoc. reflexivity. }
    rewrite E. apply chain_imp; apply atom_chain; eapply atom_paren_chain; eauto.
  - intro s. rewrite <- Sa, <- Sg. reflexivity.
Qed.

(** * Dictionaries *)
Lemma lookup_dset {A} k v (d : list (string * A)) x :
  lookup x (dset k v d) = if x =? k then Some v else lookup x d.
Proof.
  induction d as [|[k' v'] r IH]; cbn [dset lookup].
  - reflexivity.
  - destruct (k =? k') eqn:E.
    + apply String.eqb_eq in E. subst. cbn [lookup]. destruct (x =? k'); reflexivity.
    + cbn [lookup]. rewrite IH. destruct (x =? k') eqn:E2; [|reflexivity].
      apply String.eqb_eq in E2. subst. rewrite String.eqb_sym, E. reflexivity.
Qed.
Lemma lookup_dupdate_none {A} : forall e (d : list (string * A)) x,
  lookup x e = None -> lookup x (dupdate d e) = lookup x d.
Proof.
  unfold dupdate. induction e as [|[k v] e IH]; intros d x H; cbn [fold_left lookup] in *; [reflexivity|].
  destruct (x =? k) eqn:E; [discriminate|]. rewrite IH by auto. cbn [fst snd].
  rewrite lookup_dset, E. reflexivity.
Qed.
Lemma lookup_in {A} x (e : list (string * A)) v : lookup x e = Some v -> In (x, v) e.
Proof.
  induction e as [|[k w] e IH]; cbn [lookup]; [discriminate|].
  destruct (x =? k) eqn:E; intro H.
  - apply String.eqb_eq in E. inversion H; subst. left; auto.
  - right; auto.
Qed.
Lemma lookup_none_iff {A} x (e : list (string * A)) : lookup x e = None <-> ~ In x (map fst e).
Proof.
  induction e as [|[k w] e IH]; cbn [lookup map fst In]; [tauto|].
  destruct (x =? k) eqn:E.
  - apply String.eqb_eq in E. subst. split; [discriminate|tauto].
  - apply String.eqb_neq in E. rewrite IH. split; [intros H [K|K]; [congruence|auto]|tauto].
Qed.
Lemma has_iff {A} x (e : list (string * A)) : has x e = true <-> In x (map fst e).
Proof.
  unfold has. destruct (lookup x e) eqn:E.
  - split; [|auto]. intros _. apply lookup_in in E. apply (in_map fst) in E. exact E.
  - apply lookup_none_iff in E. split; [discriminate|tauto].
Qed.
(** When every binding of [e] for [x] has one value. *)
Lemma lookup_dupdate_some {A} : forall e (d : list (string * A)) x v,
  In x (map fst e) -> (forall w, In (x, w) e -> w = v) -> lookup x (dupdate d e) = Some v.
Proof.
  unfold dupdate. induction e as [|[k w] e IH]; intros d x v Hin Hu; [destruct Hin|].
  cbn [fold_left fst snd].
  destruct (in_dec string_dec x (map fst e)) as [I|N].
  - apply IH; auto. intros; apply Hu; right; auto.
  - destruct Hin as [E|E]; [|contradiction]. cbn in E. subst k.
    change (fold_left (fun d0 kv => dset (fst kv) (snd kv) d0) e (dset x w d)) with (dupdate (dset x w d) e).
    rewrite lookup_dupdate_none by (apply lookup_none_iff; auto).
    rewrite lookup_dset, String.eqb_refl. f_equal. apply Hu. left; auto.
Qed.
Lemma declared_lookup D x d : declared D x d <-> lookup x D = Some d.
Proof.
  unfold declared. split.
  - intros (pre & post & -> & N). induction pre as [|[k w] pre IH]; cbn [app lookup].
    + rewrite String.eqb_refl. reflexivity.
    + cbn [map fst In] in N. destruct (x =? k) eqn:E; [apply String.eqb_eq in E; subst; tauto|]. apply IH. tauto.
  - induction D as [|[k w] D IH]; cbn [lookup]; [discriminate|].
    destruct (x =? k) eqn:E; intro H.
    + apply String.eqb_eq in E. inversion H; subst. exists [], D. split; auto.
    + destruct (IH H) as (pre & post & -> & N). exists ((k, w) :: pre), post. split; auto.
      cbn [map fst In]. apply String.eqb_neq in E. intros [K|K]; congruence.
Qed.
Lemma is_declared_lookup D x : is_declared D x <-> exists d, lookup x D = Some d.
Proof.
  unfold is_declared. destruct (lookup x D) eqn:E.
  - split; [eauto|]. intros _. apply lookup_in in E. apply (in_map fst) in E. exact E.
  - split; [apply lookup_none_iff in E; contradiction|]. intros [d H]. discriminate.
Qed.
Lemma dom_eqb_eq a b : dom_eqb a b = true <-> a = b.
Proof.
  destruct a, b; cbn [dom_eqb]; split; intro H; try discriminate; try congruence; auto.
  - apply andb_prop in H. destruct H as [H1 H2]. apply Z.eqb_eq in H1, H2. congruence.
  - inversion H; subst. rewrite !Z.eqb_refl. reflexivity.
  - destruct (list_eq_dec string_dec vs vs0); [congruence|discriminate].
  - inversion H; subst. destruct (list_eq_dec string_dec vs0 vs0); congruence.
Qed.

(** Distinct keys. *)
Lemma dset_keys {A} k v (d : list (string * A)) x : In x (map fst (dset k v d)) <-> x = k \/ In x (map fst d).
Proof.
  rewrite <- !has_iff. unfold has. rewrite lookup_dset. destruct (x =? k) eqn:E.
  - apply String.eqb_eq in E. tauto.
  - apply String.eqb_neq in E. tauto.
Qed.
Lemma dset_nodup {A} k v (d : list (string * A)) : NoDup (map fst d) -> NoDup (map fst (dset k v d)).
Proof.
  induction d as [|[k' v'] r IH]; cbn [dset map fst]; intro H.
  - constructor; [intros []|constructor].
  - inversion H; subst. destruct (k =? k') eqn:E.
    + apply String.eqb_eq in E. subst. cbn [map fst]. constructor; auto.
    + cbn [map fst]. constructor; auto. rewrite dset_keys. apply String.eqb_neq in E. intros [K|K]; congruence.
Qed.
Lemma dupdate_nodup {A} : forall e (d : list (string * A)), NoDup (map fst d) -> NoDup (map fst (dupdate d e)).
Proof.
  unfold dupdate. induction e as [|[k v] e IH]; intros d H; cbn [fold_left]; auto. apply IH, dset_nodup; auto.
Qed.
Lemma dupdate_keys {A} : forall e (d : list (string * A)) x,
  In x (map fst (dupdate d e)) <-> In x (map fst d) \/ In x (map fst e).
Proof.
  unfold dupdate. induction e as [|[k v] e IH]; intros d x; cbn [fold_left map fst In]; [tauto|].
  rewrite IH, dset_keys. cbn [fst]. split; intuition.
Qed.
Lemma nodup_unique {A} (e : list (string * A)) x v w : NoDup (map fst e) -> In (x, v) e -> In (x, w) e -> v = w.
Proof.
  induction e as [|[k u] e IH]; cbn [map fst]; intros N H1 H2; [destruct H1|].
  inversion N; subst. destruct H1 as [H1|H1], H2 as [H2|H2].
  - congruence.
  - inversion H1; subst. apply (in_map fst) in H2. contradiction.
  - inversion H2; subst. apply (in_map fst) in H1. contradiction.
  - auto.
Qed.
Lemma lookup_dupdate {A} (d e : list (string * A)) x : NoDup (map fst e) ->
  lookup x (dupdate d e) = match lookup x e with Some v => Some v | None => lookup x d end.
Proof.
  intro N. destruct (lookup x e) eqn:E.
  - pose proof (lookup_in _ _ _ E) as I. apply lookup_dupdate_some.
    + apply (in_map fst) in I. exact I.
    + intros w Hw. eapply nodup_unique; eauto.
  - apply lookup_dupdate_none; auto.
Qed.

(** * The union of two specifications *)
Lemma parse_all_app : forall a b, parse_all (a ++ b) =
  match parse_all a, parse_all b with Some x, Some y => Some (x ++ y) | _, _ => None end.
Proof.
  induction a as [|x a IH]; intro b; cbn [app parse_all].
  - destruct (parse_all b); reflexivity.
  - rewrite IH. destruct (parse x), (parse_all a), (parse_all b); reflexivity.
Qed.
Definition part_app (a b : part) : part :=
  {| p_init := p_init a ++ p_init b; p_safe := p_safe a ++ p_safe b; p_live := p_live a ++ p_live b |}.
Lemma sat_part_app s a b : sat_part s (part_app a b) <-> sat_part s a /\ sat_part s b.
Proof.
  unfold sat_part, part_app. cbn [p_init p_safe p_live].
  split.
  - intros (H1 & H2 & H3). repeat split; intros; (apply H1 || apply H2 || apply H3); apply in_or_app; auto.
  - intros [(H1 & H2 & H3) (K1 & K2 & K3)]. repeat split; intros f Hf; apply in_app_or in Hf; destruct Hf; auto.
Qed.

Lemma check_vars_ok ev sv : check_vars ev sv = Ok tt <-> disjoint ev sv.
Proof.
  unfold check_vars, disjoint, is_declared. destruct (existsb _ ev) eqn:E.
  - split; [discriminate|]. intro H. exfalso. apply existsb_exists in E. destruct E as ([k v] & I & K).
    cbn [fst] in K. apply has_iff in K. apply (H k); auto. apply (in_map fst) in I. exact I.
  - split; [|reflexivity]. intros _ x H1 H2. apply in_map_iff in H1. destruct H1 as ([k v] & <- & I).
    assert (existsb (fun kv => has (fst kv) sv) ev = true); [|congruence].
    apply existsb_exists. exists (k, v). split; auto. apply has_iff. exact H2.
Qed.

Lemma mismatch_false a b : mismatch a b = false <->
  forall x d d', lookup x a = Some d -> lookup x b = Some d' -> d = d'.
Proof.
  unfold mismatch. split.
  - intros H x d d' Ha Hb. destruct (dom_eqb d' d) eqn:E; [apply dom_eqb_eq in E; congruence|].
    exfalso. assert (K : existsb (fun kv => match lookup (fst kv) b with
        | Some d => match lookup (fst kv) a with Some d' => negb (dom_eqb d d') | None => false end
        | None => false end) a = true); [|congruence].
    apply existsb_exists. exists (x, d). split; [apply lookup_in; auto|]. cbn [fst]. rewrite Hb, Ha, E. reflexivity.
  - intro H. destruct (existsb _ a) eqn:E; auto. apply existsb_exists in E. destruct E as ([x d0] & I & K).
    cbn [fst] in K. destruct (lookup x b) eqn:Eb; [|discriminate]. destruct (lookup x a) eqn:Ea; [|discriminate].
    rewrite (H x d1 d) in K; auto. rewrite (proj2 (dom_eqb_eq d d)) in K by auto. discriminate.
Qed.

Lemma copy_ok g : disjoint (env_vars g) (sys_vars g) -> copy g = Ok g.
Proof.
  intro H. apply check_vars_ok in H. unfold copy, new_spec. rewrite H. cbn [bind mapper env_vars sys_vars env_init
    sys_init env_safety sys_safety env_prog sys_prog]. destruct g; reflexivity.
Qed.
Lemma copy_inv g r : copy g = Ok r -> r = g /\ disjoint (env_vars g) (sys_vars g).
Proof.
  intro H. assert (D : disjoint (env_vars g) (sys_vars g)).
  { apply check_vars_ok. unfold copy, new_spec in H. destruct (check_vars (env_vars g) (sys_vars g)) as [[]|]; [reflexivity|discriminate]. }
  split; auto. rewrite copy_ok in H by auto. inversion H; auto.
Qed.

Lemma or_inv a b r : spec_or a b = Ok r ->
  disjoint (env_vars a) (sys_vars a) /\
  moore a = moore b /\ plus_one a = plus_one b /\ qinit a = qinit b /\
  mismatch (env_vars b) (env_vars a) = false /\ mismatch (sys_vars b) (sys_vars a) = false /\
  r = mkspec (dupdate (env_vars a) (env_vars b)) (dupdate (sys_vars a) (sys_vars b))
             (env_init a ++ env_init b) (sys_init a ++ sys_init b)
             (env_safety a ++ env_safety b) (sys_safety a ++ sys_safety b)
             (env_prog a ++ env_prog b) (sys_prog a ++ sys_prog b)
             (moore a) (plus_one a) (qinit a).
Proof.
  unfold spec_or. destruct (copy a) eqn:E; [|discriminate]. cbn [bind].
  apply copy_inv in E. destruct E as [-> D].
  destruct (Bool.eqb (moore a) (moore b)) eqn:E1; [|discriminate]. apply Bool.eqb_prop in E1.
  destruct (Bool.eqb (plus_one a) (plus_one b)) eqn:E2; [|discriminate]. apply Bool.eqb_prop in E2.
  destruct (qinit a =? qinit b) eqn:E3; [|discriminate]. apply String.eqb_eq in E3. cbn [negb].
  destruct (mismatch (env_vars b) (env_vars a)) eqn:E4; [discriminate|].
  destruct (mismatch (sys_vars b) (sys_vars a)) eqn:E5; [discriminate|].
  intro H. apply Ok_inj in H. subst r. auto 10.
Qed.

(** * declare *)
Lemma decl_dict_nodup args kw d : NoDup (map fst kw) -> decl_dict args kw = Ok d -> NoDup (map fst d).
Proof.
  intros N H. unfold decl_dict in H. destruct (mapr _ kw) as [e|] eqn:E; [|discriminate].
  cbn [bind] in H. apply Ok_inj in H. subst d. apply dupdate_nodup.
  assert (K : map fst e = map fst kw).
  { clear N. revert e E. induction kw as [|[k v] kw IH]; intros e E; cbn [mapr] in E.
    - inversion E. reflexivity.
    - cbn [fst snd] in E. destruct (declared_dom v); [|discriminate]. cbn [bind] in E.
      destruct (mapr _ kw) eqn:E2; [|discriminate]. cbn [bind] in E. inversion E; subst. cbn [map fst]. f_equal. apply IH; auto. }
  rewrite K; auto.
Qed.

Lemma check_decl_ok t o d : check_decl t o d = true <->
  forall x v, In (x, v) d -> ~ is_declared o x /\ forall w, lookup x t = Some w -> w = v.
Proof.
  unfold check_decl. rewrite forallb_forall. split.
  - intros H x v I. specialize (H _ I). cbn [fst snd] in H. apply andb_prop in H. destruct H as [H1 H2].
    split.
    + intro K. apply negb_true_iff in H1. apply has_iff in K. congruence.
    + intros w E. rewrite E in H2. apply dom_eqb_eq in H2. auto.
  - intros H [x v] I. destruct (H x v I) as [H1 H2]. cbn [fst snd]. apply andb_true_intro. split.
    + apply negb_true_iff. destruct (has x o) eqn:E; auto. apply has_iff in E. contradiction.
    + destruct (lookup x t) eqn:E; auto. apply dom_eqb_eq. auto.
Qed.

(** * Primed variables *)
Definition sizes2 (Q : list (node * bool)) : nat := list_sum (map (fun q => size (fst q)) Q).

Lemma sub_trans a b : sub a b -> forall c, sub b c -> sub a c.
Proof.
  intros H c K. induction K; auto;
    [apply sub_un|apply sub_bin_l|apply sub_bin_r|apply sub_cmp_l|apply sub_cmp_r|apply sub_ar_l|apply sub_ar_r
    |apply sub_ite1|apply sub_ite2|apply sub_ite3]; auto.
Qed.

Definition in_scope (x : string) (q : node * bool) : Prop :=
  if snd q then sub (NVar x) (fst q) else primed x (fst q).

Lemma primed_sub_un x op a : primed x (NUn op a) <-> (op = "X" /\ sub (NVar x) a) \/ primed x a.
Proof.
  unfold primed. split.
  - intros (b & H & K). inversion H; subst; eauto.
  - intros [[-> H]|(b & H & K)]; [exists a; split; [constructor|auto]|exists b; split; [constructor; auto|auto]].
Qed.
Ltac prs := unfold primed; split;
  [ intros (b & H & K); inversion H; subst; eauto
  | intros [(b & H & K)|(b & H & K)]; exists b; split; auto; constructor; auto ].
Lemma primed_sub_bin x op l r : primed x (NBin op l r) <-> primed x l \/ primed x r.
Proof.
  unfold primed. split.
  - intros (b & H & K). inversion H; subst; eauto.
  - intros [(b & H & K)|(b & H & K)]; exists b; split; auto; [apply sub_bin_l|apply sub_bin_r]; auto.
Qed.
Lemma primed_sub_cmp x op l r : primed x (NCmp op l r) <-> primed x l \/ primed x r.
Proof.
  unfold primed. split.
  - intros (b & H & K). inversion H; subst; eauto.
  - intros [(b & H & K)|(b & H & K)]; exists b; split; auto; [apply sub_cmp_l|apply sub_cmp_r]; auto.
Qed.
Lemma primed_sub_ar x op l r : primed x (NArith op l r) <-> primed x l \/ primed x r.
Proof.
  unfold primed. split.
  - intros (b & H & K). inversion H; subst; eauto.
  - intros [(b & H & K)|(b & H & K)]; exists b; split; auto; [apply sub_ar_l|apply sub_ar_r]; auto.
Qed.
Lemma primed_sub_ite x op p q r : primed x (NIte op p q r) <-> primed x p \/ primed x q \/ primed x r.
Proof.
  unfold primed. split.
  - intros (b & H & K). inversion H; subst; eauto 6.
  - intros [(b & H & K)|[(b & H & K)|(b & H & K)]]; exists b; split; auto; [apply sub_ite1|apply sub_ite2|apply sub_ite3]; auto.
Qed.
Lemma primed_leaf x t : operands t = [] -> operator t = None -> ~ primed x t.
Proof.
  intros O N (b & H & K). destruct t; try discriminate; inversion H.
Qed.

(** Only unary nodes carry the operator X in well-formed trees. *)
Lemma wf_X t op : wf_node t = true -> operator t = Some op -> op = "X" -> exists a, t = NUn "X" a.
Proof.
  intros W O ->. destruct t; cbn [operator] in O; try discriminate; inversion O; subst.
  - eauto.
  - cbn [wf_node] in W. rewrite !andb_true_iff in W. destruct W as [[W _] _]. discriminate.
  - cbn [wf_node] in W. rewrite !andb_true_iff in W. destruct W as [[W _] _]. discriminate.
  - cbn [wf_node] in W. rewrite !andb_true_iff in W. destruct W as [[W _] _]. discriminate.
  - cbn [wf_node] in W. rewrite !andb_true_iff in W. destruct W as [[[W _] _] _]. discriminate.
Qed.

Lemma wf_operands t a : wf_node t = true -> In a (operands t) -> wf_node a = true.
Proof.
  destruct t; cbn [wf_node operands In]; intros W H; try contradiction; rewrite ?andb_true_iff in W; intuition; subst; auto.
Qed.

(** One step of the loop preserves the set of pending occurrences. *)
Lemma scope_step x u c : wf_node u = true ->
  in_scope x (u, c) <->
  (u = NVar x /\ c = true) \/
  exists v, In v (operands u) /\
    in_scope x (v, match operator u with Some op => ((op =? "X") || c)%bool | None => c end).
Proof.
  intro W. unfold in_scope. cbn [fst snd].
  destruct u; cbn [operator operands].
  - destruct c.
    + split; [intro H; inversion H; subst; auto|]. intros [[E _]|(v' & [] & _)]. inversion E. constructor.
    + split; [intro H; exfalso; eapply primed_leaf; eauto; reflexivity|]. intros [[_ E]|(v' & [] & _)]; discriminate.
  - destruct c; (split; [intro H; exfalso; (inversion H; fail) || (eapply primed_leaf; eauto; reflexivity)|]); intros [[E _]|(v' & [] & _)]; discriminate.
  - destruct c; (split; [intro H; exfalso; (inversion H; fail) || (eapply primed_leaf; eauto; reflexivity)|]); intros [[E _]|(v' & [] & _)]; discriminate.
  - destruct c; (split; [intro H; exfalso; (inversion H; fail) || (eapply primed_leaf; eauto; reflexivity)|]); intros [[E _]|(v' & [] & _)]; discriminate.
  - destruct (op =? "X") eqn:E; cbn [orb].
    + apply String.eqb_eq in E. subst. split.
      * intro H. right. exists u. split; [left; auto|].
        destruct c; [inversion H; auto|]. apply primed_sub_un in H. destruct H as [[_ H]|(b & H & K)]; auto.
        eapply sub_trans; [|exact H]. constructor; auto.
      * intros [[H _]|(v & [<-|[]] & H)]; [discriminate|].
        destruct c; [constructor; auto|]. apply primed_sub_un. auto.
    + apply String.eqb_neq in E. split.
      * intro H. right. exists u. split; [left; auto|].
        destruct c; [inversion H; auto|]. apply primed_sub_un in H. tauto.
      * intros [[H _]|(v & [<-|[]] & H)]; [discriminate|].
        destruct c; [constructor; auto|]. apply primed_sub_un. auto.
  - assert (E : (op =? "X") = false).
    { destruct (op =? "X") eqn:E; auto. apply String.eqb_eq in E. subst. destruct (wf_X _ "X" W eq_refl eq_refl). discriminate. }
    rewrite E. cbn [orb]. destruct c.
    + split.
      * intro H. right. inversion H; subst; [exists u1|exists u2]; simpl; auto.
      * intros [[H _]|(v & [<-|[<-|[]]] & H)]; [discriminate|apply sub_bin_l|apply sub_bin_r]; auto.
    + rewrite primed_sub_bin. split.
      * intro H. right. destruct H; [exists u1|exists u2]; simpl; auto.
      * intros [[H _]|(v & [<-|[<-|[]]] & H)]; [discriminate|auto|auto].
  - assert (E : (op =? "X") = false).
    { destruct (op =? "X") eqn:E; auto. apply String.eqb_eq in E. subst. destruct (wf_X _ "X" W eq_refl eq_refl). discriminate. }
    rewrite E. cbn [orb]. destruct c.
    + split.
      * intro H. right. inversion H; subst; [exists u1|exists u2]; simpl; auto.
      * intros [[H _]|(v & [<-|[<-|[]]] & H)]; [discriminate|apply sub_cmp_l|apply sub_cmp_r]; auto.
    + rewrite primed_sub_cmp. split.
      * intro H. right. destruct H; [exists u1|exists u2]; simpl; auto.
      * intros [[H _]|(v & [<-|[<-|[]]] & H)]; [discriminate|auto|auto].
  - assert (E : (op =? "X") = false).
    { destruct (op =? "X") eqn:E; auto. apply String.eqb_eq in E. subst. destruct (wf_X _ "X" W eq_refl eq_refl). discriminate. }
    rewrite E. cbn [orb]. destruct c.
    + split.
      * intro H. right. inversion H; subst; [exists u1|exists u2]; simpl; auto.
      * intros [[H _]|(v & [<-|[<-|[]]] & H)]; [discriminate|apply sub_ar_l|apply sub_ar_r]; auto.
    + rewrite primed_sub_ar. split.
      * intro H. right. destruct H; [exists u1|exists u2]; simpl; auto.
      * intros [[H _]|(v & [<-|[<-|[]]] & H)]; [discriminate|auto|auto].
  - assert (E : (op =? "X") = false).
    { destruct (op =? "X") eqn:E; auto. apply String.eqb_eq in E. subst. destruct (wf_X _ "X" W eq_refl eq_refl). discriminate. }
    rewrite E. cbn [orb]. destruct c.
    + split.
      * intro H. right. inversion H; subst; [exists u1|exists u2|exists u3]; simpl; auto.
      * intros [[H _]|(v & [<-|[<-|[<-|[]]]] & H)]; [discriminate|apply sub_ite1|apply sub_ite2|apply sub_ite3]; auto.
    + rewrite primed_sub_ite. split.
      * intro H. right. destruct H as [H|[H|H]]; [exists u1|exists u2|exists u3]; simpl; auto.
      * intros [[H _]|(v & [<-|[<-|[<-|[]]]] & H)]; [discriminate|auto|auto|auto].
Qed.

Lemma sizes2_app a b : sizes2 (a ++ b) = sizes2 a + sizes2 b.
Proof. unfold sizes2. rewrite map_app, list_sum_app. reflexivity. Qed.
Lemma sizes2_step u c : S (sizes2 (rev (map (fun v => (v, c)) (operands u)))) = size u.
Proof. destruct u; unfold sizes2; simpl; lia. Qed.

Lemma primed_loop_ok : forall n Q acc, Forall (fun q => wf_node (fst q) = true) Q -> sizes2 Q < n ->
  exists r, primed_loop n Q acc = Some r /\
    forall x, In x r <-> In x acc \/ exists q, In q Q /\ in_scope x q.
Proof.
  induction n; intros Q acc W Hn; [lia|]. destruct Q as [|[u c] Q'].
  - exists acc. split; [reflexivity|]. intro x. split; [auto|]. intros [H|(q & [] & _)]; auto.
  - inversion W as [|? ? Wu WQ]; subst. cbn [fst] in Wu. cbn [primed_loop].
    set (c' := match operator u with Some op => ((op =? "X") || c)%bool | None => c end).
    set (acc' := match u with NVar v => if c then v :: acc else acc | _ => acc end).
    destruct (IHn (rev (map (fun v => (v, c')) (operands u)) ++ Q') acc') as (r & Hr & HI).
    + apply Forall_app. split; auto. apply Forall_rev. apply Forall_forall. intros q Hq.
      apply in_map_iff in Hq. destruct Hq as (v & <- & Hv). cbn [fst]. eapply wf_operands; eauto.
    + rewrite sizes2_app. pose proof (sizes2_step u c') as E.
      assert (sizes2 ((u, c) :: Q') = size u + sizes2 Q') by reflexivity. lia.
    + exists r. split; auto. intro x. rewrite HI.
      assert (A : In x acc' <-> In x acc \/ (u = NVar x /\ c = true)).
      { unfold acc'. destruct u; try (split; [auto|intros [H|[H _]]; [auto|discriminate]]).
        destruct c; [|split; [auto|intros [H|[_ H]]; [auto|discriminate]]].
        simpl. split; [intros [->|H]; auto|intros [H|[H _]]; [auto|inversion H; auto]]. }
      rewrite A. pose proof (scope_step x u c Wu) as S. fold c' in S. split.
      * intros [[H|H]|(q & Hq & K)].
        -- auto.
        -- right. exists (u, c). split; [left; auto|]. apply S. auto.
        -- apply in_app_or in Hq. destruct Hq as [Hq|Hq].
           ++ apply in_rev in Hq. apply in_map_iff in Hq. destruct Hq as (v & <- & Hv).
              right. exists (u, c). split; [left; auto|]. apply S. right. exists v. auto.
           ++ right. exists q. split; [right; auto|auto].
      * intros [H|(q & [<-|Hq] & K)]; [auto| |].
        -- apply S in K. destruct K as [K|(v & Hv & K)]; [auto|].
           right. exists (v, c'). split; auto. apply in_or_app. left. apply -> in_rev. apply in_map_iff. eauto.
        -- right. exists q. split; auto. apply in_or_app; auto.
Qed.

Lemma collect_primed_ok t : wf_node t = true ->
  exists r, collect_primed_vars t = Ok r /\ forall x, In x r <-> primed x t.
Proof.
  intro W. unfold collect_primed_vars.
  destruct (primed_loop_ok (S (size t)) [(t, false)] []) as (r & E & H).
  - constructor; auto.
  - unfold sizes2. simpl. lia.
  - rewrite E. exists r. split; [reflexivity|]. intro x. rewrite H. split.
    + intros [[]|(q & [<-|[]] & K)]. exact K.
    + intro K. right. exists (t, false). split; [left; auto|exact K].
Qed.

(** * check_syntax *)
Lemma iter_check_ok {A} (f : A -> res unit) l : iter_check f l = Ok tt <-> forall x, In x l -> f x = Ok tt.
Proof.
  induction l as [|x l IH]; cbn [iter_check]; [split; [intros _ x []|auto]|].
  destruct (f x) as [[]|] eqn:E; cbn [bind].
  - rewrite IH. split; [intros H y [<-|Hy]; auto|intros H y Hy; apply H; right; auto].
  - split; [discriminate|]. intro H. rewrite (H x) in E by (left; auto). discriminate.
Qed.
Lemma iter_check_err {A} (f : A -> res unit) l e :
  (forall x, In x l -> f x = Ok tt \/ f x = Err e) -> iter_check f l = Ok tt \/ iter_check f l = Err e.
Proof.
  induction l as [|x l IH]; intro H; cbn [iter_check]; [auto|].
  destruct (H x (or_introl eq_refl)) as [E|E]; rewrite E; cbn [bind]; auto.
  apply IH. intros; apply H; right; auto.
Qed.

Lemma mapr_all {A B} (f : A -> res B) l : (forall x, In x l -> exists y, f x = Ok y) ->
  exists r, mapr f l = Ok r.
Proof.
  induction l as [|x l IH]; intro H; cbn [mapr]; [eauto|].
  destruct (H x (or_introl eq_refl)) as [y ->]. cbn [bind].
  destruct IH as [r ->]; [intros; apply H; right; auto|]. cbn [bind]. eauto.
Qed.

(** Occurring variables and covered constants, independently. *)
Lemma tree_vars_sub t x : In x (tree_vars t) <-> sub (NVar x) t.
Proof.
  induction t; cbn [tree_vars].
  - simpl. split; [intros [->|[]]; constructor|intro H; inversion H; auto].
  - split; [intros []|intro H; inversion H].
  - split; [intros []|intro H; inversion H].
  - split; [intros []|intro H; inversion H].
  - rewrite IHt. split; [constructor; auto|intro H; inversion H; auto].
  - rewrite in_app_iff, IHt1, IHt2. split; [intros [H|H]; [apply sub_bin_l|apply sub_bin_r]; auto|intro H; inversion H; auto].
  - rewrite in_app_iff, IHt1, IHt2. split; [intros [H|H]; [apply sub_cmp_l|apply sub_cmp_r]; auto|intro H; inversion H; auto].
  - rewrite in_app_iff, IHt1, IHt2. split; [intros [H|H]; [apply sub_ar_l|apply sub_ar_r]; auto|intro H; inversion H; auto].
  - rewrite !in_app_iff, IHt1, IHt2, IHt3. split; [intros [H|[H|H]]; [apply sub_ite1|apply sub_ite2|apply sub_ite3]; auto|intro H; inversion H; auto].
Qed.
Lemma paired_true t : constants_paired true t = true.
Proof. induction t; cbn [constants_paired]; auto; rewrite ?IHt1, ?IHt2, ?IHt3; auto. Qed.
Lemma sub_trans_un c op a : (forall d, sub d (NUn op a) -> ~ is_const d) -> sub c a -> ~ is_const c.
Proof. intros H K. apply H. constructor; auto. Qed.
Lemma paired_covered t : constants_paired false t = true <-> covered t.
Proof.
  split.
  - induction t; cbn [constants_paired]; intro H; try discriminate.
    + apply cov_none. intros c S. inversion S; subst. intros (w & [E|E]); discriminate.
    + apply cov_none. intros c S. inversion S; subst. intros (w & [E|E]); discriminate.
    + apply cov_un; auto.
    + apply cov_two. exists op, t1, t2. auto.
    + apply cov_two. exists op, t1, t2. auto.
    + apply cov_two. exists op, t1, t2. auto.
    + rewrite !andb_true_iff in H. destruct H as [[H1 H2] H3]. apply cov_ite; auto.
  - intro C. induction C as [t N|t (op & l & r & [->|[->| ->]])|op a C IH|op a b c C1 I1 C2 I2 C3 I3];
      cbn [constants_paired]; rewrite ?paired_true; auto.
    + induction t; cbn [constants_paired]; auto.
      * exfalso. apply (N (NNum v)); [constructor|exists v; auto].
      * exfalso. apply (N (NStr v)); [constructor|exists v; auto].
      * apply IHt. intros c S. apply N. constructor; auto.
      * rewrite !paired_true. auto.
      * rewrite !paired_true. auto.
      * rewrite !paired_true. auto.
      * rewrite IHt1, IHt2, IHt3; auto; intros d S; apply N; [apply sub_ite3|apply sub_ite2|apply sub_ite1]; auto.
    + rewrite I1, I2, I3. reflexivity.
Qed.

Lemma parse_clause_ok g x t : parse_clause g x = Ok t <-> clause_ok g x t.
Proof.
  unfold parse_clause, clause_ok. destruct (parse x) as [u|] eqn:E.
  - unfold check_identifiers. destruct (forallb _ (tree_vars u)) eqn:F.
    + assert (V : forall v, sub (NVar v) u -> is_declared (env_vars g) v \/ is_declared (sys_vars g) v).
      { intros v Hv. apply tree_vars_sub in Hv. rewrite forallb_forall in F. specialize (F v Hv).
        apply has_iff in F. unfold vardoms in F. apply dupdate_keys in F. exact F. }
      destruct (constants_paired false u) eqn:P; cbn [bind].
      * apply paired_covered in P. split; [intro H; inversion H; subst; auto|]. intros (H & _). inversion H; auto.
      * split; [discriminate|]. intros (H & _ & C). inversion H; subst. apply paired_covered in C. congruence.
    + cbn [bind]. split; [discriminate|]. intros (H & V & _). inversion H; subst.
      exfalso. assert (K : forallb (fun v => has v (vardoms g)) (tree_vars t) = true); [|congruence].
      apply forallb_forall. intros v Hv. apply has_iff. unfold vardoms. apply dupdate_keys. apply V, tree_vars_sub; auto.
  - split; [discriminate|intros (H & _); discriminate].
Qed.

Lemma ast_ok g x t : (forall y, In y (clauses g) -> exists u, clause_ok g y u) -> In x (clauses g) ->
  parse x = Some t -> ast g x = Ok t.
Proof.
  intros H Hx P. unfold ast. destruct (mapr_all (parse_clause g) (clauses g)) as [r ->].
  { intros y Hy. destruct (H y Hy) as [u Hu]. exists u. apply parse_clause_ok; auto. }
  cbn [bind]. destruct (H x Hx) as [u Hu]. assert (u = t) by (destruct Hu as [E _]; congruence). subst.
  apply parse_clause_ok; auto.
Qed.

Lemma no_primed_clause g x : (forall y, In y (clauses g) -> exists u, clause_ok g y u) -> In x (clauses g) ->
  let r := (do a <- ast g x; do p <- collect_primed_vars a;
            match p with [] => Ok tt | _ => Err "AssertionError" end) in
  (r = Ok tt <-> no_primed_in x) /\ (r = Ok tt \/ r = Err "AssertionError").
Proof.
  intros H Hx. destruct (H x Hx) as (t & P & _). pose proof (parse_wf x t P) as W.
  rewrite (ast_ok g x t) by auto. cbn [bind].
  destruct (collect_primed_ok t W) as (p & -> & K). cbn [bind]. unfold no_primed_in.
  destruct p as [|v p].
  - split; [|auto]. split; [|auto]. intros _ t' E v Pv. rewrite P in E. inversion E; subst. apply K in Pv. destruct Pv.
  - split; [|auto]. split; [discriminate|]. intro N. exfalso. apply (N t P v). apply K. left; auto.
Qed.
Lemma env_safety_clause g x : (forall y, In y (clauses g) -> exists u, clause_ok g y u) -> In x (clauses g) ->
  let r := (do a <- ast g x; do p <- collect_primed_vars a;
            if existsb (fun v => has v (sys_vars g)) p then Err "AssertionError" else Ok tt) in
  (r = Ok tt <-> no_primed_sys g x) /\ (r = Ok tt \/ r = Err "AssertionError").
Proof.
  intros H Hx. destruct (H x Hx) as (t & P & _). pose proof (parse_wf x t P) as W.
  rewrite (ast_ok g x t) by auto. cbn [bind].
  destruct (collect_primed_ok t W) as (p & -> & K). cbn [bind]. unfold no_primed_sys.
  destruct (existsb (fun v => has v (sys_vars g)) p) eqn:E.
  - split; [|auto]. split; [discriminate|]. intro N. exfalso. apply existsb_exists in E. destruct E as (v & I & Hv).
    apply has_iff in Hv. apply (N t P v); [apply K; auto|exact Hv].
  - split; [|auto]. split; [|auto]. intros _ t' E' v Pv D. rewrite P in E'. inversion E'; subst.
    assert (existsb (fun v => has v (sys_vars g)) p = true); [|congruence].
    apply existsb_exists. exists v. split; [apply K; auto|apply has_iff; auto].
Qed.

Lemma check_syntax_ok g : (forall y, In y (clauses g) -> exists u, clause_ok g y u) ->
  (check_syntax g = Ok tt <->
   (forall x, In x (env_init g ++ sys_init g ++ env_prog g) -> no_primed_in x) /\
   (forall x, In x (env_safety g) -> no_primed_sys g x)) /\
  (check_syntax g = Ok tt \/ check_syntax g = Err "AssertionError").
Proof.
  intro H.
  assert (L : forall l, (forall x, In x l -> In x (clauses g)) ->
     (assert_no_primed g l = Ok tt <-> forall x, In x l -> no_primed_in x) /\
     (assert_no_primed g l = Ok tt \/ assert_no_primed g l = Err "AssertionError")).
  { intros l Hl. unfold assert_no_primed. split.
    - rewrite iter_check_ok. split; intros K x Hx; destruct (no_primed_clause g x H (Hl x Hx)) as [[K1 K2] _]; [apply K1|apply K2]; apply K; auto.
    - apply iter_check_err. intros x Hx. apply (no_primed_clause g x H (Hl x Hx)). }
  assert (ES : forall x, In x (env_safety g) -> In x (clauses g)).
  { intros x Hx. unfold clauses. rewrite !in_app_iff. tauto. }
  assert (C1 : forall x, In x (env_init g) -> In x (clauses g)) by (intros x Hx; unfold clauses; rewrite !in_app_iff; tauto).
  destruct (L (env_init g) C1) as [A1 B1].
  assert (C2 : forall x, In x (sys_init g) -> In x (clauses g)) by (intros x Hx; unfold clauses; rewrite !in_app_iff; tauto).
  destruct (L (sys_init g) C2) as [A2 B2].
  assert (C3 : forall x, In x (env_prog g) -> In x (clauses g)) by (intros x Hx; unfold clauses; rewrite !in_app_iff; tauto).
  destruct (L (env_prog g) C3) as [A3 B3].
  unfold check_syntax.
  set (f := fun f => do a <- ast g f; do p <- collect_primed_vars a;
     if existsb (fun v => has v (sys_vars g)) p then Err "AssertionError" else Ok tt).
  assert (A4 : iter_check f (env_safety g) = Ok tt <-> forall x, In x (env_safety g) -> no_primed_sys g x).
  { rewrite iter_check_ok. split; intros K x Hx; destruct (env_safety_clause g x H (ES x Hx)) as [[K1 K2] _]; [apply K1|apply K2]; apply K; auto. }
  assert (B4 : iter_check f (env_safety g) = Ok tt \/ iter_check f (env_safety g) = Err "AssertionError").
  { apply iter_check_err. intros x Hx. apply (env_safety_clause g x H (ES x Hx)). }
  destruct B1 as [E1|E1]; rewrite E1 in *; cbn [bind];
    [|split; [|auto]; split; [discriminate|]; intros [K _]; apply A1; intros x Hx; apply K; rewrite !in_app_iff; auto].
  destruct B2 as [E2|E2]; rewrite E2 in *; cbn [bind];
    [|split; [|auto]; split; [discriminate|]; intros [K _]; apply A2; intros x Hx; apply K; rewrite !in_app_iff; auto].
  destruct B3 as [E3|E3]; rewrite E3 in *; cbn [bind];
    [|split; [|auto]; split; [discriminate|]; intros [K _]; apply A3; intros x Hx; apply K; rewrite !in_app_iff; auto].
  split; [|exact B4]. rewrite A4. split; [|tauto]. intro K. split; [|auto].
  intros x Hx. rewrite !in_app_iff in Hx. destruct Hx as [Hx|[Hx|Hx]]; [apply A1|apply A2|apply A3]; auto.
Qed.
