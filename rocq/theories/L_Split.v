(** Proofs about split_gr1. *)
From Coq Require Import List String Ascii Bool Arith Lia.
From Verif Require Import M_Base M_Ast M_Lexer M_Parser M_Spec M_Split S_LTL S_Gr1 S_Syntax S_Split.
From Verif Require Import L_Lexer L_Parser L_Template L_LTL L_Gr1 L_RoundTrip L_ParseWf.
Import ListNotations.
Open Scope string_scope.
Open Scope list_scope.

(** Leaves of the conjunction, right to left. *)
Fixpoint leaves (t : node) : list node :=
  match t with
  | NBin op l r => if op =? "&" then leaves r ++ leaves l else [t]
  | _ => [t]
  end.

Fixpoint amps (t : node) : bool :=
  match t with
  | NCmp op _ _ | NArith op _ _ => negb (op =? "&")
  | NUn op _ | NIte op _ _ _ => negb (op =? "&")
  | NBin _ l r => amps l && amps r
  | _ => true
  end.

Lemma wf_amps t : wf_node t = true -> amps t = true.
Proof.
  induction t; cbn [wf_node amps]; intro H; auto.
  - apply andb_prop in H. destruct H as [H _]. ops H; reflexivity.
  - apply andb_prop in H. destruct H as [H Hr]. apply andb_prop in H. destruct H as [_ Hl].
    rewrite IHt1, IHt2; auto.
  - apply andb_prop in H. destruct H as [H Hr]. apply andb_prop in H. destruct H as [H Hl].
    ops H; reflexivity.
  - apply andb_prop in H. destruct H as [H Hr]. apply andb_prop in H. destruct H as [H Hl].
    apply orb_true_iff in H. destruct H as [H|H]; [ops H; reflexivity|].
    apply andb_prop in H. destruct H as [H _]. apply String.eqb_eq in H. subst. reflexivity.
  - apply andb_prop in H. destruct H as [H _]. apply andb_prop in H. destruct H as [H _].
    apply andb_prop in H. destruct H as [H _]. apply String.eqb_eq in H. subst. reflexivity.
Qed.

Definition sizes (Q : list node) : nat := list_sum (map size Q).

Lemma boundary_gen : forall n Q b, Forall (fun t => amps t = true) Q ->
  2 * sizes Q < n ->
  boundary n Q b = Some (rev b ++ flat_map leaves Q).
Proof.
  induction n; intros Q b HQ Hn; [lia|].
  destruct Q as [|u Q']; cbn [boundary flat_map].
  - rewrite app_nil_r. reflexivity.
  - inversion HQ; subst.
    assert (Hs : sizes (u :: Q') = size u + sizes Q') by reflexivity.
    assert (leaf : leaves u = [u] -> boundary n Q' (u :: b) = Some (rev b ++ leaves u ++ flat_map leaves Q')).
    { intro E. rewrite IHn; auto.
      - rewrite E. cbn [rev]. rewrite <- app_assoc. reflexivity.
      - rewrite Hs in Hn. assert (1 <= size u) by (destruct u; simpl; lia). lia. }
    destruct u; cbn [operator leaves amps] in *; try (apply leaf; reflexivity).
    + destruct (op =? "&"); [discriminate|]. apply leaf. reflexivity.
    + apply andb_prop in H1. destruct H1 as [Hl Hr].
      destruct (op =? "&") eqn:E.
      * cbn [operands rev app]. rewrite IHn.
        -- cbn [flat_map]. rewrite <- !app_assoc. reflexivity.
        -- constructor; auto.
        -- unfold sizes in *. cbn [map list_sum fold_right size] in *. lia.
      * apply leaf. reflexivity.
    + destruct (op =? "&"); [discriminate|]. apply leaf. reflexivity.
    + destruct (op =? "&"); [discriminate|]. apply leaf. reflexivity.
    + destruct (op =? "&"); [discriminate|]. apply leaf. reflexivity.
Qed.

(** The loop terminates within its fuel and collects the leaves. *)
Lemma boundary_ok t : amps t = true -> boundary (S (2 * size t)) [t] [] = Some (leaves t).
Proof.
  intro H. rewrite boundary_gen.
  - simpl. rewrite app_nil_r. reflexivity.
  - constructor; auto.
  - unfold sizes. simpl. lia.
Qed.

(** Meaning of the leaves. *)
Lemma leaves_holds s : forall t, holds s 0 t <-> forall u, In u (leaves t) -> holds s 0 u.
Proof.
  assert (one : forall t, holds s 0 t <-> (forall u, In u [t] -> holds s 0 u)).
  { intro t. split; [intros H u [<-|[]]; auto | intro H; apply H; left; auto]. }
  induction t; cbn [leaves]; try apply one.
  destruct (op =? "&") eqn:E; [|apply one].
  apply String.eqb_eq in E. subst.
  change (holds s 0 (NBin "&" t1 t2)) with (holds s 0 t1 /\ holds s 0 t2).
  rewrite IHt1, IHt2. split.
  - intros [H1 H2] u Hu. apply in_app_or in Hu. destruct Hu; auto.
  - intro H. split; intros u Hu; apply H; apply in_or_app; auto.
Qed.

Lemma classify_holds s u :
  holds s 0 u <->
  match classify u with
  | SInit v => holds s 0 v
  | SG v => forall i, holds s i v
  | SGF v => forall i, exists j, i <= j /\ holds s j v
  end.
Proof.
  destruct u; cbn [classify]; try tauto.
  destruct (op =? "G") eqn:E; [|tauto]. apply String.eqb_eq in E. subst.
  assert (G : holds s 0 (NUn "G" u) <-> forall i, holds s i u).
  { change (holds s 0 (NUn "G" u)) with (forall i, 0 <= i -> holds s i u).
    split; intros H i; intros; apply H; lia. }
  destruct u; try exact G.
  destruct (op =? "F") eqn:E; [|exact G]. apply String.eqb_eq in E. subst.
  rewrite G. reflexivity.
Qed.

Lemma In_pick_init l v : In v (pick_init l) <-> exists u, In u l /\ classify u = SInit v.
Proof.
  unfold pick_init. rewrite in_flat_map. split.
  - intros (u & H & K). exists u. split; auto. destruct (classify u); simpl in K; destruct K; subst; tauto.
  - intros (u & H & K). exists u. rewrite K. split; [auto|left; auto].
Qed.
Lemma In_pick_G l v : In v (pick_G l) <-> exists u, In u l /\ classify u = SG v.
Proof.
  unfold pick_G. rewrite in_flat_map. split.
  - intros (u & H & K). exists u. split; auto. destruct (classify u); simpl in K; destruct K; subst; tauto.
  - intros (u & H & K). exists u. rewrite K. split; [auto|left; auto].
Qed.
Lemma In_pick_GF l v : In v (pick_GF l) <-> exists u, In u l /\ classify u = SGF v.
Proof.
  unfold pick_GF. rewrite in_flat_map. split.
  - intros (u & H & K). exists u. split; auto. destruct (classify u); simpl in K; destruct K; subst; tauto.
  - intros (u & H & K). exists u. rewrite K. split; [auto|left; auto].
Qed.

Definition pick_part (l : list node) : part :=
  {| p_init := pick_init l; p_safe := pick_G l; p_live := pick_GF l |}.

Lemma pick_sat s t : sat_part s (pick_part (leaves t)) <-> holds s 0 t.
Proof.
  rewrite leaves_holds. unfold sat_part, pick_part. cbn [p_init p_safe p_live]. split.
  - intros (H1 & H2 & H3) u Hu. rewrite classify_holds.
    destruct (classify u) eqn:E.
    + apply H1, In_pick_init. eauto.
    + apply H2, In_pick_G. eauto.
    + apply H3, In_pick_GF. eauto.
  - intro H. repeat split.
    + intros f Hf. apply In_pick_init in Hf. destruct Hf as (u & A & B).
      specialize (H u A). rewrite classify_holds, B in H. auto.
    + intros f Hf. apply In_pick_G in Hf. destruct Hf as (u & A & B).
      specialize (H u A). rewrite classify_holds, B in H. auto.
    + intros f Hf. apply In_pick_GF in Hf. destruct Hf as (u & A & B).
      specialize (H u A). rewrite classify_holds, B in H. auto.
Qed.

(** Sub-formulas of well-formed formulas are well formed. *)
Definition good (t : node) : Prop := wf_node t = true /\ no_str t = true.
Lemma good_leaves : forall t, good t -> Forall good (leaves t).
Proof.
  induction t; intros H; cbn [leaves]; try (constructor; auto; fail).
  destruct (op =? "&"); [|constructor; auto].
  destruct H as [Hw Hs]. cbn [wf_node no_str] in *.
  apply andb_prop in Hw. destruct Hw as [Hw Hr]. apply andb_prop in Hw. destruct Hw as [Ho Hl].
  apply andb_prop in Hs. destruct Hs as [Sl Sr].
  apply Forall_app. split; [apply IHt2|apply IHt1]; split; auto.
Qed.
Lemma good_classify u : good u ->
  match classify u with SInit v | SG v | SGF v => good v end.
Proof.
  intro H. destruct u; cbn [classify]; auto.
  destruct (op =? "G"); auto. destruct H as [Hw Hs]. cbn [wf_node no_str] in *.
  apply andb_prop in Hw. destruct Hw as [Ho Hl].
  destruct u; try (split; assumption).
  destruct (op0 =? "F"); [|split; assumption].
  cbn [wf_node no_str] in *. apply andb_prop in Hl. destruct Hl. split; auto.
Qed.
Lemma good_pick_init l : Forall good l -> Forall good (pick_init l).
Proof.
  rewrite !Forall_forall. intros H v Hv. apply In_pick_init in Hv. destruct Hv as (u & A & B).
  pose proof (good_classify u (H u A)) as K. rewrite B in K. auto.
Qed.
Lemma good_pick_G l : Forall good l -> Forall good (pick_G l).
Proof.
  rewrite !Forall_forall. intros H v Hv. apply In_pick_G in Hv. destruct Hv as (u & A & B).
  pose proof (good_classify u (H u A)) as K. rewrite B in K. auto.
Qed.
Lemma good_pick_GF l : Forall good l -> Forall good (pick_GF l).
Proof.
  rewrite !Forall_forall. intros H v Hv. apply In_pick_GF in Hv. destruct Hv as (u & A & B).
  pose proof (good_classify u (H u A)) as K. rewrite B in K. auto.
Qed.

(** Texts joined by " & ". *)
Definition conj_left (t : node) (l : list node) : node := fold_left (fun a b => NBin "&" a b) l t.

Lemma conj_left_holds s i : forall l t,
  holds s i (conj_left t l) <-> holds s i t /\ forall u, In u l -> holds s i u.
Proof.
  induction l as [|x l IH]; intro t; cbn [conj_left fold_left].
  - split; [intro H; split; [auto|intros u []]|tauto].
  - change (fold_left (fun a b => NBin "&" a b) l (NBin "&" t x)) with (conj_left (NBin "&" t x) l).
    rewrite IH. change (holds s i (NBin "&" t x)) with (holds s i t /\ holds s i x). split.
    + intros [[H1 H2] H3]. split; auto. intros u [<-|Hu]; auto.
    + intros [H1 H2]. repeat split; auto.
      * apply H2. left; auto.
      * intros u Hu. apply H2. right; auto.
Qed.

(** Running the parser on [x & y & ...], operands given by printed trees. *)
Fixpoint jtoks (l : list node) : list tok :=
  match l with
  | [] => []
  | t :: r => BOP AND "&" :: toks t ++ jtoks r
  end.

Lemma jtoks_run : forall l t, Forall good l -> Forall (fun u => exists s, flatten u = Some s) l ->
  run (jtoks l) [] (Some t) = Some (conj_left t l).
Proof.
  assert (K : forall l t u, Forall good l -> Forall (fun u => exists s, flatten u = Some s) l ->
    run (jtoks l) [FBin 5 (NBin "&") t] (Some u) = Some (conj_left (NBin "&" t u) l)).
  { induction l as [|x l IH]; intros t u Hg Hf; [reflexivity|].
    inversion Hg as [|? ? Gx Gl]; subst. inversion Hf as [|? ? Fx Fl]; subst. destruct Fx as [sx Fx].
    destruct Gx as [Wx Sx].
    cbn [jtoks]. rewrite run_bop. cbn [reduce blevel Nat.leb fst snd mk_bin].
    rewrite (toks_run x sx) by auto. apply IH; auto. }
  intros [|x l] t Hg Hf; [reflexivity|].
  inversion Hg as [|? ? Gx Gl]; subst. inversion Hf as [|? ? Fx Fl]; subst. destruct Fx as [sx Fx].
  destruct Gx as [Wx Sx].
  cbn [jtoks]. rewrite run_bop. cbn [reduce blevel Nat.leb fst snd mk_bin].
  rewrite (toks_run x sx) by auto. apply K; auto.
Qed.

Lemma join_lex : forall l ss, Forall good l -> Forall2 (fun u s => flatten u = Some s) l ss ->
  forall t s, good t -> flatten t = Some s ->
  lex (join " & " (s :: ss)) = toks t ++ jtoks l.
Proof.
  induction l as [|x l IH]; intros ss Hg Hf t s Ht Hs.
  - inversion Hf; subst. cbn [join jtoks]. rewrite app_nil_r.
    destruct Ht. eapply flatten_lex; eauto.
  - inversion Hf as [|? sx ? ss' Fx Fl]; subst. inversion Hg; subst.
    change (join " & " (s :: sx :: ss')) with (s ++ " & " ++ join " & " (sx :: ss'))%string.
    destruct Ht as [Wt St].
    pose proof (flatten_nohash t s Wt St Hs) as N.
    rewrite lex_app by (simpl; unfold delim; auto).
    rewrite (flatten_lex t s Wt St Hs). f_equal.
    rewrite lex_lit by reflexivity. rewrite (IH ss') with (t := x); auto.
Qed.

Lemma parse_join t l s ss : good t -> Forall good l -> flatten t = Some s ->
  Forall2 (fun u s => flatten u = Some s) l ss ->
  parse (join " & " (s :: ss)) = Some (conj_left t l).
Proof.
  intros Ht Hl Hs Hss. unfold parse, parse_toks. rewrite (join_lex l ss) with (t := t); auto.
  destruct Ht as [Wt St]. rewrite (toks_run t s) by auto. apply jtoks_run; auto.
  clear -Hss. induction Hss; constructor; eauto.
Qed.

Lemma mapr_Forall2 {A B} (f : A -> res B) : forall l r, mapr f l = Ok r ->
  Forall2 (fun x y => f x = Ok y) l r.
Proof.
  induction l as [|x l IH]; intros r H; cbn [mapr] in H.
  - inversion H. constructor.
  - destruct (f x) eqn:E; [|discriminate]. cbn [bind] in H.
    destruct (mapr f l) eqn:E2; [|discriminate]. cbn [bind] in H. inversion H; subst.
    constructor; auto.
Qed.

Lemma flatten_r_Ok t s : flatten_r t = Ok s <-> flatten t = Some s.
Proof. unfold flatten_r, of_opt. destruct (flatten t); split; congruence. Qed.

Lemma parse_nonempty s t : parse s = Some t -> s <> "".
Proof. intros H ->. discriminate. Qed.

Lemma nonempty_keep s t : parse s = Some t -> nonempty [s] = [s].
Proof.
  intro H. apply parse_nonempty in H. unfold nonempty. cbn [filter].
  apply String.eqb_neq in H. rewrite H. reflexivity.
Qed.

(** A joined part denotes the conjunction of its formulas. *)
Lemma joined_part l ss (R : node -> Prop) :
  (forall t r, R (conj_left t r) <-> R t /\ forall u, In u r -> R u) ->
  Forall good l -> Forall2 (fun u s => flatten u = Some s) l ss ->
  exists fs, parse_all (nonempty [join " & " ss]) = Some fs /\
    ((forall f, In f fs -> R f) <-> (forall f, In f l -> R f)).
Proof.
  intros HR Hg Hf. destruct Hf as [|t s l ss Hs Hss].
  - exists []. split; [reflexivity|]. tauto.
  - inversion Hg; subst.
    pose proof (parse_join t l s ss H1 H2 Hs Hss) as P.
    exists [conj_left t l]. rewrite (nonempty_keep _ _ P). cbn [parse_all]. rewrite P. split; [reflexivity|].
    split.
    + intros H f Hf. specialize (H _ (or_introl eq_refl)). apply HR in H. destruct H.
      destruct Hf as [<-|Hf]; auto.
    + intros H f [<-|[]]. apply HR. split; [apply H; left; auto|intros; apply H; right; auto].
Qed.

Lemma listed_part l ss : Forall good l -> Forall2 (fun u s => flatten u = Some s) l ss ->
  parse_all (nonempty ss) = Some l.
Proof.
  intros Hg Hf. induction Hf as [|t s l ss Hs Hss IH]; [reflexivity|].
  inversion Hg; subst. destruct H1 as [W S].
  pose proof (parse_flatten t s W S Hs) as P.
  unfold nonempty in *. cbn [filter].
  pose proof (parse_nonempty _ _ P) as N. apply String.eqb_neq in N. rewrite N. cbn [negb parse_all].
  rewrite P, IH; auto.
Qed.

Lemma Forall_rev' {A} (P : A -> Prop) l : Forall P l -> Forall P (rev l).
Proof. apply Forall_rev. Qed.

Lemma split_meaning t d : good t -> split_gr1 t = Ok d ->
  exists G, split_part d = Some G /\ forall s, sat_part s G <-> holds s 0 t.
Proof.
  intros Hg H. unfold split_gr1 in H. destruct Hg as [Hw Hs].
  rewrite boundary_ok in H by (apply wf_amps; auto).
  set (L := leaves t) in *.
  assert (GL : Forall good L) by (apply good_leaves; split; auto).
  destruct (existsb (has_operator ops_now) (pick_init L) || existsb (has_operator ops_G) (pick_G L)
            || existsb (has_operator ops_now) (pick_GF L)) eqn:EO; [discriminate|].
  destruct (mapr flatten_r (rev (pick_init L))) as [si|] eqn:E1; [|discriminate]. cbn [bind] in H.
  destruct (mapr flatten_r (rev (pick_G L))) as [sg|] eqn:E2; [|discriminate]. cbn [bind] in H.
  destruct (mapr flatten_r (pick_GF L)) as [sf|] eqn:E3; [|discriminate]. cbn [bind] in H.
  apply Ok_inj in H. subst d.
  assert (conv : forall l ss, mapr flatten_r l = Ok ss -> Forall2 (fun u s => flatten u = Some s) l ss).
  { intros l ss E. apply mapr_Forall2 in E. induction E; constructor; auto. apply flatten_r_Ok; auto. }
  apply conv in E1, E2, E3.
  unfold split_part.
  rewrite (listed_part _ _ (good_pick_GF L GL) E3).
  assert (X1 : exists fs, parse_all (nonempty [join " & " si]) = Some fs /\
     forall s, (forall f, In f fs -> holds s 0 f) <-> (forall f, In f (rev (pick_init L)) -> holds s 0 f)).
  { destruct (joined_part (rev (pick_init L)) si (fun _ => True)) as (fs & P & _); auto.
    - intros; tauto.
    - apply Forall_rev, good_pick_init; auto.
    - exists fs. split; auto. intro s.
      destruct (joined_part (rev (pick_init L)) si (holds s 0)) as (fs' & P' & Q); auto.
      + intros; apply conj_left_holds.
      + apply Forall_rev, good_pick_init; auto.
      + rewrite P in P'. inversion P'; subst. auto. }
  assert (X2 : exists fs, parse_all (nonempty [join " & " sg]) = Some fs /\
     forall s, (forall f, In f fs -> forall i, holds s i f) <->
               (forall f, In f (rev (pick_G L)) -> forall i, holds s i f)).
  { destruct (joined_part (rev (pick_G L)) sg (fun _ => True)) as (fs & P & _); auto.
    - intros; tauto.
    - apply Forall_rev, good_pick_G; auto.
    - exists fs. split; auto. intro s.
      destruct (joined_part (rev (pick_G L)) sg (fun f => forall i, holds s i f)) as (fs' & P' & Q); auto.
      + intros t' r'. split.
        * intro K. split.
          -- intro i. exact (proj1 (proj1 (conj_left_holds s i r' t') (K i))).
          -- intros u Hu i. exact (proj2 (proj1 (conj_left_holds s i r' t') (K i)) u Hu).
        * intros [K1 K2] i. apply conj_left_holds. split; auto.
      + apply Forall_rev, good_pick_G; auto.
      + rewrite P in P'. inversion P'; subst. auto. }
  destruct X1 as (fi & P1 & S1). destruct X2 as (fg & P2 & S2). rewrite P1, P2.
  eexists. split; [reflexivity|]. intro s. rewrite <- (pick_sat s t). fold L.
  unfold sat_part, pick_part. cbn [p_init p_safe p_live].
  rewrite S1, S2.
  assert (R1 : (forall f, In f (rev (pick_init L)) -> holds s 0 f) <-> (forall f, In f (pick_init L) -> holds s 0 f)).
  { split; intros K f Hf; apply K; [rewrite <- in_rev|rewrite in_rev]; auto. }
  assert (R2 : (forall f, In f (rev (pick_G L)) -> forall i, holds s i f) <-> (forall f, In f (pick_G L) -> forall i, holds s i f)).
  { split; intros K f Hf; apply K; [rewrite <- in_rev|rewrite in_rev]; auto. }
  rewrite R1, R2. tauto.
Qed.

(** * Which formulas are accepted *)
Lemma has_operator_uses ops : forall t, wf_node t = true ->
  (forall o, In o ops -> In o ["X"; "G"; "F"; "U"; "V"; "R"]) ->
  (has_operator ops t = true <-> exists op, In op ops /\ uses op t).
Proof.
  assert (T : forall o, In o ["X"; "G"; "F"; "U"; "V"; "R"] ->
    oneof o ["="; "!="; "/="; "<"; "<="; "=<"; ">"; ">="] = true \/
    oneof o ["+"; "-"; "*"; "/"] = true \/ o = "<<>>" \/ o = "ite" -> False).
  { intros o H K. cbn [In] in H. repeat (destruct H as [<-|H]; [destruct K as [K|[K|[K|K]]]; discriminate|]). auto. }
  induction t; intros Hw HO; cbn [has_operator wf_node] in *.
  - split; [discriminate|intros (o & _ & U); inversion U].
  - split; [discriminate|intros (o & _ & U); inversion U].
  - split; [discriminate|intros (o & _ & U); inversion U].
  - split; [discriminate|intros (o & _ & U); inversion U].
  - apply andb_prop in Hw. destruct Hw as [_ Ha].
    rewrite orb_true_iff, mem_In, (IHt Ha HO). split.
    + intros [H|(o & A & B)]; [exists op; split; [auto|constructor] | exists o; split; [auto|apply u_un1; auto]].
    + intros (o & A & U). inversion U; subst; eauto.
  - apply andb_prop in Hw. destruct Hw as [Hw Hr]. apply andb_prop in Hw. destruct Hw as [Ho Hl].
    rewrite !orb_true_iff, mem_In, (IHt1 Hl HO), (IHt2 Hr HO). split.
    + intros [[H|(o & A & B)]|(o & A & B)];
        [exists op; split; [auto|constructor] | exists o; split; [auto|apply u_bin1; auto] | exists o; split; [auto|apply u_bin2; auto]].
    + intros (o & A & U). inversion U; subst; eauto.
  - apply andb_prop in Hw. destruct Hw as [Hw Hr]. apply andb_prop in Hw. destruct Hw as [Ho Hl].
    rewrite !orb_true_iff, mem_In, (IHt1 Hl HO), (IHt2 Hr HO). split.
    + intros [[H|(o & A & B)]|(o & A & B)];
        [exfalso; eapply (T op); eauto | exists o; split; [auto|apply u_cmp1; auto] | exists o; split; [auto|apply u_cmp2; auto]].
    + intros (o & A & U). inversion U; subst; eauto.
  - apply andb_prop in Hw. destruct Hw as [Hw Hr]. apply andb_prop in Hw. destruct Hw as [Ho Hl].
    rewrite !orb_true_iff, mem_In, (IHt1 Hl HO), (IHt2 Hr HO). split.
    + intros [[H|(o & A & B)]|(o & A & B)];
        [exfalso; eapply (T op); eauto | exists o; split; [auto|apply u_ar1; auto] | exists o; split; [auto|apply u_ar2; auto]].
      apply orb_true_iff in Ho. destruct Ho as [Ho|Ho]; auto.
      apply andb_prop in Ho. destruct Ho as [Ho _]. apply String.eqb_eq in Ho. auto.
    + intros (o & A & U). inversion U; subst; eauto.
  - apply andb_prop in Hw. destruct Hw as [Hw H3]. apply andb_prop in Hw. destruct Hw as [Hw H2].
    apply andb_prop in Hw. destruct Hw as [Ho H1].
    rewrite !orb_true_iff, mem_In, (IHt1 H1 HO), (IHt2 H2 HO), (IHt3 H3 HO). split.
    + intros [[[H|(o & A & B)]|(o & A & B)]|(o & A & B)].
      * exfalso. apply String.eqb_eq in Ho. eapply (T op); eauto.
      * exists o; split; [auto|apply u_ite1; auto].
      * exists o; split; [auto|apply u_ite2; auto].
      * exists o; split; [auto|apply u_ite3; auto].
    + intros (o & A & U). inversion U; subst; eauto 8.
Qed.

(** The operators that split_gr1 looks for (R is not an operator of the grammar). *)
Definition GFUV : list string := ["G"; "F"; "U"; "V"].

Lemma wf_no_R : forall t, wf_node t = true -> ~ uses "R" t.
Proof.
  induction t; intros Hw U; cbn [wf_node] in Hw; inversion U; subst;
    repeat match goal with H : (_ && _)%bool = true |- _ => apply andb_prop in H; destruct H end;
    try discriminate; eauto; try (eapply IHt1; eauto; fail); try (eapply IHt2; eauto; fail);
    try (eapply IHt3; eauto; fail); try (eapply IHt; eauto; fail).
Qed.

Lemma free_G t : wf_node t = true -> (has_operator ops_G t = false <-> free_of GFUV t).
Proof.
  intro Hw. pose proof (has_operator_uses ops_G t Hw) as H.
  assert (HO : forall o, In o ops_G -> In o ["X"; "G"; "F"; "U"; "V"; "R"]).
  { intros o. unfold ops_G. simpl. tauto. }
  specialize (H HO). unfold free_of. split.
  - intros E op Hop U. assert (has_operator ops_G t = true); [|congruence].
    apply H. exists op. split; auto. unfold GFUV, ops_G in *. simpl in *. tauto.
  - intro F. apply not_true_is_false. intro E.
    apply H in E; auto. destruct E as (op & A & U). unfold ops_G in A. simpl in A.
    destruct A as [<-|[<-|[<-|[<-|[<-|[]]]]]];
      try (eapply F; [|apply U]; unfold GFUV; simpl; tauto).
    eapply wf_no_R; eauto.
Qed.
Lemma free_now t : wf_node t = true -> (has_operator ops_now t = false <-> free_of ("X" :: GFUV) t).
Proof.
  intro Hw. pose proof (has_operator_uses ops_now t Hw) as H.
  assert (HO : forall o, In o ops_now -> In o ["X"; "G"; "F"; "U"; "V"; "R"]).
  { intros o. unfold ops_now, ops_G. simpl. tauto. }
  specialize (H HO). unfold free_of. split.
  - intros E op Hop U. assert (has_operator ops_now t = true); [|congruence].
    apply H. exists op. split; auto. unfold GFUV, ops_now, ops_G in *. simpl in *. tauto.
  - intro F. apply not_true_is_false. intro E.
    apply H in E; auto. destruct E as (op & A & U). unfold ops_now, ops_G in A. simpl in A.
    destruct A as [<-|[<-|[<-|[<-|[<-|[<-|[]]]]]]];
      try (eapply F; [|apply U]; unfold GFUV; simpl; tauto).
    eapply wf_no_R; eauto.
Qed.

(** Acceptance of one leaf. *)
Definition leaf_ok (u : node) : Prop :=
  match classify u with
  | SInit v => free_of ("X" :: GFUV) v
  | SG v => free_of GFUV v
  | SGF v => free_of ("X" :: GFUV) v
  end.

Lemma free_sub_bin ops o l r : free_of ops (NBin o l r) -> free_of ops l /\ free_of ops r.
Proof.
  intro H. split; intros op Hop U; apply (H op Hop); [apply u_bin1|apply u_bin2]; auto.
Qed.

Lemma gr1_leaves : forall t, wf_node t = true -> (gr1 GFUV t <-> forall u, In u (leaves t) -> leaf_ok u).
Proof.
  assert (now_leaves : forall t, free_of ("X" :: GFUV) t -> forall u, In u (leaves t) -> leaf_ok u).
  { assert (one : forall t, free_of ("X" :: GFUV) t -> leaf_ok t).
    { intros t F. unfold leaf_ok. destruct t; cbn [classify]; auto.
      destruct (op =? "G") eqn:E; auto. apply String.eqb_eq in E. subst. exfalso.
      apply (F "G"); [unfold GFUV; simpl; tauto|constructor]. }
    induction t; intros F u Hu; cbn [leaves] in Hu; try (destruct Hu as [<-|[]]; apply one; auto; fail).
    destruct (op =? "&"); [|destruct Hu as [<-|[]]; apply one; auto].
    apply free_sub_bin in F. destruct F. apply in_app_or in Hu. destruct Hu; auto. }
  intros t Hw. split.
  - intro H. induction H as [l r Hl IHl Hr IHr|b F|c F|b F].
    + cbn [wf_node] in Hw. apply andb_prop in Hw. destruct Hw as [Hw Wr]. apply andb_prop in Hw. destruct Hw as [_ Wl].
      intros u Hu. cbn [leaves] in Hu. change ("&" =? "&")%string with true in Hu. cbv iota in Hu.
      apply in_app_or in Hu. destruct Hu; auto.
    + apply now_leaves; auto.
    + intros u [<-|[]]. unfold leaf_ok. cbn [classify]. change ("G" =? "G")%string with true. cbv iota.
      destruct c; auto. destruct (op =? "F") eqn:E; auto. apply String.eqb_eq in E. subst. exfalso.
      apply (F "F"); [unfold GFUV; simpl; tauto|constructor].
    + intros u [<-|[]]. unfold leaf_ok. cbn [classify].
      change ("G" =? "G")%string with true. change ("F" =? "F")%string with true. cbv iota. auto.
  - assert (one : forall t, leaf_ok t -> gr1 GFUV t).
    { intros t0. unfold leaf_ok. destruct t0; cbn [classify]; try (intro; apply gr1_now; auto; fail).
      destruct (op =? "G") eqn:E; [|intro; apply gr1_now; auto]. apply String.eqb_eq in E. subst.
      destruct t0; try (intro; apply gr1_G; auto; fail).
      destruct (op =? "F") eqn:E; [|intro; apply gr1_G; auto]. apply String.eqb_eq in E. subst.
      intro; apply gr1_GF; auto. }
    induction t; cbn [leaves]; intro H; try (apply one, H; left; reflexivity).
    destruct (op =? "&") eqn:E; [|apply one, H; left; reflexivity].
    apply String.eqb_eq in E. subst.
    cbn [wf_node] in Hw. apply andb_prop in Hw. destruct Hw as [Hw Wr]. apply andb_prop in Hw. destruct Hw as [_ Wl].
    apply gr1_and; [apply IHt1|apply IHt2]; auto; intros u Hu; apply H; apply in_or_app; auto.
Qed.

Lemma wf_leaves : forall t, wf_node t = true -> Forall (fun u => wf_node u = true) (leaves t).
Proof.
  induction t; intros H; cbn [leaves]; try (constructor; auto; fail).
  destruct (op =? "&"); [|constructor; auto].
  cbn [wf_node] in *.
  apply andb_prop in H. destruct H as [Hw Hr]. apply andb_prop in Hw. destruct Hw as [Ho Hl].
  apply Forall_app. split; auto.
Qed.
Lemma wf_classify u : wf_node u = true ->
  match classify u with SInit v | SG v | SGF v => wf_node v = true end.
Proof.
  intro H. destruct u; cbn [classify]; auto.
  destruct (op =? "G"); auto. cbn [wf_node] in *.
  apply andb_prop in H. destruct H as [Ho Hl].
  destruct u; auto.
  destruct (op0 =? "F"); auto.
  cbn [wf_node] in *. apply andb_prop in Hl. destruct Hl. auto.
Qed.

Lemma existsb_false {A} (f : A -> bool) l : existsb f l = false <-> forall x, In x l -> f x = false.
Proof.
  split.
  - intros H x Hx. destruct (f x) eqn:E; auto. assert (existsb f l = true); [|congruence].
    apply existsb_exists. eauto.
  - intro H. destruct (existsb f l) eqn:E; auto. apply existsb_exists in E. destruct E as (x & Ax & Bx).
    rewrite H in Bx; auto.
Qed.

Lemma accept_iff t : wf_node t = true ->
  ((existsb (has_operator ops_now) (pick_init (leaves t)) || existsb (has_operator ops_G) (pick_G (leaves t))
    || existsb (has_operator ops_now) (pick_GF (leaves t))) = false <-> gr1 GFUV t).
Proof.
  intro Hw. rewrite (gr1_leaves t Hw).
  pose proof (wf_leaves t Hw) as WL. rewrite Forall_forall in WL.
  rewrite !orb_false_iff, !existsb_false. split.
  - intros [[H1 H2] H3] u Hu. unfold leaf_ok. pose proof (wf_classify u (WL u Hu)) as Wc.
    destruct (classify u) eqn:E.
    + apply free_now; auto. apply H1, In_pick_init. eauto.
    + apply free_G; auto. apply H2, In_pick_G. eauto.
    + apply free_now; auto. apply H3, In_pick_GF. eauto.
  - intro H. repeat split; intros v Hv.
    + apply In_pick_init in Hv. destruct Hv as (u & A & B). specialize (H u A).
      pose proof (wf_classify u (WL u A)) as Wc. unfold leaf_ok in H. rewrite B in *. apply free_now; auto.
    + apply In_pick_G in Hv. destruct Hv as (u & A & B). specialize (H u A).
      pose proof (wf_classify u (WL u A)) as Wc. unfold leaf_ok in H. rewrite B in *. apply free_G; auto.
    + apply In_pick_GF in Hv. destruct Hv as (u & A & B). specialize (H u A).
      pose proof (wf_classify u (WL u A)) as Wc. unfold leaf_ok in H. rewrite B in *. apply free_now; auto.
Qed.

(** Flattening the parts succeeds exactly on plain operators. *)
Lemma plain_leaves : forall t, plain_ops t = true -> Forall (fun u => plain_ops u = true) (leaves t).
Proof.
  induction t; intros H; cbn [leaves]; try (constructor; auto; fail).
  destruct (op =? "&"); [|constructor; auto].
  cbn [plain_ops] in *.
  apply andb_prop in H. destruct H as [Hw Hr]. apply andb_prop in Hw. destruct Hw as [Ho Hl].
  apply Forall_app. split; auto.
Qed.
Lemma plain_classify u : plain_ops u = true ->
  match classify u with SInit v | SG v | SGF v => plain_ops v = true end.
Proof.
  intro H. destruct u; cbn [classify]; auto.
  destruct (op =? "G"); auto. cbn [plain_ops] in *.
  apply andb_prop in H. destruct H as [Ho Hl].
  destruct u; auto.
  destruct (op0 =? "F"); auto.
  cbn [plain_ops] in *. apply andb_prop in Hl. destruct Hl. auto.
Qed.
Lemma mapr_ok {A B} (f : A -> res B) l : (forall x, In x l -> exists y, f x = Ok y) ->
  exists r, mapr f l = Ok r.
Proof.
  induction l as [|x l IH]; intro H; cbn [mapr]; [eauto|].
  destruct (H x (or_introl eq_refl)) as [y ->]. cbn [bind].
  destruct IH as [r ->]; [intros; apply H; right; auto|]. cbn [bind]. eauto.
Qed.

Lemma split_total t : wf_node t = true -> plain_ops t = true ->
  (gr1 GFUV t -> exists d, split_gr1 t = Ok d) /\
  (~ gr1 GFUV t -> split_gr1 t = Err "AssertionError").
Proof.
  intros Hw Hp. unfold split_gr1. rewrite boundary_ok by (apply wf_amps; auto).
  pose proof (accept_iff t Hw) as AI.
  destruct (existsb (has_operator ops_now) (pick_init (leaves t)) || existsb (has_operator ops_G) (pick_G (leaves t))
            || existsb (has_operator ops_now) (pick_GF (leaves t))) eqn:E.
  - split; [|reflexivity]. intro H. apply AI in H. discriminate.
  - split; [|intro N; exfalso; apply N, AI; reflexivity]. intros _.
    pose proof (wf_leaves t Hw) as WL. rewrite Forall_forall in WL.
    pose proof (plain_leaves t Hp) as PL. rewrite Forall_forall in PL.
    assert (K : forall u v, In u (leaves t) -> match classify u with SInit v' | SG v' | SGF v' => v' = v end ->
                exists y, flatten_r v = Ok y).
    { intros u v Hu Hv. pose proof (wf_classify u (WL u Hu)) as W.
      pose proof (plain_classify u (PL u Hu)) as P.
      destruct (classify u); subst v; destruct (proj1 (flatten_plain _ W) P) as [y Hy]; exists y; apply flatten_r_Ok; auto. }
    destruct (mapr_ok flatten_r (rev (pick_init (leaves t)))) as [a ->].
    { intros x Hx. apply in_rev in Hx. apply In_pick_init in Hx. destruct Hx as (u & A & B). eapply K; eauto. rewrite B; auto. }
    destruct (mapr_ok flatten_r (rev (pick_G (leaves t)))) as [b ->].
    { intros x Hx. apply in_rev in Hx. apply In_pick_G in Hx. destruct Hx as (u & A & B). eapply K; eauto. rewrite B; auto. }
    destruct (mapr_ok flatten_r (pick_GF (leaves t))) as [c ->].
    { intros x Hx. apply In_pick_GF in Hx. destruct Hx as (u & A & B). eapply K; eauto. rewrite B; auto. }
    cbn [bind]. eauto.
Qed.

Lemma split_accepts_only t d : wf_node t = true -> split_gr1 t = Ok d -> gr1 GFUV t.
Proof.
  intros Hw H. unfold split_gr1 in H. rewrite boundary_ok in H by (apply wf_amps; auto).
  apply (accept_iff t Hw).
  destruct (existsb (has_operator ops_now) (pick_init (leaves t)) || existsb (has_operator ops_G) (pick_G (leaves t))
            || existsb (has_operator ops_now) (pick_GF (leaves t))) eqn:E; [discriminate|reflexivity].
Qed.
