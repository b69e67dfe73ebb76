(** C53: [prop2part] partitions the domain by the propositions. *)
From Coq Require Import List String Bool Arith Lia Permutation.
From Verif Require Import M_Base M_Part.
Import ListNotations.
Open Scope string_scope.
Open Scope list_scope.
Open Scope nat_scope.

(** ** The loop of one proposition *)
Section Loop.
Context {R : Type} (inter diff : R -> R -> R) (fulldim : R -> bool).
Notation region := (@region R).
Notation split_region := (split_region inter diff fulldim).
Notation split_step := (split_step inter diff fulldim).
Notation split_all := (split_all inter diff fulldim).
Definition hold (p : string) (P : R) (r : region) : list region :=
  match fst (split_region p P r) with Some r' => [r'] | None => [] end.
Definition rest (p : string) (P : R) (r : region) : list region := snd (split_region p P r).
Definition entry (p : string) (P : R) (r : region) : region :=
  match fst (split_region p P r) with Some r' => r' | None => r end.
Definition flag (p : string) (P : R) (r : region) : bool :=
  match fst (split_region p P r) with Some _ => true | None => false end.

Lemma set_nth_app {A} (a : list A) x y b : set_nth (List.length a) x (a ++ y :: b) = a ++ x :: b.
Proof. induction a as [|z a IH]; cbn [List.length app set_nth]; [reflexivity|]. rewrite IH. reflexivity. Qed.
Lemma split_loop p P : forall todo done,
  fold_left (split_step p P) (List.seq (List.length done) (List.length todo))
    (map (entry p P) done ++ todo ++ flat_map (rest p P) done, map (flag p P) done) =
  (map (entry p P) (done ++ todo) ++ flat_map (rest p P) (done ++ todo), map (flag p P) (done ++ todo)).
Proof.
  induction todo as [|r todo IH]; intro done; cbn [List.length List.seq fold_left].
  - rewrite app_nil_r. reflexivity.
  - assert (E : split_step p P (map (entry p P) done ++ (r :: todo) ++ flat_map (rest p P) done, map (flag p P) done) (List.length done) =
      (map (entry p P) (done ++ [r]) ++ todo ++ flat_map (rest p P) (done ++ [r]), map (flag p P) (done ++ [r]))).
    { unfold M_Part.split_step. cbn [fst snd].
      rewrite nth_error_app2 by (rewrite map_length; lia). rewrite map_length, Nat.sub_diag. cbn [app nth_error].
      rewrite !map_app, flat_map_app. cbn [map flat_map].
      assert (E1 : entry p P r = match fst (split_region p P r) with Some r' => r' | None => r end) by reflexivity.
      assert (E2 : flag p P r = match fst (split_region p P r) with Some _ => true | None => false end) by reflexivity.
      assert (E3 : rest p P r = snd (split_region p P r)) by reflexivity.
      rewrite E1, E2, E3. clear E1 E2 E3. destruct (split_region p P r) as [[r'|] more] eqn:X; cbn [fst snd].
      - rewrite <- (map_length (entry p P) done) at 1. rewrite set_nth_app, app_nil_r, <- !app_assoc. cbn [app]. rewrite <- app_assoc. reflexivity.
      - rewrite app_nil_r, <- !app_assoc. cbn [app]. rewrite <- app_assoc. reflexivity. }
    rewrite E. replace (S (List.length done)) with (List.length (done ++ [r])) by (rewrite app_length; cbn; lia).
    rewrite IH. rewrite <- app_assoc. reflexivity.
Qed.
Lemma pop_app {A} (a : list A) x b : pop (List.length a) (a ++ x :: b) = a ++ b.
Proof.
  unfold pop. rewrite firstn_app, firstn_all, Nat.sub_diag. cbn [firstn]. rewrite app_nil_r. f_equal.
  rewrite skipn_app. replace (skipn (S (List.length a)) a) with (@nil A) by (symmetry; apply skipn_all2; lia).
  replace (S (List.length a) - List.length a) with 1 by lia. reflexivity.
Qed.
Lemma pop_flags_filter p P : forall l pre k count tail, List.length pre + count = k ->
  pop_flags k count (map (flag p P) l) (pre ++ map (entry p P) l ++ tail) = pre ++ flat_map (hold p P) l ++ tail.
Proof.
  induction l as [|r l IH]; intros pre k count tail H; cbn [map pop_flags flat_map]; [reflexivity|].
  unfold flag at 1, hold at 1. unfold entry at 1. destruct (fst (split_region p P r)) as [r'|] eqn:X.
  - cbn [app]. replace (pre ++ r' :: map (entry p P) l ++ tail) with ((pre ++ [r']) ++ map (entry p P) l ++ tail) by (rewrite <- app_assoc; reflexivity).
    rewrite IH by (rewrite app_length; cbn; lia). rewrite <- app_assoc. reflexivity.
  - cbn [app]. replace (k - count) with (List.length pre) by lia. rewrite pop_app. apply IH. lia.
Qed.
(** The regions where the proposition holds, then the others. *)
Theorem split_all_eq regions p P :
  split_all regions (p, P) = flat_map (hold p P) regions ++ flat_map (rest p P) regions.
Proof.
  unfold M_Part.split_all. cbn [fst snd]. pose proof (split_loop p P regions []) as L. cbn [List.length map flat_map app] in L.
  rewrite app_nil_r in L. rewrite L. cbn [fst snd]. apply (pop_flags_filter p P regions [] 0 0). reflexivity.
Qed.
End Loop.

(** ** Regions as sets of points *)
Section Sets.
Context {R X : Type} (inter diff : R -> R -> R) (fulldim : R -> bool) (le : R -> R -> bool).
Context (pts : R -> X -> bool) (null : (X -> Prop) -> Prop).
(** The sets without interior form an ideal. *)
Hypothesis null_sub : forall A B : X -> Prop, null B -> (forall x, A x -> B x) -> null A.
Hypothesis null_empty : null (fun _ => False).
Hypothesis null_union : forall A B, null A -> null B -> null (fun x => A x \/ B x).
(** The operations of the region algebra; the difference is the closure of the set difference. *)
Hypothesis pts_inter : forall a b x, pts (inter a b) x = pts a x && pts b x.
Hypothesis diff_in : forall a b x, pts (diff a b) x = true -> pts a x = true.
Hypothesis diff_covers : forall a b x, pts a x = true -> pts b x = false -> pts (diff a b) x = true.
Hypothesis diff_out : forall a b, null (fun x => pts (diff a b) x = true /\ pts b x = true).
Hypothesis full : forall r, fulldim r = false <-> null (fun x => pts r x = true).
Hypothesis le_ok : forall a b, le a b = true <-> (forall x, pts a x = true -> pts b x = true).

Definition inside (r : R) (x : X) : Prop := pts r x = true.
Definition overlap (r s : @region R) : Prop := ~ null (fun x => inside (fst r) x /\ inside (fst s) x).
(** Specification: what a partition of [domain] that preserves the propositions [props] is. *)
Record partition (domain : R) (props : list (string * R)) (l : list (@region R)) : Prop := {
  part_in : forall r x, In r l -> inside (fst r) x -> inside domain x;
  part_cover : null (fun x => inside domain x /\ forall r, In r l -> ~ inside (fst r) x);
  part_disjoint : ForallOrdPairs (fun r s => null (fun x => inside (fst r) x /\ inside (fst s) x)) l;
  part_true : forall r p P, In r l -> In (p, P) props -> In p (snd r) -> forall x, inside (fst r) x -> inside P x;
  part_false : forall r p P, In r l -> In (p, P) props -> ~ In p (snd r) -> null (fun x => inside (fst r) x /\ inside P x);
  part_names : forall r p, In r l -> In p (snd r) -> In p (map fst props);
  part_labels : forall r, In r l -> NoDup (snd r);
  part_full : forall r, In r l -> fulldim (fst r) = true }.

Lemma null_Union {A} (f : A -> X -> Prop) : forall l, (forall a, In a l -> null (f a)) -> null (fun x => exists a, In a l /\ f a x).
Proof.
  induction l as [|a l IH]; intro H.
  - apply (null_sub _ (fun _ => False)); [exact null_empty|]. intros x (a & [] & _).
  - apply (null_sub _ (fun x => f a x \/ exists b, In b l /\ f b x)).
    + apply null_union; [apply H; left; reflexivity|apply IH; intros b I; apply H; right; exact I].
    + intros x (b & [-> | I] & F); [left; exact F|right; exists b; auto].
Qed.
Lemma fop_app {A} (Q : A -> A -> Prop) : forall a b, ForallOrdPairs Q (a ++ b) <->
  ForallOrdPairs Q a /\ ForallOrdPairs Q b /\ (forall x y, In x a -> In y b -> Q x y).
Proof.
  induction a as [|z a IH]; intro b; cbn [app].
  - split; [intro H; split; [constructor|split; [exact H|intros x y []]]|tauto].
  - split.
    + intro H. inversion H as [|? ? F O]; subst. apply IH in O. destruct O as (O1 & O2 & O3). rewrite Forall_forall in F.
      split; [constructor; [apply Forall_forall; intros y I; apply F, in_or_app; left; exact I|exact O1]|]. split; [exact O2|].
      intros x y [<- | I] J; [apply F, in_or_app; right; exact J|apply O3; assumption].
    + intros (H1 & H2 & H3). inversion H1 as [|? ? F O]; subst. rewrite Forall_forall in F. constructor.
      * apply Forall_forall. intros y I. apply in_app_or in I. destruct I as [I|I]; [apply F, I|apply H3; [left; reflexivity|exact I]].
      * apply IH. split; [exact O|]. split; [exact H2|]. intros x y I J. apply H3; [right; exact I|exact J].
Qed.
(** Pairwise relations on the parts made from the elements of a list. *)
Lemma fop_flat {A B} (Q : B -> B -> Prop) (f : A -> list B) : forall l,
  (forall a, In a l -> ForallOrdPairs Q (f a)) ->
  ForallOrdPairs (fun a b => forall x y, In x (f a) -> In y (f b) -> Q x y) l -> ForallOrdPairs Q (flat_map f l).
Proof.
  induction l as [|a l IH]; intros H O; cbn [flat_map]; [constructor|]. inversion O as [|? ? F O']; subst. rewrite Forall_forall in F.
  apply fop_app. split; [apply H; left; reflexivity|]. split; [apply IH; [intros; apply H; right; assumption|exact O']|].
  intros x y I J. apply in_flat_map in J. destruct J as (b & J1 & J2). apply (F b J1 x y I J2).
Qed.
Lemma fop_impl {A} (Q Q' : A -> A -> Prop) l : (forall x y, In x l -> In y l -> Q x y -> Q' x y) -> ForallOrdPairs Q l -> ForallOrdPairs Q' l.
Proof.
  intros H O. induction O as [|a l F O IH]; [constructor|]. rewrite Forall_forall in F. constructor.
  - apply Forall_forall. intros y I. apply H; [left; reflexivity|right; exact I|apply F, I].
  - apply IH. intros x y I J. apply H; right; assumption.
Qed.
Lemma fop_split {A B} (Q : B -> B -> Prop) (f g : A -> list B) : (forall x y, Q x y -> Q y x) -> forall l,
  (forall a, In a l -> ForallOrdPairs Q (f a) /\ ForallOrdPairs Q (g a) /\ forall x y, In x (f a) -> In y (g a) -> Q x y) ->
  ForallOrdPairs (fun a b => forall x y, In x (f a ++ g a) -> In y (f b ++ g b) -> Q x y) l ->
  ForallOrdPairs Q (flat_map f l ++ flat_map g l).
Proof.
  intros Sy l H O. apply fop_app. split; [|split].
  - apply fop_flat; [intros a I; apply H, I|]. revert O. apply fop_impl. intros a b _ _ K x y I J. apply K; apply in_or_app; left; assumption.
  - apply fop_flat; [intros a I; apply H, I|]. revert O. apply fop_impl. intros a b _ _ K x y I J. apply K; apply in_or_app; right; assumption.
  - intros x y I J. apply in_flat_map in I, J. destruct I as (a & A1 & A2). destruct J as (b & B1 & B2).
    induction O as [|c l F O IH]; [destruct A1|]. rewrite Forall_forall in F. destruct A1 as [-> | A1], B1 as [-> | B1].
    + apply (H b (or_introl eq_refl)); assumption.
    + apply (F b B1); apply in_or_app; [left|right]; assumption.
    + apply Sy. apply (F a A1); apply in_or_app; [right|left]; assumption.
    + apply IH; auto. intros a' I'. apply H. right. exact I'.
Qed.

Notation hold := (hold inter diff fulldim).
Notation rest := (rest inter diff fulldim).
Lemma parts p P r r' : In r' (hold p P r ++ rest p P r) ->
  (r' = (inter (fst r) P, p :: snd r) /\ fulldim (inter (fst r) P) = true) \/
  (r' = (diff (fst r) P, snd r) /\ fulldim (inter (fst r) P) = true /\ fulldim (diff (fst r) P) = true) \/
  (r' = r /\ fulldim (inter (fst r) P) = false).
Proof.
  unfold T_Prop2part.hold, T_Prop2part.rest, split_region. destruct (fulldim (inter (fst r) P)) eqn:E; cbn [fst snd].
  - destruct (fulldim (diff (fst r) P)) eqn:F; cbn [app In]; intros [<- | I]; auto.
    + destruct I as [<- | []]. right. left. auto.
    + destruct I.
  - cbn [app In]. intros [<- | []]. auto.
Qed.
Lemma parts_in p P r r' x : In r' (hold p P r ++ rest p P r) -> inside (fst r') x -> inside (fst r) x.
Proof.
  intros I. unfold inside. destruct (parts _ _ _ _ I) as [(-> & _) | [(-> & _) | (-> & _)]]; cbn [fst]; auto.
  - rewrite pts_inter, andb_true_iff. tauto.
  - apply diff_in.
Qed.
Lemma parts_cover p P r x : inside (fst r) x ->
  (exists r', In r' (hold p P r ++ rest p P r) /\ inside (fst r') x) \/ (fulldim (diff (fst r) P) = false /\ inside (diff (fst r) P) x).
Proof.
  intro I. unfold T_Prop2part.hold, T_Prop2part.rest, split_region, inside in *. destruct (fulldim (inter (fst r) P)) eqn:E; cbn [fst snd].
  - destruct (pts P x) eqn:K.
    + left. eexists. split; [left; reflexivity|]. cbn [fst]. rewrite pts_inter, I, K. reflexivity.
    + pose proof (diff_covers _ P x I K) as D. destruct (fulldim (diff (fst r) P)) eqn:F.
      * left. eexists. split; [right; left; reflexivity|]. exact D.
      * right. auto.
  - left. exists r. split; [left; reflexivity|exact I].
Qed.

Lemma partition_step domain props l p P : partition domain props l -> ~ In p (map fst props) ->
  partition domain (props ++ [(p, P)]) (flat_map (hold p P) l ++ flat_map (rest p P) l).
Proof.
  intros [H1 H2 H3 H4 H5 H6 H7 H8] N.
  assert (M : forall r', In r' (flat_map (hold p P) l ++ flat_map (rest p P) l) <-> exists r, In r l /\ In r' (hold p P r ++ rest p P r)).
  { intro r'. rewrite in_app_iff, !in_flat_map. split.
    - intros [(r & I & J) | (r & I & J)]; exists r; split; auto; apply in_or_app; auto.
    - intros (r & I & J). apply in_app_or in J. destruct J as [J|J]; [left|right]; exists r; auto. }
  constructor.
  - intros r' x I J. apply M in I. destruct I as (r & I & K). apply (H1 r x I). apply (parts_in p P r r' x K J).
  - apply (null_sub _ (fun x => (inside domain x /\ forall r, In r l -> ~ inside (fst r) x) \/
      exists r, In r l /\ (fulldim (diff (fst r) P) = false /\ inside (diff (fst r) P) x))).
    + apply null_union; [exact H2|]. apply (null_Union (fun r x => fulldim (diff (fst r) P) = false /\ inside (diff (fst r) P) x)).
      intros r I. destruct (fulldim (diff (fst r) P)) eqn:E.
      * apply (null_sub _ (fun _ => False)); [exact null_empty|]. intros x [F _]. discriminate.
      * apply (null_sub _ (inside (diff (fst r) P))); [apply full, E|]. intros x [_ J]. exact J.
    + intros x [D C]. 
      assert (Dec : (exists r, In r l /\ inside (fst r) x) \/ forall r, In r l -> ~ inside (fst r) x).
      { clear. induction l as [|r l [IH|IH]].
        - right. intros r [].
        - destruct IH as (s & I & J). left. exists s. split; [right; exact I|exact J].
        - unfold inside at 1. destruct (pts (fst r) x) eqn:E.
          + left. exists r. split; [left; reflexivity|exact E].
          + right. intros s [<- | I]; [unfold inside; congruence|apply IH, I]. }
      destruct Dec as [(r & I & J) | Dec]; [|left; auto]. right. exists r. split; [exact I|].
      destruct (parts_cover p P r x J) as [(r' & K & L) | K]; [|exact K]. exfalso. apply (C r'); [apply M; exists r; auto|exact L].
  - apply fop_split.
    + intros r s K. apply (null_sub _ _ K). intros x [A B]. auto.
    + intros r I. unfold T_Prop2part.hold, T_Prop2part.rest, split_region. destruct (fulldim (inter (fst r) P)) eqn:E; cbn [fst snd].
      * split; [repeat constructor|]. split; [destruct (fulldim (diff (fst r) P)); repeat constructor|].
        intros x y [<- | []]. destruct (fulldim (diff (fst r) P)); cbn [In]; [|intros []]. intros [<- | []]. cbn [fst].
        apply (null_sub _ _ (diff_out (fst r) P)). unfold inside. intros z [A B]. rewrite pts_inter, andb_true_iff in A. tauto.
      * split; [constructor|]. split; [repeat constructor|]. intros x y [].
    + revert H3. apply fop_impl. intros r s _ _ K r' s' A B. apply (null_sub _ _ K).
      intros x [C D]. split; [apply (parts_in p P r r'); assumption|apply (parts_in p P s s'); assumption].
  - intros r' q Q I J K x L. apply M in I. destruct I as (r & I & I'). apply in_app_or in J.
    destruct J as [J | [[= <- <-] | []]].
    + apply (H4 r q Q I J); [|apply (parts_in p P r r' x I' L)].
      destruct (parts _ _ _ _ I') as [(-> & _) | [(-> & _) | (-> & _)]]; cbn [snd] in K; auto.
      destruct K as [<- | K]; [|exact K]. exfalso. apply N. change p with (fst (p, Q)). apply in_map, J.
    + destruct (parts _ _ _ _ I') as [(-> & _) | [(-> & _) | (-> & _)]]; cbn [snd fst] in *.
      * unfold inside in *. rewrite pts_inter, andb_true_iff in L. apply L.
      * exfalso. apply N, (H6 r p I K).
      * exfalso. apply N, (H6 r p I K).
  - intros r' q Q I J K. apply M in I. destruct I as (r & I & I'). apply in_app_or in J.
    destruct J as [J | [[= <- <-] | []]].
    + apply (null_sub _ (fun x => inside (fst r) x /\ inside Q x)).
      * apply (H5 r q Q I J). intro L. apply K.
        destruct (parts _ _ _ _ I') as [(-> & _) | [(-> & _) | (-> & _)]]; cbn [snd]; auto. right. exact L.
      * intros x [A B]. split; [apply (parts_in p P r r' x I' A)|exact B].
    + destruct (parts _ _ _ _ I') as [(-> & _) | [(-> & _) | (-> & E)]]; cbn [snd fst] in *.
      * exfalso. apply K. left. reflexivity.
      * apply (null_sub _ _ (diff_out (fst r) P)). unfold inside. auto.
      * apply full in E. apply (null_sub _ _ E). unfold inside. intros x [A B]. rewrite pts_inter, A, B. reflexivity.
  - intros r' q I K. apply M in I. destruct I as (r & I & I'). rewrite map_app, in_app_iff. cbn [map In fst].
    destruct (parts _ _ _ _ I') as [(-> & _) | [(-> & _) | (-> & E)]]; cbn [snd fst] in *.
    + destruct K as [<- | K]; [right; left; reflexivity|left; apply (H6 r q I K)].
    + left. apply (H6 r q I K).
    + left. apply (H6 r q I K).
  - intros r' I. apply M in I. destruct I as (r & I & I').
    destruct (parts _ _ _ _ I') as [(-> & _) | [(-> & _) | (-> & E)]]; cbn [snd fst] in *; try apply (H7 r I).
    constructor; [|apply (H7 r I)]. intro K. apply N, (H6 r p I K).
  - intros r' I. apply M in I. destruct I as (r & I & I').
    destruct (parts _ _ _ _ I') as [(-> & E) | [(-> & _ & E) | (-> & E)]]; cbn [snd fst] in *; auto.
Qed.
Lemma partition_fold domain : forall more props l, partition domain props l -> NoDup (map fst (props ++ more)) ->
  partition domain (props ++ more) (fold_left (split_all inter diff fulldim) more l).
Proof.
  induction more as [|[p P] more IH]; intros props l H N; cbn [fold_left]; [rewrite app_nil_r; exact H|].
  replace (props ++ (p, P) :: more) with ((props ++ [(p, P)]) ++ more) in * by (rewrite <- app_assoc; reflexivity).
  apply IH; [|exact N]. rewrite split_all_eq. apply partition_step; [exact H|].
  rewrite !map_app in N. cbn [map fst] in N. rewrite <- app_assoc in N. apply NoDup_remove_2 in N. intro I. apply N, in_or_app. left. exact I.
Qed.
Lemma partition_start domain : fulldim domain = true -> partition domain [] [(domain, [])].
Proof.
  intro F. constructor.
  - intros r x [<- | []] I. exact I.
  - apply (null_sub _ (fun _ => False)); [exact null_empty|]. intros x [A B]. apply (B _ (or_introl eq_refl)). exact A.
  - repeat constructor.
  - intros r p P _ [].
  - intros r p P _ [].
  - intros r p [<- | []] [].
  - intros r [<- | []]. constructor.
  - intros r [<- | []]. exact F.
Qed.

(** The claim: no exception, and the regions partition the domain by the propositions. *)
Theorem prop2part_partition find_adjacent domain props : NoDup (map fst props) -> fulldim domain = true ->
  exists p, prop2part inter diff fulldim le find_adjacent domain props = Ok p /\
    partition domain props (p_regions p) /\ p_domain p = domain /\ p_props p = Some props /\ p_adj p = Some (find_adjacent (p_regions p)).
Proof.
  intros N F. pose proof (partition_fold domain props [] _ (partition_start domain F) N) as H. cbn [app] in H.
  unfold prop2part. set (l := fold_left _ props _) in *. unfold make_ppp.
  replace (forallb _ l) with true.
  - unfold is_symbolic. replace (forallb _ l) with true.
    + cbn [bind]. eexists. split; [reflexivity|]. cbn [p_regions p_domain p_props p_adj]. auto.
    + symmetry. apply forallb_forall. intros r I. unfold subset. apply forallb_forall. intros p J. apply mem_In. apply (part_names _ _ _ H r p I J).
  - symmetry. apply forallb_forall. intros r I. apply le_ok. intros x J. apply (part_in _ _ _ H r x I J).
Qed.
(** The cells are those of the propositions: a set of propositions labels a region exactly when the
    points of the domain that satisfy these propositions and no others do not form a null set. *)
Definition cell (domain : R) (props : list (string * R)) (S : list string) (x : X) : Prop :=
  inside domain x /\ forall p P, In (p, P) props -> (In p S <-> inside P x).
Definition same_set (a b : list string) : Prop := forall p, In p a <-> In p b.
Lemma lookup_pair p : forall props : list (string * R), In p (map fst props) -> exists P, In (p, P) props.
Proof. intros props I. apply in_map_iff in I. destruct I as ([q Q] & <- & I). exists Q. exact I. Qed.
Lemma label_dec p (s : list string) : In p s \/ ~ In p s.
Proof. destruct (mem p s) eqn:E; [left; apply mem_In, E|right; intro I; apply mem_In in I; congruence]. Qed.
Theorem partition_cells domain props l S : partition domain props l ->
  (exists r, In r l /\ same_set (snd r) S) -> ~ null (cell domain props S).
Proof.
  intros H (r & I & E) C. pose proof (part_full _ _ _ H r I) as F. assert (G : fulldim (fst r) = false); [|congruence]. apply full.
  apply (null_sub _ (fun x => cell domain props S x \/ exists kp, In kp props /\ (~ In (fst kp) (snd r) /\ inside (fst r) x /\ inside (snd kp) x))).
  - apply null_union; [exact C|]. apply (null_Union (fun kp x => ~ In (fst kp) (snd r) /\ inside (fst r) x /\ inside (snd kp) x)).
    intros [p P] J. cbn [fst snd]. destruct (label_dec p (snd r)) as [K|K].
    + apply (null_sub _ (fun _ => False)); [exact null_empty|]. intros x [L _]. contradiction.
    + apply (null_sub _ _ (part_false _ _ _ H r p P I J K)). tauto.
  - intros x A. 
    assert (D : (exists kp, In kp props /\ ~ In (fst kp) (snd r) /\ inside (fst r) x /\ inside (snd kp) x) \/
                forall kp, In kp props -> ~ In (fst kp) (snd r) -> ~ inside (snd kp) x).
    { clear - A. induction props as [|kp props [IH|IH]].
      - right. intros kp [].
      - left. destruct IH as (k & J & K). exists k. split; [right; exact J|exact K].
      - destruct (label_dec (fst kp) (snd r)) as [K|K].
        + right. intros k [<- | J]; [contradiction|apply IH, J].
        + unfold inside at 2. destruct (pts (snd kp) x) eqn:P.
          * left. exists kp. split; [left; reflexivity|]. split; [exact K|]. split; [exact A|exact P].
          * right. intros k [<- | J] L; [unfold inside; congruence|apply IH; assumption]. }
    destruct D as [D|D]; [right; exact D|]. left. split; [apply (part_in _ _ _ H r x I A)|].
    intros p P J. rewrite <- (E p). split.
    + intro K. apply (part_true _ _ _ H r p P I J K x A).
    + intro K. destruct (label_dec p (snd r)) as [L|L]; [exact L|]. exfalso. apply (D (p, P) J L K).
Qed.
Theorem partition_complete domain props l S : partition domain props l -> (forall p, In p S -> In p (map fst props)) ->
  ~ null (cell domain props S) -> exists r, In r l /\ same_set (snd r) S.
Proof.
  intros H HS C.
  assert (Dec : (exists r, In r l /\ same_set (snd r) S) \/ forall r, In r l -> exists p, In p (map fst props) /\ ~ (In p (snd r) <-> In p S)).
  { assert (K : forall r, In r l -> same_set (snd r) S \/ exists p, In p (map fst props) /\ ~ (In p (snd r) <-> In p S)).
    { intros r I. 
      assert (A : (exists p, In p (map fst props) /\ ~ (In p (snd r) <-> In p S)) \/ forall p, In p (map fst props) -> (In p (snd r) <-> In p S)).
      { clear. induction (map fst props) as [|q qs [IH|IH]].
        - right. intros p [].
        - left. destruct IH as (p & J & K). exists p. split; [right; exact J|exact K].
        - destruct (label_dec q (snd r)), (label_dec q S); try (left; exists q; split; [left; reflexivity|tauto]);
            right; intros p [<- | J]; try tauto; apply IH, J. }
      destruct A as [A|A]; [right; exact A|]. left. intro p. split; intro J.
      - apply A; [|exact J]. apply (part_names _ _ _ H r p I J).
      - apply A; [|exact J]. apply HS, J. }
    clear - K. induction l as [|r l IH].
    - right. intros r [].
    - destruct IH as [IH|IH]; [intros s I; apply K; right; exact I| |].
      + left. destruct IH as (s & I & J). exists s. split; [right; exact I|exact J].
      + destruct (K r (or_introl eq_refl)) as [J|J]; [left; exists r; split; [left; reflexivity|exact J]|].
        right. intros s [<- | I]; [exact J|apply IH, I]. }
  destruct Dec as [D|D]; [exact D|]. exfalso. apply C.
  apply (null_sub _ (fun x => (inside domain x /\ forall r, In r l -> ~ inside (fst r) x) \/
     exists r, In r l /\ (inside (fst r) x /\ cell domain props S x))).
  - apply null_union; [apply (part_cover _ _ _ H)|]. apply (null_Union (fun r x => inside (fst r) x /\ cell domain props S x)).
    intros r I. destruct (D r I) as (p & J & K). destruct (lookup_pair p props J) as [P JP].
    destruct (label_dec p (snd r)) as [L|L].
    + apply (null_sub _ (fun _ => False)); [exact null_empty|]. intros x [A [_ B]]. apply K. split; [|tauto]. intros _.
      apply (B p P JP). apply (part_true _ _ _ H r p P I JP L x A).
    + apply (null_sub _ _ (part_false _ _ _ H r p P I JP L)). intros x [A [_ B]]. split; [exact A|].
      apply (B p P JP). destruct (label_dec p S) as [M|M]; [exact M|]. exfalso. apply K. tauto.
  - intros x A. 
    assert (Dx : (exists r, In r l /\ inside (fst r) x) \/ forall r, In r l -> ~ inside (fst r) x).
    { clear. induction l as [|r l [IH|IH]].
      - right. intros r [].
      - destruct IH as (s & I & J). left. exists s. split; [right; exact I|exact J].
      - unfold inside at 1. destruct (pts (fst r) x) eqn:E.
        + left. exists r. split; [left; reflexivity|exact E].
        + right. intros s [<- | I]; [unfold inside; congruence|apply IH, I]. }
    destruct Dx as [(r & I & J) | Dx]; [right; exists r; auto|left; split; [apply A|exact Dx]].
Qed.
(** [preserves_predicates] accepts exactly the partitions whose labels are right; [small] is the test
    of the volume. *)
Theorem preserves_predicates_iff small p d : p_props p = Some d -> NoDup (map fst d) ->
  (forall r q, In r (p_regions p) -> In q (snd r) -> In q (map fst d)) ->
  exists b, preserves_predicates inter le small p = Ok b /\
    (b = true <-> forall r q Q, In r (p_regions p) -> In (q, Q) d ->
       (In q (snd r) -> forall x, inside (fst r) x -> inside Q x) /\ (~ In q (snd r) -> small (inter (fst r) Q) = true)).
Proof.
  intros Hd Nd Hn. unfold preserves_predicates. rewrite Hd. 
  assert (Lk : forall q, In q (map fst d) -> exists Q, lookup q d = Some Q /\ In (q, Q) d).
  { clear - d. intro q. induction d as [|[k Q] d IH]; cbn [map fst lookup]; [intros []|]. intros [<- | I].
    - rewrite String.eqb_refl. exists Q. split; [reflexivity|left; reflexivity].
    - destruct (String.eqb q k) eqn:E; [apply String.eqb_eq in E; subst; exists Q; split; [reflexivity|left; reflexivity]|].
      destruct (IH I) as (Q' & A & B). exists Q'. split; [exact A|right; exact B]. }
  assert (Un : forall q Q Q', In (q, Q) d -> In (q, Q') d -> Q = Q').
  { clear - Nd. intros q Q Q'. induction d as [|[k P] d IH]; [intros []|]. cbn [map fst] in Nd. apply NoDup_cons_iff in Nd. destruct Nd as [N1 N2].
    intros [[= -> ->] | I] [E | J].
    - congruence.
    - exfalso. apply N1. change q with (fst (q, Q')). apply in_map, J.
    - injection E as -> ->. exfalso. apply N1. change q with (fst (q, Q)). apply in_map, I.
    - apply IH; assumption. }
  assert (Al : forall (r : R) qs, (forall q, In q qs -> In q (map fst d)) -> exists b, all_in le d r qs = Ok b /\
     (b = true <-> forall q Q, In q qs -> In (q, Q) d -> forall x, inside r x -> inside Q x)).
  { intro r. induction qs as [|q qs IH]; intro H; cbn [all_in]; [exists true; split; [reflexivity|split; [intros _ q Q []|reflexivity]]|].
    destruct (Lk q (H q (or_introl eq_refl))) as (Q & -> & I). cbn [of_opt bind].
    destruct (le r Q) eqn:L.
    - destruct IH as (b & E & B); [intros; apply H; right; assumption|]. exists b. split; [exact E|]. rewrite B. split.
      + intros K q' Q' [<- | J] M; [rewrite <- (Un q Q Q' I M); apply le_ok, L|apply (K q' Q' J M)].
      + intros K q' Q' J M. apply (K q' Q'); [right; exact J|exact M].
    - exists false. split; [reflexivity|]. split; [discriminate|]. intro K. assert (le r Q = true); [|congruence]. apply le_ok.
      apply (K q Q (or_introl eq_refl) I). }
  revert Hn. generalize (p_regions p). induction l as [|r l IH]; intro Hn; cbn [regions_preserve].
  - exists true. split; [reflexivity|]. split; [intros _ r q Q []|reflexivity].
  - unfold region_preserves. destruct (Al (fst r) (snd r)) as (b & -> & B); [intros q J; apply (Hn r q (or_introl eq_refl) J)|]. cbn [bind].
    assert (F : forallb (fun kp => mem (fst kp) (snd r) || small (inter (fst r) (snd kp))) d = true <->
       forall q Q, In (q, Q) d -> ~ In q (snd r) -> small (inter (fst r) Q) = true).
    { rewrite forallb_forall. split.
      - intros K q Q J N. specialize (K (q, Q) J). cbn [fst snd] in K. apply orb_true_iff in K. destruct K as [K|K]; [apply mem_In in K; contradiction|exact K].
      - intros K [q Q] J. cbn [fst snd]. apply orb_true_iff. destruct (mem q (snd r)) eqn:M; [left; reflexivity|right]. apply (K q Q J). intro N. apply mem_In in N. congruence. }
    destruct IH as (bl & EL & BL); [intros; apply (Hn r0 q); [right|]; assumption|].
    assert (RB : (if b then Ok (forallb (fun kp => mem (fst kp) (snd r) || small (inter (fst r) (snd kp))) d) else Ok false) =
      Ok (b && forallb (fun kp => mem (fst kp) (snd r) || small (inter (fst r) (snd kp))) d)) by (destruct b; reflexivity).
    rewrite RB. cbn [bind]. destruct (b && _) eqn:BF.
    + apply andb_true_iff in BF. destruct BF as [Bb Bf]. exists bl. split; [exact EL|]. rewrite BL. split.
      * intros K s q Q [<- | I] J; [|apply K; assumption]. split.
        -- intro L. apply (proj1 B Bb q Q L J).
        -- apply (proj1 F Bf q Q J).
      * intros K s q Q I J. apply K; [right; exact I|exact J].
    + exists false. split; [reflexivity|]. split; [discriminate|]. intro K. rewrite <- BF. apply andb_true_iff. split.
      * apply B. intros q Q I J. apply (K r q Q (or_introl eq_refl) J), I.
      * apply F. intros q Q J. apply (K r q Q (or_introl eq_refl) J).
Qed.
(** The result of [prop2part] preserves its predicates. *)
Corollary prop2part_preserves small find_adjacent domain props p : NoDup (map fst props) -> fulldim domain = true ->
  (forall r, fulldim r = false -> small r = true) ->
  prop2part inter diff fulldim le find_adjacent domain props = Ok p -> preserves_predicates inter le small p = Ok true.
Proof.
  intros N F Sm E. destruct (prop2part_partition find_adjacent domain props N F) as (p' & E' & H & _ & Pp & _).
  assert (p' = p) by congruence. subst p'.
  destruct (preserves_predicates_iff small p props Pp N) as (b & Eb & B); [intros r q I J; apply (part_names _ _ _ H r q I J)|].
  rewrite Eb. f_equal. apply B. intros r q Q I J. split.
  - apply (part_true _ _ _ H r q Q I J).
  - intro K. apply Sm, full. pose proof (part_false _ _ _ H r q Q I J K) as Z. apply (null_sub _ _ Z).
    unfold inside. intros x A. rewrite pts_inter, andb_true_iff in A. exact A.
Qed.
(** Different regions have different labels. *)
Definition distinct (l : list (@region R)) : Prop := ForallOrdPairs (fun r s => ~ same_set (snd r) (snd s)) l.
Lemma distinct_fold domain : forall more props l, partition domain props l -> distinct l -> NoDup (map fst (props ++ more)) ->
  distinct (fold_left (split_all inter diff fulldim) more l).
Proof.
  induction more as [|[p P] more IH]; intros props l H D N; cbn [fold_left]; [exact D|].
  replace (props ++ (p, P) :: more) with ((props ++ [(p, P)]) ++ more) in * by (rewrite <- app_assoc; reflexivity).
  assert (Np : ~ In p (map fst props)).
  { rewrite !map_app in N. cbn [map fst] in N. rewrite <- app_assoc in N. apply NoDup_remove_2 in N. intro I. apply N, in_or_app. left. exact I. }
  assert (Nl : forall r, In r l -> ~ In p (snd r)) by (intros r I J; apply Np, (part_names _ _ _ H r p I J)).
  rewrite split_all_eq. apply (IH (props ++ [(p, P)])); [apply partition_step; assumption| |exact N].
  apply fop_split.
  - intros r s A B. apply A. intro q. symmetry. apply B.
  - intros r I. unfold T_Prop2part.hold, T_Prop2part.rest, split_region. destruct (fulldim (inter (fst r) P)); cbn [fst snd].
    + split; [repeat constructor|]. split; [destruct (fulldim (diff (fst r) P)); repeat constructor|].
      intros x y [<- | []]. destruct (fulldim (diff (fst r) P)); cbn [In]; [|intros []]. intros [<- | []]. cbn [snd].
      intro A. apply (Nl r I). apply A. left. reflexivity.
    + split; [constructor|]. split; [repeat constructor|]. intros x y [].
  - assert (D' : ForallOrdPairs (fun r s => In r l /\ In s l /\ ~ same_set (snd r) (snd s)) l).
    { revert D. apply fop_impl. auto. }
    revert D'. apply fop_impl. intros r s _ _ (Ir & Is & K) r' s' A B C.
    pose proof (Nl r Ir) as Nr. pose proof (Nl s Is) as Ns.
    destruct (parts _ _ _ _ A) as [(-> & _) | A'], (parts _ _ _ _ B) as [(-> & _) | B']; cbn [snd] in C.
    + apply K. intro q. specialize (C q). cbn [In] in C. split; intro J.
      * destruct (proj1 C (or_intror J)) as [-> | L]; [contradiction|exact L].
      * destruct (proj2 C (or_intror J)) as [-> | L]; [contradiction|exact L].
    + assert (E : snd s' = snd s) by (destruct B' as [(-> & _) | (-> & _)]; reflexivity). rewrite E in C. apply Ns. apply C. left. reflexivity.
    + assert (E : snd r' = snd r) by (destruct A' as [(-> & _) | (-> & _)]; reflexivity). rewrite E in C. apply Nr. apply C. left. reflexivity.
    + assert (E : snd s' = snd s) by (destruct B' as [(-> & _) | (-> & _)]; reflexivity).
      assert (E' : snd r' = snd r) by (destruct A' as [(-> & _) | (-> & _)]; reflexivity). rewrite E, E' in C. apply K, C.
Qed.
Theorem prop2part_distinct find_adjacent domain props p : NoDup (map fst props) -> fulldim domain = true ->
  prop2part inter diff fulldim le find_adjacent domain props = Ok p -> distinct (p_regions p).
Proof.
  intros N F E. destruct (prop2part_partition find_adjacent domain props N F) as (p' & E' & _).
  pose proof (distinct_fold domain props [] _ (partition_start domain F) ltac:(repeat constructor) N) as D.
  unfold prop2part in E. destruct (make_ppp _ _ _ _ _) as [q|] eqn:M; cbn [bind] in E; [|discriminate]. injection E as <-.
  unfold make_ppp in M. destruct (forallb _ _); [|discriminate]. destruct (is_symbolic _ _); cbn [bind] in M; [|discriminate].
  injection M as <-. exact D.
Qed.
End Sets.

(** A region algebra: finite sets of numbers where the odd numbers have no volume, and differences
    keep them. *)
Definition pt_R : Type := list nat.
Definition pt_pts (r : pt_R) (x : nat) : bool := existsb (Nat.eqb x) r.
Definition pt_inter (a b : pt_R) : pt_R := filter (pt_pts b) a.
Definition pt_diff (a b : pt_R) : pt_R := filter (fun x => negb (pt_pts b x) || Nat.odd x) a.
Definition pt_fulldim (r : pt_R) : bool := existsb Nat.even r.
Definition pt_le (a b : pt_R) : bool := forallb (pt_pts b) a.
Definition pt_null (A : nat -> Prop) : Prop := forall x, A x -> Nat.odd x = true.
Lemma pt_pts_In r x : pt_pts r x = true <-> In x r.
Proof. unfold pt_pts. rewrite existsb_exists. split; [intros (y & I & E); apply Nat.eqb_eq in E; subst; exact I|intro I; exists x; split; [exact I|apply Nat.eqb_refl]]. Qed.
Lemma pt_null_sub (A B : nat -> Prop) : pt_null B -> (forall x, A x -> B x) -> pt_null A.
Proof. intros H K x I. apply H, K, I. Qed.
Lemma pt_null_empty : pt_null (fun _ => False).
Proof. intros x []. Qed.
Lemma pt_null_union A B : pt_null A -> pt_null B -> pt_null (fun x => A x \/ B x).
Proof. intros H K x [I|I]; [apply H, I|apply K, I]. Qed.
Lemma pt_pts_inter a b x : pt_pts (pt_inter a b) x = pt_pts a x && pt_pts b x.
Proof. apply eq_true_iff_eq. rewrite andb_true_iff, !pt_pts_In. unfold pt_inter. rewrite filter_In, pt_pts_In. reflexivity. Qed.
Lemma pt_diff_in a b x : pt_pts (pt_diff a b) x = true -> pt_pts a x = true.
Proof. rewrite !pt_pts_In. unfold pt_diff. rewrite filter_In. tauto. Qed.
Lemma pt_diff_covers a b x : pt_pts a x = true -> pt_pts b x = false -> pt_pts (pt_diff a b) x = true.
Proof. rewrite !pt_pts_In. unfold pt_diff. rewrite filter_In. intros I ->. auto. Qed.
Lemma pt_diff_out a b : pt_null (fun x => pt_pts (pt_diff a b) x = true /\ pt_pts b x = true).
Proof. intros x [A B]. rewrite pt_pts_In in A. unfold pt_diff in A. rewrite filter_In, B in A. cbn in A. tauto. Qed.
Lemma pt_full r : pt_fulldim r = false <-> pt_null (fun x => pt_pts r x = true).
Proof.
  unfold pt_fulldim, pt_null. split.
  - intros H x I. rewrite pt_pts_In in I. rewrite <- Nat.negb_even. destruct (Nat.even x) eqn:E; [|reflexivity].
    assert (existsb Nat.even r = true); [apply existsb_exists; exists x; auto|congruence].
  - intro H. destruct (existsb Nat.even r) eqn:E; [|reflexivity]. apply existsb_exists in E. destruct E as (x & I & E).
    apply pt_pts_In, H in I. rewrite <- Nat.negb_even, E in I. discriminate.
Qed.
Lemma pt_le_ok a b : pt_le a b = true <-> (forall x, pt_pts a x = true -> pt_pts b x = true).
Proof. unfold pt_le. rewrite forallb_forall. split; intros H x I; apply H; apply pt_pts_In; auto. Qed.
Definition pt_find_adjacent (l : list (@region pt_R)) : matrix := fun i j => true.
Example prop2part_example : exists p,
  prop2part pt_inter pt_diff pt_fulldim pt_le pt_find_adjacent [0; 1; 2; 3; 4; 5; 6]
    [("a", [2; 3; 4; 5; 6; 7]); ("b", [4; 5; 6; 8]); ("none", [7; 8])] = Ok p /\
  p_regions p = [([4; 5; 6], ["b"; "a"]); ([2; 3; 5], ["a"]); ([0; 1; 3; 5], @nil string)].
Proof. eexists. split; [vm_compute; reflexivity|]. reflexivity. Qed.
(** A domain without volume: it stays, with no label, although nothing of it is left to cover. *)
Theorem prop2part_flat_refuted : exists p,
  prop2part pt_inter pt_diff pt_fulldim pt_le pt_find_adjacent [1; 3] [("a", [1; 3])] = Ok p /\
  p_regions p = [([1; 3], [])] /\ pt_le [1; 3] [1; 3] = true.
Proof. eexists. split; [vm_compute; reflexivity|]. split; vm_compute; reflexivity. Qed.
Example prop2part_hypotheses : forall props, NoDup (map fst props) -> exists p,
  prop2part pt_inter pt_diff pt_fulldim pt_le pt_find_adjacent [0; 1; 2; 3; 4; 5; 6] props = Ok p /\
  partition pt_fulldim pt_pts pt_null [0; 1; 2; 3; 4; 5; 6] props (p_regions p).
Proof.
  intros props N. destruct (prop2part_partition pt_inter pt_diff pt_fulldim pt_le pt_pts pt_null pt_null_sub pt_null_empty pt_null_union
    pt_pts_inter pt_diff_in pt_diff_covers pt_diff_out pt_full pt_le_ok pt_find_adjacent [0; 1; 2; 3; 4; 5; 6] props N eq_refl) as (p & E & H & _).
  exists p. auto.
Qed.
Print Assumptions prop2part_partition.
Print Assumptions partition_cells.
Print Assumptions partition_complete.
Print Assumptions prop2part_distinct.
Print Assumptions preserves_predicates_iff.
Print Assumptions prop2part_preserves.
Print Assumptions prop2part_flat_refuted.
