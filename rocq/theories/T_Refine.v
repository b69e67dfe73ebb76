(** C61: refining a proposition-preserving partition by subsystems, into convex cells or by a grid
    keeps it one. *)
From Coq Require Import List String Bool Arith ZArith QArith Lqa Lia.
From Verif Require Import M_Base M_Part T_Part T_Prop2part.
Import ListNotations.
Open Scope string_scope.
Open Scope list_scope.
Open Scope nat_scope.

(** ** Adjacency matrices *)
Lemma set_one_iff i j m a b : set_one i j m a b = true <-> (a = i /\ b = j) \/ m a b = true.
Proof. unfold set_one. rewrite orb_true_iff, andb_true_iff, !Nat.eqb_eq. reflexivity. Qed.
Lemma pairs_iff (f : nat -> nat -> bool) i a b : forall js m,
  fold_left (fun m j => if f i j then set_one j i (set_one i j m) else m) js m a b = true <->
  m a b = true \/ exists j, In j js /\ f i j = true /\ ((a = i /\ b = j) \/ (a = j /\ b = i)).
Proof.
  induction js as [|j js IH]; intro m; cbn [fold_left].
  - split; [auto|]. intros [H | (j & [] & _)]. exact H.
  - rewrite IH. destruct (f i j) eqn:E.
    + rewrite !set_one_iff. split.
      * intros [[H | [H | H]] | (k & I & H)].
        -- right. exists j. split; [left; reflexivity|]. split; [exact E|]. right. exact H.
        -- right. exists j. split; [left; reflexivity|]. split; [exact E|]. left. exact H.
        -- auto.
        -- right. exists k. split; [right; exact I|exact H].
      * intros [H | (k & [-> | I] & F & [H|H])]; auto.
        -- right. exists k. auto.
        -- right. exists k. auto.
    + split.
      * intros [H | (k & I & H)]; [auto|]. right. exists k. split; [right; exact I|exact H].
      * intros [H | (k & [-> | I] & F & H)]; [auto|congruence|]. right. exists k. auto.
Qed.
Section Adj.
Context {R : Type} (touch : @region R -> @region R -> bool) (adj : matrix) (cells : list (@region R * nat)).
Notation entry := (adj_entry touch adj cells).
Theorem pwa_adj_iff a b : pwa_adj touch adj cells a b = true <->
  a < List.length cells /\ b < List.length cells /\ (a = b \/ entry (Nat.max a b) (Nat.min a b) = true /\ a <> b).
Proof.
  unfold pwa_adj.
  assert (A : forall n, fold_left (adj_row_down touch adj cells) (List.seq 0 n) no_entry a b = true <->
    a < n /\ b < n /\ (a = b \/ entry (Nat.max a b) (Nat.min a b) = true /\ a <> b)).
  { induction n as [|n IH]; [split; [discriminate|lia]|]. rewrite seq_S, fold_left_app. cbn [fold_left]. rewrite Nat.add_0_l.
    unfold adj_row_down at 1. rewrite set_one_iff, pairs_iff, IH. split.
    - intros [[-> ->] | [H | (j & I & F & [[-> ->] | [-> ->]])]].
      + repeat split; try lia.
      + repeat split; try lia. apply H.
      + apply in_seq in I. rewrite Nat.max_l, Nat.min_r by lia. repeat split; try lia. right. split; [exact F|lia].
      + apply in_seq in I. rewrite Nat.max_r, Nat.min_l by lia. repeat split; try lia. right. split; [exact F|lia].
    - intros (H1 & H2 & H3). destruct (Nat.eq_dec a n) as [->|Na], (Nat.eq_dec b n) as [->|Nb].
      + left. auto.
      + right. right. destruct H3 as [<- | [F D]]; [congruence|]. rewrite Nat.max_l, Nat.min_r in F by lia.
        exists b. split; [apply in_seq; lia|]. split; [exact F|]. left. auto.
      + right. right. destruct H3 as [-> | [F D]]; [congruence|]. rewrite Nat.max_r, Nat.min_l in F by lia.
        exists a. split; [apply in_seq; lia|]. split; [exact F|]. right. auto.
      + right. left. repeat split; try lia. exact H3. }
  apply A.
Qed.
Theorem grid_adj_iff a b : grid_adj touch adj cells a b = true <->
  a < List.length cells /\ b < List.length cells /\ (a = b \/ entry (Nat.min a b) (Nat.max a b) = true /\ a <> b).
Proof.
  unfold grid_adj.
  assert (A : forall n, n <= List.length cells -> fold_left (adj_row_up touch adj cells) (List.seq 0 n) no_entry a b = true <->
    Nat.min a b < n /\ Nat.max a b < List.length cells /\ (a = b \/ entry (Nat.min a b) (Nat.max a b) = true /\ a <> b)).
  { induction n as [|n IH]; intro L; [split; [discriminate|lia]|]. rewrite seq_S, fold_left_app. cbn [fold_left]. rewrite Nat.add_0_l.
    unfold adj_row_up at 1. rewrite pairs_iff, set_one_iff, IH by lia. split.
    - intros [[[-> ->] | H] | (j & I & F & [[-> ->] | [-> ->]])].
      + rewrite Nat.max_id, Nat.min_id. repeat split; try lia.
      + repeat split; try lia. apply H.
      + apply in_seq in I. rewrite Nat.max_r, Nat.min_l by lia. repeat split; try lia. right. split; [exact F|lia].
      + apply in_seq in I. rewrite Nat.max_l, Nat.min_r by lia. repeat split; try lia. right. split; [exact F|lia].
    - intros (H1 & H2 & H3). destruct (Nat.eq_dec (Nat.min a b) n) as [E|E].
      + destruct H3 as [-> | [F D]].
        * left. left. rewrite Nat.min_id in E. auto.
        * right. exists (Nat.max a b). split; [apply in_seq; lia|]. split; [rewrite <- E at 1; exact F|].
          destruct (Nat.le_gt_cases a b); [left|right]; lia.
      + left. right. repeat split; try lia. exact H3. }
  rewrite A by lia. split; intros (H1 & H2 & H3); repeat split; try lia; exact H3.
Qed.
End Adj.

(** ** Cells and their parents *)
Lemma enumerate_nth {A} : forall (l : list A) k i x, In (i, x) (combine (List.seq k (List.length l)) l) <-> k <= i /\ nth_error l (i - k) = Some x.
Proof.
  induction l as [|y l IH]; intros k i x; cbn [List.length List.seq combine In].
  - split; [intros []|]. intros [_ H]. destruct (i - k); discriminate.
  - rewrite IH. split.
    + intros [[= -> ->] | [H1 H2]]; [split; [lia|]; rewrite Nat.sub_diag; reflexivity|]. split; [lia|].
      replace (i - k) with (S (i - S k)) by lia. exact H2.
    + intros [H1 H2]. destruct (Nat.eq_dec i k) as [->|N].
      * left. rewrite Nat.sub_diag in H2. cbn in H2. congruence.
      * right. split; [lia|]. replace (i - k) with (S (i - S k)) in H2 by lia. exact H2.
Qed.
Lemma enumerate_iff {A} (l : list A) i x : In (i, x) (enumerate l) <-> nth_error l i = Some x.
Proof. unfold enumerate. rewrite enumerate_nth. rewrite Nat.sub_0_r. split; [tauto|]. intro H. split; [lia|exact H]. Qed.
Lemma fop_enumerate {A} (Q : A -> A -> Prop) (l : list A) : ForallOrdPairs Q l ->
  ForallOrdPairs (fun a b => fst a <> fst b /\ Q (snd a) (snd b)) (enumerate l).
Proof.
  unfold enumerate. generalize 0. induction l as [|x l IH]; intros k O; cbn [List.length List.seq combine]; [constructor|].
  inversion O as [|? ? F O']; subst. rewrite Forall_forall in F. constructor; [|apply IH, O'].
  apply Forall_forall. intros [j y] I. cbn [fst snd]. apply enumerate_nth in I. destruct I as [L I]. split; [lia|].
  apply F. eapply nth_error_In, I.
Qed.
Lemma fop_map {A B} (Q : B -> B -> Prop) (f : A -> B) : forall l, ForallOrdPairs (fun a b => Q (f a) (f b)) l -> ForallOrdPairs Q (map f l).
Proof.
  induction l as [|a l IH]; intro O; cbn [map]; [constructor|]. inversion O as [|? ? F O']; subst. constructor; [|apply IH, O'].
  apply Forall_forall. intros y I. apply in_map_iff in I. destruct I as (b & <- & I). rewrite Forall_forall in F. apply F, I.
Qed.
Lemma nth_map_inv {A B} (f : A -> B) l k c : nth_error (map f l) k = Some c -> exists a, nth_error l k = Some a /\ f a = c.
Proof. rewrite nth_error_map. destruct (nth_error l k) as [a|]; cbn; [|discriminate]. intros [= <-]. exists a. auto. Qed.
Lemma fop_all {A} (Q : A -> A -> Prop) (l : list A) : (forall a b, In a l -> In b l -> Q a b) -> ForallOrdPairs Q l.
Proof.
  induction l as [|a l IH]; intro H; constructor.
  - apply Forall_forall. intros b I. apply H; [left; reflexivity|right; exact I].
  - apply IH. intros x y I J. apply H; right; assumption.
Qed.

Section Refine.
Context {R X : Type} (inter diff : R -> R -> R) (fulldim : R -> bool) (le : R -> R -> bool).
Context (pts : R -> X -> bool) (null : (X -> Prop) -> Prop).
Hypothesis null_sub : forall A B : X -> Prop, null B -> (forall x, A x -> B x) -> null A.
Hypothesis null_empty : null (fun _ => False).
Hypothesis null_union : forall A B, null A -> null B -> null (fun x => A x \/ B x).
Hypothesis pts_inter : forall a b x, pts (inter a b) x = pts a x && pts b x.
Hypothesis diff_covers : forall a b x, pts a x = true -> pts b x = false -> pts (diff a b) x = true.
Hypothesis full : forall r, fulldim r = false <-> null (fun x => pts r x = true).
Hypothesis le_ok : forall a b, le a b = true <-> (forall x, pts a x = true -> pts b x = true).
Notation inside := (inside pts).
Notation partition := (partition fulldim pts null).
Notation null_Union := (null_Union null null_sub null_empty null_union).

Lemma inside_dec {A} (f : A -> R) x : forall l, (exists r, In r l /\ inside (f r) x) \/ forall r, In r l -> ~ inside (f r) x.
Proof.
  induction l as [|r l [IH|IH]].
  - right. intros r [].
  - destruct IH as (s & I & J). left. exists s. split; [right; exact I|exact J].
  - unfold T_Prop2part.inside at 1. destruct (pts (f r) x) eqn:E.
    + left. exists r. split; [left; reflexivity|exact E].
    + right. intros s [<- | I]; [unfold T_Prop2part.inside; congruence|apply IH, I].
Qed.
(** A list of cells refines a partition if every cell lies in its parent and has its labels, the
    cells do not overlap and what they leave out of their parents is null. *)
Lemma refine_partition domain props l (cells : list (@region R * nat)) :
  partition domain props l ->
  (forall c j, In (c, j) cells -> exists r, nth_error l j = Some r /\ snd c = snd r /\ fulldim (fst c) = true /\ forall x, inside (fst c) x -> inside (fst r) x) ->
  ForallOrdPairs (fun c d => null (fun x => inside (fst (fst c)) x /\ inside (fst (fst d)) x)) cells ->
  (forall j r, nth_error l j = Some r -> null (fun x => inside (fst r) x /\ forall c, In (c, j) cells -> ~ inside (fst c) x)) ->
  partition domain props (map fst cells).
Proof.
  intros [H1 H2 H3 H4 H5 H6 H7 H8] C D V.
  assert (M : forall c, In c (map fst cells) -> exists r, In r l /\ snd c = snd r /\ fulldim (fst c) = true /\ forall x, inside (fst c) x -> inside (fst r) x).
  { intros c I. apply in_map_iff in I. destruct I as ([c' j] & <- & I). destruct (C c' j I) as (r & N & K). exists r. split; [eapply nth_error_In, N|exact K]. }
  constructor.
  - intros c x I J. destruct (M c I) as (r & Ir & _ & _ & S). apply (H1 r x Ir), S, J.
  - apply (null_sub _ (fun x => (inside domain x /\ forall r, In r l -> ~ inside (fst r) x) \/
      exists jr, In jr (enumerate l) /\ (inside (fst (snd jr)) x /\ forall c, In (c, fst jr) cells -> ~ inside (fst c) x))).
    + apply null_union; [exact H2|]. apply (null_Union (fun jr x => inside (fst (snd jr)) x /\ forall c, In (c, fst jr) cells -> ~ inside (fst c) x)).
      intros [j r] I. apply enumerate_iff in I. apply (V j r I).
    + intros x [A B]. destruct (inside_dec (fun r : @region R => fst r) x l) as [(r & I & J) | N]; [|left; auto]. right.
      apply In_nth_error in I. destruct I as [j I]. exists (j, r). split; [apply enumerate_iff, I|]. cbn [fst snd]. split; [exact J|].
      intros c K. apply B. apply in_map_iff. exists (c, j). auto.
  - apply fop_map. exact D.
  - intros c p P I J K x L. destruct (M c I) as (r & Ir & E & _ & S). rewrite E in K. apply (H4 r p P Ir J K), S, L.
  - intros c p P I J K. destruct (M c I) as (r & Ir & E & _ & S). rewrite E in K. apply (null_sub _ _ (H5 r p P Ir J K)). intros x [A B]. auto.
  - intros c p I K. destruct (M c I) as (r & Ir & E & _ & S). rewrite E in K. apply (H6 r p Ir K).
  - intros c I. destruct (M c I) as (r & Ir & E & _ & S). rewrite E. apply (H7 r Ir).
  - intros c I. destruct (M c I) as (r & Ir & E & F & S). exact F.
Qed.
Lemma make_ppp_ok domain l adj props d : partition domain d l -> props = Some d -> make_ppp le domain l adj props = Ok (PPP domain l adj props).
Proof.
  intros H ->. unfold make_ppp. replace (forallb _ l) with true.
  - unfold is_symbolic. replace (forallb _ l) with true; [reflexivity|].
    symmetry. apply forallb_forall. intros r I. unfold subset. apply forallb_forall. intros p J. apply mem_In. apply (part_names _ _ _ _ _ _ H r p I J).
  - symmetry. apply forallb_forall. intros r I. apply le_ok. intros x J. apply (part_in _ _ _ _ _ _ H r x I J).
Qed.

(** ** [pwa_partition] *)
Section Pwa.
Context (touch : @region R -> @region R -> bool) (sys_domain : R) (subs : list R) (p : ppp R) (props : list (string * R)) (adj : matrix).
Hypothesis part : partition (p_domain p) props (p_regions p).
Hypothesis has_props : p_props p = Some props.
Hypothesis has_adj : p_adj p = Some adj.
(** The domains of the subsystems cover the domain of the system, up to a null set. *)
Hypothesis covered : null (fun x => inside sys_domain x /\ forall s, In s subs -> ~ inside s x).
Notation cells := (pwa_cells inter fulldim subs (p_regions p)).
Lemma pwa_cell c j i : In (c, j, i) cells <-> exists r s, nth_error (p_regions p) j = Some r /\ nth_error subs i = Some s /\
  c = (inter (fst r) s, snd r) /\ fulldim (inter (fst r) s) = true.
Proof.
  unfold pwa_cells. rewrite in_flat_map. split.
  - intros ([i' s] & I & J). apply in_flat_map in J. destruct J as ([j' r] & J & K). cbn [fst snd] in K.
    apply enumerate_iff in I, J. destruct (fulldim (inter (fst r) s)) eqn:F; [|destruct K]. destruct K as [[= <- <- <-] | []].
    exists r, s. auto.
  - intros (r & s & N & M & -> & F). exists (i, s). split; [apply enumerate_iff, M|]. apply in_flat_map. exists (j, r).
    split; [apply enumerate_iff, N|]. cbn [fst snd]. rewrite F. left. reflexivity.
Qed.
(** Subsystems whose domains overlap in a null set only: the result is a partition again, and every
    cell lies in its region and in the domain of its subsystem. *)
Theorem pwa_partition_refines : fulldim (diff (p_domain p) sys_domain) = false ->
  ForallOrdPairs (fun s t => null (fun x => inside s x /\ inside t x)) subs ->
  exists q subsys parents, pwa_partition inter diff fulldim le touch sys_domain subs p = Ok (q, subsys, parents) /\
    partition (p_domain p) props (p_regions q) /\ p_domain q = p_domain p /\ p_props q = p_props p /\
    List.length subsys = List.length (p_regions q) /\ List.length parents = List.length (p_regions q) /\
    (forall k c, nth_error (p_regions q) k = Some c -> exists i j r s,
       nth_error subsys k = Some i /\ nth_error parents k = Some j /\ nth_error subs i = Some s /\ nth_error (p_regions p) j = Some r /\
       snd c = snd r /\ forall x, inside (fst c) x <-> inside (fst r) x /\ inside s x) /\
    (forall i j r s, nth_error (p_regions p) j = Some r -> nth_error subs i = Some s -> fulldim (inter (fst r) s) = true ->
       exists k, nth_error subsys k = Some i /\ nth_error parents k = Some j) /\
    (exists m, p_adj q = Some m /\ forall a b, m a b = true <->
       a < List.length (p_regions q) /\ b < List.length (p_regions q) /\
       (a = b \/ a <> b /\ exists c d i j, nth_error (p_regions q) (Nat.max a b) = Some c /\ nth_error (p_regions q) (Nat.min a b) = Some d /\
          nth_error parents (Nat.max a b) = Some i /\ nth_error parents (Nat.min a b) = Some j /\ touch c d = true /\ (adj i j = true \/ i = j))).
Proof.
  intros F O. unfold pwa_partition. rewrite F, has_adj. cbn [bind].
  assert (Q : partition (p_domain p) props (map (fun c => fst (fst c)) cells)).
  { rewrite <- (map_map fst fst). apply (refine_partition (p_domain p) props (p_regions p) (map fst cells) part).
    - intros c j I. apply in_map_iff in I. destruct I as ([[c' j'] i] & [= -> ->] & I). apply pwa_cell in I.
      destruct I as (r & s & N & M & -> & E). exists r. split; [exact N|]. split; [reflexivity|]. split; [exact E|].
      intros x. cbn [fst]. unfold T_Prop2part.inside. rewrite pts_inter, andb_true_iff. tauto.
    - apply fop_map. unfold pwa_cells. apply fop_flat.
      + intros [i s] I. apply fop_flat.
        * intros [j r] J. cbn [fst snd]. destruct (fulldim (inter (fst r) s)); [constructor; [apply Forall_nil|constructor]|constructor].
        * pose proof (fop_enumerate _ _ (part_disjoint _ _ _ _ _ _ part)) as D. revert D. apply fop_impl.
          intros [j r] [k t] _ _ [_ D] c d A B. cbn [fst snd] in *.
          destruct (fulldim (inter (fst r) s)); [|destruct A]. destruct A as [<- | []].
          destruct (fulldim (inter (fst t) s)); [|destruct B]. destruct B as [<- | []]. cbn [fst].
          apply (null_sub _ _ D). unfold T_Prop2part.inside. intros x. rewrite !pts_inter, !andb_true_iff. tauto.
      + pose proof (fop_enumerate _ _ O) as D. revert D. apply fop_impl. intros [i s] [k t] _ _ [_ D] c d A B. cbn [fst snd] in *.
        apply in_flat_map in A, B. destruct A as ([j r] & _ & A), B as ([j' r'] & _ & B). cbn [fst snd] in *.
        destruct (fulldim (inter (fst r) s)); [|destruct A]. destruct A as [<- | []].
        destruct (fulldim (inter (fst r') t)); [|destruct B]. destruct B as [<- | []]. cbn [fst].
        apply (null_sub _ _ D). unfold T_Prop2part.inside. intros x. rewrite !pts_inter, !andb_true_iff. tauto.
    - intros j r N.
      apply (null_sub _ (fun x => (inside (diff (p_domain p) sys_domain) x \/ (inside sys_domain x /\ forall s, In s subs -> ~ inside s x)) \/
        exists s, In s subs /\ (fulldim (inter (fst r) s) = false /\ inside (inter (fst r) s) x))).
      + apply null_union; [apply null_union; [apply full, F|exact covered]|].
        apply (null_Union (fun s x => fulldim (inter (fst r) s) = false /\ inside (inter (fst r) s) x)). intros s I.
        destruct (fulldim (inter (fst r) s)) eqn:E.
        * apply (null_sub _ (fun _ => False)); [exact null_empty|]. intros x [A _]. discriminate.
        * apply (null_sub _ (inside (inter (fst r) s))); [apply full, E|]. tauto.
      + intros x [A B]. destruct (inside_dec (fun s => s) x subs) as [(s & I & J) | D].
        * right. exists s. split; [exact I|]. apply In_nth_error in I. destruct I as [i I].
          assert (Y : inside (inter (fst r) s) x) by (unfold T_Prop2part.inside in *; rewrite pts_inter, A, J; reflexivity).
          split; [|exact Y]. destruct (fulldim (inter (fst r) s)) eqn:E; [|reflexivity]. exfalso.
          apply (B (inter (fst r) s, snd r)); [|exact Y]. apply in_map_iff. exists (inter (fst r) s, snd r, j, i). split; [reflexivity|].
          apply pwa_cell. exists r, s. auto.
        * left. destruct (pts sys_domain x) eqn:Y; [right; split; [exact Y|exact D]|left].
          apply diff_covers; [|exact Y]. apply (part_in _ _ _ _ _ _ part r x); [eapply nth_error_In, N|exact A]. }
  rewrite (make_ppp_ok _ _ _ _ props Q has_props). cbn [bind]. do 3 eexists. split; [reflexivity|].
  cbn [p_regions p_domain p_props p_adj]. split; [exact Q|]. split; [reflexivity|]. split; [reflexivity|].
  rewrite !map_length. split; [reflexivity|]. split; [reflexivity|]. split; [|split].
  - intros k c N. rewrite nth_error_map in N. destruct (nth_error cells k) as [[[c' j] i]|] eqn:E; [|discriminate]. cbn [option_map fst] in N. injection N as <-.
    destruct (proj1 (pwa_cell c' j i) (nth_error_In _ _ E)) as (r & s & A & B & -> & G).
    exists i, j, r, s. split; [exact (map_nth_error snd k cells E)|]. split; [exact (map_nth_error (fun c => snd (fst c)) k cells E)|]. split; [exact B|]. split; [exact A|]. split; [reflexivity|].
    intro x. cbn [fst]. unfold T_Prop2part.inside. rewrite pts_inter, andb_true_iff. reflexivity.
  - intros i j r s A B G. assert (I : In (inter (fst r) s, snd r, j, i) cells) by (apply pwa_cell; exists r, s; auto).
    apply In_nth_error in I. destruct I as [k I]. exists k.
    split; [exact (map_nth_error snd k cells I)|exact (map_nth_error (fun c => snd (fst c)) k cells I)].
  - eexists. split; [reflexivity|]. intros a b. rewrite pwa_adj_iff, map_length.
    apply and_iff_compat_l. apply and_iff_compat_l. apply or_iff_compat_l. rewrite and_comm. apply and_iff_compat_l.
    unfold adj_entry. rewrite !nth_error_map.
    destruct (nth_error cells (Nat.max a b)) as [[[c j] i]|]; cbn [option_map fst snd]; [|split; [discriminate|intros (c & d & i & j & [=] & _)]].
    destruct (nth_error cells (Nat.min a b)) as [[[d j'] i']|]; cbn [option_map fst snd]; [|split; [discriminate|intros (c' & d & i' & j' & _ & [=] & _)]].
    rewrite andb_true_iff, orb_true_iff, Nat.eqb_eq. split.
    + intros [A B]. exists c, d, j, j'. auto 7.
    + intros (c' & d' & i1 & j1 & [= <-] & [= <-] & [= <-] & [= <-] & A & B). auto.
Qed.
End Pwa.
Theorem pwa_uncovered touch sys_domain subs p : fulldim (diff (p_domain p) sys_domain) = true ->
  pwa_partition inter diff fulldim le touch sys_domain subs p = Err "Exception".
Proof. intro F. unfold pwa_partition. rewrite F. reflexivity. Qed.

(** ** [part2convex] *)
(** The convex parts of a region with volume make it up, they overlap in null sets only and have volume. *)
Theorem part2convex_refines find_adjacent convex p props : partition (p_domain p) props (p_regions p) -> p_props p = Some props ->
  (forall r c x, fulldim r = true -> In c (convex r) -> inside c x -> inside r x) ->
  (forall r, fulldim r = true -> null (fun x => inside r x /\ forall c, In c (convex r) -> ~ inside c x)) ->
  (forall r, fulldim r = true -> ForallOrdPairs (fun c d => null (fun x => inside c x /\ inside d x)) (convex r)) ->
  (forall r c, fulldim r = true -> In c (convex r) -> fulldim c = true) ->
  exists q new2old, part2convex le find_adjacent convex p = Ok (q, new2old) /\
    partition (p_domain p) props (p_regions q) /\ p_domain q = p_domain p /\ p_props q = p_props p /\ p_adj q = Some (find_adjacent (p_regions q)) /\
    List.length new2old = List.length (p_regions q) /\
    (forall k c, nth_error (p_regions q) k = Some c -> exists j r, nth_error new2old k = Some j /\ nth_error (p_regions p) j = Some r /\
       snd c = snd r /\ In (fst c) (convex (fst r))).
Proof.
  intros part Pp C0 C1 C2 C3. unfold part2convex.
  assert (FD : forall j r, nth_error (p_regions p) j = Some r -> fulldim (fst r) = true) by (intros j r N; apply (part_full _ _ _ _ _ _ part r), (nth_error_In _ _ N)).
  set (cells := flat_map (fun ir : nat * @region R => map (fun c => ((c, snd (snd ir)), fst ir)) (convex (fst (snd ir)))) (enumerate (p_regions p))).
  assert (CI : forall c j, In (c, j) cells <-> exists r, nth_error (p_regions p) j = Some r /\ snd c = snd r /\ In (fst c) (convex (fst r))).
  { intros c j. unfold cells. rewrite in_flat_map. split.
    - intros ([j' r] & I & J). apply in_map_iff in J. destruct J as (c' & [= <- <-] & J). cbn [fst snd] in *. apply enumerate_iff in I. exists r. auto.
    - intros (r & N & E & I). exists (j, r). split; [apply enumerate_iff, N|]. cbn [fst snd]. apply in_map_iff. exists (fst c). split; [|exact I].
      rewrite <- E. destruct c. reflexivity. }
  assert (Q : partition (p_domain p) props (map fst cells)).
  { apply (refine_partition (p_domain p) props (p_regions p) cells part).
    - intros c j I. apply CI in I. destruct I as (r & N & E & I). exists r. split; [exact N|]. split; [exact E|]. split; [apply (C3 (fst r) _ (FD j r N)), I|].
      intros x A. apply (C0 _ (fst c) x (FD j r N) I A).
    - unfold cells. apply fop_flat.
      + intros [j r] I. apply fop_map. cbn [fst snd]. apply C2. apply enumerate_iff in I. exact (FD j r I).
      + pose proof (fop_enumerate _ _ (part_disjoint _ _ _ _ _ _ part)) as D. revert D. apply fop_impl.
        intros [j r] [k t] I J [_ D] c d A B. apply enumerate_iff in I, J. apply in_map_iff in A, B. destruct A as (a & <- & A), B as (b & <- & B). cbn [fst snd] in *.
        apply (null_sub _ _ D). intros x [U V]. split; [apply (C0 _ a x (FD j r I) A U)|apply (C0 _ b x (FD k t J) B V)].
    - intros j r N. apply (null_sub _ _ (C1 (fst r) (FD j r N))). intros x [A B]. split; [exact A|]. intros c I. apply (B (c, snd r)). apply CI. exists r. auto. }
  unfold make_ppp. cbn [forallb]. rewrite Pp. unfold is_symbolic. cbn [forallb bind p_domain p_props].
  do 2 eexists. split; [reflexivity|]. cbn [p_regions p_domain p_props p_adj]. split; [exact Q|].
  split; [reflexivity|]. split; [congruence|]. split; [reflexivity|]. split.
  - rewrite !map_length. reflexivity.
  - intros k c N. apply nth_map_inv in N. destruct N as ([c' j] & E & <-). cbn [fst].
    destruct (proj1 (CI c' j) (nth_error_In _ _ E)) as (r & A & B & D). exists j, r. split; [exact (map_nth_error snd k cells E)|]. auto.
Qed.

(** ** [add_grid] *)
Section Grid.
Context (touch : @region R -> @region R -> bool) (box2poly : list (Q * Q) -> R) (radius : R -> Q) (coords : X -> list Q).
Context (p : ppp R) (props : list (string * R)) (adj : matrix) (lows highs : list Q) (grid_size num : garg) (tol : Q) (sizes : list Q).
Definition between (lh : Q * Q) (c : Q) : Prop := (fst lh <= c <= snd lh)%Q.
(** A box holds the points whose coordinates are between its bounds; boxes that share at most a
    face overlap in a null set. *)
Hypothesis box_ok : forall b x, inside (box2poly b) x <-> Forall2 between b (coords x).
Hypothesis box_flat : forall b c k l m, nth_error b k = Some l -> nth_error c k = Some m -> (snd l <= fst m)%Q ->
  null (fun x => inside (box2poly b) x /\ inside (box2poly c) x).
Hypothesis part : partition (p_domain p) props (p_regions p).
Hypothesis has_props : p_props p = Some props.
Hypothesis has_adj : p_adj p = Some adj.
Hypothesis dims : 2 <= List.length lows.
Hypothesis same_dims : List.length highs = List.length lows.
Hypothesis bounding : forall x, inside (p_domain p) x -> Forall2 between (combine lows highs) (coords x).
Hypothesis sizes_ok : grid_sizes lows highs grid_size num = Ok sizes.
Hypothesis positive : Forall (fun s => (0 < s)%Q) sizes.
Hypothesis tol_ok : (0 <= tol)%Q.

Lemma mapr_length {A B} (f : A -> res B) : forall l l', mapr f l = Ok l' -> List.length l' = List.length l.
Proof.
  induction l as [|a l IH]; intros l' H; cbn [mapr] in H; [injection H as <-; reflexivity|].
  destruct (f a); cbn [bind] in H; [|discriminate]. destruct (mapr f l) eqn:E; cbn [bind] in H; [|discriminate].
  injection H as <-. cbn [List.length]. rewrite (IH _ eq_refl). reflexivity.
Qed.
Lemma sizes_length : List.length sizes = List.length lows.
Proof.
  pose proof sizes_ok as H. unfold grid_sizes in H. destruct grid_size as [|[z|q]|l|]; try discriminate.
  - destruct num as [|g|l|]; try discriminate.
    + apply mapr_length in H. rewrite H, combine_length, same_dims. lia.
    + destruct (Nat.eqb (List.length l) (List.length lows)) eqn:E; [|discriminate]. apply Nat.eqb_eq in E.
      apply mapr_length in H. rewrite H, !combine_length, same_dims. lia.
  - destruct num; try discriminate. injection H as <-. apply map_length.
  - destruct num; try discriminate. destruct (Nat.eqb (List.length l) (List.length lows)) eqn:E; [|discriminate]. apply Nat.eqb_eq in E.
    injection H as <-. rewrite map_length. exact E.
Qed.
Definition tiled (d : Q * Q * Q) (l : list box) : Prop := tiles (snd (fst d)) (snd d) tol (fst (fst d)) l.
Lemma grid_intervals_ok : forall ds, Forall (fun d => (0 < snd d)%Q) ds ->
  exists n ls, (forall fuel, n <= fuel -> grid_intervals fuel tol ds = Some ls) /\ Forall2 tiled ds ls.
Proof.
  induction ds as [|[[lo hi] sz] ds IH]; intro F.
  - exists 0, []. split; [reflexivity|constructor].
  - pose proof (Forall_inv F) as P. apply Forall_inv_tail in F. cbn [snd] in P. destruct (IH F) as (n & ls & A & B).
    destruct (compute_interval_tiles lo hi sz tol P tol_ok) as (m & l & C & D).
    exists (Nat.max n m), (l :: ls). split; [|constructor; assumption]. intros fuel L. cbn [grid_intervals].
    rewrite C, A by lia. reflexivity.
Qed.
Lemma choices_In {A} : forall (ls : list (list A)) cs, In cs (choices ls) <-> Forall2 (@In A) cs ls.
Proof.
  induction ls as [|l ls IH]; intro cs; cbn [choices].
  - split; [intros [<- | []]; constructor|]. intro H. inversion H. left. reflexivity.
  - rewrite in_flat_map. split.
    + intros (x & I & J). apply in_map_iff in J. destruct J as (c & <- & J). constructor; [exact I|]. apply IH, J.
    + intro H. inversion H as [|x l' c ls' I J]; subst. exists x. split; [exact I|]. apply in_map, IH, J.
Qed.
Definition sides (b : box) : Q * Q := match b with [x; y] => (x, y) | _ => (0, 0)%Q end.
Definition is_pair (b : box) : Prop := exists x y, b = [x; y].
Lemma pair_up_concat : forall cs, Forall is_pair cs -> pair_up (List.concat cs) = map sides cs.
Proof.
  induction cs as [|c cs IH]; intro F; [reflexivity|]. pose proof (Forall_inv F) as (x & y & ->). apply Forall_inv_tail in F.
  cbn [List.concat app pair_up map sides]. rewrite IH by exact F. reflexivity.
Qed.
Lemma tiles_pairs high size low l : tiles high size tol low l ->
  forall b, In b l -> is_pair b /\ (snd (sides b) - fst (sides b) <= size + tol)%Q.
Proof.
  intro H. induction H as [low H|low b l B C H IH].
  - intros b [<- | []]. split; [exists low, high; reflexivity|]. cbn [sides fst snd]. lra.
  - intros c [<- | I]; [|apply IH, I]. split; [exists low, b; reflexivity|]. cbn [sides fst snd]. lra.
Qed.
Lemma choices_pairs : forall ds ls cs, Forall2 tiled ds ls -> In cs (choices ls) ->
  Forall is_pair cs /\ Forall2 (fun b d => snd (sides b) - fst (sides b) <= snd d + tol)%Q cs ds.
Proof.
  induction ds as [|d ds IH]; intros ls cs H I; inversion H as [|? l ? ls' T H']; subst; apply choices_In in I; inversion I as [|c ? cs' ? J J']; subst.
  - split; constructor.
  - destruct (IH ls' cs' H' (proj2 (choices_In _ _) J')) as [A B]. destruct (tiles_pairs _ _ _ _ T c J) as [C D].
    split; constructor; assumption.
Qed.
Lemma choices_cover : forall ds ls cx, Forall (fun d => (0 < snd d)%Q) ds -> Forall2 tiled ds ls -> Forall2 between (map fst ds) cx ->
  exists cs, In cs (choices ls) /\ Forall2 between (map sides cs) cx.
Proof.
  induction ds as [|d ds IH]; intros ls cx P H B; inversion H as [|? l ? ls' T H']; subst; cbn [map] in B; inversion B as [|? c ? cx' B1 B2]; subst.
  - exists []. split; [left; reflexivity|constructor].
  - pose proof (Forall_inv P) as P1. apply Forall_inv_tail in P. destruct (IH ls' cx' P H' B2) as (cs & I & K).
    destruct (tiles_cover _ _ _ _ _ P1 tol_ok T) as [V _]. unfold between in B1. destruct (V c B1) as (x & y & J & Z).
    exists ([x; y] :: cs). split; [apply choices_In; constructor; [exact J|apply choices_In, I]|].
    cbn [map sides]. constructor; [exact Z|exact K].
Qed.
Lemma sides_map : forall cs (dl : list (Q * Q * Q)), Forall2 (fun b d => snd (sides b) - fst (sides b) <= snd d + tol)%Q cs dl ->
  Forall2 (fun lh s => snd lh - fst lh <= s + tol)%Q (map sides cs) (map snd dl).
Proof. intros cs dl W. induction W; cbn [map]; constructor; auto. Qed.
(** Two boxes of a grid are separated in some dimension. *)
Definition apart (b c : list box) : Prop := exists k l m, nth_error (map sides b) k = Some l /\ nth_error (map sides c) k = Some m /\ (snd l <= fst m)%Q.
Lemma choices_apart : forall ds ls, Forall (fun d => (0 < snd d)%Q) ds -> Forall2 tiled ds ls -> ForallOrdPairs apart (choices ls).
Proof.
  induction ds as [|d ds IH]; intros ls P H; inversion H as [|? l ? ls' T H']; subst; cbn [choices]; [repeat constructor|].
  pose proof (Forall_inv P) as P1. apply Forall_inv_tail in P. specialize (IH ls' P H').
  apply fop_flat.
  - intros x _. apply fop_map. revert IH. apply fop_impl. intros b c _ _ (k & u & v & A & B & C). exists (S k), u, v. auto.
  - destruct (tiles_cover _ _ _ _ _ P1 tol_ok T) as [_ V]. revert V. apply fop_impl.
    intros b c _ _ (x & y & x' & y' & -> & -> & L) b' c' I J. apply in_map_iff in I, J. destruct I as (b2 & <- & _), J as (c2 & <- & _).
    exists 0, (x, y), (x', y'). auto.
Qed.

Notation ds := (combine (combine lows highs) sizes).
Lemma ds_positive : Forall (fun d => (0 < snd d)%Q) ds.
Proof.
  apply Forall_forall. intros [lh s] I. apply in_combine_r in I. cbn [snd]. rewrite Forall_forall in positive. apply positive, I.
Qed.
Lemma ds_fst : map fst ds = combine lows highs.
Proof.
  pose proof sizes_length as L. revert L. generalize sizes. clear - same_dims.
  assert (E : List.length (combine lows highs) = List.length lows) by (rewrite combine_length, same_dims; lia).
  rewrite <- E. generalize (combine lows highs). clear. induction l as [|a l IH]; intros [|s ss] H; cbn in H |- *; try discriminate; [reflexivity|].
  rewrite IH by lia. reflexivity.
Qed.
Theorem add_grid_refines : exists n q parents, (forall fuel, n <= fuel ->
    add_grid inter le touch box2poly radius fuel lows highs p grid_size num tol = Some (Ok (q, parents))) /\
  p_domain q = p_domain p /\ p_props q = p_props p /\ List.length parents = List.length (p_regions q) /\
  (** every cell is the part of its parent in a box of at most the size asked for, and not too small *)
  (forall k c, nth_error (p_regions q) k = Some c -> exists j r b,
     nth_error parents k = Some j /\ nth_error (p_regions p) j = Some r /\ snd c = snd r /\
     (forall x, inside (fst c) x <-> inside (box2poly b) x /\ inside (fst r) x) /\
     Forall2 (fun lh s => snd lh - fst lh <= s + tol)%Q b sizes /\ (tol / 2 < radius (fst c))%Q) /\
  (** cells overlap in null sets only *)
  ForallOrdPairs (fun c d => null (fun x => inside (fst c) x /\ inside (fst d) x)) (p_regions q) /\
  (** what is missing of a region lies in parts that are too small *)
  (forall j r x, nth_error (p_regions p) j = Some r -> inside (fst r) x ->
     (exists k c, nth_error (p_regions q) k = Some c /\ nth_error parents k = Some j /\ inside (fst c) x) \/
     (exists b, inside (inter (box2poly b) (fst r)) x /\ (radius (inter (box2poly b) (fst r)) <= tol / 2)%Q)) /\
  (** if the test for small parts is the test for null sets, the result is a partition *)
  ((forall r, (radius r <= tol / 2)%Q <-> null (inside r)) -> partition (p_domain p) props (p_regions q)) /\
  (exists m, p_adj q = Some m /\ forall a b, m a b = true <->
     a < List.length (p_regions q) /\ b < List.length (p_regions q) /\
     (a = b \/ a <> b /\ exists c d i j, nth_error (p_regions q) (Nat.min a b) = Some c /\ nth_error (p_regions q) (Nat.max a b) = Some d /\
        nth_error parents (Nat.min a b) = Some i /\ nth_error parents (Nat.max a b) = Some j /\ touch c d = true /\ (adj i j = true \/ i = j))).
Proof.
  destruct (grid_intervals_ok ds ds_positive) as (n & ls & G & T).
  assert (Lls : 2 <= List.length ls).
  { assert (E : List.length ds = List.length ls) by (clear - T; induction T; cbn; congruence).
    rewrite <- E, !combine_length, sizes_length, same_dims. lia. }
  pose proof (grid_boxes_choices ls Lls) as GB.
  set (boxes := map (@List.concat Q) (choices ls)) in *.
  set (cells := grid_cells inter box2poly radius tol boxes (p_regions p)).
  assert (CI : forall c j, In (c, j) cells <-> exists r cs, In cs (choices ls) /\ nth_error (p_regions p) j = Some r /\
     c = (inter (box2poly (map sides cs)) (fst r), snd r) /\ (tol / 2 < radius (fst c))%Q).
  { intros c j. unfold cells, grid_cells. rewrite in_flat_map. unfold boxes. split.
    - intros (b & I & J). apply in_map_iff in I. destruct I as (cs & <- & I). apply in_flat_map in J. destruct J as ([j' r] & J & K). cbn [fst snd] in K.
      apply enumerate_iff in J. rewrite pair_up_concat in K by (apply (choices_pairs _ _ _ T I)).
      destruct (Qle_bool _ _) eqn:E; [destruct K|]. destruct K as [[= <- <-] | []]. exists r, cs. split; [exact I|]. split; [exact J|]. split; [reflexivity|].
      cbn [fst]. apply Qnot_le_lt. intro A. apply Qle_bool_iff in A. congruence.
    - intros (r & cs & I & N & -> & L). exists (List.concat cs). split; [apply in_map, I|]. apply in_flat_map. exists (j, r). split; [apply enumerate_iff, N|].
      cbn [fst snd]. rewrite pair_up_concat by (apply (choices_pairs _ _ _ T I)). cbn [fst] in L.
      destruct (Qle_bool _ _) eqn:E; [|left; reflexivity]. apply Qle_bool_iff in E. exfalso. apply (Qlt_not_le _ _ L E). }
  assert (In_ok : forall c j, In (c, j) cells -> exists r, nth_error (p_regions p) j = Some r /\ snd c = snd r /\ forall x, inside (fst c) x -> inside (fst r) x).
  { intros c j I. apply CI in I. destruct I as (r & cs & _ & N & -> & _). exists r. split; [exact N|]. split; [reflexivity|]. intro x.
    cbn [fst]. unfold T_Prop2part.inside. rewrite pts_inter, andb_true_iff. tauto. }
  assert (Disj : ForallOrdPairs (fun c d => null (fun x => inside (fst (fst c)) x /\ inside (fst (fst d)) x)) cells).
  { unfold cells, grid_cells. apply fop_flat.
    - intros b _. apply fop_flat.
      + intros [j r] _. cbn [fst snd]. destruct (Qle_bool _ _); [constructor|constructor; [apply Forall_nil|constructor]].
      + pose proof (fop_enumerate _ _ (part_disjoint _ _ _ _ _ _ part)) as D. revert D. apply fop_impl.
        intros [j r] [k t] _ _ [_ D] c d A B. cbn [fst snd] in *.
        destruct (Qle_bool (radius (inter (box2poly (pair_up b)) (fst r))) (tol / 2)); [destruct A|]. destruct A as [<- | []].
        destruct (Qle_bool (radius (inter (box2poly (pair_up b)) (fst t))) (tol / 2)); [destruct B|]. destruct B as [<- | []]. cbn [fst].
        apply (null_sub _ _ D). unfold T_Prop2part.inside. intros x. rewrite !pts_inter, !andb_true_iff. tauto.
    - unfold boxes. apply fop_map.
      pose proof (choices_apart ds ls ds_positive T) as V. revert V. apply fop_impl. intros b c Ib Ic (k & l & m & A & B & C) u v U W.
      apply in_flat_map in U, W. destruct U as ([j r] & _ & U), W as ([j' r'] & _ & W). cbn [fst snd] in *.
      destruct (Qle_bool (radius (inter _ (fst r))) _) in U; [destruct U|]. destruct U as [<- | []].
      destruct (Qle_bool (radius (inter _ (fst r'))) _) in W; [destruct W|]. destruct W as [<- | []]. cbn [fst].
      rewrite !pair_up_concat by (first [apply (choices_pairs _ _ _ T Ib)|apply (choices_pairs _ _ _ T Ic)]).
      apply (null_sub _ _ (box_flat _ _ _ _ _ A B C)). unfold T_Prop2part.inside. intros x. rewrite !pts_inter, !andb_true_iff. tauto. }
  assert (Cov : forall j r x, nth_error (p_regions p) j = Some r -> inside (fst r) x ->
     (exists c, In (c, j) cells /\ inside (fst c) x) \/
     (exists cs, In cs (choices ls) /\ inside (inter (box2poly (map sides cs)) (fst r)) x /\ (radius (inter (box2poly (map sides cs)) (fst r)) <= tol / 2)%Q)).
  { intros j r x N I. pose proof (part_in _ _ _ _ _ _ part r x (nth_error_In _ _ N) I) as D. apply bounding in D. rewrite <- ds_fst in D.
    destruct (choices_cover ds ls (coords x) ds_positive T D) as (cs & Ic & K). apply box_ok in K.
    assert (Y : inside (inter (box2poly (map sides cs)) (fst r)) x) by (unfold T_Prop2part.inside in *; rewrite pts_inter, K, I; reflexivity).
    destruct (Qlt_le_dec (tol / 2) (radius (inter (box2poly (map sides cs)) (fst r)))) as [L|L].
    - left. exists (inter (box2poly (map sides cs)) (fst r), snd r). split; [|exact Y]. apply CI. exists r, cs. auto.
    - right. exists cs. auto. }
  assert (MK : make_ppp le (p_domain p) (map fst cells) (Some (grid_adj touch adj cells)) (p_props p) =
     Ok (PPP (p_domain p) (map fst cells) (Some (grid_adj touch adj cells)) (p_props p))).
  { unfold make_ppp. replace (forallb _ (map fst cells)) with true.
    - rewrite has_props. unfold is_symbolic. replace (forallb _ (map fst cells)) with true; [reflexivity|].
      symmetry. apply forallb_forall. intros c I. apply in_map_iff in I. destruct I as ([c' j] & <- & I). cbn [fst].
      destruct (In_ok c' j I) as (r & N & E & _). unfold subset. apply forallb_forall. intros q J. apply mem_In. rewrite E in J.
      apply (part_names _ _ _ _ _ _ part r q (nth_error_In _ _ N) J).
    - symmetry. apply forallb_forall. intros c I. apply in_map_iff in I. destruct I as ([c' j] & <- & I). cbn [fst].
      destruct (In_ok c' j I) as (r & N & _ & S). apply le_ok. intros x J. apply (part_in _ _ _ _ _ _ part r x (nth_error_In _ _ N)). apply S, J. }
  exists n, (PPP (p_domain p) (map fst cells) (Some (grid_adj touch adj cells)) (p_props p)), (map snd cells).
  split; [|cbn [p_regions p_domain p_props p_adj]; split; [reflexivity|split; [reflexivity|split; [rewrite !map_length; reflexivity|split; [|split; [|split; [|split]]]]]]].
  - intros fuel L. unfold add_grid. rewrite sizes_ok, (G fuel L), GB. cbn [bind]. rewrite has_adj. cbn [bind].
    fold cells. rewrite MK. reflexivity.
  - intros k c N. apply nth_map_inv in N. destruct N as ([c' j] & E & <-). cbn [fst].
    destruct (proj1 (CI c' j) (nth_error_In _ _ E)) as (r & cs & I & A & -> & L). exists j, r, (map sides cs).
    split; [exact (map_nth_error snd k cells E)|]. split; [exact A|]. split; [reflexivity|]. split; [|split; [|exact L]].
    + intro x. cbn [fst]. unfold T_Prop2part.inside. rewrite pts_inter, andb_true_iff. reflexivity.
    + destruct (choices_pairs _ _ _ T I) as [_ W]. pose proof sizes_length as SL. clear - W SL same_dims.
      assert (E : map snd ds = sizes).
      { revert SL. clear W. generalize sizes.
        assert (E : List.length (combine lows highs) = List.length lows) by (rewrite combine_length, same_dims; lia).
        rewrite <- E. generalize (combine lows highs). clear. induction l as [|a l IH]; intros [|s ss] H; cbn in H |- *; try discriminate; [reflexivity|].
        rewrite IH by lia. reflexivity. }
      rewrite <- E. apply sides_map, W.
  - apply fop_map. exact Disj.
  - intros j r x N I. destruct (Cov j r x N I) as [(c & J & K) | (cs & _ & J & K)]; [left|right; exists (map sides cs); auto].
    apply In_nth_error in J. destruct J as [k J]. exists k, c. split; [exact (map_nth_error fst k cells J)|]. split; [exact (map_nth_error snd k cells J)|exact K].
  - intro Thin. apply (refine_partition (p_domain p) props (p_regions p) cells part).
    + intros c j I. destruct (In_ok c j I) as (r & N & E & S). exists r. split; [exact N|]. split; [exact E|]. split; [|exact S].
      apply CI in I. destruct I as (r' & cs & _ & _ & _ & L). destruct (fulldim (fst c)) eqn:F; [reflexivity|]. apply full in F. apply Thin in F.
      exfalso. apply (Qlt_not_le _ _ L F).
    + exact Disj.
    + intros j r N. apply (null_sub _ (fun x => exists cs, In cs (choices ls) /\ (radius (inter (box2poly (map sides cs)) (fst r)) <= tol / 2)%Q /\ inside (inter (box2poly (map sides cs)) (fst r)) x)).
      * apply (null_Union (fun cs x => (radius (inter (box2poly (map sides cs)) (fst r)) <= tol / 2)%Q /\ inside (inter (box2poly (map sides cs)) (fst r)) x)).
        intros cs _. destruct (Qlt_le_dec (tol / 2) (radius (inter (box2poly (map sides cs)) (fst r)))) as [L|L].
        -- apply (null_sub _ (fun _ => False)); [exact null_empty|]. intros x [A _]. apply (Qlt_not_le _ _ L A).
        -- apply Thin in L. apply (null_sub _ _ L). tauto.
      * intros x [I B]. destruct (Cov j r x N I) as [(c & J & K) | (cs & J & K & L)]; [exfalso; apply (B c J K)|]. exists cs. auto.
  - eexists. split; [reflexivity|]. intros a b. rewrite grid_adj_iff, map_length.
    apply and_iff_compat_l. apply and_iff_compat_l. apply or_iff_compat_l. rewrite and_comm. apply and_iff_compat_l.
    unfold adj_entry. split.
    + destruct (nth_error cells (Nat.min a b)) as [[c j]|] eqn:E1; [|discriminate]. destruct (nth_error cells (Nat.max a b)) as [[d j']|] eqn:E2; [|discriminate].
      rewrite andb_true_iff, orb_true_iff, Nat.eqb_eq. intros [A B]. exists c, d, j, j'.
      split; [exact (map_nth_error fst _ cells E1)|]. split; [exact (map_nth_error fst _ cells E2)|].
      split; [exact (map_nth_error snd _ cells E1)|]. split; [exact (map_nth_error snd _ cells E2)|]. auto.
    + intros (c & d & i & j & A & B & C & D & E & F). apply nth_map_inv in A, B, C, D.
      destruct A as ([c1 i1] & A1 & A2), B as ([d1 j1] & B1 & B2), C as ([c2 i2] & C1 & C2), D as ([d2 j2] & D1 & D2). cbn [fst snd] in *.
      rewrite A1, B1. assert (i1 = i2) by congruence. assert (j1 = j2) by congruence. subst. rewrite E, andb_true_r, orb_true_iff, Nat.eqb_eq. exact F.
Qed.
End Grid.
End Refine.

(** ** Cases *)
(** Overlapping subsystems: two cells are the same set of points, so the subsystem is not unique. *)
Definition pt_partition : ppp pt_R := PPP [0; 2; 4] [([0; 2; 4], @nil string)] (Some (fun _ _ => true)) (Some []).
Theorem pwa_overlap_refuted : exists q s t,
  pwa_partition pt_inter pt_diff pt_fulldim pt_le (fun _ _ => true) [0; 2; 4] [[0; 2]; [2; 4]] pt_partition = Ok (q, s, t) /\
  p_regions q = [([0; 2], []); ([2; 4], [])] /\ ~ pt_null (fun x => pt_pts [0; 2] x = true /\ pt_pts [2; 4] x = true).
Proof.
  do 3 eexists. split; [vm_compute; reflexivity|]. split; [reflexivity|]. intro N. specialize (N 2 (Logic.conj eq_refl eq_refl)). discriminate.
Qed.
Lemma pt_partition_ok : partition pt_fulldim pt_pts pt_null (p_domain pt_partition) [] (p_regions pt_partition).
Proof. apply (partition_start pt_fulldim pt_pts pt_null pt_null_sub pt_null_empty). reflexivity. Qed.
Example pwa_example : exists q s t,
  pwa_partition pt_inter pt_diff pt_fulldim pt_le (fun _ _ => true) [0; 2; 4] [[0; 2; 3]; [3; 4]] pt_partition = Ok (q, s, t) /\
  p_regions q = [([0; 2], []); ([4], [])] /\ s = [0; 1] /\ t = [0; 0] /\
  partition pt_fulldim pt_pts pt_null [0; 2; 4] [] (p_regions q).
Proof.
  destruct (pwa_partition_refines pt_inter pt_diff pt_fulldim pt_le pt_pts pt_null pt_null_sub pt_null_empty pt_null_union pt_pts_inter pt_diff_covers pt_full pt_le_ok
    (fun _ _ => true) [0; 2; 4] [[0; 2; 3]; [3; 4]] pt_partition [] (fun _ _ => true) pt_partition_ok eq_refl eq_refl) as (q & s & t & E & P & _).
  - intros x [A B]. exfalso. unfold inside in *. apply pt_pts_In in A. destruct A as [<- | [<- | [<- | []]]].
    + apply (B [0; 2; 3]); [left; reflexivity|reflexivity].
    + apply (B [0; 2; 3]); [left; reflexivity|reflexivity].
    + apply (B [3; 4]); [right; left; reflexivity|reflexivity].
  - reflexivity.
  - constructor; [|repeat constructor]. constructor; [|constructor]. intros x [A B]. unfold inside in *. apply pt_pts_In in A, B.
    destruct A as [<- | [<- | [<- | []]]]; cbn in B; intuition (try discriminate; try reflexivity).
  - exists q, s, t. split; [exact E|]. vm_compute in E. injection E as <- <- <-. split; [reflexivity|]. split; [reflexivity|]. split; [reflexivity|exact P].
Qed.
(** Rectangles in the plane: null sets are those covered by finitely many vertical and horizontal
    lines. *)
Definition rect : Type := ((Q * Q) * (Q * Q))%type.
Definition in_range (lh : Q * Q) (z : Q) : bool := Qle_bool (fst lh) z && Qle_bool z (snd lh).
Definition rc_pts (r : rect) (x : Q * Q) : bool := in_range (fst r) (fst x) && in_range (snd r) (snd x).
Definition meet (l m : Q * Q) : Q * Q :=
  (if Qle_bool (fst l) (fst m) then fst m else fst l, if Qle_bool (snd l) (snd m) then snd l else snd m).
Definition rc_inter (r s : rect) : rect := (meet (fst r) (fst s), meet (snd r) (snd s)).
Definition open_range (l : Q * Q) : bool := negb (Qle_bool (snd l) (fst l)).
Definition rc_fulldim (r : rect) : bool := open_range (fst r) && open_range (snd r).
Definition bad_range (l : Q * Q) : bool := negb (Qle_bool (fst l) (snd l)).
Definition sub_range (l m : Q * Q) : bool := Qle_bool (fst m) (fst l) && Qle_bool (snd l) (snd m).
Definition rc_le (r s : rect) : bool :=
  bad_range (fst r) || bad_range (snd r) || (sub_range (fst r) (fst s) && sub_range (snd r) (snd s)).
Definition on (cs : list Q) (z : Q) : Prop := exists c, In c cs /\ (z == c)%Q.
Definition rc_null (A : Q * Q -> Prop) : Prop := exists xs ys, forall p, A p -> on xs (fst p) \/ on ys (snd p).
Definition rc_box (b : list (Q * Q)) : rect := match b with [l; m] => (l, m) | _ => ((1, 0), (1, 0))%Q end.
Definition half (l : Q * Q) : Q := ((snd l - fst l) / 2)%Q.
Definition rc_radius (r : rect) : Q := if Qle_bool (half (fst r)) (half (snd r)) then half (fst r) else half (snd r).
Definition rc_coords (x : Q * Q) : list Q := [fst x; snd x].

Lemma in_range_iff l z : in_range l z = true <-> between l z.
Proof. unfold in_range, between. rewrite andb_true_iff, !Qle_bool_iff. reflexivity. Qed.
Lemma meet_iff l m z : between (meet l m) z <-> between l z /\ between m z.
Proof.
  unfold between, meet. cbn [fst snd].
  destruct (Qle_bool (fst l) (fst m)) eqn:A; destruct (Qle_bool (snd l) (snd m)) eqn:B;
  repeat match goal with
  | H : Qle_bool _ _ = true |- _ => apply Qle_bool_iff in H
  | H : Qle_bool ?a ?b = false |- _ => assert (b < a)%Q by (apply Qnot_le_lt; intro; assert (Qle_bool a b = true) by (apply Qle_bool_iff; assumption); congruence); clear H
  end; split; intros; lra.
Qed.
Lemma Qle_false a b : Qle_bool a b = false <-> (b < a)%Q.
Proof.
  split; intro H.
  - apply Qnot_le_lt. intro K. apply Qle_bool_iff in K. congruence.
  - destruct (Qle_bool a b) eqn:E; [|reflexivity]. apply Qle_bool_iff in E. exfalso. apply (Qlt_not_le _ _ H E).
Qed.
Lemma rc_null_sub (A B : Q * Q -> Prop) : rc_null B -> (forall x, A x -> B x) -> rc_null A.
Proof. intros (xs & ys & H) K. exists xs, ys. auto. Qed.
Lemma rc_null_empty : rc_null (fun _ => False).
Proof. exists [], []. intros p []. Qed.
Lemma on_app a b z : on a z \/ on b z -> on (a ++ b) z.
Proof. intros [(c & I & E) | (c & I & E)]; exists c; split; auto; apply in_or_app; auto. Qed.
Lemma rc_null_union A B : rc_null A -> rc_null B -> rc_null (fun x => A x \/ B x).
Proof.
  intros (xs & ys & H) (xs' & ys' & K). exists (xs ++ xs'), (ys ++ ys'). intros p [I|I].
  - destruct (H p I); [left|right]; apply on_app; auto.
  - destruct (K p I); [left|right]; apply on_app; auto.
Qed.
Lemma rc_pts_inter a b x : rc_pts (rc_inter a b) x = rc_pts a x && rc_pts b x.
Proof.
  apply eq_true_iff_eq. unfold rc_pts, rc_inter. cbn [fst snd]. rewrite !andb_true_iff, !in_range_iff, !meet_iff. tauto.
Qed.
Lemma avoid cs : forall lo hi, (lo < hi)%Q -> exists lo' hi', (lo <= lo' /\ lo' < hi' /\ hi' <= hi)%Q /\ forall c, In c cs -> ~ (lo' < c < hi')%Q.
Proof.
  induction cs as [|c cs IH]; intros lo hi L.
  - exists lo, hi. split; [lra|]. intros c [].
  - destruct (IH lo hi L) as (l & h & A & B). destruct (Qlt_le_dec l c) as [C|C]; [destruct (Qlt_le_dec c h) as [D|D]|].
    + exists l, c. split; [lra|]. intros c' [<- | I]; [lra|]. intro K. apply (B c' I). lra.
    + exists l, h. split; [lra|]. intros c' [<- | I]; [lra|apply B, I].
    + exists l, h. split; [lra|]. intros c' [<- | I]; [lra|apply B, I].
Qed.
Lemma free cs lo hi : (lo < hi)%Q -> exists z, (lo <= z <= hi)%Q /\ ~ on cs z.
Proof.
  intro L. destruct (avoid cs lo hi L) as (l & h & A & B). exists ((l + h) / 2)%Q.
  assert (M : (l < (l + h) / 2 < h)%Q) by (split; [apply Qlt_shift_div_l|apply Qlt_shift_div_r]; lra).
  split; [lra|]. intros (c & I & E). apply (B c I). rewrite <- E. exact M.
Qed.
Lemma rc_full r : rc_fulldim r = false <-> rc_null (fun x => rc_pts r x = true).
Proof.
  unfold rc_fulldim, open_range. rewrite andb_false_iff, !negb_false_iff, !Qle_bool_iff. split.
  - intros [H|H].
    + exists [fst (fst r)], []. intros p I. unfold rc_pts in I. rewrite andb_true_iff, !in_range_iff in I. unfold between in I.
      left. exists (fst (fst r)). split; [left; reflexivity|]. lra.
    + exists [], [fst (snd r)]. intros p I. unfold rc_pts in I. rewrite andb_true_iff, !in_range_iff in I. unfold between in I.
      right. exists (fst (snd r)). split; [left; reflexivity|]. lra.
  - intros (xs & ys & H). destruct (Qlt_le_dec (fst (fst r)) (snd (fst r))) as [A|A]; [|auto].
    destruct (Qlt_le_dec (fst (snd r)) (snd (snd r))) as [B|B]; [|auto]. exfalso.
    destruct (free xs _ _ A) as (x & X1 & X2). destruct (free ys _ _ B) as (y & Y1 & Y2).
    destruct (H (x, y)); [|contradiction|contradiction]. unfold rc_pts. rewrite andb_true_iff, !in_range_iff. auto.
Qed.
Lemma rc_le_ok a b : rc_le a b = true <-> (forall x, rc_pts a x = true -> rc_pts b x = true).
Proof.
  unfold rc_le, bad_range, sub_range. rewrite !orb_true_iff, !andb_true_iff, !negb_true_iff, !Qle_false, !Qle_bool_iff. split.
  - intros H x I. unfold rc_pts in *. rewrite andb_true_iff, !in_range_iff in *. unfold between in *. lra.
  - intro H. destruct (Qlt_le_dec (snd (fst a)) (fst (fst a))) as [A|A]; [auto|]. destruct (Qlt_le_dec (snd (snd a)) (fst (snd a))) as [B|B]; [auto|].
    right. pose proof (H (fst (fst a), fst (snd a))) as H1. pose proof (H (snd (fst a), snd (snd a))) as H2.
    unfold rc_pts in *. rewrite !andb_true_iff, !in_range_iff in *. unfold between in *. cbn [fst snd] in *. lra.
Qed.
Lemma rc_box_ok b x : inside rc_pts (rc_box b) x <-> Forall2 between b (rc_coords x).
Proof.
  unfold inside, rc_coords. destruct b as [|l [|m [|n b]]]; cbn [rc_box].
  - unfold rc_pts. rewrite andb_true_iff, !in_range_iff. unfold between. cbn [fst snd]. split; [intro H; lra|intro H; inversion H].
  - unfold rc_pts. rewrite andb_true_iff, !in_range_iff. unfold between at 1 2. cbn [fst snd]. split; [intro H; lra|intro H; inversion H as [|? ? ? ? _ K]; inversion K].
  - unfold rc_pts. rewrite andb_true_iff, !in_range_iff. cbn [fst snd]. split; [intros [A B]; apply Forall2_cons; [exact A|apply Forall2_cons; [exact B|apply Forall2_nil]]|].
    intro H. inversion H as [|? ? ? ? A K]; subst. inversion K; subst. auto.
  - unfold rc_pts. rewrite andb_true_iff, !in_range_iff. unfold between at 1 2. cbn [fst snd]. split; [intro H; lra|].
    intro H. inversion H as [|? ? ? ? _ K]; subst. inversion K as [|? ? ? ? _ K']; subst. inversion K'.
Qed.
Lemma rc_box_flat b c k l m : nth_error b k = Some l -> nth_error c k = Some m -> (snd l <= fst m)%Q ->
  rc_null (fun x => inside rc_pts (rc_box b) x /\ inside rc_pts (rc_box c) x).
Proof.
  intros B C L. exists [fst m], [fst m]. intros p [I J]. apply rc_box_ok in I, J. unfold rc_coords in *.
  inversion I as [|l0 ? b' ? I1 I2]; subst. inversion I2 as [|l1 ? b'' ? I3 I4]; subst. inversion I4; subst.
  inversion J as [|m0 ? c' ? J1 J2]; subst. inversion J2 as [|m1 ? c'' ? J3 J4]; subst. inversion J4; subst. unfold between in *.
  destruct k as [|[|[|k]]]; cbn in B, C; try discriminate; injection B as ->; injection C as ->.
  - left. exists (fst m). split; [left; reflexivity|]. lra.
  - right. exists (fst m). split; [left; reflexivity|]. lra.
Qed.
Lemma rc_thin r : (rc_radius r <= 0 / 2)%Q <-> rc_null (inside rc_pts r).
Proof.
  change (rc_null (inside rc_pts r)) with (rc_null (fun x => rc_pts r x = true)). rewrite <- rc_full.
  unfold rc_fulldim, open_range, rc_radius, half. rewrite andb_false_iff, !negb_false_iff, !Qle_bool_iff.
  assert (H : forall l : Q * Q, ((snd l - fst l) / 2 == (snd l - fst l) * (1 # 2))%Q) by (intro l; field).
  assert (Z : (0 / 2 == 0)%Q) by reflexivity. rewrite Z.
  destruct (Qle_bool _ _) eqn:E; [apply Qle_bool_iff in E|apply Qle_false in E]; rewrite !H in *; rewrite H in E || idtac; split; intro K; lra.
Qed.
Definition rc_square : ppp rect := PPP ((0, 1), (0, 1))%Q [(((0, 1), (0, 1))%Q, @nil string)] (Some (fun _ _ => true)) (Some []).
Example add_grid_example : exists n q parents,
  (forall fuel, n <= fuel -> add_grid rc_inter rc_le (fun _ _ => true) rc_box rc_radius fuel [0; 0]%Q [1; 1]%Q rc_square GNone (GOne (GInt 2)) 0 = Some (Ok (q, parents))) /\
  partition rc_fulldim rc_pts rc_null ((0, 1), (0, 1))%Q [] (p_regions q) /\ parents = [0; 0; 0; 0].
Proof.
  assert (P : partition rc_fulldim rc_pts rc_null (p_domain rc_square) [] (p_regions rc_square)).
  { apply (partition_start rc_fulldim rc_pts rc_null rc_null_sub rc_null_empty). reflexivity. }
  edestruct (add_grid_refines rc_inter rc_fulldim rc_le rc_pts rc_null rc_null_sub rc_null_empty rc_null_union rc_pts_inter) as
    (n & q & t & A & _ & _ & _ & _ & _ & _ & B & _); [exact rc_full|exact rc_le_ok|exact rc_box_ok|exact rc_box_flat|exact P|reflexivity|reflexivity| | | | | | |].
  7: { exists n, q, t. split; [exact A|]. split; [apply B, rc_thin|].
       assert (E : add_grid rc_inter rc_le (fun _ _ => true) rc_box rc_radius (n + 5) [0; 0]%Q [1; 1]%Q rc_square GNone (GOne (GInt 2)) 0 = Some (Ok (q, t))) by (apply A; lia).
       rewrite Nat.add_comm in E. vm_compute in E. congruence. }
  - cbn. lia.
  - reflexivity.
  - intros x I. unfold inside, rc_pts in I. rewrite andb_true_iff, !in_range_iff in I. repeat constructor; apply I.
  - reflexivity.
  - repeat constructor.
  - apply Qle_refl.
Qed.
(** A grid on a line cannot be built, whatever the partition; an integer as size is refused. *)
Theorem add_grid_line_refuted : forall (R : Type) (inter : R -> R -> R) le touch box2poly radius p,
  add_grid inter le touch box2poly radius 5 [0%Q] [1%Q] p (GOne (GFloat (1 # 2))) GNone 0 = Some (Err "UnboundLocalError").
Proof. reflexivity. Qed.
Theorem add_grid_int_refuted : forall (R : Type) (inter : R -> R -> R) le touch box2poly radius p lows highs tol fuel,
  add_grid inter le touch box2poly radius fuel lows highs p (GOne (GInt 1)) GNone tol = Some (Err "Exception").
Proof. reflexivity. Qed.
(** A list of sizes is not checked: with a negative entry the call does not return. *)
Theorem add_grid_negative_refuted : forall (R : Type) (inter : R -> R -> R) le touch box2poly radius p fuel,
  add_grid inter le touch box2poly radius fuel [0; 0]%Q [1; 1]%Q p (GList [GFloat (-1 # 2); GFloat (1 # 2)]) GNone 0 = None.
Proof.
  intros. unfold add_grid. cbn [grid_sizes List.length Nat.eqb map gnum combine grid_intervals].
  rewrite compute_interval_loops by (unfold Qle, Qlt; cbn; lia). reflexivity.
Qed.
Print Assumptions pwa_adj_iff.
Print Assumptions grid_adj_iff.
Print Assumptions pwa_partition_refines.
Print Assumptions pwa_uncovered.
Print Assumptions part2convex_refines.
Print Assumptions add_grid_refines.
Print Assumptions pwa_overlap_refuted.
Print Assumptions add_grid_line_refuted.
Print Assumptions add_grid_int_refuted.
Print Assumptions add_grid_negative_refuted.
