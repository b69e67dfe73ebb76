(** [_discretize_bi] from the partition it is given to the abstraction it returns. *)
From Coq Require Import List String Bool Arith ZArith Lia QArith Qcanon.
From Verif Require Import M_Tree M_Base S_LTL M_Dict M_Graph S_Run M_Fts T_Fts M_Part T_Prop2part T_Refine M_Discretize L_Discretize L_Ts T_Discretize.
Import ListNotations.
Open Scope string_scope.
Open Scope list_scope.
Open Scope nat_scope.

(** A path of at most [k] steps between adjacent cells out of [n] *)
Inductive hops (n : nat) (adj : matrix) : nat -> nat -> nat -> Prop :=
| hops_one a c : adj a c = true -> hops n adj 1 a c
| hops_more k a b c : hops n adj k a b -> b < n -> adj b c = true -> hops n adj (S k) a c.
Lemma within_hops n adj k : forall a c, reachable_within n (S k) adj adj a c = true <-> hops n adj (S k) a c.
Proof.
  unfold reachable_within. cbn [Nat.sub]. rewrite Nat.sub_0_r. induction k as [|k IH]; intros a c.
  - cbn [Nat.iter]. split; [constructor; assumption|intro H; inversion H as [? ? H'|? ? b ? H']; [assumption|inversion H']].
  - rewrite iter_S, bool_dot_iff. split.
    + intros (b & B & H1 & H2). apply (hops_more _ _ _ _ b); [apply IH, H1|exact B|exact H2].
    + intro H. inversion H as [|? ? b ? H1 B H2]; subst. exists b. split; [exact B|]. split; [apply IH, H1|exact H2].
Qed.

Lemma nth_error_ext' {A} : forall l m : list A, List.length l = List.length m -> (forall k, k < List.length l -> nth_error l k = nth_error m k) -> l = m.
Proof.
  induction l as [|x l IH]; intros [|y m] L H; cbn in L; try discriminate; [reflexivity|].
  assert (H0 := H 0 ltac:(cbn; lia)). cbn in H0. injection H0 as <-. f_equal. apply IH; [congruence|]. intros k K. apply (H (S k)). cbn. lia.
Qed.
Lemma mapr_nth {A B} (f : A -> res B) : forall l, (forall x, In x l -> exists y, f x = Ok y) ->
  exists m, mapr f l = Ok m /\ List.length m = List.length l /\ forall k x, nth_error l k = Some x -> exists y, f x = Ok y /\ nth_error m k = Some y.
Proof.
  induction l as [|x l IH]; intro H.
  - exists []. split; [reflexivity|]. split; [reflexivity|]. intros [|k] y; discriminate.
  - destruct (H x (or_introl eq_refl)) as (y & E). destruct IH as (m & E' & L & N); [intros z I; apply H; right; exact I|].
    exists (y :: m). cbn [mapr]. rewrite E. cbn [bind]. rewrite E'. split; [reflexivity|]. split; [cbn; congruence|].
    intros [|k] z Z; cbn [nth_error] in *; [injection Z as <-; eauto|apply N, Z].
Qed.
Lemma mapr_inv {A B} (f : A -> res B) : forall l m, mapr f l = Ok m ->
  List.length m = List.length l /\ forall k x, nth_error l k = Some x -> exists y, f x = Ok y /\ nth_error m k = Some y.
Proof.
  induction l as [|x l IH]; intros m H; cbn [mapr] in H.
  - injection H as <-. split; [reflexivity|]. intros [|k] y; discriminate.
  - destruct (f x) as [y|e] eqn:E; [|discriminate]. cbn [bind] in H. destruct (mapr f l) as [m'|e] eqn:E'; [|discriminate]. cbn [bind] in H. injection H as <-.
    destruct (IH m' eq_refl) as [L N]. split; [cbn; congruence|]. intros [|k] z Z; cbn [nth_error] in *; [injection Z as <-; eauto|apply N, Z].
Qed.

Section Abstract.
Context {R X : Type} (inter diff : R -> R -> R) (fulldim : R -> bool) (le : R -> R -> bool).
Context (pts : R -> X -> bool) (null : (X -> Prop) -> Prop).
Hypothesis null_sub : forall A B : X -> Prop, null B -> (forall x, A x -> B x) -> null A.
Hypothesis null_empty : null (fun _ => False).
Hypothesis null_union : forall A B, null A -> null B -> null (fun x => A x \/ B x).
Hypothesis pts_inter : forall a b x, pts (inter a b) x = pts a x && pts b x.
Hypothesis diff_in : forall a b x, pts (diff a b) x = true -> pts a x = true.
Hypothesis diff_covers : forall a b x, pts a x = true -> pts b x = false -> pts (diff a b) x = true.
Hypothesis diff_out : forall a b, null (fun x => pts (diff a b) x = true /\ pts b x = true).
Hypothesis full : forall r, fulldim r = false <-> null (fun x => pts r x = true).
Hypothesis le_ok : forall a b, le a b = true <-> (forall x, pts a x = true -> pts b x = true).
Notation inside := (inside pts).
Notation partition := (partition fulldim pts null).

Context (find_adjacent : list (@region R) -> matrix) (convex : R -> list R) (touch : @region R -> @region R -> bool).
Context (volume radius : R -> Qc) (separate : R -> list R).
Context (solve : option nat -> R -> R -> option R -> res R) (rd : option nat -> Qc).
Context (min_cell_volume abs_tol : Qc) (trans_length : nat) (conservative : bool).
Hypothesis separate_in : forall r c x, In c (separate r) -> inside c x -> inside r x.
Hypothesis separate_covers : forall r, null (fun x => inside r x /\ forall c, In c (separate r) -> ~ inside c x).
Hypothesis separate_disjoint : forall r, ForallOrdPairs (fun c d => null (fun x => inside c x /\ inside d x)) (separate r).
Hypothesis separate_full : forall r c, In c (separate r) -> fulldim c = true.
Hypothesis volume_null : forall r, null (inside r) -> (volume r <= 0)%Qc.
Hypothesis min_nonneg : (0 <= min_cell_volume)%Qc.
Hypothesis touch_sym : forall r s, touch r s = touch s r.
Hypothesis touch_mono : forall r r' s, (forall x, inside (fst r') x -> inside (fst r) x) -> touch r' s = true -> touch r s = true.
Context (reach : option nat -> (X -> Prop) -> (X -> Prop) -> X -> Prop).
Hypothesis reach_mono : forall s (M M' G : X -> Prop) x, (forall y, M y -> M' y) -> reach s M G x -> reach s M' G x.
Hypothesis solve_sound : forall s a b t S0 x, solve s a b t = Ok S0 -> inside a x -> inside S0 x ->
  reach s (inside (match t with None => a | Some c => c end)) (inside b) x.
(** The convex parts of a region *)
Hypothesis convex_in : forall r c x, fulldim r = true -> In c (convex r) -> inside c x -> inside r x.
Hypothesis convex_covers : forall r, fulldim r = true -> null (fun x => inside r x /\ forall c, In c (convex r) -> ~ inside c x).
Hypothesis convex_disjoint : forall r, fulldim r = true -> ForallOrdPairs (fun c d => null (fun x => inside c x /\ inside d x)) (convex r).
Hypothesis convex_full : forall r c, fulldim r = true -> In c (convex r) -> fulldim c = true.

(** A matrix is the adjacency of a list of regions: every region is adjacent to itself and to those
    that touch it. *)
Record adjacency (l : list (@region R)) (m : matrix) : Prop := {
  ad_refl : forall a, a < List.length l -> m a a = true;
  ad_sym : forall a c, m a c = m c a;
  ad_touch : forall a c, touch_at touch l a c = true -> a = c \/ m a c = true }.
Hypothesis find_adjacent_ok : forall l, adjacency l (find_adjacent l).

Variables (part : ppp R) (props : list (string * R)) (pwa : option (R * list R)).
(** What is given: a partition with its propositions and its adjacency.  The domains of the subsystems,
    if any, cover the partition and overlap in null sets. *)
Record given : Prop := {
  gv_part : partition (p_domain part) props (p_regions part);
  gv_props : p_props part = Some props;
  gv_adj : exists adj, p_adj part = Some adj /\ adjacency (p_regions part) adj;
  gv_pwa : forall dom subs, pwa = Some (dom, subs) ->
    fulldim (diff (p_domain part) dom) = false /\
    null (fun x => inside dom x /\ forall s, In s subs -> ~ inside s x) /\
    ForallOrdPairs (fun s t => null (fun x => inside s x /\ inside t x)) subs }.

(** ** The partition that is refined *)
Record started (s : start (R := R)) : Prop := {
  sd_part : partition (p_domain part) props (p_regions (s_part s));
  sd_domain : p_domain (s_part s) = p_domain part;
  sd_props : p_props (s_part s) = Some props;
  sd_adj : exists adj, p_adj (s_part s) = Some adj /\ adjacency (p_regions (s_part s)) adj;
  sd_sub : match pwa with
           | None => s_sub s = None
           | Some (_, subs) => exists l, s_sub s = Some l /\ List.length l = List.length (p_regions (s_part s)) /\
               forall k c, nth_error (p_regions (s_part s)) k = Some c ->
                 exists i u, nth_error l k = Some i /\ nth_error subs i = Some u /\ forall x, inside (fst c) x -> inside u x
           end;
  sd_orig : List.length (s_part2orig s) = List.length (p_regions (s_part s)) /\
    forall k c, nth_error (p_regions (s_part s)) k = Some c -> exists o r, nth_error (s_part2orig s) k = Some o /\
      nth_error (p_regions part) o = Some r /\ snd c = snd r /\ forall x, inside (fst c) x -> inside (fst r) x;
  sd_mode : if conservative then s_orig s = [0]
            else s_orig s = List.seq 0 (List.length (p_regions (s_part s))) /\ s_orig_list s = map fst (p_regions (s_part s)) }.
Notation bi_start := (bi_start inter diff fulldim le find_adjacent convex touch conservative).
Lemma touch_at_iff l a c : touch_at touch l a c = true <-> exists r s, nth_error l a = Some r /\ nth_error l c = Some s /\ touch r s = true.
Proof.
  split; [apply touch_at_some|]. unfold touch_at. intros (r & s & -> & -> & T). exact T.
Qed.
Theorem bi_start_ok : given -> exists s, bi_start pwa part = Ok s /\ started s.
Proof.
  intros [G1 G2 (adj & G3 & G4) G5]. unfold M_Discretize.bi_start.
  assert (P : exists q sub parents,
    match pwa with
    | Some (dom, subs) => do q <- pwa_partition inter diff fulldim le touch dom subs part; Ok (fst (fst q), Some (snd (fst q)), snd q)
    | None => Ok (part, None, List.seq 0 (List.length (p_regions part)))
    end = Ok (q, sub, parents) /\ started (Start q sub parents (map fst (p_regions q)) (if conservative then [0] else List.seq 0 (List.length (p_regions q))))).
  { destruct pwa as [(dom & subs)|] eqn:EP.
    - destruct (G5 dom subs eq_refl) as (H1 & H2 & H3).
      destruct (pwa_partition_refines inter diff fulldim le pts null null_sub null_empty null_union pts_inter diff_covers full le_ok touch dom subs part props adj G1 G2 G3 H2 H1 H3)
        as (q & subsys & parents & E & Q & D & PP & L1 & L2 & C & _ & m & MA & MI).
      rewrite E. cbn [bind fst snd]. exists q, (Some subsys), parents. split; [reflexivity|].
      constructor; cbn [s_part s_sub s_part2orig s_orig_list s_orig]; try congruence.
      + exists m. split; [exact MA|]. constructor.
        * intros a A. apply MI. auto.
        * assert (SY : forall a c, m a c = true -> m c a = true).
          { intros a c M. apply MI in M. apply MI. rewrite (Nat.max_comm c a), (Nat.min_comm c a).
            destruct M as (A & B & [M|(NE & M)]); split; auto. }
          intros a c. destruct (m a c) eqn:A, (m c a) eqn:B; try reflexivity; [apply SY in A|apply SY in B]; congruence.
        * intros a c T. destruct (Nat.eq_dec a c) as [E'|NE]; [auto|]. right. apply touch_at_iff in T. destruct T as (r & s & N & M & T). apply MI.
          split; [exact (nth_error_lt _ _ _ N)|]. split; [exact (nth_error_lt _ _ _ M)|]. right. split; [exact NE|].
          assert (W : forall a c r s, nth_error (p_regions q) a = Some r -> nth_error (p_regions q) c = Some s -> touch r s = true ->
            exists i j, nth_error parents a = Some i /\ nth_error parents c = Some j /\ (adj i j = true \/ i = j)).
          { clear - C G4 touch_sym touch_mono. intros a c r s N M T. destruct (C a r N) as (i1 & j1 & r1 & s1 & _ & P1 & _ & N1 & _ & S1). destruct (C c s M) as (i2 & j2 & r2 & s2 & _ & P2 & _ & N2 & _ & S2).
            exists j1, j2. split; [exact P1|]. split; [exact P2|]. destruct (ad_touch _ _ G4 j1 j2) as [Q|Q]; [|auto|auto].
            apply touch_at_iff. exists r1, r2. split; [exact N1|]. split; [exact N2|]. apply (touch_mono r1 r r2); [intros x I; apply S1, I|].
            rewrite touch_sym. apply (touch_mono r2 s r); [intros x I; apply S2, I|]. rewrite touch_sym. exact T. }
          destruct (Nat.max_spec a c) as [[L EM]|[L EM]], (Nat.min_spec a c) as [[L' EN]|[L' EN]]; try lia; rewrite EM, EN.
          -- rewrite touch_sym in T. destruct (W c a s r M N T) as (i & j & PI & PJ & K). exists s, r, i, j. auto 7.
          -- destruct (W a c r s N M T) as (i & j & PI & PJ & K). exists r, s, i, j. auto 7.
      + rewrite EP. exists subsys. split; [reflexivity|]. split; [exact L1|]. intros k c N. destruct (C k c N) as (i & j & r & s & A1 & A2 & A3 & A4 & A5 & A6). exists i, s. split; [exact A1|]. split; [exact A3|]. intros x I. apply A6, I.
      + split; [exact L2|]. intros k c N. destruct (C k c N) as (i & j & r & s & A1 & A2 & A3 & A4 & A5 & A6). exists j, r. split; [exact A2|]. split; [exact A4|]. split; [exact A5|]. intros x I. apply A6, I.
      + destruct conservative; auto.
    - exists part, None, (List.seq 0 (List.length (p_regions part))). split; [reflexivity|].
      constructor; cbn [s_part s_sub s_part2orig s_orig_list s_orig]; try assumption; try reflexivity.
      + eauto.
      + rewrite EP. reflexivity.
      + rewrite seq_length. split; [reflexivity|]. intros k c N. assert (K := nth_error_lt _ _ _ N). exists k, c. split; [|auto].
        rewrite (nth_error_nth' _ 0) by (rewrite seq_length; exact K). rewrite seq_nth by exact K. reflexivity.
      + destruct conservative; auto. }
  destruct P as (q & sub & parents & -> & S). cbn [bind fst snd]. destruct S as [S1 S2 S3 S4 S5 S6 S7]. cbn [s_part s_sub s_part2orig s_orig_list s_orig] in *.
  destruct conservative eqn:EC.
  - eexists. split; [reflexivity|]. constructor; cbn [s_part s_sub s_part2orig s_orig_list s_orig]; try assumption. rewrite EC. reflexivity.
  - destruct (part2convex_refines fulldim le pts null null_sub null_empty null_union find_adjacent convex q props) as (q' & new2old & E & Q1 & Q2 & Q3 & Q4 & Q5 & Q6).
    { rewrite S2. exact S1. } { exact S3. } { exact convex_in. } { exact convex_covers. } { exact convex_disjoint. } { exact convex_full. }
    rewrite E. cbn [bind fst snd]. assert (FD : forall j r, nth_error (p_regions q) j = Some r -> fulldim (fst r) = true) by (intros j r N; apply (part_full _ _ _ _ _ _ S1 r), (nth_error_In _ _ N)).
    assert (LK : forall l : list nat, List.length l = List.length (p_regions q) -> exists m, mapr (fun k => of_opt "IndexError" (nth_error l k)) new2old = Ok m /\
      List.length m = List.length (p_regions q') /\ forall k c, nth_error (p_regions q') k = Some c -> exists j r v, nth_error new2old k = Some j /\ nth_error (p_regions q) j = Some r /\ nth_error l j = Some v /\ nth_error m k = Some v /\ snd c = snd r /\ In (fst c) (convex (fst r))).
    { intros l L. destruct (mapr_nth (fun k => of_opt "IndexError" (nth_error l k)) new2old) as (m & EM & LM & NM).
      - intros j J. apply In_nth_error in J. destruct J as (k & J). assert (K := nth_error_lt _ _ _ J). rewrite Q5 in K.
        destruct (nth_error_ex _ _ K) as (c & N). destruct (Q6 k c N) as (j' & r & N1 & N2 & _). assert (j' = j) by congruence. subst j'.
        destruct (nth_error_ex l j) as (v & ->); [rewrite L; exact (nth_error_lt _ _ _ N2)|]. cbn. eauto.
      - exists m. split; [exact EM|]. split; [congruence|]. intros k c N. destruct (Q6 k c N) as (j & r & N1 & N2 & N3 & N4).
        destruct (NM k j N1) as (v & V1 & V2). destruct (nth_error l j) as [v'|] eqn:V; [|discriminate]. cbn in V1. injection V1 as ->. exists j, r, v. auto 8. }
    destruct (LK parents (proj1 S6)) as (m & -> & LM & NM). cbn [bind].
    assert (SUB : exists sub', match sub with None => Ok None | Some l => do l' <- mapr (fun k => of_opt "IndexError" (nth_error l k)) new2old; Ok (Some l') end = Ok sub' /\
      match pwa with
      | None => sub' = None
      | Some (_, subs) => exists l, sub' = Some l /\ List.length l = List.length (p_regions q') /\
          forall k c, nth_error (p_regions q') k = Some c -> exists i u, nth_error l k = Some i /\ nth_error subs i = Some u /\ forall x, inside (fst c) x -> inside u x
      end).
    { destruct pwa as [(dom & subs)|]; [|subst sub; eauto]. destruct S5 as (l & -> & L & C). destruct (LK l L) as (l' & -> & L' & N'). cbn [bind].
      eexists. split; [reflexivity|]. exists l'. split; [reflexivity|]. split; [exact L'|]. intros k c N. destruct (N' k c N) as (j & r & v & A1 & A2 & A3 & A4 & A5 & A6).
      destruct (C j r A2) as (i & u & B1 & B2 & B3). exists i, u. split; [congruence|]. split; [exact B2|]. intros x I. apply B3. apply (convex_in _ (fst c) x (FD j r A2) A6 I). }
    destruct SUB as (sub' & -> & SUB). cbn [bind]. eexists. split; [reflexivity|]. constructor; cbn [s_part s_sub s_part2orig s_orig_list s_orig].
    + rewrite <- S2. exact Q1.
    + congruence.
    + congruence.
    + eexists. split; [exact Q4|apply find_adjacent_ok].
    + exact SUB.
    + split; [exact LM|]. intros k c N. destruct (NM k c N) as (j & r & v & A1 & A2 & A3 & A4 & A5 & A6).
      destruct (proj2 S6 j r A2) as (o & r' & B1 & B2 & B3 & B4). exists o, r'. split; [congruence|]. split; [exact B2|]. split; [congruence|].
      intros x I. apply B4. apply (convex_in _ (fst c) x (FD j r A2) A6 I).
    + rewrite EC. auto.
Qed.

(** ** The abstraction that is returned *)
(** The system can be steered from cell [ci] to cell [cj] within [r], except from a set of volume less
    than [abs_tol]. *)
Definition can_go (sub : option nat) (r ci cj : @region R) : Prop :=
  (forall x, inside (fst ci) x -> reach sub (inside (fst r)) (inside (fst cj)) x)
  \/ exists d, (volume d < abs_tol)%Qc /\ forall x, inside (fst ci) x -> inside d x \/ reach sub (inside (fst r)) (inside (fst cj)) x.
(** [solve_feasible] was asked about these two cells; there are states that it did not find, and they
    or the others are too few for a cell of their own. *)
Definition refused (sub : option nat) (mid : option R) (ci cj : @region R) : Prop :=
  exists S0, solve sub (fst ci) (fst cj) mid = Ok S0 /\ (abs_tol <= volume (diff (fst ci) S0))%Qc /\
    ~ (large volume radius rd min_cell_volume sub (inter (fst ci) S0) /\ large volume radius rd min_cell_volume sub (diff (fst ci) S0)).
Record is_abstraction (ab : abstraction R) : Prop := {
  ab_partition : partition (p_domain part) props (p_regions (ab_ppp ab));
  ab_same : p_domain (ab_ppp ab) = p_domain part /\ p_props (ab_ppp ab) = p_props part;
  ab_coarse : partition (p_domain part) props (p_regions (ab_pwa_ppp ab));
  ab_states : node_list (f_graph (ab_ts ab)) = map state (List.seq 0 (List.length (p_regions (ab_ppp ab)))) /\
    g_init (f_graph (ab_ts ab)) = [] /\ f_ap (ab_ts ab) = map OStr (map fst props);
  ab_labels : forall k v, named (state k) v (f_graph (ab_ts ab)) <-> exists c, nth_error (p_regions (ab_ppp ab)) k = Some c /\ v = PvSet (snd c);
  ab_systems : match pwa with
    | None => ab_ppp2sys ab = None
    | Some (_, subs) => exists l, ab_ppp2sys ab = Some l /\ List.length l = List.length (p_regions (ab_ppp ab)) /\
        forall k c, nth_error (p_regions (ab_ppp ab)) k = Some c ->
          exists i u, nth_error l k = Some i /\ nth_error subs i = Some u /\ forall x, inside (fst c) x -> inside u x
    end;
  ab_maps : exists (f g : nat -> nat) (adj : matrix),
    (forall k c, nth_error (p_regions (ab_ppp ab)) k = Some c -> exists r o,
       nth_error (p_regions (ab_pwa_ppp ab)) (f k) = Some r /\ nth_error (p_regions part) (g k) = Some o /\ snd c = snd r /\ snd c = snd o /\
       (forall x, inside (fst c) x -> inside (fst r) x) /\ (forall x, inside (fst r) x -> inside (fst o) x)) /\
    (conservative = false -> ab_ppp2pwa ab = map f (List.seq 0 (List.length (p_regions (ab_ppp ab)))) /\
                             ab_ppp2orig ab = map g (List.seq 0 (List.length (p_regions (ab_ppp ab))))) /\
    p_adj (ab_ppp ab) = Some adj /\ adjacency (p_regions (ab_ppp ab)) adj /\
    (forall a e b, trans (f_graph (ab_ts ab)) a e b -> e = [] /\ exists i j r ci cj, a = state i /\ b = state j /\
       nth_error (p_regions (ab_ppp ab)) i = Some ci /\ nth_error (p_regions (ab_ppp ab)) j = Some cj /\
       nth_error (p_regions (ab_pwa_ppp ab)) (f i) = Some r /\ can_go (sub_of (ab_ppp2sys ab) i) r ci cj) /\
    (forall i j r ci cj, nth_error (p_regions (ab_ppp ab)) i = Some ci -> nth_error (p_regions (ab_ppp ab)) j = Some cj ->
       nth_error (p_regions (ab_pwa_ppp ab)) (f i) = Some r -> hops (List.length (p_regions (ab_ppp ab))) adj (Nat.max 1 trans_length) j i ->
       trans (f_graph (ab_ts ab)) (state i) [] (state j)
       \/ refused (sub_of (ab_ppp2sys ab) i) (if conservative then None else Some (fst r)) ci cj) }.
Notation discretize := (discretize_bi inter diff fulldim le find_adjacent convex touch volume radius separate solve rd min_cell_volume abs_tol trans_length conservative).
Notation loop s rm := (bi_loop inter diff touch volume radius separate solve rd min_cell_volume abs_tol trans_length conservative (s_orig_list s) rm).
Notation inv s := (invariant inter diff fulldim pts null touch volume radius solve rd min_cell_volume abs_tol trans_length conservative (s_orig_list s) reach
    (p_domain part) props (p_regions (s_part s)) (s_sub s) (s_orig s)).
Lemma within_max n adj a c : reachable_within n trans_length adj adj a c = true <-> hops n adj (Nat.max 1 trans_length) a c.
Proof.
  destruct trans_length as [|k]; [exact (within_hops n adj 0 a c)|]. rewrite within_hops. replace (Nat.max 1 (S k)) with (S k) by lia. reflexivity.
Qed.
Lemma start_inv s adj : started s -> p_adj (s_part s) = Some adj -> inv s (fun k => k) (bi_init trans_length s adj).
Proof.
  intros [S1 S2 S3 (adj' & S4 & S4') S5 S6 S7] A. assert (adj' = adj) by congruence. subst adj'. destruct S4' as [A1 A2 A3].
  constructor; cbn [bi_init d_sol d_sub d_orig d_adj d_trans d_IJ].
  - exact S1.
  - destruct (s_sub s) as [l|]; [|reflexivity]. exists l. split; [reflexivity|]. split; [|reflexivity].
    destruct pwa as [(dom & subs)|]; [|discriminate]. destruct S5 as (l' & E & L & _). injection E as <-. exact L.
  - intro C. destruct conservative; [discriminate|]. destruct S7 as [-> _]. rewrite seq_length. split; [reflexivity|]. intros k K.
    rewrite (nth_error_nth' _ 0) by (rewrite seq_length; exact K). rewrite seq_nth by exact K. reflexivity.
  - reflexivity.
  - split; [apply Nat.le_refl|reflexivity].
  - intros k r N. exists r. auto.
  - exact A1.
  - exact A2.
  - exact A3.
  - discriminate.
  - intros j i J I W. right. left. exact W.
Qed.
Lemma start_list s : started s -> conservative = false -> s_orig_list s = map fst (p_regions (s_part s)).
Proof. intros S C. assert (M := sd_mode _ S). rewrite C in M. apply M. Qed.
Lemma nth_eq_map {A} (f : nat -> A) (l : list A) n : List.length l = n -> (forall k, k < n -> nth_error l k = Some (f k)) -> l = map f (List.seq 0 n).
Proof.
  intros L H. apply nth_error_ext'. - rewrite map_length, seq_length. exact L.
  - intros k K. rewrite L in K. rewrite (H k K). symmetry. rewrite (nth_error_nth' _ (f 0)) by (rewrite map_length, seq_length; exact K).
    rewrite map_nth, seq_nth by exact K. reflexivity.
Qed.
Theorem discretize_sound rm fuel ab : given -> discretize rm fuel pwa part = Some (Ok ab) -> is_abstraction ab.
Proof.
  intros G E. unfold discretize_bi in E. destruct (bi_start_ok G) as (s & ES & S). rewrite ES in E.
  destruct (sd_adj _ S) as (adj0 & EA & _). rewrite EA in E.
  destruct (loop s (conservative && rm) fuel (bi_init trans_length s adj0)) as [[st|e]|] eqn:EL; [|discriminate|discriminate].
  destruct (bi_loop_sound inter diff fulldim pts null null_sub null_empty null_union pts_inter diff_in diff_covers diff_out touch volume radius separate solve rd
    min_cell_volume abs_tol trans_length conservative _ _ separate_in separate_covers separate_disjoint separate_full volume_null min_nonneg touch_sym touch_mono reach reach_mono solve_sound
    (p_domain part) props (p_regions (s_part s)) (s_sub s) (s_orig s) (start_list s S) fuel _ _ st (start_inv s adj0 S EA) EL) as [(f & V) DN].
  assert (E' : bi_result le s st = Ok ab) by congruence. clear E EL. unfold bi_result in E'.
  rewrite (make_ppp_ok fulldim le pts null le_ok _ _ _ _ props (eq_rect_r (fun d => partition d props (d_sol st)) (i_part _ _ _ _ _ _ _ _ _ _ _ _ _ _ _ _ _ _ _ _ _ _ _ V) (sd_domain _ S)) (sd_props _ S)) in E'.
  cbn [bind] in E'. rewrite (sd_props _ S) in E'. cbn [of_opt bind] in E'.
  destruct (build_ts_spec (map fst props) (map snd (d_sol st)) (fun i j => d_trans st j i)) as (ts & ET & T1 & T2 & T3 & T4 & T5).
  { intros l p I J. apply in_map_iff in I. destruct I as (r & <- & I). apply (part_names _ _ _ _ _ _ (i_part _ _ _ _ _ _ _ _ _ _ _ _ _ _ _ _ _ _ _ _ _ _ _ V) r p I J). }
  rewrite ET in E'. cbn [bind] in E'. rewrite map_length in T2, T4.
  destruct (mapr (fun x => of_opt "IndexError" (nth_error (s_part2orig s) x)) (d_orig st)) as [po|e] eqn:EO; [|discriminate]. cbn [bind] in E'.
  assert (E2 : ab = Abstraction (PPP (p_domain (s_part s)) (d_sol st) (Some (d_adj st)) (Some props)) ts (s_part s) (d_orig st) (d_sub st) po) by congruence.
  clear E'. subst ab.
  destruct V as [V1 V2 V3 V4 V5 V6 V7 V8 V9 V10 V11].
  constructor; cbn [ab_ppp ab_ts ab_pwa_ppp ab_ppp2pwa ab_ppp2sys ab_ppp2orig p_domain p_regions p_adj p_props].
  - exact V1.
  - rewrite (gv_props G). split; [exact (sd_domain _ S)|reflexivity].
  - exact (sd_part _ S).
  - auto.
  - intros k v. rewrite T5. split.
    + intros (l & N & ->). apply nth_map_inv in N. destruct N as (c & N & <-). eauto.
    + intros (c & N & ->). exists (snd c). split; [exact (map_nth_error snd _ _ N)|reflexivity].
  - assert (SS := sd_sub _ S). destruct pwa as [(dom & subs)|]; [|rewrite SS in V2; exact V2].
    destruct SS as (l0 & E0 & L0 & C0). rewrite E0 in V2. destruct V2 as (l & El & Ll & Nl). exists l. split; [exact El|]. split; [exact Ll|].
    intros k c N. destruct (V6 k c N) as (r0 & N0 & _ & SB). destruct (C0 _ r0 N0) as (i & u & A & B & C). exists i, u.
    split; [rewrite (Nl k (nth_error_lt _ _ _ N)); exact A|]. split; [exact B|auto].
  - assert (SO : forall k, sub_of (s_sub s) (f k) = sub_of (d_sub st) k \/ List.length (d_sol st) <= k).
    { intro k. destruct (Nat.lt_ge_cases k (List.length (d_sol st))) as [K|K]; [left|right; exact K]. unfold sub_of. destruct (s_sub s) as [l0|]; [|rewrite V2; reflexivity].
      destruct V2 as (l & -> & Ll & Nl). symmetry. apply Nl, K. }
    exists f, (fun k => nth (f k) (s_part2orig s) 0), (d_adj st). split; [|split; [|split; [reflexivity|split; [constructor; assumption|split]]]].
    + intros k c N. destruct (V6 k c N) as (r & N1 & N2 & N3). destruct (proj2 (sd_orig _ S) (f k) r N1) as (o & ro & M1 & M2 & M3 & M4).
      exists r, ro. rewrite (nth_error_nth _ _ 0 M1). split; [exact N1|]. split; [exact M2|]. split; [exact N2|]. split; [congruence|]. auto.
    + intro C. destruct (V3 C) as [L O]. destruct (mapr_inv _ _ _ EO) as [LP NP]. split; [apply nth_eq_map; assumption|]. apply nth_eq_map; [congruence|].
      intros k K. destruct (NP k (f k) (O k K)) as (y & Y1 & Y2). rewrite Y2. f_equal. destruct (nth_error (s_part2orig s) (f k)) as [z|] eqn:Z; [|discriminate].
      cbn in Y1. injection Y1 as ->. symmetry. apply nth_error_nth, Z.
    + intros a e b T. apply T4 in T. destruct T as (-> & i & j & I & J & T & -> & ->). split; [reflexivity|].
      destruct (V10 j i T) as (_ & _ & X0). destruct (nth_error_ex _ _ I) as (ci & Ni), (nth_error_ex _ _ J) as (cj & Nj).
      destruct (V6 i ci Ni) as (r & Nr & _). exists i, j, r, ci, cj. split; [reflexivity|]. split; [reflexivity|]. split; [exact Ni|]. split; [exact Nj|]. split; [exact Nr|].
      assert (Q := X0 ci cj r Ni Nj Nr). destruct (SO i) as [EQ|GE]; [|exfalso; exact (Nat.lt_irrefl _ (Nat.lt_le_trans _ _ _ I GE))]. rewrite EQ in Q. exact Q.
    + intros i j r ci cj Ni Nj Nr H. apply within_max in H. assert (I := nth_error_lt _ _ _ Ni). assert (J := nth_error_lt _ _ _ Nj).
      destruct (V11 j i J I H) as [T|[T|T]].
      * left. apply T4. split; [reflexivity|]. exists i, j. auto.
      * rewrite (DN j i J I) in T. discriminate.
      * right. destruct T as (si & sj & ss & t & S0 & [Q1 Q2 Q3 Q4 Q5] & Q6 & Q7).
        assert (si = ci) by congruence. assert (sj = cj) by congruence. subst si sj. apply subsystem_of in Q3. subst ss.
        exists S0. split; [|auto]. rewrite <- Q5. f_equal. unfold trans_set_of in Q4. destruct conservative eqn:C; [congruence|].
        destruct (V3 eq_refl) as [_ O]. rewrite (O i I) in Q4. cbn [of_opt bind] in Q4. rewrite (start_list s S C), (map_nth_error fst _ _ Nr) in Q4. cbn [of_opt bind] in Q4. congruence.
Qed.
(** The function returns, and without an exception unless [solve_feasible] raises one. *)
Theorem discretize_returns rm : given -> fulldim (p_domain part) = true -> (0 < min_cell_volume)%Qc ->
  (forall r, (0 <= volume r)%Qc) -> (forall a b, (volume (inter a b) + volume (diff a b) <= volume a)%Qc) ->
  (forall r, (total volume (separate r) <= volume r)%Qc) -> (forall ss a b t, exists S0, solve ss a b t = Ok S0) ->
  exists fuel ab, discretize rm fuel pwa part = Some (Ok ab).
Proof.
  intros G FD MP VN VS VP TT. unfold discretize_bi. destruct (bi_start_ok G) as (s & ES & S). rewrite ES. destruct (sd_adj _ S) as (adj0 & EA & _). rewrite EA.
  assert (V0 := start_inv s adj0 S EA).
  destruct (bi_loop_ends inter diff touch volume radius separate solve rd min_cell_volume abs_tol trans_length conservative (conservative && rm) (s_orig_list s) VN VS VP MP (bi_init trans_length s adj0)) as (fuel & r & EL).
  assert (NE : forall fuel st f e, inv s f st -> loop s (conservative && rm) fuel st <> Some (Err e)).
  { clear EL. clear fuel. induction fuel as [|fuel IH]; intros st f e V; cbn [bi_loop]; (destruct (first_pair (List.length (d_sol st)) (d_IJ st)) as [(j & i)|] eqn:F; [|discriminate]); [discriminate|].
    apply first_pair_some in F. destruct F as (J & I & _).
    destruct (round_total inter diff fulldim pts null null_sub touch volume radius separate solve rd min_cell_volume abs_tol trans_length conservative (conservative && rm) (s_orig_list s)
      separate_covers volume_null min_nonneg reach (p_domain part) props (p_regions (s_part s)) (s_sub s) (s_orig s) (start_list s S) f st j i V J I TT) as (st' & E).
    rewrite E.
    destruct (round_inv inter diff fulldim pts null null_sub null_empty null_union pts_inter diff_in diff_covers diff_out touch volume radius separate solve rd
      min_cell_volume abs_tol trans_length conservative _ _ separate_in separate_covers separate_disjoint separate_full volume_null min_nonneg touch_sym touch_mono reach reach_mono solve_sound
      (p_domain part) props (p_regions (s_part s)) (s_sub s) (s_orig s) (start_list s S) f st j i st' V J I E) as (f' & V'). apply (IH st' f' e V'). }
  destruct r as [st|e]; [|exfalso; apply (NE fuel _ _ e V0 EL)].
  destruct (bi_loop_sound inter diff fulldim pts null null_sub null_empty null_union pts_inter diff_in diff_covers diff_out touch volume radius separate solve rd
    min_cell_volume abs_tol trans_length conservative _ _ separate_in separate_covers separate_disjoint separate_full volume_null min_nonneg touch_sym touch_mono reach reach_mono solve_sound
    (p_domain part) props (p_regions (s_part s)) (s_sub s) (s_orig s) (start_list s S) fuel _ _ st V0 EL) as [(f & V) _].
  exists fuel. rewrite EL. unfold bi_result.
  rewrite (make_ppp_ok fulldim le pts null le_ok _ _ _ _ props (eq_rect_r (fun d => partition d props (d_sol st)) (i_part _ _ _ _ _ _ _ _ _ _ _ _ _ _ _ _ _ _ _ _ _ _ _ V) (sd_domain _ S)) (sd_props _ S)).
  cbn [bind]. rewrite (sd_props _ S). cbn [of_opt bind].
  destruct (build_ts_spec (map fst props) (map snd (d_sol st)) (fun i j => d_trans st j i)) as (ts & ET & _).
  { intros l p I J. apply in_map_iff in I. destruct I as (r & <- & I). apply (part_names _ _ _ _ _ _ (i_part _ _ _ _ _ _ _ _ _ _ _ _ _ _ _ _ _ _ _ _ _ _ _ V) r p I J). }
  rewrite ET. cbn [bind].
  destruct (mapr_nth (fun x => of_opt "IndexError" (nth_error (s_part2orig s) x)) (d_orig st)) as (m & -> & _); [|cbn [bind]; eauto].
  intros x Ix. assert (XL : x < List.length (s_part2orig s)); [|destruct (nth_error_ex _ _ XL) as (y & ->); cbn; eauto].
  rewrite (proj1 (sd_orig _ S)). destruct conservative eqn:C.
  - assert (M := sd_mode _ S). rewrite C in M. rewrite (i_cons _ _ _ _ _ _ _ _ _ _ _ _ _ _ _ _ _ _ _ _ _ _ _ V eq_refl), M in Ix. destruct Ix as [<- | []].
    destruct (p_regions (s_part s)) as [|r l] eqn:ER; [|cbn; lia]. exfalso. assert (PC := part_cover _ _ _ _ _ _ (sd_part _ S)). rewrite ER in PC.
    assert (F : fulldim (p_domain part) = false); [|congruence]. apply full. apply (null_sub _ _ PC). intros z Z. split; [exact Z|intros r []].
  - apply In_nth_error in Ix. destruct Ix as (k & Ix). destruct (i_orig _ _ _ _ _ _ _ _ _ _ _ _ _ _ _ _ _ _ _ _ _ _ _ V eq_refl) as [L O].
    assert (K := nth_error_lt _ _ _ Ix). rewrite L in K. rewrite (O k K) in Ix. injection Ix as <-. destruct (nth_error_ex _ _ K) as (c & N).
    destruct (i_parent _ _ _ _ _ _ _ _ _ _ _ _ _ _ _ _ _ _ _ _ _ _ _ V k c N) as (r0 & N0 & _). exact (nth_error_lt _ _ _ N0).
Qed.

(** With [conservative] the maps to the coarser partitions are not extended: they have a single entry,
    whatever the number of cells. *)
Theorem conservative_maps rm fuel ab : conservative = true -> discretize rm fuel pwa part = Some (Ok ab) ->
  ab_ppp2pwa ab = [0] /\ List.length (ab_ppp2orig ab) = 1.
Proof.
  intros C E. unfold discretize_bi in E. destruct (M_Discretize.bi_start inter diff fulldim le find_adjacent convex touch conservative pwa part) as [s|e] eqn:ES; [|discriminate].
  destruct (p_adj (s_part s)) as [adj|]; [|discriminate].
  destruct (loop s (conservative && rm) fuel (bi_init trans_length s adj)) as [[st|e]|] eqn:EL; [|discriminate|discriminate].
  assert (O : s_orig s = [0]).
  { unfold M_Discretize.bi_start in ES. rewrite C in ES. match type of ES with bind ?q _ = _ => destruct q as [x|]; [|discriminate] end. cbn [bind] in ES. injection ES as <-. reflexivity. }
  assert (D : d_orig st = [0]).
  { assert (E0 : d_orig (bi_init trans_length s adj) = [0]) by exact O.
    refine (proj1 (bi_loop_inv inter diff touch volume radius separate solve rd min_cell_volume abs_tol trans_length conservative (conservative && rm) (s_orig_list s) (fun q => d_orig q = [0]) _ fuel _ st E0 EL)).
    clear - C. intros q j i q' O J I _ B. destruct (bi_round_cases inter diff touch volume radius separate solve rd min_cell_volume abs_tol trans_length conservative (conservative && rm) (s_orig_list s) q j i q' I J B)
      as (si & sj & ss & t & S0 & _ & [(_ & _ & DV)|(_ & b & -> & _)]); [|exact O].
    rewrite (dv_orig _ _ _ _ _ _ _ _ _ _ _ _ DV), C. exact O. }
  assert (E' : bi_result le s st = Ok ab) by congruence. clear E. unfold bi_result in E'.
  match type of E' with bind ?q _ = _ => destruct q as [np|]; [|discriminate] end. cbn [bind] in E'.
  match type of E' with bind ?q _ = _ => destruct q as [pr|]; [|discriminate] end. cbn [bind] in E'.
  match type of E' with bind ?q _ = _ => destruct q as [ts|]; [|discriminate] end. cbn [bind] in E'.
  match type of E' with bind ?q _ = _ => destruct q as [po|] eqn:EM; [|discriminate] end. cbn [bind] in E'.
  assert (E2 : ab = Abstraction np ts (s_part s) (d_orig st) (d_sub st) po) by congruence. subst ab. cbn [ab_ppp2pwa ab_ppp2orig].
  split; [exact D|]. rewrite (proj1 (mapr_inv _ _ _ EM)), D. reflexivity.
Qed.
End Abstract.

(** ** An instance: regions of points, of which the even ones have volume one *)
Definition qn (n : nat) : Qc := Q2Qc (inject_Z (Z.of_nat n)).
Lemma qn_add a b : qn (a + b) = (qn a + qn b)%Qc.
Proof. apply Qc_is_canon. unfold qn, Qcplus. cbn [this Q2Qc]. rewrite !Qred_correct, Nat2Z.inj_add, inject_Z_plus. reflexivity. Qed.
Lemma qn_le a b : a <= b -> (qn a <= qn b)%Qc.
Proof. intro H. unfold qn, Qcle. cbn [this Q2Qc]. rewrite !Qred_correct. unfold Qle. cbn. lia. Qed.
Definition pt_volume (r : pt_R) : Qc := qn (List.length (filter Nat.even r)).
Definition pt_separate (r : pt_R) : list pt_R := if pt_fulldim r then [r] else [].
Definition near (x y : nat) : bool := (x <=? y + 2) && (y <=? x + 2).
Definition pt_touch (r s : @region pt_R) : bool := existsb (fun x => existsb (near x) (fst s)) (fst r).
Definition pt_adjacent (l : list (@region pt_R)) : matrix := fun a c => (a =? c) || touch_at pt_touch l a c.
(** One or two steps of a system without inputs; the state between them is in [M]. *)
Definition pt_reach (next : nat -> nat) (s : option nat) (M G : nat -> Prop) (x : nat) : Prop := G (next x) \/ M (next x) /\ G (next (next x)).
Definition pt_solve (next : nat -> nat) (s : option nat) (a b : pt_R) (t : option pt_R) : res pt_R :=
  let mid := match t with None => a | Some c => c end in
  Ok (filter (fun x => pt_pts b (next x) || (pt_pts mid (next x) && pt_pts b (next (next x)))) a).
Lemma pt_separate_in r c x : In c (pt_separate r) -> inside pt_pts c x -> inside pt_pts r x.
Proof. unfold pt_separate. destruct (pt_fulldim r); [|intros []]. intros [<- | []]. auto. Qed.
Lemma pt_separate_covers r : pt_null (fun x => inside pt_pts r x /\ forall c, In c (pt_separate r) -> ~ inside pt_pts c x).
Proof.
  unfold pt_separate. destruct (pt_fulldim r) eqn:F.
  - intros x [A B]. exfalso. apply (B r); [left; reflexivity|exact A].
  - apply pt_full in F. apply (pt_null_sub _ _ F). intros x [A _]. exact A.
Qed.
Lemma pt_separate_disjoint r : ForallOrdPairs (fun c d => pt_null (fun x => inside pt_pts c x /\ inside pt_pts d x)) (pt_separate r).
Proof. unfold pt_separate. destruct (pt_fulldim r); repeat constructor. Qed.
Lemma pt_separate_full r c : In c (pt_separate r) -> pt_fulldim c = true.
Proof. unfold pt_separate. destruct (pt_fulldim r) eqn:F; [|intros []]. intros [<- | []]. exact F. Qed.
Lemma pt_volume_null r : pt_null (inside pt_pts r) -> (pt_volume r <= 0)%Qc.
Proof.
  intro H. unfold pt_volume. replace (List.length (filter Nat.even r)) with 0; [apply Qcle_refl|].
  destruct (filter Nat.even r) as [|x l] eqn:E; [reflexivity|]. exfalso. assert (I : In x (filter Nat.even r)) by (rewrite E; left; reflexivity).
  apply filter_In in I. destruct I as [I EV]. apply pt_pts_In in I. specialize (H x I). rewrite <- Nat.negb_even, EV in H. discriminate.
Qed.
Lemma near_sym x y : near x y = near y x.
Proof. unfold near. apply andb_comm. Qed.
Lemma pt_touch_iff r s : pt_touch r s = true <-> exists x y, In x (fst r) /\ In y (fst s) /\ near x y = true.
Proof.
  unfold pt_touch. rewrite existsb_exists. split.
  - intros (x & I & H). apply existsb_exists in H. destruct H as (y & J & H). eauto.
  - intros (x & y & I & J & H). exists x. split; [exact I|]. apply existsb_exists. eauto.
Qed.
Lemma pt_touch_sym r s : pt_touch r s = pt_touch s r.
Proof. apply eq_true_iff_eq. rewrite !pt_touch_iff. split; intros (x & y & I & J & H); exists y, x; rewrite near_sym; auto. Qed.
Lemma pt_touch_mono (r r' s : @region pt_R) : (forall x, inside pt_pts (fst r') x -> inside pt_pts (fst r) x) -> pt_touch r' s = true -> pt_touch r s = true.
Proof. intros S. rewrite !pt_touch_iff. intros (x & y & I & J & H). exists x, y. split; [|auto]. apply pt_pts_In, S, pt_pts_In, I. Qed.
Lemma pt_reach_mono next s (M M' G : nat -> Prop) x : (forall y, M y -> M' y) -> pt_reach next s M G x -> pt_reach next s M' G x.
Proof. unfold pt_reach. intuition. Qed.
Lemma pt_solve_sound next s a b t S0 x : pt_solve next s a b t = Ok S0 -> inside pt_pts a x -> inside pt_pts S0 x ->
  pt_reach next s (inside pt_pts (match t with None => a | Some c => c end)) (inside pt_pts b) x.
Proof.
  unfold pt_solve. intros E _ I. injection E as <-. unfold inside in *. apply pt_pts_In in I. apply filter_In in I. destruct I as [_ I].
  apply orb_true_iff in I. rewrite andb_true_iff in I. exact I.
Qed.
Lemma pt_adjacent_ok l : adjacency pt_touch l (pt_adjacent l).
Proof.
  unfold pt_adjacent. constructor.
  - intros a _. rewrite Nat.eqb_refl. reflexivity.
  - intros a c. rewrite (Nat.eqb_sym a c), (touch_at_sym pt_touch pt_touch_sym). reflexivity.
  - intros a c ->. right. apply orb_true_r.
Qed.
Lemma pt_volume_nonneg r : (0 <= pt_volume r)%Qc.
Proof. apply (qn_le 0). lia. Qed.
Lemma pt_volume_split a b : (pt_volume (pt_inter a b) + pt_volume (pt_diff a b) <= pt_volume a)%Qc.
Proof.
  unfold pt_volume. rewrite <- qn_add. apply qn_le. unfold pt_inter, pt_diff. induction a as [|x a IH]; [cbn; lia|]. cbn [filter]. rewrite <- Nat.negb_even.
  destruct (pt_pts b x), (Nat.even x) eqn:E; cbn [negb orb filter]; rewrite ?E; cbn [List.length]; lia.
Qed.
Lemma pt_volume_separate r : (total pt_volume (pt_separate r) <= pt_volume r)%Qc.
Proof. unfold pt_separate. destruct (pt_fulldim r); cbn [total fold_right]; [rewrite Qcplus_0_r; apply Qcle_refl|apply pt_volume_nonneg]. Qed.
Definition half : Qc := Q2Qc (1 # 2).
Notation pt_discretize next abs_tol := (discretize_bi pt_inter pt_diff pt_fulldim pt_le pt_adjacent pt_separate pt_touch pt_volume pt_volume pt_separate (pt_solve next) (fun _ => 0%Qc) half abs_tol 1).
Definition pt_abstraction next abs_tol conservative part props pwa :=
  is_abstraction pt_inter pt_diff pt_fulldim pt_pts pt_null pt_touch pt_volume pt_volume (pt_solve next) (fun _ => 0%Qc) half abs_tol 1 conservative (pt_reach next) part props pwa.
Lemma half_pos : (0 < half)%Qc.
Proof. reflexivity. Qed.
Lemma pt_convex_disjoint r : pt_fulldim r = true -> ForallOrdPairs (fun c d => pt_null (fun x => inside pt_pts c x /\ inside pt_pts d x)) (pt_separate r).
Proof. intros _. apply pt_separate_disjoint. Qed.
Lemma pt_sound next abs_tol conservative part props pwa rm fuel ab :
  given pt_diff pt_fulldim pt_pts pt_null pt_touch part props pwa ->
  pt_discretize next abs_tol conservative rm fuel pwa part = Some (Ok ab) -> pt_abstraction next abs_tol conservative part props pwa ab.
Proof.
  apply (discretize_sound pt_inter pt_diff pt_fulldim pt_le pt_pts pt_null pt_null_sub pt_null_empty pt_null_union pt_pts_inter pt_diff_in pt_diff_covers pt_diff_out pt_full pt_le_ok
    pt_adjacent pt_separate pt_touch pt_volume pt_volume pt_separate (pt_solve next) (fun _ => 0%Qc) half abs_tol 1 conservative
    pt_separate_in pt_separate_covers pt_separate_disjoint pt_separate_full pt_volume_null (Qclt_le_weak _ _ half_pos) pt_touch_sym pt_touch_mono
    (pt_reach next) (pt_reach_mono next) (pt_solve_sound next) (fun r c x _ => pt_separate_in r c x) (fun r _ => pt_separate_covers r) pt_convex_disjoint (fun r c _ => pt_separate_full r c) pt_adjacent_ok).
Qed.
Lemma pt_returns next abs_tol conservative part props pwa rm : given pt_diff pt_fulldim pt_pts pt_null pt_touch part props pwa -> pt_fulldim (p_domain part) = true ->
  exists fuel ab, pt_discretize next abs_tol conservative rm fuel pwa part = Some (Ok ab).
Proof.
  intros G F. apply (discretize_returns pt_inter pt_diff pt_fulldim pt_le pt_pts pt_null pt_null_sub pt_null_empty pt_null_union pt_pts_inter pt_diff_in pt_diff_covers pt_diff_out pt_full pt_le_ok
    pt_adjacent pt_separate pt_touch pt_volume pt_volume pt_separate (pt_solve next) (fun _ => 0%Qc) half abs_tol 1 conservative
    pt_separate_in pt_separate_covers pt_separate_disjoint pt_separate_full pt_volume_null (Qclt_le_weak _ _ half_pos) pt_touch_sym pt_touch_mono
    (pt_reach next) (pt_reach_mono next) (pt_solve_sound next) (fun r c x _ => pt_separate_in r c x) (fun r _ => pt_separate_covers r) pt_convex_disjoint (fun r c _ => pt_separate_full r c) pt_adjacent_ok
    part props pwa rm G F half_pos pt_volume_nonneg pt_volume_split pt_volume_separate).
  intros ss a b t. eexists. reflexivity.
Qed.
(** A partition into the points with and without a proposition *)
Definition pt_two (without with_a : pt_R) : ppp pt_R :=
  let l := [(without, []); (with_a, ["a"])] in PPP (without ++ with_a) l (Some (pt_adjacent l)) (Some [("a", with_a)]).
Lemma pt_two_given u v pwa : pt_fulldim u = true -> pt_fulldim v = true -> (forall x, In x u -> ~ In x v) ->
  (forall dom subs, pwa = Some (dom, subs) -> pt_fulldim (pt_diff (u ++ v) dom) = false /\
    pt_null (fun x => inside pt_pts dom x /\ forall s, In s subs -> ~ inside pt_pts s x) /\
    ForallOrdPairs (fun s t => pt_null (fun x => inside pt_pts s x /\ inside pt_pts t x)) subs) ->
  given pt_diff pt_fulldim pt_pts pt_null pt_touch (pt_two u v) [("a", v)] pwa.
Proof.
  intros FU FV D P. constructor; [|reflexivity|eexists; split; [reflexivity|apply pt_adjacent_ok]|exact P].
  cbn [pt_two p_domain p_regions]. constructor; unfold inside.
  - intros r x [<- | [<- | []]] I; cbn [fst] in I; apply pt_pts_In; apply pt_pts_In in I; apply in_app_iff; auto.
  - intros x [A B]. exfalso. apply pt_pts_In, in_app_iff in A. destruct A as [A|A]; [apply (B (u, []))|apply (B (v, ["a"]))]; cbn; auto; apply pt_pts_In; exact A.
  - constructor; [|repeat constructor]. constructor; [|constructor]. intros x [A B]. cbn [fst] in *. apply pt_pts_In in A, B. exfalso. apply (D x A B).
  - intros r p Q [<- | [<- | []]] [[= <- <-]|[]] I x; [destruct I|]. cbn [fst]. auto.
  - intros r p Q [<- | [<- | []]] [[= <- <-]|[]] I; [|exfalso; apply I; left; reflexivity]. intros x [A B]. cbn [fst] in *. apply pt_pts_In in A, B. exfalso. apply (D x A B).
  - intros r p [<- | [<- | []]] I; [destruct I|exact I].
  - intros r [<- | [<- | []]]; repeat constructor. intros [].
  - intros r [<- | [<- | []]]; assumption.
Qed.
(** The abstraction of [x' = x + 2] in two modes, [x <= 2] and [x > 2]: the points before the region are
    separated by the number of steps that they take. *)
Definition pt_next (x : nat) : nat := if x <? 8 then x + 2 else x.
Definition pt_modes : option (pt_R * list pt_R) := Some ([0; 2; 4; 6; 8], [[0; 2]; [4; 6; 8]]).
Example discretize_case : exists ab, pt_discretize pt_next half false false 20 pt_modes (pt_two [0; 2; 4] [6; 8]) = Some (Ok ab) /\
  pt_abstraction pt_next half false (pt_two [0; 2; 4] [6; 8]) [("a", [6; 8])] pt_modes ab /\
  p_regions (ab_ppp ab) = [([0], []); ([4], []); ([6; 8], ["a"]); ([2], [])] /\
  map (fun e => (e_src e, e_dst e)) (g_edges (f_graph (ab_ts ab))) = [(state 0, state 3); (state 1, state 2); (state 2, state 2); (state 3, state 1)] /\
  ab_ppp2pwa ab = [0; 1; 2; 0] /\ ab_ppp2orig ab = [0; 0; 1; 0] /\ ab_ppp2sys ab = Some [0; 1; 1; 0].
Proof.
  destruct (pt_discretize pt_next half false false 20 pt_modes (pt_two [0; 2; 4] [6; 8])) as [[ab|e]|] eqn:E; [|vm_compute in E; discriminate|vm_compute in E; discriminate].
  exists ab. split; [reflexivity|]. split.
  - apply (pt_sound pt_next half false _ _ pt_modes false 20 ab); [|exact E]. apply pt_two_given; [reflexivity|reflexivity| |].
    + intros x A B. cbn in A, B. intuition congruence.
    + intros dom subs [= <- <-]. split; [reflexivity|]. split.
      * intros x [A B]. exfalso. unfold inside in *. apply pt_pts_In in A. cbn [In] in A. destruct A as [<- | [<- | [<- | [<- | [<- | []]]]]];
          first [apply (B [0; 2]); [left; reflexivity|reflexivity] | apply (B [4; 6; 8]); [right; left; reflexivity|reflexivity]].
      * constructor; [|repeat constructor]. constructor; [|constructor]. intros x [A B]. unfold inside in *. apply pt_pts_In in A, B. exfalso. cbn in A, B. intuition congruence.
  - vm_compute in E. injection E as <-. vm_compute. auto 6.
Qed.
(** ** Refuted *)
(** With [conservative] there is no cell for the entries of the maps. *)
Theorem conservative_maps_refuted : exists ab, pt_discretize pt_next half true false 20 None (pt_two [0; 2; 4] [6; 8]) = Some (Ok ab) /\
  List.length (p_regions (ab_ppp ab)) = 4 /\ ab_ppp2pwa ab = [0] /\ ab_ppp2orig ab = [0].
Proof. eexists. split; [vm_compute; reflexivity|]. vm_compute. auto. Qed.
(** With [conservative] a transition stays when its cell is divided, although the system leaves the cell
    on its way: 0 goes through 2 to 6. *)
Definition pt_jump (x : nat) : nat := if x =? 0 then 2 else 6.
Theorem conservative_stays_refuted : exists ab i j ci cj x, pt_discretize pt_jump half true false 20 None (pt_two [6] [0; 2; 4]) = Some (Ok ab) /\
  trans (f_graph (ab_ts ab)) (state i) [] (state j) /\ nth_error (p_regions (ab_ppp ab)) i = Some ci /\ nth_error (p_regions (ab_ppp ab)) j = Some cj /\
  inside pt_pts (fst ci) x /\ ~ pt_reach pt_jump None (inside pt_pts (fst ci)) (inside pt_pts (fst cj)) x.
Proof.
  eexists. exists 1, 0, ([0], ["a"]), ([6], []), 0. split; [vm_compute; reflexivity|]. split; [|split; [reflexivity|split; [reflexivity|split; [reflexivity|]]]].
  - eexists. split; [right; left; reflexivity|]. split; [reflexivity|]. split; [reflexivity|]. intro; reflexivity.
  - unfold pt_reach, inside. cbn. intuition discriminate.
Qed.
(** A cell of volume less than [abs_tol] has a transition to every neighbour, and to itself, whatever
    the system does. *)
Theorem small_cell_refuted : exists ab i j ci cj, pt_discretize (fun x => x) (qn 2) false false 20 None (pt_two [0] [2]) = Some (Ok ab) /\
  trans (f_graph (ab_ts ab)) (state i) [] (state j) /\ nth_error (p_regions (ab_ppp ab)) i = Some ci /\ nth_error (p_regions (ab_ppp ab)) j = Some cj /\
  forall M x, inside pt_pts (fst ci) x -> ~ pt_reach (fun x => x) None M (inside pt_pts (fst cj)) x.
Proof.
  eexists. exists 0, 1, ([0], []), ([2], ["a"]). split; [vm_compute; reflexivity|]. split; [|split; [reflexivity|split; [reflexivity|]]].
  - eexists. split; [right; left; reflexivity|]. split; [reflexivity|]. split; [reflexivity|]. intro; reflexivity.
  - intros M x I. unfold pt_reach, inside in *. apply pt_pts_In in I. cbn in I. destruct I as [<- | []]. cbn. intuition discriminate.
Qed.
(** Without a least volume for cells the loop need not end: regions of intervals, and the system
    [x' = 2 x] on [[0, 1]]. *)
Definition iv_R : Type := list (Qc * Qc).
Definition less (x y : Qc) : bool := if Qclt_le_dec x y then true else false.
Definition iv_make (l h : Qc) : iv_R := if less l h then [(l, h)] else [].
Definition imin (x y : Qc) : Qc := if less x y then x else y.
Definition imax (x y : Qc) : Qc := if less x y then y else x.
Definition iv_inter (a b : iv_R) : iv_R := flat_map (fun p => flat_map (fun q => iv_make (imax (fst p) (fst q)) (imin (snd p) (snd q))) b) a.
Definition iv_diff (a b : iv_R) : iv_R :=
  fold_left (fun a q => flat_map (fun p => iv_make (fst p) (imin (snd p) (fst q)) ++ iv_make (imax (fst p) (snd q)) (snd p)) a) b a.
Definition iv_volume (r : iv_R) : Qc := fold_right (fun p s => (snd p - fst p + s)%Qc) 0%Qc r.
Definition iv_separate (r : iv_R) : list iv_R := map (fun p => [p]) r.
Definition iv_le (a b : iv_R) : bool := match iv_diff a b with [] => true | _ => false end.
Definition iv_fulldim (r : iv_R) : bool := less 0 (iv_volume r).
Definition iv_solve (s : option nat) (a b : iv_R) (t : option iv_R) : res iv_R :=
  Ok (iv_inter a (map (fun q => (fst q * half, snd q * half)%Qc) b)).
Notation iv_discretize min_cell_volume := (discretize_bi iv_inter iv_diff iv_fulldim iv_le (fun _ _ _ => true) (fun r => map (fun p => [p]) r) (fun _ _ => true)
  iv_volume iv_volume iv_separate iv_solve (fun _ => 0%Qc) min_cell_volume half 1 true).
Definition iv_part : ppp iv_R := PPP [(0, 1)%Qc] [([(0, 1)%Qc], @nil string)] (Some (fun _ _ => true)) (Some []).
Lemma less_true x y : (x < y)%Qc -> less x y = true.
Proof. intro H. unfold less. destruct (Qclt_le_dec x y) as [L|L]; [reflexivity|]. exfalso. apply (Qclt_not_le _ _ H L). Qed.
Lemma less_false x y : (y <= x)%Qc -> less x y = false.
Proof. intro H. unfold less. destruct (Qclt_le_dec x y) as [L|L]; [|reflexivity]. exfalso. apply (Qclt_not_le _ _ L H). Qed.
Lemma half_less a : (0 < a)%Qc -> (0 < a * half)%Qc /\ (a * half < a)%Qc.
Proof.
  intro H. split.
  - rewrite <- (Qcmult_0_l half). apply Qcmult_lt_compat_r; [exact half_pos|exact H].
  - rewrite (Qcmult_comm a half). rewrite <- (Qcmult_1_l a) at 2. apply Qcmult_lt_compat_r; [exact H|reflexivity].
Qed.
Lemma iv_halves a : (0 < a)%Qc -> let S0 := iv_inter [(0, a)%Qc] [(0 * half, a * half)%Qc] in
  S0 = [(0, a * half)%Qc] /\ iv_inter [(0, a)%Qc] S0 = [(0, a * half)%Qc] /\ iv_diff [(0, a)%Qc] S0 = [(a * half, a)%Qc].
Proof.
  intros H S0. destruct (half_less a H) as [P L].
  assert (ES : S0 = [(0, a * half)%Qc]).
  { unfold S0, iv_inter. cbn [flat_map app fst snd]. rewrite Qcmult_0_l. unfold imax at 1. rewrite (less_false 0 0 (Qcle_refl 0)).
    unfold imin. rewrite (less_false a (a * half)) by (apply Qclt_le_weak, L). unfold iv_make. rewrite (less_true _ _ P). reflexivity. }
  split; [exact ES|]. rewrite ES. split.
  - unfold iv_inter. cbn [flat_map app fst snd]. unfold imax at 1. rewrite (less_false 0 0 (Qcle_refl 0)).
    unfold imin. rewrite (less_false a (a * half)) by (apply Qclt_le_weak, L). unfold iv_make. rewrite (less_true _ _ P). reflexivity.
  - unfold iv_diff. cbn [fold_left flat_map app fst snd]. unfold imin. rewrite (less_false a 0) by (apply Qclt_le_weak, H).
    unfold iv_make at 1. rewrite (less_false 0 0 (Qcle_refl 0)). cbn [app]. unfold imax. rewrite (less_true _ _ P). unfold iv_make. rewrite (less_true _ _ L). reflexivity.
Qed.
Lemma iv_volume_one l h : (l < h)%Qc -> (0 < iv_volume [(l, h)])%Qc.
Proof.
  intro H. cbn [iv_volume fold_right fst snd]. rewrite Qcplus_0_r. unfold Qcminus. rewrite <- (Qcplus_opp_r l). 
  destruct (Qclt_le_dec (l + - l) (h + - l)) as [L|L]; [exact L|]. exfalso. apply (Qclt_not_le _ _ H).
  assert (Q := Qcplus_le_compat _ _ _ _ L (Qcle_refl l)). rewrite <- !Qcplus_assoc, !(Qcplus_comm (- l) l), !Qcplus_opp_r, !Qcplus_0_r in Q. exact Q.
Qed.
Lemma first_pair_zero n IJ : 0 < n -> IJ 0 0 = true -> first_pair n IJ = Some (0, 0).
Proof. intros N H. destruct n as [|n]; [lia|]. unfold first_pair. cbn [List.seq list_prod map app find fst snd]. rewrite H. reflexivity. Qed.
Lemma iv_forever fuel : forall (st : dstate iv_R) a p, (0 < a)%Qc -> nth_error (d_sol st) 0 = Some ([(0, a)%Qc], p) -> d_sub st = None -> d_IJ st 0 0 = true ->
  bi_loop iv_inter iv_diff (fun _ _ => true) iv_volume iv_volume iv_separate iv_solve (fun _ => 0%Qc) 0%Qc half 1 true [] false fuel st = None.
Proof.
  induction fuel as [|fuel IH]; intros st a p A N SB J; assert (FP : first_pair (@List.length (@region iv_R) (d_sol st)) (d_IJ st) = Some (0, 0)) by exact (first_pair_zero _ _ (nth_error_lt _ _ _ N) J); cbn [bi_loop]; match goal with |- context [first_pair ?n ?m] => change (first_pair n m) with (first_pair (@List.length (@region iv_R) (d_sol st)) (d_IJ st)) end; rewrite FP; [reflexivity|].
  destruct (half_less a A) as [P L]. destruct (iv_halves a A) as (E1 & E2 & E3).
  match goal with |- match ?b with _ => _ end = _ => set (B := b) end.
  assert (EB : B = split_cell (fun _ _ => true) iv_separate 1 true false (without st 0 0) 0 0 p [(0, a * half)%Qc] [(a * half, a)%Qc]).
  { unfold B, bi_round. rewrite N. cbn [of_opt bind fst snd]. unfold subsystem. rewrite SB. cbn [bind]. unfold trans_set_of. cbn [bind]. unfold iv_solve. cbn [map bind].
    cbn [fst snd]. rewrite E2, E3.
    replace (more (iv_volume [(0%Qc, (a * half)%Qc)]) 0) with true by (symmetry; apply more_iff, iv_volume_one, P).
    replace (more (iv_volume [((a * half)%Qc, a)]) 0) with true by (symmetry; apply more_iff, iv_volume_one, L). cbn [andb]. unfold without. rewrite SB. reflexivity. }
  rewrite EB. destruct (split_cell (fun _ _ => true) iv_separate 1 true false (without st 0 0) 0 0 p [(0%Qc, (a * half)%Qc)] [((a * half)%Qc, a)]) as [st'|e] eqn:ES; [|cbn in ES; discriminate].
  assert (LN := nth_error_lt _ _ _ N). assert (D := split_divided _ _ _ _ _ (without st 0 0) st' 0 0 _ _ _ LN LN ES).
  destruct (dv_pieces _ _ _ _ _ _ _ _ _ _ _ _ D) as (pc & pcs & EP & SO). cbn [iv_separate map] in EP. injection EP as <- <-. cbn [without d_sol] in SO.
  assert (LN' : 0 < List.length (d_sol st')) by (rewrite SO, app_length, set_nth_length; apply Nat.add_pos_l; exact LN).
  apply (IH st' (a * half)%Qc p P).
  - rewrite SO, nth_error_app1, set_nth_same by (rewrite ?set_nth_length; exact LN). reflexivity.
  - rewrite (dv_sub _ _ _ _ _ _ _ _ _ _ _ _ D). cbn [without d_sub]. rewrite SB. reflexivity.
  - apply (dv_IJ _ _ _ _ _ _ _ _ _ _ _ _ D 0 0 LN' LN'). left. split; [left; left; reflexivity|]. split.
    + unfold reachable_within. cbn [Nat.sub Nat.iter]. apply (dv_adj _ _ _ _ _ _ _ _ _ _ _ _ D 0 0 LN' LN'). left. split; [reflexivity|left; reflexivity].
    + destruct (d_trans st' 0 0) eqn:T; [|reflexivity]. apply (dv_trans _ _ _ _ _ _ _ _ _ _ _ _ D) in T. lia.
Qed.
Theorem discretize_ends_refuted : forall fuel, iv_discretize 0%Qc false fuel None iv_part = None.
Proof.
  intro fuel. unfold discretize_bi. cbn [bi_start bind fst snd s_part iv_part p_adj s_orig_list andb].
  rewrite (iv_forever fuel _ 1%Qc []); reflexivity.
Qed.
(** With a least volume it does. *)
Example discretize_ends_case : exists ab, iv_discretize (Q2Qc (1 # 10)) false 20 None iv_part = Some (Ok ab) /\ map fst (p_regions (ab_ppp ab)) =
  [[(0, Q2Qc (1 # 8))]; [(half, 1)]; [(Q2Qc (1 # 4), half)]; [(Q2Qc (1 # 8), Q2Qc (1 # 4))]]%Qc.
Proof. eexists. split; [vm_compute; reflexivity|]. vm_compute. reflexivity. Qed.
Print Assumptions within_hops.
Print Assumptions bi_start_ok.
Print Assumptions discretize_sound.
Print Assumptions discretize_returns.
Print Assumptions conservative_maps.
Print Assumptions discretize_case.
Print Assumptions conservative_maps_refuted.
Print Assumptions conservative_stays_refuted.
Print Assumptions small_cell_refuted.
Print Assumptions discretize_ends_refuted.
