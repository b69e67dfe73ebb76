(** The abstraction computed by [_discretize_bi]: it is a partition that refines the given one, its
    transitions can be executed by the system, every other pair of cells that are close enough has been
    tried, and the loop ends. *)
From Coq Require Import List String Bool Arith ZArith Lia QArith Qcanon Qround.
From Verif Require Import M_Tree M_Base S_LTL M_Dict M_Graph S_Run M_Fts T_Fts M_Part T_Prop2part T_Refine M_Discretize L_Discretize L_Ts.
Import ListNotations.
Open Scope string_scope.
Open Scope list_scope.
Open Scope nat_scope.

Lemma fop_nth {A} (Q : A -> A -> Prop) : forall l,
  ForallOrdPairs Q l <-> forall a c x y, a < c -> nth_error l a = Some x -> nth_error l c = Some y -> Q x y.
Proof.
  induction l as [|z l IH]; split.
  - intros _ [|a] c x y _ H; discriminate.
  - constructor.
  - intros H a c x y L Hx Hy. inversion H as [|? ? F FO]; subst. destruct a as [|a].
    + injection Hx as <-. destruct c as [|c]; [lia|]. cbn [nth_error] in Hy. apply nth_error_In in Hy. rewrite Forall_forall in F. apply F, Hy.
    + destruct c as [|c]; [lia|]. apply (proj1 IH FO a c x y ltac:(lia) Hx Hy).
  - intro H. constructor.
    + apply Forall_forall. intros y I. apply In_nth_error in I. destruct I as [c I]. apply (H 0 (S c)); [lia|reflexivity|exact I].
    + apply IH. intros a c x y L Hx Hy. apply (H (S a) (S c)); [lia|exact Hx|exact Hy].
Qed.
Lemma nth_error_lt {A} (l : list A) k x : nth_error l k = Some x -> k < List.length l.
Proof. intro H. apply nth_error_Some. congruence. Qed.
Lemma nth_error_ex {A} (l : list A) k : k < List.length l -> exists x, nth_error l k = Some x.
Proof. intro H. destruct (nth_error l k) as [x|] eqn:E; [eauto|]. apply nth_error_None in E. lia. Qed.
Lemma nth_error_repeat' {A} (x : A) m k : k < m -> nth_error (repeat x m) k = Some x.
Proof. revert k. induction m as [|m IH]; intros [|k] H; cbn; try lia; [reflexivity|]. apply IH. lia. Qed.

Section Bi.
Context {R X : Type} (inter diff : R -> R -> R) (fulldim : R -> bool) (le : R -> R -> bool).
Context (pts : R -> X -> bool) (null : (X -> Prop) -> Prop).
Hypothesis null_sub : forall A B : X -> Prop, null B -> (forall x, A x -> B x) -> null A.
Hypothesis null_empty : null (fun _ => False).
Hypothesis null_union : forall A B, null A -> null B -> null (fun x => A x \/ B x).
Hypothesis pts_inter : forall a b x, pts (inter a b) x = pts a x && pts b x.
Hypothesis diff_in : forall a b x, pts (diff a b) x = true -> pts a x = true.
Hypothesis diff_covers : forall a b x, pts a x = true -> pts b x = false -> pts (diff a b) x = true.
Hypothesis diff_out : forall a b, null (fun x => pts (diff a b) x = true /\ pts b x = true).
Hypothesis full : forall r, fulldim r = false <-> null (fun x => pts r x = true).
Hypothesis le_ok : forall a b, le a b = true <-> (forall x, pts a x = true -> pts b x = true).
Notation inside := (inside pts).
Notation partition := (partition fulldim pts null).

Context (touch : @region R -> @region R -> bool) (volume radius : R -> Qc) (separate : R -> list R).
Context (solve : option nat -> R -> R -> option R -> res R) (rd : option nat -> Qc).
Context (min_cell_volume abs_tol : Qc) (trans_length : nat) (conservative rm : bool) (orig_list : list R).

(** What is assumed of [pc.separate]: pieces of positive volume that overlap in null sets and make up
    the region. *)
Hypothesis separate_in : forall r c x, In c (separate r) -> inside c x -> inside r x.
Hypothesis separate_covers : forall r, null (fun x => inside r x /\ forall c, In c (separate r) -> ~ inside c x).
Hypothesis separate_disjoint : forall r, ForallOrdPairs (fun c d => null (fun x => inside c x /\ inside d x)) (separate r).
Hypothesis separate_full : forall r c, In c (separate r) -> fulldim c = true.
(** A set without interior has no volume; cells may not be negative. *)
Hypothesis volume_null : forall r, null (inside r) -> (volume r <= 0)%Qc.
Hypothesis min_nonneg : (0 <= min_cell_volume)%Qc.
(** [pc.is_adjacent] looks at the sets only, is symmetric, and grows with the sets. *)
Hypothesis touch_sym : forall r s, touch r s = touch s r.
Hypothesis touch_mono : forall r r' s, (forall x, inside (fst r') x -> inside (fst r) x) -> touch r' s = true -> touch r s = true.

(** [reach s M G x]: subsystem [s] can be steered from [x] into [G] through states in [M].
    [solve_feasible] returns such states (see T_Horizon). *)
Context (reach : option nat -> (X -> Prop) -> (X -> Prop) -> X -> Prop).
Hypothesis reach_mono : forall s (M M' G : X -> Prop) x, (forall y, M y -> M' y) -> reach s M G x -> reach s M' G x.
Hypothesis solve_sound : forall s a b t S0 x, solve s a b t = Ok S0 -> inside a x -> inside S0 x ->
  reach s (inside (match t with None => a | Some c => c end)) (inside b) x.

Notation bi_round := (bi_round inter diff touch volume radius separate solve rd min_cell_volume abs_tol trans_length conservative orig_list rm).
Notation bi_loop := (bi_loop inter diff touch volume radius separate solve rd min_cell_volume abs_tol trans_length conservative orig_list rm).
Notation divided := (divided touch separate trans_length conservative rm).
Notation len st := (List.length (d_sol st)).

(** ** One round *)
Definition large (ss : option nat) (r : R) : Prop := (min_cell_volume < volume r)%Qc /\ (rd ss < radius r)%Qc.
Lemma more_iff a b : more a b = true <-> (b < a)%Qc.
Proof. unfold more. destruct (Qclt_le_dec b a); split; intro H; try congruence; try discriminate. exfalso. apply (Qclt_not_le _ _ H). assumption. Qed.
Lemma more_false a b : more a b = false <-> (a <= b)%Qc.
Proof. unfold more. destruct (Qclt_le_dec b a) as [L|L]; split; intro H; try congruence; try discriminate. exfalso. apply (Qclt_not_le _ _ L). assumption. Qed.
Definition without (st : dstate R) (j i : nat) : dstate R := DS (d_sol st) (d_sub st) (d_orig st) (d_adj st) (d_trans st) (put j i false (d_IJ st)).
(** What was computed for the pair [j], [i] *)
Record tried (st : dstate R) (j i : nat) (si sj : @region R) (ss : option nat) (t : option R) (S0 : R) : Prop := {
  tr_si : nth_error (d_sol st) i = Some si;
  tr_sj : nth_error (d_sol st) j = Some sj;
  tr_ss : subsystem st i = Ok ss;
  tr_t : trans_set_of conservative orig_list st i = Ok t;
  tr_solve : solve ss (fst si) (fst sj) t = Ok S0 }.
Lemma bi_round_cases st j i st' : i < len st -> j < len st -> bi_round st j i = Ok st' ->
  exists si sj ss t S0, tried st j i si sj ss t S0 /\
    ((large ss (inter (fst si) S0) /\ large ss (diff (fst si) S0) /\
        divided (without st j i) st' i j (snd si) (inter (fst si) S0) (diff (fst si) S0))
     \/ (~ (large ss (inter (fst si) S0) /\ large ss (diff (fst si) S0)) /\
         exists b, st' = set_trans (without st j i) (d_IJ (without st j i)) i j b /\
           (b = true /\ (volume (diff (fst si) S0) < abs_tol)%Qc \/ b = false /\ (abs_tol <= volume (diff (fst si) S0))%Qc))).
Proof.
  intros Hi Hj. unfold bi_round at 1. destruct (nth_error (d_sol st) i) as [si|] eqn:Ei; [|discriminate]. destruct (nth_error (d_sol st) j) as [sj|] eqn:Ej; [|discriminate].
  cbn [of_opt bind]. destruct (subsystem st i) as [ss|e] eqn:Es; [|discriminate]. cbn [bind].
  destruct (trans_set_of conservative orig_list st i) as [t|e] eqn:Et; [|discriminate]. cbn [bind].
  destruct (solve ss (fst si) (fst sj) t) as [S0|e] eqn:ES; [|discriminate]. cbn [bind]. intro H.
  exists si, sj, ss, t, S0. split; [constructor; assumption|].
  match type of H with (if ?c then _ else _) = _ => destruct c eqn:C end.
  - rewrite !andb_true_iff, !more_iff in C. destruct C as [[[C1 C2] C3] C4]. left. split; [split; assumption|]. split; [split; assumption|].
    apply (split_divided touch separate trans_length conservative rm (without st j i) st' i j); [exact Hi|exact Hj|exact H].
  - right. split.
    { intros [[L1 L2] [L3 L4]]. apply more_iff in L1, L2, L3, L4. rewrite L1, L2, L3, L4 in C. discriminate. }
    destruct (more abs_tol (volume (diff (fst si) S0))) eqn:M.
    + apply more_iff in M. exists true. split; [change (Ok (set_trans (without st j i) (d_IJ (without st j i)) i j true) = Ok st') in H; congruence|auto].
    + apply more_false in M. exists false. split; [change (Ok (set_trans (without st j i) (d_IJ (without st j i)) i j false) = Ok st') in H; congruence|auto].
Qed.
Lemma bi_loop_inv (P : dstate R -> Prop) :
  (forall st j i st', P st -> j < len st -> i < len st -> d_IJ st j i = true -> bi_round st j i = Ok st' -> P st') ->
  forall fuel st st', P st -> bi_loop fuel st = Some (Ok st') -> P st' /\ forall j i, j < len st' -> i < len st' -> d_IJ st' j i = false.
Proof.
  intro H. induction fuel as [|fuel IH]; intros st st' HP E; cbn [M_Discretize.bi_loop] in E;
    (destruct (first_pair (len st) (d_IJ st)) as [(j & i)|] eqn:F; [|injection E as <-; split; [exact HP|intros j i J I; apply (first_pair_none _ _ _ _ F J I)]]).
  - discriminate.
  - apply first_pair_some in F. destruct F as (J & I & T). destruct (bi_round st j i) as [st1|e] eqn:B; [|discriminate].
    apply (IH st1 st'); [|exact E]. apply (H st j i st1); assumption.
Qed.

(** ** The cells after a division *)
Section Divided.
Variables (st st' : dstate R) (i j : nat) (si : @region R) (S0 : R).
Hypothesis Hi : nth_error (d_sol st) i = Some si.
Notation n := (len st).
Notation n' := (len st').
Notation isect := (inter (fst si) S0).
Notation rest := (diff (fst si) S0).
Hypothesis D : divided (without st j i) st' i j (snd si) isect rest.
Definition group : list R := match separate isect with [] => [] | p :: ps => p :: separate rest ++ ps end.
Lemma i_lt : i < n.
Proof. exact (nth_error_lt _ _ _ Hi). Qed.
Lemma group_spec : exists p ps, separate isect = p :: ps /\ group = p :: separate rest ++ ps /\ 1 + (n' - n) = List.length group /\ n <= n' /\
  d_sol st' = set_nth i (p, snd si) (d_sol st) ++ map (fun r => (r, snd si)) (separate rest ++ ps).
Proof.
  destruct (dv_pieces _ _ _ _ _ _ _ _ _ _ _ _ D) as (p & ps & E & S). cbn [without d_sol] in S. exists p, ps. split; [exact E|].
  assert (LL : n' = n + List.length (separate rest ++ ps)) by (rewrite S, app_length, set_nth_length, map_length; reflexivity).
  unfold group. rewrite E. split; [reflexivity|]. cbn [List.length]. split; [lia|]. split; [lia|exact S].
Qed.
Lemma cell_old a : a < n -> a <> i -> nth_error (d_sol st') a = nth_error (d_sol st) a.
Proof.
  intros A NE. destruct group_spec as (p & ps & _ & _ & _ & _ & S). rewrite S, nth_error_app1 by (rewrite set_nth_length; exact A). apply set_nth_other, NE.
Qed.
Lemma cell_i : exists p, nth_error group 0 = Some p /\ nth_error (d_sol st') i = Some (p, snd si).
Proof.
  destruct group_spec as (p & ps & _ & G & _ & _ & S). exists p. rewrite G. split; [reflexivity|].
  rewrite S, nth_error_app1 by (rewrite set_nth_length; exact i_lt). apply set_nth_same, i_lt.
Qed.
Lemma cell_new a : n <= a -> nth_error (d_sol st') a = option_map (fun r => (r, snd si)) (nth_error group (S (a - n))).
Proof.
  intro A. destruct group_spec as (p & ps & _ & G & _ & _ & S). rewrite S, G, nth_error_app2 by (rewrite set_nth_length; exact A).
  rewrite set_nth_length, nth_error_map. reflexivity.
Qed.
Lemma group_in r : In r group <-> In r (separate isect) \/ In r (separate rest).
Proof. destruct group_spec as (p & ps & E & -> & _). rewrite E. cbn [In]. rewrite in_app_iff. tauto. Qed.
Lemma group_inside r x : In r group -> inside r x -> inside (fst si) x.
Proof.
  intros I H. apply group_in in I. destruct I as [I|I]; apply (separate_in _ _ _ I) in H; unfold T_Prop2part.inside in *.
  - rewrite pts_inter, andb_true_iff in H. tauto.
  - apply diff_in in H. exact H.
Qed.
Lemma group_disjoint : ForallOrdPairs (fun c d => null (fun x => inside c x /\ inside d x)) group.
Proof.
  destruct group_spec as (p & ps & E & -> & _). assert (DI := separate_disjoint isect). rewrite E in DI. inversion DI as [|? ? F1 F2]; subst.
  assert (CR : forall c d, In c (separate isect) -> In d (separate rest) -> null (fun x => inside c x /\ inside d x)).
  { intros c d C C'. apply (null_sub _ _ (diff_out (fst si) S0)). intros x [A B]. apply (separate_in _ _ _ C) in A. apply (separate_in _ _ _ C') in B.
    unfold T_Prop2part.inside in *. rewrite pts_inter, andb_true_iff in A. tauto. }
  rewrite E in CR. constructor.
  - apply Forall_app. split; [|exact F1]. apply Forall_forall. intros d I. apply CR; [left; reflexivity|exact I].
  - apply fop_app. split; [apply separate_disjoint|]. split; [exact F2|]. intros a b I J.
    apply (null_sub _ _ (CR b a (or_intror J) I)). tauto.
Qed.
Lemma group_cover : null (fun x => inside (fst si) x /\ forall r, In r group -> ~ inside r x).
Proof.
  apply (null_sub _ (fun x => (inside isect x /\ forall c, In c (separate isect) -> ~ inside c x) \/ (inside rest x /\ forall c, In c (separate rest) -> ~ inside c x))).
  - apply null_union; apply separate_covers.
  - intros x [A B]. destruct (pts S0 x) eqn:E.
    + left. split; [unfold T_Prop2part.inside in *; rewrite pts_inter, A, E; reflexivity|]. intros c C. apply B, group_in. auto.
    + right. split; [apply diff_covers; assumption|]. intros c C. apply B, group_in. auto.
Qed.
(** Every cell lies in the one it comes from. *)
Lemma cell_parent a c : nth_error (d_sol st') a = Some c -> exists r, nth_error (d_sol st) (parent n i a) = Some r /\ snd c = snd r /\
  (forall x, inside (fst c) x -> inside (fst r) x) /\ (a < n /\ a <> i /\ c = r \/ touched n i a /\ r = si /\ In (fst c) group).
Proof.
  intro H. assert (A := nth_error_lt _ _ _ H). unfold parent. destruct (Nat.leb_spec n a) as [L|L].
  - exists si. split; [exact Hi|]. rewrite (cell_new a L) in H. destruct (nth_error group (S (a - n))) as [r|] eqn:E; [|discriminate]. injection H as <-.
    apply nth_error_In in E. split; [reflexivity|]. split; [intro x; apply group_inside, E|]. right. split; [right; exact L|]. auto.
  - destruct (Nat.eq_dec a i) as [->|NE].
    + destruct cell_i as (p & G & E). rewrite E in H. injection H as <-. exists si. split; [exact Hi|]. apply nth_error_In in G. split; [reflexivity|].
      split; [intro x; apply group_inside, G|]. right. split; [left; reflexivity|]. auto.
    + rewrite (cell_old a L NE) in H. exists c. split; [exact H|]. split; [reflexivity|]. split; [auto|]. left. auto.
Qed.
Lemma more_cells : (0 < volume rest)%Qc -> n < n'.
Proof.
  intro V. destruct group_spec as (p & ps & E & G & L & _ & _). rewrite G in L. cbn [List.length] in L. rewrite app_length in L.
  destruct (separate rest) as [|r l] eqn:ES; [|cbn [List.length] in L; lia]. exfalso.
  apply (Qclt_not_le _ _ V). apply volume_null. apply (null_sub _ _ (separate_covers rest)). rewrite ES. intros x A. split; [exact A|intros c []].
Qed.
Lemma divided_partition domain props : partition domain props (d_sol st) -> partition domain props (d_sol st').
Proof.
  intro P. set (cells := combine (d_sol st') (map (parent n i) (List.seq 0 n'))).
  assert (LC : List.length (map (parent n i) (List.seq 0 n')) = n') by (rewrite map_length, seq_length; reflexivity).
  assert (NC : forall a c k, nth_error cells a = Some (c, k) <-> nth_error (d_sol st') a = Some c /\ k = parent n i a).
  { intros a c k. unfold cells. destruct (Nat.lt_ge_cases a n') as [A|A].
    - destruct (nth_error_ex _ _ A) as (c0 & E). split.
      + intro H. assert (H' := nth_error_In _ _ H).
        assert (G : nth_error (combine (d_sol st') (map (parent n i) (List.seq 0 n'))) a = Some (c0, parent n i a)).
        { clear H H'. rewrite (nth_error_nth' _ (c0, 0)) by (rewrite combine_length; lia). rewrite combine_nth by lia. f_equal. f_equal.
          - apply nth_error_nth, E.
          - rewrite (nth_indep _ 0 (parent n i 0)) by lia. rewrite map_nth, seq_nth by exact A. reflexivity. }
        rewrite G in H. injection H as <- <-. auto.
      + intros [H ->]. rewrite E in H. injection H as <-.
        rewrite (nth_error_nth' _ (c0, 0)) by (rewrite combine_length; lia). rewrite combine_nth by lia. f_equal. f_equal.
        * apply nth_error_nth, E.
        * rewrite (nth_indep _ 0 (parent n i 0)) by lia. rewrite map_nth, seq_nth by exact A. reflexivity.
    - split; [intro H; apply nth_error_lt in H; rewrite combine_length in H; lia|intros [H _]; apply nth_error_lt in H; lia]. }
  assert (MF : map fst cells = d_sol st').
  { unfold cells. revert LC. generalize (map (parent n i) (List.seq 0 n')). intro l. generalize (d_sol st') as m. clear. induction l as [|k l IH]; intros [|r m] L; cbn in *; try congruence; try discriminate. f_equal. apply IH. congruence. }
  rewrite <- MF. apply (refine_partition fulldim pts null null_sub null_empty null_union domain props (d_sol st) cells P).
  - intros c k I. apply In_nth_error in I. destruct I as [a I]. apply NC in I. destruct I as [I ->].
    destruct (cell_parent a c I) as (r & A & B & C & E). exists r. split; [exact A|]. split; [exact B|]. split; [|exact C].
    destruct E as [(_ & _ & ->)|(_ & _ & G)].
    + apply (part_full _ _ _ _ _ _ P r), (nth_error_In _ _ A).
    + apply group_in in G. destruct G as [G|G]; apply (separate_full _ _ G).
  - apply fop_nth. intros a c x y L Hx Hy. destruct x as [x kx], y as [y ky]. apply NC in Hx, Hy. destruct Hx as [Hx _], Hy as [Hy _]. cbn [fst].
    destruct (cell_parent a x Hx) as (r & A1 & _ & A3 & A4). destruct (cell_parent c y Hy) as (s & B1 & _ & B3 & B4).
    assert (PD := proj1 (fop_nth _ _) (part_disjoint _ _ _ _ _ _ P)).
    destruct (Nat.lt_trichotomy (parent n i a) (parent n i c)) as [T|[T|T]].
    + apply (null_sub _ _ (PD _ _ _ _ T A1 B1)). intros z [Z1 Z2]. auto.
    + (* two pieces of the divided cell *)
      assert (PI : parent n i a = i /\ parent n i c = i).
      { unfold parent in *. destruct (Nat.leb_spec n a), (Nat.leb_spec n c); lia. }
      assert (GD := proj1 (fop_nth _ _) group_disjoint).
      assert (NG : forall b w, nth_error (d_sol st') b = Some w -> touched n i b -> nth_error group (if b =? i then 0 else S (b - n)) = Some (fst w)).
      { intros b w W [->|T']; [rewrite Nat.eqb_refl; destruct cell_i as (p & G & E); rewrite E in W; injection W as <-; exact G|].
        assert (b <> i) by (assert (Q := i_lt); lia). replace (b =? i) with false by (symmetry; apply Nat.eqb_neq; assumption).
        rewrite (cell_new b T') in W. destruct (nth_error group (S (b - n))) as [r'|]; [injection W as <-; reflexivity|discriminate]. }
      assert (Ta : touched n i a) by (unfold touched, parent in *; destruct (Nat.leb_spec n a); lia).
      assert (Tc : touched n i c) by (unfold touched, parent in *; destruct (Nat.leb_spec n c); lia).
      refine (GD _ _ _ _ _ (NG a x Hx Ta) (NG c y Hy Tc)). assert (Q := i_lt). unfold touched in *. destruct (Nat.eqb_spec a i), (Nat.eqb_spec c i); lia.
    + apply (null_sub _ _ (PD _ _ _ _ T B1 A1)). intros z [Z1 Z2]. auto.
  - intros k r N. destruct (Nat.eq_dec k i) as [->|NE].
    + rewrite Hi in N. injection N as <-. apply (null_sub _ _ group_cover). intros x [A B]. split; [exact A|]. intros r I.
      apply In_nth_error in I. destruct I as [g I]. destruct g as [|g].
      * destruct cell_i as (p & G & E). rewrite I in G. injection G as <-. apply (B (r, snd si)). apply (nth_error_In cells i). apply NC. split; [exact E|].
        unfold parent. assert (Q := i_lt). destruct (Nat.leb_spec n i); lia.
      * assert (W := cell_new (n + g) ltac:(lia)). replace (n + g - n) with g in W by lia. rewrite I in W. cbn [option_map] in W.
        apply (B (r, snd si)). apply (nth_error_In cells (n + g)). apply NC. split; [exact W|]. unfold parent. destruct (Nat.leb_spec n (n + g)); lia.
    + apply (null_sub _ (fun _ => False)); [exact null_empty|]. intros x [A B]. assert (K := nth_error_lt _ _ _ N). apply (B r); [|exact A].
      apply (nth_error_In cells k). apply NC. split; [rewrite (cell_old k K NE); exact N|]. unfold parent. destruct (Nat.leb_spec n k); lia.
Qed.
End Divided.

(** ** The invariant of the loop *)
Section Invariant.
Variables (domain : R) (props : list (string * R)) (cells0 : list (@region R)) (sub0 : option (list nat)) (orig0 : list nat).
Hypothesis orig_is : conservative = false -> orig_list = map fst cells0.
Definition sub_of (sub : option (list nat)) (k : nat) : option nat := match sub with None => None | Some l => nth_error l k end.
Lemma subsystem_of (st : dstate R) i ss : subsystem st i = Ok ss -> ss = sub_of (d_sub st) i.
Proof.
  unfold subsystem, sub_of. destruct (d_sub st) as [l|]; [|intro H; injection H as <-; reflexivity].
  destruct (nth_error l i); [|discriminate]. intro H. injection H as <-. reflexivity.
Qed.
(** The transition from cell [i] to cell [j] can be executed: from every state of [i], except for a set
    of volume less than [abs_tol], the system can be steered into [j] within the cell [i] comes from. *)
Definition executes (sol : list (@region R)) (f : nat -> nat) (j i : nat) : Prop :=
  forall ri rj r0, nth_error sol i = Some ri -> nth_error sol j = Some rj -> nth_error cells0 (f i) = Some r0 ->
    (forall x, inside (fst ri) x -> reach (sub_of sub0 (f i)) (inside (fst r0)) (inside (fst rj)) x)
    \/ exists d, (volume d < abs_tol)%Qc /\
         forall x, inside (fst ri) x -> inside d x \/ reach (sub_of sub0 (f i)) (inside (fst r0)) (inside (fst rj)) x.
(** The pair has been tried with the two cells as they are: the states found do not allow a division,
    and the others are too many for a transition. *)
Definition rejected (st : dstate R) (j i : nat) : Prop :=
  exists si sj ss t S0, tried st j i si sj ss t S0 /\
    ~ (large ss (inter (fst si) S0) /\ large ss (diff (fst si) S0)) /\ (abs_tol <= volume (diff (fst si) S0))%Qc.
Notation within st a c := (reachable_within (len st) trans_length (d_adj st) (d_adj st) a c = true).
Record invariant (f : nat -> nat) (st : dstate R) : Prop := {
  i_part : partition domain props (d_sol st);
  i_sub : match sub0 with
          | None => d_sub st = None
          | Some l0 => exists l, d_sub st = Some l /\ List.length l = len st /\ forall k, k < len st -> nth_error l k = nth_error l0 (f k)
          end;
  i_orig : conservative = false -> List.length (d_orig st) = len st /\ forall k, k < len st -> nth_error (d_orig st) k = Some (f k);
  i_cons : conservative = true -> d_orig st = orig0;
  i_first : List.length cells0 <= len st /\ forall k, k < List.length cells0 -> f k = k;
  i_parent : forall k r, nth_error (d_sol st) k = Some r ->
    exists r0, nth_error cells0 (f k) = Some r0 /\ snd r = snd r0 /\ forall x, inside (fst r) x -> inside (fst r0) x;
  i_refl : forall a, a < len st -> d_adj st a a = true;
  i_sym : forall a c, d_adj st a c = d_adj st c a;
  i_touch : forall a c, touch_at touch (d_sol st) a c = true -> a = c \/ d_adj st a c = true;
  i_trans : forall j i, d_trans st j i = true -> j < len st /\ i < len st /\ executes (d_sol st) f j i;
  i_done : forall j i, j < len st -> i < len st -> within st j i -> d_trans st j i = true \/ d_IJ st j i = true \/ rejected st j i }.

Lemma rejected_same st st' j i : d_sol st' = d_sol st -> d_sub st' = d_sub st -> d_orig st' = d_orig st -> rejected st j i -> rejected st' j i.
Proof.
  intros E1 E2 E3 (si & sj & ss & t & S0 & [Q1 Q2 Q3 Q4 Q5] & Q). exists si, sj, ss, t, S0. split; [|exact Q].
  constructor; [rewrite E1; exact Q1|rewrite E1; exact Q2|unfold subsystem; rewrite E2; exact Q3|unfold trans_set_of; rewrite E3; exact Q4|exact Q5].
Qed.
Lemma set_trans_inv f st j i b : i < len st -> j < len st -> invariant f st ->
  (b = true -> executes (d_sol st) f j i) -> (b = false -> rejected st j i) ->
  invariant f (set_trans (without st j i) (d_IJ (without st j i)) i j b).
Proof.
  intros Hi Hj V E J. destruct V as [V1 V2 V3 V4 V5 V6 V7 V8 V9 V10 V11].
  constructor; cbn [set_trans without d_sol d_sub d_orig d_adj d_trans d_IJ]; try assumption.
  - intros a c H. destruct b.
    + apply put_true in H. destruct H as [[-> ->]|H]; [|apply V10, H]. auto.
    + apply put_false in H. apply V10. tauto.
  - intros a c A C W. destruct (V11 a c A C W) as [T|[T|T]].
    + destruct (put j i b (d_trans st) a c) eqn:PT; [auto|]. right. right. unfold put in PT.
      destruct ((a =? j) && (c =? i)) eqn:Q; [|congruence]. apply andb_true_iff in Q. destruct Q as [Q1 Q2]. apply Nat.eqb_eq in Q1, Q2. subst. apply (rejected_same st); [reflexivity..|]. apply J. reflexivity.
    + unfold put. destruct ((a =? j) && (c =? i)) eqn:Q; [|auto]. apply andb_true_iff in Q. destruct Q as [Q1 Q2]. apply Nat.eqb_eq in Q1, Q2. subst.
      destruct b; [auto|]. right. right. apply (rejected_same st); [reflexivity..|]. apply J. reflexivity.
    + right. right. apply (rejected_same st); [reflexivity..|]. exact T.
Qed.

Lemma tried_executes f st j i si sj ss t S0 : invariant f st -> tried st j i si sj ss t S0 ->
  forall r0, nth_error cells0 (f i) = Some r0 -> forall x, inside (fst si) x -> inside S0 x ->
  reach (sub_of sub0 (f i)) (inside (fst r0)) (inside (fst sj)) x.
Proof.
  intros V T r0 N x A B. destruct T as [T1 T2 T3 T4 T5]. assert (Hi := nth_error_lt _ _ _ T1).
  apply subsystem_of in T3. assert (ES : ss = sub_of sub0 (f i)).
  { rewrite T3. assert (S := i_sub _ _ V). unfold sub_of. destruct sub0 as [l0|]; [|rewrite S; reflexivity].
    destruct S as (l & -> & L & S). apply S, Hi. }
  rewrite <- ES. refine (reach_mono _ _ _ _ _ _ (solve_sound _ _ _ _ _ _ T5 A B)).
  destruct (i_parent _ _ V i si T1) as (r & N' & _ & SB). rewrite N in N'. injection N' as <-.
  unfold trans_set_of in T4. destruct conservative eqn:C; [injection T4 as <-; exact SB|].
  destruct (i_orig _ _ V C) as [_ O]. rewrite (O i Hi) in T4. cbn [of_opt bind] in T4.
  rewrite (orig_is eq_refl) in T4. rewrite (map_nth_error fst _ _ N) in T4. cbn [of_opt bind] in T4. injection T4 as <-. auto.
Qed.

Lemma touched_dec n i a : touched n i a \/ (a < n /\ a <> i).
Proof. unfold touched. lia. Qed.
Lemma touch_at_some sol a c : touch_at touch sol a c = true -> exists r s, nth_error sol a = Some r /\ nth_error sol c = Some s /\ touch r s = true.
Proof. unfold touch_at. destruct (nth_error sol a) as [r|]; [|discriminate]. destruct (nth_error sol c) as [s|]; [|discriminate]. eauto. Qed.
Lemma touch_at_sym sol a c : touch_at touch sol a c = touch_at touch sol c a.
Proof. unfold touch_at. destruct (nth_error sol a), (nth_error sol c); try reflexivity. apply touch_sym. Qed.

Lemma divided_inv f st st' j i si sj ss t S0 : invariant f st -> tried st j i si sj ss t S0 ->
  (min_cell_volume < volume (diff (fst si) S0))%Qc ->
  divided (without st j i) st' i j (snd si) (inter (fst si) S0) (diff (fst si) S0) ->
  invariant (fun k => f (parent (len st) i k)) st'.
Proof.
  intros V T VR D. assert (TE := tried_executes f st j i si sj ss t S0 V T). destruct T as [T1 T2 T3 T4 T5].
  assert (Hi := nth_error_lt _ _ _ T1). assert (Hj := nth_error_lt _ _ _ T2).
  assert (ML := more_cells _ _ _ _ _ _ D (Qcle_lt_trans _ _ _ min_nonneg VR)).
  assert (CP := cell_parent st st' i j si S0 T1 D). assert (CO := cell_old st st' i j si S0 D).
  set (n := len st) in *. set (n' := len st') in *.
  assert (PT : forall a, touched n i a -> parent n i a = i) by (intros a U; unfold touched in U; unfold parent; destruct (Nat.leb_spec n a); lia).
  assert (PU : forall a, a < n -> parent n i a = a) by (intros a L; unfold parent; destruct (Nat.leb_spec n a); lia).
  assert (DA := dv_adj _ _ _ _ _ _ _ _ _ _ _ _ D). cbn [without d_sol d_adj] in DA. fold n n' in DA.
  assert (DI := dv_IJ _ _ _ _ _ _ _ _ _ _ _ _ D). cbn [without d_sol d_IJ] in DI. fold n n' in DI.
  assert (RP : forall m a, a < n' -> n + m = n' -> forall A (x : A) l, List.length l = n -> nth_error l i = Some x -> nth_error (l ++ repeat x m) a = nth_error l (parent n i a)).
  { intros m a A M B x l L N. destruct (Nat.lt_ge_cases a n) as [LT|GE].
    - rewrite (PU a LT), nth_error_app1 by lia. reflexivity.
    - rewrite (PT a (or_intror GE)), nth_error_app2 by lia. rewrite N. apply nth_error_repeat'. lia. }
  constructor.
  - apply (divided_partition st st' i j si S0 T1 D), (i_part _ _ V).
  - assert (S := i_sub _ _ V). assert (DS := dv_sub _ _ _ _ _ _ _ _ _ _ _ _ D). cbn [without d_sub d_sol] in DS. fold n n' in DS.
    destruct sub0 as [l0|]; [|rewrite S in DS; exact DS].
    destruct S as (l & E & L & S). rewrite E in DS. eexists. split; [exact DS|]. split; [rewrite app_length, repeat_length; fold n' n in L |- *; lia|].
    intros k K. destruct (nth_error_ex l i ltac:(lia)) as (x & N). rewrite (nth_error_nth _ _ 0 N).
    rewrite (RP (n' - n) k K ltac:(lia) nat x l L N). apply S, parent_lt, Hi.
  - intro C. destruct (i_orig _ _ V C) as [L O]. assert (DO := dv_orig _ _ _ _ _ _ _ _ _ _ _ _ D). rewrite C in DO. cbn [without d_orig d_sol] in DO. fold n n' in DO, L.
    rewrite DO. fold n'. split; [rewrite app_length, repeat_length; lia|]. intros k K. destruct (nth_error_ex (d_orig st) i ltac:(lia)) as (x & N).
    rewrite (nth_error_nth _ _ 0 N). rewrite (RP (n' - n) k K ltac:(lia) nat x (d_orig st) L N). apply O, parent_lt, Hi.
  - intro C. assert (DO := dv_orig _ _ _ _ _ _ _ _ _ _ _ _ D). rewrite C in DO. rewrite DO. apply (i_cons _ _ V C).
  - destruct (i_first _ _ V) as [L F]. fold n in L. fold n'. split; [lia|]. intros k K. rewrite PU by lia. apply F, K.
  - intros k c N. destruct (CP k c N) as (r & A & B & C & _). destruct (i_parent _ _ V _ r A) as (r0 & A0 & B0 & C0).
    exists r0. split; [exact A0|]. split; [congruence|auto].
  - intros a A. apply DA; [exact A|exact A|]. destruct (touched_dec n i a) as [U|[L NE]]; [left; auto|].
    do 6 right. split; [unfold touched; lia|]. split; [unfold touched; lia|]. apply (i_refl _ _ V a L).
  - assert (SY : forall a c, d_adj st' a c = true -> d_adj st' c a = true); [|intros a c; destruct (d_adj st' a c) eqn:E, (d_adj st' c a) eqn:E'; try reflexivity; [apply SY in E|apply SY in E']; congruence].
    intros a c H. destruct (dv_bound _ _ _ _ _ _ _ _ _ _ _ _ D a c H) as [A C]. fold n' in A, C. apply (DA a c A C) in H. apply (DA c a C A).
    rewrite (i_sym _ _ V c a). intuition subst; auto.
  - intros a c H. assert (Q := touch_at_some _ _ _ H). destruct Q as (r & s & N & M & TT).
    destruct (Nat.eq_dec a c) as [E|NE]; [auto|]. right.
    assert (A : a < n') by (apply (nth_error_lt _ _ _ N)). assert (C : c < n') by (apply (nth_error_lt _ _ _ M)).
    apply (DA a c A C). destruct (CP a r N) as (r1 & N1 & _ & S1 & K1). destruct (CP c s M) as (s1 & M1 & _ & S2 & K2).
    assert (H1 : touch r1 s1 = true).
    { apply (touch_mono r1 r s1 S1). rewrite touch_sym. apply (touch_mono s1 s r S2). rewrite touch_sym. exact TT. }
    assert (AD : parent n i a = parent n i c \/ d_adj st (parent n i a) (parent n i c) = true).
    { apply (i_touch _ _ V). unfold touch_at. rewrite N1, M1. exact H1. }
    destruct (touched_dec n i a) as [U|[L NE1]], (touched_dec n i c) as [U'|[L' NE2]].
    + destruct U as [->|U], U' as [->|U']; [congruence|right; left; lia|right; right; left; lia|right; right; right; left; auto].
    + do 4 right. left. rewrite (PT a U), (PU c L') in AD. destruct AD as [AD|AD]; [congruence|]. repeat split; auto; unfold touched; lia.
    + do 5 right. left. rewrite (PT c U'), (PU a L), (i_sym _ _ V) in AD. destruct AD as [AD|AD]; [congruence|]. rewrite touch_at_sym. repeat split; auto; unfold touched; lia.
    + do 6 right. rewrite (PU a L), (PU c L') in AD. destruct AD as [AD|AD]; [congruence|]. repeat split; auto; unfold touched; lia.
  - intros a c H. apply (dv_trans _ _ _ _ _ _ _ _ _ _ _ _ D) in H. cbn [without d_sol d_trans] in H. fold n in H. fold n'.
    destruct H as [(-> & -> & NE)|(A & C & NE & H)].
    + split; [lia|]. split; [lia|]. intros ri rj r0 N M N0. left. rewrite (PU i Hi) in *.
      rewrite (CO j Hj (not_eq_sym NE)), T2 in M. injection M as <-.
      assert (DP := dv_pieces _ _ _ _ _ _ _ _ _ _ _ _ D). destruct DP as (p & ps & ES & SO). cbn [without d_sol] in SO.
      rewrite SO, nth_error_app1, set_nth_same in N by (rewrite ?set_nth_length; exact Hi). injection N as <-. cbn [fst].
      intros x IX. assert (IS := separate_in (inter (fst si) S0) p x ltac:(rewrite ES; left; reflexivity) IX).
      unfold T_Prop2part.inside in IS. rewrite pts_inter, andb_true_iff in IS. apply (TE r0 N0 x); unfold T_Prop2part.inside; tauto.
    + split; [lia|]. split; [lia|]. destruct (i_trans _ _ V a c H) as (_ & _ & EX).
      intros ri rj r0 N M N0. rewrite (PU c C) in *. rewrite (CO a A NE) in M.
      destruct (CP c ri N) as (r1 & N1 & _ & S1 & _). rewrite (PU c C) in N1.
      destruct (EX r1 rj r0 N1 M N0) as [Y|(d & VD & Y)]; [left; auto|right; exists d; split; [exact VD|]; auto].
  - intros a c A C W. fold n' in A, C. destruct (d_trans st' a c) eqn:TR; [auto|]. right.
    destruct (touched_dec n i a) as [U|[L NE1]]; [left; apply (DI a c A C); left; auto|].
    destruct (touched_dec n i c) as [U'|[L' NE2]]; [left; apply (DI a c A C); left; auto|].
    assert (W' := divided_within _ _ _ _ _ _ _ _ _ _ _ _ D Hi (i_refl _ _ V) (i_sym _ _ V) a c W). cbn [without d_sol d_adj] in W'. fold n in W'.
    rewrite (PU a L), (PU c L') in W'. destruct (i_done _ _ V a c L L' W') as [Q|[Q|Q]].
    + assert (K := dv_trans_kept _ _ _ _ _ _ _ _ _ _ _ _ D a c L L' NE1 NE2). cbn [without d_trans] in K. congruence.
    + left. apply (DI a c A C). right. split; [unfold touched; lia|]. split; [unfold touched; lia|]. apply put_false. split; [lia|exact Q].
    + right. destruct Q as (si' & sj' & ss' & t' & S1 & [Q1 Q2 Q3 Q4 Q5] & Q6 & Q7). exists si', sj', ss', t', S1. split; [|auto].
      constructor; [rewrite (CO c L' NE2); exact Q1|rewrite (CO a L NE1); exact Q2| | |exact Q5].
      * revert Q3. unfold subsystem. assert (DS := dv_sub _ _ _ _ _ _ _ _ _ _ _ _ D). cbn [without d_sub d_sol] in DS. rewrite DS.
        destruct (d_sub st) as [l|]; [|auto]. intro Q3. destruct (nth_error l c) as [v|] eqn:E; [|discriminate]. rewrite nth_error_app1, E by (apply (nth_error_lt _ _ _ E)). exact Q3.
      * revert Q4. unfold trans_set_of. assert (DO := dv_orig _ _ _ _ _ _ _ _ _ _ _ _ D). cbn [without d_orig d_sol] in DO. rewrite DO.
        destruct conservative; [auto|]. intro Q4. destruct (nth_error (d_orig st) c) as [v|] eqn:E; [|discriminate]. rewrite nth_error_app1, E by (apply (nth_error_lt _ _ _ E)). exact Q4.
Qed.

Lemma round_inv f st j i st' : invariant f st -> j < len st -> i < len st -> bi_round st j i = Ok st' -> exists f', invariant f' st'.
Proof.
  intros V Hj Hi H. destruct (bi_round_cases st j i st' Hi Hj H) as (si & sj & ss & t & S0 & T & [(L1 & L2 & D)|(NL & b & -> & B)]).
  - eexists. apply (divided_inv f st st' j i si sj ss t S0 V T (proj1 L2) D).
  - exists f. apply set_trans_inv; try assumption.
    + intros ->. destruct B as [[_ B]|[B _]]; [|discriminate]. intros ri rj r0 N M N0.
      assert (TE := tried_executes f st j i si sj ss t S0 V T r0 N0). rewrite (tr_si _ _ _ _ _ _ _ _ T) in N. rewrite (tr_sj _ _ _ _ _ _ _ _ T) in M. injection N as <-. injection M as <-.
      right. exists (diff (fst si) S0). split; [exact B|]. intros x A. destruct (pts S0 x) eqn:E; [right; apply TE; [exact A|exact E]|left; apply diff_covers; assumption].
    + intros ->. destruct B as [[B _]|[_ B]]; [discriminate|]. exists si, sj, ss, t, S0. auto.
Qed.
(** The invariant holds of every state of the loop; at the end no pair is left. *)
Theorem bi_loop_sound fuel f st st' : invariant f st -> bi_loop fuel st = Some (Ok st') ->
  (exists f', invariant f' st') /\ forall j i, j < len st' -> i < len st' -> d_IJ st' j i = false.
Proof.
  intros V E. apply (bi_loop_inv (fun s => exists g, invariant g s)) with (fuel := fuel) (st := st); [|eauto|exact E].
  intros s j i s' (g & G) J I _ H. apply (round_inv g s j i s'); assumption.
Qed.
(** Only [solve_feasible] can fail. *)
Lemma round_total f st j i : invariant f st -> j < len st -> i < len st ->
  (forall ss a b t, exists S0, solve ss a b t = Ok S0) -> exists st', bi_round st j i = Ok st'.
Proof.
  intros V Hj Hi TT. unfold bi_round at 1. destruct (nth_error_ex _ _ Hi) as (si & Ei), (nth_error_ex _ _ Hj) as (sj & Ej).
  rewrite Ei, Ej. cbn [of_opt bind].
  assert (SS : exists ss, subsystem st i = Ok ss).
  { unfold subsystem. assert (S := i_sub _ _ V). destruct sub0; [|rewrite S; eauto]. destruct S as (l' & -> & L & _).
    destruct (nth_error_ex l' i ltac:(lia)) as (v & ->). cbn. eauto. }
  assert (TS : exists t, trans_set_of conservative orig_list st i = Ok t).
  { unfold trans_set_of. destruct conservative eqn:C; [eauto|]. destruct (i_orig _ _ V C) as [_ O]. rewrite (O i Hi). cbn [of_opt bind].
    destruct (i_parent _ _ V i si Ei) as (r0 & N & _). rewrite (orig_is eq_refl). rewrite (map_nth_error fst _ _ N). cbn. eauto. }
  destruct SS as (ss & ->), TS as (t & ->). cbn [bind]. destruct (TT ss (fst si) (fst sj) t) as (S0 & ->). cbn [bind].
  match goal with |- exists s, (if ?c then _ else _) = _ => destruct c eqn:CC end; [|destruct (more abs_tol (volume (diff (fst si) S0))); eauto].
  rewrite !andb_true_iff, !more_iff in CC. destruct CC as [[[C1 _] _] _]. unfold split_cell.
  destruct (separate (inter (fst si) S0)) as [|p ps] eqn:ES; [|eauto]. exfalso.
  apply (Qclt_not_le _ _ (Qcle_lt_trans _ _ _ min_nonneg C1)). apply volume_null. apply (null_sub _ _ (separate_covers (inter (fst si) S0))). rewrite ES.
  intros x A. split; [exact A|intros c []].
Qed.
End Invariant.

(** ** The loop ends *)
Section Ends.
Hypothesis volume_nonneg : forall r, (0 <= volume r)%Qc.
Hypothesis volume_split : forall a b, (volume (inter a b) + volume (diff a b) <= volume a)%Qc.
Definition total (l : list R) : Qc := fold_right (fun r s => volume r + s)%Qc 0%Qc l.
Hypothesis volume_separate : forall r, (total (separate r) <= volume r)%Qc.
Hypothesis min_pos : (0 < min_cell_volume)%Qc.
(** How many cells of the least volume fit into a cell of volume [v], less one: how often it can be
    divided. *)
Definition fits (v : Qc) : nat := Z.to_nat (Qfloor (this (v / min_cell_volume)%Qc)).
Definition weight (v : Qc) : nat := fits v - 1.
Lemma div_mono a b : (a <= b)%Qc -> (a / min_cell_volume <= b / min_cell_volume)%Qc.
Proof.
  intro H. unfold Qcdiv. apply Qcmult_le_compat_r; [exact H|]. apply Qclt_le_weak.
  destruct (Qclt_le_dec 0 (/ min_cell_volume)) as [L|L]; [exact L|exfalso].
  assert (E : (min_cell_volume * / min_cell_volume = 1)%Qc) by (apply Qcmult_inv_r; intro Z; rewrite Z in min_pos; exact (Qclt_not_le _ _ min_pos (Qcle_refl _))).
  assert (Q := Qcmult_le_compat_r _ _ min_cell_volume L (Qclt_le_weak _ _ min_pos)). rewrite Qcmult_comm, E in Q. rewrite Qcmult_0_l in Q. apply Q. reflexivity.
Qed.
Lemma fits_mono a b : (a <= b)%Qc -> fits a <= fits b.
Proof. intro H. unfold fits. assert (Q := Qfloor_resp_le _ _ (div_mono _ _ H)). lia. Qed.
Lemma div_nonneg a : (0 <= a)%Qc -> (0 <= Qfloor (this (a / min_cell_volume)%Qc))%Z.
Proof.
  intro H. assert (Q := Qfloor_resp_le _ _ (div_mono _ _ H)). unfold Qcdiv in Q. rewrite Qcmult_0_l in Q. exact Q.
Qed.
Lemma fits_add a b : (0 <= a)%Qc -> (0 <= b)%Qc -> fits a + fits b <= fits (a + b).
Proof.
  intros A B. assert (NA := div_nonneg a A). assert (NB := div_nonneg b B).
  assert (F : (Qfloor (this (a / min_cell_volume)%Qc) + Qfloor (this (b / min_cell_volume)%Qc) <= Qfloor (this ((a + b) / min_cell_volume)%Qc))%Z); [|unfold fits; lia].
  rewrite <- (Qfloor_Z (_ + _)). apply Qfloor_resp_le. unfold Qcdiv. rewrite Qcmult_plus_distr_l. unfold Qcplus at 1. cbn [this Q2Qc]. rewrite Qred_correct, inject_Z_plus.
  apply Qplus_le_compat; apply Qfloor_le.
Qed.
Lemma fits_one a : (min_cell_volume < a)%Qc -> 1 <= fits a.
Proof.
  intro H. assert (Q := Qfloor_resp_le _ _ (div_mono _ _ (Qclt_le_weak _ _ H))). unfold fits.
  assert (E : (min_cell_volume / min_cell_volume = 1)%Qc) by (apply Qcmult_inv_r; intro Z; rewrite Z in min_pos; exact (Qclt_not_le _ _ min_pos (Qcle_refl _))).
  rewrite E in Q. change (Qfloor (this 1%Qc)) with 1%Z in Q. lia.
Qed.
Definition weights (l : list R) : nat := list_sum (map (fun r => weight (volume r)) l).
Lemma total_nonneg l : (0 <= total l)%Qc.
Proof.
  induction l as [|r l IH]; [apply Qcle_refl|]. cbn [total fold_right]. fold (total l). rewrite <- (Qcplus_0_l 0). apply Qcplus_le_compat; auto.
Qed.
Lemma weights_total l : weights l <= weight (total l).
Proof.
  induction l as [|r l IH]; [cbn; lia|]. change (weights (r :: l)) with (weight (volume r) + weights l). change (total (r :: l)) with (volume r + total l)%Qc.
  assert (Q := fits_add _ _ (volume_nonneg r) (total_nonneg l)). unfold weight in *. lia.
Qed.
Lemma weights_app l m : weights (l ++ m) = weights l + weights m.
Proof. unfold weights. rewrite map_app, list_sum_app. reflexivity. Qed.
Lemma weight_split a S0 : (min_cell_volume < volume (inter a S0))%Qc -> (min_cell_volume < volume (diff a S0))%Qc ->
  weights (separate (inter a S0)) + weights (separate (diff a S0)) < weight (volume a).
Proof.
  intros A B. assert (Q := fits_mono _ _ (volume_split a S0)). assert (Q1 := fits_add _ _ (volume_nonneg (inter a S0)) (volume_nonneg (diff a S0))).
  assert (Q2 := fits_one _ A). assert (Q3 := fits_one _ B).
  assert (W1 := weights_total (separate (inter a S0))). assert (W2 := weights_total (separate (diff a S0))).
  assert (M1 := fits_mono _ _ (volume_separate (inter a S0))). assert (M2 := fits_mono _ _ (volume_separate (diff a S0))). unfold weight in *. lia.
Qed.
Lemma weights_set : forall (l : list (@region R)) i (r s : @region R), nth_error l i = Some r ->
  weights (map fst (set_nth i s l)) + weight (volume (fst r)) = weights (map fst l) + weight (volume (fst s)).
Proof.
  assert (C : forall r l, weights (r :: l) = weight (volume r) + weights l) by reflexivity.
  induction l as [|z l IH]; intros [|i] r s H; cbn [nth_error] in H; try discriminate; cbn [set_nth map]; rewrite !C.
  - injection H as ->. lia.
  - specialize (IH i r s H). lia.
Qed.
Lemma divided_weights st st' i j si S0 : nth_error (d_sol st) i = Some si ->
  (min_cell_volume < volume (inter (fst si) S0))%Qc -> (min_cell_volume < volume (diff (fst si) S0))%Qc ->
  divided (without st j i) st' i j (snd si) (inter (fst si) S0) (diff (fst si) S0) ->
  weights (map fst (d_sol st')) < weights (map fst (d_sol st)).
Proof.
  intros Hi A B D. destruct (dv_pieces _ _ _ _ _ _ _ _ _ _ _ _ D) as (p & ps & E & S). cbn [without d_sol] in S.
  assert (W := weight_split (fst si) S0 A B). assert (Q := weights_set (d_sol st) i si (p, snd si) Hi). cbn [fst] in Q.
  assert (F : weights (map fst (d_sol st')) = weights (map fst (set_nth i (p, snd si) (d_sol st))) + weights (separate (diff (fst si) S0)) + weights ps).
  { rewrite S, map_app, map_map, weights_app. cbn [fst]. rewrite map_id, weights_app. apply Nat.add_assoc. }
  rewrite E in W. change (weights (p :: ps)) with (weight (volume p) + weights ps) in W. unfold region in *. lia.
Qed.
Definition left_over (n : nat) (IJ : matrix) : nat := List.length (filter (fun p => IJ (fst p) (snd p)) (list_prod (List.seq 0 n) (List.seq 0 n))).
Lemma filter_less {A} (f g : A -> bool) (x : A) : forall l, (forall y, g y = true -> f y = true) -> In x l -> f x = true -> g x = false ->
  List.length (filter g l) < List.length (filter f l).
Proof.
  intros l H. assert (LE : forall m, List.length (filter g m) <= List.length (filter f m)).
  { induction m as [|y m IH]; [cbn; lia|]. cbn. destruct (g y) eqn:G; [rewrite (H y G); cbn; lia|]. destruct (f y); cbn; lia. }
  induction l as [|y l IH]; [intros []|]. intros I F G. cbn. destruct I as [->|I]; [rewrite F, G; cbn; specialize (LE l); lia|].
  specialize (IH I F G). destruct (g y) eqn:GY; [rewrite (H y GY); cbn; lia|]. destruct (f y); cbn; lia.
Qed.
(** With a least volume for cells the loop ends: every division lowers the number of divisions still
    possible, every other round the number of pairs. *)
Theorem bi_loop_ends : forall st, exists fuel r, bi_loop fuel st = Some r.
Proof.
  assert (G : forall w k st, weights (map fst (d_sol st)) < w -> left_over (len st) (d_IJ st) < k -> exists fuel r, bi_loop fuel st = Some r).
  { induction w as [|w IHw]; [intros; lia|]. induction k as [|k IHk]; [intros; lia|]. intros st W K.
    destruct (first_pair (len st) (d_IJ st)) as [(j & i)|] eqn:F; [|exists 0, (Ok st); cbn [M_Discretize.bi_loop]; rewrite F; reflexivity].
    assert (F' := F). apply first_pair_some in F'. destruct F' as (Hj & Hi & T).
    destruct (bi_round st j i) as [st'|e] eqn:B; [|exists 1, (Err e); cbn [M_Discretize.bi_loop]; rewrite F, B; reflexivity].
    assert (N : exists fuel r, bi_loop fuel st' = Some r).
    { destruct (bi_round_cases st j i st' Hi Hj B) as (si & sj & ss & t & S0 & TR & [(L1 & L2 & D)|(NL & b & -> & _)]).
      - apply (IHw (S (left_over (len st') (d_IJ st')))); [|lia].
        assert (Q := divided_weights st st' i j si S0 (tr_si _ _ _ _ _ _ _ _ TR) (proj1 L1) (proj1 L2) D). lia.
      - apply IHk; cbn [set_trans without d_sol d_IJ]; [exact W|].
        assert (Q := filter_less (fun p => d_IJ st (fst p) (snd p)) (fun p => put j i false (d_IJ st) (fst p) (snd p)) (j, i) (list_prod (List.seq 0 (len st)) (List.seq 0 (len st)))).
        unfold left_over in *. refine (Nat.lt_le_trans _ _ _ (Q _ _ T _) _); [| | |lia].
        + intros y H. apply put_false in H. apply H.
        + apply in_prod_iff. rewrite !in_seq. lia.
        + cbn [fst snd]. destruct (put j i false (d_IJ st) j i) eqn:P; [|reflexivity]. apply put_false in P. destruct P as [P _]. exfalso. apply P. auto. }
    destruct N as (fuel & r & E). exists (S fuel), r. cbn [M_Discretize.bi_loop]. rewrite F, B. exact E. }
  intro st. apply (G (S (weights (map fst (d_sol st)))) (S (left_over (len st) (d_IJ st)))); lia.
Qed.
End Ends.
End Bi.
Print Assumptions bi_loop_sound.
Print Assumptions bi_loop_ends.
Print Assumptions round_total.
