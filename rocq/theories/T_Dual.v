(** The abstraction computed by [_discretize_dual]: the cells it was given stay and still cover the
    domain, every further cell is part of one of them, its transitions can be executed by the system, and
    every other pair of cells that are close enough has been tried. *)
From Coq Require Import List String Bool Arith ZArith Lia QArith Qcanon.
From Verif Require Import M_Tree M_Base S_LTL M_Dict M_Graph S_Run M_Fts T_Fts M_Part T_Prop2part T_Refine M_Discretize L_Discretize L_Ts T_Discretize T_Abstract M_Dual.
Import ListNotations.
Open Scope string_scope.
Open Scope list_scope.
Open Scope nat_scope.

Section Dual.
Context {R X : Type} (inter diff : R -> R -> R) (fulldim : R -> bool) (le : R -> R -> bool).
Context (pts : R -> X -> bool) (null : (X -> Prop) -> Prop).
Hypothesis null_sub : forall A B : X -> Prop, null B -> (forall x, A x -> B x) -> null A.
Hypothesis null_empty : null (fun _ => False).
Hypothesis null_union : forall A B, null A -> null B -> null (fun x => A x \/ B x).
Hypothesis pts_inter : forall a b x, pts (inter a b) x = pts a x && pts b x.
Hypothesis diff_covers : forall a b x, pts a x = true -> pts b x = false -> pts (diff a b) x = true.
Hypothesis full : forall r, fulldim r = false <-> null (fun x => pts r x = true).
Hypothesis le_ok : forall a b, le a b = true <-> (forall x, pts a x = true -> pts b x = true).
Notation inside := (inside pts).
Notation partition := (partition fulldim pts null).

Context (touch : @region R -> @region R -> bool) (volume radius : R -> Qc) (separate : R -> list R).
Context (solve : option nat -> R -> R -> option R -> res R) (rd : option nat -> Qc).
Context (min_cell_volume abs_tol : Qc) (trans_length : nat) (conservative : bool).
Hypothesis separate_in : forall r c x, In c (separate r) -> inside c x -> inside r x.
Hypothesis separate_covers : forall r, null (fun x => inside r x /\ forall c, In c (separate r) -> ~ inside c x).
Hypothesis separate_full : forall r c, In c (separate r) -> fulldim c = true.
Hypothesis volume_null : forall r, null (inside r) -> (volume r <= 0)%Qc.
Hypothesis volume_split : forall a b, (volume (inter a b) + volume (diff a b) <= volume a)%Qc.
Hypothesis min_nonneg : (0 <= min_cell_volume)%Qc.
Hypothesis touch_sym : forall r s, touch r s = touch s r.
Hypothesis touch_mono : forall r r' s, (forall x, inside (fst r') x -> inside (fst r) x) -> touch r' s = true -> touch r s = true.
Context (reach : option nat -> (X -> Prop) -> (X -> Prop) -> X -> Prop).
Hypothesis reach_mono : forall s (M M' G : X -> Prop) x, (forall y, M y -> M' y) -> reach s M G x -> reach s M' G x.
Hypothesis solve_sound : forall s a b t S0 x, solve s a b t = Ok S0 -> inside a x -> inside S0 x ->
  reach s (inside (match t with None => a | Some c => c end)) (inside b) x.
Notation len st := (List.length (d_sol st)).
Notation within st a c := (reachable_within (len st) trans_length (d_adj st) (d_adj st) a c = true).

(** ** One more cell *)
Section Round.
Context (rm : bool) (orig_list : list R).
Notation dual_round := (dual_round inter le touch volume radius separate solve rd min_cell_volume abs_tol trans_length conservative orig_list rm).
Notation dual_loop := (dual_loop inter le touch volume radius separate solve rd min_cell_volume abs_tol trans_length conservative orig_list rm).
Notation tried := (tried solve conservative orig_list).
Lemma link_one_iff sol new : forall ks adj adj', link_one touch trans_length rm sol new ks adj = Ok adj' ->
  forall a c, adj' a c = true <-> adj a c = true \/ (a = new /\ In c ks /\ touch_at touch sol new c = true) \/ (c = new /\ In a ks /\ touch_at touch sol new a = true).
Proof.
  induction ks as [|k ks IH]; intros adj adj' E a c; cbn [link_one] in E.
  - injection E as <-. cbn [In]. tauto.
  - destruct (touch_at touch sol new k) eqn:T.
    + rewrite (IH _ _ E), !put_true. cbn [In]. split.
      * intros [[[-> ->]|[[-> ->]|H]]|H]; tauto.
      * intros [H|[(-> & [<-|I] & U)|(-> & [<-|I] & U)]]; tauto.
    + destruct (rm && (trans_length =? 1)); [discriminate|]. rewrite (IH _ _ E). cbn [In]. split; [tauto|].
      intros [H|[(-> & [<-|I] & U)|(-> & [<-|I] & U)]]; try congruence; tauto.
Qed.
Record added (st st' : dstate R) (i j : nat) (props : list string) (isect : R) : Prop := {
  an_piece : exists piece, In piece (separate isect) /\ d_sol st' = d_sol st ++ [(piece, props)];
  an_sub : d_sub st' = d_sub st;
  an_orig : d_orig st' = if conservative then d_orig st else d_orig st ++ [nth i (d_orig st) 0];
  an_adj : forall a c, d_adj st' a c = true <->
    (a < len st /\ c < len st /\ d_adj st a c = true) \/ (a = len st /\ (c = len st \/ c = i)) \/ (a = i /\ c = len st)
    \/ (a = len st /\ c < len st /\ c <> i /\ d_adj st i c = true /\ touch_at touch (d_sol st') (len st) c = true)
    \/ (c = len st /\ a < len st /\ a <> i /\ d_adj st i a = true /\ touch_at touch (d_sol st') (len st) a = true);
  an_trans : forall a c, d_trans st' a c = true <->
    (a < len st /\ c < len st /\ d_trans st a c = true) \/ (c = len st /\ a < len st /\ d_trans st a i = true /\ within st' a i)
    \/ (a = j /\ c = len st /\ within st' j (len st));
  an_IJ : forall a c, d_IJ st' a c = true <->
    ((a = i \/ a = len st \/ c = i \/ c = len st) /\ within st' a c /\ d_trans st' a c = false)
    \/ (~ (a = i \/ a = len st \/ c = i \/ c = len st) /\ a < len st /\ c < len st /\ d_IJ st a c = true) }.
Lemma add_cell_added st st' i j props isect : i < len st -> j < len st ->
  add_cell touch separate trans_length conservative rm st i j props isect = Ok st' -> added st st' i j props isect.
Proof.
  intros Hi Hj. unfold add_cell. destruct (separate isect) as [|piece pieces] eqn:ES; [discriminate|]. cbn [hd_error of_opt bind].
  set (n := len st) in *. set (sol := d_sol st ++ [(piece, props)]).
  match goal with |- bind ?b _ = _ -> _ => destruct b as [adj|e] eqn:EL; [|discriminate] end. cbn [bind].
  match goal with |- Ok ?x = _ -> _ => intro H; assert (E : st' = x) by congruence; clear H end. subst st'.
  assert (LS : @List.length (@region R) sol = S n) by (unfold sol; rewrite app_length; cbn [List.length]; fold n; lia).
  set (t1 := padded n (d_trans st)) in *. set (adj_k := reachable_within (S n) trans_length adj adj) in *.
  constructor; cbn [d_sol d_sub d_orig d_adj d_trans d_IJ]; fold n; rewrite ?LS; fold adj_k.
  - exists piece. split; [rewrite ES; left; reflexivity|reflexivity].
  - reflexivity.
  - reflexivity.
  - intros a c. rewrite (link_one_iff _ _ _ _ _ EL), !put_true, padded_iff, !filter_In, !in_seq, !andb_true_iff, !negb_true_iff, !Nat.eqb_neq.
    intuition (try lia); subst; intuition (try lia).
  - intros a c.
    assert (T2 : forall a c, set_col n (fun a => t1 a i && adj_k a i) t1 a c = true <->
      (a < n /\ c < n /\ d_trans st a c = true) \/ (c = n /\ a < n /\ d_trans st a i = true /\ adj_k a i = true)).
    { intros x y. rewrite set_col_iff, andb_true_iff. unfold t1. rewrite !padded_iff. intuition lia. }
    destruct (adj_k j n) eqn:AK; [rewrite put_true, T2|rewrite T2]; intuition congruence.
  - intros a c. unfold sym_adj_change. rewrite set_col_iff, set_row_iff, set_col_iff, set_row_iff, padded_iff, !andb_true_iff, !negb_true_iff.
    destruct (Nat.eq_dec a i), (Nat.eq_dec a n), (Nat.eq_dec c i), (Nat.eq_dec c n); subst; intuition (try congruence; try lia).
Qed.
(** The part [isect] of cell [si] is not to become a cell: it is too small, or leaves too little, or the
    cell is too small for the disturbance. *)
Definition divisible (ss : option nat) (si isect : R) : Prop :=
  (min_cell_volume < volume isect)%Qc /\ (rd ss < radius isect)%Qc /\ (min_cell_volume < volume si - volume isect)%Qc /\ (rd ss < radius si)%Qc.
Lemma same_iff a b : same le a b = true <-> forall x, inside a x <-> inside b x.
Proof.
  unfold same. rewrite andb_true_iff, !le_ok. unfold T_Prop2part.inside. firstorder.
Qed.
Lemma equals_iff sol r k : In k (equals le sol r) <-> exists c, nth_error sol k = Some c /\ forall x, inside (fst c) x <-> inside r x.
Proof.
  unfold equals. rewrite filter_In, in_seq. split.
  - intros [_ H]. destruct (nth_error sol k) as [c|]; [|discriminate]. exists c. split; [reflexivity|]. apply same_iff, H.
  - intros (c & N & H). rewrite N. split; [split; [lia|exact (nth_error_lt _ _ _ N)]|]. apply same_iff, H.
Qed.
Lemma puts_true j l : forall m a c, fold_left (fun m k => put j k true m) l m a c = true <-> (a = j /\ In c l) \/ m a c = true.
Proof.
  induction l as [|k l IH]; intros m a c; cbn [fold_left In]; [tauto|]. rewrite IH, put_true. intuition (subst; auto).
Qed.
Lemma dual_round_cases st j i st' : i < len st -> j < len st -> dual_round st j i = Ok st' ->
  exists si sj ss t S0, tried st j i si sj ss t S0 /\
    ((divisible ss (fst si) (inter (fst si) S0) /\ (forall k, ~ In k (equals le (d_sol st) (inter (fst si) S0))) /\ added (without st j i) st' i j (snd si) (inter (fst si) S0))
     \/ (divisible ss (fst si) (inter (fst si) S0) /\ exists found, found <> [] /\ (forall k, In k found <-> In k (equals le (d_sol st) (inter (fst si) S0))) /\
           st' = DS (d_sol st) (d_sub st) (d_orig st) (d_adj st) (fold_left (fun m k => put j k true m) found (d_trans st)) (put j i false (d_IJ st)))
     \/ (~ divisible ss (fst si) (inter (fst si) S0) /\
         exists b, st' = set_trans (without st j i) (d_IJ (without st j i)) i j b /\
           (b = true /\ (volume (fst si) - volume (inter (fst si) S0) < abs_tol)%Qc \/ b = false /\ (abs_tol <= volume (fst si) - volume (inter (fst si) S0))%Qc))).
Proof.
  intros Hi Hj. unfold M_Dual.dual_round. destruct (nth_error (d_sol st) i) as [si|] eqn:Ei; [|discriminate]. destruct (nth_error (d_sol st) j) as [sj|] eqn:Ej; [|discriminate].
  cbn [of_opt bind]. destruct (subsystem st i) as [ss|e] eqn:Es; [|discriminate]. cbn [bind].
  destruct (trans_set_of conservative orig_list st i) as [t|e] eqn:Et; [|discriminate]. cbn [bind].
  destruct (solve ss (fst si) (fst sj) t) as [S0|e] eqn:ES; [|discriminate]. cbn [bind]. intro H.
  exists si, sj, ss, t, S0. split; [constructor; assumption|].
  match type of H with (if ?c then _ else _) = _ => destruct c eqn:C end.
  - rewrite !andb_true_iff, !more_iff in C. destruct C as [[[C1 C2] C3] C4]. assert (DV : divisible ss (fst si) (inter (fst si) S0)) by (repeat split; assumption).
    destruct (equals le (d_sol st) (inter (fst si) S0)) as [|k0 found] eqn:EQ.
    + left. split; [exact DV|]. split; [intros k []|]. apply add_cell_added; [exact Hi|exact Hj|exact H].
    + right. left. split; [exact DV|]. exists (k0 :: found). split; [discriminate|]. split; [reflexivity|]. congruence.
  - right. right. split.
    { intros (L1 & L2 & L3 & L4). apply more_iff in L1, L2, L3, L4. rewrite L1, L2, L3, L4 in C. discriminate. }
    destruct (more abs_tol (volume (fst si) - volume (inter (fst si) S0))%Qc) eqn:M.
    + apply more_iff in M. exists true. split; [change (Ok (set_trans (without st j i) (d_IJ (without st j i)) i j true) = Ok st') in H; congruence|auto].
    + apply more_false in M. exists false. split; [change (Ok (set_trans (without st j i) (d_IJ (without st j i)) i j false) = Ok st') in H; congruence|auto].
Qed.
Lemma dual_loop_inv (P : dstate R -> Prop) :
  (forall st j i st', P st -> j < len st -> i < len st -> d_IJ st j i = true -> dual_round st j i = Ok st' -> P st') ->
  forall fuel st st', P st -> dual_loop fuel st = Some (Ok st') -> P st' /\ forall j i, j < len st' -> i < len st' -> d_IJ st' j i = false.
Proof.
  intro H. induction fuel as [|fuel IH]; intros st st' HP E; cbn [M_Dual.dual_loop] in E;
    (destruct (first_pair (len st) (d_IJ st)) as [(j & i)|] eqn:F; [|injection E as <-; split; [exact HP|intros j i J I; apply (first_pair_none _ _ _ _ F J I)]]).
  - discriminate.
  - apply first_pair_some in F. destruct F as (J & I & T). destruct (dual_round st j i) as [st1|e] eqn:B; [|discriminate].
    apply (IH st1 st'); [|exact E]. apply (H st j i st1); assumption.
Qed.

(** ** The invariant of the loop *)
Section Invariant.
Variables (domain : R) (props : list (string * R)) (cells0 : list (@region R)) (sub0 : option (list nat)) (orig0 : list nat).
Hypothesis orig_is : conservative = false -> orig_list = map fst cells0.
Hypothesis part0 : partition domain props cells0.
Hypothesis sub_len : match sub0 with None => True | Some l => List.length l = List.length cells0 end.
Notation executes := (executes pts volume abs_tol reach cells0 sub0).
(** The pair has been tried: the states found do not allow a division, and the others are too many for a
    transition. *)
Definition declined (st : dstate R) (j i : nat) : Prop :=
  exists si sj ss t S0, tried st j i si sj ss t S0 /\ ~ divisible ss (fst si) (inter (fst si) S0) /\ (abs_tol <= volume (fst si) - volume (inter (fst si) S0))%Qc.
(** The pair has been tried: the states found in [i] are those of a cell, which has the transition to [j]
    or has been tried itself. *)
Definition represented (st : dstate R) (j i : nat) : Prop :=
  exists si sj ss t S0 k c, tried st j i si sj ss t S0 /\ divisible ss (fst si) (inter (fst si) S0) /\
    nth_error (d_sol st) k = Some c /\ (forall x, inside (fst c) x <-> inside (fst si) x /\ inside S0 x) /\ (d_trans st j k = true \/ declined st j k).
Record kept (f : nat -> nat) (st : dstate R) : Prop := {
  k_cells : exists extra, d_sol st = cells0 ++ extra;
  k_first : forall k, k < List.length cells0 -> f k = k;
  k_parent : forall k r, nth_error (d_sol st) k = Some r -> fulldim (fst r) = true /\
    exists r0, nth_error cells0 (f k) = Some r0 /\ snd r = snd r0 /\ forall x, inside (fst r) x -> inside (fst r0) x;
  k_sub : d_sub st = sub0;
  k_orig : conservative = false -> List.length (d_orig st) = len st /\ forall k, k < len st -> nth_error (d_orig st) k = Some (f k);
  k_cons : conservative = true -> d_orig st = orig0;
  k_refl : forall a, a < len st -> d_adj st a a = true;
  k_sym : forall a c, d_adj st a c = d_adj st c a;
  k_touch : forall a c, touch_at touch (d_sol st) a c = true -> a = c \/ d_adj st a c = true;
  k_trans : forall j i, d_trans st j i = true -> j < len st /\ i < len st /\ executes (d_sol st) f j i;
  k_done : forall j i, j < len st -> i < len st -> within st j i -> d_trans st j i = true \/ d_IJ st j i = true \/ declined st j i \/ represented st j i }.

Lemma len_cells st f : kept f st -> List.length cells0 <= len st.
Proof. intros V. destruct (k_cells _ _ V) as (extra & ->). rewrite app_length. lia. Qed.
(** What is known of a pair stays, when cells and transitions are added. *)
Definition grows (st st' : dstate R) : Prop :=
  (exists extra, d_sol st' = d_sol st ++ extra) /\ d_sub st' = d_sub st /\ (exists extra, d_orig st' = d_orig st ++ extra).
Lemma nth_more {A} (l m : list A) k x : nth_error l k = Some x -> nth_error (l ++ m) k = Some x.
Proof. intro H. rewrite nth_error_app1 by exact (nth_error_lt _ _ _ H). exact H. Qed.
Lemma tried_grows st st' j i si sj ss t S0 : grows st st' -> tried st j i si sj ss t S0 -> tried st' j i si sj ss t S0.
Proof.
  intros ((e1 & E1) & E2 & (e3 & E3)) [Q1 Q2 Q3 Q4 Q5]. constructor.
  - rewrite E1. apply nth_more, Q1.
  - rewrite E1. apply nth_more, Q2.
  - unfold subsystem in *. rewrite E2. exact Q3.
  - revert Q4. unfold trans_set_of. destruct conservative; [auto|]. rewrite E3. destruct (nth_error (d_orig st) i) as [o|] eqn:N; [|discriminate].
    rewrite (nth_more _ e3 _ _ N). auto.
  - exact Q5.
Qed.
Lemma declined_grows st st' j i : grows st st' -> declined st j i -> declined st' j i.
Proof. intros G (si & sj & ss & t & S0 & T & D). exists si, sj, ss, t, S0. split; [apply (tried_grows st), T; exact G|exact D]. Qed.
Lemma represented_grows st st' j i : grows st st' -> (forall k, d_trans st j k = true -> d_trans st' j k = true \/ declined st' j k) -> represented st j i -> represented st' j i.
Proof.
  intros G TR (si & sj & ss & t & S0 & k & c & T & D & N & EQ & K). exists si, sj, ss, t, S0, k, c. split; [apply (tried_grows st), T; exact G|].
  split; [exact D|]. split; [destruct G as ((e & ->) & _); apply nth_more, N|]. split; [exact EQ|]. destruct K as [K|K]; [apply TR, K|right; apply (declined_grows st), K; exact G].
Qed.
Lemma tried_reach f st j i si sj ss t S0 : kept f st -> tried st j i si sj ss t S0 ->
  forall r0, nth_error cells0 (f i) = Some r0 -> forall x, inside (fst si) x -> inside S0 x ->
  reach (sub_of sub0 (f i)) (inside (fst r0)) (inside (fst sj)) x.
Proof.
  intros V T r0 N x A B. destruct T as [T1 T2 T3 T4 T5]. assert (Hi := nth_error_lt _ _ _ T1).
  assert (ES : ss = sub_of sub0 (f i)).
  { assert (S := T3). apply subsystem_of in T3. rewrite T3, (k_sub _ _ V). unfold subsystem in S. rewrite (k_sub _ _ V) in S. unfold sub_of. destruct sub0 as [l0|]; [|reflexivity].
    destruct (nth_error l0 i) as [v|] eqn:NI; [|discriminate]. apply nth_error_lt in NI as L. rewrite sub_len in L. rewrite (k_first _ _ V i L), NI. reflexivity. }
  rewrite <- ES. refine (reach_mono _ _ _ _ _ _ (solve_sound _ _ _ _ _ _ T5 A B)).
  destruct (k_parent _ _ V i si T1) as (_ & r & N' & _ & SB). rewrite N in N'. injection N' as <-.
  unfold trans_set_of in T4. destruct conservative eqn:C; [injection T4 as <-; exact SB|].
  destruct (k_orig _ _ V C) as [_ O]. rewrite (O i Hi) in T4. cbn [of_opt bind] in T4.
  rewrite (orig_is eq_refl) in T4. rewrite (map_nth_error fst _ _ N) in T4. cbn [of_opt bind] in T4. injection T4 as <-. auto.
Qed.
Lemma kept_set_trans f st j i b : i < len st -> j < len st -> kept f st ->
  (b = true -> executes (d_sol st) f j i) -> (b = false -> declined st j i) ->
  kept f (set_trans (without st j i) (d_IJ (without st j i)) i j b).
Proof.
  intros Hi Hj V E J. set (st' := set_trans _ _ _ _ _). assert (G : grows st st') by (split; [exists []; symmetry; apply app_nil_r|split; [reflexivity|exists []; symmetry; apply app_nil_r]]).
  assert (TR : forall a c, d_trans st a c = true -> d_trans st' a c = true \/ declined st' a c).
  { intros a c T. destruct (d_trans st' a c) eqn:PT; [auto|]. right. cbn [st' set_trans without d_trans] in PT. unfold put in PT.
    destruct ((a =? j) && (c =? i)) eqn:Q; [|congruence]. apply andb_true_iff in Q. destruct Q as [Q1 Q2]. apply Nat.eqb_eq in Q1, Q2. subst. apply (declined_grows st); [exact G|]. apply J. reflexivity. }
  destruct V as [V1 V2 V3 V4 V5 V6 V7 V8 V9 V10 V11].
  constructor; try assumption.
  - intros a c H. cbn [st' set_trans without d_trans d_sol] in *. destruct b.
    + apply put_true in H. destruct H as [[-> ->]|H]; [|apply V10, H]. auto.
    + apply put_false in H. apply V10. tauto.
  - intros a c A C W. destruct (V11 a c A C W) as [T|[T|[T|T]]].
    + destruct (TR a c T); auto.
    + cbn [st' set_trans without d_IJ d_trans]. unfold put. destruct ((a =? j) && (c =? i)) eqn:Q; [|auto]. apply andb_true_iff in Q. destruct Q as [Q1 Q2]. apply Nat.eqb_eq in Q1, Q2. subst.
      destruct b; [auto|]. right. right. left. apply (declined_grows st); [exact G|]. apply J. reflexivity.
    + right. right. left. apply (declined_grows st); assumption.
    + right. right. right. apply (represented_grows st); [exact G| |exact T]. intro k. apply TR.
Qed.
(** A cell with the states found lies in the same given cell. *)
Lemma found_parent f st i si isect k c : kept f st -> nth_error (d_sol st) i = Some si -> (forall x, inside isect x -> inside (fst si) x) ->
  (0 < volume isect)%Qc -> nth_error (d_sol st) k = Some c -> (forall x, inside (fst c) x <-> inside isect x) -> f k = f i.
Proof.
  intros V Ni SI VP Nk EQ. destruct (k_parent _ _ V i si Ni) as (_ & ri & Ri & _ & Si). destruct (k_parent _ _ V k c Nk) as (_ & rk & Rk & _ & Sk).
  assert (PD := proj1 (fop_nth _ _) (part_disjoint _ _ _ _ _ _ part0)).
  assert (NN : forall Q : X -> Prop, null Q -> (forall x, inside isect x -> Q x) -> False).
  { intros Q NQ H. apply (Qclt_not_le _ _ VP). apply volume_null. apply (null_sub _ _ NQ). exact H. }
  destruct (Nat.lt_trichotomy (f k) (f i)) as [L|[L|L]]; [|exact L|]; exfalso.
  - apply (NN _ (PD _ _ _ _ L Rk Ri)). intros x I. split; [apply Sk, EQ, I|apply Si, SI, I].
  - apply (NN _ (PD _ _ _ _ L Ri Rk)). intros x I. split; [apply Si, SI, I|apply Sk, EQ, I].
Qed.
Lemma kept_found f st j i si sj ss t S0 found : kept f st -> tried st j i si sj ss t S0 -> divisible ss (fst si) (inter (fst si) S0) -> found <> [] ->
  (forall k, In k found <-> In k (equals le (d_sol st) (inter (fst si) S0))) ->
  kept f (DS (d_sol st) (d_sub st) (d_orig st) (d_adj st) (fold_left (fun m k => put j k true m) found (d_trans st)) (put j i false (d_IJ st))).
Proof.
  intros V T DV NE FI. set (st' := DS _ _ _ _ _ _). assert (G : grows st st') by (split; [exists []; symmetry; apply app_nil_r|split; [reflexivity|exists []; symmetry; apply app_nil_r]]).
  assert (TE := tried_reach f st j i si sj ss t S0 V T). assert (Hj := nth_error_lt _ _ _ (tr_sj _ _ _ _ _ _ _ _ _ _ _ T)).
  assert (II : forall x, inside (inter (fst si) S0) x <-> inside (fst si) x /\ inside S0 x) by (intro x; unfold T_Prop2part.inside; rewrite pts_inter, andb_true_iff; reflexivity).
  assert (TR : forall a c, d_trans st a c = true -> d_trans st' a c = true) by (intros a c H; apply puts_true; auto).
  assert (V' := V). destruct V' as [V1 V2 V3 V4 V5 V6 V7 V8 V9 V10 V11]. constructor; try assumption.
  - intros a c H. cbn [st' d_trans d_sol] in *. apply puts_true in H. destruct H as [[-> I]|H]; [|apply V10, H].
    apply FI, equals_iff in I. destruct I as (rc & N & EQ). split; [exact Hj|]. split; [exact (nth_error_lt _ _ _ N)|].
    assert (FE : f c = f i).
    { apply (found_parent f st i si (inter (fst si) S0) c rc V (tr_si _ _ _ _ _ _ _ _ _ _ _ T)); [intros x I; apply II, I|exact (Qcle_lt_trans _ _ _ min_nonneg (proj1 DV))|exact N|exact EQ]. }
    intros ri rj r0 Ni Nj N0. rewrite N in Ni. injection Ni as <-. rewrite (tr_sj _ _ _ _ _ _ _ _ _ _ _ T) in Nj. injection Nj as <-. rewrite FE in *.
    left. intros x IX. apply EQ, II in IX. apply (TE r0 N0 x); tauto.
  - intros a c A C W. destruct (V11 a c A C W) as [Q|[Q|[Q|Q]]].
    + left. apply TR, Q.
    + cbn [st' d_IJ]. unfold put. destruct ((a =? j) && (c =? i)) eqn:QE; [|auto]. apply andb_true_iff in QE. destruct QE as [Q1 Q2]. apply Nat.eqb_eq in Q1, Q2. subst.
      right. right. right. destruct found as [|k found]; [congruence|]. assert (I : In k (k :: found)) by (left; reflexivity). assert (I' := I). apply FI, equals_iff in I'. destruct I' as (rc & N & EQ).
      exists si, sj, ss, t, S0, k, rc. split; [apply (tried_grows st); assumption|]. split; [exact DV|]. split; [exact N|]. split; [intro x; rewrite EQ; apply II|].
      left. apply puts_true. auto.
    + right. right. left. apply (declined_grows st); assumption.
    + right. right. right. apply (represented_grows st); [exact G| |exact Q]. intros k K. left. apply TR, K.
Qed.

Section Added.
Variables (f : nat -> nat) (st st' : dstate R) (j i : nat) (si sj : @region R) (ss : option nat) (t : option R) (S0 : R).
Hypothesis V : kept f st.
Hypothesis T : tried st j i si sj ss t S0.
Hypothesis D : added (without st j i) st' i j (snd si) (inter (fst si) S0).
Notation n := (len st).
Notation f' := (fun k => f (parent n i k)).
Lemma i_less : i < n.
Proof. exact (nth_error_lt _ _ _ (tr_si _ _ _ _ _ _ _ _ _ _ _ T)). Qed.
Lemma added_len : len st' = S n.
Proof. destruct (an_piece _ _ _ _ _ _ D) as (p & _ & ->). cbn [without d_sol]. rewrite app_length. cbn [List.length]. apply Nat.add_1_r. Qed.
Lemma added_grows : grows st st'.
Proof.
  destruct (an_piece _ _ _ _ _ _ D) as (p & _ & E). split; [eexists; exact E|]. split; [exact (an_sub _ _ _ _ _ _ D)|]. rewrite (an_orig _ _ _ _ _ _ D). cbn [without d_orig].
  destruct conservative; [exists []; symmetry; apply app_nil_r|eexists; reflexivity].
Qed.
Lemma added_old a : a < n -> nth_error (d_sol st') a = nth_error (d_sol st) a.
Proof. intro A. destruct (an_piece _ _ _ _ _ _ D) as (p & _ & ->). cbn [without d_sol]. apply nth_error_app1, A. Qed.
Lemma added_new : exists p, nth_error (d_sol st') n = Some (p, snd si) /\ fulldim p = true /\ forall x, inside p x -> inside (fst si) x /\ inside S0 x.
Proof.
  destruct (an_piece _ _ _ _ _ _ D) as (p & IP & ->). cbn [without d_sol]. exists p. rewrite nth_error_app2, Nat.sub_diag by lia. split; [reflexivity|].
  split; [apply (separate_full _ _ IP)|]. intros x I. apply (separate_in _ _ _ IP) in I. unfold T_Prop2part.inside in *. rewrite pts_inter, andb_true_iff in I. exact I.
Qed.
Lemma parent_old a : a < n -> parent n i a = a.
Proof. intro L. unfold parent. destruct (Nat.leb_spec n a); lia. Qed.
Lemma parent_new : parent n i n = i.
Proof. unfold parent. rewrite Nat.leb_refl. reflexivity. Qed.
Lemma added_parent a c : nth_error (d_sol st') a = Some c -> exists r, nth_error (d_sol st) (parent n i a) = Some r /\ snd c = snd r /\ fulldim (fst c) = true /\ (forall x, inside (fst c) x -> inside (fst r) x).
Proof.
  intro N. assert (A := nth_error_lt _ _ _ N). rewrite added_len in A. destruct (Nat.eq_dec a n) as [->|NE].
  - destruct added_new as (p & N' & FP & IP). rewrite N in N'. injection N' as ->. rewrite parent_new. exists si. split; [exact (tr_si _ _ _ _ _ _ _ _ _ _ _ T)|]. split; [reflexivity|]. split; [exact FP|]. intros x I. apply IP, I.
  - assert (L : a < n) by lia. rewrite added_old in N by exact L. rewrite parent_old by exact L. exists c. split; [exact N|]. split; [reflexivity|]. split; [apply (k_parent _ _ V a c N)|auto].
Qed.
Lemma added_hop a c : d_adj st' a c = true -> d_adj st (parent n i a) (parent n i c) = true.
Proof.
  intro H. apply (an_adj _ _ _ _ _ _ D) in H. cbn [without d_sol d_adj] in H. assert (Hi := i_less). assert (RF := k_refl _ _ V). assert (SY := k_sym _ _ V).
  destruct H as [(A & C & H)|[(-> & [-> | ->])|[(-> & ->)|[(-> & C & NE & H & _)|(-> & A & NE & H & _)]]]]; rewrite ?parent_new, ?parent_old by assumption; auto. rewrite SY. exact H.
Qed.
Lemma added_within a c : within st' a c -> within st (parent n i a) (parent n i c).
Proof.
  rewrite added_len. unfold reachable_within. revert a c. induction (trans_length - 1) as [|k IH]; intros a c; [apply added_hop|].
  rewrite !iter_S, !bool_dot_iff. intros (b & B & H1 & H2). exists (parent n i b). split; [apply parent_lt, i_less|]. split; [apply IH, H1|apply added_hop, H2].
Qed.
Lemma kept_added : kept f' st'.
Proof.
  assert (Hi := i_less). assert (Hj := nth_error_lt _ _ _ (tr_sj _ _ _ _ _ _ _ _ _ _ _ T)). assert (G := added_grows). assert (TE := tried_reach f st j i si sj ss t S0 V T).
  assert (LN := added_len). assert (AT := an_trans _ _ _ _ _ _ D). assert (AI := an_IJ _ _ _ _ _ _ D). assert (AA := an_adj _ _ _ _ _ _ D). cbn [without d_sol d_trans d_IJ d_adj] in AT, AI, AA.
  constructor.
  - destruct (an_piece _ _ _ _ _ _ D) as (p & _ & ->). destruct (k_cells _ _ V) as (extra & E). cbn [without d_sol]. rewrite E, <- app_assoc. eauto.
  - intros k K. assert (L := len_cells _ _ V). rewrite parent_old by lia. apply (k_first _ _ V), K.
  - intros k c N. destruct (added_parent k c N) as (r & A & B & FP & C). destruct (k_parent _ _ V _ r A) as (_ & r0 & A0 & B0 & C0). split; [exact FP|].
    exists r0. split; [exact A0|]. split; [congruence|auto].
  - rewrite (an_sub _ _ _ _ _ _ D). exact (k_sub _ _ V).
  - intro C. destruct (k_orig _ _ V C) as [L O]. assert (DO := an_orig _ _ _ _ _ _ D). rewrite C in DO. cbn [without d_orig d_sol] in DO. rewrite DO, LN, app_length, L. cbn [List.length]. split; [lia|].
    intros k K. destruct (Nat.eq_dec k n) as [->|NE].
    + rewrite nth_error_app2, L, Nat.sub_diag by lia. rewrite parent_new. cbn [nth_error]. rewrite (nth_error_nth _ _ 0 (O i Hi)). reflexivity.
    + rewrite nth_error_app1 by lia. rewrite parent_old by lia. apply O. lia.
  - intro C. rewrite (an_orig _ _ _ _ _ _ D), C. apply (k_cons _ _ V C).
  - intros a A. apply AA. destruct (Nat.eq_dec a n) as [->|NE]; [auto 6|]. left. split; [lia|]. split; [lia|]. apply (k_refl _ _ V). lia.
  - assert (SY : forall a c, d_adj st' a c = true -> d_adj st' c a = true); [|intros a c; destruct (d_adj st' a c) eqn:E, (d_adj st' c a) eqn:E'; try reflexivity; [apply SY in E|apply SY in E']; congruence].
    intros a c H. apply AA in H. apply AA. rewrite (k_sym _ _ V c a). intuition subst; auto 8.
  - intros a c H. destruct (Nat.eq_dec a c) as [E|NE]; [auto|]. right. assert (Q := touch_at_some _ _ _ _ H). destruct Q as (r & s & N & M & TT).
    assert (A := nth_error_lt _ _ _ N). assert (C := nth_error_lt _ _ _ M). rewrite LN in A, C.
    destruct (added_parent a r N) as (r1 & N1 & _ & _ & S1). destruct (added_parent c s M) as (s1 & M1 & _ & _ & S2).
    assert (H1 : touch r1 s1 = true).
    { apply (touch_mono r1 r s1 S1). rewrite touch_sym. apply (touch_mono s1 s r S2). rewrite touch_sym. exact TT. }
    assert (AD : parent n i a = parent n i c \/ d_adj st (parent n i a) (parent n i c) = true).
    { apply (k_touch _ _ V). unfold touch_at. rewrite N1, M1. exact H1. }
    apply AA. destruct (Nat.eq_dec a n) as [->|NA], (Nat.eq_dec c n) as [->|NC]; [congruence| | |].
    + destruct (Nat.eq_dec c i) as [->|NI]; [auto 6|]. rewrite parent_new, parent_old in AD by lia. destruct AD as [AD|AD]; [congruence|]. do 3 right. left. repeat split; auto; lia.
    + destruct (Nat.eq_dec a i) as [->|NI]; [auto 6|]. rewrite parent_new, parent_old, (k_sym _ _ V) in AD by lia. destruct AD as [AD|AD]; [congruence|]. do 4 right. rewrite (touch_at_sym touch touch_sym). repeat split; auto; lia.
    + rewrite !parent_old in AD by lia. destruct AD as [AD|AD]; [congruence|]. left. repeat split; auto; lia.
  - intros a c H. apply AT in H. rewrite LN. destruct H as [(A & C & H)|[(-> & A & H & _)|(-> & -> & _)]].
    + split; [lia|]. split; [lia|]. destruct (k_trans _ _ V a c H) as (_ & _ & EX). intros ri rj r0. rewrite !added_old, parent_old by assumption. apply EX.
    + split; [lia|]. split; [lia|]. destruct (k_trans _ _ V a i H) as (_ & _ & EX). intros ri rj r0 Ni Nj N0. rewrite parent_new in *. rewrite added_old in Nj by exact A.
      destruct added_new as (p & N' & _ & IP). rewrite N' in Ni. injection Ni as <-. cbn [fst].
      destruct (EX si rj r0 (tr_si _ _ _ _ _ _ _ _ _ _ _ T) Nj N0) as [Y|(d & VD & Y)]; [left; intros x I; apply Y, IP, I|right; exists d; split; [exact VD|]; intros x I; apply Y, IP, I].
    + split; [lia|]. split; [lia|]. intros ri rj r0 Ni Nj N0. rewrite parent_new in *. rewrite added_old in Nj by exact Hj. rewrite (tr_sj _ _ _ _ _ _ _ _ _ _ _ T) in Nj. injection Nj as <-.
      destruct added_new as (p & N' & _ & IP). rewrite N' in Ni. injection Ni as <-. left. intros x I. cbn [fst] in I. apply IP in I. apply (TE r0 N0 x); tauto.
  - intros a c A C W. rewrite LN in A, C. destruct (d_trans st' a c) eqn:TR; [auto|]. right.
    destruct (Nat.eq_dec a i) as [E|N1]; [left; apply AI; left; auto|]. destruct (Nat.eq_dec a n) as [E|N2]; [left; apply AI; left; auto|].
    destruct (Nat.eq_dec c i) as [E|N3]; [left; apply AI; left; auto|]. destruct (Nat.eq_dec c n) as [E|N4]; [left; apply AI; left; auto 6|].
    apply added_within in W. rewrite !parent_old in W by lia. assert (KT : forall k, d_trans st a k = true -> d_trans st' a k = true).
    { intros k K. apply AT. left. destruct (k_trans _ _ V a k K) as (Q1 & Q2 & _). auto. }
    destruct (k_done _ _ V a c ltac:(lia) ltac:(lia) W) as [Q|[Q|[Q|Q]]].
    + apply KT in Q. congruence.
    + left. apply AI. right. split; [lia|]. split; [lia|]. split; [lia|]. apply put_false. split; [lia|exact Q].
    + right. left. apply (declined_grows st); assumption.
    + right. right. apply (represented_grows st); [exact G| |exact Q]. intros k K. left. apply KT, K.
Qed.
End Added.
Lemma minus_le a b c : (a + b <= c)%Qc -> (b <= c - a)%Qc.
Proof. intro H. assert (Q := Qcplus_le_compat _ _ _ _ H (Qcle_refl (- a))). replace (a + b + - a)%Qc with b in Q by ring. exact Q. Qed.
Lemma kept_round f st j i st' : kept f st -> j < len st -> i < len st -> dual_round st j i = Ok st' -> exists f', kept f' st'.
Proof.
  intros V Hj Hi H. destruct (dual_round_cases st j i st' Hi Hj H) as (si & sj & ss & t & S0 & T & [(L1 & _ & D)|[(L1 & found & NE & FI & ->)|(NL & b & -> & B)]]).
  - eexists. apply (kept_added f st st' j i si sj ss t S0 V T D).
  - exists f. apply (kept_found f st j i si sj ss t S0 found V T L1 NE FI).
  - exists f. apply kept_set_trans; try assumption.
    + intros ->. destruct B as [[_ B]|[B _]]; [|discriminate]. intros ri rj r0 N M N0.
      assert (TE := tried_reach f st j i si sj ss t S0 V T r0 N0). rewrite (tr_si _ _ _ _ _ _ _ _ _ _ _ T) in N. rewrite (tr_sj _ _ _ _ _ _ _ _ _ _ _ T) in M. injection N as <-. injection M as <-.
      right. exists (diff (fst si) S0). split; [exact (Qcle_lt_trans _ _ _ (minus_le _ _ _ (volume_split (fst si) S0)) B)|].
      intros x A. destruct (pts S0 x) eqn:E; [right; apply TE; [exact A|exact E]|left; apply diff_covers; assumption].
    + intros ->. destruct B as [[B _]|[_ B]]; [discriminate|]. exists si, sj, ss, t, S0. auto.
Qed.
(** The invariant holds of every state of the loop; at the end no pair is left. *)
Theorem dual_loop_sound fuel f st st' : kept f st -> dual_loop fuel st = Some (Ok st') ->
  (exists f', kept f' st') /\ forall j i, j < len st' -> i < len st' -> d_IJ st' j i = false.
Proof.
  intros V E. apply (dual_loop_inv (fun s => exists g, kept g s)) with (fuel := fuel) (st := st); [|eauto|exact E].
  intros s j i s' (g & G) J I _ H. apply (kept_round g s j i s'); assumption.
Qed.
(** For one linear system only [solve_feasible] can fail, unless transitions are to be removed. *)
Lemma dual_round_total f st j i : kept f st -> j < len st -> i < len st -> sub0 = None -> rm && (trans_length =? 1) = false ->
  (forall ss a b t, exists S0, solve ss a b t = Ok S0) -> exists st', dual_round st j i = Ok st'.
Proof.
  intros V Hj Hi SN RM TT. unfold M_Dual.dual_round. destruct (nth_error_ex _ _ Hi) as (si & Ei), (nth_error_ex _ _ Hj) as (sj & Ej).
  rewrite Ei, Ej. cbn [of_opt bind]. unfold subsystem. rewrite (k_sub _ _ V), SN. cbn [bind].
  assert (TS : exists t, trans_set_of conservative orig_list st i = Ok t).
  { unfold trans_set_of. destruct conservative eqn:C; [eauto|]. destruct (k_orig _ _ V C) as [_ O]. rewrite (O i Hi). cbn [of_opt bind].
    destruct (k_parent _ _ V i si Ei) as (_ & r0 & N & _). rewrite (orig_is eq_refl). rewrite (map_nth_error fst _ _ N). cbn. eauto. }
  destruct TS as (t & ->). cbn [bind]. destruct (TT None (fst si) (fst sj) t) as (S0 & ->). cbn [bind].
  match goal with |- exists s, (if ?c then _ else _) = _ => destruct c eqn:CC end; [|destruct (more abs_tol _); eauto].
  destruct (equals le (d_sol st) (inter (fst si) S0)); [|eauto].
  rewrite !andb_true_iff, !more_iff in CC. destruct CC as [[[C1 _] _] _]. unfold add_cell.
  destruct (separate (inter (fst si) S0)) as [|p ps] eqn:ES.
  { exfalso. apply (Qclt_not_le _ _ (Qcle_lt_trans _ _ _ min_nonneg C1)). apply volume_null. apply (null_sub _ _ (separate_covers (inter (fst si) S0))). rewrite ES.
    intros x A. split; [exact A|intros c []]. }
  cbn [hd_error of_opt bind].
  assert (LO : forall sol new ks adj, exists adj', link_one touch trans_length rm sol new ks adj = Ok adj').
  { intros sol new. induction ks as [|k ks IH]; intro adj; cbn [link_one]; [eauto|]. rewrite RM. destruct (touch_at touch sol new k); apply IH. }
  match goal with |- context [link_one touch trans_length rm ?s ?m ?ks ?a] => destruct (LO s m ks a) as (adj' & ->) end. cbn [bind]. eauto.
Qed.
(** For a piecewise affine system no cell is added: the loop does not survive it. *)
Lemma no_cell_added fuel f st st' l : kept f st -> sub0 = Some l -> len st = List.length cells0 -> dual_loop fuel st = Some (Ok st') -> len st' = List.length cells0.
Proof.
  intros V SN L0 E. set (n0 := List.length cells0) in *.
  destruct (dual_loop_inv (fun s => (exists g, kept g s) /\ (len s = n0 \/ n0 < len s /\ d_IJ s n0 n0 = true))) with (fuel := fuel) (st := st) (st' := st') as [(_ & [Q|[Q1 Q2]]) DN]; [| |exact E| |].
  - clear fuel st st' f V L0 E. intros st j i st' ((f & V) & H) Hj Hi _ E. split; [apply (kept_round f st j i st' V Hj Hi E)|].
    destruct (dual_round_cases st j i st' Hi Hj E) as (si & sj & ss & t & S0 & T & CS).
    assert (IL : i < n0).
    { assert (S := tr_ss _ _ _ _ _ _ _ _ _ _ _ T). unfold subsystem in S. rewrite (k_sub _ _ V), SN in S. destruct (nth_error l i) as [v|] eqn:N; [|discriminate].
      apply nth_error_lt in N. rewrite SN in sub_len. unfold n0. lia. }
    destruct CS as [(_ & _ & D)|[(_ & found & _ & _ & ->)|(_ & b & -> & _)]].
    + right. assert (LN := added_len _ _ _ _ _ _ D). assert (AI := an_IJ _ _ _ _ _ _ D). assert (AT := an_trans _ _ _ _ _ _ D). assert (AA := an_adj _ _ _ _ _ _ D). cbn [without d_sol d_IJ d_trans d_adj] in AI, AT, AA.
      destruct H as [H|[H1 H2]].
      * split; [lia|]. apply AI. left. rewrite H. split; [auto|]. split.
        -- unfold reachable_within. induction (trans_length - 1) as [|k IH]; [apply AA; right; left; rewrite H; auto|]. rewrite iter_S, bool_dot_iff. exists n0. split; [lia|]. split; [exact IH|]. apply AA. right. left. rewrite H. auto.
        -- destruct (d_trans st' n0 n0) eqn:TR; [|reflexivity]. apply AT in TR. rewrite H in TR. intuition lia.
      * split; [lia|]. apply AI. right. split; [lia|]. split; [lia|]. split; [lia|]. apply put_false. split; [lia|exact H2].
    + destruct H as [H|[H1 H2]]; [left; exact H|right]. split; [exact H1|]. apply put_false. split; [lia|exact H2].
    + destruct H as [H|[H1 H2]]; [left; exact H|right]. split; [exact H1|]. apply put_false. split; [lia|exact H2].
  - split; [eauto|left; exact L0].
  - exact Q.
  - rewrite (DN n0 n0 Q1 Q1) in Q2. discriminate.
Qed.
End Invariant.
End Round.
End Dual.
Print Assumptions dual_loop_sound.
Print Assumptions dual_round_total.
Print Assumptions no_cell_added.
