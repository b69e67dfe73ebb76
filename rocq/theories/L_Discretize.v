(** What one division of a cell does to the cells and the matrices of [_discretize_bi]. *)
From Coq Require Import List String Bool Arith Lia QArith Qcanon.
From Verif Require Import M_Base M_Part M_Discretize.
Import ListNotations.
Open Scope string_scope.
Open Scope list_scope.
Open Scope nat_scope.

Lemma put_eq i j b m a c : put i j b m a c = true <-> (a = i /\ c = j /\ b = true) \/ (~ (a = i /\ c = j) /\ m a c = true).
Proof.
  unfold put. destruct (Nat.eqb_spec a i), (Nat.eqb_spec c j); cbn [andb]; intuition congruence.
Qed.
Lemma put_true i j m a c : put i j true m a c = true <-> (a = i /\ c = j) \/ m a c = true.
Proof. unfold put. destruct (Nat.eqb_spec a i), (Nat.eqb_spec c j); cbn [andb]; intuition congruence. Qed.
Lemma put_false i j m a c : put i j false m a c = true <-> ~ (a = i /\ c = j) /\ m a c = true.
Proof. unfold put. destruct (Nat.eqb_spec a i), (Nat.eqb_spec c j); cbn [andb]; intuition congruence. Qed.
Lemma padded_iff n m a c : padded n m a c = true <-> a < n /\ c < n /\ m a c = true.
Proof. unfold padded. rewrite !andb_true_iff, !Nat.ltb_lt. tauto. Qed.
Lemma set_row_iff i f m a c : set_row i f m a c = true <-> (a = i /\ f c = true) \/ (a <> i /\ m a c = true).
Proof. unfold set_row. destruct (Nat.eqb_spec a i); intuition congruence. Qed.
Lemma set_col_iff i f m a c : set_col i f m a c = true <-> (c = i /\ f a = true) \/ (c <> i /\ m a c = true).
Proof. unfold set_col. destruct (Nat.eqb_spec c i); intuition congruence. Qed.
Lemma bool_dot_iff n a b i j : bool_dot n a b i j = true <-> exists k, k < n /\ a i k = true /\ b k j = true.
Proof.
  unfold bool_dot. rewrite existsb_exists. split; intros (k & H); exists k.
  - rewrite in_seq, andb_true_iff in H. intuition lia.
  - rewrite in_seq, andb_true_iff. intuition lia.
Qed.
Lemma first_pair_some n IJ j i : first_pair n IJ = Some (j, i) -> j < n /\ i < n /\ IJ j i = true.
Proof.
  intro H. apply find_some in H. destruct H as [H E]. apply in_prod_iff in H. rewrite !in_seq in H. cbn [fst snd] in E. intuition lia.
Qed.
Lemma first_pair_none n IJ j i : first_pair n IJ = None -> j < n -> i < n -> IJ j i = false.
Proof. intros H J I. apply (find_none _ _ H (j, i)). apply in_prod_iff. rewrite !in_seq. lia. Qed.

(** ** [sym_adj_change] of several cells *)
Lemma sym_changes adj_k tr : forall l IJ a c,
  fold_left (sym_adj_change adj_k tr) l IJ a c = true <->
  ((In a l \/ In c l) /\ adj_k a c = true /\ tr a c = false) \/ (~ (In a l \/ In c l) /\ IJ a c = true).
Proof.
  induction l as [|i l IH]; intros IJ a c; cbn [fold_left]; [cbn; tauto|].
  rewrite IH. unfold sym_adj_change. rewrite set_col_iff, set_row_iff, !andb_true_iff, !negb_true_iff. cbn [In].
  destruct (in_dec Nat.eq_dec a l), (in_dec Nat.eq_dec c l), (Nat.eq_dec a i), (Nat.eq_dec c i); subst; intuition (try congruence).
Qed.

(** ** Adjacency of the pieces *)
Section Link.
Context {R : Type} (touch : @region R -> @region R -> bool) (sol : list (@region R)).
Notation touch_at := (touch_at touch sol).
Lemma link_new_iff new adj a c : link_new touch sol new adj a c = true <->
  adj a c = true \/ (a <> c /\ In a new /\ In c new /\ (touch_at a c = true \/ touch_at c a = true)).
Proof.
  unfold link_new.
  assert (G : forall l m, fold_left (fun m rk => if (fst rk =? snd rk) then m
      else if touch_at (fst rk) (snd rk) then put (snd rk) (fst rk) true (put (fst rk) (snd rk) true m) else m) l m a c = true <->
      m a c = true \/ (a <> c /\ ((In (a, c) l /\ touch_at a c = true) \/ (In (c, a) l /\ touch_at c a = true)))).
  { induction l as [|(r & k) l IH]; intro m; cbn [fold_left fst snd]; [cbn; tauto|]. rewrite IH. clear IH. cbn [In].
    destruct (Nat.eqb_spec r k) as [->|NE].
    - split; [tauto|]. intros [H|(H & [[[E|I] T]|[[E|I] T]])]; try (injection E as -> ->; congruence); tauto.
    - destruct (touch_at r k) eqn:T.
      + rewrite !put_true. split.
        * intros [[[-> ->]|[[-> ->]|H]]|H]; [| | |tauto]; try (right; split; [congruence|]); tauto.
        * intros [H|(H & [[[E|I] U]|[[E|I] U]])]; [tauto|injection E as -> ->; tauto|tauto|injection E as -> ->; tauto|tauto].
      + split; [tauto|]. intros [H|(H & [[[E|I] U]|[[E|I] U]])]; try (injection E as -> ->; congruence); tauto. }
  rewrite G, !in_prod_iff. tauto.
Qed.
Context (trans_length : nat) (rm : bool).
Lemma link_adj new : forall ks at_ a c,
  fst (fold_left (fun at_ k => fold_left (link touch trans_length rm sol k) new at_) ks at_) a c = true <->
  fst at_ a c = true \/ (In a new /\ In c ks /\ touch_at a c = true) \/ (In c new /\ In a ks /\ touch_at c a = true).
Proof.
  assert (G : forall k new at_ a c, fst (fold_left (link touch trans_length rm sol k) new at_) a c = true <->
    fst at_ a c = true \/ (In a new /\ c = k /\ touch_at a c = true) \/ (In c new /\ a = k /\ touch_at c a = true)).
  { intro k. clear new. induction new as [|x new IH]; intros at_ a c; cbn [fold_left]; [cbn; tauto|]. rewrite IH. clear IH. cbn [In].
    unfold link. destruct (touch_at x k) eqn:T.
    - cbn [fst]. rewrite !put_true. split.
      + intros [[[-> ->]|[[-> ->]|H]]|H]; tauto.
      + intros [H|[([<-|I] & -> & U)|([<-|I] & -> & U)]]; tauto.
    - assert (E : fst (if rm && (trans_length =? 1) then (fst at_, put k x false (put x k false (snd at_))) else at_) = fst at_) by (destruct (rm && (trans_length =? 1)); reflexivity).
      rewrite E. split; [tauto|]. intros [H|[([<-|I] & -> & U)|([<-|I] & -> & U)]]; try congruence; tauto. }
  induction ks as [|k ks IH]; intros at_ a c; cbn [fold_left]; [cbn; tauto|]. rewrite IH, G. cbn [In]. clear. intuition (subst; auto).
Qed.
Lemma link_trans new : forall ks at_ a c,
  let t := snd (fold_left (fun at_ k => fold_left (link touch trans_length rm sol k) new at_) ks at_) in
  (t a c = true -> snd at_ a c = true) /\ (~ In a new -> ~ In c new -> t a c = snd at_ a c) /\ (rm = false -> t a c = snd at_ a c).
Proof.
  assert (G : forall k new at_ a c, let t := snd (fold_left (link touch trans_length rm sol k) new at_) in
    (t a c = true -> snd at_ a c = true) /\ (~ In a new -> ~ In c new -> t a c = snd at_ a c) /\ (rm = false -> t a c = snd at_ a c)).
  { intro k. clear new. induction new as [|x new IH]; intros at_ a c; cbv zeta; cbn [fold_left]; [cbn; tauto|].
    destruct (IH (link touch trans_length rm sol k at_ x) a c) as (A & B & C). cbv zeta in *. cbn [In].
    assert (L : (snd (link touch trans_length rm sol k at_ x) a c = true -> snd at_ a c = true) /\
      (x <> a -> x <> c -> snd (link touch trans_length rm sol k at_ x) a c = snd at_ a c) /\
      (rm = false -> snd (link touch trans_length rm sol k at_ x) a c = snd at_ a c)).
    { unfold link. destruct (touch_at x k); [cbn; tauto|]. destruct rm; cbn [andb]; [|tauto]. destruct (trans_length =? 1); [|tauto]. cbn [snd].
      split; [|split; [|discriminate]].
      - rewrite !put_false. tauto.
      - intros N1 N2. unfold put. destruct (Nat.eqb_spec a k), (Nat.eqb_spec c x), (Nat.eqb_spec a x), (Nat.eqb_spec c k); cbn [andb]; congruence. }
    destruct L as (L1 & L2 & L3). split; [auto|]. split.
    - intros N1 N2. rewrite B by tauto. apply L2; intro; subst; tauto.
    - intro E. rewrite C by exact E. auto. }
  induction ks as [|k ks IH]; intros at_ a c; cbv zeta; cbn [fold_left]; [cbn; tauto|].
  destruct (IH (fold_left (link touch trans_length rm sol k) new at_) a c) as (A & B & C). destruct (G k new at_ a c) as (A' & B' & C'). cbv zeta in *.
  split; [auto|]. split; [intros; rewrite B, B' by assumption; reflexivity|intros; rewrite C, C' by assumption; reflexivity].
Qed.
End Link.

(** ** One division *)
Section Split.
Context {R : Type}.
Context (touch : @region R -> @region R -> bool) (separate : R -> list R) (trans_length : nat) (conservative rm : bool).

Lemma set_nth_length {A} i (x : A) : forall l, List.length (set_nth i x l) = List.length l.
Proof. revert i. intros i l. revert i. induction l as [|y l IH]; intros [|i]; cbn [set_nth List.length]; auto. Qed.
Lemma set_nth_same {A} (x : A) : forall l i, i < List.length l -> nth_error (set_nth i x l) i = Some x.
Proof. induction l as [|y l IH]; intros [|i] H; cbn in *; try lia; [reflexivity|]. apply IH. lia. Qed.
Lemma set_nth_other {A} (x : A) : forall l i k, k <> i -> nth_error (set_nth i x l) k = nth_error l k.
Proof. induction l as [|y l IH]; intros [|i] [|k] H; cbn; try congruence; auto. Qed.

Lemma new_idx_iff n num r : In r (rev (List.seq n num)) <-> n <= r < n + num.
Proof. rewrite <- in_rev, in_seq. tauto. Qed.
Lemma ones_iff i new : forall m a c, fold_left (fun m r => put r r true (put r i true (put i r true m))) new m a c = true <->
  m a c = true \/ (In a new /\ (c = i \/ c = a)) \/ (In c new /\ a = i).
Proof.
  induction new as [|r new IH]; intros m a c; cbn [fold_left]; [cbn; tauto|]. rewrite IH, !put_true. cbn [In]. clear IH.
  intuition (subst; auto).
Qed.
Lemma zeros_iff i j new : forall m a c, fold_left (fun m r => put j r false (put i r false m)) new m a c = true <->
  m a c = true /\ ~ (In c new /\ (a = i \/ a = j)).
Proof.
  induction new as [|r new IH]; intros m a c; cbn [fold_left]; [cbn; tauto|]. rewrite IH, !put_false. cbn [In]. clear IH.
  intuition (subst; auto).
Qed.

(** The cells that are new or changed *)
Definition touched (n i : nat) (a : nat) : Prop := a = i \/ n <= a.
Record divided (st st' : dstate R) (i j : nat) (props : list string) (isect rest : R) : Prop := {
  dv_pieces : exists piece pieces, separate isect = piece :: pieces /\
    d_sol st' = set_nth i (piece, props) (d_sol st) ++ map (fun r => (r, props)) (separate rest ++ pieces);
  dv_sub : d_sub st' = match d_sub st with None => None | Some l => Some (l ++ repeat (nth i l 0) (List.length (d_sol st') - List.length (d_sol st))) end;
  dv_orig : d_orig st' = if conservative then d_orig st else d_orig st ++ repeat (nth i (d_orig st) 0) (List.length (d_sol st') - List.length (d_sol st));
  dv_trans : forall a c, d_trans st' a c = true -> (a = j /\ c = i /\ i <> j) \/ (a < List.length (d_sol st) /\ c < List.length (d_sol st) /\ a <> i /\ d_trans st a c = true);
  dv_trans_kept : forall a c, a < List.length (d_sol st) -> c < List.length (d_sol st) -> a <> i -> c <> i -> d_trans st' a c = d_trans st a c;
  dv_trans_found : rm = false -> i <> j -> d_trans st' j i = true;
  dv_trans_all : rm = false -> forall a c, a < List.length (d_sol st) -> c < List.length (d_sol st) -> a <> i -> d_trans st a c = true -> d_trans st' a c = true;
  dv_adj : forall a c, a < List.length (d_sol st') -> c < List.length (d_sol st') ->
    (d_adj st' a c = true <->
      a = c /\ touched (List.length (d_sol st)) i a
      \/ (a = i /\ List.length (d_sol st) <= c) \/ (c = i /\ List.length (d_sol st) <= a)
      \/ (a <> c /\ List.length (d_sol st) <= a /\ List.length (d_sol st) <= c /\ (touch_at touch (d_sol st') a c = true \/ touch_at touch (d_sol st') c a = true))
      \/ (touched (List.length (d_sol st)) i a /\ ~ touched (List.length (d_sol st)) i c /\ c <> List.length (d_sol st') - 1 /\ d_adj st i c = true /\ touch_at touch (d_sol st') a c = true)
      \/ (touched (List.length (d_sol st)) i c /\ ~ touched (List.length (d_sol st)) i a /\ a <> List.length (d_sol st') - 1 /\ d_adj st i a = true /\ touch_at touch (d_sol st') c a = true)
      \/ (~ touched (List.length (d_sol st)) i a /\ ~ touched (List.length (d_sol st)) i c /\ d_adj st a c = true));
  dv_bound : forall a c, d_adj st' a c = true -> a < List.length (d_sol st') /\ c < List.length (d_sol st');
  dv_IJ : forall a c, a < List.length (d_sol st') -> c < List.length (d_sol st') ->
    (d_IJ st' a c = true <->
      (touched (List.length (d_sol st)) i a \/ touched (List.length (d_sol st)) i c) /\
        reachable_within (List.length (d_sol st')) trans_length (d_adj st') (d_adj st') a c = true /\ d_trans st' a c = false
      \/ ~ touched (List.length (d_sol st)) i a /\ ~ touched (List.length (d_sol st)) i c /\ d_IJ st a c = true) }.

Lemma split_divided st st' i j props isect rest : i < List.length (d_sol st) -> j < List.length (d_sol st) ->
  split_cell touch separate trans_length conservative rm st i j props isect rest = Ok st' ->
  divided st st' i j props isect rest.
Proof.
  intros Hi Hj. unfold split_cell. destruct (separate isect) as [|piece pieces] eqn:ES; [discriminate|].
  set (n := List.length (d_sol st)) in *. set (new := separate rest ++ pieces). set (num := List.length new).
  set (sol := set_nth i (piece, props) (d_sol st) ++ map (fun r => (r, props)) new).
  assert (LS : @List.length (@region R) sol = n + num) by (unfold sol; rewrite app_length, set_nth_length, map_length; reflexivity).
  set (idx := rev (List.seq n num)). assert (II := fun r => new_idx_iff n num r). fold idx in II.
  match goal with |- context [fold_left (fun at_ k => fold_left (link _ _ _ _ k) _ at_) ?ks ?at0] => set (KS := ks); set (AT0 := at0) end.
  intro H.
  set (AT := fold_left (fun at_ k => fold_left (link touch trans_length rm sol k) (i :: idx) at_) KS AT0) in H.
  match type of H with Ok ?x = Ok ?y => assert (E : y = x) by congruence end. clear H. subst st'.
  assert (TI : forall a, a < n + num -> (In a (i :: idx) <-> touched n i a)).
  { intros a A. cbn [In]. rewrite II. unfold touched. intuition lia. }
  assert (T3 : forall a c, snd AT0 a c = true <-> (a = j /\ c = i /\ i <> j) \/ (a < n /\ c < n /\ a <> i /\ d_trans st a c = true)).
  { intros a c. unfold AT0. cbn [snd].
    assert (Z : forall a c, fold_left (fun m r => put j r false (put i r false m)) idx (set_row i (fun _ => false) (padded n (d_trans st))) a c = true <->
      (a < n /\ c < n /\ a <> i /\ d_trans st a c = true)).
    { intros x y. rewrite zeros_iff, set_row_iff, padded_iff, II. intuition (try discriminate; try lia). }
    destruct (Nat.eqb_spec i j) as [->|NE]; [rewrite Z; intuition congruence|]. rewrite put_true, Z. intuition. }
  assert (KI : forall k, In k KS <-> k < n /\ d_adj st i k = true /\ k <> i /\ k <> n + num - 1).
  { intro k. unfold KS. rewrite !filter_In, in_seq, andb_true_iff, !negb_true_iff, !Nat.eqb_neq. intuition lia. }
  assert (A3 : forall a c, fst AT0 a c = true <-> (a < n /\ c < n /\ ((a = i /\ c = i) \/ (a <> i /\ c <> i /\ d_adj st a c = true)))
     \/ (n <= a < n + num /\ (c = i \/ c = a)) \/ (n <= c < n + num /\ a = i)
     \/ (a <> c /\ n <= a < n + num /\ n <= c < n + num /\ (touch_at touch sol a c = true \/ touch_at touch sol c a = true))).
  { intros a c. unfold AT0. cbn [fst]. rewrite link_new_iff, ones_iff, padded_iff, put_true, set_col_iff, set_row_iff, !II.
    intuition (try discriminate). }
  assert (AA := fun a c => link_adj touch sol trans_length rm (i :: idx) KS AT0 a c). fold AT in AA.
  assert (AB : forall a c, fst AT a c = true -> a < n + num /\ c < n + num).
  { intros a c. rewrite AA, A3. cbn [In]. rewrite !II, !KI. intuition lia. }
  assert (TR := fun a c => link_trans touch sol trans_length rm (i :: idx) KS AT0 a c). fold AT in TR. cbv zeta in TR.
  constructor; cbn [d_sol d_sub d_orig d_trans d_adj d_IJ]; rewrite ?LS; fold n.
  - exists piece, pieces. split; [exact ES|reflexivity].
  - destruct (d_sub st); [|reflexivity]. rewrite ?LS. replace (n + num - n) with num by lia. reflexivity.
  - destruct conservative; [reflexivity|]. rewrite ?LS. replace (n + num - n) with num by lia. reflexivity.
  - intros a c H. destruct (TR a c) as (A & _). apply T3, A, H.
  - intros a c A C Na Nc. destruct (TR a c) as (_ & B & _). rewrite B.
    + apply eq_true_iff_eq. rewrite T3. intuition congruence.
    + cbn [In]. rewrite II. intuition lia.
    + cbn [In]. rewrite II. intuition lia.
  - intros E NE. destruct (TR j i) as (_ & _ & B). rewrite (B E). apply T3. auto.
  - intros E a c A C NA T. destruct (TR a c) as (_ & _ & B). rewrite (B E). apply T3. auto.
  - intros a c A C. rewrite AA, A3, !TI, !KI by assumption. unfold touched. 
    destruct (Nat.lt_ge_cases a n), (Nat.lt_ge_cases c n), (Nat.eq_dec a i), (Nat.eq_dec c i); intuition lia.
  - exact AB.
  - intros a c A C. rewrite sym_changes, !TI, padded_iff by assumption. unfold touched. intuition lia.
Qed.

(** Hops over the divided cells are hops over the cells they come from. *)
Definition parent (n i a : nat) : nat := if n <=? a then i else a.
Lemma parent_lt n i a : i < n -> parent n i a < n.
Proof. intro H. unfold parent. destruct (Nat.leb_spec n a); lia. Qed.
Lemma divided_hop st st' i j props isect rest : divided st st' i j props isect rest -> i < List.length (d_sol st) ->
  (forall a, a < List.length (d_sol st) -> d_adj st a a = true) -> (forall a c, d_adj st a c = d_adj st c a) ->
  forall a c, d_adj st' a c = true -> d_adj st (parent (List.length (d_sol st)) i a) (parent (List.length (d_sol st)) i c) = true.
Proof.
  intros D Hi RF SY a c H. destruct (dv_bound _ _ _ _ _ _ _ D a c H) as [A C]. apply (dv_adj _ _ _ _ _ _ _ D a c A C) in H.
  unfold parent, touched in *. set (n := List.length (d_sol st)) in *.
  destruct (Nat.leb_spec n a), (Nat.leb_spec n c).
  - apply RF, Hi.
  - destruct H as [H|[H|[H|[H|[H|[H|H]]]]]]; try lia; try (destruct H as (-> & _); apply RF, Hi); try tauto.
  - destruct H as [H|[H|[H|[H|[H|[H|H]]]]]]; try lia; try (destruct H as (-> & _); apply RF, Hi); rewrite SY; try tauto.
  - destruct H as [H|[H|[H|[H|[H|[H|H]]]]]]; try lia.
    + destruct H as (-> & _). apply RF. assumption.
    + destruct H as ([->|] & _ & _ & H & _); [exact H|lia].
    + destruct H as ([->|] & _ & _ & H & _); [rewrite SY; exact H|lia].
    + tauto.
Qed.
Lemma iter_S {A} (f : A -> A) k x : Nat.iter (S k) f x = f (Nat.iter k f x).
Proof. reflexivity. Qed.
Lemma divided_within st st' i j props isect rest : divided st st' i j props isect rest -> i < List.length (d_sol st) ->
  (forall a, a < List.length (d_sol st) -> d_adj st a a = true) -> (forall a c, d_adj st a c = d_adj st c a) ->
  forall a c, reachable_within (List.length (d_sol st')) trans_length (d_adj st') (d_adj st') a c = true ->
    reachable_within (List.length (d_sol st)) trans_length (d_adj st) (d_adj st) (parent (List.length (d_sol st)) i a) (parent (List.length (d_sol st)) i c) = true.
Proof.
  intros D Hi RF SY. unfold reachable_within. induction (trans_length - 1) as [|k IH]; intros a c.
  - apply (divided_hop _ _ _ _ _ _ _ D Hi RF SY).
  - rewrite !iter_S, !bool_dot_iff. intros (b & B & H1 & H2). exists (parent (List.length (d_sol st)) i b).
    split; [apply parent_lt, Hi|]. split; [apply IH, H1|]. apply (divided_hop _ _ _ _ _ _ _ D Hi RF SY), H2.
Qed.
End Split.
