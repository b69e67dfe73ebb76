(** C49, C50, C51: equality, parts, scaling and cell names of gridworlds. *)
From Coq Require Import String Ascii List Bool Arith ZArith Lia Sorting.Sorted.
From Verif Require Import M_Base M_Tree M_Gr1c S_LTL S_Gr1 S_Syntax L_Dec L_Gr1c M_Machine M_Grid S_Grid T_Reach.
Import ListNotations.
Open Scope string_scope.
Open Scope list_scope.

(** ** Matrices given by their entries *)
Lemma tab_shaped : forall r c f, shaped (tab r c f).
Proof.
  intros r c f. split; cbn.
  - rewrite map_length, seq_length. reflexivity.
  - apply Forall_forall. intros row H. apply in_map_iff in H. destruct H as (i & <- & _). rewrite map_length, seq_length. reflexivity.
Qed.
Lemma nth_map_seq : forall (A : Type) (f : nat -> A) n i d, (i < n)%nat -> nth i (map f (List.seq 0 n)) d = f i.
Proof.
  intros A f n i d H. rewrite nth_indep with (d' := f 0%nat) by (rewrite map_length, seq_length; exact H).
  rewrite map_nth, seq_nth by exact H. reflexivity.
Qed.
Lemma tab_cell : forall r c f i j, (i < r)%nat -> (j < c)%nat -> cell (tab r c f) i j = f i j.
Proof. intros r c f i j Hi Hj. unfold cell, tab. cbn. rewrite (nth_map_seq _ _ r i []) by exact Hi. rewrite nth_map_seq by exact Hj. reflexivity. Qed.
Lemma tab_view : forall r c f i j, (0 <= i < Z.of_nat r)%Z -> (0 <= j < Z.of_nat c)%Z ->
  view (tab r c f) i j = Some (f (Z.to_nat i) (Z.to_nat j)).
Proof. intros r c f i j Hi Hj. rewrite view_at; [|apply tab_shaped|exact Hi|exact Hj]. rewrite tab_cell by lia. reflexivity. Qed.
Lemma view_outside : forall m i j, shaped m -> ~ ((0 <= i < Z.of_nat (m_rows m))%Z /\ (0 <= j < Z.of_nat (m_cols m))%Z) -> view m i j = None.
Proof. intros m i j S H. destruct (view m i j) eqn:E; [|reflexivity]. apply view_inside in E; [contradiction|exact S]. Qed.

(** ** C49: equality *)
Lemma ijs_eqb_eq : forall a b, ijs_eqb a b = true <-> a = b.
Proof.
  induction a as [|x a IH]; intros [|y b]; cbn; try (split; congruence).
  rewrite andb_true_iff, ij_eqb_eq, IH. split; [intros [-> ->]; reflexivity|intros [= -> ->]; auto].
Qed.
(** Equality as the code decides it: the same size and lists, and the same value in at least one cell. *)
Theorem world_eq_iff : forall a b m n, w_W a = Some m -> w_W b = Some n -> shaped m -> shaped n ->
  (world_eq a b = true <->
   m_rows m = m_rows n /\ m_cols m = m_cols n /\ (exists i j v, view m i j = Some v /\ view n i j = Some v) /\
   w_init a = w_init b /\ w_goal a = w_goal b).
Proof.
  intros a b m n A B Sm Sn. unfold world_eq. rewrite A, B.
  destruct (Nat.eqb_spec (m_rows m) (m_rows n)) as [R|R]; [|split; [discriminate|intros (X & _); contradiction]].
  destruct (Nat.eqb_spec (m_cols m) (m_cols n)) as [C|C]; [|split; [discriminate|intros (_ & X & _); contradiction]]. cbn [andb negb].
  destruct (all_differ m n) eqn:D.
  - split; [discriminate|]. intros (_ & _ & (i & j & v & Vm & Vn) & _). exfalso.
    pose proof (view_inside _ _ _ _ Sm Vm) as [Ri Rj]. rewrite view_at in Vm by auto. rewrite view_at in Vn by (auto; lia).
    unfold all_differ in D. rewrite forallb_forall in D. specialize (D (Z.to_nat i)). rewrite in_seq in D. specialize (D ltac:(lia)).
    rewrite forallb_forall in D. specialize (D (Z.to_nat j)). rewrite in_seq in D. specialize (D ltac:(lia)).
    rewrite negb_true_iff, Z.eqb_neq in D. congruence.
  - assert (Ex : exists i j v, view m i j = Some v /\ view n i j = Some v).
    { unfold all_differ in D.
      assert (G : forall l f, forallb f l = false -> exists x : nat, In x l /\ f x = false).
      { clear. induction l as [|y l IH]; cbn; intros f H; [discriminate|]. apply andb_false_iff in H. destruct H as [H|H]; [eauto|].
        destruct (IH f H) as (x & Hx & Fx). eauto. }
      apply G in D. destruct D as (i & Hi & D). apply G in D. destruct D as (j & Hj & D). apply in_seq in Hi. apply in_seq in Hj.
      rewrite negb_false_iff, Z.eqb_eq in D. exists (Z.of_nat i), (Z.of_nat j), (cell m i j).
      rewrite !view_cell by (auto; lia). rewrite D. auto. }
    destruct (ijs_eqb (w_goal a) (w_goal b)) eqn:G; cbn [negb].
    + rewrite ijs_eqb_eq in *. tauto.
    + split; [discriminate|]. intros (_ & _ & _ & _ & X). apply ijs_eqb_eq in X. congruence.
Qed.
(** What remains of the claim: equal contents compare equal unless there is no cell at all, and
    equal worlds have the same size and lists. *)
Theorem world_eq_partial : forall a b m n, w_W a = Some m -> w_W b = Some n -> shaped m -> shaped n ->
  ((forall i j, view m i j = view n i j) -> (exists k v, view m (fst k) (snd k) = Some v) -> m_rows m = m_rows n -> m_cols m = m_cols n ->
   w_init a = w_init b -> w_goal a = w_goal b -> world_eq a b = true) /\
  (world_eq a b = true -> m_rows m = m_rows n /\ m_cols m = m_cols n /\ w_init a = w_init b /\ w_goal a = w_goal b).
Proof.
  intros a b m n A B Sm Sn. pose proof (world_eq_iff a b m n A B Sm Sn) as E. split.
  - intros V ([i j] & v & X) R C I G. apply E. split; [exact R|]. split; [exact C|]. split; [|auto].
    exists i, j, v. cbn in X. split; [exact X|]. rewrite <- V. exact X.
  - intro H. apply E in H. tauto.
Qed.
Theorem world_eq_none : forall a b, w_W a = None -> (world_eq a b = true <-> w_W b = None).
Proof. intros a b H. unfold world_eq. rewrite H. destruct (w_W b); split; congruence. Qed.
(** The full claim fails both ways: [np.all(W != W')] is false as soon as one cell agrees, and true when there are no cells. *)
Theorem world_eq_refuted :
  (exists a b m n, w_W a = Some m /\ w_W b = Some n /\ shaped m /\ shaped n /\ world_eq a b = true /\ (view m 0 0 <> view n 0 0)%Z) /\
  (exists a m, w_W a = Some m /\ shaped m /\ world_eq a a = false).
Proof.
  split.
  - exists (World (Some (tab 1 2 (fun _ _ => 0%Z))) [] [] "Y" (0, 0)%Z),
      (World (Some (tab 1 2 (fun _ j => match j with O => 1%Z | _ => 0%Z end))) [] [] "Y" (0, 0)%Z).
    do 2 eexists. split; [reflexivity|]. split; [reflexivity|]. split; [apply tab_shaped|]. split; [apply tab_shaped|].
    split; [vm_compute; reflexivity|vm_compute; discriminate].
  - exists (World (Some (tab 0 3 (fun _ _ => 0%Z))) [] [] "Y" (0, 0)%Z). eexists.
    split; [reflexivity|]. split; [apply tab_shaped|]. vm_compute. reflexivity.
Qed.

(** ** C50: parts *)
(** Without [extend]: exactly when the part lies inside and has cells, and then cell by cell. *)
Theorem subworld_inside : forall w m size offset prefix, w_W w = Some m -> shaped m ->
  let fits := (0 <= fst offset /\ 0 <= snd offset /\ 1 <= fst size /\ 1 <= snd size /\
               fst offset + fst size <= Z.of_nat (m_rows m) /\ snd offset + snd size <= Z.of_nat (m_cols m))%Z in
  (fits -> exists s n, dump_subworld w size offset prefix false = Ok s /\ w_W s = Some n /\ shaped n /\
     Z.of_nat (m_rows n) = fst size /\ Z.of_nat (m_cols n) = snd size /\ w_prefix s = prefix /\ w_init s = [] /\ w_goal s = [] /\
     forall i j, (0 <= i < fst size)%Z -> (0 <= j < snd size)%Z -> view n i j = view m (fst offset + i)%Z (snd offset + j)%Z) /\
  (~ fits -> dump_subworld w size offset prefix false = Err "ValueError").
Proof.
  intros w m [h l] [o p] prefix W S. cbn [fst snd]. unfold dump_subworld. rewrite W. cbn [fst snd negb]. split.
  - intro F. destruct ((o <? 0) || (Z.of_nat (m_rows m) <=? o) || (p <? 0) || (Z.of_nat (m_cols m) <=? p))%Z eqn:E1.
    { repeat rewrite orb_true_iff in E1. rewrite !Z.ltb_lt, !Z.leb_le in E1. lia. }
    destruct ((h <? 1) || (l <? 1) || (Z.of_nat (m_rows m) <? o + h) || (Z.of_nat (m_cols m) <? p + l))%Z eqn:E2.
    { repeat rewrite orb_true_iff in E2. rewrite !Z.ltb_lt in E2. lia. }
    do 2 eexists. split; [reflexivity|]. split; [reflexivity|]. split; [apply tab_shaped|]. cbn [m_rows m_cols w_prefix w_init w_goal tab].
    split; [lia|]. split; [lia|]. split; [reflexivity|]. split; [reflexivity|]. split; [reflexivity|]. intros i j Hi Hj.
    rewrite tab_view by lia. rewrite view_at by (auto; lia). f_equal. f_equal; lia.
  - intro F. destruct ((o <? 0) || (Z.of_nat (m_rows m) <=? o) || (p <? 0) || (Z.of_nat (m_cols m) <=? p))%Z eqn:E1; [reflexivity|].
    destruct ((h <? 1) || (l <? 1) || (Z.of_nat (m_rows m) <? o + h) || (Z.of_nat (m_cols m) <? p + l))%Z eqn:E2; [reflexivity|].
    repeat rewrite orb_false_iff in E1, E2. rewrite !Z.ltb_ge, !Z.leb_gt in E1. rewrite !Z.ltb_ge in E2. exfalso. apply F. lia.
Qed.

Lemma clamp_in : forall k n, (0 <= k <= Z.of_nat n)%Z -> clamp k n = k.
Proof. intros k n H. unfold clamp. destruct (Z.ltb_spec k 0); lia. Qed.
(** One axis: when the part and the grid overlap, the copied interval is the overlap. *)
Lemma axis_overlap : forall size o n i, (0 < size)%Z -> (0 < n)%nat -> (- size < o < Z.of_nat n)%Z -> (0 <= i < size)%Z ->
  let '(so, bo, act) := axis size o n in
  (in_slice i bo (bo + act) (Z.to_nat size) = true <-> (0 <= o + i < Z.of_nat n)%Z) /\
  (so + (i - clamp bo (Z.to_nat size)) = o + i)%Z.
Proof.
  intros size o n i Hs Hn Ho Hi. unfold axis. unfold in_slice. rewrite andb_true_iff, Z.leb_le, Z.ltb_lt.
  rewrite !clamp_in by lia. lia.
Qed.
(** With [extend]: when part and grid overlap along both axes, cells outside count as occupied. *)
Theorem subworld_extend_partial : forall w m size offset prefix, w_W w = Some m -> shaped m -> (0 < m_rows m)%nat -> (0 < m_cols m)%nat ->
  (0 < fst size)%Z -> (0 < snd size)%Z -> (- fst size < fst offset < Z.of_nat (m_rows m))%Z -> (- snd size < snd offset < Z.of_nat (m_cols m))%Z ->
  exists s n, dump_subworld w size offset prefix true = Ok s /\ w_W s = Some n /\ shaped n /\
    Z.of_nat (m_rows n) = fst size /\ Z.of_nat (m_cols n) = snd size /\ w_prefix s = prefix /\ w_init s = [] /\ w_goal s = [] /\
    forall i j, (0 <= i < fst size)%Z -> (0 <= j < snd size)%Z ->
      view n i j = match view m (fst offset + i)%Z (snd offset + j)%Z with Some v => Some v | None => Some 1%Z end.
Proof.
  intros w m [h l] [o p] prefix W S Hr Hc Hh Hl Ho Hp. cbn [fst snd] in *. unfold dump_subworld. rewrite W. cbn [fst snd negb].
  destruct (Z.ltb_spec h 0); [lia|]. destruct (Z.ltb_spec l 0); [lia|]. cbn [orb].
  destruct ((Z.of_nat (m_rows m) =? 0) && (0 <? h) || (Z.of_nat (m_cols m) =? 0) && (0 <? l))%Z eqn:E.
  { rewrite orb_true_iff, !andb_true_iff, !Z.eqb_eq, !Z.ltb_lt in E. lia. }
  pose proof (fun i => axis_overlap h o (m_rows m) i Hh Hr Ho) as A. destruct (axis h o (m_rows m)) as [[so bo] act].
  pose proof (fun j => axis_overlap l p (m_cols m) j Hl Hc Hp) as B. destruct (axis l p (m_cols m)) as [[so' bo'] act'].
  do 2 eexists. split; [reflexivity|]. split; [reflexivity|]. split; [apply tab_shaped|]. cbn [m_rows m_cols w_prefix w_init w_goal tab].
  split; [lia|]. split; [lia|]. split; [reflexivity|]. split; [reflexivity|]. split; [reflexivity|]. intros i j Hi Hj.
  rewrite tab_view by lia. rewrite !Z2Nat.id by lia. destruct (A i Hi) as [A1 A2]. destruct (B j Hj) as [B1 B2].
  destruct (in_slice i bo (bo + act) (Z.to_nat h)); cbn [andb].
  - destruct (in_slice j bo' (bo' + act') (Z.to_nat l)).
    + rewrite view_at; [|exact S|apply A1; reflexivity|apply B1; reflexivity]. rewrite A2, B2. reflexivity.
    + rewrite view_outside; [reflexivity|exact S|]. intros [_ X]. apply B1 in X. discriminate.
  - rewrite view_outside; [reflexivity|exact S|]. intros [X _]. apply A1 in X. discriminate.
Qed.
(** A part entirely outside still gets the nearest row (or column) of the grid: here a free one
    where everything should count as occupied, on either side. *)
Theorem subworld_extend_refuted :
  exists w m, w_W w = Some m /\ shaped m /\
    (exists s n, dump_subworld w (2, 2)%Z (5, 0)%Z "Y" true = Ok s /\ w_W s = Some n /\ (view m 5 0 = None /\ view n 0 0 = Some 0)%Z) /\
    (exists s n, dump_subworld w (2, 2)%Z (-5, 0)%Z "Y" true = Ok s /\ w_W s = Some n /\ (view m (-4) 0 = None /\ view n 1 0 = Some 0)%Z).
Proof.
  exists (World (Some (tab 2 2 (fun _ _ => 0%Z))) [] [] "Y" (0, 0)%Z). eexists. split; [reflexivity|]. split; [apply tab_shaped|].
  split; do 2 eexists; (split; [vm_compute; reflexivity|]); (split; [vm_compute; reflexivity|]); split; vm_compute; reflexivity.
Qed.

(** ** C50: scaling *)
(** Row by row, and from left to right in each row. *)
Definition before (a b : Z * Z) : Prop := (fst a < fst b \/ fst a = fst b /\ snd a < snd b)%Z.
Definition row_major (l : list (Z * Z)) : Prop := StronglySorted before l.
Lemma sorted_filter : forall (A : Type) (R : A -> A -> Prop) f l, StronglySorted R l -> StronglySorted R (filter f l).
Proof.
  intros A R f l H. induction H as [|x l S IH F]; cbn; [constructor|]. destruct (f x); [|exact IH]. constructor; [exact IH|].
  rewrite Forall_forall in *. intros y Hy. apply F. apply filter_In in Hy. apply Hy.
Qed.
Definition zz (p : nat * nat) : Z * Z := (Z.of_nat (fst p), Z.of_nat (snd p)).
Lemma cells_sorted : forall r c, StronglySorted (fun a b => before (zz a) (zz b)) (cells_of r c).
Proof.
  intros r c. unfold cells_of.
  assert (G : forall n b, StronglySorted lt (List.seq b n)).
  { induction n as [|n IH]; intro b; cbn; constructor; [apply IH|]. apply Forall_forall. intros y Hy. apply in_seq in Hy. lia. }
  generalize (G c 0%nat). generalize (List.seq 0 c). intros cs Hc. generalize (G r 0%nat). generalize (List.seq 0 r). clear -Hc.
  intros rs Hr. induction Hr as [|x rs S IH F]; cbn; [constructor|].
  assert (K : StronglySorted (fun a b => before (zz a) (zz b)) (map (fun y : nat => (x, y)) cs)).
  { clear -Hc. induction Hc as [|y cs S' IH' F']; cbn; constructor; [exact IH'|].
    - apply Forall_forall. intros k Hk. apply in_map_iff in Hk. destruct Hk as (z & <- & Hz). rewrite Forall_forall in F'. specialize (F' z Hz).
      unfold before, zz. cbn. lia. }
  revert K.
  assert (Q : Forall (fun k : nat * nat => fst k = x) (map (fun y : nat => (x, y)) cs)).
  { apply Forall_forall. intros k Hk. apply in_map_iff in Hk. destruct Hk as (z & <- & _). reflexivity. }
  assert (Q' : Forall (fun k : nat * nat => (x < fst k)%nat) (list_prod rs cs)).
  { apply Forall_forall. intros [a b] Hk. apply in_prod_iff in Hk. rewrite Forall_forall in F. apply F, Hk. }
  generalize dependent (map (fun y : nat => (x, y)) cs). intros l Q K. generalize dependent (list_prod rs cs). intros l' IH Q'. clear -K Q IH Q'.
  induction K as [|k l K IHK F]; [exact IH|]. cbn. inversion Q; subst. constructor; [apply IHK; assumption|].
  apply Forall_app. split; [exact F|]. rewrite Forall_forall in Q' |- *. intros y Hy. specialize (Q' y Hy). unfold before, zz. cbn. lia.
Qed.
Lemma row_major_cells : forall r c f, row_major (map zz (filter f (cells_of r c))).
Proof.
  intros r c f. pose proof (sorted_filter _ _ f _ (cells_sorted r c)) as H. induction H as [|x l S IH F]; cbn; constructor; [exact IH|].
  rewrite Forall_forall in *. intros y Hy. apply in_map_iff in Hy. destruct Hy as (z & <- & Hz). apply F, Hz.
Qed.
(** A list in this order is determined by its elements. *)
Lemma row_major_unique : forall a b, row_major a -> row_major b -> (forall k, In k a <-> In k b) -> a = b.
Proof.
  intros a b Ha. revert b. induction Ha as [|x a Sa IH Fa]; intros b Hb E.
  - destruct b as [|y b]; [reflexivity|]. exfalso. apply (E y). left. reflexivity.
  - destruct Hb as [|y b Sb Fb]; [exfalso; apply (E x); left; reflexivity|].
    rewrite Forall_forall in Fa, Fb.
    assert (XY : x = y).
    { destruct (proj1 (E x) (or_introl eq_refl)) as [X|X]; [congruence|]. destruct (proj2 (E y) (or_introl eq_refl)) as [Y|Y]; [congruence|].
      specialize (Fa y Y). specialize (Fb x X). unfold before in *. exfalso. lia. }
    subst y. f_equal. apply IH; [exact Sb|]. intro k. split; intro H.
    + destruct (proj1 (E k) (or_intror H)) as [X|X]; [|exact X]. subst k. specialize (Fa x H). unfold before in Fa. lia.
    + destruct (proj2 (E k) (or_intror H)) as [X|X]; [|exact X]. subst k. specialize (Fb x H). unfold before in Fb. lia.
Qed.

(** Every cell of the scaled world is occupied exactly when the cell it was blown up from is; initial
    cells and goals move to the corner of their block. *)
Theorem scale_cells : forall w m xf yf, w_W w = Some m -> shaped m -> (0 < xf)%nat -> (0 < yf)%nat ->
  exists s n, scale xf yf w = Ok s /\ w_W s = Some n /\ shaped n /\ m_rows n = (m_rows m * yf)%nat /\ m_cols n = (m_cols m * xf)%nat /\
    w_prefix s = w_prefix w /\
    (forall y x v a b, view m y x = Some v -> (0 <= a < Z.of_nat yf)%Z -> (0 <= b < Z.of_nat xf)%Z ->
       view n (y * Z.of_nat yf + a)%Z (x * Z.of_nat xf + b)%Z = Some (if Z.eqb v 1 then 1 else 0)%Z) /\
    (forall k, In k (w_init s) <-> exists y x v, view m y x = Some v /\ In (y, x) (w_init w) /\ k = (y * Z.of_nat yf, x * Z.of_nat xf)%Z) /\
    (forall k, In k (w_goal s) <-> exists y x v, view m y x = Some v /\ In (y, x) (w_goal w) /\ k = (y * Z.of_nat yf, x * Z.of_nat xf)%Z) /\
    row_major (w_init s) /\ row_major (w_goal s).
Proof.
  intros w m xf yf W S Hx Hy. unfold scale. rewrite W. do 2 eexists. split; [reflexivity|]. split; [reflexivity|]. split; [apply tab_shaped|].
  cbn [m_rows m_cols tab w_prefix w_init w_goal]. split; [reflexivity|]. split; [reflexivity|]. split; [reflexivity|].
  assert (MV : forall (l : list ij) k,
    In k (map zz (filter (fun p => Nat.eqb (fst p mod yf) 0 && Nat.eqb (snd p mod xf) 0 && ij_mem (Z.of_nat (fst p / yf), Z.of_nat (snd p / xf)) l) (cells_of (m_rows m * yf) (m_cols m * xf)))) <->
    exists y x v, view m y x = Some v /\ In (y, x) l /\ k = (y * Z.of_nat yf, x * Z.of_nat xf)%Z).
  { intros l k. rewrite in_map_iff. split.
    - intros ([i j] & <- & H). apply filter_In in H. cbn [fst snd] in H. destruct H as [H1 H2]. apply in_prod_iff in H1. rewrite !in_seq in H1.
      repeat rewrite andb_true_iff in H2. rewrite !Nat.eqb_eq, ij_mem_In in H2. destruct H2 as [[Ei Ej] M].
      pose proof (Nat.div_mod i yf ltac:(lia)) as Di. pose proof (Nat.div_mod j xf ltac:(lia)) as Dj.
      assert (Li : (i / yf < m_rows m)%nat) by (apply Nat.div_lt_upper_bound; lia).
      assert (Lj : (j / xf < m_cols m)%nat) by (apply Nat.div_lt_upper_bound; lia).
      do 3 eexists. split; [apply view_cell; [exact S|exact Li|exact Lj]|]. split; [exact M|]. unfold zz. cbn [fst snd]. f_equal; nia.
    - intros (y & x & v & V & M & ->). apply view_inside in V; [|exact S]. exists (Z.to_nat y * yf, Z.to_nat x * xf)%nat.
      split; [unfold zz; cbn [fst snd]; f_equal; lia|]. apply filter_In. cbn [fst snd]. split.
      + apply in_prod; apply in_seq; nia.
      + rewrite !Nat.mod_mul, !Nat.div_mul by lia. cbn [Nat.eqb andb]. rewrite !Z2Nat.id by lia. apply ij_mem_In. exact M. }
  split; [|split; [|split; [|split]]].
  - intros y x v a b V Ha Hb. pose proof (view_inside _ _ _ _ S V) as [Ry Rx]. rewrite view_at in V by assumption. injection V as V.
    rewrite tab_view by nia.
    replace (Z.to_nat (y * Z.of_nat yf + a) / yf)%nat with (Z.to_nat y).
    2:{ apply Nat.div_unique with (Z.to_nat a); nia. }
    replace (Z.to_nat (x * Z.of_nat xf + b) / xf)%nat with (Z.to_nat x).
    2:{ apply Nat.div_unique with (Z.to_nat b); nia. }
    rewrite V. reflexivity.
  - intro k. apply MV.
  - intro k. apply MV.
  - apply row_major_cells.
  - apply row_major_cells.
Qed.

(** ** C51: names of cells *)
Lemma split_app : forall sep a cur b, split_on sep cur (a ++ sep :: b) = split_on sep cur a ++ split_on sep [] b.
Proof.
  intros sep a. induction a as [|c a IH]; intros cur b; cbn.
  - rewrite Ascii.eqb_refl. reflexivity.
  - destruct (Ascii.eqb c sep); rewrite IH; reflexivity.
Qed.
Lemma split_none : forall sep b cur, ~ In sep b -> split_on sep cur b = [rev cur ++ b].
Proof.
  intros sep b. induction b as [|c b IH]; intros cur H; cbn; [rewrite app_nil_r; reflexivity|].
  destruct (Ascii.eqb_spec c sep) as [->|N]; [exfalso; apply H; left; reflexivity|].
  rewrite IH by (intro X; apply H; right; exact X). cbn. rewrite <- app_assoc. reflexivity.
Qed.
Lemma split_not_nil : forall sep a cur, split_on sep cur a <> [].
Proof. intros sep a. induction a as [|c a IH]; intros cur; cbn; [discriminate|]. destruct (Ascii.eqb c sep); [discriminate|apply IH]. Qed.
Lemma text_app : forall a b, text (a ++ b) = (text a ++ text b)%string.
Proof. intros a b. induction a as [|c a IH]; [reflexivity|]. cbn. unfold text in IH. rewrite IH. reflexivity. Qed.
Lemma join_split : forall a cur, join "_" (map text (split_on "_" cur a)) = text (rev cur ++ a).
Proof.
  induction a as [|c a IH]; intro cur; cbn [split_on]; [rewrite app_nil_r; reflexivity|].
  destruct (Ascii.eqb_spec c "_") as [->|N].
  - cbn [map]. specialize (IH []). cbn [rev app] in IH. pose proof (split_not_nil "_" a []) as NN.
    destruct (split_on "_" [] a) as [|f fs]; [contradiction|]. change (join "_" (text (rev cur) :: map text (f :: fs))) with (text (rev cur) ++ "_" ++ join "_" (map text (f :: fs)))%string.
    rewrite IH, text_app. reflexivity.
  - rewrite IH. cbn [rev]. rewrite <- app_assoc. reflexivity.
Qed.

Lemma is_dec_digit : forall c, is_dec c = M_Lexer.digit c.
Proof. intros [[] [] [] [] [] [] [] []]; reflexivity. Qed.
Lemma digits_nat_text : forall s a, (forall c, In c (list_ascii_of_string s) -> M_Lexer.digit c = true) -> digits_val a (list_ascii_of_string s) = nat_text a s.
Proof.
  induction s as [|c s IH]; intros a H; [reflexivity|]. cbn [list_ascii_of_string digits_val nat_text].
  pose proof (H c (or_introl eq_refl)) as D. rewrite is_dec_digit, D. rewrite <- is_dec_digit in D. unfold is_dec, nat_of_ascii in D. unfold digit_val, nat_of_ascii.
  replace ((48 <=? N_of_ascii c)%N && (N_of_ascii c <=? 57)%N) with true.
  2:{ symmetry. apply andb_true_iff in D. destruct D as [D1 D2]. apply Nat.leb_le in D1, D2. apply andb_true_iff. split; apply N.leb_le; lia. }
  rewrite IH by (intros x Hx; apply H; right; exact Hx). f_equal. lia.
Qed.
Definition plain (c : ascii) : bool := M_Lexer.digit c || Ascii.eqb c "-".
Lemma plain_not_space : forall c, plain c = true -> is_space c = false /\ c <> "_"%char /\ c <> "n"%char /\ c <> "#"%char.
Proof. intros [[] [] [] [] [] [] [] []] H; try discriminate H; repeat split; discriminate. Qed.
Lemma strip_plain : forall s, (forall c, In c s -> is_space c = false) -> strip s = s.
Proof.
  assert (G : forall s, (forall c, In c s -> is_space c = false) -> lstrip s = s).
  { intros [|c s] H; [reflexivity|]. cbn. rewrite (H c) by (left; reflexivity). reflexivity. }
  intros s H. unfold strip. rewrite (G s H). rewrite G; [apply rev_involutive|]. intros c Hc. apply H. apply in_rev. exact Hc.
Qed.
Lemma str_nat_digits : forall n c, In c (list_ascii_of_string (str_nat n)) -> M_Lexer.digit c = true.
Proof.
  intros n c H. pose proof (str_nat_numeral n) as N. destruct (str_nat n) as [|d r]; [destruct H|]. unfold numeral in N. apply andb_true_iff in N. destruct N as [N1 N2].
  destruct H as [<-|H]; [exact N1|]. rewrite forallb_forall in N2. apply N2, H.
Qed.
Lemma str_Z_plain : forall z c, In c (list_ascii_of_string (str_Z z)) -> plain c = true.
Proof.
  intros z c H. unfold str_Z in H. unfold plain. destruct (z <? 0)%Z.
  - destruct H as [<-|H]; [reflexivity|]. rewrite (str_nat_digits _ _ H). reflexivity.
  - rewrite (str_nat_digits _ _ H). reflexivity.
Qed.
Lemma str_nat_cons : forall n, exists c r, list_ascii_of_string (str_nat n) = c :: r /\ M_Lexer.digit c = true.
Proof.
  intro n. pose proof (str_nat_numeral n) as N. pose proof (str_nat_digits n) as D. destruct (str_nat n) as [|d r]; [discriminate|].
  exists d, (list_ascii_of_string r). split; [reflexivity|]. apply D. left. reflexivity.
Qed.
Lemma nat_text_str_nat : forall n, nat_text 0 (str_nat n) = Some (Z.of_nat n).
Proof. intro n. rewrite <- num_text_str_nat. symmetry. apply num_text_numeral, str_nat_numeral. Qed.
Lemma py_int_str_nat : forall n, py_int (list_ascii_of_string (str_nat n)) = Some (Z.of_nat n).
Proof.
  intro n. unfold py_int. rewrite strip_plain.
  2:{ intros c H. apply plain_not_space. unfold plain. rewrite (str_nat_digits _ _ H). reflexivity. }
  rewrite <- nat_text_str_nat, <- digits_nat_text by apply str_nat_digits. destruct (str_nat_cons n) as (c & r & -> & D).
  destruct (Ascii.eqb_spec c "-") as [->|N1]; [discriminate D|]. destruct (Ascii.eqb_spec c "+") as [->|N2]; [discriminate D|].
  unfold digits. rewrite is_dec_digit, D. reflexivity.
Qed.
Lemma py_int_str_Z : forall z, py_int (list_ascii_of_string (str_Z z)) = Some z.
Proof.
  intro z. pose proof (str_Z_plain z) as P. unfold str_Z in *. destruct (Z.ltb_spec z 0).
  - unfold py_int. rewrite strip_plain by (intros c Hc; apply plain_not_space, P, Hc). cbn [list_ascii_of_string append Ascii.eqb Bool.eqb].
    pose proof (nat_text_str_nat (Z.to_nat (- z))) as V. rewrite <- digits_nat_text in V by apply str_nat_digits.
    destruct (str_nat_cons (Z.to_nat (- z))) as (c & r & E & D). rewrite E in *. unfold digits. rewrite is_dec_digit, D, V. cbn [option_map]. f_equal. lia.
  - rewrite py_int_str_nat. f_equal. lia.
Qed.

(** Every prefix, with or without underscores, and every row and column. *)
Theorem extract_coord_name : forall p r c, extract_coord (p ++ "_" ++ str_Z r ++ "_" ++ str_Z c) = Some (p, r, c).
Proof.
  intros p r c. unfold extract_coord.
  assert (LA : forall a b, list_ascii_of_string (a ++ b) = list_ascii_of_string a ++ list_ascii_of_string b).
  { induction a as [|x a IH]; intro b; [reflexivity|]. cbn. rewrite IH. reflexivity. }
  assert (U : forall z, ~ In "_"%char (list_ascii_of_string (str_Z z))).
  { intros z H. apply str_Z_plain in H. apply plain_not_space in H. destruct H as (_ & H & _). apply H. reflexivity. }
  rewrite !LA. cbn [list_ascii_of_string app]. rewrite split_app, split_app, !(split_none _ (list_ascii_of_string (str_Z _))) by apply U. cbn [rev app].
  change (rev (split_on "_" [] (list_ascii_of_string p) ++ [list_ascii_of_string (str_Z r); list_ascii_of_string (str_Z c)]))
    with (rev (split_on "_" [] (list_ascii_of_string p) ++ [list_ascii_of_string (str_Z r)] ++ [list_ascii_of_string (str_Z c)])).
  rewrite app_assoc, rev_app_distr, rev_app_distr. cbn [rev app].
  destruct (rev (split_on "_" [] (list_ascii_of_string p))) as [|f fs] eqn:E.
  { exfalso. apply (split_not_nil "_" (list_ascii_of_string p) []). rewrite <- (rev_involutive (split_on _ _ _)), E. reflexivity. }
  rewrite <- E, rev_involutive, join_split. cbn [rev app]. unfold text. rewrite !string_of_list_ascii_of_string, !py_int_str_Z.
  destruct (String.eqb_spec (str_Z c) "n") as [X|_]; [|reflexivity].
  exfalso. pose proof (str_Z_plain c "n"%char) as P. rewrite X in P. specialize (P (or_introl eq_refl)). discriminate.
Qed.
(** C51: the Boolean name of a cell gives back the prefix and the (wrapped, shifted) row and column. *)
Theorem extract_coord_getitem : forall w m k name, w_W w = Some m -> getitem w k false false = Ok name ->
  extract_coord name = Some (w_prefix w, (wrapped (fst k) (m_rows m) + fst (w_offset w))%Z, (wrapped (snd k) (m_cols m) + snd (w_offset w))%Z).
Proof.
  intros w m k name W H. unfold getitem in H. rewrite W in H.
  destruct (within_dec (fst k) (m_rows m)) as [A|A]; [destruct (within_dec (snd k) (m_cols m)) as [B|B]|].
  2,3: rewrite wrap_without in H by tauto; discriminate H.
  rewrite wrap_within in H by assumption. cbn [bind fst snd] in H. injection H as <-. apply extract_coord_name.
Qed.
Theorem extract_coord_nowhere : forall p, extract_coord (p ++ "_n_n") = Some (p, -1, -1)%Z.
Proof.
  intro p. unfold extract_coord.
  assert (LA : forall a b, list_ascii_of_string (a ++ b) = list_ascii_of_string a ++ list_ascii_of_string b).
  { induction a as [|x a IH]; intro b; [reflexivity|]. cbn. rewrite IH. reflexivity. }
  rewrite LA. cbn [list_ascii_of_string]. rewrite split_app. change (split_on "_" [] ["n"; "_"; "n"]%char) with ([["n"%char]] ++ [["n"%char]]).
  rewrite app_assoc, rev_app_distr, rev_app_distr. cbn [rev app].
  destruct (rev (split_on "_" [] (list_ascii_of_string p))) as [|f fs] eqn:E.
  { exfalso. apply (split_not_nil "_" (list_ascii_of_string p) []). rewrite <- (rev_involutive (split_on _ _ _)), E. reflexivity. }
  rewrite <- E, rev_involutive, join_split. cbn [rev app]. unfold text. rewrite string_of_list_ascii_of_string. reflexivity.
Qed.

Definition small := World (Some (Mat 2 3 [[0; 1; 0]; [0; 0; 1]]%Z)) [(0, 0)]%Z [(1, 1)]%Z "a_b" (0, 0)%Z.
Example small_cases :
  getitem small (-1, 1)%Z false false = Ok "a_b_1_1" /\ extract_coord "a_b_1_1" = Some ("a_b", 1, 1)%Z /\ extract_coord "a_b" = None /\
  dump_subworld small (2, 2)%Z (0, 1)%Z "Z" false = Ok (World (Some (Mat 2 2 [[1; 0]; [0; 1]]%Z)) [] [] "Z" (0, 0)%Z) /\
  dump_subworld small (2, 2)%Z (1, -1)%Z "Z" true = Ok (World (Some (Mat 2 2 [[1; 0]; [1; 1]]%Z)) [] [] "Z" (0, 0)%Z) /\
  scale 2 1 small = Ok (World (Some (Mat 2 6 [[0; 0; 1; 1; 0; 0]; [0; 0; 0; 0; 1; 1]]%Z)) [(0, 0)]%Z [(1, 2)]%Z "a_b" (0, 0)%Z) /\
  world_eq small small = true.
Proof. repeat split; vm_compute; reflexivity. Qed.

Print Assumptions world_eq_iff.
Print Assumptions world_eq_partial.
Print Assumptions world_eq_none.
Print Assumptions world_eq_refuted.
Print Assumptions subworld_inside.
Print Assumptions subworld_extend_partial.
Print Assumptions subworld_extend_refuted.
Print Assumptions scale_cells.
Print Assumptions extract_coord_name.
Print Assumptions extract_coord_getitem.
Print Assumptions extract_coord_nowhere.
