(** Fourier-Motzkin elimination: a projection of polytopes, to instantiate the parameters of
    M_Horizon. *)
From Coq Require Import List String Bool Arith Lia QArith Qcanon.
From Verif Require Import M_Base L_Sum M_Feas S_Feas T_Feas.
Import ListNotations.
Open Scope list_scope.
Open Scope nat_scope.
Open Scope Qc_scope.

Definition is_pos (a : Qc) : bool := if Qclt_le_dec 0 a then true else false.
Definition is_neg (a : Qc) : bool := if Qclt_le_dec a 0 then true else false.
(** Evaluate the first [w] entries once *)
Definition memo (w : nat) (f : vec) : vec := let l := map f (List.seq 0 w) in fun j => nth j l 0.
Lemma memo_at w f j : (j < w)%nat -> memo w f j = f j.
Proof.
  intro J. unfold memo. rewrite (nth_indep _ 0 (f O)) by (rewrite map_length, seq_length; exact J). rewrite map_nth.
  rewrite seq_nth by exact J. reflexivity.
Qed.
Definition memo_poly (w : nat) (P : poly) : poly := map (fun h => {| h_a := memo w (h_a h); h_b := h_b h |}) P.
Lemma memo_poly_inside w P x : inside w (memo_poly w P) x <-> inside w P x.
Proof.
  assert (L : forall a, lin w (memo w a) x = lin w a x) by (intro a; apply sum_ext; intros j J; rewrite memo_at by exact J; reflexivity).
  unfold inside, memo_poly. split; intros H h I.
  - specialize (H {| h_a := memo w (h_a h); h_b := h_b h |}). cbn [h_a h_b] in H. rewrite L in H. apply H. apply in_map_iff. exists h. auto.
  - apply in_map_iff in I. destruct I as (g & <- & I). cbn [h_a h_b]. rewrite L. apply H. exact I.
Qed.
Definition fm_pair (v : nat) (h g : half) : half :=
  {| h_a := memo v (fun j => (- h_a g v) * h_a h j + h_a h v * h_a g j); h_b := (- h_a g v) * h_b h + h_a h v * h_b g |}.
Definition fm_elim (v : nat) (P : poly) : poly :=
  filter (fun h => negb (is_pos (h_a h v)) && negb (is_neg (h_a h v))) P ++
  flat_map (fun h => map (fm_pair v h) (filter (fun g => is_neg (h_a g v)) P)) (filter (fun h => is_pos (h_a h v)) P).
Fixpoint fm_down (k v : nat) (P : poly) : poly :=
  match k with O => P | S k' => fm_down k' (v - 1) (fm_elim (v - 1) P) end.
Definition fm_project (n w : nat) (P : poly) : poly := memo_poly n (fm_down (w - n) w (memo_poly w P)).

Lemma is_pos_spec a : is_pos a = true <-> 0 < a.
Proof. unfold is_pos. destruct (Qclt_le_dec 0 a) as [H|H]; split; intro; auto; try discriminate. exfalso. apply (Qclt_not_le _ _ H0). exact H. Qed.
Lemma is_neg_spec a : is_neg a = true <-> a < 0.
Proof. unfold is_neg. destruct (Qclt_le_dec a 0) as [H|H]; split; intro; auto; try discriminate. exfalso. apply (Qclt_not_le _ _ H0). exact H. Qed.
Lemma lin_ext w a x y : (forall j, (j < w)%nat -> x j = y j) -> lin w a x = lin w a y.
Proof. intro H. apply sum_ext. intros. rewrite H by auto. reflexivity. Qed.
Lemma inside_ext w P x y : (forall j, (j < w)%nat -> x j = y j) -> inside w P x -> inside w P y.
Proof. intros H I h Hh. rewrite <- (lin_ext w (h_a h) x y H). apply I. exact Hh. Qed.
Lemma lin_S v a x : lin (S v) a x = lin v a x + a v * x v.
Proof. reflexivity. Qed.

Lemma between (lo hi : list Qc) : (forall l h, In l lo -> In h hi -> l <= h) -> exists t, (forall l, In l lo -> l <= t) /\ (forall h, In h hi -> t <= h).
Proof.
  intro H.
  assert (MX : forall lo', lo' <> [] -> exists t, In t lo' /\ forall l, In l lo' -> l <= t).
  { induction lo' as [|a l IH]; [congruence|]. intros _. destruct l as [|b l].
    - exists a. split; [left; auto|]. intros x [->|[]]. apply Qcle_refl.
    - destruct IH as (t & I & M); [discriminate|]. destruct (Qclt_le_dec t a) as [C|C].
      + exists a. split; [left; auto|]. intros x [->|X]; [apply Qcle_refl|]. apply Qcle_trans with t; [auto|apply Qclt_le_weak; auto].
      + exists t. split; [right; auto|]. intros x [->|X]; auto. }
  assert (MN : forall lo', lo' <> [] -> exists t, In t lo' /\ forall l, In l lo' -> t <= l).
  { induction lo' as [|a l IH]; [congruence|]. intros _. destruct l as [|b l].
    - exists a. split; [left; auto|]. intros x [->|[]]. apply Qcle_refl.
    - destruct IH as (t & I & M); [discriminate|]. destruct (Qclt_le_dec a t) as [C|C].
      + exists a. split; [left; auto|]. intros x [->|X]; [apply Qcle_refl|]. apply Qcle_trans with t; [apply Qclt_le_weak; auto|auto].
      + exists t. split; [right; auto|]. intros x [->|X]; auto. }
  destruct lo as [|a lo].
  - destruct hi as [|b hi]; [exists 0; split; intros x []|]. destruct (MN (b :: hi)) as (t & I & M); [discriminate|].
    exists t. split; [intros x []|exact M].
  - destruct (MX (a :: lo)) as (t & I & M); [discriminate|]. exists t. split; [exact M|]. intros h Hh. apply H; auto.
Qed.

Lemma mul_le_pos a b c : 0 < c -> (a <= b <-> c * a <= c * b).
Proof.
  intro C. split; intro H.
  - rewrite !(Qcmult_comm c). apply Qcmult_le_compat_r; [exact H|apply Qclt_le_weak; exact C].
  - apply Qcmult_lt_0_le_reg_r with c; [exact C|]. rewrite !(Qcmult_comm _ c). exact H.
Qed.
Lemma neg_pos a : a < 0 -> 0 < - a.
Proof. intro H. apply Qclt_minus_iff in H. rewrite Qcplus_0_l in H. exact H. Qed.
Lemma pos_ne a : 0 < a -> a <> 0.
Proof. intros H E. subst. exact (Qclt_not_eq _ _ H eq_refl). Qed.
(** A row as a bound on the coordinate [v] *)
Definition bound (v : nat) (x : vec) (h : half) : Qc := (h_b h - lin v (h_a h) x) / h_a h v.
Lemma upper_bound v x h t : 0 < h_a h v -> (lin v (h_a h) x + h_a h v * t <= h_b h <-> t <= bound v x h).
Proof.
  intro P. rewrite (mul_le_pos t (bound v x h) (h_a h v) P). unfold bound.
  replace (h_a h v * ((h_b h - lin v (h_a h) x) / h_a h v)) with (h_b h - lin v (h_a h) x) by (field; apply pos_ne; auto).
  rewrite le_sub. rewrite (Qcplus_comm (h_a h v * t)). tauto.
Qed.
Lemma lower_bound v x h t : h_a h v < 0 -> (lin v (h_a h) x + h_a h v * t <= h_b h <-> bound v x h <= t).
Proof.
  intro P. apply neg_pos in P. rewrite (mul_le_pos (bound v x h) t (- h_a h v) P). unfold bound.
  assert (NZ : h_a h v <> 0). { intro E. rewrite E in P. exact (Qclt_not_eq _ _ P eq_refl). }
  replace (- h_a h v * ((h_b h - lin v (h_a h) x) / h_a h v)) with (lin v (h_a h) x - h_b h) by (field; auto).
  apply le_minus. ring.
Qed.
Lemma lin_pair v h g x : lin v (h_a (fm_pair v h g)) x = (- h_a g v) * lin v (h_a h) x + h_a h v * lin v (h_a g) x.
Proof. unfold lin, fm_pair. cbn [h_a]. rewrite <- !sum_mul_l, <- sum_add. apply sum_ext. intros. rewrite memo_at by auto. ring. Qed.
Lemma pair_bound v x h g : 0 < h_a h v -> h_a g v < 0 ->
  (lin v (h_a (fm_pair v h g)) x <= h_b (fm_pair v h g) <-> bound v x g <= bound v x h).
Proof.
  intros P Q. rewrite lin_pair. cbn [fm_pair h_b].
  assert (Q' := neg_pos _ Q). rewrite (mul_le_pos (bound v x g) (bound v x h) (h_a h v * - h_a g v)).
  - unfold bound. assert (NZ : h_a g v <> 0). { intro E. rewrite E in Q. exact (Qclt_not_eq _ _ Q eq_refl). }
    replace (h_a h v * - h_a g v * ((h_b g - lin v (h_a g) x) / h_a g v)) with (- h_a h v * (h_b g - lin v (h_a g) x)) by (field; auto).
    replace (h_a h v * - h_a g v * ((h_b h - lin v (h_a h) x) / h_a h v)) with (- h_a g v * (h_b h - lin v (h_a h) x)) by (field; apply pos_ne; auto).
    apply le_minus. ring.
  - replace 0 with (0 * - h_a g v) by ring. apply Qcmult_lt_compat_r; auto.
Qed.
Theorem fm_elim_spec v P x : inside v (fm_elim v P) x <-> exists t, inside (S v) P (fun j => if (j =? v)%nat then t else x j).
Proof.
  assert (LX : forall a t, lin (S v) a (fun j => if (j =? v)%nat then t else x j) = lin v a x + a v * t).
  { intros a t. rewrite lin_S, Nat.eqb_refl. f_equal. apply lin_ext. intros j J. replace (j =? v)%nat with false by (symmetry; apply Nat.eqb_neq; lia). reflexivity. }
  split.
  - intro H.
    destruct (between (map (bound v x) (filter (fun g => is_neg (h_a g v)) P)) (map (bound v x) (filter (fun h => is_pos (h_a h v)) P))) as (t & LO & HI).
    { intros l u Il Iu. apply in_map_iff in Il. apply in_map_iff in Iu. destruct Il as (g & <- & Ig). destruct Iu as (h & <- & Ih).
      assert (Ig' := Ig). assert (Ih' := Ih). apply filter_In in Ig'. apply filter_In in Ih'. destruct Ig' as [_ Ng]. destruct Ih' as [_ Ph].
      apply is_neg_spec in Ng. apply is_pos_spec in Ph. apply pair_bound; auto. apply H. unfold fm_elim. apply in_app_iff. right.
      apply in_flat_map. exists h. split; [exact Ih|]. apply in_map. exact Ig. }
    exists t. intros h Ih. rewrite LX. destruct (is_pos (h_a h v)) eqn:Ph; [|destruct (is_neg (h_a h v)) eqn:Nh].
    + apply upper_bound; [apply is_pos_spec; auto|]. apply HI. apply in_map. apply filter_In. auto.
    + apply lower_bound; [apply is_neg_spec; auto|]. apply LO. apply in_map. apply filter_In. auto.
    + assert (Z : h_a h v = 0).
      { apply Qcle_antisym; apply Qcnot_lt_le; intro C; [apply is_pos_spec in C|apply is_neg_spec in C]; congruence. }
      rewrite Z. replace (lin v (h_a h) x + 0 * t) with (lin v (h_a h) x) by ring. apply H. unfold fm_elim. apply in_app_iff. left.
      apply filter_In. rewrite Ph, Nh. auto.
  - intros (t & H) h Ih. unfold fm_elim in Ih. apply in_app_iff in Ih. destruct Ih as [Ih|Ih].
    + apply filter_In in Ih. destruct Ih as [Ih E]. apply andb_true_iff in E. destruct E as [E1 E2].
      apply negb_true_iff in E1. apply negb_true_iff in E2.
      assert (Z : h_a h v = 0).
      { apply Qcle_antisym; apply Qcnot_lt_le; intro C; [apply is_pos_spec in C|apply is_neg_spec in C]; congruence. }
      specialize (H h Ih). rewrite LX, Z in H. replace (lin v (h_a h) x + 0 * t) with (lin v (h_a h) x) in H by ring. exact H.
    + apply in_flat_map in Ih. destruct Ih as (u & Iu & Ih). apply in_map_iff in Ih. destruct Ih as (g & <- & Ig).
      apply filter_In in Iu. apply filter_In in Ig. destruct Iu as [Iu Pu]. destruct Ig as [Ig Ng].
      apply is_pos_spec in Pu. apply is_neg_spec in Ng. apply pair_bound; auto.
      assert (Hu := H u Iu). assert (Hg := H g Ig). rewrite LX in Hu, Hg. apply upper_bound in Hu; auto. apply lower_bound in Hg; auto.
      apply Qcle_trans with t; auto.
Qed.
Lemma fm_down_spec k v P x : (k <= v)%nat -> (inside (v - k) (fm_down k v P) x <-> exists y, (forall j, (j < v - k)%nat -> y j = x j) /\ inside v P y).
Proof.
  revert v P x. induction k as [|k IH]; intros v P x L; cbn [fm_down].
  - rewrite Nat.sub_0_r. split; [intro H; exists x; auto|]. intros (y & E & H). apply (inside_ext v P y x); auto.
  - replace (v - S k)%nat with (v - 1 - k)%nat by lia. rewrite IH by lia. split.
    + intros (y & E & H). apply fm_elim_spec in H. destruct H as (t & H). replace (S (v - 1)) with v in H by lia.
      exists (fun j => if (j =? v - 1)%nat then t else y j). split; [|exact H]. intros j J.
      replace (j =? v - 1)%nat with false by (symmetry; apply Nat.eqb_neq; lia). apply E. exact J.
    + intros (y & E & H). exists y. split; [exact E|]. apply fm_elim_spec. exists (y (v - 1)%nat). replace (S (v - 1)) with v by lia.
      apply (inside_ext v P y); [|exact H]. intros j J. destruct (Nat.eq_dec j (v - 1)) as [->|NE]; [rewrite Nat.eqb_refl; reflexivity|].
      apply Nat.eqb_neq in NE. rewrite NE. reflexivity.
Qed.
(** The projection of a polytope in [w] dimensions on the first [n] *)
Theorem fm_project_spec n w P x : (n <= w)%nat -> (inside n (fm_project n w P) x <-> exists y, (forall j, (j < n)%nat -> y j = x j) /\ inside w P y).
Proof.
  intro L. unfold fm_project. rewrite memo_poly_inside. assert (Q := fm_down_spec (w - n) w (memo_poly w P) x).
  replace (w - (w - n))%nat with n in Q by lia. rewrite Q by lia.
  split; intros (y & E & H); exists y; (split; [exact E|]); apply (memo_poly_inside w P y); exact H.
Qed.
