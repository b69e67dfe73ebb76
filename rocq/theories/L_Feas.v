(** Rows of the stacked constraints of [createLM] as linear forms on trajectories. *)
From Coq Require Import List String Bool Arith Lia QArith Qcanon.
From Verif Require Import M_Base L_Sum M_Feas S_Feas.
Import ListNotations.
Open Scope string_scope.
Open Scope list_scope.
Open Scope nat_scope.
Open Scope Qc_scope.

Definition stack (p : nat) (d : nat -> vec) : vec := fun c => d (c / p)%nat (c mod p)%nat.
Lemma stack_at p d t q : (q < p)%nat -> stack p d (t * p + q)%nat = d t q.
Proof.
  intro Q. unfold stack. rewrite Nat.div_add_l by lia. rewrite (Nat.div_small q) by auto. rewrite Nat.add_0_r.
  rewrite Nat.add_comm, Nat.mod_add by lia. rewrite Nat.mod_small by auto. reflexivity.
Qed.

(** ** Block diagonal arrays *)
Lemma diag_rows k B : a_rows (diag_loop k B) = ((k + 1) * a_rows B)%nat.
Proof. induction k as [|k IH]; cbn [diag_loop block_diag2 a_rows]; [lia|]. rewrite IH. lia. Qed.
Lemma diag_cols k B : a_cols (diag_loop k B) = ((k + 1) * a_cols B)%nat.
Proof. induction k as [|k IH]; cbn [diag_loop block_diag2 a_cols]; [lia|]. rewrite IH. lia. Qed.
Lemma diag_sum k B t q (v : vec) : (t <= k)%nat -> (q < a_rows B)%nat ->
  sum ((k + 1) * a_cols B) (fun c => a_at (diag_loop k B) (t * a_rows B + q)%nat c * v c)
  = sum (a_cols B) (fun c => a_at B q c * v (t * a_cols B + c)%nat).
Proof.
  revert t. induction k as [|k IH]; intros t T Q.
  - replace t with O by lia. cbn [diag_loop]. rewrite Nat.mul_1_l. reflexivity.
  - replace (S k + 1)%nat with ((k + 1) + 1)%nat by lia. rewrite Nat.mul_add_distr_r, sum_plus, Nat.mul_1_l.
    cbn [diag_loop block_diag2 a_at]. rewrite diag_rows, diag_cols.
    destruct (Nat.eq_dec t (S k)) as [->|NE].
    + rewrite sum_zero.
      * rewrite Qcplus_0_l. apply sum_ext. intros c C.
        replace ((S k * a_rows B + q <? (k + 1) * a_rows B) && ((k + 1) * a_cols B + c <? (k + 1) * a_cols B))%nat%bool with false
          by (symmetry; apply andb_false_iff; right; apply Nat.ltb_ge; lia).
        replace (((k + 1) * a_rows B <=? S k * a_rows B + q) && ((k + 1) * a_cols B <=? (k + 1) * a_cols B + c))%nat%bool with true
          by (symmetry; apply andb_true_iff; split; apply Nat.leb_le; lia).
        replace (S k * a_rows B + q - (k + 1) * a_rows B)%nat with q by lia.
        replace ((k + 1) * a_cols B + c - (k + 1) * a_cols B)%nat with c by lia.
        replace ((k + 1) * a_cols B + c)%nat with (S k * a_cols B + c)%nat by lia. reflexivity.
      * intros c C.
        replace (S k * a_rows B + q <? (k + 1) * a_rows B)%nat with false by (symmetry; apply Nat.ltb_ge; lia).
        replace ((k + 1) * a_cols B <=? c)%nat with false by (symmetry; apply Nat.leb_gt; lia).
        rewrite andb_false_r. cbn [andb]. ring.
    + assert (LT : (t * a_rows B + q < (k + 1) * a_rows B)%nat) by nia.
      rewrite (sum_zero (a_cols B)).
      * rewrite Qcplus_0_r. rewrite <- (IH t) by (lia || auto). apply sum_ext. intros c C.
        apply Nat.ltb_lt in LT. rewrite LT. apply Nat.ltb_lt in C. rewrite C. reflexivity.
      * intros c C.
        replace ((k + 1) * a_cols B + c <? (k + 1) * a_cols B)%nat with false by (symmetry; apply Nat.ltb_ge; lia).
        replace ((k + 1) * a_rows B <=? t * a_rows B + q)%nat with false by (symmetry; apply Nat.leb_gt; lia).
        rewrite andb_false_r. cbn [andb]. ring.
Qed.

Section LM.
Variable sys : sysdyn.
Variable N : nat.
Hypothesis N1 : (1 <= N)%nat.
(** The disturbance matrix of the system is used. *)
Hypothesis Eused : lm_E sys = {| a_rows := sd_n sys; a_cols := sd_p sys; a_at := sd_E sys |}.
Notation n := (sd_n sys).
Notation m := (sd_m sys).
Notation p := (sd_p sys).

(** The arrays of round [i] *)
Fixpoint An (i : nat) : mat := match i with O => eye | S k => next_An sys (An k) end.
Fixpoint Ak (i : nat) : mat := match i with O => fun _ _ => 0 | S k => next_Ak sys (Ak k) k end.

Lemma Ak_zero i k r : (i * n <= r)%nat -> Ak i k r = 0.
Proof.
  revert k r. induction i as [|i IH]; intros k r L; [reflexivity|]. cbn [Ak]. unfold next_Ak.
  replace ((i * n <=? r) && (r <? (i + 1) * n))%nat%bool with false
    by (symmetry; apply andb_false_iff; right; apply Nat.ltb_ge; lia).
  apply sum_zero. intros l _. rewrite IH by lia. ring.
Qed.

Variable z : vec.
Variable d : nat -> vec.
(** The stacked effects of inputs, offset and disturbances *)
Definition effect : vec := fun r =>
  sum (m * N) (fun c => B_diag sys N r c * z (n + c)%nat) + K_hat sys r + sum (p * N) (fun c => E_diag sys N r c * stack p d c).
Lemma effect_at t q : (t < N)%nat -> (q < n)%nat ->
  effect (t * n + q)%nat = lin m (sd_B sys q) (inputs sys z t) + sd_K sys q + lin p (sd_E sys q) (d t).
Proof.
  intros T Q. unfold effect.
  assert (EB := diag_sum (N - 1) (lm_B sys) t q (fun c => z (n + c)%nat) ltac:(lia) Q).
  assert (EE := diag_sum (N - 1) (lm_E sys) t q (stack p d) ltac:(lia)). rewrite Eused in EE. specialize (EE Q).
  cbn [lm_B a_rows a_cols a_at] in EB, EE. replace (N - 1 + 1)%nat with N in EB, EE by lia.
  unfold B_diag, E_diag. rewrite Eused. rewrite (Nat.mul_comm m N), (Nat.mul_comm p N).
  change (diag_loop (N - 1) (lm_B sys)) with (diag_loop (N - 1) {| a_rows := n; a_cols := m; a_at := sd_B sys |}).
  change (diag_loop (N - 1) (lm_B sys)) with (diag_loop (N - 1) {| a_rows := n; a_cols := m; a_at := sd_B sys |}) in EB.
  rewrite EB, EE. f_equal; [f_equal|].
  - unfold lin, inputs. apply sum_ext. intros c C. f_equal. f_equal. lia.
  - unfold K_hat. rewrite Nat.add_comm, Nat.mod_add by lia. rewrite Nat.mod_small by auto. reflexivity.
  - unfold lin. apply sum_ext. intros c C. rewrite stack_at by auto. reflexivity.
Qed.
(** The state that the arrays compute is the state of the trajectory. *)
Definition state_of (i : nat) : vec := fun k => sum n (fun j => An i k j * z j) + sum (n * N) (fun r => Ak i k r * effect r).
Theorem state_traj i : (i <= N)%nat -> forall k, (k < n)%nat -> state_of i k = traj sys z (inputs sys z) d i k.
Proof.
  induction i as [|i IH]; intros L k K.
  - unfold state_of. cbn [An Ak traj]. rewrite (sum_single n k).
    + rewrite sum_zero by (intros; ring). unfold eye. rewrite Nat.eqb_refl. ring.
    + auto.
    + intros j J NE. unfold eye. replace (k =? j)%nat with false by (symmetry; apply Nat.eqb_neq; auto). ring.
  - cbn [traj]. unfold step, state_of. cbn [An Ak].
    (* the effects of earlier steps, and of this one *)
    assert (SP : sum (n * N) (fun r => next_Ak sys (Ak i) i k r * effect r)
                 = sum n (fun l => sd_A sys k l * sum (n * N) (fun r => Ak i l r * effect r)) + effect (i * n + k)%nat).
    { rewrite <- sum_assoc. rewrite (Nat.mul_comm n N). rewrite !sum_blocks.
      assert (S1 : sum N (fun t => sum n (fun q => sum n (fun k0 => sd_A sys k k0 * Ak i k0 (t * n + q)%nat) * effect (t * n + q)%nat))
          + effect (i * n + k)%nat =
          sum N (fun t => sum n (fun q => sum n (fun k0 => sd_A sys k k0 * Ak i k0 (t * n + q)%nat) * effect (t * n + q)%nat)
             + (if (t =? i)%nat then effect (i * n + k)%nat else 0))).
      { rewrite sum_add. f_equal. rewrite (sum_single N i).
        - rewrite Nat.eqb_refl. reflexivity.
        - lia.
        - intros t _ NE. apply Nat.eqb_neq in NE. rewrite NE. reflexivity. }
      rewrite S1. apply sum_ext. intros t T. destruct (t =? i)%nat eqn:ET.
      - apply Nat.eqb_eq in ET. subst t. rewrite (sum_single n k).
        + unfold next_Ak. replace ((i * n <=? i * n + k) && (i * n + k <? (i + 1) * n))%nat%bool with true
            by (symmetry; apply andb_true_iff; split; [apply Nat.leb_le|apply Nat.ltb_lt]; lia).
          replace (i * n + k - i * n)%nat with k by lia. unfold eye. rewrite Nat.eqb_refl.
          rewrite (sum_zero n); [ring|]. intros q Q.
          rewrite (sum_zero n); [ring|]. intros l _. rewrite Ak_zero by lia. ring.
        + auto.
        + intros q Q NE. unfold next_Ak. replace ((i * n <=? i * n + q) && (i * n + q <? (i + 1) * n))%nat%bool with true
            by (symmetry; apply andb_true_iff; split; [apply Nat.leb_le|apply Nat.ltb_lt]; lia).
          replace (i * n + q - i * n)%nat with q by lia. unfold eye.
          replace (k =? q)%nat with false by (symmetry; apply Nat.eqb_neq; auto). ring.
      - apply Nat.eqb_neq in ET. rewrite Qcplus_0_r. apply sum_ext. intros q Q. unfold next_Ak.
        replace ((i * n <=? t * n + q) && (t * n + q <? (i + 1) * n))%nat%bool with false.
        + reflexivity.
        + symmetry. apply andb_false_iff. destruct (Nat.lt_total t i) as [C|[C|C]]; [left; apply Nat.leb_gt; nia|lia|right; apply Nat.ltb_ge; nia]. }
    rewrite SP. rewrite effect_at by (lia || auto).
    unfold next_An, mat_dot, row_dot. rewrite sum_assoc.
    replace (lin n (sd_A sys k) (traj sys z (inputs sys z) d i))
      with (sum n (fun l => sd_A sys k l * sum n (fun j => An i l j * z j)) + sum n (fun l => sd_A sys k l * sum (n * N) (fun r => Ak i l r * effect r))).
    + ring.
    + rewrite <- sum_add. apply sum_ext. intros l Ll. rewrite <- IH by (lia || auto). unfold state_of. ring.
Qed.

(** A row of [L] with its part of [M] and [G] is the row of the polytope at the state. *)
Lemma AB_sum A_n A_k k : sum (n + N * m) (fun j => AB_line sys N A_n A_k k j * z j)
  = sum n (fun j => A_n k j * z j) + sum (n * N) (fun r => A_k k r * sum (m * N) (fun c => B_diag sys N r c * z (n + c)%nat)).
Proof.
  rewrite sum_plus. f_equal.
  - apply sum_ext. intros j J. unfold AB_line. apply Nat.ltb_lt in J. rewrite J. reflexivity.
  - rewrite <- sum_assoc. rewrite (Nat.mul_comm N m). apply sum_ext. intros c C. unfold AB_line.
    replace (n + c <? n)%nat with false by (symmetry; apply Nat.ltb_ge; lia). replace (n + c - n)%nat with c by lia. reflexivity.
Qed.
Lemma state_parts i k : state_of i k = sum (n + N * m) (fun j => AB_line sys N (An i) (Ak i) k j * z j)
  + sum (n * N) (fun r => Ak i k r * K_hat sys r) + sum (p * N) (fun c => row_dot (n * N) (Ak i k) (E_diag sys N) c * stack p d c).
Proof.
  rewrite AB_sum. unfold state_of, row_dot. rewrite sum_assoc.
  rewrite (sum_ext (n * N) (fun r => Ak i k r * effect r)
    (fun r => Ak i k r * sum (m * N) (fun c => B_diag sys N r c * z (n + c)%nat) + Ak i k r * K_hat sys r
              + Ak i k r * sum (p * N) (fun c => E_diag sys N r c * stack p d c))) by (intros; unfold effect; ring).
  rewrite !sum_add. ring.
Qed.
Lemma k_row_eq i h : (i <= N)%nat ->
  lin (n + N * m) (h_a (k_row sys N (An i) (Ak i) h)) z + lin (p * N) (g_row sys N (Ak i) h) (stack p d)
  - h_b (k_row sys N (An i) (Ak i) h) = lin n (h_a h) (traj sys z (inputs sys z) d i) - h_b h.
Proof.
  intro L. unfold lin, k_row, g_row. cbn [h_a h_b].
  assert (T : sum n (fun j => h_a h j * traj sys z (inputs sys z) d i j) = sum n (fun k => h_a h k * state_of i k)).
  { apply sum_ext. intros. rewrite state_traj by auto. reflexivity. }
  rewrite T. rewrite (sum_ext n (fun k => h_a h k * state_of i k)
    (fun k => h_a h k * sum (n + N * m) (fun j => AB_line sys N (An i) (Ak i) k j * z j)
      + h_a h k * sum (n * N) (fun r => Ak i k r * K_hat sys r)
      + h_a h k * sum (p * N) (fun c => row_dot (n * N) (Ak i k) (E_diag sys N) c * stack p d c)))
    by (intros; rewrite state_parts; ring).
  rewrite !sum_add. unfold row_dot. rewrite <- !sum_assoc.
  assert (G : forall c, sum (n * N) (fun k => sum n (fun k0 => h_a h k0 * Ak i k0 k) * E_diag sys N k c)
                    = sum n (fun k => h_a h k * sum (n * N) (fun k0 => Ak i k k0 * E_diag sys N k0 c))).
  { intro c. apply (sum_assoc n (n * N) (h_a h) (Ak i) (fun r => E_diag sys N r c)). }
  rewrite (sum_ext (p * N) _ _ (fun c _ => f_equal (fun x => x * stack p d c) (G c))). ring.
Qed.
Lemma u_row_input i h : (i < N)%nat -> sd_Uw sys = m ->
  lin (n + N * m) (h_a (u_row sys N (An i) (Ak i) i h)) z - h_b (u_row sys N (An i) (Ak i) i h)
  = lin m (h_a h) (inputs sys z i) - h_b h.
Proof.
  intros L W. unfold u_row. rewrite W, Nat.eqb_refl. cbn [h_a h_b]. f_equal. unfold lin.
  rewrite sum_plus. rewrite sum_zero.
  - rewrite Qcplus_0_l, sum_blocks, (sum_single N i).
    + apply sum_ext. intros q Q.
      replace ((n + m * i <=? n + (i * m + q)) && (n + (i * m + q) <? n + m * (i + 1)))%nat%bool with true
        by (symmetry; apply andb_true_iff; split; [apply Nat.leb_le|apply Nat.ltb_lt]; nia).
      unfold inputs. f_equal; f_equal; nia.
    + auto.
    + intros t T NE. apply sum_zero. intros q Q.
      replace ((n + m * i <=? n + (t * m + q)) && (n + (t * m + q) <? n + m * (i + 1)))%nat%bool with false; [ring|].
      symmetry. apply andb_false_iff. destruct (Nat.lt_total t i) as [C|[C|C]]; [left; apply Nat.leb_gt; nia|lia|right; apply Nat.ltb_ge; nia].
  - intros j J. replace (n + m * i <=? j)%nat with false by (symmetry; apply Nat.leb_gt; lia). cbn [andb]. ring.
Qed.
Definition joint (x u : vec) : vec := fun k => if (k <? m)%nat then u k else x (k - m)%nat.
Lemma uk_sum i k : (i < N)%nat -> (k < m)%nat ->
  sum (n + N * m) (fun j => (if ((n + m * i <=? j) && (j <? n + m * (i + 1)))%nat then eye k (j - (n + m * i))%nat else 0) * z j)
  = inputs sys z i k.
Proof.
  intros L K. rewrite (sum_single _ (n + m * i + k)).
  - replace ((n + m * i <=? n + m * i + k) && (n + m * i + k <? n + m * (i + 1)))%nat%bool with true
      by (symmetry; apply andb_true_iff; split; [apply Nat.leb_le|apply Nat.ltb_lt]; lia).
    replace (n + m * i + k - (n + m * i))%nat with k by lia. unfold eye. rewrite Nat.eqb_refl. unfold inputs. ring.
  - nia.
  - intros j J NE. destruct ((n + m * i <=? j) && (j <? n + m * (i + 1)))%nat%bool eqn:C; [|ring].
    apply andb_true_iff in C. destruct C as [C1 C2]. apply Nat.leb_le in C1.
    unfold eye. replace (k =? j - (n + m * i))%nat with false by (symmetry; apply Nat.eqb_neq; lia). ring.
Qed.
Lemma u_row_joint i h : (i < N)%nat -> sd_Uw sys = (m + n)%nat -> sd_Uw sys <> m ->
  lin (n + N * m) (h_a (u_row sys N (An i) (Ak i) i h)) z + lin (p * N) (gu_row sys N (Ak i) h) (stack p d)
  - h_b (u_row sys N (An i) (Ak i) i h)
  = lin (m + n) (h_a h) (joint (traj sys z (inputs sys z) d i) (inputs sys z i)) - h_b h.
Proof.
  intros L W NE. unfold u_row. apply Nat.eqb_neq in NE. rewrite NE. rewrite W, Nat.eqb_refl. cbn [h_a h_b].
  unfold lin, gu_row, row_dot. rewrite !sum_assoc.
  assert (S1 : forall k, (k < m + n)%nat ->
     sum (n + N * m) (fun j => A_mult sys N (An i) (Ak i) i k j * z j) + sum (p * N) (fun c => d_mult sys N (Ak i) k c * stack p d c)
     + b_mult sys N (Ak i) k = joint (traj sys z (inputs sys z) d i) (inputs sys z i) k).
  { intros k K. unfold A_mult, d_mult, b_mult, joint. destruct (k <? m)%nat eqn:KM.
    - apply Nat.ltb_lt in KM. rewrite uk_sum by auto. rewrite sum_zero by (intros; ring). ring.
    - apply Nat.ltb_ge in KM. rewrite <- state_traj by lia. rewrite state_parts. ring. }
  rewrite (sum_ext (m + n) (fun j => h_a h j * joint (traj sys z (inputs sys z) d i) (inputs sys z i) j)
     (fun k => h_a h k * sum (n + N * m) (fun j => A_mult sys N (An i) (Ak i) i k j * z j)
       + h_a h k * sum (p * N) (fun c => d_mult sys N (Ak i) k c * stack p d c) + h_a h k * b_mult sys N (Ak i) k))
    by (intros k K; rewrite <- (S1 k K); ring).
  rewrite !sum_add. ring.
Qed.
End LM.
