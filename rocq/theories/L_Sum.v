(** Finite sums of rationals; vectors are functions on indices. *)
From Coq Require Import List Arith Lia QArith Qcanon.
Import ListNotations.
Open Scope Qc_scope.

Fixpoint sum (n : nat) (f : nat -> Qc) : Qc := match n with O => 0 | S k => sum k f + f k end.

Lemma sum_ext n f g : (forall i, (i < n)%nat -> f i = g i) -> sum n f = sum n g.
Proof. induction n as [|n IH]; intro H; cbn; [reflexivity|]. rewrite IH by (intros; apply H; lia). rewrite H by lia. reflexivity. Qed.
Lemma sum_zero n f : (forall i, (i < n)%nat -> f i = 0) -> sum n f = 0.
Proof. induction n as [|n IH]; intro H; cbn; [reflexivity|]. rewrite IH by (intros; apply H; lia). rewrite H by lia. ring. Qed.
Lemma sum_add n f g : sum n (fun i => f i + g i) = sum n f + sum n g.
Proof. induction n as [|n IH]; cbn; [ring|]. rewrite IH. ring. Qed.
Lemma sum_mul_l n c f : sum n (fun i => c * f i) = c * sum n f.
Proof. induction n as [|n IH]; cbn; [ring|]. rewrite IH. ring. Qed.
Lemma sum_mul_r n c f : sum n (fun i => f i * c) = sum n f * c.
Proof. induction n as [|n IH]; cbn; [ring|]. rewrite IH. ring. Qed.
Lemma sum_swap n m (f : nat -> nat -> Qc) : sum n (fun i => sum m (fun j => f i j)) = sum m (fun j => sum n (fun i => f i j)).
Proof.
  induction n as [|n IH]; cbn.
  - symmetry. apply sum_zero. auto.
  - rewrite IH. rewrite <- sum_add. reflexivity.
Qed.
Lemma sum_plus n m f : sum (n + m) f = sum n f + sum m (fun i => f (n + i)%nat).
Proof.
  induction m as [|m IH].
  - rewrite Nat.add_0_r. cbn. ring.
  - rewrite Nat.add_succ_r. cbn. rewrite IH. ring.
Qed.
Lemma sum_blocks k n f : sum (k * n) f = sum k (fun t => sum n (fun q => f (t * n + q)%nat)).
Proof.
  induction k as [|k IH]; [reflexivity|]. replace (S k * n)%nat with (k * n + n)%nat by lia. rewrite sum_plus, IH. cbn. reflexivity.
Qed.
Lemma sum_single n k f : (k < n)%nat -> (forall i, (i < n)%nat -> i <> k -> f i = 0) -> sum n f = f k.
Proof.
  induction n as [|n IH]; intros L H; [lia|]. cbn. destruct (Nat.eq_dec k n) as [->|N].
  - rewrite sum_zero; [ring|]. intros; apply H; lia.
  - rewrite IH by (lia || (intros; apply H; lia)). rewrite (H n) by lia. ring.
Qed.
(** Associativity of products: (a M) v = a (M v). *)
Lemma sum_assoc n m (a : nat -> Qc) (M : nat -> nat -> Qc) v :
  sum m (fun j => sum n (fun k => a k * M k j) * v j) = sum n (fun k => a k * sum m (fun j => M k j * v j)).
Proof.
  transitivity (sum m (fun j => sum n (fun k => a k * M k j * v j))).
  - apply sum_ext. intros. symmetry. apply sum_mul_r.
  - rewrite sum_swap. apply sum_ext. intros. rewrite <- sum_mul_l. apply sum_ext. intros. ring.
Qed.
Lemma sum_le n f g : (forall i, (i < n)%nat -> f i <= g i) -> sum n f <= sum n g.
Proof. induction n as [|n IH]; intro H; cbn; [apply Qcle_refl|]. apply Qcplus_le_compat; [apply IH; intros; apply H; lia|apply H; lia]. Qed.
