(** Lexicographic order on vectors of one length. *)
From Coq Require Import List ZArith Lia.
From Verif Require Import S_Cost.
Import ListNotations.
Open Scope Z_scope.

Lemma lexlt_nil_l y : ~ lexlt [] y.
Proof. intros [p [a [b [x' [y' [H _]]]]]]. destruct p; discriminate. Qed.
Lemma lexlt_nil_r x : ~ lexlt x [].
Proof. intros [p [a [b [x' [y' [_ [H _]]]]]]]. destruct p; discriminate. Qed.
Lemma lexlt_cons a x b y : lexlt (a :: x) (b :: y) <-> a < b \/ a = b /\ lexlt x y.
Proof.
  split.
  - intros [p [c [d [x' [y' [H1 [H2 L]]]]]]]. destruct p as [|q p]; cbn in H1, H2.
    + injection H1 as -> ->. injection H2 as -> ->. left. exact L.
    + injection H1 as -> ->. injection H2 as -> ->. right. split; [reflexivity|]. exists p, c, d, x', y'. auto.
  - intros [L|[-> [p [c [d [x' [y' [-> [-> L]]]]]]]]].
    + exists [], a, b, x, y. auto.
    + exists (b :: p), c, d, x', y'. auto.
Qed.
Lemma lexlt_irrefl x : ~ lexlt x x.
Proof. induction x as [|a x IH]; [apply lexlt_nil_l|]. rewrite lexlt_cons. intros [H|[_ H]]; [lia|auto]. Qed.
Lemma lexlt_trans x : forall y z, lexlt x y -> lexlt y z -> lexlt x z.
Proof.
  induction x as [|a x IH]; intros [|b y] [|c z]; try (intros H; exfalso; revert H; first [apply lexlt_nil_l|apply lexlt_nil_r]);
    try (intros _ H; exfalso; revert H; apply lexlt_nil_r).
  rewrite !lexlt_cons. intros [H|[-> H]] [K|[-> K]]; [left; lia|left; lia|left; lia|]. right. split; [reflexivity|]. eauto.
Qed.
Lemma lexle_refl x : lexle x x. Proof. right. reflexivity. Qed.
Lemma lexle_trans x y z : lexle x y -> lexle y z -> lexle x z.
Proof. intros [A| ->] [B| ->]; try (left; assumption); [left; eapply lexlt_trans; eassumption|right; reflexivity]. Qed.
Lemma lexle_antisym x y : lexle x y -> lexle y x -> x = y.
Proof. intros [A|A] [B|B]; auto. destruct (lexlt_irrefl x). eapply lexlt_trans; eassumption. Qed.
Lemma lex_total x : forall y, length x = length y -> lexlt x y \/ x = y \/ lexlt y x.
Proof.
  induction x as [|a x IH]; intros [|b y] L; try discriminate; [auto|]. injection L as L.
  rewrite !lexlt_cons. destruct (Z.lt_trichotomy a b) as [H|[-> |H]]; [tauto| |tauto]. destruct (IH y L) as [H|[-> |H]]; tauto.
Qed.
Lemma lexlt_le_iff x y : length x = length y -> (lexlt x y <-> ~ lexle y x).
Proof.
  intro L. split.
  - intros H [K| ->]; [|eapply lexlt_irrefl; eassumption]. eapply lexlt_irrefl, lexlt_trans; eassumption.
  - intro H. destruct (lex_total x y L) as [K|[-> |K]]; [exact K| |]; destruct H; [apply lexle_refl|left; exact K].
Qed.

Lemma vadd_length x : forall y, length x = length y -> length (vadd x y) = length x.
Proof. induction x as [|a x IH]; intros [|b y] L; try discriminate; [reflexivity|]. cbn. injection L as L. f_equal. auto. Qed.
Lemma vadd_comm x : forall y, vadd x y = vadd y x.
Proof. induction x as [|a x IH]; intros [|b y]; try reflexivity. cbn. rewrite IH. f_equal. lia. Qed.
Lemma vadd_assoc x : forall y z, vadd x (vadd y z) = vadd (vadd x y) z.
Proof. induction x as [|a x IH]; intros [|b y] [|c z]; try reflexivity. cbn. rewrite IH. f_equal. lia. Qed.
Lemma zeros_length k : length (zeros k) = k. Proof. apply repeat_length. Qed.
Lemma vadd_zeros x k : length x = k -> vadd x (zeros k) = x.
Proof. intros <-. induction x as [|a x IH]; [reflexivity|]. cbn. fold (zeros (length x)). rewrite IH. f_equal. lia. Qed.
Lemma zeros_vadd x k : length x = k -> vadd (zeros k) x = x.
Proof. intro L. rewrite vadd_comm. apply vadd_zeros, L. Qed.
Lemma vadd_lexlt z : forall x y, length x = length z -> length y = length z -> (lexlt (vadd x z) (vadd y z) <-> lexlt x y).
Proof.
  induction z as [|c z IH]; intros [|a x] [|b y] L M; try discriminate; [reflexivity|]. injection L as L. injection M as M.
  cbn. rewrite !lexlt_cons, IH by assumption. split; intros [H|[H K]]; [left; lia|right; split; [lia|exact K]|left; lia|right; split; [lia|exact K]].
Qed.
Lemma vadd_inj z : forall x y, length x = length z -> length y = length z -> vadd x z = vadd y z -> x = y.
Proof.
  induction z as [|c z IH]; intros [|a x] [|b y] L M; try discriminate; [reflexivity|]. injection L as L. injection M as M.
  cbn. intros [= H K]. f_equal; [lia|]. eauto.
Qed.
Lemma vadd_lexle z x y : length x = length z -> length y = length z -> (lexle (vadd x z) (vadd y z) <-> lexle x y).
Proof.
  intros L M. unfold lexle. rewrite vadd_lexlt by assumption. split; (intros [H|H]; [left; exact H|right]).
  - eapply vadd_inj; eassumption.
  - rewrite H. reflexivity.
Qed.
Lemma vadd_le_r x y k : length x = k -> length y = k -> lexle (zeros k) y -> lexle x (vadd y x).
Proof.
  intros L M H. rewrite <- (zeros_vadd x k) at 1 by exact L. apply vadd_lexle; try congruence. rewrite zeros_length. congruence.
Qed.
