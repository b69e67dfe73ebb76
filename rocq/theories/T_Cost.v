(** C42: comparisons and sums of [VectorCost]. *)
From Coq Require Import List String Bool ZArith Lia.
From Verif Require Import M_Base M_Dict M_Graph M_Machine M_Cost S_Cost L_Cost L_Machine.
Import ListNotations.
Open Scope string_scope.
Open Scope list_scope.

Definition vec (x : list Z) : list num := map Fin x.
Definition vcost (x : list Z) : cost := Vec (vec x).
(** [c] stands for the vector [v]: it is this vector, or a number to be repeated. *)
Definition stands (k : nat) (c : cost) (v : list Z) : Prop :=
  List.length v = k /\ (c = vcost v \/ exists z, c = Sc (Fin z) /\ v = repeat z k).

Lemma vec_length x : List.length (vec x) = List.length x. Proof. apply map_length. Qed.
Lemma repeat_vec z k : repeat (Fin z) k = vec (repeat z k).
Proof. induction k as [|k IH]; [reflexivity|]. cbn. rewrite IH. reflexivity. Qed.
Lemma convert_stands k x c v : List.length x = k -> stands k c v -> convert (vec x) c = Ok (vec v).
Proof.
  intros L [M [-> |[z [-> ->]]]]; unfold convert, vcost; rewrite !vec_length.
  - rewrite L, M, Nat.eqb_refl. reflexivity.
  - rewrite repeat_length, Nat.eqb_refl, L, repeat_vec. reflexivity.
Qed.
Lemma forallb_eq x : forall y, List.length x = List.length y ->
  (forallb (fun p => num_eqb (fst p) (snd p)) (combine (vec x) (vec y)) = true <-> x = y).
Proof.
  induction x as [|a x IH]; intros [|b y] L; try discriminate; [cbn; tauto|]. injection L as L. cbn. rewrite andb_true_iff, Z.eqb_eq, (IH y L).
  split; [intros [-> ->]; reflexivity|intros [= -> ->]; auto].
Qed.
Lemma gt_pairs_lex x : forall y, List.length x = List.length y -> (gt_pairs (combine (vec x) (vec y)) = true <-> lexle y x).
Proof.
  induction x as [|a x IH]; intros [|b y] L; try discriminate; [cbn; split; [intros _; right; reflexivity|auto]|]. injection L as L.
  cbn. destruct (Z.eqb_spec a b) as [-> |H].
  - rewrite (IH y L). unfold lexle. rewrite lexlt_cons. split; [intros [K|K]; [left; auto|right; congruence]|intros [[K|[_ K]]|K]; [lia|auto|injection K; auto]].
  - rewrite Z.gtb_lt. unfold lexle. rewrite lexlt_cons. split; [auto|]. intros [[K|[K _]]|[= K _]]; congruence.
Qed.
Lemma vec_eq_stands k x c v : List.length x = k -> stands k c v -> exists b, vec_eq (vec x) c = Ok b /\ (b = true <-> x = v).
Proof.
  intros L H. pose proof (proj1 H) as M. unfold vec_eq. rewrite (convert_stands k x c v L H). cbn [bind]. eexists. split; [reflexivity|].
  apply forallb_eq. congruence.
Qed.
Lemma vec_gt_stands k x c v : List.length x = k -> stands k c v -> exists b, vec_gt (vec x) c = Ok b /\ (b = true <-> lexle v x).
Proof.
  intros L H. pose proof (proj1 H) as M. unfold vec_gt. rewrite (convert_stands k x c v L H). cbn [bind]. eexists. split; [reflexivity|].
  apply gt_pairs_lex. congruence.
Qed.
Lemma vec_lt_stands k x c v : List.length x = k -> stands k c v -> exists b, vec_lt (vec x) c = Ok b /\ (b = true <-> lexlt x v).
Proof.
  intros L H. pose proof (proj1 H) as M. unfold vec_lt. destruct (vec_gt_stands k x c v L H) as [g [-> G]]. cbn [bind].
  destruct (vec_eq_stands k x c v L H) as [e [-> E]].
  assert (X : lexlt x v <-> ~ lexle v x) by (apply lexlt_le_iff; congruence).
  destruct g; [exists false; split; [reflexivity|]; rewrite X; split; [discriminate|intro K; destruct K; apply G; reflexivity]|].
  cbn [bind]. exists (negb e). split; [reflexivity|]. rewrite X. destruct e; cbn.
  - split; [discriminate|]. intro K. destruct K. rewrite (proj1 E eq_refl). apply lexle_refl.
  - split; [intros _ K; apply G in K; discriminate|reflexivity].
Qed.

(** ** The comparisons *)
Section Vectors.
  Variables (k : nat) (x y : list Z).
  Hypotheses (Lx : List.length x = k) (Ly : List.length y = k).
  Let Sy : stands k (vcost y) y. Proof. split; [exact Ly|left; reflexivity]. Qed.

  Theorem vector_eq_spec : exists b, py_eq (vcost x) (vcost y) = Ok b /\ (b = true <-> x = y).
  Proof. exact (vec_eq_stands k x _ y Lx Sy). Qed.
  Theorem vector_lt_spec : exists b, py_lt (vcost x) (vcost y) = Ok b /\ (b = true <-> lexlt x y).
  Proof. exact (vec_lt_stands k x _ y Lx Sy). Qed.
  Theorem vector_ge_spec : exists b, py_ge (vcost x) (vcost y) = Ok b /\ (b = true <-> lexle y x).
  Proof.
    cbn [py_ge vcost]. unfold vec_ge. fold (vcost y). destruct (vec_gt_stands k x _ y Lx Sy) as [g [-> G]]. cbn [bind].
    destruct g; [exists true; split; [reflexivity|]; exact G|].
    destruct (vec_eq_stands k x _ y Lx Sy) as [e [-> E]]. exists e. split; [reflexivity|]. rewrite E, <- G. split.
    - intros H. exfalso. assert (X : lexle y x) by (rewrite H; apply lexle_refl). apply G in X. discriminate.
    - discriminate.
  Qed.
  (** [>] holds also when both are equal. *)
  Theorem vector_gt_spec : exists b, py_gt (vcost x) (vcost y) = Ok b /\ (b = true <-> lexle y x).
  Proof. exact (vec_gt_stands k x _ y Lx Sy). Qed.
  (** [<=] fails when both are equal. *)
  Theorem vector_le_spec : exists b, py_le (vcost x) (vcost y) = Ok b /\ (b = true <-> lexlt x y).
  Proof.
    cbn [py_le vcost]. unfold vec_le. fold (vcost y). destruct (vec_gt_stands k x _ y Lx Sy) as [g [-> G]]. cbn [bind].
    exists (negb g). split; [reflexivity|]. rewrite (lexlt_le_iff x y) by congruence. rewrite <- G. destruct g; cbn; intuition discriminate.
  Qed.
  (** For different vectors these two are right as well. *)
  Theorem vector_gt_partial : x <> y -> exists b, py_gt (vcost x) (vcost y) = Ok b /\ (b = true <-> lexlt y x).
  Proof.
    intro D. destruct vector_gt_spec as [b [H B]]. exists b. split; [exact H|]. rewrite B. split; [intros [K|K]; [exact K|congruence]|intro K; left; exact K].
  Qed.
  Theorem vector_le_partial : x <> y -> exists b, py_le (vcost x) (vcost y) = Ok b /\ (b = true <-> lexle x y).
  Proof.
    intro D. destruct vector_le_spec as [b [H B]]. exists b. split; [exact H|]. rewrite B. split; [intro K; left; exact K|intros [K|K]; [exact K|congruence]].
  Qed.
  Theorem vector_add_spec : py_add (vcost x) (vcost y) = Ok (vcost (vadd x y)).
  Proof.
    cbn [py_add vcost]. unfold vec_add. fold (vcost y). rewrite (convert_stands k x _ y Lx Sy). cbn [bind]. unfold vcost. do 2 f_equal.
    assert (L : List.length x = List.length y) by congruence. clear -L. revert y L. induction x as [|a x' IH]; intros [|b y] L; try discriminate; [reflexivity|].
    injection L as L. cbn. f_equal. exact (IH y L).
  Qed.
End Vectors.

(** [<], [>=] and [==] are lexicographic, so that exactly one of [x < y], [x == y], [y < x] holds. *)
Theorem vector_total_order k x y : List.length x = k -> List.length y = k ->
  (py_lt (vcost x) (vcost y) = Ok true /\ py_eq (vcost x) (vcost y) = Ok false /\ py_lt (vcost y) (vcost x) = Ok false) \/
  (py_lt (vcost x) (vcost y) = Ok false /\ py_eq (vcost x) (vcost y) = Ok true /\ py_lt (vcost y) (vcost x) = Ok false) \/
  (py_lt (vcost x) (vcost y) = Ok false /\ py_eq (vcost x) (vcost y) = Ok false /\ py_lt (vcost y) (vcost x) = Ok true).
Proof.
  intros Lx Ly. destruct (vector_lt_spec k x y Lx Ly) as [a [-> A]]. destruct (vector_eq_spec k x y Lx Ly) as [b [-> B]].
  destruct (vector_lt_spec k y x Ly Lx) as [c [-> C]].
  destruct a, b, c; auto; exfalso.
  - rewrite (proj1 B eq_refl) in A. eapply lexlt_irrefl, A. reflexivity.
  - rewrite (proj1 B eq_refl) in A. eapply lexlt_irrefl, A. reflexivity.
  - eapply lexlt_irrefl, lexlt_trans; [apply A|apply C]; reflexivity.
  - rewrite (proj1 B eq_refl) in C. eapply lexlt_irrefl, C. reflexivity.
  - destruct (lex_total x y) as [H|[H|H]]; [congruence|apply A in H|apply B in H|apply C in H]; discriminate.
Qed.
(** Adding one vector to both sides keeps every comparison. *)
Theorem vector_add_compatible k x y z : List.length x = k -> List.length y = k -> List.length z = k ->
  forall op, In op [py_eq; py_lt; py_gt; py_le; py_ge] -> forall sx sy, py_add (vcost x) (vcost z) = Ok sx -> py_add (vcost y) (vcost z) = Ok sy ->
  op sx sy = op (vcost x) (vcost y).
Proof.
  intros Lx Ly Lz op I sx sy Hx Hy. rewrite (vector_add_spec k x z Lx Lz) in Hx. rewrite (vector_add_spec k y z Ly Lz) in Hy. injection Hx as <-. injection Hy as <-.
  assert (Kx : List.length (vadd x z) = k) by (rewrite vadd_length; congruence).
  assert (Ky : List.length (vadd y z) = k) by (rewrite vadd_length; congruence).
  assert (J : vadd x z = vadd y z <-> x = y). { split; [intro H; eapply vadd_inj; [| |exact H]; congruence|congruence]. }
  assert (LT : forall u v, List.length u = k -> List.length v = k -> (lexlt (vadd u z) (vadd v z) <-> lexlt u v)). { intros. apply vadd_lexlt; congruence. }
  assert (LE : forall u v, List.length u = k -> List.length v = k -> (lexle (vadd u z) (vadd v z) <-> lexle u v)). { intros. apply vadd_lexle; congruence. }
  assert (B : forall (a b : bool) P Q, (a = true <-> P) -> (b = true <-> Q) -> (P <-> Q) -> a = b).
  { intros [] [] P Q A B C; auto; [symmetry; apply B, C, A; reflexivity|apply A, C, B; reflexivity]. }
  destruct I as [<-|[<-|[<-|[<-|[<-|[]]]]]].
  - destruct (vector_eq_spec k _ _ Kx Ky) as [a [-> A]]. destruct (vector_eq_spec k _ _ Lx Ly) as [b [-> B']]. f_equal. exact (B _ _ _ _ A B' J).
  - destruct (vector_lt_spec k _ _ Kx Ky) as [a [-> A]]. destruct (vector_lt_spec k _ _ Lx Ly) as [b [-> B']]. f_equal. exact (B _ _ _ _ A B' (LT x y Lx Ly)).
  - destruct (vector_gt_spec k _ _ Kx Ky) as [a [-> A]]. destruct (vector_gt_spec k _ _ Lx Ly) as [b [-> B']]. f_equal. exact (B _ _ _ _ A B' (LE y x Ly Lx)).
  - destruct (vector_le_spec k _ _ Kx Ky) as [a [-> A]]. destruct (vector_le_spec k _ _ Lx Ly) as [b [-> B']]. f_equal. exact (B _ _ _ _ A B' (LT x y Lx Ly)).
  - destruct (vector_ge_spec k _ _ Kx Ky) as [a [-> A]]. destruct (vector_ge_spec k _ _ Lx Ly) as [b [-> B']]. f_equal. exact (B _ _ _ _ A B' (LE y x Ly Lx)).
Qed.
(** Vectors of different lengths raise. *)
Theorem vector_lengths x y : List.length x <> List.length y ->
  py_add (Vec x) (Vec y) = Err "ValueError" /\ py_eq (Vec x) (Vec y) = Err "ValueError" /\ py_lt (Vec x) (Vec y) = Err "ValueError" /\
  py_gt (Vec x) (Vec y) = Err "ValueError" /\ py_le (Vec x) (Vec y) = Err "ValueError" /\ py_ge (Vec x) (Vec y) = Err "ValueError".
Proof.
  intro H. cbn [py_add py_eq py_lt py_gt py_le py_ge]. unfold vec_add, vec_eq, vec_lt, vec_le, vec_ge, vec_gt, convert.
  apply Nat.eqb_neq in H. rewrite H. cbn [bind]. auto 10.
Qed.
(** A cost is allowed on a transition exactly when it is not below zero. *)
Theorem valid_cost_spec k c v : stands k c v -> (0 < k)%nat -> exists b, valid_cost c = Ok b /\ (b = true <-> lexle (zeros k) v).
Proof.
  intros S P. destruct S as [L [-> |[z [-> ->]]]].
  - assert (Z0 : stands k zero (zeros k)). { split; [apply zeros_length|right; exists 0%Z; auto]. }
    assert (GE : forall u, List.length u = k -> exists b, py_ge (vcost u) zero = Ok b /\ (b = true <-> lexle (zeros k) u)).
    { intros u Lu. cbn [py_ge vcost]. unfold vec_ge. destruct (vec_gt_stands k u zero _ Lu Z0) as [g [-> G]]. cbn [bind]. destruct g; [exists true; auto|].
      destruct (vec_eq_stands k u zero _ Lu Z0) as [e [-> E]]. exists e. split; [reflexivity|]. split; [|intro X; apply G in X; discriminate].
      intro X. apply E in X. rewrite X. apply lexle_refl. }
    unfold valid_cost. destruct (GE v L) as [b [H B]]. rewrite H. cbn [bind].
    assert (A : py_add (vcost v) zero = Ok (vcost v)).
    { cbn [py_add vcost]. unfold vec_add. rewrite (convert_stands k v zero _ L Z0). cbn [bind]. unfold vcost. do 2 f_equal.
      clear -L. revert k L. induction v as [|a v IH]; intros [|k] L; try discriminate; [reflexivity|]. injection L as L. cbn. rewrite Z.add_0_r.
      f_equal. exact (IH k L). }
    rewrite A. cbn [bind]. rewrite H. cbn [bind]. destruct b; [|exists false; auto].
    destruct (vector_eq_spec k v v L L) as [e [E1 E2]]. exists e. split; [exact E1|]. rewrite <- B. split; [auto|]. intros _. apply E2. reflexivity.
  - destruct k as [|k]; [lia|]. unfold valid_cost. cbn. rewrite Z.add_0_r. exists (negb (Z.gtb 0 z)). split.
    + destruct (Z.gtb 0 z) eqn:E; cbn; [reflexivity|]. rewrite Z.eqb_refl. reflexivity.
    + unfold zeros, lexle. cbn. rewrite lexlt_cons. rewrite Z.gtb_ltb, negb_true_iff, Z.ltb_ge. split.
      * intro H. assert (z = 0 \/ 0 < z)%Z as [-> |K] by lia; [right; reflexivity|left; left; exact K].
      * intros [[K|[<- _]]|[= K _]]; lia.
Qed.

(** ** What does not hold *)
Theorem vector_gt_refuted : exists x, py_gt (vcost x) (vcost x) = Ok true.
Proof. exists [1; 2]%Z. reflexivity. Qed.
Theorem vector_le_refuted : exists x, py_le (vcost x) (vcost x) = Ok false.
Proof. exists [1; 2]%Z. reflexivity. Qed.
Example vector_example : py_lt (vcost [1; 2; 9]) (vcost [1; 3; 0]) = Ok true /\ py_gt (vcost [1; 3; 0]) (vcost [1; 2; 9]) = Ok true /\
  py_add (vcost [1; 2]) (Sc (Fin 1)) = Ok (vcost [2; 3]).
Proof. repeat split; reflexivity. Qed.

Print Assumptions vector_eq_spec.
Print Assumptions vector_lt_spec.
Print Assumptions vector_ge_spec.
Print Assumptions vector_gt_partial.
Print Assumptions vector_le_partial.
Print Assumptions vector_total_order.
Print Assumptions vector_add_compatible.
Print Assumptions vector_lengths.
Print Assumptions valid_cost_spec.
Print Assumptions vector_gt_refuted.
Print Assumptions vector_le_refuted.
