(** Linear programs over the rationals by Fourier-Motzkin elimination: a point of a polytope from a point
    of its projection, and a minimum of a linear form. *)
From Coq Require Import List Bool Arith Lia QArith Qcanon.
From Verif Require Import L_Sum M_Feas S_Feas L_Feas T_Feas M_Horizon L_FM T_Horizon.
Import ListNotations.
Open Scope Qc_scope.

(** What is asked of a solver: a feasible point of least value with its value, and no answer only if
    there is no feasible point or there are feasible points of arbitrarily small value. *)
Definition lp_sound (lp : nat -> vec -> poly -> option (vec * Qc)) : Prop :=
  forall w c G v f, lp w c G = Some (v, f) -> inside w G v /\ f = lin w c v /\ forall v', inside w G v' -> lin w c v <= lin w c v'.
Definition lp_complete (lp : nat -> vec -> poly -> option (vec * Qc)) : Prop :=
  forall w c G, lp w c G = None -> (forall v, ~ inside w G v) \/ (forall b, exists v, inside w G v /\ lin w c v < b).

Definition maxl (l : list Qc) : option Qc :=
  fold_right (fun a o => match o with None => Some a | Some b => Some (if Qclt_le_dec a b then b else a) end) None l.
Definition minl (l : list Qc) : option Qc :=
  fold_right (fun a o => match o with None => Some a | Some b => Some (if Qclt_le_dec a b then a else b) end) None l.
Lemma maxl_spec l : match maxl l with None => l = [] | Some t => In t l /\ forall a, In a l -> a <= t end.
Proof.
  induction l as [|a l IH]; cbn [maxl fold_right]; [reflexivity|]. fold (maxl l). destruct (maxl l) as [b|].
  - destruct IH as [I H]. destruct (Qclt_le_dec a b) as [L|L].
    + split; [right; exact I|]. intros c [<-|C]; [apply Qclt_le_weak; exact L|auto].
    + split; [left; reflexivity|]. intros c [<-|C]; [apply Qcle_refl|]. apply Qcle_trans with b; auto.
  - subst l. split; [left; reflexivity|]. intros c [<-|[]]. apply Qcle_refl.
Qed.
Lemma minl_spec l : match minl l with None => l = [] | Some t => In t l /\ forall a, In a l -> t <= a end.
Proof.
  induction l as [|a l IH]; cbn [minl fold_right]; [reflexivity|]. fold (minl l). destruct (minl l) as [b|].
  - destruct IH as [I H]. destruct (Qclt_le_dec a b) as [L|L].
    + split; [left; reflexivity|]. intros c [<-|C]; [apply Qcle_refl|]. apply Qcle_trans with b; [apply Qclt_le_weak; exact L|auto].
    + split; [right; exact I|]. intros c [<-|C]; [exact L|auto].
  - subst l. split; [left; reflexivity|]. intros c [<-|[]]. apply Qcle_refl.
Qed.

(** A value for coordinate [v] after values for the coordinates before it *)
Definition lowers (v : nat) (x : vec) (P : poly) : list Qc := map (bound v x) (filter (fun h => is_neg (h_a h v)) P).
Definition uppers (v : nat) (x : vec) (P : poly) : list Qc := map (bound v x) (filter (fun h => is_pos (h_a h v)) P).
Definition pick (v : nat) (x : vec) (P : poly) : Qc :=
  match maxl (lowers v x P) with Some t => t | None => match minl (uppers v x P) with Some t => t | None => 0 end end.
Lemma in_lowers v x P h : In h P -> h_a h v < 0 -> In (bound v x h) (lowers v x P).
Proof. intros I L. unfold lowers. apply in_map. apply filter_In. split; [exact I|]. apply is_neg_spec. exact L. Qed.
Lemma in_uppers v x P h : In h P -> 0 < h_a h v -> In (bound v x h) (uppers v x P).
Proof. intros I L. unfold uppers. apply in_map. apply filter_In. split; [exact I|]. apply is_pos_spec. exact L. Qed.
Lemma set_lin v a x t : lin (S v) a (fun j => if (j =? v)%nat then t else x j) = lin v a x + a v * t.
Proof.
  rewrite lin_S, Nat.eqb_refl. f_equal. apply lin_ext. intros j J. replace (j =? v)%nat with false by (symmetry; apply Nat.eqb_neq; lia). reflexivity.
Qed.
Lemma pick_spec v P x : inside v (fm_elim v P) x -> inside (S v) P (fun j => if (j =? v)%nat then pick v x P else x j).
Proof.
  intro H. apply fm_elim_spec in H. destruct H as (t & H).
  assert (LO : forall a, In a (lowers v x P) -> a <= t).
  { intros a A. unfold lowers in A. apply in_map_iff in A. destruct A as (h & <- & A). apply filter_In in A. destruct A as [A N]. apply is_neg_spec in N.
    apply (lower_bound v x h t N). rewrite <- set_lin. apply H. exact A. }
  assert (UP : forall a, In a (uppers v x P) -> t <= a).
  { intros a A. unfold uppers in A. apply in_map_iff in A. destruct A as (h & <- & A). apply filter_In in A. destruct A as [A N]. apply is_pos_spec in N.
    apply (upper_bound v x h t N). rewrite <- set_lin. apply H. exact A. }
  assert (PL : forall a, In a (lowers v x P) -> a <= pick v x P).
  { intros a A. unfold pick. assert (M := maxl_spec (lowers v x P)). destruct (maxl (lowers v x P)) as [b|]; [apply M; exact A|]. rewrite M in A. destruct A. }
  assert (PU : forall a, In a (uppers v x P) -> pick v x P <= a).
  { intros a A. unfold pick. assert (M := maxl_spec (lowers v x P)). destruct (maxl (lowers v x P)) as [b|].
    - apply Qcle_trans with t; [apply LO; apply M|apply UP; exact A].
    - assert (M' := minl_spec (uppers v x P)). destruct (minl (uppers v x P)) as [b|]; [apply M'; exact A|]. rewrite M' in A. destruct A. }
  intros h I. rewrite set_lin. destruct (Qclt_le_dec 0 (h_a h v)) as [L|L].
  - apply (upper_bound v x h _ L). apply PU. apply in_uppers; auto.
  - destruct (Qclt_le_dec (h_a h v) 0) as [L'|L'].
    + apply (lower_bound v x h _ L'). apply PL. apply in_lowers; auto.
    + assert (Z : h_a h v = 0) by (apply Qcle_antisym; auto). specialize (H h I). rewrite set_lin in H. rewrite Z in *.
      replace (0 * pick v x P) with (0 * t) by ring. exact H.
Qed.
(** Up from a point of the projection on [v - k] coordinates *)
Fixpoint fm_up (k v : nat) (P : poly) (x : vec) : vec :=
  match k with
  | O => x
  | S k' => let y := fm_up k' (v - 1) (fm_elim (v - 1) P) x in
            let t := pick (v - 1) y P in
            memo v (fun j => if (j =? v - 1)%nat then t else y j)
  end.
Lemma fm_up_spec k : forall v P x, (k <= v)%nat -> inside (v - k) (fm_down k v P) x ->
  inside v P (fm_up k v P x) /\ forall j, (j < v - k)%nat -> fm_up k v P x j = x j.
Proof.
  induction k as [|k IH]; intros v P x K H; cbn [fm_up fm_down] in *; [rewrite Nat.sub_0_r in H; auto|].
  destruct v as [|v]; [lia|]. replace (S v - 1)%nat with v in * by lia. replace (S v - S k)%nat with (v - k)%nat in * by lia.
  destruct (IH v (fm_elim v P) x ltac:(lia) H) as [A B]. set (y := fm_up k v (fm_elim v P) x) in *. split.
  - apply pick_spec in A. revert A. apply inside_ext. intros j J. rewrite memo_at by exact J. reflexivity.
  - intros j J. rewrite memo_at by lia. replace (j =? v)%nat with false by (symmetry; apply Nat.eqb_neq; lia). apply B. exact J.
Qed.

(** The value of the form becomes coordinate 0, and the polytope is projected on it. *)
Definition form (c : vec) : half := {| h_a := c; h_b := 0 |}.
Definition lp_fm (w : nat) (c : vec) (G : poly) : option (vec * Qc) :=
  let P := memo_poly (S w) (lift w (form c) G) in
  let D := fm_down w (S w) P in
  match maxl (lowers 0 (fun _ => 0) D) with
  | None => None
  | Some t => if insideb 1 D (fun _ => t) then let y := fm_up w (S w) P (fun _ => t) in Some (fun j => y (S j), t) else None
  end.
Lemma lift_inside w c G y : inside (S w) (lift w (form c) G) y <-> y O = lin w c (fun j => y (S j)) /\ inside w G (fun j => y (S j)).
Proof.
  assert (T : forall a0 (a : vec), lin (S w) (fun j => if (j =? 0)%nat then a0 else a (j - 1)%nat) y = a0 * y O + lin w a (fun j => y (S j))).
  { intros a0 a. unfold lin. rewrite sum_shift. cbn [Nat.eqb]. f_equal. apply sum_ext. intros j J. replace (S j - 1)%nat with j by lia. reflexivity. }
  assert (NEG : lin w (fun j => - c j) (fun j => y (S j)) = - lin w c (fun j => y (S j))).
  { unfold lin. replace (- sum w (fun j => c j * y (S j))) with ((- (1)) * sum w (fun j => c j * y (S j))) by ring. rewrite <- sum_mul_l. apply sum_ext. intros. ring. }
  unfold inside, lift. split.
  - intro H. split.
    + assert (H1 := H _ (or_introl eq_refl)). assert (H2 := H _ (or_intror (or_introl eq_refl))). cbn [h_a h_b form] in H1, H2.
      rewrite (T 1 (fun j => - c j)), NEG in H1. rewrite (T (- (1)) c) in H2. apply Qcle_antisym.
      * apply Qcle_minus_iff in H1. apply Qcle_minus_iff. replace (lin w c (fun j => y (S j)) + - y O) with (0 + - (1 * y 0%nat + - lin w c (fun j : nat => y (S j)))) by ring. exact H1.
      * apply Qcle_minus_iff in H2. apply Qcle_minus_iff. replace (y O + - lin w c (fun j => y (S j))) with (0 + - (- (1) * y 0%nat + lin w c (fun j : nat => y (S j)))) by ring. exact H2.
    + intros h I. assert (H1 := H {| h_a := fun j => if (j =? 0)%nat then 0 else h_a h (j - 1)%nat; h_b := h_b h |}). cbn [h_a h_b] in H1.
      rewrite (T 0 (h_a h)) in H1. replace (lin w (h_a h) (fun j => y (S j))) with (0 * y O + lin w (h_a h) (fun j => y (S j))) by ring.
      apply H1. right. right. apply in_map_iff. exists h. auto.
  - intros [E H] h [<-|[<-|I]]; cbn [h_a h_b form].
    + rewrite (T 1 (fun j => - c j)), NEG, E. replace (1 * _ + - _) with 0 by ring. apply Qcle_refl.
    + rewrite (T (- (1)) c), E. replace (- (1) * _ + _) with 0 by ring. apply Qcle_refl.
    + apply in_map_iff in I. destruct I as (g & <- & I). cbn [h_a h_b]. rewrite (T 0 (h_a g)). replace (0 * y O + _) with (lin w (h_a g) (fun j => y (S j))) by ring.
      apply H. exact I.
Qed.
Lemma lp_values w c G t : inside 1 (fm_down w (S w) (memo_poly (S w) (lift w (form c) G))) (fun _ => t) <-> exists v, inside w G v /\ lin w c v = t.
Proof.
  assert (D := fm_down_spec w (S w) (memo_poly (S w) (lift w (form c) G)) (fun _ => t) ltac:(lia)). replace (S w - w)%nat with 1%nat in D by lia. rewrite D. split.
  - intros (y & E & I). apply (proj1 (memo_poly_inside _ _ _)) in I. apply lift_inside in I. destruct I as [Y I]. exists (fun j => y (S j)). split; [exact I|].
    rewrite <- Y. apply E. lia.
  - intros (v & I & <-). exists (fun j => match j with O => lin w c v | S k => v k end). split; [intros j J; destruct j; [reflexivity|lia]|].
    apply memo_poly_inside. apply lift_inside. split; [reflexivity|exact I].
Qed.
Lemma lin1 a t : lin 1 a (fun _ => t) = a O * t.
Proof. unfold lin. cbn [sum]. ring. Qed.
Lemma bound0 h t : bound 0 (fun _ => t) h = bound 0 (fun _ => 0) h.
Proof. reflexivity. Qed.
Lemma ray_lower h t : h_a h O < 0 -> (lin 1 (h_a h) (fun _ => t) <= h_b h <-> bound 0 (fun _ => 0) h <= t).
Proof. intro L. rewrite <- (lower_bound 0 (fun _ => 0) h t L). rewrite lin1. unfold lin. cbn [sum]. rewrite Qcplus_0_l. reflexivity. Qed.
Lemma ray_upper h t : 0 < h_a h O -> (lin 1 (h_a h) (fun _ => t) <= h_b h <-> t <= bound 0 (fun _ => 0) h).
Proof. intro L. rewrite <- (upper_bound 0 (fun _ => 0) h t L). rewrite lin1. unfold lin. cbn [sum]. rewrite Qcplus_0_l. reflexivity. Qed.
Theorem lp_fm_sound : lp_sound lp_fm.
Proof.
  intros w c G v f H. unfold lp_fm in H. set (P := memo_poly (S w) (lift w (form c) G)) in *. set (D := fm_down w (S w) P) in *.
  assert (M := maxl_spec (lowers 0 (fun _ => 0) D)). destruct (maxl (lowers 0 (fun _ => 0) D)) as [t|]; [|discriminate].
  destruct (insideb 1 D (fun _ => t)) eqn:B; [|discriminate]. apply insideb_spec in B. injection H as <- <-.
  assert (U := fm_up_spec w (S w) P (fun _ => t) ltac:(lia)). replace (S w - w)%nat with 1%nat in U by lia. destruct (U B) as [U1 U2].
  apply (proj1 (memo_poly_inside _ _ _)) in U1. apply lift_inside in U1. destruct U1 as [U0 U1].
  assert (TE : t = lin w c (fun j => fm_up w (S w) P (fun _ => t) (S j))) by (rewrite <- U0; symmetry; apply (U2 O); lia).
  split; [exact U1|]. split; [exact TE|]. intros v' I. rewrite <- TE.
  assert (V : inside 1 D (fun _ => lin w c v')) by (apply lp_values; exists v'; auto).
  destruct M as [MI _]. unfold lowers in MI. apply in_map_iff in MI. destruct MI as (h & <- & MI). apply filter_In in MI. destruct MI as [MI N]. apply is_neg_spec in N.
  apply (ray_lower h _ N). apply V. exact MI.
Qed.
Lemma Qc_below (t : Qc) : t - 1 < t.
Proof. apply Qclt_minus_iff. replace (t + - (t - 1)) with 1 by ring. reflexivity. Qed.
Theorem lp_fm_complete : lp_complete lp_fm.
Proof.
  intros w c G H. unfold lp_fm in H. set (P := memo_poly (S w) (lift w (form c) G)) in *. set (D := fm_down w (S w) P) in *.
  assert (M := maxl_spec (lowers 0 (fun _ => 0) D)). destruct (maxl (lowers 0 (fun _ => 0) D)) as [t|].
  - destruct (insideb 1 D (fun _ => t)) eqn:B; [discriminate|]. left. intros v I.
    assert (V : inside 1 D (fun _ => lin w c v)) by (apply lp_values; exists v; auto).
    assert (B' : inside 1 D (fun _ => t)); [|apply insideb_spec in B'; congruence].
    destruct M as [MI ML].
    assert (TL : t <= lin w c v).
    { unfold lowers in MI. apply in_map_iff in MI. destruct MI as (h & <- & MI). apply filter_In in MI. destruct MI as [MI N]. apply is_neg_spec in N.
      apply (ray_lower h _ N). apply V. exact MI. }
    intros h Ih. specialize (V h Ih). destruct (Qclt_le_dec 0 (h_a h O)) as [L|L].
    + apply (ray_upper h _ L). apply Qcle_trans with (lin w c v); [exact TL|]. apply (ray_upper h _ L). exact V.
    + destruct (Qclt_le_dec (h_a h O) 0) as [L'|L'].
      * apply (ray_lower h _ L'). apply ML. apply in_lowers; auto.
      * assert (Z : h_a h O = 0) by (apply Qcle_antisym; auto). rewrite lin1, Z in *. replace (0 * t) with (0 * lin w c v) by ring. exact V.
  - clear H. destruct (existsb (fun h => (negb (is_pos (h_a h O)) && is_neg (h_b h)))%bool D) eqn:X.
    + left. intros v I. assert (V : inside 1 D (fun _ => lin w c v)) by (apply lp_values; exists v; auto).
      apply existsb_exists in X. destruct X as (h & Ih & X). apply andb_true_iff in X. destruct X as [X1 X2]. apply is_neg_spec in X2.
      apply negb_true_iff in X1. assert (NP : h_a h O <= 0).
      { destruct (Qclt_le_dec 0 (h_a h O)) as [L|L]; [|exact L]. apply is_pos_spec in L. congruence. }
      destruct (Qclt_le_dec (h_a h O) 0) as [L|L].
      * assert (IL := in_lowers 0 (fun _ => 0) D h Ih L). rewrite M in IL. destruct IL.
      * assert (Z : h_a h O = 0) by (apply Qcle_antisym; auto). specialize (V h Ih). rewrite lin1, Z in V. replace (0 * lin w c v) with 0 in V by ring.
        apply (Qclt_not_le _ _ X2). exact V.
    + right. intro b. assert (UM := minl_spec (uppers 0 (fun _ => 0) D)).
      set (s := match minl (uppers 0 (fun _ => 0) D) with Some u => if Qclt_le_dec u (b - 1) then u else b - 1 | None => b - 1 end).
      assert (SB : s < b).
      { unfold s. destruct (minl _) as [u|]; [|apply Qc_below]. destruct (Qclt_le_dec u (b - 1)) as [L|L]; [|apply Qc_below]. apply Qclt_trans with (b - 1); [exact L|apply Qc_below]. }
      assert (IN : inside 1 D (fun _ => s)).
      { intros h Ih. destruct (Qclt_le_dec 0 (h_a h O)) as [L|L].
        - apply (ray_upper h _ L). assert (IU := in_uppers 0 (fun _ => 0) D h Ih L). unfold s. destruct (minl _) as [u|]; [|rewrite UM in IU; destruct IU].
          destruct UM as [_ UM]. specialize (UM _ IU). destruct (Qclt_le_dec u (b - 1)) as [L'|L']; [exact UM|]. apply Qcle_trans with u; auto.
        - destruct (Qclt_le_dec (h_a h O) 0) as [L'|L'].
          + assert (IL := in_lowers 0 (fun _ => 0) D h Ih L'). rewrite M in IL. destruct IL.
          + assert (Z : h_a h O = 0) by (apply Qcle_antisym; auto). rewrite lin1, Z. replace (0 * s) with 0 by ring.
            destruct (Qclt_le_dec (h_b h) 0) as [LB|LB]; [|exact LB]. exfalso.
            assert (NX : existsb (fun h => (negb (is_pos (h_a h O)) && is_neg (h_b h)))%bool D = true); [|congruence].
            apply existsb_exists. exists h. split; [exact Ih|]. apply andb_true_iff. split; [|apply is_neg_spec; exact LB].
            apply negb_true_iff. destruct (is_pos (h_a h O)) eqn:EP; [|reflexivity]. apply is_pos_spec in EP. apply Qcle_not_lt in L. contradiction. }
      apply lp_values in IN. destruct IN as (v & I & E). exists v. split; [exact I|]. rewrite E. exact SB.
Qed.
