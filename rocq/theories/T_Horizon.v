(** Reachability over horizons: states in the computed sets can be steered to the target, whatever
    the disturbances. *)
From Coq Require Import List String Bool Arith Lia QArith Qcanon Permutation Sorted.
From Verif Require Import M_Base L_Sum M_Feas S_Feas L_Feas T_Feas M_Horizon L_FM.
Import ListNotations.
Open Scope string_scope.
Open Scope list_scope.
Open Scope nat_scope.

(** The points of a set of width [w] *)
Definition in_set (w : nat) (s : pset) (x : vec) : Prop :=
  match s with Pol p => inside w p x | Reg l => exists p, In p l /\ inside w p x end.

Section Horizon.
Variable union : pset -> pset -> pset.
Variable reduce : pset -> pset.
Variable fulldim : pset -> bool.
Variable volume : poly -> Qc.
Variable project : nat -> nat -> poly -> pset.
Variable sys : sysdyn.
Notation n := (sd_n sys).
Notation m := (sd_m sys).

(** What is assumed of the polytope library *)
Hypothesis union_spec : forall a b x, in_set n (union a b) x <-> in_set n a x \/ in_set n b x.
Hypothesis reduce_spec : forall w s x, in_set w (reduce s) x <-> in_set w s x.
Hypothesis project_spec : forall w P x, n <= w -> (in_set n (project n w P) x <-> exists y, (forall j, j < n -> y j = x j) /\ inside w P y).
(** What is assumed of the system: it has states, [Uset] constrains inputs, or inputs and states, and
    either there are no disturbances or they fill a full-dimensional polytope. *)
Hypothesis states : n <> 0.
Hypothesis Uset_width : sd_Uw sys = m \/ sd_Uw sys = m + n.
Hypothesis disturbances : (forall k j, k < n -> j < sd_p sys -> sd_E sys k j = 0%Qc) \/ (sd_Wfull sys = true /\ sd_Wext sys <> []).

Lemma no_points_empty w x : ~ inside w no_points x.
Proof.
  intro H. specialize (H {| h_a := fun _ => 0%Qc; h_b := (- (1))%Qc |} (or_introl eq_refl)). cbn [h_a h_b] in H.
  rewrite lin_zero in H. revert H. vm_compute. intro H. apply H. reflexivity.
Qed.
Lemma input_ok_ext x y u v : (forall j, j < n -> x j = y j) -> (forall c, u c = v c) -> input_ok sys x u -> input_ok sys y v.
Proof.
  intros HX HU. unfold input_ok. destruct (sd_Uw sys =? m).
  - apply inside_ext. auto.
  - apply inside_ext. intros k K. destruct (k <? m) eqn:E; [apply HU|]. apply HX. apply Nat.ltb_ge in E. lia.
Qed.
Lemma step_ext x y u v d k : (forall j, j < n -> x j = y j) -> (forall c, u c = v c) -> step sys x u d k = step sys y v d k.
Proof. intros HX HU. unfold step. rewrite (lin_ext n _ x y HX), (lin_ext m _ u v (fun j _ => HU j)). reflexivity. Qed.

(** One step from one polytope to another *)
Definition pre (P Q : poly) (x : vec) : Prop :=
  inside n P x /\ exists u, input_ok sys x u /\ forall d, allowed sys d -> inside n Q (step sys x u d).
Lemma poly_step p1 p2 t s : poly_to_poly reduce project sys p1 p2 1 t = Ok s -> forall x, in_set n s x <-> pre p1 p2 x.
Proof.
  unfold poly_to_poly. intro H.
  assert (HB : exists pk, bind (createLM_poly sys 1 p1 pk p2) (fun L => match reduce (Pol L) with
    | Pol L' => Ok (reduce (project n (n + 1 * m) L')) | Reg _ => Err "AttributeError" end) = Ok s).
  { destruct t as [[p|l]|]; cbn [bind Nat.leb] in H; eexists; exact H. }
  clear H. destruct HB as (pk & H). destruct (createLM_poly sys 1 p1 pk p2) as [L|e] eqn:C; [|discriminate]. cbn [bind] in H.
  destruct (reduce (Pol L)) as [L'|] eqn:R; [|discriminate]. injection H as <-. intro x.
  rewrite reduce_spec, project_spec by lia.
  assert (LL : forall z, inside (n + 1 * m) L' z <-> inside (n + 1 * m) L z).
  { intro z. assert (Q := reduce_spec (n + 1 * m) (Pol L) z). rewrite R in Q. exact Q. }
  split.
  - intros (z & E & I). apply LL in I. apply (createLM_step_exact sys p1 pk p2 L z states Uset_width disturbances C) in I.
    destruct I as (I1 & I2 & I3). split; [apply (inside_ext n p1 z x); auto|]. exists (inputs sys z 0). split.
    + apply (input_ok_ext z x (inputs sys z 0)); auto.
    + intros d D. apply (inside_ext n p2 (step sys z (inputs sys z 0) d)); [|auto]. intros k K. apply step_ext; auto.
  - intros (I1 & u & I2 & I3). set (z := fun j => if j <? n then x j else u (j - n)).
    assert (ZX : forall j, j < n -> z j = x j) by (intros j J; unfold z; apply Nat.ltb_lt in J; rewrite J; reflexivity).
    assert (ZU : forall c, inputs sys z 0 c = u c).
    { intro c. unfold inputs, z. replace (n + m * 0 + c <? n) with false by (symmetry; apply Nat.ltb_ge; lia). f_equal. lia. }
    exists z. split; [exact ZX|]. apply LL. apply (createLM_step_exact sys p1 pk p2 L z states Uset_width disturbances C).
    split; [apply (inside_ext n p1 x z); auto; intros; symmetry; auto|]. split.
    + apply (input_ok_ext x z u); auto; intros; symmetry; auto.
    + intros d D. apply (inside_ext n p2 (step sys x u d)); [|auto]. intros k K. apply step_ext; intros; symmetry; auto.
Qed.

Lemma union_pairs_step l t s0 s : union_pairs union reduce project sys l 1 t s0 = Ok s ->
  forall x, in_set n s x <-> in_set n s0 x \/ exists p1 p2, In (p1, p2) l /\ pre p1 p2 x.
Proof.
  revert s0. induction l as [|(p1 & p2) l IH]; intros s0 H x; cbn [union_pairs] in H.
  - injection H as <-. split; [auto|]. intros [H|(p1 & p2 & [] & _)]. exact H.
  - destruct (poly_to_poly reduce project sys p1 p2 1 t) as [c|e] eqn:C; [|discriminate]. cbn [bind] in H.
    rewrite (IH _ H x), union_spec, (poly_step p1 p2 t c C x). split.
    + intros [[A|A]|(q1 & q2 & I & A)]; [left; exact A|right; exists p1, p2; split; [left; auto|exact A]|right; exists q1, q2; split; [right; exact I|exact A]].
    + intros [A|(q1 & q2 & [I|I] & A)]; [left; left; exact A|injection I as <- <-; left; right; exact A|right; exists q1, q2; auto].
Qed.
Lemma insert_vol_in p l q : In q (insert_vol volume p l) <-> q = p \/ In q l.
Proof.
  induction l as [|r l IH]; cbn [insert_vol]; [cbn; intuition congruence|]. destruct (Qclt_le_dec (volume p) (volume r)); cbn [In]; [rewrite IH|]; intuition congruence.
Qed.
Lemma sort_vol_in l q : In q (sort_vol volume l) <-> In q l.
Proof. induction l as [|p l IH]; cbn [sort_vol]; [tauto|]. rewrite insert_vol_in, IH. cbn [In]. intuition congruence. Qed.
Lemma firstn_In (A : Type) k (l : list A) x : In x (firstn k l) -> In x l.
Proof. intro H. rewrite <- (firstn_skipn k l). apply in_app_iff. auto. Qed.
Lemma polys_sub s k l : polys (volumes_for_reachability volume s k) = Ok l -> forall p x, In p l -> inside n p x -> in_set n s x.
Proof.
  destruct s as [p0|l0]; cbn [volumes_for_reachability polys].
  - intros E p x I H. injection E as <-. destruct I as [->|[]]. exact H.
  - intros E p x I H. exists p. split; [|exact H]. destruct (plen (Reg l0) <=? k).
    + cbn [polys] in E. destruct l0; [discriminate|]. injection E as <-. exact I.
    + apply sort_vol_in. destruct (firstn k (sort_vol volume l0)) as [|a r] eqn:F; [cbn in E; discriminate|]. cbn [polys] in E. injection E as <-.
      rewrite <- F in I. apply firstn_In in I. exact I.
Qed.
Lemma solve_step P1 P2 t k s : solve_open_loop union reduce volume project sys P1 P2 1 t k = Ok s ->
  forall x, in_set n s x -> in_set n P1 x /\ exists u, input_ok sys x u /\ forall d, allowed sys d -> in_set n P2 (step sys x u d).
Proof.
  unfold solve_open_loop. intros H x I.
  destruct (polys (volumes_for_reachability volume P1 k)) as [l1|e] eqn:E1; [|discriminate]. cbn [bind] in H.
  destruct (polys (volumes_for_reachability volume P2 k)) as [l2|e] eqn:E2; [|discriminate]. cbn [bind] in H.
  apply (union_pairs_step _ _ _ _ H) in I. destruct I as [I|(p1 & p2 & I & A1 & u & A2 & A3)]; [destruct (no_points_empty n x I)|].
  apply in_prod_iff in I. destruct I as [I1 I2]. split; [apply (polys_sub _ _ _ E1 p1); auto|].
  exists u. split; [exact A2|]. intros d D. apply (polys_sub _ _ _ E2 p2); auto.
Qed.
(** From a polytope to a polytope, exactly *)
Lemma solve_step_exact P1 P2 t k s : solve_open_loop union reduce volume project sys (Pol P1) (Pol P2) 1 t k = Ok s ->
  forall x, in_set n s x <-> pre P1 P2 x.
Proof.
  unfold solve_open_loop. cbn [volumes_for_reachability polys bind list_prod map app]. intros H x.
  rewrite (union_pairs_step _ _ _ _ H x). split.
  - intros [I|(p1 & p2 & [I|[]] & A)]; [destruct (no_points_empty n x I)|]. injection I as <- <-. exact A.
  - intro A. right. exists P1, P2. split; [left; reflexivity|exact A].
Qed.

(** ** Exactly N steps *)
(** The states on the way *)
Definition mid_set (P1 : pset) (t : option pset) : pset := match t with None => P1 | Some q => q end.
Lemma fixed_loop_sound goal P1 t k : forall p2 j r,
  (forall x, in_set n p2 x -> forced sys (in_set n (mid_set P1 t)) goal j x /\ (j <> 0 -> in_set n (mid_set P1 t) x)) ->
  k <> 0 ->
  fixed_loop union reduce fulldim volume project sys k P1 (pinit_of P1 t) p2 t = Ok r ->
  forall x, in_set n r x -> in_set n P1 x /\ forced sys (in_set n (mid_set P1 t)) goal (j + k) x.
Proof.
  induction k as [|k IH]; [congruence|]. intros p2 j r HP _ H x I. cbn [fixed_loop] in H.
  destruct (solve_open_loop union reduce volume project sys (if S k =? 1 then P1 else pinit_of P1 t) p2 1 t 5) as [s|e] eqn:E; [|discriminate].
  cbn [bind] in H. destruct (fulldim (reduce s)); cbn [negb] in H; [|injection H as <-; destruct (no_points_empty n x I)].
  assert (ST : forall y, in_set n (reduce s) y -> in_set n (if S k =? 1 then P1 else pinit_of P1 t) y /\ forced sys (in_set n (mid_set P1 t)) goal (S j) y).
  { intros y Y. apply (proj1 (reduce_spec _ _ _)) in Y. destruct (solve_step _ _ _ _ _ E y Y) as (A & u & B & C). split; [exact A|].
    cbn [forced]. exists u. split; [exact B|]. intros d D. destruct (HP _ (C d D)) as [F G]. split; [exact G|exact F]. }
  destruct k as [|k].
  - cbn [fixed_loop] in H. injection H as <-. destruct (ST x I) as [A B]. split; [exact A|]. replace (j + 1) with (S j) by lia. exact B.
  - replace (j + S (S k)) with (S j + S k) by lia. apply (IH (reduce s) (S j) r); auto.
    intros y Y. destruct (ST y Y) as [A B]. split; [exact B|]. intros _. exact A.
Qed.
Theorem fixed_horizon_sound P1 P2 N t r : fixed_horizon union reduce fulldim volume project sys P1 P2 N t = Ok r ->
  forall x, in_set n r x -> in_set n P1 x /\ forced sys (in_set n (mid_set P1 t)) (in_set n P2) N x.
Proof.
  unfold fixed_horizon. destruct (N =? 0) eqn:EN; [discriminate|]. apply Nat.eqb_neq in EN. intros H x I.
  apply (fixed_loop_sound (in_set n P2) P1 t N P2 0 r); auto. intros y Y. split; [exact Y|congruence].
Qed.

(** Between polytopes, the result is the empty polytope or exact.  Here the library must return
    polytopes for the union with the empty polytope and for reductions. *)
Hypothesis reduce_pol : forall p, exists p', reduce (Pol p) = Pol p'.
Hypothesis project_pol : forall w P, exists p, project n w P = Pol p.
Hypothesis union_pol : forall p, exists p', union (Pol no_points) (Pol p) = Pol p'.
Lemma solve_pol P1 P2 t k s : solve_open_loop union reduce volume project sys (Pol P1) (Pol P2) 1 t k = Ok s -> exists p, s = Pol p.
Proof.
  unfold solve_open_loop. cbn [volumes_for_reachability polys bind list_prod map app union_pairs]. intro H.
  destruct (poly_to_poly reduce project sys P1 P2 1 t) as [c|e] eqn:C; [|discriminate]. cbn [bind] in H. injection H as <-.
  unfold poly_to_poly in C.
  assert (HB : exists pk, bind (createLM_poly sys 1 P1 pk P2) (fun L => match reduce (Pol L) with
    | Pol L' => Ok (reduce (project n (n + 1 * m) L')) | Reg _ => Err "AttributeError" end) = Ok c).
  { destruct t as [[p|l]|]; cbn [bind Nat.leb] in C; eexists; exact C. }
  destruct HB as (pk & HB). destruct (createLM_poly sys 1 P1 pk P2) as [L|e]; [|discriminate]. cbn [bind] in HB.
  destruct (reduce (Pol L)) as [L'|]; [|discriminate]. injection HB as <-.
  match goal with |- context [project n ?w L'] => destruct (project_pol w L') as (p & ->) end. destruct (reduce_pol p) as (p' & ->). apply union_pol.
Qed.
Theorem fixed_horizon_exact P1 P2 N t r :
  fixed_horizon union reduce fulldim volume project sys (Pol P1) (Pol P2) N (option_map Pol t) = Ok r ->
  r = Pol no_points \/
  forall x, in_set n r x <-> inside n P1 x /\ forced sys (inside n (match t with None => P1 | Some q => q end)) (inside n P2) N x.
Proof.
  unfold fixed_horizon. destruct (N =? 0) eqn:EN; [discriminate|]. apply Nat.eqb_neq in EN. intro H.
  set (mid := match t with None => P1 | Some q => q end) in *.
  assert (PI : pinit_of (Pol P1) (option_map Pol t) = Pol mid) by (unfold mid; destruct t; reflexivity). rewrite PI in H. clear PI.
  assert (G : forall k p2 j r, k <> 0 ->
     (forall x, inside n p2 x <-> forced sys (inside n mid) (inside n P2) j x /\ (j <> 0 -> inside n mid x)) ->
     fixed_loop union reduce fulldim volume project sys k (Pol P1) (Pol mid) (Pol p2) (option_map Pol t) = Ok r ->
     r = Pol no_points \/ forall x, in_set n r x <-> inside n P1 x /\ forced sys (inside n mid) (inside n P2) (j + k) x).
  { clear H r. induction k as [|k IH]; [congruence|]. intros p2 j r _ HP H. cbn [fixed_loop] in H.
    replace (if S k =? 1 then Pol P1 else Pol mid) with (Pol (if S k =? 1 then P1 else mid)) in H by (destruct (S k =? 1); reflexivity).
    destruct (solve_open_loop union reduce volume project sys (Pol (if S k =? 1 then P1 else mid)) (Pol p2) 1 (option_map Pol t) 5) as [s|e] eqn:E; [|discriminate].
    cbn [bind] in H. destruct (fulldim (reduce s)); cbn [negb] in H; [|left; injection H as <-; reflexivity].
    destruct (solve_pol _ _ _ _ _ E) as (p & ->). destruct (reduce_pol p) as (p' & EP). rewrite EP in H.
    assert (ST : forall x, inside n p' x <-> inside n (if S k =? 1 then P1 else mid) x /\ forced sys (inside n mid) (inside n P2) (S j) x).
    { intro x. assert (Q := reduce_spec n (Pol p) x). rewrite EP in Q. cbn [in_set] in Q. rewrite Q.
      rewrite (solve_step_exact _ _ _ _ _ E x : inside n p x <-> _). unfold pre. cbn [forced].
      split; intros (A & u & B & C); (split; [exact A|]); exists u; (split; [exact B|]); intros d D.
      - specialize (C d D). apply HP in C. tauto.
      - apply HP. specialize (C d D). tauto. }
    destruct k as [|k].
    - right. cbn [fixed_loop] in H. injection H as <-. intro x. cbn [in_set]. rewrite ST. replace (j + 1) with (S j) by lia. reflexivity.
    - replace (j + S (S k)) with (S j + S k) by lia. apply (IH p' (S j) r); auto. intro x. rewrite ST. cbn [Nat.eqb]. intuition discriminate. }
  apply (G N P2 0 r EN); [|exact H]. intro x. cbn [forced]. intuition congruence.
Qed.

(** ** Within N steps *)
Lemma attractor_loop_sound goal P1 t k : forall p2 j r0 r,
  (forall x, in_set n p2 x -> goal x \/ (in_set n (mid_set P1 t) x /\ forced_within sys (in_set n (mid_set P1 t)) goal j x)) ->
  k <> 0 ->
  attractor_loop union reduce fulldim volume project sys k P1 (pinit_of P1 t) p2 t r0 = Ok r ->
  forall x, in_set n r x -> in_set n P1 x /\ forced_within sys (in_set n (mid_set P1 t)) goal (j + k) x.
Proof.
  induction k as [|k IH]; [congruence|]. intros p2 j r0 r HP _ H x I. cbn [attractor_loop] in H.
  destruct (solve_open_loop union reduce volume project sys (if S k =? 1 then P1 else pinit_of P1 t) p2 1 t 5) as [s|e] eqn:E; [|discriminate].
  cbn [bind] in H. destruct (fulldim (reduce (union p2 s))); cbn [negb] in H; [|injection H as <-; destruct (no_points_empty n x I)].
  assert (ST : forall y, in_set n s y -> in_set n (if S k =? 1 then P1 else pinit_of P1 t) y /\ forced_within sys (in_set n (mid_set P1 t)) goal (S j) y).
  { intros y Y. destruct (solve_step _ _ _ _ _ E y Y) as (A & u & B & C). split; [exact A|].
    cbn [forced_within]. exists u. split; [exact B|]. intros d D. apply HP. apply C. exact D. }
  destruct k as [|k].
  - cbn [attractor_loop] in H. injection H as <-. destruct (ST x I) as [A B]. split; [exact A|]. replace (j + 1) with (S j) by lia. exact B.
  - replace (j + S (S k)) with (S j + S k) by lia. apply (IH (reduce (union p2 s)) (S j) s r); auto.
    intros y Y. apply (proj1 (reduce_spec _ _ _)) in Y. apply (proj1 (union_spec _ _ _)) in Y. destruct Y as [Y|Y].
    + destruct (HP y Y) as [G|[G1 G2]]; [left; exact G|right; split; [exact G1|]].
      assert (MONO : forall i z, forced_within sys (in_set n (mid_set P1 t)) goal i z -> forced_within sys (in_set n (mid_set P1 t)) goal (S i) z).
      { clear. induction i as [|i IH]; intros z F; [destruct F|]. destruct F as (u & B & C). exists u. split; [exact B|]. intros d D.
        destruct (C d D) as [G|[G1 G2]]; [left; exact G|right; split; [exact G1|apply IH; exact G2]]. }
      apply MONO. exact G2.
    + destruct (ST y Y) as [A B]. right. split; [exact A|exact B].
Qed.
Theorem attractor_sound P1 P2 N t r : underapproximate_attractor union reduce fulldim volume project sys P1 P2 N t = Ok r ->
  forall x, in_set n r x -> in_set n P1 x /\ forced_within sys (in_set n (mid_set P1 t)) (in_set n P2) N x.
Proof.
  unfold underapproximate_attractor. destruct (N =? 0) eqn:EN; [discriminate|]. apply Nat.eqb_neq in EN. intros H x I.
  apply (attractor_loop_sound (in_set n P2) P1 t N P2 0 (Pol no_points) r); auto.
Qed.

(** [_solve_closed_loop_bounded_horizon] (not called): each state reaches the target in some number of
    steps up to N, but may lie in [trans_set] instead of [P1]. *)
Lemma bounded_loop_sound goal P1 t N k : forall p2 j s r,
  (forall x, in_set n p2 x -> forced sys (in_set n (mid_set P1 t)) goal j x /\ (j <> 0 -> in_set n (mid_set P1 t) x)) ->
  (forall x, in_set n s x -> (in_set n P1 x \/ in_set n (mid_set P1 t) x) /\ exists i, 1 <= i <= N /\ forced sys (in_set n (mid_set P1 t)) goal i x) ->
  j + k <= N ->
  bounded_loop union reduce fulldim volume project sys k P1 (pinit_of P1 t) p2 t s = Ok r ->
  forall x, in_set n r x -> (in_set n P1 x \/ in_set n (mid_set P1 t) x) /\ exists i, 1 <= i <= N /\ forced sys (in_set n (mid_set P1 t)) goal i x.
Proof.
  induction k as [|k IH]; intros p2 j s r HP HS L H x I; cbn [bounded_loop] in H; [injection H as <-; auto|].
  destruct (solve_open_loop union reduce volume project sys (if S k =? 1 then P1 else pinit_of P1 t) p2 1 t 5) as [q|e] eqn:E; [|discriminate].
  cbn [bind] in H.
  assert (ST : forall y, in_set n (reduce q) y -> in_set n (if S k =? 1 then P1 else pinit_of P1 t) y /\ forced sys (in_set n (mid_set P1 t)) goal (S j) y).
  { intros y Y. apply (proj1 (reduce_spec _ _ _)) in Y. destruct (solve_step _ _ _ _ _ E y Y) as (A & u & B & C). split; [exact A|].
    cbn [forced]. exists u. split; [exact B|]. intros d D. destruct (HP _ (C d D)) as [F G]. split; [exact G|exact F]. }
  assert (HS' : forall y, in_set n (reduce (union s (reduce q))) y -> (in_set n P1 y \/ in_set n (mid_set P1 t) y) /\ exists i, 1 <= i <= N /\ forced sys (in_set n (mid_set P1 t)) goal i y).
  { intros y Y. apply (proj1 (reduce_spec _ _ _)) in Y. apply (proj1 (union_spec _ _ _)) in Y. destruct Y as [Y|Y]; [auto|]. destruct (ST y Y) as [A B]. split.
    - destruct (S k =? 1); [left|right]; exact A.
    - exists (S j). split; [lia|exact B]. }
  destruct (fulldim (reduce q)); cbn [negb] in H; [|injection H as <-; auto].
  destruct k as [|k]; [cbn [bounded_loop] in H; injection H as <-; auto|].
  apply (IH (reduce q) (S j) (reduce (union s (reduce q))) r); auto; [|lia].
  intros y Y. destruct (ST y Y) as [A B]. split; [exact B|]. intros _. exact A.
Qed.
Theorem bounded_horizon_sound P1 P2 N t r : bounded_horizon union reduce fulldim volume project sys P1 P2 N t = Ok r ->
  forall x, in_set n r x -> (in_set n P1 x \/ in_set n (mid_set P1 t) x) /\
    exists k, 1 <= k <= N /\ forced sys (in_set n (mid_set P1 t)) (in_set n P2) k x.
Proof.
  unfold bounded_horizon. intros H x I.
  destruct (bounded_loop union reduce fulldim volume project sys N P1 (pinit_of P1 t) P2 t (Reg [])) as [s|e] eqn:E; [|discriminate].
  cbn [bind] in H. destruct (fulldim s); cbn [negb] in H; [|injection H as <-; destruct (no_points_empty n x I)]. injection H as <-.
  apply (proj1 (reduce_spec _ _ _)) in I. apply (bounded_loop_sound (in_set n P2) P1 t N N P2 0 (Reg []) s); auto.
  - intros y Y. split; [exact Y|congruence].
  - intros y (p & [] & _).
Qed.

(** ** [solve_feasible] and [is_feasible] in closed loop *)
Variable subset : pset -> pset -> bool.
Hypothesis subset_spec : forall a b, subset a b = true -> forall x, in_set n a x -> in_set n b x.
Theorem is_feasible_fixed from_region to_region N t :
  is_feasible union reduce fulldim volume project subset sys from_region to_region N true false t = Ok true ->
  forall x, in_set n from_region x -> forced sys (in_set n (mid_set from_region t)) (in_set n to_region) N x.
Proof.
  unfold is_feasible, solve_feasible. intros H x I.
  destruct (fixed_horizon union reduce fulldim volume project sys from_region to_region N t) as [r|e] eqn:E; [|discriminate]. cbn [bind] in H.
  injection H as H. apply (fixed_horizon_sound _ _ _ _ _ E). apply (subset_spec _ _ H x I).
Qed.
Theorem is_feasible_within from_region to_region N t :
  is_feasible union reduce fulldim volume project subset sys from_region to_region N true true t = Ok true ->
  forall x, in_set n from_region x -> forced_within sys (in_set n (mid_set from_region t)) (in_set n to_region) N x.
Proof.
  unfold is_feasible, solve_feasible. intros H x I.
  destruct (underapproximate_attractor union reduce fulldim volume project sys from_region to_region N t) as [r|e] eqn:E; [|discriminate]. cbn [bind] in H.
  injection H as H. apply (attractor_sound _ _ _ _ _ E). apply (subset_spec _ _ H x I).
Qed.

(** ** Open loop: one sequence of inputs for all disturbances *)
Definition disturbance_seq (N : nat) (d : nat -> vec) : Prop := forall t, t < N -> allowed sys (d t).
Lemma E_dec : (forall k j, k < n -> j < sd_p sys -> sd_E sys k j = 0%Qc) \/ exists k j, k < n /\ j < sd_p sys /\ sd_E sys k j <> 0%Qc.
Proof.
  destruct (lm_E0 sys) eqn:EZ.
  - left. intros k j K J. unfold lm_E0 in EZ. rewrite forallb_forall in EZ.
    assert (IK : In k (List.seq 0 n)) by (apply in_seq; lia). specialize (EZ k IK). unfold vec_zero in EZ. rewrite forallb_forall in EZ.
    assert (IJ : In j (List.seq 0 (sd_p sys))) by (apply in_seq; lia). specialize (EZ j IJ). unfold Qc_eqb in EZ.
    destruct (Qc_eq_dec (sd_E sys k j) 0); [auto|discriminate].
  - right. destruct (forallb_false _ _ _ EZ) as (k & IK & NK). destruct (forallb_false _ _ _ NK) as (j & IJ & NJ).
    apply in_seq in IK. apply in_seq in IJ. exists k, j. split; [lia|]. split; [lia|]. unfold Qc_eqb in NJ. destruct (Qc_eq_dec (sd_E sys k j) 0); [discriminate|auto].
Qed.
Lemma stacked_open N p1 pk p2 L z : 1 <= N -> sd_Uw sys = m -> createLM_poly sys N p1 pk p2 = Ok L -> inside (n + N * m) L z ->
  forall d, disturbance_seq N d -> let x := traj sys z (inputs sys z) d in
    inside n p1 (x 0) /\ (forall i, 0 < i < N -> inside n pk (x i)) /\ inside n p2 (x N) /\ forall i, i < N -> input_ok sys (x i) (inputs sys z i).
Proof.
  intros N1 UW C I d D. cbn zeta. destruct E_dec as [E0|NZ].
  - assert (LEN : List.length ([p1] ++ repeat pk (N - 1) ++ [p2]) = N + 1) by (rewrite !app_length, repeat_length; cbn; lia).
    destruct (createLM_nominal sys N _ None z N1 states E0 Uset_width LEN) as (L' & C' & H). unfold createLM_poly in C.
    rewrite C in C'. injection C' as <-. apply H in I. destruct I as [I1 I2].
    assert (TR : forall i k, k < n -> traj sys z (inputs sys z) (fun _ _ => 0%Qc) i k = traj sys z (inputs sys z) d i k).
    { induction i as [|i IH]; intros k K; [reflexivity|]. cbn [traj]. unfold step. rewrite (lin_ext n _ _ _ IH). f_equal. f_equal.
      unfold lin. apply sum_ext. intros j J. rewrite E0 by auto. ring. }
    assert (NTH : forall i, 0 < i < N -> nth i ([p1] ++ repeat pk (N - 1) ++ [p2]) [] = pk).
    { intros i Ii. rewrite app_nth2 by (cbn; lia). rewrite app_nth1 by (rewrite repeat_length; cbn; lia). rewrite (nth_indep _ [] pk) by (rewrite repeat_length; cbn; lia). apply nth_repeat. }
    assert (NTHN : nth N ([p1] ++ repeat pk (N - 1) ++ [p2]) [] = p2).
    { rewrite app_nth2 by (cbn; lia). rewrite app_nth2 by (rewrite repeat_length; cbn; lia). rewrite repeat_length. cbn [List.length].
      replace (N - 1 - (N - 1)) with 0 by lia. reflexivity. }
    split; [|split; [|split]].
    + exact (I1 0 ltac:(lia)).
    + intros i Ii. specialize (I1 i ltac:(lia)). rewrite NTH in I1 by auto. apply (inside_ext n pk _ _ (TR i) I1).
    + specialize (I1 N ltac:(lia)). rewrite NTHN in I1. apply (inside_ext n p2 _ _ (TR N) I1).
    + intros i Ii. apply (input_ok_ext _ _ _ _ (TR i) (fun _ => eq_refl) (I2 i Ii)).
  - destruct disturbances as [E0|[WF NE]]; [destruct NZ as (k & j & K & J & X); destruct (X (E0 k j K J))|].
    apply (createLM_poly_exact sys N p1 pk p2 L z N1 states WF NE (or_introl UW) C); [exact I|]. intros t T. apply (D t T NZ).
Qed.
Theorem open_loop_sound P1 P2 N t k s : 1 <= N -> sd_Uw sys = m ->
  solve_open_loop union reduce volume project sys P1 P2 N t k = Ok s ->
  forall x, in_set n s x -> exists u, forall d, disturbance_seq N d -> let y := traj sys x u d in
    in_set n P1 (y 0) /\ (forall i, 0 < i < N -> in_set n (mid_set P1 t) (y i)) /\ in_set n P2 (y N) /\ forall i, i < N -> input_ok sys (y i) (u i).
Proof.
  intros N1 UW H x I. unfold solve_open_loop in H.
  destruct (polys (volumes_for_reachability volume P1 k)) as [l1|e] eqn:E1; [|discriminate]. cbn [bind] in H.
  destruct (polys (volumes_for_reachability volume P2 k)) as [l2|e] eqn:E2; [|discriminate]. cbn [bind] in H.
  assert (G : forall l s0 s, union_pairs union reduce project sys l N t s0 = Ok s -> in_set n s x ->
     in_set n s0 x \/ exists p1 p2 c, In (p1, p2) l /\ poly_to_poly reduce project sys p1 p2 N t = Ok c /\ in_set n c x).
  { clear H I s. induction l as [|(p1 & p2) l IH]; intros s0 s H I; cbn [union_pairs] in H; [injection H as <-; auto|].
    destruct (poly_to_poly reduce project sys p1 p2 N t) as [c|e] eqn:C; [|discriminate]. cbn [bind] in H.
    destruct (IH _ _ H I) as [A|(q1 & q2 & c' & A & B & D)].
    - apply union_spec in A. destruct A as [A|A]; [left; exact A|]. right. exists p1, p2, c. split; [left; reflexivity|auto].
    - right. exists q1, q2, c'. split; [right; exact A|auto]. }
  destruct (G _ _ _ H I) as [A|(p1 & p2 & c & A & B & Ic)]; [destruct (no_points_empty n x A)|]. clear G H I.
  apply in_prod_iff in A. destruct A as [A1 A2]. unfold poly_to_poly in B.
  assert (HB : exists pk, (forall y, 1 < N -> inside n pk y -> in_set n (mid_set P1 t) y) /\ bind (createLM_poly sys N p1 pk p2) (fun L => match reduce (Pol L) with
    | Pol L' => Ok (reduce (project n (n + N * m) L')) | Reg _ => Err "AttributeError" end) = Ok c).
  { destruct t as [[p|l]|]; cbn [bind] in B.
    - exists p. split; [intros y _ Y; exact Y|exact B].
    - destruct (N <=? 1) eqn:EN; [|discriminate]. apply Nat.leb_le in EN. exists p1. split; [lia|exact B].
    - exists p1. split; [|exact B]. intros y _ Y. cbn [mid_set]. apply (polys_sub _ _ _ E1 p1); auto. }
  destruct HB as (pk & PK & HB). clear B. destruct (createLM_poly sys N p1 pk p2) as [L|e] eqn:C; [|discriminate]. cbn [bind] in HB.
  destruct (reduce (Pol L)) as [L'|] eqn:R; [|discriminate]. injection HB as <-.
  apply (proj1 (reduce_spec _ _ _)) in Ic. apply project_spec in Ic; [|lia]. destruct Ic as (z & EZ & IL).
  assert (IL' : inside (n + N * m) L z).
  { assert (Q := reduce_spec (n + N * m) (Pol L) z). rewrite R in Q. apply Q. exact IL. }
  assert (O := stacked_open N p1 pk p2 L z N1 UW C IL'). exists (inputs sys z). intros d D. specialize (O d D). cbn zeta in *.
  assert (TR : forall i j, j < n -> traj sys z (inputs sys z) d i j = traj sys x (inputs sys z) d i j).
  { induction i as [|i IH]; intros j J; cbn [traj]; [apply EZ; exact J|]. apply step_ext; auto. }
  destruct O as (O1 & O2 & O3 & O4). split; [|split; [|split]].
  - apply (polys_sub _ _ _ E1 p1); auto. apply (inside_ext n p1 _ _ (TR 0) O1).
  - intros i Ii. apply PK; [lia|]. apply (inside_ext n pk _ _ (TR i)). apply O2. exact Ii.
  - apply (polys_sub _ _ _ E2 p2); auto. apply (inside_ext n p2 _ _ (TR N) O3).
  - intros i Ii. apply (input_ok_ext _ _ _ _ (TR i) (fun _ => eq_refl)). apply O4. exact Ii.
Qed.
(** The controls that the variants of [solve_feasible] look for.  They allow more states on the way when
    the set for these grows, as the abstraction of a system requires (T_Abstract). *)
Definition steered (closed_loop use_all_horizon : bool) (N : nat) (M G : vec -> Prop) (x : vec) : Prop :=
  if closed_loop then if use_all_horizon then forced_within sys M G N x else forced sys M G N x
  else exists u, forall d, disturbance_seq N d -> let y := traj sys x u d in
    (forall i, 0 < i < N -> M (y i)) /\ G (y N) /\ forall i, i < N -> input_ok sys (y i) (u i).
Theorem steered_mono closed_loop use_all_horizon N (M M' G : vec -> Prop) x : (forall y, M y -> M' y) ->
  steered closed_loop use_all_horizon N M G x -> steered closed_loop use_all_horizon N M' G x.
Proof.
  intro S. unfold steered. destruct closed_loop; [destruct use_all_horizon|].
  - revert x. induction N as [|N IH]; intros x H; [exact H|]. cbn [forced_within] in *. destruct H as (u & U & H). exists u. split; [exact U|].
    intros d D. destruct (H d D) as [G1|[M1 F]]; auto.
  - revert x. induction N as [|N IH]; intros x H; [exact H|]. cbn [forced] in *. destruct H as (u & U & H). exists u. split; [exact U|].
    intros d D. destruct (H d D) as [M1 F]. auto.
  - intros (u & H). exists u. intros d D. destruct (H d D) as (A & B & C). auto.
Qed.
Theorem solve_feasible_steers closed_loop use_all_horizon P1 P2 N t k r : 1 <= N -> (closed_loop = false -> sd_Uw sys = m) ->
  solve_feasible union reduce fulldim volume project sys P1 P2 N closed_loop use_all_horizon t k = Ok r ->
  forall x, in_set n r x -> steered closed_loop use_all_horizon N (in_set n (mid_set P1 t)) (in_set n P2) x.
Proof.
  intros N1 UW H x I. unfold solve_feasible in H. unfold steered. destruct closed_loop; [destruct use_all_horizon|].
  - apply (attractor_sound _ _ _ _ _ H x I).
  - apply (fixed_horizon_sound _ _ _ _ _ H x I).
  - destruct use_all_horizon; [discriminate|]. destruct (open_loop_sound _ _ _ _ _ _ N1 (UW eq_refl) H x I) as (u & F). exists u.
    intros d D. destruct (F d D) as (_ & A). exact A.
Qed.
End Horizon.

(** Of a region with too many polytopes the largest are used. *)
Lemma insert_vol_perm vol p l : Permutation (p :: l) (insert_vol vol p l).
Proof.
  induction l as [|r l IH]; cbn [insert_vol]; [apply Permutation_refl|]. destruct (Qclt_le_dec (vol p) (vol r)); [|apply Permutation_refl].
  eapply perm_trans; [apply perm_swap|]. apply perm_skip, IH.
Qed.
Lemma sort_vol_perm vol l : Permutation l (sort_vol vol l).
Proof. induction l as [|p l IH]; cbn [sort_vol]; [constructor|]. eapply perm_trans; [apply perm_skip, IH|]. apply insert_vol_perm. Qed.
Lemma insert_vol_sorted vol p l : StronglySorted (fun a b => (vol b <= vol a)%Qc) l -> StronglySorted (fun a b => (vol b <= vol a)%Qc) (insert_vol vol p l).
Proof.
  induction 1 as [|r l S IH F]; cbn [insert_vol]; [repeat constructor|]. destruct (Qclt_le_dec (vol p) (vol r)) as [L|L].
  - constructor; [exact IH|]. apply (Permutation_Forall (insert_vol_perm vol p l)). constructor; [apply Qclt_le_weak, L|exact F].
  - constructor; [constructor; assumption|]. constructor; [exact L|]. apply Forall_forall. intros q Q. eapply Forall_forall in F; [|exact Q]. eapply Qcle_trans; [exact F|exact L].
Qed.
Lemma sort_vol_sorted vol l : StronglySorted (fun a b => (vol b <= vol a)%Qc) (sort_vol vol l).
Proof. induction l as [|p l IH]; cbn [sort_vol]; [constructor|]. apply insert_vol_sorted, IH. Qed.
Lemma sorted_app {A} (Q : A -> A -> Prop) (a b : list A) x y : StronglySorted Q (a ++ b) -> In x a -> In y b -> Q x y.
Proof.
  induction a as [|z a IH]; intros S I J; [destruct I|]. cbn [app] in S. inversion S as [|? ? S' F]; subst. destruct I as [->|I]; [|apply IH; assumption].
  eapply Forall_forall in F; [exact F|]. apply in_or_app. right. exact J.
Qed.
Theorem volumes_largest volume l k : exists kept dropped,
  volumes_for_reachability volume (Reg l) k = Reg kept /\ Permutation l (kept ++ dropped) /\
  List.length kept = Nat.min k (List.length l) /\ forall p q, In p kept -> In q dropped -> (volume q <= volume p)%Qc.
Proof.
  cbn [volumes_for_reachability plen]. destruct (Nat.leb_spec (List.length l) k) as [L|L].
  - exists l, []. split; [reflexivity|]. split; [rewrite app_nil_r; apply Permutation_refl|]. split; [lia|intros p q _ []].
  - exists (firstn k (sort_vol volume l)), (skipn k (sort_vol volume l)). split; [reflexivity|]. rewrite firstn_skipn.
    split; [apply sort_vol_perm|]. split.
    + rewrite firstn_length. rewrite <- (Permutation_length (sort_vol_perm volume l)). reflexivity.
    + intros p q P Q. assert (S := sort_vol_sorted volume l). rewrite <- (firstn_skipn k (sort_vol volume l)) in S. exact (sorted_app _ _ _ p q S P Q).
Qed.
Example volumes_case : volumes_for_reachability (fun p => match p with h :: _ => h_b h | [] => 0%Qc end) (Reg [seg 0 1; seg 0 3; seg 0 2]) 2 = Reg [seg 0 3; seg 0 2].
Proof. reflexivity. Qed.
(** Reaching in at most [N] steps is not offered without closed loop. *)
Theorem open_loop_all_horizon union reduce fulldim volume project sys P1 P2 N t k :
  solve_feasible union reduce fulldim volume project sys P1 P2 N false true t k = Err "ValueError".
Proof. reflexivity. Qed.

(** ** An instance of the library: Fourier-Motzkin elimination *)
Definition fm_emptyb (w : nat) (P : poly) : bool := existsb (fun h => is_neg (h_b h)) (fm_project 0 w P).
Lemma fm_emptyb_spec w P : fm_emptyb w P = true -> forall x, ~ inside w P x.
Proof.
  intros H x I. unfold fm_emptyb in H. apply existsb_exists in H. destruct H as (h & Ih & Nh). apply is_neg_spec in Nh.
  assert (Q : inside 0 (fm_project 0 w P) x) by (apply fm_project_spec; [lia|]; exists x; split; [intros; lia|exact I]).
  specialize (Q h Ih). cbn in Q. exact (Qclt_not_le _ _ Nh Q).
Qed.
Definition parts (s : pset) : list poly := match s with Pol p => [p] | Reg l => l end.
Lemma in_parts w s x : in_set w s x <-> exists p, In p (parts s) /\ inside w p x.
Proof.
  destruct s as [p|l]; cbn [in_set parts]; [|reflexivity]. split; [intro H; exists p; split; [left; auto|exact H]|].
  intros (q & [->|[]] & H). exact H.
Qed.
Definition fm_union (w : nat) (a b : pset) : pset := if forallb (fm_emptyb w) (parts a) then b else Reg (parts a ++ parts b).
Lemma fm_union_spec w a b x : in_set w (fm_union w a b) x <-> in_set w a x \/ in_set w b x.
Proof.
  unfold fm_union. destruct (forallb (fm_emptyb w) (parts a)) eqn:E.
  - split; [auto|]. intros [H|H]; [|exact H]. apply in_parts in H. destruct H as (p & I & H). rewrite forallb_forall in E.
    destruct (fm_emptyb_spec w p (E p I) x H).
  - rewrite !in_parts. cbn [parts]. split.
    + intros (p & I & H). apply in_app_iff in I. destruct I as [I|I]; [left|right]; exists p; auto.
    + intros [(p & I & H)|(p & I & H)]; exists p; (split; [apply in_app_iff; auto|exact H]).
Qed.
(** Full dimension: without the trivial rows, the strict inequalities have a solution. *)
Definition fm_fulldim (w : nat) (s : pset) : bool :=
  existsb (fun p => forallb (fun h => is_pos (h_b h)) (fm_project 0 w (filter (fun h => negb (vec_zero w (h_a h) && negb (is_neg (h_b h)))) p))) (parts s).
(** Inclusion of polytopes: the largest value of each row of the second over the first *)
Definition lift (w : nat) (h : half) (P : poly) : poly :=
  {| h_a := fun j => if j =? 0 then 1%Qc else (- h_a h (j - 1)%nat)%Qc; h_b := 0%Qc |} ::
  {| h_a := fun j => if j =? 0 then (- (1))%Qc else h_a h (j - 1); h_b := 0%Qc |} ::
  map (fun g => {| h_a := fun j => if j =? 0 then 0%Qc else h_a g (j - 1); h_b := h_b g |}) P.
Definition fm_implies (w : nat) (P : poly) (h : half) : bool :=
  existsb (fun r => is_pos (h_a r 0) && (if Qclt_le_dec (h_a r 0%nat * h_b h) (h_b r) then false else true))%bool (fm_project 1 (S w) (lift w h P)).
Definition fm_subset (w : nat) (a b : pset) : bool :=
  forallb (fun p => existsb (fun q => forallb (fm_implies w p) q) (parts b)) (parts a).
Lemma sum_shift w (f : nat -> Qc) : sum (S w) f = (f 0%nat + sum w (fun j => f (S j)))%Qc.
Proof. induction w as [|w IH]; [cbn; ring|]. cbn [sum] in *. rewrite IH. ring. Qed.
Lemma fm_implies_spec w P h : fm_implies w P h = true -> forall x, inside w P x -> (lin w (h_a h) x <= h_b h)%Qc.
Proof.
  intros H x I. unfold fm_implies in H. apply existsb_exists in H. destruct H as (r & Ir & H). apply andb_true_iff in H. destruct H as [HP HB].
  apply is_pos_spec in HP. destruct (Qclt_le_dec (h_a r 0%nat * h_b h) (h_b r)) as [|HB']; [discriminate|]. clear HB.
  assert (Q : inside 1 (fm_project 1 (S w) (lift w h P)) (fun _ => lin w (h_a h) x)).
  { apply fm_project_spec; [lia|]. exists (fun j => if j =? 0 then lin w (h_a h) x else x (j - 1)). split.
    - intros j J. replace j with 0 by lia. reflexivity.
    - intros g [<-|[<-|G]].
      + cbn [h_a h_b]. unfold lin at 1. rewrite sum_shift. cbn [Nat.eqb].
        rewrite (sum_ext w _ (fun j => (- (1)) * (h_a h j * x j))%Qc) by (intros j J; replace (S j - 1) with j by lia; ring).
        rewrite sum_mul_l. fold (lin w (h_a h) x). replace (1 * lin w (h_a h) x + - (1) * lin w (h_a h) x)%Qc with 0%Qc by ring. apply Qcle_refl.
      + cbn [h_a h_b]. unfold lin at 1. rewrite sum_shift. cbn [Nat.eqb].
        rewrite (sum_ext w _ (fun j => h_a h j * x j)%Qc) by (intros j J; replace (S j - 1) with j by lia; ring).
        fold (lin w (h_a h) x). replace (- (1) * lin w (h_a h) x + lin w (h_a h) x)%Qc with 0%Qc by ring. apply Qcle_refl.
      + apply in_map_iff in G. destruct G as (g' & <- & G). cbn [h_a h_b]. unfold lin at 1. rewrite sum_shift. cbn [Nat.eqb].
        rewrite (sum_ext w _ (fun j => h_a g' j * x j)%Qc) by (intros j J; replace (S j - 1) with j by lia; ring).
        fold (lin w (h_a g') x). replace (0 * lin w (h_a h) x + lin w (h_a g') x)%Qc with (lin w (h_a g') x) by ring. apply I. exact G. }
  specialize (Q r Ir). unfold lin at 1 in Q. cbn [sum] in Q. rewrite Qcplus_0_l in Q. apply (mul_le_pos _ _ (h_a r 0) HP).
  apply Qcle_trans with (h_b r); [exact Q|exact HB'].
Qed.
Lemma fm_subset_spec w a b : fm_subset w a b = true -> forall x, in_set w a x -> in_set w b x.
Proof.
  intros H x I. apply in_parts in I. destruct I as (p & Ip & I). unfold fm_subset in H. rewrite forallb_forall in H. specialize (H p Ip).
  apply existsb_exists in H. destruct H as (q & Iq & H). apply in_parts. exists q. split; [exact Iq|]. intros h Ih. rewrite forallb_forall in H.
  apply (fm_implies_spec w p h (H h Ih) x I).
Qed.
Definition fm_proj (n w : nat) (P : poly) : pset := Pol (fm_project n w P).
Definition idp (s : pset) : pset := s.
Lemma idp_spec w s x : in_set w (idp s) x <-> in_set w s x. Proof. reflexivity. Qed.
Lemma fm_proj_spec n w P x : n <= w -> (in_set n (fm_proj n w P) x <-> exists y, (forall j, j < n -> y j = x j) /\ inside w P y).
Proof. apply fm_project_spec. Qed.
Lemma fm_union_pol w p : exists p', fm_union w (Pol no_points) (Pol p) = Pol p'.
Proof.
  exists p. unfold fm_union. replace (forallb (fm_emptyb w) (parts (Pol no_points))) with true; [reflexivity|]. symmetry.
  cbn [parts forallb]. rewrite andb_true_r. unfold fm_emptyb, fm_project.
  assert (G : forall k v f, fm_down k v [{| h_a := fun j => nth j (map (fun _ : nat => 0%Qc) f) 0%Qc; h_b := (- (1))%Qc |}] =
                            [{| h_a := fun j => nth j (map (fun _ : nat => 0%Qc) f) 0%Qc; h_b := (- (1))%Qc |}]).
  { induction k as [|k IH]; intros v f; [reflexivity|]. cbn [fm_down]. rewrite <- (IH (v - 1) f) at 2. f_equal.
    unfold fm_elim. cbn [filter h_a]. replace (nth (v - 1) (map (fun _ : nat => 0%Qc) f) 0%Qc) with 0%Qc; [reflexivity|].
    symmetry. generalize (v - 1). induction f as [|a f IHf]; intros [|i]; cbn; auto. }
  unfold memo_poly at 2. cbn [map no_points h_a h_b]. unfold memo. rewrite G. reflexivity.
Qed.
Definition vol0 (p : poly) : Qc := 0%Qc.

(** The theorems for this instance, without assumptions on the library *)
Section Instance.
Variable sys : sysdyn.
Hypothesis states : sd_n sys <> 0.
Hypothesis Uset_width : sd_Uw sys = sd_m sys \/ sd_Uw sys = sd_m sys + sd_n sys.
Hypothesis disturbances : (forall k j, k < sd_n sys -> j < sd_p sys -> sd_E sys k j = 0%Qc) \/ (sd_Wfull sys = true /\ sd_Wext sys <> []).
Definition fm_fixed := fixed_horizon (fm_union (sd_n sys)) idp (fm_fulldim (sd_n sys)) vol0 fm_proj sys.
Definition fm_attractor := underapproximate_attractor (fm_union (sd_n sys)) idp (fm_fulldim (sd_n sys)) vol0 fm_proj sys.
Definition fm_bounded := bounded_horizon (fm_union (sd_n sys)) idp (fm_fulldim (sd_n sys)) vol0 fm_proj sys.
Definition fm_open := solve_open_loop (fm_union (sd_n sys)) idp vol0 fm_proj sys.
Definition fm_feasible := is_feasible (fm_union (sd_n sys)) idp (fm_fulldim (sd_n sys)) vol0 fm_proj (fm_subset (sd_n sys)) sys.
Theorem fm_fixed_exact P1 P2 N t r : fm_fixed (Pol P1) (Pol P2) N (option_map Pol t) = Ok r ->
  r = Pol no_points \/
  forall x, in_set (sd_n sys) r x <->
    inside (sd_n sys) P1 x /\ forced sys (inside (sd_n sys) (match t with None => P1 | Some q => q end)) (inside (sd_n sys) P2) N x.
Proof.
  apply fixed_horizon_exact; auto.
  - intros. apply fm_union_spec.
  - intros. apply idp_spec.
  - intros. apply fm_proj_spec. auto.
  - intro p. exists p. reflexivity.
  - intros w P. eexists. reflexivity.
  - intro p. apply fm_union_pol.
Qed.
Theorem fm_feasible_sound from_region to_region N t : fm_feasible from_region to_region N true false t = Ok true ->
  forall x, in_set (sd_n sys) from_region x -> forced sys (in_set (sd_n sys) (mid_set from_region t)) (in_set (sd_n sys) to_region) N x.
Proof.
  apply is_feasible_fixed; auto.
  - intros. apply fm_union_spec.
  - intros. apply idp_spec.
  - intros. apply fm_proj_spec. auto.
  - apply fm_subset_spec.
Qed.
End Instance.

(** From [0, 2] through [-4, 4] to [3, 6] in two steps: the closed loop finds [1, 2], the open loop
    nothing. *)
Definition in_setb (w : nat) (r : res pset) (x : vec) : bool := match r with Ok s => existsb (fun p => insideb w p x) (parts s) | Err _ => false end.
Definition pt (a b : Z) : vec := fun _ => (q a / q b)%Qc.
Example closed_loop_case :
  let r := fm_fixed ex_sys (Pol (seg 0 2)) (Pol (seg 3 6)) 2 (Some (Pol (seg (-4) 4))) in
  map (fun x => in_setb 1 r x) [pt 0 1; pt 9 10; pt 1 1; pt 3 2; pt 2 1; pt 5 2] = [false; false; true; true; true; false] /\
  let r := fm_open ex_sys (Pol (seg 0 2)) (Pol (seg 3 6)) 2 (Some (Pol (seg (-4) 4))) 5 in
  map (fun x => in_setb 1 r x) [pt 0 1; pt 1 1; pt 3 2; pt 2 1] = [false; false; false; false] /\
  let r := fm_attractor ex_sys (Pol (seg 0 2)) (Pol (seg 3 6)) 3 (Some (Pol (seg (-4) 4))) in
  map (fun x => in_setb 1 r x) [pt 0 1; pt 1 1; pt 3 2; pt 2 1] = [true; true; true; true] /\
  fm_feasible ex_sys (Pol (seg 1 2)) (Pol (seg 3 6)) 2 true false (Some (Pol (seg (-4) 4))) = Ok true.
Proof. vm_compute. auto. Qed.

(** Exactness fails for thin sets: from 1 the target [2, 4] can be reached in one step, but the set of
    such states is a point, and the result is empty. *)
Theorem fixed_horizon_exact_refuted : exists sys P1 P2 N t r x,
  sd_n sys <> 0 /\ sd_Uw sys = sd_m sys /\ sd_Wfull sys = true /\ sd_Wext sys <> [] /\
  fm_fixed sys (Pol P1) (Pol P2) N (Some (Pol t)) = Ok r /\ ~ in_set (sd_n sys) r x /\
  inside (sd_n sys) P1 x /\ forced sys (inside (sd_n sys) t) (inside (sd_n sys) P2) N x.
Proof.
  exists ex_sys, (seg 0 1), (seg 2 4), 1, (seg (-4) 4), (Pol no_points), (vl [1; 2]%Z).
  split; [discriminate|]. split; [reflexivity|]. split; [reflexivity|]. split; [discriminate|].
  split; [vm_compute; reflexivity|]. split; [apply no_points_empty|]. split; [apply insideb_spec; vm_compute; reflexivity|].
  assert (C : createLM_poly ex_sys 1 (seg 0 1) (seg 0 1) (seg 2 4) = Ok (ok_poly (createLM_poly ex_sys 1 (seg 0 1) (seg 0 1) (seg 2 4)))).
  { apply ok_poly_spec. vm_compute. reflexivity. }
  assert (I : inside (sd_n ex_sys + 1 * sd_m ex_sys) (ok_poly (createLM_poly ex_sys 1 (seg 0 1) (seg 0 1) (seg 2 4))) (vl [1; 2]%Z)).
  { apply insideb_spec. vm_compute. reflexivity. }
  revert C I. generalize (ok_poly (createLM_poly ex_sys 1 (seg 0 1) (seg 0 1) (seg 2 4))). intros L C I.
  assert (H1 : sd_n ex_sys <> 0) by discriminate.
  assert (H2 : sd_Uw ex_sys = sd_m ex_sys \/ sd_Uw ex_sys = sd_m ex_sys + sd_n ex_sys) by (left; reflexivity).
  assert (H3 : (forall k j, k < sd_n ex_sys -> j < sd_p ex_sys -> sd_E ex_sys k j = 0%Qc) \/ (sd_Wfull ex_sys = true /\ sd_Wext ex_sys <> [])) by (right; split; [reflexivity|discriminate]).
  destruct (proj1 (createLM_step_exact ex_sys (seg 0 1) (seg 0 1) (seg 2 4) L (vl [1; 2]%Z) H1 H2 H3 C) I) as (_ & I2 & I3). clear C I.
  cbn [forced]. exists (inputs ex_sys (vl [1; 2]%Z) 0). split; [exact I2|]. intros d D. split; [congruence|]. apply I3. exact D.
Qed.
(** [_solve_closed_loop_bounded_horizon] returns states outside [P1]: from [0, 1] through [-4, 4] to
    [2, 8], the state 4. *)
Theorem bounded_horizon_refuted : exists sys P1 P2 N t r x,
  sd_n sys <> 0 /\ sd_Uw sys = sd_m sys /\ sd_Wfull sys = true /\ sd_Wext sys <> [] /\
  fm_bounded sys (Pol P1) (Pol P2) N (Some (Pol t)) = Ok r /\ in_set (sd_n sys) r x /\ ~ inside (sd_n sys) P1 x.
Proof.
  exists ex_sys, (seg 0 1), (seg 2 8), 2, (seg (-4) 4).
  destruct (fm_bounded ex_sys (Pol (seg 0 1)) (Pol (seg 2 8)) 2 (Some (Pol (seg (-4) 4)))) as [r|e] eqn:E.
  2: { exfalso. assert (B : match fm_bounded ex_sys (Pol (seg 0 1)) (Pol (seg 2 8)) 2 (Some (Pol (seg (-4) 4))) with Ok _ => true | Err _ => false end = true) by (vm_compute; reflexivity).
       rewrite E in B. discriminate. }
  exists r, (pt 4 1). split; [discriminate|]. split; [reflexivity|]. split; [reflexivity|]. split; [discriminate|]. split; [reflexivity|]. split.
  - assert (B : in_setb 1 (fm_bounded ex_sys (Pol (seg 0 1)) (Pol (seg 2 8)) 2 (Some (Pol (seg (-4) 4)))) (pt 4 1) = true) by (vm_compute; reflexivity).
    rewrite E in B. cbn [in_setb] in B. apply existsb_exists in B. destruct B as (p & I & B). apply in_parts. exists p. split; [exact I|]. apply insideb_spec. exact B.
  - intro I. apply insideb_spec in I. revert I. vm_compute. discriminate.
Qed.
(** The documentation of [solve_feasible] promises a subset of [trans_set]; the result is a subset of [P1]. *)
Theorem solve_feasible_trans_refuted : exists sys P1 P2 N t r x,
  sd_n sys <> 0 /\ sd_Uw sys = sd_m sys /\ sd_Wfull sys = true /\ sd_Wext sys <> [] /\
  fm_fixed sys (Pol P1) (Pol P2) N (Some (Pol t)) = Ok r /\ in_set (sd_n sys) r x /\ ~ inside (sd_n sys) t x.
Proof.
  exists ex_sys, (seg 0 1), (seg (-5) 5), 1, (seg 3 4).
  destruct (fm_fixed ex_sys (Pol (seg 0 1)) (Pol (seg (-5) 5)) 1 (Some (Pol (seg 3 4)))) as [r|e] eqn:E.
  2: { exfalso. assert (B : match fm_fixed ex_sys (Pol (seg 0 1)) (Pol (seg (-5) 5)) 1 (Some (Pol (seg 3 4))) with Ok _ => true | Err _ => false end = true) by (vm_compute; reflexivity).
       rewrite E in B. discriminate. }
  exists r, (pt 0 1). split; [discriminate|]. split; [reflexivity|]. split; [reflexivity|]. split; [discriminate|]. split; [reflexivity|]. split.
  - assert (B : in_setb 1 (fm_fixed ex_sys (Pol (seg 0 1)) (Pol (seg (-5) 5)) 1 (Some (Pol (seg 3 4)))) (pt 0 1) = true) by (vm_compute; reflexivity).
    rewrite E in B. cbn [in_setb] in B. apply existsb_exists in B. destruct B as (p & I & B). apply in_parts. exists p. split; [exact I|]. apply insideb_spec. exact B.
  - intro I. apply insideb_spec in I. revert I. vm_compute. discriminate.
Qed.

Print Assumptions steered_mono.
Print Assumptions solve_feasible_steers.
Print Assumptions fixed_horizon_sound.
Print Assumptions fixed_horizon_exact.
Print Assumptions attractor_sound.
Print Assumptions bounded_horizon_sound.
Print Assumptions open_loop_sound.
Print Assumptions is_feasible_fixed.
Print Assumptions is_feasible_within.
Print Assumptions fm_fixed_exact.
Print Assumptions fm_feasible_sound.
Print Assumptions fixed_horizon_exact_refuted.
Print Assumptions bounded_horizon_refuted.
Print Assumptions solve_feasible_trans_refuted.
Print Assumptions volumes_largest.
Print Assumptions open_loop_all_horizon.
