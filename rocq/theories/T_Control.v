(** Inputs for discrete transitions: what the computed inputs do to the plant, and what cost they
    minimize (tulip/abstract/find_controller.py). *)
From Coq Require Import List String Bool Arith Lia QArith Qcanon Qcabs.
From Verif Require Import M_Base L_Sum M_Feas S_Feas L_Feas T_Feas M_Horizon L_FM T_Horizon L_LP M_Control L_Control.
Import ListNotations.
Open Scope string_scope.
Open Scope list_scope.
Open Scope nat_scope.

(** ** Specification *)
(** The inputs keep the plant in [P1] and take it to [P3] at time [N], with admissible inputs, under
    the disturbances [d]. *)
Definition steers (sys : sysdyn) (P1 P3 : poly) (N : nat) (x0 : vec) (u d : nat -> vec) : Prop :=
  let x := traj sys x0 u d in
  (forall i, 0 < i < N -> inside (sd_n sys) P1 (x i)) /\ inside (sd_n sys) P3 (x N) /\
  forall i, i < N -> input_ok sys (x i) (u i).
Definition robust (sys : sysdyn) (P1 P3 : poly) (N : nat) (x0 : vec) (u : nat -> vec) : Prop :=
  forall d, (forall t, t < N -> allowed sys (d t)) -> steers sys P1 P3 N x0 u d.
(** The states [x(1) ... x(N)] without disturbances as one row, and the part of them that is due to the
    inputs *)
Definition states_row (sys : sysdyn) (x0 u : vec) : vec :=
  fun q => traj sys x0 (fun k c => u (k * sd_m sys + c)) (fun _ _ => 0%Qc) (S (q / sd_n sys)) (q mod sd_n sys).
Definition due_row (sys : sysdyn) (x0 u : vec) : vec := fun q => (states_row sys x0 u q - states_row sys x0 (fun _ => 0) q)%Qc.
Definition absq (a : Qc) : Qc := if Qclt_le_dec a 0 then (- a)%Qc else a.
Fixpoint maxq (w : nat) (f : nat -> Qc) : Qc := match w with O => 0%Qc | S k => let a := maxq k f in if Qclt_le_dec a (f k) then f k else a end.
Definition rowmul (w : nat) (M : mat) (x : vec) : vec := fun i => sum w (fun j => M i j * x j)%Qc.
(** [|R x| + |Q u| + r'x] for states [x] and inputs [u] over the horizon [N] *)
Section Costs.
Variable n m N : nat.
Variable R Q : mat.
Variable r x u : vec.
Definition linear : Qc := sum (N * n) (fun j => r j * x j)%Qc.
Definition cost1 : Qc := (sum (N * n) (fun i => absq (rowmul (N * n) R x i)) + sum (N * m) (fun i => absq (rowmul (N * m) Q u i)) + linear)%Qc.
Definition costinf : Qc := (maxq (N * n) (fun i => absq (rowmul (N * n) R x i)) + maxq (N * m) (fun i => absq (rowmul (N * m) Q u i)) + linear)%Qc.
Definition cost2 : Qc :=
  (sum (N * n) (fun i => rowmul (N * n) R x i * rowmul (N * n) R x i) + sum (N * m) (fun i => rowmul (N * m) Q u i * rowmul (N * m) Q u i) + linear)%Qc.
End Costs.
Definition qp_sound (qp : nat -> mat -> vec -> poly -> option (vec * Qc)) : Prop :=
  forall w P q G v f, qp w P q G = Some (v, f) ->
    inside w G v /\ f = objective w P q v /\ forall v', inside w G v' -> (objective w P q v <= objective w P q v')%Qc.

(** ** The specification and the lemmas *)
Lemma absq_eq a : absq a = Qcabs a.
Proof.
  unfold absq. destruct (Qclt_le_dec a 0) as [L|L]; symmetry; [apply Qcabs_neg; apply Qclt_le_weak; exact L|apply Qcabs_pos; exact L].
Qed.
Lemma maxq_eq w v : maxq w (fun i => absq (v i)) = norm_inf w v.
Proof. induction w as [|w IH]; cbn [maxq norm_inf]; [reflexivity|]. rewrite IH, absq_eq. reflexivity. Qed.
Lemma due_eq sys N x0 u q : sd_n sys <> 0 -> 1 <= N -> lm_E sys = {| a_rows := sd_n sys; a_cols := sd_p sys; a_at := sd_E sys |} -> q < N * sd_n sys ->
  due_row sys x0 u q = lin (N * sd_m sys) (Ct sys N q) u.
Proof. intros NZ N1 EU Hq. exact (gain_eq sys NZ N x0 u q N1 EU Hq). Qed.
Section Bridge.
Variable sys : sysdyn.
Variable N : nat.
Hypothesis states : sd_n sys <> 0.
Hypothesis N1 : 1 <= N.
Hypothesis EU : lm_E sys = {| a_rows := sd_n sys; a_cols := sd_p sys; a_at := sd_E sys |}.
Lemma RC_eq R x0 u i : rowmul (N * sd_n sys) R (due_row sys x0 u) i = RC sys N R u i.
Proof.
  unfold rowmul, RC, RCt, mat_dot. rewrite lin_row_dot. apply sum_ext. intros j J. rewrite (due_eq sys N x0 u j states N1 EU J). reflexivity.
Qed.
Lemma rC_eq r x0 u : linear (sd_n sys) N r (due_row sys x0 u) = lin (N * sd_m sys) (rCt sys N r) u.
Proof.
  unfold linear, rCt. rewrite lin_row_dot. apply sum_ext. intros j J. rewrite (due_eq sys N x0 u j states N1 EU J). reflexivity.
Qed.
Lemma cost1_eq R Q r x0 u : cost1 (sd_n sys) (sd_m sys) N R Q r (due_row sys x0 u) u = cost_one sys N R Q r u.
Proof.
  unfold cost1, cost_one, norm1. rewrite rC_eq. f_equal. f_equal; apply sum_ext; intros i _; rewrite absq_eq; [rewrite RC_eq|]; reflexivity.
Qed.
Lemma costinf_eq R Q r x0 u : costinf (sd_n sys) (sd_m sys) N R Q r (due_row sys x0 u) u = cost_inf sys N R Q r u.
Proof.
  unfold costinf, cost_inf. rewrite rC_eq. f_equal. f_equal.
  - rewrite maxq_eq. apply norm_inf_ext. intros i _. apply RC_eq.
  - rewrite maxq_eq. reflexivity.
Qed.
Lemma cost2_eq R Q r x0 u : cost2 (sd_n sys) (sd_m sys) N R Q r (states_row sys x0 u) u = cost_two sys N R Q r x0 u.
Proof. reflexivity. Qed.
End Bridge.

(** ** The helper *)
Section Control.
Variable union : pset -> pset -> pset.
Variable reduce : pset -> pset.
Variable fulldim : pset -> bool.
Variable volume : poly -> Qc.
Variable project : nat -> nat -> poly -> pset.
Variable lpsolve : nat -> vec -> poly -> option (vec * Qc).
Variable qp : nat -> mat -> vec -> poly -> option (vec * Qc).
Variable center : poly -> vec.
Variable qhull : list poly -> poly.
Variable sys : sysdyn.
Notation n := (sd_n sys).
Notation m := (sd_m sys).
Notation get_input_helper := (get_input_helper union reduce fulldim volume project lpsolve qp sys).
Notation constraints := (constraints union reduce fulldim volume project sys).
Notation try_targets := (try_targets union reduce fulldim volume project lpsolve qp center sys).
Notation get_input := (get_input union reduce fulldim volume project lpsolve qp center qhull sys).

(** What is assumed of the polytope library and of the solvers *)
Hypothesis union_spec : forall a b x, in_set n (union a b) x <-> in_set n a x \/ in_set n b x.
Hypothesis reduce_spec : forall w s x, in_set w (reduce s) x <-> in_set w s x.
Hypothesis project_spec : forall w P x, n <= w -> (in_set n (project n w P) x <-> exists y, (forall j, j < n -> y j = x j) /\ inside w P y).
Hypothesis lp_spec : lp_sound lpsolve.
Hypothesis qp_spec : qp_sound qp.
(** The system has states and inputs. *)
Hypothesis states : n <> 0.
Hypothesis controls : m <> 0.

(** The inputs that satisfy the constraints of the programs *)
Definition admitted (x0 : vec) (P1 P3 : poly) (N : nat) (closed_loop : bool) (u : vec) : Prop :=
  exists L, constraints P1 P3 N closed_loop = Ok L /\ inside (N * m) (input_rows sys x0 P1 L) u.
(** The cost that the programs minimize: the states enter with their part due to the inputs only,
    except in the quadratic program *)
Definition program_cost (ord : norm) (N : nat) (R Q : mat) (r x0 u : vec) : Qc :=
  match ord with
  | One => cost1 n m N R Q r (due_row sys x0 u) u
  | Inf => costinf n m N R Q r (due_row sys x0 u) u
  | _ => cost2 n m N R Q r (states_row sys x0 u) u
  end.
Lemma helper_minimal x0 P1 P3 N R r Q ord closed_loop given u f : 1 <= N -> lm_E sys = {| a_rows := n; a_cols := sd_p sys; a_at := sd_E sys |} ->
  get_input_helper x0 P1 P3 N R r Q ord closed_loop given = Ok (u, f) ->
  admitted x0 P1 P3 N closed_loop u /\
  (forall v, admitted x0 P1 P3 N closed_loop v -> (program_cost ord N R Q r x0 u <= program_cost ord N R Q r x0 v)%Qc) /\
  match ord with
  | One | Inf => f = program_cost ord N R Q r x0 u
  | _ => (f + f + program_cost ord N R (fun _ _ => 0) r x0 (fun _ => 0) = program_cost ord N R Q r x0 u)%Qc
  end.
Proof.
  intros N1 EU H. unfold M_Control.get_input_helper in H. destruct (constraints P1 P3 N closed_loop) as [L|e] eqn:C; [|discriminate]. cbn [bind] in H.
  set (rows := input_rows sys x0 P1 L) in *.
  assert (AD : forall v, admitted x0 P1 P3 N closed_loop v <-> inside (N * m) rows v).
  { intro v. unfold admitted. rewrite C. split; [intros (L' & E & I); injection E as <-; exact I|intro I; exists L; auto]. }
  destruct ord; cbn [program_cost] in *.
  - fold (w_one sys N) in H. destruct (lpsolve (w_one sys N) (c_one sys N r) (G_one sys N R Q rows)) as [(v & g)|] eqn:E; [|discriminate]. injection H as <- <-.
    destruct (lp_spec _ _ _ _ _ E) as (I & F & MIN). set (u := last_u sys (w_one sys N) N v) in *.
    assert (IU : inside (N * m) rows u) by (apply G_one_iff in I; tauto).
    assert (EQ : g = cost_one sys N R Q r u).
    { rewrite F. apply Qcle_antisym.
      - destruct (eps_one_ok sys N R Q r rows u IU) as [I' F']. rewrite <- F'. apply MIN. exact I'.
      - apply (one_cost_le _ _ _ _ _ rows). exact I. }
    split; [apply AD; exact IU|]. rewrite (cost1_eq sys N states N1 EU). split; [|exact EQ]. intros u' A. apply AD in A. rewrite (cost1_eq sys N states N1 EU), <- EQ, F.
    destruct (eps_one_ok sys N R Q r rows u' A) as [I' F']. rewrite <- F'. apply MIN. exact I'.
  - destruct given; [discriminate|]. destruct (qp (N * m) (P_two sys N R Q) (q_two sys N R r x0) rows) as [(v & g)|] eqn:E; [|discriminate]. injection H as <- <-.
    destruct (qp_spec _ _ _ _ _ _ E) as (I & F & MIN). split; [apply AD; exact I|]. rewrite (cost2_eq sys N R Q r x0 v).
    assert (OB := objective_eq sys N R Q r states N1 EU x0). cbn zeta in OB. split.
    + intros u' A. apply AD in A. rewrite cost2_eq. specialize (MIN u' A). assert (O1 := OB v). assert (O2 := OB u').
      set (K := (norm2 (N * n) (fun i => lin (N * n) (R i) (path sys x0 zeros)) + lin (N * n) r (path sys x0 zeros))%Qc) in *.
      replace (cost_two sys N R Q r x0 v) with (cost_two sys N R Q r x0 v - K + K)%Qc by ring. rewrite <- O1.
      replace (cost_two sys N R Q r x0 u') with (cost_two sys N R Q r x0 u' - K + K)%Qc by ring. rewrite <- O2.
      apply Qcplus_le_compat; [|apply Qcle_refl]. apply Qcplus_le_compat; exact MIN.
    + rewrite F. rewrite (OB v). unfold cost2, linear, rowmul.
      assert (Z : sum (N * m) (fun _ => (sum (N * m) (fun _ => 0 * 0) * sum (N * m) (fun _ => 0 * 0))%Qc) = 0%Qc).
      { apply sum_zero. intros. rewrite sum_zero by (intros; ring). ring. }
      rewrite Z. unfold norm2, lin, path, states_row, zeros, u_rows. ring.
  - change (2 + N * m) with (w_inf sys N) in H. destruct (lpsolve (w_inf sys N) (c_inf sys N r) (G_inf sys N R Q rows)) as [(v & g)|] eqn:E; [|discriminate]. injection H as <- <-.
    destruct (lp_spec _ _ _ _ _ E) as (I & F & MIN). set (u := last_u sys (w_inf sys N) N v) in *.
    assert (IU : inside (N * m) rows u) by (apply G_inf_iff in I; tauto).
    assert (EQ : g = cost_inf sys N R Q r u).
    { rewrite F. apply Qcle_antisym.
      - destruct (eps_inf_ok sys N R Q r rows u IU) as [I' F']. rewrite <- F'. apply MIN. exact I'.
      - apply (inf_cost_le _ _ _ _ _ rows); [nia|nia|exact I]. }
    split; [apply AD; exact IU|]. rewrite (costinf_eq sys N states N1 EU). split; [|exact EQ]. intros u' A. apply AD in A. rewrite (costinf_eq sys N states N1 EU), <- EQ, F.
    destruct (eps_inf_ok sys N R Q r rows u' A) as [I' F']. rewrite <- F'. apply MIN. exact I'.
  - discriminate.
Qed.

(** ** Open loop *)
Definition open_sets (P1 P3 : poly) (N : nat) : list poly := P1 :: repeat P1 (N - 1) ++ [P3].
Lemma open_admitted x0 P1 P3 N L u : 1 <= N -> plant_ok sys N (open_sets P1 P3 N) None -> constraints P1 P3 N false = Ok L ->
  (inside (N * m) (input_rows sys x0 P1 L) u <-> robust sys P1 P3 N x0 (u_rows sys u)).
Proof.
  intros N1 PO C. unfold M_Control.constraints in C.
  rewrite (rows_iff sys states N P1 (repeat P1 (N - 1) ++ [P3]) None L x0 u N1 PO I C).
  assert (AT : forall i d, i <= N -> i <> 0 -> at_times N None i d = d).
  { intros i d Hi Hz. unfold at_times. replace ((1 <=? i) && (i <=? N))%bool with true; [reflexivity|]. symmetry. apply andb_true_iff. split; apply Nat.leb_le; lia. }
  assert (NM : forall i, i < N - 1 -> nth i (repeat P1 (N - 1) ++ [P3]) [] = P1).
  { intros i Hi. rewrite app_nth1 by (rewrite repeat_length; exact Hi). rewrite (nth_indep _ [] P1) by (rewrite repeat_length; exact Hi). apply nth_repeat. }
  assert (NL : nth (N - 1) (repeat P1 (N - 1) ++ [P3]) [] = P3).
  { rewrite app_nth2 by (rewrite repeat_length; lia). rewrite repeat_length, Nat.sub_diag. reflexivity. }
  unfold robust, steers. split; intros H d D; specialize (H d D); cbn zeta in *.
  - destruct H as [H1 H2]. split; [|split].
    + intros i Hi. specialize (H1 (i - 1) ltac:(lia)). rewrite NM in H1 by lia. replace (S (i - 1)) with i in H1 by lia. rewrite AT in H1 by lia. exact H1.
    + specialize (H1 (N - 1) ltac:(lia)). rewrite NL in H1. replace (S (N - 1)) with N in H1 by lia. rewrite AT in H1 by lia. exact H1.
    + intros i Hi. specialize (H2 i Hi). destruct i as [|i]; [exact H2|]. rewrite AT in H2 by lia. exact H2.
  - destruct H as (H1 & H2 & H3). split.
    + intros i Hi. rewrite AT by lia. destruct (Nat.eq_dec i (N - 1)) as [->|].
      * rewrite NL. replace (S (N - 1)) with N by lia. exact H2.
      * rewrite NM by lia. apply H1. lia.
    + intros i Hi. destruct i as [|i]; [apply H3; exact Hi|]. rewrite AT by lia. apply H3. exact Hi.
Qed.
(** The inputs steer the plant to the target whatever the disturbances, no such inputs have a lower
    cost, and the cost is returned. *)
Theorem helper_open_sound x0 P1 P3 N R r Q ord given u f : 1 <= N -> plant_ok sys N (open_sets P1 P3 N) None ->
  get_input_helper x0 P1 P3 N R r Q ord false given = Ok (u, f) ->
  robust sys P1 P3 N x0 (u_rows sys u) /\
  (forall v, robust sys P1 P3 N x0 (u_rows sys v) -> (program_cost ord N R Q r x0 u <= program_cost ord N R Q r x0 v)%Qc) /\
  match ord with
  | One | Inf => f = program_cost ord N R Q r x0 u
  | _ => (f + f + program_cost ord N R (fun _ _ => 0) r x0 (fun _ => 0) = program_cost ord N R Q r x0 u)%Qc
  end.
Proof.
  intros N1 PO H. destruct (helper_minimal x0 P1 P3 N R r Q ord false given u f N1 (plant_used sys N _ None PO) H) as ((L & C & I) & M & F).
  split; [apply (open_admitted x0 P1 P3 N L u N1 PO C); exact I|]. split; [|exact F]. intros v V. apply M. exists L. split; [exact C|].
  apply (open_admitted x0 P1 P3 N L v N1 PO C). exact V.
Qed.
(** The solver finds no inputs only if there are none, or the cost has no lower bound. *)
Lemma helper_none x0 P1 P3 N R r Q ord closed_loop given : lp_complete lpsolve -> 1 <= N ->
  lm_E sys = {| a_rows := n; a_cols := sd_p sys; a_at := sd_E sys |} ->
  get_input_helper x0 P1 P3 N R r Q ord closed_loop given = Err "_InputHelperLPException" ->
  (exists L, constraints P1 P3 N closed_loop = Ok L) -> ord = One \/ ord = Inf ->
  (forall u, ~ admitted x0 P1 P3 N closed_loop u) \/
  (forall b, exists u, admitted x0 P1 P3 N closed_loop u /\ (program_cost ord N R Q r x0 u < b)%Qc).
Proof.
  intros LC N1 EU H (L & C) O. unfold M_Control.get_input_helper in H. rewrite C in H. cbn [bind] in H. set (rows := input_rows sys x0 P1 L) in *.
  assert (AD : forall v, admitted x0 P1 P3 N closed_loop v <-> inside (N * m) rows v).
  { intro v. unfold admitted. rewrite C. split; [intros (L' & E & I); injection E as <-; exact I|intro I; exists L; auto]. }
  destruct O as [-> | ->]; cbn [program_cost].
  - fold (w_one sys N) in H. destruct (lpsolve (w_one sys N) (c_one sys N r) (G_one sys N R Q rows)) as [(v & g)|] eqn:E; [discriminate|].
    destruct (LC _ _ _ E) as [X|X]; [left|right].
    + intros u A. apply AD in A. apply (X (eps_one sys N R Q u)). apply (eps_one_ok sys N R Q r rows u A).
    + intro b. destruct (X b) as (v & I & B). exists (last_u sys (w_one sys N) N v). split; [apply AD; apply G_one_iff in I; tauto|].
      rewrite (cost1_eq sys N states N1 EU). apply Qcle_lt_trans with (lin (w_one sys N) (c_one sys N r) v); [apply (one_cost_le _ _ _ _ _ rows); exact I|exact B].
  - change (2 + N * m) with (w_inf sys N) in H. destruct (lpsolve (w_inf sys N) (c_inf sys N r) (G_inf sys N R Q rows)) as [(v & g)|] eqn:E; [discriminate|].
    destruct (LC _ _ _ E) as [X|X]; [left|right].
    + intros u A. apply AD in A. apply (X (eps_inf sys N R Q u)). apply (eps_inf_ok sys N R Q r rows u A).
    + intro b. destruct (X b) as (v & I & B). exists (last_u sys (w_inf sys N) N v). split; [apply AD; apply G_inf_iff in I; tauto|].
      rewrite (costinf_eq sys N states N1 EU). apply Qcle_lt_trans with (lin (w_inf sys N) (c_inf sys N r) v); [apply (inf_cost_le _ _ _ _ _ rows); [nia|nia|exact I]|exact B].
Qed.
Theorem helper_open_complete x0 P1 P3 N R r Q ord given : lp_complete lpsolve -> 1 <= N -> plant_ok sys N (open_sets P1 P3 N) None ->
  ord = One \/ ord = Inf -> (exists L, constraints P1 P3 N false = Ok L) ->
  (exists u, robust sys P1 P3 N x0 (u_rows sys u)) ->
  (exists b, forall u, robust sys P1 P3 N x0 (u_rows sys u) -> (b <= program_cost ord N R Q r x0 u)%Qc) ->
  exists u f, get_input_helper x0 P1 P3 N R r Q ord false given = Ok (u, f).
Proof.
  intros LC N1 PO O (L & C) (u & U) (b & B).
  assert (AD : forall v, admitted x0 P1 P3 N false v <-> robust sys P1 P3 N x0 (u_rows sys v)).
  { intro v. rewrite <- (open_admitted x0 P1 P3 N L v N1 PO C). unfold admitted. rewrite C.
    split; [intros (L' & E & I); injection E as <-; exact I|intro I; exists L; auto]. }
  destruct (get_input_helper x0 P1 P3 N R r Q ord false given) as [(v & f)|e] eqn:H; [exists v, f; reflexivity|]. exfalso.
  assert (EE : e = "_InputHelperLPException").
  { unfold M_Control.get_input_helper in H. rewrite C in H. cbn [bind] in H. destruct O as [-> | ->].
    - destruct (lpsolve _ _ _) as [(v & f)|]; [discriminate|]. congruence.
    - destruct (lpsolve _ _ _) as [(v & f)|]; [discriminate|]. congruence. }
  rewrite EE in H. destruct (helper_none _ _ _ _ _ _ _ _ _ _ LC N1 (plant_used sys N _ None PO) H (ex_intro _ L C) O) as [X|X].
  - apply (X u). apply AD. exact U.
  - destruct (X b) as (v & A & LT). apply AD in A. apply (Qclt_not_le _ _ LT). apply B. exact A.
Qed.

(** ** Closed loop *)
Hypothesis Uset_width : sd_Uw sys = m \/ sd_Uw sys = m + n.
Hypothesis disturbances : E_zero sys \/ (sd_Wfull sys = true /\ sd_Wext sys <> []).
Lemma all_used : lm_E sys = {| a_rows := n; a_cols := sd_p sys; a_at := sd_E sys |}.
Proof. destruct disturbances as [H|[H _]]; [apply zero_used; exact H|apply full_used; exact H]. Qed.
(** The constraints on the first step hold for all disturbances, even if the others are not tightened *)
Lemma first_step N P0 Ps L z : 1 <= N -> createLM sys N (P0 :: Ps) (Some [1]) = Ok L -> inside (n + N * m) L z ->
  input_ok sys z (inputs sys z 0) /\ forall d, allowed sys d -> inside n (nth 0 Ps []) (step sys z (inputs sys z 0) d).
Proof.
  intros N1 C I. destruct (E_dec sys states Uset_width) as [E0|NZ].
  - assert (PO : plant_ok sys N (P0 :: Ps) (Some [1])) by (split; [tauto|left; exact E0]).
    destruct (proj1 (lm_iff sys states N _ _ L z N1 PO C) I (fun _ _ => 0%Qc)) as [H1 H2].
    { intros t _ (k & j & K & J & NE). destruct NE. apply E0; auto. }
    split; [exact (H2 0 ltac:(lia))|]. intros d _. apply (inside_ext n _ (step sys z (inputs sys z 0) (fun _ => 0%Qc))); [|exact (H1 1 N1)].
    intros k K. unfold step. rewrite !(lin_E_zero sys k _ E0 K). reflexivity.
  - assert (NE0 : ~ E_zero sys) by (intro E0; destruct NZ as (k & j & K & J & NE); apply NE; apply E0; auto).
    destruct disturbances as [E0|[WF NE]]; [contradiction|]. clear NE0.
    apply createLM_unfold in C. destruct C as [_ C].
    set (dist := fun i => existsb (Nat.eqb i) [1]) in *. set (P := fun i => nth i (P0 :: Ps) []) in *.
    change (createLM_on sys N P dist = Ok L) in C.
    assert (IP := proj1 (inside_pairs sys N P dist all_used L z C) I). clear C I. split.
    + assert (Q : forall h, In h (sd_U sys) -> forall d, hull_seq (sd_p sys) (sd_Wext sys) N d ->
        if (sd_Uw sys =? m)%nat then (lin m (h_a h) (inputs sys z 0) <= h_b h)%Qc
        else (lin (m + n) (h_a h) (joint sys (traj sys z (inputs sys z) (heed dist 0 d) 0) (inputs sys z 0)) <= h_b h)%Qc).
      { intros h Ih d D. apply (u_pair_iff sys N dist N1 all_used 0 h z d ltac:(lia) Uset_width (fun _ => states)).
        match goal with |- (_ + lin _ ?g _ <= _)%Qc => set (gg := g) end.
        assert (GZ : forall v, lin (sd_p sys * N) gg v = 0%Qc) by (intro v; unfold gg; cbn [dist existsb Nat.eqb orb andb]; apply lin_zero).
        refine (proj1 (row_iff sys N P dist N1 (u_row sys N (An sys 0) (Ak sys 0) 0 h) gg _ NE (fun _ => GZ)) _ d D).
        apply IP. apply (in_pairs sys N P dist N1). right. exists 0, h. split; [lia|]. auto. }
      assert (DH : exists d, hull_seq (sd_p sys) (sd_Wext sys) N d).
      { exists (fun _ => nth 0 (sd_Wext sys) (fun _ => 0%Qc)). intros t _. apply vertex_hull. destruct (sd_Wext sys); [congruence|cbn; lia]. }
      destruct DH as (d & D). unfold input_ok. destruct (sd_Uw sys =? m)%nat; intros h Ih; exact (Q h Ih d D).
    + intros d D. specialize (D NZ). intros h Ih.
      assert (D' : hull_seq (sd_p sys) (sd_Wext sys) N (fun _ => d)) by (intros t _; exact D).
      change (step sys z (inputs sys z 0) d) with (traj sys z (inputs sys z) (heed dist 1 (fun _ => d)) 1).
      apply (k_pair_iff sys N dist N1 all_used 1 h z (fun _ => d) N1). cbn [dist existsb Nat.eqb orb].
      refine (proj1 (row_iff sys N P dist N1 (k_row sys N (An sys 1) (Ak sys 1) h) (g_row sys N (Ak sys 1) h) _ NE _) _ (fun _ => d) D').
      * intro FL. apply (vec_zero_spec N N1). unfold flat in FL. rewrite forallb_forall in FL. apply FL. apply in_map_iff.
        exists (k_row sys N (An sys 1) (Ak sys 1) h, g_row sys N (Ak sys 1) h). split; [reflexivity|]. apply in_flat_map. exists 1. split; [apply in_seq; lia|].
        unfold kpairs. apply in_map_iff. exists h. split; [reflexivity|]. exact Ih.
      * apply IP. apply (in_pairs sys N P dist N1). left. exists 1, h. repeat split; auto.
Qed.

(** The sets of the closed loop *)
Definition to_go (P1 P3 : poly) (k : nat) (x : vec) : Prop := (k <> 0 -> inside n P1 x) /\ forced sys (inside n P1) (inside n P3) k x.
Definition good (P1 P3 : poly) (l : list pset) : Prop := forall i, i < List.length l -> forall x, in_set n (nth i l (Reg [])) x <-> to_go P1 P3 (List.length l - 1 - i) x.
Lemma pre_sets_app k P1 : forall t acc l, pre_sets union reduce fulldim volume project sys k P1 t acc = Ok l -> exists front, l = front ++ acc /\ List.length front = k.
Proof.
  induction k as [|k IH]; intros t acc l H; cbn [pre_sets] in H; [injection H as <-; exists []; auto|].
  destruct (solve_feasible union reduce fulldim volume project sys P1 t 1 false false (Some P1) 5) as [s|e]; [|discriminate]. cbn [bind] in H.
  destruct (IH _ _ _ H) as (front & -> & LF). exists (front ++ [s]). rewrite <- app_assoc, app_length, LF. cbn. split; [reflexivity|lia].
Qed.
Lemma pre_sets_good P1 P3 k : forall t acc l, pre_sets union reduce fulldim volume project sys k (Pol P1) t (t :: acc) = Ok l ->
  (forall s, In s l -> exists p, s = Pol p) -> good P1 P3 (t :: acc) -> good P1 P3 l.
Proof.
  induction k as [|k IH]; intros t acc l H AP G; cbn [pre_sets] in H; [injection H as <-; exact G|].
  destruct (solve_feasible union reduce fulldim volume project sys (Pol P1) t 1 false false (Some (Pol P1)) 5) as [s|e] eqn:E; [|discriminate]. cbn [bind] in H.
  assert (TP : exists p, t = Pol p).
  { apply AP. destruct (pre_sets_app _ _ _ _ _ H) as (front & -> & _). apply in_app_iff. right. right. left. reflexivity. }
  destruct TP as (p & ->). apply (IH s (Pol p :: acc) l H AP). clear IH H AP. cbn [solve_feasible] in E.
  assert (ST := solve_step_exact union reduce volume project sys union_spec reduce_spec project_spec states Uset_width disturbances P1 p (Some (Pol P1)) 5 s E).
  intros i Hi x. destruct i as [|i].
  - cbn [nth]. rewrite ST. cbn [List.length] in *. replace (S (S (List.length acc)) - 1 - 0) with (S (List.length acc)) by lia. unfold pre, to_go. cbn [forced].
    assert (G0 : forall y, inside n p y <-> to_go P1 P3 (List.length acc) y).
    { intro y. assert (Q := G 0 ltac:(cbn; lia) y). cbn [nth in_set List.length] in Q. replace (S (List.length acc) - 1 - 0) with (List.length acc) in Q by lia. exact Q. }
    split.
    + intros (A & u & B & CC). split; [auto|]. exists u. split; [exact B|]. intros d D. specialize (CC d D). apply G0 in CC. exact CC.
    + intros (A & u & B & CC). split; [apply A; lia|]. exists u. split; [exact B|]. intros d D. apply G0. exact (CC d D).
  - cbn [nth List.length] in *. replace (S (S (List.length acc)) - 1 - S i) with (S (List.length acc) - 1 - i) by lia. apply (G i). cbn. lia.
Qed.
Lemma as_polys_map l lp : as_polys l = Ok lp -> l = map Pol lp.
Proof.
  revert lp. induction l as [|s l IH]; intros lp H; cbn [as_polys] in H; [injection H as <-; reflexivity|]. destruct s; [|discriminate].
  destruct (as_polys l) as [r|e]; [|discriminate]. cbn [bind] in H. injection H as <-. cbn [map]. rewrite (IH r eq_refl). reflexivity.
Qed.
Lemma closed_sets P1 P3 N L : 1 <= N -> constraints P1 P3 N true = Ok L ->
  exists Ts, List.length Ts = N /\ createLM sys N (P1 :: Ts) (Some [1]) = Ok L /\
    forall i, i < N -> forall x, inside n (nth i Ts []) x <-> to_go P1 P3 (N - 1 - i) x.
Proof.
  intros N1 H. unfold M_Control.constraints in H.
  destruct (pre_sets union reduce fulldim volume project sys (N - 1) (Pol P1) (Pol P3) [Pol P3]) as [l|e] eqn:E; [|discriminate]. cbn [bind] in H.
  cbn [as_polys] in H. destruct (as_polys l) as [Ts|e] eqn:A; [|discriminate]. cbn [bind] in H. apply as_polys_map in A.
  destruct (pre_sets_app _ _ _ _ _ E) as (front & EL & LF).
  assert (LL : List.length l = N) by (rewrite EL, app_length; cbn; lia).
  assert (LT : List.length Ts = N) by (rewrite <- LL, A, map_length; reflexivity).
  exists Ts. split; [exact LT|]. split; [exact H|]. intros i Hi x.
  assert (G : good P1 P3 l).
  { apply (pre_sets_good P1 P3 (N - 1) (Pol P3) [] l E).
    - intros s Hs. rewrite A in Hs. apply in_map_iff in Hs. destruct Hs as (p & <- & _). exists p. reflexivity.
    - intros j Hj y. cbn in Hj. replace j with 0 by lia. cbn. unfold to_go. cbn [forced]. intuition congruence. }
  specialize (G i ltac:(lia) x). rewrite LL in G. rewrite <- G. rewrite A. rewrite (nth_indep _ (Reg []) (Pol [])) by (rewrite map_length; lia).
  rewrite map_nth. reflexivity.
Qed.
(** The first input is admissible, and whatever the disturbance, the target can be reached in the
    remaining steps from the next state, which is in [P1] if steps remain. *)
Theorem helper_closed_sound x0 P1 P3 N R r Q ord given u f : 1 <= N ->
  get_input_helper x0 P1 P3 N R r Q ord true given = Ok (u, f) ->
  input_ok sys x0 (u_rows sys u 0) /\
  forall d, allowed sys d -> let x1 := step sys x0 (u_rows sys u 0) d in
    (N <> 1 -> inside n P1 x1) /\ forced sys (inside n P1) (inside n P3) (N - 1) x1.
Proof.
  intros N1 H. destruct (helper_minimal x0 P1 P3 N R r Q ord true given u f N1 all_used H) as ((L & C & I) & _ & _).
  destruct (closed_sets P1 P3 N L N1 C) as (Ts & LT & CL & TS). unfold input_rows in I. apply fix_x0_inside in I.
  assert (CL' := drop_first sys N P1 Ts (Some [1]) L all_used eq_refl CL).
  destruct (first_step N [] Ts _ _ N1 CL' I) as [F1 F2]. split.
  - revert F1. apply input_ext; [|apply inputs_hcat]. intros j J. unfold hcat. apply Nat.ltb_lt in J. rewrite J. reflexivity.
  - intros d D. cbn zeta. specialize (F2 d D). apply (TS 0 ltac:(lia)) in F2. replace (N - 1 - 0) with (N - 1) in F2 by lia.
    assert (EX : forall k, step sys (hcat n x0 u) (inputs sys (hcat n x0 u) 0) d k = step sys x0 (u_rows sys u 0) d k).
    { intro k. apply step_ext; [|apply inputs_hcat]. intros j J. unfold hcat. apply Nat.ltb_lt in J. rewrite J. reflexivity. }
    assert (TE : forall k x y, (forall j, x j = y j) -> to_go P1 P3 k x -> to_go P1 P3 k y).
    { intros k x y XY. unfold to_go. intros [A B]. split; [intro K; apply (inside_ext n P1 x y); auto|]. destruct k as [|k]; cbn [forced] in *.
      - apply (inside_ext n P3 x y); auto.
      - destruct B as (v & B1 & B2). exists v. split; [apply (input_ext sys x y v v); auto|]. intros e Ee. destruct (B2 e Ee) as [B3 B4].
        assert (SS : forall k0, step sys x v e k0 = step sys y v e k0) by (intro k0; apply step_ext; auto).
        assert (FE : forall j a b, (forall k0, a k0 = b k0) -> forced sys (inside n P1) (inside n P3) j a -> forced sys (inside n P1) (inside n P3) j b).
        { induction j as [|j IHj]; intros a b AB F; cbn [forced] in *; [apply (inside_ext n P3 a b); auto|].
          destruct F as (w & W1 & W2). exists w. split; [apply (input_ext sys a b w w); auto|]. intros g Hg. destruct (W2 g Hg) as [W3 W4].
          assert (SW : forall k0, step sys a w g k0 = step sys b w g k0) by (intro k0; apply step_ext; auto). split.
          - intro J0. apply (inside_ext n P1 (step sys a w g)); auto.
          - apply (IHj (step sys a w g)); auto. }
        split; [intro K0; apply (inside_ext n P1 (step sys x v e)); auto|apply (FE k (step sys x v e)); auto]. }
    destruct (TE _ _ _ EX F2) as [G1 G2]. split; [intro NE; apply G1; lia|exact G2].
Qed.
(** Inputs that are recomputed at every step with a shorter horizon take the plant to the target,
    through [P1], whatever the disturbances. *)
Fixpoint controlled (P1 P3 : poly) (cost : nat -> mat * vec * mat) (ord : norm) (given : bool) (d : nat -> vec) (k : nat) (x : vec) : res (list vec) :=
  match k with
  | O => Ok []
  | S k' =>
      let '(R, r, Q) := cost k in
      bind (get_input_helper x P1 P3 k R r Q ord true given) (fun '(u, _) =>
      let x' := step sys x (u_rows sys u 0) (d k) in
      bind (controlled P1 P3 cost ord given d k' x') (fun xs => Ok (x' :: xs)))
  end.
Theorem controlled_reaches P1 P3 cost ord given d k : (forall t, allowed sys (d t)) -> forall x xs, 1 <= k ->
  controlled P1 P3 cost ord given d k x = Ok xs ->
  List.length xs = k /\ (forall i y, nth_error xs i = Some y -> if i =? k - 1 then inside n P3 y else inside n P1 y).
Proof.
  intro D. induction k as [|k IH]; intros x xs K H; [lia|]. cbn [controlled] in H. destruct (cost (S k)) as [[R r] Q].
  destruct (get_input_helper x P1 P3 (S k) R r Q ord true given) as [(u & f)|e] eqn:G; [|discriminate]. cbn [bind] in H.
  set (x' := step sys x (u_rows sys u 0) (d (S k))) in *.
  destruct (controlled P1 P3 cost ord given d k x') as [ys|e] eqn:R'; [|discriminate]. cbn [bind] in H. injection H as <-.
  destruct (helper_closed_sound x P1 P3 (S k) R r Q ord given u f ltac:(lia) G) as [_ S1]. specialize (S1 (d (S k)) (D _)). cbn zeta in S1. fold x' in S1.
  destruct S1 as [S1 S2]. destruct k as [|k].
  - cbn [controlled] in R'. injection R' as <-. split; [reflexivity|]. intros i y Hi. destruct i as [|i]; [|destruct i; discriminate]. cbn in Hi. injection Hi as <-. exact S2.
  - destruct (IH x' ys ltac:(lia) R') as [L1 L2]. split; [cbn [List.length]; lia|]. intros i y Hi. destruct i as [|i].
    + cbn in Hi. injection Hi as <-. cbn [Nat.eqb Nat.sub]. apply S1. lia.
    + cbn [nth_error] in Hi. specialize (L2 i y Hi). replace (S i =? S (S k) - 1) with (i =? S k - 1); [exact L2|]. cbn. rewrite Nat.sub_0_r. reflexivity.
Qed.
(** If [Uset] does not constrain states and no disturbance is a possible disturbance, then inputs exist
    wherever the target can be forced. *)
Lemma closed_inputs x0 P1 P3 N L : 1 <= N -> sd_Uw sys = m -> allowed sys (fun _ => 0%Qc) ->
  constraints P1 P3 N true = Ok L -> forced sys (inside n P1) (inside n P3) N x0 -> exists u, inside (N * m) (input_rows sys x0 P1 L) u.
Proof.
  intros N1 UW D0 C F. destruct (closed_sets P1 P3 N L N1 C) as (Ts & LT & CL & TS).
  assert (PO : plant_ok sys N (P1 :: Ts) (Some [1])) by (split; [left; exact UW|exact disturbances]).
  (* a first input, and inputs along the undisturbed states *)
  assert (IU : forall x y v, input_ok sys x v -> input_ok sys y v) by (intros x y v; unfold input_ok; rewrite UW, Nat.eqb_refl; auto).
  assert (NOM : forall j x, forced sys (inside n P1) (inside n P3) j x -> exists w : nat -> vec, (forall i, i < j -> input_ok sys x (w i)) /\
     (forall i, i < j -> to_go P1 P3 (j - 1 - i) (traj sys x w (fun _ _ => 0%Qc) (S i))) /\
     (j <> 0 -> forall d, allowed sys d -> to_go P1 P3 (j - 1) (step sys x (w 0) d))).
  { induction j as [|j IH]; intros x FJ.
    - exists (fun _ _ => 0%Qc). repeat split; intros; lia.
    - cbn [forced] in FJ. destruct FJ as (v & V1 & V2). destruct (V2 _ D0) as [_ FS]. destruct (IH _ FS) as (w & W1 & W2 & _).
      exists (fun i => match i with O => v | S i' => w i' end).
      assert (TR : forall i, traj sys x (fun i => match i with O => v | S i' => w i' end) (fun _ _ => 0%Qc) (S i) = traj sys (step sys x v (fun _ => 0%Qc)) w (fun _ _ => 0%Qc) i).
      { induction i as [|i IHi]; [reflexivity|]. change (step sys (traj sys x (fun i => match i with O => v | S i' => w i' end) (fun _ _ => 0%Qc) (S i)) (w i) (fun _ => 0%Qc) = traj sys (step sys x v (fun _ => 0%Qc)) w (fun _ _ => 0%Qc) (S i)).
        rewrite IHi. reflexivity. }
      split; [|split].
      + intros i Hi. destruct i; [exact V1|]. apply (IU (step sys x v (fun _ => 0%Qc))). apply W1. lia.
      + intros i Hi. rewrite TR. destruct i as [|i].
        * cbn [traj]. replace (S j - 1 - 0) with j by lia. exact (V2 _ D0).
        * replace (S j - 1 - S i) with (j - 1 - i) by lia. apply W2. lia.
      + intros _ d D. replace (S j - 1) with j by lia. exact (V2 d D). }
  destruct (NOM N x0 F) as (w & W1 & W2 & W3).
  exists (fun q => w (q / m) (q mod m)).
  assert (UR : forall i c, c < m -> u_rows sys (fun q => w (q / m) (q mod m)) i c = w i c).
  { intros i c Hc. unfold u_rows. rewrite Nat.add_comm, Nat.mod_add by exact controls. rewrite (Nat.mod_small c m Hc).
    rewrite Nat.div_add by exact controls. rewrite (Nat.div_small c m Hc). reflexivity. }
  set (u := fun q => w (q / m) (q mod m)) in *.
  assert (SE : forall x y i d k, (forall j, j < n -> x j = y j) -> step sys x (u_rows sys u i) d k = step sys y (w i) d k).
  { intros x y i d k XY. unfold step. rewrite (lin_ext n _ x y XY). rewrite (lin_ext m _ (u_rows sys u i) (w i)); [reflexivity|]. intros c Hc. apply UR. exact Hc. }
  assert (TJ : forall d i k, traj sys x0 (u_rows sys u) d i k = traj sys x0 w d i k).
  { intro d. induction i as [|i IHi]; intro k; [reflexivity|]. cbn [traj]. apply SE. auto. }
  apply (rows_iff sys states N P1 Ts (Some [1]) L x0 u N1 PO eq_refl CL). intros d D. split; intros i Hi.
  - apply (inside_ext n _ (traj sys x0 w (at_times N (Some [1]) (S i) d) (S i))); [intros; symmetry; apply TJ|].
    apply TS; [exact Hi|]. unfold at_times. cbn [existsb]. rewrite orb_false_r. destruct (S i =? 1) eqn:E1.
    + apply Nat.eqb_eq in E1. injection E1 as ->. cbn [traj]. replace (N - 1 - 0) with (N - 1) by lia. apply W3; [lia|]. apply D. lia.
    + apply W2. exact Hi.
  - specialize (W1 i Hi). unfold input_ok in *. rewrite UW, Nat.eqb_refl in *. apply (inside_ext m _ (w i)); [|exact W1]. intros c Hc. symmetry. apply UR. exact Hc.
Qed.
Theorem helper_closed_complete x0 P1 P3 N R r Q ord given : lp_complete lpsolve -> 1 <= N -> sd_Uw sys = m -> allowed sys (fun _ => 0%Qc) ->
  ord = One \/ ord = Inf -> (exists L, constraints P1 P3 N true = Ok L) ->
  forced sys (inside n P1) (inside n P3) N x0 ->
  (exists b, forall u, (forall i, i < N -> input_ok sys x0 (u_rows sys u i)) -> (b <= program_cost ord N R Q r x0 u)%Qc) ->
  exists u f, get_input_helper x0 P1 P3 N R r Q ord true given = Ok (u, f).
Proof.
  intros LC N1 UW D0 O (L & C) F (b & B). destruct (closed_inputs x0 P1 P3 N L N1 UW D0 C F) as (u & U).
  destruct (get_input_helper x0 P1 P3 N R r Q ord true given) as [(v & f)|e] eqn:H; [exists v, f; reflexivity|]. exfalso.
  assert (EE : e = "_InputHelperLPException").
  { unfold M_Control.get_input_helper in H. rewrite C in H. cbn [bind] in H. destruct O as [-> | ->].
    - destruct (lpsolve _ _ _) as [(v & f)|]; [discriminate|]. congruence.
    - destruct (lpsolve _ _ _) as [(v & f)|]; [discriminate|]. congruence. }
  rewrite EE in H. destruct (helper_none _ _ _ _ _ _ _ _ _ _ LC N1 all_used H (ex_intro _ L C) O) as [X|X].
  - apply (X u). exists L. auto.
  - destruct (X b) as (v & (L' & C' & A) & LT). apply (Qclt_not_le _ _ LT). apply B. rewrite C in C'. injection C' as <-.
    destruct (closed_sets P1 P3 N L N1 C) as (Ts & LT' & CL & _).
    assert (PO : plant_ok sys N (P1 :: Ts) (Some [1])) by (split; [left; exact UW|exact disturbances]).
    destruct (proj1 (rows_iff sys states N P1 Ts (Some [1]) L x0 v N1 PO eq_refl CL) A (fun _ _ => 0%Qc) (fun _ _ => D0)) as [_ H2].
    intros i Hi. specialize (H2 i Hi). unfold input_ok in *. rewrite UW, Nat.eqb_refl in *. exact H2.
Qed.
(** Then the recomputed inputs exist at every step. *)
Theorem controlled_returns P1 P3 cost ord given d k : lp_complete lpsolve -> sd_Uw sys = m -> allowed sys (fun _ => 0%Qc) -> ord = One \/ ord = Inf ->
  (forall t, allowed sys (d t)) -> (forall j, 1 <= j <= k -> exists L, constraints P1 P3 j true = Ok L) ->
  (forall j x, 1 <= j <= k -> exists b, forall u, (forall i, i < j -> input_ok sys x (u_rows sys u i)) ->
     (b <= program_cost ord j (fst (fst (cost j))) (snd (cost j)) (snd (fst (cost j))) x u)%Qc) ->
  forall x, forced sys (inside n P1) (inside n P3) k x -> exists xs, controlled P1 P3 cost ord given d k x = Ok xs.
Proof.
  intros LC UW D0 O D. induction k as [|k IH]; intros C B x F; [exists []; reflexivity|]. cbn [controlled].
  assert (BX := B (S k) x ltac:(lia)). destruct (cost (S k)) as [[R r] Q]. cbn [fst snd] in BX.
  destruct (helper_closed_complete x P1 P3 (S k) R r Q ord given LC ltac:(lia) UW D0 O (C (S k) ltac:(lia)) F BX) as (u & f & G). rewrite G. cbn [bind].
  destruct (helper_closed_sound x P1 P3 (S k) R r Q ord given u f ltac:(lia) G) as [_ S1]. specialize (S1 (d (S k)) (D _)). cbn zeta in S1.
  destruct S1 as [_ S2]. replace (S k - 1) with k in S2 by lia.
  destruct (IH ltac:(intros j J; apply C; lia) ltac:(intros j y J; apply B; lia) _ S2) as (xs & E). rewrite E. cbn [bind]. eexists. reflexivity.
Qed.

(** ** The choice among the polytopes of the target *)
(** The weights that each polytope of the target is tried with *)
Fixpoint tried (N : nat) (mw : Qc) (l : list poly) (R : mat) (r : vec) : list (poly * mat * vec) :=
  match l with
  | [] => []
  | P3 :: l' => let R' := R_mid sys N mw R in let r' := r_mid sys N (- mw) (center P3) r in
                (P3, R', r') :: tried N mw l' R' (r_mid sys N mw (center P3) r')
  end.
Definition rank (k : nat) : Qc := Q2Qc (inject_Z (Z.of_nat k)).
Lemma rank_S k : rank (S k) = (rank k + 1)%Qc.
Proof.
  unfold rank. apply Qc_is_canon. cbn [this Q2Qc]. unfold Qcplus. cbn [this Q2Qc]. rewrite !Qred_correct. rewrite Nat2Z.inj_succ. unfold Z.succ. rewrite inject_Z_plus. reflexivity.
Qed.
(** The weight of the last state grows with each polytope. *)
Theorem tried_weights N mw l : forall R r i P3 R' r', nth_error (tried N mw l R r) i = Some (P3, R', r') ->
  nth_error l i = Some P3 /\
  (forall a b, R' a b = if (last_block sys N a && last_block sys N b)%bool then (R a b + rank (S i) * mw * (if a =? b then 1 else 0))%Qc else R a b) /\
  (forall a, r' a = if last_block sys N a then (r a - mw * center P3 (a - n * (N - 1))%nat)%Qc else r a).
Proof.
  induction l as [|P l IH]; intros R r i P3 R' r' H; [destruct i; discriminate|]. destruct i as [|i]; cbn [tried nth_error] in H.
  - injection H as <- <- <-. split; [reflexivity|]. split.
    + intros a b. unfold R_mid. destruct (last_block sys N a) eqn:A; [|reflexivity]. destruct (last_block sys N b) eqn:B; [|reflexivity]. cbn [andb].
      unfold eye. replace (a - n * (N - 1) =? b - n * (N - 1)) with (a =? b).
      * replace (rank 1) with 1%Qc by (apply Qc_is_canon; reflexivity). destruct (a =? b); ring.
      * unfold last_block in A, B. apply andb_true_iff in A. apply andb_true_iff in B. destruct A as [A _], B as [B _]. apply Nat.leb_le in A. apply Nat.leb_le in B.
        apply eq_true_iff_eq. rewrite !Nat.eqb_eq. lia.
    + intro a. unfold r_mid. destruct (last_block sys N a); [ring|reflexivity].
  - destruct (IH _ _ _ _ _ _ H) as (E & HR & Hr). split; [exact E|]. split.
    + intros a b. rewrite HR. unfold R_mid. destruct (last_block sys N a) eqn:A; [|reflexivity]. destruct (last_block sys N b) eqn:B; [|reflexivity]. cbn [andb].
      unfold eye. replace (a - n * (N - 1) =? b - n * (N - 1)) with (a =? b).
      * rewrite (rank_S (S i)). destruct (a =? b); ring.
      * unfold last_block in A, B. apply andb_true_iff in A. apply andb_true_iff in B. destruct A as [A _], B as [B _]. apply Nat.leb_le in A. apply Nat.leb_le in B.
        apply eq_true_iff_eq. rewrite !Nat.eqb_eq. lia.
    + intro a. rewrite Hr. unfold r_mid. destruct (last_block sys N a); [ring|reflexivity].
Qed.
Notation attempt x0 P1 N Q ord cl given t := (get_input_helper x0 P1 (fst (fst t)) N (snd (fst t)) (snd t) Q ord cl given).
(** The inputs that are kept have the least cost among those found. *)
Lemma targets_loop x0 P1 N Q ord mw cl given l : positive mw = true -> forall R r low low' R' r',
  try_targets x0 P1 N Q ord mw cl given l R r low = Ok (low', R', r') ->
  (forall t, In t (tried N mw l R r) -> match attempt x0 P1 N Q ord cl given t with Ok _ => True | Err e => e = "_InputHelperLPException" end) /\
  match low' with
  | None => low = None /\ forall t, In t (tried N mw l R r) -> attempt x0 P1 N Q ord cl given t = Err "_InputHelperLPException"
  | Some (u, c) =>
      (low = Some (u, c) \/ exists t, In t (tried N mw l R r) /\ attempt x0 P1 N Q ord cl given t = Ok (u, c)) /\
      (forall v c', low = Some (v, c') -> (c <= c')%Qc) /\
      forall t v c', In t (tried N mw l R r) -> attempt x0 P1 N Q ord cl given t = Ok (v, c') -> (c <= c')%Qc
  end.
Proof.
  intro PM. induction l as [|P3 l IH]; intros R r low low' R' r' H; cbn [M_Control.try_targets] in H.
  - injection H as <- <- <-. split; [intros t []|]. destruct low as [(u & c)|]; [|split; [reflexivity|intros t []]].
    split; [left; reflexivity|]. split; [intros v c' E; injection E as <- <-; apply Qcle_refl|intros t v c' []].
  - rewrite PM in H. cbn [tried]. set (R1 := R_mid sys N mw R) in *. set (r1 := r_mid sys N (- mw) (center P3) r) in *. set (r2 := r_mid sys N mw (center P3) r1) in *.
    destruct (get_input_helper x0 P1 P3 N R1 r1 Q ord cl given) as [(u0 & c0)|e] eqn:G.
    + specialize (IH _ _ _ _ _ _ H). destruct IH as [IA IB]. split.
      * intros t [<-|T]; [cbn [fst snd]; rewrite G; exact I|apply IA; exact T].
      * set (low1 := match low with None => Some (u0, c0) | Some (_, c) => if Qclt_le_dec c0 c then Some (u0, c0) else low end) in *.
        destruct low' as [(u & c)|].
        -- destruct IB as (B1 & B2 & B3).
           assert (C0 : (c <= c0)%Qc).
           { unfold low1 in B2. destruct low as [(w & cw)|]; [|apply (B2 u0); reflexivity]. destruct (Qclt_le_dec c0 cw) as [L|L]; [apply (B2 u0); reflexivity|].
             apply Qcle_trans with cw; [apply (B2 w); reflexivity|exact L]. }
           split; [|split].
           ++ destruct B1 as [B1|(t & T & B1)]; [|right; exists t; split; [right; exact T|exact B1]].
              unfold low1 in B1. destruct low as [(w & cw)|].
              ** destruct (Qclt_le_dec c0 cw) as [L|L]; [|left; exact B1]. right. exists (P3, R1, r1). split; [left; reflexivity|]. cbn [fst snd]. rewrite G. congruence.
              ** right. exists (P3, R1, r1). split; [left; reflexivity|]. cbn [fst snd]. rewrite G. congruence.
           ++ intros v c' E. destruct low as [(w & cw)|]; [|discriminate]. injection E as -> ->. unfold low1 in B2. destruct (Qclt_le_dec c0 c') as [L|L].
              ** apply Qcle_trans with c0; [exact C0|apply Qclt_le_weak; exact L].
              ** apply (B2 v). reflexivity.
           ++ intros t v c' [<-|T] E; [cbn [fst snd] in E; rewrite G in E; injection E as <- <-; exact C0|]. apply (B3 t v c' T E).
        -- destruct IB as [B1 _]. unfold low1 in B1. destruct low as [(w & cw)|]; [destruct (Qclt_le_dec c0 cw)|]; discriminate.
    + destruct (e =? "_InputHelperLPException")%string eqn:EE; [|discriminate]. apply String.eqb_eq in EE. subst e.
      specialize (IH _ _ _ _ _ _ H). destruct IH as [IA IB]. split.
      * intros t [<-|T]; [cbn [fst snd]; rewrite G; reflexivity|apply IA; exact T].
      * destruct low' as [(u & c)|].
        -- destruct IB as (B1 & B2 & B3). split; [|split; [exact B2|]].
           ++ destruct B1 as [B1|(t & T & B1)]; [left; exact B1|right; exists t; split; [right; exact T|exact B1]].
           ++ intros t v c' [<-|T] E; [cbn [fst snd] in E; rewrite G in E; discriminate|]. apply (B3 t v c' T E).
        -- destruct IB as [B1 B2]. split; [exact B1|]. intros t [<-|T]; [exact G|apply B2; exact T].
Qed.
Theorem targets_least x0 P1 N Q ord mw cl given l R r u c R' r' : (0 < mw)%Qc ->
  try_targets x0 P1 N Q ord mw cl given l R r None = Ok (Some (u, c), R', r') ->
  (exists t, In t (tried N mw l R r) /\ attempt x0 P1 N Q ord cl given t = Ok (u, c)) /\
  (forall t v c', In t (tried N mw l R r) -> attempt x0 P1 N Q ord cl given t = Ok (v, c') -> (c <= c')%Qc).
Proof.
  intros PM H. assert (PM' : positive mw = true) by (unfold positive; destruct (Qclt_le_dec 0 mw) as [L|L]; [reflexivity|destruct (Qclt_not_le _ _ PM L)]).
  destruct (targets_loop x0 P1 N Q ord mw cl given l PM' _ _ _ _ _ _ H) as [_ ([B1|B1] & _ & B3)]; [discriminate|]. split; [exact B1|exact B3].
Qed.
Lemma targets_total x0 P1 N Q ord mw cl given l : positive mw = true -> forall R r low,
  (forall t, In t (tried N mw l R r) -> match attempt x0 P1 N Q ord cl given t with Ok _ => True | Err e => e = "_InputHelperLPException" end) ->
  exists low' R' r', try_targets x0 P1 N Q ord mw cl given l R r low = Ok (low', R', r').
Proof.
  intro PM. induction l as [|P3 l IH]; intros R r low A; cbn [M_Control.try_targets]; [eexists; eexists; eexists; reflexivity|]. rewrite PM. cbn [tried] in A.
  assert (A0 := A _ (or_introl eq_refl)). cbn [fst snd] in A0.
  destruct (get_input_helper x0 P1 P3 N (R_mid sys N mw R) (r_mid sys N (- mw) (center P3) r) Q ord cl given) as [(u & c)|e].
  - apply IH. intros t T. apply A. right. exact T.
  - subst e. cbn [String.eqb Ascii.eqb Bool.eqb]. apply IH. intros t T. apply A. right. exact T.
Qed.
Lemma tried_target N mw l R r t : In t (tried N mw l R r) -> In (fst (fst t)) l.
Proof.
  revert R r. induction l as [|P l IH]; intros R r H; [destruct H|]. cbn [tried] in H. destruct H as [<-|H]; [left; reflexivity|right; apply (IH _ _ H)].
Qed.
Lemma target_tried N mw l R r P3 : In P3 l -> exists R' r', In (P3, R', r') (tried N mw l R r).
Proof.
  revert R r. induction l as [|P l IH]; intros R r H; [destruct H|]. cbn [tried]. destruct H as [->|H].
  - eexists. eexists. left. reflexivity.
  - destruct (IH (R_mid sys N mw R) (r_mid sys N mw (center P) (r_mid sys N (- mw) (center P) r)) H) as (R' & r' & T). exists R', r'. right. exact T.
Qed.

(** ** The inputs for a transition *)
(** The weight of the distance to the center *)
Definition weight (R : option arr) (r : option vec) (Q : option arr) (mid_weight : Qc) : Qc :=
  match R, Q, r with None, None, None => if Qc_eq_dec mid_weight 0 then Q2Qc 3 else mid_weight | _, _, _ => mid_weight end.
Definition weights_fit (ab : abstr) (R : option arr) (Q : option arr) : Prop :=
  match R with Some a => a_rows a = ab_N ab * n /\ a_cols a = ab_N ab * n | None => True end /\
  match Q with Some a => a_rows a = ab_N ab * m /\ a_cols a = ab_N ab * m | None => True end.
Lemma get_input_inv x0 ab start tgt R r Q ord mid_weight given u R' r' :
  get_input x0 ab start tgt R r Q ord mid_weight given = Ok (u, R', r') ->
  weights_fit ab R Q /\ (forall post, ab_post ab = Some post -> In tgt (post start)) /\
  exists P1 P_end, start_set qhull ab start = Ok P1 /\ nth_error (ab_regions ab) tgt = Some P_end /\
    exists Q1 P3 R1 r1 f, In P3 (parts P_end) /\ get_input_helper x0 P1 P3 (ab_N ab) R1 r1 Q1 ord (ab_closed_loop ab) given = Ok (u, f).
Proof.
  unfold M_Control.get_input. intro H.
  set (mw := match R, Q, r with None, None, None => if Qc_eq_dec mid_weight 0 then Q2Qc 3 else mid_weight | _, _, _ => mid_weight end) in *.
  set (R1 := match R with Some a => a | None => _ end) in *. set (Q1 := match Q with Some a => a | None => _ end) in *. set (r1 := match r with Some v => v | None => zeros end) in *.
  destruct (negb (a_rows R1 =? a_cols R1) || negb (a_rows R1 =? ab_N ab * n))%bool eqn:E1; [discriminate|].
  destruct (negb (a_rows Q1 =? a_cols Q1) || negb (a_rows Q1 =? ab_N ab * m))%bool eqn:E2; [discriminate|].
  destruct (match ab_post ab with None => false | Some post => negb (existsb (Nat.eqb tgt) (post start)) end) eqn:E3; [discriminate|].
  split.
  { apply orb_false_iff in E1. apply orb_false_iff in E2. destruct E1 as [E1 E1'], E2 as [E2 E2']. apply negb_false_iff, Nat.eqb_eq in E1, E1', E2, E2'.
    unfold weights_fit. split; [destruct R|destruct Q]; cbn in *; auto; unfold R1, Q1 in *; split; congruence. }
  split.
  { intros post EP. rewrite EP in E3. apply negb_false_iff in E3. apply existsb_exists in E3. destruct E3 as (s & I & E). apply Nat.eqb_eq in E. subst s. exact I. }
  destruct (nth_error (ab_regions ab) start) as [ps|]; [|discriminate]. destruct (nth_error (ab_regions ab) tgt) as [P_end|]; [|discriminate].
  destruct (start_set qhull ab start) as [P1|e]; [|discriminate]. cbn [bind] in H. exists P1, P_end. split; [reflexivity|]. split; [reflexivity|]. exists (a_at Q1).
  destruct P_end as [P3|l].
  - exists P3. destruct (positive mw).
    + destruct (get_input_helper x0 P1 P3 (ab_N ab) _ _ (a_at Q1) ord (ab_closed_loop ab) given) as [(v & f)|e] eqn:G; [|discriminate]. cbn [bind] in H. injection H as <- _ _.
      eexists. eexists. exists f. split; [left; reflexivity|exact G].
    + destruct (get_input_helper x0 P1 P3 (ab_N ab) _ _ (a_at Q1) ord (ab_closed_loop ab) given) as [(v & f)|e] eqn:G; [|discriminate]. cbn [bind] in H. injection H as <- _ _.
      eexists. eexists. exists f. split; [left; reflexivity|exact G].
  - destruct l as [|p l]; [discriminate|]. set (l' := p :: l) in *.
    destruct (try_targets x0 P1 (ab_N ab) (a_at Q1) ord mw (ab_closed_loop ab) given l' (a_at R1) r1 None) as [[[low R''] r'']|e] eqn:T; [|discriminate].
    cbn [bind] in H. destruct low as [(v & c)|]; [|discriminate]. injection H as <- _ _.
    destruct (positive mw) eqn:PM.
    + destruct (targets_loop x0 P1 (ab_N ab) (a_at Q1) ord mw (ab_closed_loop ab) given l' PM _ _ _ _ _ _ T) as [_ ([B1|(t & B1 & B2)] & _)]; [discriminate|].
      exists (fst (fst t)), (snd (fst t)), (snd t), c. split; [|exact B2]. apply (tried_target _ _ _ _ _ _ B1).
    + exfalso. assert (NO : forall k R2 r2 low2 a b, try_targets x0 P1 (ab_N ab) (a_at Q1) ord mw (ab_closed_loop ab) given k R2 r2 None = Ok (low2, a, b) -> low2 = None).
      { induction k as [|pk k IHk]; intros R2 r2 low2 a b HT; cbn [M_Control.try_targets] in HT; [injection HT as <- _ _; reflexivity|]. rewrite PM in HT. apply (IHk _ _ _ _ _ HT). }
      specialize (NO _ _ _ _ _ _ T). discriminate.
Qed.
(** Inputs for a transition in open loop steer the plant from [x0] to a polytope of the target region,
    through the set of the start, whatever the disturbances. *)
Theorem get_input_open_sound x0 ab start tgt R r Q ord mid_weight given u R' r' : 1 <= ab_N ab -> ab_closed_loop ab = false ->
  (forall P1 P3, plant_ok sys (ab_N ab) (open_sets P1 P3 (ab_N ab)) None) ->
  get_input x0 ab start tgt R r Q ord mid_weight given = Ok (u, R', r') ->
  (forall post, ab_post ab = Some post -> In tgt (post start)) /\
  exists P1 P_end P3, start_set qhull ab start = Ok P1 /\ nth_error (ab_regions ab) tgt = Some P_end /\ In P3 (parts P_end) /\
    robust sys P1 P3 (ab_N ab) x0 (u_rows sys u).
Proof.
  intros N1 CL PO H. destruct (get_input_inv _ _ _ _ _ _ _ _ _ _ _ _ _ H) as (_ & A & P1 & P_end & S1 & S2 & Q1 & P3 & R1 & r1 & f & I & G).
  split; [exact A|]. exists P1, P_end, P3. split; [exact S1|]. split; [exact S2|]. split; [exact I|]. rewrite CL in G.
  apply (helper_open_sound x0 P1 P3 (ab_N ab) R1 r1 Q1 ord given u f N1 (PO _ _) G).
Qed.
Theorem get_input_closed_sound x0 ab start tgt R r Q ord mid_weight given u R' r' : 1 <= ab_N ab -> ab_closed_loop ab = true ->
  get_input x0 ab start tgt R r Q ord mid_weight given = Ok (u, R', r') ->
  (forall post, ab_post ab = Some post -> In tgt (post start)) /\
  exists P1 P_end P3, start_set qhull ab start = Ok P1 /\ nth_error (ab_regions ab) tgt = Some P_end /\ In P3 (parts P_end) /\
    input_ok sys x0 (u_rows sys u 0) /\
    forall d, allowed sys d -> let x1 := step sys x0 (u_rows sys u 0) d in
      (ab_N ab <> 1 -> inside n P1 x1) /\ forced sys (inside n P1) (inside n P3) (ab_N ab - 1) x1.
Proof.
  intros N1 CL H. destruct (get_input_inv _ _ _ _ _ _ _ _ _ _ _ _ _ H) as (_ & A & P1 & P_end & S1 & S2 & Q1 & P3 & R1 & r1 & f & I & G).
  split; [exact A|]. exists P1, P_end, P3. rewrite CL in G. destruct (helper_closed_sound x0 P1 P3 (ab_N ab) R1 r1 Q1 ord given u f N1 G) as [G1 G2]. repeat split; auto; apply (G2 d); auto.
Qed.
(** The set of the start: the start region, or its hull, or the original region around it. *)
Theorem start_set_covers ab start P1 : (forall l p x, In p l -> inside n p x -> inside n (qhull l) x) -> start_set qhull ab start = Ok P1 ->
  if (ab_conservative ab || match ab_orig ab with None => true | Some _ => false end)%bool
  then exists s, nth_error (ab_regions ab) start = Some s /\ (forall x, in_set n s x -> inside n P1 x) /\ (List.length (parts s) = 1 -> parts s = [P1])
  else exists orig o, ab_orig ab = Some orig /\ nth_error orig start = Some o /\ nth_error (ab_orig_regions ab) o = Some (Reg [P1]).
Proof.
  intros QH. unfold start_set. destruct (ab_conservative ab || match ab_orig ab with None => true | Some _ => false end)%bool eqn:CO.
  - destruct (nth_error (ab_regions ab) start) as [s|]; [|discriminate]. intro H. exists s. split; [reflexivity|].
    destruct s as [p|[|p [|q l]]]; [| |injection H as <-|].
    + injection H as <-. auto.
    + discriminate.
    + split; [|reflexivity]. intros x (p' & [<-|[]] & I). exact I.
    + assert (E : qhull (p :: q :: l) = P1) by congruence. rewrite <- E. split; [|discriminate]. intros x (p' & I & IN). apply (QH _ p'); auto.
  - destruct (ab_orig ab) as [orig|]; [|discriminate]. destruct (nth_error orig start) as [o|] eqn:E1; [|discriminate].
    destruct (nth_error (ab_orig_regions ab) o) as [[p|[|p [|q l]]]|] eqn:E2; try discriminate. intro H. injection H as <-. exists orig, o. auto.
Qed.
(** For a target region, positive weight of the center and norms 1 or infinity, inputs are found if one
    of the polytopes can be reached. *)
Theorem get_input_returns x0 ab start tgt R r Q ord mid_weight given P1 l P3 : lp_complete lpsolve -> 1 <= ab_N ab -> ab_closed_loop ab = false ->
  ord = One \/ ord = Inf -> (0 < weight R r Q mid_weight)%Qc -> weights_fit ab R Q ->
  (forall P1 P3, plant_ok sys (ab_N ab) (open_sets P1 P3 (ab_N ab)) None) ->
  (forall post, ab_post ab = Some post -> In tgt (post start)) -> start < List.length (ab_regions ab) ->
  start_set qhull ab start = Ok P1 -> nth_error (ab_regions ab) tgt = Some (Reg l) ->
  (forall P, In P l -> exists L, constraints P1 P (ab_N ab) false = Ok L) ->
  In P3 l -> (exists u, robust sys P1 P3 (ab_N ab) x0 (u_rows sys u)) ->
  (forall R1 r1 Q1, exists b, forall u, robust sys P1 P3 (ab_N ab) x0 (u_rows sys u) -> (b <= program_cost ord (ab_N ab) R1 Q1 r1 x0 u)%Qc) ->
  exists u R' r', get_input x0 ab start tgt R r Q ord mid_weight given = Ok (u, R', r').
Proof.
  intros LC N1 CL O PW WF PO PT ST S1 S2 CO I3 RB BD. unfold M_Control.get_input. fold (weight R r Q mid_weight). set (mw := weight R r Q mid_weight) in *.
  set (R1 := match R with Some a => a | None => _ end). set (Q1 := match Q with Some a => a | None => _ end). set (r1 := match r with Some v => v | None => zeros end).
  assert (E1 : (negb (a_rows R1 =? a_cols R1) || negb (a_rows R1 =? ab_N ab * n))%bool = false).
  { destruct WF as [WR _]. unfold R1. destruct R as [a|]; [destruct WR as [W1 W2]; rewrite W1, W2|cbn]; rewrite Nat.eqb_refl; reflexivity. }
  assert (E2 : (negb (a_rows Q1 =? a_cols Q1) || negb (a_rows Q1 =? ab_N ab * m))%bool = false).
  { destruct WF as [_ WQ]. unfold Q1. destruct Q as [a|]; [destruct WQ as [W1 W2]; rewrite W1, W2|cbn]; rewrite Nat.eqb_refl; reflexivity. }
  assert (E3 : match ab_post ab with None => false | Some post => negb (existsb (Nat.eqb tgt) (post start)) end = false).
  { destruct (ab_post ab) as [post|]; [|reflexivity]. apply negb_false_iff. apply existsb_exists. exists tgt. split; [apply PT; reflexivity|apply Nat.eqb_refl]. }
  rewrite E1, E2, E3. apply nth_error_Some in ST. destruct (nth_error (ab_regions ab) start) as [ps|]; [|congruence]. rewrite S2, S1. cbn [bind].
  destruct l as [|p l]; [destruct I3|]. set (l' := p :: l) in *.
  assert (PM : positive mw = true) by (unfold positive; destruct (Qclt_le_dec 0 mw) as [L|L]; [reflexivity|destruct (Qclt_not_le _ _ PW L)]).
  rewrite CL.
  assert (TT : forall t, In t (tried (ab_N ab) mw l' (a_at R1) r1) ->
     match attempt x0 P1 (ab_N ab) (a_at Q1) ord false given t with Ok _ => True | Err e => e = "_InputHelperLPException" end).
  { intros t T. apply tried_target in T. destruct (CO _ T) as (L & C). unfold M_Control.get_input_helper. rewrite C. cbn [bind]. destruct O as [-> | ->]; destruct (lpsolve _ _ _) as [(v & g)|]; auto. }
  destruct (targets_total x0 P1 (ab_N ab) (a_at Q1) ord mw false given l' PM (a_at R1) r1 None TT) as (low & R' & r' & T). rewrite T. cbn [bind].
  destruct low as [(u & c)|]; [eexists; eexists; eexists; reflexivity|]. exfalso.
  destruct (targets_loop x0 P1 (ab_N ab) (a_at Q1) ord mw false given l' PM _ _ _ _ _ _ T) as [_ [_ B]].
  destruct (target_tried (ab_N ab) mw l' (a_at R1) r1 P3 I3) as (R3 & r3 & T3). specialize (B _ T3). cbn [fst snd] in B.
  destruct (helper_open_complete x0 P1 P3 (ab_N ab) R3 r3 (a_at Q1) ord given LC N1 (PO _ _) O (CO _ I3) RB (BD _ _ _)) as (u & f & G). congruence.
Qed.
End Control.

(** ** Checks of inputs, and the discrete state of a point *)
Theorem is_seq_inside_exact is_inside sys x0 N u_seq P0 P1 : (forall P x, is_inside P x = true <-> inside (sd_n sys) P x) ->
  (N = 0 -> is_seq_inside is_inside sys x0 N u_seq P0 P1 = Err "IndexError") /\
  (N <> 0 -> exists b, is_seq_inside is_inside sys x0 N u_seq P0 P1 = Ok b /\
    (b = true <-> let x := traj sys x0 u_seq (fun _ _ => 0%Qc) in (forall i, 0 < i < N -> inside (sd_n sys) P0 (x i)) /\ inside (sd_n sys) P1 (x N))).
Proof.
  intro SP. split; [intros ->; reflexivity|]. intro NZ. unfold is_seq_inside. replace (N =? 0) with false by (symmetry; apply Nat.eqb_neq; exact NZ).
  assert (ST : forall x u, (forall k, nominal sys x u k = step sys x u (fun _ => 0%Qc) k)).
  { intros x u k. unfold nominal, step, lin. rewrite (sum_zero (sd_p sys)) by (intros; ring). ring. }
  assert (LP : forall k i x ins, (forall j, x j = traj sys x0 u_seq (fun _ _ => 0%Qc) i j) ->
    (forall j, fst (seq_loop is_inside sys k i u_seq P0 x ins) j = traj sys x0 u_seq (fun _ _ => 0%Qc) (i + k) j) /\
    (snd (seq_loop is_inside sys k i u_seq P0 x ins) = true <-> ins = true /\ forall t, i < t <= i + k -> inside (sd_n sys) P0 (traj sys x0 u_seq (fun _ _ => 0%Qc) t))).
  { induction k as [|k IH]; intros i x ins HX; cbn [seq_loop].
    - cbn [fst snd]. rewrite Nat.add_0_r. split; [exact HX|]. split; [intro H; split; [exact H|intros; lia]|tauto].
    - assert (HN : forall j, nominal sys x (u_seq i) j = traj sys x0 u_seq (fun _ _ => 0%Qc) (S i) j).
      { intro j. rewrite ST. cbn [traj]. apply step_ext; auto. }
      destruct (IH (S i) (nominal sys x (u_seq i)) (if negb (is_inside P0 (nominal sys x (u_seq i))) then false else ins) HN) as [A B].
      replace (i + S k) with (S i + k) by lia. split; [exact A|]. rewrite B.
      assert (IN : is_inside P0 (nominal sys x (u_seq i)) = true <-> inside (sd_n sys) P0 (traj sys x0 u_seq (fun _ _ => 0%Qc) (S i))).
      { rewrite SP. split; apply inside_ext; intros; [apply HN|symmetry; apply HN]. }
      destruct (is_inside P0 (nominal sys x (u_seq i))) eqn:EI; cbn [negb].
      + split; intros [H1 H2]; (split; [exact H1|]); intros t T.
        * destruct (Nat.eq_dec t (S i)) as [->|]; [apply IN; reflexivity|apply H2; lia].
        * apply H2. lia.
      + split; [intros [H1 _]; discriminate|]. intros [_ H2]. specialize (H2 (S i) ltac:(lia)). apply IN in H2. discriminate. }
  destruct (LP (N - 1) 0 x0 true (fun _ => eq_refl)) as [A B]. destruct (seq_loop is_inside sys (N - 1) 0 u_seq P0 x0 true) as [x ins] eqn:EL. cbn [fst snd] in A, B.
  eexists. split; [reflexivity|]. cbn zeta. cbn [Nat.add] in A, B.
  assert (IN : is_inside P1 (nominal sys x (u_seq (N - 1))) = true <-> inside (sd_n sys) P1 (traj sys x0 u_seq (fun _ _ => 0%Qc) N)).
  { rewrite SP. assert (HN : forall j, nominal sys x (u_seq (N - 1)) j = traj sys x0 u_seq (fun _ _ => 0%Qc) N j).
    { intro j. rewrite ST. replace N with (S (N - 1)) at 2 by lia. cbn [traj]. apply step_ext; auto. }
    split; apply inside_ext; intros; [apply HN|symmetry; apply HN]. }
  destruct (is_inside P1 (nominal sys x (u_seq (N - 1)))) eqn:EI; cbn [negb].
  - rewrite B. split.
    + intros [_ H]. split; [intros i Hi; apply H; lia|apply IN; reflexivity].
    + intros [H _]. split; [reflexivity|]. intros t T. apply H. lia.
  - split; [discriminate|]. intros [_ H]. apply IN in H. discriminate.
Qed.
(** Inputs that steer the plant whatever the disturbances pass the check, if there may be no disturbance. *)
Theorem robust_seq_inside is_inside sys P1 P3 N x0 u : (forall P x, is_inside P x = true <-> inside (sd_n sys) P x) -> 1 <= N ->
  allowed sys (fun _ => 0%Qc) -> robust sys P1 P3 N x0 u -> is_seq_inside is_inside sys x0 N u P1 P3 = Ok true.
Proof.
  intros SP N1 D0 RB. destruct (is_seq_inside_exact is_inside sys x0 N u P1 P3 SP) as [_ H]. destruct (H ltac:(lia)) as (b & -> & B). f_equal. apply B. cbn zeta.
  destruct (RB (fun _ _ => 0%Qc) (fun _ _ => D0)) as (A1 & A2 & _). split; [exact A1|exact A2].
Qed.
Theorem find_discrete_state_first contains x0 part :
  match find_discrete_state contains x0 part with
  | Some i => (exists s, nth_error part i = Some s /\ contains s x0 = true) /\ forall j s, j < i -> nth_error part j = Some s -> contains s x0 = false
  | None => forall s, In s part -> contains s x0 = false
  end.
Proof.
  unfold find_discrete_state.
  assert (G : forall l i, match find_from contains i x0 l with
    | Some k => i <= k /\ (exists s, nth_error l (k - i) = Some s /\ contains s x0 = true) /\ forall j s, j < k - i -> nth_error l j = Some s -> contains s x0 = false
    | None => forall s, In s l -> contains s x0 = false end).
  { induction l as [|s l IH]; intro i; cbn [find_from]; [intros s []|]. destruct (contains s x0) eqn:E.
    - split; [lia|]. rewrite Nat.sub_diag. split; [exists s; auto|intros; lia].
    - specialize (IH (S i)). destruct (find_from contains (S i) x0 l) as [k|].
      + destruct IH as (A & (s' & B1 & B2) & C). split; [lia|]. replace (k - i) with (S (k - S i)) by lia. split; [exists s'; auto|].
        intros j s'' J HJ. destruct j as [|j]; [cbn in HJ; congruence|]. apply (C j); [lia|exact HJ].
      + intros s' [<-|I]; [exact E|apply IH; exact I]. }
  specialize (G part 0). destruct (find_from contains 0 x0 part) as [k|]; [|exact G]. destruct G as (_ & A & B). rewrite Nat.sub_0_r in *. auto.
Qed.

(** ** The arrays of the caller *)
(** The cost arrays are changed in place: with a region of several polytopes as target, the weight of the
    center is left in [R] once for each polytope. *)
Theorem targets_arrays union reduce fulldim volume project lpsolve qp center sys x0 P1 N Q ord mw cl given l : positive mw = true -> forall R r low low' R' r',
  try_targets union reduce fulldim volume project lpsolve qp center sys x0 P1 N Q ord mw cl given l R r low = Ok (low', R', r') ->
  (forall a b, R' a b = if (last_block sys N a && last_block sys N b)%bool then (R a b + rank (List.length l) * mw * (if a =? b then 1 else 0))%Qc else R a b) /\
  (forall a, r' a = r a).
Proof.
  intro PM. induction l as [|P l IH]; intros R r low low' R' r' H; cbn [M_Control.try_targets] in H.
  - injection H as _ <- <-. split; [|reflexivity]. intros a b. destruct (last_block sys N a && last_block sys N b)%bool; [|reflexivity].
    replace (rank (List.length (@nil poly))) with 0%Qc by (apply Qc_is_canon; reflexivity). ring.
  - rewrite PM in H.
    assert (H' : exists low1, try_targets union reduce fulldim volume project lpsolve qp center sys x0 P1 N Q ord mw cl given l
      (R_mid sys N mw R) (r_mid sys N mw (center P) (r_mid sys N (- mw) (center P) r)) low1 = Ok (low', R', r')).
    { destruct (get_input_helper _ _ _ _ _ _ _ _ x0 P1 P N _ _ Q ord cl given) as [(u & c)|e]; [eexists; exact H|]. destruct (e =? _)%string; [eexists; exact H|discriminate]. }
    clear H. destruct H' as (low1 & H). destruct (IH _ _ _ _ _ _ H) as [HR Hr]. split.
    + intros a b. rewrite HR. unfold R_mid. destruct (last_block sys N a) eqn:A; [|reflexivity]. destruct (last_block sys N b) eqn:B; [|reflexivity]. cbn [andb].
      unfold eye. replace (a - sd_n sys * (N - 1) =? b - sd_n sys * (N - 1)) with (a =? b).
      * cbn [List.length]. rewrite (rank_S (List.length l)). destruct (a =? b); ring.
      * unfold last_block in A, B. apply andb_true_iff in A. apply andb_true_iff in B. destruct A as [A _], B as [B _]. apply Nat.leb_le in A. apply Nat.leb_le in B.
        apply eq_true_iff_eq. rewrite !Nat.eqb_eq. lia.
    + intro a. rewrite Hr. unfold r_mid. destruct (last_block sys N a); [ring|reflexivity].
Qed.
(** Without a positive weight of the center, no inputs are found for a region of polytopes. *)
Theorem no_weight_raises union reduce fulldim volume project lpsolve qp center qhull sys x0 ab start tgt R r Q ord mid_weight given l :
  ~ (0 < weight R r Q mid_weight)%Qc -> nth_error (ab_regions ab) tgt = Some (Reg l) ->
  forall o, get_input union reduce fulldim volume project lpsolve qp center qhull sys x0 ab start tgt R r Q ord mid_weight given <> Ok o.
Proof.
  intros NW T o H. unfold M_Control.get_input in H. fold (weight R r Q mid_weight) in H. set (mw := weight R r Q mid_weight) in *.
  destruct (_ || _)%bool in H; [discriminate|]. destruct (_ || _)%bool in H; [discriminate|]. destruct (match ab_post ab with None => _ | Some _ => _ end) in H; [discriminate|].
  rewrite T in H. destruct (nth_error (ab_regions ab) start) as [p0|]; [|discriminate]. destruct (start_set qhull ab start) as [P1|]; [|discriminate]. cbn [bind] in H.
  assert (PM : positive mw = false) by (unfold positive; destruct (Qclt_le_dec 0 mw); [contradiction|reflexivity]).
  destruct l as [|p l]; [discriminate|].
  assert (NO : forall k R2 r2, try_targets union reduce fulldim volume project lpsolve qp center sys x0 P1 (ab_N ab)
     (a_at match Q with Some a => a | None => {| a_rows := ab_N ab * sd_m sys; a_cols := ab_N ab * sd_m sys; a_at := eye |} end) ord mw (ab_closed_loop ab) given k R2 r2 None = Ok (None, R2, r2)).
  { induction k as [|pk k IHk]; intros R2 r2; cbn [M_Control.try_targets]; [reflexivity|]. rewrite PM. apply IHk. }
  rewrite NO in H. discriminate.
Qed.

(** ** A library and solvers *)
(** Polytopes by Fourier-Motzkin elimination as in T_Horizon, linear programs by [lp_fm], quadratic
    programs of one variable whose minimum is not on the boundary, and centers and hulls of segments. *)
Definition qp_one (w : nat) (P : mat) (c : vec) (G : poly) : option (vec * Qc) :=
  if ((w =? 1) && positive (P 0 0))%bool then
    let v : vec := fun _ => (- c 0%nat / P 0%nat 0%nat)%Qc in if insideb w G v then Some (v, objective w P c v) else None
  else None.
Lemma mul_nonneg (a b : Qc) : (0 <= a)%Qc -> (0 <= b)%Qc -> (0 <= a * b)%Qc.
Proof. intros A B. replace 0%Qc with (0 * b)%Qc by ring. apply Qcmult_le_compat_r; assumption. Qed.
Lemma square_nonneg (a : Qc) : (0 <= a * a)%Qc.
Proof.
  destruct (Qclt_le_dec a 0) as [L|L]; [|apply mul_nonneg; exact L]. replace (a * a)%Qc with (- a * - a)%Qc by ring.
  apply Qclt_le_weak, Qcopp_le_compat in L. replace (- 0)%Qc with 0%Qc in L by ring. apply mul_nonneg; exact L.
Qed.
Lemma qp_one_sound : qp_sound qp_one.
Proof.
  intros w P c G v f H. unfold qp_one in H. destruct (w =? 1) eqn:W; [|discriminate]. apply Nat.eqb_eq in W. subst w. cbn [andb] in H.
  destruct (positive (P 0 0)) eqn:PP; [|discriminate]. unfold positive in PP. destruct (Qclt_le_dec 0 (P 0%nat 0%nat)) as [PP'|]; [|discriminate]. clear PP.
  set (v0 := (- c 0%nat / P 0%nat 0%nat)%Qc) in *. destruct (insideb 1 G (fun _ => v0)) eqn:I; [|discriminate]. injection H as <- <-.
  split; [apply insideb_spec; exact I|]. split; [reflexivity|]. intros v' _.
  assert (NZ : P 0%nat 0%nat <> 0%Qc) by (intro E; rewrite E in PP'; discriminate PP').
  assert (CE : (c 0%nat = - (P 0%nat 0%nat * v0))%Qc) by (unfold v0; field; exact NZ).
  apply Qcle_minus_iff. unfold objective, quad, lin. cbn [sum]. rewrite CE.
  match goal with |- (_ <= ?e)%Qc => replace e with (Q2Qc (1 # 2) * (P 0%nat 0%nat * ((v' 0%nat - v0) * (v' 0%nat - v0))))%Qc end.
  - apply mul_nonneg; [discriminate|]. apply mul_nonneg; [apply Qclt_le_weak; exact PP'|]. apply square_nonneg.
  - assert (HH : (Q2Qc (1 # 2) + Q2Qc (1 # 2) = 1)%Qc) by (apply Qc_is_canon; reflexivity). generalize dependent (Q2Qc (1 # 2)). intros h HH.
    set (p := P 0%nat 0%nat). set (x := v' 0%nat).
    match goal with |- ?l = ?e => transitivity (e + (1 - (h + h)) * (p * (v0 * x - v0 * v0)))%Qc; [ring|] end. rewrite HH. ring.
Qed.
Definition mid1 (p : poly) : vec := match p with [a; b] => fun _ => ((h_b a - h_b b) / q 2)%Qc | _ => zeros end.
Definition maxb (a b : Qc) : Qc := if Qclt_le_dec a b then b else a.
Definition hull1 (l : list poly) : poly :=
  match l with
  | [] => no_points
  | p :: l' =>
      let side k := fold_right (fun p' m => maxb (h_b (nth k p' {| h_a := zeros; h_b := 0%Qc |})) m) (h_b (nth k p {| h_a := zeros; h_b := 0%Qc |})) l' in
      [{| h_a := vl [1]%Z; h_b := side 0 |}; {| h_a := vl [-1]%Z; h_b := side 1 |}]
  end.
Definition fm_helper (sys : sysdyn) := get_input_helper (fm_union (sd_n sys)) idp (fm_fulldim (sd_n sys)) vol0 fm_proj lp_fm qp_one sys.
Definition fm_input (sys : sysdyn) := get_input (fm_union (sd_n sys)) idp (fm_fulldim (sd_n sys)) vol0 fm_proj lp_fm qp_one mid1 hull1 sys.
Section Instance.
Variable sys : sysdyn.
Hypothesis states : sd_n sys <> 0.
Hypothesis controls : sd_m sys <> 0.
(** The theorems for this instance, without assumptions on the library and the solvers *)
Theorem fm_helper_open_sound x0 P1 P3 N R r Q ord given u f : 1 <= N -> plant_ok sys N (open_sets P1 P3 N) None ->
  fm_helper sys x0 P1 P3 N R r Q ord false given = Ok (u, f) ->
  robust sys P1 P3 N x0 (u_rows sys u) /\
  forall v, robust sys P1 P3 N x0 (u_rows sys v) -> (program_cost sys ord N R Q r x0 u <= program_cost sys ord N R Q r x0 v)%Qc.
Proof.
  intros N1 PO H. unfold fm_helper in H.
  eapply helper_open_sound in H; eauto using lp_fm_sound, qp_one_sound.
  destruct H as (A & B & _). split; [exact A|exact B].
Qed.
Theorem fm_helper_closed_sound x0 P1 P3 N R r Q ord given u f : 1 <= N -> sd_Uw sys = sd_m sys \/ sd_Uw sys = sd_m sys + sd_n sys ->
  E_zero sys \/ (sd_Wfull sys = true /\ sd_Wext sys <> []) ->
  fm_helper sys x0 P1 P3 N R r Q ord true given = Ok (u, f) ->
  input_ok sys x0 (u_rows sys u 0) /\
  forall d, allowed sys d -> let x1 := step sys x0 (u_rows sys u 0) d in
    (N <> 1 -> inside (sd_n sys) P1 x1) /\ forced sys (inside (sd_n sys) P1) (inside (sd_n sys) P3) (N - 1) x1.
Proof.
  intros N1 UW DI H. unfold fm_helper in H.
  eapply helper_closed_sound in H; eauto using lp_fm_sound, qp_one_sound.
  - intros. apply fm_union_spec.
  - intros. apply idp_spec.
  - intros. apply fm_proj_spec. auto.
Qed.
End Instance.
(** What a computation shows about forcing *)
Lemma forced_fm sys P1 P3 N x : sd_n sys <> 0 -> sd_Uw sys = sd_m sys \/ sd_Uw sys = sd_m sys + sd_n sys ->
  (forall k j, k < sd_n sys -> j < sd_p sys -> sd_E sys k j = 0%Qc) \/ (sd_Wfull sys = true /\ sd_Wext sys <> []) ->
  in_setb (sd_n sys) (fm_fixed sys (Pol P1) (Pol P3) N (Some (Pol P1))) x = true -> forced sys (inside (sd_n sys) P1) (inside (sd_n sys) P3) N x.
Proof.
  intros S1 UW DI H. destruct (fm_fixed sys (Pol P1) (Pol P3) N (Some (Pol P1))) as [s|e] eqn:E; [|discriminate]. cbn [in_setb] in H.
  apply existsb_exists in H. destruct H as (p & I & B). apply insideb_spec in B.
  assert (IN : in_set (sd_n sys) s x) by (apply in_parts; exists p; auto).
  destruct (fm_fixed_exact sys S1 UW DI P1 P3 N (Some P1) s E) as [->|X]; [destruct (no_points_empty _ _ IN)|]. apply X in IN. apply IN.
Qed.

(** *** Cases *)
(** Values of a result, for comparison *)
Definition values (k : nat) (v : vec) : list Q := map (fun i => this (v i)) (List.seq 0 k).
Definition shown (k : nat) (o : res (vec * mat * vec)) : res (list Q) := match o with Ok (u, _, _) => Ok (values k u) | Err e => Err e end.
Definition shown_h (k : nat) (o : res (vec * Qc)) : res (list Q * Q) := match o with Ok (u, c) => Ok (values k u, this c) | Err e => Err e end.
Definition no_cost : mat := fun _ _ => 0%Qc.
(** [x' = x + u + d] as in T_Feas, [u] in [-2, 2], [d] in [-1, 1]: from 1 in [-4, 4] to [3, 6] in two
    steps.  The closed loop finds inputs, the open loop does not; it does for [2, 7]. *)
Example helper_case :
  shown_h 2 (fm_helper ex_sys (vl [1]%Z) (seg (-4) 4) (seg 3 6) 2 no_cost zeros eye Inf true false) = Ok ([2; 0], 2)%Q /\
  shown_h 2 (fm_helper ex_sys (vl [1]%Z) (seg (-4) 4) (seg 3 6) 2 no_cost zeros eye One true false) = Ok ([2; 0], 2)%Q /\
  shown_h 2 (fm_helper ex_sys (vl [1]%Z) (seg (-4) 4) (seg 3 6) 2 no_cost zeros eye Inf false false) = Err "_InputHelperLPException" /\
  shown_h 2 (fm_helper ex_sys (vl [1]%Z) (seg (-4) 4) (seg 2 7) 2 no_cost zeros eye Inf false false) = Ok ([3 # 2; 3 # 2], 3 # 2)%Q /\
  plant_ok ex_sys 2 (open_sets (seg (-4) 4) (seg 2 7) 2) None.
Proof.
  split; [vm_compute; reflexivity|]. split; [vm_compute; reflexivity|]. split; [vm_compute; reflexivity|]. split; [vm_compute; reflexivity|].
  split; [left; reflexivity|right; split; [reflexivity|discriminate]].
Qed.
(** The inputs recomputed at each step, against the disturbances 1 then -1: the plant is at 2 and then in the
    target. *)
Example controlled_case :
  match controlled (fm_union 1) idp (fm_fulldim 1) vol0 fm_proj lp_fm qp_one ex_sys (seg (-4) 4) (seg 3 6) (fun _ => (no_cost, zeros, eye)) Inf false
          (fun k => vl [if (k =? 2)%nat then 1 else -1]%Z) 2 (vl [1]%Z) with
  | Ok xs => map (fun x => this (x 0)) xs
  | Err _ => []
  end = [4; 3]%Q.
Proof. vm_compute. reflexivity. Qed.
(** The program has inputs with the quadratic cost too. *)
Example helper_two_case :
  shown_h 1 (fm_helper ex_sys (vl [1]%Z) (seg (-4) 4) (seg (-4) 4) 1 eye zeros eye Two false false) = Ok ([(-1) # 2], (-1) # 4)%Q.
Proof. vm_compute. reflexivity. Qed.

(** An abstraction with the cells [0, 1], [2, 4] and [-5, -2], and the region of the last two *)
Definition ex_cells : list pset := [Reg [seg 0 1]; Reg [seg 2 4]; Pol (seg 2 4); Reg [seg 2 4; seg (-5) (-2)]; Reg [seg (-5) (-2); seg 2 4]; Reg [seg 20 30; seg 2 4]; Reg [seg 0 1; seg 3 4]].
Definition ex_ab (closed_loop : bool) (N : nat) : abstr :=
  {| ab_regions := ex_cells; ab_post := Some (fun _ => [1; 2; 3; 4; 5]); ab_orig_regions := []; ab_orig := None;
     ab_N := N; ab_conservative := true; ab_closed_loop := closed_loop |}.
(** [x' = x + u] with [u] in [-6, 6] and no disturbance *)
Definition int_sys : sysdyn :=
  {| sd_n := 1; sd_m := 1; sd_p := 1; sd_A := ml [[1]]%Z; sd_B := ml [[1]]%Z; sd_E := ml [[0]]%Z; sd_K := vl [0]%Z;
     sd_U := pl [([1], 6); ([-1], 6)]%Z; sd_Uw := 1; sd_Wfull := true; sd_Wext := [vl [0]%Z] |}.
Lemma int_plant N l ind : plant_ok int_sys N l ind.
Proof. split; [left; reflexivity|]. left. intros k j K J. cbn in K, J. replace k with 0 by lia. replace j with 0 by lia. reflexivity. Qed.
Definition given1 (a : Z) : option arr := Some {| a_rows := 1; a_cols := 1; a_at := fun _ _ => q a |}.
Example get_input_case :
  map (fun t => shown 1 (fm_input ex_sys (vl [1]%Z) (ex_ab false 1) 0 t None None None One 0%Qc false)) [0; 1; 2; 3] = [Err "Exception"; Ok [2]%Q; Ok [2]%Q; Ok [2]%Q] /\
  shown 1 (fm_input ex_sys (vl [0]%Z) (ex_ab true 1) 0 1 None None None Inf 0%Qc false) = Err "Exception" /\
  shown 1 (fm_input ex_sys (vl [1]%Z) (ex_ab false 1) 0 1 (given1 1) None None One (Q2Qc 1) false) = Ok [2]%Q /\
  shown 2 (fm_input int_sys (vl [1]%Z) (ex_ab false 2) 6 3 None None None Inf 0%Qc false) = Ok [-1; -5]%Q /\
  shown 1 (fm_input int_sys (vl [0]%Z) (ex_ab false 1) 0 5 None None None One 0%Qc false) = Ok [4]%Q /\
  forall P1 P3, plant_ok int_sys 2 (open_sets P1 P3 2) None.
Proof.
  split; [vm_compute; reflexivity|]. split; [vm_compute; reflexivity|]. split; [vm_compute; reflexivity|]. split; [vm_compute; reflexivity|].
  split; [vm_compute; reflexivity|]. intros. apply int_plant.
Qed.
Example find_case : let inb (s : pset) (x : vec) := existsb (fun p => insideb 1 p x) (parts s) in
  map (fun x => find_discrete_state inb (vl [x]) ex_cells) [0; 2; -3; 25; 7]%Z = [Some 0; Some 1; Some 3; Some 5; None].
Proof. vm_compute. reflexivity. Qed.
Example seq_case : let go N u := is_seq_inside (insideb 1) int_sys (vl [1]%Z) N u (seg 0 1) (seg 2 4) in
  go 0 (fun _ => vl [0]%Z) = Err "IndexError" /\ go 1 (fun _ => vl [2]%Z) = Ok true /\ go 2 (fun k => vl [if (k =? 0)%nat then -1 else 3]%Z) = Ok true /\ go 2 (fun _ => vl [1]%Z) = Ok false.
Proof. vm_compute. auto. Qed.

(** *** Where the documentation does not hold *)
Definition h_u (o : res (vec * Qc)) : vec := match o with Ok (u, _) => u | Err _ => zeros end.
Definition h_f (o : res (vec * Qc)) : Qc := match o with Ok (_, f) => f | Err _ => 0%Qc end.
Definition i_u (o : res (vec * mat * vec)) : vec := match o with Ok (u, _, _) => u | Err _ => zeros end.
Definition i_R (o : res (vec * mat * vec)) : mat := match o with Ok (_, R, _) => R | Err _ => no_cost end.
Definition i_r (o : res (vec * mat * vec)) : vec := match o with Ok (_, _, r) => r | Err _ => zeros end.
Definition fine {A} (o : res A) : bool := match o with Ok _ => true | Err _ => false end.
Lemma h_spec o : fine o = true -> o = Ok (h_u o, h_f o).
Proof. destruct o as [[]|]; [reflexivity|discriminate]. Qed.
Lemma i_spec o : fine o = true -> o = Ok (i_u o, i_R o, i_r o).
Proof. destruct o as [[[]]|]; [reflexivity|discriminate]. Qed.
Lemma robust_fm sys P1 P3 N x0 u : sd_n sys <> 0 -> sd_m sys <> 0 -> 1 <= N -> plant_ok sys N (open_sets P1 P3 N) None ->
  match createLM sys N (open_sets P1 P3 N) None with Ok L => insideb (N * sd_m sys) (input_rows sys x0 P1 L) u | Err _ => false end = true ->
  robust sys P1 P3 N x0 (u_rows sys u).
Proof.
  intros S1 S2 N1 PO H. destruct (createLM sys N (open_sets P1 P3 N) None) as [L|e] eqn:C; [|discriminate]. apply insideb_spec in H.
  apply (open_admitted (fm_union (sd_n sys)) idp (fm_fulldim (sd_n sys)) vol0 fm_proj sys S1 S2 x0 P1 P3 N L u N1 PO C). exact H.
Qed.
(** The states enter the cost for the norms 1 and infinity without their part due to [x0]: from 1 with
    [R = 10] and [Q = 1] the input 0 is found, but -1 is better. *)
Theorem documented_cost_refuted : exists sys x0 P1 P3 N R r Q u f v, sd_n sys <> 0 /\ sd_m sys <> 0 /\ plant_ok sys N (open_sets P1 P3 N) None /\
  fm_helper sys x0 P1 P3 N R r Q One false false = Ok (u, f) /\ robust sys P1 P3 N x0 (u_rows sys v) /\
  (cost1 (sd_n sys) (sd_m sys) N R Q r (states_row sys x0 v) v < cost1 (sd_n sys) (sd_m sys) N R Q r (states_row sys x0 u) u)%Qc.
Proof.
  set (o := fm_helper int_sys (vl [1]%Z) (seg (-10) 10) (seg (-10) 10) 1 (fun _ _ => q 10) zeros eye One false false).
  exists int_sys, (vl [1]%Z), (seg (-10) 10), (seg (-10) 10), 1, (fun _ _ => q 10), zeros, eye, (h_u o), (h_f o), (vl [-1]%Z).
  split; [discriminate|]. split; [discriminate|]. split; [apply int_plant|]. split; [apply h_spec; vm_compute; reflexivity|].
  split; [apply robust_fm; [discriminate|discriminate|lia|apply int_plant|vm_compute; reflexivity]|]. vm_compute. reflexivity.
Qed.
Theorem documented_cost_inf_refuted : exists sys x0 P1 P3 N R r Q u f v, sd_n sys <> 0 /\ sd_m sys <> 0 /\ plant_ok sys N (open_sets P1 P3 N) None /\
  fm_helper sys x0 P1 P3 N R r Q Inf false false = Ok (u, f) /\ robust sys P1 P3 N x0 (u_rows sys v) /\
  (costinf (sd_n sys) (sd_m sys) N R Q r (states_row sys x0 v) v < costinf (sd_n sys) (sd_m sys) N R Q r (states_row sys x0 u) u)%Qc.
Proof.
  set (o := fm_helper int_sys (vl [1]%Z) (seg (-10) 10) (seg (-10) 10) 1 (fun _ _ => q 10) zeros eye Inf false false).
  exists int_sys, (vl [1]%Z), (seg (-10) 10), (seg (-10) 10), 1, (fun _ _ => q 10), zeros, eye, (h_u o), (h_f o), (vl [-1]%Z).
  split; [discriminate|]. split; [discriminate|]. split; [apply int_plant|]. split; [apply h_spec; vm_compute; reflexivity|].
  split; [apply robust_fm; [discriminate|discriminate|lia|apply int_plant|vm_compute; reflexivity]|]. vm_compute. reflexivity.
Qed.
(** The distance to the center is not minimized: with the defaults, from 0 to [2, 4] the input 4 is found;
    the documented cost [|u| + 3 |3 - x|] is 7, and 3 for the input 3. *)
Definition documented (n m N : nat) (R Q : mat) (r : vec) (mw : Qc) (xc x u : vec) : Qc :=
  (cost1 n m N R Q r x u + mw * sum n (fun k => absq (xc k - x ((N - 1) * n + k)%nat)))%Qc.
Theorem center_cost_refuted : exists sys x0 ab start tgt P1 P3 u R' r' v, sd_n sys <> 0 /\ sd_m sys <> 0 /\
  nth_error (ab_regions ab) tgt = Some (Reg [P3]) /\ start_set hull1 ab start = Ok P1 /\ ab_closed_loop ab = false /\
  fm_input sys x0 ab start tgt None None None One 0%Qc false = Ok (u, R', r') /\ robust sys P1 P3 (ab_N ab) x0 (u_rows sys v) /\
  let cost w := documented (sd_n sys) (sd_m sys) (ab_N ab) no_cost eye zeros (Q2Qc 3) (mid1 P3) (states_row sys x0 w) w in
  (cost v < cost u)%Qc.
Proof.
  set (o := fm_input int_sys (vl [0]%Z) (ex_ab false 1) 0 1 None None None One 0%Qc false).
  exists int_sys, (vl [0]%Z), (ex_ab false 1), 0, 1, (seg 0 1), (seg 2 4), (i_u o), (i_R o), (i_r o), (vl [3]%Z).
  split; [discriminate|]. split; [discriminate|]. split; [reflexivity|]. split; [reflexivity|]. split; [reflexivity|]. split; [apply i_spec; vm_compute; reflexivity|].
  split; [apply robust_fm; [discriminate|discriminate|cbn; lia|apply int_plant|vm_compute; reflexivity]|]. vm_compute. reflexivity.
Qed.
(** The weight of the center accumulates in [R] over the polytopes of the target, so that the inputs
    depend on the order of the polytopes. *)
Theorem target_order_refuted : exists sys x0 ab start t1 t2 l1 l2 u1 R1 r1 u2 R2 r2,
  nth_error (ab_regions ab) t1 = Some (Reg l1) /\ nth_error (ab_regions ab) t2 = Some (Reg l2) /\ l2 = rev l1 /\
  fm_input sys x0 ab start t1 None None None One 0%Qc false = Ok (u1, R1, r1) /\
  fm_input sys x0 ab start t2 None None None One 0%Qc false = Ok (u2, R2, r2) /\ u1 0 <> u2 0.
Proof.
  set (o1 := fm_input int_sys (vl [0]%Z) (ex_ab false 1) 0 3 None None None One 0%Qc false).
  set (o2 := fm_input int_sys (vl [0]%Z) (ex_ab false 1) 0 4 None None None One 0%Qc false).
  exists int_sys, (vl [0]%Z), (ex_ab false 1), 0, 3, 4, [seg 2 4; seg (-5) (-2)], [seg (-5) (-2); seg 2 4], (i_u o1), (i_R o1), (i_r o1), (i_u o2), (i_R o2), (i_r o2).
  split; [reflexivity|]. split; [reflexivity|]. split; [reflexivity|]. split; [apply i_spec; vm_compute; reflexivity|]. split; [apply i_spec; vm_compute; reflexivity|].
  intro E. apply (f_equal this) in E. vm_compute in E. discriminate.
Qed.
(** Costs without weight of the center are refused for a region, although its polytope can be reached. *)
Theorem region_cost_refuted : exists sys x0 ab start tgt P1 P3 R v, sd_n sys <> 0 /\ sd_m sys <> 0 /\
  nth_error (ab_regions ab) tgt = Some (Reg [P3]) /\ start_set hull1 ab start = Ok P1 /\ ab_closed_loop ab = false /\
  robust sys P1 P3 (ab_N ab) x0 (u_rows sys v) /\ weights_fit sys ab (Some R) None /\
  fm_input sys x0 ab start tgt (Some R) None None One 0%Qc false = Err "Exception".
Proof.
  exists int_sys, (vl [0]%Z), (ex_ab false 1), 0, 1, (seg 0 1), (seg 2 4), {| a_rows := 1; a_cols := 1; a_at := fun _ _ => q 1 |}, (vl [3]%Z).
  split; [discriminate|]. split; [discriminate|]. split; [reflexivity|]. split; [reflexivity|]. split; [reflexivity|].
  split; [apply robust_fm; [discriminate|discriminate|cbn; lia|apply int_plant|vm_compute; reflexivity]|].
  split; [repeat split|]. vm_compute. reflexivity.
Qed.
(** With quadratic costs a polytope that cannot be reached ends the search, although another polytope of
    the region can be reached. *)
Theorem quadratic_target_refuted : exists sys x0 ab start tgt P1 l P3 v, sd_n sys <> 0 /\ sd_m sys <> 0 /\
  nth_error (ab_regions ab) tgt = Some (Reg l) /\ In P3 l /\ start_set hull1 ab start = Ok P1 /\ ab_closed_loop ab = false /\
  robust sys P1 P3 (ab_N ab) x0 (u_rows sys v) /\
  fm_input sys x0 ab start tgt None None None Two 0%Qc false = Err "_InputHelperQPException" /\
  forall u, ~ inside (sd_n sys) (hd [] l) (step sys x0 u zeros) \/ ~ input_ok sys x0 u.
Proof.
  exists int_sys, (vl [0]%Z), (ex_ab false 1), 0, 5, (seg 0 1), [seg 20 30; seg 2 4], (seg 2 4), (vl [3]%Z).
  split; [discriminate|]. split; [discriminate|]. split; [reflexivity|]. split; [right; left; reflexivity|]. split; [reflexivity|]. split; [reflexivity|].
  split; [apply robust_fm; [discriminate|discriminate|cbn; lia|apply int_plant|vm_compute; reflexivity]|].
  split; [vm_compute; reflexivity|]. intro u. destruct (Qclt_le_dec (u 0%nat) (q 20)) as [L|L].
  - left. intro H. specialize (H {| h_a := vl [-1]%Z; h_b := q (-20) |} ltac:(right; left; reflexivity)). cbn [h_a h_b] in H.
    replace (lin (sd_n int_sys) (vl [-1]%Z) (step int_sys (vl [0]%Z) u zeros)) with (- u 0%nat)%Qc in H.
    + apply Qcopp_le_compat in H. replace (- - u 0%nat)%Qc with (u 0%nat) in H by ring. replace (- q (-20))%Qc with (q 20) in H by (apply Qc_is_canon; reflexivity).
      exact (Qclt_not_le _ _ L H).
    + unfold lin, step. cbn [sd_n sd_m sd_p int_sys sum]. unfold lin. cbn [sum]. unfold zeros.
      replace (vl [-1]%Z 0) with (- (1))%Qc by (apply Qc_is_canon; reflexivity). replace (sd_B int_sys 0%nat 0%nat) with 1%Qc by (apply Qc_is_canon; reflexivity).
      replace (vl [0]%Z 0) with 0%Qc by (apply Qc_is_canon; reflexivity). replace (sd_K int_sys 0%nat) with 0%Qc by (apply Qc_is_canon; reflexivity). ring.
  - right. intro H. unfold input_ok in H. cbn [sd_Uw sd_m int_sys Nat.eqb] in H. specialize (H {| h_a := vl [1]%Z; h_b := q 6 |} ltac:(left; reflexivity)). cbn [h_a h_b] in H.
    unfold lin in H. cbn [sum] in H. replace (vl [1]%Z 0) with 1%Qc in H by (apply Qc_is_canon; reflexivity). replace (0 + 1 * u 0%nat)%Qc with (u 0%nat) in H by ring.
    assert (C : (q 20 <= q 6)%Qc) by (apply (Qcle_trans _ _ _ L H)). revert C. vm_compute. intro C. apply C. reflexivity.
Qed.
(** The arrays of the caller are changed: [R] in each case, and [r] for a polytope as target. *)
Theorem arrays_changed_refuted : exists sys x0 ab start t1 t2 R r mw u1 R1 r1 u2 R2 r2,
  fm_input sys x0 ab start t1 (Some R) (Some r) None One mw false = Ok (u1, R1, r1) /\ R1 0 0 <> a_at R 0 0 /\
  fm_input sys x0 ab start t2 (Some R) (Some r) None One mw false = Ok (u2, R2, r2) /\ R2 0 0 <> a_at R 0 0 /\ r2 0 <> r 0.
Proof.
  set (R := {| a_rows := 1; a_cols := 1; a_at := fun _ _ => q 1 |}).
  set (o1 := fm_input int_sys (vl [0]%Z) (ex_ab false 1) 0 1 (Some R) (Some zeros) None One (Q2Qc 1) false).
  set (o2 := fm_input int_sys (vl [0]%Z) (ex_ab false 1) 0 2 (Some R) (Some zeros) None One (Q2Qc 1) false).
  exists int_sys, (vl [0]%Z), (ex_ab false 1), 0, 1, 2, R, zeros, (Q2Qc 1), (i_u o1), (i_R o1), (i_r o1), (i_u o2), (i_R o2), (i_r o2).
  split; [apply i_spec; vm_compute; reflexivity|]. split; [intro E; apply (f_equal this) in E; vm_compute in E; discriminate|].
  split; [apply i_spec; vm_compute; reflexivity|]. split; intro E; apply (f_equal this) in E; vm_compute in E; discriminate.
Qed.
(** The closed loop asks for inputs without feedback after the first step.  If [Uset] constrains input
    and state, there may be none although the target can be forced: [|u + x| <= 1/2] and
    [d] in [-1, 1], from 0 in [-2, 2] to [-2, 2] in two steps. *)
Definition joint_sys : sysdyn :=
  {| sd_n := 1; sd_m := 1; sd_p := 1; sd_A := ml [[1]]%Z; sd_B := ml [[1]]%Z; sd_E := ml [[1]]%Z; sd_K := vl [0]%Z;
     sd_U := pl [([2; 2], 1); ([-2; -2], 1)]%Z; sd_Uw := 2; sd_Wfull := true; sd_Wext := [vl [1]%Z; vl [-1]%Z] |}.
Theorem closed_joint_refuted : exists sys x0 P1 P3 N R r Q, sd_n sys <> 0 /\ sd_m sys <> 0 /\ sd_Wfull sys = true /\ sd_Wext sys <> [] /\
  sd_Uw sys = sd_m sys + sd_n sys /\ allowed sys zeros /\
  forced sys (inside (sd_n sys) P1) (inside (sd_n sys) P3) N x0 /\ fm_helper sys x0 P1 P3 N R r Q Inf true false = Err "_InputHelperLPException".
Proof.
  exists joint_sys, zeros, (seg (-2) 2), (seg (-2) 2), 2, no_cost, zeros, eye.
  split; [discriminate|]. split; [discriminate|]. split; [reflexivity|]. split; [discriminate|]. split; [reflexivity|].
  split.
  { intros _. exists (fun _ => Q2Qc (1 # 2)). split; [intros; discriminate|]. split; [apply Qc_is_canon; reflexivity|]. intros j J. cbn in J. replace j with 0 by lia. apply Qc_is_canon. vm_compute. reflexivity. }
  split; [apply forced_fm; [discriminate|right; reflexivity|right; split; [reflexivity|discriminate]|vm_compute; reflexivity]|]. vm_compute. reflexivity.
Qed.
(** If a disturbance is always there, the states after the first one are computed without it:
    [|u| <= 1] and [d] in [2, 4], from 1 in [0, 10] to [6, 12] in two steps. *)
Definition push_sys : sysdyn :=
  {| sd_n := 1; sd_m := 1; sd_p := 1; sd_A := ml [[1]]%Z; sd_B := ml [[1]]%Z; sd_E := ml [[1]]%Z; sd_K := vl [0]%Z;
     sd_U := pl [([1], 1); ([-1], 1)]%Z; sd_Uw := 1; sd_Wfull := true; sd_Wext := [vl [2]%Z; vl [4]%Z] |}.
Theorem closed_push_refuted : exists sys x0 P1 P3 N R r Q, sd_n sys <> 0 /\ sd_m sys <> 0 /\ sd_Wfull sys = true /\ sd_Wext sys <> [] /\
  sd_Uw sys = sd_m sys /\
  forced sys (inside (sd_n sys) P1) (inside (sd_n sys) P3) N x0 /\ fm_helper sys x0 P1 P3 N R r Q Inf true false = Err "_InputHelperLPException".
Proof.
  exists push_sys, (vl [1]%Z), (seg 0 10), (seg 6 12), 2, no_cost, zeros, eye.
  split; [discriminate|]. split; [discriminate|]. split; [reflexivity|]. split; [discriminate|]. split; [reflexivity|].
  split; [apply forced_fm; [discriminate|left; reflexivity|right; split; [reflexivity|discriminate]|vm_compute; reflexivity]|]. vm_compute. reflexivity.
Qed.
(** Any other norm raises, as does an original region of several polytopes. *)
Theorem other_norm_raises union reduce fulldim volume project lpsolve qp sys x0 P1 P3 N R r Q closed_loop given o :
  get_input_helper union reduce fulldim volume project lpsolve qp sys x0 P1 P3 N R r Q Other closed_loop given <> Ok o.
Proof. unfold M_Control.get_input_helper. destruct (constraints _ _ _ _ _ _ P1 P3 N closed_loop); discriminate. Qed.
Theorem nonconvex_raises qhull ab start orig o p1 p2 l : ab_conservative ab = false -> ab_orig ab = Some orig -> nth_error orig start = Some o ->
  nth_error (ab_orig_regions ab) o = Some (Reg (p1 :: p2 :: l)) -> start_set qhull ab start = Err "Exception".
Proof. intros C O E H. unfold start_set. rewrite C, O. cbn [orb]. rewrite E, H. reflexivity. Qed.

Print Assumptions helper_open_sound.
Print Assumptions helper_open_complete.
Print Assumptions helper_closed_sound.
Print Assumptions helper_closed_complete.
Print Assumptions controlled_reaches.
Print Assumptions controlled_returns.
Print Assumptions tried_weights.
Print Assumptions targets_least.
Print Assumptions targets_arrays.
Print Assumptions get_input_open_sound.
Print Assumptions get_input_closed_sound.
Print Assumptions get_input_returns.
Print Assumptions start_set_covers.
Print Assumptions no_weight_raises.
Print Assumptions is_seq_inside_exact.
Print Assumptions robust_seq_inside.
Print Assumptions find_discrete_state_first.
Print Assumptions fm_helper_open_sound.
Print Assumptions fm_helper_closed_sound.
Print Assumptions documented_cost_refuted.
Print Assumptions documented_cost_inf_refuted.
Print Assumptions center_cost_refuted.
Print Assumptions target_order_refuted.
Print Assumptions region_cost_refuted.
Print Assumptions quadratic_target_refuted.
Print Assumptions arrays_changed_refuted.
Print Assumptions closed_joint_refuted.
Print Assumptions closed_push_refuted.
Print Assumptions other_norm_raises.
Print Assumptions nonconvex_raises.
