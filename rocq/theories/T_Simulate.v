(** Simulation of the plant under a strategy and computed inputs (tulip/abstract/plot.py). *)
From Coq Require Import List String Bool Arith Lia QArith Qcanon Lqa.
From Verif Require Import M_Tree M_Base M_Dict L_Dict M_Graph L_Graph M_Machine L_Sum M_Feas S_Feas L_Feas T_Feas M_Horizon L_FM T_Horizon L_LP M_Control L_Control T_Control S_Run L_Machine T_Reaction M_Simulate.
Import ListNotations.
Open Scope string_scope.
Open Scope list_scope.
Open Scope nat_scope.

(** ** Inputs without disturbances *)
Section Nominal.
Variable sys : sysdyn.
Notation n := (sd_n sys).
Notation m := (sd_m sys).
Hypothesis states : n <> 0.
Hypothesis Uset_width : sd_Uw sys = m \/ sd_Uw sys = m + n.
Hypothesis disturbances : E_zero sys \/ (sd_Wfull sys = true /\ sd_Wext sys <> []).
Hypothesis quiet : allowed sys (fun _ => 0%Qc).
Notation still := (fun (_ _ : nat) => 0%Qc).
Lemma used : lm_E sys = {| a_rows := n; a_cols := sd_p sys; a_at := sd_E sys |}.
Proof. destruct disturbances as [H|[H _]]; [apply zero_used; exact H|apply full_used; exact H]. Qed.
(** Whichever rows are tightened, the constraints hold for the trajectory without disturbances. *)
Lemma nominal_rows N Ps ind L z : 1 <= N -> createLM sys N Ps ind = Ok L -> inside (n + N * m) L z ->
  (forall i, i <= N -> inside n (nth i Ps []) (traj sys z (inputs sys z) still i)) /\
  (forall i, i < N -> input_ok sys (traj sys z (inputs sys z) still i) (inputs sys z i)).
Proof.
  intros N1 C I. destruct (E_dec sys states Uset_width) as [E0|NZ].
  - assert (LEN : List.length Ps = N + 1) by (apply createLM_unfold in C; tauto).
    destruct (createLM_nominal sys N Ps ind z N1 states E0 Uset_width LEN) as (L' & C' & H). rewrite C in C'. injection C' as <-. apply H. exact I.
  - assert (NE0 : ~ E_zero sys) by (intro E0; destruct NZ as (k & j & K & J & NE); apply NE; apply E0; auto).
    destruct disturbances as [E0|[WF NE]]; [contradiction|]. clear NE0.
    apply createLM_unfold in C. destruct C as [_ C].
    match type of C with createLM_on _ _ ?p ?d = _ => set (dist := d) in *; set (P := p) in * end.
    assert (IP := proj1 (inside_pairs sys N P dist used L z C) I). clear C I.
    assert (D0 : hull_seq (sd_p sys) (sd_Wext sys) N (fun _ _ => 0%Qc)) by (intros t _; exact (quiet NZ)).
    assert (HE : forall i, heed dist i still = still) by (intro i; unfold heed; destruct (dist i); reflexivity).
    assert (DH : forall g, (0 <= dh sys N P dist g)%Qc).
    { intro g. unfold dh. destruct (flat sys N P dist); [apply Qcle_refl|].
      assert (B := dmax_bound (sd_Wext sys) (sd_p sys) N g NE still D0). eapply Qcle_trans; [|exact B].
      change (sum (sd_p sys * N) (fun c => g c * stack (sd_p sys) still c)%Qc) with (lin (sd_p sys * N) g (stack (sd_p sys) still)). rewrite lin_stack0. apply Qcle_refl. }
    assert (RW : forall h g, In (h, g) (pairs sys N P dist) -> (lin (n + N * m) (h_a h) z + lin (sd_p sys * N) g (stack (sd_p sys) still) <= h_b h)%Qc).
    { intros h g IN. rewrite lin_stack0, Qcplus_0_r. eapply Qcle_trans; [exact (IP h g IN)|].
      replace (h_b h) with (h_b h - 0)%Qc at 2 by ring. unfold Qcminus. apply Qcplus_le_compat; [apply Qcle_refl|]. apply Qcopp_le_compat, DH. }
    destruct (proj1 (pairs_holds sys N P dist N1 used z still Uset_width (fun _ => states)) RW) as [H1 H2].
    split; intros i L1; rewrite <- (HE i); [apply H1|apply H2]; exact L1.
Qed.
End Nominal.

(** ** Specification *)
Notation still := (fun (_ _ : nat) => 0%Qc).
Section Execution.
Variable sys : sysdyn.
Variables S V : Type.
Variable ctrl : machine S V.
Variable ab : abstr.
Variable ppp2ts : list V.
Variable env_inputs : list (attrs V).
Variable hull : list poly -> poly.
(** Consecutive states of the plant without disturbances, with admissible inputs *)
Inductive drives : vec -> list vec -> Prop :=
| dr_end x : drives x []
| dr_step x u y l : input_ok sys x u -> (forall k, k < sd_n sys -> y k = step sys x u (fun _ => 0%Qc) k) -> drives y l -> drives x (y :: l).
(** The first cell that a point belongs to *)
Definition first_cell (c : nat) (x : vec) : Prop :=
  (exists s, nth_error (ab_regions ab) c = Some s /\ in_set (sd_n sys) s x) /\
  forall j s, j < c -> nth_error (ab_regions ab) j = Some s -> ~ in_set (sd_n sys) s x.
(** The set to stay in: the cell or its hull, or the original cell around it *)
Definition room (c : nat) (P1 : poly) : Prop :=
  if (ab_conservative ab || match ab_orig ab with None => true | Some _ => false end)%bool
  then exists s, nth_error (ab_regions ab) c = Some s /\ (parts s = [P1] \/ P1 = hull (parts s))
  else exists orig o, ab_orig ab = Some orig /\ nth_error orig c = Some o /\ nth_error (ab_orig_regions ab) o = Some (Reg [P1]).
(** Rounds from round [i] on, with the machine in state [nd], the plant at [x] and in cell [c]: the points and the outputs that follow.
    In each round the machine makes a step whose output names a cell, the plant stays in the set of the cell where it starts and is at the end in
    the cell that is named, and the cells are a transition of the abstraction. *)
Inductive execution : nat -> S -> nat -> vec -> list vec -> list (attrs V) -> Prop :=
| ex_end i nd c x : execution i nd c x [] []
| ex_round i nd c x inp out nd' loc c' l y P1 pts outs :
    nth_error env_inputs (i + 1) = Some inp -> mealy_step ctrl nd (inp, out) nd' -> lookup "loc" out = Some loc -> nth_error ppp2ts c' = Some loc ->
    (forall post, ab_post ab = Some post -> In c' (post c)) ->
    room c P1 -> List.length l = ab_N ab - 1 -> drives x (l ++ [y]) -> (forall z, In z l -> inside (sd_n sys) P1 z) -> first_cell c' y ->
    execution (i + 1) nd' c' y pts outs -> execution i nd c x (l ++ y :: pts) (out :: outs).
End Execution.

Section Simulation.
Variable union : pset -> pset -> pset.
Variable reduce : pset -> pset.
Variable fulldim : pset -> bool.
Variable volume : poly -> Qc.
Variable project : nat -> nat -> poly -> pset.
Variable lpsolve : nat -> vec -> poly -> option (vec * Qc).
Variable qp : nat -> mat -> vec -> poly -> option (vec * Qc).
Variable center : poly -> vec.
Variable qhull : list poly -> poly.
Variable contains : pset -> vec -> bool.
Variable extreme : poly -> option (list vec).
Variable sys : sysdyn.
Variables S V : Type.
Variable seqb : S -> S -> bool.
Variable veqb : V -> V -> bool.
Variable ctrl : machine S V.
Variable ab : abstr.
Variable ppp2ts : list V.
Variable env_inputs : list (attrs V).
Notation n := (sd_n sys).
Notation m := (sd_m sys).
Notation N := (ab_N ab).
Notation get_input := (get_input union reduce fulldim volume project lpsolve qp center qhull sys).
Notation get_input_helper := (get_input_helper union reduce fulldim volume project lpsolve qp sys).
Notation constraints := (constraints union reduce fulldim volume project sys).
Notation input_for := (input_for union reduce fulldim volume project lpsolve qp center qhull sys ab).
Notation sim_loop := (sim_loop union reduce fulldim volume project lpsolve qp center qhull contains sys S V seqb veqb ctrl ab ppp2ts env_inputs).
Notation simulate_from := (simulate_from union reduce fulldim volume project lpsolve qp center qhull contains extreme sys S V seqb veqb ctrl ab ppp2ts env_inputs).
(** The polytope library and the solvers are exact. *)
Hypothesis union_spec : forall a b x, in_set n (union a b) x <-> in_set n a x \/ in_set n b x.
Hypothesis reduce_spec : forall w s x, in_set w (reduce s) x <-> in_set w s x.
Hypothesis project_spec : forall w P x, n <= w -> (in_set n (project n w P) x <-> exists y, (forall j, j < n -> y j = x j) /\ inside w P y).
Hypothesis lp_spec : lp_sound lpsolve.
Hypothesis qp_spec : qp_sound qp.
Hypothesis contains_spec : forall s x, contains s x = true <-> in_set n s x.
Hypothesis states : n <> 0.
Hypothesis controls : m <> 0.
Hypothesis Uset_width : sd_Uw sys = m \/ sd_Uw sys = m + n.
Hypothesis disturbances : E_zero sys \/ (sd_Wfull sys = true /\ sd_Wext sys <> []).
(** No disturbance is a possible disturbance. *)
Hypothesis quiet : allowed sys (fun _ => 0%Qc).
Hypothesis horizon : 1 <= N.
Hypothesis seqb_eq : forall a b, seqb a b = true <-> a = b.
Hypothesis veqb_eq : forall a b, veqb a b = true <-> a = b.
Hypothesis ctrl_wf : wf (mealy_config veqb ctrl) (m_graph ctrl).
Hypothesis inputs_wf : forall inp, In inp env_inputs -> NoDup (map fst inp).
(** Each cell has its own state of the transition system. *)
Hypothesis cells_differ : NoDup ppp2ts.

Lemma start_room c P1 : start_set qhull ab c = Ok P1 -> room ab qhull c P1.
Proof.
  unfold start_set, room. destruct (ab_conservative ab || match ab_orig ab with None => true | Some _ => false end)%bool.
  - destruct (nth_error (ab_regions ab) c) as [[p|[|p [|q l]]]|]; try discriminate; intros [= <-]; eexists; (split; [reflexivity|]); cbn [parts]; auto.
  - destruct (ab_orig ab) as [orig|]; [|discriminate]. destruct (nth_error orig c) as [o|] eqn:E1; [|discriminate].
    destruct (nth_error (ab_orig_regions ab) o) as [[p|[|p [|q l]]]|] eqn:E2; try discriminate. intro H. injection H as <-. exists orig, o. auto.
Qed.
(** *** Inputs, open or closed loop *)
Lemma helper_nominal x0 P1 P3 R r Q ord cl given u f : get_input_helper x0 P1 P3 N R r Q ord cl given = Ok (u, f) ->
  steers sys P1 P3 N x0 (u_rows sys u) still.
Proof.
  intro H. destruct (helper_minimal union reduce fulldim volume project lpsolve qp center sys lp_spec qp_spec states controls x0 P1 P3 N R r Q ord cl given u f horizon (used sys disturbances) H) as ((L & C & I) & _ & _).
  assert (X : exists Ts ind, List.length Ts = N /\ createLM sys N (P1 :: Ts) ind = Ok L /\ match ind with Some l => existsb (Nat.eqb 0) l = false | None => True end /\
    (forall i, i < N - 1 -> forall x, inside n (nth i Ts []) x -> inside n P1 x) /\ forall x, inside n (nth (N - 1) Ts []) x -> inside n P3 x).
  { destruct cl.
    - destruct (closed_sets union reduce fulldim volume project center qhull sys union_spec reduce_spec project_spec states controls Uset_width disturbances P1 P3 N L horizon C) as (Ts & LT & CL & TS).
      exists Ts, (Some [1]). split; [exact LT|]. split; [exact CL|]. split; [reflexivity|]. split.
      + intros i Hi x IX. apply (TS i ltac:(lia)) in IX. apply IX. lia.
      + intros x IX. apply (TS (N - 1) ltac:(lia)) in IX. replace (N - 1 - (N - 1)) with 0 in IX by lia. apply IX.
    - exists (repeat P1 (N - 1) ++ [P3]), None. split; [rewrite app_length, repeat_length; cbn; lia|]. split; [exact C|]. split; [exact Logic.I|]. split.
      + intros i Hi x IX. rewrite app_nth1 in IX by (rewrite repeat_length; exact Hi). rewrite (nth_indep _ [] P1) in IX by (rewrite repeat_length; exact Hi). rewrite nth_repeat in IX. exact IX.
      + intros x IX. rewrite app_nth2 in IX by (rewrite repeat_length; lia). rewrite repeat_length, Nat.sub_diag in IX. exact IX. }
  destruct X as (Ts & ind & LT & CL & I0 & T1 & T2). unfold input_rows in I. apply fix_x0_inside in I.
  assert (CL' := drop_first sys N P1 Ts ind L (used sys disturbances) I0 CL).
  destruct (nominal_rows sys states Uset_width disturbances quiet N _ ind _ _ horizon CL' I) as [H1 H2].
  assert (TR : forall i, i < N -> inside n (nth i Ts []) (traj sys x0 (u_rows sys u) still (Datatypes.S i))).
  { intros i Hi. specialize (H1 (Datatypes.S i) ltac:(lia)). cbn [nth] in H1. revert H1. apply inside_ext. intros k K. apply traj_hcat. auto. }
  unfold steers. cbn zeta. split; [|split].
  - intros i Hi. apply (T1 (i - 1) ltac:(lia)). specialize (TR (i - 1) ltac:(lia)). replace (Datatypes.S (i - 1)) with i in TR by lia. exact TR.
  - apply T2. specialize (TR (N - 1) ltac:(lia)). replace (Datatypes.S (N - 1)) with N in TR by lia. exact TR.
  - intros i Hi. specialize (H2 i Hi). revert H2. apply input_ext; [|apply inputs_hcat]. intros k K. apply traj_hcat. auto.
Qed.
Lemma input_nominal x0 start tgt R r Q ord mw given u R' r' : get_input x0 ab start tgt R r Q ord mw given = Ok (u, R', r') ->
  (forall post, ab_post ab = Some post -> In tgt (post start)) /\
  exists P1 P_end P3, room ab qhull start P1 /\ nth_error (ab_regions ab) tgt = Some P_end /\ In P3 (parts P_end) /\ steers sys P1 P3 N x0 (u_rows sys u) still.
Proof.
  intro H. destruct (get_input_inv union reduce fulldim volume project lpsolve qp center qhull sys _ _ _ _ _ _ _ _ _ _ _ _ _ H) as (_ & A & P1 & P_end & S1 & S2 & Q1 & P3 & R1 & r1 & f & I & G).
  split; [exact A|]. exists P1, P_end, P3. split; [apply start_room, S1|]. split; [exact S2|]. split; [exact I|]. apply (helper_nominal _ _ _ _ _ _ _ _ _ _ _ G).
Qed.

(** *** The loop *)
Hypothesis no_drift : forall k, k < n -> sd_K sys k = 0%Qc.
Lemma index_nth v l : forall i j, index_of V veqb v l i = Some j -> i <= j /\ nth_error l (j - i) = Some v.
Proof.
  induction l as [|w l IH]; intros i j H; cbn [index_of] in H; [discriminate|]. destruct (veqb v w) eqn:E.
  - injection H as <-. apply veqb_eq in E. subst w. rewrite Nat.sub_diag. split; [lia|reflexivity].
  - destruct (IH _ _ H) as [L Q]. split; [lia|]. replace (j - i) with (Datatypes.S (j - Datatypes.S i)) by lia. exact Q.
Qed.
Lemma advance_step x y u v : (forall k, k < n -> x k = y k) -> (forall c, u c = v c) -> forall k, k < n -> advance sys x u k = step sys y v (fun _ => 0%Qc) k.
Proof.
  intros XY UV k K. unfold advance, step, lin. rewrite (sum_zero (sd_p sys)) by (intros; ring). rewrite no_drift by exact K.
  rewrite (sum_ext n _ (fun j => sd_A sys k j * y j)%Qc) by (intros j J; rewrite XY by exact J; reflexivity).
  rewrite (sum_ext m _ (fun j => sd_B sys k j * v j)%Qc) by (intros j J; rewrite UV; reflexivity). ring.
Qed.
(** The new points of an interval *)
Fixpoint leg (k ind : nat) (u : nat -> vec) (x : vec) : list vec :=
  match k with O => [] | Datatypes.S k' => let y := advance sys x (u ind) in y :: leg k' (Datatypes.S ind) u y end.
Lemma moves_leg k : forall ind u pts, pts <> [] -> moves sys k ind u pts = pts ++ leg k ind u (last pts zeros).
Proof.
  induction k as [|k IH]; intros ind u pts NE; cbn [moves leg]; [rewrite app_nil_r; reflexivity|].
  rewrite IH by (destruct pts; discriminate). rewrite last_last, <- app_assoc. reflexivity.
Qed.
Lemma leg_length k : forall ind u x, List.length (leg k ind u x) = k.
Proof. induction k as [|k IH]; intros; cbn [leg List.length]; [reflexivity|rewrite IH; reflexivity]. Qed.
Lemma leg_nth k : forall ind u x i y x0, nth_error (leg k ind u x) i = Some y -> (forall j, j < n -> x j = traj sys x0 u still ind j) ->
  forall j, j < n -> y j = traj sys x0 u still (ind + Datatypes.S i) j.
Proof.
  induction k as [|k IH]; intros ind u x i y x0 H X j J; [destruct i; discriminate|]. cbn [leg] in H.
  assert (Y : forall j, j < n -> advance sys x (u ind) j = traj sys x0 u still (Datatypes.S ind) j) by (intros a A; cbn [traj]; apply advance_step; auto).
  destruct i as [|i]; cbn [nth_error] in H.
  - injection H as <-. rewrite Nat.add_1_r. apply Y, J.
  - replace (ind + Datatypes.S (Datatypes.S i)) with (Datatypes.S ind + Datatypes.S i) by lia. apply (IH _ _ _ _ _ x0 H); assumption.
Qed.
Lemma leg_drives k : forall ind u x x0, (forall j, j < n -> x j = traj sys x0 u still ind j) ->
  (forall i, i < k -> input_ok sys (traj sys x0 u still (ind + i)) (u (ind + i))) -> drives sys x (leg k ind u x).
Proof.
  induction k as [|k IH]; intros ind u x x0 X U; cbn [leg]; [constructor|].
  apply dr_step with (u := u ind).
  - specialize (U 0 ltac:(lia)). rewrite Nat.add_0_r in U. revert U. apply input_ext; [intros; symmetry; apply X; assumption|reflexivity].
  - apply advance_step; reflexivity || auto.
  - apply (IH _ _ _ x0).
    + intros j J. cbn [traj]. apply advance_step; auto.
    + intros i Hi. specialize (U (Datatypes.S i) ltac:(lia)). replace (Datatypes.S ind + i) with (ind + Datatypes.S i) by lia. exact U.
Qed.
Lemma last_split (A : Type) (l : list A) d k : List.length l = Datatypes.S k -> exists l', l = l' ++ [last l d] /\ List.length l' = k.
Proof.
  intro L. assert (NE : l <> []) by (intros ->; discriminate). exists (removelast l). assert (E := app_removelast_last d NE). split; [exact E|].
  rewrite E, app_length in L. cbn in L. lia.
Qed.
Lemma find_first x c : find_discrete_state contains x (ab_regions ab) = Some c -> first_cell sys ab c x.
Proof.
  intro F. assert (Q := find_discrete_state_first contains x (ab_regions ab)). rewrite F in Q. destruct Q as [(s & A & B) C]. split.
  - exists s. split; [exact A|apply contains_spec, B].
  - intros j s' J A' I. apply contains_spec in I. rewrite (C j s' J A') in I. discriminate.
Qed.
(** One interval: where the inputs take the plant *)
Lemma interval x start tgt u : input_for x start tgt = Ok u ->
  exists P1 P_end l y, room ab qhull start P1 /\ nth_error (ab_regions ab) tgt = Some P_end /\ (forall post, ab_post ab = Some post -> In tgt (post start)) /\
    leg N 0 (u_rows sys u) x = l ++ [y] /\ List.length l = N - 1 /\ drives sys x (l ++ [y]) /\ (forall z, In z l -> inside n P1 z) /\ in_set n P_end y.
Proof.
  unfold M_Simulate.input_for. intro H. destruct (get_input x ab start tgt None None None One (Q2Qc 5) false) as [[[v R'] r']|e] eqn:G; [|discriminate]. injection H as ->.
  destruct (input_nominal _ _ _ _ _ _ _ _ _ _ _ _ G) as (A & P1 & P_end & P3 & S1 & S2 & I & (T1 & T2 & T3)).
  assert (LL := leg_length N 0 (u_rows sys u) x). replace N with (Datatypes.S (N - 1)) in LL at 2 by lia. destruct (last_split _ _ zeros (N - 1) LL) as (l & E & LN).
  set (y := last (leg N 0 (u_rows sys u) x) zeros) in *. exists P1, P_end, l, y. repeat (split; [assumption|]).
  assert (LG := leg_nth N 0 (u_rows sys u) x). assert (X0 : forall j, j < n -> x j = traj sys x (u_rows sys u) still 0 j) by reflexivity.
  split; [rewrite <- E; apply (leg_drives N 0 _ _ x X0); exact T3|]. split.
  - intros z Z. apply In_nth_error in Z. destruct Z as (i & Z). assert (Hi : i < N - 1) by (rewrite <- LN; apply nth_error_Some; congruence).
    assert (Z' : nth_error (leg N 0 (u_rows sys u) x) i = Some z) by (rewrite E, nth_error_app1 by lia; exact Z).
    apply (inside_ext n P1 (traj sys x (u_rows sys u) still (0 + Datatypes.S i))); [intros j J; symmetry; apply (LG _ _ _ Z' X0 j J)|]. apply T1. lia.
  - apply in_parts. exists P3. split; [exact I|].
    assert (Z' : nth_error (leg N 0 (u_rows sys u) x) (N - 1) = Some y) by (rewrite E, nth_error_app2 by lia; replace (N - 1 - List.length l) with 0 by lia; reflexivity).
    apply (inside_ext n P3 (traj sys x (u_rows sys u) still (0 + Datatypes.S (N - 1)))); [intros j J; symmetry; apply (LG _ _ _ Z' X0 j J)|].
    replace (0 + Datatypes.S (N - 1)) with N by lia. exact T2.
Qed.
Lemma sim_step T i nd c pts outs x : pts <> [] -> last pts zeros = x -> List.length pts = i * N + 1 ->
  sim_loop (Datatypes.S T) i nd c pts outs =
   (do inp <- of_opt "IndexError" (nth_error env_inputs (i + 1));
    do no <- reaction seqb veqb ctrl nd inp false;
    do loc <- of_opt "KeyError" (lookup "loc" (snd no));
    do tgt <- of_opt "ValueError" (index_of V veqb loc ppp2ts 0);
    do u <- input_for x c tgt;
    let l := leg N 0 (u_rows sys u) x in
    do cell <- of_opt "TypeError" (find_discrete_state contains (last l zeros) (ab_regions ab));
    do s0_loc <- of_opt "IndexError" (nth_error ppp2ts cell);
    if veqb s0_loc loc then sim_loop T (i + 1) (fst no) cell (pts ++ l) (outs ++ [snd no]) else Err "AssertionError: location").
Proof.
  intros NE LX LP. cbn [M_Simulate.sim_loop]. destruct (nth_error env_inputs (i + 1)) as [inp|]; [|reflexivity]. cbn [of_opt bind].
  destruct (reaction seqb veqb ctrl nd inp false) as [no|e]; [|reflexivity]. cbn [bind].
  destruct (last_split _ pts zeros (i * N) ltac:(lia)) as (l & E & LL). rewrite LX in E. rewrite E, nth_error_app2 by lia. replace (i * N - List.length l) with 0 by lia. cbn [nth_error of_opt bind].
  destruct (lookup "loc" (snd no)) as [loc|]; [|reflexivity]. cbn [of_opt bind]. destruct (index_of V veqb loc ppp2ts 0) as [tgt|]; [|reflexivity]. cbn [of_opt bind].
  destruct (input_for x c tgt) as [u|e]; [|reflexivity]. cbn [bind]. cbn zeta.
  rewrite moves_leg by (destruct l; discriminate). rewrite last_last.
  assert (LL2 := leg_length N 0 (u_rows sys u) x). replace N with (Datatypes.S (N - 1)) in LL2 at 2 by lia. destruct (last_split _ _ zeros (N - 1) LL2) as (l2 & E2 & _).
  replace (last ((l ++ [x]) ++ leg N 0 (u_rows sys u) x) zeros) with (last (leg N 0 (u_rows sys u) x) zeros).
  - reflexivity.
  - rewrite E2 at 2. rewrite app_assoc, last_last. reflexivity.
Qed.
Lemma sim_loop_ok T : forall i nd c pts outs x pts' outs', pts <> [] -> last pts zeros = x -> List.length pts = i * N + 1 ->
  sim_loop T i nd c pts outs = Ok (pts', outs') ->
  exists ps os, pts' = pts ++ ps /\ outs' = outs ++ os /\ List.length os = T /\ List.length ps = T * N /\ execution sys S V ctrl ab ppp2ts env_inputs qhull i nd c x ps os.
Proof.
  induction T as [|T IH]; intros i nd c pts outs x pts' outs' NE LX LP H.
  - cbn [M_Simulate.sim_loop] in H. injection H as <- <-. exists [], []. rewrite !app_nil_r. repeat split. constructor.
  - rewrite (sim_step T i nd c pts outs x NE LX LP) in H.
    destruct (nth_error env_inputs (i + 1)) as [inp|] eqn:EI; [|discriminate]. cbn [of_opt bind] in H.
    destruct (reaction seqb veqb ctrl nd inp false) as [[nd' out]|e] eqn:ER; [|discriminate]. cbn [bind fst snd] in H.
    destruct (lookup "loc" out) as [loc|] eqn:EL; [|discriminate]. cbn [of_opt bind] in H.
    destruct (index_of V veqb loc ppp2ts 0) as [tgt|] eqn:ET; [|discriminate]. cbn [of_opt bind] in H.
    destruct (input_for x c tgt) as [u|e] eqn:EG; [|discriminate]. cbn [bind] in H. cbn zeta in H.
    destruct (interval _ _ _ _ EG) as (P1 & P_end & l & y & RM & NE2 & PO & LG & LN & DR & IN & ED). rewrite LG, last_last in H.
    destruct (find_discrete_state contains y (ab_regions ab)) as [cell|] eqn:EF; [|discriminate]. cbn [of_opt bind] in H.
    destruct (nth_error ppp2ts cell) as [s0|] eqn:ES; [|discriminate]. cbn [of_opt bind] in H.
    destruct (veqb s0 loc) eqn:EV; [|discriminate]. apply veqb_eq in EV. subst s0.
    destruct (index_nth _ _ _ _ ET) as [_ EN]. rewrite Nat.sub_0_r in EN.
    assert (TC : cell = tgt) by (apply (proj1 (NoDup_nth_error ppp2ts) cells_differ); [apply nth_error_Some; congruence|congruence]). subst tgt.
    assert (LEN : List.length (pts ++ l ++ [y]) = (i + 1) * N + 1) by (rewrite !app_length, LP, LN; cbn; nia).
    destruct (IH (i + 1) nd' cell (pts ++ l ++ [y]) (outs ++ [out]) y pts' outs' ltac:(intro Z0; apply app_eq_nil in Z0; apply NE, Z0) ltac:(rewrite app_assoc, last_last; reflexivity) LEN H) as (ps & os & -> & -> & LO & LPS & EX).
    exists (l ++ y :: ps), (out :: os). split; [rewrite <- !app_assoc; reflexivity|]. split; [rewrite <- app_assoc; reflexivity|]. split; [cbn; lia|].
    split; [rewrite app_length; cbn [List.length]; rewrite LN, LPS; nia|].
    destruct (reaction_sound seqb veqb seqb_eq veqb_eq ctrl nd inp nd' out ctrl_wf (inputs_wf inp (nth_error_In _ _ EI)) ER) as [MS _].
    apply ex_round with (inp := inp) (nd' := nd') (loc := loc) (c' := cell) (P1 := P1); try assumption. apply find_first, EF.
Qed.
(** If the location is not the one expected, then two cells overlap: the point is in the cell that the machine named, and in an earlier one. *)
Definition overlap : Prop := exists x a b s t, a < b /\ nth_error (ab_regions ab) a = Some s /\ nth_error (ab_regions ab) b = Some t /\ in_set n s x /\ in_set n t x.
Lemma first_overlap a b t x : first_cell sys ab a x -> nth_error (ab_regions ab) b = Some t -> in_set n t x -> a <> b -> overlap.
Proof.
  intros [(s' & A1 & A2) F] B1 B2 NE. destruct (Nat.lt_trichotomy a b) as [L|[E|L]]; [|contradiction|destruct (F b t L B1 B2)].
  exists x, a, b, s', t. auto.
Qed.
Lemma location_overlap T : forall i nd c pts outs x, pts <> [] -> last pts zeros = x -> List.length pts = i * N + 1 ->
  sim_loop T i nd c pts outs = Err "AssertionError: location" -> overlap.
Proof.
  induction T as [|T IH]; intros i nd c pts outs x NE LX LP H; [discriminate|]. rewrite (sim_step T i nd c pts outs x NE LX LP) in H.
  destruct (nth_error env_inputs (i + 1)) as [inp|] eqn:EI; [|discriminate]. cbn [of_opt bind] in H.
  destruct (reaction seqb veqb ctrl nd inp false) as [[nd' out]|e] eqn:ER.
  2:{ exfalso. cbn [bind] in H. injection H as ->. revert ER. unfold reaction. destruct (filter _ _) as [|e1 [|e2 l]]; [destruct (out_edges _ _ _)|..]; discriminate. }
  cbn [bind fst snd] in H. destruct (lookup "loc" out) as [loc|] eqn:EL; [|discriminate]. cbn [of_opt bind] in H.
  destruct (index_of V veqb loc ppp2ts 0) as [tgt|] eqn:ET; [|discriminate]. cbn [of_opt bind] in H.
  destruct (input_for x c tgt) as [u|e] eqn:EG.
  2:{ exfalso. cbn [bind] in H. injection H as ->. revert EG. unfold M_Simulate.input_for. destruct (M_Control.get_input _ _ _ _ _ _ _ _ _ _ _ _ _ _ _ _ _ _ _ _) as [[[? ?] ?]|?]; discriminate. }
  cbn [bind] in H. cbn zeta in H.
  destruct (interval _ _ _ _ EG) as (P1 & P_end & l & y & RM & NE2 & PO & LG & LN & DR & IN & ED). rewrite LG, last_last in H.
  destruct (find_discrete_state contains y (ab_regions ab)) as [cell|] eqn:EF; [|discriminate]. cbn [of_opt bind] in H.
  destruct (nth_error ppp2ts cell) as [s0|] eqn:ES; [|discriminate]. cbn [of_opt bind] in H.
  destruct (veqb s0 loc) eqn:EV.
  - refine (IH (i + 1) nd' cell (pts ++ l ++ [y]) (outs ++ [out]) y _ _ _ H).
    + intro Z0. apply app_eq_nil in Z0. apply NE, Z0.
    + rewrite app_assoc, last_last. reflexivity.
    + rewrite !app_length, LP, LN. cbn. nia.
  - destruct (index_nth _ _ _ _ ET) as [_ EN]. rewrite Nat.sub_0_r in EN.
    refine (first_overlap cell tgt P_end y (find_first _ _ EF) NE2 ED _). intros ->. rewrite ES in EN. injection EN as ->.
    assert (Q := proj2 (veqb_eq loc loc) eq_refl). congruence.
Qed.

(** *** The initial point *)
(** The vertices belong to the polytope. *)
Hypothesis extreme_spec : forall p l, extreme p = Some l -> forall v, In v l -> inside n p v.
Lemma mean_inside (p : poly) (l : list vec) : l <> [] -> (forall v, In v l -> inside n p v) ->
  inside n p (fun k => (sum (List.length l) (fun i => nth i l zeros k) / Q2Qc (inject_Z (Z.of_nat (List.length l))))%Qc).
Proof.
  intros NE H h IH. set (z := List.length l). fold (rank z).
  assert (PZ : (0 < rank z)%Qc) .
  { unfold z. destruct l as [|v l]; [congruence|]. unfold rank, Qclt. cbn [List.length]. change (Qred 0 < Qred (inject_Z (Z.of_nat (Datatypes.S (List.length l)))))%Q.
    rewrite !Qred_correct. unfold Qlt, inject_Z. cbn [Qnum Qden]. lia. }
  assert (NZ : rank z <> 0%Qc) by (intro E; rewrite E in PZ; destruct (Qclt_not_eq _ _ PZ eq_refl)).
  assert (E : lin n (h_a h) (fun k => (sum z (fun i => nth i l zeros k) / rank z)%Qc) = (sum z (fun i => lin n (h_a h) (nth i l zeros)) / rank z)%Qc).
  { unfold lin. rewrite sum_swap. unfold Qcdiv. rewrite <- sum_mul_r. apply sum_ext. intros k K. rewrite sum_mul_l. ring. }
  rewrite E. assert (LE : (sum z (fun i => lin n (h_a h) (nth i l zeros)) <= h_b h * rank z)%Qc).
  { replace (h_b h * rank z)%Qc with (sum z (fun _ => h_b h)).
    - apply sum_le. intros i Hi. apply H; [apply nth_In; exact Hi|exact IH].
    - clear. induction z as [|z IH]; [replace (rank 0) with 0%Qc by (apply Qc_is_canon; reflexivity); cbn [sum]; ring|]. rewrite rank_S. cbn [sum]. rewrite IH. ring. }
  apply (Qcmult_lt_0_le_reg_r _ _ (rank z) PZ). unfold Qcdiv. rewrite <- Qcmult_assoc, (Qcmult_comm (/ rank z)), Qcmult_inv_r, Qcmult_1_r by exact NZ. exact LE.
Qed.
(** The simulation makes an execution of machine and plant, of [T] rounds. *)
Theorem simulation_follows T all_given c nd x_init pts outs : simulate_from T all_given (Ok (c, nd)) x_init = Ok (pts, outs) ->
  exists x0 ps, pts = x0 :: ps /\ List.length ps = T * N /\ List.length outs = T /\ execution sys S V ctrl ab ppp2ts env_inputs qhull 0 nd c x0 ps outs /\
    if all_given then x_init = Some x0 else first_cell sys ab c x0.
Proof.
  unfold M_Simulate.simulate_from. cbn [bind fst snd]. intro H.
  destruct (if all_given then _ else _) as [x0|e] eqn:EX; [|discriminate]. cbn [bind] in H.
  destruct (sim_loop_ok T 0 nd c [x0] [] x0 pts outs ltac:(discriminate) eq_refl ltac:(cbn; reflexivity) H) as (ps & os & -> & -> & LO & LP & E).
  exists x0, ps. cbn [app]. split; [reflexivity|]. split; [exact LP|]. split; [exact LO|]. split; [exact E|].
  destruct all_given.
  - destruct x_init as [x|]; [|discriminate]. cbn in EX. injection EX as ->. reflexivity.
  - destruct (nth_error (ab_regions ab) c) as [[p|[|p l]]|]; try discriminate. cbn [of_opt bind] in EX.
    destruct (pick_point extreme p) as [x|e]; [|discriminate]. cbn [bind] in EX.
    destruct (find_discrete_state contains x (ab_regions ab)) as [c'|] eqn:F; [|discriminate]. destruct (c' =? c) eqn:CC; [|discriminate].
    injection EX as ->. apply Nat.eqb_eq in CC. subst c'. apply find_first, F.
Qed.
(** The assertions fail only if cells overlap. *)
Theorem simulation_assertion T all_given c nd x_init : simulate_from T all_given (Ok (c, nd)) x_init = Err "AssertionError: location" -> overlap.
Proof.
  unfold M_Simulate.simulate_from. cbn [bind fst snd]. intro H.
  destruct (if all_given then _ else _) as [x0|e] eqn:EX; cbn [bind] in H.
  - apply (location_overlap T 0 nd c [x0] [] x0 ltac:(discriminate) eq_refl ltac:(cbn; reflexivity) H).
  - injection H as ->. destruct all_given; [destruct x_init; discriminate|].
    destruct (nth_error (ab_regions ab) c) as [[p|[|p l]]|] eqn:ER; try discriminate. cbn [of_opt bind] in EX.
    destruct (pick_point extreme p) as [x|e] eqn:PP.
    2:{ exfalso. cbn [bind] in EX. injection EX as ->. revert PP. unfold pick_point. destruct (extreme p) as [[|v l']|]; discriminate. }
    assert (IX : in_set n (Reg (p :: l)) x).
    { exists p. split; [left; reflexivity|]. revert PP. unfold pick_point. destruct (extreme p) as [[|v l']|] eqn:EE; try discriminate. intro H. injection H as <-.
      exact (mean_inside p (v :: l') ltac:(discriminate) (extreme_spec _ _ EE)). }
    cbn [bind] in EX. destruct (find_discrete_state contains x (ab_regions ab)) as [c'|] eqn:F.
    + destruct (c' =? c) eqn:CC; [discriminate|]. apply Nat.eqb_neq in CC. apply (first_overlap c' c _ x (find_first _ _ F) ER IX CC).
    + exfalso. assert (Q := find_discrete_state_first contains x (ab_regions ab)). rewrite F in Q. assert (C := proj2 (contains_spec _ _) IX). rewrite (Q _ (nth_error_In _ _ ER)) in C. discriminate.
Qed.

(** *** When it runs *)
Hypothesis lp_all : lp_complete lpsolve.
Hypothesis open_loop : ab_closed_loop ab = false.
Hypothesis plant : forall P1 P3, plant_ok sys N (open_sets P1 P3 N) None.
Hypothesis one_state_each : List.length (ab_regions ab) <= List.length ppp2ts.
(** From anywhere in cell [c] the plant can be driven robustly to a part of [c'], and the costs are bounded below. *)
Definition drivable (c c' : nat) : Prop :=
  c < List.length (ab_regions ab) /\ (forall post, ab_post ab = Some post -> In c' (post c)) /\
  exists P1 l, start_set qhull ab c = Ok P1 /\ nth_error (ab_regions ab) c' = Some (Reg l) /\ (forall P, In P l -> exists L, constraints P1 P N false = Ok L) /\
    forall s x, nth_error (ab_regions ab) c = Some s -> in_set n s x -> exists P3, In P3 l /\ (exists u, robust sys P1 P3 N x (u_rows sys u)) /\
      forall R1 r1 Q1, exists b, forall u, robust sys P1 P3 N x (u_rows sys u) -> (b <= program_cost sys One N R1 Q1 r1 x u)%Qc.
(** If the machine, whenever it is in step with the cells, has exactly one answer to the next input, and names a cell that the plant can be driven to,
    then the simulation runs to the end, or cells overlap. *)
Theorem simulation_runs (together : nat -> nat -> S -> Prop) T c nd x :
  (forall i c nd, i < T -> together i c nd -> exists inp e loc c', nth_error env_inputs (i + 1) = Some inp /\
     matches ctrl false nd inp e /\ (forall e', matches ctrl false nd inp e' -> e' = e) /\ In "loc" (map fst (m_out ctrl)) /\ lookup "loc" (e_attr e) = Some loc /\
     nth_error ppp2ts c' = Some loc /\ drivable c c' /\ together (i + 1) c' (e_dst e)) ->
  together 0 c nd -> first_cell sys ab c x ->
  (exists pts outs, simulate_from T true (Ok (c, nd)) (Some x) = Ok (pts, outs)) \/ overlap.
Proof.
  intros AN TG FC. unfold M_Simulate.simulate_from. cbn [bind of_opt fst snd].
  assert (G : forall k i c nd x pts outs, i + k = T -> together i c nd -> first_cell sys ab c x -> pts <> [] -> last pts zeros = x -> List.length pts = i * N + 1 ->
    (exists pts' outs', sim_loop k i nd c pts outs = Ok (pts', outs')) \/ overlap).
  2:{ apply (G T 0 c nd x [x] [] eq_refl TG FC ltac:(discriminate) eq_refl eq_refl). }
  clear c nd x TG FC. induction k as [|k IH]; intros i c nd x pts outs IK TG FC NE LX LP; [left; eexists; eexists; reflexivity|].
  rewrite (sim_step k i nd c pts outs x NE LX LP).
  destruct (AN i c nd ltac:(lia) TG) as (inp & e & loc & c' & EI & M & U & IO & LO & EN & (LC & PT & P1 & l & S1 & S2 & CO & DR) & TG').
  rewrite EI. cbn [of_opt bind].
  destruct (reaction_unique seqb veqb seqb_eq veqb_eq ctrl false nd inp e ctrl_wf (inputs_wf inp (nth_error_In _ _ EI)) M U) as (o & RE & RO).
  rewrite RE. cbn [bind fst snd].
  assert (LO' : lookup "loc" o = Some loc) by (apply RO; split; assumption). rewrite LO'. cbn [of_opt bind].
  assert (ET : index_of V veqb loc ppp2ts 0 = Some c').
  { assert (X : forall l k j, NoDup l -> nth_error l j = Some loc -> index_of V veqb loc l k = Some (k + j)).
    { clear - veqb_eq. induction l as [|w l IH]; intros k j ND E; [destruct j; discriminate|]. cbn [index_of]. inversion ND as [|? ? NI ND']. subst. destruct j as [|j]; cbn [nth_error] in E.
      - injection E as ->. rewrite (proj2 (veqb_eq loc loc) eq_refl). f_equal. lia.
      - destruct (veqb loc w) eqn:Q; [apply veqb_eq in Q; subst w; destruct NI; apply nth_error_In in E; exact E|]. rewrite (IH _ j ND' E). f_equal. lia. }
    rewrite (X ppp2ts 0 c' cells_differ EN). reflexivity. }
  rewrite ET. cbn [of_opt bind].
  destruct FC as [(s & A & B) _]. destruct (DR s x A B) as (P3 & I3 & RB & BD).
  destruct (get_input_returns union reduce fulldim volume project lpsolve qp center qhull sys states controls x ab c c' None None None One (Q2Qc 5) false P1 l P3 lp_all horizon open_loop (or_introl eq_refl) ltac:(reflexivity) ltac:(split; exact Logic.I) plant PT LC S1 S2 CO I3 RB BD) as (u & R' & r' & G).
  assert (EG : input_for x c c' = Ok u) by (unfold M_Simulate.input_for; rewrite G; reflexivity).
  rewrite EG. cbn [bind]. cbn zeta.
  destruct (interval _ _ _ _ EG) as (P1' & P_end & lg & y & RM & NE2 & PO & LG & LN & DRV & IN & ED). rewrite LG, last_last.
  destruct (find_discrete_state contains y (ab_regions ab)) as [cell|] eqn:EF.
  2:{ exfalso. assert (Q := find_discrete_state_first contains y (ab_regions ab)). rewrite EF in Q. assert (C := proj2 (contains_spec _ _) ED). rewrite (Q _ (nth_error_In _ _ NE2)) in C. discriminate. }
  cbn [of_opt bind]. destruct (find_first _ _ EF) as [(s' & A' & B') F'].
  destruct (nth_error ppp2ts cell) as [s0|] eqn:ES.
  2:{ exfalso. apply nth_error_None in ES. assert (cell < List.length (ab_regions ab)) by (apply nth_error_Some; congruence). lia. }
  cbn [of_opt bind]. destruct (Nat.eq_dec cell c') as [->|ND].
  - rewrite ES in EN. injection EN as ->. rewrite (proj2 (veqb_eq loc loc) eq_refl).
    apply (IH (i + 1) c' (e_dst e) y); try assumption; [lia|apply find_first, EF|..].
    + intro Z0. apply app_eq_nil in Z0. apply NE, Z0.
    + rewrite app_assoc, last_last. reflexivity.
    + rewrite !app_length, LP, LN. cbn. nia.
  - right. apply (first_overlap cell c' P_end y (find_first _ _ EF) NE2 ED ND).
Qed.
End Simulation.

(** ** Runs with exact arithmetic *)
(** [x' = x + (u, 0) + K] in the plane, with [u] in [-3, 3] and no disturbance *)
Definition plane (k : Z) : sysdyn :=
  {| sd_n := 2; sd_m := 1; sd_p := 1; sd_A := ml [[1; 0]; [0; 1]]%Z; sd_B := ml [[1]; [0]]%Z; sd_E := ml [[0]; [0]]%Z; sd_K := vl [k; 0]%Z;
     sd_U := pl [([1], 3); ([-1], 3)]%Z; sd_Uw := 1; sd_Wfull := true; sd_Wext := [vl [0]%Z] |}.
Definition box (a b c d : Z) : poly := pl [([1; 0], b); ([-1; 0], - a); ([0; 1], d); ([0; -1], - c)]%Z.
Definition corners (p : poly) : option (list vec) :=
  match p with
  | [h1; h2; h3; h4] =>
      let at_ (a b : Qc) : vec := fun k => match k with 0 => a | 1 => b | _ => 0%Qc end in
      match filter (insideb 2 p) [at_ (h_b h1) (h_b h3); at_ (h_b h1) (- h_b h4)%Qc; at_ (- h_b h2)%Qc (h_b h3); at_ (- h_b h2)%Qc (- h_b h4)%Qc] with
      | [] => None
      | l => Some l
      end
  | _ => None
  end.
Definition middle (p : poly) : vec := match pick_point corners p with Ok x => x | Err _ => zeros end.
Definition fm_in (s : pset) (x : vec) : bool := existsb (fun p => insideb 2 p x) (parts s).
(** A machine that goes back and forth between two cells *)
Definition to_and_fro : machine nat nat := Machine [] [("env", PSet [0])] [("loc", PSet [10; 11])]
  (Graph [(0, []); (1, [])] [Edge 0 1 0 [("env", 0); ("loc", 11)]; Edge 1 0 0 [("env", 0); ("loc", 10)]] [0]).
Definition two_cells (p q : poly) (N : nat) : abstr :=
  {| ab_regions := [Reg [p]; Reg [q]]; ab_post := Some (fun c => [1 - c]); ab_orig_regions := []; ab_orig := None; ab_N := N; ab_conservative := true; ab_closed_loop := false |}.
Definition fm_simulate (sys : sysdyn) (ab : abstr) := simulate_from (fm_union 2) idp (fm_fulldim 2) vol0 fm_proj lp_fm qp_one middle (fun _ => no_points) fm_in corners sys
  nat nat Nat.eqb Nat.eqb to_and_fro ab [10; 11] (repeat [("env", 0)] 10).
Definition shown_run (o : res (list vec * list (attrs nat))) : res (list (list Q) * list (attrs nat)) := match o with Ok (p, l) => Ok (map (values 2) p, l) | Err e => Err e end.

Lemma corners_sound p l : corners p = Some l -> forall v, In v l -> inside 2 p v.
Proof.
  unfold corners. destruct p as [|h1 [|h2 [|h3 [|h4 [|]]]]]; try discriminate. cbn zeta. set (p := [h1; h2; h3; h4]). set (cs := [_; _; _; _]).
  intros H v I. assert (J : In v (filter (insideb 2 p) cs)) by (destruct (filter (insideb 2 p) cs); [discriminate|injection H as <-; exact I]).
  apply filter_In in J. apply insideb_spec, J.
Qed.
Lemma fm_in_spec s x : fm_in s x = true <-> in_set 2 s x.
Proof.
  unfold fm_in. rewrite existsb_exists, in_parts. split; intros (p & I & H); exists p; (split; [exact I|]); apply insideb_spec; exact H.
Qed.
Lemma plane_plant k N l ind : plant_ok (plane k) N l ind.
Proof. split; [left; reflexivity|]. left. intros i j K J. cbn in K, J. destruct i as [|[|i]]; [| |lia]; (replace j with 0 by lia); reflexivity. Qed.
Lemma plane_quiet k : allowed (plane k) (fun _ => 0%Qc).
Proof. intros (i & j & K & J & H). exfalso. apply H. cbn in K, J. destruct i as [|[|i]]; [| |lia]; (replace j with 0 by lia); reflexivity. Qed.
Lemma to_and_fro_wf : wf (mealy_config Nat.eqb to_and_fro) (m_graph to_and_fro).
Proof.
  split; cbn; try (repeat constructor; cbn; intuition discriminate).
  - intros e [<-|[<-|[]]]; cbn; auto.
  - intros n a [[= <- <-]|[[= <- <-]|[]]]; split; constructor.
  - intros e [<-|[<-|[]]]; cbn; split; repeat constructor; cbn; intuition discriminate.
Qed.

(** Back and forth between two cells that are apart: from every point of the first cell there is a simulation of any number of rounds that there are inputs for. *)
Notation apart := (two_cells (box (-2) (-1) 0 1) (box 1 2 0 1) 1).
Example simulated_case : shown_run (fm_simulate (plane 0) apart 3 false (Ok (0, 0)) None) =
  Ok ([[-3 # 2; 1 # 2]; [3 # 2; 1 # 2]; [-3 # 2; 1 # 2]; [3 # 2; 1 # 2]]%Q, [[("loc", 11)]; [("loc", 10)]; [("loc", 11)]]).
Proof. vm_compute. reflexivity. Qed.
Ltac qc := unfold Qcminus in *; unfold Qcle, Qclt in *; cbn [this Qcplus Qcopp Qcmult Q2Qc] in *; rewrite ?Qred_correct in *.
Ltac qc_eq := apply Qc_is_canon; qc.
Lemma lin2 a b x : lin 2 (vl [a; b]) x = (q a * x 0%nat + q b * x 1%nat)%Qc.
Proof. unfold lin. cbn [sum vl nth]. change (vl [a; b] 0) with (q a). change (vl [a; b] 1) with (q b). ring. Qed.
Lemma q0 : q 0 = 0%Qc. Proof. apply Qc_is_canon. reflexivity. Qed.
Lemma q1 : q 1 = 1%Qc. Proof. apply Qc_is_canon. reflexivity. Qed.
Lemma qm1 : q (-1) = (- (1))%Qc. Proof. apply Qc_is_canon. reflexivity. Qed.
Lemma qopp a : q (- a) = (- q a)%Qc.
Proof. unfold q. apply Qc_is_canon. cbn [this Q2Qc Qcopp]. rewrite !Qred_correct. unfold inject_Z, Qopp, Qeq. cbn. lia. Qed.
Lemma box_inside a b c d x : inside 2 (box a b c d) x <-> ((q a <= x 0%nat)%Qc /\ (x 0%nat <= q b)%Qc) /\ (q c <= x 1%nat)%Qc /\ (x 1%nat <= q d)%Qc.
Proof.
  unfold box, pl. cbn [map]. split.
  - intro H. assert (H1 := H _ (or_introl eq_refl)). assert (H2 := H _ (or_intror (or_introl eq_refl))).
    assert (H3 := H _ (or_intror (or_intror (or_introl eq_refl)))). assert (H4 := H _ (or_intror (or_intror (or_intror (or_introl eq_refl))))). clear H.
    cbn [h_a h_b] in *. rewrite lin2, ?q0, ?q1, ?qm1, ?qopp in *. revert H1 H2 H3 H4. generalize (q a), (q b), (q c), (q d). intros. qc. repeat split; lra.
  - intros [[H1 H2] [H3 H4]] h [<-|[<-|[<-|[<-|[]]]]]; cbn [h_a h_b]; rewrite lin2, ?q0, ?q1, ?qm1, ?qopp; revert H1 H2 H3 H4; generalize (q a), (q b), (q c), (q d); intros; qc; lra.
Qed.
Lemma plane_step k x u d : step (plane k) x u d 0 = (x 0%nat + u 0%nat + q k)%Qc /\ step (plane k) x u d 1 = x 1%nat.
Proof.
  unfold step. cbn [plane sd_n sd_m sd_p sd_A sd_B sd_E sd_K]. unfold lin. cbn [sum]. unfold ml, vl. cbn [nth]. rewrite ?q0, ?q1. split; ring.
Qed.
Lemma plane_input k x u : input_ok (plane k) x u <-> (- q 3 <= u 0%nat)%Qc /\ (u 0%nat <= q 3)%Qc.
Proof.
  unfold input_ok. cbn [plane sd_Uw sd_m sd_U]. cbn [Nat.eqb]. unfold inside, pl. cbn [map]. split.
  - intro H. assert (H1 := H _ (or_introl eq_refl)). assert (H2 := H _ (or_intror (or_introl eq_refl))). clear H. cbn [h_a h_b] in *. unfold lin, vl in *. cbn [sum nth] in *.
    rewrite ?q1, ?qm1 in *. revert H1 H2. generalize (q 3). intros. qc. split; lra.
  - intros [H1 H2] h [<-|[<-|[]]]; cbn [h_a h_b]; unfold lin, vl; cbn [sum nth]; rewrite ?q1, ?qm1; revert H1 H2; generalize (q 3); intros; qc; lra.
Qed.
Lemma plane_robust k P1 P3 x u : robust (plane k) P1 P3 1 x (u_rows (plane k) u) <->
  ((- q 3 <= u 0%nat)%Qc /\ (u 0%nat <= q 3)%Qc) /\ inside 2 P3 (fun j => match j with 0 => x 0%nat + u 0%nat + q k | _ => x 1%nat end)%Qc.
Proof.
  assert (E : forall d j, j < 2 -> step (plane k) x (u_rows (plane k) u 0) d j = (match j with 0%nat => x 0%nat + u 0%nat + q k | _ => x 1%nat end)%Qc).
  { intros d j J. destruct (plane_step k x (u_rows (plane k) u 0) d) as [A B]. destruct j as [|[|j]]; [rewrite A; reflexivity|exact B|lia]. }
  split.
  - intro H. destruct (H (fun _ _ => 0%Qc) (fun _ _ => plane_quiet k)) as (_ & H2 & H3). specialize (H3 0 ltac:(lia)). apply plane_input in H3. split; [exact H3|].
    revert H2. apply inside_ext. intros j J. cbn [traj]. apply E. exact J.
  - intros [H1 H2] d D. unfold steers. cbn zeta. split; [intros i Hi; lia|]. split.
    + revert H2. apply inside_ext. intros j J. cbn [traj]. symmetry. apply E. exact J.
    + intros i Hi. replace i with 0 by lia. apply plane_input. exact H1.
Qed.
Lemma absq_nonneg a : (0 <= absq a)%Qc.
Proof. unfold absq. destruct (Qclt_le_dec a 0) as [L|L]; [|exact L]. qc. lra. Qed.
Lemma plane_cost k P1 P3 x R1 r1 Q1 : exists b, forall u, robust (plane k) P1 P3 1 x (u_rows (plane k) u) -> (b <= program_cost (plane k) One 1 R1 Q1 r1 x u)%Qc.
Proof.
  exists (- (absq (r1 0%nat) * q 3))%Qc. intros u H. apply plane_robust in H. destruct H as [[H1 H2] _].
  cbn [program_cost]. unfold cost1. assert (S1 : forall w f, (0 <= sum w (fun i => absq (f i)))%Qc).
  { intros w f. replace 0%Qc with (sum w (fun _ => 0%Qc)) by (apply sum_zero; reflexivity). apply sum_le. intros. apply absq_nonneg. }
  assert (L : linear (sd_n (plane k)) 1 r1 (due_row (plane k) x u) = (r1 0%nat * u 0%nat)%Qc).
  { unfold linear, due_row, states_row. cbn [plane sd_n sd_m Nat.mul Nat.add sum]. change (0 / 2) with 0. change (1 / 2) with 0. change (0 mod 2) with 0. change (1 mod 2) with 1. cbn [traj].
    fold (plane k). rewrite !(proj1 (plane_step k x _ _)), !(proj2 (plane_step k x _ _)). cbn [Nat.mul Nat.add]. ring. }
  rewrite L. assert (A := S1 (1 * sd_n (plane k)) (rowmul (1 * sd_n (plane k)) R1 (due_row (plane k) x u))). assert (B := S1 (1 * sd_m (plane k)) (rowmul (1 * sd_m (plane k)) Q1 u)).
  set (a := sum _ _) in *. set (b := sum _ _) in *. clearbody a b. clear L S1.
  assert (C : (0 <= absq (r1 0%nat) * q 3 + r1 0%nat * u 0%nat)%Qc).
  { unfold absq. destruct (Qclt_le_dec (r1 0%nat) 0) as [L|L].
    - replace (- r1 0%nat * q 3 + r1 0%nat * u 0%nat)%Qc with ((- r1 0%nat) * (q 3 - u 0%nat))%Qc by ring. apply mul_nonneg; [qc; lra|]. revert H2. generalize (q 3). intros. qc. lra.
    - replace (r1 0%nat * q 3 + r1 0%nat * u 0%nat)%Qc with (r1 0%nat * (q 3 + u 0%nat))%Qc by ring. apply mul_nonneg; [exact L|]. revert H1. generalize (q 3). intros. qc. lra. }
  revert C. generalize (absq (r1 0%nat) * q 3)%Qc, (r1 0%nat * u 0%nat)%Qc. intros. qc. lra.
Qed.

Notation fm_drivable sys ab := (drivable (fm_union 2) idp (fm_fulldim 2) vol0 fm_proj (fun _ => no_points) sys ab).
Lemma q_le a b : (a <= b)%Z -> (q a <= q b)%Qc.
Proof. intro L. unfold q, Qcle. cbn [this Q2Qc]. rewrite !Qred_correct. rewrite <- Zle_Qle. exact L. Qed.
Lemma q_plus a b : q (a + b) = (q a + q b)%Qc.
Proof. unfold q. apply Qc_is_canon. cbn [this Q2Qc Qcplus]. rewrite !Qred_correct. rewrite inject_Z_plus. reflexivity. Qed.
Lemma fine_ok {A} (o : res A) : fine o = true -> exists a, o = Ok a.
Proof. destruct o as [a|e]; [exists a; reflexivity|discriminate]. Qed.
Example apart_drivable : fm_drivable (plane 0) apart 0 1 /\ fm_drivable (plane 0) apart 1 0.
Proof.
  split; (split; [cbn; lia|]); (split; [intros post H; injection H as <-; left; reflexivity|]).
  - exists (box (-2) (-1) 0 1), [box 1 2 0 1]. split; [reflexivity|]. split; [reflexivity|]. split; [intros P [<-|[]]; apply fine_ok; vm_compute; reflexivity|].
    intros s x H I. injection H as <-. destruct I as (p & [<-|[]] & I). apply box_inside in I. exists (box 1 2 0 1). split; [left; reflexivity|]. split; [|intros; apply plane_cost].
    exists (fun _ => q 3). apply plane_robust. split; [split; [rewrite <- qopp; apply q_le; lia|apply Qcle_refl]|]. apply box_inside. cbn beta iota. rewrite q0 in *.
    change 1%Z with (-2 + 3)%Z at 1. change 2%Z with (-1 + 3)%Z. rewrite !q_plus. revert I. generalize (q (-2)), (q (-1)), (q 3), (q 1). intros. qc. repeat split; lra.
  - exists (box 1 2 0 1), [box (-2) (-1) 0 1]. split; [reflexivity|]. split; [reflexivity|]. split; [intros P [<-|[]]; apply fine_ok; vm_compute; reflexivity|].
    intros s x H I. injection H as <-. destruct I as (p & [<-|[]] & I). apply box_inside in I. exists (box (-2) (-1) 0 1). split; [left; reflexivity|]. split; [|intros; apply plane_cost].
    exists (fun _ => q (-3)). apply plane_robust. split; [split; [rewrite <- qopp; apply Qcle_refl|apply q_le; lia]|]. apply box_inside. cbn beta iota. rewrite q0 in *.
    change (-2)%Z with (1 + (-3))%Z at 1. change (-1)%Z with (2 + (-3))%Z. rewrite !q_plus. revert I. generalize (q 2), (q (-3)), (q 1). intros. qc. repeat split; lra.
Qed.
Example simulated_from_anywhere x : inside 2 (box (-2) (-1) 0 1) x -> exists pts outs, fm_simulate (plane 0) apart 9 true (Ok (0, 0)) (Some x) = Ok (pts, outs).
Proof.
  intro IX. assert (NO : ~ overlap (plane 0) apart).
  { intros (y & a & b & s & t & L & A & B & IA & IB). assert (b < 2) by (apply (nth_error_Some (ab_regions apart)); congruence).
    replace a with 0 in A by lia. replace b with 1 in B by lia. injection A as <-. injection B as <-. destruct IA as (p & [<-|[]] & IA). destruct IB as (p & [<-|[]] & IB).
    apply box_inside in IA. apply box_inside in IB. assert (LT : (q 1 <= q (-1))%Qc) by (destruct IA as [[_ IA] _], IB as [[IB _] _]; exact (Qcle_trans _ _ _ IB IA)). vm_compute in LT. congruence. }
  destruct (simulation_runs (fm_union 2) idp (fm_fulldim 2) vol0 fm_proj lp_fm qp_one middle (fun _ => no_points) fm_in corners (plane 0) nat nat Nat.eqb Nat.eqb to_and_fro apart [10; 11] (repeat [("env", 0)] 10)) with (together := fun (i c nd : nat) => c = nd /\ c < 2) (T := 9) (c := 0) (nd := 0) (x := x) as [H|H]; try assumption.
  - intros. apply fm_union_spec.
  - intros. apply idp_spec.
  - intros. apply fm_proj_spec. assumption.
  - apply lp_fm_sound.
  - apply qp_one_sound.
  - apply fm_in_spec.
  - discriminate.
  - discriminate.
  - left. reflexivity.
  - right. split; [reflexivity|discriminate].
  - apply plane_quiet.
  - apply le_n.
  - apply Nat.eqb_eq.
  - apply Nat.eqb_eq.
  - apply to_and_fro_wf.
  - intros inp I. apply repeat_spec in I. subst inp. repeat constructor. intros [].
  - repeat constructor; cbn; intuition discriminate.
  - intros k K. cbn in K. destruct k as [|[|k]]; [apply q0|apply q0|lia].
  - apply lp_fm_complete.
  - reflexivity.
  - intros. apply plane_plant.
  - apply le_n.
  - intros i c nd L [<- C]. assert (EI : nth_error (repeat [("env", 0)] 10) (i + 1) = Some [("env", 0)]) by (do 9 (destruct i as [|i]; [reflexivity|]); lia).
    assert (ME : forall e, In e (g_edges (m_graph to_and_fro)) -> matches to_and_fro false (e_src e) [("env", 0)] e).
    { intros e I. split; [exact I|]. split; [reflexivity|]. cbn in I. destruct I as [<-|[<-|[]]]; [exact (project_restricts [("env", 0); ("loc", 11)] ["env"])|exact (project_restricts [("env", 0); ("loc", 10)] ["env"])]. }
    destruct c as [|[|c]]; [| |lia].
    + exists [("env", 0)], (Edge 0 1 0 [("env", 0); ("loc", 11)]), 11, 1. split; [exact EI|]. split; [apply ME; left; reflexivity|].
      split; [intros e' ([<-|[<-|[]]] & S1 & _); [reflexivity|discriminate]|]. split; [left; reflexivity|]. split; [reflexivity|]. split; [reflexivity|]. split; [apply apart_drivable|]. split; [reflexivity|lia].
    + exists [("env", 0)], (Edge 1 0 0 [("env", 0); ("loc", 10)]), 10, 0. split; [exact EI|]. split; [apply ME; right; left; reflexivity|].
      split; [intros e' ([<-|[<-|[]]] & S1 & _); [discriminate|reflexivity]|]. split; [left; reflexivity|]. split; [reflexivity|]. split; [reflexivity|]. split; [apply apart_drivable|]. split; [reflexivity|lia].
  - split; [reflexivity|lia].
  - split; [exists (Reg [box (-2) (-1) 0 1]); split; [reflexivity|]; exists (box (-2) (-1) 0 1); split; [left; reflexivity|exact IX]|intros j t J; lia].
  - contradiction.
Qed.

(** *** What fails *)
(** Cells of a partition share boundaries, and the first of them counts: with everything exact and the target reachable from everywhere,
    the inputs of least cost lead to the boundary, and the assertion fails. *)
Theorem simulation_completes_refuted : exists ab p p', ab_regions ab = [Reg [p]; Reg [p']] /\
  (forall y, inside 2 p y -> inside 2 p' y -> y 0%nat = 0%Qc) /\ (exists y, inside 2 p y /\ (y 0%nat < 0)%Qc) /\ (exists y, inside 2 p' y /\ (0 < y 0%nat)%Qc) /\
  fm_drivable (plane 0) ab 0 1 /\ fm_simulate (plane 0) ab 1 false (Ok (0, 0)) None = Err "AssertionError: location".
Proof.
  exists (two_cells (box (-1) 0 0 1) (box 0 1 0 1) 1), (box (-1) 0 0 1), (box 0 1 0 1). split; [reflexivity|]. split.
  { intros y A B. apply box_inside in A. apply box_inside in B. rewrite q0 in *. apply Qcle_antisym; tauto. }
  split; [exists (vl [-1; 0]%Z); split; [apply insideb_spec; vm_compute; reflexivity|vm_compute; reflexivity]|].
  split; [exists (vl [1; 0]%Z); split; [apply insideb_spec; vm_compute; reflexivity|vm_compute; reflexivity]|].
  split; [|vm_compute; reflexivity]. split; [cbn; lia|]. split; [intros post H; injection H as <-; left; reflexivity|].
  exists (box (-1) 0 0 1), [box 0 1 0 1]. split; [reflexivity|]. split; [reflexivity|]. split; [intros P [<-|[]]; apply fine_ok; vm_compute; reflexivity|].
  intros s x H I. injection H as <-. destruct I as (p & [<-|[]] & I). apply box_inside in I. exists (box 0 1 0 1). split; [left; reflexivity|]. split; [|intros; apply plane_cost].
  exists (fun _ => q 1). apply plane_robust. split; [split; [rewrite <- qopp; apply q_le; lia|apply q_le; lia]|]. apply box_inside. cbn beta iota. rewrite ?q0, ?q1, ?qm1 in *. qc. repeat split; lra.
Qed.
(** The inputs are computed for the plant with its offset [K], the points are without: what is returned is no trajectory of the plant. *)
Theorem simulation_drift_refuted : exists ab x pts outs, fm_simulate (plane 1) ab 1 true (Ok (1, 1)) (Some x) = Ok (pts, outs) /\ first_cell (plane 1) ab 1 x /\
  ~ exists x0 ps, pts = x0 :: ps /\ drives (plane 1) x0 ps.
Proof.
  set (ab := two_cells (box (-4) (-1) 0 1) (box 1 2 0 1) 1).
  assert (H : shown_run (fm_simulate (plane 1) ab 1 true (Ok (1, 1)) (Some (vl [1; 0]%Z))) = Ok ([[1; 0]; [-2; 0]]%Q, [[("loc", 10)]])) by (vm_compute; reflexivity).
  destruct (fm_simulate (plane 1) ab 1 true (Ok (1, 1)) (Some (vl [1; 0]%Z))) as [[pts outs]|e] eqn:E; [|discriminate].
  exists ab, (vl [1; 0]%Z), pts, outs. split; [exact E|]. split.
  { split; [exists (Reg [box 1 2 0 1]); split; [reflexivity|apply fm_in_spec; vm_compute; reflexivity]|].
    intros j t J A I. replace j with 0 in A by lia. injection A as <-. apply fm_in_spec in I. vm_compute in I. discriminate. }
  cbn [shown_run] in H. clear E. destruct pts as [|a [|b [|]]]; try discriminate. unfold values in H. cbn [map List.seq] in H.
  assert (A0 : this (a 0%nat) = 1%Q) by congruence. assert (B0 : this (b 0%nat) = (-2)%Q) by congruence. clear H.
  intros (x0 & ps & Q & D). injection Q as <- <-. inversion D as [|? u ? ? UI ST _]. subst. apply plane_input in UI. specialize (ST 0 ltac:(cbn; lia)). rewrite (proj1 (plane_step 1 a u _)) in ST.
  destruct UI as [U1 _]. assert (X : this (b 0%nat) == this (a 0%nat + u 0%nat + q 1)%Qc) by (rewrite ST; reflexivity).
  unfold q in *. qc. rewrite A0, B0 in X. change (inject_Z 3) with 3%Q in *. change (inject_Z 1) with 1%Q in *. lra.
Qed.
(** The function itself never returns. *)
Theorem simulate2d_returns_refuted union reduce fulldim volume project lpsolve qp center qhull contains extreme sys S V seqb veqb ctrl ab ppp2ts env_inputs T qinit x_init :
  exists e, simulate2d union reduce fulldim volume project lpsolve qp center qhull contains extreme sys S V seqb veqb ctrl ab ppp2ts env_inputs T qinit x_init = Err e.
Proof.
  unfold simulate2d. destruct (mem qinit _); [eexists; reflexivity|]. destruct (qinit =? _)%string; eexists; reflexivity.
Qed.

Print Assumptions simulation_follows.
Print Assumptions simulation_assertion.
Print Assumptions simulation_runs.
Print Assumptions simulation_completes_refuted.
Print Assumptions simulation_drift_refuted.
Print Assumptions simulate2d_returns_refuted.
