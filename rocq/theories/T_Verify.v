(** The maps of an abstraction, and what [verify_transitions] says about it. *)
From Coq Require Import List String Bool Arith ZArith Lia QArith Qcanon.
From Verif Require Import M_Tree M_Base M_Dict L_Dict M_Graph L_Graph M_Machine S_Run L_Build L_Machine T_Convert M_Fts T_Fts M_Part T_Prop2part T_Refine M_Discretize L_Ts T_Discretize T_Abstract M_Verify.
Import ListNotations.
Open Scope string_scope.
Open Scope list_scope.
Open Scope nat_scope.

Lemma position_state k n : k < n -> position (state k) (map state (List.seq 0 n)) = Ok k.
Proof.
  intro L. assert (G : forall m b, k < m -> position (state (b + k)) (map state (List.seq b m)) = Ok k); [|exact (G n 0 L)].
  clear L. induction k as [|k IH]; intros m b L; (destruct m as [|m]; [lia|]); cbn [List.seq map position].
  - rewrite Nat.add_0_r, (proj2 (obj_eqb_eq _ _) eq_refl). reflexivity.
  - destruct (obj_eqb (state b) (state (b + S k))) eqn:E; [apply obj_eqb_eq, state_inj in E; lia|]. replace (b + S k) with (S b + k) by lia. rewrite (IH m (S b)) by lia. reflexivity.
Qed.
Lemma position_in s l k : position s l = Ok k -> nth_error l k = Some s.
Proof.
  revert k. induction l as [|x l IH]; intros k H; [discriminate|]. cbn [position] in H. destruct (obj_eqb x s) eqn:E.
  - injection H as <-. apply obj_eqb_eq in E. subst. reflexivity.
  - destruct (position s l) as [j|]; [|discriminate]. cbn [bind] in H. injection H as <-. cbn. apply IH. reflexivity.
Qed.

Section Verify.
Context {R X : Type} (inter diff : R -> R -> R) (fulldim : R -> bool) (le : R -> R -> bool).
Context (pts : R -> X -> bool) (null : (X -> Prop) -> Prop) (touch : @region R -> @region R -> bool) (volume radius : R -> Qc).
Hypothesis le_ok : forall a b, le a b = true <-> (forall x, pts a x = true -> pts b x = true).
Notation inside := (inside pts).
Context (dsolve : option nat -> R -> R -> option R -> res R) (rd : option nat -> Qc) (min_cell_volume abs_tol : Qc) (trans_length : nat) (dreach : option nat -> (X -> Prop) -> (X -> Prop) -> X -> Prop).
Variables (part : ppp R) (props : list (string * R)) (pwa : option (R * list R)) (ab : abstraction R).
(** [ab] is what [discretize] returns, not conservative *)
Hypothesis AB : is_abstraction inter diff fulldim pts null touch volume radius dsolve rd min_cell_volume abs_tol trans_length false dreach part props pwa ab.
Definition subsystems : nat := match pwa with Some (_, subs) => List.length subs | None => 0 end.
Notation cells := (p_regions (ab_ppp ab)).
Notation coarse := (p_regions (ab_pwa_ppp ab)).

(** ** Maps *)
(** The states are the numbers of the cells. *)
Theorem ts2ppp_spec s k c : ts2ppp ab s = Ok (k, c) <-> s = state k /\ nth_error cells k = Some c.
Proof.
  unfold ts2ppp, states_of. split.
  - intro H. destruct (position s _) as [j|] eqn:P; [|discriminate]. cbn [bind] in H. destruct (nth_error cells j) as [r|] eqn:N; [|discriminate]. cbn [of_opt bind] in H. injection H as -> ->.
    apply position_in in P. assert (L := nth_error_lt _ _ _ N). rewrite nth_error_map, (nth_error_nth' _ 0) in P by (rewrite seq_length; exact L). rewrite seq_nth in P by exact L. injection P as <-. auto.
  - intros [-> N]. rewrite (position_state k _ (nth_error_lt _ _ _ N)). cbn [bind]. rewrite N. reflexivity.
Qed.
(** Each cell is inside the region that its transitions may pass through, which is inside the region of the
    given partition; the three have the same propositions. *)
Theorem cell_maps k c : nth_error cells k = Some c -> exists i r j o,
  ppp2pwa ab k = Ok (i, r) /\ ppp2orig part ab k = Ok (j, o) /\ nth_error coarse i = Some r /\ nth_error (p_regions part) j = Some o /\
  (forall x, inside (fst c) x -> inside (fst r) x) /\ (forall x, inside (fst r) x -> inside (fst o) x) /\ snd c = snd r /\ snd c = snd o.
Proof.
  intro N. destruct (ab_maps _ _ _ _ _ _ _ _ _ _ _ _ _ _ _ _ _ _ _ AB) as (f & g & adj & M1 & M2 & _). destruct (M1 k c N) as (r & o & C1 & C2 & C3 & C4 & C5 & C6). destruct (M2 eq_refl) as [E1 E2].
  assert (L := nth_error_lt _ _ _ N). assert (NF : forall h : nat -> nat, nth_error (map h (List.seq 0 (List.length cells))) k = Some (h k)).
  { intro h. rewrite nth_error_map, (nth_error_nth' _ 0) by (rewrite seq_length; exact L). rewrite seq_nth by exact L. reflexivity. }
  exists (f k), r, (g k), o. unfold ppp2pwa, ppp2orig. rewrite E1, E2, !NF. cbn [of_opt bind]. rewrite C1, C2. auto 8.
Qed.
(** A linear system has one number; of a piecewise affine one the subsystem whose domain the cell is in. *)
Theorem cell_system k c : nth_error cells k = Some c ->
  match pwa with
  | None => ppp2sys subsystems ab k = Ok (0, None)
  | Some (_, subs) => exists i u, ppp2sys subsystems ab k = Ok (i, Some i) /\ nth_error subs i = Some u /\ forall x, inside (fst c) x -> inside u x
  end.
Proof.
  intro N. assert (S := ab_systems _ _ _ _ _ _ _ _ _ _ _ _ _ _ _ _ _ _ _ AB). unfold ppp2sys, subsystems. destruct pwa as [(dm & subs)|].
  - destruct S as (l & E & _ & H). destruct (H k c N) as (i & u & A & B & C). exists i, u. rewrite E, A. cbn [of_opt bind]. rewrite (proj2 (Nat.ltb_lt _ _) (nth_error_lt _ _ _ B)). auto.
  - rewrite S. reflexivity.
Qed.

(** ** Transitions *)
Context (solve : nat -> bool -> bool -> option nat -> R -> R -> R -> res R).
Notation verify := (verify_transitions le solve subsystems ab).
(** The entry of the log for a transition from cell [i] to cell [j]: correct if [solve_feasible] with horizon [N]
    in closed loop finds all of cell [i]. *)
Definition reported (N : nat) (all : bool) (e : edge obj pv) (entry : nat * nat * bool) : Prop :=
  exists i j ci cj k r m sub S0 b, e_src e = state i /\ e_dst e = state j /\ nth_error cells i = Some ci /\ nth_error cells j = Some cj /\
    ppp2pwa ab i = Ok (k, r) /\ ppp2sys subsystems ab i = Ok (m, sub) /\ solve N true all sub (fst ci) (fst cj) (fst r) = Ok S0 /\
    entry = (i, j, b) /\ (b = true <-> forall x, inside (fst ci) x -> inside S0 x).
Lemma edge_cells e : In e (g_edges (f_graph (ab_ts ab))) -> exists i j ci cj, e_src e = state i /\ e_dst e = state j /\ nth_error cells i = Some ci /\ nth_error cells j = Some cj.
Proof.
  intro I. destruct (ab_maps _ _ _ _ _ _ _ _ _ _ _ _ _ _ _ _ _ _ _ AB) as (f & g & adj & _ & _ & _ & _ & T & _).
  destruct (T (e_src e) (e_attr e) (e_dst e)) as (_ & i & j & r & ci & cj & A & B & C & D & _).
  { exists e. split; [exact I|]. split; [reflexivity|]. split; [reflexivity|]. intro; reflexivity. }
  eauto 8.
Qed.
Lemma sys_ex k c : nth_error cells k = Some c -> exists m sub, ppp2sys subsystems ab k = Ok (m, sub).
Proof. intro N. assert (S := cell_system k c N). destruct pwa as [(dm & subs)|]; [destruct S as (i & u & -> & _)|rewrite S]; eauto. Qed.
Theorem verify_reports N all loop : (forall sub a b t, exists S0, solve N true all sub a b t = Ok S0) ->
  exists log, verify (made_params N loop all) = Ok log /\ Forall2 (reported N all) (g_edges (f_graph (ab_ts ab))) log.
Proof.
  intro TOT. unfold verify_transitions. assert (K : forall e, In e (g_edges (f_graph (ab_ts ab))) -> exists y, verify_edge le solve subsystems ab (made_params N loop all) e = Ok y /\ reported N all e y).
  { intros e I. destruct (edge_cells e I) as (i & j & ci & cj & A & B & C & D). unfold verify_edge.
    rewrite (proj2 (ts2ppp_spec (e_src e) i ci) (Logic.conj A C)), (proj2 (ts2ppp_spec (e_dst e) j cj) (Logic.conj B D)). cbn [bind fst snd].
    destruct (cell_maps i ci C) as (k & r & k' & o & P1 & _). destruct (sys_ex i ci C) as (m & sub & P2). unfold ppp2trans. rewrite P1. cbn [bind]. rewrite P2. cbn [bind fst snd].
    unfold solve_with. cbn [made_params vp_close_loop vp_N vp_all]. destruct (TOT sub (fst ci) (fst cj) (fst r)) as (S0 & E). rewrite E. cbn [bind].
    eexists. split; [reflexivity|]. exists i, j, ci, cj, k, r, m, sub, S0, (le (fst ci) S0). do 8 (split; [first [assumption|reflexivity]|]). apply le_ok. }
  revert K. generalize (g_edges (f_graph (ab_ts ab))). induction l as [|e l IH]; intro K; [exists []; split; [reflexivity|constructor]|].
  destruct (K e (or_introl eq_refl)) as (y & E & RY). destruct (IH (fun x J => K x (or_intror J))) as (log & F & RL). exists (y :: log). cbn [mapr]. rewrite E. cbn [bind]. rewrite F. split; [reflexivity|constructor; assumption].
Qed.
(** If [solve_feasible] finds states only from which the target is reached, then a transition that is reported as
    correct can be executed in closed loop from each state of its cell. *)
Theorem verify_correct (reach : nat -> bool -> bool -> option nat -> (X -> Prop) -> (X -> Prop) -> X -> Prop) N all loop log i j :
  (forall sub a b t, exists S0, solve N true all sub a b t = Ok S0) ->
  (forall n b1 b2 s a b t S0 x, solve n b1 b2 s a b t = Ok S0 -> inside a x -> inside S0 x -> reach n b1 b2 s (inside t) (inside b) x) ->
  verify (made_params N loop all) = Ok log -> In (i, j, true) log ->
  exists e ci cj k r m sub, In e (g_edges (f_graph (ab_ts ab))) /\ e_src e = state i /\ e_dst e = state j /\ nth_error cells i = Some ci /\ nth_error cells j = Some cj /\
    ppp2pwa ab i = Ok (k, r) /\ ppp2sys subsystems ab i = Ok (m, sub) /\ forall x, inside (fst ci) x -> reach N true all sub (inside (fst r)) (inside (fst cj)) x.
Proof.
  intros TOT SO V I. destruct (verify_reports N all loop TOT) as (log' & V' & F). assert (log' = log) by congruence. subst log'.
  assert (G : exists e, In e (g_edges (f_graph (ab_ts ab))) /\ reported N all e (i, j, true)).
  { clear - F I. induction F as [|e y es ys P F IH]; [destruct I|]. destruct I as [-> |I]; [exists e; split; [left; reflexivity|exact P]|]. destruct (IH I) as (e' & J & Q). exists e'. split; [right; exact J|exact Q]. }
  destruct G as (e & IE & i' & j' & ci & cj & k & r & m & sub & S0 & b & A & B & C & D & P1 & P2 & SV & Q & BB). injection Q as <- <- <-.
  exists e, ci, cj, k, r, m, sub. do 7 (split; [assumption|]). intros x IX. apply (SO _ _ _ _ _ _ _ S0 x SV IX). apply (proj1 BB eq_refl x IX).
Qed.
End Verify.
(** Whether the abstraction was made in open loop does not matter. *)
Theorem verify_ignores_loop {R} le solve subs (ab : abstraction R) n cl l l' all :
  verify_transitions le solve subs ab (VParams n cl l all) = verify_transitions le solve subs ab (VParams n cl l' all).
Proof. reflexivity. Qed.
(** The name that is asked for would be an error if it were given. *)
Theorem verify_close_loop {R} le solve subs (ab : abstraction R) n b l all log : g_edges (f_graph (ab_ts ab)) <> [] ->
  verify_transitions le solve subs ab (VParams n (Some b) l all) <> Ok log.
Proof.
  intros NE H. unfold verify_transitions in H. destruct (g_edges (f_graph (ab_ts ab))) as [|e es]; [congruence|]. cbn [mapr] in H. unfold verify_edge in H.
  destruct (ts2ppp ab (e_src e)); [|discriminate]. destruct (ts2ppp ab (e_dst e)); [|discriminate]. cbn [bind] in H. destruct (ppp2trans subs ab _); [|discriminate]. cbn in H. discriminate.
Qed.
Print Assumptions ts2ppp_spec.
Print Assumptions cell_maps.
Print Assumptions cell_system.
Print Assumptions verify_reports.
Print Assumptions verify_correct.
Print Assumptions verify_ignores_loop.
Print Assumptions verify_close_loop.

(** ** A case *)
(** The solver of T_Abstract in closed loop; nothing is found in open loop. *)
Definition loop_solve (next : nat -> nat) (N : nat) (closed all : bool) (s : option nat) (a b t : pt_R) : res pt_R := if closed then pt_solve next s a b (Some t) else Ok [].
Notation pt_verify next subs ab p := (verify_transitions pt_le (loop_solve next) subs ab p).
Lemma pt_given_modes : given pt_diff pt_fulldim pt_pts pt_null pt_touch (pt_two [0; 2; 4] [6; 8]) [("a", [6; 8])] pt_modes.
Proof.
  apply pt_two_given; [reflexivity|reflexivity| |].
  - intros x A B. cbn in A, B. intuition congruence.
  - intros dom subs [= <- <-]. split; [reflexivity|]. split.
    + intros x [A B]. exfalso. unfold inside in *. apply pt_pts_In in A. cbn [In] in A. destruct A as [<- | [<- | [<- | [<- | [<- | []]]]]];
        first [apply (B [0; 2]); [left; reflexivity|reflexivity] | apply (B [4; 6; 8]); [right; left; reflexivity|reflexivity]].
    + constructor; [|repeat constructor]. constructor; [|constructor]. intros x [A B]. unfold inside in *. apply pt_pts_In in A, B. exfalso. cbn in A, B. intuition congruence.
Qed.
Example verify_case : exists ab log, pt_discretize pt_next half false false 20 pt_modes (pt_two [0; 2; 4] [6; 8]) = Some (Ok ab) /\
  pt_verify pt_next 2 ab (made_params 2 true false) = Ok log /\ Forall2 (reported pt_pts pt_modes ab (loop_solve pt_next) 2 false) (g_edges (f_graph (ab_ts ab))) log /\
  log = [(0, 3, true); (1, 2, true); (2, 2, true); (3, 1, true)] /\
  ts2ppp ab (state 3) = Ok (3, ([2], [])) /\ ppp2pwa ab 3 = Ok (0, ([0; 2], [])) /\ ppp2orig (pt_two [0; 2; 4] [6; 8]) ab 3 = Ok (0, ([0; 2; 4], [])) /\ ppp2sys 2 ab 1 = Ok (1, Some 1).
Proof.
  destruct (pt_discretize pt_next half false false 20 pt_modes (pt_two [0; 2; 4] [6; 8])) as [[ab|e]|] eqn:E; [|vm_compute in E; discriminate|vm_compute in E; discriminate].
  destruct (verify_reports _ _ _ _ _ _ _ _ _ pt_le_ok _ _ _ _ _ _ _ _ _ ab (pt_sound _ _ _ _ _ pt_modes _ _ ab pt_given_modes E) (loop_solve pt_next) 2 false true) as (log & V & F); [intros; eexists; reflexivity|].
  exists ab, log. split; [reflexivity|]. split; [exact V|]. split; [exact F|]. clear F. vm_compute in E. injection E as <-. vm_compute in V. injection V as <-. vm_compute. auto 8.
Qed.

(** ** Refuted *)
(** A transition that [discretize] makes because the states that were not found have a small volume is
    reported as incorrect. *)
Theorem verify_small_cell_refuted : exists ab log, pt_discretize (fun x => x) (qn 2) false false 20 None (pt_two [0] [2]) = Some (Ok ab) /\
  pt_verify (fun x => x) 0 ab (made_params 1 true false) = Ok log /\ In (0, 1, false) log.
Proof. eexists. eexists. split; [vm_compute; reflexivity|]. split; [vm_compute; reflexivity|]. vm_compute. auto. Qed.
(** The transitions of an abstraction in open loop are checked in closed loop: here none can be executed in open
    loop, and one is reported as correct. *)
Theorem verify_open_loop_refuted : exists ab log,
  discretize_bi pt_inter pt_diff pt_fulldim pt_le pt_adjacent pt_separate pt_touch pt_volume pt_volume pt_separate
    (fun s a b t => loop_solve pt_next 1 false false s a b (match t with Some c => c | None => a end)) (fun _ => 0%Qc) half (qn 2) 1 false false 20 None (pt_two [0] [2]) = Some (Ok ab) /\
  pt_verify pt_next 0 ab (made_params 1 false false) = Ok log /\ In (0, 1, true) log /\
  forall a b t, loop_solve pt_next 1 false false None a b t = Ok [].
Proof. eexists. eexists. split; [vm_compute; reflexivity|]. split; [vm_compute; reflexivity|]. split; [vm_compute; auto|reflexivity]. Qed.
(** A conservative abstraction lacks the map to the regions that transitions pass through. *)
Theorem verify_conservative_refuted : exists ab, pt_discretize pt_next half true false 20 None (pt_two [0; 2; 4] [6; 8]) = Some (Ok ab) /\
  pt_verify pt_next 0 ab (made_params 2 true false) = Err "IndexError".
Proof. eexists. split; vm_compute; reflexivity. Qed.
Print Assumptions verify_small_cell_refuted.
Print Assumptions verify_open_loop_refuted.
Print Assumptions verify_conservative_refuted.
