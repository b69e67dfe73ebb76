(** Lemmas on the constraints and costs of M_Control. *)
From Coq Require Import List String Bool Arith Lia QArith Qcanon Qcabs.
From Verif Require Import M_Base L_Sum M_Feas S_Feas L_Feas T_Feas M_Horizon L_FM T_Horizon L_LP M_Control.
Import ListNotations.
Open Scope string_scope.
Open Scope list_scope.
Open Scope nat_scope.
Open Scope Qc_scope.

(** ** Rows *)
Definition shift (w : nat) (v : vec) : vec := fun j => v (w + j)%nat.
Lemma lin_hcat w1 w2 a b v : lin (w1 + w2) (hcat w1 a b) v = lin w1 a v + lin w2 b (shift w1 v).
Proof.
  unfold lin. rewrite sum_plus. f_equal; apply sum_ext; intros j J; unfold hcat.
  - apply Nat.ltb_lt in J. rewrite J. reflexivity.
  - replace (w1 + j <? w1)%nat with false by (symmetry; apply Nat.ltb_ge; lia). unfold shift. do 2 f_equal. lia.
Qed.
Lemma lin_hcat_r w1 w2 a x y : lin (w1 + w2) a (hcat w1 x y) = lin w1 a x + lin w2 (fun j => a (w1 + j)%nat) y.
Proof.
  unfold lin. rewrite sum_plus. f_equal; apply sum_ext; intros j J; unfold hcat.
  - apply Nat.ltb_lt in J. rewrite J. reflexivity.
  - replace (w1 + j <? w1)%nat with false by (symmetry; apply Nat.ltb_ge; lia). do 2 f_equal. lia.
Qed.
Lemma lin_neg w a v : lin w (vneg a) v = - lin w a v.
Proof. unfold lin, vneg. replace (- sum w (fun j => a j * v j)) with ((- (1)) * sum w (fun j => a j * v j)) by ring. rewrite <- sum_mul_l. apply sum_ext. intros. ring. Qed.
Lemma lin_zeros w v : lin w zeros v = 0.
Proof. apply sum_zero. intros. unfold zeros. ring. Qed.
Lemma lin_ones w v : lin w ones v = sum w v.
Proof. apply sum_ext. intros. unfold ones. ring. Qed.
Lemma lin_eye w i v : (i < w)%nat -> lin w (eye i) v = v i.
Proof.
  intro I. unfold lin. rewrite (sum_single w i); [|exact I|].
  - unfold eye. rewrite Nat.eqb_refl. ring.
  - intros j _ NE. unfold eye. replace (i =? j)%nat with false by (symmetry; apply Nat.eqb_neq; auto). ring.
Qed.
Lemma lin_row_dot w k a M v : lin w (row_dot k a M) v = lin k a (fun i => lin w (M i) v).
Proof. unfold lin, row_dot. apply (sum_assoc k w a M v). Qed.
Lemma le_eq0 a b : a + b <= 0 <-> a <= - b.
Proof.
  split; intro H.
  - apply Qcle_minus_iff in H. apply Qcle_minus_iff. replace (- b + - a) with (0 + - (a + b)) by ring. exact H.
  - apply Qcle_minus_iff in H. apply Qcle_minus_iff. replace (0 + - (a + b)) with (- b + - a) by ring. exact H.
Qed.
Lemma abs_two e x : (- e + - x <= 0 /\ - e + x <= 0) <-> Qcabs x <= e.
Proof.
  rewrite Qcabs_Qcle_condition. split; intros [H1 H2]; split.
  - apply Qcle_minus_iff in H1. apply Qcle_minus_iff. replace (x + - - e) with (0 + - (- e + - x)) by ring. exact H1.
  - apply Qcle_minus_iff in H2. apply Qcle_minus_iff. replace (e + - x) with (0 + - (- e + x)) by ring. exact H2.
  - apply Qcle_minus_iff in H1. apply Qcle_minus_iff. replace (0 + - (- e + - x)) with (x + - - e) by ring. exact H1.
  - apply Qcle_minus_iff in H2. apply Qcle_minus_iff. replace (0 + - (- e + x)) with (e + - x) by ring. exact H2.
Qed.

Section Rows.
Variable sys : sysdyn.
Notation n := (sd_n sys).
Notation m := (sd_m sys).
Notation traj := (traj sys).

Lemma fix_x0_lin x0 h N u : lin (N * m) (h_a (fix_x0 sys x0 h)) u <= h_b (fix_x0 sys x0 h) <-> lin (n + N * m) (h_a h) (hcat n x0 u) <= h_b h.
Proof.
  unfold fix_x0. cbn [h_a h_b]. rewrite lin_hcat_r. apply le_minus. unfold lin. ring.
Qed.
Lemma fix_x0_inside x0 L N u : inside (N * m) (map (fix_x0 sys x0) L) u <-> inside (n + N * m) L (hcat n x0 u).
Proof.
  unfold inside. split; intros H h I.
  - apply fix_x0_lin. apply H. apply in_map. exact I.
  - apply in_map_iff in I. destruct I as (g & <- & I). apply fix_x0_lin. apply H. exact I.
Qed.
Lemma inputs_hcat x0 u t c : inputs sys (hcat n x0 u) t c = u_rows sys u t c.
Proof.
  unfold inputs, hcat, u_rows. replace (n + m * t + c <? n)%nat with false by (symmetry; apply Nat.ltb_ge; lia). f_equal. lia.
Qed.
Lemma traj_hcat x0 u d i k : (i <> 0%nat \/ (k < n)%nat) -> traj (hcat n x0 u) (inputs sys (hcat n x0 u)) d i k = traj x0 (u_rows sys u) d i k.
Proof.
  revert k. induction i as [|i IH]; intros k K.
  - destruct K as [K|K]; [congruence|]. cbn [S_Feas.traj]. unfold hcat. apply Nat.ltb_lt in K. rewrite K. reflexivity.
  - cbn [S_Feas.traj]. apply step_ext.
    + intros j J. apply IH. auto.
    + intro c. apply inputs_hcat.
Qed.

Lemma input_ext x y u v : (forall j, (j < n)%nat -> x j = y j) -> (forall c, u c = v c) -> input_ok sys x u -> input_ok sys y v.
Proof.
  intros HX HU. unfold input_ok. destruct (sd_Uw sys =? m)%nat.
  - apply inside_ext. auto.
  - apply inside_ext. intros k K. destruct (k <? m)%nat eqn:E; [apply HU|]. apply HX. apply Nat.ltb_ge in E. lia.
Qed.

(** [x0] fixed, the constraint on [x(0)] dropped *)
Lemma drop_first N P0 Ps ind L : lm_E sys = {| a_rows := n; a_cols := sd_p sys; a_at := sd_E sys |} ->
  match ind with Some l => existsb (Nat.eqb 0) l = false | None => True end ->
  createLM sys N (P0 :: Ps) ind = Ok L -> createLM sys N ([] :: Ps) ind = Ok (skipn (List.length P0) L).
Proof.
  intros EU I0 C. unfold createLM in *. cbn [List.length] in *. destruct (S (List.length Ps) =? N + 1)%nat; [|discriminate].
  set (dist := fun i => match ind with Some l => existsb (Nat.eqb i) l | None => ((1 <=? i) && (i <=? N))%nat end) in *.
  assert (D0 : dist O = false) by (unfold dist; destruct ind; [exact I0|reflexivity]).
  change (createLM_on sys N (fun i => nth i (P0 :: Ps) []) dist = Ok L) in C.
  change (createLM_on sys N (fun i => nth i ([] :: Ps) []) dist = Ok (skipn (List.length P0) L)).
  set (P := fun i => nth i (P0 :: Ps) []) in *. set (P' := fun i => nth i ([] :: Ps) []).
  rewrite (createLM_shape sys N P dist EU) in C. rewrite (createLM_shape sys N P' dist EU).
  assert (SEQ : List.seq 0 (N + 1) = O :: List.seq 1 N) by (rewrite Nat.add_1_r; reflexivity).
  assert (KR : flat_map (kpairs sys N P dist) (List.seq 1 N) = flat_map (kpairs sys N P' dist) (List.seq 1 N)).
  { rewrite !flat_map_concat_map. f_equal. apply map_ext_in. intros i Hi. apply in_seq in Hi. unfold kpairs. destruct i; [lia|]. reflexivity. }
  assert (FL : flat sys N P dist = flat sys N P' dist).
  { unfold flat. rewrite SEQ. cbn [flat_map]. rewrite !map_app, !forallb_app, KR.
    replace (forallb (vec_zero (sd_p sys * N)) (map snd (kpairs sys N P dist 0))) with true; [reflexivity|]. symmetry.
    apply forallb_forall. intros g G. apply in_map_iff in G. destruct G as ((h & g') & <- & G). unfold kpairs in G. rewrite D0 in G. apply in_map_iff in G.
    destruct G as (h' & E & _). injection E as _ <-. cbn [snd]. unfold vec_zero. apply forallb_forall. intros; reflexivity. }
  rewrite FL in C. destruct (flat sys N P' dist || _)%bool; [|discriminate]. f_equal.
  match type of C with Ok ?X = Ok _ => assert (LE : X = L) by congruence end. clear C. rewrite <- LE. clear LE.
  unfold pairs at 2. rewrite SEQ. cbn [flat_map]. rewrite KR.
  assert (LEN : List.length P0 = List.length (kpairs sys N P dist 0)) by (unfold kpairs; rewrite map_length; reflexivity).
  rewrite <- app_assoc, map_app, skipn_app, map_length, <- LEN, Nat.sub_diag. rewrite skipn_all2 by (rewrite map_length; lia). cbn [app skipn].
  unfold pairs. rewrite SEQ. cbn [flat_map]. change (kpairs sys N P' dist 0) with (@nil (half * vec)). cbn [app].
  unfold dh. rewrite FL. reflexivity.
Qed.

(** ** What the constraints mean, for plants with or without disturbances *)
Hypothesis states : n <> 0%nat.
Definition E_zero : Prop := forall k j, (k < n)%nat -> (j < sd_p sys)%nat -> sd_E sys k j = 0.
Definition plant_ok (N : nat) (Ps : list poly) (ind : option (list nat)) : Prop :=
  (sd_Uw sys = m \/ (sd_Uw sys = (m + n)%nat /\ (E_zero \/ disturbed sys N Ps ind))) /\
  (E_zero \/ (sd_Wfull sys = true /\ sd_Wext sys <> [])).
Lemma plant_used N Ps ind : plant_ok N Ps ind -> lm_E sys = {| a_rows := n; a_cols := sd_p sys; a_at := sd_E sys |}.
Proof. intros [_ [H|[H _]]]; [apply zero_used; exact H|apply full_used; exact H]. Qed.
Lemma lin_E_zero k (v : vec) : E_zero -> (k < n)%nat -> lin (sd_p sys) (sd_E sys k) v = 0.
Proof. intros E K. apply sum_zero. intros j J. rewrite E by auto. ring. Qed.
Lemma traj_E_zero z u d e i k : E_zero -> (k < n)%nat -> traj z u d i k = traj z u e i k.
Proof.
  intro E. revert k. induction i as [|i IH]; intros k K; [reflexivity|]. cbn [S_Feas.traj]. unfold step. rewrite !(lin_E_zero k _ E K).
  f_equal. f_equal. f_equal. apply lin_ext. intros j J. apply IH. exact J.
Qed.
Lemma lm_iff N Ps ind L z : (1 <= N)%nat -> plant_ok N Ps ind -> createLM sys N Ps ind = Ok L ->
  (inside (n + N * m) L z <->
   forall d, disturbance_seq sys N d ->
     (forall i, (i <= N)%nat -> inside n (nth i Ps []) (traj z (inputs sys z) (at_times N ind i d) i)) /\
     (forall i, (i < N)%nat -> input_ok sys (traj z (inputs sys z) (at_times N ind i d) i) (inputs sys z i))).
Proof.
  intros N1 [W D] C. destruct (E_dec sys states (ltac:(tauto))) as [E0|NZ].
  - assert (LEN : List.length Ps = (N + 1)%nat) by (apply createLM_unfold in C; tauto).
    destruct (createLM_nominal sys N Ps ind z N1 states E0 ltac:(tauto) LEN) as (L' & C' & IFF). rewrite C in C'. injection C' as <-. rewrite IFF. split.
    + intros [H1 H2] d _. split; intros i I.
      * apply (inside_ext n _ (traj z (inputs sys z) (fun _ _ => 0) i)); [|apply H1; exact I]. intros k K. apply traj_E_zero; auto.
      * apply (input_ext (traj z (inputs sys z) (fun _ _ => 0) i) _ (inputs sys z i)); [|reflexivity|apply H2; exact I]. intros k K. apply traj_E_zero; auto.
    + intro H. assert (D0 : disturbance_seq sys N (fun _ _ => 0)).
      { intros t _ (k & j & K & J & NE). destruct NE. apply E0; auto. }
      destruct (H _ D0) as [H1 H2]. split; intros i I.
      * apply (inside_ext n _ (traj z (inputs sys z) (at_times N ind i (fun _ _ => 0)) i)); [|apply H1; exact I]. intros k K. apply traj_E_zero; auto.
      * apply (input_ext (traj z (inputs sys z) (at_times N ind i (fun _ _ => 0)) i) _ (inputs sys z i)); [|reflexivity|apply H2; exact I]. intros k K. apply traj_E_zero; auto.
  - assert (NE0 : ~ E_zero) by (intro E0; destruct NZ as (k & j & K & J & NE); apply NE; apply E0; auto).
    destruct D as [D|[WF NE]]; [contradiction|].
    rewrite (createLM_exact sys N Ps ind L z N1 states WF NE ltac:(tauto) C). split; intros H d Hd.
    + apply H. intros t T. apply (Hd t T). exact NZ.
    + apply H. intros t T _. apply Hd. exact T.
Qed.
(** With the initial state fixed *)
Lemma rows_iff N P0 Ps ind L x0 u : (1 <= N)%nat -> plant_ok N (P0 :: Ps) ind ->
  match ind with Some l => existsb (Nat.eqb 0) l = false | None => True end -> createLM sys N (P0 :: Ps) ind = Ok L ->
  (inside (N * m) (input_rows sys x0 P0 L) u <->
   forall d, disturbance_seq sys N d ->
     (forall i, (i < N)%nat -> inside n (nth i Ps []) (traj x0 (u_rows sys u) (at_times N ind (S i) d) (S i))) /\
     (forall i, (i < N)%nat -> input_ok sys (traj x0 (u_rows sys u) (at_times N ind i d) i) (u_rows sys u i))).
Proof.
  intros N1 PO I0 C. assert (C' := drop_first N P0 Ps ind L (plant_used _ _ _ PO) I0 C).
  assert (PO' : plant_ok N ([] :: Ps) ind).
  { destruct PO as [W D]. split; [|exact D]. destruct W as [W|[W [X|X]]]; [left; exact W|right; auto|right; split; [exact W|right]].
    destruct X as (i & h & z & d & I & DI & H & NE). exists i, h, z, d. repeat split; auto. destruct i; [|exact H]. exfalso. destruct ind as [l|].
    - assert (T : existsb (Nat.eqb 0) l = true) by (apply existsb_exists; exists O; split; [exact DI|reflexivity]). congruence.
    - lia. }
  unfold input_rows. rewrite fix_x0_inside. rewrite (lm_iff N ([] :: Ps) ind _ _ N1 PO' C'). split; intros H d D; destruct (H d D) as [H1 H2]; split; intros i I.
  - specialize (H1 (S i) ltac:(lia)). cbn [nth] in H1. revert H1. apply inside_ext. intros k K. apply traj_hcat. auto.
  - specialize (H2 i I). revert H2. apply input_ext; [|apply inputs_hcat]. intros k K. apply traj_hcat. auto.
  - destruct i as [|i]; [intros h []|]. cbn [nth]. specialize (H1 i ltac:(lia)). revert H1. apply inside_ext. intros k K. symmetry. apply traj_hcat. auto.
  - specialize (H2 i I). revert H2. apply input_ext; [|intro c; symmetry; apply inputs_hcat]. intros k K. symmetry. apply traj_hcat. auto.
Qed.

(** ** The effect of inputs on the states without disturbances *)
(** The states [x(1), ..., x(N)] without disturbances, as one vector *)
Definition path (x0 : vec) (u : vec) : vec := fun q => traj x0 (u_rows sys u) (fun _ _ => 0) (S (q / n)) (q mod n)%nat.
Lemma it_at_An i k j : (k < n)%nat -> (j < n)%nat -> it_at sys i k j = An sys (S i) k j.
Proof.
  revert k. induction i as [|i IH]; intros k K J.
  - cbn [it_at An]. unfold next_An, mat_dot, row_dot. rewrite (sum_single n j); [unfold eye; rewrite Nat.eqb_refl; ring|exact J|].
    intros l _ NE. unfold eye. replace (l =? j)%nat with false by (symmetry; apply Nat.eqb_neq; auto). ring.
  - cbn [it_at]. change (An sys (S (S i))) with (next_An sys (An sys (S i))). unfold next_An, mat_dot, row_dot. apply sum_ext. intros l Hl. rewrite IH by auto. reflexivity.
Qed.
Lemma path_eq N x0 u q : (1 <= N)%nat -> lm_E sys = {| a_rows := n; a_cols := sd_p sys; a_at := sd_E sys |} -> (q < N * n)%nat ->
  path x0 u q = sum n (fun j => A_N sys q j * x0 j) + sum (n * N) (fun i => A_K sys q i * K_hat sys i) + lin (N * m) (Ct sys N q) u.
Proof.
  intros N1 EU Hq. unfold path. assert (QD : (q / n < N)%nat) by (apply Nat.div_lt_upper_bound; lia).
  assert (QM : (q mod n < n)%nat) by (apply Nat.mod_upper_bound; exact states).
  rewrite <- traj_hcat by auto. rewrite <- (state_traj sys N N1 EU (hcat n x0 u) (fun _ _ => 0) (S (q / n)) ltac:(lia)) by exact QM.
  unfold state_of, A_N, A_K. change (row_at sys) with (Ak sys).
  assert (T1 : sum n (fun j => An sys (S (q / n)) (q mod n) j * hcat n x0 u j) = sum n (fun j => it_at sys (q / n) (q mod n) j * x0 j)).
  { apply sum_ext. intros j J. rewrite it_at_An by auto. unfold hcat. apply Nat.ltb_lt in J. rewrite J. reflexivity. }
  rewrite T1. rewrite <- Qcplus_assoc. f_equal.
  assert (T2 : lin (N * m) (Ct sys N q) u = sum (n * N) (fun r => Ak sys (S (q / n)) (q mod n) r * lin (N * m) (B_diag sys N r) u)).
  { unfold Ct, mat_dot. rewrite lin_row_dot. reflexivity. }
  rewrite T2, <- sum_add. apply sum_ext. intros r Hr. unfold effect.
  replace (sum (sd_p sys * N) (fun c => E_diag sys N r c * stack (sd_p sys) (fun _ _ => 0) c)) with 0 by (symmetry; apply sum_zero; intros; unfold stack; ring).
  replace (sum (m * N) (fun c => B_diag sys N r c * hcat n x0 u (n + c)%nat)) with (lin (N * m) (B_diag sys N r) u).
  - ring.
  - unfold lin. rewrite (Nat.mul_comm m N). apply sum_ext. intros c Hc. unfold hcat. replace (n + c <? n)%nat with false by (symmetry; apply Nat.ltb_ge; lia).
    do 2 f_equal. lia.
Qed.
(** The part of the states that comes from the inputs *)
Definition gain (x0 u : vec) : vec := fun q => path x0 u q - path x0 zeros q.
Lemma gain_eq N x0 u q : (1 <= N)%nat -> lm_E sys = {| a_rows := n; a_cols := sd_p sys; a_at := sd_E sys |} -> (q < N * n)%nat ->
  gain x0 u q = lin (N * m) (Ct sys N q) u.
Proof.
  intros N1 EU Hq. unfold gain. rewrite !(path_eq N x0) by auto.
  replace (lin (N * m) (Ct sys N q) zeros) with 0 by (symmetry; apply sum_zero; intros; unfold zeros; ring). ring.
Qed.
End Rows.

(** ** The linear programs *)
(** The norms of the first [w] entries *)
Definition norm1 (w : nat) (v : vec) : Qc := sum w (fun i => Qcabs (v i)).
Fixpoint norm_inf (w : nat) (v : vec) : Qc := match w with O => 0 | S k => Qc_max (norm_inf k v) (Qcabs (v k)) end.
Lemma Qc_max_le a b c : Qc_max a b <= c <-> a <= c /\ b <= c.
Proof.
  unfold Qc_max. destruct (Qclt_le_dec a b) as [L|L]; split; intro H.
  - split; [|exact H]. apply Qcle_trans with b; [apply Qclt_le_weak; exact L|exact H].
  - tauto.
  - split; [exact H|]. apply Qcle_trans with a; auto.
  - tauto.
Qed.
Lemma norm_inf_le w v e : (norm_inf w v <= e) <-> 0 <= e /\ forall i, (i < w)%nat -> Qcabs (v i) <= e.
Proof.
  induction w as [|w IH]; cbn [norm_inf].
  - split; [intro H; split; [exact H|intros; lia]|tauto].
  - rewrite Qc_max_le, IH. split.
    + intros [[H0 H1] H2]. split; [exact H0|]. intros i I. destruct (Nat.eq_dec i w) as [->|]; [exact H2|apply H1; lia].
    + intros [H0 H]. split; [split; [exact H0|]|apply H; lia]. intros i I. apply H. lia.
Qed.
Lemma norm_inf_nonneg w v : 0 <= norm_inf w v.
Proof. apply (proj1 (norm_inf_le w v (norm_inf w v)) (Qcle_refl _)). Qed.
Lemma norm1_ext w v v' : (forall i, (i < w)%nat -> v i = v' i) -> norm1 w v = norm1 w v'.
Proof. intro H. apply sum_ext. intros i I. rewrite H by exact I. reflexivity. Qed.
Lemma norm_inf_ext w v v' : (forall i, (i < w)%nat -> v i = v' i) -> norm_inf w v = norm_inf w v'.
Proof. induction w as [|w IH]; intro H; cbn [norm_inf]; [reflexivity|]. rewrite IH by auto. rewrite H by lia. reflexivity. Qed.
Lemma norm1_nonneg w v : 0 <= norm1 w v.
Proof. replace 0 with (sum w (fun _ => 0)) by (apply sum_zero; reflexivity). apply sum_le. intros. apply Qcabs_nonneg. Qed.

Section Lp.
Variable sys : sysdyn.
Variable N : nat.
Variable R Q : mat.
Variable r : vec.
Notation n := (sd_n sys).
Notation m := (sd_m sys).
Notation Ct := (Ct sys N).
Definition RC (u : vec) : vec := fun i => lin (N * m) (RCt sys N R i) u.
Definition QC (u : vec) : vec := fun i => lin (N * m) (Q i) u.

Definition w_one : nat := (N * n + (N * m + N * m))%nat.
Lemma G_one_iff rows v : inside w_one (G_one sys N R Q rows) v <->
  (forall i, (i < N * n)%nat -> Qcabs (RC (last_u sys w_one N v) i) <= v i) /\
  (forall i, (i < N * m)%nat -> Qcabs (QC (last_u sys w_one N v) i) <= v (N * n + i)%nat) /\
  inside (N * m) rows (last_u sys w_one N v).
Proof.
  set (u := last_u sys w_one N v).
  assert (U : forall a, lin (N * m) a (shift (N * m) (shift (N * n) v)) = lin (N * m) a u).
  { intro a. apply lin_ext. intros j J. unfold shift, u, last_u, w_one. f_equal. lia. }
  assert (T : forall a b c, lin w_one (hcat (N * n) a (hcat (N * m) b c)) v = lin (N * n) a v + (lin (N * m) b (shift (N * n) v) + lin (N * m) c u)).
  { intros a b c. unfold w_one. rewrite lin_hcat, lin_hcat, U. reflexivity. }
  assert (TW : forall h, lin w_one (h_a (wide (N * n + N * m) h)) v = lin (N * m) (h_a h) u).
  { intro h. unfold wide. cbn [h_a]. unfold w_one. rewrite Nat.add_assoc, lin_hcat, lin_zeros, Qcplus_0_l. apply lin_ext. intros j J. unfold shift, u, last_u, w_one. f_equal. lia. }
  unfold G_one, inside. split.
  - intro H. assert (HA : forall h, In h _ -> _) by exact H. clear H. split; [|split].
    + intros i I. apply abs_two. assert (I' : In i (List.seq 0 (N * n))) by (apply in_seq; lia). split.
      * specialize (HA (row0 (hcat (N * n) (vneg (eye i)) (hcat (N * m) zeros (vneg (RCt sys N R i)))))).
        unfold row0 in HA. cbn [h_a h_b] in HA. rewrite T, lin_neg, lin_eye, lin_zeros, lin_neg in HA by exact I. rewrite Qcplus_0_l in HA. apply HA.
        apply in_app_iff. left. apply in_map_iff. exists i. auto.
      * specialize (HA (row0 (hcat (N * n) (vneg (eye i)) (hcat (N * m) zeros (RCt sys N R i))))).
        unfold row0 in HA. cbn [h_a h_b] in HA. rewrite T, lin_neg, lin_eye, lin_zeros in HA by exact I. rewrite Qcplus_0_l in HA. apply HA.
        apply in_app_iff. right. apply in_app_iff. left. apply in_map_iff. exists i. auto.
    + intros i I. apply abs_two. assert (I' : In i (List.seq 0 (N * m))) by (apply in_seq; lia). split.
      * specialize (HA (row0 (hcat (N * n) zeros (hcat (N * m) (vneg (eye i)) (vneg (Q i)))))).
        unfold row0 in HA. cbn [h_a h_b] in HA. rewrite T, lin_zeros, !lin_neg, lin_eye in HA by exact I. rewrite Qcplus_0_l in HA. apply HA.
        do 2 (apply in_app_iff; right). apply in_app_iff. left. apply in_map_iff. exists i. auto.
      * specialize (HA (row0 (hcat (N * n) zeros (hcat (N * m) (vneg (eye i)) (Q i))))).
        unfold row0 in HA. cbn [h_a h_b] in HA. rewrite T, lin_zeros, lin_neg, lin_eye in HA by exact I. rewrite Qcplus_0_l in HA. apply HA.
        do 3 (apply in_app_iff; right). apply in_app_iff. left. apply in_map_iff. exists i. auto.
    + intros h I. rewrite <- TW. change (h_b h) with (h_b (wide (N * n + N * m) h)). apply HA. do 4 (apply in_app_iff; right). apply in_map. exact I.
  - intros (H1 & H2 & H3) h I. repeat (apply in_app_iff in I; destruct I as [I|I]); apply in_map_iff in I; destruct I as (i & <- & I).
    + apply in_seq in I. unfold row0. cbn [h_a h_b]. rewrite T, lin_neg, lin_eye, lin_zeros, lin_neg, Qcplus_0_l by lia. apply (proj2 (abs_two (v i) (RC u i))). apply H1. lia.
    + apply in_seq in I. unfold row0. cbn [h_a h_b]. rewrite T, lin_neg, lin_eye, lin_zeros, Qcplus_0_l by lia. apply (proj2 (abs_two (v i) (RC u i))). apply H1. lia.
    + apply in_seq in I. unfold row0. cbn [h_a h_b]. rewrite T, lin_zeros, !lin_neg, lin_eye, Qcplus_0_l by lia. apply (proj2 (abs_two (v (N * n + i)%nat) (QC u i))). apply H2. lia.
    + apply in_seq in I. unfold row0. cbn [h_a h_b]. rewrite T, lin_zeros, lin_neg, lin_eye, Qcplus_0_l by lia. apply (proj2 (abs_two (v (N * n + i)%nat) (QC u i))). apply H2. lia.
    + rewrite TW. exact (H3 i I).
Qed.
Lemma c_one_eq v : lin w_one (c_one sys N r) v = sum (N * n) v + sum (N * m) (fun i => v (N * n + i)%nat) + lin (N * m) (rCt sys N r) (last_u sys w_one N v).
Proof.
  unfold w_one, c_one. rewrite Nat.add_assoc. replace (N * (n + m))%nat with (N * n + N * m)%nat by lia. rewrite lin_hcat, lin_ones, sum_plus.
  f_equal. apply lin_ext. intros j J. unfold shift, last_u. f_equal. lia.
Qed.
(** The cost that the first program minimizes *)
Definition cost_one (u : vec) : Qc := norm1 (N * n) (RC u) + norm1 (N * m) (QC u) + lin (N * m) (rCt sys N r) u.
Definition eps_one (u : vec) : vec := hcat (N * n) (fun i => Qcabs (RC u i)) (hcat (N * m) (fun i => Qcabs (QC u i)) u).
Lemma eps_one_u u j : last_u sys w_one N (eps_one u) j = u j.
Proof.
  unfold last_u, eps_one, hcat, w_one. replace (N * n + (N * m + N * m) - N * m + j <? N * n)%nat with false by (symmetry; apply Nat.ltb_ge; lia).
  replace (N * n + (N * m + N * m) - N * m + j - N * n <? N * m)%nat with false by (symmetry; apply Nat.ltb_ge; lia). f_equal. lia.
Qed.
Lemma RC_ext u v i : (forall j, (j < N * m)%nat -> u j = v j) -> RC u i = RC v i.
Proof. intro H. unfold RC. apply lin_ext. exact H. Qed.
Lemma QC_ext u v i : (forall j, (j < N * m)%nat -> u j = v j) -> QC u i = QC v i.
Proof. intro H. unfold QC. apply lin_ext. exact H. Qed.
Lemma cost_one_ext u v : (forall j, (j < N * m)%nat -> u j = v j) -> cost_one u = cost_one v.
Proof.
  intro H. unfold cost_one. rewrite (lin_ext (N * m) _ u v H). f_equal. f_equal; apply norm1_ext; intros i _; [apply RC_ext|apply QC_ext]; exact H.
Qed.
Lemma eps_one_ok rows u : inside (N * m) rows u -> inside w_one (G_one sys N R Q rows) (eps_one u) /\ lin w_one (c_one sys N r) (eps_one u) = cost_one u.
Proof.
  intro I. split.
  - apply G_one_iff. split; [|split].
    + intros i Hi. rewrite (RC_ext _ u i (fun j _ => eps_one_u u j)). unfold eps_one, hcat. apply Nat.ltb_lt in Hi. rewrite Hi. apply Qcle_refl.
    + intros i Hi. rewrite (QC_ext _ u i (fun j _ => eps_one_u u j)). unfold eps_one, hcat.
      replace (N * n + i <? N * n)%nat with false by (symmetry; apply Nat.ltb_ge; lia). replace (N * n + i - N * n)%nat with i by lia.
      apply Nat.ltb_lt in Hi. rewrite Hi. apply Qcle_refl.
    + apply (inside_ext _ _ u); [|exact I]. intros j _. symmetry. apply eps_one_u.
  - rewrite c_one_eq. unfold cost_one. f_equal; [f_equal|].
    + apply sum_ext. intros i Hi. unfold eps_one, hcat. apply Nat.ltb_lt in Hi. rewrite Hi. reflexivity.
    + apply sum_ext. intros i Hi. unfold eps_one, hcat. replace (N * n + i <? N * n)%nat with false by (symmetry; apply Nat.ltb_ge; lia).
      replace (N * n + i - N * n)%nat with i by lia. apply Nat.ltb_lt in Hi. rewrite Hi. reflexivity.
    + apply lin_ext. intros j _. apply eps_one_u.
Qed.
Lemma one_cost_le rows v : inside w_one (G_one sys N R Q rows) v -> cost_one (last_u sys w_one N v) <= lin w_one (c_one sys N r) v.
Proof.
  intro I. apply G_one_iff in I. destruct I as (I1 & I2 & _). rewrite c_one_eq. unfold cost_one.
  apply Qcplus_le_compat; [|apply Qcle_refl]. apply Qcplus_le_compat; apply sum_le; auto.
Qed.

Definition w_inf : nat := (2 + N * m)%nat.
Lemma G_inf_iff rows v : inside w_inf (G_inf sys N R Q rows) v <->
  (forall i, (i < N * n)%nat -> Qcabs (RC (last_u sys w_inf N v) i) <= v 0%nat) /\
  (forall i, (i < N * m)%nat -> Qcabs (QC (last_u sys w_inf N v) i) <= v 1%nat) /\
  inside (N * m) rows (last_u sys w_inf N v).
Proof.
  set (u := last_u sys w_inf N v).
  assert (T : forall a b c, lin w_inf (hcat 1 a (hcat 1 b c)) v = a O * v O + (b O * v 1%nat + lin (N * m) c u)).
  { intros a b c. unfold w_inf. change (2 + N * m)%nat with (1 + (1 + N * m))%nat. rewrite lin_hcat, lin_hcat. unfold lin at 1 2. cbn [sum].
    rewrite !Qcplus_0_l. f_equal. f_equal. apply lin_ext. intros j J. unfold shift, u, last_u, w_inf. f_equal. lia. }
  assert (TW : forall h, lin w_inf (h_a (wide 2 h)) v = lin (N * m) (h_a h) u).
  { intro h. unfold wide. cbn [h_a]. unfold w_inf. rewrite lin_hcat, lin_zeros, Qcplus_0_l. apply lin_ext. intros j J. unfold shift, u, last_u, w_inf. f_equal. lia. }
  assert (Z0 : forall e x y, vneg ones O * e + (zeros O * y + x) = - e + x) by (intros; unfold vneg, ones, zeros; ring).
  assert (Z1 : forall e x y, zeros O * y + (vneg ones O * e + x) = - e + x) by (intros; unfold vneg, ones, zeros; ring).
  unfold G_inf, inside. split.
  - intro HA. split; [|split].
    + intros i I. apply abs_two. assert (I' : In i (List.seq 0 (N * n))) by (apply in_seq; lia). split.
      * specialize (HA (row0 (hcat 1 (vneg ones) (hcat 1 zeros (vneg (RCt sys N R i)))))).
        unfold row0 in HA. cbn [h_a h_b] in HA. rewrite T, lin_neg, Z0 in HA. apply HA.
        apply in_app_iff. left. apply in_map_iff. exists i. auto.
      * specialize (HA (row0 (hcat 1 (vneg ones) (hcat 1 zeros (RCt sys N R i))))).
        unfold row0 in HA. cbn [h_a h_b] in HA. rewrite T, Z0 in HA. apply HA.
        apply in_app_iff. right. apply in_app_iff. left. apply in_map_iff. exists i. auto.
    + intros i I. apply abs_two. assert (I' : In i (List.seq 0 (N * m))) by (apply in_seq; lia). split.
      * specialize (HA (row0 (hcat 1 zeros (hcat 1 (vneg ones) (vneg (Q i)))))).
        unfold row0 in HA. cbn [h_a h_b] in HA. rewrite T, lin_neg, Z1 in HA. apply HA.
        do 2 (apply in_app_iff; right). apply in_app_iff. left. apply in_map_iff. exists i. auto.
      * specialize (HA (row0 (hcat 1 zeros (hcat 1 (vneg ones) (Q i))))).
        unfold row0 in HA. cbn [h_a h_b] in HA. rewrite T, Z1 in HA. apply HA.
        do 3 (apply in_app_iff; right). apply in_app_iff. left. apply in_map_iff. exists i. auto.
    + intros h I. rewrite <- TW. change (h_b h) with (h_b (wide 2 h)). apply HA. do 4 (apply in_app_iff; right). apply in_map. exact I.
  - intros (H1 & H2 & H3) h I. repeat (apply in_app_iff in I; destruct I as [I|I]); apply in_map_iff in I; destruct I as (i & <- & I).
    + apply in_seq in I. unfold row0. cbn [h_a h_b]. rewrite T, lin_neg, Z0. apply (proj2 (abs_two (v O) (RC u i))). apply H1. lia.
    + apply in_seq in I. unfold row0. cbn [h_a h_b]. rewrite T, Z0. apply (proj2 (abs_two (v O) (RC u i))). apply H1. lia.
    + apply in_seq in I. unfold row0. cbn [h_a h_b]. rewrite T, lin_neg, Z1. apply (proj2 (abs_two (v 1%nat) (QC u i))). apply H2. lia.
    + apply in_seq in I. unfold row0. cbn [h_a h_b]. rewrite T, Z1. apply (proj2 (abs_two (v 1%nat) (QC u i))). apply H2. lia.
    + rewrite TW. exact (H3 i I).
Qed.
Lemma c_inf_eq v : lin w_inf (c_inf sys N r) v = v 0%nat + v 1%nat + lin (N * m) (rCt sys N r) (last_u sys w_inf N v).
Proof.
  unfold w_inf, c_inf. rewrite lin_hcat, lin_ones. cbn [sum]. rewrite Qcplus_0_l. f_equal. apply lin_ext. intros j J. unfold shift, last_u. f_equal. lia.
Qed.
Definition cost_inf (u : vec) : Qc := norm_inf (N * n) (RC u) + norm_inf (N * m) (QC u) + lin (N * m) (rCt sys N r) u.
Definition eps_inf (u : vec) : vec := fun j => match j with O => norm_inf (N * n) (RC u) | 1%nat => norm_inf (N * m) (QC u) | S (S k) => u k end.
Lemma eps_inf_u u j : last_u sys w_inf N (eps_inf u) j = u j.
Proof. unfold last_u, w_inf. replace (2 + N * m - N * m + j)%nat with (S (S j)) by lia. reflexivity. Qed.
Lemma cost_inf_ext u v : (forall j, (j < N * m)%nat -> u j = v j) -> cost_inf u = cost_inf v.
Proof.
  intro H. unfold cost_inf. rewrite (lin_ext (N * m) _ u v H). f_equal. f_equal; apply norm_inf_ext; intros i _; [apply RC_ext|apply QC_ext]; exact H.
Qed.
Lemma eps_inf_ok rows u : inside (N * m) rows u -> inside w_inf (G_inf sys N R Q rows) (eps_inf u) /\ lin w_inf (c_inf sys N r) (eps_inf u) = cost_inf u.
Proof.
  intro I. split.
  - apply G_inf_iff. split; [|split].
    + intros i Hi. rewrite (RC_ext _ u i (fun j _ => eps_inf_u u j)). apply (proj1 (norm_inf_le _ (RC u) (norm_inf (N * n) (RC u))) (Qcle_refl _)). exact Hi.
    + intros i Hi. rewrite (QC_ext _ u i (fun j _ => eps_inf_u u j)). apply (proj1 (norm_inf_le _ (QC u) (norm_inf (N * m) (QC u))) (Qcle_refl _)). exact Hi.
    + apply (inside_ext _ _ u); [|exact I]. intros j _. symmetry. apply eps_inf_u.
  - rewrite c_inf_eq. unfold cost_inf. f_equal. apply lin_ext. intros j _. apply eps_inf_u.
Qed.
Lemma inf_cost_le rows v : (N * n <> 0)%nat -> (N * m <> 0)%nat -> inside w_inf (G_inf sys N R Q rows) v ->
  cost_inf (last_u sys w_inf N v) <= lin w_inf (c_inf sys N r) v.
Proof.
  intros Z1 Z2 I. apply G_inf_iff in I. destruct I as (I1 & I2 & _). rewrite c_inf_eq. unfold cost_inf.
  apply Qcplus_le_compat; [|apply Qcle_refl]. apply Qcplus_le_compat; apply norm_inf_le; split; auto.
  - apply Qcle_trans with (Qcabs (RC (last_u sys w_inf N v) 0%nat)); [apply Qcabs_nonneg|apply I1; lia].
  - apply Qcle_trans with (Qcabs (QC (last_u sys w_inf N v) 0%nat)); [apply Qcabs_nonneg|apply I2; lia].
Qed.
End Lp.

(** ** The quadratic program *)
Definition quad (w : nat) (P : mat) (v : vec) : Qc := sum w (fun i => v i * lin w (P i) v).
Definition norm2 (w : nat) (v : vec) : Qc := sum w (fun i => v i * v i).
Lemma transp_sum w1 k (M : mat) (v y : vec) : sum w1 (fun i => v i * lin k (fun l => M l i) y) = sum k (fun l => lin w1 (M l) v * y l).
Proof.
  unfold lin. transitivity (sum w1 (fun i => sum k (fun l => v i * (M l i * y l)))).
  - apply sum_ext. intros i _. rewrite sum_mul_l. reflexivity.
  - rewrite sum_swap. apply sum_ext. intros l _. rewrite <- sum_mul_r. apply sum_ext. intros i _. ring.
Qed.
Lemma square_sum w1 w2 k (M M' : mat) (v u : vec) :
  sum w1 (fun i => v i * lin w2 (mat_dot k (transp M) M' i) u) = sum k (fun l => lin w1 (M l) v * lin w2 (M' l) u).
Proof.
  rewrite <- (transp_sum w1 k M v (fun l => lin w2 (M' l) u)). apply sum_ext. intros i _. f_equal. unfold mat_dot. rewrite lin_row_dot. reflexivity.
Qed.
Lemma lin_add w a x y : lin w a (fun i => x i + y i) = lin w a x + lin w a y.
Proof. unfold lin. rewrite <- sum_add. apply sum_ext. intros. ring. Qed.
Lemma lin_comm w a b : lin w a b = lin w b a.
Proof. unfold lin. apply sum_ext. intros. ring. Qed.
Section Qp.
Variable sys : sysdyn.
Variable N : nat.
Variable R Q : mat.
Variable r : vec.
Notation n := (sd_n sys).
Notation m := (sd_m sys).
Hypothesis states : n <> 0%nat.
Hypothesis N1 : (1 <= N)%nat.
Hypothesis EU : lm_E sys = {| a_rows := n; a_cols := sd_p sys; a_at := sd_E sys |}.
Definition objective (w : nat) (P : mat) (q v : vec) : Qc := Q2Qc (1 # 2) * quad w P v + lin w q v.
(** The documented cost, with squares *)
Definition cost_two (x0 u : vec) : Qc :=
  norm2 (N * n) (fun i => lin (N * n) (R i) (path sys x0 u)) + norm2 (N * m) (QC sys N Q u) + lin (N * n) r (path sys x0 u).
Lemma half_two a : Q2Qc (1 # 2) * a + Q2Qc (1 # 2) * a = a.
Proof. replace (Q2Qc (1 # 2) * a + Q2Qc (1 # 2) * a) with ((Q2Qc (1 # 2) + Q2Qc (1 # 2)) * a) by ring. replace (Q2Qc (1 # 2) + Q2Qc (1 # 2)) with 1 by (apply Qc_is_canon; reflexivity). ring. Qed.
Lemma objective_eq x0 u : let f := objective (N * m) (P_two sys N R Q) (q_two sys N R r x0) u in
  f + f = cost_two x0 u - (norm2 (N * n) (fun i => lin (N * n) (R i) (path sys x0 zeros)) + lin (N * n) r (path sys x0 zeros)).
Proof.
  cbn zeta. set (y := fun q => lin (N * m) (Ct sys N q) u). set (f := path sys x0 zeros).
  assert (FY : forall a, lin (N * n) a (path sys x0 u) = lin (N * n) a f + lin (N * n) a y).
  { intro a. rewrite <- lin_add. apply lin_ext. intros q Hq. assert (G := gain_eq sys states N x0 u q N1 EU Hq). unfold gain in G. fold f in G. fold (y q) in G.
    rewrite <- G. ring. }
  assert (PY : quad (N * m) (P_two sys N R Q) u = norm2 (N * m) (QC sys N Q u) + norm2 (N * n) (fun i => lin (N * n) (R i) y)).
  { unfold quad. transitivity (sum (N * m) (fun i => u i * lin (N * m) (Q2 sys N Q i) u + u i * lin (N * m) (mat_dot (N * n) (mat_dot (N * n) (transp (Ct sys N)) (R2 sys N R)) (Ct sys N) i) u)).
    - apply sum_ext. intros i _. rewrite <- Qcmult_plus_distr_r. f_equal. unfold P_two, lin. rewrite <- sum_add. apply sum_ext. intros. ring.
    - rewrite sum_add. f_equal.
      + unfold Q2. rewrite square_sum. reflexivity.
      + transitivity (sum (N * m) (fun i => u i * lin (N * n) (mat_dot (N * n) (transp (Ct sys N)) (R2 sys N R) i) y)).
        * apply sum_ext. intros i _. f_equal. unfold mat_dot at 1. rewrite lin_row_dot. reflexivity.
        * rewrite square_sum. unfold R2. transitivity (sum (N * n) (fun l => y l * lin (N * n) (mat_dot (N * n) (transp R) R l) y)); [reflexivity|].
          rewrite square_sum. reflexivity. }
  assert (FX : forall q, (q < N * n)%nat -> sum n (fun i => x0 i * A_N sys q i) + sum (n * N) (fun i => A_K sys q i * K_hat sys i) = f q).
  { intros q Hq. unfold f. rewrite (path_eq sys states N x0 zeros q N1 EU Hq). replace (lin (N * m) (Ct sys N q) zeros) with 0 by (symmetry; apply sum_zero; intros; unfold zeros; ring).
    rewrite Qcplus_0_r. f_equal. apply sum_ext. intros. ring. }
  assert (QY : lin (N * m) (q_two sys N R r x0) u = sum (N * n) (fun i => lin (N * n) (R i) f * lin (N * n) (R i) y) + Q2Qc (1 # 2) * lin (N * n) r y).
  { unfold q_two. set (g := fun k => sum n (fun i => x0 i * A_N sys k i) + sum (n * N) (fun i => A_K sys k i * K_hat sys i)) in *.
    transitivity (lin (N * m) (row_dot (N * n) g (mat_dot (N * n) (R2 sys N R) (Ct sys N))) u + Q2Qc (1 # 2) * lin (N * m) (rCt sys N r) u).
    - unfold lin. rewrite <- sum_mul_l, <- sum_add. apply sum_ext. intros. ring.
    - f_equal.
      + rewrite lin_row_dot. rewrite (lin_comm (N * n) g).
        transitivity (lin (N * n) (fun i => lin (N * m) (mat_dot (N * n) (R2 sys N R) (Ct sys N) i) u) f); [apply lin_ext; intros q Hq; apply FX; exact Hq|].
        rewrite lin_comm. unfold lin at 1.
        transitivity (sum (N * n) (fun j => f j * lin (N * n) (mat_dot (N * n) (transp R) R j) y)).
        * apply sum_ext. intros j _. f_equal. unfold mat_dot at 1. rewrite lin_row_dot. reflexivity.
        * apply square_sum.
      + f_equal. unfold rCt. rewrite lin_row_dot. reflexivity. }
  unfold objective, cost_two. rewrite PY, QY, FY.
  assert (SQ : norm2 (N * n) (fun i => lin (N * n) (R i) (path sys x0 u)) =
    norm2 (N * n) (fun i => lin (N * n) (R i) f) + norm2 (N * n) (fun i => lin (N * n) (R i) y)
    + (sum (N * n) (fun i => lin (N * n) (R i) f * lin (N * n) (R i) y) + sum (N * n) (fun i => lin (N * n) (R i) f * lin (N * n) (R i) y))).
  { unfold norm2. rewrite <- !sum_add. apply sum_ext. intros i _. rewrite FY. ring. }
  rewrite SQ. set (A := norm2 (N * m) (QC sys N Q u)). set (B := norm2 (N * n) (fun i => lin (N * n) (R i) y)).
  set (C := norm2 (N * n) (fun i => lin (N * n) (R i) f)). set (D := sum (N * n) (fun i => lin (N * n) (R i) f * lin (N * n) (R i) y)).
  set (ry := lin (N * n) r y). set (rf := lin (N * n) r f).
  transitivity ((Q2Qc (1 # 2) * (A + B) + Q2Qc (1 # 2) * (A + B)) + (D + D) + (Q2Qc (1 # 2) * ry + Q2Qc (1 # 2) * ry)); [ring|].
  rewrite !half_two. ring.
Qed.
End Qp.
