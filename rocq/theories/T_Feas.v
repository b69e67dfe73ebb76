(** The stacked constraints of [createLM] hold exactly for the initial states and inputs whose
    trajectories satisfy the constraints for all disturbances. *)
From Coq Require Import List String Bool Arith Lia QArith Qcanon.
From Verif Require Import M_Base L_Sum M_Feas S_Feas L_Feas.
Import ListNotations.
Open Scope string_scope.
Open Scope list_scope.
Open Scope nat_scope.
Open Scope Qc_scope.

(** ** Maxima over sequences of vertices *)
Lemma Qc_max_l a b : a <= Qc_max a b.
Proof. unfold Qc_max. destruct (Qclt_le_dec a b); [apply Qclt_le_weak; auto|apply Qcle_refl]. Qed.
Lemma Qc_max_r a b : b <= Qc_max a b.
Proof. unfold Qc_max. destruct (Qclt_le_dec a b); [apply Qcle_refl|auto]. Qed.
Lemma amax_ge k f i : (i <= k)%nat -> f i <= amax k f.
Proof.
  induction k as [|k IH]; cbn [amax]; intro L.
  - replace i with O by lia. apply Qcle_refl.
  - destruct (Nat.eq_dec i (S k)) as [->|]; [apply Qc_max_r|]. eapply Qcle_trans; [apply IH; lia|apply Qc_max_l].
Qed.
Lemma amax_at k f : exists i, (i <= k)%nat /\ amax k f = f i.
Proof.
  induction k as [|k IH]; cbn [amax]; [exists O; auto|]. destruct IH as (i & L & E).
  unfold Qc_max. destruct (Qclt_le_dec (amax k f) (f (S k))); [exists (S k)|exists i]; split; auto; lia.
Qed.
Lemma digits_all nv N (s : nat -> nat) : (0 < nv)%nat -> (forall t, (t < N)%nat -> (s t < nv)%nat) ->
  exists i, (i < nv ^ N)%nat /\ forall t, (t < N)%nat -> digit nv i t = s t.
Proof.
  intro NV. induction N as [|N IH]; intro H.
  - exists O. split; [cbn; lia|intros; lia].
  - destruct IH as (i & L & D); [intros; apply H; lia|]. exists (i + s N * nv ^ N)%nat.
    assert (PN : (nv ^ N <> 0)%nat) by (apply Nat.pow_nonzero; lia).
    split.
    + specialize (H N ltac:(lia)). rewrite Nat.pow_succ_r'. nia.
    + intros t T. unfold digit in *. destruct (Nat.eq_dec t N) as [->|].
      * rewrite Nat.div_add by auto. rewrite (Nat.div_small i) by auto. cbn. apply Nat.mod_small. apply H. lia.
      * assert (EN : (nv ^ N = nv ^ t * (nv * nv ^ (N - t - 1)))%nat).
        { rewrite <- Nat.pow_succ_r', <- Nat.pow_add_r. f_equal. lia. }
        rewrite EN. replace (s N * (nv ^ t * (nv * nv ^ (N - t - 1))))%nat with ((s N * nv ^ (N - t - 1) * nv) * nv ^ t)%nat by nia.
        rewrite Nat.div_add by (apply Nat.pow_nonzero; lia). rewrite Nat.mod_add by lia. apply D. lia.
Qed.
Lemma digit_lt nv i j : (0 < nv)%nat -> (digit nv i j < nv)%nat.
Proof. intro. apply Nat.mod_upper_bound. lia. Qed.

Lemma best_vertex p (V : list vec) (g : vec) : V <> [] ->
  exists k, (k < List.length V)%nat /\ forall v, hull p V v -> sum p (fun j => g j * v j) <= sum p (fun j => g j * nth k V (fun _ => 0) j).
Proof.
  intro NE. set (f := fun k => sum p (fun j => g j * nth k V (fun _ => 0) j)).
  destruct (amax_at (List.length V - 1) f) as (k & L & E).
  assert (NL : List.length V <> 0%nat) by (destruct V; [congruence|cbn; lia]).
  exists k. split; [lia|]. intros v (w & W0 & W1 & Wv).
  assert (EQ : sum p (fun j => g j * v j) = sum (List.length V) (fun i => w i * f i)).
  { transitivity (sum p (fun j => sum (List.length V) (fun i => w i * (g j * nth i V (fun _ => 0) j)))).
    - apply sum_ext. intros j J. rewrite (Wv j J). rewrite <- sum_mul_l. apply sum_ext. intros. ring.
    - rewrite sum_swap. apply sum_ext. intros. unfold f. apply sum_mul_l. }
  rewrite EQ. apply Qcle_trans with (sum (List.length V) (fun i => w i * f k)).
  - apply sum_le. intros i I. rewrite (Qcmult_comm (w i)), (Qcmult_comm (w i)). apply Qcmult_le_compat_r; [|apply W0; auto].
    rewrite <- E. apply amax_ge. lia.
  - rewrite sum_mul_r, W1. rewrite Qcmult_1_l. apply Qcle_refl.
Qed.

(** The maximum that [get_max_extreme] takes for one row bounds the row over all disturbances. *)
Definition dmax (V : list vec) (p N : nat) (g : vec) : Qc :=
  amax (List.length V ^ N - 1)%nat (fun i => sum (p * N)%nat (fun c => g c * DN_extreme V p i c)).

Lemma sum_stack p N (g : vec) d : sum (p * N) (fun c => g c * stack p d c) = sum N (fun t => sum p (fun q => g (t * p + q)%nat * d t q)).
Proof.
  rewrite Nat.mul_comm, sum_blocks. apply sum_ext. intros t T. apply sum_ext. intros q Q. rewrite stack_at by auto. reflexivity.
Qed.
Lemma DN_stack V p i c : DN_extreme V p i c = stack p (fun t => nth (digit (List.length V) i t) V (fun _ => 0)) c.
Proof. reflexivity. Qed.
Lemma vertex_hull p V k : (k < List.length V)%nat -> hull p V (nth k V (fun _ => 0)).
Proof.
  intro K. exists (fun i => if (i =? k)%nat then 1 else 0). split; [|split].
  - intros i I. destruct (i =? k)%nat; [discriminate|apply Qcle_refl].
  - rewrite (sum_single _ k) by (auto || (intros i I NE; apply Nat.eqb_neq in NE; rewrite NE; reflexivity)).
    rewrite Nat.eqb_refl. reflexivity.
  - intros j J. symmetry. rewrite (sum_single _ k).
    + rewrite Nat.eqb_refl. ring.
    + auto.
    + intros i I NE. apply Nat.eqb_neq in NE. rewrite NE. ring.
Qed.
Lemma sum_stack_le p N (g : vec) d e :
  (forall t, (t < N)%nat -> sum p (fun q => g (t * p + q)%nat * d t q) <= sum p (fun q => g (t * p + q)%nat * e t q)) ->
  sum (p * N) (fun c => g c * stack p d c) <= sum (p * N) (fun c => g c * stack p e c).
Proof. intro H. rewrite !sum_stack. apply sum_le. auto. Qed.

Lemma choose_seq (A : Type) (R : nat -> A -> Prop) (dflt : A) N : (forall t, (t < N)%nat -> exists a, R t a) ->
  exists s : nat -> A, forall t, (t < N)%nat -> R t (s t).
Proof.
  induction N as [|N IH]; intro H; [exists (fun _ => dflt); intros; lia|].
  destruct IH as (s & S1); [intros; apply H; lia|]. destruct (H N ltac:(lia)) as (a & Ra).
  exists (fun t => if (t =? N)%nat then a else s t). intros t T. destruct (t =? N)%nat eqn:E.
  - apply Nat.eqb_eq in E. subst. auto.
  - apply Nat.eqb_neq in E. apply S1. lia.
Qed.
Lemma dmax_bound V p N g : V <> [] -> forall d, hull_seq p V N d -> sum (p * N) (fun c => g c * stack p d c) <= dmax V p N g.
Proof.
  intros NE d H. assert (NL : List.length V <> 0%nat) by (destruct V; [congruence|cbn; lia]).
  destruct (choose_seq nat (fun t k => (k < List.length V)%nat /\ forall v, hull p V v ->
     sum p (fun j => g (t * p + j)%nat * v j) <= sum p (fun j => g (t * p + j)%nat * nth k V (fun _ => 0) j)) O N) as (s & Hs).
  { intros t T. apply (best_vertex p V (fun j => g (t * p + j)%nat) NE). }
  destruct (digits_all (List.length V) N s) as (i & L & D); [lia|intros t T; apply Hs; auto|].
  apply Qcle_trans with (sum (p * N) (fun c => g c * DN_extreme V p i c)).
  - rewrite (sum_ext (p * N) (fun c => g c * DN_extreme V p i c)
       (fun c => g c * stack p (fun t => nth (digit (List.length V) i t) V (fun _ => 0)) c)) by (intros; rewrite DN_stack; auto).
    apply sum_stack_le. intros t T. rewrite D by auto. apply Hs; auto.
  - apply (amax_ge (List.length V ^ N - 1) (fun i => sum (p * N) (fun c => g c * DN_extreme V p i c))). lia.
Qed.
Lemma dmax_reached V p N g : V <> [] -> exists d, hull_seq p V N d /\ sum (p * N) (fun c => g c * stack p d c) = dmax V p N g.
Proof.
  intros NE. assert (NL : List.length V <> 0%nat) by (destruct V; [congruence|cbn; lia]).
  unfold dmax. destruct (amax_at (List.length V ^ N - 1) (fun i => sum (p * N) (fun c => g c * DN_extreme V p i c))) as (i & L & E).
  exists (fun t => nth (digit (List.length V) i t) V (fun _ => 0)). split.
  - intros t T. apply vertex_hull. apply digit_lt. lia.
  - rewrite E. apply sum_ext. intros. rewrite DN_stack. reflexivity.
Qed.
Lemma le_sub a b c : a <= b - c <-> a + c <= b.
Proof.
  split; intro H.
  - apply (Qcplus_le_compat _ _ c c) in H; [|apply Qcle_refl]. replace (b - c + c) with b in H by ring. exact H.
  - apply (Qcplus_le_compat _ _ (-c) (-c)) in H; [|apply Qcle_refl]. replace (a + c + - c) with a in H by ring. exact H.
Qed.
Lemma dmax_iff V p N g a b : V <> [] ->
  (a <= b - dmax V p N g <-> forall d, hull_seq p V N d -> a + sum (p * N) (fun c => g c * stack p d c) <= b).
Proof.
  intro NE. rewrite le_sub. split; intro H.
  - intros d D. eapply Qcle_trans; [|exact H]. apply Qcplus_le_compat; [apply Qcle_refl|]. apply dmax_bound; auto.
  - destruct (dmax_reached V p N g NE) as (d & D & E). rewrite <- E. apply H. exact D.
Qed.

(** ** The rounds of the loop *)
Section LM.
Variable sys : sysdyn.
Variable N : nat.
Variable P : nat -> poly.
Variable dist : nat -> bool.
Hypothesis N1 : (1 <= N)%nat.
Hypothesis Eused : lm_E sys = {| a_rows := sd_n sys; a_cols := sd_p sys; a_at := sd_E sys |}.
Notation n := (sd_n sys).
Notation m := (sd_m sys).
Notation p := (sd_p sys).
Notation An := (An sys).
Notation Ak := (Ak sys).

(** Rows with their rows of [G] *)
Definition kpairs (i : nat) : list (half * vec) :=
  map (fun h => (k_row sys N (An i) (Ak i) h, if dist i then g_row sys N (Ak i) h else fun _ => 0)) (P i).
Definition upairs (i : nat) : list (half * vec) :=
  if (i <? N)%nat
  then map (fun h => (u_row sys N (An i) (Ak i) i h,
                      if (dist i && (sd_Uw sys =? m + n)%nat)%bool then gu_row sys N (Ak i) h else fun _ => 0)) (sd_U sys)
  else [].
Lemma lm_loop_pairs k i st : exists st', lm_loop sys N P dist k (An i) (Ak i) i st = Ok st' /\
  lk st' = lk st ++ map fst (flat_map kpairs (List.seq i k)) /\ gk st' = gk st ++ map snd (flat_map kpairs (List.seq i k)) /\
  lu st' = lu st ++ map fst (flat_map upairs (List.seq i k)) /\ gu st' = gu st ++ map snd (flat_map upairs (List.seq i k)).
Proof.
  revert i st. induction k as [|k IH]; intros i st; [exists st; cbn; rewrite !app_nil_r; auto|].
  cbn [lm_loop List.seq flat_map].
  assert (F1 : gu_fits sys N = true) by (unfold gu_fits, Ew; rewrite Eused; apply Nat.eqb_refl).
  assert (F2 : g_fits sys N = true) by (unfold g_fits, gu_fits in *; rewrite F1; reflexivity).
  unfold lm_round. rewrite F1, F2. cbn [negb]. rewrite !andb_false_r. cbn [bind].
  match goal with |- context [lm_loop _ _ _ _ _ _ _ _ ?st1] => destruct (IH (S i) st1) as (st' & E & E1 & E2 & E3 & E4) end.
  exists st'. split; [exact E|]. rewrite E1, E2, E3, E4. cbn [lk gk lu gu]. rewrite !map_app, !app_assoc.
  assert (KF : map fst (kpairs i) = map (k_row sys N (An i) (Ak i)) (P i)).
  { unfold kpairs. rewrite map_map. reflexivity. }
  assert (KS : map snd (kpairs i) = if dist i then map (g_row sys N (Ak i)) (P i) else map (fun _ _ => 0) (P i)).
  { unfold kpairs. rewrite map_map. cbn [snd]. destruct (dist i); reflexivity. }
  rewrite KF, KS. unfold upairs. destruct (i <? N)%nat.
  - rewrite !map_map. cbn [fst snd]. rewrite andb_true_r.
    destruct (dist i && (sd_Uw sys =? m + n)%nat)%bool; auto.
  - cbn [map]. rewrite !app_nil_r. auto.
Qed.
Definition pairs : list (half * vec) := flat_map kpairs (List.seq 0 (N + 1)) ++ flat_map upairs (List.seq 0 (N + 1)).
Definition flat : bool := forallb (vec_zero (p * N)) (map snd (flat_map kpairs (List.seq 0 (N + 1)))).
Definition dh (g : vec) : Qc := if flat then 0 else dmax (sd_Wext sys) p N g.

Lemma combine_map (X Y Z W : Type) (f : X -> Y) (g : X -> Z) (k : Y * Z -> W) l : map k (combine (map f l) (map g l)) = map (fun x => k (f x, g x)) l.
Proof. induction l as [|x l IH]; cbn; [reflexivity|]. rewrite IH. reflexivity. Qed.
Lemma createLM_shape : createLM_on sys N P dist =
  if (flat || negb ((List.length (sd_Wext sys) <? 2) || (36 <? List.length (sd_Wext sys)) ||
       existsb (fun i => existsb (fun j => 10 <=? digit (List.length (sd_Wext sys)) i j)%nat (List.seq 0 N)) (List.seq 0 (List.length (sd_Wext sys) ^ N)))%nat)%bool
  then Ok (map (fun '(h, g) => {| h_a := h_a h; h_b := h_b h - dh g |}) pairs)
  else Err "ValueError".
Proof.
  unfold createLM_on.
  destruct (lm_loop_pairs (N + 1) 0 {| lk := []; gk := []; lu := []; gu := [] |}) as (st & E & E1 & E2 & E3 & E4).
  change (An 0) with eye in E. change (Ak 0) with (fun _ _ : nat => 0) in E. rewrite E. cbn [bind].
  cbn [lk gk lu gu app] in E1, E2, E3, E4.
  assert (EL : lk st ++ lu st = map fst pairs) by (unfold pairs; rewrite map_app, E1, E3; reflexivity).
  assert (EG : gk st ++ gu st = map snd pairs) by (unfold pairs; rewrite map_app, E2, E4; reflexivity).
  assert (EF : forallb (vec_zero (p * N)) (gk st) = flat) by (rewrite E2; reflexivity).
  rewrite EF, EL, EG. destruct flat eqn:FL; cbn [negb orb].
  - cbn [bind]. f_equal. rewrite map_map, (combine_map _ _ _ _ fst (fun _ => 0)). apply map_ext. intros [h g]. unfold dh. rewrite FL. reflexivity.
  - unfold get_max_extreme.
    destruct ((List.length (sd_Wext sys) <? 2) || (36 <? List.length (sd_Wext sys)))%nat%bool; [reflexivity|]. cbn [orb].
    destruct (existsb (fun i => existsb (fun j => 10 <=? digit (List.length (sd_Wext sys)) i j)%nat (List.seq 0 N)) (List.seq 0 (List.length (sd_Wext sys) ^ N))); [reflexivity|].
    cbn [bind negb]. f_equal. rewrite map_map, (combine_map _ _ _ _ fst (fun x => _)). apply map_ext. intros [h g].
    unfold dh. rewrite FL. reflexivity.
Qed.
Lemma in_pairs h g : In (h, g) pairs <->
  (exists i h', (i <= N)%nat /\ In h' (P i) /\ h = k_row sys N (An i) (Ak i) h' /\ g = if dist i then g_row sys N (Ak i) h' else fun _ => 0) \/
  (exists i h', (i < N)%nat /\ In h' (sd_U sys) /\ h = u_row sys N (An i) (Ak i) i h' /\
     g = if (dist i && (sd_Uw sys =? m + n)%nat)%bool then gu_row sys N (Ak i) h' else fun _ => 0).
Proof.
  unfold pairs. rewrite in_app_iff, !in_flat_map. split.
  - intros [(i & I & H)|(i & I & H)]; apply in_seq in I.
    + left. unfold kpairs in H. apply in_map_iff in H. destruct H as (h' & E & H). exists i, h'.
      injection E as <- <-. repeat split; auto; lia.
    + right. unfold upairs in H. destruct (i <? N)%nat eqn:L; [|destruct H]. apply Nat.ltb_lt in L.
      apply in_map_iff in H. destruct H as (h' & E & H). exists i, h'. injection E as <- <-. auto.
  - intros [(i & h' & L & H & -> & ->)|(i & h' & L & H & -> & ->)].
    + left. exists i. split; [apply in_seq; lia|]. unfold kpairs. apply in_map_iff. eexists; split; [reflexivity|auto].
    + right. exists i. split; [apply in_seq; lia|]. unfold upairs. apply Nat.ltb_lt in L. rewrite L.
      apply in_map_iff. eexists; split; [reflexivity|auto].
Qed.

Lemma vec_zero_spec w g : vec_zero w g = true -> forall v, lin w g v = 0.
Proof.
  intros H v. apply sum_zero. intros j J. unfold vec_zero in H. rewrite forallb_forall in H.
  assert (IJ : In j (List.seq 0 w)) by (apply in_seq; lia). specialize (H j IJ). unfold Qc_eqb in H. destruct (Qc_eq_dec (g j) 0) as [->|]; [ring|discriminate].
Qed.
(** The disturbances are seen by a constraint on states. *)
Definition seen : Prop := exists i h z d, (i <= N)%nat /\ dist i = true /\ In h (P i) /\
  lin n (h_a h) (traj sys z (inputs sys z) d i) <> lin n (h_a h) (traj sys z (inputs sys z) (fun _ _ => 0) i).
Lemma lin_stack0 w g : lin w g (stack p (fun _ _ => 0)) = 0.
Proof. apply sum_zero. intros. unfold stack. ring. Qed.
Lemma minus_cancel a b c : a - c = b - c -> a = b.
Proof. intro H. replace a with (a - c + c) by ring. rewrite H. ring. Qed.
Lemma seen_not_flat : seen -> flat = false.
Proof.
  intros (i & h & z & d & L & D & H & NE). destruct flat eqn:FL; [|reflexivity]. exfalso. apply NE.
  unfold flat in FL. rewrite forallb_forall in FL.
  assert (Z : vec_zero (p * N) (g_row sys N (Ak i) h) = true).
  { apply FL. apply in_map_iff. exists (k_row sys N (An i) (Ak i) h, g_row sys N (Ak i) h). split; [reflexivity|].
    apply in_flat_map. exists i. split; [apply in_seq; lia|]. unfold kpairs. rewrite D. apply in_map_iff. eexists; split; [reflexivity|auto]. }
  apply (minus_cancel _ _ (h_b h)). rewrite <- !(k_row_eq sys N N1 Eused) by auto.
  rewrite !(vec_zero_spec _ _ Z). reflexivity.
Qed.
Lemma row_iff (h : half) (g : vec) (a : Qc) : sd_Wext sys <> [] -> (flat = true -> forall v, lin (p * N) g v = 0) ->
  (a <= h_b h - dh g <-> forall d, hull_seq p (sd_Wext sys) N d -> a + lin (p * N) g (stack p d) <= h_b h).
Proof.
  intros NE Z. unfold dh. destruct flat.
  - specialize (Z eq_refl). split; intro H.
    + intros d _. rewrite Z. replace (a + 0) with a by ring. replace (h_b h - 0) with (h_b h) in H by ring. exact H.
    + replace (h_b h - 0) with (h_b h) by ring. replace a with (a + 0) by ring.
      rewrite <- (Z (stack p (fun _ => nth 0 (sd_Wext sys) (fun _ => 0)))). apply H.
      intros t _. apply vertex_hull. destruct (sd_Wext sys); [congruence|cbn; lia].
  - apply dmax_iff. exact NE.
Qed.
Lemma le_minus a b c d : a - b = c - d -> (a <= b <-> c <= d).
Proof.
  intro H. split; intro L.
  - replace c with (a + (c - d - (a - b)) + (d - b)) by ring. rewrite <- H. replace (a + (a - b - (a - b)) + (d - b)) with (a + (d - b)) by ring.
    replace d with (b + (d - b)) at 2 by ring. apply Qcplus_le_compat; [exact L|apply Qcle_refl].
  - replace a with (c + (a - b - (c - d)) + (b - d)) by ring. rewrite H. replace (c + (c - d - (c - d)) + (b - d)) with (c + (b - d)) by ring.
    replace b with (d + (b - d)) at 2 by ring. apply Qcplus_le_compat; [exact L|apply Qcle_refl].
Qed.

(** The state at time [i] that the constraints refer to: without disturbances at the times that are
    not listed *)
Definition heed (i : nat) (d : nat -> vec) : nat -> vec := if dist i then d else fun _ _ => 0.
Definition holds (z : vec) (d : nat -> vec) : Prop :=
  (forall i, (i <= N)%nat -> inside n (P i) (traj sys z (inputs sys z) (heed i d) i)) /\
  (forall i, (i < N)%nat -> input_ok sys (traj sys z (inputs sys z) (heed i d) i) (inputs sys z i)).

Lemma lin_zero w v : lin w (fun _ => 0) v = 0.
Proof. apply sum_zero. intros. ring. Qed.
Lemma k_pair_iff i h z d : (i <= N)%nat ->
  (lin (n + N * m) (h_a (k_row sys N (An i) (Ak i) h)) z + lin (p * N) (if dist i then g_row sys N (Ak i) h else fun _ => 0) (stack p d)
    <= h_b (k_row sys N (An i) (Ak i) h) <-> lin n (h_a h) (traj sys z (inputs sys z) (heed i d) i) <= h_b h).
Proof.
  intro L. apply le_minus. unfold heed. rewrite <- (k_row_eq sys N N1 Eused) by auto. destruct (dist i); [reflexivity|].
  rewrite lin_zero, lin_stack0. reflexivity.
Qed.
Lemma u_pair_iff i h z d : (i < N)%nat -> sd_Uw sys = m \/ sd_Uw sys = (m + n)%nat -> (sd_Uw sys = m -> n <> 0%nat) ->
  (lin (n + N * m) (h_a (u_row sys N (An i) (Ak i) i h)) z
     + lin (p * N) (if (dist i && (sd_Uw sys =? m + n)%nat)%bool then gu_row sys N (Ak i) h else fun _ => 0) (stack p d)
    <= h_b (u_row sys N (An i) (Ak i) i h) <->
   if (sd_Uw sys =? m)%nat then lin m (h_a h) (inputs sys z i) <= h_b h
   else lin (m + n) (h_a h) (joint sys (traj sys z (inputs sys z) (heed i d) i) (inputs sys z i)) <= h_b h).
Proof.
  intros L W NZ. destruct (Nat.eq_dec (sd_Uw sys) m) as [E|E].
  - specialize (NZ E). rewrite E, Nat.eqb_refl. replace (m =? m + n)%nat with false by (symmetry; apply Nat.eqb_neq; lia).
    rewrite andb_false_r, lin_zero. replace (lin (n + N * m) (h_a (u_row sys N (An i) (Ak i) i h)) z + 0)
      with (lin (n + N * m) (h_a (u_row sys N (An i) (Ak i) i h)) z) by ring.
    apply le_minus. apply u_row_input; auto.
  - destruct W as [W|W]; [congruence|]. apply Nat.eqb_neq in E. rewrite E. apply Nat.eqb_neq in E. rewrite W at 1. rewrite Nat.eqb_refl, andb_true_r.
    apply le_minus. rewrite <- (u_row_joint sys N N1 Eused) by auto. unfold heed. destruct (dist i); [reflexivity|].
    rewrite lin_zero, lin_stack0. reflexivity.
Qed.
Lemma pairs_holds z d : sd_Uw sys = m \/ sd_Uw sys = (m + n)%nat -> (sd_Uw sys = m -> n <> 0%nat) ->
  ((forall h g, In (h, g) pairs -> lin (n + N * m) (h_a h) z + lin (p * N) g (stack p d) <= h_b h) <-> holds z d).
Proof.
  intros W NZ. unfold holds. split; intro H.
  - split.
    + intros i L h I. apply (k_pair_iff i h z d L). apply H. apply in_pairs. left. exists i, h. auto.
    + intros i L. unfold input_ok. destruct (sd_Uw sys =? m)%nat eqn:E.
      * intros h I. assert (Q := u_pair_iff i h z d L W NZ). rewrite E in Q. apply Q. apply H. apply in_pairs. right. exists i, h. auto.
      * intros h I. assert (Q := u_pair_iff i h z d L W NZ). rewrite E in Q. apply Q. apply H. apply in_pairs. right. exists i, h. auto.
  - destruct H as [H1 H2]. intros h g I. apply in_pairs in I.
    destruct I as [(i & h' & L & I & -> & ->)|(i & h' & L & I & -> & ->)].
    + apply k_pair_iff; auto. apply H1; auto.
    + apply u_pair_iff; auto. specialize (H2 i L). unfold input_ok in H2. destruct (sd_Uw sys =? m)%nat; apply H2; auto.
Qed.
Lemma inside_pairs L z : createLM_on sys N P dist = Ok L ->
  (inside (n + N * m) L z <-> forall h g, In (h, g) pairs -> lin (n + N * m) (h_a h) z <= h_b h - dh g).
Proof.
  intro C. rewrite createLM_shape in C.
  match type of C with (if ?b then _ else _) = _ => destruct b end; [|discriminate]. injection C as <-.
  unfold inside. split; intro H.
  - intros h g I. apply (H {| h_a := h_a h; h_b := h_b h - dh g |}). apply in_map_iff. exists (h, g). auto.
  - intros x I. apply in_map_iff in I. destruct I as ((h & g) & <- & I). cbn [h_a h_b]. exact (H h g I).
Qed.
Lemma exact_on L z : createLM_on sys N P dist = Ok L -> sd_Wext sys <> [] -> n <> 0%nat ->
  sd_Uw sys = m \/ (sd_Uw sys = (m + n)%nat /\ (seen \/ forall i, (i < N)%nat -> dist i = false)) ->
  (inside (n + N * m) L z <-> forall d, hull_seq p (sd_Wext sys) N d -> holds z d).
Proof.
  intros C NE NZ W. rewrite (inside_pairs L z C).
  assert (W' : sd_Uw sys = m \/ sd_Uw sys = (m + n)%nat) by tauto.
  assert (FZ : forall h g, In (h, g) pairs -> flat = true -> forall v, lin (p * N) g v = 0).
  { intros h g I FL.
    apply in_pairs in I. destruct I as [(i & h' & L1 & I & -> & ->)|(i & h' & L1 & I & -> & ->)].
    - apply vec_zero_spec. unfold flat in FL. rewrite forallb_forall in FL. apply FL. apply in_map_iff.
      exists (k_row sys N (An i) (Ak i) h', if dist i then g_row sys N (Ak i) h' else fun _ => 0). split; [reflexivity|].
      apply in_flat_map. exists i. split; [apply in_seq; lia|]. unfold kpairs. apply in_map_iff. eexists; split; [reflexivity|auto].
    - destruct W as [W|[W [S|S]]].
      + rewrite W. replace (m =? m + n)%nat with false by (symmetry; apply Nat.eqb_neq; lia). rewrite andb_false_r. apply lin_zero.
      + rewrite (seen_not_flat S) in FL. discriminate.
      + rewrite (S i L1). cbn [andb]. apply lin_zero. }
  split; intro H.
  - intros d D. apply pairs_holds; auto. intros h g I. apply (row_iff h g); auto. apply (FZ h g I).
  - intros h g I. apply row_iff; [exact NE|apply (FZ h g I)|]. intros d D. refine (proj2 (pairs_holds z d W' (fun _ => NZ)) _ h g I). apply H. exact D.
Qed.
End LM.

(** ** Theorems *)
Lemma forallb_false (A : Type) (f : A -> bool) l : forallb f l = false -> exists x, In x l /\ f x = false.
Proof.
  induction l as [|a l IH]; cbn [forallb]; [discriminate|]. destruct (f a) eqn:E; cbn [andb]; intro H.
  - destruct (IH H) as (x & I & X). exists x. split; [right|]; auto.
  - exists a. split; [left|]; auto.
Qed.
Lemma full_used sys : sd_Wfull sys = true -> lm_E sys = {| a_rows := sd_n sys; a_cols := sd_p sys; a_at := sd_E sys |}.
Proof. intro H. unfold lm_E. rewrite H. rewrite andb_false_r. reflexivity. Qed.
Lemma zero_used sys : (forall k j, (k < sd_n sys)%nat -> (j < sd_p sys)%nat -> sd_E sys k j = 0) ->
  lm_E sys = {| a_rows := sd_n sys; a_cols := sd_p sys; a_at := sd_E sys |}.
Proof.
  intro H. unfold lm_E. replace (lm_E0 sys) with true; [reflexivity|]. symmetry. unfold lm_E0. apply forallb_forall. intros k K.
  apply in_seq in K. unfold vec_zero. apply forallb_forall. intros j J. apply in_seq in J. unfold Qc_eqb. rewrite H by lia.
  destruct (Qc_eq_dec 0 0); congruence.
Qed.
Lemma createLM_unfold sys N Ps ind L : createLM sys N Ps ind = Ok L ->
  List.length Ps = (N + 1)%nat /\
  createLM_on sys N (fun i => nth i Ps [])
    (fun i => match ind with Some l => existsb (Nat.eqb i) l | None => ((1 <=? i) && (i <=? N))%nat end) = Ok L.
Proof. unfold createLM. destruct (List.length Ps =? N + 1)%nat eqn:E; [|discriminate]. apply Nat.eqb_eq in E. auto. Qed.

(** For polytopes [x(i) \in Ps[i]], inputs constrained by [Uset], and a full-dimensional disturbance
    set that is the hull of its vertices: a point satisfies the stacked constraints exactly if its
    trajectory satisfies the constraints for all disturbances at the times in [disturbance_ind],
    and without disturbances at the others. *)
Definition at_times (N : nat) (ind : option (list nat)) (i : nat) (d : nat -> vec) : nat -> vec :=
  if match ind with Some l => existsb (Nat.eqb i) l | None => ((1 <=? i) && (i <=? N))%nat end then d else fun _ _ => 0.
Definition disturbed (sys : sysdyn) (N : nat) (Ps : list poly) (ind : option (list nat)) : Prop :=
  exists i h z d, (i <= N)%nat /\ match ind with Some l => In i l | None => (1 <= i)%nat end /\ In h (nth i Ps []) /\
    lin (sd_n sys) (h_a h) (traj sys z (inputs sys z) d i) <> lin (sd_n sys) (h_a h) (traj sys z (inputs sys z) (fun _ _ => 0) i).
Theorem createLM_exact sys N Ps ind L z :
  (1 <= N)%nat -> sd_n sys <> 0%nat -> sd_Wfull sys = true -> sd_Wext sys <> [] ->
  sd_Uw sys = sd_m sys \/ (sd_Uw sys = (sd_m sys + sd_n sys)%nat /\ disturbed sys N Ps ind) ->
  createLM sys N Ps ind = Ok L ->
  (inside (sd_n sys + N * sd_m sys) L z <->
   forall d, hull_seq (sd_p sys) (sd_Wext sys) N d ->
     (forall i, (i <= N)%nat -> inside (sd_n sys) (nth i Ps []) (traj sys z (inputs sys z) (at_times N ind i d) i)) /\
     (forall i, (i < N)%nat -> input_ok sys (traj sys z (inputs sys z) (at_times N ind i d) i) (inputs sys z i))).
Proof.
  intros N1 NZ WF NE W C. apply createLM_unfold in C. destruct C as [_ C].
  apply (exact_on sys N _ _ N1 (full_used sys WF) L z C NE NZ).
  destruct W as [W|[W (i & h & z' & d & I & D & H & X)]]; [left; exact W|right; split; [exact W|left]].
  exists i, h, z', d. repeat split; auto. destruct ind as [l|].
  - apply existsb_exists. exists i. split; [exact D|apply Nat.eqb_refl].
  - apply andb_true_iff. split; apply Nat.leb_le; auto.
Qed.

Lemma traj_zero sys z u d e : traj sys z u d 0 = traj sys z u e 0.
Proof. reflexivity. Qed.
Lemma at_times_traj sys N z d i : (i <= N)%nat -> traj sys z (inputs sys z) (at_times N None i d) i = traj sys z (inputs sys z) d i.
Proof.
  intro L. destruct i as [|i]; [reflexivity|]. unfold at_times. replace ((1 <=? S i) && (S i <=? N))%nat%bool with true; [reflexivity|].
  symmetry. apply andb_true_iff. split; apply Nat.leb_le; lia.
Qed.
(** From [P0] through [Pk] to [PN], as [poly_to_poly] uses it *)
Theorem createLM_poly_exact sys N P0 Pk PN L z :
  (1 <= N)%nat -> sd_n sys <> 0%nat -> sd_Wfull sys = true -> sd_Wext sys <> [] ->
  sd_Uw sys = sd_m sys \/ (sd_Uw sys = (sd_m sys + sd_n sys)%nat /\ disturbed sys N ([P0] ++ repeat Pk (N - 1) ++ [PN]) None) ->
  createLM_poly sys N P0 Pk PN = Ok L ->
  (inside (sd_n sys + N * sd_m sys) L z <->
   forall d, hull_seq (sd_p sys) (sd_Wext sys) N d ->
     let x := traj sys z (inputs sys z) d in
     inside (sd_n sys) P0 (x O) /\ (forall i, (0 < i < N)%nat -> inside (sd_n sys) Pk (x i)) /\ inside (sd_n sys) PN (x N) /\
     (forall i, (i < N)%nat -> input_ok sys (x i) (inputs sys z i))).
Proof.
  intros N1 NZ WF NE W C. unfold createLM_poly in C. rewrite (createLM_exact sys N _ None L z N1 NZ WF NE W C). clear C W.
  assert (NTH : forall i, (0 < i < N)%nat -> nth i ([P0] ++ repeat Pk (N - 1) ++ [PN]) [] = Pk).
  { intros i I. rewrite app_nth2 by (cbn; lia). rewrite app_nth1 by (rewrite repeat_length; cbn; lia). rewrite (nth_indep _ [] Pk) by (rewrite repeat_length; cbn; lia). apply nth_repeat. }
  assert (NTHN : nth N ([P0] ++ repeat Pk (N - 1) ++ [PN]) [] = PN).
  { rewrite app_nth2 by (cbn; lia). rewrite app_nth2 by (rewrite repeat_length; cbn; lia). rewrite repeat_length. cbn [List.length].
    replace (N - 1 - (N - 1))%nat with O by lia. reflexivity. }
  split; intros H d D; specialize (H d D); cbn zeta in *.
  - destruct H as [H1 H2]. split; [|split; [|split]].
    + specialize (H1 O ltac:(lia)). rewrite at_times_traj in H1 by lia. exact H1.
    + intros i I. specialize (H1 i ltac:(lia)). rewrite at_times_traj, NTH in H1 by lia. exact H1.
    + specialize (H1 N ltac:(lia)). rewrite at_times_traj, NTHN in H1 by lia. exact H1.
    + intros i I. specialize (H2 i I). rewrite at_times_traj in H2 by lia. exact H2.
  - destruct H as (H0 & H1 & HN & H2). split.
    + intros i I. rewrite at_times_traj by lia. destruct (Nat.eq_dec i 0) as [->|]; [exact H0|].
      destruct (Nat.eq_dec i N) as [->|]; [rewrite NTHN; exact HN|]. rewrite NTH by lia. apply H1. lia.
    + intros i I. rewrite at_times_traj by lia. apply H2. exact I.
Qed.

(** Without disturbances ([E = 0]) the constraints are those of the one trajectory, whatever the
    disturbance set is, and [createLM] returns. *)
Theorem createLM_nominal sys N Ps ind z :
  (1 <= N)%nat -> sd_n sys <> 0%nat -> (forall k j, (k < sd_n sys)%nat -> (j < sd_p sys)%nat -> sd_E sys k j = 0) ->
  sd_Uw sys = sd_m sys \/ sd_Uw sys = (sd_m sys + sd_n sys)%nat -> List.length Ps = (N + 1)%nat ->
  exists L, createLM sys N Ps ind = Ok L /\
  (inside (sd_n sys + N * sd_m sys) L z <->
   (forall i, (i <= N)%nat -> inside (sd_n sys) (nth i Ps []) (traj sys z (inputs sys z) (fun _ _ => 0) i)) /\
   (forall i, (i < N)%nat -> input_ok sys (traj sys z (inputs sys z) (fun _ _ => 0) i) (inputs sys z i))).
Proof.
  intros N1 NZ E0 W LEN. unfold createLM. rewrite LEN, Nat.eqb_refl.
  set (P := fun i => nth i Ps []). set (dist := fun i => match ind with Some l => existsb (Nat.eqb i) l | None => ((1 <=? i) && (i <=? N))%nat end).
  assert (U := zero_used sys E0).
  assert (LZ : forall k (v : vec), (k < sd_n sys)%nat -> lin (sd_p sys) (sd_E sys k) v = 0).
  { intros k v K. apply sum_zero. intros j J. rewrite E0 by auto. ring. }
  (* rows of the disturbances are zero *)
  assert (TR : forall d i k, (k < sd_n sys)%nat -> traj sys z (inputs sys z) d i k = traj sys z (inputs sys z) (fun _ _ => 0) i k).
  { intros d. induction i as [|i IH]; intros k K; [reflexivity|]. cbn [traj]. unfold step. rewrite !LZ by auto.
    f_equal. f_equal. f_equal. unfold lin. apply sum_ext. intros j J. rewrite IH by auto. reflexivity. }
  assert (EZ : forall r c, (r < sd_n sys * N)%nat -> (c < sd_p sys * N)%nat -> E_diag sys N r c = 0).
  { intros r c R C.
    assert (Q := diag_sum (N - 1) (lm_E sys) (r / sd_n sys) (r mod sd_n sys) (fun j => if (j =? c)%nat then 1 else 0)).
    rewrite U in Q. cbn [a_rows a_cols a_at] in Q. replace (N - 1 + 1)%nat with N in Q by lia.
    assert (RD : (r / sd_n sys < N)%nat) by (apply Nat.div_lt_upper_bound; lia).
    specialize (Q ltac:(lia) (Nat.mod_upper_bound _ _ NZ)).
    rewrite <- (Nat.mul_comm (sd_n sys)), <- Nat.div_mod in Q by auto. rewrite (sum_single _ c) in Q.
    - rewrite Nat.eqb_refl in Q. unfold E_diag. rewrite U. replace (a_at (diag_loop (N - 1) {| a_rows := sd_n sys; a_cols := sd_p sys; a_at := sd_E sys |}) r c)
        with (a_at (diag_loop (N - 1) {| a_rows := sd_n sys; a_cols := sd_p sys; a_at := sd_E sys |}) r c * 1) by ring. rewrite Q.
      apply sum_zero. intros j J. rewrite E0 by (auto; apply Nat.mod_upper_bound; auto). ring.
    - lia.
    - intros j J NE. apply Nat.eqb_neq in NE. rewrite NE. ring. }
  assert (GZ : forall h A_k, vec_zero (sd_p sys * N) (g_row sys N A_k h) = true).
  { intros h A_k. unfold vec_zero. apply forallb_forall. intros c C. apply in_seq in C. unfold Qc_eqb, g_row, row_dot.
    rewrite sum_zero by (intros r R; rewrite EZ by lia; ring). destruct (Qc_eq_dec 0 0); congruence. }
  assert (FL : flat sys N P dist = true).
  { unfold flat. apply forallb_forall. intros g I. apply in_map_iff in I. destruct I as ((h & g') & <- & I).
    apply in_flat_map in I. destruct I as (i & _ & I). unfold kpairs in I. apply in_map_iff in I. destruct I as (h' & E & _).
    injection E as _ <-. cbn [snd]. destruct (dist i); [apply GZ|].
    unfold vec_zero. apply forallb_forall. intros; reflexivity. }
  assert (GUZ : forall h A_k v, lin (sd_p sys * N) (gu_row sys N A_k h) v = 0).
  { intros h A_k v. apply sum_zero. intros c C. unfold gu_row, row_dot, d_mult. rewrite sum_zero; [ring|]. intros k K.
    destruct (k <? sd_m sys)%nat; [ring|]. unfold row_dot. rewrite sum_zero; [ring|]. intros r R. rewrite EZ by lia. ring. }
  assert (C := createLM_shape sys N P dist U). rewrite FL in C. cbn [orb] in C.
  eexists. split; [exact C|]. rewrite (inside_pairs sys N P dist U _ z C).
  assert (HH := pairs_holds sys N P dist N1 U z (fun _ _ => 0) W (fun _ => NZ)).
  transitivity (holds sys N P dist z (fun _ _ => 0)).
  - rewrite <- HH. unfold dh. rewrite FL. split; intros H h g I; specialize (H h g I).
    + rewrite lin_stack0. replace (h_b h - 0) with (h_b h) in H by ring. rewrite Qcplus_0_r. exact H.
    + rewrite lin_stack0, Qcplus_0_r in H. replace (h_b h - 0) with (h_b h) by ring. exact H.
  - unfold holds. assert (HE : forall i, heed dist i (fun _ _ => 0) = fun _ _ => 0) by (intro i; unfold heed; destruct (dist i); reflexivity).
    split; intros [H1 H2]; split; intros i I.
    + specialize (H1 i I). rewrite HE in H1. exact H1.
    + specialize (H2 i I). rewrite HE in H2. exact H2.
    + rewrite HE. exact (H1 i I).
    + rewrite HE. exact (H2 i I).
Qed.

(** One step, as the closed-loop algorithms use it: here the constraint on input and state refers to
    the known initial state, and nothing is asked of the targets. *)
Theorem createLM_step_exact sys P0 Pk PN L z :
  sd_n sys <> 0%nat -> sd_Uw sys = sd_m sys \/ sd_Uw sys = (sd_m sys + sd_n sys)%nat ->
  (forall k j, (k < sd_n sys)%nat -> (j < sd_p sys)%nat -> sd_E sys k j = 0) \/ (sd_Wfull sys = true /\ sd_Wext sys <> []) ->
  createLM_poly sys 1 P0 Pk PN = Ok L ->
  (inside (sd_n sys + 1 * sd_m sys) L z <->
   inside (sd_n sys) P0 z /\ input_ok sys z (inputs sys z 0) /\
   forall d, allowed sys d -> inside (sd_n sys) PN (step sys z (inputs sys z 0) d)).
Proof.
  intros NZ W ED C. unfold createLM_poly in C. cbn [repeat Nat.sub app] in C.
  assert (PT : forall d i, (i <= 1)%nat -> traj sys z (inputs sys z) (at_times 1 None i d) i = traj sys z (inputs sys z) d i)
    by (intros; apply at_times_traj; auto).
  assert (FIN : forall d, inside (sd_n sys) P0 z /\ input_ok sys z (inputs sys z 0) /\ inside (sd_n sys) PN (step sys z (inputs sys z 0) (d 0%nat)) <->
     (forall i, (i <= 1)%nat -> inside (sd_n sys) (nth i [P0; PN] []) (traj sys z (inputs sys z) d i)) /\
     (forall i, (i < 1)%nat -> input_ok sys (traj sys z (inputs sys z) d i) (inputs sys z i))).
  { intro d. split.
    - intros (H0 & H1 & H2). split.
      + intros i I. destruct i as [|[|i]]; [exact H0|exact H2|lia].
      + intros i I. replace i with 0%nat by lia. exact H1.
    - intros [H1 H2]. split; [exact (H1 0%nat ltac:(lia))|]. split; [exact (H2 0%nat ltac:(lia))|]. exact (H1 1%nat ltac:(lia)). }
  destruct ED as [E0|[WF NE]].
  - destruct (createLM_nominal sys 1 [P0; PN] None z (le_n 1) NZ E0 W eq_refl) as (L' & C' & H).
    rewrite C in C'. injection C' as <-. rewrite H, <- (FIN (fun _ _ => 0)).
    assert (SE : forall d k, (k < sd_n sys)%nat -> step sys z (inputs sys z 0) d k = step sys z (inputs sys z 0) (fun _ => 0) k).
    { intros d k K. unfold step. f_equal. f_equal. unfold lin. apply sum_ext. intros j J. rewrite E0 by auto. ring. }
    split; intros (H0 & H1 & H2); (split; [exact H0|split; [exact H1|]]).
    + intros d _ h I. specialize (H2 h I). unfold lin in *. rewrite (sum_ext _ _ (fun j => h_a h j * step sys z (inputs sys z 0) (fun _ => 0) j)); [exact H2|].
      intros k K. rewrite SE by auto. reflexivity.
    + apply H2. intros (k & j & K & J & X). exfalso. apply X. apply E0; auto.
  - apply createLM_unfold in C. destruct C as [_ C].
    assert (WW : sd_Uw sys = sd_m sys \/ (sd_Uw sys = (sd_m sys + sd_n sys)%nat /\ (seen sys 1 (fun i => nth i [P0; PN] []) (fun i => ((1 <=? i) && (i <=? 1))%nat)
       \/ forall i, (i < 1)%nat -> ((1 <=? i) && (i <=? 1))%nat%bool = false))).
    { destruct W as [W|W]; [left; exact W|right; split; [exact W|right]]. intros i I. replace i with 0%nat by lia. reflexivity. }
    rewrite (exact_on sys 1 _ _ (le_n 1) (full_used sys WF) L z C NE NZ WW). clear C WW.
    assert (HD : forall d, holds sys 1 (fun i => nth i [P0; PN] []) (fun i => ((1 <=? i) && (i <=? 1))%nat) z d <->
      inside (sd_n sys) P0 z /\ input_ok sys z (inputs sys z 0) /\ inside (sd_n sys) PN (step sys z (inputs sys z 0) (d 0%nat))).
    { intro d. rewrite FIN. unfold holds. split; intros [H1 H2]; split; intros i I.
      - specialize (H1 i I). destruct i as [|[|i]]; [exact H1|exact H1|lia].
      - specialize (H2 i I). replace i with 0%nat in * by lia. exact H2.
      - specialize (H1 i I). destruct i as [|[|i]]; [exact H1|exact H1|lia].
      - specialize (H2 i I). replace i with 0%nat in * by lia. exact H2. }
    split.
    + intro H. assert (H' : forall d, hull_seq (sd_p sys) (sd_Wext sys) 1 d -> inside (sd_n sys) P0 z /\ input_ok sys z (inputs sys z 0) /\ inside (sd_n sys) PN (step sys z (inputs sys z 0) (d 0%nat))).
      { intros d D. apply HD. apply H. exact D. }
      clear H. assert (V : hull_seq (sd_p sys) (sd_Wext sys) 1 (fun _ => nth 0 (sd_Wext sys) (fun _ => 0))).
      { intros t _. apply vertex_hull. destruct (sd_Wext sys); [congruence|cbn; lia]. }
      destruct (H' _ V) as (H0 & H1 & _). split; [exact H0|]. split; [exact H1|]. intros d D.
      (* when the matrix is zero, any disturbance does as well as a vertex *)
      destruct (lm_E0 sys) eqn:EZ.
      * specialize (H' _ V). destruct H' as (_ & _ & H2). intros h I. specialize (H2 h I). unfold lin in *.
        rewrite (sum_ext _ _ (fun j => h_a h j * step sys z (inputs sys z 0) (nth 0 (sd_Wext sys) (fun _ => 0)) j)); [exact H2|].
        intros k K. f_equal. unfold step. f_equal. f_equal. unfold lin. apply sum_ext. intros j J.
        replace (sd_E sys k j) with (0 : Qc); [ring|]. symmetry. unfold lm_E0 in EZ. rewrite forallb_forall in EZ.
        assert (IK : In k (List.seq 0 (sd_n sys))) by (apply in_seq; lia). specialize (EZ k IK). unfold vec_zero in EZ. rewrite forallb_forall in EZ.
        assert (IJ : In j (List.seq 0 (sd_p sys))) by (apply in_seq; lia). specialize (EZ j IJ). unfold Qc_eqb in EZ.
        destruct (Qc_eq_dec (sd_E sys k j) 0); [auto|discriminate].
      * refine (proj2 (proj2 (H' (fun _ => d) _))). intros t _. apply D.
        destruct (forallb_false _ _ _ EZ) as (k & IK & NK). destruct (forallb_false _ _ _ NK) as (j & IJ & NJ).
        apply in_seq in IK. apply in_seq in IJ. exists k, j. split; [lia|]. split; [lia|]. unfold Qc_eqb in NJ. destruct (Qc_eq_dec (sd_E sys k j) 0); [discriminate|auto].
    + intros (H0 & H1 & H2) d D. apply HD. split; [exact H0|]. split; [exact H1|]. apply H2. intros _. apply D. lia.
Qed.

(** With 2 to 10 vertices, [createLM] returns. *)
Theorem createLM_total sys N Ps ind : sd_Wfull sys = true -> (2 <= List.length (sd_Wext sys) <= 10)%nat -> List.length Ps = (N + 1)%nat ->
  exists L, createLM sys N Ps ind = Ok L.
Proof.
  intros WF V LEN. unfold createLM. rewrite LEN, Nat.eqb_refl. rewrite (createLM_shape sys N _ _ (full_used sys WF)).
  match goal with |- context [(?f || negb ?b)%bool] => replace b with false end; [rewrite orb_true_r; eexists; reflexivity|].
  symmetry. apply orb_false_iff. split; [apply orb_false_iff; split; apply Nat.ltb_ge; lia|].
  match goal with |- ?b = false => destruct b eqn:E end; [exfalso|reflexivity].
  apply existsb_exists in E. destruct E as (i & _ & E). apply existsb_exists in E. destruct E as (j & _ & E). apply Nat.leb_le in E.
  assert (D := digit_lt (List.length (sd_Wext sys)) i j ltac:(lia)). lia.
Qed.

(** ** Cases *)
Definition q (a : Z) : Qc := Q2Qc (inject_Z a).
Definition vl (l : list Z) : vec := fun j => q (nth j l 0%Z).
Definition ml (l : list (list Z)) : mat := fun i => vl (nth i l []).
Definition pl (l : list (list Z * Z)) : poly := map (fun '(a, b) => {| h_a := vl a; h_b := q b |}) l.
Definition insideb (w : nat) (P : poly) (x : vec) : bool := forallb (fun h => if Qclt_le_dec (h_b h) (lin w (h_a h) x) then false else true) P.
Lemma insideb_spec w P x : insideb w P x = true <-> inside w P x.
Proof.
  unfold insideb. rewrite forallb_forall. split; intros H h I; specialize (H h I).
  - destruct (Qclt_le_dec (h_b h) (lin w (h_a h) x)); [discriminate|auto].
  - destruct (Qclt_le_dec (h_b h) (lin w (h_a h) x)) as [C|]; [|reflexivity]. exfalso. apply Qclt_not_le in C. contradiction.
Qed.
Definition ok_poly (r : res poly) : poly := match r with Ok L => L | Err _ => [] end.
Definition is_ok (r : res poly) : bool := match r with Ok _ => true | Err _ => false end.
Lemma ok_poly_spec r : is_ok r = true -> r = Ok (ok_poly r).
Proof. destruct r; [reflexivity|discriminate]. Qed.

(** [x' = x + u + d] with [u] in [-2, 2] and [d] in [-1, 1], from [0, 1] within [-3, 3] to [4, 6] in two
    steps: from 1, the inputs 2 and 2 reach [5 - 2, 5 + 2], not always the target; with the target
    [3, 7] they do. *)
Definition ex_sys : sysdyn :=
  {| sd_n := 1; sd_m := 1; sd_p := 1; sd_A := ml [[1]]%Z; sd_B := ml [[1]]%Z; sd_E := ml [[1]]%Z; sd_K := vl [0]%Z;
     sd_U := pl [([1], 2); ([-1], 2)]%Z; sd_Uw := 1; sd_Wfull := true; sd_Wext := [vl [1]%Z; vl [-1]%Z] |}.
Definition seg (a b : Z) : poly := pl [([1], b); ([-1], - a)]%Z.
Example createLM_case :
  is_ok (createLM_poly ex_sys 2 (seg 0 1) (seg (-4) 4) (seg 4 6)) = true /\
  insideb 3 (ok_poly (createLM_poly ex_sys 2 (seg 0 1) (seg (-4) 4) (seg 4 6))) (vl [1; 2; 2]%Z) = false /\
  is_ok (createLM_poly ex_sys 2 (seg 0 1) (seg (-4) 4) (seg 3 7)) = true /\
  insideb 3 (ok_poly (createLM_poly ex_sys 2 (seg 0 1) (seg (-4) 4) (seg 3 7))) (vl [1; 2; 2]%Z) = true /\
  insideb 3 (ok_poly (createLM_poly ex_sys 2 (seg 0 1) (seg (-4) 4) (seg 3 7))) (vl [1; 2; 3]%Z) = false.
Proof. vm_compute. auto. Qed.

(** With a constraint on input and state, a disturbance that the targets do not see is forgotten:
    [x1' = x1], [x2' = x2 + d], [u + x2 <= 1], and constraints on [x1] only.  The stacked constraints
    allow [x2 = 0], [u = 1] throughout, but after the disturbance 1 the input set forbids [u = 1]. *)
Definition blind_sys : sysdyn :=
  {| sd_n := 2; sd_m := 1; sd_p := 1; sd_A := ml [[1; 0]; [0; 1]]%Z; sd_B := ml [[0]; [0]]%Z; sd_E := ml [[0]; [1]]%Z; sd_K := vl [0; 0]%Z;
     sd_U := pl [([1; 0; 1], 1); ([-1; 0; 0], 1)]%Z; sd_Uw := 3; sd_Wfull := true; sd_Wext := [vl [1]%Z; vl [-1]%Z] |}.
Definition strip : poly := pl [([1; 0], 1); ([-1; 0], 1)]%Z.
Theorem createLM_blind_refuted : exists sys N P0 Pk PN L z d,
  sd_Wfull sys = true /\ sd_Uw sys = (sd_m sys + sd_n sys)%nat /\ createLM_poly sys N P0 Pk PN = Ok L /\
  inside (sd_n sys + N * sd_m sys) L z /\ hull_seq (sd_p sys) (sd_Wext sys) N d /\
  exists i, (i < N)%nat /\ ~ input_ok sys (traj sys z (inputs sys z) d i) (inputs sys z i).
Proof.
  exists blind_sys, 2%nat, strip, strip, strip, (ok_poly (createLM_poly blind_sys 2 strip strip strip)), (vl [0; 0; 1; 1]%Z), (fun _ => vl [1]%Z).
  split; [reflexivity|]. split; [reflexivity|]. split; [apply ok_poly_spec; vm_compute; reflexivity|].
  split; [apply insideb_spec; vm_compute; reflexivity|].
  split; [intros t _; apply (vertex_hull 1 [vl [1]%Z; vl [-1]%Z] 0); cbn; lia|].
  exists 1%nat. split; [lia|]. intro H. apply insideb_spec in H. revert H. vm_compute. discriminate.
Qed.

(** A disturbance set without interior is ignored: [d = 1] always, [x' = x + u + d], from [0, 0] to [0, 0]
    with [u = 0]. *)
Definition const_sys : sysdyn :=
  {| sd_n := 1; sd_m := 1; sd_p := 1; sd_A := ml [[1]]%Z; sd_B := ml [[1]]%Z; sd_E := ml [[1]]%Z; sd_K := vl [0]%Z;
     sd_U := pl [([1], 2); ([-1], 2)]%Z; sd_Uw := 1; sd_Wfull := false; sd_Wext := [vl [1]%Z] |}.
Theorem createLM_flat_refuted : exists sys N P0 Pk PN L z d,
  sd_Wfull sys = false /\ sd_Uw sys = sd_m sys /\ createLM_poly sys N P0 Pk PN = Ok L /\
  inside (sd_n sys + N * sd_m sys) L z /\ hull_seq (sd_p sys) (sd_Wext sys) N d /\ ~ inside (sd_n sys) PN (traj sys z (inputs sys z) d N).
Proof.
  exists const_sys, 1%nat, (seg 0 1), (seg 0 1), (seg 0 0), (ok_poly (createLM_poly const_sys 1 (seg 0 1) (seg 0 1) (seg 0 0))), (vl [0; 0]%Z), (fun _ => vl [1]%Z).
  split; [reflexivity|]. split; [reflexivity|]. split; [apply ok_poly_spec; vm_compute; reflexivity|].
  split; [apply insideb_spec; vm_compute; reflexivity|].
  split; [intros t _; apply (vertex_hull 1 [vl [1]%Z] 0); cbn; lia|].
  intro H. apply insideb_spec in H. revert H. vm_compute. discriminate.
Qed.
(** With two disturbances and two steps, such a set makes [createLM] raise. *)
Definition flat2_sys : sysdyn :=
  {| sd_n := 1; sd_m := 1; sd_p := 2; sd_A := ml [[1]]%Z; sd_B := ml [[1]]%Z; sd_E := ml [[1; 1]]%Z; sd_K := vl [0]%Z;
     sd_U := pl [([1], 2); ([-1], 2)]%Z; sd_Uw := 1; sd_Wfull := false; sd_Wext := [vl [0; 0]%Z; vl [1; 1]%Z] |}.
Theorem createLM_flat_raises_refuted : createLM_poly flat2_sys 2 (seg 0 1) (seg 0 1) (seg 0 1) = Err "ValueError".
Proof. vm_compute. reflexivity. Qed.
(** A disturbance set with 11 vertices makes [createLM] raise: the digit of the vertex 10 is [A]. *)
Definition many_sys : sysdyn :=
  {| sd_n := 1; sd_m := 1; sd_p := 2; sd_A := ml [[1]]%Z; sd_B := ml [[1]]%Z; sd_E := ml [[1; 1]]%Z; sd_K := vl [0]%Z;
     sd_U := pl [([1], 2); ([-1], 2)]%Z; sd_Uw := 1; sd_Wfull := true;
     sd_Wext := map (fun k => vl [Z.of_nat k; Z.of_nat (k * k)]) (List.seq 0 11) |}.
Theorem createLM_vertices_refuted : sd_Wfull many_sys = true /\ createLM_poly many_sys 1 (seg 0 1) (seg 0 1) (seg 0 1) = Err "ValueError".
Proof. vm_compute. auto. Qed.
(** The constraint on states of [createLM_case] sees the disturbance. *)
Example disturbed_case : disturbed ex_sys 2 [seg 0 1; seg (-4) 4; seg 3 7] None.
Proof.
  exists 1%nat, {| h_a := vl [1]%Z; h_b := q 4 |}, (vl [0; 0; 0]%Z), (fun _ => vl [1]%Z). split; [lia|]. split; [lia|].
  split; [cbn [nth seg pl map In]; left; reflexivity|]. vm_compute. discriminate.
Qed.

Print Assumptions createLM_exact.
Print Assumptions createLM_poly_exact.
Print Assumptions createLM_nominal.
Print Assumptions createLM_step_exact.
Print Assumptions createLM_total.
Print Assumptions createLM_blind_refuted.
Print Assumptions createLM_flat_refuted.
Print Assumptions createLM_flat_raises_refuted.
Print Assumptions createLM_vertices_refuted.
