(** [_discretize_dual]: cases, and what does not hold of it. *)
From Coq Require Import List String Bool Arith ZArith Lia QArith Qcanon Lqa.
From Verif Require Import M_Tree M_Base S_LTL M_Dict M_Graph S_Run M_Fts T_Fts M_Part T_Prop2part T_Refine M_Discretize L_Discretize L_Ts T_Discretize T_Abstract M_Dual T_Dual T_Dual2.
Import ListNotations.
Open Scope string_scope.
Open Scope list_scope.
Open Scope nat_scope.

Notation pt_dual next abs_tol trans_length := (discretize_dual pt_inter pt_diff pt_fulldim pt_le pt_adjacent pt_separate pt_touch pt_volume pt_volume pt_separate (pt_solve next) (fun _ => 0%Qc) half abs_tol trans_length).
Definition pt_is_dual next abs_tol trans_length conservative part props pwa :=
  is_dual pt_inter pt_fulldim pt_pts pt_null pt_touch pt_volume pt_volume (pt_solve next) (fun _ => 0%Qc) half abs_tol trans_length conservative (pt_reach next) part props pwa.
Lemma pt_dual_sound next abs_tol trans_length conservative part props pwa rm fuel ab :
  given pt_diff pt_fulldim pt_pts pt_null pt_touch part props pwa ->
  pt_dual next abs_tol trans_length conservative rm fuel pwa part = Some (Ok ab) -> pt_is_dual next abs_tol trans_length conservative part props pwa ab.
Proof.
  apply (discretize_dual_sound pt_inter pt_diff pt_fulldim pt_le pt_pts pt_null pt_null_sub pt_null_empty pt_null_union pt_pts_inter pt_diff_covers pt_full pt_le_ok
    pt_adjacent pt_separate pt_touch pt_volume pt_volume pt_separate (pt_solve next) (fun _ => 0%Qc) half abs_tol trans_length conservative
    pt_separate_in pt_separate_full pt_volume_null pt_volume_split (Qclt_le_weak _ _ half_pos) pt_touch_sym pt_touch_mono
    (pt_reach next) (pt_reach_mono next) (pt_solve_sound next) (fun r c x _ => pt_separate_in r c x) (fun r _ => pt_separate_covers r) pt_convex_disjoint (fun r c _ => pt_separate_full r c) pt_adjacent_ok).
Qed.
Lemma pt_dual_no_error next abs_tol trans_length conservative part props rm fuel e :
  given pt_diff pt_fulldim pt_pts pt_null pt_touch part props None -> pt_fulldim (p_domain part) = true -> conservative && rm && (trans_length =? 1) = false ->
  pt_dual next abs_tol trans_length conservative rm fuel None part <> Some (Err e).
Proof.
  intros G F RM. apply (dual_no_error pt_inter pt_diff pt_fulldim pt_le pt_pts pt_null pt_null_sub pt_null_empty pt_null_union pt_pts_inter pt_diff_covers pt_full pt_le_ok
    pt_adjacent pt_separate pt_touch pt_volume pt_volume pt_separate (pt_solve next) (fun _ => 0%Qc) half abs_tol trans_length conservative
    pt_separate_in pt_separate_covers pt_separate_full pt_volume_null pt_volume_split (Qclt_le_weak _ _ half_pos) pt_touch_sym pt_touch_mono
    (pt_reach next) (pt_reach_mono next) (pt_solve_sound next) (fun r c x _ => pt_separate_in r c x) (fun r _ => pt_separate_covers r) pt_convex_disjoint (fun r c _ => pt_separate_full r c) pt_adjacent_ok
    part props None rm fuel e G F eq_refl RM). intros ss a b t. eexists. reflexivity.
Qed.
(** The abstraction of [x' = x + 2] in one or two steps: the given cells stay, and the parts of the first
    from which the second is reached, or the other parts, are cells too. *)
Lemma pt_line_given : given pt_diff pt_fulldim pt_pts pt_null pt_touch (pt_two [0; 2; 4] [6; 8]) [("a", [6; 8])] None.
Proof. apply pt_two_given; [reflexivity|reflexivity|intros x A B; cbn in A, B; intuition congruence|discriminate]. Qed.
Example dual_case : exists ab, pt_dual pt_next half 1 false false 60 None (pt_two [0; 2; 4] [6; 8]) = Some (Ok ab) /\
  pt_is_dual pt_next half 1 false (pt_two [0; 2; 4] [6; 8]) [("a", [6; 8])] None ab /\
  p_regions (ab_ppp ab) = [([0; 2; 4], []); ([6; 8], ["a"]); ([0; 2], []); ([2; 4], []); ([2], []); ([0], [])] /\
  map (fun e => (e_src e, e_dst e)) (g_edges (f_graph (ab_ts ab))) =
    [(state 1, state 1); (state 2, state 0); (state 2, state 3); (state 3, state 1); (state 4, state 0); (state 4, state 1); (state 4, state 3);
     (state 5, state 0); (state 5, state 2); (state 5, state 3); (state 5, state 4)] /\
  ab_ppp2pwa ab = [0; 1; 0; 0; 0; 0] /\ ab_ppp2orig ab = [0; 1; 0; 0; 0; 0] /\ ab_ppp2sys ab = None.
Proof.
  destruct (pt_dual pt_next half 1 false false 60 None (pt_two [0; 2; 4] [6; 8])) as [[ab|e]|] eqn:E; [|vm_compute in E; discriminate|vm_compute in E; discriminate].
  exists ab. split; [reflexivity|]. split; [apply (pt_dual_sound pt_next half 1 false _ _ None false 60 ab); [exact pt_line_given|exact E]|].
  vm_compute in E. injection E as <-. vm_compute. auto 6.
Qed.
(** ** Refuted *)
(** The cells are not a partition, although they are returned as one: 2 is in four of them. *)
Theorem dual_partition_refuted : exists ab, pt_dual pt_next half 1 false false 60 None (pt_two [0; 2; 4] [6; 8]) = Some (Ok ab) /\
  ~ partition pt_fulldim pt_pts pt_null (p_domain (ab_ppp ab)) [("a", [6; 8])] (p_regions (ab_ppp ab)).
Proof.
  destruct (pt_dual pt_next half 1 false false 60 None (pt_two [0; 2; 4] [6; 8])) as [[ab|e]|] eqn:E; [|vm_compute in E; discriminate|vm_compute in E; discriminate].
  exists ab. split; [reflexivity|]. intro P. vm_compute in E. injection E as <-. cbn [ab_ppp p_regions p_domain] in P.
  assert (D := proj1 (fop_nth _ _) (part_disjoint _ _ _ _ _ _ P) 0 2 _ _ ltac:(lia) eq_refl eq_refl 2 (conj eq_refl eq_refl)). discriminate.
Qed.
(** With more than one subsystem no cell can be added: the list of subsystems is not extended. *)
Theorem dual_pwa_refuted : pt_dual pt_next half 1 false false 60 pt_modes (pt_two [0; 2; 4] [6; 8]) = Some (Err "IndexError") /\
  exists ab, pt_discretize pt_next half false false 60 pt_modes (pt_two [0; 2; 4] [6; 8]) = Some (Ok ab).
Proof. split; [vm_compute; reflexivity|]. eexists. vm_compute. reflexivity. Qed.
(** With [conservative] and [remove_trans] no cell can be added that does not touch a neighbour of its
    cell. *)
Definition pt_far (x : nat) : nat := if x <? 12 then x + 2 else x.
Theorem dual_remove_refuted : pt_dual pt_far half 1 true true 60 None (pt_two [0; 2; 4; 6] [8; 10; 12]) = Some (Err "IndexError") /\
  exists ab, pt_dual pt_far half 1 true false 200 None (pt_two [0; 2; 4; 6] [8; 10; 12]) = Some (Ok ab).
Proof. split; [vm_compute; reflexivity|]. eexists. vm_compute. reflexivity. Qed.
(** *** The loop need not end, whatever the least volume *)
(** The system [x' = 2 x + u] with [|u| <= 1/4] on [[-1, 1]], one step: the states that can stay for one
    step, for two, and so on are cells that become smaller and smaller without end. *)
Definition quarter : Qc := Q2Qc (1 # 4).
Definition pre_solve (s : option nat) (a b : iv_R) (t : option iv_R) : res iv_R :=
  Ok (map (fun q => ((fst q - quarter) * half, (snd q + quarter) * half)%Qc) b).
(** It is the set that [solve_feasible] is to return. *)
Definition iv_pts (r : iv_R) (x : Qc) : Prop := exists p, In p r /\ (fst p <= x)%Qc /\ (x <= snd p)%Qc.
Lemma Qc_to a b : (a <= b)%Qc <-> (this a <= this b)%Q.
Proof. reflexivity. Qed.
Ltac qc := unfold Qcminus in *; unfold Qcle, Qclt, quarter, half in *; cbn [this Qcplus Qcopp Qcmult Q2Qc] in *; rewrite ?Qred_correct in *; try lra.
Theorem pre_exact s a b t : exists S0, pre_solve s a b t = Ok S0 /\
  ((forall p, In p b -> (fst p <= snd p)%Qc) -> forall x, iv_pts S0 x <-> exists u, (- quarter <= u)%Qc /\ (u <= quarter)%Qc /\ iv_pts b (x + x + u)%Qc).
Proof.
  eexists. split; [reflexivity|]. intros OK x. unfold iv_pts. split.
  - intros (p & I & A & B). apply in_map_iff in I. destruct I as ((l & h) & <- & I). cbn [fst snd] in *. assert (O := OK _ I). cbn [fst snd] in O.
    destruct (Qclt_le_dec (x + x + quarter) h) as [L|L].
    + exists quarter. split; [qc|]. split; [apply Qcle_refl|]. exists (l, h). split; [exact I|]. cbn [fst snd]. split; [qc|apply Qclt_le_weak, L].
    + exists (h - x - x)%Qc. split; [qc|]. split; [qc|]. exists (l, h). split; [exact I|]. cbn [fst snd]. split; qc.
  - intros (u & U1 & U2 & (l & h) & I & A & B). cbn [fst snd] in *. eexists. split; [apply in_map_iff; exists (l, h); split; [reflexivity|exact I]|]. cbn [fst snd]. split; qc.
Qed.
Fixpoint halves (k : nat) : Qc := match k with O => 1%Qc | S m => (halves m * half)%Qc end.
Definition rad (k : nat) : Qc := (quarter + (half + quarter) * halves k)%Qc.
Definition shell (k : nat) : iv_R := [(- rad k, rad k)%Qc].
Lemma halves_pos k : (0 < halves k)%Qc.
Proof. induction k as [|k IH]; cbn [halves]; [reflexivity|]. revert IH. generalize (halves k). intros q H. qc. Qed.
Lemma rad_next k : ((rad k + quarter) * half = rad (S k))%Qc.
Proof. unfold rad. cbn [halves]. generalize (halves k). intro q. apply Qc_is_canon. qc. Qed.
Lemma rad_pos k : (quarter < rad k)%Qc.
Proof. assert (H := halves_pos k). revert H. unfold rad. generalize (halves k). intros q H. qc. Qed.
Lemma rad_step k : (rad (S k) < rad k)%Qc.
Proof. assert (H := halves_pos k). revert H. unfold rad. cbn [halves]. generalize (halves k). intros q H. qc. Qed.
Lemma rad_less a b : a < b -> (rad b < rad a)%Qc.
Proof. induction 1 as [|b H IH]; [apply rad_step|]. exact (Qclt_trans _ _ _ (rad_step b) IH). Qed.
Lemma rad_inj a b : (rad a <= rad b)%Qc -> b <= a.
Proof. intro H. destruct (Nat.le_gt_cases b a) as [L|L]; [exact L|]. exfalso. exact (Qclt_not_le _ _ (rad_less _ _ L) H). Qed.
Lemma shell_pre k : map (fun q => ((fst q - quarter) * half, (snd q + quarter) * half)%Qc) (shell k) = shell (S k).
Proof.
  unfold shell. cbn [map fst snd]. rewrite <- rad_next. f_equal. f_equal. ring.
Qed.
Lemma neg_less a b : (a < b)%Qc -> (- b < - a)%Qc.
Proof. intro H. qc. Qed.
Lemma neg_pos k m : (- rad k < rad m)%Qc.
Proof. assert (A := rad_pos k). assert (B := rad_pos m). revert A B. generalize (rad k), (rad m). intros p q A B. qc. Qed.
Lemma shell_inter a b : iv_inter (shell a) (shell b) = shell (Nat.max a b).
Proof.
  unfold shell, iv_inter. cbn [flat_map app fst snd]. destruct (Nat.lt_trichotomy a b) as [L|[->|L]].
  - assert (H := rad_less _ _ L). rewrite (Nat.max_r a b) by lia. unfold imax, imin. rewrite (less_true _ _ (neg_less _ _ H)), (less_false (rad a) (rad b)) by (apply Qclt_le_weak, H).
    unfold iv_make. rewrite (less_true _ _ (neg_pos b b)). reflexivity.
  - rewrite Nat.max_id. unfold imax, imin. rewrite !less_false by apply Qcle_refl. unfold iv_make. rewrite (less_true _ _ (neg_pos b b)). reflexivity.
  - assert (H := rad_less _ _ L). rewrite (Nat.max_l a b) by lia. unfold imax, imin. rewrite (less_false (- rad a) (- rad b)) by (apply Qclt_le_weak, neg_less, H). rewrite (less_true _ _ H).
    unfold iv_make. rewrite (less_true _ _ (neg_pos a a)). reflexivity.
Qed.
Lemma shell_le a b : iv_le (shell a) (shell b) = true -> b <= a.
Proof.
  intro H. apply rad_inj. unfold iv_le, iv_diff, shell in H. cbn [fold_left flat_map app fst snd] in H. rewrite app_nil_r in H.
  destruct (Qclt_le_dec (rad b) (rad a)) as [L|L]; [|exact L]. exfalso. unfold imax in H. rewrite (less_true (- rad a) (rad b) (neg_pos a b)) in H. unfold iv_make in H at 2. rewrite (less_true _ _ L) in H.
  destruct (iv_make (- rad a) (imin (rad a) (- rad b))) as [|x l]; discriminate.
Qed.
Lemma shell_same a b : same iv_le (shell a) (shell b) = true -> a = b.
Proof. unfold same. rewrite andb_true_iff. intros [A B]. apply shell_le in A, B. lia. Qed.
Lemma shell_volume k : iv_volume (shell k) = (rad k + rad k)%Qc.
Proof. unfold iv_volume, shell. cbn [fold_right fst snd]. ring. Qed.
Definition tenth : Qc := Q2Qc (1 # 10).
Lemma shell_large k : more (iv_volume (shell k)) tenth = true.
Proof. apply more_iff. rewrite shell_volume. assert (H := rad_pos k). revert H. generalize (rad k). unfold tenth. intros q H. qc. Qed.
Lemma shell_positive k : more (iv_volume (shell k)) 0%Qc = true.
Proof. apply more_iff. rewrite shell_volume. assert (H := rad_pos k). revert H. generalize (rad k). intros q H. qc. Qed.
Lemma shell_rest k : more (iv_volume (shell 0) - iv_volume (shell (S k))) tenth = true.
Proof.
  apply more_iff. rewrite !shell_volume. assert (H : (rad (S k) <= rad 1)%Qc).
  { destruct k as [|k]; [apply Qcle_refl|]. apply Qclt_le_weak, rad_less. lia. }
  assert (E0 : rad 0 = 1%Qc) by (apply Qc_is_canon; reflexivity). assert (E1 : rad 1 = Q2Qc (5 # 8)) by (apply Qc_is_canon; reflexivity).
  rewrite E0. rewrite E1 in H. revert H. generalize (rad (S k)). unfold tenth. intros q H. qc.
Qed.
Definition shells (k : nat) : list (@region iv_R) := map (fun m => (shell m, @nil string)) (List.seq 0 (S k)).
Lemma shells_len k : @List.length (@region iv_R) (shells k) = S k.
Proof. unfold shells. rewrite map_length, seq_length. reflexivity. Qed.
Lemma shells_nth k m : m <= k -> nth_error (shells k) m = Some (shell m, []).
Proof.
  intro H. unfold shells. rewrite nth_error_map. replace (nth_error (List.seq 0 (S k)) m) with (Some m); [reflexivity|]. symmetry.
  rewrite (nth_error_nth' (List.seq 0 (S k)) 0) by (rewrite seq_length; lia). rewrite seq_nth by lia. reflexivity.
Qed.
Lemma shells_next k : shells (S k) = shells k ++ [(shell (S k), [])].
Proof. unfold shells. rewrite (seq_S (S k) 0), map_app. reflexivity. Qed.
Notation pre_round := (dual_round iv_inter iv_le (fun _ _ => true) iv_volume iv_volume iv_separate pre_solve (fun _ => 0%Qc) tenth half 1 true [] false).
Notation pre_loop := (dual_loop iv_inter iv_le (fun _ _ => true) iv_volume iv_volume iv_separate pre_solve (fun _ => 0%Qc) tenth half 1 true [] false).
Definition growing (k : nat) (st : dstate iv_R) : Prop :=
  d_sol st = shells k /\ d_sub st = None /\ (forall a c, a <= k -> c <= k -> d_adj st a c = true) /\ d_IJ st k 0 = true.
Lemma touch_all (sol : list (@region iv_R)) a c : a < @List.length (@region iv_R) sol -> c < @List.length (@region iv_R) sol -> touch_at (fun _ _ => true) sol a c = true.
Proof. intros A C. unfold touch_at. destruct (nth_error_ex _ _ A) as (x & ->), (nth_error_ex _ _ C) as (y & ->). reflexivity. Qed.
Lemma link_total (sol : list (@region iv_R)) new : forall ks adj, exists adj', link_one (fun _ _ => true) 1 false sol new ks adj = Ok adj'.
Proof. induction ks as [|c ks IH]; intro adj; cbn [link_one]; [eauto|]. destruct (touch_at (fun _ _ => true) sol new c); apply IH. Qed.
Lemma growing_round k st j i : growing k st -> j <= k -> i <= k -> exists st', pre_round st j i = Ok st' /\ (growing k st' \/ growing (S k) st').
Proof.
  intros (So & Su & Sa & Sj) Hj Hi. unfold dual_round. rewrite So, (shells_nth k i Hi), (shells_nth k j Hj). cbn [of_opt bind fst snd]. unfold subsystem. rewrite Su. unfold trans_set_of, pre_solve. cbn [bind].
  rewrite shell_pre, shell_inter. set (m := Nat.max i (S j)).
  assert (ND : (j, i) <> (k, 0) -> put j i false (d_IJ st) k 0 = true) by (intro NE; apply put_false; split; [intros [A B]; apply NE; congruence|exact Sj]).
  match goal with |- context [if ?b then _ else _] => destruct b eqn:CC end.
  - destruct (equals iv_le (shells k) (shell m)) as [|x found] eqn:EQ.
    + (* a new cell *)
      assert (IJ : i <= j /\ j = k).
      { assert (N : forall a, a <= k -> a <> m).
        { intros a A ->. assert (I : In m (equals iv_le (shells k) (shell m))); [|rewrite EQ in I; destruct I]. unfold equals. apply filter_In. rewrite in_seq, shells_len. split; [lia|].
          rewrite (shells_nth k m A). cbn [fst]. unfold same. replace (iv_le (shell m) (shell m)) with true; [reflexivity|]. symmetry.
          unfold iv_le, iv_diff, shell. cbn [fold_left flat_map app fst snd]. unfold imin, imax. rewrite (less_true _ _ (neg_pos m m)). rewrite (less_false (rad m) (- rad m)) by (apply Qclt_le_weak, neg_pos).
          unfold iv_make. rewrite !less_false by apply Qcle_refl. reflexivity. }
        assert (m <> i) by (intro; apply (N i Hi); congruence). unfold m in *. destruct (Nat.max_spec i (S j)) as [[A B]|[A B]]; [|lia]. split; [lia|]. 
        destruct (Nat.eq_dec j k); [assumption|]. exfalso. apply (N (S j)); lia. }
      destruct IJ as [IJ ->]. assert (EM : m = S k) by (unfold m; lia). rewrite EM in *. clear EM.
      match goal with |- context [add_cell ?a ?b ?c ?d ?e ?s ?ii ?jj ?pp ?is] => set (st1 := s) end.
      destruct (add_cell (fun _ _ => true) iv_separate 1 true false st1 i k [] (shell (S k))) as [st'|er] eqn:AC.
      2:{ exfalso. unfold add_cell in AC. cbn [iv_separate shell map hd_error of_opt bind] in AC.
          match type of AC with context [link_one ?t ?l ?rm ?s ?nn ?ks ?adj] => destruct (link_total s nn ks adj) as (adj' & EL); rewrite EL in AC end. cbn [bind] in AC. discriminate. }
      exists st'. split; [reflexivity|]. right. assert (LN : @List.length (@region iv_R) (d_sol st1) = S k) by (apply shells_len).
      assert (D := add_cell_added (fun _ _ => true) iv_volume iv_separate 1 true false st1 st' i k [] (shell (S k)) ltac:(unfold region in *; lia) ltac:(unfold region in *; lia) AC).
      assert (SO : d_sol st' = shells (S k)).
      { destruct (an_piece _ _ _ _ _ _ _ _ _ _ D) as (p & IP & ->). cbn [iv_separate shell map In] in IP. destruct IP as [<- | []]. rewrite shells_next. reflexivity. }
      assert (AD : forall a c, a <= S k -> c <= S k -> d_adj st' a c = true).
      { intros a c A C. apply (an_adj _ _ _ _ _ _ _ _ _ _ D). unfold region in *. rewrite LN, SO. cbn [st1 d_adj].
        destruct (Nat.eq_dec a (S k)) as [->|NA], (Nat.eq_dec c (S k)) as [->|NC].
        - auto.
        - destruct (Nat.eq_dec c i) as [->|NI]; [auto 6|]. do 3 right. left. split; [reflexivity|]. split; [lia|]. split; [exact NI|]. split; [apply Sa; lia|]. apply touch_all; rewrite shells_len; lia.
        - destruct (Nat.eq_dec a i) as [->|NI]; [auto 6|]. do 4 right. split; [reflexivity|]. split; [lia|]. split; [exact NI|]. split; [apply Sa; lia|]. apply touch_all; rewrite shells_len; lia.
        - left. split; [lia|]. split; [lia|]. apply Sa; lia. }
      split; [exact SO|]. split; [rewrite (an_sub _ _ _ _ _ _ _ _ _ _ D); reflexivity|]. split; [exact AD|].
      apply (an_IJ _ _ _ _ _ _ _ _ _ _ D). unfold region in *. rewrite LN. left. split; [auto|]. split; [unfold reachable_within; cbn [Nat.sub Nat.iter]; apply AD; lia|].
      destruct (d_trans st' (S k) 0) eqn:T; [|reflexivity]. apply (an_trans _ _ _ _ _ _ _ _ _ _ D) in T. unfold region in *. rewrite LN in T. lia.
    + (* the cell exists *)
      eexists. split; [reflexivity|]. left. split; [reflexivity|]. split; [reflexivity|]. split; [exact Sa|]. cbn [d_IJ]. apply ND. intros [= -> ->].
      assert (I : In x (equals iv_le (shells k) (shell m))) by (rewrite EQ; left; reflexivity). unfold equals in I. apply filter_In in I. rewrite in_seq, shells_len in I. destruct I as [I J].
      rewrite (shells_nth k x ltac:(lia)) in J. cbn [fst] in J. apply shell_same in J. subst x. unfold m in *. lia.
  - assert (NE : (j, i) <> (k, 0)).
    { intros [= -> ->]. unfold m in CC. cbn [Nat.max] in CC. rewrite shell_large, shell_positive, shell_rest, shell_positive in CC. discriminate. }
    apply ND in NE. destruct (more half (iv_volume (shell i) - iv_volume (shell m))%Qc); (eexists; split; [reflexivity|]; left; repeat split; try assumption).
Qed.
Lemma growing_forever fuel : forall k st, growing k st -> pre_loop fuel st = None.
Proof.
  induction fuel as [|fuel IH]; intros k st G; assert (LN : @List.length (@region iv_R) (d_sol st) = S k) by (destruct G as (-> & _); apply shells_len); cbn [dual_loop];
    destruct (first_pair (List.length (d_sol st)) (d_IJ st)) as [(j & i)|] eqn:F.
  - reflexivity.
  - exfalso. destruct G as (_ & _ & _ & G). rewrite (first_pair_none _ _ k 0 F) in G; [discriminate|unfold region in *; lia|unfold region in *; lia].
  - apply first_pair_some in F. destruct F as (J & I & _). destruct (growing_round k st j i G ltac:(unfold region in *; lia) ltac:(unfold region in *; lia)) as (st' & -> & [G'|G']); eapply IH; exact G'.
  - exfalso. destruct G as (_ & _ & _ & G). rewrite (first_pair_none _ _ k 0 F) in G; [discriminate|unfold region in *; lia|unfold region in *; lia].
Qed.
Definition unit_part : ppp iv_R := PPP [(- (1), 1)%Qc] [([(- (1), 1)%Qc], @nil string)] (Some (fun _ _ => true)) (Some []).
Theorem dual_ends_refuted : forall fuel,
  discretize_dual iv_inter iv_diff iv_fulldim iv_le (fun _ _ _ => true) (fun r => map (fun p => [p]) r) (fun _ _ => true) iv_volume iv_volume iv_separate pre_solve (fun _ => 0%Qc) tenth half 1 true
    false fuel None unit_part = None.
Proof.
  intro fuel. unfold discretize_dual. cbn [bi_start bind fst snd s_part unit_part p_adj s_orig_list andb].
  assert (E : rad 0 = 1%Qc) by (apply Qc_is_canon; reflexivity).
  rewrite (growing_forever fuel 0); [reflexivity|]. split; [|split; [reflexivity|split; [reflexivity|reflexivity]]].
  cbn [bi_init d_sol s_part p_regions]. unfold shells, shell. cbn [List.seq map]. rewrite E. reflexivity.
Qed.
(** The other algorithm ends on it. *)
Example dual_ends_case : exists ab, discretize_bi iv_inter iv_diff iv_fulldim iv_le (fun _ _ _ => true) (fun r => map (fun p => [p]) r) (fun _ _ => true) iv_volume iv_volume iv_separate
  pre_solve (fun _ => 0%Qc) tenth half 1 true false 400 None unit_part = Some (Ok ab).
Proof. eexists. vm_compute. reflexivity. Qed.
(** *** Only one piece of the intersection becomes a cell *)
(** From 0 and from 4 the second cell is reached, from 2 it is not.  The part [[0; 4]] of the first cell
    has two pieces; the cell that is added is [[0]], the intersection is still no cell, and the
    same cell is added again, without end. *)
Fixpoint pt_pieces (r : list nat) : list (list nat) :=
  match r with
  | [] => []
  | x :: r' => match pt_pieces r' with
               | (y :: p) :: ps => if near x y then (x :: y :: p) :: ps else [x] :: (y :: p) :: ps
               | _ => [[x]]
               end
  end.
Definition pt_apart (x : nat) : nat := match x with 0 => 6 | 4 => 6 | _ => 20 end.
Notation apart_round := (dual_round pt_inter pt_le pt_touch pt_volume pt_volume pt_pieces (pt_solve pt_apart) (fun _ => 0%Qc) half half 1 true [] false).
Notation apart_loop := (dual_loop pt_inter pt_le pt_touch pt_volume pt_volume pt_pieces (pt_solve pt_apart) (fun _ => 0%Qc) half half 1 true [] false).
Definition apart (m : nat) : list (@region pt_R) := [([0; 2; 4], []); ([6; 8], ["a"])] ++ List.repeat ([0], []) m.
Definition repeating (m : nat) (st : dstate pt_R) : Prop :=
  d_sol st = apart m /\ d_sub st = None /\ d_adj st 1 0 = true /\ d_trans st 1 0 = false /\ d_IJ st 1 0 = true.
Lemma apart_len m : @List.length (@region pt_R) (apart m) = S (S m).
Proof. unfold apart. rewrite app_length, repeat_length. reflexivity. Qed.
Lemma apart_nth m i : i < S (S m) -> nth_error (apart m) i = Some (match i with 0 => ([0; 2; 4], []) | 1 => ([6; 8], ["a"]) | _ => ([0], []) end).
Proof. intro H. destruct i as [|[|i]]; [reflexivity|reflexivity|]. cbn [apart app nth_error]. apply nth_error_repeat. lia. Qed.
Lemma apart_none m : equals pt_le (apart m) [0; 4] = [].
Proof.
  unfold equals. destruct (filter _ _) as [|x l] eqn:F; [reflexivity|]. exfalso. assert (I : In x (x :: l)) by (left; reflexivity). rewrite <- F in I. apply filter_In in I. rewrite in_seq, apart_len in I.
  destruct I as [A B]. rewrite apart_nth in B by lia. destruct x as [|[|x]]; vm_compute in B; discriminate.
Qed.
Lemma link_any (touch : @region pt_R -> @region pt_R -> bool) sol new : forall ks adj, exists adj', link_one touch 1 false sol new ks adj = Ok adj'.
Proof. induction ks as [|c ks IH]; intro adj; cbn [link_one]; [eauto|]. destruct (touch_at touch sol new c); apply IH. Qed.
Lemma repeating_round m st j i : repeating m st -> j < S (S m) -> i < S (S m) -> exists st', apart_round st j i = Ok st' /\ (repeating m st' \/ repeating (S m) st').
Proof.
  intros (So & Su & Sa & St & Sj) Hj Hi. destruct ((j =? 1) && (i =? 0)) eqn:C.
  - apply andb_true_iff in C. rewrite !Nat.eqb_eq in C. destruct C as [-> ->].
    unfold dual_round. rewrite So. rewrite !apart_nth by lia. cbn [of_opt bind fst snd]. unfold subsystem. rewrite Su. unfold trans_set_of. cbn [bind].
    match goal with |- context [pt_solve ?a ?b ?c ?d ?e] => let v := eval vm_compute in (pt_solve a b c d e) in change (pt_solve a b c d e) with v end. cbn [bind].
    match goal with |- context [pt_inter ?a ?b] => let v := eval vm_compute in (pt_inter a b) in change (pt_inter a b) with v end.
    match goal with |- context [if ?b then _ else _] => replace b with true by (vm_compute; reflexivity) end. rewrite apart_none.
    match goal with |- context [add_cell _ _ _ _ _ ?s _ _ _ _] => set (st1 := s) end.
    destruct (add_cell pt_touch pt_pieces 1 true false st1 0 1 [] [0; 4]) as [st'|er] eqn:AC.
    2:{ exfalso. unfold add_cell in AC. change (hd_error (pt_pieces [0; 4])) with (Some [0]) in AC. cbn [of_opt bind] in AC.
        match type of AC with context [link_one ?t ?l ?rm ?s ?nn ?ks ?adj] => destruct (link_any t s nn ks adj) as (adj' & EL); rewrite EL in AC end. cbn [bind] in AC. discriminate. }
    exists st'. split; [reflexivity|]. right. assert (LN : @List.length (@region pt_R) (d_sol st1) = S (S m)) by apply apart_len.
    assert (D := add_cell_added pt_touch pt_volume pt_pieces 1 true false st1 st' 0 1 [] [0; 4] ltac:(unfold region in *; lia) ltac:(unfold region in *; lia) AC).
    assert (AD : d_adj st' 1 0 = true).
    { apply (an_adj _ _ _ _ _ _ _ _ _ _ D). left. unfold region in *. rewrite LN. split; [lia|]. split; [lia|exact Sa]. }
    assert (TR : d_trans st' 1 0 = false).
    { destruct (d_trans st' 1 0) eqn:T; [|reflexivity]. apply (an_trans _ _ _ _ _ _ _ _ _ _ D) in T. unfold region in *. rewrite LN in T.
      destruct T as [(_ & _ & T)|[(T & _)|(_ & T & _)]]; [cbn [st1 d_trans] in T; rewrite St in T; discriminate|discriminate|discriminate]. }
    split; [|split; [rewrite (an_sub _ _ _ _ _ _ _ _ _ _ D); reflexivity|split; [exact AD|split; [exact TR|]]]].
    + unfold add_cell in AC. change (hd_error (pt_pieces [0; 4])) with (Some [0]) in AC. cbn [of_opt bind] in AC.
      match type of AC with context [link_one ?t ?l ?rm ?s ?nn ?ks ?adj] => destruct (link_any t s nn ks adj) as (adj' & EL); rewrite EL in AC end. cbn [bind] in AC.
      apply (f_equal (fun r => match r with Ok s => d_sol s | Err _ => [] end)) in AC. cbn [d_sol] in AC. rewrite <- AC. cbn [st1 d_sol]. unfold apart. rewrite <- app_assoc. f_equal.
      change (List.repeat ([0], []) m ++ List.repeat (([0], []) : @region pt_R) 1 = List.repeat ([0], []) (S m)). rewrite <- repeat_app. f_equal. lia.
    + apply (an_IJ _ _ _ _ _ _ _ _ _ _ D). left. split; [auto|]. split; [exact AD|exact TR].
  - assert (NE : ~ (j = 1 /\ i = 0)) by (intros [-> ->]; discriminate). clear C.
    assert (ND : put j i false (d_IJ st) 1 0 = true) by (apply put_false; split; [intros [A B]; apply NE; split; congruence|exact Sj]).
    assert (NT : forall b, put j i b (d_trans st) 1 0 = false).
    { intro b. unfold put. destruct ((1 =? j) && (0 =? i)) eqn:B; [|exact St]. apply andb_true_iff in B. rewrite !Nat.eqb_eq in B. exfalso. apply NE. destruct B; split; symmetry; assumption. }
    unfold dual_round. rewrite So. rewrite !apart_nth by assumption. cbn [of_opt bind fst snd]. unfold subsystem. rewrite Su. unfold trans_set_of. cbn [bind].
    destruct i as [|[|i]], j as [|[|j]]; try (exfalso; apply NE; auto; fail);
      match goal with |- context [pt_solve ?a ?b ?c ?d ?e] => let v := eval vm_compute in (pt_solve a b c d e) in change (pt_solve a b c d e) with v end; cbn [bind];
      match goal with |- context [pt_inter ?a ?b] => let v := eval vm_compute in (pt_inter a b) in change (pt_inter a b) with v end;
      (match goal with |- context [if ?b then _ else _] => replace b with false by (vm_compute; reflexivity) end);
      (match goal with |- context [if ?b then _ else _] => destruct b end); (eexists; split; [reflexivity|]; left; split; [reflexivity|]; split; [reflexivity|]; split; [exact Sa|]; split; [apply NT|exact ND]).
Qed.
Lemma repeating_forever fuel : forall m st, repeating m st -> apart_loop fuel st = None.
Proof.
  induction fuel as [|fuel IH]; intros m st G; assert (LN : @List.length (@region pt_R) (d_sol st) = S (S m)) by (destruct G as (-> & _); apply apart_len); cbn [dual_loop];
    destruct (first_pair (List.length (d_sol st)) (d_IJ st)) as [(j & i)|] eqn:F.
  - reflexivity.
  - exfalso. destruct G as (_ & _ & _ & _ & G). rewrite (first_pair_none _ _ 1 0 F) in G; [discriminate|unfold region in *; lia|unfold region in *; lia].
  - apply first_pair_some in F. destruct F as (J & I & _). destruct (repeating_round m st j i G ltac:(unfold region in *; lia) ltac:(unfold region in *; lia)) as (st' & -> & [G'|G']); eapply IH; exact G'.
  - exfalso. destruct G as (_ & _ & _ & _ & G). rewrite (first_pair_none _ _ 1 0 F) in G; [discriminate|unfold region in *; lia|unfold region in *; lia].
Qed.
Theorem dual_pieces_refuted : (forall fuel, discretize_dual pt_inter pt_diff pt_fulldim pt_le pt_adjacent pt_pieces pt_touch pt_volume pt_volume pt_pieces (pt_solve pt_apart) (fun _ => 0%Qc) half half 1 true
    false fuel None (pt_two [0; 2; 4] [6; 8]) = None) /\
  exists ab, discretize_bi pt_inter pt_diff pt_fulldim pt_le pt_adjacent pt_pieces pt_touch pt_volume pt_volume pt_pieces (pt_solve pt_apart) (fun _ => 0%Qc) half half 1 true
    false 60 None (pt_two [0; 2; 4] [6; 8]) = Some (Ok ab).
Proof.
  split; [|eexists; vm_compute; reflexivity]. intro fuel. unfold discretize_dual.
  match goal with |- context [bi_start ?a ?b ?c ?d ?e ?f ?g ?h ?p ?q] => destruct (bi_start a b c d e f g h p q) as [s|er] eqn:B; [|vm_compute in B; discriminate] end.
  vm_compute in B. injection B as <-. cbn [s_part p_adj s_orig_list andb]. rewrite (repeating_forever fuel 0); [reflexivity|].
  split; [reflexivity|split; [reflexivity|split; [reflexivity|split; [reflexivity|reflexivity]]]].
Qed.
Print Assumptions dual_ends_refuted.
Print Assumptions dual_pieces_refuted.
Print Assumptions dual_partition_refuted.
Print Assumptions dual_pwa_refuted.
Print Assumptions dual_remove_refuted.
