(** [_discretize_dual] from the partition it is given to the abstraction it returns. *)
From Coq Require Import List String Bool Arith ZArith Lia QArith Qcanon.
From Verif Require Import M_Tree M_Base S_LTL M_Dict M_Graph S_Run M_Fts T_Fts M_Part T_Prop2part T_Refine M_Discretize L_Discretize L_Ts T_Discretize T_Abstract M_Dual T_Dual.
Import ListNotations.
Open Scope string_scope.
Open Scope list_scope.
Open Scope nat_scope.

Section Abstract.
Context {R X : Type} (inter diff : R -> R -> R) (fulldim : R -> bool) (le : R -> R -> bool).
Context (pts : R -> X -> bool) (null : (X -> Prop) -> Prop).
Hypothesis null_sub : forall A B : X -> Prop, null B -> (forall x, A x -> B x) -> null A.
Hypothesis null_empty : null (fun _ => False).
Hypothesis null_union : forall A B, null A -> null B -> null (fun x => A x \/ B x).
Hypothesis pts_inter : forall a b x, pts (inter a b) x = pts a x && pts b x.
Hypothesis diff_covers : forall a b x, pts a x = true -> pts b x = false -> pts (diff a b) x = true.
Hypothesis full : forall r, fulldim r = false <-> null (fun x => pts r x = true).
Hypothesis le_ok : forall a b, le a b = true <-> (forall x, pts a x = true -> pts b x = true).
Notation inside := (inside pts).
Notation partition := (partition fulldim pts null).

Context (find_adjacent : list (@region R) -> matrix) (convex : R -> list R) (touch : @region R -> @region R -> bool).
Context (volume radius : R -> Qc) (separate : R -> list R).
Context (solve : option nat -> R -> R -> option R -> res R) (rd : option nat -> Qc).
Context (min_cell_volume abs_tol : Qc) (trans_length : nat) (conservative : bool).
Hypothesis separate_in : forall r c x, In c (separate r) -> inside c x -> inside r x.
Hypothesis separate_covers : forall r, null (fun x => inside r x /\ forall c, In c (separate r) -> ~ inside c x).
Hypothesis separate_full : forall r c, In c (separate r) -> fulldim c = true.
Hypothesis volume_null : forall r, null (inside r) -> (volume r <= 0)%Qc.
Hypothesis volume_split : forall a b, (volume (inter a b) + volume (diff a b) <= volume a)%Qc.
Hypothesis min_nonneg : (0 <= min_cell_volume)%Qc.
Hypothesis touch_sym : forall r s, touch r s = touch s r.
Hypothesis touch_mono : forall r r' s, (forall x, inside (fst r') x -> inside (fst r) x) -> touch r' s = true -> touch r s = true.
Context (reach : option nat -> (X -> Prop) -> (X -> Prop) -> X -> Prop).
Hypothesis reach_mono : forall s (M M' G : X -> Prop) x, (forall y, M y -> M' y) -> reach s M G x -> reach s M' G x.
Hypothesis solve_sound : forall s a b t S0 x, solve s a b t = Ok S0 -> inside a x -> inside S0 x ->
  reach s (inside (match t with None => a | Some c => c end)) (inside b) x.
Hypothesis convex_in : forall r c x, fulldim r = true -> In c (convex r) -> inside c x -> inside r x.
Hypothesis convex_covers : forall r, fulldim r = true -> null (fun x => inside r x /\ forall c, In c (convex r) -> ~ inside c x).
Hypothesis convex_disjoint : forall r, fulldim r = true -> ForallOrdPairs (fun c d => null (fun x => inside c x /\ inside d x)) (convex r).
Hypothesis convex_full : forall r c, fulldim r = true -> In c (convex r) -> fulldim c = true.
Hypothesis find_adjacent_ok : forall l, adjacency touch l (find_adjacent l).

Variables (part : ppp R) (props : list (string * R)) (pwa : option (R * list R)).
Notation given := (given diff fulldim pts null touch part props pwa).
Notation started := (started fulldim pts null touch conservative part props pwa).

(** Cells that cover the domain and preserve the propositions; they may overlap. *)
Record covering (domain : R) (l : list (@region R)) : Prop := {
  co_in : forall r x, In r l -> inside (fst r) x -> inside domain x;
  co_cover : null (fun x => inside domain x /\ forall r, In r l -> ~ inside (fst r) x);
  co_true : forall r p P, In r l -> In (p, P) props -> In p (snd r) -> forall x, inside (fst r) x -> inside P x;
  co_false : forall r p P, In r l -> In (p, P) props -> ~ In p (snd r) -> null (fun x => inside (fst r) x /\ inside P x);
  co_names : forall r p, In r l -> In p (snd r) -> In p (map fst props);
  co_full : forall r, In r l -> fulldim (fst r) = true }.
Lemma parts_covering domain cells0 (f : nat -> nat) l : partition domain props cells0 -> (exists extra, l = cells0 ++ extra) ->
  (forall k r, nth_error l k = Some r -> fulldim (fst r) = true /\ exists r0, nth_error cells0 (f k) = Some r0 /\ snd r = snd r0 /\ forall x, inside (fst r) x -> inside (fst r0) x) ->
  covering domain l.
Proof.
  intros P (extra & EX) H.
  assert (Q : forall r, In r l -> fulldim (fst r) = true /\ exists r0, In r0 cells0 /\ snd r = snd r0 /\ forall x, inside (fst r) x -> inside (fst r0) x).
  { intros r I. apply In_nth_error in I. destruct I as (k & I). destruct (H k r I) as (F & r0 & N & E & S). split; [exact F|]. exists r0. split; [exact (nth_error_In _ _ N)|auto]. }
  constructor.
  - intros r x I J. destruct (Q r I) as (_ & r0 & I0 & _ & S). apply (part_in _ _ _ _ _ _ P r0 x I0), S, J.
  - apply (null_sub _ _ (part_cover _ _ _ _ _ _ P)). intros x [A B]. split; [exact A|]. intros r I. apply B. rewrite EX. apply in_app_iff. auto.
  - intros r p P' I J K x IX. destruct (Q r I) as (_ & r0 & I0 & E & S). rewrite E in K. apply (part_true _ _ _ _ _ _ P r0 p P' I0 J K), S, IX.
  - intros r p P' I J K. destruct (Q r I) as (_ & r0 & I0 & E & S). rewrite E in K. apply (null_sub _ _ (part_false _ _ _ _ _ _ P r0 p P' I0 J K)). intros x [A B]. auto.
  - intros r p I K. destruct (Q r I) as (_ & r0 & I0 & E & S). rewrite E in K. apply (part_names _ _ _ _ _ _ P r0 p I0 K).
  - intros r I. apply Q, I.
Qed.
Lemma covering_ppp domain l adj ps : covering domain l -> ps = Some props -> make_ppp le domain l adj ps = Ok (PPP domain l adj ps).
Proof.
  intros C ->. unfold make_ppp. replace (forallb _ l) with true.
  - unfold is_symbolic. replace (forallb _ l) with true; [reflexivity|].
    symmetry. apply forallb_forall. intros r I. unfold subset. apply forallb_forall. intros p J. apply mem_In. apply (co_names _ _ C r p I J).
  - symmetry. apply forallb_forall. intros r I. apply le_ok. intros x J. apply (co_in _ _ C r x I J).
Qed.

(** ** The abstraction that is returned *)
Notation can_go := (can_go pts volume abs_tol reach).
(** The states of [ci] that [solve_feasible] found are to be a cell of their own. *)
Definition worth (sub : option nat) (ci : @region R) (S0 : R) : Prop :=
  (min_cell_volume < volume (inter (fst ci) S0))%Qc /\ (rd sub < radius (inter (fst ci) S0))%Qc /\
  (min_cell_volume < volume (fst ci) - volume (inter (fst ci) S0))%Qc /\ (rd sub < radius (fst ci))%Qc.
(** They are not, and the other states are too many for a transition. *)
Definition turned_down (sub : option nat) (mid : option R) (ci cj : @region R) : Prop :=
  exists S0, solve sub (fst ci) (fst cj) mid = Ok S0 /\ (abs_tol <= volume (fst ci) - volume (inter (fst ci) S0))%Qc /\ ~ worth sub ci S0.
Record is_dual (ab : abstraction R) : Prop := {
  du_coarse : partition (p_domain part) props (p_regions (ab_pwa_ppp ab));
  du_cells : exists extra, p_regions (ab_ppp ab) = p_regions (ab_pwa_ppp ab) ++ extra;
  du_cover : covering (p_domain part) (p_regions (ab_ppp ab));
  du_same : p_domain (ab_ppp ab) = p_domain part /\ p_props (ab_ppp ab) = p_props part;
  du_states : node_list (f_graph (ab_ts ab)) = map state (List.seq 0 (List.length (p_regions (ab_ppp ab)))) /\
    g_init (f_graph (ab_ts ab)) = [] /\ f_ap (ab_ts ab) = map OStr (map fst props);
  du_labels : forall k v, named (state k) v (f_graph (ab_ts ab)) <-> exists c, nth_error (p_regions (ab_ppp ab)) k = Some c /\ v = PvSet (snd c);
  du_systems : match pwa with
    | None => ab_ppp2sys ab = None
    | Some (_, subs) => p_regions (ab_ppp ab) = p_regions (ab_pwa_ppp ab) /\
        exists l, ab_ppp2sys ab = Some l /\ List.length l = List.length (p_regions (ab_ppp ab)) /\
        forall k c, nth_error (p_regions (ab_ppp ab)) k = Some c ->
          exists i u, nth_error l k = Some i /\ nth_error subs i = Some u /\ forall x, inside (fst c) x -> inside u x
    end;
  du_maps : exists (f g : nat -> nat) (adj : matrix),
    (forall k, k < List.length (p_regions (ab_pwa_ppp ab)) -> f k = k) /\
    (forall k c, nth_error (p_regions (ab_ppp ab)) k = Some c -> exists r o,
       nth_error (p_regions (ab_pwa_ppp ab)) (f k) = Some r /\ nth_error (p_regions part) (g k) = Some o /\ snd c = snd r /\ snd c = snd o /\
       (forall x, inside (fst c) x -> inside (fst r) x) /\ (forall x, inside (fst r) x -> inside (fst o) x)) /\
    (conservative = false -> ab_ppp2pwa ab = map f (List.seq 0 (List.length (p_regions (ab_ppp ab)))) /\
                             ab_ppp2orig ab = map g (List.seq 0 (List.length (p_regions (ab_ppp ab))))) /\
    p_adj (ab_ppp ab) = Some adj /\ adjacency touch (p_regions (ab_ppp ab)) adj /\
    (forall a e b, trans (f_graph (ab_ts ab)) a e b -> e = [] /\ exists i j r ci cj, a = state i /\ b = state j /\
       nth_error (p_regions (ab_ppp ab)) i = Some ci /\ nth_error (p_regions (ab_ppp ab)) j = Some cj /\
       nth_error (p_regions (ab_pwa_ppp ab)) (f i) = Some r /\ can_go (sub_of (ab_ppp2sys ab) i) r ci cj) /\
    (forall i j r ci cj, nth_error (p_regions (ab_ppp ab)) i = Some ci -> nth_error (p_regions (ab_ppp ab)) j = Some cj ->
       nth_error (p_regions (ab_pwa_ppp ab)) (f i) = Some r -> hops (List.length (p_regions (ab_ppp ab))) adj (Nat.max 1 trans_length) j i ->
       let sub k := sub_of (ab_ppp2sys ab) k in
       let mid r := if conservative then None else Some (fst r) in
       trans (f_graph (ab_ts ab)) (state i) [] (state j)
       \/ turned_down (sub i) (mid r) ci cj
       \/ exists S0 k ck rk, solve (sub i) (fst ci) (fst cj) (mid r) = Ok S0 /\ worth (sub i) ci S0 /\
            nth_error (p_regions (ab_ppp ab)) k = Some ck /\ nth_error (p_regions (ab_pwa_ppp ab)) (f k) = Some rk /\
            (forall x, inside (fst ck) x <-> inside (fst ci) x /\ inside S0 x) /\
            (trans (f_graph (ab_ts ab)) (state k) [] (state j) \/ turned_down (sub k) (mid rk) ck cj)) }.
Notation discretize := (discretize_dual inter diff fulldim le find_adjacent convex touch volume radius separate solve rd min_cell_volume abs_tol trans_length conservative).
Notation loop s rm := (dual_loop inter le touch volume radius separate solve rd min_cell_volume abs_tol trans_length conservative (s_orig_list s) rm).
Notation inv s := (kept inter fulldim pts touch volume radius solve rd min_cell_volume abs_tol trans_length conservative reach (s_orig_list s)
    (p_regions (s_part s)) (s_sub s) (s_orig s)).
Lemma start_kept s adj : started s -> p_adj (s_part s) = Some adj -> inv s (fun k => k) (bi_init trans_length s adj).
Proof.
  intros S A. assert (S' := S). destruct S' as [S1 S2 S3 (adj' & S4 & S4') S5 S6 S7]. assert (adj' = adj) by congruence. subst adj'. destruct S4' as [A1 A2 A3].
  constructor; cbn [bi_init d_sol d_sub d_orig d_adj d_trans d_IJ].
  - exists []. symmetry. apply app_nil_r.
  - reflexivity.
  - intros k r N. split; [apply (part_full _ _ _ _ _ _ S1 r), (nth_error_In _ _ N)|]. exists r. auto.
  - reflexivity.
  - intro C. destruct conservative; [discriminate|]. destruct S7 as [-> _]. rewrite seq_length. split; [reflexivity|]. intros k K.
    rewrite (nth_error_nth' _ 0) by (rewrite seq_length; exact K). rewrite seq_nth by exact K. reflexivity.
  - reflexivity.
  - exact A1.
  - exact A2.
  - exact A3.
  - discriminate.
  - intros j i J I W. right. left. exact W.
Qed.
Lemma start_sub_len s : started s -> match s_sub s with None => True | Some l => List.length l = List.length (p_regions (s_part s)) end.
Proof.
  intro S. assert (Q := sd_sub _ _ _ _ _ _ _ _ _ S). destruct pwa as [(dom & subs)|]; [|rewrite Q; exact I]. destruct Q as (l & -> & L & _). exact L.
Qed.
Lemma start_orig s : started s -> conservative = false -> s_orig_list s = map fst (p_regions (s_part s)).
Proof. intros S C. assert (M := sd_mode _ _ _ _ _ _ _ _ _ S). rewrite C in M. apply M. Qed.
Definition bi_start_ok' := bi_start_ok inter diff fulldim le pts null null_sub null_empty null_union pts_inter diff_covers full le_ok find_adjacent convex touch conservative
  touch_sym touch_mono convex_in convex_covers convex_disjoint convex_full find_adjacent_ok part props pwa.
Theorem discretize_dual_sound rm fuel ab : given -> discretize rm fuel pwa part = Some (Ok ab) -> is_dual ab.
Proof.
  intros G E. unfold discretize_dual in E. destruct (bi_start_ok' G) as (s & ES & S). rewrite ES in E.
  destruct (sd_adj _ _ _ _ _ _ _ _ _ S) as (adj0 & EA & _). rewrite EA in E.
  destruct (loop s (conservative && rm) fuel (bi_init trans_length s adj0)) as [[st|e]|] eqn:EL; [|discriminate|discriminate].
  assert (V0 := start_kept s adj0 S EA).
  destruct (dual_loop_sound inter diff fulldim le pts null null_sub pts_inter diff_covers le_ok touch volume radius separate solve rd
    min_cell_volume abs_tol trans_length conservative separate_in separate_full volume_null volume_split min_nonneg touch_sym touch_mono reach reach_mono solve_sound
    (conservative && rm) (s_orig_list s) (p_domain part) props (p_regions (s_part s)) (s_sub s) (s_orig s) (start_orig s S) (sd_part _ _ _ _ _ _ _ _ _ S) (start_sub_len s S) fuel _ _ st V0 EL) as [(f & V) DN].
  assert (E' : bi_result le s st = Ok ab) by congruence. clear E. unfold bi_result in E'.
  assert (NA : forall dom subs, pwa = Some (dom, subs) -> d_sol st = p_regions (s_part s)).
  { intros dom subs EP. assert (SS := sd_sub _ _ _ _ _ _ _ _ _ S). rewrite EP in SS. destruct SS as (l & EL' & _).
    assert (Q := no_cell_added inter diff fulldim le pts null null_sub pts_inter diff_covers le_ok touch volume radius separate solve rd
      min_cell_volume abs_tol trans_length conservative separate_in separate_full volume_null volume_split min_nonneg touch_sym touch_mono reach reach_mono solve_sound
      (conservative && rm) (s_orig_list s) (p_domain part) props (p_regions (s_part s)) (s_sub s) (s_orig s) (start_orig s S) (sd_part _ _ _ _ _ _ _ _ _ S) (start_sub_len s S) fuel _ _ st l V0 EL' eq_refl EL).
    destruct V as [(extra & EX) _ _ _ _ _ _ _ _ _ _]. rewrite EX, app_length in Q. destruct extra as [|x extra]; [rewrite EX, app_nil_r; reflexivity|exfalso; cbn [List.length] in Q; lia]. }
  destruct V as [V1 V2 V3 V4 V5 V6 V7 V8 V9 V10 V11].
  assert (CO : covering (p_domain part) (d_sol st)) by exact (parts_covering _ _ f _ (sd_part _ _ _ _ _ _ _ _ _ S) V1 V3).
  rewrite (covering_ppp _ _ _ _ (eq_rect_r (fun d => covering d (d_sol st)) CO (sd_domain _ _ _ _ _ _ _ _ _ S)) (sd_props _ _ _ _ _ _ _ _ _ S)) in E'.
  cbn [bind] in E'. rewrite (sd_props _ _ _ _ _ _ _ _ _ S) in E'. cbn [of_opt bind] in E'.
  destruct (build_ts_spec (map fst props) (map snd (d_sol st)) (fun i j => d_trans st j i)) as (ts & ET & T1 & T2 & T3 & T4 & T5).
  { intros l p I J. apply in_map_iff in I. destruct I as (r & <- & I). apply (co_names _ _ CO r p I J). }
  rewrite ET in E'. cbn [bind] in E'. rewrite map_length in T2, T4.
  destruct (mapr (fun x => of_opt "IndexError" (nth_error (s_part2orig s) x)) (d_orig st)) as [po|e] eqn:EO; [|discriminate]. cbn [bind] in E'.
  assert (E2 : ab = Abstraction (PPP (p_domain (s_part s)) (d_sol st) (Some (d_adj st)) (Some props)) ts (s_part s) (d_orig st) (d_sub st) po) by congruence.
  clear E'. subst ab.
  assert (SO : forall k, k < List.length (d_sol st) -> sub_of (s_sub s) (f k) = sub_of (d_sub st) k).
  { intros k K. rewrite V4. destruct (s_sub s) as [l|] eqn:EB; [|reflexivity]. cbn [sub_of]. f_equal. apply V2. destruct pwa as [(dom & subs)|]; [rewrite (NA dom subs eq_refl) in K; exact K|].
    assert (SS := sd_sub _ _ _ _ _ _ _ _ _ S). cbn in SS. congruence. }
  assert (SL := start_orig s S).
  assert (MID : forall i t r, i < List.length (d_sol st) -> trans_set_of conservative (s_orig_list s) st i = Ok t -> nth_error (p_regions (s_part s)) (f i) = Some r -> t = if conservative then None else Some (fst r)).
  { intros i t r I Q4 Nr. unfold trans_set_of in Q4. destruct conservative eqn:C; [congruence|]. destruct (V5 eq_refl) as [_ O]. rewrite (O i I) in Q4. cbn [of_opt bind] in Q4.
    rewrite (SL eq_refl), (map_nth_error fst _ _ Nr) in Q4. cbn [of_opt bind] in Q4. congruence. }
  assert (TDN : forall i j r ci cj, nth_error (d_sol st) i = Some ci -> nth_error (d_sol st) j = Some cj -> nth_error (p_regions (s_part s)) (f i) = Some r ->
    declined inter volume radius solve rd min_cell_volume abs_tol conservative (s_orig_list s) st j i -> turned_down (sub_of (d_sub st) i) (if conservative then None else Some (fst r)) ci cj).
  { intros i j r ci cj Ni Nj Nr (si & sj & ss & t & S0 & [Q1 Q2 Q3 Q4 Q5] & Q6 & Q7). assert (I := nth_error_lt _ _ _ Ni).
    assert (si = ci) by congruence. assert (sj = cj) by congruence. subst si sj. apply subsystem_of in Q3. subst ss.
    exists S0. rewrite <- (MID i t r I Q4 Nr). auto. }
  constructor; cbn [ab_ppp ab_ts ab_pwa_ppp ab_ppp2pwa ab_ppp2sys ab_ppp2orig p_domain p_regions p_adj p_props].
  - exact (sd_part _ _ _ _ _ _ _ _ _ S).
  - exact V1.
  - exact CO.
  - rewrite (gv_props _ _ _ _ _ _ _ _ G). split; [exact (sd_domain _ _ _ _ _ _ _ _ _ S)|reflexivity].
  - auto.
  - intros k v. rewrite T5. split.
    + intros (l & N & ->). apply nth_map_inv in N. destruct N as (c & N & <-). eauto.
    + intros (c & N & ->). exists (snd c). split; [exact (map_nth_error snd _ _ N)|reflexivity].
  - assert (SS := sd_sub _ _ _ _ _ _ _ _ _ S). destruct pwa as [(dom & subs)|]; [|rewrite SS in V4; exact V4].
    assert (EQ := NA dom subs eq_refl). split; [exact EQ|]. destruct SS as (l0 & E0 & L0 & C0). exists l0. rewrite EQ. split; [congruence|]. split; [exact L0|exact C0].
  - exists f, (fun k => nth (f k) (s_part2orig s) 0), (d_adj st). split; [exact V2|]. split; [|split; [|split; [reflexivity|split; [constructor; assumption|split]]]].
    + intros k c N. destruct (V3 k c N) as (_ & r & N1 & N2 & N3). destruct (proj2 (sd_orig _ _ _ _ _ _ _ _ _ S) (f k) r N1) as (o & ro & M1 & M2 & M3 & M4).
      exists r, ro. rewrite (nth_error_nth _ _ 0 M1). split; [exact N1|]. split; [exact M2|]. split; [exact N2|]. split; [congruence|]. auto.
    + intro C. destruct (V5 C) as [L O]. destruct (mapr_inv _ _ _ EO) as [LP NP]. split; [apply nth_eq_map; assumption|]. apply nth_eq_map; [congruence|].
      intros k K. destruct (NP k (f k) (O k K)) as (y & Y1 & Y2). rewrite Y2. f_equal. destruct (nth_error (s_part2orig s) (f k)) as [z|] eqn:Z; [|discriminate].
      cbn in Y1. injection Y1 as ->. symmetry. apply nth_error_nth, Z.
    + intros a e b T. apply T4 in T. destruct T as (-> & i & j & I & J & T & -> & ->). split; [reflexivity|].
      destruct (V10 j i T) as (_ & _ & X0). destruct (nth_error_ex _ _ I) as (ci & Ni), (nth_error_ex _ _ J) as (cj & Nj).
      destruct (V3 i ci Ni) as (_ & r & Nr & _). exists i, j, r, ci, cj. split; [reflexivity|]. split; [reflexivity|]. split; [exact Ni|]. split; [exact Nj|]. split; [exact Nr|].
      assert (Q := X0 ci cj r Ni Nj Nr). rewrite (SO i I) in Q. exact Q.
    + intros i j r ci cj Ni Nj Nr H. cbv zeta. apply within_max in H. assert (I := nth_error_lt _ _ _ Ni). assert (J := nth_error_lt _ _ _ Nj).
      destruct (V11 j i J I H) as [T|[T|[T|T]]].
      * left. apply T4. split; [reflexivity|]. exists i, j. auto.
      * rewrite (DN j i J I) in T. discriminate.
      * right. left. apply (TDN i j r ci cj Ni Nj Nr T).
      * right. right. destruct T as (si & sj & ss & t & S0 & k & c & [Q1 Q2 Q3 Q4 Q5] & Q6 & Q7 & Q8 & Q9).
        assert (si = ci) by congruence. assert (sj = cj) by congruence. subst si sj. apply subsystem_of in Q3. subst ss.
        destruct (V3 k c Q7) as (_ & rk & Nk & _). exists S0, k, c, rk. rewrite <- (MID i t r I Q4 Nr). split; [exact Q5|]. split; [exact Q6|]. split; [exact Q7|]. split; [exact Nk|]. split; [exact Q8|].
        destruct Q9 as [T|T]; [left; apply T4; split; [reflexivity|]; exists k, j; assert (K := nth_error_lt _ _ _ Q7); auto|right; apply (TDN k j rk c cj Q7 Nj Nk T)].
Qed.
(** For one linear system, and unless [remove_trans] is asked for with [conservative], the function raises
    no exception that [solve_feasible] does not raise. *)
Theorem dual_no_error rm fuel e : given -> fulldim (p_domain part) = true -> pwa = None -> conservative && rm && (trans_length =? 1) = false ->
  (forall ss a b t, exists S0, solve ss a b t = Ok S0) -> discretize rm fuel pwa part <> Some (Err e).
Proof.
  intros G FD PN RM TT. unfold discretize_dual. destruct (bi_start_ok' G) as (s & ES & S). rewrite ES. destruct (sd_adj _ _ _ _ _ _ _ _ _ S) as (adj0 & EA & _). rewrite EA.
  assert (V0 := start_kept s adj0 S EA). assert (SN : s_sub s = None) by (assert (SS := sd_sub _ _ _ _ _ _ _ _ _ S); rewrite PN in SS; exact SS).
  assert (NE : forall fuel st f e, inv s f st -> loop s (conservative && rm) fuel st <> Some (Err e)).
  { clear fuel. induction fuel as [|fuel IH]; intros st f e' V; cbn [dual_loop]; (destruct (first_pair (List.length (d_sol st)) (d_IJ st)) as [(j & i)|] eqn:F; [|discriminate]); [discriminate|].
    apply first_pair_some in F. destruct F as (J & I & _).
    destruct (dual_round_total inter fulldim le pts null null_sub touch volume radius separate solve rd min_cell_volume abs_tol trans_length conservative
      separate_covers volume_null min_nonneg reach (conservative && rm) (s_orig_list s) (p_regions (s_part s)) (s_sub s) (s_orig s) (start_orig s S) f st j i V J I SN RM TT) as (st' & E).
    rewrite E.
    destruct (kept_round inter diff fulldim le pts null null_sub pts_inter diff_covers le_ok touch volume radius separate solve rd
      min_cell_volume abs_tol trans_length conservative separate_in separate_full volume_null volume_split min_nonneg touch_sym touch_mono reach reach_mono solve_sound
      (conservative && rm) (s_orig_list s) (p_domain part) props (p_regions (s_part s)) (s_sub s) (s_orig s) (start_orig s S) (sd_part _ _ _ _ _ _ _ _ _ S) (start_sub_len s S) f st j i st' V J I E) as (f' & V'). apply (IH st' f' e' V'). }
  destruct (loop s (conservative && rm) fuel (bi_init trans_length s adj0)) as [[st|e']|] eqn:EL; [|exfalso; apply (NE fuel _ _ e' V0 EL)|discriminate].
  destruct (dual_loop_sound inter diff fulldim le pts null null_sub pts_inter diff_covers le_ok touch volume radius separate solve rd
    min_cell_volume abs_tol trans_length conservative separate_in separate_full volume_null volume_split min_nonneg touch_sym touch_mono reach reach_mono solve_sound
    (conservative && rm) (s_orig_list s) (p_domain part) props (p_regions (s_part s)) (s_sub s) (s_orig s) (start_orig s S) (sd_part _ _ _ _ _ _ _ _ _ S) (start_sub_len s S) fuel _ _ st V0 EL) as [(f & V) _].
  destruct V as [V1 V2 V3 V4 V5 V6 V7 V8 V9 V10 V11].
  assert (CO : covering (p_domain part) (d_sol st)) by exact (parts_covering _ _ f _ (sd_part _ _ _ _ _ _ _ _ _ S) V1 V3). unfold bi_result.
  rewrite (covering_ppp _ _ _ _ (eq_rect_r (fun d => covering d (d_sol st)) CO (sd_domain _ _ _ _ _ _ _ _ _ S)) (sd_props _ _ _ _ _ _ _ _ _ S)).
  cbn [bind]. rewrite (sd_props _ _ _ _ _ _ _ _ _ S). cbn [of_opt bind].
  destruct (build_ts_spec (map fst props) (map snd (d_sol st)) (fun i j => d_trans st j i)) as (ts & ET & _).
  { intros l p I J. apply in_map_iff in I. destruct I as (r & <- & I). apply (co_names _ _ CO r p I J). }
  rewrite ET. cbn [bind].
  destruct (mapr_nth (fun x => of_opt "IndexError" (nth_error (s_part2orig s) x)) (d_orig st)) as (m & -> & _); [|cbn [bind]; discriminate].
  intros x Ix. assert (XL : x < List.length (s_part2orig s)); [|destruct (nth_error_ex _ _ XL) as (y & ->); cbn; eauto].
  rewrite (proj1 (sd_orig _ _ _ _ _ _ _ _ _ S)). destruct conservative eqn:C.
  - assert (M := sd_mode _ _ _ _ _ _ _ _ _ S). cbn in M. rewrite (V6 eq_refl), M in Ix. destruct Ix as [<- | []].
    destruct (p_regions (s_part s)) as [|r l] eqn:ER; [|cbn; lia]. exfalso. assert (PC := part_cover _ _ _ _ _ _ (sd_part _ _ _ _ _ _ _ _ _ S)). rewrite ER in PC.
    assert (F : fulldim (p_domain part) = false); [|congruence]. apply full. apply (null_sub _ _ PC). intros z Z. split; [exact Z|intros r []].
  - apply In_nth_error in Ix. destruct Ix as (k & Ix). destruct (V5 eq_refl) as [L O].
    assert (K := nth_error_lt _ _ _ Ix). rewrite L in K. rewrite (O k K) in Ix. injection Ix as <-. destruct (nth_error_ex _ _ K) as (c & N).
    destruct (V3 k c N) as (_ & r0 & N0 & _). exact (nth_error_lt _ _ _ N0).
Qed.
End Abstract.
Print Assumptions discretize_dual_sound.
Print Assumptions dual_no_error.
