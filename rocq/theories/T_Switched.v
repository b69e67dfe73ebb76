(** The abstraction of a switched system: the merged partition is the common refinement of the partitions
    of the modes, up to thickness cells, and the transitions of each mode can be executed in that mode. *)
From Coq Require Import List String Bool Arith ZArith Lia QArith Qcanon Permutation.
From Verif Require Import M_Tree M_Base S_LTL M_Gr1c L_Dec L_Gr1c M_Dict L_Dict M_Graph L_Graph M_Machine S_Run L_Build L_Machine T_Convert M_Fts T_Fts M_Part T_Prop2part T_Refine M_Discretize L_Ts T_Discretize T_Abstract M_Switched L_Switched.
Import ListNotations.
Open Scope string_scope.
Open Scope list_scope.
Open Scope nat_scope.

(** [ppp2modes[m][k]] *)
Definition parent (ps : list (mode * list (nat * nat))) (m : mode) (k : nat) : option nat :=
  match mget m ps with Some d => nget k d | None => None end.

(** The radius from which a common part must be kept, 1e-5 at discretization.py:2281.  It is stated here
    and not taken from the model. *)
Definition thickness : Qc := Q2Qc (1 # 100000).

Section Switched.
Context {R X : Type} (inter : R -> R -> R) (fulldim : R -> bool) (le : R -> R -> bool).
Context (pts : R -> X -> bool) (null : (X -> Prop) -> Prop).
Hypothesis null_sub : forall A B : X -> Prop, null B -> (forall x, A x -> B x) -> null A.
Hypothesis pts_inter : forall a b x, pts (inter a b) x = pts a x && pts b x.
Hypothesis full : forall r, fulldim r = false <-> null (fun x => pts r x = true).
Hypothesis le_ok : forall a b, le a b = true <-> (forall x, pts a x = true -> pts b x = true).
Notation inside := (inside pts).
Notation partition := (partition fulldim pts null).
Context (touch : @region R -> @region R -> bool) (radius : R -> Qc) (same_matrices : R -> R -> bool) (in_order : list mode -> list mode).
Hypothesis touch_sym : forall r s, touch r s = touch s r.
Hypothesis touch_mono : forall r r' s, (forall x, inside (fst r') x -> inside (fst r) x) -> touch r' s = true -> touch r s = true.
Hypothesis radius_mono : forall a b, (forall x, inside a x -> inside b x) -> (radius a <= radius b)%Qc.
Hypothesis radius_null : forall r, null (inside r) -> (radius r < thickness)%Qc.
Hypothesis same_matrices_refl : forall d, same_matrices d d = true.
Hypothesis in_order_ok : forall l, Permutation l (in_order l).

Variables (dom : R) (props : list (string * R)).
Hypothesis props_nodup : NoDup (map fst props).
(** What is used of the abstraction of a mode, see [is_abstraction] *)
Record mode_ok (ab : abstraction R) : Prop := {
  mo_part : partition dom props (p_regions (ab_ppp ab));
  mo_domain : p_domain (ab_ppp ab) = dom;
  mo_props : p_props (ab_ppp ab) = Some props;
  mo_states : NoDup (node_list (f_graph (ab_ts ab)));
  mo_ap : f_ap (ab_ts ab) = map OStr (map fst props);
  mo_labels : forall k c, nth_error (p_regions (ab_ppp ab)) k = Some c -> named (state k) (PvSet (snd c)) (f_graph (ab_ts ab));
  mo_adj : exists adj, p_adj (ab_ppp ab) = Some adj /\ adjacency touch (p_regions (ab_ppp ab)) adj;
  mo_coarse : forall k c, nth_error (p_regions (ab_ppp ab)) k = Some c -> exists j r,
    nth_error (ab_ppp2pwa ab) k = Some j /\ nth_error (p_regions (ab_pwa_ppp ab)) j = Some r /\ forall x, inside (fst c) x -> inside (fst r) x;
  mo_sys : match ab_ppp2sys ab with None => True | Some l => List.length l = List.length (p_regions (ab_ppp ab)) end }.

(** ** The merged partition *)
(** Regions [regs] with parents [ps] are the common refinement of the partitions of the modes in [D]. *)
Record merged_of (D : mode -> abstraction R -> Prop) (regs : list (@region R)) (ps : list (mode * list (nat * nat))) : Prop := {
  mg_cell : forall k c m ab, nth_error regs k = Some c -> D m ab -> exists p cell, parent ps m k = Some p /\
    nth_error (p_regions (ab_ppp ab)) p = Some cell /\ (forall x, inside (fst c) x -> inside (fst cell) x) /\ (forall q, In q (snd c) <-> In q (snd cell));
  mg_all : forall k c x, nth_error regs k = Some c ->
    (forall m ab p cell, D m ab -> parent ps m k = Some p -> nth_error (p_regions (ab_ppp ab)) p = Some cell -> inside (fst cell) x) -> inside (fst c) x;
  mg_thick : forall (g : mode -> nat) r, (thickness <= radius r)%Qc ->
    (forall m ab, D m ab -> exists cell, nth_error (p_regions (ab_ppp ab)) (g m) = Some cell /\ forall x, inside r x -> inside (fst cell) x) ->
    exists k c, nth_error regs k = Some c /\ forall m ab, D m ab -> parent ps m k = Some (g m);
  mg_keys : forall m ab k p, D m ab -> parent ps m k = Some p -> k < List.length regs;
  mg_in : forall r x, In r regs -> inside (fst r) x -> inside dom x;
  mg_disjoint : ForallOrdPairs (fun r s => null (fun x => inside (fst r) x /\ inside (fst s) x)) regs;
  mg_true : forall r p P, In r regs -> In (p, P) props -> In p (snd r) -> forall x, inside (fst r) x -> inside P x;
  mg_false : forall r p P, In r regs -> In (p, P) props -> ~ In p (snd r) -> null (fun x => inside (fst r) x /\ inside P x);
  mg_names : forall r p, In r regs -> In p (snd r) -> In p (map fst props);
  mg_labels : forall r, In r regs -> NoDup (snd r);
  mg_full : forall r, In r regs -> fulldim (fst r) = true }.

Lemma disjoint_nth (l : list (@region R)) a c r s : ForallOrdPairs (fun r s => null (fun x => inside (fst r) x /\ inside (fst s) x)) l ->
  a <> c -> nth_error l a = Some r -> nth_error l c = Some s -> null (fun x => inside (fst r) x /\ inside (fst s) x).
Proof.
  intros D NE A C. rewrite fop_nth in D. destruct (Nat.lt_ge_cases a c) as [L|L]; [exact (D a c r s L A C)|].
  apply (null_sub _ (fun x => inside (fst s) x /\ inside (fst r) x)); [|tauto]. apply (D c a s r); [lia|exact C|exact A].
Qed.
Lemma inside_inter a b x : inside (inter a b) x <-> inside a x /\ inside b x.
Proof. unfold T_Prop2part.inside. rewrite pts_inter, andb_true_iff. reflexivity. Qed.
Notation tuple := ((nat * @region R) * (nat * @region R))%type.
Notation isect := (isect inter).
Notation thick := (thick inter radius).
Notation cell_of := (cell_of inter).
Lemma thick_iff t : thick t = true <-> (thickness <= radius (isect t))%Qc.
Proof.
  change thickness with thin. unfold L_Switched.thick. destruct (Qclt_le_dec (radius (isect t)) thin) as [H|H]; split; intro K; try assumption; try reflexivity; [discriminate|]. exfalso. exact (Qclt_not_le _ _ H K).
Qed.
Lemma thick_not_null t : thick t = true -> ~ null (inside (isect t)).
Proof. intros T N. apply thick_iff in T. exact (Qclt_not_le _ _ (radius_null _ N) T). Qed.
Lemma tuples_iff old new (t : tuple) : In t (tuples old new) <->
  nth_error old (fst (fst t)) = Some (snd (fst t)) /\ nth_error new (fst (snd t)) = Some (snd (snd t)).
Proof. destruct t as [[i ri] [j rj]]. unfold tuples. rewrite in_prod_iff, !enumerate_iff. reflexivity. Qed.

Section Step.
Variables (D : mode -> abstraction R -> Prop) (cur : mode) (ab2 : abstraction R) (pl : list (mode * list nat)) (regs : list (@region R)).
Hypothesis M : merged_of D regs (map (fun mp => (fst mp, enumerate (snd mp))) pl).
Hypothesis O : mode_ok ab2.
Hypothesis ND : NoDup (map fst pl ++ [cur]).
Hypothesis DP : forall m ab, D m ab -> In m (map fst pl).
Hypothesis LP : forall m ps, In (m, ps) pl -> List.length ps = List.length regs.
Notation new := (p_regions (ab_ppp ab2)).
Notation sel := (filter thick (tuples regs new)).
Lemma apart (t t' : tuple) : In t (tuples regs new) -> In t' (tuples regs new) -> t <> t' -> null (fun x => inside (isect t) x /\ inside (isect t') x).
Proof.
  intros I J NE. apply tuples_iff in I, J. destruct t as [[i ri] [j rj]], t' as [[i' ri'] [j' rj']]. cbn [fst snd] in *. destruct I as [I1 I2], J as [J1 J2].
  destruct (Nat.eq_dec i i') as [->|N].
  - assert (N : j <> j') by (intro; subst; apply NE; congruence).
    apply (null_sub _ (fun x => inside (fst rj) x /\ inside (fst rj') x)); [exact (disjoint_nth _ _ _ _ _ (part_disjoint _ _ _ _ _ _ (mo_part _ O)) N I2 J2)|].
    intros x [A B]. unfold L_Switched.isect in A, B. rewrite inside_inter in A, B. cbn [fst snd] in *. tauto.
  - apply (null_sub _ (fun x => inside (fst ri) x /\ inside (fst ri') x)); [exact (disjoint_nth _ _ _ _ _ (mg_disjoint _ _ _ M) N I1 J1)|].
    intros x [A B]. unfold L_Switched.isect in A, B. rewrite inside_inter in A, B. cbn [fst snd] in *. tauto.
Qed.
Lemma labels_agree (t : tuple) : In t (tuples regs new) -> thick t = true -> forall q, In q (snd (snd (fst t))) <-> In q (snd (snd (snd t))).
Proof.
  intros I T q. apply tuples_iff in I. destruct t as [[i ri] [j rj]]. cbn [fst snd] in *. destruct I as [I1 I2].
  assert (NN := thick_not_null _ T). unfold L_Switched.isect in NN. cbn [fst snd] in NN. apply nth_error_In in I1, I2.
  split; intro Q.
  - destruct (in_dec string_dec q (snd rj)) as [|N]; [assumption|]. exfalso. apply NN.
    destruct (proj1 (in_map_iff _ _ _) (mg_names _ _ _ M ri q I1 Q)) as ((q' & P) & E & IP). cbn in E. subst q'.
    apply (null_sub _ (fun x => inside (fst rj) x /\ inside P x)); [exact (part_false _ _ _ _ _ _ (mo_part _ O) rj q P I2 IP N)|].
    intros x A. apply inside_inter in A. split; [apply A|]. apply (mg_true _ _ _ M ri q P I1 IP Q), A.
  - destruct (in_dec string_dec q (snd ri)) as [|N]; [assumption|]. exfalso. apply NN.
    destruct (proj1 (in_map_iff _ _ _) (part_names _ _ _ _ _ _ (mo_part _ O) rj q I2 Q)) as ((q' & P) & E & IP). cbn in E. subst q'.
    apply (null_sub _ (fun x => inside (fst ri) x /\ inside P x)); [exact (mg_false _ _ _ M ri q P I1 IP N)|].
    intros x A. apply inside_inter in A. split; [apply A|]. apply (part_true _ _ _ _ _ _ (mo_part _ O) rj q P I2 IP Q), A.
Qed.
Lemma step_eq : merge_partition_pair inter le radius ab2 cur (map fst pl)
    (Merged regs (map (fun mp => (fst mp, enumerate (snd mp))) pl) (enumerate (map snd regs))) = Ok (pair_result inter pl cur sel).
Proof.
  apply (merge_pair_eq inter le radius ab2 cur pl (Merged regs (map (fun mp => (fst mp, enumerate (snd mp))) pl) (enumerate (map snd regs)))); try assumption; try reflexivity.
  - cbn [m_list]. intros t I T. exists (snd (snd (snd t))). split; [|exact (labels_agree t I T)].
    apply ap_of_state_named; [apply (mo_states _ O)|]. apply (mo_labels _ O). apply tuples_iff in I. apply I.
  - cbn [m_list]. intros t t' I J NE T. destruct (same le (isect t') (isect t)) eqn:E; [|reflexivity]. exfalso. apply (thick_not_null t T).
    apply andb_true_iff in E. destruct E as [_ E]. apply (null_sub _ _ (apart t t' I J NE)). intros x A. split; [exact A|]. apply (proj1 (le_ok _ _) E x A).
Qed.
Lemma parent_old m k : NoDup (map fst pl) -> parent (map (fun mp => (fst mp, enumerate (snd mp))) pl) m k = match mget m pl with Some l => nth_error l k | None => None end.
Proof. intro N. unfold parent. rewrite (mget_map enumerate). destruct (mget m pl) as [l|]; [|reflexivity]. cbn [option_map]. apply nget_enumerate. Qed.
Lemma parent_recorded (pf : list (mode * (tuple -> nat))) (l : list tuple) m k :
  parent (recorded pf l) m k = match mget m pf with Some f => option_map f (nth_error l k) | None => None end.
Proof.
  unfold parent, recorded. rewrite (mget_map (fun f => enumerate (map f l))). destruct (mget m pf) as [f|]; [|reflexivity]. cbn [option_map]. rewrite nget_enumerate. apply nth_error_map.
Qed.
Notation ps' := (recorded (parent_funs pl cur) sel).
Lemma parent_cur k : parent ps' cur k = option_map (fun t => fst (snd t)) (nth_error sel k).
Proof.
  assert (N : NoDup (map fst (parent_funs (R := R) pl cur))) by (rewrite parent_modes; exact ND).
  rewrite parent_recorded. rewrite (proj2 (mget_In cur (parent_funs pl cur) (fun t : tuple => fst (snd t)) N)); [reflexivity|].
  unfold parent_funs. apply in_or_app. right. left. reflexivity.
Qed.
Lemma nodup_prev : NoDup (map fst pl).
Proof. apply (NoDup_remove_1 _ [] cur) in ND. rewrite app_nil_r in ND. exact ND. Qed.
Lemma parent_prev m k : In m (map fst pl) -> parent ps' m k = match nth_error sel k with
  | Some t => parent (map (fun mp => (fst mp, enumerate (snd mp))) pl) m (fst (fst t)) | None => None end.
Proof.
  intro I. rewrite parent_recorded. apply in_map_iff in I. destruct I as ((m' & l) & E & I). cbn in E. subst m'.
  assert (NF : NoDup (map fst (parent_funs (R := R) pl cur))) by (rewrite parent_modes; exact ND).
  rewrite (proj2 (mget_In m (parent_funs pl cur) (fun t : tuple => nth (fst (fst t)) l 0) NF)).
  2: { unfold parent_funs. apply in_or_app. left. apply in_map_iff. exists (m, l). auto. }
  destruct (nth_error sel k) as [t|] eqn:N; [|reflexivity]. cbn [option_map]. rewrite parent_old by exact nodup_prev.
  rewrite (proj2 (mget_In m pl l nodup_prev) I). symmetry. apply nth_error_nth'. rewrite (LP m l I).
  apply nth_error_In, filter_In in N. destruct N as [N _]. apply tuples_iff in N. exact (nth_error_lt _ _ _ (proj1 N)).
Qed.
Lemma step_merged : merged_of (fun m ab => D m ab \/ m = cur /\ ab = ab2) (map cell_of sel) ps'.
Proof.
  assert (SI : forall k t, nth_error sel k = Some t -> nth_error regs (fst (fst t)) = Some (snd (fst t)) /\ nth_error new (fst (snd t)) = Some (snd (snd t)) /\ thick t = true).
  { intros k t N. apply nth_error_In, filter_In in N. destruct N as [N T]. apply tuples_iff in N. tauto. }
  assert (CI : forall t x, inside (fst (cell_of t)) x <-> inside (fst (snd (fst t))) x /\ inside (fst (snd (snd t))) x) by (intros t x; apply inside_inter).
  assert (RI : forall r, In r (map cell_of sel) -> exists t, In (snd (fst t)) regs /\ thick t = true /\ r = cell_of t).
  { intros r I. apply in_map_iff in I. destruct I as (t & <- & I). apply In_nth_error in I. destruct I as (k & I). destruct (SI k t I) as (A & _ & B). exists t. split; [exact (nth_error_In _ _ A)|]. auto. }
  constructor.
  - intros k c m ab N Dm. apply nth_map_inv in N. destruct N as (t & N & E). destruct (SI k t N) as (A & B & T). subst c. destruct Dm as [Dm|[-> ->]].
    + destruct (mg_cell _ _ _ M _ _ m ab A Dm) as (p & cell & P & C & IC & LC). exists p, cell. rewrite (parent_prev m k (DP m ab Dm)), N. split; [exact P|]. split; [exact C|].
      split; [|exact LC]. intros x I. apply IC. apply CI in I. apply I.
    + exists (fst (snd t)), (snd (snd t)). rewrite parent_cur, N. split; [reflexivity|]. split; [exact B|]. split; [intros x I; apply CI in I; apply I|].
      apply labels_agree; [apply tuples_iff; auto|exact T].
  - intros k c x N H. apply nth_map_inv in N. destruct N as (t & N & E). destruct (SI k t N) as (A & B & T). subst c. apply CI. split.
    + apply (mg_all _ _ _ M _ _ x A). intros m ab p cell Dm P C. apply (H m ab p cell); [auto| |exact C]. rewrite (parent_prev m k (DP m ab Dm)), N. exact P.
    + apply (H cur ab2 (fst (snd t))); [auto| |exact B]. rewrite parent_cur, N. reflexivity.
  - intros g r TH H. destruct (mg_thick _ _ _ M g r TH) as (k0 & c0 & N0 & P0); [intros m ab Dm; apply (H m ab); auto|].
    destruct (H cur ab2 (or_intror (conj eq_refl eq_refl))) as (cell & C & IC).
    set (t := ((k0, c0), (g cur, cell)) : tuple). assert (IT : In t sel).
    { apply filter_In. split; [apply tuples_iff; auto|]. apply thick_iff. apply (Qcle_trans _ _ _ TH), radius_mono. intros x I. apply inside_inter. split; [|exact (IC x I)].
      cbn [t fst snd]. apply (mg_all _ _ _ M k0 c0 x N0). intros m ab p ce Dm P Ce. destruct (H m ab (or_introl Dm)) as (ce' & C' & I').
      rewrite (P0 m ab Dm) in P. injection P as <-. assert (ce = ce') by congruence. subst ce'. exact (I' x I). }
    apply In_nth_error in IT. destruct IT as (k & IT). exists k, (cell_of t). split; [apply map_nth_error, IT|].
    intros m ab [Dm|[-> ->]]; [rewrite (parent_prev m k (DP m ab Dm)), IT; apply (P0 m ab Dm)|rewrite parent_cur, IT; reflexivity].
  - intros m ab k p [Dm|[-> ->]] P.
    + rewrite (parent_prev m k (DP m ab Dm)) in P. rewrite map_length. destruct (nth_error sel k) as [t|] eqn:N; [exact (nth_error_lt _ _ _ N)|discriminate].
    + rewrite parent_cur in P. rewrite map_length. destruct (nth_error sel k) as [t|] eqn:N; [exact (nth_error_lt _ _ _ N)|discriminate].
  - intros r x I J. destruct (RI r I) as (t & A & _ & ->). apply CI in J. apply (mg_in _ _ _ M _ x A), J.
  - apply fop_nth. intros a c r s L A C. apply nth_map_inv in A, C. destruct A as (t & A & EA), C as (t' & C & EC). subst r s.
    apply (apart t t').
    + apply nth_error_In, filter_In in A. apply A.
    + apply nth_error_In, filter_In in C. apply C.
    + intros ->. assert (NDS : NoDup sel) by (apply NoDup_filter, list_prod_nodup; apply enumerate_nodup).
      rewrite NoDup_nth_error in NDS. specialize (NDS a c (nth_error_lt _ _ _ A)). rewrite A, C in NDS. specialize (NDS eq_refl). lia.
  - intros r p P I J K x L. destruct (RI r I) as (t & A & _ & ->). apply CI in L. apply (mg_true _ _ _ M _ p P A J K), L.
  - intros r p P I J K. destruct (RI r I) as (t & A & _ & ->). apply (null_sub _ _ (mg_false _ _ _ M _ p P A J K)). intros x [L L']. apply CI in L. tauto.
  - intros r p I K. destruct (RI r I) as (t & A & _ & ->). exact (mg_names _ _ _ M _ p A K).
  - intros r I. destruct (RI r I) as (t & A & _ & ->). exact (mg_labels _ _ _ M _ A).
  - intros r I. destruct (RI r I) as (t & _ & T & ->). destruct (fulldim (fst (cell_of t))) eqn:F; [reflexivity|]. exfalso. apply (thick_not_null t T). apply full, F.
Qed.
End Step.

Hypothesis null_empty : null (fun _ => False).
Hypothesis null_union : forall A B, null A -> null B -> null (fun x => A x \/ B x).
Context (solve : nat -> mode -> option nat -> R -> R -> R -> res R).
Context (reach : nat -> mode -> option nat -> (X -> Prop) -> (X -> Prop) -> X -> Prop).
Hypothesis solve_sound : forall N m s a b t S0 x, solve N m s a b t = Ok S0 -> inside a x -> inside S0 x -> reach N m s (inside t) (inside b) x.

(** ** All modes *)
Section Merging.
Variable abs : list (mode * abstraction R).
Hypothesis abs_ok : forall m ab, In (m, ab) abs -> mode_ok ab.
Hypothesis abs_nodup : NoDup (map fst abs).
Definition among_modes (ms : list mode) (m : mode) (ab : abstraction R) : Prop := In (m, ab) abs /\ In m ms.
Lemma merged_ext (D D' : mode -> abstraction R -> Prop) regs ps : (forall m ab, D m ab <-> D' m ab) -> merged_of D regs ps -> merged_of D' regs ps.
Proof.
  intros E M. constructor.
  - intros k c m ab N Dm. apply (mg_cell _ _ _ M k c m ab N), E, Dm.
  - intros k c x N H. apply (mg_all _ _ _ M k c x N). intros m ab p cell Dm. apply (H m ab p cell), E, Dm.
  - intros g r T H. destruct (mg_thick _ _ _ M g r T) as (k & c & N & P); [intros m ab Dm; apply (H m ab), E, Dm|]. exists k, c. split; [exact N|]. intros m ab Dm. apply (P m ab), E, Dm.
  - intros m ab k p Dm. apply (mg_keys _ _ _ M m ab), E, Dm.
  - apply (mg_in _ _ _ M).
  - apply (mg_disjoint _ _ _ M).
  - apply (mg_true _ _ _ M).
  - apply (mg_false _ _ _ M).
  - apply (mg_names _ _ _ M).
  - apply (mg_labels _ _ _ M).
  - apply (mg_full _ _ _ M).
Qed.
Lemma start_merged m0 ab0 : In (m0, ab0) abs ->
  merged_of (among_modes [m0]) (p_regions (ab_ppp ab0)) [(m0, enumerate (List.seq 0 (List.length (p_regions (ab_ppp ab0)))))].
Proof.
  intro I. set (regs := p_regions (ab_ppp ab0)). assert (O := abs_ok m0 ab0 I).
  assert (U : forall m ab, among_modes [m0] m ab -> m = m0 /\ ab = ab0).
  { intros m ab [A [<-|[]]]. split; [reflexivity|]. apply (mget_In m0 abs) in A; [|exact abs_nodup]. apply (mget_In m0 abs) in I; [|exact abs_nodup]. congruence. }
  assert (P : forall k c, nth_error regs k = Some c -> parent [(m0, enumerate (List.seq 0 (List.length regs)))] m0 k = Some k).
  { intros k c N. unfold parent, mget. cbn [find fst]. rewrite mode_eqb_refl. cbn [option_map snd]. rewrite nget_enumerate. apply nth_error_lt in N.
    rewrite (nth_error_nth' _ 0) by (rewrite seq_length; exact N). rewrite seq_nth by exact N. reflexivity. }
  destruct (mo_part _ O) as [P1 P2 P3 P4 P5 P6 P7 P8]. constructor; try assumption.
  - intros k c m ab N Dm. apply U in Dm. destruct Dm as [-> ->]. exists k, c. split; [exact (P k c N)|]. split; [exact N|]. split; [auto|reflexivity].
  - intros k c x N H. apply (H m0 ab0 k c); [split; [exact I|left; reflexivity]|exact (P k c N)|exact N].
  - intros g r T H. destruct (H m0 ab0) as (cell & C & IC); [split; [exact I|left; reflexivity]|]. exists (g m0), cell. split; [exact C|].
    intros m ab Dm. apply U in Dm. destruct Dm as [-> ->]. exact (P _ _ C).
  - intros m ab k p Dm Q. apply U in Dm. destruct Dm as [-> ->]. unfold parent, mget in Q. cbn [find fst] in Q. rewrite mode_eqb_refl in Q. cbn [option_map snd] in Q.
    rewrite nget_enumerate in Q. apply nth_error_lt in Q. rewrite seq_length in Q. exact Q.
Qed.
Lemma near_spec D regs ps i j : merged_of D regs ps -> (forall m ab, In (m, ab) abs -> D m ab) -> i < List.length regs -> j < List.length regs -> i <> j ->
  abs <> [] -> exists b, near ps i j abs = Ok b /\ (touch_at touch regs i j = true -> b = true).
Proof.
  intros M H LI LJ NE. destruct (nth_error_ex _ _ LI) as (ci & NI). destruct (nth_error_ex _ _ LJ) as (cj & NJ).
  enough (G : forall l, (forall p, In p l -> In p abs) -> l <> [] -> exists b, near ps i j l = Ok b /\ (touch_at touch regs i j = true -> b = true)) by (intro NN; apply G; auto).
  induction l as [|[m ab] l IH]; intros S NN; [destruct (NN eq_refl)|]. cbn [near]. assert (I := S _ (or_introl eq_refl)). assert (Dm := H m ab I).
  destruct (mg_cell _ _ _ M i ci m ab NI Dm) as (pi & ce & Pi & Ci & Ii & _). destruct (mg_cell _ _ _ M j cj m ab NJ Dm) as (pj & cf & Pj & Cj & Ij & _).
  unfold parent in Pi, Pj. destruct (mget m ps) as [d|]; [|discriminate]. cbn [of_opt bind]. rewrite Pi, Pj. cbn [of_opt bind].
  destruct (mo_adj _ (abs_ok m ab I)) as (adj & EA & AD). rewrite EA. cbn [of_opt bind].
  assert (TT : touch_at touch regs i j = true -> adj pi pj || (pi =? pj) = true).
  { intro T. apply touch_at_some in T. destruct T as (r & s & A & B & T). assert (r = ci) by congruence. assert (s = cj) by congruence. subst r s.
    destruct (ad_touch _ _ _ AD pi pj) as [E|E]; [|subst; rewrite Nat.eqb_refl; apply orb_true_r|rewrite E; reflexivity].
    apply touch_at_iff. exists ce, cf. split; [exact Ci|]. split; [exact Cj|]. apply (touch_mono ce ci cf Ii). rewrite touch_sym. apply (touch_mono cf cj ci Ij). rewrite touch_sym. exact T. }
  destruct (adj pi pj || (pi =? pj)) eqn:Q; [eauto|]. destruct l as [|q l].
  - exists false. split; [reflexivity|]. intro T. exact (TT T).
  - destruct (IH (fun p J => S p (or_intror J)) ltac:(discriminate)) as (b & E & K). exists b. auto.
Qed.
Lemma put_true i j m a c : put i j true m a c = true <-> (a = i /\ c = j) \/ m a c = true.
Proof. unfold put. destruct (Nat.eqb_spec a i), (Nat.eqb_spec c j); cbn [andb]; intuition congruence. Qed.
(** Two regions are adjacent if they are equal or touch. *)
Definition exactly_adjacent (regs : list (@region R)) (adj : matrix) : Prop :=
  forall a c, adj a c = true <-> a < List.length regs /\ c < List.length regs /\ (a = c \/ touch_at touch regs a c = true).
Lemma merged_adj_ok D regs ps lab : merged_of D regs ps -> (forall m ab, In (m, ab) abs -> D m ab) -> abs <> [] ->
  exists adj, merged_adj touch abs (Merged regs ps lab) = Ok adj /\ exactly_adjacent regs adj.
Proof.
  intros M H NN. unfold merged_adj. cbn [m_list m_parents].
  set (n := List.length regs).
  match goal with |- exists adj, fold_res ?f _ _ = _ /\ _ =>
    destruct (fold_res_total f (fun l1 m => l1 = List.seq 0 (List.length l1) /\ forall a c, m a c = true <-> a < List.length l1 /\ c < List.length l1 /\ (a = c \/ touch_at touch regs a c = true)) (List.seq 0 n) no_entry)
      as (adj & E & EL & AD) end.
  - split; [reflexivity|]. intros a c. cbn. split; [discriminate|lia].
  - intros l1 i l2 m EL [E1 MI]. assert (LEN : i = List.length l1 /\ i < n).
    { assert (Q := f_equal (fun l => nth_error l (List.length l1)) EL). cbn beta in Q. rewrite nth_error_app2, Nat.sub_diag in Q by lia. cbn [nth_error] in Q.
      assert (K : List.length l1 < n) by (rewrite <- (seq_length n 0), EL, app_length; cbn; lia).
      rewrite (nth_error_nth' _ 0) in Q by (rewrite seq_length; exact K). rewrite seq_nth in Q by exact K. injection Q as <-. auto. }
    destruct LEN as [EI LI].
    match goal with |- exists b2, (do m' <- fold_res ?f _ _; _) = _ /\ _ =>
      destruct (fold_res_total f (fun l3 m' => l3 = List.seq 0 (List.length l3) /\ forall a c, m' a c = true <-> m a c = true \/ touch_at touch regs a c = true /\ (a = i /\ c < List.length l3 \/ c = i /\ a < List.length l3)) (List.seq 0 i) m)
        as (m' & -> & EL' & MI') end.
    + split; [reflexivity|]. intros a c. cbn [List.length]. split; [auto|]. intros [K|[_ [[_ K]|[_ K]]]]; [exact K|lia|lia].
    + intros l3 j l4 m' EL' [E3 MI']. assert (LJ : j = List.length l3 /\ j < i).
      { assert (Q := f_equal (fun l => nth_error l (List.length l3)) EL'). cbn beta in Q. rewrite nth_error_app2, Nat.sub_diag in Q by lia. cbn [nth_error] in Q.
        assert (K : List.length l3 < i) by (rewrite <- (seq_length i 0), EL', app_length; cbn; lia).
        rewrite (nth_error_nth' _ 0) in Q by (rewrite seq_length; exact K). rewrite seq_nth in Q by exact K. injection Q as <-. auto. }
      destruct LJ as [EJ LJ]. destruct (near_spec D regs ps i j M H LI ltac:(unfold n in LI; lia) ltac:(lia) NN) as (b & -> & B). cbn [bind].
      eexists. split; [reflexivity|]. rewrite app_length. cbn [List.length]. split; [rewrite Nat.add_1_r, seq_S, <- E3, EJ; reflexivity|].
      intros a c. destruct (touch_at touch regs i j) eqn:T.
      * rewrite (B eq_refl). cbn [andb]. rewrite !put_true, MI'. assert (T' : touch_at touch regs j i = true) by (rewrite (touch_at_sym touch touch_sym); exact T). split.
        -- intros [[-> ->]|[[-> ->]|[K|[K1 K2]]]]; [right; split; [exact T'|lia]|right; split; [exact T|lia]|left; exact K|right; split; [exact K1|lia]].
        -- intros [K|[K1 K2]]; [auto|]. destruct (Nat.eq_dec a j), (Nat.eq_dec c j); [lia|assert (c = i) by lia; auto|assert (a = i) by lia; auto|]. do 3 right. split; [exact K1|lia].
      * rewrite andb_false_r, MI'. split; (intros [K|[K1 K2]]; [left; exact K|]); [right; split; [exact K1|lia]|].
        destruct K2 as [[-> K2]|[-> K2]].
        -- destruct (Nat.eq_dec c j) as [->|]; [congruence|]. right. split; [exact K1|]. left. split; [reflexivity|lia].
        -- destruct (Nat.eq_dec a j) as [->|]; [rewrite (touch_at_sym touch touch_sym) in K1; congruence|]. right. split; [exact K1|]. right. split; [reflexivity|lia].
    + cbn [bind]. eexists. split; [reflexivity|]. rewrite app_length. cbn [List.length]. split; [rewrite Nat.add_1_r, seq_S, <- E1, EI; reflexivity|].
      rewrite seq_length in MI'. intros a c. rewrite put_true, MI', MI. rewrite <- EI. split.
      * intros [[-> ->]|[(A & C & K)|(K & Q)]]; [split; [lia|]; split; [lia|auto]|split; [lia|]; split; [lia|exact K]|split; [lia|]; split; [lia|auto]].
      * intros (A & C & K). destruct (Nat.eq_dec a i), (Nat.eq_dec c i); [auto| | |right; left; split; [lia|]; split; [lia|exact K]];
          (destruct K as [K|K]; [lia|]; right; right; split; [exact K|lia]).
  - exists adj. split; [exact E|]. intros a c. rewrite AD, seq_length. reflexivity.
Qed.
(** What [merge_partitions] returns *)
Record is_merged (sw : switched R) : Prop := {
  ms_domain : p_domain (sw_ppp sw) = dom;
  ms_props : p_props (sw_ppp sw) = Some props;
  ms_modes : sw_modes sw = abs;
  ms_regions : merged_of (fun m ab => In (m, ab) abs) (p_regions (sw_ppp sw)) (sw_parents sw);
  ms_adj : exists adj, p_adj (sw_ppp sw) = Some adj /\ exactly_adjacent (p_regions (sw_ppp sw)) adj }.
Lemma consistent_ok ab1 ab2 : mode_ok ab1 -> mode_ok ab2 -> consistent le same_matrices ab1 ab2 = true.
Proof.
  intros O1 O2. unfold consistent. rewrite (mo_props _ O1), (mo_props _ O2), (mo_domain _ O1), (mo_domain _ O2), same_matrices_refl, andb_true_r. cbn [same_props].
  assert (H : forallb (fun kv : string * R => match lookup (fst kv) props with Some w => same le (snd kv) w | None => false end) props = true).
  { apply forallb_forall. intros [q P] I. cbn [fst snd]. rewrite (In_lookup _ _ _ props_nodup I). unfold same. assert (L : le P P = true) by (apply le_ok; auto). rewrite L. reflexivity. }
  rewrite H. reflexivity.
Qed.
Theorem merge_partitions_ok : abs <> [] -> exists sw, merge_partitions inter le touch radius same_matrices in_order abs = Ok (Some sw) /\ is_merged sw.
Proof.
  intro NN. unfold merge_partitions. destruct abs as [|[m0 ab0] abs'] eqn:EA; [destruct (NN eq_refl)|]. rewrite <- EA in *.
  assert (I0 : In (m0, ab0) abs) by (rewrite EA; left; reflexivity).
  assert (CO : forallb (fun p => forallb (fun q => consistent le same_matrices (snd p) (snd q)) abs) abs = true).
  { apply forallb_forall. intros [m ab] I. apply forallb_forall. intros [m' ab'] J. apply consistent_ok; [apply (abs_ok m), I|apply (abs_ok m'), J]. }
  rewrite CO. set (rest := in_order _). set (start := Merged _ _ _).
  assert (RP : Permutation (m0 :: rest) (map fst abs)).
  { unfold rest. rewrite <- in_order_ok. rewrite EA. cbn [map fst filter]. rewrite mode_eqb_refl. cbn [negb]. constructor.
    rewrite EA in abs_nodup. cbn [map fst] in abs_nodup. inversion abs_nodup as [|? ? N ND']; subst.
    clear - N. induction (map fst abs') as [|m l IH]; [constructor|]. cbn [filter]. rewrite mode_eqb_neq by (intros ->; apply N; left; reflexivity). cbn [negb]. constructor.
    apply IH. intro K. apply N. right. exact K. }
  assert (NDR : NoDup (m0 :: rest)) by (apply (Permutation_NoDup (Permutation_sym RP)); exact abs_nodup).
  match goal with |- exists sw, (do last <- fold_res ?f _ _; _) = _ /\ _ =>
    destruct (fold_res_total f (fun ms b => exists pl regs, fst b = map fst pl /\ map fst pl = m0 :: ms /\
        snd b = Merged regs (map (fun mp => (fst mp, enumerate (snd mp))) pl) (enumerate (map snd regs)) /\
        (forall m ps, In (m, ps) pl -> List.length ps = List.length regs) /\
        merged_of (among_modes (m0 :: ms)) regs (map (fun mp => (fst mp, enumerate (snd mp))) pl)) rest ([m0], start))
      as ((prev & last) & -> & pl & regs & _ & EM & EL & LP & M) end.
  - exists [(m0, List.seq 0 (List.length (p_regions (ab_ppp ab0))))], (p_regions (ab_ppp ab0)). cbn [fst snd map]. do 3 (split; [reflexivity|]).
    split; [intros m ps [[= <- <-]|[]]; apply seq_length|]. exact (start_merged m0 ab0 I0).
  - intros ms m ms' (prev & st) ER (pl & regs & EP & EM & ES & LP & M). cbn [fst snd] in *. subst prev st.
    assert (J : In m (map fst abs)) by (apply (Permutation_in _ RP); right; rewrite ER; apply in_or_app; right; left; reflexivity).
    apply in_map_iff in J. destruct J as ((m' & ab2) & Q & J). cbn in Q. subst m'.
    rewrite (proj2 (mget_In m abs ab2 abs_nodup) J). cbn [of_opt bind].
    assert (ND : NoDup (map fst pl ++ [m])).
    { rewrite EM. rewrite ER in NDR. assert (NDR' : NoDup (((m0 :: ms) ++ [m]) ++ ms')) by (rewrite <- app_assoc; exact NDR).
      clear - NDR'. induction ms' as [|z zs IH] using rev_ind; [rewrite app_nil_r in NDR'; exact NDR'|]. rewrite app_assoc in NDR'. apply NoDup_remove_1 in NDR'. rewrite app_nil_r in NDR'. exact (IH NDR'). }
    assert (DP : forall m1 ab, among_modes (m0 :: ms) m1 ab -> In m1 (map fst pl)) by (intros m1 ab [_ K]; rewrite EM; exact K).
    rewrite (step_eq (among_modes (m0 :: ms)) m ab2 pl regs M (abs_ok m ab2 J) ND LP). cbn [bind]. eexists. split; [reflexivity|].
    assert (S := step_merged (among_modes (m0 :: ms)) m ab2 pl regs M (abs_ok m ab2 J) ND DP LP).
    set (sel := filter (L_Switched.thick inter radius) (tuples regs (p_regions (ab_ppp ab2)))) in *.
    exists (map (fun mf => (fst mf, map (snd mf) sel)) (parent_funs pl m)), (map (L_Switched.cell_of inter) sel). cbn [fst snd].
    assert (MF : map fst (map (fun mf : mode * (nat * @region R * (nat * @region R) -> nat) => (fst mf, map (snd mf) sel)) (parent_funs pl m)) = map fst pl ++ [m]) by (rewrite map_map, <- (parent_modes (R := R)); reflexivity).
    assert (RC : map (fun mp : mode * list nat => (fst mp, enumerate (snd mp))) (map (fun mf => (fst mf, map (snd mf) sel)) (parent_funs pl m)) = recorded (parent_funs pl m) sel) by (rewrite map_map; reflexivity).
    split; [symmetry; exact MF|]. split; [rewrite MF, EM; reflexivity|]. split; [unfold pair_result; rewrite RC, map_map; reflexivity|]. split.
    { intros m1 ps K. apply in_map_iff in K. destruct K as ((m2 & f) & [= <- <-] & _). rewrite !map_length. reflexivity. }
    rewrite RC. refine (merged_ext _ _ _ _ _ S). intros m1 ab. unfold among_modes. cbn [In]. rewrite in_app_iff. cbn [In]. split.
    + intros [[A B]|[-> ->]]; [tauto|]. split; [exact J|]. auto.
    + intros [A [B|[B|[B|[]]]]]; [auto|auto|]. subst m1. right. split; [reflexivity|]. apply (mget_In m abs) in A; [|exact abs_nodup]. apply (mget_In m abs) in J; [|exact abs_nodup]. congruence.
  - cbn [bind fst snd] in *. subst last. cbn [m_list m_parents].
    assert (M' : merged_of (fun m ab => In (m, ab) abs) regs (map (fun mp => (fst mp, enumerate (snd mp))) pl)).
    { refine (merged_ext _ _ _ _ _ M). intros m ab. unfold among_modes. split; [tauto|]. intro A. split; [exact A|]. apply (Permutation_in _ (Permutation_sym RP)). apply (in_map fst) in A. exact A. }
    destruct (merged_adj_ok _ regs _ (enumerate (map snd regs)) M' (fun m ab A => A) NN) as (adj & -> & AD). cbn [bind].
    rewrite (mo_domain _ (abs_ok m0 ab0 I0)), (mo_props _ (abs_ok m0 ab0 I0)). unfold make_ppp.
    match goal with |- context [if ?b then (do _ <- is_symbolic _ _; _) else _] => assert (F1 : b = true) by (apply forallb_forall; intros r J; apply le_ok; intros x; apply (mg_in _ _ _ M' r x J)) end.
    rewrite F1. unfold is_symbolic. match goal with |- context [if ?b then Ok tt else _] => assert (F2 : b = true) by
      (apply forallb_forall; intros r J; apply subset_iff; intros q K; apply (mg_names _ _ _ M' r q J K)) end. rewrite F2.
    cbn [bind]. eexists. split; [reflexivity|]. constructor; cbn [sw_ppp sw_modes sw_parents p_domain p_props p_regions p_adj]; try reflexivity; [exact M'|]. exists adj. auto.
Qed.

(** ** When nothing thickness is dropped, the merged partition covers the domain. *)
(** The common part of one cell for every mode *)
Definition common (cells : list (@region R)) : R := fold_right (fun c r => inter (fst c) r) dom cells.
Definition one_per_mode (cells : list (@region R)) : Prop := Forall2 (fun ma c => In c (p_regions (ab_ppp (snd ma)))) abs cells.
Lemma common_inside cells x : inside (common cells) x <-> inside dom x /\ forall c, In c cells -> inside (fst c) x.
Proof.
  induction cells as [|c cells IH]; cbn [common fold_right]; [split; [intro H; split; [exact H|intros c []]|tauto]|].
  rewrite inside_inter. unfold common in IH. rewrite IH. split.
  - intros (A & B & C). split; [exact B|]. intros d [<-|I]; auto.
  - intros (A & B). split; [apply B; left; reflexivity|]. split; [exact A|]. intros d I. apply B. right. exact I.
Qed.
Fixpoint choices {A} (ls : list (list A)) : list (list A) :=
  match ls with [] => [[]] | l :: r => flat_map (fun x => map (cons x) (choices r)) l end.
Lemma choices_iff {A} (ls : list (list A)) c : In c (choices ls) <-> Forall2 (fun l x => In x l) ls c.
Proof.
  revert c. induction ls as [|l r IH]; intro c; cbn [choices].
  - split; [intros [<-|[]]; constructor|]. intro H. inversion H. left. reflexivity.
  - rewrite in_flat_map. split.
    + intros (x & I & J). apply in_map_iff in J. destruct J as (c' & <- & J). constructor; [exact I|apply IH, J].
    + intro H. inversion H as [|? x ? c' I J]; subst. exists x. split; [exact I|]. apply in_map, IH, J.
Qed.
Theorem merged_partition sw : is_merged sw ->
  (forall cells, one_per_mode cells -> fulldim (common cells) = true -> (thickness <= radius (common cells))%Qc) ->
  partition dom props (p_regions (sw_ppp sw)).
Proof.
  intros S TH. assert (M := ms_regions _ S). set (regs := p_regions (sw_ppp sw)) in *. constructor; try solve [apply M].
  set (ts := choices (map (fun ma => p_regions (ab_ppp (snd ma))) abs)).
  assert (TS : forall c, In c ts <-> one_per_mode c).
  { intro c. unfold ts, one_per_mode. rewrite choices_iff. clear. revert c. induction abs as [|a l IH]; intro c; cbn [map]; split; intro H; inversion H; subst; constructor; auto; apply IH; assumption. }
  apply (null_sub _ (fun x => (exists ma, In ma abs /\ inside dom x /\ forall r, In r (p_regions (ab_ppp (snd ma))) -> ~ inside (fst r) x) \/
                              (exists c, In c (filter (fun c => negb (fulldim (common c))) ts) /\ inside (common c) x))).
  - apply null_union.
    + apply (null_Union null null_sub null_empty null_union). intros [m ab] I. exact (part_cover _ _ _ _ _ _ (mo_part _ (abs_ok m ab I))).
    + apply (null_Union null null_sub null_empty null_union (fun c => inside (common c))). intros c I. apply filter_In in I. destruct I as [_ F]. apply negb_true_iff in F. apply full, F.
  - intros x [DX NX]. destruct (Forall_Exists_dec (fun ma : mode * abstraction R => Exists (fun r => inside (fst r) x) (p_regions (ab_ppp (snd ma))))
      (fun ma => Exists_dec _ _ (fun r => Bool.bool_dec (pts (fst r) x) true)) abs) as [FA|EX].
    2: { left. apply Exists_exists in EX. destruct EX as (ma & I & NE). exists ma. split; [exact I|]. split; [exact DX|]. intros r J K. apply NE, Exists_exists. exists r. auto. }
    right. assert (CH : exists cells, one_per_mode cells /\ forall c, In c cells -> inside (fst c) x).
    { clear - FA. unfold one_per_mode. induction FA as [|ma l E _ IH]; [exists []; split; [constructor|intros c []]|]. destruct IH as (cells & F & H). apply Exists_exists in E. destruct E as (r & I & J).
      exists (r :: cells). split; [constructor; assumption|]. intros c [<-|K]; auto. }
    destruct CH as (cells & O & H). assert (CX : inside (common cells) x) by (apply common_inside; auto).
    exists cells. split; [|exact CX]. apply filter_In. split; [apply TS, O|]. destruct (fulldim (common cells)) eqn:F; [|reflexivity]. exfalso.
    assert (G : exists g : mode -> nat, forall m ab, In (m, ab) abs -> exists cell, nth_error (p_regions (ab_ppp ab)) (g m) = Some cell /\ In cell cells).
    { clear - O abs_nodup. unfold one_per_mode in O. induction O as [|[m0 ab0] c l cells I O IH]; [exists (fun _ => 0); intros m ab []|].
      cbn [map fst] in abs_nodup. inversion abs_nodup as [|? ? NI ND']; subst. destruct (IH ND') as (g & G). cbn [snd] in I. apply In_nth_error in I. destruct I as (k & K).
      exists (fun m => if mode_eqb m m0 then k else g m). intros m ab [E|J].
      - injection E as <- <-. rewrite mode_eqb_refl. exists c. split; [exact K|left; reflexivity].
      - rewrite mode_eqb_neq by (intros ->; apply NI; apply (in_map fst) in J; exact J). destruct (G m ab J) as (cell & A & B). exists cell. split; [exact A|right; exact B]. }
    destruct G as (g & G). destruct (mg_thick _ _ _ M g (common cells) (TH cells O F)) as (k & c & N & P).
    { intros m ab I. destruct (G m ab I) as (cell & A & B). exists cell. split; [exact A|]. intros y Y. apply common_inside in Y. apply Y, B. }
    apply (NX c (nth_error_In _ _ N)). apply (mg_all _ _ _ M k c x N). intros m ab p cell I Pp C. rewrite (P m ab I) in Pp. injection Pp as <-.
    destruct (G m ab I) as (cell' & A & B). assert (cell' = cell) by congruence. subst cell'. apply H, B.
Qed.

(** ** Transitions *)
(** The region of the mode that contains merged region [i], before refinement, and its subsystem *)
Definition home (sw : switched R) (m : mode) (ab : abstraction R) (i : nat) (r : @region R) (s : option nat) : Prop :=
  exists p j, parent (sw_parents sw) m i = Some p /\ nth_error (ab_ppp2pwa ab) p = Some j /\ nth_error (p_regions (ab_pwa_ppp ab)) j = Some r /\
    match ab_ppp2sys ab with None => s = None | Some l => exists v, s = Some v /\ nth_error l p = Some v end.
Lemma home_ex sw m ab i c : is_merged sw -> In (m, ab) abs -> nth_error (p_regions (sw_ppp sw)) i = Some c ->
  exists r s, home sw m ab i r s /\ (forall x, inside (fst c) x -> inside (fst r) x).
Proof.
  intros S I N. destruct (mg_cell _ _ _ (ms_regions _ S) i c m ab N I) as (p & cell & P & C & IC & _). assert (O := abs_ok m ab I).
  destruct (mo_coarse _ O p cell C) as (j & r & J & Rj & IR). assert (K := mo_sys _ O).
  destruct (ab_ppp2sys ab) as [l|] eqn:E.
  - destruct (nth_error_ex l p) as (v & V); [rewrite K; exact (nth_error_lt _ _ _ C)|]. exists r, (Some v). split; [|auto]. exists p, j. rewrite E. eauto 7.
  - exists r, None. split; [|auto]. exists p, j. rewrite E. auto.
Qed.
Lemma home_maps sw m ab i r s : is_merged sw -> In (m, ab) abs -> home sw m ab i r s -> (exists j, ppp2pwa sw m i = Ok (j, r)) /\ ppp2sys sw m i = Ok s.
Proof.
  intros S I (p & j & P & J & Rj & K). unfold parent in P. unfold ppp2pwa, ppp2sys, mode_cell. destruct (mget m (sw_parents sw)) as [d|]; [|discriminate].
  cbn [of_opt bind]. rewrite P. cbn [of_opt bind]. rewrite (ms_modes _ S), (proj2 (mget_In m abs ab abs_nodup) I). cbn [of_opt bind fst snd]. split.
  - exists j. rewrite J. cbn [of_opt bind]. rewrite Rj. reflexivity.
  - destruct (ab_ppp2sys ab) as [l|]; [|subst; reflexivity]. destruct K as (v & -> & V). rewrite V. reflexivity.
Qed.
(** All states of region [i] can be driven to region [j] in mode [m], within the region that [i] comes
    from; or [solve_feasible] was asked and did not find all states of region [i]. *)
Definition mode_goes (sw : switched R) (N : nat) (m : mode) (i j : nat) : Prop :=
  exists ab ci cj r s, In (m, ab) abs /\ nth_error (p_regions (sw_ppp sw)) i = Some ci /\ nth_error (p_regions (sw_ppp sw)) j = Some cj /\
    home sw m ab i r s /\ (forall x, inside (fst ci) x -> inside (fst r) x) /\ forall x, inside (fst ci) x -> reach N m s (inside (fst r)) (inside (fst cj)) x.
Definition mode_refused (sw : switched R) (N : nat) (m : mode) (i j : nat) : Prop :=
  exists ab ci cj r s S0, In (m, ab) abs /\ nth_error (p_regions (sw_ppp sw)) i = Some ci /\ nth_error (p_regions (sw_ppp sw)) j = Some cj /\
    home sw m ab i r s /\ solve N m s (fst ci) (fst cj) (fst r) = Ok S0 /\ ~ (forall x, inside (fst ci) x -> inside S0 x).
Definition near_enough (sw : switched R) (len i j : nat) : Prop :=
  exists adj, p_adj (sw_ppp sw) = Some adj /\ hops (List.length (p_regions (sw_ppp sw))) adj (Nat.max 1 len) j i.
Lemma candidates_iff n IJ j i : In (j, i) (candidates n IJ) <-> j < n /\ i < n /\ IJ j i = true.
Proof. unfold candidates. rewrite filter_In, in_prod_iff, !in_seq. cbn [fst snd]. intuition lia. Qed.
Lemma within_max n len adj a c : reachable_within n len adj adj a c = true <-> hops n adj (Nat.max 1 len) a c.
Proof.
  destruct len as [|k]; [exact (within_hops n adj 0 a c)|]. rewrite within_hops. replace (Nat.max 1 (S k)) with (S k) by lia. reflexivity.
Qed.
Theorem get_transitions_sound sw m ab N len t : is_merged sw -> In (m, ab) abs -> get_transitions le solve sw m N len = Ok t ->
  (forall i j, t i j = true -> near_enough sw len i j /\ mode_goes sw N m i j) /\
  (forall i j, i < List.length (p_regions (sw_ppp sw)) -> j < List.length (p_regions (sw_ppp sw)) -> near_enough sw len i j -> t i j = true \/ mode_refused sw N m i j).
Proof.
  intros S I H. destruct (ms_adj _ S) as (adj & EA & AD). unfold get_transitions in H. rewrite EA in H. cbn [of_opt bind] in H.
  set (n := List.length (p_regions (sw_ppp sw))) in *. set (pairs := candidates n _) in *.
  destruct (fold_res (check_pair le solve sw m N) pairs no_entry) as [t'|e] eqn:F; [|discriminate]. cbn [bind] in H.
  assert (T : t' = t) by (destruct pairs; [discriminate|congruence]). subst t'. clear H.
  assert (HP : forall j i, In (j, i) pairs <-> j < n /\ i < n /\ near_enough sw len i j).
  { intros j i. unfold pairs. rewrite candidates_iff, within_max. unfold near_enough. split.
    - intros (A & B & C). split; [exact A|]. split; [exact B|]. exists adj. auto.
    - intros (A & B & adj' & C & Q). rewrite EA in C. injection C as <-. auto. }
  assert (G : (forall i j, t i j = true -> In (j, i) pairs /\ mode_goes sw N m i j) /\ (forall i j, In (j, i) pairs -> t i j = true \/ mode_refused sw N m i j)).
  { assert (NDP : NoDup pairs) by (apply NoDup_filter, list_prod_nodup; apply seq_NoDup).
    apply (fold_res_inv (check_pair le solve sw m N) (fun l1 t => (forall i j, t i j = true -> In (j, i) l1 /\ mode_goes sw N m i j) /\ (forall i j, In (j, i) l1 -> t i j = true \/ mode_refused sw N m i j)) pairs no_entry t); [| |exact F].
    - split; [discriminate|intros i j []].
    - intros l1 [j i] l2 t1 t2 EP [G1 G2] C. assert (NI : ~ In (j, i) l1) by (rewrite EP in NDP; apply NoDup_remove_2 in NDP; intro K; apply NDP, in_or_app; auto).
      unfold check_pair in C.
      destruct (nth_error (p_regions (sw_ppp sw)) i) as [ci|] eqn:NC; [|discriminate]. cbn [of_opt bind] in C.
      destruct (nth_error (p_regions (sw_ppp sw)) j) as [cj|] eqn:NJ; [|discriminate]. cbn [of_opt bind] in C.
      destruct (home_ex sw m ab i ci S I NC) as (r & s & HO & IR). destruct (home_maps sw m ab i r s S I HO) as ((jj & E1) & E2). rewrite E1 in C. cbn [bind] in C. rewrite E2 in C. cbn [bind snd] in C.
      unfold feasible in C. destruct (solve N m s (fst ci) (fst cj) (fst r)) as [S0|e] eqn:SV; [|discriminate]. cbn [bind] in C.
      match type of C with Ok ?x = Ok ?y => assert (E : y = x) by congruence end. subst t2. clear C. split.
      + intros a b Q. unfold put in Q. destruct (Nat.eqb_spec a i), (Nat.eqb_spec b j); cbn [andb] in Q.
        1: { subst. split; [apply in_or_app; right; left; reflexivity|]. exists ab, ci, cj, r, s. do 5 (split; [assumption|]). intros x IX. apply (solve_sound N m s _ _ _ S0 x SV IX). apply (proj1 (le_ok _ _) Q x IX). }
        all: destruct (G1 a b Q) as [A B]; split; [apply in_or_app; left; exact A|exact B].
      + intros a b Q. apply in_app_iff in Q. unfold put. destruct (Nat.eqb_spec a i), (Nat.eqb_spec b j); cbn [andb].
        1: { subst. destruct (le (fst ci) S0) eqn:L; [auto|]. right. exists ab, ci, cj, r, s, S0. do 5 (split; [assumption|]). intro K. apply le_ok in K. congruence. }
        all: apply G2; destruct Q as [Q|[Q|[]]]; [exact Q|congruence]. }
  destruct G as [G1 G2]. split.
  - intros i j Q. destruct (G1 i j Q) as [A B]. split; [apply (HP j i), A|exact B].
  - intros i j A B C. apply G2, HP. auto.
Qed.
Theorem get_transitions_returns sw m ab N len : is_merged sw -> In (m, ab) abs -> (forall s a b c, exists S0, solve N m s a b c = Ok S0) ->
  p_regions (sw_ppp sw) <> [] -> exists t, get_transitions le solve sw m N len = Ok t.
Proof.
  intros S I TOT NE. destruct (ms_adj _ S) as (adj & EA & AD). unfold get_transitions. rewrite EA. cbn [of_opt bind].
  set (n := List.length (p_regions (sw_ppp sw))). set (pairs := candidates n _).
  destruct (fold_res_total (check_pair le solve sw m N) (fun _ _ => True) pairs no_entry) as (t & -> & _); [exact Logic.I| |].
  - intros l1 [j i] l2 t1 EP _. assert (K : In (j, i) pairs) by (rewrite EP; apply in_or_app; right; left; reflexivity). apply candidates_iff in K. destruct K as (LJ & LI & _).
    unfold check_pair. destruct (nth_error_ex _ _ LI) as (ci & NC). destruct (nth_error_ex _ _ LJ) as (cj & NJ). rewrite NC, NJ. cbn [of_opt bind].
    destruct (home_ex sw m ab i ci S I NC) as (r & s & HO & IR). destruct (home_maps sw m ab i r s S I HO) as ((jj & E1) & E2). rewrite E1. cbn [bind]. rewrite E2. cbn [bind snd].
    unfold feasible. destruct (TOT s (fst ci) (fst cj) (fst r)) as (S0 & ->). cbn [bind]. eauto.
  - cbn [bind]. assert (K : In (0, 0) pairs).
    { apply candidates_iff. assert (P : 0 < n) by (unfold n; destruct (p_regions (sw_ppp sw)); [congruence|cbn; lia]). split; [exact P|]. split; [exact P|]. apply within_max.
      assert (R0 : adj 0 0 = true) by (apply AD; auto). clear - R0 P. induction len as [|k IH]; [constructor; exact R0|]. destruct k as [|k]; [constructor; exact R0|].
      replace (Nat.max 1 (S (S k))) with (S (S k)) by lia. replace (Nat.max 1 (S k)) with (S k) in IH by lia. apply (hops_more _ _ _ _ 0); [exact IH|exact P|exact R0]. }
    destruct pairs as [|q pairs]; [destruct K|]. eauto.
Qed.

(** ** The common transition system *)
(** A transition is labelled with the two names of its mode. *)
Definition carries (m : mode) (e : attrs pv) : Prop := forall k,
  lookup k e = if (k =? "env_actions")%string then Some (PvStr (str_obj (fst m))) else if (k =? "sys_actions")%string then Some (PvStr (str_obj (snd m))) else None.
Record common_ts (regs : list (@region R)) (ms : list (mode * matrix)) (ts : fts) : Prop := {
  ct_states : node_list (f_graph ts) = map state (List.seq 0 (List.length regs)) /\ g_init (f_graph ts) = [] /\ f_ap ts = map OStr (map fst props);
  ct_labels : forall k v, named (state k) v (f_graph ts) <-> exists c, nth_error regs k = Some c /\ v = PvSet (snd c);
  ct_trans : forall a e b, trans (f_graph ts) a e b <-> exists m t i j, In (m, t) ms /\ i < List.length regs /\ j < List.length regs /\ t i j = true /\
    a = state i /\ b = state j /\ carries m e }.
Lemma carries_iff n_env n_sys m e : 0 < n_env -> 0 < n_sys -> same_items (mode_label n_env n_sys m) e <-> carries m e.
Proof.
  intros A B. unfold mode_label. destruct n_env; [lia|]. destruct n_sys; [lia|]. cbn [Nat.eqb]. unfold same_items, carries.
  split; intros H k; specialize (H k); cbn [lookup] in *; rewrite (String.eqb_sym k "env_actions"), (String.eqb_sym k "sys_actions") in *; symmetry; exact H.
Qed.
Lemma label_good n_env n_sys modes m : 0 < n_env -> 0 < n_sys ->
  good (c_edge_types (action_config (env_actions n_env n_sys modes) (sys_actions n_env n_sys modes))) (mode_label n_env n_sys m) <->
  In (OStr (str_obj (fst m))) (map fst modes) /\ In (OStr (str_obj (snd m))) (map snd modes).
Proof.
  intros A B. unfold mode_label, env_actions, sys_actions. destruct n_env; [lia|]. destruct n_sys; [lia|]. cbn [Nat.eqb action_config c_edge_types]. unfold good. rewrite !Forall_cons_iff. cbn [fst snd]. unfold M_Dict.allowed. cbn [lookup].
  change ("env_actions" =? "env_actions")%string with true. change ("sys_actions" =? "env_actions")%string with false. change ("sys_actions" =? "sys_actions")%string with true. cbn [among].
  rewrite !existsb_exists. split.
  - intros ((o & I & E) & (o' & I' & E') & _). apply obj_eqb_eq in E, E'. subst. auto.
  - intros (I & I'). split; [eexists; split; [exact I|apply obj_eqb_eq; reflexivity]|]. split; [eexists; split; [exact I'|apply obj_eqb_eq; reflexivity]|constructor].
Qed.

Definition named_modes (modes : list mode) : Prop := forall m, In m modes -> exists e s, m = (OStr e, OStr s).
Lemma merge_abstractions_cases sw (ms : list (mode * matrix)) modes n_env n_sys : is_merged sw -> abs <> [] -> Permutation modes (map fst abs) -> map fst ms = modes -> 0 < n_env -> 0 < n_sys ->
  match merge_abstractions sw ms modes n_env n_sys with
  | Ok ts => common_ts (p_regions (sw_ppp sw)) ms ts /\
      forall m t i j, In (m, t) ms -> i < List.length (p_regions (sw_ppp sw)) -> j < List.length (p_regions (sw_ppp sw)) -> t i j = true ->
        In (OStr (str_obj (fst m))) (map fst modes) /\ In (OStr (str_obj (snd m))) (map snd modes)
  | Err _ => ~ named_modes modes
  end.
Proof.
  intros S NN EM EMS PE PS. assert (NDM : NoDup modes) by (apply (Permutation_NoDup (Permutation_sym EM)); exact abs_nodup).
  unfold merge_abstractions. destruct modes as [|m0 modes'] eqn:EMO; [destruct abs; [congruence|apply Permutation_nil in EM; discriminate]|]. rewrite <- EMO in *. replace (nth_error modes 0) with (Some m0) by (rewrite EMO; reflexivity). cbn [of_opt bind].
  assert (I0 : In m0 (map fst abs)) by (apply (Permutation_in _ EM); rewrite EMO; left; reflexivity). apply in_map_iff in I0. destruct I0 as ((m0' & ab0) & Q & I0). cbn in Q. subst m0'.
  rewrite (ms_modes _ S), (proj2 (mget_In m0 abs ab0 abs_nodup) I0). cbn [of_opt bind]. rewrite (mo_ap _ (abs_ok m0 ab0 I0)).
  set (regs := p_regions (sw_ppp sw)). set (n := List.length regs). rewrite ts_nodes. cbn [bind].
  assert (LB := set_labels n (fun _ => ap0) [] [] regs 0 _ eq_refl eq_refl (fun _ _ => eq_refl)). fold n in LB.
  change (enumerate regs) with (combine (List.seq 0 n) regs). rewrite LB. clear LB. cbn [bind].
  set (g2 := Graph _ _ _). assert (NL : node_list g2 = map state (List.seq 0 n)) by (unfold node_list, g2; cbn [g_nodes]; rewrite map_map; reflexivity).
  set (env := env_actions n_env n_sys modes). set (sys := sys_actions n_env n_sys modes).
  assert (W : wf (action_config env sys) g2).
  { apply wf_actions; [rewrite NL; apply FinFun.Injective_map_NoDup; [intros x y; apply state_inj|apply seq_NoDup]|reflexivity|constructor|].
    intros x a J. unfold g2 in J. cbn [g_nodes] in J. apply in_map_iff in J. destruct J as (k & [= <- <-] & _). repeat constructor. intros []. }
  assert (EQ := mode_edges_eq (map OStr (map fst props)) env sys n (mode_label n_env n_sys) ms ltac:(rewrite EMS; exact NDM) ms g2 (fun x J => J)). rewrite EMS in EQ. rewrite EQ. clear EQ.
  assert (LN : forall x, In x (mode_edges n (mode_label n_env n_sys) ms) -> NoDup (map fst (snd (fst x)))).
  { intros [[a d] b] J. apply mode_edges_iff in J. destruct J as (m & t & i & j & _ & _ & _ & _ & _ & _ & ->). cbn [fst snd]. unfold mode_label. destruct n_env; [lia|]. destruct n_sys; [lia|]. cbn. repeat constructor; [intros [Q|[]]; discriminate|intros []]. }
  destruct (fold_res (add_trans obj_eqb pv_eqb (action_config env sys) true) (mode_edges n (mode_label n_env n_sys) ms) g2) as [g3|e] eqn:F; cbn [bind].
  - destruct (add_edges_trans obj_eqb pv_eqb obj_eqb_eq pv_eqb_eq (action_config env sys) eq_refl true _ g2 g3 W LN F) as [F1 [F2 [W3 [F3 F4]]]]. split.
    + constructor; cbn [f_ap f_graph].
      * split; [unfold node_list in *; rewrite F1; exact NL|]. split; [rewrite F2; reflexivity|reflexivity].
      * intros k v. unfold named. rewrite F1. unfold g2. cbn [g_nodes]. split.
        -- intros (a & J & Lv). apply in_map_iff in J. destruct J as (x & Q & SX). apply in_seq in SX. injection Q as Q1 Q2. assert (x = k) by lia. subst x a. cbn [Nat.leb] in Lv. rewrite Nat.sub_0_r in Lv.
           destruct (nth_error_ex regs k) as (c & C); [fold n; lia|]. rewrite C in Lv. cbn in Lv. injection Lv as <-. eauto.
        -- intros (c & C & ->). exists [("ap", PvSet (snd c))]. split; [|reflexivity]. apply in_map_iff. exists k. cbn [Nat.leb]. rewrite Nat.sub_0_r, C. split; [reflexivity|]. apply in_seq. split; [lia|]. exact (nth_error_lt _ _ _ C).
      * intros a e b. rewrite F4. split.
        -- intros [[x [J _]]|[d [J Sm]]]; [destruct J|]. apply mode_edges_iff in J. destruct J as (m & t & i & j & J1 & J2 & J3 & J4 & J5 & J6 & ->). exists m, t, i, j. apply carries_iff in Sm; [|exact PE|exact PS]. fold n. tauto.
        -- intros (m & t & i & j & J1 & J2 & J3 & J4 & J5 & J6 & C). right. exists (mode_label n_env n_sys m). split; [apply mode_edges_iff; exists m, t, i, j; tauto|]. apply carries_iff; assumption.
    + intros m t i j J A B C. apply (label_good n_env n_sys modes m PE PS). apply (F3 (state i, mode_label n_env n_sys m, state j)). apply mode_edges_iff. exists m, t, i, j. tauto.
  - intro NM. destruct (add_edges_total obj_eqb pv_eqb obj_eqb_eq pv_eqb_eq (action_config env sys) eq_refl true _ g2 W LN) as [g3 F']; [| |congruence].
    + intros a d b J. apply mode_edges_iff in J. destruct J as (m & t & i & j & J1 & J2 & J3 & J4 & -> & -> & ->). rewrite NL.
      split; [apply in_map, in_seq; lia|]. split; [apply in_map, in_seq; lia|]. assert (IM : In m modes) by (rewrite <- EMS; apply (in_map fst) in J1; exact J1). split.
      { apply label_good; [exact PE|exact PS|]. destruct (NM m IM) as (e' & s' & ->). cbn [fst snd str_obj]. split; [apply (in_map fst) in IM; exact IM|apply (in_map snd) in IM; exact IM]. }
      split; [|intros [x [Jx _]]; destruct Jx]. left. unfold typed_keys, mode_label. destruct n_env; [lia|]. destruct n_sys; [lia|]. cbn. tauto.
    + intros l1 a b l2 d Q _. assert (J : In (a, [], b) (mode_edges n (mode_label n_env n_sys) ms)) by (rewrite Q; apply in_or_app; right; left; reflexivity).
      apply mode_edges_iff in J. destruct J as (m & t & i & j & _ & _ & _ & _ & _ & _ & K). unfold mode_label in K. destruct n_env; [lia|]. destruct n_sys; discriminate.
Qed.
Theorem merge_abstractions_ok sw ms modes n_env n_sys : is_merged sw -> abs <> [] -> modes = map fst abs -> map fst ms = modes -> 0 < n_env -> 0 < n_sys -> named_modes modes ->
  exists ts, merge_abstractions sw ms modes n_env n_sys = Ok ts /\ common_ts (p_regions (sw_ppp sw)) ms ts.
Proof.
  intros S NN EM EMS PE PS NM. assert (C := merge_abstractions_cases sw ms modes n_env n_sys S NN (eq_ind _ (fun l => Permutation modes l) (Permutation_refl modes) _ EM) EMS PE PS).
  destruct (merge_abstractions sw ms modes n_env n_sys) as [ts|e]; [|destruct (C NM)]. exists ts. split; [reflexivity|apply C].
Qed.
(** Names that are not strings raise an exception as soon as a transition has to be labelled with them. *)
Theorem merge_abstractions_numbers sw ms modes n_env n_sys m t i j : is_merged sw -> abs <> [] -> modes = map fst abs -> map fst ms = modes -> 0 < n_env -> 0 < n_sys ->
  In (m, t) ms -> i < List.length (p_regions (sw_ppp sw)) -> j < List.length (p_regions (sw_ppp sw)) -> t i j = true ->
  (forall e, In e (map fst modes) -> e <> OStr (str_obj (fst m))) -> exists e, merge_abstractions sw ms modes n_env n_sys = Err e.
Proof.
  intros S NN EM EMS PE PS I A B T NE. assert (C := merge_abstractions_cases sw ms modes n_env n_sys S NN (eq_ind _ (fun l => Permutation modes l) (Permutation_refl modes) _ EM) EMS PE PS).
  destruct (merge_abstractions sw ms modes n_env n_sys) as [ts|e]; [|eauto]. exfalso. destruct C as [_ C]. destruct (C m t i j I A B T) as [K _]. exact (NE _ K eq_refl).
Qed.
End Merging.

(** ** Switched systems *)
Context (disc : mode -> dparams -> res (abstraction R)).
Notation discretize_switched := (discretize_switched inter le touch radius same_matrices in_order solve disc).
(** What the parameters given for the modes lead to *)
Definition mode_abs (params : list (mode * dparams)) (abs : list (mode * abstraction R)) : Prop :=
  forall m ab, In (m, ab) abs -> exists p, mget m params = Some p /\ disc m p = Ok ab.
Definition mode_trans (params : list (mode * dparams)) (abs : list (mode * abstraction R)) (sw : switched R) (m : mode) (t : matrix) : Prop :=
  exists p N len, mget m params = Some p /\ dp_N p = Some N /\ dp_len p = Some len /\
  (forall i j, t i j = true -> near_enough sw len i j /\ mode_goes abs sw N m i j) /\
  (forall i j, i < List.length (p_regions (sw_ppp sw)) -> j < List.length (p_regions (sw_ppp sw)) -> near_enough sw len i j -> t i j = true \/ mode_refused abs sw N m i j).
Theorem discretize_switched_sound modes n_env n_sys params sw ts : NoDup modes -> 0 < n_env -> 0 < n_sys ->
  (forall m p ab, In m modes -> mget m params = Some p -> disc m p = Ok ab -> mode_ok ab) ->
  discretize_switched modes n_env n_sys (Some params) = Ok (sw, ts) ->
  exists abs ms, map fst abs = modes /\ map fst ms = modes /\ mode_abs params abs /\ (forall m ab, In (m, ab) abs -> mode_ok ab) /\
    is_merged abs sw /\ common_ts (p_regions (sw_ppp sw)) ms ts /\ forall m t, In (m, t) ms -> mode_trans params abs sw m t.
Proof.
  intros ND PE PS DO H. unfold M_Switched.discretize_switched in H.
  destruct (mapr _ modes) as [abs|e] eqn:EA in H; [|discriminate]. cbn [bind] in H.
  assert (A : map fst abs = modes /\ forall m ab, In (m, ab) abs -> exists p, In m modes /\ mget m params = Some p /\ disc m p = Ok ab).
  { clear - EA. revert abs EA. induction modes as [|m ms IH]; intros abs EA; cbn [mapr] in EA; [injection EA as <-; split; [reflexivity|intros m ab []]|].
    destruct (mget m params) as [p|] eqn:P; [|discriminate]. cbn [of_opt bind] in EA. destruct (disc m p) as [ab|e] eqn:D; [|discriminate]. cbn [bind] in EA.
    destruct (mapr _ ms) as [abs'|e] eqn:E in EA; [|discriminate]. cbn [bind] in EA. injection EA as <-. destruct (IH abs' E) as [A B]. split; [cbn [map fst]; congruence|].
    intros m1 ab1 [[= <- <-]|J]; [exists p; cbn; auto|]. destruct (B m1 ab1 J) as (p1 & I1 & K). exists p1. cbn. tauto. }
  destruct A as [A1 A2]. assert (ANd : NoDup (map fst abs)) by (rewrite A1; exact ND).
  assert (AO : forall m ab, In (m, ab) abs -> mode_ok ab) by (intros m ab I; destruct (A2 m ab I) as (p & P1 & P2 & P3); exact (DO m p ab P1 P2 P3)).
  assert (NN : abs <> []) by (intros ->; cbn in H; discriminate).
  destruct (merge_partitions_ok abs AO ANd NN) as (sw' & MP & MM). rewrite MP in H. cbn [bind of_opt] in H.
  destruct (mapr _ modes) as [ms|e] eqn:ET in H; [|discriminate]. cbn [bind] in H.
  assert (T : map fst ms = modes /\ forall m t, In (m, t) ms -> In m modes /\ exists p N len, mget m params = Some p /\ dp_N p = Some N /\ dp_len p = Some len /\ get_transitions le solve sw' m N len = Ok t).
  { clear - ET. revert ms ET. induction modes as [|m l IH]; intros ms ET; cbn [mapr] in ET; [injection ET as <-; split; [reflexivity|intros m ab []]|].
    destruct (mget m params) as [p|] eqn:P; [|discriminate]. cbn [of_opt bind] in ET. destruct (dp_N p) as [N|] eqn:EN; [|discriminate]. cbn [of_opt bind] in ET. destruct (dp_len p) as [len|] eqn:EL; [|discriminate]. cbn [of_opt bind] in ET.
    destruct (get_transitions le solve sw' m N len) as [t|e] eqn:D; [|discriminate]. cbn [bind] in ET.
    destruct (mapr _ l) as [ms'|e] eqn:E in ET; [|discriminate]. cbn [bind] in ET. injection ET as <-. destruct (IH ms' E) as [A B]. split; [cbn [map fst]; congruence|].
    intros m1 t1 [[= <- <-]|J]; [split; [left; reflexivity|]; exists p, N, len; auto|]. destruct (B m1 t1 J) as (I1 & K). split; [right; exact I1|exact K]. }
  destruct T as [T1 T2]. assert (C := merge_abstractions_cases abs AO ANd sw' ms modes n_env n_sys MM NN (eq_ind _ (fun l => Permutation modes l) (Permutation_refl modes) _ (eq_sym A1)) T1 PE PS).
  destruct (merge_abstractions sw' ms modes n_env n_sys) as [ts'|e]; [|discriminate]. cbn [bind] in H. injection H as <- <-.
  exists abs, ms. split; [exact A1|]. split; [exact T1|]. split; [intros m ab I; destruct (A2 m ab I) as (p & _ & P); exists p; exact P|]. split; [exact AO|]. split; [exact MM|]. split; [apply C|].
  intros m t I. destruct (T2 m t I) as (IM & p & N & len & P1 & P2 & P3 & G). exists p, N, len. split; [exact P1|]. split; [exact P2|]. split; [exact P3|].
  rewrite <- A1 in IM. apply in_map_iff in IM. destruct IM as ((m' & ab) & Q & IM). cbn in Q. subst m'. exact (get_transitions_sound abs AO ANd sw' m ab N len t MM IM G).
Qed.
(** With a name for each mode, with [N] and [trans_length] given for it and with one common part that is
    not thickness, an abstraction is returned. *)
Lemma pick_cells (P : mode -> abstraction R -> nat -> Prop) (abs : list (mode * abstraction R)) : NoDup (map fst abs) ->
  (forall m ab, In (m, ab) abs -> exists k, P m ab k) -> exists g : mode -> nat, forall m ab, In (m, ab) abs -> P m ab (g m).
Proof.
  induction abs as [|[m0 ab0] l IH]; intros ND H; [exists (fun _ => 0); intros m ab []|]. cbn [map fst] in ND. inversion ND as [|? ? NI ND']; subst.
  destruct (IH ND' (fun m ab J => H m ab (or_intror J))) as (g & G). destruct (H m0 ab0 (or_introl eq_refl)) as (k & K).
  exists (fun m => if mode_eqb m m0 then k else g m). intros m ab [E|J].
  - injection E as <- <-. rewrite mode_eqb_refl. exact K.
  - rewrite mode_eqb_neq; [exact (G m ab J)|]. intros ->. apply NI. apply (in_map fst) in J. exact J.
Qed.
Theorem discretize_switched_returns modes n_env n_sys params r : NoDup modes -> modes <> [] -> 0 < n_env -> 0 < n_sys -> named_modes modes ->
  (forall N m s a b t, exists S0, solve N m s a b t = Ok S0) -> (thickness <= radius r)%Qc ->
  (forall m, In m modes -> exists p N len ab cell, mget m params = Some p /\ dp_N p = Some N /\ dp_len p = Some len /\ disc m p = Ok ab /\ mode_ok ab /\
     In cell (p_regions (ab_ppp ab)) /\ forall x, inside r x -> inside (fst cell) x) ->
  exists sw ts, discretize_switched modes n_env n_sys (Some params) = Ok (sw, ts).
Proof.
  intros ND NE PE PS NM TOT TH G. unfold M_Switched.discretize_switched.
  assert (A : exists abs, mapr (fun m => do p <- of_opt "KeyError" (mget m params); do ab <- disc m p; Ok (m, ab)) modes = Ok abs /\ map fst abs = modes /\
    forall m ab, In (m, ab) abs -> mode_ok ab /\ exists k cell, nth_error (p_regions (ab_ppp ab)) k = Some cell /\ forall x, inside r x -> inside (fst cell) x).
  { clear ND NE NM. induction modes as [|m ms IH]; [exists []; split; [reflexivity|]; split; [reflexivity|intros m ab []]|].
    destruct (IH (fun m' J => G m' (or_intror J))) as (abs & E & F & H). destruct (G m (or_introl eq_refl)) as (p & N & len & ab & cell & P & _ & _ & D & O & IC & CC).
    exists ((m, ab) :: abs). cbn [mapr]. rewrite P. cbn [of_opt bind]. rewrite D. cbn [bind]. rewrite E. cbn [bind map fst]. split; [reflexivity|]. split; [congruence|].
    intros m1 ab1 [[= <- <-]|J]; [|exact (H m1 ab1 J)]. split; [exact O|]. apply In_nth_error in IC. destruct IC as (k & K). exists k, cell. auto. }
  destruct A as (abs & -> & A1 & A2). cbn [bind]. assert (ANd : NoDup (map fst abs)) by (rewrite A1; exact ND).
  assert (AO : forall m ab, In (m, ab) abs -> mode_ok ab) by (intros m ab I; apply (A2 m ab I)).
  assert (NN : abs <> []) by (intros ->; cbn in A1; congruence).
  destruct (merge_partitions_ok abs AO ANd NN) as (sw & -> & MM). cbn [bind of_opt].
  assert (RN : p_regions (sw_ppp sw) <> []).
  { destruct (pick_cells (fun m ab k => exists cell, nth_error (p_regions (ab_ppp ab)) k = Some cell /\ forall x, inside r x -> inside (fst cell) x) abs ANd) as (g & Hg).
    { intros m ab I. destruct (A2 m ab I) as (_ & k & cell & K). exists k, cell. exact K. }
    destruct (mg_thick _ _ _ (ms_regions _ _ MM) g r TH Hg) as (k & c & C & _). intro Q. rewrite Q in C. destruct k; discriminate. }
  assert (T : exists ms, mapr (fun m => do p <- of_opt "KeyError" (mget m params); do N <- of_opt "KeyError" (dp_N p); do len <- of_opt "KeyError" (dp_len p);
                                        do t <- get_transitions le solve sw m N len; Ok (m, t)) modes = Ok ms /\ map fst ms = modes).
  { assert (IN : forall m, In m modes -> exists ab, In (m, ab) abs). { intros m I. rewrite <- A1 in I. apply in_map_iff in I. destruct I as ((m' & ab) & <- & J). exists ab. exact J. }
    clear - IN G TOT AO ANd MM RN le_ok solve_sound. induction modes as [|m ms IH]; [exists []; split; reflexivity|].
    destruct (IH (fun m' J => G m' (or_intror J)) (fun m' J => IN m' (or_intror J))) as (l & E & F). destruct (G m (or_introl eq_refl)) as (p & N & len & ab & cell & P & EN & EL & _).
    destruct (IN m (or_introl eq_refl)) as (ab' & I). cbn [mapr]. rewrite P. cbn [of_opt bind]. rewrite EN. cbn [of_opt bind]. rewrite EL. cbn [of_opt bind].
    destruct (get_transitions_returns abs AO ANd sw m ab' N len MM I (TOT N m) RN) as (t & ->). cbn [bind]. rewrite E. cbn [bind]. eexists. split; [reflexivity|]. cbn [map fst]. congruence. }
  destruct T as (ms & -> & T1). cbn [bind]. destruct (merge_abstractions_ok abs AO ANd sw ms modes n_env n_sys MM NN (eq_sym A1) T1 PE PS NM) as (ts & -> & _). cbn [bind]. eauto.
Qed.
End Switched.

(** The abstraction of a mode by [discretize], not conservative, is what is used of a mode. *)
Lemma abstraction_mode_ok {R X} inter diff fulldim (pts : R -> X -> bool) null touch volume radius solve rd min_cell_volume abs_tol trans_length reach part props pwa ab :
  p_props part = Some props ->
  is_abstraction inter diff fulldim pts null touch volume radius solve rd min_cell_volume abs_tol trans_length false reach part props pwa ab ->
  mode_ok fulldim pts null touch (p_domain part) props ab.
Proof.
  intros EP [A1 [A2 A2'] A3 (A4 & A4' & A4'') A5 A6 (f & g & adj & M1 & M2 & M3 & M4 & _)]. constructor.
  - exact A1.
  - exact A2.
  - congruence.
  - rewrite A4. apply FinFun.Injective_map_NoDup; [intros x y; apply state_inj|apply seq_NoDup].
  - exact A4''.
  - intros k c C. apply A5. eauto.
  - eauto.
  - intros k c C. destruct (M1 k c C) as (r & o & B1 & B2 & B3 & B4 & B5 & B6). exists (f k), r. destruct (M2 eq_refl) as [-> _]. split; [|auto].
    apply map_nth_error. assert (L := nth_error_lt _ _ _ C). rewrite (nth_error_nth' _ 0) by (rewrite seq_length; exact L). rewrite seq_nth by exact L. reflexivity.
  - destruct pwa as [[dm subs]|]; [destruct A6 as (l & -> & L & _); exact L|]. rewrite A6. exact Logic.I.
Qed.
Print Assumptions merge_partitions_ok.
Print Assumptions merged_partition.
Print Assumptions get_transitions_sound.
Print Assumptions get_transitions_returns.
Print Assumptions merge_abstractions_ok.
Print Assumptions merge_abstractions_numbers.
Print Assumptions discretize_switched_sound.
Print Assumptions discretize_switched_returns.
Print Assumptions abstraction_mode_ok.

(** ** Modes of no system *)
(** Without environment modes, or without system modes, there is no mode, and nothing to abstract. *)
Theorem no_modes n_env n_sys env_labels sys_labels keys modes : n_env = 0 \/ n_sys = 0 -> switched_modes n_env n_sys env_labels sys_labels keys = Ok modes -> modes = [].
Proof.
  intros Z H. unfold switched_modes in H. destruct (check_labels n_env env_labels) as [es|e] eqn:EE; [|discriminate]. destruct (check_labels n_sys sys_labels) as [ss|e] eqn:ES; [|discriminate]. cbn [bind] in H.
  assert (L : forall n l r, check_labels n l = Ok r -> List.length r = n).
  { intros n [l|] r K; unfold check_labels in K; [destruct (Nat.eqb_spec (List.length l) n); [congruence|discriminate]|]. injection K as <-. rewrite map_length, seq_length. reflexivity. }
  apply L in EE, ES. destruct (forallb _ keys) eqn:F in H; [|discriminate]. injection H as <-. destruct keys as [|k keys]; [reflexivity|]. exfalso. cbn [forallb] in F. apply andb_true_iff in F. destruct F as [F _].
  apply existsb_exists in F. destruct F as ((a & b) & I & _). apply in_prod_iff in I. destruct I as [I1 I2]. destruct Z as [-> | ->]; [destruct es; [destruct I1|discriminate]|destruct ss; [destruct I2|discriminate]].
Qed.
Print Assumptions no_modes.
Theorem no_modes_raise {R} inter le touch radius same_matrices in_order solve disc n_env n_sys params :
  discretize_switched (R := R) inter le touch radius same_matrices in_order solve disc [] n_env n_sys params = Err "TypeError".
Proof. reflexivity. Qed.
Print Assumptions no_modes_raise.
(** Parameters are needed for every mode although they have a default. *)
Theorem default_parameters_raise {R} inter le touch radius same_matrices in_order solve disc m modes n_env n_sys :
  discretize_switched (R := R) inter le touch radius same_matrices in_order solve disc (m :: modes) n_env n_sys None = Err "KeyError".
Proof. reflexivity. Qed.
Print Assumptions default_parameters_raise.

(** ** A case *)
(** Point 12 is a small region, the other even points are not; the odd points are null. *)
Definition pt_radius (r : pt_R) : Qc :=
  if existsb (fun x => Nat.even x && negb (x =? 12)) r then 1%Qc else if existsb (fun x => x =? 12) r then Q2Qc (1 # 1000000) else 0%Qc.
Lemma pt_radius_mono a b : (forall x, inside pt_pts a x -> inside pt_pts b x) -> (pt_radius a <= pt_radius b)%Qc.
Proof.
  intro H. assert (M : forall f, existsb f a = true -> existsb f b = true).
  { intros f E. apply existsb_exists in E. destruct E as (x & I & F). apply existsb_exists. exists x. split; [|exact F]. apply pt_pts_In, (H x), pt_pts_In, I. }
  unfold pt_radius. destruct (existsb (fun x => Nat.even x && negb (x =? 12)) a) eqn:E1; [rewrite (M _ E1); apply Qcle_refl|].
  destruct (existsb (fun x => x =? 12) a) eqn:E2; [rewrite (M _ E2)|]; repeat match goal with |- context [if ?c then _ else _] => destruct c end; discriminate.
Qed.
Lemma pt_radius_null r : pt_null (inside pt_pts r) -> (pt_radius r < thickness)%Qc.
Proof.
  intro N. assert (M : forall f, (forall x, f x = true -> Nat.even x = true) -> existsb f r = false).
  { intros f F. destruct (existsb f r) eqn:E; [|reflexivity]. exfalso. apply existsb_exists in E. destruct E as (x & I & Fx). apply F in Fx. assert (O := N x (proj2 (pt_pts_In r x) I)). rewrite <- Nat.negb_even, Fx in O. discriminate. }
  unfold pt_radius. rewrite !M; [reflexivity| |].
  - intros x E. apply Nat.eqb_eq in E. subst. reflexivity.
  - intros x E. apply andb_true_iff in E. tauto.
Qed.
Definition pt_same (a b : pt_R) : bool := pt_le a b && pt_le b a.
Lemma pt_same_refl d : pt_same d d = true.
Proof. unfold pt_same. rewrite (proj2 (pt_le_ok d d)); [reflexivity|auto]. Qed.
Notation pt_ok := (mode_ok pt_fulldim pt_pts pt_null pt_touch).
Notation pt_merged := (is_merged pt_fulldim pt_pts pt_null pt_touch pt_radius).
(** Up and down by two *)
Definition pt_down (x : nat) : nat := x - 2.
Definition pt_of (m : mode) : nat -> nat := if obj_eqb (snd m) (OStr "up") then pt_next else pt_down.
Definition pt_disc (conservative : bool) (part : ppp pt_R) (m : mode) (p : dparams) : res (abstraction pt_R) :=
  match pt_discretize (pt_of m) half conservative false 30 None part with Some x => x | None => Err "not ended" end.
Definition sw_solve (N : nat) (m : mode) (s : option nat) (a b t : pt_R) : res pt_R := pt_solve (pt_of m) s a b (Some t).
Definition sw_reach (N : nat) (m : mode) : option nat -> (nat -> Prop) -> (nat -> Prop) -> nat -> Prop := pt_reach (pt_of m).
Notation pt_discretize_switched cons part := (discretize_switched pt_inter pt_le pt_touch pt_radius pt_same (fun l => l) sw_solve (pt_disc cons part)).
Definition pt_part : ppp pt_R := pt_two [0; 2; 4] [6; 8].
Lemma pt_part_given : given pt_diff pt_fulldim pt_pts pt_null pt_touch pt_part [("a", [6; 8])] None.
Proof. apply pt_two_given; [reflexivity|reflexivity| |discriminate]. intros x A B. cbn in A, B. intuition congruence. Qed.
Lemma pt_disc_ok m p ab : pt_disc false pt_part m p = Ok ab -> pt_ok [0; 2; 4; 6; 8] [("a", [6; 8])] ab.
Proof.
  unfold pt_disc. intro H. destruct (pt_discretize (pt_of m) half false false 30 None pt_part) as [x|] eqn:E; [|discriminate]. subst x.
  exact (abstraction_mode_ok _ _ _ _ _ _ _ _ _ _ _ _ _ _ pt_part _ _ _ eq_refl (pt_sound _ _ _ _ _ _ _ _ _ pt_part_given E)).
Qed.
Definition up : mode := (OStr "e", OStr "up").
Definition down : mode := (OStr "e", OStr "down").
Definition pt_params : list (mode * dparams) := [(up, DParams (Some 2) (Some 1)); (down, DParams (Some 2) (Some 1))].
Definition pt_switched_sound := discretize_switched_sound pt_inter pt_fulldim pt_le pt_pts pt_null pt_null_sub pt_pts_inter pt_full pt_le_ok pt_touch pt_radius pt_same (fun l => l)
  pt_touch_sym pt_touch_mono pt_radius_mono pt_radius_null pt_same_refl (fun l => Permutation_refl l) [0; 2; 4; 6; 8] [("a", [6; 8])] ltac:(repeat constructor; intros []) sw_solve sw_reach
  (fun N m s a b t => pt_solve_sound (pt_of m) s a b (Some t)) (pt_disc false pt_part).
Definition edge_names (ts : fts) : list (obj * obj * option pv) := map (fun e => (e_src e, e_dst e, lookup "sys_actions" (e_attr e))) (g_edges (f_graph ts)).
Example switched_case : exists sw ts, pt_discretize_switched false pt_part [up; down] 1 2 (Some pt_params) = Ok (sw, ts) /\
  (exists abs ms, map fst abs = [up; down] /\ pt_merged [0; 2; 4; 6; 8] [("a", [6; 8])] abs sw /\ common_ts [("a", [6; 8])] (p_regions (sw_ppp sw)) ms ts /\
     partition pt_fulldim pt_pts pt_null [0; 2; 4; 6; 8] [("a", [6; 8])] (p_regions (sw_ppp sw))) /\
  p_regions (sw_ppp sw) = [([0], []); ([8], ["a"]); ([6], ["a"]); ([4], []); ([2], [])] /\
  sw_parents sw = [(up, [(0, 0); (1, 1); (2, 1); (3, 2); (4, 3)]); (down, [(0, 0); (1, 1); (2, 2); (3, 0); (4, 0)])] /\
  edge_names ts = [(state 0, state 4, Some (PvStr "up")); (state 1, state 1, Some (PvStr "up")); (state 2, state 1, Some (PvStr "up")); (state 3, state 2, Some (PvStr "up"));
    (state 4, state 3, Some (PvStr "up")); (state 0, state 0, Some (PvStr "down")); (state 1, state 2, Some (PvStr "down")); (state 2, state 3, Some (PvStr "down"));
    (state 3, state 4, Some (PvStr "down")); (state 4, state 0, Some (PvStr "down"))].
Proof.
  destruct (pt_discretize_switched false pt_part [up; down] 1 2 (Some pt_params)) as [[sw ts]|e] eqn:E; [|vm_compute in E; discriminate].
  exists sw, ts. split; [reflexivity|]. split.
  - assert (ND : NoDup [up; down]) by (repeat constructor; [intros [Q|[]]; discriminate|intros []]).
    destruct (pt_switched_sound [up; down] 1 2 pt_params sw ts) as (abs & ms & A1 & _ & _ & A4 & A5 & A6 & _); [exact ND|lia|lia| |exact E|].
    + intros m p ab _ _. apply pt_disc_ok.
    + exists abs, ms. do 3 (split; [assumption|]).
      apply (merged_partition pt_inter pt_fulldim pt_pts pt_null pt_null_sub pt_pts_inter pt_full pt_touch pt_radius _ _ pt_null_empty pt_null_union abs A4 (eq_ind_r (@NoDup mode) ND A1) sw A5).
      intros cells _ F. unfold pt_radius. assert (W : forall x, In x (common pt_inter [0; 2; 4; 6; 8] cells) -> x <> 12).
      { intros x I Q. apply pt_pts_In in I. apply (common_inside pt_inter pt_pts pt_pts_inter) in I. destruct I as [I _]. apply pt_pts_In in I. subst. cbn in I. intuition discriminate. }
      unfold pt_fulldim in F. apply existsb_exists in F. destruct F as (x & I & Ev).
      replace (existsb (fun x => Nat.even x && negb (x =? 12)) (common pt_inter [0; 2; 4; 6; 8] cells)) with true; [discriminate|]. symmetry. apply existsb_exists. exists x. split; [exact I|].
      rewrite Ev. destruct (Nat.eqb_spec x 12) as [Q|Q]; [destruct (W x I Q)|reflexivity].
  - vm_compute in E. injection E as <- <-. vm_compute. auto.
Qed.

(** ** Refuted *)
(** Common parts with a radius below 1e-5 are dropped: with two modes that are partitioned in two ways,
    point 12 is in no region. *)
Definition pt_made (regs : list pt_R) : abstraction pt_R :=
  let l := map (fun r => (r, @nil string)) regs in
  let p := PPP [0; 2; 12] l (Some (pt_adjacent l)) (Some []) in
  Abstraction p (match build_ts [] (map snd l) no_entry with Ok ts => ts | Err _ => FTS [] empty_graph end) p (List.seq 0 (List.length l)) None (List.seq 0 (List.length l)).
Lemma pt_made_ok a b : pt_fulldim a = true -> pt_fulldim b = true -> (forall x, In x a -> ~ In x b) -> (forall x, In x [0; 2; 12] <-> In x a \/ In x b) -> pt_ok [0; 2; 12] [] (pt_made [a; b]).
Proof.
  intros FA FB D U. set (l := [(a, @nil string); (b, [])]).
  assert (BT := build_ts_spec [] (map snd l) no_entry ltac:(intros x p [<- | [<- | []]] [])). destruct BT as (ts & E & T1 & T2 & T3 & T4 & T5).
  assert (Q : pt_made [a; b] = Abstraction (PPP [0; 2; 12] l (Some (pt_adjacent l)) (Some [])) ts (PPP [0; 2; 12] l (Some (pt_adjacent l)) (Some [])) [0; 1] None [0; 1]).
  { unfold pt_made. change (map (fun r => (r, @nil string)) [a; b]) with l. rewrite E. reflexivity. }
  rewrite Q. constructor; cbn [ab_ppp ab_ts ab_pwa_ppp ab_ppp2pwa ab_ppp2sys p_regions p_domain p_props p_adj]; try reflexivity.
  - constructor; unfold inside.
    + intros r x [<- | [<- | []]] I; cbn [fst] in I; apply pt_pts_In; apply pt_pts_In in I; apply U; auto.
    + intros x [A B]. exfalso. apply pt_pts_In, U in A. destruct A as [A|A]; [apply (B (a, []))|apply (B (b, []))]; cbn; auto; apply pt_pts_In; exact A.
    + constructor; [|repeat constructor]. constructor; [|constructor]. intros x [A B]. cbn [fst] in *. apply pt_pts_In in A, B. exfalso. apply (D x A B).
    + intros r p P _ [].
    + intros r p P _ [].
    + intros r p [<- | [<- | []]] [].
    + intros r [<- | [<- | []]]; constructor.
    + intros r [<- | [<- | []]]; assumption.
  - rewrite T2. apply FinFun.Injective_map_NoDup; [intros x y; apply state_inj|apply seq_NoDup].
  - exact T1.
  - intros k c C. apply T5. exists (snd c). split; [|reflexivity]. apply map_nth_error, C.
  - eexists. split; [reflexivity|]. apply pt_adjacent_ok.
  - intros k c C. destruct k as [|[|k]]; cbn in C; [| |destruct k; discriminate]; injection C as <-; [exists 0, (a, [])|exists 1, (b, [])]; auto.
Qed.
Theorem merged_covers_refuted : exists abs sw, (forall m ab, In (m, ab) abs -> pt_ok [0; 2; 12] [] ab) /\ NoDup (map fst abs) /\
  merge_partitions pt_inter pt_le pt_touch pt_radius pt_same (fun l => l) abs = Ok (Some sw) /\ pt_merged [0; 2; 12] [] abs sw /\
  ~ partition pt_fulldim pt_pts pt_null [0; 2; 12] [] (p_regions (sw_ppp sw)) /\ p_regions (sw_ppp sw) = [([0], []); ([2], [])].
Proof.
  set (abs := [(up, pt_made [[0; 12]; [2]]); (down, pt_made [[0]; [2; 12]])]).
  assert (AO : forall m ab, In (m, ab) abs -> pt_ok [0; 2; 12] [] ab).
  { intros m ab [[= <- <-]|[[= <- <-]|[]]]; apply pt_made_ok; try reflexivity; try (intros x A B; cbn in A, B; intuition congruence); intros x; cbn; intuition. }
  assert (ND : NoDup (map fst abs)) by (repeat constructor; [intros [Q|[]]; discriminate|intros []]).
  destruct (merge_partitions_ok pt_inter pt_fulldim pt_le pt_pts pt_null pt_null_sub pt_pts_inter pt_full pt_le_ok pt_touch pt_radius pt_same (fun l => l)
    pt_touch_sym pt_touch_mono pt_radius_mono pt_radius_null pt_same_refl (fun l => Permutation_refl l) [0; 2; 12] [] ltac:(constructor) abs AO ND ltac:(discriminate)) as (sw & E & M).
  exists abs, sw. split; [exact AO|]. split; [exact ND|]. split; [exact E|]. split; [exact M|].
  assert (Q : p_regions (sw_ppp sw) = [([0], []); ([2], [])]) by (clear M; vm_compute in E; injection E as <-; reflexivity). split; [|exact Q].
  intro P. assert (K := part_cover _ _ _ _ _ _ P 12). rewrite Q in K. cbn in K. assert (F : false = true); [|discriminate]. apply K. split; [reflexivity|].
  intros r [<- | [<- | []]]; discriminate.
Qed.
Print Assumptions merged_covers_refuted.
(** The names of modes that no labels are given for are numbers. *)
Definition mode0 : mode := (OInt 0, OInt 0).
Definition mode1 : mode := (OInt 0, OInt 1).
Definition both (p : dparams) : option (list (mode * dparams)) := Some [(mode0, p); (mode1, p)].
Theorem default_labels_refuted : switched_modes 1 2 None None [mode0; mode1] = Ok [mode0; mode1] /\
  pt_discretize_switched false pt_part [mode0; mode1] 1 2 (both (DParams (Some 2) (Some 1))) = Err "ValueError".
Proof. split; vm_compute; reflexivity. Qed.
Print Assumptions default_labels_refuted.
(** Parameters that [discretize] has defaults for are needed. *)
Theorem default_horizon_refuted : pt_discretize_switched false pt_part [up] 1 1 (Some [(up, DParams None None)]) = Err "KeyError" /\
  exists r, pt_discretize_switched false pt_part [up] 1 1 (Some [(up, DParams (Some 10) (Some 1))]) = Ok r.
Proof. split; [vm_compute; reflexivity|]. destruct (pt_discretize_switched _ _ _ _ _ _) as [r|e] eqn:E; [eauto|]. vm_compute in E. discriminate. Qed.
Print Assumptions default_horizon_refuted.
(** A conservative abstraction of a mode lacks the map from its cells. *)
Theorem conservative_modes_refuted : pt_discretize_switched true pt_part [up; down] 1 2 (Some pt_params) = Err "IndexError".
Proof. vm_compute. reflexivity. Qed.
Print Assumptions conservative_modes_refuted.
