(** The abstraction of a switched system by several processes: it is sound for each order in which the
    workers end, it is that of one process if they end in order, and it waits for ever if a worker fails. *)
From Coq Require Import List String Bool Arith ZArith Lia QArith Qcanon Permutation.
From Verif Require Import M_Tree M_Base M_Dict M_Graph M_Machine M_Fts M_Part T_Prop2part M_Discretize T_Discretize T_Encode T_Abstract M_Switched L_Switched T_Switched M_Parallel.
Import ListNotations.
Open Scope string_scope.
Open Scope list_scope.
Open Scope nat_scope.

(** A value that is given, or its default *)
Definition value {A} (given : option A) (default v : A) : Prop := given = Some v \/ given = None /\ v = default.
Lemma value_or_else {A} (o : option A) d : value o d (or_else d o).
Proof. destruct o; [left|right]; auto. Qed.
Lemma value_is {A} (o : option A) d v : value o d v -> or_else d o = v.
Proof. intros [-> |[-> ->]]; reflexivity. Qed.

(** ** Messages *)
Lemma all_end {A} (work : mode -> res A) l : (forall m, In m l -> exists a, work m = Ok a) -> exists out, mapr (fun m => do a <- work m; Ok (m, a)) l = Ok out.
Proof.
  induction l as [|m l IH]; intro H; [exists []; reflexivity|]. destruct (H m (or_introl eq_refl)) as (a & E). destruct (IH (fun x J => H x (or_intror J))) as (out & F).
  exists ((m, a) :: out). cbn [mapr]. rewrite E. cbn [bind]. rewrite F. reflexivity.
Qed.
Lemma all_ended {A} (work : mode -> res A) l out : mapr (fun m => do a <- work m; Ok (m, a)) l = Ok out -> forall m, In m l -> exists a, work m = Ok a /\ In (m, a) out.
Proof.
  intros E m I. destruct (mapr_pair work l out E) as [A1 A2]. rewrite <- A1 in I. apply in_map_iff in I. destruct I as ((m' & a) & Q & J). cbn in Q. subst m'. exists a. split; [exact (A2 m a J)|exact J].
Qed.
Lemma gather_some {A} order (work : mode -> res A) modes out : Permutation modes (order modes) -> gather order work modes = Some out ->
  map fst out = order modes /\ (forall m a, In (m, a) out -> work m = Ok a) /\ (forall m, In m modes -> exists a, work m = Ok a /\ In (m, a) out).
Proof.
  intros P H. unfold gather in H. destruct (mapr _ (order modes)) as [l|e] eqn:E; [|discriminate]. injection H as <-. destruct (mapr_pair work _ _ E) as [A1 A2]. split; [exact A1|]. split; [exact A2|].
  intros m I. apply (all_ended work _ _ E). exact (Permutation_in _ P I).
Qed.
Lemma gather_all {A} order (work : mode -> res A) modes : Permutation modes (order modes) -> (forall m, In m modes -> exists a, work m = Ok a) -> exists out, gather order work modes = Some out.
Proof.
  intros P H. unfold gather. destruct (all_end work (order modes)) as (out & ->); [|eauto]. intros m I. apply H. exact (Permutation_in _ (Permutation_sym P) I).
Qed.
Lemma gather_none {A} order (work : mode -> res A) modes m e : Permutation modes (order modes) -> In m modes -> work m = Err e -> gather order work modes = None.
Proof.
  intros P I E. destruct (gather order work modes) as [out|] eqn:G; [|reflexivity]. destruct (gather_some _ _ _ _ P G) as (_ & _ & H). destruct (H m I) as (a & K & _). congruence.
Qed.
(** The dictionary of the transitions of the modes is only looked up. *)
Lemma merge_abstractions_ext {R} (sw : switched R) ms ms' modes n_env n_sys : (forall m, In m modes -> mget m ms = mget m ms') ->
  merge_abstractions sw ms modes n_env n_sys = merge_abstractions sw ms' modes n_env n_sys.
Proof.
  intro H. unfold merge_abstractions. destruct (of_opt _ (nth_error modes 0)); [|reflexivity]. cbn [bind]. destruct (of_opt _ (mget _ (sw_modes sw))); [|reflexivity]. cbn [bind].
  destruct (fold_res _ (List.seq 0 _) _) as [g1|]; [|reflexivity]. cbn [bind]. destruct (fold_res _ (enumerate _) g1) as [g2|]; [|reflexivity]. cbn [bind].
  match goal with |- bind (fold_res ?f _ _) _ = bind (fold_res ?f' _ _) _ => enough (K : forall l g, incl l modes -> fold_res f l g = fold_res f' l g) by (rewrite (K modes g2 (fun x J => J)); reflexivity) end.
  induction l as [|m l IH]; intros g I; [reflexivity|]. cbn [fold_res]. rewrite (H m (I m (or_introl eq_refl))).
  match goal with |- (do x <- ?a; _) = _ => destruct a as [g'|e]; [|reflexivity] end. cbn [bind]. apply IH. intros x J. apply I. right. exact J.
Qed.
(** The transitions in the order of the modes *)
Lemma in_mode_order (ms : list (mode * matrix)) modes : NoDup modes -> Permutation modes (map fst ms) ->
  exists ms', map fst ms' = modes /\ (forall m t, In (m, t) ms' <-> In (m, t) ms) /\ forall m, mget m ms = mget m ms'.
Proof.
  intros ND P. assert (NDm : NoDup (map fst ms)) by exact (Permutation_NoDup P ND).
  assert (K : forall l, incl l modes -> exists ms', map fst ms' = l /\ incl ms' ms).
  { induction l as [|m l IH]; intro I; [exists []; split; [reflexivity|intros x []]|]. destruct (IH (fun x J => I x (or_intror J))) as (ms' & A & B).
    assert (J := Permutation_in _ P (I m (or_introl eq_refl))). apply in_map_iff in J. destruct J as ((m' & t) & Q & J). cbn in Q. subst m'. exists ((m, t) :: ms'). cbn [map fst]. split; [congruence|].
    intros x [<- |Jx]; [exact J|exact (B x Jx)]. }
  destruct (K modes (fun x J => J)) as (ms' & A & B). exists ms'. split; [exact A|].
  assert (NDm' : NoDup (map fst ms')) by (rewrite A; exact ND).
  assert (E : forall m t, In (m, t) ms' <-> In (m, t) ms).
  { intros m t. split; [apply B|]. intro J. assert (I := J). apply (in_map fst) in I. cbn in I. apply (Permutation_in _ (Permutation_sym P)) in I. rewrite <- A in I.
    apply in_map_iff in I. destruct I as ((m' & t') & Q & I). cbn in Q. subst m'. assert (J' := B _ I). apply (mget_In _ _ _ NDm) in J, J'. assert (t = t') by congruence. subst t'. exact I. }
  split; [exact E|]. intro m. destruct (mget m ms) as [t|] eqn:G.
  - symmetry. apply (mget_In _ _ _ NDm'), E, (mget_In _ _ _ NDm), G.
  - destruct (mget m ms') as [t|] eqn:G'; [|reflexivity]. exfalso. apply (mget_In _ _ _ NDm'), E, (mget_In _ _ _ NDm) in G'. congruence.
Qed.

Lemma parameters_given {A} (d : list (mode * A)) modes : (forall m, In m modes -> exists p, mget m d = Some p) -> exists ps, mapr (fun m => of_opt "KeyError" (mget m d)) modes = Ok ps.
Proof.
  induction modes as [|m l IH]; intro H; [exists []; reflexivity|]. destruct (H m (or_introl eq_refl)) as (p & E). destruct (IH (fun x J => H x (or_intror J))) as (ps & F).
  exists (p :: ps). cbn [mapr]. rewrite E. cbn [of_opt bind]. rewrite F. reflexivity.
Qed.
Lemma parameters_each {A} (d : list (mode * A)) modes ps : mapr (fun m => of_opt "KeyError" (mget m d)) modes = Ok ps -> forall m, In m modes -> exists p, mget m d = Some p.
Proof.
  revert ps. induction modes as [|m l IH]; intros ps H m1 I; [destruct I|]. cbn [mapr] in H. destruct (mget m d) as [p|] eqn:E; [|discriminate]. cbn [of_opt bind] in H.
  destruct (mapr _ l) as [ps'|] eqn:F in H; [|discriminate]. destruct I as [<- |I]; [eauto|]. exact (IH ps' F m1 I).
Qed.

Section Parallel.
Context {R X : Type} (inter : R -> R -> R) (fulldim : R -> bool) (le : R -> R -> bool).
Context (pts : R -> X -> bool) (null : (X -> Prop) -> Prop).
Context (touch : @region R -> @region R -> bool) (radius : R -> Qc) (same_matrices : R -> R -> bool) (in_order : list mode -> list mode).
Context (solve : bool -> nat -> mode -> option nat -> R -> R -> R -> res R).
Context (disc : mode -> keywords -> res (abstraction R)) (first second : list mode -> list mode).
Notation parallel := (multiproc_discretize_switched inter le touch radius same_matrices in_order solve disc).

(** ** Without all parameters *)
Theorem parallel_missing modes n_env n_sys d m : In m modes -> mget m d = None -> parallel first second modes n_env n_sys (Some d) = Ends (Err "KeyError").
Proof.
  intros I E. unfold multiproc_discretize_switched. enough (K : mapr (fun m => of_opt "KeyError" (mget m d)) modes = Err "KeyError") by (rewrite K; reflexivity).
  induction modes as [|m1 l IH]; [destruct I|]. cbn [mapr]. destruct (mget m1 d) as [p|] eqn:E1; [|reflexivity]. cbn [of_opt bind]. destruct I as [-> |I]; [congruence|]. rewrite (IH I). reflexivity.
Qed.
Theorem parallel_no_parameters modes n_env n_sys : parallel first second modes n_env n_sys None = Ends (Err "TypeError").
Proof. reflexivity. Qed.

(** ** One worker fails *)
(** A result is returned only if all the parameters of all modes are known to [get_transitions]. *)
Theorem parallel_other_parameters modes n_env n_sys d m p r : Permutation modes (first modes) -> Permutation modes (second modes) -> In m modes -> mget m d = Some p -> kw_others p <> [] ->
  parallel first second modes n_env n_sys (Some d) <> Ends (Ok r).
Proof.
  intros P1 P2 I E O H. unfold multiproc_discretize_switched in H. destruct (mapr _ modes); [|discriminate]. destruct (gather first _ modes) as [abs|]; [|discriminate].
  destruct (merge_partitions _ _ _ _ _ _ abs) as [[sw|]|]; [|discriminate|discriminate]. rewrite (gather_none second _ modes m "TypeError" P2 I) in H; [discriminate|].
  rewrite E. cbn [of_opt bind]. unfold worker_transitions. destruct (kw_others p); [congruence|reflexivity].
Qed.
(** If [discretize] raises in a worker then the program waits for ever. *)
Theorem parallel_waits modes n_env n_sys d m p e : Permutation modes (first modes) -> (forall m', In m' modes -> exists p', mget m' d = Some p') ->
  In m modes -> mget m d = Some p -> disc m p = Err e -> parallel first second modes n_env n_sys (Some d) = Waits.
Proof.
  intros P1 G I E D. unfold multiproc_discretize_switched. destruct (parameters_given d modes G) as (ps & ->).
  rewrite (gather_none first _ modes m e P1 I); [reflexivity|]. rewrite E. exact D.
Qed.

(** ** The same as one process *)
(** The parameters for [discretize_switched] *)
Definition one_process (d : list (mode * keywords)) : list (mode * dparams) := map (fun p => (fst p, DParams (kw_N (snd p)) (kw_len (snd p)))) d.
Definition one_disc (d : list (mode * keywords)) (m : mode) (_ : dparams) : res (abstraction R) := do p <- of_opt "KeyError" (mget m d); disc m p.
Notation sequential d := (discretize_switched inter le touch radius same_matrices in_order (solve true) (one_disc d)).
Lemma one_get d m : mget m (one_process d) = option_map (fun p => DParams (kw_N p) (kw_len p)) (mget m d).
Proof. unfold one_process. apply (mget_map (fun p => DParams (kw_N p) (kw_len p)) m d). Qed.
(** Both [N] and [trans_length] are given for each mode, no other argument but [closed_loop=True]. *)
Definition only_known (d : list (mode * keywords)) (modes : list mode) : Prop :=
  forall m, In m modes -> exists N len lp, mget m d = Some (Keywords (Some N) (Some len) lp []) /\ lp <> Some false.
Lemma mapr_same {A B} (f g : A -> res B) l : (forall x, In x l -> f x = g x) -> mapr f l = mapr g l.
Proof. induction l as [|x l IH]; intro H; [reflexivity|]. cbn [mapr]. rewrite (H x (or_introl eq_refl)), (IH (fun y J => H y (or_intror J))). reflexivity. Qed.
Theorem parallel_in_order modes n_env n_sys d r : NoDup modes -> first modes = modes -> Permutation modes (second modes) -> only_known d modes ->
  parallel first second modes n_env n_sys (Some d) = Ends (Ok r) <-> sequential d modes n_env n_sys (Some (one_process d)) = Ok r.
Proof.
  intros ND F P K. unfold multiproc_discretize_switched, discretize_switched.
  destruct (parameters_given d modes) as (ps & ->); [intros m I; destruct (K m I) as (N & len & lp & E & _); eauto|].
  unfold gather at 1. rewrite F.
  rewrite (mapr_same (fun m => do p <- of_opt "KeyError" (mget m (one_process d)); do ab <- one_disc d m p; Ok (m, ab)) (fun m => do a <- (do p <- of_opt "KeyError" (mget m d); disc m p); Ok (m, a))).
  2: { intros m I. destruct (K m I) as (N & len & lp & E & _). rewrite one_get. unfold one_disc. rewrite E. reflexivity. }
  destruct (mapr _ modes) as [abs|e]; [|split; discriminate]. cbn [bind].
  destruct (merge_partitions _ _ _ _ _ _ abs) as [[sw|]|e]; cbn [bind of_opt]; [|split; discriminate|split; discriminate].
  set (work := fun m : mode => do p <- of_opt "KeyError" (mget m d); worker_transitions le solve sw m p).
  rewrite (mapr_same _ (fun m => do a <- work m; Ok (m, a)) modes).
  2: { intros m I. destruct (K m I) as (N & len & lp & E & NF). rewrite one_get. unfold work. rewrite E. cbn [option_map of_opt bind dp_N dp_len kw_N kw_len]. unfold worker_transitions. cbn [kw_others kw_loop kw_N kw_len or_else].
       replace (or_else true lp) with true by (destruct lp as [[|]|]; cbn; congruence). reflexivity. }
  destruct (gather second work modes) as [trans|] eqn:G.
  - destruct (gather_some second work modes trans P G) as (T1 & T2 & T3).
    destruct (all_end work modes) as (trans' & TE); [intros m I; destruct (T3 m I) as (a & A & _); eauto|]. rewrite TE. cbn [bind].
    destruct (mapr_pair work modes trans' TE) as [U1 U2].
    rewrite (merge_abstractions_ext sw trans trans' modes n_env n_sys); [split; [intros [= H]; exact H|intros ->; reflexivity]|].
    intros m I. destruct (T3 m I) as (a & A & J). destruct (all_ended work modes trans' TE m I) as (a' & A' & J'). assert (a = a') by congruence. subst a'.
    rewrite (proj2 (mget_In m trans a ltac:(rewrite T1; exact (Permutation_NoDup P ND))) J), (proj2 (mget_In m trans' a ltac:(rewrite U1; exact ND)) J'). reflexivity.
  - split; [discriminate|]. intro H. exfalso. destruct (mapr _ modes) as [trans|e] eqn:TE in H; [|discriminate].
    destruct (gather_all second work modes P) as (out & G'); [|congruence]. intros m I. destruct (all_ended work modes trans TE m I) as (a & A & _). eauto.
Qed.

(** ** Any order of the messages *)
Hypothesis null_sub : forall A B : X -> Prop, null B -> (forall x, A x -> B x) -> null A.
Hypothesis pts_inter : forall a b x, pts (inter a b) x = pts a x && pts b x.
Hypothesis full : forall r, fulldim r = false <-> null (fun x => pts r x = true).
Hypothesis le_ok : forall a b, le a b = true <-> (forall x, pts a x = true -> pts b x = true).
Notation inside := (inside pts).
Hypothesis touch_sym : forall r s, touch r s = touch s r.
Hypothesis touch_mono : forall r r' s, (forall x, inside (fst r') x -> inside (fst r) x) -> touch r' s = true -> touch r s = true.
Hypothesis radius_mono : forall a b, (forall x, inside a x -> inside b x) -> (radius a <= radius b)%Qc.
Hypothesis radius_null : forall r, null (inside r) -> (radius r < thickness)%Qc.
Hypothesis same_matrices_refl : forall d, same_matrices d d = true.
Hypothesis in_order_ok : forall l, Permutation l (in_order l).
Variables (dom : R) (props : list (string * R)).
Hypothesis props_nodup : NoDup (map fst props).
Context (reach : bool -> nat -> mode -> option nat -> (X -> Prop) -> (X -> Prop) -> X -> Prop).
Hypothesis solve_sound : forall b N m s a c t S0 x, solve b N m s a c t = Ok S0 -> inside a x -> inside S0 x -> reach b N m s (inside t) (inside c) x.
Notation ok := (mode_ok fulldim pts null touch dom props).
Notation merged_from := (is_merged fulldim pts null touch radius dom props).
(** The transitions of a mode, with the arguments given for it or 10, 1 and [True] *)
Definition worker_trans (d : list (mode * keywords)) (abs : list (mode * abstraction R)) (sw : switched R) (m : mode) (t : matrix) : Prop :=
  exists p N len b, mget m d = Some p /\ kw_others p = [] /\ value (kw_N p) 10 N /\ value (kw_len p) 1 len /\ value (kw_loop p) true b /\
  (forall i j, t i j = true -> near_enough sw len i j /\ mode_goes pts (reach b) abs sw N m i j) /\
  (forall i j, i < List.length (p_regions (sw_ppp sw)) -> j < List.length (p_regions (sw_ppp sw)) -> near_enough sw len i j -> t i j = true \/ mode_refused pts (solve b) abs sw N m i j).
Theorem parallel_sound modes n_env n_sys d sw ts : NoDup modes -> 0 < n_env -> 0 < n_sys -> Permutation modes (first modes) -> Permutation modes (second modes) ->
  (forall m p ab, In m modes -> mget m d = Some p -> disc m p = Ok ab -> ok ab) ->
  parallel first second modes n_env n_sys (Some d) = Ends (Ok (sw, ts)) ->
  exists abs ms, map fst abs = first modes /\ map fst ms = modes /\ (forall m ab, In (m, ab) abs -> exists p, mget m d = Some p /\ disc m p = Ok ab) /\
    merged_from abs sw /\ common_ts props (p_regions (sw_ppp sw)) ms ts /\ forall m t, In (m, t) ms -> worker_trans d abs sw m t.
Proof.
  intros ND PE PS P1 P2 DO H. unfold multiproc_discretize_switched in H. destruct (mapr _ modes) as [ps|] eqn:EP in H; [|discriminate].
  destruct (gather first _ modes) as [abs|] eqn:G1 in H; [|discriminate]. destruct (gather_some _ _ _ _ P1 G1) as (A1 & A2 & _).
  assert (A3 : forall m ab, In (m, ab) abs -> exists p, mget m d = Some p /\ disc m p = Ok ab).
  { intros m ab I. assert (K := A2 m ab I). cbn beta in K. destruct (mget m d) as [p|]; [|discriminate]. exists p. auto. }
  assert (PA : Permutation modes (map fst abs)) by (rewrite A1; exact P1).
  assert (ANd : NoDup (map fst abs)) by exact (Permutation_NoDup PA ND).
  assert (AO : forall m ab, In (m, ab) abs -> ok ab).
  { intros m ab I. destruct (A3 m ab I) as (p & E & D). apply (DO m p ab); [|exact E|exact D]. apply (Permutation_in _ (Permutation_sym PA)). apply (in_map fst) in I. exact I. }
  assert (NN : abs <> []) by (intros ->; cbn in H; discriminate).
  destruct (merge_partitions_ok inter fulldim le pts null null_sub pts_inter full le_ok touch radius same_matrices in_order touch_sym touch_mono radius_mono radius_null same_matrices_refl in_order_ok dom props props_nodup abs AO ANd NN) as (sw' & MP & MM).
  rewrite MP in H. destruct (gather second _ modes) as [trans|] eqn:G2 in H; [|discriminate]. destruct (gather_some _ _ _ _ P2 G2) as (T1 & T2 & _).
  destruct (in_mode_order trans modes ND) as (ms & M1 & M2 & M3); [rewrite T1; exact P2|].
  rewrite (merge_abstractions_ext sw' trans ms modes n_env n_sys (fun m _ => M3 m)) in H.
  assert (C := merge_abstractions_cases fulldim pts null touch radius dom props abs AO ANd sw' ms modes n_env n_sys MM NN PA M1 PE PS).
  destruct (merge_abstractions sw' ms modes n_env n_sys) as [ts'|e]; [|discriminate]. cbn [bind] in H. injection H as <- <-.
  exists abs, ms. split; [exact A1|]. split; [exact M1|]. split; [exact A3|]. split; [exact MM|]. split; [apply C|].
  intros m t I. assert (IM : In m (map fst abs)) by (apply (Permutation_in _ PA); rewrite <- M1; apply (in_map fst) in I; exact I).
  apply in_map_iff in IM. destruct IM as ((m' & ab) & Q & IM). cbn in Q. subst m'.
  apply M2 in I. assert (W := T2 m t I). cbn beta in W. destruct (mget m d) as [p|] eqn:E; [|discriminate]. cbn [of_opt bind] in W. unfold worker_transitions in W. destruct (kw_others p) as [|o os] eqn:O; [|discriminate].
  exists p, (or_else 10 (kw_N p)), (or_else 1 (kw_len p)), (or_else true (kw_loop p)). split; [exact E|]. split; [exact O|]. do 3 (split; [apply value_or_else|]).
  exact (get_transitions_sound fulldim le pts null le_ok touch radius dom props (solve _) (reach _) (solve_sound _) abs AO ANd sw' m ab _ _ t MM IM W).
Qed.

(** With names for the modes and with one common part that is not thin, the program ends, and does so
    with a result, if and only if no other argument is given for a mode. *)
Theorem parallel_returns modes n_env n_sys d r : NoDup modes -> modes <> [] -> 0 < n_env -> 0 < n_sys -> Permutation modes (first modes) -> Permutation modes (second modes) -> named_modes modes ->
  (forall b N m s a c t, exists S0, solve b N m s a c t = Ok S0) -> (thickness <= radius r)%Qc ->
  (forall m, In m modes -> exists p ab cell, mget m d = Some p /\ disc m p = Ok ab /\ ok ab /\ In cell (p_regions (ab_ppp ab)) /\ forall x, inside r x -> inside (fst cell) x) ->
  ((forall m p, In m modes -> mget m d = Some p -> kw_others p = []) -> exists sw ts, parallel first second modes n_env n_sys (Some d) = Ends (Ok (sw, ts))) /\
  ((exists m p, In m modes /\ mget m d = Some p /\ kw_others p <> []) -> parallel first second modes n_env n_sys (Some d) = Waits).
Proof.
  intros ND NE PE PS P1 P2 NM TOT TH G. unfold multiproc_discretize_switched.
  destruct (parameters_given d modes) as (ps & ->); [intros m I; destruct (G m I) as (p & _ & _ & E & _); eauto|].
  destruct (gather_all first (fun m => do p <- of_opt "KeyError" (mget m d); disc m p) modes P1) as (abs & G1).
  { intros m I. destruct (G m I) as (p & ab & _ & E & D & _). exists ab. rewrite E. exact D. }
  rewrite G1. destruct (gather_some _ _ _ _ P1 G1) as (A1 & A2 & _).
  assert (PA : Permutation modes (map fst abs)) by (rewrite A1; exact P1).
  assert (ANd : NoDup (map fst abs)) by exact (Permutation_NoDup PA ND).
  assert (A3 : forall m ab, In (m, ab) abs -> ok ab /\ exists k cell, nth_error (p_regions (ab_ppp ab)) k = Some cell /\ forall x, inside r x -> inside (fst cell) x).
  { intros m ab I. assert (K := A2 m ab I). cbn beta in K. assert (IM : In m modes) by (apply (Permutation_in _ (Permutation_sym PA)); apply (in_map fst) in I; exact I).
    destruct (G m IM) as (p & ab' & cell & E & D & O & IC & S). rewrite E in K. cbn [of_opt bind] in K. assert (ab' = ab) by congruence. subst ab'. split; [exact O|]. apply In_nth_error in IC. destruct IC as (k & C). eauto. }
  assert (AO : forall m ab, In (m, ab) abs -> ok ab) by (intros m ab I; apply (A3 m ab I)).
  assert (NN : abs <> []) by (intros ->; cbn in PA; apply Permutation_sym, Permutation_nil in PA; congruence).
  destruct (merge_partitions_ok inter fulldim le pts null null_sub pts_inter full le_ok touch radius same_matrices in_order touch_sym touch_mono radius_mono radius_null same_matrices_refl in_order_ok dom props props_nodup abs AO ANd NN) as (sw & -> & MM).
  assert (RN : p_regions (sw_ppp sw) <> []).
  { destruct (pick_cells (fun m ab k => exists cell, nth_error (p_regions (ab_ppp ab)) k = Some cell /\ forall x, inside r x -> inside (fst cell) x) abs ANd) as (g & Hg).
    { intros m ab I. destruct (A3 m ab I) as (_ & k & cell & K). exists k, cell. exact K. }
    destruct (mg_thick _ _ _ _ _ _ _ _ _ (ms_regions _ _ _ _ _ _ _ _ _ MM) g r TH Hg) as (k & c & C & _). intro Q. rewrite Q in C. destruct k; discriminate. }
  split.
  - intro O. destruct (gather_all second (fun m => do p <- of_opt "KeyError" (mget m d); worker_transitions le solve sw m p) modes P2) as (trans & G2).
    { intros m I. destruct (G m I) as (p & _ & _ & E & _). rewrite E. cbn [of_opt bind]. unfold worker_transitions. rewrite (O m p I E).
      assert (IM := Permutation_in _ PA I). apply in_map_iff in IM. destruct IM as ((m' & ab) & Q & IM). cbn in Q. subst m'.
      apply (get_transitions_returns fulldim le pts null touch radius dom props (solve _) abs AO ANd sw m ab _ _ MM IM (TOT _ _ m) RN). }
    rewrite G2. destruct (gather_some _ _ _ _ P2 G2) as (T1 & _ & _). destruct (in_mode_order trans modes ND) as (ms & M1 & M2 & M3); [rewrite T1; exact P2|].
    rewrite (merge_abstractions_ext sw trans ms modes n_env n_sys (fun m _ => M3 m)).
    assert (C := merge_abstractions_cases fulldim pts null touch radius dom props abs AO ANd sw ms modes n_env n_sys MM NN PA M1 PE PS).
    destruct (merge_abstractions sw ms modes n_env n_sys) as [ts|e]; [|destruct (C NM)]. exists sw, ts. reflexivity.
  - intros (m & p & I & E & O). rewrite (gather_none second _ modes m "TypeError" P2 I); [reflexivity|]. rewrite E. cbn [of_opt bind]. unfold worker_transitions. destruct (kw_others p); [congruence|reflexivity].
Qed.
End Parallel.
Print Assumptions parallel_missing.
Print Assumptions parallel_no_parameters.
Print Assumptions parallel_other_parameters.
Print Assumptions parallel_waits.
Print Assumptions parallel_in_order.
Print Assumptions parallel_sound.
Print Assumptions parallel_returns.

(** ** A case *)
(** The two modes of T_Switched; open loop finds nothing to start from. *)
Definition loop_solve (b : bool) (N : nat) (m : mode) (s : option nat) (a c t : pt_R) : res pt_R := if b then sw_solve N m s a c t else Ok [].
Definition kw_disc (m : mode) (p : keywords) : res (abstraction pt_R) := pt_disc false pt_part m (DParams (kw_N p) (kw_len p)).
Notation pt_parallel first second := (multiproc_discretize_switched pt_inter pt_le pt_touch pt_radius pt_same (fun l => l) loop_solve kw_disc first second [up; down] 1 2).
Notation pt_one d := (discretize_switched pt_inter pt_le pt_touch pt_radius pt_same (fun l => l) (loop_solve true) (one_disc kw_disc d) [up; down] 1 2 (Some (one_process d))).
Definition same_for_both (p : keywords) : list (mode * keywords) := [(up, p); (down, p)].
Definition kw_two : list (mode * keywords) := same_for_both (Keywords (Some 2) (Some 1) None []).
Definition summary (o : outcome (switched pt_R * fts)) : option (list (@region pt_R) * nat) :=
  match o with Ends (Ok (sw, ts)) => Some (p_regions (sw_ppp sw), List.length (g_edges (f_graph ts))) | _ => None end.
Lemma pt_modes_nodup : NoDup [up; down].
Proof. repeat constructor; [intros [Q|[]]; discriminate|intros []]. Qed.
Lemma loop_solve_sound b N m s a c t S0 x : loop_solve b N m s a c t = Ok S0 -> inside pt_pts a x -> inside pt_pts S0 x -> (if b then sw_reach N m s (inside pt_pts t) (inside pt_pts c) x else False).
Proof.
  destruct b; cbn [loop_solve].
  - exact (pt_solve_sound (pt_of m) s a c (Some t) S0 x).
  - intros [= <-] _ J. unfold inside in J. apply pt_pts_In in J. destruct J.
Qed.
Definition pt_parallel_sound := fun first second => parallel_sound pt_inter pt_fulldim pt_le pt_pts pt_null pt_touch pt_radius pt_same (fun l => l) loop_solve kw_disc first second
  pt_null_sub pt_pts_inter pt_full pt_le_ok pt_touch_sym pt_touch_mono pt_radius_mono pt_radius_null pt_same_refl (fun l => Permutation_refl l) [0; 2; 4; 6; 8] [("a", [6; 8])] ltac:(repeat constructor; intros [])
  (fun b N m s P Q x => if b then sw_reach N m s P Q x else False) loop_solve_sound.
(** The mode that is second ends first. *)
Example parallel_case : exists sw ts, pt_parallel (@rev mode) (@rev mode) (Some kw_two) = Ends (Ok (sw, ts)) /\
  (exists abs ms, map fst abs = [down; up] /\ is_merged pt_fulldim pt_pts pt_null pt_touch pt_radius [0; 2; 4; 6; 8] [("a", [6; 8])] abs sw /\ common_ts [("a", [6; 8])] (p_regions (sw_ppp sw)) ms ts) /\
  p_regions (sw_ppp sw) = [([0], []); ([4], []); ([2], []); ([8], ["a"]); ([6], ["a"])] /\ List.length (g_edges (f_graph ts)) = 10.
Proof.
  destruct (pt_parallel (@rev mode) (@rev mode) (Some kw_two)) as [[[sw ts]|e]|] eqn:E; [|vm_compute in E; discriminate|vm_compute in E; discriminate].
  exists sw, ts. split; [reflexivity|]. split.
  - destruct (pt_parallel_sound (@rev mode) (@rev mode) [up; down] 1 2 kw_two sw ts) as (abs & ms & A1 & _ & _ & A4 & A5 & _); [exact pt_modes_nodup|lia|lia|apply Permutation_rev|apply Permutation_rev| |exact E|].
    + intros m p ab _ _. apply pt_disc_ok.
    + exists abs, ms. auto.
  - vm_compute in E. injection E as <- <-. vm_compute. auto.
Qed.
Example in_order_case : only_known kw_two [up; down] /\ exists r, pt_one kw_two = Ok r /\ pt_parallel (fun l => l) (@rev mode) (Some kw_two) = Ends (Ok r).
Proof.
  assert (K : only_known kw_two [up; down]) by (intros m [<- | [<- | []]]; exists 2, 1, None; (split; [reflexivity|discriminate])). split; [exact K|].
  destruct (pt_one kw_two) as [r|e] eqn:E; [|vm_compute in E; discriminate]. exists r. split; [reflexivity|].
  apply (parallel_in_order pt_inter pt_le pt_touch pt_radius pt_same (fun l => l) loop_solve kw_disc (fun l => l) (@rev mode) [up; down] 1 2 kw_two r pt_modes_nodup eq_refl (Permutation_rev _) K), E.
Qed.

(** ** Refuted *)
(** The result depends on which worker ends first. *)
Theorem parallel_deterministic_refuted : exists f1 f2 : list mode -> list mode, (forall l, Permutation l (f1 l)) /\ (forall l, Permutation l (f2 l)) /\
  summary (pt_parallel f1 f1 (Some kw_two)) = Some ([([0], []); ([8], ["a"]); ([6], ["a"]); ([4], []); ([2], [])], 10) /\
  summary (pt_parallel f2 f1 (Some kw_two)) = Some ([([0], []); ([4], []); ([2], []); ([8], ["a"]); ([6], ["a"])], 10).
Proof. exists (fun l => l), (@rev mode). split; [intro l; apply Permutation_refl|]. split; [intro l; apply Permutation_rev|]. split; vm_compute; reflexivity. Qed.
(** With a parameter that [discretize] takes and [get_transitions] does not, one process returns an
    abstraction, and several wait for ever. *)
Theorem parallel_other_refuted : let d := same_for_both (Keywords (Some 2) (Some 1) None ["min_cell_volume"]) in
  (exists r, pt_one d = Ok r) /\ forall f1 f2, (forall l, Permutation l (f1 l)) -> (forall l, Permutation l (f2 l)) -> pt_parallel f1 f2 (Some d) = Waits.
Proof.
  intro d. split; [destruct (pt_one d) as [r|e] eqn:E; [eauto|vm_compute in E; discriminate]|]. intros f1 f2 P1 P2.
  assert (CELLS : forall m : mode, In m [up; down] -> exists ab, kw_disc m (Keywords (Some 2) (Some 1) None ["min_cell_volume"]) = Ok ab /\ exists cell, In cell (p_regions (ab_ppp ab)) /\ In 0 (fst cell)).
  { intros m [<- | [<- | []]]; (match goal with |- exists ab, ?t = _ /\ _ => destruct t as [ab|e] eqn:E; [|vm_compute in E; discriminate] end); exists ab; (split; [reflexivity|]);
      vm_compute in E; injection E as <-; (eexists; split; [left; reflexivity|cbn; auto]). }
  apply (parallel_returns pt_inter pt_fulldim pt_le pt_pts pt_null pt_touch pt_radius pt_same (fun l => l) loop_solve kw_disc f1 f2
    pt_null_sub pt_pts_inter pt_full pt_le_ok pt_touch_sym pt_touch_mono pt_radius_mono pt_radius_null pt_same_refl (fun l => Permutation_refl l) [0; 2; 4; 6; 8] [("a", [6; 8])] ltac:(repeat constructor; intros [])
    (* the set of one point *) [up; down] 1 2 d [0]).
  - exact pt_modes_nodup.
  - discriminate.
  - lia.
  - lia.
  - apply P1.
  - apply P2.
  - intros m [<- | [<- | []]]; [exists "e", "up"|exists "e", "down"]; reflexivity.
  - intros b N m s a c t. destruct b; [|exists []; reflexivity]. unfold loop_solve, sw_solve, pt_solve. eexists. reflexivity.
  - vm_compute. discriminate.
  - intros m I. destruct (CELLS m I) as (ab & D & cell & C1 & C2). exists (Keywords (Some 2) (Some 1) None ["min_cell_volume"]), ab, cell. split; [destruct I as [<- | [<- | []]]; reflexivity|]. split; [exact D|].
    split; [exact (pt_disc_ok m _ ab D)|]. split; [exact C1|]. intros x J. apply pt_pts_In in J. destruct J as [<- |[]]. apply pt_pts_In, C2.
  - exists up, (Keywords (Some 2) (Some 1) None ["min_cell_volume"]). split; [left; reflexivity|]. split; [reflexivity|discriminate].
Qed.
(** Without [N] and [trans_length] one process raises an exception, and several return an abstraction. *)
Theorem parallel_defaults_refuted : let d := same_for_both (Keywords None None None []) in
  pt_one d = Err "KeyError" /\ exists r, pt_parallel (fun l => l) (fun l => l) (Some d) = Ends (Ok r).
Proof. intro d. split; [vm_compute; reflexivity|]. destruct (pt_parallel _ _ (Some d)) as [[r|e]|] eqn:E; [eauto|vm_compute in E; discriminate|vm_compute in E; discriminate]. Qed.
(** With [closed_loop=False] one process takes the transitions of closed loop, several those of open loop. *)
Theorem parallel_loop_refuted : let d := same_for_both (Keywords (Some 2) (Some 1) (Some false) []) in
  match pt_one d with Ok (sw, ts) => List.length (g_edges (f_graph ts)) = 10 | Err _ => False end /\
  exists regs, summary (pt_parallel (fun l => l) (fun l => l) (Some d)) = Some (regs, 0).
Proof. intro d. split; [vm_compute; reflexivity|]. eexists. vm_compute. reflexivity. Qed.
Print Assumptions parallel_deterministic_refuted.
Print Assumptions parallel_other_refuted.
Print Assumptions parallel_defaults_refuted.
Print Assumptions parallel_loop_refuted.
