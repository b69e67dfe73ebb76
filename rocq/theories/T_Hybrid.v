(** Constructors of dynamical systems (tulip/hybrid.py). *)
From Coq Require Import List String Bool Arith ZArith Lia QArith Qcanon.
From Verif Require Import M_Tree M_Base M_Dict M_Graph M_Machine M_Fts M_Discretize M_Switched M_Hybrid.
Import ListNotations.
Open Scope string_scope.
Open Scope list_scope.
Open Scope nat_scope.

(** ** Specification *)
(** A duration that is positive, as far as the comparison with 0 tells *)
Definition duration (t : tstep) : Prop :=
  match t with TInt z => (0 < z)%Z | TFloat (Fin v) => (0 < v)%Qc | TFloat PInf | TFloat NaN => True | _ => False end.
Definition time_ok (sem : option string) (step : tstep) : Prop :=
  (sem = None \/ sem = Some "sampled" \/ sem = Some "discrete") /\ (step = TNone \/ (sem <> Some "discrete" /\ duration step)).
(** Equal numbers, or both not given *)
Definition same_number (a b : tstep) : Prop :=
  match a, b with
  | TNone, TNone => True
  | TInt x, TInt y => x = y
  | TInt x, TFloat (Fin v) | TFloat (Fin v), TInt x => v = Q2Qc (inject_Z x)
  | TFloat (Fin v), TFloat (Fin w) => v = w
  | TFloat PInf, TFloat PInf | TFloat NInf, TFloat NInf => True
  | _, _ => False
  end.
Definition agree (a b : option string * tstep) : Prop := a = b \/ (fst a = fst b /\ same_number (snd a) (snd b)).

Section Spec.
Context {D X : Type}.
Variable dim : D -> nat.
Variable pts : D -> X -> Prop.
Variable null : (X -> Prop) -> Prop.
Variable nothing : D.
Definition set_of_dim (P : nat -> Prop) (s : sval D) : Prop :=
  match s with SNone => True | SPol d | SReg d => P (dim d) | SOther => False end.
Definition polytope_or_none (s : sval D) : Prop := match s with SNone | SPol _ => True | _ => False end.
(** Arguments that fit together: [n] states *)
Definition args_ok (n : nat) (A B E K : aval) (Uset Wset domain : sval D) : Prop :=
  (exists a, A = AArr [n; n] a) /\ polytope_or_none Uset /\ set_of_dim (eq n) domain /\
  (B = ANone \/ exists m b, B = AArr [n; m] b /\ set_of_dim (fun k => k = m \/ k = m + n) Uset) /\
  (E = ANone \/ exists p e, E = AArr [n; p] e /\ set_of_dim (eq p) Wset) /\
  (K = ANone \/ exists k, K = AArr [n; 1] k).
(** A matrix with [n] rows that was not given is a column of zeros. *)
Definition filled (n : nat) (a a' : aval) : Prop :=
  match a with ANone => (n = 0 -> a' = ANone) /\ (n <> 0 -> a' = AArr [n; 1] (fun _ _ => 0%Qc)) | _ => a' = a end.
(** The object for the arguments *)
Definition lti_for (n : nat) (A B E K : aval) (Uset Wset domain : sval D) (sem : option string) (step : tstep) (l : lti) : Prop :=
  l_A l = A /\ l_B l = B /\ filled n E (l_E l) /\ filled n K (l_K l) /\ l_Uset l = Uset /\ l_domain l = domain /\ l_sem l = sem /\ l_step l = step /\
  l_Wset l = (match E with ANone => if n =? 0 then Wset else SPol nothing | _ => Wset end).
(** A system of equations [A x + B u + E d + K] with matrices and sets of fitting sizes *)
Definition well_shaped (l : @lti D) : Prop :=
  exists n, (exists a, l_A l = AArr [n; n] a) /\ set_of_dim (eq n) (l_domain l) /\
    (l_B l = ANone \/ exists m b, l_B l = AArr [n; m] b /\ polytope_or_none (l_Uset l) /\ set_of_dim (fun k => k = m \/ k = m + n) (l_Uset l)) /\
    ((exists p e, l_E l = AArr [n; p] e /\ ((forall i j, e i j = 0%Qc) \/ set_of_dim (eq p) (l_Wset l))) \/ (n = 0 /\ l_E l = ANone)) /\
    ((exists k, l_K l = AArr [n; 1] k) \/ (n = 0 /\ l_K l = ANone)).
Definition has_set (s : sval D) (d : D) : Prop := s = SPol d \/ s = SReg d.
Definition sizes (l : @lti D) (n m p : nat) : Prop :=
  (exists r a, l_A l = AArr [r; n] a) /\ (exists r b, l_B l = AArr [r; m] b) /\ (exists r e, l_E l = AArr [r; p] e).
(** The domains of the systems divide the set up to null sets, and all have the same sizes. *)
Definition pieces (ls : list (@lti D)) (d : D) : Prop :=
  exists ds n m p, Forall2 (fun l e => has_set (l_domain l) e /\ sizes l n m p) ls ds /\
    null (fun x => pts d x /\ forall e, In e ds -> ~ pts e x) /\ ForallOrdPairs (fun e f => null (fun x => pts e x /\ pts f x)) ds.
Definition lti_at (h : @heap D) (r : nat) (l : lti) : Prop := nth_error h r = Some (HLti l).
Definition pwa_sound (h : @heap D) (p : pwa) : Prop :=
  (p_subs p = [] \/ exists d ls, has_set (p_domain p) d /\ Forall2 (lti_at h) (p_subs p) ls /\ pieces ls d).
Definition sound (h : @heap D) : Prop := forall r o, nth_error h r = Some o ->
  match o with
  | HLti l => well_shaped l /\ time_ok (l_sem l) (l_step l)
  | HPwa p => pwa_sound h p /\ time_ok (p_sem p) (p_step p)
  | HSw w => (forall mk, In mk (w_dyn w) -> exists p, nth_error h (snd mk) = Some (HPwa p)) /\ time_ok (w_sem w) (w_step w)
  end.
(** *** Time data *)
Definition time_at (h : @heap D) (r : nat) (t : option string * tstep) : Prop :=
  exists o, nth_error h r = Some o /\ t = match o with HLti l => (l_sem l, l_step l) | HPwa p => (p_sem p, p_step p) | HSw w => (w_sem w, w_step w) end.
Definition component (h : @heap D) (r s : nat) : Prop :=
  (exists p, nth_error h r = Some (HPwa p) /\ In s (p_subs p)) \/ exists w, nth_error h r = Some (HSw w) /\ In s (map snd (w_dyn w)).
Definition consistent (h : @heap D) : Prop := forall r s t, component h r s -> time_at h r t -> exists t', time_at h s t' /\ agree t' t.
(** No object is part of two others. *)
Definition unshared (h : @heap D) : Prop := forall r r' s, component h r s -> component h r' s -> r = r'.
End Spec.

Lemma duration_spec step : step <> TNone ->
  ((do b <- not_positive step; if b then Err "ValueError" else match step with TOther _ => Err "TypeError" | _ => Ok tt end) = Ok tt <-> duration step).
Proof.
  intro NE. destruct step as [|z|[v| | |]|[[|]|]]; cbn; try (split; [discriminate|intros []]); try (split; reflexivity || (intros _; exact I)); try congruence.
  - destruct (z <=? 0)%Z eqn:Z; [apply Z.leb_le in Z|apply Z.leb_gt in Z]; split; intro H; try discriminate; try reflexivity; lia.
  - destruct (Qclt_le_dec 0 v) as [L|L]; split; intro H; try discriminate; try reflexivity; try exact L. destruct (Qcle_not_lt _ _ L H).
Qed.
Lemma check_time_spec sem step : check_time_data sem step = Ok tt <-> time_ok sem step.
Proof.
  unfold check_time_data, time_ok. destruct sem as [s|].
  - destruct (mem s ["sampled"; "discrete"]) eqn:M; cbn [negb].
    + apply mem_In in M. destruct M as [<-|[<-|[]]].
      * assert (Q : step = TNone \/ step <> TNone) by (destruct step; [left|right..]; congruence). destruct Q as [->|NE]; [split; auto|].
        rewrite <- (duration_spec step NE). split.
        -- intro H. split; [auto|]. right. split; [discriminate|]. destruct step; [congruence|exact H..].
        -- intros [_ [H|[_ H]]]; [congruence|]. destruct step; [congruence|exact H..].
      * destruct step; [split; auto|..]; (split; [discriminate|intros [_ [H|[H _]]]; congruence]).
    + split; [discriminate|]. intros [[H|[H|H]] _]; try discriminate; injection H as ->; discriminate.
  - cbn [negb]. assert (Q : step = TNone \/ step <> TNone) by (destruct step; [left|right..]; congruence). destruct Q as [->|NE]; [split; auto|].
    rewrite <- (duration_spec step NE). split.
    + intro H. split; [auto|]. right. split; [discriminate|]. destruct step; [congruence|exact H..].
    + intros [_ [H|[_ H]]]; [congruence|]. destruct step; [congruence|exact H..].
Qed.
Lemma check_time_ok sem step u : check_time_data sem step = Ok u <-> time_ok sem step.
Proof. destruct u. apply check_time_spec. Qed.

Section Theorems.
Set Default Proof Using "Type".
Context {D X : Type}.
Variable dim : D -> nat.
Variable diff inter : D -> D -> D.
Variable is_empty fulldim : D -> bool.
Variable nothing : D.
Variable pts : D -> X -> Prop.
Variable null : (X -> Prop) -> Prop.
Notation new_lti := (new_lti dim nothing).
Notation args_ok := (args_ok dim).
Notation lti_for := (lti_for nothing).
(** The arguments that [LtiSysDyn] accepts, and the object that it makes of them *)
Lemma two_dim_ok a rc : two_dim a = Ok rc <-> exists e, a = AArr [fst rc; snd rc] e.
Proof.
  destruct a as [| |[|r [|c [|]]] e]; cbn; split; try discriminate; try (intros (e' & H); discriminate).
  - intros [= <-]. exists e. reflexivity.
  - intros (e' & [= -> ->]). destruct rc. reflexivity.
Qed.
Lemma square_ok a n : square a = Ok n <-> exists e, a = AArr [n; n] e.
Proof.
  unfold square. destruct (two_dim a) as [[r c]|] eqn:E; cbn [bind fst snd].
  - apply two_dim_ok in E. destruct E as (e & ->). cbn [fst snd]. destruct (r =? c) eqn:Q; [apply Nat.eqb_eq in Q; subst|apply Nat.eqb_neq in Q].
    + split; [intros [= <-]; exists e; reflexivity|intros (e' & H); congruence].
    + split; [discriminate|]. intros (e' & H). congruence.
  - split; [discriminate|]. intros (e0 & ->). discriminate.
Qed.
Lemma check_rows_ok a b n (A : exists e, a = AArr [n; n] e) rc : check_rows a b = Ok rc <-> exists e, b = AArr [fst rc; snd rc] e /\ fst rc = n.
Proof.
  destruct A as (ea & ->). unfold check_rows. destruct (two_dim b) as [[r c]|] eqn:E; cbn [bind fst snd shape2 two_dim].
  - apply two_dim_ok in E. destruct E as (e & ->). cbn [fst snd]. destruct (n =? r) eqn:Q; [apply Nat.eqb_eq in Q; subst|apply Nat.eqb_neq in Q].
    + split; [intros [= <-]; exists e; auto|intros (e' & H & H'); destruct rc; cbn [fst snd] in *; congruence].
    + split; [discriminate|]. intros (e' & H & H'). congruence.
  - split; [discriminate|]. intros (e0 & -> & _). discriminate.
Qed.
Lemma set_check s (f : nat -> bool) (P : nat -> Prop) : (forall k, f k = true <-> P k) ->
  (match s with SNone => Ok tt | _ => do d <- set_dim dim s; if f d then Ok tt else Err "ValueError" end = Ok tt <-> set_of_dim dim P s).
Proof.
  intro F. destruct s as [|d|d|]; cbn; try (split; auto; discriminate).
  - split; intro H; [apply F; destruct (f (dim d)); [reflexivity|discriminate]|apply F in H; rewrite H; reflexivity].
  - split; intro H; [apply F; destruct (f (dim d)); [reflexivity|discriminate]|apply F in H; rewrite H; reflexivity].
  - split; [discriminate|intros []].
Qed.
Lemma bind_unit (r : res unit) {A} (k : res A) a : (do _ <- r; k) = Ok a <-> r = Ok tt /\ k = Ok a.
Proof. destruct r as [[]|e]; cbn; [split; [auto|intros [_ H]; exact H]|split; [discriminate|intros [H _]; discriminate]]. Qed.
Lemma only_if_ok a r P : (given a = true -> (r = Ok tt <-> P)) -> (only_if (given a) r = Ok tt <-> a = ANone \/ (given a = true /\ P)).
Proof.
  intro H. destruct a; cbn in *; [split; auto|..]; (rewrite H by reflexivity; split; [auto|intros [Q|[_ Q]]; [discriminate|exact Q]]).
Qed.
Theorem lti_returns h A B E K Uset Wset domain sem step h' r : new_lti h A B E K Uset Wset domain sem step = Ok (h', r) <->
  exists n l, args_ok n A B E K Uset Wset domain /\ time_ok sem step /\ lti_for n A B E K Uset Wset domain sem step l /\ h' = h ++ [HLti l] /\ r = List.length h.
Proof.
  clear pts null diff inter is_empty fulldim X. unfold M_Hybrid.new_lti. rewrite !bind_unit.
  assert (UO : (match Uset with SNone | SPol _ => Ok tt | _ => Err "TypeError" end : res unit) = Ok tt <-> polytope_or_none Uset) by (destruct Uset; cbn; split; auto; discriminate || intros []).
  rewrite UO. clear UO.
  assert (SQ : (exists n a, A = AArr [n; n] a) \/ ~ (exists n a, A = AArr [n; n] a)).
  { destruct (square A) as [n|] eqn:Q; [left; exists n; apply square_ok; exact Q|right]. intros (n & a & ->). cbn in Q. rewrite Nat.eqb_refl in Q. discriminate. }
  destruct SQ as [(n & a & EA)|NA].
  - assert (SA : exists e, A = AArr [n; n] e) by (exists a; exact EA).
    assert (GA : given A = true) by (subst A; reflexivity). assert (SN : square A = Ok n) by (apply square_ok; exact SA).
    assert (LA : alen A = Ok n) by (subst A; reflexivity). rewrite GA, SN, LA. cbn [only_if bind].
    assert (HD : (if is_set domain then Ok tt else Err "TypeError" : res unit) = Ok tt /\ check_domain dim domain n = Ok tt <-> set_of_dim dim (eq n) domain).
    { unfold check_domain. rewrite (set_check domain (fun d => d =? n) (eq n)) by (intro k; rewrite Nat.eqb_eq; split; auto). destruct domain; cbn; tauto || (split; [intros [H _]; discriminate|intros []]). }
    assert (HB : only_if (given B) (do sb <- check_rows A B; check_uset dim A (snd sb) Uset) = Ok tt <->
       (B = ANone \/ exists m b, B = AArr [n; m] b /\ set_of_dim dim (fun k => k = m \/ k = m + n) Uset)).
    { rewrite (only_if_ok B _ (exists m b, B = AArr [n; m] b /\ set_of_dim dim (fun k => k = m \/ k = m + n) Uset)).
      - split; [tauto|]. intros [->|(m & b & -> & H)]; [auto|right; split; [reflexivity|exists m, b; auto]].
      - intros _. destruct (check_rows A B) as [[rb m]|e] eqn:CB; cbn [bind snd].
        + apply (check_rows_ok A B n SA) in CB. cbn [fst snd] in CB. destruct CB as (b & -> & ->). unfold check_uset. rewrite SN. cbn [bind].
          rewrite (set_check Uset (fun d => (d =? m) || (d =? m + n)) (fun k => k = m \/ k = m + n)) by (intro k; rewrite orb_true_iff, !Nat.eqb_eq; tauto).
          split; [intro H; exists m, b; auto|intros (m' & b' & Q & H); injection Q as -> _; exact H].
        + split; [discriminate|]. intros (m & b & HB & _). assert (Q := proj2 (check_rows_ok A B n SA (n, m)) (ex_intro _ b (Logic.conj HB eq_refl))). congruence. }
    assert (HE : only_if (given E) (check_e_array dim A E Wset) = Ok tt <-> (E = ANone \/ exists p e, E = AArr [n; p] e /\ set_of_dim dim (eq p) Wset)).
    { rewrite (only_if_ok E _ (exists p e, E = AArr [n; p] e /\ set_of_dim dim (eq p) Wset)).
      - split; [tauto|]. intros [->|(m & b & -> & H)]; [auto|right; split; [reflexivity|exists m, b; auto]].
      - intros _. unfold check_e_array. destruct (check_rows A E) as [[rb m]|e] eqn:CB; cbn [bind snd].
        + apply (check_rows_ok A E n SA) in CB. cbn [fst snd] in CB. destruct CB as (b & -> & ->).
          rewrite (set_check Wset (fun d => d =? m) (eq m)) by (intro k; rewrite Nat.eqb_eq; split; auto).
          split; [intro H; exists m, b; auto|intros (m' & b' & Q & H); injection Q as -> _; exact H].
        + split; [discriminate|]. intros (m & b & HH & _). assert (Q := proj2 (check_rows_ok A E n SA (n, m)) (ex_intro _ b (Logic.conj HH eq_refl))). congruence. }
    assert (HK : only_if (given K) (check_k_array A K) = Ok tt <-> (K = ANone \/ exists k, K = AArr [n; 1] k)).
    { rewrite (only_if_ok K _ (exists k, K = AArr [n; 1] k)).
      - split; [tauto|]. intros [->|(k & ->)]; [auto|right; split; [reflexivity|exists k; auto]].
      - intros _. unfold check_k_array. destruct (check_rows A K) as [[rb m]|e] eqn:CB; cbn [bind snd].
        + apply (check_rows_ok A K n SA) in CB. cbn [fst snd] in CB. destruct CB as (b & -> & ->). destruct (m =? 1) eqn:M1; [apply Nat.eqb_eq in M1; subst m|apply Nat.eqb_neq in M1].
          * split; [exists b; reflexivity|reflexivity].
          * split; [discriminate|]. intros (k & Q). congruence.
        + split; [discriminate|]. intros (k & HH). assert (Q := proj2 (check_rows_ok A K n SA (n, 1)) (ex_intro _ k (Logic.conj HH eq_refl))). congruence. }
    set (KK := if given K then _ else _). set (EE := if given E then _ else _).
    assert (FK : exists K', KK = Ok K' /\ filled n K K' /\ forall k, filled n K k -> k = K').
    { unfold KK. destruct K; cbn [given filled].
      - destruct (n =? 0) eqn:N0; [apply Nat.eqb_eq in N0|apply Nat.eqb_neq in N0].
        + exists ANone. split; [reflexivity|]. split; [split; [reflexivity|congruence]|]. intros k [H _]. auto.
        + exists (AArr [n; 1] (fun _ _ => 0%Qc)). split; [reflexivity|]. split; [split; [congruence|reflexivity]|]. intros k [_ H]. auto.
      - eexists. split; [reflexivity|]. auto.
      - eexists. split; [reflexivity|]. auto. }
    assert (FE : exists E', EE = Ok (E', match E with ANone => if n =? 0 then Wset else SPol nothing | _ => Wset end) /\ filled n E E' /\ forall k, filled n E k -> k = E').
    { unfold EE. destruct E; cbn [given filled].
      - destruct (n =? 0) eqn:N0; [apply Nat.eqb_eq in N0|apply Nat.eqb_neq in N0].
        + exists ANone. split; [reflexivity|]. split; [split; [reflexivity|congruence]|]. intros k [H _]. auto.
        + exists (AArr [n; 1] (fun _ _ => 0%Qc)). split; [reflexivity|]. split; [split; [congruence|reflexivity]|]. intros k [_ H]. auto.
      - eexists. split; [reflexivity|]. auto.
      - eexists. split; [reflexivity|]. auto. }
    clearbody KK EE. destruct FK as (K' & -> & FK & UK). destruct FE as (E' & -> & FE & UE). cbn [bind fst snd]. rewrite bind_unit, check_time_spec, HB, HE, HK.
    split.
    + intros (H1 & H2 & H3 & H4 & H5 & H6 & H7 & H8). injection H8 as <- <-. exists n. eexists. split; [|split; [exact H7|split; [|split; reflexivity]]].
      * unfold T_Hybrid.args_ok. repeat (split; [assumption || (apply HD; auto)|]). assumption.
      * unfold T_Hybrid.lti_for. cbn. auto 12.
    + intros (n' & l & (HA & H1 & H2 & H3 & H4 & H5) & H7 & (L1 & L2 & L3 & L4 & L5 & L6 & L7 & L8 & L9) & -> & ->).
      assert (n' = n) by (destruct HA as (a' & HA); congruence). subst n'. apply HD in H2. destruct H2 as [H2 H2'].
      repeat (split; [assumption|]). apply UE in L3. apply UK in L4. destruct l as [x1 x2 x3 x4 x5 x6 x7 x8 x9]. cbn [M_Hybrid.l_A M_Hybrid.l_B M_Hybrid.l_E M_Hybrid.l_K M_Hybrid.l_Uset M_Hybrid.l_Wset M_Hybrid.l_domain M_Hybrid.l_sem M_Hybrid.l_step] in L1, L2, L3, L4, L5, L6, L7, L8, L9. rewrite L1, L2, L3, L4, L5, L6, L7, L8, L9. reflexivity.
  - split.
    + intros (_ & _ & H3 & H4 & H5 & H6 & H7). exfalso. destruct A as [| |sh a]; [|discriminate H3|].
      * destruct K as [| |sk k]; [cbn in H7; discriminate| |]; (cbn [given only_if] in H6; unfold check_k_array, check_rows in H6; destruct (two_dim _) in H6; discriminate).
      * cbn [given only_if] in H3. destruct (square (AArr sh a)) as [n|] eqn:Q; [|discriminate]. apply square_ok in Q. apply NA. exists n. exact Q.
    + intros (n & l & ((a & ->) & _) & _). exfalso. apply NA. exists n, a. reflexivity.
Qed.
Lemma lti_shaped n A B E K Uset Wset domain sem step l : args_ok n A B E K Uset Wset domain -> lti_for n A B E K Uset Wset domain sem step l -> well_shaped dim l.
Proof.
  intros (HA & H1 & H2 & H3 & H4 & H5) (L1 & L2 & L3 & L4 & L5 & L6 & L7 & L8 & L9). exists n. rewrite L1, L2, L5, L6. split; [exact HA|]. split; [exact H2|]. split; [|split].
  - destruct H3 as [->|(m & b & -> & H3)]; [left; reflexivity|right; exists m, b; auto].
  - destruct H4 as [->|(p & e & -> & H4)].
    + cbn [filled] in L3. destruct L3 as [Z NZ]. destruct (Nat.eq_dec n 0) as [N0|N0]; [right; auto|]. left. exists 1, (fun _ _ => 0%Qc). split; [apply NZ, N0|left; reflexivity].
    + cbn [filled] in L3. left. exists p, e. split; [exact L3|]. right. rewrite L9. exact H4.
  - destruct H5 as [->|(k & ->)].
    + cbn [filled] in L4. destruct L4 as [Z NZ]. destruct (Nat.eq_dec n 0) as [N0|N0]; [right; auto|]. left. exists (fun _ _ => 0%Qc). apply NZ, N0.
    + cbn [filled] in L4. left. exists k. exact L4.
Qed.

(** *** Pushed time data *)
Lemma update_nth i f (h : @heap D) j : nth_error (update i f h) j = if i =? j then option_map f (nth_error h j) else nth_error h j.
Proof.
  revert i j. induction h as [|o h IH]; intros i j; [destruct i, j; cbn; try reflexivity; destruct (_ =? _); reflexivity|].
  destruct i as [|i], j as [|j]; cbn [update nth_error Nat.eqb]; try reflexivity. apply IH.
Qed.
Lemma update_length i f (h : @heap D) : List.length (update i f h) = List.length h.
Proof. revert i. induction h as [|o h IH]; intros [|i]; cbn; auto. Qed.
Definition subs_of (h : @heap D) (r : nat) : list nat := match nth_error h r with Some (HPwa p) => p_subs p | _ => [] end.
Definition touched (h : @heap D) (refs : list nat) (i : nat) : Prop := In i refs \/ exists r, In r refs /\ In i (subs_of h r).
(** The same objects, some of them with new time data *)
Definition retimed (sem : option string) (step : tstep) (P : nat -> Prop) (h h' : @heap D) : Prop :=
  List.length h' = List.length h /\ forall i o, nth_error h i = Some o -> (P i /\ nth_error h' i = Some (set_time sem step o)) \/ (~ P i /\ nth_error h' i = Some o).
Lemma set_time_twice sem step (o : @hobj D) : set_time sem step (set_time sem step o) = set_time sem step o.
Proof. destruct o; reflexivity. Qed.
Lemma retimed_subs sem step P h h' r : retimed sem step P h h' -> subs_of h' r = subs_of h r.
Proof.
  intros [L R]. unfold subs_of. destruct (nth_error h r) as [o|] eqn:E.
  - destruct (R r o E) as [[_ ->]|[_ ->]]; destruct o; reflexivity.
  - replace (nth_error h' r) with (@None (@hobj D)); [reflexivity|]. symmetry. apply nth_error_None. rewrite L. apply nth_error_None, E.
Qed.
Lemma retimed_step sem step (P Q R : nat -> Prop) h h1 h2 : retimed sem step P h h1 -> retimed sem step Q h1 h2 -> (forall i, R i <-> P i \/ Q i) -> retimed sem step R h h2.
Proof.
  intros [L1 R1] [L2 R2] E. split; [congruence|]. intros i o H. destruct (R1 i o H) as [[A B]|[A B]]; destruct (R2 i _ B) as [[A' B']|[A' B']].
  - left. rewrite set_time_twice in B'. split; [apply E; auto|exact B'].
  - left. split; [apply E; auto|exact B'].
  - left. split; [apply E; auto|exact B'].
  - right. split; [rewrite E; intros [Y|Y]; contradiction|exact B'].
Qed.
Lemma retimed_update sem step r h : retimed sem step (fun i => i = r) h (update r (set_time sem step) h).
Proof.
  split; [apply update_length|]. intros i o H. rewrite update_nth, H. destruct (r =? i) eqn:E; [apply Nat.eqb_eq in E; subst; left|apply Nat.eqb_neq in E; right]; auto.
Qed.
Lemma retimed_none sem step (P : nat -> Prop) h : (forall i, ~ P i) -> retimed sem step P h h.
Proof. intro N. split; [reflexivity|]. intros i o H. right. auto. Qed.
Lemma push_flat_retimed sem step refs : forall h, retimed sem step (fun i => In i refs) h (push_flat sem step refs h).
Proof.
  induction refs as [|r refs IH]; intro h; [apply retimed_none; intros i []|]. unfold push_flat in *. cbn [fold_left].
  eapply retimed_step; [apply retimed_update|apply IH|]. intro i. cbn [In]. split; intros [H|H]; auto.
Qed.
Lemma push_one sem step r h : retimed sem step (touched h [r]) h
  (let h' := update r (set_time sem step) h in match nth_error h' r with Some (HPwa p) => push_flat sem step (p_subs p) h' | _ => h' end).
Proof.
  cbn zeta. set (h' := update r (set_time sem step) h). assert (R := retimed_update sem step r h). fold h' in R.
  assert (S := retimed_subs _ _ _ _ _ r R).
  assert (T : forall i, touched h [r] i <-> i = r \/ In i (subs_of h' r)).
  { intro i. rewrite S. unfold touched. split.
    - intros [[<-|[]]|(r' & [<-|[]] & H)]; auto.
    - intros [->|H]; [left; left; reflexivity|right; exists r; split; [left; reflexivity|exact H]]. }
  unfold subs_of in T. destruct (nth_error h' r) as [[l|p|w]|] eqn:E.
  - eapply retimed_step; [exact R|apply retimed_none with (P := fun _ => False); auto|]. intro i. rewrite T. cbn [In]. reflexivity.
  - eapply retimed_step; [exact R|apply push_flat_retimed|]. intro i. rewrite T. cbn [In]. reflexivity.
  - eapply retimed_step; [exact R|apply retimed_none with (P := fun _ => False); auto|]. intro i. rewrite T. cbn [In]. reflexivity.
  - eapply retimed_step; [exact R|apply retimed_none with (P := fun _ => False); auto|]. intro i. rewrite T. cbn [In]. reflexivity.
Qed.
Lemma push_retimed sem step refs : forall h, retimed sem step (touched h refs) h (push_time sem step refs h).
Proof.
  induction refs as [|r refs IH]; intro h; [apply retimed_none; intros i [[]|(r & [] & _)]|]. unfold push_time in *. cbn [fold_left].
  assert (P := push_one sem step r h). cbn zeta in *. set (h1 := match nth_error _ r with Some (HPwa p) => _ | _ => _ end) in *.
  eapply retimed_step; [exact P|apply IH|]. intro i. unfold touched. cbn [In]. split.
  - intros [[H|H]|(r' & [H|H] & I)].
    + left. left. auto.
    + right. left. exact H.
    + left. right. exists r'. auto.
    + right. right. exists r'. split; [exact H|]. rewrite (retimed_subs _ _ _ _ _ r' P). exact I.
  - intros [[[H|[]]|(r' & [H|[]] & I)]|[H|(r' & H & I)]]; auto.
    + right. exists r'. auto.
    + right. exists r'. split; [auto|]. rewrite (retimed_subs _ _ _ _ _ r' P) in I. exact I.
Qed.
(** *** Soundness of the heap *)
Notation sound := (sound dim pts null).
Notation pieces := (pieces pts null).
Notation pwa_sound := (pwa_sound pts null).
Lemma set_time_lti sem step (l : @lti D) : exists l', set_time sem step (HLti l) = HLti l' /\ l_domain l' = l_domain l /\ l_A l' = l_A l /\ l_B l' = l_B l /\ l_E l' = l_E l.
Proof. eexists. split; [reflexivity|]. repeat split. Qed.
Lemma pieces_retimed sem step P h h' refs ls d : retimed sem step P h h' -> Forall2 (lti_at h) refs ls -> pieces ls d -> exists ls', Forall2 (lti_at h') refs ls' /\ pieces ls' d.
Proof.
  intros [L R] F (ds & n & m & p & FD & C & E).
  assert (Q : exists ls', Forall2 (lti_at h') refs ls' /\ Forall2 (fun l e => has_set (l_domain l) e /\ sizes l n m p) ls' ds).
  { clear C E. revert ds FD. induction F as [|r l refs ls Hl F IH]; intros ds FD; inversion FD as [|? e ? ds' [He Hs] FD']; subst.
    - exists []. split; constructor.
    - destruct (IH _ FD') as (ls' & F1 & F2). destruct (R r _ Hl) as [[_ N]|[_ N]].
      + destruct (set_time_lti sem step l) as (l' & E' & E1 & E2 & E3 & E4). rewrite E' in N. exists (l' :: ls'). split; [constructor; assumption|].
        constructor; [|exact F2]. unfold sizes. rewrite E1, E2, E3, E4. split; assumption.
      + exists (l :: ls'). split; constructor; auto. }
  destruct Q as (ls' & F1 & F2). exists ls'. split; [exact F1|]. exists ds, n, m, p. auto.
Qed.
Lemma sound_retimed sem step P h h' : time_ok sem step -> retimed sem step P h h' -> sound h -> sound h'.
Proof.
  intros T R S r o' N'. assert (R' := R). destruct R as [L R]. destruct (nth_error h r) as [o|] eqn:N.
  2:{ apply nth_error_None in N. rewrite <- L in N. apply nth_error_None in N. congruence. }
  assert (So := S r o N).
  assert (PW : forall p, pwa_sound h p -> forall q, p_subs q = p_subs p -> p_domain q = p_domain p -> pwa_sound h' q).
  { intros p [E0|(d & ls & H1 & H2 & H3)] q Eq1 Eq2; unfold T_Hybrid.pwa_sound; rewrite Eq1, Eq2; [left; exact E0|]. right.
    destruct (pieces_retimed _ _ _ _ _ _ _ _ R' H2 H3) as (ls' & A & B). exists d, ls'. auto. }
  assert (SW : forall k p, nth_error h k = Some (HPwa p) -> exists q, nth_error h' k = Some (HPwa q)).
  { intros k p Hk. destruct (R k _ Hk) as [[_ Q]|[_ Q]]; eexists; exact Q. }
  destruct (R r o N) as [[_ Q]|[_ Q]]; rewrite Q in N'; injection N' as <-; destruct o as [l|p|w]; cbn [set_time l_sem l_step p_sem p_step w_sem w_step w_dyn]; destruct So as [So1 So2].
  - split; [|exact T]. exact So1.
  - split; [|exact T]. apply (PW p So1); reflexivity.
  - split; [|exact T]. intros mk I. destruct (So1 mk I) as (p & Hp). apply (SW _ _ Hp).
  - split; assumption.
  - split; [|exact So2]. apply (PW p So1); reflexivity.
  - split; [|exact So2]. intros mk I. destruct (So1 mk I) as (p & Hp). apply (SW _ _ Hp).
Qed.
Lemma app_nth (h : @heap D) o r x : nth_error h r = Some x -> nth_error (h ++ [o]) r = Some x.
Proof. intro H. rewrite nth_error_app1; [exact H|]. apply nth_error_Some. congruence. Qed.
Lemma app_nth_inv (h : @heap D) o r x : nth_error (h ++ [o]) r = Some x -> nth_error h r = Some x \/ (r = List.length h /\ x = o).
Proof.
  intro H. destruct (Nat.lt_ge_cases r (List.length h)) as [L|L]; [left; rewrite nth_error_app1 in H; assumption|].
  right. rewrite nth_error_app2 in H by exact L. destruct (r - List.length h) as [|k] eqn:E; [injection H as <-; split; [lia|reflexivity]|destruct k; discriminate].
Qed.
Lemma pwa_sound_app h o p : pwa_sound h p -> pwa_sound (h ++ [o]) p.
Proof.
  intros [H|(d & ls & H1 & H2 & H3)]; [left; exact H|right]. exists d, ls. split; [exact H1|]. split; [|exact H3].
  clear H3. induction H2; constructor; [apply app_nth; assumption|assumption].
Qed.
Lemma sound_app h o : sound h ->
  match o with
  | HLti l => well_shaped dim l /\ time_ok (l_sem l) (l_step l)
  | HPwa p => pwa_sound h p /\ time_ok (p_sem p) (p_step p)
  | HSw w => (forall mk, In mk (w_dyn w) -> exists p, nth_error h (snd mk) = Some (HPwa p)) /\ time_ok (w_sem w) (w_step w)
  end -> sound (h ++ [o]).
Proof.
  intros S N r x H. apply app_nth_inv in H. destruct H as [H|[_ ->]].
  - assert (Sx := S r x H). destruct x as [l|p|w]; destruct Sx as [S1 S2]; (split; [|exact S2]); [exact S1|apply pwa_sound_app, S1|].
    intros mk I. destruct (S1 mk I) as (p & Hp). exists p. apply app_nth, Hp.
  - destruct o as [l|p|w]; destruct N as [S1 S2]; (split; [|exact S2]); [exact S1|apply pwa_sound_app, S1|].
    intros mk I. destruct (S1 mk I) as (p & Hp). exists p. apply app_nth, Hp.
Qed.

(** *** Pieces of a PWA system *)
Section Cover.
Unset Default Proof Using.
Hypothesis null_sub : forall A B : X -> Prop, null B -> (forall x, A x -> B x) -> null A.
Hypothesis null_union : forall A B : X -> Prop, null A -> null B -> null (fun x => A x \/ B x).
Hypothesis diff_covers : forall a b x, pts a x -> ~ pts b x -> pts (diff a b) x.
Hypothesis diff_in : forall a b x, pts (diff a b) x -> pts a x.
Hypothesis diff_out : forall a b, null (fun x => pts (diff a b) x /\ pts b x).
Hypothesis inter_spec : forall a b x, pts (inter a b) x <-> pts a x /\ pts b x.
Hypothesis empty_spec : forall a, is_empty a = true <-> null (pts a).
Hypothesis fulldim_spec : forall a, fulldim a = false <-> null (pts a).
Hypothesis pts_dec : forall a x, pts a x \/ ~ pts a x.
Lemma the_set_ok (s : sval D) d : the_set s = Ok d <-> has_set s d.
Proof. unfold has_set. destruct s; cbn; split; try discriminate; try (intros [H|H]; congruence); intros [= ->]; auto. Qed.
Lemma columns_sizes (l : @lti D) n m p : well_shaped dim l -> (dims l = Ok (n, m, p) <-> sizes l n m p).
Proof.
  intros (k & (a & EA) & _ & HB & HE & _). unfold dims, sizes. rewrite EA. cbn [columns bind].
  destruct HB as [->|(m' & b & -> & _)]; cbn [columns bind]; [split; [discriminate|intros (_ & (r & e & H) & _); discriminate]|].
  destruct HE as [(p' & e & -> & _)|[_ ->]]; cbn [columns bind]; [|split; [discriminate|intros (_ & _ & (r & e & H)); discriminate]].
  split.
  - intros [= <- <- <-]. split; [exists k, a; reflexivity|]. split; [exists k, b; reflexivity|exists k, e; reflexivity].
  - intros ((r & x & H1) & (r' & x' & H2) & (r'' & x'' & H3)). congruence.
Qed.
Lemma dims_eqb_ok a b : dims_eqb a b = true <-> a = b.
Proof.
  destruct a as [[a1 a2] a3], b as [[b1 b2] b3]. unfold dims_eqb. cbn [fst snd]. rewrite !andb_true_iff, !Nat.eqb_eq. split; [intros [[-> ->] ->]; reflexivity|intros [= -> -> ->]; auto].
Qed.
Lemma uncover_ok n m p ls : (forall l, In l ls -> well_shaped dim l) -> forall rest rest', uncover diff (n, m, p) rest ls = Ok rest' ->
  exists ds, Forall2 (fun l e => has_set (l_domain l) e /\ sizes l n m p) ls ds /\ rest' = fold_left diff ds rest.
Proof.
  induction ls as [|l ls IH]; intros W rest rest' H; cbn [uncover] in H; [injection H as <-; exists []; split; constructor|].
  destruct (the_set (l_domain l)) as [d|] eqn:Ed; [|discriminate H]. cbn [bind] in H. destruct (dims l) as [x|] eqn:Ex; [|discriminate H]. cbn [bind] in H.
  destruct (dims_eqb (n, m, p) x) eqn:Eq; [|discriminate H]. apply dims_eqb_ok in Eq. subst x.
  destruct (IH (fun y I => W y (or_intror I)) _ _ H) as (ds & F & ->). exists (d :: ds). split; [|reflexivity]. constructor; [|exact F].
  split; [apply the_set_ok, Ed|apply columns_sizes; [apply W; left; reflexivity|exact Ex]].
Qed.
Lemma uncover_returns n m p ls ds : (forall l, In l ls -> well_shaped dim l) -> Forall2 (fun l e => has_set (l_domain l) e /\ sizes l n m p) ls ds ->
  forall rest, uncover diff (n, m, p) rest ls = Ok (fold_left diff ds rest).
Proof.
  intros W F. induction F as [|l d ls ds [Hd Hs] F IH]; intro rest; [reflexivity|]. cbn [uncover fold_left]. rewrite (proj2 (the_set_ok _ _) Hd). cbn [bind].
  rewrite (proj2 (columns_sizes l n m p (W l (or_introl eq_refl))) Hs). cbn [bind]. rewrite (proj2 (dims_eqb_ok _ _) eq_refl). apply IH. intros y I. apply W. right. exact I.
Qed.
Lemma rest_covers ds : forall rest x, pts rest x -> (forall e, In e ds -> ~ pts e x) -> pts (fold_left diff ds rest) x.
Proof. induction ds as [|d ds IH]; intros rest x H N; [exact H|]. cbn [fold_left]. apply IH; [apply diff_covers; [exact H|apply N; left; reflexivity]|]. intros e I. apply N. right. exact I. Qed.
Lemma rest_in ds : forall rest x, pts (fold_left diff ds rest) x -> pts rest x.
Proof. induction ds as [|d ds IH]; intros rest x H; [exact H|]. cbn [fold_left] in H. apply IH in H. eapply diff_in, H. Qed.
Lemma rest_null ds : forall rest, null (fun x => pts rest x /\ forall e, In e ds -> ~ pts e x) -> null (pts (fold_left diff ds rest)).
Proof.
  induction ds as [|d ds IH]; intros rest H; cbn [fold_left]; [eapply null_sub; [exact H|]; cbn; intros x Hx; split; [exact Hx|intros e []]|].
  apply IH. eapply null_sub; [apply null_union; [exact H|apply (diff_out rest d)]|]. cbn beta. intros x [Hx N].
  destruct (pts_dec d x) as [Y|Y]; [right; auto|]. left. split; [eapply diff_in, Hx|]. intros e [<-|I]; auto.
Qed.
Lemma exclusive_ok ds : exclusive inter fulldim ds = true <-> ForallOrdPairs (fun e f => null (fun x => pts e x /\ pts f x)) ds.
Proof.
  assert (Q : forall d e, negb (fulldim (inter d e)) = true <-> null (fun x => pts d x /\ pts e x)).
  { intros d e. rewrite negb_true_iff, fulldim_spec. split; intro H; (eapply null_sub; [exact H|]); cbn; intros x Hx; apply inter_spec, Hx. }
  induction ds as [|d ds IH]; cbn [exclusive]; [split; [constructor|reflexivity]|]. rewrite andb_true_iff, forallb_forall, IH. split.
  - intros [H1 H2]. constructor; [|exact H2]. apply Forall_forall. intros e I. apply Q, H1, I.
  - intro H. inversion H as [|? ? H1 H2]; subst. split; [|exact H2]. intros e I. apply Q. rewrite Forall_forall in H1. apply H1, I.
Qed.
Lemma get_ltis (h : @heap D) refs ls : mapr (get_lti h) refs = Ok ls <-> Forall2 (lti_at h) refs ls.
Proof.
  revert ls. induction refs as [|r refs IH]; intro ls; cbn [mapr].
  - split; [intros [= <-]; constructor|intro H; inversion H; reflexivity].
  - unfold lti_at in *. split.
    + intro H. destruct (get_lti h r) as [l|] eqn:E; [|discriminate H]. cbn [bind] in H. destruct (mapr (get_lti h) refs) as [ls'|] eqn:E'; [|discriminate H].
      injection H as <-. constructor; [|apply IH; reflexivity]. unfold get_lti in E. destruct (nth_error h r) as [[l'| |]|]; congruence.
    + intro H. inversion H as [|? l ? ls' H1 H2]; subst. unfold get_lti at 1. rewrite H1. cbn [bind]. rewrite (proj2 (IH ls') H2). reflexivity.
Qed.
Lemma the_sets n m p ls ds : Forall2 (fun l e => has_set (l_domain l) e /\ sizes l n m p) ls ds -> mapr (fun l : @lti D => the_set (l_domain l)) ls = Ok ds.
Proof. intro F. induction F as [|l d ls ds [H _] F IH]; [reflexivity|]. cbn [mapr]. rewrite (proj2 (the_set_ok _ _) H). cbn [bind]. rewrite IH. reflexivity. Qed.
(** The check of [PwaSysDyn.__init__] on the domains *)
Definition divided (h : @heap D) (subs : list nat) (domain : sval D) : Prop :=
  subs = [] \/ exists d ls, has_set domain d /\ Forall2 (lti_at h) subs ls /\ pieces ls d.
Lemma checked_spec h subs domain u : sound h -> (check_pieces diff inter is_empty fulldim h subs domain = Ok u <-> divided h subs domain).
Proof.
  intro S. destruct u. unfold check_pieces. destruct subs as [|r0 subs]; [split; [left; reflexivity|reflexivity]|].
  transitivity ((do d <- the_set domain;
                  do ls <- mapr (get_lti h) (r0 :: subs);
                  do l0 <- get_lti h r0;
                  do nmp <- dims l0;
                  do rest <- uncover diff nmp d ls;
                  if negb (is_empty rest) then Err "ValueError"
                  else do ds <- mapr (fun l => the_set (l_domain l)) ls;
                       if exclusive inter fulldim ds then Ok tt else Err "ValueError") = Ok tt).
  { destruct domain; cbn [the_set bind]; try tauto. split; discriminate. }
  assert (W : forall ls, Forall2 (lti_at h) (r0 :: subs) ls -> forall l, In l ls -> well_shaped dim l).
  { intros ls F l I. induction F as [|r l' refs ls Hl F IH]; [destruct I|]. destruct I as [<-|I]; [apply (S r _ Hl)|apply IH, I]. }
  split.
  - intro H. destruct (the_set domain) as [d|] eqn:Ed; [|discriminate H]. cbn [bind] in H.
    destruct (mapr (get_lti h) (r0 :: subs)) as [ls|] eqn:El; [|discriminate H]. cbn [bind] in H.
    destruct (get_lti h r0) as [l0|] eqn:E0; [|discriminate H]. cbn [bind] in H. destruct (dims l0) as [[[n m] p]|] eqn:En; [|discriminate H]. cbn [bind] in H.
    destruct (uncover diff (n, m, p) d ls) as [rest|] eqn:Eu; [|discriminate H]. cbn [bind] in H. destruct (is_empty rest) eqn:Ee; cbn [negb] in H; [|discriminate H].
    apply get_ltis in El. destruct (uncover_ok n m p ls (W ls El) _ _ Eu) as (ds & F & ->). rewrite (the_sets n m p ls ds F) in H. cbn [bind] in H.
    destruct (exclusive inter fulldim ds) eqn:Ex; [|discriminate H]. right. exists d, ls. split; [apply the_set_ok, Ed|]. split; [exact El|].
    exists ds, n, m, p. split; [exact F|]. split; [|apply exclusive_ok, Ex]. apply empty_spec in Ee. eapply null_sub; [exact Ee|]. cbn beta. intros x [Hx N]. apply rest_covers; assumption.
  - intros [H|(d & ls & Hd & F & ds & n & m & p & FD & C & E)]; [discriminate H|]. rewrite (proj2 (the_set_ok _ _) Hd). cbn [bind].
    rewrite (proj2 (get_ltis h _ ls) F). cbn [bind]. assert (W' := W ls F). inversion F as [|? l0 ? ls' F0 F']; subst. unfold get_lti. unfold lti_at in F0. rewrite F0. cbn [bind].
    inversion FD as [|? d0 ? ds' [_ Hs] FD']; subst. rewrite (proj2 (columns_sizes l0 n m p (W' l0 (or_introl eq_refl))) Hs). cbn [bind].
    rewrite (uncover_returns n m p _ _ W' FD). cbn [bind]. rewrite (proj2 (empty_spec _) (rest_null _ _ C)). cbn [negb]. rewrite (the_sets n m p _ _ FD). cbn [bind].
    rewrite (proj2 (exclusive_ok _) E). reflexivity.
Qed.
(** *** Time data that have to agree *)
Lemma same_flt a b : step_eqb a b = true <-> (a = TNone /\ b = TNone) \/ exists f, f <> NaN /\ as_flt a = Some f /\ as_flt b = Some f.
Proof.
  assert (F : forall x y, flt_eqb x y = true <-> x = y /\ x <> NaN).
  { intros [x| | |] [y| | |]; cbn; try (split; [discriminate|intros [H H']; congruence]); try (split; [intros _; split; [reflexivity|discriminate]|reflexivity]).
    unfold Qc_eqb. destruct (Qc_eq_dec x y); split; intro H; try discriminate; try (split; [congruence|discriminate]); try reflexivity. destruct H. congruence. }
  unfold step_eqb. destruct (as_flt a) as [x|] eqn:A.
  - assert (NA : a <> TNone) by (intros ->; discriminate A). transitivity (match as_flt b with Some y => flt_eqb x y | None => false end = true); [destruct a; [congruence|destruct b; tauto..]|].
    destruct (as_flt b) as [y|] eqn:B.
    + rewrite F. split; [intros [-> N]; right; exists y; auto|intros [[H _]|(f & N & H1 & H2)]; [congruence|]]. split; congruence.
    + split; [discriminate|intros [[H _]|(f & N & H1 & H2)]; congruence].
  - split.
    + destruct a, b; cbn in *; try discriminate; auto.
    + intros [[-> ->]|(f & N & H1 & H2)]; [reflexivity|discriminate].
Qed.
Lemma same_number_ok a b : step_eqb a b = true <-> same_number a b.
Proof.
  assert (I : forall x y, Q2Qc (inject_Z x) = Q2Qc (inject_Z y) <-> x = y).
  { intros x y. split; [|congruence]. intro H. apply Q2Qc_eq_iff in H. apply inject_Z_injective, H. }
  assert (B : forall v w, Qc_eqb v w = true <-> v = w).
  { intros v w. unfold Qc_eqb. destruct (Qc_eq_dec v w); split; congruence. }
  destruct a as [|x|[v| | |]|o], b as [|y|[w| | |]|o']; unfold step_eqb; cbn [as_flt flt_eqb same_number];
    try (split; [discriminate|intros []]); try (split; [intros _; exact Logic.I|reflexivity]); rewrite B; try (split; congruence). apply I.
Qed.
Lemma sem_eqb_ok a b : sem_eqb a b = true <-> a = b.
Proof.
  destruct a as [a|], b as [b|]; cbn [sem_eqb]; try (split; congruence). rewrite String.eqb_eq. split; congruence.
Qed.
Lemma same_time_ok a b : same_time a b = true <-> fst a = fst b /\ same_number (snd a) (snd b).
Proof. unfold same_time. rewrite andb_true_iff, same_number_ok, sem_eqb_ok. tauto. Qed.
Lemma same_number_trans a b c : same_number a b -> same_number b c -> same_number a c.
Proof.
  rewrite <- !same_number_ok, !same_flt. intros [[-> ->]|(f & N & H1 & H2)] [[E H]|(g & N' & H3 & H4)]; subst; try discriminate; [left; auto|right].
  exists f. split; [exact N|]. split; [exact H1|congruence].
Qed.
Lemma same_number_sym a b : same_number a b -> same_number b a.
Proof. rewrite <- !same_number_ok, !same_flt. intros [[-> ->]|(f & N & H1 & H2)]; [left; auto|right; exists f; auto]. Qed.
(** Equal time data, where NaN equals nothing *)
Definition equal_time (a b : option string * tstep) : Prop := fst a = fst b /\ same_number (snd a) (snd b).
Lemma neighbours_ok a l : check_neighbours (a :: l) = Ok tt -> forall t, In t l -> equal_time t a.
Proof.
  revert a. induction l as [|b l IH]; intros a H t I; [destruct I|]. cbn [check_neighbours] in H.
  destruct (same_time a b) eqn:E; [|discriminate H]. apply same_time_ok in E. destruct E as [E1 E2]. destruct I as [<-|I].
  - split; [auto|apply same_number_sym, E2].
  - destruct (IH b H t I) as [F1 F2]. split; [congruence|]. eapply same_number_trans; [exact F2|apply same_number_sym, E2].
Qed.
Lemma neighbours_returns sem step l : (forall t, In t l -> equal_time t (sem, step)) -> check_neighbours l = Ok tt.
Proof.
  induction l as [|a [|b l] IH]; intro H; [reflexivity..|]. change (check_neighbours (a :: b :: l)) with (if same_time a b then check_neighbours (b :: l) else Err "ValueError").
  replace (same_time a b) with true; [apply IH; intros t I; apply H; right; exact I|].
  symmetry. apply same_time_ok. destruct (H a (or_introl eq_refl)) as [A1 A2], (H b (or_intror (or_introl eq_refl))) as [B1 B2]. split; [congruence|].
  eapply same_number_trans; [exact A2|apply same_number_sym, B2].
Qed.
Lemma time_of_ok (h : @heap D) r t : time_of h r = Ok t <-> time_at h r t.
Proof.
  unfold time_of, time_at. destruct (nth_error h r) as [o|].
  - split; [intro H; exists o; split; [reflexivity|destruct o; congruence]|]. intros (o' & [= <-] & ->). destruct o; reflexivity.
  - split; [discriminate|intros (o & H & _); discriminate].
Qed.
Lemma times_ok (h : @heap D) refs l : mapr (time_of h) refs = Ok l <-> Forall2 (time_at h) refs l.
Proof.
  revert l. induction refs as [|r refs IH]; intro l; cbn [mapr].
  - split; [intros [= <-]; constructor|intro H; inversion H; reflexivity].
  - split.
    + intro H. destruct (time_of h r) as [t|] eqn:E; [|discriminate H]. cbn [bind] in H. destruct (mapr (time_of h) refs) as [l'|]; [|discriminate H].
      injection H as <-. constructor; [apply time_of_ok, E|apply IH; reflexivity].
    + intro H. inversion H as [|? t ? l' H1 H2]; subst. rewrite (proj2 (time_of_ok h r t) H1). cbn [bind]. rewrite (proj2 (IH l') H2). reflexivity.
Qed.
Lemma forall2_left {A B} (R : A -> B -> Prop) la lb a : Forall2 R la lb -> In a la -> exists b, In b lb /\ R a b.
Proof. intro F. induction F as [|x y la lb H F IH]; intros []; [subst; exists y; split; [left; reflexivity|exact H]|]. destruct IH as (b & I & Hb); [assumption|]. exists b. split; [right; exact I|exact Hb]. Qed.
Lemma forall2_right {A B} (R : A -> B -> Prop) la lb b : Forall2 R la lb -> In b lb -> exists a, In a la /\ R a b.
Proof. intro F. induction F as [|x y la lb H F IH]; intros []; [subst; exists x; split; [left; reflexivity|exact H]|]. destruct IH as (a & I & Ha); [assumption|]. exists a. split; [right; exact I|exact Ha]. Qed.
Lemma time_at_det (h : @heap D) r t t' : time_at h r t -> time_at h r t' -> t = t'.
Proof. intros (o & H & ->) (o' & H' & ->). rewrite H in H'. injection H' as <-. reflexivity. Qed.
(** [_check_time_consistency] returns exactly if there is a system and all have equal time data. *)
Theorem consistency_check (h : @heap D) refs sem step : check_time_consistency h refs sem step = Ok tt <-> refs <> [] /\ forall r, In r refs -> exists t, time_at h r t /\ equal_time t (sem, step).
Proof.
  unfold check_time_consistency. split.
  - intro H. destruct (mapr (time_of h) refs) as [l|] eqn:E; [|discriminate H]. cbn [bind] in H. destruct (check_neighbours l) as [[]|] eqn:N; [|discriminate H]. cbn [bind] in H.
    destruct l as [|a l]; [discriminate H|]. destruct (same_time a (sem, step)) eqn:S; [|discriminate H]. apply same_time_ok in S. apply times_ok in E.
    split; [intros ->; inversion E|]. intros r I. destruct (forall2_left _ _ _ r E I) as (t & It & Ht). exists t. split; [exact Ht|].
    destruct It as [<-|It]; [exact S|]. destruct (neighbours_ok a l N t It) as [F1 F2], S as [S1 S2]. split; [congruence|eapply same_number_trans; eassumption].
  - intros [NE H]. assert (Q : exists l, Forall2 (time_at h) refs l).
    { clear NE. induction refs as [|r refs IH]; [exists []; constructor|]. destruct IH as (l & F); [intros x I; apply H; right; exact I|].
      destruct (H r (or_introl eq_refl)) as (t & Ht & _). exists (t :: l). constructor; assumption. }
    destruct Q as (l & F). rewrite (proj2 (times_ok h refs l) F). cbn [bind]. assert (A : forall t, In t l -> equal_time t (sem, step)).
    { intros t I. destruct (forall2_right _ _ _ t F I) as (r & Ir & Hr). destruct (H r Ir) as (t' & Ht' & E). rewrite (time_at_det _ _ _ _ Hr Ht'). exact E. }
    rewrite (neighbours_returns sem step l A). cbn [bind]. destruct l as [|a l]; [inversion F; subst; congruence|].
    rewrite (proj2 (same_time_ok a (sem, step)) (A a (or_introl eq_refl))). reflexivity.
Qed.
Notation new_pwa := (new_pwa diff inter is_empty fulldim).
Definition not_other (s : sval D) : Prop := match s with SOther => False | _ => True end.
(** *** The constructors of PWA and switched systems *)
Definition time_accepted (h : @heap D) (refs : list nat) (sem : option string) (step : tstep) (overwrite : bool) : Prop :=
  overwrite = true \/ (refs <> [] /\ forall r, In r refs -> exists t, time_at h r t /\ equal_time t (sem, step)).
Definition extended (h : @heap D) (refs : list nat) (sem : option string) (step : tstep) (overwrite : bool) (o : @hobj D) (h' : @heap D) (r : nat) : Prop :=
  exists h1, h' = h1 ++ [o] /\ r = List.length h /\ if overwrite then retimed sem step (touched h refs) h h1 else h1 = h.
Lemma time_part (h : @heap D) refs sem step (overwrite : bool) o h' r :
  (do h1 <- (if overwrite then Ok (push_time sem step refs h) else (do _ <- check_time_consistency h refs sem step; Ok h)); Ok (h1 ++ [o], List.length h)) = Ok (h', r) ->
  time_accepted h refs sem step overwrite /\ extended h refs sem step overwrite o h' r.
Proof.
  destruct overwrite; cbn [bind]; intro H.
  - injection H as <- <-. split; [left; reflexivity|]. eexists. split; [reflexivity|]. split; [reflexivity|apply push_retimed].
  - destruct (check_time_consistency h refs sem step) as [[]|] eqn:E; [|discriminate H]. cbn [bind] in H. injection H as <- <-.
    split; [right; apply consistency_check, E|]. exists h. auto.
Qed.
Lemma time_part_returns (h : @heap D) refs sem step (overwrite : bool) o : time_accepted h refs sem step overwrite ->
  exists h' r, (do h1 <- (if overwrite then Ok (push_time sem step refs h) else (do _ <- check_time_consistency h refs sem step; Ok h)); Ok (h1 ++ [o], List.length h)) = Ok (h', r).
Proof. intro H. destruct overwrite; [cbn [bind]; eauto|]. destruct H as [H|H]; [discriminate H|]. rewrite (proj2 (consistency_check h refs sem step) H). cbn [bind]. eauto. Qed.
(** [PwaSysDyn] returns exactly if the domains of the systems divide the domain, and the time data are right. *)
Theorem pwa_returns h subs (domain : sval D) sem step overwrite : sound h ->
  ((exists h' r, new_pwa h subs domain sem step overwrite = Ok (h', r)) <->
   not_other domain /\ divided h subs domain /\ time_ok sem step /\ time_accepted h subs sem step overwrite).
Proof.
  intro S. unfold M_Hybrid.new_pwa. split.
  - intros (h' & r & H). destruct (is_set domain) eqn:I; [|discriminate H]. cbn [bind] in H.
    destruct (check_pieces _ _ _ _ h subs domain) as [u|] eqn:C; [|discriminate H]. cbn [bind] in H. apply (checked_spec h subs domain u S) in C.
    destruct (check_time_data sem step) as [v|] eqn:T; [|discriminate H]. cbn [bind] in H. apply check_time_ok in T. apply time_part in H. destruct H as [H _].
    split; [destruct domain; [exact Logic.I..|discriminate I]|auto].
  - intros (I & C & T & H). replace (is_set domain) with true by (destruct domain; [reflexivity..|destruct I]). cbn [bind].
    rewrite (proj2 (checked_spec h subs domain tt S) C). cbn [bind]. rewrite (proj2 (check_time_spec sem step) T). cbn [bind]. apply time_part_returns, H.
Qed.
(** What the call makes: the new object at the end, the parts with its time data, nothing else changed *)
Theorem pwa_made h subs domain sem step overwrite h' r : new_pwa h subs domain sem step overwrite = Ok (h', r) ->
  extended h subs sem step overwrite (HPwa (Pwa subs domain sem step)) h' r.
Proof.
  unfold M_Hybrid.new_pwa. intro H. destruct (is_set domain) eqn:I; [|discriminate H]. cbn [bind] in H.
  destruct (check_pieces _ _ _ _ h subs domain) as [u|] eqn:C; [|discriminate H]. cbn [bind] in H.
  destruct (check_time_data sem step) as [v|] eqn:T; [|discriminate H]. cbn [bind] in H. apply time_part in H. apply H.
Qed.
Lemma is_pwa_ok (h : @heap D) r : is_pwa h r = true <-> exists p, nth_error h r = Some (HPwa p).
Proof. unfold is_pwa. destruct (nth_error h r) as [[l|p|w]|]; split; try discriminate; try (intros (q & H); discriminate); eauto. Qed.
(** [SwitchedSysDyn] returns exactly if the modes are accepted, the systems are PWA systems and the time data are right. *)
Theorem switched_returns (h : @heap D) size dyn (ss : sval D) env sys sem step overwrite :
  (exists h' r, new_switched h size dyn ss env sys sem step overwrite = Ok (h', r)) <->
  not_other ss /\ (exists e, switched_modes (fst size) (snd size) env sys (map fst dyn) = Ok e) /\ (forall mk, In mk dyn -> exists p, nth_error h (snd mk) = Some (HPwa p)) /\
  time_ok sem step /\ time_accepted h (map snd dyn) sem step overwrite.
Proof.
  unfold M_Hybrid.new_switched. split.
  - intros (h' & r & H). destruct (is_set ss) eqn:I; [|discriminate H]. cbn [bind] in H.
    destruct (switched_modes _ _ _ _ _) as [e|] eqn:C; [|discriminate H]. cbn [bind] in H. destruct (forallb _ dyn) eqn:F; [|discriminate H]. cbn [bind] in H.
    destruct (check_time_data sem step) as [v|] eqn:T; [|discriminate H]. cbn [bind] in H. apply check_time_ok in T. apply time_part in H. destruct H as [H _].
    split; [destruct ss; [exact Logic.I..|discriminate I]|]. split; [eauto|]. split; [|auto]. intros mk J. rewrite forallb_forall in F. apply is_pwa_ok, F, J.
  - intros (I & (e & C) & P & T & H). replace (is_set ss) with true by (destruct ss; [reflexivity..|destruct I]). cbn [bind]. rewrite C. cbn [bind].
    replace (forallb _ dyn) with true; [|symmetry; apply forallb_forall; intros mk J; apply is_pwa_ok, P, J]. cbn [bind].
    rewrite (proj2 (check_time_spec sem step) T). cbn [bind]. apply time_part_returns, H.
Qed.
Theorem switched_made (h : @heap D) size dyn ss env sys sem step overwrite h' r : new_switched h size dyn ss env sys sem step overwrite = Ok (h', r) ->
  extended h (map snd dyn) sem step overwrite (HSw (Switched size dyn ss sem step)) h' r.
Proof.
  unfold M_Hybrid.new_switched. intro H. destruct (is_set ss) eqn:I; [|discriminate H]. cbn [bind] in H.
  destruct (switched_modes _ _ _ _ _) as [e|] eqn:C; [|discriminate H]. cbn [bind] in H. destruct (forallb _ dyn) eqn:F; [|discriminate H]. cbn [bind] in H.
  destruct (check_time_data sem step) as [v|] eqn:T; [|discriminate H]. cbn [bind] in H. apply time_part in H. apply H.
Qed.
(** *** Every object that the constructors make *)
Inductive built : @heap D -> Prop :=
| b_nil : built []
| b_lti h A B E K Uset Wset domain sem step h' r : built h -> new_lti h A B E K Uset Wset domain sem step = Ok (h', r) -> built h'
| b_pwa h subs domain sem step overwrite h' r : built h -> new_pwa h subs domain sem step overwrite = Ok (h', r) -> built h'
| b_sw h size dyn ss env sys sem step overwrite h' r : built h -> new_switched h size dyn ss env sys sem step overwrite = Ok (h', r) -> built h'.
Lemma divided_app h o p : divided h (p_subs p) (p_domain p) -> pwa_sound (h ++ [o]) p.
Proof. intro H. apply pwa_sound_app. exact H. Qed.
Lemma extended_sound (h : @heap D) refs sem step overwrite o h' r : sound h -> time_ok sem step -> extended h refs sem step overwrite o h' r -> exists h1, h' = h1 ++ [o] /\ sound h1 /\ exists P, retimed sem step P h h1.
Proof.
  intros S T (h1 & E & _ & H). exists h1. split; [exact E|]. destruct overwrite.
  - split; [eapply sound_retimed; eassumption|eauto].
  - subst h1. split; [exact S|]. exists (fun _ => False). apply retimed_none. auto.
Qed.
Theorem built_sound h : built h -> sound h.
Proof.
  intro B. induction B as [|h A B E K Uset Wset domain sem step h' r Bh IH H|h subs domain sem step overwrite h' r Bh IH H|h size dyn ss env sys sem step overwrite h' r Bh IH H].
  - intros r o H. destruct r; discriminate.
  - apply lti_returns in H. destruct H as (n & l & H1 & H2 & H3 & -> & _). apply sound_app; [exact IH|]. split; [apply (lti_shaped _ _ _ _ _ _ _ _ _ _ _ H1 H3)|].
    destruct H3 as (_ & _ & _ & _ & _ & _ & -> & -> & _). exact H2.
  - assert (R := proj1 (pwa_returns h subs domain sem step overwrite IH) (ex_intro _ h' (ex_intro _ r H))). destruct R as (_ & Dv & T & _).
    apply pwa_made in H. destruct (extended_sound _ _ _ _ _ _ _ _ IH T H) as (h1 & -> & S1 & P & R). apply sound_app; [exact S1|]. cbn [p_sem p_step]. split; [|exact T].
    destruct Dv as [E0|(d & ls & A1 & A2 & A3)]; [left; exact E0|right]. destruct (pieces_retimed _ _ _ _ _ _ _ _ R A2 A3) as (ls' & B1 & B2). exists d, ls'. auto.
  - assert (R := proj1 (switched_returns h size dyn ss env sys sem step overwrite) (ex_intro _ h' (ex_intro _ r H))). destruct R as (_ & _ & Dv & T & _).
    apply switched_made in H. destruct (extended_sound _ _ _ _ _ _ _ _ IH T H) as (h1 & -> & S1 & P & R). apply sound_app; [exact S1|]. cbn [w_sem w_step w_dyn]. split; [|exact T].
    intros mk I. destruct (Dv mk I) as (p & Hp). destruct R as [_ R]. destruct (R _ _ Hp) as [[_ Q]|[_ Q]]; eexists; exact Q.
Qed.
(** *** Time data of the parts *)
Definition parts (o : @hobj D) : list nat := match o with HLti _ => [] | HPwa p => p_subs p | HSw w => map snd (w_dyn w) end.
Definition clock (o : @hobj D) : option string * tstep :=
  match o with HLti l => (l_sem l, l_step l) | HPwa p => (p_sem p, p_step p) | HSw w => (w_sem w, w_step w) end.
Lemma component_parts h r s : component h r s <-> exists o, nth_error h r = Some o /\ In s (parts o).
Proof.
  unfold component. split.
  - intros [(p & H & I)|(w & H & I)]; eexists; (split; [exact H|exact I]).
  - intros ([l|p|w] & H & I); [destruct I|left; eauto|right; eauto].
Qed.
Lemma clock_set sem step o : clock (set_time sem step o) = (sem, step).
Proof. destruct o; reflexivity. Qed.
Lemma parts_set sem step o : parts (set_time sem step o) = parts o.
Proof. destruct o; reflexivity. Qed.
Lemma retimed_component sem step P h h1 r s : retimed sem step P h h1 -> (component h1 r s <-> component h r s).
Proof.
  intros [L R]. rewrite !component_parts. split.
  - intros (o & H & I). destruct (nth_error h r) as [o'|] eqn:N; [|apply nth_error_None in N; rewrite <- L in N; apply nth_error_None in N; congruence].
    destruct (R r o' N) as [[_ Q]|[_ Q]]; rewrite Q in H; injection H as <-; [rewrite parts_set in I|]; exists o'; auto.
  - intros (o & H & I). destruct (R r o H) as [[_ Q]|[_ Q]]; eexists; (split; [exact Q|]); [rewrite parts_set|]; exact I.
Qed.
Lemma app_component h o r s : component (h ++ [o]) r s <-> component h r s \/ (r = List.length h /\ In s (parts o)).
Proof.
  rewrite !component_parts. split.
  - intros (x & H & I). apply app_nth_inv in H. destruct H as [H|[-> ->]]; [left; eauto|right; auto].
  - intros [(x & H & I)|[-> I]]; [exists x; split; [apply app_nth, H|exact I]|]. exists o. split; [|exact I]. rewrite nth_error_app2, Nat.sub_diag; [reflexivity|lia].
Qed.
Lemma extended_retimed (h : @heap D) refs sem step overwrite o h' r : extended h refs sem step overwrite o h' r ->
  exists h1 P, h' = h1 ++ [o] /\ r = List.length h /\ List.length h1 = List.length h /\ retimed sem step P h h1 /\ (if overwrite then forall i, P i <-> touched h refs i else forall i, ~ P i).
Proof.
  intros (h1 & E & Er & R). destruct overwrite.
  - exists h1, (touched h refs). split; [exact E|]. split; [exact Er|]. split; [apply R|]. split; [exact R|tauto].
  - subst h1. exists h, (fun _ => False). split; [exact E|]. split; [exact Er|]. split; [reflexivity|]. split; [apply retimed_none; auto|auto].
Qed.
(** The parts of a new system have its time data. *)
Lemma parts_time (h : @heap D) refs sem step overwrite o h' r : time_accepted h refs sem step overwrite -> extended h refs sem step overwrite o h' r ->
  forall s, In s refs -> (exists x, nth_error h s = Some x) -> exists t, time_at h' s t /\ agree t (sem, step).
Proof.
  intros T X0 s I (x & Hx). apply extended_retimed in X0. destruct X0 as (h1 & P & -> & _ & _ & R & HP). destruct overwrite.
  - destruct R as [_ R]. destruct (R s x Hx) as [[_ Q]|[N _]].
    + exists (sem, step). split; [|left; reflexivity]. exists (set_time sem step x). split; [apply app_nth, Q|]. destruct x; reflexivity.
    + destruct N. apply HP. left. exact I.
  - destruct T as [T|[_ T]]; [discriminate T|]. destruct (T s I) as (t & Ht & E). exists t. split; [|right; exact E]. destruct Ht as (y & Hy & Et).
    destruct R as [_ R]. destruct (R s y Hy) as [[Y _]|[_ Q]]; [destruct (HP s Y)|]. exists y. split; [apply app_nth, Q|exact Et].
Qed.
Theorem pwa_time h subs domain sem step overwrite h' r : sound h -> new_pwa h subs domain sem step overwrite = Ok (h', r) ->
  time_at h' r (sem, step) /\ forall s, In s subs -> exists t, time_at h' s t /\ agree t (sem, step).
Proof.
  intros S H. assert (R := proj1 (pwa_returns h subs domain sem step overwrite S) (ex_intro _ h' (ex_intro _ r H))). destruct R as (_ & Dv & _ & T).
  apply pwa_made in H. split.
  - apply extended_retimed in H. destruct H as (h1 & P & -> & -> & L & _). exists (HPwa (Pwa subs domain sem step)). split; [|reflexivity].
    rewrite nth_error_app2, L, Nat.sub_diag; [reflexivity|lia].
  - intros s I. eapply parts_time; [exact T|exact H|exact I|]. destruct Dv as [->|(d & ls & _ & F & _)]; [destruct I|].
    destruct (forall2_left _ _ _ s F I) as (l & _ & Hl). exists (HLti l). exact Hl.
Qed.
Theorem switched_time h size dyn ss env sys sem step overwrite h' r : sound h -> new_switched h size dyn ss env sys sem step overwrite = Ok (h', r) ->
  time_at h' r (sem, step) /\ (forall mk, In mk dyn -> exists t, time_at h' (snd mk) t /\ agree t (sem, step)) /\
  (overwrite = true -> forall mk s, In mk dyn -> component h' (snd mk) s -> time_at h' s (sem, step)).
Proof.
  intros S H. assert (R := proj1 (switched_returns h size dyn ss env sys sem step overwrite) (ex_intro _ h' (ex_intro _ r H))). destruct R as (_ & _ & Dv & _ & T).
  apply switched_made in H. split; [|split].
  - apply extended_retimed in H. destruct H as (h1 & P & -> & -> & L & _). exists (HSw (Switched size dyn ss sem step)). split; [|reflexivity].
    rewrite nth_error_app2, L, Nat.sub_diag; [reflexivity|lia].
  - intros mk I. eapply parts_time; [exact T|exact H|apply in_map, I|]. destruct (Dv mk I) as (p & Hp). eauto.
  - intros -> mk s I C. apply extended_retimed in H. destruct H as (h1 & P & -> & -> & L & R & HP). destruct (Dv mk I) as (p & Hp).
    apply app_component in C. destruct C as [C|[E _]].
    2:{ exfalso. assert (snd mk < List.length h) by (apply nth_error_Some; congruence). lia. }
    apply (retimed_component _ _ _ _ _ _ _ R) in C. apply component_parts in C. destruct C as (o & Ho & Io). rewrite Hp in Ho. injection Ho as <-. cbn [parts] in Io.
    assert (Sp := S _ _ Hp). destruct Sp as [[E0|(d & ls & _ & F & _)] _]; [rewrite E0 in Io; destruct Io|]. destruct (forall2_left _ _ _ s F Io) as (l & _ & Hl).
    destruct R as [_ R]. destruct (R s _ Hl) as [[_ Q]|[N _]].
    + eexists. split; [apply app_nth, Q|reflexivity].
    + destruct N. apply HP. right. exists (snd mk). split; [apply in_map, I|]. unfold subs_of. rewrite Hp. exact Io.
Qed.
(** *** Systems that are parts of at most one other system *)
Inductive built_apart : @heap D -> Prop :=
| a_nil : built_apart []
| a_lti h A B E K Uset Wset domain sem step h' r : built_apart h -> new_lti h A B E K Uset Wset domain sem step = Ok (h', r) -> built_apart h'
| a_pwa h subs domain sem step overwrite h' r : built_apart h -> (forall s r, In s subs -> ~ component h r s) ->
    new_pwa h subs domain sem step overwrite = Ok (h', r) -> built_apart h'
| a_sw h size dyn ss env sys sem step overwrite h' r : built_apart h -> (forall s r, In s (map snd dyn) -> ~ component h r s) ->
    new_switched h size dyn ss env sys sem step overwrite = Ok (h', r) -> built_apart h'.
Lemma apart_built h : built_apart h -> built h.
Proof. intro B. induction B; [constructor|eapply b_lti; eassumption|eapply b_pwa; eassumption|eapply b_sw; eassumption]. Qed.
Lemma keeps_apart (h : @heap D) refs sem step overwrite o h' r :
  sound h -> consistent h -> unshared h -> (forall s q, In s refs -> ~ component h q s) -> parts o = refs -> clock o = (sem, step) ->
  (forall s, In s refs -> (exists l, nth_error h s = Some (HLti l)) \/ exists p, nth_error h s = Some (HPwa p)) ->
  time_accepted h refs sem step overwrite -> extended h refs sem step overwrite o h' r -> consistent h' /\ unshared h'.
Proof.
  intros S C U NC PO CO K T X0. assert (X1 := X0). apply extended_retimed in X0. destruct X0 as (h1 & P & -> & -> & L & R & HP). assert (R0 := R). destruct R as [_ R]. split.
  - intros q s t Cq Tq. apply app_component in Cq. destruct Cq as [Cq|[-> I]].
    + assert (Cq1 := Cq). apply (retimed_component _ _ _ _ _ _ _ R0) in Cq. assert (Cp := Cq). apply component_parts in Cp. destruct Cp as (oq & Hq & Iq).
      assert (TT : exists t0, time_at h q t0) by (exists (clock oq); exists oq; split; [exact Hq|reflexivity]). destruct TT as (t0 & Tq0).
      destruct (C q s t0 Cq Tq0) as (ts & (os & Hs & Ets) & As).
      destruct (R q oq Hq) as [[Pq Nq]|[Pq Nq]].
      * destruct overwrite; [|destruct (HP q Pq)]. assert (Et : t = (sem, step)).
        { destruct Tq as (x & Hx & ->). rewrite (app_nth _ _ _ _ Nq) in Hx. injection Hx as <-. destruct oq; reflexivity. }
        subst t. assert (Ps : P s).
        { apply HP. apply HP in Pq. destruct Pq as [Iq'|(q' & Iq' & J)].
          - right. exists q. split; [exact Iq'|]. destruct (K q Iq') as [(l & Hl)|(p & Hp)].
            + rewrite Hl in Hq. injection Hq as <-. destruct Iq.
            + unfold subs_of. rewrite Hp in Hq |- *. injection Hq as <-. exact Iq.
          - exfalso. unfold subs_of in J. destruct (nth_error h q') as [[l|p|w]|] eqn:Eq'; try destruct J. assert (Sp := S _ _ Eq').
            destruct Sp as [[E0|(d & ls & _ & F & _)] _]; [rewrite E0 in J; destruct J|]. destruct (forall2_left _ _ _ q F J) as (l & _ & Hl). unfold lti_at in Hl. rewrite Hl in Hq. injection Hq as <-. destruct Iq. }
        destruct (R s os Hs) as [[_ Ns]|[N _]]; [|destruct (N Ps)]. exists (sem, step). split; [|left; reflexivity].
        exists (set_time sem step os). split; [apply app_nth, Ns|destruct os; reflexivity].
      * assert (Ps : ~ P s).
        { intro Ps. destruct overwrite; [|destruct (HP s Ps)]. apply HP in Ps. destruct Ps as [Is|(q' & Iq' & J)]; [destruct (NC s q Is Cq)|].
          apply Pq. apply HP. left. replace q with q'; [exact Iq'|]. apply (U q' q s); [|exact Cq]. apply component_parts. unfold subs_of in J.
          destruct (nth_error h q') as [[l|p|w]|]; try destruct J. exists (HPwa p). split; [reflexivity|exact J]. }
        destruct (R s os Hs) as [[Y _]|[_ Ns]]; [destruct (Ps Y)|]. exists ts. split; [exists os; split; [apply app_nth, Ns|exact Ets]|].
        replace t with t0; [exact As|]. destruct Tq as (x & Hx & ->). rewrite (app_nth _ _ _ _ Nq) in Hx. injection Hx as <-. destruct Tq0 as (y & Hy & ->). rewrite Hq in Hy. injection Hy as <-. reflexivity.
    + assert (Et : t = (sem, step)).
      { destruct Tq as (x & Hx & ->). rewrite nth_error_app2, Nat.sub_diag in Hx by lia. injection Hx as <-. exact CO. }
      subst t. rewrite PO in I. destruct (parts_time h refs sem step overwrite o (h1 ++ [o]) _ T X1 s I) as (t & Ht & At); [destruct (K s I) as [(l & Hl)|(p & Hp)]; eauto|]. eauto.
  - intros q q' s Cq Cq'. apply app_component in Cq. apply app_component in Cq'. rewrite PO in *.
    destruct Cq as [Cq|[-> I]], Cq' as [Cq'|[-> I']].
    + apply (U q q' s); apply (retimed_component _ _ _ _ _ _ _ R0); assumption.
    + apply (retimed_component _ _ _ _ _ _ _ R0) in Cq. destruct (NC s q I' Cq).
    + apply (retimed_component _ _ _ _ _ _ _ R0) in Cq'. destruct (NC s q' I Cq').
    + reflexivity.
Qed.
Theorem apart_consistent h : built_apart h -> consistent h /\ unshared h.
Proof.
  intro B. assert (Bt := apart_built h B). induction B as [|h A B E K Uset Wset domain sem step h' r Bh IH H|h subs domain sem step overwrite h' r Bh IH NC H|h size dyn ss env sys sem step overwrite h' r Bh IH NC H].
  - split; intros q; intros; match goal with H : component [] _ _ |- _ => apply component_parts in H; destruct H as (o & H & _); destruct q; discriminate H end.
  - destruct (IH (apart_built h Bh)) as [C U]. apply lti_returns in H. destruct H as (n & l & _ & _ & _ & -> & _). split.
    + intros q s t Cq Tq. apply app_component in Cq. destruct Cq as [Cq|[_ []]]. assert (Cp := Cq). apply component_parts in Cp. destruct Cp as (o & Ho & _).
      destruct (C q s (clock o) Cq) as (t' & (os & Hs & Et) & At); [exists o; split; [exact Ho|reflexivity]|]. exists t'. split; [exists os; split; [apply app_nth, Hs|exact Et]|].
      replace t with (clock o); [exact At|]. destruct Tq as (x & Hx & ->). rewrite (app_nth _ _ _ _ Ho) in Hx. injection Hx as <-. reflexivity.
    + intros q q' s Cq Cq'. apply app_component in Cq. apply app_component in Cq'. destruct Cq as [Cq|[_ []]], Cq' as [Cq'|[_ []]]. eapply U; eassumption.
  - destruct (IH (apart_built h Bh)) as [C U]. assert (S := built_sound h (apart_built h Bh)).
    assert (R := proj1 (pwa_returns h subs domain sem step overwrite S) (ex_intro _ h' (ex_intro _ r H))). destruct R as (_ & Dv & _ & T). apply pwa_made in H.
    refine (keeps_apart _ _ _ _ _ _ _ _ S C U NC _ _ _ T H); [reflexivity|reflexivity|].
    intros s I. left. destruct Dv as [->|(d & ls & _ & F & _)]; [destruct I|]. destruct (forall2_left _ _ _ s F I) as (l & _ & Hl). exists l. exact Hl.
  - destruct (IH (apart_built h Bh)) as [C U]. assert (S := built_sound h (apart_built h Bh)).
    assert (R := proj1 (switched_returns h size dyn ss env sys sem step overwrite) (ex_intro _ h' (ex_intro _ r H))). destruct R as (_ & _ & Dv & _ & T). apply switched_made in H.
    refine (keeps_apart _ _ _ _ _ _ _ _ S C U NC _ _ _ T H); [reflexivity|reflexivity|].
    intros s I. right. apply in_map_iff in I. destruct I as (mk & <- & I). apply Dv, I.
Qed.
(** *** The factories *)
Notation pwa_from_lti := (pwa_from_lti dim diff inter is_empty fulldim nothing).
Notation switched_from_lti := (switched_from_lti dim diff inter is_empty fulldim nothing).
Notation switched_from_pwa := (switched_from_pwa diff inter is_empty fulldim).
Definition all_given (B E K : aval) : Prop := B <> ANone /\ E <> ANone /\ K <> ANone.
Lemma or_list_args n A B E K Uset Wset domain : args_ok n (or_list A) (or_list B) (or_list E) (or_list K) Uset Wset domain <-> args_ok n A B E K Uset Wset domain /\ all_given B E K.
Proof.
  unfold T_Hybrid.args_ok, all_given. split.
  - intros ((a & EA) & H1 & H2 & HB & HE & HK).
    destruct A; [discriminate EA|discriminate EA|]. destruct B as [| |sb b]; [destruct HB as [HB|(m & x & HB & _)]; discriminate HB..|].
    destruct E as [| |se e]; [destruct HE as [HE|(m & x & HE & _)]; discriminate HE..|]. destruct K as [| |sk k]; [destruct HK as [HK|(x & HK)]; discriminate HK..|].
    cbn [or_list] in *. split; [|repeat split; discriminate]. split; [eauto|]. auto.
  - intros [((a & ->) & H) (NB & NE & NK)]. split; [eexists; reflexivity|]. destruct B; [congruence|..]; (destruct E; [congruence|..]); (destruct K; [congruence|..]); exact H.
Qed.
(** [PwaSysDyn.from_lti] returns exactly if all matrices and the domain are given and fit. *)
Theorem pwa_from_lti_returns h A B E K Uset Wset domain : sound h ->
  ((exists h' r, pwa_from_lti h A B E K Uset Wset domain = Ok (h', r)) <->
   exists n d, args_ok n A B E K Uset Wset domain /\ all_given B E K /\ has_set domain d).
Proof.
  intro S. unfold M_Hybrid.pwa_from_lti. split.
  - intros (h' & r & H). destruct (new_lti h _ _ _ _ _ _ _ _ _) as [[h1 r1]|] eqn:EL; [|discriminate H]. cbn [bind fst snd] in H.
    apply lti_returns in EL. destruct EL as (n & l & H1 & H2 & H3 & -> & ->).
    assert (S1 : sound (h ++ [HLti l])).
    { apply sound_app; [exact S|]. split; [apply (lti_shaped _ _ _ _ _ _ _ _ _ _ _ H1 H3)|]. destruct H3 as (_ & _ & _ & _ & _ & _ & -> & -> & _). exact H2. }
    assert (R := proj1 (pwa_returns _ _ _ _ _ _ S1) (ex_intro _ h' (ex_intro _ r H))). destruct R as (_ & [Q|(d & ls & Hd & _)] & _); [discriminate Q|].
    apply or_list_args in H1. exists n, d. tauto.
  - intros (n & d & HA & HG & Hd). assert (HO := proj2 (or_list_args n A B E K Uset Wset domain) (Logic.conj HA HG)).
    assert (OA : or_list A = A /\ or_list B = B /\ or_list E = E /\ or_list K = K).
    { destruct HA as ((a & ->) & _), HG as (G1 & G2 & G3). split; [reflexivity|]. split; [destruct B; [congruence|reflexivity..]|]. split; [destruct E; [congruence|reflexivity..]|destruct K; [congruence|reflexivity..]]. }
    destruct OA as (-> & OB & OE & OK). rewrite OB, OE, OK in *. set (l := Lti A B E K Uset Wset domain None TNone).
    assert (T0 : time_ok None TNone) by (split; auto).
    assert (L : lti_for n A B E K Uset Wset domain None TNone l).
    { destruct HG as (G1 & G2 & G3). unfold T_Hybrid.lti_for, l. cbn. repeat (split; [first [reflexivity|destruct E; [congruence|..]; reflexivity|destruct K; [congruence|..]; reflexivity]|]). destruct E; [congruence|..]; reflexivity. }
    assert (EL : new_lti h A B E K Uset Wset domain None TNone = Ok (h ++ [HLti l], List.length h)) by (apply lti_returns; exists n, l; auto).
    rewrite EL. cbn [bind fst snd].
    assert (S1 : sound (h ++ [HLti l])) by (apply sound_app; [exact S|split; [apply (lti_shaped _ _ _ _ _ _ _ _ _ _ _ HA L)|exact T0]]).
    apply (pwa_returns _ _ _ _ _ _ S1). split; [destruct Hd as [->| ->]; exact Logic.I|]. split; [|split; [exact T0|left; reflexivity]].
    right. exists d, [l]. split; [exact Hd|]. split.
    + constructor; [|constructor]. unfold lti_at. rewrite nth_error_app2, Nat.sub_diag; [reflexivity|lia].
    + destruct HA as ((a & ->) & _ & _ & HB & HE & _), HG as (G1 & G2 & _). destruct HB as [HB|(m & b & -> & _)]; [congruence|]. destruct HE as [HE|(p & e & -> & _)]; [congruence|].
      exists [d], n, m, p. split; [constructor; [|constructor]|split; [|constructor; constructor]].
      * split; [exact Hd|]. unfold sizes, l. cbn. split; [exists n, a; reflexivity|]. split; [exists n, b; reflexivity|exists n, e; reflexivity].
      * eapply null_sub; [apply (diff_out d d)|]. cbn beta. intros x [Hx N]. destruct (N d (or_introl eq_refl) Hx).
Qed.
Lemma one_mode : exists e, switched_modes 1 1 None None (map fst [((state 0, state 0), 0)]) = Ok e.
Proof. eexists. vm_compute. reflexivity. Qed.
Lemma one_mode_returns h (ss : sval D) p : not_other ss -> nth_error h p = (Some (HPwa (Pwa [] ss None TNone)) : option (@hobj D)) \/ (exists q, nth_error h p = Some (HPwa q)) ->
  exists h' r, new_switched h (1, 1) [((state 0, state 0), p)] ss None None None TNone true = Ok (h', r).
Proof.
  intros N H. apply switched_returns. split; [exact N|]. split; [exact one_mode|]. split; [|split; [split; auto|left; reflexivity]].
  intros mk [<-|[]]. cbn [snd]. destruct H as [H|H]; eauto.
Qed.
Lemma last_pwa h subs domain sem step overwrite h' r : new_pwa h subs domain sem step overwrite = Ok (h', r) -> exists q, nth_error h' r = Some (HPwa q).
Proof.
  intro H. apply pwa_made in H. apply extended_retimed in H. destruct H as (h1 & P & -> & -> & L & _). eexists. rewrite nth_error_app2, L, Nat.sub_diag; [reflexivity|lia].
Qed.
(** [SwitchedSysDyn.from_pwa] and [SwitchedSysDyn.from_lti] return exactly if the constructor of the PWA system does. *)
Theorem switched_from_pwa_returns h subs domain : sound h ->
  ((exists h' r, switched_from_pwa h subs domain = Ok (h', r)) <-> not_other domain /\ divided h subs domain).
Proof.
  intro S. unfold M_Hybrid.switched_from_pwa. split.
  - intros (h' & r & H). destruct (new_pwa h subs domain None TNone true) as [[h1 r1]|] eqn:E; [|discriminate H].
    assert (R := proj1 (pwa_returns _ _ _ _ _ _ S) (ex_intro _ h1 (ex_intro _ r1 E))). tauto.
  - intros [N Dv]. destruct (proj2 (pwa_returns h subs domain None TNone true S)) as (h1 & r1 & E).
    { split; [exact N|]. split; [exact Dv|]. split; [split; auto|left; reflexivity]. }
    rewrite E. cbn [bind fst snd]. apply one_mode_returns; [exact N|right; eapply last_pwa, E].
Qed.
Theorem switched_from_lti_returns h A B E K Uset Wset domain : sound h ->
  ((exists h' r, switched_from_lti h A B E K Uset Wset domain = Ok (h', r)) <->
   exists n d, args_ok n A B E K Uset Wset domain /\ all_given B E K /\ has_set domain d).
Proof.
  intro S. rewrite <- (pwa_from_lti_returns h A B E K Uset Wset domain S). unfold M_Hybrid.switched_from_lti. split.
  - intros (h' & r & H). destruct (pwa_from_lti h A B E K Uset Wset domain) as [[h1 r1]|]; [eauto|discriminate H].
  - intros (h1 & r1 & H). assert (N : not_other domain).
    { destruct (proj1 (pwa_from_lti_returns h A B E K Uset Wset domain S) (ex_intro _ h1 (ex_intro _ r1 H))) as (n & d & _ & _ & [-> | ->]); exact Logic.I. }
    rewrite H. cbn [bind fst snd]. apply one_mode_returns; [exact N|right]. unfold M_Hybrid.pwa_from_lti in H.
    destruct (new_lti h _ _ _ _ _ _ _ _ _) as [[h0 r0]|]; [|discriminate H]. cbn [bind fst snd] in H. eapply last_pwa, H.
Qed.
(** The objects of the factories are built by the constructors. *)
Theorem factories_built h h' r : built h ->
  (exists A B E K Uset Wset domain, pwa_from_lti h A B E K Uset Wset domain = Ok (h', r) \/ switched_from_lti h A B E K Uset Wset domain = Ok (h', r)) \/
  (exists subs domain, switched_from_pwa h subs domain = Ok (h', r)) -> built h'.
Proof.
  intro Bh. assert (PL : forall A B E K Uset Wset domain h1 r1, pwa_from_lti h A B E K Uset Wset domain = Ok (h1, r1) -> built h1).
  { intros A B E K Uset Wset domain h1 r1 H. unfold M_Hybrid.pwa_from_lti in H. destruct (new_lti h _ _ _ _ _ _ _ _ _) as [[h0 r0]|] eqn:EL; [|discriminate H]. cbn [bind fst snd] in H.
    eapply b_pwa; [eapply b_lti; [exact Bh|exact EL]|exact H]. }
  intros [(A & B & E & K & Uset & Wset & domain & [H|H])|(subs & domain & H)].
  - eapply PL, H.
  - unfold M_Hybrid.switched_from_lti in H. destruct (pwa_from_lti h A B E K Uset Wset domain) as [[h1 r1]|] eqn:EP; [|discriminate H]. cbn [bind fst snd] in H. eapply b_sw; [eapply PL, EP|exact H].
  - unfold M_Hybrid.switched_from_pwa in H. destruct (new_pwa h subs domain None TNone true) as [[h1 r1]|] eqn:EP; [|discriminate H]. cbn [bind fst snd] in H. eapply b_sw; [eapply b_pwa; [exact Bh|exact EP]|exact H].
Qed.
End Cover.
End Theorems.

(** ** Concrete sets: finite sets of points of a line *)
Definition fdim (d : list nat) : nat := 1.
Definition fdiff (a b : list nat) : list nat := filter (fun x => negb (existsb (Nat.eqb x) b)) a.
Definition finter (a b : list nat) : list nat := filter (fun x => existsb (Nat.eqb x) b) a.
Definition fempty (a : list nat) : bool := match a with [] => true | _ => false end.
Definition ffull (a : list nat) : bool := match a with [] => false | _ => true end.
Definition fpts (d : list nat) (x : nat) : Prop := In x d.
Definition fnull (P : nat -> Prop) : Prop := forall x, ~ P x.
Lemma fmem x l : existsb (Nat.eqb x) l = true <-> In x l.
Proof. rewrite existsb_exists. split; [intros (y & I & E); apply Nat.eqb_eq in E; subst; exact I|intro I; exists x; split; [exact I|apply Nat.eqb_refl]]. Qed.
Lemma fdiff_spec a b x : fpts (fdiff a b) x <-> fpts a x /\ ~ fpts b x.
Proof.
  unfold fpts, fdiff. rewrite filter_In, negb_true_iff. assert (M := fmem x b). destruct (existsb (Nat.eqb x) b).
  - split; [intros [_ H]; discriminate|]. intros [_ H]. destruct H. apply M. reflexivity.
  - split; [intros [H _]; split; [exact H|]; intro I; apply M in I; discriminate|]. intros [H _]. auto.
Qed.
Lemma finter_spec a b x : fpts (finter a b) x <-> fpts a x /\ fpts b x.
Proof. unfold fpts, finter. rewrite filter_In, fmem. reflexivity. Qed.
Lemma fempty_spec a : fempty a = true <-> fnull (fpts a).
Proof. unfold fnull, fpts. destruct a as [|x a]; cbn; split; try discriminate; auto. intro H. destruct (H x). left. reflexivity. Qed.
Lemma ffull_spec a : ffull a = false <-> fnull (fpts a).
Proof. unfold fnull, fpts. destruct a as [|x a]; cbn; split; try discriminate; auto. intro H. destruct (H x). left. reflexivity. Qed.
Lemma fdec a x : fpts a x \/ ~ fpts a x.
Proof. unfold fpts. destruct (in_dec Nat.eq_dec x a); auto. Qed.
Notation f_lti := (new_lti fdim []).
Notation f_pwa := (new_pwa fdiff finter fempty ffull).
Notation f_sw := (@new_switched (list nat)).
Notation f_built := (built fdim fdiff finter fempty ffull []).
Notation f_apart := (built_apart fdim fdiff finter fempty ffull []).
Notation f_sound := (sound fdim fpts fnull).
Theorem f_built_sound h : f_built h -> f_sound h.
Proof.
  apply built_sound.
  - intros A B N H x Hx. apply (N x), H, Hx.
  - intros A B N1 N2 x [H|H]; [apply (N1 x), H|apply (N2 x), H].
  - intros a b x H1 H2. apply fdiff_spec. auto.
  - intros a b x H. apply fdiff_spec in H. apply H.
  - intros a b x [H1 H2]. apply fdiff_spec in H1. destruct H1. auto.
  - apply finter_spec.
  - apply fempty_spec.
  - apply ffull_spec.
  - apply fdec.
Qed.
Definition ident : aval := AArr [1; 1] (fun _ _ => 1%Qc).
(** The states of a program that makes systems: two pieces, a PWA system of both, and a switched system with one mode *)
Definition after (r : res (@heap (list nat) * nat)) : @heap (list nat) := match r with Ok (h, _) => h | _ => [] end.
Definition ok {A} (r : res A) : bool := match r with Ok _ => true | _ => false end.
Definition h1 := after (f_lti [] ident ident ANone ANone SNone SNone (SPol [0; 1]) (Some "sampled") (TInt 1)).
Definition h2 := after (f_lti h1 ident ident ident ANone (SPol [3; 4]) SNone (SReg [2]) None TNone).
Definition h3 := after (f_pwa h2 [0; 1] (SPol [0; 1; 2]) (Some "sampled") (TFloat (Fin (Q2Qc (1 # 2)))) true).
Definition h4 := after (f_sw h3 (1, 1) [((state 0, state 0), 2)] SNone None None (Some "sampled") (TInt 2) true).
Lemma after_ok r : ok r = true -> exists k, r = Ok (after r, k).
Proof. destruct r as [[h k]|]; [exists k; reflexivity|discriminate]. Qed.
Theorem example_apart : f_apart h4 /\ List.length h4 = 4.
Proof.
  assert (N : forall (h : @heap (list nat)) refs, (forallb (fun o => match o with HLti _ => true | _ => false end) h) = true -> forall s r, In s refs -> ~ component h r s).
  { intros h refs F s r I C. apply component_parts in C. destruct C as (o & H & J). rewrite forallb_forall in F. assert (Fo := F o (nth_error_In _ _ H)). destruct o; try discriminate. destruct J. }
  assert (A1 : f_apart h1).
  { destruct (after_ok (f_lti [] ident ident ANone ANone SNone SNone (SPol [0; 1]) (Some "sampled") (TInt 1))) as (k & E); [vm_compute; reflexivity|].
    eapply a_lti; [apply a_nil|exact E]. }
  assert (A2 : f_apart h2).
  { destruct (after_ok (f_lti h1 ident ident ident ANone (SPol [3; 4]) SNone (SReg [2]) None TNone)) as (k & E); [vm_compute; reflexivity|].
    eapply a_lti; [exact A1|exact E]. }
  assert (A3 : f_apart h3).
  { destruct (after_ok (f_pwa h2 [0; 1] (SPol [0; 1; 2]) (Some "sampled") (TFloat (Fin (Q2Qc (1 # 2)))) true)) as (k & E); [vm_compute; reflexivity|].
    eapply a_pwa; [exact A2| |exact E]. apply N. vm_compute. reflexivity. }
  split; [|vm_compute; reflexivity].
  destruct (after_ok (f_sw h3 (1, 1) [((state 0, state 0), 2)] SNone None None (Some "sampled") (TInt 2) true)) as (k & E); [vm_compute; reflexivity|].
  eapply a_sw; [exact A3| |exact E]. intros s r [<-|[]] C. apply component_parts in C. destruct C as (o & H & J).
  destruct r as [|[|[|r]]]; vm_compute in H; try (destruct r; discriminate H); injection H as <-; vm_compute in J; intuition discriminate.
Qed.
(** All four objects have the time data of the last one. *)
Example example_times : map (fun r => time_of h4 r) [0; 1; 2; 3] = repeat (Ok (Some "sampled", TInt 2)) 4.
Proof. vm_compute. reflexivity. Qed.
Example example_sound : f_sound h4.
Proof. apply f_built_sound, (apart_built fdim fdiff finter fempty ffull []), example_apart. Qed.
(** Overlapping domains, a part of the domain that is left over, other sizes, other time data are rejected. *)
Example rejected :
  ok (f_pwa h2 [0; 1] (SPol [0; 1; 2; 3]) None TNone true) = false /\ ok (f_pwa h2 [0; 0] (SPol [0; 1]) None TNone true) = false /\
  ok (f_pwa h2 [0] (SPol [0; 1]) (Some "sampled") (TInt 2) false) = false /\ ok (f_pwa h2 [0] (SPol [0; 1]) (Some "sampled") (TFloat (Fin 1%Qc)) false) = true /\
  ok (f_pwa h2 [0] (SPol [0]) None TNone true) = true.
Proof. vm_compute. auto. Qed.

(** ** What the constructors do not ensure *)
(** Two PWA systems of the same pieces: the time data of the first one are not those of its pieces. *)
Definition h5 := after (f_pwa h3 [0; 1] (SPol [0; 1; 2]) (Some "sampled") (TInt 7) true).
Theorem shared_time_refuted : f_built h5 /\ ~ consistent h5.
Proof.
  split.
  - destruct (after_ok (f_pwa h3 [0; 1] (SPol [0; 1; 2]) (Some "sampled") (TInt 7) true)) as (k & E); [vm_compute; reflexivity|].
    eapply b_pwa; [|exact E]. destruct (after_ok (f_pwa h2 [0; 1] (SPol [0; 1; 2]) (Some "sampled") (TFloat (Fin (Q2Qc (1 # 2)))) true)) as (k' & E'); [vm_compute; reflexivity|].
    eapply b_pwa; [|exact E']. destruct (after_ok (f_lti h1 ident ident ident ANone (SPol [3; 4]) SNone (SReg [2]) None TNone)) as (k2 & E2); [vm_compute; reflexivity|].
    eapply b_lti; [|exact E2]. destruct (after_ok (f_lti [] ident ident ANone ANone SNone SNone (SPol [0; 1]) (Some "sampled") (TInt 1))) as (k1 & E1); [vm_compute; reflexivity|].
    eapply b_lti; [apply b_nil|exact E1].
  - intro C. destruct (C 2 0 (Some "sampled", TFloat (Fin (Q2Qc (1 # 2))))) as (t & T & A).
    + left. eexists. split; [reflexivity|]. left. reflexivity.
    + eexists. split; [reflexivity|]. reflexivity.
    + apply time_of_ok in T. assert (E : t = (Some "sampled", TInt 7)) by (cut (time_of h5 0 = Ok (Some "sampled", TInt 7)); [congruence|reflexivity]). subst t.
      destruct A as [A|[_ A]]; [discriminate A|]. cbn [snd same_number] in A. apply Q2Qc_eq_iff in A. discriminate A.
Qed.
(** A positive real or integer *)
Definition positive_number (t : tstep) : Prop := match t with TInt z => (0 < z)%Z | TFloat (Fin v) => (0 < v)%Qc | _ => False end.
Theorem timestep_positive_refuted : exists t : tstep, check_time_data (Some "sampled") t = Ok tt /\ t <> TNone /\ ~ positive_number t /\
  step_eqb t t = false.
Proof. exists (TFloat NaN). repeat split; try discriminate. intros []. Qed.
(** A piece with the time data of the call is rejected, if the duration is NaN. *)
Definition hn := after (f_lti [] ident ident ANone ANone SNone SNone (SPol [0; 1]) (Some "sampled") (TFloat NaN)).
Theorem nan_consistency_refuted : time_at hn 0 (Some "sampled", TFloat NaN) /\ f_pwa hn [0] (SPol [0; 1]) (Some "sampled") (TFloat NaN) false = Err "ValueError".
Proof. split; [eexists; split; reflexivity|vm_compute; reflexivity]. Qed.
(** [LtiSysDyn] does without [E] and [K]; [PwaSysDyn.from_lti] and [SwitchedSysDyn.from_lti], with the same defaults, do not. *)
Theorem from_lti_default_refuted : ok (f_lti [] ident ident ANone ANone SNone SNone (SPol [0; 1]) None TNone) = true /\
  pwa_from_lti fdim fdiff finter fempty ffull [] [] ident ident ANone ident SNone SNone (SPol [0; 1]) = Err "AttributeError" /\
  switched_from_lti fdim fdiff finter fempty ffull [] [] ident ident ident ANone SNone SNone (SPol [0; 1]) = Err "AttributeError".
Proof. repeat split; vm_compute; reflexivity. Qed.
(** All arguments have the default [None]; without [A] there is always an error. *)
Theorem lti_default_refuted {D} dim (nothing : D) h B E K Uset Wset domain sem step r : new_lti dim nothing h ANone B E K Uset Wset domain sem step <> Ok r.
Proof. intro H. destruct r as [h' r]. apply lti_returns in H. destruct H as (n & l & ((a & H) & _) & _). discriminate H. Qed.
(** The domains of the modes of a switched system need not have to do with its state space, nor with each other. *)
Theorem switched_domain_refuted : exists h' r, f_sw h3 (1, 1) [((state 0, state 0), 2)] (SPol [8; 9]) None None None TNone true = Ok (h', r) /\
  exists p, nth_error h' 2 = Some (HPwa p) /\ p_domain p = SPol [0; 1; 2].
Proof. eexists. eexists. split; [reflexivity|]. eexists. split; reflexivity. Qed.
(** A system without parts and [overwrite_time=False] *)
Theorem no_parts_refuted : ok (f_pwa [] [] SNone None TNone true) = true /\ f_pwa [] [] SNone None TNone false = Err "IndexError".
Proof. split; reflexivity. Qed.

Print Assumptions lti_returns.
Print Assumptions lti_shaped.
Print Assumptions pwa_returns.
Print Assumptions pwa_made.
Print Assumptions switched_returns.
Print Assumptions switched_made.
Print Assumptions built_sound.
Print Assumptions consistency_check.
Print Assumptions pwa_time.
Print Assumptions switched_time.
Print Assumptions apart_consistent.
Print Assumptions pwa_from_lti_returns.
Print Assumptions switched_from_lti_returns.
Print Assumptions switched_from_pwa_returns.
Print Assumptions factories_built.
Print Assumptions example_apart.
Print Assumptions f_built_sound.
Print Assumptions shared_time_refuted.
Print Assumptions timestep_positive_refuted.
Print Assumptions nan_consistency_refuted.
Print Assumptions from_lti_default_refuted.
Print Assumptions lti_default_refuted.
Print Assumptions switched_domain_refuted.
Print Assumptions no_parts_refuted.
