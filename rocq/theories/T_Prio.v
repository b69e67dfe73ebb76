(** C44: a prioritized specification lists its rules by level. *)
From Coq Require Import List String Bool ZArith Lia Permutation Sorted.
From Verif Require Import M_Base M_Prio.
Import ListNotations.
Open Scope string_scope.
Open Scope list_scope.
Open Scope nat_scope.

Section Prio.
  Context {F P : Type} (aps : F -> P) (peqb : P -> P -> bool) (no_aps : P).
  Notation spec := (spec F P).
  Notation rule := (rule F).

  (** ** What the calls add, independently of the data structure *)
  (** The rules whose addition succeeds, in the order of the calls: priority and level must be
      right, and the propositions those of the first rule. *)
  Fixpoint added (first : option P) (l : list (F * priority * Z)) : list rule :=
    match l with
    | [] => []
    | (fa, p, lev) :: r =>
        match p with
        | PInt z => if Z.ltb 0 z && Z.leb 0 lev && match first with None => true | Some q => peqb q (aps fa) end
                    then Rule fa z (Z.to_nat lev) :: added (Some match first with None => aps fa | Some q => q end) r
                    else added first r
        | PFloat _ => added first r
        end
    end.
  Definition at_level (l : nat) (rs : list rule) : list rule := filter (fun r => Nat.eqb (r_level r) l) rs.

  (** The invariant: level [l] has the added rules of that level. *)
  Definition holds (s : spec) (rs : list rule) : Prop :=
    (forall l, nth l (s_psi s) [] = at_level l rs) /\ (s_psi s = [] <-> rs = []).

  Lemma nth_pad n : forall psi l, nth l (pad_to (F := F) n psi) [] = nth l psi [].
  Proof.
    induction n as [|n IH]; intros psi l; [destruct psi; reflexivity|]. destruct psi as [|x r]; cbn [pad_to].
    - destruct l as [|l]; [reflexivity|]. cbn [nth]. rewrite IH. destruct l; reflexivity.
    - destruct l as [|l]; [reflexivity|]. cbn [nth]; apply IH.
  Qed.
  Lemma length_pad n : forall psi, List.length (pad_to (F := F) n psi) = Nat.max n (List.length psi).
  Proof. induction n as [|n IH]; intros [|x r]; cbn [pad_to List.length]; rewrite ?IH; cbn; lia. Qed.
  Lemma nth_append n : forall psi l (x : rule), n < List.length psi -> nth l (append_at n x psi) [] = if Nat.eqb l n then nth l psi [] ++ [x] else nth l psi [].
  Proof.
    induction n as [|n IH]; intros [|y r] l x L; cbn in L; try lia; destruct l as [|l]; try reflexivity. cbn [append_at nth]. rewrite IH by lia. reflexivity.
  Qed.
  Lemma length_append n : forall psi (x : rule), List.length (append_at n x psi) = List.length psi.
  Proof. induction n as [|n IH]; intros [|y r] x; try reflexivity. cbn. rewrite IH. reflexivity. Qed.
  Lemma at_level_app l a b : at_level l (a ++ b) = at_level l a ++ at_level l b.
  Proof. apply filter_app. Qed.

  Lemma append_at_nonempty n x psi : psi <> [] -> append_at (F := F) n x psi <> [].
  Proof. destruct psi as [|y r]; [congruence|]. destruct n; discriminate. Qed.
  Lemma pad_nonempty n psi : pad_to (F := F) (S n) psi <> [].
  Proof. destruct psi; discriminate. Qed.

  Lemma add_holds s rs fa z lev : holds s rs -> holds (Spec (append_at lev (Rule fa z lev) (pad_to (S lev) (s_psi s))) (s_aps s) (s_level s) (s_index s)) (rs ++ [Rule fa z lev]).
  Proof.
    intros [A B]. split; cbn [s_psi].
    - intro l. rewrite nth_append by (rewrite length_pad; lia). rewrite nth_pad, A, at_level_app.
      assert (X : at_level l [Rule fa z lev] = if Nat.eqb l lev then [Rule fa z lev] else []). { unfold at_level. cbn [filter r_level]. rewrite (Nat.eqb_sym lev l). reflexivity. }
      rewrite X. destruct (Nat.eqb l lev); [reflexivity|symmetry; apply app_nil_r].
    - split; [intro H; exfalso; revert H; apply append_at_nonempty, pad_nonempty|intro H; destruct rs; discriminate].
  Qed.

  (** All calls: the state has exactly the added rules. *)
  Lemma add_all_holds calls : forall s rs, holds s rs -> 
    holds (add_all aps peqb calls s) (rs ++ added (match rs with [] => None | _ => Some (s_aps s) end) calls).
  Proof.
    induction calls as [|[[fa p] lev] calls IH]; intros s rs H; [cbn [added]; rewrite app_nil_r; exact H|].
    change (add_all aps peqb ((fa, p, lev) :: calls) s) with (add_all aps peqb calls (fst (add_rule aps peqb fa p lev s))). cbn [added].
    pose proof (proj2 H) as E. unfold add_rule.
    destruct p as [z|b]; cbn [positive].
    - destruct (Z.ltb 0 z) eqn:Z0; cbn [negb andb]; [|apply IH, H].
      rewrite (Z.leb_antisym lev 0). destruct (Z.ltb lev 0) eqn:L0; cbn [negb andb fst]; [apply IH, H|].
      destruct (s_psi s) as [|y r] eqn:Ps.
      + rewrite (proj1 E eq_refl) in H |- *. cbn [fst]. assert (H0 : holds (Spec [] (aps fa) (s_level s) (s_index s)) []). { split; [intros [|l]; reflexivity|cbn; tauto]. }
        specialize (IH _ _ (add_holds _ [] fa z (Z.to_nat lev) H0)).
        cbn [s_psi s_aps s_level s_index app] in IH |- *. exact IH.
      + assert (NE : rs <> []) by (intro K; apply E in K; discriminate). destruct rs as [|r0 rs']; [congruence|].
        destruct (peqb (s_aps s) (aps fa)); cbn [andb fst]; [|apply IH, H].
        specialize (IH _ _ (add_holds s _ fa z (Z.to_nat lev) H)). cbn [s_aps app] in IH |- *.
        rewrite <- app_assoc in IH. exact IH.
    - destruct b; cbn [negb]; [|apply IH, H]. destruct (Z.ltb lev 0); [apply IH, H|].
      destruct (s_psi s) as [|y r] eqn:Ps.
      + cbn [fst]. rewrite (proj1 E eq_refl) in H |- *. apply (IH _ []). split; [intros [|l]; reflexivity|cbn; tauto].
      + destruct (peqb (s_aps s) (aps fa)); apply IH, H.
  Qed.
  Definition after (calls : list (F * priority * Z)) : spec := add_all aps peqb calls (new_spec no_aps).
  Lemma after_holds calls : holds (after calls) (added None calls).
  Proof. apply (add_all_holds calls (new_spec no_aps) []). split; [intros [|l]; reflexivity|cbn; tauto]. Qed.

  (** ** The rules by level *)
  Lemma concat_levels : forall (psi : list (list rule)) from rs, (forall l, nth l psi [] = at_level (from + l) rs) ->
    Permutation (List.concat psi) (filter (fun r => Nat.leb from (r_level r)) rs) ->
    StronglySorted (fun a b => r_level a <= r_level b) (List.concat psi) /\ forall l, at_level l (List.concat psi) = if Nat.leb from l then at_level l rs else [].
  Proof.
    induction psi as [|x psi IH]; intros from rs N Pm.
    - cbn. split; [constructor|]. intro l. destruct (Nat.leb_spec from l) as [H|H]; [|reflexivity].
      specialize (N (l - from)). replace (from + (l - from)) with l in N by lia. rewrite <- N. destruct (l - from); reflexivity.
    - cbn [List.concat] in *. assert (X : x = at_level from rs). { specialize (N 0). rewrite Nat.add_0_r in N. exact N. }
      assert (N' : forall l, nth l psi [] = at_level (S from + l) rs). { intro l. specialize (N (S l)). rewrite Nat.add_succ_r in N. exact N. }
      assert (SPLIT : forall l : list rule, Permutation (filter (fun r => Nat.leb from (r_level r)) l) (at_level from l ++ filter (fun r => Nat.leb (S from) (r_level r)) l)).
      { induction l as [|a l IHl]; [constructor|]. cbn [filter]. unfold at_level. cbn [filter]. fold (at_level from l).
        destruct (Nat.eqb_spec (r_level a) from) as [E|E].
        - rewrite E, Nat.leb_refl. replace (Nat.leb (S from) from) with false by (symmetry; apply Nat.leb_gt; lia). cbn [app]. constructor. exact IHl.
        - destruct (Nat.leb_spec from (r_level a)) as [L|L].
          + replace (Nat.leb (S from) (r_level a)) with true by (symmetry; apply Nat.leb_le; lia). rewrite IHl. apply Permutation_middle.
          + replace (Nat.leb (S from) (r_level a)) with false by (symmetry; apply Nat.leb_gt; lia). exact IHl. }
      assert (Pm' : Permutation (List.concat psi) (filter (fun r => Nat.leb (S from) (r_level r)) rs)).
      { rewrite (SPLIT rs), X in Pm. eapply Permutation_app_inv_l; exact Pm. }
      destruct (IH (S from) rs N' Pm') as [S1 S2]. split.
      + assert (LX : forall a, In a x -> r_level a = from). { intros a J. rewrite X in J. apply filter_In in J. apply Nat.eqb_eq, J. }
        assert (LR : forall a, In a (List.concat psi) -> from <= r_level a).
        { intros a J. apply (Permutation_in a Pm') in J. apply filter_In in J. destruct J as [_ J]. apply Nat.leb_le in J. lia. }
        clear -S1 LX LR. induction x as [|a x IHx]; [exact S1|]. cbn [app]. constructor.
        * apply IHx. intros b J. apply LX. right. exact J.
        * apply Forall_forall. intros b J. rewrite (LX a (or_introl eq_refl)). apply in_app_or in J. destruct J as [J|J]; [rewrite (LX b (or_intror J)); lia|apply LR, J].
      + intro l. rewrite at_level_app, S2. rewrite X. destruct (Nat.leb_spec (S from) l) as [H|H].
        * replace (Nat.leb from l) with true by (symmetry; apply Nat.leb_le; lia).
          assert (Y : at_level l (at_level from rs) = []).
          { unfold at_level. clear -H. induction rs as [|a rs IHr]; [reflexivity|]. cbn [filter]. destruct (Nat.eqb_spec (r_level a) from) as [E|E]; [|exact IHr].
            cbn [filter]. rewrite E. replace (Nat.eqb from l) with false by (symmetry; apply Nat.eqb_neq; lia). exact IHr. }
          rewrite Y. reflexivity.
        * rewrite app_nil_r. destruct (Nat.leb_spec from l) as [K|K].
          -- assert (l = from) by lia. subst l. unfold at_level. clear. induction rs as [|a rs IHr]; [reflexivity|]. cbn [filter].
             destruct (Nat.eqb (r_level a) from) eqn:E; [|exact IHr]. cbn [filter]. rewrite E. f_equal. exact IHr.
          -- unfold at_level. clear -K. induction rs as [|a rs IHr]; [reflexivity|]. cbn [filter]. destruct (Nat.eqb_spec (r_level a) from) as [E|E]; [|exact IHr].
             cbn [filter]. rewrite E. replace (Nat.eqb from l) with false by (symmetry; apply Nat.eqb_neq; lia). exact IHr.
  Qed.
  Lemma concat_perm : forall (psi : list (list rule)) from rs, (forall l, nth l psi [] = at_level (from + l) rs) -> (forall r, In r rs -> from <= r_level r) ->
    Permutation (List.concat psi) rs.
  Proof.
    induction psi as [|x psi IH]; intros from rs N LV.
    - destruct rs as [|r rs]; [constructor|]. exfalso. pose proof (LV r (or_introl eq_refl)) as L. specialize (N (r_level r - from)).
      replace (from + (r_level r - from)) with (r_level r) in N by lia. unfold at_level in N. cbn [filter] in N. rewrite Nat.eqb_refl in N.
      destruct (r_level r - from); discriminate.
    - cbn [List.concat]. assert (X : x = at_level from rs). { specialize (N 0). rewrite Nat.add_0_r in N. exact N. }
      set (rest := filter (fun r => negb (Nat.eqb (r_level r) from)) rs).
      assert (PR : Permutation rs (at_level from rs ++ rest)).
      { unfold rest, at_level. clear. induction rs as [|a rs IH]; [constructor|]. cbn [filter]. destruct (Nat.eqb (r_level a) from); cbn [negb app].
        - constructor. exact IH.
        - rewrite IH at 1. apply Permutation_middle. }
      rewrite PR, X. apply Permutation_app_head. apply (IH (S from)).
      + intro l. specialize (N (S l)). rewrite Nat.add_succ_r in N. cbn [nth] in N. rewrite N. unfold rest, at_level. clear. induction rs as [|a rs IH]; [reflexivity|].
        cbn [filter]. destruct (Nat.eqb_spec (r_level a) from) as [E|E]; cbn [negb filter].
        * rewrite E. replace (Nat.eqb from (S (from + l))) with false by (symmetry; apply Nat.eqb_neq; lia). exact IH.
        * change (S from + l) with (S (from + l)). destruct (Nat.eqb (r_level a) (S (from + l))); [f_equal|]; exact IH.
      + intros r J. apply filter_In in J. destruct J as [J K]. apply negb_true_iff, Nat.eqb_neq in K. pose proof (LV r J). lia.
  Qed.

  (** Every added rule is listed once, by increasing level, in the order of addition within a level. *)
  Theorem get_rules_spec calls : let s := after calls in let rs := added None calls in
    Permutation (get_rules s) rs /\ StronglySorted (fun a b => r_level a <= r_level b) (get_rules s) /\
    (forall l, at_level l (get_rules s) = at_level l rs) /\ len s = List.length rs.
  Proof.
    cbn zeta. destruct (after_holds calls) as [A B]. set (s := after calls) in *. set (rs := added None calls) in *.
    assert (Pm : Permutation (get_rules s) rs). { apply (concat_perm _ 0); [exact A|]. intros; lia. }
    split; [exact Pm|]. destruct (concat_levels (s_psi s) 0 rs A) as [S1 S2].
    { rewrite Pm. clear. assert (X : filter (fun r => Nat.leb 0 (r_level r)) rs = rs); [|rewrite X; reflexivity]. clearbody rs. induction rs as [|r rs IH]; [reflexivity|]. cbn. f_equal. exact IH. }
    split; [exact S1|]. split; [exact S2|]. rewrite <- (Permutation_length Pm). unfold len, get_rules. clear. induction (s_psi s) as [|x l IH]; [reflexivity|].
    cbn [map fold_right List.concat]. rewrite app_length, IH. reflexivity.
  Qed.
  Theorem get_rules_at_spec calls level : (0 <= level)%Z -> get_rules_at level (after calls) = Ok (at_level (Z.to_nat level) (added None calls)).
  Proof.
    intro L. destruct (after_holds calls) as [A B]. unfold get_rules_at. rewrite <- A. destruct (Z.leb_spec (Z.of_nat (List.length (s_psi (after calls)))) level) as [H|H].
    - rewrite nth_overflow; [reflexivity|lia].
    - replace (Z.leb 0 level) with true by (symmetry; apply Z.leb_le; exact L). reflexivity.
  Qed.

  (** ** Indexing *)
  Lemma getitem_from_spec (psi : list (list rule)) : forall key, getitem_from psi key = match nth_error (List.concat psi) key with Some x => Ok x | None => Err "IndexError" end.
  Proof.
    induction psi as [|l psi IH]; intro key; [destruct key; reflexivity|]. cbn [getitem_from List.concat]. destruct (Nat.leb_spec (List.length l) key) as [H|H].
    - rewrite IH, nth_error_app2 by exact H. reflexivity.
    - rewrite nth_error_app1 by exact H. reflexivity.
  Qed.
  Theorem getitem_spec (s : spec) key : getitem s key =
    if Z.ltb key 0 then Err "AssertionError" else match nth_error (get_rules s) (Z.to_nat key) with Some x => Ok x | None => Err "IndexError" end.
  Proof. unfold getitem. rewrite getitem_from_spec. reflexivity. Qed.

  (** ** Iteration *)
  (** What is left for the cursor. *)
  Definition remaining (s : spec) : list rule :=
    match skipn (s_level s) (s_psi s) with [] => [] | l :: r => skipn (s_index s) l ++ List.concat r end.
  Lemma next_from_spec (rest : list (list rule)) : forall lev idx, let '(lev', idx', o) := next_from rest lev idx in
    match rest with [] => [] | l :: r => skipn idx l ++ List.concat r end =
      match o with None => [] | Some x => x :: match skipn (lev' - lev) rest with [] => [] | l :: r => skipn idx' l ++ List.concat r end end /\
    lev <= lev' /\ (o = None -> lev' - lev = List.length rest).
  Proof.
    induction rest as [|l rest IH]; intros lev idx; cbn [next_from].
    - split; [reflexivity|]. split; [lia|]. cbn. lia.
    - destruct (nth_error l idx) as [x|] eqn:E.
      + rewrite Nat.sub_diag. cbn [skipn]. split; [|split; [lia|discriminate]]. clear -E. revert l E. induction idx as [|i IHi]; intros [|a l] E; try discriminate.
        * injection E as ->. reflexivity.
        * exact (IHi l E).
      + specialize (IH (S lev) 0). destruct (next_from rest (S lev) 0) as [[lev' idx'] o]. destruct IH as [A [B C]].
        assert (X : skipn idx l = []). { apply skipn_all2. apply nth_error_None, E. }
        rewrite X. cbn [app]. assert (Y : lev' - lev = S (lev' - S lev)) by lia. rewrite Y. cbn [skipn]. split; [|split; [lia|intro K; cbn; rewrite (C K); reflexivity]].
        rewrite <- A. destruct rest as [|l' r]; reflexivity.
  Qed.
  Lemma next_spec (s : spec) : exists s' , s_psi s' = s_psi s /\ s_aps s' = s_aps s /\
    match remaining s with [] => next s = (s', None) /\ remaining s' = [] | x :: r => next s = (s', Some x) /\ remaining s' = r end.
  Proof.
    unfold next. pose proof (next_from_spec (skipn (s_level s) (s_psi s)) (s_level s) (s_index s)) as H.
    destruct (next_from (skipn (s_level s) (s_psi s)) (s_level s) (s_index s)) as [[lev' idx'] o]. destruct H as [A [B C]].
    exists (Spec (s_psi s) (s_aps s) lev' idx'). split; [reflexivity|]. split; [reflexivity|]. unfold remaining at 1. rewrite A. destruct o as [x|].
    - split; [reflexivity|]. unfold remaining. cbn [s_psi s_level s_index].
      assert (X : skipn lev' (s_psi s) = skipn (lev' - s_level s) (skipn (s_level s) (s_psi s))).
      { replace lev' with (s_level s + (lev' - s_level s)) at 1 by lia. clear. generalize (lev' - s_level s) as m, (s_psi s) as l. induction (s_level s) as [|n IH]; intros m l; [reflexivity|]. destruct l as [|a l]; cbn; [destruct m; reflexivity|apply IH]. }
      rewrite X. reflexivity.
    - split; [reflexivity|]. unfold remaining. cbn [s_psi s_level s_index]. specialize (C eq_refl). rewrite skipn_length in C. rewrite skipn_all2; [reflexivity|lia].
  Qed.
  Lemma remaining_iter (s : spec) : remaining (iter s) = get_rules s.
  Proof. unfold remaining, iter, get_rules. cbn. destruct (s_psi s); reflexivity. Qed.
  Lemma loop_spec {A} (body : rule -> spec * A -> res (spec * A)) (f : rule -> A -> A) :
    (forall x s a, exists s', body x (s, a) = Ok (s', f x a) /\ remaining s' = remaining s /\ s_psi s' = s_psi s /\ s_aps s' = s_aps s) ->
    forall fuel s a, List.length (remaining s) <= fuel ->
    exists s', loop fuel body (s, a) = Ok (s', fold_left (fun a x => f x a) (remaining s) a) /\ remaining s' = [] /\ s_psi s' = s_psi s /\ s_aps s' = s_aps s.
  Proof.
    intros B. induction fuel as [|fuel IH]; intros s a L; destruct (next_spec s) as [s1 [P1 [P2 P3]]]; destruct (remaining s) as [|x r] eqn:R; cbn [loop fst snd].
    - destruct P3 as [-> Z]. exists s1. auto.
    - cbn in L. lia.
    - destruct P3 as [-> Z]. exists s1. auto.
    - destruct P3 as [-> Z]. destruct (B x s1 a) as [s2 [-> [B1 [B2 B3]]]]. cbn [bind].
      destruct (IH s2 (f x a)) as [s3 [H [H1 [H2 H3]]]]; [rewrite B1, Z; cbn in L; lia|]. exists s3. rewrite H, B1, Z. split; [reflexivity|]. split; [exact H1|]. split; congruence.
  Qed.
  (** A loop whose body leaves the cursor alone sees every rule once, in the order of [get_rules]. *)
  Theorem for_each_spec {A} (body : rule -> spec * A -> res (spec * A)) (f : rule -> A -> A) :
    (forall x s a, body x (s, a) = Ok (s, f x a)) -> forall fuel s a, len s <= fuel ->
    exists s', for_each fuel body (s, a) = Ok (s', fold_left (fun a x => f x a) (get_rules s) a) /\ get_rules s' = get_rules s.
  Proof.
    intros B fuel s a L. unfold for_each. cbn [fst snd]. destruct (loop_spec body f) with (fuel := fuel) (s := iter s) (a := a) as [s' [H [_ [H1 _]]]].
    - intros x s0 a0. exists s0. rewrite B. auto.
    - rewrite remaining_iter. unfold len in L. unfold get_rules. clear -L. revert fuel L. induction (s_psi s) as [|x l IH]; intros fuel L; [cbn; lia|].
      cbn [map fold_right List.concat] in *. rewrite app_length. specialize (IH (fuel - List.length x)). lia.
    - exists s'. rewrite remaining_iter in H. split; [exact H|]. unfold get_rules. rewrite H1. reflexivity.
  Qed.
  Theorem to_list_spec fuel (s : spec) : len s <= fuel -> exists s', to_list fuel s = Ok (s', get_rules s) /\ get_rules s' = get_rules s.
  Proof.
    intro L. unfold to_list. destruct (for_each_spec (fun x (st : spec * list rule) => Ok (fst st, snd st ++ [x])) (fun x a => a ++ [x]) (fun x s a => eq_refl) fuel s [] L) as [s' [H H']].
    exists s'. rewrite H. split; [|exact H']. do 2 f_equal. assert (X : forall l acc, fold_left (fun (a : list rule) x => a ++ [x]) l acc = acc ++ l).
    { induction l as [|x l IH]; intro acc; cbn [fold_left]; [symmetry; apply app_nil_r|]. rewrite IH, <- app_assoc. reflexivity. }
    apply X.
  Qed.
  (** Nested loops over the same specification: the inner loop uses up the cursor, so the outer loop sees the first rule only. *)
  Definition pairs (fuel : nat) (s : spec) : res (spec * list (rule * rule)) :=
    for_each fuel (fun x st => for_each fuel (fun y st' => Ok (fst st', snd st' ++ [(x, y)])) st) (s, []).
  Theorem nested_loops_spec fuel (s : spec) : 1 <= fuel -> len s <= fuel ->
    exists s', pairs fuel s = Ok (s', match get_rules s with [] => [] | x :: _ => map (fun y => (x, y)) (get_rules s) end).
  Proof.
    intros F1 L. unfold pairs. unfold for_each at 1. cbn [fst snd]. destruct fuel as [|fuel]; [lia|]. cbn [loop fst snd].
    destruct (next_spec (iter s)) as [s1 [P1 [P2 P3]]]. rewrite remaining_iter in P3. destruct (get_rules s) as [|x r] eqn:G.
    - destruct P3 as [-> _]. exists s1. reflexivity.
    - destruct P3 as [-> Z].
      assert (L1 : len s1 <= S fuel). { unfold len in *. rewrite P1. exact L. }
      assert (G1 : get_rules s1 = x :: r). { rewrite <- G. unfold get_rules. rewrite P1. reflexivity. }
      set (body := fun (y : rule) (st' : spec * list (rule * rule)) => Ok (fst st', snd st' ++ [(x, y)])).
      destruct (loop_spec body (fun y a => a ++ [(x, y)])) with (fuel := S fuel) (s := iter s1) (a := @nil (rule * rule)) as [s2 [H [H0 [H1 _]]]].
      + intros y s0 a0. exists s0. auto.
      + rewrite remaining_iter. rewrite G1. clear -L G. assert (len s = List.length (get_rules s)).
        { unfold len, get_rules. clear. induction (s_psi s) as [|x l IH]; [reflexivity|]. cbn [map fold_right List.concat]. rewrite app_length, IH. reflexivity. }
        rewrite <- G. lia.
      + unfold for_each. cbn [fst snd]. fold body. rewrite H. cbn [bind]. rewrite remaining_iter, G1. 
        assert (X : forall (l : list rule) acc, fold_left (fun a y => a ++ [(x, y)]) l acc = acc ++ map (fun y => (x, y)) l).
        { induction l as [|y l IHl]; intro acc; cbn [fold_left map]; [symmetry; apply app_nil_r|]. rewrite IHl, <- app_assoc. reflexivity. }
        rewrite X. cbn [app]. destruct (next_spec s2) as [s3 [_ [_ P4]]]. rewrite H0 in P4. destruct P4 as [P4 _].
        exists s3. destruct fuel as [|fuel]; cbn [loop fst snd]; rewrite P4; reflexivity.
  Qed.
End Prio.

(** ** Concrete calls, and what does not hold *)
Definition calls3 : list (string * priority * Z) := [("a", PInt 2, 1%Z); ("b", PInt 1, 0%Z); ("c", PFloat true, 0%Z); ("d", PInt 5, 1%Z); ("e", PInt 1, (-1)%Z)].
Definition no_ap (f : string) : unit := tt.
Definition unit_eqb (a b : unit) : bool := true.
Example prio_example : let s := after no_ap unit_eqb tt calls3 in
  get_rules s = [Rule "b" 1 0; Rule "a" 2 1; Rule "d" 5 1] /\ getitem s 2 = Ok (Rule "d" 5 1) /\ len s = 3 /\ get_num_levels s = 2.
Proof. vm_compute. auto. Qed.
Theorem nested_loops_refuted : exists s s' l, s = after no_ap unit_eqb tt calls3 /\ pairs 10 s = Ok (s', l) /\ List.length (get_rules s) = 3 /\ List.length l = 3.
Proof. eexists. eexists. eexists. split; [reflexivity|]. split; [vm_compute; reflexivity|]. split; reflexivity. Qed.
(** A negative level is read from the end instead of being refused. *)
Theorem get_rules_at_negative_refuted : exists s l, s = after no_ap unit_eqb tt calls3 /\ get_rules_at (-1) s = Ok l /\ l <> [].
Proof. eexists. eexists. split; [reflexivity|]. split; [vm_compute; reflexivity|]. discriminate. Qed.

Print Assumptions get_rules_spec.
Print Assumptions get_rules_at_spec.
Print Assumptions getitem_spec.
Print Assumptions for_each_spec.
Print Assumptions to_list_spec.
Print Assumptions nested_loops_spec.
Print Assumptions nested_loops_refuted.
Print Assumptions get_rules_at_negative_refuted.
