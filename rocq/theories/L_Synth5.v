(** Which assignments the variables and the constraint of [iter2var] allow. *)
From Coq Require Import List String Ascii Bool Arith ZArith Lia.
From Verif Require Import M_Base M_Ast M_Lexer M_Parser M_Spec M_Form M_Tree M_Gr1c M_Synth.
From Verif Require Import S_LTL S_Gr1 S_Syntax S_Synth.
From Verif Require Import L_Lexer L_Parser L_Template L_Gr1 L_RoundTrip L_Text L_Form L_Gr1c L_Den L_Synth L_Synth2 L_Synth3.
Import ListNotations.
Open Scope string_scope.
Open Scope list_scope.

Lemma lookup_dupdate_bools l : forall (vs : vardecl) x,
  lookup x (dupdate vs (map (fun s => (s, DBool)) l)) = if mem x l then Some DBool else lookup x vs.
Proof.
  unfold dupdate. induction l as [|a l IH]; intros vs x; cbn [map fold_left]; [reflexivity|].
  rewrite IH. cbn [fst snd]. rewrite lookup_dset.
  unfold mem. cbn [existsb]. fold (mem x l). destruct (x =? a)%string, (mem x l); reflexivity.
Qed.

Lemma zfold_min l : forall x, (fold_left Z.min l x <= x)%Z /\ (forall y, In y l -> (fold_left Z.min l x <= y)%Z) /\
  (fold_left Z.min l x = x \/ In (fold_left Z.min l x) l).
Proof.
  induction l as [|a l IH]; intro x; cbn [fold_left]; [repeat split; auto; [lia|intros y []]|].
  destruct (IH (Z.min x a)) as (A & B & C). split; [lia|]. split.
  - intros y [<-|I]; [lia|auto].
  - destruct C as [C|C]; [|right; right; auto]. rewrite C. destruct (Z.min_spec x a) as [[_ ->]|[_ ->]]; [left|right; left]; auto.
Qed.
Lemma zfold_max l : forall x, (x <= fold_left Z.max l x)%Z /\ (forall y, In y l -> (y <= fold_left Z.max l x)%Z) /\
  (fold_left Z.max l x = x \/ In (fold_left Z.max l x) l).
Proof.
  induction l as [|a l IH]; intro x; cbn [fold_left]; [repeat split; auto; [lia|intros y []]|].
  destruct (IH (Z.max x a)) as (A & B & C). split; [lia|]. split.
  - intros y [<-|I]; [lia|auto].
  - destruct C as [C|C]; [|right; right; auto]. rewrite C. destruct (Z.max_spec x a) as [[_ ->]|[_ ->]]; [right; left|left]; auto.
Qed.
Lemma zmin_ok l : (forall y, In y l -> (zmin l <= y)%Z) /\ (l <> [] -> In (zmin l) l).
Proof.
  destruct l as [|x l]; [split; [intros y []|congruence]|]. cbn [zmin]. destruct (zfold_min l x) as (A & B & C). split.
  - intros y [<-|I]; auto.
  - intros _. destruct C as [->|C]; [left|right]; auto.
Qed.
Lemma zmax_ok l : (forall y, In y l -> (y <= zmax l)%Z) /\ (l <> [] -> In (zmax l) l).
Proof.
  destruct l as [|x l]; [split; [intros y []|congruence]|]. cbn [zmax]. destruct (zfold_max l x) as (A & B & C). split.
  - intros y [<-|I]; auto.
  - intros _. destruct C as [->|C]; [left|right]; auto.
Qed.
Lemma ints_In l z : In z (ints l) <-> In (SInt z) l.
Proof.
  unfold ints. rewrite in_flat_map. split.
  - intros ([w|w] & I & J); [destruct J as [<-|[]]; auto|destruct J].
  - intro I. exists (SInt z). simpl; auto.
Qed.
Lemma strs_In l z : In z (strs l) <-> In (SStr z) l.
Proof.
  unfold strs. rewrite in_flat_map. split.
  - intros ([w|w] & I & J); [destruct J|destruct J as [<-|[]]; auto].
  - intro I. exists (SStr z). simpl; auto.
Qed.
Lemma forallb_int l v : forallb is_int l = true -> In v l -> exists z, v = SInt z.
Proof. intros H I. rewrite forallb_forall in H. specialize (H v I). destruct v; [eauto|discriminate]. Qed.
Lemma forallb_str l v : forallb is_str l = true -> In v l -> exists z, v = SStr z.
Proof. intros H I. rewrite forallb_forall in H. specialize (H v I). destruct v; [discriminate|eauto]. Qed.

(** The declarations. *)
Lemma iter2var_vars states vars var b mu vs d c : iter2var states vars var b mu = Ok (vs, d, c) -> states <> [] ->
  if as_bools mu b then
    (forall v, In v states -> exists x, v = SStr x) /\
    (forall x, lookup x vs = if smem (SStr x) states then Some DBool else lookup x vars)
  else exists k, (forall x, lookup x vs = if x =? var then Some k else lookup x vars) /\ c = None /\
    (((forall v, In v states -> exists x, v = SInt x) /\
      k = DInt (zmin (ints states)) (if match mu with Some Xor => true | _ => false end then zmax (ints states) else zmax (ints states) + 1)%Z) \/
     ((forall v, In v states -> exists x, v = SStr x) /\
      k = DEnum (strs states ++ if match mu with Some Xor => true | _ => false end then [] else [(var ++ "none")%string]))).
Proof.
  intros H Hne. unfold iter2var in H. destruct states as [|q0 st0] eqn:Es; [congruence|]. rewrite <- Es in *. clear Es Hne q0 st0.
  destruct (match mu with None => true | _ => b end) eqn:Ab; change (as_bools mu b = true) in Ab || change (as_bools mu b = false) in Ab; rewrite Ab.
  - destruct (forallb is_str states) eqn:S; [|discriminate]. cbn [negb] in H.
    assert (L : forall x, lookup x (dupdate vars (map (fun s => (s, DBool)) (map sval_text states))) =
       if smem (SStr x) states then Some DBool else lookup x vars).
    { intro x. rewrite lookup_dupdate_bools.
      replace (mem x (map sval_text states)) with (smem (SStr x) states); auto.
      apply eq_true_iff_eq. rewrite smem_In, mem_In, in_map_iff. split.
      - intro I. exists (SStr x). auto.
      - intros (v & E & I). destruct (forallb_str _ _ S I) as (z & ->). cbn in E. subst. exact I. }
    split; [intros v I; apply (forallb_str _ _ S I)|].
    destruct (mutex (map sval_text states)) as [|m ms]; [apply Ok_inj in H; injection H as <- _ _; exact L|].
    destruct mu as [[]|].
    + apply Ok_inj in H; injection H as <- _ _; exact L.
    + destruct (exactly_one (map sval_text states)); [discriminate|]. apply Ok_inj in H; injection H as <- _ _; exact L.
    + apply Ok_inj in H; injection H as <- _ _; exact L.
  - destruct (has var vars); [discriminate|].
    destruct (forallb is_int states) eqn:SI; [|destruct (forallb is_str states) eqn:SS; [|discriminate]].
    + apply Ok_inj in H. injection H as <- _ <-. eexists. split; [intro x; apply lookup_dset|]. split; auto. left. split; auto.
      intros v I. apply (forallb_int _ _ SI I).
    + apply Ok_inj in H. injection H as <- _ <-. eexists. split; [intro x; apply lookup_dset|]. split; auto. right. split; auto.
      intros v I. apply (forallb_str _ _ SS I).
Qed.

Lemma meets_count states vars var b mu vs d c :
  iter2var states vars var b mu = Ok (vs, d, c) -> ident var -> NoDup states ->
  (forall v, In v states -> good_name v) -> forall st, meets c st <-> action_count mu b var states st.
Proof.
  intros H Hv N Gn st. destruct (iter2var_ok _ _ _ _ _ _ _ _ H Hv N Gn) as [_ CO]. destruct c as [x|]; cbn [meets].
  - destruct CO as (_ & e & E & M). unfold text_true. rewrite E. apply (M (fun _ => st) 0).
  - split; auto.
Qed.

Definition shown_value (v : sval) : value := match v with SInt z => VZ z | SStr x => VS x end.
Lemma shows_var var v st : shows false var v st <-> st var = shown_value v.
Proof. destruct v; reflexivity. Qed.
Lemma shown_inj v w : shown_value v = shown_value w -> v = w.
Proof. destruct v, w; cbn; congruence. Qed.

(** Every value can be shown alone, whatever the other variables are. *)
Lemma iter2var_repr states vars var b mu vs d c :
  iter2var states vars var b mu = Ok (vs, d, c) -> ident var -> NoDup states ->
  (forall v, In v states -> good_name v) ->
  forall st0 v, allowed vars st0 -> In v states ->
  exists st, allowed vs st /\ meets c st /\
    (forall w, In w states -> (shows (as_bools mu b) var w st <-> w = v)) /\
    (forall x, x <> var -> ~ In (SStr x) states -> st x = st0 x).
Proof.
  intros H Hv N Gn st0 v A0 Iv.
  assert (Hne : states <> []) by (intros ->; destruct Iv).
  pose proof (iter2var_vars _ _ _ _ _ _ _ _ H Hne) as VV.
  assert (Goal' : exists st, allowed vs st /\ (forall w, In w states -> (shows (as_bools mu b) var w st <-> w = v)) /\
    (forall x, x <> var -> ~ In (SStr x) states -> st x = st0 x)).
  { destruct (as_bools mu b) eqn:Ab.
    - destruct VV as [St L].
      exists (fun x => if smem (SStr x) states then VB (sval_eqb (SStr x) v) else st0 x). split; [|split].
      + intros x k K. rewrite L in K. destruct (smem (SStr x) states); [injection K as <-; exact I|]. apply A0; auto.
      + intros w Iw. destruct (St w Iw) as (y & ->). cbn [shows]. rewrite (proj2 (smem_In (SStr y) states) Iw).
        split; [intro E; injection E as E; apply sval_eqb_eq; auto|intro E; f_equal; apply sval_eqb_eq; auto].
      + intros x _ NI. destruct (smem (SStr x) states) eqn:E; auto. apply smem_In in E. contradiction.
    - destruct VV as (k & L & _ & K).
      exists (fun x => if (x =? var)%string then shown_value v else st0 x). split; [|split].
      + intros x k' Kx. rewrite L in Kx. destruct (x =? var)%string; [injection Kx as <-|apply A0; auto].
        destruct K as [[SI ->]|[SS ->]].
        * destruct (SI v Iv) as (z & ->). cbn. pose proof (proj1 (zmin_ok (ints states)) z (proj2 (ints_In _ _) Iv)).
          pose proof (proj1 (zmax_ok (ints states)) z (proj2 (ints_In _ _) Iv)). destruct mu as [[]|]; lia.
        * destruct (SS v Iv) as (z & ->). cbn. apply in_or_app. left. apply strs_In, Iv.
      + intros w Iw. rewrite shows_var. rewrite String.eqb_refl. split; [intro E; symmetry; apply shown_inj; auto|intros ->; auto].
      + intros x Nx _. apply String.eqb_neq in Nx. rewrite Nx. reflexivity. }
  destruct Goal' as (st & B & S & E). exists st. split; [exact B|]. split; [|split; [exact S|exact E]].
  rewrite (meets_count _ _ _ _ _ _ _ _ H Hv N Gn st). destruct mu as [[]|]; cbn [action_count as_bools] in *; auto.
  - intros ->. intros x y Ix Iy Sx Sy. apply S in Sx, Sy; auto. congruence.
  - intros -> _. split; [intros x y Ix Iy Sx Sy; apply S in Sx, Sy; auto; congruence|].
    exists v. split; auto. apply S; auto.
Qed.

(** At most one value is shown under 'mutex' and under 'xor'. *)
Lemma iter2var_at_most states vars var b m vs d c :
  iter2var states vars var b (Some m) = Ok (vs, d, c) -> ident var -> NoDup states ->
  (forall v, In v states -> good_name v) -> forall st, meets c st -> at_most_one (fun v => shows b var v st) states.
Proof.
  intros H Hv N Gn st M. apply (meets_count _ _ _ _ _ _ _ _ H Hv N Gn st) in M.
  destruct b.
  - destruct m; cbn [action_count] in M; [apply M; auto|].
    destruct (le_lt_dec 2 (List.length states)) as [L|L]; [apply M; auto|].
    intros x y Ix Iy _ _. destruct states as [|a [|a' r]]; [destruct Ix| |simpl in L; lia].
    destruct Ix as [<-|[]], Iy as [<-|[]]; auto.
  - intros x y _ _ Sx Sy. rewrite shows_var in Sx, Sy. apply shown_inj. congruence.
Qed.

(** Exactly one under 'xor': at least two Booleans, or strings, or integers without gaps. *)
Lemma iter2var_exactly states vars var b vs d c :
  iter2var states vars var b (Some Xor) = Ok (vs, d, c) -> ident var -> NoDup states -> states <> [] ->
  (forall v, In v states -> good_name v) -> (b = true -> 2 <= List.length states) -> (b = false -> no_gaps states) ->
  forall st, allowed vs st -> meets c st -> only_one (fun v => shows b var v st) states.
Proof.
  intros H Hv N Hne Gn HB HG st A M. split; [eapply iter2var_at_most; eauto|].
  apply (meets_count _ _ _ _ _ _ _ _ H Hv N Gn st) in M. pose proof (iter2var_vars _ _ _ _ _ _ _ _ H Hne) as VV.
  cbn [as_bools] in VV. destruct b.
  - apply M; auto.
  - destruct VV as (k & L & _ & K). specialize (A var k). rewrite L, String.eqb_refl in A. specialize (A eq_refl).
    destruct K as [[SI ->]|[SS ->]].
    + cbn in A. destruct (st var) as [|z|] eqn:E; try contradiction. exists (SInt z). split; [|exact E].
      assert (NI : ints states <> []).
      { destruct states as [|q r]; [congruence|]. destruct (SI q (or_introl eq_refl)) as (z' & ->). discriminate. }
      apply (HG eq_refl (zmin (ints states)) (zmax (ints states))); [apply ints_In, zmin_ok; auto|apply ints_In, zmax_ok; auto|lia].
    + cbn in A. destruct (st var) as [| |x] eqn:E; try contradiction. rewrite app_nil_r in A. exists (SStr x). split; [apply strs_In; auto|exact E].
Qed.

(** Under 'mutex' there is an assignment showing no value. *)
Lemma iter2var_none states vars var b vs d c :
  iter2var states vars var b (Some Mutex) = Ok (vs, d, c) -> ident var -> NoDup states ->
  (forall v, In v states -> good_name v) -> ~ In (SStr (var ++ "none")) states ->
  forall st0, allowed vars st0 ->
  exists st, allowed vs st /\ meets c st /\ forall w, In w states -> ~ shows b var w st.
Proof.
  intros H Hv N Gn Nn st0 A0.
  destruct states as [|q0 r0] eqn:Es.
  { cbn in H. apply Ok_inj in H. injection H as <- <- <-. exists st0. split; auto. split; [exact I|]. intros w []. }
  rewrite <- Es in *. assert (Hne : states <> []) by (rewrite Es; discriminate). clear Es q0 r0.
  pose proof (iter2var_vars _ _ _ _ _ _ _ _ H Hne) as VV. cbn [as_bools] in VV.
  assert (G' : exists st, allowed vs st /\ forall w, In w states -> ~ shows b var w st).
  { destruct b.
    - destruct VV as [St L]. exists (fun x => if smem (SStr x) states then VB false else st0 x). split.
      + intros x k K. rewrite L in K. destruct (smem (SStr x) states); [injection K as <-; exact I|]. apply A0; auto.
      + intros w Iw. destruct (St w Iw) as (y & ->). cbn [shows]. rewrite (proj2 (smem_In (SStr y) states) Iw). discriminate.
    - destruct VV as (k & L & _ & [[SI ->]|[SS ->]]).
      + exists (fun x => if (x =? var)%string then VZ (zmax (ints states) + 1) else st0 x). split.
        * intros x k' Kx. rewrite L in Kx. destruct (x =? var)%string; [injection Kx as <-|apply A0; auto]. cbn.
          destruct states as [|q r] eqn:Es; [congruence|]. rewrite <- Es in *. assert (Iq : In q states) by (rewrite Es; left; auto).
          destruct (SI q Iq) as (z & ->). pose proof (proj1 (zmin_ok (ints states)) z (proj2 (ints_In _ _) Iq)).
          pose proof (proj1 (zmax_ok (ints states)) z (proj2 (ints_In _ _) Iq)). lia.
        * intros w Iw. destruct (SI w Iw) as (z & ->). cbn [shows]. rewrite String.eqb_refl. intro E. injection E as E.
          pose proof (proj1 (zmax_ok (ints states)) z (proj2 (ints_In _ _) Iw)). lia.
      + exists (fun x => if (x =? var)%string then VS (var ++ "none") else st0 x). split.
        * intros x k' Kx. rewrite L in Kx. destruct (x =? var)%string; [injection Kx as <-|apply A0; auto]. cbn.
          apply in_or_app. right. left. auto.
        * intros w Iw. destruct (SS w Iw) as (z & ->). cbn [shows]. rewrite String.eqb_refl. intro E. injection E as E.
          apply Nn. rewrite E. exact Iw. }
  destruct G' as (st & A & S). exists st. split; auto. split; auto.
  rewrite (meets_count _ _ _ _ _ _ _ _ H Hv N Gn st). cbn [action_count]. intros -> x y Ix _ Sx _. exfalso. apply (S x Ix Sx).
Qed.

(** Without mutual exclusion every subset can be shown. *)
Lemma iter2var_subset states vars var b vs d c (f : sval -> bool) :
  iter2var states vars var b None = Ok (vs, d, c) -> ident var -> NoDup states ->
  (forall v, In v states -> good_name v) ->
  forall st0, allowed vars st0 ->
  exists st, allowed vs st /\ meets c st /\ forall w, In w states -> (shows true var w st <-> f w = true).
Proof.
  intros H Hv N Gn st0 A0. 
  destruct states as [|q0 r0] eqn:Es.
  { cbn in H. apply Ok_inj in H. injection H as <- <- <-. exists st0. split; auto. split; [exact I|]. intros w []. }
  rewrite <- Es in *. assert (Hne : states <> []) by (rewrite Es; discriminate). clear Es q0 r0.
  pose proof (iter2var_vars _ _ _ _ _ _ _ _ H Hne) as VV. cbn [as_bools] in VV. destruct VV as [St L].
  exists (fun x => if smem (SStr x) states then VB (f (SStr x)) else st0 x). split; [|split].
  - intros x k K. rewrite L in K. destruct (smem (SStr x) states); [injection K as <-; exact I|]. apply A0; auto.
  - apply (meets_count _ _ _ _ _ _ _ _ H Hv N Gn). exact I.
  - intros w Iw. destruct (St w Iw) as (y & ->). cbn [shows]. rewrite (proj2 (smem_In (SStr y) states) Iw).
    split; [intro E; injection E as E; auto|intros ->; auto].
Qed.
