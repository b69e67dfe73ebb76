(** C45: a function on labeled states is a finite map. *)
From Coq Require Import List String Bool ZArith Lia.
From Verif Require Import M_Base M_Func.
Import ListNotations.
Open Scope string_scope.
Open Scope list_scope.
Open Scope nat_scope.

Lemma pyval_eqb_eq : forall a b, pyval_eqb a b = true <-> a = b.
Proof.
  fix IH 1. intros a b. destruct a as [|z|s|l], b as [|z'|s'|l']; cbn [pyval_eqb]; try (split; [discriminate|congruence]); try (split; congruence).
  - rewrite Z.eqb_eq. split; congruence.
  - rewrite String.eqb_eq. split; congruence.
  - revert l'. induction l as [|x l IHl]; intros [|y l']; try (split; [discriminate|congruence]); [split; reflexivity|].
    rewrite andb_true_iff, (IH x y), IHl. split; [intros [-> [= ->]]; reflexivity|intros [= -> ->]; auto].
Qed.

(** ** Dictionaries made from distinct keys *)
Lemma dset_fresh k v d : ~ In k (map fst d) -> dset k v d = d ++ [(k, v)].
Proof.
  induction d as [|[k' v'] d IH]; intro N; [reflexivity|]. cbn [dset]. destruct (String.eqb_spec k k') as [-> |E]; [destruct N; left; reflexivity|].
  cbn. f_equal. apply IH. intro J. apply N. right. exact J.
Qed.
Lemma assign_fold ks : forall vs d, NoDup ks -> List.length ks = List.length vs -> (forall k, In k ks -> ~ In k (map fst d)) ->
  fold_left (fun d kv => dset (fst kv) (snd kv) d) (combine ks vs) d = d ++ combine ks vs.
Proof.
  induction ks as [|k ks IH]; intros [|v vs] d ND L D; try discriminate; [cbn; rewrite app_nil_r; reflexivity|].
  inversion ND as [|? ? N1 N2]; subst. injection L as L. cbn [combine fold_left fst snd]. rewrite dset_fresh by (apply D; left; reflexivity).
  rewrite (IH vs _ N2 L); [rewrite <- app_assoc; reflexivity|]. intros x J. rewrite map_app. intro K. apply in_app_or in K. destruct K as [K|[<-|[]]]; [|contradiction].
  exact (D x (or_intror J) K).
Qed.
Lemma assign_combine ks vs : NoDup ks -> List.length ks = List.length vs -> assign ks vs = combine ks vs.
Proof. intros ND L. unfold assign. rewrite (assign_fold ks vs [] ND L); [reflexivity|]. intros k _ []. Qed.
Lemma dget_combine ks : forall vs k v, NoDup ks -> In (k, v) (combine ks vs) -> dget k (combine ks vs) = Some v.
Proof.
  induction ks as [|k0 ks IH]; intros [|v0 vs] k v ND J; try destruct J.
  - injection H as -> ->. cbn. rewrite String.eqb_refl. reflexivity.
  - inversion ND as [|? ? N1 N2]; subst. cbn. destruct (String.eqb_spec k k0) as [-> |E]; [|apply IH; assumption].
    exfalso. apply N1. exact (in_combine_l _ _ _ _ H).
Qed.
Lemma deqb_combine ks : forall a b, NoDup ks -> List.length ks = List.length a -> List.length ks = List.length b ->
  (deqb (combine ks a) (combine ks b) = true <-> a = b).
Proof.
  intros a b ND La Lb. unfold deqb. rewrite !combine_length, <- La, <- Lb, Nat.min_id, Nat.eqb_refl. cbn [andb]. rewrite forallb_forall. split.
  - intro H. assert (X : forall k v, In (k, v) (combine ks a) -> dget k (combine ks b) = Some v).
    { intros k v J. specialize (H _ J). cbn in H. destruct (dget k (combine ks b)); [|discriminate]. apply pyval_eqb_eq in H. congruence. }
    clear H. revert a b La Lb X. induction ks as [|k ks IH]; intros [|x a] [|y b] La Lb X; try discriminate; [reflexivity|].
    inversion ND as [|? ? N1 N2]; subst. injection La as La. injection Lb as Lb. f_equal.
    + specialize (X k x (or_introl eq_refl)). cbn in X. rewrite String.eqb_refl in X. congruence.
    + apply (IH N2); [exact La|exact Lb|]. intros k' v J. specialize (X k' v (or_intror J)). cbn in X.
      destruct (String.eqb_spec k' k) as [-> |E]; [|exact X]. exfalso. apply N1. exact (in_combine_l _ _ _ _ J).
  - intros -> [k v] J. cbn. rewrite (dget_combine ks b k v ND J). apply pyval_eqb_eq. reflexivity.
Qed.
Lemma mapr_dget ks vs : NoDup ks -> List.length ks = List.length vs -> mapr (fun k => of_opt "KeyError" (dget k (combine ks vs))) ks = Ok vs.
Proof.
  intros ND L.
  assert (X : forall ks' vs', List.length ks' = List.length vs' -> incl (combine ks' vs') (combine ks vs) ->
    mapr (fun k => of_opt "KeyError" (dget k (combine ks vs))) ks' = Ok vs').
  { induction ks' as [|k ks' IH]; intros [|v vs'] L' J; try discriminate; [reflexivity|]. injection L' as L'. cbn [mapr].
    rewrite (dget_combine ks vs k v ND); [|apply J; left; reflexivity]. cbn [of_opt bind]. rewrite (IH vs' L'); [reflexivity|]. intros x I. apply J. right. exact I. }
  apply X; [exact L|apply incl_refl].
Qed.
Lemma drop_at_length {A} (l : list A) : forall i, i < List.length l -> List.length (drop_at i l) = pred (List.length l).
Proof. induction l as [|x l IH]; intros [|i] L; cbn in *; try lia. rewrite IH by lia. destruct l; cbn in *; lia. Qed.
Lemma drop_at_incl {A} (l : list A) : forall i x, In x (drop_at i l) -> In x l.
Proof. induction l as [|y l IH]; intros [|i] x J; cbn in *; auto. destruct J as [J|J]; eauto. Qed.
Lemma drop_at_NoDup {A} (l : list A) : forall i, NoDup l -> NoDup (drop_at i l).
Proof.
  induction l as [|y l IH]; intros [|i] ND; cbn; auto; inversion ND as [|? ? N1 N2]; subst; [exact N2|]. constructor; [|auto]. intro J. apply N1. exact (drop_at_incl _ _ _ J).
Qed.
Lemma rebuild {A} (l : list A) : forall l' i x, List.length l = List.length l' -> nth_error l i = Some x -> nth_error l' i = Some x -> drop_at i l = drop_at i l' -> l = l'.
Proof.
  induction l as [|a l IH]; intros [|b l'] [|i] x L H H' D; try discriminate.
  - cbn in *. congruence.
  - cbn in *. injection D as -> D. f_equal. injection L as L. exact (IH l' i x L H H' D).
Qed.

(** ** Functions with distinct keys *)
Section Func.
  Variables (ins outs : keys) (f0 : func).
  Hypothesis made : new_func ins outs = Ok f0.
  Hypothesis ins_distinct : NoDup (key_list ins).
  Hypothesis outs_distinct : NoDup (key_list outs).
  (** A single input is called exactly "state". *)
  Hypothesis ins_state : forall k, ins = One k -> k = "state".
  Hypothesis some_output : key_list outs <> [].

  (** [v] is an argument for the keys [ks]: any value for one key, else a tuple of that length;
      [parts] are its components. *)
  Definition parts (ks : list string) (v : pyval) : list pyval :=
    if Nat.eqb (List.length ks) 1 then [v] else match v with PTuple l => l | _ => [] end.
  Definition proper (ks : list string) (v : pyval) : Prop :=
    List.length ks = 1 \/ exists l, v = PTuple l /\ List.length l = List.length ks.
  Lemma parts_length ks v : proper ks v -> List.length (parts ks v) = List.length ks.
  Proof.
    unfold parts. intros [H|[l [-> H]]]; [rewrite H; reflexivity|]. destruct (Nat.eqb_spec (List.length ks) 1) as [E|E]; [rewrite E; reflexivity|exact H].
  Qed.
  Lemma parts_inj ks v w : proper ks v -> proper ks w -> parts ks v = parts ks w -> v = w.
  Proof.
    unfold parts. intros A B. destruct (Nat.eqb_spec (List.length ks) 1) as [E|E]; [congruence|]. destruct A as [A|[l [-> _]]], B as [B|[l' [-> _]]]; congruence.
  Qed.

  Lemma f0_fields : f_inputs f0 = key_list ins /\ f_outputs f0 = key_list outs /\ f_pairs f0 = [] /\ f_state f0 < List.length (key_list ins).
  Proof.
    unfold new_func in made. destruct (state_index ins) as [i|] eqn:E; [|discriminate]. cbn [bind] in made. injection made as <-. cbn. do 3 (split; [reflexivity|]).
    destruct ins as [k|l]; cbn in E |- *.
    - rewrite (ins_state k eq_refl) in E. cbn in E. injection E as <-. lia.
    - clear -E. revert i E. induction l as [|x l IH]; intros i E; cbn [index_of] in E; [discriminate|]. destruct (String.eqb "state" x); cbn in E; [injection E as <-; cbn; lia|].
      destruct (index_of "state" l) as [j|]; [|discriminate]. cbn in E. injection E as <-. specialize (IH j eq_refl). cbn. lia.
  Qed.
  (** Functions reached from [f0] have its keys. *)
  Definition same_keys (f : func) : Prop := f_inputs f = key_list ins /\ f_outputs f = key_list outs /\ f_state f < List.length (key_list ins).

  Lemma items_parts ks v : proper ks v -> (if Nat.eqb (List.length ks) 1 then Ok [v] else items v) = Ok (parts ks v).
  Proof. unfold parts. intros [H|[l [-> H]]]; [rewrite H; reflexivity|]. destruct (Nat.eqb (List.length ks) 1); reflexivity. Qed.
  Lemma split_proper f v : same_keys f -> proper (key_list ins) v ->
    exists s, nth_error (parts (key_list ins) v) (f_state f) = Some s /\
      split_input f v = Ok (s, combine (drop_at (f_state f) (key_list ins)) (drop_at (f_state f) (parts (key_list ins) v))).
  Proof.
    intros [A [B C]] Pv. unfold split_input. rewrite A, (items_parts _ _ Pv). cbn [bind]. rewrite (parts_length _ _ Pv), Nat.eqb_refl. cbn [negb].
    destruct (nth_error (parts (key_list ins) v) (f_state f)) as [s|] eqn:E.
    - exists s. split; [reflexivity|]. cbn [of_opt bind]. rewrite assign_combine; [reflexivity|apply drop_at_NoDup, ins_distinct|].
      rewrite !drop_at_length; rewrite ?(parts_length _ _ Pv); auto.
    - apply nth_error_None in E. rewrite (parts_length _ _ Pv) in E. lia.
  Qed.
  Lemma output_proper f o : same_keys f -> proper (key_list outs) o -> output_dict f o = Ok (combine (key_list outs) (parts (key_list outs) o)).
  Proof.
    intros [A [B C]] Po. unfold output_dict. rewrite B, (items_parts _ _ Po). cbn [bind]. rewrite (parts_length _ _ Po), Nat.eqb_refl. cbn [negb].
    rewrite assign_combine; [reflexivity|exact outs_distinct|]. symmetry. apply parts_length, Po.
  Qed.
  Lemma output_back f o : same_keys f -> proper (key_list outs) o -> output_tuple f (combine (key_list outs) (parts (key_list outs) o)) = Ok o.
  Proof.
    intros [A [B C]] Po. pose proof (parts_length _ _ Po) as L. unfold output_tuple. rewrite B. pose proof (mapr_dget (key_list outs) (parts (key_list outs) o) outs_distinct (eq_sym L)) as M.
    revert M. unfold parts. destruct Po as [P1|[l [-> P1]]].
    - rewrite P1. cbn [Nat.eqb]. destruct (key_list outs) as [|k [|k' r]]; try discriminate. intros _. reflexivity.
    - destruct (Nat.eqb_spec (List.length (key_list outs)) 1) as [E|E].
      + destruct (key_list outs) as [|k [|k' r]]; try discriminate. intros _. reflexivity.
      + intro M. destruct (key_list outs) as [|k [|k' r]]; [destruct (some_output eq_refl)|cbn in E; lia|]. destruct l as [|a [|b l]]; try discriminate.
        cbn [combine] in M |- *. rewrite M. reflexivity.
  Qed.
  (** A stored pair is at [v] exactly when it was stored for [v]. *)
  Definition stored (f : func) (v : pyval) (p : pair) : Prop := split_input f v = Ok (p_state p, p_input p).
  Lemma is_at_spec f v w p si : same_keys f -> proper (key_list ins) v -> proper (key_list ins) w -> split_input f v = Ok si -> stored f w p ->
    (is_at (fst si) (snd si) p = true <-> v = w).
  Proof.
    intros K Pv Pw Hv Hw. destruct (split_proper f v K Pv) as [s [N1 S1]]. destruct (split_proper f w K Pw) as [s' [N2 S2]].
    unfold stored in Hw. rewrite S1 in Hv. injection Hv as <-. rewrite S2 in Hw. injection Hw as E1 E2. cbn [fst snd]. unfold is_at. rewrite <- E1, <- E2.
    rewrite andb_true_iff, pyval_eqb_eq, deqb_combine.
    - split.
      + intros [<- D]. apply (parts_inj _ _ _ Pv Pw). symmetry. apply (rebuild _ _ (f_state f) s'); auto. rewrite !parts_length by assumption. reflexivity.
      + intros <-. rewrite N1 in N2. injection N2 as ->. auto.
    - apply drop_at_NoDup, ins_distinct.
    - rewrite !drop_at_length; rewrite ?parts_length by assumption; auto; apply K.
    - rewrite !drop_at_length; rewrite ?parts_length by assumption; auto; apply K.
  Qed.

  (** ** Histories *)
  Definition call : Type := pyval * pyval * list string.
  Definition proper_call (a : call) : Prop := proper (key_list ins) (fst (fst a)) /\ proper (key_list outs) (snd (fst a)).
  (** The output and labels most recently added for [v]. *)
  Fixpoint latest (v : pyval) (l : list call) : option (pyval * list string) :=
    match l with
    | [] => None
    | (u, o, lb) :: r => match latest v r with Some x => Some x | None => if pyval_eqb u v then Some (o, lb) else None end
    end.
  Definition entries_of (f : func) (vs : list pyval) : Prop := Forall2 (stored f) vs (f_pairs f) /\ NoDup vs /\ Forall (proper (key_list ins)) vs.
  Record inv (f : func) (done : list call) : Prop := {
    i_keys : same_keys f;
    i_vs : exists vs, entries_of f vs /\ forall v, In v vs <-> exists o lb, In (v, o, lb) done;
    i_find : forall v si, proper (key_list ins) v -> split_input f v = Ok si ->
      match latest v done with
      | None => find (is_at (fst si) (snd si)) (f_pairs f) = None
      | Some (o, lb) => proper (key_list outs) o /\ exists p, find (is_at (fst si) (snd si)) (f_pairs f) = Some p /\ p_output p = combine (key_list outs) (parts (key_list outs) o) /\ p_labels p = lb
      end }.

  Lemma latest_snoc v l a : latest v (l ++ [a]) = if pyval_eqb (fst (fst a)) v then Some (snd (fst a), snd a) else latest v l.
  Proof.
    destruct a as [[u o] lb]. cbn [fst snd]. induction l as [|[[u' o'] lb'] l IH]; [reflexivity|]. cbn [app latest]. rewrite IH. destruct (pyval_eqb u v); [reflexivity|]. reflexivity.
  Qed.
  Lemma find_app_r {A} (q : A -> bool) l x : find q l = None -> find q (l ++ [x]) = if q x then Some x else None.
  Proof. induction l as [|y l IH]; cbn; [reflexivity|]. destruct (q y); [discriminate|exact IH]. Qed.
  Lemma find_app_l {A} (q : A -> bool) l x y : find q l = Some y -> find q (l ++ [x]) = Some y.
  Proof. induction l as [|z l IH]; cbn; [discriminate|]. destruct (q z); [auto|exact IH]. Qed.
  Lemma find_replace q upd l p : find q l = Some p -> (forall x, q (upd x) = q x) -> find q (replace_first q upd l) = Some (upd p).
  Proof.
    intros H U. induction l as [|x l IH]; cbn in *; [discriminate|]. destruct (q x) eqn:E; cbn; [injection H as <-; rewrite U, E; reflexivity|]. rewrite E. auto.
  Qed.
  Lemma find_replace_other q q' upd l : (forall x, q' (upd x) = q' x) -> (forall x, In x l -> q x = true -> q' x = false) -> find q' (replace_first q upd l) = find q' l.
  Proof.
    intros U D. induction l as [|x l IH]; [reflexivity|]. cbn [replace_first find]. destruct (q x) eqn:E; cbn [find].
    - rewrite U, (D x (or_introl eq_refl) E). reflexivity.
    - rewrite IH; [reflexivity|]. intros y J. apply D. right. exact J.
  Qed.
  Lemma replace_stored f vs q upd l : Forall2 (stored f) vs l -> (forall v x, stored f v x -> stored f v (upd x)) -> Forall2 (stored f) vs (replace_first q upd l).
  Proof. intros H U. induction H as [|v x vs l Hx HF IH]; cbn; [constructor|]. destruct (q x); constructor; auto. Qed.

  Lemma add_inv f done a : inv f done -> proper_call a -> exists f', add (fst (fst a)) (snd (fst a)) (snd a) f = Ok f' /\ inv f' (done ++ [a]).
  Proof.
    intros I [Pu Po]. destruct a as [[u o] lb]. cbn [fst snd] in *. pose proof (i_keys _ _ I) as K.
    destruct (i_vs _ _ I) as [vs [[F2 [ND PV]] IV]].
    destruct (split_proper f u K Pu) as [s [Ns Hs]]. set (si := (s, combine (drop_at (f_state f) (key_list ins)) (drop_at (f_state f) (parts (key_list ins) u)))) in *.
    unfold add. rewrite Hs. cbn [bind]. rewrite (output_proper f o K Po). cbn [bind]. eexists. split; [reflexivity|].
    set (od := combine (key_list outs) (parts (key_list outs) o)).
    set (upd := fun p : pair => Pair (p_state p) (p_input p) od lb).
    set (new := Pair (fst si) (snd si) od lb).
    set (ps := match find (is_at (fst si) (snd si)) (f_pairs f) with Some _ => replace_first (is_at (fst si) (snd si)) upd (f_pairs f) | None => f_pairs f ++ [new] end).
    set (f' := Func (f_inputs f) (f_outputs f) (f_state f) ps).
    change (inv f' (done ++ [(u, o, lb)])).
    assert (SP : forall v, split_input f' v = split_input f v) by reflexivity.
    assert (PS : f_pairs f' = ps) by reflexivity.
    assert (ST : forall p, In p (f_pairs f) -> exists v, In v vs /\ stored f v p).
    { clear -F2. intros p J. induction F2 as [|v x vs' l Hx HF IHF]; [destruct J|]. destruct J as [<-|J]; [exists v; split; [left; reflexivity|exact Hx]|].
      destruct (IHF J) as [w [A B]]. exists w. split; [right; exact A|exact B]. }
    assert (DIS : forall v sv, proper (key_list ins) v -> split_input f v = Ok sv -> v <> u -> forall p, In p (f_pairs f) -> is_at (fst si) (snd si) p = true -> is_at (fst sv) (snd sv) p = false).
    { intros v sv Pv Hv D p J E. destruct (is_at (fst sv) (snd sv) p) eqn:E'; [|reflexivity]. exfalso. destruct (ST p J) as [w [Iw Hw]].
      pose proof (proj1 (Forall_forall _ _) PV w Iw) as Pw. apply (is_at_spec f u w p si K Pu Pw Hs Hw) in E. apply (is_at_spec f v w p sv K Pv Pw Hv Hw) in E'. congruence. }
    split.
    - exact K.
    - pose proof (i_find _ _ I u si Pu Hs) as FU. unfold entries_of. rewrite PS. unfold ps. change (stored f') with (stored f). clearbody f'. destruct (find (is_at (fst si) (snd si)) (f_pairs f)) as [p|] eqn:EF.
      + exists vs. split; [split; [|split; assumption]|].
        * apply replace_stored; [exact F2|]. intros v x H. exact H.
        * intro v. rewrite IV. split; intros [o' [lb' J]]; [exists o', lb'; apply in_or_app; left; exact J|].
          apply in_app_or in J. destruct J as [J|[[= -> -> ->]|[]]]; [eauto|]. apply IV.
          pose proof (find_some _ _ EF) as [Jp Ep]. destruct (ST p Jp) as [w [Iw Hw]].
          apply (is_at_spec f v w p si K Pu (proj1 (Forall_forall _ _) PV w Iw) Hs Hw) in Ep. subst w. exact Iw.
      + assert (NU : ~ In u vs).
        { intro J. assert (exists p, In p (f_pairs f) /\ stored f u p) as [p [Jp Hp]].
          { clear -F2 J. induction F2 as [|v x vs' l Hx HF IHF]; [destruct J|]. destruct J as [-> |J]; [exists x; split; [left; reflexivity|exact Hx]|].
            destruct (IHF J) as [w [A B]]. exists w. split; [right; exact A|exact B]. }
          pose proof (find_none _ _ EF p Jp) as X. exact (eq_true_false_abs _ (proj2 (is_at_spec f u u p si K Pu Pu Hs Hp) eq_refl) X). }
        exists (vs ++ [u]). split; [split; [|split]|].
        * apply Forall2_app; [exact F2|]. constructor; [|constructor]. exact Hs.
        * clear -ND NU. induction vs as [|w vs IH]; cbn; [constructor; [tauto|constructor]|]. inversion ND as [|? ? N1 N2]; subst. constructor.
          -- intro J. apply in_app_or in J. destruct J as [J|[-> |[]]]; [auto|]. apply NU. left. reflexivity.
          -- apply IH; [exact N2|]. intro J. apply NU. right. exact J.
        * apply Forall_app. split; [exact PV|]. constructor; [exact Pu|constructor].
        * intro v. split.
          -- intro J. apply in_app_or in J. destruct J as [J|[<-|[]]].
             ++ apply IV in J. destruct J as [o' [lb' J]]. exists o', lb'. apply in_or_app. left. exact J.
             ++ exists o, lb. apply in_or_app. right. left. reflexivity.
          -- intros [o' [lb' J]]. apply in_or_app. apply in_app_or in J. destruct J as [J|[[= -> -> ->]|[]]]; [left; apply IV; eauto|right; left; reflexivity].
    - intros v sv Pv Hv. rewrite SP in Hv. rewrite latest_snoc. cbn [fst snd]. destruct (pyval_eqb u v) eqn:E.
      + apply pyval_eqb_eq in E. subst v. rewrite Hs in Hv. injection Hv as <-. split; [exact Po|].
        unfold f', ps. cbn [f_pairs]. destruct (find (is_at (fst si) (snd si)) (f_pairs f)) as [p|] eqn:EF.
        * exists (upd p). split; [apply find_replace; [exact EF|reflexivity]|]. auto.
        * exists new. split; [|auto]. rewrite find_app_r by exact EF.
          rewrite (proj2 (is_at_spec f u u new si K Pu Pu Hs Hs) eq_refl). reflexivity.
      + assert (D : v <> u). { intros ->. rewrite (proj2 (pyval_eqb_eq u u) eq_refl) in E. discriminate. }
        assert (SAME : find (is_at (fst sv) (snd sv)) (f_pairs f') = find (is_at (fst sv) (snd sv)) (f_pairs f)).
        { unfold f', ps. cbn [f_pairs]. destruct (find (is_at (fst si) (snd si)) (f_pairs f)) as [p|] eqn:EF.
          - apply find_replace_other; [reflexivity|]. intros x J Q. exact (DIS v sv Pv Hv D x J Q).
          - destruct (find (is_at (fst sv) (snd sv)) (f_pairs f)) as [x|] eqn:EX; [apply find_app_l, EX|]. rewrite find_app_r by exact EX.
            destruct (is_at (fst sv) (snd sv) new) eqn:Q; [|reflexivity]. apply (is_at_spec f v u new sv K Pv Pu Hv Hs) in Q. congruence. }
        rewrite SAME. exact (i_find _ _ I v sv Pv Hv).
  Qed.
  Lemma history calls : Forall proper_call calls -> inv (add_many calls f0) calls.
  Proof.
    assert (X : forall rest done f, inv f done -> Forall proper_call rest -> inv (add_many rest f) (done ++ rest)).
    { induction rest as [|a rest IH]; intros done f I H; [rewrite app_nil_r; exact I|]. inversion H as [|? ? Ha Hr]; subst. destruct (add_inv f done a I Ha) as [f' [E I']].
      change (add_many (a :: rest) f) with (add_many rest (match add (fst (fst a)) (snd (fst a)) (snd a) f with Ok f' => f' | Err _ => f end)). rewrite E.
      specialize (IH (done ++ [a]) f' I' Hr). rewrite <- app_assoc in IH. exact IH. }
    intro H. apply (X calls [] f0); [|exact H]. destruct f0_fields as [A [B [C D]]]. split.
    - unfold same_keys. auto.
    - exists []. split; [split; [rewrite C; constructor|split; constructor]|]. intro v. split; [intros []|intros [o [lb []]]].
    - intros v si _ _. rewrite C. reflexivity.
  Qed.

  (** After any calls of [add], a lookup gives the output added last for that input, and raises if there is none. *)
  Theorem func_lookup calls v : Forall proper_call calls -> proper (key_list ins) v ->
    getitem (add_many calls f0) v = match latest v calls with Some (o, _) => Ok o | None => Err "KeyError" end.
  Proof.
    intros H Pv. pose proof (history calls H) as I. unfold getitem. pose proof (i_keys _ _ I) as K. destruct (split_proper _ v K Pv) as [s [_ Hs]]. rewrite Hs. cbn [bind].
    pose proof (i_find _ _ I v _ Pv Hs) as X. destruct (latest v calls) as [[o lb]|]; [|rewrite X; reflexivity]. destruct X as [Po [p [-> [-> _]]]]. apply output_back; assumption.
  Qed.
  (** No call raises, and the length is the number of inputs. *)
  Theorem func_len calls : Forall proper_call calls -> exists vs, NoDup vs /\ (forall v, In v vs <-> exists o lb, In (v, o, lb) calls) /\ flen (add_many calls f0) = List.length vs.
  Proof.
    intro H. pose proof (history calls H) as I. destruct (i_vs _ _ I) as [vs [[F2 [ND _]] IV]]. exists vs. split; [exact ND|]. split; [exact IV|].
    unfold flen. clear -F2. induction F2; cbn; congruence.
  Qed.
  Theorem func_add_ok calls a : Forall proper_call calls -> proper_call a -> exists f, add (fst (fst a)) (snd (fst a)) (snd a) (add_many calls f0) = Ok f.
  Proof. intros H Pa. destruct (add_inv _ _ a (history calls H) Pa) as [f [E _]]. eauto. Qed.
  (** A tuple of another length is refused. *)
  Theorem func_wrong_length calls l : Forall proper_call calls -> List.length (key_list ins) <> 1 -> List.length l <> List.length (key_list ins) ->
    getitem (add_many calls f0) (PTuple l) = Err "AssertionError" /\ forall o lb, add (PTuple l) o lb (add_many calls f0) = Err "AssertionError".
  Proof.
    intros H N1 NL. pose proof (i_keys _ _ (history calls H)) as [A _]. unfold getitem, add, split_input. rewrite A.
    apply Nat.eqb_neq in N1. rewrite N1. cbn [items bind]. replace (Nat.eqb (List.length (key_list ins)) (List.length l)) with false by (symmetry; apply Nat.eqb_neq; auto).
    cbn [negb bind]. auto.
  Qed.
End Func.

(** ** Concrete calls, and what does not hold *)
Definition policy : res func := new_func (Many ["state"; "mode"]) (One "action").
Definition policy_calls : list call :=
  [(PTuple [PText "s0"; PNum 1], PText "go", []); (PTuple [PText "s1"; PNum 1], PText "wait", []); (PTuple [PText "s0"; PNum 1], PText "stop", ["a"])].
Example policy_example : exists f, policy = Ok f /\ getitem (add_many policy_calls f) (PTuple [PText "s0"; PNum 1]) = Ok (PText "stop") /\
  getitem (add_many policy_calls f) (PTuple [PText "s0"; PNum 2]) = Err "KeyError" /\ flen (add_many policy_calls f) = 2 /\
  Forall (proper_call (Many ["state"; "mode"]) (One "action")) policy_calls.
Proof.
  eexists. split; [vm_compute; reflexivity|]. do 3 (split; [vm_compute; reflexivity|]).
  repeat (apply Forall_cons; [split; [right; eexists; split; reflexivity|left; reflexivity]|]). apply Forall_nil.
Qed.
(** A function without outputs returns [None], not the empty tuple that was added. *)
Theorem func_no_output_refuted : exists f f', new_func (One "state") (Many []) = Ok f /\ add (PText "s0") (PTuple []) [] f = Ok f' /\ getitem f' (PText "s0") = Ok PNone.
Proof. eexists. eexists. split; [vm_compute; reflexivity|]. split; vm_compute; reflexivity. Qed.
(** Two outputs of one name are merged. *)
Theorem func_equal_outputs_refuted : exists f f', new_func (One "state") (Many ["a"; "a"]) = Ok f /\ add (PText "s0") (PTuple [PNum 1; PNum 2]) [] f = Ok f' /\
  getitem f' (PText "s0") = Ok (PNum 2).
Proof. eexists. eexists. split; [vm_compute; reflexivity|]. split; vm_compute; reflexivity. Qed.
(** A single input whose name merely contains "state" is accepted, but then nothing can be added. *)
Theorem func_state_name_refuted : exists f, new_func (One "the_state") (One "action") = Ok f /\ forall v o lb, add v o lb f = Err "IndexError".
Proof. eexists. split; [vm_compute; reflexivity|]. intros v o lb. reflexivity. Qed.

Print Assumptions func_lookup.
Print Assumptions func_len.
Print Assumptions func_add_ok.
Print Assumptions func_wrong_length.
Print Assumptions func_no_output_refuted.
Print Assumptions func_equal_outputs_refuted.
Print Assumptions func_state_name_refuted.
