(** Lemmas for compositions: products of lists, collected labels, sums over products. *)
From Coq Require Import List String Bool Arith Lia QArith Qcanon FinFun.
From Verif Require Import M_Base M_Dict M_Graph M_Machine M_Compose S_Run S_Compose L_Dict L_Graph L_Build L_Machine.
Import ListNotations.
Open Scope string_scope.
Open Scope list_scope.
Open Scope nat_scope.

(** ** Equality of values *)
Lemma qc_eqb_eq x y : Qc_eq_bool x y = true <-> x = y.
Proof.
  split; [apply Qc_eq_bool_correct|]. intros ->. unfold Qc_eq_bool. destruct (Qc_eq_dec y y); [reflexivity|contradiction].
Qed.
Fixpoint val_eqb_eq (a b : val) {struct a} : val_eqb a b = true <-> a = b.
Proof.
  destruct a as [|x|x|x|x], b as [|y|y|y|y]; cbn [val_eqb]; try (split; [discriminate|congruence]); try tauto.
  - rewrite qc_eqb_eq. split; congruence.
  - rewrite String.eqb_eq. split; congruence.
  - revert y. induction x as [|a x IH]; intros [|b y]; try (split; [discriminate|congruence]); [tauto|].
    rewrite andb_true_iff, IH, (val_eqb_eq a b). split; [intros [-> [= ->]]; reflexivity|intros [= -> ->]; auto].
  - destruct (list_eq_dec string_dec x y); split; congruence.
Qed.

(** ** Products of lists *)
Section Product.
  Context {A : Type}.
  Lemma product_In (ls : list (list A)) x : In x (product ls) <-> Forall2 (@In A) x ls.
  Proof.
    revert x. induction ls as [|l ls IH]; intro x; cbn [product].
    - split; [intros [<-|[]]; constructor|intro H; inversion H; left; reflexivity].
    - rewrite in_flat_map. split.
      + intros [a [I J]]. apply in_map_iff in J. destruct J as [y [<- J]]. constructor; [exact I|apply IH, J].
      + intro H. inversion H as [|a y ? ? I J]; subst. exists a. split; [exact I|]. apply in_map, IH, J.
  Qed.
  Lemma nodup_app (l m : list A) : NoDup l -> NoDup m -> (forall x, In x l -> ~ In x m) -> NoDup (l ++ m).
  Proof.
    induction l as [|a r IH]; cbn [app]; intros H K D; [exact K|]. inversion H as [|? ? NI ND]; subst. constructor.
    - rewrite in_app_iff. intros [J|J]; [auto|]. exact (D a (or_introl eq_refl) J).
    - apply IH; auto. intros x I. apply D. right. exact I.
  Qed.
End Product.
Lemma product_NoDup {A} (ls : list (list A)) : Forall (@NoDup A) ls -> NoDup (product ls).
Proof.
  induction 1 as [|l ls H F IH]; cbn [product]; [constructor; [intros []|constructor]|].
  induction H as [|a r NI ND IH2]; cbn [flat_map]; [constructor|]. apply nodup_app; [|exact IH2|].
  - apply FinFun.Injective_map_NoDup; [|exact IH]. intros x y [= ->]. reflexivity.
  - intros x I J. apply in_map_iff in I. destruct I as [y [<- _]]. apply in_flat_map in J. destruct J as [b [J K]].
    apply in_map_iff in K. destruct K as [z [[= -> ->] _]]. exact (NI J).
Qed.
(** Keeping the rows whose items pass their tests. *)
Fixpoint all2 {A B} (p : A -> B -> bool) (l : list A) (m : list B) : bool :=
  match l, m with [], [] => true | a :: l', b :: m' => p a b && all2 p l' m' | _, _ => false end.
Lemma all2_Forall2 {A B} (p : A -> B -> bool) l m : all2 p l m = true <-> Forall2 (fun a b => p a b = true) l m.
Proof.
  revert m. induction l as [|a l IH]; intros [|b m]; cbn [all2]; try (split; [discriminate|intro H; inversion H]).
  - split; [constructor|reflexivity].
  - rewrite andb_true_iff, IH. split; [intros [X Y]; constructor; auto|intro H; inversion H; auto].
Qed.
Fixpoint filters {A B} (p : B -> A -> bool) (bs : list B) (ls : list (list A)) : list (list A) :=
  match bs, ls with b :: bs', l :: ls' => filter (p b) l :: filters p bs' ls' | _, _ => [] end.
Lemma filter_flat_map {A B} (p : B -> bool) (f : A -> list B) l : filter p (flat_map f l) = flat_map (fun a => filter p (f a)) l.
Proof. induction l as [|a r IH]; cbn [flat_map filter]; [reflexivity|]. rewrite filter_app, IH. reflexivity. Qed.
Lemma filter_map {A B} (p : B -> bool) (f : A -> B) l : filter p (map f l) = map f (filter (fun x => p (f x)) l).
Proof. induction l as [|a r IH]; cbn [map filter]; [reflexivity|]. destruct (p (f a)); cbn [map]; rewrite IH; reflexivity. Qed.
Lemma filter_product {A B} (p : B -> A -> bool) bs (ls : list (list A)) : List.length bs = List.length ls ->
  filter (all2 p bs) (product ls) = product (filters p bs ls).
Proof.
  revert bs. induction ls as [|l ls IH]; intros [|b bs] L; try discriminate; [reflexivity|]. cbn [product filters].
  rewrite filter_flat_map. injection L as L. specialize (IH bs L).
  induction l as [|a r IH2]; cbn [flat_map filter]; [reflexivity|]. rewrite filter_map, IH2. cbn [all2].
  destruct (p b a) eqn:E; cbn [flat_map andb].
  - f_equal. f_equal. rewrite <- IH. apply filter_ext. reflexivity.
  - replace (filter (fun _ => false) (product ls)) with (@nil (list A)); [reflexivity|].
    clear. induction (product ls); cbn; auto.
Qed.

(** ** Sums *)
Lemma sumq_cons a l : sumq (a :: l) = (a + sumq l)%Qc. Proof. reflexivity. Qed.
Lemma prodq_cons a l : prodq (a :: l) = (a * prodq l)%Qc. Proof. reflexivity. Qed.
Lemma sumq_nil : sumq [] = 0%Qc. Proof. reflexivity. Qed.
Lemma prodq_nil : prodq [] = 1%Qc. Proof. reflexivity. Qed.
Lemma sumq_app l m : sumq (l ++ m) = (sumq l + sumq m)%Qc.
Proof. induction l as [|a r IH]; cbn [app]; rewrite ?sumq_nil, ?sumq_cons, ?IH; ring. Qed.
Lemma sumq_scale c l : sumq (map (Qcmult c) l) = (c * sumq l)%Qc.
Proof. induction l as [|a r IH]; cbn [map]; rewrite ?sumq_nil, ?sumq_cons, ?IH; ring. Qed.
Lemma prodq_app l m : prodq (l ++ m) = (prodq l * prodq m)%Qc.
Proof. induction l as [|a r IH]; cbn [app]; rewrite ?prodq_nil, ?prodq_cons, ?IH; ring. Qed.
(** The sum of the products is the product of the sums. *)
Lemma sum_product {A} (w : A -> Qc) (ls : list (list A)) :
  sumq (map (fun es => prodq (map w es)) (product ls)) = prodq (map (fun l => sumq (map w l)) ls).
Proof.
  induction ls as [|l ls IH]; cbn [product map].
  - rewrite sumq_cons, prodq_nil, sumq_nil. ring.
  - rewrite prodq_cons, <- IH. clear IH.
    induction l as [|a r IH]; cbn [flat_map map].
    + rewrite !sumq_nil. ring.
    + rewrite map_app, sumq_app, IH, map_map, sumq_cons.
      rewrite Qcmult_plus_distr_l. f_equal. rewrite <- sumq_scale, map_map. reflexivity.
Qed.

(** ** Operations on values *)
Lemma fold_mul qs p : fold_res (fun y acc => py_mul acc y) (map VNum qs) (VNum p) = Ok (VNum (p * prodq qs)%Qc).
Proof.
  revert p. induction qs as [|q qs IH]; intro p; cbn [map fold_res py_mul bind].
  - do 2 f_equal. rewrite ?prodq_nil, ?sumq_nil. ring.
  - rewrite IH. do 2 f_equal. rewrite prodq_cons. ring.
Qed.
Lemma fold_add qs p : fold_res (fun y acc => py_add acc y) (map VNum qs) (VNum p) = Ok (VNum (p + sumq qs)%Qc).
Proof.
  revert p. induction qs as [|q qs IH]; intro p; cbn [map fold_res py_add bind].
  - do 2 f_equal. rewrite ?prodq_nil, ?sumq_nil. ring.
  - rewrite IH. do 2 f_equal. rewrite sumq_cons. ring.
Qed.
Lemma mult_values_nums l qs : present l = map VNum qs -> qs <> [] -> mult_values l = Ok (VNum (prodq qs)).
Proof.
  intros P N. unfold mult_values. fold (present l). rewrite P. destruct qs as [|q qs]; [congruence|]. cbn [map reduce].
  rewrite fold_mul. reflexivity.
Qed.
Lemma sum_values_nums l qs : present l = map VNum qs -> qs <> [] -> sum_values l = Ok (VNum (sumq qs)).
Proof.
  intros P N. unfold sum_values. fold (present l). rewrite P. destruct qs as [|q qs]; [congruence|]. cbn [map reduce].
  rewrite fold_add. reflexivity.
Qed.
Lemma neglect_none_spec l v : neglect_none l = Ok v -> present l = [v] \/ (List.length (present l) <> 1 /\ v = VTup (present l)).
Proof.
  unfold neglect_none. fold (present l). destruct (present l) as [|x [|y r]]; intros [= <-]; cbn [List.length]; auto.
Qed.

(** ** Collected labels *)
Section Collect.
  Definition has (k : string) (a : attrs val) : bool := match lookup k a with Some _ => true | None => false end.
  Definition val_of (k : string) (a : attrs val) : val := match lookup k a with Some v => v | None => VNone end.
  Lemma set_nth_length {A} i (x : A) l : List.length (set_nth i x l) = List.length l.
  Proof. revert i. induction l as [|y r IH]; intros [|i]; cbn; auto. Qed.
  Lemma set_nth_app {A} (pre : list A) x y r : set_nth (List.length pre) x (pre ++ y :: r) = pre ++ x :: r.
  Proof. induction pre as [|z pre IH]; cbn; [reflexivity|]. rewrite IH. reflexivity. Qed.

  Lemma collect1_fold n idx (a : attrs val) (d : attrs (list val)) k : NoDup (map fst a) ->
    lookup k (fold_left (fun d kv => collect1 n idx kv d) a d) =
    match lookup k a with
    | Some v => Some (set_nth idx v (match lookup k d with Some l => l | None => repeat VNone n end))
    | None => lookup k d
    end.
  Proof.
    revert d. induction a as [|[k' v] a IH]; intros d ND; cbn [fold_left lookup]; [reflexivity|].
    cbn [map fst] in ND. inversion ND as [|? ? NI ND']; subst. rewrite IH by exact ND'. unfold collect1. cbn [fst snd].
    rewrite !lookup_set. destruct (k =? k')%string eqn:E.
    - apply String.eqb_eq in E. subst k'. apply lookup_None in NI. rewrite NI. reflexivity.
    - destruct (lookup k a); reflexivity.
  Qed.
  Lemma collect1_keys n idx (a : attrs val) (d : attrs (list val)) :
    NoDup (map fst d) -> NoDup (map fst (fold_left (fun d kv => collect1 n idx kv d) a d)).
  Proof. revert d. induction a as [|x a IH]; intros d H; cbn [fold_left]; [exact H|]. apply IH, nodup_set, H. Qed.

  Lemma collect_keys n idx l (d : attrs (list val)) : NoDup (map fst d) -> NoDup (map fst (collect n idx l d)).
  Proof. revert idx d. induction l as [|a l IH]; intros idx d H; cbn [collect]; [exact H|]. apply IH, collect1_keys, H. Qed.

  (** The values so far, of the dictionaries [pre]; nothing for the dictionaries to come. *)
  Definition so_far (n : nat) (pre : list (attrs val)) (d : attrs (list val)) : Prop :=
    forall k, lookup k d = if existsb (has k) pre
                           then Some (map (val_of k) pre ++ repeat VNone (n - List.length pre)) else None.
  Lemma collect_so_far l : forall pre d n, Forall (fun a : attrs val => NoDup (map fst a)) l -> n = List.length pre + List.length l ->
    so_far n pre d -> so_far n (pre ++ l) (collect n (List.length pre) l d).
  Proof.
    induction l as [|a l IH]; intros pre d n F L H; cbn [collect]; [rewrite app_nil_r; exact H|].
    replace (pre ++ a :: l) with ((pre ++ [a]) ++ l) by (rewrite <- app_assoc; reflexivity).
    replace (S (List.length pre)) with (List.length (pre ++ [a])) by (rewrite app_length; cbn; lia).
    apply IH; [exact (Forall_inv_tail F)|rewrite app_length; cbn in *; lia|].
    intro k. rewrite collect1_fold by exact (Forall_inv F). rewrite existsb_app, H, map_app, app_length. cbn [existsb map List.length].
    replace (has k a) with (match lookup k a with Some _ => true | None => false end) by reflexivity.
    assert (E : repeat VNone (n - List.length pre) = VNone :: repeat VNone (n - (List.length pre + 1))).
    { cbn [List.length] in L. replace (n - List.length pre) with (S (n - (List.length pre + 1))) by lia. reflexivity. }
    assert (Z : existsb (has k) pre = false ->
      repeat VNone n = map (val_of k) pre ++ repeat VNone (n - List.length pre)).
    { intro X. replace (repeat VNone n) with (repeat VNone (List.length pre) ++ repeat VNone (n - List.length pre)).
      - f_equal. clear - X. induction pre as [|b pre IH]; cbn [existsb] in X; cbn; [reflexivity|]. apply orb_false_iff in X. destruct X as [X Y]. unfold has in X.
        rewrite (IH Y). unfold val_of at 2. destruct (lookup k b); [discriminate|reflexivity].
      - rewrite <- repeat_app. f_equal. cbn [List.length] in L. lia. }
    destruct (lookup k a) as [v|] eqn:K.
    - rewrite orb_comm. cbn [orb]. f_equal.
      replace (match (if existsb _ pre then _ else None) with Some l0 => l0 | None => repeat VNone n end)
        with (map (val_of k) pre ++ repeat VNone (n - List.length pre)).
      + rewrite E. rewrite <- (map_length (val_of k) pre) at 1. rewrite set_nth_app, <- app_assoc. cbn [app]. unfold val_of at 3. rewrite K. reflexivity.
      + destruct (existsb _ pre) eqn:X; [reflexivity|]. symmetry. apply Z. reflexivity.
    - rewrite orb_false_r. destruct (existsb _ pre); [|reflexivity]. rewrite E, <- app_assoc. cbn [app]. unfold val_of at 3. rewrite K. reflexivity.
  Qed.
  Lemma collect_spec (l : list (attrs val)) k : Forall (fun a : attrs val => NoDup (map fst a)) l ->
    lookup k (collect (List.length l) 0 l []) =
    if existsb (has k) l then Some (map (val_of k) l) else None.
  Proof.
    intro F. pose proof (collect_so_far l [] [] (List.length l) F eq_refl) as H. cbn [app List.length] in H.
    rewrite H by (intro k'; reflexivity). rewrite Nat.sub_diag. cbn [repeat]. rewrite app_nil_r. reflexivity.
  Qed.
End Collect.

(** The label of a joint transition, for any operations. *)
Definition label_with (ops : operations) (l : list (attrs val)) (d : attrs val) : Prop :=
  NoDup (map fst d) /\ forall k,
    (lookup k d = None <-> forall a, In a l -> lookup k a = None) /\
    forall v, lookup k d = Some v ->
      match lookup k ops with Some f => f (map (val_of k) l) = Ok v | None => v = VTup (map (val_of k) l) end.
Lemma apply_operations ops (D : attrs (list val)) d : mapr (apply_operation ops) D = Ok d -> NoDup (map fst D) ->
  map fst d = map fst D /\ forall k, match lookup k D with
    | None => lookup k d = None
    | Some vs => exists v, lookup k d = Some v /\ match lookup k ops with Some f => f vs = Ok v | None => v = VTup vs end
    end.
Proof.
  intros H ND. apply mapr_Forall2 in H. induction H as [|[k0 vs] [k1 v] D d X F IH]; [split; [reflexivity|]; intro k; reflexivity|].
  cbn [map fst] in ND. inversion ND as [|? ? NI ND']; subst. destruct (IH ND') as [E K]. unfold apply_operation in X. cbn [fst snd] in X.
  assert (Y : k1 = k0 /\ match lookup k0 ops with Some f => f vs = Ok v | None => v = VTup vs end).
  { destruct (lookup k0 ops) as [f|]; [|injection X as <- <-; auto].
    destruct (f vs) as [w|]; cbn [bind] in X; [|discriminate]. injection X as <- <-. auto. }
  destruct Y as [-> Y]. split; [cbn [map fst]; rewrite E; reflexivity|]. intro k. cbn [lookup]. destruct (k =? k0)%string eqn:Z; [|apply K].
  apply String.eqb_eq in Z. subst. exists v. auto.
Qed.
Lemma get_transition_attr_spec ops l d : Forall (fun a : attrs val => NoDup (map fst a)) l ->
  get_transition_attr ops l = Ok d -> label_with ops l d.
Proof.
  intros F H. unfold get_transition_attr in H.
  assert (ND : NoDup (map fst (collect (List.length l) 0 l []))) by (apply collect_keys; constructor).
  destruct (apply_operations ops _ d H ND) as [E K]. split; [rewrite E; exact ND|]. intro k. specialize (K k).
  rewrite (collect_spec l k F) in K. destruct (existsb _ l) eqn:X.
  - destruct K as [v [L V]]. split.
    + split; [congruence|]. intro A. apply existsb_exists in X. destruct X as [a [I X]]. unfold has in X. rewrite (A a I) in X. discriminate.
    + intros w L'. assert (w = v) by congruence. subst. exact V.
  - split; [|congruence]. split; [|auto]. intros _ a I. destruct (lookup k a) eqn:Y; [|reflexivity]. exfalso.
    enough (Z : existsb (has k) l = true) by congruence.
    apply existsb_exists. exists a. unfold has. rewrite Y. auto.
Qed.
Lemma label_with_unique ops l d d' : label_with ops l d -> label_with ops l d' -> same_items d d'.
Proof.
  intros [_ H] [_ K] k. destruct (H k) as [A B], (K k) as [A' B']. destruct (lookup k d) as [v|] eqn:E, (lookup k d') as [v'|] eqn:E'.
  - specialize (B v eq_refl). specialize (B' v' eq_refl). destruct (lookup k ops); congruence.
  - exfalso. pose proof (proj2 A (proj1 A' eq_refl)). congruence.
  - exfalso. pose proof (proj2 A' (proj1 A eq_refl)). congruence.
  - reflexivity.
Qed.
(** When every operation succeeds, so does the label. *)
Lemma get_transition_attr_total ops l : Forall (fun a : attrs val => NoDup (map fst a)) l ->
  (forall k f, lookup k ops = Some f -> (exists a v, In a l /\ lookup k a = Some v) -> exists v, f (map (val_of k) l) = Ok v) ->
  exists d, get_transition_attr ops l = Ok d.
Proof.
  intros F H. unfold get_transition_attr.
  assert (ND : NoDup (map fst (collect (List.length l) 0 l []))) by (apply collect_keys; constructor).
  assert (G : forall k vs, In (k, vs) (collect (List.length l) 0 l []) -> exists y, apply_operation ops (k, vs) = Ok y).
  { intros k vs I. apply In_lookup in I; [|exact ND]. rewrite (collect_spec l k F) in I. destruct (existsb _ l) eqn:X; [|discriminate].
    injection I as <-. apply existsb_exists in X. destruct X as [a [I X]]. unfold has in X. destruct (lookup k a) as [w|] eqn:L; [|discriminate].
    unfold apply_operation. cbn [fst snd]. destruct (lookup k ops) as [f|] eqn:O; [|eauto].
    destruct (H k f O) as [v V]; [eauto|]. rewrite V. cbn [bind]. eauto. }
  clear - G. induction (collect (List.length l) 0 l []) as [|[k vs] D IH]; cbn [mapr]; [eauto|].
  destruct (G k vs (or_introl eq_refl)) as [y Y]. rewrite Y. cbn [bind].
  destruct IH as [d E]; [intros; apply G; right; assumption|]. rewrite E. cbn [bind]. eauto.
Qed.
Lemma with_defaults_nil k : lookup k (with_defaults []) =
  if (k =? "cost")%string then Some sum_values else if (k =? "probability")%string then Some mult_values
  else if (k =? "action")%string then Some neglect_none else None.
Proof. reflexivity. Qed.
