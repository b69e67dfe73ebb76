(** C54: the intervals of a grid tile the domain, and the boxes of a grid are all their combinations. *)
From Coq Require Import List String Bool Arith ZArith QArith Qround Lqa Lia Permutation.
From Verif Require Import M_Base M_Part.
Import ListNotations.
Open Scope string_scope.
Open Scope list_scope.
Open Scope nat_scope.

(** ** C54: intervals *)
(** Specification: consecutive intervals from [low] to [high]; all but the last have the requested
    width. *)
Inductive tiles (high size tol : Q) : Q -> list box -> Prop :=
| tiles_last low : (high <= low + size + tol)%Q -> tiles high size tol low [[low; high]]
| tiles_next low b l : (b == low + size)%Q -> (b + tol < high)%Q -> tiles high size tol b l -> tiles high size tol low ([low; b] :: l).

Lemma interval_loop_tiles high size tol : forall fuel i acc l, interval_loop fuel high size tol i acc = Some l ->
  exists m, l = acc ++ m /\ tiles high size tol i m.
Proof.
  induction fuel as [|f IH]; intros i acc l H; cbn [interval_loop] in H; [discriminate|].
  destruct (Qle_bool high (i + size + tol)) eqn:E.
  - injection H as <-. exists [[i; high]]. split; [reflexivity|]. apply tiles_last. apply Qle_bool_iff, E.
  - apply IH in H. destruct H as (m & -> & T). exists ([i; (i + size)%Q] :: m).
    split; [rewrite <- app_assoc; reflexivity|]. apply tiles_next; [reflexivity| |exact T].
    apply Qnot_le_lt. intro A. apply Qle_bool_iff in A. congruence.
Qed.
Lemma interval_loop_ends high size tol : (0 < size)%Q -> (0 <= tol)%Q -> forall n i acc,
  (high <= i + inject_Z (Z.of_nat n) * size)%Q -> forall fuel, S n <= fuel -> interval_loop fuel high size tol i acc <> None.
Proof.
  intros P T. induction n as [|n IH]; intros i acc H fuel F; (destruct fuel as [|f]; [lia|]); cbn [interval_loop].
  - replace (Qle_bool high (i + size + tol)) with true; [discriminate|]. symmetry. apply Qle_bool_iff.
    change (inject_Z (Z.of_nat 0)) with 0%Q in H. lra.
  - destruct (Qle_bool high (i + size + tol)); [discriminate|]. apply IH; [|lia].
    rewrite Nat2Z.inj_succ in H. unfold Z.succ in H. rewrite inject_Z_plus in H. change (inject_Z 1) with 1%Q in H. lra.
Qed.
Lemma archimedes a size : (0 < size)%Q -> exists n : nat, (a <= inject_Z (Z.of_nat n) * size)%Q.
Proof.
  intro P. exists (Z.to_nat (Qceiling (a / size))).
  assert (A : (a == (a / size) * size)%Q) by (field; lra).
  rewrite A at 1. apply Qmult_le_compat_r; [|lra].
  apply Qle_trans with (inject_Z (Qceiling (a / size))); [apply Qle_ceiling|].
  rewrite <- Zle_Qle. lia.
Qed.
(** The loop ends for every positive size, and returns consecutive intervals. *)
Theorem compute_interval_tiles low high size tol : (0 < size)%Q -> (0 <= tol)%Q ->
  exists n l, (forall fuel, n <= fuel -> compute_interval fuel low high size tol = Some l) /\ tiles high size tol low l.
Proof.
  intros P T. destruct (archimedes (high - low) size P) as [n N].
  assert (H : (high <= low + inject_Z (Z.of_nat n) * size)%Q) by lra.
  pose proof (interval_loop_ends high size tol P T n low [] H) as E.
  exists (S n). destruct (interval_loop (S n) high size tol low []) as [l|] eqn:L; [|exfalso; apply (E (S n)); auto].
  exists l. split.
  - assert (M : forall f i acc l, interval_loop f high size tol i acc = Some l -> forall k, interval_loop (k + f) high size tol i acc = Some l).
    { induction f as [|f IH]; intros i acc l' X k; [discriminate|]. rewrite Nat.add_succ_r. cbn [interval_loop] in X |- *.
      destruct (Qle_bool high (i + size + tol)); [exact X|]. apply IH, X. }
    intros fuel F. unfold compute_interval. replace fuel with ((fuel - S n) + S n) by lia. apply M, L.
  - destruct (interval_loop_tiles _ _ _ _ _ _ _ L) as (m & -> & X). exact X.
Qed.
(** What tiling means for the widths: all positive, at most the size up to the tolerance. *)
Theorem tiles_widths high size tol low l : (0 < size)%Q -> (0 <= tol)%Q -> (low < high)%Q -> tiles high size tol low l ->
  (forall b, In b l -> exists x y, b = [x; y] /\ (x < y)%Q /\ (y - x <= size + tol)%Q /\ (low <= x)%Q /\ (y <= high)%Q) /\
  (forall b, In b (removelast l) -> exists x y, b = [x; y] /\ (y - x == size)%Q).
Proof.
  intros P T L H. induction H as [low H|low b l B C H IH].
  - split; [|intros b []]. intros b [<- | []]. exists low, high. repeat split; try reflexivity; lra.
  - assert (L' : (b < high)%Q) by lra. destruct (IH L') as [A R]. split.
    + intros c [<- | I].
      * exists low, b. repeat split; try reflexivity; lra.
      * destruct (A c I) as (x & y & -> & A1 & A2 & A3 & A4). exists x, y. repeat split; try reflexivity; lra.
    + intros c I. assert (E : @removelast box ([low; b] :: l) = [low; b] :: removelast l) by (destruct H; reflexivity).
      rewrite E in I. destruct I as [<- | I]; [|apply R, I]. exists low, b. split; [reflexivity|lra].
Qed.
(** The intervals cover the range, in order and without overlap. *)
Theorem tiles_cover high size tol low l : (0 < size)%Q -> (0 <= tol)%Q -> tiles high size tol low l ->
  (forall z, low <= z <= high -> exists x y, In [x; y] l /\ x <= z <= y)%Q /\
  ForallOrdPairs (fun b c => exists x y x' y', b = [x; y] /\ c = [x'; y'] /\ (y <= x')%Q) l.
Proof.
  intros P T H. induction H as [low H|low b l B C H [IH1 IH2]].
  - split; [|repeat constructor]. intros z Z. exists low, high. split; [left; reflexivity|exact Z].
  - split.
    + intros z Z. destruct (Qlt_le_dec z b) as [D|D].
      * exists low, b. split; [left; reflexivity|lra].
      * destruct (IH1 z) as (x & y & I & A); [lra|]. exists x, y. split; [right; exact I|exact A].
    + constructor; [|exact IH2]. apply Forall_forall. intros c I.
      assert (L : (b < high)%Q) by lra. destruct (tiles_widths _ _ _ _ _ P T L H) as [A _].
      destruct (A c I) as (x & y & -> & A1 & A2 & A3 & A4). exists low, b, x, y. repeat split; try reflexivity. exact A3.
Qed.
(** A given number of intervals is met, for a tolerance below the size. *)
Theorem tiles_count low high tol n l : (low < high)%Q -> (0 <= tol)%Q -> 0 < n ->
  let size := ((high - low) / inject_Z (Z.of_nat n))%Q in (tol < size)%Q -> tiles high size tol low l -> List.length l = n.
Proof.
  intros L T N size S H.
  assert (E : (high == low + inject_Z (Z.of_nat n) * size)%Q).
  { unfold size. field. intro X. assert (0 < inject_Z (Z.of_nat n))%Q by (change 0%Q with (inject_Z 0); rewrite <- Zlt_Qlt; lia). lra. }
  clearbody size. clear L. revert n N E. induction H as [low H|low b l B C H IH]; intros n N E.
  - destruct n as [|[|n]]; [lia|reflexivity|exfalso].
    rewrite !Nat2Z.inj_succ in E. unfold Z.succ in E. rewrite !inject_Z_plus in E. change (inject_Z 1) with 1%Q in E.
    assert (0 <= inject_Z (Z.of_nat n))%Q by (change 0%Q with (inject_Z 0); rewrite <- Zle_Qle; lia). nra.
  - destruct n as [|n]; [lia|]. cbn [List.length]. f_equal.
    rewrite !Nat2Z.inj_succ in E. unfold Z.succ in E. rewrite !inject_Z_plus in E. change (inject_Z 1) with 1%Q in E.
    apply IH.
    + destruct n as [|n]; [|lia]. exfalso. change (inject_Z (Z.of_nat 0)) with 0%Q in E. lra.
    + lra.
Qed.
Example tiles_example : exists l, compute_interval 10 0 1 (3 # 10) (1 # 100) = Some l /\ List.length l = 4.
Proof. eexists. split; vm_compute; reflexivity. Qed.
(** A size that is not positive: the loop does not end. *)
Theorem compute_interval_loops low high size tol : (size <= 0)%Q -> (low + size + tol < high)%Q ->
  forall fuel, compute_interval fuel low high size tol = None.
Proof.
  intros P H n. unfold compute_interval.
  assert (A : forall fuel i acc, (i <= low)%Q -> interval_loop fuel high size tol i acc = None).
  { induction fuel as [|f IH]; intros i acc I; [reflexivity|]. cbn [interval_loop].
    destruct (Qle_bool high (i + size + tol)) eqn:E; [apply Qle_bool_iff in E; lra|]. apply IH. lra. }
  apply A. lra.
Qed.
(** Within the tolerance the last interval may be longer than the size asked for, and a domain
    that is given upside down yields one interval upside down. *)
Theorem compute_interval_size_refuted : exists x y,
  compute_interval 10 0 (21 # 10) 1 (1 # 5) = Some [[0; 0 + 1]; [x; y]]%Q /\ (1 < y - x)%Q.
Proof. do 2 eexists. split; [vm_compute; reflexivity|]. reflexivity. Qed.
Theorem compute_interval_reversed_refuted : compute_interval 1 1 0 1 0 = Some [[1; 0]]%Q.
Proof. reflexivity. Qed.

(** Every combination once, in the order of the first list. *)
Theorem product_interval_pairs l1 l2 : product_interval l1 l2 = map (fun p => fst p ++ snd p) (list_prod l1 l2).
Proof.
  unfold product_interval. induction l1 as [|a l1 IH]; [reflexivity|]. cbn [flat_map list_prod]. rewrite map_app, map_map, IH. reflexivity.
Qed.
(** The boxes of a grid of at least two dimensions: one choice of interval in every dimension. *)
Fixpoint choices {A} (ls : list (list A)) : list (list A) :=
  match ls with [] => [[]] | l :: r => flat_map (fun x => map (cons x) (choices r)) l end.
Lemma map_concat_flat {A B} (f : A -> B) l : map f (List.concat l) = List.concat (map (map f) l).
Proof. apply concat_map. Qed.
Lemma fold_product : forall ls a, fold_left product_interval ls a = flat_map (fun x => map (fun c => x ++ List.concat c) (choices ls)) a.
Proof.
  induction ls as [|l ls IH]; intro a; cbn [fold_left choices].
  - cbn [map List.concat]. induction a as [|x a IHa]; [reflexivity|]. cbn [flat_map]. rewrite app_nil_r. cbn. f_equal. exact IHa.
  - rewrite IH. unfold product_interval. induction a as [|x a IHa]; [reflexivity|]. cbn [flat_map]. rewrite flat_map_app, IHa. f_equal.
    clear. induction l as [|y l IHl]; [reflexivity|]. cbn [map flat_map]. rewrite IHl, map_app, map_map. f_equal.
    apply map_ext. intro c. cbn [List.concat]. rewrite app_assoc. reflexivity.
Qed.
Theorem grid_boxes_choices ls : 2 <= List.length ls -> grid_boxes ls = Ok (map (@List.concat Q) (choices ls)).
Proof.
  destruct ls as [|a [|b r]]; cbn [List.length]; intro H; try lia. cbn [grid_boxes]. f_equal.
  change (fold_left product_interval r (product_interval a b)) with (fold_left product_interval (b :: r) a).
  rewrite fold_product. change (choices (a :: b :: r)) with (flat_map (fun x => map (cons x) (choices (b :: r))) a).
  generalize (choices (b :: r)). intro cs.
  induction a as [|x a IHa]; [reflexivity|]. cbn [flat_map]. rewrite map_app, map_map, IHa. reflexivity.
Qed.
(** One dimension: the boxes are never assigned. *)
Theorem grid_boxes_line_refuted l : grid_boxes [l] = Err "UnboundLocalError".
Proof. reflexivity. Qed.
(** ** The size of the grid *)
(** With numbers of points, every size times its number is the extent of the dimension; with sizes,
    they are those given.  Nothing else is accepted. *)
Inductive sizes_for (lows highs : list Q) : garg -> garg -> list Q -> Prop :=
| by_number n sizes : n <> 0%Z ->
    Forall2 (fun lh s => s * inject_Z n == snd lh - fst lh)%Q (combine lows highs) sizes ->
    sizes_for lows highs GNone (GOne (GInt n)) sizes
| by_numbers ns sizes : List.length ns = List.length lows -> Forall (fun n => n <> 0%Z) ns ->
    Forall2 (fun t s => s * inject_Z (snd t) == snd (fst t) - fst (fst t))%Q (combine (combine lows highs) ns) sizes ->
    sizes_for lows highs GNone (GList (map GInt ns)) sizes
| by_size q : sizes_for lows highs (GOne (GFloat q)) GNone (map (fun _ => q) lows)
| by_sizes l : List.length l = List.length lows -> sizes_for lows highs (GList l) GNone (map gnum l).
Lemma per_point_ok lo hi g s : per_point lo hi g = Ok s -> exists n, g = GInt n /\ n <> 0%Z /\ (s * inject_Z n == hi - lo)%Q.
Proof.
  destruct g as [n|q]; [|discriminate]. unfold per_point. destruct (Z.eqb_spec n 0) as [-> |E]; [discriminate|]. intro H.
  assert (s = ((hi - lo) / inject_Z n)%Q) as -> by congruence. exists n. split; [reflexivity|]. split; [exact E|]. field.
  intro Q. apply E. unfold Qeq in Q. cbn in Q. lia.
Qed.
Lemma mapr_rel {A B} (f : A -> res B) : forall l r, mapr f l = Ok r -> Forall2 (fun x y => f x = Ok y) l r.
Proof.
  induction l as [|x l IH]; intros r H; cbn [mapr] in H; [assert (r = []) as -> by congruence; constructor|].
  destruct (f x) as [y|] eqn:E; [|discriminate]. cbn [bind] in H. destruct (mapr f l) as [ys|]; [|discriminate]. cbn [bind] in H.
  assert (r = y :: ys) as -> by congruence. constructor; [exact E|]. apply IH. reflexivity.
Qed.
Theorem grid_sizes_spec lows highs grid_size num sizes : lows <> [] -> List.length highs = List.length lows ->
  grid_sizes lows highs grid_size num = Ok sizes -> sizes_for lows highs grid_size num sizes.
Proof.
  intros N L H. destruct grid_size as [|g|l|]; destruct num as [|g'|l'|]; cbn [grid_sizes] in H; try discriminate; try (destruct g; discriminate).
  - apply mapr_rel in H. assert (E : exists n, g' = GInt n /\ n <> 0%Z).
    { destruct lows as [|a lows]; [contradiction|]. destruct highs as [|b highs]; [discriminate|]. cbn [combine] in H. inversion H as [|? ? ? ? P _]; subst.
      apply per_point_ok in P. destruct P as (n & -> & P & _). eauto. }
    destruct E as (n & -> & E). apply by_number; [exact E|]. induction H as [|? ? ? ? P _ IH]; constructor; [|exact IH].
    apply per_point_ok in P. destruct P as (m & Q & _ & P). injection Q as <-. exact P.
  - destruct (Nat.eqb_spec (List.length l') (List.length lows)) as [E|]; [|discriminate]. apply mapr_rel in H.
    assert (K : forall a b c, Forall2 (fun x y => per_point (fst (fst x)) (snd (fst x)) (snd x) = Ok y) (combine (combine a b) l') c ->
      List.length b = List.length a -> List.length l' = List.length a -> exists ns, l' = map GInt ns /\ Forall (fun n => n <> 0%Z) ns /\
      Forall2 (fun t s => s * inject_Z (snd t) == snd (fst t) - fst (fst t))%Q (combine (combine a b) ns) c).
    { clear. induction l' as [|g l' IH]; intros a b c H A B.
      - destruct a; [|discriminate]. exists []. split; [reflexivity|]. split; [constructor|]. inversion H; subst. constructor.
      - destruct a as [|x a]; [discriminate|]. destruct b as [|y b]; [discriminate|]. cbn [combine] in H. inversion H as [|? ? ? ? P Q]; subst.
        destruct (IH _ _ _ Q) as (ns & -> & M1 & M2); [cbn in A; lia|cbn in B; lia|].
        cbn [fst snd] in P. apply per_point_ok in P. destruct P as (n & -> & P1 & P2). exists (n :: ns). split; [reflexivity|]. split; constructor; assumption. }
    destruct (K _ _ _ H L E) as (ns & -> & M1 & M2). rewrite map_length in E. apply by_numbers; assumption.
  - destruct g as [n|q]; [discriminate|]. assert (sizes = map (fun _ => q) lows) as -> by congruence. apply by_size.
  - destruct (Nat.eqb_spec (List.length l) (List.length lows)) as [E|]; [|discriminate].
    assert (sizes = map gnum l) as -> by congruence. apply by_sizes, E.
Qed.
Print Assumptions grid_sizes_spec.
Print Assumptions compute_interval_tiles.
Print Assumptions tiles_count.
Print Assumptions tiles_widths.
Print Assumptions tiles_cover.
Print Assumptions compute_interval_loops.
Print Assumptions compute_interval_size_refuted.
Print Assumptions compute_interval_reversed_refuted.
Print Assumptions product_interval_pairs.
Print Assumptions grid_boxes_choices.
Print Assumptions grid_boxes_line_refuted.
