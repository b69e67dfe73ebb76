(** C46: [is_reachable] decides reachability. *)
From Coq Require Import String List Bool Arith ZArith Lia.
From Verif Require Import M_Base M_Machine M_Grid S_Grid.
Import ListNotations.
Open Scope string_scope.
Open Scope list_scope.

Lemma ij_eqb_eq : forall a b, ij_eqb a b = true <-> a = b.
Proof.
  intros [a a'] [b b']. unfold ij_eqb. cbn. rewrite andb_true_iff, !Z.eqb_eq. split; [intros [-> ->]; reflexivity|intros [= -> ->]; auto].
Qed.
Lemma ij_mem_In : forall a l, ij_mem a l = true <-> In a l.
Proof.
  intros a l. unfold ij_mem. rewrite existsb_exists. split.
  - intros (x & Hx & E). apply ij_eqb_eq in E. subst. exact Hx.
  - intro H. exists a. split; [exact H|apply ij_eqb_eq; reflexivity].
Qed.
Lemma ij_mem_not : forall a l, ij_mem a l = false <-> ~ In a l.
Proof. intros. rewrite <- ij_mem_In. destruct (ij_mem a l); split; congruence. Qed.

(** ** Reading a matrix *)
Lemma view_cell : forall m i j, shaped m -> (i < m_rows m)%nat -> (j < m_cols m)%nat ->
  view m (Z.of_nat i) (Z.of_nat j) = Some (cell m i j).
Proof.
  intros m i j [Hr Hc] Hi Hj. unfold view, cell.
  destruct (Z.ltb_spec (Z.of_nat i) 0); [lia|]. destruct (Z.ltb_spec (Z.of_nat j) 0); [lia|]. cbn [orb]. rewrite !Nat2Z.id.
  destruct (nth_error (m_cells m) i) as [row|] eqn:E.
  - rewrite (nth_error_nth _ _ [] E). rewrite Forall_forall in Hc.
    assert (L : length row = m_cols m) by (apply Hc; eapply nth_error_In; exact E).
    apply nth_error_nth'. lia.
  - apply nth_error_None in E. lia.
Qed.
Lemma view_inside : forall m i j v, shaped m -> view m i j = Some v -> (0 <= i < Z.of_nat (m_rows m) /\ 0 <= j < Z.of_nat (m_cols m))%Z.
Proof.
  intros m i j v [Hr Hc] H. unfold view in H.
  destruct (Z.ltb_spec i 0); [discriminate|]. destruct (Z.ltb_spec j 0); [discriminate|]. cbn [orb] in H.
  destruct (nth_error (m_cells m) (Z.to_nat i)) as [row|] eqn:E; [|discriminate].
  assert (L : length row = m_cols m) by (rewrite Forall_forall in Hc; apply Hc; eapply nth_error_In; exact E).
  assert (A : (Z.to_nat i < length (m_cells m))%nat) by (apply nth_error_Some; congruence).
  assert (B : (Z.to_nat j < length row)%nat) by (apply nth_error_Some; congruence). lia.
Qed.
Lemma view_at : forall m i j, shaped m -> (0 <= i < Z.of_nat (m_rows m))%Z -> (0 <= j < Z.of_nat (m_cols m))%Z ->
  view m i j = Some (cell m (Z.to_nat i) (Z.to_nat j)).
Proof.
  intros m i j H Hi Hj. rewrite <- view_cell by (auto; lia). rewrite !Z2Nat.id by lia. reflexivity.
Qed.
Lemma index_within : forall k n, within k n -> index k n = Ok (Z.to_nat (wrapped k n)).
Proof.
  intros k n H. unfold within in H. unfold index, wrapped.
  destruct (Z.leb_spec (- Z.of_nat n) k); [|lia]. destruct (Z.ltb_spec k (Z.of_nat n)); [|lia]. reflexivity.
Qed.
Lemma index_without : forall k n, ~ within k n -> index k n = Err "IndexError".
Proof.
  intros k n H. unfold within in H. unfold index.
  destruct (Z.leb_spec (- Z.of_nat n) k); destruct (Z.ltb_spec k (Z.of_nat n)); try reflexivity. lia.
Qed.
Lemma wrapped_range : forall k n, within k n -> (0 <= wrapped k n < Z.of_nat n)%Z.
Proof. intros k n H. unfold within in H. unfold wrapped. destruct (Z.ltb_spec k 0); lia. Qed.

(** ** [is_empty]: free, with one negative wrap; with [extend] no wrap and nothing outside is free *)
Theorem is_empty_spec : forall w m k, w_W w = Some m -> shaped m ->
  (within (fst k) (m_rows m) -> within (snd k) (m_cols m) ->
   exists b, is_empty w k false = Ok b /\ (b = true <-> free (view m) (wrapped (fst k) (m_rows m), wrapped (snd k) (m_cols m)))) /\
  (~ (within (fst k) (m_rows m) /\ within (snd k) (m_cols m)) -> is_empty w k false = Err "IndexError") /\
  (exists b, is_empty w k true = Ok b /\ (b = true <-> free (view m) k)).
Proof.
  intros w m [i j] W S. cbn [fst snd]. unfold is_empty. rewrite W. cbn [andb fst snd]. split; [|split].
  - intros Hi Hj. unfold get. cbn [fst snd]. rewrite !index_within by assumption. cbn [bind].
    eexists. split; [reflexivity|]. rewrite Z.eqb_eq. unfold free. cbn [fst snd].
    rewrite view_at by (auto using wrapped_range). split; [intros ->; reflexivity|intros [= ->]; reflexivity].
  - intro H. unfold get. cbn [fst snd].
    destruct (Z_le_dec (- Z.of_nat (m_rows m)) i) as [A|A]; [destruct (Z_lt_dec i (Z.of_nat (m_rows m))) as [B|B]|].
    2,3: rewrite index_without by (unfold within; lia); reflexivity.
    rewrite index_within by (unfold within; lia). cbn [bind]. rewrite index_without by (unfold within in *; lia). reflexivity.
  - destruct ((i <? 0) || (j <? 0) || (Z.of_nat (m_rows m) - 1 <? i) || (Z.of_nat (m_cols m) - 1 <? j))%Z eqn:E.
    + exists false. split; [reflexivity|]. split; [discriminate|]. intro F. unfold free in F. apply view_inside in F; [|exact S]. cbn [fst snd] in F.
      repeat rewrite orb_true_iff in E. rewrite !Z.ltb_lt in E. lia.
    + repeat rewrite orb_false_iff in E. rewrite !Z.ltb_ge in E. destruct E as [[[A B] C] D].
      unfold get. cbn [fst snd]. rewrite !index_within by (unfold within; lia). cbn [bind]. eexists. split; [reflexivity|].
      unfold free. cbn [fst snd]. rewrite view_at by (auto; lia). unfold wrapped.
      destruct (Z.ltb_spec i 0); [lia|]. destruct (Z.ltb_spec j 0); [lia|].
      rewrite Z.eqb_eq. split; [intros ->; reflexivity|intros [= ->]; reflexivity].
Qed.

Definition inb (m : mat) (k : ij) : Prop := (0 <= fst k < Z.of_nat (m_rows m) /\ 0 <= snd k < Z.of_nat (m_cols m))%Z.
Lemma inside_iff : forall m k, inside m k = true <-> inb m k.
Proof.
  intros m [i j]. unfold inside, inb. cbn [fst snd]. rewrite negb_true_iff, !orb_false_iff, !Z.ltb_ge, !Z.leb_gt. lia.
Qed.
Lemma is_empty_in : forall w m k, w_W w = Some m -> shaped m -> inb m k ->
  exists b, is_empty w k false = Ok b /\ (b = true <-> free (view m) k).
Proof.
  intros w m [i j] W S [A B]. cbn [fst snd] in *. destruct (is_empty_spec w m (i, j) W S) as (H & _ & _). cbn [fst snd] in H.
  destruct H as (b & Hb & Hf); [unfold within; lia|unfold within; lia|]. exists b. split; [exact Hb|].
  unfold wrapped in Hf. destruct (Z.ltb_spec i 0); [lia|]. destruct (Z.ltb_spec j 0); [lia|]. exact Hf.
Qed.

Definition plus (a d : ij) : ij := (fst a + fst d, snd a + snd d)%Z.
Lemma adjacent_move : forall a b, adjacent a b <-> exists d, In d moves /\ b = plus a d.
Proof.
  intros [a a'] [b b']. unfold adjacent, moves, plus. cbn [fst snd]. split.
  - intro H.
    assert (C : (b = a + 1 /\ b' = a' \/ b = a - 1 /\ b' = a' \/ b = a /\ b' = a' + 1 \/ b = a /\ b' = a' - 1)%Z) by lia.
    destruct C as [[-> ->]|[[-> ->]|[[-> ->]|[-> ->]]]].
    + exists (1, 0)%Z. split; [cbn; auto|cbn; f_equal; lia].
    + exists (-1, 0)%Z. split; [cbn; auto|cbn; f_equal; lia].
    + exists (0, 1)%Z. split; [cbn; auto|cbn; f_equal; lia].
    + exists (0, -1)%Z. split; [cbn; auto 6|cbn; f_equal; lia].
  - intros (d & [<-|[<-|[<-|[<-|[]]]]] & [= -> ->]); cbn [fst snd]; lia.
Qed.

Section Search.
  Variables (w : world) (m : mat).
  Hypothesis W : w_W w = Some m.
  Hypothesis S : shaped m.

  Lemma expand_fold : forall ds closed cur open, ~ In cur closed -> ~ In cur open -> (forall d, In d ds -> adjacent cur (plus cur d)) -> NoDup open ->
    (forall k, In k open -> ~ In k closed) ->
    exists open', fold_res (expand w m closed cur) ds open = Ok open' /\ NoDup open' /\ incl open open' /\
      (forall k, In k open' -> In k open \/ (adjacent cur k /\ free (view m) k /\ ~ In k closed)) /\
      (forall d, In d ds -> free (view m) (plus cur d) -> In (plus cur d) closed \/ In (plus cur d) open') /\
      ~ In cur open'.
  Proof.
    induction ds as [|d ds IH]; intros closed cur open C O A N D; cbn [fold_res].
    - exists open. split; [reflexivity|]. split; [exact N|]. split; [apply incl_refl|]. split; [auto|]. split; [intros d []|exact O].
    - unfold expand at 1. fold (plus cur d).
      destruct (inside m (plus cur d)) eqn:I; cbn [negb].
      + apply inside_iff in I. destruct (is_empty_in w m _ W S I) as (b & Hb & Hf). rewrite Hb. cbn [bind].
        assert (NE : plus cur d <> cur).
        { intro E. specialize (A d (or_introl eq_refl)). rewrite E in A. unfold adjacent in A. lia. }
        destruct (b && negb (ij_mem (plus cur d) closed) && negb (ij_mem (plus cur d) open)) eqn:T.
        * repeat rewrite andb_true_iff in T. rewrite !negb_true_iff, !ij_mem_not in T. destruct T as [[T1 T2] T3].
          destruct (IH closed cur (plus cur d :: open)) as (o & R & R1 & R2 & R3 & R4 & R5); auto.
          { intros [E|E]; auto. }
          { intros d' Hd'. apply A. right. exact Hd'. }
          { constructor; assumption. }
          { intros k [<-|Hk]; auto. }
          exists o. split; [exact R|]. split; [exact R1|]. split; [intros x Hx; apply R2; right; exact Hx|]. split; [|split; [|exact R5]].
          -- intros k Hk. destruct (R3 k Hk) as [[<-|E]|E]; auto. right. split; [apply A; left; reflexivity|]. split; [apply Hf; exact T1|exact T2].
          -- intros d' [<-|Hd'] Fr; [right; apply R2; left; reflexivity|apply R4; assumption].
        * destruct (IH closed cur open) as (o & R & R1 & R2 & R3 & R4 & R5); auto.
          { intros d' Hd'. apply A. right. exact Hd'. }
          exists o. split; [exact R|]. split; [exact R1|]. split; [exact R2|]. split; [exact R3|]. split; [|exact R5].
          intros d' [<-|Hd'] Fr; [|apply R4; assumption].
          apply Hf in Fr. subst b. cbn [andb] in T. apply andb_false_iff in T. rewrite !negb_false_iff, !ij_mem_In in T.
          destruct T as [T|T]; [left; exact T|right; apply R2; exact T].
      + destruct (IH closed cur open) as (o & R & R1 & R2 & R3 & R4 & R5); auto.
        { intros d' Hd'. apply A. right. exact Hd'. }
        cbn [bind]. exists o. split; [exact R|]. split; [exact R1|]. split; [exact R2|]. split; [exact R3|]. split; [|exact R5].
        intros d' [<-|Hd'] Fr; [|apply R4; assumption].
        apply view_inside in Fr; [|exact S]. apply inside_iff in Fr. congruence.
  Qed.

  Definition all_cells : list ij := list_prod (map Z.of_nat (List.seq 0 (m_rows m))) (map Z.of_nat (List.seq 0 (m_cols m))).
  Lemma free_all : forall k, free (view m) k -> In k all_cells.
  Proof.
    intros [i j] F. apply view_inside in F; [|exact S]. cbn [fst snd] in F. apply in_prod.
    - apply in_map_iff. exists (Z.to_nat i). split; [lia|]. apply in_seq. lia.
    - apply in_map_iff. exists (Z.to_nat j). split; [lia|]. apply in_seq. lia.
  Qed.
  Lemma all_length : length all_cells = (m_rows m * m_cols m)%nat.
  Proof. unfold all_cells. etransitivity; [apply prod_length|]. rewrite !map_length, !seq_length. reflexivity. Qed.

  Lemma connected_step : forall a b c, connected (view m) a b -> adjacent b c -> free (view m) c -> connected (view m) a c.
  Proof.
    intros a b c (p & P & L) A F. exists (p ++ [c]). split.
    - revert a P L. induction p as [|x p IH]; intros a P L; cbn in *.
      + subst. auto.
      + destruct P as (P1 & P2 & P3). split; [exact P1|]. split; [exact P2|]. apply IH; [exact P3|].
        rewrite <- L. destruct p as [|y p]; [reflexivity|]. cbn. clear. revert y. induction p as [|z p IH]; intro y; [reflexivity|apply IH].
    - apply last_last.
  Qed.

  (** The search keeps: every cell seen is free and joined to the start; the free neighbours of
      the closed cells have been seen. *)
  Lemma search_spec : forall stop start fuel open closed,
    NoDup (open ++ closed) ->
    (forall k, In k (open ++ closed) -> connected (view m) start k /\ free (view m) k) ->
    (forall a b, In a closed -> adjacent a b -> free (view m) b -> In b (open ++ closed)) ->
    In start (open ++ closed) -> ~ In stop closed -> (m_rows m * m_cols m < fuel + length closed)%nat ->
    exists b, search w m stop fuel open closed = Ok b /\ (b = true <-> connected (view m) start stop).
  Proof.
    intros stop start. induction fuel as [|fuel IH]; intros open closed N C E St Sp Fu.
    - destruct open as [|cur rest].
      2:{ exfalso. assert (L : (length ((cur :: rest) ++ closed) <= length all_cells)%nat).
          { apply NoDup_incl_length; [exact N|]. intros k Hk. apply free_all, C, Hk. }
          rewrite all_length, app_length in L. cbn in L, Fu. lia. }
      exists false. split; [reflexivity|]. split; [discriminate|]. intros (p & P & L). exfalso. cbn in *.
      assert (G : forall p a, In a closed -> is_path (view m) a p -> In (last p a) closed).
      { clear -E. induction p as [|x p IHp]; intros a Ha P; [exact Ha|]. destruct P as (_ & A & P).
        assert (Hx : In x closed). { apply (E a x Ha A). destruct p; [exact P|exact (proj1 P)]. }
        specialize (IHp x Hx P). cbn. destruct p as [|y p]; [exact Hx|]. 
        replace (last (y :: p) a) with (last (y :: p) x); [exact IHp|]. clear. revert y. induction p as [|z p IH]; intro y; [reflexivity|apply IH]. }
      apply Sp. rewrite <- L. apply G; assumption.
    - destruct open as [|cur rest].
      + exists false. split; [reflexivity|]. split; [discriminate|]. intros (p & P & L). exfalso. cbn in *.
        assert (G : forall p a, In a closed -> is_path (view m) a p -> In (last p a) closed).
        { clear -E. induction p as [|x p IHp]; intros a Ha P; [exact Ha|]. destruct P as (_ & A & P).
          assert (Hx : In x closed). { apply (E a x Ha A). destruct p; [exact P|exact (proj1 P)]. }
          specialize (IHp x Hx P). cbn. destruct p as [|y p]; [exact Hx|]. 
          replace (last (y :: p) a) with (last (y :: p) x); [exact IHp|]. clear. revert y. induction p as [|z p IH]; intro y; [reflexivity|apply IH]. }
        apply Sp. rewrite <- L. apply G; assumption.
      + cbn [search]. destruct (ij_eqb cur stop) eqn:Q.
        { apply ij_eqb_eq in Q. subst. exists true. split; [reflexivity|]. split; [|reflexivity]. intros _. apply C. left. reflexivity. }
        assert (NE : cur <> stop) by (intro X; apply ij_eqb_eq in X; congruence).
        cbn [app] in N. apply NoDup_cons_iff in N. destruct N as [N1 N2].
        assert (Nr : NoDup rest /\ (forall k, In k rest -> ~ In k closed) /\ NoDup closed).
        { clear -N2. induction rest as [|x r IH]; [split; [constructor|split; [intros k []|exact N2]]|].
          cbn in N2. apply NoDup_cons_iff in N2. destruct N2 as [A B]. destruct (IH B) as (I1 & I2 & I3).
          rewrite in_app_iff in A. split; [constructor; tauto|]. split; [|exact I3]. intros k [<-|H]; auto. }
        destruct Nr as (Nr1 & Nr2 & Nr3).
        assert (C1 : ~ In cur closed /\ ~ In cur rest) by (rewrite in_app_iff in N1; tauto).
        destruct (expand_fold moves closed cur rest) as (o & R & R1 & R2 & R3 & R4 & R5); try tauto.
        { intros d Hd. apply adjacent_move. eauto. }
        rewrite R. cbn [bind]. apply IH.
        * clear -R1 R3 R5 Nr2 Nr3 C1.
          assert (D : forall k, In k o -> ~ In k (cur :: closed)).
          { intros k Hk [<-|X]; [contradiction|]. destruct (R3 k Hk) as [Y|(_ & _ & Y)]; [exact (Nr2 k Y X)|exact (Y X)]. }
          assert (Nc : NoDup (cur :: closed)) by (constructor; tauto). clear -R1 D Nc.
          induction R1 as [|x l H _ IH]; [exact Nc|]. cbn. constructor.
          -- rewrite in_app_iff. intros [X|X]; [contradiction|]. exact (D x (or_introl eq_refl) X).
          -- apply IH. intros k Hk. apply D. right. exact Hk.
        * intros k Hk. apply in_app_iff in Hk. destruct Hk as [Hk|[<-|Hk]].
          -- destruct (R3 k Hk) as [Y|(Y1 & Y2 & _)].
             ++ apply C. right. apply in_app_iff. auto.
             ++ split; [|exact Y2]. apply connected_step with cur; auto. apply C. left. reflexivity.
          -- apply C. left. reflexivity.
          -- apply C. right. apply in_app_iff. auto.
        * intros a b [<-|Ha] A F.
          -- apply adjacent_move in A. destruct A as (d & Hd & ->). destruct (R4 d Hd F) as [Y|Y]; apply in_app_iff; [right; right; exact Y|left; exact Y].
          -- specialize (E a b Ha A F). cbn in E. rewrite in_app_iff in E. apply in_app_iff. destruct E as [E|[E|E]].
             ++ right. left. exact E.
             ++ left. apply R2. exact E.
             ++ right. right. exact E.
        * cbn in St. rewrite in_app_iff in St. apply in_app_iff. destruct St as [X|[X|X]]; [right; left; exact X|left; apply R2; exact X|right; right; exact X].
        * intros [X|X]; auto.
        * cbn [length]. lia.
  Qed.
End Search.

Lemma wrap_within : forall m k, within (fst k) (m_rows m) -> within (snd k) (m_cols m) ->
  wrap m k = Ok (wrapped (fst k) (m_rows m), wrapped (snd k) (m_cols m)).
Proof.
  intros m [i j] A B. cbn [fst snd] in *. unfold within in *. unfold wrap. cbn [fst snd].
  destruct (Z.ltb_spec i (- Z.of_nat (m_rows m))); [lia|]. destruct (Z.ltb_spec j (- Z.of_nat (m_cols m))); [lia|].
  destruct (Z.leb_spec (Z.of_nat (m_rows m)) i); [lia|]. destruct (Z.leb_spec (Z.of_nat (m_cols m)) j); [lia|]. cbn [orb].
  unfold wrapped. f_equal. f_equal; [destruct (Z.ltb_spec i 0)|destruct (Z.ltb_spec j 0)]; lia.
Qed.
Lemma wrap_without : forall m k, ~ (within (fst k) (m_rows m) /\ within (snd k) (m_cols m)) -> wrap m k = Err "ValueError".
Proof.
  intros m [i j] A. cbn [fst snd] in *. unfold within in *. unfold wrap. cbn [fst snd].
  destruct (Z.ltb_spec i (- Z.of_nat (m_rows m))); [reflexivity|]. destruct (Z.ltb_spec j (- Z.of_nat (m_cols m))); [reflexivity|].
  destruct (Z.leb_spec (Z.of_nat (m_rows m)) i); [reflexivity|]. destruct (Z.leb_spec (Z.of_nat (m_cols m)) j); [reflexivity|]. lia.
Qed.
Lemma within_dec : forall k n, {within k n} + {~ within k n}.
Proof.
  intros k n. unfold within. destruct (Z_le_dec (- Z.of_nat n) k); [destruct (Z_lt_dec k (Z.of_nat n))|]; [left; lia|right; lia|right; lia].
Qed.
Lemma is_path_free : forall g p a, is_path g a p -> free g (last p a).
Proof.
  intros g p. induction p as [|x p IH]; intros a P; [exact P|]. destruct P as (_ & _ & P). specialize (IH x P).
  destruct p as [|y p]; [exact IH|]. change (free g (last (y :: p) a)).
  replace (last (y :: p) a) with (last (y :: p) x); [exact IH|]. clear. revert y. induction p as [|z p IH]; intro y; [reflexivity|apply IH].
Qed.

(** C46: with coordinates in range the search ends and answers whether a path of free cells joins
    the two cells, after one negative wrap; other coordinates raise, as does a world without a grid. *)
Theorem is_reachable_decides : forall w m start stop fuel,
  w_W w = Some m -> shaped m -> (m_rows m * m_cols m < fuel)%nat ->
  (within (fst start) (m_rows m) -> within (snd start) (m_cols m) -> within (fst stop) (m_rows m) -> within (snd stop) (m_cols m) ->
   exists b, is_reachable fuel w start stop = Ok b /\
     (b = true <-> connected (view m) (wrapped (fst start) (m_rows m), wrapped (snd start) (m_cols m))
                             (wrapped (fst stop) (m_rows m), wrapped (snd stop) (m_cols m)))) /\
  (~ (within (fst start) (m_rows m) /\ within (snd start) (m_cols m) /\ within (fst stop) (m_rows m) /\ within (snd stop) (m_cols m)) ->
   is_reachable fuel w start stop = Err "ValueError").
Proof.
  intros w m start stop fuel W S Fu. unfold is_reachable. rewrite W. split.
  - intros A B C D. rewrite !wrap_within by assumption. cbn [bind].
    set (s := (wrapped (fst start) (m_rows m), wrapped (snd start) (m_cols m))).
    set (t := (wrapped (fst stop) (m_rows m), wrapped (snd stop) (m_cols m))).
    assert (Is : inb m s) by (split; apply wrapped_range; assumption).
    assert (It : inb m t) by (split; apply wrapped_range; assumption).
    destruct (is_empty_in w m s W S Is) as (e & He & Fe). rewrite He. cbn [bind]. destruct e; cbn [negb].
    2:{ exists false. split; [reflexivity|]. split; [discriminate|]. intros (p & P & _). exfalso.
        assert (X : free (view m) s) by (destruct p; [exact P|exact (proj1 P)]). apply Fe in X. discriminate. }
    destruct (is_empty_in w m t W S It) as (e' & He' & Fe'). rewrite He'. cbn [bind]. destruct e'; cbn [negb].
    2:{ exists false. split; [reflexivity|]. split; [discriminate|]. intros (p & P & L). exfalso.
        assert (X : free (view m) t) by (rewrite <- L; apply is_path_free, P). apply Fe' in X. discriminate. }
    assert (Fs : free (view m) s) by (apply Fe; reflexivity).
    apply search_spec; auto.
    + constructor; [intros []|constructor].
    + intros k [<-|[]]. split; [|exact Fs]. exists []. split; [exact Fs|reflexivity].
    + intros a b [].
    + left. reflexivity.
    + cbn. lia.
  - intro H. destruct (within_dec (fst start) (m_rows m)) as [A|A].
    2:{ rewrite wrap_without by tauto. reflexivity. }
    destruct (within_dec (snd start) (m_cols m)) as [B|B].
    2:{ rewrite wrap_without by tauto. reflexivity. }
    rewrite wrap_within by assumption. cbn [bind]. rewrite wrap_without by tauto. reflexivity.
Qed.
Theorem is_reachable_none : forall w start stop fuel, w_W w = None -> is_reachable fuel w start stop = Err "ValueError".
Proof. intros w start stop fuel H. unfold is_reachable. rewrite H. reflexivity. Qed.

(** A wall that splits the grid, with a gap on the last row only in the second one. *)
Definition split_world := World (Some (Mat 3 3 [[0; 1; 0]; [0; 1; 0]; [0; 1; 0]]%Z)) [] [] "Y" (0, 0)%Z.
Definition gap_world := World (Some (Mat 3 3 [[0; 1; 0]; [0; 1; 0]; [0; 0; 0]]%Z)) [] [] "Y" (0, 0)%Z.
Example reach_cases :
  is_reachable 10 split_world (0, 0)%Z (0, -1)%Z = Ok false /\ is_reachable 10 gap_world (0, 0)%Z (0, -1)%Z = Ok true /\
  is_reachable 10 gap_world (0, 0)%Z (0, 1)%Z = Ok false /\ is_reachable 10 gap_world (0, 0)%Z (0, 3)%Z = Err "ValueError" /\
  is_reachable 10 gap_world (-4, 0)%Z (0, 0)%Z = Err "ValueError" /\
  shaped (Mat 3 3 [[0; 1; 0]; [0; 1; 0]; [0; 0; 0]]%Z).
Proof. repeat split; try (vm_compute; reflexivity). repeat (constructor; [reflexivity|]). constructor. Qed.
Print Assumptions is_empty_spec.
Print Assumptions is_reachable_decides.
Print Assumptions is_reachable_none.
