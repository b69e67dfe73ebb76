(** C56: the attractor of a game; C62: McNaughton's algorithm. *)
From Coq Require Import List String Bool Arith ZArith Lia.
From Verif Require Import M_Base M_Parity.
Import ListNotations.
Open Scope string_scope.
Open Scope list_scope.
Open Scope nat_scope.

(** ** What a player can force, stated on the plays of the game alone *)
Section Force.
Context {N : Type} (g : game N) (player : nat).
Definition edge (x y : N) : Prop := In (x, y) (edges g).
Definition play (p : nat -> N) : Prop := forall i, edge (p i) (p (S i)).
(** A choice of a successor for every node of the player. *)
Definition strategy (f : N -> N) : Prop := forall x, In x (nodes g) -> owner g x = player -> edge x (f x).
Definition follows (f : N -> N) (p : nat -> N) : Prop := forall i, owner g (p i) = player -> p (S i) = f (p i).
Definition can_force (W : list N) (x : N) : Prop :=
  exists f, strategy f /\ forall p, p 0 = x -> play p -> follows f p -> exists i, In (p i) W.
(** The winner of a play is the parity of the largest color occurring infinitely often. *)
Definition parity_win (p : nat -> N) : Prop :=
  exists k, k mod 2 = player /\ (forall m, exists j, m <= j /\ color g (p j) = k) /\ exists m, forall j, m <= j -> color g (p j) <= k.
(** Strategies without memory suffice for parity games. *)
Definition wins (x : N) : Prop := exists f, strategy f /\ forall p, p 0 = x -> play p -> follows f p -> parity_win p.
(** What [ctrl_next] closes under: nodes of the player with a successor in the set, and nodes of
    the opponent with a single successor, which is in the set. *)
Inductive reach (W : list N) : N -> Prop :=
| reach_in x : In x W -> reach W x
| reach_own x y : edge x y -> owner g x = player -> reach W y -> reach W x
| reach_forced x y : edge x y -> (forall z, edge x z -> z = y) -> reach W y -> reach W x.
End Force.
Record wf_game {N} (g : game N) : Prop := {
  wf_edges : forall x y, edge g x y -> In x (nodes g) /\ In y (nodes g) }.

Section Attractor.
Context {N : Type} (N_dec : forall x y : N, {x = y} + {x <> y}) (g : game N) (player : nat).
Hypothesis wf : wf_game g.
Notation edge := (edge g).

Lemma inb_In x l : inb N_dec x l = true <-> In x l.
Proof. unfold inb. destruct (in_dec N_dec x l); split; auto; discriminate. Qed.
Lemma eqb_iff x y : eqb N_dec x y = true <-> x = y.
Proof. unfold eqb. destruct (N_dec x y); split; auto; discriminate. Qed.
Lemma pred_iff x y : In y (predecessors N_dec g x) <-> edge y x.
Proof.
  unfold predecessors, T_Parity.edge. rewrite nodup_In, in_map_iff. split.
  - intros ((a & b) & <- & H). apply filter_In in H. destruct H as [H E]. apply eqb_iff in E. cbn in *. subst. exact H.
  - intro H. exists (y, x). split; [reflexivity|]. apply filter_In. split; [exact H|]. apply eqb_iff. reflexivity.
Qed.
Lemma succ_iff x y : In y (succ N_dec g x) <-> edge x y.
Proof.
  unfold succ, T_Parity.edge. rewrite nodup_In, in_map_iff. split.
  - intros ((a & b) & <- & H). apply filter_In in H. destruct H as [H E]. apply eqb_iff in E. cbn in *. subst. exact H.
  - intro H. exists (x, y). split; [reflexivity|]. apply filter_In. split; [exact H|]. apply eqb_iff. reflexivity.
Qed.
Lemma succ_one x y : edge x y -> (List.length (succ N_dec g x) = 1 <-> forall z, edge x z -> z = y).
Proof.
  intro E. assert (D : NoDup (succ N_dec g x)) by (unfold succ; apply NoDup_nodup). split.
  - intros L z H. apply succ_iff in H, E. destruct (succ N_dec g x) as [|a [|b r]]; cbn in L; try lia. destruct H as [<- | []]. destruct E as [<- | []]. reflexivity.
  - intro H. apply succ_iff in E. assert (H' : forall z, In z (succ N_dec g x) -> z = y) by (intros z I; apply H, succ_iff, I).
    destruct (succ N_dec g x) as [|a [|b r]]; [destruct E|reflexivity|]. exfalso.
    pose proof (H' a (or_introl eq_refl)). pose proof (H' b (or_intror (or_introl eq_refl))). subst.
    inversion D as [|? ? A _]; subst. apply A. left. reflexivity.
Qed.
Lemma ctrl_iff W x : In x (ctrl_next N_dec g player W) <->
  exists y, In y W /\ edge x y /\ (owner g x = player \/ forall z, edge x z -> z = y).
Proof.
  unfold ctrl_next. rewrite in_flat_map. split.
  - intros (y & I & H). apply in_flat_map in H. destruct H as (u & P & H). apply pred_iff in P.
    destruct (Nat.eqb (owner g u) player) eqn:E.
    + destruct H as [<- | []]. apply Nat.eqb_eq in E. exists y. auto.
    + destruct (Nat.eqb (List.length (succ N_dec g u)) 1) eqn:L; [|destruct H]. destruct H as [<- | []]. apply Nat.eqb_eq in L.
      exists y. split; [exact I|]. split; [exact P|]. right. apply (succ_one u y P), L.
  - intros (y & I & E & H). exists y. split; [exact I|]. apply in_flat_map. exists x. split; [apply pred_iff, E|].
    destruct (Nat.eqb (owner g x) player) eqn:O; [left; reflexivity|].
    destruct H as [H|H]; [apply Nat.eqb_neq in O; contradiction|]. apply (succ_one x y E) in H. rewrite H. left. reflexivity.
Qed.
Lemma set_eqb_iff a b : set_eqb N_dec a b = true <-> (forall x, In x a <-> In x b).
Proof.
  unfold set_eqb. rewrite andb_true_iff, !forallb_forall. split.
  - intros [A B] x. split; intro I; apply inb_In; auto.
  - intro H. split; intros x I; apply inb_In, H, I.
Qed.

(** The stages of the loop *)
Definition next (W : list N) : list N := nodup N_dec (W ++ ctrl_next N_dec g player W).
Fixpoint stage (W : list N) (k : nat) : list N := match k with O => nodup N_dec W | S j => next (stage W j) end.
Lemma stage_mono W k x : In x (stage W k) -> In x (stage W (S k)).
Proof. intro H. cbn [stage]. unfold next. apply nodup_In, in_or_app. auto. Qed.
Lemma stage_le W j k x : j <= k -> In x (stage W j) -> In x (stage W k).
Proof. induction 1; auto. intro H'. apply stage_mono. auto. Qed.
Lemma stage_NoDup W k : NoDup (stage W k).
Proof. destruct k; apply NoDup_nodup. Qed.
Lemma stage_nodes W k : incl W (nodes g) -> incl (stage W k) (nodes g).
Proof.
  intro H. induction k as [|k IH]; intros x I.
  - apply nodup_In in I. auto.
  - cbn [stage] in I. unfold next in I. apply nodup_In, in_app_or in I. destruct I as [I|I]; [auto|].
    apply ctrl_iff in I. destruct I as (y & _ & E & _). apply (wf_edges g wf) in E. tauto.
Qed.
Lemma next_equiv A B : (forall x, In x A <-> In x B) -> forall x, In x (next A) <-> In x (next B).
Proof.
  intros H x. unfold next. rewrite !nodup_In, !in_app_iff, !ctrl_iff, H. split; (intros [I|(y & I & K)]; [auto|right; exists y; split; [apply H, I|exact K]]).
Qed.
Lemma loop_stage W : forall fuel k a, attractor_loop N_dec fuel g player (stage W (S k)) (stage W k) = Some a -> exists m, a = stage W (S m) /\ forall x, In x (stage W (S m)) <-> In x (stage W m).
Proof.
  induction fuel as [|f IH]; intros k a H; [discriminate|]. cbn [attractor_loop] in H.
  destruct (set_eqb N_dec (stage W (S k)) (stage W k)) eqn:E.
  - apply set_eqb_iff with (1 := E) || idtac. injection H as <-. exists k. split; [reflexivity|]. apply set_eqb_iff, E.
  - exact (IH (S k) a H).
Qed.
Lemma attractor_stage W fuel a : attractor N_dec fuel W g player = Some a ->
  exists m, (forall x, In x a <-> In x (stage W m)) /\ (forall x, In x (stage W (S m)) <-> In x (stage W m)).
Proof.
  unfold attractor. destruct fuel as [|f]; [discriminate|]. cbn [attractor_loop].
  destruct (set_eqb N_dec (nodup N_dec W) []) eqn:E; intro H.
  - injection H as <-. exists 0. split; [reflexivity|]. pose proof (proj1 (set_eqb_iff _ _) E) as E'.
    intro x. split; [|apply stage_mono]. intro I. cbn [stage] in I. unfold next in I. apply nodup_In, in_app_or in I. destruct I as [I|I]; [exact I|].
    apply ctrl_iff in I. destruct I as (y & I & _). apply E' in I. destruct I.
  - destruct (loop_stage W f 0 a H) as (m & -> & F). exists (S m). split; [reflexivity|]. apply next_equiv, F.
Qed.
Lemma fixed_forever W m : (forall x, In x (stage W (S m)) <-> In x (stage W m)) -> forall k x, In x (stage W k) -> In x (stage W m).
Proof.
  intro F. assert (G : forall j x, In x (stage W (j + m)) <-> In x (stage W m)).
  { induction j as [|j IH]; intro x; [reflexivity|]. rewrite <- F. cbn [Nat.add stage]. apply next_equiv, IH. }
  intros k x I. apply (G k). apply stage_le with (j := k); [lia|exact I].
Qed.
Lemma reach_stage W x : reach g player W x -> exists k, In x (stage W k).
Proof.
  induction 1 as [x I|x y E O _ (k & IH)|x y E O _ (k & IH)].
  - exists 0. apply nodup_In, I.
  - exists (S k). cbn [stage]. unfold next. apply nodup_In, in_or_app. right. apply ctrl_iff. exists y. auto.
  - exists (S k). cbn [stage]. unfold next. apply nodup_In, in_or_app. right. apply ctrl_iff. exists y. auto.
Qed.
Lemma stage_reach W k : forall x, In x (stage W k) -> reach g player W x.
Proof.
  induction k as [|k IH]; intros x I.
  - apply reach_in. apply nodup_In in I. exact I.
  - cbn [stage] in I. unfold next in I. apply nodup_In, in_app_or in I. destruct I as [I|I]; [auto|].
    apply ctrl_iff in I. destruct I as (y & I & E & [O|O]); [apply (reach_own g player W x y)|apply (reach_forced g player W x y)]; auto.
Qed.

(** The loop computes the least set with these closure properties. *)
Theorem attractor_spec fuel W a : attractor N_dec fuel W g player = Some a ->
  forall x, In x a <-> reach g player W x.
Proof.
  intro H. destruct (attractor_stage W fuel a H) as (m & A & F). intro x. rewrite A. split; [apply stage_reach|].
  intro R. destruct (reach_stage W x R) as (k & I). apply (fixed_forever W m F k x I).
Qed.

(** It ends after at most two more rounds than there are nodes. *)
Lemma stage_grows W k : incl W (nodes g) -> (exists j, j <= k /\ forall x, In x (stage W (S j)) <-> In x (stage W j)) \/ k <= List.length (stage W k).
Proof.
  intro H. induction k as [|k IH]; [right; lia|]. destruct IH as [(j & L & F)|L]; [left; exists j; split; [lia|exact F]|].
  destruct (set_eqb N_dec (stage W (S k)) (stage W k)) eqn:E.
  - left. exists k. split; [lia|]. apply set_eqb_iff, E.
  - right. assert (I : incl (stage W k) (stage W (S k))) by (intros x; apply stage_mono).
    destruct (Nat.eq_dec (List.length (stage W k)) (List.length (stage W (S k)))) as [Q|Q].
    + exfalso. assert (incl (stage W (S k)) (stage W k)) by (apply NoDup_length_incl; [apply stage_NoDup|lia|exact I]).
      assert (set_eqb N_dec (stage W (S k)) (stage W k) = true) by (apply set_eqb_iff; intro x; split; auto). congruence.
    + pose proof (NoDup_incl_length (stage_NoDup W k) I). lia.
Qed.
Lemma loop_ends W : forall j fuel k, k <= j -> (forall x, In x (stage W (S j)) <-> In x (stage W j)) -> j - k < fuel ->
  exists a, attractor_loop N_dec fuel g player (stage W (S k)) (stage W k) = Some a.
Proof.
  intros j fuel. induction fuel as [|f IH]; intros k L F U; [lia|]. cbn [attractor_loop].
  destruct (set_eqb N_dec (stage W (S k)) (stage W k)) eqn:E; [eauto|].
  destruct (Nat.eq_dec k j) as [-> |Q]; [apply set_eqb_iff in F; congruence|].
  apply (IH (S k)); [lia|exact F|lia].
Qed.
Theorem attractor_total fuel W : incl W (nodes g) -> List.length (nodes g) + 3 <= fuel -> exists a, attractor N_dec fuel W g player = Some a.
Proof.
  intros H L. assert (S : exists j, j <= S (List.length (nodes g)) /\ forall x, In x (stage W (S j)) <-> In x (stage W j)).
  { destruct (stage_grows W (S (List.length (nodes g))) H) as [(j & A & B)|A]; [exists j; auto|].
    exfalso. pose proof (NoDup_incl_length (stage_NoDup W (S (List.length (nodes g)))) (stage_nodes W _ H)). lia. }
  destruct S as (j & A & B). unfold attractor. destruct fuel as [|f]; [lia|]. cbn [attractor_loop].
  destruct (set_eqb N_dec (nodup N_dec W) []); [eauto|].
  apply (loop_ends W j f 0); [lia|exact B|lia].
Qed.

(** Every node of the attractor is one from which the player forces a visit. *)
Hypothesis live : forall x, In x (nodes g) -> exists y, edge x y.
Fixpoint rank (W : list N) (n : nat) (x : N) : nat :=
  match n with O => 0 | S m => if inb N_dec x (stage W m) then rank W m x else n end.
Lemma rank_le W n x : rank W n x <= n.
Proof. induction n as [|n IH]; cbn [rank]; [lia|]. destruct (inb N_dec x (stage W n)); lia. Qed.
Lemma rank_in W n x : In x (stage W n) -> In x (stage W (rank W n x)).
Proof.
  induction n as [|n IH]; cbn [rank]; [auto|]. intro I. destruct (inb N_dec x (stage W n)) eqn:E; [apply IH, inb_In, E|exact I].
Qed.
Lemma rank_least W n x k : k <= n -> In x (stage W k) -> rank W n x <= k.
Proof.
  induction n as [|n IH]; intros L I; cbn [rank]; [lia|].
  destruct (Nat.eq_dec k (S n)) as [-> |Q]; [destruct (inb N_dec x (stage W n)); [pose proof (rank_le W n x)|]; lia|].
  assert (In x (stage W n)) as J by (apply (stage_le W k); [lia|exact I]). rewrite (proj2 (inb_In _ _) J). apply IH; [lia|exact I].
Qed.
Definition choose (W : list N) (n : nat) (x : N) : N :=
  match find (fun y => inb N_dec y (stage W (pred (rank W n x)))) (succ N_dec g x) with
  | Some y => y
  | None => match succ N_dec g x with y :: _ => y | [] => x end
  end.
Theorem attractor_sound fuel W a x : incl W (nodes g) -> attractor N_dec fuel W g player = Some a -> In x a -> can_force g player W x.
Proof.
  intros H A I. destruct (attractor_stage W fuel a A) as (n & E & _). apply E in I. clear A E a fuel.
  exists (choose W n). split.
  - intros y Iy O. unfold choose. destruct (find _ _) as [z|] eqn:F.
    + apply find_some in F. apply succ_iff, F.
    + destruct (live y Iy) as (z & Z). apply succ_iff in Z. destruct (succ N_dec g y) as [|w r] eqn:Q; [destruct Z|].
      apply succ_iff. rewrite Q. left. reflexivity.
  - intros p P0 P F. subst x.
    assert (G : forall k i, In (p i) (stage W n) -> rank W n (p i) <= k -> exists j, In (p j) W).
    { induction k as [|k IH]; intros i Ii L.
      - exists i. pose proof (rank_in W n (p i) Ii) as R. replace (rank W n (p i)) with 0 in R by lia. apply nodup_In in R. exact R.
      - destruct (rank W n (p i)) as [|r] eqn:Rk; [apply (IH i Ii); lia|].
        pose proof (rank_in W n (p i) Ii) as R. rewrite Rk in R. cbn [stage] in R. unfold next in R. apply nodup_In, in_app_or in R.
        pose proof (rank_le W n (p i)) as Rn.
        destruct R as [R|R]; [pose proof (rank_least W n (p i) r ltac:(lia) R); lia|].
        apply ctrl_iff in R. destruct R as (y & Iy & Ey & O).
        assert (J : In (p (S i)) (stage W r)).
        { destruct O as [O|O].
          - rewrite (F i O). unfold choose. rewrite Rk. cbn [pred]. destruct (find _ _) as [z|] eqn:Q.
            + apply find_some in Q. apply inb_In, Q.
            + exfalso. apply succ_iff in Ey. pose proof (find_none _ _ Q y Ey) as K. cbn in K. apply inb_In in Iy. congruence.
          - rewrite (O _ (P i)). exact Iy. }
        apply (IH (S i)); [apply (stage_le W r); [lia|exact J]|]. pose proof (rank_least W n (p (S i)) r ltac:(lia) J). lia. }
    apply (G n 0 I). apply rank_le.
Qed.

(** It contains all such nodes if the opponent never has a choice. *)
Definition default (x : N) : N := match succ N_dec g x with y :: _ => y | [] => x end.
Theorem attractor_no_choice fuel W a x : incl W (nodes g) -> (forall u y z, owner g u <> player -> edge u y -> edge u z -> y = z) ->
  In x (nodes g) -> attractor N_dec fuel W g player = Some a -> (In x a <-> can_force g player W x).
Proof.
  intros H U Ix A. split; [apply (attractor_sound fuel W a x H A)|]. intros (f & S & K).
  destruct (in_dec N_dec x a) as [I|I]; [exact I|exfalso].
  pose proof (attractor_spec fuel W a A) as Sp.
  set (step := fun y => if Nat.eqb (owner g y) player then f y else default y).
  set (p := fix p (i : nat) := match i with O => x | Datatypes.S j => step (p j) end).
  assert (St : forall y, In y (nodes g) -> edge y (step y)).
  { intros y Iy. unfold step. destruct (Nat.eqb (owner g y) player) eqn:O.
    - apply S; [exact Iy|apply Nat.eqb_eq, O].
    - unfold default. destruct (live y Iy) as (z & Z). apply succ_iff in Z. destruct (succ N_dec g y) as [|w r] eqn:Q; [destruct Z|].
      apply succ_iff. rewrite Q. left. reflexivity. }
  assert (Inv : forall i, In (p i) (nodes g) /\ ~ In (p i) a).
  { induction i as [|i (IH1 & IH2)]; [split; assumption|]. change (p (Datatypes.S i)) with (step (p i)).
    pose proof (St _ IH1) as E. split; [apply (wf_edges g wf) in E; tauto|]. intro J. apply IH2, Sp. apply Sp in J.
    unfold step in *. destruct (Nat.eqb (owner g (p i)) player) eqn:O.
    - apply (reach_own g player W _ _ E); [apply Nat.eqb_eq, O|exact J].
    - apply (reach_forced g player W _ _ E); [|exact J]. intros z Z. apply (U (p i)); [apply Nat.eqb_neq, O|exact Z|exact E]. }
  destruct (K p) as (i & Ii); [reflexivity| | |].
  - intro i. apply (St (p i)), Inv.
  - intros i O. change (p (Datatypes.S i)) with (step (p i)). unfold step. rewrite O, Nat.eqb_refl. reflexivity.
  - destruct (Inv i) as [_ N']. apply N', Sp. apply reach_in, Ii.
Qed.
End Attractor.

(** A concrete game: node 0 belongs to player 1 and leads to 1 only, 1 belongs to player 0 and leads
    to 2 or back, 2 repeats, 3 belongs to player 1 and leads to 2 or 4, 4 repeats. *)
Definition game0 : game nat :=
  Game [0; 1; 2; 3; 4] (fun x => if Nat.eqb x 0 || Nat.eqb x 3 then 1 else 0) (fun x => x mod 2)
       [(0, 1); (1, 2); (1, 0); (2, 2); (3, 2); (3, 4); (4, 4)].
Lemma game0_wf : wf_game game0 /\ forall x, In x (nodes game0) -> exists y, edge game0 x y.
Proof.
  split.
  - constructor. intros x y H. unfold edge in H. cbn in H. cbn. intuition congruence.
  - intros x H. cbn in H. unfold edge. cbn.
    destruct H as [<- | [<- | [<- | [<- | [<- | []]]]]]; [exists 1|exists 2|exists 2|exists 2|exists 4]; tauto.
Qed.
Example attractor_example : exists a, attractor Nat.eq_dec 8 [2] game0 0 = Some a /\ (forall x, In x a <-> x = 0 \/ x = 1 \/ x = 2).
Proof.
  eexists. split; [vm_compute; reflexivity|]. intro x. cbn. intuition congruence.
Qed.
Example attractor_example_force : can_force game0 0 [2] 0.
Proof.
  destruct attractor_example as (a & E & I).
  refine (attractor_sound Nat.eq_dec game0 0 (proj2 game0_wf) 8 [2] a 0 _ E _); [intros x [<- | []]; cbn; tauto|apply I; tauto].
Qed.
(** The opponent's node 3 with both successors in the set is left out, although every play from it
    visits the set. *)
Theorem attractor_choice_refuted : exists (g : game nat) W a x,
  wf_game g /\ (forall x, In x (nodes g) -> exists y, edge g x y) /\ incl W (nodes g) /\ In x (nodes g) /\
  (forall fuel, 8 <= fuel -> attractor Nat.eq_dec fuel W g 0 = Some a) /\ can_force g 0 W x /\ ~ In x a.
Proof.
  exists game0, [2; 4]. eexists. exists 3. split; [apply game0_wf|]. split; [apply game0_wf|].
  split; [intros x [<- | [<- | []]]; cbn; tauto|]. split; [cbn; tauto|]. split; [|split].
  - intros fuel L. do 8 (destruct fuel as [|fuel]; [lia|]). cbn. reflexivity.
  - exists (fun x => match x with 1 => 2 | _ => x end). split.
    + intros x I O. cbn in I. unfold edge. cbn. destruct I as [<- | [<- | [<- | [<- | [<- | []]]]]]; cbn in O; try discriminate; tauto.
    + intros p P0 P _. exists 1. pose proof (P 0) as E. rewrite P0 in E. unfold edge in E. cbn in E. cbn. intuition congruence.
  - cbn. intuition congruence.
Qed.

(** ** McNaughton's algorithm *)
(** The empty game and games with sinks *)
Theorem mcnaughton_sinks p fuel : (exists x, In x (nodes p) /\ forall y, ~ edge p x y) ->
  McNaughton (S fuel) p = Some (Err "Exception").
Proof.
  intros (x & I & D). unfold McNaughton. cbn [mcnaughton]. replace (has_deadends pnode_dec p) with true; [reflexivity|].
  symmetry. unfold has_deadends. apply existsb_exists. exists x. split; [exact I|]. apply Nat.eqb_eq.
  destruct (succ pnode_dec p x) as [|y r] eqn:E; [reflexivity|exfalso]. apply (D y). apply (succ_iff pnode_dec). rewrite E. left. reflexivity.
Qed.
Theorem mcnaughton_empty fuel o c e : McNaughton (S fuel) (Game [] o c e) = Some (Ok ([], [])).
Proof. reflexivity. Qed.
(** No game whose nodes are strings is solved. *)
Theorem mcnaughton_strings_refuted p fuel : nodes p <> [] -> (forall x, In x (nodes p) -> exists s, x = PStr s) ->
  (forall x, In x (nodes p) -> exists y, edge p x y) -> McNaughton (S fuel) p = Some (Err "TypeError").
Proof.
  intros E A L. unfold McNaughton. cbn [mcnaughton]. replace (has_deadends pnode_dec p) with false.
  - unfold max_color. destruct (nodes p) as [|x r]; [contradiction|].
    assert (M : forall l b, (forall y, In y (b :: l) -> exists s, y = PStr s) -> exists s, max_node p b l = PStr s).
    { induction l as [|y l IH]; intros b Hb; cbn [max_node]; [apply Hb; left; reflexivity|]. apply IH. intros z [<- | I]; [|apply Hb; right; right; exact I].
      destruct (color p b <? color p y); apply Hb; cbn; auto. }
    destruct (M r x A) as (s & ->). reflexivity.
  - symmetry. unfold has_deadends. destruct (existsb _ _) eqn:X; [exfalso|reflexivity]. apply existsb_exists in X. destruct X as (x & I & Q).
    apply Nat.eqb_eq in Q. destruct (L x I) as (y & Y). apply (succ_iff pnode_dec) in Y. destruct (succ pnode_dec p x); [destruct Y|discriminate].
Qed.
(** With integers the number of a node is taken for its color: one node 0 of color 1 that repeats is
    won by player 1 and reported as won by player 0 ... *)
Definition game1 : game pnode := Game [PInt 0] (fun _ => 0) (fun _ => 1) [(PInt 0, PInt 0)].
Theorem mcnaughton_winner_refuted : (forall fuel, McNaughton (S fuel) game1 = Some (Ok ([PInt 0], []))) /\
  wins game1 1 (PInt 0) /\ ~ wins game1 0 (PInt 0).
Proof.
  split; [reflexivity|].
  assert (C : forall p : nat -> pnode, forall j, color game1 (p j) = 1) by reflexivity. split.
  - exists (fun x => x). split.
    + intros x [<- | []] O. discriminate O.
    + intros p _ _ _. exists 1. split; [reflexivity|]. split; [intro m; exists m; split; [lia|apply C]|]. exists 0. intros j _. rewrite C. lia.
  - intros (f & St & K). destruct (K (fun _ => PInt 0)) as (k & E & I & _).
    + reflexivity.
    + intro i. left. reflexivity.
    + intros i _. destruct (St (PInt 0) (or_introl eq_refl) eq_refl) as [H | []]. injection H as H. exact H.
    + destruct (I 0) as (j & _ & J). rewrite (C (fun _ => PInt 0) j) in J. subst k. discriminate E.
Qed.
(** ... and if no node has the color 5, a node 5 of the largest color makes the function call itself
    with the same game for ever. *)
Definition game2 : game pnode := Game [PInt 5] (fun _ => 0) (fun _ => 1) [(PInt 5, PInt 5)].
Theorem mcnaughton_loops_refuted : forall fuel, McNaughton fuel game2 = None.
Proof.
  assert (H : forall n fuel, fuel <= n -> McNaughton fuel game2 = None).
  { unfold McNaughton. induction n as [|n IH]; intros fuel L; [replace fuel with 0 by lia; reflexivity|].
    destruct fuel as [|[|f]]; [reflexivity|reflexivity|].
    change (mcnaughton (S (S f)) None game2) with (mcnaughton (S f) (Some (5%Z, [])) game2).
    pose proof (IH f ltac:(lia)) as Q.
    assert (A : attractor pnode_dec (S f) (filter (fun x => Z.eqb (Z.of_nat (color game2 x)) 5) (nodes game2)) game2 (Z.to_nat (5 mod 2)) = Some []) by reflexivity.
    cbn [mcnaughton]. rewrite A. change (remove_from pnode_dec game2 []) with game2. rewrite Q. reflexivity. }
  intro fuel. apply (H fuel fuel). lia.
Qed.
(** A game that is solved: node 1 of color 1, won by player 1. *)
Example mcnaughton_example : McNaughton 9 (Game [PInt 1] (fun _ => 0) (fun _ => 1) [(PInt 1, PInt 1)]) = Some (Ok ([], [PInt 1])).
Proof. reflexivity. Qed.

Print Assumptions attractor_spec.
Print Assumptions attractor_total.
Print Assumptions attractor_sound.
Print Assumptions attractor_no_choice.
Print Assumptions attractor_choice_refuted.
Print Assumptions mcnaughton_sinks.
Print Assumptions mcnaughton_empty.
Print Assumptions mcnaughton_strings_refuted.
Print Assumptions mcnaughton_winner_refuted.
Print Assumptions mcnaughton_loops_refuted.
