(** Equivalence of the GR(1) conversions with the original formulas, and causality of the
    auxiliary variable. *)
From Coq Require Import List String Ascii Bool Arith Lia ClassicalDescription.
From Verif Require Import M_Base M_Ast M_Lexer M_Parser M_Spec M_Gr1 S_LTL S_Gr1.
From Verif Require Import L_Lexer L_Parser L_Template L_LTL L_Gr1.
Import ListNotations.
Open Scope string_scope.
Open Scope list_scope.

(** Every formula has, on every trace, a Boolean sequence reflecting it. *)
Definition reflectable (f : node) : Prop := forall s, exists b, reflects s f b.

Lemma reflectable_step f : step_formula f = true -> reflectable f.
Proof.
  intros H s. destruct (dec_reflects s f (step_dec f H s)) as [b Hb]. exists b; auto.
Qed.

Lemma reflectable_classical f : reflectable f.
Proof.
  intro s. destruct (dec_reflects s f (fun i => excluded_middle_informative (holds s i f))) as [b Hb].
  exists b; auto.
Qed.

Lemma until_equiv P Q a : reflectable P -> reflectable Q -> ~ In a (vars P ++ vars Q) ->
  forall s, (exists h, sat_part (upd s a h) (unt_part P Q a)) <-> holds s 0 (NBin "U" P Q).
Proof.
  intros DP DQ N s. destruct (DP s) as [p RP]. destruct (DQ s) as [q RQ].
  rewrite (until_orig s P Q p q RP RQ). split.
  - intros [h H]. apply (until_seq s P Q a h p q RP RQ N) in H. eapply c_until_sound; eauto.
  - intros (k & A & B). exists (w_until q). apply (until_seq s P Q a _ p q RP RQ N).
    eapply w_until_ok; eauto.
Qed.

Lemma ev_equiv P a : reflectable P -> ~ In a (vars P) ->
  forall s, (exists h, sat_part (upd s a h) (ev_part P a)) <-> holds s 0 (NUn "F" P).
Proof.
  intros DP N s. destruct (DP s) as [p RP].
  rewrite (ev_orig s P p RP). split.
  - intros [h H]. apply (ev_seq s P a h p RP N) in H. eapply c_ev_sound; eauto.
  - intros (k & A). exists (w_ev p). apply (ev_seq s P a _ p RP N). eapply w_ev_ok; eauto.
Qed.

Lemma resp_equiv P Q a : reflectable P -> reflectable Q -> ~ In a (vars P ++ vars Q) ->
  forall s, (exists h, sat_part (upd s a h) (resp_part P Q a)) <->
            holds s 0 (NUn "G" (NBin "->" P (NUn "F" Q))).
Proof.
  intros DP DQ N s. destruct (DP s) as [p RP]. destruct (DQ s) as [q RQ].
  rewrite (resp_orig s P Q p q RP RQ). split.
  - intros [h H]. apply (resp_seq s P Q a h p q RP RQ N) in H. eapply c_resp_sound; eauto.
  - intro H. exists (w_resp p q). apply (resp_seq s P Q a _ p q RP RQ N). apply w_resp_ok; auto.
Qed.

Lemma stab_equiv P a : reflectable P -> ~ In a (vars P) ->
  forall s, (exists h, sat_part (upd s a h) (stab_part P a)) <-> holds s 0 (NUn "F" (NUn "G" P)).
Proof.
  intros DP N s. destruct (DP s) as [p RP].
  rewrite (stab_orig s P p RP). split.
  - intros [h H]. apply (stab_seq s P a h p RP N) in H. eapply c_stab_sound; eauto.
  - intros (k & A). exists (w_stab k). apply (stab_seq s P a _ p RP N). apply w_stab_ok; auto.
Qed.

(** * Causality *)
(** Truth of a current-state formula on one state. *)
Definition now_b (f : node) (H : now_formula f = true) (x : state) : bool :=
  if step_dec f (now_step f H) (fun _ => x) 0 then true else false.

Lemma now_b_ok f H s : reflects s f (fun i => now_b f H (s i)).
Proof.
  intro i. unfold now_b. destruct (step_dec f (now_step f H) (fun _ => s i) 0) as [K|K].
  - split; auto. intros _. apply (now_holds f H (fun _ => s i) 0 s i); auto.
  - split; [discriminate|]. intro L. exfalso. apply K.
    apply (now_holds f H s i (fun _ => s i) 0); auto.
Qed.

Lemma existsb_map {A B} (f : B -> bool) (g : A -> B) l :
  existsb f (map g l) = existsb (fun x => f (g x)) l.
Proof. induction l; simpl; congruence. Qed.

Lemma prefix_map {A} (f : state -> A) s i : map f (prefix s i) = map (fun j => f (s j)) (seq 0 (S i)).
Proof. unfold prefix. rewrite map_map. reflexivity. Qed.

Lemma until_causal P Q a : now_formula P = true -> now_formula Q = true ->
  ~ In a (vars P ++ vars Q) ->
  exists F : list state -> bool, forall s, holds s 0 (NBin "U" P Q) ->
    sat_part (upd s a (fun i => F (prefix s i))) (unt_part P Q a).
Proof.
  intros HP HQ N. exists (fun l => existsb (now_b Q HQ) l). intros s Hs.
  pose proof (now_b_ok P HP s) as RP. pose proof (now_b_ok Q HQ s) as RQ.
  apply (until_orig s P Q _ _ RP RQ) in Hs. destruct Hs as (k & A & B).
  apply (until_seq s P Q a _ _ _ RP RQ N).
  pose proof (w_until_ok (fun i => now_b P HP (s i)) (fun i => now_b Q HQ (s i)) k A B) as W.
  assert (E : forall i, existsb (now_b Q HQ) (prefix s i)
              = w_until (fun i => now_b Q HQ (s i)) i).
  { intro i. unfold prefix, w_until. apply existsb_map. }
  unfold c_until, io in *. setoid_rewrite E. exact W.
Qed.

Lemma removelast_seq i : removelast (seq 0 (S i)) = seq 0 i.
Proof. rewrite seq_S. apply removelast_last. Qed.
Lemma removelast_map {A B} (f : A -> B) l : removelast (map f l) = map f (removelast l).
Proof.
  induction l as [|x l IH]; [reflexivity|].
  destruct l; [reflexivity|]. cbn [map removelast] in *. rewrite IH. reflexivity.
Qed.

Lemma ev_causal P a : now_formula P = true -> ~ In a (vars P) ->
  exists F : list state -> bool, forall s, holds s 0 (NUn "F" P) ->
    sat_part (upd s a (fun i => F (prefix s i))) (ev_part P a).
Proof.
  intros HP N. exists (fun l => existsb (now_b P HP) (removelast l)). intros s Hs.
  pose proof (now_b_ok P HP s) as RP.
  apply (ev_orig s P _ RP) in Hs. destruct Hs as (k & A).
  apply (ev_seq s P a _ _ RP N).
  pose proof (w_ev_ok (fun i => now_b P HP (s i)) k A) as W.
  assert (E : forall i, existsb (now_b P HP) (removelast (prefix s i))
              = w_ev (fun i => now_b P HP (s i)) i).
  { intro i. unfold prefix, w_ev. rewrite removelast_map, removelast_seq. apply existsb_map. }
  unfold c_ev, io in *. setoid_rewrite E. exact W.
Qed.

Fixpoint rs (p q : state -> bool) (acc : bool) (l : list state) : bool :=
  match l with
  | [] => acc
  | x :: r => rs p q (q x || (acc && negb (p x)))%bool r
  end.

Lemma rs_app p q l x : forall acc, rs p q acc (l ++ [x]) =
  (q x || (rs p q acc l && negb (p x)))%bool.
Proof. induction l; intro acc; simpl; auto. Qed.

Lemma resp_causal P Q a : now_formula P = true -> now_formula Q = true ->
  ~ In a (vars P ++ vars Q) ->
  exists F : list state -> bool, forall s, holds s 0 (NUn "G" (NBin "->" P (NUn "F" Q))) ->
    sat_part (upd s a (fun i => F (prefix s i))) (resp_part P Q a).
Proof.
  intros HP HQ N.
  exists (fun l => rs (now_b P HP) (now_b Q HQ) true (removelast l)). intros s Hs.
  pose proof (now_b_ok P HP s) as RP. pose proof (now_b_ok Q HQ s) as RQ.
  pose proof (proj1 (resp_orig s P Q _ _ RP RQ) Hs) as Hs'. clear Hs. rename Hs' into Hs.
  apply (resp_seq s P Q a _ _ _ RP RQ N).
  pose proof (w_resp_ok (fun i => now_b P HP (s i)) (fun i => now_b Q HQ (s i)) Hs) as W.
  assert (E : forall i, rs (now_b P HP) (now_b Q HQ) true (removelast (prefix s i))
              = w_resp (fun i => now_b P HP (s i)) (fun i => now_b Q HQ (s i)) i).
  { intro i. unfold prefix. rewrite removelast_map, removelast_seq.
    induction i as [|i IH]; [reflexivity|].
    rewrite seq_S, map_app. cbn [map]. rewrite rs_app, IH. reflexivity. }
  unfold c_resp, io in *. setoid_rewrite E. exact W.
Qed.

(** No causal choice of the auxiliary variable works for stability. *)
Lemma stab_not_causal (x a : string) : x <> a ->
  ~ exists F : list state -> bool, forall s, holds s 0 (NUn "F" (NUn "G" (NVar x))) ->
    sat_part (upd s a (fun i => F (prefix s i))) (stab_part (NVar x) a).
Proof.
  intros Hx [F H].
  pose (tr := fun (b : nat -> bool) => (fun i (_ : string) => VB (b i)) : trace).
  assert (R : forall b, reflects (tr b) (NVar x) b).
  { intros b i. unfold tr. cbn [holds]. split; congruence. }
  assert (N : ~ In a (vars (NVar x))) by (simpl; intuition).
  assert (K : forall b, (exists k, forall j, k <= j -> b j = true) ->
              c_stab b (fun i => F (prefix (tr b) i))).
  { intros b Hb. apply (stab_seq (tr b) (NVar x) a _ b (R b) N). apply H.
    apply (stab_orig (tr b) (NVar x) b (R b)). assumption. }
  destruct (K (fun _ => true)) as (_ & _ & _ & IO); [exists 0; auto|].
  destruct (IO 0) as (j & _ & Hj).
  pose (b1 := fun i => negb (i =? S j)%nat).
  destruct (K b1) as (_ & K1 & K2 & _).
  { exists (S (S j)). intros m Hm. unfold b1. apply negb_true_iff, Nat.eqb_neq. lia. }
  assert (E : prefix (tr b1) j = prefix (tr (fun _ => true)) j).
  { unfold prefix. apply map_ext_in. intros m Hm. apply in_seq in Hm. unfold tr, b1.
    replace (m =? S j)%nat with false; [reflexivity|]. symmetry. apply Nat.eqb_neq. lia. }
  assert (Hj1 : F (prefix (tr b1) j) = true) by (rewrite E; assumption).
  apply K2 in Hj1. apply K1 in Hj1. unfold b1 in Hj1. rewrite Nat.eqb_refl in Hj1. discriminate.
Qed.
