(** C93: reading automata in the format of lbt. *)
From Coq Require Import List String Ascii Bool Arith Lia Decimal DecimalString DecimalNat.
From Verif Require Import M_Base M_Lbt.
Import ListNotations.
Local Open Scope string_scope.

(** * Specification: automata, and how they are written *)

Record lstate := LState {
  ls_name : nat; ls_initial : bool; ls_sets : list nat;
  ls_trans : list (nat * list string) }.
Definition num (n : nat) : string := NilEmpty.string_of_uint (Nat.to_uint n).
(** Each word followed by a blank. *)
Definition row (l : list string) : string := concat "" (map (fun w => w ++ " ") l).
Definition newline : string := String "010" "".
(** A state: its name, whether it is initial, its acceptance sets, -1; then its transitions, each a
    target and a gate in prefix notation, -1. *)
Definition state_words (s : lstate) : list string :=
  num (ls_name s) :: (if ls_initial s then "1" else "0") :: map num (ls_sets s).
Definition trans_words (s : lstate) : list string :=
  flat_map (fun t => num (fst t) :: snd t) (ls_trans s).
Definition state_text (s : lstate) : string :=
  newline ++ row (state_words s) ++ "-1" ++ newline ++ row (trans_words s) ++ "-1".
Definition lbt_text (sets : nat) (l : list lstate) : string :=
  num (List.length l) ++ " " ++ num sets ++ concat "" (map state_text l).

(** Words of gates: not empty, with neither blanks nor minus signs, and not starting like a number. *)
Fixpoint no_char (p : ascii -> bool) (s : string) : bool :=
  match s with "" => true | String c r => negb (p c) && no_char p r end.
Definition blank (c : ascii) : bool := Nat.leb (nat_of_ascii c) 32.
Definition solid (w : string) : bool :=
  negb (String.eqb w "") && no_char blank w && no_char (Ascii.eqb "-") w.
Definition digit (c : ascii) : bool := Nat.leb 48 (nat_of_ascii c) && Nat.leb (nat_of_ascii c) 57.
Definition gate_ok (w : string) : Prop :=
  solid w = true /\ match w with String c _ => digit c = false /\ c <> "+"%char | "" => False end.
Definition state_ok (s : lstate) : Prop :=
  ls_trans s <> [] /\ forall t w, In t (ls_trans s) -> In w (snd t) -> gate_ok w.
(** All transitions in the order of the text, with source, target and gate. *)
Definition all_trans (l : list lstate) : list (nat * nat * string) :=
  flat_map (fun s => map (fun t => (ls_name s, fst t, concat " " (snd t))) (ls_trans s)) l.
Definition all_states (l : list lstate) : list (nat * (bool * list nat)) :=
  map (fun s => (ls_name s, (ls_initial s, ls_sets s))) l.
(** The last of the states with name n has attributes v. *)
Definition last_state (l : list (nat * (bool * list nat))) (n : nat) (v : bool * list nat) : Prop :=
  exists before after, l = (before ++ (n, v) :: after)%list /\ forall w, ~ In (n, w) after.
(** The last of the transitions from u to v has gate g. *)
Definition last_gate (l : list (nat * nat * string)) (u v : nat) (g : string) : Prop :=
  exists before after, l = (before ++ (u, v, g) :: after)%list /\ forall h, ~ In (u, v, h) after.

(** * Texts *)

Lemma app_assoc_s : forall a b c : string, (a ++ b) ++ c = a ++ (b ++ c).
Proof. induction a; simpl; intros; [|f_equal]; auto. Qed.
Lemma app_nil_s : forall a : string, a ++ "" = a.
Proof. induction a; simpl; [|f_equal]; auto. Qed.
Lemma concat_cons a l : concat "" (a :: l) = a ++ concat "" l.
Proof. destruct l; cbn; [rewrite app_nil_s|]; reflexivity. Qed.
Lemma no_char_app p a b : no_char p (a ++ b) = no_char p a && no_char p b.
Proof. induction a; cbn; [reflexivity|]. rewrite IHa. destruct (p a); reflexivity. Qed.

Lemma blank_white c : blank c = false -> white c = false.
Proof. destruct c as [[] [] [] [] [] [] [] []]; vm_compute; congruence. Qed.
Lemma no_blank s : no_char blank s = true -> no_char white s = true.
Proof.
  induction s as [|c s IH]; intros H; [reflexivity|]. cbn [no_char] in *. apply andb_prop in H as [A B].
  apply negb_true_iff in A. rewrite (blank_white c A), (IH B). reflexivity.
Qed.
Lemma white_cut c : white c = false -> Ascii.eqb c " " = false /\ Ascii.eqb c "010" = false.
Proof. destruct c as [[] [] [] [] [] [] [] []]; vm_compute; intuition congruence. Qed.
Lemma not_int w : gate_ok w -> to_int w = None.
Proof.
  intros [_ H]. destruct w as [|c w]; [contradiction|]. destruct H as [H _]. unfold to_int.
  cbn [NilEmpty.uint_of_string]. destruct (NilEmpty.uint_of_string w);
    destruct c as [[] [] [] [] [] [] [] []]; vm_compute in H; try discriminate H; reflexivity.
Qed.

Lemma digits_ok d : no_char blank (NilEmpty.string_of_uint d) = true /\ no_char (Ascii.eqb "-") (NilEmpty.string_of_uint d) = true.
Proof. induction d; cbn; try (split; reflexivity); exact IHd. Qed.
Lemma to_uint_ne n : NilEmpty.string_of_uint (Nat.to_uint n) <> "".
Proof.
  intros E. assert (U : NilEmpty.uint_of_string (NilEmpty.string_of_uint (Nat.to_uint n)) = Some (Nat.to_uint n)) by apply NilEmpty.usu.
  rewrite E in U. cbn in U. injection U as U. pose proof (Unsigned.of_to n) as O. rewrite <- U in O. cbn in O. subst n.
  discriminate U.
Qed.
Lemma num_solid n : solid (num n) = true.
Proof.
  unfold solid, num. destruct (digits_ok (Nat.to_uint n)) as [A B]. rewrite A, B.
  destruct (String.eqb_spec (NilEmpty.string_of_uint (Nat.to_uint n)) ""); [|reflexivity].
  destruct (to_uint_ne n). assumption.
Qed.
Lemma num_int n : to_int (num n) = Some n.
Proof.
  unfold to_int. destruct (num n) eqn:E; [destruct (to_uint_ne n E)|]. rewrite <- E.
  unfold num. rewrite NilEmpty.usu. cbn [option_map]. rewrite Unsigned.of_to. reflexivity.
Qed.
Lemma get_num n : get_int (num n) = Ok n.
Proof. unfold get_int. rewrite num_int. reflexivity. Qed.

(** Words of a row. *)
Lemma words_word w cur r : no_char white w = true -> words_from cur (w ++ r) = words_from (cur ++ w) r.
Proof.
  revert cur. induction w as [|c w IH]; intros cur H; [rewrite app_nil_s; reflexivity|].
  cbn [no_char] in H. apply andb_prop in H as [A B]. apply negb_true_iff in A.
  cbn [append words_from]. rewrite A, IH by assumption. rewrite app_assoc_s. reflexivity.
Qed.
Lemma words_row l : Forall (fun w => solid w = true) l -> words (row l) = l.
Proof.
  induction l as [|w l IH]; intros H; [reflexivity|]. inversion H as [|? ? Hw Hl]; subst.
  unfold row, words. cbn [map]. rewrite concat_cons, app_assoc_s.
  unfold solid in Hw. apply andb_prop in Hw as [Hw _]. apply andb_prop in Hw as [H1 H2].
  rewrite words_word by (apply no_blank; assumption). cbn [append words_from]. change (white " ") with true. cbn iota.
  destruct w as [|c w]; [discriminate|]. f_equal. apply IH, Hl.
Qed.
Lemma words_newline s : words (newline ++ s) = words s.
Proof. reflexivity. Qed.
Lemma words_blank s : words (" " ++ s) = words s.
Proof. reflexivity. Qed.

(** Pieces between -1. *)
Lemma split_piece p cur r : no_char (Ascii.eqb "-") p = true ->
  split_m1 cur (p ++ "-1" ++ r) = (cur ++ p) :: split_m1 "" r.
Proof.
  revert cur. induction p as [|c p IH]; intros cur H; [rewrite app_nil_s; reflexivity|].
  cbn [no_char] in H. apply andb_prop in H as [A B]. apply negb_true_iff in A.
  cbn [append split_m1]. rewrite Ascii.eqb_sym, A.
  change (String "-" (String "1" r)) with ("-1" ++ r).
  rewrite IH by assumption. rewrite app_assoc_s. reflexivity.
Qed.
Lemma row_no_dash l : Forall (fun w => solid w = true) l -> no_char (Ascii.eqb "-") (row l) = true.
Proof.
  induction l as [|w l IH]; intros H; [reflexivity|]. inversion H as [|? ? Hw Hl]; subst.
  unfold row. cbn [map]. rewrite concat_cons, !no_char_app. fold (row l). rewrite (IH Hl).
  unfold solid in Hw. apply andb_prop in Hw as [_ ->]. reflexivity.
Qed.

(** Stripping. *)
Lemma rstrip_app s t : rstrip t <> "" -> rstrip (s ++ t) = s ++ rstrip t.
Proof.
  intros H. induction s as [|c s IH]; [reflexivity|]. cbn [append rstrip]. rewrite IH.
  destruct (s ++ rstrip t) eqn:E; [|reflexivity]. destruct s; [|discriminate]. cbn in E. contradiction.
Qed.
Lemma rstrip_blank s : rstrip (s ++ " ") = rstrip s.
Proof. induction s as [|c s IH]; [reflexivity|]. cbn [append rstrip]. rewrite IH. reflexivity. Qed.
Lemma rstrip_solid w : no_char white w = true -> rstrip w = w.
Proof.
  induction w as [|c w IH]; intros H; [reflexivity|]. cbn [no_char] in H. apply andb_prop in H as [A B].
  apply negb_true_iff in A. cbn [rstrip]. rewrite (IH B), A. destruct w; reflexivity.
Qed.
Lemma solid_parts w : solid w = true -> w <> "" /\ no_char white w = true /\ exists c r, w = String c r /\ white c = false.
Proof.
  unfold solid. intros H. apply andb_prop in H as [H _]. apply andb_prop in H as [A B].
  apply no_blank in B. destruct w as [|c r]; [discriminate|]. split; [discriminate|]. split; [exact B|].
  exists c, r. split; [reflexivity|]. cbn [no_char] in B. apply andb_prop in B as [B _]. apply negb_true_iff in B. exact B.
Qed.
Lemma lstrip_solid w s : solid w = true -> lstrip (w ++ s) = w ++ s.
Proof. intros H. apply solid_parts in H. destruct H as [_ [_ [c [r [-> H]]]]]. cbn [append lstrip]. rewrite H. reflexivity. Qed.
Lemma cut_solid w s : no_char white w = true -> (exists c r, s = String c r /\ (c = " "%char \/ c = "010"%char)) ->
  cut (w ++ s) = Some (w, s).
Proof.
  intros H [c [r [-> Hc]]]. induction w as [|d w IH].
  - destruct Hc as [ -> | -> ]; reflexivity.
  - cbn [no_char] in H. apply andb_prop in H as [A B]. apply negb_true_iff in A. cbn [append cut].
    apply white_cut in A as [A1 A3]. rewrite A1, A3. cbn [orb]. rewrite (IH B). reflexivity.
Qed.
Lemma cut_none w : no_char white w = true -> cut w = None.
Proof.
  induction w as [|d w IH]; intros H; [reflexivity|].
  cbn [no_char] in H. apply andb_prop in H as [A B]. apply negb_true_iff in A. cbn [cut].
  apply white_cut in A as [A1 A3]. rewrite A1, A3. cbn [orb]. rewrite (IH B). reflexivity.
Qed.

(** A row without its last blank. *)
Definition tail_row (l : list string) : string := concat "" (map (fun w => " " ++ w) l).
Lemma row_cons w l : row (w :: l) = w ++ " " ++ row l.
Proof. unfold row. cbn [map]. rewrite concat_cons, app_assoc_s. reflexivity. Qed.
Lemma tail_cons w l : tail_row (w :: l) = " " ++ w ++ tail_row l.
Proof. unfold tail_row. cbn [map]. rewrite concat_cons. reflexivity. Qed.
Lemma row_tail w l : row (w :: l) = (w ++ tail_row l) ++ " ".
Proof.
  revert w. induction l as [|x l IH]; intros w.
  - unfold row, tail_row. cbn [map concat]. rewrite app_nil_s. reflexivity.
  - rewrite row_cons, IH, tail_cons, !app_assoc_s. reflexivity.
Qed.
Lemma tail_tight l : forall s, rstrip s = s -> s <> "" -> Forall (fun w => solid w = true) l ->
  rstrip (s ++ tail_row l) = s ++ tail_row l.
Proof.
  induction l as [|w l IH]; intros s H Hs Hl.
  - unfold tail_row. cbn. rewrite app_nil_s. exact H.
  - inversion Hl as [|? ? Hw Hl']; subst. rewrite tail_cons, <- !app_assoc_s.
    pose proof (solid_parts w Hw) as [Hn [Hb _]]. apply IH; [|destruct s; discriminate|exact Hl'].
    rewrite rstrip_app; rewrite rstrip_solid by assumption; [reflexivity|exact Hn].
Qed.
Lemma words_tail l : Forall (fun w => solid w = true) l -> words (tail_row l) = l.
Proof.
  intros H. destruct l as [|w l]; [reflexivity|].
  assert (A : forall s cur, words_from cur (s ++ " ") = words_from cur s).
  { induction s as [|c s IHs]; intros cur; cbn [append words_from].
    - change (white " ") with true. cbn iota. destruct cur; reflexivity.
    - rewrite !IHs. reflexivity. }
  rewrite tail_cons, words_blank. unfold words. rewrite <- A, <- row_tail.
  apply words_row, H.
Qed.

Lemma split2_state a b l : solid a = true -> solid b = true -> Forall (fun w => solid w = true) l ->
  split2 (newline ++ row (a :: b :: l)) =
  match l with [] => [a; b] | _ => [a; b; tail_row l] end.
Proof.
  intros Ha Hb Hl. pose proof (solid_parts a Ha) as [Na [Wa _]]. pose proof (solid_parts b Hb) as [Nb [Wb _]].
  assert (S1 : strip (newline ++ row (a :: b :: l)) = a ++ tail_row (b :: l)).
  { unfold strip. change (lstrip (newline ++ row (a :: b :: l))) with (lstrip (row (a :: b :: l))).
    rewrite row_tail, app_assoc_s, lstrip_solid by assumption. rewrite <- app_assoc_s, rstrip_blank.
    apply tail_tight; [apply rstrip_solid, Wa|exact Na|constructor; assumption]. }
  unfold split2. rewrite S1. rewrite tail_cons, cut_solid by (try assumption; cbn; eauto).
  assert (S2 : strip (" " ++ b ++ tail_row l) = b ++ tail_row l).
  { unfold strip. change (lstrip (" " ++ b ++ tail_row l)) with (lstrip (b ++ tail_row l)).
    rewrite lstrip_solid by assumption.
    apply tail_tight; [apply rstrip_solid, Wb|exact Nb|assumption]. }
  rewrite S2. destruct l as [|c l].
  - unfold tail_row. cbn [map concat]. rewrite app_nil_s, cut_none by assumption. reflexivity.
  - rewrite tail_cons, cut_solid by (try assumption; cbn; eauto). rewrite <- tail_cons. reflexivity.
Qed.

(** * Transitions *)

Lemma gate_words ws : forall s g r, (forall w, In w ws -> gate_ok w) -> ws <> [] \/ g <> "" ->
  transitions (Some s) g (ws ++ r) =
  transitions (Some s) (match g with "" => concat " " ws | _ => concat " " (g :: ws) end) r.
Proof.
  induction ws as [|w ws IH]; intros s g r H Hg.
  - destruct g; [destruct Hg; contradiction|reflexivity].
  - destruct (H w (or_introl eq_refl)) as [Sw Iw]. pose proof (not_int w (conj Sw Iw)) as Jw. apply solid_parts in Sw. destruct Sw as [Nw _].
    cbn [List.app transitions]. rewrite Jw.
    assert (G : (match g with "" => w | _ => g ++ " " ++ w end) <> "")
      by (destruct g; [exact Nw|discriminate]).
    rewrite IH; [|intros; apply H; right; assumption|right; exact G].
    destruct (match g with "" => w | _ => g ++ " " ++ w end) eqn:E; [contradiction|].
    rewrite <- E. f_equal. destruct g as [|c g]; [reflexivity|].
    destruct ws as [|x ws]; [reflexivity|]. cbn [concat]. rewrite !app_assoc_s. reflexivity.
Qed.
Lemma transitions_some l : forall s g, (forall t w, In t l -> In w (snd t) -> gate_ok w) ->
  transitions (Some s) g (flat_map (fun t => num (fst t) :: snd t) l) =
  (s, g) :: map (fun t => (fst t, concat " " (snd t))) l.
Proof.
  induction l as [|[v ws] l IH]; intros s g H; [reflexivity|].
  cbn [flat_map fst snd List.app transitions map]. rewrite num_int. f_equal.
  destruct ws as [|w ws].
  - cbn [List.app concat]. apply IH. intros; eapply H; eauto. right. assumption.
  - rewrite gate_words; [|intros x Hx; apply (H (v, w :: ws)); [left; reflexivity|exact Hx]|left; discriminate].
    apply IH. intros; eapply H; eauto. right. assumption.
Qed.
Lemma transitions_none l : (forall t w, In t l -> In w (snd t) -> gate_ok w) ->
  transitions None "" (flat_map (fun t => num (fst t) :: snd t) l) =
  map (fun t => (fst t, concat " " (snd t))) l.
Proof.
  destruct l as [|[v ws] l]; intros H; [reflexivity|].
  cbn [flat_map fst snd List.app transitions map]. rewrite num_int.
  destruct ws as [|w ws].
  - apply transitions_some. intros; eapply H; eauto. right. assumption.
  - rewrite gate_words; [|intros x Hx; apply (H (v, w :: ws)); [left; reflexivity|exact Hx]|left; discriminate].
    apply transitions_some. intros; eapply H; eauto. right. assumption.
Qed.

Lemma put_edge_new u v g l : ~ In (u, v) (map fst l) -> put_edge u v g l = (l ++ [(u, v, g)])%list.
Proof.
  induction l as [|[[a b] h] l IH]; intros H; [reflexivity|]. cbn [put_edge].
  destruct (Nat.eqb_spec u a) as [->|Ha]; [destruct (Nat.eqb_spec v b) as [->|Hb]|]; cbn [andb].
  - destruct H. left. reflexivity.
  - rewrite IH by (intros I; apply H; right; exact I). reflexivity.
  - rewrite IH by (intros I; apply H; right; exact I). reflexivity.
Qed.
Definition put3 (es : list (nat * nat * string)) (e : nat * nat * string) :=
  put_edge (fst (fst e)) (snd (fst e)) (snd e) es.
Lemma put_all l : forall es, NoDup (map fst (es ++ l)) -> fold_left put3 l es = (es ++ l)%list.
Proof.
  induction l as [|[[u v] g] l IH]; intros es D; [rewrite app_nil_r; reflexivity|].
  cbn [fold_left]. unfold put3 at 2. cbn [fst snd]. rewrite put_edge_new.
  - rewrite IH; rewrite <- app_assoc; [reflexivity|exact D].
  - rewrite map_app in D. cbn [map fst] in D. apply NoDup_remove_2 in D. intros I. apply D, in_or_app. left. exact I.
Qed.
Lemma fold_pairs u (l : list (nat * string)) : forall es,
  fold_left (fun es x => put_edge u (fst x) (snd x) es) l es =
  fold_left put3 (map (fun x => (u, fst x, snd x)) l) es.
Proof. induction l as [|x l IH]; intros es; [reflexivity|]. cbn [fold_left map]. rewrite IH. reflexivity. Qed.
Lemma put_edge_keys u v g l k : In k (map fst (put_edge u v g l)) -> k = (u, v) \/ In k (map fst l).
Proof.
  induction l as [|[[a b] h] l IH]; cbn [put_edge].
  - intros [<-|[]]. left. reflexivity.
  - destruct (Nat.eqb_spec u a) as [->|Ha]; [destruct (Nat.eqb_spec v b) as [->|Hb]|]; cbn [andb].
    + intros [<-|I]; [left; reflexivity|right; right; exact I].
    + intros [<-|I]; [right; left; reflexivity|]. destruct (IH I); [left|right; right]; assumption.
    + intros [<-|I]; [right; left; reflexivity|]. destruct (IH I); [left|right; right]; assumption.
Qed.
Lemma put_edge_nodup u v g l : NoDup (map fst l) -> NoDup (map fst (put_edge u v g l)).
Proof.
  induction l as [|[[a b] h] l IH]; intros D; cbn [put_edge].
  - repeat constructor. intros [].
  - inversion D as [|? ? D1 D2]; subst. cbn [fst] in D1.
    destruct (Nat.eqb u a && Nat.eqb v b) eqn:E.
    + apply andb_prop in E as [E1 E2]. apply Nat.eqb_eq in E1, E2. subst. constructor; assumption.
    + cbn [map fst]. constructor; [|apply IH, D2]. intros I. apply put_edge_keys in I. destruct I as [I|I]; [|contradiction].
      injection I as -> ->. rewrite !Nat.eqb_refl in E. discriminate.
Qed.
Lemma put_edge_in u v g l x y h : NoDup (map fst l) ->
  In (x, y, h) (put_edge u v g l) <-> ((x, y) = (u, v) /\ h = g) \/ ((x, y) <> (u, v) /\ In (x, y, h) l).
Proof.
  induction l as [|[[a b] k] l IH]; intros D; cbn [put_edge].
  - split; [intros [E|[]]; injection E as <- <- <-; left; split; reflexivity|].
    intros [[E ->]|[_ []]]. injection E as -> ->. left. reflexivity.
  - inversion D as [|? ? D1 D2]; subst. cbn [fst] in D1.
    destruct (Nat.eqb u a && Nat.eqb v b) eqn:E.
    + apply andb_prop in E as [E1 E2]. apply Nat.eqb_eq in E1, E2. subst. split.
      * intros [E|I]; [injection E as <- <- <-; left; split; reflexivity|].
        right. split; [|right; exact I]. intros E. injection E as -> ->. apply D1.
        apply in_map_iff. exists (a, b, h). split; [reflexivity|exact I].
      * intros [[E ->]|[N [E|I]]]; [injection E as -> ->; left; reflexivity| |right; exact I].
        injection E as -> -> ->. contradiction.
    + assert (N : (a, b) <> (u, v)) by (intros E'; injection E' as -> ->; rewrite !Nat.eqb_refl in E; discriminate).
      cbn [In]. rewrite (IH D2). split.
      * intros [E'|[I|[I J]]]; [injection E' as <- <- <-; right; split; [exact N|left; reflexivity]|left; exact I|].
        right. split; [exact I|right; exact J].
      * intros [I|[I [J|J]]]; [right; left; exact I|left; exact J|right; right; split; assumption].
Qed.
Lemma put_all_last l : NoDup (map fst (fold_left put3 l [])) /\
  forall u v g, In (u, v, g) (fold_left put3 l []) <-> last_gate l u v g.
Proof.
  induction l as [|[[a b] k] l [D H]] using rev_ind.
  - split; [constructor|]. intros u v g. split; [intros []|]. intros [[|? ?] [after [E _]]]; discriminate.
  - rewrite fold_left_app. cbn [fold_left]. unfold put3 at 1 3. cbn [fst snd].
    split; [apply put_edge_nodup, D|]. intros u v g. rewrite (put_edge_in a b k _ u v g D). split.
    + intros [[E ->]|[N I]].
      * injection E as -> ->. exists l, []. split; [reflexivity|intros h []].
      * apply H in I. destruct I as [before [after [-> L]]]. exists before, (after ++ [(a, b, k)])%list.
        split; [rewrite <- app_assoc; reflexivity|]. intros h J. apply in_app_or in J.
        destruct J as [J|[J|[]]]; [apply (L h J)|]. injection J as -> -> _. contradiction.
    + intros [before [after [E L]]]. destruct after as [|z after _] using rev_ind.
      * apply app_inj_tail in E as [_ E]. injection E as -> -> ->. left. split; reflexivity.
      * rewrite app_comm_cons, app_assoc in E. apply app_inj_tail in E as [E1 E2]. subst z. right.
        split.
        -- intros E. injection E as -> ->. apply (L k). apply in_or_app. right. left. reflexivity.
        -- apply H. exists before, after. split; [exact E1|]. intros h J. apply (L h), in_or_app. left. exact J.
Qed.
Lemma put_state_new n v l : ~ In n (map fst l) -> put_state n v l = (l ++ [(n, v)])%list.
Proof.
  induction l as [|[m w] l IH]; intros H; [reflexivity|]. cbn [put_state].
  destruct (Nat.eqb_spec n m) as [->|Hm]; [destruct H; left; reflexivity|].
  rewrite IH by (intros I; apply H; right; exact I). reflexivity.
Qed.

Definition put2 (l : list (nat * (bool * list nat))) (e : nat * (bool * list nat)) := put_state (fst e) (snd e) l.
Lemma put_states l : forall es, NoDup (map fst (es ++ l)) -> fold_left put2 l es = (es ++ l)%list.
Proof.
  induction l as [|[n v] l IH]; intros es D; [rewrite app_nil_r; reflexivity|].
  cbn [fold_left]. unfold put2 at 2. cbn [fst snd]. rewrite put_state_new.
  - rewrite IH; rewrite <- app_assoc; [reflexivity|exact D].
  - rewrite map_app in D. cbn [map fst] in D. apply NoDup_remove_2 in D. intros I. apply D, in_or_app. left. exact I.
Qed.
Lemma put_state_keys n v l k : In k (map fst (put_state n v l)) -> k = n \/ In k (map fst l).
Proof.
  induction l as [|[m w] l IH]; cbn [put_state].
  - intros [<-|[]]. left. reflexivity.
  - destruct (Nat.eqb_spec n m) as [->|Hm].
    + intros [<-|I]; [left; reflexivity|right; right; exact I].
    + intros [<-|I]; [right; left; reflexivity|]. destruct (IH I); [left|right; right]; assumption.
Qed.
Lemma put_state_nodup n v l : NoDup (map fst l) -> NoDup (map fst (put_state n v l)).
Proof.
  induction l as [|[m w] l IH]; intros D; cbn [put_state].
  - repeat constructor. intros [].
  - inversion D as [|? ? D1 D2]; subst. cbn [fst] in D1.
    destruct (Nat.eqb_spec n m) as [->|Hm]; [constructor; assumption|].
    cbn [map fst]. constructor; [|apply IH, D2]. intros I. apply put_state_keys in I. destruct I as [->|I]; contradiction.
Qed.
Lemma put_state_in n v l x w : NoDup (map fst l) ->
  In (x, w) (put_state n v l) <-> (x = n /\ w = v) \/ (x <> n /\ In (x, w) l).
Proof.
  induction l as [|[m k] l IH]; intros D; cbn [put_state].
  - split; [intros [E|[]]; injection E as <- <-; left; split; reflexivity|].
    intros [[-> ->]|[_ []]]. left. reflexivity.
  - inversion D as [|? ? D1 D2]; subst. cbn [fst] in D1.
    destruct (Nat.eqb_spec n m) as [->|Hm].
    + split.
      * intros [E|I]; [injection E as <- <-; left; split; reflexivity|].
        right. split; [|right; exact I]. intros ->. apply D1.
        apply in_map_iff. exists (m, w). split; [reflexivity|exact I].
      * intros [[-> ->]|[N [E|I]]]; [left; reflexivity| |right; exact I].
        injection E as -> ->. contradiction.
    + cbn [In]. rewrite (IH D2). split.
      * intros [E'|[I|[I J]]]; [injection E' as <- <-; right; split; [congruence|left; reflexivity]|left; exact I|].
        right. split; [exact I|right; exact J].
      * intros [I|[I [J|J]]]; [right; left; exact I|left; exact J|right; right; split; assumption].
Qed.
Lemma put_states_last l : NoDup (map fst (fold_left put2 l [])) /\
  forall n v, In (n, v) (fold_left put2 l []) <-> last_state l n v.
Proof.
  induction l as [|[m k] l [D H]] using rev_ind.
  - split; [constructor|]. intros n v. split; [intros []|]. intros [[|? ?] [after [E _]]]; discriminate.
  - rewrite fold_left_app. cbn [fold_left]. unfold put2 at 1 3. cbn [fst snd].
    split; [apply put_state_nodup, D|]. intros n v. rewrite (put_state_in m k _ n v D). split.
    + intros [[-> ->]|[N I]].
      * exists l, []. split; [reflexivity|intros h []].
      * apply H in I. destruct I as [before [after [-> L]]]. exists before, (after ++ [(m, k)])%list.
        split; [rewrite <- app_assoc; reflexivity|]. intros h J. apply in_app_or in J.
        destruct J as [J|[J|[]]]; [apply (L h J)|]. injection J as -> _. contradiction.
    + intros [before [after [E L]]]. destruct after as [|z after _] using rev_ind.
      * apply app_inj_tail in E as [_ E]. injection E as -> ->. left. split; reflexivity.
      * rewrite app_comm_cons, app_assoc in E. apply app_inj_tail in E as [E1 E2]. subst z. right.
        split.
        -- intros ->. apply (L k). apply in_or_app. right. left. reflexivity.
        -- apply H. exists before, after. split; [exact E1|]. intros h J. apply (L h), in_or_app. left. exact J.
Qed.

(** * The automaton *)

Definition pieces (s : lstate) : list string :=
  [newline ++ row (state_words s); newline ++ row (trans_words s)].
Lemma state_words_solid s : Forall (fun w => solid w = true) (state_words s).
Proof.
  unfold state_words. constructor; [apply num_solid|]. constructor; [destruct (ls_initial s); reflexivity|].
  induction (ls_sets s); cbn [map]; constructor; [apply num_solid|assumption].
Qed.
Lemma trans_words_solid s : state_ok s -> Forall (fun w => solid w = true) (trans_words s).
Proof.
  intros [_ H]. unfold trans_words. apply Forall_forall. intros w I. apply in_flat_map in I.
  destruct I as [t [It [<-|Iw]]]; [apply num_solid|]. apply (H t w It Iw).
Qed.
Lemma split_states l : Forall state_ok l ->
  split_m1 "" (concat "" (map state_text l)) = (flat_map pieces l ++ [""])%list.
Proof.
  induction l as [|s l IH]; intros H; [reflexivity|]. inversion H as [|? ? Hs Hl]; subst.
  cbn [map flat_map]. rewrite concat_cons. unfold state_text at 1. rewrite !app_assoc_s.
  rewrite <- (app_assoc_s newline (row (state_words s))), split_piece
    by (rewrite no_char_app, row_no_dash by apply state_words_solid; reflexivity).
  rewrite <- (app_assoc_s newline (row (trans_words s))), split_piece
    by (rewrite no_char_app, row_no_dash by (apply trans_words_solid; exact Hs); reflexivity).
  rewrite (IH Hl). reflexivity.
Qed.
Lemma row_not_blank w l : solid w = true -> match strip (newline ++ row (w :: l)) with "" => false | _ => true end = true.
Proof.
  intros H. pose proof (solid_parts w H) as [N [W [c [r [E C]]]]]. unfold strip.
  change (lstrip (newline ++ row (w :: l))) with (lstrip (row (w :: l))).
  rewrite row_cons, lstrip_solid by assumption. subst w. cbn [append rstrip].
  destruct (rstrip _); [rewrite C|]; reflexivity.
Qed.
Lemma filter_pieces l : Forall state_ok l ->
  filter (fun p => match strip p with "" => false | _ => true end) (flat_map pieces l ++ [""]) = flat_map pieces l.
Proof.
  induction l as [|s l IH]; intros H; [reflexivity|]. inversion H as [|? ? Hs Hl]; subst.
  cbn [flat_map pieces List.app filter].
  unfold state_words at 1. rewrite row_not_blank by apply num_solid.
  destruct Hs as [Hn _]. destruct (ls_trans s) as [|t ts] eqn:E; [contradiction|].
  assert (T : trans_words s = (num (fst t) :: snd t ++ flat_map (fun t => num (fst t) :: snd t) ts)%list)
    by (unfold trans_words; rewrite E; reflexivity).
  rewrite T at 1. rewrite row_not_blank by apply num_solid. rewrite (IH Hl). reflexivity.
Qed.
Lemma mapr_nums l : mapr get_int (map num l) = Ok l.
Proof. induction l as [|n l IH]; [reflexivity|]. cbn [map mapr]. rewrite get_num. cbn [bind]. rewrite IH. reflexivity. Qed.

Lemma parts_states l : forall name a, Forall state_ok l ->
  parts_loop true name (flat_map pieces l) a =
  Ok (Gba (gb_sets a) (fold_left put2 (all_states l) (gb_states a))
        (fold_left put3 (all_trans l) (gb_edges a))).
Proof.
  induction l as [|s l IH]; intros name a Hok.
  - destruct a; reflexivity.
  - inversion Hok as [|? ? Ok1 Ok2]; subst.
    cbn [flat_map pieces List.app parts_loop].
    pose proof (state_words_solid s) as SS. unfold state_words in SS |- *.
    inversion SS as [|? ? A1 A2]; subst. inversion A2 as [|? ? A3 A4]; subst.
    rewrite split2_state by assumption.
    set (b := if ls_initial s then "1" else "0") in *.
    assert (B : String.eqb b "1" = ls_initial s) by (unfold b; destruct (ls_initial s); reflexivity).
    assert (Step : parts_loop false (ls_name s) ((newline ++ row (trans_words s)) :: flat_map pieces l)
       (Gba (gb_sets a) (put_state (ls_name s) (ls_initial s, ls_sets s) (gb_states a)) (gb_edges a)) =
       Ok (Gba (gb_sets a) (fold_left put2 (all_states (s :: l)) (gb_states a))
            (fold_left put3 (all_trans (s :: l)) (gb_edges a)))).
    { cbn [parts_loop gb_sets gb_states gb_edges].
      rewrite words_newline, words_row by (apply trans_words_solid; exact Ok1).
      destruct Ok1 as [_ Hg]. unfold trans_words. rewrite transitions_none by exact Hg.
      rewrite fold_pairs.
      rewrite map_map. cbn [fst snd].
      rewrite IH by exact Ok2. cbn [gb_sets gb_states gb_edges].
      unfold all_trans, all_states. cbn [map flat_map fold_left]. rewrite fold_left_app. reflexivity. }
    destruct (map num (ls_sets s)) as [|x xs] eqn:E.
    + rewrite get_num. cbn [bind].
      assert (E' : ls_sets s = []) by (destruct (ls_sets s); [reflexivity|discriminate]).
      rewrite B. rewrite E' in Step. exact Step.
    + rewrite get_num. cbn [bind]. rewrite words_tail by exact A4. rewrite <- E, mapr_nums. cbn [bind].
      rewrite B. exact Step.
Qed.

Lemma body_start l : l <> [] -> exists r, concat "" (map state_text l) = String "010" r.
Proof. destruct l as [|s l]; [contradiction|]. intros _. cbn [map]. rewrite concat_cons. eexists. reflexivity. Qed.
Lemma body_tight l : forall s, l <> [] -> rstrip (s ++ concat "" (map state_text l)) = s ++ concat "" (map state_text l).
Proof.
  induction l as [|x l IH]; intros s H; [contradiction|]. cbn [map]. rewrite concat_cons.
  destruct l as [|y l].
  - cbn [map concat]. rewrite app_nil_s. unfold state_text. rewrite <- !app_assoc_s.
    rewrite rstrip_app by discriminate. reflexivity.
  - rewrite <- app_assoc_s. apply IH. discriminate.
Qed.

Lemma readlbt_fold sets l : l <> [] -> Forall state_ok l ->
  readlbt (lbt_text sets l) =
  Ok (Gba sets (fold_left put2 (all_states l) []) (fold_left put3 (all_trans l) [])).
Proof.
  intros Hne Hok. destruct (body_start l Hne) as [r Er].
  pose proof (num_solid (List.length l)) as Sn. pose proof (num_solid sets) as Ss.
  pose proof (solid_parts _ Sn) as [_ [Wn _]]. pose proof (solid_parts _ Ss) as [_ [Ws _]].
  assert (P : split2 (lbt_text sets l) = [num (List.length l); num sets; concat "" (map state_text l)]).
  { unfold split2, strip, lbt_text. rewrite lstrip_solid by assumption.
    rewrite <- (app_assoc_s " "), <- (app_assoc_s (num (List.length l))).

    rewrite body_tight by assumption. rewrite !app_assoc_s.
    rewrite cut_solid by (try assumption; cbn; eauto).
    change (lstrip (" " ++ num sets ++ concat "" (map state_text l))) with (lstrip (num sets ++ concat "" (map state_text l))).
    rewrite lstrip_solid, body_tight by assumption.
    rewrite cut_solid by (try assumption; rewrite Er; eauto). reflexivity. }
  unfold readlbt. rewrite P, !get_num. cbn [bind].
  rewrite split_states, filter_pieces by assumption.
  rewrite parts_states; [reflexivity|assumption].
Qed.
Lemma all_trans_nodup l : NoDup (map ls_name l) -> Forall (fun s => NoDup (map fst (ls_trans s))) l ->
  NoDup (map fst (all_trans l)).
Proof.
  induction l as [|s l IH]; intros D H; [constructor|]. inversion D as [|? ? D1 D2]; subst.
  inversion H as [|? ? H1 H2]; subst. unfold all_trans. cbn [flat_map]. fold (all_trans l). rewrite map_app, map_map. cbn [fst].
  assert (F : forall k, In k (map fst (all_trans l)) -> In (fst k) (map ls_name l)).
  { intros k I. unfold all_trans in I. apply in_map_iff in I. destruct I as [e [<- I]]. apply in_flat_map in I.
    destruct I as [s' [Is I]]. apply in_map_iff in I. destruct I as [t [<- _]]. cbn. apply in_map, Is. }
  clear D H. induction (ls_trans s) as [|t ts IHt]; [apply IH; assumption|].
  cbn [map] in *. inversion H1 as [|? ? A B]; subst. cbn [List.app]. constructor; [|apply IHt, B].
  intros I. apply in_app_or in I. destruct I as [I|I].
  - apply A. apply in_map_iff in I. destruct I as [t' [E I]]. injection E as E. rewrite <- E. apply in_map, I.
  - apply D1, (F _ I).
Qed.

(** Automata in the format are read as they are: the number of acceptance sets, each state with its
    attributes, and an edge with its gate for each transition, nothing else. *)
Theorem readlbt_correct sets l : l <> [] -> Forall state_ok l -> NoDup (map ls_name l) ->
  Forall (fun s => NoDup (map fst (ls_trans s))) l ->
  readlbt (lbt_text sets l) =
  Ok (Gba sets (all_states l) (all_trans l)).
Proof.
  intros Hne Hok Hd Ht. rewrite readlbt_fold by assumption. rewrite put_states.
  - rewrite put_all; [reflexivity|apply all_trans_nodup; assumption].
  - unfold all_states. cbn [List.app]. rewrite map_map. exact Hd.
Qed.
(** With several transitions between two states, there is one edge, with the gate of the last one;
    with several states of the same name, one state, with the attributes of the last one. *)
Theorem readlbt_last sets l : l <> [] -> Forall state_ok l ->
  exists states edges,
    readlbt (lbt_text sets l) = Ok (Gba sets states edges) /\
    NoDup (map fst states) /\ (forall n v, In (n, v) states <-> last_state (all_states l) n v) /\
    NoDup (map fst edges) /\ (forall u v g, In (u, v, g) edges <-> last_gate (all_trans l) u v g).
Proof.
  intros Hne Hok. exists (fold_left put2 (all_states l) []), (fold_left put3 (all_trans l) []).
  split; [apply readlbt_fold; assumption|].
  destruct (put_states_last (all_states l)). destruct (put_all_last (all_trans l)). repeat (split; try assumption).
Qed.

(** * Cases *)

Definition ex_l : list lstate :=
  [LState 0 true [] [(1, ["p"]); (0, ["&"; "p"; "!"; "q"])]; LState 1 false [0] [(1, ["t"])]].
Example ex_ok : Forall state_ok ex_l /\ NoDup (map ls_name ex_l) /\
  Forall (fun s => NoDup (map fst (ls_trans s))) ex_l /\
  readlbt (lbt_text 1 ex_l) = Ok (Gba 1 [(0, (true, [])); (1, (false, [0]))]
    [(0, 1, "p"); (0, 0, "& p ! q"); (1, 1, "t")]).
Proof.
  split; [|split; [|split; [|vm_compute; reflexivity]]].
  - apply Forall_cons; [|apply Forall_cons; [|constructor]]; (split; [discriminate|]).
    + intros t w [<-|[<-|[]]] I; cbn in I; intuition (subst; repeat split; try reflexivity; discriminate).
    + intros t w [<-|[]] I; cbn in I; intuition (subst; repeat split; try reflexivity; discriminate).
  - repeat constructor; cbn; intuition discriminate.
  - repeat constructor; cbn; intuition discriminate.
Qed.

(** A state without transitions: the part of its transitions is empty and left out, so that
    the next state is read as transitions of this one. *)
Theorem readlbt_dead_end_refuted :
  readlbt (lbt_text 0 [LState 0 true [] []; LState 1 false [] [(0, ["p"])]]) <>
    Ok (Gba 0 [(0, (true, [])); (1, (false, []))] [(1, 0, "p")]) /\
  exists l, Forall (fun s => NoDup (map fst (ls_trans s))) l /\ NoDup (map ls_name l) /\
    readlbt (lbt_text 0 l) = Ok (Gba 0 [(0, (true, []))] [(0, 1, ""); (0, 0, "")]) /\
    map ls_name l = [0; 1] /\ Forall (fun s => ls_trans s = []) l.
Proof.
  split; [vm_compute; discriminate|].
  exists [LState 0 true [] []; LState 1 false [] []].
  split; [repeat constructor|]. split; [repeat constructor; cbn; intuition discriminate|].
  split; [vm_compute; reflexivity|]. split; [reflexivity|repeat constructor].
Qed.
(** Two transitions with the same target: only the last gate is kept. *)
Theorem readlbt_parallel_refuted :
  readlbt (lbt_text 0 [LState 0 true [] [(0, ["p"]); (0, ["q"])]]) =
  Ok (Gba 0 [(0, (true, []))] [(0, 0, "q")]).
Proof. vm_compute. reflexivity. Qed.
Example ex_parallel : Forall state_ok [LState 0 true [] [(0, ["p"]); (0, ["q"])]] /\
  last_gate (all_trans [LState 0 true [] [(0, ["p"]); (0, ["q"])]]) 0 0 "q" /\
  ~ last_gate (all_trans [LState 0 true [] [(0, ["p"]); (0, ["q"])]]) 0 0 "p".
Proof.
  split; [|split].
  - apply Forall_cons; [|constructor]. split; [discriminate|].
    intros t w [<-|[<-|[]]] I; cbn in I; intuition (subst; repeat split; try reflexivity; discriminate).
  - exists [(0, 0, "p")], []. split; [reflexivity|intros h []].
  - intros [before [after [E L]]]. cbn in E. destruct before as [|x [|y [|z before]]]; try discriminate.
    injection E as <-. apply (L "q"). left. reflexivity.
Qed.
(** Automata without states are not read. *)
Theorem readlbt_empty_refuted sets : readlbt (lbt_text sets []) = Err "IndexError".
Proof.
  unfold lbt_text. cbn [List.length map concat]. rewrite app_nil_s.
  pose proof (num_solid sets) as Ss. pose proof (solid_parts _ Ss) as [_ [Ws _]].
  assert (P : split2 (num 0 ++ " " ++ num sets) = ["0"; num sets]).
  { unfold split2, strip. rewrite lstrip_solid by reflexivity.
    rewrite rstrip_app; rewrite rstrip_app; rewrite rstrip_solid by assumption;
      try (apply solid_parts in Ss; tauto); try discriminate.
    rewrite cut_solid by (try reflexivity; cbn; eauto).
    change (lstrip (" " ++ num sets)) with (lstrip (num sets)).
    rewrite <- (app_nil_s (num sets)), lstrip_solid by assumption. rewrite app_nil_s.
    rewrite rstrip_solid, cut_none by assumption. reflexivity. }
  unfold readlbt. rewrite P. change (get_int "0") with (@Ok nat 0). cbn [bind]. rewrite get_num. reflexivity.
Qed.

Print Assumptions readlbt_correct.
Print Assumptions readlbt_last.
Print Assumptions readlbt_dead_end_refuted.
Print Assumptions readlbt_parallel_refuted.
Print Assumptions readlbt_empty_refuted.
