(** C48: descriptions of gridworlds. *)
From Coq Require Import String Ascii List Bool Arith ZArith Lia Sorting.Sorted.
From Verif Require Import M_Base M_Tree M_Gr1c S_LTL S_Gr1 S_Syntax L_Dec L_Gr1c M_Machine M_Grid S_Grid T_Reach T_Grid.
Import ListNotations.
Open Scope string_scope.
Open Scope list_scope.

(** ** What a description says *)
(** Character [j] of line [i]. *)
Definition at_line (body : list (list ascii)) (i j : Z) : option ascii :=
  if (i <? 0)%Z || (j <? 0)%Z then None
  else match nth_error body (Z.to_nat i) with Some line => nth_error line (Z.to_nat j) | None => None end.
Definition symbols : list ascii := [" "; "*"; "I"; "G"]%char.
Definition nl : ascii := ascii_of_nat 10.
(** A size and lines, as text. *)
Definition description (r c : nat) (body : list (list ascii)) : list ascii :=
  list_ascii_of_string (str_nat r) ++ " "%char :: list_ascii_of_string (str_nat c) ++ nl :: flat_map (fun l => l ++ [nl]) body.
Definition one_line (l : list ascii) : Prop := forall c, In c l -> is_break c = false.

(** ** Lines and words *)
Lemma splitlines_line : forall l cur rest, one_line l -> splitlines cur (l ++ nl :: rest) = (rev cur ++ l) :: splitlines [] rest.
Proof.
  induction l as [|c l IH]; intros cur rest H.
  - rewrite app_nil_r. reflexivity.
  - cbn [app splitlines]. rewrite (H c) by (left; reflexivity). rewrite IH by (intros x Hx; apply H; right; exact Hx).
    cbn [rev]. rewrite <- app_assoc. reflexivity.
Qed.
Lemma splitlines_body : forall body, Forall one_line body -> splitlines [] (flat_map (fun l => l ++ [nl]) body) = body.
Proof.
  intros body H. induction H as [|l body H _ IH]; [reflexivity|]. cbn [flat_map]. rewrite <- app_assoc. cbn [app].
  rewrite splitlines_line by exact H. rewrite IH. reflexivity.
Qed.
Lemma words_word : forall l cur, (forall c, In c l -> is_space c = false) -> words cur l = match rev cur ++ l with [] => [] | w => [w] end.
Proof.
  induction l as [|c l IH]; intros cur H; cbn [words].
  - rewrite app_nil_r. destruct cur as [|x cur]; [reflexivity|]. destruct (rev (x :: cur)) eqn:E; [|reflexivity].
    apply (f_equal (@length _)) in E. rewrite rev_length in E. discriminate.
  - rewrite (H c) by (left; reflexivity). rewrite IH by (intros x Hx; apply H; right; exact Hx). cbn [rev]. rewrite <- app_assoc. reflexivity.
Qed.
Lemma words_space : forall l cur rest, (forall c, In c l -> is_space c = false) -> rev cur ++ l <> [] ->
  words cur (l ++ " "%char :: rest) = (rev cur ++ l) :: words [] rest.
Proof.
  induction l as [|c l IH]; intros cur rest H N; cbn [app words].
  - rewrite app_nil_r in *. destruct cur; [contradiction|reflexivity].
  - rewrite (H c) by (left; reflexivity). rewrite IH.
    + cbn [rev]. rewrite <- app_assoc. reflexivity.
    + intros x Hx. apply H. right. exact Hx.
    + cbn [rev]. rewrite <- app_assoc. intro E. apply app_eq_nil in E. destruct E as [_ E]. discriminate.
Qed.
Lemma digits_facts : forall n c, In c (list_ascii_of_string (str_nat n)) -> is_space c = false /\ is_break c = false /\ c <> "#"%char.
Proof.
  intros n c H. apply str_nat_digits in H. destruct c as [[] [] [] [] [] [] [] []]; try discriminate H; repeat split; discriminate.
Qed.
Lemma header_line : forall r c, one_line (list_ascii_of_string (str_nat r) ++ " "%char :: list_ascii_of_string (str_nat c)).
Proof.
  intros r c x H. apply in_app_iff in H. destruct H as [H|[<-|H]]; [apply (digits_facts r), H|reflexivity|apply (digits_facts c), H].
Qed.
Lemma header_words : forall r c, words [] (list_ascii_of_string (str_nat r) ++ " "%char :: list_ascii_of_string (str_nat c)) =
  [list_ascii_of_string (str_nat r); list_ascii_of_string (str_nat c)].
Proof.
  intros r c. rewrite words_space.
  - rewrite words_word by (intros x Hx; apply (digits_facts c), Hx). cbn [rev app]. destruct (str_nat_cons c) as (x & l & -> & _). reflexivity.
  - intros x Hx. apply (digits_facts r), Hx.
  - cbn [rev app]. destruct (str_nat_cons r) as (x & l & -> & _). discriminate.
Qed.
Lemma load_description : forall r c body, Forall one_line body ->
  load_lines (splitlines [] (description r c body)) = load_rows 0 body (tab r c (fun _ _ => 0%Z), [], []).
Proof.
  intros r c body H. unfold description. rewrite app_comm_cons, app_assoc. rewrite splitlines_line by apply header_line. cbn [rev app].
  rewrite splitlines_body by exact H. cbn [load_lines]. rewrite header_words.
  pose proof (py_int_str_nat r) as Pr. pose proof (py_int_str_nat c) as Pc. pose proof (digits_facts r) as F.
  destruct (str_nat_cons r) as (x & l & E & _). rewrite E in *. destruct (F x (or_introl eq_refl)) as (_ & _ & N).
  destruct (Ascii.eqb_spec x "#"); [contradiction|]. rewrite Pr, Pc. cbn [of_opt bind].
  destruct (Z.ltb_spec (Z.of_nat r) 0); [lia|]. destruct (Z.ltb_spec (Z.of_nat c) 0); [lia|]. cbn [orb]. rewrite !Nat2Z.id. reflexivity.
Qed.
(** Blank lines and comments before the size are skipped. *)
Theorem loads_skip : forall l rest, one_line l -> (words [] l = [] \/ exists r ws, words [] l = ("#"%char :: r) :: ws) ->
  loads (text (l ++ nl :: rest)) = loads (text rest).
Proof.
  intros l rest H C. unfold loads, text. rewrite !list_ascii_of_string_of_list_ascii. rewrite splitlines_line by exact H. cbn [rev app load_lines].
  destruct C as [->|(r & ws & ->)]; reflexivity.
Qed.

(** ** Setting cells *)
Lemma set_nth_length : forall (A : Type) n (x : A) l, length (set_nth n x l) = length l.
Proof. intros A n x l. revert n. induction l as [|y l IH]; intros [|n]; cbn; auto. Qed.
Lemma nth_set_nth : forall (A : Type) n (x d : A) l k, (n < length l)%nat -> nth k (set_nth n x l) d = if Nat.eqb k n then x else nth k l d.
Proof.
  intros A n x d l. revert n. induction l as [|y l IH]; intros [|n] [|k] H; cbn in *; try lia; try reflexivity. apply IH. lia.
Qed.
Lemma set_nth_Forall : forall (A : Type) (P : A -> Prop) n x l, P x -> Forall P l -> Forall P (set_nth n x l).
Proof. intros A P n x l Hx H. revert n. induction H as [|y l Hy Hl IH]; intros [|n]; cbn; constructor; auto. Qed.
Lemma nth_row : forall m i, shaped m -> (i < m_rows m)%nat -> length (nth i (m_cells m) []) = m_cols m.
Proof. intros m i [R C] H. rewrite Forall_forall in C. apply C. apply nth_In. lia. Qed.
Lemma set_cell_shaped : forall m i j z, shaped m -> (i < m_rows m)%nat -> shaped (set_cell m i j z).
Proof.
  intros m i j z S H. pose proof (nth_row m i S H) as L. destruct S as [R C]. split; cbn.
  - rewrite set_nth_length. exact R.
  - apply set_nth_Forall; [|exact C]. rewrite set_nth_length. exact L.
Qed.
Lemma set_cell_cell : forall m i j z a b, shaped m -> (i < m_rows m)%nat -> (j < m_cols m)%nat ->
  cell (set_cell m i j z) a b = if Nat.eqb a i && Nat.eqb b j then z else cell m a b.
Proof.
  intros m i j z a b S Hi Hj. unfold cell, set_cell. cbn. pose proof (nth_row m i S Hi) as L. destruct S as [R C].
  rewrite nth_set_nth by lia. destruct (Nat.eqb_spec a i) as [->|N]; cbn [andb]; [|reflexivity].
  rewrite nth_set_nth by lia. reflexivity.
Qed.
(** [mark_occupied] and [mark_empty] change one cell. *)
Theorem mark_spec : forall z w m k, w_W w = Some m -> shaped m -> within (fst k) (m_rows m) -> within (snd k) (m_cols m) ->
  exists w' m', mark z k w = Ok w' /\ w_W w' = Some m' /\ shaped m' /\ m_rows m' = m_rows m /\ m_cols m' = m_cols m /\
    w_init w' = w_init w /\ w_goal w' = w_goal w /\ w_prefix w' = w_prefix w /\
    view m' (wrapped (fst k) (m_rows m)) (wrapped (snd k) (m_cols m)) = Some z /\
    forall i j, (i, j) <> (wrapped (fst k) (m_rows m), wrapped (snd k) (m_cols m)) -> view m' i j = view m i j.
Proof.
  intros z w m [a b] W S A B. cbn [fst snd] in *. unfold mark. rewrite W. cbn [fst snd]. rewrite !index_within by assumption. cbn [bind].
  pose proof (wrapped_range _ _ A) as Ra. pose proof (wrapped_range _ _ B) as Rb.
  set (i0 := Z.to_nat (wrapped a (m_rows m))). set (j0 := Z.to_nat (wrapped b (m_cols m))).
  assert (S' : shaped (set_cell m i0 j0 z)) by (apply set_cell_shaped; [exact S|lia]).
  do 2 eexists. split; [reflexivity|]. split; [reflexivity|]. split; [exact S'|]. do 5 (split; [reflexivity|]). split.
  - rewrite view_at; [|exact S'|exact Ra|exact Rb]. rewrite set_cell_cell by (auto; lia). fold i0 j0. rewrite !Nat.eqb_refl. reflexivity.
  - intros i j N.
    destruct (Z_le_dec 0 i) as [I1|I1]; [destruct (Z_lt_dec i (Z.of_nat (m_rows m))) as [I2|I2]; [destruct (Z_le_dec 0 j) as [J1|J1]; [destruct (Z_lt_dec j (Z.of_nat (m_cols m))) as [J2|J2]|]|]|].
    2-5: rewrite !view_outside; auto; cbn [m_rows m_cols set_cell]; lia.
    rewrite !view_at by (auto; cbn [m_rows m_cols set_cell]; lia). rewrite set_cell_cell by (auto; lia).
    destruct (Nat.eqb_spec (Z.to_nat i) i0) as [E|E]; cbn [andb]; [|reflexivity].
    destruct (Nat.eqb_spec (Z.to_nat j) j0) as [E'|E']; [|reflexivity]. exfalso. apply N. f_equal; lia.
Qed.

(** ** Reading the rows *)
Lemma row_major_app : forall a b, row_major a -> row_major b -> (forall x y, In x a -> In y b -> before x y) -> row_major (a ++ b).
Proof.
  intros a b Ha Hb H. induction Ha as [|x a S IH F]; [exact Hb|]. cbn. constructor.
  - apply IH. intros y z Hy Hz. apply H; [right; exact Hy|exact Hz].
  - apply Forall_app. split; [exact F|]. apply Forall_forall. intros y Hy. apply H; [left; reflexivity|exact Hy].
Qed.
Definition value_of (o : option ascii) (old : Z) : Z :=
  match o with Some c => if Ascii.eqb c " " then 0%Z else if Ascii.eqb c "*" then 1%Z else old | None => old end.
Lemma load_row_ok : forall row line j m init goal, shaped m -> (row < m_rows m)%nat ->
  (forall b c, nth_error line b = Some c -> (j + b < m_cols m)%nat -> In c symbols) ->
  exists m' ii gg, load_row row j line (m, init, goal) = Ok (m', init ++ ii, goal ++ gg) /\
    shaped m' /\ m_rows m' = m_rows m /\ m_cols m' = m_cols m /\
    (forall a b, (b < m_cols m)%nat -> cell m' a b = if Nat.eqb a row && Nat.leb j b then value_of (nth_error line (b - j)) (cell m a b) else cell m a b) /\
    (forall k, In k ii <-> exists b, k = (Z.of_nat row, Z.of_nat (j + b)) /\ nth_error line b = Some "I"%char /\ (j + b < m_cols m)%nat) /\
    (forall k, In k gg <-> exists b, k = (Z.of_nat row, Z.of_nat (j + b)) /\ nth_error line b = Some "G"%char /\ (j + b < m_cols m)%nat) /\
    row_major ii /\ row_major gg.
Proof.
  intros row line. induction line as [|c line IH]; intros j m init goal S R V.
  - exists m, [], []. rewrite !app_nil_r. split; [reflexivity|]. split; [exact S|]. split; [reflexivity|]. split; [reflexivity|]. split.
    { intros a b _. destruct (Nat.eqb a row && Nat.leb j b); [|reflexivity]. destruct (b - j)%nat; reflexivity. }
    split; [intro k; split; [intros []|intros ([|b] & _ & H & _); discriminate H]|].
    split; [intro k; split; [intros []|intros ([|b] & _ & H & _); discriminate H]|]. split; constructor.
  - cbn [load_row]. destruct (Nat.leb_spec (m_cols m) j) as [L|L].
    + exists m, [], []. rewrite !app_nil_r. split; [reflexivity|]. split; [exact S|]. split; [reflexivity|]. split; [reflexivity|]. split.
      { intros a b Hb. destruct (Nat.leb_spec j b); [lia|]. rewrite andb_false_r. reflexivity. }
      split; [intro k; split; [intros []|intros (b & _ & _ & H); lia]|].
      split; [intro k; split; [intros []|intros (b & _ & _ & H); lia]|]. split; constructor.
    + assert (V' : forall b x, nth_error line b = Some x -> (Datatypes.S j + b < m_cols m)%nat -> In x symbols).
      { intros b x Hb Hl. apply (V (Datatypes.S b) x); [exact Hb|lia]. }
      assert (Vc : In c symbols) by (apply (V 0%nat c); [reflexivity|lia]).
      set (st' := if Ascii.eqb c " " then set_cell m row j 0 else if Ascii.eqb c "*" then set_cell m row j 1 else m).
      set (i0 := if Ascii.eqb c "I" then [(Z.of_nat row, Z.of_nat j)] else []).
      set (g0 := if Ascii.eqb c "G" then [(Z.of_nat row, Z.of_nat j)] else []).
      assert (E : (if Ascii.eqb c " " then Ok (set_cell m row j 0, init, goal)
                   else if Ascii.eqb c "*" then Ok (set_cell m row j 1, init, goal)
                   else if Ascii.eqb c "I" then Ok (m, init ++ [(Z.of_nat row, Z.of_nat j)], goal)
                   else if Ascii.eqb c "G" then Ok (m, init, goal ++ [(Z.of_nat row, Z.of_nat j)])
                   else Err "ValueError") = Ok (st', init ++ i0, goal ++ g0)).
      { unfold st', i0, g0. clear -Vc. destruct Vc as [<-|[<-|[<-|[<-|[]]]]]; cbn; rewrite ?app_nil_r; reflexivity. }
      rewrite E. cbn [bind].
      assert (Sd : shaped st' /\ m_rows st' = m_rows m /\ m_cols st' = m_cols m).
      { unfold st'. destruct (Ascii.eqb c " "); [|destruct (Ascii.eqb c "*")]; (split; [try apply set_cell_shaped; assumption|split; reflexivity]). }
      destruct Sd as (S' & R' & C').
      assert (Cell : forall a b, cell st' a b = if Nat.eqb a row && Nat.eqb b j then value_of (Some c) (cell m a b) else cell m a b).
      { intros a b. unfold st', value_of. destruct (Ascii.eqb c " "); [apply set_cell_cell; assumption|].
        destruct (Ascii.eqb c "*"); [apply set_cell_cell; assumption|]. destruct (Nat.eqb a row && Nat.eqb b j); reflexivity. }
      destruct (IH (Datatypes.S j) st' (init ++ i0) (goal ++ g0)) as (m' & ii & gg & Q & Q1 & Q2 & Q3 & Q4 & Q5 & Q6 & Q7 & Q8); auto.
      { rewrite R'. exact R. }
      { rewrite C'. exact V'. }
      exists m', (i0 ++ ii), (g0 ++ gg). rewrite !app_assoc. split; [exact Q|]. split; [exact Q1|]. split; [congruence|]. split; [congruence|].
      split; [|split; [|split; [|split]]].
      * intros a b Hb. rewrite Q4 by lia. rewrite Cell. destruct (Nat.eqb_spec a row) as [->|N]; cbn [andb]; [|reflexivity].
        destruct (Nat.leb_spec (Datatypes.S j) b) as [B1|B1]; destruct (Nat.leb_spec j b) as [B2|B2]; try lia.
        -- destruct (Nat.eqb_spec b j); [lia|]. replace (b - j)%nat with (Datatypes.S (b - Datatypes.S j)) by lia. reflexivity.
        -- assert (b = j) by lia. subst b. rewrite Nat.eqb_refl, Nat.sub_diag. reflexivity.
        -- destruct (Nat.eqb_spec b j); [lia|reflexivity].
      * intro k. rewrite in_app_iff, Q5. rewrite C'. split.
        -- intros [H|(b & -> & Hb & Hl)]; [|exists (Datatypes.S b); split; [f_equal; f_equal; lia|split; [exact Hb|lia]]].
           unfold i0 in H. destruct (Ascii.eqb_spec c "I") as [->|]; [|destruct H]. destruct H as [<-|[]].
           exists 0%nat. split; [f_equal; f_equal; lia|split; [reflexivity|lia]].
        -- intros ([|b] & -> & Hb & Hl).
           ++ left. cbn in Hb. injection Hb as ->. unfold i0. cbn. left. f_equal. f_equal. lia.
           ++ right. exists b. split; [f_equal; f_equal; lia|split; [exact Hb|lia]].
      * intro k. rewrite in_app_iff, Q6. rewrite C'. split.
        -- intros [H|(b & -> & Hb & Hl)]; [|exists (Datatypes.S b); split; [f_equal; f_equal; lia|split; [exact Hb|lia]]].
           unfold g0 in H. destruct (Ascii.eqb_spec c "G") as [->|]; [|destruct H]. destruct H as [<-|[]].
           exists 0%nat. split; [f_equal; f_equal; lia|split; [reflexivity|lia]].
        -- intros ([|b] & -> & Hb & Hl).
           ++ left. cbn in Hb. injection Hb as ->. unfold g0. cbn. left. f_equal. f_equal. lia.
           ++ right. exists b. split; [f_equal; f_equal; lia|split; [exact Hb|lia]].
      * unfold i0. destruct (Ascii.eqb c "I"); [|exact Q7]. apply row_major_app; [repeat constructor|exact Q7|].
        intros x y [<-|[]] Hy. apply Q5 in Hy. destruct Hy as (b & -> & _). unfold before. cbn [fst snd]. lia.
      * unfold g0. destruct (Ascii.eqb c "G"); [|exact Q8]. apply row_major_app; [repeat constructor|exact Q8|].
        intros x y [<-|[]] Hy. apply Q6 in Hy. destruct Hy as (b & -> & _). unfold before. cbn [fst snd]. lia.
Qed.
Lemma load_row_err : forall row line j m init goal, (exists b c, nth_error line b = Some c /\ (j + b < m_cols m)%nat /\ ~ In c symbols) ->
  load_row row j line (m, init, goal) = Err "ValueError".
Proof.
  intros row line. induction line as [|c line IH]; intros j m init goal (b & x & Hb & Hl & N).
  - destruct b; discriminate Hb.
  - cbn [load_row]. destruct (Nat.leb_spec (m_cols m) j) as [L|L]; [lia|]. destruct b as [|b].
    + cbn in Hb. injection Hb as ->. destruct (Ascii.eqb_spec x " ") as [->|]; [exfalso; apply N; cbn; auto|].
      destruct (Ascii.eqb_spec x "*") as [->|]; [exfalso; apply N; cbn; auto|]. destruct (Ascii.eqb_spec x "I") as [->|]; [exfalso; apply N; cbn; auto|].
      destruct (Ascii.eqb_spec x "G") as [->|]; [exfalso; apply N; cbn; auto|]. reflexivity.
    + cbn in Hb.
      assert (G : forall m' i' g', m_cols m' = m_cols m -> load_row row (Datatypes.S j) line (m', i', g') = Err "ValueError").
      { intros m' i' g' E. apply IH. exists b, x. rewrite E. split; [exact Hb|split; [lia|exact N]]. }
      destruct (Ascii.eqb c " "); [apply G; reflexivity|]. destruct (Ascii.eqb c "*"); [apply G; reflexivity|].
      destruct (Ascii.eqb c "I"); [apply G; reflexivity|]. destruct (Ascii.eqb c "G"); [apply G; reflexivity|]. reflexivity.
Qed.

Definition line_at (body : list (list ascii)) (i j : nat) : option ascii := match nth_error body i with Some l => nth_error l j | None => None end.
Lemma load_rows_ok : forall body row m init goal, shaped m ->
  (forall i b c, line_at body i b = Some c -> (row + i < m_rows m)%nat -> (b < m_cols m)%nat -> In c symbols) ->
  exists m' ii gg, load_rows row body (m, init, goal) = Ok (m', init ++ ii, goal ++ gg) /\
    shaped m' /\ m_rows m' = m_rows m /\ m_cols m' = m_cols m /\
    (forall a b, (a < m_rows m)%nat -> (b < m_cols m)%nat -> cell m' a b = if Nat.leb row a then value_of (line_at body (a - row) b) (cell m a b) else cell m a b) /\
    (forall k, In k ii <-> exists i b, k = (Z.of_nat (row + i), Z.of_nat b) /\ line_at body i b = Some "I"%char /\ (row + i < m_rows m)%nat /\ (b < m_cols m)%nat) /\
    (forall k, In k gg <-> exists i b, k = (Z.of_nat (row + i), Z.of_nat b) /\ line_at body i b = Some "G"%char /\ (row + i < m_rows m)%nat /\ (b < m_cols m)%nat) /\
    row_major ii /\ row_major gg.
Proof.
  induction body as [|line body IH]; intros row m init goal S V.
  - exists m, [], []. rewrite !app_nil_r. split; [reflexivity|]. split; [exact S|]. split; [reflexivity|]. split; [reflexivity|]. split.
    { intros a b _ _. unfold line_at. destruct (Nat.leb row a); [|reflexivity]. destruct (a - row)%nat; reflexivity. }
    split; [intro k; split; [intros []|intros ([|i] & b & _ & H & _); discriminate H]|].
    split; [intro k; split; [intros []|intros ([|i] & b & _ & H & _); discriminate H]|]. split; constructor.
  - cbn [load_rows fst]. destruct (Nat.leb_spec (m_rows m) row) as [L|L].
    + exists m, [], []. rewrite !app_nil_r. split; [reflexivity|]. split; [exact S|]. split; [reflexivity|]. split; [reflexivity|]. split.
      { intros a b Ha Hb. destruct (Nat.leb_spec row a); [lia|reflexivity]. }
      split; [intro k; split; [intros []|intros (i & b & _ & _ & H & _); lia]|].
      split; [intro k; split; [intros []|intros (i & b & _ & _ & H & _); lia]|]. split; constructor.
    + destruct (load_row_ok row line 0 m init goal S L) as (m1 & i1 & g1 & P & P1 & P2 & P3 & P4 & P5 & P6 & P7 & P8).
      { intros b c Hb Hl. apply (V 0%nat b c); [exact Hb|lia|exact Hl]. }
      rewrite P. cbn [bind].
      destruct (IH (Datatypes.S row) m1 (init ++ i1) (goal ++ g1) P1) as (m' & ii & gg & Q & Q1 & Q2 & Q3 & Q4 & Q5 & Q6 & Q7 & Q8).
      { intros i b c Hc Hi Hb. apply (V (Datatypes.S i) b c); [exact Hc|lia|lia]. }
      exists m', (i1 ++ ii), (g1 ++ gg). rewrite !app_assoc. split; [exact Q|]. split; [exact Q1|]. split; [congruence|]. split; [congruence|].
      split; [|split; [|split; [|split]]].
      * intros a b Ha Hb. rewrite Q4 by lia. rewrite P4 by lia. change (Nat.leb 0 b) with true. rewrite andb_true_r, Nat.sub_0_r.
        destruct (Nat.leb_spec (Datatypes.S row) a) as [A1|A1]; destruct (Nat.leb_spec row a) as [A2|A2]; try lia.
        -- destruct (Nat.eqb_spec a row); [lia|]. replace (a - row)%nat with (Datatypes.S (a - Datatypes.S row)) by lia. reflexivity.
        -- assert (a = row) by lia. subst a. rewrite Nat.eqb_refl, Nat.sub_diag. reflexivity.
        -- destruct (Nat.eqb_spec a row); [lia|reflexivity].
      * intro k. rewrite in_app_iff, P5, Q5, P2, P3. split.
        -- intros [(b & -> & Hb & Hl)|(i & b & -> & Hb & Hl)].
           ++ exists 0%nat, b. split; [f_equal; f_equal; lia|split; [exact Hb|lia]].
           ++ exists (Datatypes.S i), b. split; [f_equal; f_equal; lia|split; [exact Hb|lia]].
        -- intros ([|i] & b & -> & Hb & Hl).
           ++ left. exists b. split; [f_equal; f_equal; lia|split; [exact Hb|lia]].
           ++ right. exists i, b. split; [f_equal; f_equal; lia|split; [exact Hb|lia]].
      * intro k. rewrite in_app_iff, P6, Q6, P2, P3. split.
        -- intros [(b & -> & Hb & Hl)|(i & b & -> & Hb & Hl)].
           ++ exists 0%nat, b. split; [f_equal; f_equal; lia|split; [exact Hb|lia]].
           ++ exists (Datatypes.S i), b. split; [f_equal; f_equal; lia|split; [exact Hb|lia]].
        -- intros ([|i] & b & -> & Hb & Hl).
           ++ left. exists b. split; [f_equal; f_equal; lia|split; [exact Hb|lia]].
           ++ right. exists i, b. split; [f_equal; f_equal; lia|split; [exact Hb|lia]].
      * apply row_major_app; [exact P7|exact Q7|]. intros x y Hx Hy. apply P5 in Hx. apply Q5 in Hy.
        destruct Hx as (b & -> & _). destruct Hy as (i & b' & -> & _). unfold before. cbn [fst snd]. lia.
      * apply row_major_app; [exact P8|exact Q8|]. intros x y Hx Hy. apply P6 in Hx. apply Q6 in Hy.
        destruct Hx as (b & -> & _). destruct Hy as (i & b' & -> & _). unfold before. cbn [fst snd]. lia.
Qed.
Lemma load_rows_err : forall body row m init goal, shaped m ->
  (exists i b c, line_at body i b = Some c /\ (row + i < m_rows m)%nat /\ (b < m_cols m)%nat /\ ~ In c symbols) ->
  load_rows row body (m, init, goal) = Err "ValueError".
Proof.
  induction body as [|line body IH]; intros row m init goal S (i & b & c & Hc & Hi & Hb & N).
  - destruct i; discriminate Hc.
  - cbn [load_rows fst]. destruct (Nat.leb_spec (m_rows m) row) as [L|L]; [lia|].
    assert (D : (exists b c, nth_error line b = Some c /\ (0 + b < m_cols m)%nat /\ ~ In c symbols) \/
                (forall b c, nth_error line b = Some c -> (0 + b < m_cols m)%nat -> In c symbols)).
    { clear. generalize (0)%nat. induction line as [|x line IHl]; intro j; [right; intros [|b] c H; discriminate H|].
      destruct (in_dec ascii_dec x symbols) as [I|I].
      - destruct (IHl (Datatypes.S j)) as [(b & c & A & B & C)|A].
        + left. exists (Datatypes.S b), c. split; [exact A|split; [lia|exact C]].
        + right. intros [|b] c H Hl; [cbn in H; congruence|]. apply (A b c); [exact H|lia].
      - destruct (le_lt_dec (m_cols m) j) as [Q|Q].
        + right. intros b c _ Hl. lia.
        + left. exists 0%nat, x. split; [reflexivity|split; [lia|exact I]]. }
    destruct D as [D|D]; [rewrite load_row_err by exact D; reflexivity|].
    destruct (load_row_ok row line 0 m init goal S L D) as (m1 & i1 & g1 & P & P1 & P2 & P3 & _).
    rewrite P. cbn [bind]. apply IH; [exact P1|]. destruct i as [|i].
    + exfalso. apply N. apply (D b c); [exact Hc|exact Hb].
    + exists i, b, c. split; [exact Hc|]. split; [lia|]. split; [lia|exact N].
Qed.

Lemma at_line_nat : forall body i j, at_line body (Z.of_nat i) (Z.of_nat j) = line_at body i j.
Proof.
  intros body i j. unfold at_line, line_at. destruct (Z.ltb_spec (Z.of_nat i) 0); [lia|]. destruct (Z.ltb_spec (Z.of_nat j) 0); [lia|].
  cbn [orb]. rewrite !Nat2Z.id. reflexivity.
Qed.
(** What [loads] makes of a size and lines: rows and characters beyond the size do not matter, missing
    ones are empty cells; any other character inside raises. *)
Theorem loads_spec : forall r c body, Forall one_line body ->
  let inside i j := (0 <= i < Z.of_nat r /\ 0 <= j < Z.of_nat c)%Z in
  let legal := forall i j x, inside i j -> at_line body i j = Some x -> In x symbols in
  (legal -> exists g n, loads (text (description r c body)) = Ok g /\ w_W g = Some n /\ shaped n /\ m_rows n = r /\ m_cols n = c /\
     w_prefix g = "Y" /\ w_offset g = (0, 0)%Z /\
     (forall i j, inside i j -> view n i j = Some (match at_line body i j with Some "*"%char => 1 | _ => 0 end)%Z) /\
     (forall i j, In (i, j) (w_init g) <-> inside i j /\ at_line body i j = Some "I"%char) /\
     (forall i j, In (i, j) (w_goal g) <-> inside i j /\ at_line body i j = Some "G"%char) /\
     row_major (w_init g) /\ row_major (w_goal g)) /\
  ((exists i j x, inside i j /\ at_line body i j = Some x /\ ~ In x symbols) -> loads (text (description r c body)) = Err "ValueError").
Proof.
  intros r c body H inside legal. unfold loads, text. rewrite list_ascii_of_string_of_list_ascii, load_description by exact H. split.
  - intro V. destruct (load_rows_ok body 0 (tab r c (fun _ _ => 0%Z)) [] [] (tab_shaped _ _ _)) as (m' & ii & gg & Q & Q1 & Q2 & Q3 & Q4 & Q5 & Q6 & Q7 & Q8).
    { cbn [m_rows m_cols tab]. intros i b x Hx Hi Hb. apply (V (Z.of_nat i) (Z.of_nat b) x); [unfold inside; lia|]. rewrite at_line_nat. exact Hx. }
    rewrite Q. cbn [bind app]. cbn [m_rows m_cols tab] in *. do 2 eexists. split; [reflexivity|]. split; [reflexivity|]. split; [exact Q1|].
    split; [exact Q2|]. split; [exact Q3|]. split; [reflexivity|]. split; [reflexivity|]. cbn [w_init w_goal]. split; [|split; [|split; [|split]]]; auto.
    + intros i j [Hi Hj]. rewrite view_at by (auto; lia). rewrite Q4 by lia. cbn [Nat.leb]. rewrite Nat.sub_0_r.
      rewrite tab_cell by lia. rewrite <- at_line_nat, !Z2Nat.id by lia. f_equal. unfold value_of.
      destruct (at_line body i j) as [x|] eqn:E; [|reflexivity].
      specialize (V i j x (conj Hi Hj) E). destruct V as [<-|[<-|[<-|[<-|[]]]]]; reflexivity.
    + intros i j. rewrite Q5. split.
      * intros (a & b & [= -> ->] & Hb & Ha & Hl). rewrite at_line_nat. split; [unfold inside; lia|exact Hb].
      * intros [[Hi Hj] E]. exists (Z.to_nat i), (Z.to_nat j). split; [f_equal; lia|]. rewrite <- at_line_nat, !Z2Nat.id by lia. split; [exact E|lia].
    + intros i j. rewrite Q6. split.
      * intros (a & b & [= -> ->] & Hb & Ha & Hl). rewrite at_line_nat. split; [unfold inside; lia|exact Hb].
      * intros [[Hi Hj] E]. exists (Z.to_nat i), (Z.to_nat j). split; [f_equal; lia|]. rewrite <- at_line_nat, !Z2Nat.id by lia. split; [exact E|lia].
  - intros (i & j & x & [Hi Hj] & E & N). rewrite load_rows_err; [reflexivity|apply tab_shaped|]. cbn [m_rows m_cols tab].
    exists (Z.to_nat i), (Z.to_nat j), x. rewrite <- at_line_nat, !Z2Nat.id by lia. split; [exact E|]. split; [lia|]. split; [lia|exact N].
Qed.

(** ** Writing *)
Definition sym (w : world) (m : mat) (i j : nat) : ascii :=
  if Z.eqb (cell m i j) 0 then if ij_mem (Z.of_nat i, Z.of_nat j) (w_init w) then "I" else if ij_mem (Z.of_nat i, Z.of_nat j) (w_goal w) then "G" else " "
  else "*".
Definition body_of (w : world) (m : mat) : list (list ascii) := map (fun i => map (sym w m i) (List.seq 0 (m_cols m))) (List.seq 0 (m_rows m)).
Lemma mapr_text : forall (f : nat -> res string) (g : nat -> ascii) l, (forall x, In x l -> f x = Ok (String (g x) EmptyString)) ->
  mapr f l = Ok (map (fun x => String (g x) EmptyString) l).
Proof.
  intros f g l H. induction l as [|x l IH]; [reflexivity|]. cbn. rewrite (H x) by (left; reflexivity). cbn [bind].
  rewrite IH by (intros y Hy; apply H; right; exact Hy). reflexivity.
Qed.
Lemma concat_cons : forall x l, String.concat "" (x :: l) = (x ++ String.concat "" l)%string.
Proof. intros x [|y l]; [|reflexivity]. cbn. induction x as [|c x IH]; [reflexivity|]. cbn. rewrite <- IH. reflexivity. Qed.
Lemma concat_chars : forall (g : nat -> ascii) l, String.concat "" (map (fun x => String (g x) EmptyString) l) = text (map g l).
Proof. intros g l. induction l as [|x l IH]; [reflexivity|]. cbn [map]. rewrite concat_cons, IH. reflexivity. Qed.
Lemma concat_lines : forall ls, String.concat "" (map (fun l => (text l ++ newline)%string) ls) = text (flat_map (fun l => l ++ [nl]) ls).
Proof. intro ls. induction ls as [|l ls IH]; [reflexivity|]. cbn [flat_map map]. rewrite concat_cons, IH, !text_app. reflexivity. Qed.
Lemma mapr_lines : forall (f : nat -> res string) (g : nat -> string) l, (forall x, In x l -> f x = Ok (g x)) -> mapr f l = Ok (map g l).
Proof.
  intros f g l H. induction l as [|x l IH]; [reflexivity|]. cbn. rewrite (H x) by (left; reflexivity). cbn [bind].
  rewrite IH by (intros y Hy; apply H; right; exact Hy). reflexivity.
Qed.
(** Every cell is empty or occupied. *)
Definition binary (m : mat) : Prop := forall i j v, view m i j = Some v -> v = 0%Z \/ v = 1%Z.
Lemma dumps_text : forall w m, w_W w = Some m -> shaped m -> binary m -> dumps "" w = Ok (text (description (m_rows m) (m_cols m) (body_of w m))).
Proof.
  intros w m W S B. unfold dumps. rewrite W.
  rewrite (mapr_lines _ (fun i => (text (map (sym w m i) (List.seq 0 (m_cols m))) ++ newline)%string)).
  2:{ intros i Hi. apply in_seq in Hi. rewrite (mapr_text _ (sym w m i)).
      - cbn [bind]. rewrite concat_chars. reflexivity.
      - intros j Hj. apply in_seq in Hj. unfold symbol, sym. specialize (B _ _ _ (view_cell m i j S ltac:(lia) ltac:(lia))).
        destruct B as [-> | ->]; [|reflexivity]. cbn [Z.eqb]. destruct (ij_mem _ (w_init w)); [reflexivity|]. destruct (ij_mem _ (w_goal w)); reflexivity. }
  cbn [bind]. f_equal. unfold description, body_of.
  rewrite text_app. cbn [append]. f_equal; [unfold text; rewrite string_of_list_ascii_of_string; reflexivity|].
  match goal with |- context [text (" "%char :: ?l)] => change (text (" "%char :: l)) with (String " " (text l)) end.
  rewrite text_app. f_equal. f_equal; [unfold text; rewrite string_of_list_ascii_of_string; reflexivity|].
  match goal with |- context [text (nl :: ?l)] => change (text (nl :: l)) with (newline ++ text l)%string end.
  rewrite <- concat_lines, map_map. reflexivity.
Qed.
(** Another cell value cannot be written. *)
Theorem dumps_err : forall p w m i j v, w_W w = Some m -> shaped m -> view m i j = Some v -> v <> 0%Z -> v <> 1%Z -> dumps p w = Err "ValueError".
Proof.
  intros p w m i j v W S V N0 N1. unfold dumps. rewrite W.
  assert (G : forall (f : nat -> res string) l x, In x l -> f x = Err "ValueError" -> (forall y e, f y = Err e -> e = "ValueError") -> mapr f l = Err "ValueError").
  { clear. intros f l x Hx Fx Fe. induction l as [|y l IH]; [destruct Hx|]. cbn. destruct (f y) as [s|e] eqn:E; cbn [bind].
    - destruct Hx as [->|Hx]; [congruence|]. rewrite (IH Hx). reflexivity.
    - rewrite (Fe y e E). reflexivity. }
  assert (G' : forall (f : nat -> res string) l e, mapr f l = Err e -> (forall y e, f y = Err e -> e = "ValueError") -> e = "ValueError").
  { clear. intros f l. induction l as [|y l IH]; cbn; intros e H Fe; [discriminate|]. destruct (f y) as [s|e'] eqn:E; cbn [bind] in H.
    - destruct (mapr f l) as [ss|e'] eqn:E'; cbn [bind] in H; [discriminate|]. injection H as <-. apply IH; [reflexivity|exact Fe].
    - injection H as <-. apply (Fe y). exact E. }
  assert (Sy : forall a y e, symbol w m a y = Err e -> e = "ValueError").
  { intros a y e. unfold symbol. destruct (Z.eqb (cell m a y) 0); [discriminate|]. destruct (Z.eqb (cell m a y) 1); [discriminate|]. intros [= <-]. reflexivity. }
  pose proof (view_inside _ _ _ _ S V) as [Ri Rj]. rewrite view_at in V by assumption. injection V as V.
  rewrite (G _ _ (Z.to_nat i)); [reflexivity| | |].
  - apply in_seq. lia.
  - rewrite (G _ _ (Z.to_nat j)); [reflexivity|apply in_seq; lia| |apply Sy]. unfold symbol. rewrite V.
    destruct (Z.eqb_spec v 0); [contradiction|]. destruct (Z.eqb_spec v 1); [contradiction|]. reflexivity.
  - intros a e H. destruct (mapr (symbol w m a) (List.seq 0 (m_cols m))) as [ss|e'] eqn:E; cbn [bind] in H; [discriminate|].
    injection H as <-. apply (G' _ _ _ E). apply Sy.
Qed.

(** ** C48: reading back what was written *)
Lemma list_ext : forall (A : Type) (d : A) a b, length a = length b -> (forall i, (i < length a)%nat -> nth i a d = nth i b d) -> a = b.
Proof.
  intros A d a. induction a as [|x a IH]; intros [|y b] L H; cbn in L; try discriminate; [reflexivity|].
  f_equal; [apply (H 0%nat); cbn; lia|]. apply IH; [lia|]. intros i Hi. apply (H (Datatypes.S i)). cbn. lia.
Qed.
Lemma mat_ext : forall m n, shaped m -> shaped n -> m_rows m = m_rows n -> m_cols m = m_cols n -> (forall i j, view m i j = view n i j) -> m = n.
Proof.
  intros m n Sm Sn R C V. destruct m as [r c a], n as [r' c' b]. cbn in *. subst r' c'. f_equal.
  destruct Sm as [Lm Fm]. destruct Sn as [Ln Fn]. cbn in *. apply (list_ext _ []); [congruence|]. intros i Hi. rewrite Forall_forall in Fm, Fn.
  assert (La : length (nth i a []) = c) by (apply Fm, nth_In; exact Hi).
  assert (Lb : length (nth i b []) = c) by (apply Fn, nth_In; lia).
  apply (list_ext _ 0%Z); [congruence|]. intros j Hj.
  specialize (V (Z.of_nat i) (Z.of_nat j)). rewrite !view_cell in V by (try (split; [assumption|apply Forall_forall; assumption]); cbn; lia).
  injection V as V. exact V.
Qed.
Lemma body_at : forall w m i j, (i < m_rows m)%nat -> (j < m_cols m)%nat -> line_at (body_of w m) i j = Some (sym w m i j).
Proof.
  intros w m i j Hi Hj. unfold line_at, body_of.
  assert (G : forall (A : Type) (f : nat -> A) n k, (k < n)%nat -> nth_error (map f (List.seq 0 n)) k = Some (f k)).
  { intros A f n k H. rewrite nth_error_map. replace (nth_error (List.seq 0 n) k) with (Some k); [reflexivity|]. symmetry.
    rewrite (nth_error_nth' _ 0%nat) by (rewrite seq_length; exact H). rewrite seq_nth by exact H. reflexivity. }
  rewrite G by exact Hi. apply G. exact Hj.
Qed.
Lemma body_lines : forall w m, Forall one_line (body_of w m).
Proof.
  intros w m. apply Forall_forall. intros l H. apply in_map_iff in H. destruct H as (i & <- & _). intros c Hc. apply in_map_iff in Hc. destruct Hc as (j & <- & _).
  unfold sym. destruct (Z.eqb (cell m i j) 0); [|reflexivity]. destruct (ij_mem _ _); [reflexivity|]. destruct (ij_mem _ _); reflexivity.
Qed.
(** Any binary grid comes back; so do the free initial cells, and the free goals that are not
    initial as well, both in row-major order. *)
Theorem loads_dumps : forall w m, w_W w = Some m -> shaped m -> binary m ->
  exists s g, dumps "" w = Ok s /\ loads s = Ok g /\ w_W g = Some m /\
    (forall k, In k (w_init g) <-> In k (w_init w) /\ free (view m) k) /\
    (forall k, In k (w_goal g) <-> In k (w_goal w) /\ free (view m) k /\ ~ In k (w_init w)) /\
    row_major (w_init g) /\ row_major (w_goal g).
Proof.
  intros w m W S B. pose proof (dumps_text w m W S B) as D.
  assert (At : forall i j, (0 <= i < Z.of_nat (m_rows m) /\ 0 <= j < Z.of_nat (m_cols m))%Z ->
    at_line (body_of w m) i j = Some (sym w m (Z.to_nat i) (Z.to_nat j))).
  { intros i j [Hi Hj]. rewrite <- (body_at w m) by lia. rewrite <- at_line_nat, !Z2Nat.id by lia. reflexivity. }
  assert (V : forall i j, (0 <= i < Z.of_nat (m_rows m) /\ 0 <= j < Z.of_nat (m_cols m))%Z -> view m i j = Some (cell m (Z.to_nat i) (Z.to_nat j))).
  { intros i j [Hi Hj]. apply view_at; assumption. }
  destruct (loads_spec (m_rows m) (m_cols m) (body_of w m) (body_lines w m)) as [L _].
  destruct L as (g & n & Lg & Wn & Sn & Rn & Cn & _ & _ & Vn & In_ & Gn & Si & Sg).
  { intros i j x H E. rewrite At in E by exact H. injection E as <-. unfold sym. destruct (Z.eqb _ 0); [|cbn; auto]. destruct (ij_mem _ _); [cbn; auto|]. destruct (ij_mem _ _); cbn; auto. }
  exists (text (description (m_rows m) (m_cols m) (body_of w m))), g. split; [exact D|]. split; [exact Lg|]. split; [|split; [|split; [|split]]]; auto.
  - rewrite Wn. f_equal. symmetry. apply mat_ext; auto. intros i j.
    destruct (Z_le_dec 0 i) as [I1|I1]; [destruct (Z_lt_dec i (Z.of_nat (m_rows m))) as [I2|I2]; [destruct (Z_le_dec 0 j) as [J1|J1]; [destruct (Z_lt_dec j (Z.of_nat (m_cols m))) as [J2|J2]|]|]|].
    2-5: rewrite !view_outside; auto; rewrite ?Rn, ?Cn; lia.
    rewrite Vn by lia. rewrite At by lia. pose proof (V i j ltac:(lia)) as Vc. rewrite Vc. apply B in Vc. unfold sym.
    destruct Vc as [-> | ->]; [|reflexivity]. cbn [Z.eqb]. destruct (ij_mem _ (w_init w)); [reflexivity|]. destruct (ij_mem _ (w_goal w)); reflexivity.
  - intros [i j]. rewrite In_. unfold free. cbn [fst snd]. split.
    + intros [H E]. rewrite At in E by exact H. injection E as E. unfold sym in E. rewrite V by exact H.
      destruct (Z.eqb_spec (cell m (Z.to_nat i) (Z.to_nat j)) 0) as [Z0|]; [|discriminate E].
      rewrite !Z2Nat.id in E by lia. destruct (ij_mem (i, j) (w_init w)) eqn:M.
      * apply ij_mem_In in M. rewrite Z0. auto.
      * destruct (ij_mem (i, j) (w_goal w)); discriminate E.
    + intros [M F]. assert (H := view_inside _ _ _ _ S F). split; [exact H|]. rewrite At by exact H. rewrite V in F by exact H. injection F as F.
      unfold sym. rewrite F. cbn [Z.eqb]. rewrite !Z2Nat.id by lia. apply ij_mem_In in M. rewrite M. reflexivity.
  - intros [i j]. rewrite Gn. unfold free. cbn [fst snd]. split.
    + intros [H E]. rewrite At in E by exact H. injection E as E. unfold sym in E. rewrite V by exact H.
      destruct (Z.eqb_spec (cell m (Z.to_nat i) (Z.to_nat j)) 0) as [Z0|]; [|discriminate E].
      rewrite !Z2Nat.id in E by lia. destruct (ij_mem (i, j) (w_init w)) eqn:M; [discriminate E|]. apply ij_mem_not in M.
      destruct (ij_mem (i, j) (w_goal w)) eqn:M'; [|discriminate E]. apply ij_mem_In in M'. rewrite Z0. auto.
    + intros (M & F & NI). assert (H := view_inside _ _ _ _ S F). split; [exact H|]. rewrite At by exact H. rewrite V in F by exact H. injection F as F.
      unfold sym. rewrite F. cbn [Z.eqb]. rewrite !Z2Nat.id by lia. apply ij_mem_not in NI. rewrite NI. apply ij_mem_In in M. rewrite M. reflexivity.
Qed.
(** C48 for worlds whose initial cells and goals are free and have no cell in common: the copy has
    the same cells, initial cells and goals. *)
Theorem copy_partial : forall w m, w_W w = Some m -> shaped m -> binary m ->
  (forall k, In k (w_init w) \/ In k (w_goal w) -> free (view m) k) -> (forall k, In k (w_init w) -> ~ In k (w_goal w)) ->
  exists c, copy w = Ok c /\ w_W c = w_W w /\ w_prefix c = w_prefix w /\
    (forall k, In k (w_init c) <-> In k (w_init w)) /\ (forall k, In k (w_goal c) <-> In k (w_goal w)) /\
    (row_major (w_init w) -> row_major (w_goal w) -> w_init c = w_init w /\ w_goal c = w_goal w).
Proof.
  intros w m W S B F D. destruct (loads_dumps w m W S B) as (s & g & Ds & Lg & Wg & Ig & Gg & Si & Sg).
  exists (World (w_W g) (w_init g) (w_goal g) (w_prefix w) (0, 0)%Z). unfold copy. rewrite Ds. cbn [bind]. rewrite Lg. cbn [bind].
  split; [reflexivity|]. cbn [w_W w_prefix w_init w_goal]. split; [congruence|]. split; [reflexivity|].
  assert (I : forall k, In k (w_init g) <-> In k (w_init w)) by (intro k; rewrite Ig; split; [tauto|auto]).
  assert (G : forall k, In k (w_goal g) <-> In k (w_goal w)).
  { intro k. rewrite Gg. split; [tauto|]. intro H. split; [exact H|]. split; [auto|]. intro X. exact (D k X H). }
  split; [exact I|]. split; [exact G|]. intros Ri Rg. split; apply row_major_unique; auto.
Qed.
(** Without those conditions the copy differs: an initial cell that is a goal too is not a goal of the
    copy, and an initial cell inside a wall is dropped. *)
Theorem copy_refuted :
  (exists w m c, w_W w = Some m /\ shaped m /\ binary m /\ copy w = Ok c /\ w_goal w = [(0, 0)]%Z /\ w_goal c = []) /\
  (exists w m c, w_W w = Some m /\ shaped m /\ binary m /\ copy w = Ok c /\ w_init w = [(0, 0)]%Z /\ w_init c = []).
Proof.
  assert (B : forall v, v = 0%Z \/ v = 1%Z -> binary (tab 1 1 (fun _ _ => v))).
  { intros v Hv i j x H. pose proof (view_inside _ _ _ _ (tab_shaped 1 1 _) H) as [Hi Hj]. cbn [m_rows m_cols tab] in *. rewrite tab_view in H by assumption.
    injection H as <-. exact Hv. }
  split.
  - exists (World (Some (tab 1 1 (fun _ _ => 0%Z))) [(0, 0)]%Z [(0, 0)]%Z "Y" (0, 0)%Z). do 2 eexists. split; [reflexivity|]. split; [apply tab_shaped|].
    split; [apply B; auto|]. split; [vm_compute; reflexivity|]. split; reflexivity.
  - exists (World (Some (tab 1 1 (fun _ _ => 1%Z))) [(0, 0)]%Z [(0, 0)]%Z "Y" (0, 0)%Z). do 2 eexists. split; [reflexivity|]. split; [apply tab_shaped|].
    split; [apply B; auto|]. split; [vm_compute; reflexivity|]. split; reflexivity.
Qed.

Definition hash_line : list ascii := list_ascii_of_string "  # a comment".
Example text_cases :
  dumps "" small = Ok ("2 3" ++ newline ++ "I* " ++ newline ++ " G*" ++ newline)%string /\
  (exists g, loads ("# c" ++ newline ++ newline ++ " 2 3 junk" ++ newline ++ "I* beyond" ++ newline ++ " G")%string = Ok g /\
     w_W g = Some (Mat 2 3 [[0; 1; 0]; [0; 0; 0]]%Z) /\ w_init g = [(0, 0)]%Z /\ w_goal g = [(1, 1)]%Z) /\
  loads ("1 1" ++ newline ++ "x")%string = Err "ValueError" /\ loads "" = Err "ValueError" /\ loads "3" = Err "IndexError" /\
  words [] hash_line <> [].
Proof.
  split; [vm_compute; reflexivity|]. split; [eexists; split; [vm_compute; reflexivity|repeat split]|]. repeat split; try (vm_compute; reflexivity). discriminate.
Qed.
(** C59: after marking, the marked cell has the new state and every other cell its old one. *)
Theorem mark_is_empty : forall (occupy : bool) w m k, w_W w = Some m -> shaped m -> within (fst k) (m_rows m) -> within (snd k) (m_cols m) ->
  exists w', (if occupy then mark_occupied k w else mark_empty k w) = Ok w' /\ is_empty w' k false = Ok (negb occupy) /\
    w_init w' = w_init w /\ w_goal w' = w_goal w /\ w_prefix w' = w_prefix w /\
    forall k', (wrapped (fst k') (m_rows m), wrapped (snd k') (m_cols m)) <> (wrapped (fst k) (m_rows m), wrapped (snd k) (m_cols m)) -> is_empty w' k' false = is_empty w k' false.
Proof.
  intros occupy w m k W S A B. destruct (mark_spec (if occupy then 1 else 0)%Z w m k W S A B) as (w' & m' & E & W' & S' & R & C & I & G & P & V & O).
  exists w'. split; [destruct occupy; exact E|]. split; [|split; [exact I|split; [exact G|split; [exact P|]]]].
  - destruct (is_empty_spec w' m' k W' S') as (H & _). rewrite R, C in H. destruct (H A B) as (b & -> & Hb). f_equal. unfold free in Hb. cbn [fst snd] in Hb. rewrite V in Hb.
    destruct occupy; cbn [negb]; [|apply Hb; reflexivity]. destruct b; [|reflexivity]. discriminate (proj1 Hb eq_refl).
  - intros k' N. destruct (is_empty_spec w' m' k' W' S') as (H1 & H2 & _). destruct (is_empty_spec w m k' W S) as (G1 & G2 & _). rewrite R, C in H1, H2.
    assert (D : (within (fst k') (m_rows m) /\ within (snd k') (m_cols m)) \/ ~ (within (fst k') (m_rows m) /\ within (snd k') (m_cols m))).
    { unfold within. destruct (Z_le_dec (- Z.of_nat (m_rows m)) (fst k')), (Z_lt_dec (fst k') (Z.of_nat (m_rows m))), (Z_le_dec (- Z.of_nat (m_cols m)) (snd k')), (Z_lt_dec (snd k') (Z.of_nat (m_cols m))); (left; lia) || (right; lia). }
    destruct D as [[D1 D2]|D]; [|rewrite (H2 D), (G2 D); reflexivity].
    destruct (H1 D1 D2) as (b & -> & Hb). destruct (G1 D1 D2) as (c & -> & Hc). f_equal. unfold free in Hb, Hc. cbn [fst snd] in Hb, Hc. rewrite O in Hb by exact N.
    destruct b, c; try reflexivity; [symmetry|]; [apply Hc, Hb; reflexivity|apply Hb, Hc; reflexivity].
Qed.
Example mark_case : exists w', mark_occupied (-1, 0)%Z (World (Some (Mat 2 2 [[0; 0]; [0; 0]]%Z)) [] [] "Y" (0, 0)%Z) = Ok w' /\ w_W w' = Some (Mat 2 2 [[0; 0]; [1; 0]]%Z).
Proof. eexists. split; reflexivity. Qed.

Print Assumptions mark_is_empty.
Print Assumptions loads_skip.
Print Assumptions mark_spec.
Print Assumptions loads_spec.
Print Assumptions dumps_err.
Print Assumptions loads_dumps.
Print Assumptions copy_partial.
Print Assumptions copy_refuted.
