(** C47: the specification of a gridworld has exactly the legal walks. *)
From Coq Require Import String Ascii List Bool Arith ZArith Lia Permutation.
From Verif Require Import M_Base M_Ast M_Lexer M_Parser M_Tree M_Gr1c M_Spec S_LTL S_Gr1 S_Syntax.
From Verif Require L_Tree.
From Verif Require Import L_Lexer L_Parser L_Template L_Gr1 L_RoundTrip L_Text L_Den M_Synth S_Synth L_Synth L_Dec.
From Verif Require Import M_Machine M_Grid M_GridSpec S_Grid T_Reach T_Grid T_GridText.
Import ListNotations.
Open Scope string_scope.
Open Scope list_scope.

(** The side of the specification that describes the world. *)
Definition side_vars (c : bool) (g : grspec) := if c then sys_vars g else env_vars g.
Definition side_init (c : bool) (g : grspec) := if c then sys_init g else env_init g.
Definition side_safety (c : bool) (g : grspec) := if c then sys_safety g else env_safety g.
Definition side_prog (c : bool) (g : grspec) := if c then sys_prog g else env_prog g.
(** The trace satisfies the initial condition, and the safety clauses at every step. *)
Definition init_safe (c : bool) (g : grspec) (s : trace) : Prop :=
  (forall f, In f (side_init c g) -> text_true s 0 f) /\ (forall i f, In f (side_safety c g) -> text_true s i f).
Definition norm (m : mat) (k : Z * Z) : Z * Z := (wrapped (fst k) (m_rows m), wrapped (snd k) (m_cols m)).
Definition in_range (m : mat) (k : Z * Z) : Prop := within (fst k) (m_rows m) /\ within (snd k) (m_cols m).

(** ** Texts *)
Lemma den_true : forall t P s i, den t P -> (text_true s i t <-> P s i).
Proof. intros t P s i (_ & e & H & M). unfold text_true. rewrite H. apply M. Qed.
Lemma dens_true : forall ts Q s i, dens ts Q -> ((forall f, In f ts -> text_true s i f) <-> Q s i).
Proof.
  intros ts Q s i (Ps & F & E). rewrite <- E. clear E. induction F as [|t P ts Ps D F IH]; [split; [constructor|intros _ f []]|]. split.
  - intro H. constructor; [apply (den_true t P s i D), H; left; reflexivity|]. apply IH. intros f Hf. apply H. right. exact Hf.
  - intros H f [<-|Hf]; [apply (den_true t P s i D); exact (Forall_inv H)|]. refine (proj2 IH (Forall_inv_tail H) f Hf).
Qed.
Lemma mapr_ok : forall (A B : Type) (f : A -> res B) (R : A -> B -> Prop) xs, (forall x, In x xs -> exists y, f x = Ok y /\ R x y) ->
  exists ys, mapr f xs = Ok ys /\ Forall2 R xs ys.
Proof.
  intros A B f R xs. induction xs as [|x xs IH]; intro H; [exists []; split; [reflexivity|constructor]|].
  destruct (H x (or_introl eq_refl)) as (y & E & Ry). destruct IH as (ys & E' & Rs); [intros z Hz; apply H; right; exact Hz|].
  exists (y :: ys). cbn. rewrite E. cbn [bind]. rewrite E'. split; [reflexivity|constructor; assumption].
Qed.
Lemma Forall2_den : forall (A : Type) (Q : A -> tpred) xs ys, Forall2 (fun x y => den y (Q x)) xs ys -> dens ys (fun s i => forall x, In x xs -> Q x s i).
Proof.
  intros A Q xs ys H. exists (map Q xs). split.
  - clear -H. induction H; constructor; assumption.
  - intros s i. rewrite Forall_map, Forall_forall. reflexivity.
Qed.
Lemma d_join_or_list : forall (A : Type) (Q : A -> tpred) xs ys, xs <> [] -> Forall2 (fun x y => dchain 5 y (Q x)) xs ys ->
  dchain 4 (join " || " ys) (fun s i => exists x, In x xs /\ Q x s i).
Proof.
  intros A Q xs ys N H. eapply dchain_ext; [apply (d_join_or ys (map Q xs))|].
  - destruct H; [congruence|discriminate].
  - clear -H. induction H; constructor; assumption.
  - intros s i. rewrite Exists_exists. split.
    + intros (P & HP & K). apply in_map_iff in HP. destruct HP as (x & <- & Hx). eauto.
    + intros (x & Hx & K). exists (Q x). split; [apply in_map; exact Hx|exact K].
Qed.
Lemma d_join_and_list : forall (A : Type) (Q : A -> tpred) xs ys, xs <> [] -> Forall2 (fun x y => dchain 6 y (Q x)) xs ys ->
  dchain 5 (join " && " ys) (fun s i => forall x, In x xs -> Q x s i).
Proof.
  intros A Q xs ys N H. eapply dchain_ext; [apply (d_join_and ys (map Q xs))|].
  - destruct H; [congruence|discriminate].
  - clear -H. induction H; constructor; assumption.
  - intros s i. rewrite Forall_map, Forall_forall. reflexivity.
Qed.
Lemma chain_join_nl : forall s e l es, chain 5 s e -> Forall2 (chain 5) l es -> chain 4 (join nl_or (s :: l)) (fold_op OR "|" e es).
Proof.
  intros s e l es H F. apply (chain_join OR "|" nl_or); auto; try reflexivity.
  - unfold nl_or. cbn. unfold L_Lexer.delim. auto 6.
  - eapply chain_mono; [|eauto]. simpl; lia.
Qed.
Lemma d_join_nl_list : forall (A : Type) (Q : A -> tpred) xs ys, xs <> [] -> Forall2 (fun x y => dchain 5 y (Q x)) xs ys ->
  dchain 4 (join nl_or ys) (fun s i => exists x, In x xs /\ Q x s i).
Proof.
  intros A Q xs ys N H.
  assert (F : Forall2 (dchain 5) ys (map Q xs)) by (clear -H; induction H; constructor; assumption).
  destruct (dchain_list _ _ _ F) as (es & C & M).
  destruct C as [|t e ts' es' C0 C']; [destruct xs; [congruence|inversion H]|].
  exists (fold_op OR "|" e es'). split; [apply chain_join_nl; auto|].
  intros s i. rewrite fold_or_holds. transitivity (Exists (fun P : tpred => P s i) (map Q xs)).
  - rewrite <- (means_some _ _ s i M). split.
    + intros [K|(f & I & K)]; [exists e; split; [left; auto|auto]|exists f; split; [right; auto|auto]].
    + intros (f & [<-|I] & K); eauto.
  - rewrite Exists_exists. split.
    + intros (P & HP & K). apply in_map_iff in HP. destruct HP as (x & <- & Hx). eauto.
    + intros (x & Hx & K). exists (Q x). split; [apply in_map; exact Hx|exact K].
Qed.
Lemma pre_not_X : forall s e, pre s e -> pre ("!X " ++ s) (NUn "!" (NUn "X" e)).
Proof.
  intros s e H. change ("!X " ++ s)%string with ("!" ++ ("X " ++ s))%string.
  apply pre_un with (lvl := 12) (tk := NOT "!"); [apply nohash_lit; reflexivity| |lia|reflexivity|apply pre_X, H].
  unfold lex. cbn [append list_ascii_of_string]. rewrite lexl_cons. cbn -[lexl]. reflexivity.
Qed.

(** ** The clauses, for either kind of variables *)
Section Clauses.
  Variables (nb : bool) (w : world) (m : mat).
  Hypothesis W : w_W w = Some m.
  Hypothesis S : shaped m.
  Hypothesis B : binary m.
  (** The state shows cell [k]. *)
  Variable at_cell : Z * Z -> S_LTL.state -> Prop.
  Hypothesis now_text : forall k, in_range m k -> exists t, getitem w k false nb = Ok t /\ datom t (fun s i => at_cell (norm m k) (s i)).
  Hypothesis next_text : forall k, in_range m k -> exists t, getitem w k true nb = Ok t /\ dpre t (fun s i => at_cell (norm m k) (s (Datatypes.S i))).

  Lemma cells_In : forall p, In p (cells m) <-> (fst p < m_rows m)%nat /\ (snd p < m_cols m)%nat.
  Proof.
    intros [i j]. unfold cells, cells_of. cbn [fst snd]. rewrite in_prod_iff, !in_seq. lia.
  Qed.
  Lemma key_range : forall p, In p (cells m) -> in_range m (key p) /\ norm m (key p) = key p.
  Proof.
    intros [i j] H. apply cells_In in H. cbn [fst snd] in H. unfold in_range, norm, key, within, wrapped. cbn [fst snd]. split; [lia|].
    destruct (Z.ltb_spec (Z.of_nat i) 0); [lia|]. destruct (Z.ltb_spec (Z.of_nat j) 0); [lia|]. reflexivity.
  Qed.
  Lemma key_now : forall p, In p (cells m) -> exists t, name nb w p = Ok t /\ datom t (fun s i => at_cell (key p) (s i)).
  Proof.
    intros p H. destruct (key_range p H) as [R N]. destruct (now_text (key p) R) as (t & E & D). exists t. rewrite N in D. split; [exact E|exact D].
  Qed.
  Lemma key_next : forall p, In p (cells m) -> exists t, next_name nb w p = Ok t /\ dpre t (fun s i => at_cell (key p) (s (Datatypes.S i))).
  Proof.
    intros p H. destruct (key_range p H) as [R N]. destruct (next_text (key p) R) as (t & E & D). exists t. rewrite N in D. split; [exact E|exact D].
  Qed.

  Lemma free_key : forall p, In p (cells m) -> (free (view m) (key p) <-> open m p = true).
  Proof.
    intros [i j] H. apply cells_In in H. unfold free, key, open. cbn [fst snd] in *. rewrite view_cell by tauto. rewrite Z.eqb_eq. split; congruence.
  Qed.
  Lemma wall_open : forall p, In p (cells m) -> wall m p = negb (open m p).
  Proof.
    intros [i j] H. apply cells_In in H. cbn [fst snd] in H. unfold wall, open. cbn [fst snd].
    destruct (B _ _ _ (view_cell m i j S ltac:(tauto) ltac:(tauto))) as [-> | ->]; reflexivity.
  Qed.
  Lemma cell_key : forall k, (exists v, view m (fst k) (snd k) = Some v) <-> exists p, In p (cells m) /\ k = key p.
  Proof.
    intros [i j]. cbn [fst snd]. split.
    - intros [v V]. apply view_inside in V; [|exact S]. exists (Z.to_nat i, Z.to_nat j). split; [apply cells_In; cbn [fst snd]; lia|].
      unfold key. cbn [fst snd]. f_equal; lia.
    - intros ([a b] & H & [= -> ->]). apply cells_In in H. cbn [fst snd] in *. eexists. apply view_cell; [exact S|apply H|apply H].
  Qed.
  Lemma free_cell : forall k, free (view m) k -> exists p, In p (cells m) /\ k = key p.
  Proof. intros k F. apply cell_key. exists 0%Z. exact F. Qed.
  Lemma key_inj : forall p q, key p = key q -> p = q.
  Proof. intros [a b] [c d] H. unfold key in H. cbn [fst snd] in H. injection H as H1 H2. f_equal; lia. Qed.

  (** The cells the code lists after an empty cell are the steps from it. *)
  Lemma successors_cells : forall p q, In p (cells m) -> In q (successors m p) -> In q (cells m).
  Proof.
    intros [i j] q H. apply cells_In in H. cbn [fst snd] in H. unfold successors. rewrite !in_app_iff. intro K.
    apply cells_In. destruct K as [[<-|[]]|[K|[K|[K|K]]]]; [exact H| | | |].
    - destruct ((0 <? i)%nat && open m (i - 1, j)%nat); [|destruct K]. destruct K as [<-|[]]. cbn [fst snd]. lia.
    - destruct ((0 <? j)%nat && open m (i, j - 1)%nat); [|destruct K]. destruct K as [<-|[]]. cbn [fst snd]. lia.
    - destruct (Nat.ltb_spec i (m_rows m - 1)); [|destruct K]. destruct (open m (i + 1, j)%nat); [|destruct K]. destruct K as [<-|[]]. cbn [fst snd]. lia.
    - destruct (Nat.ltb_spec j (m_cols m - 1)); [|destruct K]. destruct (open m (i, j + 1)%nat); [|destruct K]. destruct K as [<-|[]]. cbn [fst snd]. lia.
  Qed.
  Lemma successors_step : forall p k, In p (cells m) -> open m p = true ->
    ((exists q, In q (successors m p) /\ k = key q) <-> step (view m) (key p) k).
  Proof.
    intros p k Hp Op. split.
    - intros (q & Hq & ->). pose proof (successors_cells p q Hp Hq) as Cq. unfold step. rewrite (free_key q Cq). unfold adjacent, key.
      destruct p as [i j]. apply cells_In in Hp. cbn [fst snd] in *. unfold successors in Hq. rewrite !in_app_iff in Hq.
      destruct Hq as [[<-|[]]|[K|[K|[K|K]]]]; [split; [left; reflexivity|exact Op]| | | |].
      + destruct (Nat.ltb_spec 0 i); cbn [andb] in K; [|destruct K]. destruct (open m (i - 1, j)%nat) eqn:O; [|destruct K]. destruct K as [<-|[]]. cbn [fst snd]. split; [right; lia|exact O].
      + destruct (Nat.ltb_spec 0 j); cbn [andb] in K; [|destruct K]. destruct (open m (i, j - 1)%nat) eqn:O; [|destruct K]. destruct K as [<-|[]]. cbn [fst snd]. split; [right; lia|exact O].
      + destruct (Nat.ltb_spec i (m_rows m - 1)); cbn [andb] in K; [|destruct K]. destruct (open m (i + 1, j)%nat) eqn:O; [|destruct K]. destruct K as [<-|[]]. cbn [fst snd]. split; [right; lia|exact O].
      + destruct (Nat.ltb_spec j (m_cols m - 1)); cbn [andb] in K; [|destruct K]. destruct (open m (i, j + 1)%nat) eqn:O; [|destruct K]. destruct K as [<-|[]]. cbn [fst snd]. split; [right; lia|exact O].
    - intros [A F]. destruct A as [->|A]; [exists p; split; [destruct p; left; reflexivity|reflexivity]|].
      destruct (free_cell k F) as (q & Cq & ->). exists q. split; [|reflexivity].
      apply (free_key q Cq) in F. destruct p as [i j], q as [a b]. apply cells_In in Hp. apply cells_In in Cq. unfold adjacent, key in A. cbn [fst snd] in *.
      unfold successors. rewrite !in_app_iff.
      assert (D : (a = i - 1 /\ b = j /\ 0 < i \/ a = i /\ b = j - 1 /\ 0 < j \/ a = i + 1 /\ b = j \/ a = i /\ b = j + 1)%nat) by lia.
      destruct D as [(-> & -> & D)|[(-> & -> & D)|[(-> & ->)|(-> & ->)]]].
      + right. left. destruct (Nat.ltb_spec 0 i); [|lia]. cbn [andb]. rewrite F. left. reflexivity.
      + right. right. left. destruct (Nat.ltb_spec 0 j); [|lia]. cbn [andb]. rewrite F. left. reflexivity.
      + right. right. right. left. destruct (Nat.ltb_spec i (m_rows m - 1)); [|lia]. cbn [andb]. rewrite F. left. reflexivity.
      + right. right. right. right. destruct (Nat.ltb_spec j (m_cols m - 1)); [|lia]. cbn [andb]. rewrite F. left. reflexivity.
  Qed.
  Lemma free_cells_In : forall p, In p (free_cells m) <-> In p (cells m) /\ open m p = true.
  Proof.
    intro p. unfold free_cells. rewrite filter_In. split; intros [H K]; (split; [exact H|]).
    - rewrite wall_open, negb_involutive in K by exact H. exact K.
    - rewrite wall_open, negb_involutive by exact H. exact K.
  Qed.

  Definition trans_meaning (s : trace) (i : nat) : Prop :=
    forall k, free (view m) k -> at_cell k (s i) -> exists k', step (view m) k k' /\ at_cell k' (s (Datatypes.S i)).
  Definition static_meaning (s : trace) (i : nat) : Prop :=
    forall k v, view m (fst k) (snd k) = Some v -> ~ free (view m) k -> ~ at_cell k (s (Datatypes.S i)).
  Definition grid_mutex_meaning (s : trace) (i : nat) : Prop :=
    exists k, free (view m) k /\ at_cell k (s (Datatypes.S i)) /\ forall k', free (view m) k' -> k' <> k -> ~ at_cell k' (s (Datatypes.S i)).

  Lemma transitions_dens : exists ts, mapr (transition nb w m) (free_cells m) = Ok ts /\ dens ts trans_meaning.
  Proof.
    destruct (mapr_ok _ _ (transition nb w m) (fun p t => den t (fun s i => at_cell (key p) (s i) -> exists q, In q (successors m p) /\ at_cell (key q) (s (Datatypes.S i)))) (free_cells m))
      as (ts & E & F).
    { intros p Hp. apply free_cells_In in Hp. destruct Hp as [Cp Op]. unfold transition. destruct (key_now p Cp) as (a & Ea & Da). rewrite Ea. cbn [bind].
      destruct (mapr_ok _ _ (next_name nb w) (fun q t => dchain 5 t (fun s i => at_cell (key q) (s (Datatypes.S i)))) (successors m p)) as (ns & En & Fn).
      { intros q Hq. destruct (key_next q (successors_cells p q Cp Hq)) as (t & Et & Dt). exists t. split; [exact Et|]. apply dpre_dchain; [lia|exact Dt]. }
      rewrite En. cbn [bind]. eexists. split; [reflexivity|].
      apply (dchain_den 2).
      replace (a ++ " -> (" ++ join " || " ns ++ ")")%string with (a ++ " -> " ++ ("(" ++ join " || " ns ++ ")"))%string by reflexivity.
      apply d_imp; [apply datom_dchain, Da|]. apply datom_dchain, d_paren. apply (dchain_den 4).
      apply (d_join_or_list _ (fun q s i => at_cell (key q) (s (Datatypes.S i)))); [destruct p; discriminate|exact Fn]. }
    exists ts. split; [exact E|]. eapply dens_ext; [apply Forall2_den, F|]. intros s i. cbv beta. unfold trans_meaning. split.
    - intros H k Fk Ak. destruct (free_cell k Fk) as (p & Cp & ->). apply (free_key p Cp) in Fk.
      destruct (H p (proj2 (free_cells_In p) (Logic.conj Cp Fk)) Ak) as (q & Hq & Aq). exists (key q). split; [|exact Aq].
      apply successors_step; [exact Cp|exact Fk|]. exists q. auto.
    - intros H p Hp Ap. apply free_cells_In in Hp. destruct Hp as [Cp Op]. destruct (H (key p)) as (k' & St & Ak').
      + apply free_key; assumption.
      + exact Ap.
      + apply (successors_step p k' Cp Op) in St. destruct St as (q & Hq & ->). eauto.
  Qed.
  Lemma static_dens : exists ts, mapr (static nb w) (filter (wall m) (cells m)) = Ok ts /\ dens ts static_meaning.
  Proof.
    destruct (mapr_ok _ _ (static nb w) (fun p t => den t (fun s i => ~ at_cell (key p) (s (Datatypes.S i)))) (filter (wall m) (cells m))) as (ts & E & F).
    { intros p Hp. apply filter_In in Hp. destruct Hp as [Cp _]. unfold static. destruct (key_next p Cp) as (a & Ea & Da). rewrite Ea. cbn [bind].
      eexists. split; [reflexivity|]. apply dpre_den, (d_not a (fun s i => at_cell (key p) (s (Datatypes.S i)))), dpre_den, Da. }
    exists ts. split; [exact E|]. eapply dens_ext; [apply Forall2_den, F|]. intros s i. cbv beta. unfold static_meaning. split.
    - intros H k v V N. destruct (proj1 (cell_key k) (ex_intro _ _ V)) as (p & Cp & ->). apply H. apply filter_In. split; [exact Cp|].
      rewrite wall_open by exact Cp. destruct (open m p) eqn:O; [|reflexivity]. exfalso. apply N, free_key; assumption.
    - intros H p Hp. apply filter_In in Hp. destruct Hp as [Cp Wp]. rewrite wall_open in Wp by exact Cp. apply negb_true_iff in Wp.
      destruct (proj2 (cell_key (key p)) (ex_intro _ p (Logic.conj Cp eq_refl))) as [v V]. apply (H _ _ V). rewrite free_key by exact Cp. congruence.
  Qed.
End Clauses.

(** ** Variables with integer domains *)
Lemma ident_suffix : forall p t, ident_chars p = true -> forallb name_char (list_ascii_of_string t) = true -> In "_"%char (list_ascii_of_string t) -> ident (p ++ t).
Proof.
  assert (U : forall a, In "_"%char (list_ascii_of_string a) -> reserved a = false).
  { intros a H. unfold reserved. apply orb_false_iff. split.
    - destruct (existsb (String.eqb a) ["ite"; "next"; "X"; "G"; "F"; "U"; "W"; "V"]) eqn:E; [|reflexivity].
      apply existsb_exists in E. destruct E as (x & Hx & Ex). apply String.eqb_eq in Ex. subst x. cbn in Hx.
      repeat (destruct Hx as [<-|Hx]; [exfalso; cbn in H; repeat (destruct H as [H|H]; [discriminate H|]); exact H|]). destruct Hx.
    - destruct (existsb (String.eqb (upper a)) ["TRUE"; "FALSE"]) eqn:E; [|reflexivity].
      assert (Hu : In "_"%char (list_ascii_of_string (upper a))).
      { clear E. induction a as [|c a IH]; [destruct H|]. cbn in H |- *. destruct H as [->|H]; [left; reflexivity|right; apply IH, H]. }
      apply existsb_exists in E. destruct E as (x & Hx & Ex). apply String.eqb_eq in Ex. rewrite Ex in Hu. cbn in Hx.
      repeat (destruct Hx as [<-|Hx]; [exfalso; cbn in Hu; repeat (destruct Hu as [Hu|Hu]; [discriminate Hu|]); exact Hu|]). destruct Hx. }
  intros p t Hp Ht Hu. split.
  - destruct p as [|c p]; [discriminate|]. cbn in *. apply andb_true_iff in Hp. destruct Hp as [Hc Hp]. rewrite Hc. cbn. rewrite las_app, forallb_app, Hp, Ht. reflexivity.
  - apply U. rewrite las_app. apply in_app_iff. right. exact Hu.
Qed.

Section Integer.
  Variables (w : world) (m : mat).
  Hypothesis W : w_W w = Some m.
  Hypothesis S : shaped m.
  Hypothesis P : ident_chars (w_prefix w) = true.
  Hypothesis O : w_offset w = (0, 0)%Z.
  Definition row_var := (w_prefix w ++ "_r")%string.
  Definition col_var := (w_prefix w ++ "_c")%string.
  Definition at_int (k : Z * Z) (st : S_LTL.state) : Prop := st row_var = VZ (fst k) /\ st col_var = VZ (snd k).
  Lemma row_ident : ident row_var. Proof. apply ident_suffix; [exact P|reflexivity|cbn; auto]. Qed.
  Lemma col_ident : ident col_var. Proof. apply ident_suffix; [exact P|reflexivity|cbn; auto]. Qed.
  Lemma now_int : forall k, in_range m k -> exists t, getitem w k false true = Ok t /\ datom t (fun s i => at_int (norm m k) (s i)).
  Proof.
    intros k [A B]. unfold getitem. rewrite W, wrap_within by assumption. cbn [bind fst snd]. rewrite O. cbn [fst snd]. rewrite !Z.add_0_r.
    eexists. split; [reflexivity|].
    match goal with |- datom ?t _ => replace t with ("(" ++ (("(" ++ (row_var ++ " = " ++ str_Z (wrapped (fst k) (m_rows m))) ++ ")") ++ " && " ++ ("(" ++ (col_var ++ " = " ++ str_Z (wrapped (snd k) (m_cols m))) ++ ")")) ++ ")")%string end.
    2:{ unfold row_var, col_var. rewrite <- !string_app_assoc. reflexivity. }
    apply d_paren. apply (dchain_den 5). apply d_and.
    - apply datom_dchain, d_paren, (dchain_den 8), d_eq_int, row_ident.
    - apply datom_dchain, d_paren, (dchain_den 8), d_eq_int, col_ident.
  Qed.
  Lemma next_int : forall k, in_range m k -> exists t, getitem w k true true = Ok t /\ dpre t (fun s i => at_int (norm m k) (s (Datatypes.S i))).
  Proof.
    intros k [A B]. unfold getitem. rewrite W, wrap_within by assumption. cbn [bind fst snd]. rewrite O. cbn [fst snd]. rewrite !Z.add_0_r.
    eexists. split; [reflexivity|].
    match goal with |- dpre ?t _ => replace t with ("(" ++ (("(" ++ ("X (" ++ (row_var ++ " = " ++ str_Z (wrapped (fst k) (m_rows m))) ++ ")") ++ ")") ++ " && " ++ ("(" ++ ("X (" ++ (col_var ++ " = " ++ str_Z (wrapped (snd k) (m_cols m))) ++ ")") ++ ")")) ++ ")")%string end.
    2:{ unfold row_var, col_var. rewrite <- !string_app_assoc. reflexivity. }
    apply datom_dpre, d_paren. apply (dchain_den 5). apply (d_and _ _ (fun s i => s (Datatypes.S i) row_var = VZ (fst (norm m k))) (fun s i => s (Datatypes.S i) col_var = VZ (snd (norm m k)))).
    - apply datom_dchain, d_paren, dpre_den, (d_X_sp _ (fun s i => s i row_var = VZ (fst (norm m k)))), (dchain_den 8), d_eq_int, row_ident.
    - apply datom_dchain, d_paren, dpre_den, (d_X_sp _ (fun s i => s i col_var = VZ (snd (norm m k)))), (dchain_den 8), d_eq_int, col_ident.
  Qed.
End Integer.

(** The trace shows the positions [pos]. *)
Definition shows_int (p : string) (s : trace) (pos : nat -> Z * Z) : Prop :=
  forall i, s i (p ++ "_r")%string = VZ (fst (pos i)) /\ s i (p ++ "_c")%string = VZ (snd (pos i)).
Lemma append_last : forall p a b, (p ++ a)%string = (p ++ b)%string -> a = b.
Proof. intro p. induction p as [|c p IH]; intros a b H; [exact H|]. cbn in H. injection H as H. apply IH, H. Qed.

(** Integer variables: the traces are the walks, except that the first cell may be a wall if it is
    initial (or if there are no initial cells), and then anything free may follow. *)
Theorem spec_int_traces : forall order w m offset c,
  w_W w = Some m -> shaped m -> binary m -> ident_chars (w_prefix w) = true ->
  (forall k, In k (w_init w) \/ In k (w_goal w) -> in_range m k) ->
  exists g, spec order w offset c true = Ok g /\
    (forall s, (forall i, allowed (side_vars c g) (s i)) ->
       (init_safe c g s <->
        exists pos, shows_int (w_prefix w) s pos /\
          (w_init w <> [] -> exists k, In k (w_init w) /\ pos 0%nat = norm m k) /\
          forall i, free (view m) (pos (S i)) /\ (free (view m) (pos i) -> step (view m) (pos i) (pos (S i))))) /\
    Forall2 (fun k f => forall s i, text_true s i f <-> s i (w_prefix w ++ "_r")%string = VZ (fst (norm m k)) /\ s i (w_prefix w ++ "_c")%string = VZ (snd (norm m k)))
      (w_goal w) (side_prog c g) /\
    side_vars (negb c) g = [] /\ side_init (negb c) g = [] /\ side_safety (negb c) g = [] /\ side_prog (negb c) g = [].
Proof.
  intros order w m offset c W S B P R. unfold spec. rewrite W.
  set (w' := World (w_W w) (w_init w) (w_goal w) (w_prefix w) (0, 0)%Z).
  rewrite <- W. fold w'.
  assert (W' : w_W w' = Some m) by exact W.
  pose proof (now_int w' m W' P eq_refl) as Now. pose proof (next_int w' m W' P eq_refl) as Next.
  destruct (transitions_dens true w' m S B (at_int w') Now Next) as (ts & Et & Dt).
  destruct (static_dens true w' m S B (at_int w') Next) as (ss & Es & Ds).
  unfold safety. rewrite Et. cbn [bind]. rewrite Es. cbn [bind]. rewrite app_nil_r. unfold variables. cbn [bind map fst].
  destruct (mapr_ok _ _ (init_clause true w' [(w_prefix w' ++ "_r")%string; (w_prefix w' ++ "_c")%string]) (fun k t => datom t (fun s i => at_int w' (norm m k) (s i))) (w_init w)) as (is & Ei & Fi).
  { intros k Hk. unfold init_clause. destruct (Now k (R k (or_introl Hk))) as (t & E & D). rewrite E. cbn [bind]. eauto. }
  destruct (mapr_ok _ _ (fun k => getitem w' k false true) (fun k t => datom t (fun s i => at_int w' (norm m k) (s i))) (w_goal w)) as (gs & Eg & Fg).
  { intros k Hk. apply Now, R. right. exact Hk. }
  rewrite Ei. cbn [bind]. rewrite Eg. cbn [bind].
  set (vars := [((w_prefix w' ++ "_r")%string, DInt 0 (Z.of_nat (m_rows m) - 1)); ((w_prefix w' ++ "_c")%string, DInt 0 (Z.of_nat (m_cols m) - 1))]).
  set (init := match is with [] => [] | _ :: _ => [join " || " is] end).
  exists (if c then spec_of [] vars [] init [] (ts ++ ss) [] gs else spec_of vars [] init [] (ts ++ ss) [] gs []). split; [reflexivity|].
  assert (V : side_vars c (if c then spec_of [] vars [] init [] (ts ++ ss) [] gs else spec_of vars [] init [] (ts ++ ss) [] gs []) = vars) by (destruct c; reflexivity).
  assert (I : side_init c (if c then spec_of [] vars [] init [] (ts ++ ss) [] gs else spec_of vars [] init [] (ts ++ ss) [] gs []) = init) by (destruct c; reflexivity).
  assert (Sa : side_safety c (if c then spec_of [] vars [] init [] (ts ++ ss) [] gs else spec_of vars [] init [] (ts ++ ss) [] gs []) = ts ++ ss) by (destruct c; reflexivity).
  assert (G : side_prog c (if c then spec_of [] vars [] init [] (ts ++ ss) [] gs else spec_of vars [] init [] (ts ++ ss) [] gs []) = gs) by (destruct c; reflexivity).
  split; [|split; [|destruct c; repeat split]].
  - intros s Al. rewrite V in Al. unfold init_safe. rewrite I, Sa.
    assert (Di : dens init (fun s i => w_init w <> [] -> exists k, In k (w_init w) /\ at_int w' (norm m k) (s i))).
    { unfold init. destruct Fi as [|k t ks is' D F]; [eapply dens_ext; [apply dens_nil|]; intros s0 i0; split; [intros _ X; congruence|auto]|].
      eapply dens_ext; [apply dens_one, (dchain_den 4), (d_join_or_list _ (fun k s i => at_int w' (norm m k) (s i)) (k :: ks)); [discriminate|]|].
      - constructor; [apply datom_dchain, D|]. clear -F. induction F; constructor; [apply datom_dchain; assumption|assumption].
      - intros s0 i0. split; [auto|]. intro H. apply H. discriminate. }
    pose proof (dens_app _ _ _ _ Dt Ds) as Da.
    rewrite (dens_true _ _ s 0%nat Di).
    assert (Row : forall i, exists z, s i (w_prefix w ++ "_r")%string = VZ z /\ (0 <= z < Z.of_nat (m_rows m))%Z).
    { intro i. specialize (Al i (w_prefix w ++ "_r")%string (DInt 0 (Z.of_nat (m_rows m) - 1))). cbn [vars M_Base.lookup] in Al.
      change (w_prefix w') with (w_prefix w) in Al. rewrite String.eqb_refl in Al. specialize (Al eq_refl). unfold in_domain in Al.
      destruct (s i (w_prefix w ++ "_r")%string) as [b|z|x]; [destruct Al|exists z; split; [reflexivity|lia]|destruct Al]. }
    assert (Col : forall i, exists z, s i (w_prefix w ++ "_c")%string = VZ z /\ (0 <= z < Z.of_nat (m_cols m))%Z).
    { intro i. specialize (Al i (w_prefix w ++ "_c")%string (DInt 0 (Z.of_nat (m_cols m) - 1))). cbn [vars M_Base.lookup] in Al.
      change (w_prefix w') with (w_prefix w) in Al. rewrite String.eqb_refl in Al.
      destruct (String.eqb_spec (w_prefix w ++ "_c") (w_prefix w ++ "_r")) as [X|_]; [apply append_last in X; discriminate X|]. specialize (Al eq_refl). unfold in_domain in Al.
      destruct (s i (w_prefix w ++ "_c")%string) as [b|z|x]; [destruct Al|exists z; split; [reflexivity|lia]|destruct Al]. }
    split.
    + intros [H0 H1].
      set (val := fun (v : value) => match v with VZ z => z | _ => 0%Z end).
      set (pos := fun i : nat => (val (s i (w_prefix w ++ "_r")%string), val (s i (w_prefix w ++ "_c")%string))).
      assert (Sh : shows_int (w_prefix w) s pos).
      { intro i. unfold pos. cbn [fst snd]. destruct (Row i) as (z & -> & _). destruct (Col i) as (y & -> & _). auto. }
      assert (At : forall i k, at_int w' k (s i) <-> k = pos i).
      { intros i [a b]. unfold at_int, row_var, col_var. change (w_prefix w') with (w_prefix w). destruct (Sh i) as [E1 E2]. rewrite E1, E2. cbn [fst snd].
        destruct (pos i) as [x y]. cbn [fst snd]. split; [intros [[= ->] [= ->]]; reflexivity|intros [= -> ->]; auto]. }
      assert (In_grid : forall i, exists v, view m (fst (pos i)) (snd (pos i)) = Some v).
      { intro i. destruct (Sh i) as [E1 E2]. destruct (Row i) as (z & Ez & Rz). destruct (Col i) as (y & Ey & Ry). rewrite Ez in E1. rewrite Ey in E2.
        assert (Hr : fst (pos i) = z) by congruence. assert (Hc : snd (pos i) = y) by congruence. rewrite Hr, Hc. eexists. apply view_at; assumption. }
      exists pos. split; [exact Sh|]. split.
      * intro N. destruct (H0 N) as (k & Hk & Ak). apply At in Ak. eauto.
      * intro i. destruct (proj1 (dens_true _ _ s i Da) (H1 i)) as [T St].
        assert (F : free (view m) (pos (Datatypes.S i))).
        { destruct (In_grid (Datatypes.S i)) as [v V']. unfold free. destruct (B _ _ _ V') as [-> | ->]; [exact V'|].
          exfalso. apply (St (pos (Datatypes.S i)) _ V'); [unfold free; rewrite V'; discriminate|]. apply At. reflexivity. }
        split; [exact F|]. intro Fi'. destruct (T (pos i) Fi') as (k' & Stp & Ak'); [apply At; reflexivity|]. apply At in Ak'. subst k'. exact Stp.
    + intros (pos & Sh & Pi & Ps).
      assert (At : forall i k, at_int w' k (s i) <-> k = pos i).
      { intros i [a b]. unfold at_int, row_var, col_var. change (w_prefix w') with (w_prefix w). destruct (Sh i) as [E1 E2]. rewrite E1, E2. cbn [fst snd].
        destruct (pos i) as [x y]. cbn [fst snd]. split; [intros [[= ->] [= ->]]; reflexivity|intros [= -> ->]; auto]. }
      split.
      * intro N. destruct (Pi N) as (k & Hk & E). exists k. split; [exact Hk|]. apply At. symmetry. exact E.
      * intro i. apply (dens_true _ _ s i Da). destruct (Ps i) as [F St]. split.
        -- intros k Fk Ak. apply At in Ak. subst k. exists (pos (Datatypes.S i)). split; [apply St, Fk|apply At; reflexivity].
        -- intros k v V' N Ak. apply At in Ak. subst k. exact (N F).
  - rewrite G. clear -Fg. induction Fg as [|k t ks gs' D F IH]; constructor; [|exact IH]. intros s i. apply (den_true _ _ s i (datom_den _ _ D)).
Qed.
(** C47, integer variables: with free initial cells the traces are exactly the walks from an initial cell. *)
Theorem spec_int_walks : forall order w m offset c g,
  w_W w = Some m -> shaped m -> binary m -> ident_chars (w_prefix w) = true ->
  (forall k, In k (w_init w) \/ In k (w_goal w) -> in_range m k) ->
  w_init w <> [] -> (forall k, In k (w_init w) -> free (view m) (norm m k)) -> spec order w offset c true = Ok g ->
  forall s, (forall i, allowed (side_vars c g) (s i)) ->
    (init_safe c g s <->
     exists pos, shows_int (w_prefix w) s pos /\ (exists k, In k (w_init w) /\ pos 0%nat = norm m k) /\ forall i, step (view m) (pos i) (pos (S i))).
Proof.
  intros order w m offset c g W S B P R N Fr E s Al. destruct (spec_int_traces order w m offset c W S B P R) as (g' & E' & H & _).
  rewrite E in E'. injection E' as <-. rewrite (H s Al). split.
  - intros (pos & Sh & Pi & Ps). exists pos. split; [exact Sh|]. split; [exact (Pi N)|].
    assert (F : forall i, free (view m) (pos i)).
    { intros [|i]; [|exact (proj1 (Ps i))]. destruct (Pi N) as (k & Hk & ->). apply Fr, Hk. }
    intro i. exact (proj2 (Ps i) (F i)).
  - intros (pos & Sh & Pi & Ps). exists pos. split; [exact Sh|]. split; [intros _; exact Pi|]. intro i. split; [exact (proj2 (Ps i))|]. intros _. exact (Ps i).
Qed.

(** ** Boolean variables *)
Lemma digits_name : forall z, (0 <= z)%Z -> forallb name_char (list_ascii_of_string (str_Z z)) = true.
Proof.
  intros z H. unfold str_Z. destruct (Z.ltb_spec z 0); [lia|]. pose proof (str_nat_numeral (Z.to_nat z)) as N.
  assert (D : forall c, digit c = true -> name_char c = true).
  { intros c D. unfold digit in D. unfold name_char. rewrite D. rewrite orb_true_r. reflexivity. }
  destruct (str_nat (Z.to_nat z)) as [|c r]; [discriminate|]. cbn in N |- *. apply andb_true_iff in N. destruct N as [N1 N2]. rewrite (D _ N1). cbn [andb].
  rewrite forallb_forall in N2 |- *. intros x Hx. apply D, N2, Hx.
Qed.
(** The variable of cell [k]. *)
Definition cell_var (p : string) (o k : Z * Z) : string := (p ++ "_" ++ str_Z (fst k + fst o) ++ "_" ++ str_Z (snd k + snd o))%string.
Lemma cell_var_ident : forall p o k, ident_chars p = true -> (0 <= fst k + fst o)%Z -> (0 <= snd k + snd o)%Z -> ident (cell_var p o k).
Proof.
  intros p o k P A B. apply ident_suffix; [exact P| |cbn; auto].
  cbn [append list_ascii_of_string forallb]. rewrite las_app, forallb_app, digits_name by exact A. cbn [append list_ascii_of_string forallb]. rewrite digits_name by exact B. reflexivity.
Qed.
Lemma cell_var_inj : forall p o k k', cell_var p o k = cell_var p o k' -> k = k'.
Proof.
  intros p o [a b] [c d] H. unfold cell_var in H. cbn [fst snd] in H.
  assert (E : extract_coord (p ++ "_" ++ str_Z (a + fst o) ++ "_" ++ str_Z (b + snd o)) = extract_coord (p ++ "_" ++ str_Z (c + fst o) ++ "_" ++ str_Z (d + snd o))) by (rewrite H; reflexivity).
  rewrite !extract_coord_name in E. injection E as E1 E2. f_equal; lia.
Qed.

Section Boolean.
  Variables (w : world) (m : mat).
  Hypothesis W : w_W w = Some m.
  Hypothesis S : shaped m.
  Hypothesis B : binary m.
  Hypothesis P : ident_chars (w_prefix w) = true.
  Hypothesis O : (0 <= fst (w_offset w))%Z /\ (0 <= snd (w_offset w))%Z.
  Notation var k := (cell_var (w_prefix w) (w_offset w) k).
  Definition at_bool (k : Z * Z) (st : S_LTL.state) : Prop := st (var k) = VB true.
  Lemma getitem_bool : forall k u, in_range m k -> getitem w k u false = Ok ((if u then "X " else "") ++ var (norm m k))%string.
  Proof. intros k u [A C]. unfold getitem. rewrite W, wrap_within by assumption. reflexivity. Qed.
  Lemma var_ident : forall k, in_range m k -> ident (var (norm m k)).
  Proof.
    intros [i j] [A C]. unfold within in *. apply cell_var_ident; [exact P| |]; unfold norm, wrapped; cbn [fst snd] in *;
      match goal with |- context [(?x <? 0)%Z] => destruct (Z.ltb_spec x 0) end; lia.
  Qed.
  Lemma now_bool : forall k, in_range m k -> exists t, getitem w k false false = Ok t /\ datom t (fun s i => at_bool (norm m k) (s i)).
  Proof. intros k R. rewrite getitem_bool by exact R. eexists. split; [reflexivity|]. apply (d_ident (var (norm m k))), var_ident, R. Qed.
  Lemma next_bool : forall k, in_range m k -> exists t, getitem w k true false = Ok t /\ dpre t (fun s i => at_bool (norm m k) (s (Datatypes.S i))).
  Proof.
    intros k R. rewrite getitem_bool by exact R. eexists. split; [reflexivity|]. exists (NUn "X" (NVar (var (norm m k)))).
    split; [|intros s i; reflexivity]. apply (pre_X (var (norm m k))), atom_pre, atom_ident, var_ident, R.
  Qed.
  Lemma not_next_bool : forall p, In p (cells m) -> exists t, next_name false w p = Ok t /\ dpre ("!" ++ t) (fun s i => ~ at_bool (key p) (s (Datatypes.S i))).
  Proof.
    intros p C. destruct (key_range m p C) as [R N]. unfold next_name. rewrite getitem_bool by exact R. rewrite N. eexists. split; [reflexivity|].
    exists (NUn "!" (NUn "X" (NVar (var (key p))))). split; [|intros s i; reflexivity].
    apply (pre_not_X (var (key p))), atom_pre, atom_ident. rewrite <- N. apply var_ident, R.
  Qed.
  Lemma mutex_dens : free_cells m <> [] -> exists ds, mapr (mutex false w m) (free_cells m) = Ok ds /\ den (join nl_or ds) (grid_mutex_meaning m at_bool).
  Proof.
    intro NE.
    destruct (mapr_ok _ _ (mutex false w m) (fun p t => dchain 5 t (fun s i => at_bool (key p) (s (Datatypes.S i)) /\
      forall q, In q (filter (fun q => negb (pair_eqb p q)) (free_cells m)) -> ~ at_bool (key q) (s (Datatypes.S i)))) (free_cells m)) as (ds & E & F).
    { intros p Hp. apply (free_cells_In m S B) in Hp. destruct Hp as [Cp _]. unfold mutex. destruct (key_next false w m at_bool next_bool p Cp) as (a & Ea & Da). rewrite Ea. cbn [bind].
      destruct (mapr_ok _ _ (fun q => do b <- next_name false w q; Ok ("(!" ++ b ++ ")")%string) (fun q t => datom t (fun s i => ~ at_bool (key q) (s (Datatypes.S i))))
        (filter (fun q => negb (pair_eqb p q)) (free_cells m))) as (os & Eo & Fo).
      { intros q Hq. apply filter_In in Hq. destruct Hq as [Hq _]. apply (free_cells_In m S B) in Hq. destruct (not_next_bool q (proj1 Hq)) as (t & Et & Dt). rewrite Et. cbn [bind].
        eexists. split; [reflexivity|]. apply (d_paren ("!" ++ t)), dpre_den, Dt. }
      rewrite Eo. cbn [bind]. eexists. split; [reflexivity|]. apply datom_dchain, d_paren, (dchain_den 5).
      eapply dchain_ext; [apply (d_join_and (a :: os) ((fun s i => at_bool (key p) (s (Datatypes.S i))) :: map (fun q s i => ~ at_bool (key q) (s (Datatypes.S i))) (filter (fun q => negb (pair_eqb p q)) (free_cells m)))); [discriminate|]|].
      - constructor; [apply dpre_dchain; [lia|exact Da]|]. clear -Fo. induction Fo; constructor; [apply datom_dchain; assumption|assumption].
      - intros s i. split.
        + intro H. split; [exact (Forall_inv H)|]. apply Forall_inv_tail in H. rewrite Forall_map, Forall_forall in H. exact H.
        + intros [H1 H2]. constructor; [exact H1|]. rewrite Forall_map, Forall_forall. exact H2. }
    exists ds. split; [exact E|]. apply (dchain_den 4). eapply dchain_ext; [apply (d_join_nl_list _ _ _ _ NE F)|].
    intros s i. cbv beta. unfold grid_mutex_meaning. split.
    - intros (p & Hp & Ap & Np). apply (free_cells_In m S B) in Hp. destruct Hp as [Cp Op]. exists (key p). split; [apply free_key; assumption|]. split; [exact Ap|].
      intros k' Fk' Nk'. destruct (free_cell m S k' Fk') as (q & Cq & ->). apply Np. apply filter_In. split.
      + apply (free_cells_In m S B). split; [exact Cq|]. apply (free_key m S q Cq), Fk'.
      + unfold pair_eqb. destruct p as [a b], q as [c d]. cbn [fst snd]. destruct (Nat.eqb_spec a c) as [->|]; [|reflexivity]. destruct (Nat.eqb_spec b d) as [->|]; [congruence|reflexivity].
    - intros (k & Fk & Ak & Nk). destruct (free_cell m S k Fk) as (p & Cp & ->). exists p. split; [apply (free_cells_In m S B); split; [exact Cp|apply (free_key m S p Cp), Fk]|]. split; [exact Ak|].
      intros q Hq. apply filter_In in Hq. destruct Hq as [Hq Nq]. apply (free_cells_In m S B) in Hq. destruct Hq as [Cq Oq]. apply Nk; [apply (free_key m S q Cq), Oq|].
      intro K. apply key_inj in K. subst q. unfold pair_eqb in Nq. rewrite !Nat.eqb_refl in Nq. discriminate.
  Qed.
  (** The initial clause: one cell is shown and no other. *)
  Lemma init_bool : forall vars k, in_range m k -> (forall v, In v vars <-> exists p, In p (cells m) /\ v = var (key p)) ->
    exists t, init_clause false w vars k = Ok t /\ datom t (fun s i => forall p, In p (cells m) -> (at_bool (key p) (s i) <-> key p = norm m k)).
  Proof.
    intros vars k R V. unfold init_clause. rewrite getitem_bool by exact R. cbn [bind append]. eexists. split; [reflexivity|]. apply d_paren, (dchain_den 5).
    set (os := filter (fun o => negb (String.eqb o (var (norm m k)))) vars).
    eapply dchain_ext; [apply (d_join_and (var (norm m k) :: map (fun o => "!" ++ o)%string os) ((fun s i => s i (var (norm m k)) = VB true) :: map (fun o s i => ~ s i o = VB true) os)); [discriminate|]|].
    - constructor; [apply datom_dchain, d_ident, var_ident, R|].
      assert (I : forall o, In o os -> ident o).
      { intros o Ho. apply filter_In in Ho. destruct Ho as [Ho _]. apply V in Ho. destruct Ho as (p & Cp & ->). destruct (key_range m p Cp) as [Rp Np]. rewrite <- Np. apply var_ident, Rp. }
      clear -I. induction os as [|o os IH]; constructor; [apply dpre_dchain; [lia|]; apply d_not_ident, I; left; reflexivity|]. apply IH. intros x Hx. apply I. right. exact Hx.
    - intros s i. cbv beta.
      assert (C : exists p, In p (cells m) /\ key p = norm m k).
      { destruct R as [R1 R2]. unfold within in *. exists (Z.to_nat (fst (norm m k)), Z.to_nat (snd (norm m k))). unfold key, norm, wrapped. split.
        - apply cells_In. cbn [fst snd]. destruct (Z.ltb_spec (fst k) 0); destruct (Z.ltb_spec (snd k) 0); lia.
        - cbn [fst snd]. destruct (Z.ltb_spec (fst k) 0); destruct (Z.ltb_spec (snd k) 0); f_equal; lia. }
      split.
      + intros H p Cp. split.
        * intro Ap. destruct (String.eqb_spec (var (key p)) (var (norm m k))) as [E|N]; [apply cell_var_inj in E; exact E|].
          exfalso. apply Forall_inv_tail in H. rewrite Forall_map, Forall_forall in H. apply (H (var (key p))); [|exact Ap].
          unfold os. apply filter_In. split; [apply V; eauto|]. apply negb_true_iff, String.eqb_neq, N.
        * intro E. rewrite E. exact (Forall_inv H).
      + intro H. constructor.
        * destruct C as (p & Cp & E). pose proof (proj2 (H p Cp) E) as A. unfold at_bool in A. rewrite E in A. exact A.
        * rewrite Forall_map, Forall_forall. intros o Ho. unfold os in Ho. apply filter_In in Ho. destruct Ho as [Ho Hn]. apply V in Ho. destruct Ho as (p & Cp & ->).
          intro A. apply (H p Cp) in A. rewrite A, String.eqb_refl in Hn. discriminate.
  Qed.
End Boolean.

(** The trace shows the positions [pos]: of the variables of the cells exactly that one is true. *)
Definition shows_bool (p : string) (o : Z * Z) (g : grid) (s : trace) (pos : nat -> Z * Z) : Prop :=
  forall i, (exists v, g (fst (pos i)) (snd (pos i)) = Some v) /\
    forall k v, g (fst k) (snd k) = Some v -> (s i (cell_var p o k) = VB true <-> k = pos i).
(** Boolean variables: as [spec_int_traces]; the values of the variables need not be Boolean beforehand. *)
Theorem spec_bool_traces : forall order w m offset c,
  w_W w = Some m -> shaped m -> binary m -> ident_chars (w_prefix w) = true -> (0 <= fst offset)%Z -> (0 <= snd offset)%Z ->
  (forall l x, In x (order l) <-> In x l) ->
  (forall k, In k (w_init w) \/ In k (w_goal w) -> in_range m k) -> w_init w <> [] -> (exists k, free (view m) k) ->
  exists g, spec order w offset c false = Ok g /\
    (forall s, init_safe c g s <->
        exists pos, shows_bool (w_prefix w) offset (view m) s pos /\
          (exists k, In k (w_init w) /\ pos 0%nat = norm m k) /\
          forall i, free (view m) (pos (S i)) /\ (free (view m) (pos i) -> step (view m) (pos i) (pos (S i)))) /\
    Forall2 (fun k f => forall s i, text_true s i f <-> s i (cell_var (w_prefix w) offset (norm m k)) = VB true) (w_goal w) (side_prog c g) /\
    (forall x d, In (x, d) (side_vars c g) <-> d = DBool /\ exists k v, view m (fst k) (snd k) = Some v /\ x = cell_var (w_prefix w) offset k) /\
    side_vars (negb c) g = [] /\ side_init (negb c) g = [] /\ side_safety (negb c) g = [] /\ side_prog (negb c) g = [].
Proof.
  intros order w m offset c W S B P O1 O2 Ord R NI NF. unfold spec. rewrite W.
  set (w' := World (w_W w) (w_init w) (w_goal w) (w_prefix w) offset).
  rewrite <- W. fold w'.
  assert (W' : w_W w' = Some m) by exact W. assert (O' : (0 <= fst (w_offset w'))%Z /\ (0 <= snd (w_offset w'))%Z) by (split; assumption).
  pose proof (now_bool w' m W' P O') as Now. pose proof (next_bool w' m W' P O') as Next.
  destruct (transitions_dens false w' m S B (at_bool w') Now Next) as (ts & Et & Dt).
  destruct (static_dens false w' m S B (at_bool w') Next) as (ss & Es & Ds).
  destruct (mutex_dens w' m W' S B P O') as (ms & Em & Dm).
  { destruct NF as [k Fk]. destruct (free_cell m S k Fk) as (p & Cp & ->). apply (free_key m S p Cp) in Fk.
    intro X. pose proof (proj2 (free_cells_In m S B p) (Logic.conj Cp Fk)) as Y. rewrite X in Y. exact Y. }
  unfold safety. rewrite Et. cbn [bind]. rewrite Es. cbn [bind]. rewrite Em. cbn [bind]. unfold variables.
  destruct (mapr_ok _ _ (name false w') (fun p t => t = cell_var (w_prefix w) offset (key p)) (cells m)) as (ns & En & Fn).
  { intros p Cp. destruct (key_range m p Cp) as [Rp Np]. unfold name. rewrite (getitem_bool w' m W') by exact Rp. rewrite Np. eexists. split; reflexivity. }
  rewrite En. cbn [bind].
  assert (Nv : map fst (booleans (order ns)) = order ns) by (unfold booleans; rewrite map_map, map_id; reflexivity).
  rewrite Nv.
  assert (V : forall v, In v (order ns) <-> exists p, In p (cells m) /\ v = cell_var (w_prefix w) offset (key p)).
  { intro v. rewrite Ord. clear -Fn. induction Fn as [|p t ps ts E F IH]; [split; [intros []|intros (p & [] & _)]|]. split.
    - intros [<-|H]; [exists p; split; [left; reflexivity|exact E]|]. apply IH in H. destruct H as (q & Hq & Eq). exists q. split; [right; exact Hq|exact Eq].
    - intros (q & [<-|Hq] & Eq); [left; congruence|]. right. apply IH. eauto. }
  destruct (mapr_ok _ _ (init_clause false w' (order ns)) (fun k t => datom t (fun s i => forall p, In p (cells m) -> (at_bool w' (key p) (s i) <-> key p = norm m k))) (w_init w)) as (is & Ei & Fi).
  { intros k Hk. apply (init_bool w' m W' P O'); [apply R; left; exact Hk|exact V]. }
  destruct (mapr_ok _ _ (fun k => getitem w' k false false) (fun k t => datom t (fun s i => at_bool w' (norm m k) (s i))) (w_goal w)) as (gs & Eg & Fg).
  { intros k Hk. apply Now, R. right. exact Hk. }
  rewrite Ei. cbn [bind]. rewrite Eg. cbn [bind].
  set (vars := booleans (order ns)). set (tr := ts ++ ss ++ [join nl_or ms]).
  set (init := match is with [] => [] | _ :: _ => [join " || " is] end).
  exists (if c then spec_of [] vars [] init [] tr [] gs else spec_of vars [] init [] tr [] gs []). split; [reflexivity|].
  assert (Vs : side_vars c (if c then spec_of [] vars [] init [] tr [] gs else spec_of vars [] init [] tr [] gs []) = vars) by (destruct c; reflexivity).
  assert (I : side_init c (if c then spec_of [] vars [] init [] tr [] gs else spec_of vars [] init [] tr [] gs []) = init) by (destruct c; reflexivity).
  assert (Sa : side_safety c (if c then spec_of [] vars [] init [] tr [] gs else spec_of vars [] init [] tr [] gs []) = tr) by (destruct c; reflexivity).
  assert (G : side_prog c (if c then spec_of [] vars [] init [] tr [] gs else spec_of vars [] init [] tr [] gs []) = gs) by (destruct c; reflexivity).
  split; [|split; [|split; [|destruct c; repeat split]]].
  - intro s. unfold init_safe. rewrite I, Sa.
    assert (Di : dens init (fun s i => exists k, In k (w_init w) /\ forall p, In p (cells m) -> (at_bool w' (key p) (s i) <-> key p = norm m k))).
    { unfold init. destruct Fi as [|k t ks is' D F]; [congruence|].
      apply dens_one, (dchain_den 4), (d_join_or_list _ (fun k s i => forall p, In p (cells m) -> (at_bool w' (key p) (s i) <-> key p = norm m k)) (k :: ks)); [discriminate|].
      constructor; [apply datom_dchain, D|]. clear -F. induction F; constructor; [apply datom_dchain; assumption|assumption]. }
    pose proof (dens_app _ _ _ _ Dt (dens_app _ _ _ _ Ds (dens_one _ _ Dm))) as Da.
    rewrite (dens_true _ _ s 0%nat Di). split.
    + intros [(k0 & Hk0 & H0) H1].
      assert (Each : forall i, exists k, (exists v, view m (fst k) (snd k) = Some v) /\ forall k' v, view m (fst k') (snd k') = Some v -> (at_bool w' k' (s i) <-> k' = k)).
      { intros [|i].
        - exists (norm m k0). destruct (R k0 (or_introl Hk0)) as [R1 R2]. unfold within in *. split.
          + eexists. apply view_at; [exact S| |]; unfold norm, wrapped; cbn [fst snd];
              match goal with |- context [(?x <? 0)%Z] => destruct (Z.ltb_spec x 0) end; lia.
          + intros k' v V'. destruct (proj1 (cell_key m S k') (ex_intro _ _ V')) as (p & Cp & ->). apply H0, Cp.
        - destruct (proj1 (dens_true _ _ s i Da) (H1 i)) as (_ & St & k & Fk & Ak & Nk). exists k. split; [eexists; exact Fk|].
          intros k' v V'. split; [|intros ->; exact Ak]. intro A. destruct (B _ _ _ V') as [-> | ->].
          + destruct k' as [a b], k as [c' d]. destruct (Z.eq_dec a c') as [->|Ne1]; [destruct (Z.eq_dec b d) as [->|Ne2]; [reflexivity|]|]; exfalso; (eapply Nk; [exact V'|congruence|exact A]).
          + exfalso. apply (St k' _ V'); [unfold free; rewrite V'; discriminate|exact A]. }
      set (search := fun i => find (fun p => match s i (cell_var (w_prefix w) offset (key p)) with VB true => true | _ => false end) (cells m)).
      set (pos := fun i => match search i with Some p => key p | None => (0, 0)%Z end).
      assert (Sh : shows_bool (w_prefix w) offset (view m) s pos).
      { intro i. destruct (Each i) as (k & Ck & Uk). assert (E : pos i = k).
        { unfold pos. destruct (search i) as [p|] eqn:Fp.
          - unfold search in Fp. apply find_some in Fp. destruct Fp as [Cp Ap]. destruct (proj2 (cell_key m S (key p)) (ex_intro _ p (Logic.conj Cp eq_refl))) as [v V'].
            apply (Uk _ _ V'). unfold at_bool. change (cell_var (w_prefix w') (w_offset w')) with (cell_var (w_prefix w) offset).
            destruct (s i (cell_var (w_prefix w) offset (key p))) as [[]| |]; try discriminate. reflexivity.
          - exfalso. destruct (proj1 (cell_key m S k) Ck) as (p & Cp & ->). unfold search in Fp. pose proof (find_none _ _ Fp p Cp) as K. cbv beta in K.
            destruct Ck as [v V']. pose proof (proj2 (Uk _ _ V') eq_refl) as A. unfold at_bool in A. change (cell_var (w_prefix w') (w_offset w')) with (cell_var (w_prefix w) offset) in A. rewrite A in K. discriminate. }
        rewrite E. split; [exact Ck|exact Uk]. }
      exists pos. split; [exact Sh|]. split.
      * exists k0. split; [exact Hk0|]. destruct (Sh 0%nat) as [Cp Up]. destruct (proj1 (cell_key m S (pos 0%nat)) Cp) as (p & Hp & Ep). destruct Cp as [v V']. rewrite Ep.
        apply (H0 p Hp). rewrite <- Ep. apply (Up _ _ V'). reflexivity.
      * intro i. destruct (proj1 (dens_true _ _ s i Da) (H1 i)) as (T & St & k & Fk & Ak & Nk).
        assert (E : k = pos (Datatypes.S i)) by (apply (proj2 (Sh (Datatypes.S i)) k _ Fk); exact Ak).
        split; [rewrite <- E; exact Fk|]. intro Fp. destruct (T (pos i) Fp) as (k' & Stp & Ak').
        -- apply (proj2 (Sh i) (pos i) _ Fp). reflexivity.
        -- assert (E' : k' = pos (Datatypes.S i)) by (apply (proj2 (Sh (Datatypes.S i)) k' _ (proj2 Stp)); exact Ak'). rewrite <- E'. exact Stp.
    + intros (pos & Sh & (k0 & Hk0 & E0) & Ps). split.
      * exists k0. split; [exact Hk0|]. intros p Cp. destruct (proj2 (cell_key m S (key p)) (ex_intro _ p (Logic.conj Cp eq_refl))) as [v V'].
        rewrite <- E0. exact (proj2 (Sh 0%nat) _ _ V').
      * intro i. apply (dens_true _ _ s i Da). destruct (Ps i) as [F St]. split; [|split].
        -- intros k Fk Ak. assert (E : k = pos i) by (apply (proj2 (Sh i) k _ Fk); exact Ak). subst k. exists (pos (Datatypes.S i)). split; [apply St, Fk|].
           apply (proj2 (Sh (Datatypes.S i)) _ _ F). reflexivity.
        -- intros k v V' N Ak. assert (E : k = pos (Datatypes.S i)) by (apply (proj2 (Sh (Datatypes.S i)) k _ V'); exact Ak). subst k. exact (N F).
        -- exists (pos (Datatypes.S i)). split; [exact F|]. split; [apply (proj2 (Sh (Datatypes.S i)) _ _ F); reflexivity|].
           intros k' Fk' Nk' A. apply Nk'. apply (proj2 (Sh (Datatypes.S i)) _ _ Fk'). exact A.
  - rewrite G. clear -Fg. induction Fg as [|k t ks gs' D F IH]; constructor; [|exact IH]. intros s i. apply (den_true _ _ s i (datom_den _ _ D)).
  - rewrite Vs. intros x d. unfold vars, booleans. rewrite in_map_iff. split.
    + intros (v & [= <- <-] & Hv). split; [reflexivity|]. apply V in Hv. destruct Hv as (p & Cp & ->).
      destruct (proj2 (cell_key m S (key p)) (ex_intro _ p (Logic.conj Cp eq_refl))) as [v V']. eauto.
    + intros (-> & k & v & V' & ->). destruct (proj1 (cell_key m S k) (ex_intro _ _ V')) as (p & Cp & ->). eexists. split; [reflexivity|]. apply V. eauto.
Qed.
(** C47, Boolean variables: with free initial cells the traces are exactly the walks from an initial cell. *)
Theorem spec_bool_walks : forall order w m offset c g,
  w_W w = Some m -> shaped m -> binary m -> ident_chars (w_prefix w) = true -> (0 <= fst offset)%Z -> (0 <= snd offset)%Z ->
  (forall l x, In x (order l) <-> In x l) ->
  (forall k, In k (w_init w) \/ In k (w_goal w) -> in_range m k) ->
  w_init w <> [] -> (forall k, In k (w_init w) -> free (view m) (norm m k)) -> spec order w offset c false = Ok g ->
  forall s, init_safe c g s <->
     exists pos, shows_bool (w_prefix w) offset (view m) s pos /\ (exists k, In k (w_init w) /\ pos 0%nat = norm m k) /\ forall i, step (view m) (pos i) (pos (S i)).
Proof.
  intros order w m offset c g W S B P O1 O2 Ord R N Fr E s.
  assert (NF : exists k, free (view m) k) by (destruct (w_init w) as [|k ks]; [congruence|]; exists (norm m k); apply Fr; left; reflexivity).
  destruct (spec_bool_traces order w m offset c W S B P O1 O2 Ord R N NF) as (g' & E' & H & _).
  rewrite E in E'. injection E' as <-. rewrite (H s). split.
  - intros (pos & Sh & Pi & Ps). exists pos. split; [exact Sh|]. split; [exact Pi|].
    assert (F : forall i, free (view m) (pos i)).
    { intros [|i]; [|exact (proj1 (Ps i))]. destruct Pi as (k & Hk & ->). apply Fr, Hk. }
    intro i. exact (proj2 (Ps i) (F i)).
  - intros (pos & Sh & Pi & Ps). exists pos. split; [exact Sh|]. split; [exact Pi|]. intro i. split; [exact (proj2 (Ps i))|]. intros _. exact (Ps i).
Qed.

(** ** The state of a cell *)
(** C60: with Boolean variables [state] sets the variable of its cell and clears the others. *)
Theorem state_bool : forall w m k offset, w_W w = Some m -> shaped m -> in_range m k ->
  exists l, M_Grid.state w k offset false = Ok l /\ NoDup (map fst l) /\
    forall x v, In (x, v) l <-> exists k' c, view m (fst k') (snd k') = Some c /\ x = cell_var (w_prefix w) offset k' /\ v = (if ij_eqb k' (norm m k) then 1 else 0)%Z.
Proof.
  intros w m k offset W S [A B]. unfold M_Grid.state. rewrite W, wrap_within by assumption. cbn [bind]. eexists. split; [reflexivity|]. cbv zeta.
  set (all := list_prod (map Z.of_nat (List.seq 0 (m_rows m))) (map Z.of_nat (List.seq 0 (m_cols m)))).
  assert (Hall : forall k', In k' all <-> exists c, view m (fst k') (snd k') = Some c).
  { intros [a b]. rewrite cell_key by exact S. unfold all. rewrite in_prod_iff, !in_map_iff. split.
    - intros [(i & <- & Hi) (j & <- & Hj)]. exists (i, j). split; [apply cells_In; cbn [fst snd]; rewrite in_seq in *; lia|reflexivity].
    - intros ([i j] & Hc & [= -> ->]). apply cells_In in Hc. cbn [fst snd] in Hc. split; eexists; (split; [reflexivity|apply in_seq; lia]). }
  split.
  - rewrite map_map. cbn [fst].
    assert (ND : NoDup all).
    { unfold all. assert (G : forall n, NoDup (map Z.of_nat (List.seq 0 n))) by (intro n; apply FinFun.Injective_map_NoDup; [intros x y; apply Nat2Z.inj|apply seq_NoDup]).
      pose proof (G (m_rows m)) as N1. pose proof (G (m_cols m)) as N2. clear -N1 N2. revert N1. generalize (map Z.of_nat (List.seq 0 (m_rows m))) as xs.
      induction xs as [|x xs IH]; intro N1; cbn; [constructor|]. inversion N1 as [|? ? Nx Nxs]; subst. apply L_Tree.NoDup_app_iff. split; [apply FinFun.Injective_map_NoDup; [intros a b [= ->]; reflexivity|exact N2]|]. split; [apply IH, Nxs|].
      intros p Hp Hq. apply in_map_iff in Hp. destruct Hp as (y & <- & _). apply in_prod_iff in Hq. exact (Nx (proj1 Hq)). }
    apply (FinFun.Injective_map_NoDup (f := fun k' => cell_var (w_prefix w) offset k')); [|exact ND]. intros a b E. exact (cell_var_inj _ _ _ _ E).
  - intros x v. rewrite in_map_iff. split.
    + intros (k' & [= <- <-] & Hk). apply Hall in Hk. destruct Hk as [c Hc]. exists k', c. auto.
    + intros (k' & c & Hc & -> & ->). exists k'. split; [reflexivity|]. apply Hall. eauto.
Qed.
(** With integer variables it gives row and column, moved by the offset; the specification of
    [spec] with the same offset does not move them, so the state may be outside the domains. *)
Theorem state_int : forall w m k offset, w_W w = Some m -> in_range m k ->
  M_Grid.state w k offset true = Ok [((w_prefix w ++ "_r")%string, fst (norm m k) + fst offset); ((w_prefix w ++ "_c")%string, snd (norm m k) + snd offset)]%Z.
Proof. intros w m k offset W [A B]. unfold M_Grid.state. rewrite W, wrap_within by assumption. reflexivity. Qed.
Theorem state_domain_refuted : exists w k offset g l x v lo hi, spec (fun l => l) w offset true true = Ok g /\ M_Grid.state w k offset true = Ok l /\
  In (x, v) l /\ M_Base.lookup x (sys_vars g) = Some (DInt lo hi) /\ ~ (lo <= v <= hi)%Z.
Proof.
  exists (World (Some (Mat 1 1 [[0]]%Z)) [(0, 0)]%Z [] "Y" (0, 0)%Z), (0, 0)%Z, (1, 0)%Z. do 6 eexists. split; [vm_compute; reflexivity|]. split; [vm_compute; reflexivity|].
  split; [left; reflexivity|]. split; [reflexivity|]. lia.
Qed.
Example state_case : M_Grid.state (World (Some (Mat 1 2 [[0; 0]]%Z)) [] [] "Y" (0, 0)%Z) (0, -1)%Z (3, 0)%Z false = Ok [("Y_3_0", 0%Z); ("Y_3_1", 1%Z)].
Proof. vm_compute. reflexivity. Qed.

(** ** Cases, and where the claim fails *)
Definition lane (i : list ij) : world := World (Some (Mat 1 3 [[1; 0; 0]]%Z)) i [(0, -1)]%Z "Y" (0, 0)%Z.
Definition lane_mat : mat := Mat 1 3 [[1; 0; 0]]%Z.
Lemma lane_shaped : shaped lane_mat. Proof. split; [reflexivity|repeat constructor]. Qed.
Lemma lane_binary : binary lane_mat.
Proof.
  intros i j v V. apply view_inside in V as R; [|exact lane_shaped]. cbn [m_rows m_cols lane_mat] in R.
  assert (E : (i = 0 /\ (j = 0 \/ j = 1 \/ j = 2))%Z) by lia. destruct E as [-> [-> | [-> | ->]]]; cbn in V; injection V as <-; auto.
Qed.
Lemma lane_range : forall i k, In k (w_init (lane i)) \/ In k (w_goal (lane i)) -> (forall k', In k' i -> in_range lane_mat k') -> in_range lane_mat k.
Proof. intros i k [H|[<-|[]]] R; [apply R, H|]. unfold in_range, within. cbn [fst snd m_rows m_cols lane_mat]. lia. Qed.
(** The trace that goes from [a] to [b] and then stays. *)
Definition there (a b : Z * Z) : nat -> Z * Z := fun i => match i with O => a | _ => b end.
Definition there_int (a b : Z * Z) : trace := fun i x => if String.eqb x "Y_r" then VZ (fst (there a b i)) else VZ (snd (there a b i)).
Definition there_bool (o a b : Z * Z) : trace := fun i x => VB (String.eqb x (cell_var "Y" o (there a b i))).

Example lane_int : exists g, spec (fun l => l) (lane [(0, -2)]%Z) (0, 0)%Z true true = Ok g /\
  sys_vars g = [("Y_r", DInt 0 0); ("Y_c", DInt 0 2)] /\ sys_init g = ["((Y_r = 0) && (Y_c = 1))"] /\
  sys_safety g = ["((Y_r = 0) && (Y_c = 1)) -> (((X (Y_r = 0)) && (X (Y_c = 1))) || ((X (Y_r = 0)) && (X (Y_c = 2))))";
                  "((Y_r = 0) && (Y_c = 2)) -> (((X (Y_r = 0)) && (X (Y_c = 2))) || ((X (Y_r = 0)) && (X (Y_c = 1))))";
                  "!(((X (Y_r = 0)) && (X (Y_c = 0))))"] /\
  init_safe true g (there_int (0, 1)%Z (0, 2)%Z).
Proof.
  eexists. split; [vm_compute; reflexivity|]. split; [reflexivity|]. split; [reflexivity|]. split; [reflexivity|].
  refine (proj2 (spec_int_walks (fun l => l) (lane [(0, -2)]%Z) lane_mat (0, 0)%Z true _ eq_refl lane_shaped lane_binary eq_refl _ _ _ _ _ _) _).
  - intros k H. apply (lane_range _ _ H). intros k' [<-|[]]. unfold in_range, within. cbn. lia.
  - discriminate.
  - intros k [<-|[]]. reflexivity.
  - vm_compute. reflexivity.
  - intros i x d. cbn [side_vars sys_vars spec_of M_Base.lookup]. unfold there_int. destruct (String.eqb x "Y_r") eqn:E.
    + intros [= <-]. destruct i; cbn; lia.
    + destruct (String.eqb x "Y_c"); [|discriminate]. intros [= <-]. destruct i; cbn; lia.
  - exists (there (0, 1)%Z (0, 2)%Z). split; [intros [|i]; split; reflexivity|]. split; [exists (0, -2)%Z; split; [left; reflexivity|reflexivity]|].
    intros [|i]; (split; [|reflexivity]); [right|left]; reflexivity.
Qed.
Example lane_bool : exists g, spec (fun l => l) (lane [(0, -2)]%Z) (2, 1)%Z false false = Ok g /\
  env_init g = ["(Y_2_2 && !Y_2_1 && !Y_2_3)"] /\ env_prog g = ["Y_2_3"] /\
  init_safe false g (there_bool (2, 1)%Z (0, 1)%Z (0, 2)%Z).
Proof.
  eexists. split; [vm_compute; reflexivity|]. split; [reflexivity|]. split; [reflexivity|].
  refine (proj2 (spec_bool_walks (fun l => l) (lane [(0, -2)]%Z) lane_mat (2, 1)%Z false _ eq_refl lane_shaped lane_binary eq_refl _ _ _ _ _ _ _ _) _).
  - cbn. lia.
  - cbn. lia.
  - reflexivity.
  - intros k H. apply (lane_range _ _ H). intros k' [<-|[]]. unfold in_range, within. cbn. lia.
  - discriminate.
  - intros k [<-|[]]. reflexivity.
  - vm_compute. reflexivity.
  - exists (there (0, 1)%Z (0, 2)%Z). split; [|split; [exists (0, -2)%Z; split; [left; reflexivity|reflexivity]|]].
    + intro i. split; [destruct i; eexists; reflexivity|]. intros k v V. unfold there_bool. split; [|intros ->; rewrite String.eqb_refl; reflexivity].
      intro E. assert (E' : String.eqb (cell_var "Y" (2, 1)%Z k) (cell_var "Y" (2, 1)%Z (there (0, 1)%Z (0, 2)%Z i)) = true) by (change (VB (String.eqb (cell_var "Y" (2, 1)%Z k) (cell_var "Y" (2, 1)%Z (there (0, 1)%Z (0, 2)%Z i))) = VB true) in E; congruence).
      apply String.eqb_eq in E'. exact (cell_var_inj _ _ _ _ E').
    + intros [|i]; (split; [|reflexivity]); [right|left]; reflexivity.
Qed.
(** Without initial cells the robot may start in a wall and jump anywhere. *)
Theorem spec_no_init_refuted : exists g s, spec (fun l => l) (lane []) (0, 0)%Z true true = Ok g /\ init_safe true g s /\
  (forall i, allowed (side_vars true g) (s i)) /\
  shows_int "Y" s (there (0, 0)%Z (0, 2)%Z) /\ ~ free (view lane_mat) (0, 0)%Z /\ ~ step (view lane_mat) (0, 0)%Z (0, 2)%Z.
Proof.
  destruct (spec_int_traces (fun l => l) (lane []) lane_mat (0, 0)%Z true eq_refl lane_shaped lane_binary eq_refl) as (g & E & H & _).
  { intros k Hk. apply (lane_range _ _ Hk). intros k' []. }
  exists g, (there_int (0, 0)%Z (0, 2)%Z). split; [exact E|].
  assert (Al : forall i, allowed (side_vars true g) (there_int (0, 0)%Z (0, 2)%Z i)).
  { replace (side_vars true g) with [("Y_r", DInt 0 0); ("Y_c", DInt 0 2)]; [|pose proof (f_equal (fun r => match r with Ok g => side_vars true g | _ => [] end) E) as X; vm_compute in X; exact X].
    intros i x d. cbn [M_Base.lookup]. unfold there_int. destruct (String.eqb x "Y_r") eqn:Ex.
    + intros [= <-]. destruct i; cbn; lia.
    + destruct (String.eqb x "Y_c"); [|discriminate]. intros [= <-]. destruct i; cbn; lia. }
  assert (Sh : shows_int "Y" (there_int (0, 0)%Z (0, 2)%Z) (there (0, 0)%Z (0, 2)%Z)) by (intros [|i]; split; reflexivity).
  split; [|split; [exact Al|split; [exact Sh|split; [discriminate|]]]].
  - apply (H _ Al). exists (there (0, 0)%Z (0, 2)%Z). split; [exact Sh|]. split; [intro N; exfalso; apply N; reflexivity|].
    intro i. split; [reflexivity|]. destruct i; [discriminate|]. intros _. split; [left; reflexivity|reflexivity].
  - intros [[X|X] _]; discriminate X.
Qed.
(** A world of walls gives, with Boolean variables, the clause "", which does not parse; so does a negative offset. *)
Theorem spec_walls_refuted : exists w g f, spec (fun l => l) w (0, 0)%Z true false = Ok g /\ In f (sys_safety g) /\ parse f = None.
Proof.
  exists (World (Some (Mat 1 1 [[1]]%Z)) [] [] "Y" (0, 0)%Z). eexists. exists "". split; [vm_compute; reflexivity|]. split; [cbn; auto|]. vm_compute. reflexivity.
Qed.
Theorem spec_negative_offset_refuted : exists w g f, spec (fun l => l) w (-1, 0)%Z true false = Ok g /\ In f (sys_init g) /\ parse f = None.
Proof.
  exists (World (Some (Mat 1 1 [[0]]%Z)) [(0, 0)]%Z [] "Y" (0, 0)%Z). eexists. eexists. split; [vm_compute; reflexivity|]. split; [cbn; left; reflexivity|]. vm_compute. reflexivity.
Qed.
(** With integer variables, the default, [offset] has no effect, although the documentation says that it is applied. *)
Example spec_int_offset_ignored : forall order w o c, spec order w o c true = spec order w (0, 0)%Z c true.
Proof. reflexivity. Qed.

Print Assumptions spec_int_traces.
Print Assumptions spec_int_walks.
Print Assumptions spec_bool_traces.
Print Assumptions spec_bool_walks.
Print Assumptions spec_no_init_refuted.
Print Assumptions spec_walls_refuted.
Print Assumptions spec_negative_offset_refuted.
Print Assumptions state_bool.
Print Assumptions state_int.
Print Assumptions state_domain_refuted.
