(** C80: making gridworlds. *)
From Coq Require Import List String Ascii Bool Arith ZArith QArith Qround Qminmax Lia.
From Verif Require Import M_Base M_Tree M_Gr1c M_Machine M_Grid S_Grid T_Reach T_Grid T_GridText M_GridGen.
Import ListNotations.
Open Scope string_scope.
Open Scope list_scope.
Open Scope nat_scope.

(** ** Connected cells *)
Lemma path_app g : forall p a q, is_path g a p -> is_path g (last p a) q -> is_path g a (p ++ q).
Proof.
  induction p as [|x p IH]; intros a q P Q; cbn [app]; [exact Q|]. destruct P as (F & A & P). split; [exact F|]. split; [exact A|]. apply IH; [exact P|].
  destruct p as [|y p]; [exact Q|]. replace (last (y :: p) x) with (last (x :: y :: p) a); [exact Q|]. change (last (x :: y :: p) a) with (last (y :: p) a). clear. revert y. induction p as [|z p IH]; intro y; [reflexivity|apply IH].
Qed.
Lemma last_app {A} (q : list A) : forall p a, last (p ++ q) a = last q (last p a).
Proof.
  induction p as [|x p IH]; intro a; [reflexivity|]. cbn [app]. destruct q as [|y q]; [rewrite app_nil_r; reflexivity|].
  transitivity (last (p ++ y :: q) x); [|rewrite IH].
  - destruct (p ++ y :: q) as [|z l] eqn:E; [destruct p; discriminate|]. change (last (x :: z :: l) a) with (last (z :: l) a). clear. revert z. induction l as [|w l IH]; intro z; [reflexivity|apply IH].
  - assert (L : forall d d', last (y :: q) d = last (y :: q) d') by (clear; revert y; induction q as [|z q IH]; intros y d d'; [reflexivity|apply IH]). apply L.
Qed.
Lemma conn_trans g a b c : connected g a b -> connected g b c -> connected g a c.
Proof. intros (p & P & Lp) (q & Q & Lq). exists (p ++ q). split; [apply path_app; [exact P|rewrite Lp; exact Q]|rewrite last_app, Lp; exact Lq]. Qed.
Lemma conn_free g a b : connected g a b -> free g a /\ free g b.
Proof. intros (p & P & <-). split; [destruct p; [exact P|exact (proj1 P)]|apply is_path_free, P]. Qed.
Lemma conn_refl g a : free g a -> connected g a a.
Proof. intro F. exists []. split; [exact F|reflexivity]. Qed.
Lemma conn_step g a b : free g a -> free g b -> adjacent a b -> connected g a b.
Proof. intros A B D. exists [b]. split; [|reflexivity]. split; [exact A|]. split; [exact D|exact B]. Qed.
Lemma conn_sym g a b : connected g a b -> connected g b a.
Proof.
  intros (p & P & <-). revert a P. induction p as [|x p IH]; intros a P; [apply conn_refl, P|]. destruct P as (F & A & P).
  assert (X : free g x) by (destruct p; [exact P|exact (proj1 P)]).
  change (x :: p) with ([x] ++ p). rewrite last_app. cbn [last]. eapply conn_trans; [apply IH, P|]. apply conn_step; [exact X|exact F|]. unfold adjacent in *. lia.
Qed.
Lemma conn_row g i lo : forall n, (forall k, (lo <= k <= lo + Z.of_nat n)%Z -> free g (i, k)) -> connected g (i, lo) (i, lo + Z.of_nat n)%Z.
Proof.
  induction n as [|n IH]; intro H.
  - rewrite Z.add_0_r. apply conn_refl, H. lia.
  - eapply conn_trans; [apply IH; intros k K; apply H; lia|]. apply conn_step; [apply H; lia|apply H; lia|]. unfold adjacent. cbn [fst snd]. lia.
Qed.
Lemma conn_col g j lo : forall n, (forall k, (lo <= k <= lo + Z.of_nat n)%Z -> free g (k, j)) -> connected g (lo, j) (lo + Z.of_nat n, j)%Z.
Proof.
  induction n as [|n IH]; intro H.
  - rewrite Z.add_0_r. apply conn_refl, H. lia.
  - eapply conn_trans; [apply IH; intros k K; apply H; lia|]. apply conn_step; [apply H; lia|apply H; lia|]. unfold adjacent. cbn [fst snd]. lia.
Qed.
(** Along a free piece of a row or of a column *)
Lemma row_line g i a b : (forall k, (Z.min a b <= k <= Z.max a b)%Z -> free g (i, k)) -> connected g (i, a) (i, b).
Proof.
  intro H. destruct (Z.le_gt_cases a b).
  - replace b with (a + Z.of_nat (Z.to_nat (b - a)))%Z at 1 by lia. apply conn_row. intros k K. apply H. lia.
  - apply conn_sym. replace a with (b + Z.of_nat (Z.to_nat (a - b)))%Z at 1 by lia. apply conn_row. intros k K. apply H. lia.
Qed.
Lemma col_line g j a b : (forall k, (Z.min a b <= k <= Z.max a b)%Z -> free g (k, j)) -> connected g (a, j) (b, j).
Proof.
  intro H. destruct (Z.le_gt_cases a b).
  - replace b with (a + Z.of_nat (Z.to_nat (b - a)))%Z at 1 by lia. apply conn_col. intros k K. apply H. lia.
  - apply conn_sym. replace a with (b + Z.of_nat (Z.to_nat (a - b)))%Z at 1 by lia. apply conn_col. intros k K. apply H. lia.
Qed.

(** ** Matrices from lists *)
Lemma chunk_length cols : forall rows W, List.length (chunk rows cols W) = rows.
Proof. induction rows as [|r IH]; intro W; cbn [chunk List.length]; [reflexivity|]. rewrite IH. reflexivity. Qed.
Lemma chunk_rows cols : forall rows W, List.length W = rows * cols -> Forall (fun row => List.length row = cols) (chunk rows cols W).
Proof.
  induction rows as [|r IH]; intros W L; cbn [chunk]; constructor.
  - rewrite firstn_length. cbn in L. lia.
  - apply IH. rewrite skipn_length. cbn in L. lia.
Qed.
Lemma reshape_shaped rows cols W : List.length W = rows * cols -> shaped (reshape rows cols W).
Proof. intro L. split; [apply chunk_length|apply chunk_rows, L]. Qed.
Lemma chunk_cell cols j : j < cols -> forall rows W i, i < rows -> nth j (nth i (chunk rows cols W) []) 0%Z = nth (i * cols + j) W 0%Z.
Proof.
  intro J. induction rows as [|r IH]; intros W i I; [lia|]. cbn [chunk]. destruct i as [|i]; cbn [nth].
  - cbn. rewrite <- (firstn_skipn cols W) at 2. destruct (Nat.lt_ge_cases j (List.length (firstn cols W))).
    + rewrite app_nth1 by assumption. reflexivity.
    + rewrite nth_overflow by assumption. rewrite firstn_length in *. rewrite nth_overflow; [reflexivity|]. rewrite app_length, firstn_length, skipn_length. lia.
  - rewrite IH by lia. rewrite <- (firstn_skipn cols W) at 2. destruct (Nat.lt_ge_cases cols (List.length W)).
    + rewrite app_nth2 by (rewrite firstn_length; lia). f_equal. rewrite firstn_length. lia.
    + rewrite (skipn_all2 W) by lia. rewrite app_nil_r, !nth_overflow; [reflexivity|rewrite firstn_length; lia|cbn; lia].
Qed.
Lemma chunk_concat cols : forall rows W, List.length W = rows * cols -> List.concat (chunk rows cols W) = W.
Proof.
  induction rows as [|r IH]; intros W L; cbn [chunk List.concat].
  - destruct W; [reflexivity|discriminate].
  - rewrite IH; [apply firstn_skipn|]. rewrite skipn_length. cbn in L. lia.
Qed.
Lemma pos_range rows cols k : k < rows * cols -> (0 <= fst (pos cols k) < Z.of_nat rows)%Z /\ (0 <= snd (pos cols k) < Z.of_nat cols)%Z.
Proof.
  intro H. unfold pos. cbn [fst snd]. assert (cols <> 0) by lia. pose proof (Nat.mod_upper_bound k cols). assert (k / cols < rows) by (apply Nat.div_lt_upper_bound; lia). lia.
Qed.
Lemma pos_view rows cols W k : List.length W = rows * cols -> k < rows * cols -> view (reshape rows cols W) (fst (pos cols k)) (snd (pos cols k)) = Some (nth k W 0%Z).
Proof.
  intros L H. destruct (pos_range rows cols k H) as [A B]. rewrite view_at; [|apply reshape_shaped, L|exact A|exact B]. f_equal. unfold cell, reshape. cbn [m_cells].
  unfold pos. cbn [fst snd]. rewrite !Nat2Z.id. assert (cols <> 0) by lia. pose proof (Nat.mod_upper_bound k cols). assert (k / cols < rows) by (apply Nat.div_lt_upper_bound; lia).
  rewrite chunk_cell by lia. f_equal. pose proof (Nat.div_mod k cols). lia.
Qed.
Lemma pos_inj cols a b : cols <> 0 -> pos cols a = pos cols b -> a = b.
Proof. intros C E. unfold pos in E. injection E as E1 E2. apply Nat2Z.inj in E1, E2. rewrite (Nat.div_mod a cols C), (Nat.div_mod b cols C), E1, E2. reflexivity. Qed.

(** ** Draws *)
Lemma choose_in draws k l c : choose draws k l = Ok c -> In c l.
Proof.
  unfold choose, randint. destruct (Z.leb_spec (Z.of_nat (List.length l)) 0); [discriminate|]. cbn [bind]. intro E. injection E as <-. apply nth_In. rewrite Nat2Z.id. apply Nat.mod_upper_bound. lia.
Qed.
Lemma choose_some draws k l : l <> [] -> exists c, choose draws k l = Ok c.
Proof. intro N. unfold choose, randint. destruct (Z.leb_spec (Z.of_nat (List.length l)) 0); [destruct l; [congruence|cbn in *; lia]|]. eexists. reflexivity. Qed.
Lemma choose_nil draws k : choose draws k [] = Err "ValueError".
Proof. reflexivity. Qed.
Lemma in_list_In i l : in_list i l = true <-> In i l.
Proof. unfold in_list. rewrite existsb_exists. split; [intros (x & X & E); apply Nat.eqb_eq in E; subst; exact X|intro H; exists i; split; [exact H|apply Nat.eqb_refl]]. Qed.
Lemma avail_In W used i : In i (avail W used) <-> i < List.length W /\ nth i W 0%Z = 0%Z /\ ~ In i used.
Proof.
  unfold avail. rewrite filter_In, in_seq, andb_true_iff, Z.eqb_eq, negb_true_iff. rewrite <- (in_list_In i used). destruct (in_list i used); intuition (try lia; try congruence).
Qed.
Definition ones (W : list Z) : list nat := filter (fun i => negb (nth i W 0%Z =? 0)%Z) (seq 0 (List.length W)).
Lemma ones_In W i : In i (ones W) <-> i < List.length W /\ nth i W 0%Z <> 0%Z.
Proof. unfold ones. rewrite filter_In, in_seq, negb_true_iff, Z.eqb_neq. intuition lia. Qed.
Lemma nodup_app3 {A} (a b c : list A) : NoDup a -> NoDup b -> NoDup c -> (forall x, In x a -> ~ In x b /\ ~ In x c) -> (forall x, In x b -> ~ In x c) -> NoDup (a ++ b ++ c).
Proof.
  intros NA NB NC D1 D2. assert (G : forall l r : list A, NoDup l -> NoDup r -> (forall x, In x l -> ~ In x r) -> NoDup (l ++ r)).
  { induction l as [|x l IH]; intros r L R D; cbn; [exact R|]. inversion L as [|? ? H L']; subst. constructor; [rewrite in_app_iff; intros [I|I]; [contradiction|apply (D x); [left; reflexivity|exact I]]|]. apply IH; [exact L'|exact R|]. intros y Y. apply D. right. exact Y. }
  apply G; [exact NA| |intros x X; rewrite in_app_iff; destruct (D1 x X); tauto]. apply G; assumption.
Qed.
(** How many cells are left *)
Lemma avail_length W used : NoDup used -> (forall i, In i used -> i < List.length W /\ nth i W 0%Z = 0%Z) ->
  List.length (avail W used) + List.length used + List.length (ones W) = List.length W.
Proof.
  intros N U.
  assert (NA : NoDup (avail W used)) by apply NoDup_filter, seq_NoDup. assert (NO : NoDup (ones W)) by apply NoDup_filter, seq_NoDup.
  assert (X : NoDup (avail W used ++ used ++ ones W)).
  { apply nodup_app3; auto.
    - intros x I. apply avail_In in I. split; [tauto|]. rewrite ones_In. tauto.
    - intros x I. rewrite ones_In. destruct (U x I). tauto. }
  assert (A : List.length (avail W used ++ used ++ ones W) <= List.length (seq 0 (List.length W))).
  { apply NoDup_incl_length; [exact X|]. intros x I. rewrite in_seq. rewrite !in_app_iff, avail_In, ones_In in I. destruct I as [I|[I|I]]; [lia| |lia]. destruct (U x I). lia. }
  assert (B : List.length (seq 0 (List.length W)) <= List.length (avail W used ++ used ++ ones W)).
  { apply NoDup_incl_length; [apply seq_NoDup|]. intros x I. rewrite in_seq in I. rewrite !in_app_iff, avail_In, ones_In.
    destruct (Z.eq_dec (nth x W 0%Z) 0); [|right; right; split; [lia|assumption]]. destruct (in_dec Nat.eq_dec x used); [right; left; assumption|left; split; [lia|tauto]]. }
  rewrite !app_length, seq_length in *. lia.
Qed.
Lemma place_ok draws W others n : forall k acc l, place draws n k W others acc = Ok l -> NoDup (others ++ acc) ->
  exists l', l = acc ++ l' /\ List.length l' = n /\ NoDup (others ++ l) /\ Forall (fun i => i < List.length W /\ nth i W 0%Z = 0%Z) l'.
Proof.
  induction n as [|n IH]; intros k acc l H N; cbn [place] in H.
  - injection H as <-. exists []. rewrite app_nil_r. repeat split; [exact N|constructor].
  - destruct (choose draws k (avail W (others ++ acc))) as [c|] eqn:C; [|discriminate]. cbn [bind] in H. apply choose_in, avail_In in C. destruct C as (C1 & C2 & C3).
    destruct (IH _ _ _ H) as (l' & -> & Ln & Nd & Fa).
    { rewrite app_assoc. clear - N C3. induction (others ++ acc) as [|x l IH]; cbn; [constructor; [intros []|constructor]|]. inversion N as [|? ? X N']; subst. constructor.
      - rewrite in_app_iff. cbn. intros [I|[I|[]]]; [contradiction|]. apply C3. left. symmetry. exact I.
      - apply IH; [|exact N']. intro I. apply C3. right. exact I. }
    exists (c :: l'). rewrite <- app_assoc in *. cbn [app List.length] in *. split; [reflexivity|]. split; [lia|]. split; [exact Nd|]. constructor; [split; assumption|exact Fa].
Qed.

(** ** Walls *)
Lemma chain_links fuel w m first : w_W w = Some m -> shaped m -> m_rows m * m_cols m < fuel -> forall l,
  (forall a, In a (first :: l) -> (0 <= fst a < Z.of_nat (m_rows m))%Z /\ (0 <= snd a < Z.of_nat (m_cols m))%Z) ->
  exists b, chain_ok fuel w first l = Ok b /\ (b = true -> forall a, In a l -> connected (view m) a first) /\
    ((forall a b, In a (first :: l) -> In b (first :: l) -> connected (view m) a b) -> b = true).
Proof.
  intros HW S F. assert (R : forall a b, (0 <= fst a < Z.of_nat (m_rows m))%Z /\ (0 <= snd a < Z.of_nat (m_cols m))%Z -> (0 <= fst b < Z.of_nat (m_rows m))%Z /\ (0 <= snd b < Z.of_nat (m_cols m))%Z ->
    exists x, is_reachable fuel w a b = Ok x /\ (x = true <-> connected (view m) a b)).
  { intros [a1 a2] [b1 b2] [A1 A2] [B1 B2]. cbn [fst snd] in *. destruct (is_reachable_decides w m (a1, a2) (b1, b2) fuel HW S F) as [D _]. unfold within in D. cbn [fst snd] in D.
    destruct D as (x & X & Y); try lia. exists x. split; [exact X|]. rewrite Y. unfold wrapped. destruct (Z.ltb_spec a1 0), (Z.ltb_spec a2 0), (Z.ltb_spec b1 0), (Z.ltb_spec b2 0); try lia. reflexivity. }
  induction l as [|a r IH]; intro I; cbn [chain_ok].
  - exists true. split; [reflexivity|]. split; [intros _ a []|reflexivity].
  - set (nxt := match r with b :: _ => b | [] => first end).
    assert (In nxt (first :: r)) as HN by (unfold nxt; destruct r; [left; reflexivity|right; left; reflexivity]).
    destruct (R a nxt) as (x & X & Y); [apply I; right; left; reflexivity|apply I; destruct HN as [<-|HN]; [left; reflexivity|right; right; exact HN]|]. change (is_reachable fuel w a match r with [] => first | b :: _ => b end) with (is_reachable fuel w a nxt). rewrite X. cbn [bind].
    destruct IH as (b & B1 & B2 & B3); [intros c [<-|C]; apply I; [left; reflexivity|right; right; exact C]|]. destruct x.
    + exists b. split; [exact B1|]. assert (C : connected (view m) a nxt) by (apply Y; reflexivity). split.
      * intros E c [<-|J]; [|apply B2; assumption]. unfold nxt in C. destruct r as [|d r]; [exact C|]. eapply conn_trans; [exact C|]. apply B2; [exact E|left; reflexivity].
      * intro H. apply B3. intros c d J K. apply H; [destruct J as [<-|J]; [left; reflexivity|right; right; exact J]|destruct K as [<-|K]; [left; reflexivity|right; right; exact K]].
    + exists false. split; [reflexivity|]. split; [discriminate|]. intro H. apply Y, H; [right; left; reflexivity|destruct HN as [<-|HN]; [left; reflexivity|right; right; exact HN]].
Qed.
Definition mutual (m : mat) (l : list ij) : Prop := forall a b, In a l -> In b l -> connected (view m) a b.
Lemma feasible_ok rows cols prefix inits goals W : List.length W = rows * cols -> Forall (fun i => i < rows * cols) (inits ++ goals) ->
  exists b, feasible rows cols prefix inits goals W = Ok b /\ (b = true <-> mutual (reshape rows cols W) (map (pos cols) (inits ++ goals))).
Proof.
  intros L F. unfold feasible. set (chain := map (pos cols) (inits ++ goals)). set (m := reshape rows cols W). set (w := World (Some m) [] [] prefix (0, 0)%Z).
  destruct chain as [|f r] eqn:EC.
  - exists true. cbn. split; [reflexivity|]. split; [intros _ a b []|reflexivity].
  - destruct (chain_links (S (rows * cols)) w m f eq_refl (reshape_shaped _ _ _ L) (Nat.lt_succ_diag_r _) (f :: r)) as (b & B1 & B2 & B3).
    { intros a I. assert (In a chain) as J by (rewrite EC; destruct I as [<-|I]; [left; reflexivity|exact I]). unfold chain in J. apply in_map_iff in J. destruct J as (k & <- & K). apply pos_range. rewrite Forall_forall in F. apply F, K. }
    exists b. split; [exact B1|]. split.
    + intros E x y X Y. eapply conn_trans; [apply B2; assumption|]. apply conn_sym, B2; assumption.
    + intro M. apply B3. intros x y X Y. apply M; [destruct X as [<-|X]; [left; reflexivity|exact X]|destruct Y as [<-|Y]; [left; reflexivity|exact Y]].
Qed.
Lemma set_back c (W : list Z) : nth c W 0%Z = 0%Z -> c < List.length W -> set_nth c 0%Z (set_nth c 1%Z W) = W.
Proof. revert c. induction W as [|x W IH]; intros [|c] H L; cbn in *; try lia; [rewrite H; reflexivity|]. rewrite IH by (assumption || lia). reflexivity. Qed.
Lemma ones_set c (W : list Z) : nth c W 0%Z = 0%Z -> c < List.length W -> List.length (ones (set_nth c 1%Z W)) = S (List.length (ones W)).
Proof.
  intros H L. assert (NO : forall V, NoDup (ones V)) by (intro; apply NoDup_filter, seq_NoDup).
  assert (N : NoDup (c :: ones W)) by (constructor; [rewrite ones_In; tauto|apply NO]).
  change (S (List.length (ones W))) with (List.length (c :: ones W)). apply Nat.le_antisymm; (apply NoDup_incl_length; [first [apply NO|exact N]|]); intros x I.
  - apply ones_In in I. rewrite set_nth_length, nth_set_nth in I by exact L. destruct (Nat.eqb_spec x c); [left; congruence|right; apply ones_In; tauto].
  - apply ones_In. rewrite set_nth_length, nth_set_nth by exact L. destruct I as [<-|I]; [rewrite Nat.eqb_refl; split; [exact L|discriminate]|]. apply ones_In in I. destruct (Nat.eqb_spec x c); [split; [tauto|discriminate]|exact I].
Qed.
Record built (rows cols : nat) (inits goals trolls : list nat) (ensure : bool) (count : nat) (W : list Z) : Prop := {
  b_length : List.length W = rows * cols;
  b_binary : Forall (fun c => c = 0%Z \/ c = 1%Z) W;
  b_count : List.length (ones W) = count;
  b_free : Forall (fun i => i < rows * cols /\ nth i W 0%Z = 0%Z) (goals ++ inits ++ trolls);
  b_feasible : ensure = true -> mutual (reshape rows cols W) (map (pos cols) (inits ++ goals)) }.
Lemma built_set rows cols inits goals trolls ensure count W c : built rows cols inits goals trolls ensure count W -> c < List.length W -> nth c W 0%Z = 0%Z -> ~ In c (goals ++ inits ++ trolls) ->
  (ensure = true -> mutual (reshape rows cols (set_nth c 1%Z W)) (map (pos cols) (inits ++ goals))) -> built rows cols inits goals trolls ensure (S count) (set_nth c 1%Z W).
Proof.
  intros [L B C F M] H1 H2 H3 HM. split.
  - rewrite set_nth_length. exact L.
  - apply set_nth_Forall; [right; reflexivity|exact B].
  - rewrite ones_set by assumption. rewrite C. reflexivity.
  - rewrite Forall_forall in *. intros i I. destruct (F i I). rewrite nth_set_nth by exact H1. destruct (Nat.eqb_spec i c); [subst; contradiction|]. split; assumption.
  - exact HM.
Qed.
Lemma walls_ok draws late rows cols num prefix ensure inits goals trolls fuel : forall count k W V, built rows cols inits goals trolls ensure count W -> count <= num ->
  walls draws fuel late rows cols num prefix ensure inits goals trolls count k W = Ok (Some V) -> built rows cols inits goals trolls ensure num V.
Proof.
  induction fuel as [|f IH]; intros count k W V B LE H; [discriminate|]. cbn [walls] in H. destruct (Nat.ltb_spec count num).
  2:{ injection H as <-. replace num with count by lia. exact B. }
  destruct (choose draws k (avail W (goals ++ inits ++ trolls))) as [c|] eqn:C; [|discriminate]. cbn [bind] in H. apply choose_in, avail_In in C. destruct C as (C1 & C2 & C3).
  destruct ensure.
  - destruct (late k); [discriminate|].
    destruct (feasible_ok rows cols prefix inits goals (set_nth c 1%Z W)) as (b & Eb & Hb).
    { rewrite set_nth_length. apply B. }
    { pose proof (b_free _ _ _ _ _ _ _ _ B) as F. rewrite Forall_forall in *. intros i I. apply F. rewrite !in_app_iff in *. tauto. }
    rewrite Eb in H. cbn [bind] in H. destruct b.
    + eapply IH; [|exact H0|exact H]. apply built_set; auto. intros _. apply Hb. reflexivity.
    + rewrite set_back in H by assumption. eapply IH; [exact B|exact LE|exact H].
  - eapply IH; [|exact H0|exact H]. apply built_set; auto. discriminate.
Qed.
Lemma ones_zero n : ones (repeat 0%Z n) = [].
Proof. destruct (ones (repeat 0%Z n)) as [|x l] eqn:E; [reflexivity|]. exfalso. assert (I : In x (ones (repeat 0%Z n))) by (rewrite E; left; reflexivity). apply ones_In in I. destruct I as [_ I]. apply I. apply nth_repeat. Qed.
Lemma empty_mutual rows cols l : Forall (fun i => i < rows * cols) l -> mutual (reshape rows cols (repeat 0%Z (rows * cols))) (map (pos cols) l).
Proof.
  intro F. set (m := reshape rows cols (repeat 0%Z (rows * cols))). assert (L : List.length (repeat 0%Z (rows * cols)) = rows * cols) by apply repeat_length.
  assert (A : forall i j, (0 <= i < Z.of_nat rows)%Z -> (0 <= j < Z.of_nat cols)%Z -> free (view m) (i, j)).
  { intros i j I J. unfold free. cbn [fst snd]. rewrite view_at; [|apply reshape_shaped, L|exact I|exact J]. f_equal. unfold cell, m, reshape. cbn [m_cells]. rewrite chunk_cell by lia. apply nth_repeat. }
  assert (O : forall k, k < rows * cols -> connected (view m) (pos cols k) (0, 0)%Z).
  { intros k K. destruct (pos_range rows cols k K) as [P1 P2]. destruct (pos cols k) as [i j]. cbn [fst snd] in *. eapply conn_trans.
    - apply (row_line _ i j 0%Z). intros x X. apply A; lia.
    - apply (col_line _ 0%Z i 0%Z). intros x X. apply A; lia. }
  intros a b Ha Hb. apply in_map_iff in Ha, Hb. destruct Ha as (x & <- & X), Hb as (y & <- & Y). rewrite Forall_forall in F. eapply conn_trans; [apply O, F, X|apply conn_sym, O, F, Y].
Qed.
Lemma ones_cells W : Forall (fun c => c = 0%Z \/ c = 1%Z) W -> List.length (ones W) = List.length (filter (fun c => c =? 1)%Z W).
Proof.
  intro B. unfold ones. assert (G : forall V s U, W = U ++ V -> List.length U = s -> List.length (filter (fun i => negb (nth i W 0%Z =? 0)%Z) (seq s (List.length V))) = List.length (filter (fun c => c =? 1)%Z V)).
  { induction V as [|x V IH]; intros s U E L; cbn [List.length seq filter]; [reflexivity|].
    assert (X : nth s W 0%Z = x) by (rewrite E, app_nth2, L, Nat.sub_diag by lia; reflexivity). rewrite X.
    specialize (IH (S s) (U ++ [x])). rewrite <- app_assoc in IH. cbn [app] in IH. specialize (IH E). rewrite app_length in IH. cbn in IH. specialize (IH ltac:(lia)).
    assert (x = 0%Z \/ x = 1%Z) as [-> | ->] by (rewrite Forall_forall in B; apply B; rewrite E; apply in_elt); cbn; rewrite IH; reflexivity. }
  apply (G W 0 []); reflexivity.
Qed.

(** A random world has the size, the walls and the cells that were asked for; initial cells, goals and centres of trolls are
    distinct and free; if it was to be feasible, all initial cells and goals are mutually reachable.  For all draws. *)
Theorem random_world_made : forall draws fuel late rows cols num_blocks num_init num_goals num_trolls prefix ensure w trolls,
  random_world draws fuel late rows cols num_blocks num_init num_goals num_trolls prefix ensure = Ok (Some (w, trolls)) ->
  exists m, w_W w = Some m /\ shaped m /\ m_rows m = rows /\ m_cols m = cols /\ binary m /\ w_prefix w = prefix /\ w_offset w = (0, 0)%Z /\
    List.length (filter (fun c => c =? 1)%Z (List.concat (m_cells m))) = num_blocks /\
    List.length (w_init w) = num_init /\ List.length (w_goal w) = num_goals /\ List.length trolls = num_trolls /\
    NoDup (w_init w ++ w_goal w ++ map fst trolls) /\ (forall a, In a (w_init w ++ w_goal w ++ map fst trolls) -> free (view m) a) /\
    Forall (fun t => snd t = 1%Z) trolls /\
    (ensure = true -> mutual m (w_init w ++ w_goal w)).
Proof.
  intros draws fuel late rows cols nb ni ng nt prefix ensure w trolls H. unfold random_world in H. set (W0 := repeat 0%Z (rows * cols)) in *.
  assert (L0 : List.length W0 = rows * cols) by apply repeat_length.
  destruct (place draws ng 0 W0 [] []) as [goals|] eqn:EG; [|discriminate]. cbn [bind] in H.
  destruct (place draws ni ng W0 goals []) as [inits|] eqn:EI; [|discriminate]. cbn [bind] in H.
  destruct (place draws nt (ng + ni) W0 (goals ++ inits) []) as [ts|] eqn:ET; [|discriminate]. cbn [bind] in H.
  destruct (place_ok _ _ _ _ _ _ _ EG (NoDup_nil _)) as (g' & -> & LG & NG & FG). cbn [app] in *.
  destruct (place_ok _ _ _ _ _ _ _ EI) as (i' & -> & LI & NI & FI); [rewrite app_nil_r; exact NG|]. cbn [app] in *.
  destruct (place_ok _ _ _ _ _ _ _ ET) as (t' & -> & LT & NT & FT); [rewrite app_nil_r; exact NI|]. cbn [app] in *.
  destruct (walls draws fuel late rows cols nb prefix ensure i' g' t' 0 (ng + ni + nt) W0) as [[V|]|] eqn:EW; [|discriminate|discriminate]. cbn [bind] in H. injection H as <- <-.
  assert (B0 : built rows cols i' g' t' ensure 0 W0).
  { split; [exact L0| | | |].
    - apply Forall_forall. intros x X. apply repeat_spec in X. left. exact X.
    - unfold W0. rewrite ones_zero. reflexivity.
    - rewrite !Forall_app. rewrite L0 in *. split; [exact FG|split; assumption].
    - intros _. apply empty_mutual. rewrite Forall_app. rewrite L0 in *. split; [eapply Forall_impl; [|exact FI]|eapply Forall_impl; [|exact FG]]; cbn; intros a X; apply X. }
  pose proof (walls_ok _ _ _ _ _ _ _ _ _ _ _ _ _ _ _ B0 (Nat.le_0_l _) EW) as [L B C F M].
  exists (reshape rows cols V). cbn [w_W w_init w_goal w_prefix w_offset]. split; [reflexivity|]. split; [apply reshape_shaped, L|]. split; [reflexivity|]. split; [reflexivity|]. split; [|split; [reflexivity|split; [reflexivity|]]].
  { intros i j v E. pose proof E as E'. apply view_inside in E'; [|apply reshape_shaped, L]. cbn [m_rows m_cols reshape] in E'. destruct E' as [I J]. rewrite view_at in E; [|apply reshape_shaped, L|exact I|exact J].
    injection E as <-. unfold cell, reshape. cbn [m_cells]. rewrite chunk_cell by lia. rewrite Forall_forall in B. apply B. apply nth_In. nia. }
  cbn [m_cells reshape]. rewrite chunk_concat by exact L. rewrite <- ones_cells by exact B. split; [exact C|].
  rewrite !map_length. split; [exact LI|]. split; [exact LG|]. split; [exact LT|]. rewrite map_map. cbn [fst]. rewrite <- !map_app.
  rewrite Forall_forall in F. split; [|split; [|split]].
  - assert (ND : NoDup (i' ++ g' ++ t')).
    { apply (Permutation.Permutation_NoDup (l := (g' ++ i') ++ t')); [|exact NT]. rewrite (app_assoc i'). apply Permutation.Permutation_app_tail, Permutation.Permutation_app_comm. }
    assert (K : forall x, In x (i' ++ g' ++ t') -> x < rows * cols) by (intros x X; apply F; rewrite !in_app_iff in *; tauto).
    clear - ND K. induction (i' ++ g' ++ t') as [|x l IH]; cbn [map]; [constructor|]. inversion ND as [|? ? X N]; subst. constructor; [|apply IH; [exact N|intros y Y; apply K; right; exact Y]].
    intro I. apply in_map_iff in I. destruct I as (y & E & Y). apply pos_inj in E; [subst; contradiction|]. specialize (K x (or_introl eq_refl)). lia.
  - intros a I. apply in_map_iff in I. destruct I as (k & <- & K). destruct (F k) as [F1 F2]; [rewrite !in_app_iff in *; tauto|]. unfold free. rewrite (pos_view rows cols V k L F1), F2. reflexivity.
  - apply Forall_forall. intros t I. apply in_map_iff in I. destruct I as (k & <- & _). reflexivity.
  - exact M.
Qed.

(** ** When a random world is made *)
Lemma nodup_snoc {A} (l : list A) x : NoDup l -> ~ In x l -> NoDup (l ++ [x]).
Proof.
  intros N H. induction N as [|y l Y N IH]; cbn; [constructor; [intros []|constructor]|]. constructor; [rewrite in_app_iff; cbn; intros [I|[I|[]]]; [contradiction|subst; apply H; left; reflexivity]|].
  apply IH. intro I. apply H. right. exact I.
Qed.
Lemma place_total draws W others n : forall k acc, NoDup (others ++ acc) -> (forall i, In i (others ++ acc) -> i < List.length W /\ nth i W 0%Z = 0%Z) ->
  (n + List.length (others ++ acc) + List.length (ones W) <= List.length W -> exists l, place draws n k W others acc = Ok l) /\
  (List.length W < n + List.length (others ++ acc) + List.length (ones W) -> place draws n k W others acc = Err "ValueError").
Proof.
  induction n as [|n IH]; intros k acc N U; cbn [place]; pose proof (avail_length W (others ++ acc) N U) as A.
  - split; [eexists; reflexivity|lia].
  - destruct (avail W (others ++ acc)) as [|c0 r] eqn:E; cbn [List.length] in A.
    + split; [lia|]. intros _. rewrite choose_nil. reflexivity.
    + destruct (choose_some draws k (c0 :: r)) as [c C]; [discriminate|]. rewrite C. cbn [bind]. apply choose_in in C. rewrite <- E in C. apply avail_In in C. destruct C as (C1 & C2 & C3).
      destruct (IH (S k) (acc ++ [c])) as [I1 I2]; rewrite ?app_assoc.
      * apply nodup_snoc; assumption.
      * intros i I. apply in_app_iff in I. destruct I as [I|[<-|[]]]; [apply U, I|split; assumption].
      * rewrite app_assoc, (app_length (others ++ acc)) in I1, I2. cbn [List.length] in I1, I2. split; intro H; [apply I1; lia|apply I2; lia].
Qed.
Lemma walls_total draws late rows cols num prefix inits goals trolls fuel : forall count k W, built rows cols inits goals trolls false count W -> NoDup (goals ++ inits ++ trolls) -> count <= num -> num - count < fuel ->
  (num + List.length (goals ++ inits ++ trolls) <= rows * cols -> exists V, walls draws fuel late rows cols num prefix false inits goals trolls count k W = Ok (Some V)) /\
  (rows * cols < num + List.length (goals ++ inits ++ trolls) -> walls draws fuel late rows cols num prefix false inits goals trolls count k W = Err "ValueError").
Proof.
  induction fuel as [|f IH]; intros count k W B N LE F; [lia|]. cbn [walls].
  assert (A : List.length (avail W (goals ++ inits ++ trolls)) + List.length (goals ++ inits ++ trolls) + count = rows * cols).
  { destruct B as [L _ C U _]. rewrite <- C, <- L. apply avail_length; [exact N|]. rewrite <- L in U. rewrite Forall_forall in U. exact U. }
  destruct (Nat.ltb_spec count num).
  2:{ split; [eexists; reflexivity|lia]. }
  destruct (avail W (goals ++ inits ++ trolls)) as [|c0 r] eqn:E; cbn [List.length] in A.
  - split; [lia|]. intros _. rewrite choose_nil. reflexivity.
  - destruct (choose_some draws k (c0 :: r)) as [c C]; [discriminate|]. rewrite C. cbn [bind]. apply choose_in in C. rewrite <- E in C. apply avail_In in C. destruct C as (C1 & C2 & C3).
    destruct (IH (S count) (S k) (set_nth c 1%Z W)) as [I1 I2]; [apply built_set; auto; discriminate|exact N|lia|lia|]. split; [exact I1|exact I2].
Qed.
Lemma built_start rows cols g i t ensure : Forall (fun k => k < rows * cols) (g ++ i ++ t) -> built rows cols i g t ensure 0 (repeat 0%Z (rows * cols)).
Proof.
  intro F. split.
  - apply repeat_length.
  - apply Forall_forall. intros x X. apply repeat_spec in X. left. exact X.
  - rewrite ones_zero. reflexivity.
  - eapply Forall_impl; [|exact F]. cbn. intros a A. split; [exact A|apply nth_repeat].
  - intros _. apply empty_mutual. rewrite !Forall_app in *. tauto.
Qed.
(** Without feasibility, a world is made whenever the cells suffice, and else ValueError is raised *)
Theorem random_world_answers : forall draws fuel late rows cols num_blocks num_init num_goals num_trolls prefix, num_blocks < fuel ->
  let r := random_world draws fuel late rows cols num_blocks num_init num_goals num_trolls prefix false in
  (num_goals + num_init + num_trolls + num_blocks <= rows * cols -> exists x, r = Ok (Some x)) /\
  (rows * cols < num_goals + num_init + num_trolls + num_blocks -> r = Err "ValueError").
Proof.
  intros draws fuel late rows cols nb ni ng nt prefix F r. unfold r, random_world. clear r. set (W0 := repeat 0%Z (rows * cols)) in *.
  assert (L0 : List.length W0 = rows * cols) by apply repeat_length. assert (O0 : List.length (ones W0) = 0) by (unfold W0; rewrite ones_zero; reflexivity).
  destruct (place_total draws W0 [] ng 0 [] (NoDup_nil _)) as [A1 A2]; [intros i []|]. cbn [app List.length] in A1, A2.
  destruct (place draws ng 0 W0 [] []) as [goals|e] eqn:EG.
  2:{ destruct (Nat.le_gt_cases (ng + 0 + List.length (ones W0)) (List.length W0)); [destruct (A1 H); discriminate|]. rewrite (A2 H). cbn [bind]. split; [lia|reflexivity]. }
  destruct (place_ok _ _ _ _ _ _ _ EG (NoDup_nil _)) as (g' & -> & LG & NG & FG). cbn [app bind] in *.
  assert (V : forall l, Forall (fun i => i < List.length W0 /\ nth i W0 0%Z = 0%Z) l -> forall i, In i (l ++ []) -> i < List.length W0 /\ nth i W0 0%Z = 0%Z) by (intros l H i I; rewrite app_nil_r in I; rewrite Forall_forall in H; apply H, I).
  destruct (place_total draws W0 g' ni ng []) as [B1 B2]; [rewrite app_nil_r; exact NG|apply V, FG|]. rewrite app_nil_r in B1, B2.
  destruct (place draws ni ng W0 g' []) as [inits|e] eqn:EI.
  2:{ destruct (Nat.le_gt_cases (ni + List.length g' + List.length (ones W0)) (List.length W0)); [destruct (B1 H); discriminate|]. rewrite (B2 H). cbn [bind]. split; [lia|reflexivity]. }
  destruct (place_ok _ _ _ _ _ _ _ EI) as (i' & -> & LI & NI & FI); [rewrite app_nil_r; exact NG|]. cbn [app bind] in *.
  assert (FGI : Forall (fun i => i < List.length W0 /\ nth i W0 0%Z = 0%Z) (g' ++ i')) by (apply Forall_app; split; assumption).
  destruct (place_total draws W0 (g' ++ i') nt (ng + ni) []) as [C1 C2]; [rewrite app_nil_r; exact NI|apply V, FGI|]. rewrite app_nil_r, app_length in C1, C2.
  destruct (place draws nt (ng + ni) W0 (g' ++ i') []) as [ts|e] eqn:ET.
  2:{ destruct (Nat.le_gt_cases (nt + (List.length g' + List.length i') + List.length (ones W0)) (List.length W0)); [destruct (C1 H); discriminate|]. rewrite (C2 H). cbn [bind]. split; [lia|reflexivity]. }
  destruct (place_ok _ _ _ _ _ _ _ ET) as (t' & -> & LT & NT & FT); [rewrite app_nil_r; exact NI|]. cbn [app bind] in *. rewrite <- app_assoc in NT.
  assert (B0 : built rows cols i' g' t' false 0 W0).
  { apply built_start. rewrite !Forall_app in *. rewrite L0 in *. repeat split; (eapply Forall_impl; [|first [exact FG|exact FI|exact FT]]); cbn; intros a X; apply X. }
  destruct (walls_total draws late rows cols nb prefix i' g' t' fuel 0 (ng + ni + nt) W0 B0 NT (Nat.le_0_l _)) as [D1 D2]; [lia|]. rewrite !app_length in D1, D2.
  split; intro H.
  - destruct D1 as [X D1]; [lia|]. rewrite D1. eexists. reflexivity.
  - rewrite D2 by lia. reflexivity.
Qed.
(** With feasibility and no time limit, the function may try the same cell for ever *)
Definition first_and_last : nat -> nat := fun k => match k with 0 => 0 | 1 => 1 | _ => 0 end.
Theorem random_world_answers_refuted : exists draws, forall fuel, random_world draws fuel (fun _ => false) 1 3 1 1 1 0 "Y" true = Err "(runs on)".
Proof.
  exists first_and_last. intro fuel. unfold random_world. cbn [place repeat Nat.mul Nat.add].
  change (place first_and_last 1 0 [0; 0; 0]%Z [] []) with (Ok [0]). cbn [bind].
  assert (P : place first_and_last 1 1 [0; 0; 0]%Z [0] [] = Ok [2]) by reflexivity. cbn [place] in P. 
  assert (G : forall k, 2 <= k -> walls first_and_last fuel (fun _ => false) 1 3 1 "Y" true [2] [0] [] 0 k [0; 0; 0]%Z = Err "(runs on)").
  { induction fuel as [|f IH]; intros k K; [reflexivity|]. cbn [walls]. change (0 <? 1) with true. cbn iota.
    assert (C : choose first_and_last k (avail [0; 0; 0]%Z ([0] ++ [2] ++ [])) = Ok 1) by (destruct k as [|[|k]]; [lia|lia|reflexivity]). rewrite C. cbn [bind].
    replace (feasible 1 3 "Y" [2] [0] (set_nth 1 1%Z [0; 0; 0]%Z)) with (@Ok bool false) by (vm_compute; reflexivity). cbn [bind].
    apply IH. lia. }
  match goal with |- bind ?a _ = _ => change a with (@Ok (list nat) [0]) end. cbn [bind].
  match goal with |- bind ?a _ = _ => change a with (@Ok (list nat) [2]) end. cbn [bind].
  rewrite G by lia. reflexivity.
Qed.
Print Assumptions random_world_made.
Print Assumptions random_world_answers.
Print Assumptions random_world_answers_refuted.

Definition counter : nat -> nat := fun k => k * 7 + 3.
Example a_random_world : exists w t, random_world counter 20 (fun _ => false) 3 4 4 1 2 1 "Y" true = Ok (Some (w, t)) /\
  w_init w = [(2, 0)]%Z /\ w_goal w = [(0, 3); (2, 3)]%Z /\ t = [((1, 3), 1)]%Z.
Proof. eexists. eexists. split; [vm_compute; reflexivity|]. repeat split. Qed.
Example a_late_world : random_world counter 20 (fun k => 4 <=? k) 3 4 5 1 2 1 "Y" true = Ok None.
Proof. vm_compute. reflexivity. Qed.
Example too_many_walls : random_world counter 20 (fun _ => false) 2 2 3 1 1 0 "Y" false = Err "ValueError".
Proof. vm_compute. reflexivity. Qed.

(** ** Worlds without walls *)
Lemma list_app a b : list_ascii_of_string (a ++ b)%string = list_ascii_of_string a ++ list_ascii_of_string b.
Proof. induction a as [|c a IH]; [reflexivity|]. cbn. rewrite IH. reflexivity. Qed.
Lemma splitlines_end : forall l cur, one_line l -> rev cur ++ l <> [] -> splitlines cur l = [rev cur ++ l].
Proof.
  induction l as [|c l IH]; intros cur H N; cbn [splitlines].
  - rewrite app_nil_r in *. destruct cur; [contradiction|reflexivity].
  - rewrite (H c) by (left; reflexivity). rewrite IH; [cbn [rev]; rewrite <- app_assoc; reflexivity|intros x Hx; apply H; right; exact Hx|].
    cbn [rev]. rewrite <- app_assoc. destruct (rev cur); discriminate.
Qed.
(** The world has the size that was asked for, no walls, no initial cells and no goals; and the prefix is "Y", whatever was asked for *)
Theorem unoccupied_made : forall rows cols prefix, unoccupied rows cols prefix = Ok (World (Some (tab rows cols (fun _ _ => 0%Z))) [] [] "Y" (0, 0)%Z).
Proof.
  intros r c prefix. unfold unoccupied, loads. rewrite !list_app. cbn [list_ascii_of_string app].
  rewrite splitlines_end; [|apply header_line|cbn [rev app]; destruct (str_nat_cons r) as (x & l & -> & _); discriminate]. cbn [rev app load_lines]. rewrite header_words.
  pose proof (py_int_str_nat r) as Pr. pose proof (py_int_str_nat c) as Pc. pose proof (digits_facts r) as F.
  destruct (str_nat_cons r) as (x & l & E & _). rewrite E in *. destruct (F x (or_introl eq_refl)) as (_ & _ & N).
  destruct (Ascii.eqb_spec x "#"); [contradiction|]. rewrite Pr, Pc. cbn [of_opt bind].
  destruct (Z.ltb_spec (Z.of_nat r) 0); [lia|]. destruct (Z.ltb_spec (Z.of_nat c) 0); [lia|]. cbn [orb]. rewrite !Nat2Z.id. reflexivity.
Qed.

(** ** Samples *)
Lemma remove_nth_In {A} (x : A) : forall l i, In x (remove_nth i l) -> In x l.
Proof. induction l as [|y l IH]; intros [|i] H; cbn [remove_nth] in H; [contradiction|contradiction|right; exact H|]. destruct H as [<-|H]; [left; reflexivity|right; apply (IH i), H]. Qed.
Lemma remove_nth_length {A} : forall (l : list A) i, i < List.length l -> S (List.length (remove_nth i l)) = List.length l.
Proof. induction l as [|y l IH]; intros [|i] H; cbn [remove_nth List.length] in *; try lia. rewrite IH; lia. Qed.
Lemma remove_nth_nodup {A} (d : A) : forall l i, NoDup l -> i < List.length l -> NoDup (remove_nth i l) /\ ~ In (nth i l d) (remove_nth i l).
Proof.
  induction l as [|y l IH]; intros [|i] N H; cbn [remove_nth List.length nth] in *; try lia; inversion N as [|? ? Y N']; subst; [split; assumption|].
  destruct (IH i N') as [A1 A2]; [lia|]. split; [constructor; [intro I; apply Y, (remove_nth_In _ _ _ I)|exact A1]|]. intros [E|I]; [|contradiction]. apply Y. rewrite E. apply nth_In. lia.
Qed.
Lemma sample_ok draws : forall n k l s, sample draws n k l = Ok s -> List.length s = n /\ incl s l /\ (NoDup l -> NoDup s).
Proof.
  induction n as [|n IH]; intros k l s H; cbn [sample] in H.
  - injection H as <-. split; [reflexivity|]. split; [intros x []|]. intros _. constructor.
  - unfold randint in H. destruct (Z.leb_spec (Z.of_nat (List.length l)) 0); [discriminate|]. cbn [bind] in H. rewrite Nat2Z.id in H. set (i := draws k mod List.length l) in *.
    assert (Hi : i < List.length l) by (apply Nat.mod_upper_bound; lia).
    destruct (sample draws n (S k) (remove_nth i l)) as [r|] eqn:E; [|discriminate]. cbn [bind] in H. injection H as <-. destruct (IH _ _ _ E) as (L & I & N).
    split; [cbn; lia|]. split; [intros x [<-|X]; [apply nth_In, Hi|apply (remove_nth_In _ _ i), I, X]|]. intro ND. destruct (remove_nth_nodup (0, 0)%Z l i ND Hi) as [N1 N2]. constructor; [|apply N, N1]. intro X. apply N2, I, X.
Qed.
Lemma sample_total draws : forall n k l, (n <= List.length l -> exists s, sample draws n k l = Ok s) /\ (List.length l < n -> sample draws n k l = Err "ValueError").
Proof.
  induction n as [|n IH]; intros k l; cbn [sample]; [split; [eexists; reflexivity|lia]|].
  unfold randint. destruct (Z.leb_spec (Z.of_nat (List.length l)) 0).
  - cbn [bind]. split; [lia|reflexivity].
  - cbn [bind]. rewrite Nat2Z.id. set (i := draws k mod List.length l) in *. assert (Hi : i < List.length l) by (apply Nat.mod_upper_bound; lia). pose proof (remove_nth_length l i Hi) as R.
    destruct (IH (S k) (remove_nth i l)) as [I1 I2]. split; intro H'.
    + destruct I1 as [s ->]; [lia|]. eexists. reflexivity.
    + rewrite I2 by lia. reflexivity.
Qed.
Lemma fill_cells : forall l m, shaped m -> Forall (fun p => fst p < m_rows m /\ snd p < m_cols m) l ->
  let m' := fold_left (fun m p => set_cell m (fst p) (snd p) 1%Z) l m in
  shaped m' /\ m_rows m' = m_rows m /\ m_cols m' = m_cols m /\
  forall i j, (In (i, j) l -> cell m' i j = 1%Z) /\ (~ In (i, j) l -> cell m' i j = cell m i j).
Proof.
  induction l as [|[a b] l IH]; intros m S F; cbn [fold_left].
  - split; [exact S|]. split; [reflexivity|]. split; [reflexivity|]. intros i j. split; [intros []|reflexivity].
  - inversion F as [|? ? [Fa Fb] F']; subst. cbn [fst snd] in *. destruct (IH (set_cell m a b 1%Z)) as (A1 & A2 & A3 & A4); [apply set_cell_shaped; assumption|exact F'|].
    split; [exact A1|]. split; [exact A2|]. split; [exact A3|]. intros i j. destruct (A4 i j) as [B1 B2]. destruct (in_dec (fun x y : nat * nat => ltac:(decide equality; apply Nat.eq_dec)) (i, j) l) as [I|I].
    + split; [intros _; apply B1, I|]. intro N. exfalso. apply N. right. exact I.
    + rewrite (B2 I), set_cell_cell by assumption. destruct (Nat.eqb_spec i a), (Nat.eqb_spec j b); cbn [andb]; subst; split; try reflexivity; intro H; try (destruct H as [E|H]; [congruence|contradiction]). exfalso. apply H. left. reflexivity.
Qed.

(** ** Narrow passages *)
(** The width of a zone, for a passage of relative length at most 1 *)
Definition zone_width (passage_length : Q) (cols z : nat) : Prop := Z.of_nat z = Z.max 1 (Qfloor ((1 - passage_length) / 2 * inject_Z (Z.of_nat cols))).
Lemma zone_is pl cols : zone_width pl cols (zone pl cols).
Proof.
  unfold zone_width, zone. set (x := ((1 - pl) / 2 * inject_Z (Z.of_nat cols))%Q). 
  assert (F : Qfloor (Qmax 1 x) = Z.max 1 (Qfloor x)).
  { destruct (Qlt_le_dec x 1) as [H|H].
    - rewrite (Qfloor_comp _ 1%Q) by (apply Q.max_l, Qlt_le_weak, H). rewrite Z.max_l; [reflexivity|]. pose proof (Qfloor_resp_le x 1%Q (Qlt_le_weak _ _ H)) as K. exact K.
    - rewrite (Qfloor_comp _ x) by (apply Q.max_r, H). rewrite Z.max_r; [reflexivity|]. exact (Qfloor_resp_le 1%Q x H). }
  rewrite F. rewrite Z2Nat.id; [reflexivity|lia].
Qed.
Lemma zone_half pl cols z : zone_width pl cols z -> (0 <= pl)%Q -> 3 <= cols -> 1 <= z /\ 2 * z <= cols.
Proof.
  unfold zone_width. intros E P C. set (x := ((1 - pl) / 2 * inject_Z (Z.of_nat cols))%Q) in *. split; [lia|].
  assert (X : (x <= inject_Z (Z.of_nat cols) / 2)%Q).
  { unfold x. unfold Qdiv. rewrite <- Qmult_assoc, (Qmult_comm (/ 2)), Qmult_assoc. apply Qmult_le_compat_r; [|discriminate].
    rewrite <- (Qmult_1_l (inject_Z (Z.of_nat cols))) at 2. apply Qmult_le_compat_r; [|change 0%Q with (inject_Z 0); rewrite <- Zle_Qle; lia].
    rewrite <- (Qplus_0_r 1) at 2. unfold Qminus. apply Qplus_le_r. apply (Qopp_le_compat 0 pl P). }
  assert (2 * Qfloor x <= Z.of_nat cols)%Z; [|lia]. pose proof (Qfloor_le x) as L. assert (Y : (inject_Z (Qfloor x) <= inject_Z (Z.of_nat cols) / 2)%Q) by (eapply Qle_trans; eassumption).
  rewrite Zle_Qle, inject_Z_mult. apply (Qmult_le_compat_r _ _ 2) in Y; [|discriminate]. unfold Qdiv in Y. rewrite <- (Qmult_assoc _ (/ 2)) in Y. change (/ 2 * 2)%Q with (2 # 2)%Q in Y.
  rewrite Qmult_comm. eapply Qle_trans; [exact Y|]. unfold Qle, Qmult, inject_Z. cbn. lia.
Qed.

(** The rows of the passage *)
Definition open_row (top width : Z) (i : Z) : Prop := (top <= i < top + width)%Z.
Lemma cells_In rows xs a : In a (map (fun p => (Z.of_nat (fst p), Z.of_nat (snd p))) (list_prod (seq 0 rows) xs)) <-> exists i j, a = (Z.of_nat i, Z.of_nat j) /\ i < rows /\ In j xs.
Proof.
  rewrite in_map_iff. split.
  - intros ([i j] & <- & I). apply in_prod_iff in I. destruct I as [I J]. apply in_seq in I. exists i, j. split; [reflexivity|]. split; [lia|exact J].
  - intros (i & j & -> & I & J). exists (i, j). split; [reflexivity|]. apply in_prod; [apply in_seq; lia|exact J].
Qed.
Lemma prod_nodup {A B} (a : list A) (b : list B) : NoDup a -> NoDup b -> NoDup (list_prod a b).
Proof.
  intros NA NB. induction NA as [|x l X N IH]; cbn [list_prod]; [constructor|].
  assert (G : forall l r : list (A * B), NoDup l -> NoDup r -> (forall x, In x l -> ~ In x r) -> NoDup (l ++ r)).
  { clear. induction l as [|x l IH]; intros r L R D; cbn; [exact R|]. inversion L as [|? ? H L']; subst. constructor; [rewrite in_app_iff; intros [I|I]; [contradiction|apply (D x); [left; reflexivity|exact I]]|]. apply IH; [exact L'|exact R|]. intros y Y. apply D. right. exact Y. }
  apply G; [|exact IH|].
  - clear - NB. induction NB as [|y r Y N IH]; cbn [map]; constructor; [|exact IH]. intro I. apply in_map_iff in I. destruct I as (z & E & Z). congruence.
  - intros [p q] I J. apply in_map_iff in I. destruct I as (z & E & _). injection E as <- <-. apply in_prod_iff in J. tauto.
Qed.
Lemma cells_nodup rows xs : NoDup xs -> NoDup (map (fun p => (Z.of_nat (fst p), Z.of_nat (snd p))) (list_prod (seq 0 rows) xs)).
Proof.
  intro N. pose proof (prod_nodup (seq 0 rows) xs (seq_NoDup _ _) N) as P. induction P as [|[a b] l X P IH]; cbn [map]; constructor; [|exact IH].
  intro I. apply in_map_iff in I. destruct I as ([c d] & E & Y). cbn [fst snd] in E. injection E as E1 E2. apply Nat2Z.inj in E1, E2. subst. contradiction.
Qed.
Lemma cells_length rows xs : List.length (map (fun p => (Z.of_nat (fst p), Z.of_nat (snd p))) (list_prod (seq 0 rows) xs)) = rows * List.length xs.
Proof. rewrite map_length, prod_length, seq_length. reflexivity. Qed.

(** A zone of initial cells on the left, one of goals on the right, of the given width; between them walls, but for the
    rows of the passage.  Initial cells and goals are distinct cells of their zones.  They are connected if and only if
    some row of the passage is in the grid (or the zones touch).  The prefix is lost. *)
Theorem narrow_passage_made : forall draws rows cols width num_init num_goals passage_length ptop prefix w, (0 <= passage_length)%Q ->
  narrow_passage draws rows cols width num_init num_goals passage_length ptop prefix = Ok w ->
  exists m z top, w_W w = Some m /\ shaped m /\ m_rows m = rows /\ m_cols m = cols /\ zone_width passage_length cols z /\ 1 <= z /\ 2 * z <= cols /\
    match ptop with Some t => top = t | None => (0 <= top < Z.of_nat rows - width)%Z end /\
    (forall i j, (0 <= i < Z.of_nat rows)%Z -> (0 <= j < Z.of_nat cols)%Z ->
       (view m i j = Some 1%Z <-> (Z.of_nat z <= j < Z.of_nat cols - Z.of_nat z)%Z /\ ~ open_row top width i) /\
       (view m i j = Some 0%Z <-> ~ ((Z.of_nat z <= j < Z.of_nat cols - Z.of_nat z)%Z /\ ~ open_row top width i))) /\
    List.length (w_init w) = num_init /\ List.length (w_goal w) = num_goals /\ NoDup (w_init w ++ w_goal w) /\
    (forall a, In a (w_init w) -> (0 <= fst a < Z.of_nat rows)%Z /\ (0 <= snd a < Z.of_nat z)%Z) /\
    (forall a, In a (w_goal w) -> (0 <= fst a < Z.of_nat rows)%Z /\ (Z.of_nat cols - Z.of_nat z <= snd a < Z.of_nat cols)%Z) /\
    w_prefix w = "Y" /\ w_offset w = (0, 0)%Z /\
    ((exists i, (0 <= i < Z.of_nat rows)%Z /\ open_row top width i) \/ 2 * z = cols -> mutual m (w_init w ++ w_goal w)) /\
    (~ ((exists i, (0 <= i < Z.of_nat rows)%Z /\ open_row top width i) \/ 2 * z = cols) -> forall a b, In a (w_init w) -> In b (w_goal w) -> ~ connected (view m) a b).
Proof.
  intros draws rows cols width ni ng pl ptop prefix w P H. unfold narrow_passage in H.
  destruct ((rows <? 3) || (cols <? 3)) eqn:E3; [discriminate|]. apply orb_false_iff in E3. destruct E3 as [R3 C3]. apply Nat.ltb_ge in R3, C3.
  rewrite unoccupied_made in H. cbn [bind w_W w_prefix w_offset of_opt] in H.
  pose proof (zone_is pl cols) as ZI. set (z := zone pl cols) in *. destruct (zone_half _ _ _ ZI P C3) as [Z1 Z2].
  destruct (_ || _)%bool in H; [discriminate|].
  set (topr := match ptop with Some t => Ok t | None => _ end) in H.
  assert (TOP : forall t, topr = Ok t -> match ptop with Some t' => t = t' | None => (0 <= t < Z.of_nat rows - width)%Z end).
  { intros t T. unfold topr in T. destruct ptop as [t'|]; [injection T as <-; reflexivity|]. unfold randint in T. destruct (Z.leb_spec (Z.of_nat rows - width) 0); [discriminate|]. cbn [bind] in T. injection T as <-.
    pose proof (Nat.mod_upper_bound (draws 0) (Z.to_nat (Z.of_nat rows - width))). lia. }
  destruct topr as [top|]; [|discriminate]. cbn [bind] in H. specialize (TOP top eq_refl).
  replace (Z.to_nat (Z.of_nat cols - Z.of_nat z)) with (cols - z) in H by lia. set (g := cols - z) in *.
  set (passage := fun y => ((top <=? Z.of_nat y) && (Z.of_nat y <? top + width))%Z) in H.
  set (tube := filter (fun p => negb (passage (fst p))) (list_prod (seq 0 rows) (seq z (g - z)))) in H.
  assert (PA : forall y, passage y = true <-> open_row top width (Z.of_nat y)) by (intro y; unfold passage, open_row; rewrite andb_true_iff, Z.leb_le, Z.ltb_lt; reflexivity).
  assert (TU : forall i j, In (i, j) tube <-> i < rows /\ z <= j < g /\ ~ open_row top width (Z.of_nat i)).
  { intros i j. unfold tube. rewrite filter_In, in_prod_iff, !in_seq. cbn [fst]. rewrite negb_true_iff. rewrite <- PA. destruct (passage i); intuition (try lia; try congruence). }
  destruct (fill_cells tube (tab rows cols (fun _ _ => 0%Z)) (tab_shaped _ _ _)) as (S & MR & MC & MV).
  { apply Forall_forall. intros [i j] I. apply TU in I. cbn [fst snd tab m_rows m_cols]. lia. }
  set (m := fold_left (fun m p => set_cell m (fst p) (snd p) 1%Z) tube (tab rows cols (fun _ _ => 0%Z))) in *. cbn [tab m_rows m_cols] in MR, MC.
  destruct (sample draws ni 1 _) as [inits|] eqn:EI in H; [|discriminate]. cbn [bind] in H. destruct (sample draws ng (Datatypes.S ni) _) as [goals|] eqn:EG in H; [|discriminate]. cbn [bind] in H.
  injection H as <-. cbn [w_W w_init w_goal w_prefix w_offset].
  destruct (sample_ok _ _ _ _ _ EI) as (LI & II & NI). destruct (sample_ok _ _ _ _ _ EG) as (LG & IG & NG).
  specialize (NI (cells_nodup _ _ (seq_NoDup _ _))). specialize (NG (cells_nodup _ _ (seq_NoDup _ _))).
  assert (BI : forall a, In a inits -> (0 <= fst a < Z.of_nat rows)%Z /\ (0 <= snd a < Z.of_nat z)%Z) by (intros a I; apply II, cells_In in I; destruct I as (i & j & -> & I & J); apply in_seq in J; cbn [fst snd]; lia).
  assert (BG : forall a, In a goals -> (0 <= fst a < Z.of_nat rows)%Z /\ (Z.of_nat cols - Z.of_nat z <= snd a < Z.of_nat cols)%Z) by (intros a I; apply IG, cells_In in I; destruct I as (i & j & -> & I & J); apply in_seq in J; cbn [fst snd]; lia).
  assert (VW : forall i j, (0 <= i < Z.of_nat rows)%Z -> (0 <= j < Z.of_nat cols)%Z -> (Z.of_nat z <= j < Z.of_nat cols - Z.of_nat z)%Z /\ ~ open_row top width i -> view m i j = Some 1%Z).
  { intros i j Hi Hj [B N]. rewrite view_at by (assumption || lia). f_equal. apply MV, TU. rewrite Z2Nat.id by lia. split; [lia|]. split; [lia|exact N]. }
  assert (VF : forall i j, (0 <= i < Z.of_nat rows)%Z -> (0 <= j < Z.of_nat cols)%Z -> ~ ((Z.of_nat z <= j < Z.of_nat cols - Z.of_nat z)%Z /\ ~ open_row top width i) -> view m i j = Some 0%Z).
  { intros i j Hi Hj N. rewrite view_at by (assumption || lia). f_equal. destruct (MV (Z.to_nat i) (Z.to_nat j)) as [_ V]. rewrite V; [apply tab_cell; lia|]. intro T. apply TU in T. rewrite Z2Nat.id in T by lia. apply N. split; [lia|apply T]. }
  assert (DE : forall i j, ((Z.of_nat z <= j < Z.of_nat cols - Z.of_nat z)%Z /\ ~ open_row top width i) \/ ~ ((Z.of_nat z <= j < Z.of_nat cols - Z.of_nat z)%Z /\ ~ open_row top width i)) by (intros; unfold open_row; lia).
  exists m, z, top. do 7 (split; [first [reflexivity|assumption]|]). split; [destruct ptop; assumption|]. split.
  { intros i j Hi Hj. destruct (DE i j) as [D|D]; [pose proof (VW i j Hi Hj D) as V|pose proof (VF i j Hi Hj D) as V]; rewrite V; split; split; try tauto; try discriminate; reflexivity. }
  split; [exact LI|]. split; [exact LG|]. split.
  { rewrite <- (app_nil_r goals). apply nodup_app3; [exact NI|exact NG|constructor| |]; [|intros x _ []]. intros x X. split; [|intros []]. intro Y. apply BI in X. apply BG in Y. lia. }
  split; [exact BI|]. split; [exact BG|]. split; [reflexivity|]. split; [reflexivity|]. split.
  - intros OP.
    assert (LZ : forall i j i' j', (0 <= i < Z.of_nat rows)%Z -> (0 <= i' < Z.of_nat rows)%Z -> (0 <= j < Z.of_nat z)%Z -> (0 <= j' < Z.of_nat z)%Z -> connected (view m) (i, j) (i', j')).
    { intros i j i' j' A B C D. apply (conn_trans _ _ (i', j)); [apply col_line|apply row_line]; intros k K; unfold free; cbn [fst snd]; (apply VF; [lia|lia|intros [? _]; lia]). }
    assert (RZ : forall i j i' j', (0 <= i < Z.of_nat rows)%Z -> (0 <= i' < Z.of_nat rows)%Z -> (Z.of_nat cols - Z.of_nat z <= j < Z.of_nat cols)%Z -> (Z.of_nat cols - Z.of_nat z <= j' < Z.of_nat cols)%Z -> connected (view m) (i, j) (i', j')).
    { intros i j i' j' A B C D. apply (conn_trans _ _ (i', j)); [apply col_line|apply row_line]; intros k K; unfold free; cbn [fst snd]; (apply VF; [lia|lia|intros [? _]; lia]). }
    assert (AC : exists i, (0 <= i < Z.of_nat rows)%Z /\ connected (view m) (i, 0%Z) (i, Z.of_nat cols - 1)%Z).
    { destruct OP as [(i & Hi & O)|E].
      - exists i. split; [exact Hi|]. apply row_line. intros k K. unfold free; cbn [fst snd]; apply VF; [exact Hi|lia|tauto].
      - exists 0%Z. split; [lia|]. apply row_line. intros k K. unfold free; cbn [fst snd]; apply VF; [lia|lia|intros [? _]; lia]. }
    destruct AC as (i & Hi & AC).
    assert (TO : forall a, In a (inits ++ goals) -> connected (view m) a (i, 0%Z)).
    { intros [x y] I. apply in_app_iff in I. destruct I as [I|I]; [apply BI in I|apply BG in I]; cbn [fst snd] in I; destruct I as [I1 I2]; [apply LZ; lia|]. eapply conn_trans; [|apply conn_sym, AC]. apply RZ; lia. }
    intros a b A B. eapply conn_trans; [apply TO, A|apply conn_sym, TO, B].
  - intros NO a b A B (p & PP & LP). apply BI in A. apply BG in B. destruct A as [A1 A2], B as [B1 B2]. subst b.
    assert (ST : forall p a, (snd a < Z.of_nat z)%Z -> is_path (view m) a p -> (snd (last p a) < Z.of_nat z)%Z).
    { clear p a A1 A2 B1 B2 PP. induction p as [|x p IH]; intros a A PP; [exact A|]. destruct PP as (F & AD & PP). change (x :: p) with ([x] ++ p). rewrite last_app. cbn [last]. apply IH; [|exact PP].
      destruct (Z.lt_ge_cases (snd x) (Z.of_nat z)) as [L|L]; [exact L|]. exfalso.
      assert (FX : free (view m) x) by (destruct p; [exact PP|exact (proj1 PP)]). unfold free in FX. pose proof (view_inside _ _ _ _ S FX) as V. rewrite MR, MC in V. destruct V as [V1 V2].
      unfold adjacent in AD. assert (2 * z <> cols) by tauto.
      rewrite VW in FX; [discriminate|exact V1|exact V2|]. split; [lia|]. intro O. apply NO. left. exists (fst x). split; assumption. }
    specialize (ST p a). assert (snd (last p a) < Z.of_nat z)%Z by (apply ST; [lia|exact PP]). lia.
Qed.
(** It is made if and only if the grid has at least three rows and columns, the cells fit in their zones, and a position is
    left for the passage if it is to be drawn; else ValueError is raised *)
Theorem narrow_passage_answers : forall draws rows cols width num_init num_goals passage_length ptop prefix z, (0 <= passage_length)%Q -> zone_width passage_length cols z ->
  let r := narrow_passage draws rows cols width num_init num_goals passage_length ptop prefix in
  let fits := 3 <= rows /\ 3 <= cols /\ num_init <= z * rows /\ num_goals <= z * rows /\ (ptop = None -> width < Z.of_nat rows)%Z in
  (fits -> exists w, r = Ok w) /\ (~ fits -> r = Err "ValueError").
Proof.
  intros draws rows cols width ni ng pl ptop prefix z P ZW r fits. unfold r, fits. clear r fits. unfold narrow_passage.
  destruct (Nat.ltb_spec rows 3); [split; [lia|reflexivity]|]. destruct (Nat.ltb_spec cols 3); [split; [lia|reflexivity]|]. cbn [orb].
  rewrite unoccupied_made. cbn [bind w_W w_prefix w_offset of_opt].
  pose proof (zone_is pl cols) as ZI. assert (EZ : zone pl cols = z) by (unfold zone_width in *; lia). rewrite EZ. destruct (zone_half _ _ _ ZW P H0) as [Z1 Z2].
  destruct (Nat.ltb_spec (z * rows) ni); [split; [lia|reflexivity]|]. cbn [orb].
  destruct (Z.ltb_spec ((Z.of_nat cols - Z.of_nat z) * Z.of_nat rows) (Z.of_nat ng)); [split; [nia|reflexivity]|].
  set (topr := match ptop with Some t => Ok t | None => _ end). set (k1 := map _ _). set (k2 := map _ _).
  assert (L1 : @List.length ij k1 = rows * z) by (unfold k1; etransitivity; [apply cells_length|]; rewrite seq_length; reflexivity).
  assert (L2 : @List.length ij k2 = rows * z) by (unfold k2; etransitivity; [apply cells_length|]; rewrite seq_length; f_equal; lia).
  destruct (sample_total draws ni 1 k1) as [A1 A2]. destruct (sample_total draws ng (S ni) k2) as [B1 B2]. rewrite L1 in A1, A2. rewrite L2 in B1, B2.
  destruct A1 as [s1 A1]; [lia|].
  assert (TP : (exists t, topr = Ok t /\ (ptop = None -> (width < Z.of_nat rows)%Z)) \/ (topr = Err "ValueError" /\ ptop = None /\ ~ (width < Z.of_nat rows)%Z)).
  { unfold topr. destruct ptop as [t|]; [left; exists t; split; [reflexivity|discriminate]|]. unfold randint. destruct (Z.leb_spec (Z.of_nat rows - width) 0); [right; split; [reflexivity|split; [reflexivity|lia]]|].
    left. eexists. split; [reflexivity|lia]. }
  destruct TP as [(t & -> & T)|(-> & -> & T)]; cbn [bind].
  - rewrite A1. cbn [bind]. split.
    + intros (_ & _ & _ & G & _). destruct B1 as [s2 B1]; [lia|]. rewrite B1. eexists. reflexivity.
    + intro N. rewrite B2; [reflexivity|]. apply Nat.nle_gt. intro G. apply N. repeat split; try assumption; lia.
  - split; [intros (_ & _ & _ & _ & W); exfalso; apply T, W; reflexivity|reflexivity].
Qed.
Print Assumptions unoccupied_made.
Print Assumptions narrow_passage_made.
Print Assumptions narrow_passage_answers.
Example a_narrow_passage : exists w, narrow_passage counter 4 6 1 1 2 (2 # 5) None "Y" = Ok w /\ dumps "" w = Ok (String.concat newline ["4 6"; "     G"; " ****G"; "I**** "; " **** "; ""])%string.
Proof. eexists. split; [vm_compute; reflexivity|]. vm_compute. reflexivity. Qed.
(** Documented: "row number of top of passage".  A row outside of the grid leaves no passage; a passage of all rows cannot be
    drawn; the last row is in no drawn passage of width 1; another prefix is ignored. *)
Theorem narrow_passage_refuted :
  (exists w m, narrow_passage counter 3 3 1 1 1 (2 # 5) (Some 3%Z) "Y" = Ok w /\ w_W w = Some m /\ exists a b, In a (w_init w) /\ In b (w_goal w) /\ ~ connected (view m) a b) /\
  narrow_passage counter 3 3 3 1 1 (2 # 5) None "Y" = Err "ValueError" /\
  (forall draws rows cols ni ng pl prefix w m, (0 <= pl)%Q -> narrow_passage draws rows cols 1 ni ng pl None prefix = Ok w -> w_W w = Some m ->
     forall z, zone_width pl cols z -> forall j, (Z.of_nat z <= j < Z.of_nat cols - Z.of_nat z)%Z -> view m (Z.of_nat rows - 1)%Z j = Some 1%Z) /\
  (exists w, narrow_passage counter 3 3 1 1 1 (2 # 5) None "X" = Ok w /\ w_prefix w <> "X").
Proof.
  split; [|split; [vm_compute; reflexivity|split]].
  - eexists. eexists. split; [vm_compute; reflexivity|]. split; [reflexivity|].
    match goal with |- exists a b, In a (w_init ?w) /\ _ => assert (E : narrow_passage counter 3 3 1 1 1 (2 # 5) (Some 3%Z) "Y" = Ok w) by (vm_compute; reflexivity) end.
    apply narrow_passage_made in E; [|discriminate]. destruct E as (m & z & top & E1 & _ & _ & _ & Ez & _ & _ & -> & _ & _ & _ & _ & _ & _ & _ & _ & _ & N). injection E1 as <-.
    eexists. eexists. split; [left; reflexivity|]. split; [left; reflexivity|]. apply N; [|left; reflexivity|left; reflexivity].
    assert (z = 1) as -> by (unfold zone_width in Ez; change (Z.of_nat z = 1%Z) in Ez; lia). intros [(i & I & O)|D]; [unfold open_row in O; lia|discriminate].
  - intros draws rows cols ni ng pl prefix w m P H W z ZW j J. apply narrow_passage_made in H; [|exact P]. destruct H as (m' & z' & top & E1 & _ & _ & _ & Ez & Z1 & Z2 & T & V & _). rewrite W in E1. injection E1 as <-.
    assert (z' = z) as -> by (unfold zone_width in *; lia). apply V; [lia|lia|]. split; [exact J|]. unfold open_row. lia.
  - eexists. split; [vm_compute; reflexivity|]. discriminate.
Qed.
Print Assumptions narrow_passage_refuted.
