(** C24: [LTL.loads] after [LTL.dumps]. *)
From Coq Require Import String Ascii List Bool Arith ZArith Lia.
From Verif Require Import M_Base M_Tree M_Gr1c S_LTL S_Gr1 S_Syntax L_Lexer L_Dec L_Gr1c M_Machine M_Grid T_Grid T_GridText M_LtlFile.
Import ListNotations.
Open Scope string_scope.
Open Scope list_scope.

(** ** What is claimed *)
Definition letter (c : ascii) : bool := let n := nat_of_ascii c in ((65 <=? n) && (n <=? 90) || (97 <=? n) && (n <=? 122))%nat.
Definition free_of (bad : string) (s : string) : Prop := forall c, In c (chars s) -> ~ In c (chars bad).
(** A name: not empty, no white space, none of the characters of the format. *)
Definition good_name (k : string) : Prop := k <> "" /\ free_of ";:#%" k /\ forall c, In c (chars k) -> is_space c = false.
(** A string element: none of the characters of the format, and it has a letter. *)
Definition good_elem (e : elem) : Prop :=
  match e with EInt _ => True | EStr s => free_of ";:#%," s /\ exists c, In c (chars s) /\ letter c = true end.
Definition good_domain (d : ldom) : Prop := match d with LIter l => Forall good_elem l | _ => True end.
Definition good_decls (d : decls) : Prop := NoDup (map fst d) /\ forall k v, In (k, v) d -> good_name k /\ good_domain v.
(** Reading back moves a space into every string but the first, and makes the empty set the set of the empty string. *)
Definition shift (e : elem) : elem := match e with EInt z => EInt z | EStr s => EStr (" " ++ s)%string end.
Definition shifted (l : list elem) : list elem := match l with [] => [EStr ""] | e :: r => e :: map shift r end.
Definition same_domain (change : list elem -> list elem) (d d' : ldom) : Prop :=
  match d, d' with
  | LBool, LBool => True
  | LPair a b, LPair a' b' => a = a' /\ b = b'
  | LIter l, LIter l' => forall x, In x l' <-> In x (change l)
  | _, _ => False
  end.
Definition same_decls (change : list elem -> list elem) (d d' : decls) : Prop :=
  Forall2 (fun a b => fst a = fst b /\ same_domain change (snd a) (snd b)) d d'.
(** Sets that survive: not empty, and only the first element may be a string. *)
Definition plain_domain (d : ldom) : Prop :=
  match d with LIter [] => False | LIter (_ :: r) => forall s, ~ In (EStr s) r | _ => True end.

(** ** Substrings *)
Lemma starts_iff : forall p s, starts p s = true <-> exists r, s = p ++ r.
Proof.
  induction p as [|a p IH]; intros [|b s]; cbn.
  - split; [exists []; reflexivity|reflexivity].
  - split; [eexists; reflexivity|reflexivity].
  - split; [discriminate|intros [r [=]]].
  - rewrite andb_true_iff, Ascii.eqb_eq, IH. split; [intros [-> [r ->]]; eauto|intros [r [= -> ->]]; eauto].
Qed.
Lemma find_sub_none : forall p s, find_sub p s = None <-> forall a b, s <> a ++ p ++ b.
Proof.
  intros p s. induction s as [|c s IH]; cbn [find_sub].
  - destruct (starts p []) eqn:E; split; intro H; try discriminate; [|intros a b X|reflexivity].
    + exfalso. apply starts_iff in E. destruct E as [r E]. apply (H [] r). exact E.
    + destruct a; [|discriminate X]. cbn in X. assert (Y : starts p [] = true) by (apply starts_iff; eauto). congruence.
  - destruct (starts p (c :: s)) eqn:E; split; intro H; try discriminate.
    + exfalso. apply starts_iff in E. destruct E as [r E]. apply (H [] r). exact E.
    + intros a b X. destruct a as [|x a]; [cbn in X; assert (Y : starts p (c :: s) = true) by (apply starts_iff; eauto); congruence|].
      cbn in X. injection X as -> X. destruct (find_sub p s) eqn:F; [discriminate|]. exact (proj1 IH eq_refl a b X).
    + assert (F : find_sub p s = None) by (apply IH; intros a b X; apply (H (c :: a) b); cbn; f_equal; exact X). rewrite F. reflexivity.
Qed.
Lemma split_sub_none : forall p s cur, find_sub p s = None -> split_sub p 0 cur s = [rev cur ++ s].
Proof.
  intros p s. induction s as [|c s IH]; intros cur H; cbn [split_sub]; [rewrite app_nil_r; reflexivity|].
  cbn [find_sub] in H. destruct (starts p (c :: s)); [discriminate|]. destruct (find_sub p s) eqn:F; [discriminate|].
  rewrite IH by reflexivity. cbn [rev]. rewrite <- app_assoc. reflexivity.
Qed.
Definition sep : list ascii := chars "%%" ++ [nl].
Lemma split_sep : forall x cur y, ~ In "%"%char x -> split_sub sep 0 cur (x ++ sep ++ y) = (rev cur ++ x) :: split_sub sep 0 [] y.
Proof.
  induction x as [|c x IH]; intros cur y H.
  - rewrite app_nil_r. reflexivity.
  - cbn [app split_sub]. destruct (starts sep (c :: x ++ sep ++ y)) eqn:E.
    + exfalso. apply starts_iff in E. destruct E as [r E]. injection E as E _. apply H. left. exact E.
    + rewrite IH by (intro X; apply H; right; exact X). cbn [rev]. rewrite <- app_assoc. reflexivity.
Qed.
Lemma uncomment_plain : forall x y, ~ In "#"%char x -> uncomment false (x ++ y) = x ++ uncomment false y.
Proof.
  induction x as [|c x IH]; intros y H; [reflexivity|]. cbn. destruct (Ascii.eqb_spec c "#") as [->|_]; [exfalso; apply H; left; reflexivity|].
  f_equal. apply IH. intro X. apply H. right. exact X.
Qed.
Lemma uncomment_comment : forall x y, ~ In nl x -> uncomment true (x ++ nl :: y) = uncomment false y.
Proof.
  induction x as [|c x IH]; intros y H; [reflexivity|]. cbn [app uncomment]. destruct (Ascii.eqb_spec c nl) as [->|_]; [exfalso; apply H; left; reflexivity|].
  apply IH. intro X. apply H. right. exact X.
Qed.
(** Every colon follows a space. *)
Fixpoint spaced (prev : bool) (s : list ascii) : bool :=
  match s with [] => true | c :: r => (negb (Ascii.eqb c ":") || prev) && spaced (Ascii.eqb c " ") r end.
Lemma spaced_app : forall s p t, spaced p s = true -> (forall q, spaced q t = true) -> spaced p (s ++ t) = true.
Proof. induction s as [|c s IH]; intros p t H K; cbn in *; [apply K|]. apply andb_true_iff in H. destruct H as [-> H]. cbn. apply IH; assumption. Qed.
Lemma spaced_free : forall s q, ~ In ":"%char s -> spaced q s = true.
Proof.
  induction s as [|c s IH]; intros q H; [reflexivity|]. cbn. destruct (Ascii.eqb_spec c ":") as [->|_]; [exfalso; apply H; left; reflexivity|].
  cbn. apply IH. intro X. apply H. right. exact X.
Qed.
Lemma spaced_any : forall s p, spaced false s = true -> spaced p s = true.
Proof.
  intros [|c s] p H; [reflexivity|]. cbn in *. apply andb_true_iff in H. destruct H as [H ->]. rewrite orb_false_r in H. rewrite H. reflexivity.
Qed.
Lemma spaced_no_header : forall s a b p, spaced p s = true -> s <> a ++ "T"%char :: ":"%char :: b.
Proof.
  induction s as [|c s IH]; intros a b p H E; [destruct a; discriminate|]. cbn in H. apply andb_true_iff in H. destruct H as [_ H].
  destruct a as [|x a]; [injection E as -> ->; discriminate H|]. injection E as -> E. exact (IH a b _ H E).
Qed.
Lemma no_header : forall h s p, spaced p s = true -> find_sub (h ++ ["T"; ":"]%char) s = None.
Proof.
  intros h s p H. apply find_sub_none. intros a b E. rewrite <- app_assoc in E. cbn in E. rewrite app_assoc in E. exact (spaced_no_header _ _ _ _ H E).
Qed.
Lemma find_out : forall x p y, spaced p x = true -> find_sub (chars "OUTPUT:") (x ++ nl :: chars "OUTPUT:" ++ y) = Some (S (length x)).
Proof.
  induction x as [|c x IH]; intros p y H; [reflexivity|]. cbn [app find_sub].
  destruct (starts (chars "OUTPUT:") (c :: x ++ nl :: chars "OUTPUT:" ++ y)) eqn:E.
  - exfalso. apply starts_iff in E. destruct E as [r E].
    destruct x as [|c1 x]; [discriminate E|]. destruct x as [|c2 x]; [discriminate E|]. destruct x as [|c3 x]; [discriminate E|]. destruct x as [|c4 x]; [discriminate E|].
    destruct x as [|c5 x]; [discriminate E|]. destruct x as [|c6 x]; [discriminate E|].
    cbn in E. injection E as -> -> -> -> -> -> -> _. discriminate H.
  - cbn in H. apply andb_true_iff in H. destruct H as [_ H]. rewrite (IH _ y H). reflexivity.
Qed.
Lemma remove_header : forall h x p, spaced p x = true -> remove_sub (h ++ ["T"; ":"]%char) ((h ++ ["T"; ":"]%char) ++ x) = x.
Proof.
  intros h x p H. unfold remove_sub.
  assert (E : split_sub (h ++ ["T"; ":"]%char) 0 [] ((h ++ ["T"; ":"]%char) ++ x) = [] :: split_sub (h ++ ["T"; ":"]%char) 0 [] x).
  { set (q := h ++ ["T"; ":"]%char). assert (G : forall k cur, k = length cur -> split_sub q k [] (cur ++ x) = split_sub q 0 [] x).
    { intros k cur ->. induction cur as [|c cur IH]; [reflexivity|]. cbn. exact IH. }
    destruct q as [|c q'] eqn:Q; [destruct h; discriminate Q|]. rewrite <- Q in *.
    assert (St : starts q ((c :: q') ++ x) = true) by (rewrite <- Q; apply starts_iff; eauto).
    rewrite Q at 2. cbn [app split_sub]. cbn [app] in St. rewrite St. cbn [rev]. f_equal. apply G. rewrite Q. cbn. lia. }
  rewrite E. rewrite split_sub_none by (eapply no_header; exact H). cbn. rewrite app_nil_r. reflexivity.
Qed.

(** ** Stripping and integers *)
Lemma strip_head : forall c l, is_space c = false -> exists r, strip (c :: l) = c :: r.
Proof.
  intros c l H. unfold strip. cbn [lstrip]. rewrite H. cbn [rev].
  assert (G : forall a, exists b, lstrip (a ++ [c]) = b ++ [c]).
  { induction a as [|x a [b IH]]; cbn; [rewrite H; exists []; reflexivity|]. destruct (is_space x); [eauto|exists (x :: a); reflexivity]. }
  destruct (G (rev l)) as [b ->]. rewrite rev_app_distr. eexists. reflexivity.
Qed.
Lemma lstrip_In : forall s c, In c s -> is_space c = false -> In c (lstrip s).
Proof. induction s as [|x s IH]; intros c H N; [exact H|]. cbn. destruct (is_space x) eqn:E; [|exact H]. destruct H as [->|H]; [congruence|]. apply IH; assumption. Qed.
Lemma strip_In : forall s c, In c s -> is_space c = false -> In c (strip s).
Proof. intros s c H N. unfold strip. apply in_rev. rewrite rev_involutive. apply lstrip_In; [|exact N]. apply in_rev. rewrite rev_involutive. apply lstrip_In; assumption. Qed.
Lemma letter_not : forall c, letter c = true -> is_space c = false /\ is_dec c = false /\ c <> "_"%char /\ c <> "-"%char /\ c <> "+"%char.
Proof. intros [[] [] [] [] [] [] [] []] H; try discriminate H; repeat split; discriminate. Qed.
Lemma digits_letter : forall s a c, In c s -> letter c = true -> digits_val a s = None.
Proof.
  induction s as [|x s IH]; intros a c H L; [destruct H|]. cbn [digits_val]. destruct (letter_not c L) as (_ & D & U & _). destruct H as [->|H].
  - rewrite D. destruct (Ascii.eqb_spec c "_"); [contradiction|reflexivity].
  - destruct (is_dec x); [eapply IH; eassumption|]. destruct (Ascii.eqb x "_"); [|reflexivity]. destruct s as [|d s]; [reflexivity|]. destruct (is_dec d); [|reflexivity]. eapply IH; eassumption.
Qed.
Lemma py_int_letter : forall s c, In c s -> letter c = true -> py_int s = None.
Proof.
  intros s c H L. destruct (letter_not c L) as (N & D & _ & M & P). unfold py_int. apply strip_In in H; [|exact N].
  assert (G : forall l, In c l -> digits l = None).
  { intros l Hl. unfold digits. destruct l as [|x l]; [reflexivity|]. destruct (is_dec x); [|reflexivity]. eapply digits_letter; eassumption. }
  destruct (strip s) as [|x l]; [reflexivity|].
  destruct (Ascii.eqb_spec x "-") as [->|_]; [destruct H as [<-|H]; [congruence|]; rewrite (G l H); reflexivity|].
  destruct (Ascii.eqb_spec x "+") as [->|_]; [destruct H as [<-|H]; [congruence|]; exact (G l H)|]. exact (G _ H).
Qed.
Lemma py_int_space : forall s, py_int (" "%char :: s) = py_int s.
Proof. reflexivity. Qed.
Lemma text_chars : forall s, text (chars s) = s.
Proof. apply string_of_list_ascii_of_string. Qed.
Lemma load_elem_first : forall e, good_elem e -> load_elem (chars (elem_str e)) = e.
Proof.
  intros [z|s] H; unfold load_elem; cbn [elem_str].
  - unfold chars. rewrite py_int_str_Z. reflexivity.
  - destruct H as (_ & c & Hc & L). rewrite (py_int_letter _ _ Hc L), text_chars. reflexivity.
Qed.
Lemma load_elem_later : forall e, good_elem e -> load_elem (" "%char :: chars (elem_str e)) = shift e.
Proof.
  intros [z|s] H; unfold load_elem; rewrite py_int_space; cbn [elem_str shift].
  - unfold chars. rewrite py_int_str_Z. reflexivity.
  - destruct H as (_ & c & Hc & L). rewrite (py_int_letter _ _ Hc L). change (text (" "%char :: chars s)) with (String " " (text (chars s))). rewrite text_chars. reflexivity.
Qed.
Lemma elem_eqb_eq : forall a b, elem_eqb a b = true <-> a = b.
Proof.
  intros [x|x] [y|y]; cbn; try (split; discriminate); [rewrite Z.eqb_eq|rewrite String.eqb_eq]; split; congruence.
Qed.
Lemma as_set_In : forall l seen x, In x (as_set seen l) <-> In x l /\ ~ In x seen.
Proof.
  assert (M : forall x l, existsb (elem_eqb x) l = true <-> In x l).
  { intros x l. rewrite existsb_exists. split; [intros (y & H & E); apply elem_eqb_eq in E; subst; exact H|intro H; exists x; split; [exact H|apply elem_eqb_eq; reflexivity]]. }
  induction l as [|y l IH]; intros seen x; cbn; [tauto|]. destruct (existsb (elem_eqb y) seen) eqn:E.
  - apply M in E. rewrite IH. split; [tauto|]. intros [[->|H] N]; tauto.
  - assert (N : ~ In y seen) by (rewrite <- M; congruence). cbn. rewrite IH. cbn. split; [intros [->|(H & K)]; [tauto|tauto]|].
    intros [[->|H] K]; [left; reflexivity|].
    assert (D : y = x \/ y <> x) by (destruct (elem_eqb y x) eqn:Q; [left; apply elem_eqb_eq, Q|right; intro X; apply elem_eqb_eq in X; congruence]). destruct D as [->|D]; [left; reflexivity|right]. split; [exact H|]. tauto.
Qed.

(** ** Domains *)
Lemma free_of_not : forall bad s c, free_of bad s -> In c (chars bad) -> ~ In c (chars s).
Proof. intros bad s c H B X. exact (H c X B). Qed.
Lemma str_Z_free : forall z c, In c (chars (str_Z z)) -> ~ In c (chars ";:#%, ]}").
Proof. intros z c H. apply str_Z_plain in H. intro X. cbn in X. repeat (destruct X as [<-|X]; [discriminate H|]). exact X. Qed.
Lemma elem_free : forall e c, good_elem e -> In c (chars (elem_str e)) -> ~ In c (chars ";:#%,").
Proof.
  intros [z|s] c H Hc X.
  - apply (str_Z_free z c Hc). cbn in *. tauto.
  - exact (proj1 H c Hc X).
Qed.
Lemma join_In : forall ts c, In c (chars (join ", " ts)) -> c = ","%char \/ c = " "%char \/ exists t, In t ts /\ In c (chars t).
Proof.
  induction ts as [|t ts IH]; intros c H; [destruct H|]. destruct ts as [|u ts].
  - right. right. exists t. split; [left; reflexivity|exact H].
  - change (join ", " (t :: u :: ts)) with (t ++ ", " ++ join ", " (u :: ts))%string in H. unfold chars in *. rewrite !las_app in H.
    apply in_app_iff in H. destruct H as [H|[H|[H|H]]]; [right; right; exists t; split; [left; reflexivity|exact H]|left; auto|right; left; auto|].
    destruct (IH c H) as [->|[->|(t' & Ht & Hc)]]; auto. right. right. exists t'. split; [right; exact Ht|exact Hc].
Qed.
Lemma domain_free : forall d c, good_domain d -> In c (chars (domain_str d)) -> ~ In c (chars ";:#%").
Proof.
  intros [|a b|l] c H Hc X.
  - cbn in Hc, X. repeat (destruct Hc as [<-|Hc]; [repeat (destruct X as [X|X]; [discriminate X|]); exact X|]). exact Hc.
  - cbn [domain_str] in Hc. unfold chars in Hc. rewrite !las_app in Hc. rewrite !in_app_iff in Hc.
    assert (K : forall z, In c (list_ascii_of_string (str_Z z)) -> False) by (intros z Hz; apply (str_Z_free z c Hz); cbn in *; tauto).
    destruct Hc as [Hc|[Hc|[Hc|[Hc|Hc]]]]; [| |exfalso| |]; try (eapply K; eassumption); cbn in Hc, X; intuition congruence.
  - cbn [domain_str] in Hc. unfold chars in Hc. rewrite !las_app in Hc. rewrite !in_app_iff in Hc.
    destruct Hc as [Hc|[Hc|Hc]]; [cbn in Hc, X; intuition congruence| |cbn in Hc, X; intuition congruence].
    apply join_In in Hc. destruct Hc as [->|[->|(t & Ht & Hc)]]; [cbn in X; intuition congruence|cbn in X; intuition congruence|].
    apply in_map_iff in Ht. destruct Ht as (e & <- & He). cbn [good_domain] in H. rewrite Forall_forall in H. apply (elem_free e c (H e He) Hc). cbn in *. tauto.
Qed.
Lemma split_join : forall ts, (forall t, In t ts -> ~ In ","%char (chars t)) ->
  split_on "," [] (chars (join ", " ts)) = match ts with [] => [[]] | t :: r => chars t :: map (fun t => " "%char :: chars t) r end.
Proof.
  assert (G : forall r t pre, ~ In ","%char pre -> (forall t', In t' (t :: r) -> ~ In ","%char (chars t')) ->
    split_on "," [] (pre ++ chars (join ", " (t :: r))) = (pre ++ chars t) :: map (fun t => " "%char :: chars t) r).
  { induction r as [|u r IH]; intros t pre Hp Ht.
    - cbn [join map]. rewrite split_none; [reflexivity|]. rewrite in_app_iff. intros [X|X]; [exact (Hp X)|]. exact (Ht t (or_introl eq_refl) X).
    - change (join ", " (t :: u :: r)) with (t ++ ", " ++ join ", " (u :: r))%string. unfold chars. rewrite !las_app. cbn [list_ascii_of_string app]. fold (chars t) (chars (join ", " (u :: r))).
      rewrite app_assoc, split_app, split_none; [|rewrite in_app_iff; intros [X|X]; [exact (Hp X)|]; exact (Ht t (or_introl eq_refl) X)]. cbn [rev app map]. f_equal.
      apply (IH u [" "%char]); [intros [X|[]]; discriminate X|]. intros t' H'. apply Ht. right. exact H'. }
  intros [|t r] H; [reflexivity|]. apply (G r t []); [intros []|exact H].
Qed.
Lemma load_domain_ok : forall d, good_domain d -> exists d', load_domain (chars (domain_str d)) = Ok d' /\ same_domain shifted d d'.
Proof.
  intros [|a b|l] H.
  - exists LBool. split; [reflexivity|exact I].
  - exists (LPair a b). split; [|split; reflexivity].
    assert (E : chars (domain_str (LPair a b)) = "["%char :: chars (str_Z a) ++ ","%char :: " "%char :: chars (str_Z b) ++ ["]"%char]).
    { cbn [domain_str]. unfold chars. rewrite !las_app. reflexivity. }
    unfold load_domain. rewrite E. change (Ascii.eqb "[" "[") with true. cbv iota.
    rewrite app_comm_cons, split_app, split_none.
    2:{ intros [X|X]; [discriminate X|]. apply (str_Z_free _ _ X). cbn. tauto. }
    rewrite split_none.
    2:{ intros [X|X]; [discriminate X|]. apply in_app_iff in X. destruct X as [X|[X|[]]]; [|discriminate X]. apply (str_Z_free _ _ X). cbn. tauto. }
    cbn [rev app tl]. unfold chars. rewrite py_int_str_Z. cbn [of_opt bind].
    assert (U : until_bracket (" "%char :: list_ascii_of_string (str_Z b) ++ ["]"%char]) = Some (" "%char :: list_ascii_of_string (str_Z b))).
    { cbn [until_bracket]. change (Ascii.eqb " " "]") with false. cbv iota.
      assert (G : forall s, ~ In "]"%char s -> until_bracket (s ++ ["]"%char]) = Some s).
      { induction s as [|c s IH]; intro Hs; [reflexivity|]. cbn. destruct (Ascii.eqb_spec c "]") as [->|_]; [exfalso; apply Hs; left; reflexivity|].
        rewrite IH by (intro X; apply Hs; right; exact X). reflexivity. }
      rewrite G; [reflexivity|]. intro X. apply (str_Z_free _ _ X). cbn. tauto. }
    rewrite U. cbn [of_opt bind]. rewrite py_int_space, py_int_str_Z. reflexivity.
  - exists (LIter (as_set [] (map load_elem (split_on "," [] (chars (join ", " (map elem_str l))))))). split.
    + assert (E : chars (domain_str (LIter l)) = "{"%char :: chars (join ", " (map elem_str l)) ++ ["}"%char]).
      { cbn [domain_str]. unfold chars. rewrite !las_app. reflexivity. }
      unfold load_domain. rewrite E. change (Ascii.eqb "{" "[") with false. change (Ascii.eqb "{" "{") with true. cbv iota.
      rewrite app_comm_cons, last_last. change (Ascii.eqb "}" "}") with true. cbv iota. rewrite removelast_last. reflexivity.
    + cbn [same_domain good_domain] in *. intro x. rewrite as_set_In. rewrite split_join.
      2:{ intros t Ht X. apply in_map_iff in Ht. destruct Ht as (e & <- & He). rewrite Forall_forall in H. apply (elem_free e _ (H e He) X). cbn. tauto. }
      replace (map load_elem match map elem_str l with [] => [[]] | t :: r => chars t :: map (fun t => " "%char :: chars t) r end) with (shifted l); [cbn; tauto|].
      destruct l as [|e r]; [reflexivity|]. cbn [map shifted]. rewrite load_elem_first by exact (Forall_inv H). f_equal. apply Forall_inv_tail in H. rewrite !map_map. apply map_ext_in.
      intros u Hu. rewrite Forall_forall in H. symmetry. apply load_elem_later, H, Hu.
Qed.

(** ** Sections *)
Definition body (kv : string * ldom) : list ascii := chars (fst kv) ++ " "%char :: ":"%char :: " "%char :: chars (domain_str (snd kv)).
Definition lines (d : decls) : list ascii := flat_map (fun kv => body kv ++ [";"%char; nl]) d.
Lemma chars_lines : forall d, chars (String.concat "" (map decl_line d)) = lines d.
Proof.
  induction d as [|kv d IH]; [reflexivity|]. cbn [map]. rewrite concat_cons. unfold chars in *. rewrite las_app, IH. cbn [lines flat_map]. f_equal.
  unfold decl_line, body, newline. rewrite !las_app. unfold chars. cbn [list_ascii_of_string app]. rewrite <- app_assoc. reflexivity.
Qed.
Definition good_pair (kv : string * ldom) : Prop := good_name (fst kv) /\ good_domain (snd kv).
Lemma body_no : forall kv c, good_pair kv -> In c (chars ";#%") -> ~ In c (body kv).
Proof.
  intros [k d] c [(_ & N & _) D] B X. unfold body in X. cbn [fst snd] in *. apply in_app_iff in X.
  assert (B' : In c (chars ";:#%")) by (cbn in *; tauto).
  destruct X as [X|X]; [exact (N c X B')|]. cbn [In] in X. destruct X as [<-|[<-|[<-|X]]]; [cbn in B; intuition discriminate|cbn in B; intuition discriminate|cbn in B; intuition discriminate|].
  exact (domain_free d c D X B').
Qed.
Lemma body_spaced : forall kv p, good_pair kv -> spaced p (body kv) = true.
Proof.
  intros [k d] p [(_ & N & _) D]. unfold body. cbn [fst snd] in *. apply spaced_app.
  - apply spaced_free. intro X. apply (N _ X). cbn. tauto.
  - intro q. cbn. apply spaced_free. intro X. apply (domain_free d _ D X). cbn. tauto.
Qed.
Lemma lines_spaced : forall d p, Forall good_pair d -> spaced p (lines d) = true.
Proof.
  induction d as [|kv d IH]; intros p H; [reflexivity|]. cbn [lines flat_map]. apply spaced_app; [|intro q; apply IH, (Forall_inv_tail H)].
  apply spaced_app; [apply body_spaced, (Forall_inv H)|]. intro q. reflexivity.
Qed.
Lemma lines_no : forall d c, Forall good_pair d -> In c (chars "#%") -> ~ In c (lines d).
Proof.
  induction d as [|kv d IH]; intros c H B X; [exact X|]. cbn [lines flat_map] in X. rewrite !in_app_iff in X. destruct X as [[X|X]|X].
  - apply (body_no kv c (Forall_inv H)); [cbn in *; tauto|exact X].
  - cbn in B, X. destruct B as [<-|[<-|[]]]; intuition discriminate.
  - exact (IH c (Forall_inv_tail H) B X).
Qed.
Lemma split_lines : forall d tail, Forall good_pair d -> ~ In ";"%char tail ->
  split_on ";" [] (nl :: lines d ++ tail) = map (fun kv => nl :: body kv) d ++ [nl :: tail].
Proof.
  induction d as [|kv d IH]; intros tail H T; cbn [lines flat_map map app].
  - rewrite split_none; [reflexivity|]. intros [X|X]; [discriminate X|exact (T X)].
  - rewrite <- !app_assoc. cbn [app]. rewrite app_comm_cons, split_app, split_none.
    + cbn [rev app]. f_equal. apply IH; [exact (Forall_inv_tail H)|exact T].
    + intros [X|X]; [discriminate X|]. apply (body_no kv ";"%char (Forall_inv H)); [cbn; tauto|exact X].
Qed.
Lemma strip_name : forall k, good_name k -> strip (nl :: chars k ++ [" "%char]) = chars k.
Proof.
  intros k (N & _ & W). unfold strip. change (lstrip (nl :: chars k ++ [" "%char])) with (lstrip (chars k ++ [" "%char])).
  destruct (chars k) as [|c l] eqn:E; [exfalso; apply N; rewrite <- (text_chars k), E; reflexivity|].
  cbn [app lstrip]. rewrite (W c) by (left; reflexivity). change (c :: l ++ [" "%char]) with ((c :: l) ++ [" "%char]). rewrite rev_app_distr. cbn [rev app lstrip].
  change (is_space " ") with true. cbv iota.
  assert (G : forall s, (forall x, In x s -> is_space x = false) -> lstrip s = s) by (intros [|x s] H; [reflexivity|]; cbn; rewrite (H x) by (left; reflexivity); reflexivity).
  rewrite G; [rewrite rev_app_distr, rev_involutive; reflexivity|].
  intros x Hx. apply W. apply in_app_iff in Hx. destruct Hx as [Hx|[->|[]]]; [right; apply in_rev; exact Hx|left; reflexivity].
Qed.
Lemma assign_new : forall (A : Type) k (v : A) d, ~ In k (map fst d) -> assign k v d = d ++ [(k, v)].
Proof.
  induction d as [|[k' v'] d IH]; intro H; [reflexivity|]. cbn [assign fst map In] in *. destruct (String.eqb_spec k' k) as [->|_]; [tauto|].
  rewrite IH by tauto. reflexivity.
Qed.
Lemma domain_head : forall d, lstrip (" "%char :: chars (domain_str d)) = chars (domain_str d).
Proof. intros [|a b|l]; reflexivity. Qed.
Lemma load_section_ok : forall d acc tail, Forall good_pair d -> NoDup (map fst d) -> (forall k, In k (map fst d) -> ~ In k (map fst acc)) -> strip tail = [] ->
  exists d', load_section (map (fun kv => nl :: body kv) d ++ [tail]) acc = Ok (acc ++ d') /\ same_decls shifted d d'.
Proof.
  induction d as [|kv d IH]; intros acc tail H N A T.
  - exists []. cbn [map app load_section]. rewrite T, app_nil_r. split; [reflexivity|constructor].
  - destruct kv as [k v]. destruct (Forall_inv H) as [Gk Gv]. cbn [fst snd] in Gk, Gv.
    destruct (load_domain_ok v Gv) as (v' & Ev & Sv). inversion N as [|? ? Nk Nd]; subst. cbn [map fst] in A.
    destruct (IH (acc ++ [(k, v')]) tail (Forall_inv_tail H) Nd) as (d' & E & Sd).
    { intros x Hx X. rewrite map_app in X. apply in_app_iff in X. destruct X as [X|[X|[]]]; [exact (A x (or_intror Hx) X)|]. cbn in X. subst x. exact (Nk Hx). }
    { exact T. }
    exists ((k, v') :: d'). split; [|constructor; [split; [reflexivity|exact Sv]|exact Sd]].
    cbn [map app load_section].
    assert (NB : exists c r, strip (nl :: body (k, v)) = c :: r).
    { destruct Gk as (Nk' & _ & W). change (strip (nl :: body (k, v))) with (strip (body (k, v))). unfold body. cbn [fst snd].
      destruct (chars k) as [|c l] eqn:Ek; [exfalso; apply Nk'; rewrite <- (text_chars k), Ek; reflexivity|]. cbn [app]. destruct (strip_head c (l ++ " "%char :: ":"%char :: " "%char :: chars (domain_str v))) as [r ->]; [apply W; left; reflexivity|]. eauto. }
    destruct NB as (c & r & ->).
    assert (Sp : split_on ":" [] (nl :: body (k, v)) = [nl :: chars k ++ [" "%char]; " "%char :: chars (domain_str v)]).
    { unfold body. cbn [fst snd]. replace (nl :: chars k ++ " "%char :: ":"%char :: " "%char :: chars (domain_str v)) with ((nl :: chars k ++ [" "%char]) ++ ":"%char :: " "%char :: chars (domain_str v)).
      2:{ cbn [app]. rewrite <- app_assoc. reflexivity. }
      rewrite split_app, split_none, split_none; [reflexivity| |].
      - intros [X|X]; [discriminate X|]. apply (domain_free v _ Gv X). cbn. tauto.
      - intros [X|X]; [discriminate X|]. apply in_app_iff in X. destruct X as [X|[X|[]]]; [|discriminate X]. apply (proj1 (proj2 Gk) _ X). cbn. tauto. }
    rewrite Sp, domain_head, Ev. cbn [bind]. rewrite strip_name by exact Gk. rewrite text_chars.
    rewrite assign_new by (apply A; left; reflexivity). rewrite E. rewrite <- app_assoc. reflexivity.
Qed.
Lemma good_pairs : forall d, good_decls d -> Forall good_pair d.
Proof. intros d [_ H]. apply Forall_forall. intros [k v] Hk. exact (H k v Hk). Qed.

(** ** The file *)
Definition in_part (d : decls) : list ascii := match d with [] => [] | _ => chars "INPUT:" ++ nl :: lines d end.
Definition out_part (d : decls) : list ascii := match d with [] => [] | _ => nl :: chars "OUTPUT:" ++ nl :: lines d end.
Lemma chars_dumps : forall l, chars (dumps None l) = chars "0  # Version" ++ nl :: sep ++ (in_part (l_in l) ++ out_part (l_out l) ++ [nl]) ++ sep ++ chars (l_formula l).
Proof.
  intros [f i o]. unfold dumps, in_part, out_part. cbn [l_in l_out l_formula]. unfold chars. rewrite !las_app. fold (chars f).
  assert (E : forall d, list_ascii_of_string (String.concat "" (map decl_line d)) = lines d) by (intro d; apply chars_lines).
  destruct i as [|a i], o as [|b o]; rewrite ?las_app, ?E; unfold sep; cbn [list_ascii_of_string app chars newline]; repeat (rewrite <- app_assoc; cbn [app]); reflexivity.
Qed.
(** Both sections are read, whichever are there. *)
Lemma section_nil : forall d tail, Forall good_pair d -> NoDup (map fst d) -> ~ In ";"%char tail -> strip (nl :: tail) = [] ->
  exists d', load_section (split_on ";" [] (nl :: lines d ++ tail)) [] = Ok d' /\ same_decls shifted d d'.
Proof.
  intros d tail H N T S. rewrite split_lines by assumption. apply (load_section_ok d [] (nl :: tail) H N); [intros k _ []|exact S].
Qed.
Definition sections (declar : list ascii) : list ascii * list ascii :=
  let i := find_sub (chars "INPUT:") declar in
  let o := match find_sub (chars "OUTPUT:") declar with Some o => o | None => 0 end in
  match i with
  | None => ([], skipn o declar)
  | Some i => if Nat.ltb i o then (slice i o declar, skipn o declar) else (skipn i declar, slice o i declar)
  end.
Lemma sections_ok : forall i o, good_decls i -> good_decls o -> exists di d,
  load_section (split_on ";" [] (remove_sub (chars "INPUT:") (fst (sections (in_part i ++ out_part o ++ [nl]))))) [] = Ok di /\ same_decls shifted i di /\
  load_section (split_on ";" [] (remove_sub (chars "OUTPUT:") (snd (sections (in_part i ++ out_part o ++ [nl]))))) [] = Ok d /\ same_decls shifted o d.
Proof.
  intros i o Gi Go. pose proof (good_pairs i Gi) as Fi. pose proof (good_pairs o Go) as Fo. destruct Gi as [Ni _]. destruct Go as [No _].
  destruct (section_nil o [nl] Fo No) as (o' & Eo & So); [intros [X|[]]; discriminate X|reflexivity|].
  assert (RO : forall o, Forall good_pair o -> remove_sub (chars "OUTPUT:") (chars "OUTPUT:" ++ nl :: lines o ++ [nl]) = nl :: lines o ++ [nl]).
  { intros x Hx. apply (remove_header (chars "OUTPU") _ false). cbn. apply spaced_app; [apply lines_spaced, Hx|reflexivity]. }
  assert (RI : forall o, Forall good_pair o -> remove_sub (chars "INPUT:") (chars "INPUT:" ++ nl :: lines o ++ [nl]) = nl :: lines o ++ [nl]).
  { intros x Hx. apply (remove_header (chars "INPU") _ false). cbn. apply spaced_app; [apply lines_spaced, Hx|reflexivity]. }
  destruct i as [|a i].
  - exists []. unfold in_part. cbn [app]. destruct o as [|b o].
    + exists []. split; [reflexivity|]. split; [constructor|]. split; [reflexivity|constructor].
    + exists o'. cbn [out_part].
      set (b' := b :: o) in *.
      assert (E : sections ((nl :: chars "OUTPUT:" ++ nl :: lines b') ++ [nl]) = ([], chars "OUTPUT:" ++ nl :: lines b' ++ [nl])).
      { unfold sections. replace ((nl :: chars "OUTPUT:" ++ nl :: lines b') ++ [nl]) with (nl :: chars "OUTPUT:" ++ nl :: lines b' ++ [nl]) by (cbn [app]; rewrite <- app_assoc; reflexivity).
        assert (X : find_sub (chars "INPUT:") (nl :: chars "OUTPUT:" ++ nl :: lines b' ++ [nl]) = None).
        { cbn [chars list_ascii_of_string app]. do 9 (cbn [find_sub]; match goal with |- context [starts ?p (?c :: ?r)] => change (starts p (c :: r)) with false end; cbv iota).
          change (find_sub _ (lines b' ++ [nl])) with (find_sub (chars "INPU" ++ ["T"; ":"]%char) (lines b' ++ [nl])).
          rewrite (no_header _ _ false); [reflexivity|]. apply spaced_app; [apply lines_spaced, Fo|reflexivity]. }
        rewrite X. reflexivity. }
      rewrite E. cbn [fst snd]. split; [reflexivity|]. split; [constructor|]. rewrite RO by exact Fo. split; [exact Eo|exact So].
  - set (i' := a :: i) in *. assert (Ei' : in_part i' = chars "INPUT:" ++ nl :: lines i') by reflexivity. rewrite Ei'. destruct o as [|b o].
    + destruct (section_nil i' [nl] Fi Ni) as (di & Ei & Si); [intros [X|[]]; discriminate X|reflexivity|]. exists di, [].
      assert (E : sections ((chars "INPUT:" ++ nl :: lines i') ++ out_part [] ++ [nl]) = (chars "INPUT:" ++ nl :: lines i' ++ [nl], [])).
      { unfold sections. cbn [out_part app]. rewrite <- app_assoc. cbn [app].
        assert (X : find_sub (chars "OUTPUT:") (chars "INPUT:" ++ nl :: lines i' ++ [nl]) = None).
        { cbn [chars list_ascii_of_string app]. do 7 (cbn [find_sub]; match goal with |- context [starts ?p (?c :: ?r)] => change (starts p (c :: r)) with false end; cbv iota).
          change (find_sub _ (lines i' ++ [nl])) with (find_sub (chars "OUTPU" ++ ["T"; ":"]%char) (lines i' ++ [nl])).
          rewrite (no_header _ _ false); [reflexivity|]. apply spaced_app; [apply lines_spaced, Fi|reflexivity]. }
        rewrite X. reflexivity. }
      rewrite E. cbn [fst snd]. split; [|split; [exact Si|split; [reflexivity|constructor]]].
      rewrite RI by exact Fi. exact Ei.
    + set (o1 := b :: o) in *.
      destruct (section_nil i' [nl] Fi Ni) as (di & Ei & Si); [intros [X|[]]; discriminate X|reflexivity|]. exists di, o'.
      assert (E : sections ((chars "INPUT:" ++ nl :: lines i') ++ out_part o1 ++ [nl]) = (chars "INPUT:" ++ nl :: lines i' ++ [nl], chars "OUTPUT:" ++ nl :: lines o1 ++ [nl])).
      { set (x := nl :: lines i').
        assert (L : (chars "INPUT:" ++ x) ++ out_part o1 ++ [nl] = chars "INPUT:" ++ x ++ nl :: chars "OUTPUT:" ++ nl :: lines o1 ++ [nl]).
        { unfold out_part, o1. rewrite <- !app_assoc. cbn [app]. rewrite <- !app_assoc. reflexivity. }
        rewrite L. clear L.
        assert (Fo' : find_sub (chars "OUTPUT:") (chars "INPUT:" ++ x ++ nl :: chars "OUTPUT:" ++ nl :: lines o1 ++ [nl]) = Some (7 + length x)).
        { change (chars "INPUT:") with ["I"; "N"; "P"; "U"; "T"; ":"]%char. cbn [app].
          do 6 (cbn [find_sub]; match goal with |- context [starts ?p (?c :: ?r)] => change (starts p (c :: r)) with false end; cbv iota).
          change (find_sub _ (x ++ nl :: chars "OUTPUT:" ++ nl :: lines o1 ++ [nl])) with (find_sub (chars "OUTPUT:") (x ++ nl :: chars "OUTPUT:" ++ nl :: lines o1 ++ [nl])).
          rewrite (find_out x false); [reflexivity|]. unfold x. exact (lines_spaced i' false Fi). }
        unfold sections. rewrite Fo'. change (find_sub (chars "INPUT:") (chars "INPUT:" ++ x ++ nl :: chars "OUTPUT:" ++ nl :: lines o1 ++ [nl])) with (Some 0).
        cbv iota. change (Nat.ltb 0 (7 + length x)) with true. cbv iota.
        replace (chars "INPUT:" ++ x ++ nl :: chars "OUTPUT:" ++ nl :: lines o1 ++ [nl]) with ((chars "INPUT:" ++ x ++ [nl]) ++ chars "OUTPUT:" ++ nl :: lines o1 ++ [nl]) by (rewrite <- !app_assoc; reflexivity).
        assert (Len : 7 + length x = length (chars "INPUT:" ++ x ++ [nl])) by (rewrite !app_length; cbn; lia).
        unfold slice. rewrite Len, Nat.sub_0_r. cbn [skipn]. rewrite firstn_app, Nat.sub_diag, firstn_all, firstn_O, app_nil_r.
        rewrite skipn_app, Nat.sub_diag, skipn_all. reflexivity. }
      rewrite E. cbn [fst snd]. split; [|split; [exact Si|split; [|exact So]]].
      * rewrite RI by exact Fi. exact Ei.
      * rewrite RO by exact Fo. exact Eo.
Qed.

Lemma check_stamp : forall t rest, (forall c, In c (chars t) -> is_break c = false) ->
  check_version (splitlines [] (chars "# Generated at " ++ chars t ++ nl :: rest)) = check_version (splitlines [] rest).
Proof.
  intros t rest H. rewrite app_assoc. rewrite (splitlines_line (chars "# Generated at " ++ chars t)).
  2:{ intros c Hc. apply in_app_iff in Hc. destruct Hc as [Hc|Hc]; [|apply H, Hc]. cbn in Hc. repeat (destruct Hc as [<-|Hc]; [reflexivity|]). destruct Hc. }
  cbn [rev app]. cbn [check_version]. change (chars "# Generated at ") with ("#"%char :: chars " Generated at "). cbn [app].
  destruct (strip_head "#" (chars " Generated at " ++ chars t) eq_refl) as [r ->]. reflexivity.
Qed.
(** The text is read back, with the domains as [shifted] tells. *)
Theorem loads_dumps_shifted : forall stamp l, good_decls (l_in l) -> good_decls (l_out l) ->
  (forall k, In k (map fst (l_in l)) -> ~ In k (map fst (l_out l))) ->
  ~ In "#"%char (chars (l_formula l)) -> (forall a b, l_formula l <> (a ++ "%%" ++ newline ++ b)%string) ->
  (forall t c, stamp = Some t -> In c (chars t) -> is_break c = false) ->
  exists l', loads (dumps stamp l) = Ok l' /\ l_formula l' = l_formula l /\ same_decls shifted (l_in l) (l_in l') /\ same_decls shifted (l_out l) (l_out l').
Proof.
  intros stamp l Gi Go Dis Nh Ns St.
  assert (S0 : chars (dumps stamp l) = match stamp with Some t => chars "# Generated at " ++ chars t ++ nl :: chars (dumps None l) | None => chars (dumps None l) end).
  { destruct stamp as [t|]; [|reflexivity]. change (dumps (Some t) l) with (("# Generated at " ++ t ++ newline) ++ dumps None l)%string. unfold chars. rewrite !las_app. rewrite <- !app_assoc. reflexivity. }
  unfold loads.
  assert (V : check_version (splitlines [] (chars (dumps stamp l))) = Ok tt).
  { assert (V0 : check_version (splitlines [] (chars (dumps None l))) = Ok tt).
    { rewrite chars_dumps. rewrite (splitlines_line (chars "0  # Version")); [reflexivity|].
      intros c Hc. cbn in Hc. repeat (destruct Hc as [<-|Hc]; [reflexivity|]). destruct Hc. }
    rewrite S0. destruct stamp as [t|]; [|exact V0]. rewrite check_stamp; [exact V0|]. intros c Hc. exact (St t c eq_refl Hc). }
  rewrite V. cbn [bind].
  set (declar := in_part (l_in l) ++ out_part (l_out l) ++ [nl]).
  pose proof (good_pairs _ Gi) as Fi. pose proof (good_pairs _ Go) as Fo.
  assert (Dn : forall c, In c (chars "#%") -> ~ In c declar).
  { intros c B X. unfold declar in X. rewrite !in_app_iff in X. destruct X as [X|[X|X]].
    - unfold in_part in X. destruct (l_in l) as [|a i]; [exact X|]. apply in_app_iff in X. destruct X as [X|[X|X]]; [cbn in B, X; intuition congruence|cbn in B, X; intuition congruence|]. exact (lines_no _ c Fi B X).
    - unfold out_part in X. destruct (l_out l) as [|a i]; [exact X|]. destruct X as [X|X]; [cbn in B, X; intuition congruence|]. apply in_app_iff in X. destruct X as [X|[X|X]]; [cbn in B, X; intuition congruence|cbn in B, X; intuition congruence|]. exact (lines_no _ c Fo B X).
    - cbn in B, X. intuition congruence. }
  assert (U : uncomment false (chars (dumps stamp l)) = chars "0  " ++ sep ++ declar ++ sep ++ chars (l_formula l)).
  { assert (U0 : uncomment false (chars (dumps None l)) = chars "0  " ++ sep ++ declar ++ sep ++ chars (l_formula l)).
    { rewrite chars_dumps.
      match goal with |- uncomment false (?a ++ nl :: ?r) = _ => change (uncomment false (a ++ nl :: r)) with (chars "0  " ++ uncomment true (chars " Version" ++ nl :: r)) end.
      rewrite uncomment_comment by (cbn; intuition discriminate). fold declar. f_equal. rewrite uncomment_plain by (cbn; intuition discriminate). f_equal.
      rewrite uncomment_plain by (apply Dn; cbn; tauto). f_equal. rewrite uncomment_plain by (cbn; intuition discriminate). f_equal.
      rewrite <- (app_nil_r (chars (l_formula l))) at 1. rewrite uncomment_plain by exact Nh. apply app_nil_r. }
    rewrite S0. destruct stamp as [t|]; [|exact U0]. change (chars "# Generated at ") with ("#"%char :: chars " Generated at "). cbn [app uncomment Ascii.eqb Bool.eqb].
    rewrite app_assoc, uncomment_comment; [exact U0|]. rewrite in_app_iff. intros [X|X]; [cbn in X; intuition discriminate|]. specialize (St t nl eq_refl X). discriminate St. }
  rewrite U. fold sep. rewrite split_sep by (cbn; intuition discriminate). rewrite split_sep by (apply Dn; cbn; tauto). rewrite split_sub_none.
  2:{ apply find_sub_none. intros a b E. apply (Ns (text a) (text b)). rewrite <- (text_chars (l_formula l)), E. unfold sep. rewrite !text_app, text_chars. reflexivity. }
  cbn [rev app].
  destruct (sections_ok (l_in l) (l_out l) Gi Go) as (di & d & Ei & Si & Eo & So). fold declar in Ei, Eo.
  change (let '(ins, outs) := sections declar in
    do di <- load_section (split_on ";" [] (remove_sub (chars "INPUT:") ins)) [];
    do d <- load_section (split_on ";" [] (remove_sub (chars "OUTPUT:") outs)) [];
    if existsb (fun kv : string * ldom => existsb (fun kv' : string * ldom => String.eqb (fst kv) (fst kv')) d) di then Err "Exception" else Ok (Ltl (text (chars (l_formula l))) di d)) with
    (match sections declar with (ins, outs) => do di <- load_section (split_on ";" [] (remove_sub (chars "INPUT:") ins)) [];
    do d <- load_section (split_on ";" [] (remove_sub (chars "OUTPUT:") outs)) [];
    if existsb (fun kv : string * ldom => existsb (fun kv' : string * ldom => String.eqb (fst kv) (fst kv')) d) di then Err "Exception" else Ok (Ltl (text (chars (l_formula l))) di d) end).
  destruct (sections declar) as [ins outs] eqn:Es. cbn [fst snd] in Ei, Eo. unfold sections in Es.
  exists (Ltl (l_formula l) di d). split; [|split; [reflexivity|split; [exact Si|exact So]]].
  cbv zeta. rewrite Es. rewrite Ei. cbn [bind]. rewrite Eo. cbn [bind]. rewrite text_chars.
  assert (Keys : forall a b, same_decls shifted a b -> map fst a = map fst b).
  { intros a b F. induction F as [|x y a b [E _] F IH]; [reflexivity|]. cbn. rewrite E, IH. reflexivity. }
  destruct (existsb _ di) eqn:X; [|reflexivity]. exfalso. apply existsb_exists in X. destruct X as (x & Hx & X). apply existsb_exists in X. destruct X as (y & Hy & E). apply String.eqb_eq in E.
  apply (Dis (fst x)); [rewrite (Keys _ _ Si); apply in_map, Hx|]. rewrite (Keys _ _ So), E. apply in_map, Hy.
Qed.
(** C24: specifications whose sets are not empty and have strings at most in front are read back unchanged. *)
Theorem ltl_loads_dumps : forall stamp l, good_decls (l_in l) -> good_decls (l_out l) ->
  (forall k, In k (map fst (l_in l)) -> ~ In k (map fst (l_out l))) ->
  (forall k v, In (k, v) (l_in l) \/ In (k, v) (l_out l) -> plain_domain v) ->
  ~ In "#"%char (chars (l_formula l)) -> (forall a b, l_formula l <> (a ++ "%%" ++ newline ++ b)%string) ->
  (forall t c, stamp = Some t -> In c (chars t) -> is_break c = false) ->
  exists l', loads (dumps stamp l) = Ok l' /\ l_formula l' = l_formula l /\ same_decls (fun x => x) (l_in l) (l_in l') /\ same_decls (fun x => x) (l_out l) (l_out l').
Proof.
  intros stamp l Gi Go Dis Pl Nh Ns St. destruct (loads_dumps_shifted stamp l Gi Go Dis Nh Ns St) as (l' & E & F & Si & So).
  assert (P : forall d d', (forall k v, In (k, v) d -> plain_domain v) -> same_decls shifted d d' -> same_decls (fun x => x) d d').
  { intros d d' H S. induction S as [|a b d d' [E1 E2] S IH]; constructor; [|apply IH; intros k v Hk; exact (H k v (or_intror Hk))].
    split; [exact E1|]. specialize (H (fst a) (snd a)). rewrite <- surjective_pairing in H. specialize (H (or_introl eq_refl)).
    destruct (snd a) as [|x y|s], (snd b) as [|x' y'|s']; cbn in *; try exact E2. destruct s as [|e r]; [destruct H|].
    replace (shifted (e :: r)) with (e :: r) in E2; [exact E2|]. cbn [shifted]. f_equal. clear -H. induction r as [|u r IH]; [reflexivity|]. cbn. rewrite <- IH by (intros s X; apply (H s); right; exact X). f_equal.
    destruct u as [z|s]; [reflexivity|]. exfalso. apply (H s). left. reflexivity. }
  exists l'. split; [exact E|]. split; [exact F|]. split; apply P; auto; intros k v Hk; apply (Pl k v); auto.
Qed.

(** ** Cases, and where the claim fails *)
Definition sample : ltl := Ltl "[](req -> X (y = 3))" [("req", LBool); ("mode", LIter [EStr "a b"; EInt 7; EInt (-2)])] [("y", LPair (-1) 5)].
Example sample_good : good_decls (l_in sample) /\ good_decls (l_out sample) /\ (forall k v, In (k, v) (l_in sample) \/ In (k, v) (l_out sample) -> plain_domain v).
Proof.
  assert (N : forall k, k <> "" -> forallb (fun c => negb (is_space c) && negb (existsb (Ascii.eqb c) (chars ";:#%"))) (chars k) = true -> good_name k).
  { intros k Hk H. split; [exact Hk|]. rewrite forallb_forall in H. split.
    - intros c Hc X. specialize (H c Hc). apply andb_true_iff in H. destruct H as [_ H]. apply negb_true_iff in H.
      assert (Y : existsb (Ascii.eqb c) (chars ";:#%") = true) by (apply existsb_exists; exists c; split; [exact X|apply Ascii.eqb_refl]). congruence.
    - intros c Hc. specialize (H c Hc). apply andb_true_iff in H. destruct H as [H _]. apply negb_true_iff, H. }
  split; [|split].
  - split; [repeat constructor; cbn; intuition discriminate|]. intros k v [[= <- <-]|[[= <- <-]|[]]]; (split; [apply N; [discriminate|reflexivity]|]); [exact I|].
    cbn. repeat constructor. + intros c Hc X. cbn in Hc, X. intuition congruence. + exists "a"%char. split; [left; reflexivity|reflexivity].
  - split; [repeat constructor; cbn; intuition discriminate|]. intros k v [[= <- <-]|[]]. split; [apply N; [discriminate|reflexivity]|exact I].
  - intros k v [[[= <- <-]|[[= <- <-]|[]]]|[[= <- <-]|[]]]; cbn; try exact I. intros s H. intuition discriminate.
Qed.
Example sample_case : loads (dumps (Some "2026-01-01 00:00:00 UTC") sample) = Ok sample.
Proof. vm_compute. reflexivity. Qed.
(** A set of two strings comes back with a space in front of the second. *)
Theorem loads_strings_refuted : exists l l', good_decls (l_in l) /\ good_decls (l_out l) /\ loads (dumps None l) = Ok l' /\ ~ same_decls (fun x => x) (l_out l) (l_out l').
Proof.
  exists (Ltl "" [] [("x", LIter [EStr "a"; EStr "b"])]). eexists. split; [split; [constructor|intros k v []]|]. split.
  - split; [repeat constructor; intros []|]. intros k v [[= <- <-]|[]]. split; [split; [discriminate|split; [intros c Hc X; cbn in Hc, X; intuition congruence|intros c [<-|[]]; reflexivity]]|].
    repeat constructor; try (intros c Hc X; cbn in Hc, X; intuition congruence); [exists "a"%char|exists "b"%char]; (split; [left; reflexivity|reflexivity]).
  - split; [vm_compute; reflexivity|]. intro H. inversion H as [|? ? ? ? [_ H1] _]; subst. cbn in H1. destruct (proj2 (H1 (EStr "b")) (or_intror (or_introl eq_refl))) as [X|[X|[]]]; discriminate X.
Qed.
(** The empty set comes back with the empty string in it. *)
Theorem loads_empty_refuted : loads (dumps None (Ltl "" [] [("x", LIter [])])) = Ok (Ltl "" [] [("x", LIter [EStr ""])]).
Proof. vm_compute. reflexivity. Qed.
(** A string that reads as an integer comes back as one. *)
Theorem loads_digits_refuted : loads (dumps None (Ltl "" [] [("x", LIter [EStr "1"])])) = Ok (Ltl "" [] [("x", LIter [EInt 1])]).
Proof. vm_compute. reflexivity. Qed.
(** The rest of a formula after a number sign is lost, and a formula with the separator cannot be read. *)
Theorem loads_hash_refuted : loads (dumps None (Ltl "x # y" [] [])) = Ok (Ltl "x " [] []).
Proof. vm_compute. reflexivity. Qed.
Theorem loads_separator_refuted : loads (dumps None (Ltl ("x %%" ++ newline)%string [] [])) = Err "ValueError".
Proof. vm_compute. reflexivity. Qed.

Print Assumptions loads_dumps_shifted.
Print Assumptions ltl_loads_dumps.
Print Assumptions loads_strings_refuted.
