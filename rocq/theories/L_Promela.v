(** Lemmas for the export to Promela: tokens of texts. *)
From Coq Require Import List String Ascii Bool Arith ZArith Lia.
From Verif Require Import S_LTL S_Python L_Python S_Promela.
Import ListNotations.
Open Scope string_scope.
Open Scope list_scope.
Open Scope nat_scope.
Notation chars s := (list_ascii_of_string s).

Lemma take_len f s : List.length (snd (take_while f s)) <= List.length s.
Proof. induction s as [|c s IH]; cbn [take_while]; [cbn; lia|]. destruct (f c); [|cbn; lia]. destruct (take_while f s); cbn in *; lia. Qed.
Lemma comment_rest_len n : forall s q, List.length s <= n -> comment_rest s = Some q -> List.length q <= List.length s.
Proof.
  induction n as [|n IH]; intros s q L; (destruct s as [|c r]; [discriminate|]); cbn [List.length] in *; [lia|]. cbn [comment_rest]. destruct (Ascii.eqb c "*").
  - destruct r as [|d r']; [discriminate|]. destruct (Ascii.eqb d "/"); [intros [= <-]; cbn; lia|]. intro H. apply IH in H; cbn in *; lia.
  - intro H. apply IH in H; lia.
Qed.
Lemma string_rest_len n : forall s a q, List.length s <= n -> string_rest s = Some (a, q) -> List.length q <= List.length s.
Proof.
  induction n as [|n IH]; intros s a q L; (destruct s as [|c r]; [discriminate|]); cbn [List.length] in *; [lia|]. cbn [string_rest]. destruct (Ascii.eqb c """"); [intros [= _ <-]; cbn; lia|].
  destruct (Ascii.eqb c "010"); [discriminate|]. destruct (Ascii.eqb c "\").
  - destruct r as [|d r']; [discriminate|]. destruct (string_rest r') as [[x y]|] eqn:E; [|discriminate]. intros [= _ <-]. apply IH in E; cbn in *; lia.
  - destruct (string_rest r) as [[x y]|] eqn:E; [|discriminate]. intros [= _ <-]. apply IH in E; cbn in *; lia.
Qed.
Lemma token_len c r : List.length (snd (token c r)) <= List.length r.
Proof.
  unfold token. destruct (space c); [cbn; lia|].
  destruct (is_letter c); [assert (L := take_len word_char r); destruct (take_while word_char r); exact L|].
  destruct (is_digit c); [assert (L := take_len is_digit r); destruct (take_while is_digit r); exact L|].
  destruct (Ascii.eqb c """"); [destruct (string_rest r) as [[a b]|] eqn:E; [apply (string_rest_len _ r a b (le_n _)) in E; exact E|cbn; lia]|].
  destruct (Ascii.eqb c "/").
  { destruct r as [|d r']; [cbn; lia|]. destruct (Ascii.eqb d "*"); [|cbn; lia]. destruct (comment_rest r') as [b|] eqn:E; [apply (comment_rest_len _ r' b (le_n _)) in E; cbn; lia|cbn; lia]. }
  destruct (Ascii.eqb c ":"); [destruct r as [|d r']; [cbn; lia|]; destruct (Ascii.eqb d ":"); cbn; lia|cbn; lia].
Qed.
Lemma tokens_more n : forall s, List.length s <= n -> tokens_of n s = tokens_of (List.length s) s.
Proof.
  induction n as [n IH] using lt_wf_ind. intros s L. destruct s as [|c r], n as [|n]; cbn [List.length] in *; [reflexivity|reflexivity|lia|]. cbn [tokens_of].
  assert (B := token_len c r). destruct (token c r) as [o r']. cbn [snd] in B. rewrite (IH n) by lia.
  assert (E : tokens_of (List.length r) r' = tokens_of (List.length r') r') by (destruct (Nat.eq_dec (List.length r) n) as [<-|]; apply IH; lia). rewrite E. reflexivity.
Qed.
Definition tk (s : list ascii) : list ptok := tokens_of (List.length s) s.
Lemma tk_cons c r : tk (c :: r) = match fst (token c r) with Some t => t :: tk (snd (token c r)) | None => tk (snd (token c r)) end.
Proof. unfold tk at 1. cbn [List.length tokens_of]. assert (B := token_len c r). destruct (token c r) as [o r']. cbn [fst snd] in *. rewrite tokens_more by lia. reflexivity. Qed.
Lemma tokens_tk s : promela_tokens s = tk (chars s).
Proof. unfold promela_tokens, tk. f_equal. induction s as [|c s IH]; [reflexivity|]. cbn. rewrite IH. reflexivity. Qed.

Definition gives (s : string) (ts : list ptok) : Prop := forall rest, tk (chars s ++ rest) = ts ++ tk rest.
Lemma gives_app a ta b tb : gives a ta -> gives b tb -> gives (a ++ b)%string (ta ++ tb).
Proof. intros A B rest. rewrite chars_app, <- app_assoc, A, B, app_assoc. reflexivity. Qed.
Lemma gives_concat {A} (f : A -> string) (g : A -> list ptok) l : (forall x, In x l -> gives (f x) (g x)) -> gives (String.concat "" (map f l)) (flat_map g l).
Proof.
  induction l as [|x l IH]; intro H; [intro rest; reflexivity|]. cbn [map flat_map]. destruct l as [|y l].
  - cbn [map String.concat flat_map]. rewrite app_nil_r. apply H. left. reflexivity.
  - change (String.concat "" (f x :: map f (y :: l))) with (f x ++ String.concat "" (map f (y :: l)))%string.
    apply gives_app; [apply H; left; reflexivity|]. apply IH. intros z I. apply H. right. exact I.
Qed.
(** A text that is known, whose last character ends the token: computed character by character. *)
Ltac lit_step := match goal with |- context [tk (?c :: ?r)] => rewrite (tk_cons c r); let v := eval vm_compute in (token c r) in change (token c r) with v; cbn [fst snd] end.
Ltac lits := intro rest; cbn [list_ascii_of_string append app]; repeat lit_step; reflexivity.
Lemma take_all f s c rest : forallb f s = true -> f c = false -> take_while f (s ++ c :: rest) = (s, c :: rest).
Proof. induction s as [|d s IH]; intros H N; cbn [app take_while]; [rewrite N; reflexivity|]. cbn [forallb] in H. apply andb_true_iff in H. destruct H as [A B]. rewrite A, (IH B N). reflexivity. Qed.
Lemma letter_not_space c : is_letter c = true -> space c = false.
Proof. destruct c as [[] [] [] [] [] [] [] []]; vm_compute; congruence. Qed.
(** A word before a text that starts with another character. *)
Lemma word_gives x d b ts : word x -> word_char d = false -> gives (String d b) ts -> gives (x ++ String d b)%string (TId x :: ts).
Proof.
  intros W D G rest. rewrite chars_app, <- app_assoc. destruct x as [|c r]; [contradiction|]. destruct W as [L F]. cbn [list_ascii_of_string app]. rewrite tk_cons.
  assert (E : token c (chars r ++ (d :: chars b) ++ rest) = (Some (TId (String c r)), d :: chars b ++ rest)).
  { unfold token. rewrite (letter_not_space c L), L. cbn [app]. rewrite take_all by assumption. change (c :: chars r) with (chars (String c r)). rewrite string_of_list_ascii_of_string. reflexivity. }
  cbn [app] in E. rewrite E. cbn [fst snd]. specialize (G rest). cbn [list_ascii_of_string app] in G. rewrite G. reflexivity.
Qed.
(** A text without quotes, backslashes and newlines in a string that ends with a newline. *)
Definition plain (s : string) : Prop := forall c, In c (chars s) -> c <> """"%char /\ c <> "\"%char /\ c <> "010"%char.
Lemma string_rest_plain s q : (forall c, In c s -> c <> """"%char /\ c <> "\"%char /\ c <> "010"%char) ->
  string_rest (s ++ "\"%char :: "n"%char :: """"%char :: q) = Some (s ++ ["\"; "n"]%char, q).
Proof.
  induction s as [|c s IH]; intro P; [reflexivity|]. cbn [app string_rest]. destruct (P c (or_introl eq_refl)) as (A & B & C).
  rewrite (proj2 (Ascii.eqb_neq c """") A), (proj2 (Ascii.eqb_neq c "010") C), (proj2 (Ascii.eqb_neq c "\") B), IH; [reflexivity|]. intros d I. apply P. right. exact I.
Qed.
Lemma soli_app a b : string_of_list_ascii (a ++ b) = (string_of_list_ascii a ++ string_of_list_ascii b)%string.
Proof. induction a as [|c a IH]; [reflexivity|]. cbn. rewrite IH. reflexivity. Qed.
Lemma string_gives s b ts : plain s -> gives b ts -> gives (String """" (s ++ "\n""" ++ b))%string (TStr (s ++ "\n")%string :: ts).
Proof.
  intros P G rest. cbn [list_ascii_of_string app]. rewrite tk_cons.
  assert (E : chars (s ++ "\n""" ++ b)%string ++ rest = chars s ++ "\"%char :: "n"%char :: """"%char :: (chars b ++ rest)) by (rewrite !chars_app, <- !app_assoc; reflexivity).
  rewrite E. assert (T : token """" (chars s ++ "\"%char :: "n"%char :: """"%char :: (chars b ++ rest)) = (Some (TStr (s ++ "\n")%string), chars b ++ rest)).
  { unfold token. cbn [space is_letter is_digit Ascii.eqb]. rewrite string_rest_plain by exact P. rewrite soli_app, string_of_list_ascii_of_string. reflexivity. }
  rewrite T. cbn [fst snd]. rewrite G. reflexivity.
Qed.
(** The comment at the start, with a text in it. *)
Definition no_star (s : string) : Prop := ~ In "*"%char (chars s).
Lemma comment_rest_skip s r : ~ In "*"%char s -> comment_rest (s ++ r) = comment_rest r.
Proof. induction s as [|c s IH]; intro N; [reflexivity|]. cbn [app comment_rest]. rewrite (proj2 (Ascii.eqb_neq c "*")) by (intro E; apply N; left; congruence). apply IH. intro I. apply N. right. exact I. Qed.
