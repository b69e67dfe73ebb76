(** Decimal texts of natural numbers. *)
From Coq Require Import List String Ascii Bool Arith ZArith Lia.
From Verif Require Import M_Base M_Ast M_Lexer M_Tree S_LTL S_Gr1 S_Syntax.
Import ListNotations.
Open Scope string_scope.

Lemma digit_cases (d : nat) : d < 10 -> In d [0;1;2;3;4;5;6;7;8;9].
Proof. intro H. cbn. lia. Qed.
Lemma digit_char_val d : d < 10 -> digit_val (digit_char d) = Some (Z.of_nat d).
Proof. intro H. apply digit_cases in H. cbn in H. repeat (destruct H as [<-|H]; [reflexivity|]). contradiction. Qed.
Lemma digit_char_digit d : d < 10 -> digit (digit_char d) = true.
Proof. intro H. apply digit_cases in H. cbn in H. repeat (destruct H as [<-|H]; [reflexivity|]). contradiction. Qed.

Lemma dec_digits_val : forall f n acc, n < f -> exists k, forall a,
  nat_text a (dec_digits f n acc) = nat_text (a * k + Z.of_nat n) acc.
Proof.
  induction f as [|f IH]; intros n acc H; [lia|]. cbn [dec_digits].
  pose proof (Nat.div_mod n 10 ltac:(lia)) as E. pose proof (Nat.mod_upper_bound n 10 ltac:(lia)) as B.
  destruct (n / 10) as [|m] eqn:Q.
  - exists 10%Z. intro a. cbn [nat_text]. rewrite digit_char_val by auto. f_equal. lia.
  - rewrite <- Q in *. destruct (IH (n / 10) (String (digit_char (n mod 10)) acc)) as [k K].
    { assert (n / 10 < n); [apply Nat.div_lt; lia|lia]. }
    exists (10 * k)%Z. intro a. rewrite K. cbn [nat_text]. rewrite digit_char_val by auto. f_equal. lia.
Qed.
Lemma dec_digits_shape : forall f n acc, n < f -> forallb digit (list_ascii_of_string acc) = true ->
  exists c r, dec_digits f n acc = String c r /\ forallb digit (c :: list_ascii_of_string r) = true.
Proof.
  induction f as [|f IH]; intros n acc H A; [lia|]. cbn [dec_digits].
  pose proof (Nat.mod_upper_bound n 10 ltac:(lia)) as B.
  destruct (n / 10) as [|m] eqn:Q.
  - do 2 eexists. split; [reflexivity|]. cbn [forallb]. rewrite digit_char_digit by auto. exact A.
  - rewrite <- Q. apply IH.
    + assert (n / 10 < n); [apply Nat.div_lt; [|lia]|lia]. destruct n; [discriminate|lia].
    + cbn [list_ascii_of_string forallb]. rewrite digit_char_digit by auto. exact A.
Qed.
Lemma str_nat_numeral n : numeral (str_nat n) = true.
Proof.
  unfold str_nat. destruct (dec_digits_shape (S n) n "" ltac:(lia) eq_refl) as (c & r & -> & H). exact H.
Qed.
Lemma digit_not_minus c : digit c = true -> c <> "-"%char.
Proof. intros H ->. discriminate. Qed.
Lemma num_text_numeral v : numeral v = true -> num_text v = nat_text 0 v.
Proof.
  destruct v as [|c r]; [discriminate|]. cbn [numeral]. intro H. apply andb_true_iff in H. destruct H as [H _].
  apply digit_not_minus in H. unfold num_text.
  destruct c as [[] [] [] [] [] [] [] []]; try reflexivity. exfalso. apply H. reflexivity.
Qed.
Lemma num_text_str_nat n : num_text (str_nat n) = Some (Z.of_nat n).
Proof.
  rewrite num_text_numeral by apply str_nat_numeral. unfold str_nat.
  destruct (dec_digits_val (S n) n "" ltac:(lia)) as [k K]. rewrite K. reflexivity.
Qed.
Lemma str_nat_number n : number_text (str_nat n) = true.
Proof.
  pose proof (str_nat_numeral n) as H. destruct (str_nat n) as [|c r]; [discriminate|]. cbn [numeral] in H.
  assert (D : digit c = true) by (apply andb_true_iff in H; apply H). apply digit_not_minus in D.
  unfold number_text. destruct c as [[] [] [] [] [] [] [] []]; auto; try (exfalso; apply D; reflexivity).
Qed.
Lemma str_nat_inj a b : str_nat a = str_nat b -> a = b.
Proof. intro H. apply (f_equal num_text) in H. rewrite !num_text_str_nat in H. inversion H. lia. Qed.
