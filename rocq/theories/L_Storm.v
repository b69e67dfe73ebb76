(** Reading back what [to_prism] writes. *)
From Coq Require Import List String Ascii Bool Arith ZArith QArith Qcanon Qabs Qround Lia Lqa.
From Verif Require Import M_Base M_Lexer M_Tree S_Syntax S_LTL L_Dec.
From Verif Require Import M_Dict M_Graph M_Machine M_Compose S_Compose L_Machine M_Storm S_Storm.
Import ListNotations.
Open Scope list_scope.
Open Scope string_scope.

(** ** Tokens of a concatenation *)
Definition runs (m : mode) (s : string) (l : list token) (m' : mode) : Prop :=
  forall rest, tokens m (s ++ rest) = match tokens m' rest with Some l' => Some (l ++ l')%list | None => None end.
Lemma append_assoc (a b c : string) : (a ++ b) ++ c = a ++ b ++ c.
Proof. induction a as [|x a IH]; cbn; [reflexivity|]. rewrite IH. reflexivity. Qed.
Lemma append_nil (a : string) : a ++ "" = a.
Proof. induction a as [|x a IH]; cbn; [reflexivity|]. rewrite IH. reflexivity. Qed.
Lemma runs_nil m : runs m "" [] m.
Proof. intro rest. cbn. destruct (tokens m rest); reflexivity. Qed.
Lemma runs_app m1 s1 l1 m2 s2 l2 m3 : runs m1 s1 l1 m2 -> runs m2 s2 l2 m3 -> runs m1 (s1 ++ s2) (l1 ++ l2)%list m3.
Proof.
  intros A B rest. rewrite append_assoc, A, B. destruct (tokens m3 rest); [rewrite app_assoc; reflexivity|reflexivity].
Qed.
Lemma runs_char m c l m' : next m c = Some (m', l) -> runs m (String c "") l m'.
Proof. intros H rest. cbn [append tokens]. rewrite H. reflexivity. Qed.
Lemma runs_cons m c l1 m2 s l2 m3 : next m c = Some (m2, l1) -> runs m2 s l2 m3 -> runs m (String c s) (l1 ++ l2)%list m3.
Proof. intros A B. exact (runs_app m (String c "") l1 m2 s l2 m3 (runs_char _ _ _ _ A) B). Qed.
Lemma runs_all m s l : runs m s l Between -> tokens m s = Some l.
Proof. intro H. specialize (H ""). rewrite append_nil in H. rewrite H. cbn. rewrite app_nil_r. reflexivity. Qed.
Lemma runs_eq m s l m' l' : runs m s l m' -> l = l' -> runs m s l' m'.
Proof. intros H <-. exact H. Qed.
Lemma runs_concat {A} (g : A -> list token) (l : list A) ts :
  Forall2 (fun x t => runs Between t (g x) Between) l ts -> runs Between (String.concat "" ts) (flat_map g l) Between.
Proof.
  induction 1 as [|x t l ts R F IH]; [apply runs_nil|].
  assert (E : String.concat "" (t :: ts) = t ++ String.concat "" ts) by (destruct ts; [cbn; rewrite append_nil; reflexivity|reflexivity]).
  rewrite E. cbn [flat_map]. eapply runs_app; [exact R|exact IH].
Qed.
Lemma mapr_texts {A B} (R : A -> B -> Prop) (f : A -> res B) l : (forall x, In x l -> exists t, f x = Ok t /\ R x t) ->
  exists ts, mapr f l = Ok ts /\ Forall2 R l ts.
Proof.
  induction l as [|x l IH]; intro H; [exists []; split; [reflexivity|constructor]|].
  destruct (H x (or_introl eq_refl)) as (t & E & R1). destruct IH as (ts & E2 & F); [intros y I; apply H; right; exact I|].
  exists (t :: ts). cbn [mapr]. rewrite E. cbn [bind]. rewrite E2. split; [reflexivity|constructor; assumption].
Qed.
(** Constant texts. *)
Ltac runs_const := repeat first [apply runs_nil | (eapply runs_cons; [reflexivity|])].

Lemma digit_is_digit c : digit c = true -> is_digit c = true.
Proof. unfold is_digit, digit_of, digit. destruct c as [[] [] [] [] [] [] [] []]; cbn; intro H; try discriminate; reflexivity. Qed.
Lemma digit_of_val c : digit c = true -> digit_of c = digit_val c.
Proof. unfold digit_of, digit, digit_val. destruct c as [[] [] [] [] [] [] [] []]; cbn; intro H; try discriminate; reflexivity. Qed.
Lemma snoc_app a c s : snoc a c ++ s = a ++ String c s.
Proof. unfold snoc. rewrite append_assoc. reflexivity. Qed.
Lemma runs_number s : forall a, forallb digit (list_ascii_of_string s) = true -> runs (Number a) s [] (Number (a ++ s)).
Proof.
  induction s as [|c s IH]; intros a H; [rewrite append_nil; apply runs_nil|]. cbn [list_ascii_of_string forallb] in H.
  apply andb_true_iff in H. destruct H as [D H]. change (@nil token) with ([] ++ [] : list token)%list. eapply runs_cons.
  - cbn [next]. rewrite (digit_is_digit c D). reflexivity.
  - rewrite <- snoc_app. apply IH. exact H.
Qed.
Lemma runs_word s : forall a, forallb digit (list_ascii_of_string s) = true -> runs (Word a) s [] (Word (a ++ s)).
Proof.
  induction s as [|c s IH]; intros a H; [rewrite append_nil; apply runs_nil|]. cbn [list_ascii_of_string forallb] in H.
  apply andb_true_iff in H. destruct H as [D H]. change (@nil token) with ([] ++ [] : list token)%list. eapply runs_cons.
  - cbn [next]. rewrite (digit_is_digit c D), orb_true_r. reflexivity.
  - rewrite <- snoc_app. apply IH. exact H.
Qed.
Lemma runs_quoted s : forall a, ~ In """"%char (list_ascii_of_string s) -> runs (Quoted a) s [] (Quoted (a ++ s)).
Proof.
  induction s as [|c s IH]; intros a H; [rewrite append_nil; apply runs_nil|]. cbn [list_ascii_of_string In] in H.
  change (@nil token) with ([] ++ [] : list token)%list. eapply runs_cons.
  - cbn [next]. destruct (Ascii.eqb_spec c """") as [->|_]; [exfalso; apply H; left; reflexivity|reflexivity].
  - rewrite <- snoc_app. apply IH. intro I. apply H. right. exact I.
Qed.
Lemma str_nat_shape n : exists c r, str_nat n = String c r /\ digit c = true /\ forallb digit (list_ascii_of_string r) = true.
Proof.
  unfold str_nat. destruct (dec_digits_shape (S n) n "" ltac:(lia) eq_refl) as (c & r & E & H). cbn [forallb] in H. apply andb_true_iff in H.
  exists c, r. tauto.
Qed.
Lemma str_nat_all n : forallb digit (list_ascii_of_string (str_nat n)) = true.
Proof. destruct (str_nat_shape n) as (c & r & E & A & B). rewrite E. cbn [list_ascii_of_string forallb]. rewrite A, B. reflexivity. Qed.
Lemma runs_nat n : runs Between (str_nat n) [] (Number (str_nat n)).
Proof.
  destruct (str_nat_shape n) as (c & r & E & A & B). rewrite E. change (@nil token) with ([] ++ [] : list token)%list. eapply runs_cons.
  - cbn [next]. unfold fresh.
    assert (F : is_blank c = false /\ is_letter c = false).
    { clear - A. unfold is_blank, is_letter, digit in *. destruct c as [[] [] [] [] [] [] [] []]; cbn in A |- *; try discriminate; split; reflexivity. }
    destruct F as [F1 F2]. rewrite F1, F2, (digit_is_digit c A). reflexivity.
  - apply (runs_number r (String c "") B).
Qed.
Lemma digits_value_app a : forall z b, forallb digit (list_ascii_of_string a) = true -> digits_value z (a ++ b) = digits_value (digits_value z a) b.
Proof.
  induction a as [|c a IH]; intros z b H; [reflexivity|]. cbn [list_ascii_of_string forallb] in H. apply andb_true_iff in H. destruct H as [D H].
  cbn [append digits_value]. pose proof (digit_is_digit c D) as X. unfold is_digit in X. destruct (digit_of c); [|discriminate]. apply IH. exact H.
Qed.
Lemma digits_value_nat_text s : forall z, forallb digit (list_ascii_of_string s) = true -> nat_text z s = Some (digits_value z s).
Proof.
  induction s as [|c s IH]; intros z H; [reflexivity|]. cbn [list_ascii_of_string forallb] in H. apply andb_true_iff in H. destruct H as [D H].
  cbn [nat_text digits_value]. pose proof (digit_is_digit c D) as X. unfold is_digit in X. rewrite (digit_of_val c D) in *.
  destruct (digit_val c) as [d|]; [|discriminate]. exact (IH _ H).
Qed.
Lemma digits_value_str_nat n : digits_value 0 (str_nat n) = Z.of_nat n.
Proof.
  pose proof (num_text_str_nat n) as H. rewrite num_text_numeral in H by apply str_nat_numeral.
  rewrite digits_value_nat_text in H by apply str_nat_all. congruence.
Qed.
Lemma number_str_nat n : number (str_nat n) = TNum n.
Proof. unfold number. rewrite digits_value_str_nat, Nat2Z.id. reflexivity. Qed.

(** ** Rounding *)
Lemma round_even_near q : (Qabs (inject_Z (round_even q) - q) <= 1 # 2)%Q.
Proof.
  unfold round_even. pose proof (Qfloor_le q) as A. pose proof (Qlt_floor q) as B. rewrite inject_Z_plus in B. change (inject_Z 1) with 1%Q in B.
  destruct (Qcompare_spec (q - inject_Z (Qfloor q)) (1 # 2)) as [H|H|H].
  - destruct (Z.even (Qfloor q)); [|rewrite inject_Z_plus; change (inject_Z 1) with 1%Q]; apply Qabs_Qle_condition; split; lra.
  - apply Qabs_Qle_condition; split; lra.
  - rewrite inject_Z_plus. change (inject_Z 1) with 1%Q. apply Qabs_Qle_condition; split; lra.
Qed.
Lemma round_even_exact z q : (q == inject_Z z)%Q -> round_even q = z.
Proof.
  intro E. pose proof (round_even_near q) as H. apply Qabs_Qle_condition in H. destruct H as [H1 H2].
  assert (A : (inject_Z (round_even q) - inject_Z z == inject_Z (round_even q - z))%Q) by (unfold Z.sub; rewrite inject_Z_plus, inject_Z_opp; reflexivity).
  assert (B1 : (- (1 # 2) <= inject_Z (round_even q - z))%Q) by lra. assert (B2 : (inject_Z (round_even q - z) <= 1 # 2)%Q) by lra.
  unfold Qle in B1, B2. cbn in B1, B2. lia.
Qed.
Lemma round_even_nonneg q : (0 <= q)%Q -> (0 <= round_even q)%Z.
Proof.
  intro H. unfold round_even. assert (A : (0 <= Qfloor q)%Z) by (apply (Qfloor_resp_le 0 q H)).
  destruct (Qcompare _ _); [destruct (Z.even _)| |]; lia.
Qed.
Definition rounded (q : Qc) : Qc := Q2Qc (round_even (this q * 10000) # 10000).
Lemma rounded_near q : (Qabs (this (rounded q) - this q) <= this (Q2Qc (1 # 20000)))%Q.
Proof.
  unfold rounded. cbn [this Q2Qc]. rewrite !Qred_correct. pose proof (round_even_near (this q * 10000)) as H.
  set (z := round_even (this q * 10000)) in *. apply Qabs_Qle_condition in H. destruct H as [H1 H2].
  assert (E : (z # 10000 == inject_Z z * (1 # 10000))%Q) by (unfold Qeq; cbn; lia). rewrite E.
  apply Qabs_Qle_condition. split; lra.
Qed.
Lemma rounded_exact q z : q = Q2Qc (z # 10000) -> rounded q = q.
Proof.
  intros ->. apply Qc_is_canon. unfold rounded. cbn [this Q2Qc]. rewrite !Qred_correct.
  rewrite (round_even_exact z); [symmetry; apply Qred_correct|]. rewrite Qred_correct. unfold Qeq. cbn. lia.
Qed.
Lemma zdigit_digit z : digit (zdigit z) = true.
Proof. unfold zdigit. apply digit_char_digit. pose proof (Z.mod_pos_bound z 10 ltac:(lia)). lia. Qed.
Lemma zdigit_of z : digit_of (zdigit z) = Some (z mod 10)%Z.
Proof.
  rewrite digit_of_val by apply zdigit_digit. unfold zdigit. pose proof (Z.mod_pos_bound z 10 ltac:(lia)).
  rewrite digit_char_val by lia. f_equal. lia.
Qed.
Lemma div_digits z : (0 <= z)%Z ->
  (10 * (10 * (10 * (10 * (z / 10000) + z / 1000 mod 10) + z / 100 mod 10) + z / 10 mod 10) + z mod 10 = z)%Z.
Proof.
  intro H.
  assert (A : (z / 10000 = z / 1000 / 10)%Z) by (rewrite Z.div_div by lia; reflexivity).
  assert (B : (z / 1000 = z / 100 / 10)%Z) by (rewrite Z.div_div by lia; reflexivity).
  assert (C : (z / 100 = z / 10 / 10)%Z) by (rewrite Z.div_div by lia; reflexivity).
  pose proof (Z.div_mod (z / 1000) 10 ltac:(lia)). pose proof (Z.div_mod (z / 100) 10 ltac:(lia)).
  pose proof (Z.div_mod (z / 10) 10 ltac:(lia)). pose proof (Z.div_mod z 10 ltac:(lia)). lia.
Qed.
(** The text of a probability, and the number it is. *)
Lemma runs_fixed4 q : (0 <= q)%Qc -> exists a b, runs Between (fixed4 q) [] (Fraction a b) /\ decimal a b = rounded q.
Proof.
  intro H. unfold fixed4. assert (L : Qle_bool 0 q = true) by (apply Qle_bool_iff; exact H). rewrite L. unfold decimal4.
  assert (P : (0 <= this q * 10000)%Q) by (change (0 <= this q)%Q in H; lra). apply round_even_nonneg in P. unfold rounded.
  set (z := round_even (this q * 10000)) in *. set (w := Z.to_nat (z / 10000)).
  eexists (str_nat w), (String (zdigit (z / 1000)) (String (zdigit (z / 100)) (String (zdigit (z / 10)) (String (zdigit z) "")))). split.
  - change (@nil token) with ([] ++ [] : list token)%list. eapply runs_app; [apply runs_nat|].
    change (@nil token) with ([] ++ [] : list token)%list. eapply runs_cons; [cbn; reflexivity|].
    change (@nil token) with ([] ++ [] : list token)%list. eapply runs_cons; [cbn [next]; rewrite (digit_is_digit _ (zdigit_digit _)); reflexivity|].
    change (@nil token) with ([] ++ [] : list token)%list. eapply runs_cons; [cbn [next]; rewrite (digit_is_digit _ (zdigit_digit _)); reflexivity|].
    change (@nil token) with ([] ++ [] : list token)%list. eapply runs_cons; [cbn [next]; rewrite (digit_is_digit _ (zdigit_digit _)); reflexivity|].
    change (@nil token) with ([] ++ [] : list token)%list. eapply runs_cons; [cbn [next]; rewrite (digit_is_digit _ (zdigit_digit _)); reflexivity|].
    apply runs_nil.
  - unfold decimal. rewrite digits_value_str_nat. cbn [digits_value power10]. rewrite !zdigit_of. unfold w.
    rewrite Z2Nat.id by (apply Z.div_pos; lia). f_equal. rewrite div_digits by exact P. reflexivity.
Qed.

(** ** Tokens of the parts of a program *)
Definition update_tokens (u : Qc * nat) : list token :=
  [TDec (fst u); TSym ":"; TSym "("; TId "s"; TSym "'"; TSym "="; TNum (snd u); TSym ")"].
Fixpoint plus_tokens (us : list (Qc * nat)) : list token :=
  match us with
  | [] => []
  | [u] => update_tokens u
  | u :: r => (update_tokens u ++ TSym "+" :: plus_tokens r)%list
  end.
Definition command_tokens (c : command) : list token :=
  (TSym "[" :: match cm_act c with Some a => [TId a] | None => [] end ++
   TSym "]" :: TId "s" :: TSym "=" :: TNum (cm_guard c) :: TSym "->" :: plus_tokens (cm_updates c) ++ [TSym ";"])%list.
Fixpoint or_tokens (vs : list nat) : list token :=
  match vs with
  | [] => []
  | [v] => [TSym "("; TId "s"; TSym "="; TNum v; TSym ")"]
  | v :: r => (TSym "(" :: TId "s" :: TSym "=" :: TNum v :: TSym ")" :: TSym "|" :: or_tokens r)%list
  end.
Definition label_tokens (x : string * list nat) : list token :=
  (TId "label" :: TStr (fst x) :: TSym "=" :: or_tokens (snd x) ++ [TSym ";"])%list.
Definition program_tokens (P : program) : list token :=
  (TId (pg_type P) :: TId "module" :: TId "sys_model" :: TId "s" :: TSym ":" :: TSym "[" :: TNum (pg_low P) :: TSym ".." ::
   TNum (pg_high P) :: TSym "]" :: TId "init" :: TNum (pg_init P) :: TSym ";" ::
   flat_map command_tokens (pg_commands P) ++ TId "endmodule" :: flat_map label_tokens (pg_labels P))%list.

Lemma updates_read us r : us <> [] -> updates "s" (plus_tokens us ++ TSym ";" :: r)%list = Some (us, TSym ";" :: r).
Proof.
  induction us as [|[q v] us IH]; intro H; [congruence|]. destruct us as [|u us]; [reflexivity|].
  change (plus_tokens ((q, v) :: u :: us)) with (update_tokens (q, v) ++ TSym "+" :: plus_tokens (u :: us))%list.
  unfold update_tokens. cbn [fst snd app updates probability String.eqb Ascii.eqb Bool.eqb]. rewrite IH by congruence. reflexivity.
Qed.
Lemma one_command_read c r : cm_updates c <> [] -> one_command "s" (command_tokens c ++ r)%list = Some (c, r).
Proof.
  intro H. destruct c as [a g us]. cbn [cm_updates] in H. unfold command_tokens. cbn [cm_act cm_guard cm_updates].
  assert (G : guarded "s" a (TId "s" :: TSym "=" :: TNum g :: TSym "->" :: plus_tokens us ++ TSym ";" :: r)%list = Some (Command a g us, r)).
  { cbn [guarded String.eqb Ascii.eqb Bool.eqb]. rewrite updates_read by exact H. reflexivity. }
  destruct a as [a|]; cbn [app]; rewrite <- app_assoc; cbn [app one_command]; exact G.
Qed.
Lemma commands_read cs r : forall f, (List.length cs <= f)%nat -> (forall c, In c cs -> cm_updates c <> []) ->
  commands "s" f (flat_map command_tokens cs ++ TId "endmodule" :: r)%list = Some (cs, r).
Proof.
  induction cs as [|c cs IH]; intros f L H.
  - cbn [flat_map app]. destruct f; reflexivity.
  - destruct f as [|f]; [cbn in L; lia|]. cbn [flat_map]. rewrite <- app_assoc.
    assert (E : exists t, (command_tokens c ++ flat_map command_tokens cs ++ TId "endmodule" :: r)%list = TSym "[" :: t) by (eexists; reflexivity).
    destruct E as [t E]. pose proof (one_command_read c (flat_map command_tokens cs ++ TId "endmodule" :: r)%list (H c (or_introl eq_refl))) as O.
    rewrite E in *. cbn [commands]. rewrite O. rewrite IH; [reflexivity|cbn in L; lia|]. intros d I. apply H. right. exact I.
Qed.
Lemma disjunction_read vs r : vs <> [] -> disjunction "s" (or_tokens vs ++ TSym ";" :: r)%list = Some (vs, TSym ";" :: r).
Proof.
  induction vs as [|v vs IH]; intro H; [congruence|]. destruct vs as [|u vs]; [reflexivity|].
  change (or_tokens (v :: u :: vs)) with (TSym "(" :: TId "s" :: TSym "=" :: TNum v :: TSym ")" :: TSym "|" :: or_tokens (u :: vs))%list.
  cbn [app disjunction String.eqb Ascii.eqb Bool.eqb]. rewrite IH by congruence. reflexivity.
Qed.
Lemma labels_read ls : forall f, (List.length ls <= f)%nat -> (forall x, In x ls -> snd x <> []) ->
  labels "s" f (flat_map label_tokens ls) = Some ls.
Proof.
  induction ls as [|[p vs] ls IH]; intros f L H; [destruct f; reflexivity|].
  destruct f as [|f]; [cbn in L; lia|]. cbn [flat_map]. unfold label_tokens at 1. cbn [fst snd app labels].
  rewrite <- app_assoc. cbn [app]. rewrite disjunction_read by (apply (H (p, vs)); left; reflexivity).
  rewrite IH; [reflexivity|cbn in L; lia|]. intros d I. apply H. right. exact I.
Qed.
Lemma flat_map_length_le {A B} (f : A -> list B) l : (forall x, (1 <= List.length (f x))%nat) -> (List.length l <= List.length (flat_map f l))%nat.
Proof. intro H. induction l as [|x l IH]; cbn [flat_map List.length]; [lia|]. rewrite app_length. specialize (H x). lia. Qed.
Lemma parse_tokens P : (forall c, In c (pg_commands P) -> cm_updates c <> []) -> (forall x, In x (pg_labels P) -> snd x <> []) ->
  parse (program_tokens P) = Some P.
Proof.
  intros HC HL. destruct P as [ty lo hi i cs ls]. cbn [pg_commands pg_labels] in *. unfold program_tokens.
  cbn [pg_type pg_low pg_high pg_init pg_commands pg_labels parse].
  rewrite commands_read; [|rewrite app_length; pose proof (flat_map_length_le command_tokens cs ltac:(intro; cbn; lia)); lia|exact HC].
  rewrite labels_read; [reflexivity| |exact HL]. apply flat_map_length_le. intro; cbn; lia.
Qed.
