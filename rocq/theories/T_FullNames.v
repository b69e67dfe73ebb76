(** C83: formulas with full names of operators. *)
From Coq Require Import List String Ascii Bool Arith NArith Lia.
From Verif Require Import M_Base M_Ast M_Lexer M_Parser S_LTL S_Gr1 S_Syntax.
From Verif Require Import L_Lexer L_Parser L_Template L_Gr1 L_RoundTrip M_FullNames.
Import ListNotations.
Open Scope string_scope.
Open Scope list_scope.
Open Scope nat_scope.

(** ** Specification: words and what is between them *)
Inductive piece : Type := Word (w : chars) | Gap (g : chars).
Definition piece_text (p : piece) : chars := match p with Word w => w | Gap g => g end.
Definition text_of (ps : list piece) : chars := flat_map piece_text ps.
Definition piece_ok (p : piece) : Prop :=
  match p with Word w => w <> [] /\ (forall c, In c w -> word_char c = true) | Gap g => g <> [] /\ (forall c, In c g -> word_char c = false) end.
(** Words are maximal: no two of them are adjacent. *)
Fixpoint apart (ps : list piece) : Prop :=
  match ps with
  | Word _ :: (Word _ :: _) => False
  | _ :: r => apart r
  | [] => True
  end.
Definition splits (ps : list piece) (s : chars) : Prop := Forall piece_ok ps /\ apart ps /\ text_of ps = s.
(** The same, with the characters of words written out *)
Definition word_chars : chars := list_ascii_of_string "abcdefghijklmnopqrstuvwxyzABCDEFGHIJKLMNOPQRSTUVWXYZ0123456789_".
Definition piece_made (p : piece) : Prop :=
  match p with Word w => w <> [] /\ (forall c, In c w -> In c word_chars) | Gap g => g <> [] /\ (forall c, In c g -> ~ In c word_chars) end.
Definition made_of (ps : list piece) (s : chars) : Prop := Forall piece_made ps /\ apart ps /\ text_of ps = s.
(** The same letters, in any case *)
Definition same_word (a b : string) : Prop := upper a = upper b.
(** The names and their symbols, after the manual of SPIN *)
Definition named_symbols : list (string * string) :=
  [("next", "X"); ("always", "[]"); ("eventually", "<>"); ("until", "U"); ("stronguntil", "U"); ("weakuntil", "W"); ("unless", "W");
   ("release", "V"); ("implies", "->"); ("equivalent", "<->"); ("not", "!"); ("and", "&&"); ("or", "||")].
Definition symbol_of (w : chars) : chars :=
  match find (fun ns => String.eqb (upper (str_of w)) (upper (fst ns))) named_symbols with Some ns => list_ascii_of_string (snd ns) | None => w end.
Definition with_symbols (p : piece) : chars := match p with Word w => symbol_of w | Gap g => g end.

(** ** Every text is split in one way *)
Lemma splits_exists s : exists ps, splits ps s.
Proof.
  induction s as [|c s IH]; [exists []; repeat split; constructor|]. destruct IH as (ps & F & A & T). unfold splits.
  destruct (word_char c) eqn:W.
  - destruct ps as [|[w|g] ps].
    + exists [Word [c]]. split; [constructor; [|constructor]; split; [discriminate|intros d [<-|[]]; exact W]|]. split; [exact Logic.I|]. exact (f_equal (cons c) T).
    + exists (Word (c :: w) :: ps). inversion F as [|? ? P0 F']; subst. destruct P0 as [_ P]. split; [constructor; [|exact F']; split; [discriminate|intros d [<-|I]; auto]|]. split; [exact A|]. reflexivity.
    + exists (Word [c] :: Gap g :: ps). split; [constructor; [|exact F]; split; [discriminate|intros d [<-|[]]; exact W]|]. split; [exact A|]. exact (f_equal (cons c) T).
  - exists (Gap [c] :: ps). split; [constructor; [|exact F]; split; [discriminate|intros d [<-|[]]; exact W]|]. split; [exact A|]. exact (f_equal (cons c) T).
Qed.

(** ** One name *)
Definition all_ascii : list ascii := map ascii_of_nat (seq 0 256).
Lemma all_ascii_In c : In c all_ascii.
Proof. apply in_map_iff. exists (nat_of_ascii c). split; [apply ascii_nat_embedding|]. apply in_seq. pose proof (nat_ascii_bounded c). lia. Qed.
Lemma word_chars_spec c : word_char c = true <-> In c word_chars.
Proof.
  assert (H : forallb (fun c => Bool.eqb (word_char c) (existsb (Ascii.eqb c) word_chars)) all_ascii = true) by (vm_compute; reflexivity).
  rewrite forallb_forall in H. specialize (H c (all_ascii_In c)). apply eqb_prop in H. rewrite H, existsb_exists. split.
  - intros (d & I & E). apply Ascii.eqb_eq in E. subst d. exact I.
  - intro I. exists c. split; [exact I|apply Ascii.eqb_refl].
Qed.
Lemma piece_made_ok p : piece_made p <-> piece_ok p.
Proof.
  destruct p as [w|g]; cbn [piece_made piece_ok]; (split; intros [NE H]; (split; [exact NE|]); intros c I; specialize (H c I)).
  - apply word_chars_spec, H.
  - apply word_chars_spec, H.
  - destruct (word_char c) eqn:E; [|reflexivity]. destruct H. apply word_chars_spec, E.
  - intro J. apply word_chars_spec in J. congruence.
Qed.
Lemma made_splits ps s : made_of ps s <-> splits ps s.
Proof. unfold made_of, splits. rewrite !Forall_forall. split; intros [F R]; (split; [|exact R]); intros p I; apply piece_made_ok, F, I. Qed.
Definition lower_letter (d : ascii) : bool := in_range "a" "z" d.
Lemma lower_upper c d : lower_letter d = true -> Ascii.eqb (lower1 c) d = Ascii.eqb (upper1 c) (upper1 d).
Proof.
  assert (H : forallb (fun d => if lower_letter d then forallb (fun c => Bool.eqb (Ascii.eqb (lower1 c) d) (Ascii.eqb (upper1 c) (upper1 d))) all_ascii else true) all_ascii = true) by (vm_compute; reflexivity).
  intro L. rewrite forallb_forall in H. specialize (H d (all_ascii_In d)). cbn beta in H. rewrite L in H. rewrite forallb_forall in H. specialize (H c (all_ascii_In c)). apply eqb_prop in H. exact H.
Qed.
Lemma lower_word c d : lower_letter d = true -> Ascii.eqb (lower1 c) d = true -> word_char c = true.
Proof.
  assert (H : forallb (fun d => if lower_letter d then forallb (fun c => implb (Ascii.eqb (lower1 c) d) (word_char c)) all_ascii else true) all_ascii = true) by (vm_compute; reflexivity).
  intros L E. rewrite forallb_forall in H. specialize (H d (all_ascii_In d)). cbn beta in H. rewrite L in H. rewrite forallb_forall in H. specialize (H c (all_ascii_In c)). cbn beta in H. rewrite E in H. exact H.
Qed.
(** The name is [w] up to case. *)
Fixpoint ieq (name w : chars) : bool :=
  match name, w with [], [] => true | d :: n, c :: r => Ascii.eqb (lower1 c) d && ieq n r | _, _ => false end.
Lemma ieq_upper name : forallb lower_letter name = true -> forall w, ieq name w = String.eqb (upper (str_of w)) (upper (str_of name)).
Proof.
  induction name as [|d n IH]; intros L [|c w]; try reflexivity. cbn in L. apply andb_prop in L. destruct L as [L1 L2]. cbn [ieq]. rewrite (lower_upper c d L1), (IH L2 w).
  unfold upper, str_of. cbn [string_of_list_ascii list_ascii_of_string map String.eqb]. destruct (Ascii.eqb (upper1 c) (upper1 d)); reflexivity.
Qed.
Definition begins_word (s : chars) : bool := match s with c :: _ => word_char c | [] => false end.
(** At the start of a maximal word. *)
Lemma match_word name w rest : forallb lower_letter name = true -> forallb word_char w = true -> begins_word rest = false ->
  match match_name name (w ++ rest) with Some r => boundary true r = true -> r = rest /\ ieq name w = true | None => ieq name w = false end /\
  (ieq name w = true -> match_name name (w ++ rest) = Some rest).
Proof.
  revert w. induction name as [|d n IH]; intros w L W B; cbn [match_name].
  - split.
    + unfold boundary. intro E. destruct w as [|c w]; [split; reflexivity|]. cbn in W. apply andb_prop in W. cbn in E. rewrite (proj1 W) in E. discriminate.
    + destruct w; [reflexivity|discriminate].
  - cbn in L. apply andb_prop in L. destruct L as [L1 L2]. destruct w as [|c w]; cbn [app].
    + split; [|discriminate]. destruct rest as [|c r]; [reflexivity|]. destruct (Ascii.eqb (lower1 c) d) eqn:E; [|reflexivity]. exfalso. apply (lower_word c d L1) in E. cbn in B. congruence.
    + cbn in W. apply andb_prop in W. destruct W as [W1 W2]. cbn [ieq]. destruct (Ascii.eqb (lower1 c) d); cbn [andb]; [exact (IH w L2 W2 B)|]. split; [reflexivity|discriminate].
Qed.
Lemma sub_from_inside name sym : forall w fuel rest, List.length (w ++ rest) <= fuel -> forallb word_char w = true -> begins_word rest = false ->
  sub_from fuel name sym true (w ++ rest) = w ++ sub_from (fuel - List.length w) name sym true rest.
Proof.
  induction w as [|c w IH]; intros fuel rest Lf W B; cbn [app List.length]; [rewrite Nat.sub_0_r; reflexivity|]. cbn in W. apply andb_prop in W. destruct W as [W1 W2].
  destruct fuel as [|f]; [cbn in Lf; lia|]. cbn [sub_from]. unfold boundary at 1. cbn [app]. rewrite W1. cbn [xorb]. cbn [Nat.sub]. rewrite IH; [reflexivity|cbn in Lf; lia|exact W2|exact B].
Qed.
Lemma sub_from_gap name sym d n : name = d :: n -> lower_letter d = true -> forall g before fuel rest, List.length (g ++ rest) <= fuel -> g <> [] -> (forall c, In c g -> word_char c = false) ->
  sub_from fuel name sym before (g ++ rest) = g ++ sub_from (fuel - List.length g) name sym false rest.
Proof.
  intros -> L. induction g as [|c g IH]; intros before fuel rest Lf NE G; [contradiction|]. destruct fuel as [|f]; [cbn in Lf; lia|]. cbn [app sub_from List.length Nat.sub match_name].
  assert (E : Ascii.eqb (lower1 c) d = false). { destruct (Ascii.eqb (lower1 c) d) eqn:E; [|reflexivity]. apply (lower_word c d L) in E. rewrite (G c (or_introl eq_refl)) in E. discriminate. }
  rewrite E. replace (if boundary before (c :: g ++ rest) then @None chars else None) with (@None chars) by (destruct (boundary _ _); reflexivity).
  rewrite (G c (or_introl eq_refl)). destruct g as [|c' g]; [cbn [app List.length]; rewrite Nat.sub_0_r; reflexivity|].
  rewrite (IH false f rest); [reflexivity|cbn in Lf |- *; lia|discriminate|intros x I; apply G; right; exact I].
Qed.
Lemma apart_tail p ps : apart (p :: ps) -> apart ps.
Proof. cbn. destruct p; [destruct ps as [|[] ?]; [auto|contradiction|auto]|auto]. Qed.
Lemma gap_next w ps : Forall piece_ok ps -> apart (Word w :: ps) -> begins_word (text_of ps) = false.
Proof.
  intros F A. destruct ps as [|[w'|g] ps]; [reflexivity|destruct A|]. inversion F as [|? ? P0 F0]; subst. destruct P0 as [NE G]. destruct g as [|c g]; [contradiction|]. cbn. apply G. left. reflexivity.
Qed.
Definition sub_piece (name sym : chars) (p : piece) : chars := match p with Word w => if ieq name w then sym else w | Gap g => g end.
Lemma sub_from_pieces name sym d n : name = d :: n -> forallb lower_letter name = true -> forall ps before fuel, Forall piece_ok ps -> apart ps -> List.length (text_of ps) <= fuel ->
  (before = true -> begins_word (text_of ps) = false) -> sub_from fuel name sym before (text_of ps) = flat_map (sub_piece name sym) ps.
Proof.
  intros EN L. assert (Ld : lower_letter d = true) by (rewrite EN in L; cbn in L; apply andb_prop in L; exact (proj1 L)).
  induction ps as [|p ps IH]; intros before fuel F A Lf B; [destruct fuel; reflexivity|]. pose proof (Forall_inv F) as P. pose proof (Forall_inv_tail F) as F'. pose proof (apart_tail _ _ A) as A'.
  cbn [text_of flat_map] in *. fold (text_of ps) in *. destruct p as [w|g]; cbn [piece_text sub_piece] in *.
  - destruct P as [NE W]. assert (W' : forallb word_char w = true) by (apply forallb_forall; exact W). pose proof (gap_next w ps F' A) as G.
    assert (before = false) as ->. { destruct before; [|reflexivity]. specialize (B eq_refl). destruct w as [|c w]; [contradiction|]. cbn in B. rewrite (W c (or_introl eq_refl)) in B. discriminate. }
    destruct (match_word name w (text_of ps) L W' G) as [M1 M2]. destruct w as [|c w]; [contradiction|]. destruct fuel as [|f]; [cbn in Lf; lia|].
    assert (Bd : boundary false ((c :: w) ++ text_of ps) = true) by (unfold boundary; cbn [app]; rewrite (W c (or_introl eq_refl)); reflexivity).
    assert (Keep : c :: sub_from f name sym (word_char c) (w ++ text_of ps) = (c :: w) ++ flat_map (sub_piece name sym) ps).
    { rewrite (W c (or_introl eq_refl)). cbn in W'. apply andb_prop in W'. rewrite sub_from_inside; [|cbn in Lf; lia|exact (proj2 W')|exact G].
      cbn [app]. f_equal. f_equal. apply IH; [exact F'|exact A'| |intros _; exact G]. cbn in Lf. rewrite app_length in Lf. lia. }
    change (sub_from (S f) name sym false ((c :: w) ++ text_of ps)) with
      (match (if boundary false ((c :: w) ++ text_of ps) then match_name name ((c :: w) ++ text_of ps) else None) with
       | Some rest => if boundary true rest then sym ++ sub_from f name sym true rest else c :: sub_from f name sym (word_char c) (w ++ text_of ps)
       | None => c :: sub_from f name sym (word_char c) (w ++ text_of ps) end).
    rewrite Bd, Keep. destruct (ieq name (c :: w)) eqn:E.
    + rewrite (M2 eq_refl). unfold boundary. fold (begins_word (text_of ps)). rewrite G. cbn [xorb]. f_equal. apply IH; [exact F'|exact A'| |intros _; exact G]. cbn in Lf. rewrite app_length in Lf. lia.
    + destruct (match_name name ((c :: w) ++ text_of ps)) as [r|]; [|reflexivity]. destruct (boundary true r) eqn:Q; [|reflexivity]. destruct (M1 eq_refl) as [_ X]. discriminate.
  - destruct P as [NE G]. rewrite (sub_from_gap name sym d n EN Ld g before fuel (text_of ps) Lf NE G). f_equal. apply IH; [exact F'|exact A'| |discriminate]. rewrite app_length in Lf. lia.
Qed.

(** ** All names *)
Definition uniform (sym : chars) : Prop := sym <> [] /\ (forallb word_char sym = true \/ forall c, In c sym -> word_char c = false).
Definition step_piece (name sym : chars) (p : piece) : piece :=
  match p with Word w => if ieq name w then (if forallb word_char sym then Word sym else Gap sym) else Word w | Gap g => Gap g end.
Lemma step_text name sym ps : flat_map (sub_piece name sym) ps = text_of (map (step_piece name sym) ps).
Proof. induction ps as [|[w|g] ps IH]; [reflexivity| |]; cbn [flat_map map text_of sub_piece step_piece piece_text]; fold (text_of (map (step_piece name sym) ps)); rewrite IH; [|reflexivity]. destruct (ieq name w); [destruct (forallb word_char sym)|]; reflexivity. Qed.
Lemma step_ok name sym ps : uniform sym -> Forall piece_ok ps -> apart ps -> Forall piece_ok (map (step_piece name sym) ps) /\ apart (map (step_piece name sym) ps).
Proof.
  intros [NE U] F A. split.
  - clear A. induction F as [|p ps P F IH]; constructor; [|exact IH]. destruct p as [w|g]; cbn [step_piece]; [|exact P]. destruct (ieq name w); [|exact P].
    destruct (forallb word_char sym) eqn:E; split; try exact NE; [apply forallb_forall; exact E|]. destruct U as [U|U]; [congruence|exact U].
  - clear F. induction ps as [|p ps IH]; [exact Logic.I|]. pose proof (IH (apart_tail _ _ A)) as A'. destruct p as [w|g]; cbn [map step_piece]; [|exact A'].
    assert (K : forall q, apart (q :: map (step_piece name sym) ps)).
    { intros [q|q]; [|exact A']. destruct ps as [|[w'|g'] ps]; [exact Logic.I|destruct A|exact A']. }
    destruct (ieq name w); [destruct (forallb word_char sym)|]; apply K.
Qed.
Lemma sub_splits name sym ps s d n : list_ascii_of_string name = d :: n -> forallb lower_letter (list_ascii_of_string name) = true -> uniform (list_ascii_of_string sym) ->
  splits ps s -> splits (map (step_piece (list_ascii_of_string name) (list_ascii_of_string sym)) ps) (sub name sym s).
Proof.
  intros EN L U (F & A & <-). destruct (step_ok (list_ascii_of_string name) _ ps U F A) as [F' A']. split; [exact F'|]. split; [exact A'|]. rewrite <- step_text. unfold sub. symmetry.
  apply (sub_from_pieces _ _ d n EN L ps false); [exact F|exact A|lia|discriminate].
Qed.
Definition steps (l : list (string * string)) (p : piece) : piece := fold_left (fun p ns => step_piece (list_ascii_of_string (fst ns)) (list_ascii_of_string (snd ns)) p) l p.
Definition entry_ok (ns : string * string) : Prop := (exists d n, list_ascii_of_string (fst ns) = d :: n) /\ forallb lower_letter (list_ascii_of_string (fst ns)) = true /\ uniform (list_ascii_of_string (snd ns)).
Lemma fold_splits l : Forall entry_ok l -> forall ps s, splits ps s -> splits (map (steps l) ps) (fold_left (fun s ns => sub (fst ns) (snd ns) s) l s).
Proof.
  induction 1 as [|[name sym] l (( d & n & EN) & L & U) F IH]; intros ps s S; cbn [fold_left].
  - replace (map (steps []) ps) with ps; [exact S|]. symmetry. apply map_id.
  - apply (sub_splits name sym ps s d n EN L U), IH in S. rewrite map_map in S. exact S.
Qed.
Lemma table_ok : Forall entry_ok FULL_OPERATOR_NAMES.
Proof.
  assert (C : forall s : chars, forallb (fun c => negb (word_char c)) s = true -> forall c, In c s -> word_char c = false) by (intros s H c I; rewrite forallb_forall in H; specialize (H c I); apply negb_true_iff; exact H).
  unfold FULL_OPERATOR_NAMES. repeat (apply Forall_cons; [split; [do 2 eexists; reflexivity|]; split; [reflexivity|]; split; [discriminate|first [left; reflexivity | right; apply C; reflexivity]]|]). apply Forall_nil.
Qed.
Lemma las_str (w : chars) : list_ascii_of_string (str_of w) = w.
Proof. apply list_ascii_of_string_of_list_ascii. Qed.
Lemma str_las s : str_of (list_ascii_of_string s) = s.
Proof. apply string_of_list_ascii_of_string. Qed.
Lemma steps_text p : piece_text (steps FULL_OPERATOR_NAMES p) = with_symbols p.
Proof.
  destruct p as [w|g]; [|reflexivity]. cbn [with_symbols]. unfold symbol_of, named_symbols, FULL_OPERATOR_NAMES, steps. cbn [fold_left find fst snd].
  assert (E : forall name, forallb lower_letter (list_ascii_of_string name) = true -> String.eqb (upper (str_of w)) (upper name) = ieq (list_ascii_of_string name) w) by (intros name L; rewrite (ieq_upper _ L), str_las; reflexivity).
  rewrite !E by reflexivity. cbn [step_piece].
  repeat match goal with |- context [if ieq ?n w then _ else _] => destruct (ieq n w); [vm_compute; reflexivity|cbn [step_piece]] end. reflexivity.
Qed.
Lemma replace_splits s ps : splits ps (list_ascii_of_string s) ->
  splits (map (steps FULL_OPERATOR_NAMES) ps) (list_ascii_of_string (replace_full_name_operators s)) /\ list_ascii_of_string (replace_full_name_operators s) = flat_map with_symbols ps.
Proof.
  intro S. pose proof (fold_splits _ table_ok ps _ S) as H. unfold replace_full_name_operators. rewrite las_str. split; [exact H|]. destruct H as (_ & _ & <-). unfold text_of. clear S.
  induction ps as [|p ps IH]; [reflexivity|]. cbn [map flat_map]. rewrite IH, steps_text. reflexivity.
Qed.
(** The maximal words that are full names, in any case, become symbols, all else is kept; and this is a description of every text. *)
Theorem replace_words s : (exists ps, made_of ps (list_ascii_of_string s)) /\
  forall ps, made_of ps (list_ascii_of_string s) -> replace_full_name_operators s = str_of (flat_map with_symbols ps).
Proof. split; [destruct (splits_exists (list_ascii_of_string s)) as [ps S]; exists ps; apply made_splits, S|]. intros ps S. apply made_splits in S. apply replace_splits in S. rewrite <- (proj2 S). symmetry. apply str_las. Qed.
(** A text without such words is parsed as without the option. *)
Definition plain_word (w : chars) : Prop := forall name sym, In (name, sym) named_symbols -> ~ same_word (str_of w) name.
Lemma plain_symbol w : plain_word w -> symbol_of w = w.
Proof.
  intro P. unfold symbol_of. destruct (find _ _) as [[name sym]|] eqn:E; [|reflexivity]. apply find_some in E. destruct E as [I E]. apply String.eqb_eq in E. destruct (P name sym I E).
Qed.
Lemma symbols_kept ps : (forall w, In (Word w) ps -> plain_word w) -> flat_map with_symbols ps = text_of ps.
Proof.
  induction ps as [|p ps IH]; intro H; [reflexivity|]. cbn [flat_map text_of]. fold (text_of ps). rewrite IH by (intros w I; apply H; right; exact I). f_equal. destruct p as [w|g]; [|reflexivity]. apply plain_symbol, H. left. reflexivity.
Qed.
Theorem parse_full_plain s ps : made_of ps (list_ascii_of_string s) -> (forall w, In (Word w) ps -> plain_word w) -> parse_full s = parse s.
Proof.
  intros S P. unfold parse_full. rewrite (proj2 (replace_words s) ps S), (symbols_kept ps P). destruct S as (_ & _ & ->). rewrite str_las. reflexivity.
Qed.

(** ** Trees written with full names *)
Lemma splits_app ps qs s t c : word_char c = false -> splits ps s -> splits qs t -> splits (ps ++ Gap [c] :: qs) (s ++ c :: t).
Proof.
  intros C (F & A & <-) (F' & A' & <-). split; [|split].
  - apply Forall_app. split; [exact F|]. constructor; [|exact F']. split; [discriminate|]. intros x [<-|[]]. exact C.
  - clear F F'. induction ps as [|[w|g] ps IH]; [exact A'| |exact (IH A)]. destruct ps as [|[w'|g'] ps]; [exact A'|destruct A|]. exact (IH A).
  - unfold text_of. rewrite flat_map_app. reflexivity.
Qed.
Lemma replace_cut s c t : word_char c = false -> replace_full_name_operators (s ++ String c t) = (replace_full_name_operators s ++ String c (replace_full_name_operators t))%string.
Proof.
  intro C. destruct (splits_exists (list_ascii_of_string s)) as [ps S]. destruct (splits_exists (list_ascii_of_string t)) as [qs T].
  pose proof (splits_app ps qs _ _ c C S T) as ST. change (c :: list_ascii_of_string t) with (list_ascii_of_string (String c t)) in ST. rewrite <- las_app in ST.
  rewrite (proj2 (replace_words _) _ (proj2 (made_splits _ _) ST)), (proj2 (replace_words _) _ (proj2 (made_splits _ _) S)), (proj2 (replace_words _) _ (proj2 (made_splits _ _) T)). rewrite flat_map_app. cbn [flat_map with_symbols app].
  generalize (flat_map with_symbols ps) (flat_map with_symbols qs). intros a b. unfold str_of. induction a as [|x a IH]; [reflexivity|]. cbn. f_equal. exact IH.
Qed.
Lemma replace_empty : replace_full_name_operators "" = "".
Proof. reflexivity. Qed.
(** Spellings: the symbol of the tree or a full name, in any case *)
Definition operator_names : list (string * string) :=
  [("next", "X"); ("always", "G"); ("eventually", "F"); ("until", "U"); ("stronguntil", "U"); ("weakuntil", "W"); ("unless", "W");
   ("release", "V"); ("implies", "->"); ("equivalent", "<->"); ("not", "!"); ("and", "&"); ("or", "|")].
Definition spells (op s : string) : Prop := s = op \/ exists name, In (name, op) operator_names /\ same_word s name.
(** Variables have only letters, digits and underscores and are not named like operators. *)
Definition plain_var (v : string) : Prop := forallb word_char (list_ascii_of_string v) = true /\ plain_word (list_ascii_of_string v).
Inductive written : node -> string -> Prop :=
| WVar v : plain_var v -> written (NVar v) v
| WBool v : written (NBool v) v
| WNum v : written (NNum v) v
| WUn op o a x : spells op o -> written a x -> written (NUn op a) ("( " ++ o ++ " " ++ x ++ " )")
| WBin op o a b x y : spells op o -> written a x -> written b y -> written (NBin op a b) ("( " ++ x ++ " " ++ o ++ " " ++ y ++ " )")
| WCmp op a b x y : written a x -> written b y -> written (NCmp op a b) ("( " ++ x ++ " " ++ op ++ " " ++ y ++ " )")
| WArith op a b x y : written a x -> written b y -> written (NArith op a b) ("( " ++ x ++ " " ++ op ++ " " ++ y ++ " )")
| WIte a b c x y z : written a x -> written b y -> written c z -> written (NIte "ite" a b c) ("( ite " ++ x ++ ", " ++ y ++ ", " ++ z ++ " )").

Lemma word_splits w : w <> "" -> forallb word_char (list_ascii_of_string w) = true -> splits [Word (list_ascii_of_string w)] (list_ascii_of_string w).
Proof.
  intros NE W. split; [constructor; [|constructor]; split; [destruct w; [contradiction|discriminate]|apply forallb_forall; exact W]|]. split; [exact Logic.I|]. cbn. apply app_nil_r.
Qed.
Lemma replace_word w : w <> "" -> forallb word_char (list_ascii_of_string w) = true -> replace_full_name_operators w = str_of (symbol_of (list_ascii_of_string w)).
Proof. intros NE W. rewrite (proj2 (replace_words w) _ (proj2 (made_splits _ _) (word_splits w NE W))). cbn [flat_map with_symbols]. rewrite app_nil_r. reflexivity. Qed.
Lemma upper_word (w name : string) : same_word w name -> forallb lower_letter (list_ascii_of_string name) = true -> name <> "" -> w <> "" /\ forallb word_char (list_ascii_of_string w) = true.
Proof.
  intros S L NE. assert (E : ieq (list_ascii_of_string name) (list_ascii_of_string w) = true) by (rewrite (ieq_upper _ L), !str_las; apply String.eqb_eq, S). clear S. split.
  - intros ->. destruct name; [contradiction|discriminate].
  - clear NE. revert L E. generalize (list_ascii_of_string name) (list_ascii_of_string w). intro n. induction n as [|d n IH]; intros [|c l] L E; try discriminate; [reflexivity|]. cbn in L, E. apply andb_prop in L, E. cbn. rewrite (lower_word c d (proj1 L) (proj1 E)). apply IH; [exact (proj2 L)|exact (proj2 E)].
Qed.
Lemma replace_number v : number_text v = true -> replace_full_name_operators v = v.
Proof.
  assert (N : forall r, numeral r = true -> replace_full_name_operators r = r).
  { intros r H. destruct r as [|c r]; [discriminate|]. cbn [numeral] in H. apply andb_prop in H. destruct H as [D R].
    assert (W : forallb word_char (list_ascii_of_string (String c r)) = true).
    { apply forallb_forall. intros x I. assert (Dx : digit x = true) by (destruct I as [<-|I]; [exact D|rewrite forallb_forall in R; exact (R x I)]). unfold word_char, digit in *. rewrite Dx, !orb_true_r. reflexivity. }
    rewrite (replace_word (String c r)) by (exact W || discriminate). rewrite plain_symbol; [apply str_las|]. intros name sym I S. rewrite str_las in S. unfold same_word in S.
    assert (C : upper1 c = c) by (revert D; clear; intro D; assert (H : forallb (fun c => implb (digit c) (Ascii.eqb (upper1 c) c)) all_ascii = true) by (vm_compute; reflexivity); rewrite forallb_forall in H; specialize (H c (all_ascii_In c)); cbn beta in H; rewrite D in H; apply Ascii.eqb_eq; exact H).
    unfold upper in S. cbn [list_ascii_of_string map string_of_list_ascii] in S. rewrite C in S. cbn in I.
    repeat (destruct I as [[= <- <-]|I]; [vm_compute in S; injection S as S1 _; subst c; discriminate D|]). destruct I. }
  intro H. unfold number_text in H. destruct v as [|c r]; [discriminate|]. destruct (Ascii.eqb_spec c "-") as [->|NC].
  - change (replace_full_name_operators ("" ++ String "-" r) = String "-" r). rewrite replace_cut by reflexivity. rewrite (N r H). reflexivity.
  - apply N. destruct c as [[] [] [] [] [] [] [] []]; try exact H. exfalso. apply NC. reflexivity.
Qed.
Lemma replace_fixed o : In o all_ops -> replace_full_name_operators o = o.
Proof. intro I. cbn in I. repeat (destruct I as [<-|I]; [vm_compute; reflexivity|]). destruct I. Qed.
Lemma replace_spelled op o : In op all_ops -> spells op o -> nohash (replace_full_name_operators o) /\ lex (replace_full_name_operators o) = lex op.
Proof.
  intros I [->|(name & J & S)]; [rewrite (replace_fixed _ I); split; [apply op_nohash, I|reflexivity]|].
  assert (L : forallb lower_letter (list_ascii_of_string name) = true /\ name <> "") by (clear - J; cbn in J; repeat (destruct J as [[= <- <-]|J]; [split; [reflexivity|discriminate]|]); destruct J).
  destruct (upper_word o name S (proj1 L) (proj2 L)) as [NE W]. rewrite (replace_word o NE W). unfold symbol_of. rewrite str_las. unfold same_word in S. rewrite S. clear - J.
  cbn in J. repeat (destruct J as [[= <- <-]|J]; [split; [apply nohashb_ok; vm_compute; reflexivity|vm_compute; reflexivity]|]). destruct J.
Qed.
Lemma app_cons_space a b : (a ++ " " ++ b)%string = (a ++ String " " b)%string.
Proof. reflexivity. Qed.
Ltac cuts := repeat first [rewrite replace_cut by reflexivity | rewrite replace_empty].
Lemma cut_un o x : replace_full_name_operators ("( " ++ o ++ " " ++ x ++ " )") = ("( " ++ replace_full_name_operators o ++ " " ++ replace_full_name_operators x ++ " )")%string.
Proof.
  change ("( " ++ o ++ " " ++ x ++ " )")%string with ("" ++ String "(" ("" ++ String " " (o ++ String " " (x ++ String " " ("" ++ String ")" "")))))%string. cuts. reflexivity.
Qed.
Lemma cut_bin o x y : replace_full_name_operators ("( " ++ x ++ " " ++ o ++ " " ++ y ++ " )") =
  ("( " ++ replace_full_name_operators x ++ " " ++ replace_full_name_operators o ++ " " ++ replace_full_name_operators y ++ " )")%string.
Proof.
  change ("( " ++ x ++ " " ++ o ++ " " ++ y ++ " )")%string with ("" ++ String "(" ("" ++ String " " (x ++ String " " (o ++ String " " (y ++ String " " ("" ++ String ")" ""))))))%string. cuts. reflexivity.
Qed.
Lemma cut_ite x y z : replace_full_name_operators ("( ite " ++ x ++ ", " ++ y ++ ", " ++ z ++ " )") =
  ("( ite " ++ replace_full_name_operators x ++ ", " ++ replace_full_name_operators y ++ ", " ++ replace_full_name_operators z ++ " )")%string.
Proof.
  change ("( ite " ++ x ++ ", " ++ y ++ ", " ++ z ++ " )")%string with
    ("" ++ String "(" ("" ++ String " " ("ite" ++ String " " (x ++ String "," ("" ++ String " " (y ++ String "," ("" ++ String " " (z ++ String " " ("" ++ String ")" "")))))))))%string. cuts. reflexivity.
Qed.
Lemma plain_all_ops op (l : list string) : (forall o, In o l -> In o all_ops) -> oneof op l = true -> In op all_ops.
Proof. intros H O. apply H, oneof_In, O. Qed.
Lemma plain_op op k bad : oneof op k = true -> negb (oneof op bad) = true -> (forall o, In o k -> In o all_ops \/ In o bad) -> In op all_ops.
Proof. intros O B H. apply oneof_In in O. destruct (H op O) as [I|I]; [exact I|]. apply oneof_In in I. rewrite I in B. discriminate. Qed.
Ltac in_ops := cbn; intros; repeat match goal with H : _ \/ _ |- _ => destruct H as [<-|H] | H : False |- _ => destruct H end; tauto.
Lemma written_lex t s : written t s -> wf_node t = true -> plain_ops t = true ->
  no_str t = true /\ nohash (replace_full_name_operators s) /\ lex (replace_full_name_operators s) = toks t.
Proof.
  induction 1 as [v PV|v|v|op o a x Sp A IHa|op o a b x y Sp A IHa B IHb|op a b x y A IHa B IHb|op a b x y A IHa B IHb|a b c x y z A IHa B IHb C IHc]; intros W P; cbn [wf_node plain_ops no_str toks] in *.
  - destruct PV as [Wv Pv]. assert (NE : v <> "") by (intros ->; discriminate W). rewrite (replace_word v NE Wv), (plain_symbol _ Pv), str_las.
    assert (I : ident v) by (apply identb_ident, W). split; [reflexivity|]. split; [|apply ident_lex, I]. apply (flatten_nohash (NVar v) v W eq_refl eq_refl).
  - apply oneof_In in W. destruct W as [<-|[<-|[]]]; (split; [reflexivity|]; split; [apply nohashb_ok|]; vm_compute; reflexivity).
  - rewrite (replace_number v W). split; [reflexivity|]. split; [apply number_nohash, W|apply number_lex, W].
  - apply andb_prop in W, P. destruct W as [W1 W2], P as [P1 P2]. destruct (IHa W2 P2) as (N1 & H1 & L1).
    assert (I : In op all_ops) by (apply (plain_op op _ ["~"] W1); [cbn [oneof existsb]; rewrite orb_false_r; exact P1|in_ops]).
    destruct (replace_spelled op o I Sp) as [Ho Lo]. rewrite cut_un. split; [exact N1|]. split; [|rewrite (un_lex _ _ _ Ho H1 L1), Lo; reflexivity].
    apply (nohash_app "( "); [apply nohashb_ok; reflexivity|]. apply nohash_app; [exact Ho|]. apply (nohash_app " "); [apply nohashb_ok; reflexivity|]. apply nohash_app; [exact H1|apply nohashb_ok; reflexivity].
  - apply andb_prop in W. destruct W as [W W2]. apply andb_prop in W. destruct W as [W0 W1]. apply andb_prop in P. destruct P as [P P2]. apply andb_prop in P. destruct P as [P0 P1].
    destruct (IHa W1 P1) as (N1 & H1 & L1). destruct (IHb W2 P2) as (N2 & H2 & L2).
    assert (I : In op all_ops) by (apply (plain_op op _ _ W0 P0); in_ops).
    destruct (replace_spelled op o I Sp) as [Ho Lo]. rewrite cut_bin. split; [rewrite N1, N2; reflexivity|]. split; [|rewrite (bin_lex _ _ _ _ _ Ho H1 H2 L1 L2), Lo; reflexivity].
    apply (nohash_app "( "); [apply nohashb_ok; reflexivity|]. apply nohash_app; [exact H1|]. apply (nohash_app " "); [apply nohashb_ok; reflexivity|]. apply nohash_app; [exact Ho|]. apply (nohash_app " "); [apply nohashb_ok; reflexivity|]. apply nohash_app; [exact H2|apply nohashb_ok; reflexivity].
  - apply andb_prop in W. destruct W as [W W2]. apply andb_prop in W. destruct W as [W0 W1]. apply andb_prop in P. destruct P as [P P2]. apply andb_prop in P. destruct P as [P0 P1].
    destruct (IHa W1 P1) as (N1 & H1 & L1). destruct (IHb W2 P2) as (N2 & H2 & L2).
    assert (I : In op all_ops) by (apply (plain_op op _ _ W0 P0); in_ops).
    rewrite cut_bin, (replace_fixed op I). split; [rewrite N1, N2; reflexivity|]. split; [|apply bin_lex; auto using op_nohash].
    apply (nohash_app "( "); [apply nohashb_ok; reflexivity|]. apply nohash_app; [exact H1|]. apply (nohash_app " "); [apply nohashb_ok; reflexivity|]. apply nohash_app; [apply op_nohash, I|]. apply (nohash_app " "); [apply nohashb_ok; reflexivity|]. apply nohash_app; [exact H2|apply nohashb_ok; reflexivity].
  - apply andb_prop in W. destruct W as [W W2]. apply andb_prop in W. destruct W as [W0 W1]. apply andb_prop in P. destruct P as [P1 P2].
    destruct (IHa W1 P1) as (N1 & H1 & L1). destruct (IHb W2 P2) as (N2 & H2 & L2).
    assert (I : In op all_ops). { apply orb_prop in W0. destruct W0 as [W0|W0]; [apply oneof_In in W0; revert W0; in_ops|]. apply andb_prop in W0. destruct W0 as [W0 _]. apply String.eqb_eq in W0. subst op. in_ops. }
    rewrite cut_bin, (replace_fixed op I). split; [rewrite N1, N2; reflexivity|]. split; [|apply bin_lex; auto using op_nohash].
    apply (nohash_app "( "); [apply nohashb_ok; reflexivity|]. apply nohash_app; [exact H1|]. apply (nohash_app " "); [apply nohashb_ok; reflexivity|]. apply nohash_app; [apply op_nohash, I|]. apply (nohash_app " "); [apply nohashb_ok; reflexivity|]. apply nohash_app; [exact H2|apply nohashb_ok; reflexivity].
  - apply andb_prop in W. destruct W as [W W3]. apply andb_prop in W. destruct W as [W W2]. apply andb_prop in W. destruct W as [_ W1]. apply andb_prop in P. destruct P as [P P3]. apply andb_prop in P. destruct P as [P1 P2].
    destruct (IHa W1 P1) as (N1 & H1 & L1). destruct (IHb W2 P2) as (N2 & H2 & L2). destruct (IHc W3 P3) as (N3 & H3 & L3).
    rewrite cut_ite. split; [rewrite N1, N2, N3; reflexivity|].
    assert (Hi : nohash "ite") by (apply nohashb_ok; reflexivity). split; [|exact (ite_lex "ite" _ _ _ _ _ _ Hi H1 H2 H3 L1 L2 L3)].
    apply (nohash_app "( ite "); [apply nohashb_ok; reflexivity|]. apply nohash_app; [exact H1|]. apply (nohash_app ", "); [apply nohashb_ok; reflexivity|]. apply nohash_app; [exact H2|]. apply (nohash_app ", "); [apply nohashb_ok; reflexivity|]. apply nohash_app; [exact H3|apply nohashb_ok; reflexivity].
Qed.
(** A formula whose operators are written by full names or by symbols, in any mixture and any case, is parsed to its tree. *)
Theorem parse_full_written t s : written t s -> wf_node t = true -> plain_ops t = true -> parse_full s = Some t.
Proof.
  intros W F P. destruct (written_lex t s W F P) as (N & _ & L). apply (flatten_plain t F) in P. destruct P as [f P].
  unfold parse_full, parse, parse_toks. rewrite L. rewrite <- (app_nil_r (toks t)). rewrite (toks_run t f [] [] F N P). reflexivity.
Qed.

Definition ex_full_tree : node := NBin "&" (NUn "G" (NUn "F" (NVar "p"))) (NBin "->" (NVar "nextdoor") (NUn "!" (NVar "b"))).
Example ex_full : written ex_full_tree "( ( ALways ( eventually p ) ) and ( nextdoor Implies ( ! b ) ) )" /\
  parse_full "( ( ALways ( eventually p ) ) and ( nextdoor Implies ( ! b ) ) )" = Some ex_full_tree.
Proof.
  split; [|vm_compute; reflexivity].
  assert (K : forall v, forallb word_char (list_ascii_of_string v) = true -> existsb (fun ns => String.eqb (upper v) (upper (fst ns))) named_symbols = false -> plain_var v).
  { intros v W E. split; [exact W|]. intros name sym I S. rewrite str_las in S. assert (X : existsb (fun ns => String.eqb (upper v) (upper (fst ns))) named_symbols = true) by (apply existsb_exists; exists (name, sym); split; [exact I|]; apply String.eqb_eq; exact S). congruence. }
  apply (WBin "&" "and" _ _ "( ALways ( eventually p ) )" "( nextdoor Implies ( ! b ) )").
  - right. exists "and". split; [cbn; tauto|reflexivity].
  - apply (WUn "G" "ALways" _ "( eventually p )"); [right; exists "always"; split; [cbn; tauto|reflexivity]|].
    apply (WUn "F" "eventually" _ "p"); [right; exists "eventually"; split; [cbn; tauto|reflexivity]|]. apply WVar, K; reflexivity.
  - apply (WBin "->" "Implies" _ _ "nextdoor" "( ! b )"); [right; exists "implies"; split; [cbn; tauto|reflexivity]|apply WVar, K; reflexivity|].
    apply (WUn "!" "!" _ "b"); [left; reflexivity|apply WVar, K; reflexivity].
Qed.
Example ex_full_test : parse_full "(p and q) UNtIl (q or ((p -> w) and not (z implies b))) and always next g" =
  parse "(p & q) U (q | ((p -> w) & ! (z -> b))) & G X g".
Proof. vm_compute. reflexivity. Qed.

(** What a name is depends on words as [\b] sees them, and not on the identifiers of the language: the variable [x.next] becomes
    the variable [x.X], and nothing is reported. *)
Theorem full_names_dotted_refuted : identb "x.next" = true /\ parse "x.next = 1" = Some (NCmp "=" (NVar "x.next") (NNum "1")) /\
  parse_full "x.next = 1" = Some (NCmp "=" (NVar "x.X") (NNum "1")).
Proof. repeat split; vm_compute; reflexivity. Qed.
(** Values between quotes are changed, too. *)
Theorem full_names_quoted_refuted :
  parse "x = ""go.until""" = Some (NCmp "=" (NVar "x") (NStr "go.until")) /\ parse_full "x = ""go.until""" = Some (NCmp "=" (NVar "x") (NStr "go.U")) /\
  parse "x = ""Release""" = Some (NCmp "=" (NVar "x") (NStr "Release")) /\ parse_full "x = ""Release""" = None.
Proof. repeat split; vm_compute; reflexivity. Qed.
(** A symbol may join with what is next to it: the text below has no operator for inequality. *)
Theorem full_names_join_refuted : parse_full "x not= y" = Some (NCmp "!=" (NVar "x") (NVar "y")) /\ parse_full "x not = y" = None.
Proof. repeat split; vm_compute; reflexivity. Qed.

Print Assumptions replace_words.
Print Assumptions parse_full_plain.
Print Assumptions parse_full_written.
Print Assumptions full_names_dotted_refuted.
Print Assumptions full_names_quoted_refuted.
Print Assumptions full_names_join_refuted.
