(** Interactive sessions with gr1c (tulip/interfaces/gr1c.py). *)
From Coq Require Import List String Ascii Bool Arith ZArith Lia.
From Verif Require Import M_Tree M_Base M_Dict M_Gr1c M_Grid M_LtlFile M_Session T_Grid T_GridText.
Import ListNotations.
Open Scope string_scope.
Open Scope list_scope.
Open Scope nat_scope.

(** ** Specification *)
(** What gr1c knows about a specification file *)
Record game : Type := Game {
  g_win : list Z -> bool; g_index : list Z -> Z -> Z; g_env : list Z -> list (list Z);
  g_sys : list Z -> list Z -> Z -> list (list Z); g_sysa : list Z -> list Z -> list (list Z);
  g_goals : Z; g_vars : list ascii; g_code : Z }.
(** The language of the tool: a command is a line of words, the arguments are numbers; an answer is lines, then the prompt. *)
Definition numbers (l : list Z) : list ascii := match l with [] => [] | z :: r => fold_left (fun t x => t ++ " "%char :: list_ascii_of_string (str_Z x)) r (list_ascii_of_string (str_Z z)) end.
Definition line (t : list ascii) : list ascii := t ++ [ascii_of_nat 10].
Definition move_lines (l : list (list Z)) : list ascii := List.concat (map (fun m => line (numbers m)) l) ++ line (list_ascii_of_string "---").
Fixpoint ints (l : list (list ascii)) : option (list Z) :=
  match l with [] => Some [] | w :: r => match py_int w, ints r with Some z, Some zs => Some (z :: zs) | _, _ => None end end.
Section Tool.
Variable ne ns : nat.
Variable prompt : list ascii.
Variable junk : list ascii -> list ascii.   (* what it prints for a line that it does not understand *)
Definition reply (G : game) (t : list ascii) : option (list ascii) :=
  match words [] t with
  | [] => None
  | w :: args =>
      match ints args with
      | None => None
      | Some v =>
          let c := string_of_list_ascii w in
          let st := firstn (ne + ns) v in
          let mv := firstn ne (skipn (ne + ns) v) in
          let n := List.length v in
          if (c =? "winning")%string && (n =? ne + ns) then Some (line (list_ascii_of_string (if g_win G st then "True" else "False")))
          else if (c =? "getindex")%string && (n =? ne + ns + 1) then Some (line (numbers [g_index G st (last v 0%Z)]))
          else if (c =? "envnext")%string && (n =? ne + ns) then Some (move_lines (g_env G st))
          else if (c =? "sysnext")%string && (n =? ne + ns + ne + 1) then Some (move_lines (g_sys G st mv (last v 0%Z)))
          else if (c =? "sysnexta")%string && (n =? ne + ns + ne) then Some (move_lines (g_sysa G st mv))
          else if (c =? "var")%string && (n =? 0) then Some (line (g_vars G))
          else if (c =? "numgoals")%string && (n =? 0) then Some (line (numbers [g_goals G]))
          else None
      end
  end.
Definition tool (G : game) (t : list ascii) : game * list ascii * option Z :=
  if (string_of_list_ascii t =? "quit")%string then (G, [], Some (g_code G))
  else (G, match reply G t with Some a => a | None => junk t end ++ prompt, None).
End Tool.
(** The line with the names of the variables is one line. *)
Definition fits (G : game) : Prop := ~ In (ascii_of_nat 10) (g_vars G).
(** A prompt without line ends and dashes, and with a character that answers do not have *)
Definition good_prompt (p : list ascii) : Prop :=
  ~ In (ascii_of_nat 10) p /\ ~ In "-"%char p /\ (p = [] \/ exists c, In c p /\ plain c = false /\ c <> " "%char).

Section Spec.
Context {F : Type}.
Variable game_of : F -> game.
Variable env sys : list string.
(** The values of the variables *)
Definition values (vars : list string) (st : list (string * Z)) : list Z := map (fun x => match M_Base.lookup x st with Some v => v | None => 0%Z end) vars.
Definition state_of (st : list (string * Z)) : list Z := values env st ++ values sys st.
(** A value for each of the variables, and nothing else *)
Definition exact (vars : list string) (st : list (string * Z)) : Prop :=
  List.length st = List.length vars /\ forall x, In x vars -> exists v, M_Base.lookup x st = Some v.
Definition well_formed (c : @call F) : Prop :=
  match c with
  | CWin st | CIndex st _ | CEnv st => exact (env ++ sys) st
  | CSys st mv _ | CSysA st mv => exact (env ++ sys) st /\ exact env mv
  | _ => True
  end.
(** The file, and whether gr1c runs *)
Definition astate : Type := option F * bool.
Definition goal_ok (G : game) (g : Z) : bool := ((0 <=? g) && (g <? g_goals G))%Z.
Definition answer (G : game) (c : @call F) : res value :=
  match c with
  | CWin st => Ok (VBool (g_win G (state_of st)))
  | CIndex st g => if goal_ok G g then Ok (VNum (g_index G (state_of st) g)) else Err "ValueError"
  | CEnv st => Ok (VMoves (map (combine env) (g_env G (state_of st))))
  | CSys st mv g => if goal_ok G g then Ok (VMoves (map (combine sys) (g_sys G (state_of st) (values env mv) g))) else Err "ValueError"
  | CSysA st mv => Ok (VMoves (map (combine sys) (g_sysa G (state_of st) (values env mv))))
  | CVars => Ok (VText (g_vars G))
  | CGoals => Ok (VNum (g_goals G))
  | CReset _ | CClose => Err "(not a question)"
  end.
Definition dead_error (c : @call F) : string :=
  match c with CIndex _ g | CSys _ _ g => if (g <? 0)%Z then "ValueError" else "AttributeError" | _ => "AttributeError" end.
Definition started (f g : option F) : astate := let h := match g with Some _ => g | None => f end in (h, match h with Some _ => true | None => false end).
Definition expected (a : astate) (c : @call F) : astate * res value :=
  match c, a with
  | CReset g, (Some f, true) => if (g_code (game_of f) =? 0)%Z then (started (Some f) g, Ok (VBool true)) else ((None, false), Ok (VBool false))
  | CReset g, (f, _) => (started f g, Ok (VBool true))
  | CClose, (Some f, true) => ((Some f, false), Ok (VBool (g_code (game_of f) =? 0)%Z))
  | _, (Some f, true) => (a, answer (game_of f) c)
  | _, _ => (a, Err (dead_error c))
  end.
Fixpoint expected_all (cs : list (@call F)) (a : astate) : astate * list (res value) :=
  match cs with [] => (a, []) | c :: r => let (a1, v) := expected a c in let (a2, vs) := expected_all r a1 in (a2, v :: vs) end.
End Spec.

(** ** Proofs *)
Lemma numbers_join l : numbers l = join_as_str l.
Proof.
  assert (G : forall r t, fold_left (fun t x => t ++ " "%char :: list_ascii_of_string (str_Z x)) r t = match r with [] => t | _ => t ++ " "%char :: join_as_str r end).
  { induction r as [|x r IH]; intro t; [reflexivity|]. cbn [fold_left]. rewrite IH. destruct r as [|y r]; [reflexivity|].
    change (join_as_str (x :: y :: r)) with (chars (str_Z x) ++ " "%char :: join_as_str (y :: r)). rewrite <- app_assoc. reflexivity. }
  destruct l as [|z r]; [reflexivity|]. unfold numbers. rewrite G. destruct r; reflexivity.
Qed.
Lemma str_Z_not_space z c : In c (chars (str_Z z)) -> is_space c = false.
Proof. intro H. apply plain_not_space, (str_Z_plain z), H. Qed.
Lemma str_Z_cons z : chars (str_Z z) <> [].
Proof.
  unfold chars, str_Z. destruct (z <? 0)%Z; [discriminate|]. destruct (str_nat_cons (Z.to_nat z)) as (c & r & -> & _). discriminate.
Qed.
Lemma words_numbers l : words [] (join_as_str l) = map (fun z => chars (str_Z z)) l.
Proof.
  induction l as [|z [|y l] IH]; [reflexivity| |].
  - cbn [join_as_str map]. rewrite words_word by apply str_Z_not_space. cbn [rev app]. assert (N := str_Z_cons z). destruct (chars (str_Z z)); [congruence|reflexivity].
  - change (join_as_str (z :: y :: l)) with (chars (str_Z z) ++ " "%char :: join_as_str (y :: l)). rewrite words_space; [|apply str_Z_not_space|cbn; apply str_Z_cons].
    rewrite IH. reflexivity.
Qed.
Lemma words_numbers_app l rest : words [] (join_as_str l ++ " "%char :: rest) = map (fun z => chars (str_Z z)) l ++ words [] rest.
Proof.
  induction l as [|z [|y l] IH]; [reflexivity| |].
  - cbn [join_as_str map app]. rewrite words_space; [reflexivity|apply str_Z_not_space|cbn; apply str_Z_cons].
  - change (join_as_str (z :: y :: l)) with (chars (str_Z z) ++ " "%char :: join_as_str (y :: l)). rewrite <- app_assoc. cbn [app].
    rewrite words_space; [|apply str_Z_not_space|cbn; apply str_Z_cons]. rewrite IH. reflexivity.
Qed.
Lemma ints_app a b : ints (a ++ b) = match ints a, ints b with Some x, Some y => Some (x ++ y) | _, _ => None end.
Proof.
  induction a as [|w a IH]; cbn [app ints]; [destruct (ints b); reflexivity|]. rewrite IH. destruct (py_int w), (ints a), (ints b); reflexivity.
Qed.
Lemma ints_numbers l : ints (map (fun z => chars (str_Z z)) l) = Some l.
Proof. induction l as [|z l IH]; [reflexivity|]. cbn [map ints]. unfold chars at 1. rewrite py_int_str_Z, IH. reflexivity. Qed.
Lemma join_chars l c : In c (join_as_str l) -> plain c = true \/ c = " "%char.
Proof.
  induction l as [|z [|y l] IH]; intro H; [destruct H| |].
  - left. apply (str_Z_plain z), H.
  - change (join_as_str (z :: y :: l)) with (chars (str_Z z) ++ " "%char :: join_as_str (y :: l)) in H. apply in_app_or in H. destruct H as [H|[<-|H]]; [left; apply (str_Z_plain z), H|right; reflexivity|apply IH, H].
Qed.
Lemma str_Z_last z : exists l c, chars (str_Z z) = l ++ [c] /\ M_Lexer.digit c = true.
Proof.
  assert (N : forall n, exists l c, chars (str_nat n) = l ++ [c] /\ M_Lexer.digit c = true).
  { intro n. destruct (str_nat_cons n) as (d & r & E & _). unfold chars. destruct (exists_last (l := list_ascii_of_string (str_nat n))) as (l & c & El); [rewrite E; discriminate|].
    exists l, c. split; [exact El|]. apply (str_nat_digits n). rewrite El. apply in_or_app. right. left. reflexivity. }
  unfold str_Z. destruct (z <? 0)%Z; [|apply N]. destruct (N (Z.to_nat (- z))) as (l & c & E & D). exists ("-"%char :: l), c. split; [|exact D].
  unfold chars in *. cbn [append list_ascii_of_string]. change (list_ascii_of_string ("-" ++ str_nat (Z.to_nat (- z)))%string) with ("-"%char :: list_ascii_of_string (str_nat (Z.to_nat (- z)))). rewrite E. reflexivity.
Qed.
Lemma join_last l : l <> [] -> exists t c, join_as_str l = t ++ [c] /\ M_Lexer.digit c = true.
Proof.
  induction l as [|z [|y l] IH]; intro NE; [congruence|apply str_Z_last|]. destruct IH as (t & c & E & D); [discriminate|].
  change (join_as_str (z :: y :: l)) with (chars (str_Z z) ++ " "%char :: join_as_str (y :: l)). rewrite E. exists (chars (str_Z z) ++ " "%char :: t), c. split; [|exact D]. rewrite <- app_assoc. reflexivity.
Qed.
(** *** Occurrences of texts *)
Lemma starts_app p s : starts p (p ++ s) = true.
Proof. induction p as [|a p IH]; [reflexivity|]. cbn. rewrite Ascii.eqb_refl. exact IH. Qed.
Lemma starts_split p s : starts p s = true -> exists r, s = p ++ r.
Proof.
  revert s. induction p as [|a p IH]; intros s H; [exists s; reflexivity|]. destruct s as [|b s]; [discriminate|]. cbn in H. apply andb_true_iff in H. destruct H as [E H].
  apply Ascii.eqb_eq in E. subst b. destruct (IH s H) as (r & ->). exists r. reflexivity.
Qed.
Lemma find_sub_split p s i : find_sub p s = Some i -> exists l r, s = l ++ p ++ r.
Proof.
  revert i. induction s as [|c s IH]; intros i H; cbn [find_sub] in H.
  - destruct (starts p []) eqn:E; [|discriminate]. destruct (starts_split _ _ E) as (r & ->). exists [], r. reflexivity.
  - destruct (starts p (c :: s)) eqn:E; [destruct (starts_split _ _ E) as (r & ->); exists [], r; reflexivity|].
    destruct (find_sub p s) as [j|] eqn:Ej; [|discriminate]. destruct (IH j eq_refl) as (l & r & ->). exists (c :: l), r. reflexivity.
Qed.
Lemma find_sub_some l p r : exists i, find_sub p (l ++ p ++ r) = Some i.
Proof.
  induction l as [|c l IH].
  - cbn [app]. destruct (p ++ r) as [|x y] eqn:E; cbn [find_sub].
    + apply app_eq_nil in E. destruct E as [-> _]. exists 0. reflexivity.
    + rewrite <- E, starts_app. eauto.
  - cbn [app find_sub]. destruct (starts p (c :: l ++ p ++ r)); [eauto|]. destruct IH as (i & ->). eexists. reflexivity.
Qed.
Lemma in_text_spec p s : in_text p s = true <-> exists l r, s = l ++ p ++ r.
Proof.
  unfold in_text. split.
  - destruct (find_sub p s) as [i|] eqn:E; [intros _; eapply find_sub_split, E|discriminate].
  - intros (l & r & ->). destruct (find_sub_some l p r) as (i & ->). reflexivity.
Qed.
(** In a line, a text with its end is the end of the line. *)
Lemma in_line_end p t : ~ In lf t -> in_text (p ++ [lf]) (t ++ [lf]) = true -> exists l, t = l ++ p.
Proof.
  intros N H. apply in_text_spec in H. destruct H as (l & r & E). destruct (exists_last (l := r ++ [lf])) as (a & b & Eab); [destruct r; discriminate|].
  destruct r as [|x r].
  - rewrite app_nil_r, app_assoc in E. apply app_inj_tail in E. destruct E as [-> _]. exists l. reflexivity.
  - exfalso. destruct (exists_last (l := x :: r)) as (r' & y & Er); [discriminate|]. rewrite Er in E. rewrite !app_assoc in E. apply app_inj_tail in E. destruct E as [E _]. apply N. rewrite E.
    apply in_or_app. left. apply in_or_app. right. left. reflexivity.
Qed.
Lemma line_end_in p l : in_text (p ++ [lf]) ((l ++ p) ++ [lf]) = true.
Proof. apply in_text_spec. exists l, []. rewrite app_nil_r, <- app_assoc. reflexivity. Qed.
Lemma take_line_ok t r : ~ In lf t -> take_line (t ++ lf :: r) = Some (t ++ [lf], r).
Proof.
  induction t as [|c t IH]; intro N; [reflexivity|]. cbn [app take_line]. destruct (Ascii.eqb c lf) eqn:E; [apply Ascii.eqb_eq in E; subst; destruct N; left; reflexivity|].
  rewrite IH; [reflexivity|]. intro I. apply N. right. exact I.
Qed.

Lemma words_end t c cur : is_space c = true -> words cur (t ++ [c]) = words cur t.
Proof.
  intro H. revert cur. induction t as [|x t IH]; intro cur; cbn [app words].
  - rewrite H. destruct cur; reflexivity.
  - destruct (is_space x); [destruct cur; rewrite IH; reflexivity|apply IH].
Qed.
Lemma set_nth_app a v x r : set_nth (List.length a) v (a ++ x :: r) = a ++ v :: r.
Proof. induction a as [|y a IH]; [reflexivity|]. cbn. rewrite IH. reflexivity. Qed.
Lemma fill_ok vars st : (forall x, In x vars -> exists v, M_Base.lookup x st = Some v) -> forall a b, List.length vars <= List.length b ->
  fill (List.length a) vars st (a ++ b) = Ok (a ++ values vars st ++ skipn (List.length vars) b).
Proof.
  induction vars as [|x vars IH]; intros H a b L; [reflexivity|]. cbn [fill]. destruct (H x (or_introl eq_refl)) as (v & E). rewrite E. cbn [of_opt bind].
  destruct b as [|y b]; [cbn in L; lia|]. replace (List.length a <? List.length (a ++ y :: b)) with true by (symmetry; apply Nat.ltb_lt; rewrite app_length; cbn; lia).
  rewrite set_nth_app. replace (S (List.length a)) with (List.length (a ++ [v])) by (rewrite app_length; cbn; lia). replace (a ++ v :: b) with ((a ++ [v]) ++ b) by (rewrite <- app_assoc; reflexivity).
  rewrite IH; [|intros z I; apply H; right; exact I|cbn in L; lia]. unfold values. cbn [map]. rewrite E. rewrite <- app_assoc. reflexivity.
Qed.
Lemma range_length st : List.length (range_of st) = List.length st.
Proof. unfold range_of. rewrite map_length, seq_length. reflexivity. Qed.
Lemma values_length vars st : List.length (values vars st) = List.length vars.
Proof. apply map_length. Qed.

Section Proofs.
Context {F : Type}.
Variable game_of : F -> game.
Variable env sys : list string.
Variable prompt : list ascii.
Variable junk : list ascii -> list ascii.
Hypothesis good : good_prompt prompt.
Hypothesis files : forall f, fits (game_of f).
Notation tool := (tool (List.length env) (List.length sys) prompt junk).
Notation reply := (reply (List.length env) (List.length sys)).
Definition boot (f : F) : game * list ascii := (game_of f, prompt).
Definition St (f : F) (out : list ascii) : @session game F := Session (Some f) sys env prompt (Some (Proc (game_of f) out None)).
Lemma vector_ok f out st : exact (env ++ sys) st -> state_vector (St f out) st = Ok (state_of env sys st).
Proof.
  intros [L H]. rewrite app_length in L. unfold state_vector. cbn [s_env s_sys St].
  assert (Q := fill_ok env st (fun x I => H x (in_or_app _ _ _ (or_introl I))) [] (range_of st)). cbn [List.length app] in Q. rewrite Q by (rewrite range_length; lia). cbn [bind].
  assert (R := fill_ok sys st (fun x I => H x (in_or_app _ _ _ (or_intror I))) (values env st) (skipn (List.length env) (range_of st))).
  rewrite values_length in R. rewrite R by (rewrite skipn_length, range_length; lia). unfold state_of.
  rewrite skipn_all2 by (rewrite skipn_length, range_length; lia). rewrite app_nil_r. reflexivity.
Qed.
Lemma emove_ok f out mv : exact env mv -> emove_vector (St f out) mv = Ok (values env mv).
Proof.
  intros [L H]. unfold emove_vector. cbn [s_env St]. assert (Q := fill_ok env mv H [] (range_of mv)). cbn [List.length app] in Q. rewrite Q by (rewrite range_length; lia).
  rewrite skipn_all2 by (rewrite range_length; lia). rewrite app_nil_r. reflexivity.
Qed.
Lemma send_ok f t a : (string_of_list_ascii t =? "quit")%string = false -> reply (game_of f) t = Some a ->
  send tool t (St f prompt) = (St f (prompt ++ a ++ prompt), Ok tt).
Proof. intros N R. unfold send. cbn [s_p St p_exit p_state]. unfold T_Session.tool. rewrite N, R. reflexivity. Qed.
Lemma recv_ok f t r : ~ In lf t -> recv (St f (t ++ lf :: r)) = (St f r, Ok (t ++ [lf])).
Proof. intro N. unfold recv. cbn [s_p St p_out]. rewrite take_line_ok by exact N. reflexivity. Qed.
Lemma recv_first f t : ~ In lf t -> recv (St f (prompt ++ line t ++ prompt)) = (St f prompt, Ok ((prompt ++ t) ++ [lf])).
Proof.
  intro N. unfold line. replace (prompt ++ (t ++ [ascii_of_nat 10]) ++ prompt) with ((prompt ++ t) ++ lf :: prompt) by (rewrite <- !app_assoc; reflexivity).
  apply recv_ok. intro I. apply in_app_or in I. destruct I as [I|I]; [apply (proj1 good I)|apply N, I].
Qed.
Lemma strip_first t : strip_prompt prompt (prompt ++ t) = t.
Proof.
  unfold strip_prompt. destruct prompt as [|c p] eqn:E; [reflexivity|]. cbn [List.length Nat.ltb Nat.leb]. rewrite <- E.
  destruct (find_sub_some [] prompt t) as (i & Ei). cbn [app] in Ei. rewrite E in *. rewrite Ei. change (S (List.length p)) with (List.length (c :: p)). rewrite skipn_app, skipn_all, Nat.sub_diag. reflexivity.
Qed.
Lemma strip_rest t : (forall c, In c t -> plain c = true \/ c = " "%char \/ c = lf) -> strip_prompt prompt t = t.
Proof.
  intro H. unfold strip_prompt. destruct good as (N1 & N2 & [->|(c & I & P & NS)]); [reflexivity|]. destruct (0 <? List.length prompt); [|reflexivity].
  destruct (find_sub prompt t) as [i|] eqn:E; [|reflexivity]. exfalso. apply find_sub_split in E. destruct E as (l & r & ->).
  destruct (H c) as [Q|[Q|Q]]; [apply in_or_app; right; apply in_or_app; left; exact I|congruence|congruence|]. subst c. apply N1, I.
Qed.
Lemma no_lf m : ~ In lf (join_as_str m).
Proof. intro I. apply join_chars in I. destruct I as [I|I]; discriminate I. Qed.
Lemma int_one z : int_of (join_as_str [z]) = Ok z.
Proof. unfold int_of. cbn [join_as_str]. unfold chars. rewrite py_int_str_Z. reflexivity. Qed.
Lemma one_number f z : forall s, (andthen recv (fun l => lift (int_of (removelast (strip_prompt prompt l))))) (St f (prompt ++ line (numbers [z]) ++ prompt)) = (s, Ok z) <-> s = St f prompt.
Proof.
  intro s. rewrite numbers_join. unfold andthen. rewrite recv_first by apply no_lf. unfold lift. rewrite <- app_assoc, strip_first, removelast_last, int_one. split; congruence.
Qed.
Lemma reply_cmd G t w args v : words [] t = w :: args -> ints args = Some v -> reply G t =
  (let c := string_of_list_ascii w in
   let st := firstn (List.length env + List.length sys) v in
   let mv := firstn (List.length env) (skipn (List.length env + List.length sys) v) in
   let n := List.length v in
   if (c =? "winning")%string && (n =? List.length env + List.length sys) then Some (line (list_ascii_of_string (if g_win G st then "True" else "False")))
   else if (c =? "getindex")%string && (n =? List.length env + List.length sys + 1) then Some (line (numbers [g_index G st (last v 0%Z)]))
   else if (c =? "envnext")%string && (n =? List.length env + List.length sys) then Some (move_lines (g_env G st))
   else if (c =? "sysnext")%string && (n =? List.length env + List.length sys + List.length env + 1) then Some (move_lines (g_sys G st mv (last v 0%Z)))
   else if (c =? "sysnexta")%string && (n =? List.length env + List.length sys + List.length env) then Some (move_lines (g_sysa G st mv))
   else if (c =? "var")%string && (n =? 0) then Some (line (g_vars G))
   else if (c =? "numgoals")%string && (n =? 0) then Some (line (numbers [g_goals G]))
   else None).
Proof. intros W I. unfold T_Session.reply. rewrite W, I. reflexivity. Qed.
Lemma state_length st : List.length (state_of env sys st) = List.length env + List.length sys.
Proof. unfold state_of. rewrite app_length, !values_length. reflexivity. Qed.
Lemma reply_win G st : reply G (chars "winning " ++ join_as_str (state_of env sys st)) = Some (line (list_ascii_of_string (if g_win G (state_of env sys st) then "True" else "False"))).
Proof.
  erewrite reply_cmd; [|exact (f_equal (cons (chars "winning")) (words_numbers _))|apply ints_numbers]. cbv zeta. rewrite state_length, Nat.eqb_refl.
  rewrite firstn_all2 by (rewrite state_length; lia). reflexivity.
Qed.
Lemma reply_env G st : reply G (chars "envnext " ++ join_as_str (state_of env sys st)) = Some (move_lines (g_env G (state_of env sys st))).
Proof.
  erewrite reply_cmd; [|exact (f_equal (cons (chars "envnext")) (words_numbers _))|apply ints_numbers]. cbv zeta. rewrite state_length, Nat.eqb_refl.
  rewrite firstn_all2 by (rewrite state_length; lia). reflexivity.
Qed.
Lemma reply_index G st g : reply G (chars "getindex " ++ join_as_str (state_of env sys st) ++ " "%char :: chars (str_Z g)) = Some (line (numbers [g_index G (state_of env sys st) g])).
Proof.
  erewrite reply_cmd with (v := state_of env sys st ++ [g]);
    [|exact (f_equal (cons (chars "getindex")) (eq_trans (words_numbers_app _ _) (f_equal (app _) (words_numbers [g]))))|rewrite ints_app, ints_numbers; cbn [map ints]; unfold chars; rewrite py_int_str_Z; reflexivity].
  cbv zeta. rewrite last_last, app_length, state_length. cbn [List.length]. rewrite Nat.eqb_refl, firstn_app, firstn_all2, state_length, Nat.sub_diag by (rewrite state_length; lia). cbn [firstn]. rewrite app_nil_r. reflexivity.
Qed.
Lemma reply_sysa G st mv : reply G (chars "sysnexta " ++ join_as_str (state_of env sys st) ++ " "%char :: join_as_str (values env mv)) = Some (move_lines (g_sysa G (state_of env sys st) (values env mv))).
Proof.
  erewrite reply_cmd with (v := state_of env sys st ++ values env mv);
    [|exact (f_equal (cons (chars "sysnexta")) (eq_trans (words_numbers_app _ _) (f_equal (app _) (words_numbers _))))|rewrite ints_app, !ints_numbers; reflexivity].
  cbv zeta. rewrite app_length, state_length, values_length. rewrite Nat.eqb_refl, firstn_app, firstn_all2, state_length, Nat.sub_diag by (rewrite state_length; lia). cbn [firstn]. rewrite app_nil_r.
  rewrite skipn_app, skipn_all2, state_length, Nat.sub_diag by (rewrite state_length; lia). cbn [skipn app]. rewrite firstn_all2 by (rewrite values_length; lia). reflexivity.
Qed.
Lemma reply_sys G st mv g : reply G (chars "sysnext " ++ join_as_str (state_of env sys st) ++ " "%char :: join_as_str (values env mv) ++ " "%char :: chars (str_Z g)) =
  Some (move_lines (g_sys G (state_of env sys st) (values env mv) g)).
Proof.
  erewrite reply_cmd with (v := state_of env sys st ++ values env mv ++ [g]);
    [|exact (f_equal (cons (chars "sysnext")) (eq_trans (words_numbers_app _ _) (f_equal (app _) (eq_trans (words_numbers_app _ _) (f_equal (app _) (words_numbers [g]))))))
     |rewrite !ints_app, !ints_numbers; reflexivity].
  cbv zeta. rewrite app_assoc, last_last, !app_length, state_length, values_length. cbn [List.length]. rewrite Nat.eqb_refl, <- app_assoc, firstn_app, firstn_all2, state_length, Nat.sub_diag by (rewrite state_length; lia). cbn [firstn]. rewrite app_nil_r.
  rewrite skipn_app, skipn_all2, state_length, Nat.sub_diag by (rewrite state_length; lia). cbn [skipn app]. rewrite firstn_app, firstn_all2, values_length, Nat.sub_diag by (rewrite values_length; lia). cbn [firstn]. rewrite app_nil_r. reflexivity.
Qed.
Lemma reply_goals G : reply G (chars "numgoals") = Some (line (numbers [g_goals G])).
Proof. reflexivity. Qed.
Lemma reply_vars G : reply G (chars "var") = Some (line (g_vars G)).
Proof. reflexivity. Qed.
(** *** Lists of moves *)
Lemma move_chars m c : In c (join_as_str m ++ [lf]) -> plain c = true \/ c = " "%char \/ c = lf.
Proof. intro I. apply in_app_or in I. destruct I as [I|[<-|[]]]; [apply join_chars in I; tauto|auto]. Qed.
Lemma read_numbers vars m : mapr (fun ks : string * list ascii => do z <- int_of (snd ks); Ok (fst ks, z)) (combine vars (words [] (join_as_str m ++ [lf]))) = Ok (combine vars m).
Proof.
  rewrite words_end by reflexivity. rewrite words_numbers. revert vars. induction m as [|z m IH]; intro vars; [destruct vars; reflexivity|]. destruct vars as [|x vars]; [reflexivity|].
  cbn [map combine mapr fst snd]. unfold int_of at 1, chars at 1. rewrite py_int_str_Z. cbn [of_opt bind]. rewrite IH. reflexivity.
Qed.
Lemma not_dashes p m : ~ In lf p -> ~ In "-"%char p -> in_text (chars "---" ++ [lf]) ((p ++ join_as_str m) ++ [lf]) = false.
Proof.
  intros N ND. destruct (in_text _ _) eqn:E; [|reflexivity]. exfalso. apply in_line_end in E.
  2:{ intro I. apply in_app_or in I. destruct I as [I|I]; [apply N, I|exact (no_lf m I)]. }
  destruct E as (l & E). change (chars "---") with (["-"; "-"] ++ ["-"])%char in E. rewrite app_assoc in E. destruct m as [|z m].
  - cbn [join_as_str] in E. rewrite app_nil_r in E. apply ND. rewrite E. apply in_or_app. right. left. reflexivity.
  - destruct (join_last (z :: m)) as (t & c & Ej & D); [discriminate|]. rewrite Ej, app_assoc in E. apply app_inj_tail in E. destruct E as [_ ->]. discriminate D.
Qed.
Lemma read_rest f vars ms : forall k acc, List.length ms < k ->
  read_moves k vars prompt acc (St f (move_lines ms ++ prompt)) = (St f prompt, Ok (acc ++ map (combine vars) ms)).
Proof.
  induction ms as [|m ms IH]; intros [|k] acc L; try (cbn in L; lia).
  - cbn [read_moves]. unfold andthen at 1. unfold move_lines, line. cbn [map List.concat app].
    replace (list_ascii_of_string "---" ++ [ascii_of_nat 10]) with (chars "---" ++ [lf]) by reflexivity. rewrite <- app_assoc. cbn [app].
    change (recv (St f (chars "---" ++ lf :: prompt))) with (recv (S := game) (F := F) (St f (chars "---" ++ lf :: prompt))). rewrite recv_ok by (vm_compute; intuition discriminate).
    replace (in_text (chars "---" ++ [lf]) (chars "---" ++ [lf])) with true by reflexivity. rewrite app_nil_r. reflexivity.
  - cbn [read_moves]. unfold andthen at 1. replace (move_lines (m :: ms) ++ prompt) with (join_as_str m ++ lf :: (move_lines ms ++ prompt)).
    2:{ unfold move_lines, line. cbn [map List.concat]. rewrite numbers_join, <- !app_assoc. reflexivity. }
    rewrite recv_ok by apply no_lf. assert (ND := not_dashes [] m (fun I => I) (fun I => I)). cbn [app] in ND. rewrite ND.
    unfold andthen, lift, read_move. rewrite strip_rest by apply move_chars. rewrite read_numbers. rewrite IH by (cbn in L; lia). cbn [map]. rewrite <- app_assoc. reflexivity.
Qed.
Lemma read_all f vars ms k : List.length ms < k ->
  read_moves k vars prompt [] (St f (prompt ++ move_lines ms ++ prompt)) = (St f prompt, Ok (map (combine vars) ms)).
Proof.
  destruct k as [|k]; [lia|]. intro L. cbn [read_moves]. unfold andthen at 1. destruct ms as [|m ms].
  - replace (prompt ++ move_lines [] ++ prompt) with ((prompt ++ chars "---") ++ lf :: prompt) by (unfold move_lines, line; cbn [map List.concat app]; rewrite <- !app_assoc; reflexivity).
    rewrite recv_ok. 2:{ intro I. apply in_app_or in I. destruct I as [I|I]; [apply (proj1 good I)|vm_compute in I; intuition discriminate]. }
    rewrite line_end_in. reflexivity.
  - replace (prompt ++ move_lines (m :: ms) ++ prompt) with ((prompt ++ join_as_str m) ++ lf :: (move_lines ms ++ prompt)).
    2:{ unfold move_lines, line. cbn [map List.concat]. rewrite numbers_join, <- !app_assoc. reflexivity. }
    rewrite recv_ok. 2:{ intro I. apply in_app_or in I. destruct I as [I|I]; [apply (proj1 good I)|exact (no_lf m I)]. }
    rewrite not_dashes by apply good. unfold andthen, lift, read_move. rewrite <- app_assoc, strip_first, read_numbers. rewrite read_rest by (cbn in L; lia). reflexivity.
Qed.
Lemma lines_length ms : List.length ms <= List.length (move_lines ms).
Proof.
  unfold move_lines. rewrite app_length. induction ms as [|m ms IH]; cbn [map List.concat List.length]; [lia|]. unfold line at 1. rewrite !app_length. cbn [List.length]. lia.
Qed.
Lemma moves_ok f vars ms : moves vars (St f (prompt ++ move_lines ms ++ prompt)) = (St f prompt, Ok (map (combine vars) ms)).
Proof. unfold moves. cbn [s_p s_prompt St p_out]. apply read_all. rewrite !app_length. assert (L := lines_length ms). lia. Qed.
(** *** The calls *)
Lemma quit_not t : match t with "q"%char :: _ => False | _ => True end -> (string_of_list_ascii t =? "quit")%string = false.
Proof.
  intro H. apply String.eqb_neq. intro E. destruct t as [|c t]; [discriminate E|]. cbn in E. injection E as -> _. exact H.
Qed.
Notation numgoals := (numgoals tool).
Lemma numgoals_ok f : numgoals (St f prompt) = (St f prompt, Ok (g_goals (game_of f))).
Proof.
  unfold M_Session.numgoals, andthen at 1. rewrite (send_ok f _ _ (quit_not (chars "numgoals") I) (reply_goals _)). cbn [s_prompt St]. apply one_number. reflexivity.
Qed.
Lemma check_goal_ok f g : check_goal tool g (St f prompt) = (St f prompt, if goal_ok (game_of f) g then Ok tt else Err "ValueError").
Proof.
  unfold check_goal, goal_ok. destruct (g <? 0)%Z eqn:E; [apply Z.ltb_lt in E|apply Z.ltb_ge in E].
  - replace (0 <=? g)%Z with false by (symmetry; apply Z.leb_gt; exact E). reflexivity.
  - replace (0 <=? g)%Z with true by (symmetry; apply Z.leb_le; exact E). unfold andthen. rewrite numgoals_ok. cbn [andb].
    destruct (g >? g_goals (game_of f) - 1)%Z eqn:Q; rewrite Z.gtb_ltb in Q; [apply Z.ltb_lt in Q|apply Z.ltb_ge in Q].
    + replace (g <? g_goals (game_of f))%Z with false by (symmetry; apply Z.ltb_ge; lia). reflexivity.
    + replace (g <? g_goals (game_of f))%Z with true by (symmetry; apply Z.ltb_lt; lia). reflexivity.
Qed.
Definition session_of (a : astate) : @session game F :=
  Session (fst a) sys env prompt (match a with (Some f, true) => Some (Proc (game_of f) prompt None) | _ => None end).
Definition proper (a : astate (F := F)) : Prop := snd a = true -> fst a <> None.
Lemma win_text b : in_text (chars "True" ++ [lf]) ((prompt ++ list_ascii_of_string (if b : bool then "True" else "False")) ++ [lf]) = b.
Proof.
  destruct b; [apply line_end_in|]. destruct (in_text _ _) eqn:E; [|reflexivity]. exfalso. apply in_line_end in E.
  - destruct E as (l & E). apply (f_equal (@rev ascii)) in E. rewrite !rev_app_distr in E. discriminate E.
  - intro I. apply in_app_or in I. destruct I as [I|I]; [apply (proj1 good I)|vm_compute in I; intuition discriminate].
Qed.
Lemma answer_ok f c : well_formed env sys c -> match c with CReset _ | CClose => False | _ => True end ->
  do_call boot tool c (St f prompt) = (St f prompt, answer env sys (game_of f) c).
Proof.
  intros W Q. destruct c as [st|st g|st|st mv g|st mv| | |fl|]; try destruct Q; cbn [do_call well_formed answer] in *; unfold as_value.
  - unfold andthen at 1. unfold iswinning. rewrite vector_ok by exact W. unfold lift, andthen. rewrite (send_ok f _ _ (quit_not (chars "winning " ++ _) I) (reply_win _ st)).
    rewrite recv_first by (destruct (g_win _ _); vm_compute; intuition discriminate). unfold ret. rewrite win_text. reflexivity.
  - unfold andthen at 1. unfold getindex. unfold andthen at 1. rewrite check_goal_ok. destruct (goal_ok (game_of f) g); [|reflexivity]. rewrite vector_ok by exact W. unfold lift at 1, andthen at 1. unfold andthen at 1.
    rewrite (send_ok f _ _ (quit_not (chars "getindex " ++ _) I) (reply_index _ st g)). cbn [s_prompt St].
    rewrite (proj2 (one_number f (g_index (game_of f) (state_of env sys st) g) (St f prompt)) eq_refl). reflexivity.
  - unfold andthen at 1. unfold env_next. rewrite vector_ok by exact W. unfold lift, andthen. rewrite (send_ok f _ _ (quit_not (chars "envnext " ++ _) I) (reply_env _ st)).
    cbn [s_env St]. rewrite moves_ok. reflexivity.
  - destruct W as [W1 W2]. unfold andthen at 1. unfold sys_nextfeas. unfold andthen at 1. rewrite check_goal_ok. destruct (goal_ok (game_of f) g); [|reflexivity]. rewrite vector_ok by exact W1. rewrite emove_ok by exact W2. unfold lift, andthen.
    rewrite (send_ok f _ _ (quit_not (chars "sysnext " ++ _) I) (reply_sys _ st mv g)). cbn [s_sys St]. rewrite moves_ok. reflexivity.
  - destruct W as [W1 W2]. unfold andthen at 1. unfold sys_nexta. rewrite vector_ok by exact W1. rewrite emove_ok by exact W2. unfold lift, andthen.
    rewrite (send_ok f _ _ (quit_not (chars "sysnexta " ++ _) I) (reply_sysa _ st mv)). cbn [s_sys St]. rewrite moves_ok. reflexivity.
  - unfold andthen at 1. unfold getvars, andthen. rewrite (send_ok f _ _ (quit_not (chars "var") I) (reply_vars _)). rewrite recv_first by apply files. cbn [s_prompt St]. unfold ret.
    rewrite <- app_assoc, strip_first, removelast_last. reflexivity.
  - unfold andthen at 1. rewrite numgoals_ok. reflexivity.
Qed.
Lemma dead_vector fl st : exact (env ++ sys) st -> state_vector (S := game) (F := F) (Session fl sys env prompt None) st = Ok (state_of env sys st).
Proof.
  intros [L H]. rewrite app_length in L. unfold state_vector. cbn [s_env s_sys].
  assert (Q := fill_ok env st (fun x I => H x (in_or_app _ _ _ (or_introl I))) [] (range_of st)). cbn [List.length app] in Q. rewrite Q by (rewrite range_length; lia). cbn [bind].
  assert (R := fill_ok sys st (fun x I => H x (in_or_app _ _ _ (or_intror I))) (values env st) (skipn (List.length env) (range_of st))).
  rewrite values_length in R. rewrite R by (rewrite skipn_length, range_length; lia). unfold state_of.
  rewrite skipn_all2 by (rewrite skipn_length, range_length; lia). rewrite app_nil_r. reflexivity.
Qed.
Lemma dead_emove fl mv : exact env mv -> emove_vector (S := game) (F := F) (Session fl sys env prompt None) mv = Ok (values env mv).
Proof.
  intros [L H]. unfold emove_vector. cbn [s_env]. assert (Q := fill_ok env mv H [] (range_of mv)). cbn [List.length app] in Q. rewrite Q by (rewrite range_length; lia).
  rewrite skipn_all2 by (rewrite range_length; lia). rewrite app_nil_r. reflexivity.
Qed.
Lemma dead_ok fl c : well_formed env sys c -> match c with CReset _ => False | _ => True end ->
  do_call boot tool c (Session fl sys env prompt None) = (Session fl sys env prompt None, Err (dead_error c)).
Proof.
  intros W Q. destruct c as [st|st g|st|st mv g|st mv| | |f|]; try destruct Q; cbn [do_call well_formed dead_error] in *; unfold as_value.
  - unfold andthen at 1, iswinning. rewrite dead_vector by exact W. reflexivity.
  - unfold andthen at 1, getindex, check_goal. destruct (g <? 0)%Z; reflexivity.
  - unfold andthen at 1, env_next. rewrite dead_vector by exact W. reflexivity.
  - unfold andthen at 1, sys_nextfeas, check_goal. destruct (g <? 0)%Z; reflexivity.
  - destruct W as [W1 W2]. unfold andthen at 1, sys_nexta. rewrite dead_vector by exact W1. rewrite dead_emove by exact W2. reflexivity.
  - reflexivity.
  - reflexivity.
  - reflexivity.
Qed.
Lemma quit_ok f : andthen (send tool (chars "quit")) (fun _ => wait) (St f prompt) =
  (Session (Some f) sys env prompt (Some (Proc (game_of f) (prompt ++ []) (Some (g_code (game_of f))))), Ok (g_code (game_of f))).
Proof. reflexivity. Qed.
Lemma call_ok a c : proper a -> well_formed env sys c ->
  do_call boot tool c (session_of a) = (session_of (fst (expected game_of env sys a c)), snd (expected game_of env sys a c)) /\ proper (fst (expected game_of env sys a c)).
Proof.
  intros P W. destruct a as [[f|] [|]].
  - assert (R : proper (Some f, true)) by exact P.
    change (session_of (Some f, true)) with (St f prompt). destruct c as [st|st g|st|st mv g|st mv| | |fl|]; try (split; [apply answer_ok; [exact W|exact Logic.I]|exact R]).
    + cbn [do_call expected]. unfold as_value, andthen at 1, reset. cbn [s_p St]. fold (St f prompt). rewrite quit_ok. destruct (g_code (game_of f) =? 0)%Z.
      * cbn [fst snd]. unfold started. destruct fl as [g|]; (split; [reflexivity|intros _; discriminate]).
      * split; [reflexivity|intro Q; discriminate Q].
    + cbn [do_call expected]. unfold as_value, andthen at 1, close. rewrite quit_ok. split; [reflexivity|intro Q; discriminate Q].
  - change (session_of (Some f, false)) with (Session (S := game) (Some f) sys env prompt None).
    destruct c as [st|st g|st|st mv g|st mv| | |fl|]; try (split; [apply dead_ok; [exact W|exact Logic.I]|exact P]).
    cbn [do_call expected fst snd]. unfold started. destruct fl as [g|]; (split; [reflexivity|intros _; discriminate]).
  - destruct (P eq_refl eq_refl).
  - change (session_of (None, false)) with (Session (S := game) (F := F) None sys env prompt None).
    destruct c as [st|st g|st|st mv g|st mv| | |fl|]; try (split; [apply dead_ok; [exact W|exact Logic.I]|exact P]).
    cbn [do_call expected fst snd]. unfold started. destruct fl as [g|]; (split; [reflexivity|]); [intros _; discriminate|intro Q; discriminate Q].
Qed.
(** Every sequence of calls gets the answers of the tool, and the session is ready for the next one. *)
Theorem session_answers cs : Forall (well_formed env sys) cs -> forall a, proper a ->
  do_calls boot tool cs (session_of a) = (session_of (fst (expected_all game_of env sys cs a)), snd (expected_all game_of env sys cs a)).
Proof.
  intro W. induction W as [|c cs Wc W IH]; intros a P; [reflexivity|]. cbn [do_calls expected_all].
  destruct (call_ok a c P Wc) as [E P1]. rewrite E. destruct (expected game_of env sys a c) as [a1 v]. cbn [fst snd] in *. rewrite (IH a1 P1).
  destruct (expected_all game_of env sys cs a1). reflexivity.
Qed.
Theorem new_session_answers fl cs : Forall (well_formed env sys) cs ->
  snd (do_calls boot tool cs (new_session boot fl sys env prompt)) = snd (expected_all game_of env sys cs (fl, match fl with Some _ => true | None => false end)).
Proof.
  intro W. replace (new_session boot fl sys env prompt) with (session_of (fl, match fl with Some _ => true | None => false end)) by (destruct fl; reflexivity).
  rewrite session_answers; [reflexivity|exact W|]. intro Q. destruct fl; [discriminate|discriminate Q].
Qed.
(** A state without a variable is an error before anything is sent. *)
Lemma fill_missing vars st x : In x vars -> M_Base.lookup x st = None -> forall off sv, exists e, fill off vars st sv = Err e.
Proof.
  induction vars as [|y vars IH]; intros I N off sv; [destruct I|]. cbn [fill]. destruct (M_Base.lookup y st) as [v|] eqn:E; cbn [of_opt bind]; [|eauto].
  destruct (off <? List.length sv); [|eauto]. destruct I as [->|I]; [congruence|]. apply IH; assumption.
Qed.
Theorem missing_variable f st x : In x (env ++ sys) -> M_Base.lookup x st = None ->
  exists e, state_vector (St f prompt) st = Err e /\ do_call boot tool (CWin st) (St f prompt) = (St f prompt, Err e) /\ do_call boot tool (CEnv st) (St f prompt) = (St f prompt, Err e) /\
    forall mv, do_call boot tool (CSysA st mv) (St f prompt) = (St f prompt, Err e).
Proof.
  intros I N. assert (V : exists e, state_vector (St f prompt) st = Err e).
  { unfold state_vector. cbn [s_env s_sys St]. apply in_app_or in I. destruct I as [I|I].
    - destruct (fill_missing env st x I N 0 (range_of st)) as (e & ->). exists e. reflexivity.
    - destruct (fill 0 env st (range_of st)) as [sv|e]; cbn [bind]; [|eauto]. apply (fill_missing sys st x I N). }
  destruct V as (e & V). exists e. split; [exact V|]. cbn [do_call]. unfold as_value, andthen, iswinning, env_next, sys_nexta, lift. rewrite V. split; [reflexivity|]. split; [reflexivity|]. intro mv. reflexivity.
Qed.
End Proofs.

(** ** A concrete tool *)
Definition ex_game (code : Z) : game :=
  {| g_win := fun v => match v with [x; y] => (x <=? y)%Z | _ => false end; g_index := fun v g => (hd 0 v + g)%Z;
     g_env := fun _ => [[0]; [1]]%Z; g_sys := fun _ e g => [[hd 0 e + g]; [-12]]%Z; g_sysa := fun _ _ => [];
     g_goals := 2%Z; g_vars := list_ascii_of_string "x (0), y (1)"; g_code := code |}.
Definition ex_files (f : bool) : game := ex_game (if f then 0 else 3)%Z.
Definition arrow : list ascii := list_ascii_of_string ">>> ".
Lemma arrow_good : good_prompt arrow.
Proof. split; [vm_compute; intuition discriminate|]. split; [vm_compute; intuition discriminate|]. right. exists ">"%char. split; [left; reflexivity|]. split; [reflexivity|discriminate]. Qed.
Definition st01 : list (string * Z) := [("y", 1%Z); ("x", 0%Z)].
Definition ex_calls : list (@call bool) :=
  [CWin st01; CIndex st01 1; CIndex st01 2; CEnv st01; CSys st01 [("x", 7%Z)] 1; CSysA st01 [("x", 7%Z)]; CVars; CGoals; CClose; CWin st01; CReset (Some false); CGoals; CReset (Some true); CGoals].
Example ex_well_formed : Forall (well_formed ["x"] ["y"]) ex_calls.
Proof.
  assert (E : exact ["x"; "y"] st01). { split; [reflexivity|]. intros x [<-|[<-|[]]]; eexists; reflexivity. }
  assert (M : exact ["x"] [("x", 7%Z)]). { split; [reflexivity|]. intros x [<-|[]]; eexists; reflexivity. }
  unfold ex_calls. repeat (constructor; [first [exact E|split; [exact E|exact M]|exact Logic.I]|]). constructor.
Qed.
Example ex_session : snd (do_calls (boot ex_files arrow) (tool 1 1 arrow (fun _ => [])) ex_calls (new_session (boot ex_files arrow) (Some true) ["y"] ["x"] arrow)) =
  [Ok (VBool true); Ok (VNum 1); Err "ValueError"; Ok (VMoves [[("x", 0%Z)]; [("x", 1%Z)]]); Ok (VMoves [[("y", 8%Z)]; [("y", (-12)%Z)]]); Ok (VMoves []);
   Ok (VText (list_ascii_of_string "x (0), y (1)")); Ok (VNum 2); Ok (VBool true); Err "AttributeError"; Ok (VBool true); Ok (VNum 2); Ok (VBool false); Err "AttributeError"].
Proof.
  exact (new_session_answers ex_files ["x"] ["y"] arrow (fun _ => []) arrow_good (fun f => ltac:(vm_compute; intuition discriminate)) (Some true) ex_calls ex_well_formed).
Qed.

(** ** What goes wrong *)
(** A state with another variable, as nodes of strategies have: its index is sent as a number, and a winning state is said not to be winning. *)
Theorem session_extra_refuted : exists st, M_Base.lookup "x" st = Some 0%Z /\ M_Base.lookup "y" st = Some 1%Z /\ g_win (ex_game 0) [0; 1]%Z = true /\
  state_vector (S := game) (F := bool) (new_session (boot ex_files arrow) (Some true) ["y"] ["x"] arrow) st = Ok [0; 1; 2]%Z /\
  snd (iswinning (tool 1 1 arrow (fun _ => line (list_ascii_of_string "Invalid state"))) st (new_session (boot ex_files arrow) (Some true) ["y"] ["x"] arrow)) = Ok false.
Proof. exists [("x", 0); ("y", 1); ("_goal", 5)]%Z. repeat split; vm_compute; reflexivity. Qed.
(** A tool that ends without an answer: every state is said not to be winning, and the moves are read for ever. *)
Definition crash (G : game) (t : list ascii) : game * list ascii * option Z := (G, [], Some 139%Z).
Theorem session_crash_refuted : snd (iswinning crash st01 (new_session (boot ex_files []) (Some true) ["y"] ["x"] [])) = Ok false /\ g_win (ex_game 0) [0; 1]%Z = true /\
  forall fuel G acc, snd (read_moves (S := game) (F := bool) fuel ["x"] [] acc (Session (Some true) ["y"] ["x"] [] (Some (Proc G [] (Some 139%Z))))) = Err "(waits)".
Proof.
  split; [vm_compute; reflexivity|]. split; [reflexivity|]. induction fuel as [|k IH]; intros G acc; [reflexivity|]. cbn [read_moves]. unfold andthen at 1. unfold recv. cbn [s_p p_out take_line p_exit].
  change (in_text (chars "---" ++ [lf]) []) with false. cbn iota. unfold andthen, lift. change (read_move ["x"] [] []) with (Ok ([] : list (string * Z))). apply IH.
Qed.
(** The prompt is cut off wherever it is in the line: with a blank as prompt, moves of two variables are read wrongly. *)
Theorem session_prompt_refuted : exists G : game, g_env G [0; 0]%Z = [[1; 2]; [3; 4]]%Z /\
  snd (env_next (tool 2 0 [" "%char] (fun _ => [])) [("a", 0); ("b", 0)]%Z (new_session (boot (fun _ : unit => G) [" "%char]) (Some tt) [] ["a"; "b"] [" "%char])) =
  Ok [[("a", 1); ("b", 2)]; [("a", 4)]]%Z.
Proof.
  exists {| g_win := fun _ => true; g_index := fun _ _ => 0%Z; g_env := fun _ => [[1; 2]; [3; 4]]%Z; g_sys := fun _ _ _ => []; g_sysa := fun _ _ => []; g_goals := 1%Z; g_vars := []; g_code := 0%Z |}.
  split; [reflexivity|vm_compute; reflexivity].
Qed.
(** When the old process ends with an error, [reset] does not start the new one and forgets both files. *)
Theorem session_reset_refuted : let s := new_session (boot ex_files arrow) (Some false) ["y"] ["x"] arrow in
  let (s', r) := reset (boot ex_files arrow) (tool 1 1 arrow (fun _ => [])) (Some true) s in r = Ok false /\ s_file s' = None /\ s_p s' = None.
Proof. vm_compute. auto. Qed.

Print Assumptions session_answers.
Print Assumptions new_session_answers.
Print Assumptions missing_variable.
Print Assumptions session_extra_refuted.
Print Assumptions session_crash_refuted.
Print Assumptions session_prompt_refuted.
Print Assumptions session_reset_refuted.
