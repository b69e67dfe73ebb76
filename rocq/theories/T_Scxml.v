(** What [mealy2scxml] returns and what the text it would return is: tags of an XML text,
    written here without reference to the code. *)
From Coq Require Import List String Ascii NArith Bool Lia.
From Verif Require Import M_Base M_Scxml.
Import ListNotations.
Local Open Scope string_scope.

(** * Specification: the tags of an XML text, and how they nest *)

(** The text between the angle brackets of each tag of a text.  Inside a tag no opening
    bracket may occur, and inside a quoted value also no ampersand.  [None]: not readable. *)
Inductive mode := Text | Tag (quoted : bool) (body : string).
Fixpoint scan (m : mode) (s : string) : option (list string) :=
  match s with
  | EmptyString => match m with Text => Some [] | Tag _ _ => None end
  | String c r =>
      match m with
      | Text => if Ascii.eqb c "<" then scan (Tag false "") r else scan Text r
      | Tag q b =>
          if Ascii.eqb c "<" then None
          else if Ascii.eqb c """" then scan (Tag (negb q) (b ++ String c "")) r
          else if q then if Ascii.eqb c "&" then None else scan (Tag true (b ++ String c "")) r
          else if Ascii.eqb c ">" then option_map (cons b) (scan Text r)
          else scan (Tag false (b ++ String c "")) r
      end
  end.
Definition tags_of (s : string) : option (list string) := scan Text s.

(** A tag opens an element, closes one, is an element without contents, or is a declaration. *)
Inductive tag := Opens (n : string) | Closes (n : string) | Empties (n : string) | Declares.
Fixpoint word (s : string) : string :=
  match s with
  | EmptyString => ""
  | String c r => if Ascii.eqb c " " || Ascii.eqb c "/" then "" else String c (word r)
  end.
Fixpoint last_is (c : ascii) (s : string) : bool :=
  match s with
  | EmptyString => false
  | String d "" => Ascii.eqb c d
  | String _ r => last_is c r
  end.
Definition tag_of (b : string) : tag :=
  match b with
  | String "/" r => Closes (word r)
  | String "?" _ => Declares
  | _ => if last_is "/" b then Empties (word b) else Opens (word b)
  end.
(** Elements nest, and there is one outermost element. *)
Fixpoint nests (stack : list string) (seen : bool) (l : list tag) : bool :=
  match l with
  | [] => match stack with [] => seen | _ => false end
  | Declares :: l => nests stack seen l
  | Opens n :: l => match stack, seen with [], true => false | _, _ => nests (n :: stack) true l end
  | Empties n :: l => match stack, seen with [], true => false | _, _ => nests stack true l end
  | Closes n :: l => match stack with m :: r => String.eqb m n && nests r seen l | [] => false end
  end.
Definition xml_ok (s : string) : bool :=
  match tags_of s with Some l => nests [] false (map tag_of l) | None => false end.

Example xml_ok_1 : xml_ok "<a x=""1 > 0""><b/><c> text </c></a>" = true.
Proof. vm_compute. reflexivity. Qed.
Example xml_ok_2 : xml_ok "<a><b></a></b>" = false.
Proof. vm_compute. reflexivity. Qed.
Example xml_ok_3 : xml_ok "<a/><b/>" = false.
Proof. vm_compute. reflexivity. Qed.

(** Texts that may stand in a quoted value. *)
Fixpoint plain (s : string) : bool :=
  match s with
  | EmptyString => true
  | String c r => negb (Ascii.eqb c "<") && negb (Ascii.eqb c """") && negb (Ascii.eqb c "&") && plain r
  end.

(** * Reading pieces of text *)

Lemma app_assoc_s : forall a b c : string, (a ++ b) ++ c = a ++ (b ++ c).
Proof. induction a; simpl; intros; [|f_equal]; auto. Qed.
Lemma app_nil_s : forall a : string, a ++ "" = a.
Proof. induction a; simpl; [|f_equal]; auto. Qed.
Lemma scan_plain : forall s b r, plain s = true -> scan (Tag true b) (s ++ r) = scan (Tag true (b ++ s)) r.
Proof.
  induction s as [|c s IH]; intros b r H.
  - rewrite app_nil_s. reflexivity.
  - simpl in H. apply andb_prop in H as [H H4]. apply andb_prop in H as [H H3].
    apply andb_prop in H as [H1 H2].
    apply negb_true_iff in H1, H2, H3.
    cbn [append scan]. rewrite H1, H2, H3. rewrite IH by assumption.
    rewrite app_assoc_s. reflexivity.
Qed.
Lemma concat_cons : forall a l, concat "" (a :: l) = a ++ concat "" l.
Proof. intros a [|b l]; cbn; [rewrite app_nil_s|]; reflexivity. Qed.
Lemma last_app : forall c a b, last_is c (a ++ String b "") = Ascii.eqb c b.
Proof.
  intros c a b. induction a as [|d a IH]; [reflexivity|].
  cbn [append last_is]. destruct (a ++ String b "") eqn:E; [destruct a; discriminate|assumption].
Qed.

Section S.
  Variable L : Type.
  Variable show_state : N -> string.
  Variable show_label : L -> string.
  Local Notation machine := (machine L).

  (** The tags that the document of a machine would have, for a given initial state. *)
  Definition state_tag (s : N) : string := "state id=""" ++ show_state s ++ """".
  Definition transition_tag (e : N * N * L) : string :=
    "transition " ++ indent 3 ++ "event=""input_present"" " ++
    indent 3 ++ "cond=""" ++ show_label (snd e) ++ """ " ++
    indent 3 ++ "target=""" ++ show_state (snd (fst e)) ++ """/".
  Definition root_tag (i : N) : string :=
    "scxml xmlns=""http://www.w3.org/2005/07/scxml""  version=""1.0"" initial=""" ++ show_state i ++ """".
  Definition leaving (m : machine) (s : N) : list (N * N * L) :=
    filter (fun e => N.eqb (fst (fst e)) s) (sm_edges m).

  Definition plain_machine (m : machine) : Prop :=
    (forall s, plain (show_state s) = true) /\
    (forall e, In e (sm_edges m) -> plain (show_label (snd e)) = true).

  Lemma option_map_app (a b : list string) x :
    option_map (app a) (option_map (app b) x) = option_map (app (a ++ b)) x.
  Proof. destruct x; simpl; [rewrite app_assoc|]; reflexivity. Qed.

  Lemma scan_transition m e r : plain_machine m -> In e (sm_edges m) ->
    scan Text (transition_str L show_state show_label e ++ r) =
    option_map (app [transition_tag e; "/transition"]) (scan Text r).
  Proof.
    intros [H1 H2] H. destruct e as [[u v] l]. specialize (H2 _ H). specialize (H1 v).
    unfold transition_str, transition_tag, indent, quote, newline, tab. cbn [fst snd] in *.
    rewrite !app_assoc_s. cbn [append scan Ascii.eqb Bool.eqb negb].
    rewrite scan_plain by assumption. cbn [append scan Ascii.eqb Bool.eqb negb].
    rewrite scan_plain by assumption. cbn [append scan Ascii.eqb Bool.eqb negb].
    rewrite !app_assoc_s. cbn [append].
    destruct (scan Text r); [|reflexivity]. cbn [option_map app append].
    reflexivity.
  Qed.
  Lemma scan_transitions m l r : plain_machine m -> incl l (sm_edges m) ->
    scan Text (concat "" (map (transition_str L show_state show_label) l) ++ r) =
    option_map (app (flat_map (fun e => [transition_tag e; "/transition"]) l)) (scan Text r).
  Proof.
    intros Hm. induction l as [|e l IH]; intros Hl.
    - cbn [map concat append flat_map]. destruct (scan Text r); reflexivity.
    - cbn [map]. rewrite concat_cons, app_assoc_s.
      rewrite (scan_transition m) by (auto; apply Hl; left; reflexivity).
      rewrite IH by (intros x Hx; apply Hl; right; exact Hx).
      rewrite option_map_app. reflexivity.
  Qed.
  Definition tags_of_state (m : machine) (s : N) : list string :=
    state_tag s :: flat_map (fun e => [transition_tag e; "/transition"]) (leaving m s) ++ ["/state"].
  Lemma scan_state m s r : plain_machine m ->
    scan Text (state_str L show_state show_label m s ++ r) =
    option_map (app (tags_of_state m s)) (scan Text r).
  Proof.
    intros Hm. pose proof (proj1 Hm s) as Hs.
    unfold state_str, transitions_str. rewrite !app_assoc_s.
    unfold tab, newline, quote. cbn [append scan Ascii.eqb Bool.eqb negb].
    rewrite scan_plain by assumption. cbn [append scan Ascii.eqb Bool.eqb negb].
    rewrite (scan_transitions m) by (auto; apply incl_filter).
    cbn [append scan Ascii.eqb Bool.eqb negb].
    unfold tags_of_state, state_tag, leaving. rewrite ?app_assoc_s. cbn [append].
    destruct (scan Text r); [|reflexivity]. cbn [option_map].
    rewrite <- app_comm_cons, <- app_assoc. reflexivity.
  Qed.
  Lemma scan_states m l r : plain_machine m ->
    scan Text (concat "" (map (state_str L show_state show_label m) l) ++ r) =
    option_map (app (flat_map (tags_of_state m) l)) (scan Text r).
  Proof.
    intros Hm. induction l as [|s l IH].
    - cbn [map concat append flat_map]. destruct (scan Text r); reflexivity.
    - cbn [map]. rewrite concat_cons, app_assoc_s, (scan_state m), IH by assumption.
      rewrite option_map_app. reflexivity.
  Qed.

  (** The text has, in this order, a declaration, the element of the document with the initial
      state, for each state its element, inside of it one tag for each transition that leaves the
      state with its label and target, and the closing tags. *)
  Theorem scxml_tags (m : machine) (i : N) : plain_machine m ->
    tags_of (scxml_text L show_state show_label m i) =
    Some ("?xml version=""1.0"" encoding=""UTF-8""?" :: root_tag i ::
          flat_map (fun s => state_tag s ::
                             flat_map (fun e => [transition_tag e; "/transition"]) (leaving m s) ++
                             ["/state"]) (sm_states m) ++ ["/scxml"]).
  Proof.
    intros Hm. pose proof (proj1 Hm i) as Hi.
    unfold tags_of, scxml_text, quote, newline. cbn [append scan Ascii.eqb Bool.eqb negb].
    rewrite scan_plain by assumption. cbn [append scan Ascii.eqb Bool.eqb negb].
    rewrite scan_states by assumption. cbn [append scan Ascii.eqb Bool.eqb negb option_map].
    unfold root_tag. rewrite ?app_assoc_s. reflexivity.
  Qed.

  Lemma tag_of_transition e : tag_of (transition_tag e) = Empties "transition".
  Proof.
    unfold transition_tag.
    replace ("transition " ++ indent 3 ++ "event=""input_present"" " ++
      indent 3 ++ "cond=""" ++ show_label (snd e) ++ """ " ++
      indent 3 ++ "target=""" ++ show_state (snd (fst e)) ++ """/")
    with (("transition " ++ indent 3 ++ "event=""input_present"" " ++
      indent 3 ++ "cond=""" ++ show_label (snd e) ++ """ " ++
      indent 3 ++ "target=""" ++ show_state (snd (fst e)) ++ """") ++ "/")
    by (rewrite !app_assoc_s; reflexivity).
    set (b := "transition " ++ indent 3 ++ _).
    assert (H : last_is "/" (b ++ "/") = true) by apply last_app.
    unfold b in *. cbn [append tag_of] in *. unfold tag_of. rewrite H. reflexivity.
  Qed.
  Lemma tag_of_state s : tag_of (state_tag s) = Opens "state".
  Proof.
    unfold state_tag.
    assert (H : last_is "/" (("state id=""" ++ show_state s) ++ """") = false) by apply last_app.
    rewrite app_assoc_s in H. cbn [append] in *. unfold tag_of. rewrite H. reflexivity.
  Qed.
  Lemma tag_of_root i : tag_of (root_tag i) = Opens "scxml".
  Proof.
    unfold root_tag.
    set (a := "scxml xmlns=""http://www.w3.org/2005/07/scxml""  version=""1.0"" initial=""").
    assert (H : last_is "/" ((a ++ show_state i) ++ """") = false) by apply last_app.
    rewrite app_assoc_s in H. unfold a in *. cbn [append] in *. unfold tag_of. rewrite H. reflexivity.
  Qed.

  Lemma nests_states m l : (forall s, In s l -> leaving m s = []) ->
    nests ["scxml"] true (map tag_of (flat_map (tags_of_state m) l ++ ["/scxml"])) = true.
  Proof.
    induction l as [|s l IH]; intros H; [reflexivity|].
    cbn [flat_map]. unfold tags_of_state at 1. rewrite (H s) by (left; reflexivity).
    cbn [flat_map app map]. rewrite tag_of_state. cbn [nests].
    change (tag_of "/state") with (Closes "state"). cbn [nests].
    rewrite String.eqb_refl. cbn [andb]. apply IH. intros; apply H; right; assumption.
  Qed.
  Lemma nests_states_bad m l : (exists s, In s l /\ leaving m s <> []) ->
    nests ["scxml"] true (map tag_of (flat_map (tags_of_state m) l ++ ["/scxml"])) = false.
  Proof.
    induction l as [|s l IH]; intros [s' [Hi Hs]]; [destruct Hi|].
    cbn [flat_map]. unfold tags_of_state at 1.
    destruct (leaving m s) as [|e es] eqn:E.
    - destruct Hi as [->|Hi]; [contradiction|].
      cbn [flat_map app map]. rewrite tag_of_state. cbn [nests].
      change (tag_of "/state") with (Closes "state"). cbn [nests].
      rewrite String.eqb_refl. cbn [andb]. apply IH. exists s'. auto.
    - cbn [flat_map app map]. rewrite tag_of_state, tag_of_transition.
      change (tag_of "/transition") with (Closes "transition"). reflexivity.
  Qed.

  (** The text is XML only for machines without transitions: each transition is closed twice. *)
  Theorem scxml_well_formed (m : machine) (i : N) : plain_machine m ->
    (forall e, In e (sm_edges m) -> In (fst (fst e)) (sm_states m)) ->
    xml_ok (scxml_text L show_state show_label m i) = true <-> sm_edges m = [].
  Proof.
    intros Hm He. unfold xml_ok. rewrite scxml_tags by assumption.
    cbn [map]. rewrite tag_of_root. change (tag_of "?xml version=""1.0"" encoding=""UTF-8""?") with Declares.
    cbn [nests]. fold (tags_of_state m). split.
    - intros H. destruct (sm_edges m) as [|e es] eqn:E; [reflexivity|exfalso].
      change (nests ["scxml"] true (map tag_of (flat_map (tags_of_state m) (sm_states m) ++ ["/scxml"])) = true) in H.
      rewrite nests_states_bad in H; [discriminate|].
      exists (fst (fst e)). split; [apply He; left; reflexivity|].
      unfold leaving. rewrite E. cbn [filter]. rewrite N.eqb_refl. discriminate.
    - intros H.
      change (nests ["scxml"] true (map tag_of (flat_map (tags_of_state m) (sm_states m) ++ ["/scxml"])) = true).
      apply nests_states. intros s _. unfold leaving. rewrite H. reflexivity.
  Qed.

  (** If calling [states.initial] gave a list of its elements, then the text would be returned
      exactly for the machines with one initial state, with that state. *)
  Theorem scxml_initial (m : machine) (call : list N -> res (list N)) (t : string) :
    call (sm_initial m) = Ok (sm_initial m) ->
    mealy2scxml_with L show_state show_label call m = Ok t <->
    exists i, sm_initial m = [i] /\ t = scxml_text L show_state show_label m i.
  Proof.
    intros Hc. unfold mealy2scxml_with. rewrite Hc.
    destruct (sm_initial m) as [|i [|j l]]; cbn.
    - split; [discriminate|intros [i [H _]]; discriminate].
    - split; [intros H; injection H as <-; exists i; auto|].
      intros [k [H ->]]. injection H as ->. reflexivity.
    - split; [discriminate|intros [k [H _]]; discriminate].
  Qed.

  (** The code as it is never returns a text: sets cannot be called. *)
  Theorem mealy2scxml_refuted (m : machine) : mealy2scxml L show_state show_label m = Err "TypeError".
  Proof. unfold mealy2scxml, mealy2scxml_with, subset_call. destruct (negb _); reflexivity. Qed.

  (** So saving a machine writes no file: it raises, or says that the format is another one. *)
  Theorem mealy_save_refuted (m : machine) (f : string) :
    snd (mealy_save L show_state show_label m f) = None /\
    (fst (mealy_save L show_state show_label m f) = Err "TypeError" <-> f = "scxml") /\
    (fst (mealy_save L show_state show_label m f) = Ok false <-> f <> "scxml").
  Proof.
    unfold mealy_save. destruct (String.eqb_spec f "scxml") as [->|H]; cbn [negb].
    - rewrite mealy2scxml_refuted. repeat split; try discriminate; try reflexivity. intros H. contradiction.
    - repeat split; try discriminate; try reflexivity; intros; try contradiction; assumption.
  Qed.
End S.

(** A machine of one transition and a machine of none; labels are printed as dictionaries. *)
Definition ex_show (n : N) : string := if N.eqb n 0 then "s0" else "s1".
Definition ex_label (b : bool) : string := if b then "{'req': True}" else "{'req': False}".
Definition ex_m : machine bool := Machine [0%N; 1%N] [(0%N, 1%N, true)] [0%N].
Definition ex_m0 : machine bool := Machine [0%N; 1%N] [] [1%N].
Example ex_plain : plain_machine bool ex_show ex_label ex_m.
Proof.
  split.
  - intros s. unfold ex_show. destruct (N.eqb s 0); reflexivity.
  - intros [[u v] []] _; reflexivity.
Qed.
Example ex_text0 : xml_ok (scxml_text bool ex_show ex_label ex_m0 1%N) = true.
Proof. vm_compute. reflexivity. Qed.
Example ex_tags : tags_of (scxml_text bool ex_show ex_label ex_m 0%N) =
  Some ["?xml version=""1.0"" encoding=""UTF-8""?";
        "scxml xmlns=""http://www.w3.org/2005/07/scxml""  version=""1.0"" initial=""s0""";
        "state id=""s0""";
        transition_tag bool ex_show ex_label (0%N, 1%N, true); "/transition"; "/state";
        "state id=""s1"""; "/state"; "/scxml"].
Proof. vm_compute. reflexivity. Qed.
Example ex_initial : mealy2scxml_with bool ex_show ex_label (fun l => Ok l) ex_m0 =
  Ok (scxml_text bool ex_show ex_label ex_m0 1%N).
Proof. reflexivity. Qed.

(** A machine whose document is not XML although sets could be called: one transition. *)
Theorem scxml_transition_refuted :
  exists (m : machine bool) (t : string),
    plain_machine bool ex_show ex_label m /\
    mealy2scxml_with bool ex_show ex_label (fun l => Ok l) m = Ok t /\ xml_ok t = false.
Proof.
  exists ex_m. eexists. split; [apply ex_plain|]. split; [reflexivity|vm_compute; reflexivity].
Qed.

(** Names are not escaped: a state named [a<b] gives a text that is not XML, without any
    transition. *)
Theorem scxml_escape_refuted :
  exists (m : machine bool) (show : N -> string) (t : string),
    sm_edges m = [] /\
    mealy2scxml_with bool show ex_label (fun l => Ok l) m = Ok t /\ xml_ok t = false.
Proof.
  exists (Machine [0%N] [] [0%N]), (fun _ => "a<b"). eexists.
  split; [reflexivity|]. split; [reflexivity|vm_compute; reflexivity].
Qed.

Print Assumptions scxml_tags.
Print Assumptions scxml_well_formed.
Print Assumptions scxml_initial.
Print Assumptions mealy2scxml_refuted.
Print Assumptions mealy_save_refuted.
Print Assumptions scxml_transition_refuted.
Print Assumptions scxml_escape_refuted.
