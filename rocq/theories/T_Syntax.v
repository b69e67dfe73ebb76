(** C14: printing a formula and parsing the text gives the formula back. *)
From Coq Require Import List String Ascii Bool.
From Verif Require Import M_Ast M_Lexer M_Parser S_Gr1 S_Syntax L_RoundTrip L_ParseWf.
Import ListNotations.
Open Scope string_scope.

(** Every well-formed tree with plain operators and without string constants prints, and its
    text parses to the same tree. *)
Theorem parse_of_flatten : forall t, wf_node t = true -> no_str t = true -> plain_ops t = true ->
  exists s, flatten t = Some s /\ parse s = Some t.
Proof.
  intros t Hw Hs Hp. apply (flatten_plain t Hw) in Hp. destruct Hp as [s Hs'].
  exists s. split; [assumption|]. eapply parse_flatten; eauto.
Qed.
Print Assumptions parse_of_flatten.

(** In terms of texts: printing what was parsed and parsing again changes nothing. *)
Theorem parse_flatten_parse : forall s t s', parse s = Some t -> no_str t = true ->
  flatten t = Some s' -> parse s' = Some t.
Proof. intros s t s' H Hs Hf. eapply parse_flatten; eauto using parse_wf. Qed.
Print Assumptions parse_flatten_parse.

(** Parsed trees are well formed, whatever the text. *)
Theorem parse_well_formed : forall s t, parse s = Some t -> wf_node t = true.
Proof. exact parse_wf. Qed.
Print Assumptions parse_well_formed.

(** Printing a parsed tree raises KeyError exactly when some operator is spelled [~], [=>],
    [<=>], [/=] or [=<]. *)
Theorem flatten_raises_iff : forall s t, parse s = Some t ->
  (flatten t = None <-> plain_ops t = false).
Proof.
  intros s t H. pose proof (flatten_plain t (parse_wf s t H)) as K.
  destruct (flatten t) as [x|], (plain_ops t); split; intro E; try discriminate; auto.
  - destruct K as [_ K]. discriminate (K (ex_intro _ x eq_refl)).
  - destruct K as [K _]. destruct (K eq_refl) as [y Hy]. discriminate.
Qed.
Print Assumptions flatten_raises_iff.

Example round_trip_case :
  let t := NBin "->" (NUn "G" (NUn "F" (NVar "p")))
             (NIte "ite" (NCmp "<=" (NArith "+" (NVar "x") (NNum "-3")) (NNum "10"))
                (NUn "X" (NVar "q")) (NBin "U" (NVar "a") (NUn "!" (NBool "False")))) in
  wf_node t = true /\ no_str t = true /\ plain_ops t = true /\
  flatten t = Some ("( ( G ( F p ) ) -> ( ite ( ( x + -3 ) <= 10 ), ( X q ), ( a U ( ! False ) ) ) )").
Proof. repeat split. Qed.

Example round_trip_text :
  parse "a && b || c -> [] x' = 2" =
    Some (NBin "->" (NBin "|" (NBin "&" (NVar "a") (NVar "b")) (NVar "c"))
                    (NUn "G" (NCmp "=" (NUn "X" (NVar "x")) (NNum "2")))).
Proof. reflexivity. Qed.

(** Without the condition on string constants the round trip fails: quotes are not printed. *)
Theorem round_trip_strings_refuted : exists s t s', parse s = Some t /\ flatten t = Some s' /\
  parse s' <> Some t.
Proof.
  exists "x = ""red""", (NCmp "=" (NVar "x") (NStr "red")), "( x = red )".
  split; [reflexivity|]. split; [reflexivity|]. vm_compute. discriminate.
Qed.
Print Assumptions round_trip_strings_refuted.

(** A formula the parser accepts but the printer rejects. *)
Theorem printing_raises_refuted : exists s t, parse s = Some t /\ flatten t = None.
Proof. exists "a => b", (NBin "=>" (NVar "a") (NVar "b")). split; reflexivity. Qed.
Print Assumptions printing_raises_refuted.
