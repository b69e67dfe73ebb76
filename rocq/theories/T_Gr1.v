(** C01-C05: the conversions of liveness formulas to GR(1).

    Each conversion takes formula texts [p], [q] and the name of an auxiliary variable.  The
    texts of the resulting specification are lexed and parsed by the modelled parser, so the
    theorems cover the parentheses and operators of the generated text.  The condition
    [no_comment] excludes texts with a '#', which would comment out the generated text. *)
From Coq Require Import List String Ascii Bool Arith Lia.
From Verif Require Import M_Base M_Ast M_Lexer M_Parser M_Spec M_Gr1 S_LTL S_Gr1.
From Verif Require Import L_LTL L_Gr1 L_Gr1Main.
Import ListNotations.
Open Scope string_scope.
Open Scope list_scope.

(** The generated specification [g] has no environment part and declares exactly [vs] and the
    auxiliary variable, as Booleans. *)
Definition declares (g : grspec) (vs : list string) (aux : string) : Prop :=
  no_env g /\ (forall x d, In (x, d) (sys_vars g) <-> d = DBool /\ In x (vs ++ [aux])).

(** C01.  Until, for arbitrary operands (uses the standard library's classical axioms). *)
Theorem until_to_gr1_equiv : forall p q aux P Q g,
  no_comment p -> no_comment q -> ident aux -> parse p = Some P -> parse q = Some Q ->
  until_to_gr1 p q aux = Ok g ->
  exists G, sys_part g = Some G /\ declares g (vars P ++ vars Q) aux /\
    forall s, (exists h, sat_part (upd s aux h) G) <-> holds s 0 (NBin "U" P Q).
Proof.
  intros p q aux P Q g Cp Cq Ia Hp Hq H.
  destruct (until_result p q aux P Q Cp Cq Ia Hp Hq g H) as (N & S1 & S2 & S3).
  exists (unt_part P Q aux). split; [assumption|]. split; [split; assumption|].
  apply until_equiv; auto using reflectable_classical.
Qed.
Print Assumptions until_to_gr1_equiv.

(** C01.  The same for operands without nested temporal operators, without axioms. *)
Theorem until_to_gr1_equiv_step : forall p q aux P Q g,
  no_comment p -> no_comment q -> ident aux -> parse p = Some P -> parse q = Some Q ->
  step_formula P = true -> step_formula Q = true ->
  until_to_gr1 p q aux = Ok g ->
  exists G, sys_part g = Some G /\ declares g (vars P ++ vars Q) aux /\
    forall s, (exists h, sat_part (upd s aux h) G) <-> holds s 0 (NBin "U" P Q).
Proof.
  intros p q aux P Q g Cp Cq Ia Hp Hq SP SQ H.
  destruct (until_result p q aux P Q Cp Cq Ia Hp Hq g H) as (N & S1 & S2 & S3).
  exists (unt_part P Q aux). split; [assumption|]. split; [split; assumption|].
  apply until_equiv; auto using reflectable_step.
Qed.
Print Assumptions until_to_gr1_equiv_step.

(** C01.  It raises exactly when the auxiliary name occurs in an operand. *)
Theorem until_to_gr1_total : forall p q aux P Q,
  no_comment p -> no_comment q -> ident aux -> parse p = Some P -> parse q = Some Q ->
  (In aux (vars P ++ vars Q) -> until_to_gr1 p q aux = Err "ValueError") /\
  (~ In aux (vars P ++ vars Q) -> exists g, until_to_gr1 p q aux = Ok g).
Proof. intros. eapply until_total; eauto. Qed.
Print Assumptions until_to_gr1_total.

Ltac nc := intros c Hc; simpl in Hc;
  repeat (destruct Hc as [<-|Hc]; [discriminate|]); contradiction.

(** The hypotheses are met, e.g., by [x < 3 & p] and [! q'], and the formula is satisfiable. *)
Example until_case : no_comment "x < 3 & p" /\ no_comment "! q'" /\ ident "aux" /\
  parse "x < 3 & p" = Some (NBin "&" (NCmp "<" (NVar "x") (NNum "3")) (NVar "p")) /\
  parse "! q'" = Some (NUn "!" (NUn "X" (NVar "q"))) /\
  (exists g, until_to_gr1 "x < 3 & p" "! q'" "aux" = Ok g).
Proof.
  split; [nc|]. split; [nc|]. split; [split; reflexivity|]. split; [reflexivity|].
  split; [reflexivity|]. eexists. vm_compute. reflexivity.
Qed.

(** A trace on which the until is true at step 2 only, and one on which it is false. *)
Definition tr_at (x : string) (k : nat) : trace := fun i y => VB (if y =? x then Nat.eqb i k else Nat.ltb i k).
Example until_true : holds (tr_at "q" 2) 0 (NBin "U" (NVar "p") (NVar "q")).
Proof.
  change (until (fun j => tr_at "q" 2 j "p" = VB true) (fun j => tr_at "q" 2 j "q" = VB true) 0).
  exists 2. split; [lia|]. split; [reflexivity|]. intros j Hj.
  destruct j as [|[|j]]; [reflexivity|reflexivity|lia].
Qed.
Example until_false : ~ holds (tr_at "q" 2) 3 (NBin "U" (NVar "p") (NVar "q")).
Proof.
  change (~ until (fun j => tr_at "q" 2 j "p" = VB true) (fun j => tr_at "q" 2 j "q" = VB true) 3).
  intros (k & A & B & _). unfold tr_at in B. simpl in B.
  destruct k as [|[|[|k]]]; try lia. discriminate.
Qed.

(** C02. *)
Theorem eventually_to_gr1_equiv : forall p aux P g,
  no_comment p -> ident aux -> parse p = Some P -> eventually_to_gr1 p aux = Ok g ->
  exists G, sys_part g = Some G /\ declares g (vars P) aux /\
    forall s, (exists h, sat_part (upd s aux h) G) <-> holds s 0 (NUn "F" P).
Proof.
  intros p aux P g Cp Ia Hp H.
  destruct (eventually_result p aux P Cp Ia Hp g H) as (N & S1 & S2 & S3).
  exists (ev_part P aux). split; [assumption|]. split; [split; assumption|].
  apply ev_equiv; auto using reflectable_classical.
Qed.
Print Assumptions eventually_to_gr1_equiv.

Theorem eventually_to_gr1_equiv_step : forall p aux P g,
  no_comment p -> ident aux -> parse p = Some P -> step_formula P = true ->
  eventually_to_gr1 p aux = Ok g ->
  exists G, sys_part g = Some G /\ declares g (vars P) aux /\
    forall s, (exists h, sat_part (upd s aux h) G) <-> holds s 0 (NUn "F" P).
Proof.
  intros p aux P g Cp Ia Hp SP H.
  destruct (eventually_result p aux P Cp Ia Hp g H) as (N & S1 & S2 & S3).
  exists (ev_part P aux). split; [assumption|]. split; [split; assumption|].
  apply ev_equiv; auto using reflectable_step.
Qed.
Print Assumptions eventually_to_gr1_equiv_step.

Theorem eventually_to_gr1_total : forall p aux P,
  no_comment p -> ident aux -> parse p = Some P ->
  (In aux (vars P) -> eventually_to_gr1 p aux = Err "ValueError") /\
  (~ In aux (vars P) -> exists g, eventually_to_gr1 p aux = Ok g).
Proof. intros. eapply eventually_total; eauto. Qed.
Print Assumptions eventually_to_gr1_total.

Example eventually_case : no_comment "p -> q" /\ ident "aux" /\
  parse "p -> q" = Some (NBin "->" (NVar "p") (NVar "q")) /\
  (exists g, eventually_to_gr1 "p -> q" "aux" = Ok g) /\
  eventually_to_gr1 "p -> aux" "aux" = Err "ValueError".
Proof.
  split; [nc|]. split; [split; reflexivity|]. split; [reflexivity|].
  split; [eexists|]; vm_compute; reflexivity.
Qed.

(** C03. *)
Theorem response_to_gr1_equiv : forall p q aux P Q g,
  no_comment p -> no_comment q -> ident aux -> parse p = Some P -> parse q = Some Q ->
  response_to_gr1 p q aux = Ok g ->
  exists G, sys_part g = Some G /\ declares g (vars P ++ vars Q) aux /\
    forall s, (exists h, sat_part (upd s aux h) G) <->
              holds s 0 (NUn "G" (NBin "->" P (NUn "F" Q))).
Proof.
  intros p q aux P Q g Cp Cq Ia Hp Hq H.
  destruct (response_result p q aux P Q Cp Cq Ia Hp Hq g H) as (N & S1 & S2 & S3).
  exists (resp_part P Q aux). split; [assumption|]. split; [split; assumption|].
  apply resp_equiv; auto using reflectable_classical.
Qed.
Print Assumptions response_to_gr1_equiv.

Theorem response_to_gr1_equiv_step : forall p q aux P Q g,
  no_comment p -> no_comment q -> ident aux -> parse p = Some P -> parse q = Some Q ->
  step_formula P = true -> step_formula Q = true ->
  response_to_gr1 p q aux = Ok g ->
  exists G, sys_part g = Some G /\ declares g (vars P ++ vars Q) aux /\
    forall s, (exists h, sat_part (upd s aux h) G) <->
              holds s 0 (NUn "G" (NBin "->" P (NUn "F" Q))).
Proof.
  intros p q aux P Q g Cp Cq Ia Hp Hq SP SQ H.
  destruct (response_result p q aux P Q Cp Cq Ia Hp Hq g H) as (N & S1 & S2 & S3).
  exists (resp_part P Q aux). split; [assumption|]. split; [split; assumption|].
  apply resp_equiv; auto using reflectable_step.
Qed.
Print Assumptions response_to_gr1_equiv_step.

Theorem response_to_gr1_total : forall p q aux P Q,
  no_comment p -> no_comment q -> ident aux -> parse p = Some P -> parse q = Some Q ->
  (In aux (vars P ++ vars Q) -> response_to_gr1 p q aux = Err "ValueError") /\
  (~ In aux (vars P ++ vars Q) -> exists g, response_to_gr1 p q aux = Ok g).
Proof. intros. eapply response_total; eauto. Qed.
Print Assumptions response_to_gr1_total.

Example response_case : no_comment "req" /\ no_comment "grant | x = 2" /\ ident "aux" /\
  parse "req" = Some (NVar "req") /\
  parse "grant | x = 2" = Some (NBin "|" (NVar "grant") (NCmp "=" (NVar "x") (NNum "2"))) /\
  (exists g, response_to_gr1 "req" "grant | x = 2" "aux" = Ok g).
Proof.
  split; [nc|]. split; [nc|]. split; [split; reflexivity|]. split; [reflexivity|].
  split; [reflexivity|]. eexists. vm_compute. reflexivity.
Qed.

(** C04.  Stability: over traces the conversion is an equivalence, provided the auxiliary
    variable may be chosen knowing the future. *)
Theorem stability_to_gr1_equiv : forall p aux P g,
  no_comment p -> ident aux -> parse p = Some P -> stability_to_gr1 p aux = Ok g ->
  exists G, sys_part g = Some G /\ declares g (vars P) aux /\
    forall s, (exists h, sat_part (upd s aux h) G) <-> holds s 0 (NUn "F" (NUn "G" P)).
Proof.
  intros p aux P g Cp Ia Hp H.
  destruct (stability_result p aux P Cp Ia Hp g H) as (N & S1 & S2 & S3).
  exists (stab_part P aux). split; [assumption|]. split; [split; assumption|].
  apply stab_equiv; auto using reflectable_classical.
Qed.
Print Assumptions stability_to_gr1_equiv.

Theorem stability_to_gr1_equiv_step : forall p aux P g,
  no_comment p -> ident aux -> parse p = Some P -> step_formula P = true ->
  stability_to_gr1 p aux = Ok g ->
  exists G, sys_part g = Some G /\ declares g (vars P) aux /\
    forall s, (exists h, sat_part (upd s aux h) G) <-> holds s 0 (NUn "F" (NUn "G" P)).
Proof.
  intros p aux P g Cp Ia Hp SP H.
  destruct (stability_result p aux P Cp Ia Hp g H) as (N & S1 & S2 & S3).
  exists (stab_part P aux). split; [assumption|]. split; [split; assumption|].
  apply stab_equiv; auto using reflectable_step.
Qed.
Print Assumptions stability_to_gr1_equiv_step.

Theorem stability_to_gr1_total : forall p aux P,
  no_comment p -> ident aux -> parse p = Some P ->
  (In aux (vars P) -> stability_to_gr1 p aux = Err "ValueError") /\
  (~ In aux (vars P) -> exists g, stability_to_gr1 p aux = Ok g).
Proof. intros. eapply stability_total; eauto. Qed.
Print Assumptions stability_to_gr1_total.

Example stability_case : no_comment "p" /\ ident "aux" /\ parse "p" = Some (NVar "p") /\
  (exists g, stability_to_gr1 "p" "aux" = Ok g).
Proof.
  split; [nc|]. split; [split; reflexivity|]. split; [reflexivity|].
  eexists; vm_compute; reflexivity.
Qed.

(** C05.  Causality: for operands about the current state, one function of the states seen so far
    chooses the auxiliary variable correctly on every trace that satisfies the formula. *)
Theorem until_to_gr1_causal : forall p q aux P Q g,
  no_comment p -> no_comment q -> ident aux -> parse p = Some P -> parse q = Some Q ->
  now_formula P = true -> now_formula Q = true ->
  until_to_gr1 p q aux = Ok g ->
  exists G, sys_part g = Some G /\
  exists F : list state -> bool, forall s, holds s 0 (NBin "U" P Q) ->
    sat_part (upd s aux (fun i => F (prefix s i))) G.
Proof.
  intros p q aux P Q g Cp Cq Ia Hp Hq SP SQ H.
  destruct (until_result p q aux P Q Cp Cq Ia Hp Hq g H) as (N & S1 & S2 & S3).
  exists (unt_part P Q aux). split; [assumption|]. apply until_causal; auto.
Qed.
Print Assumptions until_to_gr1_causal.

Theorem eventually_to_gr1_causal : forall p aux P g,
  no_comment p -> ident aux -> parse p = Some P -> now_formula P = true ->
  eventually_to_gr1 p aux = Ok g ->
  exists G, sys_part g = Some G /\
  exists F : list state -> bool, forall s, holds s 0 (NUn "F" P) ->
    sat_part (upd s aux (fun i => F (prefix s i))) G.
Proof.
  intros p aux P g Cp Ia Hp SP H.
  destruct (eventually_result p aux P Cp Ia Hp g H) as (N & S1 & S2 & S3).
  exists (ev_part P aux). split; [assumption|]. apply ev_causal; auto.
Qed.
Print Assumptions eventually_to_gr1_causal.

Theorem response_to_gr1_causal : forall p q aux P Q g,
  no_comment p -> no_comment q -> ident aux -> parse p = Some P -> parse q = Some Q ->
  now_formula P = true -> now_formula Q = true ->
  response_to_gr1 p q aux = Ok g ->
  exists G, sys_part g = Some G /\
  exists F : list state -> bool, forall s, holds s 0 (NUn "G" (NBin "->" P (NUn "F" Q))) ->
    sat_part (upd s aux (fun i => F (prefix s i))) G.
Proof.
  intros p q aux P Q g Cp Cq Ia Hp Hq SP SQ H.
  destruct (response_result p q aux P Q Cp Cq Ia Hp Hq g H) as (N & S1 & S2 & S3).
  exists (resp_part P Q aux). split; [assumption|]. apply resp_causal; auto.
Qed.
Print Assumptions response_to_gr1_causal.

(** C05.  For stability no causal choice exists, already for a single variable: the conversion is
    sound but not complete for synthesis, as the docstring warns. *)
Theorem stability_to_gr1_not_causal : forall x aux g,
  ident x -> ident aux -> x <> aux -> stability_to_gr1 x aux = Ok g ->
  exists G, sys_part g = Some G /\
  ~ exists F : list state -> bool, forall s, holds s 0 (NUn "F" (NUn "G" (NVar x))) ->
    sat_part (upd s aux (fun i => F (prefix s i))) G.
Proof.
  intros x aux g Ix Ia N H.
  assert (C : no_comment x) by (apply no_comment_nohash, ident_nohash; assumption).
  assert (Hp : parse x = Some (NVar x)).
  { unfold parse. rewrite (ident_lex x Ix). reflexivity. }
  destruct (stability_result x aux (NVar x) C Ia Hp g H) as (N' & S1 & S2 & S3).
  exists (stab_part (NVar x) aux). split; [assumption|]. apply stab_not_causal; assumption.
Qed.
Print Assumptions stability_to_gr1_not_causal.

Example causal_case : now_formula (NBin "&" (NCmp "<" (NVar "x") (NNum "3")) (NVar "p")) = true
  /\ (exists g, until_to_gr1 "x < 3 & p" "q" "aux" = Ok g)
  /\ (exists g, stability_to_gr1 "p" "aux" = Ok g).
Proof. split; [reflexivity|]. split; eexists; vm_compute; reflexivity. Qed.
