(** C12: substituting formulas for Boolean variables. *)
From Coq Require Import List String Bool ZArith.
From Verif Require Import M_Base M_Ast M_Parser M_Spec M_Form M_Tree.
From Verif Require Import S_LTL S_Gr1 S_Form S_Syntax S_Tree.
From Verif Require Import L_Gr1 L_Tree L_Subst.
Import ListNotations.
Open Scope string_scope.

(** The graph rewriting of sub_bool_with_subtree and Tree.add_subtree, which shares the objects
    of the definitions, yields the substituted formula.  The objects of the formula and of the
    definitions are different, as they come from different calls of the parser. *)
Theorem sub_bool_is_substitution : forall t m, NoDup (robjs t) ->
  (forall v u, lookup v m = Some u -> NoDup (robjs u)) ->
  (forall v u, lookup v m = Some u -> forall o, In o (robjs t) -> In o (robjs u) -> False) ->
  (forall v u w x, lookup v m = Some u -> lookup w m = Some x -> v <> w ->
    forall o, In o (robjs u) -> In o (robjs x) -> False) ->
  exists g', sub_bool_with_subtree (from_recursive_ast t)
               (map (fun p => (fst p, from_recursive_ast (snd p))) m) = Ok g' /\
    to_recursive_ast (tree_fuel t m) g' = Ok (subst (fun x => option_map erase (lookup x m)) (erase t)).
Proof. exact sub_bool_tree. Qed.
Print Assumptions sub_bool_is_substitution.

(** Converting a tree to a graph and back is the identity. *)
Theorem tree_round_trip : forall t n, NoDup (robjs t) -> List.length (robjs t) <= n ->
  to_recursive_ast n (from_recursive_ast t) = Ok (erase t).
Proof.
  intros t n N L. destruct (from_rec_ok t) as (R & E1 & _ & E2 & _).
  unfold to_recursive_ast. rewrite R. apply to_rec_ok.
  - split; [exact E1|]. intros u U e. rewrite E2. apply edges_kids; auto.
  - pose proof (rdepth_le t). eapply PeanoNat.Nat.le_trans; eauto.
Qed.
Print Assumptions tree_round_trip.

(** Substitution means evaluating the formula with the replaced variables redefined. *)
Theorem subst_meaning : forall d s s', defines d s s' -> forall t, bool_only d t ->
  forall i, holds s' i t <-> holds s i (subst d t).
Proof. exact subst_meaning_ok. Qed.
Print Assumptions subst_meaning.

(** replace_dependent_vars on a whole specification. *)
Theorem replace_meaning : forall g m g' A G, replace_dependent_vars g m = Ok g' ->
  env_part g = Some A -> sys_part g = Some G ->
  (forall t, In t (part_formulas A ++ part_formulas G)%list -> no_str t = true /\ bool_only (defs_of m) t) ->
  (forall v f, defs_of m v = Some f -> no_str f = true) ->
  exists A' G', env_part g' = Some A' /\ sys_part g' = Some G' /\
    forall s s', defines (defs_of m) s s' ->
      (sat_part s A' <-> sat_part s' A) /\ (sat_part s G' <-> sat_part s' G).
Proof. exact replace_meaning_ok. Qed.
Print Assumptions replace_meaning.

Theorem replace_total : forall g m,
  (forall y, In y (clauses g) -> exists t, clause_ok g y t /\ plain_ops t = true /\ bool_only (defs_of m) t) ->
  (forall b f, In (b, f) m -> (exists t, parse f = Some t /\ plain_ops t = true) /\
     forall d, lookup b (vardoms g) = Some d -> d = DBool) ->
  exists g', replace_dependent_vars g m = Ok g'.
Proof. exact replace_total_ok. Qed.
Print Assumptions replace_total.

(** The redefined trace exists for definitions without unbounded temporal operators. *)
Theorem redefinition_exists : forall d s, (forall x f, d x = Some f -> step_formula f = true) ->
  exists s', defines d s s'.
Proof. exact defines_exists. Qed.
Print Assumptions redefinition_exists.

(** Non-trivial case: two variables swapped, one definition mentioning the variable it defines. *)
Definition ex_replace : grspec :=
  spec_of [("a", DBool)] [("b", DBool); ("x", DInt 0%Z 3%Z)] ["a"] ["b & a"] [] ["a & x = 1 -> X(b & a)"] [] ["b"].
Example replace_case :
  (exists g', replace_dependent_vars ex_replace [("a", "b -> ! a"); ("b", "a")] = Ok g' /\
    sys_safety g' = ["( ( ( b -> ( ! a ) ) & ( x = 1 ) ) -> ( X ( a & ( b -> ( ! a ) ) ) ) )"] /\
    sys_prog g' = ["a"]) /\
  (exists A G, env_part ex_replace = Some A /\ sys_part ex_replace = Some G /\
    forall t, In t (part_formulas A ++ part_formulas G)%list ->
      no_str t = true /\ bool_only (defs_of [("a", "b -> ! a"); ("b", "a")]) t).
Proof.
  split.
  - eexists. split; [vm_compute; reflexivity|]. split; reflexivity.
  - eexists. eexists. split; [vm_compute; reflexivity|]. split; [vm_compute; reflexivity|].
    intros t H. cbn in H.
    repeat (destruct H as [<-|H]; [split; [reflexivity|]; intros x X; cbn in X;
      repeat (destruct X as [<-|X]; [reflexivity|]); contradiction|]). contradiction.
Qed.

(** The condition on string constants is needed: their quotes are dropped, so a replaced clause
    mentions an undeclared variable and the specification is rejected from then on. *)
Theorem replace_strings_refuted : exists g m g',
  replace_dependent_vars g m = Ok g' /\ check_syntax g = Ok tt /\ check_syntax g' = Err "ValueError".
Proof.
  exists (spec_of [] [("b", DBool); ("x", DEnum ["red"; "blue"])] [] ["b -> x = ""red"""] [] [] [] []), [("b", "! b")].
  eexists. split; [vm_compute; reflexivity|]. split; vm_compute; reflexivity.
Qed.
Print Assumptions replace_strings_refuted.

(** The condition on comparisons is needed: a variable compared to another one is replaced by a
    formula in the place of a term, and the printed clause parses to something else. *)
Theorem replace_comparison_refuted : exists g m g' x x' t t',
  replace_dependent_vars g m = Ok g' /\ sys_init g = [x] /\ sys_init g' = [x'] /\
  parse x = Some t /\ parse x' = Some t' /\
  exists s s', defines (defs_of m) s s' /\ holds s' 0 t /\ ~ holds s 0 t'.
Proof.
  exists (spec_of [] [("b", DBool); ("c", DBool); ("d", DBool)] [] ["b = c"] [] [] [] []), [("b", "d & d")].
  do 5 eexists. split; [vm_compute; reflexivity|]. split; [reflexivity|]. split; [reflexivity|].
  split; [vm_compute; reflexivity|]. split; [vm_compute; reflexivity|].
  exists (fun _ _ => VB true), (fun _ _ => VB true). split; [|split].
  - intros i x. unfold defs_of. cbn [find fst]. destruct ("b" =? x)%string; [|reflexivity]. vm_compute. tauto.
  - vm_compute. reflexivity.
  - vm_compute. tauto.
Qed.
Print Assumptions replace_comparison_refuted.
