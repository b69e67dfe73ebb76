(** C08-C11: the operations of GRSpec, tulip/spec/form.py. *)
From Coq Require Import List String Bool ZArith.
From Verif Require Import M_Base M_Ast M_Parser M_Spec M_Form.
From Verif Require Import S_LTL S_Gr1 S_Form.
From Verif Require Import L_Gr1 L_Form.
Import ListNotations.
Open Scope string_scope.

(** C08.  The text of to_canon parses, and means that the assumption implies the guarantee. *)
Theorem to_canon_meaning : forall g A G,
  (forall x, In x (env_init g ++ sys_init g ++ env_safety g ++ sys_safety g
                   ++ env_prog g ++ sys_prog g)%list -> no_comment x) ->
  env_part g = Some A -> sys_part g = Some G ->
  exists t, parse (to_canon g) = Some t /\
    forall s, holds s 0 t <-> (sat_part s A -> sat_part s G).
Proof. exact to_canon_ok. Qed.
Print Assumptions to_canon_meaning.

Definition ex_spec : grspec :=
  spec_of [("a", DBool)] [("b", DBool); ("x", DInt 0 3)]
    ["a"] ["b || x = 1"] ["a -> X a"] [] ["a <-> b"] ["b -> x = 2"; "!b"].
Example to_canon_case : exists A G,
  env_part ex_spec = Some A /\ sys_part ex_spec = Some G /\
  (forall x, In x (env_init ex_spec ++ sys_init ex_spec ++ env_safety ex_spec ++ sys_safety ex_spec
                   ++ env_prog ex_spec ++ sys_prog ex_spec)%list -> no_comment x) /\
  to_canon ex_spec =
  "((a) && [](a -> X a) && []<>(a <-> b)) -> ((b || x = 1) && []<>(b -> x = 2) && []<>(!b))".
Proof.
  eexists. eexists. split; [vm_compute; reflexivity|]. split; [vm_compute; reflexivity|].
  split; [|vm_compute; reflexivity].
  intros x Hx c Hc ->. cbn in Hx.
  repeat (destruct Hx as [<-|Hx]; [cbn in Hc; repeat (destruct Hc as [Hc|Hc]; [discriminate|]); contradiction|]).
  contradiction.
Qed.

(** Without the condition on comments the statement is false: the clause parses, the glued text
    does not. *)
Theorem to_canon_comment_refuted : exists g A G,
  env_part g = Some A /\ sys_part g = Some G /\ parse (to_canon g) = None.
Proof.
  exists (spec_of [] [("b", DBool)] [] ["b # start"] [] [] [] []). eexists. eexists.
  repeat split; vm_compute; reflexivity.
Qed.
Print Assumptions to_canon_comment_refuted.

(** C09.  The union of two specifications means both of them, player by player. *)
Theorem or_meaning : forall a b r A A' G G',
  spec_or a b = Ok r ->
  env_part a = Some A -> env_part b = Some A' -> sys_part a = Some G -> sys_part b = Some G' ->
  exists R S, env_part r = Some R /\ sys_part r = Some S /\
    (forall s, sat_part s R <-> sat_part s A /\ sat_part s A') /\
    (forall s, sat_part s S <-> sat_part s G /\ sat_part s G').
Proof.
  intros a b r A A' G G' H HA HA' HG HG'.
  apply or_inv in H. destruct H as (_ & _ & _ & _ & _ & _ & ->).
  exists (part_app A A'), (part_app G G').
  unfold env_part, sys_part in *. cbn [env_init sys_init env_safety sys_safety env_prog sys_prog].
  rewrite !parse_all_app.
  destruct (parse_all (env_init a)), (parse_all (env_safety a)), (parse_all (env_prog a)); try discriminate.
  destruct (parse_all (env_init b)), (parse_all (env_safety b)), (parse_all (env_prog b)); try discriminate.
  destruct (parse_all (sys_init a)), (parse_all (sys_safety a)), (parse_all (sys_prog a)); try discriminate.
  destruct (parse_all (sys_init b)), (parse_all (sys_safety b)), (parse_all (sys_prog b)); try discriminate.
  inversion HA; inversion HA'; inversion HG; inversion HG'; subst.
  split; [reflexivity|]. split; [reflexivity|]. split; intro s; apply sat_part_app.
Qed.
Print Assumptions or_meaning.

(** Its declarations are the union, and no declaration of an operand is changed. *)
Theorem or_variables : forall a b r,
  NoDup (map fst (env_vars b)) -> NoDup (map fst (sys_vars b)) ->
  spec_or a b = Ok r ->
  forall x d,
    (declared (env_vars r) x d <-> declared (env_vars a) x d \/ declared (env_vars b) x d) /\
    (declared (sys_vars r) x d <-> declared (sys_vars a) x d \/ declared (sys_vars b) x d).
Proof.
  intros a b r N1 N2 H x d. apply or_inv in H. destruct H as (_ & _ & _ & _ & M1 & M2 & ->).
  cbn [env_vars sys_vars]. rewrite !declared_lookup, !lookup_dupdate by auto.
  pose proof (proj1 (mismatch_false _ _) M1 x) as K1. pose proof (proj1 (mismatch_false _ _) M2 x) as K2.
  split.
  - destruct (lookup x (env_vars b)) eqn:E.
    + split; [auto|]. intros [H|H]; [|auto]. rewrite (K1 _ _ eq_refl H). reflexivity.
    + split; [auto|]. intros [H|H]; [auto|discriminate].
  - destruct (lookup x (sys_vars b)) eqn:E.
    + split; [auto|]. intros [H|H]; [|auto]. rewrite (K2 _ _ eq_refl H). reflexivity.
    + split; [auto|]. intros [H|H]; [auto|discriminate].
Qed.
Print Assumptions or_variables.

(** A variable with two domains on one side is reported, and nothing else is: the union
    succeeds exactly when the first operand is consistent, the options agree, and common
    variables of the same player have the same domain. *)
Theorem or_succeeds_iff : forall a b,
  (exists r, spec_or a b = Ok r) <->
  disjoint (env_vars a) (sys_vars a) /\
  moore a = moore b /\ plus_one a = plus_one b /\ qinit a = qinit b /\
  (forall x d d', declared (env_vars b) x d -> declared (env_vars a) x d' -> d = d') /\
  (forall x d d', declared (sys_vars b) x d -> declared (sys_vars a) x d' -> d = d').
Proof.
  intros a b. split.
  - intros [r H]. apply or_inv in H. destruct H as (D & H1 & H2 & H3 & M1 & M2 & _).
    repeat split; auto; intros x d d'; rewrite !declared_lookup; [apply (proj1 (mismatch_false _ _) M1)|apply (proj1 (mismatch_false _ _) M2)].
  - intros (D & H1 & H2 & H3 & M1 & M2). unfold spec_or. rewrite copy_ok by auto. cbn [bind].
    rewrite H1, H2, H3, !Bool.eqb_reflx, String.eqb_refl. cbn [negb].
    rewrite (proj2 (mismatch_false (env_vars b) (env_vars a))).
    2:{ intros x d d' K1 K2. apply (M1 x); apply declared_lookup; auto. }
    rewrite (proj2 (mismatch_false (sys_vars b) (sys_vars a))).
    2:{ intros x d d' K1 K2. apply (M2 x); apply declared_lookup; auto. }
    eauto.
Qed.
Print Assumptions or_succeeds_iff.

(** The full claim asks that a variable with two roles is reported as well; it is not.  The
    result then cannot even be copied. *)
Theorem or_roles_refuted : exists a b r x,
  disjoint (env_vars a) (sys_vars a) /\ disjoint (env_vars b) (sys_vars b) /\
  spec_or a b = Ok r /\ is_declared (env_vars r) x /\ is_declared (sys_vars r) x /\
  copy r = Err "Exception".
Proof.
  exists (spec_of [("x", DBool)] [] [] [] [] [] [] []), (spec_of [] [("x", DBool)] [] [] [] [] [] []).
  eexists. exists "x".
  split; [intros y _ []|]. split; [intros y []|].
  split; [vm_compute; reflexivity|]. vm_compute. auto.
Qed.
Print Assumptions or_roles_refuted.

Example or_case : exists r, spec_or ex_spec (spec_of [] [("y", DBool); ("x", DInt 0 3)] [] ["y"] [] [] [] ["x = 0"]) = Ok r.
Proof. eexists. vm_compute. reflexivity. Qed.

(** C10.  A sequence of declare calls, some of which may raise (and be caught). *)
Definition call := (bool * list string * list (string * list pyval))%type.
Definition do_call (g : grspec) (c : call) : grspec :=
  let '(env, args, kw) := c in fst (declare g env args kw).

Lemma declare_cases : forall g env args kw g' r,
  declare g env args kw = (g', r) ->
  (r <> Ok tt -> g' = g) /\
  (NoDup (map fst kw) -> disjoint (env_vars g) (sys_vars g) ->
   disjoint (env_vars g') (sys_vars g') /\
   forall x d, (declared (env_vars g) x d -> declared (env_vars g') x d) /\
               (declared (sys_vars g) x d -> declared (sys_vars g') x d)).
Proof.
  intros g env args kw g' r H. unfold declare in H.
  destruct (decl_dict args kw) as [d|] eqn:E.
  2:{ inversion H; subst. split; auto. }
  destruct (check_decl (if env then env_vars g else sys_vars g) (if env then sys_vars g else env_vars g) d) eqn:C.
  2:{ inversion H; subst. split; auto. }
  inversion H; subst. split; [congruence|]. intros N D. cbn [env_vars sys_vars].
  pose proof (decl_dict_nodup _ _ _ N E) as Nd. pose proof (proj1 (check_decl_ok _ _ _) C) as K.
  assert (keep : forall t x v, (forall x v, In (x, v) d -> forall w, lookup x t = Some w -> w = v) ->
            lookup x t = Some v -> lookup x (dupdate t d) = Some v).
  { intros t x v Kt L. rewrite lookup_dupdate by auto. destruct (lookup x d) eqn:F; auto.
    f_equal. symmetry. eapply Kt; eauto. apply lookup_in; auto. }
  destruct env; split.
  - intros x H1 H2. apply dupdate_keys in H1. destruct H1 as [H1|H1]; [apply (D x); auto|].
    apply in_map_iff in H1. destruct H1 as ([k v] & <- & I). apply (proj1 (K k v I)). exact H2.
  - intros x v. rewrite !declared_lookup. split; auto. apply keep. intros; eapply K; eauto.
  - intros x H1 H2. apply dupdate_keys in H2. destruct H2 as [H2|H2]; [apply (D x); auto|].
    apply in_map_iff in H2. destruct H2 as ([k v] & <- & I). apply (proj1 (K k v I)). exact H1.
  - intros x v. rewrite !declared_lookup. split; auto. apply keep. intros; eapply K; eauto.
Qed.

Theorem declare_consistent : forall calls g,
  (forall env args kw, In (env, args, kw) calls -> NoDup (map fst kw)) ->
  disjoint (env_vars g) (sys_vars g) ->
  let g' := fold_left do_call calls g in
  disjoint (env_vars g') (sys_vars g') /\
  forall x d, (declared (env_vars g) x d -> declared (env_vars g') x d) /\
              (declared (sys_vars g) x d -> declared (sys_vars g') x d).
Proof.
  induction calls as [|[[env args] kw] calls IH]; intros g N D; cbn [fold_left].
  - split; auto.
  - destruct (declare g env args kw) as [g1 r] eqn:E.
    assert (Eg : do_call g (env, args, kw) = g1) by (unfold do_call; rewrite E; reflexivity).
    rewrite Eg. destruct (declare_cases _ _ _ _ _ _ E) as [_ K].
    destruct K as [D1 K1]; [eapply N; left; eauto|exact D|].
    destruct (IH g1) as [D2 K2]; [intros; eapply N; right; eauto|exact D1|].
    split; auto. intros x d. destruct (K1 x d), (K2 x d). auto.
Qed.
Print Assumptions declare_consistent.

(** A call that raises changes nothing. *)
Theorem declare_raises_unchanged : forall g env args kw g' e,
  declare g env args kw = (g', Err e) -> g' = g.
Proof. intros g env args kw g' e H. apply declare_cases in H. apply H. discriminate. Qed.
Print Assumptions declare_raises_unchanged.

(** A call that returns has declared the names, on the requested side. *)
Theorem declare_declares : forall g env args kw g',
  NoDup (map fst kw) -> declare g env args kw = (g', Ok tt) ->
  let D := if env then env_vars g' else sys_vars g' in
  (forall x, In x args -> declared D x DBool) /\
  (forall x v, In (x, v) kw -> ~ In x args -> exists d, declared_dom v = Ok d /\ declared D x d).
Proof.
  intros g env args kw g' N H. unfold declare in H.
  destruct (decl_dict args kw) as [d|] eqn:E; [|discriminate].
  destruct (check_decl (if env then env_vars g else sys_vars g) (if env then sys_vars g else env_vars g) d); [|discriminate].
  inversion H; subst. pose proof (decl_dict_nodup _ _ _ N E) as Nd.
  assert (P : forall t, (forall x, In x args -> declared (dupdate t d) x DBool) /\
    (forall x v, In (x, v) kw -> ~ In x args -> exists y, declared_dom v = Ok y /\ declared (dupdate t d) x y)).
  2:{ destruct env; apply P. }
  clear H. intro t.
  unfold decl_dict in E. destruct (mapr _ kw) as [e|] eqn:M; [|discriminate]. cbn [bind] in E.
  apply Ok_inj in E. subst d.
  assert (K : forall x v, In (x, v) kw -> exists y, declared_dom v = Ok y /\ In (x, y) e).
  { clear -M. revert e M. induction kw as [|[k w] kw IH]; intros e M x v I; [destruct I|].
    cbn [mapr fst snd] in M. destruct (declared_dom w) as [y|] eqn:W; [|discriminate]. cbn [bind] in M.
    destruct (mapr _ kw) eqn:M2; [|discriminate]. cbn [bind] in M. inversion M; subst.
    destruct I as [I|I].
    - inversion I; subst. exists y. split; auto. left; auto.
    - destruct (IH _ eq_refl x v I) as (z & Z1 & Z2). exists z. split; auto. right; auto. }
  assert (Ne : NoDup (map fst e)).
  { assert (F : map fst e = map fst kw).
    { clear -M. revert e M. induction kw as [|[k v] kw IH]; intros e E; cbn [mapr] in E.
      - inversion E. reflexivity.
      - cbn [fst snd] in E. destruct (declared_dom v); [|discriminate]. cbn [bind] in E.
        destruct (mapr _ kw) eqn:E2; [|discriminate]. cbn [bind] in E. inversion E; subst. cbn [map fst]. f_equal. apply IH; auto. }
    rewrite F; auto. }
  split.
  - intros x I. apply declared_lookup. rewrite lookup_dupdate by auto.
    rewrite (lookup_dupdate_some _ e x DBool); auto.
    + rewrite map_map. cbn [fst]. rewrite map_id. exact I.
    + intros w Hw. apply in_map_iff in Hw. destruct Hw as (z & Z & _). inversion Z; auto.
  - intros x v I Nx. destruct (K x v I) as (y & Y1 & Y2). exists y. split; auto.
    apply declared_lookup. rewrite lookup_dupdate by auto.
    rewrite lookup_dupdate_none.
    2:{ apply lookup_none_iff. rewrite map_map. cbn [fst]. rewrite map_id. exact Nx. }
    destruct (lookup x e) eqn:L.
    + f_equal. eapply nodup_unique; eauto. apply lookup_in; auto.
    + apply lookup_none_iff in L. exfalso. apply L. apply (in_map fst) in Y2. exact Y2.
Qed.
Print Assumptions declare_declares.

(** The premise on the starting object holds after construction. *)
Theorem new_spec_disjoint : forall ev sv ei si es ss ep sp mo po qi g,
  new_spec ev sv ei si es ss ep sp mo po qi = Ok g -> disjoint (env_vars g) (sys_vars g).
Proof.
  intros ev sv ei si es ss ep sp mo po qi g H. unfold new_spec in H.
  destruct (check_vars ev sv) as [[]|] eqn:E; [|discriminate]. cbn [bind] in H. apply Ok_inj in H. subst g.
  apply check_vars_ok. exact E.
Qed.
Print Assumptions new_spec_disjoint.

Example declare_case :
  declare (spec_of [("a", DBool)] [] [] [] [] [] [] []) false ["b"] [("x", [PInt 0; PInt 4]); ("s", [PStr "on"; PStr "off"])]
  = (spec_of [("a", DBool)] [("x", DInt 0 4); ("s", DEnum ["on"; "off"]); ("b", DBool)] [] [] [] [] [] [], Ok tt)
  /\ snd (declare (spec_of [("a", DBool)] [] [] [] [] [] [] []) false ["a"] []) = Err "AssertionError".
Proof. split; vm_compute; reflexivity. Qed.

(** C11.  Given that every clause parses, mentions declared variables only and has its constants
    under binary operators, check_syntax raises exactly when a variable is primed in an init
    clause or an assumed progress clause, or a system variable is primed in an environment safety
    clause. *)
Theorem check_syntax_decides : forall g,
  (forall y, In y (env_init g ++ sys_init g ++ env_safety g ++ sys_safety g
                   ++ env_prog g ++ sys_prog g)%list -> exists t, clause_ok g y t) ->
  (check_syntax g = Ok tt <->
   (forall x, In x (env_init g ++ sys_init g ++ env_prog g)%list -> no_primed_in x) /\
   (forall x, In x (env_safety g) -> no_primed_sys g x)) /\
  (check_syntax g = Ok tt \/ check_syntax g = Err "AssertionError").
Proof. exact check_syntax_ok. Qed.
Print Assumptions check_syntax_decides.

Example check_syntax_case : 
  check_syntax (spec_of [("a", DBool)] [("b", DBool)] ["a"] [] ["a -> X b"] [] [] []) = Err "AssertionError" /\
  check_syntax (spec_of [("a", DBool)] [("b", DBool)] ["a"] ["b"] ["a -> X a"] ["b -> X a"] ["a"] ["b"]) = Ok tt /\
  check_syntax (spec_of [("a", DBool)] [("b", DBool)] [] ["b'"] [] [] [] []) = Err "AssertionError".
Proof. repeat split; vm_compute; reflexivity. Qed.

(** The full claim includes the guaranteed progress clauses; they are never examined. *)
Theorem check_syntax_sys_prog_refuted : exists g x t v,
  In x (sys_prog g) /\ parse x = Some t /\ primed v t /\ check_syntax g = Ok tt.
Proof.
  exists (spec_of [("a", DBool)] [("b", DBool)] ["a"] [] [] [] [] ["X b"]), "X b".
  eexists. exists "b". split; [left; reflexivity|]. split; [vm_compute; reflexivity|].
  split; [|vm_compute; reflexivity]. eexists. split; constructor.
Qed.
Print Assumptions check_syntax_sys_prog_refuted.
