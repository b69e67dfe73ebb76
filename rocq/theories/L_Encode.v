(** Proofs: integer encoding of string constants. *)
From Coq Require Import List String Bool Arith ZArith Lia.
From Verif Require Import M_Base M_Ast M_Parser M_Spec M_Form M_Tree.
From Verif Require Import S_LTL S_Gr1 S_Form S_Syntax S_Tree.
From Verif Require Import L_LTL L_Gr1 L_Form L_Split L_RoundTrip L_ParseWf L_Tree L_Subst L_Dec.
Import ListNotations.
Open Scope string_scope.
Open Scope list_scope.

(** * The edges in order *)
Fixpoint pre_edges (t : rast) : list edge :=
  match t with
  | RTerm _ _ => []
  | RUn _ _ a => (robj t, robj a, 0) :: pre_edges a
  | RBin _ _ _ a b => (robj t, robj a, 0) :: pre_edges a ++ (robj t, robj b, 1) :: pre_edges b
  | RIte _ _ a b c =>
      (robj t, robj a, 0) :: pre_edges a ++ (robj t, robj b, 1) :: pre_edges b
        ++ (robj t, robj c, 2) :: pre_edges c
  end.
Lemma robjs_cons t : robjs t = robj t :: tl (robjs t).
Proof. destruct t; reflexivity. Qed.
Lemma pre_edges_dst t : map dst (pre_edges t) = tl (robjs t).
Proof.
  induction t; cbn [pre_edges robjs tl map]; auto.
  - rewrite IHt. cbn [dst fst snd]. rewrite <- robjs_cons. reflexivity.
  - rewrite map_app. cbn [map dst fst snd]. rewrite IHt1, IHt2, <- robjs_cons.
    rewrite (robjs_cons t1) at 2. reflexivity.
  - rewrite map_app. cbn [map dst fst snd]. rewrite map_app. cbn [map dst fst snd]. rewrite IHt1, IHt2, IHt3, <- robjs_cons.
    rewrite (robjs_cons t1) at 2. rewrite (robjs_cons t2) at 2. reflexivity.
Qed.
Lemma pre_edges_nodup t : NoDup (robjs t) -> NoDup (pre_edges t).
Proof.
  intro N. apply (NoDup_map_inv dst). rewrite pre_edges_dst. rewrite robjs_cons in N. apply NoDup_cons_iff in N. apply N.
Qed.
Lemma add_edge_new u v k g : ~ In (u, v, k) (g_edges g) -> g_edges (add_edge u v k g) = g_edges g ++ [(u, v, k)].
Proof.
  intro H. unfold add_edge. destruct (in_dec _ _ _) as [I|I]; cbn [g_edges]; rewrite !add_node_edges in *; [contradiction|auto].
Qed.
Lemma recurse_edges t : forall g, NoDup (g_edges g ++ pre_edges t) -> g_edges (recurse t g) = g_edges g ++ pre_edges t.
Proof.
  induction t; intros g N; cbn [recurse pre_edges] in *.
  - rewrite add_node_edges, app_nil_r. auto.
  - assert (E : g_edges (add_edge (robj (RUn i op t)) (robj t) 0 g) = g_edges g ++ [(robj (RUn i op t), robj t, 0)]).
    { apply add_edge_new. apply NoDup_remove_2 in N. rewrite in_app_iff in N. tauto. }
    rewrite IHt; rewrite E, <- app_assoc; auto.
  - set (u := robj (RBin i k op t1 t2)) in *.
    assert (E : g_edges (add_edge u (robj t1) 0 g) = g_edges g ++ [(u, robj t1, 0)]).
    { apply add_edge_new. apply NoDup_remove_2 in N. rewrite in_app_iff in N. tauto. }
    assert (N1 : NoDup ((g_edges g ++ [(u, robj t1, 0)]) ++ pre_edges t1)).
    { rewrite <- app_assoc. cbn [app]. change (g_edges g ++ (u, robj t1, 0) :: pre_edges t1 ++ (u, robj t2, 1) :: pre_edges t2)
        with (g_edges g ++ ((u, robj t1, 0) :: pre_edges t1) ++ (u, robj t2, 1) :: pre_edges t2) in N.
      rewrite app_assoc in N. apply NoDup_app_iff in N. apply N. }
    pose proof (IHt1 (add_edge u (robj t1) 0 g)) as E1. rewrite E in E1. specialize (E1 N1).
    set (g2 := recurse t1 (add_edge u (robj t1) 0 g)) in *.
    rewrite <- app_assoc in E1. cbn [app] in E1.
    assert (E2 : g_edges (add_edge u (robj t2) 1 g2) = g_edges g2 ++ [(u, robj t2, 1)]).
    { apply add_edge_new. rewrite E1.
      change (g_edges g ++ (u, robj t1, 0) :: pre_edges t1 ++ (u, robj t2, 1) :: pre_edges t2)
        with (g_edges g ++ ((u, robj t1, 0) :: pre_edges t1) ++ (u, robj t2, 1) :: pre_edges t2) in N.
      rewrite app_assoc in N. apply NoDup_remove_2 in N. rewrite in_app_iff in N. tauto. }
    rewrite IHt2; rewrite E2, E1, <- !app_assoc; cbn [app]; rewrite <- ?app_assoc; auto.
  - set (u := robj (RIte i op t1 t2 t3)) in *.
    assert (E : g_edges (add_edge u (robj t1) 0 g) = g_edges g ++ [(u, robj t1, 0)]).
    { apply add_edge_new. apply NoDup_remove_2 in N. rewrite in_app_iff in N. tauto. }
    change (g_edges g ++ (u, robj t1, 0) :: pre_edges t1 ++ (u, robj t2, 1) :: pre_edges t2 ++ (u, robj t3, 2) :: pre_edges t3)
        with (g_edges g ++ ((u, robj t1, 0) :: pre_edges t1) ++ (u, robj t2, 1) :: pre_edges t2 ++ (u, robj t3, 2) :: pre_edges t3) in N.
    assert (N1 : NoDup ((g_edges g ++ [(u, robj t1, 0)]) ++ pre_edges t1)).
    { rewrite <- app_assoc. cbn [app]. rewrite app_assoc in N. apply NoDup_app_iff in N. apply N. }
    pose proof (IHt1 (add_edge u (robj t1) 0 g)) as E1. rewrite E in E1. specialize (E1 N1).
    set (g2 := recurse t1 (add_edge u (robj t1) 0 g)) in *.
    rewrite <- app_assoc in E1. cbn [app] in E1.
    rewrite app_assoc in N. fold (g_edges g ++ (u, robj t1, 0) :: pre_edges t1) in N.
    assert (E2 : g_edges (add_edge u (robj t2) 1 g2) = g_edges g2 ++ [(u, robj t2, 1)]).
    { apply add_edge_new. rewrite E1. apply NoDup_remove_2 in N. rewrite in_app_iff in N. tauto. }
    set (g3 := add_edge u (robj t2) 1 g2) in *.
    assert (N2 : NoDup (g_edges g3 ++ pre_edges t2)).
    { rewrite E2, E1, <- app_assoc. cbn [app].
      change ((g_edges g ++ (u, robj t1, 0) :: pre_edges t1) ++ (u, robj t2, 1) :: pre_edges t2 ++ (u, robj t3, 2) :: pre_edges t3)
        with ((g_edges g ++ (u, robj t1, 0) :: pre_edges t1) ++ ((u, robj t2, 1) :: pre_edges t2) ++ (u, robj t3, 2) :: pre_edges t3) in N.
      rewrite app_assoc in N. apply NoDup_app_iff in N. apply N. }
    pose proof (IHt2 g3 N2) as E3. set (g4 := recurse t2 g3) in *.
    assert (E4 : g_edges (add_edge u (robj t3) 2 g4) = g_edges g4 ++ [(u, robj t3, 2)]).
    { apply add_edge_new. rewrite E3, E2, E1.
      change ((g_edges g ++ (u, robj t1, 0) :: pre_edges t1) ++ (u, robj t2, 1) :: pre_edges t2 ++ (u, robj t3, 2) :: pre_edges t3)
        with ((g_edges g ++ (u, robj t1, 0) :: pre_edges t1) ++ ((u, robj t2, 1) :: pre_edges t2) ++ (u, robj t3, 2) :: pre_edges t3) in N.
      rewrite app_assoc in N. apply NoDup_remove_2 in N. repeat rewrite ?in_app_iff in *. cbn [In] in *. repeat rewrite ?in_app_iff in *. cbn [In] in *. tauto. }
    rewrite IHt3; rewrite E4, E3, E2, E1; repeat (rewrite <- app_assoc in N || cbn [app] in N);
      repeat (rewrite <- app_assoc || cbn [app]); auto.
Qed.
Lemma from_rec_edges t : NoDup (robjs t) -> g_edges (from_recursive_ast t) = pre_edges t.
Proof.
  intro N. unfold from_recursive_ast. rewrite recurse_edges; cbn [g_edges app]; auto using pre_edges_nodup.
Qed.

Lemma pre_edges_in t e : In e (pre_edges t) <-> In e (edges_of t).
Proof.
  induction t; cbn [pre_edges edges_of kids app In]; rewrite ?in_app_iff; cbn [In]; rewrite ?in_app_iff; cbn [In];
    rewrite ?IHt, ?IHt1, ?IHt2, ?IHt3; tauto.
Qed.
Lemma filter_app_list {A} (f : A -> bool) a b : filter f (a ++ b) = filter f a ++ filter f b.
Proof. induction a; cbn; auto. destruct (f a); cbn; rewrite IHa; auto. Qed.
Lemma filter_src_none o t : ~ In o (robjs t) -> filter (fun e => obj_eqb (src e) o) (pre_edges t) = [].
Proof.
  intro H. apply filter_none. intros e I K. apply obj_eqb_eq in K. apply pre_edges_in, edges_in in I. destruct I as [I _].
  rewrite K in I. contradiction.
Qed.
Lemma out_edges_kids t : NoDup (robjs t) -> forall c, rsub c t ->
  filter (fun e => obj_eqb (src e) (robj c)) (pre_edges t) = kids c.
Proof.
  induction t; intros N c R.
  - inversion R; subst; clear R. reflexivity.
  - cbn [robjs] in N. apply NoDup_cons_iff in N. destruct N as [N0 N]. cbn [pre_edges filter src fst].
    inversion R; subst; clear R.
    + rewrite obj_eqb_refl. rewrite filter_src_none by auto. reflexivity.
    + rewrite (proj2 (obj_eqb_neq _ _)); [apply IHt; auto|]. intro E. apply N0. rewrite E. apply rsub_in; auto.
  - cbn [robjs] in N. apply NoDup_cons_iff in N. destruct N as [N0 N]. apply NoDup_app_iff in N. destruct N as (N1 & N2 & N3).
    rewrite in_app_iff in N0. cbn [pre_edges filter src fst]. rewrite filter_app_list. cbn [filter src fst].
    inversion R; subst; clear R.
    + rewrite obj_eqb_refl. rewrite !filter_src_none by auto. reflexivity.
    + lazymatch goal with H : rsub c _ |- _ => pose proof (rsub_in _ _ H) as I end. rewrite (proj2 (obj_eqb_neq _ _)) by (intro E; apply N0; rewrite E; auto).
      rewrite IHt1 by auto. rewrite filter_src_none by (intro K; eapply N3; eauto). apply app_nil_r.
    + lazymatch goal with H : rsub c _ |- _ => pose proof (rsub_in _ _ H) as I end. rewrite (proj2 (obj_eqb_neq _ _)) by (intro E; apply N0; rewrite E; auto).
      rewrite (IHt2 N2 c) by auto. rewrite filter_src_none by (intro K; eapply N3; eauto). reflexivity.
  - cbn [robjs] in N. apply NoDup_cons_iff in N. destruct N as [N0 N]. apply NoDup_app_iff in N. destruct N as (N1 & N2 & N3).
    apply NoDup_app_iff in N2. destruct N2 as (N2 & N4 & N5).
    rewrite !in_app_iff in N0. cbn [pre_edges filter src fst]. rewrite filter_app_list. cbn [filter src fst].
    rewrite filter_app_list. cbn [filter src fst].
    assert (D12 : forall x, In x (robjs t1) -> ~ In x (robjs t2)) by (intros x K1 K2; apply (N3 x K1); rewrite in_app_iff; auto).
    assert (D13 : forall x, In x (robjs t1) -> ~ In x (robjs t3)) by (intros x K1 K2; apply (N3 x K1); rewrite in_app_iff; auto).
    inversion R; subst; clear R.
    + rewrite obj_eqb_refl. rewrite !filter_src_none by auto. reflexivity.
    + lazymatch goal with H : rsub c _ |- _ => pose proof (rsub_in _ _ H) as I end. rewrite (proj2 (obj_eqb_neq _ _)) by (intro E; apply N0; rewrite E; auto).
      rewrite IHt1 by auto. rewrite (filter_src_none _ t2), (filter_src_none _ t3) by auto. apply app_nil_r.
    + lazymatch goal with H : rsub c _ |- _ => pose proof (rsub_in _ _ H) as I end. rewrite (proj2 (obj_eqb_neq _ _)) by (intro E; apply N0; rewrite E; auto).
      rewrite (IHt2 N2 c) by auto. rewrite (filter_src_none _ t1), (filter_src_none _ t3); [apply app_nil_r| |]; intro K.
      * apply (N5 _ I K). * apply (D12 _ K I).
    + lazymatch goal with H : rsub c _ |- _ => pose proof (rsub_in _ _ H) as I end. rewrite (proj2 (obj_eqb_neq _ _)) by (intro E; apply N0; rewrite E; auto).
      rewrite (IHt3 N4 c) by auto. rewrite (filter_src_none _ t1), (filter_src_none _ t2); [reflexivity| |]; intro K.
      * apply (N5 _ K I). * apply (D13 _ K I).
Qed.

(** * Pairing *)
Fixpoint leftmost (t : rast) : rast :=
  match t with
  | RTerm _ _ => t
  | RUn _ _ a => leftmost a
  | RBin _ _ _ a _ => leftmost a
  | RIte _ _ a _ _ => leftmost a
  end.
(** [posn t oc d u]: [u] is a subtree of [t] at depth [d]; [oc] is the operand below the nearest
    binary ancestor, and that ancestor. *)
Inductive posn (t : rast) : option (rast * rast) -> nat -> rast -> Prop :=
| po_root : posn t None 0 t
| po_un oc d i op a : posn t oc d (RUn i op a) -> posn t oc (S d) a
| po_b1 oc d i k op a b : posn t oc d (RBin i k op a b) -> posn t (Some (a, RBin i k op a b)) (S d) a
| po_b2 oc d i k op a b : posn t oc d (RBin i k op a b) -> posn t (Some (b, RBin i k op a b)) (S d) b
| po_i1 oc d i op a b c : posn t oc d (RIte i op a b c) -> posn t oc (S d) a
| po_i2 oc d i op a b c : posn t oc d (RIte i op a b c) -> posn t oc (S d) b
| po_i3 oc d i op a b c : posn t oc d (RIte i op a b c) -> posn t oc (S d) c.

Lemma posn_sub t oc d u : posn t oc d u -> rsub u t /\ d + rdepth u <= rdepth t.
Proof.
  induction 1; [split; [constructor|lia]|..]; destruct IHposn as [I1 I2]; cbn [rdepth] in I2;
    (split; [eapply rsub_trans; [|exact I1]; eauto with rsub|lia]).
Qed.

Section pairing.
  Variable t : rast.
  Hypothesis Nt : NoDup (robjs t).
  Let g := from_recursive_ast t.

  Lemma in_edges_child p u k : rsub p t -> In (robj p, robj u, k) (kids p) -> in_edges g (robj u) = [(robj p, robj u, k)].
  Proof.
    intros R K. assert (E : In (robj p, robj u, k) (edges_of t)) by (apply edges_kids_of; eauto).
    unfold in_edges, g. rewrite from_rec_edges by auto. apply filter_single; [apply pre_edges_nodup; auto|].
    destruct (uniq_in t Nt (robj u)) as [Q|(e & E1 & E2 & E3)].
    - apply edges_in in E. apply E.
    - exfalso. apply (root_no_in t Nt _ E). exact Q.
    - intro e'. rewrite pre_edges_in, obj_eqb_eq. assert (e = (robj p, robj u, k)) by (symmetry; apply E3; auto). subst e.
      split; [intros [? ?]; auto|]. intros ->. auto.
  Qed.
  Lemma in_edges_root : in_edges g (robj t) = [].
  Proof.
    unfold in_edges, g. rewrite from_rec_edges by auto. apply filter_none. intros e I K. apply obj_eqb_eq in K.
    apply pre_edges_in in I. exact (root_no_in t Nt e I K).
  Qed.

  Lemma climb_ok oc d u : posn t oc d u -> forall n, d < n ->
    climb n g (robj u) = match oc with
                         | None => Err "StopIteration"
                         | Some (old, c) => Ok (robj old, robj c)
                         end.
  Proof.
    induction 1; intros n L; (destruct n as [|n]; [lia|]); cbn [climb].
    - rewrite in_edges_root. reflexivity.
    - rewrite (in_edges_child (RUn i op a) a 0); [|eapply posn_sub; eauto|left; auto]. cbn [src fst snd robj two_operands_b].
      apply IHposn. lia.
    - rewrite (in_edges_child (RBin i k op a b) a 0); [|eapply posn_sub; eauto|left; auto]. reflexivity.
    - rewrite (in_edges_child (RBin i k op a b) b 1); [|eapply posn_sub; eauto|right; left; auto]. reflexivity.
    - rewrite (in_edges_child (RIte i op a b c) a 0); [|eapply posn_sub; eauto|left; auto]. cbn [src fst snd robj two_operands_b].
      apply IHposn. lia.
    - rewrite (in_edges_child (RIte i op a b c) b 1); [|eapply posn_sub; eauto|right; left; auto]. cbn [src fst snd robj two_operands_b].
      apply IHposn. lia.
    - rewrite (in_edges_child (RIte i op a b c) c 2); [|eapply posn_sub; eauto|right; right; left; auto]. cbn [src fst snd robj two_operands_b].
      apply IHposn. lia.
  Qed.

  Lemma successors_kids c : rsub c t -> successors g (robj c) = distinct (map dst (kids c)).
  Proof. intro R. unfold successors, out_edges, g. rewrite from_rec_edges, out_edges_kids by auto. reflexivity. Qed.
  Lemma down_ok : forall v n, rsub v t -> rdepth v <= n -> down n g (robj v) = Ok (robj (leftmost v)).
  Proof.
    induction v; intros [|n] R L; cbn [rdepth] in L; try lia; cbn [down]; rewrite successors_kids by auto; cbn [kids map distinct dst fst snd leftmost].
    - reflexivity.
    - apply IHv; [eapply rsub_trans; [|eauto]; eauto with rsub|lia].
    - apply IHv1; [eapply rsub_trans; [|eauto]; eauto with rsub|lia].
    - apply IHv1; [eapply rsub_trans; [|eauto]; eauto with rsub|lia].
  Qed.
  Lemma nodes_length : List.length (g_nodes g) = List.length (robjs t).
  Proof.
    destruct (from_rec_ok t) as (_ & _ & N & _ & E). apply Nat.le_antisymm; apply NoDup_incl_length; auto; intros o H; apply E; auto.
  Qed.

  Definition sibling (a b : rast) : rast := if py_eq (robj b) (robj a) then a else b.
  Definition other (oc : rast * rast) : option rast :=
    match snd oc with
    | RBin _ _ _ a b => Some (if py_eq (robj b) (robj (fst oc)) then a else b)
    | _ => None
    end.
  Lemma py_eq_refl o : py_eq o o = true.
  Proof. unfold py_eq. destruct (snd o); try apply obj_eqb_refl. destruct (term_eq_dec t0 t0); congruence. Qed.
  Lemma pair_ok oc d u : posn t oc d u ->
    pair_node_to_var g (robj u) =
    match oc with
    | None => Err "StopIteration"
    | Some (old, c) => match other (old, c) with
                       | Some v => Ok (robj (leftmost v), robj c)
                       | None => Err "StopIteration"
                       end
    end.
  Proof.
    intro P. unfold pair_node_to_var. rewrite nodes_length. destruct (posn_sub _ _ _ _ P) as [R D].
    rewrite (climb_ok _ _ _ P) by (pose proof (rdepth_le t); destruct u; cbn in D; lia).
    destruct oc as [[old c]|]; [|reflexivity]. cbn [bind fst snd].
    assert (C : exists i k op a b, c = RBin i k op a b /\ rsub c t /\ (old = a \/ old = b)).
    { clear R D. remember (Some (old, c)) as oc eqn:E. induction P; try discriminate; auto.
      - inversion E; subst. do 5 eexists. split; [reflexivity|]. split; [eapply posn_sub; eauto|auto].
      - inversion E; subst. do 5 eexists. split; [reflexivity|]. split; [eapply posn_sub; eauto|auto]. }
    destruct C as (i & k & op & a & b & -> & Rc & O). rewrite successors_kids by auto. cbn [kids map dst fst snd distinct filter].
    assert (Na : obj_eqb (robj b) (robj a) = false).
    { apply obj_eqb_neq. intro E.
      assert (S : a = b).
      { apply (rsub_unique t Nt); auto; eapply rsub_trans; try exact Rc; eauto with rsub. }
      subst b. assert (H : (robj (RBin i k op a a), robj a, 0) = (robj (RBin i k op a a), robj a, 1)).
      { destruct (uniq_in t Nt (robj a)) as [Q|(e & E1 & E2 & E3)].
        - eapply rsub_in, rsub_trans; [|exact Rc]; eauto with rsub.
        - exfalso. apply (root_no_in t Nt (robj (RBin i k op a a), robj a, 0)); [|exact Q].
          apply edges_kids_of. eexists. split; [exact Rc|]. left; auto.
        - transitivity e; [|symmetry]; apply E3; auto; apply edges_kids_of; eexists; (split; [exact Rc|]); [left|right; left]; auto. }
      inversion H. }
    rewrite Na. cbn [negb]. unfold other. cbn [snd fst].
    destruct (py_eq (robj b) (robj old)).
    - rewrite down_ok; [reflexivity|eapply rsub_trans; [|exact Rc]; eauto with rsub|].
      pose proof (rdepth_le t).
      assert (Dc : forall x y, rsub x y -> rdepth x <= rdepth y) by (clear; induction 1; cbn [rdepth]; lia).
      specialize (Dc a t ltac:(eapply rsub_trans; [|exact Rc]; eauto with rsub)). lia.
    - rewrite down_ok; [reflexivity|eapply rsub_trans; [|exact Rc]; eauto with rsub|].
      pose proof (rdepth_le t).
      assert (Dc : forall x y, rsub x y -> rdepth x <= rdepth y) by (clear; induction 1; cbn [rdepth]; lia).
      specialize (Dc b t ltac:(eapply rsub_trans; [|exact Rc]; eauto with rsub)). lia.
  Qed.
End pairing.

(** * The encoding on plain trees *)
Definition is_term (t : node) : option string :=
  match t with NVar v | NBool v | NNum v | NStr v => Some v | _ => None end.
Fixpoint leftmost_n (t : node) : node :=
  match t with
  | NUn _ a => leftmost_n a
  | NBin _ a _ | NCmp _ a _ | NArith _ a _ => leftmost_n a
  | NIte _ a _ _ => leftmost_n a
  | _ => t
  end.
Definition term_eqb (a b : node) : bool :=
  match a, b with
  | NVar v, NVar w | NBool v, NBool w | NNum v, NNum w | NStr v, NStr w => (v =? w)%string
  | _, _ => false
  end.
Definition enc_const (fv : list (string * list string)) (ctx : option node) (c : string) : option string :=
  match ctx with
  | None => None
  | Some w => match is_term (leftmost_n w) with
              | None => None
              | Some x => match lookup x fv with
                          | None => None
                          | Some dom => option_map str_nat (index_of c dom)
                          end
              end
  end.
Fixpoint enc (fv : list (string * list string)) (ctx : option node) (t : node) : option node :=
  let two mk a b :=
    match enc fv (Some (if term_eqb b a then a else b)) a, enc fv (Some a) b with
    | Some x, Some y => Some (mk x y)
    | _, _ => None
    end in
  match t with
  | NStr c => option_map NNum (enc_const fv ctx c)
  | NVar _ | NBool _ | NNum _ => Some t
  | NUn op a => option_map (NUn op) (enc fv ctx a)
  | NBin op a b => two (NBin op) a b
  | NCmp op a b => two (NCmp op) a b
  | NArith op a b => two (NArith op) a b
  | NIte op a b c =>
      match enc fv ctx a, enc fv ctx b, enc fv ctx c with
      | Some x, Some y, Some z => Some (NIte op x y z)
      | _, _, _ => None
      end
  end.

(** Leaves replaced by [f]. *)
Fixpoint rrel (m : list (obj * obj)) (t : rast) : rast :=
  match t with
  | RTerm i h => match relabel m (i, HTerm h) with (j, HTerm h') => RTerm j h' | _ => t end
  | RUn i op a => RUn i op (rrel m a)
  | RBin i k op a b => RBin i k op (rrel m a) (rrel m b)
  | RIte i op a b c => RIte i op (rrel m a) (rrel m b) (rrel m c)
  end.

Section relab.
  Variable t : rast.
  Variable m : list (obj * obj).
  Hypothesis Nt : NoDup (robjs t).
  (** Only terminals are renamed, to terminals. *)
  Hypothesis Hm : forall o o', In (o, o') m -> exists i h j h', o = (i, HTerm h) /\ o' = (j, HTerm h').

  Lemma relabel_term i h : exists j h', relabel m (i, HTerm h) = (j, HTerm h').
  Proof.
    unfold relabel. destruct (find _ m) as [[o o']|] eqn:E; [|eauto]. apply find_some in E. destruct E as [E _].
    destruct (Hm _ _ E) as (? & ? & j & h' & _ & ->). cbn. eauto.
  Qed.
  Lemma relabel_op o : (forall h, snd o <> HTerm h) -> relabel m o = o.
  Proof.
    intro H. unfold relabel. destruct (find _ m) as [[x x']|] eqn:E; [|auto]. apply find_some in E. destruct E as [E F].
    cbn [fst] in F. apply obj_eqb_eq in F. subst x. destruct (Hm _ _ E) as (? & ? & ? & ? & -> & _). exfalso. eapply H. reflexivity.
  Qed.
  Lemma rrel_robj u : robj (rrel m u) = relabel m (robj u).
  Proof.
    destruct u; cbn [rrel robj]; try (symmetry; apply relabel_op; intros h; discriminate).
    destruct (relabel_term i t0) as (j & h' & ->). reflexivity.
  Qed.
  Lemma rrel_sub t' : forall u, rsub u (rrel m t') -> exists w, rsub w t' /\ u = rrel m w.
  Proof.
    induction t'; intros u R; cbn [rrel] in R.
    - exists (RTerm i t0). destruct (relabel_term i t0) as (j & h' & E). cbn [rrel]. rewrite E in *. inversion R; subst. auto with rsub.
    - inversion R; subst; [exists (RUn i op t'); auto with rsub|].
      lazymatch goal with H : rsub u (rrel m t') |- _ => destruct (IHt' _ H) as (w & W1 & W2) end. eauto with rsub.
    - inversion R; subst; [exists (RBin i k op t'1 t'2); auto with rsub|..];
      lazymatch goal with
      | H : rsub u (rrel m t'1) |- _ => destruct (IHt'1 _ H) as (w & W1 & W2)
      | H : rsub u (rrel m t'2) |- _ => destruct (IHt'2 _ H) as (w & W1 & W2) end; eauto with rsub.
    - inversion R; subst; [exists (RIte i op t'1 t'2 t'3); auto with rsub|..];
      lazymatch goal with
      | H : rsub u (rrel m t'1) |- _ => destruct (IHt'1 _ H) as (w & W1 & W2)
      | H : rsub u (rrel m t'2) |- _ => destruct (IHt'2 _ H) as (w & W1 & W2)
      | H : rsub u (rrel m t'3) |- _ => destruct (IHt'3 _ H) as (w & W1 & W2) end; eauto with rsub.
  Qed.
  Lemma kids_rrel w e : In e (kids (rrel m w)) <-> exists p v k, In (p, v, k) (kids w) /\ e = (p, relabel m v, k).
  Proof.
    destruct w as [i h|i op a|i k op a b|i op a b c]; cbn [rrel].
    - destruct (relabel_term i h) as (j & h' & ->). cbn. split; [contradiction|]. intros (p & q & k & [] & _).
    - cbn [kids robj In]. rewrite !rrel_robj. split.
      + intros [<-|[]]. do 3 eexists. split; [left; reflexivity|reflexivity].
      + intros (p & q & k & [Q|[]] & ->). inversion Q; subst. auto.
    - cbn [kids robj In]. rewrite !rrel_robj. split.
      + intros [<-|[<-|[]]]; do 3 eexists; (split; [|reflexivity]); auto.
      + intros (p & q & k' & [Q|[Q|[]]] & ->); inversion Q; subst; auto.
    - cbn [kids robj In]. rewrite !rrel_robj. split.
      + intros [<-|[<-|[<-|[]]]]; do 3 eexists; (split; [|reflexivity]); auto.
      + intros (p & q & k' & [Q|[Q|[Q|[]]]] & ->); inversion Q; subst; auto.
  Qed.

  Lemma kids_key u e e' : In e (kids u) -> In e' (kids u) -> key e = key e' -> e = e'.
  Proof. destruct u; cbn [kids In]; intuition (subst; auto; discriminate). Qed.

  Lemma relabel_unfolds : unfolds (relabel_nodes m (from_recursive_ast t)) (rrel m t).
  Proof.
    assert (SRC : forall e, In e (pre_edges t) -> relabel m (src e) = src e).
    { intros e E. apply relabel_op. eapply edges_src_op. apply pre_edges_in. eauto. }
    unfold unfolds, relabel_nodes. cbn [g_edges]. rewrite from_rec_edges by auto. split.
    - assert (INJ : forall a b, In a (pre_edges t) -> In b (pre_edges t) ->
        (relabel m (src a), relabel m (dst a), key a) = (relabel m (src b), relabel m (dst b), key b) -> a = b).
      { intros a b A B E. rewrite (SRC a A), (SRC b B) in E. inversion E as [[E1 E2 E3]].
        apply pre_edges_in, edges_kids_of in A. destruct A as (u & U1 & U2).
        apply (kids_key u); auto. apply (edges_kids t Nt u U1). split; [apply pre_edges_in; auto|].
        rewrite <- E1. apply kids_src; auto. }
      pose proof (pre_edges_nodup t Nt) as ND. clear SRC. induction ND as [|a l H ND IH]; cbn [map]; [constructor|].
      constructor.
      + rewrite in_map_iff. intros (b & E & I). apply H.
        rewrite (INJ a b); auto; [left; auto|right; auto].
      + apply IH. intros x y X Y. apply INJ; right; auto.
    - intros u U e. apply rrel_sub in U. destruct U as (w & W & ->). rewrite kids_rrel, in_map_iff.
      rewrite rrel_robj. split.
      + intros [([[p v] k] & <- & I) S]. rewrite (SRC _ I) in *. cbn [src dst key fst snd] in *.
        assert (relabel m (robj w) = robj w).
        { pose proof (edges_src_op t _ (proj1 (pre_edges_in _ _) I)) as T. cbn [src fst] in T.
          destruct w as [i h| | |]; cbn [robj] in *; try (apply relabel_op; intro; discriminate).
          destruct (relabel_term i h) as (j & h' & E). rewrite E in S. exfalso. apply (T h'). rewrite S. reflexivity. }
        exists p, v, k. split; [|auto]. apply (edges_kids t Nt w W). split; [apply pre_edges_in; auto|]. cbn. congruence.
      + intros (p & v & k & K & ->).
        assert (I : In (p, v, k) (pre_edges t)) by (apply pre_edges_in, edges_kids_of; eauto).
        assert (robj w = p) by (apply kids_src in K; auto). subst p.
        pose proof (SRC _ I) as E. cbn in E. split.
        * eexists. split; [|exact I]. cbn. rewrite E. reflexivity.
        * cbn. symmetry. exact E.
  Qed.
End relab.

(** * The result of sub_constants on trees *)
Definition ctx_of (oc : option (rast * rast)) : option node :=
  match oc with None => None | Some p => option_map erase (other p) end.
Lemma leftmost_erase v : exists i h, leftmost v = RTerm i h /\ leftmost_n (erase v) = term_node h.
Proof.
  induction v as [i h|i op a IH|i k op a IHa b IHb|i op a IHa b IHb c IHc]; cbn [leftmost erase].
  - exists i, h. split; auto. destruct h; reflexivity.
  - exact IH.
  - destruct k; exact IHa.
  - exact IHa.
Qed.
Lemma term_node_text h : is_term (term_node h) = Some (term_text h).
Proof. destruct h; reflexivity. Qed.

Definition leaf_code (g : graph) (fv : list (string * list string)) (u : obj) (c : string) : res string :=
  do vc <- pair_node_to_var g u;
  match snd (fst vc) with
  | HTerm t =>
      do dom <- of_opt "KeyError" (lookup (term_text t) fv);
      do x <- of_opt "ValueError" (index_of c dom);
      Ok (str_nat x)
  | _ => Err "KeyError"
  end.
Lemma sub_map_ok g fv : forall us fresh m, sub_constants_map g fv fresh us = Ok m ->
  (forall o o', In (o, o') m -> exists i c j x, o = (i, HTerm (TStr c)) /\ o' = (j, HTerm (TNum x)) /\ leaf_code g fv o c = Ok x) /\
  (forall i c, In (i, HTerm (TStr c)) us -> exists o', In ((i, HTerm (TStr c)), o') m).
Proof.
  induction us as [|[i h] us IH]; intros fresh m H; cbn [sub_constants_map snd] in H.
  - apply Ok_inj in H. subst m. split; [intros ? ? []|intros ? ? []].
  - assert (SKIP : (forall c, h <> HTerm (TStr c)) -> sub_constants_map g fv fresh us = Ok m ->
      (forall o o', In (o, o') m -> exists i c j x, o = (i, HTerm (TStr c)) /\ o' = (j, HTerm (TNum x)) /\ leaf_code g fv o c = Ok x) /\
      (forall i' c, In (i', HTerm (TStr c)) ((i, h) :: us) -> exists o', In ((i', HTerm (TStr c)), o') m)).
    { intros NS H'. destruct (IH _ _ H') as [A B]. split; [auto|]. intros i' c [E|I]; [inversion E; subst; exfalso; eapply NS; eauto|eauto]. }
    destruct h as [[v|v|v|v]|op|k op|op]; try (apply SKIP; [intros c; discriminate|exact H]). clear SKIP.
    destruct (pair_node_to_var g (i, HTerm (TStr v))) as [[w c]|] eqn:P; [|discriminate]. cbn [bind fst] in H.
    destruct (snd w) as [h| | |] eqn:W; try discriminate.
    destruct (lookup (term_text h) fv) as [dom|] eqn:L; [|discriminate]. cbn [of_opt bind] in H.
    destruct (index_of v dom) as [x|] eqn:X; [|discriminate]. cbn [of_opt bind] in H.
    destruct (sub_constants_map g fv (S fresh) us) as [m'|] eqn:M; [|discriminate]. cbn [bind] in H. apply Ok_inj in H. subst m.
    destruct (IH _ _ M) as [A B]. split.
    + intros o o' [E|I]; [|auto]. inversion E; subst. do 4 eexists. split; [reflexivity|]. split; [reflexivity|].
      unfold leaf_code. rewrite P. cbn [bind fst]. rewrite W, L. cbn [of_opt bind]. rewrite X. reflexivity.
    + intros i' c' [E|I].
      * inversion E; subst. eexists. left. reflexivity.
      * destruct (B _ _ I) as (o' & O). eexists. right. exact O.
Qed.
Lemma sub_map_total g fv : forall us fresh,
  (forall i c, In (i, HTerm (TStr c)) us -> exists x, leaf_code g fv (i, HTerm (TStr c)) c = Ok x) ->
  exists m, sub_constants_map g fv fresh us = Ok m.
Proof.
  induction us as [|[i h] us IH]; intros fresh H; cbn [sub_constants_map snd]; [eauto|].
  destruct h as [[v|v|v|v]|op|k op|op]; try (apply IH; intros; apply H; right; auto).
  destruct (H i v (or_introl eq_refl)) as [x X]. unfold leaf_code in X.
  destruct (pair_node_to_var g (i, HTerm (TStr v))) as [[w c]|] eqn:P; [|discriminate]. cbn [bind fst] in *.
  destruct (snd w) as [h| | |] eqn:W; try discriminate.
  destruct (lookup (term_text h) fv) as [dom|] eqn:L; [|discriminate]. cbn [of_opt bind] in *.
  destruct (index_of v dom) as [y|] eqn:Y; [|discriminate]. cbn [of_opt bind] in *.
  destruct (IH (S fresh)) as [m M]; [intros; apply H; right; auto|]. rewrite M. cbn [bind]. eauto.
Qed.

Lemma posn_of_rsub t u : rsub u t -> exists oc d, posn t oc d u.
Proof.
  assert (G : forall u a, rsub u a -> forall oc d, posn t oc d a -> exists oc' d', posn t oc' d' u).
  { induction 1; intros oc d P; eauto; eapply IHrsub; eauto using posn. }
  intro R. eapply G; eauto. constructor.
Qed.

Section encode.
  Variable t : rast.
  Hypothesis Nt : NoDup (robjs t).
  Variable fv : list (string * list string).
  Let g := from_recursive_ast t.

  Lemma leaf_code_ok oc d i c : posn t oc d (RTerm i (TStr c)) ->
    match enc_const fv (ctx_of oc) c with
    | Some x => leaf_code g fv (i, HTerm (TStr c)) c = Ok x
    | None => exists e, leaf_code g fv (i, HTerm (TStr c)) c = Err e
    end.
  Proof.
    intro P. unfold leaf_code. pose proof (pair_ok t Nt _ _ _ P) as Q. cbn [robj] in Q. fold g in Q. rewrite Q. clear Q.
    destruct oc as [[old p]|]; cbn [ctx_of enc_const bind]; [|eauto].
    destruct (other (old, p)) as [v|]; cbn [option_map enc_const bind]; [|eauto].
    destruct (leftmost_erase v) as (j & h & E1 & E2). rewrite E1, E2, term_node_text. cbn [fst snd robj].
    destruct (lookup (term_text h) fv) as [dom|]; cbn [of_opt bind]; [|eauto].
    destruct (index_of c dom) as [x|]; cbn [of_opt bind option_map]; eauto.
  Qed.

  Lemma term_eqb_py a b : robj a <> robj b -> term_eqb (erase b) (erase a) = py_eq (robj b) (robj a).
  Proof.
    intro H. unfold py_eq.
    destruct a as [i h|i op a|i k op a a'|i op a a' a''], b as [j h'|j op' b|j k' op' b b'|j op' b b' b'']; cbn [robj snd erase];
      try (match goal with |- _ = obj_eqb ?x ?y => replace (obj_eqb x y) with false by (symmetry; apply obj_eqb_neq; intro E; apply H; symmetry; exact E) end;
           try destruct k; try destruct k'; try destruct h; try destruct h'; reflexivity).
    destruct (term_eq_dec h' h) as [->|N].
    - destruct h; cbn; apply String.eqb_refl.
    - destruct h, h'; cbn; auto; apply String.eqb_neq; congruence.
  Qed.

  Section ok.
    Variable fresh : nat.
    Variable m : list (obj * obj).
    Hypothesis Hm : sub_constants_map g fv fresh (g_nodes g) = Ok m.

    Lemma map_terms o o' : In (o, o') m -> exists i h j h', o = (i, HTerm h) /\ o' = (j, HTerm h').
    Proof.
      intro I. destruct (sub_map_ok _ _ _ _ _ Hm) as [A _]. destruct (A _ _ I) as (i & c & j & x & -> & -> & _). eauto 8.
    Qed.
    Lemma bin_neq oc d i k op a b : posn t oc d (RBin i k op a b) -> robj a <> robj b.
    Proof.
      intros P E. destruct (posn_sub _ _ _ _ P) as [R _]. clear P.
      assert (N : NoDup (robjs (RBin i k op a b))).
      { clear -Nt R. induction R; auto; apply IHR; cbn [robjs] in Nt; apply NoDup_cons_iff in Nt; destruct Nt as [_ N];
          rewrite ?NoDup_app_iff in N; tauto. }
      cbn [robjs] in N. apply NoDup_cons_iff in N. destruct N as [_ N]. apply NoDup_app_iff in N. destruct N as (_ & _ & N).
      apply (N (robj a)); [apply robj_in|rewrite E; apply robj_in].
    Qed.
    Lemma enc_rrel u : forall oc d, posn t oc d u -> enc fv (ctx_of oc) (erase u) = Some (erase (rrel m u)).
    Proof.
      induction u as [i h|i op a IH|i k op a IHa b IHb|i op a IHa b IHb c IHc]; intros oc d P.
      - destruct (sub_map_ok _ _ _ _ _ Hm) as [A B]. cbn [rrel erase].
        assert (SAME : (forall c, h <> TStr c) -> relabel m (i, HTerm h) = (i, HTerm h)).
        { intro NS. unfold relabel. destruct (find _ m) as [[o o']|] eqn:F; [|auto]. apply find_some in F. destruct F as [I E].
          cbn [fst] in E. apply obj_eqb_eq in E. subst o. destruct (A _ _ I) as (? & c & ? & ? & Q & _). inversion Q; subst. exfalso. eapply NS; eauto. }
        destruct h as [v|v|v|v]; try (rewrite SAME by (intro; discriminate); reflexivity).
        pose proof (leaf_code_ok _ _ _ _ P) as L.
        assert (I : In (i, HTerm (TStr v)) (g_nodes g)).
        { apply from_rec_ok. apply (rsub_in (RTerm i (TStr v))). eapply posn_sub; eauto. }
        destruct (B _ _ I) as (o' & O).
        unfold relabel. destruct (find _ m) as [[x x']|] eqn:F.
        + apply find_some in F. destruct F as [F E]. cbn [fst] in E. apply obj_eqb_eq in E. subst x.
          destruct (A _ _ F) as (i' & c & j & y & Q & -> & C). inversion Q; subst c. cbn [snd erase term_node enc].
          destruct (enc_const fv (ctx_of oc) v) as [z|]; [|destruct L as [e L]; congruence]. cbn [option_map]. congruence.
        + exfalso. apply (find_none _ _ F) in O. cbn [fst] in O. rewrite obj_eqb_refl in O. discriminate.
      - cbn [erase enc rrel]. rewrite (IH oc (S d)) by (eapply po_un; eauto). reflexivity.
      - pose proof (bin_neq _ _ _ _ _ _ _ P) as NE.
        specialize (IHa _ _ (po_b1 _ _ _ _ _ _ _ _ P)). specialize (IHb _ _ (po_b2 _ _ _ _ _ _ _ _ P)).
        unfold ctx_of, other in IHa, IHb. cbn [snd fst option_map] in IHa, IHb. rewrite py_eq_refl in IHb.
        replace (erase (if py_eq (robj b) (robj a) then a else b)) with (if term_eqb (erase b) (erase a) then erase a else erase b) in IHa
          by (rewrite term_eqb_py by auto; destruct (py_eq (robj b) (robj a)); auto).
        destruct k; cbn [erase bin_node enc rrel]; rewrite IHa, IHb; reflexivity.
      - cbn [erase enc rrel]. rewrite (IHa oc (S d)) by (eapply po_i1; eauto). rewrite (IHb oc (S d)) by (eapply po_i2; eauto).
        rewrite (IHc oc (S d)) by (eapply po_i3; eauto). reflexivity.
    Qed.
    Lemma rdepth_rrel u : rdepth (rrel m u) = rdepth u.
    Proof.
      induction u; cbn [rrel rdepth]; auto. destruct (relabel m (i, HTerm t0)) as [j []]; reflexivity.
    Qed.
    Lemma sub_constants_ok n : List.length (robjs t) <= n ->
      exists b, enc fv None (erase t) = Some b /\ to_recursive_ast n (relabel_nodes m g) = Ok b.
    Proof.
      intro L. exists (erase (rrel m t)). pose proof (enc_rrel t None 0 (po_root t)) as E. split; [exact E|].
      unfold to_recursive_ast. cbn [relabel_nodes g_root].
      assert (R : g_root g = robj (rrel m t)).
      { unfold g. rewrite (proj1 (from_rec_ok t)). rewrite (rrel_robj m map_terms).
        unfold relabel. destruct (find _ m) as [[x x']|] eqn:F; [|auto]. exfalso.
        apply find_some in F. destruct F as [F Q]. cbn [fst] in Q. apply obj_eqb_eq in Q. subst x.
        destruct (sub_map_ok _ _ _ _ _ Hm) as [A _]. destruct (A _ _ F) as (i & c & j & y & Q & _ & C).
        assert (T : forall w, robj w = (i, HTerm (TStr c)) -> RTerm i (TStr c) = w) by (intros [] W; inversion W; reflexivity).
        apply T in Q. assert (PR : posn t None 0 (RTerm i (TStr c))) by (rewrite Q; constructor).
        pose proof (leaf_code_ok _ _ _ _ PR) as K. cbn [ctx_of enc_const] in K. destruct K as [e K]. rewrite <- Q in C. cbn [robj] in C.
        congruence. }
      rewrite R. apply to_rec_ok.
      - apply relabel_unfolds; auto using map_terms.
      - rewrite rdepth_rrel. pose proof (rdepth_le t). lia.
    Qed.
  End ok.

  Lemma enc_leaves u : forall oc d b, posn t oc d u -> enc fv (ctx_of oc) (erase u) = Some b ->
    forall i c, rsub (RTerm i (TStr c)) u -> exists x, leaf_code g fv (i, HTerm (TStr c)) c = Ok x.
  Proof.
    induction u as [i h|i op a IH|i k op a IHa b IHb|i op a IHa b IHb c IHc]; intros oc d x P E j s R.
    - inversion R; subst. pose proof (leaf_code_ok _ _ _ _ P) as L. cbn [erase term_node enc] in E.
      destruct (enc_const fv (ctx_of oc) s); [eauto|discriminate].
    - cbn [erase enc] in E. destruct (enc fv (ctx_of oc) (erase a)) eqn:A; [|discriminate]. inversion R; subst.
      eapply IH; eauto. eapply po_un; eauto.
    - pose proof (bin_neq _ _ _ _ _ _ _ P) as NE.
      assert (Q : exists xa xb, enc fv (ctx_of (Some (a, RBin i k op a b))) (erase a) = Some xa /\
                  enc fv (ctx_of (Some (b, RBin i k op a b))) (erase b) = Some xb).
      { unfold ctx_of, other. cbn [snd fst option_map]. rewrite py_eq_refl.
        replace (erase (if py_eq (robj b) (robj a) then a else b)) with (if term_eqb (erase b) (erase a) then erase a else erase b)
          by (rewrite term_eqb_py by auto; destruct (py_eq (robj b) (robj a)); auto).
        destruct k; cbn [erase bin_node enc] in E;
          destruct (enc fv (Some (if term_eqb (erase b) (erase a) then erase a else erase b)) (erase a)); try discriminate;
          destruct (enc fv (Some (erase a)) (erase b)); try discriminate; eauto. }
      destruct Q as (xa & xb & Qa & Qb).
      specialize (IHa _ _ _ (po_b1 _ _ _ _ _ _ _ _ P) Qa). specialize (IHb _ _ _ (po_b2 _ _ _ _ _ _ _ _ P) Qb).
      inversion R; subst; eauto.
    - cbn [erase enc] in E. destruct (enc fv (ctx_of oc) (erase a)) eqn:A; [|discriminate].
      destruct (enc fv (ctx_of oc) (erase b)) eqn:B; [|discriminate]. destruct (enc fv (ctx_of oc) (erase c)) eqn:C; [|discriminate].
      specialize (IHa _ _ _ (po_i1 _ _ _ _ _ _ _ _ P) A). specialize (IHb _ _ _ (po_i2 _ _ _ _ _ _ _ _ P) B).
      specialize (IHc _ _ _ (po_i3 _ _ _ _ _ _ _ _ P) C). inversion R; subst; eauto.
  Qed.
  Lemma sub_constants_total b fresh : enc fv None (erase t) = Some b -> exists m, sub_constants_map g fv fresh (g_nodes g) = Ok m.
  Proof.
    intro E. apply sub_map_total. intros i c I. apply from_rec_ok in I. apply in_rsub in I. destruct I as (u & U & Q).
    destruct u; inversion Q; subst. exact (enc_leaves t None 0 b (po_root t) E i c U).
  Qed.
End encode.

(** * Clauses *)
Lemma encode_clause_eq g x t : ast g x = Ok t ->
  match enc (finite_vars g) None t with
  | Some b => encode_clause g x = do f <- of_opt "KeyError" (flatten b); Ok (b, f)
  | None => exists e, encode_clause g x = Err e
  end.
Proof.
  intro A. unfold encode_clause. rewrite A. cbn [bind]. destruct (alloc 0 t) as [r n] eqn:R.
  destruct (alloc_ok _ _ _ _ R) as (E & _ & N & _). unfold sub_constants.
  set (fv := finite_vars g). subst t. destruct (sub_constants_map _ fv n _) as [m|e] eqn:M; cbn [bind].
  - destruct (sub_constants_ok r N fv n m M (S (List.length (robjs r)))) as (b & B1 & B2); [lia|].
    rewrite B1, B2. reflexivity.
  - destruct (enc fv None (erase r)) as [b|] eqn:B; [|eauto].
    destruct (sub_constants_total r N fv b n B) as [m M']. congruence.
Qed.

Lemma enc_no_str fv t : forall ctx b, enc fv ctx t = Some b -> no_str b = true.
Proof.
  induction t; intros ctx b H; cbn [enc] in H; try (inversion H; subst; reflexivity).
  - destruct (enc_const fv ctx v); inversion H; reflexivity.
  - destruct (enc fv ctx t) eqn:E; inversion H. cbn [no_str]. eauto.
  - destruct (enc fv _ t1) eqn:E1; [|discriminate]. destruct (enc fv _ t2) eqn:E2; [|discriminate]. inversion H. cbn [no_str].
    apply andb_true_iff; eauto.
  - destruct (enc fv _ t1) eqn:E1; [|discriminate]. destruct (enc fv _ t2) eqn:E2; [|discriminate]. inversion H. cbn [no_str].
    apply andb_true_iff; eauto.
  - destruct (enc fv _ t1) eqn:E1; [|discriminate]. destruct (enc fv _ t2) eqn:E2; [|discriminate]. inversion H. cbn [no_str].
    apply andb_true_iff; eauto.
  - destruct (enc fv _ t1) eqn:E1; [|discriminate]. destruct (enc fv _ t2) eqn:E2; [|discriminate].
    destruct (enc fv _ t3) eqn:E3; [|discriminate]. inversion H. cbn [no_str].
    rewrite !andb_true_iff; repeat split; eauto.
Qed.
Lemma enc_wf fv t : forall ctx b, enc fv ctx t = Some b -> wf_node t = true -> wf_node b = true.
Proof.
  induction t; intros ctx b H W; cbn [enc] in H; try (inversion H; subst; exact W).
  - unfold enc_const in H. destruct ctx as [w|]; [|discriminate]. destruct (is_term _); [|discriminate].
    destruct (lookup _ fv); [|discriminate]. destruct (index_of v l) as [k|]; [|discriminate]. inversion H. apply str_nat_number.
  - destruct (enc fv ctx t) eqn:E; inversion H. cbn [wf_node] in *. apply andb_true_iff in W. destruct W as [-> W]. eauto.
  - destruct (enc fv _ t1) eqn:E1; [|discriminate]. destruct (enc fv _ t2) eqn:E2; [|discriminate]. inversion H.
    cbn [wf_node] in *. rewrite !andb_true_iff in *. destruct W as [[-> W1] W2]. eauto.
  - destruct (enc fv _ t1) eqn:E1; [|discriminate]. destruct (enc fv _ t2) eqn:E2; [|discriminate]. inversion H.
    cbn [wf_node] in *. rewrite !andb_true_iff in *. destruct W as [[-> W1] W2]. eauto.
  - destruct (enc fv _ t1) eqn:E1; [|discriminate]. destruct (enc fv _ t2) eqn:E2; [|discriminate]. inversion H.
    cbn [wf_node] in *. rewrite !andb_true_iff in *. destruct W as [[W0 W1] W2]. split; [split|]; eauto.
    rewrite orb_true_iff in *. destruct W0 as [W0|W0]; [left; exact W0|right]. apply andb_true_iff in W0. destruct W0 as [-> W0].
    destruct t2; try discriminate. cbn [enc] in E2. inversion E2; subst. exact W0.
  - destruct (enc fv _ t1) eqn:E1; [|discriminate]. destruct (enc fv _ t2) eqn:E2; [|discriminate].
    destruct (enc fv _ t3) eqn:E3; [|discriminate]. inversion H. cbn [wf_node] in *. rewrite !andb_true_iff in *.
    destruct W as [[[-> W1] W2] W3]. repeat split; eauto.
Qed.
Lemma enc_plain fv t : forall ctx b, enc fv ctx t = Some b -> plain_ops b = plain_ops t.
Proof.
  induction t; intros ctx b H; cbn [enc] in H; try (inversion H; subst; reflexivity).
  - destruct (enc_const fv ctx v); inversion H; reflexivity.
  - destruct (enc fv ctx t) eqn:E; inversion H. cbn [plain_ops]. f_equal. eauto.
  - destruct (enc fv _ t1) eqn:E1; [|discriminate]. destruct (enc fv _ t2) eqn:E2; [|discriminate]. inversion H. cbn [plain_ops].
    rewrite (IHt1 _ _ E1), (IHt2 _ _ E2); reflexivity.
  - destruct (enc fv _ t1) eqn:E1; [|discriminate]. destruct (enc fv _ t2) eqn:E2; [|discriminate]. inversion H. cbn [plain_ops].
    rewrite (IHt1 _ _ E1), (IHt2 _ _ E2); reflexivity.
  - destruct (enc fv _ t1) eqn:E1; [|discriminate]. destruct (enc fv _ t2) eqn:E2; [|discriminate]. inversion H. cbn [plain_ops].
    rewrite (IHt1 _ _ E1), (IHt2 _ _ E2); reflexivity.
  - destruct (enc fv _ t1) eqn:E1; [|discriminate]. destruct (enc fv _ t2) eqn:E2; [|discriminate].
    destruct (enc fv _ t3) eqn:E3; [|discriminate]. inversion H. cbn [plain_ops].
    rewrite (IHt1 _ _ E1), (IHt2 _ _ E2), (IHt3 _ _ E3); reflexivity.
Qed.
Lemma enc_pure fv t : forall ctx, (forall c, ~ sub (NStr c) t) -> enc fv ctx t = Some t.
Proof.
  induction t; intros ctx H; cbn [enc]; auto.
  - exfalso. apply (H v). constructor.
  - rewrite IHt; auto. intros c K. apply (H c). constructor; auto.
  - rewrite IHt1, IHt2; auto; intros c K; apply (H c); [apply sub_bin_r|apply sub_bin_l]; auto.
  - rewrite IHt1, IHt2; auto; intros c K; apply (H c); [apply sub_cmp_r|apply sub_cmp_l]; auto.
  - rewrite IHt1, IHt2; auto; intros c K; apply (H c); [apply sub_ar_r|apply sub_ar_l]; auto.
  - rewrite IHt1, IHt2, IHt3; auto; intros c K; apply (H c); eauto using sub.
Qed.

(** * Meaning *)
Lemma index_of_nth c l : forall k, index_of c l = Some k -> nth_error l k = Some c.
Proof.
  induction l as [|y l IH]; intros k H; cbn [index_of] in H; [discriminate|]. destruct (c =? y)%string eqn:E.
  - apply String.eqb_eq in E. inversion H; subst. reflexivity.
  - destruct (index_of c l) as [j|]; inversion H. cbn. auto.
Qed.
Lemma index_of_in c l : In c l <-> exists k, index_of c l = Some k.
Proof.
  split.
  - induction l as [|y l IH]; intros I; [destruct I|]. cbn [index_of]. destruct (c =? y)%string eqn:E; [eauto|].
    destruct I as [->|I]; [rewrite String.eqb_refl in E; discriminate|]. destruct (IH I) as [k ->]. cbn. eauto.
  - intros [k K]. apply index_of_nth in K. eapply nth_error_In; eauto.
Qed.
Lemma nexts_no_str x t : nexts (NVar x) t -> forall c, ~ sub (NStr c) t.
Proof. induction 1; intros c K; inversion K; subst. eapply IHnexts; eauto. Qed.
Lemma nexts_leftmost x t : nexts x t -> leftmost_n x = x -> leftmost_n t = x.
Proof. induction 1; cbn [leftmost_n]; auto. Qed.
Lemma nexts_term_eqb x c l r : nexts (NVar x) l -> nexts (NStr c) r -> term_eqb l r = false /\ term_eqb r l = false.
Proof. intros A B. destruct A, B; auto. Qed.
Lemma nexts_val_var x t : nexts (NVar x) t -> exists n, forall i (s : trace), term_val s i t = Some (s (n + i) x).
Proof.
  induction 1.
  - exists 0. reflexivity.
  - destruct IHnexts as [n N]. exists (S n). intros i s'. cbn [term_val]. change ("X" =? "X") with true. cbv iota.
    rewrite N. do 2 f_equal. lia.
Qed.
Lemma nexts_enc_str fv ctx c t y : nexts (NStr c) t -> enc_const fv ctx c = Some y ->
  exists b, enc fv ctx t = Some b /\ forall s i, term_val s i b = option_map VZ (num_text y).
Proof.
  intros H E. induction H.
  - cbn [enc]. rewrite E. cbn [option_map]. eexists. split; [reflexivity|]. reflexivity.
  - destruct IHnexts as (b & B1 & B2). cbn [enc]. rewrite B1. cbn [option_map]. eexists. split; [reflexivity|].
    intros s i. cbn [term_val]. change ("X" =? "X") with true. cbv iota. apply B2.
Qed.
Lemma nexts_val_str s i c t : nexts (NStr c) t -> term_val s i t = Some (VS c).
Proof. intro H. revert i. induction H; intro i; [reflexivity|]. cbn [term_val]. change ("X" =? "X") with true. cbv iota. auto. Qed.

Section meaning.
  Variables (D : enums) (fv : list (string * list string)).
  Hypothesis HD : forall x, lookup x fv = D x.
  Hypothesis Hnd : forall x l, D x = Some l -> NoDup l.
  Variables s s' : trace.
  Hypothesis He : encoded D s s'.

  Lemma enc_var_eq i x j y dom : D x = Some dom -> D y = Some dom -> (s i x = s j y <-> s' i x = s' j y).
  Proof.
    intros Dx Dy. pose proof (He i x) as A. pose proof (He j y) as B. rewrite Dx in A. rewrite Dy in B.
    destruct A as (v & k & -> & A1 & ->), B as (w & l & -> & B1 & ->). split; intro E; inversion E; subst.
    - f_equal. assert (k = l); [|lia]. apply (proj1 (NoDup_nth_error dom) (Hnd _ _ Dx)).
      + apply nth_error_Some. congruence. + congruence.
    - f_equal. assert (k = l) by lia. congruence.
  Qed.
  Lemma enc_const_eq i x c dom k : D x = Some dom -> index_of c dom = Some k ->
    (s i x = VS c <-> s' i x = VZ (Z.of_nat k)).
  Proof.
    intros Dx K. pose proof (He i x) as A. rewrite Dx in A. destruct A as (v & l & -> & A1 & ->).
    apply index_of_nth in K. split; intro E; inversion E; subst.
    - f_equal. assert (k = l); [|lia]. apply (proj1 (NoDup_nth_error dom) (Hnd _ _ Dx)).
      + apply nth_error_Some. congruence. + congruence.
    - f_equal. assert (k = l) by lia. congruence.
  Qed.
  Lemma cmp_eqneq op a b a' b' : In op ["="; "!="] -> (a = b <-> a' = b') -> (compare_vals op a b <-> compare_vals op a' b').
  Proof. intros [<-|[<-|[]]] H; unfold compare_vals; cbn; tauto. Qed.
  Lemma string_comparison_ok op l r : In op ["="; "!="] -> string_comparison D l r -> forall ctx,
    exists b, enc fv ctx (NCmp op l r) = Some b /\ forall i, holds s i (NCmp op l r) <-> holds s' i b.
  Proof.
    intros O C ctx. cbn [enc]. destruct C as [x c dom l r L R Dx I|x c dom l r L R Dx I|x y dom l r L R Dx Dy].
    - apply index_of_in in I. destruct I as [k K].
      rewrite (enc_pure fv l) by (eapply nexts_no_str; eauto).
      destruct (nexts_enc_str fv (Some l) c r (str_nat k) R) as (b & B1 & B2).
      { cbn [enc_const]. rewrite (nexts_leftmost _ _ L eq_refl). cbn [is_term]. rewrite HD, Dx, K. reflexivity. }
      rewrite B1. eexists. split; [reflexivity|]. intro i. cbn [holds]. rewrite (nexts_val_str s i c r R), B2, num_text_str_nat.
      destruct (nexts_val_var x l L) as [n N]. rewrite !N. cbn [option_map]. apply cmp_eqneq; auto.
      eapply enc_const_eq; eauto.
    - apply index_of_in in I. destruct I as [k K].
      rewrite (proj1 (nexts_term_eqb x c r l R L)). rewrite (enc_pure fv r) by (eapply nexts_no_str; eauto).
      destruct (nexts_enc_str fv (Some r) c l (str_nat k) L) as (b & B1 & B2).
      { cbn [enc_const]. rewrite (nexts_leftmost _ _ R eq_refl). cbn [is_term]. rewrite HD, Dx, K. reflexivity. }
      rewrite B1. eexists. split; [reflexivity|]. intro i. cbn [holds]. rewrite (nexts_val_str s i c l L), B2, num_text_str_nat.
      destruct (nexts_val_var x r R) as [n N]. rewrite !N. cbn [option_map]. apply cmp_eqneq; auto.
      pose proof (enc_const_eq (n + i) x c dom k Dx K) as Q. split; intro E; symmetry; symmetry in E; apply Q; exact E.
    - rewrite (enc_pure fv l) by (eapply nexts_no_str; eauto). rewrite (enc_pure fv r) by (eapply nexts_no_str; eauto).
      eexists. split; [reflexivity|]. intro i. cbn [holds].
      destruct (nexts_val_var x l L) as [n N]. destruct (nexts_val_var y r R) as [m M]. rewrite !N, !M.
      apply cmp_eqneq; auto. eapply enc_var_eq; eauto.
  Qed.
  Lemma enc_meaning t : typed D t -> forall ctx,
    exists b, enc fv ctx t = Some b /\ forall i, holds s i t <-> holds s' i b.
  Proof.
    induction 1 as [x|v|op a T IH|op l r Tl IHl Tr IHr|op a b c Ta IHa Tb IHb Tc IHc|t P|op l r O C]; intro ctx.
    - eexists. split; [reflexivity|]. intro i. cbn [holds]. pose proof (He i x) as E. destruct (D x) as [l|]; [|rewrite E; tauto].
      destruct E as (v & k & -> & _ & ->). split; discriminate.
    - eexists. split; [reflexivity|]. cbn [holds]. tauto.
    - destruct (IH ctx) as (b & B1 & B2). cbn [enc]. rewrite B1. eexists. split; [reflexivity|]. intro i. cbn [holds].
      destruct (uconn_of op) as [[]|]; try tauto; [rewrite B2; tauto|apply B2|apply always_iff; auto|apply eventually_iff; auto].
    - destruct (IHl (Some (if term_eqb r l then l else r))) as (b & B1 & B2). destruct (IHr (Some l)) as (b' & B1' & B2').
      cbn [enc]. rewrite B1, B1'. eexists. split; [reflexivity|]. intro i. cbn [holds].
      destruct (conn_of op) as [[]|]; try tauto; try (rewrite B2, B2'; tauto).
      + apply until_iff; auto.
      + rewrite (until_iff _ (fun j => holds s' j b) _ (fun j => holds s' j b')) by auto. rewrite (always_iff _ (fun j => holds s' j b)) by auto. tauto.
      + split; intros H j J; (destruct (H j J) as [K|(k & K1 & K2)]; [left; apply B2'; auto|right; exists k; split; [auto|apply B2; auto]]).
    - destruct (IHa ctx) as (b1 & B1 & B1'). destruct (IHb ctx) as (b2 & B2 & B2'). destruct (IHc ctx) as (b3 & B3 & B3').
      cbn [enc]. rewrite B1, B2, B3. eexists. split; [reflexivity|]. intro i. cbn [holds]. rewrite B1', B2', B3'. tauto.
    - destruct P as [P1 P2]. rewrite enc_pure by auto. eexists. split; [reflexivity|]. intro i. apply holds_ext.
      intros j x X. specialize (He j x). rewrite P2 in He; [auto|]. clear -X.
      induction t; cbn [vars] in X; rewrite ?in_app_iff in X; try contradiction.
      + destruct X as [<-|[]]; constructor.
      + constructor; auto.
      + destruct X; [apply sub_bin_l|apply sub_bin_r]; auto.
      + destruct X; [apply sub_cmp_l|apply sub_cmp_r]; auto.
      + destruct X; [apply sub_ar_l|apply sub_ar_r]; auto.
      + destruct X as [|[]]; eauto using sub.
    - apply string_comparison_ok; auto.
  Qed.
End meaning.

Lemma enc_total D fv : (forall x, lookup x fv = D x) -> forall t, typed D t -> forall ctx, exists b, enc fv ctx t = Some b.
Proof.
  intros HD. induction 1 as [x|v|op a T IH|op l r Tl IHl Tr IHr|op a b c Ta IHa Tb IHb Tc IHc|t P|op l r O C]; intro ctx; cbn [enc]; eauto.
  - destruct (IH ctx) as [b ->]. cbn. eauto.
  - destruct (IHl (Some (if term_eqb r l then l else r))) as [b ->]. destruct (IHr (Some l)) as [b' ->]. eauto.
  - destruct (IHa ctx) as [? ->]. destruct (IHb ctx) as [? ->]. destruct (IHc ctx) as [? ->]. eauto.
  - destruct P as [P _]. rewrite enc_pure by auto. eauto.
  - destruct C as [x c dom l r L R Dx I|x c dom l r L R Dx I|x y dom l r L R Dx Dy].
    + rewrite (enc_pure fv l) by (eapply nexts_no_str; eauto). apply index_of_in in I. destruct I as [k K].
      destruct (nexts_enc_str fv (Some l) c r (str_nat k) R) as (b & -> & _); [|eauto].
      cbn [enc_const]. rewrite (nexts_leftmost _ _ L eq_refl). cbn [is_term]. rewrite HD, Dx, K. reflexivity.
    + rewrite (proj1 (nexts_term_eqb x c r l R L)). rewrite (enc_pure fv r) by (eapply nexts_no_str; eauto).
      apply index_of_in in I. destruct I as [k K].
      destruct (nexts_enc_str fv (Some r) c l (str_nat k) L) as (b & -> & _); [|eauto].
      cbn [enc_const]. rewrite (nexts_leftmost _ _ R eq_refl). cbn [is_term]. rewrite HD, Dx, K. reflexivity.
    + rewrite (enc_pure fv l) by (eapply nexts_no_str; eauto). rewrite (enc_pure fv r) by (eapply nexts_no_str; eauto). eauto.
Qed.

Lemma lookup_finite vs x : NoDup (map fst vs) ->
  lookup x (flat_map (fun kv : string * dom => match snd kv with DEnum l => [(fst kv, l)] | _ => [] end) vs) =
  match lookup x vs with Some (DEnum l) => Some l | _ => None end.
Proof.
  induction vs as [|[k d] vs IH]; intro N; [reflexivity|]. cbn [map fst] in N. apply NoDup_cons_iff in N. destruct N as [N1 N].
  cbn [flat_map snd fst lookup]. specialize (IH N). destruct (x =? k)%string eqn:E.
  - apply String.eqb_eq in E. subst k. apply lookup_none_iff in N1. rewrite N1 in IH.
    destruct d; cbn [app lookup]; auto. rewrite String.eqb_refl. auto.
  - destruct d; cbn [app lookup]; auto. rewrite E. auto.
Qed.
Lemma find_lookup {A} x (l : list (string * A)) : find (fun p => (fst p =? x)%string) l = option_map (fun v => (x, v)) (lookup x l).
Proof.
  induction l as [|[k v] l IH]; cbn [find lookup fst]; auto. rewrite String.eqb_sym. destruct (x =? k)%string eqn:E; auto.
  apply String.eqb_eq in E. subst. reflexivity.
Qed.
Lemma finite_vars_enums g : NoDup (map fst (env_vars g)) -> NoDup (map fst (sys_vars g)) ->
  forall x, lookup x (finite_vars g) = spec_enums g x.
Proof.
  intros Ne Ns x. unfold finite_vars, vardoms. rewrite lookup_finite by (apply dupdate_nodup; auto).
  rewrite lookup_dupdate by auto. unfold spec_enums. rewrite !find_lookup.
  destruct (lookup x (sys_vars g)) as [[]|]; cbn [option_map]; auto.
  destruct (lookup x (env_vars g)) as [[]|]; reflexivity.
Qed.

Lemma enc_sub fv t u : sub u t -> forall ctx b, enc fv ctx t = Some b -> exists ctx' b', enc fv ctx' u = Some b'.
Proof.
  induction 1; intros ctx x Q; cbn [enc] in Q; eauto;
    repeat match type of Q with
    | option_map _ (enc fv ?c ?t) = _ => destruct (enc fv c t) eqn:?; [|discriminate]
    | match enc fv ?c ?t with _ => _ end = _ => destruct (enc fv c t) eqn:?; [|discriminate]
    end; eauto.
Qed.
Lemma nexts_enc_none fv ctx c t : nexts (NStr c) t -> enc_const fv ctx c = None -> enc fv ctx t = None.
Proof. intros H E. induction H; cbn [enc]; [rewrite E|rewrite IHnexts]; reflexivity. Qed.
Lemma mapr_err {A B} (f : A -> res B) l x e : In x l -> f x = Err e -> exists e', mapr f l = Err e'.
Proof.
  induction l as [|y l IH]; intros I H; [destruct I|]. cbn [mapr]. destruct I as [->|I].
  - rewrite H. cbn. eauto.
  - destruct (f y); cbn [bind]; [|eauto]. destruct (IH I H) as [e' ->]. cbn. eauto.
Qed.
Lemma bad_comparison fv t op l r x c :
  (nexts (NVar x) l /\ nexts (NStr c) r \/ nexts (NStr c) l /\ nexts (NVar x) r) ->
  (forall dom, lookup x fv = Some dom -> ~ In c dom) -> sub (NCmp op l r) t -> enc fv None t = None.
Proof.
  intros H N S. destruct (enc fv None t) as [b|] eqn:E; [|auto]. exfalso.
  destruct (enc_sub _ _ _ S _ _ E) as (ctx & b' & E'). cbn [enc] in E'.
  assert (C : forall w, leftmost_n w = NVar x -> enc_const fv (Some w) c = None).
  { intros w W. cbn [enc_const]. rewrite W. cbn [is_term]. destruct (lookup x fv) as [dom|] eqn:L; [|auto].
    destruct (index_of c dom) as [k|] eqn:K; [|auto]. exfalso. apply (N dom eq_refl). apply index_of_in. eauto. }
  destruct H as [[L R]|[L R]].
  - rewrite (nexts_enc_none fv (Some l) c r R) in E' by (apply C; apply (nexts_leftmost _ _ L eq_refl)).
    destruct (enc fv _ l); discriminate.
  - rewrite (proj1 (nexts_term_eqb x c r l R L)) in E'.
    rewrite (nexts_enc_none fv (Some r) c l L) in E' by (apply C; apply (nexts_leftmost _ _ R eq_refl)). discriminate.
Qed.
