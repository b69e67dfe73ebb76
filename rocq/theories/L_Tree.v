(** Proofs about the graph form of syntax trees. *)
From Coq Require Import List String Bool Arith Lia Permutation.
From Verif Require Import M_Base M_Ast M_Parser M_Spec M_Form M_Tree.
From Verif Require Import L_Gr1 L_Form.
Import ListNotations.
Open Scope string_scope.
Open Scope list_scope.

Lemma obj_eqb_eq a b : obj_eqb a b = true <-> a = b.
Proof. unfold obj_eqb. destruct (obj_eq_dec a b); split; congruence. Qed.
Lemma obj_eqb_neq a b : obj_eqb a b = false <-> a <> b.
Proof. unfold obj_eqb. destruct (obj_eq_dec a b); split; congruence. Qed.
Lemma obj_eqb_refl a : obj_eqb a a = true.
Proof. apply obj_eqb_eq. reflexivity. Qed.

(** * Subtrees and edges of a recursive tree *)
Definition kids (t : rast) : list edge :=
  match t with
  | RTerm _ _ => []
  | RUn _ _ a => [(robj t, robj a, 0)]
  | RBin _ _ _ a b => [(robj t, robj a, 0); (robj t, robj b, 1)]
  | RIte _ _ a b c => [(robj t, robj a, 0); (robj t, robj b, 1); (robj t, robj c, 2)]
  end.
Fixpoint edges_of (t : rast) : list edge :=
  kids t ++ match t with
            | RTerm _ _ => []
            | RUn _ _ a => edges_of a
            | RBin _ _ _ a b => edges_of a ++ edges_of b
            | RIte _ _ a b c => edges_of a ++ edges_of b ++ edges_of c
            end.
Inductive rsub : rast -> rast -> Prop :=
| rs_refl t : rsub t t
| rs_un u i op a : rsub u a -> rsub u (RUn i op a)
| rs_b1 u i k op a b : rsub u a -> rsub u (RBin i k op a b)
| rs_b2 u i k op a b : rsub u b -> rsub u (RBin i k op a b)
| rs_i1 u i op a b c : rsub u a -> rsub u (RIte i op a b c)
| rs_i2 u i op a b c : rsub u b -> rsub u (RIte i op a b c)
| rs_i3 u i op a b c : rsub u c -> rsub u (RIte i op a b c).
Global Hint Constructors rsub : rsub.

Lemma robj_in t : In (robj t) (robjs t).
Proof. destruct t; left; reflexivity. Qed.
Lemma rsub_in u t : rsub u t -> In (robj u) (robjs t).
Proof.
  induction 1; cbn [robjs]; try apply robj_in; right; rewrite ?in_app_iff; auto.
Qed.
Lemma in_rsub o t : In o (robjs t) -> exists u, rsub u t /\ robj u = o.
Proof.
  induction t; cbn [robjs]; intros [<-|H]; eauto with rsub; rewrite ?in_app_iff in H;
    firstorder eauto with rsub.
Qed.

Lemma kids_src t e : In e (kids t) -> src e = robj t.
Proof. destruct t; cbn [kids In]; intuition; subst; reflexivity. Qed.
Lemma kids_op t e : In e (kids t) -> forall h, snd (robj t) <> HTerm h.
Proof. destruct t; cbn [kids In]; intros H h; [contradiction|..]; discriminate. Qed.
Lemma edges_kids_of t e : In e (edges_of t) <-> exists u, rsub u t /\ In e (kids u).
Proof.
  induction t; cbn [edges_of]; rewrite ?app_nil_r, ?in_app_iff.
  - split; [eauto with rsub|]. intros (u & H & K). inversion H; subst. exact K.
  - rewrite IHt. split.
    + intros [H|(u & H & K)]; eauto with rsub.
    + intros (u & H & K). inversion H; subst; eauto.
  - rewrite IHt1, IHt2. split.
    + intros [H|[(u & H & K)|(u & H & K)]]; eauto with rsub.
    + intros (u & H & K). inversion H; subst; eauto.
  - rewrite IHt1, IHt2, IHt3. split.
    + intros [H|[(u & H & K)|[(u & H & K)|(u & H & K)]]]; eauto with rsub.
    + intros (u & H & K). inversion H; subst; eauto 6.
Qed.
Lemma edges_src_op t e : In e (edges_of t) -> forall h, snd (src e) <> HTerm h.
Proof.
  intro H. apply edges_kids_of in H. destruct H as (u & _ & K).
  rewrite (kids_src _ _ K). exact (kids_op _ _ K).
Qed.
Lemma kids_dst_sub t e : In e (kids t) -> exists u, rsub u t /\ robj u = dst e /\ u <> t.
Proof.
  destruct t; cbn [kids In]; intro H; repeat (destruct H as [<-|H]); try contradiction; cbn [dst fst snd];
    match goal with |- exists u, rsub u _ /\ robj u = robj ?x /\ _ => exists x end;
    (split; [eauto with rsub|split; [reflexivity|]]);
    let E := fresh in (intro E; apply (f_equal (fun t => List.length (robjs t))) in E; cbn [robjs List.length] in E;
    rewrite ?app_length in E; lia).
Qed.
Lemma rsub_trans a b : rsub a b -> forall c, rsub b c -> rsub a c.
Proof. intros H c K. induction K; eauto with rsub. Qed.
Lemma edges_in t e : In e (edges_of t) -> In (src e) (robjs t) /\ In (dst e) (robjs t).
Proof.
  intro H. apply edges_kids_of in H. destruct H as (u & R & K). split.
  - rewrite (kids_src _ _ K). apply rsub_in; auto.
  - destruct (kids_dst_sub _ _ K) as (v & V1 & <- & _). apply rsub_in. eapply rsub_trans; eauto.
Qed.

Lemma NoDup_app_iff {A} (a b : list A) :
  NoDup (a ++ b) <-> NoDup a /\ NoDup b /\ forall x, In x a -> In x b -> False.
Proof.
  induction a as [|x a IH]; cbn [app].
  - split; [intro H; split; [constructor|split; [auto|intros x []]]|tauto].
  - rewrite !NoDup_cons_iff, IH, in_app_iff. split.
    + intros (H1 & H2 & H3 & H4). repeat split; auto. intros y [<-|Hy] K; eauto.
    + intros ((H1 & H2) & H3 & H4). repeat split; auto.
      * intros [K|K]; [auto|]. eapply H4; eauto. left; auto.
      * intros y K1 K2. eapply H4; eauto. right; auto.
Qed.

(** With distinct objects, a subtree is determined by its root object. *)
Lemma rsub_unique t : NoDup (robjs t) -> forall u v, rsub u t -> rsub v t -> robj u = robj v -> u = v.
Proof.
  induction t; intros N u v Hu Hv E.
  - inversion Hu; inversion Hv; subst; auto.
  - cbn [robjs] in N. apply NoDup_cons_iff in N. destruct N as [N1 N2].
    inversion Hu; inversion Hv; subst; auto.
    + exfalso. apply N1. rewrite E. apply rsub_in; auto.
    + exfalso. apply N1. rewrite <- E. apply rsub_in; auto.
  - cbn [robjs] in N. apply NoDup_cons_iff in N. destruct N as [N1 N2].
    apply NoDup_app_iff in N2. destruct N2 as (N2 & N3 & N4). rewrite in_app_iff in N1.
    inversion Hu; inversion Hv; subst; auto.
    all: try solve [exfalso; apply N1; rewrite E; auto using rsub_in].
    all: try solve [exfalso; apply N1; rewrite <- E; auto using rsub_in].
    all: try solve [exfalso; apply (N4 (robj u)); [apply rsub_in; auto|rewrite E; apply rsub_in; auto]].
    all: try solve [exfalso; apply (N4 (robj v)); [apply rsub_in; auto|rewrite <- E; apply rsub_in; auto]].
  - cbn [robjs] in N. apply NoDup_cons_iff in N. destruct N as [N1 N2].
    apply NoDup_app_iff in N2. destruct N2 as (N2 & N3 & N4).
    apply NoDup_app_iff in N3. destruct N3 as (N3 & N5 & N6). rewrite !in_app_iff in N1.
    assert (N4' : forall x, In x (robjs t1) -> In x (robjs t2) \/ In x (robjs t3) -> False).
    { intros x K1 K2. apply (N4 x K1). rewrite in_app_iff. exact K2. }
    inversion Hu; inversion Hv; subst; auto.
    all: try solve [exfalso; apply N1; rewrite E; auto using rsub_in].
    all: try solve [exfalso; apply N1; rewrite <- E; auto using rsub_in].
    all: try solve [exfalso; apply (N4' (robj u)); [apply rsub_in; auto|rewrite E; auto using rsub_in]].
    all: try solve [exfalso; apply (N4' (robj v)); [apply rsub_in; auto|rewrite <- E; auto using rsub_in]].
    all: try solve [exfalso; apply (N6 (robj u)); [apply rsub_in; auto|rewrite E; auto using rsub_in]].
    all: try solve [exfalso; apply (N6 (robj v)); [apply rsub_in; auto|rewrite <- E; auto using rsub_in]].
Qed.

(** Outgoing edges of a node of a tree are the edges to its children. *)
Lemma edges_kids t : NoDup (robjs t) -> forall u, rsub u t -> forall e,
  In e (edges_of t) /\ src e = robj u <-> In e (kids u).
Proof.
  intros N u R e. split.
  - intros [H E]. apply edges_kids_of in H. destruct H as (v & V & K).
    rewrite (kids_src _ _ K) in E. rewrite (rsub_unique t N u v); auto.
  - intro K. split; [apply edges_kids_of; eauto|apply kids_src; auto].
Qed.

(** The root has no incoming edge; every other node has exactly one. *)
Lemma root_no_in t : NoDup (robjs t) -> forall e, In e (edges_of t) -> dst e <> robj t.
Proof.
  intros N e H E. apply edges_kids_of in H. destruct H as (u & R & K).
  destruct (kids_dst_sub _ _ K) as (v & V1 & V2 & V3).
  assert (v = t) by (apply (rsub_unique t N); eauto using rsub_trans with rsub; congruence). subst v.
  apply V3. clear -R V1.
  assert (L : forall a b, rsub a b -> a = b \/ List.length (robjs a) < List.length (robjs b)).
  { clear. induction 1; auto; right; destruct IHrsub; subst; cbn [robjs List.length]; rewrite ?app_length; lia. }
  destruct (L _ _ R), (L _ _ V1); auto; lia.
Qed.

Lemma root_in_false t e : dst e = robj t -> In e (edges_of t) -> NoDup (robjs t) -> False.
Proof. intros E H N. exact (root_no_in t N e H E). Qed.

Ltac nodup_bin N := cbn [robjs] in N; apply NoDup_cons_iff in N; let M := fresh in destruct N as [_ M];
  apply NoDup_app_iff in M; destruct M as (N1 & N2 & N3).
Lemma uniq_in t : NoDup (robjs t) -> forall o, In o (robjs t) ->
  o = robj t \/ exists e, In e (edges_of t) /\ dst e = o /\
    forall e', In e' (edges_of t) -> dst e' = o -> e' = e.
Proof.
  induction t; intros N o H.
  - destruct H as [<-|[]]; auto.
  - cbn [robjs] in H. destruct H as [<-|H]; [auto|right].
    pose proof N as N0. cbn [robjs] in N. apply NoDup_cons_iff in N. destruct N as [N1 N2].
    destruct (IHt N2 o H) as [->|(e & E1 & E2 & E3)].
    + eexists. split; [left; reflexivity|]. split; [reflexivity|].
      intros e' [<-|K] D; [auto|]. cbn [app] in K. exfalso. eapply root_in_false; eauto.
    + exists e. split; [right; exact E1|]. split; [exact E2|]. intros e' [<-|K] D; [|auto].
      cbn in D. subst o. exfalso. eapply root_in_false; eauto.
  - cbn [robjs] in H. destruct H as [<-|H]; [auto|right].
    nodup_bin N. apply in_app_iff in H. destruct H as [H|H].
    + destruct (IHt1 N1 o H) as [->|(e & E1 & E2 & E3)].
      * eexists. split; [left; reflexivity|]. split; [reflexivity|].
        cbn [edges_of kids app]. intros e' K D. cbn [In] in K. rewrite in_app_iff in K.
        destruct K as [<-|[<-|[K|K]]]; auto; exfalso.
        -- cbn in D. apply (N3 (robj t1)); [apply robj_in|]. rewrite <- D. apply robj_in.
        -- eapply root_in_false; eauto.
        -- apply (N3 (robj t1)); [apply robj_in|]. rewrite <- D. apply edges_in; auto.
      * exists e. cbn [edges_of kids app In]. rewrite in_app_iff. split; [auto|]. split; [exact E2|].
        intros e' K D. rewrite in_app_iff in K. destruct K as [<-|[<-|[K|K]]]; auto; exfalso.
        -- cbn in D. eapply root_in_false; [rewrite E2; symmetry; exact D|..]; eauto.
        -- cbn in D. apply (N3 o); auto. rewrite <- D. apply robj_in.
        -- apply (N3 o H). rewrite <- D. apply edges_in; auto.
    + destruct (IHt2 N2 o H) as [->|(e & E1 & E2 & E3)].
      * eexists. split; [right; left; reflexivity|]. split; [reflexivity|].
        cbn [edges_of kids app]. intros e' K D. cbn [In] in K. rewrite in_app_iff in K.
        destruct K as [<-|[<-|[K|K]]]; auto; exfalso.
        -- cbn in D. apply (N3 (robj t1)); [apply robj_in|]. rewrite D. apply robj_in.
        -- apply (N3 (robj t2)); [|apply robj_in]. rewrite <- D. apply edges_in; auto.
        -- eapply root_in_false; eauto.
      * exists e. cbn [edges_of kids app In]. rewrite in_app_iff. split; [auto|]. split; [exact E2|].
        intros e' K D. rewrite in_app_iff in K. destruct K as [<-|[<-|[K|K]]]; auto; exfalso.
        -- cbn in D. apply (N3 o); auto. rewrite <- D. apply robj_in.
        -- cbn in D. eapply root_in_false; [rewrite E2; symmetry; exact D|..]; eauto.
        -- apply (N3 o); auto. rewrite <- D. apply edges_in; auto.
  - cbn [robjs] in H. destruct H as [<-|H]; [auto|right].
    nodup_bin N. apply NoDup_app_iff in N2. destruct N2 as (N2 & N4 & N5).
    assert (D12 : forall x, In x (robjs t1) -> In x (robjs t2) -> False).
    { intros x K1 K2. apply (N3 x K1). apply in_app_iff; auto. }
    assert (D13 : forall x, In x (robjs t1) -> In x (robjs t3) -> False).
    { intros x K1 K2. apply (N3 x K1). apply in_app_iff; auto. }
    rename N5 into D23.
    assert (R : forall (P : edge -> Prop) x y z es,
              P x -> P y -> P z -> (forall e, In e (edges_of t1) -> P e) ->
              (forall e, In e (edges_of t2) -> P e) -> (forall e, In e (edges_of t3) -> P e) ->
              es = x :: y :: z :: (edges_of t1 ++ edges_of t2 ++ edges_of t3) -> forall e, In e es -> P e).
    { intros P x y z es P1 P2 P3 P4 P5 P6 -> e K. cbn [In] in K. rewrite !in_app_iff in K.
      destruct K as [<-|[<-|[<-|[K|[K|K]]]]]; auto. }
    cbn [edges_of kids app] in *.
    apply in_app_iff in H. rewrite in_app_iff in H. destruct H as [H|[H|H]].
    + destruct (IHt1 N1 o H) as [->|(e & E1 & E2 & E3)].
      * eexists. split; [left; reflexivity|]. split; [reflexivity|].
        match goal with |- forall e', In e' _ -> @?P e' => refine (R P _ _ _ _ _ _ _ _ _ _ eq_refl) end; auto; cbn [dst fst snd].
        -- intro D. exfalso. apply (D12 (robj t1)); [|rewrite <- D]; apply robj_in.
        -- intro D. exfalso. apply (D13 (robj t1)); [|rewrite <- D]; apply robj_in.
        -- intros e K D. exfalso. eapply root_in_false; eauto.
        -- intros e K D. exfalso. apply (D12 (robj t1)); [apply robj_in|]. rewrite <- D. apply edges_in; auto.
        -- intros e K D. exfalso. apply (D13 (robj t1)); [apply robj_in|]. rewrite <- D. apply edges_in; auto.
      * exists e. split; [cbn [In]; rewrite !in_app_iff; auto 8|]. split; [exact E2|].
        match goal with |- forall e', In e' _ -> @?P e' => refine (R P _ _ _ _ _ _ _ _ _ _ eq_refl) end; auto; cbn [dst fst snd].
        -- intro D. exfalso. eapply root_in_false; [rewrite E2; symmetry; exact D|..]; eauto.
        -- intro D. exfalso. apply (D12 o); auto. rewrite <- D. apply robj_in.
        -- intro D. exfalso. apply (D13 o); auto. rewrite <- D. apply robj_in.
        -- intros e' K D. exfalso. apply (D12 o); auto. rewrite <- D. apply edges_in; auto.
        -- intros e' K D. exfalso. apply (D13 o); auto. rewrite <- D. apply edges_in; auto.
    + destruct (IHt2 N2 o H) as [->|(e & E1 & E2 & E3)].
      * eexists. split; [right; left; reflexivity|]. split; [reflexivity|].
        match goal with |- forall e', In e' _ -> @?P e' => refine (R P _ _ _ _ _ _ _ _ _ _ eq_refl) end; auto; cbn [dst fst snd].
        -- intro D. exfalso. apply (D12 (robj t1)); [|rewrite D]; apply robj_in.
        -- intro D. exfalso. apply (D23 (robj t2)); [|rewrite <- D]; apply robj_in.
        -- intros e K D. exfalso. apply (D12 (robj t2)); [|apply robj_in]. rewrite <- D. apply edges_in; auto.
        -- intros e K D. exfalso. eapply root_in_false; eauto.
        -- intros e K D. exfalso. apply (D23 (robj t2)); [apply robj_in|]. rewrite <- D. apply edges_in; auto.
      * exists e. split; [cbn [In]; rewrite !in_app_iff; auto 8|]. split; [exact E2|].
        match goal with |- forall e', In e' _ -> @?P e' => refine (R P _ _ _ _ _ _ _ _ _ _ eq_refl) end; auto; cbn [dst fst snd].
        -- intro D. exfalso. apply (D12 o); auto. rewrite <- D. apply robj_in.
        -- intro D. exfalso. eapply root_in_false; [rewrite E2; symmetry; exact D|..]; eauto.
        -- intro D. exfalso. apply (D23 o); auto. rewrite <- D. apply robj_in.
        -- intros e' K D. exfalso. apply (D12 o); auto. rewrite <- D. apply edges_in; auto.
        -- intros e' K D. exfalso. apply (D23 o); auto. rewrite <- D. apply edges_in; auto.
    + destruct (IHt3 N4 o H) as [->|(e & E1 & E2 & E3)].
      * eexists. split; [right; right; left; reflexivity|]. split; [reflexivity|].
        match goal with |- forall e', In e' _ -> @?P e' => refine (R P _ _ _ _ _ _ _ _ _ _ eq_refl) end; auto; cbn [dst fst snd].
        -- intro D. exfalso. apply (D13 (robj t1)); [|rewrite D]; apply robj_in.
        -- intro D. exfalso. apply (D23 (robj t2)); [|rewrite D]; apply robj_in.
        -- intros e K D. exfalso. apply (D13 (robj t3)); [|apply robj_in]. rewrite <- D. apply edges_in; auto.
        -- intros e K D. exfalso. apply (D23 (robj t3)); [|apply robj_in]. rewrite <- D. apply edges_in; auto.
        -- intros e K D. exfalso. eapply root_in_false; eauto.
      * exists e. split; [cbn [In]; rewrite !in_app_iff; auto 8|]. split; [exact E2|].
        match goal with |- forall e', In e' _ -> @?P e' => refine (R P _ _ _ _ _ _ _ _ _ _ eq_refl) end; auto; cbn [dst fst snd].
        -- intro D. exfalso. apply (D13 o); auto. rewrite <- D. apply robj_in.
        -- intro D. exfalso. apply (D23 o); auto. rewrite <- D. apply robj_in.
        -- intro D. exfalso. eapply root_in_false; [rewrite E2; symmetry; exact D|..]; eauto.
        -- intros e' K D. exfalso. apply (D13 o); auto. rewrite <- D. apply edges_in; auto.
        -- intros e' K D. exfalso. apply (D23 o); auto. rewrite <- D. apply edges_in; auto.
Qed.

(** * Graph operations *)
Lemma add_node_edges o g : g_edges (add_node o g) = g_edges g.
Proof. unfold add_node. destruct (in_dec _ _ _); reflexivity. Qed.
Lemma add_node_root o g : g_root (add_node o g) = g_root g.
Proof. unfold add_node. destruct (in_dec _ _ _); reflexivity. Qed.
Lemma add_node_nodes o g x : In x (g_nodes (add_node o g)) <-> x = o \/ In x (g_nodes g).
Proof.
  unfold add_node. destruct (in_dec _ _ _); cbn [g_nodes]; rewrite ?in_app_iff; cbn [In]; intuition subst; auto.
Qed.
Lemma nodup_snoc {A} (l : list A) x : NoDup l -> ~ In x l -> NoDup (l ++ [x]).
Proof.
  intros N H. apply NoDup_app_iff. split; [auto|]. split; [constructor; [intros []|constructor]|].
  intros y K [<-|[]]. auto.
Qed.
Lemma add_node_nodup o g : NoDup (g_nodes g) -> NoDup (g_nodes (add_node o g)).
Proof. unfold add_node. destruct (in_dec _ _ _); cbn [g_nodes]; auto using nodup_snoc. Qed.
Lemma add_edge_edges u v k g e : In e (g_edges (add_edge u v k g)) <-> e = (u, v, k) \/ In e (g_edges g).
Proof.
  unfold add_edge. destruct (in_dec _ _ _) as [I|I]; cbn [g_edges]; rewrite !add_node_edges in *.
  - intuition subst; auto.
  - rewrite in_app_iff. cbn [In]. intuition.
Qed.
Lemma add_edge_nodup u v k g : NoDup (g_edges g) -> NoDup (g_edges (add_edge u v k g)).
Proof.
  intro N. unfold add_edge. destruct (in_dec _ _ _) as [I|I]; cbn [g_edges]; rewrite !add_node_edges in *; auto using nodup_snoc.
Qed.
Lemma add_edge_root u v k g : g_root (add_edge u v k g) = g_root g.
Proof. unfold add_edge. destruct (in_dec _ _ _); cbn [g_root]; rewrite ?add_node_root; auto. Qed.
Lemma add_edge_nodes u v k g x : In x (g_nodes (add_edge u v k g)) <-> x = u \/ x = v \/ In x (g_nodes g).
Proof.
  unfold add_edge. destruct (in_dec _ _ _); cbn [g_nodes]; rewrite ?add_node_nodes; intuition.
Qed.
Lemma add_edge_nodes_nodup u v k g : NoDup (g_nodes g) -> NoDup (g_nodes (add_edge u v k g)).
Proof. intro N. unfold add_edge. destruct (in_dec _ _ _); cbn [g_nodes]; auto using add_node_nodup. Qed.

Lemma recurse_ok t : forall g,
  g_root (recurse t g) = g_root g /\
  (NoDup (g_edges g) -> NoDup (g_edges (recurse t g))) /\
  (NoDup (g_nodes g) -> NoDup (g_nodes (recurse t g))) /\
  (forall e, In e (g_edges (recurse t g)) <-> In e (g_edges g) \/ In e (edges_of t)) /\
  (forall o, In o (g_nodes (recurse t g)) <-> In o (g_nodes g) \/ In o (robjs t)).
Proof.
  induction t; intro g; cbn [recurse edges_of kids robjs].
  - rewrite add_node_root, add_node_edges. split; [auto|]. split; [auto|]. split; [apply add_node_nodup|].
    split; [cbn; tauto|]. intro o. rewrite add_node_nodes. cbn. intuition.
  - destruct (IHt (add_edge (i, HUn op) (robj t) 0 g)) as (A1 & A2 & A3 & A4 & A5).
    cbn [robj] in *. rewrite A1, add_edge_root. split; [auto|]. split; [auto using add_edge_nodup|].
    split; [auto using add_edge_nodes_nodup|]. split.
    + intro e. rewrite A4, add_edge_edges. cbn [app In]. intuition.
    + intro o. rewrite A5, add_edge_nodes. cbn [In]. pose proof (robj_in t). intuition (subst; auto).
  - cbn [robj]. set (g1 := add_edge (i, HBin k op) (robj t1) 0 g). set (g2 := recurse t1 g1).
    set (g3 := add_edge (i, HBin k op) (robj t2) 1 g2).
    destruct (IHt1 g1) as (A1 & A2 & A3 & A4 & A5). destruct (IHt2 g3) as (B1 & B2 & B3 & B4 & B5).
    rewrite B1. unfold g3 at 1. rewrite add_edge_root. unfold g2 at 1. rewrite A1. unfold g1 at 1. rewrite add_edge_root.
    split; [auto|]. split; [intro; apply B2, add_edge_nodup, A2, add_edge_nodup; auto|].
    split; [intro; apply B3, add_edge_nodes_nodup, A3, add_edge_nodes_nodup; auto|]. split.
    + intro e. rewrite B4. unfold g3. rewrite add_edge_edges. unfold g2. rewrite A4. unfold g1. rewrite add_edge_edges.
      rewrite !in_app_iff. cbn [In]. intuition.
    + intro o. rewrite B5. unfold g3. rewrite add_edge_nodes. unfold g2. rewrite A5. unfold g1. rewrite add_edge_nodes.
      cbn [In]. rewrite !in_app_iff. pose proof (robj_in t1). pose proof (robj_in t2). intuition (subst; auto).
  - cbn [robj]. set (g1 := add_edge (i, HIte op) (robj t1) 0 g). set (g2 := recurse t1 g1).
    set (g3 := add_edge (i, HIte op) (robj t2) 1 g2). set (g4 := recurse t2 g3).
    set (g5 := add_edge (i, HIte op) (robj t3) 2 g4).
    destruct (IHt1 g1) as (A1 & A2 & A3 & A4 & A5). destruct (IHt2 g3) as (B1 & B2 & B3 & B4 & B5).
    destruct (IHt3 g5) as (C1 & C2 & C3 & C4 & C5).
    rewrite C1. unfold g5 at 1. rewrite add_edge_root. unfold g4 at 1. rewrite B1.
    unfold g3 at 1. rewrite add_edge_root. unfold g2 at 1. rewrite A1. unfold g1 at 1. rewrite add_edge_root.
    split; [auto|]. split; [intro; apply C2, add_edge_nodup, B2, add_edge_nodup, A2, add_edge_nodup; auto|].
    split; [intro; apply C3, add_edge_nodes_nodup, B3, add_edge_nodes_nodup, A3, add_edge_nodes_nodup; auto|]. split.
    + intro e. rewrite C4. unfold g5. rewrite add_edge_edges. unfold g4. rewrite B4. unfold g3. rewrite add_edge_edges.
      unfold g2. rewrite A4. unfold g1. rewrite add_edge_edges.
      rewrite !in_app_iff. cbn [In]. intuition.
    + intro o. rewrite C5. unfold g5. rewrite add_edge_nodes. unfold g4. rewrite B5. unfold g3. rewrite add_edge_nodes.
      unfold g2. rewrite A5. unfold g1. rewrite add_edge_nodes.
      cbn [In]. rewrite !in_app_iff. pose proof (robj_in t1). pose proof (robj_in t2). pose proof (robj_in t3).
      intuition (subst; auto).
Qed.
Lemma from_rec_ok t :
  g_root (from_recursive_ast t) = robj t /\ NoDup (g_edges (from_recursive_ast t)) /\
  NoDup (g_nodes (from_recursive_ast t)) /\
  (forall e, In e (g_edges (from_recursive_ast t)) <-> In e (edges_of t)) /\
  (forall o, In o (g_nodes (from_recursive_ast t)) <-> In o (robjs t)).
Proof.
  unfold from_recursive_ast. destruct (recurse_ok t (mkgraph (robj t) [] [])) as (A1 & A2 & A3 & A4 & A5).
  rewrite A1. split; [auto|]. split; [apply A2; constructor|]. split; [apply A3; constructor|]. split.
  - intro e. rewrite A4. cbn. tauto.
  - intro o. rewrite A5. cbn. tauto.
Qed.

(** * Sorting by key *)
Lemma insert_in e l x : In x (insert_edge e l) <-> x = e \/ In x l.
Proof.
  induction l as [|y l IH]; cbn [insert_edge In]; [intuition|].
  destruct (Nat.leb (key e) (key y)); cbn [In]; [|rewrite IH]; intuition.
Qed.
Lemma insert_nodup e l : ~ In e l -> NoDup l -> NoDup (insert_edge e l).
Proof.
  induction l as [|y l IH]; cbn [insert_edge]; intros H N; [constructor; auto|].
  destruct (Nat.leb (key e) (key y)); [constructor; auto|]. apply NoDup_cons_iff in N. destruct N.
  constructor; [rewrite insert_in; cbn in H; intuition|apply IH; cbn in H; auto].
Qed.
Fixpoint ascending (l : list edge) : Prop :=
  match l with [] => True | x :: r => (forall y, In y r -> key x <= key y) /\ ascending r end.
Lemma insert_sorted e l : ascending l -> ascending (insert_edge e l).
Proof.
  induction l as [|y l IH]; cbn [insert_edge ascending]; intros H; [split; [intros ? []|auto]|].
  destruct H as [H1 H2]. destruct (Nat.leb (key e) (key y)) eqn:E.
  - apply Nat.leb_le in E. cbn [ascending]. split; [|auto]. intros z [<-|Hz]; auto. specialize (H1 z Hz). lia.
  - apply Nat.leb_gt in E. cbn [ascending]. split; [|auto]. intros z Hz. apply insert_in in Hz.
    destruct Hz as [->|Hz]; [lia|auto].
Qed.
Lemma sort_in l x : In x (sort_edges l) <-> In x l.
Proof. unfold sort_edges. induction l as [|y l IH]; cbn [fold_right In]; [tauto|]. rewrite insert_in, IH. intuition. Qed.
Lemma sort_nodup l : NoDup l -> NoDup (sort_edges l).
Proof.
  unfold sort_edges. induction 1 as [|y l H N IH]; cbn [fold_right]; [constructor|]. apply insert_nodup; auto.
  rewrite (sort_in l). exact H.
Qed.
Lemma sort_sorted l : ascending (sort_edges l).
Proof. unfold sort_edges. induction l; cbn [fold_right]; [exact I|]. apply insert_sorted; auto. Qed.
Fixpoint strict (l : list edge) : Prop :=
  match l with [] => True | x :: r => (forall y, In y r -> key x < key y) /\ strict r end.
Lemma sorted_unique : forall l l', NoDup l -> ascending l -> strict l' ->
  (forall x, In x l <-> In x l') -> l = l'.
Proof.
  induction l as [|x l IH]; intros l' N A S H.
  - destruct l' as [|y l']; [auto|]. exfalso. apply (proj2 (H y)). left; auto.
  - destruct l' as [|y l']; [exfalso; apply (proj1 (H x)); left; auto|].
    apply NoDup_cons_iff in N. destruct N as [N1 N2]. cbn [ascending strict] in A, S. destruct A as [A1 A2], S as [S1 S2].
    assert (x = y).
    { destruct (proj1 (H x) (or_introl eq_refl)) as [E|E]; [auto|].
      destruct (proj2 (H y) (or_introl eq_refl)) as [F|F]; [auto|].
      specialize (S1 _ E). specialize (A1 _ F). lia. }
    subst y. f_equal. apply IH; auto. intro z. split; intro Hz.
    + destruct (proj1 (H z) (or_intror Hz)) as [->|K]; [contradiction|auto].
    + destruct (proj2 (H z) (or_intror Hz)) as [->|K]; [|auto]. specialize (S1 _ Hz). lia.
Qed.
Lemma kids_strict t : strict (kids t).
Proof. destruct t; cbn [kids strict In]; repeat split; intros y H; intuition (subst; cbn; lia). Qed.
Lemma sort_kids g u : NoDup (g_edges g) ->
  (forall e, In e (g_edges g) /\ src e = robj u <-> In e (kids u)) ->
  sort_edges (out_edges g (robj u)) = kids u.
Proof.
  intros N H. apply sorted_unique; [apply sort_nodup, NoDup_filter, N|apply sort_sorted|apply kids_strict|].
  intro e. rewrite sort_in. unfold out_edges. rewrite filter_In, obj_eqb_eq. apply H.
Qed.

(** * Reading a tree back *)
Fixpoint rdepth (t : rast) : nat :=
  match t with
  | RTerm _ _ => 1
  | RUn _ _ a => S (rdepth a)
  | RBin _ _ _ a b => S (Nat.max (rdepth a) (rdepth b))
  | RIte _ _ a b c => S (Nat.max (rdepth a) (Nat.max (rdepth b) (rdepth c)))
  end.
Lemma rdepth_le t : rdepth t <= List.length (robjs t).
Proof. induction t; cbn [rdepth robjs List.length]; rewrite ?app_length; lia. Qed.

(** Every node of [t] has exactly its children as successors in [g]. *)
Definition unfolds (g : graph) (t : rast) : Prop :=
  NoDup (g_edges g) /\
  forall u, rsub u t -> forall e, In e (g_edges g) /\ src e = robj u <-> In e (kids u).
Lemma to_rec_ok g : forall t n, unfolds g t -> rdepth t <= n -> to_recursive n g (robj t) = Ok (erase t).
Proof.
  induction t; intros [|n] [N H] L; cbn [rdepth] in L; try lia; cbn [to_recursive];
    rewrite (sort_kids g _ N (H _ (rs_refl _))); cbn [kids mapr dst fst snd bind].
  - reflexivity.
  - rewrite IHt; [reflexivity|split; [auto|intros; apply H; eauto with rsub]|lia].
  - rewrite IHt1, IHt2; [reflexivity|split; [auto|intros; apply H; eauto with rsub]|lia
      |split; [auto|intros; apply H; eauto with rsub]|lia].
  - rewrite IHt1, IHt2, IHt3; [reflexivity|split; [auto|intros; apply H; eauto with rsub]|lia
      |split; [auto|intros; apply H; eauto with rsub]|lia|split; [auto|intros; apply H; eauto with rsub]|lia].
Qed.

(** * Substitution *)
Fixpoint rsubst (m : list (string * rast)) (t : rast) : rast :=
  match t with
  | RTerm i (TVar v) => match lookup v m with Some u => u | None => t end
  | RTerm _ _ => t
  | RUn i op a => RUn i op (rsubst m a)
  | RBin i k op a b => RBin i k op (rsubst m a) (rsubst m b)
  | RIte i op a b c => RIte i op (rsubst m a) (rsubst m b) (rsubst m c)
  end.
Definition repl (m : list (string * rast)) (o : obj) : obj :=
  match snd o with
  | HTerm (TVar v) => match lookup v m with Some u => robj u | None => o end
  | _ => o
  end.
Lemma repl_robj m t : repl m (robj t) = robj (rsubst m t).
Proof. destruct t as [i [v|v|v|v]| | |]; cbn; auto. unfold repl. cbn. destruct (lookup v m); auto. Qed.

Lemma lookup_map {A B} (f : A -> B) v m : lookup v (map (fun p => (fst p, f (snd p))) m) = option_map f (lookup v m).
Proof. induction m as [|[k x] m IH]; cbn; auto. destruct (v =? k)%string; auto. Qed.
Lemma lookup_In {A} v (m : list (string * A)) x : lookup v m = Some x -> In (v, x) m.
Proof. apply lookup_in. Qed.

Definition rmem (o : obj) (D : list obj) : bool := if in_dec obj_eq_dec o D then true else false.
Definition replD (m : list (string * rast)) (D : list obj) (o : obj) : obj :=
  if rmem o D then repl m o else o.

Section subst.
  Variable t : rast.
  Variable m : list (string * rast).
  Hypothesis Nt : NoDup (robjs t).
  Hypothesis Nm : forall v u, lookup v m = Some u -> NoDup (robjs u).
  Hypothesis Dt : forall v u, lookup v m = Some u -> forall o, In o (robjs t) -> In o (robjs u) -> False.
  Hypothesis Dm : forall v u w x, lookup v m = Some u -> lookup w m = Some x -> v <> w ->
    forall o, In o (robjs u) -> In o (robjs x) -> False.

  Definition InE (D : list obj) (e : edge) : Prop :=
    (exists p v k, In (p, v, k) (edges_of t) /\ e = (p, replD m D v, k)) \/
    (exists i v u, In (i, HTerm (TVar v)) D /\ lookup v m = Some u /\ In e (edges_of u)).
  Definition Inv (D : list obj) (g : graph) : Prop :=
    NoDup (g_edges g) /\ (forall e, In e (g_edges g) <-> InE D e) /\ g_root g = replD m D (robj t).

  Lemma replD_cons_other D u v : v <> u -> replD m (u :: D) v = replD m D v.
  Proof.
    intro H. unfold replD, rmem. destruct (in_dec obj_eq_dec v (u :: D)) as [[I|I]|I], (in_dec obj_eq_dec v D) as [J|J];
      auto; try congruence. exfalso. apply I. right. auto.
  Qed.
  Lemma replD_cons_same D u : replD m (u :: D) u = repl m u.
  Proof. unfold replD, rmem. destruct (in_dec obj_eq_dec u (u :: D)) as [I|I]; auto. exfalso. apply I. left; auto. Qed.
  Lemma replD_out D u : ~ In u D -> replD m D u = u.
  Proof. intro H. unfold replD, rmem. destruct (in_dec obj_eq_dec u D); [contradiction|auto]. Qed.
  Lemma repl_case u : repl m u = u \/ exists v x, lookup v m = Some x /\ repl m u = robj x.
  Proof.
    unfold repl. destruct (snd u) as [[v|v|v|v]| | |]; auto. destruct (lookup v m) eqn:E; eauto.
  Qed.
  Lemma replD_target D v o : In o (robjs t) -> ~ In o D -> replD m D v = o -> v = o.
  Proof.
    intros Ho HD E. unfold replD in E. unfold rmem in E. destruct (in_dec obj_eq_dec v D) as [I|I]; [|auto].
    destruct (repl_case v) as [R|(w & x & L & R)]; [congruence|].
    exfalso. apply (Dt w x L o Ho). rewrite <- E, R. apply robj_in.
  Qed.

  Lemma inv_skip D u g : repl m u = u -> (forall i v, u = (i, HTerm (TVar v)) -> lookup v m = None) ->
    Inv D g -> Inv (u :: D) g.
  Proof.
    intros R L (N & E & Ro).
    assert (K : forall v, replD m (u :: D) v = replD m D v).
    { intro v. destruct (obj_eq_dec v u) as [->|H]; [|apply replD_cons_other; auto].
      rewrite replD_cons_same, R. unfold replD. destruct (rmem u D); auto. }
    split; [auto|]. split; [|rewrite K; auto].
    intro e. rewrite E. unfold InE. split.
    - intros [(p & v & k & H & ->)|(i & v & x & H & Q)].
      + left. exists p, v, k. rewrite K. auto.
      + right. exists i, v, x. split; [right; auto|auto].
    - intros [(p & v & k & H & ->)|(i & v & x & [H|H] & Q & W)].
      + left. exists p, v, k. rewrite K. auto.
      + exfalso. specialize (L i v H). congruence.
      + right. exists i, v, x. auto.
  Qed.

  Lemma fold_add_edges : forall es g,
    (NoDup (g_edges g) -> NoDup (g_edges (fold_left (fun g e => add_edge (src e) (dst e) (key e) g) es g))) /\
    (forall e, In e (g_edges (fold_left (fun g e => add_edge (src e) (dst e) (key e) g) es g)) <-> In e (g_edges g) \/ In e es) /\
    g_root (fold_left (fun g e => add_edge (src e) (dst e) (key e) g) es g) = g_root g.
  Proof.
    induction es as [|[[u v] k] es IH]; intro g; cbn [fold_left].
    - cbn [In]. tauto.
    - destruct (IH (add_edge u v k g)) as (A & B & C). cbn [src dst key fst snd].
      split; [intro; apply A, add_edge_nodup; auto|]. split.
      + intro e. rewrite B, add_edge_edges. cbn [In]. intuition.
      + rewrite C. apply add_edge_root.
  Qed.

  Lemma filter_single {A} (f : A -> bool) l e : NoDup l -> (forall x, In x l /\ f x = true <-> x = e) -> filter f l = [e].
  Proof.
    intros N H. assert (K : forall x, In x (filter f l) <-> x = e) by (intro; rewrite filter_In; auto).
    apply NoDup_filter with (f := f) in N. destruct (filter f l) as [|a [|b r]].
    - exfalso. apply (proj2 (K e)). auto.
    - f_equal. apply K. left; auto.
    - exfalso. apply NoDup_cons_iff in N. apply (proj1 N).
      rewrite (proj1 (K a) (or_introl eq_refl)), <- (proj1 (K b) (or_intror (or_introl eq_refl))). left; auto.
  Qed.
  Lemma filter_none {A} (f : A -> bool) l : (forall x, In x l -> f x = true -> False) -> filter f l = [].
  Proof.
    intro H. destruct (filter f l) eqn:E; auto. exfalso.
    assert (K : In a (filter f l)) by (rewrite E; left; auto). apply filter_In in K. destruct K. eauto.
  Qed.

  Lemma inv_step D i v x g : In (i, HTerm (TVar v)) (robjs t) -> ~ In (i, HTerm (TVar v)) D ->
    lookup v m = Some x -> Inv D g ->
    exists g', add_subtree (i, HTerm (TVar v)) (from_recursive_ast x) g = Ok g' /\ Inv ((i, HTerm (TVar v)) :: D) g'.
  Proof.
    set (leaf := (i, HTerm (TVar v)) : obj). intros Hin HD Hx (N & E & Ro).
    destruct (from_rec_ok x) as (X1 & _ & _ & X2 & _).
    assert (Rleaf : repl m leaf = robj x) by (unfold repl, leaf; cbn; rewrite Hx; auto).
    assert (T : forall D' e, InE D' e -> src e <> leaf).
    { intros D' e [(p & w & k & H & ->)|(j & w & u & _ & _ & H)] K.
      - apply (edges_src_op _ _ H (TVar v)). cbn in *. rewrite K. reflexivity.
      - apply (edges_src_op _ _ H (TVar v)). rewrite K. reflexivity. }
    unfold add_subtree. unfold out_edges. rewrite filter_none.
    2:{ intros e H K. apply obj_eqb_eq in K. apply E in H. eapply T; eauto. }
    destruct (fold_add_edges (g_edges (from_recursive_ast x)) g) as (F1 & F2 & F3).
    set (g1 := fold_left _ _ g) in *.
    assert (G1 : forall e, In e (g_edges g1) <-> InE D e \/ In e (edges_of x)).
    { intro e. rewrite F2, E, X2. tauto. }
    assert (Xl : forall e, In e (edges_of x) -> src e <> leaf /\ dst e <> leaf).
    { intros e H. apply edges_in in H. destruct H as [H1 H2]. split; intro K; [rewrite K in H1|rewrite K in H2]; eapply Dt; eauto. }
    assert (G1in : forall e, In e (g_edges g1) /\ dst e = leaf <-> In e (edges_of t) /\ dst e = leaf).
    { intro e. rewrite G1. split.
      - intros [[[(p & w & k & H & ->)|(j & w & u & _ & L & H)]|H] K].
        + cbn [dst fst snd] in *. assert (w = leaf) by (eapply replD_target; eauto). subst w.
          rewrite replD_out by auto. auto.
        + exfalso. apply edges_in in H. destruct H as [_ H]. rewrite K in H. eapply Dt; eauto.
        + exfalso. apply (proj2 (Xl e H)). auto.
      - intros [H K]. split; [|auto]. left. left. destruct e as [[p w] k]. cbn in K. subst w. exists p, leaf, k.
        rewrite replD_out by auto. auto. }
    (* the incoming edge *)
    unfold in_edges. destruct (uniq_in t Nt leaf Hin) as [Root|([[p w] k] & U1 & U2 & U3)].
    - (* the leaf is the whole tree *)
      rewrite filter_none.
      2:{ intros e H K. apply obj_eqb_eq in K. apply (root_no_in t Nt e); [apply G1in; auto|congruence]. }
      eexists. split; [reflexivity|]. split; [apply NoDup_filter; cbn; auto|]. split.
      + intro e. unfold remove_node. cbn [g_edges]. rewrite filter_In, G1, andb_true_iff, !negb_true_iff, !obj_eqb_neq.
        split.
        * intros [[H|H] [K1 K2]].
          -- destruct H as [(q & w & k & H & ->)|(j & w & u & J & L & H)].
             ++ left. exists q, w, k. split; [auto|]. rewrite replD_cons_other; auto. intros ->. cbn in K2.
                rewrite replD_out in K2 by auto. contradiction.
             ++ right. exists j, w, u. split; [right; auto|auto].
          -- right. exists i, v, x. split; [left; auto|auto].
        * intros [(q & w & k & H & ->)|(j & w & u & [J|J] & L & H)].
          -- assert (w <> leaf) by (intros ->; apply (root_no_in t Nt _ H); auto).
             rewrite replD_cons_other by auto. split; [left; left; exists q, w, k; auto|]. split.
             ++ cbn. intros ->. eapply edges_src_op; [exact H|reflexivity].
             ++ cbn. intro K. apply replD_target in K; auto.
          -- inversion J; subst. assert (u = x) by congruence. subst u. split; [right; auto|apply Xl; auto].
          -- split; [left; right; exists j, w, u; auto|]. apply edges_in in H. destruct H as [H1 H2].
             split; intro K; [rewrite K in H1|rewrite K in H2]; eapply (Dt w u L leaf); eauto.
      + cbn [g_root remove_node]. rewrite <- Root, replD_cons_same, Rleaf. exact X1.
    - cbn [dst fst snd] in U2. subst w.
      rewrite (filter_single _ _ (p, leaf, k)).
      3:{ intro e. rewrite obj_eqb_eq, G1in. split; [intros [H1 H2]; auto|]. intros ->. auto. }
      2:{ apply F1; auto. }
      cbn [src key fst snd]. rewrite X1.
      eexists. split; [reflexivity|]. split; [apply NoDup_filter, add_edge_nodup, F1; auto|]. split.
      + intro e. unfold remove_node. cbn [g_edges]. rewrite filter_In, add_edge_edges, G1, andb_true_iff, !negb_true_iff, !obj_eqb_neq.
        split.
        * intros [[->|[H|H]] [K1 K2]].
          -- left. exists p, leaf, k. split; [auto|]. rewrite replD_cons_same, Rleaf. auto.
          -- destruct H as [(q & w & k' & H & ->)|(j & w & u & J & L & H)].
             ++ left. exists q, w, k'. split; [auto|]. rewrite replD_cons_other; auto. intros ->. cbn in K2.
                rewrite replD_out in K2 by auto. contradiction.
             ++ right. exists j, w, u. split; [right; auto|auto].
          -- right. exists i, v, x. split; [left; auto|auto].
        * intros [(q & w & k' & H & ->)|(j & w & u & [J|J] & L & H)].
          -- destruct (obj_eq_dec w leaf) as [->|W].
             ++ specialize (U3 _ H eq_refl). inversion U3; subst. rewrite replD_cons_same, Rleaf.
                split; [left; auto|]. cbn. split.
                ** intros ->. eapply edges_src_op; [exact H|reflexivity].
                ** intro K. eapply (Dt v x Hx leaf); auto. rewrite <- K. apply robj_in.
             ++ rewrite replD_cons_other by auto. split; [right; left; left; exists q, w, k'; auto|]. split.
                ** cbn. intros ->. eapply edges_src_op; [exact H|reflexivity].
                ** cbn. intro K. apply replD_target in K; auto.
          -- inversion J; subst. assert (u = x) by congruence. subst u. split; [right; right; auto|apply Xl; auto].
          -- split; [right; left; right; exists j, w, u; auto|]. apply edges_in in H. destruct H as [H1 H2].
             split; intro K; [rewrite K in H1|rewrite K in H2]; eapply (Dt w u L leaf); eauto.
      + cbn [g_root remove_node]. rewrite add_edge_root, F3, Ro. symmetry. apply replD_cons_other.
        intro K. apply (root_no_in t Nt _ U1). cbn. auto.
  Qed.

  Lemma fold_err {A B} (f : A -> B -> res A) l e :
    fold_left (fun r x => do a <- r; f a x) l (Err e) = Err e.
  Proof. induction l; cbn; auto. Qed.

  Lemma loop_ok : forall us D g, NoDup us -> (forall u, In u us -> In u (robjs t)) -> (forall u, In u us -> ~ In u D) ->
    Inv D g -> exists g',
      fold_left (fun rg u => do g <- rg;
        match snd u with
        | HTerm (TVar v) => match lookup v (map (fun p => (fst p, from_recursive_ast (snd p))) m) with
                            | Some t => add_subtree u t g | None => Ok g end
        | _ => Ok g
        end) us (Ok g) = Ok g' /\ Inv (rev us ++ D) g'.
  Proof.
    induction us as [|u us IH]; intros D g N H1 H2 I.
    - exists g. split; auto.
    - apply NoDup_cons_iff in N. destruct N as [N1 N2]. cbn [fold_left bind].
      assert (S : exists g1, (match snd u with
        | HTerm (TVar v) => match lookup v (map (fun p => (fst p, from_recursive_ast (snd p))) m) with
                            | Some t => add_subtree u t g | None => Ok g end
        | _ => Ok g end) = Ok g1 /\ Inv (u :: D) g1).
      { destruct u as [i [[v|v|v|v]|op|k op|op]]; cbn [snd];
          try (exists g; split; [reflexivity|apply inv_skip; [reflexivity|intros j w Q; inversion Q|exact I]]).
        rewrite lookup_map. destruct (lookup v m) as [x|] eqn:L; cbn [option_map].
        - apply inv_step; auto; [apply H1|apply H2]; left; auto.
        - exists g. split; [reflexivity|]. apply inv_skip; [unfold repl; cbn; rewrite L; auto| |exact I].
          intros j w Q. inversion Q; subst. auto. }
      destruct S as (g1 & -> & I1). destruct (IH (u :: D) g1) as (g' & G1 & G2); auto.
      + intros w W. apply H1. right; auto.
      + intros w W [<-|K]; [contradiction|]. apply (H2 w); auto. right; auto.
      + exists g'. split; [exact G1|]. cbn [rev]. rewrite <- app_assoc. exact G2.
  Qed.

  Lemma rsub_rsubst u : rsub u (rsubst m t) ->
    (exists w, rsub w t /\ u = rsubst m w /\ repl m (robj w) = robj w /\
       (forall v, snd (robj w) = HTerm (TVar v) -> lookup v m = None)) \/
    (exists i v x, rsub (RTerm i (TVar v)) t /\ lookup v m = Some x /\ rsub u x).
  Proof.
    clear. intro H.
    assert (G : forall t, rsub u (rsubst m t) ->
      (exists w, rsub w t /\ u = rsubst m w /\ repl m (robj w) = robj w /\
       (forall v, snd (robj w) = HTerm (TVar v) -> lookup v m = None)) \/
      (exists i v x, rsub (RTerm i (TVar v)) t /\ lookup v m = Some x /\ rsub u x)); [|auto].
    clear H. intros q. induction q; cbn [rsubst]; intro H.
    - destruct t0 as [v|v|v|v].
      + destruct (lookup v m) as [x|] eqn:L.
        * right. exists i, v, x. auto with rsub.
        * inversion H; subst. left. exists (RTerm i (TVar v)). cbn [rsubst]. rewrite L. unfold repl. cbn [robj snd]. rewrite L.
          split; [auto with rsub|]. split; [auto|]. split; [auto|]. intros w W. inversion W; subst; auto.
      + inversion H; subst. left. eexists. split; [constructor|]. repeat split. intros w W. inversion W.
      + inversion H; subst. left. eexists. split; [constructor|]. repeat split. intros w W. inversion W.
      + inversion H; subst. left. eexists. split; [constructor|]. repeat split. intros w W. inversion W.
    - inversion H; subst.
      + left. exists (RUn i op q). repeat split; auto with rsub. intros w W. inversion W.
      + destruct (IHq H2) as [(w & W1 & W2)|(j & v & x & W1 & W2)]; [left; exists w|right; exists j, v, x]; intuition eauto with rsub.
    - inversion H; subst.
      + left. exists (RBin i k op q1 q2). repeat split; auto with rsub. intros w W. inversion W.
      + destruct (IHq1 H2) as [(w & W1 & W2)|(j & v & x & W1 & W2)]; [left; exists w|right; exists j, v, x]; intuition eauto with rsub.
      + destruct (IHq2 H2) as [(w & W1 & W2)|(j & v & x & W1 & W2)]; [left; exists w|right; exists j, v, x]; intuition eauto with rsub.
    - inversion H; subst.
      + left. exists (RIte i op q1 q2 q3). repeat split; auto with rsub. intros w W. inversion W.
      + destruct (IHq1 H2) as [(w & W1 & W2)|(j & v & x & W1 & W2)]; [left; exists w|right; exists j, v, x]; intuition eauto with rsub.
      + destruct (IHq2 H2) as [(w & W1 & W2)|(j & v & x & W1 & W2)]; [left; exists w|right; exists j, v, x]; intuition eauto with rsub.
      + destruct (IHq3 H2) as [(w & W1 & W2)|(j & v & x & W1 & W2)]; [left; exists w|right; exists j, v, x]; intuition eauto with rsub.
  Qed.

  Lemma kids_rsubst w e : (forall v, snd (robj w) = HTerm (TVar v) -> lookup v m = None) ->
    (In e (kids (rsubst m w)) <-> exists p v k, In (p, v, k) (kids w) /\ e = (p, repl m v, k)).
  Proof.
    intro H. destruct w as [i [v|v|v|v]|i op a|i k op a b|i op a b c]; cbn [rsubst].
    - rewrite (H v eq_refl). cbn. split; [contradiction|]. intros (p & q & k & [] & _).
    - cbn. split; [contradiction|]. intros (p & q & k & [] & _).
    - cbn. split; [contradiction|]. intros (p & q & k & [] & _).
    - cbn. split; [contradiction|]. intros (p & q & k & [] & _).
    - cbn [kids robj In]. rewrite <- !repl_robj. split.
      + intros [<-|[]]. do 3 eexists. split; [left; reflexivity|reflexivity].
      + intros (p & q & k & [Q|[]] & ->). inversion Q; subst. auto.
    - cbn [kids robj In]. rewrite <- !repl_robj. split.
      + intros [<-|[<-|[]]]; do 3 eexists; (split; [|reflexivity]); auto.
      + intros (p & q & k' & [Q|[Q|[]]] & ->); inversion Q; subst; auto.
    - cbn [kids robj In]. rewrite <- !repl_robj. split.
      + intros [<-|[<-|[<-|[]]]]; do 3 eexists; (split; [|reflexivity]); auto.
      + intros (p & q & k' & [Q|[Q|[Q|[]]]] & ->); inversion Q; subst; auto.
  Qed.

  Lemma sub_bool_ok : exists g',
    sub_bool_with_subtree (from_recursive_ast t) (map (fun p => (fst p, from_recursive_ast (snd p))) m) = Ok g' /\
    g_root g' = robj (rsubst m t) /\ unfolds g' (rsubst m t).
  Proof.
    destruct (from_rec_ok t) as (T1 & T2 & T3 & T4 & T5). unfold sub_bool_with_subtree.
    destruct (loop_ok (g_nodes (from_recursive_ast t)) [] (from_recursive_ast t)) as (g' & G & (N & E & Ro)); auto.
    { intros u Hu. apply T5; auto. }
    { split; [auto|]. split.
      - intro e. rewrite T4. split.
        + intro H. left. destruct e as [[p v] k]. exists p, v, k. auto.
        + intros [(p & v & k & H & ->)|(i & v & u & [] & _)]. exact H.
      - rewrite T1. auto. }
    exists g'. split; [exact G|]. rewrite app_nil_r in *.
    assert (RD : forall o, In o (robjs t) -> replD m (rev (g_nodes (from_recursive_ast t))) o = repl m o).
    { intros o Ho. unfold replD, rmem. destruct (in_dec _ _ _) as [J|J]; auto. exfalso. apply J.
      rewrite <- in_rev. apply T5; auto. }
    split; [rewrite Ro, RD by apply robj_in; apply repl_robj|]. split; [auto|].
    intros u Hu e. rewrite E. apply rsub_rsubst in Hu.
    destruct Hu as [(w & W1 & -> & W3 & W4)|(i & v & x & V1 & V2 & V3)].
    - rewrite kids_rsubst by auto. rewrite <- repl_robj, W3. split.
      + intros [[(p & q & k & H & ->)|(i & v & x & J & L & H)] S].
        * cbn in S. subst p. exists (robj w), q, k. split.
          -- apply (edges_kids t Nt w W1). auto.
          -- rewrite RD; auto. apply edges_in in H. apply H.
        * exfalso. apply edges_in in H. destruct H as [H _]. rewrite S in H. eapply Dt; eauto. apply rsub_in; auto.
      + intros (p & q & k & H & ->). apply (edges_kids t Nt w W1) in H. destruct H as [H S]. split; [|exact S].
        left. exists p, q, k. split; [auto|]. rewrite RD; auto. apply edges_in in H. apply H.
    - rewrite <- (edges_kids x (Nm v x V2) u V3). split.
      + intros [[(p & q & k & H & ->)|(j & w & y & J & L & H)] S].
        * exfalso. cbn in S. apply edges_in in H. destruct H as [H _]. cbn in H. rewrite S in H.
          eapply Dt; eauto. apply rsub_in; auto.
        * destruct (string_dec v w) as [->|NE]; [assert (y = x) by congruence; subst; auto|].
          exfalso. apply edges_in in H. destruct H as [H _]. rewrite S in H.
          eapply (Dm v x w y); eauto. apply rsub_in; auto.
      + intros [H S]. split; [|exact S]. right. exists i, v, x. split; [|auto].
        rewrite <- in_rev. apply T5. apply (rsub_in _ _ V1).
  Qed.
End subst.

Lemma rdepth_rsubst m : forall t,
  rdepth (rsubst m t) <= rdepth t + fold_right (fun p n => List.length (robjs (snd p)) + n) 0 m.
Proof.
  set (S0 := fold_right _ 0 m).
  assert (L : forall v u, lookup v m = Some u -> rdepth u <= S0).
  { unfold S0. clear S0. intros v u H. apply lookup_In in H. induction m as [|[k x] r IH]; [destruct H|].
    cbn [fold_right snd]. destruct H as [H|H]; [inversion H; subst; pose proof (rdepth_le u); lia|specialize (IH H); lia]. }
  induction t; cbn [rsubst rdepth]; try lia.
  destruct t as [v|v|v|v]; cbn [rdepth]; try lia. destruct (lookup v m) eqn:E; cbn [rdepth]; [specialize (L _ _ E)|]; lia.
Qed.
