(** Texts of formulas together with what they mean: [den t P] says that the text [t] reads as a
    formula true exactly when [P] is. *)
From Coq Require Import List String Ascii Bool Arith Lia.
From Verif Require Import M_Base M_Ast M_Lexer M_Parser S_LTL S_Gr1 S_Syntax.
From Verif Require Import L_Lexer L_Parser L_Template L_Gr1 L_RoundTrip L_Text.
Import ListNotations.
Open Scope string_scope.
Open Scope list_scope.

Definition tpred := trace -> nat -> Prop.
Definition means (e : node) (P : tpred) : Prop := forall s i, holds s i e <-> P s i.
Definition den (t : string) (P : tpred) : Prop := nohash t /\ exists e, parse t = Some e /\ means e P.
Definition dchain (l : nat) (t : string) (P : tpred) : Prop := exists e, chain l t e /\ means e P.
Definition dpre (t : string) (P : tpred) : Prop := exists e, pre t e /\ means e P.
Definition datom (t : string) (P : tpred) : Prop := exists e, atom t e /\ means e P.

Lemma dchain_den l t P : dchain l t P -> den t P.
Proof. intros (e & H & M). split; [apply H|]. exists e. split; auto. eapply chain_parse; eauto. Qed.
Lemma dpre_dchain l t P : l <= 6 -> dpre t P -> dchain l t P.
Proof. intros L (e & H & M). exists e. split; auto. apply pre_chain; auto. Qed.
Lemma datom_dpre t P : datom t P -> dpre t P.
Proof. intros (e & H & M). exists e. split; auto. apply atom_pre; auto. Qed.
Lemma datom_dchain l t P : datom t P -> dchain l t P.
Proof. intros (e & H & M). exists e. split; auto. apply atom_chain; auto. Qed.
Lemma dpre_den t P : dpre t P -> den t P.
Proof. intro H. eapply dchain_den, (dpre_dchain 0); [lia|eauto]. Qed.
Lemma datom_den t P : datom t P -> den t P.
Proof. intro H. apply dpre_den, datom_dpre, H. Qed.
Lemma dchain_mono l l' t P : l <= l' -> dchain l' t P -> dchain l t P.
Proof. intros L (e & H & M). exists e. split; auto. eapply chain_mono; eauto. Qed.

Definition peq (P Q : tpred) : Prop := forall s i, P s i <-> Q s i.
Lemma den_ext t P Q : den t P -> peq P Q -> den t Q.
Proof. intros (N & e & H & M) E. split; auto. exists e. split; auto. intros s i. rewrite (M s i). apply E. Qed.
Lemma dchain_ext l t P Q : dchain l t P -> peq P Q -> dchain l t Q.
Proof. intros (e & H & M) E. exists e. split; auto. intros s i. rewrite (M s i). apply E. Qed.
Lemma dpre_ext t P Q : dpre t P -> peq P Q -> dpre t Q.
Proof. intros (e & H & M) E. exists e. split; auto. intros s i. rewrite (M s i). apply E. Qed.

Lemma den_nonempty t P : den t P -> t <> "".
Proof. intros (N & e & H & M) ->. discriminate. Qed.
Lemma den_unique t P Q : den t P -> den t Q -> peq P Q.
Proof.
  intros (_ & e & H & M) (_ & e' & H' & M') s i. rewrite H in H'. injection H' as <-.
  rewrite <- (M s i). apply M'.
Qed.

Lemma d_paren t P : den t P -> datom ("(" ++ t ++ ")") P.
Proof. intros (N & e & H & M). exists e. split; auto. apply atom_paren; auto. Qed.
Lemma d_ident a : ident a -> datom a (fun s i => s i a = VB true).
Proof. intro H. exists (NVar a). split; [apply atom_ident; auto|]. intros s i. reflexivity. Qed.
Lemma d_true : datom "True" (fun _ _ => True).
Proof. exists (NBool "True"). split; [apply atom_true|]. intros s i. cbn. tauto. Qed.
Lemma d_false : datom "False" (fun _ _ => False).
Proof. exists (NBool "False"). split; [apply atom_false|]. intros s i. cbn. split; [discriminate|tauto]. Qed.
Lemma d_X t P : den t P -> dpre ("X(" ++ t ++ ")") (fun s i => P s (S i)).
Proof.
  intro H. destruct (d_paren _ _ H) as (e & A & M). exists (NUn "X" e). split.
  - apply pre_Xp. apply atom_pre in A. exact A.
  - intros s i. apply M.
Qed.
Lemma d_X_sp t P : den t P -> dpre ("X (" ++ t ++ ")") (fun s i => P s (S i)).
Proof.
  intro H. destruct (d_paren _ _ H) as (e & A & M). exists (NUn "X" e). split.
  - change ("X (" ++ t ++ ")")%string with ("X " ++ ("(" ++ t ++ ")"))%string. apply pre_X. apply atom_pre, A.
  - intros s i. apply M.
Qed.
Lemma d_not t P : den t P -> dpre ("!(" ++ t ++ ")") (fun s i => ~ P s i).
Proof.
  intro H. destruct (d_paren _ _ H) as (e & A & M). exists (NUn "!" e). split.
  - apply pre_not_p. apply atom_pre in A. exact A.
  - intros s i. cbn [holds]. change (uconn_of "!") with (Some UNot). cbv beta iota. rewrite (M s i). reflexivity.
Qed.
Lemma d_not_ident a : ident a -> dpre ("!" ++ a) (fun s i => ~ s i a = VB true).
Proof. intro H. exists (NUn "!" (NVar a)). split; [apply pre_not_ident; auto|]. intros s i. reflexivity. Qed.

Ltac bin lem op :=
  let e1 := fresh in let e2 := fresh in let A := fresh in let B := fresh in let M1 := fresh in let M2 := fresh in
  intros (e1 & A & M1) (e2 & B & M2); exists (NBin op e1 e2); split; [apply lem; auto|];
  intros s i; specialize (M1 s i); specialize (M2 s i); cbn -[holds]; cbn [holds];
  match goal with |- context [conn_of op] => let c := eval vm_compute in (conn_of op) in change (conn_of op) with c end;
  cbv beta iota; tauto.
Lemma d_and a b P Q : dchain 5 a P -> dchain 6 b Q -> dchain 5 (a ++ " && " ++ b) (fun s i => P s i /\ Q s i).
Proof. bin chain_and "&". Qed.
Lemma d_or a b P Q : dchain 4 a P -> dchain 5 b Q -> dchain 4 (a ++ " || " ++ b) (fun s i => P s i \/ Q s i).
Proof. bin chain_or "|". Qed.
Lemma d_imp a b P Q : dchain 2 a P -> dchain 3 b Q -> dchain 2 (a ++ " -> " ++ b) (fun s i => P s i -> Q s i).
Proof. bin chain_imp "->". Qed.

(** Conjunctions and disjunctions of lists. *)
Lemma dchain_list l ts Ps : Forall2 (dchain l) ts Ps ->
  exists es, Forall2 (chain l) ts es /\ Forall2 means es Ps.
Proof.
  induction 1 as [|t P ts Ps (e & H & M) F (es & C & D)]; [exists []; auto|].
  exists (e :: es). auto.
Qed.
Lemma means_all es Ps s i : Forall2 means es Ps ->
  (forall e, In e es -> holds s i e) <-> Forall (fun P : tpred => P s i) Ps.
Proof.
  induction 1 as [|e P es Ps M F IH]; split.
  - constructor.
  - intros _ e [].
  - intro H. constructor; [apply M, H; left; auto|]. apply IH. intros; apply H; right; auto.
  - intros H e' [<-|I]; inversion H; subst; [apply M; auto|]. apply (proj2 IH); auto.
Qed.
Lemma means_some es Ps s i : Forall2 means es Ps ->
  (exists e, In e es /\ holds s i e) <-> Exists (fun P : tpred => P s i) Ps.
Proof.
  induction 1 as [|e P es Ps M F IH]; split.
  - intros (? & [] & _).
  - intro H. inversion H.
  - intros (e' & [<-|I] & H); [apply Exists_cons_hd, M; auto|]. apply Exists_cons_tl, IH. eauto.
  - intro H. inversion H; subst; [exists e; split; [left; auto|apply M; auto]|].
    apply IH in H1. destruct H1 as (e' & I & K). exists e'. split; [right|]; auto.
Qed.
Lemma d_join_and ts Ps : ts <> [] -> Forall2 (dchain 6) ts Ps ->
  dchain 5 (join " && " ts) (fun s i => Forall (fun P : tpred => P s i) Ps).
Proof.
  intros Hne F. destruct (dchain_list _ _ _ F) as (es & C & M).
  destruct C as [|t e ts' es' C0 C']; [congruence|].
  exists (fold_op AND "&" e es'). split; [apply chain_join_and; auto|].
  intros s i. rewrite fold_and_holds, <- (means_all _ _ s i M). split.
  - intros [A B] x [<-|I]; auto.
  - intro H. split; [apply H; left; auto|]. intros; apply H; right; auto.
Qed.
Lemma d_join_or ts Ps : ts <> [] -> Forall2 (dchain 5) ts Ps ->
  dchain 4 (join " || " ts) (fun s i => Exists (fun P : tpred => P s i) Ps).
Proof.
  intros Hne F. destruct (dchain_list _ _ _ F) as (es & C & M).
  destruct C as [|t e ts' es' C0 C']; [congruence|].
  exists (fold_op OR "|" e es'). split; [apply chain_join_or; auto|].
  intros s i. rewrite fold_or_holds, <- (means_some _ _ s i M). split.
  - intros [A|(f & I & A)]; [exists e; split; [left; auto|auto]|exists f; split; [right; auto|auto]].
  - intros (f & [<-|I] & A); eauto.
Qed.

(** Blank space in front. *)
Lemma den_sp t P : den t P -> den (" " ++ t) P.
Proof.
  intros (N & e & H & M). split; [apply (nohash_app " "); [apply nohash_lit; reflexivity|auto]|].
  exists e. split; auto.
Qed.

(** Lists of clauses. *)
Lemma den_list ts Ps : Forall2 den ts Ps -> exists es, parse_all ts = Some es /\ Forall2 means es Ps.
Proof.
  induction 1 as [|t P ts Ps (N & e & H & M) F (es & C & D)]; [exists []; auto|].
  exists (e :: es). cbn [parse_all]. rewrite H, C. auto.
Qed.
Lemma parse_den t e : no_comment t -> parse t = Some e -> den t (fun s i => holds s i e).
Proof. intros N H. split; [apply no_comment_nohash; auto|]. exists e. split; auto. intros s i. reflexivity. Qed.

(** A list of clauses whose conjunction is [Q]. *)
Definition dens (ts : list string) (Q : tpred) : Prop :=
  exists Ps, Forall2 den ts Ps /\ forall s i, Forall (fun P : tpred => P s i) Ps <-> Q s i.
Lemma dens_nil : dens [] (fun _ _ => True).
Proof. exists []. split; auto. intros. split; auto. Qed.
Lemma dens_one t P : den t P -> dens [t] P.
Proof.
  intro H. exists [P]. split; auto. intros s i. split; intro K; [inversion K; auto|auto].
Qed.
Lemma dens_app a b P Q : dens a P -> dens b Q -> dens (a ++ b) (fun s i => P s i /\ Q s i).
Proof.
  intros (Ps & F & E) (Qs & G & D). exists (Ps ++ Qs). split; [apply Forall2_app; auto|].
  intros s i. rewrite Forall_app, E, D. reflexivity.
Qed.
Lemma dens_ext a P Q : dens a P -> peq P Q -> dens a Q.
Proof. intros (Ps & F & E) H. exists Ps. split; auto. intros s i. rewrite E. apply H. Qed.
Lemma dens_mapr {A} (f : A -> res string) (Q : A -> tpred) xs ys : mapr f xs = Ok ys ->
  (forall x y, In x xs -> f x = Ok y -> den y (Q x)) ->
  dens ys (fun s i => forall x, In x xs -> Q x s i).
Proof.
  revert ys. induction xs as [|x xs IH]; intros ys H D; cbn [mapr] in H.
  - apply Ok_inj in H. subst. eapply dens_ext; [apply dens_nil|]. intros s i. split; [intros _ x []|auto].
  - destruct (f x) as [y|] eqn:E; [|discriminate]. cbn [bind] in H.
    destruct (mapr f xs) as [ys'|] eqn:E'; [|discriminate]. cbn [bind] in H. apply Ok_inj in H. subst.
    eapply dens_ext; [apply (dens_app [y] ys')|].
    + apply dens_one, (D x y); simpl; auto.
    + apply IH; auto. intros; apply D; simpl; auto.
    + intros s i. split; [intros [K L] z [<-|I]; auto|intro K; split; [apply K; left; auto|intros; apply K; right; auto]].
Qed.
Lemma dens_parse ts Q : dens ts Q -> exists es, parse_all ts = Some es /\
  forall s i, (forall e, In e es -> holds s i e) <-> Q s i.
Proof.
  intros (Ps & F & E). destruct (den_list _ _ F) as (es & P & M). exists es. split; auto.
  intros s i. rewrite (means_all _ _ s i M). apply E.
Qed.

(** Disjunction over a list of items. *)
Lemma Forall2_map_l {A B C} (R : B -> C -> Prop) (f : A -> B) l m :
  Forall2 R (map f l) m <-> Forall2 (fun x y => R (f x) y) l m.
Proof.
  split; revert m; induction l as [|x l IH]; intros m H; inversion H; subst; constructor; auto.
Qed.
Lemma Forall2_same {A B} (R : A -> B -> Prop) (g : A -> B) l : (forall x, In x l -> R x (g x)) -> Forall2 R l (map g l).
Proof.
  induction l as [|x l IH]; intro H; constructor; [apply H; left; auto|apply IH; intros; apply H; right; auto].
Qed.
Lemma mapr_Forall2 {A B} (f : A -> res B) (R : A -> B -> Prop) xs ys : mapr f xs = Ok ys ->
  (forall x y, In x xs -> f x = Ok y -> R x y) -> Forall2 R xs ys.
Proof.
  revert ys. induction xs as [|x xs IH]; intros ys H D; cbn [mapr] in H.
  - apply Ok_inj in H. subst. constructor.
  - destruct (f x) as [y|] eqn:E; [|discriminate]. cbn [bind] in H.
    destruct (mapr f xs) as [ys'|] eqn:E'; [|discriminate]. cbn [bind] in H. apply Ok_inj in H. subst.
    constructor; [apply D; simpl; auto|]. apply IH; auto. intros; apply D; simpl; auto.
Qed.
Lemma Forall2_flip_map {A B C} (R : B -> C -> Prop) (g : A -> C) xs (ys : list B) :
  Forall2 (fun x y => R y (g x)) xs ys -> Forall2 R ys (map g xs).
Proof. induction 1; constructor; auto. Qed.
Lemma Forall2_imp {A B} (R R' : A -> B -> Prop) l m : (forall a b, R a b -> R' a b) -> Forall2 R l m -> Forall2 R' l m.
Proof. intros H F. induction F; auto. Qed.
