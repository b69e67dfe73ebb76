(** C81: gridworlds with moving obstacles. *)
From Coq Require Import String Ascii List Bool Arith ZArith Lia.
From Verif Require Import M_Base M_Ast M_Lexer M_Parser M_Tree M_Gr1c M_Spec S_LTL S_Gr1 S_Syntax.
From Verif Require L_Tree L_Gr1c.
From Verif Require Import M_Form S_Form L_Lexer L_Parser L_Template L_Gr1 L_RoundTrip L_Text L_Form T_Form L_Den M_Synth S_Synth L_Synth L_Dec.
From Verif Require Import M_Machine M_Grid M_GridSpec S_Grid T_Reach T_Grid T_GridText T_GridSpec M_Trolls.
Import ListNotations.
Open Scope string_scope.
Open Scope list_scope.

(** ** What a troll may do, independently of the code *)
(** The cells within [r] of [c], in both directions *)
Definition space (m : mat) (c : Z * Z) (r : Z) : grid := fun i j => if ((Z.abs (i - fst c) <=? r) && (Z.abs (j - snd c) <=? r))%Z then view m i j else None.
(** Its upper left corner *)
Definition origin (c : Z * Z) (r : Z) : Z * Z := (Z.max 0 (fst c - r), Z.max 0 (snd c - r))%Z.
Definition troll_name (prefix : string) (k : nat) : string := (prefix ++ "_" ++ str_nat k)%string.
Definition minus (a b : Z * Z) : Z * Z := (fst a - fst b, snd a - snd b)%Z.

(** ** The world of a troll *)
Lemma extent_ok c r n : (0 <= c < n)%Z -> (0 <= r)%Z -> exists l, extent c r n = (Z.max 0 (c - r), l)%Z /\ (1 <= l)%Z /\ (Z.max 0 (c - r) + l <= n)%Z /\
  forall i, (0 <= i < n)%Z -> ((Z.max 0 (c - r) <= i < Z.max 0 (c - r) + l)%Z <-> (Z.abs (i - c) <= r)%Z).
Proof.
  intros C R. unfold extent. eexists. split; [reflexivity|]. destruct (Z.leb_spec n (Z.max 0 (c - r) + (c - Z.max 0 (c - r) + r + 1))); repeat split; lia.
Qed.
Record is_troll (m : mat) (prefix : string) (anywhere : bool) (id : nat) (c : Z * Z) (r : Z) (o : ij) (x : world) (mv : list (list (string * Z))) (xm : mat) : Prop := {
  t_origin : o = origin c r;
  t_W : w_W x = Some xm;
  t_shaped : shaped xm;
  t_view : forall i j, view xm (i - fst o)%Z (j - snd o)%Z = space m c r i j;
  t_size : (fst o + Z.of_nat (m_rows xm) <= Z.of_nat (m_rows m))%Z /\ (snd o + Z.of_nat (m_cols xm) <= Z.of_nat (m_cols m))%Z;
  t_prefix : w_prefix x = troll_name prefix id;
  t_goal : w_goal x = [minus c o];
  t_init : if anywhere then forall k, In k (w_init x) <-> free (view xm) k else w_init x = [minus c o];
  t_moves : forall st, In st mv <-> exists i j v, space m c r i j = Some v /\ st = [((troll_name prefix id ++ "_r")%string, i); ((troll_name prefix id ++ "_c")%string, j)] }.
Lemma mapr_ext_map {A B} (f : A -> res B) (g : A -> B) l : (forall x, In x l -> f x = Ok (g x)) -> mapr f l = Ok (map g l).
Proof. induction l as [|x l IH]; intro H; cbn [mapr map]; [reflexivity|]. rewrite (H x (or_introl eq_refl)). cbn [bind]. rewrite IH by (intros y Hy; apply H; right; exact Hy). reflexivity. Qed.
Lemma troll_ok Y m prefix anywhere id c r : w_W Y = Some m -> shaped m -> free (view m) c -> (0 <= r)%Z ->
  exists o x mv xm, troll Y prefix anywhere true m id (c, r) = Ok (o, x, mv) /\ is_troll m prefix anywhere id c r o x mv xm.
Proof.
  intros W S F R. pose proof (view_inside _ _ _ _ S F) as [I0 I1]. destruct c as [c0 c1]. cbn [fst snd] in *. unfold troll. cbn [fst snd].
  destruct (Z.leb_spec (Z.of_nat (m_rows m)) c0); [lia|]. destruct (Z.ltb_spec c0 0); [lia|]. destruct (Z.leb_spec (Z.of_nat (m_cols m)) c1); [lia|]. destruct (Z.ltb_spec c1 0); [lia|]. cbn [orb].
  destruct (extent_ok c0 r _ I0 R) as (l0 & -> & L0 & B0 & E0). destruct (extent_ok c1 r _ I1 R) as (l1 & -> & L1 & B1 & E1). set (o0 := Z.max 0 (c0 - r)) in *. set (o1 := Z.max 0 (c1 - r)) in *.
  assert (P0 : (0 <= o0)%Z) by lia. assert (P1 : (0 <= o1)%Z) by lia.
  unfold dump_subworld. rewrite W. cbn [negb fst snd].
  destruct (Z.ltb_spec o0 0); [lia|]. destruct (Z.leb_spec (Z.of_nat (m_rows m)) o0); [lia|]. destruct (Z.ltb_spec o1 0); [lia|]. destruct (Z.leb_spec (Z.of_nat (m_cols m)) o1); [lia|]. cbn [orb].
  destruct (Z.ltb_spec l0 1); [lia|]. destruct (Z.ltb_spec l1 1); [lia|]. destruct (Z.ltb_spec (Z.of_nat (m_rows m)) (o0 + l0)); [lia|]. destruct (Z.ltb_spec (Z.of_nat (m_cols m)) (o1 + l1)); [lia|]. cbn [orb bind of_opt w_W w_prefix w_offset].
  set (xm := tab (Z.to_nat l0) (Z.to_nat l1) (fun i j => cell m (Z.to_nat o0 + i) (Z.to_nat o1 + j))).
  assert (SX : shaped xm) by apply tab_shaped.
  assert (RX : Z.of_nat (m_rows xm) = l0) by (cbn; lia). assert (CX : Z.of_nat (m_cols xm) = l1) by (cbn; lia).
  assert (VX : forall i j, view xm (i - o0)%Z (j - o1)%Z = space m (c0, c1) r i j).
  { intros i j. unfold space. cbn [fst snd].
    assert (OUT : ~ ((0 <= i < Z.of_nat (m_rows m))%Z /\ (0 <= j < Z.of_nat (m_cols m))%Z) \/ ((0 <= i < Z.of_nat (m_rows m))%Z /\ (0 <= j < Z.of_nat (m_cols m))%Z)) by lia. destruct OUT as [OUT|[Hi Hj]].
    - rewrite (view_outside m) by assumption. rewrite view_outside; [destruct (_ && _)%bool; reflexivity|exact SX|]. rewrite RX, CX. lia.
    - pose proof (E0 i Hi) as Q0. pose proof (E1 j Hj) as Q1. destruct (Z.leb_spec (Z.abs (i - c0)) r), (Z.leb_spec (Z.abs (j - c1)) r); cbn [andb]; try (apply view_outside; [exact SX|rewrite RX, CX; lia]).
      unfold xm. rewrite tab_view by lia. rewrite view_at by assumption. f_equal. f_equal; lia. }
  rewrite (mapr_ext_map _ (fun k => (k, (cell xm (Z.to_nat (fst k)) (Z.to_nat (snd k)) =? 0)%Z))).
  2:{ intros k K. apply in_map_iff in K. destruct K as ([i j] & <- & K). apply cells_In in K. unfold is_empty. cbn [w_W andb]. unfold get, index, key. cbn [fst snd] in *.
      destruct (Z.leb_spec (- Z.of_nat (m_rows xm)) (Z.of_nat i)); [|lia]. destruct (Z.ltb_spec (Z.of_nat i) (Z.of_nat (m_rows xm))); [|lia]. destruct (Z.ltb_spec (Z.of_nat i) 0); [lia|].
      destruct (Z.leb_spec (- Z.of_nat (m_cols xm)) (Z.of_nat j)); [|lia]. destruct (Z.ltb_spec (Z.of_nat j) (Z.of_nat (m_cols xm))); [|lia]. destruct (Z.ltb_spec (Z.of_nat j) 0); [lia|]. reflexivity. }
  cbn [bind]. set (x := World (Some xm) _ _ _ _).
  rewrite (mapr_ext_map _ (fun k => [((troll_name prefix id ++ "_r")%string, fst k + o0)%Z; ((troll_name prefix id ++ "_c")%string, snd k + o1)%Z])).
  2:{ intros k K. apply in_map_iff in K. destruct K as (p & <- & K). destruct (key_range xm p K) as [KR KN]. rewrite (state_int x xm); [|reflexivity|exact KR]. rewrite KN. reflexivity. }
  cbn [bind]. do 4 eexists. split; [reflexivity|]. split; try reflexivity.
  - exact SX.
  - exact VX.
  - cbn [fst snd]. lia.
  - cbn [x w_init]. destruct anywhere; [|reflexivity]. intro k. rewrite in_map_iff. split.
    + intros ([k' b] & E & I). cbn [fst] in E. subst k'. apply filter_In in I. destruct I as [I B]. cbn [snd] in B. subst b. apply in_map_iff in I. destruct I as (k' & E & I). injection E as -> E. apply Z.eqb_eq in E.
      apply in_map_iff in I. destruct I as ([i j] & <- & K). apply cells_In in K. unfold free, key in *. cbn [fst snd] in *. rewrite view_at; [|exact SX|lia|lia]. rewrite E. reflexivity.
    + intro FK. exists (k, true). split; [reflexivity|]. apply filter_In. split; [|reflexivity]. unfold free in FK. pose proof (view_inside _ _ _ _ SX FK) as [V1 V2]. rewrite view_at in FK by assumption. injection FK as FK.
      apply in_map_iff. exists k. rewrite FK. split; [reflexivity|]. apply in_map_iff. exists (Z.to_nat (fst k), Z.to_nat (snd k)). split; [unfold key; cbn [fst snd]; rewrite !Z2Nat.id by lia; destruct k; reflexivity|]. apply cells_In. cbn [fst snd]. lia.
  - intro st. rewrite in_map_iff. split.
    + intros (k & <- & I). apply in_map_iff in I. destruct I as ([i j] & <- & K). apply cells_In in K. unfold key. cbn [fst snd] in *. exists (Z.of_nat i + o0)%Z, (Z.of_nat j + o1)%Z.
      rewrite <- VX. replace (Z.of_nat i + o0 - o0)%Z with (Z.of_nat i) by lia. replace (Z.of_nat j + o1 - o1)%Z with (Z.of_nat j) by lia. eexists. split; [apply view_at; [exact SX|lia|lia]|reflexivity].
    + intros (i & j & v & V & ->). rewrite <- VX in V. pose proof (view_inside _ _ _ _ SX V) as [V1 V2]. exists (i - o0, j - o1)%Z. cbn [fst snd]. split; [replace (i - o0 + o0)%Z with i by lia; replace (j - o1 + o1)%Z with j by lia; reflexivity|].
      apply in_map_iff. exists (Z.to_nat (i - o0), Z.to_nat (j - o1)). split; [unfold key; cbn [fst snd]; rewrite !Z2Nat.id by lia; reflexivity|]. apply cells_In. cbn [fst snd]. lia.
Qed.
Lemma troll_binary m prefix anywhere id c r o x mv xm : is_troll m prefix anywhere id c r o x mv xm -> binary m -> binary xm.
Proof.
  intros T B i j v V. assert (E : view xm (i + fst o - fst o)%Z (j + snd o - snd o)%Z = Some v) by (rewrite !Z.add_simpl_r; exact V). rewrite (t_view _ _ _ _ _ _ _ _ _ _ T) in E. unfold space in E. destruct (_ && _)%bool; [|discriminate]. eapply B. exact E.
Qed.

(** ** Names *)
Lemma app_inj_r (t : string) : forall a b, (a ++ t)%string = (b ++ t)%string -> a = b.
Proof.
  assert (L : forall a, String.length (a ++ t) = (String.length a + String.length t)%nat) by (induction a as [|c a IH]; [reflexivity|cbn; rewrite IH; reflexivity]).
  induction a as [|c a IH]; intros [|d b] E; cbn in E.
  - reflexivity.
  - exfalso. apply (f_equal String.length) in E. cbn in E. rewrite L in E. lia.
  - exfalso. apply (f_equal String.length) in E. cbn in E. rewrite L in E. lia.
  - injection E as <- E. f_equal. apply IH, E.
Qed.
Lemma rc_ne : forall p q, (p ++ "_r")%string <> (q ++ "_c")%string.
Proof.
  intros p q E. assert (L : forall a t, list_ascii_of_string (a ++ t)%string = list_ascii_of_string a ++ list_ascii_of_string t) by (induction a as [|c a IH]; intro t; [reflexivity|cbn; rewrite IH; reflexivity]).
  apply (f_equal (fun s => rev (list_ascii_of_string s))) in E. rewrite !L, !rev_app_distr in E. discriminate.
Qed.
Lemma troll_name_inj prefix a b : troll_name prefix a = troll_name prefix b -> a = b.
Proof. unfold troll_name. intro E. apply append_last in E. injection E as E. apply str_nat_inj, E. Qed.
Lemma troll_name_ident prefix k : ident_chars prefix = true -> ident_chars (troll_name prefix k) = true.
Proof.
  intro P. destruct prefix as [|c p]; [discriminate|]. unfold troll_name. cbn in *. apply andb_true_iff in P. destruct P as [P1 P2]. rewrite P1. cbn. rewrite las_app, forallb_app, P2. cbn.
  apply forallb_forall. intros d D. apply str_nat_digits in D. unfold name_char. destruct d as [[] [] [] [] [] [] [] []]; try discriminate D; reflexivity.
Qed.

(** ** Unions of specifications *)
Definition plain_options (g : grspec) : Prop := moore g = true /\ plus_one g = true /\ qinit g = "\A \A".
Lemma spec_shape order w m offset c g : w_W w = Some m -> spec order w offset c true = Ok g ->
  plain_options g /\ side_vars c g = [((w_prefix w ++ "_r")%string, DInt 0 (Z.of_nat (m_rows m) - 1)); ((w_prefix w ++ "_c")%string, DInt 0 (Z.of_nat (m_cols m) - 1))].
Proof.
  intros W E. unfold spec in E. rewrite W in E. destruct (safety _ _ _); [|discriminate]. cbn [bind] in E. unfold variables in E. cbn [bind] in E.
  destruct (mapr _ (w_init w)); [|discriminate]. cbn [bind] in E. destruct (mapr _ (w_goal w)); [|discriminate]. cbn [bind] in E. injection E as <-. destruct c; (split; [repeat split|reflexivity]).
Qed.
Lemma allowed_or a b r st : NoDup (map fst (env_vars b)) -> NoDup (map fst (sys_vars b)) -> spec_or a b = Ok r ->
  (allowed (env_vars r) st <-> allowed (env_vars a) st /\ allowed (env_vars b) st).
Proof.
  intros N1 N2 E. unfold allowed. pose proof (fun x d => proj1 (or_variables a b r N1 N2 E x d)) as V. split.
  - intro H. split; intros x k L; apply H, declared_lookup, V; rewrite !declared_lookup; [left|right]; exact L.
  - intros [H1 H2] x k L. apply declared_lookup, V in L. rewrite !declared_lookup in L. destruct L as [L|L]; [apply H1|apply H2]; exact L.
Qed.
(** The names of the variables of worlds *)
Definition names_of (p : string) : list string := [(p ++ "_r")%string; (p ++ "_c")%string].
Lemma names_apart p q x : p <> q -> In x (names_of p) -> ~ In x (names_of q).
Proof.
  intros N [<-|[<-|[]]] [E|[E|[]]].
  - apply N. symmetry. apply (app_inj_r "_r" _ _ E).
  - symmetry in E. apply (rc_ne p q E).
  - apply (rc_ne q p E).
  - apply N. symmetry. apply (app_inj_r "_c" _ _ E).
Qed.
Lemma names_nodup p : NoDup (names_of p).
Proof. constructor; [intros [E|[]]; symmetry in E; apply (rc_ne p p E)|]. constructor; [intros []|constructor]. Qed.

Definition env_world (order : list string -> list string) (ox : ij * world) (h : grspec) : Prop :=
  spec order (snd ox) (- fst (fst ox), - snd (fst ox))%Z false true = Ok h /\ (exists xm, w_W (snd ox) = Some xm) /\
  sys_vars h = [] /\ sys_init h = [] /\ sys_safety h = [] /\ sys_prog h = [].
Lemma lookup_some_of_in {A} y (l : list (string * A)) : In y (map fst l) -> exists d, M_Base.lookup y l = Some d.
Proof. induction l as [|[k v] l IH]; cbn; [intros []|]. intros [->|H]; [rewrite String.eqb_refl; eauto|]. destruct (String.eqb y k); [eauto|apply IH, H]. Qed.
Lemma or_all_ok order xs : forall hs acc, Forall2 (env_world order) xs hs -> plain_options acc ->
  NoDup (map (fun ox => w_prefix (snd ox)) xs) ->
  (forall x, In x (map fst (env_vars acc)) -> ~ In x (map fst (sys_vars acc)) /\ forall ox, In ox xs -> ~ In x (names_of (w_prefix (snd ox)))) ->
  (forall x, In x (map fst (sys_vars acc)) -> forall ox, In ox xs -> ~ In x (names_of (w_prefix (snd ox)))) ->
  exists g, or_all order true acc xs = Ok g /\ plain_options g /\ sys_vars g = sys_vars acc /\ sys_init g = sys_init acc /\ sys_safety g = sys_safety acc /\ sys_prog g = sys_prog acc /\
    env_init g = env_init acc ++ flat_map env_init hs /\ env_safety g = env_safety acc ++ flat_map env_safety hs /\ env_prog g = env_prog acc ++ flat_map env_prog hs /\
    (forall st, allowed (env_vars g) st <-> allowed (env_vars acc) st /\ Forall (fun h => allowed (env_vars h) st) hs).
Proof.
  induction xs as [|[o x] xs IH]; intros hs acc F PO N DE DS; inversion F as [|? h ? hs' H F' E1 E2]; subst; cbn [or_all flat_map].
  - exists acc. split; [reflexivity|]. rewrite !app_nil_r. do 8 (split; [first [assumption|reflexivity]|]). intro st. split; [intro A; split; [exact A|constructor]|intros [A _]; exact A].
  - destruct H as (HS & [xm HW] & V0 & I0 & S0 & P0). cbn [fst snd] in *. rewrite HS. cbn [bind]. destruct (spec_shape _ _ _ _ _ _ HW HS) as [PH VH]. cbn [side_vars] in VH.
    assert (KH : map fst (env_vars h) = names_of (w_prefix x)) by (rewrite VH; reflexivity).
    destruct PO as (O1 & O2 & O3), PH as (Q1 & Q2 & Q3).
    assert (EOR : exists r, spec_or acc h = Ok r).
    { unfold spec_or. rewrite copy_ok by (intros y Y1 Y2; exact (proj1 (DE y Y1) Y2)). cbn [bind]. rewrite O1, O2, O3, Q1, Q2, Q3. cbn.
      assert (M1 : mismatch (env_vars h) (env_vars acc) = false).
      { apply mismatch_false. intros y d d' L1 L2. exfalso. apply lookup_in, (in_map fst) in L1. apply lookup_in, (in_map fst) in L2. cbn [fst] in *. rewrite KH in L1. apply (proj2 (DE y L2) (o, x)); [left; reflexivity|exact L1]. }
      assert (M2 : mismatch (sys_vars h) (sys_vars acc) = false) by (rewrite V0; reflexivity).
      rewrite M1, M2. eexists. reflexivity. }
    destruct EOR as [r EOR]. rewrite EOR. cbn [bind].
    assert (NH1 : NoDup (map fst (env_vars h))) by (rewrite KH; apply names_nodup). assert (NH2 : NoDup (map fst (sys_vars h))) by (rewrite V0; constructor).
    pose proof (fun st => allowed_or acc h r st NH1 NH2 EOR) as AO. pose proof (or_variables _ _ _ NH1 NH2 EOR) as OV.
    apply or_inv in EOR. destruct EOR as (_ & _ & _ & _ & _ & _ & ER).
    assert (SV : sys_vars r = sys_vars acc) by (rewrite ER; cbn [sys_vars]; rewrite V0; reflexivity).
    assert (EK : forall y, In y (map fst (env_vars r)) -> In y (map fst (env_vars acc)) \/ In y (names_of (w_prefix x))).
    { intros y Y. assert (L : exists d, M_Base.lookup y (env_vars r) = Some d) by (apply lookup_some_of_in, Y).
      destruct L as [d L]. apply declared_lookup, OV in L. rewrite !declared_lookup in L. destruct L as [L|L]; apply lookup_in, (in_map fst) in L; cbn [fst] in L; [left; exact L|right; rewrite <- KH; exact L]. }
    cbn [map snd] in N. apply NoDup_cons_iff in N. destruct N as [NX N'].
    destruct (IH hs' r F') as (g & G0 & G1 & G2 & G3 & G4 & G5 & G6 & G7 & G8 & G9).
    + rewrite ER. repeat split; cbn [moore plus_one qinit]; assumption.
    + exact N'.
    + intros y Y. rewrite SV. destruct (EK y Y) as [A|A].
      * destruct (DE y A) as [D1 D2]. split; [exact D1|]. intros ox I. apply D2. right. exact I.
      * split; [intro A'; apply (DS y A' (o, x)); [left; reflexivity|exact A]|]. intros ox I. apply (names_apart (w_prefix x)); [|exact A]. intro E. apply NX. rewrite E. apply (in_map (fun ox => w_prefix (snd ox))), I.
    + intros y Y ox I. rewrite SV in Y. apply DS; [exact Y|right; exact I].
    + exists g. split; [exact G0|]. split; [exact G1|]. rewrite G2, G3, G4, G5, G6, G7, G8, ER. cbn [env_vars sys_vars env_init sys_init env_safety sys_safety env_prog sys_prog]. rewrite V0, I0, S0, P0, !app_nil_r, <- !app_assoc.
      do 7 (split; [reflexivity|]). intro st. rewrite G9, AO. split; [intros [[A B] C]; split; [exact A|constructor; assumption]|intros [A C]; inversion C; subst; tauto].
Qed.

(** ** The clauses of mutual exclusion *)
Lemma chain_X_ident a : ident a -> chain 8 ("X " ++ a) (NUn "X" (NVar a)).
Proof.
  intro H. destruct (atom_ident a H) as [N R]. split; [apply nohash_app; [apply nohash_lit; reflexivity|exact N]|]. intros st _. exists [FUn 13 "X"], (NVar a). split; [constructor; [cbn; lia|constructor]|]. split; [reflexivity|].
  intro rest. replace (lex ("X " ++ a)) with (NEXT :: lex a) by (symmetry; rewrite lex_lit by reflexivity; reflexivity). cbn [List.app]. change (run (NEXT :: lex a ++ rest) st None) with (run (lex a ++ rest) (FUn 13 "X" :: st) None). rewrite R. reflexivity.
Qed.
Lemma d_next_eq a z : ident a -> dchain 8 (("X " ++ a) ++ " = " ++ str_Z z) (fun s i => s (S i) a = VZ z).
Proof.
  intro H. destruct (L_Gr1c.str_Z_number z) as [N V]. exists (NCmp "=" (NUn "X" (NVar a)) (NNum (str_Z z))). split.
  - apply chain_eq; [apply chain_X_ident, H|apply atom_chain, atom_num, N].
  - intros s i. cbn [holds term_val]. rewrite V. cbn. reflexivity.
Qed.
Lemma d_and1 a b P Q : dchain 5 a P -> dchain 6 b Q -> dchain 5 (a ++ " & " ++ b) (fun s i => P s i /\ Q s i).
Proof. bin chain_and1 "&". Qed.
Lemma exclusion_ok Y m p o x : w_W Y = Some m -> w_offset Y = (0, 0)%Z -> ident_chars (w_prefix Y) = true -> ident_chars (w_prefix x) = true -> In p (cells m) ->
  exists t, exclusion Y true (p, (o, x)) = Ok t /\
    den t (fun s i => ~ (at_int Y (key p) (s (S i)) /\ s (S i) (w_prefix x ++ "_r")%string = VZ (fst (key p) - fst o)%Z /\ s (S i) (w_prefix x ++ "_c")%string = VZ (snd (key p) - snd o)%Z)).
Proof.
  intros W O PY PX I. unfold exclusion. destruct (key_range m p I) as [KR KN]. destruct (next_int Y m W PY O (key p) KR) as (a & Ea & Da). rewrite KN in Da. rewrite Ea. cbn [bind]. eexists. split; [reflexivity|].
  set (xr := (w_prefix x ++ "_r")%string). set (xc := (w_prefix x ++ "_c")%string). set (zr := (fst (key p) - fst o)%Z). set (zc := (snd (key p) - snd o)%Z).
  match goal with |- den ?t _ => replace t with ("!(" ++ (a ++ " && " ++ ("(" ++ (("(" ++ (("X " ++ xr) ++ " = " ++ str_Z zr) ++ ")") ++ " & " ++ ("(" ++ (("X " ++ xc) ++ " = " ++ str_Z zc) ++ ")")) ++ ")")) ++ ")")%string end.
  2:{ unfold xr, xc, zr, zc, key. cbn [fst snd]. repeat rewrite <- string_app_assoc. cbn [append]. repeat rewrite <- string_app_assoc. reflexivity. }
  apply dpre_den. apply (d_not _ (fun s i => at_int Y (key p) (s (S i)) /\ s (S i) xr = VZ zr /\ s (S i) xc = VZ zc)). apply (dchain_den 5).
  apply (d_and _ _ (fun s i => at_int Y (key p) (s (S i))) (fun s i => s (S i) xr = VZ zr /\ s (S i) xc = VZ zc)); [apply dpre_dchain; [lia|exact Da]|].
  apply datom_dchain, d_paren, (dchain_den 5). apply d_and1; apply datom_dchain, d_paren, (dchain_den 8), d_next_eq; apply ident_suffix; first [exact PX|reflexivity|cbn; auto].
Qed.

(** ** Positions *)
Definition val (v : value) : Z := match v with VZ z => z | _ => 0%Z end.
Definition place_of (p : string) (s : trace) (i : nat) : Z * Z := (val (s i (p ++ "_r")%string), val (s i (p ++ "_c")%string)).
Lemma place_shows p rows cols (s : trace) : (forall i, allowed [((p ++ "_r")%string, DInt 0 (Z.of_nat rows - 1)); ((p ++ "_c")%string, DInt 0 (Z.of_nat cols - 1))] (s i)) ->
  shows_int p s (place_of p s) /\ forall i, (0 <= fst (place_of p s i) < Z.of_nat rows)%Z /\ (0 <= snd (place_of p s i) < Z.of_nat cols)%Z.
Proof.
  intro Al.
  assert (Row : forall i, exists z, s i (p ++ "_r")%string = VZ z /\ (0 <= z < Z.of_nat rows)%Z).
  { intro i. specialize (Al i (p ++ "_r")%string (DInt 0 (Z.of_nat rows - 1))). cbn [M_Base.lookup] in Al. rewrite String.eqb_refl in Al. specialize (Al eq_refl). unfold in_domain in Al.
    destruct (s i (p ++ "_r")%string) as [b|z|x]; [destruct Al|exists z; split; [reflexivity|lia]|destruct Al]. }
  assert (Col : forall i, exists z, s i (p ++ "_c")%string = VZ z /\ (0 <= z < Z.of_nat cols)%Z).
  { intro i. specialize (Al i (p ++ "_c")%string (DInt 0 (Z.of_nat cols - 1))). cbn [M_Base.lookup] in Al. rewrite String.eqb_refl in Al.
    destruct (String.eqb_spec (p ++ "_c") (p ++ "_r")) as [X|_]; [symmetry in X; apply rc_ne in X; destruct X|]. specialize (Al eq_refl). unfold in_domain in Al.
    destruct (s i (p ++ "_c")%string) as [b|z|x]; [destruct Al|exists z; split; [reflexivity|lia]|destruct Al]. }
  unfold place_of. split; intro i; destruct (Row i) as (z & E1 & B1), (Col i) as (y & E2 & B2); cbn [fst snd]; rewrite E1, E2; cbn [val]; auto.
Qed.
Lemma shows_unique p s a b : shows_int p s a -> shows_int p s b -> forall i, a i = b i.
Proof. intros A B i. destruct (A i) as [A1 A2], (B i) as [B1 B2]. rewrite A1 in B1. rewrite A2 in B2. injection B1 as B1. injection B2 as B2. rewrite (surjective_pairing (a i)), (surjective_pairing (b i)). congruence. Qed.
(** Walks, when the positions are known *)
Lemma walks_at order w m offset c g s pos : w_W w = Some m -> shaped m -> binary m -> ident_chars (w_prefix w) = true ->
  (forall k, In k (w_init w) \/ In k (w_goal w) -> in_range m k) -> w_init w <> [] -> (forall k, In k (w_init w) -> free (view m) (norm m k)) -> spec order w offset c true = Ok g ->
  (forall i, allowed (side_vars c g) (s i)) -> shows_int (w_prefix w) s pos ->
  (init_safe c g s <-> (exists k, In k (w_init w) /\ pos 0%nat = norm m k) /\ forall i, step (view m) (pos i) (pos (S i))).
Proof.
  intros W S B P R N F E Al Sh. rewrite (spec_int_walks order w m offset c g W S B P R N F E s Al). split.
  - intros (q & Q & Q1 & Q2). pose proof (shows_unique _ _ _ _ Sh Q) as U. split; [destruct Q1 as (k & K & E1); exists k; split; [exact K|rewrite U; exact E1]|]. intro i. rewrite !U. apply Q2.
  - intros [A1 A2]. exists pos. split; [exact Sh|]. split; assumption.
Qed.
Definition plus (a b : Z * Z) : Z * Z := (fst a + fst b, snd a + snd b)%Z.
(** The walks of one troll *)
Lemma troll_walks order m prefix anywhere id c r o x mv xm h s : is_troll m prefix anywhere id c r o x mv xm -> binary m -> free (view m) c -> (0 <= r)%Z -> ident_chars prefix = true ->
  spec order x (- fst o, - snd o)%Z false true = Ok h -> (forall i, allowed (env_vars h) (s i)) ->
  let pos := fun i => plus (place_of (troll_name prefix id) s i) o in
  shows_int (troll_name prefix id) s (fun i => minus (pos i) (origin c r)) /\
  (forall i, exists v, space m c r (fst (pos i)) (snd (pos i)) = Some v) /\
  (init_safe false h s <-> (if anywhere then free (space m c r) (pos 0%nat) else pos 0%nat = c) /\ forall i, step (space m c r) (pos i) (pos (S i))).
Proof.
  intros T B F R P E Al pos. pose proof (troll_binary _ _ _ _ _ _ _ _ _ _ T B) as BX. destruct T as [To TW TS TV TZ TP TG TI _].
  destruct (spec_shape _ _ _ _ _ _ TW E) as [_ VH]. cbn [side_vars] in VH. rewrite TP in VH. rewrite VH in Al. destruct (place_shows _ _ _ s Al) as [Sh Rg].
  assert (FV : forall k, free (view xm) (minus k o) <-> free (space m c r) k) by (intro k; unfold free, minus; cbn [fst snd]; rewrite TV; reflexivity).
  assert (MP : forall i, minus (pos i) o = place_of (troll_name prefix id) s i) by (intro i; unfold pos, minus, plus; cbn [fst snd]; rewrite !Z.add_simpl_r; destruct (place_of _ _ _); reflexivity).
  assert (PM : forall k, plus (minus k o) o = k) by (intros [a b]; unfold plus, minus; cbn [fst snd]; f_equal; lia).
  assert (ST : forall a b, step (view xm) (minus a o) (minus b o) <-> step (space m c r) a b).
  { intros a b. unfold step. rewrite FV. assert (X : (minus b o = minus a o \/ adjacent (minus a o) (minus b o)) <-> (b = a \/ adjacent a b)); [|rewrite X; reflexivity].
    assert (Eq : minus b o = minus a o <-> b = a) by (split; [intro K; rewrite <- (PM a), <- (PM b), K; reflexivity|intros ->; reflexivity]). rewrite Eq. unfold adjacent, minus. cbn [fst snd]. replace (fst a - fst o - (fst b - fst o))%Z with (fst a - fst b)%Z by lia. replace (snd a - snd o - (snd b - snd o))%Z with (snd a - snd b)%Z by lia. reflexivity. }
  assert (FC : free (space m c r) c). { unfold free, space. rewrite !Z.sub_diag. cbn [Z.abs]. destruct (Z.leb_spec 0 r); [exact F|lia]. }
  assert (NR : forall k, free (view xm) k -> in_range xm k /\ norm xm k = k).
  { intros k K. pose proof (view_inside _ _ _ _ TS K) as [V1 V2]. unfold in_range, within, norm, wrapped. destruct (Z.ltb_spec (fst k) 0); [lia|]. destruct (Z.ltb_spec (snd k) 0); [lia|]. split; [lia|destruct k; reflexivity]. }
  assert (IF : forall k, In k (w_init x) -> free (view xm) k).
  { intros k K. destruct anywhere; [apply TI, K|]. rewrite TI in K. destruct K as [<-|[]]. apply FV, FC. }
  split; [rewrite <- To; intro i; rewrite MP; apply Sh|]. split.
  { intro i. rewrite <- TV. change (fst (pos i) - fst o)%Z with (fst (minus (pos i) o)). change (snd (pos i) - snd o)%Z with (snd (minus (pos i) o)). rewrite MP. destruct (Rg i) as [R1 R2]. eexists. apply view_at; assumption. }
  assert (PX : ident_chars (w_prefix x) = true) by (rewrite TP; apply troll_name_ident, P).
  rewrite (walks_at order x xm (- fst o, - snd o)%Z false h s (place_of (troll_name prefix id) s) TW TS BX PX).
  - assert (W0 : (exists k, In k (w_init x) /\ place_of (troll_name prefix id) s 0 = norm xm k) <-> (if anywhere then free (space m c r) (pos 0%nat) else pos 0%nat = c)).
    { destruct anywhere.
      - rewrite <- FV, MP. split.
        + intros (k & K & ->). rewrite (proj2 (NR k (IF k K))). apply IF, K.
        + intro K. exists (place_of (troll_name prefix id) s 0). split; [apply TI, K|]. symmetry. apply NR, K.
      - rewrite TI. split.
        + intros (k & [<-|[]] & E0). rewrite (proj2 (NR _ (proj2 (FV c) FC))) in E0. rewrite <- (PM (pos 0%nat)), MP, E0. apply PM.
        + intro E0. exists (minus c o). split; [left; reflexivity|]. rewrite (proj2 (NR _ (proj2 (FV c) FC))), <- MP, E0. reflexivity. }
    rewrite W0. assert (WS : (forall i, step (view xm) (place_of (troll_name prefix id) s i) (place_of (troll_name prefix id) s (S i))) <-> forall i, step (space m c r) (pos i) (pos (S i))).
    { split; intros H i; specialize (H i); [apply ST; rewrite !MP; exact H|rewrite <- !MP; apply ST, H]. }
    rewrite WS. reflexivity.
  - intros k [K|K]; [apply NR, IF, K|]. rewrite TG in K. destruct K as [<-|[]]. apply NR, FV, FC.
  - intro E0. destruct anywhere; [|rewrite TI in E0; discriminate]. assert (K : In (minus c o) (w_init x)) by (apply TI, FV, FC). rewrite E0 in K. destruct K.
  - intros k K. rewrite (proj2 (NR k (IF k K))). apply IF, K.
  - exact E.
  - cbn [side_vars]. rewrite VH. exact Al.
  - rewrite TP. exact Sh.
Qed.

(** ** The lists of trolls *)
Lemma trolls_ok Y m prefix anywhere : w_W Y = Some m -> shaped m -> forall tl id, (forall c r, In (c, r) tl -> free (view m) c /\ (0 <= r)%Z) ->
  exists xs, trolls Y prefix anywhere true m id tl = Ok xs /\ List.length xs = List.length tl /\
    forall k c r, nth_error tl k = Some (c, r) -> exists o x mv xm, nth_error xs k = Some (o, x, mv) /\ is_troll m prefix anywhere (id + k) c r o x mv xm.
Proof.
  intros W S tl. induction tl as [|[c r] tl IH]; intros id H; cbn [trolls].
  - exists []. split; [reflexivity|]. split; [reflexivity|]. intros [|k] c r E; discriminate.
  - destruct (H c r (or_introl eq_refl)) as [F R]. destruct (troll_ok Y m prefix anywhere id c r W S F R) as (o & x & mv & xm & E & T). rewrite E. cbn [bind].
    destruct (IH (Datatypes.S id)) as (xs & E' & L & N); [intros c' r' I; apply H; right; exact I|]. rewrite E'. cbn [bind]. eexists. split; [reflexivity|]. split; [cbn; rewrite L; reflexivity|].
    intros [|k] c' r' K; cbn [nth_error] in *.
    + injection K as <- <-. exists o, x, mv, xm. rewrite Nat.add_0_r. split; [reflexivity|exact T].
    + destruct (N k c' r' K) as (o' & x' & mv' & xm' & A & B). exists o', x', mv', xm'. split; [exact A|]. rewrite Nat.add_succ_r. exact B.
Qed.
(** The specification of one troll *)
Lemma troll_spec order m prefix anywhere id c r o x mv xm : is_troll m prefix anywhere id c r o x mv xm -> binary m -> free (view m) c -> (0 <= r)%Z -> ident_chars prefix = true ->
  exists h, env_world order (o, x) h /\
    exists f, env_prog h = [f] /\ forall s i, text_true s i f <-> s i (troll_name prefix id ++ "_r")%string = VZ (fst c - fst o)%Z /\ s i (troll_name prefix id ++ "_c")%string = VZ (snd c - snd o)%Z.
Proof.
  intros T B F R P. pose proof (troll_binary _ _ _ _ _ _ _ _ _ _ T B) as BX. destruct T as [To TW TS TV TZ TP TG TI _].
  assert (FV : forall k, free (view xm) (minus k o) <-> free (space m c r) k) by (intro k; unfold free, minus; cbn [fst snd]; rewrite TV; reflexivity).
  assert (FC : free (space m c r) c). { unfold free, space. rewrite !Z.sub_diag. cbn [Z.abs]. destruct (Z.leb_spec 0 r); [exact F|lia]. }
  assert (NR : forall k, free (view xm) k -> in_range xm k /\ norm xm k = k).
  { intros k K. pose proof (view_inside _ _ _ _ TS K) as [V1 V2]. unfold in_range, within, norm, wrapped. destruct (Z.ltb_spec (fst k) 0); [lia|]. destruct (Z.ltb_spec (snd k) 0); [lia|]. split; [lia|destruct k; reflexivity]. }
  assert (IR : forall k, In k (w_init x) \/ In k (w_goal x) -> in_range xm k).
  { intros k [K|K]; apply NR; [destruct anywhere; [apply TI, K|rewrite TI in K]|rewrite TG in K]; destruct K as [<-|[]]; apply FV, FC. }
  assert (PX : ident_chars (w_prefix x) = true) by (rewrite TP; apply troll_name_ident, P).
  destruct (spec_int_traces order x xm (- fst o, - snd o)%Z false TW TS BX PX IR) as (h & E & _ & G & V0 & I0 & S0 & P0). exists h. split.
  - split; [exact E|]. split; [eexists; exact TW|]. repeat split; assumption.
  - cbn [side_prog] in G. rewrite TG in G. inversion G as [|? f ? l Hf Hl E1 E2]; subst. inversion Hl; subst. exists f. split; [reflexivity|]. intros s i. rewrite Hf, TP.
    rewrite (proj2 (NR _ (proj2 (FV c) FC))). reflexivity.
Qed.

(** ** Lists *)
Lemma choose_list {A B} (P : nat -> A -> B -> Prop) : forall xs n, (forall k x, nth_error xs k = Some x -> exists h, P (n + k)%nat x h) ->
  exists hs, List.length hs = List.length xs /\ forall k x, nth_error xs k = Some x -> exists h, nth_error hs k = Some h /\ P (n + k)%nat x h.
Proof.
  induction xs as [|x xs IH]; intros n H; [exists []; split; [reflexivity|intros [|k] y E; discriminate]|].
  destruct (H 0%nat x eq_refl) as [h Hh]. destruct (IH (S n)) as (hs & L & N); [intros k y E; replace (S n + k)%nat with (n + S k)%nat by lia; apply (H (S k)), E|].
  exists (h :: hs). split; [cbn; rewrite L; reflexivity|]. intros [|k] y E; cbn [nth_error] in *; [injection E as <-; eauto|]. replace (n + S k)%nat with (S n + k)%nat by lia. apply N, E.
Qed.
Lemma Forall2_of_nth {A B} (P : A -> B -> Prop) : forall xs hs, List.length hs = List.length xs -> (forall k x, nth_error xs k = Some x -> exists h, nth_error hs k = Some h /\ P x h) -> Forall2 P xs hs.
Proof.
  induction xs as [|x xs IH]; intros [|h hs] L H; try discriminate; constructor.
  - destruct (H 0%nat x eq_refl) as (h' & E & Q). injection E as <-. exact Q.
  - apply IH; [injection L as L; exact L|]. intros k y E. exact (H (S k) y E).
Qed.
Lemma Forall2_weaken {A B} (P Q : A -> B -> Prop) : (forall x y, P x y -> Q x y) -> forall l m, Forall2 P l m -> Forall2 Q l m.
Proof. intros H l m F. induction F; constructor; auto. Qed.
Lemma nth_pair {A B} (xs : list A) (ys : list B) k y : List.length xs = List.length ys -> nth_error ys k = Some y -> exists x, nth_error xs k = Some x.
Proof. intros L E. destruct (nth_error xs k) eqn:F; [eauto|]. apply nth_error_None in F. assert (k < List.length ys)%nat by (apply nth_error_Some; congruence). lia. Qed.
Lemma flat_single {A B} (f : A -> list B) : forall hs, (forall h, In h hs -> exists y, f h = [y]) -> List.length (flat_map f hs) = List.length hs /\ forall k h y, nth_error hs k = Some h -> f h = [y] -> nth_error (flat_map f hs) k = Some y.
Proof.
  induction hs as [|h hs IH]; intro H; [split; [reflexivity|intros [|k] h y E; discriminate]|]. destruct (H h (or_introl eq_refl)) as [y0 E0]. destruct IH as [L N]; [intros h' I; apply H; right; exact I|].
  cbn [flat_map]. rewrite E0. cbn [List.app List.length]. split; [rewrite L; reflexivity|]. intros [|k] h' y E F; cbn [nth_error] in *; [injection E as <-; congruence|apply (N k h' y E F)].
Qed.
Lemma safe_union s g hs : env_init g = flat_map env_init hs -> env_safety g = flat_map env_safety hs -> (init_safe false g s <-> forall h, In h hs -> init_safe false h s).
Proof.
  intros E1 E2. unfold init_safe. cbn [side_init side_safety]. rewrite E1, E2. split.
  - intros [A B] h I. split; [intros f F; apply A|intros i f F; apply B]; apply in_flat_map; eauto.
  - intro H. split; [intros f F|intros i f F]; apply in_flat_map in F; destruct F as (h & I & F); [apply (proj1 (H h I)), F|apply (proj2 (H h I)), F].
Qed.
Lemma back p s a o : shows_int p s (fun i => minus (a i) o) -> forall i k, s i (p ++ "_r")%string = VZ (fst k - fst o)%Z /\ s i (p ++ "_c")%string = VZ (snd k - snd o)%Z <-> a i = k.
Proof.
  intros Sh i k. destruct (Sh i) as [E1 E2]. unfold minus in E1, E2. cbn [fst snd] in E1, E2. rewrite E1, E2. split.
  - intros [A B]. injection A as A. injection B as B. rewrite (surjective_pairing (a i)), (surjective_pairing k). f_equal; lia.
  - intros ->. split; reflexivity.
Qed.

(** ** The game of a world and its trolls *)
(** Every troll moves as in its own space: it starts at its centre, or anywhere where it is free, and it takes one step to a
    free cell of its space, or stays; the system does so in the whole world, and never moves to where a troll moves. *)
Theorem add_trolls_game : forall order Y m prefix anywhere tl,
  w_W Y = Some m -> shaped m -> binary m -> w_offset Y = (0, 0)%Z -> ident_chars (w_prefix Y) = true -> ident_chars prefix = true ->
  (forall k, In k (w_init Y) \/ In k (w_goal Y) -> in_range m k) -> w_init Y <> [] -> (forall k, In k (w_init Y) -> free (view m) (norm m k)) ->
  (forall c r, In (c, r) tl -> free (view m) c /\ (0 <= r)%Z) -> (forall k, (k < List.length tl)%nat -> w_prefix Y <> troll_name prefix k) ->
  exists g mv, add_trolls order Y prefix anywhere true tl = Ok (g, mv) /\
    List.length (env_prog g) = List.length tl /\
    (forall s, (forall i, allowed (env_vars g) (s i) /\ allowed (sys_vars g) (s i)) ->
     exists pos tpos, shows_int (w_prefix Y) s pos /\
       (forall k c r, nth_error tl k = Some (c, r) -> shows_int (troll_name prefix k) s (fun i => minus (tpos k i) (origin c r))) /\
       (init_safe false g s <-> forall k c r, nth_error tl k = Some (c, r) ->
          (if anywhere then free (space m c r) (tpos k 0%nat) else tpos k 0%nat = c) /\ forall i, step (space m c r) (tpos k i) (tpos k (S i))) /\
       (init_safe true g s <-> (exists k, In k (w_init Y) /\ pos 0%nat = norm m k) /\ (forall i, step (view m) (pos i) (pos (S i))) /\
          forall i k, (k < List.length tl)%nat -> pos (S i) <> tpos k (S i)) /\
       (forall k c r, nth_error tl k = Some (c, r) -> exists f, nth_error (env_prog g) k = Some f /\ forall i, text_true s i f <-> tpos k i = c) /\
       Forall2 (fun k f => forall i, text_true s i f <-> pos i = norm m k) (w_goal Y) (sys_prog g)) /\
    List.length mv = List.length tl /\
    (forall k c r, nth_error tl k = Some (c, r) -> exists l, nth_error mv k = Some l /\
       forall st, In st l <-> exists i j v, space m c r i j = Some v /\ st = [((troll_name prefix k ++ "_r")%string, i); ((troll_name prefix k ++ "_c")%string, j)]).
Proof.
  intros order Y m prefix anywhere tl W Sm B O PY PP IR IN IF TL NE. unfold add_trolls. rewrite W. cbn [of_opt bind].
  destruct (trolls_ok Y m prefix anywhere W Sm tl 0 TL) as (xs & Ex & Lx & Nx). rewrite Ex. cbn [bind].
  destruct (spec_int_traces order Y m (0, 0)%Z true W Sm B PY IR) as (gY & EY & _ & GY & V0 & I0 & S0 & P0). rewrite EY. cbn [bind]. cbn [negb side_vars side_init side_safety side_prog] in *.
  destruct (spec_shape _ _ _ _ _ _ W EY) as [OY VY]. cbn [side_vars] in VY.
  (* The specifications of the trolls *)
  destruct (choose_list (fun k (x : ij * world * list (list (string * Z))) h => exists c r xm, nth_error tl k = Some (c, r) /\ is_troll m prefix anywhere k c r (fst (fst x)) (snd (fst x)) (snd x) xm /\ env_world order (fst x) h /\
     exists f, env_prog h = [f] /\ forall s i, text_true s i f <-> s i (troll_name prefix k ++ "_r")%string = VZ (fst c - fst (fst (fst x)))%Z /\ s i (troll_name prefix k ++ "_c")%string = VZ (snd c - snd (fst (fst x)))%Z) xs 0) as (hs & Lh & Nh).
  { intros k x E. cbn [Nat.add]. destruct (nth_pair tl xs k x (eq_sym Lx) E) as [[c r] T]. destruct (Nx k c r T) as (o & w & mv & xm & E' & IT). rewrite E in E'. injection E' as ->. cbn [Nat.add] in IT.
    destruct (TL c r (nth_error_In _ _ T)) as [Fc Rc]. destruct (troll_spec order _ _ _ _ _ _ _ _ _ _ IT B Fc Rc PP) as (h & H1 & H2). exists h, c, r, xm. cbn [fst snd]. repeat (split; [assumption|]). exact H2. }
  cbn [Nat.add] in Nh.
  assert (FW : Forall2 (env_world order) (map fst xs) hs).
  { apply Forall2_of_nth; [rewrite map_length; exact Lh|]. intros k ox E. rewrite nth_error_map in E. destruct (nth_error xs k) as [x|] eqn:Ek; [|discriminate]. injection E as <-. destruct (Nh k x Ek) as (h & E & c & r & xm & _ & _ & H & _). eauto. }
  assert (PX : forall k x, nth_error xs k = Some x -> w_prefix (snd (fst x)) = troll_name prefix k).
  { intros k x E. destruct (Nh k x E) as (h & _ & c & r & xm & _ & IT & _). apply (t_prefix _ _ _ _ _ _ _ _ _ _ IT). }
  assert (KX : forall k x, nth_error xs k = Some x -> (k < List.length tl)%nat) by (intros k x E; rewrite <- Lx; apply nth_error_Some; congruence).
  destruct (or_all_ok order (map fst xs) hs gY FW OY) as (g & G0 & G1 & G2 & G3 & G4 & G5 & G6 & G7 & G8 & G9).
  { rewrite map_map. apply NoDup_nth_error. intros i j Li E. rewrite map_length in Li. rewrite !nth_error_map in E. destruct (nth_error xs i) as [x|] eqn:Ei; [|apply nth_error_None in Ei; lia].
    destruct (nth_error xs j) as [y|] eqn:Ej; [|discriminate]. cbn [option_map] in E. injection E as E. rewrite (PX i x Ei), (PX j y Ej) in E. apply troll_name_inj in E. exact E. }
  { intros y Hy. rewrite V0 in Hy. destruct Hy. }
  { intros y Hy ox I. apply in_map_iff in I. destruct I as (x & <- & I). apply In_nth_error in I. destruct I as [k E]. rewrite (PX k x E). apply (names_apart (w_prefix Y)); [apply NE, (KX k x E)|]. rewrite VY in Hy. exact Hy. }
  rewrite G0. cbn [bind].
  (* The clauses of mutual exclusion *)
  set (L := filter (fun px => covers (snd px) (fst px)) (list_prod (cells m) (map fst xs))).
  destruct (mapr_ok _ _ (exclusion Y true) (fun (px : (nat * nat) * (ij * world)) t => den t (fun s i => ~ (at_int Y (key (fst px)) (s (S i)) /\ s (S i) (w_prefix (snd (snd px)) ++ "_r")%string = VZ (fst (key (fst px)) - fst (fst (snd px)))%Z /\
     s (S i) (w_prefix (snd (snd px)) ++ "_c")%string = VZ (snd (key (fst px)) - snd (fst (snd px)))%Z))) L) as (ex & Ee & Fe).
  { intros [p [o x]] I. apply filter_In in I. destruct I as [I _]. apply in_prod_iff in I. destruct I as [Ip Ix]. cbn [fst snd]. apply in_map_iff in Ix. destruct Ix as (y & Ey & Iy). apply In_nth_error in Iy. destruct Iy as [k Ek].
    apply (exclusion_ok Y m p o x W O PY); [|exact Ip]. pose proof (PX k y Ek) as E. rewrite Ey in E. cbn [snd] in E. rewrite E. apply troll_name_ident, PP. }
  rewrite Ee. cbn [bind]. eexists. eexists. split; [reflexivity|]. cbn [env_vars sys_vars env_prog sys_prog].
  assert (SG : forall h, In h hs -> exists f, env_prog h = [f]).
  { intros h I. apply In_nth_error in I. destruct I as [k E]. destruct (nth_pair xs hs k h (eq_sym Lh) E) as [x Ek]. destruct (Nh k x Ek) as (h' & E' & c & r & xm & _ & _ & _ & f & F & _). rewrite E in E'. injection E' as ->. eauto. }
  destruct (flat_single env_prog hs SG) as [FL FN].
  split; [rewrite G8, P0; cbn [List.app]; rewrite FL, Lh; exact Lx|]. split; [|split; [rewrite map_length; exact Lx|]].
  2:{ intros k c r T. destruct (Nx k c r T) as (o & x & mv & xm & E & IT). exists mv. rewrite nth_error_map, E. split; [reflexivity|]. apply (t_moves _ _ _ _ _ _ _ _ _ _ IT). }
  intros s Al. assert (AlY : forall i, allowed (sys_vars gY) (s i)) by (intro i; rewrite <- G2; apply Al).
  assert (AlH : forall h, In h hs -> forall i, allowed (env_vars h) (s i)).
  { intros h I i. pose proof (proj1 (Al i)) as A. apply G9 in A. destruct A as [_ A]. rewrite Forall_forall in A. apply A, I. }
  pose proof AlY as AlY'. rewrite VY in AlY'. destruct (place_shows _ _ _ s AlY') as [ShY RgY]. clear AlY'.
  set (pos := place_of (w_prefix Y) s) in *. clearbody pos.
  set (tpos := fun k i => match nth_error tl k with Some (c, r) => plus (place_of (troll_name prefix k) s i) (origin c r) | None => (0, 0)%Z end).
  assert (TW : forall k c r, nth_error tl k = Some (c, r) -> exists h, nth_error hs k = Some h /\
    shows_int (troll_name prefix k) s (fun i => minus (tpos k i) (origin c r)) /\
    (forall i, exists v, space m c r (fst (tpos k i)) (snd (tpos k i)) = Some v) /\
    (init_safe false h s <-> (if anywhere then free (space m c r) (tpos k 0%nat) else tpos k 0%nat = c) /\ forall i, step (space m c r) (tpos k i) (tpos k (S i)))).
  { intros k c r T. destruct (TL c r (nth_error_In _ _ T)) as [Fc Rc]. destruct (Nx k c r T) as (o & x & mv & xm & E & _). destruct (Nh k _ E) as (h & Eh & c' & r' & xm' & T' & IT & H & _).
    rewrite T in T'. injection T' as <- <-. exists h. split; [exact Eh|]. cbn [fst snd] in IT, H. destruct H as [HS _]. cbn [fst snd] in HS.
    pose proof (troll_walks order _ _ _ _ _ _ _ _ _ _ h s IT B Fc Rc PP HS (AlH h (nth_error_In _ _ Eh))) as TWk. cbv zeta in TWk. rewrite (t_origin _ _ _ _ _ _ _ _ _ _ IT) in TWk.
    unfold tpos. rewrite T. exact TWk. }
  exists pos, tpos. split; [exact ShY|]. split; [intros k c r T; destruct (TW k c r T) as (h & _ & H & _); exact H|]. split; [|split; [|split]].
  - rewrite (safe_union s _ hs) by (cbn [env_init env_safety]; first [rewrite G6, I0|rewrite G7, S0]; reflexivity). split.
    + intros H k c r T. destruct (TW k c r T) as (h & Eh & _ & _ & Q). apply Q, H, (nth_error_In _ _ Eh).
    + intros H h I. apply In_nth_error in I. destruct I as [k E]. destruct (nth_pair tl hs k h (eq_trans (eq_sym Lx) (eq_sym Lh)) E) as [[c r] T]. destruct (TW k c r T) as (h' & Eh & _ & _ & Q). rewrite E in Eh. injection Eh as <-. apply Q, (H k c r T).
  - assert (U : init_safe true gY s <-> (exists k, In k (w_init Y) /\ pos 0%nat = norm m k) /\ forall i, step (view m) (pos i) (pos (S i))) by exact (walks_at order Y m (0, 0)%Z true gY s pos W Sm B PY IR IN IF EY AlY ShY).
    assert (X : (forall i f, In f ex -> text_true s i f) <-> forall i k, (k < List.length tl)%nat -> pos (S i) <> tpos k (S i)).
    { assert (D : forall i, (forall f, In f ex -> text_true s i f) <-> forall px, In px L -> ~ (at_int Y (key (fst px)) (s (S i)) /\ s (S i) (w_prefix (snd (snd px)) ++ "_r")%string = VZ (fst (key (fst px)) - fst (fst (snd px)))%Z /\
         s (S i) (w_prefix (snd (snd px)) ++ "_c")%string = VZ (snd (key (fst px)) - snd (fst (snd px)))%Z)) by (intro i; apply (dens_true ex _ s i (Forall2_den _ _ _ _ Fe))).
      split.
      - intros H i k Lk E. specialize (proj1 (D i) (H i)). clear D. intro D. destruct (nth_error tl k) as [[c r]|] eqn:T; [|apply nth_error_None in T; lia]. destruct (TW k c r T) as (h & _ & Sh & In_ & _).
        destruct (Nx k c r T) as (o & x & mv & xm & Ek & IT). cbn [Nat.add] in IT. pose proof (t_origin _ _ _ _ _ _ _ _ _ _ IT) as To. destruct (RgY (S i)) as [R1 R2].
        apply (D ((Z.to_nat (fst (pos (S i))), Z.to_nat (snd (pos (S i)))), (o, x))).
        + apply filter_In. split; [apply in_prod_iff; split; [apply cells_In; cbn [fst snd]; lia|]; change (o, x) with (fst (o, x, mv)); apply in_map, (nth_error_In _ _ Ek)|].
          cbn [fst snd]. unfold covers. rewrite (t_W _ _ _ _ _ _ _ _ _ _ IT). cbn [fst snd]. destruct (In_ (S i)) as [v V]. rewrite <- (t_view _ _ _ _ _ _ _ _ _ _ IT) in V. apply view_inside in V; [|apply (t_shaped _ _ _ _ _ _ _ _ _ _ IT)]. rewrite <- E in V.
          rewrite !Z2Nat.id by lia. rewrite !andb_true_iff, !Z.leb_le, !Z.ltb_lt. lia.
        + cbn [fst snd]. assert (K : key (Z.to_nat (fst (pos (S i))), Z.to_nat (snd (pos (S i)))) = pos (S i)) by (unfold key; cbn [fst snd]; rewrite !Z2Nat.id by lia; symmetry; apply surjective_pairing). rewrite K.
          split; [exact (ShY (S i))|]. rewrite (t_prefix _ _ _ _ _ _ _ _ _ _ IT), To. apply (back _ s (tpos k) (origin c r) Sh). symmetry. exact E.
      - intros H i. apply D. intros [p [o x]] I (A1 & A2 & A3). cbn [fst snd] in *. apply filter_In in I. destruct I as [I _]. apply in_prod_iff in I. destruct I as [_ Ix]. apply in_map_iff in Ix. destruct Ix as (y & Ey & Iy). apply In_nth_error in Iy. destruct Iy as [k Ek].
        destruct (Nh k y Ek) as (h & _ & c & r & xm & T & IT & _). rewrite Ey in IT. cbn [fst snd] in IT. destruct (TW k c r T) as (h' & _ & Sh & _). rewrite (t_prefix _ _ _ _ _ _ _ _ _ _ IT), (t_origin _ _ _ _ _ _ _ _ _ _ IT) in A2, A3.
        apply (H i k (KX k y Ek)). rewrite (proj1 (back _ s (tpos k) (origin c r) Sh (S i) (key p)) (Logic.conj A2 A3)). destruct (ShY (S i)) as [S1 S2], A1 as [A1 A1']. unfold row_var, col_var in *. rewrite S1 in A1. rewrite S2 in A1'. injection A1 as A1. injection A1' as A1'. rewrite (surjective_pairing (pos (S i))), A1, A1'. reflexivity. }
    unfold init_safe in *. cbn [side_init side_safety sys_init sys_safety] in *. rewrite G3, G4. split.
    + intros [A1 A2]. assert (A3 : forall i f, In f (sys_safety gY) -> text_true s i f) by (intros i f I; apply A2, in_or_app; left; exact I). destruct (proj1 U (Logic.conj A1 A3)) as [U1 U2]. split; [exact U1|]. split; [exact U2|]. apply X. intros i f I. apply A2, in_or_app. right. exact I.
    + intros (U1 & U2 & U3). destruct (proj2 U (Logic.conj U1 U2)) as [A1 A2]. split; [exact A1|]. intros i f I. apply in_app_or in I. destruct I as [I|I]; [apply A2, I|apply (proj2 X U3), I].
  - intros k c r T. destruct (TW k c r T) as (h & Eh & Sh & _). destruct (Nx k c r T) as (o & x & mv & xm & Ek & IT0). destruct (Nh k _ Ek) as (h' & Eh' & c' & r' & xm' & T' & IT & _ & f & F1 & F2). rewrite T in T'. injection T' as <- <-. rewrite Eh in Eh'. injection Eh' as <-.
    exists f. split; [rewrite G8, P0; cbn [List.app]; apply (FN k h f Eh F1)|]. intro i. rewrite F2. rewrite (t_origin _ _ _ _ _ _ _ _ _ _ IT). apply (back _ s (tpos k) (origin c r) Sh).
  - rewrite G5. refine (Forall2_weaken _ _ _ _ _ GY). intros k f H i. rewrite H. destruct (ShY i) as [E1 E2]. rewrite E1, E2. split; [intros [A1 A2]; injection A1 as A1; injection A2 as A2; rewrite (surjective_pairing (pos i)), A1, A2; symmetry; apply surjective_pairing|intros ->; split; reflexivity].
Qed.

(** ** Examples and findings *)
Definition strip (n : nat) (init : list ij) : world := World (Some (Mat 1 n [repeat 0%Z n])) init [(0, Z.of_nat n - 1)%Z] "Y" (0, 0)%Z.
Definition strip_trace (y t : nat -> Z) : trace := fun i x =>
  if String.eqb x "Y_c" then VZ (y i) else if String.eqb x "X_0_c" then VZ (t i) else VZ 0.
Lemma binary_by m : Forall (Forall (fun v => v = 0%Z \/ v = 1%Z)) (m_cells m) -> binary m.
Proof.
  intros H i j v E. unfold view in E. destruct (_ || _); [discriminate|]. destruct (nth_error (m_cells m) _) as [row|] eqn:R; [|discriminate].
  rewrite Forall_forall in H. specialize (H row (nth_error_In _ _ R)). rewrite Forall_forall in H. apply H, (nth_error_In _ _ E).
Qed.
(** The hypotheses hold, with two trolls in a world with a wall. *)
Definition field : mat := Mat 3 4 [[0; 0; 0; 0]; [0; 1; 0; 0]; [0; 0; 0; 0]]%Z.
Definition field_world : world := World (Some field) [(0, 0)%Z] [(2, 3)%Z; (-1, 0)%Z] "Y" (0, 0)%Z.
Example field_game : exists g mv, add_trolls (fun l => l) field_world "X" false true [((1, 2), 1); ((2, 0), 5)]%Z = Ok (g, mv) /\ List.length (env_prog g) = 2%nat /\
  map (@List.length _) mv = [9; 12]%nat /\ env_vars g = [("X_0_r", DInt 0 2); ("X_0_c", DInt 0 2); ("X_1_r", DInt 0 2); ("X_1_c", DInt 0 3)]%Z.
Proof. eexists. eexists. split; [vm_compute; reflexivity|]. repeat split. Qed.
Example field_hypotheses : shaped field /\ binary field /\ (forall k, In k (w_init field_world) \/ In k (w_goal field_world) -> in_range field k) /\
  (forall k, In k (w_init field_world) -> free (view field) (norm field k)) /\ (forall c r, In (c, r) [((1, 2), 1); ((2, 0), 5)]%Z -> free (view field) c /\ (0 <= r)%Z) /\
  (forall k, w_prefix field_world <> troll_name "X" k).
Proof.
  split; [split; [reflexivity|]; repeat constructor|]. split; [apply binary_by; repeat (apply Forall_cons || apply Forall_nil); auto|].
  split; [intros k [[<-|[]]|[<-|[<-|[]]]]; unfold in_range, within; cbn; lia|]. split; [intros k [<-|[]]; reflexivity|]. split; [|intros k E; discriminate].
  intros c r [E|[E|[]]]; injection E as <- <-; (split; [reflexivity|lia]).
Qed.

Lemma strip_game init anywhere c r : (forall k, In k init -> k = (0, 0)%Z) -> init <> [] -> free (view (Mat 1 2 [[0; 0]]%Z)) c -> (0 <= r)%Z ->
  exists g mv, add_trolls (fun l => l) (strip 2 init) "X" anywhere true [(c, r)] = Ok (g, mv) /\
    forall s, (forall i, allowed (env_vars g) (s i) /\ allowed (sys_vars g) (s i)) -> exists pos tpos, shows_int "Y" s pos /\ shows_int "X_0" s (fun i => minus (tpos i) (origin c r)) /\
      (init_safe false g s <-> (if anywhere then free (space (Mat 1 2 [[0; 0]]%Z) c r) (tpos 0%nat) else tpos 0%nat = c) /\ forall i, step (space (Mat 1 2 [[0; 0]]%Z) c r) (tpos i) (tpos (S i))) /\
      (init_safe true g s <-> (exists k, In k init /\ pos 0%nat = k) /\ (forall i, step (view (Mat 1 2 [[0; 0]]%Z)) (pos i) (pos (S i))) /\ forall i, pos (S i) <> tpos (S i)).
Proof.
  intros I N F R. destruct (add_trolls_game (fun l => l) (strip 2 init) (Mat 1 2 [[0; 0]]%Z) "X" anywhere [(c, r)]) as (g & mv & E & _ & H & _); try reflexivity.
  - split; [reflexivity|]. repeat constructor.
  - apply binary_by. repeat (apply Forall_cons || apply Forall_nil); auto.
  - intros k [K|K]; [rewrite (I k K)|destruct K as [<-|[]]]; unfold in_range, within; cbn; lia.
  - exact N.
  - intros k K. rewrite (I k K). reflexivity.
  - intros c' r' [K|[]]. injection K as <- <-. split; assumption.
  - intros k _ K. discriminate.
  - exists g, mv. split; [exact E|]. intros s Al. destruct (H s Al) as (pos & tpos & Sh & ShT & HE & HS & _). exists pos, (tpos 0%nat). split; [exact Sh|]. split; [exact (ShT 0%nat c r eq_refl)|]. split.
    + rewrite HE. split; [intro K; exact (K 0%nat c r eq_refl)|]. intros K [|[|k]] c' r' T; try discriminate. injection T as <- <-. exact K.
    + rewrite HS. cbn [strip w_init]. split.
      * intros ((k & K & K') & A & C). split; [exists k; split; [exact K|]; rewrite K', (I k K); reflexivity|]. split; [exact A|]. intro i. apply C. cbn. lia.
      * intros ((k & K & K') & A & C). split; [exists k; split; [exact K|]; rewrite K', (I k K); reflexivity|]. split; [exact A|]. intros i k' L. cbn in L. replace k' with 0%nat by lia. apply C.
Qed.

Lemma strip_play (anywhere : bool) r (y t : nat -> Z) : (r = 1)%Z -> (forall i, y i = 0 \/ y i = 1)%Z -> (forall i, t i = 0 \/ t i = 1)%Z -> y 0%nat = 0%Z -> (if anywhere then True else t 0%nat = 0%Z) -> (forall i, y (S i) <> t (S i)) ->
  exists g mv, add_trolls (fun l => l) (strip 2 [(0, 0)%Z]) "X" anywhere true [((0, 0), r)%Z] = Ok (g, mv) /\
    (forall i, allowed (env_vars g) (strip_trace y t i) /\ allowed (sys_vars g) (strip_trace y t i)) /\ init_safe false g (strip_trace y t) /\ init_safe true g (strip_trace y t).
Proof.
  intros -> RY RT Y0 T0 D. destruct (strip_game [(0, 0)%Z] anywhere (0, 0)%Z 1%Z) as (g & mv & E & H); [intros k [<-|[]]; reflexivity|discriminate|reflexivity|lia|]. exists g, mv. split; [exact E|].
  assert (Al : forall i, allowed (env_vars g) (strip_trace y t i) /\ allowed (sys_vars g) (strip_trace y t i)).
  { assert (V : env_vars g = [("X_0_r", DInt 0 0); ("X_0_c", DInt 0 1)]%Z /\ sys_vars g = [("Y_r", DInt 0 0); ("Y_c", DInt 0 1)]%Z) by (destruct anywhere; vm_compute in E; injection E as <- _; split; reflexivity). destruct V as [-> ->].
    intro i. split; intros x d L; cbn [M_Base.lookup] in L; repeat match type of L with context [String.eqb x ?n] => destruct (String.eqb_spec x n) as [->|_]; [injection L as <-; cbn; specialize (RY i); specialize (RT i); lia|] end; discriminate. }
  split; [exact Al|]. destruct (H _ Al) as (pos & tpos & Sh & ShT & HE & HS).
  assert (P : forall i, pos i = (0, y i)%Z). { intro i. destruct (Sh i) as [A1 A2]. cbn in A1, A2. injection A1 as A1. injection A2 as A2. rewrite (surjective_pairing (pos i)), <- A1, <- A2. reflexivity. }
  assert (Q : forall i, tpos i = (0, t i)%Z). { intro i. destruct (ShT i) as [A1 A2]. cbn in A1, A2. injection A1 as A1. injection A2 as A2. rewrite (surjective_pairing (tpos i)). f_equal; lia. }
  assert (FV : forall j, (j = 0 \/ j = 1)%Z -> free (view (Mat 1 2 [[0; 0]]%Z)) (0, j)%Z) by (intros j [-> | ->]; reflexivity).
  assert (FS : forall j, (j = 0 \/ j = 1)%Z -> free (space (Mat 1 2 [[0; 0]]%Z) (0, 0)%Z 1) (0, j)%Z) by (intros j [-> | ->]; reflexivity).
  assert (ST : forall a b, (a = 0 \/ a = 1)%Z -> (b = 0 \/ b = 1)%Z -> (0, b)%Z = (0, a)%Z \/ adjacent (0, a)%Z (0, b)%Z) by (intros a b [-> | ->] [-> | ->]; unfold adjacent; cbn; auto).
  split.
  - apply HE. split; [destruct anywhere; rewrite Q; [apply FS, RT|rewrite T0; reflexivity]|]. intro i. rewrite !Q. split; [apply ST; apply RT|apply FS, RT].
  - apply HS. split; [exists (0, 0)%Z; split; [left; reflexivity|rewrite P, Y0; reflexivity]|]. split; [intro i; rewrite !P; split; [apply ST; apply RY|apply FV, RY]|]. intros i K. rewrite P, Q in K. injection K as K. exact (D i K).
Qed.
(** The system may start where a troll starts. *)
Theorem trolls_start_together_refuted : exists Y tl g mv s, add_trolls (fun l => l) Y "X" false true tl = Ok (g, mv) /\
  (forall i, allowed (env_vars g) (s i) /\ allowed (sys_vars g) (s i)) /\ init_safe false g s /\ init_safe true g s /\
  s 0%nat "Y_r" = s 0%nat "X_0_r" /\ s 0%nat "Y_c" = s 0%nat "X_0_c".
Proof.
  destruct (strip_play false 1 (fun i => if (i =? 0)%nat then 0%Z else 1%Z) (fun _ => 0%Z)) as (g & mv & E & Al & HE & HS); try reflexivity; auto; [intros [|i]; auto|discriminate|].
  exists (strip 2 [(0, 0)%Z]), [((0, 0), 1)%Z], g, mv. eexists. split; [exact E|]. split; [exact Al|]. split; [exact HE|]. split; [exact HS|]. split; reflexivity.
Qed.
(** The system and a troll may pass through each other, as they exchange their cells in one step. *)
Theorem trolls_pass_refuted : exists Y tl g mv s, add_trolls (fun l => l) Y "X" true true tl = Ok (g, mv) /\
  (forall i, allowed (env_vars g) (s i) /\ allowed (sys_vars g) (s i)) /\ init_safe false g s /\ init_safe true g s /\
  s 0%nat "Y_c" <> s 0%nat "X_0_c" /\ forall i, s (S i) "Y_r" = s i "X_0_r" /\ s (S i) "Y_c" = s i "X_0_c" /\ s (S i) "X_0_r" = s i "Y_r" /\ s (S i) "X_0_c" = s i "Y_c".
Proof.
  destruct (strip_play true 1 (fun i => if Nat.even i then 0%Z else 1%Z) (fun i => if Nat.even i then 1%Z else 0%Z)) as (g & mv & E & Al & HE & HS); try reflexivity; auto; try (intro i; destruct (Nat.even i); auto; fail).
  { intros i. destruct (Nat.even (S i)); discriminate. }
  exists (strip 2 [(0, 0)%Z]), [((0, 0), 1)%Z], g, mv. eexists. split; [exact E|]. split; [exact Al|]. split; [exact HE|]. split; [exact HS|]. split; [discriminate|].
  intro i. unfold strip_trace. cbn [String.eqb Ascii.eqb Bool.eqb andb]. rewrite Nat.even_succ, <- Nat.negb_even. destruct (Nat.even i); repeat split.
Qed.
(** The lists of states of trolls have coordinates of the world, but the variables have coordinates of the trollspace. *)
Theorem troll_states_refuted : exists Y tl g mv st x z, add_trolls (fun l => l) Y "X" false true tl = Ok (g, mv) /\
  In [st] mv /\ In (x, z) st /\ exists d, M_Base.lookup x (env_vars g) = Some d /\ ~ in_domain d (VZ z).
Proof.
  exists (strip 3 [(0, 0)%Z]), [((0, 2), 0)%Z]. do 2 eexists. exists [("X_0_r", 0%Z); ("X_0_c", 2%Z)], "X_0_c", 2%Z. split; [vm_compute; reflexivity|]. split; [left; reflexivity|]. split; [right; left; reflexivity|].
  exists (DInt 0 0). split; [reflexivity|]. cbn. lia.
Qed.
(** The lists have states where there is a wall. *)
Theorem troll_walls_refuted : exists Y m tl g mv st i j, w_W Y = Some m /\ add_trolls (fun l => l) Y "X" false true tl = Ok (g, mv) /\ (exists l, nth_error mv 0 = Some l /\ In st l) /\
  st = [("X_0_r", i); ("X_0_c", j)] /\ view m i j = Some 1%Z.
Proof.
  exists (World (Some (Mat 1 2 [[1; 0]]%Z)) [(0, 1)%Z] [(0, 1)%Z] "Y" (0, 0)%Z), (Mat 1 2 [[1; 0]]%Z), [((0, 1), 1)%Z]. do 2 eexists. exists [("X_0_r", 0%Z); ("X_0_c", 0%Z)], 0%Z, 0%Z.
  split; [reflexivity|]. split; [vm_compute; reflexivity|]. split; [eexists; split; [reflexivity|left; reflexivity]|]. split; reflexivity.
Qed.
(** With Boolean variables: a troll that is away from the upper left corner has names that cannot be parsed, and the clauses
    of mutual exclusion speak about names that nobody declares. *)
Theorem troll_boolean_refuted : exists Y tl g mv, add_trolls (fun l => l) Y "X" false false tl = Ok (g, mv) /\
  (exists f, In f (env_safety g) /\ parse f = None) /\
  In "!(X Y_2_0 && X X_0_2_0)" (sys_safety g) /\ M_Base.lookup "X_0_2_0" (env_vars g ++ sys_vars g) = None.
Proof.
  exists (World (Some (Mat 3 1 [[0]; [0]; [0]]%Z)) [(0, 0)%Z] [(2, 0)%Z] "Y" (0, 0)%Z), [((2, 0), 1)%Z]. do 2 eexists. split; [vm_compute; reflexivity|]. split.
  - eexists. split; [left; reflexivity|]. vm_compute. reflexivity.
  - split; [right; right; right; right; right; left; reflexivity|reflexivity].
Qed.

Print Assumptions add_trolls_game.
Print Assumptions trolls_start_together_refuted.
Print Assumptions trolls_pass_refuted.
Print Assumptions troll_states_refuted.
Print Assumptions troll_walls_refuted.
Print Assumptions troll_boolean_refuted.
