(** C79: reading strategies and specifications in tulipcon XML. *)
From Coq Require Import List String Ascii Bool Arith ZArith Lia.
From Verif Require Import M_Tree M_Base M_Gr1c M_Grid M_LtlFile M_Session T_Grid T_GridText T_Session M_GrXml.
Import ListNotations.
Open Scope list_scope.
Open Scope string_scope.

(** ** Specification: which graph a list of rows describes *)
Definition row : Type := Z * xnode * list Z.
Definition first_row (u : Z) (rows : list row) : option row := List.find (fun r => Z.eqb u (fst (fst r))) rows.
Definition attr (A : xgraph) (u : Z) : option xnode := match List.find (fun vb => Z.eqb u (fst vb)) (g_nodes A) with Some vb => snd vb | None => None end.
(** The first row of every number counts: its attributes and its successors; successors without rows are nodes without attributes. *)
Definition describes (rows : list row) (A : xgraph) : Prop :=
  (forall u, attr A u = option_map (fun r => snd (fst r)) (first_row u rows)) /\
  (forall u, In u (map fst (g_nodes A)) <-> (exists r, first_row u rows = Some r) \/ (exists v r, first_row v rows = Some r /\ In u (snd r))) /\
  (forall u v, In (u, v) (g_edges A) <-> exists r, first_row u rows = Some r /\ In v (snd r)) /\
  NoDup (map fst (g_nodes A)) /\ NoDup (g_edges A).

(** ** Specification: the documents *)
Definition qual (ns : option string) (tag : string) : string :=
  match ns with Some (String c n) => "{" ++ String c n ++ "}" ++ tag | _ => tag end.
(** A state of a strategy; [k_items]: whether its lists are written as elements [litem] or as text *)
Record state_row : Type := Row { k_id : Z; k_anno : list Z; k_succ : list Z; k_state : list (string * Z); k_items : bool }.
Record doc : Type := Doc { d_env : list (string * xdom); d_sys : list (string * xdom); d_part : string -> list string; d_rows : option (list state_row) }.
Definition write_list (ns : option string) (items : bool) (tag : string) (l : list string) : xml :=
  if items then Xml (qual ns tag) [] None (map (fun v => Xml (qual ns "litem") [("value", v)] None []) l)
  else Xml (qual ns tag) [] (Some (" " ++ join " " l)) [].
Definition write_dict (ns : option string) (tag : string) (l : list (string * string)) : xml :=
  Xml (qual ns tag) [] None (map (fun kv => Xml (qual ns "item") [("key", fst kv); ("value", snd kv)] None []) l).
Definition dom_text (d : xdom) : string := match d with XBool => "boolean" | XRange a b => "[" ++ str_Z a ++ "," ++ str_Z b ++ "]" end.
Definition write_vars (ns : option string) (tag : string) (l : list (string * xdom)) : xml := write_dict ns tag (map (fun kv => (fst kv, dom_text (snd kv))) l).
Definition write_row (ns : option string) (r : state_row) : xml :=
  Xml (qual ns "node") [] (Some " ")
    [Xml (qual ns "id") [] (Some (str_Z (k_id r))) []; write_list ns (k_items r) "anno" (map str_Z (k_anno r));
     write_list ns (k_items r) "child_list" (map str_Z (k_succ r)); write_dict ns "state" (map (fun kv => (fst kv, str_Z (snd kv))) (k_state r))].
Definition parts_order : list string := ["env_init"; "env_safety"; "env_prog"; "sys_init"; "sys_safety"; "sys_prog"].
(** [txt]: the text before the first node *)
Definition write (ns : option string) (d : doc) (txt : option string) (extra : list xml) : xml :=
  Xml (qual ns "tulipcon") [("version", "1")] None
    ([write_vars ns "env_vars" (d_env d); write_vars ns "sys_vars" (d_sys d);
      Xml (qual ns "spec") [] None (map (fun tag => write_list ns true tag (d_part d tag)) parts_order)] ++
     match d_rows d with None => [] | Some rows => [Xml (qual ns "aut") [("type", "basic")] txt (map (write_row ns) rows)] end ++ extra)%list.
Definition row_of (r : state_row) : row :=
  (k_id r, match k_anno r with [m; g] => XNode (k_state r) m g | _ => XNode (k_state r) (-1) (-1) end, k_succ r).
Definition vars_ok (d : doc) : Prop := NoDup (map fst (d_env d ++ d_sys d)).

(** ** Names *)
Lemma qual_prefix ns tag : ns_prefix ns ++ tag = qual ns tag.
Proof. destruct ns as [[|c n]|]; cbn; [reflexivity| |reflexivity]. f_equal. f_equal. induction n as [|b n IH]; cbn; [reflexivity|]. f_equal. exact IH. Qed.
Lemma eqb_app p : forall a b, (p ++ a =? p ++ b) = (a =? b).
Proof. induction p as [|c p IH]; intros a b; cbn; [reflexivity|]. rewrite Ascii.eqb_refl. apply IH. Qed.
Lemma qual_eqb ns a b : (qual ns a =? qual ns b) = (a =? b).
Proof. rewrite <- !qual_prefix. apply eqb_app. Qed.
Lemma filter_all {A B} (f : A -> B) (p : B -> bool) l : (forall x, p (f x) = true) -> filter p (map f l) = map f l.
Proof. intro H. induction l as [|x l IH]; cbn [map filter]; [reflexivity|]. rewrite H, IH. reflexivity. Qed.
Lemma mapr_ok {A B} (f : A -> res B) (g : A -> B) l : (forall x, In x l -> f x = Ok (g x)) -> mapr f l = Ok (map g l).
Proof. induction l as [|x l IH]; intro H; cbn [mapr map]; [reflexivity|]. rewrite (H x) by (left; reflexivity). cbn [bind]. rewrite IH by (intros y Y; apply H; right; exact Y). reflexivity. Qed.
Lemma mapr_map {A B C} (f : B -> res C) (g : A -> B) l : mapr f (map g l) = mapr (fun x => f (g x)) l.
Proof. induction l as [|x l IH]; cbn [map mapr]; [reflexivity|]. rewrite IH. reflexivity. Qed.

(** ** Graphs *)
Lemma attr_touch A env sys E w u : attr (XGraph env sys (touch_node w A) E) u = attr (XGraph env sys A E) u.
Proof.
  unfold attr, touch_node. cbn [g_nodes]. destruct (existsb _ A) eqn:X; [reflexivity|].
  induction A as [|[v b] A IH]; cbn [app List.find fst existsb] in *.
  - destruct (Z.eqb u w); reflexivity.
  - apply orb_false_iff in X. destruct X as [_ X]. destruct (Z.eqb u v); [reflexivity|]. apply IH, X.
Qed.
Lemma touch_in w A u : In u (map fst (touch_node w A)) <-> In u (map fst A) \/ u = w.
Proof.
  unfold touch_node. destruct (existsb _ A) eqn:X.
  - split; [tauto|]. intros [H| ->]; [exact H|]. apply existsb_exists in X. destruct X as ([v b] & I & E). apply Z.eqb_eq in E. cbn in E. subst v. apply (in_map fst) in I. exact I.
  - rewrite map_app, in_app_iff. cbn. split; intros [H|H]; try tauto; [destruct H; auto; contradiction|auto].
Qed.
Lemma nodup_snoc {A} (l : list A) x : NoDup l -> ~ In x l -> NoDup (l ++ [x]).
Proof.
  intros N H. induction N as [|y l Y N IH]; cbn; [constructor; [intros []|constructor]|]. constructor.
  - rewrite in_app_iff. cbn. intros [I|[E|[]]]; [contradiction|]. subst. apply H. left. reflexivity.
  - apply IH. intro I. apply H. right. exact I.
Qed.
Lemma touch_nodup w A : NoDup (map fst A) -> NoDup (map fst (touch_node w A)).
Proof.
  intro N. unfold touch_node. destruct (existsb _ A) eqn:X; [exact N|]. rewrite map_app. apply nodup_snoc; [exact N|].
  intro I. apply in_map_iff in I. destruct I as ([v b] & E & I). cbn in E. subst v.
  assert (existsb (fun vb : Z * option xnode => Z.eqb w (fst vb)) A = true) by (apply existsb_exists; exists (w, b); split; [exact I|apply Z.eqb_refl]). congruence.
Qed.
Lemma set_in u a A w : In w (map fst (set_node u a A)) <-> In w (map fst A) \/ w = u.
Proof.
  induction A as [|[v b] A IH]; cbn [set_node map fst In]; [intuition|]. destruct (Z.eqb_spec u v).
  - subst v. cbn [map fst In]. intuition.
  - cbn [map fst In]. rewrite IH. tauto.
Qed.
Lemma set_nodup u a A : NoDup (map fst A) -> NoDup (map fst (set_node u a A)).
Proof.
  induction A as [|[v b] A IH]; cbn [set_node map fst]; intro N; [constructor; [intros []|constructor]|]. inversion N as [|? ? H N']; subst.
  destruct (Z.eqb_spec u v); cbn [map fst]; [exact N|]. constructor; [|apply IH, N']. rewrite set_in. intros [I|E]; [contradiction|congruence].
Qed.
Lemma attr_set u a A env sys E w : attr (XGraph env sys (set_node u a A) E) w = if Z.eqb w u then Some a else attr (XGraph env sys A E) w.
Proof.
  unfold attr. cbn [g_nodes]. induction A as [|[v b] A IH]; cbn [set_node List.find fst].
  - destruct (Z.eqb w u); reflexivity.
  - destruct (Z.eqb_spec u v).
    + subst v. cbn [List.find fst]. destruct (Z.eqb w u); reflexivity.
    + cbn [List.find fst]. destruct (Z.eqb_spec w v); [|exact IH]. subst v. destruct (Z.eqb_spec w u); [congruence|reflexivity].
Qed.
Lemma edges_add u v g e : In e (g_edges (add_edge u v g)) <-> In e (g_edges g) \/ e = (u, v).
Proof.
  unfold add_edge. cbn [g_edges]. destruct (existsb _ (g_edges g)) eqn:X.
  - split; [tauto|]. intros [H| ->]; [exact H|]. apply existsb_exists in X. destruct X as ([a b] & I & E). apply andb_true_iff in E. destruct E as [E1 E2]. apply Z.eqb_eq in E1, E2. cbn in *. subst. exact I.
  - rewrite in_app_iff. cbn. split; intros [H|H]; try tauto; [destruct H; auto; contradiction|auto].
Qed.
Lemma edges_nodup u v g : NoDup (g_edges g) -> NoDup (g_edges (add_edge u v g)).
Proof.
  intro N. unfold add_edge. cbn [g_edges]. destruct (existsb _ (g_edges g)) eqn:X; [exact N|]. apply nodup_snoc; [exact N|]. intro I.
  assert (existsb (fun e => (Z.eqb u (fst e) && Z.eqb v (snd e))%bool) (g_edges g) = true) by (apply existsb_exists; exists (u, v); split; [exact I|cbn; rewrite !Z.eqb_refl; reflexivity]). congruence.
Qed.
Lemma fold_edges u kids : forall g, In u (map fst (g_nodes g)) -> NoDup (map fst (g_nodes g)) -> NoDup (g_edges g) ->
  let h := fold_left (fun g v => add_edge u v g) kids g in
  (g_env h = g_env g /\ g_sys h = g_sys g) /\ (forall w, attr h w = attr g w) /\ (forall w, In w (map fst (g_nodes h)) <-> In w (map fst (g_nodes g)) \/ In w kids) /\
  (forall e, In e (g_edges h) <-> In e (g_edges g) \/ exists v, In v kids /\ e = (u, v)) /\ NoDup (map fst (g_nodes h)) /\ NoDup (g_edges h).
Proof.
  induction kids as [|v kids IH]; intros g U N E; cbn [fold_left].
  - split; [split; reflexivity|]. split; [reflexivity|]. split; [intro; cbn; tauto|]. split; [|split; assumption]. intro e. split; [tauto|]. intros [H|(v & [] & _)]. exact H.
  - assert (Hn : forall w, In w (map fst (g_nodes (add_edge u v g))) <-> In w (map fst (g_nodes g)) \/ w = v).
    { intro w. unfold add_edge. cbn [g_nodes]. rewrite !touch_in. split; [intros [[H| ->]|H]; auto|intros [H|H]; auto]. }
    destruct (IH (add_edge u v g)) as ([H1 H1'] & H2 & H3 & H4 & H5 & H6).
    + apply Hn. left. exact U.
    + unfold add_edge. cbn [g_nodes]. apply touch_nodup, touch_nodup, N.
    + apply edges_nodup, E.
    + split; [split; [rewrite H1|rewrite H1']; reflexivity|]. split; [|split; [|split; [|split; assumption]]].
      * intro w. rewrite H2. unfold add_edge. rewrite !attr_touch. reflexivity.
      * intro w. rewrite H3, Hn. cbn [In]. split; [intros [[H|H]|H]; auto|intros [H|[H|H]]; auto].
      * intro e. rewrite H4, edges_add. split.
        -- intros [[H| ->]|(x & X & ->)]; [left; exact H|right; exists v; split; [left; reflexivity|reflexivity]|right; exists x; split; [right; exact X|reflexivity]].
        -- intros [H|(x & [<-|X] & ->)]; [left; left; exact H|left; right; reflexivity|right; exists x; split; [exact X|reflexivity]].
Qed.
Lemma find_app_row u a r : first_row u (a ++ [r])%list = match first_row u a with Some x => Some x | None => if Z.eqb u (fst (fst r)) then Some r else None end.
Proof. unfold first_row. induction a as [|x a IH]; cbn [app List.find]; [destruct (Z.eqb u (fst (fst r))); reflexivity|]. destruct (Z.eqb u (fst (fst x))); [reflexivity|exact IH]. Qed.
Lemma describes_same a b A : (forall u, first_row u a = first_row u b) -> describes a A -> describes b A.
Proof.
  intros E (H1 & H2 & H3 & H4). split; [|split; [|split; [|exact H4]]].
  - intro u. rewrite H1, E. reflexivity.
  - intro u. rewrite H2, E. split; (intros [H|(v & r & F & I)]; [left; exact H|right; exists v, r; split; [|exact I]]); [rewrite <- E|rewrite E]; exact F.
  - intros u v. rewrite H3, E. reflexivity.
Qed.
Lemma describes_add done A id a kids : describes done A -> first_row id done = None ->
  describes (done ++ [(id, a, kids)])%list (fold_left (fun g v => add_edge id v g) kids (add_node id a A)).
Proof.
  intros (H1 & H2 & H3 & H4 & H5) F.
  destruct (fold_edges id kids (add_node id a A)) as (_ & K2 & K3 & K4 & K5 & K6).
  { unfold add_node. cbn [g_nodes]. apply set_in. right. reflexivity. }
  { unfold add_node. cbn [g_nodes]. apply set_nodup, H4. }
  { exact H5. }
  assert (FR : forall u, first_row u (done ++ [(id, a, kids)])%list = if Z.eqb u id then Some (id, a, kids) else first_row u done).
  { intro u. rewrite find_app_row. cbn [fst]. destruct (Z.eqb_spec u id); [subst; rewrite F; reflexivity|]. destruct (first_row u done); reflexivity. }
  split; [|split; [|split; [|split; assumption]]].
  - intro u. rewrite K2, FR. unfold add_node. rewrite attr_set. destruct (Z.eqb u id); [reflexivity|]. destruct A as [e s n x]. apply (H1 u).
  - intro u. rewrite K3. unfold add_node. cbn [g_nodes]. rewrite set_in, H2. split.
    + intros [[[(r & R)|(v & r & R & I)]| ->]|I].
      * left. rewrite FR. destruct (Z.eqb u id); eexists; [reflexivity|exact R].
      * right. exists v. rewrite FR. destruct (Z.eqb_spec v id); [subst; congruence|]. exists r. split; [exact R|exact I].
      * left. rewrite FR, Z.eqb_refl. eexists. reflexivity.
      * right. exists id. rewrite FR, Z.eqb_refl. eexists. split; [reflexivity|exact I].
    + intros [(r & R)|(v & r & R & I)]; rewrite FR in R.
      * destruct (Z.eqb_spec u id); [left; right; assumption|]. left. left. left. exists r. exact R.
      * destruct (Z.eqb_spec v id); [injection R as <-; right; exact I|]. left. left. right. exists v, r. split; assumption.
  - intros u v. rewrite K4. unfold add_node. cbn [g_edges]. rewrite H3. setoid_rewrite FR. split.
    + intros [(r & R & I)|(x & X & E)].
      * destruct (Z.eqb_spec u id); [subst; congruence|]. exists r. split; assumption.
      * injection E as -> ->. rewrite Z.eqb_refl. eexists. split; [reflexivity|exact X].
    + intros (r & R & I). destruct (Z.eqb_spec u id); [|left; exists r; split; assumption]. injection R as <-. right. exists v. subst. split; [exact I|reflexivity].
Qed.
Lemma read_nodes_ok ns l : forall ids g done, describes done g -> (forall u, In u ids <-> first_row u done <> None) ->
  match mapr (read_node ns) l with
  | Ok rows => exists h, read_nodes ns l ids g = Ok h /\ describes (done ++ rows)%list h /\ g_env h = g_env g /\ g_sys h = g_sys g
  | Err e => read_nodes ns l ids g = Err e
  end.
Proof.
  induction l as [|n l IH]; intros ids g done D I; cbn [mapr read_nodes].
  - exists g. rewrite app_nil_r. repeat split; try reflexivity; apply D.
  - destruct (read_node ns n) as [[[id a] kids]|e]; cbn [bind]; [|reflexivity].
    destruct (existsb (Z.eqb id) ids) eqn:X.
    + assert (F : first_row id done <> None) by (apply I; apply existsb_exists in X; destruct X as (y & Y & E); apply Z.eqb_eq in E; subst; exact Y).
      assert (S : forall u, first_row u done = first_row u (done ++ [(id, a, kids)])%list).
      { intro u. rewrite find_app_row. cbn [fst]. destruct (first_row u done) eqn:E; [reflexivity|]. destruct (Z.eqb_spec u id); [subst; contradiction|reflexivity]. }
      specialize (IH ids g (done ++ [(id, a, kids)])%list). destruct (mapr (read_node ns) l) as [rows|e]; cbn [bind].
      * destruct IH as (h & H1 & H2 & H3); [eapply describes_same; [exact S|exact D]|intro u; rewrite <- S; apply I|]. exists h. rewrite <- app_assoc in H2. cbn [app] in H2. split; [exact H1|]. split; [exact H2|exact H3].
      * apply IH; [eapply describes_same; [exact S|exact D]|intro u; rewrite <- S; apply I].
    + assert (F : first_row id done = None).
      { destruct (first_row id done) eqn:E; [|reflexivity]. exfalso. assert (In id ids) as J by (apply I; congruence).
        assert (existsb (Z.eqb id) ids = true) by (apply existsb_exists; exists id; split; [exact J|apply Z.eqb_refl]). congruence. }
      specialize (IH (ids ++ [id])%list (fold_left (fun g v => add_edge id v g) kids (add_node id a g)) (done ++ [(id, a, kids)])%list (describes_add _ _ _ _ _ D F)).
      assert (J : forall u, In u (ids ++ [id])%list <-> first_row u (done ++ [(id, a, kids)])%list <> None).
      { intro u. rewrite in_app_iff, I, find_app_row. cbn [In fst]. destruct (first_row u done); [split; [discriminate|intros _; left; discriminate]|].
        destruct (Z.eqb_spec u id); split; try congruence; [intros _; right; left; congruence|intros [?|[?|[]]]; congruence]. }
      specialize (IH J). destruct (fold_edges id kids (add_node id a g)) as ([K1 K1'] & _).
      { unfold add_node. cbn [g_nodes]. apply set_in. right. reflexivity. }
      { unfold add_node. cbn [g_nodes]. apply set_nodup, D. }
      { apply D. }
      destruct (mapr (read_node ns) l) as [rows|e]; cbn [bind]; [|exact IH].
      destruct IH as (h & H1 & H2 & H3 & H4). exists h. rewrite <- app_assoc in H2. cbn [app] in H2. split; [exact H1|]. split; [exact H2|]. rewrite H3, H4, K1, K1'. split; reflexivity.
Qed.

(** ** Lists, dicts and domains *)
Lemma findall_kids ns tag n a t l : findall (qual ns tag) (Xml n a t l) = filter (fun k => x_tag k =? qual ns tag) l.
Proof. reflexivity. Qed.
Lemma join_chars_text l : list_ascii_of_string (join " " (map str_Z l)) = join_as_str l.
Proof.
  induction l as [|z [|y l] IH]; [reflexivity|reflexivity|].
  change (join " " (map str_Z (z :: y :: l))) with (str_Z z ++ " " ++ join " " (map str_Z (y :: l))).
  change (join_as_str (z :: y :: l)) with (list_ascii_of_string (str_Z z) ++ " "%char :: join_as_str (y :: l))%list. rewrite <- IH.
  generalize (join " " (map str_Z (y :: l))) as w. intro w. induction (str_Z z) as [|c s IS]; cbn; [reflexivity|]. f_equal. exact IS.
Qed.
Lemma int_str z : int_of (str_Z z) = Ok z.
Proof. unfold int_of, chars. rewrite py_int_str_Z. reflexivity. Qed.
Lemma ints_str l : mapr int_of (map str_Z l) = Ok l.
Proof. rewrite mapr_map, (mapr_ok _ (fun z => z)) by (intros; apply int_str). rewrite map_id. reflexivity. Qed.
Lemma list_read ns items tag l : (items = true -> ns = default_ns) -> untaglist int_of default_ns (Some (write_list ns items tag (map str_Z l))) = Ok (qual ns tag, l).
Proof.
  intro H. unfold untaglist, some_elem. cbn [of_opt bind]. rewrite qual_prefix. destruct items; cbn [write_list].
  - rewrite (H eq_refl), findall_kids, filter_all by (intro; cbn [x_tag]; apply String.eqb_refl). cbn [x_tag x_text].
    destruct l as [|z l]; [reflexivity|]. cbn [map mapr]. unfold x_attr at 1. cbn [M_Base.lookup]. rewrite String.eqb_refl. cbn [of_opt bind]. rewrite int_str. cbn [bind].
    rewrite !mapr_map. rewrite (mapr_ok _ (fun z => z)); [rewrite map_id; reflexivity|]. intros x _. cbn. apply int_str.
  - unfold write_list. cbn [findall filter x_text x_tag]. unfold chars. change (list_ascii_of_string (" " ++ join " " (map str_Z l))) with (" "%char :: list_ascii_of_string (join " " (map str_Z l))).
    cbn [words]. change (is_space " ") with true. cbn iota. rewrite join_chars_text, words_numbers, map_map.
    replace (map (fun x => text (M_Session.chars (str_Z x))) l) with (map str_Z l); [rewrite ints_str; reflexivity|].
    apply map_ext. intro x. unfold text, M_Session.chars. symmetry. apply string_of_list_ascii_of_string.
Qed.
Lemma strings_read ns tag l : untaglist (fun v => Ok v) ns (Some (write_list ns true tag l)) = Ok (qual ns tag, l).
Proof.
  unfold untaglist, some_elem. cbn [of_opt bind write_list]. rewrite qual_prefix, findall_kids, filter_all by (intro; cbn [x_tag]; apply String.eqb_refl). cbn [x_tag x_text].
  destruct l as [|z l]; [reflexivity|]. cbn [map mapr]. unfold x_attr at 1. cbn [M_Base.lookup]. rewrite String.eqb_refl. cbn [of_opt bind].
  rewrite !mapr_map. rewrite (mapr_ok _ (fun z => z)); [rewrite map_id; reflexivity|]. intros x _. reflexivity.
Qed.
Lemma assign_new {A} k (v : A) d : ~ In k (map fst d) -> assign k v d = (d ++ [(k, v)])%list.
Proof.
  induction d as [|[a b] d IH]; cbn [assign map fst app]; intro H; [reflexivity|]. destruct (String.eqb_spec a k); [exfalso; apply H; left; assumption|].
  rewrite IH; [reflexivity|]. intro I. apply H. right. exact I.
Qed.
Lemma assign_all {A} (l : list (string * A)) : forall d, NoDup (map fst (d ++ l)) -> fold_left (fun d kv => assign (fst kv) (snd kv) d) l d = (d ++ l)%list.
Proof.
  induction l as [|[k v] l IH]; intros d N; cbn [fold_left]; [rewrite app_nil_r; reflexivity|]. cbn [fst snd]. rewrite assign_new.
  - rewrite IH; rewrite <- app_assoc; [reflexivity|exact N].
  - rewrite map_app in N. apply NoDup_remove_2 in N. intro I. apply N, in_or_app. left. exact I.
Qed.
Lemma dict_read {A} (cast : string -> res A) (put : A -> string) ns tag (l : list (string * A)) : (forall a, cast (put a) = Ok a) -> NoDup (map fst l) ->
  untagdict cast ns (Some (write_dict ns tag (map (fun kv => (fst kv, put (snd kv))) l))) = Ok (qual ns tag, l, map fst l).
Proof.
  intros C N. unfold untagdict, some_elem, write_dict. cbn [of_opt bind]. rewrite qual_prefix, findall_kids, filter_all by (intro; cbn [x_tag]; apply String.eqb_refl).
  rewrite !mapr_map. rewrite (mapr_ok _ (fun x => x)).
  - rewrite map_id. cbn [bind x_tag]. rewrite (assign_all l []) by exact N. reflexivity.
  - intros [k v] _. unfold x_attr. cbn [fst snd M_Base.lookup]. change ("value" =? "key") with false. change ("value" =? "value") with true. change ("key" =? "key") with true. cbn [of_opt bind]. rewrite C. reflexivity.
Qed.
Lemma find_char c : forall l r, ~ In c l -> find_sub [c] (l ++ c :: r) = Some (List.length l).
Proof.
  induction l as [|x l IH]; intros r H; cbn [app find_sub starts].
  - rewrite Ascii.eqb_refl. reflexivity.
  - destruct (Ascii.eqb_spec c x); [subst; exfalso; apply H; left; reflexivity|]. cbn [andb]. rewrite IH by (intro I; apply H; right; exact I). reflexivity.
Qed.
Lemma split_char c : forall l r cur, ~ In c l -> split_on c cur (l ++ c :: r) = (rev cur ++ l)%list :: split_on c [] r.
Proof.
  induction l as [|x l IH]; intros r cur H; cbn [app split_on].
  - rewrite Ascii.eqb_refl, app_nil_r. reflexivity.
  - destruct (Ascii.eqb_spec x c); [subst; exfalso; apply H; left; reflexivity|]. rewrite IH by (intro I; apply H; right; exact I). cbn [rev]. rewrite <- app_assoc. reflexivity.
Qed.
Lemma split_none c : forall l cur, ~ In c l -> split_on c cur l = [(rev cur ++ l)%list].
Proof.
  induction l as [|x l IH]; intros cur H; cbn [split_on]; [rewrite app_nil_r; reflexivity|]. destruct (Ascii.eqb_spec x c); [subst; exfalso; apply H; left; reflexivity|].
  rewrite IH by (intro I; apply H; right; exact I). cbn [rev]. rewrite <- app_assoc. reflexivity.
Qed.
Lemma chars_app a b : list_ascii_of_string (a ++ b) = (list_ascii_of_string a ++ list_ascii_of_string b)%list.
Proof. induction a as [|c a IH]; cbn; [reflexivity|]. f_equal. exact IH. Qed.
Lemma not_in_number c z : plain c = false -> ~ In c (list_ascii_of_string (str_Z z)).
Proof. intros P I. apply str_Z_plain in I. congruence. Qed.
Lemma dom_read d : parse_dom (dom_text d) = Ok d.
Proof.
  destruct d as [|a b]; [reflexivity|]. unfold parse_dom, dom_text, chars. rewrite !chars_app. cbn [list_ascii_of_string app]. change (Ascii.eqb "[" "[") with true. cbn iota.
  set (sa := list_ascii_of_string (str_Z a)). set (sb := list_ascii_of_string (str_Z b)).
  replace ("["%char :: (sa ++ ","%char :: (sb ++ ["]"%char]))%list) with ((("["%char :: sa ++ ","%char :: sb) ++ ["]"%char])%list) by (cbn [app]; rewrite <- app_assoc; reflexivity).
  rewrite find_char.
  - cbn [List.length]. replace (S (List.length (sa ++ ","%char :: sb)) - 1) with (List.length (sa ++ ","%char :: sb)) by lia.
    replace (sa ++ ","%char :: (sb ++ ["]"%char]))%list with (((sa ++ ","%char :: sb) ++ ["]"%char])%list) by (rewrite <- app_assoc; reflexivity).
    rewrite firstn_app, Nat.sub_diag, firstn_all, app_nil_r. rewrite split_char by (apply not_in_number; reflexivity). rewrite split_none by (apply not_in_number; reflexivity).
    cbn [rev app]. subst sa sb. rewrite !py_int_str_Z. reflexivity.
  - cbn [In]. rewrite in_app_iff. cbn [In]. intros [H|[H|[H|H]]]; try discriminate; revert H; apply not_in_number; reflexivity.
Qed.
Lemma lookup_nodup {A} k (v : A) l : NoDup (map fst l) -> In (k, v) l -> M_Base.lookup k l = Some v.
Proof.
  induction l as [|[a b] l IH]; cbn [map fst M_Base.lookup]; intros N I; [destruct I|]. inversion N as [|? ? H N']; subst. destruct I as [E|I].
  - injection E as -> ->. rewrite String.eqb_refl. reflexivity.
  - destruct (String.eqb_spec k a); [subst; exfalso; apply H, (in_map fst _ _ I)|apply IH; assumption].
Qed.
Lemma combine_fst_snd {A B} (l : list (A * B)) : combine (map fst l) (map snd l) = l.
Proof. induction l as [|[a b] l IH]; cbn; [reflexivity|]. rewrite IH. reflexivity. Qed.
Lemma vars_read tag (l : list (string * xdom)) : NoDup (map fst l) ->
  exists d, untagdict (fun v => Ok v) default_ns (Some (write_vars default_ns tag l)) = Ok (qual default_ns tag, d, map fst l) /\ parse_vars (map fst l) d = Ok l.
Proof.
  intro N. exists (map (fun kv => (fst kv, dom_text (snd kv))) l).
  assert (K : map fst (map (fun kv => (fst kv, dom_text (snd kv))) l) = map fst l) by (rewrite map_map; reflexivity). split.
  - pose proof (dict_read (fun v => Ok v) (fun v : string => v) default_ns tag (map (fun kv => (fst kv, dom_text (snd kv))) l) (fun _ => eq_refl)) as D. rewrite K in D. specialize (D N).
    rewrite map_map in D. exact D.
  - unfold parse_vars. replace (mapr _ (map fst l)) with (Ok (map snd l)).
    + cbn [bind]. rewrite combine_fst_snd, (assign_all l []) by exact N. reflexivity.
    + rewrite mapr_map. symmetry. apply mapr_ok. intros [k v] I. cbn [fst snd]. rewrite (lookup_nodup k (dom_text v)); [|rewrite K; exact N|exact (in_map (fun kv => (fst kv, dom_text (snd kv))) l (k, v) I)]. cbn [of_opt bind fst snd]. apply dom_read.
Qed.

(** ** Nodes and documents *)
Lemma find_cons ns tag a t l k n : find1 (qual ns tag) (Xml n a t (k :: l)) = if x_tag k =? qual ns tag then Some k else find1 (qual ns tag) (Xml n a t l).
Proof. unfold find1, findall. cbn [filter]. destruct (x_tag k =? qual ns tag); reflexivity. Qed.
Lemma tag_list ns items tag l : x_tag (write_list ns items tag l) = qual ns tag.
Proof. destruct items; reflexivity. Qed.
Lemma tag_dict ns tag l : x_tag (write_dict ns tag l) = qual ns tag.
Proof. reflexivity. Qed.
Lemma tag_vars ns tag l : x_tag (write_vars ns tag l) = qual ns tag.
Proof. reflexivity. Qed.
Definition row_fits (ns : option string) (r : state_row) : Prop := NoDup (map fst (k_state r)) /\ (k_items r = true -> ns = default_ns).
Lemma node_read ns r : row_fits ns r -> read_node ns (write_row ns r) = Ok (row_of r).
Proof.
  intros [N H]. unfold read_node, write_row. rewrite !qual_prefix.
  rewrite !find_cons, !tag_list, !tag_dict. cbn [x_tag]. rewrite !qual_eqb. cbn [String.eqb Ascii.eqb Bool.eqb].
  cbn [some_elem of_opt bind x_text]. rewrite int_str. cbn [bind]. rewrite list_read by exact H. cbn [bind snd]. rewrite list_read by exact H. cbn [bind snd].
  rewrite (dict_read int_of str_Z) by (exact int_str || exact N). unfold row_of.
  destruct (k_anno r) as [|m [|g [|x y]]]; reflexivity.
Qed.
Lemma part_read ns (l : string -> list string) tags tag a t :
  In tag tags -> read_part ns (Some (Xml (qual ns "spec") a t (map (fun g => write_list ns true g (l g)) tags))) tag = Ok (tag, map unescape (l tag)).
Proof.
  intro I. unfold read_part. cbn [some_elem of_opt bind]. rewrite qual_prefix.
  assert (F : find1 (qual ns tag) (Xml (qual ns "spec") a t (map (fun g => write_list ns true g (l g)) tags)) = Some (write_list ns true tag (l tag))).
  { induction tags as [|g tags IH]; [destruct I|]. cbn [map]. rewrite find_cons, tag_list, qual_eqb. destruct (String.eqb_spec g tag); [subst; reflexivity|]. apply IH. destruct I; [contradiction|assumption]. }
  rewrite F, strings_read. reflexivity.
Qed.
Lemma spec_disjoint d : vars_ok d -> new_spec (d_env d) (d_sys d) = Ok tt.
Proof.
  intro N. unfold new_spec. destruct (existsb _ (d_env d)) eqn:X; [|reflexivity]. exfalso. apply existsb_exists in X. destruct X as ([k v] & I & X). apply existsb_exists in X. destruct X as ([k' v'] & J & E).
  apply String.eqb_eq in E. cbn [fst] in E. subst k'. unfold vars_ok in N. rewrite map_app in N. apply (in_map fst) in I, J. cbn [fst] in I, J.
  induction (map fst (d_env d)) as [|y e IH]; [destruct I|]. cbn [app] in N. inversion N as [|? ? H N']; subst. destruct I as [->|I]; [apply H, in_or_app; right; exact J|apply IH; assumption].
Qed.
Lemma nodup_parts {A} (a b : list A) : NoDup (a ++ b) -> NoDup a /\ NoDup b.
Proof.
  intro N. induction a as [|x a IH]; cbn [app] in N; [split; [constructor|exact N]|]. inversion N as [|? ? H N']; subst. destruct (IH N') as [A1 B1]. split; [|exact B1].
  constructor; [|exact A1]. intro I. apply H, in_or_app. left. exact I.
Qed.
(** What is read of a document before the strategy *)
Lemma load_head d txt extra (aut : option xml) : vars_ok d ->
  match d_rows d with None => Forall (fun e => x_tag e <> qual default_ns "aut") extra /\ aut = None | Some rows => aut = Some (Xml (qual default_ns "aut") [("type", "basic")] txt (map (write_row default_ns) rows)) end ->
  load_aut_xml default_ns (write default_ns d txt extra) =
  match aut with
  | None => Ok (LSpec (XSpec (d_env d) (d_sys d) (map (fun tag => (tag, map unescape (d_part d tag))) parts_order)))
  | Some aut =>
      match x_text aut with
      | None => Err "AttributeError"
      | Some _ =>
          do ty <- x_attr aut "type";
          if negb (ty =? "basic") then Err "ValueError" else
          do g <- read_nodes default_ns (findall (qual default_ns "node") aut) [] (XGraph (d_env d) (d_sys d) [] []);
          Ok (LGraph g)
      end
  end.
Proof.
  intros N HA. unfold load_aut_xml, write. rewrite !qual_prefix. cbn [x_tag x_attr M_Base.lookup]. rewrite String.eqb_refl. cbn [negb]. change ("version" =? "version") with true. cbn [of_opt].
  change (int_of "1") with (@Ok Z 1%Z). cbn [bind]. change (1 =? 1)%Z with true. cbn [negb app].
  rewrite !find_cons, !tag_vars. cbn [x_tag]. rewrite !qual_eqb. cbn [String.eqb Ascii.eqb Bool.eqb].
  assert (N' := N). unfold vars_ok in N'. rewrite map_app in N'. apply nodup_parts in N'. destruct N' as [NE NS].
  destruct (vars_read "env_vars" (d_env d) NE) as (de & E1 & E2). destruct (vars_read "sys_vars" (d_sys d) NS) as (ds & S1 & S2).
  rewrite E1. cbn [bind]. rewrite S1. cbn [bind fst snd]. rewrite E2. cbn [bind]. rewrite S2. cbn [bind]. rewrite spec_disjoint by exact N. cbn [bind].
  rewrite (mapr_ok _ (fun tag => (tag, map unescape (d_part d tag)))) by (intros tag I; apply part_read, I). cbn [bind].
  assert (F : find1 (qual default_ns "aut") (Xml (qual default_ns "tulipcon") [("version", "1")] None (match d_rows d with None => [] | Some rows => [Xml (qual default_ns "aut") [("type", "basic")] txt (map (write_row default_ns) rows)] end ++ extra)%list) = aut).
  { destruct (d_rows d) as [rows|].
    - cbn [app]. rewrite find_cons. cbn [x_tag]. rewrite String.eqb_refl. symmetry. exact HA.
    - destruct HA as [HX ->]. cbn [app]. clear - HX. induction HX as [|x l X HX IH]; [reflexivity|]. rewrite find_cons. destruct (String.eqb_spec (x_tag x) (qual default_ns "aut")); [contradiction|exact IH]. }
  rewrite F. reflexivity.
Qed.
Lemma describes_nil env sys : describes [] (XGraph env sys [] []).
Proof.
  split; [reflexivity|]. split; [|split; [|split; constructor]].
  - intro u. split; [intros []|]. intros [(r & R)|(v & r & R & _)]; discriminate.
  - intros u v. split; [intros []|]. intros (r & R & _). discriminate.
Qed.
Lemma rows_read ns rows : Forall (row_fits ns) rows -> mapr (read_node ns) (map (write_row ns) rows) = Ok (map row_of rows).
Proof. intro F. rewrite mapr_map. apply mapr_ok. intros r I. apply node_read. rewrite Forall_forall in F. apply F, I. Qed.

(** A written strategy is read as it is: variables with their domains, states, modes, ranks and edges. *)
Theorem xml_strategy_read : forall d rows t extra, vars_ok d -> d_rows d = Some rows -> Forall (fun r => NoDup (map fst (k_state r))) rows ->
  exists A, load_aut_xml default_ns (write default_ns d (Some t) extra) = Ok (LGraph A) /\ g_env A = d_env d /\ g_sys A = d_sys d /\ describes (map row_of rows) A.
Proof.
  intros d rows t extra V R F. erewrite load_head; [|exact V|rewrite R; reflexivity]. cbn [x_text x_attr M_Base.lookup]. change ("type" =? "type") with true. cbn [of_opt bind]. change ("basic" =? "basic") with true. cbn [negb].
  rewrite findall_kids, filter_all by (intro; cbn [write_row x_tag]; apply String.eqb_refl).
  pose proof (read_nodes_ok default_ns (map (write_row default_ns) rows) [] (XGraph (d_env d) (d_sys d) [] []) [] (describes_nil _ _)) as H.
  rewrite rows_read in H by (eapply Forall_impl; [|exact F]; intros r X; split; [exact X|reflexivity]).
  destruct H as (h & H1 & H2 & H3 & H4); [intro u; split; [intros []|intro X; apply X; reflexivity]|]. exists h. rewrite H1. cbn [bind]. repeat (split; [first [reflexivity|exact H3|exact H4]|]). exact H2.
Qed.
(** If the numbers of states are distinct, all of them are there, each with its own attributes and edges, and there is nothing else. *)
Theorem xml_distinct_read : forall d rows t extra, vars_ok d -> d_rows d = Some rows -> Forall (fun r => NoDup (map fst (k_state r))) rows -> NoDup (map k_id rows) ->
  exists A, load_aut_xml default_ns (write default_ns d (Some t) extra) = Ok (LGraph A) /\
  (forall r, In r rows -> attr A (k_id r) = Some (snd (fst (row_of r)))) /\
  (forall u v, In (u, v) (g_edges A) <-> exists r, In r rows /\ k_id r = u /\ In v (k_succ r)) /\
  ((forall r v, In r rows -> In v (k_succ r) -> In v (map k_id rows)) -> forall u, In u (map fst (g_nodes A)) <-> In u (map k_id rows)).
Proof.
  intros d rows t extra V R F N. destruct (xml_strategy_read d rows t extra V R F) as (A & L & _ & _ & (H1 & H2 & H3 & _)). exists A. split; [exact L|].
  assert (FR : forall r, In r rows -> first_row (k_id r) (map row_of rows) = Some (row_of r)).
  { clear - N. induction rows as [|x rows IH]; intros r I; [destruct I|]. cbn [map] in *. inversion N as [|? ? H N']; subst. unfold first_row. cbn [List.find]. change (fst (fst (row_of x))) with (k_id x).
    destruct (Z.eqb_spec (k_id r) (k_id x)) as [E|E].
    - destruct I as [->|I]; [reflexivity|]. exfalso. apply H. rewrite <- E. apply in_map, I.
    - destruct I as [->|I]; [contradiction|]. apply IH; assumption. }
  assert (RF : forall u x, first_row u (map row_of rows) = Some x -> exists r, In r rows /\ k_id r = u /\ x = row_of r).
  { intros u x H. apply find_some in H. destruct H as [I E]. apply in_map_iff in I. destruct I as (r & <- & I). exists r. split; [exact I|]. apply Z.eqb_eq in E. split; [symmetry; exact E|reflexivity]. }
  split; [|split].
  - intros r I. rewrite H1, FR by exact I. reflexivity.
  - intros u v. rewrite H3. split.
    + intros (x & X & I). destruct (RF _ _ X) as (r & J & K & ->). exists r. split; [exact J|]. split; [exact K|exact I].
    + intros (r & I & <- & J). exists (row_of r). split; [apply FR, I|exact J].
  - intros C u. rewrite H2. split.
    + intros [(x & X)|(v & x & X & I)]; destruct (RF _ _ X) as (r & J & K & ->); [rewrite <- K; apply in_map, J|apply (C r); assumption].
    + intro I. apply in_map_iff in I. destruct I as (r & <- & I). left. exists (row_of r). apply FR, I.
Qed.
(** Whatever the document is, the graph is the one that its nodes describe. *)
Theorem xml_any_graph : forall ns e A, load_aut_xml ns e = Ok (LGraph A) ->
  exists aut rows, In aut (findall (qual ns "aut") e) /\ mapr (read_node ns) (findall (qual ns "node") aut) = Ok rows /\ describes rows A.
Proof.
  intros ns e A H. unfold load_aut_xml in H. rewrite !qual_prefix in H. destruct (negb (x_tag e =? qual ns "tulipcon")); [discriminate|]. destruct (x_attr e "version") as [ver|]; [|discriminate].
  destruct (int_of ver) as [v|]; [|discriminate]. cbn [bind] in H. destruct (negb (v =? 1)%Z); [discriminate|].
  destruct (untagdict _ _ (find1 (qual ns "env_vars") e)) as [ed|]; [|discriminate]. cbn [bind] in H. destruct (untagdict _ _ _) as [sd|]; [|discriminate]. cbn [bind] in H.
  destruct (parse_vars (snd ed) _) as [env|]; [|discriminate]. cbn [bind] in H. destruct (parse_vars _ _) as [sys|]; [|discriminate]. cbn [bind] in H.
  destruct (new_spec env sys); [|discriminate]. cbn [bind] in H. destruct (mapr _ spec_tags); [|discriminate]. cbn [bind] in H.
  destruct (find1 (qual ns "aut") e) as [aut|] eqn:EA; [|discriminate]. destruct (x_text aut); [|discriminate]. destruct (x_attr aut "type") as [ty|]; [|discriminate]. cbn [bind] in H. destruct (negb (ty =? "basic")); [discriminate|].
  pose proof (read_nodes_ok ns (findall (qual ns "node") aut) [] (XGraph env sys [] []) [] (describes_nil _ _)) as R.
  assert (I0 : forall u : Z, In u [] <-> first_row u [] <> None) by (intro u; split; [intros []|intro X; apply X; reflexivity]). specialize (R I0).
  destruct (mapr (read_node ns) (findall (qual ns "node") aut)) as [rows|er] eqn:EM.
  - destruct R as (h & R1 & R2 & _). rewrite R1 in H. cbn [bind] in H. injection H as <-. exists aut, rows. split; [|split; [exact EM|exact R2]].
    unfold find1 in EA. destruct (findall (qual ns "aut") e); [discriminate|]. injection EA as ->. left. reflexivity.
  - rewrite R in H. discriminate.
Qed.

(** Whatever is read, the document has the root, the version, and all six parts of the specification, and no variable
    belongs to both players. *)
Definition env_of (r : loaded) : list (string * xdom) := match r with LSpec s => x_env s | LGraph g => g_env g end.
Definition sys_of (r : loaded) : list (string * xdom) := match r with LSpec s => x_sys s | LGraph g => g_sys g end.
Lemma mapr_each {A B} (f : A -> res B) l ys : mapr f l = Ok ys -> forall x, In x l -> exists y, f x = Ok y.
Proof. revert ys. induction l as [|a l IH]; intros ys H x I; [destruct I|]. cbn [mapr] in H. destruct (f a) as [b|] eqn:E; [|discriminate]. cbn [bind] in H. destruct (mapr f l) as [bs|] eqn:E'; [|discriminate]. destruct I as [<-|I]; [eauto|exact (IH bs eq_refl x I)]. Qed.
Lemma read_nodes_vars ns l : forall ids g h, read_nodes ns l ids g = Ok h -> g_env h = g_env g /\ g_sys h = g_sys g.
Proof.
  induction l as [|n l IH]; intros ids g h H; cbn [read_nodes] in H; [injection H as <-; split; reflexivity|].
  destruct (read_node ns n) as [[[id a] kids]|]; [|discriminate]. cbn [bind] in H. destruct (existsb (Z.eqb id) ids); [exact (IH _ _ _ H)|]. apply IH in H.
  assert (F : forall g, g_env (fold_left (fun g v => add_edge id v g) kids g) = g_env g /\ g_sys (fold_left (fun g v => add_edge id v g) kids g) = g_sys g).
  { clear. induction kids as [|k kids IH]; intro g; [split; reflexivity|]. cbn [fold_left]. destruct (IH (add_edge id k g)) as [-> ->]. split; reflexivity. }
  destruct (F (add_node id a g)) as [F1 F2]. rewrite F1, F2 in H. exact H.
Qed.
Theorem xml_accepted : forall ns e r, load_aut_xml ns e = Ok r ->
  x_tag e = qual ns "tulipcon" /\ (exists v, x_attr e "version" = Ok v /\ py_int (list_ascii_of_string v) = Some 1%Z) /\
  (forall x, In x (map fst (env_of r)) -> ~ In x (map fst (sys_of r))) /\
  exists s, In s (findall (qual ns "spec") e) /\ forall tag, In tag parts_order -> findall (qual ns tag) s <> [].
Proof.
  intros ns e r H. unfold load_aut_xml in H. rewrite !qual_prefix in H. destruct (String.eqb_spec (x_tag e) (qual ns "tulipcon")) as [T|]; [|discriminate]. cbn [negb] in H. split; [exact T|]. destruct (x_attr e "version") as [ver|]; [|discriminate].
  destruct (int_of ver) as [v|] eqn:EV; [|discriminate]. cbn [bind] in H. destruct (Z.eqb_spec v 1) as [->|]; [|discriminate]. cbn [negb] in H.
  split; [exists ver; split; [reflexivity|]; unfold int_of, of_opt, chars in EV; destruct (py_int (list_ascii_of_string ver)); [injection EV as ->; reflexivity|discriminate]|].
  destruct (untagdict _ _ (find1 (qual ns "env_vars") e)) as [ed|]; [|discriminate]. cbn [bind] in H. destruct (untagdict _ _ _) as [sd|]; [|discriminate]. cbn [bind] in H.
  destruct (parse_vars (snd ed) _) as [env|]; [|discriminate]. cbn [bind] in H. destruct (parse_vars _ _) as [sys|]; [|discriminate]. cbn [bind] in H.
  destruct (new_spec env sys) eqn:EN; [|discriminate]. cbn [bind] in H. destruct (mapr _ spec_tags) as [parts|] eqn:EP; [|discriminate]. cbn [bind] in H.
  assert (V : env_of r = env /\ sys_of r = sys).
  { destruct (find1 (qual ns "aut") e) as [aut|]; [|injection H as <-; split; reflexivity]. destruct (x_text aut); [|discriminate]. destruct (x_attr aut "type") as [ty|]; [|discriminate]. cbn [bind] in H. destruct (negb (ty =? "basic")); [discriminate|].
    destruct (read_nodes _ _ _ _) as [g|] eqn:ER; [|discriminate]. cbn [bind] in H. injection H as <-. apply read_nodes_vars in ER. exact ER. }
  destruct V as [-> ->]. split.
  - intros x I J. unfold new_spec in EN. destruct (existsb _ env) eqn:EX; [discriminate|]. apply in_map_iff in I. destruct I as (kv & <- & I). apply in_map_iff in J. destruct J as (kv' & E & J).
    enough (X : existsb (fun kv => existsb (fun kv' => fst kv =? fst kv') sys) env = true) by congruence. apply existsb_exists. exists kv. split; [exact I|]. apply existsb_exists. exists kv'. split; [exact J|]. rewrite E. apply String.eqb_refl.
  - assert (P0 : exists y, read_part ns (find1 (qual ns "spec") e) "env_init" = Ok y) by (apply (mapr_each _ _ _ EP); left; reflexivity). destruct (find1 (qual ns "spec") e) as [s|] eqn:ES; [|destruct P0 as [y P0]; discriminate].
    exists s. split; [unfold find1 in ES; destruct (findall (qual ns "spec") e); [discriminate|injection ES as ->; left; reflexivity]|].
    intros tag I E0. destruct (mapr_each _ _ _ EP tag I) as [y Ey]. unfold read_part in Ey. cbn [some_elem of_opt bind] in Ey. unfold find1 in Ey. rewrite qual_prefix, E0 in Ey. discriminate.
Qed.

(** ** Specifications *)
Lemma starts_in p s : starts p s = true -> forall c, In c p -> In c s.
Proof.
  revert s. induction p as [|a p IH]; intros s H c I; [destruct I|]. destruct s as [|b s]; [discriminate|]. cbn [starts] in H. apply andb_true_iff in H. destruct H as [E H]. apply Ascii.eqb_eq in E. subst b.
  destruct I as [<-|I]; [left; reflexivity|right; exact (IH s H c I)].
Qed.
Lemma split_sub_none p c : In c p -> forall s cur, ~ In c s -> split_sub p 0 cur s = [(rev cur ++ s)%list].
Proof.
  intro P. induction s as [|x s IH]; intros cur H; cbn [split_sub]; [rewrite app_nil_r; reflexivity|].
  destruct (starts p (x :: s)) eqn:E; [exfalso; apply H; eapply starts_in; eassumption|]. rewrite IH by (intro I; apply H; right; exact I). cbn [rev]. rewrite <- app_assoc. reflexivity.
Qed.
Lemma replace_none p q s : In ";"%char (list_ascii_of_string p) -> ~ In ";"%char (list_ascii_of_string s) -> replace_sub p q s = s.
Proof. intros P H. unfold replace_sub, chars. rewrite (split_sub_none _ ";"%char) by assumption. cbn [map join rev app]. apply string_of_list_ascii_of_string. Qed.
Lemma unescape_same s : ~ In ";"%char (list_ascii_of_string s) -> unescape s = s.
Proof.
  intro H. unfold unescape. rewrite (replace_none "&lt;" "<" s), (replace_none "&gt;" ">" s), (replace_none "&amp;" "&" s); [reflexivity|..]; try exact H; cbn; repeat (first [left; reflexivity|right]).
Qed.

(** A document without strategy gives the specification: variables with their domains and all clauses. *)
Theorem xml_spec_read : forall d txt extra, vars_ok d -> d_rows d = None -> Forall (fun e => x_tag e <> qual default_ns "aut") extra ->
  (forall tag v, In tag parts_order -> In v (d_part d tag) -> ~ In ";"%char (list_ascii_of_string v)) ->
  load_aut_xml default_ns (write default_ns d txt extra) = Ok (LSpec (XSpec (d_env d) (d_sys d) (map (fun tag => (tag, d_part d tag)) parts_order))).
Proof.
  intros d txt extra V R X C. rewrite (load_head d txt extra None V); [|rewrite R; split; [exact X|reflexivity]]. do 3 f_equal.
  apply map_ext_in. intros tag I. f_equal. rewrite <- (map_id (d_part d tag)) at 2. apply map_ext_in. intros v J. apply unescape_same, (C tag v I J).
Qed.

(** ** The version of gr1c *)
Lemma words_chars w : (forall c, In c w -> is_space c = false) -> w <> [] -> forall rest, (rest = [] \/ exists r, rest = " "%char :: r) -> words [] (w ++ rest)%list = w :: words [] rest.
Proof.
  intros S N rest [->|(r & ->)].
  - rewrite app_nil_r, words_word by exact S. cbn [rev app words]. destruct w; [contradiction|reflexivity].
  - rewrite words_space; [|exact S|exact N]. cbn [rev app]. cbn [words]. change (is_space " ") with true. reflexivity.
Qed.
(** The tool prints its name and its version; other words may follow. *)
Theorem version_read : forall a b c more, (more = "" \/ exists r, more = " " ++ r) ->
  get_version (Some ("gr1c " ++ str_Z a ++ "." ++ str_Z b ++ "." ++ str_Z c ++ more)) = Ok (a, b, c).
Proof.
  intros a b c more M. unfold get_version. cbn [of_opt bind]. unfold chars. rewrite !chars_app.
  set (v := (list_ascii_of_string (str_Z a) ++ list_ascii_of_string "." ++ list_ascii_of_string (str_Z b) ++ list_ascii_of_string "." ++ list_ascii_of_string (str_Z c))%list).
  replace (list_ascii_of_string (str_Z a) ++ list_ascii_of_string "." ++ list_ascii_of_string (str_Z b) ++ list_ascii_of_string "." ++ list_ascii_of_string (str_Z c) ++ list_ascii_of_string more)%list with (v ++ list_ascii_of_string more)%list by (unfold v; rewrite <- !app_assoc; reflexivity).
  assert (S : forall x, In x v -> is_space x = false).
  { intros x I. unfold v in I. cbn [list_ascii_of_string] in I. rewrite !in_app_iff in I. cbn [In] in I. destruct I as [I|[[<-|[]]|[I|[[<-|[]]|I]]]]; try reflexivity; apply plain_not_space, (str_Z_plain _ _ I). }
  assert (NV : v <> []). { unfold v. intro E. apply app_eq_nil in E. destruct E as [_ E]. discriminate. }
  change (list_ascii_of_string "gr1c " ++ v ++ list_ascii_of_string more)%list with ((list_ascii_of_string "gr1c") ++ " "%char :: (v ++ list_ascii_of_string more))%list.
  rewrite words_space; [| intros x [<-|[<-|[<-|[<-|[]]]]]; reflexivity | discriminate]. cbn [rev app].
  rewrite words_chars; [|exact S|exact NV|destruct M as [->|(r & ->)]; [left; reflexivity|right; exists (list_ascii_of_string r); reflexivity]].
  unfold v. cbn [list_ascii_of_string app]. rewrite split_char by (apply not_in_number; reflexivity). rewrite split_char by (apply not_in_number; reflexivity). rewrite split_none by (apply not_in_number; reflexivity).
  cbn [rev app]. rewrite !py_int_str_Z. reflexivity.
Qed.

(** ** Findings *)
(** A strategy in a document without blanks before the first node is not read, nor is an empty one. *)
Theorem xml_compact_refuted : forall d rows extra, vars_ok d -> d_rows d = Some rows -> load_aut_xml default_ns (write default_ns d None extra) = Err "AttributeError".
Proof. intros d rows extra V R. erewrite load_head; [|exact V|rewrite R; reflexivity]. reflexivity. Qed.

Definition no_parts : string -> list string := fun _ => [].
Definition ex_rows : list state_row :=
  [Row 0 [1; 2] [1; 2] [("x", 1); ("y", 0)] false; Row 1 [] [1; 0] [("x", 0); ("y", 0)] false; Row 2 [0; 1] [0] [("x", 1); ("y", 3)] true]%Z.
Definition ex_doc : doc := Doc [("x", XBool)] [("y", XRange 0 3)] (fun tag => if tag =? "sys_prog" then ["y = 3 & x"; "x < 1"] else []) (Some ex_rows).
Definition ex_graph : xgraph :=
  XGraph [("x", XBool)] [("y", XRange 0 3)]
    [(0, Some (XNode [("x", 1); ("y", 0)] 1 2)); (1, Some (XNode [("x", 0); ("y", 0)] (-1) (-1))); (2, Some (XNode [("x", 1); ("y", 3)] 0 1))]%Z
    [(0, 1); (0, 2); (1, 1); (1, 0); (2, 0)]%Z.
Example ex_read : load_aut_xml default_ns (write default_ns ex_doc (Some " ") [Xml (qual default_ns "extra") [] None []]) = Ok (LGraph ex_graph).
Proof. vm_compute. reflexivity. Qed.
Example ex_ok : vars_ok ex_doc /\ Forall (fun r => NoDup (map fst (k_state r))) ex_rows /\ NoDup (map k_id ex_rows).
Proof.
  split; [|split].
  - unfold vars_ok. cbn. repeat constructor; cbn; intuition discriminate.
  - repeat constructor; cbn; intuition discriminate.
  - cbn. repeat constructor; cbn; intuition discriminate.
Qed.
Example ex_spec : load_aut_xml default_ns (write default_ns (Doc (d_env ex_doc) (d_sys ex_doc) (d_part ex_doc) None) None []) =
  Ok (LSpec (XSpec [("x", XBool)] [("y", XRange 0 3)]
    [("env_init", []); ("env_safety", []); ("env_prog", []); ("sys_init", []); ("sys_safety", []); ("sys_prog", ["y = 3 & x"; "x < 1"])])).
Proof. vm_compute. reflexivity. Qed.
Example ex_version : get_version (Some "gr1c 0.13.0 (gr1c)") = Ok (0, 13, 0)%Z.
Proof. vm_compute. reflexivity. Qed.

(** In another namespace the variables and the successors in elements are lost, without an error. *)
Theorem xml_namespace_refuted : exists (ns : option string) (d : doc) (A : xgraph),
  vars_ok d /\ load_aut_xml ns (write ns d (Some " ") []) = Ok (LGraph A) /\ d_env d <> [] /\ g_env A = [] /\ g_sys A = [] /\
  exists r, d_rows d = Some [r] /\ k_succ r <> [] /\ g_edges A = [].
Proof.
  exists None, (Doc [("x", XBool)] [("y", XBool)] no_parts (Some [Row 0 [] [0%Z] [("x", 1%Z); ("y", 0%Z)] true])). eexists. split; [|split; [vm_compute; reflexivity|]].
  - unfold vars_ok. cbn. repeat constructor; cbn; intuition discriminate.
  - split; [discriminate|]. split; [reflexivity|]. split; [reflexivity|]. eexists. split; [reflexivity|]. split; [discriminate|reflexivity].
Qed.
(** Successors that have no node of their own are in the graph without a state. *)
Theorem xml_dangling_refuted : exists d A u v, vars_ok d /\ load_aut_xml default_ns (write default_ns d (Some " ") []) = Ok (LGraph A) /\ In (u, v) (g_edges A) /\ attr A v = None.
Proof.
  exists (Doc [] [("y", XBool)] no_parts (Some [Row 0 [] [7%Z] [("y", 0%Z)] false])). eexists. exists 0%Z, 7%Z. split; [|split; [vm_compute; reflexivity|split; [left; reflexivity|reflexivity]]].
  unfold vars_ok. cbn. repeat constructor; cbn; intuition discriminate.
Qed.
(** A clause that is written as text and not in an element [litem] is cut at its blanks. *)
Theorem xml_text_clause_refuted : exists e parts, load_aut_xml default_ns e = Ok (LSpec (XSpec [] [("y", XBool)] parts)) /\
  find1 (qual default_ns "sys_prog") (hd e (findall (qual default_ns "spec") e)) = Some (Xml (qual default_ns "sys_prog") [] (Some "y & !y") []) /\
  M_Base.lookup "sys_prog" parts = Some ["y"; "&"; "!y"].
Proof.
  exists (Xml (qual default_ns "tulipcon") [("version", "1")] None
    [write_vars default_ns "env_vars" []; write_vars default_ns "sys_vars" [("y", XBool)];
     Xml (qual default_ns "spec") [] None (map (fun tag => if tag =? "sys_prog" then Xml (qual default_ns tag) [] (Some "y & !y") [] else write_list default_ns true tag []) parts_order)]).
  eexists. split; [vm_compute; reflexivity|]. split; vm_compute; reflexivity.
Qed.
(** [load_mealy] gets the graph of a document, but an unknown format gives an UnboundLocalError, and a document without strategy an AttributeError. *)
Theorem mealy_xml : forall (G : Type) fromstring (json : string -> res G) s e A fmt, fromstring s = Ok e -> load_aut_xml default_ns e = Ok (LGraph A) -> In fmt ["tulipxml"; "TulipXML"; "TULIPXML"] ->
  load_mealy fromstring json s fmt = Ok (inl A).
Proof.
  intros G fromstring json s e A fmt P L I. unfold load_mealy. replace (lower fmt =? "tulipxml") with true by (destruct I as [<-|[<-|[<-|[]]]]; reflexivity). rewrite P. cbn [bind]. rewrite L. reflexivity.
Qed.
Theorem mealy_refuted : forall (G : Type) fromstring (json : string -> res G) s,
  load_mealy fromstring json s "xml" = Err "UnboundLocalError" /\
  (forall e x, fromstring s = Ok e -> load_aut_xml default_ns e = Ok (LSpec x) -> load_mealy fromstring json s "tulipxml" = Err "AttributeError").
Proof. intros G fromstring json s. split; [reflexivity|]. intros e x P L. unfold load_mealy. change (lower "tulipxml" =? "tulipxml") with true. cbn iota. rewrite P. cbn [bind]. rewrite L. reflexivity. Qed.

Print Assumptions xml_strategy_read.
Print Assumptions xml_distinct_read.
Print Assumptions xml_any_graph.
Print Assumptions xml_accepted.
Print Assumptions xml_spec_read.
Print Assumptions version_read.
Print Assumptions xml_compact_refuted.
Print Assumptions xml_namespace_refuted.
Print Assumptions xml_dangling_refuted.
Print Assumptions xml_text_clause_refuted.
Print Assumptions mealy_xml.
Print Assumptions mealy_refuted.
