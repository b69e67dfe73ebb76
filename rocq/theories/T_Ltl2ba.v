(** The reader of never claims: what it reads is the claim. *)
From Coq Require Import List String Ascii Bool Arith ZArith Lia.
From Verif Require Import M_Base M_Ast M_Lexer M_Gr1c S_LTL S_Python L_Python L_PyCase M_Ltl2ba S_Never L_Ltl2ba.
Import ListNotations.
Open Scope string_scope.
Open Scope list_scope.
Open Scope nat_scope.

(** The value of a guard of the automaton: a text is evaluated by Python. *)
Definition guard_value (w : string -> bool) (G : bguard) : option pyval := match G with GText s => py_eval (env_of w) s | GInt n => Some (PZ n) end.
Definition same_guard (G : bguard) (g : guard) : Prop := forall w, exists v, guard_value w G = Some v /\ truthy v = holds w g.
Definition names_ok (l : list (guard * string)) : Prop := forall g v x, In (g, v) l -> mentions x g -> py_name x = true.
Lemma same_guard_of G g : py_atom (gstr G) (gexp g) -> (forall n, G = GInt n -> g = QNum n) -> same_guard G g.
Proof.
  intros P N w. destruct G as [s|n]; cbn [guard_value gstr] in *.
  - unfold py_eval. rewrite (parse_atom _ _ P). apply gexp_value.
  - rewrite (N n eq_refl). exists (PZ n). split; reflexivity.
Qed.
Definition same_case (x : bguard * string) (y : guard * string) : Prop := snd x = snd y /\ same_guard (fst x) (fst y).
Definition case_event (l : list (guard * string)) (e : event) : Prop :=
  (exists g v x, In (g, v) l /\ mentions x g /\ e = ESymbol x) \/ (exists g v, In (g, v) l /\ e = ENode v).
Lemma case_read s g v : case_text s (g, v) -> (forall x, mentions x g -> py_name x = true) ->
  exists ts G ev, gives s (BColon2 :: ts) /\ (forall rest, pcase ((BColon2 :: ts) ++ rest) = POk (G, v) rest ev) /\ same_guard G g /\ forall e, In e ev <-> case_event [(g, v)] e.
Proof.
  intros H PN. inversion H as [a e b c d v' f g' A E B C D DN V F FN]. subst. destruct (guard_read 0 e g E PN) as (ts & G & ev & L & R & P & N & EV).
  exists (ts ++ [BImp; BGoto; BName v]), G, (ev ++ [ENode v]). split; [|split; [|split]].
  - apply (gives_app "::" [BColon2] _ (ts ++ [BImp; BGoto; BName v]) colon2_gives). apply (gives_app a [] _ (ts ++ [BImp; BGoto; BName v]) (blank_gives a A)).
    apply (wgives_app e ts _ [BImp; BGoto; BName v] L); [|apply delimited_app; [exact B|reflexivity]]. apply (gives_app b [] _ [BImp; BGoto; BName v] (blank_gives b B)).
    apply (gives_app "->" [BImp] _ [BGoto; BName v] imp_gives). apply (gives_app c [] _ [BGoto; BName v] (blank_gives c C)).
    apply (wgives_app "goto" [BGoto] _ [BName v] goto_gives).
    + apply (gives_app d [] _ [BName v] (blank_gives d D)). apply (wgives_app v [BName v] f [] (ident_gives v V) (blank_gives f F) (blank_delimited f F FN)).
    + destruct d as [|d0 d]; [congruence|]. apply (blank_delimited (String d0 d) D DN).
  - intro rest. unfold pcase. cbn [app]. rewrite <- app_assoc. unfold expr. rewrite (reads_closed ts G ev); [|exact R|rewrite app_length; lia|exact I]. reflexivity.
  - apply same_guard_of; assumption.
  - intro x. rewrite in_app_iff, EV. unfold case_event. cbn [In]. split.
    + intros [(y & -> & M)|[<-|[]]]; [left; exists g, v, y; auto|right; exists g, v; auto].
    + intros [(g1 & v1 & y & [[= <- <-]|[]] & M & ->)|(g1 & v1 & [[= <- <-]|[]] & ->)]; [left; eauto|auto].
Qed.
Definition not_case (ts : list btok) : Prop := match ts with BColon2 :: _ => False | _ => True end.
Lemma cases_read s l : cases_text s l -> names_ok l ->
  exists ts L ev, gives s (BColon2 :: ts) /\ (forall f rest, List.length ts < f -> not_case rest -> pcases f ((BColon2 :: ts) ++ rest) = POk L rest ev) /\
    Forall2 same_case L l /\ forall e, In e ev <-> case_event l e.
Proof.
  intro H. induction H as [s [g v] C|s [g v] t l C T IH]; intro N.
  - destruct (case_read s g v C (fun x => N g v x (or_introl eq_refl))) as (ts & G & ev & L & R & S & E). exists ts, [(G, v)], ev. split; [exact L|]. split; [|split; [|exact E]].
    + intros f rest F NC. destruct f as [|f]; [lia|]. cbn [pcases]. rewrite R. cbn [pbind]. destruct rest as [|[] rest]; try contradiction; rewrite app_nil_r; reflexivity.
    + constructor; [split; [reflexivity|exact S]|constructor].
  - destruct (case_read s g v C (fun x => N g v x (or_introl eq_refl))) as (ts & G & ev & L & R & S & E).
    destruct IH as (us & L' & ev' & LL & RR & SS & EE); [intros g' v' x I; apply (N g' v' x (or_intror I))|].
    exists (ts ++ BColon2 :: us), ((G, v) :: L'), (ev ++ ev'). split; [|split; [|split]].
    + apply (gives_app s (BColon2 :: ts) t (BColon2 :: us) L LL).
    + intros f rest F NC. rewrite app_length in F. cbn [List.length] in F. destruct f as [|f]; [lia|]. cbn [pcases]. 
      replace ((BColon2 :: ts ++ BColon2 :: us) ++ rest) with ((BColon2 :: ts) ++ (BColon2 :: us) ++ rest) by (cbn [app]; rewrite <- app_assoc; reflexivity).
      rewrite R. cbn [pbind]. change ((BColon2 :: us) ++ rest) with (BColon2 :: us ++ rest). cbv iota. change (BColon2 :: us ++ rest) with ((BColon2 :: us) ++ rest). rewrite RR by (auto; lia). cbn [pbind]. rewrite app_nil_r. reflexivity.
    + constructor; [split; [reflexivity|exact S]|exact SS].
    + intro e. rewrite in_app_iff, E, EE. unfold case_event. cbn [In]. split.
      * intros [[(g1 & v1 & x & [I|[]] & M)|(g1 & v1 & [I|[]] & M)]|[(g1 & v1 & x & I & M)|(g1 & v1 & I & M)]]; [left|right|left|right].
        -- exists g1, v1, x. auto.
        -- exists g1, v1. auto.
        -- exists g1, v1, x. auto.
        -- exists g1, v1. auto.
      * intros [(g1 & v1 & x & [I|I] & M)|(g1 & v1 & [I|I] & M)].
        -- left. left. exists g1, v1, x. auto.
        -- right. left. exists g1, v1, x. auto.
        -- left. right. exists g1, v1. auto.
        -- right. right. exists g1, v1. auto.
Qed.
(** * Clauses *)
Definition transitions (c : claim) : list (string * string * guard) :=
  flat_map (fun p => match snd p with Cases l => map (fun x => (fst p, snd x, fst x)) l | _ => [] end) c.
Definition same_edge (e : string * string * bguard) (t : string * string * guard) : Prop := fst e = fst t /\ same_guard (snd e) (snd t).
Definition edges_of (ev : list event) : list (string * string * bguard) := flat_map (fun e => match e with EEdge u v g => [(u, v, g)] | _ => [] end) ev.
Definition only_cases (c : claim) : Prop := forall u b, In (u, b) c -> exists l, b = Cases l /\ names_ok l.
Definition is_symbol (c : claim) (x : string) : Prop := exists u v g, In (u, v, g) (transitions c) /\ mentions x g.
Definition is_state (c : claim) (s : string) : Prop := (exists b, In (s, b) c) \/ exists u g, In (u, s, g) (transitions c).
Record events_of (c : claim) (ev : list event) : Prop := {
  ev_symbols : forall x, In (ESymbol x) ev <-> is_symbol c x;
  ev_states : forall s, In (ENode s) ev <-> is_state c s;
  ev_edges : Forall2 same_edge (edges_of ev) (transitions c) }.
Lemma edges_none ev : (forall e, In e ev -> match e with EEdge _ _ _ => False | _ => True end) -> edges_of ev = [].
Proof. unfold edges_of. induction ev as [|e ev IH]; intro H; [reflexivity|]. cbn [flat_map]. assert (N := H e (or_introl eq_refl)). destruct e; [| |contradiction]; apply IH; intros e' I; apply H; right; exact I. Qed.
Lemma edges_app a b : edges_of (a ++ b) = edges_of a ++ edges_of b.
Proof. apply flat_map_app. Qed.
Lemma clause_events u l L ev : Forall2 same_case L l -> (forall e, In e ev <-> case_event l e) ->
  events_of [(u, Cases l)] ((ENode u :: ev) ++ map (fun c => EEdge u (snd c) (fst c)) L).
Proof.
  intros S E. assert (T : forall a b g, In (a, b, g) (transitions [(u, Cases l)]) <-> a = u /\ In (g, b) l).
  { intros a b g. unfold transitions. cbn [flat_map fst snd]. rewrite app_nil_r, in_map_iff. split; [intros ([g' v'] & [= <- <- <-] & I); auto|intros [-> I]; exists (g, b); auto]. }
  constructor.
  - intro x. rewrite in_app_iff. cbn [In]. rewrite E. unfold is_symbol. split.
    + intros [[D|[(g & v & y & I & M & [= ->])|(g & v & _ & D)]]|D]; [discriminate| |discriminate|apply in_map_iff in D; destruct D as (? & D & _); discriminate].
      exists u, v, g. split; [apply T; auto|exact M].
    + intros (a & b & g & I & M). apply T in I. left. right. left. exists g, b, x. split; [apply I|auto].
  - intro s. rewrite in_app_iff. cbn [In]. rewrite E. unfold is_state. split.
    + intros [[[= ->]|[(g & v & y & _ & _ & D)|(g & v & I & [= ->])]]|D]; [left; eexists; left; reflexivity|discriminate| |apply in_map_iff in D; destruct D as (? & D & _); discriminate].
      right. exists u, g. apply T. auto.
    + intros [(b & [[= -> _]|[]])|(a & g & I)]; [left; left; reflexivity|]. apply T in I. left. right. right. exists g, s. split; [apply I|reflexivity].
  - rewrite edges_app. rewrite edges_none.
    + cbn [app]. unfold transitions. cbn [flat_map fst snd]. rewrite app_nil_r. clear E T. induction S as [|[G v] [g v'] L l [A B] _ IH]; [constructor|]. cbn [fst snd] in *. subst v'. constructor; [split; [reflexivity|exact B]|exact IH].
    + intros e [<-|I]; [exact Logic.I|]. apply E in I. destruct I as [(? & ? & ? & _ & _ & ->)|(? & ? & _ & ->)]; exact Logic.I.
Qed.
Lemma transitions_app a b : transitions (a ++ b) = transitions a ++ transitions b.
Proof. apply flat_map_app. Qed.
Lemma events_app c d ev ev' : events_of c ev -> events_of d ev' -> events_of (c ++ d) (ev ++ ev').
Proof.
  intros [A B C] [A' B' C']. constructor.
  - intro x. rewrite in_app_iff, A, A'. unfold is_symbol. split.
    + intros [(u & v & g & I & M)|(u & v & g & I & M)]; exists u, v, g; (split; [rewrite transitions_app; apply in_app_iff; auto|exact M]).
    + intros (u & v & g & I & M). rewrite transitions_app in I. apply in_app_iff in I. destruct I as [I|I]; [left|right]; exists u, v, g; auto.
  - intro s. rewrite in_app_iff, B, B'. unfold is_state. split.
    + intros [[(b & I)|(u & g & I)]|[(b & I)|(u & g & I)]].
      * left. exists b. apply in_app_iff. auto.
      * right. exists u, g. rewrite transitions_app. apply in_app_iff. auto.
      * left. exists b. apply in_app_iff. auto.
      * right. exists u, g. rewrite transitions_app. apply in_app_iff. auto.
    + intros [(b & I)|(u & g & I)].
      * apply in_app_iff in I. destruct I; [left|right]; left; exists b; assumption.
      * rewrite transitions_app in I. apply in_app_iff in I. destruct I; [left|right]; right; exists u, g; assumption.
  - rewrite edges_app, transitions_app. apply Forall2_app; assumption.
Qed.
Definition no_clause (ts : list btok) : Prop := match ts with BIf :: _ | BName _ :: _ => False | _ => True end.
(** One clause, with the blanks after it *)
Lemma clause_read u a b s c l : ident u -> blank a -> blank b -> body_text s (Cases l) -> blank c -> names_ok l ->
  exists ts ev, gives (u ++ a ++ ":" ++ b ++ s ++ c)%string (BName u :: ts) /\ (forall rest, pclause ((BName u :: ts) ++ rest) = POk tt rest ev) /\ events_of [(u, Cases l)] ev.
Proof.
  intros U A B S C N. inversion S as [a' s' b' l' A' S' B'| |]. subst. destruct (cases_read s' l S' N) as (ts & L & ev & G & R & SC & E).
  exists (BColon :: BIf :: (BColon2 :: ts) ++ [BFi; BSemi]), ((ENode u :: ev) ++ map (fun x => EEdge u (snd x) (fst x)) L). split; [|split].
  - apply (wgives_app u [BName u] _ (BColon :: BIf :: (BColon2 :: ts) ++ [BFi; BSemi]) (ident_gives u U)); [|apply delimited_app; [exact A|reflexivity]].
    apply (gives_app a [] _ _ (blank_gives a A)). 
    apply (colon_gives _ (BIf :: (BColon2 :: ts) ++ [BFi; BSemi])); [|apply starts_not_app; [exact B|exact blank_colon|discriminate]].
    apply (gives_app b [] _ _ (blank_gives b B)).
    replace (BIf :: (BColon2 :: ts) ++ [BFi; BSemi]) with ((BIf :: (BColon2 :: ts) ++ [BFi; BSemi]) ++ []) by apply app_nil_r. apply gives_app; [|apply blank_gives, C].
    apply (wgives_app "if" [BIf] _ ((BColon2 :: ts) ++ [BFi; BSemi]) if_gives).
    + apply (gives_app a' [] _ _ (blank_gives a' A')). apply (gives_app s' (BColon2 :: ts) _ [BFi; BSemi] G).
      apply (wgives_app "fi" [BFi] _ [BSemi] fi_gives); [|apply delimited_app; [exact B'|reflexivity]]. apply (gives_app b' [] ";" [BSemi] (blank_gives b' B') semi_gives).
    + apply delimited_app; [exact A'|]. assert (D : delimited s') by (clear - S'; destruct S' as [s x H|s x t l H _]; destruct H; reflexivity). unfold delimited in *. rewrite chars_app. destruct (chars s'); [contradiction|exact D].
  - intro rest. unfold pclause. cbn [app]. cbn [pstate pbind]. unfold pif at 1.
    assert (P : pcases (List.length (BColon2 :: (ts ++ [BFi; BSemi]) ++ rest)) (BColon2 :: (ts ++ [BFi; BSemi]) ++ rest) = POk L (BFi :: BSemi :: rest) ev).
    { replace (BColon2 :: (ts ++ [BFi; BSemi]) ++ rest) with ((BColon2 :: ts) ++ BFi :: BSemi :: rest) by (cbn [app]; rewrite <- app_assoc; reflexivity).
      apply R; [cbn [app List.length]; rewrite app_length; cbn; lia|exact I]. }
    cbn [app] in P. rewrite P. cbn [pbind]. rewrite app_nil_r. reflexivity.
  - apply clause_events; assumption.
Qed.
Lemma clauses_read s c : clauses_text s c -> only_cases c ->
  exists u ts ev, gives s (BName u :: ts) /\ (forall f rest, List.length ts < f -> no_clause rest -> pclauses f ((BName u :: ts) ++ rest) = POk tt rest ev) /\ events_of c ev.
Proof.
  intro H. induction H as [u a b s c x U A B S C|u a b s c x t l U A B S C T IH]; intro O.
  - destruct (O u x (or_introl eq_refl)) as (l & -> & N). destruct (clause_read u a b s c l U A B S C N) as (ts & ev & G & R & E). exists u, ts, ev. split; [exact G|]. split; [|exact E].
    intros f rest F NC. destruct f as [|f]; [lia|]. cbn [pclauses]. rewrite R. cbn [pbind]. destruct rest as [|[] rest]; try contradiction; rewrite app_nil_r; reflexivity.
  - destruct (O u x (or_introl eq_refl)) as (l0 & -> & N). destruct (clause_read u a b s c l0 U A B S C N) as (ts & ev & G & R & E).
    destruct IH as (u' & us & ev' & G' & R' & E'); [intros u' b' I; apply (O u' b' (or_intror I))|].
    exists u, (ts ++ BName u' :: us), (ev ++ ev'). split; [|split].
    + replace (u ++ a ++ ":" ++ b ++ s ++ c ++ t)%string with ((u ++ a ++ ":" ++ b ++ s ++ c) ++ t)%string by (rewrite !L_Python.str_assoc; reflexivity).
      apply (gives_app _ (BName u :: ts) t (BName u' :: us) G G').
    + intros f rest F NC. rewrite app_length in F. cbn [List.length] in F. destruct f as [|f]; [lia|]. cbn [pclauses].
      replace ((BName u :: ts ++ BName u' :: us) ++ rest) with ((BName u :: ts) ++ (BName u' :: us) ++ rest) by (cbn [app]; rewrite <- app_assoc; reflexivity).
      rewrite R. cbn [pbind]. change ((BName u' :: us) ++ rest) with (BName u' :: us ++ rest). cbv iota. change (BName u' :: us ++ rest) with ((BName u' :: us) ++ rest). rewrite R' by (auto; lia). reflexivity.
    + apply (events_app [(u, Cases l0)] l); assumption.
Qed.
(** * The whole text *)
Lemma claim_read t c : claim_text t c -> only_cases c -> exists ev, run (S (List.length (blex t))) true (blex t) = Ok ev /\ events_of c ev.
Proof.
  intros H O. inversion H as [a b c0 comment d s e l A B C CM D S E]. subst t l. destruct (clauses_read s c S O) as (u & ts & ev & G & R & EV).
  exists ev. split; [|exact EV].
  assert (T : blex (a ++ "never" ++ b ++ "{" ++ c0 ++ "/*" ++ comment ++ "*/" ++ newline ++ d ++ s ++ "}" ++ e)%string = BNever :: BLb :: BComment :: (BName u :: ts) ++ [BRb]).
  { assert (GG : gives (a ++ "never" ++ b ++ "{" ++ c0 ++ "/*" ++ comment ++ "*/" ++ newline ++ d ++ s ++ "}" ++ e)%string (BNever :: BLb :: BComment :: (BName u :: ts) ++ [BRb])).
    { apply (gives_app a [] _ _ (blank_gives a A)).
      apply (wgives_app "never" [BNever] _ (BLb :: BComment :: (BName u :: ts) ++ [BRb]) never_gives); [|apply delimited_app; [exact B|reflexivity]].
      apply (gives_app b [] _ _ (blank_gives b B)). apply (gives_app "{" [BLb] _ (BComment :: (BName u :: ts) ++ [BRb]) lb_gives). apply (gives_app c0 [] _ _ (blank_gives c0 C)).
      replace ("/*" ++ comment ++ "*/" ++ newline ++ d ++ s ++ "}" ++ e)%string with (("/*" ++ comment ++ "*/" ++ newline) ++ d ++ s ++ "}" ++ e)%string by (rewrite !L_Python.str_assoc; reflexivity).
      apply (gives_app _ [BComment] _ ((BName u :: ts) ++ [BRb]) (comment_gives comment CM)). apply (gives_app d [] _ _ (blank_gives d D)). apply (gives_app s (BName u :: ts) _ [BRb] G).
      apply (gives_app "}" [BRb] e [] rb_gives (blank_gives e E)). }
    specialize (GG []). rewrite !app_nil_r in GG. exact GG. }
  rewrite T. cbn [List.length run]. unfold pclaim.
  assert (P : pclauses (List.length ((BName u :: ts) ++ [BRb])) ((BName u :: ts) ++ [BRb]) = POk tt [BRb] ev) by (apply R; [cbn [app List.length]; rewrite app_length; cbn; lia|exact I]).
  rewrite P. cbn [pbind]. rewrite app_nil_r. reflexivity.
Qed.
Definition contains (p s : string) : Prop := exists a b, s = (a ++ p ++ b)%string.
Lemma prefix_iff p s : String.prefix p s = true <-> exists b, s = (p ++ b)%string.
Proof.
  revert s. induction p as [|c p IH]; intro s; [split; [intros _; exists s; reflexivity|destruct s; reflexivity]|]. destruct s as [|d s]; [split; [discriminate|intros (b & [=])]|].
  cbn [String.prefix]. destruct (ascii_dec c d) as [->|N]; [|split; [discriminate|intros (b & [= E _]); congruence]]. rewrite IH. split; intros (b & E); exists b; [rewrite E; reflexivity|injection E; auto].
Qed.
Lemma has_iff p s : has p s = true <-> contains p s.
Proof.
  unfold contains. induction s as [|c s IH]; cbn [has]; rewrite orb_true_iff, prefix_iff.
  - split; [intros [(b & E)|D]; [exists ""%string, b; exact E|discriminate]|intros (a & b & E); left; exists b; destruct a; [exact E|discriminate]].
  - rewrite IH. split.
    + intros [(b & E)|(a & b & ->)]; [exists ""%string, b; exact E|exists (String c a), b; reflexivity].
    + intros (a & b & E). destruct a as [|c' a]; [left; exists b; exact E|]. injection E as _ E. right. exists a, b. exact E.
Qed.
Lemma in_add x y l : In x (add y l) <-> x = y \/ In x l.
Proof.
  unfold add. destruct (mem y l) eqn:M.
  - split; [auto|]. intros [->|I]; [|exact I]. apply mem_In. exact M.
  - rewrite in_app_iff. cbn [In]. split; [intros [I|[->|[]]]; auto|intros [->|I]; auto].
Qed.
Lemma add_nodup y l : NoDup l -> NoDup (add y l).
Proof.
  intro N. unfold add. destruct (mem y l) eqn:M; [exact N|]. assert (NI : ~ In y l) by (intro I; apply mem_In in I; congruence).
  clear M. induction N as [|z l NZ _ IH]; [repeat constructor; exact NI|]. cbn [app]. constructor; [rewrite in_app_iff; cbn [In]; cbn [In] in NI; intros [I|[E|[]]]; [exact (NZ I)|apply NI; left; symmetry; exact E]|apply IH; intro I; apply NI; right; exact I].
Qed.
(** What the actions leave behind. *)
Record after (ev : list event) (a : automaton) : Prop := {
  af_symbols : forall x, In x (ba_symbols a) <-> In (ESymbol x) ev;
  af_nodes : forall s, In s (ba_nodes a) <-> In (ENode s) ev;
  af_edges : ba_edges a = edges_of ev;
  af_initial : forall s, In s (ba_initial a) <-> In (ENode s) ev /\ contains "init" s;
  af_accepting : forall s, In s (ba_accepting a) <-> In (ENode s) ev /\ contains "accept" s /\ ~ contains "init" s;
  af_nodup : NoDup (ba_symbols a) /\ NoDup (ba_nodes a) /\ NoDup (ba_initial a) /\ NoDup (ba_accepting a) }.
Lemma in_snoc {A} (x y : A) l : In x (l ++ [y]) <-> x = y \/ In x l.
Proof. rewrite in_app_iff. cbn [In]. split; [intros [H|[H|[]]]; auto|intros [->|H]; auto]. Qed.
Lemma after_act ev a e : after ev a -> after (ev ++ [e]) (act a e).
Proof.
  intros [S N E I A (D1 & D2 & D3 & D4)]. destruct e as [x|s|u v g]; constructor; cbn [act ba_symbols ba_nodes ba_edges ba_initial ba_accepting].
  - intro y. rewrite in_add, in_snoc, S. split; (intros [H|H]; [left; congruence|right; exact H]).
  - intro y. rewrite in_snoc, N. split; [auto|intros [H|H]; [discriminate|exact H]].
  - rewrite edges_app, E. apply (eq_sym (app_nil_r _)).
  - intro y. rewrite in_snoc, I. split; [intros [P Q]; auto|intros [[H|H] Q]; [discriminate|auto]].
  - intro y. rewrite in_snoc, A. split; [intros [P Q]; auto|intros [[H|H] Q]; [discriminate|auto]].
  - repeat split; try assumption. apply add_nodup, D1.
  - intro y. rewrite in_snoc, S. split; [auto|intros [H|H]; [discriminate|exact H]].
  - intro y. rewrite in_add, in_snoc, N. split; (intros [H|H]; [left; congruence|right; exact H]).
  - rewrite edges_app, E. apply (eq_sym (app_nil_r _)).
  - intro y. rewrite in_snoc. destruct (has "init" s) eqn:H.
    + rewrite in_add, I. apply has_iff in H. split; [intros [->|[P Q]]; auto|intros [[[= ->]|P] Q]; auto].
    + rewrite I. split; [intros [P Q]; auto|intros [[[= ->]|P] Q]; [apply has_iff in Q; congruence|auto]].
  - intro y. rewrite in_snoc. destruct (has "init" s) eqn:H; [|destruct (has "accept" s) eqn:K].
    + rewrite A. apply has_iff in H. split; [intros [P Q]; auto|intros [[[= ->]|P] Q]; [destruct Q; contradiction|auto]].
    + rewrite in_add, A. split; [intros [->|[P Q]]; [|auto]|intros [[[= ->]|P] Q]; auto]. split; [auto|]. split; [apply has_iff, K|intro X; apply has_iff in X; congruence].
    + rewrite A. split; [intros [P Q]; auto|intros [[[= ->]|P] Q]; [destruct Q as [Q _]; apply has_iff in Q; congruence|auto]].
  - split; [exact D1|split; [apply add_nodup, D2|split]].
    + destruct (has "init" s); [apply add_nodup|]; exact D3.
    + destruct (has "init" s); [exact D4|]. destruct (has "accept" s); [apply add_nodup|]; exact D4.
  - intro y. rewrite in_snoc, S. split; [auto|intros [H|H]; [discriminate|exact H]].
  - intro y. rewrite in_snoc, N. split; [auto|intros [H|H]; [discriminate|exact H]].
  - rewrite edges_app, E. reflexivity.
  - intro y. rewrite in_snoc, I. split; [intros [P Q]; auto|intros [[H|H] Q]; [discriminate|auto]].
  - intro y. rewrite in_snoc, A. split; [intros [P Q]; auto|intros [[H|H] Q]; [discriminate|auto]].
  - auto.
Qed.
Lemma after_all ev : after ev (fold_left act ev (BA [] [] [] [] [])).
Proof.
  induction ev as [|e ev IH] using rev_ind; [|rewrite fold_left_app; apply after_act, IH].
  constructor; cbn; try tauto. repeat split; constructor.
Qed.
(** * C74, the claim that is read *)
(** Every never claim in which each label is followed by a list of cases is read as it is: the propositions are the names
    in the guards, the nodes are the labels, the edges are the cases, in the same order, with guards that mean the same, and
    the two sets are the nodes with "init" and those with "accept" but not "init" in their names. *)
Record read_as (c : claim) (a : automaton) : Prop := {
  ra_symbols : forall x, In x (ba_symbols a) <-> exists u v g, In (u, v, g) (transitions c) /\ mentions x g;
  ra_nodes : forall s, In s (ba_nodes a) <-> (exists b, In (s, b) c) \/ exists u g, In (u, s, g) (transitions c);
  ra_edges : Forall2 same_edge (ba_edges a) (transitions c);
  ra_initial : forall s, In s (ba_initial a) <-> In s (ba_nodes a) /\ contains "init" s;
  ra_accepting : forall s, In s (ba_accepting a) <-> In s (ba_nodes a) /\ contains "accept" s /\ ~ contains "init" s;
  ra_nodup : NoDup (ba_symbols a) /\ NoDup (ba_nodes a) /\ NoDup (ba_initial a) /\ NoDup (ba_accepting a) }.
Theorem never_read t c : claim_text t c -> only_cases c -> exists a, parse t = Ok a /\ read_as c a.
Proof.
  intros H O. destruct (claim_read t c H O) as (ev & R & [ES EN EE]). unfold parse. rewrite R. cbn [bind]. eexists. split; [reflexivity|].
  destruct (after_all ev) as [S N E I A D]. constructor; [| | | | |exact D].
  - intro x. rewrite S. apply ES.
  - intro s. rewrite N. apply EN.
  - rewrite E. exact EE.
  - intro s. rewrite I, N. reflexivity.
  - intro s. rewrite A, N. reflexivity.
Qed.
(** * C74, the language *)
(** The automaton that the caller sees. *)
Definition reads_letter (a : automaton) (u v : string) (w : string -> bool) : Prop :=
  exists G x, In (u, v, G) (ba_edges a) /\ guard_value w G = Some x /\ truthy x = true.
Definition language (a : automaton) : word_of -> Prop :=
  buchi_accepts (reads_letter a) (fun s => In s (ba_initial a)) (fun s => In s (ba_accepting a)).
(** The labels say which state is the first and which are accepting. *)
Definition telling (c : claim) : Prop :=
  (forall s, is_state c s -> contains "init" s <-> exists b r, c = (s, b) :: r) /\
  (forall s, is_state c s -> contains "init" s -> ~ accepting_label s) /\
  (forall s, is_state c s -> contains "accept" s -> accepting_label s).
Lemma transitions_in c u v g : In (u, v, g) (transitions c) <-> exists l, In (u, Cases l) c /\ In (g, v) l.
Proof.
  unfold transitions. rewrite in_flat_map. split.
  - intros ([u' b] & I & J). destruct b as [l| |]; [|destruct J|destruct J]. cbn [fst snd] in J. apply in_map_iff in J. destruct J as ([g' v'] & [= <- <- <-] & J). exists l. auto.
  - intros (l & I & J). exists (u, Cases l). split; [exact I|]. cbn [fst snd]. apply in_map_iff. exists (g, v). auto.
Qed.
Lemma edges_same es ts : Forall2 same_edge es ts -> forall u v w,
  (exists G x, In (u, v, G) es /\ guard_value w G = Some x /\ truthy x = true) <-> exists g, In (u, v, g) ts /\ holds w g = true.
Proof.
  intros F u v w. induction F as [|[[a b] G] [[a' b'] g] es ts [E S] _ IH]; [split; [intros (? & ? & [] & _)|intros (? & [] & _)]|].
  cbn [fst snd] in *. injection E as <- <-. split.
  - intros (G' & x & [[= <- <- <-]|I] & V & T).
    + exists g. split; [left; reflexivity|]. destruct (S w) as (y & V' & T'). congruence.
    + destruct (proj1 IH (ex_intro _ G' (ex_intro _ x (Logic.conj I (Logic.conj V T))))) as (g' & I' & H). exists g'. split; [right; exact I'|exact H].
  - intros (g' & [D|I] & HH).
    + injection D as <- <- <-. destruct (S w) as (y & V' & T'). exists G, y. split; [left; reflexivity|]. split; [exact V'|congruence].
    + destruct (proj2 IH (ex_intro _ g' (Logic.conj I HH))) as (G' & x & I' & V). exists G', x. split; [right; exact I'|exact V].
Qed.
Lemma read_step c a : only_cases c -> read_as c a -> forall w u v, reads_letter a u v w <-> step c w u v.
Proof.
  intros O R w u v. unfold reads_letter. rewrite (edges_same _ _ (ra_edges c a R)). unfold step. split.
  - intros (g & I & H). apply transitions_in in I. destruct I as (l & I & J). left. exists l, g. auto.
  - intros [(l & g & I & J & H)|[I _]].
    + exists g. split; [apply transitions_in; exists l; auto|exact H].
    + destruct (O u Skip I) as (l & D & _). discriminate.
Qed.
Theorem never_language t c : claim_text t c -> only_cases c -> telling c ->
  exists a, parse t = Ok a /\ forall w, language a w <-> claim_accepts c w.
Proof.
  intros H O (T1 & T2 & T3). destruct (never_read t c H O) as (a & P & R). exists a. split; [exact P|]. intro w.
  assert (N : forall s, In s (ba_nodes a) <-> is_state c s) by (intro s; apply (ra_nodes c a R)).
  assert (ST : forall r : nat -> string, (forall i, step c (w i) (r i) (r (S i))) -> forall i, is_state c (r i)).
  { intros r Q i. destruct (Q i) as [(l & g & I & _)|[I _]]; left; eexists; exact I. }
  unfold language, buchi_accepts, claim_accepts. split; intros (r & I & Q & A); exists r.
  - assert (QQ : forall i, step c (w i) (r i) (r (S i))) by (intro i; apply (read_step c a O R); apply Q). split; [|split; [exact QQ|]].
    + apply (ra_initial c a R) in I. apply T1; [apply N; apply I|apply I].
    + intro i. destruct (A i) as (j & L & J). exists j. split; [exact L|]. apply (ra_accepting c a R) in J. apply T3; [apply N; apply J|apply J].
  - split; [|split].
    + apply (ra_initial c a R). assert (S := ST r Q 0). split; [apply N, S|]. apply T1; [exact S|exact I].
    + intro i. apply (read_step c a O R). apply Q.
    + intro i. destruct (A i) as (j & L & J). exists j. split; [exact L|]. apply (ra_accepting c a R). assert (S := ST r Q j). split; [apply N, S|]. split.
      * destruct J as (q & ->). exists ""%string, q. reflexivity.
      * intro K. exact (T2 (r j) S K J).
Qed.
Print Assumptions never_read.
Print Assumptions never_language.
