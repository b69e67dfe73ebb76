(** C55: integers encoded in the bit fields of slugs are decoded to themselves, and the strategy
    read from a document is the graph the document describes. *)
From Coq Require Import List String Ascii Bool Arith ZArith Lia.
From Verif Require Import M_Base M_Tree M_Gr1c M_Machine M_Grid L_Dec L_Gr1c S_Syntax T_Grid T_GridText T_GridSpec M_Slugs.
Import ListNotations.
Open Scope string_scope.
Open Scope list_scope.
Open Scope nat_scope.

(** ** Specification: an integer is stored in as many bits as the upper bound needs, the bits are
    named [x@0.lo.hi], [x@1], [x@2] and so on, the first one is the lowest. *)
Definition width (hi : Z) (w : nat) : Prop := (2 ^ (Z.of_nat w - 1) <= hi < 2 ^ Z.of_nat w)%Z.
Definition bit (x : Z) (i : nat) : Z := if Z.testbit x (Z.of_nat i) then 1%Z else 0%Z.
Definition encodes (st : bits) (kd : string * sdom) (x : Z) : Prop :=
  match snd kd with
  | SBool => lookup (fst kd) st = Some x
  | SPair lo hi =>
      (0 <= x <= hi)%Z /\ (0 < hi)%Z /\
      lookup (fst kd ++ "@0." ++ str_Z lo ++ "." ++ str_Z hi)%string st = Some (bit x 0) /\
      (forall w i, width hi w -> 1 <= i < w -> lookup (fst kd ++ "@" ++ str_nat i)%string st = Some (bit x i))
  | SList _ => False
  end.

(** ** Binary numerals *)
Lemma size_width p : width (Zpos p) (Pos.size_nat p).
Proof.
  unfold width. induction p as [p IH|p IH|]; cbn [Pos.size_nat].
  - rewrite Nat2Z.inj_succ. rewrite Z.pow_succ_r by lia.
    replace (Z.succ (Z.of_nat (Pos.size_nat p)) - 1)%Z with (Z.succ (Z.of_nat (Pos.size_nat p) - 1))%Z by lia.
    assert (0 < Pos.size_nat p) by (destruct p; cbn; lia). rewrite Z.pow_succ_r by lia. lia.
  - rewrite Nat2Z.inj_succ. rewrite Z.pow_succ_r by lia.
    replace (Z.succ (Z.of_nat (Pos.size_nat p)) - 1)%Z with (Z.succ (Z.of_nat (Pos.size_nat p) - 1))%Z by lia.
    assert (0 < Pos.size_nat p) by (destruct p; cbn; lia). rewrite Z.pow_succ_r by lia. lia.
  - cbn. lia.
Qed.
Lemma bit_length_width hi : (0 < hi)%Z -> width hi (bit_length hi).
Proof. destruct hi as [|p|p]; try lia. intros _. apply size_width. Qed.
Lemma bit_length_pos hi : (0 < hi)%Z -> 0 < bit_length hi.
Proof. destruct hi as [|p|p]; try lia. intros _. destruct p; cbn; lia. Qed.

Definition num (l : list Z) : Z := fold_right (fun b a => (2 * a + b)%Z) 0%Z l.
Definition is_bit (b : Z) : Prop := b = 0%Z \/ b = 1%Z.
Lemma bit_is_bit x i : is_bit (bit x i).
Proof. unfold bit, is_bit. destruct (Z.testbit _ _); auto. Qed.
Lemma bin_val_bits : forall l acc, Forall is_bit l ->
  bin_val acc (join "" (map str_Z l)) = Some (fold_left (fun a b => (2 * a + b)%Z) l acc).
Proof.
  induction l as [|b l IH]; intros acc F; [reflexivity|]. cbn [map]. rewrite join_cons.
  pose proof (Forall_inv F) as B. apply Forall_inv_tail in F.
  destruct B as [-> | ->].
  - change (str_Z 0) with "0". cbn [append bin_val]. rewrite (proj2 (Ascii.eqb_eq _ _) eq_refl).
    rewrite (IH _ F). cbn [fold_left]. f_equal. f_equal. lia.
  - change (str_Z 1) with "1". cbn [append bin_val].
    replace (Ascii.eqb "1" "0") with false by reflexivity. replace (Ascii.eqb "1" "1") with true by reflexivity.
    rewrite (IH _ F). reflexivity.
Qed.
Lemma py_int2_bits l : Forall is_bit l -> l <> [] ->
  py_int2 (join "" (map str_Z l)) = Some (fold_left (fun a b => (2 * a + b)%Z) l 0%Z).
Proof.
  intros F N. rewrite <- (bin_val_bits l 0%Z F). destruct l as [|b l]; [congruence|].
  pose proof (Forall_inv F) as B. cbn [map]. rewrite join_cons.
  destruct B as [-> | ->]; [change (str_Z 0) with "0"|change (str_Z 1) with "1"]; cbn [append py_int2].
  - replace (Ascii.eqb "0" "-") with false by reflexivity. reflexivity.
  - replace (Ascii.eqb "1" "-") with false by reflexivity. reflexivity.
Qed.
Lemma py_int2_rev l : Forall is_bit l -> l <> [] -> py_int2 (join "" (map str_Z (rev l))) = Some (num l).
Proof.
  intros F N. rewrite py_int2_bits.
  - rewrite <- (fold_left_rev_right (fun b a => (2 * a + b)%Z)), rev_involutive. reflexivity.
  - apply Forall_rev. exact F.
  - intro E. apply N. rewrite <- (rev_involutive l), E. reflexivity.
Qed.
Lemma bit_S x i : bit x (S i) = bit (x / 2) i.
Proof.
  unfold bit. rewrite Nat2Z.inj_succ. rewrite Z.div2_bits by lia. reflexivity.
Qed.
Lemma num_bits : forall w x, num (map (bit x) (List.seq 0 w)) = (x mod 2 ^ Z.of_nat w)%Z.
Proof.
  induction w as [|w IH]; intro x; [cbn; symmetry; apply Z.mod_1_r|].
  cbn [List.seq map num fold_right]. rewrite <- seq_shift, map_map.
  rewrite (map_ext (fun i => bit x (S i)) (bit (x / 2)) (bit_S x)).
  fold (num (map (bit (x / 2)) (List.seq 0 w))). rewrite IH, Nat2Z.inj_succ, Z.pow_succ_r by lia.
  rewrite Z.rem_mul_r by (try lia; apply Z.pow_pos_nonneg; lia).
  replace (bit x 0) with (x mod 2)%Z; [lia|]. unfold bit. rewrite <- Z.bit0_mod. change (Z.of_nat 0) with 0%Z. destruct (Z.testbit x 0); reflexivity.
Qed.

(** ** Decoding *)
Lemma mapr_lookup st f : forall l, (forall n : nat, In n l -> lookup (f n) st <> None) ->
  mapr (fun n => of_opt "KeyError" (lookup n st)) (map f l) = Ok (map (fun n => match lookup (f n) st with Some b => b | None => 0%Z end) l).
Proof.
  induction l as [|n l IH]; intro H; [reflexivity|]. cbn [map mapr].
  destruct (lookup (f n) st) eqn:E; [|exfalso; apply (H n); [left; reflexivity|exact E]].
  cbn [of_opt bind]. rewrite IH by (intros; apply H; right; assumption). reflexivity.
Qed.
Lemma decode_var_ok st kd x : encodes st kd x -> decode_var st kd = Ok (fst kd, x).
Proof.
  destruct kd as [k [|lo hi|l]]; unfold encodes, decode_var; cbn [fst snd].
  - intros ->. reflexivity.
  - intros (X & P & F & R). unfold bit_names.
    pose proof (bit_length_width hi P) as W. pose proof (bit_length_pos hi P) as LP.
    assert (B : (x < 2 ^ Z.of_nat (bit_length hi))%Z) by (unfold width in W; lia).
    destruct (bit_length hi) as [|w] eqn:E; [lia|]. cbn [List.seq map].
    fold (first_bit_name k lo hi) in F.
    cbn [bind mapr]. rewrite F. cbn [of_opt bind].
    assert (L : forall n, In n (List.seq 1 w) -> lookup (bit_name k n) st = Some (bit x n)).
    { intros n I. apply in_seq in I. apply (R (S w) n W). lia. }
    rewrite mapr_lookup by (intros n I; rewrite (L n I); discriminate). cbn [bind].
    rewrite (map_ext_in _ (bit x)) by (intros n I; rewrite (L n I); reflexivity).
    change (bit x 0 :: map (bit x) (List.seq 1 w)) with (map (bit x) (List.seq 0 (S w))).
    rewrite py_int2_rev.
    + cbn [of_opt bind]. rewrite num_bits, Z.mod_small by lia. reflexivity.
    + apply Forall_forall. intros b I. apply in_map_iff in I. destruct I as (n & <- & _). apply bit_is_bit.
    + discriminate.
  - contradiction.
Qed.
(** The main law: whatever else the state holds, every encoded valuation is read back. *)
Theorem bitfields_decode st vrs (val : string -> Z) :
  (forall kd, In kd vrs -> encodes st kd (val (fst kd))) ->
  bitfields_to_ints st vrs = Ok (map (fun kd => (fst kd, val (fst kd))) vrs).
Proof.
  unfold bitfields_to_ints. induction vrs as [|kd vrs IH]; intro H; [reflexivity|]. cbn [mapr map].
  rewrite (decode_var_ok st kd (val (fst kd))) by (apply H; left; reflexivity). cbn [bind].
  rewrite IH by (intros; apply H; right; assumption). reflexivity.
Qed.

(** A writer of bit fields, for names without the character that separates the number of the bit. *)
Definition enc_var (val : string -> Z) (kd : string * sdom) : bits :=
  match snd kd with
  | SBool => [(fst kd, val (fst kd))]
  | SPair lo hi =>
      (fst kd ++ "@0." ++ str_Z lo ++ "." ++ str_Z hi, bit (val (fst kd)) 0)%string ::
      map (fun i => (fst kd ++ "@" ++ str_nat i, bit (val (fst kd)) i)%string) (List.seq 1 (Z.to_nat (Z.log2 hi)))
  | SList _ => []
  end.
Definition encode (val : string -> Z) (vrs : svars) : bits := flat_map (enc_var val) vrs.
Fixpoint base (s : string) : string :=
  match s with EmptyString => EmptyString | String c r => if Ascii.eqb c "@" then EmptyString else String c (base r) end.
Definition plain_name (s : string) : Prop := ~ In "@"%char (list_ascii_of_string s).
Lemma base_at : forall k r, plain_name k -> base (k ++ String "@" r)%string = k.
Proof.
  induction k as [|c k IH]; intros r P; [reflexivity|]. cbn [append base].
  destruct (Ascii.eqb c "@") eqn:E.
  - apply Ascii.eqb_eq in E. subst. exfalso. apply P. left. reflexivity.
  - f_equal. apply IH. intro I. apply P. right. exact I.
Qed.
Lemma base_plain : forall k, plain_name k -> base k = k.
Proof.
  induction k as [|c k IH]; intros P; [reflexivity|]. cbn [base].
  destruct (Ascii.eqb c "@") eqn:E.
  - apply Ascii.eqb_eq in E. subst. exfalso. apply P. left. reflexivity.
  - f_equal. apply IH. intro I. apply P. right. exact I.
Qed.
Lemma lookup_app {A} n (a b : list (string * A)) :
  lookup n (a ++ b) = match lookup n a with Some v => Some v | None => lookup n b end.
Proof. induction a as [|[k v] a IH]; cbn [app lookup]; [reflexivity|]. destruct (String.eqb n k); auto. Qed.
Lemma lookup_none {A} n (a : list (string * A)) : ~ In n (map fst a) -> lookup n a = None.
Proof.
  induction a as [|[k v] a IH]; cbn [map fst lookup]; [reflexivity|]. intro H.
  destruct (String.eqb n k) eqn:E; [apply String.eqb_eq in E; subst; exfalso; apply H; left; reflexivity|].
  apply IH. intro I. apply H. right. exact I.
Qed.
Lemma enc_base val kd n : plain_name (fst kd) -> In n (map fst (enc_var val kd)) -> base n = fst kd.
Proof.
  intros P. destruct kd as [k [|lo hi|l]]; unfold enc_var; cbn [fst snd map].
  - intros [<- | []]. apply base_plain, P.
  - intros [<- | I].
    + apply base_at, P.
    + rewrite map_map in I. apply in_map_iff in I. destruct I as (i & <- & _). apply base_at, P.
  - intros [].
Qed.
Lemma lookup_encode val : forall vrs, NoDup (map fst vrs) -> (forall kd, In kd vrs -> plain_name (fst kd)) ->
  forall kd n, In kd vrs -> base n = fst kd -> lookup n (encode val vrs) = lookup n (enc_var val kd).
Proof.
  induction vrs as [|kd' vrs IH]; intros N P kd n I B; [destruct I|].
  cbn [encode flat_map]. fold (encode val vrs). rewrite lookup_app.
  cbn [map] in N. apply NoDup_cons_iff in N. destruct N as [N1 N2].
  destruct I as [-> | I].
  - destruct (lookup n (enc_var val kd)) eqn:E; [reflexivity|]. apply lookup_none. intro J.
    unfold encode in J. rewrite in_map_iff in J. destruct J as ([n' v] & <- & J). apply in_flat_map in J. destruct J as (kd'' & J1 & J2).
    apply (in_map fst) in J2. apply enc_base in J2; [|apply P; right; exact J1]. cbn [fst] in *.
    apply N1. rewrite <- B, J2. apply in_map. exact J1.
  - rewrite (lookup_none n (enc_var val kd')).
    + apply IH; auto. intros; apply P; right; assumption.
    + intro J. apply enc_base in J; [|apply P; left; reflexivity]. apply N1. rewrite <- J, B. apply in_map. exact I.
Qed.
Lemma append_inj_l : forall a b c, (a ++ b)%string = (a ++ c)%string -> b = c.
Proof. induction a as [|x a IH]; intros b c H; [exact H|]. cbn in H. injection H as H. apply IH, H. Qed.
Lemma str_nat_no_dot i : ~ In "."%char (list_ascii_of_string (str_nat i)).
Proof.
  intro I. pose proof (str_nat_numeral i) as H. unfold numeral in H. destruct (str_nat i) as [|c r]; [discriminate|].
  assert (F : forallb M_Lexer.digit (list_ascii_of_string (String c r)) = true) by exact H.
  rewrite forallb_forall in F. apply F in I. discriminate.
Qed.
Lemma lookup_bits k x : forall l i, NoDup l -> In i l ->
  lookup (k ++ "@" ++ str_nat i)%string (map (fun i => (k ++ "@" ++ str_nat i, bit x i)%string) l) = Some (bit x i).
Proof.
  induction l as [|j l IH]; intros i N I; [destruct I|]. cbn [map lookup].
  destruct (String.eqb _ _) eqn:E.
  - apply String.eqb_eq in E. apply append_inj_l in E. apply append_inj_l in E. apply str_nat_inj in E. subst. reflexivity.
  - destruct I as [-> | I]; [rewrite String.eqb_refl in E; discriminate|]. inversion N; subst. apply IH; auto.
Qed.
Definition fits (kd : string * sdom) (x : Z) : Prop :=
  match snd kd with SBool => True | SPair lo hi => (0 < hi)%Z /\ (0 <= x <= hi)%Z | SList _ => False end.
Lemma encode_encodes val vrs : NoDup (map fst vrs) -> (forall kd, In kd vrs -> plain_name (fst kd)) ->
  forall kd, In kd vrs -> fits kd (val (fst kd)) -> encodes (encode val vrs) kd (val (fst kd)).
Proof.
  intros N P kd I F. pose proof (P kd I) as Pk.
  destruct kd as [k [|lo hi|l]] eqn:K; unfold encodes, fits in *; cbn [fst snd] in *.
  - rewrite (lookup_encode val vrs N P (k, SBool) k I) by (apply base_plain, Pk).
    unfold enc_var. cbn [fst snd lookup]. rewrite String.eqb_refl. reflexivity.
  - destruct F as [F1 F2]. repeat split; try lia.
    + rewrite (lookup_encode val vrs N P (k, SPair lo hi) _ I) by (apply base_at, Pk).
      unfold enc_var. cbn [fst snd lookup]. rewrite String.eqb_refl. reflexivity.
    + intros w i W R. rewrite (lookup_encode val vrs N P (k, SPair lo hi) _ I) by (apply base_at, Pk).
      unfold enc_var. cbn [fst snd lookup].
      destruct (String.eqb _ _) eqn:E.
      * apply String.eqb_eq in E. apply append_inj_l in E.
        exfalso. apply (str_nat_no_dot i). change ("@" ++ str_nat i)%string with (String "@" (str_nat i)) in E.
        change ("@0." ++ str_Z lo ++ "." ++ str_Z hi)%string with (String "@" (String "0" (String "." (str_Z lo ++ "." ++ str_Z hi)%string))) in E.
        injection E as E. rewrite E. right. left. reflexivity.
      * apply lookup_bits; [apply seq_NoDup|]. apply in_seq.
        assert (L : Z.log2 hi = (Z.of_nat w - 1)%Z).
        { apply Z.log2_unique; [lia|]. unfold width in W. replace (Z.succ (Z.of_nat w - 1)) with (Z.of_nat w) by lia. exact W. }
        rewrite L. lia.
  - contradiction.
Qed.
(** Encoding a valuation and decoding it gives the valuation. *)
Theorem bitfields_round_trip val vrs :
  NoDup (map fst vrs) -> (forall kd, In kd vrs -> plain_name (fst kd) /\ fits kd (val (fst kd))) ->
  bitfields_to_ints (encode val vrs) vrs = Ok (map (fun kd => (fst kd, val (fst kd))) vrs).
Proof.
  intros N H. apply bitfields_decode. intros kd I. apply encode_encodes; auto.
  - intros kd' I'. apply H, I'.
  - apply H, I.
Qed.

(** Values between the upper bound and the next power of two are decoded too, and no state of bits
    is decoded to a negative integer. *)
Lemma lookup_mapr (st : bits) : forall ns vs, mapr (fun n => of_opt "KeyError" (lookup n st)) ns = Ok vs ->
  List.length vs = List.length ns /\ forall b, In b vs -> exists n, lookup n st = Some b.
Proof.
  induction ns as [|n ns IH]; intros vs H; cbn [mapr] in H.
  - injection H as <-. split; [reflexivity|]. intros b [].
  - destruct (lookup n st) as [b|] eqn:E; cbn [of_opt bind] in H; [|discriminate].
    destruct (mapr _ ns) as [vs'|] eqn:M; cbn [bind] in H; [|discriminate]. injection H as <-.
    destruct (IH vs' eq_refl) as [L I]. split; [cbn [List.length]; congruence|].
    intros b' [<- | J]; [exists n; exact E|apply I, J].
Qed.
Lemma num_range l : Forall is_bit l -> (0 <= num l < 2 ^ Z.of_nat (List.length l))%Z.
Proof.
  induction l as [|b l IH]; intro F; [cbn; lia|]. pose proof (Forall_inv F) as B. apply Forall_inv_tail in F. specialize (IH F).
  cbn [num fold_right List.length]. fold (num l). rewrite Nat2Z.inj_succ, Z.pow_succ_r by lia. destruct B as [-> | ->]; lia.
Qed.
Theorem decoded_range st k lo hi x w :
  (forall n b, lookup n st = Some b -> b = 0%Z \/ b = 1%Z) -> (0 < hi)%Z -> width hi w ->
  decode_var st (k, SPair lo hi) = Ok (k, x) -> (0 <= x < 2 ^ Z.of_nat w)%Z.
Proof.
  intros B P W D. unfold decode_var in D. cbn [fst snd] in D. unfold bit_names in D.
  pose proof (bit_length_width hi P) as W'.
  assert (E : bit_length hi = w).
  { assert (A : forall v, width hi v -> Z.log2 hi = (Z.of_nat v - 1)%Z).
    { intros v V. apply Z.log2_unique; unfold width in V.
      - destruct v; [cbn in V; lia|lia].
      - replace (Z.succ (Z.of_nat v - 1)) with (Z.of_nat v) by lia. exact V. }
    pose proof (A _ W). pose proof (A _ W'). lia. }
  rewrite E in D. destruct w as [|w]; [discriminate|]. cbn [List.seq map bind] in D.
  destruct (mapr _ _) as [vs|] eqn:M in D; cbn [bind] in D; [|discriminate].
  apply lookup_mapr in M. destruct M as [L I]. cbn [List.length] in L. rewrite map_length, seq_length in L.
  assert (F : Forall is_bit vs). { apply Forall_forall. intros b J. destruct (I b J) as [n N]. apply (B n b N). }
  rewrite py_int2_rev in D; [|exact F|intros ->; discriminate].
  cbn [of_opt bind] in D. injection D as <-. rewrite <- L. apply num_range, F.
Qed.

(** *** Where the claim fails *)
(** A domain with upper bound zero has no bit, although its only value is 0. *)
Theorem bitfields_zero_refuted : exists st, bitfields_to_ints st [("x", SPair 0 0)] = Err "IndexError" /\
  forall st', bitfields_to_ints st' [("x", SPair 0 0)] <> Ok [("x", 0%Z)].
Proof. exists []. split; [reflexivity|]. intro st'. discriminate. Qed.
(** No bits stand for a negative value of a domain. *)
Theorem bitfields_negative_refuted :
  forall st, (forall n b, lookup n st = Some b -> b = 0%Z \/ b = 1%Z) ->
  bitfields_to_ints st [("x", SPair (-2) 3)] <> Ok [("x", (-1)%Z)].
Proof.
  intros st B H. unfold bitfields_to_ints in H. cbn [mapr] in H.
  destruct (decode_var st ("x", SPair (-2) 3)) as [[k x]|] eqn:D; cbn [bind] in H; [|discriminate].
  injection H as -> ->. apply (decoded_range st _ (-2) 3 _ 2 B ltac:(lia)) in D; [lia|]. unfold width. cbn. lia.
Qed.
(** A tool that stores the distance to the lower bound is misread: the lower bound is not added.  The
    value 5 of the domain 4..7, stored as 1 with the two bits that four values need, has not enough
    bits; stored as 1 with three bits, it is read as 1. *)
Theorem bitfields_offset_refuted :
  bitfields_to_ints [("x@0.4.7", 1%Z); ("x@1", 0%Z)] [("x", SPair 4 7)] = Err "KeyError" /\
  bitfields_to_ints [("x@0.4.7", 1%Z); ("x@1", 0%Z); ("x@2", 0%Z)] [("x", SPair 4 7)] = Ok [("x", 1%Z)].
Proof. split; vm_compute; reflexivity. Qed.
(** Domains of strings, which the printed specification encodes as integers, are not decoded. *)
Theorem bitfields_strings_refuted : forall st l, 2 <= List.length l ->
  bitfields_to_ints st [("x", SList l)] = Err "AttributeError".
Proof. intros st [|a [|b l]]; cbn [List.length]; intro H; try lia. reflexivity. Qed.

Example bitfields_example : exists val vrs, NoDup (map fst vrs) /\
  (forall kd, In kd vrs -> plain_name (fst kd) /\ fits kd (val (fst kd))) /\
  encode val vrs = [("x@0.0.9", 0%Z); ("x@1", 1%Z); ("x@2", 1%Z); ("x@3", 0%Z); ("b", 1%Z)].
Proof.
  exists (fun k => if String.eqb k "x" then 6%Z else 1%Z), [("x", SPair 0 9); ("b", SBool)].
  split; [|split].
  - repeat constructor; cbn; intuition discriminate.
  - intros kd [<- | [<- | []]]; split; try (intro I; cbn in I; intuition discriminate); cbn; intuition lia.
  - vm_compute. reflexivity.
Qed.

(** ** Reading a whole strategy *)
Fixpoint get {S} (u : Z) (l : list (Z * S)) : option S :=
  match l with [] => None | (v, s) :: r => if Z.eqb u v then Some s else get u r end.
Lemma get_In {S} u (l : list (Z * S)) s : get u l = Some s -> In (u, s) l.
Proof.
  induction l as [|[v t] l IH]; cbn [get]; [discriminate|]. destruct (Z.eqb u v) eqn:E.
  - intros [= ->]. apply Z.eqb_eq in E. subst. left. reflexivity.
  - intro H. right. apply IH, H.
Qed.
Lemma In_get {S} u (l : list (Z * S)) s : NoDup (map fst l) -> In (u, s) l -> get u l = Some s.
Proof.
  induction l as [|[v t] l IH]; intros N I; [destruct I|]. cbn [map fst] in N. apply NoDup_cons_iff in N. destruct N as [N1 N2]. cbn [get].
  destruct I as [[= -> ->] | I]; [rewrite Z.eqb_refl; reflexivity|]. destruct (Z.eqb u v) eqn:E; [|apply IH; auto].
  apply Z.eqb_eq in E. subst. exfalso. apply N1. change v with (fst (v, s)). apply in_map, I.
Qed.
Lemma get_put {S} u (s : option S) v l : get v (put_node u s l) =
  if Z.eqb v u then match s with Some _ => Some s | None => match get u l with Some t => Some t | None => Some None end end else get v l.
Proof.
  induction l as [|[w t] l IH]; cbn [put_node get].
  - destruct (Z.eqb v u); [destruct s; reflexivity|reflexivity].
  - destruct (Z.eqb u w) eqn:E; cbn [get].
    + apply Z.eqb_eq in E. subst w. destruct (Z.eqb v u) eqn:F; [|reflexivity]. destruct s; reflexivity.
    + rewrite IH. destruct (Z.eqb v w) eqn:F; [|reflexivity].
      apply Z.eqb_eq in F. subst w. destruct (Z.eqb v u) eqn:G; [|reflexivity]. apply Z.eqb_eq in G. subst. rewrite Z.eqb_refl in E. discriminate.
Qed.
Lemma get_put_None {S} u v (l : list (Z * option S)) :
  get v (put_node u None l) = match get v l with Some t => Some t | None => if Z.eqb v u then Some None else None end.
Proof.
  rewrite get_put. destruct (Z.eqb v u) eqn:E; [|destruct (get v l); reflexivity].
  apply Z.eqb_eq in E. subst. destruct (get u l); reflexivity.
Qed.
Lemma put_keys {S} u (s : option S) v l : In v (map fst (put_node u s l)) <-> v = u \/ In v (map fst l).
Proof.
  induction l as [|[w t] l IH]; cbn [put_node map fst In].
  - intuition.
  - destruct (Z.eqb u w) eqn:E; cbn [map fst In].
    + apply Z.eqb_eq in E. subst w. intuition.
    + rewrite IH. tauto.
Qed.
Lemma put_NoDup {S} u (s : option S) l : NoDup (map fst l) -> NoDup (map fst (put_node u s l)).
Proof.
  induction l as [|[w t] l IH]; cbn [put_node map fst]; intro N; [repeat constructor; intros []|].
  destruct (Z.eqb u w) eqn:E; cbn [map fst]; [exact N|]. apply NoDup_cons_iff in N. destruct N as [N1 N2]. constructor; [|apply IH, N2].
  rewrite put_keys. intros [-> | I]; [rewrite Z.eqb_refl in E; discriminate|contradiction].
Qed.
Lemma zz_eqb_eq a b : zz_eqb a b = true <-> a = b.
Proof. destruct a, b. unfold zz_eqb. cbn [fst snd]. rewrite andb_true_iff, !Z.eqb_eq. split; [intros [-> ->]; reflexivity|intros [= -> ->]; auto]. Qed.
Lemma add_edge_edges {S} (g : dgraph S) e : (NoDup (d_edges g) -> NoDup (d_edges (add_edge g e))) /\
  forall f, In f (d_edges (add_edge g e)) <-> f = e \/ In f (d_edges g).
Proof.
  unfold add_edge. cbn [d_edges]. destruct (existsb (zz_eqb e) (d_edges g)) eqn:E.
  - apply existsb_exists in E. destruct E as (x & I & X). apply zz_eqb_eq in X. subst x. split; [auto|]. intro f. intuition. subst. exact I.
  - assert (N : ~ In e (d_edges g)). { intro I. assert (existsb (zz_eqb e) (d_edges g) = true); [|congruence]. apply existsb_exists. exists e. split; [exact I|apply zz_eqb_eq; reflexivity]. }
    split.
    + intro D. apply L_Tree.NoDup_app_iff. split; [exact D|]. split; [repeat constructor; intros []|]. intros x I [-> | []]. contradiction.
    + intro f. rewrite in_app_iff. cbn. intuition.
Qed.
Lemma add_edges_edges {S} : forall es (g : dgraph S), (NoDup (d_edges g) -> NoDup (d_edges (fold_left add_edge es g))) /\
  forall f, In f (d_edges (fold_left add_edge es g)) <-> In f es \/ In f (d_edges g).
Proof.
  induction es as [|e es IH]; intro g; cbn [fold_left]; [split; [auto|intro f; cbn; tauto]|].
  destruct (IH (add_edge g e)) as [A B]. destruct (add_edge_edges g e) as [C D]. split; [auto|].
  intro f. rewrite B, D. cbn. intuition.
Qed.
Lemma add_edges_NoDup {S} : forall es (g : dgraph S), NoDup (map fst (d_nodes g)) -> NoDup (map fst (d_nodes (fold_left add_edge es g))).
Proof.
  induction es as [|e es IH]; intros g N; [exact N|]. cbn [fold_left]. apply IH. unfold add_edge. cbn [d_nodes]. apply put_NoDup, put_NoDup, N.
Qed.
Lemma add_edges_get {S} : forall es (g : dgraph S) v, get v (d_nodes (fold_left add_edge es g)) =
  match get v (d_nodes g) with
  | Some t => Some t
  | None => if existsb (fun e => Z.eqb v (fst e) || Z.eqb v (snd e)) es then Some None else None
  end.
Proof.
  induction es as [|e es IH]; intros g v; cbn [fold_left existsb]; [destruct (get v (d_nodes g)); reflexivity|].
  rewrite IH. unfold add_edge. cbn [d_nodes]. rewrite !get_put_None.
  destruct (get v (d_nodes g)); [reflexivity|]. destruct (Z.eqb v (fst e)), (Z.eqb v (snd e)); reflexivity.
Qed.

Lemma existsb_pairs u v l : Z.eqb v u = false ->
  existsb (fun e : Z * Z => Z.eqb v (fst e) || Z.eqb v (snd e)) (map (fun w => (u, w)) l) = existsb (Z.eqb v) l.
Proof. intro V. induction l as [|w r IHr]; [reflexivity|]. cbn [map existsb fst snd]. rewrite V, IHr. reflexivity. Qed.
(** The variables that are decoded: those of the environment, and those of the system that are not
    variables of the environment too. *)
Lemma dict_set_NoDup {A} k (v : A) d : NoDup (map fst d) -> NoDup (map fst (dict_set k v d)).
Proof.
  induction d as [|(k' & v') r IH]; intro D; cbn [dict_set map fst]; [repeat constructor; intros []|].
  cbn [map fst] in D. inversion D as [|? ? D1 D2]; subst. destruct (String.eqb_spec k k') as [-> |Q]; cbn [map fst]; constructor; auto.
  intro I. apply D1. clear - I Q. induction r as [|(a & b) r IHr]; cbn in I; [destruct I as [I|[]]; congruence|].
  destruct (String.eqb_spec k a) as [-> |W]; cbn in I |- *; [destruct I; auto|]. destruct I as [I|I]; auto.
Qed.
Lemma dict_set_In {A} k (v : A) d : NoDup (map fst d) -> forall k' v', In (k', v') (dict_set k v d) <->
  (k' = k /\ v' = v) \/ (k' <> k /\ In (k', v') d).
Proof.
  induction d as [|(a & b) r IH]; intros D k' v'.
  - cbn. split; [intros [H|[]]; injection H as <- <-; auto|]. intros [[-> ->]|[_ []]]. auto.
  - cbn [map fst] in D. inversion D as [|? ? D1 D2]; subst. cbn [dict_set]. destruct (String.eqb_spec k a) as [-> |Q].
    + cbn [In]. split.
      * intros [H|I]; [injection H as <- <-; auto|]. right. split; [|auto]. intros ->. apply D1. apply in_map_iff. exists (a, v'). auto.
      * intros [[-> ->]|(N & [H|I])]; [auto|congruence|auto].
    + cbn [In]. rewrite (IH D2). split.
      * intros [H|[H|[H I]]]; [injection H as <- <-; right; split; [congruence|auto]|auto|auto].
      * intros [H|(N & [H|I])]; auto.
Qed.
Lemma dict_fold_In {A} (l : list (string * A)) : forall d, NoDup (map fst d) -> NoDup (map fst l) ->
  NoDup (map fst (fold_left (fun d kv => dict_set (fst kv) (snd kv) d) l d)) /\
  forall k v, In (k, v) (fold_left (fun d kv => dict_set (fst kv) (snd kv) d) l d) <-> In (k, v) l \/ (In (k, v) d /\ ~ In k (map fst l)).
Proof.
  induction l as [|(a & b) l IH]; intros d D L; cbn [fold_left fst snd map].
  - split; [exact D|]. intros k v. cbn. tauto.
  - cbn [map fst] in L. inversion L as [|? ? L1 L2]; subst. destruct (IH (dict_set a b d) (dict_set_NoDup a b d D) L2) as [I1 I2].
    split; [exact I1|]. intros k v. rewrite I2, (dict_set_In a b d D). cbn [In]. split.
    + intros [I|([[-> ->]|[N I]] & F)]; [auto|auto|]. right. split; [exact I|]. intros [H|H]; [congruence|auto].
    + intros [[H|I]|(I & F)]; [injection H as <- <-; right; split; [auto|exact L1]|auto|]. right. split; [right; split; [intros ->; apply F; auto|exact I]|]. intro H. apply F. auto.
Qed.
Theorem all_vars_spec sys env : NoDup (map fst sys) -> NoDup (map fst env) -> NoDup (map fst (all_vars sys env)) /\
  forall k d, In (k, d) (all_vars sys env) <-> In (k, d) env \/ (In (k, d) sys /\ ~ In k (map fst env)).
Proof.
  intros S E. destruct (dict_fold_In sys [] ltac:(constructor) S) as [A1 A2]. destruct (dict_fold_In env (dict_of sys) A1 E) as [B1 B2].
  split; [exact B1|]. intros k d. unfold all_vars. rewrite B2. unfold dict_of. rewrite A2. cbn. tauto.
Qed.
(** What a document describes: its nodes by number, with the valuation each one encodes. *)
Section Document.
Context (sys env : svars) (dvars : list string) (nodes : list jnode).
Context (idn : jnode -> Z) (val : Z -> string -> Z).
Hypothesis ids : forall d, In d nodes -> py_int (list_ascii_of_string (j_name d)) = Some (idn d).
Hypothesis distinct : NoDup (map idn nodes).
Hypothesis closed : forall d v, In d nodes -> In v (j_trans d) -> exists d', In d' nodes /\ idn d' = v.
Hypothesis coded : forall d kd, In d nodes -> In kd (all_vars sys env) ->
  encodes (dict_of (combine dvars (j_state d))) kd (val (idn d) (fst kd)).
Definition ints (u : Z) : bits := map (fun kd => (fst kd, val u (fst kd))) (all_vars sys env).

Definition loaded (P : list jnode) (g : dgraph bits) : Prop :=
  NoDup (map fst (d_nodes g)) /\ NoDup (d_edges g) /\
  (forall e, In e (d_edges g) <-> exists d, In d P /\ fst e = idn d /\ In (snd e) (j_trans d)) /\
  (forall d, In d P -> get (idn d) (d_nodes g) = Some (Some (dict_of (combine dvars (j_state d))))) /\
  (forall u s, get u (d_nodes g) = Some (Some s) -> exists d, In d P /\ u = idn d) /\
  (forall u, get u (d_nodes g) = Some None -> exists d, In d P /\ In u (j_trans d)).
Lemma load_nodes_ok : forall l P g, (forall d, In d l -> In d nodes) -> NoDup (map idn (P ++ l)) -> loaded P g ->
  exists g', load_nodes dvars g l = Ok g' /\ loaded (P ++ l) g'.
Proof.
  induction l as [|d l IH]; intros P g Hl Hn L.
  - exists g. rewrite app_nil_r. auto.
  - cbn [load_nodes]. unfold load_node. rewrite (ids d) by (apply Hl; left; reflexivity). cbn [of_opt bind].
    set (st := dict_of (combine dvars (j_state d))). set (u := idn d).
    set (g1 := fold_left add_edge _ _).
    replace (P ++ d :: l) with ((P ++ [d]) ++ l) in * by (rewrite <- app_assoc; reflexivity).
    apply IH; [intros; apply Hl; right; assumption|exact Hn|].
    destruct L as (L1 & L2 & L3 & L4 & L5 & L6).
    assert (U : ~ In u (map idn P)).
    { intro I. rewrite map_app, map_app in Hn. apply L_Tree.NoDup_app_iff in Hn. destruct Hn as (Hn & _). apply L_Tree.NoDup_app_iff in Hn.
      destruct Hn as (_ & _ & Hn). apply (Hn u I). left. reflexivity. }
    destruct (add_edges_edges (map (fun v => (u, v)) (j_trans d)) (add_node u (Some st) g)) as [E1 E2]. fold g1 in E1, E2.
    assert (G : forall v, get v (d_nodes g1) = if Z.eqb v u then Some (Some st) else
       match get v (d_nodes g) with Some t => Some t | None => if existsb (Z.eqb v) (j_trans d) then Some None else None end).
    { intro v. unfold g1. unfold bits in *. rewrite add_edges_get. unfold add_node. cbn [d_nodes]. rewrite get_put.
      destruct (Z.eqb v u) eqn:V; [reflexivity|]. destruct (get v (d_nodes g)); [reflexivity|].
      rewrite (existsb_pairs u v (j_trans d) V). reflexivity. }
    assert (K : forall v, existsb (Z.eqb v) (j_trans d) = true -> In v (j_trans d)).
    { intros v X. apply existsb_exists in X. destruct X as (w & I & X). apply Z.eqb_eq in X. subst. exact I. }
    split; [|split; [|split; [|split; [|split]]]].
    + apply add_edges_NoDup. unfold add_node. cbn [d_nodes]. apply put_NoDup, L1.
    + apply E1. exact L2.
    + intro e. rewrite E2. unfold add_node. cbn [d_edges]. rewrite L3. split.
      * intros [I | (d' & I & X)].
        -- apply in_map_iff in I. destruct I as (v & <- & I). exists d. split; [apply in_or_app; right; left; reflexivity|]. split; [reflexivity|exact I].
        -- exists d'. split; [apply in_or_app; left; exact I|exact X].
      * intros (d' & I & X1 & X2). apply in_app_or in I. destruct I as [I | [<- | []]].
        -- right. exists d'. auto.
        -- left. apply in_map_iff. exists (snd e). split; [|exact X2]. destruct e. cbn [fst snd] in *. subst. reflexivity.
    + intros d' I. rewrite G. apply in_app_or in I. destruct I as [I | [<- | []]].
      * destruct (Z.eqb (idn d') u) eqn:X.
        -- apply Z.eqb_eq in X. exfalso. apply U. rewrite <- X. apply in_map, I.
        -- rewrite (L4 d' I). reflexivity.
      * fold u. rewrite Z.eqb_refl. reflexivity.
    + intros v s. rewrite G. destruct (Z.eqb v u) eqn:X.
      * intros _. apply Z.eqb_eq in X. exists d. split; [apply in_or_app; right; left; reflexivity|exact X].
      * destruct (get v (d_nodes g)) as [t|] eqn:Y.
        -- intros [= ->]. destruct (L5 v s Y) as (d' & I & J). exists d'. split; [apply in_or_app; left; exact I|exact J].
        -- destruct (existsb _ _); discriminate.
    + intros v. rewrite G. destruct (Z.eqb v u) eqn:X; [discriminate|].
      destruct (get v (d_nodes g)) as [t|] eqn:Y.
      * intros [= ->]. destruct (L6 v Y) as (d' & I & J). exists d'. split; [apply in_or_app; left; exact I|exact J].
      * destruct (existsb _ _) eqn:Z; [|discriminate]. intros _. exists d. split; [apply in_or_app; right; left; reflexivity|apply K, Z].
Qed.
Lemma put_new {S} u (s : option S) l : ~ In u (map fst l) -> put_node u s l = l ++ [(u, s)].
Proof.
  induction l as [|[v t] l IH]; cbn [put_node map fst app]; intro N; [reflexivity|].
  destruct (Z.eqb u v) eqn:E; [apply Z.eqb_eq in E; subst; exfalso; apply N; left; reflexivity|]. rewrite IH; [reflexivity|]. intro I. apply N. right. exact I.
Qed.
Lemma decode_nodes_ok : forall l h, NoDup (map fst (d_nodes h ++ l)) -> d_edges h = [] ->
  (forall u s, In (u, s) l -> exists d, In d nodes /\ u = idn d /\ s = Some (dict_of (combine dvars (j_state d)))) ->
  decode_nodes (all_vars sys env) h l = Ok (DGraph (d_nodes h ++ map (fun n => (fst n, Some (ints (fst n)))) l) []).
Proof.
  induction l as [|[u s] l IH]; intros h N E H; cbn [decode_nodes map].
  - rewrite app_nil_r. destruct h as [hn he]. cbn in *. subst. reflexivity.
  - destruct (H u s (or_introl eq_refl)) as (d & I & U & ->). cbn [of_opt bind].
    rewrite (bitfields_decode _ _ (val (idn d))) by (intros kd K; apply coded; assumption). cbn [bind].
    assert (X : ~ In u (map fst (d_nodes h))).
    { rewrite map_app in N. apply L_Tree.NoDup_app_iff in N. destruct N as (_ & _ & N). intro J. apply (N u J). left. reflexivity. }
    unfold add_node. rewrite put_new by exact X. rewrite IH; cbn [d_nodes d_edges].
    + rewrite <- app_assoc. cbn [app fst]. subst u. reflexivity.
    + rewrite <- app_assoc. cbn [app]. rewrite !map_app in *. exact N.
    + exact E.
    + intros; apply H; right; assumption.
Qed.
Theorem read_strategy_graph : exists h, read_strategy sys env dvars nodes = Ok h /\
  NoDup (map fst (d_nodes h)) /\ NoDup (d_edges h) /\
  (forall u s, In (u, s) (d_nodes h) <-> exists d, In d nodes /\ u = idn d /\ s = Some (ints u)) /\
  (forall e, In e (d_edges h) <-> exists d, In d nodes /\ fst e = idn d /\ In (snd e) (j_trans d)).
Proof.
  unfold read_strategy.
  destruct (load_nodes_ok nodes [] (DGraph [] [])) as (g & -> & L1 & L2 & L3 & L4 & L5 & L6); [auto|exact distinct| |].
  { split; [constructor|]. split; [constructor|]. split; [intro e; split; [intros []|intros (d & [] & _)]|].
    split; [intros d []|]. split; intros u; cbn; discriminate. }
  cbn [app] in *. cbn [bind].
  assert (A : forall u s, In (u, s) (d_nodes g) -> exists d, In d nodes /\ u = idn d /\ s = Some (dict_of (combine dvars (j_state d)))).
  { intros u s I. apply (In_get _ _ _ L1) in I. destruct s as [s|].
    - destruct (L5 u s I) as (d & J & ->). exists d. rewrite (L4 d J) in I. split; [exact J|]. split; [reflexivity|]. congruence.
    - destruct (L6 u I) as (d & J & K). destruct (closed d u J K) as (d' & J' & <-). rewrite (L4 d' J') in I. discriminate. }
  pose proof (decode_nodes_ok (d_nodes g) (DGraph [] []) L1 eq_refl A) as D.
  cbn [d_nodes app] in D. match goal with |- context [bind ?x _] => replace x with (Ok (DGraph (map (fun n : Z * option bits => (fst n, Some (ints (fst n)))) (d_nodes g)) [])) by (symmetry; exact D) end.
  cbn [bind].
  set (ns := map (fun n : Z * option bits => (fst n, Some (ints (fst n)))) (d_nodes g)). eexists. split; [reflexivity|].
  assert (KN : map fst ns = map fst (d_nodes g)) by (unfold ns; rewrite map_map; reflexivity).
  destruct (add_edges_edges (edges_by_node g) (DGraph ns [])) as [E1 E2].
  assert (EB : forall e, In e (edges_by_node g) <-> In e (d_edges g)).
  { intro e. unfold edges_by_node. rewrite in_flat_map. split.
    - intros (n & _ & I). apply filter_In in I. apply I.
    - intro I. destruct (proj1 (L3 e) I) as (d & J & X & _). pose proof (get_In _ _ _ (L4 d J)) as Y.
      eexists. split; [exact Y|]. apply filter_In. split; [exact I|]. cbn [fst]. apply Z.eqb_eq, X. }
  assert (GN : forall u, In u (map fst (d_nodes g)) <-> exists d, In d nodes /\ u = idn d).
  { intro u. rewrite in_map_iff. split.
    - intros ([u' s] & <- & I). destruct (A u' s I) as (d & J & X & _). exists d. auto.
    - intros (d & J & ->). eexists. split; [|apply get_In, (L4 d J)]. reflexivity. }
  assert (NN : forall u, get u (d_nodes (fold_left add_edge (edges_by_node g) (DGraph ns []))) = get u ns).
  { intro u. rewrite add_edges_get. cbn [d_nodes]. destruct (get u ns) eqn:G; [reflexivity|].
    destruct (existsb _ _) eqn:X; [|reflexivity]. exfalso. apply existsb_exists in X. destruct X as (e & I & X).
    apply EB, L3 in I. destruct I as (d & J & X1 & X2).
    assert (Y : exists d', In d' nodes /\ u = idn d').
    { apply orb_true_iff in X. destruct X as [X | X]; apply Z.eqb_eq in X.
      - exists d. split; [exact J|congruence].
      - destruct (closed d (snd e) J X2) as (d' & J' & Y). exists d'. split; [exact J'|congruence]. }
    apply GN in Y. rewrite <- KN in Y. apply in_map_iff in Y. destruct Y as ([u' s] & Y1 & Y2). cbn [fst] in Y1. subst u'.
    rewrite (In_get u ns s) in G; [discriminate|rewrite KN; exact L1|exact Y2]. }
  assert (ND : NoDup (map fst (d_nodes (fold_left add_edge (edges_by_node g) (DGraph ns []))))).
  { apply add_edges_NoDup. cbn [d_nodes]. rewrite KN. exact L1. }
  split; [exact ND|]. split; [apply E1; constructor|]. split.
  - intros u s. split.
    + intro I. apply (In_get _ _ _ ND) in I. rewrite NN in I. apply get_In in I. unfold ns in I. apply in_map_iff in I.
      destruct I as ([u' t] & [= <- <-] & I). cbn [fst]. destruct (A u' t I) as (d & J & X & _). exists d. auto.
    + intros (d & J & -> & ->). apply get_In. rewrite NN. apply In_get; [rewrite KN; exact L1|].
      unfold ns. apply in_map_iff. eexists. split; [|apply get_In, (L4 d J)]. reflexivity.
  - intro e. rewrite E2, EB. cbn [d_edges]. rewrite L3. cbn. tauto.
Qed.
(** Every variable has its value in every node. *)
Theorem read_strategy_values : NoDup (map fst sys) -> NoDup (map fst env) -> exists h, read_strategy sys env dvars nodes = Ok h /\
  forall d, In d nodes -> exists s, In (idn d, Some s) (d_nodes h) /\
    forall k v, In (k, v) s <-> (In k (map fst sys) \/ In k (map fst env)) /\ v = val (idn d) k.
Proof.
  intros S E. destruct read_strategy_graph as (h & H & _ & _ & N & _). exists h. split; [exact H|]. intros d I. exists (ints (idn d)).
  split; [apply N; exists d; auto|]. intros k v. unfold ints. rewrite in_map_iff. destruct (all_vars_spec sys env S E) as [_ A]. split.
  - intros ((k' & t) & Q & J). cbn [fst] in Q. injection Q as <- <-. apply A in J. split; [|reflexivity].
    destruct J as [J|[J _]]; apply (in_map fst) in J; auto.
  - intros [K ->]. assert (J : exists t, In (k, t) (all_vars sys env)).
    { destruct (in_dec string_dec k (map fst env)) as [J|J].
      - apply in_map_iff in J. destruct J as ((k' & t) & <- & J). exists t. apply A. auto.
      - destruct K as [K|K]; [|contradiction]. apply in_map_iff in K. destruct K as ((k' & t) & <- & K). exists t. apply A. auto. }
    destruct J as (t & J). exists (k, t). auto.
Qed.
End Document.

Example read_strategy_example :
  read_strategy [("x", SPair 0 5)] [("b", SBool)] ["x@0.0.5"; "x@1"; "x@2"; "b"]
    [JNode "0" [1; 0; 1; 0]%Z [1]%Z; JNode "1" [0; 1; 0; 1]%Z [0; 1]%Z] =
  Ok (DGraph [(0, Some [("x", 5); ("b", 0)]); (1, Some [("x", 2); ("b", 1)])] [(0, 1); (1, 0); (1, 1)])%Z.
Proof. vm_compute. reflexivity. Qed.
Example document_example :
  let sys := [("x", SPair 0 5)] in let env := [("b", SBool)] in
  let dvars := ["x@0.0.5"; "x@1"; "x@2"; "b"] in
  let nodes := [JNode "0" [1; 0; 1; 0]%Z [1]%Z; JNode "1" [0; 1; 0; 1]%Z [0; 1]%Z] in
  let idn := fun d => match py_int (list_ascii_of_string (j_name d)) with Some u => u | None => 0%Z end in
  let val := fun (u : Z) k => if String.eqb k "b" then u else if Z.eqb u 0 then 5%Z else 2%Z in
  (forall d, In d nodes -> py_int (list_ascii_of_string (j_name d)) = Some (idn d)) /\ NoDup (map idn nodes) /\
  (forall d v, In d nodes -> In v (j_trans d) -> exists d', In d' nodes /\ idn d' = v) /\
  (forall d kd, In d nodes -> In kd (all_vars sys env) -> encodes (dict_of (combine dvars (j_state d))) kd (val (idn d) (fst kd))).
Proof.
  cbv zeta. split; [|split; [|split]].
  - intros d [<- | [<- | []]]; vm_compute; reflexivity.
  - vm_compute. repeat constructor; cbn; intuition discriminate.
  - intros d v [<- | [<- | []]] I; cbn in I; destruct I as [<- | I];
      [eexists; split; [right; left; reflexivity|reflexivity]|destruct I|eexists; split; [left; reflexivity|reflexivity]|].
    destruct I as [<- | []]. eexists. split; [right; left; reflexivity|reflexivity].
  - assert (D : forall d kd vl, dict_of (combine ["x@0.0.5"; "x@1"; "x@2"; "b"] (j_state d)) = encode vl [("x", SPair 0 5); ("b", SBool)] ->
      In kd [("x", SPair 0 5); ("b", SBool)] -> (0 <= vl "x" <= 5)%Z -> encodes (dict_of (combine ["x@0.0.5"; "x@1"; "x@2"; "b"] (j_state d))) kd (vl (fst kd))).
    { intros d kd vl -> I R. apply encode_encodes; [repeat constructor; cbn; intuition discriminate| |exact I|].
      - intros kd' [<- | [<- | []]] J; cbn in J; intuition discriminate.
      - destruct I as [<- | [<- | []]]; cbn; [split; lia|exact Logic.I]. }
    intros d kd [<- | [<- | []]] I.
    + apply (D _ kd (fun k => if String.eqb k "b" then 0%Z else 5%Z)); [vm_compute; reflexivity|exact I|cbn; lia].
    + apply (D _ kd (fun k => if String.eqb k "b" then 1%Z else 2%Z)); [vm_compute; reflexivity|exact I|cbn; lia].
Qed.
(** An edge to a node that the document does not list. *)
Theorem read_strategy_closed_refuted :
  read_strategy [("b", SBool)] [] ["b"] [JNode "0" [1]%Z [7]%Z] = Err "KeyError".
Proof. vm_compute. reflexivity. Qed.

Print Assumptions bitfields_decode.
Print Assumptions bitfields_round_trip.
Print Assumptions decoded_range.
Print Assumptions bitfields_zero_refuted.
Print Assumptions bitfields_negative_refuted.
Print Assumptions bitfields_offset_refuted.
Print Assumptions bitfields_strings_refuted.
Print Assumptions read_strategy_graph.
Print Assumptions read_strategy_closed_refuted.
Print Assumptions all_vars_spec.
Print Assumptions read_strategy_values.
