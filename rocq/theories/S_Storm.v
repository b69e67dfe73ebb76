(** What a text in the language of prism says (the part of the language with one module, one
    variable, guards that compare the variable with a number, and labels that are disjunctions of such
    comparisons), and when such a program is a given Markov chain or decision process.  Stated without
    the program that writes the texts. *)
From Coq Require Import List String Ascii Bool Arith ZArith QArith Qcanon Qabs.
From Verif Require Import M_Base M_Dict M_Graph M_Compose S_Compose.
Import ListNotations.
Open Scope list_scope.
Open Scope string_scope.

(** ** Reading *)
Inductive token := TId (s : string) | TNum (n : nat) | TDec (q : Qc) | TStr (s : string) | TSym (s : string).
Definition digit_of (c : ascii) : option Z :=
  let n := nat_of_ascii c in if (48 <=? n)%nat && (n <=? 57)%nat then Some (Z.of_nat n - 48)%Z else None.
Definition is_digit (c : ascii) : bool := match digit_of c with Some _ => true | None => false end.
Definition is_letter (c : ascii) : bool :=
  let n := nat_of_ascii c in
  ((65 <=? n)%nat && (n <=? 90)%nat) || ((97 <=? n)%nat && (n <=? 122)%nat) || (n =? 95)%nat.
Definition is_blank (c : ascii) : bool :=
  let n := nat_of_ascii c in (n =? 32)%nat || (n =? 10)%nat || (n =? 13)%nat || (n =? 9)%nat.
Definition single (c : ascii) : bool :=
  existsb (Ascii.eqb c) ["["; "]"; "("; ")"; ":"; ";"; "="; "'"; "+"; "|"; "<"; ">"; "&"; "!"; ","]%char.
(** The number written by digits, from the left. *)
Fixpoint digits_value (acc : Z) (s : string) : Z :=
  match s with
  | "" => acc
  | String c r => match digit_of c with Some d => digits_value (10 * acc + d) r | None => acc end
  end.
Fixpoint power10 (s : string) : positive := match s with "" => 1%positive | String _ r => (10 * power10 r)%positive end.
Definition decimal (a b : string) : Qc := Q2Qc (digits_value (digits_value 0 a) b # power10 b).

(** Where the reader is within a token; words are kept as they are read. *)
Inductive mode := Between | Word (s : string) | Number (s : string) | NumberDot (s : string)
  | Fraction (a b : string) | Quoted (s : string) | Minus.
Definition snoc (s : string) (c : ascii) : string := s ++ String c "".
(** A character at the start of a token: the mode after it and the token it is, if it is one. *)
Definition fresh (c : ascii) : option (mode * list token) :=
  if is_blank c then Some (Between, [])
  else if is_letter c then Some (Word (String c ""), [])
  else if is_digit c then Some (Number (String c ""), [])
  else if Ascii.eqb c """" then Some (Quoted "", [])
  else if Ascii.eqb c "-" then Some (Minus, [])
  else if single c then Some (Between, [TSym (String c "")])
  else None.
Definition emit (t : token) (x : option (mode * list token)) : option (mode * list token) :=
  match x with Some (m, l) => Some (m, t :: l) | None => None end.
Definition number (s : string) : token := TNum (Z.to_nat (digits_value 0 s)).
Definition next (m : mode) (c : ascii) : option (mode * list token) :=
  match m with
  | Between => fresh c
  | Word s => if is_letter c || is_digit c then Some (Word (snoc s c), []) else emit (TId s) (fresh c)
  | Number s => if is_digit c then Some (Number (snoc s c), [])
                else if Ascii.eqb c "." then Some (NumberDot s, [])
                else emit (number s) (fresh c)
  | NumberDot s => if is_digit c then Some (Fraction s (String c ""), [])
                   else if Ascii.eqb c "." then Some (Between, [number s; TSym ".."])
                   else None
  | Fraction a b => if is_digit c then Some (Fraction a (snoc b c), []) else emit (TDec (decimal a b)) (fresh c)
  | Quoted s => if Ascii.eqb c """" then Some (Between, [TStr s]) else Some (Quoted (snoc s c), [])
  | Minus => if Ascii.eqb c ">" then Some (Between, [TSym "->"]) else None
  end.
Fixpoint tokens (m : mode) (s : string) : option (list token) :=
  match s with
  | "" => match m with
          | Between => Some []
          | Word w => Some [TId w]
          | Number w => Some [number w]
          | Fraction a b => Some [TDec (decimal a b)]
          | _ => None
          end
  | String c r => match next m c with
                  | None => None
                  | Some (m', l) => match tokens m' r with Some l' => Some (l ++ l')%list | None => None end
                  end
  end.

(** A command [[act] x=guard -> p1 : (x'=v1) + ...]. *)
Record command := Command { cm_act : option string; cm_guard : nat; cm_updates : list (Qc * nat) }.
Record program := Program { pg_type : string; pg_low : nat; pg_high : nat; pg_init : nat;
                            pg_commands : list command; pg_labels : list (string * list nat) }.
Definition probability (t : token) : option Qc :=
  match t with TDec q => Some q | TNum n => Some (Q2Qc (inject_Z (Z.of_nat n))) | _ => None end.
Section Grammar.
  Variable x : string.
  Fixpoint updates (l : list token) : option (list (Qc * nat) * list token) :=
    match l with
    | p :: TSym ":" :: TSym "(" :: TId y :: TSym "'" :: TSym "=" :: TNum v :: TSym ")" :: r =>
        match probability p with
        | Some q =>
            if x =? y then
              match r with
              | TSym "+" :: r' => match updates r' with Some (us, r'') => Some ((q, v) :: us, r'') | None => None end
              | _ => Some ([(q, v)], r)
              end
            else None
        | None => None
        end
    | _ => None
    end.
  Definition guarded (act : option string) (l : list token) : option (command * list token) :=
    match l with
    | TId y :: TSym "=" :: TNum g :: TSym "->" :: r =>
        if x =? y then
          match updates r with
          | Some (us, TSym ";" :: r') => Some (Command act g us, r')
          | _ => None
          end
        else None
    | _ => None
    end.
  Definition one_command (l : list token) : option (command * list token) :=
    match l with
    | TSym "[" :: TSym "]" :: r => guarded None r
    | TSym "[" :: TId a :: TSym "]" :: r => guarded (Some a) r
    | _ => None
    end.
  Fixpoint commands (fuel : nat) (l : list token) : option (list command * list token) :=
    match l with
    | TId "endmodule" :: r => Some ([], r)
    | _ => match fuel with
           | O => None
           | S f => match one_command l with
                    | Some (c, r) => match commands f r with Some (cs, r') => Some (c :: cs, r') | None => None end
                    | None => None
                    end
           end
    end.
  Fixpoint disjunction (l : list token) : option (list nat * list token) :=
    match l with
    | TSym "(" :: TId y :: TSym "=" :: TNum v :: TSym ")" :: r =>
        if x =? y then
          match r with
          | TSym "|" :: r' => match disjunction r' with Some (vs, r'') => Some (v :: vs, r'') | None => None end
          | _ => Some ([v], r)
          end
        else None
    | _ => None
    end.
  Fixpoint labels (fuel : nat) (l : list token) : option (list (string * list nat)) :=
    match l with
    | [] => Some []
    | TId "label" :: TStr p :: TSym "=" :: r =>
        match fuel with
        | O => None
        | S f => match disjunction r with
                 | Some (vs, TSym ";" :: r') => match labels f r' with Some ls => Some ((p, vs) :: ls) | None => None end
                 | _ => None
                 end
        end
    | _ => None
    end.
End Grammar.
Definition parse (l : list token) : option program :=
  match l with
  | TId ty :: TId "module" :: TId _ :: TId x :: TSym ":" :: TSym "[" :: TNum lo :: TSym ".." :: TNum hi :: TSym "]"
    :: TId "init" :: TNum i :: TSym ";" :: r =>
      match commands x (List.length r) r with
      | Some (cs, r') => match labels x (List.length r') r' with
                         | Some ls => Some (Program ty lo hi i cs ls)
                         | None => None
                         end
      | None => None
      end
  | _ => None
  end.
(** The program that a text is; [None] if it is not one. *)
Definition prism_read (s : string) : option program := match tokens Between s with Some l => parse l | None => None end.

(** ** When a program is a given Markov model

    State [s] of the model is the value [i] of the variable if [s] is the [i]-th state; the action [a]
    is called [act] with its number.  Probabilities may differ by [eps]. *)
Section Describes.
  Context {N : Type} (neqb : N -> N -> bool).
  Variables (number_text : nat -> string) (m : model N).
  Let states := node_list (m_ts m).
  (** The transitions from [s] with action [a] ([VNone]: without action). *)
  Definition under (s : N) (a : val) : list (edge N val) :=
    filter (fun e => neqb (e_src e) s && val_eqb (value "action" e) a) (g_edges (m_ts m)).
  Definition action_text (a : val) (t : option string) : Prop :=
    match m_kind m with
    | MDP => exists k, nth_error (m_actions m) k = Some a /\ t = Some ("act" ++ number_text k)
    | _ => a = VNone /\ t = None
    end.
  Definition update_of (eps : Qc) (u : Qc * nat) (e : edge N val) : Prop :=
    nth_error states (snd u) = Some (e_dst e) /\
    exists q, value "probability" e = VNum q /\ (Qabs (this (fst u) - this q) <= this eps)%Q.
  Record describes (eps : Qc) (P : program) : Prop := {
    d_type : pg_type P = match m_kind m with MDP => "mdp" | _ => "dtmc" end;
    d_range : pg_low P = 0%nat /\ S (pg_high P) = List.length states;
    d_init : exists s0, g_init (m_ts m) = [s0] /\ nth_error states (pg_init P) = Some s0;
    (** Each command is the transitions of one state under one action, in their order ... *)
    d_sound : forall c, In c (pg_commands P) -> exists s a,
      nth_error states (cm_guard c) = Some s /\ action_text a (cm_act c) /\
      under s a <> [] /\ Forall2 (update_of eps) (cm_updates c) (under s a);
    (** ... every transition is in one ... *)
    d_complete : forall e, In e (g_edges (m_ts m)) -> exists c i,
      In c (pg_commands P) /\ nth_error states i = Some (e_src e) /\ cm_guard c = i /\
      action_text (value "action" e) (cm_act c);
    (** ... and in one only. *)
    d_once : NoDup (map (fun c => (cm_guard c, cm_act c)) (pg_commands P));
    d_labels : map fst (pg_labels P) = m_ap m /\
      forall p vs, In (p, vs) (pg_labels P) -> forall i,
        In i vs <-> exists s l, nth_error states i = Some s /\ state_label (m_ts m) s l /\ In p l }.

  (** Models that the program can write. *)
  Record good_markov : Prop := {
    gm_kind : m_kind m = MC \/ m_kind m = MDP;
    gm_states : NoDup states;
    gm_init : exists s0, g_init (m_ts m) = [s0] /\ In s0 states;
    gm_ends : forall e, In e (g_edges (m_ts m)) -> In (e_src e) states /\ In (e_dst e) states;
    gm_prob : forall e, In e (g_edges (m_ts m)) -> exists q, lookup "probability" (e_attr e) = Some (VNum q) /\ (0 <= q)%Qc;
    gm_action : forall e, In e (g_edges (m_ts m)) -> match m_kind m with
                  | MDP => exists a, lookup "action" (e_attr e) = Some a /\ In a (m_actions m)
                  | _ => lookup "action" (e_attr e) = None
                  end;
    gm_actions : NoDup (m_actions m) /\ ~ In VNone (m_actions m);
    gm_label : forall s a, In (s, a) (g_nodes (m_ts m)) -> exists l, lookup "ap" a = Some (VSet l);
    gm_ap : forall p, In p (m_ap m) -> ~ In """"%char (list_ascii_of_string p) /\
                exists s l, state_label (m_ts m) s l /\ In p l }.
  (** Probabilities that four decimals can write. *)
  Definition four_decimals : Prop :=
    forall e q, In e (g_edges (m_ts m)) -> lookup "probability" (e_attr e) = Some (VNum q) ->
      exists z, q = Q2Qc (z # 10000).
End Describes.
