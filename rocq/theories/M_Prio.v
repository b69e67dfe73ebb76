(** Model of tulip/spec/prioritized_safety.py: prioritized safety specifications.

    Simplifications.  An automaton is a value [fa] with its set of propositions [aps fa]; the
    argument [fa] is always an automaton.  A priority is an integer or a float, of which only the
    sign matters.  A loop over the specification is bounded by [fuel]. *)
From Coq Require Import List String Bool ZArith.
From Verif Require Import M_Base.
Import ListNotations.
Open Scope string_scope.
Open Scope list_scope.

Inductive priority := PInt (z : Z) | PFloat (positive : bool).
Section Prio.
  Context {F P : Type} (aps : F -> P) (peqb : P -> P -> bool) (no_aps : P).

  (** prioritized_safety.py:43-76, [FAWithPriority]. *)
  Record rule := Rule { r_fa : F; r_priority : Z; r_level : nat }.
  (** prioritized_safety.py:79-84, with the cursor set by [__iter__]. *)
  Record spec := Spec { s_psi : list (list rule); s_aps : P; s_level : nat; s_index : nat }.
  Definition new_spec : spec := Spec [] no_aps 0 0.

  (** prioritized_safety.py:88-98, [__getitem__]. *)
  Fixpoint getitem_from (psi : list (list rule)) (key : nat) : res rule :=
    match psi with
    | [] => Err "IndexError"
    | l :: r => if Nat.leb (List.length l) key then getitem_from r (key - List.length l)
                else match nth_error l key with Some x => Ok x | None => Err "IndexError" end
    end.
  Definition getitem (s : spec) (key : Z) : res rule :=
    if Z.ltb key 0 then Err "AssertionError" else getitem_from (s_psi s) (Z.to_nat key).

  (** prioritized_safety.py:100-103, [__iter__]. *)
  Definition iter (s : spec) : spec := Spec (s_psi s) (s_aps s) 0 0.
  (** prioritized_safety.py:105-117, [__next__]; [None] is StopIteration.  [rest] are the levels from
      [lev] on. *)
  Fixpoint next_from (rest : list (list rule)) (lev idx : nat) : nat * nat * option rule :=
    match rest with
    | [] => (lev, idx, None)
    | l :: r => match nth_error l idx with
                | Some x => (lev, S idx, Some x)
                | None => next_from r (S lev) 0
                end
    end.
  Definition next (s : spec) : spec * option rule :=
    let '(lev, idx, o) := next_from (skipn (s_level s) (s_psi s)) (s_level s) (s_index s) in
    (Spec (s_psi s) (s_aps s) lev idx, o).
  (** [for x in s: body], where the body may use the specification. *)
  Fixpoint loop {A} (fuel : nat) (body : rule -> spec * A -> res (spec * A)) (st : spec * A) : res (spec * A) :=
    match next (fst st) with
    | (s, None) => Ok (s, snd st)
    | (s, Some x) => match fuel with
                     | O => Err "out of fuel"
                     | S f => do st' <- body x (s, snd st); loop f body st'
                     end
    end.
  Definition for_each {A} (fuel : nat) (body : rule -> spec * A -> res (spec * A)) (st : spec * A) : res (spec * A) :=
    loop fuel body (iter (fst st), snd st).
  (** [list(s)] *)
  Definition to_list (fuel : nat) (s : spec) : res (spec * list rule) :=
    for_each fuel (fun x st => Ok (fst st, snd st ++ [x])) (s, []).

  (** prioritized_safety.py:122-123, [__len__]. *)
  Definition len (s : spec) : nat := fold_right Nat.add 0%nat (map (@List.length _) (s_psi s)).
  (** prioritized_safety.py:125-166, [add_rule]; the new state and the exception. *)
  Fixpoint pad_to (n : nat) (psi : list (list rule)) : list (list rule) :=
    match n, psi with
    | O, _ => psi
    | S m, [] => [] :: pad_to m []
    | S m, l :: r => l :: pad_to m r
    end.
  Fixpoint append_at (n : nat) (x : rule) (psi : list (list rule)) : list (list rule) :=
    match psi, n with
    | [], _ => []
    | l :: r, O => (l ++ [x]) :: r
    | l :: r, S m => l :: append_at m x r
    end.
  Definition positive (p : priority) : bool := match p with PInt z => Z.ltb 0 z | PFloat b => b end.
  Definition add_rule (fa : F) (p : priority) (level : Z) (s : spec) : spec * option string :=
    if negb (positive p) then (s, Some "ValueError")
    else if Z.ltb level 0 then (s, Some "ValueError")
    else
      let checked := match s_psi s with
                     | [] => Some (Spec [] (aps fa) (s_level s) (s_index s))
                     | _ => if peqb (s_aps s) (aps fa) then Some s else None
                     end in
      match checked with
      | None => (s, Some "AssertionError")
      | Some s1 =>
          match p with
          | PFloat _ => (s1, Some "TypeError")
          | PInt z =>
              let l := Z.to_nat level in
              (Spec (append_at l (Rule fa z l) (pad_to (S l) (s_psi s1))) (s_aps s1) (s_level s1) (s_index s1), None)
          end
      end.
  (** prioritized_safety.py:164-172; a negative level counts from the end. *)
  Definition get_rules_at (level : Z) (s : spec) : res (list rule) :=
    let n := Z.of_nat (List.length (s_psi s)) in
    if Z.leb n level then Ok []
    else if Z.leb 0 level then Ok (nth (Z.to_nat level) (s_psi s) [])
    else if Z.ltb (level + n) 0 then Err "IndexError" else Ok (nth (Z.to_nat (level + n)) (s_psi s) []).
  (** prioritized_safety.py:174-180. *)
  Definition get_rules (s : spec) : list rule := List.concat (s_psi s).
  (** prioritized_safety.py:200-202. *)
  Definition get_num_levels (s : spec) : nat := List.length (s_psi s).

  (** The calls of [add_rule] made one after another. *)
  Definition add_all (l : list (F * priority * Z)) (s : spec) : spec :=
    fold_left (fun s a => fst (add_rule (fst (fst a)) (snd (fst a)) (snd a) s)) l s.
End Prio.
Arguments rule F : clear implicits.
Arguments spec F P : clear implicits.

(** [itertools.product] of the lists [ll], for [get_states], [get_initial_states] and [get_accepting_states]
    (prioritized_safety.py:182-198). *)
Fixpoint iproduct {A} (ll : list (list A)) : list (list A) :=
  match ll with
  | [] => [[]]
  | l :: r => flat_map (fun x => map (cons x) (iproduct r)) l
  end.
