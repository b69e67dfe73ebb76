(** Model of two functions that prepare machines for drawing: [mask_outputs], tulip/synth.py:1877-1888, and
    [project_strategy_on_partition], tulip/abstract/plot.py:179-206. *)
From Coq Require Import List String Bool Arith ZArith.
From Verif Require Import M_Base M_Spec M_Dict M_Graph M_Machine M_Strategy.
Import ListNotations.
Open Scope string_scope.
Open Scope list_scope.
Open Scope nat_scope.

Section Mask.
  Context {N V : Type}.
  Variable zero : V -> bool. (* [d[k] == 0] *)
  (** [d.pop(k)] of a key that is there *)
  Definition pop (k : string) (d : attrs V) : attrs V := filter (fun kv => negb (String.eqb (fst kv) k)) d.
  (** [for k in d]: Python's iterator of a dictionary raises RuntimeError at its next step if the size has changed since it was
      made, also after the last key. *)
  Fixpoint mask_keys (outs : list string) (size : nat) (ks : list string) (d : attrs V) : attrs V * option string :=
    if negb (List.length d =? size) then (d, Some "RuntimeError") else
    match ks with
    | [] => (d, None)
    | k :: r =>
        let z := match lookup k d with Some v => zero v | None => false end in
        mask_keys outs size r (if mem k outs && z then pop k d else d)
    end.
  (** The edges in order; the dictionaries are changed in place. *)
  Fixpoint mask_edges (outs : list string) (es : list (edge N V)) : list (edge N V) * option string :=
    match es with
    | [] => ([], None)
    | e :: r =>
        let de := mask_keys outs (List.length (e_attr e)) (names (e_attr e)) (e_attr e) in
        let e' := Edge (e_src e) (e_dst e) (e_key e) (fst de) in
        match snd de with
        | Some x => (e' :: r, Some x)
        | None => let rr := mask_edges outs r in (e' :: fst rr, snd rr)
        end
    end.
  (** synth.py:1877-1888 [mask_outputs]: the machine afterwards, and the exception *)
  Definition mask_outputs (m : machine N V) : machine N V * option string :=
    let r := mask_edges (names (m_out m)) (g_edges (m_graph m)) in
    (Machine (m_vars m) (m_in m) (m_out m) (Graph (g_nodes (m_graph m)) (fst r) (g_init (m_graph m))), snd r).
End Mask.

Section Project.
  Context {N : Type} (neqb : N -> N -> bool).
  (** An index of a matrix with [n] rows: negative ones count from the end; other values are refused. *)
  Definition row (n : nat) (v : mval) : res nat :=
    match v with
    | VInt z => let z' := if (z <? 0)%Z then (z + Z.of_nat n)%Z else z in
                if (z' <? 0)%Z || (Z.of_nat n <=? z')%Z then Err "IndexError" else Ok (Z.to_nat z')
    | VStr _ => Err "IndexError"
    end.
  (** [mealy.states[u]] *)
  Definition state_label (m : machine N mval) (u : N) : res (attrs mval) :=
    of_opt "KeyError" (option_map snd (List.find (fun na => neqb u (fst na)) (g_nodes (m_graph m)))).
  (** plot.py:179-206 [project_strategy_on_partition]: the positions of the matrix that are 1 *)
  Definition project_strategy (n : nat) (m : machine N mval) : res (list (nat * nat)) :=
    fold_res (fun e acc =>
        do a <- state_label m (e_src e);
        do b <- state_label m (e_dst e);
        match lookup "loc" a, lookup "loc" b with
        | Some x, Some y => do i <- row n x; do j <- row n y; Ok (acc ++ [(i, j)])
        | _, _ => Ok acc
        end) (g_edges (m_graph m)) [].
End Project.
