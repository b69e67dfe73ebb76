(** Model of the table of dependent variables, tulip/synth.py:1191-1255. *)
From Coq Require Import List String Bool ZArith.
From Verif Require Import M_Base M_Ast M_Parser M_Spec M_Form M_Synth.
Import ListNotations.
Open Scope string_scope.
Open Scope list_scope.

(** [table[p].add(u)] *)
Fixpoint table_add (p : string) (u : sval) (tab : list (string * list sval)) : res (list (string * list sval)) :=
  match tab with
  | [] => Err "KeyError"
  | (k, l) :: r => if (p =? k)%string then Ok ((k, if smem u l then l else l ++ [u]) :: r)
                   else do r' <- table_add p u r; Ok ((k, l) :: r')
  end.
(** synth.py:1238-1255. *)
Definition map_ap_to_states (t : fts) : res (list (string * list sval)) :=
  foldr (fun tab n => do l <- of_opt "KeyError" (snd n);
                      foldr (fun tab p => table_add p (fst n) tab) l tab)
    (f_nodes t) (map (fun p => (p, [])) (f_aps t)).

Section Order.
  (** The order in which Python iterates over a set. *)
  Variable iter_set : list sval -> list sval.
  (** synth.py:1191-1235. *)
  Definition build_dependent_var_table (t : fts) (statevar : string) : res (list (string * string)) :=
    do (_, sid, _) <- iter2var (f_states t) [] statevar false (Some Xor);
    do tab <- map_ap_to_states t;
    mapr (fun kv => do l <- mapr (fun x => of_opt "KeyError" (ids_get x sid)) (iter_set (snd kv));
                    Ok (fst kv, disj l)) tab.
End Order.
