(** Independent description of the GR(1) fragment. *)
From Coq Require Import List String Bool.
From Verif Require Import M_Ast M_Parser S_LTL S_Gr1.
Import ListNotations.
Open Scope string_scope.

(** Some sub-formula of [t] (itself included) is an application of [op]. *)
Inductive uses (op : string) : node -> Prop :=
| u_un a : uses op (NUn op a)
| u_bin l r : uses op (NBin op l r)
| u_un1 o a : uses op a -> uses op (NUn o a)
| u_bin1 o l r : uses op l -> uses op (NBin o l r)
| u_bin2 o l r : uses op r -> uses op (NBin o l r)
| u_cmp1 o l r : uses op l -> uses op (NCmp o l r)
| u_cmp2 o l r : uses op r -> uses op (NCmp o l r)
| u_ar1 o l r : uses op l -> uses op (NArith o l r)
| u_ar2 o l r : uses op r -> uses op (NArith o l r)
| u_ite1 o a b c : uses op a -> uses op (NIte o a b c)
| u_ite2 o a b c : uses op b -> uses op (NIte o a b c)
| u_ite3 o a b c : uses op c -> uses op (NIte o a b c).

Definition free_of (ops : list string) (t : node) : Prop := forall op, In op ops -> ~ uses op t.

(** Conjunctions of [B], [G C], [G F B], with no temporal operator of [ops] in B or C, where C
    may use X and B may not. *)
Inductive gr1 (ops : list string) : node -> Prop :=
| gr1_and l r : gr1 ops l -> gr1 ops r -> gr1 ops (NBin "&" l r)
| gr1_now b : free_of ("X" :: ops) b -> gr1 ops b
| gr1_G c : free_of ops c -> gr1 ops (NUn "G" c)
| gr1_GF b : free_of ("X" :: ops) b -> gr1 ops (NUn "G" (NUn "F" b)).

(** The non-empty texts of a list. *)
Definition nonempty (l : list string) : list string := filter (fun s => negb (s =? "")) l.

(** The formulas of a split. *)
Definition split_part (d : list string * list string * list string) : option part :=
  let '(i, g, gf) := d in
  match parse_all (nonempty i), parse_all (nonempty g), parse_all (nonempty gf) with
  | Some a, Some b, Some c => Some {| p_init := a; p_safe := b; p_live := c |}
  | _, _, _ => None
  end.
