(** Independent vocabulary for the GRSpec theorems. *)
From Coq Require Import List String Bool.
From Verif Require Import M_Ast M_Parser M_Spec S_LTL S_Gr1.
Import ListNotations.
Open Scope string_scope.

(** Sub-formulas (reflexive). *)
Inductive sub : node -> node -> Prop :=
| sub_refl t : sub t t
| sub_un u op a : sub u a -> sub u (NUn op a)
| sub_bin_l u op l r : sub u l -> sub u (NBin op l r)
| sub_bin_r u op l r : sub u r -> sub u (NBin op l r)
| sub_cmp_l u op l r : sub u l -> sub u (NCmp op l r)
| sub_cmp_r u op l r : sub u r -> sub u (NCmp op l r)
| sub_ar_l u op l r : sub u l -> sub u (NArith op l r)
| sub_ar_r u op l r : sub u r -> sub u (NArith op l r)
| sub_ite1 u op a b c : sub u a -> sub u (NIte op a b c)
| sub_ite2 u op a b c : sub u b -> sub u (NIte op a b c)
| sub_ite3 u op a b c : sub u c -> sub u (NIte op a b c).

(** Variable [x] occurs in the scope of the next-state operator. *)
Definition primed (x : string) (t : node) : Prop := exists a, sub (NUn "X" a) t /\ sub (NVar x) a.

(** A declaration table gives [x] the domain [d]. *)
Definition declared (D : vardecl) (x : string) (d : dom) : Prop :=
  exists pre post, D = (pre ++ (x, d) :: post)%list /\ ~ In x (map fst pre).
Definition is_declared (D : vardecl) (x : string) : Prop := In x (map fst D).
Definition disjoint (D E : vardecl) : Prop := forall x, is_declared D x -> is_declared E x -> False.

(** Every constant is under an operator with two operands. *)
Definition is_const (t : node) : Prop := exists v, t = NNum v \/ t = NStr v.
Definition two_operands (t : node) : Prop :=
  exists op l r, t = NBin op l r \/ t = NCmp op l r \/ t = NArith op l r.
Inductive covered : node -> Prop :=
| cov_none t : (forall c, sub c t -> ~ is_const c) -> covered t
| cov_two t : two_operands t -> covered t
| cov_un op a : covered a -> covered (NUn op a)
| cov_ite op a b c : covered a -> covered b -> covered c -> covered (NIte op a b c).

(** A clause that is accepted by the parser and the identifier check. *)
Definition clause_ok (g : grspec) (x : string) (t : node) : Prop :=
  parse x = Some t /\
  (forall v, sub (NVar v) t -> is_declared (env_vars g) v \/ is_declared (sys_vars g) v) /\
  covered t.

(** No variable, respectively no system variable, is primed in the clause [x]. *)
Definition no_primed_in (x : string) : Prop := forall t, parse x = Some t -> forall v, ~ primed v t.
Definition no_primed_sys (g : grspec) (x : string) : Prop :=
  forall t, parse x = Some t -> forall v, primed v t -> ~ is_declared (sys_vars g) v.
