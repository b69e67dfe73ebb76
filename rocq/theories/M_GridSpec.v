(** Model of [GridWorld.spec], tulip/gridworld.py:914-1081.

    The attribute [offset] is set and restored by the code (956-960, 1067); here a changed copy of
    the world is used, and the case of an exception that leaves the changed offset behind is left
    out.  The order in which the set [sys_vars] is iterated (1056) is the parameter [order]. *)
From Coq Require Import List String Ascii Bool Arith ZArith.
From Verif Require Import M_Base M_Ast M_Spec M_Gr1c M_Machine M_Grid.
Import ListNotations.
Open Scope string_scope.
Open Scope list_scope.

Section Spec.
  Variable order : list string -> list string.
  Variable nonbool : bool.
  (** The world with its offset set (957-960), and its matrix. *)
  Variables (w : world) (m : mat).

  Definition key (p : nat * nat) : ij := (Z.of_nat (fst p), Z.of_nat (snd p)).
  Definition name (p : nat * nat) : res string := getitem w (key p) false nonbool.
  Definition next_name (p : nat * nat) : res string := getitem w (key p) true nonbool.
  Definition wall (p : nat * nat) : bool := Z.eqb (cell m (fst p) (snd p)) 1.
  Definition open (p : nat * nat) : bool := Z.eqb (cell m (fst p) (snd p)) 0.

  (** gridworld.py:972-996: a cell and its empty neighbours above, left, below, right. *)
  Definition successors (p : nat * nat) : list (nat * nat) :=
    let (i, j) := p in
    [p] ++ (if (0 <? i)%nat && open (i - 1, j)%nat then [(i - 1, j)%nat] else [])
        ++ (if (0 <? j)%nat && open (i, j - 1)%nat then [(i, j - 1)%nat] else [])
        ++ (if (i <? m_rows m - 1)%nat && open (i + 1, j)%nat then [(i + 1, j)%nat] else [])
        ++ (if (j <? m_cols m - 1)%nat && open (i, j + 1)%nat then [(i, j + 1)%nat] else []).
  (** gridworld.py:962-997. *)
  Definition transition (p : nat * nat) : res string :=
    do a <- name p; do ns <- mapr next_name (successors p); Ok (a ++ " -> (" ++ join " || " ns ++ ")")%string.
  (** gridworld.py:998-1004. *)
  Definition static (p : nat * nat) : res string := do a <- next_name p; Ok ("!(" ++ a ++ ")")%string.
  Definition cells : list (nat * nat) := cells_of (m_rows m) (m_cols m).
  Definition free_cells : list (nat * nat) := filter (fun p => negb (wall p)) cells.
  Definition pair_eqb (p q : nat * nat) : bool := Nat.eqb (fst p) (fst q) && Nat.eqb (snd p) (snd q).
  (** gridworld.py:1008-1043; [pos_indices] never contains (-1, -1). *)
  Definition mutex (p : nat * nat) : res string :=
    do a <- next_name p;
    do os <- mapr (fun q => do b <- next_name q; Ok ("(!" ++ b ++ ")")%string) (filter (fun q => negb (pair_eqb p q)) free_cells);
    Ok ("(" ++ join " && " (a :: os) ++ ")")%string.
  Definition nl_or : string := String (ascii_of_nat 10) "|| ".
  Definition safety : res (list string) :=
    do ts <- mapr transition free_cells;
    do ss <- mapr static (filter wall cells);
    do ms <- (if nonbool then Ok [] else do ds <- mapr mutex free_cells; Ok [join nl_or ds]);
    Ok (ts ++ ss ++ ms).
  (** gridworld.py:1044-1052. *)
  Definition variables : res vardecl :=
    if nonbool then Ok [((w_prefix w ++ "_r")%string, DInt 0 (Z.of_nat (m_rows m) - 1)); ((w_prefix w ++ "_c")%string, DInt 0 (Z.of_nat (m_cols m) - 1))]
    else do ns <- mapr name cells; Ok (booleans (order ns)).
  (** gridworld.py:1053-1063. *)
  Definition init_clause (vars : list string) (k : ij) : res string :=
    do a <- getitem w k false nonbool;
    Ok (if nonbool then a
        else "(" ++ join " && " (a :: map (fun o => "!" ++ o)%string (filter (fun o => negb (String.eqb o a)) vars)) ++ ")")%string.
End Spec.

(** gridworld.py:951-1081.  An empty initial condition makes no conjunct (form.py:517-527). *)
Definition spec (order : list string -> list string) (w : world) (offset : ij) (controlled_dyn nonbool : bool) : res grspec :=
  match w_W w with
  | None => Err "ValueError"
  | Some m =>
      let w' := World (w_W w) (w_init w) (w_goal w) (w_prefix w) (if nonbool then (0, 0)%Z else offset) in
      do trans <- safety nonbool w' m;
      do vars <- variables order nonbool w' m;
      do init <- mapr (init_clause nonbool w' (map fst vars)) (w_init w);
      do goal <- mapr (fun k => getitem w' k false nonbool) (w_goal w);
      let init := match init with [] => [] | _ => [join " || " init] end in
      Ok (if controlled_dyn then spec_of [] vars [] init [] trans [] goal else spec_of vars [] init [] trans [] goal [])
  end.
