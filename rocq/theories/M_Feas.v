(** Model of the constraint stacking in tulip/abstract/feasible.py: [createLM],
    [get_max_extreme], [_block_diag2].

    Arrays are functions from indices, with their shapes given beside them; numbers are exact
    rationals instead of floats.  Where the code fills consecutive blocks of rows of an array of
    zeros, the model appends the rows.  A polytope is its list of half spaces, rows of [A] with
    entries of [b].  Of the disturbance set [Wset] the model knows what the code asks of the polytope
    library: whether it is full-dimensional, and its vertices ([pc.extreme]). *)
From Coq Require Import List String Bool Arith QArith Qcanon.
From Verif Require Import M_Base L_Sum.
Import ListNotations.
Open Scope string_scope.
Open Scope list_scope.
Open Scope nat_scope.
Open Scope Qc_scope.

Definition vec : Type := nat -> Qc.
Definition mat : Type := nat -> nat -> Qc.
Record arr : Type := { a_rows : nat; a_cols : nat; a_at : mat }.
Record half : Type := { h_a : vec; h_b : Qc }.
Definition poly : Type := list half.

(** What [createLM] reads of [LtiSysDyn] (tulip/hybrid.py:93-225): [A] is [n x n], [B] is [n x m],
    [E] is [n x p], [K] is [n x 1]; [sd_U] and [sd_Uw] are the rows and the width of [Uset];
    [sd_Wfull] and [sd_Wext] are [pc.is_fulldim(Wset)] and [pc.extreme(Wset)]. *)
Record sysdyn : Type := {
  sd_n : nat; sd_m : nat; sd_p : nat;
  sd_A : mat; sd_B : mat; sd_E : mat; sd_K : vec;
  sd_U : poly; sd_Uw : nat;
  sd_Wfull : bool; sd_Wext : list vec }.

Definition Qc_eqb (a b : Qc) : bool := if Qc_eq_dec a b then true else false.
(** [v[:w] == 0] *)
Definition vec_zero (w : nat) (v : vec) : bool := forallb (fun j => Qc_eqb (v j) 0) (List.seq 0 w).
Definition eye : mat := fun i j => if i =? j then 1 else 0.
(** [a.dot(M)] for a row [a] of width [n] *)
Definition row_dot (n : nat) (a : vec) (M : mat) : vec := fun j => sum n (fun k => a k * M k j).
Definition mat_dot (n : nat) (A M : mat) : mat := fun i => row_dot n (A i) M.

(** feasible.py:750-781 [_block_diag2], of two-dimensional arrays *)
Definition block_diag2 (A B : arr) : arr :=
  {| a_rows := a_rows A + a_rows B; a_cols := a_cols A + a_cols B;
     a_at := fun i j =>
       if ((i <? a_rows A) && (j <? a_cols A))%nat then a_at A i j
       else if ((a_rows A <=? i) && (a_cols A <=? j))%nat then a_at B (i - a_rows A)%nat (j - a_cols A)%nat
       else 0 |}.
(** feasible.py:567-571 [for i in range(N - 1): B_diag = _block_diag2(B_diag, B)] *)
Fixpoint diag_loop (k : nat) (B : arr) : arr :=
  match k with O => B | S k' => block_diag2 (diag_loop k' B) B end.

(** feasible.py:679-747 [get_max_extreme].  [np.base_repr] wants a base from 2 to 36 and writes the
    digits from 10 on as letters, which [int] does not read: both raise [ValueError].  The digits of
    [i] are read from the last one on.  The vertices have as many entries as a row of [G] has per
    step. *)
Definition digit (nv i j : nat) : nat := ((i / nv ^ j) mod nv)%nat.
Definition DN_extreme (ext : list vec) (dim i : nat) : vec :=
  fun c => nth (digit (List.length ext) i (c / dim)%nat) ext (fun _ => 0) (c mod dim)%nat.
Definition Qc_max (a b : Qc) : Qc := if Qclt_le_dec a b then b else a.
Fixpoint amax (k : nat) (f : nat -> Qc) : Qc := match k with O => f O | S k' => Qc_max (amax k' f) (f k) end.
Definition get_max_extreme (G : list vec) (ext : list vec) (dim N : nat) : res (list Qc) :=
  let nv := List.length ext in
  if ((nv <? 2) || (36 <? nv))%nat then Err "ValueError"
  else if existsb (fun i => existsb (fun j => 10 <=? digit nv i j)%nat (List.seq 0 N)) (List.seq 0 (nv ^ N))
  then Err "ValueError"
  else Ok (map (fun g => amax (nv ^ N - 1)%nat (fun i => sum (dim * N)%nat (fun c => g c * DN_extreme ext dim i c))) G).

(** feasible.py:478-676 [createLM], with [P i] for [list_P[i]] and [dist i] for
    [i in disturbance_ind].  The rows of [L] are returned with the entries of [M]. *)
Section LM.
Variable sys : sysdyn.
Variable N : nat.
Variable P : nat -> poly.
Variable dist : nat -> bool.
Notation n := (sd_n sys).
Notation m := (sd_m sys).
Notation p := (sd_p sys).

(** 549-552: the disturbance matrix that is used *)
Definition lm_E0 : bool := forallb (fun i => vec_zero p (sd_E sys i)) (List.seq 0 n).
Definition lm_E : arr :=
  if (negb lm_E0 && negb (sd_Wfull sys))%bool
  then {| a_rows := n; a_cols := 1; a_at := fun _ _ => 0 |}
  else {| a_rows := n; a_cols := p; a_at := sd_E sys |}.
Definition lm_B : arr := {| a_rows := n; a_cols := m; a_at := sd_B sys |}.
(** 566-571 *)
Definition K_hat : vec := fun r => sd_K sys (r mod n)%nat.
Definition B_diag : mat := a_at (diag_loop (N - 1) lm_B).
Definition E_diag : mat := a_at (diag_loop (N - 1) lm_E).
(** the number of columns of [E_diag] *)
Definition Ew : nat := (a_cols lm_E * N)%nat.

(** 584-586 and 616 *)
Definition AB_line (A_n A_k : mat) : mat :=
  fun k j => if (j <? n)%nat then A_n k j else row_dot (n * N) (A_k k) B_diag (j - n)%nat.
Definition k_row (A_n A_k : mat) (h : half) : half :=
  {| h_a := row_dot n (h_a h) (AB_line A_n A_k);
     h_b := h_b h - sum (n * N) (fun r => row_dot n (h_a h) A_k r * K_hat r) |}.
(** 594 *)
Definition g_row (A_k : mat) (h : half) : vec := row_dot (n * N) (row_dot n (h_a h) A_k) E_diag.
(** 619-651 *)
Definition A_mult (A_n A_k : mat) (i : nat) : mat :=
  fun k j => if (k <? m)%nat
             then (if ((n + m * i <=? j) && (j <? n + m * (i + 1)))%nat then eye k (j - (n + m * i))%nat else 0)
             else AB_line A_n A_k (k - m)%nat j.
Definition b_mult (A_k : mat) : vec :=
  fun k => if (k <? m)%nat then 0 else sum (n * N) (fun r => A_k (k - m)%nat r * K_hat r).
Definition u_row (A_n A_k : mat) (i : nat) (h : half) : half :=
  if (sd_Uw sys =? m)%nat then
    {| h_a := fun j => if ((n + m * i <=? j) && (j <? n + m * (i + 1)))%nat then h_a h (j - (n + m * i))%nat else 0;
       h_b := h_b h |}
  else if (sd_Uw sys =? m + n)%nat then
    {| h_a := row_dot (m + n) (h_a h) (A_mult A_n A_k i);
       h_b := h_b h - sum (m + n) (fun k => h_a h k * b_mult A_k k) |}
  else {| h_a := fun _ => 0; h_b := h_b h |}.
(** 595-606 *)
Definition d_mult (A_k : mat) : mat :=
  fun k c => if (k <? m)%nat then 0 else row_dot (n * N) (A_k (k - m)%nat) E_diag c.
Definition gu_row (A_k : mat) (h : half) : vec := row_dot (m + n) (h_a h) (d_mult A_k).
(** 654-661 *)
Definition next_An (A_n : mat) : mat := mat_dot n (sd_A sys) A_n.
Definition next_Ak (A_k : mat) (i : nat) : mat :=
  fun k r => if ((i * n <=? r) && (r <? (i + 1) * n))%nat then eye k (r - i * n)%nat else mat_dot n (sd_A sys) A_k k r.

(** Assigning to the rows of [Gk] an array with [Ew] columns, and stacking it under one with
    [p * N] columns *)
Definition g_fits : bool := ((Ew =? p * N) || (Ew =? 1))%nat%bool.
Definition gu_fits : bool := (Ew =? p * N)%nat.

Record lm_state : Type := { lk : poly; gk : list vec; lu : poly; gu : list vec }.
(** 575-661, one round [i] *)
Definition lm_round (A_n A_k : mat) (i : nat) (st : lm_state) : res lm_state :=
  let Li := P i in
  let joint := ((sd_Uw sys =? m + n)%nat && (i <? N)%nat)%bool in
  if (dist i && negb g_fits)%bool then Err "ValueError"
  else if (dist i && joint && negb gu_fits)%bool then Err "ValueError"
  else Ok {| lk := lk st ++ map (k_row A_n A_k) Li;
             gk := gk st ++ (if dist i then map (g_row A_k) Li else map (fun _ _ => 0) Li);
             lu := if (i <? N)%nat then lu st ++ map (u_row A_n A_k i) (sd_U sys) else lu st;
             gu := if (i <? N)%nat
                   then gu st ++ (if (dist i && joint)%bool then map (gu_row A_k) (sd_U sys) else map (fun _ _ => 0) (sd_U sys))
                   else gu st |}.
Fixpoint lm_loop (rounds : nat) (A_n A_k : mat) (i : nat) (st : lm_state) : res lm_state :=
  match rounds with
  | O => Ok st
  | S k => bind (lm_round A_n A_k i st) (fun st' => lm_loop k (next_An A_n) (next_Ak A_k i) (S i) st')
  end.
(** 662-676 *)
Definition createLM_on : res poly :=
  bind (lm_loop (N + 1) eye (fun _ _ => 0) 0 {| lk := []; gk := []; lu := []; gu := [] |}) (fun st =>
  bind (if negb (forallb (vec_zero (p * N)) (gk st))
        then get_max_extreme (gk st ++ gu st) (sd_Wext sys) p N
        else Ok (map (fun _ => 0) (lk st ++ lu st))) (fun D_hat =>
  Ok (map (fun '(h, d) => {| h_a := h_a h; h_b := h_b h - d |}) (combine (lk st ++ lu st) D_hat)))).
End LM.

(** feasible.py:478-536: [list_P] as a list, and the default of [disturbance_ind].
    A list longer than [N + 1] leaves rows of zeros in the code; the model takes lists of that
    length. *)
Definition createLM (sys : sysdyn) (N : nat) (list_P : list poly) (ind : option (list nat)) : res poly :=
  if (List.length list_P =? N + 1)%nat
  then createLM_on sys N (fun i => nth i list_P [])
         (fun i => match ind with
                   | Some l => existsb (Nat.eqb i) l
                   | None => ((1 <=? i) && (i <=? N))%nat
                   end)
  else Err "IndexError".
(** feasible.py:533-534: [list_P] as a polytope *)
Definition createLM_poly (sys : sysdyn) (N : nat) (P0 Pk PN : poly) : res poly :=
  createLM sys N ([P0] ++ repeat Pk (N - 1) ++ [PN]) None.
