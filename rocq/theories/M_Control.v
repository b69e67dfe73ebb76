(** Model of the computation of continuous inputs for discrete transitions:
    tulip/abstract/find_controller.py.

    The polytope library is a parameter as in M_Horizon, with the solvers for linear and quadratic
    programs, the centers of Chebyshev balls, and convex hulls.  Arrays are functions from indices as
    in M_Feas, numbers are exact rationals instead of floats, and membership is exact instead of within
    a tolerance.  The initial state [x0] has as many entries as the system has states, there are inputs,
    and the horizon is at least 1.  Printing and logging are left out. *)
From Coq Require Import List String Bool Arith QArith Qcanon.
From Verif Require Import M_Base L_Sum M_Feas M_Horizon.
Import ListNotations.
Open Scope string_scope.
Open Scope list_scope.
Open Scope nat_scope.
Open Scope Qc_scope.

(** [np.hstack] of two rows, the first of width [w] *)
Definition hcat (w : nat) (a b : vec) : vec := fun j => if (j <? w)%nat then a j else b (j - w)%nat.
Definition vneg (a : vec) : vec := fun j => - a j.
Definition zeros : vec := fun _ => 0.
Definition ones : vec := fun _ => 1.
Definition transp (A : mat) : mat := fun i j => A j i.

(** The argument [ord]: [1], [2], [np.inf], or anything else *)
Inductive norm : Type := One | Two | Inf | Other.

Section Control.
Variable union : pset -> pset -> pset.
Variable reduce : pset -> pset.
Variable fulldim : pset -> bool.
Variable volume : poly -> Qc.
Variable project : nat -> nat -> poly -> pset.
(** [polytope.lpsolve(c, G, h)] over [w] variables: the values [x] and [fun], if the status is 0 *)
Variable lpsolve : nat -> vec -> poly -> option (vec * Qc).
(** [cvxopt.solvers.qp(P, q, G, h)] over [w] variables: [x] and the primal objective, if the status is
    "optimal" *)
Variable qp : nat -> mat -> vec -> poly -> option (vec * Qc).
(** the center of [pc.cheby_ball] *)
Variable center : poly -> vec.
(** [pc.qhull] of the vertices [pc.extreme] of the polytopes *)
Variable qhull : list poly -> poly.
Variable sys : sysdyn.
Notation n := (sd_n sys).
Notation m := (sd_m sys).

(** find_controller.py:445-452: the sets from which the target can be reached, one step at a time *)
Fixpoint pre_sets (k : nat) (P1 temp_part : pset) (list_P : list pset) : res (list pset) :=
  match k with
  | O => Ok list_P
  | S k' => bind (solve_feasible union reduce fulldim volume project sys P1 temp_part 1 false false (Some P1) 5) (fun t =>
            pre_sets k' P1 t (t :: list_P))
  end.
(** [createLM] reads [A] and [b] of each set, which a [Region] does not have *)
Fixpoint as_polys (l : list pset) : res (list poly) :=
  match l with
  | [] => Ok []
  | Pol p :: l' => bind (as_polys l') (fun r => Ok (p :: r))
  | Reg _ :: _ => Err "AttributeError"
  end.
(** find_controller.py:441-460: the constraints on [x(0)] and the inputs *)
Definition constraints (P1 P3 : poly) (N : nat) (closed_loop : bool) : res poly :=
  if closed_loop then
    bind (pre_sets (N - 1) (Pol P1) (Pol P3) [Pol P3]) (fun l =>
    bind (as_polys (Pol P1 :: l)) (fun list_P => createLM sys N list_P (Some [1%nat])))
  else createLM sys N ([P1] ++ repeat P1 (N - 1) ++ [P3]) None.
(** find_controller.py:461-467: the rows after those of [list_P[0]], which is [P1], with [x(0)] fixed *)
Definition fix_x0 (x0 : vec) (h : half) : half :=
  {| h_a := fun j => h_a h (n + j)%nat; h_b := h_b h - sum n (fun j => h_a h j * x0 j) |}.
Definition input_rows (x0 : vec) (P1 : poly) (L : poly) : poly := map (fix_x0 x0) (skipn (List.length P1) L).

(** find_controller.py:468-491: the effect of inputs on states.  [A_row] and [A_it] before round [i] *)
Fixpoint row_at (i : nat) : mat := match i with O => fun _ _ => 0 | S k => next_Ak sys (row_at k) k end.
Fixpoint it_at (i : nat) : mat := match i with O => sd_A sys | S k => mat_dot n (sd_A sys) (it_at k) end.
Definition A_K : mat := fun r => row_at (S (r / n)) (r mod n)%nat.
Definition A_N : mat := fun r => it_at (r / n) (r mod n)%nat.
Definition Ct (N : nat) : mat := mat_dot (n * N) A_K (B_diag sys N).

Section Cost.
Variable N : nat.
Variable R Q : mat.
Variable r : vec.
(** [R.dot(Ct)] and [r.T.dot(Ct)], find_controller.py:494-505 *)
Definition RCt : mat := mat_dot (N * n) R (Ct N).
Definition rCt : vec := row_dot (N * n) r (Ct N).
Definition row0 (a : vec) : half := {| h_a := a; h_b := 0 |}.
Definition wide (w : nat) (h : half) : half := {| h_a := hcat w zeros (h_a h); h_b := h_b h |}.
(** find_controller.py:492-512: [ord == 1] *)
Definition c_one : vec := hcat (N * (n + m)) ones rCt.
Definition G_one (rows : poly) : poly :=
  map (fun i => row0 (hcat (N * n) (vneg (eye i)) (hcat (N * m) zeros (vneg (RCt i))))) (List.seq 0 (N * n)) ++
  map (fun i => row0 (hcat (N * n) (vneg (eye i)) (hcat (N * m) zeros (RCt i)))) (List.seq 0 (N * n)) ++
  map (fun i => row0 (hcat (N * n) zeros (hcat (N * m) (vneg (eye i)) (vneg (Q i))))) (List.seq 0 (N * m)) ++
  map (fun i => row0 (hcat (N * n) zeros (hcat (N * m) (vneg (eye i)) (Q i)))) (List.seq 0 (N * m)) ++
  map (wide (N * n + N * m)) rows.
(** find_controller.py:542-557: [ord == np.inf] *)
Definition c_inf : vec := hcat 2 ones rCt.
Definition G_inf (rows : poly) : poly :=
  map (fun i => row0 (hcat 1 (vneg ones) (hcat 1 zeros (vneg (RCt i))))) (List.seq 0 (N * n)) ++
  map (fun i => row0 (hcat 1 (vneg ones) (hcat 1 zeros (RCt i)))) (List.seq 0 (N * n)) ++
  map (fun i => row0 (hcat 1 zeros (hcat 1 (vneg ones) (vneg (Q i))))) (List.seq 0 (N * m)) ++
  map (fun i => row0 (hcat 1 zeros (hcat 1 (vneg ones) (Q i)))) (List.seq 0 (N * m)) ++
  map (wide 2) rows.
(** find_controller.py:513-529: [ord == 2] *)
Definition Q2 : mat := mat_dot (N * m) (transp Q) Q.
Definition R2 : mat := mat_dot (N * n) (transp R) R.
Definition P_two : mat := fun i j => Q2 i j + mat_dot (N * n) (mat_dot (N * n) (transp (Ct N)) R2) (Ct N) i j.
Definition q_two (x0 : vec) : vec := fun j =>
  row_dot (N * n) (fun k => sum n (fun i => x0 i * A_N k i) + sum (n * N) (fun i => A_K k i * K_hat sys i)) (mat_dot (N * n) R2 (Ct N)) j
  + Q2Qc (1 # 2) * rCt j.
End Cost.

(** find_controller.py:398-568 [get_input_helper]: the inputs as one row, and the cost.  [given] tells that a solver is
    named.  The exceptions of the two solvers have names of their own. *)
Definition last_u (w N : nat) (v : vec) : vec := fun j => v (w - N * m + j)%nat.
Definition get_input_helper (x0 : vec) (P1 P3 : poly) (N : nat) (R : mat) (r : vec) (Q : mat) (ord : norm) (closed_loop given : bool)
  : res (vec * Qc) :=
  bind (constraints P1 P3 N closed_loop) (fun L =>
  let rows := input_rows x0 P1 L in
  let lp (w : nat) (c : vec) (G : poly) :=
    match lpsolve w c G with
    | None => Err "_InputHelperLPException"
    | Some (v, f) => Ok (last_u w N v, f)
    end in
  match ord with
  | One => lp (N * n + (N * m + N * m))%nat (c_one N r) (G_one N R Q rows)
  | Inf => lp (2 + N * m)%nat (c_inf N r) (G_inf N R Q rows)
  | Two =>
      if given then Err "Exception"
      else match qp (N * m) (P_two N R Q) (q_two N R r x0) rows with
           | None => Err "_InputHelperQPException"
           | Some (v, f) => Ok (v, f)
           end
  | Other => Err "UnboundLocalError"
  end).
(** [u.reshape(N, m)] at find_controller.py:568: row [k] *)
Definition u_rows (u : vec) (k : nat) : vec := fun c => u (k * m + c)%nat.

(** What [get_input] reads of the abstraction (tulip/abstract/discretization.py:245-340): the regions
    [ppp.regions], the successors in [ts], the original regions [orig_ppp], the map [_ppp2orig] to
    them, and the parameters. *)
Record abstr : Type := {
  ab_regions : list pset; ab_post : option (nat -> list nat);
  ab_orig_regions : list pset; ab_orig : option (list nat);
  ab_N : nat; ab_conservative : bool; ab_closed_loop : bool }.

(** find_controller.py:299-337: the set to stay in.  Both a [Polytope] and an empty [Region] have length 0; the empty
    [Region] has no [A] *)
Definition start_set (ab : abstr) (start : nat) : res poly :=
  let conservative := (ab_conservative ab || match ab_orig ab with None => true | Some _ => false end)%bool in
  if conservative then
    match nth_error (ab_regions ab) start with
    | None => Err "IndexError"
    | Some (Pol p) => Ok p
    | Some (Reg []) => Err "AttributeError"
    | Some (Reg [p]) => Ok p
    | Some (Reg l) => Ok (qhull l)
    end
  else
    match ab_orig ab with
    | None => Err "TypeError"
    | Some orig =>
        match nth_error orig start with
        | None => Err "IndexError"
        | Some o =>
            match nth_error (ab_orig_regions ab) o with
            | None => Err "IndexError"
            | Some (Pol _) => Err "AssertionError"
            | Some (Reg []) => Err "AssertionError"
            | Some (Reg [p]) => Ok p
            | Some (Reg _) => Err "Exception"
            end
        end
    end.

(** find_controller.py:344-352, 373 and 382-390: the costs for the last state, changed in place *)
Definition last_block (N k : nat) : bool := ((n * (N - 1) <=? k) && (k <? n * N))%nat%bool.
Definition R_mid (N : nat) (mw : Qc) (R : mat) : mat := fun i j =>
  if (last_block N i && last_block N j)%bool then R i j + mw * eye (i - n * (N - 1))%nat (j - n * (N - 1))%nat else R i j.
Definition r_mid (N : nat) (mw : Qc) (xc : vec) (r : vec) : vec := fun k =>
  if last_block N k then r k + mw * xc (k - n * (N - 1))%nat else r k.
Definition positive (q : Qc) : bool := if Qclt_le_dec 0 q then true else false.

(** find_controller.py:338-376: the loop over the polytopes of the target, with the inputs of least cost so far.  The
    arrays [R] and [r] are those of the caller. *)
Fixpoint try_targets (x0 : vec) (P1 : poly) (N : nat) (Q : mat) (ord : norm) (mw : Qc) (closed_loop given : bool)
    (l : list poly) (R : mat) (r : vec) (low : option (vec * Qc)) : res (option (vec * Qc) * mat * vec) :=
  match l with
  | [] => Ok (low, R, r)
  | P3 :: l' =>
      if positive mw then
        let R' := R_mid N mw R in
        let r' := r_mid N (- mw) (center P3) r in
        let go low' := try_targets x0 P1 N Q ord mw closed_loop given l' R' (r_mid N mw (center P3) r') low' in
        match get_input_helper x0 P1 P3 N R' r' Q ord closed_loop given with
        | Ok (u, cost) =>
            go (match low with
                | None => Some (u, cost)
                | Some (_, c) => if Qclt_le_dec cost c then Some (u, cost) else low
                end)
        | Err e => if (e =? "_InputHelperLPException")%string then go low else Err e
        end
      else try_targets x0 P1 N Q ord mw closed_loop given l' R r low
  end.

(** find_controller.py:105-395 [get_input]: the inputs, and the arrays [R] and [r] after the call. *)
Definition get_input (x0 : vec) (ab : abstr) (start tgt : nat) (R : option arr) (r : option vec) (Q : option arr)
    (ord : norm) (mid_weight : Qc) (given : bool) : res (vec * mat * vec) :=
  let N := ab_N ab in
  let mw := match R, Q, r with None, None, None => if Qc_eq_dec mid_weight 0 then Q2Qc 3 else mid_weight | _, _, _ => mid_weight end in
  let R1 := match R with Some a => a | None => {| a_rows := N * n; a_cols := N * n; a_at := fun _ _ => 0 |} end in
  let Q1 := match Q with Some a => a | None => {| a_rows := N * m; a_cols := N * m; a_at := eye |} end in
  let r1 := match r with Some v => v | None => zeros end in
  if (negb (a_rows R1 =? a_cols R1) || negb (a_rows R1 =? N * n))%nat%bool then Err "Exception"
  else if (negb (a_rows Q1 =? a_cols Q1) || negb (a_rows Q1 =? N * m))%nat%bool then Err "Exception"
  else if match ab_post ab with None => false | Some post => negb (existsb (Nat.eqb tgt) (post start)) end then Err "Exception"
  else
    match nth_error (ab_regions ab) start, nth_error (ab_regions ab) tgt with
    | Some _, Some P_end =>
        bind (start_set ab start) (fun P1 =>
        match P_end with
        | Reg [] => Err "AttributeError"
        | Reg l =>
            bind (try_targets x0 P1 N (a_at Q1) ord mw (ab_closed_loop ab) given l (a_at R1) r1 None) (fun '(low, R', r') =>
            match low with
            | None => Err "Exception"
            | Some (u, _) => Ok (u, R', r')
            end)
        | Pol P3 =>
            let '(R', r') := if positive mw then (R_mid N mw (a_at R1), r_mid N (- mw) (center P3) r1) else (a_at R1, r1) in
            bind (get_input_helper x0 P1 P3 N R' r' (a_at Q1) ord (ab_closed_loop ab) given) (fun '(u, _) => Ok (u, R', r'))
        end)
    | _, _ => Err "IndexError"
    end.
End Control.

(** find_controller.py:581-635 [is_seq_inside] for [N] inputs; for no inputs, [u_seq[N - 1, :]] raises.  [inside] is
    [pc.is_inside], a parameter. *)
Section Seq.
Variable is_inside : poly -> vec -> bool.
Variable sys : sysdyn.
Definition nominal (x u : vec) : vec := fun k =>
  sum (sd_n sys) (fun j => sd_A sys k j * x j) + sum (sd_m sys) (fun j => sd_B sys k j * u j) + sd_K sys k.
Fixpoint seq_loop (k i : nat) (u_seq : nat -> vec) (P0 : poly) (x : vec) (ins : bool) : vec * bool :=
  match k with
  | O => (x, ins)
  | S k' => let x' := nominal x (u_seq i) in
            seq_loop k' (S i) u_seq P0 x' (if negb (is_inside P0 x') then false else ins)
  end.
Definition is_seq_inside (x0 : vec) (N : nat) (u_seq : nat -> vec) (P0 P1 : poly) : res bool :=
  if (N =? 0)%nat then Err "IndexError"
  else let '(x, ins) := seq_loop (N - 1) 0 u_seq P0 x0 true in
       Ok (if negb (is_inside P1 (nominal x (u_seq (N - 1)%nat))) then false else ins).
End Seq.

(** find_controller.py:638-675 [find_discrete_state] *)
Section Find.
Variable contains : pset -> vec -> bool.
Fixpoint find_from (i : nat) (x0 : vec) (part : list pset) : option nat :=
  match part with
  | [] => None
  | region :: part' => if contains region x0 then Some i else find_from (S i) x0 part'
  end.
Definition find_discrete_state (x0 : vec) (part : list pset) : option nat := find_from 0 x0 part.
End Find.
