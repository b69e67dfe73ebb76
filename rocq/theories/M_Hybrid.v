(** Model of the constructors of tulip/hybrid.py: [LtiSysDyn], [PwaSysDyn], [SwitchedSysDyn], with the time data that
    they check and push into the systems that they are made of.

    The objects are in a list and have their position as identity; a constructor returns the new list and the identity
    of the new object.  Numbers of other kinds than [int] and [float] are [TOther], with the answer to [<= 0].  The
    polytope library is a parameter.  Warnings, printing and plots are left out.  Of several
    errors in one call the model may name another one than Python. *)
From Coq Require Import List String Bool Arith ZArith QArith Qcanon.
From Verif Require Import M_Tree M_Base M_Dict M_Graph M_Machine M_Fts M_Discretize M_Switched.
Import ListNotations.
Open Scope string_scope.
Open Scope list_scope.
Open Scope nat_scope.

(** An argument for an array: [None], [list()], or an array with a shape and, if it has two dimensions, entries *)
Inductive aval : Type := ANone | AList | AArr (shape : list nat) (entry : nat -> nat -> Qc).
(** Floats as far as they are compared *)
Inductive flt : Type := Fin (v : Qc) | PInf | NInf | NaN.
Inductive tstep : Type := TNone | TInt (z : Z) | TFloat (f : flt) | TOther (le0 : option bool).
(** An argument for a set: [None], a [Polytope], a [Region], or something else *)
Inductive sval (D : Type) : Type := SNone | SPol (d : D) | SReg (d : D) | SOther.
Arguments SNone {D}.
Arguments SPol {D}.
Arguments SReg {D}.
Arguments SOther {D}.

(** [a == b] *)
Definition Qc_eqb (a b : Qc) : bool := if Qc_eq_dec a b then true else false.
Definition flt_eqb (a b : flt) : bool :=
  match a, b with Fin x, Fin y => Qc_eqb x y | PInf, PInf | NInf, NInf => true | _, _ => false end.
Definition as_flt (t : tstep) : option flt := match t with TInt z => Some (Fin (Q2Qc (inject_Z z))) | TFloat f => Some f | _ => None end.
Definition step_eqb (a b : tstep) : bool :=
  match a, b with
  | TNone, TNone => true
  | _, _ => match as_flt a, as_flt b with Some x, Some y => flt_eqb x y | _, _ => false end
  end.
Definition sem_eqb (a b : option string) : bool :=
  match a, b with None, None => true | Some x, Some y => (x =? y)%string | _, _ => false end.
(** [timestep <= 0] *)
Definition not_positive (t : tstep) : res bool :=
  match t with
  | TNone => Err "TypeError"
  | TInt z => Ok (z <=? 0)%Z
  | TFloat (Fin v) => Ok (if Qclt_le_dec 0 v then false else true)
  | TFloat NInf => Ok true
  | TFloat _ => Ok false
  | TOther (Some b) => Ok b
  | TOther None => Err "TypeError"
  end.
(** hybrid.py:910-938 [_check_time_data] *)
Definition check_time_data (semantics : option string) (timestep : tstep) : res unit :=
  if negb (match semantics with None => true | Some s => mem s ["sampled"; "discrete"] end) then Err "ValueError"
  else
    match semantics, timestep with
    | _, TNone => Ok tt
    | Some "discrete", _ => Err "ValueError"
    | _, _ => do b <- not_positive timestep;
              if b then Err "ValueError" else match timestep with TOther _ => Err "TypeError" | _ => Ok tt end
    end.

Section Hybrid.
Context {D : Type}.
Variable dim : D -> nat.
Variable diff inter : D -> D -> D.
Variable is_empty fulldim : D -> bool.
Variable nothing : D.   (* pc.Polytope() *)

Record lti : Type := Lti {
  l_A : aval; l_B : aval; l_E : aval; l_K : aval; l_Uset : sval D; l_Wset : sval D; l_domain : sval D;
  l_sem : option string; l_step : tstep }.
Record pwa : Type := Pwa { p_subs : list nat; p_domain : sval D; p_sem : option string; p_step : tstep }.
Record switched : Type := Switched {
  w_size : nat * nat; w_dyn : list (mode * nat); w_ss : sval D; w_sem : option string; w_step : tstep }.
Inductive hobj : Type := HLti (l : lti) | HPwa (p : pwa) | HSw (w : switched).
Definition heap : Type := list hobj.

(** hybrid.py:987-998 [_assert_square_array], 1001-1010 [_assert_2d_array]: the shape *)
Definition two_dim (a : aval) : res (nat * nat) :=
  match a with AArr [r; c] _ => Ok (r, c) | AArr _ _ => Err "ValueError" | _ => Err "AttributeError" end.
Definition square (a : aval) : res nat := do rc <- two_dim a; if fst rc =? snd rc then Ok (fst rc) else Err "ValueError".
(** [a.shape] for unpacking two numbers *)
Definition shape2 (a : aval) : res (nat * nat) := match a with ANone => Err "AttributeError" | _ => two_dim a end.
Definition set_dim (s : sval D) : res nat := match s with SPol d | SReg d => Ok (dim d) | _ => Err "AttributeError" end.
(** [len(A)] *)
Definition alen (a : aval) : res nat :=
  match a with ANone => Err "TypeError" | AList => Ok 0 | AArr [] _ => Err "TypeError" | AArr (r :: _) _ => Ok r end.
Definition zeros_arr (r c : nat) : aval := AArr [r; c] (fun _ _ => 0%Qc).
(** hybrid.py:212-227 [_check_domain] *)
Definition check_domain (domain : sval D) (n : nat) : res unit :=
  match domain with SNone => Ok tt | _ => do d <- set_dim domain; if d =? n then Ok tt else Err "ValueError" end.
(** hybrid.py:230-247 [_check_b_array] *)
Definition check_rows (a b : aval) : res (nat * nat) :=
  do sb <- two_dim b; do sa <- shape2 a; if fst sa =? fst sb then Ok sb else Err "ValueError".
(** hybrid.py:250-276 [_check_uset] *)
Definition check_uset (a : aval) (m : nat) (uset : sval D) : res unit :=
  do n <- square a;
  match uset with SNone => Ok tt | _ => do d <- set_dim uset; if (d =? m) || (d =? m + n) then Ok tt else Err "ValueError" end.
(** hybrid.py:279-305 [_check_e_array] *)
Definition check_e_array (a e : aval) (wset : sval D) : res unit :=
  do se <- check_rows a e;
  match wset with SNone => Ok tt | _ => do d <- set_dim wset; if d =? snd se then Ok tt else Err "ValueError" end.
(** hybrid.py:308-330 [_check_k_array] *)
Definition check_k_array (a k : aval) : res unit := do sk <- check_rows a k; if snd sk =? 1 then Ok tt else Err "ValueError".
Definition given (a : aval) : bool := match a with ANone => false | _ => true end.
(** [if cond: check] *)
Definition only_if (b : bool) (r : res unit) : res unit := if b then r else Ok tt.
Definition is_set (s : sval D) : bool := match s with SOther => false | _ => true end.
(** hybrid.py:140-210 [LtiSysDyn.__init__].  [K] has one column, so that reshaping changes nothing. *)
Definition new_lti (h : heap) (A B E K : aval) (Uset Wset domain : sval D) (sem : option string) (step : tstep) : res (heap * nat) :=
  do _ <- match Uset with SNone | SPol _ => Ok tt | _ => Err "TypeError" end;
  do _ <- if is_set domain then Ok tt else Err "TypeError";
  do _ <- only_if (given A) (do n <- square A; check_domain domain n);
  do _ <- only_if (given B) (do sb <- check_rows A B; check_uset A (snd sb) Uset);
  do _ <- only_if (given E) (check_e_array A E Wset);
  do _ <- only_if (given K) (check_k_array A K);
  do K' <- if given K then Ok K else do n <- alen A; if n =? 0 then Ok ANone else Ok (zeros_arr n 1);
  do EW <- if given E then Ok (E, Wset) else do n <- alen A; if n =? 0 then Ok (ANone, Wset) else Ok (zeros_arr n 1, SPol nothing);
  do _ <- check_time_data sem step;
  Ok (h ++ [HLti (Lti A B (fst EW) K' Uset (snd EW) domain sem step)], List.length h).

(** hybrid.py:870-907 [_push_time_data] *)
Definition set_time (sem : option string) (step : tstep) (o : hobj) : hobj :=
  match o with
  | HLti l => HLti (Lti (l_A l) (l_B l) (l_E l) (l_K l) (l_Uset l) (l_Wset l) (l_domain l) sem step)
  | HPwa p => HPwa (Pwa (p_subs p) (p_domain p) sem step)
  | HSw w => HSw (Switched (w_size w) (w_dyn w) (w_ss w) sem step)
  end.
Fixpoint update (i : nat) (f : hobj -> hobj) (h : heap) : heap :=
  match h, i with [], _ => [] | o :: r, 0 => f o :: r | o :: r, S j => o :: update j f r end.
Definition push_flat (sem : option string) (step : tstep) (refs : list nat) (h : heap) : heap :=
  fold_left (fun h r => update r (set_time sem step) h) refs h.
Definition push_time (sem : option string) (step : tstep) (refs : list nat) (h : heap) : heap :=
  fold_left (fun h r => let h' := update r (set_time sem step) h in
                        match nth_error h' r with Some (HPwa p) => push_flat sem step (p_subs p) h' | _ => h' end) refs h.
(** hybrid.py:941-984 [_check_time_consistency] *)
Definition time_of (h : heap) (r : nat) : res (option string * tstep) :=
  match nth_error h r with
  | Some (HLti l) => Ok (l_sem l, l_step l)
  | Some (HPwa p) => Ok (p_sem p, p_step p)
  | Some (HSw w) => Ok (w_sem w, w_step w)
  | None => Err "AttributeError"
  end.
Definition same_time (a b : option string * tstep) : bool := step_eqb (snd a) (snd b) && sem_eqb (fst a) (fst b).
Fixpoint check_neighbours (l : list (option string * tstep)) : res unit :=
  match l with
  | a :: (b :: _) as r => if same_time a b then check_neighbours r else Err "ValueError"
  | _ => Ok tt
  end.
Definition check_time_consistency (h : heap) (refs : list nat) (sem : option string) (step : tstep) : res unit :=
  do l <- mapr (time_of h) refs;
  do _ <- check_neighbours l;
  match l with [] => Err "IndexError" | a :: _ => if same_time a (sem, step) then Ok tt else Err "ValueError" end.

(** [s.A], [s.B], [s.E], [s.domain] *)
Definition get_lti (h : heap) (r : nat) : res lti := match nth_error h r with Some (HLti l) => Ok l | _ => Err "AttributeError" end.
Definition columns (a : aval) : res nat :=
  match a with AArr (_ :: c :: _) _ => Ok c | AArr _ _ => Err "IndexError" | _ => Err "AttributeError" end.
Definition dims (l : lti) : res (nat * nat * nat) :=
  do n <- columns (l_A l); do m <- columns (l_B l); do p <- columns (l_E l); Ok (n, m, p).
Definition the_set (s : sval D) : res D := match s with SPol d | SReg d => Ok d | _ => Err "TypeError" end.
Definition dims_eqb (a b : nat * nat * nat) : bool :=
  (fst (fst a) =? fst (fst b)) && (snd (fst a) =? snd (fst b)) && (snd a =? snd b).
(** hybrid.py:462-479: what is left of the domain *)
Fixpoint uncover (nmp : nat * nat * nat) (rest : D) (ls : list lti) : res D :=
  match ls with
  | [] => Ok rest
  | l :: r => do d <- the_set (l_domain l);
              do x <- dims l;
              if dims_eqb nmp x then uncover nmp (diff rest d) r else Err "ValueError"
  end.
(** hybrid.py:483-487 *)
Fixpoint exclusive (ds : list D) : bool :=
  match ds with [] => true | d :: r => forallb (fun e => negb (fulldim (inter d e))) r && exclusive r end.
(** hybrid.py:447-487: the check of the domains *)
Definition check_pieces (h : heap) (subs : list nat) (domain : sval D) : res unit :=
  match subs with
  | [] => Ok tt
  | r0 :: _ =>
      match domain with
      | SNone => Err "ValueError"
      | _ =>
          do d <- the_set domain;
          do ls <- mapr (get_lti h) subs;
          do l0 <- get_lti h r0;
          do nmp <- dims l0;
          do rest <- uncover nmp d ls;
          if negb (is_empty rest) then Err "ValueError"
          else do ds <- mapr (fun l => the_set (l_domain l)) ls;
               if exclusive ds then Ok tt else Err "ValueError"
      end
  end.
(** hybrid.py:413-503 [PwaSysDyn.__init__]; [list_subsys=None] is an empty list *)
Definition new_pwa (h : heap) (subs : list nat) (domain : sval D) (sem : option string) (step : tstep) (overwrite : bool) : res (heap * nat) :=
  do _ <- if is_set domain then Ok tt else Err "TypeError";
  do _ <- check_pieces h subs domain;
  do _ <- check_time_data sem step;
  do h' <- if overwrite then Ok (push_time sem step subs h)
           else do _ <- check_time_consistency h subs sem step; Ok h;
  Ok (h' ++ [HPwa (Pwa subs domain sem step)], List.length h).
(** hybrid.py:522-549 [PwaSysDyn.from_lti] *)
Definition or_list (a : aval) : aval := match a with ANone => AList | _ => a end.
Definition pwa_from_lti (h : heap) (A B E K : aval) (Uset Wset domain : sval D) : res (heap * nat) :=
  do hl <- new_lti h (or_list A) (or_list B) (or_list E) (or_list K) Uset Wset domain None TNone;
  new_pwa (fst hl) [snd hl] domain None TNone true.
(** hybrid.py:631-732 [SwitchedSysDyn.__init__] *)
Definition is_pwa (h : heap) (r : nat) : bool := match nth_error h r with Some (HPwa _) => true | _ => false end.
Definition new_switched (h : heap) (size : nat * nat) (dyn : list (mode * nat)) (ss : sval D) (env_labels sys_labels : option (list obj))
    (sem : option string) (step : tstep) (overwrite : bool) : res (heap * nat) :=
  do _ <- if is_set ss then Ok tt else Err "TypeError";
  do _ <- switched_modes (fst size) (snd size) env_labels sys_labels (map fst dyn);
  do _ <- if forallb (fun p => is_pwa h (snd p)) dyn then Ok tt else Err "TypeError";
  do _ <- check_time_data sem step;
  do h' <- if overwrite then Ok (push_time sem step (map snd dyn) h)
           else do _ <- check_time_consistency h (map snd dyn) sem step; Ok h;
  Ok (h' ++ [HSw (Switched size dyn ss sem step)], List.length h).
(** hybrid.py:817-833 [SwitchedSysDyn.from_pwa] *)
Definition switched_from_pwa (h : heap) (subs : list nat) (domain : sval D) : res (heap * nat) :=
  do hp <- new_pwa h subs domain None TNone true;
  new_switched (fst hp) (1, 1) [((state 0, state 0), snd hp)] domain None None None TNone true.
(** hybrid.py:835-867 [SwitchedSysDyn.from_lti] *)
Definition switched_from_lti (h : heap) (A B E K : aval) (Uset Wset domain : sval D) : res (heap * nat) :=
  do hp <- pwa_from_lti h A B E K Uset Wset domain;
  new_switched (fst hp) (1, 1) [((state 0, state 0), snd hp)] domain None None None TNone true.
End Hybrid.
