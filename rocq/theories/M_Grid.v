(** Model of tulip/gridworld.py: class [GridWorld] and [extract_coord].

    Simplifications.  A numpy matrix is its shape and its rows, with integer entries; [None] for [W]
    is [None].  Keys and coordinates are pairs of integers, so the tests of [len(key)] are left out.
    [int(s)] takes an optional sign, decimal digits and underscores; the non-ASCII digits that
    Python allows are left out.  A factor of [scale] is a natural number.  Drawing, [pretty] and
    [dump_ppartition] are left out. *)
From Coq Require Import List String Ascii Bool Arith ZArith.
From Verif Require Import M_Base M_Tree M_Gr1c M_Machine.
Import ListNotations.
Open Scope string_scope.
Open Scope list_scope.

Record mat := Mat { m_rows : nat; m_cols : nat; m_cells : list (list Z) }.
Definition ij : Type := Z * Z.
Definition ij_eqb (a b : ij) : bool := Z.eqb (fst a) (fst b) && Z.eqb (snd a) (snd b).
Definition ij_mem (a : ij) (l : list ij) : bool := existsb (ij_eqb a) l.
(** gridworld.py:84-118: the attributes of a [GridWorld]. *)
Record world := World { w_W : option mat; w_init : list ij; w_goal : list ij; w_prefix : string; w_offset : ij }.
Definition new_world (prefix : string) : world := World None [] [] prefix (0, 0)%Z.

(** [W[i][j]] with natural indices inside the shape. *)
Definition cell (m : mat) (i j : nat) : Z := nth j (nth i (m_cells m) []) 0%Z.
(** A matrix given by its entries. *)
Definition tab (rows cols : nat) (f : nat -> nat -> Z) : mat := Mat rows cols (map (fun i => map (f i) (List.seq 0 cols)) (List.seq 0 rows)).
(** Index [k] of an axis of length [n]: negative indices count from the end. *)
Definition index (k : Z) (n : nat) : res nat :=
  if (- Z.of_nat n <=? k)%Z && (k <? Z.of_nat n)%Z then Ok (Z.to_nat (if (k <? 0)%Z then k + Z.of_nat n else k)) else Err "IndexError".
Definition get (m : mat) (k : ij) : res Z := do i <- index (fst k) (m_rows m); do j <- index (snd k) (m_cols m); Ok (cell m i j).

(** gridworld.py:286-314, [is_empty]. *)
Definition is_empty (w : world) (k : ij) (extend : bool) : res bool :=
  match w_W w with
  | None => Err "ValueError"
  | Some m =>
      if extend && ((fst k <? 0) || (snd k <? 0) || (Z.of_nat (m_rows m) - 1 <? fst k) || (Z.of_nat (m_cols m) - 1 <? snd k))%Z then Ok false
      else do c <- get m k; Ok (Z.eqb c 0)
  end.
(** gridworld.py:316-334, [mark_occupied] and [mark_empty]. *)
Fixpoint set_nth {A} (n : nat) (x : A) (l : list A) : list A :=
  match l, n with [], _ => [] | _ :: r, O => x :: r | y :: r, S k => y :: set_nth k x r end.
Definition set_cell (m : mat) (i j : nat) (z : Z) : mat := Mat (m_rows m) (m_cols m) (set_nth i (set_nth j z (nth i (m_cells m) [])) (m_cells m)).
Definition mark (z : Z) (k : ij) (w : world) : res world :=
  match w_W w with
  | None => Err "ValueError"
  | Some m => do i <- index (fst k) (m_rows m); do j <- index (snd k) (m_cols m);
              Ok (World (Some (set_cell m i j z)) (w_init w) (w_goal w) (w_prefix w) (w_offset w))
  end.
Definition mark_occupied : ij -> world -> res world := mark 1.
Definition mark_empty : ij -> world -> res world := mark 0.

(** The check and wrapping of a key, gridworld.py:174-188, 251-267, 352-382. *)
Definition wrap (m : mat) (k : ij) : res ij :=
  let r := Z.of_nat (m_rows m) in let c := Z.of_nat (m_cols m) in
  if ((fst k <? - r) || (snd k <? - c) || (r <=? fst k) || (c <=? snd k))%Z then Err "ValueError"
  else Ok (if (fst k <? 0)%Z then r + fst k else fst k, if (snd k <? 0)%Z then c + snd k else snd k)%Z.
(** gridworld.py:153-215, [__getitem__]. *)
Definition getitem (w : world) (k : ij) (use_next nonbool : bool) : res string :=
  match w_W w with
  | None => Err "ValueError"
  | Some m =>
      do k <- wrap m k;
      let r := str_Z (fst k + fst (w_offset w)) in
      let c := str_Z (snd k + snd (w_offset w)) in
      let p := w_prefix w in
      Ok (if nonbool then
            if use_next then "((X (" ++ p ++ "_r = " ++ r ++ ")) && (X (" ++ p ++ "_c = " ++ c ++ ")))"
            else "((" ++ p ++ "_r = " ++ r ++ ") && (" ++ p ++ "_c = " ++ c ++ "))"
          else (if use_next then "X " else "") ++ p ++ "_" ++ r ++ "_" ++ c)%string
  end.
(** gridworld.py:229-284, [state]; assignments in order, a later one replaces an earlier. *)
Definition state (w : world) (k offset : ij) (nonbool : bool) : res (list (string * Z)) :=
  match w_W w with
  | None => Err "ValueError"
  | Some m =>
      do k <- wrap m k;
      let p := w_prefix w in
      let name (i j : Z) := (p ++ "_" ++ str_Z (i + fst offset) ++ "_" ++ str_Z (j + snd offset))%string in
      Ok (if nonbool then [((p ++ "_r")%string, fst k + fst offset); ((p ++ "_c")%string, snd k + snd offset)]%Z
          else map (fun x => (name (fst x) (snd x), if ij_eqb x k then 1 else 0)%Z)
                 (list_prod (map Z.of_nat (List.seq 0 (m_rows m))) (map Z.of_nat (List.seq 0 (m_cols m)))))
  end.

(** gridworld.py:385-410: the search.  [open] has its last element in front. *)
Definition moves : list ij := [(1, 0); (-1, 0); (0, 1); (0, -1)]%Z.
Definition inside (m : mat) (k : ij) : bool :=
  negb ((fst k <? 0) || (Z.of_nat (m_rows m) <=? fst k) || (snd k <? 0) || (Z.of_nat (m_cols m) <=? snd k))%Z.
Definition expand (w : world) (m : mat) (closed : list ij) (current : ij) (d : ij) (open : list ij) : res (list ij) :=
  let k := (fst current + fst d, snd current + snd d)%Z in
  if negb (inside m k) then Ok open
  else
    do e <- is_empty w k false;
    Ok (if e && negb (ij_mem k closed) && negb (ij_mem k open) then k :: open else open).
Fixpoint search (w : world) (m : mat) (stop : ij) (fuel : nat) (open closed : list ij) : res bool :=
  match open with
  | [] => Ok false
  | current :: rest =>
      match fuel with
      | O => Err "out of fuel"
      | S f =>
          if ij_eqb current stop then Ok true
          else
            do open' <- fold_res (expand w m closed current) moves rest;
            search w m stop f open' (current :: closed)
      end
  end.
(** gridworld.py:336-411, [is_reachable]. *)
Definition is_reachable (fuel : nat) (w : world) (start stop : ij) : res bool :=
  match w_W w with
  | None => Err "ValueError"
  | Some m =>
      do start <- wrap m start;
      do stop <- wrap m stop;
      do e <- is_empty w start false;
      if negb e then Ok false
      else
        do e' <- is_empty w stop false;
        if negb e' then Ok false else search w m stop fuel [start] []
  end.

(** gridworld.py:120-142, [__eq__]; [np.all(W != W')] is true when all entries differ. *)
Definition all_differ (a b : mat) : bool :=
  forallb (fun i => forallb (fun j => negb (Z.eqb (cell a i j) (cell b i j))) (List.seq 0 (m_cols a))) (List.seq 0 (m_rows a)).
Fixpoint ijs_eqb (a b : list ij) : bool :=
  match a, b with [], [] => true | x :: a', y :: b' => ij_eqb x y && ijs_eqb a' b' | _, _ => false end.
Definition world_eq (a b : world) : bool :=
  match w_W a, w_W b with
  | None, None => true
  | Some m, Some n =>
      if negb (Nat.eqb (m_rows m) (m_rows n) && Nat.eqb (m_cols m) (m_cols n)) then false
      else if all_differ m n then false
      else if negb (ijs_eqb (w_goal a) (w_goal b)) then false
      else ijs_eqb (w_init a) (w_init b)
  | _, _ => false
  end.

(** gridworld.py:763-835, [dump_subworld].  [axis] computes one component of the offsets and
    the size when [extend] is set (814-829): where to read, where to write, how many. *)
Definition axis (size offset : Z) (n : nat) : Z * Z * Z :=
  let so := Z.min (Z.max offset 0) (Z.of_nat n - 1) in
  let bo := Z.min (Z.max (- offset) 0) (size - 1) in
  (so, bo, Z.min size (Z.min (Z.of_nat n - so) (size - bo))).
(** [l[lo:hi]] with Python's rule for negative bounds. *)
Definition clamp (k : Z) (n : nat) : Z := Z.min (Z.max (if (k <? 0)%Z then k + Z.of_nat n else k) 0) (Z.of_nat n).
Definition in_slice (k lo hi : Z) (n : nat) : bool := (clamp lo n <=? k)%Z && (k <? clamp hi n)%Z.
Definition dump_subworld (w : world) (size offset : ij) (prefix : string) (extend : bool) : res world :=
  match w_W w with
  | None => Err "ValueError"
  | Some m =>
      let r := Z.of_nat (m_rows m) in let c := Z.of_nat (m_cols m) in
      if negb extend then
        if ((fst offset <? 0) || (r <=? fst offset) || (snd offset <? 0) || (c <=? snd offset))%Z then Err "ValueError"
        else if ((fst size <? 1) || (snd size <? 1) || (r <? fst offset + fst size) || (c <? snd offset + snd size))%Z then Err "ValueError"
        else Ok (World (Some (tab (Z.to_nat (fst size)) (Z.to_nat (snd size))
                               (fun i j => cell m (Z.to_nat (fst offset) + i) (Z.to_nat (snd offset) + j)))) [] [] prefix (0, 0)%Z)
      else if ((fst size <? 0) || (snd size <? 0))%Z then Err "ValueError"
      (* copying from an axis without elements fails when the copy has some *)
      else if ((r =? 0) && (0 <? fst size) || (c =? 0) && (0 <? snd size))%Z then Err "ValueError"
      else
        let '(so, bo, act) := axis (fst size) (fst offset) (m_rows m) in
        let '(so', bo', act') := axis (snd size) (snd offset) (m_cols m) in
        let sr := Z.to_nat (fst size) in let sc := Z.to_nat (snd size) in
        Ok (World (Some (tab sr sc (fun i j =>
              if in_slice (Z.of_nat i) bo (bo + act) sr && in_slice (Z.of_nat j) bo' (bo' + act') sc
              then cell m (Z.to_nat (so + (Z.of_nat i - clamp bo sr))) (Z.to_nat (so' + (Z.of_nat j - clamp bo' sc)))
              else 1%Z))) [] [] prefix (0, 0)%Z)
  end.

(** gridworld.py:1083-1119, [scale]. *)
Definition cells_of (rows cols : nat) : list (nat * nat) := list_prod (List.seq 0 rows) (List.seq 0 cols).
Definition scale (xf yf : nat) (w : world) : res world :=
  match w_W w with
  | None => Err "AttributeError"
  | Some m =>
      let rows := (m_rows m * yf)%nat in let cols := (m_cols m * xf)%nat in
      let moved (l : list ij) :=
        map (fun p => (Z.of_nat (fst p), Z.of_nat (snd p)))
          (filter (fun p => Nat.eqb (fst p mod yf) 0 && Nat.eqb (snd p mod xf) 0 && ij_mem (Z.of_nat (fst p / yf), Z.of_nat (snd p / xf)) l) (cells_of rows cols)) in
      Ok (World (Some (tab rows cols (fun i j => if Z.eqb (cell m (i / yf) (j / xf)) 1 then 1%Z else 0%Z)))
            (moved (w_init w)) (moved (w_goal w)) (w_prefix w) (0, 0)%Z)
  end.

(** ** Text *)
(** [s.split(sep)] for a separator of one character. *)
Fixpoint split_on (sep : ascii) (cur : list ascii) (s : list ascii) : list (list ascii) :=
  match s with
  | [] => [rev cur]
  | c :: r => if Ascii.eqb c sep then rev cur :: split_on sep [] r else split_on sep (c :: cur) r
  end.
(** Characters that [str.split()], [str.strip()] and [int] drop. *)
Definition is_space (c : ascii) : bool := let n := nat_of_ascii c in
  ((9 <=? n) && (n <=? 13) || (28 <=? n) && (n <=? 32) || (n =? 133) || (n =? 160))%nat.
Fixpoint lstrip (s : list ascii) : list ascii := match s with c :: r => if is_space c then lstrip r else s | [] => [] end.
Definition strip (s : list ascii) : list ascii := rev (lstrip (rev (lstrip s))).
(** [int(s)]: ASCII digits, with single underscores between them. *)
Definition is_dec (c : ascii) : bool := let n := nat_of_ascii c in (48 <=? n)%nat && (n <=? 57)%nat.
Fixpoint digits_val (acc : Z) (s : list ascii) : option Z :=
  match s with
  | [] => Some acc
  | c :: r =>
      if is_dec c then digits_val (acc * 10 + Z.of_nat (nat_of_ascii c - 48)) r
      else if Ascii.eqb c "_" then match r with d :: _ => if is_dec d then digits_val acc r else None | [] => None end
      else None
  end.
Definition digits (s : list ascii) : option Z := match s with c :: _ => if is_dec c then digits_val 0 s else None | [] => None end.
Definition py_int (s : list ascii) : option Z :=
  match strip s with
  | [] => None
  | c :: r => if Ascii.eqb c "-" then option_map Z.opp (digits r)
              else if Ascii.eqb c "+" then digits r
              else digits (c :: r)
  end.
Definition text (l : list ascii) : string := string_of_list_ascii l.
(** gridworld.py:1491-1524, [extract_coord] of a string. *)
Definition extract_coord (name : string) : option (string * Z * Z) :=
  let frags := split_on "_" [] (list_ascii_of_string name) in
  match rev frags with
  | c :: r :: rest =>
      match rest with
      | [] => None
      | _ =>
          let prefix := join "_" (map text (rev rest)) in
          if String.eqb (text c) "n" && String.eqb (text r) "n" then Some (prefix, -1, -1)%Z
          else match py_int c, py_int r with
               | Some col, Some row => Some (prefix, row, col)
               | _, _ => None
               end
      end
  | _ => None
  end.

(** Characters that [str.splitlines()] breaks at. *)
Definition is_break (c : ascii) : bool := let n := nat_of_ascii c in
  ((10 <=? n) && (n <=? 13) || (28 <=? n) && (n <=? 30) || (n =? 133))%nat.
(** [s.splitlines()] *)
Fixpoint splitlines (cur : list ascii) (s : list ascii) : list (list ascii) :=
  match s with
  | [] => match cur with [] => [] | _ => [rev cur] end
  | c :: r =>
      if is_break c then
        rev cur :: match Ascii.eqb c (ascii_of_nat 13), r with
                   | true, d :: r' => if Ascii.eqb d (ascii_of_nat 10) then splitlines [] r' else splitlines [] r
                   | _, _ => splitlines [] r
                   end
      else splitlines (c :: cur) r
  end.
(** [s.split()] *)
Fixpoint words (cur : list ascii) (s : list ascii) : list (list ascii) :=
  match s with
  | [] => match cur with [] => [] | _ => [rev cur] end
  | c :: r => if is_space c then match cur with [] => words [] r | _ => rev cur :: words [] r end else words (c :: cur) r
  end.

(** gridworld.py:621-714, [loads]: the matrix, the initial cells and the goals. *)
Definition loaded : Type := mat * list ij * list ij.
Fixpoint load_row (row j : nat) (line : list ascii) (st : loaded) : res loaded :=
  let '(m, init, goal) := st in
  match line with
  | [] => Ok st
  | c :: r =>
      if Nat.leb (m_cols m) j then Ok st
      else
        do st' <- (if Ascii.eqb c " " then Ok (set_cell m row j 0, init, goal)
                   else if Ascii.eqb c "*" then Ok (set_cell m row j 1, init, goal)
                   else if Ascii.eqb c "I" then Ok (m, init ++ [(Z.of_nat row, Z.of_nat j)], goal)
                   else if Ascii.eqb c "G" then Ok (m, init, goal ++ [(Z.of_nat row, Z.of_nat j)])
                   else Err "ValueError");
        load_row row (S j) r st'
  end.
Fixpoint load_rows (row : nat) (lines : list (list ascii)) (st : loaded) : res loaded :=
  match lines with
  | [] => Ok st
  | l :: r => if Nat.leb (m_rows (fst (fst st))) row then Ok st else do st' <- load_row row 0 l st; load_rows (S row) r st'
  end.
Fixpoint load_lines (lines : list (list ascii)) : res loaded :=
  match lines with
  | [] => Err "ValueError"
  | l :: r =>
      match words [] l with
      | [] => load_lines r
      | (c :: _) as w1 :: ws =>
          if Ascii.eqb c "#" then load_lines r
          else match ws with
               | [] => do _ <- of_opt "ValueError" (py_int w1); Err "IndexError"
               | w2 :: _ =>
                   do a <- of_opt "ValueError" (py_int w1);
                   do b <- of_opt "ValueError" (py_int w2);
                   if (a <? 0)%Z || (b <? 0)%Z then Err "ValueError"
                   else load_rows 0 r (tab (Z.to_nat a) (Z.to_nat b) (fun _ _ => 0%Z), [], [])
               end
      | [] :: _ => load_lines r
      end
  end.
Definition loads (s : string) : res world :=
  do st <- load_lines (splitlines [] (list_ascii_of_string s));
  let '(m, init, goal) := st in Ok (World (Some m) init goal "Y" (0, 0)%Z).
(** gridworld.py:730-761, [dumps]. *)
Definition newline : string := String (ascii_of_nat 10) EmptyString.
Definition symbol (w : world) (m : mat) (i j : nat) : res string :=
  let c := cell m i j in let k := (Z.of_nat i, Z.of_nat j) in
  if Z.eqb c 0 then Ok (if ij_mem k (w_init w) then "I" else if ij_mem k (w_goal w) then "G" else " ")
  else if Z.eqb c 1 then Ok "*" else Err "ValueError".
Definition dumps (line_prefix : string) (w : world) : res string :=
  match w_W w with
  | None => Err "ValueError"
  | Some m =>
      do rows <- mapr (fun i => do cs <- mapr (symbol w m i) (List.seq 0 (m_cols m)); Ok (line_prefix ++ String.concat "" cs ++ newline)%string)
                   (List.seq 0 (m_rows m));
      Ok (line_prefix ++ str_nat (m_rows m) ++ " " ++ str_nat (m_cols m) ++ newline ++ String.concat "" rows)%string
  end.
(** gridworld.py:222-227, [copy], through [__init__] 103-118. *)
Definition copy (w : world) : res world :=
  do s <- dumps "" w; do g <- loads s; Ok (World (w_W g) (w_init g) (w_goal g) (w_prefix w) (0, 0)%Z).
