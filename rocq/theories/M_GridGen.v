(** Model of the functions that make gridworlds, tulip/gridworld.py: [random_world] (1122-1266), [narrow_passage]
    (1269-1342), [unoccupied] (1345-1363).

    The draws of the random number generators are a parameter: the [k]-th draw from [n] values is [draws k] modulo [n], so
    that every outcome is the one of some [draws].  Sizes and numbers of cells are natural numbers, [wall_density] is given
    by the number of walls that it asks for, floats are rationals; [passage_length] is at least -1 (for less, columns outside
    of the grid would be drawn). *)
From Coq Require Import List String Ascii Bool Arith ZArith QArith Qround Qminmax.
From Verif Require Import M_Base M_Tree M_Gr1c M_Machine M_Grid.
Import ListNotations.
Open Scope string_scope.
Open Scope list_scope.
Open Scope nat_scope.

Section Generators.
Variable draws : nat -> nat.
(** [np.random.randint(low=0, high=n)] *)
Definition randint (k : nat) (n : Z) : res nat := if (n <=? 0)%Z then Err "ValueError" else Ok (draws k mod Z.to_nat n).
(** [l[np.random.randint(low=0, high=len(l))]] *)
Definition choose (k : nat) (l : list nat) : res nat := do i <- randint k (Z.of_nat (List.length l)); Ok (nth i l 0).
Definition in_list (i : nat) (l : list nat) : bool := existsb (Nat.eqb i) l.

(** ** [random_world] *)
(** gridworld.py:1189-1192, 1196-1203, 1207-1213, 1220-1226: the cells without wall that are in none of the lists *)
Definition avail (W : list Z) (used : list nat) : list nat :=
  filter (fun i => (nth i W 0 =? 0)%Z && negb (in_list i used)) (seq 0 (List.length W)).
(** gridworld.py:1188-1194, 1195-1205, 1206-1215 *)
Fixpoint place (n k : nat) (W : list Z) (others acc : list nat) : res (list nat) :=
  match n with
  | O => Ok acc
  | S n' => do c <- choose k (avail W (others ++ acc)); place n' (S k) W others (acc ++ [c])
  end.
(** [W.reshape(size)] *)
Fixpoint chunk (rows cols : nat) (W : list Z) : list (list Z) :=
  match rows with O => [] | S r => firstn cols W :: chunk r cols (skipn cols W) end.
Definition reshape (rows cols : nat) (W : list Z) : mat := Mat rows cols (chunk rows cols W).
(** [(k // size[1], k % size[1])] *)
Definition pos (cols k : nat) : ij := (Z.of_nat (k / cols), Z.of_nat (k mod cols)).
(** gridworld.py:1243-1250: every point reaches the next one, and the last the first *)
Fixpoint chain_ok (fuel : nat) (w : world) (first : ij) (l : list ij) : res bool :=
  match l with
  | [] => Ok true
  | a :: r => do b <- is_reachable fuel w a (match r with b :: _ => b | [] => first end);
              if b then chain_ok fuel w first r else Ok false
  end.
(** gridworld.py:1235-1250 *)
Definition feasible (rows cols : nat) (prefix : string) (inits goals : list nat) (W : list Z) : res bool :=
  let w := World (Some (reshape rows cols W)) [] [] prefix (0, 0)%Z in
  let chain := map (pos cols) (inits ++ goals) in
  chain_ok (S (rows * cols)) w (hd (0, 0)%Z chain) chain.
(** gridworld.py:1216-1253; [late k]: the time is over at the [k]-th test *)
Fixpoint walls (fuel : nat) (late : nat -> bool) (rows cols num_blocks : nat) (prefix : string) (ensure : bool)
    (inits goals trolls : list nat) (count k : nat) (W : list Z) : res (option (list Z)) :=
  match fuel with
  | O => Err "(runs on)"
  | S f =>
      if count <? num_blocks then
        do c <- choose k (avail W (goals ++ inits ++ trolls));
        let W' := set_nth c 1%Z W in
        if ensure then
          if late k then Ok None
          else
            do b <- feasible rows cols prefix inits goals W';
            if b then walls f late rows cols num_blocks prefix ensure inits goals trolls (S count) (S k) W'
            else walls f late rows cols num_blocks prefix ensure inits goals trolls count (S k) (set_nth c 0%Z W')
        else walls f late rows cols num_blocks prefix ensure inits goals trolls (S count) (S k) W'
      else Ok (Some W)
  end.
(** gridworld.py:1179-1266: [None] when the time is over; the list of trolls is returned only if there are any *)
Definition random_world (fuel : nat) (late : nat -> bool) (rows cols num_blocks num_init num_goals num_trolls : nat) (prefix : string) (ensure : bool)
    : res (option (world * list (ij * Z))) :=
  let W := repeat 0%Z (rows * cols) in
  do goals <- place num_goals 0 W [] [];
  do inits <- place num_init num_goals W goals [];
  do trolls <- place num_trolls (num_goals + num_init) W (goals ++ inits) [];
  do W <- walls fuel late rows cols num_blocks prefix ensure inits goals trolls 0 (num_goals + num_init + num_trolls) W;
  Ok (match W with
      | None => None
      | Some W => Some (World (Some (reshape rows cols W)) (map (pos cols) inits) (map (pos cols) goals) prefix (0, 0)%Z,
                        map (fun k => (pos cols k, 1%Z)) trolls)
      end).

(** ** [narrow_passage] *)
(** gridworld.py:1345-1363 [unoccupied], with gridworld.py:89-118 [GridWorld(text, prefix="Y")] *)
Definition unoccupied (rows cols : nat) (prefix : string) : res world :=
  do w <- loads (str_nat rows ++ " " ++ str_nat cols)%string;
  Ok (World (w_W w) (w_init w) (w_goal w) "Y" (0, 0)%Z).
(** [random.sample(l, n)] *)
Fixpoint remove_nth {A} (i : nat) (l : list A) : list A :=
  match l, i with [], _ => [] | _ :: r, O => r | x :: r, S j => x :: remove_nth j r end.
Fixpoint sample (n k : nat) (l : list ij) : res (list ij) :=
  match n with
  | O => Ok []
  | S n' => do i <- randint k (Z.of_nat (List.length l));
            do r <- sample n' (S k) (remove_nth i l);
            Ok (nth i l (0, 0)%Z :: r)
  end.
(** gridworld.py:1311 [int(max(1, zone_width))] *)
Definition zone (passage_length : Q) (cols : nat) : nat :=
  Z.to_nat (Qfloor (Qmax 1 (((1 - passage_length) / 2) * inject_Z (Z.of_nat cols)))).
(** gridworld.py:1303-1342; [passage_width] and [ptop] are integers *)
Definition narrow_passage (rows cols : nat) (passage_width : Z) (num_init num_goals : nat) (passage_length : Q) (ptop : option Z) (prefix : string) : res world :=
  if (rows <? 3) || (cols <? 3) then Err "ValueError" else
  do w <- unoccupied rows cols prefix;
  let izone := zone passage_length cols in
  let gzone := (Z.of_nat cols - Z.of_nat izone)%Z in
  if (izone * rows <? num_init) || (gzone * Z.of_nat rows <? Z.of_nat num_goals)%Z then Err "ValueError" else
  do top <- match ptop with Some t => Ok t | None => do t <- randint 0 (Z.of_nat rows - passage_width); Ok (Z.of_nat t) end;
  let passage y := ((top <=? Z.of_nat y) && (Z.of_nat y <? top + passage_width))%Z in
  let g := Z.to_nat gzone in
  let tube := filter (fun p => negb (passage (fst p))) (list_prod (seq 0 rows) (seq izone (g - izone))) in
  do m <- of_opt "TypeError" (w_W w);
  let m := fold_left (fun m p => set_cell m (fst p) (snd p) 1%Z) tube m in
  let cells xs := map (fun p => (Z.of_nat (fst p), Z.of_nat (snd p))) (list_prod (seq 0 rows) xs) in
  do inits <- sample num_init 1 (cells (seq 0 izone));
  do goals <- sample num_goals (S num_init) (cells (seq g (cols - g)));
  Ok (World (Some m) inits goals (w_prefix w) (w_offset w)).
End Generators.
