(** Model of [LTL.dumps] and [LTL.loads], tulip/spec/form.py:140-283.

    Simplifications.  A domain is 'boolean', a pair of integers or an iterable of integers and
    strings, given by its elements in the order of iteration; loaded sets are given by their
    elements in the order of first occurrence.  The text of a timestamp is a parameter.  Characters
    are bytes. *)
From Coq Require Import List String Ascii Bool Arith ZArith.
From Verif Require Import M_Base M_Tree M_Gr1c M_Machine M_Grid.
Import ListNotations.
Open Scope string_scope.
Open Scope list_scope.

Inductive elem := EInt (z : Z) | EStr (s : string).
Inductive ldom := LBool | LPair (a b : Z) | LIter (l : list elem).
Definition decls : Type := list (string * ldom).
Record ltl := Ltl { l_formula : string; l_in : decls; l_out : decls }.
Definition chars (s : string) : list ascii := list_ascii_of_string s.

(** form.py:140-148 *)
Definition elem_str (e : elem) : string := match e with EInt z => str_Z z | EStr s => s end.
Definition domain_str (d : ldom) : string :=
  match d with
  | LBool => "boolean"
  | LPair a b => "[" ++ str_Z a ++ ", " ++ str_Z b ++ "]"
  | LIter l => "{" ++ join ", " (map elem_str l) ++ "}"
  end%string.
(** form.py:150-174 *)
Definition decl_line (kv : string * ldom) : string := (fst kv ++ " : " ++ domain_str (snd kv) ++ ";" ++ newline)%string.
Definition dumps (stamp : option string) (l : ltl) : string :=
  ((match stamp with Some t => "# Generated at " ++ t ++ newline | None => "" end) ++
   "0  # Version" ++ newline ++ "%%" ++ newline ++
   (match l_in l with [] => "" | d => "INPUT:" ++ newline ++ String.concat "" (map decl_line d) end) ++
   (match l_out l with [] => "" | d => newline ++ "OUTPUT:" ++ newline ++ String.concat "" (map decl_line d) end) ++
   newline ++ "%%" ++ newline ++ l_formula l)%string.

(** ** [str] methods and the regular expression *)
Fixpoint starts (p s : list ascii) : bool :=
  match p, s with [], _ => true | a :: p', b :: s' => Ascii.eqb a b && starts p' s' | _, [] => false end.
(** [s.find(p)], [None] for -1 *)
Fixpoint find_sub (p s : list ascii) : option nat :=
  if starts p s then Some 0 else match s with [] => None | _ :: r => option_map S (find_sub p r) end.
(** [s.split(p)] for a non-empty [p]; [skip] characters of a separator are still to be dropped. *)
Fixpoint split_sub (p : list ascii) (skip : nat) (cur s : list ascii) : list (list ascii) :=
  match s with
  | [] => [rev cur]
  | c :: r =>
      match skip with
      | S k => split_sub p k cur r
      | O => if starts p s then rev cur :: split_sub p (List.length p - 1) [] r else split_sub p 0 (c :: cur) r
      end
  end.
(** [s.replace(p, '')] *)
Definition remove_sub (p s : list ascii) : list ascii := List.concat (split_sub p 0 [] s).
Definition nl : ascii := ascii_of_nat 10.
(** [re.sub('#.*(\n|$)', '', s)], form.py:224-230 *)
Fixpoint uncomment (inside : bool) (s : list ascii) : list ascii :=
  match s with
  | [] => []
  | c :: r => if inside then uncomment (negb (Ascii.eqb c nl)) r
              else if Ascii.eqb c "#" then uncomment true r else c :: uncomment false r
  end.
Definition slice (a b : nat) (s : list ascii) : list ascii := firstn (b - a) (skipn a s).
Fixpoint until_hash (s : list ascii) : list ascii := match s with [] => [] | c :: r => if Ascii.eqb c "#" then [] else c :: until_hash r end.

(** form.py:209-222: the first line that is not blank is the version. *)
Fixpoint check_version (lines : list (list ascii)) : res unit :=
  match lines with
  | [] => Ok tt
  | l :: r =>
      match until_hash (strip l) with
      | [] => check_version r
      | v => match py_int v with Some z => if Z.eqb z 0 then Ok tt else Err "ValueError" | None => Err "ValueError" end
      end
  end.
(** form.py:262-268: an element of a set is an integer if it reads as one. *)
Definition load_elem (s : list ascii) : elem := match py_int s with Some z => EInt z | None => EStr (text s) end.
Definition elem_eqb (a b : elem) : bool :=
  match a, b with EInt x, EInt y => Z.eqb x y | EStr x, EStr y => String.eqb x y | _, _ => false end.
Fixpoint as_set (seen : list elem) (l : list elem) : list elem :=
  match l with [] => [] | x :: r => if existsb (elem_eqb x) seen then as_set seen r else x :: as_set (x :: seen) r end.
Fixpoint until_bracket (s : list ascii) : option (list ascii) :=
  match s with [] => None | c :: r => if Ascii.eqb c "]" then Some [] else option_map (cons c) (until_bracket r) end.
(** form.py:251-275 *)
Definition load_domain (d : list ascii) : res ldom :=
  match d with
  | [] => Err "IndexError"
  | c :: r =>
      if Ascii.eqb c "[" then
        match split_on "," [] d with
        | lo :: hi :: _ =>
            do a <- of_opt "ValueError" (py_int (tl lo));
            do h <- of_opt "ValueError" (until_bracket hi);
            do b <- of_opt "ValueError" (py_int h);
            Ok (LPair a b)
        | [lo] => do _ <- of_opt "ValueError" (py_int (tl lo)); Err "IndexError"
        | [] => Err "IndexError"
        end
      else if Ascii.eqb c "{" then
        if Ascii.eqb (last d " "%char) "}" then Ok (LIter (as_set [] (map load_elem (split_on "," [] (removelast r))))) else Err "AssertionError"
      else if String.eqb (text d) "boolean" then Ok LBool else Err "ValueError"
  end.
(** A dict: assigning a new key appends it. *)
Fixpoint assign {A} (k : string) (v : A) (d : list (string * A)) : list (string * A) :=
  match d with
  | [] => [(k, v)]
  | kv :: r => if String.eqb (fst kv) k then (k, v) :: r else kv :: assign k v r
  end.
(** form.py:245-275: the declarations of a section; [rstrip(';')] has nothing to strip. *)
Fixpoint load_section (decl : list (list ascii)) (d : decls) : res decls :=
  match decl with
  | [] => Ok d
  | x :: r =>
      match strip x with
      | [] => load_section r d
      | _ =>
          match split_on ":" [] x with
          | [n; dom] => do v <- load_domain (lstrip dom); load_section r (assign (text (strip n)) v d)
          | _ => Err "ValueError"
          end
      end
  end.
(** form.py:203-283 and the check of the constructor, 175-192. *)
Definition loads (s : string) : res ltl :=
  do _ <- check_version (splitlines [] (chars s));
  match split_sub (chars "%%" ++ [nl]) 0 [] (uncomment false (chars s)) with
  | [_; declar; formula] =>
      let i := find_sub (chars "INPUT:") declar in
      let o := match find_sub (chars "OUTPUT:") declar with Some o => o | None => 0 end in
      let '(ins, outs) :=
        match i with
        | None => ([], skipn o declar)
        | Some i => if Nat.ltb i o then (slice i o declar, skipn o declar) else (skipn i declar, slice o i declar)
        end in
      do di <- load_section (split_on ";" [] (remove_sub (chars "INPUT:") ins)) [];
      do d <- load_section (split_on ";" [] (remove_sub (chars "OUTPUT:") outs)) [];
      if existsb (fun kv => existsb (fun kv' => String.eqb (fst kv) (fst kv')) d) di then Err "Exception"
      else Ok (Ltl (text formula) di d)
  | _ => Err "ValueError"
  end.
