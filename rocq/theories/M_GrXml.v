(** Model of reading strategies and specifications in tulipcon XML, and of the version of gr1c
    (tulip/interfaces/gr1c.py 108-412, 623-654).

    The parser of XML is not modelled: a document is the tree that [xml.etree.ElementTree] gives.  Names of elements have
    their namespace in braces, as there.  Methods of elements that Python 3.10 does not have raise AttributeError. *)
From Coq Require Import List String Ascii Bool Arith ZArith.
From Verif Require Import M_Tree M_Base M_Grid M_LtlFile.
Import ListNotations.
Open Scope list_scope.
Open Scope string_scope.

Definition chars (s : string) : list ascii := list_ascii_of_string s.
Inductive xml : Type := Xml (tag : string) (attrib : list (string * string)) (txt : option string) (kids : list xml).
Definition x_tag (e : xml) : string := match e with Xml t _ _ _ => t end.
Definition x_attr (e : xml) (k : string) : res string := match e with Xml _ a _ _ => of_opt "KeyError" (M_Base.lookup k a) end.
Definition x_text (e : xml) : option string := match e with Xml _ _ t _ => t end.
(** [elem.findall] and [elem.find] *)
Definition findall (tag : string) (e : xml) : list xml := match e with Xml _ _ _ l => filter (fun k => x_tag k =? tag) l end.
Definition find1 (tag : string) (e : xml) : option xml := match findall tag e with k :: _ => Some k | [] => None end.
(** Using [None] as an element *)
Definition some_elem (e : option xml) : res xml := of_opt "AttributeError" e.

(** gr1c.py:63 *)
Definition default_ns : option string := Some "http://tulip-control.sourceforge.net/ns/1".
(** gr1c.py:165-168, 225-228, 271-274 *)
Definition ns_prefix (ns : option string) : string :=
  match ns with Some n => if (String.length n =? 0)%nat then "" else "{" ++ n ++ "}" | None => "" end.
Definition int_of (s : string) : res Z := of_opt "ValueError" (py_int (chars s)).

(** gr1c.py:136-179 [_untaglist] *)
Definition untaglist {A} (cast : string -> res A) (ns : option string) (x : option xml) : res (string * list A) :=
  do e <- some_elem x;
  do li <- match findall (ns_prefix ns ++ "litem") e with
           | [] => match x_text e with None => Ok [] | Some t => mapr cast (map text (words [] (chars t))) end
           | items => mapr (fun k => do v <- x_attr k "value"; cast v) items
           end;
  Ok (x_tag e, li).
(** gr1c.py:182-247 [_untagdict] *)
Definition untagdict {A} (cast : string -> res A) (ns : option string) (x : option xml) : res (string * list (string * A) * list string) :=
  do e <- some_elem x;
  do kvs <- mapr (fun i => do v <- x_attr i "value"; do a <- cast v; do k <- x_attr i "key"; Ok (k, a)) (findall (ns_prefix ns ++ "item") e);
  Ok (x_tag e, fold_left (fun d kv => assign (fst kv) (snd kv) d) kvs [], map fst kvs).

Inductive xdom : Type := XBool | XRange (a b : Z).
(** gr1c.py:388-404: one domain *)
Definition parse_dom (dom : string) : res xdom :=
  match chars dom with
  | [] => Err "IndexError"
  | c :: r =>
      if Ascii.eqb c "[" then
        match find_sub ["]"%char] (c :: r) with
        | None => Err "ValueError"
        | Some i => match split_on "," [] (firstn (i - 1) r) with
                    | [a; b] => do x <- of_opt "ValueError" (py_int a); do y <- of_opt "ValueError" (py_int b); Ok (XRange x y)
                    | _ => Err "ValueError"
                    end
        end
      else if dom =? "boolean" then Ok XBool else Err "ValueError"
  end.
(** gr1c.py:377-412 [_parse_vars] *)
Definition parse_vars (vars : list string) (d : list (string * string)) : res (list (string * xdom)) :=
  do doms <- mapr (fun x => do t <- of_opt "KeyError" (M_Base.lookup x d); parse_dom t) vars;
  Ok (fold_left (fun d kv => assign (fst kv) (snd kv) d) (combine vars doms) []).

Record xspec : Type := XSpec { x_env : list (string * xdom); x_sys : list (string * xdom); x_parts : list (string * list string) }.
(** gr1c.py:295 [GRSpec(env_vars=..., sys_vars=...)]: of the constructor (form.py 436-553) only the check of names of
    form.py:176-190 can raise *)
Definition new_spec (env sys : list (string * xdom)) : res unit :=
  if existsb (fun kv => existsb (fun kv' => fst kv =? fst kv') sys) env then Err "Exception" else Ok tt.
(** [s.replace(p, q)] *)
Definition replace_sub (p q : string) (s : string) : string := join q (map text (split_sub (chars p) 0 [] (chars s))).
(** gr1c.py:308-310 *)
Definition unescape (v : string) : string := replace_sub "&amp;" "&" (replace_sub "&gt;" ">" (replace_sub "&lt;" "<" v)).
(** gr1c.py:296-311 *)
Definition spec_tags : list string := ["env_init"; "env_safety"; "env_prog"; "sys_init"; "sys_safety"; "sys_prog"].
Definition read_part (ns : option string) (s : option xml) (tag : string) : res (string * list string) :=
  do s <- some_elem s;
  match find1 (ns_prefix ns ++ tag) s with
  | None => Err "ValueError"
  | Some p => do tl <- untaglist (fun v => Ok v) ns (Some p); Ok (tag, map unescape (snd tl))
  end.

(** Graphs of networkx: nodes with their attributes, if they have been given, and edges *)
Record xnode : Type := XNode { n_state : list (string * Z); n_mode : Z; n_rgrad : Z }.
Record xgraph : Type := XGraph { g_env : list (string * xdom); g_sys : list (string * xdom); g_nodes : list (Z * option xnode); g_edges : list (Z * Z) }.
Fixpoint set_node (u : Z) (a : xnode) (l : list (Z * option xnode)) : list (Z * option xnode) :=
  match l with [] => [(u, Some a)] | (v, b) :: r => if (u =? v)%Z then (v, Some a) :: r else (v, b) :: set_node u a r end.
Definition touch_node (u : Z) (l : list (Z * option xnode)) : list (Z * option xnode) :=
  if existsb (fun vb => (u =? fst vb)%Z) l then l else l ++ [(u, None)].
Definition add_edge (u v : Z) (g : xgraph) : xgraph :=
  XGraph (g_env g) (g_sys g) (touch_node v (touch_node u (g_nodes g)))
         (if existsb (fun e => (u =? fst e)%Z && (v =? snd e)%Z) (g_edges g) then g_edges g else g_edges g ++ [(u, v)]).
Definition add_node (u : Z) (a : xnode) (g : xgraph) : xgraph := XGraph (g_env g) (g_sys g) (set_node u a (g_nodes g)) (g_edges g).

(** gr1c.py:332-358: what is read of one node; the checks of the names of elements that were found by name cannot fail *)
Definition read_node (ns : option string) (n : xml) : res (Z * xnode * list Z) :=
  do i <- some_elem (find1 (ns_prefix ns ++ "id") n);
  do t <- of_opt "TypeError" (x_text i);
  do id <- int_of t;
  do anno <- untaglist int_of default_ns (find1 (ns_prefix ns ++ "anno") n);
  let '(mode, rgrad) := match snd anno with [m; r] => (m, r) | _ => (-1, -1)%Z end in
  do kids <- untaglist int_of default_ns (find1 (ns_prefix ns ++ "child_list") n);
  do st <- untagdict int_of ns (find1 (ns_prefix ns ++ "state") n);
  Ok (id, XNode (snd (fst st)) mode rgrad, snd kids).
(** gr1c.py:331-373 *)
Fixpoint read_nodes (ns : option string) (l : list xml) (ids : list Z) (g : xgraph) : res xgraph :=
  match l with
  | [] => Ok g
  | n :: r =>
      do row <- read_node ns n;
      let '(id, a, kids) := row in
      if existsb (Z.eqb id) ids then read_nodes ns r ids g
      else read_nodes ns r (ids ++ [id]) (fold_left (fun g v => add_edge id v g) kids (add_node id a g))
  end.

Inductive loaded : Type := LSpec (s : xspec) | LGraph (g : xgraph).
(** gr1c.py:250-374 [load_aut_xml] *)
Definition load_aut_xml (ns : option string) (e : xml) : res loaded :=
  if negb (x_tag e =? ns_prefix ns ++ "tulipcon") then Err "TypeError" else
  match x_attr e "version" with
  | Err _ => Err "ValueError"
  | Ok ver =>
      do v <- int_of ver;
      if negb (v =? 1)%Z then Err "ValueError" else
      do ed <- untagdict (fun v => Ok v) default_ns (find1 (ns_prefix ns ++ "env_vars") e);
      do sd <- untagdict (fun v => Ok v) default_ns (find1 (ns_prefix ns ++ "sys_vars") e);
      do env <- parse_vars (snd ed) (snd (fst ed));
      do sys <- parse_vars (snd sd) (snd (fst sd));
      do _ <- new_spec env sys;
      do parts <- mapr (read_part ns (find1 (ns_prefix ns ++ "spec") e)) spec_tags;
      match find1 (ns_prefix ns ++ "aut") e with
      | None => Ok (LSpec (XSpec env sys parts))
      | Some aut =>
          match x_text aut with
          | None => Err "AttributeError" (* [getchildren] *)
          | Some _ =>
              do ty <- x_attr aut "type";
              if negb (ty =? "basic") then Err "ValueError" else
              do g <- read_nodes ns (findall (ns_prefix ns ++ "node") aut) [] (XGraph env sys [] []);
              Ok (LGraph g)
          end
      end
  end.

(** gr1c.py:623-654 [load_mealy], with the parser of XML and [load_aut_json] as parameters *)
Section Mealy.
Context {G : Type}.
Variable fromstring : string -> res xml.
Variable load_aut_json : string -> res G.
Definition lower (s : string) : string :=
  text (map (fun c => let n := nat_of_ascii c in if ((65 <=? n) && (n <=? 90))%nat then ascii_of_nat (n + 32) else c) (chars s)).
Definition load_mealy (s fformat : string) : res (xgraph + G) :=
  if lower fformat =? "tulipxml" then
    do e <- fromstring s;
    do r <- load_aut_xml default_ns e;
    match r with LGraph g => Ok (inl g) | LSpec _ => Err "AttributeError" end
  else if lower fformat =? "json" then do g <- load_aut_json s; Ok (inr g)
  else Err "UnboundLocalError".
End Mealy.

(** gr1c.py:108-133 [get_version], of the output of the tool *)
Definition get_version (out : option string) : res (Z * Z * Z) :=
  do s <- of_opt "OSError" out;
  match words [] (chars s) with
  | _ :: v :: _ =>
      match split_on "." [] v with
      | [a; b; c] => do x <- of_opt "ValueError" (py_int a); do y <- of_opt "ValueError" (py_int b); do z <- of_opt "ValueError" (py_int c); Ok (x, y, z)
      | _ => Err "ValueError"
      end
  | _ => Err "IndexError"
  end.
