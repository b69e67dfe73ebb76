(** Python dictionaries with string keys, and the type-checking dictionary
    tulip/transys/mathset.py:914-1026 (class [TypedDict]).

    A [dict] is an association list in insertion order, each key once.  Values are
    taken up to Python's [==], so [veqb] decides equality of values.  A domain is a test
    [V -> bool]; a test that raises counts as false, as in mathset.py:952-957. *)
From Coq Require Import List String Bool.
From Verif Require Import M_Base.
Import ListNotations.
Open Scope string_scope.
Open Scope list_scope.

Section Dict.
  Context {V : Type} (veqb : V -> V -> bool).

  Definition attrs := list (string * V).

  (** [d[k] = v]: an existing key keeps its place. *)
  Fixpoint set_item (k : string) (v : V) (d : attrs) : attrs :=
    match d with
    | [] => [(k, v)]
    | (k', v') :: r => if k =? k' then (k', v) :: r else (k', v') :: set_item k v r
    end.

  (** [d.update(e)] for plain dictionaries. *)
  Definition update (d e : attrs) : attrs :=
    fold_left (fun d kv => set_item (fst kv) (snd kv) d) e d.

  (** [del d[k]] *)
  Definition del_item (k : string) (d : attrs) : attrs :=
    filter (fun kv => negb (fst kv =? k)) d.

  (** Python's [d == e]: the same keys with equal values, in any order. *)
  Definition sub_dict (d e : attrs) : bool :=
    forallb (fun kv => match lookup (fst kv) e with
                       | Some w => veqb (snd kv) w | None => false end) d.
  Definition dict_eqb (d e : attrs) : bool := sub_dict d e && sub_dict e d.

  (** [allowed_values]: a key may be typed; a domain [None] allows everything. *)
  Definition types := list (string * option (V -> bool)).
  Definition allowed (ty : types) (k : string) (v : V) : bool :=
    match lookup k ty with
    | Some (Some dom) => dom v
    | _ => true
    end.

  (** mathset.py:944-967, [TypedDict.__setitem__]. *)
  Definition typed_set (ty : types) (k : string) (v : V) (d : attrs) : res attrs :=
    if allowed ty k v then Ok (set_item k v d) else Err "ValueError".

  (** A call that mutates the dictionary returns its final contents and the exception
      raised, if any. *)
  Definition outcome := (attrs * option string)%type.

  (** mathset.py:972-986, [TypedDict.update]: key by key, so the keys before a rejected
      one have been stored. *)
  Fixpoint typed_update (ty : types) (e : attrs) (d : attrs) : outcome :=
    match e with
    | [] => (d, None)
    | (k, v) :: r => match typed_set ty k v d with
                     | Ok d' => typed_update ty r d'
                     | Err x => (d, Some x)
                     end
    end.

  (** The same, when the dictionary is dropped if the update fails. *)
  Definition typed_update_res (ty : types) (e d : attrs) : res attrs :=
    match typed_update ty e d with
    | (d', None) => Ok d'
    | (_, Some x) => Err x
    end.

  (** mathset.py:988-994, [TypedDict.setdefault]. *)
  Definition typed_setdefault (ty : types) (k : string) (v : V) (d : attrs) : outcome :=
    match lookup k d with
    | Some _ => (d, None)
    | None => match typed_set ty k v d with
              | Ok d' => (d', None)
              | Err x => (d, Some x)
              end
    end.

  (** The calls a client can make; [TIor] is [d |= e], inherited from [dict], which does
      not go through [__setitem__]. *)
  Inductive dop :=
  | TSet (k : string) (v : V)
  | TUpdate (e : attrs)
  | TSetdefault (k : string) (v : V)
  | TDel (k : string)
  | TIor (e : attrs).

  Definition dstep (ty : types) (o : dop) (d : attrs) : outcome :=
    match o with
    | TSet k v => match typed_set ty k v d with
                  | Ok d' => (d', None)
                  | Err x => (d, Some x)
                  end
    | TUpdate e => typed_update ty e d
    | TSetdefault k v => typed_setdefault ty k v d
    | TDel k => match lookup k d with
                | Some _ => (del_item k d, None)
                | None => (d, Some "KeyError")
                end
    | TIor e => (update d e, None)
    end.
  Definition drun (ty : types) (l : list dop) (d : attrs) : attrs :=
    fold_left (fun d o => fst (dstep ty o d)) l d.

  (** mathset.py:1016-1026, [TypedDict.is_consistent].  The loop [for k, v in self] walks
      over the keys and unpacks each: a key of two characters gives its characters, any
      other length raises ValueError.  [in_dom] tests the one-character string [v] against a
      domain, [None] for a domain [None] (TypeError). *)
  Definition is_consistent (in_dom : string -> option (V -> bool) -> res bool) (ty : types) (d : attrs)
    : res bool :=
    (fix go (l : attrs) : res bool :=
       match l with
       | [] => Ok true
       | (String a (String b EmptyString), _) :: r =>
           match lookup (String a EmptyString) ty with
           | Some dom => do ok <- in_dom (String b EmptyString) dom;
                         if ok then go r else Ok false
           | None => go r
           end
       | _ :: _ => Err "ValueError"
       end) d.
End Dict.
Arguments attrs V : clear implicits.
Arguments types V : clear implicits.
Arguments dop V : clear implicits.
