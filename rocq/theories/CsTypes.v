(** State/StateFactory.cs: the tables by which the C# client finds out how to read a primitive type, over the readers of
    [CSharp.v].  An exception is [Panic].

    A type is its full name, in UTF-16 code units, and whether it is an [IState]; reflection itself is not modelled. *)
From Verif Require Import Base Varint WireFmt Types Ser Spec De Log State CSharp.
From Coq Require Import Ascii String.
Local Open Scope list_scope.

Definition units (s : string) : list N := map N_of_ascii (list_ascii_of_string s).

(** StateFactory.cs 228-233: an array of 256 children.  (Simplification: the array is a function; nodes are not changed
    in place but copied along the path.) *)
Inductive tnode (T : Type) := TNode (value : T) (children : N -> option (tnode T)).
Arguments TNode {T}.
Definition new_node {T} (d : T) : tnode T := TNode d (fun _ => None).
(** StateFactory.cs 195-210; [d] is [default].  An array throws if the index is not below 256. *)
Fixpoint trie_get {T} (d : T) (t : tnode T) (index : list N) : res T :=
  let '(TNode v ch) := t in
  match index with
  | [] => Ok v
  | c :: index => if c <? 256 then match ch c with None => Ok d | Some n => trie_get d n index end else Panic
  end.
(** StateFactory.cs 212-223. *)
Fixpoint trie_set {T} (d : T) (t : tnode T) (index : list N) (value : T) : res (tnode T) :=
  let '(TNode v ch) := t in
  match index with
  | [] => Ok (TNode value ch)
  | c :: index =>
      if c <? 256 then
        do n <- trie_set d (match ch c with None => new_node d | Some n => n end) index value;
        Ok (TNode v (fun c' => if c' =? c then Some n else ch c'))
      else Panic
  end.
Fixpoint trie_sets {T} (d : T) (t : tnode T) (sets : list (list N * T)) : res (tnode T) :=
  match sets with
  | [] => Ok t
  | (i, v) :: sets => do t <- trie_set d t i v; trie_sets d t sets
  end.

(** What a deserializer puts in a box: the type of the box and the value. *)
Inductive prim := PInt (k : ikind) | PBool | PStr.
Definition prim_eqb (a b : prim) : bool :=
  match a, b with PInt j, PInt k => ikind_eqb j k | PBool, PBool | PStr, PStr => true | _, _ => false end.
Definition boxed := bytes -> res ((prim * cval) * bytes).
(** Reader.cs 45-71: the readers by their result types. *)
Definition read_int (k : ikind) : boxed := fun bs => do (z, rest) <- c_int k bs; Ok ((PInt k, CVInt z), rest).
Definition read_bool : boxed := fun bs => do (b, rest) <- c_bool bs false; Ok ((PBool, CVBool b), rest).
Definition read_string : boxed := fun bs => Ok ((PStr, CVStr (Some bs)), []).

(** StateFactory.cs 13-30. *)
Definition deserializer_sets : list (list N * option boxed) :=
  [ (units "System.Byte", Some (read_int U8)); (units "System.UInt16", Some (read_int U16));
    (units "System.UInt32", Some (read_int U32)); (units "System.UInt64", Some (read_int U64));
    (units "System.SByte", Some (read_int I8)); (units "System.Int16", Some (read_int I16));
    (units "System.Int32", Some (read_int I32)); (units "System.Int64", Some (read_int I64));
    (units "System.Boolean", Some read_bool); (units "System.String", Some read_string) ].
Definition deserializers : res (tnode (option boxed)) := trie_sets None (new_node None) deserializer_sets.
Definition is_sized : res (tnode bool) := trie_sets false (new_node false) [(units "System.String", true)].

Record ctype := mkCT { full_name : list N; is_state : bool }.
(** StateFactory.cs 32-35. *)
Definition is_primitive_type (t : ctype) : res bool :=
  do d <- deserializers; do r <- trie_get None d (full_name t); Ok (match r with Some _ => true | None => false end).
(** StateFactory.cs 41-45: [&&] does not look at the name of an [IState]. *)
Definition validate_type (t : ctype) : res unit :=
  if is_state t then Ok tt else do p <- is_primitive_type t; if p then Ok tt else Panic.
(** StateFactory.cs 83-92; the cast throws if the box is of another type than [as_]. *)
Definition deserialize_primitive (t : ctype) (as_ : prim) : creader := fun bs =>
  do d <- deserializers; do r <- trie_get None d (full_name t);
  match r with
  | None => Panic
  | Some rd => do ((p, v), rest) <- rd bs; if prim_eqb p as_ then Ok (v, rest) else Panic
  end.

(** The class of an object as a .NET type: the full name of its class, if it is a primitive, else any name. *)
Definition prim_of (t : cty) : option prim :=
  match t with CInt k => Some (PInt k) | CBool => Some PBool | CStr => Some PStr | _ => None end.
Definition prim_name (p : prim) : list N :=
  match p with
  | PInt U8 => units "System.Byte" | PInt U16 => units "System.UInt16" | PInt U32 => units "System.UInt32" | PInt U64 => units "System.UInt64"
  | PInt I8 => units "System.SByte" | PInt I16 => units "System.Int16" | PInt I32 => units "System.Int32" | PInt I64 => units "System.Int64"
  | PBool => units "System.Boolean" | PStr => units "System.String"
  end.
(** StateFactory.cs 57-71: [state] is the [Deserialize] method of the class, which reflection finds. *)
Definition deserialize_any (state : creader) (t : ctype) (as_ : prim) : creader :=
  if is_state t then state else deserialize_primitive t as_.
(** StateFactory.cs 73-81: the nested reader is dropped afterwards. *)
Definition deserialize_nested_any (state : creader) (t : ctype) (as_ : prim) : creader := fun bs =>
  if is_state t then do (sub, rest) <- c_nested bs; do (x, _) <- state sub; Ok (x, rest)
  else
    do s <- is_sized; do sized <- trie_get false s (full_name t);
    if sized then do (sub, rest) <- c_nested bs; do (x, _) <- deserialize_primitive t as_ sub; Ok (x, rest)
    else deserialize_primitive t as_ bs.
