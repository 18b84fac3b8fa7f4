(** Model of [Debug] output: list.rs 20-25, map.rs 21-28, bytes.rs 35-39, size_cache.rs 17-20, runtime.rs 168-175, node.rs 58-85, and types
    derived with it, whose size cache and runtime are fields like any other (struct.rs 97-134, 598-620; maybe.rs 9).

    What the standard library does is trusted: [#[derive(Debug)]] tells the formatter the name of a struct or variant and its fields in
    the order of declaration; an [AtomicU32] is its number; a box is what it holds; [Some(x)] and [None] are told apart; a [HashMap] and an
    [IndexMap] are their entries in the order of iteration.

    Simplifications: this is the tree that the formatter is told, not its text; a field or variant goes by its tag, which stands for its
    name; fields have names. *)
From Verif Require Import Base Varint WireFmt Types Ser Log.

Inductive dname := DField (tag : N) | DItems | DEntries | DCache | DRuntime | DMarker | DSize | DLogger | DPath | DValue.
Inductive dhead := HStruct | HVariant (tag : N) | HList | HMap | HSizeCache | HRuntime | HRoot | HChild.
Inductive dbg :=
| GInt (z : Z)
| GBool (b : bool)
| GStr (s : bytes)
| GNone
| GSome (d : dbg)
| GSeq (l : list dbg)
| GTup (l : list dbg)
| GAssoc (l : list (dbg * dbg))
| GRec (h : dhead) (fs : list (dname * dbg))
| GMarker.

(** node.rs 58-67: a node without its parent. *)
Definition one_dbg (p : node) : dbg :=
  match p with Root => GRec HRoot [] | Child _ n => GRec HChild [(DValue, GInt (Z.of_N n))] end.
(** node.rs 71-77: the nodes that the loop pushes. *)
Fixpoint pushed (p : node) : list node := match p with Root => [] | Child parent _ => p :: pushed parent end.
(** node.rs 79-82. *)
Definition node_dbg (p : node) : dbg := GSeq (map one_dbg (rev (pushed p ++ [Root]))).
(** runtime.rs 168-175: the logger is the string "<logger>". *)
Definition rt_dbg (r : rt) : dbg := GRec HRuntime [(DLogger, GStr [60; 108; 111; 103; 103; 101; 114; 62]); (DPath, node_dbg (rt_path r))].
(** size_cache.rs 17-20. *)
Definition cache_dbg (n : N) : dbg := GRec HSizeCache [(DSize, GInt (Z.of_N n))].
(** struct.rs 100-134: the fields that the macro adds, after the others. *)
Definition own_dbg (c : bool) (n : N) (r : option rt) : list (dname * dbg) :=
  (if c then [(DCache, cache_dbg n)] else []) ++ match r with Some r => [(DRuntime, rt_dbg r)] | None => [] end.

(** A value at an address, with the size caches as they are. *)
Fixpoint dbg_of (a : addr) (h : store) (v : val) {struct v} : dbg :=
  let items := fix items (i : nat) (l : list val) : list dbg :=
    match l with [] => [] | x :: l' => dbg_of (i :: a) h x :: items (S i) l' end in
  let fields := fix fields (i : nat) (l : list (finfo * val)) : list (dname * dbg) :=
    match l with [] => [] | (fi, x) :: l' => (DField (f_tag fi), dbg_of (i :: a) h x) :: fields (S i) l' end in
  match v with
  | VInt _ z => GInt z
  | VBool b => GBool b
  | VStr s => GStr s
  | VBytes s => GSeq (map (fun b => GInt (Z.of_N b)) s)
  | VOpt None => GNone
  | VOpt (Some x) => GSome (dbg_of (O :: a) h x)
  | VVec l | VArr l => GSeq (items O l)
  | VTup l => GTup (items O l)
  | VHash l =>
      GAssoc ((fix go (i : nat) (l : list (val * val)) : list (dbg * dbg) :=
        match l with [] => [] | (k, x) :: l' => (dbg_of (i :: a) h k, dbg_of (S i :: a) h x) :: go (S (S i)) l' end) O l)
  | VBox x => dbg_of a h x
  | VStruct c r fs => GRec HStruct (fields O fs ++ own_dbg c (h a) r)
  | VEnum tag c r fs => GRec (HVariant tag) (fields O fs ++ own_dbg c (h a) r)
  | VList r l => GRec HList [(DItems, GSeq (items O l)); (DCache, cache_dbg (h a)); (DRuntime, rt_dbg r)]
  | VMap r es =>
      GRec HMap [(DEntries, GAssoc ((fix go (i : nat) (l : list (N * val)) : list (dbg * dbg) :=
        match l with [] => [] | (k, x) :: l' => (GInt (Z.of_N k), dbg_of (i :: a) h x) :: go (S i) l' end) O es));
        (DCache, cache_dbg (h a)); (DRuntime, rt_dbg r); (DMarker, GMarker)]
  end.

(** A value whose runtimes all have the same logger. *)
Definition quiet_rt (r : rt) : rt := mkRt 0 (rt_path r).
Fixpoint quiet (v : val) : val :=
  let fields := map (fun p : finfo * val => let '(fi, x) := p in (fi, quiet x)) in
  match v with
  | VInt _ _ | VBool _ | VStr _ | VBytes _ | VOpt None => v
  | VOpt (Some x) => VOpt (Some (quiet x))
  | VVec l => VVec (map quiet l)
  | VArr l => VArr (map quiet l)
  | VTup l => VTup (map quiet l)
  | VHash l => VHash (map (fun e : val * val => let '(k, x) := e in (quiet k, quiet x)) l)
  | VBox x => VBox (quiet x)
  | VStruct c r fs => VStruct c (option_map quiet_rt r) (fields fs)
  | VEnum tag c r fs => VEnum tag c (option_map quiet_rt r) (fields fs)
  | VList r l => VList (quiet_rt r) (map quiet l)
  | VMap r es => VMap (quiet_rt r) (map (fun e : N * val => let '(k, x) := e in (k, quiet x)) es)
  end.

(** The path that a tree shows as its own: that of its field [runtime]. *)
Definition number_shown (d : dbg) : option N :=
  match d with GRec HChild [(DValue, GInt z)] => Some (Z.to_N z) | _ => None end.
Fixpoint numbers_shown (l : list dbg) : option (list N) :=
  match l with
  | [] => Some []
  | d :: l' => match number_shown d, numbers_shown l' with Some n, Some ns => Some (n :: ns) | _, _ => None end
  end.
Fixpoint path_in (fs : list (dname * dbg)) : option (list N) :=
  match fs with
  | [] => None
  | (DRuntime, GRec HRuntime [_; (DPath, GSeq (GRec HRoot [] :: l))]) :: _ => numbers_shown l
  | _ :: fs' => path_in fs'
  end.
Definition path_shown (d : dbg) : option (list N) := match d with GRec _ fs => path_in fs | _ => None end.
