(** Model of JSON output: the [JsonSerialize] (serde::Serialize) of list.rs 20-25, map.rs 21-28, bytes.rs 16-17,
    runtime.rs 20-26, size_cache.rs 17-20, and of types that are derived with it, whose size cache and runtime are
    fields like any other (struct.rs 97-134, 598-620; maybe.rs 9; entry.rs 19).

    What serde and serde_json do is trusted: a struct is an object of its fields in the order of declaration, less those
    that are not serialized; an enum is an object of one entry, named after the variant, or the name of a variant
    without fields; [Some(x)] is [x] and [None] is [null]; an [AtomicU32] is its number; a [PhantomData] is [null]; a
    newtype like [Bytes] and a box are what they hold; a key of an object is a string, a number (as a string) or the name
    of a variant without fields, anything else is an error (serde_json 1.0.85, Cargo.lock 77-78).

    Simplifications: this is a tree, not its text; a field or variant goes by its tag, which stands for its name; fields
    have names (a struct with unnamed fields would be an array); a variant that has no fields, no size cache and no
    runtime is one that was declared without braces. *)
From Verif Require Import Base Varint WireFmt Types Ser.

Inductive jname :=
| JField (tag : N)
| JItems | JCache | JRuntime | JMarker | JSize
| JVariantName (tag : N)
| JInt (z : Z)
| JText (s : bytes).

Inductive json :=
| JNull
| JBool (b : bool)
| JNum (z : Z)
| JStr (s : bytes)
| JVar (tag : N)
| JArr (l : list json)
| JObj (l : list (jname * json)).

(** size_cache.rs 17-20, runtime.rs 20-26. *)
Definition json_cache (n : N) : jname * json := (JCache, JObj [(JSize, JNum (Z.of_N n))]).
Definition json_rt : jname * json := (JRuntime, JObj []).
Definition json_own (c : bool) (n : N) (r : option rt) : list (jname * json) :=
  (if c then [json_cache n] else []) ++ match r with Some _ => [json_rt] | None => [] end.

(** serde_json's [MapKeySerializer]. *)
Fixpoint json_key (v : val) : option jname :=
  match v with
  | VInt _ z => Some (JInt z)
  | VStr s => Some (JText s)
  | VBox x => json_key x
  | VEnum tag false None [] => Some (JVariantName tag)
  | _ => None
  end.

(** A value at an address, with the size caches as they are; [None] is an error. *)
Fixpoint json_of (a : addr) (h : store) (v : val) {struct v} : option json :=
  let items := fix items (i : nat) (l : list val) : option (list json) :=
    match l with
    | [] => Some []
    | x :: l' => match json_of (i :: a) h x, items (S i) l' with Some j, Some js => Some (j :: js) | _, _ => None end
    end in
  let fields := fix fields (i : nat) (l : list (finfo * val)) : option (list (jname * json)) :=
    match l with
    | [] => Some []
    | (fi, x) :: l' =>
        match json_of (i :: a) h x, fields (S i) l' with Some j, Some js => Some ((JField (f_tag fi), j) :: js) | _, _ => None end
    end in
  match v with
  | VInt _ z => Some (JNum z)
  | VBool b => Some (JBool b)
  | VStr s => Some (JStr s)
  | VBytes s => Some (JArr (map (fun b => JNum (Z.of_N b)) s))
  | VOpt None => Some JNull
  | VOpt (Some x) => json_of (O :: a) h x
  | VVec l | VArr l | VTup l => match items O l with Some js => Some (JArr js) | None => None end
  | VHash l =>
      match (fix go (i : nat) (l : list (val * val)) : option (list (jname * json)) :=
        match l with
        | [] => Some []
        | (k, x) :: l' =>
            match json_key k, json_of (S i :: a) h x, go (S (S i)) l' with
            | Some n, Some j, Some js => Some ((n, j) :: js)
            | _, _, _ => None
            end
        end) O l with
      | Some js => Some (JObj js)
      | None => None
      end
  | VBox x => json_of a h x
  | VStruct c r fs => match fields O fs with Some js => Some (JObj (js ++ json_own c (h a) r)) | None => None end
  | VEnum tag c r fs =>
      match fs, c, r with
      | [], false, None => Some (JVar tag)
      | _, _, _ => match fields O fs with Some js => Some (JObj [(JVariantName tag, JObj (js ++ json_own c (h a) r))]) | None => None end
      end
  | VList r l =>
      match items O l with Some js => Some (JObj [(JItems, JArr js); json_cache (h a); json_rt]) | None => None end
  | VMap r es => Some (JObj [json_cache (h a); json_rt; (JMarker, JNull)])  (* [entries] are not serialized: map.rs 23 *)
  end.

(** A value without its runtimes. *)
Definition bare_rt (r : option rt) : option rt := match r with Some _ => Some rt_default | None => None end.
Fixpoint bare (v : val) : val :=
  let fields := map (fun p : finfo * val => let '(fi, x) := p in (fi, bare x)) in
  match v with
  | VInt _ _ | VBool _ | VStr _ | VBytes _ | VOpt None => v
  | VOpt (Some x) => VOpt (Some (bare x))
  | VVec l => VVec (map bare l)
  | VArr l => VArr (map bare l)
  | VTup l => VTup (map bare l)
  | VHash l => VHash (map (fun e : val * val => let '(k, x) := e in (bare k, bare x)) l)
  | VBox x => VBox (bare x)
  | VStruct c r fs => VStruct c (bare_rt r) (fields fs)
  | VEnum tag c r fs => VEnum tag c (bare_rt r) (fields fs)
  | VList _ l => VList rt_default (map bare l)
  | VMap _ es => VMap rt_default (map (fun e : N * val => let '(k, x) := e in (k, bare x)) es)
  end.

(** Types whose values may be [null]. *)
Fixpoint nullable (t : ty) : bool := match t with TOpt _ => true | TBox t => nullable t | _ => false end.
(** Types whose values can be keys of objects. *)
Fixpoint keyable (t : ty) : bool :=
  match t with
  | TInt _ | TStr => true
  | TBox t => keyable t
  | TEnum st vs => negb st && forallb (fun va : (N * bool) * list (finfo * ty) => negb (snd (fst va)) && match snd va with [] => true | _ => false end) vs
  | _ => false
  end.
(** Types whose JSON tells everything: no maps, no options of options. *)
Fixpoint legible (t : ty) : bool :=
  let fields := forallb (fun p : finfo * ty => let '(_, t) := p in legible t) in
  match t with
  | TInt _ | TBool | TStr | TBytes => true
  | TOpt t => negb (nullable t) && legible t
  | TVec t | TArr _ t | TBox t | TList t => legible t
  | TTup ts => forallb legible ts
  | THash k t => keyable k && legible t
  | TStruct _ fs => fields fs
  | TEnum _ vs => forallb (fun va : (N * bool) * list (finfo * ty) => fields (snd va)) vs
  | TMap _ _ => false
  end.

(** Types whose hash maps have keys that JSON allows. *)
Fixpoint jsonable (t : ty) : bool :=
  let fields := forallb (fun p : finfo * ty => let '(_, t) := p in jsonable t) in
  match t with
  | TInt _ | TBool | TStr | TBytes | TMap _ _ => true
  | TOpt t | TVec t | TArr _ t | TBox t | TList t => jsonable t
  | TTup ts => forallb jsonable ts
  | THash k t => keyable k && jsonable t
  | TStruct _ fs => fields fs
  | TEnum _ vs => forallb (fun va : (N * bool) * list (finfo * ty) => fields (snd va)) vs
  end.
