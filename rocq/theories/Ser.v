(** Model of serialization: steit/src/ser.rs, the [Serialize] impls in
    steit/src/impls and steit/src/types, and the code generated by
    steit-derive/src/derive/{struct,enum,field}.rs.

    Size caches (steit/src/rt/size_cache.rs) live in a store addressed by the
    position of the node inside the value being serialized, so that distinct nodes
    always have distinct caches; a theorem quantified over the initial store covers
    every earlier use of the caches. *)
From Verif Require Import Base Varint WireFmt Types.

Definition addr := list nat.
Definition store := addr -> N.

Fixpoint addr_eqb (a b : addr) : bool :=
  match a, b with
  | [], [] => true
  | x :: a', y :: b' => Nat.eqb x y && addr_eqb a' b'
  | _, _ => false
  end.

Definition upd (h : store) (a : addr) (n : N) : store :=
  fun b => if addr_eqb b a then n else h b.

(** [size_cache().is_some()]: struct.rs 328-333, enum.rs 255-265, list.rs 172-174,
    map.rs 178-180, box.rs 26-28 (a box shares the cache of its content); [None] in
    the other impls. *)
Fixpoint has_cache (v : val) : bool :=
  match v with
  | VStruct c _ _ | VEnum _ c _ _ => c
  | VList _ _ | VMap _ _ => true
  | VBox v => has_cache v
  | _ => false
  end.

(** [is_omissible(Some(size))]: ser.rs 36-41, macros.rs 32-34. *)
Definition omissible (v : val) (size : N) : bool :=
  match v with
  | VInt _ z => (z =? 0)%Z
  | VBool b => negb b
  | VStr s => match s with [] => true | _ => false end
  | _ => size =? 0
  end.

Definition is_some {A} (o : option A) : bool := match o with Some _ => true | None => false end.

(** ser.rs 43-65, given the outcome of [self.compute_size()] on the store.
    [size.cache_size()] of a [u32] is its varint size. *)
Definition size_nested (m : mode) (fn : option N) (om : bool) (a : addr) (v : val)
    (computed : res (N * store)) : res (N * store) :=
  do (size, h) <- computed;
  let h := if has_cache v then upd h a size else h in          (* cache_size *)
  if is_some fn && om && omissible v size then Ok (0, h)
  else
    do size <- match vwty v with
               | Varint => Ok size
               | Sized => add32 m size (uv_size 32 size)
               end;
    match fn with
    | None => Ok (size, h)
    | Some fn =>
        do t <- mk_tag fn (vwty v);
        do size <- add32 m size (uv_size 32 t);
        Ok (size, h)
    end.

(** [compute_size]: varint.rs 17-19, 94-97; bool.rs 13-15; string.rs 13-15;
    bytes.rs 46-48; option.rs 16-21; vec.rs 16-24; array.rs 18-26; tuple.rs 19-24;
    hash_map.rs 15-24; box.rs 18-20; struct.rs 338-342 with field.rs 364-368;
    enum.rs 231-236, 270-274; list.rs 164-166; map.rs 160-168.
    Every [.unwrap()] on a failed tag is a panic. *)
Fixpoint compute (m : mode) (a : addr) (v : val) (h : store) {struct v} : res (N * store) :=
  let items := fix items (i : nat) (acc : N) (l : list val) (h : store) : res (N * store) :=
    match l with
    | [] => Ok (acc, h)
    | x :: l' =>
        do (n, h) <- unwrap (size_nested m None false (i :: a) x (compute m (i :: a) x h));
        do acc <- add32 m acc n;
        items (S i) acc l' h
    end in
  let fields := fix fields (i : nat) (acc : N) (l : list (finfo * val)) (h : store)
      : res (N * store) :=
    match l with
    | [] => Ok (acc, h)
    | (fi, x) :: l' =>
        do (n, h) <- unwrap (size_nested m (Some (f_tag fi)) true (i :: a) x
                               (compute m (i :: a) x h));
        do acc <- add32 m acc n;
        fields (S i) acc l' h
    end in
  match v with
  | VInt k z => Ok (int_size k z, h)
  | VBool _ => Ok (1, h)
  | VStr s | VBytes s => Ok (lenN s mod 2 ^ 32, h)
  | VOpt None => Ok (0, h)
  | VOpt (Some x) =>
      unwrap (size_nested m None false (O :: a) x (compute m (O :: a) x h))
  | VVec l | VArr l | VTup l => items O 0 l h
  | VHash l =>
      (fix go (i : nat) (acc : N) (l : list (val * val)) (h : store) : res (N * store) :=
       match l with
       | [] => Ok (acc, h)
       | (k, x) :: l' =>
           do (n, h) <- unwrap (size_nested m None false (i :: a) k (compute m (i :: a) k h));
           do acc <- add32 m acc n;
           do (n, h) <- unwrap (size_nested m None false (S i :: a) x (compute m (S i :: a) x h));
           do acc <- add32 m acc n;
           go (S (S i)) acc l' h
       end) O 0 l h
  | VBox x => compute m a x h
  | VStruct _ _ fs => fields O 0 fs h
  | VEnum tag _ _ fs =>
      do acc <- add32 m 0 (uv_size 32 tag);
      fields O acc fs h
  | VList _ l => items O 0 l h
  | VMap _ es =>
      (fix go (i : nat) (acc : N) (l : list (N * val)) (h : store) : res (N * store) :=
       match l with
       | [] => Ok (acc, h)
       | (k, x) :: l' =>
           do (n, h) <- unwrap (size_nested m (Some k) false (i :: a) x
                                  (compute m (i :: a) x h));
           do acc <- add32 m acc n;
           go (S i) acc l' h
       end) O 0 es h
  end.

(** ser.rs 14-22. *)
Definition cache_size (m : mode) (a : addr) (v : val) (h : store) : res (N * store) :=
  do (n, h) <- compute m a v h;
  Ok (n, if has_cache v then upd h a n else h).

(** ser.rs 24-29. *)
Definition cached_size (m : mode) (a : addr) (v : val) (h : store) : res (N * store) :=
  if has_cache v then Ok (h a, h) else compute m a v h.

(** [is_omissible(None)]: ser.rs 36-41, macros.rs 32-34. *)
Definition omissible_cached (m : mode) (a : addr) (v : val) (h : store) : res (bool * store) :=
  match v with
  | VInt _ _ | VBool _ | VStr _ => Ok (omissible v 0, h)
  | _ => do (n, h) <- cached_size m a v h; Ok (n =? 0, h)
  end.

(** ser.rs 67-89, given [self.serialize_cached]. *)
Definition ser_nested (m : mode) (fn : option N) (om : bool) (a : addr) (v : val)
    (ser : store -> res (bytes * store)) (h : store) : res (bytes * store) :=
  do (omit, h) <- if is_some fn && om then omissible_cached m a v h else Ok (false, h);
  if omit then Ok ([], h)
  else
    do tagb <- match fn with
               | None => Ok []
               | Some fn => do t <- mk_tag fn (vwty v); uv_serialize 32 t
               end;
    do (sizeb, h) <- match vwty v with
                     | Varint => Ok ([], h)
                     | Sized => do (n, h) <- cached_size m a v h;
                                do b <- uv_serialize 32 n; Ok (b, h)
                     end;
    do (body, h) <- ser h;
    Ok (tagb ++ sizeb ++ body, h).

(** [serialize_cached]: varint.rs 21-35, 99-105 via macros.rs 9-14; bool.rs 17-19;
    string.rs 17-19; bytes.rs 50-52; option.rs 23-28; vec.rs 26-32; array.rs 28-34;
    tuple.rs 26-30; hash_map.rs 26-33; box.rs 22-24; struct.rs 344-347 with
    field.rs 370-374; enum.rs 247-252, 276-279; list.rs 168-170; map.rs 170-176.
    The writer is a [Vec<u8>], which accepts every byte. *)
Fixpoint ser_cached (m : mode) (a : addr) (v : val) (h : store) {struct v}
    : res (bytes * store) :=
  let items := fix items (i : nat) (l : list val) (h : store) : res (bytes * store) :=
    match l with
    | [] => Ok ([], h)
    | x :: l' =>
        do (b, h) <- ser_nested m None false (i :: a) x (ser_cached m (i :: a) x) h;
        do (bs, h) <- items (S i) l' h;
        Ok (b ++ bs, h)
    end in
  let fields := fix fields (i : nat) (l : list (finfo * val)) (h : store) : res (bytes * store) :=
    match l with
    | [] => Ok ([], h)
    | (fi, x) :: l' =>
        do (b, h) <- ser_nested m (Some (f_tag fi)) true (i :: a) x (ser_cached m (i :: a) x) h;
        do (bs, h) <- fields (S i) l' h;
        Ok (b ++ bs, h)
    end in
  match v with
  | VInt k z => do b <- int_serialize k z; Ok (b, h)
  | VBool b => Ok (bool_serialize b, h)
  | VStr s | VBytes s => Ok (s, h)
  | VOpt None => Ok ([], h)
  | VOpt (Some x) => ser_nested m None false (O :: a) x (ser_cached m (O :: a) x) h
  | VVec l | VArr l | VTup l => items O l h
  | VHash l =>
      (fix go (i : nat) (l : list (val * val)) (h : store) : res (bytes * store) :=
       match l with
       | [] => Ok ([], h)
       | (k, x) :: l' =>
           do (b1, h) <- ser_nested m None false (i :: a) k (ser_cached m (i :: a) k) h;
           do (b2, h) <- ser_nested m None false (S i :: a) x (ser_cached m (S i :: a) x) h;
           do (bs, h) <- go (S (S i)) l' h;
           Ok (b1 ++ b2 ++ bs, h)
       end) O l h
  | VBox x => ser_cached m a x h
  | VStruct _ _ fs => fields O fs h
  | VEnum tag _ _ fs =>
      do t <- uv_serialize 32 tag;
      do (bs, h) <- fields O fs h;
      Ok (t ++ bs, h)
  | VList _ l => items O l h
  | VMap _ es =>
      (fix go (i : nat) (l : list (N * val)) (h : store) : res (bytes * store) :=
       match l with
       | [] => Ok ([], h)
       | (k, x) :: l' =>
           do (b, h) <- ser_nested m (Some k) false (i :: a) x (ser_cached m (i :: a) x) h;
           do (bs, h) <- go (S i) l' h;
           Ok (b ++ bs, h)
       end) O es h
  end.

(** ser.rs 31-34 (for primitives macros.rs 28-30, which is the same thing).
    The caches of the whole value start at address [[]]. *)
Definition steit_serialize (m : mode) (v : val) (h : store) : res (bytes * store) :=
  do (_, h) <- cache_size m [] v h;
  ser_cached m [] v h.

(** ser.rs 91-95. *)
Definition to_bytes (m : mode) (v : val) (h : store) : res bytes :=
  do (b, _) <- unwrap (steit_serialize m v h); Ok b.

(** A log entry on its way to a buffer: loggers/buffer.rs 24-27, loggers/writer.rs 40-41. *)
Definition write_nested (m : mode) (v : val) (h : store) : res (bytes * store) :=
  do (_, h) <- cache_size m [] v h;
  ser_nested m None false [] v (ser_cached m [] v) h.
