(** Model of deserialization: steit/src/de/de.rs, the [Deserialize] impls in
    steit/src/impls and steit/src/types, and the code generated by
    steit-derive/src/derive/{struct,enum,field}.rs.

    [merge m t v bs] is [v.merge(reader)] for [v] of type [t] and a reader holding
    [bs]: the value afterwards (Rust's [&mut self] keeps whatever was assigned before
    an error) and the outcome, where [Ok rest] says which bytes were left unread.
    A value that does not fit the type gives [NoFuel], as does running out of fuel;
    theorem C17 excludes both. *)
From Verif Require Import Base Varint WireFmt Utf8 Types.

Definition merger := val -> bytes -> val * res bytes.

(** The [?] operator inside a method on [&mut self]. *)
Definition try {S A} (s : S) (x : res A) (k : A -> S * res bytes) : S * res bytes :=
  match x with
  | Ok a => k a
  | Err e => (s, Err e)
  | Panic => (s, Panic)
  | NoFuel => (s, NoFuel)
  end.

(** de.rs 16-29, given [Self::WIRE_TYPE] and [Self::merge].  The nested reader is cut
    off at the announced size; what [merge] leaves unread in it is still unread
    afterwards. *)
Definition merge_nested (m : mode) (tw : wtype) (mg : merger) (w : wtype) (v : val) (bs : bytes)
    : val * res bytes :=
  if negb (wtype_eqb w tw) then (v, rd_skip_field m w bs)
  else match w with
       | Varint => mg v bs
       | Sized => try v (rd_nested m bs) (fun '(sub, after) =>
                    let '(v', r) := mg v sub in (v', do rest <- r; Ok (rest ++ after)))
       end.

(** de.rs 31-38 with [wire_type = Self::WIRE_TYPE]; [d] is [Self::default()]. *)
Definition de_nested (m : mode) (tw : wtype) (mg : merger) (d : val) (bs : bytes) : res (val * bytes) :=
  let '(v, r) := merge_nested m tw mg tw d bs in do rest <- r; Ok (v, rest).

(** [while !reader.eof()? { step }].  Every step consumes a byte, so the number of bytes
    is enough fuel. *)
Fixpoint loop {S} (fuel : nat) (step : S -> bytes -> S * res bytes) (s : S) (bs : bytes)
    : S * res bytes :=
  match bs with
  | [] => (s, Ok [])
  | _ => match fuel with
         | O => (s, NoFuel)
         | Datatypes.S f =>
             let '(s', r) := step s bs in try s' r (fun rest => loop f step s' rest)
         end
  end.
Definition run {S} (step : S -> bytes -> S * res bytes) (s : S) (bs : bytes) : S * res bytes :=
  loop (length bs) step s bs.

(** option.rs 37-45. *)
Definition opt_step (m : mode) (tw : wtype) (mg : merger) (d : val) (o : option val) (bs : bytes)
    : option val * res bytes :=
  let x := match o with Some x => x | None => d end in
  let '(x', r) := merge_nested m tw mg tw x bs in (Some x', r).

(** vec.rs 41-44. *)
Definition vec_step (m : mode) (tw : wtype) (mg : merger) (d : val) (l : list val) (bs : bytes)
    : list val * res bytes :=
  try l (de_nested m tw mg d bs) (fun '(x, rest) => (l ++ [x], Ok rest)).

(** array.rs 43-49: overwrites items from the front while there are items and input. *)
Fixpoint arr_loop (m : mode) (tw : wtype) (mg : merger) (d : val) (l : list val) (bs : bytes)
    : list val * res bytes :=
  match l, bs with
  | [], _ | _, [] => (l, Ok bs)
  | x :: l', _ =>
      try l (de_nested m tw mg d bs) (fun '(y, rest) =>
        let '(l'', r) := arr_loop m tw mg d l' rest in (y :: l'', r))
  end.

(** tuple.rs 39: all components in order. *)
Fixpoint tup_read (m : mode) (ms : list ((wtype * merger) * val)) (bs : bytes)
    : res (list val * bytes) :=
  match ms with
  | [] => Ok ([], bs)
  | ((tw, mg), d) :: ms' =>
      do (x, rest) <- de_nested m tw mg d bs;
      do (l, rest) <- tup_read m ms' rest;
      Ok (x :: l, rest)
  end.

(** [reader.read_to_end(..)]: array.rs 51-52, tuple.rs 42-43. *)
Definition drain (r : res bytes) : res bytes := do _ <- r; Ok [].

(** hash_map.rs 42-46. *)
Definition hash_step (m : mode) (ktw : wtype) (kmg : merger) (kd : val)
    (vtw : wtype) (vmg : merger) (vd : val) (l : list (val * val)) (bs : bytes)
    : list (val * val) * res bytes :=
  try l (de_nested m ktw kmg kd bs) (fun '(k, rest) =>
  try l (de_nested m vtw vmg vd rest) (fun '(x, rest) =>
  (hash_insert k x l, Ok rest))).

(** struct.rs 364-367 with field.rs 376-380: the first field with this number, else skip. *)
Fixpoint merge_field (m : mode) (ms : list (N * (wtype * merger))) (fs : list (finfo * val))
    (fn : N) (w : wtype) (bs : bytes) : list (finfo * val) * res bytes :=
  match ms, fs with
  | [], [] => ([], rd_skip_field m w bs)
  | (tag, (tw, mg)) :: ms', (fi, x) :: fs' =>
      if fn =? tag then
        let '(x', r) := merge_nested m tw mg w x bs in ((fi, x') :: fs', r)
      else
        let '(fs'', r) := merge_field m ms' fs' fn w bs in ((fi, x) :: fs'', r)
  | _, _ => (fs, NoFuel)
  end.

(** struct.rs 361-368. *)
Definition struct_step (m : mode) (ms : list (N * (wtype * merger))) (fs : list (finfo * val))
    (bs : bytes) : list (finfo * val) * res bytes :=
  try fs (rd_tag m bs) (fun '(fn, w, rest) => merge_field m ms fs fn w rest).

(** list.rs 181-186; [self.items.len()] is the next field number.  (Simplification: a list
    of 2^32 items would overflow [field_number]; numbers are not cut here.) *)
Definition list_step (m : mode) (tw : wtype) (mg : merger) (fresh : N -> val)
    (l : list val) (bs : bytes) : list val * res bytes :=
  let '(x, r) := merge_nested m tw mg tw (fresh (lenN l)) bs in
  try l r (fun rest => (l ++ [x], Ok rest)).

(** key.rs 11-24. *)
Definition key_of_fn (k : mkey) (fn : N) : res N :=
  if fn <=? mkey_max k then Ok fn else Err InvalidData.

(** map.rs 185-198. *)
Definition map_step (m : mode) (k : mkey) (tw : wtype) (mg : merger) (fresh : N -> val)
    (es : list (N * val)) (bs : bytes) : list (N * val) * res bytes :=
  try es (uv_deserialize m 32 bs) (fun '(n, rest) =>
  try es (parse_tag n) (fun '(fn, _) =>
  try es (validate_field_number fn) (fun _ =>
  try es (key_of_fn k fn) (fun _ =>
    match assoc fn es with
    | Some x =>
        let '(x', r) := merge_nested m tw mg tw x rest in (im_insert fn x' es, r)
    | None =>
        let '(x, r) := merge_nested m tw mg tw (fresh fn) rest in
        try es r (fun rest => (im_insert fn x es, Ok rest))
    end)))).

(** [self.runtime().parent()] of a State enum (enum.rs 297-301, runtime.rs 84-89): panics
    on a root; a plain enum has no runtime. *)
Definition enum_parent (r : option rt) : res rt :=
  match r with
  | None => Ok rt_default
  | Some (mkRt lg (Child p _)) => Ok (mkRt lg p)
  | Some (mkRt _ Root) => Panic
  end.

Definition is_varint (t : ty) : bool := match wty t with Varint => true | Sized => false end.

(** varint.rs 40-62, 110-117; bool.rs 24-37; string.rs 24-29; bytes.rs 60-63;
    option.rs 36-48; vec.rs 40-47; array.rs 42-55; tuple.rs 38-46; hash_map.rs 41-49;
    box.rs 32-34; struct.rs 378-381; enum.rs 291-339; list.rs 178-189; map.rs 184-201. *)
Fixpoint merge (m : mode) (t : ty) {struct t} : merger :=
  let fmergers := map (fun p : finfo * ty => let '(fi, t) := p in
                         (f_tag fi, (wty t, merge m t))) in
  fun v bs =>
  match t, v with
  | TInt k, VInt k' _ =>
      if ikind_eqb k k' then
        try v (int_deserialize m k bs) (fun '(z, rest) => (VInt k z, Ok rest))
      else (v, NoFuel)
  | TBool, VBool _ => try v (bool_deserialize bs) (fun '(b, rest) => (VBool b, Ok rest))
  | TStr, VStr _ => if utf8_valid bs then (VStr bs, Ok []) else (v, Err InvalidData)
  | TBytes, VBytes s => (VBytes (s ++ bs), Ok [])
  | TOpt t, VOpt o =>
      let '(o', r) := run (opt_step m (wty t) (merge m t) (dflt t rt_default)) o bs in (VOpt o', r)
  | TVec t, VVec l =>
      let '(l', r) := run (vec_step m (wty t) (merge m t) (dflt t rt_default)) l bs in (VVec l', r)
  | TArr _ t, VArr l =>
      let '(l', r) := arr_loop m (wty t) (merge m t) (dflt t rt_default) l bs in (VArr l', drain r)
  | TTup ts, VTup _ =>
      try v (tup_read m (map (fun t => ((wty t, merge m t), dflt t rt_default)) ts) bs)
        (fun '(l, _) => (VTup l, Ok []))
  | THash kt vt, VHash l =>
      let '(l', r) := run (hash_step m (wty kt) (merge m kt) (dflt kt rt_default)
                                       (wty vt) (merge m vt) (dflt vt rt_default)) l bs in
      (VHash l', r)
  | TBox t, VBox x => let '(x', r) := merge m t x bs in (VBox x', r)
  | TStruct _ fts, VStruct c r fs =>
      let '(fs', o) := run (struct_step m (fmergers fts)) fs bs in (VStruct c r fs', o)
  | TEnum st vs, VEnum tag c r fs =>
      try v (uv_deserialize m 32 bs) (fun '(tag', rest) =>
        (fix go vs := match vs with
         | [] => (v, Err InvalidData)
         | va :: vs' =>
             let '((vtag, vc), fts) := va in
             if tag' =? vtag then
               try v (if tag =? tag' then Ok v
                      else do p <- enum_parent r; Ok (variant_ctor st va p)) (fun v1 =>
                 match v1 with
                 | VEnum tag1 c1 r1 fs1 =>
                     let '(fs', o) := run (struct_step m (fmergers fts)) fs1 rest in
                     (VEnum tag1 c1 r1 fs', o)
                 | _ => (v1, NoFuel)
                 end)
             else go vs'
         end) vs)
  | TList t, VList r l =>
      let '(l', o) := run (list_step m (wty t) (merge m t) (fun i => dflt t (nested r i))) l bs in
      (VList r l', o)
  | TMap k t, VMap r es =>
      let '(es', o) := run (map_step m k (wty t) (merge m t) (fun i => dflt t (nested r i))) es bs in
      (VMap r es', o)
  | _, _ => (v, NoFuel)
  end.

(** de.rs 10-14. *)
Definition deserialize (m : mode) (t : ty) (bs : bytes) : res (val * bytes) :=
  let '(v, r) := merge m t (dflt t rt_default) bs in do rest <- r; Ok (v, rest).

Definition fmergers (m : mode) (fts : list (finfo * ty)) : list (N * (wtype * merger)) :=
  map (fun p : finfo * ty => let '(fi, t) := p in (f_tag fi, (wty t, merge m t))) fts.
