(** Model of steit/src/wire_fmt.rs and of steit/src/de/reader.rs over byte lists. *)
From Verif Require Import Base Varint.

(** wire_fmt.rs 12-16. *)
Inductive wtype := Varint | Sized.

Definition wtype_eqb (a b : wtype) : bool :=
  match a, b with Varint, Varint | Sized, Sized => true | _, _ => false end.

(** wire_fmt.rs 4-10. *)
Definition WIRE_TYPE_BITS : N := 3.
Definition WIRE_TYPE_MASK : N := N.shiftl 1 WIRE_TYPE_BITS - 1.
Definition FIELD_NUMBER_MAX : N := 0x1fffffff.

(** wire_fmt.rs 19-28, 30-32. *)
Definition wt_from_value (v : N) : res wtype :=
  if v =? 0 then Ok Varint else if v =? 2 then Ok Sized else Err InvalidData.
Definition wt_value (w : wtype) : N := match w with Varint => 0 | Sized => 2 end.

(** wire_fmt.rs 51-63. *)
Definition validate_field_number (fn : N) : res unit :=
  if FIELD_NUMBER_MAX <? fn then Err InvalidData else Ok tt.

(** wire_fmt.rs 65-70. *)
Definition parse_tag (value : N) : res (N * wtype) :=
  do w <- wt_from_value (N.land value WIRE_TYPE_MASK);
  let fn := N.shiftr value WIRE_TYPE_BITS in
  do _ <- validate_field_number fn;
  Ok (fn, w).

(** wire_fmt.rs 72-75; [field_number << 3] on [u32] drops high bits. *)
Definition mk_tag (fn : N) (w : wtype) : res N :=
  do _ <- validate_field_number fn;
  Ok (N.lor (N.shiftl fn WIRE_TYPE_BITS mod 2 ^ 32) (wt_value w)).

(** de/reader.rs.  A [Reader] over in-memory bytes is the list of bytes not yet
    read.  Simplification: the one-byte look-ahead of [iowrap::Eof] is not part
    of this model (it is modelled separately in Peek.v). *)

(** reader.rs 26-28. *)
Definition rd_eof (bs : bytes) : bool := match bs with [] => true | _ => false end.

(** reader.rs 30-36: reads a [u64] size and yields a reader limited to the next
    [size] bytes, and what lies behind it.  [Take] does not complain when
    fewer bytes remain. *)
Definition rd_nested (m : mode) (bs : bytes) : res (bytes * bytes) :=
  do (size, rest) <- uv_deserialize m 64 bs;
  Ok (splitN size rest).

(** reader.rs 38-41. *)
Definition rd_tag (m : mode) (bs : bytes) : res (N * wtype * bytes) :=
  do (value, rest) <- uv_deserialize m 32 bs;
  do (fn, w) <- parse_tag value;
  Ok (fn, w, rest).

(** reader.rs 43-57: a varint field is skipped by decoding a [u8]; a sized field
    by reading [size] bytes into a buffer allocated with
    [Vec::with_capacity(size as usize)], which panics above [isize::MAX].
    (Simplification: a failing allocation below that bound is not modelled.) *)
Definition rd_skip_field (m : mode) (w : wtype) (bs : bytes) : res bytes :=
  match w with
  | Varint => do (_, rest) <- uv_deserialize m 8 bs; Ok rest
  | Sized =>
      do (size, rest) <- uv_deserialize m 64 bs;
      if size <? 2 ^ 63 then Ok (snd (splitN size rest)) else Panic
  end.
