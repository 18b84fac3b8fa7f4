(** Model of steit/src/impls/varint.rs and steit/src/impls/bool.rs. *)
From Verif Require Import Base.

(** The eight integer types with a varint codec (varint.rs 71-74, 126-129). *)
Inductive ikind := U8 | U16 | U32 | U64 | I8 | I16 | I32 | I64.

Definition ibits (k : ikind) : N :=
  match k with
  | U8 | I8 => 8 | U16 | I16 => 16 | U32 | I32 => 32 | U64 | I64 => 64
  end.

Definition isigned (k : ikind) : bool :=
  match k with I8 | I16 | I32 | I64 => true | _ => false end.

(** varint.rs 21-35, [serialize] of an unsigned type of [bits] bits.
    The Rust loop runs at most ten times; fuel makes that explicit. *)
Fixpoint uv_ser_loop (fuel : nat) (bits value : N) : res bytes :=
  match fuel with
  | O => NoFuel
  | S fuel =>
      (* if value & !0x7f == 0 *)
      if N.land value (N.ldiff (N.ones bits) 127) =? 0
      then Ok [value mod 256]
      else
        (* write value as u8 & 0x7f | 0x80; value >>= 7 *)
        let b := N.lor (N.land (value mod 256) 127) 128 in
        do r <- uv_ser_loop fuel bits (N.shiftr value 7);
        Ok (b :: r)
  end.

Definition uv_serialize (bits value : N) : res bytes := uv_ser_loop 10 bits value.

(** varint.rs 40-62, [merge] of an unsigned type: [value |= (b & 0x7f) as T << offset].
    [T << offset] with [offset >= bits] panics under overflow checks and otherwise
    shifts by [offset mod bits].  (Simplification: [offset] is an [i32] in Rust;
    it could only overflow after 2^31/7 continuation bytes.) *)
Fixpoint uv_de_loop (m : mode) (bits value offset : N) (bs : bytes) : res (N * bytes) :=
  match bs with
  | [] => Err UnexpectedEof                       (* read_exact *)
  | b :: rest =>
      let continue_with (sh : N) :=
        let value' := N.lor value (N.shiftl (N.land b 127) sh mod 2 ^ bits) in
        if N.land b 128 =? 0 then Ok (value', rest)
        else uv_de_loop m bits value' (offset + 7) rest in
      if offset <? bits then continue_with offset
      else match m with Debug => Panic | Release => continue_with (offset mod bits) end
  end.

Definition uv_deserialize (m : mode) (bits : N) (bs : bytes) : res (N * bytes) :=
  uv_de_loop m bits 0 0 bs.

(** varint.rs 86-88: zigzag encoding; [>>] on a signed type is arithmetic. *)
Definition zz_encode (bits : N) (value : Z) : Z :=
  Z.lxor (swrap bits (Z.shiftl value 1)) (Z.shiftr value (Z.of_N bits - 1)).

(** varint.rs 90-92: [(value >> 1) ^ -(value & 1)] on the SIGNED type, so the
    shift is arithmetic as well. *)
Definition zz_decode (value : Z) : Z :=
  Z.lxor (Z.shiftr value 1) (- Z.land value 1).

(** [x as unsigned_type], [x as signed_type]. *)
Definition as_unsigned (bits : N) (z : Z) : N := Z.to_N (z mod 2 ^ Z.of_N bits).
Definition as_signed (bits : N) (n : N) : Z := swrap bits (Z.of_N n).

(** varint.rs 140-158: [size_32(value: i32)]. *)
Definition size_32 (value : Z) : N :=
  if (Z.land value (Z.shiftl (-1) 7) =? 0)%Z then 1
  else if (Z.land value (Z.shiftl (-1) 14) =? 0)%Z then 2
  else if (Z.land value (Z.shiftl (-1) 21) =? 0)%Z then 3
  else if (Z.land value (Z.shiftl (-1) 28) =? 0)%Z then 4
  else 5.

(** varint.rs 169-197: [size_64(mut value: i64)]. *)
Definition size_64 (value : Z) : N :=
  if (Z.land value (Z.shiftl (-1) 7) =? 0)%Z then 1
  else if (value <? 0)%Z then 10
  else
    let size := 2 in
    let '(size, value) :=
      if (Z.land value (Z.shiftl (-1) 35) =? 0)%Z then (size, value)
      else (size + 4, Z.shiftr value 28) in
    let '(size, value) :=
      if (Z.land value (Z.shiftl (-1) 21) =? 0)%Z then (size, value)
      else (size + 2, Z.shiftr value 14) in
    if (Z.land value (Z.shiftl (-1) 14) =? 0)%Z then size else size + 1.

(** varint.rs 2-8, 17-19: u64 uses [size_64(v as i64)], the others [size_32(v as i32)]. *)
Definition uv_size (bits value : N) : N :=
  if bits =? 64 then size_64 (as_signed 64 value) else size_32 (as_signed 32 value).

(** An integer of kind [k] is a [Z]; in range means: *)
Definition in_range (k : ikind) (z : Z) : bool :=
  let n := Z.of_N (ibits k) in
  if isigned k then ((- 2 ^ (n - 1) <=? z) && (z <? 2 ^ (n - 1)))%Z
  else ((0 <=? z) && (z <? 2 ^ n))%Z.

(** What is actually put on the wire for an integer (varint.rs 21, 99-105). *)
Definition int_wire (k : ikind) (z : Z) : N :=
  if isigned k then as_unsigned (ibits k) (zz_encode (ibits k) z) else Z.to_N z.

(** [compute_size] (17-19, 94-97), [serialize] (21-35, 99-105), [merge] (40-62, 110-117). *)
Definition int_size (k : ikind) (z : Z) : N := uv_size (ibits k) (int_wire k z).
Definition int_serialize (k : ikind) (z : Z) : res bytes := uv_serialize (ibits k) (int_wire k z).
Definition int_deserialize (m : mode) (k : ikind) (bs : bytes) : res (Z * bytes) :=
  do (u, rest) <- uv_deserialize m (ibits k) bs;
  Ok (if isigned k then zz_decode (as_signed (ibits k) u) else Z.of_N u, rest).

(** impls/bool.rs 13-38. *)
Definition bool_serialize (b : bool) : bytes := [if b then 1 else 0].
Fixpoint bool_de_loop (value : bool) (bs : bytes) : res (bool * bytes) :=
  match bs with
  | [] => Err UnexpectedEof
  | b :: rest =>
      let value' := value || negb (N.land b 127 =? 0) in
      if N.land b 128 =? 0 then Ok (value', rest) else bool_de_loop value' rest
  end.
Definition bool_deserialize (bs : bytes) : res (bool * bytes) := bool_de_loop false bs.
