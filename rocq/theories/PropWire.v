(** C01-C07: integers, booleans and tags on the wire. *)
From Verif Require Import Base Varint WireFmt Types Spec VarintProofs WireProofs.

(** C01. *)
Theorem c01_unsigned_roundtrip : forall m k z rest,
  isigned k = false -> in_range k z = true ->
  exists bs, int_serialize k z = Ok bs /\ int_deserialize m k (bs ++ rest) = Ok (z, rest).
Proof. exact unsigned_roundtrip. Qed.
Print Assumptions c01_unsigned_roundtrip.
Example c01_case : isigned U64 = false /\ in_range U64 18446744073709551615 = true /\
  int_serialize U64 18446744073709551615 = Ok [255; 255; 255; 255; 255; 255; 255; 255; 255; 1].
Proof. vm_compute. auto. Qed.

(** The values of the types. *)
Theorem c01_values : forall z,
  ((in_range U8 z = true <-> 0 <= z < 256) /\ (in_range U16 z = true <-> 0 <= z < 65536) /\
   (in_range U32 z = true <-> 0 <= z < 4294967296) /\ (in_range U64 z = true <-> 0 <= z < 18446744073709551616) /\
   (in_range I8 z = true <-> -128 <= z < 128) /\ (in_range I16 z = true <-> -32768 <= z < 32768) /\
   (in_range I32 z = true <-> -2147483648 <= z < 2147483648) /\
   (in_range I64 z = true <-> -9223372036854775808 <= z < 9223372036854775808))%Z.
Proof.
  assert (H : forall a b z, ((a <=? z) && (z <? b) = true <-> a <= z < b)%Z) by (intros; rewrite andb_true_iff, Z.leb_le, Z.ltb_lt; reflexivity).
  intros z. exact (conj (H 0 256 z) (conj (H 0 65536 z) (conj (H 0 4294967296 z) (conj (H 0 18446744073709551616 z)
    (conj (H (-128) 128 z) (conj (H (-32768) 32768 z) (conj (H (-2147483648) 2147483648 z) (H (-9223372036854775808) 9223372036854775808 z))))))))%Z.
Qed.
Print Assumptions c01_values.

(** C02. *)
Definition quarter (k : ikind) : Z :=
  match k with I8 => 64 | I16 => 16384 | I32 => 1073741824 | I64 => 4611686018427387904 | _ => 0 end%Z.
Theorem c02_signed_roundtrip_exact : forall m k z rest,
  isigned k = true -> in_range k z = true ->
  exists bs z', int_serialize k z = Ok bs /\ int_deserialize m k (bs ++ rest) = Ok (z', rest) /\
    (z' = z <-> (- quarter k <= z < quarter k)%Z).
Proof. intros m k z rest S R. destruct k; try discriminate S; exact (signed_roundtrip m _ z rest S R). Qed.
Print Assumptions c02_signed_roundtrip_exact.
Example c02_case : isigned I8 = true /\ in_range I8 (-64) = true /\
  int_serialize I8 (-64) = Ok [127] /\ int_deserialize Debug I8 [127] = Ok (-64, [])%Z.
Proof. vm_compute. auto. Qed.

(** The round trip users rely on, for the whole range, fails at every signed width. *)
Theorem c02_full_range_refuted : forall m k, isigned k = true ->
  exists z bs z', in_range k z = true /\ int_serialize k z = Ok bs /\
    int_deserialize m k bs = Ok (z', []) /\ z' <> z.
Proof.
  exact signed_roundtrip_fails. Qed.
Print Assumptions c02_full_range_refuted.

(** C03. *)
Theorem c03_announced_size : forall k z, in_range k z = true ->
  exists bs, int_serialize k z = Ok bs /\ int_size k z = lenN bs /\
    1 <= int_size k z <= match k with U8 | I8 => 2 | U16 | I16 => 3 | U32 | I32 => 5 | U64 | I64 => 10 end.
Proof. intros k z R. destruct k; exact (announced_size _ z R). Qed.
Print Assumptions c03_announced_size.
Example c03_case : in_range I64 (-9223372036854775808) = true /\ int_size I64 (-9223372036854775808) = 10
  /\ int_size U32 2097152 = 4.
Proof. vm_compute. auto. Qed.

(** C04. *)
Theorem c04_prefix_free : forall k z1 z2 b1 b2 r1 r2,
  in_range k z1 = true -> in_range k z2 = true ->
  int_serialize k z1 = Ok b1 -> int_serialize k z2 = Ok b2 ->
  b1 ++ r1 = b2 ++ r2 -> z1 = z2 /\ r1 = r2.
Proof. exact encodings_prefix_free. Qed.
Print Assumptions c04_prefix_free.
Example c04_case : int_serialize U16 300 = Ok [172; 2] /\ int_serialize I16 (-300) = Ok [215; 4].
Proof. vm_compute. auto. Qed.

(** C05. *)
Theorem c05_decode_arbitrary : forall m bits bs,
  bits = 8 \/ bits = 16 \/ bits = 32 \/ bits = 64 -> bytes_ok bs ->
  match varint_prefix bs with
  | Some (p, rest) =>
      if 7 * (lenN p - 1) <? bits
      then uv_deserialize m bits bs = Ok (groups_value p mod 2 ^ bits, rest)
      else match m with
           | Debug => uv_deserialize m bits bs = Panic
           | Release => exists x, uv_deserialize m bits bs = Ok (x, rest) /\ x < 2 ^ bits
           end
  | None =>
      if (7 * (lenN bs - 1) <? bits)
      then uv_deserialize m bits bs = Err UnexpectedEof
      else match m with
           | Debug => uv_deserialize m bits bs = Panic
           | Release => uv_deserialize m bits bs = Err UnexpectedEof
           end
  end.
Proof. exact decode_arbitrary. Qed.
Print Assumptions c05_decode_arbitrary.

(** The splitting used in C05 cuts at the first byte below 128. *)
Theorem c05_prefix_is_first_low_byte : forall bs, match varint_prefix bs with
  | Some (p, rest) => bs = p ++ rest /\ exists q b, p = q ++ [b] /\ b < 128 /\ Forall (fun x => 128 <= x) q
  | None => Forall (fun x => 128 <= x) bs
  end.
Proof. exact varint_prefix_spec. Qed.
Print Assumptions c05_prefix_is_first_low_byte.
Example c05_case :
  uv_deserialize Debug 8 [255; 255; 1; 9] = Panic /\
  uv_deserialize Release 8 [255; 255; 1; 9] = Ok (255, [9]) /\
  uv_deserialize Debug 8 [255; 127; 9] = Ok (255, [9]) /\
  uv_deserialize Debug 32 [128; 128] = Err UnexpectedEof.
Proof. vm_compute. auto. Qed.

(** C06. *)
Theorem c06_tag_packing : forall fn w,
  (fn <= 2 ^ 29 - 1 ->
     exists t, mk_tag fn w = Ok t /\ t < 2 ^ 32 /\ t = 8 * fn + wt_value w /\ parse_tag t = Ok (fn, w)) /\
  (2 ^ 29 - 1 < fn -> mk_tag fn w = Err InvalidData).
Proof. exact tag_packing. Qed.
Print Assumptions c06_tag_packing.

Theorem c06_tag_parsing : forall t, t < 2 ^ 32 ->
  (t mod 8 = 0 \/ t mod 8 = 2 ->
     exists fn w, parse_tag t = Ok (fn, w) /\ mk_tag fn w = Ok t /\
       forall fn' w', mk_tag fn' w' = Ok t -> fn' = fn /\ w' = w) /\
  (t mod 8 <> 0 -> t mod 8 <> 2 -> parse_tag t = Err InvalidData).
Proof. exact tag_parsing. Qed.
Print Assumptions c06_tag_parsing.
Example c06_case : mk_tag 536870911 Sized = Ok 4294967290 /\ parse_tag 4294967290 = Ok (536870911, Sized)
  /\ parse_tag 4294967291 = Err InvalidData /\ FIELD_NUMBER_MAX = 2 ^ 29 - 1.
Proof. vm_compute. auto. Qed.

(** C07. *)
Theorem c07_bool_roundtrip : forall b rest, bool_deserialize (bool_serialize b ++ rest) = Ok (b, rest).
Proof. exact bool_roundtrip. Qed.
Print Assumptions c07_bool_roundtrip.

Theorem c07_bool_decode : forall bs, bytes_ok bs ->
  bool_deserialize bs =
  match varint_prefix bs with
  | Some (p, rest) => Ok (negb (groups_value p =? 0), rest)
  | None => Err UnexpectedEof
  end.
Proof. exact bool_decode. Qed.
Print Assumptions c07_bool_decode.
Example c07_case : bool_deserialize [128; 130; 0; 5] = Ok (true, [5]) /\ bool_deserialize [128; 0] = Ok (false, []).
Proof. vm_compute. auto. Qed.
