(** What a value feeds to a [Hasher]. *)
From Verif Require Import Base Varint WireFmt Utf8 Types.

(** One call on the hasher: an integer of some width, a length prefix, raw bytes, or
    the discriminant of an [Option]. *)
Inductive htok :=
| HInt (k : ikind) (z : Z)
| HLen (n : N)
| HRaw (bs : bytes)
| HDisc (b : bool).

(** [Hash::hash].  Derived: struct.rs 283-301, enum.rs 181-209 (the tag, then the fields),
    field.rs 355-362 (a field marked [no_hash] or [no_eq_hash] is left out); [Runtime] and
    [SizeCache] feed nothing (runtime.rs 164-165, size_cache.rs 70-71); [List] and [Bytes]
    derive it from their [Vec] (list.rs 20, bytes.rs 22); [Map] and [HashMap] have none
    (here: nothing fed, and [hash_ty] excludes them).  The standard library's own impls
    are not in /repo: integers feed their bytes, [bool] a byte, [str] its bytes and a
    terminator, slices, arrays and vectors a length and their items, [Option] a
    discriminant and the content, tuples their components, [Box] its content. *)
Fixpoint hfeed (v : val) : list htok :=
  let ffeed := flat_map (fun p : finfo * val => let '(fi, x) := p in
    if f_eq fi && f_hash fi then hfeed x else []) in
  match v with
  | VInt k z => [HInt k z]
  | VBool b => [HInt U8 (if b then 1 else 0)%Z]
  | VStr s => [HRaw s; HInt U8 255]
  | VBytes s => [HLen (lenN s); HRaw s]
  | VOpt None => [HDisc false]
  | VOpt (Some x) => HDisc true :: hfeed x
  | VVec l | VArr l | VList _ l => HLen (lenN l) :: flat_map hfeed l
  | VTup l => flat_map hfeed l
  | VBox x => hfeed x
  | VStruct _ _ fs => ffeed fs
  | VEnum tag _ _ fs => HInt U32 (Z.of_N tag) :: ffeed fs
  | VHash _ | VMap _ _ => []
  end.
