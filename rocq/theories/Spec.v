(** Specification vocabulary, independent of the functions of the model.

    The wire format, stated as mathematics: base-128 numbers, zigzag numbers and
    the encoding of a value as a byte string. *)
From Verif Require Import Base Varint WireFmt Types.

(** Base-128 representation, least significant group first, all but the last
    byte marked with the high bit.  The fuel is the number of binary digits. *)
Fixpoint leb128_aux (fuel : nat) (n : N) : bytes :=
  match fuel with
  | O => [n]
  | S f => if n <? 128 then [n] else (128 + n mod 128) :: leb128_aux f (n / 128)
  end.
Definition leb128 (n : N) : bytes := leb128_aux (N.size_nat n) n.

(** 0, -1, 1, -2, 2, ... are numbered 0, 1, 2, 3, 4, ... *)
Definition zigzag (z : Z) : N :=
  if (z <? 0)%Z then Z.to_N (-2 * z - 1) else Z.to_N (2 * z).

(** The number an integer of kind [k] is written as. *)
Definition wire_num (k : ikind) (z : Z) : N :=
  if isigned k then zigzag z else Z.to_N z.

(** The signed integers that come back as they were (see C02). *)
Definition int_safe (k : ikind) (z : Z) : bool :=
  let n := Z.of_N (ibits k) in
  if isigned k then ((- 2 ^ (n - 2) <=? z) && (z <? 2 ^ (n - 2)))%Z
  else ((0 <=? z) && (z <? 2 ^ n))%Z.

(** Splits off the bytes up to and including the first one below 128. *)
Fixpoint varint_prefix (bs : bytes) : option (bytes * bytes) :=
  match bs with
  | [] => None
  | b :: r => if b <? 128 then Some ([b], r)
              else match varint_prefix r with
                   | Some (p, r') => Some (b :: p, r')
                   | None => None
                   end
  end.

(** The number a run of base-128 groups stands for. *)
Fixpoint groups_value (bs : bytes) : N :=
  match bs with
  | [] => 0
  | b :: r => b mod 128 + 128 * groups_value r
  end.

(** The tag of a field. *)
Definition tag_num (fn : N) (w : wtype) : N :=
  8 * fn + match w with Varint => 0 | Sized => 2 end.

(** A value preceded by its length if its type is length-delimited. *)
Definition delimited (v : val) (body : bytes) : bytes :=
  match vwty v with
  | Varint => body
  | Sized => leb128 (lenN body) ++ body
  end.

(** Fields left out of a struct: zero, [false] and anything with an empty encoding. *)
Definition left_out (v : val) (body : bytes) : bool :=
  match v with
  | VInt _ z => (z =? 0)%Z
  | VBool b => negb b
  | _ => match body with [] => true | _ => false end
  end.

Definition enc_tagged (fn : N) (v : val) (body : bytes) : bytes :=
  leb128 (tag_num fn (vwty v)) ++ delimited v body.

(** The encoding of a value. *)
Fixpoint enc (v : val) : bytes :=
  let fields := flat_map (fun p : finfo * val => let '(fi, x) := p in
    if left_out x (enc x) then [] else enc_tagged (f_tag fi) x (enc x)) in
  let items := flat_map (fun x => delimited x (enc x)) in
  match v with
  | VInt k z => leb128 (wire_num k z)
  | VBool b => [if b then 1 else 0]
  | VStr s | VBytes s => s
  | VOpt None => []
  | VOpt (Some x) => delimited x (enc x)
  | VVec l | VArr l | VTup l | VList _ l => items l
  | VHash l => flat_map (fun e : val * val => let '(k, x) := e in
                 delimited k (enc k) ++ delimited x (enc x)) l
  | VBox x => enc x
  | VStruct _ _ fs => fields fs
  | VEnum tag _ _ fs => leb128 tag ++ fields fs
  | VMap _ es => flat_map (fun e : N * val => let '(k, x) := e in
                   enc_tagged k x (enc x)) es
  end.

Definition enc_fields (fs : list (finfo * val)) : bytes :=
  flat_map (fun p : finfo * val => let '(fi, x) := p in
    if left_out x (enc x) then [] else enc_tagged (f_tag fi) x (enc x)) fs.

(** Values that can be written: every map key fits a field number.
    (Field tags do in every type the derive macro accepts.) *)
Fixpoint writable (v : val) : bool :=
  match v with
  | VInt _ _ | VBool _ | VStr _ | VBytes _ | VOpt None => true
  | VOpt (Some x) => writable x
  | VVec l | VArr l | VTup l | VList _ l => forallb writable l
  | VHash l => forallb (fun e : val * val => let '(k, x) := e in writable k && writable x) l
  | VBox x => writable x
  | VStruct _ _ fs | VEnum _ _ _ fs =>
      forallb (fun p : finfo * val => let '(_, x) := p in writable x) fs
  | VMap _ es => forallb (fun e : N * val => let '(k, x) := e in
                   (k <=? FIELD_NUMBER_MAX) && writable x) es
  end.

(** Values whose every signed integer is in the half range that survives. *)
Fixpoint ints_safe (v : val) : bool :=
  match v with
  | VInt k z => int_safe k z
  | VBool _ | VStr _ | VBytes _ | VOpt None => true
  | VOpt (Some x) => ints_safe x
  | VVec l | VArr l | VTup l | VList _ l => forallb ints_safe l
  | VHash l => forallb (fun e : val * val => let '(k, x) := e in ints_safe k && ints_safe x) l
  | VBox x => ints_safe x
  | VStruct _ _ fs | VEnum _ _ _ fs =>
      forallb (fun p : finfo * val => let '(_, x) := p in ints_safe x) fs
  | VMap _ es => forallb (fun e : N * val => let '(_, x) := e in ints_safe x) es
  end.

(** Values whose map keys are all in the range of the key type. *)
Fixpoint keys_in (t : ty) (v : val) {struct t} : bool :=
  let kfields := fix kfields (ts : list (finfo * ty)) (fs : list (finfo * val)) : bool :=
    match ts, fs with
    | (_, t) :: ts', (_, x) :: fs' => keys_in t x && kfields ts' fs'
    | _, _ => true
    end in
  match t, v with
  | TOpt t, VOpt (Some x) => keys_in t x
  | TVec t, VVec l | TArr _ t, VArr l | TList t, VList _ l => forallb (keys_in t) l
  | TTup ts, VTup l =>
      (fix go ts l := match ts, l with
       | t :: ts', x :: l' => keys_in t x && go ts' l'
       | _, _ => true
       end) ts l
  | THash kt vt, VHash es =>
      forallb (fun e : val * val => keys_in kt (fst e) && keys_in vt (snd e)) es
  | TBox t, VBox x => keys_in t x
  | TStruct _ ts, VStruct _ _ fs => kfields ts fs
  | TEnum _ vs, VEnum tag _ _ fs =>
      (fix go vs := match vs with
       | [] => true
       | ((tag', _), ts) :: vs' => if tag' =? tag then kfields ts fs else go vs'
       end) vs
  | TMap k t, VMap _ es =>
      forallb (fun e : N * val => (fst e <=? mkey_max k) && keys_in t (snd e)) es
  | _, _ => true
  end.

(** The values that survive a round trip. *)
Definition lossless (t : ty) (v : val) : bool := writable v && ints_safe v && keys_in t v.

(** ** Complete pieces of input *)

(** [p] is one varint of at most [max] bytes with value [n]. *)
Definition one_varint (max : N) (p : bytes) (n : N) : Prop :=
  bytes_ok p /\ varint_prefix p = Some (p, []) /\ lenN p <= max /\ groups_value p = n.

(** [p] is a complete payload of wire type [w]: one varint, or a length and that many bytes.
    (Non-minimal varints are allowed.) *)
Definition whole (w : wtype) (p : bytes) : Prop :=
  match w with
  | Varint => bytes_ok p /\ varint_prefix p = Some (p, [])
  | Sized => exists q body, p = q ++ body /\ lenN body < 2 ^ 64 /\ one_varint 10 q (lenN body)
  end.

(** [p] is a complete field: a tag and a payload. *)
Definition whole_field (fn : N) (w : wtype) (p : bytes) : Prop :=
  exists q body, p = q ++ body /\ fn <= FIELD_NUMBER_MAX /\ one_varint 5 q (tag_num fn w) /\ whole w body.

Definition seq_of (P : bytes -> Prop) (bs : bytes) : Prop :=
  exists ps, bs = concat ps /\ Forall P ps.

(** [bs] is a sequence of complete components of type [t]: it ends where a component ends.
    Meaningful for the types that can be merged piece by piece. *)
Fixpoint whole_seq (t : ty) (bs : bytes) : Prop :=
  match t with
  | TBytes => True
  | TOpt t | TVec t | TList t => seq_of (whole (wty t)) bs
  | THash k v => seq_of (fun p => exists a b, p = a ++ b /\ whole (wty k) a /\ whole (wty v) b) bs
  | TStruct _ _ => seq_of (fun p => exists fn w, whole_field fn w p) bs
  | TMap _ t => seq_of (fun p => exists fn w q b, p = q ++ b /\ fn <= FIELD_NUMBER_MAX /\
                          one_varint 5 q (tag_num fn w) /\ whole (wty t) b) bs
  | TBox t => whole_seq t bs
  | _ => False
  end.

(** ** Fields that do not belong to a message *)

(** No field has this number, or the one that has it is of another wire type. *)
Definition foreign (fts : list (finfo * ty)) (fn : N) (w : wtype) : Prop :=
  forall fi t, In (fi, t) fts -> f_tag fi = fn -> wty t <> w.

(** The payload [p] of wire type [w] can be skipped: always true of a varint without
    overflow checks; with them, at most two bytes.  Sized payloads below 2^63 bytes. *)
Definition skippable (m : mode) (w : wtype) (p : bytes) : Prop :=
  match w with
  | Varint => m = Release \/ lenN p <= 2
  | Sized => lenN p < 2 ^ 63
  end.

(** ** UTF-8, by code points *)

(** Unicode scalar values: code points up to 0x10FFFF that are not surrogates. *)
Definition scalar (c : N) : Prop := c < 0xD800 \/ (0xE000 <= c /\ c <= 0x10FFFF).

(** The UTF-8 form of a code point, in arithmetic. *)
Definition utf8_of (c : N) : bytes :=
  if c <? 0x80 then [c]
  else if c <? 0x800 then [0xC0 + c / 64; 0x80 + c mod 64]
  else if c <? 0x10000 then [0xE0 + c / 4096; 0x80 + c / 64 mod 64; 0x80 + c mod 64]
  else [0xF0 + c / 262144; 0x80 + c / 4096 mod 64; 0x80 + c / 64 mod 64; 0x80 + c mod 64].
