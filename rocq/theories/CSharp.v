(** Model of the C# client: steit-csharp/src (Codec/Reader.cs, Codec/ByteReader.cs, State/State.cs,
    State/StateFactory.cs, State/StateReplayer.cs, State/LogEntry.cs, Collections, Builtins) and of
    the classes steit/src/gen/generators/csharp.rs writes for structs and enums.

    An exception is [Panic].  [NoFuel] marks what cannot happen: no fuel left, a value that is not of
    its class.  Not modelled: [Path] objects (only passed on and printed), event handlers, console
    output.  A C# [string] is represented by the bytes [Encoding.UTF8.GetString] made it from. *)
From Verif Require Import Base Varint WireFmt Utf8 Types Ser Spec De Log State.

(** ** Reader.cs *)

(** Reader.cs 22-38 with ByteReader.cs 22-28.  C# takes the shift count modulo 64 ([ulong]); [offset]
    is an [int], whose wrapping does not change it modulo 64. *)
Fixpoint c_varint (bs : bytes) (offset value : N) : res (N * bytes) :=
  match bs with
  | [] => Panic                                              (* EndOfStreamException *)
  | octet :: rest =>
      let value := N.lor value (N.shiftl (N.land octet 127) (offset mod 64) mod 2 ^ 64) in
      if N.land octet 128 =? 0 then Ok (value, rest) else c_varint rest (offset + 7) value
  end.
Definition c_unsigned (bs : bytes) : res (N * bytes) := c_varint bs 0 0.

(** Reader.cs 40-43: [>>] on a [long] keeps the sign. *)
Definition c_unzigzag (n : N) : Z :=
  let value := swrap 64 (Z.of_N n) in
  Z.lxor (Z.shiftr value 1) (- Z.land value 1)%Z.

(** Reader.cs 45-53: casts keep the low bits. *)
Definition c_int (k : ikind) (bs : bytes) : res (Z * bytes) :=
  do (n, rest) <- c_unsigned bs;
  Ok (if isigned k then swrap (ibits k) (c_unzigzag n) else Z.of_N (n mod 2 ^ ibits k), rest).

(** Reader.cs 55-67. *)
Fixpoint c_bool (bs : bytes) (value : bool) : res (bool * bytes) :=
  match bs with
  | [] => Panic
  | octet :: rest =>
      let value := value || negb (N.land octet 127 =? 0) in
      if N.land octet 128 =? 0 then Ok (value, rest) else c_bool rest value
  end.

(** Reader.cs 73-78, WireType.cs 9-21. *)
Definition c_key (bs : bytes) : res (N * wtype * bytes) :=
  do (n, rest) <- c_unsigned bs;
  let key := n mod 2 ^ 32 in
  match N.land key 7 with
  | 0 => Ok (N.shiftr key 3, Varint, rest)
  | 2 => Ok (N.shiftr key 3, Sized, rest)
  | _ => Panic                                               (* ArgumentException *)
  end.

(** Reader.cs 80-82, 100-103; ByteReader.cs 30-42.  A size from 2^31 on is a negative [int] and
    [new byte\[count\]] throws. *)
Definition c_nested (bs : bytes) : res (bytes * bytes) :=
  do (n, rest) <- c_unsigned bs;
  let size := n mod 2 ^ 32 in
  if (2 ^ 31 <=? size) || (lenN rest <? size) then Panic else Ok (splitN size rest).

(** [while (!reader.EndOfStream())]. *)
Fixpoint cloop {S} (fuel : nat) (step : S -> bytes -> res (S * bytes)) (s : S) (bs : bytes) : res S :=
  match bs with
  | [] => Ok s
  | _ =>
      match fuel with
      | O => NoFuel
      | Datatypes.S fuel => do (s, bs) <- step s bs; cloop fuel step s bs
      end
  end.
Definition crun {S} (step : S -> bytes -> res (S * bytes)) (s : S) (bs : bytes) : res S :=
  cloop (length bs) step s bs.

(** ** Classes and objects *)

(** What generated and built-in classes exist: primitives, [Bytes], [Option], [Vector], [StateList],
    [StateMap], generated structs and enums.  A field has its tag and whether it was declared with a
    type parameter ([FieldTypeMeta::TypeParam], field.rs 480-492), here already instantiated. *)
Inductive cty :=
| CInt (k : ikind)
| CBool
| CStr
| CBytes
| COpt (t : cty)
| CVec (t : cty)
| CList (t : cty)
| CMap (t : cty)
| CStruct (fs : list (N * (bool * cty)))
| CEnum (vs : list (N * list (N * (bool * cty)))).

(** Objects.  [CVStr None] is [null].  [CVEnum tag fs] has a variant object with fields [fs]; a
    dictionary is the list of its entries. *)
Inductive cval :=
| CVInt (z : Z)
| CVBool (b : bool)
| CVStr (s : option bytes)
| CVBytes (s : bytes)
| CVOpt (o : option cval)
| CVVec (l : list cval)
| CVList (l : list cval)
| CVMap (es : list (N * cval))
| CVStruct (fs : list (N * cval))
| CVEnum (tag : N) (fs : list (N * cval)).

(** StateFactory.cs 36-38 ([IsStateType]). *)
Definition c_state (t : cty) : bool := match t with CInt _ | CBool | CStr => false | _ => true end.

(** StateFactory.cs 131-147: [Construct<T>] looks for a constructor with exactly one parameter, of
    type [Path].  [StateList], [StateMap], [Vector] and [Bytes] have none (StateList.cs 14,
    StateMap.cs 14, Vector.cs 13, Bytes.cs 12: two parameters). *)
Definition c_constructible (t : cty) : bool :=
  match t with CBytes | CVec _ | CList _ | CMap _ => false | _ => true end.

(** Constructors: csharp.rs 114-159, 424-472; StateFactory.cs 47-54.  Primitive fields are left at
    [default]; the default variant is the first with tag 0 (csharp.rs 385-388, msg.rs 55-57). *)
Fixpoint c_new (t : cty) : res cval :=
  let fields := fix fields (fs : list (N * (bool * cty))) : res (list (N * cval)) :=
    match fs with
    | [] => Ok []
    | (tag, (g, t)) :: fs' =>
        do x <- if g && negb (c_constructible t) then Panic else c_new t;
        do xs <- fields fs';
        Ok ((tag, x) :: xs)
    end in
  match t with
  | CInt _ => Ok (CVInt 0)
  | CBool => Ok (CVBool false)
  | CStr => Ok (CVStr None)
  | CBytes => Ok (CVBytes [])
  | COpt _ => Ok (CVOpt None)
  | CVec _ => Ok (CVVec [])
  | CList _ => Ok (CVList [])
  | CMap _ => Ok (CVMap [])
  | CStruct fs => do xs <- fields fs; Ok (CVStruct xs)
  | CEnum vs =>
      (fix first vs := match vs with
       | [] => NoFuel                                        (* not generated: csharp.rs 388 *)
       | (tag, fs) :: vs' => if tag =? 0 then do xs <- fields fs; Ok (CVEnum tag xs) else first vs'
       end) vs
  end.
Fixpoint c_new_fields (fs : list (N * (bool * cty))) : res (list (N * cval)) :=
  match fs with
  | [] => Ok []
  | (tag, (g, t)) :: fs' =>
      do x <- if g && negb (c_constructible t) then Panic else c_new t;
      do xs <- c_new_fields fs';
      Ok ((tag, x) :: xs)
  end.

(** [GetWireType] of a field (csharp.rs 241-266): by class, but for a type parameter [Varint] unless
    its argument is an [IState]. *)
Definition c_wty (t : cty) : wtype := match t with CInt _ | CBool => Varint | _ => Sized end.
Definition c_field_wty (g : bool) (t : cty) : wtype :=
  if g then (if c_state t then Sized else Varint) else c_wty t.

Fixpoint c_put (tag : N) (x : cval) (fs : list (N * cval)) : list (N * cval) :=
  match fs with
  | [] => []
  | (tag', y) :: fs' => if tag =? tag' then (tag', x) :: fs' else (tag', y) :: c_put tag x fs'
  end.

(** ** Decoding *)

Definition creader := bytes -> res (cval * bytes).

(** StateFactory.cs 73-81 ([DeserializeNested]); the nested reader is dropped afterwards. *)
Definition c_value (t : cty) (rd : creader) : creader := fun bs =>
  match c_wty t with
  | Varint => rd bs
  | Sized => do (sub, rest) <- c_nested bs; do (x, _) <- rd sub; Ok (x, rest)
  end.

(** State.cs 24-55 with the generated [ReplaceAt] (csharp.rs 297-336): one field of a struct or
    variant.  Fields that are unknown or of another wire type are skipped (Reader.cs 92-98). *)
Definition c_struct_step (rs : list (N * (wtype * creader))) (fs : list (N * cval)) (bs : bytes)
  : res (list (N * cval) * bytes) :=
  do (tag, w, rest) <- c_key bs;
  do (sub, rest) <- match w with Sized => c_nested rest | Varint => Ok (rest, rest) end;
  let skip := match w with
              | Varint => do (_, rest) <- c_bool rest false; Ok (fs, rest)
              | Sized => Ok (fs, rest)
              end in
  match assoc tag rs with
  | Some (w', rd) =>
      if wtype_eqb w w' then
        do (x, rem) <- rd sub;
        Ok (c_put tag x fs, match w with Varint => rem | Sized => rest end)
      else skip
  | None => skip
  end.

(** StateMap.cs 31-44: the wire type is not looked at. *)
Definition c_map_step (t : cty) (rd : creader) (es : list (N * cval)) (bs : bytes) : res (list (N * cval) * bytes) :=
  do (tag, _, rest) <- c_key bs;
  do (x, rest) <- c_value t rd rest;
  Ok (im_insert tag x es, rest).

Definition c_item_step (t : cty) (rd : creader) (l : list cval) (bs : bytes) : res (list cval * bytes) :=
  do (x, rest) <- c_value t rd bs; Ok (l ++ [x], rest).

(** StateFactory.cs 57-71 ([Deserialize]) and the [Deserialize] methods: Reader.cs 45-71,
    Bytes.cs 17-19, Option.cs 32-38, Vector.cs 19-32, StateList.cs 31-43, StateMap.cs 31-44,
    csharp.rs 229-240 (structs), 493-504 and 525-541 (enums), State.cs 17-23.
    An enum is constructed first; with an unknown variant it stays as it is. *)
Fixpoint c_deser (t : cty) {struct t} : creader :=
  let readers := map (fun f : N * (bool * cty) => let '(tag, (g, t)) := f in (tag, (c_field_wty g t, c_deser t))) in
  fun bs =>
  match t with
  | CInt k => do (z, rest) <- c_int k bs; Ok (CVInt z, rest)
  | CBool => do (b, rest) <- c_bool bs false; Ok (CVBool b, rest)
  | CStr => Ok (CVStr (Some bs), [])
  | CBytes => Ok (CVBytes bs, [])
  | COpt t =>
      match bs with
      | [] => Ok (CVOpt None, [])
      | _ => do (x, rest) <- c_value t (c_deser t) bs; Ok (CVOpt (Some x), rest)
      end
  | CVec t => do l <- crun (c_item_step t (c_deser t)) [] bs; Ok (CVVec l, [])
  | CList t => do l <- crun (c_item_step t (c_deser t)) [] bs; Ok (CVList l, [])
  | CMap t => do es <- crun (c_map_step t (c_deser t)) [] bs; Ok (CVMap es, [])
  | CStruct fs =>
      do xs <- c_new_fields fs;
      do xs <- crun (c_struct_step (readers fs)) xs bs; Ok (CVStruct xs, [])
  | CEnum vs =>
      do d <- c_new (CEnum vs);
      do (tag, rest) <- c_int U32 bs;
      (fix find vs := match vs with
       | [] => Ok (d, [])                                    (* SkipToEnd *)
       | (tag', fs) :: vs' =>
           if tag' =? Z.to_N tag then
             do xs <- c_new_fields fs;
             do xs <- crun (c_struct_step (readers fs)) xs rest; Ok (CVEnum tag' xs, [])
           else find vs'
       end) vs
  end.
Definition c_readers (fs : list (N * (bool * cty))) : list (N * (wtype * creader)) :=
  map (fun f : N * (bool * cty) => let '(tag, (g, t)) := f in (tag, (c_field_wty g t, c_deser t))) fs.

(** ** Replay *)

(** [GetNested(tag)] with the class of the object it returns; [None] is [null]: csharp.rs 269-295 and
    520-524, StateList.cs 50-52, StateMap.cs 51-53, Vector.cs 36, Option.cs 41, Bytes.cs 23. *)
Definition c_child (t : cty) (v : cval) (tag : N) : res (option (cty * cval)) :=
  let field (fs : list (N * (bool * cty))) (xs : list (N * cval)) :=
    match assoc tag fs with
    | None => Ok None
    | Some (_, t) => if c_state t then match assoc tag xs with Some x => Ok (Some (t, x)) | None => NoFuel end else Ok None
    end in
  match t, v with
  | CStruct fs, CVStruct xs => field fs xs
  | CEnum vs, CVEnum tag' xs =>
      if tag =? tag' then match assoc tag vs with Some fs => Ok (Some (CStruct fs, CVStruct xs)) | None => NoFuel end
      else Ok None
  | CList t, CVList l =>
      if c_state t then Ok (match nth_error l (N.to_nat tag) with Some x => Some (t, x) | None => None end) else Ok None
  | CMap t, CVMap es =>
      if c_state t then Ok (match assoc tag es with Some x => Some (t, x) | None => None end) else Ok None
  | CBytes, CVBytes _ | COpt _, CVOpt _ | CVec _, CVVec _ => Ok None
  | _, _ => NoFuel
  end.
(** The object after its nested object was changed in place. *)
Definition c_put_child (v : cval) (tag : N) (x : cval) : cval :=
  match v, x with
  | CVStruct xs, _ => CVStruct (c_put tag x xs)
  | CVEnum tag' _, CVStruct xs => CVEnum tag' xs
  | CVList l, _ => CVList (set_nth l (N.to_nat tag) x)
  | CVMap es, _ => CVMap (c_put tag x es)
  | _, _ => v
  end.

(** State.cs 9-15 and StateReplayer.cs 33-37: the object at a path is changed; nothing happens if
    there is none. *)
Fixpoint c_modify (t : cty) (v : cval) (path : list N) (op : cty -> cval -> res cval) : res cval :=
  match path with
  | [] => op t v
  | tag :: path' =>
      do c <- c_child t v tag;
      match c with
      | None => Ok v
      | Some (t', x) => do x' <- c_modify t' x path' op; Ok (c_put_child v tag x')
      end
  end.

(** StateReplayer.cs 40-47 with [GetWireType] and [ReplaceAt]: nothing happens if the wire type is
    [null]; csharp.rs 297-336, 525-541; StateList.cs 54-68; StateMap.cs 55-70; Vector.cs 34;
    Option.cs 40; Bytes.cs 21. *)
Definition c_replace_at (tag : N) (bs : bytes) (t : cty) (v : cval) : res cval :=
  match t, v with
  | CStruct fs, CVStruct xs =>
      match assoc tag fs with
      | None => Ok v
      | Some (_, t) => do (x, _) <- c_deser t bs; Ok (CVStruct (c_put tag x xs))
      end
  | CEnum vs, CVEnum _ _ =>
      match assoc tag vs with
      | None => Ok v
      | Some fs => do (x, _) <- c_deser (CStruct fs) bs;
                   match x with CVStruct xs => Ok (CVEnum tag xs) | _ => NoFuel end
      end
  | CList t, CVList l =>
      if lenN l <=? tag then Panic                           (* IndexOutOfRangeException *)
      else do (x, _) <- c_deser t bs; Ok (CVList (set_nth l (N.to_nat tag) x))
  | CMap t, CVMap es => do (x, _) <- c_deser t bs; Ok (CVMap (im_insert tag x es))
  | CBytes, CVBytes _ | COpt _, CVOpt _ | CVec _, CVVec _ => Ok v
  | _, _ => NoFuel
  end.

(** StateList.cs 70-95, StateMap.cs 72-84; all other classes throw. *)
Definition c_push (bs : bytes) (t : cty) (v : cval) : res cval :=
  match t, v with
  | CList t, CVList l => do (x, _) <- c_deser t bs; Ok (CVList (l ++ [x]))
  | _, _ => Panic
  end.
Definition c_pop (t : cty) (v : cval) : res cval :=
  match t, v with
  | CList _, CVList l => match l with [] => Panic | _ => Ok (CVList (removelast l)) end
  | _, _ => Panic
  end.
Definition c_remove (k : N) (t : cty) (v : cval) : res cval :=
  match t, v with
  | CMap _, CVMap es =>
      match assoc k es with
      | None => Panic                                        (* KeyNotFoundException *)
      | Some _ => Ok (CVMap (filter (fun e => negb (fst e =? k)) es))
      end
  | _, _ => Panic
  end.

(** StateReplayer.cs 16-69. *)
Definition c_handle (t : cty) (e : entry) (v : cval) : res cval :=
  match e with
  | EUpdate path bs =>
      match path with
      | [] => do (x, _) <- c_deser t bs; Ok x
      | _ => c_modify t v (removelast path) (c_replace_at (last path 0) bs)
      end
  | EListPush path bs => c_modify t v path (c_push bs)
  | EListPop path => c_modify t v path c_pop
  | EMapRemove path k => c_modify t v path (c_remove k)
  end.

(** LogEntry.cs, a generated class. *)
Definition cEntry : cty :=
  let path := (0, (false, CVec (CInt U32))) in
  CEnum [ (0, [path; (1, (false, CBytes))]); (8, [path; (1, (false, CBytes))]); (9, [path]);
          (12, [path; (1, (false, CInt U32))]) ].

(** StateReplayer.cs 71-83 and the fields read by 24-64. *)
Definition c_path (v : cval) : option (list N) :=
  match v with
  | CVVec l => Some (map (fun x => match x with CVInt z => Z.to_N z | _ => 0 end) l)
  | _ => None
  end.
Definition c_entry (v : cval) : res entry :=
  match v with
  | CVEnum tag [(_, p)] =>
      match c_path p with Some p => if tag =? 9 then Ok (EListPop p) else NoFuel | None => NoFuel end
  | CVEnum tag [(_, p); (_, x)] =>
      match c_path p, x with
      | Some p, CVBytes bs => if tag =? 0 then Ok (EUpdate p bs) else if tag =? 8 then Ok (EListPush p bs) else NoFuel
      | Some p, CVInt k => if tag =? 12 then Ok (EMapRemove p (Z.to_N k)) else NoFuel
      | _, _ => NoFuel
      end
  | _ => NoFuel
  end.

(** StateReplayer.cs 9-14: the state when it ends or an exception escapes.  Every change is made
    after everything that can throw (csharp.rs 302-331, StateList.cs 59-67, StateMap.cs 56-69), so an
    entry that throws changes nothing. *)
Definition c_replay_step (t : cty) (v : cval) (bs : bytes) : cval * res bytes :=
  try v (do (sub, rest) <- c_nested bs; do (x, _) <- c_deser cEntry sub; do e <- c_entry x; do v' <- c_handle t e v; Ok (v', rest))
    (fun '(v', rest) => (v', Ok rest)).
Definition c_replay (t : cty) (v : cval) (bs : bytes) : cval * res unit :=
  let '(v', o) := run (c_replay_step t) v bs in (v', do _ <- o; Ok tt).

(** ** Which class stands for which Rust type *)

(** The class generated for a type (csharp.rs 624-657 with the metadata of the impls): boxes
    disappear, arrays become [Vector]s; tuples and [HashMap]s have no class.  A field declared as a
    box of a primitive is generated as [new UInt32(...)], which does not compile. *)
Fixpoint cls (t : ty) (c : cty) {struct t} : bool :=
  let fields := fix fields (fts : list (finfo * ty)) (cfs : list (N * (bool * cty))) : bool :=
    match fts, cfs with
    | [], [] => true
    | (fi, t) :: fts', (tag, (g, c)) :: cfs' =>
        (f_tag fi =? tag) && cls t c && (g || match t with TBox _ => c_state c | _ => true end) && fields fts' cfs'
    | _, _ => false
    end in
  match t, c with
  | TInt k, CInt k' => ikind_eqb k k'
  | TBool, CBool | TStr, CStr | TBytes, CBytes => true
  | TOpt t, COpt c | TVec t, CVec c | TArr _ t, CVec c | TList t, CList c | TMap _ t, CMap c => cls t c
  | TBox t, _ => cls t c
  | TStruct _ fts, CStruct cfs => fields fts cfs
  | TEnum _ vs, CEnum cvs =>
      (fix go vs cvs := match vs, cvs with
       | [], [] => true
       | ((tag, _), fts) :: vs', (tag', cfs) :: cvs' => (tag =? tag') && fields fts cfs && go vs' cvs'
       | _, _ => false
       end) vs cvs
  | _, _ => false
  end.
Fixpoint cls_fields (fts : list (finfo * ty)) (cfs : list (N * (bool * cty))) : bool :=
  match fts, cfs with
  | [], [] => true
  | (fi, t) :: fts', (tag, (g, c)) :: cfs' =>
      (f_tag fi =? tag) && cls t c && (g || match t with TBox _ => c_state c | _ => true end) && cls_fields fts' cfs'
  | _, _ => false
  end.

(** Fields declared with a type parameter are not instantiated with [String] (whose wire type would
    be taken for [Varint]) nor with a class [Construct] cannot construct. *)
Fixpoint cls_ok (c : cty) : bool :=
  let fields := forallb (fun f : N * (bool * cty) => let '(_, (g, c)) := f in
    cls_ok c && (negb g || (c_constructible c && match c with CStr => false | _ => true end))) in
  match c with
  | CInt _ | CBool | CStr | CBytes => true
  | COpt c | CVec c | CList c | CMap c => cls_ok c
  | CStruct fs => fields fs
  | CEnum vs => forallb (fun v : N * list (N * (bool * cty)) => fields (snd v)) vs
  end.

(** The object has the contents of the value.  A null string stands for the empty one; the order of
    a dictionary does not count. *)
Fixpoint looks (v : val) (w : cval) {struct v} : bool :=
  let fields := fix fields (fs : list (finfo * val)) (xs : list (N * cval)) : bool :=
    match fs, xs with
    | [], [] => true
    | (fi, x) :: fs', (tag, y) :: xs' => (f_tag fi =? tag) && looks x y && fields fs' xs'
    | _, _ => false
    end in
  let items := fix items (l : list val) (l' : list cval) : bool :=
    match l, l' with
    | [], [] => true
    | x :: r, y :: r' => looks x y && items r r'
    | _, _ => false
    end in
  match v, w with
  | VInt _ z, CVInt z' => (z =? z')%Z
  | VBool b, CVBool b' => Bool.eqb b b'
  | VStr s, CVStr s' => list_eqb N.eqb s (match s' with Some s' => s' | None => [] end)
  | VBytes s, CVBytes s' => list_eqb N.eqb s s'
  | VOpt None, CVOpt None => true
  | VOpt (Some x), CVOpt (Some y) => looks x y
  | VVec l, CVVec l' | VArr l, CVVec l' | VList _ l, CVList l' => items l l'
  | VBox x, _ => looks x w
  | VStruct _ _ fs, CVStruct xs => fields fs xs
  | VEnum tag _ _ fs, CVEnum tag' xs => (tag =? tag') && fields fs xs
  | VMap _ es, CVMap es' =>
      Nat.eqb (length es) (length es') && nodupb (map fst es') &&
      forallb (fun e : N * val => let '(k, x) := e in match assoc k es' with Some y => looks x y | None => false end) es
  | _, _ => false
  end.

(** Values whose encodings carry everything a C# client needs: map keys fit field numbers; [i64]s
    are in the half range (C44). *)
Definition cint_safe (k : ikind) (z : Z) : bool := match k with I64 => int_safe I64 z | _ => in_range k z end.
Fixpoint c_carried (v : val) : bool :=
  match v with
  | VInt k z => cint_safe k z
  | VBool _ | VStr _ | VBytes _ | VOpt None => true
  | VOpt (Some x) => c_carried x
  | VVec l | VArr l | VTup l | VList _ l => forallb c_carried l
  | VHash l => forallb (fun e : val * val => let '(k, x) := e in c_carried k && c_carried x) l
  | VBox x => c_carried x
  | VStruct _ _ fs | VEnum _ _ _ fs => forallb (fun p : finfo * val => let '(_, x) := p in c_carried x) fs
  | VMap _ es => forallb (fun e : N * val => let '(k, x) := e in (k <=? FIELD_NUMBER_MAX) && c_carried x) es
  end.

(** Objects of a class: integers in range, dictionary keys distinct, all fields there.  (What the C#
    type system and [Dictionary] guarantee.) *)
Fixpoint cwt (c : cty) (w : cval) {struct c} : bool :=
  let fields := fix fields (cfs : list (N * (bool * cty))) (xs : list (N * cval)) : bool :=
    match cfs, xs with
    | [], [] => true
    | (tag, (_, c)) :: cfs', (tag', x) :: xs' => (tag =? tag') && cwt c x && fields cfs' xs'
    | _, _ => false
    end in
  match c, w with
  | CInt k, CVInt z => in_range k z
  | CBool, CVBool _ | CStr, CVStr _ | CBytes, CVBytes _ | COpt _, CVOpt None => true
  | COpt c, CVOpt (Some x) => cwt c x
  | CVec c, CVVec l | CList c, CVList l => forallb (cwt c) l
  | CMap c, CVMap es => nodupb (map fst es) && forallb (fun e : N * cval => (fst e <? 2 ^ 32) && cwt c (snd e)) es
  | CStruct cfs, CVStruct xs => fields cfs xs
  | CEnum vs, CVEnum tag xs =>
      (fix go vs := match vs with
       | [] => false
       | (tag', cfs) :: vs' => if tag' =? tag then fields cfs xs else go vs'
       end) vs
  | _, _ => false
  end.

(** ** Classes of another version of the type *)

(** Class [c] was generated for another version of type [t]: structs and variants may have gained
    fields, lost them, or have them in another order; enums may have gained or lost variants.  [lax]: a
    field may also have another wire type. *)
Fixpoint evo (lax : bool) (t : ty) (c : cty) {struct t} : bool :=
  let fields (fts : list (finfo * ty)) (cfs : list (N * (bool * cty))) : bool :=
    forallb (fun p : finfo * ty => let '(fi, t) := p in
      match assoc (f_tag fi) cfs with
      | Some (g, c) => if wtype_eqb (wty t) (c_field_wty g c) then evo lax t c else lax
      | None => true
      end) fts in
  match t, c with
  | TInt k, CInt k' => ikind_eqb k k'
  | TBool, CBool | TStr, CStr | TBytes, CBytes => true
  | TOpt t, COpt c | TVec t, CVec c | TArr _ t, CVec c | TList t, CList c | TMap _ t, CMap c => evo lax t c
  | TBox t, _ => evo lax t c
  | TStruct _ fts, CStruct cfs => fields fts cfs
  | TEnum _ vs, CEnum cvs =>
      forallb (fun va : (N * bool) * list (finfo * ty) => match assoc (fst (fst va)) cvs with Some cfs => fields (snd va) cfs | None => true end) vs
  | _, _ => false
  end.

(** What an object of class [c] shows of a value: the fields it knows, of the wire type it expects, have
    the contents of the value's fields; all other fields are as in a fresh object.  Of an unknown
    variant it shows nothing: it is a fresh object. *)
Fixpoint sees (v : val) (c : cty) (w : cval) {struct v} : Prop :=
  let known := fix known (fs : list (finfo * val)) (cfs : list (N * (bool * cty))) (xs : list (N * cval)) : Prop :=
    match fs with
    | [] => True
    | (fi, x) :: fs' =>
        match assoc (f_tag fi) cfs, assoc (f_tag fi) xs with
        | None, _ => True
        | Some (g, c), Some y => if wtype_eqb (vwty x) (c_field_wty g c) then sees x c y else c_new c = Ok y
        | Some _, None => False
        end /\ known fs' cfs xs
    end in
  let fields (fs : list (finfo * val)) (cfs : list (N * (bool * cty))) (xs : list (N * cval)) : Prop :=
    map fst xs = map fst cfs /\ known fs cfs xs /\
    forall tag g c, assoc tag cfs = Some (g, c) -> ~ In tag (map (fun p : finfo * val => f_tag (fst p)) fs) ->
      exists y, assoc tag xs = Some y /\ c_new c = Ok y in
  let items := fix items (l : list val) (c : cty) (l' : list cval) : Prop :=
    match l, l' with
    | [], [] => True
    | x :: r, y :: r' => sees x c y /\ items r c r'
    | _, _ => False
    end in
  let entries := fix entries (es : list (N * val)) (c : cty) (es' : list (N * cval)) : Prop :=
    match es with
    | [] => True
    | (k, x) :: r => match assoc k es' with Some y => sees x c y | None => False end /\ entries r c es'
    end in
  match v, c, w with
  | VInt k z, CInt k', CVInt z' => k = k' /\ z = z'
  | VBool b, CBool, CVBool b' => b = b'
  | VStr s, CStr, CVStr s' => s = match s' with Some s' => s' | None => [] end
  | VBytes s, CBytes, CVBytes s' => s = s'
  | VOpt None, COpt _, CVOpt None => True
  | VOpt (Some x), COpt c, CVOpt (Some y) => sees x c y
  | VVec l, CVec c, CVVec l' | VArr l, CVec c, CVVec l' | VList _ l, CList c, CVList l' => items l c l'
  | VBox x, _, _ => sees x c w
  | VStruct _ _ fs, CStruct cfs, CVStruct xs => fields fs cfs xs
  | VEnum tag _ _ fs, CEnum cvs, CVEnum tag' xs =>
      match assoc tag cvs with
      | Some cfs => tag' = tag /\ fields fs cfs xs
      | None => c_new c = Ok w
      end
  | VMap _ es, CMap c, CVMap es' => length es = length es' /\ NoDup (map fst es') /\ entries es c es'
  | _, _, _ => False
  end.
