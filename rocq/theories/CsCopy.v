(** What the readers of a C# client copy.

    A nested reader of Rust reads through the one that it is made from (reader.rs 30-36), one of C# has an array of its own, filled
    from the reader that it is made from (Reader.cs 100-103 with ByteReader.cs 30-42); so does what is read to the end (Reader.cs 18-20,
    69-71, Bytes.cs 18).  Here these bytes are counted, along the decoding of CSharp.v: which objects are made and how far a
    reader gets is taken from there.  An array is counted when it is made, also if there is an exception later.

    [join] says how two arrays count together that are made one after the other, the first being given up before: [Nat.add] for
    all that are made, [Nat.max] for those that are there at the same time.  An array made by a nested reader is there together with
    the array of that reader, so these are always added.  Arrays that objects keep are not counted as there (see CsWeight.v). *)
From Verif Require Import Base Varint WireFmt Types De Log State CSharp Weight.
Local Open Scope nat_scope.

Definition coster := bytes -> nat.
(** Reader.cs 100-103: the array of a nested reader, and what is read by that. *)
Definition nested_copies (ct : coster) : coster := fun bs =>
  match c_nested bs with Ok (sub, _) => length sub + ct sub | _ => 0 end.
(** StateFactory.cs 73-81. *)
Definition value_copies (t : cty) (ct : coster) : coster := fun bs =>
  match c_wty t with Varint => ct bs | Sized => nested_copies ct bs end.
(** State.cs 24-57: a field that is skipped has a nested reader too, but [SkipToEnd] does not copy (Reader.cs 88-90). *)
Definition field_copies (rs : list (N * (wtype * coster))) : coster := fun bs =>
  match c_key bs with
  | Ok (tag, w, rest) =>
      let ct := match assoc tag rs with Some (w', ct) => if wtype_eqb w w' then ct else fun _ => 0 | None => fun _ => 0 end in
      match w with Varint => ct rest | Sized => nested_copies ct rest end
  | _ => 0
  end.
(** StateMap.cs 31-44. *)
Definition map_copies (t : cty) (ct : coster) : coster := fun bs =>
  match c_key bs with Ok (_, _, rest) => value_copies t ct rest | _ => 0 end.

Section Join.
  Context (join : nat -> nat -> nat).

  (** [while (!reader.EndOfStream())] (CSharp.v, [cloop]). *)
  Fixpoint loop_copies {S} (fuel : nat) (step : S -> bytes -> res (S * bytes)) (ct : coster) (s : S) (bs : bytes) : nat :=
    match bs with
    | [] => 0
    | _ =>
        match fuel with
        | O => 0
        | Datatypes.S fuel =>
            join (ct bs) (match step s bs with Ok (s, rest) => loop_copies fuel step ct s rest | _ => 0 end)
        end
    end.
  Definition run_copies {S} (step : S -> bytes -> res (S * bytes)) (ct : coster) (s : S) (bs : bytes) : nat :=
    loop_copies (length bs) step ct s bs.

  (** What the [Deserialize] methods copy; the sources are cited at [c_deser]. *)
  Fixpoint copies (t : cty) {struct t} : coster :=
    let costers := map (fun f : N * (bool * cty) => let '(tag, (g, t)) := f in (tag, (c_field_wty g t, copies t))) in
    fun bs =>
    match t with
    | CInt _ | CBool => 0
    | CStr | CBytes => length bs
    | COpt t => match bs with [] => 0 | _ => value_copies t (copies t) bs end
    | CVec t | CList t => run_copies (c_item_step t (c_deser t)) (value_copies t (copies t)) [] bs
    | CMap t => run_copies (c_map_step t (c_deser t)) (map_copies t (copies t)) [] bs
    | CStruct fs =>
        match c_new_fields fs with
        | Ok xs => run_copies (c_struct_step (c_readers fs)) (field_copies (costers fs)) xs bs
        | _ => 0
        end
    | CEnum vs =>
        match c_new (CEnum vs), c_int U32 bs with
        | Ok _, Ok (tag, rest) =>
            (fix find vs := match vs with
             | [] => 0
             | (tag', fs) :: vs' =>
                 if (tag' =? Z.to_N tag)%N then
                   match c_new_fields fs with
                   | Ok xs => run_copies (c_struct_step (c_readers fs)) (field_copies (costers fs)) xs rest
                   | _ => 0
                   end
                 else find vs'
             end) vs
        | _, _ => 0
        end
    end.
  Definition costers (fs : list (N * (bool * cty))) : list (N * (wtype * coster)) :=
    map (fun f : N * (bool * cty) => let '(tag, (g, t)) := f in (tag, (c_field_wty g t, copies t))) fs.

  (** StateReplayer.cs 16-69: the reader of a payload has the array of the entry ([new ByteReader(...)], ByteReader.cs 13-16). *)
  Fixpoint copies_at (t : cty) (v : cval) (path : list N) (op : cty -> cval -> nat) : nat :=
    match path with
    | [] => op t v
    | tag :: path' => match c_child t v tag with Ok (Some (t', x)) => copies_at t' x path' op | _ => 0 end
    end.
  Definition replace_copies (tag : N) (bs : bytes) (t : cty) (v : cval) : nat :=
    match t, v with
    | CStruct fs, CVStruct _ => match assoc tag fs with Some (_, t) => copies t bs | None => 0 end
    | CEnum vs, CVEnum _ _ => match assoc tag vs with Some fs => copies (CStruct fs) bs | None => 0 end
    | CList t, CVList l => if (lenN l <=? tag)%N then 0 else copies t bs
    | CMap t, CVMap _ => copies t bs
    | _, _ => 0
    end.
  Definition push_copies (bs : bytes) (t : cty) (v : cval) : nat :=
    match t, v with CList t, CVList _ => copies t bs | _, _ => 0 end.
  Definition handle_copies (t : cty) (e : entry) (v : cval) : nat :=
    match e with
    | EUpdate path bs =>
        match path with
        | [] => copies t bs
        | _ => copies_at t v (removelast path) (replace_copies (last path 0%N) bs)
        end
    | EListPush path bs => copies_at t v path (push_copies bs)
    | EListPop _ | EMapRemove _ _ => 0
    end.

  (** StateReplayer.cs 9-14: while an entry is handled, its payload is kept in the entry. *)
  Definition entry_copies (t : cty) (v : cval) : coster := fun bs =>
    nested_copies (fun sub =>
      copies cEntry sub +
      match (do (x, _) <- c_deser cEntry sub; c_entry x) with Ok e => handle_copies t e v | _ => 0 end) bs.
  Fixpoint replay_loop_copies (fuel : nat) (t : cty) (v : cval) (bs : bytes) : nat :=
    match bs with
    | [] => 0
    | _ =>
        match fuel with
        | O => 0
        | S fuel =>
            join (entry_copies t v bs)
              (match c_replay_step t v bs with (v', Ok rest) => replay_loop_copies fuel t v' rest | _ => 0 end)
        end
    end.
  Definition replay_copies (t : cty) (v : cval) (bs : bytes) : nat := replay_loop_copies (length bs) t v bs.
End Join.

(** How many readers of a class are nested into one another, with what is read to the end. *)
Fixpoint levels (t : cty) : nat :=
  match t with
  | CInt _ | CBool => 0
  | CStr | CBytes => 1
  | COpt t | CVec t | CList t | CMap t => match c_wty t with Varint => 0 | Sized => S (levels t) end
  | CStruct fs => S (most (map (fun f : N * (bool * cty) => let '(_, (_, t)) := f in levels t) fs))
  | CEnum vs => most (map (fun va : N * list (N * (bool * cty)) => let '(_, fs) := va in
      S (most (map (fun f : N * (bool * cty) => let '(_, (_, t)) := f in levels t) fs))) vs)
  end.

(** The class of [tChain] and the object of [vChain] (Depth.v). *)
Fixpoint cChain (n : nat) : cty :=
  match n with O => CStruct [] | S n => CStruct [(0%N, (false, COpt (cChain n)))] end.
Fixpoint oChain (n : nat) : cval :=
  match n with O => CVStruct [] | S n => CVStruct [(0%N, CVOpt (Some (oChain n)))] end.
