(** The C# client again (CSharp.v), with what it leaves out: which object is which, the [Path] of each
    object, and the events raised during replay.  Handlers are taken to do nothing but look; the
    arguments of an event are the objects as they are when the event is raised. *)
From Verif Require Import Base Varint WireFmt Types De Log State CSharp.

(** Identity and path.  A [Path] (Path.cs) is the list of the tags from the root; [GetNested] (17-19)
    adds one at the end.  Identities are given out in the order of construction. *)
Definition hdl : Type := N * list N.
(** The objects of CSharp.v with their handles; primitives have none.  An enum has two: its own and that
    of the variant object in it. *)
Inductive cobj :=
| OInt (z : Z)
| OBool (b : bool)
| OStr (s : option bytes)
| OBytes (h : hdl) (s : bytes)
| OOpt (h : hdl) (o : option cobj)
| OVec (h : hdl) (l : list cobj)
| OList (h : hdl) (l : list cobj)
| OMap (h : hdl) (es : list (N * cobj))
| OStruct (h : hdl) (fs : list (N * cobj))
| OEnum (h : hdl) (tag : N) (hv : hdl) (fs : list (N * cobj)).
Definition o_handle_of (o : cobj) : option hdl :=
  match o with
  | OInt _ | OBool _ | OStr _ => None
  | OBytes h _ | OOpt h _ | OVec h _ | OList h _ | OMap h _ | OStruct h _ | OEnum h _ _ _ => Some h
  end.
(** [this.Path]. *)
Definition o_path (o : cobj) : list N := match o_handle_of o with Some (_, p) => p | None => [] end.

(** ** Constructors *)

(** As [c_new]; csharp.rs 130-156 and 444-472 for the paths.  [n] is the next identity. *)
Fixpoint o_new (t : cty) (p : list N) (n : N) {struct t} : res (cobj * N) :=
  let fields := fix fields (fs : list (N * (bool * cty))) (p : list N) (n : N) : res (list (N * cobj) * N) :=
    match fs with
    | [] => Ok ([], n)
    | (tag, (g, t)) :: fs' =>
        do (x, n) <- if g && negb (c_constructible t) then Panic else o_new t (p ++ [tag]) n;
        do (xs, n) <- fields fs' p n;
        Ok ((tag, x) :: xs, n)
    end in
  match t with
  | CInt _ => Ok (OInt 0, n)
  | CBool => Ok (OBool false, n)
  | CStr => Ok (OStr None, n)
  | CBytes => Ok (OBytes (n, p) [], n + 1)
  | COpt _ => Ok (OOpt (n, p) None, n + 1)
  | CVec _ => Ok (OVec (n, p) [], n + 1)
  | CList _ => Ok (OList (n, p) [], n + 1)
  | CMap _ => Ok (OMap (n, p) [], n + 1)
  | CStruct fs => do (xs, n') <- fields fs p (n + 1); Ok (OStruct (n, p) xs, n')
  | CEnum vs =>
      (fix first vs := match vs with
       | [] => NoFuel
       | (tag, fs) :: vs' =>
           if tag =? 0 then do (xs, n') <- fields fs (p ++ [tag]) (n + 2); Ok (OEnum (n, p) tag (n + 1, p ++ [tag]) xs, n')
           else first vs'
       end) vs
  end.
Fixpoint o_new_fields (fs : list (N * (bool * cty))) (p : list N) (n : N) : res (list (N * cobj) * N) :=
  match fs with
  | [] => Ok ([], n)
  | (tag, (g, t)) :: fs' =>
      do (x, n) <- if g && negb (c_constructible t) then Panic else o_new t (p ++ [tag]) n;
      do (xs, n) <- o_new_fields fs' p n;
      Ok ((tag, x) :: xs, n)
  end.

(** ** Decoding *)

Definition oreader := N -> bytes -> res (cobj * bytes * N).

(** StateFactory.cs 73-81. *)
Definition o_value (t : cty) (rd : oreader) : oreader := fun n bs =>
  match c_wty t with
  | Varint => rd n bs
  | Sized => do (sub, rest) <- c_nested bs; do (x, _, n) <- rd n sub; Ok (x, rest, n)
  end.
Fixpoint o_put (tag : N) (x : cobj) (fs : list (N * cobj)) : list (N * cobj) :=
  match fs with
  | [] => []
  | (tag', y) :: fs' => if tag =? tag' then (tag', x) :: fs' else (tag', y) :: o_put tag x fs'
  end.
(** State.cs 24-55 with csharp.rs 297-336, as [c_struct_step]. *)
Definition o_struct_step (rs : list (N * (wtype * oreader))) (s : list (N * cobj) * N) (bs : bytes)
  : res ((list (N * cobj) * N) * bytes) :=
  let '(fs, n) := s in
  do (tag, w, rest) <- c_key bs;
  do (sub, rest) <- match w with Sized => c_nested rest | Varint => Ok (rest, rest) end;
  let skip := match w with
              | Varint => do (_, rest) <- c_bool rest false; Ok (s, rest)
              | Sized => Ok (s, rest)
              end in
  match assoc tag rs with
  | Some (w', rd) =>
      if wtype_eqb w w' then
        do (x, rem, n) <- rd n sub;
        Ok ((o_put tag x fs, n), match w with Varint => rem | Sized => rest end)
      else skip
  | None => skip
  end.
(** StateMap.cs 37-41: [path] is the path of the map to be. *)
Definition o_map_step (t : cty) (rd : list N -> oreader) (p : list N) (s : list (N * cobj) * N) (bs : bytes)
  : res ((list (N * cobj) * N) * bytes) :=
  let '(es, n) := s in
  do (tag, _, rest) <- c_key bs;
  do (x, rest, n) <- o_value t (rd (p ++ [tag])) n rest;
  Ok ((im_insert tag x es, n), rest).
(** StateList.cs 35-40, Vector.cs 24-30: [tag++] counts the items (fewer than 2^32). *)
Definition o_item_step (t : cty) (rd : list N -> oreader) (p : list N) (s : list cobj * N) (bs : bytes)
  : res ((list cobj * N) * bytes) :=
  let '(l, n) := s in
  do (x, rest, n) <- o_value t (rd (p ++ [lenN l])) n bs; Ok ((l ++ [x], n), rest).

(** As [c_deser], for an object that gets path [p]: Bytes.cs 17-19, Option.cs 32-38, Vector.cs 19-32,
    StateList.cs 31-43, StateMap.cs 31-44, csharp.rs 229-240 with 302-331, 493-504 with 525-541. *)
Fixpoint o_deser (t : cty) (p : list N) {struct t} : oreader :=
  let readers (p : list N) := map (fun f : N * (bool * cty) => let '(tag, (g, t)) := f in (tag, (c_field_wty g t, o_deser t (p ++ [tag])))) in
  fun n bs =>
  match t with
  | CInt k => do (z, rest) <- c_int k bs; Ok (OInt z, rest, n)
  | CBool => do (b, rest) <- c_bool bs false; Ok (OBool b, rest, n)
  | CStr => Ok (OStr (Some bs), [], n)
  | CBytes => Ok (OBytes (n, p) bs, [], n + 1)
  | COpt t =>
      match bs with
      | [] => Ok (OOpt (n, p) None, [], n + 1)
      | _ => do (x, rest, n) <- o_value t (o_deser t (p ++ [0])) n bs; Ok (OOpt (n, p) (Some x), rest, n + 1)
      end
  | CVec t => do (l, n) <- crun (o_item_step t (o_deser t) p) ([], n) bs; Ok (OVec (n, p) l, [], n + 1)
  | CList t => do (l, n) <- crun (o_item_step t (o_deser t) p) ([], n) bs; Ok (OList (n, p) l, [], n + 1)
  | CMap t => do (es, n) <- crun (o_map_step t (o_deser t) p) ([], n) bs; Ok (OMap (n, p) es, [], n + 1)
  | CStruct fs =>
      do (xs, n') <- o_new_fields fs p (n + 1);
      do (xs, n') <- crun (o_struct_step (readers p fs)) (xs, n') bs; Ok (OStruct (n, p) xs, [], n')
  | CEnum vs =>
      do (d, n') <- o_new (CEnum vs) p n;
      do (tag, rest) <- c_int U32 bs;
      (fix find vs := match vs with
       | [] => Ok (d, [], n')
       | (tag', fs) :: vs' =>
           if tag' =? Z.to_N tag then
             do (xs, n'') <- o_new_fields fs (p ++ [tag']) (n' + 1);
             do (xs, n'') <- crun (o_struct_step (readers (p ++ [tag']) fs)) (xs, n'') rest;
             Ok (OEnum (n, p) tag' (n', p ++ [tag']) xs, [], n'')
           else find vs'
       end) vs
  end.
Definition o_readers (p : list N) (fs : list (N * (bool * cty))) : list (N * (wtype * oreader)) :=
  map (fun f : N * (bool * cty) => let '(tag, (g, t)) := f in (tag, (c_field_wty g t, o_deser t (p ++ [tag])))) fs.
(** [T.Deserialize(reader, path)] with a path that may be [null].  It stands for [Path.Root]
    (Path.cs 6, [path ?? Path.Root]), except that [Option] uses it before (Option.cs 34 with
    StateFactory.cs 73-77). *)
Definition o_deserialize (t : cty) (path : option (list N)) : oreader := fun n bs =>
  match t, path, bs with
  | COpt t', None, _ :: _ => if c_state t' then Panic else o_deser t [] n bs          (* NullReferenceException *)
  | _, None, _ => o_deser t [] n bs
  | _, Some p, _ => o_deser t p n bs
  end.

(** ** Events *)

(** State/Event: the object that raises the event, as it is then, and the other arguments. *)
Inductive event :=
| EvField (owner : cobj) (tag : N) (new old : cobj)                       (* FieldUpdateEventArgs *)
| EvVariant (owner : cobj) (newTag : N) (new : cobj) (oldTag : N) (old : cobj)
| EvPush (owner : cobj) (tag : N) (item : cobj)
| EvPop (owner : cobj) (tag : N) (item : cobj)
| EvInsert (owner : cobj) (tag : N) (value : cobj)
| EvRemove (owner : cobj) (tag : N) (value : cobj).

(** ** Replay *)

(** [GetNested(tag)], as [c_child]. *)
Definition o_child (t : cty) (v : cobj) (tag : N) : res (option (cty * cobj)) :=
  match t, v with
  | CStruct fs, OStruct _ xs =>
      match assoc tag fs with
      | None => Ok None
      | Some (_, t) => if c_state t then match assoc tag xs with Some x => Ok (Some (t, x)) | None => NoFuel end else Ok None
      end
  | CEnum vs, OEnum _ tag' hv xs =>
      if tag =? tag' then match assoc tag vs with Some fs => Ok (Some (CStruct fs, OStruct hv xs)) | None => NoFuel end
      else Ok None
  | CList t, OList _ l =>
      if c_state t then Ok (match nth_error l (N.to_nat tag) with Some x => Some (t, x) | None => None end) else Ok None
  | CMap t, OMap _ es =>
      if c_state t then Ok (match assoc tag es with Some x => Some (t, x) | None => None end) else Ok None
  | CBytes, OBytes _ _ | COpt _, OOpt _ _ | CVec _, OVec _ _ => Ok None
  | _, _ => NoFuel
  end.
(** The object after its nested object was changed in place. *)
Definition o_put_child (v : cobj) (tag : N) (x : cobj) : cobj :=
  match v, x with
  | OStruct h xs, _ => OStruct h (o_put tag x xs)
  | OEnum h tag' _ _, OStruct hv xs => OEnum h tag' hv xs
  | OList h l, _ => OList h (set_nth l (N.to_nat tag) x)
  | OMap h es, _ => OMap h (o_put tag x es)
  | _, _ => v
  end.

(** What a change leaves: the object, the next identity, the events raised. *)
Definition changed : Type := cobj * N * list event.
Definition oop := cty -> cobj -> N -> res changed.
(** State.cs 9-15, StateReplayer.cs 33-37. *)
Fixpoint o_modify (t : cty) (v : cobj) (n : N) (path : list N) (op : oop) : res changed :=
  match path with
  | [] => op t v n
  | tag :: path' =>
      do c <- o_child t v tag;
      match c with
      | None => Ok (v, n, [])
      | Some (t', x) => do (x', n', evs) <- o_modify t' x n path' op; Ok (o_put_child v tag x', n', evs)
      end
  end.

(** StateReplayer.cs 40-47 with [ReplaceAt]: csharp.rs 302-331 with 345-366, 525-558; StateList.cs 54-68;
    StateMap.cs 55-70.  The new object is made, then the event is raised, then the change is made. *)
Definition o_replace_at (tag : N) (bs : bytes) : oop := fun t v n =>
  match t, v with
  | CStruct fs, OStruct h xs =>
      match assoc tag fs with
      | None => Ok (v, n, [])
      | Some (_, t) =>
          do (x, _, n) <- o_deser t (o_path v ++ [tag]) n bs;
          match assoc tag xs with
          | Some y => Ok (OStruct h (o_put tag x xs), n, [EvField v tag x y])
          | None => NoFuel
          end
      end
  | CEnum vs, OEnum h tag' hv xs' =>
      match assoc tag vs with
      | None => Ok (v, n, [])
      | Some fs =>
          do (x, _, n) <- o_deser (CStruct fs) (o_path v ++ [tag]) n bs;
          match x with
          | OStruct hx xs => Ok (OEnum h tag hx xs, n, [EvVariant v tag x tag' (OStruct hv xs')])
          | _ => NoFuel
          end
      end
  | CList t, OList h l =>
      match nth_error l (N.to_nat tag) with
      | None => Panic                                        (* IndexOutOfRangeException *)
      | Some y => do (x, _, n) <- o_deser t (o_path v ++ [tag]) n bs;
                  Ok (OList h (set_nth l (N.to_nat tag) x), n, [EvField v tag x y])
      end
  | CMap t, OMap h es =>
      do (x, _, n) <- o_deser t (o_path v ++ [tag]) n bs;
      Ok (OMap h (im_insert tag x es), n,
          [match assoc tag es with Some y => EvField v tag x y | None => EvInsert v tag x end])
  | CBytes, OBytes _ _ | COpt _, OOpt _ _ | CVec _, OVec _ _ => Ok (v, n, [])
  | _, _ => NoFuel
  end.
(** StateList.cs 70-78, 80-91; StateMap.cs 75-84. *)
Definition o_push (bs : bytes) : oop := fun t v n =>
  match t, v with
  | CList t, OList h l =>
      do (x, _, n) <- o_deser t (o_path v ++ [lenN l]) n bs; Ok (OList h (l ++ [x]), n, [EvPush v (lenN l) x])
  | _, _ => Panic
  end.
Definition o_pop : oop := fun t v n =>
  match t, v with
  | CList _, OList h l =>
      match l with
      | [] => Panic
      | x :: _ => Ok (OList h (removelast l), n, [EvPop v (lenN l - 1) (last l x)])
      end
  | _, _ => Panic
  end.
Definition o_remove (k : N) : oop := fun t v n =>
  match t, v with
  | CMap _, OMap h es =>
      match assoc k es with
      | None => Panic
      | Some y => Ok (OMap h (filter (fun e => negb (fst e =? k)) es), n, [EvRemove v k y])
      end
  | _, _ => Panic
  end.

(** StateReplayer.cs 16-69.  A new root gets the path of the old one (28). *)
Definition o_handle (t : cty) (e : entry) (v : cobj) (n : N) : res changed :=
  match e with
  | EUpdate path bs =>
      match path with
      | [] => do (x, _, n) <- o_deser t (o_path v) n bs; Ok (x, n, [])
      | _ => o_modify t v n (removelast path) (o_replace_at (last path 0) bs)
      end
  | EListPush path bs => o_modify t v n path (o_push bs)
  | EListPop path => o_modify t v n path o_pop
  | EMapRemove path k => o_modify t v n path (o_remove k)
  end.

(** StateReplayer.cs 9-14.  The objects that make up entries are never part of the state. *)
Definition o_replay_step (t : cty) (s : changed) (bs : bytes) : changed * res bytes :=
  let '(v, n, evs) := s in
  try s (do (sub, rest) <- c_nested bs; do (x, _) <- c_deser cEntry sub; do e <- c_entry x;
         do (v', n', evs') <- o_handle t e v n; Ok ((v', n', evs ++ evs'), rest))
    (fun '(s', rest) => (s', Ok rest)).
Definition o_replay (t : cty) (v : cobj) (n : N) (bs : bytes) : changed * res unit :=
  let '(s, o) := run (o_replay_step t) (v, n, []) bs in (s, do _ <- o; Ok tt).
