(** What a C# client writes to the console.

    There is one such place: a field whose wire type is not the one that its class expects (State.cs 49-54).  This follows the
    decoding of CSharp.v; which objects are made and how far a reader gets is taken from there.  What was written before an
    exception stays written. *)
From Verif Require Import Base Varint WireFmt Types De Log State CSharp Gen.
From Coq Require Import String.
Local Open Scope N_scope.
Local Open Scope list_scope.

(** The expected wire type, the path of the field, the wire type found. *)
Definition warning : Type := wtype * list N * wtype.
Definition warner := bytes -> list warning.

(** State.cs 24-57: the nested reader is made before the line is written; a field that is not known is skipped without one
    ([GetWireType] is [null]). *)
Definition field_warns (rs : list (N * (wtype * warner))) (p : list N) : warner := fun bs =>
  match c_key bs with
  | Ok (tag, w, rest) =>
      match match w with Sized => c_nested rest | Varint => Ok (rest, rest) end with
      | Ok (sub, _) =>
          match assoc tag rs with
          | Some (w', ct) => if wtype_eqb w w' then ct sub else [(w', p ++ [tag], w)]
          | None => []
          end
      | _ => []
      end
  | _ => []
  end.
(** StateFactory.cs 73-81. *)
Definition value_warns (t : cty) (ct : warner) : warner := fun bs =>
  match c_wty t with
  | Varint => ct bs
  | Sized => match c_nested bs with Ok (sub, _) => ct sub | _ => [] end
  end.
(** [while (!reader.EndOfStream())] (CSharp.v, [cloop]). *)
Fixpoint loop_warns {S} (fuel : nat) (step : S -> bytes -> res (S * bytes)) (ct : S -> warner) (s : S) (bs : bytes) : list warning :=
  match bs with
  | [] => []
  | _ =>
      match fuel with
      | O => []
      | Datatypes.S fuel => ct s bs ++ match step s bs with Ok (s, rest) => loop_warns fuel step ct s rest | _ => [] end
      end
  end.
Definition run_warns {S} (step : S -> bytes -> res (S * bytes)) (ct : S -> warner) (s : S) (bs : bytes) : list warning :=
  loop_warns (List.length bs) step ct s bs.
(** StateList.cs 31-43, Vector.cs 19-32: the path of an item is that of the collection and its number. *)
Definition item_warns (t : cty) (ct : list N -> warner) (p : list N) (l : list cval) : warner := value_warns t (ct (p ++ [lenN l])).
(** StateMap.cs 31-44. *)
Definition entry_of_map_warns (t : cty) (ct : list N -> warner) (p : list N) (es : list (N * cval)) : warner := fun bs =>
  match c_key bs with Ok (tag, _, rest) => value_warns t (ct (p ++ [tag])) rest | _ => [] end.

(** What is written while an object with path [p] is decoded; the sources are cited at [c_deser], for the paths at [o_deser]. *)
Fixpoint warns (t : cty) (p : list N) {struct t} : warner :=
  let warners (p : list N) := map (fun f : N * (bool * cty) => let '(tag, (g, t)) := f in (tag, (c_field_wty g t, warns t (p ++ [tag])))) in
  fun bs =>
  match t with
  | CInt _ | CBool | CStr | CBytes => []
  | COpt t => match bs with [] => [] | _ => value_warns t (warns t (p ++ [0])) bs end
  | CVec t | CList t => run_warns (c_item_step t (c_deser t)) (item_warns t (warns t) p) [] bs
  | CMap t => run_warns (c_map_step t (c_deser t)) (entry_of_map_warns t (warns t) p) [] bs
  | CStruct fs =>
      match c_new_fields fs with
      | Ok xs => run_warns (c_struct_step (c_readers fs)) (fun _ => field_warns (warners p fs) p) xs bs
      | _ => []
      end
  | CEnum vs =>
      match c_new (CEnum vs), c_int U32 bs with
      | Ok _, Ok (tag, rest) =>
          (fix find vs := match vs with
           | [] => []
           | (tag', fs) :: vs' =>
               if tag' =? Z.to_N tag then
                 match c_new_fields fs with
                 | Ok xs => run_warns (c_struct_step (c_readers fs)) (fun _ => field_warns (warners (p ++ [tag']) fs) (p ++ [tag'])) xs rest
                 | _ => []
                 end
               else find vs'
           end) vs
      | _, _ => []
      end
  end.
Definition warners (p : list N) (fs : list (N * (bool * cty))) : list (N * (wtype * warner)) :=
  map (fun f : N * (bool * cty) => let '(tag, (g, t)) := f in (tag, (c_field_wty g t, warns t (p ++ [tag])))) fs.

(** StateReplayer.cs 16-69 with [ReplaceAt] and [ReplayListPush]; [p] is the path of the root.  That the object at a path has this
    path as its [Path] is C62. *)
Fixpoint warns_at (t : cty) (v : cval) (p path : list N) (op : cty -> cval -> list N -> list warning) : list warning :=
  match path with
  | [] => op t v p
  | tag :: path' => match c_child t v tag with Ok (Some (t', x)) => warns_at t' x (p ++ [tag]) path' op | _ => [] end
  end.
Definition replace_warns (tag : N) (bs : bytes) (t : cty) (v : cval) (p : list N) : list warning :=
  match t, v with
  | CStruct fs, CVStruct _ => match assoc tag fs with Some (_, t) => warns t (p ++ [tag]) bs | None => [] end
  | CEnum vs, CVEnum _ _ => match assoc tag vs with Some fs => warns (CStruct fs) (p ++ [tag]) bs | None => [] end
  | CList t, CVList l => if lenN l <=? tag then [] else warns t (p ++ [tag]) bs
  | CMap t, CVMap _ => warns t (p ++ [tag]) bs
  | _, _ => []
  end.
Definition push_warns (bs : bytes) (t : cty) (v : cval) (p : list N) : list warning :=
  match t, v with CList t, CVList l => warns t (p ++ [lenN l]) bs | _, _ => [] end.
Definition handle_warns (t : cty) (e : entry) (v : cval) (p : list N) : list warning :=
  match e with
  | EUpdate path bs =>
      match path with
      | [] => warns t p bs
      | _ => warns_at t v p (removelast path) (replace_warns (last path 0) bs)
      end
  | EListPush path bs => warns_at t v p path (push_warns bs)
  | EListPop _ | EMapRemove _ _ => []
  end.
(** StateReplayer.cs 9-14: the entry has the path of a root itself. *)
Definition entry_warns (t : cty) (v : cval) (p : list N) : warner := fun bs =>
  match c_nested bs with
  | Ok (sub, _) =>
      warns cEntry [] sub ++
      match (do (x, _) <- c_deser cEntry sub; c_entry x) with Ok e => handle_warns t e v p | _ => [] end
  | _ => []
  end.
Fixpoint replay_loop_warns (fuel : nat) (t : cty) (v : cval) (p : list N) (bs : bytes) : list warning :=
  match bs with
  | [] => []
  | _ =>
      match fuel with
      | O => []
      | S fuel =>
          entry_warns t v p bs ++
          match c_replay_step t v bs with (v', Ok rest) => replay_loop_warns fuel t v' p rest | _ => [] end
      end
  end.
Definition replay_warns (t : cty) (v : cval) (p : list N) (bs : bytes) : list warning := replay_loop_warns (List.length bs) t v p bs.

(** ** The text *)

(** Path.cs 22-33, State.cs 51; a wire type is shown by its name (WireType.cs 3-7). *)
Fixpoint path_text (p : list N) : string :=
  match p with [] => "" | tag :: p' => "/" ++ dec tag ++ path_text p' end%string.
Definition wtype_text (w : wtype) : string := match w with Varint => "Varint" | Sized => "Sized" end.
Definition warning_text (x : warning) : string :=
  let '(expected, p, got) := x in
  ("Expected wire type " ++ wtype_text expected ++ " for path " ++ path_text p ++ ", got " ++ wtype_text got ++ ".")%string.

(** ** What a class expects *)

(** The wire type of the field at a path. *)
Fixpoint expects (r : list N) (t : cty) : option wtype :=
  match t, r with
  | CStruct fs, tag :: r' =>
      match assoc tag fs, r' with
      | Some (g, t), [] => Some (c_field_wty g t)
      | Some (_, t), _ => expects r' t
      | None, _ => None
      end
  | CEnum vs, tag :: r' => match assoc tag vs with Some fs => expects r' (CStruct fs) | None => None end
  | COpt t, tag :: r' => if tag =? 0 then expects r' t else None
  | (CVec t | CList t | CMap t), _ :: r' => expects r' t
  | _, _ => None
  end.
