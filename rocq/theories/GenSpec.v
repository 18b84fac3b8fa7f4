(** What a generated class is to be: the members of its objects, the classes its names mean, and when
    its names are usable.  Stated for descriptions (Meta.v), without the generator. *)
From Verif Require Import Base Varint WireFmt Types De Meta Gen CSharp CsRead CsRun.
From Coq Require Import String Ascii.
Import String.StringSyntax.
Local Open Scope string_scope.
Local Open Scope list_scope.
Local Open Scope N_scope.

Fixpoint some_all {A B} (f : A -> option B) (l : list A) : option (list B) :=
  match l with
  | [] => Some []
  | a :: l => match f a, some_all f l with Some b, Some bs => Some (b :: bs) | _, _ => None end
  end.

(** ** Members *)

(** The class of a field: boxes vanish, maps lose the type of their keys; primitives have a C# name. *)
Fixpoint cn_of (t : tmeta) : option cname :=
  match t with
  | MPrim n _ => option_map (fun s => CN s []) (n_csharp n)
  | MParam p => Some (CN p [])
  | MRef n [] => Some (CN (cs_name n) [])
  | MRef n args =>
      match (fix go l := match l with
             | [] => Some []
             | t :: l => match cn_of t, go l with Some c, Some cs => Some (c :: cs) | _, _ => None end
             end) args with
      | None => None
      | Some l =>
          if String.eqb (cs_name n) "Box" then hd_error l
          else if String.eqb (cs_name n) "StateMap" then match tl l with [] => None | l => Some (CN (cs_name n) l) end
          else Some (CN (cs_name n) l)
      end
  end.
(** A field, its property and the type of the property. *)
Record vfield := VF { v_meta : fmeta; v_name : string; v_type : cname }.
Definition v_tag (v : vfield) : N := fm_tag (v_meta v).
Definition is_param (v : vfield) : bool := match fm_ty (v_meta v) with MParam _ => true | _ => false end.
Definition vf_of (f : fmeta) : option vfield := option_map (VF f (to_camel_case (cs_name (fm_name f)) true)) (cn_of (fm_ty f)).
(** The fields of a struct with their classes. *)
Definition field_of (ty : cname -> option cty) (f : fmeta) : option (vfield * cty) :=
  match vf_of f with
  | Some v => match ty (v_type v) with Some c => Some (v, c) | None => None end
  | None => None
  end.
Definition fields_of (ty : cname -> option cty) (l : list fmeta) : option (list (vfield * cty)) := some_all (field_of ty) l.
(** Their class as in CSharp.v. *)
Definition cfields (l : list (vfield * cty)) : list (N * (bool * cty)) :=
  map (fun fc : vfield * cty => (v_tag (fst fc), (is_param (fst fc), snd fc))) l.

(** ** Objects *)

(** An object of another class has its path; a primitive none. *)
Definition client : world (cval * list N) := World
  (fun c => (match c_new c with Ok x => x | _ => CVInt 0 end, []))
  (fun c bs => do (x, rest) <- c_deser c bs; Ok ((x, []), rest))
  (fun c p => do x <- c_new c; Ok (x, p))
  (fun c p bs => do (x, rest) <- c_deser c bs; Ok ((x, p), rest)).
Definition cvalue : Type := value (cval * list N).
(** A member value: an object has the path of the owner and its tag. *)
Definition held (p : list N) (tag : N) (c : cty) (x : cval) : cvalue := VObj c (x, if c_state c then p ++ [tag] else []).
Fixpoint members (p : list N) (l : list (vfield * cty)) (xs : list (N * cval)) : list (string * cvalue) :=
  match l, xs with
  | (v, c) :: l, (_, x) :: xs => (v_name v, held p (v_tag v) c x) :: members p l xs
  | _, _ => []
  end.
Definition struct_object (p : list N) (l : list (vfield * cty)) (xs : list (N * cval)) : list (string * cvalue) :=
  ("Path", VPath p) :: members p l xs.
(** A variant: its description, tag and fields. *)
Record variant := Variant { va_meta : smeta; va_tag : N; va_fields : list (vfield * cty) }.
Definition va_name (v : variant) : string := cs_name (sm_name (va_meta v)).
Definition va_camel (v : variant) : string := to_camel_case (va_name v) true.
Definition va_class (v : variant) : cty := CStruct (cfields (va_fields v)).
Definition cvariants (vs : list variant) : list (N * list (N * (bool * cty))) := map (fun v => (va_tag v, cfields (va_fields v))) vs.
Definition variants_of (ty : cname -> option cty) (e : emeta) (vs : list variant) : Prop :=
  Forall2 (fun v (sv : smeta * N) => va_meta v = fst sv /\ va_tag v = snd sv /\ fields_of ty (sm_fields (fst sv)) = Some (va_fields v))
    vs (em_variants e).
(** The variant object has the path of the enum and its tag. *)
Definition enum_object (p : list N) (vs : list variant) (tag : N) (xs : list (N * cval)) : list (string * cvalue) :=
  [("Path", VPath p); ("Tag", VNum tag);
   ("Variant", VObj (CStruct match assoc tag (cvariants vs) with Some fs => fs | None => [] end) (CVStruct xs, p ++ [tag]))].
Definition tag_in (x : cval) : N := match x with CVEnum tag _ => tag | _ => 0 end.
Definition inside (x : cval) : list (N * cval) := match x with CVStruct xs => xs | CVEnum _ xs => xs | _ => [] end.
Definition root_or (a : option (list N)) : list N := match a with Some p => p | None => [] end.

(** ** Names *)

Fixpoint unique (l : list string) : bool := match l with [] => true | n :: l => negb (str_mem n l) && unique l end.
Fixpoint cn_all (p : string -> bool) (t : cname) : bool :=
  match t with CN n args => p n && forallb (cn_all p) args end.
Definition known {A} (a : option A) : bool := match a with Some _ => true | None => false end.
Definition own_type (n : string) (ps : list string) : cname := CN n (map (fun p => CN p []) ps).

(** Names of the library that generated code means to use. *)
Definition library_names : list string :=
  ["Path"; "StateFactory"; "WireType"; "FieldUpdateEventArgs"; "VariantUpdateEventArgs"; "IState"].
(** Names it uses in the types of members only. *)
Definition header_names : list string := ["UInt32"; "EventHandler"; "IReader"; "NotSupportedException"; "IEnumState"].
Definition no_library (user : string -> list cty -> option cty) : Prop :=
  forall n cs, In n (library_names ++ header_names) -> user n cs = None.
Definition params_free (params : list (string * cty)) : bool :=
  forallb (fun n => negb (str_mem n (map fst params))) (library_names ++ header_names).

(** What a struct declares. *)
Definition on (v : vfield) : string := "On" +++ v_name v +++ "Update".
Definition struct_names (vs : list vfield) : list (string * meaning) :=
  ("Path", IsProp (CN "Path" [])) :: map (fun v => (v_name v, IsProp (v_type v))) vs ++
  map (fun v => (on v, IsOther)) vs ++ map (fun v => ("Clear" +++ v_name v +++ "UpdateHandlers", IsOther)) vs ++
  [("ClearUpdateHandlers", IsOther); ("Deserialize", IsOther); ("GetWireType", IsOther); ("GetNested", IsOther); ("ReplaceAt", IsOther);
   ("ReplayListPush", IsOther); ("ReplayListPop", IsOther); ("ReplayMapRemove", IsOther); ("MaybeNotify", IsOther)].
(** Before a dot, a name means a class if it is no local variable and no member, unless the member is a
    property that has the class as its type. *)
Definition type_seen (names : list (string * meaning)) (m : string) : bool :=
  match sassoc m names with
  | None | Some IsType => true
  | Some (IsProp t) => cname_eqb t (CN m [])
  | Some IsOther | Some IsParam => false
  end.
(** Type parameters are declared like members. *)
Definition with_params (ps : list string) (names : list (string * meaning)) : list (string * meaning) :=
  names ++ map (fun p => (p, IsParam)) ps.
Definition not_param (names : list (string * meaning)) (t : cname) : bool :=
  match t with
  | CN n [] => match sassoc n names with Some IsParam => false | _ => true end
  | _ => true
  end.
Definition replace_locals : list string := ["tag"; "wireType"; "reader"; "shouldNotify"].
Definition field_fine (params : list (string * cty)) (user : string -> list cty -> option cty) (names : list (string * meaning))
    (fc : vfield * cty) : bool :=
  let '(v, c) := fc in
  ident (v_name v) && cn_all type_ident (v_type v) &&
  match fm_ty (v_meta v) with
  | MPrim n k =>
      match sassoc (cs_name n) primitives with Some c => wtype_eqb (c_wty c) k | None => false end &&
      negb (str_mem (cs_name n) (map fst params)) && negb (known (user (cs_name n) []))
  | MRef _ _ =>
      c_state c && match v_type v with
                   | CN m [] => negb (str_mem m replace_locals) && type_seen names m
                   | _ => true
                   end
  | MParam _ => true
  end.
(** A struct class: [n] its name, [ps] its type parameters, [vps] those its constructor checks, [outer]
    what the class around it declares.  [TValue] is a type parameter of a method that names the class. *)
Definition struct_fine (params : list (string * cty)) (user : string -> list cty -> option cty) (outer : list (string * meaning))
    (n : string) (ps vps : list string) (fcs : list (vfield * cty)) : bool :=
  let names := with_params ps (struct_names (map fst fcs)) in
  type_ident n && ident (uncap_first_char n) && negb (str_mem (uncap_first_char n) ["reader"; "path"]) &&
  forallb type_ident ps && forallb type_ident vps &&
  known (resolve params user (own_type n ps)) &&
  forallb (fun p => known (resolve params user (CN p []))) vps &&
  unique (n :: map fst names) && not_param (names ++ outer) (own_type n ps) && negb (str_mem "TValue" (n :: ps)) &&
  distinct (map v_tag (map fst fcs)) &&
  negb (str_mem "StateFactory" (map fst (names ++ outer))) && negb (str_mem "WireType" (map fst (names ++ outer))) &&
  forallb (field_fine params user (names ++ outer)) fcs.

(** Inside an enum the names of its variants come before classes of the namespace. *)
Definition in_scope (vs : list variant) (user : string -> list cty -> option cty) : string -> list cty -> option cty :=
  fun n cs =>
  match cs, find (fun v => String.eqb n (va_name v)) vs with
  | [], Some v => Some (va_class v)
  | _, _ => user n cs
  end.
Definition enum_names (vs : list variant) : list (string * meaning) :=
  map (fun v => (va_camel v +++ "Tag", IsOther)) vs ++
  [("Path", IsProp (CN "Path" [])); ("Tag", IsProp (CN "UInt32" [])); ("Variant", IsProp (CN "IState" []))] ++
  map (fun v => (va_name v +++ "Variant", IsProp (CN (va_name v) []))) vs ++ map (fun v => ("New" +++ va_camel v, IsOther)) vs ++
  [("OnUpdate", IsOther); ("ClearUpdateHandlers", IsOther); ("Deserialize", IsOther); ("GetWireType", IsOther); ("GetNested", IsOther);
   ("ReplaceAt", IsOther); ("ReplayListPush", IsOther); ("ReplayListPop", IsOther); ("ReplayMapRemove", IsOther); ("UpdateAndNotify", IsOther)] ++
  map (fun v => (va_name v, IsType)) vs.
Definition update_locals : list string := ["newTag"; "newVariant"; "shouldNotify"; "args"].
Definition variant_fine (params : list (string * cty)) (user : string -> list cty -> option cty) (names : list (string * meaning)) (v : variant) : bool :=
  ident (va_camel v) && ident (va_camel v +++ "Tag") && ident (va_name v +++ "Variant") &&
  negb (str_mem (va_name v) (map fst params)) && negb (str_mem (va_name v) (library_names ++ header_names)) && negb (str_mem (va_name v) replace_locals) &&
  struct_fine params user names (va_name v) [] (sm_params (va_meta v)) (va_fields v).
Definition enum_fine (params : list (string * cty)) (user : string -> list cty -> option cty) (n : string) (ps : list string) (vs : list variant) : bool :=
  let names := with_params ps (enum_names vs) in
  type_ident n && ident (uncap_first_char n) && negb (str_mem (uncap_first_char n) ["reader"; "path"]) && negb (str_mem n update_locals) &&
  forallb type_ident ps && known (resolve params user (own_type n ps)) &&
  forallb (fun p => known (resolve params user (CN p []))) ps &&
  unique (n :: map fst names) && distinct (map va_tag vs) &&
  negb (str_mem "StateFactory" (map fst names)) && negb (str_mem "WireType" (map fst names)) &&
  forallb (variant_fine params user names) vs.

(** ** The file *)

Fixpoint split_from (w s : string) : list string :=
  match s with
  | "" => [w]
  | String c s => if Ascii.eqb c "." then w :: split_from "" s else split_from (w +++ String c "") s
  end.
(** The names of a dotted name. *)
Definition split (s : string) : list string := split_from "" s.
(** A namespace: names of which none is a keyword. *)
Definition ns_ok (s : string) : bool := forallb ident (split s).
(** The namespaces of the client library that a file uses. *)
Definition lib_usings : list string := ["Steit.Builtins"; "Steit.Codec"; "Steit.Collections"; "Steit.State"; "Steit.State.Event"].
Definition setting_ok (s : cssetting) : bool := ns_ok (cs_namespace s) && forallb ns_ok (cs_used s).
(** The file of a public class. *)
Definition file_of (s : cssetting) (n : string) (ps : list string) (base : string) (f : file) : Prop :=
  fl_namespace f = split (cs_namespace s) /\
  (forall u, In u (fl_using f) <-> In u (map split ("System" :: lib_usings ++ cs_used s))) /\
  exists mods ms, fl_class f = KClass mods n ps (CN base []) ms /\ In "public" mods.

(** ** Behaviour *)

(** A class whose methods do what CSharp.v says of a struct with these fields.  [p]: the path of an
    object; [xs]: the values of its members by tag. *)
Record struct_class (ty : cname -> option cty) (cls : member) (outer : list (string * meaning)) (fcs : list (vfield * cty)) : Prop := {
  sc_new : forall a, run_new _ client ty cls outer a =
    do x <- c_new (CStruct (cfields fcs)); Ok (struct_object (root_or a) fcs (inside x));
  sc_deserialize : forall a bs, run_deserialize _ client ty cls outer a bs =
    do (x, rest) <- c_deser (CStruct (cfields fcs)) bs; Ok (struct_object (root_or a) fcs (inside x), rest, []);
  sc_wire_type : forall o tag, run_wire_type _ client ty cls outer o tag =
    Ok match assoc tag (cfields fcs) with Some (g, c) => VWire (c_field_wty g c) | None => VNull end;
  sc_nested : forall p xs tag, map fst xs = map v_tag (map fst fcs) ->
    run_nested _ client ty cls outer (struct_object p fcs xs) tag =
    do r <- c_child (CStruct (cfields fcs)) (CVStruct xs) tag;
    Ok match r with Some (c, x) => VObj c (x, p ++ [tag]) | None => VNull end;
  sc_replace_at : forall p xs v c y k bs notify, map fst xs = map v_tag (map fst fcs) -> In (v, c) fcs -> assoc (v_tag v) xs = Some y ->
    run_replace_at _ client ty cls outer (struct_object p fcs xs) (v_tag v) k bs notify =
    do (x, rest) <- c_deser c bs;
    Ok (struct_object p fcs (c_put (v_tag v) x xs), rest,
        if notify then [(on v, [VThis; VArgs [VNum (v_tag v); held p (v_tag v) c x; held p (v_tag v) c y; VThis]])] else []);
  sc_skip : forall p xs tag k bs notify, map fst xs = map v_tag (map fst fcs) -> ~ In tag (map v_tag (map fst fcs)) ->
    run_replace_at _ client ty cls outer (struct_object p fcs xs) tag k bs notify =
    match k with
    | Varint => do (_, rest) <- c_bool bs false; Ok (struct_object p fcs xs, rest, [])
    | Sized => Ok (struct_object p fcs xs, [], [])
    end }.

(** A class whose methods do what CSharp.v says of an enum with these variants. *)
Record enum_class (ty : cname -> option cty) (cls : member) (ps : list string) (vs : list variant) : Prop := {
  ec_new : forall a, run_new _ client ty cls [] a =
    do x <- c_new (CEnum (cvariants vs)); Ok (enum_object (root_or a) vs (tag_in x) (inside x));
  (* The factories of a generic enum name the class without arguments. *)
  ec_factory : forall v a bs, In v vs -> run_static _ client ty cls [] ("New" +++ va_camel v) [a_path a] bs =
    match ps with
    | [] => do x <- c_new (va_class v); Ok (enum_object (root_or a) vs (va_tag v) (inside x), bs, [])
    | _ => NoFuel
    end;
  ec_deserialize : forall a bs, run_deserialize _ client ty cls [] a bs =
    do (x, rest) <- c_deser (CEnum (cvariants vs)) bs; Ok (enum_object (root_or a) vs (tag_in x) (inside x), rest, []);
  ec_wire_type : forall o tag, run_wire_type _ client ty cls [] o tag =
    Ok match assoc tag (cvariants vs) with Some _ => VWire Sized | None => VNull end;
  ec_nested : forall p tag xs tag', In tag (map va_tag vs) ->
    run_nested _ client ty cls [] (enum_object p vs tag xs) tag' =
    do r <- c_child (CEnum (cvariants vs)) (CVEnum tag xs) tag';
    Ok match r with Some (c, x) => VObj c (x, p ++ [tag']) | None => VNull end;
  ec_replace_at : forall p tag xs v k bs notify, In tag (map va_tag vs) -> In v vs ->
    run_replace_at _ client ty cls [] (enum_object p vs tag xs) (va_tag v) k bs notify =
    do (x, rest) <- c_deser (va_class v) bs;
    Ok (enum_object p vs (va_tag v) (inside x), rest,
        if notify then
          [("OnUpdate", [VThis; VArgs [VNum (va_tag v); VObj (va_class v) (x, p ++ [va_tag v]); VNum tag;
             VObj (CStruct match assoc tag (cvariants vs) with Some fs => fs | None => [] end) (CVStruct xs, p ++ [tag]); VThis]])]
        else []);
  ec_skip : forall p tag xs tag' k bs notify, In tag (map va_tag vs) -> ~ In tag' (map va_tag vs) ->
    run_replace_at _ client ty cls [] (enum_object p vs tag xs) tag' k bs notify = Ok (enum_object p vs tag xs, [], []) }.
