(** The text of the generated C# classes: steit/src/gen/writer.rs, gen/str_util.rs,
    gen/generators/csharp.rs.  Strings are ASCII: [to_uppercase] and [to_lowercase] of other characters are not modelled. *)
From Verif Require Import Base Varint WireFmt Types Meta.
From Coq Require Ascii DecimalString.
From Coq Require Import String.
Import Ascii String.StringSyntax.
Local Open Scope string_scope.
Local Open Scope list_scope.
Local Open Scope N_scope.
Notation ascii := Ascii.ascii.

(** ** writer.rs *)

(** The calls on a [Writer], lines 20-45. *)
Inductive wop := WIndent | WOutdent | WWrite (s : string) | WIndentation | WNewline.
Definition nl : string := String "010"%char "".
Fixpoint spaces (n : nat) : string := match n with O => "" | S n => String " "%char (spaces n) end.
(** What a sequence of calls appends to [out], with [indent_size] and [current_indent_level]; the level
    afterwards.  20-31: [outdent] at level 0 does nothing. *)
Fixpoint emit (size lvl : nat) (ops : list wop) : string :=
  match ops with
  | [] => ""
  | WIndent :: ops => emit size (S lvl) ops
  | WOutdent :: ops => emit size (pred lvl) ops
  | WWrite s :: ops => s +++ emit size lvl ops
  | WIndentation :: ops => spaces (lvl * size) +++ emit size lvl ops
  | WNewline :: ops => nl +++ emit size lvl ops
  end.
Fixpoint level (lvl : nat) (ops : list wop) : nat :=
  match ops with
  | [] => lvl
  | WIndent :: ops => level (S lvl) ops
  | WOutdent :: ops => level (pred lvl) ops
  | _ :: ops => level lvl ops
  end.
(** 47-57. *)
Definition writeln (s : string) : list wop := [WIndentation; WWrite s; WNewline].
Definition indent_writeln (s : string) : list wop := WIndent :: writeln s.
Definition outdent_writeln (s : string) : list wop := WOutdent :: writeln s.
Definition newline : list wop := [WNewline].

(** ** str_util.rs *)

Definition code (c : ascii) : N := N_of_ascii c.
Definition is_lower (c : ascii) : bool := (97 <=? code c) && (code c <=? 122).
Definition is_upper (c : ascii) : bool := (65 <=? code c) && (code c <=? 90).
Definition to_upper (c : ascii) : ascii := if is_lower c then ascii_of_N (code c - 32) else c.
Definition to_lower (c : ascii) : ascii := if is_upper c then ascii_of_N (code c + 32) else c.

(** 1-11. *)
Definition uncap_first_char (s : string) : string :=
  match s with "" => "" | String c s => String (to_lower c) s end.
(** 13-28. *)
Fixpoint to_camel_case (s : string) (upper : bool) : string :=
  match s with
  | "" => ""
  | String c s =>
      if Ascii.eqb c "_" then to_camel_case s true
      else if upper then String (to_upper c) (to_camel_case s false)
      else String c (to_camel_case s false)
  end.

(** ** csharp.rs *)

(** 7-10. *)
Record cssetting := CS { cs_namespace : string; cs_used : list string }.

(** [format!("{}", tag)]. *)
Definition dec (n : N) : string := DecimalString.NilZero.string_of_uint (N.to_uint n).

(** [sort()] on strings: by bytes. *)
Fixpoint sinsert (s : string) (l : list string) : list string :=
  match l with
  | [] => [s]
  | x :: l' => if String.leb s x then s :: l else x :: sinsert s l'
  end.
Definition ssort (l : list string) : list string := fold_right sinsert [] l.

(** 36-58. *)
Definition gen_file_opening (s : cssetting) : list wop :=
  writeln "using System;" ++ newline ++
  flat_map (fun u => writeln ("using " +++ u +++ ";"))
    (ssort (["Steit.Builtins"; "Steit.Codec"; "Steit.Collections"; "Steit.State"; "Steit.State.Event"] ++ cs_used s)) ++
  newline ++ writeln ("namespace " +++ cs_namespace s +++ " {") ++ [WIndent].
(** 60-62. *)
Definition gen_file_closing : list wop := outdent_writeln "}".

(** 579-596, 598-614. *)
Record csfield := CF { cf_meta : fmeta; cf_name : string; cf_type : string }.
Definition field_from_meta (f : fmeta) : res csfield :=
  do t <- cs_field_type (fm_ty f);
  Ok (CF f (to_camel_case (cs_name (fm_name f)) true) t).
Definition cf_tag (f : csfield) : string := dec (fm_tag (cf_meta f)).
Definition variant_name (v : smeta * N) : string := to_camel_case (cs_name (sm_name (fst v))) true.

(** 616-622. *)
Definition type_params (l : list string) : string :=
  match l with [] => "" | _ => "<" +++ join ", " l +++ ">" end.

Definition when {A} (b : bool) (l : list A) : list A := if b then l else [].
(** [len() > 1], [!is_empty()]. *)
Definition many {A} (l : list A) : bool := match l with _ :: _ :: _ => true | _ => false end.
Definition some {A} (l : list A) : bool := match l with [] => false | _ => true end.

(** 142-156: how the constructor makes a field. *)
Definition field_init (f : csfield) : list wop :=
  match fm_ty (cf_meta f) with
  | MPrim _ _ => []
  | MRef _ _ => writeln ("this." +++ cf_name f +++ " = new " +++ cf_type f +++ "(this.Path.GetNested(" +++ cf_tag f +++ "));")
  | MParam p => writeln ("this." +++ cf_name f +++ " = StateFactory.Construct<" +++ p +++ ">(this.Path.GetNested(" +++ cf_tag f +++ "));")
  end.
(** 175-196. *)
Definition field_clear (one_line : bool) (f : csfield) : list wop :=
  [WIndentation; WWrite ("public static void Clear" +++ cf_name f +++ "UpdateHandlers() {")] ++
  (if one_line then [WWrite " "] else [WNewline; WIndent; WIndentation]) ++
  [WWrite ("On" +++ cf_name f +++ "Update = null;")] ++
  (if one_line then [WWrite " "] else [WNewline; WOutdent; WIndentation]) ++
  [WWrite "}"; WNewline].
(** 247-263. *)
Definition field_wire (f : fmeta) : list wop :=
  writeln ("case " +++ dec (fm_tag f) +++ ": return " +++
    match fm_ty f with
    | MPrim _ Varint => "WireType.Varint"
    | MPrim _ Sized => "WireType.Sized"
    | MRef _ _ => "WireType.Sized"
    | MParam p => "StateFactory.IsStateType(typeof(" +++ p +++ ")) ? WireType.Sized : WireType.Varint"
    end +++ ";").
(** 276-290. *)
Definition field_nested (f : csfield) : list wop :=
  match fm_ty (cf_meta f) with
  | MPrim _ _ => []
  | MRef _ _ => writeln ("case " +++ cf_tag f +++ ": return this." +++ cf_name f +++ ";")
  | MParam _ => writeln ("case " +++ cf_tag f +++ ": return this." +++ cf_name f +++ " as IState;")
  end.
(** 302-331. *)
Definition field_replace (f : csfield) : list wop :=
  writeln ("case " +++ cf_tag f +++ ": this." +++ cf_name f +++ " = this.MaybeNotify(" +++ cf_tag f +++ ", " +++
    match fm_ty (cf_meta f) with
    | MPrim _ _ => "reader.Read" +++ cf_type f +++ "()"
    | MRef _ _ => cf_type f +++ ".Deserialize(reader, this.Path.GetNested(" +++ cf_tag f +++ "))"
    | MParam _ => "StateFactory.Deserialize<" +++ cf_type f +++ ">(reader, this.Path, " +++ cf_tag f +++ ")"
    end +++ ", this." +++ cf_name f +++ ", On" +++ cf_name f +++ "Update, shouldNotify); break;").

(** 93-112. *)
Definition struct_properties (type_name : string) (fields : list csfield) : list wop :=
  writeln ("public sealed partial class " +++ type_name +++ " : IState {") ++ [WIndent] ++
  writeln "public Path Path { get; }" ++
  when (many fields) newline ++
  flat_map (fun f => writeln ("public " +++ cf_type f +++ " " +++ cf_name f +++ " { get; private set; }")) fields.
(** 123-128, 434-439. *)
Definition validate (params : list string) : list wop :=
  flat_map (fun p => writeln ("StateFactory.ValidateType(typeof(" +++ p +++ "));")) params.
(** 114-159. *)
Definition struct_ctor (access name : string) (params : list string) (fields : list csfield) : list wop :=
  newline ++ writeln (access +++ " " +++ name +++ "(Path path = null) {") ++ [WIndent] ++
  validate params ++
  when (many params && many fields) newline ++
  writeln "this.Path = path ?? Path.Root;" ++
  when (many params && many fields) newline ++
  flat_map field_init fields ++
  outdent_writeln "}" ++ newline.
(** 161-226. *)
Definition struct_events (type_name : string) (fields : list csfield) : list wop :=
  flat_map (fun f => writeln ("public static event EventHandler<FieldUpdateEventArgs<" +++ cf_type f +++ ", " +++ type_name +++
    ">> On" +++ cf_name f +++ "Update;")) fields ++
  when (some fields) newline ++
  flat_map (field_clear (many fields)) fields ++
  when (some fields) newline ++
  [WIndentation; WWrite "public static void ClearUpdateHandlers() {"] ++
  (if some fields then [WIndent] else [WWrite " "]) ++
  flat_map (fun f => [WNewline; WIndentation; WWrite ("On" +++ cf_name f +++ "Update = null;")]) fields ++
  when (some fields) [WOutdent; WNewline; WIndentation] ++
  [WWrite "}"; WNewline; WNewline].
(** 229-240, 494-505. *)
Definition gen_deserialize (access type_name var_name : string) : list wop :=
  writeln (access +++ " static " +++ type_name +++ " Deserialize(IReader reader, Path path = null) {") ++
  indent_writeln ("var " +++ var_name +++ " = new " +++ type_name +++ "(path);") ++
  writeln (var_name +++ ".Replace(reader, shouldNotify: false);") ++
  writeln ("return " +++ var_name +++ ";") ++
  outdent_writeln "}".
(** 241-268. *)
Definition struct_wire (fields : list fmeta) : list wop :=
  newline ++ writeln "public WireType? GetWireType(UInt32 tag) {" ++ indent_writeln "switch (tag) {" ++ [WIndent] ++
  flat_map field_wire fields ++
  writeln "default: return null;" ++ outdent_writeln "}" ++ outdent_writeln "}".
(** 269-295. *)
Definition struct_nested (fields : list csfield) : list wop :=
  newline ++ writeln "public IState GetNested(UInt32 tag) {" ++ indent_writeln "switch (tag) {" ++ [WIndent] ++
  flat_map field_nested fields ++
  writeln "default: return null;" ++ outdent_writeln "}" ++ outdent_writeln "}".
(** 296-336. *)
Definition struct_replace (fields : list csfield) : list wop :=
  newline ++ writeln "public void ReplaceAt(UInt32 tag, WireType wireType, IReader reader, bool shouldNotify) {" ++
  indent_writeln "switch (tag) {" ++ [WIndent] ++
  flat_map field_replace fields ++
  writeln "default: reader.SkipField(wireType); break;" ++ outdent_writeln "}" ++ outdent_writeln "}".
(** 337-344, 541-544. *)
Definition gen_replay : list wop :=
  newline ++ writeln "public void ReplayListPush(IReader reader) { throw new NotSupportedException(); }" ++
  writeln "public void ReplayListPop() { throw new NotSupportedException(); }" ++
  writeln "public void ReplayMapRemove(UInt32 key) { throw new NotSupportedException(); }".
(** 345-366. *)
Definition struct_notify (type_name : string) : list wop :=
  newline ++ writeln "private TValue MaybeNotify<TValue>(" ++
  indent_writeln "UInt32 tag," ++
  writeln "TValue newValue," ++
  writeln "TValue oldValue," ++
  writeln ("EventHandler<FieldUpdateEventArgs<TValue, " +++ type_name +++ ">> handler,") ++
  writeln "bool shouldNotify" ++
  outdent_writeln ") {" ++
  indent_writeln "if (shouldNotify) {" ++
  indent_writeln ("var args = new FieldUpdateEventArgs<TValue, " +++ type_name +++ ">(tag, newValue, oldValue, this);") ++
  writeln "handler?.Invoke(this, args);" ++
  outdent_writeln "}" ++
  newline ++ writeln "return newValue;" ++
  outdent_writeln "}".

(** 70-372. *)
Definition gen_struct (s : smeta) (is_variant : bool) (setting : cssetting) : res (list wop) :=
  let name := cs_name (sm_name s) in
  let var_name := uncap_first_char name in
  let type_name := if is_variant then name else name +++ type_params (sm_params s) in
  let access := if is_variant then "internal" else "public" in
  do fields <- all_ok (map field_from_meta (sm_fields s));
  Ok (
    when (negb is_variant) (gen_file_opening setting) ++
    struct_properties type_name fields ++
    struct_ctor access name (sm_params s) fields ++
    struct_events type_name fields ++
    gen_deserialize access type_name var_name ++
    struct_wire (sm_fields s) ++
    struct_nested fields ++
    struct_replace fields ++
    gen_replay ++
    struct_notify type_name ++
    outdent_writeln "}" ++
    when (negb is_variant) gen_file_closing).

Definition vname (v : smeta * N) : string := cs_name (sm_name (fst v)).
(** 392-423. *)
Definition enum_properties (type_name : string) (vs : list (smeta * N)) : list wop :=
  writeln ("public sealed partial class " +++ type_name +++ " : IEnumState {") ++ [WIndent] ++
  flat_map (fun v => writeln ("public const UInt32 " +++ variant_name v +++ "Tag = " +++ dec (snd v) +++ ";")) vs ++
  newline ++ writeln "public Path Path { get; }" ++
  newline ++ writeln "public UInt32 Tag { get; private set; }" ++
  writeln "public IState Variant { get; private set; }" ++ newline ++
  flat_map (fun v => writeln ("public " +++ vname v +++ " " +++ vname v +++ "Variant { get { return this.Variant as " +++ vname v +++ "; } }")) vs.
(** 424-473. *)
Definition enum_ctor (name : string) (params : list string) (vs : list (smeta * N)) (default : smeta * N) : list wop :=
  newline ++ writeln ("public " +++ name +++ "(Path path = null) : this(path, " +++ dec (snd default) +++ ") { }") ++
  newline ++ writeln ("public " +++ name +++ "(Path path, UInt32 tag) {") ++ [WIndent] ++
  validate params ++
  when (many params) newline ++
  writeln "this.Path = path ?? Path.Root;" ++
  when (many params) newline ++
  writeln "this.Tag = tag;" ++ newline ++ writeln "switch (tag) {" ++ [WIndent] ++
  flat_map (fun v => writeln ("case " +++ dec (snd v) +++ ": this.Variant = new " +++ vname v +++ "(this.Path.GetNested(" +++ dec (snd v) +++ ")); break;")) vs ++
  writeln ("default: this.Variant = new " +++ vname default +++ "(this.Path.GetNested(" +++ dec (snd default) +++ ")); break;") ++
  outdent_writeln "}" ++ outdent_writeln "}" ++ newline.
(** 475-492. *)
Definition enum_events (name type_name : string) (vs : list (smeta * N)) : list wop :=
  flat_map (fun v => writeln ("public static " +++ name +++ " New" +++ variant_name v +++ "(Path path = null) { return new " +++ name +++
    "(path, " +++ dec (snd v) +++ "); }")) vs ++
  newline ++ writeln ("public static event EventHandler<VariantUpdateEventArgs<" +++ type_name +++ ">> OnUpdate;") ++
  newline ++ writeln "public static void ClearUpdateHandlers() {" ++ indent_writeln "OnUpdate = null;" ++ outdent_writeln "}" ++
  newline.
(** 504-518. *)
Definition enum_wire (vs : list (smeta * N)) : list wop :=
  newline ++ writeln "public WireType? GetWireType(UInt32 tag) {" ++ indent_writeln "switch (tag) {" ++ [WIndent] ++
  flat_map (fun v : smeta * N => writeln ("case " +++ dec (snd v) +++ ": return WireType.Sized;")) vs ++
  writeln "default: return null;" ++ outdent_writeln "}" ++ outdent_writeln "}".
(** 519-524. *)
Definition enum_nested : list wop :=
  newline ++ writeln "public IState GetNested(UInt32 tag) {" ++
  indent_writeln "return tag == this.Tag ? this.Variant : null;" ++ outdent_writeln "}".
(** 525-540. *)
Definition enum_replace (vs : list (smeta * N)) : list wop :=
  newline ++ writeln "public void ReplaceAt(UInt32 tag, WireType wireType, IReader reader, bool shouldNotify) {" ++
  indent_writeln "switch (tag) {" ++ [WIndent] ++
  flat_map (fun v => writeln ("case " +++ dec (snd v) +++ ": this.UpdateAndNotify(" +++ dec (snd v) +++ ", " +++ vname v +++
    ".Deserialize(reader, this.Path.GetNested(" +++ dec (snd v) +++ ")), shouldNotify); break;")) vs ++
  writeln "default: reader.SkipToEnd(); break;" ++ outdent_writeln "}" ++ outdent_writeln "}".
(** 545-558. *)
Definition enum_notify (type_name : string) : list wop :=
  newline ++ writeln "private void UpdateAndNotify(UInt32 newTag, IState newVariant, bool shouldNotify) {" ++
  indent_writeln "if (shouldNotify) {" ++
  indent_writeln ("var args = new VariantUpdateEventArgs<" +++ type_name +++ ">(newTag, newVariant, this.Tag, this.Variant, this);") ++
  writeln (type_name +++ ".OnUpdate?.Invoke(this, args);") ++
  outdent_writeln "}" ++
  newline ++ writeln "this.Tag = newTag;" ++ writeln "this.Variant = newVariant;" ++ outdent_writeln "}".
(** 560-571. *)
Definition enum_variant (setting : cssetting) (v : smeta * N) : res (list wop) :=
  do ops <- gen_struct (fst v) true setting;
  Ok (newline ++ writeln ("// Variant (" +++ dec (snd v) +++ "): " +++ vname v) ++ newline ++ ops).

(** 374-576.  A default variant is one with tag 0 (msg.rs 54-58). *)
Definition gen_enum (e : emeta) (setting : cssetting) : res (list wop) :=
  let name := cs_name (em_name e) in
  let var_name := uncap_first_char name in
  let type_name := name +++ type_params (em_params e) in
  let vs := em_variants e in
  match find (fun v : smeta * N => snd v =? 0) vs with
  | None => Panic
  | Some default =>
      do structs <- all_ok (map (enum_variant setting) vs);
      Ok (
        gen_file_opening setting ++
        enum_properties type_name vs ++
        enum_ctor name (em_params e) vs default ++
        enum_events name type_name vs ++
        gen_deserialize "public" type_name var_name ++
        enum_wire vs ++
        enum_nested ++
        enum_replace vs ++
        gen_replay ++
        enum_notify type_name ++
        List.concat structs ++
        outdent_writeln "}" ++
        gen_file_closing)
  end.

(** generator.rs 26-63 with 66 ([INDENT_SIZE]): the contents of the file written for a message. *)
Definition gen_message (m : message) (setting : cssetting) : res (list wop) :=
  match m with MStruct s => gen_struct s false setting | MEnum e => gen_enum e setting end.
Definition gen_text (m : message) (setting : cssetting) : res string :=
  do ops <- gen_message m setting; Ok (emit 4 0 ops).
(** generator.rs 26-63: the files written, by name. *)
Definition gen_files (fuel : nat) (e : env) (s : gsetting) (cs : cssetting) (root : rty) : res (list (string * string)) :=
  do l <- generate fuel e s root;
  all_ok (map (fun p : string * message => do t <- gen_text (snd p) cs; Ok (fst p +++ ".cs", t)) l).
