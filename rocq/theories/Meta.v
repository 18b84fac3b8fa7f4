(** Descriptions of types, the collection of the messages to generate, and C# type names
    (steit/src/meta, steit/src/gen, the [HasMeta] implementations). *)
From Verif Require Import Base Varint WireFmt Types.
From Coq Require String.
Import String.StringSyntax.
Local Open Scope string_scope.
Local Open Scope N_scope.
Notation string := String.string.
Notation "a +++ b" := (String.append a b) (at level 60, right associativity).

(** ** Descriptions *)

(** name.rs 1-5. *)
Record nmeta := NM { n_rust : string; n_csharp : option string }.
(** name.rs 15-20, with the identity as transformation. *)
Definition cs_name (n : nmeta) : string :=
  match n_csharp n with Some s => s | None => n_rust n end.

(** [TypeMeta] and [FieldTypeMeta] (type.rs 5-16) in one type: [MParam] is [FieldTypeMeta::TypeParam],
    the others are [FieldTypeMeta::Type].  Compared by contents, as the code does. *)
Inductive tmeta :=
| MPrim (n : nmeta) (w : wtype)
| MRef (n : nmeta) (args : list tmeta)
| MParam (s : string).

(** msg.rs 49-54, 26-47. *)
Record fmeta := FM { fm_name : nmeta; fm_ty : tmeta; fm_tag : N }.
Record smeta := SM { sm_name : nmeta; sm_params : list string; sm_fields : list fmeta; sm_builtin : bool }.
Record emeta := EM { em_name : nmeta; em_params : list string; em_variants : list (smeta * N); em_builtin : bool }.
(** msg.rs 3-24. *)
Inductive message := MStruct (s : smeta) | MEnum (e : emeta).
Definition m_name (m : message) : nmeta :=
  match m with MStruct s => sm_name s | MEnum e => em_name e end.
Definition rust_name (m : message) : string := n_rust (m_name m).
Definition csharp_name (m : message) : string := cs_name (m_name m).
Definition is_builtin (m : message) : bool :=
  match m with MStruct s => sm_builtin s | MEnum e => em_builtin e end.

(** ** Collection *)

Definition str_mem (s : string) (l : list string) : bool := existsb (String.eqb s) l.
Definition ostr_eqb (a b : option string) : bool :=
  match a, b with Some x, Some y => String.eqb x y | None, None => true | _, _ => false end.
Definition nmeta_eqb (a b : nmeta) : bool :=
  String.eqb (n_rust a) (n_rust b) && ostr_eqb (n_csharp a) (n_csharp b).
(** The derived [PartialEq]. *)
Fixpoint tmeta_eqb (a b : tmeta) : bool :=
  match a, b with
  | MPrim n w, MPrim n' w' => nmeta_eqb n n' && wtype_eqb w w'
  | MRef n l, MRef n' l' =>
      nmeta_eqb n n' &&
      (fix go l l' := match l, l' with
       | [], [] => true
       | x :: l, x' :: l' => tmeta_eqb x x' && go l l'
       | _, _ => false
       end) l l'
  | MParam s, MParam s' => String.eqb s s'
  | _, _ => false
  end.
Definition tmem (t : tmeta) (l : list tmeta) : bool := existsb (tmeta_eqb t) l.

(** [collected_msgs.entry(name).or_insert(msg)]; for the iteration order of the map see GenDir.v. *)
Definition or_insert (name : string) (m : message) (l : list (string * message)) : list (string * message) :=
  if str_mem name (map fst l) then l else l ++ [(name, m)].

(** visited_types and collected_msgs. *)
Definition collected : Type := list tmeta * list (string * message).

Section Links.
  (** meta.rs 3-7. *)
  Variable link : Type.
  Variable l_type : link -> tmeta.
  Variable l_msg : link -> option message.
  Variable l_links : link -> list link.
  Variable get_name : message -> string.

  Fixpoint each_link (visit : link -> collected -> res collected) (ls : list link) (st : collected) : res collected :=
    match ls with
    | [] => Ok st
    | l :: ls => do st' <- visit l st; each_link visit ls st'
    end.

  (** gen_util.rs 14-31.  [fuel] bounds the depth of the recursion. *)
  Fixpoint visit_link (fuel : nat) (l : link) (st : collected) : res collected :=
    match fuel with
    | O => NoFuel
    | S f =>
        let '(seen, msgs) := st in
        let msgs := match l_msg l with Some m => or_insert (get_name m) m msgs | None => msgs end in
        if tmem (l_type l) seen then Ok (seen, msgs)
        else each_link (visit_link f) (l_links l) (l_type l :: seen, msgs)
    end.

  (** gen_util.rs 5-12. *)
  Definition collect (fuel : nat) (root : link) : res (list (string * message)) :=
    do (_, msgs) <- visit_link fuel root ([], []); Ok msgs.
End Links.

(** ** Rust types and their links *)

(** Types as written in a program: [RUser d args] is the [d]-th derived type, [RVar i] a type parameter
    (only inside declarations), [RAlias t] a path without arguments that is a [type] alias of [t].
    References, parentheses (which the macro looks through) and lifetimes are left out; tuples and
    HashMap have no description. *)
Inductive rty :=
| RInt (k : ikind) | RBool | RStr | RBytes
| ROpt (t : rty) | RVec (t : rty) | RArr (n : nat) (t : rty) | RList (t : rty) | RMap (k : mkey) (t : rty) | RBox (t : rty)
| RUser (d : nat) (args : list rty) | RVar (i : nat) | RAlias (t : rty).

Record field := FD { fd_name : nmeta; fd_ty : rty; fd_tag : N }.
Inductive body := BStruct (fs : list field) | BEnum (vs : list ((nmeta * N) * list field)).
(** A type with a derived [HasMeta]; [steit_owned] types are the built-in ones (struct.rs 490). *)
Record decl := DL { d_name : nmeta; d_params : list string; d_body : body; d_owned : bool }.
Definition env := list decl.
Definition no_decl : decl := DL (NM "" None) [] (BStruct []) false.
Definition decl_of (e : env) (d : nat) : decl := nth d e no_decl.
Definition body_fields (b : body) : list field :=
  match b with BStruct fs => fs | BEnum vs => flat_map snd vs end.

(** varint.rs 71-74, 125-128; bool.rs 41; string.rs 32 with macros.rs 96-103. *)
Definition int_name (k : ikind) : nmeta :=
  match k with
  | U8 => NM "u8" (Some "Byte") | U16 => NM "u16" (Some "UInt16")
  | U32 => NM "u32" (Some "UInt32") | U64 => NM "u64" (Some "UInt64")
  | I8 => NM "i8" (Some "SByte") | I16 => NM "i16" (Some "Int16")
  | I32 => NM "i32" (Some "Int32") | I64 => NM "i64" (Some "Int64")
  end.
Definition bool_name := NM "bool" (Some "Boolean").
Definition str_name := NM "String" (Some "String").
(** bytes.rs 67; option.rs 52-55; vec.rs 51-54; array.rs 59-62; list.rs 262-265; map.rs 275-278; box.rs 62-65. *)
Definition bytes_name := NM "Bytes" None.
Definition opt_name := NM "Option" (Some "Option").
Definition vec_name := NM "Vec" (Some "Vector").
Definition list_name := NM "List" (Some "StateList").
Definition map_name := NM "Map" (Some "StateMap").
Definition box_name := NM "Box" (Some "Box").
Definition key_kind (k : mkey) : ikind := match k with K8 => U8 | K16 => U16 | K32 => U32 end.

(** [HasMeta::TYPE]: macros.rs 105; bytes.rs 68; option.rs 57; vec.rs 56; array.rs 64-65; list.rs 267;
    map.rs 280, without the key; box.rs 67, the type in the box; struct.rs 549, enum.rs 499. *)
Fixpoint type_of (e : env) (t : rty) : tmeta :=
  match t with
  | RInt k => MPrim (int_name k) Varint
  | RBool => MPrim bool_name Varint
  | RStr => MPrim str_name Sized
  | RBytes => MRef bytes_name []
  | ROpt t => MRef opt_name [type_of e t]
  | RVec t | RArr _ t => MRef vec_name [type_of e t]
  | RList t => MRef list_name [type_of e t]
  | RMap _ t => MRef map_name [type_of e t]
  | RBox t | RAlias t => type_of e t
  | RUser d args => MRef (d_name (decl_of e d)) (map (type_of e) args)
  | RVar _ => MParam ""
  end.

(** field.rs 427-538: the description of the type of a field. *)
Fixpoint field_type_meta (e : env) (params : list string) (t : rty) : tmeta :=
  match t with
  | RInt _ | RBool | RStr | RBytes => type_of e t
  | ROpt t => MRef opt_name [field_type_meta e params t]
  | RVec t | RArr _ t => MRef vec_name [field_type_meta e params t]
  | RList t => MRef list_name [field_type_meta e params t]
  | RMap k t => MRef map_name [type_of e (RInt (key_kind k)); field_type_meta e params t]
  | RBox t => MRef box_name [field_type_meta e params t]
  | RAlias t => type_of e t
  | RUser d args => MRef (d_name (decl_of e d)) (map (field_type_meta e params) args)
  | RVar i => MParam (nth i params "")
  end.

(** field.rs 403-424; struct.rs 478-514. *)
Definition field_meta (e : env) (params : list string) (f : field) : fmeta :=
  FM (fd_name f) (field_type_meta e params (fd_ty f)) (fd_tag f).
Definition struct_meta (e : env) (d : decl) (n : nmeta) (ps : list string) (fs : list field) : smeta :=
  SM n ps (map (field_meta e (d_params d)) fs) (d_owned d).
(** struct.rs 551-555, enum.rs 455-512: a variant has no type parameters of its own. *)
Definition decl_msg (e : env) (d : decl) : message :=
  match d_body d with
  | BStruct fs => MStruct (struct_meta e d (d_name d) (d_params d) fs)
  | BEnum vs => MEnum (EM (d_name d) (d_params d)
                          (map (fun '((n, tag), fs) => (struct_meta e d n [] fs, tag)) vs) (d_owned d))
  end.

(** A declared type with its parameters replaced. *)
Fixpoint subst (args : list rty) (t : rty) : rty :=
  match t with
  | RInt _ | RBool | RStr | RBytes => t
  | ROpt t => ROpt (subst args t) | RVec t => RVec (subst args t) | RArr n t => RArr n (subst args t)
  | RList t => RList (subst args t) | RMap k t => RMap k (subst args t) | RBox t => RBox (subst args t)
  | RUser d l => RUser d (map (subst args) l)
  | RVar i => nth i args t
  | RAlias t => RAlias (subst args t)
  end.

(** [HasMeta::LINK]: the message (struct.rs 553, enum.rs 503; [None] for all others) and the links
    (option.rs 62, vec.rs 61, array.rs 70, list.rs 272, map.rs 285, box.rs 72; struct.rs 516-523;
    enum.rs 488; none for the others). *)
Fixpoint msg_of (e : env) (t : rty) : option message :=
  match t with RUser d _ => Some (decl_msg e (decl_of e d)) | RAlias t => msg_of e t | _ => None end.
Fixpoint links_of (e : env) (t : rty) : list rty :=
  match t with
  | RInt _ | RBool | RStr | RBytes | RVar _ => []
  | ROpt t | RVec t | RArr _ t | RList t | RMap _ t | RBox t => [t]
  | RUser d args => map (fun f => subst args (fd_ty f)) (body_fields (d_body (decl_of e d)))
  | RAlias t => links_of e t
  end.

Definition collect_meta (fuel : nat) (e : env) (get_name : message -> string) (root : rty)
    : res (list (string * message)) :=
  collect rty (type_of e) (msg_of e) (links_of e) get_name fuel root.

(** ** Generation *)

(** setting.rs 5-11. *)
Record gsetting := GS { g_name : message -> string; g_skip_builtins : bool; g_skip : list string }.
(** csharp.rs 384-388: an enum without a default variant is refused. *)
Definition gen_ok (m : message) : bool :=
  match m with MStruct _ => true | MEnum e => existsb (fun p => snd p =? 0) (em_variants e) end.
(** generator.rs 26-63: the names for which a file is written, with the message written to it.  The
    text is in Gen.v, the file system in GenDir.v. *)
Fixpoint gen_each (s : gsetting) (l : list (string * message)) : res (list (string * message)) :=
  match l with
  | [] => Ok []
  | (n, m) :: l =>
      if is_builtin m && g_skip_builtins s then gen_each s l
      else if str_mem n (g_skip s) then gen_each s l
      else if gen_ok m then do l' <- gen_each s l; Ok ((n, m) :: l')
      else Panic
  end.
Definition generate (fuel : nat) (e : env) (s : gsetting) (root : rty) : res (list (string * message)) :=
  do l <- collect_meta fuel e (g_name s) root; gen_each s l.

(** ** C# type names *)

Fixpoint join (sep : string) (l : list string) : string :=
  match l with
  | [] => ""
  | [s] => s
  | s :: l => s +++ sep +++ join sep l
  end.
Fixpoint all_ok {A} (l : list (res A)) : res (list A) :=
  match l with [] => Ok [] | x :: l => do a <- x; do l' <- all_ok l; Ok (a :: l') end.
(** csharp.rs 624-657. *)
Fixpoint cs_field_type (t : tmeta) : res string :=
  match t with
  | MPrim n _ => match n_csharp n with Some s => Ok s | None => Panic end
  | MRef n args =>
      let name := cs_name n in
      match args with
      | [] => Ok name
      | _ =>
          do l <- all_ok (map cs_field_type args);
          if String.eqb name "Box" then Ok (nth 0 l "")
          else let l := if String.eqb name "StateMap" then tl l else l in
               Ok (name +++ "<" +++ join ", " l +++ ">")
      end
  | MParam s => Ok s
  end.
