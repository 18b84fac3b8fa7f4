(** The [HasMeta] implementations that the derive macro writes (steit-derive/src/derive/field.rs 403-538,
    struct.rs 478-558, enum.rs 455-512) and what their constants evaluate to. *)
From Verif Require Import Base Varint WireFmt Types Meta Gen RsGen RsDecl Derive.
From Coq Require Import String.
Import String.StringSyntax.
Local Open Scope string_scope.
Local Open Scope list_scope.
Local Open Scope N_scope.

(** ** Declarations with their types as written *)

(** [syn::Type]: as [sty] of Derive.v, with the segments of paths and the lengths of arrays.  A segment
    before the last that has arguments, and a leading [::], are part of the text of a segment. *)
Inductive yty :=
| YParen (t : yty) | YRef (t : yty) | YArray (n : nat) (t : yty)
| YPath (qself : bool) (path : list string) (args : yargs)
| YOther
with yargs := YNone | YAngle (l : list yarg) | YParens
with yarg := YLife | YType (t : yty) | YRest.

(** [Path::get_ident], without its test for arguments. *)
Definition path_ident (p : list string) : option string := match p with [x] => Some x | _ => None end.
(** What Derive.v looks at. *)
Fixpoint bare_type (t : yty) : sty :=
  match t with
  | YParen t => SParen (bare_type t) | YRef t => SRef (bare_type t) | YArray _ t => SArray (bare_type t)
  | YPath q p a => SPath q (path_ident p)
      match a with
      | YNone => ANone
      | YAngle l => AAngle (map (fun x => match x with YLife => GLife | YType t => GType (bare_type t) | YRest => GOther end) l)
      | YParens => AParen
      end
  | YOther => SOther
  end.

Record yfield := YF { yf_attrs : list attr; yf_type : yty }.
Inductive yfields := YNamed (l : list (string * yfield)) | YUnnamed (l : list yfield) | YUnit.
Record yvariant := YV { yv_name : string; yv_attrs : list attr; yv_fields : yfields }.
Inductive ydata := YStruct (fs : yfields) | YEnum (vs : list yvariant) | YUnion.
(** [#[steit_derive(args)] #[attrs] struct/enum/union name<params> ...].  Raw identifiers are left out. *)
Record yitem := YI { yi_name : string; yi_params : list string; yi_consts : nat;
                     yi_args : list Derive.nmeta; yi_attrs : list attr; yi_data : ydata }.
Definition bare_yfield (f : yfield) : field := mkField (yf_attrs f) (bare_type (yf_type f)).
Definition bare_fields (fs : yfields) : nfields :=
  match fs with
  | YNamed l => NNamed (map (fun p => (fst p, bare_yfield (snd p))) l)
  | YUnnamed l => NUnnamed (map bare_yfield l)
  | YUnit => NUnit
  end.
Definition bare_item (i : yitem) : item :=
  Item (yi_args i) (yi_attrs i) (yi_consts i)
    match yi_data i with
    | YStruct fs => NStruct (bare_fields fs)
    | YEnum vs => NEnum (map (fun v => NV (yv_name v) (yv_attrs v) (bare_fields (yv_fields v))) vs)
    | YUnion => NUnion
    end.

(** ** The code *)

(** A [FieldTypeMeta]: [FieldTypeMeta::TypeParam("s")], [FieldTypeMeta::Type(<t as HasMeta>::TYPE)],
    [FieldTypeMeta::Type(&TypeMeta::Ref(<t as HasMeta>::NAME, &[args]))]. *)
Inductive mexpr := XParam (s : string) | XType (t : yty) | XRef (t : yty) (args : list mexpr).
(** [to_token_stream().to_string()], where it is an identifier. *)
Definition token_string (t : yty) : option string := match t with YPath false [x] YNone => Some x | _ => None end.
(** field.rs 447-455. *)
Definition type_param (ps : list string) (o : option string) : option string :=
  match o with Some x => if str_mem x ps then Some x else None | None => None end.
(** [Result::collect]. *)
Fixpoint collect_args {A B} (f : A -> option B) (l : list A) : option (list B) :=
  match l with
  | [] => Some []
  | a :: l => match f a, collect_args f l with Some b, Some l => Some (b :: l) | _, _ => None end
  end.
(** field.rs 427-538: nothing for types that are refused (Derive.v has the errors). *)
Fixpoint field_type_code (ps : list string) (t : yty) : option mexpr :=
  match t with
  | YParen t | YRef t => field_type_code ps t
  | YArray _ t =>
      match match type_param ps (token_string t) with Some x => Some (XParam x) | None => field_type_code ps t end with
      | Some x => Some (XRef (YArray 1 (YPath false ["i8"] YNone)) [x])
      | None => None
      end
  | YPath true _ _ => None
  | YPath false p YNone => Some match type_param ps (path_ident p) with Some x => XParam x | None => XType t end
  | YPath false p (YAngle l) =>
      option_map (XRef t)
        ((fix go l := match l with
          | [] => Some []
          | YLife :: l => go l
          | YType t :: l =>
              match match type_param ps (token_string t) with Some x => Some (XParam x) | None => field_type_code ps t end, go l with
              | Some x, Some xs => Some (x :: xs)
              | _, _ => None
              end
          | YRest :: _ => None
          end) l)
  | YPath false _ YParens | YOther => None
  end.

Record xfield := XF { xf_name : Meta.nmeta; xf_ty : mexpr; xf_tag : N }.
Record xstruct := XS { xs_name : Meta.nmeta; xs_params : list string; xs_fields : list xfield; xs_builtin : bool }.
Inductive xmsg := XMStruct (s : xstruct) | XMEnum (params : list string) (vs : list (xstruct * N)) (builtin : bool).
(** [impl<params> HasMeta for ..]: NAME; the parameters [p] of which [p::TYPE] is in TYPE; the message and
    the types whose [LINK]s are in LINK.  An enum's message has [Self::NAME]. *)
Record ximpl := XI { x_params : list string; x_name : Meta.nmeta; x_type : list string; x_msg : xmsg; x_links : list yty }.

(** field.rs 139-140, 149: the name of a field is its alias. *)
Definition aliased (fs : yfields) : list (string * yfield) :=
  match fs with
  | YNamed l => l
  | YUnnamed l => combine (map (fun k => "f" +++ dec (N.of_nat k)) (seq 0 (List.length l))) l
  | YUnit => []
  end.
(** field.rs 28-73, 207-230, 403-424. *)
Definition field_code (ps : list string) (p : string * yfield) : option xfield :=
  let '(s, _, _) := parse_attrs field_table true no_slots (yf_attrs (snd p)) in
  match the_tag s, field_type_code ps (yf_type (snd p)) with
  | inl n, Some x => Some (XF (NM (fst p) (text "csharp_name" s)) x n)
  | _, _ => None
  end.
(** struct.rs 478-514; [ps] are the parameters of the type, [own] those the description has. *)
Definition struct_meta_code (ps own : list string) (builtin : bool) (ns : list Derive.nmeta) (name : string) (fs : yfields) : option xstruct :=
  let '(s, _, _) := parse_metas struct_table true no_slots ns in
  option_map (fun xs => XS (NM name (text "csharp_name" s)) own xs builtin) (collect_args (field_code ps) (aliased fs)).
(** struct.rs 516-523. *)
Definition links_code (fs : yfields) : list yty := map (fun p => yf_type (snd p)) (aliased fs).
(** enum.rs 466-477, 544-551. *)
Definition variant_meta_code (ps : list string) (builtin : bool) (v : yvariant) : option (xstruct * N) :=
  let '(s, _, u) := parse_attrs variant_table false no_slots (yv_attrs v) in
  match the_tag s, struct_meta_code ps [] builtin u (yv_name v) (yv_fields v) with
  | inl n, Some x => Some (x, n)
  | _, _ => None
  end.
(** derive.rs 167-216; struct.rs 525-558, 658-660; enum.rs 455-512, 615-617. *)
Definition meta_code (i : yitem) : option ximpl :=
  let '(st, _, u) := parse_setting (yi_args i) (yi_attrs i) in
  let '(s, _, _) := parse_attrs setting_table false no_slots (yi_attrs i) in
  let ps := yi_params i in
  let builtin := flag "steit_owned" s in
  match snd (derive (bare_decl (bare_item i))) with
  | None => None
  | Some _ =>
      if st_meta st then
        match yi_data i with
        | YStruct fs =>
            let '(a, _, _) := parse_metas struct_table true no_slots u in
            option_map (fun x => XI ps (NM (yi_name i) (text "csharp_name" a)) ps (XMStruct x) (links_code fs))
                       (struct_meta_code ps ps builtin u (yi_name i) fs)
        | YEnum vs =>
            let '(a, _, _) := parse_metas enum_table true no_slots u in
            option_map (fun xs => XI ps (NM (yi_name i) (text "csharp_name" a)) ps (XMEnum ps xs builtin) (flat_map (fun v => links_code (yv_fields v)) vs))
                       (collect_args (variant_meta_code ps builtin) vs)
        | YUnion => None
        end
      else None
  end.

(** ** What types mean *)

(** What a path is resolved to: a primitive type or [String] or [Bytes], a generic type of the library,
    the [d]-th item, or [type X<..> = t] with so many parameters. *)
Inductive con := COption | CVector | CLst | CMp | CBx.
Inductive def := DInt (k : ikind) | DBool | DStr | DBytes | DCon (c : con) | DItem (d : nat) (arity : nat) | DAlias (arity : nat) (t : rty).
Definition scope := list string -> option def.

Fixpoint index_of (x : string) (l : list string) : option nat :=
  match l with
  | [] => None
  | y :: l => if String.eqb x y then Some O else option_map S (index_of x l)
  end.
Fixpoint key_of (t : rty) : option mkey :=
  match t with RInt U8 => Some K8 | RInt U16 => Some K16 | RInt U32 => Some K32 | RAlias t => key_of t | _ => None end.
Definition applied (d : def) (rs : list rty) : option rty :=
  match d, rs with
  | DInt k, [] => Some (RInt k)
  | DBool, [] => Some RBool
  | DStr, [] => Some RStr
  | DBytes, [] => Some RBytes
  | DCon COption, [t] => Some (ROpt t)
  | DCon CVector, [t] => Some (RVec t)
  | DCon CLst, [t] => Some (RList t)
  | DCon CBx, [t] => Some (RBox t)
  | DCon CMp, [k; t] => option_map (fun k => RMap k t) (key_of k)
  | DItem d n, _ => if Nat.eqb (List.length rs) n then Some (RUser d rs) else None
  | DAlias n t, _ => if Nat.eqb (List.length rs) n then Some (RAlias (subst rs t)) else None
  | _, _ => None
  end.
(** The type written as [t] in an item with parameters [ps] that is itself [self]: parameters come
    before [Self], and that before the names around the item.  References have no [HasMeta].  Names of
    associated types, [T::X], are left out. *)
Fixpoint means (sc : scope) (ps : list string) (self : rty) (t : yty) : option rty :=
  match t with
  | YParen t => means sc ps self t
  | YArray n t => option_map (RArr n) (means sc ps self t)
  | YPath false p a =>
      match a with
      | YParens => None
      | YNone =>
          match p with
          | [x] => match index_of x ps with
                   | Some i => Some (RVar i)
                   | None => if String.eqb x "Self" then Some self else match sc p with Some d => applied d [] | None => None end
                   end
          | _ => match sc p with Some d => applied d [] | None => None end
          end
      | YAngle l =>
          match (fix go l := match l with
                 | [] => Some []
                 | YLife :: l => go l
                 | YType t :: l => match means sc ps self t, go l with Some r, Some rs => Some (r :: rs) | _, _ => None end
                 | YRest :: _ => None
                 end) l, sc p with
          | Some rs, Some d => applied d rs
          | _, _ => None
          end
      end
  | YRef _ | YPath true _ _ | YOther => None
  end.
(** [Self] in an item that is the [d]-th. *)
Definition self_type (d : nat) (ps : list string) : rty := RUser d (map RVar (seq 0 (List.length ps))).

(** ** What the constants are *)

Section Consts.
  (** A crate: the scope of its items, and the implementations written for them. *)
  Variable sc : scope.
  Variable impls : list ximpl.

  Definition no_impl : ximpl := XI [] (NM "" None) [] (XMStruct (XS (NM "" None) [] [] false)) [].
  Definition impl_of (d : nat) : ximpl := nth d impls no_impl.

  (** [NAME]: those of the library as in Meta.v. *)
  Fixpoint name_const (t : rty) : Meta.nmeta :=
    match t with
    | RInt k => int_name k | RBool => bool_name | RStr => str_name | RBytes => bytes_name
    | ROpt _ => opt_name | RVec _ | RArr _ _ => vec_name | RList _ => list_name | RMap _ _ => map_name | RBox _ => box_name
    | RUser d _ => x_name (impl_of d)
    | RAlias t => name_const t
    | RVar _ => NM "" None
    end.
  Definition arg_of {A} (ps : list string) (l : list A) (dfl : A) (p : string) : A :=
    match index_of p ps with Some i => nth i l dfl | None => dfl end.
  (** [TYPE]. *)
  Fixpoint type_const (t : rty) : tmeta :=
    match t with
    | RInt k => MPrim (int_name k) Varint
    | RBool => MPrim bool_name Varint
    | RStr => MPrim str_name Sized
    | RBytes => MRef bytes_name []
    | ROpt t => MRef opt_name [type_const t]
    | RVec t | RArr _ t => MRef vec_name [type_const t]
    | RList t => MRef list_name [type_const t]
    | RMap _ t => MRef map_name [type_const t]
    | RBox t | RAlias t => type_const t
    | RUser d args => let x := impl_of d in MRef (x_name x) (map (arg_of (x_params x) (map type_const args) (MParam "")) (x_type x))
    | RVar _ => MParam ""
    end.

  (** An expression in the implementation for [RUser d args]. *)
  Definition written (d : nat) (args : list rty) (t : yty) : option rty :=
    let ps := x_params (impl_of d) in option_map (subst args) (means sc ps (self_type d ps) t).
  Fixpoint eval_type (d : nat) (args : list rty) (x : mexpr) : option tmeta :=
    match x with
    | XParam s => Some (MParam s)
    | XType t => option_map type_const (written d args t)
    | XRef t l =>
        match written d args t, (fix go l := match l with
                                 | [] => Some []
                                 | x :: l => match eval_type d args x, go l with Some y, Some ys => Some (y :: ys) | _, _ => None end
                                 end) l with
        | Some r, Some ys => Some (MRef (name_const r) ys)
        | _, _ => None
        end
    end.
  Definition eval_field (d : nat) (args : list rty) (f : xfield) : option fmeta :=
    option_map (fun t => FM (xf_name f) t (xf_tag f)) (eval_type d args (xf_ty f)).
  Definition eval_struct (d : nat) (args : list rty) (s : xstruct) : option smeta :=
    option_map (fun fs => SM (xs_name s) (xs_params s) fs (xs_builtin s)) (collect_args (eval_field d args) (xs_fields s)).
  Definition eval_msg (d : nat) (args : list rty) (m : xmsg) : option message :=
    match m with
    | XMStruct s => option_map MStruct (eval_struct d args s)
    | XMEnum ps vs b =>
        option_map (fun l => MEnum (EM (x_name (impl_of d)) ps l b))
          (collect_args (fun v => option_map (fun s => (s, snd v)) (eval_struct d args (fst v))) vs)
    end.
  (** [LINK]: the message and the types linked; what does not evaluate does not compile. *)
  Fixpoint msg_const (t : rty) : option message :=
    match t with RUser d args => eval_msg d args (x_msg (impl_of d)) | RAlias t => msg_const t | _ => None end.
  Fixpoint links_const (t : rty) : list rty :=
    match t with
    | RInt _ | RBool | RStr | RBytes | RVar _ => []
    | ROpt t | RVec t | RArr _ t | RList t | RMap _ t | RBox t => [t]
    | RUser d args => match collect_args (written d args) (x_links (impl_of d)) with Some l => l | None => [] end
    | RAlias t => links_const t
    end.

  (** gen_util.rs 5-31 and generator.rs 26-63 on these constants. *)
  Definition generate_consts (fuel : nat) (s : gsetting) (root : rty) : res (list (string * message)) :=
    do l <- collect rty type_const msg_const links_const (g_name s) fuel root; gen_each s l.
End Consts.
