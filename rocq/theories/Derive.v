(** The checks of the derive macro (steit-derive/src): attributes, tags, field types.  Syntax trees
    are those of the [syn] crate, reduced to what the macro looks at; generated code is modelled in
    the other files. *)
From Verif Require Import Base WireFmt Types.
From Coq Require String.
Import String.StringSyntax.
Local Open Scope string_scope.
Local Open Scope N_scope.
Notation string := String.string.

(** ** Attributes *)

(** [syn::Lit]; [LInt n] is an integer literal of any size. *)
Inductive lit := LInt (n : N) | LBool (b : bool) | LStr (s : string) | LOther.
(** [syn::Meta] and [syn::NestedMeta].  A path of several segments is a string that is no identifier. *)
Inductive meta := MPath (p : string) | MNameValue (p : string) (l : lit) | MList (p : string) (ns : list nmeta)
with nmeta := NMeta (m : meta) | NLit (l : lit).
(** An attribute of an item: [#[steit(...)]], [#[steit]] or [#[steit = ...]], a [#[steit ...]] that is
    not a meta item, any other attribute. *)
Inductive attr := ASteit (ns : list nmeta) | ANoList | ABroken | AForeign.

(** What the macro complains about: attr.rs 27-28, 54-57, 140-149, 236-237, 257-266; the others are
    cited where they are raised. *)
Inductive derr :=
| EDuplicate (name : string) | EExpected (name : string) | EListOf (name : string) | EListLit (name : string)
| EUnknown | ELiteral | ENotList | EMalformed
| ENoTag | ETagMax | EReserved (n : N) | EDupTag (n : N) | ENoDefault | ENoVariants
| EType | EQself | EArg | EUnion | EConst.

(** How an attribute may be given: [tag = 1] ([parse_int], attr.rs 90-95), [x] or [x = true]
    ([parse_path], [parse_bool], 68-82), [x = "s"] ([parse_str], 99-104), [x(1, 2)]
    ([parse_int_list], 165-170), [x] only ([parse_path]). *)
Inductive akind := KInt | KBool | KStr | KInts | KPath.
Definition atable := list (string * akind).

(** The [Attribute]s and the [VecAttribute] filled so far (attr.rs 8-13, 107-111); a bare [x] stands
    for [x = true]. *)
Record slots := mkSl { sl_vals : list (string * lit); sl_ints : list N }.
Definition no_slots : slots := mkSl [] [].
Fixpoint slot (name : string) (vs : list (string * lit)) : option lit :=
  match vs with
  | [] => None
  | (n, l) :: vs' => if String.eqb n name then Some l else slot name vs'
  end.
(** attr.rs 25-33: the first value wins, another is an error. *)
Definition set_slot (name : string) (l : lit) (s : slots) : slots * list derr :=
  match slot name (sl_vals s) with
  | Some _ => (s, [EDuplicate name])
  | None => (mkSl (sl_vals s ++ [(name, l)]) (sl_ints s), [])
  end.
(** [LitInt::base10_parse::<u32>] and the literal patterns of attr.rs 79-80, 92-93, 101-102. *)
Definition lit_ok (k : akind) (l : lit) : bool :=
  match k, l with
  | KInt, LInt n => n <? 2 ^ 32
  | KBool, LBool _ => true
  | KStr, LStr _ => true
  | _, _ => false
  end.
(** attr.rs 130-157. *)
Fixpoint int_list (name : string) (ns : list nmeta) (s : slots) : slots * list derr :=
  match ns with
  | [] => (s, [])
  | n :: ns' =>
      let '(s1, e) := match n with
                      | NLit (LInt i) => if i <? 2 ^ 32 then (mkSl (sl_vals s) (sl_ints s ++ [i]), []) else (s, [EListOf name])
                      | NLit _ => (s, [EListOf name])
                      | NMeta _ => (s, [EListLit name])
                      end in
      let '(s2, e') := int_list name ns' s1 in (s2, e ++ e')
  end.
Fixpoint akind_of (tab : atable) (name : string) : option akind :=
  match tab with
  | [] => None
  | (n, k) :: tab' => if String.eqb n name then Some k else akind_of tab' name
  end.
(** The [match meta { ... }] closures; [None] is [false] ("not accepted").  Their arms test different
    names, so a table gives what the arms give in any order. *)
Definition accept (tab : atable) (s : slots) (m : meta) : option (slots * list derr) :=
  match m with
  | MPath p =>
      match akind_of tab p with
      | Some KBool | Some KPath => Some (set_slot p (LBool true) s)
      | _ => None
      end
  | MNameValue p l =>
      match akind_of tab p with
      | Some KInt | Some KBool | Some KStr =>
          Some (match akind_of tab p with
                | Some k => if lit_ok k l then set_slot p l s else (s, [EExpected p])
                | None => (s, [])
                end)
      | _ => None
      end
  | MList p ns => match akind_of tab p with Some KInts => Some (int_list p ns s) | _ => None end
  end.
(** attr.rs 247-271. *)
Definition parse_meta (tab : atable) (strict : bool) (s : slots) (n : nmeta) : slots * list derr * list nmeta :=
  match n with
  | NMeta m =>
      match accept tab s m with
      | Some (s', e) => (s', e, [])
      | None => (s, if strict then [EUnknown] else [], [n])
      end
  | NLit _ => (s, if strict then [ELiteral] else [], [n])
  end.
(** attr.rs 182-214: slots, errors, unknown items. *)
Fixpoint parse_metas (tab : atable) (strict : bool) (s : slots) (ns : list nmeta) : slots * list derr * list nmeta :=
  match ns with
  | [] => (s, [], [])
  | n :: ns' =>
      let '(s1, e1, u1) := parse_meta tab strict s n in
      let '(s2, e2, u2) := parse_metas tab strict s1 ns' in
      (s2, (e1 ++ e2)%list, (u1 ++ u2)%list)
  end.
(** attr.rs 216-245. *)
Fixpoint parse_attrs (tab : atable) (strict : bool) (s : slots) (ats : list attr) : slots * list derr * list nmeta :=
  match ats with
  | [] => (s, [], [])
  | a :: ats' =>
      let '(s1, e1, u1) := match a with
                           | ASteit ns => parse_metas tab strict s ns
                           | ANoList => (s, [ENotList], [])
                           | ABroken => (s, [EMalformed], [])
                           | AForeign => (s, [], [])
                           end in
      let '(s2, e2, u2) := parse_attrs tab strict s1 ats' in
      (s2, (e1 ++ e2)%list, (u1 ++ u2)%list)
  end.

(** [get().unwrap_or_default()] of a boolean attribute. *)
Definition flag (name : string) (s : slots) : bool := match slot name (sl_vals s) with Some (LBool b) => b | _ => false end.

(** ** Field types *)

(** [syn::Type]: paren, reference, array, path (with a self type?; the identifier if it is just one;
    arguments of the last segment), anything else. *)
Inductive sty :=
| SParen (t : sty) | SRef (t : sty) | SArray (t : sty)
| SPath (qself : bool) (id : option string) (args : sargs)
| SOther
with sargs := ANone | AAngle (l : list sarg) | AParen
with sarg := GLife | GType (t : sty) | GOther.

(** field.rs 425-538: [Err] raises exactly one error.  An array element or type argument that is a
    type parameter needs no extra case: its path has no arguments either. *)
Fixpoint type_err (t : sty) : option derr :=
  match t with
  | SParen t | SRef t | SArray t => type_err t
  | SPath true _ _ => Some EQself
  | SPath false _ ANone => None
  | SPath false _ (AAngle l) =>
      (fix go l := match l with
       | [] => None
       | GLife :: l' => go l'
       | GType t :: l' => match type_err t with Some e => Some e | None => go l' end
       | GOther :: _ => Some EArg
       end) l
  | SPath false _ AParen => Some EType
  | SOther => Some EType
  end.

(** ** Tags, fields, structs, enums *)

(** derive/tag.rs 1-10. *)
Definition TAG_MAX : N := 0x1fffffff.

(** field.rs 28-57, 228-230. *)
Definition field_table : atable :=
  [("tag", KInt); ("no_hash", KBool); ("no_eq_hash", KBool); ("no_state", KBool); ("csharp_name", KStr)].
Record field := mkField { fd_attrs : list attr; fd_type : sty }.
(** field.rs 54-61, variant.rs 26-32: the tag, or why there is none. *)
Definition the_tag (s : slots) : N + derr :=
  match slot "tag" (sl_vals s) with
  | Some (LInt n) => if TAG_MAX <? n then inr ETagMax else inl n
  | _ => inr ENoTag
  end.

(** derive.rs 13-39, 112-118: what matters of [DeriveSetting]. *)
Record setting := mkSet { st_state : bool; st_size_cache : bool; st_meta : bool }.

(** field.rs 28-73, 207-230 ([DeriveField::parse]): errors and the field. *)
Definition parse_field (se : setting) (f : field) : list derr * option finfo :=
  let '(s, es, _) := parse_attrs field_table true no_slots (fd_attrs f) in
  match the_tag s with
  | inr e => ((es ++ [e])%list, None)
  | inl n =>
      match (if st_meta se then type_err (fd_type f) else None) with
      | Some e => ((es ++ [e])%list, None)
      | None => (es, Some (mkF n (st_state se && negb (flag "no_state" s)) (negb (flag "no_eq_hash" s)) (negb (flag "no_hash" s))))
      end
  end.

(** The loop of struct.rs 574-590: errors, the fields parsed, the tags seen, whether they are unique. *)
Fixpoint fields_loop (se : setting) (reserved : list N) (seen : list N) (fs : list field) : list derr * list finfo * bool :=
  match fs with
  | [] => ([], [], true)
  | f :: fs' =>
      match parse_field se f with
      | (es, None) => let '(es', r, u) := fields_loop se reserved seen fs' in ((es ++ es')%list, r, u)
      | (es, Some fi) =>
          let e1 := if existsb (N.eqb (f_tag fi)) reserved then [EReserved (f_tag fi)] else [] in
          let dup := existsb (N.eqb (f_tag fi)) seen in
          let e2 := if dup then [EDupTag (f_tag fi)] else [] in
          let '(es', r, u) := fields_loop se reserved (f_tag fi :: seen) fs' in
          ((es ++ e1 ++ e2 ++ es')%list, fi :: r, negb dup && u)
      end
  end.
(** struct.rs 561-597.  [Vec::with_capacity(n)] is taken to have capacity n, as it has for the
    standard allocator; with more capacity the macro would silently generate nothing. *)
Definition parse_fields (se : setting) (reserved : list N) (fs : list field) : list derr * option (list finfo) :=
  let '(es, r, u) := fields_loop se reserved [] fs in
  (es, if Nat.eqb (length r) (length fs) && u then Some r else None).

(** struct.rs 29-64. *)
Definition struct_table : atable :=
  [("reserved_tags", KInts); ("no_size_cache", KBool); ("size_cache_renamed", KStr); ("runtime_renamed", KStr); ("csharp_name", KStr)].
(** struct.rs 84-148: the fields and whether there is a size cache; [ns] are the attributes left over by
    the caller. *)
Definition parse_struct (se : setting) (ns : list nmeta) (fs : list field) : list derr * option (list finfo * bool) :=
  let '(s, es, _) := parse_metas struct_table true no_slots ns in
  let '(es', o) := parse_fields se (sl_ints s) fs in
  ((es ++ es')%list, match o with Some r => Some (r, st_size_cache se && negb (flag "no_size_cache" s)) | None => None end).

(** variant.rs 16-38. *)
Definition variant_table : atable := [("tag", KInt)].
Record variant := mkVariant { vr_attrs : list attr; vr_fields : list field }.

(** The loop of enum.rs 534-561. *)
Fixpoint variants_loop (se : setting) (reserved : list N) (seen : list N) (vs : list variant)
  : list derr * list ((N * bool) * list finfo) * bool :=
  match vs with
  | [] => ([], [], true)
  | v :: vs' =>
      let '(s, es, u0) := parse_attrs variant_table false no_slots (vr_attrs v) in
      match the_tag s with
      | inr e => let '(es', r, u) := variants_loop se reserved seen vs' in ((es ++ [e] ++ es')%list, r, u)
      | inl n =>
          let e1 := if existsb (N.eqb n) reserved then [EReserved n] else [] in
          let dup := existsb (N.eqb n) seen in
          let e2 := if dup then [EDupTag n] else [] in
          let '(e3, o) := parse_struct se u0 (vr_fields v) in
          let '(es', r, u) := variants_loop se reserved (n :: seen) vs' in
          ((es ++ e1 ++ e2 ++ e3 ++ es')%list,
           match o with Some (fs, c) => ((n, c), fs) :: r | None => r end, negb dup && u)
      end
  end.
(** enum.rs 516-576 and 18-37, 51-75. *)
Definition enum_table : atable := [("reserved_tags", KInts); ("csharp_name", KStr)].
Definition parse_enum (se : setting) (ns : list nmeta) (vs : list variant) : list derr * option (list ((N * bool) * list finfo)) :=
  match vs with
  | [] => ([ENoVariants], None)
  | _ =>
      let '(s, es, _) := parse_metas enum_table true no_slots ns in
      let '(es', r, u) := variants_loop se (sl_ints s) [] vs in
      let e := if existsb (fun va => fst (fst va) =? 0) r then [] else [ENoDefault] in
      ((es ++ es' ++ e)%list, if Nat.eqb (length r) (length vs) && u then Some r else None)
  end.

(** ** The macro *)

Inductive data := DStruct (fs : list field) | DEnum (vs : list variant) | DUnion.
(** [#[steit_derive(args)] #[attrs] struct/enum/union ...] with so many const generics. *)
Record decl := mkDecl { d_args : list nmeta; d_attrs : list attr; d_consts : nat; d_data : data }.
(** What is generated: a struct, or an enum. *)
Inductive shape := ShStruct (si : sinfo) (fs : list finfo) | ShEnum (st : bool) (vs : list ((N * bool) * list finfo)).

(** derive.rs 42-148. *)
Definition args_table : atable :=
  [("Serialize", KPath); ("Deserialize", KPath); ("State", KPath); ("PartialEq", KPath); ("Default", KPath); ("Hash", KPath)].
Definition setting_table : atable :=
  [("steit_owned", KBool); ("no_size_cache", KBool); ("derive_ctors", KBool); ("derive_setters", KBool); ("no_meta", KBool);
   ("ctor_prefix", KStr); ("size_cache_renamed", KStr); ("runtime_renamed", KStr)].
Definition parse_setting (args : list nmeta) (ats : list attr) : setting * list derr * list nmeta :=
  let '(a, e1, _) := parse_metas args_table false no_slots args in
  let state := flag "State" a in
  let ser := state || flag "Serialize" a in
  let de := state || flag "Deserialize" a in
  let '(s, e2, u) := parse_attrs setting_table false no_slots ats in
  (mkSet state (ser && negb (flag "no_size_cache" s)) (de && negb (flag "no_meta" s)), (e1 ++ e2)%list, u).

(** derive.rs 167-232: the errors reported, and what is generated (nothing for [None]). *)
Definition derive (d : decl) : list derr * option shape :=
  let '(se, es, u) := parse_setting (d_args d) (d_attrs d) in
  let ec := repeat EConst (d_consts d) in
  match d_data d with
  | DStruct fs =>
      let '(es', o) := parse_struct se u fs in
      ((es ++ ec ++ es')%list, match o with Some (r, c) => Some (ShStruct (mkS c (st_state se)) r) | None => None end)
  | DEnum vs =>
      let '(es', o) := parse_enum se u vs in
      ((es ++ ec ++ es')%list, match o with Some r => Some (ShEnum (st_state se) r) | None => None end)
  | DUnion => ((es ++ ec ++ [EUnion])%list, None)
  end.
