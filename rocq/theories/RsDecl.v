(** From a declaration with its attributes to the code generated for it: steit-derive/src/derive/derive.rs
    42-232, with the attributes read as in Derive.v and the code written as in RsGen.v. *)
From Verif Require Import Base Varint WireFmt Types Ser De Log State Meta Gen RsGen RsRun Derive.
From Coq Require Import String.
Import String.StringSyntax.
Local Open Scope string_scope.
Local Open Scope list_scope.
Local Open Scope N_scope.

(** ** Declarations with names *)

(** [syn::Fields]. *)
Inductive nfields := NNamed (l : list (string * field)) | NUnnamed (l : list field) | NUnit.
Record nvariant := NV { nv_name : string; nv_attrs : list attr; nv_fields : nfields }.
Inductive ndata := NStruct (fs : nfields) | NEnum (vs : list nvariant) | NUnion.
(** [#[steit_derive(args)] #[attrs] struct/enum/union ...] with so many const generics. *)
Record item := Item { it_args : list nmeta; it_attrs : list attr; it_consts : nat; it_data : ndata }.

(** What Derive.v looks at. *)
Definition bare (fs : nfields) : list field := match fs with NNamed l => map snd l | NUnnamed l => l | NUnit => [] end.
Definition bare_variant (v : nvariant) : variant := mkVariant (nv_attrs v) (bare (nv_fields v)).
Definition bare_decl (i : item) : Derive.decl :=
  mkDecl (it_args i) (it_attrs i) (it_consts i)
    match it_data i with NStruct fs => DStruct (bare fs) | NEnum vs => DEnum (map bare_variant vs) | NUnion => DUnion end.

(** ** Attributes *)

(** [get()] of a string attribute (attr.rs 39-41). *)
Definition text (name : string) (s : slots) : option string := match slot name (sl_vals s) with Some (LStr x) => Some x | _ => None end.
(** derive.rs 47-148. *)
Definition full_setting (args : list nmeta) (ats : list attr) : rsetting :=
  let '(a, _, _) := parse_metas args_table false no_slots args in
  let '(s, _, _) := parse_attrs setting_table false no_slots ats in
  settle (RS (flag "Serialize" a) (flag "Deserialize" a) (flag "State" a) (flag "PartialEq" a) (flag "Default" a) (flag "Hash" a)
             true (flag "derive_ctors" s) (flag "derive_setters" s)
             match text "ctor_prefix" s with Some x => x | None => "new" end (text "size_cache_renamed" s) (text "runtime_renamed" s))
         (flag "no_size_cache" s).
(** struct.rs 29-64. *)
Definition struct_attrs (s : slots) : sattrs := SA (flag "no_size_cache" s) (text "size_cache_renamed" s) (text "runtime_renamed" s).

(** ** Code *)

Definition attach (fs : nfields) (r : list finfo) : rfields :=
  match fs with NNamed l => FNamed (combine (map fst l) r) | NUnnamed _ => FUnnamed r | NUnit => FUnit end.
(** struct.rs 84-146. *)
Definition struct_code (st : setting) (se : rsetting) (ns : list nmeta) (v : option (string * N)) (fs : nfields) : option dstruct :=
  let '(s, _, _) := parse_metas struct_table true no_slots ns in
  match snd (parse_fields st (sl_ints s) (bare fs)) with
  | Some r => Some (RsGen.parse_struct se (struct_attrs s) v (attach fs r))
  | None => None
  end.
(** enum.rs 532-561. *)
Fixpoint variants_code (st : setting) (se : rsetting) (vs : list nvariant) : list dstruct :=
  match vs with
  | [] => []
  | v :: vs =>
      let '(s, _, u) := parse_attrs variant_table false no_slots (nv_attrs v) in
      match the_tag s with
      | inl n => match struct_code st se u (Some (nv_name v, n)) (nv_fields v) with Some d => [d] | None => [] end
      | inr _ => []
      end ++ variants_code st se vs
  end.
(** derive.rs 167-216: nothing is generated for what cannot be parsed. *)
Inductive code := CdStruct (se : rsetting) (d : dstruct) | CdEnum (se : rsetting) (ds : list dstruct).
Definition generate (i : item) : option code :=
  let '(st, _, u) := parse_setting (it_args i) (it_attrs i) in
  let se := full_setting (it_args i) (it_attrs i) in
  match snd (derive (bare_decl i)), it_data i with
  | Some _, NStruct fs => option_map (CdStruct se) (struct_code st se u None fs)
  | Some _, NEnum vs => Some (CdEnum se (variants_code st se vs))
  | _, _ => None
  end.

(** [str::to_uppercase], for ASCII. *)
Fixpoint to_uppercase (s : string) : string := match s with "" => "" | String c s => String (to_upper c) (to_uppercase s) end.
(** derive.rs 239-243: all of it is put in the block of this constant. *)
Definition const_name (name : string) : string := "_IMPL_STEIT_FOR_" +++ to_uppercase (to_snake_case name).

(** ** Running it *)

(** [Bytes::from_value]: ser.rs 14-34, 91-95. *)
Definition run_to_bytes (m : mode) (hl : store) (p : prog) (o : obj) : R bytes := own_bytes hl p (RsRun.call m hl p depth) o.
(** [Name::deserialize(reader)]: de/de.rs 10-14. *)
Definition run_deserialize (m : mode) (hl : store) (p : prog) (bs : bytes) : R obj := fun s =>
  let '(s1, c) := make_trait m hl p "default" [] s in
  match c with
  | Go (RObj o) =>
      let '(s2, c) := invoke m hl p "merge" [RReader] (set_in bs (set_self (Some o) s1)) in
      match c, s_self s2 with
      | Go (ROk _), Some o => (s2, Go o)
      | Go (RErr e), _ => (s2, Ret (RErr e))
      | Boom, _ => (s2, Boom)
      | _, _ => (s2, Stuck)
      end
  | _ => (s1, Stuck)
  end.

(** [replay]: state.rs 37-57.  Each round takes a byte from the reader. *)
Fixpoint replay_rounds (m : mode) (hl : store) (p : prog) (fuel : nat) (bs : bytes) : R rv :=
  match bs with
  | [] => ret (ROk RUnit)
  | _ =>
      match fuel with
      | O => stuck
      | S fuel =>
          match read_entry m bs with
          | Ok (e, rest) => fun s =>
              let '(s, c) := invoke m hl p "handle" [RPath; RKind (entry_kind e); RKey (entry_key e); RReader]
                               (set_path (entry_path e) (set_in (entry_bytes e) s)) in
              match c with Go (ROk _) => replay_rounds m hl p fuel rest s | c => (s, c) end
          | Err e => ret (RErr e) | Panic => boom | NoFuel => stuck
          end
      end
  end.
Definition run_replay (m : mode) (hl : store) (p : prog) (bs : bytes) : R rv :=
  root <~ invoke m hl p "is_root" [];;
  match root with
  | RBool true => replay_rounds m hl p (List.length bs) bs
  | RBool false => ret (RErr InvalidInput)
  | _ => stuck
  end.

(** Setters called one after another. *)
Fixpoint run_calls (m : mode) (hl : store) (p : prog) (cs : list (string * list rv)) : R unit :=
  match cs with
  | [] => ret tt
  | (n, vs) :: cs => _ <~ invoke_own m hl p n vs;; run_calls m hl p cs
  end.
