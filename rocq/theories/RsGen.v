(** The code that the derive macro generates: steit-derive/src/derive/{field,struct,enum,variant,derive}.rs,
    str_util.rs.  The [quote!] templates are transcribed as syntax trees of the fragment of Rust they use;
    types, bounds, visibility, the [HasWireType] and [HasMeta] constants (Types.v, Meta.v) and the texts of
    error messages are left out.  The names in a template are plain names (no hygiene), so they can capture
    or be captured by the names of fields.  Identifiers are ASCII. *)
From Verif Require Import Base Varint WireFmt Types Meta Gen.
From Coq Require Import String.
Import String.StringSyntax.
Local Open Scope string_scope.
Local Open Scope list_scope.
Local Open Scope N_scope.

(** ** Syntax *)

(** [5], [_], [Some(x)], [LogEntryKind::Update], [Name::V { a: x, b: y, .. }]. *)
Inductive pat := PNum (n : N) | PWild | PSome (x : string) | PUpdate | PVariant (v : string) (bs : list (string * string)).

Inductive expr :=
| ENum (n : N) | EBool (b : bool) | EUnit
| EName (x : string) | ESelf
| EField (e : expr) (x : string)                           (* e.x *)
| EMeth (e : expr) (n : string) (args : list expr)         (* e.n(args) *)
| EFun (t n : string) (args : list expr)                   (* T::n(args) *)
| EApp (x : string) (args : list expr)                     (* x(args), x a variable *)
| ESome (e : expr) | ENone | EOk (e : expr)
| EInvalid                                                 (* Err(io::Error::new(io::ErrorKind::InvalidData, ..)) *)
| ETry (e : expr) | ENot (e : expr) | ENe (a b : expr) | ERef (e : expr)
| EUnimplemented                                           (* unimplemented!(..) *)
| EInit (v : option string) (fs : list (string * expr))    (* Name { .. }, Name::V { .. } *)
| EMatch (e : expr) (arms : list (pat * expr))
| EIfLet (p : pat) (e : expr) (b : block) (els : option block)
| EBlock (b : block)
with stmt :=
| SLet (x : string) (e : expr) | SLetMut (x : string) (e : expr) | SLetPair (x y : string) (e : expr)
| SExpr (e : expr)
| SAdd (x : string) (e : expr)                             (* x += e; *)
| SSet (e : expr) (x : string) (v : expr)                  (* e.x = v; *)
| SDeref (e v : expr)                                      (* *e = v; *)
| SIf (c : expr) (b : block) | SWhile (c : expr) (b : block)
| SReturn (e : expr)
with block := Block (ss : list stmt) (last : option expr).

(** A function: whether it has a [self]; its other parameters, each with whether it is [mut]. *)
Record fn := Fn { fn_name : string; fn_self : bool; fn_params : list (bool * string); fn_body : block }.
Definition par (x : string) : bool * string := (false, x).
Definition mut (x : string) : bool * string := (true, x).

(** ** str_util.rs 1-17 *)

Fixpoint snake_rest (s : string) : string :=
  match s with
  | "" => ""
  | String c s => (if is_upper c then "_" else "") +++ String (to_lower c) (snake_rest s)
  end.
Definition to_snake_case (s : string) : string :=
  match s with "" => "" | String c s => String (to_lower c) (snake_rest s) end.

(** ** Fields: field.rs *)

(** 77-81. *)
Record rfield := RF { r_name : option string; r_index : N }.
(** 120-125. *)
Definition access (f : rfield) : string := match r_name f with Some n => n | None => dec (r_index f) end.
(** 127-135; [x] stands for [x: x]. *)
Definition init {A} (f : rfield) (v : A) : string * A := (access f, v).
(** 137-151. *)
Definition alias (f : rfield) : string := match r_name f with Some n => n | None => "f" +++ dec (r_index f) end.
Definition alias_prefixed (p : string) (f : rfield) : string := p +++ "_" +++ alias f.
(** 153-163. *)
Definition destructure (f : rfield) (x : string) : string * string := init f x.
(** 165-183. *)
Definition field_of (is_variant : bool) (f : rfield) : expr := if is_variant then EName (alias f) else EField ESelf (access f).
Definition field_other (is_variant : bool) (f : rfield) : expr :=
  if is_variant then EName (alias_prefixed "other" f) else EField (EName "other") (access f).

(** 186-191: what the attributes of a field say is in [finfo] (Derive.v); [f_state] is [is_state()], 234-236. *)
Definition dfield : Type := rfield * finfo.

(** The parts of [DeriveSetting] (derive.rs 13-38) that decide what code there is. *)
Record rsetting := RS {
  rs_serialize : bool; rs_deserialize : bool; rs_state : bool;
  rs_partial_eq : bool; rs_default : bool; rs_hash : bool;
  rs_size_cache : bool; rs_ctors : bool; rs_setters : bool;
  rs_prefix : string; rs_size_cache_renamed : option string; rs_runtime_renamed : option string }.
(** derive.rs 70-74, 112-117: the setting for the arguments and attributes given. *)
Definition settle (s : rsetting) (no_size_cache : bool) : rsetting :=
  let state := rs_state s in
  let ser := state || rs_serialize s in
  let de := state || rs_deserialize s in
  RS ser de state (rs_partial_eq s) (de || rs_default s) (rs_hash s) (ser && negb no_size_cache)
     (de || rs_ctors s) (state || rs_setters s) (rs_prefix s) (rs_size_cache_renamed s) (rs_runtime_renamed s).

(** ** Structs and variants: struct.rs *)

(** 66-75: [ds_variant] the name and tag of the variant; [ds_cache], [ds_rt] the fields added. *)
Record dstruct := DS {
  ds_variant : option (string * N); ds_fields : list dfield; ds_cache : option rfield; ds_rt : option rfield }.
(** [syn::Fields]. *)
Inductive rfields := FNamed (l : list (string * finfo)) | FUnnamed (l : list finfo) | FUnit.
Fixpoint number (i : N) (l : list (option string * finfo)) : list dfield :=
  match l with [] => [] | (n, fi) :: l => (RF n i, fi) :: number (i + 1) l end.
Definition dfields (fs : rfields) : list dfield :=
  number 0 match fs with
           | FNamed l => map (fun p => (Some (fst p), snd p)) l
           | FUnnamed l => map (fun fi => (None, fi)) l
           | FUnit => []
           end.
(** What struct.rs 17-27 says about the fields added. *)
Record sattrs := SA { sa_no_size_cache : bool; sa_size_cache_renamed : option string; sa_runtime_renamed : option string }.
Definition renamed (a b : option string) (n : string) : string :=
  match a, b with Some n, _ => n | None, Some n => n | None, None => n end.
(** 598-618: unit fields become named ones. *)
Definition add_field (fs : rfields) (name : string) (index : N) : rfield :=
  match fs with FNamed _ | FUnit => RF (Some name) index | FUnnamed _ => RF None index end.
(** 84-146. *)
Definition parse_struct (se : rsetting) (at_ : sattrs) (v : option (string * N)) (fs : rfields) : dstruct :=
  let n := lenN (dfields fs) in
  let has := rs_size_cache se && negb (sa_no_size_cache at_) in
  DS v (dfields fs)
     (if has then Some (add_field fs (renamed (sa_size_cache_renamed at_) (rs_size_cache_renamed se) "size_cache") n) else None)
     (if rs_state se then
        Some (add_field fs (renamed (sa_runtime_renamed at_) (rs_runtime_renamed se) "runtime") (if has then n + 1 else n))
      else None).

(** A variant: variant.rs 42-46 with the attributes and fields of its struct.  enum.rs 532-561: each goes
    through [Struct::parse] under the setting of the enum. *)
Record rvariant := RV { rv_name : string; rv_tag : N; rv_attrs : sattrs; rv_fields : rfields }.
Definition parse_variant (se : rsetting) (v : rvariant) : dstruct :=
  parse_struct se (rv_attrs v) (Some (rv_name v, rv_tag v)) (rv_fields v).

Definition is_variant (d : dstruct) : bool := match ds_variant d with Some _ => true | None => false end.
Definition variant_name (d : dstruct) : option string := option_map fst (ds_variant d).
Definition v_name (d : dstruct) : string := match ds_variant d with Some (n, _) => n | None => "" end.
Definition v_tag (d : dstruct) : N := match ds_variant d with Some (_, t) => t | None => 0 end.

Section Generate.
  Variable se : rsetting.

  (** 168-173, variant.rs 76-88. *)
  Definition ctor_name (d : dstruct) : string :=
    match ds_variant d with
    | Some (v, _) => rs_prefix se +++ "_" +++ to_snake_case v
    | None => rs_prefix se
    end.
  (** 175-184: the bindings of [Name::V { .., .. }]. *)
  Definition destructured (d : dstruct) : list (string * string) :=
    map (fun f : dfield => destructure (fst f) (alias (fst f))) (ds_fields d).
  Definition destructured_other (d : dstruct) : list (string * string) :=
    map (fun f : dfield => destructure (fst f) (alias_prefixed "other" (fst f))) (ds_fields d).

  (** field.rs 238-245. *)
  Definition init_default (f : dfield) : string * expr :=
    init (fst f) (if f_state (snd f) then EFun "State" "with_runtime" [EMeth (EName "runtime") "nested" [ENum (f_tag (snd f))]]
                  else EFun "Default" "default" []).
  (** 186-216. *)
  Definition ctor (d : dstruct) : fn :=
    let inits := map init_default (ds_fields d)
      ++ match ds_cache d with Some f => [init f (EFun "SizeCache" "new" [])] | None => [] end
      ++ match ds_rt d with Some f => [init f (EName "runtime")] | None => [] end in
    let nest := match ds_rt d, ds_variant d with
                | Some _, Some (_, tag) => [SLet "runtime" (EMeth (EName "runtime") "nested" [ENum tag])]
                | _, _ => []
                end in
    Fn (ctor_name d) false match ds_rt d with Some _ => [par "runtime"] | None => [] end
       (Block nest (Some (EInit (variant_name d) inits))).

  (** field.rs 247-338. *)
  Definition setter (d : dstruct) (f : dfield) : list fn :=
    let name := match ds_variant d with
                | Some (v, _) => "set_" +++ to_snake_case v +++ "_" +++ alias (fst f)
                | None => alias_prefixed "set" (fst f)
                end in
    let tag := f_tag (snd f) in
    let reset := match ds_variant d with
      | Some (v, _) =>
          let new := if rs_state se then
              EBlock (Block [SLet "runtime" (EMeth (EMeth ESelf "runtime" []) "parent" []);
                             SLet "value" (EFun "Self" (ctor_name d) [EMeth (EName "runtime") "clone" []]);
                             SExpr (EMeth (EMeth (EName "runtime") "log_update" [ERef (EName "value")]) "unwrap" [])]
                            (Some (EName "value")))
            else EFun "Self" (ctor_name d) [] in
          [SExpr (EIfLet (PVariant v []) ESelf (Block [] None) (Some (Block [SDeref ESelf new] None)))]
      | None => []
      end in
    let set := match ds_variant d with
      | Some (v, _) => SExpr (EIfLet (PVariant v [destructure (fst f) "self_value"]) ESelf
                                (Block [SDeref (EName "self_value") (EName "value")] None) None)
      | None => SSet ESelf (access (fst f)) (EName "value")
      end in
    if f_state (snd f) then
      let runtime := SLet "runtime" (EMeth ESelf "runtime" []) in
      let log := SExpr (EMeth (EMeth (EName "runtime") "log_update_child" [ENum tag; ERef (EName "value")]) "unwrap" []) in
      [Fn name true [mut "value"]
         (Block (reset ++ [runtime; SExpr (EMeth (EName "value") "set_runtime" [EMeth (EName "runtime") "nested" [ENum tag]]); log; set])
                (Some ESelf));
       Fn (name +++ "_with") true [par "get_value"]
         (Block (reset ++ [runtime; SExpr (EMeth (EName "runtime") "pause_logger" []);
                           SLet "value" (EApp "get_value" [EMeth (EName "runtime") "nested" [ENum tag]]);
                           SExpr (EMeth (EName "runtime") "unpause_logger" []); log; set])
                (Some ESelf))]
    else [Fn name true [par "value"] (Block (reset ++ [set]) (Some ESelf))].
  (** 223-227. *)
  Definition setters (d : dstruct) : list fn := flat_map (setter d) (ds_fields d).

  (** field.rs 340-353; 240-248. *)
  Definition eq_field (v : bool) (f : dfield) : list stmt :=
    if f_eq (snd f) then [SIf (ENe (field_of v (fst f)) (field_other v (fst f))) (Block [SReturn (EBool false)] None)] else [].
  Definition eq_block (d : dstruct) : block := Block (flat_map (eq_field (is_variant d)) (ds_fields d)) (Some (EBool true)).
  (** field.rs 355-362; 283-287. *)
  Definition hash_field (v : bool) (f : dfield) : list stmt :=
    if f_hash (snd f) && f_eq (snd f) then [SExpr (EMeth (field_of v (fst f)) "hash" [EName "state"])] else [].
  Definition hasher (d : dstruct) : list stmt := flat_map (hash_field (is_variant d)) (ds_fields d).
  (** field.rs 364-368; 312-316. *)
  Definition size_field (v : bool) (f : dfield) : stmt :=
    SAdd "size" (EMeth (EMeth (field_of v (fst f)) "compute_size_nested" [ENum (f_tag (snd f)); EBool true]) "unwrap" []).
  Definition sizer (d : dstruct) : list stmt := map (size_field (is_variant d)) (ds_fields d).
  (** field.rs 370-374; 318-322. *)
  Definition ser_field (v : bool) (f : dfield) : stmt :=
    SExpr (ETry (EMeth (field_of v (fst f)) "serialize_nested" [ENum (f_tag (snd f)); EBool true; EName "writer"])).
  Definition serializer (d : dstruct) : list stmt := map (ser_field (is_variant d)) (ds_fields d).
  (** field.rs 376-380; 356-370. *)
  Definition merge_arm (v : bool) (f : dfield) : pat * expr :=
    (PNum (f_tag (snd f)), ETry (EMeth (field_of v (fst f)) "merge_nested" [EName "wire_type"; EName "reader"])).
  Definition merger_loop (d : dstruct) : stmt :=
    SWhile (ENot (ETry (EMeth (EName "reader") "eof" [])))
      (Block [SLetPair "field_number" "wire_type" (ETry (EMeth (EName "reader") "read_tag" []));
              SExpr (EMatch (EName "field_number")
                (map (merge_arm (is_variant d)) (ds_fields d) ++
                 [(PWild, ETry (EMeth (EName "reader") "skip_field" [EName "wire_type"]))]))] None).
  (** field.rs 382-390; 386-403. *)
  Definition rt_field (v : bool) (f : dfield) : list stmt :=
    if f_state (snd f) then [SExpr (EMeth (field_of v (fst f)) "set_runtime" [EMeth (EName "runtime") "nested" [ENum (f_tag (snd f))]])] else [].
  Definition runtime_setter (d : dstruct) : list stmt :=
    flat_map (rt_field (is_variant d)) (ds_fields d) ++
    if is_variant d then [SDeref (EName "self_runtime") (EName "runtime")]
    else match ds_rt d with Some f => [SSet ESelf (access f) (EName "runtime")] | None => [] end.
  (** field.rs 392-401; 405-442. *)
  Definition replay_arm (v : bool) (f : dfield) : pat * expr :=
    (PNum (f_tag (snd f)),
     if f_state (snd f) then EMeth (field_of v (fst f)) "handle" [EName "path"; EName "kind"; EName "key"; EName "reader"] else EOk EUnit).
  Definition replayer (d : dstruct) : expr :=
    EIfLet (PSome "tag") (EMeth (EName "path") "next" [])
      (Block [] (Some (EMatch (EName "tag") (map (replay_arm (is_variant d)) (ds_fields d) ++ [(PWild, EInvalid)]))))
      (Some (Block [] (Some (EMatch (EName "kind")
        [(PUpdate, if is_variant d then EInvalid else EMeth ESelf "handle_update" [EName "reader"]); (PWild, EInvalid)])))).

  Definition when (b : bool) (l : list fn) : list fn := if b then l else [].
  Definition rt_args : list expr := if rs_state se then [EFun "Runtime" "default" []] else [].
  (** 263-281, enum.rs 161-179. *)
  Definition default_fn : fn := Fn "default" false [] (Block [] (Some (EFun "Self" (rs_prefix se) rt_args))).
  (** 453-455, enum.rs 403-405. *)
  Definition with_runtime_fn : fn := Fn "with_runtime" false [par "runtime"] (Block [] (Some (EFun "Self" (rs_prefix se) [EName "runtime"]))).

  (** 619-662: the functions of [impl Name], those of the traits. *)
  Definition struct_inherent (d : dstruct) : list fn := when (rs_ctors se) [ctor d] ++ when (rs_setters se) (setters d).
  Definition struct_traits (d : dstruct) : list fn :=
    when (rs_partial_eq se) [Fn "eq" true [par "other"] (eq_block d)] ++                                         (* 250-261 *)
    when (rs_default se) [default_fn] ++
    when (rs_hash se) [Fn "hash" true [par "state"] (Block (hasher d) None)] ++                                   (* 289-300 *)
    when (rs_serialize se)                                                                                  (* 324-354 *)
      [Fn "compute_size" true [] (Block (SLetMut "size" (ENum 0) :: sizer d) (Some (EName "size")));
       Fn "serialize_cached" true [par "writer"] (Block (serializer d) (Some (EOk EUnit)));
       Fn "size_cache" true [] (Block [] (Some match ds_cache d with Some f => ESome (ERef (field_of false f)) | None => ENone end))] ++
    when (rs_deserialize se) [Fn "merge" true [par "reader"] (Block [merger_loop d] (Some (EOk EUnit)))] ++       (* 372-384 *)
    when (rs_state se)                                                                                      (* 444-476 *)
      [with_runtime_fn;
       Fn "runtime" true [] (Block [] (Some match ds_rt d with Some f => ERef (field_of false f) | None => EUnimplemented end));
       Fn "set_runtime" true [par "runtime"] (Block (runtime_setter d) None);
       Fn "handle" true [mut "path"; par "kind"; par "key"; par "reader"] (Block [] (Some (replayer d)))].

  (** ** Enums: enum.rs *)

  (** A variant, destructured. *)
  Definition arm (d : dstruct) (b : block) : pat * expr := (PVariant (v_name d) (destructured d), EBlock b).
  (** 79-82, 554-556: the first variant with tag 0. *)
  Definition default_variant (ds : list dstruct) : option dstruct := find (fun d => v_tag d =? 0) ds.
  (** 92-120. *)
  Definition default_ctor (ds : list dstruct) : fn :=
    Fn (rs_prefix se) false (if rs_state se then [par "runtime"] else [])
       (Block [] (Some match default_variant ds with
                       | Some d => EFun "Self" (ctor_name d) (if rs_state se then [EName "runtime"] else [])
                       | None => EUnimplemented
                       end)).
  (** 132-151. *)
  Definition eq_arm (d : dstruct) : pat * expr :=
    arm d (Block [] (Some (EIfLet (PVariant (v_name d) (destructured_other d)) (EName "other") (eq_block d)
                             (Some (Block [] (Some (EBool false))))))).
  (** 184-198. *)
  Definition hash_arm (d : dstruct) : pat * expr :=
    arm d (Block (SExpr (EMeth (ENum (v_tag d)) "hash" [EName "state"]) :: hasher d) None).
  (** 223-237. *)
  Definition size_arm (d : dstruct) : pat * expr :=
    arm d (Block (SAdd "size" (EMeth (ENum (v_tag d)) "cache_size" []) :: sizer d) None).
  (** 239-253. *)
  Definition ser_arm (d : dstruct) : pat * expr :=
    arm d (Block (SExpr (ETry (EMeth (ENum (v_tag d)) "serialize_cached" [EName "writer"])) :: serializer d) None).
  (** 255-265. *)
  Definition cache_arm (d : dstruct) : pat * expr :=
    match ds_cache d with
    | Some f => (PVariant (v_name d) [destructure f "size_cache"], ESome (EName "size_cache"))
    | None => (PVariant (v_name d) [], ENone)
    end.
  (** 291-319. *)
  Definition variant_merge_arm (d : dstruct) : pat * expr :=
    let args := if rs_state se then [EMeth (EMeth ESelf "runtime" []) "parent" []] else [] in
    (PNum (v_tag d), EBlock (Block [
      SExpr (EIfLet (PVariant (v_name d) []) ESelf (Block [] None) (Some (Block [SDeref ESelf (EFun "Self" (ctor_name d) args)] None)));
      SExpr (EIfLet (PVariant (v_name d) (destructured d)) ESelf (Block [merger_loop d] None) None)] None)).
  (** 348-356. *)
  Definition runtime_arm (d : dstruct) : pat * expr :=
    match ds_rt d with
    | Some f => (PVariant (v_name d) [destructure f "runtime"], EName "runtime")
    | None => (PVariant (v_name d) [], EUnimplemented)
    end.
  (** 358-376. *)
  Definition set_runtime_arm (d : dstruct) : pat * expr :=
    (PVariant (v_name d) (destructured d ++ match ds_rt d with Some f => [destructure f "self_runtime"] | None => [] end),
     EBlock (Block (SLet "runtime" (EMeth (EName "runtime") "nested" [ENum (v_tag d)]) :: runtime_setter d) None)).
  (** 378-397. *)
  Definition variant_replay_arm (d : dstruct) : pat * expr :=
    (PNum (v_tag d), EBlock (Block [] (Some
      (EIfLet (PVariant (v_name d) (destructured d)) ESelf (Block [] (Some (replayer d))) (Some (Block [] (Some EInvalid))))))).

  (** 577-619. *)
  Definition enum_inherent (ds : list dstruct) : list fn :=
    when (rs_ctors se) (default_ctor ds :: map ctor ds) ++ when (rs_setters se) (flat_map setters ds).
  Definition enum_traits (ds : list dstruct) : list fn :=
    when (rs_partial_eq se) [Fn "eq" true [par "other"] (Block [] (Some (EMatch ESelf (map eq_arm ds))))] ++              (* 129-159 *)
    when (rs_default se) [default_fn] ++
    when (rs_hash se) [Fn "hash" true [par "state"] (Block [] (Some (EMatch ESelf (map hash_arm ds))))] ++                (* 181-208 *)
    when (rs_serialize se)                                                                                          (* 220-286 *)
      [Fn "compute_size" true [] (Block [SLetMut "size" (ENum 0); SExpr (EMatch ESelf (map size_arm ds))] (Some (EName "size")));
       Fn "serialize_cached" true [par "writer"] (Block [SExpr (EMatch ESelf (map ser_arm ds))] (Some (EOk EUnit)));
       Fn "size_cache" true [] (Block [] (Some (EMatch ESelf (map cache_arm ds))))] ++
    when (rs_deserialize se)                                                                                        (* 288-342 *)
      [Fn "merge" true [par "reader"]
         (Block [SLet "tag" (ETry (EFun "u32" "deserialize" [EName "reader"]));
                 SExpr (EMatch (EName "tag") (map variant_merge_arm ds ++ [(PWild, EBlock (Block [SReturn EInvalid] None))]))]
                (Some (EOk EUnit)))] ++
    when (rs_state se)                                                                                              (* 344-453 *)
      [with_runtime_fn;
       Fn "runtime" true [] (Block [] (Some (EMatch ESelf (map runtime_arm ds))));
       Fn "set_runtime" true [par "runtime"] (Block [] (Some (EMatch ESelf (map set_runtime_arm ds))));
       Fn "is_root" true [] (Block [] (Some (EMeth (EMeth (EMeth ESelf "runtime" []) "parent" []) "is_root" [])));
       Fn "handle_update" true [par "reader"]
         (Block [SDeref ESelf (EFun "Self" "with_runtime" [EMeth (EMeth ESelf "runtime" []) "parent" []])]
                (Some (EMeth ESelf "merge" [EName "reader"])));
       Fn "handle" true [mut "path"; par "kind"; par "key"; par "reader"]
         (Block [] (Some (EIfLet (PSome "tag") (EMeth (EName "path") "next" [])
           (Block [] (Some (EMatch (EName "tag") (map variant_replay_arm ds ++ [(PWild, EInvalid)]))))
           (Some (Block [] (Some (EMatch (EName "kind")
             [(PUpdate, EMeth ESelf "handle_update" [EName "reader"]); (PWild, EInvalid)])))))))].
End Generate.
