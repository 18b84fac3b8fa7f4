(** What it means that generated code does what the model of the type says. *)
From Verif Require Import Base Varint WireFmt Utf8 Types Ser De Hash Log State Meta Gen RsGen RsRun.
From Coq Require Import String.
Import String.StringSyntax.
Local Open Scope string_scope.
Local Open Scope list_scope.
Local Open Scope N_scope.

(** ** The type and the values a declaration stands for *)

Definition typed_fields (d : dstruct) (ts : list ty) : list (finfo * ty) := combine (map snd (ds_fields d)) ts.
Definition struct_type (se : rsetting) (d : dstruct) (ts : list ty) : ty :=
  TStruct (mkS (is_some (ds_cache d)) (rs_state se)) (typed_fields d ts).
Definition enum_type (se : rsetting) (ds : list (dstruct * list ty)) : ty :=
  TEnum (rs_state se) (map (fun d => ((v_tag (fst d), is_some (ds_cache (fst d))), typed_fields (fst d) (snd d))) ds).

Fixpoint val_cells (fs : list dfield) (ts : list ty) (xs : list (finfo * val)) : list (string * cell) :=
  match fs, ts, xs with
  | f :: fs, t :: ts, (_, x) :: xs => (access (fst f), CVal t x) :: val_cells fs ts xs
  | _, _, _ => []
  end.
Definition extra_cells (d : dstruct) (r : option rt) : list (string * cell) :=
  match ds_cache d with Some f => [(access f, CSize)] | None => [] end
  ++ match ds_rt d, r with Some f, Some r => [(access f, CRt r)] | _, _ => [] end.
Definition obj_of (d : dstruct) (ts : list ty) (r : option rt) (xs : list (finfo * val)) : obj :=
  Obj (variant_name d) (val_cells (ds_fields d) ts xs ++ extra_cells d r).

Definition struct_obj (d : dstruct) (ts : list ty) (v : val) : obj :=
  match v with VStruct _ r xs => obj_of d ts r xs | _ => Obj None [] end.
Definition enum_obj (ds : list (dstruct * list ty)) (v : val) : obj :=
  match v with
  | VEnum tag _ r xs =>
      match find (fun d => v_tag (fst d) =? tag) ds with Some d => obj_of (fst d) (snd d) r xs | None => Obj None [] end
  | _ => Obj None []
  end.

(** ** What the names have to be *)

Definition aliases (d : dstruct) : list string := map (fun f : dfield => alias (fst f)) (ds_fields d).
Definition cell_names (d : dstruct) : list string :=
  map (fun f : dfield => access (fst f)) (ds_fields d)
  ++ match ds_cache d with Some f => [access f] | None => [] end ++ match ds_rt d with Some f => [access f] | None => [] end.
(** rustc's own checks: no two fields of one name, no two functions of one name in [impl Name]. *)
Definition struct_compiles (se : rsetting) (d : dstruct) : Prop :=
  NoDup (cell_names d) /\ NoDup (map fn_name (struct_inherent se d)).
Definition enum_compiles (se : rsetting) (ds : list dstruct) : Prop :=
  Forall (fun d => NoDup (cell_names d) /\ NoDup (aliases d)) ds /\
  NoDup (map v_name ds) /\ NoDup (map fn_name (enum_inherent se ds)).
(** No field of a variant has one of these names. *)
Definition none_named (xs : list string) (ds : list dstruct) : Prop :=
  forall d x, In d ds -> In x xs -> ~ In x (aliases d).
(** No field is named like another one with [other_] in front. *)
Definition no_other (ds : list dstruct) : Prop :=
  forall d x y, In d ds -> In x (aliases d) -> In y (aliases d) -> x <> "other_" +++ y.

(** ** Outcomes *)

(** Of a function that returns [io::Result<()>]: [self] is [o] afterwards whatever happens. *)
Definition answers {A} (s : st) (o : obj) (x : res A) (f : A -> st -> st) (out : st * ctl rv) : Prop :=
  match x with
  | Ok a => out = (f a (set_self (Some o) s), Go (ROk RUnit))
  | Err e => s_self (fst out) = Some o /\ snd out = Go (RErr e)
  | Panic => s_self (fst out) = Some o /\ snd out = Boom
  | NoFuel => snd out = Stuck
  end.
(** Of a function that returns a plain value. *)
Definition returns {A} (s : st) (x : res A) (f : A -> st * rv) (out : st * ctl rv) : Prop :=
  match x with
  | Ok a => out = (fst (f a), Go (snd (f a)))
  | Panic => s_self (fst out) = s_self s /\ snd out = Boom
  | Err _ | NoFuel => snd out = Stuck
  end.
(** The same where nothing is said about what is left of the path and of the payload. *)
Definition handled (s : st) (o : obj) (x : res unit) (out : st * ctl rv) : Prop :=
  match x with
  | NoFuel => snd out = Stuck
  | _ => (exists i q, fst out = set_in i (set_path q (set_self (Some o) s))) /\
         snd out = match x with Ok _ => Go (ROk RUnit) | Err e => Go (RErr e) | _ => Boom end
  end.
(** Of a setter, from the object after it, the calls on loggers and how it ended. *)
Definition sets {A} (s : st) (o : obj) (x : list lev * res A) (out : st * ctl rv) : Prop :=
  match snd x with
  | Ok _ => out = (put_log (fst x) (set_self (Some o) s), Go RSelf)
  | Panic => s_self (fst out) = Some o /\ s_log (fst out) = s_log s ++ fst x /\ snd out = Boom
  | Err _ | NoFuel => snd out = Stuck
  end.

(** ** The traits *)

Section Spec.
  Variables (m : mode) (hl : store) (p : prog) (se : rsetting) (t : ty) (ob : val -> obj).
  Notation on v s := (set_self (Some (ob v)) s).

  Definition rt_arg (r : rt) : list rv := if rs_state se then [RRt r] else [].
  (** Constructors. *)
  Definition makes_spec : Prop :=
    (rs_ctors se = true -> forall r s, make m hl p (rs_prefix se) (rt_arg r) s = (s, Go (RObj (ob (dflt t r))))) /\
    (rs_default se = true -> rs_ctors se = true ->
       forall s, make_trait m hl p "default" [] s = (s, Go (RObj (ob (dflt t rt_default))))) /\
    (rs_state se = true -> forall r s, make_trait m hl p "with_runtime" [RRt r] s = (s, Go (RObj (ob (dflt t r))))).
  Definition eq_spec : Prop := rs_partial_eq se = true -> forall v w s, wt t v = true -> wt t w = true ->
    invoke m hl p "eq" [RObj (ob w)] (on v s) = (on v s, Go (RBool (veqb v w))).
  Definition hash_spec : Prop := rs_hash se = true -> forall v s, wt t v = true ->
    invoke m hl p "hash" [RHasher] (on v s) = (put_hash (hfeed v) (on v s), Go RUnit).
  Definition size_spec : Prop := rs_serialize se = true -> forall v s, wt t v = true ->
    returns (on v s) (compute m (s_at s) v (s_heap s)) (fun '(n, h) => (set_heap h (on v s), RNum n))
            (invoke m hl p "compute_size" [] (on v s)).
  Definition ser_spec : Prop := rs_serialize se = true -> forall v s, wt t v = true ->
    answers s (ob v) (ser_cached m (s_at s) v (s_heap s)) (fun '(b, h) s => put_out b (set_heap h s))
            (invoke m hl p "serialize_cached" [RWriter] (on v s)).
  (** The size cache is there if the type has one, and is that of this object. *)
  Definition cache_spec : Prop := rs_serialize se = true -> forall v s, wt t v = true ->
    if has_cache v then exists x, invoke m hl p "size_cache" [] (on v s) = (on v s, Go (ROpt (Some (RPlace x)))) /\
                                  lookup x (o_cells (ob v)) = Some CSize
    else invoke m hl p "size_cache" [] (on v s) = (on v s, Go (ROpt None)).
  Definition merge_spec : Prop := rs_deserialize se = true -> forall v s, wt t v = true ->
    let '(v', r) := merge m t v (s_in s) in
    answers s (ob v') r set_in (invoke m hl p "merge" [RReader] (on v s)).
  Definition runtime_spec : Prop := rs_state se = true -> forall v s, wt t v = true ->
    (exists x r, invoke m hl p "runtime" [] (on v s) = (on v s, Go (RPlace x)) /\
                 lookup x (o_cells (ob v)) = Some (CRt r) /\ val_rt v = Ok r) /\
    (forall b, is_root v = Ok b -> invoke m hl p "is_root" [] (on v s) = (on v s, Go (RBool b))).
  Definition set_runtime_spec : Prop := rs_state se = true -> forall v r s, wt t v = true ->
    invoke m hl p "set_runtime" [RRt r] (on v s) = (on (set_rt r v) s, Go RUnit).
  Definition handle_spec : Prop := rs_state se = true -> forall v path kind key s, wt t v = true ->
    let '(v', r) := handle m t path kind key (s_in s) v in
    handled s (ob v') r (invoke m hl p "handle" [RPath; RKind kind; RKey key; RReader] (set_path path (on v s))).
  Definition handle_update_spec : Prop := rs_state se = true -> forall v s, wt t v = true ->
    let '(v', r) := handle_update m t (s_in s) v in
    handled s (ob v') r (invoke m hl p "handle_update" [RReader] (on v s)).
End Spec.

(** ** Setters *)

(** [set_x], [set_variant_x]. *)
Definition set_name (d : dstruct) (f : dfield) : string :=
  "set_" +++ match variant_name d with Some v => to_snake_case v +++ "_" | None => "" end +++ alias (fst f).

(** Of a State struct: each field has its setter, a state field also [set_.._with]. *)
Definition struct_setters_spec (m : mode) (hl : store) (se : rsetting) (d : dstruct) (ts : list ty) : Prop :=
  let t := struct_type se d ts in
  rs_state se = true -> forall f tf v s, In (f, tf) (combine (ds_fields d) ts) -> wt t v = true ->
  let on := set_self (Some (struct_obj d ts v)) s in
  (forall x, let '(v', o) := apply_op m hl t (OSet (f_tag (snd f)) x) v in
     sets s (struct_obj d ts v') o (invoke_own m hl (struct_prog se d ts) (set_name d f) [RVal tf x] on)) /\
  (f_state (snd f) = true -> forall g, let '(v', o) := apply_op m hl t (OSetWith (f_tag (snd f)) g) v in
     sets s (struct_obj d ts v') o (invoke_own m hl (struct_prog se d ts) (set_name d f +++ "_with") [RFun tf g] on)).
(** Of another struct: assigns the field. *)
Definition struct_plain_setters_spec (m : mode) (hl : store) (se : rsetting) (d : dstruct) (ts : list ty) : Prop :=
  let t := struct_type se d ts in
  rs_state se = false -> rs_setters se = true -> forall f tf c xs x s, In (f, tf) (combine (ds_fields d) ts) -> wt t (VStruct c None xs) = true ->
  invoke_own m hl (struct_prog se d ts) (set_name d f) [RVal tf x] (set_self (Some (struct_obj d ts (VStruct c None xs))) s)
  = (set_self (Some (struct_obj d ts (VStruct c None (put_field (f_tag (snd f)) x xs)))) s, Go RSelf).

(** Of a State enum: switches to the variant first if it is another one. *)
Definition enum_setters_spec (m : mode) (hl : store) (se : rsetting) (ds : list (dstruct * list ty)) : Prop :=
  let t := enum_type se ds in
  rs_state se = true -> forall d ts f tf v s, In (d, ts) ds -> In (f, tf) (combine (ds_fields d) ts) -> wt t v = true ->
  let on := set_self (Some (enum_obj ds v)) s in
  (forall x, let '(v', o) := apply_op m hl t (OVSet (v_tag d) (f_tag (snd f)) x) v in
     sets s (enum_obj ds v') o (invoke_own m hl (enum_prog se ds) (set_name d f) [RVal tf x] on)) /\
  (f_state (snd f) = true -> forall g, let '(v', o) := apply_op m hl t (OVSetWith (v_tag d) (f_tag (snd f)) g) v in
     sets s (enum_obj ds v') o (invoke_own m hl (enum_prog se ds) (set_name d f +++ "_with") [RFun tf g] on)).
(** Of another enum. *)
Definition enum_plain_setters_spec (m : mode) (hl : store) (se : rsetting) (ds : list (dstruct * list ty)) : Prop :=
  let t := enum_type se ds in
  rs_state se = false -> rs_setters se = true -> rs_ctors se = true -> forall d ts f tf tag c xs x s, In (d, ts) ds -> In (f, tf) (combine (ds_fields d) ts) -> wt t (VEnum tag c None xs) = true ->
  let set := put_field (f_tag (snd f)) x in
  invoke_own m hl (enum_prog se ds) (set_name d f) [RVal tf x] (set_self (Some (enum_obj ds (VEnum tag c None xs))) s)
  = (set_self (Some (enum_obj ds (if tag =? v_tag d then VEnum tag c None (set xs)
                                  else VEnum (v_tag d) (is_some (ds_cache d)) None (set (dflt_fields rt_default (typed_fields d ts)))))) s,
     Go RSelf).
