(** Which traits the generated impls rely on, and which they are given: the headers of the generated impls
    (steit-derive/src/impl.rs, struct.rs, enum.rs), the headers of the impls of the library, and the check of
    the one against the other as rustc does it.  What a body needs of a type is read off the methods it calls
    (RsGen.v has the bodies); a method is looked up on the type itself, without auto-deref.  The traits named
    in [#[derive(..)]] for rustc to derive, the [where] clauses, lifetimes and whether the fields of the
    declaration itself are well formed ([List<T>] where [T] is not [State]) are left out. *)
From Verif Require Import Base Varint WireFmt Types Meta Gen RsGen.
From Coq Require Import String.
Local Open Scope list_scope.
Local Open Scope nat_scope.

(** ** Traits *)

(** [HasWireType], [Serialize], [Deserialize], [State], [HasMeta], [Default], [PartialEq], [Eq], [Hash],
    [MapKey]; [TCtor], [TSetters] stand for the impls without a trait that hold constructors and setters. *)
Inductive tr := TWire | TSer | TDe | TState | TMeta | TDefault | TEq | TFullEq | THash | TKey | TCtor | TSetters.
Definition tr_eqb (a b : tr) : bool :=
  match a, b with
  | TWire, TWire | TSer, TSer | TDe, TDe | TState, TState | TMeta, TMeta | TDefault, TDefault
  | TEq, TEq | TFullEq, TFullEq | THash, THash | TKey, TKey | TCtor, TCtor | TSetters, TSetters => true
  | _, _ => false
  end.
(** ser.rs 8, de/de.rs 7, state.rs 11; [Eq: PartialEq]. *)
Definition supers (t : tr) : list tr :=
  match t with
  | TSer => [TWire] | TDe => [TDefault; TWire] | TState => [TSer; TDe] | TFullEq => [TEq]
  | _ => []
  end.
(** A bound gives the supertraits too. *)
Fixpoint gives (fuel : nat) (b t : tr) : bool :=
  tr_eqb b t || match fuel with O => false | S n => existsb (fun s => gives n s t) (supers b) end.
Definition implies : tr -> tr -> bool := gives 2.

(** ** Types *)

(** A type constructor; [KPrim key]: a number or [bool], [key] when it is [u8], [u16] or [u32]; [KStr] is
    [&str]; [KUser n] is the [n]th declaration of the program. *)
Inductive con :=
| KPrim (key : bool) | KStr | KString | KBytes | KOption | KVec | KArray (len : nat) | KBox | KTuple (n : nat) | KHashMap
| KList | KMap | KUser (n : nat).
Inductive rty := TVar (i : nat) | TCon (c : con) (args : list rty).

(** The bounds of an impl: which traits it wants of which argument. *)
Definition conds : Type := list (nat * tr).
(** [impl<A: B, ..> B for C<A, ..>]. *)
Definition each (n : nat) (t : tr) : option conds := Some (map (fun i => (i, t)) (seq 0 n)).

(** impls/{bool,varint,str,string,option,vec,array,box,tuple,hash_map}.rs, types/{bytes,list}.rs,
    types/map/{key,map}.rs; [Default], [PartialEq], [Eq] and [Hash] as in std, or derived (list.rs 20). *)
Definition lib_impl (c : con) (t : tr) : option conds :=
  match c, t with
  | _, TCtor | _, TSetters => None
  | KPrim key, TKey => if key then Some [] else None
  | KPrim _, _ => Some []
  | KStr, (TDe | TState | TMeta | TKey) => None
  | KStr, _ => Some []
  | (KString | KBytes), (TState | TKey) => None
  | (KString | KBytes), _ => Some []
  | (KOption | KVec), (TState | TKey) => None
  | (KOption | KVec), (TWire | TDefault) => Some []
  | (KOption | KVec), t => each 1 t
  | KArray _, (TState | TKey) => None
  | KArray len, (TWire | TSer | TDe | TMeta) =>                                    (* array.rs 76-82 *)
      if (1 <=? len) && (len <=? 7) then match t with TWire => Some [] | _ => each 1 t end else None
  | KArray len, TDefault => if (len =? 0) then Some [] else if (len <=? 32) then each 1 t else None
  | KArray _, t => each 1 t
  | KBox, TKey => None
  | KBox, t => each 1 t
  | KTuple _, (TState | TMeta | TKey) => None
  | KTuple n, (TWire | TSer | TDe) =>                                              (* tuple.rs 51-56 *)
      if (2 <=? n) && (n <=? 7) then match t with TWire => Some [] | _ => each n t end else None
  | KTuple n, t => if (n <=? 12) then each n t else None
  | KHashMap, TWire => Some []                                                     (* hash_map.rs 10-40 *)
  | KHashMap, TSer => each 2 TSer
  | KHashMap, TDe => Some [(0, TFullEq); (0, THash); (0, TDe); (1, TDe)]
  | KHashMap, TDefault => Some []
  | KHashMap, TEq => Some [(0, TFullEq); (0, THash); (1, TEq)]
  | KHashMap, TFullEq => Some [(0, TFullEq); (0, THash); (1, TFullEq)]
  | KHashMap, _ => None
  | KList, (TWire | TSer | TDe | TState) => each 1 TState                          (* list.rs 159-192 *)
  | KList, (TMeta | TEq | TFullEq | TDefault | THash) => Some [(0, TState); (0, t)]  (* 20, 261 *)
  | KList, TKey => None
  | KMap, (TWire | TSer | TDe | TState | TDefault) => Some [(0, TKey); (1, TState)]    (* map.rs 116-204 *)
  | KMap, TMeta => Some [(0, TKey); (1, TState); (1, TMeta)]                           (* 274 *)
  | KMap, (TEq | TFullEq) => Some [(0, TKey); (0, TFullEq); (0, THash); (1, TState); (1, t)]   (* 108-114 *)
  | KMap, (THash | TKey) => None
  | KUser _, _ => None
  end.

(** ** Declarations *)

(** A field: its type, and what field.rs 21-23 says of it. *)
Record gfield := GF { gf_ty : rty; gf_no_state : bool; gf_no_hash : bool; gf_no_eq_hash : bool }.
Inductive gdata := GStruct (fs : list gfield) | GEnum (vs : list (list gfield)).
(** [#[steit_derive(..)]] on a type: the bounds written on each type parameter, the arguments and attributes
    (RsGen.v; before they are settled), [no_meta], the fields. *)
Record gdecl := GD { g_bounds : list (list tr); g_args : rsetting; g_no_meta : bool; g_data : gdata }.

Section Decl.
  Variable d : gdecl.
  Definition g_set : rsetting := settle (g_args d) false.
  Definition all_fields : list gfield := match g_data d with GStruct fs => fs | GEnum vs => List.concat vs end.
  Definition is_enum : bool := match g_data d with GStruct _ => false | GEnum _ => true end.
  (** field.rs 234-236. *)
  Definition is_state (f : gfield) : bool := rs_state g_set && negb (gf_no_state f).

  (** struct.rs 621-662, enum.rs 578-619; derive.rs 70-74, 112-118. *)
  Definition derives (t : tr) : bool :=
    match t with
    | TCtor => rs_ctors g_set | TSetters => rs_setters g_set
    | TEq => rs_partial_eq g_set | TDefault => rs_default g_set | THash => rs_hash g_set
    | TWire => rs_serialize g_set || rs_deserialize g_set
    | TSer => rs_serialize g_set | TDe => rs_deserialize g_set | TState => rs_state g_set
    | TMeta => rs_deserialize g_set && negb (g_no_meta d)
    | TFullEq | TKey => false
    end.

  (** struct.rs 160-166, enum.rs 84-90. *)
  Definition trait_bounds (fallback : list tr) : list tr := if rs_state g_set then [TState] else fallback.
  (** What is added to the bounds of each type parameter: struct.rs 218-221 (enum.rs 111-112), 229-238
      (enum.rs 122-126), 254, 272-274, 293, 303-305, 335, 375, 450, 541; enum.rs 320-322. *)
  Definition added (t : tr) : list tr :=
    match t with
    | TCtor => trait_bounds [TDefault]
    | TSetters => trait_bounds (if is_enum then [TDefault] else [])
    | TEq => [TEq] | TDefault => trait_bounds [TDefault] | THash => [THash] | TWire => [] | TSer => [TSer]
    | TDe => if is_enum then trait_bounds [TDe] else [TDe]
    | TState => [TState] | TMeta => [TMeta]
    | TFullEq | TKey => []
    end.
  (** impl.rs 26-55: the bounds in an impl, on the [i]th type parameter. *)
  Definition env (t : tr) (i : nat) : list tr :=
    match nth_error (g_bounds d) i with Some b => b ++ added t | None => [] end.
  Definition impl_conds (t : tr) : conds :=
    flat_map (fun i => map (fun b => (i, b)) (env t i)) (seq 0 (List.length (g_bounds d))).

  (** The types whose [HasMeta] field.rs 427-521 names for a field: all but type parameters and arrays. *)
  Fixpoint metas (ty : rty) : list rty :=
    match ty with
    | TVar _ => []
    | TCon c args => match c with KArray _ => [] | _ => [ty] end ++ flat_map metas args
    end.

  (** What the impl of a trait for the type [self] needs: supertraits, and what its functions call. *)
  Definition needs (self : rty) (t : tr) : list (rty * tr) :=
    let fields := map (fun f => (gf_ty f, t)) all_fields in
    match t with
    | TCtor => map (fun f => (gf_ty f, if is_state f then TState else TDefault)) all_fields    (* field.rs 238-245 *)
    | TSetters =>                                                                             (* field.rs 247-338 *)
        flat_map (fun f =>
          (if is_enum then (self, TCtor) :: (if rs_state g_set then [(self, TState); (self, TSer)] else []) else []) ++
          (if is_state f then [(self, TState); (gf_ty f, TState); (gf_ty f, TSer)] else [])) all_fields
    | TEq => map (fun f => (gf_ty f, TEq)) (filter (fun f => negb (gf_no_eq_hash f)) all_fields)   (* 340-353 *)
    | THash => map (fun f => (gf_ty f, THash)) (filter (fun f => negb (gf_no_hash f) && negb (gf_no_eq_hash f)) all_fields)   (* 355-362 *)
    | TDefault => [(self, TCtor)]                                                             (* struct.rs 263-281 *)
    | TWire => []
    | TSer => (self, TWire) :: fields                                                         (* field.rs 364-374 *)
    | TDe => (self, TDefault) :: (self, TWire) :: fields ++                                   (* 376-380 *)
        match g_data d with
        | GStruct _ => []
        | GEnum vs => flat_map (fun _ => (self, TCtor) :: (if rs_state g_set then [(self, TState)] else [])) vs   (* enum.rs 291-319 *)
        end
    | TState =>                                                                               (* struct.rs 444-476, enum.rs 344-453 *)
        [(self, TSer); (self, TDe); (self, TCtor); (self, TState)] ++
        map (fun f => (gf_ty f, TState)) (filter is_state all_fields)
    | TMeta =>                                                                                (* struct.rs 516-559, enum.rs 455-518 *)
        map (fun i => (TVar i, TMeta)) (seq 0 (List.length (g_bounds d))) ++ fields ++
        flat_map (fun f => map (fun ty => (ty, TMeta)) (metas (gf_ty f))) all_fields
    | TFullEq | TKey => []
    end.
End Decl.

(** ** The check *)

(** The impl there is of a trait for a type constructor. *)
Definition impl_of (p : list gdecl) (c : con) (t : tr) : option conds :=
  match c with
  | KUser n => match nth_error p n with Some d => if derives d t then Some (impl_conds d t) else None | None => None end
  | c => lib_impl c t
  end.
(** A type has a trait, in a scope where the type parameters have the bounds [g]. *)
Fixpoint has (p : list gdecl) (g : nat -> list tr) (ty : rty) (t : tr) : bool :=
  match ty with
  | TVar i => existsb (fun b => implies b t) (g i)
  | TCon c args =>
      match impl_of p c t with
      | Some cs => forallb (fun it : nat * tr => match nth_error (map (has p g) args) (fst it) with Some h => h (snd it) | None => false end) cs
      | None => false
      end
  end.
(** [Name<A, B, ..>] in the impls of the [n]th declaration. *)
Definition self_ty (n : nat) (d : gdecl) : rty := TCon (KUser n) (map TVar (seq 0 (List.length (g_bounds d)))).
(** rustc finds what the impls of a declaration need. *)
Definition accepts (p : list gdecl) (n : nat) (d : gdecl) : Prop :=
  forall t, derives d t = true -> forall ty u, In (ty, u) (needs d (self_ty n d) t) -> has p (env d t) ty u = true.

(** The type with its parameters replaced. *)
Fixpoint inst (s : list rty) (ty : rty) : rty :=
  match ty with
  | TVar i => match nth_error s i with Some a => a | None => TVar i end
  | TCon c args => TCon c (map (inst s) args)
  end.
