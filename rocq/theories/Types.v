(** Rust types that steit can serialize, as schema trees; their values; defaults. *)
From Verif Require Import Base Varint WireFmt Utf8.

(** steit/src/rt/node.rs 3-6. *)
Inductive node := Root | Child (parent : node) (value : N).

(** steit/src/rt/runtime.rs 20-26.  A logger is a number; 0 stands for any logger
    nobody holds a handle to, such as the one made by [Runtime::default()]. *)
Record rt := mkRt { rt_log : N; rt_path : node }.

(** runtime.rs 158-162 ([Runtime::default()]). *)
Definition rt_default : rt := mkRt 0 Root.

(** runtime.rs 65-70. *)
Definition nested (r : rt) (fn : N) : rt := mkRt (rt_log r) (Child (rt_path r) fn).

(** Static facts about a derived field (steit-derive/src/derive/field.rs 17-26, 234-236):
    tag, [is_state()], takes part in [PartialEq] / [Hash]. *)
Record finfo := mkF { f_tag : N; f_state : bool; f_eq : bool; f_hash : bool }.

(** Static facts about a derived struct: has a size cache, derives State
    (steit-derive/src/derive/struct.rs 100-134). *)
Record sinfo := mkS { s_cache : bool; s_state : bool }.

(** Key types of [Map] (steit/src/types/map/key.rs 33-35). *)
Inductive mkey := K8 | K16 | K32.
Definition mkey_max (k : mkey) : N :=
  match k with K8 => 255 | K16 => 65535 | K32 => 2 ^ 32 - 1 end.

(** A type.  [TEnum st vs]: derives State?; variants (tag, has size cache, fields).
    Simplification: finite trees, so a recursive Rust type is represented by its
    finite unfoldings. *)
Inductive ty :=
| TInt (k : ikind)
| TBool
| TStr
| TBytes
| TOpt (t : ty)
| TVec (t : ty)
| TArr (n : nat) (t : ty)
| TTup (ts : list ty)
| THash (k v : ty)
| TBox (t : ty)
| TStruct (si : sinfo) (fs : list (finfo * ty))
| TEnum (st : bool) (vs : list ((N * bool) * list (finfo * ty)))
| TList (t : ty)
| TMap (k : mkey) (t : ty).

(** A value.  Size caches are not stored here: Ser.v keeps them in a separate store
    addressed by position.  [VStruct c r fs]: has a size cache?; runtime (if the
    struct derives State); fields with their static facts.  A hash map or map is
    the list of its entries in iteration order. *)
Inductive val :=
| VInt (k : ikind) (z : Z)
| VBool (b : bool)
| VStr (s : bytes)
| VBytes (s : bytes)
| VOpt (o : option val)
| VVec (l : list val)
| VArr (l : list val)
| VTup (l : list val)
| VHash (l : list (val * val))
| VBox (v : val)
| VStruct (c : bool) (r : option rt) (fs : list (finfo * val))
| VEnum (tag : N) (c : bool) (r : option rt) (fs : list (finfo * val))
| VList (r : rt) (l : list val)
| VMap (r : rt) (es : list (N * val)).

(** [HasWireType::WIRE_TYPE] of a type (varint.rs 13, 80; bool.rs 10; box.rs 14;
    [Sized] everywhere else). *)
Fixpoint wty (t : ty) : wtype :=
  match t with
  | TInt _ | TBool => Varint
  | TBox t => wty t
  | _ => Sized
  end.

Fixpoint vwty (v : val) : wtype :=
  match v with
  | VInt _ _ | VBool _ => Varint
  | VBox v => vwty v
  | _ => Sized
  end.

(** The runtime a derived field is created with (field.rs 238-245). *)
Definition field_rt (r : rt) (fi : finfo) : rt :=
  if f_state fi then nested r (f_tag fi) else rt_default.

(** [with_runtime(r)] for State types (list.rs 193-195, map.rs 205-207, box.rs 38-40,
    macros.rs 43-45, struct.rs 186-216, enum.rs 92-120); for a type without runtime the
    argument is irrelevant and this is [Default::default()].  [Default::default()] of a
    State type is [with_runtime(Runtime::default())] (struct.rs 263-281, enum.rs 161-179,
    list.rs 20, map.rs 116-120).
    The default variant is the first with tag 0 (enum.rs 554-556); an enum without one
    does not compile (enum.rs 563-568), [VBool false] stands for that impossible case. *)
Fixpoint dflt (t : ty) (r : rt) {struct t} : val :=
  let dfields := fun (r : rt) =>
    map (fun p : finfo * ty => let '(fi, t) := p in (fi, dflt t (field_rt r fi))) in
  match t with
  | TInt k => VInt k 0
  | TBool => VBool false
  | TStr => VStr []
  | TBytes => VBytes []
  | TOpt _ => VOpt None
  | TVec _ => VVec []
  | TArr n t => VArr (repeat (dflt t rt_default) n)
  | TTup ts => VTup (map (fun t => dflt t rt_default) ts)
  | THash _ _ => VHash []
  | TBox t => VBox (dflt t r)
  | TStruct si fs =>
      VStruct (s_cache si) (if s_state si then Some r else None) (dfields r fs)
  | TEnum st vs =>
      (fix first vs := match vs with
       | [] => VBool false
       | ((tag, c), fs) :: vs' =>
           if tag =? 0 then
             let r := nested r tag in
             VEnum tag c (if st then Some r else None) (dfields r fs)
           else first vs'
       end) vs
  | TList _ => VList r []
  | TMap _ _ => VMap r []
  end.

Definition dflt_fields (r : rt) (fs : list (finfo * ty)) : list (finfo * val) :=
  map (fun p : finfo * ty => let '(fi, t) := p in (fi, dflt t (field_rt r fi))) fs.

(** A variant's own constructor (struct.rs 186-216 with a variant). *)
Definition variant_ctor (st : bool) (va : (N * bool) * list (finfo * ty)) (r : rt) : val :=
  let '((tag, c), fs) := va in
  let r := nested r tag in
  VEnum tag c (if st then Some r else None) (dflt_fields r fs).

Definition find_variant (vs : list ((N * bool) * list (finfo * ty))) (tag : N)
  : option ((N * bool) * list (finfo * ty)) :=
  find (fun va => fst (fst va) =? tag) vs.

(** Decidable equalities. *)
Definition ikind_eqb (a b : ikind) : bool :=
  match a, b with
  | U8, U8 | U16, U16 | U32, U32 | U64, U64 | I8, I8 | I16, I16 | I32, I32 | I64, I64 => true
  | _, _ => false
  end.
Definition finfo_eqb (a b : finfo) : bool :=
  (f_tag a =? f_tag b) && Bool.eqb (f_state a) (f_state b) &&
  Bool.eqb (f_eq a) (f_eq b) && Bool.eqb (f_hash a) (f_hash b).

Fixpoint list_eqb {A} (eqb : A -> A -> bool) (l1 l2 : list A) : bool :=
  match l1, l2 with
  | [], [] => true
  | x :: r1, y :: r2 => eqb x y && list_eqb eqb r1 r2
  | _, _ => false
  end.

Fixpoint assoc {A} (k : N) (l : list (N * A)) : option A :=
  match l with
  | [] => None
  | (k', a) :: r => if k =? k' then Some a else assoc k r
  end.

(** Rust's [==] on values of one type: integers, strings etc. by content; derived
    types field by field, leaving out [no_eq_hash] fields (field.rs 340-353,
    enum.rs 129-159); [Runtime] and [SizeCache] are always equal (runtime.rs 150-154,
    size_cache.rs 62-66); [List] derives it from its [Vec] (list.rs 20); [Map] compares
    as [IndexMap], i.e. regardless of order (map.rs 108-112); [HashMap] likewise. *)
Fixpoint veqb (a b : val) {struct a} : bool :=
  let fields := fix fields (fs gs : list (finfo * val)) : bool :=
    match fs, gs with
    | [], [] => true
    | (fi, x) :: fs', (_, y) :: gs' => (if f_eq fi then veqb x y else true) && fields fs' gs'
    | _, _ => false
    end in
  let items := fix items (l1 l2 : list val) : bool :=
    match l1, l2 with
    | [], [] => true
    | x :: r1, y :: r2 => veqb x y && items r1 r2
    | _, _ => false
    end in
  match a, b with
  | VInt _ x, VInt _ y => (x =? y)%Z
  | VBool x, VBool y => Bool.eqb x y
  | VStr x, VStr y => list_eqb N.eqb x y
  | VBytes x, VBytes y => list_eqb N.eqb x y
  | VOpt None, VOpt None => true
  | VOpt (Some x), VOpt (Some y) => veqb x y
  | VVec l1, VVec l2 => items l1 l2
  | VArr l1, VArr l2 => items l1 l2
  | VTup l1, VTup l2 => items l1 l2
  | VHash l1, VHash l2 =>
      Nat.eqb (length l1) (length l2) &&
      forallb (fun e : val * val => let '(k, x) := e in
        match find (fun e' : val * val => veqb k (fst e')) l2 with
        | Some e' => veqb x (snd e')
        | None => false
        end) l1
  | VBox x, VBox y => veqb x y
  | VStruct _ _ fs, VStruct _ _ gs => fields fs gs
  | VEnum t1 _ _ fs, VEnum t2 _ _ gs => (t1 =? t2) && fields fs gs
  | VList _ l1, VList _ l2 => items l1 l2
  | VMap _ l1, VMap _ l2 =>
      Nat.eqb (length l1) (length l2) &&
      forallb (fun e : N * val => let '(k, x) := e in
        match assoc k l2 with Some y => veqb x y | None => false end) l1
  | _, _ => false
  end.

(** [HashMap::insert]: an equal key keeps its place (and its old key). *)
Fixpoint hash_insert (k v : val) (l : list (val * val)) : list (val * val) :=
  match l with
  | [] => [(k, v)]
  | (k', v') :: r => if veqb k k' then (k', v) :: r else (k', v') :: hash_insert k v r
  end.

(** [IndexMap::insert]: replaces in place, else appends. *)
Fixpoint im_insert {A} (k : N) (v : A) (l : list (N * A)) : list (N * A) :=
  match l with
  | [] => [(k, v)]
  | (k', v') :: r => if k =? k' then (k', v) :: r else (k', v') :: im_insert k v r
  end.

Definition nodupb (l : list N) : bool :=
  (fix go l := match l with
   | [] => true
   | x :: r => negb (existsb (N.eqb x) r) && go r
   end) l.

(** No two hash-map keys are equal. *)
Fixpoint hkeys_distinct (l : list (val * val)) : bool :=
  match l with
  | [] => true
  | (k, _) :: r => negb (existsb (fun e => veqb k (fst e)) r) && hkeys_distinct r
  end.

Definition rt_below (r : option rt) : bool :=
  match r with Some (mkRt _ Root) => false | _ => true end.

(** Types usable as hash-map keys: [Eq + Hash] (hash_map.rs 40).  [HashMap] and [Map]
    do not implement [Hash]; fields left out of hashing may be of any type. *)
Fixpoint hash_ty (t : ty) : bool :=
  let fh := forallb (fun p : finfo * ty => let '(fi, t) := p in
    negb (f_eq fi && f_hash fi) || hash_ty t) in
  match t with
  | TInt _ | TBool | TStr | TBytes => true
  | TOpt t | TVec t | TArr _ t | TBox t | TList t => hash_ty t
  | TTup ts => forallb hash_ty ts
  | THash _ _ | TMap _ _ => false
  | TStruct _ fs => fh fs
  | TEnum _ vs => forallb (fun va : (N * bool) * list (finfo * ty) => fh (snd va)) vs
  end.

(** Well-typed values: what Rust's type system plus the containers' own invariants
    guarantee.  ([VStr] holds valid UTF-8, hash maps and maps hold a key once,
    map keys are [u32]; the runtime of a State enum always has a last segment, since
    the variant constructors and [set_runtime] append the variant's tag, struct.rs
    196-205 and enum.rs 370-375.) *)
Fixpoint wt (t : ty) (v : val) {struct t} : bool :=
  let wfields := fix wfields (ts : list (finfo * ty)) (fs : list (finfo * val)) : bool :=
    match ts, fs with
    | [], [] => true
    | (fi, t) :: ts', (fj, x) :: fs' => finfo_eqb fi fj && wt t x && wfields ts' fs'
    | _, _ => false
    end in
  match t, v with
  | TInt k, VInt k' z => ikind_eqb k k' && in_range k z
  | TBool, VBool _ => true
  | TStr, VStr s => forallb (fun b => b <? 256) s && utf8_valid s
  | TBytes, VBytes s => forallb (fun b => b <? 256) s
  | TOpt t, VOpt None => true
  | TOpt t, VOpt (Some x) => wt t x
  | TVec t, VVec l => forallb (wt t) l
  | TArr n t, VArr l => Nat.eqb (length l) n && forallb (wt t) l
  | TTup ts, VTup l =>
      (fix go ts l := match ts, l with
       | [], [] => true
       | t :: ts', x :: l' => wt t x && go ts' l'
       | _, _ => false
       end) ts l
  | THash kt vt, VHash es =>
      forallb (fun e : val * val => wt kt (fst e) && wt vt (snd e)) es && hkeys_distinct es
  | TBox t, VBox x => wt t x
  | TStruct si ts, VStruct c r fs =>
      Bool.eqb (s_cache si) c &&
      Bool.eqb (s_state si) (match r with Some _ => true | None => false end) &&
      wfields ts fs
  | TEnum st vs, VEnum tag c r fs =>
      Bool.eqb st (match r with Some _ => true | None => false end) && rt_below r &&
      (fix go vs := match vs with
       | [] => false
       | ((tag', c'), ts) :: vs' =>
           if tag' =? tag then Bool.eqb c' c && wfields ts fs else go vs'
       end) vs
  | TList t, VList _ l => forallb (wt t) l
  | TMap k t, VMap _ es =>
      forallb (fun e : N * val => (fst e <? 2 ^ 32) && wt t (snd e)) es && nodupb (map fst es)
  | _, _ => false
  end.

(** Types implementing [State] (box.rs 37, macros.rs 40, list.rs 192, map.rs 204, derive). *)
Fixpoint state_ty (t : ty) : bool :=
  match t with
  | TInt _ | TBool => true
  | TBox t => state_ty t
  | TStruct si _ => s_state si
  | TEnum st _ => st
  | TList _ | TMap _ _ => true
  | _ => false
  end.

(** Types that the Rust compiler and the derive macro accept: unique tags up to
    2^29-1 (struct.rs 561-596, enum.rs 516-575, tag.rs), a default variant, state
    fields only in State structs and of State type, List/Map of State types
    (list.rs 35, map.rs 30), arrays of length 1 to 7 (array.rs 76-82), tuples of
    2 to 7 components (tuple.rs 51-56). *)
Fixpoint ty_ok (t : ty) {struct t} : bool :=
  let fok := fun (st : bool) =>
    forallb (fun p : finfo * ty => let '(fi, t) := p in
      (f_tag fi <=? FIELD_NUMBER_MAX) && ty_ok t &&
      (negb (f_state fi) || (st && state_ty t))) in
  match t with
  | TInt _ | TBool | TStr | TBytes => true
  | TOpt t | TVec t | TBox t => ty_ok t
  | TArr n t => (1 <=? n)%nat && (n <=? 7)%nat && ty_ok t
  | TTup ts => (2 <=? length ts)%nat && (length ts <=? 7)%nat && forallb ty_ok ts
  | THash k v => ty_ok k && ty_ok v && hash_ty k
  | TStruct si fs => fok (s_state si) fs && nodupb (map (fun p => f_tag (fst p)) fs)
  | TEnum st vs =>
      forallb (fun va : (N * bool) * list (finfo * ty) =>
        (fst (fst va) <=? FIELD_NUMBER_MAX) &&
        fok st (snd va) && nodupb (map (fun p => f_tag (fst p)) (snd va))) vs &&
      nodupb (map (fun va => fst (fst va)) vs) &&
      existsb (fun va => fst (fst va) =? 0) vs
  | TList t => ty_ok t && state_ty t
  | TMap _ t => ty_ok t && state_ty t
  end.

(** Runtimes as a fresh decode would leave them below runtime [r]: the State part of
    the tree follows the path, everything else sits on default runtimes.  Two values
    are the same up to runtimes when their normal forms agree. *)
Fixpoint norm (r : rt) (v : val) {struct v} : val :=
  match v with
  | VInt _ _ | VBool _ | VStr _ | VBytes _ => v
  | VOpt o => VOpt (match o with Some x => Some (norm rt_default x) | None => None end)
  | VVec l => VVec (map (norm rt_default) l)
  | VArr l => VArr (map (norm rt_default) l)
  | VTup l => VTup (map (norm rt_default) l)
  | VHash l => VHash (map (fun e : val * val =>
                 let '(k, x) := e in (norm rt_default k, norm rt_default x)) l)
  | VBox x => VBox (norm r x)
  | VStruct c r0 fs =>
      VStruct c (match r0 with Some _ => Some r | None => None end)
        (map (fun p : finfo * val => let '(fi, x) := p in (fi, norm (field_rt r fi) x)) fs)
  | VEnum tag c r0 fs =>
      let r := nested r tag in
      VEnum tag c (match r0 with Some _ => Some r | None => None end)
        (map (fun p : finfo * val => let '(fi, x) := p in (fi, norm (field_rt r fi) x)) fs)
  | VList _ l =>
      VList r ((fix go (i : N) l := match l with
                | [] => []
                | x :: l' => norm (nested r i) x :: go (i + 1) l'
                end) 0 l)
  | VMap _ es =>
      VMap r (map (fun e : N * val => let '(k, x) := e in (k, norm (nested r k) x)) es)
  end.
