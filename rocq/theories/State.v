(** Model of the state tree: steit/src/state.rs, the [State] impls (impls/macros.rs 40-92,
    impls/box.rs 37-59, types/list.rs, types/map/map.rs, and the code generated by
    steit-derive/src/derive/{struct,enum,field}.rs), the List and Map operations, the
    generated setters, and replay.

    Simplification: lists have fewer than 2^32 items (the code casts lengths and indexes to
    [u32]); loggers are [BufferLogger]s, which never fail. *)
From Verif Require Import Base Varint WireFmt Utf8 Types Ser De Log.

(** ** Runtimes of nodes *)

(** [State::runtime]: struct.rs 457-459, enum.rs 407-409, list.rs 197-199, map.rs 209-211,
    box.rs 42-44; panics on integers and booleans (macros.rs 47-49). *)
Fixpoint val_rt (v : val) : res rt :=
  match v with
  | VStruct _ (Some r) _ | VEnum _ _ (Some r) _ | VList r _ | VMap r _ => Ok r
  | VBox x => val_rt x
  | VInt _ _ | VBool _ => Panic
  | _ => NoFuel
  end.

(** [State::set_runtime]: macros.rs 51, box.rs 46-48, struct.rs 386-403 and 461-463 with
    field.rs 382-390, enum.rs 370-375 and 411-413, list.rs 201-207, map.rs 213-219.
    Fields that are not part of the state keep theirs.  Identity on types that do not
    implement State, where it is never called. *)
Fixpoint set_rt (r : rt) (v : val) {struct v} : val :=
  let fields := fun (r : rt) =>
    map (fun p : finfo * val => let '(fi, x) := p in
           (fi, if f_state fi then set_rt (nested r (f_tag fi)) x else x)) in
  match v with
  | VBox x => VBox (set_rt r x)
  | VStruct c (Some _) fs => VStruct c (Some r) (fields r fs)
  | VEnum tag c (Some _) fs => let r := nested r tag in VEnum tag c (Some r) (fields r fs)
  | VList _ l =>
      VList r ((fix go (i : N) l := match l with
                | [] => []
                | x :: l' => set_rt (nested r i) x :: go (i + 1) l'
                end) 0 l)
  | VMap _ es =>
      VMap r (map (fun e : N * val => let '(k, x) := e in (k, set_rt (nested r k) x)) es)
  | _ => v
  end.

(** [State::is_root]: state.rs 24-26; for enums enum.rs 415-417. *)
Definition is_root (v : val) : res bool :=
  match v with
  | VEnum _ _ (Some r) _ => do p <- rt_parent r; Ok (rt_is_root p)
  | _ => do r <- val_rt v; Ok (rt_is_root r)
  end.

(** ** Applying one log entry *)

Definition ok_unit (p : val * res bytes) : val * res unit :=
  let '(v, r) := p in (v, do _ <- r; Ok tt).

(** state.rs 32-35; enum.rs 419-422; for primitives macros.rs 53-59 (assigned only on
    success).  [bs] is the payload; what is left of it is ignored (state.rs 51-53). *)
Definition handle_update (m : mode) (t : ty) (bs : bytes) (v : val) : val * res unit :=
  match v with
  | VInt _ _ | VBool _ =>
      match deserialize m t bs with
      | Ok (x, _) => (x, Ok tt)
      | Err e => (v, Err e) | Panic => (v, Panic) | NoFuel => (v, NoFuel)
      end
  | VEnum _ _ (Some r) _ =>
      match rt_parent r with
      | Ok p => ok_unit (merge m t (dflt t p) bs)
      | Err e => (v, Err e) | Panic => (v, Panic) | NoFuel => (v, NoFuel)
      end
  | _ =>
      match val_rt v with
      | Ok r => ok_unit (merge m t (dflt t r) bs)
      | Err e => (v, Err e) | Panic => (v, Panic) | NoFuel => (v, NoFuel)
      end
  end.

Definition handler := list N -> ekind -> option N -> bytes -> val -> val * res unit.

Fixpoint find_field {A} (fn : N) (fs : list (finfo * A)) : option (finfo * A) :=
  match fs with
  | [] => None
  | (fi, x) :: fs' => if fn =? f_tag fi then Some (fi, x) else find_field fn fs'
  end.
Fixpoint put_field (fn : N) (x : val) (fs : list (finfo * val)) : list (finfo * val) :=
  match fs with
  | [] => []
  | (fi, y) :: fs' => if fn =? f_tag fi then (fi, x) :: fs' else (fi, y) :: put_field fn x fs'
  end.
Fixpoint set_nth {A} (l : list A) (i : nat) (x : A) : list A :=
  match l, i with
  | [], _ => []
  | _ :: l', O => x :: l'
  | y :: l', S i' => y :: set_nth l' i' x
  end.

(** struct.rs 405-441 with field.rs 392-401, for structs and variants: the field with this
    tag; fields outside the state silently ignore the entry. *)
Definition handle_field (hs : list (finfo * handler)) (fs : list (finfo * val)) (fn : N)
    (path : list N) (kind : ekind) (key : option N) (bs : bytes) : list (finfo * val) * res unit :=
  match find_field fn hs with
  | None => (fs, Err InvalidData)
  | Some (fi, hd) =>
      if f_state fi then
        match find_field fn fs with
        | Some (_, x) => let '(x', o) := hd path kind key bs x in (put_field fn x' fs, o)
        | None => (fs, NoFuel)
        end
      else (fs, Ok tt)
  end.

(** [Vec::swap_remove] for an index in range. *)
Definition swap_remove_at {A} (l : list A) (i : nat) : list A :=
  match rev l with
  | [] => []
  | z :: _ =>
      if Nat.eqb (S i) (length l) then removelast l
      else firstn i l ++ z :: skipn (S i) (removelast l)
  end.

Fixpoint key_pos {A} (k : N) (l : list (N * A)) : option nat :=
  match l with
  | [] => None
  | (k', _) :: l' => if k =? k' then Some O else match key_pos k l' with Some i => Some (S i) | None => None end
  end.

(** [IndexMap::remove] (indexmap 1.3: [swap_remove]). *)
Definition im_remove {A} (k : N) (l : list (N * A)) : list (N * A) :=
  match key_pos k l with Some i => swap_remove_at l i | None => l end.

(** [State::handle]: macros.rs 61-89, box.rs 50-58, struct.rs 421-441, enum.rs 378-449,
    list.rs 209-258, map.rs 221-271. *)
Fixpoint handle (m : mode) (t : ty) {struct t} : handler :=
  let hfields := map (fun p : finfo * ty => let '(fi, t) := p in (fi, handle m t)) in
  fun path kind key bs v =>
  match t, v with
  | TInt _, VInt _ _ | TBool, VBool _ =>
      match path, kind with
      | [], KUpdate => handle_update m t bs v
      | _, _ => (v, Err InvalidData)
      end
  | TBox t, VBox x => let '(x', o) := handle m t path kind key bs x in (VBox x', o)
  | TStruct _ fts, VStruct c (Some r) fs =>
      match path, kind with
      | fn :: path', _ =>
          let '(fs', o) := handle_field (hfields fts) fs fn path' kind key bs in
          (VStruct c (Some r) fs', o)
      | [], KUpdate => handle_update m t bs v
      | [], _ => (v, Err InvalidData)
      end
  | TEnum _ vs, VEnum tag c (Some r) fs =>
      match path, kind with
      | tag' :: path', _ =>
          match assoc tag' (map (fun va : (N * bool) * list (finfo * ty) => (fst (fst va), hfields (snd va))) vs) with
          | None => (v, Err InvalidData)                 (* unexpected variant tag *)
          | Some hs =>
              if tag =? tag' then
                match path' with
                | fn :: path'' =>
                    let '(fs', o) := handle_field hs fs fn path'' kind key bs in
                    (VEnum tag c (Some r) fs', o)
                | [] => (v, Err InvalidData)             (* not on variants *)
                end
              else (v, Err InvalidData)                  (* another variant *)
          end
      | [], KUpdate => handle_update m t bs v
      | [], _ => (v, Err InvalidData)
      end
  | TList t', VList r l =>
      match path, kind with
      | i :: path', _ =>
          match nth_error l (N.to_nat i) with
          | Some x =>
              let '(x', o) := handle m t' path' kind key bs x in (VList r (set_nth l (N.to_nat i) x'), o)
          | None => (v, Err InvalidData)
          end
      | [], KUpdate => handle_update m t bs v
      | [], KListPush =>
          match merge m t' (dflt t' (nested r (lenN l))) bs with
          | (x, Ok _) => (VList r (l ++ [x]), Ok tt)
          | (_, Err e) => (v, Err e) | (_, Panic) => (v, Panic) | (_, NoFuel) => (v, NoFuel)
          end
      | [], KListPop =>
          match l with [] => (v, Err InvalidData) | _ => (VList r (removelast l), Ok tt) end
      | [], KMapRemove => (v, Err InvalidData)
      end
  | TMap _ t', VMap r es =>
      match path, kind with
      | k :: path', _ =>
          match assoc k es with
          | Some x =>
              let '(x', o) := handle m t' path' kind key bs x in (VMap r (im_insert k x' es), o)
          | None =>
              match kind, path' with
              | KUpdate, [] =>
                  match merge m t' (dflt t' (nested r k)) bs with
                  | (x, Ok _) => (VMap r (im_insert k x es), Ok tt)
                  | (_, Err e) => (v, Err e) | (_, Panic) => (v, Panic) | (_, NoFuel) => (v, NoFuel)
                  end
              | _, _ => (v, Err InvalidData)
              end
          end
      | [], KUpdate => handle_update m t bs v
      | [], KMapRemove =>
          match key with
          | Some k => match assoc k es with
                      | Some _ => (VMap r (im_remove k es), Ok tt)
                      | None => (v, Err InvalidData)
                      end
          | None => (v, Err InvalidData)
          end
      | [], _ => (v, Err InvalidData)
      end
  | _, _ => (v, NoFuel)
  end.

Definition hfields (m : mode) (fts : list (finfo * ty)) : list (finfo * handler) :=
  map (fun p : finfo * ty => let '(fi, t) := p in (fi, handle m t)) fts.

(** state.rs 48-53. *)
Definition handle_entry (m : mode) (t : ty) (e : entry) (v : val) : val * res unit :=
  handle m t (entry_path e) (entry_kind e) (entry_key e) (entry_bytes e) v.

(** state.rs 45-54. *)
Definition replay_step (m : mode) (t : ty) (v : val) (bs : bytes) : val * res bytes :=
  try v (read_entry m bs) (fun '(e, rest) =>
    let '(v', o) := handle_entry m t e v in (v', do _ <- o; Ok rest)).

(** state.rs 37-57. *)
Definition replay (m : mode) (t : ty) (v : val) (bs : bytes) : val * res unit :=
  match is_root v with
  | Ok true => ok_unit (run (replay_step m t) v bs)
  | Ok false => (v, Err InvalidInput)
  | Err e => (v, Err e) | Panic => (v, Panic) | NoFuel => (v, NoFuel)
  end.

(** ** What operations do to loggers *)

(** One call on the logger with this number. *)
Inductive lev := LLog (lg : N) (e : entry) | LPause (lg : N) | LUnpause (lg : N).

(** A computation that calls loggers and ends in some outcome. *)
Definition M (A : Type) := (list lev * res A)%type.
Definition mret {A} (a : A) : M A := ([], Ok a).
Definition mlift {A} (r : res A) : M A := ([], r).
Definition mbind {A B} (x : M A) (f : A -> M B) : M B :=
  match x with
  | (ev, Ok a) => let '(ev', r) := f a in (ev ++ ev', r)
  | (ev, Err e) => (ev, Err e) | (ev, Panic) => (ev, Panic) | (ev, NoFuel) => (ev, NoFuel)
  end.
(** The same inside a method on [&mut self], whose value is [v] if it stops here. *)
Definition mtry {A B} (v : val) (x : M A) (k : A -> val * M B) : val * M B :=
  match x with
  | (ev, Ok a) => let '(v', (ev', r)) := k a in (v', (ev ++ ev', r))
  | (ev, Err e) => (v, (ev, Err e)) | (ev, Panic) => (v, (ev, Panic)) | (ev, NoFuel) => (v, (ev, NoFuel))
  end.

(** runtime.rs 121-147 with entry.rs 51-80: build an entry, [Bytes::from_value] included
    (bytes.rs 24-28, the same as [to_bytes]); [h] are the numbers in the value's size caches
    at that moment. *)
Definition entry_update (m : mode) (r : rt) (x : val) (h : store) : res entry :=
  do b <- to_bytes m x h; Ok (EUpdate (collect_values (rt_path r)) b).
Definition entry_update_child (m : mode) (r : rt) (fn : N) (x : val) (h : store) : res entry :=
  entry_update m (nested r fn) x h.
Definition entry_list_push (m : mode) (r : rt) (x : val) (h : store) : res entry :=
  do b <- to_bytes m x h; Ok (EListPush (collect_values (rt_path r)) b).
Definition entry_list_pop (r : rt) : entry := EListPop (collect_values (rt_path r)).
Definition entry_map_remove (r : rt) (k : N) : entry := EMapRemove (collect_values (rt_path r)) k.

(** runtime.rs 121-127. *)
Definition rt_log_entry (r : rt) (e : res entry) : M unit :=
  mbind (mlift e) (fun e => ([LLog (rt_log r) e], Ok tt)).
Definition rt_pause (r : rt) : M unit := ([LPause (rt_log r)], Ok tt).
Definition rt_unpause (r : rt) : M unit := ([LUnpause (rt_log r)], Ok tt).

(** A callback [FnOnce(Runtime) -> T]: may use the loggers and may panic. *)
Definition callback := rt -> M val.

(** ** Operations *)

(** What an operation returns. *)
Inductive oret := RSelf | RIndex (i : N) | ROpt (o : option val).

Inductive op :=
| OSet (fn : N) (x : val)                       (* struct: set_<field> *)
| OSetWith (fn : N) (f : callback)              (* struct: set_<field>_with *)
| OVSet (tag fn : N) (x : val)                  (* enum: set_<variant>_<field> *)
| OVSetWith (tag fn : N) (f : callback)
| OPush (x : val) | OPushWith (f : callback) | OPop | OSwapRemove (i : N)
| OInsert (k : N) (x : val) | OInsertWith (k : N) (f : callback) | ORemove (k : N).

(** pause; get_value(runtime.nested(tag)); unpause - field.rs 312-314, list.rs 63-65, map.rs 69-71. *)
Definition call_paused (r : rt) (fn : N) (f : callback) : M val :=
  mbind (rt_pause r) (fun _ => mbind (f (nested r fn)) (fun x => mbind (rt_unpause r) (fun _ => mret x))).

(** field.rs 293-332 without the variant part: [rb] rebuilds the node around its fields. *)
Definition set_field (m : mode) (h : store) (r : rt) (fs : list (finfo * val)) (rb : list (finfo * val) -> val)
    (fn : N) (get : M val) : val * M oret :=
  match find_field fn fs with
  | Some (fi, _) =>
      mtry (rb fs) get (fun x =>
        if f_state fi then
          mtry (rb fs) (rt_log_entry r (entry_update_child m r fn x h)) (fun _ =>
            (rb (put_field fn x fs), mret RSelf))
        else (rb (put_field fn x fs), mret RSelf))
  | None => (rb fs, mlift NoFuel)
  end.

(** The value a setter is called with: [value.set_runtime(runtime.nested(tag))] for state
    fields (field.rs 302), as it is otherwise (field.rs 324). *)
Definition set_value (r : rt) (fs : list (finfo * val)) (fn : N) (x : val) : M val :=
  match find_field fn fs with
  | Some (fi, _) => mret (if f_state fi then set_rt (nested r fn) x else x)
  | None => mlift NoFuel
  end.

(** The value a [set_..._with] setter gets from its callback (field.rs 312-314); there is no
    such setter for fields outside the state (field.rs 319-331). *)
Definition set_value_with (r : rt) (fs : list (finfo * val)) (fn : N) (f : callback) : M val :=
  match find_field fn fs with
  | Some (fi, _) => if f_state fi then call_paused r fn f else mlift NoFuel
  | None => mlift NoFuel
  end.

(** The variant part of a setter: field.rs 258-291.  Switches variant first if needed, and
    logs that. *)
Definition reset_variant (m : mode) (h : store) (t : ty) (tag' : N) (v : val) : val * M unit :=
  match t, v with
  | TEnum st vs, VEnum tag c (Some r) fs =>
      if tag =? tag' then (v, mret tt)
      else match find_variant vs tag' with
           | Some va =>
               mtry v (mlift (rt_parent r)) (fun p =>
               let v' := variant_ctor st va p in
               mtry v (rt_log_entry p (entry_update m p v' h)) (fun _ => (v', mret tt)))
           | None => (v, mlift NoFuel)
           end
  | _, _ => (v, mlift NoFuel)
  end.

Definition mthen {B} (x : val * M unit) (k : val -> val * M B) : val * M B :=
  let '(v, o) := x in mtry v o (fun _ => k v).

(** list.rs 60-71. *)
Definition list_push_with (m : mode) (h : store) (r : rt) (l : list val) (f : callback) : val * M oret :=
  let v := VList r l in
  mtry v (call_paused r (lenN l) f) (fun x =>
  mtry v (rt_log_entry r (entry_list_push m r x h)) (fun _ =>
  (VList r (l ++ [x]), mret (RIndex (lenN l))))).

(** list.rs 73-80. *)
Definition list_pop (r : rt) (l : list val) : val * M oret :=
  match rev l with
  | [] => (VList r l, mret (ROpt None))
  | z :: _ =>
      mtry (VList r l) (rt_log_entry r (Ok (entry_list_pop r))) (fun _ =>
      (VList r (removelast l), mret (ROpt (Some z))))
  end.

(** list.rs 82-111. *)
Definition list_swap_remove (m : mode) (h : store) (r : rt) (l : list val) (i : N) : val * M oret :=
  let v := VList r l in
  if lenN l <=? i then (v, mret (ROpt None))
  else if i =? lenN l - 1 then list_pop r l
  else match nth_error l (N.to_nat i), rev l with
       | Some removed, z :: _ =>
           mtry v (mbind (mlift (entry_update_child m r i z h)) (fun e2 =>
                   ([LLog (rt_log r) (entry_list_pop r); LLog (rt_log r) e2], Ok tt))) (fun _ =>
           let l' := swap_remove_at l (N.to_nat i) in
           match vwty z with
           | Varint => (VList r l', mret (ROpt (Some removed)))
           | Sized =>
               mtry (VList r l') (mlift (do rr <- val_rt removed; rt_sibling rr i)) (fun rt' =>
               (VList r (set_nth l' (N.to_nat i) (set_rt rt' z)), mret (ROpt (Some removed))))
           end)
       | _, _ => (v, mlift NoFuel)
       end.

(** map.rs 61-65. *)
Definition map_insert (m : mode) (h : store) (r : rt) (es : list (N * val)) (k : N) (x : val) : val * M oret :=
  mtry (VMap r es) (rt_log_entry r (entry_update_child m r k x h)) (fun _ =>
  (VMap r (im_insert k x es), mret (ROpt (assoc k es)))).

(** map.rs 67-73. *)
Definition map_insert_with (m : mode) (h : store) (r : rt) (es : list (N * val)) (k : N) (f : callback) : val * M oret :=
  mtry (VMap r es) (call_paused r k f) (fun x => map_insert m h r es k x).

(** map.rs 75-79. *)
Definition map_remove (r : rt) (es : list (N * val)) (k : N) : val * M oret :=
  mtry (VMap r es) (rt_log_entry r (Ok (entry_map_remove r k))) (fun _ =>
  (VMap r (im_remove k es), mret (ROpt (assoc k es)))).

(** An operation on a node [v] of type [t]; calls that Rust would not compile give [NoFuel].
    [h] are the numbers in the size caches of what gets serialized. *)
Definition apply_op (m : mode) (h : store) (t : ty) (o : op) (v : val) : val * M oret :=
  match o, v with
  | OSet fn x, VStruct c (Some r) fs =>
      set_field m h r fs (VStruct c (Some r)) fn (set_value r fs fn x)
  | OSetWith fn f, VStruct c (Some r) fs =>
      set_field m h r fs (VStruct c (Some r)) fn (set_value_with r fs fn f)
  | OVSet tag fn x, VEnum _ _ (Some _) _ =>
      mthen (reset_variant m h t tag v) (fun v' =>
        match v' with
        | VEnum tag' c' (Some r') fs' =>
            set_field m h r' fs' (VEnum tag' c' (Some r')) fn (set_value r' fs' fn x)
        | _ => (v', mlift NoFuel)
        end)
  | OVSetWith tag fn f, VEnum _ _ (Some _) _ =>
      mthen (reset_variant m h t tag v) (fun v' =>
        match v' with
        | VEnum tag' c' (Some r') fs' =>
            set_field m h r' fs' (VEnum tag' c' (Some r')) fn (set_value_with r' fs' fn f)
        | _ => (v', mlift NoFuel)
        end)
  | OPush x, VList r l => list_push_with m h r l (fun r => mret (set_rt r x))   (* list.rs 53-58 *)
  | OPushWith f, VList r l => list_push_with m h r l f
  | OPop, VList r l => list_pop r l
  | OSwapRemove i, VList r l => list_swap_remove m h r l i
  | OInsert k x, VMap r es => map_insert m h r es k x
  | OInsertWith k f, VMap r es => map_insert_with m h r es k f
  | ORemove k, VMap r es => map_remove r es k
  | _, _ => (v, mlift NoFuel)
  end.

(** ** Reaching a node *)

(** Field access (by tag; for an enum, of the current variant), [get_mut] of List and Map,
    dereferencing a box. *)
Inductive step := SField (fn : N) | SItem (i : N) | SKey (k : N) | SBox.

Definition field_child (fn : N) (fts : list (finfo * ty)) (fs : list (finfo * val)) : option (ty * val) :=
  match find_field fn fts, find_field fn fs with
  | Some (_, t), Some (_, x) => Some (t, x)
  | _, _ => None
  end.
Definition child (t : ty) (v : val) (s : step) : option (ty * val) :=
  match s, t, v with
  | SField fn, TStruct _ fts, VStruct _ _ fs => field_child fn fts fs
  | SField fn, TEnum _ vs, VEnum tag _ _ fs =>
      match find_variant vs tag with Some va => field_child fn (snd va) fs | None => None end
  | SItem i, TList t', VList _ l =>
      match nth_error l (N.to_nat i) with Some x => Some (t', x) | None => None end
  | SKey k, TMap _ t', VMap _ es =>
      match assoc k es with Some x => Some (t', x) | None => None end
  | SBox, TBox t', VBox x => Some (t', x)
  | _, _, _ => None
  end.
Definition put_child (v : val) (s : step) (x : val) : val :=
  match s, v with
  | SField fn, VStruct c r fs => VStruct c r (put_field fn x fs)
  | SField fn, VEnum tag c r fs => VEnum tag c r (put_field fn x fs)
  | SItem i, VList r l => VList r (set_nth l (N.to_nat i) x)
  | SKey k, VMap r es => VMap r (im_insert k x es)
  | SBox, VBox _ => VBox x
  | _, _ => v
  end.

(** Runs [f] on the node at the end of [steps]; [None] if there is no such node. *)
Fixpoint at_node {B} (steps : list step) (f : ty -> val -> val * B) (t : ty) (v : val) : option (val * B) :=
  match steps with
  | [] => Some (f t v)
  | s :: steps' =>
      match child t v s with
      | Some (t', x) =>
          match at_node steps' f t' x with
          | Some (x', b) => Some (put_child v s x', b)
          | None => None
          end
      | None => None
      end
  end.

(** A call somewhere in a tree: where, the size caches at that moment, what. *)
Record call := mkCall { c_at : list step; c_caches : store; c_op : op }.

(** A sequence of calls on one tree, up to the first panic. *)
Fixpoint exec (m : mode) (t : ty) (v : val) (cs : list call) : val * M (list oret) :=
  match cs with
  | [] => (v, mret [])
  | c :: cs' =>
      match at_node (c_at c) (fun t x => apply_op m (c_caches c) t (c_op c) x) t v with
      | Some (v', o) =>
          mtry v' o (fun x => let '(v'', o') := exec m t v' cs' in (v'', mbind o' (fun xs => mret (x :: xs))))
      | None => (v, mlift NoFuel)
      end
  end.

(** ** What a logger makes of it: the [RuntimeLogger] around a [BufferLogger] with number [lg]. *)
Definition feed (m : mode) (lg : N) (L : rlogger buffer) (ev : lev) : res (rlogger buffer) :=
  match ev with
  | LLog l e => if l =? lg then let '(L', r) := rl_log buf_log L e in do _ <- r; Ok L' else Ok L
  | LPause l => if l =? lg then do (_, L') <- rl_pause m L; Ok L' else Ok L
  | LUnpause l => if l =? lg then Ok (snd (rl_unpause L)) else Ok L
  end.
Fixpoint feeds (m : mode) (lg : N) (L : rlogger buffer) (evs : list lev) : res (rlogger buffer) :=
  match evs with
  | [] => Ok L
  | ev :: evs' => do L' <- feed m lg L ev; feeds m lg L' evs'
  end.
