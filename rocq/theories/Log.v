(** Paths, runtimes, loggers and log entries: steit/src/rt/{node,runtime,logger}.rs,
    steit/src/log/entry.rs, steit/src/log/logger.rs, steit/src/log/loggers/*.rs. *)
From Verif Require Import Base Varint WireFmt Utf8 Types Ser De.

(** ** Paths *)

(** node.rs 16-26. *)
Definition node_get_parent (p : node) : option node :=
  match p with Root => None | Child q _ => Some q end.
Definition node_parent (p : node) : res node :=
  match node_get_parent p with Some q => Ok q | None => Panic end.

(** node.rs 28-37. *)
Definition node_get_value (p : node) : option N :=
  match p with Root => None | Child _ n => Some n end.
Definition node_value (p : node) : res N :=
  match node_get_value p with Some n => Ok n | None => Panic end.

(** node.rs 41-55. *)
Fixpoint collect_values_to (p : node) (acc : list N) : list N :=
  match p with
  | Root => acc
  | Child q n => collect_values_to q acc ++ [n]
  end.
Definition collect_values (p : node) : list N := collect_values_to p [].

(** runtime.rs 72-107 ([nested] is in Types.v). *)
Definition rt_parent (r : rt) : res rt := do p <- node_parent (rt_path r); Ok (mkRt (rt_log r) p).
Definition rt_sibling (r : rt) (fn : N) : res rt :=
  do p <- node_parent (rt_path r); Ok (mkRt (rt_log r) (Child p fn)).
Definition rt_is_root (r : rt) : bool := match rt_path r with Root => true | Child _ _ => false end.
Definition rt_is_child (r : rt) : bool := negb (rt_is_root r).
Definition rt_get_field_number (r : rt) : option N := node_get_value (rt_path r).
Definition rt_field_number (r : rt) : res N := node_value (rt_path r).

(** ** Log entries *)

(** entry.rs 21-48. *)
Inductive entry :=
| EUpdate (path : list N) (value : bytes)
| EListPush (path : list N) (item : bytes)
| EListPop (path : list N)
| EMapRemove (path : list N) (key : N).

(** entry.rs 10-16, 82-89. *)
Inductive ekind := KUpdate | KListPush | KListPop | KMapRemove.
Definition entry_kind (e : entry) : ekind :=
  match e with
  | EUpdate _ _ => KUpdate | EListPush _ _ => KListPush
  | EListPop _ => KListPop | EMapRemove _ _ => KMapRemove
  end.

(** The schema the derive macro sees in entry.rs 19-48: an enum that does not derive State,
    with a size cache in each variant. *)
Definition fpl (tag : N) : finfo := mkF tag false true true.
Definition tEntry : ty := TEnum false
  [ ((0, true), [(fpl 0, TVec (TInt U32)); (fpl 1, TBytes)]);
    ((8, true), [(fpl 0, TVec (TInt U32)); (fpl 1, TBytes)]);
    ((9, true), [(fpl 0, TVec (TInt U32))]);
    ((12, true), [(fpl 0, TVec (TInt U32)); (fpl 1, TInt U32)]) ].

Definition vpath (p : list N) : val := VVec (map (fun n => VInt U32 (Z.of_N n)) p).
Definition entry_val (e : entry) : val :=
  match e with
  | EUpdate p b => VEnum 0 true None [(fpl 0, vpath p); (fpl 1, VBytes b)]
  | EListPush p b => VEnum 8 true None [(fpl 0, vpath p); (fpl 1, VBytes b)]
  | EListPop p => VEnum 9 true None [(fpl 0, vpath p)]
  | EMapRemove p k => VEnum 12 true None [(fpl 0, vpath p); (fpl 1, VInt U32 (Z.of_N k))]
  end.

(** Rust's pattern match on a decoded [LogEntry] (state.rs 60-73). *)
Definition path_of (v : val) : list N :=
  match v with
  | VVec l => map (fun x => match x with VInt _ z => Z.to_N z | _ => 0 end) l
  | _ => []
  end.
Definition entry_of_val (v : val) : option entry :=
  match v with
  | VEnum 0 _ _ [(_, p); (_, VBytes b)] => Some (EUpdate (path_of p) b)
  | VEnum 8 _ _ [(_, p); (_, VBytes b)] => Some (EListPush (path_of p) b)
  | VEnum 9 _ _ [(_, p)] => Some (EListPop (path_of p))
  | VEnum 12 _ _ [(_, p); (_, VInt _ k)] => Some (EMapRemove (path_of p) (Z.to_N k))
  | _ => None
  end.

(** [LogEntry::deserialize_nested(LogEntry::WIRE_TYPE, reader)] (state.rs 46).  [NoFuel] is a
    decoded value that is not a [LogEntry], excluded by typing. *)
Definition read_entry (m : mode) (bs : bytes) : res (entry * bytes) :=
  do (v, rest) <- de_nested m (wty tEntry) (merge m tEntry) (dflt tEntry rt_default) bs;
  match entry_of_val v with Some e => Ok (e, rest) | None => NoFuel end.

(** state.rs 60-73: path, kind, key and payload ([unwrap_or_default] of a missing payload). *)
Definition entry_path (e : entry) : list N :=
  match e with EUpdate p _ | EListPush p _ | EListPop p | EMapRemove p _ => p end.
Definition entry_key (e : entry) : option N :=
  match e with EMapRemove _ k => Some k | _ => None end.
Definition entry_bytes (e : entry) : bytes :=
  match e with EUpdate _ b | EListPush _ b => b | _ => [] end.

(** ** Loggers *)

(** A logger behind [dyn Logger]: what it does with an entry (log/logger.rs 5-6). *)
Definition logfn (I : Type) := I -> entry -> I * res unit.

(** log/logger.rs 8-14: stops at the first failure. *)
Fixpoint log_multi {I} (f : logfn I) (i : I) (es : list entry) : I * res unit :=
  match es with
  | [] => (i, Ok tt)
  | e :: es' => match f i e with
                | (i', Ok _) => log_multi f i' es'
                | failed => failed
                end
  end.

(** rt/logger.rs 16-19. *)
Record rlogger (I : Type) := mkRL { rl_inner : I; rl_paused : N }.
Arguments mkRL {I}. Arguments rl_inner {I}. Arguments rl_paused {I}.

(** rt/logger.rs 22-24. *)
Definition rl_new {I} (i : I) : rlogger I := mkRL i 0.

(** rt/logger.rs 31-39. *)
Definition rl_log {I} (f : logfn I) : logfn (rlogger I) := fun l e =>
  if rl_paused l =? 0 then let '(i, r) := f (rl_inner l) e in (mkRL i (rl_paused l), r)
  else (l, Ok tt).

(** rt/logger.rs 42-53. *)
Definition rl_pause {I} (m : mode) (l : rlogger I) : res (N * rlogger I) :=
  do n <- add32 m (rl_paused l) 1; Ok (n, mkRL (rl_inner l) n).
Definition rl_unpause {I} (l : rlogger I) : N * rlogger I :=
  let n := if 0 <? rl_paused l then rl_paused l - 1 else rl_paused l in (n, mkRL (rl_inner l) n).

(** rt/logger.rs 26-28. *)
Definition rl_replace {I} (l : rlogger I) (i : I) : rlogger I := mkRL i (rl_paused l).

(** loggers/buffer.rs 8-11.  Each entry keeps its own size cache (a store, Ser.v). *)
Definition buffer := list (entry * store).
Definition fresh_store : store := fun _ => 0.

(** loggers/buffer.rs 44-48; the entry's [SizeCache::new()] (entry.rs 55) starts at 0. *)
Definition buf_log : logfn buffer := fun b e => (b ++ [(e, fresh_store)], Ok tt).

(** loggers/buffer.rs 18-27.  Serializing changes the entries' size caches. *)
Fixpoint buf_bytes (m : mode) (b : buffer) : res (bytes * buffer) :=
  match b with
  | [] => Ok ([], [])
  | (e, h) :: b' =>
      do (bs, h') <- unwrap (write_nested m (entry_val e) h);
      do (bs', b'') <- buf_bytes m b';
      Ok (bs ++ bs', (e, h') :: b'')
  end.

(** loggers/buffer.rs 29-42. *)
Definition buf_clear (b : buffer) : buffer := [].
Definition buf_pluck (b : buffer) : list entry * buffer := (map fst b, []).
Definition buf_pluck_bytes (m : mode) (b : buffer) : res (bytes * buffer) :=
  do (bs, b') <- buf_bytes m b; Ok (bs, buf_clear b').

(** loggers/noop.rs 14-18, loggers/panic.rs 14-18. *)
Definition noop_log : logfn unit := fun _ _ => (tt, Ok tt).
Definition panic_log : logfn unit := fun _ _ => (tt, Panic).
