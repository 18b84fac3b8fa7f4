(** Several threads change parts of one tree.  A [State] may be sent to other threads: its runtimes
    hold the path behind an [Arc] and the logger behind [Arc<Mutex<_>>] (rt/runtime.rs 22-26,
    rt/node.rs 3-6), loggers are [Send] (log/logger.rs 5), size caches are atomic.  A thread works on
    a part it holds [&mut] (a field, or an item from [List::iter_mut], list.rs 113-115, or
    [Map::iter_mut], map.rs 85-87); by Rust's rules no other thread reads or writes that part
    meanwhile.  The only thing the threads share is the logger: each call of [log], [pause_logger] and
    [unpause_logger] takes its lock (runtime.rs 113-127), and calls of different threads come in any
    order.  [log_multi] (list.rs 95-100) holds the lock for both its entries; here other threads may
    come between them as well, which only makes more orders possible.

    So a thread does to its part what [exec] (State.v) says and makes the logger calls [exec] lists,
    in that order; what the log looks like depends on how the calls of the threads are mixed.
    Loggers here take all entries (those that do not: Fail.v). *)
From Verif Require Import Base Varint WireFmt Utf8 Types Ser Spec De Log State StateSpec.

(** A thread: where its part is, and its calls, with places relative to the part. *)
Record thread := mkThread { t_at : list step; t_calls : list call }.

(** Neither part contains the other. *)
Definition apart (a b : list step) : Prop := forall s, a <> b ++ s /\ b <> a ++ s.

(** What all threads leave of the tree [v]: each part as its thread leaves it. *)
Fixpoint leave (m : mode) (t : ty) (v0 : val) (ths : list thread) (v : val) : val :=
  match ths with
  | [] => v
  | th :: ths' =>
      match walk t v0 (t_at th) with
      | Some (t', x, _) => leave m t v0 ths' (put_at t v (t_at th) (fst (exec m t' x (t_calls th))))
      | None => v
      end
  end.

(** The logger calls of a thread. *)
Definition calls_of (m : mode) (t : ty) (v : val) (th : thread) : list lev :=
  match walk t v (t_at th) with
  | Some (t', x, _) => fst (snd (exec m t' x (t_calls th)))
  | None => []
  end.

(** A schedule: logger calls in the order in which they get the lock, each with the number of its
    thread. *)
Definition schedule := list (nat * lev).
Definition of {A} (i : nat) (s : list (nat * A)) : list A := map snd (filter (fun p => Nat.eqb (fst p) i) s).
(** The schedule is a mix of the calls of the threads. *)
Definition mixes (m : mode) (t : ty) (v : val) (ths : list thread) (s : schedule) : Prop :=
  (forall i c, In (i, c) s -> (i < length ths)%nat) /\
  (forall i th, nth_error ths i = Some th -> of i s = calls_of m t v th).

(** Pauses of the logger [lg] that these calls leave open, from [d] on. *)
Definition open1 (lg : N) (d : N) (c : lev) : N :=
  match c with
  | LPause l => if l =? lg then d + 1 else d
  | LUnpause l => if l =? lg then d - 1 else d
  | LLog _ _ => d
  end.
Definition opened (lg : N) (d : N) (evs : list lev) : N := fold_left (open1 lg) evs d.
(** Every unpause ends a pause of the same thread. *)
Definition nests (lg : N) (evs : list lev) : Prop :=
  forall a b, evs = a ++ LUnpause lg :: b -> 0 < opened lg 0 a.
(** The pauses that all of [n] threads have open. *)
Fixpoint total (n : nat) (f : nat -> N) : N := match n with O => 0 | S n' => total n' f + f n' end.
(** No thread logs while another one has the logger paused; fewer than 2^32 pauses at a time. *)
Definition considerate (lg : N) (s : schedule) : Prop :=
  forall a i e b, s = a ++ (i, LLog lg e) :: b -> forall j, j <> i -> opened lg 0 (of j a) = 0.
Definition few (lg : N) (n : nat) (s : schedule) : Prop :=
  forall a b, s = a ++ b -> total n (fun i => opened lg 0 (of i a)) < 2 ^ 32.

(** Operations that do not pause the logger: no callbacks, and no [push] (list.rs 53-58, 60-71). *)
Definition pauses (o : op) : bool :=
  match o with OSetWith _ _ | OVSetWith _ _ _ | OPush _ | OPushWith _ | OInsertWith _ _ => true | _ => false end.
(** A callback that, when it returns, has ended every pause it began, and no other (callbacks that use
    the operations of State.v do). *)
Definition balanced (evs : list lev) : Prop :=
  forall lg, nests lg evs /\ opened lg 0 evs = 0.
Definition cb_balanced (cb : callback) : Prop := forall r evs x, cb r = (evs, Ok x) -> balanced evs.
Definition op_balanced (o : op) : Prop :=
  match o with OSetWith _ cb | OVSetWith _ _ cb | OPushWith cb | OInsertWith _ cb => cb_balanced cb | _ => True end.
