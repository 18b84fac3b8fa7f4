(** Serialization to a writer that takes its bytes in pieces, is interrupted, or fails.

    Ser.v writes to a [Vec<u8>].  Here the writer is any [io::Write] (steit/src/ser.rs 10, 31, 71): a file or
    a connection.  Each call of its [write] takes some of the bytes, none, or fails.
    Not part of /repo and modelled from its documentation: [Write::write_all] of std calls [write] with what
    is left until nothing is, again after [ErrorKind::Interrupted], and fails with [ErrorKind::WriteZero]
    when a call takes nothing. *)
From Verif Require Import Base Varint WireFmt Types Ser.

(** What the writer answers: [Takes n] takes [n + 1] bytes over as many calls as they come in, [Pauses] is one
    [Interrupted], [Full] one call that takes nothing, [Breaks n] any other error.  At the end of the list
    everything is taken. *)
Inductive wevent := Takes (n : nat) | Pauses | Full | Breaks (n : N).
Inductive werr := WriteZero | WriteErr (n : N).
Record sink := mkSink { script : list wevent; sent : bytes }.

(** [write] of a non-empty buffer: how many bytes it took, [None] if interrupted. *)
Definition sink_write (buf : bytes) (s : sink) : (werr + option nat) * sink :=
  match script s with
  | [] => (inr (Some (length buf)), mkSink [] (sent s ++ buf))
  | Takes n :: ev =>
      let k := Nat.min (S n) (length buf) in
      (inr (Some k), mkSink (if Nat.ltb k (S n) then Takes (n - k) :: ev else ev) (sent s ++ firstn k buf))
  | Pauses :: ev => (inr None, mkSink ev (sent s))
  | Full :: ev => (inr (Some O), mkSink ev (sent s))
  | Breaks x :: ev => (inl (WriteErr x), mkSink ev (sent s))
  end.

(** As [res], with the errors of the writer apart from those the crate makes. *)
Inductive resW (A : Type) := OkW (a : A) | ErrW (e : errk) | IoW (x : werr) | PanicW | NoFuelW.
Arguments OkW {A} a.
Arguments ErrW {A} e.
Arguments IoW {A} x.
Arguments PanicW {A}.
Arguments NoFuelW {A}.

(** Code that uses size caches and a writer. *)
Definition W (A : Type) := store -> sink -> resW A * store * sink.
Definition retW {A} (x : A) : W A := fun h s => (OkW x, h, s).
Definition bindW {A B} (x : W A) (f : A -> W B) : W B := fun h s =>
  match x h s with
  | (OkW a, h, s) => f a h s
  | (ErrW e, h, s) => (ErrW e, h, s)
  | (IoW e, h, s) => (IoW e, h, s)
  | (PanicW, h, s) => (PanicW, h, s)
  | (NoFuelW, h, s) => (NoFuelW, h, s)
  end.
Notation "'put' x <- a ; b" := (bindW a (fun x => b))
  (at level 200, x pattern, a at level 100, b at level 200, right associativity).
(** Code of Ser.v that writes nothing.  When it fails, [h] stands for caches that nothing is said about. *)
Definition cachesW {A} (f : store -> res (A * store)) : W A := fun h s =>
  match f h with
  | Ok (x, h') => (OkW x, h', s)
  | Err e => (ErrW e, h, s)
  | Panic => (PanicW, h, s)
  | NoFuel => (NoFuelW, h, s)
  end.
Definition pureW {A} (x : res A) : W A := cachesW (fun h => do a <- x; Ok (a, h)).

(** [write_all]. *)
Fixpoint all_loop (fuel : nat) (buf : bytes) (s : sink) : resW unit * sink :=
  match buf, fuel with
  | [], _ => (OkW tt, s)
  | _, O => (NoFuelW, s)
  | _, S fuel => match sink_write buf s with
                 | (inr None, s') => all_loop fuel buf s'
                 | (inr (Some O), s') => (IoW WriteZero, s')
                 | (inr (Some k), s') => all_loop fuel (skipn k buf) s'
                 | (inl x, s') => (IoW x, s')
                 end
  end.
Definition write_all (buf : bytes) : W unit := fun h s =>
  let '(r, s') := all_loop (length buf + length (script s)) buf s in (r, h, s').

(** varint.rs 21-35: one [write_all] for each byte. *)
Fixpoint write_each (bs : bytes) : W unit :=
  match bs with
  | [] => retW tt
  | b :: bs' => put _ <- write_all [b]; write_each bs'
  end.

(** ser.rs 67-89. *)
Definition ser_nestedW (m : mode) (fn : option N) (om : bool) (a : addr) (v : val) (ser : W unit) : W unit :=
  put omit <- if is_some fn && om then cachesW (omissible_cached m a v) else retW false;
  if omit : bool then retW tt
  else
    put _ <- match fn with
             | None => retW tt
             | Some fn => put t <- pureW (mk_tag fn (vwty v));
                          put bs <- pureW (uv_serialize 32 t);
                          write_each bs
             end;
    put _ <- match vwty v with
             | Varint => retW tt
             | Sized => put n <- cachesW (cached_size m a v);
                        put bs <- pureW (uv_serialize 32 n);
                        write_each bs
             end;
    ser.

(** [serialize_cached], as cited at [ser_cached] in Ser.v: strings and byte strings with one [write_all]
    (str.rs 17, string.rs 18, bytes.rs 51), bools too (bool.rs 18), integers byte by byte. *)
Fixpoint ser_cachedW (m : mode) (a : addr) (v : val) {struct v} : W unit :=
  let items := fix items (i : nat) (l : list val) : W unit :=
    match l with
    | [] => retW tt
    | x :: l' =>
        put _ <- ser_nestedW m None false (i :: a) x (ser_cachedW m (i :: a) x);
        items (S i) l'
    end in
  let fields := fix fields (i : nat) (l : list (finfo * val)) : W unit :=
    match l with
    | [] => retW tt
    | (fi, x) :: l' =>
        put _ <- ser_nestedW m (Some (f_tag fi)) true (i :: a) x (ser_cachedW m (i :: a) x);
        fields (S i) l'
    end in
  match v with
  | VInt k z => put bs <- pureW (int_serialize k z); write_each bs
  | VBool b => write_all (bool_serialize b)
  | VStr s | VBytes s => write_all s
  | VOpt None => retW tt
  | VOpt (Some x) => ser_nestedW m None false (O :: a) x (ser_cachedW m (O :: a) x)
  | VVec l | VArr l | VTup l => items O l
  | VHash l =>
      (fix go (i : nat) (l : list (val * val)) : W unit :=
       match l with
       | [] => retW tt
       | (k, x) :: l' =>
           put _ <- ser_nestedW m None false (i :: a) k (ser_cachedW m (i :: a) k);
           put _ <- ser_nestedW m None false (S i :: a) x (ser_cachedW m (S i :: a) x);
           go (S (S i)) l'
       end) O l
  | VBox x => ser_cachedW m a x
  | VStruct _ _ fs => fields O fs
  | VEnum tag _ _ fs =>
      put bs <- pureW (uv_serialize 32 tag);
      put _ <- write_each bs;
      fields O fs
  | VList _ l => items O l
  | VMap _ es =>
      (fix go (i : nat) (l : list (N * val)) : W unit :=
       match l with
       | [] => retW tt
       | (k, x) :: l' =>
           put _ <- ser_nestedW m (Some k) false (i :: a) x (ser_cachedW m (i :: a) x);
           go (S i) l'
       end) O es
  end.

(** ser.rs 31-34. *)
Definition steit_serializeW (m : mode) (v : val) : W unit :=
  put _ <- cachesW (cache_size m [] v);
  ser_cachedW m [] v.

(** [cache_size] and [serialize_nested(None, false, writer)], as loggers/buffer.rs 24-27 does for entries. *)
Definition write_nestedW (m : mode) (v : val) : W unit :=
  put _ <- cachesW (cache_size m [] v);
  ser_nestedW m None false [] v (ser_cachedW m [] v).
