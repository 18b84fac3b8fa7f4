(** Serialization as a program over shared size caches, for several threads at once.

    A [SizeCache] is an [AtomicU32] read and written with [Relaxed] ordering (rt/size_cache.rs 37-51),
    reachable through shared references, so that several threads may serialize one value.  The
    functions of Ser.v are repeated here with every access to a cache as a step of its own;
    [run] executes such a program alone, and ConcProofs.v shows that it then is the function of Ser.v. *)
From Verif Require Import Base Varint WireFmt Types Ser.

Inductive prog (A : Type) :=
| PRet (r : res A)
| PGet (a : addr) (k : N -> prog A)
| PSet (a : addr) (n : N) (p : prog A).
Arguments PRet {A}. Arguments PGet {A}. Arguments PSet {A}.

Fixpoint pbind {A B} (p : prog A) (f : A -> prog B) : prog B :=
  match p with
  | PRet (Ok x) => f x
  | PRet (Err e) => PRet (Err e)
  | PRet Panic => PRet Panic
  | PRet NoFuel => PRet NoFuel
  | PGet a k => PGet a (fun n => pbind (k n) f)
  | PSet a n p => PSet a n (pbind p f)
  end.
Notation "'run' x <- a ; b" := (pbind a (fun x => b))
  (at level 200, x pattern, a at level 100, b at level 200, right associativity).
Fixpoint punwrap {A} (p : prog A) : prog A :=
  match p with
  | PRet r => PRet (unwrap r)
  | PGet a k => PGet a (fun n => punwrap (k n))
  | PSet a n p => PSet a n (punwrap p)
  end.

(** size_cache.rs 37-51. *)
Definition pget (a : addr) : prog N := PGet a (fun n => PRet (Ok n)).
Definition pset (a : addr) (n : N) : prog unit := PSet a n (PRet (Ok tt)).

(** Executed alone on a store. *)
Fixpoint exec {A} (p : prog A) (h : store) : res (A * store) :=
  match p with
  | PRet r => do x <- r; Ok (x, h)
  | PGet a k => exec (k (h a)) h
  | PSet a n p => exec p (upd h a n)
  end.

(** ser.rs 43-65. *)
Definition size_nestedP (m : mode) (fn : option N) (om : bool) (a : addr) (v : val) (computed : prog N) : prog N :=
  run size <- computed;
  run _ <- (if has_cache v then pset a size else PRet (Ok tt));
  if is_some fn && om && omissible v size then PRet (Ok 0)
  else
    run size <- PRet match vwty v with
                     | Varint => Ok size
                     | Sized => add32 m size (uv_size 32 size)
                     end;
    match fn with
    | None => PRet (Ok size)
    | Some fn => PRet (do t <- mk_tag fn (vwty v); add32 m size (uv_size 32 t))
    end.

(** [compute_size], as cited at [compute] in Ser.v. *)
Fixpoint computeP (m : mode) (a : addr) (v : val) {struct v} : prog N :=
  let items := fix items (i : nat) (acc : N) (l : list val) : prog N :=
    match l with
    | [] => PRet (Ok acc)
    | x :: l' =>
        run n <- punwrap (size_nestedP m None false (i :: a) x (computeP m (i :: a) x));
        run acc <- PRet (add32 m acc n);
        items (S i) acc l'
    end in
  let fields := fix fields (i : nat) (acc : N) (l : list (finfo * val)) : prog N :=
    match l with
    | [] => PRet (Ok acc)
    | (fi, x) :: l' =>
        run n <- punwrap (size_nestedP m (Some (f_tag fi)) true (i :: a) x (computeP m (i :: a) x));
        run acc <- PRet (add32 m acc n);
        fields (S i) acc l'
    end in
  match v with
  | VInt k z => PRet (Ok (int_size k z))
  | VBool _ => PRet (Ok 1)
  | VStr s | VBytes s => PRet (Ok (lenN s mod 2 ^ 32))
  | VOpt None => PRet (Ok 0)
  | VOpt (Some x) => punwrap (size_nestedP m None false (O :: a) x (computeP m (O :: a) x))
  | VVec l | VArr l | VTup l => items O 0 l
  | VHash l =>
      (fix go (i : nat) (acc : N) (l : list (val * val)) : prog N :=
       match l with
       | [] => PRet (Ok acc)
       | (k, x) :: l' =>
           run n <- punwrap (size_nestedP m None false (i :: a) k (computeP m (i :: a) k));
           run acc <- PRet (add32 m acc n);
           run n <- punwrap (size_nestedP m None false (S i :: a) x (computeP m (S i :: a) x));
           run acc <- PRet (add32 m acc n);
           go (S (S i)) acc l'
       end) O 0 l
  | VBox x => computeP m a x
  | VStruct _ _ fs => fields O 0 fs
  | VEnum tag _ _ fs =>
      run acc <- PRet (add32 m 0 (uv_size 32 tag));
      fields O acc fs
  | VList _ l => items O 0 l
  | VMap _ es =>
      (fix go (i : nat) (acc : N) (l : list (N * val)) : prog N :=
       match l with
       | [] => PRet (Ok acc)
       | (k, x) :: l' =>
           run n <- punwrap (size_nestedP m (Some k) false (i :: a) x (computeP m (i :: a) x));
           run acc <- PRet (add32 m acc n);
           go (S i) acc l'
       end) O 0 es
  end.

(** ser.rs 14-22, 24-29. *)
Definition cache_sizeP (m : mode) (a : addr) (v : val) : prog N :=
  run n <- computeP m a v;
  run _ <- (if has_cache v then pset a n else PRet (Ok tt));
  PRet (Ok n).
Definition cached_sizeP (m : mode) (a : addr) (v : val) : prog N :=
  if has_cache v then pget a else computeP m a v.

(** [is_omissible(None)]: ser.rs 36-41, macros.rs 32-34. *)
Definition omissible_cachedP (m : mode) (a : addr) (v : val) : prog bool :=
  match v with
  | VInt _ _ | VBool _ | VStr _ => PRet (Ok (omissible v 0))
  | _ => run n <- cached_sizeP m a v; PRet (Ok (n =? 0))
  end.

(** ser.rs 67-89. *)
Definition ser_nestedP (m : mode) (fn : option N) (om : bool) (a : addr) (v : val) (ser : prog bytes) : prog bytes :=
  run omit <- (if is_some fn && om then omissible_cachedP m a v else PRet (Ok false));
  if omit : bool then PRet (Ok [])
  else
    run tagb <- PRet match fn with
                     | None => Ok []
                     | Some fn => do t <- mk_tag fn (vwty v); uv_serialize 32 t
                     end;
    run sizeb <- match vwty v with
                 | Varint => PRet (Ok [])
                 | Sized => run n <- cached_sizeP m a v; PRet (uv_serialize 32 n)
                 end;
    run body <- ser;
    PRet (Ok (tagb ++ sizeb ++ body)).

(** [serialize_cached], as cited at [ser_cached] in Ser.v. *)
Fixpoint ser_cachedP (m : mode) (a : addr) (v : val) {struct v} : prog bytes :=
  let items := fix items (i : nat) (l : list val) : prog bytes :=
    match l with
    | [] => PRet (Ok [])
    | x :: l' =>
        run b <- ser_nestedP m None false (i :: a) x (ser_cachedP m (i :: a) x);
        run bs <- items (S i) l';
        PRet (Ok (b ++ bs))
    end in
  let fields := fix fields (i : nat) (l : list (finfo * val)) : prog bytes :=
    match l with
    | [] => PRet (Ok [])
    | (fi, x) :: l' =>
        run b <- ser_nestedP m (Some (f_tag fi)) true (i :: a) x (ser_cachedP m (i :: a) x);
        run bs <- fields (S i) l';
        PRet (Ok (b ++ bs))
    end in
  match v with
  | VInt k z => PRet (int_serialize k z)
  | VBool b => PRet (Ok (bool_serialize b))
  | VStr s | VBytes s => PRet (Ok s)
  | VOpt None => PRet (Ok [])
  | VOpt (Some x) => ser_nestedP m None false (O :: a) x (ser_cachedP m (O :: a) x)
  | VVec l | VArr l | VTup l => items O l
  | VHash l =>
      (fix go (i : nat) (l : list (val * val)) : prog bytes :=
       match l with
       | [] => PRet (Ok [])
       | (k, x) :: l' =>
           run b1 <- ser_nestedP m None false (i :: a) k (ser_cachedP m (i :: a) k);
           run b2 <- ser_nestedP m None false (S i :: a) x (ser_cachedP m (S i :: a) x);
           run bs <- go (S (S i)) l';
           PRet (Ok (b1 ++ b2 ++ bs))
       end) O l
  | VBox x => ser_cachedP m a x
  | VStruct _ _ fs => fields O fs
  | VEnum tag _ _ fs =>
      run t <- PRet (uv_serialize 32 tag);
      run bs <- fields O fs;
      PRet (Ok (t ++ bs))
  | VList _ l => items O l
  | VMap _ es =>
      (fix go (i : nat) (l : list (N * val)) : prog bytes :=
       match l with
       | [] => PRet (Ok [])
       | (k, x) :: l' =>
           run b <- ser_nestedP m (Some k) false (i :: a) x (ser_cachedP m (i :: a) x);
           run bs <- go (S i) l';
           PRet (Ok (b ++ bs))
       end) O es
  end.

(** ser.rs 31-34, of the node at address [a]. *)
Definition steit_serializeP (m : mode) (a : addr) (v : val) : prog bytes :=
  run _ <- cache_sizeP m a v;
  ser_cachedP m a v.

(** ** Several threads *)

(** What a thread does to the caches. *)
Inductive cev := CRead (a : addr) (n : N) | CWrite (a : addr) (n : N).

(** A thread's accesses so far, with the values its reads returned, and what is left of its program. *)
Inductive trace {A} : prog A -> list cev -> prog A -> Prop :=
| TNil p : trace p [] p
| TRead a k n tr q : trace (k n) tr q -> trace (PGet a k) (CRead a n :: tr) q
| TWrite a n p tr q : trace p tr q -> trace (PSet a n p) (CWrite a n :: tr) q.

(** Atomics on one location are coherent, also with [Relaxed] ordering: a read returns a value some
    thread writes there, or the initial one unless the reading thread has itself written there
    before.  This leaves open everything else, in particular which writes are seen in what order,
    and whether a read may return a write that comes later. *)
Definition coherent (h : store) (trs : list (list cev)) : Prop :=
  forall tr before a n after, In tr trs -> tr = before ++ CRead a n :: after ->
    (exists tr', In tr' trs /\ In (CWrite a n) tr') \/
    (n = h a /\ forall n', ~ In (CWrite a n') before).

(** The same with one store and threads that take turns. *)
Inductive step {A} : store -> list (prog A) -> store -> list (prog A) -> Prop :=
| StRead h ps a k qs : step h (ps ++ PGet a k :: qs) h (ps ++ k (h a) :: qs)
| StWrite h ps a n p qs : step h (ps ++ PSet a n p :: qs) (upd h a n) (ps ++ p :: qs).
(** [k] such accesses. *)
Inductive steps {A} : nat -> store -> list (prog A) -> store -> list (prog A) -> Prop :=
| StsNil h ps : steps O h ps h ps
| StsCons k h ps h1 ps1 h2 ps2 : step h ps h1 ps1 -> steps k h1 ps1 h2 ps2 -> steps (S k) h ps h2 ps2.
