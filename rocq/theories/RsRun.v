(** Running the code of RsGen.v.  Field types behave as their models say (Ser.v, De.v, State.v, Hash.v,
    Types.v); the methods of the type itself are the generated ones.  References are places: there is
    no aliasing in what the borrow checker accepts.  Types, moves and borrows are not checked: code that
    rustc would reject may run, and [Stuck] is code that has no meaning here. *)
From Verif Require Import Base Varint WireFmt Utf8 Types Ser De Hash Log State Meta Gen RsGen.
From Coq Require Import String.
Import String.StringSyntax.
Local Open Scope string_scope.
Local Open Scope list_scope.
Local Open Scope N_scope.

(** A declared field type; what a field of an object holds.  The numbers in size caches are in a
    store (Ser.v). *)
Inductive ctype := TVal (t : ty) | TSize | TRt.
Inductive cell := CVal (t : ty) (v : val) | CSize | CRt (r : rt).
Record obj := Obj { o_variant : option string; o_cells : list (string * cell) }.

Inductive rv :=
| RUnit | RNum (n : N) | RBool (b : bool) | RWire (w : wtype) | RKind (k : ekind) | RKey (k : option N)
| RVal (t : ty) (v : val) | RObj (o : obj) | RRt (r : rt)
| RNew (r : option rt)               (* [State::with_runtime(r)], [Default::default()] of a type yet to be inferred *)
| RCache                             (* [SizeCache::new()] *)
| RSelf | RPlace (x : string)        (* [self]; the field [x] of [self] *)
| RMut (x : string)                  (* the mutable variable [x] *)
| RReader | RWriter | RPath | RHasher (* the one reader, writer, path iterator, hasher around *)
| RFun (t : ty) (f : callback)
| ROpt (o : option rv) | ROk (v : rv) | RErr (e : errk) | RPair (a b : rv).

(** [s_at] is the place of [self] in the store of size caches. *)
Record st := St {
  s_self : option obj; s_at : addr; s_heap : store; s_in : bytes; s_path : list N;
  s_out : bytes; s_hash : list htok; s_log : list lev; s_vars : list (string * rv) }.

Definition set_self (o : option obj) (s : st) : st :=
  St o (s_at s) (s_heap s) (s_in s) (s_path s) (s_out s) (s_hash s) (s_log s) (s_vars s).
Definition set_heap (h : store) (s : st) : st :=
  St (s_self s) (s_at s) h (s_in s) (s_path s) (s_out s) (s_hash s) (s_log s) (s_vars s).
Definition set_in (b : bytes) (s : st) : st :=
  St (s_self s) (s_at s) (s_heap s) b (s_path s) (s_out s) (s_hash s) (s_log s) (s_vars s).
Definition set_path (p : list N) (s : st) : st :=
  St (s_self s) (s_at s) (s_heap s) (s_in s) p (s_out s) (s_hash s) (s_log s) (s_vars s).
Definition put_out (b : bytes) (s : st) : st :=
  St (s_self s) (s_at s) (s_heap s) (s_in s) (s_path s) (s_out s ++ b) (s_hash s) (s_log s) (s_vars s).
Definition put_hash (l : list htok) (s : st) : st :=
  St (s_self s) (s_at s) (s_heap s) (s_in s) (s_path s) (s_out s) (s_hash s ++ l) (s_log s) (s_vars s).
Definition put_log (l : list lev) (s : st) : st :=
  St (s_self s) (s_at s) (s_heap s) (s_in s) (s_path s) (s_out s) (s_hash s) (s_log s ++ l) (s_vars s).
Definition set_vars (vs : list (string * rv)) (s : st) : st :=
  St (s_self s) (s_at s) (s_heap s) (s_in s) (s_path s) (s_out s) (s_hash s) (s_log s) vs.

(** Goes on, returns from the function, panics, makes no sense. *)
Inductive ctl (A : Type) := Go (a : A) | Ret (v : rv) | Boom | Stuck.
Arguments Go {A}. Arguments Ret {A}. Arguments Boom {A}. Arguments Stuck {A}.

Definition R (A : Type) := st -> st * ctl A.
Definition ret {A} (a : A) : R A := fun s => (s, Go a).
Definition stuck {A} : R A := fun s => (s, Stuck).
Definition boom {A} : R A := fun s => (s, Boom).
Definition rbind {A B} (x : R A) (f : A -> R B) : R B := fun s =>
  match x s with
  | (s, Go a) => f a s
  | (s, Ret v) => (s, Ret v) | (s, Boom) => (s, Boom) | (s, Stuck) => (s, Stuck)
  end.
Notation "x <~ a ;; b" := (rbind a (fun x => b)) (at level 61, a at next level, right associativity).

Fixpoint lookup {A} (x : string) (l : list (string * A)) : option A :=
  match l with
  | [] => None
  | (y, a) :: l => if String.eqb x y then Some a else lookup x l
  end.
(** The place of the first entry with this name. *)
Fixpoint pos {A} (x : string) (l : list (string * A)) : nat :=
  match l with
  | [] => O
  | (y, _) :: l => if String.eqb x y then O else S (pos x l)
  end.
Fixpoint assign {A} (x : string) (a : A) (l : list (string * A)) : list (string * A) :=
  match l with
  | [] => []
  | (y, b) :: l => if String.eqb x y then (y, a) :: l else (y, b) :: assign x a l
  end.

Definition cell_rv (c : cell) : option rv :=
  match c with CVal t v => Some (RVal t v) | CRt r => Some (RRt r) | CSize => None end.
Definition self_cell (s : st) (x : string) : option cell :=
  match s_self s with Some o => lookup x (o_cells o) | None => None end.
Definition set_cell (x : string) (c : cell) : R unit := fun s =>
  match s_self s with
  | Some o => (set_self (Some (Obj (o_variant o) (assign x c (o_cells o)))) s, Go tt)
  | None => (s, Stuck)
  end.
(** What a place or a mutable variable holds. *)
Definition rval (v : rv) : R rv := fun s =>
  match v with
  | RMut x => match lookup x (s_vars s) with Some v => (s, Go v) | None => (s, Stuck) end
  | _ => (s, Go v)
  end.
Definition load (v : rv) : R rv := fun s =>
  match v with
  | RPlace x => match self_cell s x with
                | Some c => match cell_rv c with Some v => (s, Go v) | None => (s, Stuck) end
                | None => (s, Stuck)
                end
  | _ => (s, Go v)
  end.
(** [*place = value]. *)
Definition store_to (p v : rv) : R unit := fun s =>
  match p, v with
  | RSelf, RObj o => match s_self s with Some _ => (set_self (Some o) s, Go tt) | None => (s, Stuck) end
  | RPlace x, RVal t v => match self_cell s x with Some (CVal _ _) => set_cell x (CVal t v) s | _ => (s, Stuck) end
  | RPlace x, RRt r => match self_cell s x with Some (CRt _) => set_cell x (CRt r) s | _ => (s, Stuck) end
  | _, _ => (s, Stuck)
  end.

(** An [io::Result] from a model: [Ok] goes on with [k]. *)
Definition io {A} (x : res A) (k : A -> R rv) : R rv := fun s =>
  match x with
  | Ok a => (v <~ k a;; ret (ROk v)) s
  | Err e => (s, Go (RErr e)) | Panic => (s, Boom) | NoFuel => (s, Stuck)
  end.
(** A function that returns no [Result]. *)
Definition plain {A} (x : res A) (k : A -> R rv) : R rv := fun s =>
  match x with Ok a => k a s | Panic => (s, Boom) | Err _ | NoFuel => (s, Stuck) end.
Definition upd_st (f : st -> st) : R rv := fun s => (f s, Go RUnit).

(** Declared fields of the struct or of each variant; functions of [impl Name]; of the traits. *)
Record prog := Prog { p_decl : list (option string * list (string * ctype)); p_inherent : list fn; p_traits : list fn }.

(** Provided methods of [State]: steit/src/state.rs 24-26, 32-35.  [Self] is generic there. *)
Definition provided : list fn :=
  [Fn "is_root" true [] (Block [] (Some (EMeth (EMeth ESelf "runtime" []) "is_root" [])));
   Fn "handle_update" true [par "reader"]
     (Block [SDeref ESelf (EFun "<Self as State>" "with_runtime" [EMeth (EMeth ESelf "runtime" []) "clone" []])]
            (Some (EMeth ESelf "merge" [EName "reader"])))].

(** [Self::n(..)]: functions of [impl Name] go first. *)
Definition named (n : string) (l : list fn) : option fn := find (fun f => String.eqb n (fn_name f)) l.
Definition static (p : prog) (n : string) : option fn := named n (p_inherent p ++ p_traits p).
(** [self.n(..)]: likewise; and where the type is only known to implement the traits. *)
Definition method (p : prog) (n : string) : option fn := named n (filter fn_self (p_inherent p ++ p_traits p ++ provided)).
Definition trait_method (p : prog) (n : string) : option fn := named n (filter fn_self (p_traits p ++ provided)).

Definition is_variant_of (v : string) (o : obj) : bool :=
  match o_variant o with Some w => String.eqb v w | None => false end.
Fixpoint parts (o : obj) (bs : list (string * string)) : option (list (string * rv)) :=
  match bs with
  | [] => Some []
  | (f, x) :: bs =>
      match lookup f (o_cells o), parts o bs with
      | Some c, Some l => match cell_rv c with Some v => Some ((x, v) :: l) | None => None end
      | _, _ => None
      end
  end.
(** What a pattern binds. *)
Definition matches (s : st) (p : pat) (v : rv) : option (list (string * rv)) :=
  match p, v with
  | PWild, _ => Some []
  | PNum n, RNum k => if n =? k then Some [] else None
  | PSome x, ROpt (Some v) => Some [(x, v)]
  | PUpdate, RKind KUpdate => Some []
  | PVariant w bs, RSelf =>
      match s_self s with
      | Some o => if is_variant_of w o then Some (map (fun b => (snd b, RPlace (fst b))) bs) else None
      | None => None
      end
  | PVariant w bs, RObj o => if is_variant_of w o then parts o bs else None
  | _, _ => None
  end.

(** A field initialised. *)
Definition mk_cell (ct : ctype) (v : rv) : option cell :=
  match ct, v with
  | TVal t, RNew (Some r) => if state_ty t then Some (CVal t (dflt t r)) else None
  | TVal t, RNew None => Some (CVal t (dflt t rt_default))
  | TSize, RCache => Some CSize
  | TRt, RRt r => Some (CRt r)
  | _, _ => None
  end.
Fixpoint mk_cells (ds : list (string * ctype)) (vs : list (string * rv)) : option (list (string * cell)) :=
  match ds with
  | [] => Some []
  | (x, ct) :: ds =>
      match lookup x vs, mk_cells ds vs with
      | Some v, Some l => match mk_cell ct v with Some c => Some ((x, c) :: l) | None => None end
      | _, _ => None
      end
  end.
Definition same_variant (a b : option string) : bool :=
  match a, b with Some a, Some b => String.eqb a b | None, None => true | _, _ => false end.
Definition decl_of (p : prog) (v : option string) : option (list (string * ctype)) :=
  match find (fun d : option string * list (string * ctype) => same_variant v (fst d)) (p_decl p) with
  | Some d => Some (snd d) | None => None
  end.

Section Run.
  Variable m : mode.
  (** The numbers in the size caches of what is logged (State.v). *)
  Variable hl : store.
  Variable p : prog.

  Definition env := list (string * rv).

  Section Calls.
    (** A generated function called with the present [self]. *)
    Variable call : fn -> list rv -> R rv.

    Definition call_static (f : fn) (vs : list rv) : R rv := fun s =>
      if fn_self f then (s, Stuck)
      else let '(s', c) := call f vs (set_self None s) in (set_self (s_self s) s', c).
    Definition call_method (f : option fn) (vs : list rv) : R rv := fun s =>
      match s_self s, f with Some _, Some f => call f vs s | _, _ => (s, Stuck) end.

    (** [Bytes::from_value] of an object of this type: ser.rs 14-34, 91-95. *)
    Definition own_bytes (o : obj) : R bytes := fun s =>
      let '(s1, c) := (n <~ call_method (trait_method p "compute_size") [];;
                       c <~ call_method (trait_method p "size_cache") [];;
                       _ <~ (fun s => match n, c with
                             | RNum n, ROpt (Some (RPlace x)) =>
                                 match self_cell s x with Some CSize => (set_heap (upd (s_heap s) (s_at s) n) s, Go tt) | _ => (s, Stuck) end
                             | RNum _, ROpt None => (s, Go tt)
                             | _, _ => (s, Stuck)
                             end);;
                       call_method (trait_method p "serialize_cached") [RWriter])
                      (St (Some o) [] hl (s_in s) (s_path s) [] (s_hash s) (s_log s) []) in
      (s, match c with
          | Go (ROk _) => Go (s_out s1)
          | Go (RErr _) | Boom => Boom
          | _ => Stuck
          end).

    Definition native_rt (r : rt) (n : string) (vs : list rv) : R rv :=
      match vs with
      | [] =>
          if String.eqb n "clone" then ret (RRt r)
          else if String.eqb n "parent" then plain (rt_parent r) (fun r => ret (RRt r))
          else if String.eqb n "is_root" then ret (RBool (rt_is_root r))
          else if String.eqb n "pause_logger" then upd_st (put_log [LPause (rt_log r)])
          else if String.eqb n "unpause_logger" then upd_st (put_log [LUnpause (rt_log r)])
          else stuck
      | [RNum k] => if String.eqb n "nested" then ret (RRt (nested r k)) else stuck
      | [RObj o] =>
          if String.eqb n "log_update" then
            b <~ own_bytes o;;
            _ <~ upd_st (put_log [LLog (rt_log r) (EUpdate (collect_values (rt_path r)) b)]);; ret (ROk RUnit)
          else stuck
      | [RNum k; RVal _ v] =>
          if String.eqb n "log_update_child" then
            plain (entry_update_child m r k v hl) (fun e =>
            _ <~ upd_st (put_log [LLog (rt_log r) e]);; ret (ROk RUnit))
          else stuck
      | _ => stuck
      end.

    (** Methods of a field's type. *)
    Definition native_field (x : string) (t : ty) (v : val) (n : string) (vs : list rv) : R rv := fun s =>
      let a := pos x match s_self s with Some o => o_cells o | None => [] end :: s_at s in
      match vs with
      | [RNum k; RBool b] =>
          if String.eqb n "compute_size_nested" then
            io (size_nested m (Some k) b a v (compute m a v (s_heap s)))
               (fun '(n, h) => _ <~ upd_st (set_heap h);; ret (RNum n)) s
          else (s, Stuck)
      | [RNum k; RBool b; RWriter] =>
          if String.eqb n "serialize_nested" then
            io (ser_nested m (Some k) b a v (ser_cached m a v) (s_heap s))
               (fun '(o, h) => upd_st (fun s => put_out o (set_heap h s))) s
          else (s, Stuck)
      | [RWire w; RReader] =>
          if String.eqb n "merge_nested" then
            let '(v', r) := merge_nested m (wty t) (merge m t) w v (s_in s) in
            (_ <~ set_cell x (CVal t v');; io r (fun rest => upd_st (set_in rest))) s
          else (s, Stuck)
      | [RRt r] =>
          if String.eqb n "set_runtime" && state_ty t then (_ <~ set_cell x (CVal t (set_rt r v));; ret RUnit) s
          else (s, Stuck)
      | [RPath; RKind kind; RKey key; RReader] =>
          if String.eqb n "handle" && state_ty t then
            let '(v', r) := handle m t (s_path s) kind key (s_in s) v in
            (_ <~ set_cell x (CVal t v');; io r (fun _ => ret RUnit)) s
          else (s, Stuck)
      | [RHasher] => if String.eqb n "hash" then upd_st (put_hash (hfeed v)) s else (s, Stuck)
      | _ => (s, Stuck)
      end.

    Definition native (v : rv) (n : string) (vs : list rv) : R rv := fun s =>
      match v, vs with
      | RSelf, _ => call_method (method p n) vs s
      | RRt r, _ => native_rt r n vs s
      | RPlace x, _ =>
          match self_cell s x with
          | Some (CVal t v) => native_field x t v n vs s
          | Some (CRt r) => native_rt r n vs s
          | _ => (s, Stuck)
          end
      | RNum k, [] => if String.eqb n "cache_size" then (s, Go (RNum (uv_size 32 k))) else (s, Stuck)
      | RNum k, [RWriter] =>
          if String.eqb n "serialize_cached" then io (uv_serialize 32 k) (fun o => upd_st (put_out o)) s else (s, Stuck)
      | RNum k, [RHasher] => if String.eqb n "hash" then upd_st (put_hash [HInt U32 (Z.of_N k)]) s else (s, Stuck)
      | RMut x, [RRt r] =>
          match lookup x (s_vars s) with
          | Some (RVal t v) =>
              if String.eqb n "set_runtime" && state_ty t then (set_vars (assign x (RVal t (set_rt r v)) (s_vars s)) s, Go RUnit)
              else (s, Stuck)
          | _ => (s, Stuck)
          end
      | RMut x, [] =>
          match lookup x (s_vars s) with
          | Some RPath =>
              if String.eqb n "next" then
                match s_path s with
                | [] => (s, Go (ROpt None))
                | k :: r => (set_path r s, Go (ROpt (Some (RNum k))))
                end
              else (s, Stuck)
          | _ => (s, Stuck)
          end
      | RReader, [] =>
          if String.eqb n "eof" then (s, Go (ROk (RBool match s_in s with [] => true | _ => false end)))
          else if String.eqb n "read_tag" then
            io (rd_tag m (s_in s)) (fun '(k, w, rest) => _ <~ upd_st (set_in rest);; ret (RPair (RNum k) (RWire w))) s
          else (s, Stuck)
      | RReader, [RWire w] =>
          if String.eqb n "skip_field" then io (rd_skip_field m w (s_in s)) (fun rest => upd_st (set_in rest)) s
          else (s, Stuck)
      | ROk v, [] => if String.eqb n "unwrap" then (s, Go v) else (s, Stuck)
      | RErr _, [] => if String.eqb n "unwrap" then (s, Boom) else (s, Stuck)
      | _, _ => (s, Stuck)
      end.

    Definition native_fun (t n : string) (vs : list rv) : R rv := fun s =>
      if String.eqb t "Self" then match static p n with Some f => call_static f vs s | None => (s, Stuck) end
      else if String.eqb t "<Self as State>" then match named n (p_traits p) with Some f => call_static f vs s | None => (s, Stuck) end
      else match vs with
      | [] =>
          if String.eqb t "Default" && String.eqb n "default" then (s, Go (RNew None))
          else if String.eqb t "SizeCache" && String.eqb n "new" then (s, Go RCache)
          else if String.eqb t "Runtime" && String.eqb n "default" then (s, Go (RRt rt_default))
          else (s, Stuck)
      | [RRt r] => if String.eqb t "State" && String.eqb n "with_runtime" then (s, Go (RNew (Some r))) else (s, Stuck)
      | [RReader] =>
          if String.eqb t "u32" && String.eqb n "deserialize" then
            io (uv_deserialize m 32 (s_in s)) (fun '(k, rest) => _ <~ upd_st (set_in rest);; ret (RNum k)) s
          else (s, Stuck)
      | _ => (s, Stuck)
      end.

    Definition apply (v : rv) (vs : list rv) : R rv :=
      match v, vs with
      | RFun t f, [RRt r] => fun s => let '(ev, x) := f r in plain x (fun v => ret (RVal t v)) (put_log ev s)
      | _, _ => stuck
      end.

    (** [while cond { body }], each round of which takes a byte from the reader (De.v, [loop]). *)
    Fixpoint while (fuel : nat) (cond : R rv) (body : R rv) : R unit :=
      c <~ cond;;
      match c with
      | RBool false => ret tt
      | RBool true => match fuel with O => stuck | S fuel => _ <~ body;; while fuel cond body end
      | _ => stuck
      end.

    Definition each {A B} (f : A -> R B) : list A -> R (list B) :=
      fix each l := match l with [] => ret [] | a :: l => b <~ f a;; bs <~ each l;; ret (b :: bs) end.
    (** Statements, each in the scope the one before leaves. *)
    Definition thread {A} (f : env -> A -> R env) : env -> list A -> R env :=
      fix thread e l := match l with [] => ret e | a :: l => e <~ f e a;; thread e l end.
    Definition first_arm {A} (f : env -> A -> R rv) (e : env) (v : rv) : list (pat * A) -> R rv :=
      fix first_arm l := match l with
      | [] => stuck
      | (q, a) :: l => fun s => match matches s q v with Some bs => f (bs ++ e) a s | None => first_arm l s end
      end.

    Fixpoint eval (e : env) (x : expr) {struct x} : R rv :=
      let value := fun x => v <~ eval e x;; rval v in
      match x with
      | ENum n => ret (RNum n)
      | EBool b => ret (RBool b)
      | EUnit => ret RUnit
      | EName x => match lookup x e with Some v => ret v | None => stuck end
      | ESelf => fun s => match s_self s with Some _ => (s, Go RSelf) | None => (s, Stuck) end
      | EField x f =>
          v <~ value x;;
          match v with
          | RSelf => ret (RPlace f)
          | RObj o => match lookup f (o_cells o) with
                      | Some c => match cell_rv c with Some v => ret v | None => stuck end
                      | None => stuck
                      end
          | _ => stuck
          end
      | EMeth x n args => v <~ eval e x;; vs <~ each value args;; native v n vs
      | EFun t n args => vs <~ each value args;; native_fun t n vs
      | EApp x args => vs <~ each value args;; match lookup x e with Some v => apply v vs | None => stuck end
      | ESome x => v <~ value x;; ret (ROpt (Some v))
      | ENone => ret (ROpt None)
      | EOk x => v <~ value x;; ret (ROk v)
      | EInvalid => ret (RErr InvalidData)
      | ETry x => v <~ value x;;
                  match v with ROk v => ret v | RErr er => fun s => (s, Ret (RErr er)) | _ => stuck end
      | ENot x => v <~ value x;; match v with RBool b => ret (RBool (negb b)) | _ => stuck end
      | ENe x y =>
          a <~ value x;; a <~ load a;; b <~ value y;; b <~ load b;;
          match a, b with RVal _ a, RVal _ b => ret (RBool (negb (veqb a b))) | _, _ => stuck end
      | ERef x => eval e x
      | EUnimplemented => boom
      | EInit v fs =>
          vs <~ each (fun f : string * expr => v <~ value (snd f);; ret (fst f, v)) fs;;
          match decl_of p v with
          | Some ds => match mk_cells ds vs with Some cs => ret (RObj (Obj v cs)) | None => stuck end
          | None => stuck
          end
      | EMatch x arms => v <~ value x;; first_arm eval e v arms
      | EIfLet q x b els =>
          v <~ value x;;
          fun s => match matches s q v with
                   | Some bs => run_block (bs ++ e) b s
                   | None => match els with Some b => run_block e b s | None => (s, Go RUnit) end
                   end
      | EBlock b => run_block e b
      end
    with step (e : env) (x : stmt) {struct x} : R env :=
      let value := fun x => v <~ eval e x;; rval v in
      match x with
      | SLet x y => v <~ value y;; ret ((x, v) :: e)
      | SLetMut x y =>
          v <~ value y;;
          fun s => match lookup x (s_vars s) with
                   | Some _ => (s, Stuck)                     (* one mutable variable of a name *)
                   | None => (set_vars ((x, v) :: s_vars s) s, Go ((x, RMut x) :: e))
                   end
      | SLetPair x y z => v <~ value z;; match v with RPair a b => ret ((y, b) :: (x, a) :: e) | _ => stuck end
      | SExpr x => _ <~ eval e x;; ret e
      | SAdd x y =>
          v <~ value y;;
          fun s => match lookup x e, v with
                   | Some (RMut x), RNum n =>
                       match lookup x (s_vars s) with
                       | Some (RNum k) => (_ <~ plain (add32 m k n) (fun k => upd_st (fun s => set_vars (assign x (RNum k) (s_vars s)) s));; ret e) s
                       | _ => (s, Stuck)
                       end
                   | _, _ => (s, Stuck)
                   end
      | SSet x f y =>
          v <~ value y;; t <~ eval e x;;
          match t with RSelf => _ <~ store_to (RPlace f) v;; ret e | _ => stuck end
      | SDeref x y => v <~ value y;; t <~ eval e x;; _ <~ store_to t v;; ret e
      | SIf x b => v <~ value x;; match v with RBool true => _ <~ run_block e b;; ret e | RBool false => ret e | _ => stuck end
      | SWhile x b => fun s => (_ <~ while (List.length (s_in s)) (value x) (run_block e b);; ret e) s
      | SReturn x => v <~ value x;; fun s => (s, Ret v)
      end
    with run_block (e : env) (b : block) {struct b} : R rv :=
      match b with
      | Block ss last =>
          e <~ thread step e ss;;
          match last with Some x => v <~ eval e x;; rval v | None => ret RUnit end
      end.
  End Calls.

  Fixpoint params (ps : list (bool * string)) (vs : list rv) : option (env * env) :=
    match ps, vs with
    | [], [] => Some ([], [])
    | (mu, x) :: ps, v :: vs =>
        match params ps vs with
        | Some (e, mv) => Some (if mu then ((x, RMut x) :: e, (x, v) :: mv) else ((x, v) :: e, mv))
        | None => None
        end
    | _, _ => None
    end.

  (** [fuel] bounds the depth of calls among generated functions. *)
  Fixpoint call (fuel : nat) (f : fn) (vs : list rv) : R rv := fun s =>
    match fuel, params (fn_params f) vs with
    | S fuel, Some (e, mv) =>
        let '(s', c) := run_block (call fuel) e (fn_body f) (set_vars mv s) in
        (set_vars (s_vars s) s', match c with Ret v => Go v | c => c end)
    | _, _ => (s, Stuck)
    end.

  Definition depth : nat := 8.
  (** Calls from outside: a trait's method on [self]; a method of [impl Name]; [Name::n(..)];
      a trait's function without [self]. *)
  Definition invoke (n : string) (vs : list rv) : R rv := call_method (call depth) (trait_method p n) vs.
  Definition invoke_own (n : string) (vs : list rv) : R rv := call_method (call depth) (named n (filter fn_self (p_inherent p))) vs.
  Definition make (n : string) (vs : list rv) : R rv := fun s =>
    match named n (p_inherent p) with Some f => call_static (call depth) f vs s | None => (s, Stuck) end.
  Definition make_trait (n : string) (vs : list rv) : R rv := fun s =>
    match named n (p_traits p) with Some f => call_static (call depth) f vs s | None => (s, Stuck) end.
End Run.

(** ** Whole programs *)

(** The declaration after [add_field] (struct.rs 98-134, 598-618). *)
Definition decl (d : dstruct) (ts : list ty) : option string * list (string * ctype) :=
  (variant_name d,
   combine (map (fun f : dfield => access (fst f)) (ds_fields d)) (map TVal ts)
   ++ match ds_cache d with Some f => [(access f, TSize)] | None => [] end
   ++ match ds_rt d with Some f => [(access f, TRt)] | None => [] end).

Definition struct_prog (se : rsetting) (d : dstruct) (ts : list ty) : prog :=
  Prog [decl d ts] (struct_inherent se d) (struct_traits se d).
Definition enum_prog (se : rsetting) (ds : list (dstruct * list ty)) : prog :=
  Prog (map (fun d => decl (fst d) (snd d)) ds) (enum_inherent se (map fst ds)) (enum_traits se (map fst ds)).
