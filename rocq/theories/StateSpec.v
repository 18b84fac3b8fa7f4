(** What the properties of states are stated with: places in a tree, runtimes that fit them, the
    calls convergence is about. *)
From Verif Require Import Base Varint WireFmt Utf8 Types Ser Spec De Log State.

(** ** Places *)

(** The path a step adds: runtimes of fields, items and map values are nested once in that of
    their parent, those of variant fields twice (enum.rs 344-350), a box passes on its own. *)
Definition seg (v : val) (s : step) : list N :=
  match s, v with
  | SField fn, VEnum tag _ _ _ => [tag; fn]
  | SField fn, _ => [fn]
  | SItem i, _ => [i]
  | SKey k, _ => [k]
  | SBox, _ => []
  end.
Definition rt_at (r : rt) (p : list N) : rt := fold_left nested p r.

(** The step stays inside the state: not into a [no_state] field. *)
Definition state_step (v : val) (s : step) : bool :=
  match s, v with
  | SField fn, VStruct _ _ fs | SField fn, VEnum _ _ _ fs =>
      match find_field fn fs with Some (fi, _) => f_state fi | None => false end
  | _, _ => true
  end.

(** The node at the end of these steps, with its type and path; stays inside the state. *)
Fixpoint walk (t : ty) (v : val) (steps : list step) : option (ty * val * list N) :=
  match steps with
  | [] => Some (t, v, [])
  | s :: steps' =>
      match child t v s with
      | Some (t', x) =>
          if state_step v s then
            match walk t' x steps' with
            | Some (t'', y, p) => Some (t'', y, seg v s ++ p)
            | None => None
            end
          else None
      | None => None
      end
  end.

(** Values that differ in runtimes only. *)
Definition same (v w : val) : Prop := norm rt_default v = norm rt_default w.

(** ** Runtimes *)

(** The runtime a node was given: for enums the parent of the one it stores. *)
Fixpoint base (v : val) : res rt :=
  match v with
  | VBox x => base x
  | VEnum _ _ (Some r) _ => rt_parent r
  | _ => val_rt v
  end.

Definition prim (t : ty) : bool := match t with TInt _ | TBool => true | _ => false end.
Fixpoint prim_under (t : ty) : bool := match t with TBox t => prim_under t | _ => prim t end.

(** Does a value of this type store a path below the one it was given? *)
Fixpoint enum_under (t : ty) : bool := match t with TBox t => enum_under t | TEnum _ _ => true | _ => false end.

(** The tag an enum adds to its own path. *)
Fixpoint own (v : val) : list N := match v with VBox x => own x | VEnum tag _ _ _ => [tag] | _ => [] end.

(** Every node of the tree (other than integers and booleans, which have no runtime) stores the
    path it is reached by. *)
Definition placed (r : rt) (t : ty) (v : val) : Prop :=
  forall steps t' x p, walk t v steps = Some (t', x, p) -> prim_under t' = false -> val_rt x = Ok (rt_at r (p ++ own x)).

(** The same, as an equation: giving the tree the runtime [r] would change nothing. *)
Definition coh (r : rt) (v : val) : Prop := set_rt r v = v.

(** ** Entries one after another *)

Fixpoint handle_all (m : mode) (t : ty) (es : list entry) (v : val) : val * res unit :=
  match es with
  | [] => (v, Ok tt)
  | e :: es' => match handle_entry m t e v with
                | (v', Ok _) => handle_all m t es' v'
                | failed => failed
                end
  end.

(** ** Calls *)

(** What a call can carry over the wire: a value in the lossless domain, below 2^32 bytes. *)
Definition arg_ok (t : ty) (x : val) : Prop := wt t x = true /\ lossless t x = true /\ lenN (enc x) < 2 ^ 32.

(** While the logger is paused once, these calls leave it as it is. *)
Definition quiet (m : mode) (lg : N) (evs : list lev) : Prop := feeds m lg (mkRL [] 1) evs = Ok (mkRL [] 1).

(** A callback that, given runtime [r], makes a value of type [t] that sits on [r], and leaves the
    logger [lg] as it was. *)
Definition gives (m : mode) (lg : N) (f : callback) (r : rt) (t : ty) : Prop :=
  exists evs x, f r = (evs, Ok x) /\ quiet m lg evs /\ arg_ok t x /\ coh r x.

(** The calls C23 is about: arguments that can be carried; callbacks that behave; state fields;
    no [remove] of an absent key (C29), no [insert] of a value that sits elsewhere (C28), no
    [swap_remove] that moves an enum (C27). *)
Definition op_ok (m : mode) (t : ty) (v : val) (o : op) : Prop :=
  match o, t, v with
  | OSet fn x, TStruct _ fts, _ => exists fi t', find_field fn fts = Some (fi, t') /\ f_state fi = true /\ arg_ok t' x
  | OSetWith fn f, TStruct _ fts, VStruct _ (Some r) _ =>
      exists fi t', find_field fn fts = Some (fi, t') /\ f_state fi = true /\ gives m (rt_log r) f (nested r fn) t'
  | OVSet tag fn x, TEnum st vs, VEnum tag0 _ _ _ =>
      exists va fi t', find_variant vs tag = Some va /\ find_field fn (snd va) = Some (fi, t') /\ f_state fi = true /\ arg_ok t' x /\
        (tag0 <> tag -> lenN (enc (variant_ctor st va rt_default)) < 2 ^ 32)
  | OVSetWith tag fn f, TEnum st vs, VEnum tag0 _ (Some r) _ =>
      exists va fi t' p, find_variant vs tag = Some va /\ find_field fn (snd va) = Some (fi, t') /\ f_state fi = true /\
        rt_parent r = Ok p /\ gives m (rt_log r) f (nested (nested p tag) fn) t' /\
        (tag0 <> tag -> lenN (enc (variant_ctor st va rt_default)) < 2 ^ 32)
  | OPush x, TList t', _ => arg_ok t' x
  | OPushWith f, TList t', VList r l => gives m (rt_log r) f (nested r (lenN l)) t'
  | OPop, TList _, _ => True
  | OSwapRemove i, TList t', VList _ l =>
      i + 1 < lenN l -> enum_under t' = false /\ (forall z, nth_error l (length l - 1) = Some z -> arg_ok t' z)
  | OInsert k x, TMap _ t', VMap r _ => k < 2 ^ 32 /\ arg_ok t' x /\ coh (nested r k) x
  | OInsertWith k f, TMap _ t', VMap r _ => k < 2 ^ 32 /\ gives m (rt_log r) f (nested r k) t'
  | ORemove k, TMap _ _, VMap _ es => assoc k es <> None
  | _, _, _ => False
  end.

(** A sequence of such calls, each on a node of the tree the calls before it have left. *)
Fixpoint legal (m : mode) (t : ty) (v : val) (cs : list call) : Prop :=
  match cs with
  | [] => True
  | c :: cs' =>
      (exists t' x p, walk t v (c_at c) = Some (t', x, p) /\ op_ok m t' x (c_op c)) /\
      (forall v' o, at_node (c_at c) (fun t x => apply_op m (c_caches c) t (c_op c) x) t v = Some (v', o) -> legal m t v' cs')
  end.

(** A state that replay accepts when it sits on a root runtime: not an integer or boolean (no
    runtime), and not a boxed enum (C30). *)
Definition root_ty (t : ty) : bool :=
  negb (prim_under t) && match t with TBox t' => negb (enum_under t') | _ => true end.

(** ** What an entry may touch *)

(** Any part of a value, [no_state] fields included, with its type and path. *)
Fixpoint part (t : ty) (v : val) (steps : list step) : option (ty * val * list N) :=
  match steps with
  | [] => Some (t, v, [])
  | s :: steps' =>
      match child t v s with
      | Some (t', x) =>
          match part t' x steps' with
          | Some (t'', y, p) => Some (t'', y, seg v s ++ p)
          | None => None
          end
      | None => None
      end
  end.

(** The value with the part at the end of [steps] replaced. *)
Fixpoint put_at (t : ty) (v : val) (steps : list step) (y : val) : val :=
  match steps with
  | [] => y
  | s :: steps' =>
      match child t v s with
      | Some (t', x) => put_child v s (put_at t' x steps' y)
      | None => v
      end
  end.

(** The changes an entry for path [p] may make: none; the node at [p] gets a new value; a map is
    given a new last key, which is the end of [p]. *)
Inductive shape (t : ty) (v : val) (p : list N) : val -> Prop :=
| ShSame : shape t v p v
| ShNode steps t' x x' : walk t v steps = Some (t', x, p) -> wt t' x' = true -> shape t v p (put_at t v steps x')
| ShKey steps kk t' r es k q x : walk t v steps = Some (TMap kk t', VMap r es, q) -> p = q ++ [k] -> assoc k es = None -> wt t' x = true ->
    shape t v p (put_at t v steps (VMap r (es ++ [(k, x)]))).

(** One path leads to the other. *)
Definition comparable (p q : list N) : Prop := exists s, p = q ++ s \/ q = p ++ s.

(** ** Streams *)

(** The entries at the front of some bytes, and what follows them. *)
Inductive decodes (m : mode) : bytes -> list entry -> bytes -> Prop :=
| DNil bs : decodes m bs [] bs
| DCons bs e bs' es rest : read_entry m bs = Ok (e, bs') -> decodes m bs' es rest -> decodes m bs (e :: es) rest.

(** Length-prefixed pieces, whatever is in them. *)
Definition complete_stream (bs : bytes) : Prop := exists ps, bs = concat ps /\ Forall (whole Sized) ps.

(** ** Building trees *)

(** What Rust's types guarantee about a call. *)
Definition makes (f : callback) (t : ty) : Prop := forall r evs x, f r = (evs, Ok x) -> wt t x = true.
Definition op_typed (t : ty) (o : op) : Prop :=
  match o, t with
  | OSet fn x, TStruct _ fts => exists fi t', find_field fn fts = Some (fi, t') /\ wt t' x = true
  | OSetWith fn f, TStruct _ fts => exists fi t', find_field fn fts = Some (fi, t') /\ f_state fi = true /\ makes f t'
  | OVSet tag fn x, TEnum _ vs =>
      exists va fi t', find_variant vs tag = Some va /\ find_field fn (snd va) = Some (fi, t') /\ wt t' x = true
  | OVSetWith tag fn f, TEnum _ vs =>
      exists va fi t', find_variant vs tag = Some va /\ find_field fn (snd va) = Some (fi, t') /\ f_state fi = true /\ makes f t'
  | OPush x, TList t' => wt t' x = true
  | OPushWith f, TList t' => makes f t'
  | OPop, TList _ | OSwapRemove _, TList _ => True
  | OInsert k x, TMap _ t' => k < 2 ^ 32 /\ wt t' x = true
  | OInsertWith k f, TMap _ t' => k < 2 ^ 32 /\ makes f t'
  | ORemove _, TMap _ _ => True
  | _, _ => False
  end.

(** Callbacks use the runtime they get, inserted values sit on the map already, and no enum is
    moved by [swap_remove].  [r] is the runtime the node was given. *)
Definition sits (f : callback) (r : rt) : Prop := forall evs x, f r = (evs, Ok x) -> coh r x.
Definition op_sits (t : ty) (r : rt) (v : val) (o : op) : Prop :=
  match o, t, v with
  | OSetWith fn f, _, _ => sits f (nested r fn)
  | OVSetWith tag fn f, _, _ => sits f (nested (nested r tag) fn)
  | OPushWith f, _, VList _ l => sits f (nested r (lenN l))
  | OSwapRemove i, TList t', VList _ l => i + 1 < lenN l -> enum_under t' = false
  | OInsert k x, _, _ => coh (nested r k) x
  | OInsertWith k f, _, _ => sits f (nested r k)
  | _, _, _ => True
  end.

(** Trees made on the runtime [r]: constructors and [set_runtime] (which [from_iter] uses),
    decoding, replay, and calls, also ones that fail. *)
Inductive built (t : ty) (r : rt) : val -> Prop :=
| BDefault : built t r (dflt t r)
| BVariant st vs tag va : t = TEnum st vs -> find_variant vs tag = Some va -> built t r (variant_ctor st va r)
| BSet v : wt t v = true -> built t r (set_rt r v)
| BMerge m v bs : built t r v -> bytes_ok bs -> built t r (fst (merge m t v bs))
| BReplay m v bs : built t r v -> bytes_ok bs -> built t r (fst (replay m t v bs))
| BCall m h o v steps t' x p v' out : built t r v -> walk t v steps = Some (t', x, p) ->
    op_typed t' o -> op_sits t' (rt_at r p) x o ->
    at_node steps (fun t x => apply_op m h t o x) t v = Some (v', out) -> built t r v'.
