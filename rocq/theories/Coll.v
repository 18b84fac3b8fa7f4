(** Model of what reads from lists and maps: steit/src/types/list.rs, types/map/{map,iter,key}.rs. *)
From Verif Require Import Base Varint WireFmt Utf8 Types Ser De Log State.

(** [Vec::get] through [Deref] (list.rs 28-34), [get_mut] (list.rs 50-52): the same item. *)
Definition list_get (v : val) (i : N) : option val :=
  match v with VList _ l => nth_error l (N.to_nat i) | _ => None end.

(** list.rs 118-130. *)
Definition list_index (v : val) (i : N) : res val :=
  match list_get v i with Some x => Ok x | None => Panic end.

(** [Vec::len] and [Vec::iter] through [Deref]; [iter_mut] and [into_iter] visit the same items
    (list.rs 113-115, 141-157). *)
Definition list_len (v : val) : N := match v with VList _ l => lenN l | _ => 0 end.
Definition list_iter (v : val) : list val := match v with VList _ l => l | _ => [] end.

(** list.rs 44-48, 132-139. *)
Definition list_from_iter (r : rt) (l : list val) : val := set_rt r (VList rt_default l).

(** map.rs 47-60, 89-91. *)
Definition map_get (v : val) (k : N) : option val :=
  match v with VMap _ es => assoc k es | _ => None end.
Definition map_contains (v : val) (k : N) : bool :=
  match map_get v k with Some _ => true | None => false end.
Definition map_len (v : val) : N := match v with VMap _ es => lenN es | _ => 0 end.

(** map.rs 94-106. *)
Definition map_index (v : val) (k : N) : res val :=
  match map_get v k with Some x => Ok x | None => Panic end.

(** iter.rs 20-29, 47-56: what the iterator yields, up to the panic of [unwrap]. *)
Fixpoint entries_iter (kk : mkey) (es : list (N * val)) : list (N * val) * res unit :=
  match es with
  | [] => ([], Ok tt)
  | (fn, x) :: es' =>
      match unwrap (key_of_fn kk fn) with
      | Ok k => let '(l, o) := entries_iter kk es' in ((k, x) :: l, o)
      | Err e => ([], Err e) | Panic => ([], Panic) | NoFuel => ([], NoFuel)
      end
  end.
Definition map_iter (kk : mkey) (v : val) : list (N * val) * res unit :=
  match v with VMap _ es => entries_iter kk es | _ => ([], NoFuel) end.

(** map.rs 41-45, 122-135; [IndexMap]'s [collect] inserts in order. *)
Definition map_from_iter (r : rt) (l : list (N * val)) : val :=
  set_rt r (VMap rt_default (fold_left (fun es e => im_insert (fst e) (snd e) es) l [])).

(** types/maybe.rs 9-20: the schema the derive macro sees. *)
Definition maybe_ty (t : ty) : ty := TEnum true [((0, false), []); ((1, true), [(mkF 0 true true true, t)])].

(** maybe.rs 22-41. *)
Definition maybe_some (r : rt) (x : val) : val := VEnum 1 true (Some r) [(mkF 0 true true true, x)].
Definition maybe_none (r : rt) : val := VEnum 0 false (Some r) [].
Definition maybe_from_option (r : rt) (o : option val) : val :=
  match o with Some x => maybe_some r x | None => maybe_none r end.

(** maybe.rs 43-49. *)
Definition maybe_is_some (v : val) : bool := match v with VEnum 1 _ _ _ => true | _ => false end.
Definition maybe_is_none (v : val) : bool := negb (maybe_is_some v).

(** maybe.rs 52-59. *)
Definition maybe_to_option (v : val) : option val :=
  match v with VEnum 1 _ _ [(_, x)] => Some x | _ => None end.

(** maybe.rs 61-73. *)
Definition maybe_eq_option (v : val) (o : option val) : bool :=
  match v, o with
  | VEnum 1 _ _ [(_, x)], Some y => veqb y x
  | VEnum 1 _ _ _, _ => false
  | _, None => true
  | _, Some _ => false
  end.
