(** How much memory values take, and how much one byte of input can make.

    No code of the repository: a measure of values.  A node of a value (a number, a string, a list, a struct,
    a box, a key of a map ...) counts [c], whatever [c] is; each byte of a string or byte array counts 1. *)
From Verif Require Import Base Varint WireFmt Types De Log State.

Fixpoint sum (l : list nat) : nat := match l with [] => O | n :: l => (n + sum l)%nat end.
Fixpoint most (l : list nat) : nat := match l with [] => O | n :: l => Nat.max n (most l) end.

Fixpoint weight (c : nat) (v : val) : nat :=
  match v with
  | VInt _ _ | VBool _ => c
  | VStr s | VBytes s => c + length s
  | VOpt None => c
  | VOpt (Some x) | VBox x => c + weight c x
  | VVec l | VArr l | VTup l | VList _ l => c + sum (map (weight c) l)
  | VHash l => c + sum (map (fun e => weight c (fst e) + weight c (snd e)) l)
  | VStruct _ _ fs | VEnum _ _ _ fs => c + sum (map (fun f => weight c (snd f)) fs)
  | VMap _ es => c + sum (map (fun e => c + weight c (snd e)) es)
  end%nat.

(** The default value of a type, and of a variant. *)
Definition new_weight (c : nat) (t : ty) : nat := weight c (dflt t rt_default).
Definition fields_weight (c : nat) (fs : list (finfo * ty)) : nat := (c + sum (map (fun f => new_weight c (snd f)) fs))%nat.

(** The most that one byte can add: a byte of a string, or the default value of something that a collection, an
    option, an array or a tuple makes, or of a variant;
    for a map, with its key. *)
Fixpoint grain (c : nat) (t : ty) : nat :=
  match t with
  | TInt _ | TBool => 0
  | TStr | TBytes => 1
  | TOpt t | TVec t | TArr _ t | TList t => Nat.max (new_weight c t) (grain c t)
  | TMap _ t => Nat.max (c + new_weight c t) (grain c t)
  | TTup ts => most (map (fun t => Nat.max (new_weight c t) (grain c t)) ts)
  | THash k t => Nat.max (Nat.max (new_weight c k) (grain c k)) (Nat.max (new_weight c t) (grain c t))
  | TBox t => grain c t
  | TStruct _ fs => most (map (fun f : finfo * ty => let '(_, t) := f in grain c t) fs)
  | TEnum _ vs => most (map (fun va : (N * bool) * list (finfo * ty) => let '(_, fs) := va in
      Nat.max (fields_weight c fs) (most (map (fun f : finfo * ty => let '(_, t) := f in grain c t) fs))) vs)
  end%nat.

(** reader.rs 49-51: the capacity of the buffer that [skip_field] asks for, before it reads what it is to skip. *)
Definition skip_request (m : mode) (w : wtype) (bs : bytes) : option N :=
  match w with
  | Varint => None
  | Sized => match uv_deserialize m 64 bs with Ok (size, _) => Some size | _ => None end
  end.
