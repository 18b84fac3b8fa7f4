(** How deeply values are nested.

    No code of the repository: a measure of values.  The merging, writing, dropping, cloning and comparing of a value all call
    themselves for what the value holds, so this is also how deep these calls are (but for boxes, which pass calls on).

    A value counts one more than the deepest that it holds; a box counts nothing. *)
From Verif Require Import Base Varint WireFmt Types De Log State Weight.

Fixpoint vdepth (v : val) : nat :=
  match v with
  | VInt _ _ | VBool _ | VStr _ | VBytes _ | VOpt None => 1
  | VOpt (Some x) => S (vdepth x)
  | VBox x => vdepth x
  | VVec l | VArr l | VTup l | VList _ l => S (most (map vdepth l))
  | VHash l => S (most (map (fun e => Nat.max (vdepth (fst e)) (vdepth (snd e))) l))
  | VStruct _ _ fs | VEnum _ _ _ fs => S (most (map (fun f => vdepth (snd f)) fs))
  | VMap _ es => S (most (map (fun e => vdepth (snd e)) es))
  end%nat.

(** The default value of a type, and of a variant. *)
Definition new_depth (t : ty) : nat := vdepth (dflt t rt_default).
Definition fields_depth (fs : list (finfo * ty)) : nat := S (most (map (fun f => new_depth (snd f)) fs)).

(** The deepest default value among all that decoding may make: of what a collection, an option, an array or a tuple holds,
    and of variants.  A type that holds itself has only finitely many of these. *)
Fixpoint deepest (t : ty) : nat :=
  match t with
  | TInt _ | TBool | TStr | TBytes => 0
  | TOpt t | TVec t | TArr _ t | TList t | TMap _ t => Nat.max (new_depth t) (deepest t)
  | TTup ts => most (map (fun t => Nat.max (new_depth t) (deepest t)) ts)
  | THash k t => Nat.max (Nat.max (new_depth k) (deepest k)) (Nat.max (new_depth t) (deepest t))
  | TBox t => deepest t
  | TStruct _ fs => most (map (fun f : finfo * ty => let '(_, t) := f in deepest t) fs)
  | TEnum _ vs => most (map (fun va : (N * bool) * list (finfo * ty) => let '(_, fs) := va in
      Nat.max (fields_depth fs) (most (map (fun f : finfo * ty => let '(_, t) := f in deepest t) fs))) vs)
  end%nat.

(** A declaration that holds itself, [struct Chain { next: Option<Box<Chain>> }], as deep as is needed, and a chain of [n]. *)
Fixpoint tChain (n : nat) : ty :=
  match n with
  | O => TStruct (mkS true false) []
  | S n => TStruct (mkS true false) [(fpl 0, TOpt (TBox (tChain n)))]
  end.
Fixpoint vChain (n : nat) : val :=
  match n with
  | O => VStruct true None []
  | S n => VStruct true None [(fpl 0, VOpt (Some (VBox (vChain n))))]
  end.
