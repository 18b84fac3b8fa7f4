(** How much memory the objects of a C# client take, and how much one byte of input can make.

    No code of the repository but for [c_read_request]: a measure of objects.  An object, a number or a key counts
    [c], whatever [c] is, an enum twice (it has a variant object); each byte of a string or of a [Bytes] counts 1.
    Strings are the bytes they are read from (CSharp.v), so a string of C#, with two bytes for each character, may
    take twice as much. *)
From Verif Require Import Base Varint WireFmt Types De Log State CSharp Weight.
Local Open Scope nat_scope.

Fixpoint cweight (c : nat) (v : cval) : nat :=
  match v with
  | CVInt _ | CVBool _ | CVStr None | CVOpt None => c
  | CVStr (Some s) | CVBytes s => c + length s
  | CVOpt (Some x) => c + cweight c x
  | CVVec l | CVList l => c + sum (map (cweight c) l)
  | CVMap es => c + sum (map (fun e => c + cweight c (snd e)) es)
  | CVStruct fs => c + sum (map (fun f => cweight c (snd f)) fs)
  | CVEnum _ fs => c + (c + sum (map (fun f => cweight c (snd f)) fs))
  end.

(** A new object, and a new variant object. *)
Definition cnew_weight (c : nat) (t : cty) : nat := match c_new t with Ok d => cweight c d | _ => 0 end.
Definition cfields_weight (c : nat) (fs : list (N * (bool * cty))) : nat := cnew_weight c (CStruct fs).

(** The most that one byte can add: a byte of a string, or a new object of something that a collection or an option
    makes, or that takes the place of a field, or of a variant; in a map, with its key. *)
Fixpoint cgrain (c : nat) (t : cty) : nat :=
  match t with
  | CInt _ | CBool => 0
  | CStr | CBytes => 1
  | COpt t | CVec t | CList t => Nat.max (cnew_weight c t) (cgrain c t)
  | CMap t => Nat.max (c + cnew_weight c t) (cgrain c t)
  | CStruct fs => most (map (fun f : N * (bool * cty) => let '(_, (_, t)) := f in Nat.max (cnew_weight c t) (cgrain c t)) fs)
  | CEnum vs => most (map (fun va : N * list (N * (bool * cty)) => let '(_, fs) := va in
      Nat.max (cfields_weight c fs) (most (map (fun f : N * (bool * cty) => let '(_, (_, t)) := f in Nat.max (cnew_weight c t) (cgrain c t)) fs))) vs)
  end.
Definition cfields_grain (c : nat) (fs : list (N * (bool * cty))) : nat := cgrain c (CStruct fs).

(** Reader.cs 80-82, 100-103 and ByteReader.cs 30-35: the size of the array that [GetNested] asks for, an [int], if it
    gets that far. *)
Definition c_read_request (bs : bytes) : option Z :=
  match c_unsigned bs with
  | Ok (n, rest) => let count := swrap 32 (Z.of_N n) in if (Z.of_nat (length rest) <? count)%Z then None else Some count
  | _ => None
  end.
