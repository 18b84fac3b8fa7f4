(** Concrete schemas and values used to show that hypotheses of theorems are met. *)
From Verif Require Import Base Varint WireFmt Utf8 Types Ser Spec.

Definition fst_ (tag : N) : finfo := mkF tag true true true.   (* a state field *)
Definition fns (tag : N) : finfo := mkF tag false true true.    (* a no_state field *)

(** #[steit_derive(State)] struct Point { x: i32, y: i32, z: i32 } *)
Definition tPoint : ty := TStruct (mkS true true) [(fst_ 0, TInt I32); (fst_ 1, TInt I32); (fst_ 2, TInt I32)].
Definition vPoint (r : rt) (x y z : Z) : val :=
  VStruct true (Some r) [(fst_ 0, VInt I32 x); (fst_ 1, VInt I32 y); (fst_ 2, VInt I32 z)].

(** An enum like [Maybe<Point>]: None (tag 0) or Some (tag 1) with one field. *)
Definition tMaybe (t : ty) : ty := TEnum true [((0, true), []); ((1, true), [(fst_ 0, t)])].
Definition vNone (r : rt) : val := VEnum 0 true (Some (nested r 0)) [].
Definition vSome (r : rt) (x : val) : val := VEnum 1 true (Some (nested r 1)) [(fst_ 0, x)].

(** A struct with every kind of component. *)
Definition tAll : ty := TStruct (mkS true true)
  [ (fst_ 0, TList tPoint); (fst_ 1, TMap K16 (tMaybe tPoint)); (fst_ 2, TBox (TInt U64));
    (fns 3, TOpt TStr); (fns 4, TVec (TInt I8)); (fns 5, TArr 2 TBool);
    (fns 6, TTup [TInt U8; TBytes]); (fns 7, THash TStr (TVec (TInt U16))); (fst_ 16, TBool) ].

Definition ex_rt : rt := mkRt 1 Root.
Definition vAll (r : rt) : val := VStruct true (Some r)
  [ (fst_ 0, VList (nested r 0) [ vPoint (nested (nested r 0) 0) 1 (-1) 0; vPoint (nested (nested r 0) 1) 0 0 0 ]);
    (fst_ 1, VMap (nested r 1)
       [ (6, vSome (nested (nested r 1) 6) (vPoint (nested (nested (nested (nested r 1) 6) 1) 0) 7 300 (-536870912)));
         (2, vNone (nested (nested r 1) 2)) ]);
    (fst_ 2, VBox (VInt U64 18446744073709551615));
    (fns 3, VOpt (Some (VStr [226; 130; 172])));
    (fns 4, VVec [VInt I8 (-64); VInt I8 63]);
    (fns 5, VArr [VBool true; VBool false]);
    (fns 6, VTup [VInt U8 255; VBytes [0; 255]]);
    (fns 7, VHash [(VStr [97], VVec []); (VStr [], VVec [VInt U16 1; VInt U16 65535])]);
    (fst_ 16, VBool false) ].

Example vAll_typed : ty_ok tAll = true /\ wt tAll (vAll ex_rt) = true /\
  writable (vAll ex_rt) = true /\ ints_safe (vAll ex_rt) = true /\ (lenN (enc (vAll ex_rt)) <? 2 ^ 32) = true.
Proof. vm_compute. auto. Qed.

(** A store full of stale numbers. *)
Definition junk : store := fun a => 77 + N.of_nat (length a).
