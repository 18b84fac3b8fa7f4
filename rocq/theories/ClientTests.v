(** The test of steit-derive/test-crate/src/lib.rs (277-423) on the Rust model, and the test program of
    the C# side, steit-csharp/tests/Test.cs, on the C# model.  The bytes in Test.cs were copied from the
    output of the Rust test, with some entries added: here the Rust model writes the same bytes, and the C#
    model replays them.  These are tests of the model, not proofs. *)
From Verif Require Import Base Varint WireFmt Utf8 Types Ser Spec De Log State Coll Examples PropState CSharp CsObj ObjSpec.

(** What the calls log, and the value they leave. *)
Definition logged (t : ty) (cs : list call) : res (bytes * val) :=
  let '(v, (evs, o)) := exec Debug t (dflt t ex_rt) cs in
  do _ <- o;
  do L <- feeds Debug 1 (rl_new []) evs;
  do (bs, _) <- buf_bytes Debug (rl_inner L);
  Ok (bs, v).
(** [|runtime| { let mut x = T::new(runtime); ...; x }]. *)
Definition made_by (t : ty) (cs : list call) : rt -> M val := fun r =>
  let '(v, (evs, o)) := exec Debug t (dflt t r) cs in (evs, do _ <- o; Ok v).
Definition at_ (p : list step) (o : op) : call := mkCall p junk o.
Definition i32 (z : Z) : val := VInt I32 z.

Definition tInner : ty := TStruct (mkS true true) [(fst_ 0, TInt I32); (fst_ 1, TBool)].
Definition tOuter : ty := TStruct (mkS true true) [(fst_ 0, TInt I32); (fst_ 1, TBool); (fst_ 2, tInner)].
Definition cInner : cty := CStruct [(0, (false, CInt I32)); (1, (false, CBool))].
Definition cOuter : cty := CStruct [(0, (false, CInt I32)); (1, (false, CBool)); (2, (false, cInner))].

(** lib.rs 278-293, Test.cs 11-16. *)
Definition tHello : ty := TStruct (mkS true true) [(fst_ 0, TList (TInt I32)); (fns 1, TVec (TInt I32))].
Definition cHello : cty := CStruct [(0, (false, CList (CInt I32))); (1, (false, CVec (CInt I32)))].
Definition hello_calls : list call :=
  [ at_ [] (OSetWith 0 (made_by (TList (TInt I32)) [at_ [] (OPush (i32 1)); at_ [] (OPush (i32 2)); at_ [] (OPush (i32 1337))]));
    at_ [] (OSet 1 (VVec [i32 (-1); i32 (-2); i32 1337])) ].
Definition hello_bytes : bytes := [2; 4; 2; 4; 242; 20; 10; 4; 1; 3; 242; 20].
Example hello_test :
  (do (_, v) <- logged tHello hello_calls; to_bytes Debug v junk) = Ok hello_bytes /\
  (do (v, _, _) <- o_deserialize cHello None 0 hello_bytes; Ok (erase v)) =
    Ok (CVStruct [(0, CVList [CVInt 1; CVInt 2; CVInt 1337]); (1, CVVec [CVInt (-1); CVInt (-2); CVInt 1337])]).
Proof. vm_compute. repeat split. Qed.

(** A replay as in Test.cs: the final contents, and what the handlers write. *)
Definition shown (ev : event) : N * option cval * option cval :=
  (match ev with EvField _ tag _ _ | EvVariant _ tag _ _ _ | EvPush _ tag _ | EvPop _ tag _ | EvInsert _ tag _ | EvRemove _ tag _ => tag end,
   option_map (fun e : N * cobj => erase (snd e)) (ev_old ev), option_map (fun e : N * cobj => erase (snd e)) (ev_new ev)).
Definition played (c : cty) (bs : bytes) : res (cval * list (N * option cval * option cval)) :=
  do (v, n) <- o_new c [] 0;
  let '((v', _, evs), o) := o_replay c v n bs in
  do _ <- o; Ok (erase v', map shown evs).
Definition inner (foo : Z) (bar : bool) : cval := CVStruct [(0, CVInt foo); (1, CVBool bar)].

(** lib.rs 297-307, Test.cs 41-50. *)
Definition outer_calls : list call :=
  [ at_ [] (OSet 0 (i32 127)); at_ [] (OSet 1 (VBool true));
    at_ [] (OSetWith 2 (made_by tInner [at_ [] (OSet 0 (i32 22)); at_ [] (OSet 1 (VBool true))]));
    at_ [SField 2] (OSet 0 (i32 160));
    at_ [] (OSetWith 2 (made_by tInner [])) ].
Definition outer_bytes : bytes :=
  [8; 0; 2; 1; 0; 10; 2; 254; 1] ++ [7; 0; 2; 1; 1; 10; 1; 1] ++ [10; 0; 2; 1; 2; 10; 4; 0; 44; 8; 1] ++
  [9; 0; 2; 2; 2; 0; 10; 2; 192; 2] ++ [4; 0; 2; 1; 2].
Example outer_test :
  (do (bs, _) <- logged tOuter outer_calls; Ok bs) = Ok outer_bytes /\
  played cOuter outer_bytes = Ok (CVStruct [(0, CVInt 127); (1, CVBool true); (2, inner 0 false)],
    [(0, Some (CVInt 0), Some (CVInt 127)); (1, Some (CVBool false), Some (CVBool true)); (2, Some (inner 0 false), Some (inner 22 true));
     (0, Some (CVInt 22), Some (CVInt 160)); (2, Some (inner 160 true), Some (inner 0 false))]) /\
  (do (w, _) <- played cOuter (outer_bytes ++ [1; 0]); Ok w) = Ok (CVStruct [(0, CVInt 0); (1, CVBool false); (2, inner 0 false)]).
Proof. vm_compute. repeat split. Qed.

(** lib.rs 318-321, Test.cs 74-79. *)
Definition tMulti : ty := TEnum true [((0, true), [(fst_ 0, TInt I32); (fst_ 1, TBool)]); ((1, true), [(fst_ 0, TInt I32); (fst_ 1, TBool)])].
Definition cMulti : cty := CEnum [(0, [(0, (false, CInt I32)); (1, (false, CBool))]); (1, [(0, (false, CInt I32)); (1, (false, CBool))])].
Definition multi_bytes : bytes := [4; 0; 10; 1; 1] ++ [9; 0; 2; 2; 1; 0; 10; 2; 136; 1].
Example multi_test :
  (do (bs, _) <- logged tMulti [at_ [] (OVSet 1 0 (i32 68))]; Ok bs) = Ok multi_bytes /\
  played cMulti multi_bytes = Ok (CVEnum 1 [(0, CVInt 68); (1, CVBool false)], [(0, Some (CVInt 0), Some (CVInt 68))]).
Proof. vm_compute. repeat split. Qed.

(** lib.rs 332-349, Test.cs 81-103. *)
Definition list1_calls : list call :=
  [ at_ [] (OPushWith (made_by tInner [at_ [] (OSet 0 (i32 6))]));
    at_ [] (OPushWith (made_by tInner [at_ [] (OSet 0 (i32 77)); at_ [] (OSet 1 (VBool true))]));
    at_ [] (OPushWith (made_by tInner [])); at_ [SItem 1] (OSet 0 (i32 68)); at_ [] (OSwapRemove 0) ].
Definition list1_bytes : bytes :=
  [5; 8; 10; 2; 0; 12] ++ [8; 8; 10; 5; 0; 154; 1; 8; 1] ++ [1; 8] ++ [9; 0; 2; 2; 1; 0; 10; 2; 136; 1] ++ [1; 9] ++ [4; 0; 2; 1; 0].
Example list1_test :
  (do (bs, _) <- logged (TList tInner) list1_calls; Ok bs) = Ok list1_bytes /\
  played (CList cInner) (list1_bytes ++ [4; 0; 2; 1; 1]) = Ok (CVList [inner 0 false; inner 0 false],
    [(0, None, Some (inner 6 false)); (1, None, Some (inner 77 true)); (2, None, Some (inner 0 false)); (0, Some (CVInt 77), Some (CVInt 68));
     (2, Some (inner 0 false), None); (0, Some (inner 6 false), Some (inner 0 false)); (1, Some (inner 68 true), Some (inner 0 false))]).
Proof. vm_compute. repeat split. Qed.

(** lib.rs 353-359, Test.cs 105-125. *)
Definition i8 (z : Z) : val := VInt I8 z.
Definition list2_bytes : bytes := [4; 8; 10; 1; 20; 4; 8; 10; 1; 22; 4; 8; 10; 1; 0; 1; 9; 7; 0; 2; 1; 1; 10; 1; 0].
Example list2_test :
  (do (bs, _) <- logged (TList (TInt I8)) [at_ [] (OPush (i8 10)); at_ [] (OPush (i8 11)); at_ [] (OPush (i8 0)); at_ [] (OSwapRemove 1)]; Ok bs) = Ok list2_bytes /\
  played (CList (CInt I8)) list2_bytes = Ok (CVList [CVInt 10; CVInt 0],
    [(0, None, Some (CVInt 10)); (1, None, Some (CVInt 11)); (2, None, Some (CVInt 0)); (2, Some (CVInt 0), None); (1, Some (CVInt 11), Some (CVInt 0))]).
Proof. vm_compute. repeat split. Qed.

(** lib.rs 363-380, Test.cs 127-148.  Test.cs has one entry more, the fourth, and writes the key 0 of the last,
    which Rust leaves out. *)
Definition map1_calls : list call :=
  [ at_ [] (OInsertWith 5 (made_by tInner [at_ [] (OSet 0 (i32 6))]));
    at_ [] (OInsertWith 1 (made_by tInner [at_ [] (OSet 0 (i32 77)); at_ [] (OSet 1 (VBool true))]));
    at_ [] (OInsertWith 0 (made_by tInner [])); at_ [SKey 1] (OSet 0 (i32 68)); at_ [] (ORemove 0) ].
Definition map1_first : bytes := [8; 0; 2; 1; 5; 10; 2; 0; 12] ++ [11; 0; 2; 1; 1; 10; 5; 0; 154; 1; 8; 1] ++ [4; 0; 2; 1; 0].
Definition map1_last : bytes := [9; 0; 2; 2; 1; 0; 10; 2; 136; 1].
Example map1_test :
  (do (bs, _) <- logged (TMap K16 tInner) map1_calls; Ok bs) = Ok (map1_first ++ map1_last ++ [1; 12]) /\
  played (CMap cInner) (map1_first ++ [10; 0; 2; 1; 0; 10; 4; 0; 84; 8; 1] ++ map1_last ++ [3; 12; 8; 0]) = Ok (CVMap [(5, inner 6 false); (1, inner 68 true)],
    [(5, None, Some (inner 6 false)); (1, None, Some (inner 77 true)); (0, None, Some (inner 0 false)); (0, Some (inner 0 false), Some (inner 42 true));
     (0, Some (CVInt 77), Some (CVInt 68)); (0, Some (inner 42 true), None)]).
Proof. vm_compute. repeat split. Qed.

(** lib.rs 384-390, Test.cs 150-170; Test.cs has one entry more, the fourth. *)
Definition map2_first : bytes := [7; 0; 2; 1; 1; 10; 1; 20; 7; 0; 2; 1; 3; 10; 1; 22; 7; 0; 2; 1; 7; 10; 1; 0].
Example map2_test :
  (do (bs, _) <- logged (TMap K32 (TInt I8)) [at_ [] (OInsert 1 (i8 10)); at_ [] (OInsert 3 (i8 11)); at_ [] (OInsert 7 (i8 0)); at_ [] (ORemove 1)]; Ok bs) =
    Ok (map2_first ++ [3; 12; 8; 1]) /\
  played (CMap (CInt I8)) (map2_first ++ [7; 0; 2; 1; 7; 10; 1; 1] ++ [3; 12; 8; 1]) = Ok (CVMap [(3, CVInt 11); (7, CVInt (-1))],
    [(1, None, Some (CVInt 10)); (3, None, Some (CVInt 11)); (7, None, Some (CVInt 0)); (7, Some (CVInt 0), Some (CVInt (-1))); (1, Some (CVInt 10), None)]).
Proof. vm_compute. repeat split. Qed.

(** lib.rs 394-412, Test.cs 202-217.  Inside the hits of a hit: unfolded twice. *)
Definition tAction0 : ty := TEnum true [((0, true), [(fst_ 0, TList (TInt U8))])].
Definition tHit (t : ty) : ty :=
  TStruct (mkS true true) [(fst_ 0, TBox t); (fst_ 1, TBox t); (fst_ 2, TBox t); (fst_ 3, TBox t); (fst_ 4, TBox t); (fst_ 5, TInt I32)].
Definition tAction (t : ty) : ty :=
  TEnum true [((0, true), [(fst_ 0, TList (TInt U8))]); ((1, true), [(fst_ 0, TInt U8); (fst_ 1, TInt U8); (fst_ 2, TList (tHit t))])].
Definition cAction0 : cty := CEnum [(0, [(0, (false, CList (CInt U8)))])].
Definition cHit (c : cty) : cty := CStruct [(0, (false, c)); (1, (false, c)); (2, (false, c)); (3, (false, c)); (4, (false, c)); (5, (false, CInt I32))].
Definition cAction (c : cty) : cty := CEnum [(0, [(0, (false, CList (CInt U8)))]); (1, [(0, (false, CInt U8)); (1, (false, CInt U8)); (2, (false, CList (cHit c)))])].
Definition hit_calls (z : Z) : list call := [at_ [] (OSet 5 (i32 z))].
Definition action_calls (t : ty) : list call :=
  [ at_ [] (OVSet 1 0 (VInt U8 1)); at_ [] (OVSet 1 1 (VInt U8 2));
    at_ [] (OVSetWith 1 2 (made_by (TList (tHit t)) (map (fun z => at_ [] (OPushWith (made_by (tHit t) (hit_calls z)))) [6; 7; 8; 9]%Z))) ].
Definition hit_bytes (b : N) : bytes := [17; 2; 1; 0; 10; 1; 0; 18; 1; 0; 26; 1; 0; 34; 1; 0; 40; b].
Definition action_bytes : bytes :=
  [4; 0; 10; 1; 1] ++ [8; 0; 2; 2; 1; 0; 10; 1; 1] ++ [8; 0; 2; 2; 1; 1; 10; 1; 2] ++
  [79; 0; 2; 2; 1; 2; 10; 72] ++ hit_bytes 12 ++ hit_bytes 14 ++ hit_bytes 16 ++ hit_bytes 18.
Definition raw : cval := CVEnum 0 [(0, CVList [])].
Definition hit (z : Z) : cval := CVStruct [(0, raw); (1, raw); (2, raw); (3, raw); (4, raw); (5, CVInt z)].
Example action_test :
  (do (bs, _) <- logged (tAction (tAction tAction0)) (action_calls (tAction tAction0)); Ok bs) = Ok action_bytes /\
  (do (w, evs) <- played (cAction (cAction cAction0)) action_bytes; Ok (w, length evs)) =
    Ok (CVEnum 1 [(0, CVInt 1); (1, CVInt 2); (2, CVList [hit 6; hit 7; hit 8; hit 9])], 3%nat).
Proof. vm_compute. repeat split. Qed.

(** Test.cs 219-223. *)
Example option_test :
  o_deserialize CStr None 0 [2; 51; 51] = Ok (OStr (Some [2; 51; 51]), [], 0) /\
  o_deserialize (COpt (CInt I16)) None 0 [] = Ok (OOpt (0, []) None, [], 1) /\
  o_deserialize (COpt (CInt I16)) None 0 [242; 20] = Ok (OOpt (0, []) (Some (OInt 1337)), [], 1).
Proof. vm_compute. repeat split. Qed.
