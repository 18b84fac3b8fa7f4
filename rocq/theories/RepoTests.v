(** The unit tests of steit/src, run on the model.  These are tests of the model, not proofs: they check that the
    model computes what the authors of the code expect of the code.  [cargo test] builds without optimization, so
    the mode is [Debug].  Literals without a suffix are [i32].
    Left out: string slices (the same code as strings), and in map.rs the hand-written key type [Key],
    whose field numbers 1 to 5 are used as [u32] keys. *)
From Verif Require Import Base Varint WireFmt Utf8 Types Ser Spec De Log State Coll Examples.

(** ** test_util.rs *)

(** test_util.rs 25-37. *)
Definition tFoo : ty := TStruct (mkS true false) [(fns 0, TInt I32); (fns 1, TInt I32)].
Definition foo (x y : Z) : val := VStruct true None [(fns 0, VInt I32 x); (fns 1, VInt I32 y)].

(** test_util.rs 62-64: [size] of [value.compute_size()]. *)
Definition t_size (v : val) : res N := do (n, _) <- compute Debug [] v fresh_store; Ok n.
(** test_util.rs 66-70. *)
Definition t_ser (v : val) : res bytes := do (b, _) <- unwrap (steit_serialize Debug v fresh_store); Ok b.
(** test_util.rs 76-81. *)
Definition t_nested (v : val) (tag : option N) : res bytes :=
  do (_, h) <- cache_size Debug [] v fresh_store;
  do (b, _) <- unwrap (ser_nested Debug tag true [] v (ser_cached Debug [] v) h); Ok b.
(** test_util.rs 87-98, with the outcome beside the value. *)
Definition t_merge (t : ty) (v : val) (bs : bytes) : val * res bytes := merge Debug t v bs.
Definition t_de (t : ty) (bs : bytes) : res val := do (v, _) <- unwrap (deserialize Debug t bs); Ok v.
(** test_util.rs 108-110. *)
Definition t_ser_de (t : ty) (v : val) : res val := do b <- t_ser v; t_de t b.

Definition i (z : Z) : val := VInt I32 z.
Definition some (z : Z) : val := VOpt (Some (i z)).
Definition none : val := VOpt None.
Definition somef (x y : Z) : val := VOpt (Some (foo x y)).

(** ** impls/array.rs *)
Example array_tests :
  map t_size [VArr [i 0; i 0]; VArr [i 1337; i 1337; i 1337; i 1337]] = [Ok 2; Ok 8] /\
  map t_ser [VArr [i 0]; VArr [i 1337; i 1338; i 42]] = [Ok [0]; Ok [242; 20; 244; 20; 84]] /\
  t_nested (VArr [i 0; i 0; i 0]) None = Ok [3; 0; 0; 0] /\
  t_nested (VArr [i 42; i 42; i 42]) (Some 2) = Ok [18; 3; 84; 84; 84] /\
  t_merge (TArr 3 (TInt I32)) (VArr [i 1; i 2; i 3]) [1; 2; 3] = (VArr [i (-1); i 1; i (-2)], Ok []) /\
  t_merge (TArr 3 (TInt I32)) (VArr [i 1; i 2; i 3]) [1] = (VArr [i (-1); i 2; i 3], Ok []).
Proof. vm_compute. auto 10. Qed.

(** ** impls/bool.rs *)
Example bool_tests :
  map t_ser [VBool false; VBool true] = [Ok [0]; Ok [1]] /\
  map (fun p => t_nested (VBool (fst p)) (snd p)) [(false, None); (true, None); (false, Some 10); (true, Some 10)]
    = [Ok [0]; Ok [1]; Ok []; Ok [80; 1]] /\
  map (fun p => t_merge TBool (VBool (fst p)) (snd p))
    [(false, [0]); (false, [1]); (false, [128; 128; 128; 128; 128; 128; 128; 128; 128; 2]); (true, [0]); (true, [42])]
    = [(VBool false, Ok []); (VBool true, Ok []); (VBool true, Ok []); (VBool false, Ok []); (VBool true, Ok [])].
Proof. vm_compute. auto. Qed.

(** ** impls/box.rs and impls/option.rs *)
Example box_tests : map t_size [VBox (i 0); VBox (i 1); VBox (i 1337)] = [Ok 1; Ok 1; Ok 2].
Proof. reflexivity. Qed.

(** option.rs [cached_size]: the caches of a new value are 0; [Some]'s content is at address [[0]]. *)
Example cached_size_test :
  cached_size Debug [O] (foo (-1) 0) fresh_store = Ok (0, fresh_store) /\
  match cache_size Debug [] (somef (-1) 0) fresh_store with
  | Ok (n, h) => n = 3 /\ cached_size Debug [O] (foo (-1) 0) h = Ok (2, h)
  | _ => False
  end.
Proof. vm_compute. auto. Qed.

Example option_tests :
  map t_size [none; some 0; some 1; some 1337] = [Ok 0; Ok 1; Ok 1; Ok 2] /\
  map t_ser [none; some 0; some 1337; somef 0 0; somef (-1) (-2)] = [Ok []; Ok [0]; Ok [242; 20]; Ok [0]; Ok [4; 0; 1; 8; 3]] /\
  map (fun p => t_nested (fst p) (snd p))
    [(none, None); (some 1, None); (none, Some 10); (some 1, Some 10); (somef 0 0, Some 10); (somef (-1) (-2), Some 10)]
    = [Ok [0]; Ok [1; 2]; Ok []; Ok [82; 1; 2]; Ok [82; 1; 0]; Ok [82; 5; 4; 0; 1; 8; 3]] /\
  map (fun p => t_merge (TOpt (TInt I32)) (fst p) (snd p)) [(some 1, []); (none, [0]); (some 0, [242; 20])]
    = [(some 1, Ok []); (some 0, Ok []); (some 1337, Ok [])] /\
  map (fun p => t_merge (TOpt tFoo) (fst p) (snd p)) [(somef (-1) (-2), [2; 8; 4]); (none, [2; 8; 4])]
    = [(somef (-1) 2, Ok []); (somef 0 2, Ok [])].
Proof. vm_compute. auto 10. Qed.

(** ** impls/hash_map.rs *)
Definition hm (l : list (Z * Z)) : val := VHash (map (fun p => (i (fst p), i (snd p))) l).
Example hash_map_tests :
  map t_size [hm []; hm [(0, 1)]; hm [(0, 1); (1, 2); (2, 3)]; hm [(1337, 1337)]]%Z = [Ok 0; Ok 2; Ok 6; Ok 4] /\
  t_ser (hm []) = Ok [] /\
  t_ser (VHash [(VInt U16 1337, i 1337)]) = Ok [185; 10; 242; 20] /\
  map (fun p => t_nested (hm (fst p)) (snd p)) [([], None); ([(0, 1)%Z], None); ([], Some 10); ([(0, 1)%Z], Some 10)]
    = [Ok [0]; Ok [2; 0; 2]; Ok []; Ok [82; 2; 0; 2]] /\
  t_merge (THash (TInt U8) (TInt I8)) (VHash []) [] = (VHash [], Ok []) /\
  t_merge (THash (TInt U8) (TInt I8)) (VHash []) [2; 1] = (VHash [(VInt U8 2, VInt I8 (-1))], Ok []) /\
  t_merge (THash (TInt I32) (TInt I32)) (hm [(2, -1)%Z]) [] = (hm [(2, -1)%Z], Ok []) /\
  (let ms := map hm [[(0, 1); (1, 2); (2, 3)]; [(0, -1); (-1, 2); (2, -3)]; [(-1337, 1337); (-1000000, 1000000)]; [(42, 42)]]%Z in
   map (t_ser_de (THash (TInt I32) (TInt I32))) ms = map Ok ms).
Proof. vm_compute. repeat split. Qed.

(** ** impls/string.rs: "234", the two-byte letter pi, "pi is roughly 3.14" *)
Definition pi : bytes := [207; 128].
Example string_tests :
  map t_size [VStr [50; 51; 52]; VStr pi;
    VStr (pi ++ [32; 105; 115; 32; 114; 111; 117; 103; 104; 108; 121; 32; 51; 46; 49; 52])] = [Ok 3; Ok 2; Ok 18] /\
  map t_ser [VStr [50; 51; 52]; VStr pi] = [Ok [50; 51; 52]; Ok [207; 128]] /\
  map (fun p => t_nested (VStr (fst p)) (snd p)) [([51; 51], None); (pi, None); ([51; 51], Some 10); (pi, Some 10)]
    = [Ok [2; 51; 51]; Ok [2; 207; 128]; Ok [82; 2; 51; 51]; Ok [82; 2; 207; 128]] /\
  t_merge TStr (VStr [102; 111; 111]) [51; 51] = (VStr [51; 51], Ok []) /\
  t_merge TStr (VStr [98; 97; 114]) [207; 128] = (VStr pi, Ok []).
Proof. vm_compute. auto 10. Qed.

(** ** impls/varint.rs *)
Example varint_tests :
  map (fun z => t_ser (i z)) [0; -1; 1; -2; 2]%Z = [Ok [0]; Ok [1]; Ok [2]; Ok [3]; Ok [4]] /\
  map (t_de (TInt I32)) [[0]; [1]; [2]; [3]; [4]] = [Ok (i 0); Ok (i (-1)); Ok (i 1); Ok (i (-2)); Ok (i 2)] /\
  (let xs := [(U64, 2 ^ 64 - 1); (U32, 2 ^ 32 - 1); (I32, 1000000); (I32, 42)]%Z in
   map (fun p => t_ser_de (TInt (fst p)) (VInt (fst p) (snd p))) xs = map (fun p => Ok (VInt (fst p) (snd p))) xs) /\
  map (fun p => t_nested (i (fst p)) (snd p)) [(0%Z, None); (1%Z, None); (0%Z, Some 10); (1%Z, Some 10)]
    = [Ok [0]; Ok [2]; Ok []; Ok [80; 2]].
Proof. vm_compute. repeat split. Qed.

(** ** impls/vec.rs *)
Example vec_tests :
  map t_size [VVec []; VVec [i 0]; VVec [i 0; i 0; i 0]; VVec [i 1337]] = [Ok 0; Ok 1; Ok 3; Ok 2] /\
  map t_ser [VVec []; VVec [i 0; i 0; i 0]; VVec [i 1337]] = [Ok []; Ok [0; 0; 0]; Ok [242; 20]] /\
  map (fun p => t_nested (fst p) (snd p)) [(VVec [], None); (VVec [i 0], None); (VVec [], Some 10); (VVec [i 0], Some 10)]
    = [Ok [0]; Ok [1; 0]; Ok []; Ok [82; 1; 0]] /\
  map (fun p => t_merge (TVec (TInt I32)) (VVec (fst p)) (snd p))
    [([], []); ([], [1]); ([i (-1)], []); ([i (-1)], [0; 242; 20; 0; 3; 0])]
    = [(VVec [], Ok []); (VVec [i (-1)], Ok []); (VVec [i (-1)], Ok []);
       (VVec [i (-1); i 0; i 1337; i 0; i (-2); i 0], Ok [])].
Proof. vm_compute. auto 10. Qed.

(** ** types/bytes.rs; [Bytes::from_value] is bytes.rs 23-27 *)
Definition fv (v : val) : val := match t_ser v with Ok b => VBytes b | _ => VBool false end.
Example bytes_tests :
  map t_size [fv none; fv (some 1337); fv (i 0); fv (foo 0 0); fv (foo (-1) (-1))] = [Ok 0; Ok 2; Ok 1; Ok 0; Ok 4] /\
  map t_ser [fv none; fv (some 1337); fv (i 0); fv (foo 0 0); fv (foo (-1) (-1))]
    = [Ok []; Ok [242; 20]; Ok [0]; Ok []; Ok [0; 1; 8; 1]] /\
  map (fun p => t_nested (fv (fst p)) (snd p))
    [(none, None); (some 1, None); (i 1, Some 10); (none, Some 10); (some 1, Some 10); (somef 0 0, Some 10); (somef (-1) (-2), Some 10)]
    = [Ok [0]; Ok [1; 2]; Ok [82; 1; 2]; Ok []; Ok [82; 1; 2]; Ok [82; 1; 0]; Ok [82; 5; 4; 0; 1; 8; 3]] /\
  t_merge TBytes (fv none) [242; 20] = (fv (some 1337), Ok []) /\
  t_merge TBytes (fv (foo (-1) (-1))) [8; 3] = (VBytes [0; 1; 8; 1; 8; 3], Ok []).
Proof. vm_compute. auto 10. Qed.

(** ** types/list.rs *)

(** Does calls on a new root, from a logger's [clear] on the second list, and gives the value, what the calls in the
    second list returned, and the bytes then in the logger.  Logger number 1. *)
Definition run (t : ty) (cs cs' : list call) : res (val * list oret * bytes) :=
  let '(v, (_, r)) := exec Debug t (dflt t ex_rt) cs in
  do _ <- r;
  let '(v', (evs, r')) := exec Debug t v cs' in
  do os <- r';
  do L <- feeds Debug 1 (rl_new []) evs;
  do (bs, _) <- buf_bytes Debug (rl_inner L);
  Ok (v', os, bs).
Definition value (r : res (val * list oret * bytes)) : val := match r with Ok (v, _, _) => v | _ => VBool false end.
Definition logged (r : res (val * list oret * bytes)) : res bytes := do (p, b) <- r; Ok b.

Definition on (o : op) : call := mkCall [] fresh_store o.
Definition push (z : Z) : call := on (OPush (i z)).
Definition pt (x y z : Z) : callback := fun r => mret (vPoint r x y z).
Definition push_pt (x y z : Z) : call := on (OPushWith (pt x y z)).
Definition tL : ty := TList (TInt I32).
Definition tLP : ty := TList tPoint.

(** [PartialEq] of points does not look at the runtime (field.rs, C40): their coordinates. *)
Definition xyz (o : option val) : option (list val) :=
  match o with Some (VStruct _ _ fs) => Some (map snd fs) | _ => None end.

Example list_op_tests :
  (* push_and_get *) list_get (value (run tL [push 1] [])) 0 = Some (i 1) /\
  (* push_and_check_log_01 *) logged (run tL [] [push 1; push 2]) = Ok [4; 8; 10; 1; 2; 4; 8; 10; 1; 4] /\
  (* push_and_check_log_02 *) logged (run tLP [] [push_pt (-1) (-1) (-1); push_pt 2 2 2])
    = Ok [9; 8; 10; 6; 0; 1; 8; 1; 16; 1; 9; 8; 10; 6; 0; 4; 8; 4; 16; 4] /\
  (* remove_and_get *) list_get (value (run tL [push 0; push 1; on (OSwapRemove 0)] [])) 0 = Some (i 1) /\
  (* remove_and_check_log *) logged (run tL [push 1; push 2; push 3] [on (OSwapRemove 1)]) = Ok [1; 9; 7; 0; 2; 1; 1; 10; 1; 6] /\
  (* iter *) list_iter (value (run tL [push 1; push 2; push 3; on (OSwapRemove 0)] [])) = [i 3; i 2] /\
  (* iter_mut_update_and_check_log *)
  logged (run tLP [push_pt (-1) (-1) (-1); push_pt 2 2 2; push_pt 3 3 3]
    [mkCall [SItem 0] fresh_store (OSet 0 (i 0)); mkCall [SItem 1] fresh_store (OSet 0 (i 3)); mkCall [SItem 2] fresh_store (OSet 0 (i 4))])
    = Ok [8; 0; 2; 2; 0; 0; 10; 1; 0; 8; 0; 2; 2; 1; 0; 10; 1; 6; 8; 0; 2; 2; 2; 0; 10; 1; 8] /\
  (* serialize_01 *) t_ser (value (run tL [push 1; push 0; on (OSwapRemove 0); push 2; push 3] [])) = Ok [0; 4; 6] /\
  (* serialize_02 *)
  t_ser (value (run tLP [push_pt (-1) (-1) (-1); push_pt 2 2 2; push_pt 3 3 3; on (OSwapRemove 1)] []))
    = Ok [6; 0; 1; 8; 1; 16; 1; 6; 0; 6; 8; 6; 16; 6].
Proof. vm_compute. auto 12. Qed.

Definition t_replay (t : ty) (cs : list call) (bs : bytes) : val * res unit := replay Debug t (value (run t cs [])) bs.
Definition t_merge' (t : ty) (cs : list call) (bs : bytes) : val * res bytes := merge Debug t (value (run t cs [])) bs.

(** Merging and replaying have no logger events in the model; that nothing is logged is in their types. *)
Example list_merge_replay_tests :
  (* merge_no_log *) (let '(v, r) := t_merge' tL [push 10; push 20] [40; 60] in list_get v 3 = Some (i 30) /\ r = Ok []) /\
  (* merge_push_new *)
  (let '(v, r) := t_merge' tLP [push_pt (-1) (-1) (-1)] [2; 16; 7] in xyz (list_get v 1) = Some [i 0; i 0; i (-4)] /\ r = Ok []) /\
  (* replay_push_no_log *) (let '(v, r) := t_replay tL [] [4; 8; 10; 1; 1] in list_get v 0 = Some (i (-1)) /\ r = Ok tt) /\
  (* replay_push_next_index *)
  (let '(v, r) := t_replay tLP [push_pt (-1) (-1) (-1)] [9; 8; 10; 6; 0; 3; 8; 2; 16; 10] in
   xyz (list_get v 1) = Some [i (-2); i 1; i 5] /\ r = Ok tt) /\
  (* replay_update_out_of_bounds *) snd (t_replay tL [] [7; 0; 2; 1; 0; 10; 1; 1]) = Err InvalidData /\
  (* replay_update *) (let '(v, r) := t_replay tL [push 0] [7; 0; 2; 1; 0; 10; 1; 1] in list_get v 0 = Some (i (-1)) /\ r = Ok tt) /\
  (* replay_update_nested *)
  (let '(v, r) := t_replay tLP [push_pt (-1) (-1) (-1)] [8; 0; 2; 2; 0; 2; 10; 1; 100] in
   xyz (list_get v 0) = Some [i (-1); i (-1); i 50] /\ r = Ok tt) /\
  (* replay_swap_remove *)
  (let '(v, r) := t_replay tLP [push_pt (-1) (-1) (-1); push_pt 2 2 2] [1; 9; 12; 0; 2; 1; 0; 10; 6; 0; 4; 8; 4; 16; 4] in
   xyz (list_get v 0) = Some [i 2; i 2; i 2] /\ list_get v 1 = None /\ r = Ok tt).
Proof. vm_compute. auto 20. Qed.

(** ** types/map/map.rs *)
Definition ins (k : N) (z : Z) : call := on (OInsert k (i z)).
Definition ins_pt (k : N) (x y z : Z) : call := on (OInsertWith k (pt x y z)).
Definition rem (k : N) : call := on (ORemove k).
Definition tM (k : mkey) : ty := TMap k (TInt I32).
Definition tMP (k : mkey) : ty := TMap k tPoint.

Example map_op_tests :
  (* insert_and_get *) map_get (value (run (tM K8) [ins 17 23] [])) 17 = Some (i 23) /\
  (* insert_and_check_log_01 *)
  logged (run (tM K16) [] [ins 1 1; ins 2 2]) = Ok [7; 0; 2; 1; 1; 10; 1; 2; 7; 0; 2; 1; 2; 10; 1; 4] /\
  (* insert_and_check_log_02 *)
  logged (run (tMP K32) [] [ins_pt 3 (-1) (-1) (-1); ins_pt 7 2 2 2])
    = Ok [12; 0; 2; 1; 3; 10; 6; 0; 1; 8; 1; 16; 1; 12; 0; 2; 1; 7; 10; 6; 0; 4; 8; 4; 16; 4] /\
  (* remove_and_get *) map_get (value (run (tM K32) [ins 2 0; ins 3 1; rem 3] [])) 3 = None /\
  (* remove_and_check_log *) logged (run (tM K32) [ins 1 10; ins 2 20; ins 3 30] [rem 2]) = Ok [3; 12; 8; 2] /\
  (* iter *) map_iter K32 (value (run (tM K32) [ins 1 10; ins 2 20; ins 3 30; rem 1] [])) = ([(3, i 30); (2, i 20)], Ok tt) /\
  (* iter_mut_update_and_check_log *)
  logged (run (tMP K32) [ins_pt 2 (-1) (-1) (-1); ins_pt 4 2 2 2; ins_pt 5 3 3 3]
    [mkCall [SKey 2] fresh_store (OSet 0 (i 0)); mkCall [SKey 4] fresh_store (OSet 0 (i 3)); mkCall [SKey 5] fresh_store (OSet 0 (i 4))])
    = Ok [8; 0; 2; 2; 2; 0; 10; 1; 0; 8; 0; 2; 2; 4; 0; 10; 1; 6; 8; 0; 2; 2; 5; 0; 10; 1; 8] /\
  (* serialize_01 *)
  t_ser (value (run (tM K8) [ins 2 20; ins 3 30; rem 2; ins 6 60; ins 7 70] [])) = Ok [24; 60; 48; 120; 56; 140; 1] /\
  (* serialize_02 *)
  t_ser (value (run (tMP K32) [ins_pt 2 (-1) (-1) (-1); ins_pt 3 2 2 2; ins_pt 1 3 3 3; rem 3] []))
    = Ok [18; 6; 0; 1; 8; 1; 16; 1; 10; 6; 0; 6; 8; 6; 16; 6].
Proof. vm_compute. auto 12. Qed.

Example map_merge_replay_tests :
  (* merge_no_log *) (let '(v, r) := t_merge' (tM K16) [ins 1 10; ins 2 20] [24; 60] in map_get v 3 = Some (i 30) /\ r = Ok []) /\
  (* merge_update_nested *)
  (let '(v, r) := t_merge' (tMP K8) [ins_pt 1 (-1) (-1) (-1); ins_pt 10 2 2 2] [82; 2; 8; 5] in
   xyz (map_get v 10) = Some [i 2; i (-3); i 2] /\ r = Ok []) /\
  (* merge_push_new *)
  (let '(v, r) := t_merge' (tMP K8) [] [18; 2; 16; 7] in xyz (map_get v 2) = Some [i 0; i 0; i (-4)] /\ r = Ok []) /\
  (* replay_insert_no_log *)
  (let '(v, r) := t_replay (tM K8) [] [7; 0; 2; 1; 7; 10; 1; 1] in map_get v 7 = Some (i (-1)) /\ r = Ok tt) /\
  (* replay_update *)
  (let '(v, r) := t_replay (tM K16) [ins 1 111] [7; 0; 2; 1; 1; 10; 1; 1] in map_get v 1 = Some (i (-1)) /\ r = Ok tt) /\
  (* replay_update_nested *)
  (let '(v, r) := t_replay (tMP K32) [ins_pt 3 (-1) (-1) (-1)] [8; 0; 2; 2; 3; 2; 10; 1; 100] in
   xyz (map_get v 3) = Some [i (-1); i (-1); i 50] /\ r = Ok tt) /\
  (* replay_remove *)
  (let '(v, r) := t_replay (tMP K32) [ins_pt 10 (-1) (-1) (-1); ins_pt 15 2 2 2] [3; 12; 8; 10] in
   map_get v 10 = None /\ xyz (map_get v 15) = Some [i 2; i 2; i 2] /\ r = Ok tt) /\
  (* replay_remove_key_not_found *) snd (t_replay (tM K16) [] [4; 12; 2; 1; 1]) = Err InvalidData.
Proof. vm_compute. auto 20. Qed.
