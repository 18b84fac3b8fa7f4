(** C44: integers read by a C# client.  C45: C# replicas of Rust states. *)
From Verif Require Import Base Varint WireFmt Utf8 Types Ser Spec De Log State StateSpec Coll ValInd VarintProofs WireProofs SerProofs TypeProofs EqProofs DeProofs RoundTrip MergeProofs NormProofs LogProofs TreeProofs CohProofs HandleProofs OpProofs ExecProofs ReplayProofs FrameProofs KeepProofs SimProofs Examples PropLog PropReplay PropState CSharp CSharpProofs CSharpSim.

(** ** C44 *)

Lemma int_bytes m k z h : in_range k z = true -> to_bytes m (VInt k z) h = Ok (leb128 (wire_num k z)).
Proof.
  intros R. apply (large_map_keys m (TInt k) (VInt k z) h); try reflexivity.
  - cbn. now destruct k; rewrite R.
  - cbn [enc]. pose proof (zigzag_bound k z R) as B. pose proof (N.pow_le_mono_r 2 (ibits k) 64 ltac:(lia) ltac:(destruct k; cbn; lia)) as B'.
    pose proof (leb128_len_le (wire_num k z) 9) as L. change (2 ^ 64) with 18446744073709551616 in B'. change (128 ^ N.succ 9) with 1180591620717411303424 in L. lia.
Qed.

Theorem c44_ints : forall m k z h rest, in_range k z = true -> (k = I64 -> - 2 ^ 62 <= z < 2 ^ 62)%Z ->
  exists bs, to_bytes m (VInt k z) h = Ok bs /\ c_int k (bs ++ rest) = Ok (z, rest).
Proof.
  intros m k z h rest R H. exists (leb128 (wire_num k z)). split; [now apply int_bytes|].
  rewrite c_int_spec by exact R. assert (cint_safe k z = true) as ->; [|reflexivity]. unfold cint_safe. destruct k; try exact R.
  specialize (H eq_refl). unfold int_safe. cbn. lia.
Qed.
Print Assumptions c44_ints.
(** [Int64]s outside the half range are read as another number, all of them. *)
Theorem c44_i64_refuted : forall m z h, in_range I64 z = true -> ~ (- 2 ^ 62 <= z < 2 ^ 62)%Z ->
  exists bs z', to_bytes m (VInt I64 z) h = Ok bs /\ c_int I64 bs = Ok (z', []) /\ z' <> z.
Proof.
  intros m z h R H. exists (leb128 (wire_num I64 z)), (int_back I64 z). split; [now apply int_bytes|].
  pose proof (c_int_spec I64 z [] R) as E. rewrite app_nil_r in E. rewrite E. unfold cint_safe, int_back.
  destruct (int_safe I64 z) eqn:S.
  - exfalso. apply H. unfold int_safe in S. cbn in S. lia.
  - split; [reflexivity|]. cbn. destruct (z <? 0)%Z; lia.
Qed.
Print Assumptions c44_i64_refuted.
(** The smallest [Int32], which a Rust reader gets wrong (C02), and the smallest [Int64]. *)
Example c44_case :
  to_bytes Debug (VInt I32 (-2147483648)) junk = Ok [255; 255; 255; 255; 15] /\
  c_int I32 [255; 255; 255; 255; 15; 7] = Ok ((-2147483648)%Z, [7]) /\
  int_deserialize Debug I32 [255; 255; 255; 255; 15; 7] = Ok (0%Z, [7]) /\
  c_int U64 [255; 255; 255; 255; 255; 255; 255; 255; 255; 1] = Ok ((2 ^ 64 - 1)%Z, []) /\
  to_bytes Debug (VInt I64 (- 2 ^ 63)) junk = Ok [255; 255; 255; 255; 255; 255; 255; 255; 255; 1] /\
  c_int I64 [255; 255; 255; 255; 255; 255; 255; 255; 255; 1] = Ok (0%Z, []).
Proof. vm_compute. repeat split. Qed.

(** ** C45 *)

(** [cls t c]: [c] is the class generated for [t].  [cls_ok c]: it and the classes of its fields can
    be constructed, and no type parameter is instantiated with [String].  [looks v w]: the object has
    the contents of the value.  A class and a value: *)
Definition cPoint : cty := CStruct [(0, (false, CInt I32)); (1, (false, CInt I32)); (2, (false, CInt I32))].
Definition cMaybe (c : cty) : cty := CEnum [(0, []); (1, [(0, (true, c))])].
Definition cGame : cty := CStruct [(0, (false, CList cPoint)); (1, (false, CMap (cMaybe cPoint))); (2, (false, CBool))].

(** What a Rust program writes, a C# program decodes to an object with the same contents. *)
Theorem c45_decode : forall m t c v h, ty_ok t = true -> cls t c = true -> cls_ok c = true -> wt t v = true ->
  c_carried v = true -> lenN (enc v) < 2 ^ 31 ->
  exists bs w, to_bytes m v h = Ok bs /\ c_deser c bs = Ok (w, []) /\ looks v w = true.
Proof.
  intros m t c v h O C K W Ca L. destruct (c_decode t c v [] O C K W Ca L (fun _ => eq_refl)) as (w & D & Lk). rewrite app_nil_r in D.
  exists (enc v), w. split; [|auto]. apply (large_map_keys m t v h O W); [change (2 ^ 32) with (2 * 2 ^ 31); lia|now apply carried_writable].
Qed.
Print Assumptions c45_decode.

(** The calls on the Rust side and the C# replica: [cfits] bounds the logged entries, below 2^31 bytes
    each, with [u32] path segments. *)
Theorem c45_converge : forall m m' t c lg v w cs,
  ty_ok t = true -> state_ty t = true -> cls t c = true -> cls_ok c = true ->
  wt t v = true -> placed (mkRt lg Root) t v -> looks v w = true -> legal m t v cs ->
  exists v' evs rets b, exec m t v cs = (v', (evs, Ok rets)) /\ length rets = length cs /\
    feeds m lg (rl_new []) evs = Ok (mkRL b 0) /\
    (Forall cfits (map fst b) ->
     exists bs b' w', buf_bytes m' b = Ok (bs, b') /\ c_replay c w bs = (w', Ok tt) /\ looks v' w' = true).
Proof.
  intros m m' t c lg v w cs O S C K W Pl Lk Lg. apply placed_coh in Pl; try assumption.
  destruct (exec_effect m t (mkRt lg Root) O S cs v W Pl Lg) as (v' & evs & rets & es & E & W' & C' & Len & L & T & Rp).
  exists v', evs, rets, (bufd es). split; [exact E|]. split; [exact Len|].
  change (collect_values (rt_path (mkRt lg Root))) with (@nil N) in L. rewrite map_rel_nil in L. split; [exact (L [])|].
  rewrite map_fst_bufd. intros F.
  assert (Ff : Forall fits es) by (eapply Forall_impl; [|exact F]; intros e [X Y]; split; [exact X|change (2 ^ 32) with (2 * 2 ^ 31); lia]).
  destruct (buf_bytes_spec m' (bufd es)) as (b' & Eb & _); [now rewrite map_fst_bufd|].
  assert (Fo : Forall entry_ok es) by (eapply Forall_impl; [|exact F]; intros e [X _]; exact X).
  destruct (Rp m v Fo W (same_refl v)) as (u & H & Wu & Su).
  destruct (c_sim_all m t c es O S C K T F v w u W Lk H) as (w' & Hc & Lu).
  exists (concat (map entry_wire es)), b', w'. split; [now rewrite Eb, map_fst_bufd|]. split; [now apply c_replay_all|].
  now rewrite (looks_same v' u w' Su).
Qed.
Print Assumptions c45_converge.

(** A C# replica made from a snapshot. *)
Theorem c45_snapshot : forall m m' t c lg v cs h,
  ty_ok t = true -> state_ty t = true -> cls t c = true -> cls_ok c = true -> wt t v = true -> placed (mkRt lg Root) t v ->
  c_carried v = true -> lenN (enc v) < 2 ^ 31 -> legal m t v cs ->
  exists snap w, to_bytes m v h = Ok snap /\ c_deser c snap = Ok (w, []) /\ looks v w = true /\
  exists v' evs rets b, exec m t v cs = (v', (evs, Ok rets)) /\ feeds m lg (rl_new []) evs = Ok (mkRL b 0) /\
    (Forall cfits (map fst b) ->
     exists bs b' w', buf_bytes m' b = Ok (bs, b') /\ c_replay c w bs = (w', Ok tt) /\ looks v' w' = true).
Proof.
  intros m m' t c lg v cs h O S C K W Pl Ca L Lg. destruct (c45_decode m t c v h O C K W Ca L) as (snap & w & E & D & Lk).
  exists snap, w. repeat (split; [assumption|]). destruct (c45_converge m m' t c lg v w cs O S C K W Pl Lk Lg) as (v' & evs & rets & b & E' & _ & R).
  exists v', evs, rets, b. auto.
Qed.
Print Assumptions c45_snapshot.

(** A fresh C# object stands for a fresh Rust value, unless there are arrays. *)
Theorem c45_fresh : forall t c r, ty_ok t = true -> cls t c = true -> cls_ok c = true -> no_arrays t = true ->
  exists w, c_new c = Ok w /\ looks (dflt t r) w = true.
Proof. intros t c r O C K N. now apply (fresh_object t). Qed.
Print Assumptions c45_fresh.

(** The log of PropState, on a C# replica. *)
Definition c_ship (t : ty) (c : cty) (v : val) (cs : list call) : res (res unit * bool * cval) :=
  let '(v', (evs, o)) := exec Debug t v cs in
  do L <- feeds Debug 1 (rl_new []) evs;
  do (bs, _) <- buf_bytes Debug (rl_inner L);
  do w <- c_new c;
  let '(w', o') := c_replay c w bs in
  Ok (o', looks v' w', w').
Example c45_case :
  cls tGame cGame = true /\ cls_ok cGame = true /\ no_arrays tGame = true /\
  c_ship tGame cGame (dflt tGame ex_rt) game_calls =
    Ok (Ok tt, true, CVStruct [(0, CVList [CVStruct [(0, CVInt 4); (1, CVInt 5); (2, CVInt 6)]]); (1, CVMap []); (2, CVBool false)]).
Proof. vm_compute. repeat split. Qed.

(** Where [cls_ok] fails.  A field declared with a type parameter that is [String] is skipped: its wire
    type is taken for [Varint]. *)
Definition tNamed : ty := TStruct (mkS true true) [(fst_ 0, TInt U32); (fpl 1, TStr)].
Definition cNamed : cty := CStruct [(0, (false, CInt U32)); (1, (true, CStr))].
Theorem c45_string_parameter_refuted : exists t c v bs w,
  ty_ok t = true /\ state_ty t = true /\ cls t c = true /\ wt t v = true /\ lossless t v = true /\
  to_bytes Debug v junk = Ok bs /\ c_deser c bs = Ok (w, []) /\ looks v w = false.
Proof.
  exists tNamed, cNamed, (VStruct true (Some rt_default) [(fst_ 0, VInt U32 7); (fpl 1, VStr [104; 105])]), [0; 7; 10; 2; 104; 105],
    (CVStruct [(0, CVInt 7); (1, CVStr None)]). vm_compute. repeat split.
Qed.
Print Assumptions c45_string_parameter_refuted.

(** [Maybe<List<..>>]: the constructor of the variant throws, so its updates cannot be replayed. *)
Theorem c45_parameter_constructor_refuted : exists t c v e w,
  ty_ok t = true /\ state_ty t = true /\ cls t c = true /\ wt t v = true /\ c_new c = Ok w /\ looks v w = true /\
  (exists v', handle_entry Debug t e v = (v', Ok tt)) /\ c_handle c e w = Panic.
Proof.
  exists (tMaybe (TList tPoint)), (cMaybe (CList cPoint)), (dflt (tMaybe (TList tPoint)) rt_default), (EUpdate [] [1]), (CVEnum 0 []).
  vm_compute. repeat split. eexists. reflexivity.
Qed.
Print Assumptions c45_parameter_constructor_refuted.

(** Arrays: a fresh Rust value has items where the fresh object has none. *)
Theorem c45_fresh_array_refuted : exists t c w, ty_ok t = true /\ state_ty t = true /\ cls t c = true /\ cls_ok c = true /\
  c_new c = Ok w /\ looks (dflt t rt_default) w = false.
Proof.
  exists (TStruct (mkS true true) [(fpl 0, TArr 2 (TInt U8))]), (CStruct [(0, (false, CVec (CInt U8)))]), (CVStruct [(0, CVVec [])]). vm_compute. repeat split.
Qed.
Print Assumptions c45_fresh_array_refuted.
