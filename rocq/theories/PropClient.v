(** C53: C# replay of arbitrary bytes.  C54: C# clients of another version of the type. *)
From Verif Require Import Base Varint WireFmt Utf8 Types Ser Spec De Log State StateSpec Coll ValInd VarintProofs WireProofs SerProofs TypeProofs EqProofs DeProofs RoundTrip MergeProofs NormProofs LogProofs TreeProofs CohProofs HandleProofs OpProofs ExecProofs ReplayProofs FrameProofs KeepProofs SimProofs Examples PropLog PropReplay PropState CSharp CSharpProofs CSharpSim CSharpSafe CSharpEvo CSharpEvoSim PropCSharp.

(** ** C53 *)

(** The entries at the front of [bs], each as the client reads it. *)
Inductive reads : bytes -> list entry -> bytes -> Prop :=
| RNil bs : reads bs [] bs
| RCons bs sub rest e x rest' es bs' : c_nested bs = Ok (sub, rest) -> c_deser cEntry sub = Ok (x, rest') -> c_entry x = Ok e ->
    reads rest es bs' -> reads bs (e :: es) bs'.

(** Any bytes, replayed onto any object of the class of a state type: the client stops at the end or
    with an exception, the object is an object of its class, and its contents are what exactly the
    entries before the offending one make of it.  [cwt c w]: integers in range, dictionary keys distinct,
    every field there. *)
Theorem c53_any_bytes : forall t c w bs, ty_ok t = true -> state_ty t = true -> prim_under t = false -> cls t c = true -> cwt c w = true ->
  exists w' o es rest, c_replay c w bs = (w', o) /\ cwt c w' = true /\ reads bs es rest /\ c_handle_all c es w = Ok w' /\
    ((o = Ok tt /\ rest = []) \/
     (o = Panic /\ rest <> [] /\ forall e rest', reads rest [e] rest' -> c_handle c e w' = Panic)).
Proof.
  intros t c w bs O S P C W.
  destruct (c_loop_oks c (cls_cgen t c O C) (cls_state t c S C P) (length bs) w bs W (le_n _)) as (w' & o & es & rest & E & W' & D & H & R).
  unfold c_replay, run. rewrite E. exists w', (do _ <- o; Ok tt), es, rest. split; [reflexivity|]. split; [exact W'|]. split.
  - clear - D. induction D as [|? ? ? ? ? E _ IH]; [constructor|]. unfold c_next in E.
    destruct (c_nested bs) as [[sub rest0]| | |] eqn:N; cbn [bind] in E; try discriminate E.
    destruct (c_deser cEntry sub) as [[x rest']| | |] eqn:X; cbn [bind] in E; try discriminate E.
    destruct (c_entry x) as [e'| | |] eqn:Y; cbn [bind] in E; try discriminate E. injection E as -> ->. econstructor; eassumption.
  - split; [exact H|]. destruct R as [[-> R]|(-> & R & R')]; [now left|right]. split; [reflexivity|]. split; [exact R|]. intros e rest' X. inversion X; subst.
    match goal with X : reads _ [] _ |- _ => inversion X; subst end.
    assert (Nx : c_next rest = Ok (e, rest')).
    { unfold c_next. repeat match goal with X : ?a = Ok _ |- context [?a] => rewrite X; cbn [bind] end. reflexivity. }
    rewrite Nx in R'. destruct R' as [R'|(e' & r' & E1 & E2)]; [discriminate R'|]. now inversion E1; subst.
Qed.
Print Assumptions c53_any_bytes.

(** A log cut in the middle of its second entry; an update of a field and a pop from an empty list. *)
Example c53_case :
  cls tGame cGame = true /\ prim_under tGame = false /\
  (do w <- c_new cGame; Ok (cwt cGame w, c_replay cGame w [12; 8; 2; 1; 0; 10; 6; 0; 2; 8; 4; 16; 6; 9; 0; 2; 3; 0])) =
    Ok (true, (CVStruct [(0, CVList [CVStruct [(0, CVInt 1); (1, CVInt 2); (2, CVInt 3)]]); (1, CVMap []); (2, CVBool false)], Panic)) /\
  (do w <- c_new cGame; Ok (c_replay cGame w [7; 0; 2; 1; 2; 10; 1; 1; 4; 9; 2; 1; 0])) =
    Ok (CVStruct [(0, CVList []); (1, CVMap []); (2, CVBool true)], Panic).
Proof. vm_compute. repeat split. Qed.

(** ** C54 *)

(** [cls t' c]: the client's class was generated for [t'].  [evo lax t c]: it is a class of another
    version of [t]: structs and variants have more or fewer fields, in any order, enums more or fewer
    variants; with [lax], fields of the same tag may even have another wire type.  [sees v c w]: the
    fields the object has and the value has have the same contents, all other fields are as in a fresh
    object; an object of an enum class is fresh if the value's variant is unknown to it. *)
Theorem c54_decode : forall m lax t t' c v h, ty_ok t = true -> ty_ok t' = true -> cls t' c = true -> cls_ok c = true -> evo lax t c = true ->
  wt t v = true -> c_carried v = true -> lenN (enc v) < 2 ^ 31 ->
  exists bs w, to_bytes m v h = Ok bs /\ c_deser c bs = Ok (w, []) /\ sees v c w.
Proof.
  intros m lax t t' c v h O O' C' K C W Ca L. destruct (c_decode_evo t lax c v [] O C K (cls_cgen t' c O' C') W Ca L (fun _ => eq_refl)) as (w & D & Lk).
  rewrite app_nil_r in D. exists (enc v), w. split; [|auto].
  apply (large_map_keys m t v h O W); [change (2 ^ 32) with (2 * 2 ^ 31); lia|now apply carried_writable].
Qed.
Print Assumptions c54_decode.

(** Replicas: an object that shows a state, fed the log of any calls on the state, shows it afterwards. *)
Theorem c54_converge : forall m m' t t' c lg v w cs,
  ty_ok t = true -> state_ty t = true -> ty_ok t' = true -> cls t' c = true -> cls_ok c = true -> evo false t c = true ->
  wt t v = true -> placed (mkRt lg Root) t v -> sees v c w -> legal m t v cs ->
  exists v' evs rets b, exec m t v cs = (v', (evs, Ok rets)) /\ length rets = length cs /\
    feeds m lg (rl_new []) evs = Ok (mkRL b 0) /\
    (Forall cfits (map fst b) ->
     exists bs b' w', buf_bytes m' b = Ok (bs, b') /\ c_replay c w bs = (w', Ok tt) /\ sees v' c w').
Proof.
  intros m m' t t' c lg v w cs O S O' C' K C W Pl Lk Lg. apply placed_coh in Pl; try assumption.
  destruct (exec_effect m t (mkRt lg Root) O S cs v W Pl Lg) as (v' & evs & rets & es & E & W' & Co' & Len & L & T & Rp).
  exists v', evs, rets, (bufd es). split; [exact E|]. split; [exact Len|].
  change (collect_values (rt_path (mkRt lg Root))) with (@nil N) in L. rewrite map_rel_nil in L. split; [exact (L [])|].
  rewrite map_fst_bufd. intros F.
  assert (Ff : Forall fits es) by (eapply Forall_impl; [|exact F]; intros e [X Y]; split; [exact X|change (2 ^ 32) with (2 * 2 ^ 31); lia]).
  destruct (buf_bytes_spec m' (bufd es)) as (b' & Eb & _); [now rewrite map_fst_bufd|].
  assert (Fo : Forall entry_ok es) by (eapply Forall_impl; [|exact F]; intros e [X _]; exact X).
  destruct (Rp m v Fo W (same_refl v)) as (u & H & Wu & Su).
  destruct (c_sim_evo_all m t c es O S C K (cls_cgen t' c O' C') T F v w u W Lk H) as (w' & Hc & Lu).
  exists (concat (map entry_wire es)), b', w'. split; [now rewrite Eb, map_fst_bufd|]. split; [now apply c_replay_all|].
  now apply (sees_same v' u).
Qed.
Print Assumptions c54_converge.

(** A fresh object shows a fresh state, unless there are arrays. *)
Theorem c54_fresh : forall lax t t' c r, ty_ok t = true -> ty_ok t' = true -> cls t' c = true -> cls_ok c = true -> evo lax t c = true -> no_arrays t = true ->
  exists w, c_new c = Ok w /\ sees (dflt t r) c w.
Proof.
  intros lax t t' c r O O' C' K C N. destruct (c_new_tot c) as [w E]; [exact (cls_cgen t' c O' C')|exact K|]. exists w. split; [exact E|]. now apply (fresh_evo t lax).
Qed.
Print Assumptions c54_fresh.

(** A client of a later version: points gained a field 3 and lost field 1; the game gained a field
    before the others; [Maybe] became an enum with a third variant and no [Some]. *)
Definition tPoint2 : ty := TStruct (mkS true true) [(fst_ 3, TInt U8); (fst_ 2, TInt I32); (fst_ 0, TInt I32)].
Definition tMaybe2 : ty := TEnum true [((0, true), []); ((2, true), [(fst_ 0, tPoint2)])].
Definition tGame2 : ty := TStruct (mkS true true) [(fst_ 9, TList tPoint2); (fst_ 0, TList tPoint2); (fst_ 1, TMap K16 tMaybe2)].
Definition cPoint2 : cty := CStruct [(3, (false, CInt U8)); (2, (false, CInt I32)); (0, (false, CInt I32))].
Definition cMaybe2 : cty := CEnum [(0, []); (2, [(0, (false, cPoint2))])].
Definition cGame2 : cty := CStruct [(9, (false, CList cPoint2)); (0, (false, CList cPoint2)); (1, (false, CMap cMaybe2))].
Example c54_case :
  ty_ok tGame2 = true /\ cls tGame2 cGame2 = true /\ cls_ok cGame2 = true /\ evo false tGame cGame2 = true /\
  (do w <- c_new cGame2;
   let '(_, (evs, _)) := exec Debug tGame (dflt tGame ex_rt) (firstn 5 game_calls) in
   do L <- feeds Debug 1 (rl_new []) evs;
   do (bs, _) <- buf_bytes Debug (rl_inner L); Ok (c_replay cGame2 w bs)) =
    Ok (CVStruct [(9, CVList []); (0, CVList [CVStruct [(3, CVInt 0); (2, CVInt 3); (0, CVInt 1)]; CVStruct [(3, CVInt 0); (2, CVInt 6); (0, CVInt 4)]]);
                  (1, CVMap [(6, CVEnum 0 [])])], Ok tt).
Proof. vm_compute. repeat split. Qed.

(** With a changed wire type a snapshot is decoded without the field (c54_decode, [lax]), but an update
    of the field is decoded as the other type: the replayer compares its wire type with nothing. *)
Theorem c54_wire_type_refuted : exists t t' c v e v' w w',
  ty_ok t = true /\ state_ty t = true /\ ty_ok t' = true /\ cls t' c = true /\ cls_ok c = true /\ evo true t c = true /\
  wt t v = true /\ c_deser c (enc v) = Ok (w, []) /\ sees v c w /\
  handle_entry Debug t e v = (v', Ok tt) /\ c_handle c e w = Ok w' /\ ~ sees v' c w'.
Proof.
  exists (TStruct (mkS true true) [(fst_ 0, TList (TInt U8))]), (TStruct (mkS true true) [(fst_ 0, TInt U8)]), (CStruct [(0, (false, CInt U8))]),
    (VStruct true (Some rt_default) [(fst_ 0, VList (nested rt_default 0) [])]), (EUpdate [0] [7]),
    (VStruct true (Some rt_default) [(fst_ 0, VList (nested rt_default 0) [VInt U8 7])]), (CVStruct [(0, CVInt 0)]), (CVStruct [(0, CVInt 7)]).
  repeat (split; [vm_compute; try reflexivity|]).
  all: try (split; [reflexivity|]); cbn.
  all: try (intros (_ & [H _] & _); discriminate H).
  repeat split. intros tag g c E N. destruct tag; [exfalso; apply N; now left|discriminate E].
Qed.
Print Assumptions c54_wire_type_refuted.
