(** C55, C56: Rust readers and replicas whose type is of another version. *)
From Verif Require Import Base Varint WireFmt Utf8 Types Ser Spec De Log State StateSpec Coll ValInd VarintProofs WireProofs SerProofs
  TypeProofs EqProofs DeProofs RoundTrip MergeProofs NormProofs LogProofs TreeProofs CohProofs HandleProofs OpProofs ExecProofs
  ReplayProofs FrameProofs KeepProofs SimProofs Examples PropLog PropReplay PropState Evo EvoProofs EvoBack EvoSim EvoGrow.

(** ** C55.  [evolves]: the reader's structs and variants may have gained, lost, or reordered fields, and its
    enums gained or lost variants, at any depth.  [view t']: fields both versions have, at the same wire
    type, are taken over, all others are default.  [takes]: the variants in the value are known to the
    reader, map keys fit, integers are in the half range (C02), and what the reader skips it can
    skip (C13). *)
Theorem c55_decode : forall m m' t t' v h, ty_ok t = true -> ty_ok t' = true -> evolves t t' = true ->
  wt t v = true -> writable v = true -> takes m' t' v = true -> lenN (enc v) < 2 ^ 32 ->
  exists bs, to_bytes m v h = Ok bs /\ deserialize m' t' bs = Ok (view t' rt_default v, []) /\ wt t' (view t' rt_default v) = true.
Proof.
  intros m m' t t' v h O O' E W Wr T L. exists (enc v). split; [now apply (large_map_keys m t v h O W L)|]. split; [|now apply (wt_view m' t)].
  unfold deserialize. pose proof (decode_ev m' t t' rt_default v [] O O' E W T) as X. rewrite app_nil_r in X. rewrite X; [reflexivity| |auto].
  change (2 ^ 63) with (2 ^ 31 * 2 ^ 32). lia.
Qed.
Print Assumptions c55_decode.

(** To the same version a value looks as it is. *)
Theorem c55_same_version : forall t r v, ty_ok t = true -> wt t v = true -> view t r v = norm r v.
Proof. exact view_self. Qed.
Print Assumptions c55_same_version.

(** Through a later version, which only gained fields and variants, and back: nothing is lost, although
    the builds of the three programs may differ. *)
Theorem c55_there_and_back : forall m m' m'' m''' t t' v h h', ty_ok t = true -> ty_ok t' = true -> keeps t t' = true ->
  wt t v = true -> writable v = true -> takes m' t' v = true -> takes m''' t v = true ->
  lenN (enc v) < 2 ^ 32 -> lenN (enc (view t' rt_default v)) < 2 ^ 32 ->
  exists bs w bs', to_bytes m v h = Ok bs /\ deserialize m' t' bs = Ok (w, []) /\
    to_bytes m'' w h' = Ok bs' /\ deserialize m''' t bs' = Ok (norm rt_default v, []).
Proof.
  intros m m' m'' m''' t t' v h h' O O' K W Wr T T' L L'. pose proof (keeps_evolves t t' K) as E.
  destruct (c55_decode m m' t t' v h O O' E W Wr T L) as (bs & S & D & W').
  destruct (c55_decode m'' m''' t' t (view t' rt_default v) h' O' O (keeps_back t t' O O' K) W' (writable_view m' t' _ _ O' T)
    (takes_back m''' t t' _ _ O O' K W T') L') as (bs' & S' & D' & _).
  exists bs, (view t' rt_default v), bs'. split; [exact S|]. split; [exact D|]. split; [exact S'|]. now rewrite (view_back t t') in D'.
Qed.
Print Assumptions c55_there_and_back.

(** [tAll] of another version: points gained field 3 and lost field 1, [Maybe] gained a variant, field 2
    became a string, 4 and 16 are gone, 20 is new. *)
Definition tPoint' : ty := TStruct (mkS true true) [(fst_ 3, TInt U8); (fst_ 2, TInt I32); (fst_ 0, TInt I32)].
Definition tMaybe' : ty := TEnum true [((2, true), [(fst_ 0, TBool)]); ((1, true), [(fst_ 0, tPoint')]); ((0, true), [])].
Definition tAll' : ty := TStruct (mkS true true)
  [ (fst_ 20, TMap K8 TBool); (fst_ 0, TList tPoint'); (fst_ 1, TMap K16 tMaybe'); (fns 2, TStr);
    (fns 3, TOpt TStr); (fns 5, TArr 2 TBool); (fns 6, TTup [TInt U8; TBytes]); (fns 7, THash TStr (TVec (TInt U16))) ].
Definition vPoint' (r : rt) (x z : Z) : val := VStruct true (Some r) [(fst_ 3, VInt U8 0); (fst_ 2, VInt I32 z); (fst_ 0, VInt I32 x)].
Example c55_case :
  ty_ok tAll' = true /\ evolves tAll tAll' = true /\ keeps tAll tAll' = false /\ takes Release tAll' (vAll ex_rt) = true /\
  let r := rt_default in
  (do bs <- to_bytes Debug (vAll ex_rt) junk; deserialize Release tAll' bs) = Ok (VStruct true (Some r)
    [ (fst_ 20, VMap (nested r 20) []);
      (fst_ 0, VList (nested r 0) [ vPoint' (nested (nested r 0) 0) 1 0; vPoint' (nested (nested r 0) 1) 0 0 ]);
      (fst_ 1, VMap (nested r 1)
         [ (6, vSome (nested (nested r 1) 6) (vPoint' (nested (nested (nested (nested r 1) 6) 1) 0) 7 (-536870912)));
           (2, vNone (nested (nested r 1) 2)) ]);
      (fns 2, VStr []);
      (fns 3, VOpt (Some (VStr [226; 130; 172])));
      (fns 5, VArr [VBool true; VBool false]);
      (fns 6, VTup [VInt U8 255; VBytes [0; 255]]);
      (fns 7, VHash [(VStr [97], VVec []); (VStr [], VVec [VInt U16 1; VInt U16 65535])]) ], []).
Proof. vm_compute. auto. Qed.
(** A version that gained things only, and back. *)
Definition tPoint3 : ty := TStruct (mkS true true) [(fst_ 3, TInt U8); (fst_ 2, TInt I32); (fst_ 1, TInt I32); (fst_ 0, TInt I32)].
Definition tGame3 : ty := TStruct (mkS true true)
  [ (fst_ 2, TBool); (fst_ 5, TStruct (mkS false true) [(fst_ 0, TBool)]); (fst_ 0, TList tPoint3);
    (fst_ 1, TMap K32 (TEnum true [((0, true), []); ((7, true), []); ((1, true), [(fst_ 9, TInt U64); (fst_ 0, tPoint3)])])) ].
Definition vGame (r : rt) : val := VStruct true (Some r)
  [ (fst_ 0, VList (nested r 0) [ vPoint (nested (nested r 0) 0) 1 (-1) 0 ]);
    (fst_ 1, VMap (nested r 1) [ (6, vSome (nested (nested r 1) 6) (vPoint (nested (nested (nested (nested r 1) 6) 1) 0) 7 300 9)) ]); (fst_ 2, VBool true) ].
Example c55_back_case :
  ty_ok tGame3 = true /\ keeps tGame tGame3 = true /\ wt tGame (vGame ex_rt) = true /\ takes Debug tGame3 (vGame ex_rt) = true /\ takes Debug tGame (vGame ex_rt) = true /\
  (do bs <- to_bytes Debug (vGame ex_rt) junk; do (w, _) <- deserialize Debug tGame3 bs; do bs' <- to_bytes Debug w junk; Ok (bs, bs')) =
    Ok ([2; 5; 4; 0; 2; 8; 1; 10; 12; 50; 10; 1; 2; 7; 0; 14; 8; 216; 4; 16; 18; 16; 1],
        [16; 1; 2; 5; 4; 8; 1; 0; 2; 10; 12; 50; 10; 1; 2; 7; 16; 18; 8; 216; 4; 0; 14]) /\
  (do bs <- to_bytes Debug (vGame ex_rt) junk; do (w, _) <- deserialize Debug tGame3 bs; do bs' <- to_bytes Debug w junk; deserialize Debug tGame bs') =
    Ok (vGame rt_default, []).
Proof. vm_compute. auto 8. Qed.

(** An unknown variant is refused, anywhere in the value: there is no default to fall back to, unlike
    for the C# reader (C54).  An unknown field with a long varint panics with overflow checks on. *)
Theorem c55_unknown_variant_refuted :
  ~ (forall t t' v bs, ty_ok t = true -> ty_ok t' = true -> evolves t t' = true -> wt t v = true -> lossless t v = true ->
     to_bytes Release v junk = Ok bs -> exists w, deserialize Release t' bs = Ok (w, [])).
Proof.
  intros H. destruct (H (TEnum false [((0, false), []); ((1, false), [])]) (TEnum false [((0, false), [])]) (VEnum 1 false None []) [1] eq_refl eq_refl eq_refl eq_refl eq_refl eq_refl) as [w E].
  vm_compute in E. discriminate E.
Qed.
Print Assumptions c55_unknown_variant_refuted.
Theorem c55_overflow_checks_refuted :
  ~ (forall t t' v bs, ty_ok t = true -> ty_ok t' = true -> evolves t t' = true -> wt t v = true -> lossless t v = true ->
     takes Release t' v = true -> to_bytes Debug v junk = Ok bs -> exists w, deserialize Debug t' bs = Ok (w, [])).
Proof.
  intros H. destruct (H (TStruct (mkS false false) [(fns 0, TInt U32)]) (TStruct (mkS false false) []) (VStruct false None [(fns 0, VInt U32 16384)]) [0; 128; 128; 1]
    eq_refl eq_refl eq_refl eq_refl eq_refl eq_refl eq_refl) as [w E]. vm_compute in E. discriminate E.
Qed.
Print Assumptions c55_overflow_checks_refuted.

(** ** C56 *)

(** The original [v] has type [t], the replica [w] type [t'], and shows what that version can know of [v].
    It follows the log if it knows the fields and variants on the paths and takes the payloads. *)
Theorem c56_converge : forall m m' m'' t t' lg lg' r v w cs,
  ty_ok t = true -> state_ty t = true -> ty_ok t' = true -> state_ty t' = true -> root_ty t' = true ->
  wt t v = true -> placed (mkRt lg Root) t v ->
  wt t' w = true -> placed (mkRt lg' Root) t' w -> same (view t' r v) w -> legal m t v cs ->
  exists v' evs rets b, exec m t v cs = (v', (evs, Ok rets)) /\ length rets = length cs /\
    feeds m lg (rl_new []) evs = Ok (mkRL b 0) /\
    (Forall fits (map fst b) -> Forall (follows m'' t t') (map fst b) ->
     exists bs b' w', buf_bytes m' b = Ok (bs, b') /\ replay m'' t' w bs = (w', Ok tt) /\
       same (view t' r v') w' /\ wt t' w' = true /\ placed (mkRt lg' Root) t' w').
Proof.
  intros m m' m'' t t' lg lg' r v w cs O S O' S' R W Pl Ww Plw Sm Lg. apply placed_coh in Pl; try assumption. apply placed_coh in Plw; try assumption.
  destruct (exec_effect m t (mkRt lg Root) O S cs v W Pl Lg) as (v' & evs & rets & es & E & W' & C' & Len & L & _ & Rp).
  exists v', evs, rets, (bufd es). split; [exact E|]. split; [exact Len|].
  change (collect_values (rt_path (mkRt lg Root))) with (@nil N) in L. rewrite map_rel_nil in L. split; [exact (L [])|].
  rewrite map_fst_bufd. intros F Fw. destruct (buf_bytes_spec m' (bufd es)) as (b' & Eb & _); [now rewrite map_fst_bufd|].
  assert (Fo : Forall entry_ok es) by (eapply Forall_impl; [|exact F]; intros e [X _]; exact X).
  destruct (Rp m v Fo W (same_refl v)) as (u & H & Wu & Su).
  destruct (follow_all m m'' t t' es O S O' S' Fw Fo v w u r W Ww Sm H) as (w' & H' & Ww' & Sm').
  exists (concat (map entry_wire es)), b', w'. split; [now rewrite Eb, map_fst_bufd|].
  assert (Er : replay m'' t' w (concat (map entry_wire es)) = (w', Ok tt)).
  { unfold replay. rewrite (is_root_coh t' w lg' S' R Ww Plw). pose proof (replay_run m'' t' es (fits_replay es F) [] w) as X.
    rewrite app_nil_r in X. rewrite X, H'. reflexivity. }
  split; [exact Er|]. split; [|split; [exact Ww'|]].
  { apply (same_trans _ (view t' r u)); [|exact Sm']. now apply view_same. }
  apply coh_placed; try assumption. pose proof (handle_all_coh m'' t' _ es O' S' Fo w Ww Plw) as X. now rewrite H' in X.
Qed.
Print Assumptions c56_converge.

(** A replica of a later version, made from a snapshot, follows every log. *)
Theorem c56_later : forall m m' m'' t t' lg v cs h,
  ty_ok t = true -> state_ty t = true -> ty_ok t' = true -> state_ty t' = true -> root_ty t' = true -> grown t t' = true ->
  wt t v = true -> placed (mkRt lg Root) t v -> lossless t v = true -> lenN (enc v) < 2 ^ 32 -> legal m t v cs ->
  exists snap w, to_bytes m v h = Ok snap /\ deserialize m'' t' snap = Ok (w, []) /\ same (view t' rt_default v) w /\
  exists v' evs rets b, exec m t v cs = (v', (evs, Ok rets)) /\ length rets = length cs /\
    feeds m lg (rl_new []) evs = Ok (mkRL b 0) /\
    (Forall fits (map fst b) ->
     exists bs b' w', buf_bytes m' b = Ok (bs, b') /\ replay m'' t' w bs = (w', Ok tt) /\ same (view t' rt_default v') w').
Proof.
  intros m m' m'' t t' lg v cs h O S O' S' R G W Pl Ls L Lg.
  pose proof (keeps_evolves t t' (grown_keeps t t' G)) as E. pose proof Ls as Ls'. apply lossless_and in Ls'. destruct Ls' as (Wr & Is & Ki).
  destruct (c55_decode m m'' t t' v h O O' E W Wr (grown_takes m'' t t' v G W Wr Is Ki) L) as (bs & Sb & D & Wv).
  exists bs, (view t' rt_default v). split; [exact Sb|]. split; [exact D|]. split; [apply same_refl|].
  assert (Pv : placed rt_default t' (view t' rt_default v)).
  { assert (Bo : bytes_ok bs) by (rewrite (proj1 (large_map_keys m t v h O W L) Wr) in Sb; injection Sb as <-; now apply (enc_ok t)).
    apply (c26_paths t' rt_default); try assumption. pose proof (BMerge t' rt_default m'' (dflt t' rt_default) bs (BDefault _ _) Bo) as B.
    unfold deserialize in D. destruct (merge m'' t' (dflt t' rt_default) bs) as [x [rest| | |]]; try discriminate D. cbn in *. injection D as <- ->. exact B. }
  apply placed_coh in Pl; try assumption. apply placed_coh in Pv; try assumption.
  destruct (exec_effect m t (mkRt lg Root) O S cs v W Pl Lg) as (v' & evs & rets & es & Ex & W' & C' & Len & Lo & Ty & Rp).
  apply (coh_placed t) in Pl; try assumption. apply (coh_placed t') in Pv; try assumption.
  destruct (c56_converge m m' m'' t t' lg (rt_log rt_default) rt_default v (view t' rt_default v) cs O S O' S' R W Pl Wv Pv (same_refl _) Lg)
    as (v2 & evs2 & rets2 & b & Ex2 & Len2 & F & K).
  rewrite Ex in Ex2. injection Ex2 as <- <- <-. exists v', evs, rets, b. split; [exact Ex|]. split; [exact Len|]. split; [exact F|]. intros Fi.
  change (collect_values (rt_path (mkRt lg Root))) with (@nil N) in Lo. rewrite map_rel_nil in Lo. pose proof (eq_trans (eq_sym F) (Lo [])) as Y. injection Y as ->. cbn [app] in *.
  rewrite map_fst_bufd in *. destruct (K Fi) as (bs2 & b' & w' & Eb & Er & Sm & _); [|exists bs2, b', w'; auto].
  eapply Forall_impl; [|exact Ty]. intros e Te. now apply (grown_follows m'' t e Te).
Qed.
Print Assumptions c56_later.

(** An entry whose path leaves the replica's type ends the replay with an error.  What came before is
    applied; nothing of the entry itself or behind it is. *)
Theorem c56_stops : forall m m'' t t' lg' r v w es1 e es2 v1,
  ty_ok t = true -> state_ty t = true -> ty_ok t' = true -> state_ty t' = true -> root_ty t' = true ->
  wt t v = true -> wt t' w = true -> placed (mkRt lg' Root) t' w -> same (view t' r v) w ->
  Forall fits (es1 ++ e :: es2) -> Forall (follows m'' t t') es1 -> strange t' e -> handle_all m t es1 v = (v1, Ok tt) ->
  exists w1, replay m'' t' w (concat (map entry_wire (es1 ++ e :: es2))) = (w1, Err InvalidData) /\
    same (view t' r v1) w1 /\ wt t' w1 = true /\ placed (mkRt lg' Root) t' w1.
Proof.
  intros m m'' t t' lg' r v w es1 e es2 v1 O S O' S' R W Ww Pl Sm F Fw St H. apply placed_coh in Pl; try assumption.
  assert (Fo : Forall entry_ok es1).
  { apply Forall_app in F. eapply Forall_impl; [|exact (proj1 F)]. intros x [X _]. exact X. }
  destruct (follow_all m m'' t t' es1 O S O' S' Fw Fo v w v1 r W Ww Sm H) as (w1 & H1 & W1 & S1).
  exists w1. split; [|split; [exact S1|split; [exact W1|]]].
  - unfold replay. rewrite (is_root_coh t' w lg' S' R Ww Pl). pose proof (replay_run m'' t' _ (fits_replay _ F) [] w) as X.
    rewrite app_nil_r in X. rewrite X, handle_all_app, H1. cbn [handle_all]. now rewrite (strange_entry m'' t' e St w1 O' S' W1).
  - apply coh_placed; try assumption. pose proof (handle_all_coh m'' t' _ es1 O' S' Fo w Ww Pl) as X. now rewrite H1 in X.
Qed.
Print Assumptions c56_stops.

Theorem c56_strange : forall m t e v, ty_ok t = true -> state_ty t = true -> wt t v = true -> strange t e ->
  handle_entry m t e v = (v, Err InvalidData).
Proof. intros m t e v O S W St. now apply strange_entry. Qed.
Print Assumptions c56_strange.

(** The log of calls on [v] fed to a replica [w] of type [t']: the outcome, and whether [w] then is as the
    version sees [v]. *)
Definition relay (t t' : ty) (v w : val) (cs : list call) : res (list entry * val * res unit * bool) :=
  let '(v', (evs, _)) := exec Debug t v cs in
  do L <- feeds Debug 1 (rl_new []) evs;
  do (bs, _) <- buf_bytes Debug (rl_inner L);
  let '(w', o) := replay Debug t' w bs in Ok (map fst (rl_inner L), w', o, veqb (view t' ex_rt v') w').
Definition relayed (x : res (list entry * val * res unit * bool)) : res (nat * res unit * bool) :=
  do (es, _, o, b) <- x; Ok (length es, o, b).

Example c56_case :
  ty_ok tGame3 = true /\ state_ty tGame3 = true /\ root_ty tGame3 = true /\ grown tGame tGame3 = true /\
  lossless tGame (dflt tGame ex_rt) = true /\ legal Debug tGame (dflt tGame ex_rt) game_calls /\
  relayed (relay tGame tGame3 (dflt tGame ex_rt) (dflt tGame3 rt_default) game_calls) = Ok (9%nat, Ok tt, true).
Proof. do 5 (split; [vm_compute; reflexivity|]). split; [exact (proj1 c23_case)|vm_compute; reflexivity]. Qed.

(** Points lost field 1, which the second call sets: the replay stops there, with the first push applied. *)
Definition tGame' : ty := TStruct (mkS true true) [(fst_ 0, TList tPoint')].
Example c56_stop_case :
  ty_ok tGame' = true /\ evolves tGame tGame' = true /\ grown tGame tGame' = false /\
  strange tGame' (EUpdate [0; 0; 1] [13]) /\
  (do (es, w, o, b) <- relay tGame tGame' (dflt tGame ex_rt) (dflt tGame' rt_default) (firstn 2 game_calls); Ok (es, w, o)) =
    Ok ([EListPush [0] [0; 2; 8; 4; 16; 6]; EUpdate [0; 0; 1] [13]],
        VStruct true (Some rt_default) [(fst_ 0, VList (nested rt_default 0) [vPoint' (nested (nested rt_default 0) 0) 1 3])], Err InvalidData).
Proof.
  do 3 (split; [reflexivity|]). split; [|vm_compute; reflexivity].
  apply (StInField (mkS true true) [(fst_ 0, TList tPoint')] 0 (fst_ 0) (TList tPoint') (EUpdate [0; 1] [13])); try reflexivity.
  apply (StItem tPoint' 0 (EUpdate [1] [13])). now apply (StField (mkS true true) _ 1 (EUpdate [] [13])).
Qed.

(** The conditions on the path are needed.  A field that is no longer part of the state tree loses its
    changes without an error, though both versions have it. *)
Theorem c56_no_state_refuted :
  ~ (forall t t' v cs, ty_ok t = true -> ty_ok t' = true -> root_ty t' = true -> evolves t t' = true -> wt t v = true -> legal Debug t v cs ->
     forall n b, relayed (relay t t' v (view t' rt_default v) cs) = Ok (n, Ok tt, b) -> b = true).
Proof.
  intros H. pose (t := TStruct (mkS false true) [(fst_ 0, TBool)]). pose (t' := TStruct (mkS false true) [(fns 0, TBool)]).
  specialize (H t t' (dflt t ex_rt) [mkCall [] junk (OSet 0 (VBool true))] eq_refl eq_refl eq_refl eq_refl eq_refl).
  assert (Lg : legal Debug t (dflt t ex_rt) [mkCall [] junk (OSet 0 (VBool true))]).
  { legal_step; [do 2 eexists; split; [reflexivity|split; [reflexivity|arg]]|exact I]. }
  specialize (H Lg 1%nat false). discriminate H. vm_compute. reflexivity.
Qed.
Print Assumptions c56_no_state_refuted.

(** Entries do not say the wire type of their payload, unlike fields: a field of another type is fed the
    payload and may take it. *)
Theorem c56_wire_type_refuted :
  ~ (forall u u' t t' v cs, t = TStruct (mkS false true) [(fst_ 0, u)] -> t' = TStruct (mkS false true) [(fst_ 0, u')] ->
     ty_ok t = true -> ty_ok t' = true -> evolves t t' = true -> wt t v = true -> legal Debug t v cs ->
     forall n b, relayed (relay t t' v (view t' rt_default v) cs) = Ok (n, Ok tt, b) -> b = true).
Proof.
  intros H. pose (t := TStruct (mkS false true) [(fst_ 0, TInt U8)]). pose (t' := TStruct (mkS false true) [(fst_ 0, TList tPoint)]).
  specialize (H _ _ t t' (dflt t ex_rt) [mkCall [] junk (OSet 0 (VInt U8 0))] eq_refl eq_refl eq_refl eq_refl eq_refl eq_refl).
  assert (Lg : legal Debug t (dflt t ex_rt) [mkCall [] junk (OSet 0 (VInt U8 0))]).
  { legal_step; [do 2 eexists; split; [reflexivity|split; [reflexivity|arg]]|exact I]. }
  specialize (H Lg 1%nat false). discriminate H. vm_compute. reflexivity.
Qed.
Print Assumptions c56_wire_type_refuted.
