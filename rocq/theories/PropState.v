(** C23, C26-C29, C42, C49: what calls do to a tree, to its log and to replicas. *)
From Verif Require Import Base Varint WireFmt Utf8 Types Ser Spec De Log State StateSpec Coll ValInd VarintProofs WireProofs SerProofs
  TypeProofs EqProofs DeProofs RoundTrip MergeProofs NormProofs LogProofs TreeProofs CohProofs HandleProofs OpProofs ExecProofs
  ReplayProofs FrameProofs KeepProofs Examples PropLog PropReplay.

(** ** C23 *)

Lemma map_rel_nil es : map (rel []) es = es.
Proof. rewrite <- (map_id es) at 2. apply map_ext. apply rel_nil. Qed.
Lemma map_fst_bufd es : map fst (bufd es) = es.
Proof. unfold bufd. rewrite map_map. cbn. apply map_id. Qed.
Lemma fits_replay es : Forall fits es -> Forall (fun e => entry_ok e /\ lenN (enc (entry_val e)) < 2 ^ 64) es.
Proof.
  apply Forall_impl. intros e [E L]. split; [exact E|]. unfold entry_wire in L. cbv zeta in L.
  rewrite lenN_app in L. change (2 ^ 32) with 4294967296 in L. change (2 ^ 64) with 18446744073709551616. lia.
Qed.

(** The original [v] and the replica [w] are roots, on loggers of their own; writer, log and
    reader may be built differently.  [same]: equal in everything but runtimes.  [fits] bounds
    the logged entries: below 2^32 bytes each, with [u32] path segments. *)
Theorem c23_converge : forall m m' m'' t lg lg' v w cs,
  ty_ok t = true -> state_ty t = true -> root_ty t = true ->
  wt t v = true -> placed (mkRt lg Root) t v ->
  wt t w = true -> placed (mkRt lg' Root) t w -> same v w -> legal m t v cs ->
  exists v' evs rets b, exec m t v cs = (v', (evs, Ok rets)) /\ length rets = length cs /\
    wt t v' = true /\ placed (mkRt lg Root) t v' /\
    feeds m lg (rl_new []) evs = Ok (mkRL b 0) /\
    (Forall fits (map fst b) ->
     exists bs b' w', buf_bytes m' b = Ok (bs, b') /\ replay m'' t w bs = (w', Ok tt) /\
       same v' w' /\ veqb v' w' = true /\ wt t w' = true /\ placed (mkRt lg' Root) t w').
Proof.
  intros m m' m'' t lg lg' v w cs O S R W Pl Ww Plw Sm Lg. apply placed_coh in Pl; try assumption. apply placed_coh in Plw; try assumption.
  destruct (exec_effect m t (mkRt lg Root) O S cs v W Pl Lg) as (v' & evs & rets & es & E & W' & C' & Len & L & _ & Rp).
  exists v', evs, rets, (bufd es). split; [exact E|]. split; [exact Len|]. split; [exact W'|]. split; [now apply coh_placed|].
  change (collect_values (rt_path (mkRt lg Root))) with (@nil N) in L. rewrite map_rel_nil in L. split; [exact (L [])|].
  rewrite map_fst_bufd. intros F. destruct (buf_bytes_spec m' (bufd es)) as (b' & Eb & _); [now rewrite map_fst_bufd|].
  assert (Fo : Forall entry_ok es) by (eapply Forall_impl; [|exact F]; intros e [X _]; exact X).
  destruct (Rp m'' w Fo Ww Sm) as (w' & H & Ww' & Sm').
  exists (concat (map entry_wire es)), b', w'. split; [now rewrite Eb, map_fst_bufd|].
  assert (Er : replay m'' t w (concat (map entry_wire es)) = (w', Ok tt)).
  { unfold replay. rewrite (is_root_coh t w lg' S R Ww Plw). pose proof (replay_run m'' t es (fits_replay es F) [] w) as X.
    rewrite app_nil_r in X. rewrite X, H. reflexivity. }
  split; [exact Er|]. split; [exact Sm'|]. split; [now apply (norm_veqb t)|]. split; [exact Ww'|]. apply coh_placed; try assumption.
  pose proof (handle_all_coh m'' t _ es O S Fo w Ww Plw) as X. now rewrite H in X.
Qed.
Print Assumptions c23_converge.

(** A replica made from a snapshot. *)
Theorem c23_snapshot : forall m m' m'' t lg v cs h,
  ty_ok t = true -> state_ty t = true -> root_ty t = true -> wt t v = true -> placed (mkRt lg Root) t v ->
  lossless t v = true -> lenN (enc v) < 2 ^ 32 -> legal m t v cs ->
  exists snap w, to_bytes m v h = Ok snap /\ deserialize m'' t snap = Ok (w, []) /\
  exists v' evs rets b, exec m t v cs = (v', (evs, Ok rets)) /\ feeds m lg (rl_new []) evs = Ok (mkRL b 0) /\
    (Forall fits (map fst b) ->
     exists bs b' w', buf_bytes m' b = Ok (bs, b') /\ replay m'' t w bs = (w', Ok tt) /\ same v' w' /\ veqb v' w' = true).
Proof.
  intros m m' m'' t lg v cs h O S R W Pl L Hl Lg. exists (enc v), (norm rt_default v).
  pose proof L as L'. apply lossless_and in L'. destruct L' as (Wr & _). split; [now apply (large_map_keys m t v h O W Hl)|]. split.
  { unfold deserialize. pose proof (roundtrip m'' t O rt_default v [] W L) as Rt. rewrite app_nil_r in Rt. rewrite Rt; [reflexivity|lia|auto]. }
  assert (Wn : wt t (norm rt_default v) = true) by now apply wt_norm.
  assert (Pn : placed rt_default t (norm rt_default v)).
  { apply coh_placed; try assumption. apply set_norm. }
  destruct (c23_converge m m' m'' t lg (rt_log rt_default) v (norm rt_default v) cs O S R W Pl Wn Pn (same_norm _ _) Lg)
    as (v' & evs & rets & b & E & _ & _ & _ & F & K).
  exists v', evs, rets, b. split; [exact E|]. split; [exact F|]. intros Fi. destruct (K Fi) as (bs & b' & w' & Eb & Er & Sm & Vq & _). eauto 8.
Qed.
Print Assumptions c23_snapshot.

(** Everything at work: the calls, the logged bytes, the replica on another build. *)
Definition tGame : ty := TStruct (mkS true true) [(fst_ 0, TList tPoint); (fst_ 1, TMap K16 (tMaybe tPoint)); (fst_ 2, TBool)].
Definition game_calls : list call :=
  [ mkCall [SField 0] junk (OPush (vPoint rt_default 1 2 3));
    mkCall [SField 0; SItem 0] junk (OSet 1 (VInt I32 (-7)));
    mkCall [SField 0] junk (OPush (vPoint (mkRt 9 Root) 4 5 6));
    mkCall [SField 1] junk (OInsertWith 6 (fun r => ([LLog (rt_log r) (EListPop [])], Ok (vNone r))));
    mkCall [SField 1; SKey 6] junk (OVSet 1 0 (vPoint rt_default 7 8 9));
    mkCall [SField 0] junk (OSwapRemove 0);
    mkCall [SField 1] junk (ORemove 6) ].
(** The logged bytes, the outcomes of the calls and of the replay, and whether [==] holds after. *)
Definition ship (t : ty) (v w : val) (cs : list call) : res (bytes * res nat * res unit * bool) :=
  let '(v', (evs, o)) := exec Debug t v cs in
  do L <- feeds Debug 1 (rl_new []) evs;
  do (bs, _) <- buf_bytes Debug (rl_inner L);
  let '(w', o') := replay Release t w bs in
  Ok (bs, do rets <- o; Ok (length rets), o', veqb v' w').
Ltac legal_step := split; [do 3 eexists; split; [reflexivity|]|intros v' o E; vm_compute in E; inversion E; clear E; subst v' o].
Ltac arg := split; [reflexivity|split; [reflexivity|vm_compute; reflexivity]].
Example c23_case :
  legal Debug tGame (dflt tGame ex_rt) game_calls /\ placed ex_rt tGame (dflt tGame ex_rt) /\
  same (dflt tGame ex_rt) (dflt tGame (mkRt 5 Root)) /\
  ship tGame (dflt tGame ex_rt) (dflt tGame (mkRt 5 Root)) game_calls =
    Ok ([12; 8; 2; 1; 0; 10; 6; 0; 2; 8; 4; 16; 6; 9; 0; 2; 3; 0; 0; 1; 10; 1; 13; 12; 8; 2; 1; 0; 10; 6; 0; 8; 8; 10; 16; 12;
         8; 0; 2; 2; 1; 6; 10; 1; 0; 8; 0; 2; 2; 1; 6; 10; 1; 1; 15; 0; 2; 4; 1; 6; 1; 0; 10; 6; 0; 14; 8; 16; 16; 18;
         4; 9; 2; 1; 0; 13; 0; 2; 2; 0; 0; 10; 6; 0; 8; 8; 10; 16; 12; 6; 12; 2; 1; 1; 8; 6], Ok 7%nat, Ok tt, true).
Proof.
  split; [|split; [apply coh_placed; reflexivity|split; [vm_compute; reflexivity|vm_compute; reflexivity]]].
  legal_step; [arg|]. legal_step; [do 2 eexists; split; [reflexivity|split; [reflexivity|arg]]|]. legal_step; [arg|].
  legal_step.
  { split; [vm_compute; reflexivity|]. do 2 eexists. split; [reflexivity|]. split; [vm_compute; reflexivity|]. split; [arg|vm_compute; reflexivity]. }
  legal_step.
  { do 3 eexists. split; [reflexivity|]. split; [reflexivity|]. split; [reflexivity|]. split; [arg|]. intros _. vm_compute. reflexivity. }
  legal_step.
  { intros _. split; [reflexivity|]. intros z E. vm_compute in E. inversion E. arg. }
  legal_step; [discriminate|]. exact I.
Qed.

(** ** C26.  [built]: constructors, [set_runtime], decoding, replay, and calls (also failing ones)
    whose callbacks use the runtime they are given, outside the defects of C27 and C28. *)
Theorem c26_paths : forall t r v, ty_ok t = true -> state_ty t = true -> built t r v -> wt t v = true /\ placed r t v.
Proof. intros t r v O S B. destruct (built_good t r v O S B) as [W C]. split; [exact W|now apply coh_placed]. Qed.
Print Assumptions c26_paths.
(** [FromIterator] for lists and maps is [set_runtime] on what was collected. *)
Theorem c26_from_iter : forall t r l, ty_ok (TList t) = true -> Forall (fun x => wt t x = true) l ->
  placed r (TList t) (list_from_iter r l).
Proof.
  intros t r l O F. unfold list_from_iter. apply coh_placed; try assumption; try reflexivity; [|apply coh_set].
  apply wt_set_rt. cbn [wt]. now rewrite forallb_forall, <- Forall_forall.
Qed.
Print Assumptions c26_from_iter.
Theorem c26_map_from_iter : forall kk t r l, ty_ok (TMap kk t) = true -> Forall (fun e => fst e < 2 ^ 32 /\ wt t (snd e) = true) l ->
  placed r (TMap kk t) (map_from_iter r l).
Proof.
  intros kk t r l O F. unfold map_from_iter. apply coh_placed; try assumption; try reflexivity; [|apply coh_set].
  apply wt_set_rt. assert (G : forall es, wt (TMap kk t) (VMap rt_default es) = true ->
    wt (TMap kk t) (VMap rt_default (fold_left (fun es e => im_insert (fst e) (snd e) es) l es)) = true); [|now apply G].
  induction F as [|e l [Hk Hx] _ IH]; intros es W; [exact W|]. cbn [fold_left]. apply IH. now apply (im_insert_wt kk t rt_default).
Qed.
Print Assumptions c26_map_from_iter.
Ltac bytes_ok_tac := repeat (apply Forall_cons; [reflexivity|]); apply Forall_nil.
Example c26_case :
  let v := fst (merge Debug tGame (dflt tGame ex_rt) [2; 3; 2; 0; 9; 10; 7; 50; 5; 1; 2; 2; 8; 6]) in
  built tGame ex_rt v /\ built tGame ex_rt (fst (replay Debug tGame v [4; 9; 2; 1; 0])) /\
  walk tGame v [SField 1; SKey 6] = Some (tMaybe tPoint, vSome (rt_at ex_rt [1; 6]) (vPoint (rt_at ex_rt [1; 6; 1; 0]) 0 3 0), [1; 6]).
Proof.
  assert (B : built tGame ex_rt (fst (merge Debug tGame (dflt tGame ex_rt) [2; 3; 2; 0; 9; 10; 7; 50; 5; 1; 2; 2; 8; 6]))).
  { apply BMerge; [apply BDefault|bytes_ok_tac]. }
  cbv zeta. split; [exact B|]. split; [apply BReplay; [exact B|bytes_ok_tac]|vm_compute; reflexivity].
Qed.

(** ** C27 *)
Theorem c27_other_items : forall m h t r l z i removed, let v := VList r (l ++ [z]) in
  ty_ok (TList t) = true -> wt (TList t) v = true -> placed r (TList t) v -> nth_error l (N.to_nat i) = Some removed -> arg_ok t z ->
  enum_under t = false ->
  exists v' evs, apply_op m h (TList t) (OSwapRemove i) v = (v', (evs, Ok (ROpt (Some removed)))) /\
    v' = VList r (set_nth l (N.to_nat i) (set_rt (nested r i) z)) /\ placed r (TList t) v'.
Proof.
  intros m h t r l z i removed v O W Pl Nr A En. apply placed_coh in Pl; try assumption; try reflexivity.
  destruct (swap_effect m h t r l z i removed O W Pl Nr En A) as (evs & E & _). eexists _, evs. split; [exact E|]. split; [reflexivity|].
  pose proof (op_keeps m h (TList t) r v (OSwapRemove i) O eq_refl (conj W Pl) I ltac:(cbn; auto)) as [W' C'].
  cbn [apply_op v] in W', C'. rewrite E in W', C'. now apply coh_placed.
Qed.
Print Assumptions c27_other_items.

(** An enum is given a runtime one level too deep, [path/i/i] instead of [path/i]. *)
Theorem c27_enum_items : forall m h t r l z i removed, let v := VList r (l ++ [z]) in
  ty_ok (TList t) = true -> wt (TList t) v = true -> placed r (TList t) v -> nth_error l (N.to_nat i) = Some removed -> arg_ok t z ->
  enum_under t = true ->
  exists v' evs z', apply_op m h (TList t) (OSwapRemove i) v = (v', (evs, Ok (ROpt (Some removed)))) /\
    v' = VList r (set_nth l (N.to_nat i) z') /\ z' = set_rt (nested (nested r i) i) z /\
    base z' = Ok (nested (nested r i) i) /\ ~ placed r (TList t) v'.
Proof.
  intros m h t r l z i removed v O W Pl Nr A En. apply placed_coh in Pl; try assumption; try reflexivity.
  assert (Hi : (N.to_nat i < length l)%nat) by (apply nth_error_Some; congruence).
  pose proof O as O'. cbn [ty_ok] in O'. bprop. assert (St : state_ty t = true) by (bprop; assumption). assert (Pu : prim_under t = false) by (clear -En; induction t; try discriminate En; cbn in *; auto).
  pose proof W as W0. cbn [wt v] in W0. rewrite forallb_app in W0. cbn in W0. bprop.
  assert (Wr : wt t removed = true) by exact (nth_forallb (wt t) l (N.to_nat i) removed Nr ltac:(assumption)).
  assert (Vz : vwty z = Sized).
  { assert (Wz : wt t z = true) by assumption. rewrite (wt_vwty t z Wz). clear -En. induction t; try discriminate En; try reflexivity. now apply IHt. }
  pose proof Pl as C. apply coh_list in C. destruct C as [_ C]. apply set_items_prefix in C. pose proof (set_items_nth _ _ _ _ _ C Nr) as Cr. rewrite N.add_0_l, N2Nat.id in Cr.
  assert (Er : exists tag, val_rt removed = Ok (nested (nested r i) tag)).
  { rewrite (coh_val_rt t removed (nested r i) St Pu Wr Cr). clear -En Wr. revert removed Wr. induction t; try discriminate En; intros x Wx; destruct x; try discriminate Wx.
    - cbn in *. now apply IHt.
    - eexists. reflexivity. }
  destruct Er as (tag & Er).
  assert (E : exists evs, apply_op m h (TList t) (OSwapRemove i) v =
     (VList r (set_nth l (N.to_nat i) (set_rt (nested (nested r i) i) z)), (evs, Ok (ROpt (Some removed))))).
  { cbn [apply_op v]. unfold list_swap_remove. assert (Hl : lenN (l ++ [z]) = lenN l + 1) by (unfold lenN; rewrite app_length; cbn; lia). rewrite Hl.
    destruct (lenN l + 1 <=? i) eqn:X; [unfold lenN in X; lia|]. destruct (i =? lenN l + 1 - 1) eqn:Y; [unfold lenN in Y; lia|].
    rewrite nth_error_app1 by exact Hi. rewrite Nr, rev_app_distr. cbn [rev app].
    unfold entry_update_child, entry_update. rewrite (arg_bytes m t z h ltac:(assumption) A). cbn [bind mlift mbind mtry].
    rewrite swap_remove_set by exact Hi. rewrite Vz, Er. cbn [bind]. replace (rt_sibling (nested (nested r i) tag) i) with (Ok (nested (nested r i) i)) by (destruct r; reflexivity).
    cbn [mtry mlift]. rewrite set_set. eexists. reflexivity. }
  destruct E as (evs & E). eexists _, evs, _. split; [exact E|]. split; [reflexivity|]. split; [reflexivity|].
  assert (Wz' : wt t (set_rt (nested (nested r i) i) z) = true) by now apply wt_set_rt.
  assert (B : base (set_rt (nested (nested r i) i) z) = Ok (nested (nested r i) i)) by (apply (coh_base t _ _ St Pu Wz'); apply coh_set).
  split; [exact B|]. intros Pl'. apply placed_coh in Pl'; try assumption; try reflexivity.
  - apply coh_list in Pl'. destruct Pl' as [_ Pl']. assert (Nz : nth_error (set_nth l (N.to_nat i) (set_rt (nested (nested r i) i) z)) (N.to_nat i) = Some (set_rt (nested (nested r i) i) z)) by (now apply (nth_set_same l _ _ removed)).
    pose proof (set_items_nth _ _ _ _ _ Pl' Nz) as Cz. rewrite N.add_0_l, N2Nat.id in Cz. pose proof (coh_base t _ _ St Pu Wz' Cz) as B'.
    rewrite B in B'. injection B' as B'. apply (f_equal (fun p => length (collect_values p))) in B'. clear -B'. unfold collect_values in B'. cbn in B'.
    destruct r as [lg p]. cbn in B'. rewrite !app_length in B'. cbn in B'. lia.
  - cbn [wt]. apply set_nth_forallb; assumption.
Qed.
Print Assumptions c27_enum_items.

(** So a later change to the moved item does not reach a replica: replay fails. *)
Definition tMaybes : ty := TList (tMaybe tPoint).
Definition enum_calls : list call :=
  [ mkCall [] junk (OPush (vNone rt_default)); mkCall [] junk (OPush (vSome rt_default (vPoint rt_default 1 2 3)));
    mkCall [] junk (OSwapRemove 0); mkCall [SItem 0; SField 0] junk (OSet 1 (VInt I32 9)) ].
Theorem c27_enum_items_converge_refuted :
  ship tMaybes (VList ex_rt []) (VList (mkRt 5 Root) []) (firstn 3 enum_calls) =
    Ok ([4; 8; 10; 1; 0; 12; 8; 10; 9; 1; 2; 6; 0; 2; 8; 4; 16; 6; 1; 9; 15; 0; 2; 1; 0; 10; 9; 1; 2; 6; 0; 2; 8; 4; 16; 6], Ok 3%nat, Ok tt, true) /\
  exists bs, ship tMaybes (VList ex_rt []) (VList (mkRt 5 Root) []) enum_calls = Ok (bs, Ok 4%nat, Err InvalidData, false).
Proof. split; [vm_compute; reflexivity|]. eexists. vm_compute. reflexivity. Qed.
Print Assumptions c27_enum_items_converge_refuted.
Example c27_case :
  fst (exec Debug tMaybes (VList ex_rt []) (firstn 3 enum_calls)) =
    VList ex_rt [vSome (rt_at ex_rt [0; 0]) (vPoint (rt_at ex_rt [0; 0; 1; 0]) 1 2 3)] /\
  fst (apply_op Debug junk tPoints (OSwapRemove 0) (vPoints ex_rt)) = VList ex_rt [vPoint (nested ex_rt 0) 4 5 6].
Proof. vm_compute. auto. Qed.

(** ** C28 *)
Theorem c28_insert_with : forall m h kk t r es k f evs x, let v := VMap r es in
  ty_ok (TMap kk t) = true -> wt (TMap kk t) v = true -> placed r (TMap kk t) v -> k < 2 ^ 32 ->
  f (nested r k) = (evs, Ok x) -> coh (nested r k) x -> arg_ok t x ->
  exists evs', apply_op m h (TMap kk t) (OInsertWith k f) v = (VMap r (im_insert k x es), (evs', Ok (ROpt (assoc k es)))) /\
    placed r (TMap kk t) (VMap r (im_insert k x es)).
Proof.
  intros m h kk t r es k f evs x v O W Pl Hk Ef Cx A. apply placed_coh in Pl; try assumption; try reflexivity.
  pose proof O as O'. cbn [ty_ok] in O'. bprop.
  eexists. split.
  - cbn [apply_op v]. unfold map_insert_with. rewrite (call_paused_spec r k f evs x Ef). cbn [mtry]. unfold map_insert, entry_update_child, entry_update.
    rewrite (arg_bytes m t x h ltac:(assumption) A). cbn [bind]. reflexivity.
  - destruct A as (Wx & _). destruct (good_insert kk t r es k x (conj W Pl) Hk Wx Cx) as [W' C']. now apply coh_placed.
Qed.
Print Assumptions c28_insert_with.
(** Plain [insert] stores the value as it is, so paths are right afterwards exactly if they were. *)
Theorem c28_insert : forall m h kk t r es k x, let v := VMap r es in let v' := VMap r (im_insert k x es) in
  ty_ok (TMap kk t) = true -> wt (TMap kk t) v = true -> placed r (TMap kk t) v -> k < 2 ^ 32 -> arg_ok t x ->
  (exists evs, apply_op m h (TMap kk t) (OInsert k x) v = (v', (evs, Ok (ROpt (assoc k es))))) /\ map_get v' k = Some x /\
  (placed r (TMap kk t) v' <-> placed (nested r k) t x).
Proof.
  intros m h kk t r es k x v v' O W Pl Hk A. apply placed_coh in Pl; try assumption; try reflexivity.
  pose proof O as O'. cbn [ty_ok] in O'. bprop. destruct A as (Wx & Lx & Sx).
  assert (Ga : assoc k (im_insert k x es) = Some x).
  { clear. induction es as [|[k' y] es IH]; cbn; [now rewrite N.eqb_refl|]. destruct (k =? k') eqn:E; cbn; rewrite E; auto. }
  assert (W' : wt (TMap kk t) v' = true) by now apply (im_insert_wt kk t r).
  split; [|split; [exact Ga|]].
  - eexists. cbn [apply_op v]. unfold map_insert, entry_update_child, entry_update. rewrite (arg_bytes m t x h ltac:(assumption) (conj Wx (conj Lx Sx))).
    cbn [bind]. reflexivity.
  - split; intros P.
    + apply placed_coh in P; try assumption; try reflexivity. apply coh_map in P. destruct P as [_ P]. pose proof (set_entries_assoc _ _ _ _ P Ga) as C. now apply coh_placed.
    + apply placed_coh in P; try assumption. destruct (good_insert kk t r es k x (conj W Pl) Hk Wx P) as [_ C']. now apply coh_placed.
Qed.
Print Assumptions c28_insert.
(** A value that sits elsewhere: later changes to it are not in the map's log. *)
Definition tPointMap : ty := TMap K16 tPoint.
Definition insert_calls (r : rt) : list call := [ mkCall [] junk (OInsert 6 (vPoint r 1 2 3)); mkCall [SKey 6] junk (OSet 1 (VInt I32 9)) ].
Theorem c28_insert_converges_refuted :
  (exists bs, ship tPointMap (VMap ex_rt []) (VMap (mkRt 5 Root) []) (insert_calls (nested ex_rt 6)) = Ok (bs, Ok 2%nat, Ok tt, true)) /\
  ship tPointMap (VMap ex_rt []) (VMap (mkRt 5 Root) []) (insert_calls rt_default) =
    Ok ([12; 0; 2; 1; 6; 10; 6; 0; 2; 8; 4; 16; 6], Ok 2%nat, Ok tt, false).
Proof. split; [eexists|]; vm_compute; reflexivity. Qed.
Print Assumptions c28_insert_converges_refuted.
Example c28_case :
  placed ex_rt tPointMap (fst (apply_op Debug junk tPointMap (OInsertWith 6 (fun r => mret (vPoint r 1 2 3))) (VMap ex_rt []))) /\
  map_get (fst (apply_op Debug junk tPointMap (OInsert 6 (vPoint rt_default 1 2 3)) (VMap ex_rt []))) 6 = Some (vPoint rt_default 1 2 3).
Proof. split; [apply coh_placed; vm_compute; reflexivity|vm_compute; reflexivity]. Qed.

(** ** C29.  At any map in a tree; the replica has the same contents. *)
Lemma same_walk_map : forall steps t v w kk t' r es p, same v w -> walk t v steps = Some (TMap kk t', VMap r es, p) ->
  exists r' es', walk t w steps = Some (TMap kk t', VMap r' es', p) /\ norm_entries rt_default es = norm_entries rt_default es'.
Proof.
  induction steps as [|s steps IH]; intros t v w kk t' r es p Sm E; cbn [walk] in E.
  - inversion E; subst. unfold same in Sm. rewrite norm_map in Sm. destruct w as [| | | | |l|l|l|l| |c r0 fs|tag c r0 fs|r0 l|r0 es0]; try discriminate Sm.
    rewrite norm_map in Sm. injection Sm as Sm. exists r0, es0. now split.
  - destruct (child t v s) as [[t1 y]|] eqn:Ch; [|discriminate E]. destruct (state_step v s) eqn:Ss; [|discriminate E].
    destruct (walk t1 y steps) as [[[t2 z] q]|] eqn:Wk; [|discriminate E]. inversion E; subst.
    destruct (same_child _ _ _ _ _ _ Sm Ch) as (u & Cw & Su). destruct (IH _ _ _ _ _ _ _ _ Su Wk) as (r' & es' & Wk' & N).
    exists r', es'. cbn [walk]. rewrite Cw, <- (same_state_step _ _ _ Sm), Ss, Wk', (same_seg _ _ _ Sm). now split.
Qed.
Lemma remove_absent_fails m kk t' k : forall steps t w r es p, ty_ok t = true -> state_ty t = true -> wt t w = true ->
  walk t w steps = Some (TMap kk t', VMap r es, p) -> assoc k es = None ->
  handle_entry m t (EMapRemove p k) w = (w, Err InvalidData).
Proof.
  induction steps as [|s steps IH]; intros t w r es p O S W E A; cbn [walk] in E.
  - inversion E; subst. unfold handle_entry. cbn. now rewrite A.
  - destruct (child t w s) as [[t1 y]|] eqn:Ch; [|discriminate E]. destruct (state_step w s) eqn:Ss; [|discriminate E].
    destruct (walk t1 y steps) as [[[t2 z] q]|] eqn:Wk; [|discriminate E]. inversion E; subst.
    destruct (child_wt t w s t1 y O W Ch) as (O1 & W1 & S1). specialize (S1 S Ss).
    change (EMapRemove (seg w s ++ q) k) with (rel (seg w s) (EMapRemove q k)). rewrite (handle_entry_child m t w s t1 y _ O S W Ch Ss).
    rewrite (IH t1 y r es q O1 S1 W1 Wk A). now rewrite (put_child_same _ _ _ _ _ Ch).
Qed.
Theorem c29_remove_absent : forall m m' h t lg v w steps kk t' r es p k,
  ty_ok t = true -> state_ty t = true -> wt t v = true -> placed (mkRt lg Root) t v -> wt t w = true -> same v w ->
  walk t v steps = Some (TMap kk t', VMap r es, p) -> assoc k es = None ->
  at_node steps (fun t x => apply_op m h t (ORemove k) x) t v = Some (v, ([LLog lg (EMapRemove p k)], Ok (ROpt None))) /\
  handle_entry m' t (EMapRemove p k) w = (w, Err InvalidData).
Proof.
  intros m m' h t lg v w steps kk t' r es p k O S W Pl Ww Sm Wk A. apply placed_coh in Pl; try assumption. split.
  - pose proof (walk_coh steps t v _ _ _ _ O W Pl Wk) as C. apply coh_map in C. destruct C as [-> _].
    assert (G : forall steps t v t' x p, walk t v steps = Some (t', x, p) -> forall (f : ty -> val -> val * M oret) o, f t' x = (x, o) -> at_node steps f t v = Some (v, o)).
    { clear. induction steps as [|s steps IH]; intros t v t' x p E f o F; cbn [walk at_node] in *; [inversion E; subst; now rewrite F|].
      destruct (child t v s) as [[t1 y]|] eqn:Ch; [|discriminate E]. destruct (state_step v s); [|discriminate E].
      destruct (walk t1 y steps) as [[[t2 z] q]|] eqn:Wk; [|discriminate E]. inversion E; subst. rewrite (IH _ _ _ _ _ Wk f o F). now rewrite (put_child_same _ _ _ _ _ Ch). }
    apply (G _ _ _ _ _ _ Wk). cbn [apply_op]. unfold map_remove, entry_map_remove. cbn [rt_log_entry mlift mbind mtry mret app]. rewrite collect_at, rt_at_log, A.
    cbn. do 2 f_equal. unfold im_remove. assert (K : key_pos k es = None); [|now rewrite K].
    clear -A. induction es as [|[k' y] es IH]; [reflexivity|]. cbn in *. destruct (k =? k'); [discriminate A|]. now rewrite IH.
  - destruct (same_walk_map _ _ _ _ _ _ _ _ _ Sm Wk) as (r' & es' & Wk' & N). apply (remove_absent_fails m' kk t' k steps t w r' es' p); try assumption.
    pose proof (same_assoc _ _ k N) as K. rewrite A in K. destruct (assoc k es'); [contradiction|reflexivity].
Qed.
Print Assumptions c29_remove_absent.
(** So the bytes logged stop the replay, whatever follows them. *)
Theorem c29_replay_stops : forall m t lg v w steps kk t' r es p k rest,
  ty_ok t = true -> state_ty t = true -> wt t v = true -> placed (mkRt lg Root) t v -> wt t w = true -> same v w -> is_root w = Ok true ->
  walk t v steps = Some (TMap kk t', VMap r es, p) -> assoc k es = None ->
  entry_ok (EMapRemove p k) -> lenN (entry_wire (EMapRemove p k)) < 2 ^ 32 ->
  replay m t w (entry_wire (EMapRemove p k) ++ rest) = (w, Err InvalidData).
Proof.
  intros m t lg v w steps kk t' r es p k rest O S W Pl Ww Sm R Wk A Oe L.
  pose proof (proj2 (c29_remove_absent m m (fun _ => 0) t lg v w steps kk t' r es p k O S W Pl Ww Sm Wk A)) as H.
  unfold replay. rewrite R, run_step; [|apply replay_step_consuming|].
  - unfold replay_step at 1. rewrite read_entry_wire; [|exact Oe|].
    + cbn [try]. rewrite H. reflexivity.
    + unfold entry_wire in L. cbv zeta in L. rewrite lenN_app in L. lia.
  - intros E. apply app_eq_nil in E. destruct E as [E _]. now apply entry_wire_nonempty in E.
Qed.
Print Assumptions c29_replay_stops.
Example c29_case :
  ship tPointMap (VMap ex_rt []) (VMap (mkRt 5 Root) []) [mkCall [] junk (ORemove 2)] = Ok ([3; 12; 8; 2], Ok 1%nat, Err InvalidData, true) /\
  exists bs, ship tGame (dflt tGame ex_rt) (dflt tGame (mkRt 5 Root)) [mkCall [SField 1] junk (ORemove 2); mkCall [] junk (OSet 2 (VBool true))] =
    Ok (bs, Ok 2%nat, Err InvalidData, false).
Proof. split; [|eexists]; vm_compute; reflexivity. Qed.

(** ** C42 *)

(** The callback of a call, the runtime it is given, and the logger that is paused for it. *)
Definition cb_of (o : op) (v : val) : option (callback * rt * N) :=
  match o, v with
  | OSetWith fn f, VStruct _ (Some r) fs => match find_field fn fs with Some (fi, _) => if f_state fi then Some (f, nested r fn, rt_log r) else None | None => None end
  | OPushWith f, VList r l => Some (f, nested r (lenN l), rt_log r)
  | OInsertWith k f, VMap r _ => Some (f, nested r k, rt_log r)
  | _, _ => None
  end.
Theorem c42_stays_paused : forall m h t o v f r lg evs, cb_of o v = Some (f, r, lg) -> f r = (evs, Panic) ->
  (exists evs', apply_op m h t o v = (v, (evs', Panic)) /\
   (quiet m lg evs -> forall b, feeds m lg (mkRL b 0) evs' = Ok (mkRL b 1))).
Proof.
  intros m h t o v f r lg evs E P.
  assert (K : forall b, quiet m lg evs -> feeds m lg (mkRL b 0) (LPause lg :: evs) = Ok (mkRL b 1)).
  { intros b Q. cbn [feeds feed]. rewrite N.eqb_refl. unfold rl_pause. cbn [rl_paused rl_inner].
    assert (A : add32 m 0 1 = Ok 1) by (destruct m; reflexivity). rewrite A. cbn [bind]. now apply quiet_any. }
  destruct o as [fn x|fn g|tag fn x|tag fn g|x|g| |i|k x|k g|k]; destruct v as [k' z|b| | | | | | | |y|c r0 fs|tag0 c r0 fs|r0 l|r0 es]; try discriminate E; cbn [cb_of] in E.
  - destruct r0 as [r0|]; [|discriminate E]. destruct (find_field fn fs) as [[fi y]|] eqn:F; [|discriminate E]. destruct (f_state fi) eqn:S; [|discriminate E]. inversion E; subst.
    exists (LPause (rt_log r0) :: evs). split; [|intros Q b; now apply K]. cbn [apply_op]. unfold set_field, set_value_with. rewrite F, S. unfold call_paused, rt_pause. cbn [mbind]. rewrite P. reflexivity.
  - inversion E; subst. exists (LPause (rt_log r0) :: evs). split; [|intros Q b; now apply K]. cbn [apply_op]. unfold list_push_with, call_paused, rt_pause. cbn [mbind]. rewrite P. reflexivity.
  - inversion E; subst. exists (LPause (rt_log r0) :: evs). split; [|intros Q b; now apply K]. cbn [apply_op]. unfold map_insert_with, call_paused, rt_pause. cbn [mbind]. rewrite P. reflexivity.
Qed.
Print Assumptions c42_stays_paused.

(** The setter of a field of an enum variant switches variant first, and that is kept and logged. *)
Theorem c42_variant_setter : forall m h t tag fn f v v1 c r fs fi y evs0 evs, v1 = VEnum tag c (Some r) fs ->
  reset_variant m h t tag v = (v1, (evs0, Ok tt)) -> find_field fn fs = Some (fi, y) -> f_state fi = true ->
  f (nested r fn) = (evs, Panic) -> (exists tag0 c0 r0 fs0, v = VEnum tag0 c0 (Some r0) fs0) ->
  exists evs', apply_op m h t (OVSetWith tag fn f) v = (v1, (evs', Panic)) /\
   (quiet m (rt_log r) evs -> forall b b', feeds m (rt_log r) (mkRL b 0) evs0 = Ok (mkRL b' 0) ->
      feeds m (rt_log r) (mkRL b 0) evs' = Ok (mkRL b' 1)).
Proof.
  intros m h t tag fn f v v1 c r fs fi y evs0 evs -> R F S P (tag0 & c0 & r0 & fs0 & ->).
  exists (evs0 ++ LPause (rt_log r) :: evs). split.
  - cbn [apply_op]. rewrite R. cbn [mthen mtry]. unfold set_field, set_value_with. rewrite F, S. unfold call_paused, rt_pause. cbn [mbind]. rewrite P. reflexivity.
  - intros Q b b' B. rewrite feeds_app, B. cbn [bind feeds feed]. rewrite N.eqb_refl. unfold rl_pause. cbn [rl_paused rl_inner].
    assert (A : add32 m 0 1 = Ok 1) by (destruct m; reflexivity). rewrite A. cbn [bind]. now apply quiet_any.
Qed.
Print Assumptions c42_variant_setter.

(** From then on no call logs anything, as long as callbacks leave the pause count as they find it. *)
Definition keeps (m : mode) (lg : N) (f : callback) : Prop :=
  forall r evs x b n, f r = (evs, Ok x) -> n = 1 \/ n = 2 -> feeds m lg (mkRL b n) evs = Ok (mkRL b n).
Definition op_cb (m : mode) (lg : N) (o : op) : Prop :=
  match o with OSetWith _ f | OVSetWith _ _ f | OPushWith f | OInsertWith _ f => keeps m lg f | _ => True end.
Definition silent (m : mode) (lg : N) (evs : list lev) : Prop := forall b, feeds m lg (mkRL b 1) evs = Ok (mkRL b 1).

Lemma silent_nil m lg : silent m lg [].
Proof. intros b. reflexivity. Qed.
Lemma silent_app m lg a b : silent m lg a -> silent m lg b -> silent m lg (a ++ b).
Proof. intros A B c. rewrite feeds_app, A. cbn [bind]. apply B. Qed.
Lemma silent_log m lg l e : silent m lg [LLog l e].
Proof. intros b. cbn. now destruct (l =? lg). Qed.
Definition mok {A} (m : mode) (lg : N) (x : M A) : Prop := forall evs a, x = (evs, Ok a) -> silent m lg evs.
Lemma mok_ret {A} m lg (a : A) : mok m lg (mret a).
Proof. intros evs b E. inversion E. apply silent_nil. Qed.
Lemma mok_lift {A} m lg (a : res A) : mok m lg (mlift a).
Proof. intros evs b E. inversion E. apply silent_nil. Qed.
Lemma mok_bind {A B} m lg (x : M A) (f : A -> M B) : mok m lg x -> (forall a, mok m lg (f a)) -> mok m lg (mbind x f).
Proof.
  intros X F evs b E. destruct x as [ev [a|e| |]]; cbn [mbind] in E; try discriminate E. destruct (f a) as [ev' r] eqn:Fa. inversion E; subst.
  apply silent_app; [now apply (X _ a)|now apply (F a _ b)].
Qed.
Lemma mok_try {A B} m lg v (x : M A) (k : A -> val * M B) : mok m lg x -> (forall a, mok m lg (snd (k a))) -> mok m lg (snd (mtry v x k)).
Proof.
  intros X F evs b E. destruct x as [ev [a|e| |]]; cbn [mtry snd] in E; try discriminate E. specialize (F a). destruct (k a) as [v' [ev' r]]. cbn [snd] in *. inversion E; subst.
  apply silent_app; [now apply (X _ a)|now apply (F _ b)].
Qed.
Lemma mok_log m lg r e : mok m lg (rt_log_entry r e).
Proof. unfold rt_log_entry. apply mok_bind; [apply mok_lift|]. intros a evs b E. inversion E. apply silent_log. Qed.
Lemma mok_call m lg r fn f : keeps m lg f -> mok m lg (call_paused r fn f).
Proof.
  intros K evs x E. unfold call_paused, rt_pause in E. cbn [mbind] in E. destruct (f (nested r fn)) as [ev [a|e| |]] eqn:F; cbn [mbind] in E; try discriminate E.
  cbn in E. inversion E; subst. intros b. cbn [app feeds]. cbn [feed]. destruct (rt_log r =? lg) eqn:L.
  - unfold rl_pause. cbn [rl_paused rl_inner]. assert (A : add32 m 1 1 = Ok 2) by (destruct m; reflexivity). rewrite A. cbn [bind].
    rewrite feeds_app, (K _ _ _ b 2 F) by auto. cbn [bind feeds feed]. rewrite L. reflexivity.
  - cbn [bind]. rewrite feeds_app, (K _ _ _ b 1 F) by auto. cbn [bind feeds feed]. now rewrite L.
Qed.
Lemma set_field_mok m lg h r fs rb fn get : mok m lg get -> mok m lg (snd (set_field m h r fs rb fn get)).
Proof.
  intros G. unfold set_field. destruct (find_field fn fs) as [[fi y]|]; [|apply mok_lift]. apply mok_try; [exact G|]. intros x.
  destruct (f_state fi); [|apply mok_ret]. apply mok_try; [apply mok_log|]. intros _. apply mok_ret.
Qed.
Lemma set_value_mok m lg r fs fn x : mok m lg (set_value r fs fn x).
Proof. unfold set_value. destruct (find_field fn fs) as [[fi y]|]; [apply mok_ret|apply mok_lift]. Qed.
Lemma set_value_with_mok m lg r fs fn f : keeps m lg f -> mok m lg (set_value_with r fs fn f).
Proof. intros K. unfold set_value_with. destruct (find_field fn fs) as [[fi y]|]; [|apply mok_lift]. destruct (f_state fi); [now apply mok_call|apply mok_lift]. Qed.
Lemma reset_mok m lg h t tag v : mok m lg (snd (reset_variant m h t tag v)).
Proof.
  unfold reset_variant. destruct t; try apply mok_lift. destruct v as [| | | | | | | | | | |tag0 c [r|] fs| |]; try apply mok_lift. destruct (tag0 =? tag); [apply mok_ret|].
  destruct (find_variant _ tag) as [va|]; [|apply mok_lift]. apply mok_try; [apply mok_lift|]. intros p. apply mok_try; [apply mok_log|]. intros _. apply mok_ret.
Qed.
Lemma then_mok {B} m lg (x : val * M unit) (k : val -> val * M B) : mok m lg (snd x) -> (forall v, mok m lg (snd (k v))) -> mok m lg (snd (mthen x k)).
Proof. intros X K. destruct x as [v o]. unfold mthen. apply mok_try; [exact X|]. intros _. apply K. Qed.
Lemma pop_mok m lg r l : mok m lg (snd (list_pop r l)).
Proof. unfold list_pop. destruct (rev l); [apply mok_ret|]. apply mok_try; [apply mok_log|]. intros _. apply mok_ret. Qed.
Lemma op_mok m lg h t o v : op_cb m lg o -> mok m lg (snd (apply_op m h t o v)).
Proof.
  intros K. destruct o as [fn x|fn g|tag fn x|tag fn g|x|g| |i|k x|k g|k]; destruct v as [k' z|b| | | | | | | |y|c r0 fs|tag0 c r0 fs|r0 l|r0 es]; try apply mok_lift; cbn [apply_op op_cb] in *.
  - destruct r0 as [r0|]; [|apply mok_lift]. apply set_field_mok, set_value_mok.
  - destruct r0 as [r0|]; [|apply mok_lift]. now apply set_field_mok, set_value_with_mok.
  - destruct r0 as [r0|]; [|apply mok_lift]. apply then_mok; [apply reset_mok|]. intros v'. destruct v'; try apply mok_lift. destruct r; [|apply mok_lift]. apply set_field_mok, set_value_mok.
  - destruct r0 as [r0|]; [|apply mok_lift]. apply then_mok; [apply reset_mok|]. intros v'. destruct v'; try apply mok_lift. destruct r; [|apply mok_lift]. now apply set_field_mok, set_value_with_mok.
  - unfold list_push_with. apply mok_try; [apply mok_call|]; [intros r evs y b n E _; inversion E; reflexivity|]. intros y. apply mok_try; [apply mok_log|]. intros _. apply mok_ret.
  - unfold list_push_with. apply mok_try; [now apply mok_call|]. intros y. apply mok_try; [apply mok_log|]. intros _. apply mok_ret.
  - apply pop_mok.
  - unfold list_swap_remove. destruct (lenN l <=? i); [apply mok_ret|]. destruct (i =? lenN l - 1); [apply pop_mok|].
    destruct (nth_error l (N.to_nat i)) as [rm|]; [|apply mok_lift]. destruct (rev l) as [|z zs]; [apply mok_lift|]. apply mok_try.
    + apply mok_bind; [apply mok_lift|]. intros e evs a E. inversion E. apply (silent_app m lg [_] [_]); apply silent_log.
    + intros _. destruct (vwty z); [apply mok_ret|]. apply mok_try; [apply mok_lift|]. intros rr. apply mok_ret.
  - unfold map_insert. apply mok_try; [apply mok_log|]. intros _. apply mok_ret.
  - unfold map_insert_with. apply mok_try; [now apply mok_call|]. intros y. unfold map_insert. apply mok_try; [apply mok_log|]. intros _. apply mok_ret.
  - unfold map_remove. apply mok_try; [apply mok_log|]. intros _. apply mok_ret.
Qed.
Lemma at_mok m lg h o : op_cb m lg o -> forall steps t v v' out, at_node steps (fun t x => apply_op m h t o x) t v = Some (v', out) -> mok m lg out.
Proof.
  intros K. induction steps as [|s steps IH]; intros t v v' out E; cbn [at_node] in E.
  - pose proof (op_mok m lg h t o v K) as X. destruct (apply_op m h t o v). inversion E; subst. exact X.
  - destruct (child t v s) as [[t1 y]|]; [|discriminate E]. destruct (at_node steps _ t1 y) as [[y' b]|] eqn:A; [|discriminate E]. inversion E; subst. now apply (IH t1 y y').
Qed.
Theorem c42_nothing_logged : forall m lg t cs v v' evs rets b, Forall (fun c => op_cb m lg (c_op c)) cs ->
  exec m t v cs = (v', (evs, Ok rets)) -> feeds m lg (mkRL b 1) evs = Ok (mkRL b 1).
Proof.
  intros m lg t cs v v' evs rets b F. enough (G : mok m lg (snd (exec m t v cs))).
  { intros E. rewrite E in G. exact (G evs rets eq_refl b). }
  revert v. clear b. induction F as [|c cs K _ IH]; intros v; [apply mok_ret|]. cbn [exec].
  destruct (at_node _ _ t v) as [[v1 o]|] eqn:A; [|apply mok_lift]. apply mok_try; [exact (at_mok m lg _ _ K _ _ _ _ _ A)|].
  intros x. specialize (IH v1). destruct (exec m t v1 cs) as [v2 o2]. cbn [snd] in *. apply mok_bind; [exact IH|]. intros xs. apply mok_ret.
Qed.
Print Assumptions c42_nothing_logged.
Example c42_case :
  let '(v1, (evs1, o1)) := exec Debug tPoints (vPoints ex_rt) [mkCall [] junk (OPushWith (fun _ => mlift Panic))] in
  let '(v2, (evs2, o2)) := exec Debug tPoints v1 [mkCall [] junk OPop; mkCall [SItem 0] junk (OSet 0 (VInt I32 9))] in
  o1 = Panic /\ v1 = vPoints ex_rt /\ v2 = VList ex_rt [vPoint (nested ex_rt 0) 9 2 3] /\
  (do L <- feeds Debug 1 (rl_new []) (evs1 ++ evs2); Ok (rl_inner L, rl_paused L)) = Ok ([], 1).
Proof. vm_compute. auto. Qed.

(** ** C49.  [Maybe::some] and [Maybe::none] store the runtime they are given, while every other
    constructor of an enum nests it by the variant's tag. *)
Theorem c49_maybe_off_its_path : forall t q n x, let r := nested q n in
  ty_ok (maybe_ty t) = true -> state_ty t = true -> wt t x = true ->
  ~ placed r (maybe_ty t) (maybe_some r x) /\ ~ placed r (maybe_ty t) (maybe_none r) /\
  forall o r', (forall x, o = Some x -> wt t x = true) -> placed r (maybe_ty t) (set_rt r (maybe_from_option r' o)).
Proof.
  assert (L : forall (r : rt) n, r <> nested r n).
  { intros [lg p] n E. injection E as E. apply (f_equal (fun p => length (collect_values p))) in E. unfold collect_values in E. cbn in E. rewrite app_length in E. cbn in E. lia. }
  intros t q n x r O S Wx. split; [|split].
  - intros P. apply placed_coh in P; try assumption; try reflexivity; [|destruct q; cbn; now rewrite Wx].
    apply coh_enum in P. destruct P as [P _]. now apply L in P.
  - intros P. apply placed_coh in P; try assumption; try reflexivity. apply coh_enum in P. destruct P as [P _]. now apply L in P.
  - intros o r' Ho. apply coh_placed; try assumption; try reflexivity; [|apply coh_set]. destruct o as [y|]; [|reflexivity].
    cbn. now rewrite (wt_set_rt t y _ (Ho y eq_refl)).
Qed.
Print Assumptions c49_maybe_off_its_path.
(** Given to [set_..._with] or [insert_with], it makes later changes go astray. *)
Definition maybe_calls : list call :=
  [ mkCall [] junk (OInsertWith 6 (fun r => mret (maybe_some r (vPoint (nested r 0) 1 2 3)))); mkCall [SKey 6; SField 0] junk (OSet 1 (VInt I32 9)) ].
Theorem c49_converges_refuted : let t := TMap K16 (maybe_ty tPoint) in
  (exists bs, ship t (VMap ex_rt []) (VMap (mkRt 5 Root) []) (firstn 1 maybe_calls) = Ok (bs, Ok 1%nat, Ok tt, true)) /\
  (exists bs, ship t (VMap ex_rt []) (VMap (mkRt 5 Root) []) maybe_calls = Ok (bs, Ok 2%nat, Err InvalidData, false)) /\
  is_root (maybe_none ex_rt) = Panic.
Proof. split; [|split]; [eexists|eexists|]; vm_compute; reflexivity. Qed.
Print Assumptions c49_converges_refuted.

(** ** C50.  Apart from its runtime, [Maybe] is [Option]. *)
Theorem c50_maybe_is_option : forall r o,
  maybe_to_option (maybe_from_option r o) = o /\ (maybe_is_some (maybe_from_option r o) = true <-> o <> None) /\
  maybe_is_none (maybe_from_option r o) = negb (maybe_is_some (maybe_from_option r o)).
Proof. intros r [x|]; cbn; repeat split; try discriminate. intros H. now contradiction H. Qed.
Print Assumptions c50_maybe_is_option.
Theorem c50_maybe_eq : forall t v o, wt (maybe_ty t) v = true ->
  (maybe_eq_option v o = true <->
   match maybe_to_option v, o with Some x, Some y => veqb y x = true | None, None => True | _, _ => False end).
Proof.
  intros t v o W. destruct v as [| | | | | | | | | | |tag c r fs| |]; try discriminate W. destruct tag as [|[p|p|]]; cbn in W; bprop; try discriminate.
  - destruct o; cbn; now split.
  - destruct fs as [|[fj x] [|]]; cbn in *; [destruct c; discriminate|destruct o; cbn; now split|]. rewrite !andb_false_r in *. discriminate.
Qed.
Print Assumptions c50_maybe_eq.
Example c50_case :
  maybe_eq_option (maybe_some ex_rt (VInt I32 4)) (Some (VInt I32 4)) = true /\ maybe_eq_option (maybe_none ex_rt) (Some (VInt I32 4)) = false /\ enc (maybe_some ex_rt (VInt I32 4)) = [1; 0; 8] /\ enc (maybe_none ex_rt) = [0].
Proof. vm_compute. auto. Qed.
