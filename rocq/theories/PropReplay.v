(** C20, C30, C32-C34, C48: replay. *)
From Verif Require Import Base Varint WireFmt Utf8 Types Ser Spec De Log State StateSpec Coll ValInd VarintProofs WireProofs SerProofs
  TypeProofs EqProofs DeProofs RoundTrip MergeProofs NormProofs LogProofs TreeProofs CohProofs HandleProofs OpProofs ExecProofs
  ReplayProofs FrameProofs Examples.

(** A list of points, at the root and elsewhere; a state with most kinds of parts. *)
Definition tPoints : ty := TList tPoint.
Definition vPoints (r : rt) : val := VList r [vPoint (nested r 0) 1 2 3; vPoint (nested r 1) 4 5 6].

(** ** C20.  [a] ends where an entry ends; [b] is any bytes.  (Cut elsewhere, [a] alone is not a
    stream of entries: the decoder takes what is there for the whole entry, see C18.) *)
Theorem c20_pieces : forall m t v a b, ty_ok t = true -> state_ty t = true -> wt t v = true -> bytes_ok a -> complete_stream a ->
  replay m t v (a ++ b) = match replay m t v a with (v', Ok _) => replay m t v' b | failed => failed end.
Proof. exact replay_app. Qed.
Print Assumptions c20_pieces.
Theorem c20_nothing : forall m t v, is_root v = Ok true -> replay m t v [] = (v, Ok tt).
Proof. intros m t v H. unfold replay. now rewrite H. Qed.
Print Assumptions c20_nothing.
Theorem c20_cut_entry_refuted : ~ (forall m t v a b, ty_ok t = true -> state_ty t = true -> wt t v = true ->
  replay m t v (a ++ b) = match replay m t v a with (v', Ok _) => replay m t v' b | failed => failed end).
Proof.
  intros H. specialize (H Debug tPoints (VList ex_rt []) [9; 8; 10; 6; 0; 3] [8; 2; 16; 10] eq_refl eq_refl eq_refl). vm_compute in H. discriminate H.
Qed.
Print Assumptions c20_cut_entry_refuted.
Example c20_case :
  complete_stream [9; 8; 10; 6; 0; 3; 8; 2; 16; 10] /\
  replay Debug tPoints (VList ex_rt []) ([9; 8; 10; 6; 0; 3; 8; 2; 16; 10] ++ [1; 9]) = (VList ex_rt [], Ok tt) /\
  replay Debug tPoints (VList ex_rt []) [9; 8; 10; 6; 0; 3; 8; 2; 16; 10] = (VList ex_rt [vPoint (nested ex_rt 0) (-2) 1 5], Ok tt) /\
  replay Debug tPoints (VList ex_rt [vPoint (nested ex_rt 0) (-2) 1 5]) [1; 9] = (VList ex_rt [], Ok tt).
Proof.
  split; [|vm_compute; auto]. exists [[9; 8; 10; 6; 0; 3; 8; 2; 16; 10]]. split; [reflexivity|]. repeat constructor.
  exists [9], [8; 10; 6; 0; 3; 8; 2; 16; 10]. split; [reflexivity|]. split; [vm_compute; reflexivity|].
  repeat split; try (repeat constructor); try reflexivity; vm_compute; discriminate.
Qed.

(** ** C30 *)

(** Whatever the bytes, nothing is read and nothing changes unless [is_root] answers yes. *)
Theorem c30_not_root : forall m t v bs, is_root v = Ok false -> replay m t v bs = (v, Err InvalidInput).
Proof. intros m t v bs H. unfold replay. now rewrite H. Qed.
Print Assumptions c30_not_root.

(** ... and it answers by the path the node was given ([base]), except on boxed enums, where the
    answer is always no, and on integers and booleans, where it panics. *)
Theorem c30_who_is_root : forall t v lg p, ty_ok t = true -> state_ty t = true -> wt t v = true -> placed (mkRt lg p) t v ->
  is_root v = if prim_under t then Panic
              else if match t with TBox t' => enum_under t' | _ => false end then Ok false
              else Ok (match p with Root => true | Child _ _ => false end).
Proof.
  intros t v lg p O S W Pl. destruct (prim_under t) eqn:P; [now apply (prim_is_root t)|]. rewrite (is_root_base t v S W). unfold boxed_enum.
  destruct (match t with TBox t' => enum_under t' | _ => false end) eqn:B; [reflexivity|].
  apply placed_coh in Pl; [|assumption..]. rewrite (coh_base t v _ S P W Pl). reflexivity.
Qed.
Print Assumptions c30_who_is_root.

(** So a boxed enum never replays anything, also when it is the root. *)
Theorem c30_boxed_enum : forall m t v bs, ty_ok (TBox t) = true -> state_ty (TBox t) = true -> enum_under t = true -> wt (TBox t) v = true ->
  replay m (TBox t) v bs = (v, Err InvalidInput).
Proof. intros m t v bs O S E W. unfold replay. rewrite (is_root_base _ v S W). cbn [boxed_enum]. now rewrite E. Qed.
Print Assumptions c30_boxed_enum.
Example c30_case :
  replay Debug tPoints (vPoints ex_rt) [1; 9] = (VList ex_rt [vPoint (nested ex_rt 0) 1 2 3], Ok tt) /\
  replay Debug tPoints (vPoints (nested ex_rt 4)) [1; 9] = (vPoints (nested ex_rt 4), Err InvalidInput) /\
  snd (replay Debug (tMaybe tPoint) (vNone ex_rt) [4; 0; 10; 1; 1]) = Ok tt /\
  replay Debug (TBox (tMaybe tPoint)) (VBox (vNone ex_rt)) [4; 0; 10; 1; 1] = (VBox (vNone ex_rt), Err InvalidInput) /\
  snd (replay Debug (TInt U8) (VInt U8 1) []) = Panic.
Proof. vm_compute. auto 6. Qed.

(** ** C32.  [shape]: the state is unchanged, or has a new value at the entry's path, or a map
    has a new last key there.  [part]: everything else is literally the same. *)
Theorem c32_only_the_target : forall m t e v, ty_ok t = true -> state_ty t = true -> wt t v = true -> entry_ok e ->
  shape t v (entry_path e) (fst (handle_entry m t e v)) /\
  forall steps t' x q, ~ comparable q (entry_path e) ->
    (part t v steps = Some (t', x, q) <-> part t (fst (handle_entry m t e v)) steps = Some (t', x, q)).
Proof.
  intros m t e v O S W (P & _ & B). pose proof (handle_shape m t O S (entry_path e) (entry_kind e) (entry_key e) (entry_bytes e) v W B P) as H.
  split; [exact H|]. intros steps t' x q NC. now apply (shape_frame t v (entry_path e)).
Qed.
Print Assumptions c32_only_the_target.
Example c32_case : let e := EUpdate [1; 1] [9] in
  entry_ok e /\ ~ comparable [0] [1; 1] /\ ~ comparable [1; 0] [1; 1] /\
  handle_entry Debug tPoints e (vPoints ex_rt) = (VList ex_rt [vPoint (nested ex_rt 0) 1 2 3; vPoint (nested ex_rt 1) 4 (-5) 6], Ok tt) /\
  part tPoints (vPoints ex_rt) [SItem 1; SField 0] = Some (TInt I32, VInt I32 4, [1; 0]).
Proof.
  cbv zeta. split; [|split; [intros (s & [E|E]); discriminate E|split; [intros (s & [E|E]); discriminate E|vm_compute; auto]]].
  split; [repeat constructor|]. split; [discriminate|repeat constructor].
Qed.

(** ** C33.  [decodes m bs es rest]: the entries at the front of [bs]; [handle_all] applies them
    one after another. *)
Theorem c33_prefix : forall m t v bs, ty_ok t = true -> state_ty t = true -> wt t v = true -> bytes_ok bs -> is_root v = Ok true ->
  let '(v', o) := replay m t v bs in
  match o with
  | Ok _ => exists es, decodes m bs es [] /\ handle_all m t es v = (v', Ok tt)
  | _ => exists es rest v1, decodes m bs es rest /\ handle_all m t es v = (v1, Ok tt) /\
      ((v' = v1 /\ (do _ <- read_entry m rest; Ok tt) = o) \/
       (exists e rest', read_entry m rest = Ok (e, rest') /\ handle_entry m t e v1 = (v', o) /\ shape t v1 (entry_path e) v'))
  end.
Proof.
  intros m t v bs O S W B R. unfold replay. rewrite R. pose proof (run_decodes m t bs v B) as D. destruct (run (replay_step m t) v bs) as [v' o].
  assert (K : forall bad : res bytes, (exists es rest v1, decodes m bs es rest /\ Forall entry_ok es /\ handle_all m t es v = (v1, Ok tt) /\
      ((v' = v1 /\ (do _ <- read_entry m rest; Ok tt) = (do _ <- bad; Ok tt)) \/
       (exists e rest', read_entry m rest = Ok (e, rest') /\ entry_ok e /\ handle_entry m t e v1 = (v', do _ <- bad; Ok tt)))) ->
    exists es rest v1, decodes m bs es rest /\ handle_all m t es v = (v1, Ok tt) /\
      ((v' = v1 /\ (do _ <- read_entry m rest; Ok tt) = do _ <- bad; Ok tt) \/
       (exists e rest', read_entry m rest = Ok (e, rest') /\ handle_entry m t e v1 = (v', do _ <- bad; Ok tt) /\ shape t v1 (entry_path e) v'))).
  { intros bad (es & rest & v1 & Ds & F & H & C). exists es, rest, v1. split; [exact Ds|]. split; [exact H|]. destruct C as [C|(e & rest' & E & Oe & He)]; [now left|].
    right. exists e, rest'. split; [exact E|]. split; [exact He|]. pose proof (handle_all_wt m t es O S F v W) as W1. rewrite H in W1.
    pose proof (c32_only_the_target m t e v1 O S W1 Oe) as [Sh _]. now rewrite He in Sh. }
  destruct o as [rest|e| |]; cbn [ok_unit bind].
  - destruct D as (es & D & _ & H). eauto.
  - exact (K (Err e) D).
  - exact (K Panic D).
  - exact (K NoFuel D).
Qed.
Print Assumptions c33_prefix.

(** Not atomic: the failing update has reset its target and merged a part of the payload. *)
Theorem c33_atomic_refuted : ~ (forall m t e v v', ty_ok t = true -> state_ty t = true -> wt t v = true -> entry_ok e ->
  handle_entry m t e v = (v', Err InvalidData) -> v' = v).
Proof.
  intros H. specialize (H Debug tPoint (EUpdate [] [0; 9; 7]) (vPoint ex_rt 1 2 3) (vPoint ex_rt (-5) 0 0) eq_refl eq_refl eq_refl).
  assert (K : vPoint ex_rt (-5) 0 0 = vPoint ex_rt 1 2 3); [|discriminate K]. apply H; [|vm_compute; reflexivity].
  split; [repeat constructor|]. split; [discriminate|repeat constructor].
Qed.
Print Assumptions c33_atomic_refuted.
Example c33_case :
  replay Debug tPoints (vPoints ex_rt) ([1; 9] ++ [9; 0; 2; 1; 0; 10; 3; 0; 9; 7] ++ [1; 9]) =
    (VList ex_rt [vPoint (nested ex_rt 0) (-5) 0 0], Err InvalidData) /\
  decodes Debug ([1; 9] ++ [9; 0; 2; 1; 0; 10; 3; 0; 9; 7] ++ [1; 9]) [EListPop []] ([9; 0; 2; 1; 0; 10; 3; 0; 9; 7] ++ [1; 9]).
Proof. split; [vm_compute; reflexivity|]. eapply DCons; [vm_compute; reflexivity|constructor]. Qed.

(** ** C34 *)

(** Keys of all maps in a value are in the range of their key types. *)
Definition keys_fit (t : ty) (v : val) : Prop := forall steps kk t' r es p,
  part t v steps = Some (TMap kk t', VMap r es, p) -> Forall (fun e => fst e <= mkey_max kk) es.

Lemma keys_field fn fi t : forall ts fs x, keys_fields ts fs = true -> wt_fields ts fs = true ->
  find_field fn ts = Some (fi, t) -> find_field fn fs = Some (fi, x) -> keys_in t x = true.
Proof.
  induction ts as [|[fj t'] ts IH]; intros [|[fk y] fs] x K W F G; try discriminate F; try discriminate G.
  cbn in *. bprop. pose proof (proj1 (finfo_eqb_eq fj fk) ltac:(assumption)) as ->. destruct (fn =? f_tag fk).
  - inversion F; inversion G; subst. assumption.
  - eapply IH; eassumption.
Qed.
Lemma keys_child t v s t' x : wt t v = true -> keys_in t v = true -> child t v s = Some (t', x) -> keys_in t' x = true.
Proof.
  intros W K E. destruct s as [fn|i|k|]; destruct t as [kk| | | |t|t|n t|ts|kt vt|t|si fts|st vs|t|kt t]; try discriminate E;
    destruct v as [| | | | | | | | |y|c r0 fs|tag c r0 fs|r0 l|r0 es]; try discriminate E; cbn [child] in E.
  - rewrite wt_struct_eq in W. rewrite keys_struct in K. bprop. destruct (field_child_wt _ _ _ _ _ ltac:(eassumption) E) as (fi & F1 & F2 & _).
    eapply keys_field; eassumption.
  - destruct (wt_enum_inv _ _ _ _ _ _ W) as (c' & fts & F & -> & Wf & Hst & _). rewrite keys_enum in K. rewrite F in E, K. cbn [snd] in *.
    destruct (field_child_wt _ _ _ _ _ Wf E) as (fi & F1 & F2 & _). eapply keys_field; eassumption.
  - destruct (nth_error l (N.to_nat i)) as [y|] eqn:F; [|discriminate E]. inversion E; subst. exact (nth_forallb (keys_in t') l _ x F K).
  - destruct (assoc k es) as [y|] eqn:F; [|discriminate E]. inversion E; subst. cbn [keys_in] in K. apply assoc_in in F.
    rewrite forallb_forall in K. specialize (K _ F). cbn in K. now bprop.
  - inversion E; subst. exact K.
Qed.
Lemma keys_in_fit t : forall v, ty_ok t = true -> wt t v = true -> keys_in t v = true -> keys_fit t v.
Proof.
  intros v O W K steps. revert t v O W K. induction steps as [|s steps IH]; intros t v O W K kk t' r es p E; cbn [part] in E.
  - inversion E; subst. cbn [keys_in] in K. rewrite forallb_forall in K. apply Forall_forall. intros e I. specialize (K e I). cbn in K. bprop. lia.
  - destruct (child t v s) as [[t1 y]|] eqn:C; [|discriminate E]. destruct (part t1 y steps) as [[[t2 z] q]|] eqn:P; [|discriminate E].
    inversion E; subst. destruct (child_wt t v s t1 y O W C) as (O1 & W1 & _). exact (IH t1 y O1 W1 (keys_child t v s t1 y W K C) kk t' r es q P).
Qed.
Lemma entries_iter_fit kk es : Forall (fun e => fst e <= mkey_max kk) es -> entries_iter kk es = (es, Ok tt).
Proof.
  induction 1 as [|[fn x] es L _ IH]; [reflexivity|]. cbn [fst] in L. cbn [entries_iter]. unfold key_of_fn. apply N.leb_le in L. rewrite L. cbn [unwrap]. now rewrite IH.
Qed.

(** Whatever bytes are decoded, all maps in the result can be iterated; the iteration yields the
    stored keys. *)
Theorem c34_decoded_maps_iterate : forall m t bs, ty_ok t = true -> bytes_ok bs ->
  let v := fst (merge m t (dflt t rt_default) bs) in
  forall steps kk t' r es p, part t v steps = Some (TMap kk t', VMap r es, p) -> map_iter kk (VMap r es) = (es, Ok tt).
Proof.
  intros m t bs O B v steps kk t' r es p E. apply entries_iter_fit. refine (keys_in_fit t v O _ _ steps kk t' r es p E).
  - pose proof (merge_good m t O (dflt t rt_default) bs (wt_dflt t O rt_default) B) as G. unfold v. destruct (merge m t (dflt t rt_default) bs). now destruct G.
  - apply (merge_keys m t O). now apply keys_dflt.
Qed.
Print Assumptions c34_decoded_maps_iterate.
(** The largest key of a map with keys of type [u8], [u16], [u32]. *)
Definition largest_key (kk : mkey) : N := match kk with K8 => 255 | K16 => 65535 | K32 => 4294967295 end.
(** A number outside the range stops the decoder with an error. *)
Theorem c34_rejected : forall m kk t r es fn w q rest, largest_key kk < fn <= 2 ^ 29 - 1 -> one_varint 5 q (tag_num fn w) ->
  merge m (TMap kk t) (VMap r es) (q ++ rest) = (VMap r es, Err InvalidData).
Proof.
  intros m kk t r es fn w q rest [L1 L2] V. change (largest_key kk) with (mkey_max kk) in L1. change (fn <= FIELD_NUMBER_MAX) in L2. cbn [merge].
  assert (NE : q ++ rest <> []).
  { destruct V as (_ & V & _). apply varint_prefix_nonempty in V. destruct q; [congruence|discriminate]. }
  unfold run. destruct (q ++ rest) as [|b bs] eqn:E; [congruence|]. cbn [length loop]. rewrite <- E. unfold map_step at 1.
  rewrite (uv_one m U32 5 q _ V eq_refl (tag_num_bound fn w L2)). cbn [try]. rewrite parse_tag_num by exact L2. cbn [try].
  unfold validate_field_number. destruct (FIELD_NUMBER_MAX <? fn) eqn:X; [lia|]. cbn [try]. unfold key_of_fn.
  destruct (fn <=? mkey_max kk) eqn:Y; [lia|]. reflexivity.
Qed.
Print Assumptions c34_rejected.
(** One inside it is a key. *)
Theorem c34_accepted : forall m kk r fn, fn <= largest_key kk -> fn <= 2 ^ 29 - 1 ->
  merge m (TMap kk TBool) (VMap r []) (leb128 (8 * fn) ++ [1]) = (VMap r [(fn, VBool true)], Ok []).
Proof.
  intros m kk r fn L1 L2. change (largest_key kk) with (mkey_max kk) in L1. assert (L3 : fn <= FIELD_NUMBER_MAX) by exact L2.
  assert (T : 8 * fn = tag_num fn Varint) by (unfold tag_num; cbn [wt_value]; lia). rewrite T. cbn [merge].
  rewrite run_step; [|apply map_step_consuming, (merge_suf m TBool)|pose proof (leb128_nonempty (tag_num fn Varint)); destruct (leb128 _); [congruence|discriminate]].
  unfold map_step at 1. rewrite uv_deserialize_leb by (first [reflexivity|exact (tag_num_bound fn Varint L3)]). cbn [try]. rewrite parse_tag_num by exact L3. cbn [try].
  unfold validate_field_number. destruct (FIELD_NUMBER_MAX <? fn) eqn:X; [lia|]. cbn [try]. unfold key_of_fn. destruct (fn <=? mkey_max kk) eqn:Y; [|lia]. reflexivity.
Qed.
Print Assumptions c34_accepted.
(** Replay does not check: for every key type narrower than [u32] there is an entry after which
    iterating panics. *)
Theorem c34_replay_checks_refuted : forall m kk r, kk <> K32 ->
  let e := EUpdate [mkey_max kk + 1] [1] in
  entry_ok e /\ exists v', handle_entry m (TMap kk TBool) e (VMap r []) = (v', Ok tt) /\ map_iter kk v' = ([], Panic).
Proof.
  intros m kk r NE e. split.
  - unfold e. split; [constructor; [|constructor]; destruct kk; try reflexivity; congruence|]. split; [discriminate|repeat constructor].
  - eexists. split; [reflexivity|]. cbn. destruct kk; reflexivity.
Qed.
Print Assumptions c34_replay_checks_refuted.
Example c34_case :
  merge Debug (TMap K8 TBool) (VMap ex_rt []) [248; 15; 1] = (VMap ex_rt [(255, VBool true)], Ok []) /\
  merge Debug (TMap K8 TBool) (VMap ex_rt []) [128; 16; 1] = (VMap ex_rt [], Err InvalidData) /\
  replay Debug (TMap K8 TBool) (VMap ex_rt []) [8; 0; 2; 2; 128; 2; 10; 1; 1] = (VMap ex_rt [(256, VBool true)], Ok tt) /\
  map_iter K8 (VMap ex_rt [(7, VBool true); (256, VBool true)]) = ([(7, VBool true)], Panic).
Proof. vm_compute. auto. Qed.

(** ** C48.  Any bytes: the state stays well formed and every node in its place; the outcome is
    success or an error, or a panic with one of the causes of C17 in the stream or in the payload
    of the entry it stops at. *)
Definition overlong (m : mode) (bs : bytes) : Prop := exists a b, bs = a ++ b /\
  ((exists n rest, uv_deserialize m 64 b = Ok (n, rest) /\ 2 ^ 63 <= n) \/
   (m = Debug /\ exists k, uv_deserialize m (ibits k) b = Panic)).
Lemma cause_overlong m bs : cause m bs -> overlong m bs.
Proof.
  intros (a & b & E & H). exists a, b. split; [exact E|]. destruct H as [H|(k & H)]; [auto|].
  right. split; [|eauto]. destruct m; [reflexivity|]. now apply uv_de_loop_release_np in H.
Qed.
Lemma decodes_suffix m bs es rest : bytes_ok bs -> decodes m bs es rest -> bytes_ok rest /\ exists p, bs = p ++ rest.
Proof.
  intros B D. induction D as [bs|bs e bs' es rest E D IH]; [split; [exact B|now exists []]|].
  pose proof (read_entry_good m bs B) as R. rewrite E in R. destruct R as (_ & B' & p & -> & _). destruct (IH B') as (Br & q & ->).
  split; [exact Br|]. exists (p ++ q). now rewrite app_assoc.
Qed.
Theorem c48_any_bytes : forall m t v bs r, ty_ok t = true -> state_ty t = true -> prim_under t = false ->
  wt t v = true -> placed r t v -> bytes_ok bs ->
  let '(v', o) := replay m t v bs in
  wt t v' = true /\ placed r t v' /\
  match o with
  | Ok _ | Err _ => True
  | Panic => overlong m bs \/ exists es e rest rest', decodes m bs es rest /\ read_entry m rest = Ok (e, rest') /\ overlong m (entry_bytes e)
  | NoFuel => False
  end.
Proof.
  intros m t v bs r O S P W Pl B. apply placed_coh in Pl; try assumption.
  assert (G : wt t (fst (replay m t v bs)) = true /\ coh r (fst (replay m t v bs))).
  { apply (replay_inv m t (fun v => wt t v = true /\ coh r v)); [|now split|exact B]. intros e x [Wx Cx] Oe. split.
    - pose proof (handle_entry_good m t e x O S Wx Oe) as G. destruct (handle_entry m t e x). now destruct G.
    - destruct Oe as (_ & _ & Be). now apply (handle_coh m t O S). }
  destruct (replay m t v bs) as [v' o] eqn:E. destruct G as [W' C']. cbn [fst] in *. split; [exact W'|]. split; [now apply coh_placed|].
  pose proof (is_root_base t v S W) as Rb. rewrite (coh_base t v r S P W Pl) in Rb. cbn [bind] in Rb.
  assert (Rt : is_root v = Ok true \/ is_root v = Ok false) by (rewrite Rb; destruct (boxed_enum t); [auto|]; destruct (rt_is_root r); auto). clear Rb.
  destruct Rt as [Rt|Rt]; unfold replay in E; rewrite Rt in E; [|inversion E; exact I].
  pose proof (run_decodes m t bs v B) as D. destruct (run (replay_step m t) v bs) as [v0 o0].
  destruct o0 as [x|x| |]; cbn [ok_unit bind] in E; inversion E; subst v' o; try exact I.
  - destruct D as (es & rest & v1 & Ds & F & H & K). destruct (decodes_suffix m bs es rest B Ds) as [Br (p & ->)]. destruct K as [(_ & K)|(e & rest' & K & Oe & He)].
    + left. pose proof (read_entry_good m rest Br) as R. cbn [bind] in K. destruct (read_entry m rest) as [[e r2]|e| |]; try discriminate K.
      apply cause_overlong. now apply cause_suffix.
    + right. exists es, e, rest, rest'. split; [exact Ds|]. split; [exact K|]. pose proof (handle_all_wt m t es O S F v W) as W1. rewrite H in W1.
      pose proof (handle_entry_good m t e v1 O S W1 Oe) as G. rewrite He in G. destruct G as [_ G]. now apply cause_overlong.
  - destruct D as (es & rest & v1 & Ds & F & H & K). destruct (decodes_suffix m bs es rest B Ds) as [Br (p & ->)]. destruct K as [(_ & K)|(e & rest' & K & Oe & He)].
    + pose proof (read_entry_good m rest Br) as R. cbn [bind] in K. destruct (read_entry m rest) as [[e r2]|e| |]; try discriminate K. exact R.
    + pose proof (handle_all_wt m t es O S F v W) as W1. rewrite H in W1.
      pose proof (handle_entry_good m t e v1 O S W1 Oe) as G. rewrite He in G. destruct G as [_ G]. exact G.
Qed.
Print Assumptions c48_any_bytes.
Example c48_case : let long := [128; 128; 128; 128; 128; 128; 128; 128; 128; 1] in
  replay Release tPoints (vPoints ex_rt) ([1; 9; 12; 9; 58] ++ long) = (VList ex_rt [vPoint (nested ex_rt 0) 1 2 3], Panic) /\
  overlong Release ([1; 9; 12; 9; 58] ++ long) /\ placed ex_rt tPoints (vPoints ex_rt) /\
  replay Release tPoints (vPoints ex_rt) [1; 10] = (vPoints ex_rt, Err InvalidData) /\
  replay Release tPoints (vPoints ex_rt) [6; 0; 2; 1; 9; 10; 0] = (vPoints ex_rt, Err InvalidData).
Proof.
  cbv zeta. split; [vm_compute; reflexivity|]. split.
  { eexists [1; 9; 12; 9; 58], _. split; [reflexivity|]. left. exists (2 ^ 63), []. vm_compute. split; [reflexivity|discriminate]. }
  split; [apply coh_placed; reflexivity|]. vm_compute. auto.
Qed.
