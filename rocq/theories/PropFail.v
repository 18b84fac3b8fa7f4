(** C77: operations whose logger refuses an entry, or panics. *)
From Verif Require Import Base Varint WireFmt Utf8 Types Ser Spec De Log State StateSpec Coll ValInd VarintProofs WireProofs SerProofs
  TypeProofs EqProofs DeProofs RoundTrip MergeProofs NormProofs LogProofs TreeProofs CohProofs HandleProofs OpProofs ExecProofs
  ReplayProofs FrameProofs KeepProofs Examples PropLog PropReplay PropState Fail FailProofs.

(** As long as its loggers take what they get, an operation does what State.v says.  If one fails,
    it ends there in a panic, and the node is as it was, or only its variant has been switched. *)
Theorem c77_up_to_failure : forall I (f : logfn I) m h t o v w v1 evs out w', apply_op m h t o v = (v1, (evs, out)) ->
  (lm_calls f m evs w = (w', Ok tt) -> apply_opF f m h t o v w = (v1, (w', out))) /\
  (lm_calls f m evs w = (w', Panic) -> exists v', apply_opF f m h t o v w = (v', (w', Panic)) /\
    (v' = v \/ exists st vs tag va p, t = TEnum st vs /\ ((exists fn x, o = OVSet tag fn x) \/ (exists fn cb, o = OVSetWith tag fn cb)) /\
                 find_variant vs tag = Some va /\ v' = variant_ctor st va p)).
Proof.
  intros I f m h t o v w v1 evs out w' E. rewrite op_plays. unfold ends. rewrite E. cbn [fst snd]. split; intros R; rewrite R; [reflexivity|].
  eexists. split; [reflexivity|]. unfold left_by.
  assert (X : fst (switch m h t o v) = v \/ exists st vs tag va p, t = TEnum st vs /\ ((exists fn x, o = OVSet tag fn x) \/ (exists fn cb, o = OVSetWith tag fn cb)) /\
    find_variant vs tag = Some va /\ fst (switch m h t o v) = variant_ctor st va p).
  { assert (G : forall tg, ((exists fn x, o = OVSet tg fn x) \/ (exists fn cb, o = OVSetWith tg fn cb)) ->
      fst (reset_variant m h t tg v) = v \/ exists st vs tag va p, t = TEnum st vs /\ ((exists fn x, o = OVSet tag fn x) \/ (exists fn cb, o = OVSetWith tag fn cb)) /\
        find_variant vs tag = Some va /\ fst (reset_variant m h t tg v) = variant_ctor st va p).
    { intros tag Ho. remember (fst (reset_variant m h t tag v)) as u eqn:Eu. unfold reset_variant in Eu. destruct t as [| | | | | | | | | | |st vs| |]; try (left; exact Eu). destruct v as [| | | | | | | | | | |tag0 c [r|] fs| |]; try (left; exact Eu).
      destruct (tag0 =? tag); try (left; exact Eu). destruct (find_variant vs tag) as [va|] eqn:V; try (left; exact Eu). destruct (rt_parent r) as [p|e| |]; try (left; exact Eu). cbn [mlift mtry] in Eu.
      unfold rt_log_entry in Eu. destruct (entry_update m p (variant_ctor st va p) h); cbn in Eu; try (left; exact Eu). right. exists st, vs, tag, va, p. auto. }
    destruct o; auto; destruct v as [| | | | | | | | | | |tag0 c [r|] fs| |]; auto; apply G; eauto. }
  destruct (lm_calls f m (fst (snd (switch m h t o v))) w) as [w2 [[]|x| |]]; auto.
Qed.
Print Assumptions c77_up_to_failure.

(** A call on a tree whose logger [lg] is not paused ([i]: the state of the logger, [p]: is its lock
    poisoned).  Either it returns, and the lock is as before; or it panics, because the lock was
    poisoned - then nothing has happened - or because the logger did not take an entry; a refusal
    leaves the lock usable, a panic of the logger poisons it.  In each case the tree is well formed
    and the logger is not paused. *)
Theorem c77_outcome : forall I (f : logfn I) taken m t lg v c w i p t' x q, keeps_count f taken ->
  ty_ok t = true -> state_ty t = true -> wt t v = true -> placed (mkRt lg Root) t v -> logger_at lg w i p ->
  walk t v (c_at c) = Some (t', x, q) -> op_ok m t' x (c_op c) -> op_on lg (c_op c) ->
  exists v' w' i' p' out, at_node (c_at c) (fun t x => apply_opF f m (c_caches c) t (c_op c) x w) t v = Some (v', (w', out)) /\
    wt t v' = true /\ placed (mkRt lg Root) t v' /\ logger_at lg w' i' p' /\
    ((exists ret, out = Ok ret /\ p' = p) \/ out = Panic /\ (p = true /\ p' = true /\ i' = i \/ p = false /\ failed f i' p')).
Proof.
  intros I f taken m t lg v c w i p t' x q H O S W Pl Lw Wk K On. apply placed_coh in Pl; try assumption.
  destruct (at_effectF f m taken H (c_caches c) (c_op c) w i p (c_at c) t (mkRt lg Root) v t' x q O S W Pl Wk K On Lw) as (v' & i' & p' & out & es & A & W' & C' & _ & Ou & _).
  eexists v', _, i', p', out. split; [exact A|]. split; [exact W'|]. split; [now apply coh_placed|]. split; [|exact Ou].
  unfold logger_at. exact (nth_set_same w _ _ _ Lw).
Qed.
Print Assumptions c77_outcome.

(** Once the lock is poisoned, an operation that would call the logger panics and changes nothing;
    one that would not (a field outside the state, [pop] of an empty list) works as ever. *)
Theorem c77_poisoned : forall I (f : logfn I) m h t o v w lg L v1 evs out, log_of v = Some lg -> op_on lg o ->
  nth_error w (N.to_nat lg) = Some (mkCell L true) -> apply_op m h t o v = (v1, (evs, out)) ->
  apply_opF f m h t o v w = match evs with [] => (v1, (w, out)) | _ => (v, (w, Panic)) end.
Proof.
  intros I f m h t o v w lg L v1 evs out Lv On Lw E. rewrite op_plays. unfold ends. rewrite E. cbn [fst snd].
  pose proof (op_mon m lg h t o v Lv On) as Mo. unfold mon in Mo. rewrite E in Mo. cbn [fst snd] in Mo.
  rewrite (poisoned_calls f m lg evs w L Mo Lw). destruct evs as [|ev evs]; [reflexivity|]. f_equal.
  unfold left_by. assert (Ms : mon lg (snd (switch m h t o v))).
  { destruct o; cbn [switch]; try apply mon_nil; destruct v as [| | | | | | | | | | |tag0 c [r0|] fs| |]; try apply mon_nil; apply mon_reset; injection Lv as Lv; exact Lv. }
  rewrite (poisoned_calls f m lg _ w L Ms Lw). destruct (fst (snd (switch m h t o v))) eqn:Es; [|reflexivity].
  destruct o; try reflexivity; destruct v as [| | | | | | | | | | |tag0 c [r0|] fs| |]; try reflexivity; now apply reset_nil.
Qed.
Print Assumptions c77_poisoned.

(** Calls attempted one after another, with the panics caught: as long as no [swap_remove] was among
    those that panicked, the entries the logger has taken lead a replica to the state of the
    original. *)
Theorem c77_agree : forall I (f : logfn I) taken m m' m'' t lg lg' v u cs w i p, keeps_count f taken ->
  ty_ok t = true -> state_ty t = true -> root_ty t = true ->
  wt t v = true -> placed (mkRt lg Root) t v -> wt t u = true -> placed (mkRt lg' Root) t u -> same v u ->
  logger_at lg w i p -> legalF f m lg t v cs w ->
  exists v' w' i' p' outs es, attempt f m t v cs w = (v', (w', outs)) /\ length outs = length cs /\
    Forall (fun out => out = Panic \/ exists ret, out = Ok ret) outs /\
    wt t v' = true /\ placed (mkRt lg Root) t v' /\ logger_at lg w' i' p' /\
    (forall l, l <> lg -> nth_error w' (N.to_nat l) = nth_error w (N.to_nat l)) /\ taken i' = taken i ++ es /\
    (Forall2 (fun c out => swaps (c_op c) = true -> out <> Panic) cs outs -> Forall fits es ->
     exists bs b' u', buf_bytes m' (bufd es) = Ok (bs, b') /\ replay m'' t u bs = (u', Ok tt) /\
       same v' u' /\ veqb v' u' = true /\ wt t u' = true /\ placed (mkRt lg' Root) t u').
Proof.
  intros I f taken m m' m'' t lg lg' v u cs w i p H O S R W Pl Wu Plu Sm Lw Lg. apply placed_coh in Pl; try assumption. apply placed_coh in Plu; try assumption.
  destruct (attempt_effect f m taken H t (mkRt lg Root) O S cs v w i p W Pl Lw Lg) as (v' & w' & i' & p' & outs & es & E & Len & W' & C' & L' & Ot & T & Ou & Rp).
  change (collect_values (rt_path (mkRt lg Root))) with (@nil N) in T. rewrite map_rel_nil in T.
  exists v', w', i', p', outs, es. split; [exact E|]. split; [exact Len|]. split; [exact Ou|]. split; [exact W'|]. split; [now apply coh_placed|]. split; [exact L'|].
  split; [exact Ot|]. split; [exact T|]. intros F2 F. destruct (buf_bytes_spec m' (bufd es)) as (b' & Eb & _); [now rewrite map_fst_bufd|].
  assert (Fo : Forall entry_ok es) by (eapply Forall_impl; [|exact F]; intros e [X _]; exact X).
  destruct (Rp F2 m'' u Fo Wu Sm) as (u' & Hu & Wu' & Sm').
  exists (concat (map entry_wire es)), b', u'. split; [now rewrite Eb, map_fst_bufd|].
  assert (Er : replay m'' t u (concat (map entry_wire es)) = (u', Ok tt)).
  { unfold replay. rewrite (is_root_coh t u lg' S R Wu Plu). pose proof (replay_run m'' t es (fits_replay es F) [] u) as X.
    rewrite app_nil_r in X. rewrite X, Hu. reflexivity. }
  split; [exact Er|]. split; [exact Sm'|]. split; [now apply (norm_veqb t)|]. split; [exact Wu'|]. apply coh_placed; try assumption.
  pose proof (handle_all_coh m'' t _ es O S Fo u Wu Plu) as X. now rewrite Hu in X.
Qed.
Print Assumptions c77_agree.

(** [swap_remove] logs two entries before it changes the list.  If the logger takes the first, a
    [pop], and refuses the second, the list is as before, but replicas lose their last item. *)
Theorem c77_swap_half : forall I (f : logfn I) m h t r l z k w i i1 i2 x, ty_ok (TList t) = true -> arg_ok t z -> (N.to_nat k < length l)%nat ->
  logger_at (rt_log r) w i false -> let path := collect_values (rt_path r) in let v := VList r (l ++ [z]) in
  f i (EListPop path) = (i1, Ok tt) -> f i1 (EUpdate (path ++ [k]) (enc z)) = (i2, Err x) ->
  (exists w', apply_opF f m h (TList t) (OSwapRemove k) v w = (v, (w', Panic)) /\ logger_at (rt_log r) w' i2 false) /\
  (forall m' u, wt (TList t) u = true -> same v u -> exists u', handle_entry m' (TList t) (EListPop []) u = (u', Ok tt) /\ same (VList r l) u').
Proof.
  intros I f m h t r l z k w i i1 i2 x O A Hk Lw path v F1 F2. pose proof O as O'. cbn [ty_ok] in O'. bprop. split.
  - eexists. split; [|exact (nth_set_same w _ (mkCell (mkRL i2 0) false) _ Lw)]. cbn [apply_opF]. unfold v, list_swap_removeF.
    assert (Hl : lenN (l ++ [z]) = lenN l + 1) by (unfold lenN; rewrite app_length; cbn; lia). rewrite Hl.
    destruct (lenN l + 1 <=? k) eqn:X; [unfold lenN in X; lia|]. destruct (k =? lenN l + 1 - 1) eqn:Y; [unfold lenN in Y; lia|].
    rewrite nth_error_app1 by exact Hk. destruct (nth_error l (N.to_nat k)) as [y|] eqn:Ny; [|apply nth_error_None in Ny; lia].
    rewrite rev_app_distr. cbn [rev app]. unfold entry_update_child, entry_update. rewrite (arg_bytes m t z h ltac:(assumption) A), OpProofs.collect_nested. cbn [bind].
    unfold ltry, lbind, llift, lm_log_multi, with_lock. unfold logger_at in Lw. rewrite Lw. cbn [c_poisoned c_logger log_multi]. unfold rl_log. cbn [rl_paused rl_inner N.eqb].
    unfold entry_list_pop. unfold path in F1, F2. rewrite F1. change (0 =? 0) with true. cbn [rl_paused rl_inner]. change (0 =? 0) with true. rewrite F2. reflexivity.
  - intros m' u Wu Sm. destruct (same_list_inv t r _ u Wu Sm) as (r' & l' & -> & Len & N).
    unfold handle_entry. cbn [entry_path entry_kind entry_key entry_bytes handle].
    rewrite app_length in Len. destruct l' as [|a l']; [cbn in Len; lia|]. eexists. split; [reflexivity|].
    apply same_list. rewrite norm_items_removelast, <- N, <- norm_items_removelast, removelast_last. reflexivity.
Qed.
Print Assumptions c77_swap_half.

(** A logger that takes as many entries as its script says, refuses where it says [false], and keeps
    what it has taken. *)
Definition choosy : logfn (list bool * list entry) := fun '(s, es) e =>
  match s with
  | true :: s' => ((s', es ++ [e]), Ok tt)
  | false :: s' => ((s', es), Err InvalidInput)
  | [] => ((s, es), Panic)
  end.
(** The loggers of the repository that keep or panic are such loggers (buffer.rs, panic.rs). *)
Lemma buffer_keeps : keeps_count buf_log (map fst).
Proof. intros b e. cbn. now rewrite map_app. Qed.
Lemma panic_keeps : keeps_count panic_log (fun _ => []).
Proof. intros i e. reflexivity. Qed.
Lemma choosy_keeps : keeps_count choosy snd.
Proof. intros [[|[|] s] es] e; reflexivity. Qed.

(** Without the condition on [swap_remove], C77 is false: the second entry is refused, and a replica
    that starts equal ends different. *)
Theorem c77_swap_agree_refuted : exists (t : ty) v u cs w v' w' s es,
  ty_ok t = true /\ state_ty t = true /\ root_ty t = true /\ wt t v = true /\ placed (mkRt 0 Root) t v /\
  wt t u = true /\ placed (mkRt 1 Root) t u /\ same v u /\ logger_at 0 w ([true; false], []) false /\
  legalF choosy Debug 0 t v cs w /\ attempt choosy Debug t v cs w = (v', (w', [Panic])) /\ logger_at 0 w' (s, es) false /\
  match buf_bytes Debug (bufd es) with
  | Ok (bs, _) => snd (replay Debug t u bs) = Ok tt /\ veqb v' (fst (replay Debug t u bs)) = false
  | _ => False
  end.
Proof.
  exists tPoints, (vPoints (mkRt 0 Root)), (vPoints (mkRt 1 Root)), [mkCall [] junk (OSwapRemove 0)], [mkCell (mkRL ([true; false], []) 0) false].
  do 4 eexists. split; [reflexivity|]. split; [reflexivity|]. split; [reflexivity|]. split; [reflexivity|]. split; [apply coh_placed; reflexivity|].
  split; [reflexivity|]. split; [apply coh_placed; reflexivity|]. split; [vm_compute; reflexivity|]. split; [reflexivity|]. split.
  { split; [|intros; exact Logic.I]. do 3 eexists. split; [reflexivity|]. split; [|exact Logic.I]. intros _. split; [reflexivity|]. intros z E. vm_compute in E. inversion E. arg. }
  split; [vm_compute; reflexivity|]. split; [reflexivity|]. vm_compute. split; reflexivity.
Qed.
Print Assumptions c77_swap_agree_refuted.

(** All of it in one history: a push that is refused and tried again, a setter that switches variant
    and is refused its field, a logger that panics in the end. *)
Definition rough_calls : list call :=
  [ mkCall [SField 0] junk (OPush (vPoint rt_default 1 2 3));
    mkCall [SField 0] junk (OPush (vPoint rt_default 1 2 3));
    mkCall [SField 1] junk (OInsertWith 6 (fun r => ([LLog (rt_log r) (EListPop [])], Ok (vNone r))));
    mkCall [SField 1; SKey 6] junk (OVSet 1 0 (vPoint rt_default 7 8 9));
    mkCall [SField 0; SItem 0] junk (OSet 1 (VInt I32 (-7)));
    mkCall [] junk (OSet 2 (VBool true));
    mkCall [SField 0; SItem 0] junk (OSet 1 (VInt I32 5)) ].
Definition rough_world : world (list bool * list entry) := [mkCell (mkRL ([false; true; true; true; false; true], []) 0) false].
Definition rough_run := attempt choosy Debug tGame (dflt tGame (mkRt 0 Root)) rough_calls rough_world.
Example c77_case :
  map is_ok (snd (snd rough_run)) = [false; true; true; false; true; false; false] /\
  map (fun c => (map entry_path (snd (rl_inner (c_logger c))), c_poisoned c)) (fst (snd rough_run)) =
    [([[0]; [1; 6]; [1; 6]; [0; 0; 1]], true)] /\
  match nth_error (fst (snd rough_run)) 0 with
  | Some c =>
      match buf_bytes Debug (bufd (snd (rl_inner (c_logger c)))) with
      | Ok (bs, _) => veqb (fst rough_run) (fst (replay Release tGame (dflt tGame (mkRt 5 Root)) bs))
      | _ => false
      end
  | None => false
  end = true.
Proof. vm_compute. auto. Qed.
