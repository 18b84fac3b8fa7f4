(** C31, C51: replay leaves the log alone and depends on contents only; histories that mix own calls
    and replayed messages. *)
From Verif Require Import Base Varint WireFmt Utf8 Types Ser Spec De Log State StateSpec Coll ValInd VarintProofs WireProofs SerProofs
  TypeProofs EqProofs DeProofs RoundTrip MergeProofs NormProofs LogProofs TreeProofs CohProofs HandleProofs OpProofs ExecProofs
  ReplayProofs FrameProofs KeepProofs SimProofs Examples PropLog PropReplay PropState.

(** ** C51 *)
Theorem c51_decode : forall m t v w bs, wt t v = true -> wt t w = true -> same v w ->
  snd (merge m t v bs) = snd (merge m t w bs) /\ same (fst (merge m t v bs)) (fst (merge m t w bs)).
Proof.
  intros m t v w bs Wv Ww E. destruct (merge_respects m t v w bs (same_sim t v w Wv Ww E)) as [A B]. split; [exact B|]. now apply sim_norm.
Qed.
Print Assumptions c51_decode.
Theorem c51_entry : forall m t e v w, wt t v = true -> wt t w = true -> same v w ->
  snd (handle_entry m t e v) = snd (handle_entry m t e w) /\ same (fst (handle_entry m t e v)) (fst (handle_entry m t e w)).
Proof.
  intros m t e v w Wv Ww E. destruct (handle_respects m t (entry_path e) (entry_kind e) (entry_key e) (entry_bytes e) v w (same_sim t v w Wv Ww E)) as [A B].
  split; [exact B|]. now apply sim_norm.
Qed.
Print Assumptions c51_entry.

(** Messages replayed one after the other, whatever their outcome. *)
Fixpoint replays (m : mode) (t : ty) (v : val) (msgs : list bytes) : val * list (res unit) :=
  match msgs with
  | [] => (v, [])
  | bs :: msgs' => let '(v', o) := replay m t v bs in let '(v'', os) := replays m t v' msgs' in (v'', o :: os)
  end.
Lemma replay_keeps m t v lg bs : ty_ok t = true -> state_ty t = true -> good t (mkRt lg Root) v -> bytes_ok bs -> good t (mkRt lg Root) (fst (replay m t v bs)).
Proof.
  intros O S G B. apply (replay_inv m t (good t (mkRt lg Root))); try assumption. intros e w [W C] (P & K & Be). split.
  - pose proof (handle_good m t O S (entry_path e) (entry_kind e) (entry_key e) (entry_bytes e) w W Be P) as X. unfold handle_entry.
    destruct (handle m t _ _ _ _ w) as [w' o]. now destruct X.
  - now apply (handle_coh m t O S).
Qed.
Lemma replay_same m t v w lg lg' bs : ty_ok t = true -> state_ty t = true -> root_ty t = true -> good t (mkRt lg Root) v -> good t (mkRt lg' Root) w -> same v w ->
  snd (replay m t v bs) = snd (replay m t w bs) /\ same (fst (replay m t v bs)) (fst (replay m t w bs)).
Proof.
  intros O S R [Wv Cv] [Ww Cw] E. destruct (replay_agree m t v w bs (same_sim t v w Wv Ww E)) as [A B].
  - now rewrite (is_root_coh t v lg S R Wv Cv), (is_root_coh t w lg' S R Ww Cw).
  - split; [exact B|]. now apply sim_norm.
Qed.
(** Two roots with equal contents that are sent the same messages, also broken ones, report the same
    outcomes and stay equal. *)
Theorem c51_replay : forall m t lg lg' msgs v w, ty_ok t = true -> state_ty t = true -> root_ty t = true ->
  wt t v = true -> placed (mkRt lg Root) t v -> wt t w = true -> placed (mkRt lg' Root) t w -> same v w -> Forall bytes_ok msgs ->
  snd (replays m t v msgs) = snd (replays m t w msgs) /\ same (fst (replays m t v msgs)) (fst (replays m t w msgs)) /\
  veqb (fst (replays m t v msgs)) (fst (replays m t w msgs)) = true.
Proof.
  intros m t lg lg' msgs v w O S R Wv Pv Ww Pw E B. apply placed_coh in Pv; try assumption. apply placed_coh in Pw; try assumption.
  assert (Gv : good t (mkRt lg Root) v) by now split. assert (Gw : good t (mkRt lg' Root) w) by now split. clear Wv Pv Ww Pw.
  enough (G : snd (replays m t v msgs) = snd (replays m t w msgs) /\ same (fst (replays m t v msgs)) (fst (replays m t w msgs)) /\
    good t (mkRt lg Root) (fst (replays m t v msgs)) /\ good t (mkRt lg' Root) (fst (replays m t w msgs))).
  { destruct G as (A & D & [W1 _] & [W2 _]). split; [exact A|]. split; [exact D|]. now apply (norm_veqb t). }
  revert v w E Gv Gw. induction B as [|bs msgs Bb _ IH]; intros v w E Gv Gw; [auto|]. cbn [replays].
  destruct (replay_same m t v w lg lg' bs O S R Gv Gw E) as [X Y]. pose proof (replay_keeps m t v lg bs O S Gv Bb) as G1. pose proof (replay_keeps m t w lg' bs O S Gw Bb) as G2.
  destruct (replay m t v bs) as [v1 o1], (replay m t w bs) as [w1 o2]. cbn [fst snd] in *. subst o2. specialize (IH v1 w1 Y G1 G2).
  destruct (replays m t v1 msgs) as [v2 os], (replays m t w1 msgs) as [w2 os2]. cbn [fst snd] in *. destruct IH as (-> & A & D). auto.
Qed.
Print Assumptions c51_replay.
(** Push of a point, a message cut short, three pops; on another replica with other runtimes. *)
Example c51_case :
  let msgs := [[9; 8; 10; 6; 0; 3; 8; 2; 16; 10]; [9; 8; 10; 6; 0]; [1; 9]; [1; 9]; [1; 9]; [1; 9]; [7]] in
  let w := VList (mkRt 5 Root) [vPoint (nested (mkRt 5 Root) 0) 1 2 3; vPoint (nested (mkRt 5 Root) 1) 4 5 6] in
  let '(v', os) := replays Debug tPoints (vPoints ex_rt) msgs in let '(w', os') := replays Debug tPoints w msgs in
  os = [Ok tt; Err UnexpectedEof; Ok tt; Ok tt; Ok tt; Err InvalidData; Err UnexpectedEof] /\ os' = os /\ v' = VList ex_rt [] /\ w' = VList (mkRt 5 Root) [].
Proof. vm_compute. repeat split. Qed.

(** ** C31.  A session of a root on logger [lg]: own calls and messages of peers, which are replayed.
    After each step the buffer is plucked (loggers/buffer.rs 37-42); a peer's message and whatever is
    plucked afterwards are passed on to observers, in order. *)
Inductive act := Own (c : call) | Peer (bs : bytes).
Definition perform (m : mode) (t : ty) (lg : N) (v : val) (L : rlogger buffer) (a : act) : res (val * rlogger buffer * list bytes) :=
  match a with
  | Own c =>
      match at_node (c_at c) (fun t x => apply_op m (c_caches c) t (c_op c) x) t v with
      | Some (v', (evs, Ok _)) => do L' <- feeds m lg L evs; Ok (v', L', [])
      | _ => Panic
      end
  | Peer bs => Ok (fst (replay m t v bs), L, [bs])
  end.
Fixpoint play (m : mode) (t : ty) (lg : N) (v : val) (L : rlogger buffer) (acts : list act) : res (val * rlogger buffer * list (list bytes)) :=
  match acts with
  | [] => Ok (v, L, [])
  | a :: acts' =>
      do (v1, L1, relayed) <- perform m t lg v L a;
      do (out, b) <- buf_pluck_bytes m (rl_inner L1);
      do (v2, L2, msgs) <- play m t lg v1 (mkRL b (rl_paused L1)) acts';
      Ok (v2, L2, (relayed ++ [out]) :: msgs)
  end.
(** Calls are of the kinds replay can follow, on nodes that exist, and log entries that fit; messages
    are any bytes. *)
Fixpoint allowed (m : mode) (t : ty) (lg : N) (v : val) (acts : list act) : Prop :=
  match acts with
  | [] => True
  | Own c :: acts' =>
      (exists t' x p, walk t v (c_at c) = Some (t', x, p) /\ op_ok m t' x (c_op c)) /\
      (forall v' evs o, at_node (c_at c) (fun t x => apply_op m (c_caches c) t (c_op c) x) t v = Some (v', (evs, o)) ->
         (forall b, feeds m lg (rl_new []) evs = Ok (mkRL b 0) -> Forall fits (map fst b)) /\ allowed m t lg v' acts')
  | Peer bs :: acts' => bytes_ok bs /\ allowed m t lg (fst (replay m t v bs)) acts'
  end.

Lemma replays_app m t a b v : replays m t v (a ++ b) =
  let '(v1, os) := replays m t v a in let '(v2, os') := replays m t v1 b in (v2, os ++ os').
Proof.
  revert v. induction a as [|x a IH]; intros v; cbn [app replays]; [now destruct (replays m t v b)|]. destruct (replay m t v x) as [v1 o]. rewrite IH.
  destruct (replays m t v1 a) as [v2 os]. destruct (replays m t v2 b). reflexivity.
Qed.

Theorem c31_history : forall m t lg lg' acts v w, ty_ok t = true -> state_ty t = true -> root_ty t = true ->
  wt t v = true -> placed (mkRt lg Root) t v -> wt t w = true -> placed (mkRt lg' Root) t w -> same v w -> allowed m t lg v acts ->
  exists v' sent, play m t lg v (rl_new []) acts = Ok (v', rl_new [], sent) /\
    Forall2 (fun a out => match a with Own _ => length out = 1%nat | Peer bs => out = [bs; []] end) acts sent /\
    same v' (fst (replays m t w (concat sent))) /\ veqb v' (fst (replays m t w (concat sent))) = true.
Proof.
  intros m t lg lg' acts v w O S R Wv Pv Ww Pw E A. apply placed_coh in Pv; try assumption. apply placed_coh in Pw; try assumption.
  assert (Gv : good t (mkRt lg Root) v) by now split. assert (Gw : good t (mkRt lg' Root) w) by now split. clear Wv Pv Ww Pw.
  enough (G : exists v' sent, play m t lg v (rl_new []) acts = Ok (v', rl_new [], sent) /\
    Forall2 (fun a out => match a with Own _ => length out = 1%nat | Peer bs => out = [bs; []] end) acts sent /\
    same v' (fst (replays m t w (concat sent))) /\ good t (mkRt lg Root) v' /\ good t (mkRt lg' Root) (fst (replays m t w (concat sent)))).
  { destruct G as (v' & sent & P & F & Sm & [W1 _] & [W2 _]). exists v', sent. repeat (split; [assumption|]). now apply (norm_veqb t). }
  revert v w E Gv Gw A. induction acts as [|a acts IH]; intros v w E Gv Gw A.
  { exists v, []. cbn. auto 8. }
  destruct a as [c|bs]; cbn [allowed] in A.
  - destruct A as [(t' & x & p & Wk & Ok_) A]. destruct Gv as [Wv Cv]. destruct Gw as [Ww Cw].
    destruct (at_effect m (c_caches c) (c_op c) (c_at c) t (mkRt lg Root) v t' x p O S Wv Cv Wk Ok_) as (v1 & evs & ret & es & Ea & W1 & C1 & Lg & _ & Rp).
    destruct (A _ _ _ Ea) as [Fi A1]. change (collect_values (rt_path (mkRt lg Root))) with (@nil N) in Lg. rewrite map_rel_nil in Lg.
    change (rt_log (mkRt lg Root)) with lg in Lg. specialize (Fi _ (Lg [])). cbn [app] in Fi. rewrite map_fst_bufd in Fi.
    destruct (buf_bytes_spec m (bufd es)) as (b' & Eb & _); [now rewrite map_fst_bufd|]. rewrite map_fst_bufd in Eb.
    assert (Fo : Forall entry_ok es) by (eapply Forall_impl; [|exact Fi]; intros e [X _]; exact X).
    destruct (Rp m w Fo Ww E) as (w1 & H & Sm).
    assert (Er : replay m t w (concat (map entry_wire es)) = (w1, Ok tt)).
    { unfold replay. rewrite (is_root_coh t w lg' S R Ww Cw). pose proof (replay_run m t es (fits_replay es Fi) [] w) as X.
      rewrite app_nil_r in X. rewrite X, H. reflexivity. }
    assert (Gw1 : good t (mkRt lg' Root) w1).
    { split; [|pose proof (handle_all_coh m t _ es O S Fo w Ww Cw) as X; now rewrite H in X].
      pose proof (handle_all_wt m t es O S Fo w Ww) as X. now rewrite H in X. }
    destruct (IH v1 w1 Sm (conj W1 C1) Gw1 A1) as (v2 & sent & P & F & Sm2 & G1 & G2).
    exists v2, ([concat (map entry_wire es)] :: sent). cbn [play perform]. rewrite Ea. match goal with |- context [feeds m lg ?L evs] => replace (feeds m lg L evs) with (Ok (mkRL (bufd es) 0)) by (symmetry; exact (Lg [])) end. cbn [bind rl_inner rl_paused app].
    unfold buf_pluck_bytes. rewrite Eb. cbn [bind buf_clear]. match goal with |- context [play m t lg ?u ?L acts] => replace (play m t lg u L acts) with (@Ok (val * rlogger buffer * list (list bytes)) (v2, rl_new [], sent)) by (symmetry; exact P) end. cbn [bind].
    split; [reflexivity|]. split; [now constructor|]. cbn [concat app replays]. rewrite Er.
    destruct (replays m t w1 (concat sent)) as [w2 os]. auto.
  - destruct A as [Bb A]. pose proof (replay_keeps m t v lg bs O S Gv Bb) as G1. pose proof (replay_keeps m t w lg' bs O S Gw Bb) as G2.
    destruct (replay_same m t v w lg lg' bs O S R Gv Gw E) as [_ Sm]. destruct (IH _ _ Sm G1 G2 A) as (v2 & sent & P & F & Sm2 & G3 & G4).
    exists v2, ([bs; []] :: sent). cbn [play perform bind rl_inner rl_paused rl_new]. unfold buf_pluck_bytes. cbn [buf_bytes bind buf_clear].
    match goal with |- context [play m t lg ?u ?L acts] => replace (play m t lg u L acts) with (@Ok (val * rlogger buffer * list (list bytes)) (v2, rl_new [], sent)) by (symmetry; exact P) end. cbn [bind app].
    split; [reflexivity|]. split; [now constructor|]. cbn [concat app replays].
    destruct (replay m t w bs) as [w1 o1] eqn:Ew. cbn [fst] in *.
    assert (En : replay m t w1 [] = (w1, Ok tt)).
    { unfold replay. destruct G2 as [W2 C2]. rewrite (is_root_coh t w1 lg' S R W2 C2). reflexivity. }
    rewrite En. destruct (replays m t w1 (concat sent)) as [w2 os]. auto.
Qed.
Print Assumptions c31_history.

(** Two own calls around two messages of a peer: one adds a point, one is garbage. *)
Example c31_case :
  let acts := [ Own (mkCall [] junk (OPush (vPoint rt_default 1 2 3))); Peer [9; 8; 10; 6; 0; 3; 8; 2; 16; 10]; Peer [9; 8; 10; 6; 0];
                Own (mkCall [SItem 1] junk (OSet 0 (VInt I32 7))); Own (mkCall [] junk (OSwapRemove 0)) ] in
  match play Debug tPoints 1 (vPoints ex_rt) (rl_new []) acts with
  | Ok (v, L, sent) =>
      rl_inner L = [] /\
      v = VList ex_rt [vPoint (nested ex_rt 0) (-2) 1 5; vPoint (nested ex_rt 1) 7 5 6; vPoint (nested ex_rt 2) 1 2 3] /\
      sent = [[[9; 8; 10; 6; 0; 2; 8; 4; 16; 6]]; [[9; 8; 10; 6; 0; 3; 8; 2; 16; 10]; []]; [[9; 8; 10; 6; 0]; []];
              [[8; 0; 2; 2; 1; 0; 10; 1; 14]]; [[1; 9; 12; 0; 2; 1; 0; 10; 6; 0; 3; 8; 2; 16; 10]]] /\
      veqb v (fst (replays Debug tPoints (vPoints (mkRt 5 Root)) (concat sent))) = true
  | _ => False
  end.
Proof. vm_compute. repeat split. Qed.
