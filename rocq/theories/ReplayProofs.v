(** Replay of whole streams: shape of the change, what stays, what comes before a failure; keys of
    decoded maps. *)
From Verif Require Import Base Varint WireFmt Utf8 Types Ser Spec De Log State StateSpec Coll ValInd VarintProofs WireProofs SerProofs
  TypeProofs EqProofs DeProofs RoundTrip MergeProofs NormProofs LogProofs TreeProofs CohProofs HandleProofs OpProofs ExecProofs.

(** ** Reading one entry *)

Lemma read_entry_good m bs : bytes_ok bs ->
  match read_entry m bs with
  | Ok (e, rest) => entry_ok e /\ bytes_ok rest /\ exists p, bs = p ++ rest /\ p <> []
  | Err _ => True
  | Panic => cause m bs
  | NoFuel => False
  end.
Proof.
  intros B. unfold read_entry, de_nested.
  pose proof (merge_nested_good m (wty tEntry) (fun v => wt tEntry v = true) (merge m tEntry) (wty tEntry) (dflt tEntry rt_default) bs
    (merge_good m tEntry tEntry_ok) (wt_dflt tEntry tEntry_ok rt_default) B) as G.
  destruct (merge_nested _ _ _ _ _ bs) as [v r]. destruct G as [W G]. destruct r as [rest|e| |]; cbn [bind]; try exact G.
  destruct (entry_of_val_some v W) as (e & -> & Oe). split; [exact Oe|]. cbn in G. destruct G as (p & -> & NE). apply bytes_ok_app in B.
  split; [now destruct B|]. now exists p.
Qed.

Lemma loop_inv {S} (step : S -> bytes -> S * res bytes) (J : S -> Prop) :
  (forall s bs, J s -> J (fst (step s bs))) -> forall f s bs, J s -> J (fst (loop f step s bs)).
Proof.
  intros H. induction f as [|f IH]; intros s bs Js; destruct bs as [|b bs]; try exact Js. cbn [loop].
  specialize (H s (b :: bs) Js). destruct (step s (b :: bs)) as [s' [rest|e| |]]; cbn [try fst] in *; auto.
Qed.
Lemma run_inv {S} (step : S -> bytes -> S * res bytes) (J : S -> Prop) :
  (forall s bs, J s -> J (fst (step s bs))) -> forall s bs, J s -> J (fst (run step s bs)).
Proof. intros H s bs. unfold run. now apply loop_inv. Qed.

(** A property that every entry keeps is kept by replay, whatever the bytes. *)
Lemma replay_run_inv m t (J : val -> Prop) : (forall e v, J v -> entry_ok e -> J (fst (handle_entry m t e v))) ->
  forall v bs, J v -> bytes_ok bs -> J (fst (run (replay_step m t) v bs)).
Proof.
  intros H v bs. unfold run. generalize (length bs) as f. intros f. revert v bs. induction f as [|f IH]; intros v bs Jv B; destruct bs as [|b bs]; try exact Jv.
  cbn [loop]. unfold replay_step at 1. pose proof (read_entry_good m (b :: bs) B) as R.
  destruct (read_entry m (b :: bs)) as [[e rest]|x| |]; cbn [try fst]; try exact Jv. destruct R as (Oe & Br & _).
  specialize (H e v Jv Oe). destruct (handle_entry m t e v) as [v' [u|x| |]]; cbn [bind try fst] in *; auto.
Qed.
Lemma replay_inv m t (J : val -> Prop) : (forall e v, J v -> entry_ok e -> J (fst (handle_entry m t e v))) ->
  forall v bs, J v -> bytes_ok bs -> J (fst (replay m t v bs)).
Proof.
  intros H v bs Jv B. unfold replay. destruct (is_root v) as [[|]|e| |]; try exact Jv.
  pose proof (replay_run_inv m t J H v bs Jv B) as K. destruct (run (replay_step m t) v bs) as [v' o]. exact K.
Qed.

(** ** Roots stay roots *)

Definition boxed_enum (t : ty) : bool := match t with TBox t' => enum_under t' | _ => false end.

Lemma under_enum_not_root t v : enum_under t = true -> state_ty t = true -> wt t v = true -> exists r n, val_rt v = Ok (nested r n).
Proof.
  revert v. induction t as [k| | | |t IH|t IH|n t IH|ts IH|k t IHk IHt|t IH|si fs IH|st vs IH|t IH|k t IH] using ty_ind';
    intros v E S W; try discriminate E; destruct v; try discriminate W; cbn [val_rt].
  - now apply IH.
  - destruct (wt_enum_inv _ _ _ _ _ _ W) as (c' & fts & V & -> & Wf & Hst & Hb). cbn [state_ty] in S. subst st. destruct r as [[lg [|p n]]|]; try discriminate.
    exists (mkRt lg p), n. reflexivity.
Qed.
Lemma base_val_rt t v : enum_under t = false -> wt t v = true -> base v = val_rt v.
Proof.
  revert v. induction t as [k| | | |t IH|t IH|n t IH|ts IH|k t IHk IHt|t IH|si fs IH|st vs IH|t IH|k t IH] using ty_ind';
    intros v E W; try discriminate E; destruct v; try discriminate W; try reflexivity. cbn in *. now apply IH.
Qed.
Lemma is_root_base t v : state_ty t = true -> wt t v = true ->
  is_root v = if boxed_enum t then Ok false else do r <- base v; Ok (rt_is_root r).
Proof.
  intros S W. destruct t as [k| | | |t|t|n t|ts|kt vt|t|si fts|st vs|t|k t]; try discriminate S;
    destruct v as [k' z|b| | | | | | | |y|c r0 fs|tag c r0 fs|r0 l|r0 es]; try discriminate W; try reflexivity; cbn [is_root boxed_enum].
  - cbn [state_ty wt] in *. destruct (enum_under t) eqn:E.
    + destruct (under_enum_not_root t y E S W) as (r & n & R). cbn [val_rt]. rewrite R. reflexivity.
    + cbn [val_rt base]. now rewrite (base_val_rt t y E W).
  - destruct r0 as [r0|]; reflexivity.
Qed.

Lemma prim_is_root t v : state_ty t = true -> prim_under t = true -> wt t v = true -> is_root v = Panic.
Proof.
  intros S P W. assert (V : forall t v, prim_under t = true -> wt t v = true -> val_rt v = Panic).
  { clear. induction t as [k| | | |t IH|t IH|n t IH|ts IH|k t IHk IHt|t IH|si fs IH|st vs IH|t IH|k t IH] using ty_ind';
      intros v E W; try discriminate E; destruct v; try discriminate W; try reflexivity. cbn in *. now apply IH. }
  pose proof (V t v P W) as R. destruct v; cbn [is_root]; try (rewrite R; reflexivity); [].
  destruct t; try discriminate P; discriminate W.
Qed.

Lemma replay_root m t v bs : ty_ok t = true -> state_ty t = true -> wt t v = true -> bytes_ok bs ->
  is_root (fst (replay m t v bs)) = is_root v.
Proof.
  intros O S W B. destruct (prim_under t) eqn:P.
  { unfold replay. rewrite (prim_is_root t v S P W). cbn. now apply (prim_is_root t). }
  assert (G : (fun w => wt t w = true /\ base w = base v) (fst (replay m t v bs))).
  { apply replay_inv; [|auto|exact B]. intros e w [Ww Bw] Oe. pose proof (handle_entry_good m t e w O S Ww Oe) as G.
    pose proof (handle_base m t O S P (entry_path e) (entry_kind e) (entry_key e) (entry_bytes e) w Ww) as H. unfold handle_entry in *.
    destruct (handle m t _ _ _ _ w) as [w' o]. cbn [fst] in *. split; [now destruct G|congruence]. }
  destruct G as [W' B']. rewrite (is_root_base t _ S W'), (is_root_base t v S W), B'. reflexivity.
Qed.

(** ** Concatenated streams *)

Lemma replay_step_local m t p : whole Sized p -> local (replay_step m t) p.
Proof.
  intros H. split; [now apply whole_nonempty in H|]. intros v. destruct (de_nested_local m tEntry p H (dflt tEntry rt_default)) as (o & E).
  unfold replay_step, read_entry. 
  destruct o as [x|er| |].
  - destruct (entry_of_val x) as [e|] eqn:Ev.
    + exists (fst (handle_entry m t e v)), (snd (handle_entry m t e v)). intros y. rewrite E. cbn [bind]. rewrite Ev. cbn [try].
      destruct (handle_entry m t e v) as [v' [u|er| |]]; reflexivity.
    + exists v, NoFuel. intros y. rewrite E. cbn [bind]. rewrite Ev. reflexivity.
  - exists v, (Err er). intros y. rewrite E. reflexivity.
  - exists v, Panic. intros y. rewrite E. reflexivity.
  - exists v, NoFuel. intros y. rewrite E. reflexivity.
Qed.

Lemma replay_app m t v a b : ty_ok t = true -> state_ty t = true -> wt t v = true -> bytes_ok a -> complete_stream a ->
  replay m t v (a ++ b) = match replay m t v a with (v', Ok _) => replay m t v' b | failed => failed end.
Proof.
  intros O S W B (ps & E & F). pose proof (replay_root m t v a O S W B) as R. unfold replay in *.
  destruct (is_root v) as [[|]|er| |] eqn:I; try reflexivity. rewrite E.
  rewrite (run_pieces (replay_step m t) (replay_step_consuming m t) ps) by (eapply Forall_impl; [|exact F]; intros p; apply replay_step_local).
  rewrite <- E. destruct (run (replay_step m t) v a) as [v' [rest|er| |]]; cbn [ok_unit bind try fst] in *; try reflexivity. rewrite R.
  destruct (run (replay_step m t) v' b) as [v2 o]. reflexivity.
Qed.

(** ** What comes before a failure *)

Lemma run_decodes m t bs : forall v, bytes_ok bs ->
  match run (replay_step m t) v bs with
  | (v', Ok _) => exists es, decodes m bs es [] /\ Forall entry_ok es /\ handle_all m t es v = (v', Ok tt)
  | (v', bad) => exists es rest v1, decodes m bs es rest /\ Forall entry_ok es /\ handle_all m t es v = (v1, Ok tt) /\
      ((v' = v1 /\ (do _ <- read_entry m rest; Ok tt) = (do _ <- bad; Ok tt)) \/
       (exists e rest', read_entry m rest = Ok (e, rest') /\ entry_ok e /\ handle_entry m t e v1 = (v', do _ <- bad; Ok tt)))
  end.
Proof.
  unfold run. assert (K : (length bs <= length bs)%nat) by lia. revert K. generalize (length bs) at 2 3 as f. intros f. revert bs.
  induction f as [|f IH]; intros bs L v B; destruct bs as [|b bs]; cbn [loop].
  - exists []. split; [constructor|]. split; [constructor|reflexivity].
  - cbn in L. lia.
  - exists []. split; [constructor|]. split; [constructor|reflexivity].
  - unfold replay_step at 1. pose proof (read_entry_good m (b :: bs) B) as R.
    destruct (read_entry m (b :: bs)) as [[e rest]|x| |] eqn:E; cbn [try].
    + destruct R as (Oe & Br & p & Ep & NE). destruct (handle_entry m t e v) as [v' [u|x| |]] eqn:H; cbn [bind try].
      * assert (Lr : (length rest <= f)%nat).
        { apply (f_equal (@length N)) in Ep. rewrite app_length in Ep. destruct p; [congruence|]. cbn in Ep, L. lia. }
        specialize (IH rest Lr v' Br). destruct u. destruct (loop f (replay_step m t) v' rest) as [v2 [r2|x| |]].
        -- destruct IH as (es & D & Fo & HA). exists (e :: es). split; [econstructor; eassumption|]. split; [constructor; assumption|]. cbn. now rewrite H.
        -- destruct IH as (es & rs & v1 & D & Fo & HA & K). exists (e :: es), rs, v1. split; [econstructor; eassumption|]. split; [constructor; assumption|]. split; [cbn; now rewrite H|exact K].
        -- destruct IH as (es & rs & v1 & D & Fo & HA & K). exists (e :: es), rs, v1. split; [econstructor; eassumption|]. split; [constructor; assumption|]. split; [cbn; now rewrite H|exact K].
        -- destruct IH as (es & rs & v1 & D & Fo & HA & K). exists (e :: es), rs, v1. split; [econstructor; eassumption|]. split; [constructor; assumption|]. split; [cbn; now rewrite H|exact K].
      * exists [], (b :: bs), v. split; [constructor|]. split; [constructor|]. split; [reflexivity|]. right. exists e, rest. auto.
      * exists [], (b :: bs), v. split; [constructor|]. split; [constructor|]. split; [reflexivity|]. right. exists e, rest. auto.
      * exists [], (b :: bs), v. split; [constructor|]. split; [constructor|]. split; [reflexivity|]. right. exists e, rest. auto.
    + exists [], (b :: bs), v. split; [constructor|]. split; [constructor|]. split; [reflexivity|]. left. now rewrite E.
    + exists [], (b :: bs), v. split; [constructor|]. split; [constructor|]. split; [reflexivity|]. left. now rewrite E.
    + exists [], (b :: bs), v. split; [constructor|]. split; [constructor|]. split; [reflexivity|]. left. now rewrite E.
Qed.

(** ** The shape of the change *)

Lemma im_insert_app {A} k (x : A) es : assoc k es = None -> im_insert k x es = es ++ [(k, x)].
Proof.
  induction es as [|[k' y] es IH]; [reflexivity|]. cbn. destruct (k =? k') eqn:E; [discriminate|]. intros H. now rewrite IH.
Qed.

Lemma handle_shape m t : ty_ok t = true -> state_ty t = true -> forall path kind key bs v,
  wt t v = true -> bytes_ok bs -> Forall (fun n => n < 2 ^ 32) path -> shape t v path (fst (handle m t path kind key bs v)).
Proof.
  induction t as [t IH] using child_ind. intros O S path kind key bs v W Hb Hp.
  destruct (handle_cases m t path kind key bs v O S W) as [s p t' x C Ss -> E|B -> E|E|E|kk t' r0 es k -> -> -> -> A E]; rewrite E.
  - destruct (child_wt t v s t' x O W C) as (O' & W' & S'). specialize (S' S Ss). pose proof (seg_bound v s _ p eq_refl Hp) as Hq.
    pose proof (IH v s t' x C O' S' p kind key bs x W' Hb Hq) as K.
    destruct (handle m t' p kind key bs x) as [x' o]. cbn [fst] in *. destruct K as [|steps t2 y y' Wk Wy|steps kk t2 r es k q y Wk -> A Wy].
    + rewrite (put_child_same _ _ _ _ _ C). constructor.
    + replace (put_child v s (put_at t' x steps y')) with (put_at t v (s :: steps) y') by (cbn; now rewrite C).
      apply (ShNode t v _ (s :: steps) t2 y); [|exact Wy]. cbn. now rewrite C, Ss, Wk.
    + replace (put_child v s (put_at t' x steps (VMap r (es ++ [(k, y)])))) with (put_at t v (s :: steps) (VMap r (es ++ [(k, y)]))) by (cbn; now rewrite C).
      apply (ShKey t v _ (s :: steps) kk t2 r es k (seg v s ++ q) y); auto; [cbn; now rewrite C, Ss, Wk|now rewrite app_assoc].
  - pose proof (handle_here_good m t kind key bs v O S B W Hb) as G. destruct (handle_here m t kind key bs v) as [v' o].
    change v' with (put_at t v [] v'). apply (ShNode t v [] [] t v); [reflexivity|]. now destruct G.
  - constructor.
  - constructor.
  - cbn [ty_ok] in O. bprop.
    pose proof (merge_good m t' ltac:(assumption) (dflt t' (nested r0 k)) bs (wt_dflt t' ltac:(assumption) _) Hb) as G.
    destruct (merge m t' (dflt t' (nested r0 k)) bs) as [x o]. destruct G as [G _]. destruct o; try constructor. cbn [fst].
    rewrite im_insert_app by exact A. change (VMap r0 (es ++ [(k, x)])) with (put_at (TMap kk t') (VMap r0 es) [] (VMap r0 (es ++ [(k, x)]))).
    now apply (ShKey (TMap kk t') (VMap r0 es) [k] [] kk t' r0 es k []).
Qed.
