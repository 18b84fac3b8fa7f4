(** Whole trees: every node knows its path; sequences of calls; replay. *)
From Verif Require Import Base Varint WireFmt Utf8 Types Ser Spec De Log State StateSpec ValInd VarintProofs WireProofs SerProofs
  TypeProofs EqProofs DeProofs RoundTrip NormProofs LogProofs TreeProofs CohProofs HandleProofs OpProofs.

(** ** [placed] and [coh] *)

Lemma rt_at_app r p q : rt_at r (p ++ q) = rt_at (rt_at r p) q.
Proof. apply fold_left_app. Qed.

Lemma walk_wt t : forall steps v t' x p, ty_ok t = true -> state_ty t = true -> wt t v = true -> walk t v steps = Some (t', x, p) ->
  ty_ok t' = true /\ state_ty t' = true /\ wt t' x = true.
Proof.
  intros steps. revert t. induction steps as [|s steps IH]; intros t v t' x p O S W E; cbn [walk] in E.
  - inversion E; subst. auto.
  - destruct (child t v s) as [[t1 y]|] eqn:C; [|discriminate E]. destruct (state_step v s) eqn:Ss; [|discriminate E].
    destruct (walk t1 y steps) as [[[t2 z] q]|] eqn:K; [|discriminate E]. inversion E; subst.
    destruct (child_wt t v s t1 y O W C) as (O' & W' & S'). eapply IH; eauto.
Qed.

Lemma walk_coh : forall steps t v t' x p r, ty_ok t = true -> wt t v = true -> coh r v -> walk t v steps = Some (t', x, p) -> coh (rt_at r p) x.
Proof.
  induction steps as [|s steps IH]; intros t v t' x p r O W C E; cbn [walk] in E.
  - inversion E; subst. exact C.
  - destruct (child t v s) as [[t1 y]|] eqn:Ch; [|discriminate E]. destruct (state_step v s) eqn:Ss; [|discriminate E].
    destruct (walk t1 y steps) as [[[t2 z] q]|] eqn:K; [|discriminate E]. inversion E; subst.
    destruct (child_wt t v s t1 y O W Ch) as (O' & W' & _). rewrite rt_at_app. eapply IH; try eassumption. now apply (coh_child t v s t1 y r).
Qed.

(** The stored runtime of a node that sits on [r]. *)
Lemma coh_val_rt t v r : state_ty t = true -> prim_under t = false -> wt t v = true -> coh r v -> val_rt v = Ok (rt_at r (own v)).
Proof.
  revert v. induction t as [k| | | |t IH|t IH|n t IH|ts IH|k t IHk IHt|t IH|si fs IH|st vs IH|t IH|k t IH] using ty_ind';
    intros v S P W C; try discriminate S; try discriminate P; destruct v; try discriminate W; cbn [val_rt own].
  - cbn in W, S, P. apply (proj1 (coh_box _ _)) in C. now apply IH.
  - rewrite wt_struct_eq in W. bprop. cbn [state_ty] in S. rewrite S in *. destruct r0; [|discriminate]. apply coh_struct in C. now destruct C as [-> _].
  - destruct (wt_enum_inv _ _ _ _ _ _ W) as (c' & fts & V & -> & Wf & Hst & Hb). cbn [state_ty] in S. subst st. destruct r0; [|discriminate].
    apply coh_enum in C. now destruct C as [-> _].
  - apply coh_list in C. now destruct C as [-> _].
  - apply coh_map in C. now destruct C as [-> _].
Qed.

Lemma coh_prim t v r : prim_under t = true -> wt t v = true -> coh r v.
Proof.
  unfold coh. revert v. induction t as [k| | | |t IH|t IH|n t IH|ts IH|k t IHk IHt|t IH|si fs IH|st vs IH|t IH|k t IH] using ty_ind';
    intros v P W; try discriminate P; destruct v; try discriminate W; try reflexivity. cbn in *. now rewrite IH.
Qed.

Lemma set_fields_intro r fs : NoDup (map (fun p : finfo * val => f_tag (fst p)) fs) ->
  (forall fn fi x, find_field fn fs = Some (fi, x) -> f_state fi = true -> coh (nested r fn) x) -> set_fields r fs = fs.
Proof.
  induction fs as [|[fi x] fs IH]; intros D H; [reflexivity|]. inversion D as [|? ? D1 D2]; subst. cbn [set_fields]. f_equal.
  - f_equal. destruct (f_state fi) eqn:Ef; [|reflexivity]. apply (H (f_tag fi) fi x); [|exact Ef]. cbn. now rewrite N.eqb_refl.
  - apply IH; [exact D2|]. intros fn fj y F. apply H. cbn. destruct (fn =? f_tag fi) eqn:E; [|exact F].
    exfalso. apply D1. apply N.eqb_eq in E. pose proof (find_field_tag _ _ _ _ F) as T. rewrite <- E, <- T.
    apply find_field_in in F. exact (in_map (fun p : finfo * val => f_tag (fst p)) _ _ F).
Qed.
Lemma set_items_intro r : forall l i, (forall j x, nth_error l j = Some x -> coh (nested r (i + N.of_nat j)) x) -> set_items r i l = l.
Proof.
  induction l as [|x l IH]; intros i H; [reflexivity|]. cbn [set_items]. f_equal.
  - specialize (H O x eq_refl). cbn in H. rewrite N.add_0_r in H. exact H.
  - apply IH. intros j y E. specialize (H (S j) y E). replace (i + 1 + N.of_nat j) with (i + N.of_nat (S j)) by lia. exact H.
Qed.
Lemma set_entries_intro r es : NoDup (map fst es) -> (forall k x, assoc k es = Some x -> coh (nested r k) x) -> set_entries r es = es.
Proof.
  intros D H. apply set_entries_forall. apply Forall_forall. intros [k x] I. apply H. clear H. induction es as [|[k' y] es IH]; [contradiction I|].
  inversion D; subst. cbn. destruct I as [E|I].
  - inversion E; subst. now rewrite N.eqb_refl.
  - destruct (k =? k') eqn:E; [|auto]. apply N.eqb_eq in E. subst k'. exfalso. apply H1. now apply (in_map fst) in I.
Qed.

Lemma placed_child r t v s t' x : child t v s = Some (t', x) -> state_step v s = true -> placed r t v -> placed (rt_at r (seg v s)) t' x.
Proof.
  intros C Ss P steps t2 y p E Hp. specialize (P (s :: steps) t2 y (seg v s ++ p)). cbn [walk] in P. rewrite C, Ss, E in P.
  specialize (P eq_refl Hp). rewrite P. now rewrite <- rt_at_app, app_assoc.
Qed.

Lemma nodupb_NoDup l : nodupb l = true -> NoDup l.
Proof.
  unfold nodupb. induction l as [|n l IH]; intros H; [constructor|]. cbn in H. bprop. constructor; [|auto]. intros I.
  match goal with H : negb _ = true |- _ => apply negb_true_iff in H; apply not_true_iff_false in H; apply H end. apply existsb_exists. exists n. split; [exact I|apply N.eqb_refl].
Qed.

Lemma fields_nodup fts fs : nodupb (map (fun p : finfo * ty => f_tag (fst p)) fts) = true -> wt_fields fts fs = true -> NoDup (map (fun p : finfo * val => f_tag (fst p)) fs).
Proof.
  intros O W. assert (E : map (fun p : finfo * val => f_tag (fst p)) fs = map (fun p : finfo * ty => f_tag (fst p)) fts).
  { clear O. revert fs W. induction fts as [|[fi t] fts IH]; intros [|[fj x] fs] W; try discriminate W; [reflexivity|]. cbn in W. bprop.
    match goal with H : finfo_eqb _ _ = true |- _ => apply finfo_eqb_eq in H end. subst. cbn. f_equal. now apply IH. }
  rewrite E. now apply nodupb_NoDup.
Qed.

Lemma placed_coh t : forall v r, ty_ok t = true -> state_ty t = true -> wt t v = true -> placed r t v -> coh r v.
Proof.
  induction t as [t IH] using child_ind. intros v r O S W P.
  destruct (prim_under t) eqn:Pu; [now apply (coh_prim t)|].
  pose proof (P [] t v [] eq_refl Pu) as R. cbn [app] in R.
  assert (K : forall s t' x, child t v s = Some (t', x) -> state_step v s = true -> coh (rt_at r (seg v s)) x).
  { intros s t' x C Ss. destruct (child_wt t v s t' x O W C) as (O' & W' & S'). apply (IH v s t' x C x); auto.
    now apply (placed_child r t v s). }
  destruct t as [k| | | |t|t|n t|ts|kt vt|t|si fts|st vs|t|k t]; try discriminate S; try discriminate Pu;
    destruct v as [k' z|b| | | | | | | |y|c r0 fs|tag c r0 fs|r0 l|r0 es]; try discriminate W.
  - apply coh_box. apply (K SBox t y); reflexivity.
  - pose proof W as W0. rewrite wt_struct_eq in W0. bprop. cbn [state_ty] in S. rewrite S in *. destruct r0 as [r0|]; [|discriminate].
    cbn in R. inversion R; subst. apply coh_struct. split; [reflexivity|]. rewrite ty_ok_struct in O. bprop.
    apply set_fields_intro; [now apply (fields_nodup fts)|]. intros fn fi x F Fs.
    pose proof (find_field_wt fn fts fs ltac:(assumption)) as X. destruct (find_field fn fts) as [[fj t']|] eqn:F'.
    + destruct X as (x' & X & Wx). rewrite F in X. inversion X; subst. apply (K (SField fn) t' x'); cbn; [unfold field_child; now rewrite F', F|now rewrite F].
    + congruence.
  - destruct (wt_enum_inv _ _ _ _ _ _ W) as (c' & fts & V & -> & Wf & Hst & Hb). cbn [state_ty] in S. subst st. destruct r0 as [r0|]; [|discriminate].
    cbn in R. inversion R; subst. apply coh_enum. split; [reflexivity|]. pose proof (find_variant_in _ _ _ V) as [I _].
    pose proof (variant_fields_ok _ _ _ O I) as (_ & Of & Nd). cbn [snd] in Of, Nd.
    apply set_fields_intro; [now apply (fields_nodup fts)|]. intros fn fi x F Fs.
    pose proof (find_field_wt fn fts fs Wf) as X. destruct (find_field fn fts) as [[fj t']|] eqn:F'.
    + destruct X as (x' & X & Wx). rewrite F in X. inversion X; subst. apply (K (SField fn) t' x'); cbn; [rewrite V; cbn; unfold field_child; now rewrite F', F|now rewrite F].
    + congruence.
  - cbn in R. inversion R; subst. apply coh_list. split; [reflexivity|]. apply set_items_intro. intros j x E.
    rewrite N.add_0_l. apply (K (SItem (N.of_nat j)) t x); [cbn; now rewrite Nat2N.id, E|reflexivity].
  - cbn in R. inversion R; subst. apply coh_map. split; [reflexivity|]. apply wt_map_in in W. destruct W as [_ D]. apply set_entries_intro; [exact D|].
    intros kk x E. apply (K (SKey kk) t x); [cbn; now rewrite E|reflexivity].
Qed.

Lemma coh_placed t v r : ty_ok t = true -> state_ty t = true -> wt t v = true -> coh r v -> placed r t v.
Proof.
  intros O S W C steps t' x p E P. destruct (walk_wt t steps v t' x p O S W E) as (O' & S' & W').
  rewrite rt_at_app. apply (coh_val_rt t'); try assumption. exact (walk_coh steps t v t' x p r O W C E).
Qed.

(** ** A call somewhere in a tree *)

Lemma at_effect m h o : forall steps t r v t' x p, ty_ok t = true -> state_ty t = true -> wt t v = true -> coh r v ->
  walk t v steps = Some (t', x, p) -> op_ok m t' x o ->
  exists v' evs ret es, at_node steps (fun t x => apply_op m h t o x) t v = Some (v', (evs, Ok ret)) /\
    wt t v' = true /\ coh r v' /\ logs m (rt_log r) evs (map (rel (collect_values (rt_path r))) es) /\ Forall (typed t) es /\
    (forall m' w, Forall entry_ok es -> wt t w = true -> same v w ->
       exists w', handle_all m' t es w = (w', Ok tt) /\ same v' w').
Proof.
  induction steps as [|s steps IH]; intros t r v t' x p O S W C E K; cbn [walk] in E.
  - inversion E; subst. destruct (op_effect m h t' r x o O S W C K) as (v' & evs & ret & es & A & W' & C' & L & T & R).
    exists v', evs, ret, es. cbn [at_node]. rewrite A. auto 8.
  - destruct (child t v s) as [[t1 y]|] eqn:Ch; [|discriminate E]. destruct (state_step v s) eqn:Ss; [|discriminate E].
    destruct (walk t1 y steps) as [[[t2 z] q]|] eqn:Wk; [|discriminate E]. inversion E; subst.
    destruct (child_wt t v s t1 y O W Ch) as (O1 & W1 & S1). specialize (S1 S Ss).
    pose proof (coh_child t v s t1 y r O W Ch Ss C) as C1.
    destruct (IH t1 (rt_at r (seg v s)) y t' x q O1 S1 W1 C1 Wk K) as (y' & evs & ret & es & A & W' & C' & L & T & R).
    exists (put_child v s y'), evs, ret, (map (rel (seg v s)) es). cbn [at_node]. rewrite Ch, A. split; [reflexivity|]. split; [|split; [|split; [|split]]].
    + now apply (put_child_wt t v s t1 y).
    + apply (coh_put t v s t1 y); auto.
    + rewrite rt_at_log in L. rewrite map_map. rewrite collect_at in L. erewrite map_ext; [exact L|]. intros e. cbn. now rewrite rel_app.
    + apply Forall_map. eapply Forall_impl; [|exact T]. intros e Te. now apply (typed_child t v s t1 y).
    + intros m' w Fo Ww Sm. assert (Fe : Forall entry_ok es).
      { apply Forall_forall. intros e I. rewrite Forall_forall in Fo. apply (rel_ok (seg v s)). apply Fo. now apply in_map. }
      destruct (same_child _ _ _ _ _ _ Sm Ch) as (u & Cw & Su). rewrite (same_seg _ _ _ Sm). rewrite (same_state_step _ _ _ Sm) in Ss.
      destruct (child_wt t w s t1 u O Ww Cw) as (_ & Wu & _). destruct (R m' u Fe Wu Su) as (u' & Hu & Su').
      rewrite (handle_all_child m' t s t1 es O S Fe w u Ww Cw Ss), Hu. eexists. split; [reflexivity|]. now apply (same_put t v w s t1 y).
Qed.

Lemma exec_effect m t r : ty_ok t = true -> state_ty t = true -> forall cs v, wt t v = true -> coh r v -> legal m t v cs ->
  exists v' evs rets es, exec m t v cs = (v', (evs, Ok rets)) /\ wt t v' = true /\ coh r v' /\ length rets = length cs /\
    logs m (rt_log r) evs (map (rel (collect_values (rt_path r))) es) /\ Forall (typed t) es /\
    (forall m' w, Forall entry_ok es -> wt t w = true -> same v w ->
       exists w', handle_all m' t es w = (w', Ok tt) /\ wt t w' = true /\ same v' w').
Proof.
  intros O S. induction cs as [|c cs IH]; intros v W C Lg; cbn [legal exec] in *.
  - exists v, [], [], []. split; [reflexivity|]. split; [exact W|]. split; [exact C|]. split; [reflexivity|]. split; [apply logs_nil|]. split; [constructor|]. intros m' w _ Ww Sm. exists w. auto.
  - destruct Lg as [(t' & x & p & Wk & K) Lg]. destruct (at_effect m (c_caches c) (c_op c) (c_at c) t r v t' x p O S W C Wk K) as (v1 & evs & ret & es & A & W1 & C1 & L & T & R).
    destruct (IH v1 W1 C1 (Lg _ _ A)) as (v2 & evs2 & rets & es2 & E2 & W2 & C2 & Len & L2 & T2 & R2).
    exists v2, (evs ++ evs2), (ret :: rets), (es ++ es2). rewrite A. cbn [mtry]. rewrite E2. cbn [mbind mret]. split; [|split; [exact W2|split; [exact C2|split; [|split; [|split]]]]].
    + now rewrite app_nil_r.
    + cbn. now f_equal.
    + rewrite map_app. now apply logs_app.
    + now apply Forall_app.
    + intros m' w Fo Ww Sm. apply Forall_app in Fo. destruct Fo as [F1 F2]. destruct (R m' w F1 Ww Sm) as (w1 & H1 & S1).
      assert (Ww1 : wt t w1 = true). { pose proof (handle_all_wt m' t es O S F1 w Ww) as X. now rewrite H1 in X. }
      destruct (R2 m' w1 F2 Ww1 S1) as (w2 & H2 & Ww2 & S2). exists w2. rewrite handle_all_app, H1. auto.
Qed.

(** ** Roots *)

Lemma is_root_coh t v lg : state_ty t = true -> root_ty t = true -> wt t v = true -> coh (mkRt lg Root) v -> is_root v = Ok true.
Proof.
  intros S P W C. unfold root_ty in P. apply andb_prop in P. destruct P as [P1 P2]. apply negb_true_iff in P1.
  pose proof (coh_val_rt t v _ S P1 W C) as R.
  destruct t as [k| | | |t|t|n t|ts|kt vt|t|si fts|st vs|t|k t]; try discriminate S; try discriminate P1;
    destruct v as [k' z|b| | | | | | | |y|c r0 fs|tag c r0 fs|r0 l|r0 es]; try discriminate W; cbn [is_root].
  - rewrite R. cbn [own]. replace (own y) with (@nil N); [reflexivity|]. apply negb_true_iff in P2. clear -P2 W. cbn [wt] in W.
    revert y W. induction t as [k| | | |t IH|t IH|n t IH|ts IH|k t IHk IHt|t IH|si fs IH|st vs IH|t IH|k t IH] using ty_ind';
      intros y W; try discriminate P2; destruct y; try discriminate W; try reflexivity. cbn in *. now apply IH.
  - rewrite R. reflexivity.
  - destruct r0 as [r0|]; [|discriminate R]. cbn in R. injection R as R. subst r0. reflexivity.
  - rewrite R. reflexivity.
  - rewrite R. reflexivity.
Qed.
