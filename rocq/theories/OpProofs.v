(** What an operation changes, what it logs, and what a replica makes of that. *)
From Verif Require Import Base Varint WireFmt Utf8 Types Ser Spec De Log State StateSpec ValInd VarintProofs WireProofs SerProofs
  TypeProofs EqProofs DeProofs RoundTrip NormProofs LogProofs TreeProofs CohProofs HandleProofs.

(** ** Defaults are lossless *)

Lemma in_range_0 k : in_range k 0 = true.
Proof. destruct k; reflexivity. Qed.
Lemma int_safe_0 k : int_safe k 0 = true.
Proof. destruct k; reflexivity. Qed.

Lemma forallb_repeat {A} (f : A -> bool) x n : f x = true -> forallb f (repeat x n) = true.
Proof. intros H. induction n; [reflexivity|]. cbn. now rewrite H. Qed.

Lemma dflt_fields_lossless r fs : Forall (fun p => ty_ok (snd p) = true -> forall r, lossless (snd p) (dflt (snd p) r) = true) fs ->
  Forall (fun p => ty_ok (snd p) = true) fs ->
  wsafe (dflt_fields r fs) = true /\ keys_fields fs (dflt_fields r fs) = true.
Proof.
  induction 1 as [|[fi t] fs H _ IH]; intros O; [split; reflexivity|]. inversion O as [|? ? O1 O2]; subst. specialize (IH O2).
  specialize (H O1 (field_rt r fi)). cbn [snd] in H. apply lossless_and in H. destruct H as (A & B & C). destruct IH as [IH1 IH2].
  unfold dflt_fields in *. cbn [map keys_fields]. rewrite C, IH2. split; [|reflexivity]. unfold wsafe in *. cbn [forallb]. bprop. rewrite A, B, H, H0. reflexivity.
Qed.
Lemma ctor_lossless st vs tag va r : ty_ok (TEnum st vs) = true -> find_variant vs tag = Some va ->
  Forall (fun p => ty_ok (snd p) = true -> forall r, lossless (snd p) (dflt (snd p) r) = true) (snd va) ->
  lossless (TEnum st vs) (variant_ctor st va r) = true.
Proof.
  intros O F H. pose proof (find_variant_in _ _ _ F) as [I E]. pose proof (variant_fields_ok _ _ _ O I) as (_ & Of & _).
  destruct va as [[tg c] ts]. cbn in E. subst tg. cbn [variant_ctor snd] in *.
  destruct (dflt_fields_lossless (nested r tag) ts H (fields_tys _ _ Of)) as [A B]. unfold wsafe in A. bprop.
  apply lossless_and. rewrite keys_enum, F. cbn [writable ints_safe snd]. auto.
Qed.
Lemma lossless_dflt t : ty_ok t = true -> forall r, lossless t (dflt t r) = true.
Proof.
  induction t as [k| | | |t IH|t IH|n t IH|ts IH|k t IHk IHt|t IH|si fs IH|st vs IH|t IH|k t IH] using ty_ind'; intros O r; try reflexivity.
  - apply lossless_and. cbn. now rewrite int_safe_0.
  - cbn [ty_ok] in O. bprop. specialize (IH ltac:(assumption) rt_default). apply lossless_and in IH. destruct IH as (A & B & C).
    apply lossless_and. cbn [dflt writable ints_safe keys_in]. rewrite !forallb_repeat by assumption. auto.
  - cbn [ty_ok] in O. bprop. apply lossless_and. cbn [dflt]. rewrite keys_tup. cbn [writable ints_safe]. clear H H1.
    induction IH as [|t ts IH _ IHl]; [auto|]. cbn [forallb] in *. bprop. destruct (IHl ltac:(assumption)) as (A & B & C).
    specialize (IH ltac:(assumption) rt_default). apply lossless_and in IH. destruct IH as (A' & B' & C').
    cbn [map forallb keys_list]. rewrite A, B, C, A', B', C'. auto.
  - cbn [ty_ok] in O. specialize (IH O r). exact IH.
  - rewrite ty_ok_struct in O. bprop. destruct (dflt_fields_lossless r fs IH (fields_tys _ _ H)) as [A B]. unfold wsafe in A. bprop.
    apply lossless_and. cbn [dflt]. fold (dflt_fields r fs). rewrite keys_struct. cbn [writable ints_safe]. auto.
  - rewrite dflt_enum. destruct (find_variant vs 0) as [va|] eqn:F; [|reflexivity].
    apply (ctor_lossless st vs 0); try assumption. rewrite Forall_forall in IH. apply IH. now apply find_variant_in in F.
Qed.
Lemma lossless_ctor st vs tag va r : ty_ok (TEnum st vs) = true -> find_variant vs tag = Some va ->
  lossless (TEnum st vs) (variant_ctor st va r) = true.
Proof.
  intros O F. apply (ctor_lossless st vs tag); try assumption. apply Forall_forall. intros p _. apply lossless_dflt.
Qed.

(** ** Entries seen from further up *)

Definition rel (b : list N) (e : entry) : entry :=
  match e with
  | EUpdate p x => EUpdate (b ++ p) x
  | EListPush p x => EListPush (b ++ p) x
  | EListPop p => EListPop (b ++ p)
  | EMapRemove p k => EMapRemove (b ++ p) k
  end.

Lemma rel_nil e : rel [] e = e.
Proof. destruct e; reflexivity. Qed.
Lemma rel_app a b e : rel (a ++ b) e = rel a (rel b e).
Proof. destruct e; cbn; now rewrite app_assoc. Qed.
Lemma rel_ok b e : entry_ok (rel b e) -> entry_ok e.
Proof.
  unfold entry_ok. intros (P & K & B). assert (Q : Forall (fun n => n < 2 ^ 32) (entry_path e)).
  { destruct e; cbn in *; apply Forall_app in P; now destruct P. }
  split; [exact Q|]. split; [intros k; specialize (K k)|]; destruct e; auto.
Qed.

Lemma collect_nested r n : collect_values (rt_path (nested r n)) = collect_values (rt_path r) ++ [n].
Proof. reflexivity. Qed.
Lemma collect_at p : forall r, collect_values (rt_path (rt_at r p)) = collect_values (rt_path r) ++ p.
Proof.
  induction p as [|n p IH]; intros r; cbn [rt_at fold_left]; [now rewrite app_nil_r|].
  unfold rt_at in IH. rewrite IH, collect_nested, <- app_assoc. reflexivity.
Qed.
Lemma rt_at_log p : forall r, rt_log (rt_at r p) = rt_log r.
Proof. induction p as [|n p IH]; intros r; [reflexivity|]. cbn. unfold rt_at in IH. now rewrite IH. Qed.

Lemma handle_entry_child m t v s t' x e : ty_ok t = true -> state_ty t = true -> wt t v = true ->
  child t v s = Some (t', x) -> state_step v s = true ->
  handle_entry m t (rel (seg v s) e) v = (let '(x', o) := handle_entry m t' e x in (put_child v s x', o)).
Proof.
  intros O S W C Ss. unfold handle_entry. destruct e; cbn [rel entry_path entry_kind entry_key entry_bytes]; now apply handle_child.
Qed.

Lemma handle_entry_good m t e v : ty_ok t = true -> state_ty t = true -> wt t v = true -> entry_ok e ->
  let '(v', o) := handle_entry m t e v in wt t v' = true /\ oh m (entry_bytes e) o.
Proof. intros O S W (P & K & B). now apply handle_good. Qed.

Lemma handle_all_wt m t es : ty_ok t = true -> state_ty t = true -> Forall entry_ok es -> forall v, wt t v = true ->
  wt t (fst (handle_all m t es v)) = true.
Proof.
  intros O S. induction 1 as [|e es E _ IH]; intros v W; [exact W|]. cbn [handle_all].
  pose proof (handle_entry_good m t e v O S W E) as G. destruct (handle_entry m t e v) as [v' [u|x| |]]; destruct G; auto.
Qed.

Lemma handle_all_child m t s t' es : ty_ok t = true -> state_ty t = true -> Forall entry_ok es -> forall v x, wt t v = true ->
  child t v s = Some (t', x) -> state_step v s = true ->
  handle_all m t (map (rel (seg v s)) es) v = (let '(x', o) := handle_all m t' es x in (put_child v s x', o)).
Proof.
  intros O S. induction 1 as [|e es E _ IH]; intros v x W C Ss.
  - cbn. now rewrite (put_child_same _ _ _ _ _ C).
  - cbn [map handle_all]. rewrite (handle_entry_child m t v s t' x e O S W C Ss).
    destruct (child_wt t v s t' x O W C) as (O' & W' & S'). specialize (S' S Ss).
    pose proof (handle_entry_good m t' e x O' S' W' E) as G.
    destruct (handle_entry m t' e x) as [x1 [u|er| |]]; try reflexivity. destruct G as [G _].
    specialize (IH (put_child v s x1) x1 (put_child_wt _ _ _ _ _ _ W C G) (child_put _ _ _ _ _ _ C)).
    rewrite state_step_put, seg_put in IH. rewrite (IH Ss). destruct (handle_all m t' es x1) as [x2 o]. now rewrite put_child_put.
Qed.

(** ** Loggers *)

Lemma feeds_app m lg a b : forall L, feeds m lg L (a ++ b) = do L' <- feeds m lg L a; feeds m lg L' b.
Proof.
  induction a as [|e a IH]; intros L; [reflexivity|]. cbn [app feeds]. destruct (feed m lg L e) as [L'|x| |]; cbn [bind]; auto.
Qed.
Lemma feeds_inner m lg evs : forall b n c k, feeds m lg (mkRL b n) evs = Ok (mkRL c k) ->
  forall p, feeds m lg (mkRL (p ++ b) n) evs = Ok (mkRL (p ++ c) k).
Proof.
  induction evs as [|e evs IH]; intros b n c k H p; cbn [feeds] in *.
  - inversion H; subst. reflexivity.
  - destruct e as [l e|l|l]; cbn [feed] in *.
    + destruct (l =? lg); [|now apply IH]. unfold rl_log in *. cbn [rl_paused rl_inner] in *.
      destruct (n =? 0); cbn [bind buf_log] in *; [|now apply IH]. rewrite <- app_assoc. now apply IH.
    + destruct (l =? lg); [|now apply IH]. unfold rl_pause in *. cbn [rl_paused rl_inner] in *.
      destruct (add32 m n 1) as [n'|x| |]; cbn [bind] in *; try discriminate H. now apply IH.
    + destruct (l =? lg); [|now apply IH]. unfold rl_unpause in *. cbn [rl_paused rl_inner snd bind] in *. now apply IH.
Qed.

Lemma quiet_any m lg evs b : quiet m lg evs -> feeds m lg (mkRL b 1) evs = Ok (mkRL b 1).
Proof. intros H. pose proof (feeds_inner _ _ _ _ _ _ _ H b) as X. now rewrite !app_nil_r in X. Qed.

Definition bufd (es : list entry) : buffer := map (fun e => (e, fresh_store)) es.
Lemma bufd_app a b : bufd (a ++ b) = bufd a ++ bufd b.
Proof. apply map_app. Qed.

(** These calls append exactly [es] to an unpaused logger. *)
Definition logs (m : mode) (lg : N) (evs : list lev) (es : list entry) : Prop :=
  forall b, feeds m lg (mkRL b 0) evs = Ok (mkRL (b ++ bufd es) 0).

Lemma logs_nil m lg : logs m lg [] [].
Proof. intros b. cbn. now rewrite app_nil_r. Qed.
Lemma logs_app m lg a b x y : logs m lg a x -> logs m lg b y -> logs m lg (a ++ b) (x ++ y).
Proof. intros A B c. rewrite feeds_app, A. cbn [bind]. rewrite B, bufd_app, <- app_assoc. reflexivity. Qed.
Lemma logs_one m lg e : logs m lg [LLog lg e] [e].
Proof. intros b. cbn [feeds feed]. rewrite N.eqb_refl. reflexivity. Qed.
Lemma logs_paused m lg evs : quiet m lg evs -> logs m lg (LPause lg :: evs ++ [LUnpause lg]) [].
Proof.
  intros Q b. cbn [feeds feed]. rewrite N.eqb_refl. unfold rl_pause. cbn [rl_paused rl_inner].
  assert (A : add32 m 0 1 = Ok 1) by (destruct m; reflexivity). rewrite A. cbn [bind]. rewrite feeds_app, (quiet_any _ _ _ b Q). cbn [bind feeds feed].
  rewrite N.eqb_refl. cbn. now rewrite app_nil_r.
Qed.

(** ** Arguments *)

Lemma arg_bytes m t x h : ty_ok t = true -> arg_ok t x -> to_bytes m x h = Ok (enc x).
Proof. intros O (W & L & S). apply lossless_and in L. destruct L as (L & _). now apply (large_map_keys m t x h). Qed.
Lemma arg_set t x r : arg_ok t x -> arg_ok t (set_rt r x).
Proof. intros (W & L & S). unfold arg_ok. rewrite lossless_set_rt, enc_set_rt. auto using wt_set_rt. Qed.
Lemma same_set r x : same x (set_rt r x).
Proof. unfold same. now rewrite norm_set_rt. Qed.

Lemma merge_arg m t r x : ty_ok t = true -> arg_ok t x -> merge m t (dflt t r) (enc x) = (norm r x, Ok []).
Proof.
  intros O (W & L & S). pose proof (roundtrip m t O r x [] W L) as R. rewrite app_nil_r in R. apply R; [|auto].
  change (2 ^ 32) with 4294967296 in S. change (2 ^ 64) with 18446744073709551616. lia.
Qed.

(** An update sent to any node of the type makes it the same as the argument. *)
Lemma update_same m t x : ty_ok t = true -> state_ty t = true -> arg_ok t x -> forall w, wt t w = true ->
  exists w', handle_entry m t (EUpdate [] (enc x)) w = (w', Ok tt) /\ same x w' /\ wt t w' = true.
Proof.
  intros O S A w W. unfold handle_entry. cbn [entry_path entry_kind entry_key entry_bytes].
  enough (G : exists w', handle m t [] KUpdate None (enc x) w = (w', Ok tt) /\ exists r, w' = norm r x).
  { destruct G as (w' & E & r & ->). exists (norm r x). split; [exact E|]. split; [apply same_norm|]. apply wt_norm. now destruct A. }
  revert x A w W. induction t as [k| | | |t IH|t IH|n t IH|ts IH|k t IHk IHt|t IH|si fs IH|st vs IH|t IH|k t IH] using ty_ind';
    intros x A w W; try discriminate S.
  6: { destruct w; try discriminate W. cbn [handle]. exists (norm r x). split; [|now exists r].
       cbn [handle_update val_rt]. unfold ok_unit. now rewrite (merge_arg m (TList t) r x O A). }
  6: { destruct w; try discriminate W. cbn [handle]. exists (norm r x). split; [|now exists r].
       cbn [handle_update val_rt]. unfold ok_unit. now rewrite (merge_arg m (TMap k t) r x O A). }
  - destruct w; try discriminate W. exists (norm rt_default x). split; [|eauto]. cbn [handle handle_update]. unfold deserialize.
    now rewrite (merge_arg m _ rt_default x O A).
  - destruct w; try discriminate W. exists (norm rt_default x). split; [|eauto]. cbn [handle handle_update]. unfold deserialize.
    now rewrite (merge_arg m _ rt_default x O A).
  - destruct A as (Wx & L & Sx). destruct x; try discriminate Wx. destruct w; try discriminate W. cbn [wt ty_ok state_ty] in *.
    assert (A : arg_ok t x) by (split; [exact Wx|split; [exact L|exact Sx]]).
    destruct (IH O S x A w W) as (w' & E & r & ->). cbn [handle enc]. rewrite E. eexists. split; [reflexivity|]. now exists r.
  - destruct w; try discriminate W. rewrite wt_struct_eq in W. bprop. cbn [state_ty] in S. rewrite S in *. destruct r as [r|]; [|discriminate].
    exists (norm r x). split; [|now exists r]. cbn [handle handle_update val_rt]. unfold ok_unit. now rewrite (merge_arg m (TStruct si fs) r x O A).
  - destruct w; try discriminate W. destruct (wt_enum_inv _ _ _ _ _ _ W) as (c' & fts & V & -> & Wf & Hst & Hb). cbn [state_ty] in S. subst st.
    destruct r as [r|]; [|discriminate]. destruct (below_parent r Hb) as (p & Ep). exists (norm p x). split; [|now exists p].
    cbn [handle handle_update]. rewrite Ep. unfold ok_unit. now rewrite (merge_arg m (TEnum true vs) p x O A).
Qed.

Lemma update_child m t v w s t' x x' y : ty_ok t = true -> state_ty t = true -> wt t w = true -> same v w ->
  child t v s = Some (t', x) -> state_step v s = true -> arg_ok t' x' -> same y x' -> 
  exists w', handle_entry m t (EUpdate (seg v s) (enc x')) w = (w', Ok tt) /\ same (put_child v s y) w'.
Proof.
  intros O S W Sm C Ss A Sy. destruct (same_child _ _ _ _ _ _ Sm C) as (z & Cw & Sz).
  rewrite (same_seg _ _ _ Sm). rewrite (same_state_step _ _ _ Sm) in Ss. destruct (child_wt t w s t' z O W Cw) as (O' & W' & S'). specialize (S' S Ss).
  destruct (update_same m t' x' O' S' A z W') as (z' & E & Sz' & Wz').
  replace (EUpdate (seg w s) (enc x')) with (rel (seg w s) (EUpdate [] (enc x'))) by (cbn; now rewrite app_nil_r).
  rewrite (handle_entry_child m t w s t' z _ O S W Cw Ss), E. eexists. split; [reflexivity|].
  apply (same_put t v w s t' x); try assumption. now apply (same_trans _ x').
Qed.

Lemma set_field_spec m h rn fs rb fn fi x0 evs x t' : find_field fn fs = Some (fi, x0) -> f_state fi = true -> ty_ok t' = true -> arg_ok t' x ->
  set_field m h rn fs rb fn (evs, Ok x) =
  (rb (put_field fn x fs), (evs ++ [LLog (rt_log rn) (EUpdate (collect_values (rt_path rn) ++ [fn]) (enc x))], Ok RSelf)).
Proof.
  intros F S O A. unfold set_field. rewrite F. cbn [mtry]. rewrite S. unfold rt_log_entry, entry_update_child, entry_update.
  rewrite (arg_bytes m t' x h O A). reflexivity.
Qed.

Lemma call_paused_spec r fn f evs x : f (nested r fn) = (evs, Ok x) ->
  call_paused r fn f = (LPause (rt_log r) :: evs ++ [LUnpause (rt_log r)], Ok x).
Proof. intros E. unfold call_paused, rt_pause, rt_unpause. cbn [mbind]. rewrite E. reflexivity. Qed.

(** Entries a node of the type may log: they carry arguments of the type at their path. *)
Inductive typed : ty -> entry -> Prop :=
| TyUpdate t x : arg_ok t x -> typed t (EUpdate [] (enc x))
| TyPush t x : arg_ok t x -> typed (TList t) (EListPush [] (enc x))
| TyPop t : typed (TList t) (EListPop [])
| TyRemove kk t k : typed (TMap kk t) (EMapRemove [] k)
| TyBox t e : typed t e -> typed (TBox t) e
| TyField si fts fn fi t e : find_field fn fts = Some (fi, t) -> f_state fi = true -> typed t e -> typed (TStruct si fts) (rel [fn] e)
| TyVar st vs tag va fn fi t e : find_variant vs tag = Some va -> find_field fn (snd va) = Some (fi, t) -> f_state fi = true ->
    typed t e -> typed (TEnum st vs) (rel [tag; fn] e)
| TyItem t i e : typed t e -> typed (TList t) (rel [i] e)
| TyKey kk t k e : typed t e -> typed (TMap kk t) (rel [k] e).

Lemma typed_child t v s t' x e : wt t v = true -> child t v s = Some (t', x) -> state_step v s = true -> typed t' e -> typed t (rel (seg v s) e).
Proof.
  intros W C Ss T. destruct s as [fn|i|k|]; destruct t as [kk| | | |t|t|n t|ts|kt vt|t|si fts|st vs|t|kk t]; try discriminate C;
    destruct v as [k' z|b| | | | | | | |y|c r0 fs|tag0 c r0 fs|r0 l|r0 es]; try discriminate C; cbn [child state_step seg] in *; unfold field_child in C.
  - destruct (find_field fn fts) as [[fi t1]|] eqn:F; [|discriminate C]. rewrite wt_struct_eq in W. bprop.
    pose proof (find_field_wt fn fts fs ltac:(assumption)) as K. rewrite F in K. destruct K as (x0 & F' & _). rewrite F' in C, Ss. injection C as -> ->.
    eapply TyField; eassumption.
  - destruct (find_variant vs tag0) as [va|] eqn:V; [|discriminate C]. cbn in C. destruct (wt_enum_inv _ _ _ _ _ _ W) as (c' & fts & V' & -> & Wf & _).
    rewrite V in V'. inversion V'; subst va. cbn [snd] in C. destruct (find_field fn fts) as [[fi t1]|] eqn:F; [|discriminate C].
    pose proof (find_field_wt fn fts fs Wf) as K. rewrite F in K. destruct K as (x0 & F' & _). rewrite F' in C, Ss. injection C as -> ->.
    eapply TyVar; try eassumption; assumption.
  - destruct (nth_error l (N.to_nat i)); [|discriminate C]. injection C as -> ->. now apply TyItem.
  - destruct (assoc k es); [|discriminate C]. injection C as -> ->. now apply TyKey.
  - injection C as -> ->. rewrite rel_nil. now apply TyBox.
Qed.
Lemma typed_update t v s t' x y : wt t v = true -> child t v s = Some (t', x) -> state_step v s = true -> arg_ok t' y -> typed t (EUpdate (seg v s) (enc y)).
Proof. intros W C Ss A. pose proof (typed_child t v s t' x _ W C Ss (TyUpdate t' y A)) as T. cbn [rel] in T. now rewrite app_nil_r in T. Qed.

Definition effect (m : mode) (h : store) (t : ty) (r : rt) (v : val) (o : op) : Prop :=
  exists v' evs ret es, apply_op m h t o v = (v', (evs, Ok ret)) /\ wt t v' = true /\ coh r v' /\
    logs m (rt_log r) evs (map (rel (collect_values (rt_path r))) es) /\ Forall (typed t) es /\
    (forall m' w, Forall entry_ok es -> wt t w = true -> same v w ->
       exists w', handle_all m' t es w = (w', Ok tt) /\ same v' w').

Lemma logs_field m rn evs e : logs m (rt_log rn) evs [] -> logs m (rt_log rn) (evs ++ [LLog (rt_log rn) e]) [e].
Proof. intros L. change [e] with ([] ++ [e]). apply logs_app; [exact L|apply logs_one]. Qed.

(** Setting a state field of a struct or of the current variant. *)
Lemma field_effect t r v fn t' x0 x : ty_ok t = true -> state_ty t = true -> wt t v = true -> coh r v ->
  child t v (SField fn) = Some (t', x0) -> state_step v (SField fn) = true -> arg_ok t' x -> coh (rt_at r (seg v (SField fn))) x ->
  wt t (put_child v (SField fn) x) = true /\ coh r (put_child v (SField fn) x) /\
  (forall m' w, wt t w = true -> same v w ->
     exists w', handle_all m' t [EUpdate (seg v (SField fn)) (enc x)] w = (w', Ok tt) /\ same (put_child v (SField fn) x) w').
Proof.
  intros O S W C Ch Ss A Cx. split; [|split].
  - apply (put_child_wt t v _ t' x0); try assumption. now destruct A.
  - now apply (coh_put t v _ t' x0).
  - intros m' w Ww Sm. destruct (update_child m' t v w (SField fn) t' x0 x x O S Ww Sm Ch Ss A (same_refl x)) as (w' & E & Sw).
    exists w'. cbn [handle_all]. rewrite E. auto.
Qed.

Lemma child_ok t v s t' x : ty_ok t = true -> wt t v = true -> child t v s = Some (t', x) -> ty_ok t' = true.
Proof. intros O W C. now destruct (child_wt t v s t' x O W C). Qed.

Lemma rel_update b p x : rel b (EUpdate p x) = EUpdate (b ++ p) x.
Proof. reflexivity. Qed.

Lemma struct_effect m h si fts r c fs fn fi t' evs x o :
  let t := TStruct si fts in let v := VStruct c (Some r) fs in
  ty_ok t = true -> state_ty t = true -> wt t v = true -> coh r v ->
  find_field fn fts = Some (fi, t') -> f_state fi = true -> arg_ok t' x -> coh (nested r fn) x ->
  logs m (rt_log r) evs [] ->
  apply_op m h t o v = set_field m h r fs (VStruct c (Some r)) fn (evs, Ok x) -> effect m h t r v o.
Proof.
  intros t v O S W C F Fs A Cx L E. pose proof W as W0. unfold t, v in W0. rewrite wt_struct_eq in W0. bprop.
  pose proof (find_field_wt fn fts fs ltac:(assumption)) as K. rewrite F in K. destruct K as (x0 & F' & Wx).
  assert (Ch : child t v (SField fn) = Some (t', x0)) by (cbn; unfold field_child; now rewrite F, F').
  assert (Ss : state_step v (SField fn) = true) by (cbn; now rewrite F').
  pose proof (child_ok _ _ _ _ _ O W Ch) as O'.
  destruct (field_effect t r v fn t' x0 x O S W C Ch Ss A Cx) as (W' & C' & R).
  rewrite (set_field_spec m h r fs _ fn fi x0 evs x t' F' Fs O' A) in E.
  eexists _, _, _, [EUpdate (seg v (SField fn)) (enc x)]. split; [exact E|]. split; [exact W'|]. split; [exact C'|]. split.
  - cbn [map]. apply logs_field. exact L.
  - split; [|intros m' w _ Ww Sm; now apply R]. constructor; [|constructor]. now apply (typed_update t v _ t' x0).
Qed.

Lemma dflt_ctor_len st va r r' : lenN (enc (variant_ctor st va r)) = lenN (enc (variant_ctor st va r')).
Proof. rewrite <- (norm_ctor st va r r'). now rewrite enc_norm. Qed.

(** Setting a field of the current variant. *)
Lemma variant_effect m h vs r tag c fs va fn fi t' evs x :
  let t := TEnum true vs in let v := VEnum tag c (Some (nested r tag)) fs in
  ty_ok t = true -> wt t v = true -> coh r v ->
  find_variant vs tag = Some va -> find_field fn (snd va) = Some (fi, t') -> f_state fi = true -> arg_ok t' x ->
  coh (nested (nested r tag) fn) x -> logs m (rt_log r) evs [] ->
  exists v' evs' es, set_field m h (nested r tag) fs (VEnum tag c (Some (nested r tag))) fn (evs, Ok x) = (v', (evs', Ok RSelf)) /\
    wt t v' = true /\ coh r v' /\ logs m (rt_log r) evs' (map (rel (collect_values (rt_path r))) es) /\ Forall (typed t) es /\
    (forall m' w, wt t w = true -> same v w -> exists w', handle_all m' t es w = (w', Ok tt) /\ same v' w').
Proof.
  intros t v O W C V F Fs A Cx L. destruct (wt_enum_inv _ _ _ _ _ _ W) as (c' & fts & V' & -> & Wf & _).
  rewrite V in V'. inversion V'; subst va. cbn [snd] in *.
  pose proof (find_field_wt fn fts fs ltac:(assumption)) as K. rewrite F in K. destruct K as (x0 & F' & Wx).
  assert (Ch : child t v (SField fn) = Some (t', x0)) by (cbn; rewrite V; cbn; unfold field_child; now rewrite F, F').
  assert (Ss : state_step v (SField fn) = true) by (cbn; now rewrite F').
  pose proof (child_ok _ _ _ _ _ O W Ch) as O'.
  destruct (field_effect t r v fn t' x0 x O eq_refl W C Ch Ss A Cx) as (W' & C' & R).
  rewrite (set_field_spec m h (nested r tag) fs _ fn fi x0 evs x t' F' Fs O' A).
  eexists _, _, [EUpdate (seg v (SField fn)) (enc x)]. split; [reflexivity|]. split; [exact W'|]. split; [exact C'|]. split.
  - cbn [map]. rewrite rel_update. rewrite collect_nested, <- app_assoc. apply (logs_field m r). exact L.
  - split; [|intros m' w Ww Sm; now apply R]. constructor; [|constructor]. now apply (typed_update t v _ t' x0).
Qed.

(** Switching variant. *)
Lemma reset_effect m h vs r tag0 c fs tag va :
  let t := TEnum true vs in let v := VEnum tag0 c (Some (nested r tag0)) fs in
  ty_ok t = true -> wt t v = true -> coh r v -> find_variant vs tag = Some va ->
  (tag0 <> tag -> lenN (enc (variant_ctor true va rt_default)) < 2 ^ 32) ->
  exists c' fs' evs es, let v' := VEnum tag c' (Some (nested r tag)) fs' in
    reset_variant m h t tag v = (v', (evs, Ok tt)) /\ wt t v' = true /\ coh r v' /\
    logs m (rt_log r) evs (map (rel (collect_values (rt_path r))) es) /\ Forall (typed t) es /\
    (forall m' w, wt t w = true -> same v w -> exists w', handle_all m' t es w = (w', Ok tt) /\ same v' w' /\ wt t w' = true).
Proof.
  intros t v O W C V L. unfold t, v in *. cbn [reset_variant]. destruct (tag0 =? tag) eqn:T.
  - apply N.eqb_eq in T. subst tag0. exists c, fs, [], []. cbn zeta. split; [reflexivity|]. split; [exact W|]. split; [exact C|].
    split; [apply logs_nil|]. split; [constructor|]. intros m' w Ww Sm. exists w. auto.
  - apply N.eqb_neq in T. specialize (L T). rewrite V.
    assert (Ep : rt_parent (nested r tag0) = Ok r) by (destruct r; reflexivity). rewrite Ep. cbn [mlift mtry].
    pose proof (ctor_wt true vs tag va r O V) as Wc. pose proof (set_ctor true vs tag va r O V) as Cc. pose proof (lossless_ctor true vs tag va r O V) as Lc.
    assert (A : arg_ok (TEnum true vs) (variant_ctor true va r)) by (split; [exact Wc|split; [exact Lc|rewrite (dflt_ctor_len _ _ _ rt_default); exact L]]).
    unfold rt_log_entry, entry_update. rewrite (arg_bytes m _ _ h O A). cbn [bind mlift mbind mtry].
    pose proof (find_variant_in _ _ _ V) as [_ Et]. destruct va as [[tg cc] ts]. cbn in Et. subst tg. cbn [variant_ctor] in *.
    eexists cc, (dflt_fields (nested r tag) ts), _, [EUpdate [] (enc _)]. cbn zeta. split; [reflexivity|]. split; [exact Wc|]. split; [exact Cc|]. split.
    + cbn [app map mret]. rewrite rel_update, app_nil_r. apply logs_one.
    + split; [constructor; [now apply TyUpdate|constructor]|]. intros m' w Ww Sm. destruct (update_same m' (TEnum true vs) _ O eq_refl A w Ww) as (w' & E & Sw & Ww').
      exists w'. cbn [handle_all]. rewrite E. auto.
Qed.

(** ** Lists *)

Lemma same_list r l r' l' : same (VList r l) (VList r' l') <-> norm_items rt_default 0 l = norm_items rt_default 0 l'.
Proof. unfold same. rewrite !norm_list. split; [intros H; injection H; auto|intros ->; reflexivity]. Qed.
Lemma same_list_inv t r l w : wt (TList t) w = true -> same (VList r l) w ->
  exists r' l', w = VList r' l' /\ length l' = length l /\ norm_items rt_default 0 l = norm_items rt_default 0 l'.
Proof.
  intros W S. destruct w; try discriminate W. apply same_list in S. eexists _, _. split; [reflexivity|]. split; [|exact S].
  rewrite <- (norm_items_len rt_default 0 l0), <- S. apply norm_items_len.
Qed.

Lemma same_push r l r' l' x y : length l' = length l -> norm_items rt_default 0 l = norm_items rt_default 0 l' -> same x y ->
  same (VList r (l ++ [x])) (VList r' (l' ++ [y])).
Proof.
  intros L N S. apply same_list. rewrite !norm_items_app, N. f_equal. unfold lenN. rewrite L. cbn [norm_items]. f_equal. now apply same_at.
Qed.

Lemma norm_items_removelast r l i : norm_items r i (removelast l) = removelast (norm_items r i l).
Proof.
  destruct l as [|x l _] using rev_ind; [reflexivity|]. rewrite removelast_last, norm_items_app. cbn [norm_items]. now rewrite removelast_last.
Qed.

Lemma push_effect m h t r l evs x o :
  let v := VList r l in
  ty_ok (TList t) = true -> wt (TList t) v = true -> coh r v -> arg_ok t x -> coh (nested r (lenN l)) x -> logs m (rt_log r) evs [] ->
  apply_op m h (TList t) o v =
    mtry v (evs, Ok x) (fun x => mtry v (rt_log_entry r (entry_list_push m r x h)) (fun _ => (VList r (l ++ [x]), mret (RIndex (lenN l))))) ->
  effect m h (TList t) r v o.
Proof.
  intros v O W C A Cx L E. pose proof O as O'. cbn [ty_ok] in O'. bprop. cbn [mtry] in E. unfold rt_log_entry, entry_list_push in E.
  rewrite (arg_bytes m t x h ltac:(assumption) A) in E. cbn in E.
  eexists _, _, _, [EListPush [] (enc x)]. split; [exact E|]. split; [|split; [|split]].
  - cbn [wt v] in *. rewrite forallb_app, W. cbn. destruct A as [-> _]. reflexivity.
  - apply coh_list in C. destruct C as [_ C]. apply coh_list. split; [reflexivity|]. now apply set_items_snoc.
  - cbn [map rel]. rewrite app_nil_r. now apply logs_field.
  - split; [constructor; [now apply TyPush|constructor]|]. intros m' w _ Ww Sm. destruct (same_list_inv t r l w Ww Sm) as (r' & l' & -> & Len & N).
    cbn [handle_all]. unfold handle_entry. cbn [entry_path entry_kind entry_key entry_bytes handle].
    rewrite (merge_arg m' t _ x ltac:(assumption) A). eexists. split; [reflexivity|]. apply same_push; try assumption. apply same_norm.
Qed.

Lemma pop_effect m h t r l z o :
  let v := VList r (l ++ [z]) in
  wt (TList t) v = true -> coh r v -> apply_op m h (TList t) o v = list_pop r (l ++ [z]) -> effect m h (TList t) r v o.
Proof.
  intros v W C E. unfold list_pop in E. rewrite rev_app_distr in E. cbn in E. rewrite removelast_last in E.
  eexists _, _, _, [EListPop []]. split; [exact E|]. split; [|split; [|split]].
  - cbn [wt v] in *. rewrite forallb_app in W. now bprop.
  - apply coh_list in C. destruct C as [_ C]. apply coh_list. split; [reflexivity|]. now apply set_items_prefix in C.
  - cbn [map rel]. rewrite app_nil_r. apply logs_one.
  - split; [constructor; [apply TyPop|constructor]|]. intros m' w _ Ww Sm. destruct (same_list_inv t r _ w Ww Sm) as (r' & l' & -> & Len & N).
    cbn [handle_all]. unfold handle_entry. cbn [entry_path entry_kind entry_key entry_bytes handle].
    rewrite app_length in Len. destruct l' as [|a l']; [cbn in Len; lia|]. eexists. split; [reflexivity|].
    apply same_list. rewrite norm_items_removelast, <- N, <- norm_items_removelast, removelast_last. reflexivity.
Qed.

Lemma swap_remove_set {A} (l : list A) z i : (i < length l)%nat -> swap_remove_at (l ++ [z]) i = set_nth l i z.
Proof.
  intros H. unfold swap_remove_at. rewrite rev_app_distr. cbn [rev app]. rewrite app_length. cbn [length].
  destruct (Nat.eqb (S i) (length l + 1)) eqn:E; [apply Nat.eqb_eq in E; lia|]. rewrite removelast_last, firstn_app.
  replace (i - length l)%nat with 0%nat by lia. cbn [firstn]. rewrite app_nil_r. clear E.
  revert i H. induction l as [|a l IH]; intros [|i] H; cbn in *; try lia; try reflexivity. f_equal. apply IH. lia.
Qed.

Lemma vwty_sized_rt t x r : enum_under t = false -> state_ty t = true -> wt t x = true -> vwty x = Sized -> coh r x -> val_rt x = Ok r.
Proof.
  revert x. induction t as [k| | | |t IH|t IH|n t IH|ts IH|k t IHk IHt|t IH|si fs IH|st vs IH|t IH|k t IH] using ty_ind';
    intros x E S W V C; try discriminate S; try discriminate E; destruct x; try discriminate W; try discriminate V.
  - cbn [enum_under state_ty wt vwty val_rt] in *. apply (proj1 (coh_box _ _)) in C. now apply IH.
  - rewrite wt_struct_eq in W. bprop. cbn [state_ty] in S. rewrite S in *. destruct r0; [|discriminate]. apply coh_struct in C. now destruct C as [-> _].
  - apply coh_list in C. now destruct C as [-> _].
  - apply coh_map in C. now destruct C as [-> _].
Qed.
Lemma set_rt_varint t x r : wt t x = true -> vwty x = Varint -> set_rt r x = x.
Proof.
  revert x. induction t as [k| | | |t IH|t IH|n t IH|ts IH|k t IHk IHt|t IH|si fs IH|st vs IH|t IH|k t IH] using ty_ind';
    intros x W V; destruct x; try discriminate W; try discriminate V; try reflexivity.
  cbn in *. now rewrite IH.
Qed.

Lemma swap_effect m h t r l z i removed :
  let v := VList r (l ++ [z]) in
  ty_ok (TList t) = true -> wt (TList t) v = true -> coh r v -> nth_error l (N.to_nat i) = Some removed ->
  enum_under t = false -> arg_ok t z ->
  exists evs, list_swap_remove m h r (l ++ [z]) i =
    (VList r (set_nth l (N.to_nat i) (set_rt (nested r i) z)), (evs, Ok (ROpt (Some removed)))) /\
  logs m (rt_log r) evs (map (rel (collect_values (rt_path r))) [EListPop []; EUpdate [i] (enc z)]).
Proof.
  intros v O W C Nr En A. pose proof O as O'. cbn [ty_ok] in O'. bprop. unfold list_swap_remove.
  assert (Hi : (N.to_nat i < length l)%nat) by (apply nth_error_Some; congruence).
  assert (Hl : lenN (l ++ [z]) = lenN l + 1) by (unfold lenN; rewrite app_length; cbn; lia). rewrite Hl.
  destruct (lenN l + 1 <=? i) eqn:X; [unfold lenN in X; lia|]. destruct (i =? lenN l + 1 - 1) eqn:Y; [unfold lenN in Y; lia|].
  rewrite nth_error_app1 by exact Hi. rewrite Nr, rev_app_distr. cbn [rev app].
  unfold entry_update_child, entry_update. rewrite (arg_bytes m t z h ltac:(assumption) A). cbn [bind mlift mbind mtry].
  rewrite swap_remove_set by exact Hi. cbn [wt v] in W. rewrite forallb_app in W. cbn in W. bprop.
  destruct (vwty z) eqn:V.
  - rewrite (set_rt_varint t z (nested r i)) by assumption. eexists. split; [reflexivity|].
    cbn [map rel app mret]. rewrite app_nil_r, collect_nested. apply (logs_app m _ [_] [_] [_] [_]); apply logs_one.
  - apply coh_list in C. destruct C as [_ C]. apply set_items_prefix in C. pose proof (set_items_nth _ _ _ _ _ C Nr) as Cr. rewrite N.add_0_l, N2Nat.id in Cr.
    assert (Er : val_rt removed = Ok (nested r i)).
    { apply (vwty_sized_rt t); try assumption; [now apply (nth_forallb (wt t) l (N.to_nat i))|].
      rewrite (wt_vwty t) in * by (try assumption; now apply (nth_forallb (wt t) l (N.to_nat i))). exact V. }
    rewrite Er. cbn [bind]. replace (rt_sibling (nested r i) i) with (Ok (nested r i)) by (destruct r; reflexivity).
    cbn [mtry mlift]. rewrite set_set. eexists. split; [reflexivity|].
    cbn [map rel app mret]. rewrite app_nil_r, collect_nested. apply (logs_app m _ [_] [_] [_] [_]); apply logs_one.
Qed.

Lemma swap_replay m t r l z i : let v := VList r (l ++ [z]) in
  ty_ok (TList t) = true -> arg_ok t z -> (N.to_nat i < length l)%nat -> forall w, wt (TList t) w = true -> same v w ->
  exists w', handle_all m (TList t) [EListPop []; EUpdate [i] (enc z)] w = (w', Ok tt) /\
    same (VList r (set_nth l (N.to_nat i) z)) w'.
Proof.
  intros v O A Hi w Ww Sm. pose proof O as O'. cbn [ty_ok] in O'. bprop. destruct (same_list_inv t r _ w Ww Sm) as (r' & l' & -> & Len & N).
  rewrite app_length in Len. cbn [handle_all]. unfold handle_entry at 1. cbn [entry_path entry_kind entry_key entry_bytes handle].
  destruct l' as [|a l']; [cbn in Len; lia|]. set (l2 := removelast (a :: l')) in *.
  assert (N2 : norm_items rt_default 0 l = norm_items rt_default 0 l2).
  { unfold l2. rewrite norm_items_removelast, <- N, <- norm_items_removelast, removelast_last. reflexivity. }
  assert (W2 : wt (TList t) (VList r' l2) = true) by (cbn [wt] in *; now apply removelast_forallb).
  assert (Sm2 : same (VList r l) (VList r' l2)) by now apply same_list.
  destruct (nth_error l (N.to_nat i)) as [y|] eqn:Y; [|apply nth_error_None in Y; lia].
  assert (Ch : child (TList t) (VList r l) (SItem i) = Some (t, y)) by (cbn; now rewrite Y).
  destruct (update_child m (TList t) (VList r l) (VList r' l2) (SItem i) t y z z O eq_refl W2 Sm2 Ch eq_refl A (same_refl z)) as (w' & E & Sw).
  cbn [seg] in E. rewrite E. eauto.
Qed.

(** ** Maps *)

Lemma same_map r es r' es' : same (VMap r es) (VMap r' es') <-> norm_entries rt_default es = norm_entries rt_default es'.
Proof. unfold same. rewrite !norm_map. split; [intros H; injection H; auto|intros ->; reflexivity]. Qed.
Lemma same_assoc es es' k : norm_entries rt_default es = norm_entries rt_default es' ->
  match assoc k es, assoc k es' with
  | Some x, Some y => same x y
  | None, None => True
  | _, _ => False
  end.
Proof.
  intros H. pose proof (assoc_norm_entries k rt_default es) as A. pose proof (assoc_norm_entries k rt_default es') as B. rewrite H, B in A.
  destruct (assoc k es), (assoc k es'); try discriminate A; auto. injection A as A. symmetry in A. now apply same_at in A.
Qed.
Lemma same_insert r es r' es' k x y : norm_entries rt_default es = norm_entries rt_default es' -> same x y ->
  same (VMap r (im_insert k x es)) (VMap r' (im_insert k y es')).
Proof. intros H S. apply same_map. rewrite <- !im_norm_entries, H. f_equal. now apply same_at. Qed.

Lemma map_norm_fst r es : map fst (norm_entries r es) = map fst es.
Proof. induction es as [|[k x] es IH]; [reflexivity|]. cbn. now rewrite IH. Qed.
Lemma key_pos_norm r k es : key_pos k (norm_entries r es) = key_pos k es.
Proof. induction es as [|[k' x] es IH]; [reflexivity|]. cbn. now rewrite IH. Qed.
Lemma norm_entries_remove r k es : norm_entries r (im_remove k es) = im_remove k (norm_entries r es).
Proof. unfold im_remove. rewrite key_pos_norm. destruct (key_pos k es); [|reflexivity]. rewrite !norm_entries_map. apply map_swap_remove. Qed.

Lemma insert_effect m h kk t r es k x evs o :
  let v := VMap r es in
  ty_ok (TMap kk t) = true -> wt (TMap kk t) v = true -> coh r v -> k < 2 ^ 32 -> arg_ok t x -> coh (nested r k) x -> logs m (rt_log r) evs [] ->
  apply_op m h (TMap kk t) o v = mtry v (evs, Ok x) (fun x => map_insert m h r es k x) ->
  effect m h (TMap kk t) r v o.
Proof.
  intros v O W C Hk A Cx L E. pose proof O as O'. cbn [ty_ok] in O'. bprop. cbn [mtry] in E. unfold map_insert, rt_log_entry, entry_update_child, entry_update in E.
  rewrite (arg_bytes m t x h ltac:(assumption) A) in E. cbn in E.
  eexists _, _, _, [EUpdate [k] (enc x)]. split; [exact E|]. split; [|split; [|split]].
  - apply (im_insert_wt kk t r); try assumption. now destruct A.
  - apply coh_map in C. destruct C as [_ C]. apply coh_map. split; [reflexivity|]. now apply set_entries_im.
  - cbn [map rel]. now apply logs_field.
  - split; [constructor; [|constructor]; exact (TyKey kk t k _ (TyUpdate t x A))|]. intros m' w _ Ww Sm. destruct w as [| | | | | | | | | | | | |r' es']; try discriminate Ww. apply same_map in Sm. pose proof (same_assoc _ _ k Sm) as K.
    destruct (assoc k es) as [y|] eqn:Y; destruct (assoc k es') as [y'|] eqn:Y'; try contradiction.
    + assert (Ch : child (TMap kk t) (VMap r es) (SKey k) = Some (t, y)) by (cbn; now rewrite Y).
      destruct (update_child m' (TMap kk t) (VMap r es) (VMap r' es') (SKey k) t y x x O eq_refl Ww ltac:(now apply same_map) Ch eq_refl A (same_refl x)) as (w' & E' & Sw).
      cbn [seg] in E'. cbn [handle_all]. rewrite E'. eauto.
    + cbn [handle_all]. unfold handle_entry. cbn [entry_path entry_kind entry_key entry_bytes handle]. rewrite Y'.
      rewrite (merge_arg m' t _ x ltac:(assumption) A). eexists. split; [reflexivity|]. apply same_insert; [exact Sm|apply same_norm].
Qed.

Lemma remove_effect m h kk t r es k : let v := VMap r es in
  wt (TMap kk t) v = true -> coh r v -> assoc k es <> None -> effect m h (TMap kk t) r v (ORemove k).
Proof.
  intros v W C Hk. eexists _, _, _, [EMapRemove [] k]. split; [reflexivity|]. split; [|split; [|split]].
  - now apply im_remove_wt.
  - apply coh_map in C. destruct C as [_ C]. apply coh_map. split; [reflexivity|]. now apply set_entries_remove.
  - cbn [map rel app]. rewrite app_nil_r. apply logs_one.
  - split; [constructor; [apply TyRemove|constructor]|]. intros m' w _ Ww Sm. destruct w as [| | | | | | | | | | | | |r' es']; try discriminate Ww. apply same_map in Sm. pose proof (same_assoc _ _ k Sm) as K.
    cbn [handle_all]. unfold handle_entry. cbn [entry_path entry_kind entry_key entry_bytes handle].
    destruct (assoc k es) as [y|]; [|congruence]. destruct (assoc k es') as [y'|]; [|contradiction]. eexists. split; [reflexivity|].
    apply same_map. rewrite !norm_entries_remove. now f_equal.
Qed.

(** ** Any operation *)

Lemma nth_last {A} (l : list A) z : nth_error (l ++ [z]) (length (l ++ [z]) - 1) = Some z.
Proof. rewrite app_length. cbn [length]. replace (length l + 1 - 1)%nat with (length l) by lia. rewrite nth_error_app2, Nat.sub_diag by lia. reflexivity. Qed.

Lemma op_effect m h t r v o : ty_ok t = true -> state_ty t = true -> wt t v = true -> coh r v -> op_ok m t v o -> effect m h t r v o.
Proof.
  intros O S W C K. destruct o as [fn x|fn f|tag fn x|tag fn f|x|f| |i|k x|k f|k]; destruct t as [kk| | | |t|t|n t|ts|kt vt|t|si fts|st vs|t|kk t]; try solve [contradiction K];
    destruct v as [k' z|b| | | | | | | |y|c r0 fs|tag0 c r0 fs|r0 l|r0 es]; try discriminate W; try solve [contradiction K]; cbn [op_ok] in K.
  - destruct K as (fi & t' & F & Fs & A). pose proof W as W0. rewrite wt_struct_eq in W0. bprop. cbn [state_ty] in S. rewrite S in *. destruct r0 as [r0|]; [|discriminate].
    pose proof C as C0. apply coh_struct in C0. destruct C0 as [-> _].
    apply (struct_effect m h si fts r c fs fn fi t' [] (set_rt (nested r fn) x)); try assumption; try reflexivity.
    + now apply arg_set.
    + apply coh_set.
    + apply logs_nil.
    + cbn [apply_op]. unfold set_value. pose proof (find_field_wt fn fts fs ltac:(assumption)) as X. rewrite F in X. destruct X as (x0 & F' & _). now rewrite F', Fs.
  - destruct r0 as [r0|]; [|contradiction K]. pose proof C as C0. apply coh_struct in C0. destruct C0 as [-> _].
    destruct K as (fi & t' & F & Fs & evs & x & Ef & Q & A & Cx). pose proof W as W0. rewrite wt_struct_eq in W0. bprop. 
    apply (struct_effect m h si fts r c fs fn fi t' (LPause (rt_log r) :: evs ++ [LUnpause (rt_log r)]) x); try assumption; try reflexivity.
    + now apply logs_paused.
    + cbn [apply_op]. unfold set_value_with. pose proof (find_field_wt fn fts fs ltac:(assumption)) as X. rewrite F in X. destruct X as (x0 & F' & _). rewrite F', Fs.
      now rewrite (call_paused_spec r fn f evs x Ef).
  - destruct K as (va & fi & t' & V & F & Fs & A & Hl). cbn [state_ty] in S. subst st.
    destruct (wt_enum_inv _ _ _ _ _ _ W) as (_ & _ & _ & _ & _ & Hst & Hb). destruct r0 as [r0|]; [|discriminate].
    pose proof C as C0. apply coh_enum in C0. destruct C0 as [-> _].
    destruct (reset_effect m h vs r tag0 c fs tag va O W C V Hl) as (c' & fs' & evs & es & E & W' & C' & L & T & R). cbn zeta in *.
    destruct (variant_effect m h vs r tag c' fs' va fn fi t' [] (set_rt (nested (nested r tag) fn) x) O W' C' V F Fs (arg_set _ _ _ A) (coh_set _ _) (logs_nil _ _))
      as (v2 & evs2 & es2 & E2 & W2 & C2 & L2 & T2 & R2).
    assert (Ev : set_value (nested r tag) fs' fn x = ([], Ok (set_rt (nested (nested r tag) fn) x))).
    { unfold set_value. destruct (wt_enum_inv _ _ _ _ _ _ W') as (c1 & fts & V1 & _ & Wf & _). rewrite V in V1. inversion V1; subst va.
      pose proof (find_field_wt fn fts fs' Wf) as X. cbn [snd] in F. rewrite F in X. destruct X as (x0 & F' & _). now rewrite F', Fs. }
    exists v2, (evs ++ evs2), RSelf, (es ++ es2). split; [|split; [exact W2|split; [exact C2|split]]].
    + cbn [apply_op]. unfold mthen. rewrite E. cbn [mtry]. rewrite Ev, E2. reflexivity.
    + rewrite map_app. now apply logs_app.
    + split; [now apply Forall_app|]. intros m' w _ Ww Sm. destruct (R m' w Ww Sm) as (w1 & E1 & S1 & W1). destruct (R2 m' w1 W1 S1) as (w2 & E3 & S3).
      exists w2. rewrite handle_all_app, E1. auto.
  - destruct r0 as [r0|]; [|contradiction K]. destruct K as (va & fi & t' & p & V & F & Fs & Ep & (evs0 & x & Ef & Q & A & Cx) & Hl). cbn [state_ty] in S. subst st.
    pose proof C as C0. apply coh_enum in C0. destruct C0 as [-> _].
    assert (p = r) by (destruct r; cbn in Ep; congruence). subst p. change (rt_log (nested r tag0)) with (rt_log r) in Q.
    destruct (reset_effect m h vs r tag0 c fs tag va O W C V Hl) as (c' & fs' & evs & es & E & W' & C' & L & T & R). cbn zeta in *.
    destruct (variant_effect m h vs r tag c' fs' va fn fi t' _ x O W' C' V F Fs A Cx (logs_paused m (rt_log r) evs0 Q))
      as (v2 & evs2 & es2 & E2 & W2 & C2 & L2 & T2 & R2).
    assert (Ev : set_value_with (nested r tag) fs' fn f = (LPause (rt_log r) :: evs0 ++ [LUnpause (rt_log r)], Ok x)).
    { unfold set_value_with. destruct (wt_enum_inv _ _ _ _ _ _ W') as (c1 & fts & V1 & _ & Wf & _). rewrite V in V1. inversion V1; subst va.
      pose proof (find_field_wt fn fts fs' Wf) as X. cbn [snd] in F. rewrite F in X. destruct X as (x0 & F' & _). rewrite F', Fs.
      now rewrite (call_paused_spec (nested r tag) fn f evs0 x Ef). }
    exists v2, (evs ++ evs2), RSelf, (es ++ es2). split; [|split; [exact W2|split; [exact C2|split]]].
    + cbn [apply_op]. unfold mthen. rewrite E. cbn [mtry]. rewrite Ev, E2. reflexivity.
    + rewrite map_app. now apply logs_app.
    + split; [now apply Forall_app|]. intros m' w _ Ww Sm. destruct (R m' w Ww Sm) as (w1 & E1 & S1 & W1). destruct (R2 m' w1 W1 S1) as (w2 & E3 & S3).
      exists w2. rewrite handle_all_app, E1. auto.
  - pose proof C as C0. apply coh_list in C0. destruct C0 as [-> _].
    apply (push_effect m h t r l (LPause (rt_log r) :: [] ++ [LUnpause (rt_log r)]) (set_rt (nested r (lenN l)) x)); try assumption.
    + now apply arg_set.
    + apply coh_set.
    + apply logs_paused. reflexivity.
    + reflexivity.
  - destruct K as (evs & x & Ef & Q & A & Cx). pose proof C as C0. apply coh_list in C0. destruct C0 as [-> _].
    apply (push_effect m h t r l (LPause (rt_log r) :: evs ++ [LUnpause (rt_log r)]) x); try assumption.
    + now apply logs_paused.
    + cbn [apply_op]. unfold list_push_with. now rewrite (call_paused_spec r (lenN l) f evs x Ef).
  - pose proof C as C0. apply coh_list in C0. destruct C0 as [-> _].
    destruct l as [|z l _] using rev_ind; [|now apply pop_effect].
    exists (VList r []), [], (ROpt None), []. split; [reflexivity|]. split; [exact W|]. split; [exact C|]. split; [apply logs_nil|]. split; [constructor|].
    intros m' w _ Ww Sm. exists w. auto.
  - pose proof C as C0. apply coh_list in C0. destruct C0 as [-> C0].
    destruct (lenN l <=? i) eqn:Big.
    { exists (VList r l), [], (ROpt None), []. split; [cbn [apply_op]; unfold list_swap_remove; now rewrite Big|]. split; [exact W|]. split; [exact C|]. split; [apply logs_nil|]. split; [constructor|].
      intros m' w _ Ww Sm. exists w. auto. }
    destruct l as [|z l _] using rev_ind; [unfold lenN in Big; cbn in Big; lia|].
    assert (Hl : lenN (l ++ [z]) = lenN l + 1) by (unfold lenN; rewrite app_length; cbn; lia). rewrite Hl in *.
    destruct (i =? lenN l) eqn:Last.
    { apply pop_effect; try assumption. cbn [apply_op]. unfold list_swap_remove. rewrite Hl, Big.
      replace (i =? lenN l + 1 - 1) with true by (symmetry; apply N.eqb_eq; lia). reflexivity. }
    assert (Hi : (N.to_nat i < length l)%nat) by (unfold lenN in *; lia).
    destruct (K ltac:(unfold lenN in *; lia)) as [En Az]. specialize (Az z (nth_last l z)).
    destruct (nth_error l (N.to_nat i)) as [removed|] eqn:Nr; [|apply nth_error_None in Nr; lia].
    destruct (swap_effect m h t r l z i removed O W C Nr En Az) as (evs & E & L).
    eexists _, _, _, _. split; [exact E|]. split; [|split; [|split; [exact L|]]].
    + cbn [wt] in *. rewrite forallb_app in W. cbn in W. bprop. apply set_nth_forallb; [now apply wt_set_rt|assumption].
    + apply coh_list. split; [reflexivity|]. apply set_items_prefix in C0. apply set_items_set; [exact C0|]. rewrite N.add_0_l, N2Nat.id. apply set_set_rt.
    + split; [constructor; [constructor|constructor; [exact (TyItem t i _ (TyUpdate t z Az))|constructor]]|]. intros m' w _ Ww Sm. destruct (swap_replay m' t r l z i O Az Hi w Ww Sm) as (w' & E' & S'). exists w'. split; [exact E'|].
      eapply same_trans; [|exact S']. apply same_list. rewrite <- !set_norm_items. f_equal. now rewrite norm_set_rt.
  - destruct K as (Hk & A & Cx). pose proof C as C0. apply coh_map in C0. destruct C0 as [-> _].
    apply (insert_effect m h kk t r es k x []); try assumption; [apply logs_nil|]. cbn [apply_op mtry].
    destruct (map_insert m h r es k x) as [v' [ev re]]. reflexivity.
  - destruct K as (Hk & evs & x & Ef & Q & A & Cx). pose proof C as C0. apply coh_map in C0. destruct C0 as [-> _].
    apply (insert_effect m h kk t r es k x (LPause (rt_log r) :: evs ++ [LUnpause (rt_log r)])); try assumption.
    + now apply logs_paused.
    + cbn [apply_op]. unfold map_insert_with. now rewrite (call_paused_spec r k f evs x Ef).
  - pose proof C as C0. apply coh_map in C0. destruct C0 as [-> _]. exact (remove_effect m h kk t r es k W C K).
Qed.
