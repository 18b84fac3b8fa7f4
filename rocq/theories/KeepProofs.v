(** Calls keep trees well formed and every node at its place, whether they succeed or not. *)
From Verif Require Import Base Varint WireFmt Utf8 Types Ser Spec De Log State StateSpec Coll ValInd VarintProofs WireProofs SerProofs
  TypeProofs EqProofs DeProofs RoundTrip MergeProofs NormProofs LogProofs TreeProofs CohProofs HandleProofs OpProofs ExecProofs ReplayProofs.

Lemma mtry_keeps {A B} (P : val -> Prop) v (x : M A) (k : A -> val * M B) : P v -> (forall ev a, x = (ev, Ok a) -> P (fst (k a))) ->
  P (fst (mtry v x k)).
Proof.
  intros Pv H. destruct x as [ev [a|e| |]]; cbn [mtry fst]; try exact Pv. specialize (H ev a eq_refl).
  destruct (k a) as [v' [ev' r]]. exact H.
Qed.

Definition good (t : ty) (r : rt) (v : val) : Prop := wt t v = true /\ coh r v.

Lemma call_paused_inv r fn f evs x : call_paused r fn f = (evs, Ok x) -> exists evs', f (nested r fn) = (evs', Ok x).
Proof.
  unfold call_paused, rt_pause. cbn [mbind]. destruct (f (nested r fn)) as [ev [a|e| |]]; cbn [mbind]; intros H; try discriminate H.
  cbn in H. injection H as _ <-. now exists ev.
Qed.

(** A setter on a struct or variant, given where its fields sit. *)
Lemma set_field_keeps m h rn fs rb fn get fts (P : val -> Prop) :
  (forall x fi t', find_field fn fts = Some (fi, t') -> wt t' x = true -> (f_state fi = true -> coh (nested rn fn) x) -> P (rb (put_field fn x fs))) ->
  P (rb fs) -> wt_fields fts fs = true ->
  (forall fi t' evs x, find_field fn fts = Some (fi, t') -> get = (evs, Ok x) -> wt t' x = true /\ (f_state fi = true -> coh (nested rn fn) x)) ->
  P (fst (set_field m h rn fs rb fn get)).
Proof.
  intros Put P0 W G. unfold set_field. pose proof (find_field_wt fn fts fs W) as K. destruct (find_field fn fts) as [[fi t']|] eqn:F.
  - destruct K as (x0 & F' & _). rewrite F'. apply mtry_keeps; [exact P0|]. intros ev x E. destruct (G fi t' ev x eq_refl E) as [Wx Cx].
    specialize (Put x fi t' eq_refl Wx Cx). destruct (f_state fi); [|exact Put]. apply mtry_keeps; [exact P0|]. intros. exact Put.
  - rewrite K. exact P0.
Qed.

Lemma set_value_keeps rn fs fn x fts fi t' evs y : wt_fields fts fs = true -> find_field fn fts = Some (fi, t') -> wt t' x = true ->
  set_value rn fs fn x = (evs, Ok y) -> wt t' y = true /\ (f_state fi = true -> coh (nested rn fn) y).
Proof.
  intros W F Wx E. unfold set_value in E. pose proof (find_field_wt fn fts fs W) as K. rewrite F in K. destruct K as (x0 & F' & _). rewrite F' in E.
  unfold mret in E. injection E as _ <-. destruct (f_state fi); [|split; [assumption|discriminate]]. split; [now apply wt_set_rt|]. intros _. apply coh_set.
Qed.
Lemma set_value_with_keeps rn fs fn f fts fi t' evs y : wt_fields fts fs = true -> find_field fn fts = Some (fi, t') -> makes f t' -> sits f (nested rn fn) ->
  set_value_with rn fs fn f = (evs, Ok y) -> wt t' y = true /\ (f_state fi = true -> coh (nested rn fn) y).
Proof.
  intros W F Mk St E. unfold set_value_with in E. pose proof (find_field_wt fn fts fs W) as K. rewrite F in K. destruct K as (x0 & F' & _). rewrite F' in E.
  destruct (f_state fi); [|discriminate E]. apply call_paused_inv in E. destruct E as (evs' & E). split; [exact (Mk _ _ _ E)|]. intros _. exact (St _ _ E).
Qed.

Lemma struct_keeps m h si fts r c fs fn get : let t := TStruct si fts in
  good t r (VStruct c (Some r) fs) ->
  (forall fi t' evs x, find_field fn fts = Some (fi, t') -> get = (evs, Ok x) -> wt t' x = true /\ (f_state fi = true -> coh (nested r fn) x)) ->
  good t r (fst (set_field m h r fs (VStruct c (Some r)) fn get)).
Proof.
  intros t [W C] G. pose proof W as W0. unfold t in W0. rewrite wt_struct_eq in W0. bprop. apply coh_struct in C. destruct C as [_ C].
  apply (set_field_keeps m h r fs (VStruct c (Some r)) fn get fts (good t r)); try assumption.
  - intros x fi t' F Wx Cx. split.
    + unfold t. rewrite wt_struct_eq. rewrite (put_field_wt fn fts t' fi x F Wx fs) by assumption. apply andb_true_iff; split; [|reflexivity]. apply andb_true_iff; split; assumption.
    + apply coh_struct. split; [reflexivity|]. apply set_fields_put; [exact C|]. intros fi' y F' Fs. apply Cx.
      pose proof (find_field_wt fn fts fs ltac:(assumption)) as K. rewrite F in K. destruct K as (x0 & K & _). congruence.
  - split; [exact W|]. now apply coh_struct.
Qed.

Lemma variant_keeps m h st vs r tag c fs fn get va : let t := TEnum st vs in let rn := nested r tag in
  good t r (VEnum tag c (Some rn) fs) -> find_variant vs tag = Some va ->
  (forall fi t' evs x, find_field fn (snd va) = Some (fi, t') -> get = (evs, Ok x) -> wt t' x = true /\ (f_state fi = true -> coh (nested rn fn) x)) ->
  good t r (fst (set_field m h rn fs (VEnum tag c (Some rn)) fn get)).
Proof.
  intros t rn [W C] V G. destruct (wt_enum_inv _ _ _ _ _ _ W) as (c' & fts & V' & -> & Wf & Hst & Hb). rewrite V in V'. inversion V'; subst va. cbn [snd] in *.
  pose proof C as C'. apply coh_enum in C'. destruct C' as [_ C'].
  apply (set_field_keeps m h rn fs (VEnum tag c (Some rn)) fn get fts (good t r)); try assumption; [|now split].
  intros x fi t' F Wx Cx. split.
  - apply (put_child_wt t (VEnum tag c (Some rn) fs) (SField fn) t' (match find_field fn fs with Some (_, y) => y | None => x end) x); try assumption.
    unfold t. cbn. rewrite V. cbn. unfold field_child. rewrite F. pose proof (find_field_wt fn fts fs Wf) as K. rewrite F in K. destruct K as (x0 & K & _). now rewrite K.
  - apply coh_enum. split; [reflexivity|]. apply set_fields_put; [exact C'|]. intros fi' y F' Fs. apply Cx.
    pose proof (find_field_wt fn fts fs Wf) as K. rewrite F in K. destruct K as (x0 & K & _). congruence.
Qed.

Lemma reset_keeps m h vs r v tag va : let t := TEnum true vs in ty_ok t = true -> good t r v -> find_variant vs tag = Some va ->
  good t r (fst (reset_variant m h t tag v)) /\
  (forall ev u, snd (reset_variant m h t tag v) = (ev, Ok u) -> exists c fs, fst (reset_variant m h t tag v) = VEnum tag c (Some (nested r tag)) fs).
Proof.
  intros t O [W C] V. destruct v as [| | | | | | | | | | |tag0 c r0 fs| |]; try discriminate W.
  destruct (wt_enum_inv _ _ _ _ _ _ W) as (c' & fts & V' & -> & Wf & Hst & Hb). destruct r0 as [r0|]; [|discriminate Hst].
  pose proof C as C'. apply coh_enum in C'. destruct C' as [-> _]. unfold t. cbn [reset_variant].
  destruct (tag0 =? tag) eqn:E.
  - apply N.eqb_eq in E. subst tag0. cbn [fst snd]. split; [now split|]. intros ev u _. eauto.
  - rewrite V. replace (rt_parent (nested r tag0)) with (Ok r) by (destruct r; reflexivity). cbn [mlift mtry].
    destruct (rt_log_entry r (entry_update m r (variant_ctor true va r) h)) as [ev [u|e| |]]; cbn [mtry mret fst snd].
    + split; [split; [now apply (ctor_wt true vs tag)|apply (set_ctor true vs tag va r O V)]|]. intros _ _ _.
      pose proof (find_variant_in _ _ _ V) as [_ Et]. destruct va as [[tg cc] ts]. cbn in Et. subst tg. cbn [variant_ctor]. eauto.
    + split; [now split|]. intros ev' u' H. discriminate H.
    + split; [now split|]. intros ev' u' H. discriminate H.
    + split; [now split|]. intros ev' u' H. discriminate H.
Qed.

Lemma good_push t r l x : good (TList t) r (VList r l) -> wt t x = true -> coh (nested r (lenN l)) x -> good (TList t) r (VList r (l ++ [x])).
Proof.
  intros [W C] Wx Cx. split.
  - cbn [wt] in *. rewrite forallb_app, W. cbn. now rewrite Wx.
  - apply coh_list in C. destruct C as [_ C]. apply coh_list. split; [reflexivity|]. now apply set_items_snoc.
Qed.
Lemma good_pop t r l : good (TList t) r (VList r l) -> good (TList t) r (VList r (removelast l)).
Proof.
  intros [W C]. split; [cbn [wt] in *; now apply removelast_forallb|]. apply coh_list in C. destruct C as [_ C]. apply coh_list. split; [reflexivity|].
  now apply set_items_removelast.
Qed.
Lemma good_insert kk t r es k x : good (TMap kk t) r (VMap r es) -> k < 2 ^ 32 -> wt t x = true -> coh (nested r k) x ->
  good (TMap kk t) r (VMap r (im_insert k x es)).
Proof.
  intros [W C] Hk Wx Cx. split; [now apply (im_insert_wt kk t r)|]. apply coh_map in C. destruct C as [_ C]. apply coh_map. split; [reflexivity|]. now apply set_entries_im.
Qed.

Lemma op_keeps m h t r v o : ty_ok t = true -> state_ty t = true -> good t r v -> op_typed t o -> op_sits t r v o ->
  good t r (fst (apply_op m h t o v)).
Proof.
  intros O S [W C] T St.
  destruct o as [fn x|fn f|tag fn x|tag fn f|x|f| |i|k x|k f|k]; destruct t as [kk| | | |t|t|n t|ts|kt vt|t|si fts|st vs|t|kk t]; try solve [contradiction T];
    destruct v as [k' z|b| | | | | | | |y|c r0 fs|tag0 c r0 fs|r0 l|r0 es]; try discriminate W; cbn [op_typed op_sits] in T, St.
  - destruct T as (fi & t' & F & Wx). pose proof W as W0. rewrite wt_struct_eq in W0. bprop. cbn [state_ty] in S. rewrite S in *. destruct r0 as [r0|]; [|discriminate].
    pose proof C as C0. apply coh_struct in C0. destruct C0 as [-> _]. cbn [apply_op]. apply struct_keeps; [now split|].
    intros fi' t2 evs y F' E. rewrite F in F'. inversion F'; subst. now apply (set_value_keeps r fs fn x fts fi' t2 evs y).
  - destruct T as (fi & t' & F & Fs & Mk). pose proof W as W0. rewrite wt_struct_eq in W0. bprop. cbn [state_ty] in S. rewrite S in *. destruct r0 as [r0|]; [|discriminate].
    pose proof C as C0. apply coh_struct in C0. destruct C0 as [-> _]. cbn [apply_op]. apply struct_keeps; [now split|].
    intros fi' t2 evs y F' E. rewrite F in F'. inversion F'; subst. now apply (set_value_with_keeps r fs fn f fts fi' t2 evs y).
  - destruct T as (va & fi & t' & V & F & Wx). cbn [state_ty] in S. subst st.
    destruct (wt_enum_inv _ _ _ _ _ _ W) as (_ & _ & _ & _ & _ & Hst & _). destruct r0 as [r0|]; [|discriminate Hst].
    destruct (reset_keeps m h vs r (VEnum tag0 c (Some r0) fs) tag va O (conj W C) V) as [G Sh].
    cbn [apply_op]. destruct (reset_variant m h (TEnum true vs) tag (VEnum tag0 c (Some r0) fs)) as [v1 out]. cbn [fst snd mthen] in *. unfold mthen.
    apply mtry_keeps; [exact G|]. intros ev u E. destruct (Sh ev u E) as (c1 & fs1 & ->). apply (variant_keeps m h true vs r tag c1 fs1 fn _ va); try assumption.
    intros fi' t2 evs y F' Ey. rewrite F in F'. inversion F'; subst. destruct G as [G _]. destruct (wt_enum_inv _ _ _ _ _ _ G) as (c2 & f2 & V2 & _ & Wf & _).
    rewrite V in V2. inversion V2; subst va. now apply (set_value_keeps (nested r tag) fs1 fn x f2 fi' t2 evs y).
  - destruct T as (va & fi & t' & V & F & Fs & Mk). cbn [state_ty] in S. subst st.
    destruct (wt_enum_inv _ _ _ _ _ _ W) as (_ & _ & _ & _ & _ & Hst & _). destruct r0 as [r0|]; [|discriminate Hst].
    destruct (reset_keeps m h vs r (VEnum tag0 c (Some r0) fs) tag va O (conj W C) V) as [G Sh].
    cbn [apply_op]. destruct (reset_variant m h (TEnum true vs) tag (VEnum tag0 c (Some r0) fs)) as [v1 out]. cbn [fst snd mthen] in *. unfold mthen.
    apply mtry_keeps; [exact G|]. intros ev u E. destruct (Sh ev u E) as (c1 & fs1 & ->). apply (variant_keeps m h true vs r tag c1 fs1 fn _ va); try assumption.
    intros fi' t2 evs y F' Ey. rewrite F in F'. inversion F'; subst. destruct G as [G _]. destruct (wt_enum_inv _ _ _ _ _ _ G) as (c2 & f2 & V2 & _ & Wf & _).
    rewrite V in V2. inversion V2; subst va. now apply (set_value_with_keeps (nested r tag) fs1 fn f f2 fi' t2 evs y).
  - pose proof C as C0. apply coh_list in C0. destruct C0 as [-> _]. cbn [apply_op]. unfold list_push_with. apply mtry_keeps; [now split|]. intros ev y E.
    apply call_paused_inv in E. destruct E as (evs & E). unfold mret in E. injection E as _ <-. apply mtry_keeps; [now split|]. intros _ _ _. cbn [fst].
    apply good_push; [now split|now apply wt_set_rt|apply coh_set].
  - pose proof C as C0. apply coh_list in C0. destruct C0 as [-> _]. cbn [apply_op]. unfold list_push_with. apply mtry_keeps; [now split|]. intros ev y E.
    apply call_paused_inv in E. destruct E as (evs & E). apply mtry_keeps; [now split|]. intros _ _ _. cbn [fst].
    apply good_push; [now split|exact (T _ _ _ E)|exact (St _ _ E)].
  - pose proof C as C0. apply coh_list in C0. destruct C0 as [-> _]. cbn [apply_op]. unfold list_pop. destruct (rev l) as [|z zs]; [now split|].
    apply mtry_keeps; [now split|]. intros _ _ _. cbn [fst]. apply good_pop. now split.
  - pose proof C as C0. apply coh_list in C0. destruct C0 as [-> C0]. cbn [apply_op]. unfold list_swap_remove.
    assert (G : good (TList t) r (VList r l)) by now split.
    destruct (lenN l <=? i) eqn:Big; [exact G|]. destruct (i =? lenN l - 1) eqn:Last.
    { unfold list_pop. destruct (rev l) as [|z zs]; [exact G|]. apply mtry_keeps; [exact G|]. intros _ _ _. cbn [fst]. now apply good_pop. }
    destruct (nth_error l (N.to_nat i)) as [removed|] eqn:Nr; [|exact G]. destruct l as [|z l _] using rev_ind; [exact G|].
    assert (Hl : lenN (l ++ [z]) = lenN l + 1) by (unfold lenN; rewrite app_length; cbn; lia). rewrite Hl in *.
    rewrite rev_app_distr. cbn [rev app]. apply mtry_keeps; [exact G|]. intros _ _ _.
    assert (Hi : (N.to_nat i < length l)%nat) by (unfold lenN in *; lia). rewrite nth_error_app1 in Nr by exact Hi. specialize (St ltac:(unfold lenN in *; lia)).
    rewrite swap_remove_set by exact Hi. cbn [wt] in W. rewrite forallb_app in W. cbn in W. bprop. pose proof C0 as C1. apply set_items_prefix in C1.
    assert (Wr : wt t removed = true) by exact (nth_forallb (wt t) l (N.to_nat i) removed Nr ltac:(assumption)).
    assert (Gz : good (TList t) r (VList r (set_nth l (N.to_nat i) (set_rt (nested r i) z)))).
    { split; [cbn [wt]; apply set_nth_forallb; [now apply wt_set_rt|assumption]|]. apply coh_list. split; [reflexivity|].
      apply set_items_set; [exact C1|]. rewrite N.add_0_l, N2Nat.id. apply set_set_rt. }
    cbn [ty_ok] in O. bprop. destruct (vwty z) eqn:Vz.
    + rewrite <- (set_rt_varint t z (nested r i)) by assumption. exact Gz.
    + assert (Er : val_rt removed = Ok (nested r i)).
      { pose proof (set_items_nth _ _ _ _ _ C1 Nr) as Cr. rewrite N.add_0_l, N2Nat.id in Cr. apply (vwty_sized_rt t); try assumption.
        rewrite (wt_vwty t) in * by assumption. exact Vz. }
      rewrite Er. cbn [bind]. replace (rt_sibling (nested r i) i) with (Ok (nested r i)) by (destruct r; reflexivity). cbn [mtry mlift mret fst]. rewrite set_set. exact Gz.
  - pose proof C as C0. apply coh_map in C0. destruct C0 as [-> _]. destruct T as [Hk Wx]. cbn [apply_op]. unfold map_insert. apply mtry_keeps; [now split|]. intros _ _ _. cbn [fst].
    apply good_insert; auto. now split.
  - pose proof C as C0. apply coh_map in C0. destruct C0 as [-> _]. destruct T as [Hk Mk]. cbn [apply_op]. unfold map_insert_with. apply mtry_keeps; [now split|]. intros ev y E.
    apply call_paused_inv in E. destruct E as (evs & E). unfold map_insert. apply mtry_keeps; [now split|]. intros _ _ _. cbn [fst].
    apply good_insert; [now split|assumption|exact (Mk _ _ _ E)|exact (St _ _ E)].
  - pose proof C as C0. apply coh_map in C0. destruct C0 as [-> C0]. cbn [apply_op]. unfold map_remove. apply mtry_keeps; [now split|]. intros _ _ _. cbn [fst].
    split; [now apply im_remove_wt|]. apply coh_map. split; [reflexivity|]. now apply set_entries_remove.
Qed.

Lemma at_keeps m h o : forall steps t r v t' x p v' out, ty_ok t = true -> state_ty t = true -> good t r v ->
  walk t v steps = Some (t', x, p) -> op_typed t' o -> op_sits t' (rt_at r p) x o ->
  at_node steps (fun t x => apply_op m h t o x) t v = Some (v', out) -> good t r v'.
Proof.
  induction steps as [|s steps IH]; intros t r v t' x p v' out O S G E T St A; cbn [walk at_node] in *.
  - inversion E; subst. pose proof (op_keeps m h t' r x o O S G T St) as K. destruct (apply_op m h t' o x) as [w b]. inversion A; subst. exact K.
  - destruct G as [W C]. destruct (child t v s) as [[t1 y]|] eqn:Ch; [|discriminate E]. destruct (state_step v s) eqn:Ss; [|discriminate E].
    destruct (walk t1 y steps) as [[[t2 z] q]|] eqn:Wk; [|discriminate E]. inversion E; subst.
    destruct (child_wt t v s t1 y O W Ch) as (O1 & W1 & S1). specialize (S1 S Ss). pose proof (coh_child t v s t1 y r O W Ch Ss C) as C1.
    destruct (at_node steps _ t1 y) as [[y' b]|] eqn:A1; [|discriminate A]. inversion A; subst. rewrite rt_at_app in St.
    destruct (IH t1 _ y t' x q y' out O1 S1 (conj W1 C1) Wk T St A1) as [Wy Cy]. split; [now apply (put_child_wt t v s t1 y)|apply (coh_put t v s t1 y); auto].
Qed.

Lemma built_good t r v : ty_ok t = true -> state_ty t = true -> built t r v -> good t r v.
Proof.
  intros O S. induction 1 as [|st vs tag va -> F|v W|m v bs _ IH B|m v bs _ IH B|m h o v steps t' x p v' out _ IH Wk T St A].
  - split; [now apply wt_dflt|now apply set_dflt].
  - split; [now apply (ctor_wt st vs tag)|apply (set_ctor st vs tag va r O F)].
  - split; [now apply wt_set_rt|apply coh_set].
  - destruct IH as [W C]. split; [|now apply (merge_coh m t O S)]. pose proof (merge_good m t O v bs W B) as G. destruct (merge m t v bs) as [v' o]. now destruct G.
  - apply (replay_inv m t (good t r)); try assumption. intros e w [W C] (P & K & Be). split.
    + pose proof (handle_good m t O S (entry_path e) (entry_kind e) (entry_key e) (entry_bytes e) w W Be P) as G. unfold handle_entry.
      destruct (handle m t _ _ _ _ w) as [w' o]. now destruct G.
    + now apply (handle_coh m t O S).
  - now apply (at_keeps m h o steps t r v t' x p v' out).
Qed.

Lemma set_norm v : forall r, coh r (norm r v).
Proof.
  induction v as [v L|v IH|v C IH] using val_slots_ind; intros r; unfold coh in *.
  - destruct v; try discriminate L; reflexivity.
  - cbn. now rewrite IH.
  - assert (FF : forall r fs, Forall (fun sl : slot => forall r, set_rt r (norm r (snd sl)) = norm r (snd sl)) (map fslot fs) ->
      set_fields r (norm_fields r fs) = norm_fields r fs).
    { intros r'. induction fs as [|[fi x] fs IHf]; intros H; [reflexivity|]. cbn [map] in H. inversion H as [|? ? X1 IH2]; subst.
      cbn in *. rewrite IHf by exact IH2. unfold field_rt. destruct (f_state fi); [now rewrite X1|reflexivity]. }
    destruct v as [| | | |[x|]|l|l|l|l| |c [ra|] fs|tag c [ra|] fs|ra l|ra es]; try discriminate C; try reflexivity; clear C; cbn [slots] in IH.
    + rewrite norm_struct, set_struct. now rewrite FF.
    + rewrite norm_enum, set_enum. now rewrite FF.
    + apply (slot_items (fun x => forall r, set_rt r (norm r x) = norm r x)) in IH.
      rewrite norm_list, set_list. f_equal. enough (G : forall i, set_items r i (norm_items r i l) = norm_items r i l) by apply G.
      induction IH as [|x l Hx _ IHl]; intros i; [reflexivity|]. cbn. now rewrite Hx, IHl.
    + rewrite norm_map, set_map. f_equal. induction es as [|[k x] l IHl]; [reflexivity|]. cbn [map] in IH.
      inversion IH as [|? ? X1 IH2]; subst. cbn in *. now rewrite X1, IHl.
Qed.

Lemma handle_all_coh m t r es : ty_ok t = true -> state_ty t = true -> Forall entry_ok es -> forall v, wt t v = true -> coh r v ->
  coh r (fst (handle_all m t es v)).
Proof.
  intros O S. induction 1 as [|e es Oe _ IH]; intros v W C; [exact C|]. cbn [handle_all].
  pose proof (handle_entry_good m t e v O S W Oe) as G. assert (Ce : coh r (fst (handle_entry m t e v))).
  { destruct Oe as (_ & _ & Be). now apply (handle_coh m t O S). }
  destruct (handle_entry m t e v) as [v' [u|x| |]]; cbn [fst] in *; try exact Ce. destruct G as [G _]. now apply IH.
Qed.
