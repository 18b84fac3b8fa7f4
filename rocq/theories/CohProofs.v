(** Every node sits at its own path: what decoding and replay preserve. *)
From Verif Require Import Base Varint WireFmt Utf8 Types Ser Spec De Log State StateSpec ValInd VarintProofs WireProofs SerProofs TypeProofs EqProofs
  DeProofs RoundTrip NormProofs TreeProofs.

Lemma coh_set r v : coh r (set_rt r v).
Proof. apply set_set_rt. Qed.

Lemma coh_struct r c r0 fs : coh r (VStruct c (Some r0) fs) <-> r0 = r /\ set_fields r fs = fs.
Proof. unfold coh. rewrite set_struct. split; [intros H; injection H; auto|intros [-> ->]; reflexivity]. Qed.
Lemma coh_enum r tag c r0 fs : coh r (VEnum tag c (Some r0) fs) <-> r0 = nested r tag /\ set_fields (nested r tag) fs = fs.
Proof. unfold coh. rewrite set_enum. split; [intros H; injection H; auto|intros [-> ->]; reflexivity]. Qed.
Lemma coh_list r r0 l : coh r (VList r0 l) <-> r0 = r /\ set_items r 0 l = l.
Proof. unfold coh. rewrite set_list. split; [intros H; injection H; auto|intros [-> ->]; reflexivity]. Qed.
Lemma coh_map r r0 es : coh r (VMap r0 es) <-> r0 = r /\ set_entries r es = es.
Proof. unfold coh. rewrite set_map. split; [intros H; injection H; auto|intros [-> ->]; reflexivity]. Qed.
Lemma coh_box r x : coh r (VBox x) <-> coh r x.
Proof. unfold coh. cbn. split; [intros H; injection H; auto|intros ->; reflexivity]. Qed.

Lemma coh_child t v s t' x r : ty_ok t = true -> wt t v = true -> child t v s = Some (t', x) -> state_step v s = true ->
  coh r v -> coh (rt_at r (seg v s)) x.
Proof.
  intros O W E S C. destruct s as [fn|i|k|]; destruct t as [kk| | | |t|t|n t|ts|kt vt|t|si fts|st vs|t|kt t]; try discriminate E;
    destruct v as [| | | | | | | | |y|c r0 fs|tag c r0 fs|r0 l|r0 es]; try discriminate E; cbn [child] in E.
  - rewrite wt_struct_eq in W. bprop. destruct (field_child_wt _ _ _ _ _ H0 E) as (fi & F1 & F2 & _).
    cbn in S. rewrite F2 in S. rewrite ty_ok_struct in O. bprop. destruct (state_field _ _ _ _ H2 (find_field_in _ _ _ F1)) as (_ & _ & St).
    destruct (St S) as [Hs _]. rewrite Hs in H1. destruct r0 as [r0|]; [|discriminate H1]. apply coh_struct in C. destruct C as [-> C].
    exact (set_fields_find _ _ _ _ _ C F2 S).
  - destruct (wt_enum_inv _ _ _ _ _ _ W) as (c' & fts & F & -> & Wf & Hst & _). rewrite F in E. cbn in E.
    destruct (field_child_wt _ _ _ _ _ Wf E) as (fi & F1 & F2 & _). cbn in S. rewrite F2 in S.
    apply find_variant_in in F. destruct F as [F _]. destruct (variant_fields_ok _ _ _ O F) as (_ & Of & _).
    destruct (state_field _ _ _ _ Of (find_field_in _ _ _ F1)) as (_ & _ & St). destruct (St S) as [Hs _].
    rewrite Hs in Hst. destruct r0 as [r0|]; [|discriminate Hst]. apply coh_enum in C. destruct C as [-> C].
    exact (set_fields_find _ _ _ _ _ C F2 S).
  - destruct (nth_error l (N.to_nat i)) as [y|] eqn:F; [|discriminate E]. inversion E; subst. apply coh_list in C. destruct C as [-> C].
    pose proof (set_items_nth _ _ _ _ _ C F) as X. rewrite N.add_0_l, N2Nat.id in X. exact X.
  - destruct (assoc k es) as [y|] eqn:F; [|discriminate E]. inversion E; subst. apply coh_map in C. destruct C as [-> C].
    exact (set_entries_assoc _ _ _ _ C F).
  - inversion E; subst. exact (proj1 (coh_box _ _) C).
Qed.

Lemma coh_put t v s t' x x' r : child t v s = Some (t', x) -> coh r v ->
  (state_step v s = true -> coh (rt_at r (seg v s)) x') -> coh r (put_child v s x').
Proof.
  intros E C H. destruct s as [fn|i|k|]; destruct t as [kk| | | |t|t|n t|ts|kt vt|t|si fts|st vs|t|kt t]; try discriminate E;
    destruct v as [| | | | | | | | |y|c r0 fs|tag c r0 fs|r0 l|r0 es]; try discriminate E; cbn [child put_child state_step seg] in *.
  - destruct r0 as [r0|]; [|reflexivity]. apply coh_struct in C. destruct C as [-> C]. apply coh_struct. split; [reflexivity|].
    apply set_fields_put; [exact C|]. intros fi y F S. rewrite F in H. exact (H S).
  - destruct r0 as [r0|]; [|reflexivity]. apply coh_enum in C. destruct C as [-> C]. apply coh_enum. split; [reflexivity|].
    apply set_fields_put; [exact C|]. intros fi y F S. rewrite F in H. exact (H S).
  - apply coh_list in C. destruct C as [-> C]. apply coh_list. split; [reflexivity|].
    apply set_items_set; [exact C|]. rewrite N.add_0_l, N2Nat.id. exact (H eq_refl).
  - apply coh_map in C. destruct C as [-> C]. apply coh_map. split; [reflexivity|].
    apply set_entries_im; [exact C|]. exact (H eq_refl).
  - apply coh_box. exact (H eq_refl).
Qed.

Lemma set_items_app r : forall a b i, set_items r i (a ++ b) = set_items r i a ++ set_items r (i + lenN a) b.
Proof.
  induction a as [|x a IH]; intros b i; cbn [app set_items].
  - f_equal. unfold lenN. cbn. lia.
  - f_equal. rewrite IH. do 2 f_equal. unfold lenN. cbn [length]. lia.
Qed.
Lemma set_items_snoc r l x : set_items r 0 l = l -> coh (nested r (lenN l)) x -> set_items r 0 (l ++ [x]) = l ++ [x].
Proof. intros H C. rewrite set_items_app, H. cbn. rewrite N.add_0_l. unfold coh in C. now rewrite C. Qed.

(** ** Decoding keeps coherence *)

Definition CM (m : mode) (t : ty) : Prop := forall r v bs,
  wt t v = true -> bytes_ok bs -> coh r v -> coh r (fst (merge m t v bs)).

Lemma sgood_and {S} m (I J : S -> Prop) (step : S -> bytes -> S * res bytes) : sgood m I step ->
  (forall s bs, I s -> bytes_ok bs -> J s -> J (fst (step s bs))) -> sgood m (fun s => I s /\ J s) step.
Proof.
  intros G H s bs [Is Js] Hb. specialize (G s bs Is Hb). specialize (H s bs Is Hb Js).
  destruct (step s bs) as [s' r]. destruct G. auto.
Qed.

Lemma merge_nested_coh m t w r v bs : CM m t -> wt t v = true -> bytes_ok bs -> coh r v ->
  coh r (fst (merge_nested m (wty t) (merge m t) w v bs)).
Proof.
  intros H W B C. unfold merge_nested. destruct (negb _); [exact C|]. destruct w; [now apply H|].
  pose proof (rd_nested_cases m bs) as K. destruct (rd_nested m bs) as [[sub after]|e| |]; cbn [try]; try exact C.
  destruct K as (p & -> & _). apply bytes_ok_mid in B. destruct B as [B _]. specialize (H r v sub W B C).
  destruct (merge m t v sub) as [v' o]. exact H.
Qed.

Lemma merge_field_coh m fts r : Forall (fun p => f_state (fst p) = true -> CM m (snd p)) fts ->
  forall fs fn w bs, wt_fields fts fs = true -> bytes_ok bs -> set_fields r fs = fs ->
  set_fields r (fst (merge_field m (fmergers m fts) fs fn w bs)) = fst (merge_field m (fmergers m fts) fs fn w bs).
Proof.
  induction 1 as [|[fi t] fts H _ IH]; intros [|[fj x] fs] fn w bs W B C; try discriminate W; [reflexivity|].
  cbn [wt_fields] in W. bprop. apply finfo_eqb_eq in H0. subst fj. cbn [set_fields] in C. injection C as Cx Cf.
  cbn [fmergers map merge_field]. destruct (fn =? f_tag fi).
  - destruct (merge_nested m (wty t) (merge m t) w x bs) as [x' o] eqn:M. cbn [fst set_fields]. rewrite Cf. do 2 f_equal.
    destruct (f_state fi) eqn:S; [|reflexivity].
    pose proof (merge_nested_coh m t w (nested r (f_tag fi)) x bs (H S) ltac:(assumption) B Cx) as K. rewrite M in K. exact K.
  - specialize (IH fs fn w bs ltac:(assumption) B Cf). unfold fmergers in IH.
    destruct (merge_field m _ fs fn w bs) as [fs' o]. cbn [fst set_fields] in *. now rewrite Cx, IH.
Qed.

Lemma struct_run_coh m fts r fs bs : Forall (fun p => ty_ok (snd p) = true) fts ->
  Forall (fun p => f_state (fst p) = true -> CM m (snd p)) fts ->
  wt_fields fts fs = true -> bytes_ok bs -> set_fields r fs = fs ->
  set_fields r (fst (run (struct_step m (fmergers m fts)) fs bs)) = fst (run (struct_step m (fmergers m fts)) fs bs).
Proof.
  intros O H W B C.
  assert (G : sgood m (fun fs => wt_fields fts fs = true /\ set_fields r fs = fs) (struct_step m (fmergers m fts))).
  { apply sgood_and; [apply struct_step_good; eapply Forall_impl; [|exact O]; intros p; apply merge_good|].
    intros s b Is Hb Js. unfold struct_step. destruct (rd_tag m b) as [[[fn w] rest]|e| |] eqn:E; cbn [try]; try exact Js.
    apply rd_tag_suffix in E. destruct E as (p & -> & _). apply bytes_ok_app in Hb. now apply merge_field_coh. }
  pose proof (run_good m _ _ fs bs G (conj W C) B) as R. destruct (run _ fs bs) as [fs' o]. now destruct R as [[_ R] _].
Qed.

Lemma merge_coh m t : ty_ok t = true -> state_ty t = true -> CM m t.
Proof.
  induction t as [k| | | |t IH|t IH|n t IH|ts IH|k t IHk IHt|t IH|si fs IH|st vs IH|t IH|k t IH]
    using ty_ind'; intros O S r v bs W B C; try discriminate S; destruct v; try discriminate W.
  - cbn. destruct (ikind_eqb k k0); [|reflexivity]. destruct (int_deserialize m k bs) as [[z' rest]|e| |]; reflexivity.
  - cbn. destruct (bool_deserialize bs) as [[z' rest]|e| |]; reflexivity.
  - cbn [ty_ok state_ty wt merge] in *. apply (proj1 (coh_box _ _)) in C. specialize (IH O S r v bs W B C). destruct (merge m t v bs) as [x' o].
    now apply coh_box.
  - rewrite wt_struct_eq in W. bprop. rewrite ty_ok_struct in O. bprop. cbn [state_ty] in S. rewrite S in H1.
    destruct r0 as [r0|]; [|discriminate H1]. apply coh_struct in C. destruct C as [-> C].
    rewrite merge_struct. pose proof (struct_run_coh m fs r fs0 bs (fields_tys _ _ H2)) as K.
    destruct (run _ fs0 bs) as [fs' o]. cbn [fst] in *. apply coh_struct. split; [reflexivity|]. apply K; try assumption.
    apply Forall_forall. intros [fi t] I Hs. rewrite Forall_forall in IH. destruct (state_field _ _ _ _ H2 I) as (Ot & _ & St).
    destruct (St Hs) as [_ St']. exact (IH _ I Ot St').
  - destruct (wt_enum_inv _ _ _ _ _ _ W) as (c' & fts & F & -> & Wf & Hst & Hb). cbn [state_ty] in S. subst st.
    destruct r0 as [r0|]; [|discriminate]. apply coh_enum in C. destruct C as [-> C].
    rewrite merge_enum. destruct (uv_deserialize m 32 bs) as [[tag' rest]|e| |] eqn:E; cbn [try]; try (apply coh_enum; auto).
    apply uv_deserialize_suffix in E. destruct E as (p & -> & _). apply bytes_ok_app in B. destruct B as [_ B].
    destruct (find_variant vs tag') as [va|] eqn:F'; [|apply coh_enum; auto].
    pose proof (find_variant_in _ _ _ F') as [Iv Et]. pose proof (variant_fields_ok _ _ _ O Iv) as (_ & Of & _).
    assert (K : forall c1 fs1, wt_fields (snd va) fs1 = true -> set_fields (nested r tag') fs1 = fs1 ->
      coh r (fst (let '(fs', o) := run (struct_step m (fmergers m (snd va))) fs1 rest in (VEnum tag' c1 (Some (nested r tag')) fs', o)))).
    { intros c1 fs1 W1 C1. pose proof (struct_run_coh m (snd va) (nested r tag') fs1 rest (fields_tys _ _ Of)) as K.
      destruct (run _ fs1 rest) as [fs' o]. cbn [fst] in *. apply coh_enum. split; [reflexivity|]. apply K; try assumption.
      rewrite Forall_forall in IH. specialize (IH _ Iv).
      apply Forall_forall. intros [fi t] I Hs. rewrite Forall_forall in IH. destruct (state_field _ _ _ _ Of I) as (Ot & _ & St).
      destruct (St Hs) as [_ St']. exact (IH _ I Ot St'). }
    destruct (tag =? tag') eqn:ET; cbn [try].
    + apply N.eqb_eq in ET. subst tag. rewrite F in F'. injection F' as <-. now apply K.
    + cbn [nested enum_parent bind try rt_log rt_path]. destruct r as [lg pp]. cbn [rt_log rt_path].
      pose proof (ctor_wt true vs tag' va (mkRt lg pp) O F') as Wc. pose proof (set_ctor true vs tag' va (mkRt lg pp) O F') as Cc.
      destruct va as [[tg cc] ts]. cbn in Et. subst tg. cbn [variant_ctor] in *. destruct (wt_enum_inv _ _ _ _ _ _ Wc) as (c2 & f2 & F2 & _ & Wf2 & _).
      rewrite F' in F2. injection F2 as <- <-. apply coh_enum in Cc. destruct Cc as [_ Cc]. now apply K.
  - cbn [ty_ok] in O. bprop. apply coh_list in C. destruct C as [-> C]. cbn [merge wt] in *.
    assert (G : sgood m (fun l => forallb (wt t) l = true /\ set_items r 0 l = l) (list_step m (wty t) (merge m t) (fun i => dflt t (nested r i)))).
    { apply sgood_and; [apply list_step_good; [now apply merge_good|assumption]|].
      intros s b Is Hb Js. unfold list_step.
      pose proof (merge_nested_coh m t (wty t) (nested r (lenN s)) (dflt t (nested r (lenN s))) b (IH H H0) (wt_dflt t H _) Hb (set_dflt t H H0 _)) as K.
      destruct (merge_nested _ _ _ _ _ b) as [x o]. destruct o; cbn [try fst] in *; try exact Js. now apply set_items_snoc. }
    pose proof (run_good m _ _ l bs G (conj W C) B) as R. destruct (run _ l bs) as [l' o]. destruct R as [[_ R] _]. now apply coh_list.
  - cbn [ty_ok] in O. bprop. apply coh_map in C. destruct C as [-> C]. cbn [merge] in *.
    assert (G : sgood m (fun es => wt (TMap k t) (VMap r es) = true /\ set_entries r es = es) (map_step m k (wty t) (merge m t) (fun i => dflt t (nested r i)))).
    { apply sgood_and; [apply map_step_good; [now apply merge_good|assumption]|].
      intros s b Is Hb Js. unfold map_step.
      destruct (uv_deserialize m 32 b) as [[n rest]|e| |] eqn:E; cbn [try]; try exact Js.
      apply uv_deserialize_suffix in E. destruct E as (p & -> & _). apply bytes_ok_app in Hb. destruct Hb as [_ Hb].
      destruct (parse_tag n) as [[fn w]|e| |]; cbn [try]; try exact Js.
      destruct (validate_field_number fn) as [u|e| |]; cbn [try]; try exact Js.
      destruct (key_of_fn k fn) as [u'|e| |]; cbn [try]; try exact Js.
      destruct (assoc fn s) as [x|] eqn:A.
      - pose proof (set_entries_assoc _ _ _ _ Js A) as Cx. destruct (assoc_wt _ _ _ _ _ _ Is A) as [_ Wx].
        pose proof (merge_nested_coh m t (wty t) (nested r fn) x rest (IH H H0) Wx Hb Cx) as K.
        destruct (merge_nested _ _ _ _ _ rest) as [x' o]. cbn [fst] in *. now apply set_entries_im.
      - pose proof (merge_nested_coh m t (wty t) (nested r fn) (dflt t (nested r fn)) rest (IH H H0) (wt_dflt t H _) Hb (set_dflt t H H0 _)) as K.
        destruct (merge_nested _ _ _ _ _ rest) as [x' o]. destruct o; cbn [try fst] in *; try exact Js. now apply set_entries_im. }
    pose proof (run_good m _ _ es bs G (conj W C) B) as R. destruct (run _ es bs) as [l' o]. destruct R as [[_ R] _]. now apply coh_map.
Qed.
