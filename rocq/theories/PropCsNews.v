(** C94: which lines a C# client of another version writes. *)
From Verif Require Import Base Varint WireFmt Utf8 Types Ser Spec De Log State StateSpec Coll ValInd VarintProofs WireProofs SerProofs TypeProofs EqProofs DeProofs RoundTrip MergeProofs NormProofs
  LogProofs TreeProofs CohProofs HandleProofs OpProofs ExecProofs ReplayProofs FrameProofs KeepProofs SimProofs Examples PropLog PropReplay PropState CSharp CSharpProofs CSharpSim CSharpSafe
  EvoProofs CSharpEvo CSharpEvoSim CsWarn PropCsWarn CsNews PropCSharp PropClient.
Local Open Scope list_scope.

Fixpoint news_fields (fs : list (finfo * val)) (cfs : list (N * (bool * cty))) (p : list N) : list warning :=
  match fs with
  | [] => []
  | (fi, x) :: fs' =>
      (if left_out x (enc x) then []
       else match assoc (f_tag fi) cfs with
            | Some (g, c) => if wtype_eqb (vwty x) (c_field_wty g c) then news x c (p ++ [f_tag fi]) else [(c_field_wty g c, p ++ [f_tag fi], vwty x)]
            | None => []
            end) ++ news_fields fs' cfs p
  end.
Fixpoint news_items (i : N) (l : list val) (c : cty) (p : list N) : list warning :=
  match l with [] => [] | x :: l' => news x c (p ++ [i]) ++ news_items (i + 1) l' c p end.
Fixpoint news_entries (es : list (N * val)) (c : cty) (p : list N) : list warning :=
  match es with [] => [] | (k, x) :: es' => news x c (p ++ [k]) ++ news_entries es' c p end.

Definition CN (t : ty) : Prop := forall lax c v rest p, ty_ok t = true -> evo lax t c = true -> cls_ok c = true -> cgen c = true -> wt t v = true -> c_carried v = true ->
  lenN (enc v) < 2 ^ 31 -> (wty t = Sized -> rest = []) -> warns c p (enc v ++ rest) = news v c p.

Lemma value_news lax t c v rest p : CN t -> ty_ok t = true -> evo lax t c = true -> cls_ok c = true -> cgen c = true -> wt t v = true -> c_carried v = true ->
  lenN (enc v) < 2 ^ 31 -> value_warns c (warns c p) (delimited v (enc v) ++ rest) = news v c p.
Proof.
  intros H O C K G W S L. unfold value_warns, delimited. rewrite (wt_vwty t v W), (evo_wty lax t c C). destruct (wty t) eqn:E.
  - apply (H lax); try assumption. congruence.
  - rewrite <- app_assoc, c_nested_spec by exact L. pose proof (H lax c v [] p O C K G W S L (fun _ => eq_refl)) as D. now rewrite app_nil_r in D.
Qed.
Lemma loop_news {S} fuel (step : S -> bytes -> res (S * bytes)) (ct : S -> warner) s a b s' : a <> [] -> (length (a ++ b) <= fuel)%nat ->
  step s (a ++ b) = Ok (s', b) -> exists fuel', (length b <= fuel')%nat /\ loop_warns fuel step ct s (a ++ b) = ct s (a ++ b) ++ loop_warns fuel' step ct s' b.
Proof.
  intros H L E. destruct a as [|x a]; [congruence|]. cbn [app length] in L. destruct fuel as [|fuel]; [lia|]. rewrite app_length in L.
  exists fuel. split; [lia|]. cbn [app loop_warns] in *. now rewrite E.
Qed.
Lemma items_news lax t c p : CN t -> ty_ok t = true -> evo lax t c = true -> cls_ok c = true -> cgen c = true -> forall l pre fuel,
  forallb (wt t) l = true -> forallb c_carried l = true -> lenN (flat_map (fun x => delimited x (enc x)) l) < 2 ^ 31 ->
  (length (flat_map (fun x => delimited x (enc x)) l) <= fuel)%nat ->
  loop_warns fuel (c_item_step c (c_deser c)) (item_warns c (warns c) p) pre (flat_map (fun x => delimited x (enc x)) l) = news_items (lenN pre) l c p.
Proof.
  intros H O C K G. induction l as [|x l IH]; intros pre fuel W S L F; [now destruct fuel|].
  rewrite enc_items_cons in *. rewrite lenN_app in L. cbn [forallb] in *. bprop.
  assert (Lx : lenN (enc x) < 2 ^ 31) by (pose proof (delimited_len x (enc x)); lia).
  destruct (value_evo lax t c x (flat_map (fun x => delimited x (enc x)) l) (c_decode_evo t) O C K G) as (y & E & _); try assumption.
  destruct (loop_news fuel (c_item_step c (c_deser c)) (item_warns c (warns c) p) pre (delimited x (enc x)) (flat_map (fun x => delimited x (enc x)) l) (pre ++ [y])) as (f' & F' & E').
  - now apply (delimited_nonempty t).
  - exact F.
  - unfold c_item_step. now rewrite E.
  - rewrite E'. cbn [news_items]. f_equal; [now apply (value_news lax t)|]. rewrite IH by (try assumption; lia). f_equal. unfold lenN. rewrite app_length. cbn [length]. lia.
Qed.
Lemma entries_news lax t c p : CN t -> ty_ok t = true -> evo lax t c = true -> cls_ok c = true -> cgen c = true -> forall es pre fuel,
  Forall (fun e => wt t (snd e) = true) es -> forallb (fun e : N * val => let '(k, x) := e in (k <=? FIELD_NUMBER_MAX) && c_carried x) es = true ->
  lenN (enc_entries es) < 2 ^ 31 -> (length (enc_entries es) <= fuel)%nat ->
  loop_warns fuel (c_map_step c (c_deser c)) (entry_of_map_warns c (warns c) p) pre (enc_entries es) = news_entries es c p.
Proof.
  intros H O C K G. induction es as [|[k x] es IH]; intros pre fuel W S L F; [now destruct fuel|].
  change (enc_entries ((k, x) :: es)) with (enc_tagged k x (enc x) ++ enc_entries es) in *. rewrite lenN_app in L.
  inversion W as [|? ? W1 W2]; subst. cbn [forallb snd] in *. bprop. unfold enc_tagged in L. rewrite lenN_app in L.
  assert (Lx : lenN (enc x) < 2 ^ 31) by (pose proof (delimited_len x (enc x)); lia).
  destruct (value_evo lax t c x (enc_entries es) (c_decode_evo t) O C K G) as (y & E & _); try assumption.
  destruct (loop_news fuel (c_map_step c (c_deser c)) (entry_of_map_warns c (warns c) p) pre (enc_tagged k x (enc x)) (enc_entries es) (im_insert k y pre)) as (f' & F' & E').
  - apply enc_tagged_nonempty.
  - exact F.
  - unfold c_map_step, enc_tagged. rewrite <- app_assoc, c_key_num by lia. cbn [bind]. rewrite E. reflexivity.
  - rewrite E'. cbn [news_entries]. f_equal; [|apply IH; try assumption; lia].
    unfold entry_of_map_warns, enc_tagged. rewrite <- app_assoc, c_key_num by lia. now apply (value_news lax t).
Qed.
Lemma fields_news lax cfs p : cls_ok_fields cfs = true -> cgen_fields cfs = true -> forall st fts fs xs fuel, Forall (fun p => CN (snd p)) fts -> fields_ok st fts = true ->
  evo_fields lax fts cfs = true -> wt_fields fts fs = true ->
  forallb (fun p : finfo * val => let '(_, x) := p in c_carried x) fs = true -> lenN (enc_fields fs) < 2 ^ 31 -> (length (enc_fields fs) <= fuel)%nat ->
  loop_warns fuel (c_struct_step (c_readers cfs)) (fun _ => field_warns (warners p cfs) p) xs (enc_fields fs) = news_fields fs cfs p.
Proof.
  intros K G st. induction fts as [|[fi t] fts IH]; intros [|[fj x] fs] xs fuel HC O E W S L F; try discriminate W; [now destruct fuel|].
  inversion HC as [|? ? H1 H2]; subst. cbn [snd] in H1. unfold evo_fields, fields_ok in *. cbn [wt_fields forallb snd] in *. bprop.
  match goal with X : finfo_eqb _ _ = true |- _ => apply finfo_eqb_eq in X; subst fj end.
  rewrite enc_fields_cons in *. cbn [fst snd] in *. rewrite lenN_app in L. cbn [news_fields].
  destruct (left_out x (enc x)) eqn:Lo.
  { cbn [app] in *. apply IH; assumption. }
  pose proof (delimited_len x (enc x)) as Dl. assert (Ll : lenN (enc x) < 2 ^ 31) by (unfold enc_tagged in L; rewrite lenN_app in L; lia).
  assert (St : exists xs', c_struct_step (c_readers cfs) xs (enc_tagged (f_tag fi) x (enc x) ++ enc_fields fs) = Ok (xs', enc_fields fs) /\
     field_warns (warners p cfs) p (enc_tagged (f_tag fi) x (enc x) ++ enc_fields fs) =
       match assoc (f_tag fi) cfs with
       | Some (g, c) => if wtype_eqb (vwty x) (c_field_wty g c) then news x c (p ++ [f_tag fi]) else [(c_field_wty g c, p ++ [f_tag fi], vwty x)]
       | None => []
       end).
  { destruct (match assoc (f_tag fi) cfs with Some (g, c) => wtype_eqb (vwty x) (c_field_wty g c) | None => false end) eqn:Kn.
    - destruct (assoc (f_tag fi) cfs) as [[g c]|] eqn:A; [|discriminate Kn]. rewrite Kn.
      destruct (cls_ok_assoc cfs _ g c K A) as [Kc Wc]. pose proof Kn as Kn'. rewrite (wt_vwty t x) in Kn' by assumption.
      match goal with X : (if wtype_eqb _ _ then _ else _) = true |- _ => rewrite Kn' in X; rename X into Ev end.
      assert (Gc : cgen c = true).
      { unfold cgen_fields in G. rewrite forallb_forall in G. pose proof (G _ (assoc_in _ _ _ A)) as X. cbn in X. now bprop. }
      unfold enc_tagged. rewrite <- app_assoc. unfold c_struct_step, field_warns. rewrite c_key_num by lia. cbn [bind]. rewrite assoc_readers, assoc_warners, A, Kn.
      unfold delimited in *. rewrite (wt_vwty t x) in * by assumption. destruct (wty t) eqn:Wt; cbn [bind].
      + destruct (c_decode_evo t lax c x (enc_fields fs)) as (y & Ey & _); try assumption; [congruence|].
        rewrite Ey. cbn [bind]. eexists. split; [reflexivity|]. apply (H1 lax); try assumption; congruence.
      + rewrite <- app_assoc, c_nested_spec by lia. cbn [bind].
        destruct (c_decode_evo t lax c x []) as (y & Ey & _); try assumption; [reflexivity|]. rewrite app_nil_r in Ey.
        rewrite Ey. cbn [bind]. eexists. split; [reflexivity|]. rewrite <- (app_nil_r (enc x)) at 1. apply (H1 lax); try assumption; reflexivity.
    - exists xs. split.
      + apply step_foreign; [lia|exact Ll|]. intros g c A. rewrite A in Kn. intros Q. rewrite Q in Kn. now destruct (vwty x).
      + unfold field_warns, enc_tagged. rewrite <- app_assoc, c_key_num, assoc_warners by lia. unfold delimited. clear - Kn Ll. destruct (vwty x).
        * destruct (assoc (f_tag fi) cfs) as [[g c]|]; [|reflexivity]. now rewrite Kn.
        * rewrite <- app_assoc, c_nested_spec by exact Ll. destruct (assoc (f_tag fi) cfs) as [[g c]|]; [|reflexivity]. now rewrite Kn. }
  destruct St as (xs' & St & Fw).
  destruct (loop_news fuel _ (fun _ => field_warns (warners p cfs) p) _ _ _ _ (enc_tagged_nonempty (f_tag fi) x (enc x)) F St) as (f' & F' & E').
  rewrite E', Fw. f_equal. apply IH; try assumption. lia.
Qed.
Lemma struct_news lax st fts fs cfs p : Forall (fun p => CN (snd p)) fts -> fields_ok st fts = true ->
  evo_fields lax fts cfs = true -> cls_ok_fields cfs = true -> cgen_fields cfs = true -> wt_fields fts fs = true ->
  forallb (fun p : finfo * val => let '(_, x) := p in c_carried x) fs = true -> lenN (enc_fields fs) < 2 ^ 31 -> warns (CStruct cfs) p (enc_fields fs) = news_fields fs cfs p.
Proof.
  intros H O C K G W S L. rewrite warns_struct. destruct (new_fields_ok' cfs G K) as (ys & ->). unfold run_warns. now apply (fields_news lax cfs p K G st fts).
Qed.
Lemma enc_news t : CN t.
Proof.
  induction t as [k| | | |t IH|t IH|n t IH|ts IH|kt vt IHk IHt|t IH|si fts IH|st vs IH|t IH|k t IH] using ty_ind';
    intros lax c v rest p O C K G W S L R; destruct v as [k' z|b|s|s|o|l|l|l|l|v|cc r fs|tag cc r fs|r l|r es]; try discriminate W;
    try (destruct c; discriminate C || reflexivity).
  - destruct c; try discriminate C. rewrite (R eq_refl), app_nil_r. destruct o as [x|]; [|reflexivity].
    cbn [ty_ok evo cls_ok cgen wt c_carried enc warns news] in *. pose proof (delimited_nonempty t x W) as Nn.
    pose proof (value_news lax t c x [] (p ++ [0]) IH O C K G W S) as E. rewrite app_nil_r in E.
    destruct (delimited x (enc x)) as [|b bs] eqn:D; [congruence|]. apply E. rewrite <- D in L. pose proof (delimited_len x (enc x)). lia.
  - destruct c; try discriminate C. rewrite (R eq_refl), app_nil_r. cbn [ty_ok evo cls_ok cgen wt c_carried enc warns] in *. now apply (items_news lax t c p).
  - destruct c; try discriminate C. rewrite (R eq_refl), app_nil_r. cbn [ty_ok evo cls_ok cgen wt c_carried enc warns] in *. bprop. now apply (items_news lax t c p).
  - cbn [ty_ok wt c_carried enc wty evo news] in *. exact (IH lax c v rest p O C K G W S L R).
  - destruct c as [| | | | | | | |cfs|]; try discriminate C. rewrite (R eq_refl), app_nil_r. rewrite ty_ok_struct in O. rewrite wt_struct_eq in W. bprop. rewrite evo_struct in C.
    rewrite enc_struct in *. now apply (struct_news lax (s_state si) fts).
  - destruct c as [| | | | | | | | |cvs]; try discriminate C. rewrite (R eq_refl), app_nil_r.
    destruct (c_new_tot (CEnum cvs) G K) as (d & Nd). rewrite evo_enum in C.
    destruct (wt_enum_inv _ _ _ _ _ _ W) as (c' & fts & V & -> & Wf & _).
    pose proof (find_variant_in _ _ _ V) as [I _]. pose proof (variant_fields_ok _ _ _ O I) as (Ht & Of & Nt). cbn [fst snd] in Of, Nt, Ht.
    rewrite Forall_forall in IH. specialize (IH _ I). cbn [snd] in IH. rewrite enc_enum in *. rewrite lenN_app in L.
    rewrite forallb_forall in C. specialize (C _ I). cbn [fst snd] in C.
    assert (Ti : c_int U32 (leb128 tag ++ enc_fields fs) = Ok (Z.of_N tag, enc_fields fs)).
    { assert (Rg : in_range U32 (Z.of_N tag) = true).
      { unfold in_range. cbn [isigned ibits]. unfold FIELD_NUMBER_MAX in Ht. zpow. lia. }
      pose proof (c_int_spec U32 (Z.of_N tag) (enc_fields fs) Rg) as X. unfold wire_num in X. cbn [isigned] in X. rewrite N2Z.id in X. rewrite X.
      unfold cint_safe. now rewrite Rg. }
    rewrite warns_enum, Nd, Ti, N2Z.id. cbn [news]. destruct (assoc tag cvs) as [cfs|] eqn:A; [|reflexivity].
    cbn [cgen cls_ok] in G, K. apply andb_prop in G. destruct G as [_ G].
    apply (struct_news lax st fts fs cfs (p ++ [tag])); try assumption; [|exact (cgen_assoc cvs _ _ G A)|lia].
    rewrite forallb_forall in K. exact (K _ (assoc_in _ _ _ A)).
  - destruct c; try discriminate C. rewrite (R eq_refl), app_nil_r. cbn [ty_ok evo cls_ok cgen wt c_carried enc warns] in *. bprop. now apply (items_news lax t c p).
  - destruct c; try discriminate C. rewrite (R eq_refl), app_nil_r. cbn [ty_ok evo cls_ok cgen wt c_carried enc warns] in *. bprop.
    change (flat_map (fun e : N * val => let '(k, x) := e in enc_tagged k x (enc x)) es) with (enc_entries es) in *.
    apply (entries_news lax t c p); try assumption; [|lia].
    clear S. match goal with H : forallb _ es = true |- _ => clear - H; apply forallb_Forall in H; eapply Forall_impl; [|exact H] end. intros [k0 x] X. cbn [fst snd] in *. apply andb_true_iff in X. now destruct X.
Qed.

(** A client with classes of another version, also with changed wire types ([lax], as in C54). *)
Theorem c94_exact : forall lax t t' c v p, ty_ok t = true -> ty_ok t' = true -> cls t' c = true -> cls_ok c = true -> evo lax t c = true ->
  wt t v = true -> c_carried v = true -> lenN (enc v) < 2 ^ 31 -> warns c p (enc v) = news v c p.
Proof. intros lax t t' c v p O O' C' K C W S L. rewrite <- (app_nil_r (enc v)). now apply (enc_news t lax); try assumption; [exact (cls_cgen t' c O' C')|]. Qed.
Print Assumptions c94_exact.

Lemma fields_same cfs : forall fts fs p, Forall (fun p => forall c v q, evo false (snd p) c = true -> wt (snd p) v = true -> news v c q = []) fts ->
  evo_fields false fts cfs = true -> wt_fields fts fs = true -> news_fields fs cfs p = [].
Proof.
  induction fts as [|[fi t] fts IH]; intros [|[fj x] fs] p H E W; try discriminate W; [reflexivity|]. inversion H as [|? ? H1 H2]; subst. cbn [snd] in H1.
  unfold evo_fields in *. cbn [wt_fields forallb news_fields] in *. bprop.
  match goal with X : finfo_eqb _ _ = true |- _ => apply finfo_eqb_eq in X; subst fj end. rewrite IH by assumption. rewrite app_nil_r.
  destruct (left_out x (enc x)); [reflexivity|]. rewrite (wt_vwty t x) by assumption. destruct (assoc (f_tag fi) cfs) as [[g c]|]; [|reflexivity].
  destruct (wtype_eqb (wty t) (c_field_wty g c)); [|discriminate]. now apply H1.
Qed.
Lemma news_same t : forall c v p, evo false t c = true -> wt t v = true -> news v c p = [].
Proof.
  induction t as [k| | | |t IH|t IH|n t IH|ts IH|kt vt IHk IHt|t IH|si fts IH|st vs IH|t IH|k t IH] using ty_ind';
    intros c v p C W; destruct v as [k' z|b|s|s|o|l|l|l|l|v|cc r fs|tag cc r fs|r l|r es]; try discriminate W; try (destruct c; discriminate C || reflexivity).
  - destruct c; try discriminate C. destruct o as [x|]; [|reflexivity]. exact (IH c x (p ++ [0]) C W).
  - destruct c as [| | | | |c| | | |]; try discriminate C. cbn [wt evo] in *. change (news_items 0 l c p = []). generalize 0.
    induction l as [|x l IHl]; intros i; [reflexivity|]. cbn [forallb news_items] in *. bprop. now rewrite IH, IHl.
  - destruct c as [| | | | |c| | | |]; try discriminate C. cbn [wt evo] in *. bprop. change (news_items 0 l c p = []). generalize 0.
    match goal with X : forallb (wt t) l = true |- _ => clear - X C IH; rename X into W end. revert W.
    induction l as [|x l IHl]; intros W i; [reflexivity|]. cbn [forallb news_items] in *. bprop. now rewrite IH, IHl.
  - now apply (IH c v p).
  - destruct c as [| | | | | | | |cfs|]; try discriminate C. rewrite wt_struct_eq in W. bprop. now apply (fields_same cfs fts fs p).
  - destruct c as [| | | | | | | | |cvs]; try discriminate C. rewrite evo_enum in C. destruct (wt_enum_inv _ _ _ _ _ _ W) as (c' & fts & V & -> & Wf & _).
    cbn [news]. destruct (assoc tag cvs) as [cfs|] eqn:A; [|reflexivity]. pose proof (evo_find vs cvs tag _ cfs C V A) as E. cbn [snd] in E.
    pose proof (find_variant_in _ _ _ V) as [I _]. rewrite Forall_forall in IH. now apply (fields_same cfs fts fs (p ++ [tag]) (IH _ I)).
  - destruct c as [| | | | | |c| | |]; try discriminate C. cbn [wt evo] in *. change (news_items 0 l c p = []). generalize 0.
    induction l as [|x l IHl]; intros i; [reflexivity|]. cbn [forallb news_items] in *. bprop. now rewrite IH, IHl.
  - destruct c as [| | | | | | |c| |]; try discriminate C. apply wt_map_in in W. destruct W as [W _]. cbn [evo] in C. change (news_entries es c p = []).
    induction es as [|[k' x] es IHl]; [reflexivity|]. cbn [news_entries]. rewrite IHl by (intros i y I; apply (W i y); now right).
    rewrite IH; [reflexivity|exact C|]. exact (proj2 (W k' x (or_introl eq_refl))).
Qed.

(** Without changed wire types there is nothing to write, whatever fields and variants were added, removed or moved. *)
Theorem c94_silent : forall t t' c v p, ty_ok t = true -> ty_ok t' = true -> cls t' c = true -> cls_ok c = true -> evo false t c = true ->
  wt t v = true -> c_carried v = true -> lenN (enc v) < 2 ^ 31 -> warns c p (enc v) = [].
Proof. intros t t' c v p O O' C' K C W S L. rewrite (c94_exact false t t') by assumption. now apply (news_same t). Qed.
Print Assumptions c94_silent.

Lemma cgen_field cfs tag g c : cgen_fields cfs = true -> assoc tag cfs = Some (g, c) -> cgen c = true.
Proof. intros G A. unfold cgen_fields in G. rewrite forallb_forall in G. pose proof (G _ (assoc_in _ _ _ A)) as X. cbn in X. now bprop. Qed.
Lemma evo_field cfs fts fn fi t g c : evo_fields false fts cfs = true -> find_field fn fts = Some (fi, t) -> assoc fn cfs = Some (g, c) -> evo false t c = true.
Proof.
  intros E F A. assert (T : f_tag fi = fn).
  { clear - F. induction fts as [|[fj z] fts IH]; [discriminate F|]. cbn in F. destruct (fn =? f_tag fj) eqn:Q; [injection F as <- <-; now apply N.eqb_eq in Q|auto]. }
  unfold evo_fields in E. rewrite forallb_forall in E. pose proof (E _ (find_field_in _ _ _ F)) as X. cbn beta iota in X. rewrite T, A in X. now destruct (wtype_eqb _ _).
Qed.
Lemma handle_news t e : typed t e -> forall c w p, ty_ok t = true -> evo false t c = true -> cls_ok c = true -> cgen c = true -> lenN (entry_bytes e) < 2 ^ 31 -> handle_warns c e w p = [].
Proof.
  assert (Arg : forall t x c p, arg_ok t x -> ty_ok t = true -> evo false t c = true -> cls_ok c = true -> cgen c = true -> lenN (enc x) < 2 ^ 31 -> warns c p (enc x) = []).
  { intros t0 x c p (Wx & Lx & _) O C K G B. apply lossless_and in Lx. destruct Lx as (L1 & L2 & _).
    pose proof (enc_news t0 false c x [] p O C K G Wx (carried x L1 L2) B (fun _ => eq_refl)) as E. rewrite app_nil_r in E. rewrite E. now apply (news_same t0). }
  assert (Fld : forall fts cfs fn fi t e w p, evo_fields false fts cfs = true -> cls_ok_fields cfs = true -> cgen_fields cfs = true -> find_field fn fts = Some (fi, t) ->
    (forall c, evo false t c = true -> cls_ok c = true -> cgen c = true -> forall w p, handle_warns c e w p = []) -> handle_warns (CStruct cfs) (rel [fn] e) w p = []).
  { clear. intros fts cfs fn fi t e w p C K G F H. destruct (flat e) eqn:Fl.
    - destruct e as [[|n q] bs| | |]; try discriminate Fl. cbn [rel app handle_warns removelast last warns_at]. unfold replace_warns. destruct w; try reflexivity.
      destruct (assoc fn cfs) as [[g c]|] eqn:A; [|reflexivity]. destruct (cls_ok_assoc _ _ _ _ K A) as [Kc _].
      apply (H c (evo_field _ _ _ _ _ _ _ C F A) Kc (cgen_field _ _ _ _ G A) (CVBool false)).
    - rewrite warns_rel by exact Fl. destruct w as [| | | | | | | |xs|]; try reflexivity. cbn [c_child].
      destruct (assoc fn cfs) as [[g c]|] eqn:A; [|reflexivity]. destruct (cls_ok_assoc _ _ _ _ K A) as [Kc _]. destruct (c_state c); [|reflexivity].
      destruct (assoc fn xs) as [y|]; [|reflexivity]. apply H; [exact (evo_field _ _ _ _ _ _ _ C F A)|exact Kc|exact (cgen_field _ _ _ _ G A)]. }
  induction 1 as [t x A|t x A|t|kk t k|t e H IH|si fts fn fi t e F Fs H IH|st vs tag va fn fi t e V F Fs H IH|t i e H IH|kk t k e H IH];
    intros c w p O C K G B; try reflexivity.
  - cbn [handle_warns entry_bytes] in *. now apply (Arg t).
  - destruct c as [| | | | | |c| | |]; try discriminate C. cbn [handle_warns warns_at entry_bytes evo cls_ok cgen ty_ok] in *. bprop.
    unfold push_warns. destruct w; try reflexivity. now apply (Arg t).
  - now apply (IH c).
  - destruct c as [| | | | | | | |cfs|]; try discriminate C. pose proof O as O'. rewrite ty_ok_struct in O'. bprop. rewrite evo_struct in C. apply (Fld fts cfs fn fi t); try assumption.
    intros c Cc Kc Gc w' p'. apply (IH c); try assumption; [|now destruct e].
    match goal with X : fields_ok _ _ = true |- _ => exact (proj1 (fields_ok_in _ _ _ _ X (find_field_in _ _ _ F))) end.
  - destruct c as [| | | | | | | | |cvs]; try discriminate C. rewrite evo_enum in C.
    pose proof (find_variant_in _ _ _ V) as [I _]. pose proof (variant_fields_ok _ _ _ O I) as (_ & Of & _).
    change [tag; fn] with ([tag] ++ [fn]). rewrite rel_app. rewrite warns_rel by now destruct e. destruct w as [| | | | | | | | |tag0 xs]; try reflexivity. cbn [c_child].
    destruct (tag =? tag0); [|reflexivity]. destruct (assoc tag cvs) as [cfs|] eqn:Av; [|reflexivity].
    cbn [cgen cls_ok] in G, K. apply andb_prop in G. destruct G as [_ G].
    apply (Fld (snd va) cfs fn fi t); try assumption; [exact (evo_find vs cvs tag va cfs C V Av)| |exact (cgen_assoc cvs _ _ G Av)|].
    + rewrite forallb_forall in K. exact (K _ (assoc_in _ _ _ Av)).
    + intros c Cc Kc Gc w' p'. apply (IH c); try assumption; [|now destruct e]. exact (proj1 (fields_ok_in _ _ _ _ Of (find_field_in _ _ _ F))).
  - destruct c as [| | | | | |c| | |]; try discriminate C. cbn [ty_ok evo cls_ok cgen] in *. bprop. assert (B' : lenN (entry_bytes e) < 2 ^ 31) by now destruct e.
    destruct (flat e) eqn:Fl.
    + destruct e as [[|n q] bs| | |]; try discriminate Fl. cbn [rel app handle_warns removelast last warns_at]. unfold replace_warns. destruct w; try reflexivity.
      destruct (lenN l <=? i); [reflexivity|]. now apply (IH c (CVBool false)).
    + rewrite warns_rel by exact Fl. destruct w; try reflexivity. cbn [c_child]. destruct (c_state c); [|reflexivity].
      destruct (nth_error l (N.to_nat i)) as [y|]; [|reflexivity]. now apply IH.
  - destruct c as [| | | | | | |c| |]; try discriminate C. cbn [ty_ok evo cls_ok cgen] in *. bprop. assert (B' : lenN (entry_bytes e) < 2 ^ 31) by now destruct e.
    destruct (flat e) eqn:Fl.
    + destruct e as [[|n q] bs| | |]; try discriminate Fl. cbn [rel app handle_warns removelast last warns_at]. unfold replace_warns. destruct w; try reflexivity.
      now apply (IH c (CVBool false)).
    + rewrite warns_rel by exact Fl. destruct w as [| | | | | | |es| |]; try reflexivity. cbn [c_child]. destruct (c_state c); [|reflexivity].
      destruct (assoc k es) as [y|]; [|reflexivity]. now apply IH.
Qed.
Lemma replay_news t c p es : ty_ok t = true -> evo false t c = true -> cls_ok c = true -> cgen c = true -> Forall (typed t) es -> Forall cfits es ->
  forall w, replay_warns c w p (concat (map entry_wire es)) = [].
Proof.
  intros O C K G T F w. unfold replay_warns. enough (H : forall f w, replay_loop_warns f c w p (concat (map entry_wire es)) = []) by apply H. clear w.
  induction T as [|e es Te _ IH]; intros f w; [now destruct f|]. inversion F as [|? ? [Oe L] F2]; subst. specialize (IH F2). cbn [map concat].
  assert (Lb : lenN (enc (entry_val e)) < 2 ^ 31) by (unfold entry_wire in L; cbv zeta in L; rewrite lenN_app in L; lia).
  assert (Ne : entry_wire e ++ concat (map entry_wire es) <> []).
  { unfold entry_wire. cbv zeta. pose proof (leb128_nonempty (lenN (enc (entry_val e)))). destruct (leb128 _); [congruence|discriminate]. }
  assert (Nx : c_nested (entry_wire e ++ concat (map entry_wire es)) = Ok (enc (entry_val e), concat (map entry_wire es))).
  { unfold entry_wire. cbv zeta. now rewrite <- app_assoc, c_nested_spec by exact Lb. }
  destruct (entry_wire e ++ concat (map entry_wire es)) as [|b bs] eqn:B; [congruence|]. destruct f as [|f]; [reflexivity|]. cbn [replay_loop_warns].
  destruct (c_read_entry e Oe Lb) as (x & D & X). unfold entry_warns, c_replay_step. rewrite Nx. cbn [bind try]. rewrite D. cbn [bind]. rewrite X. cbn [bind try].
  pose proof (lossless_entry e Oe) as Le. apply lossless_and in Le. destruct Le as (L1 & L2 & _).
  rewrite (c93_silent tEntry cEntry (entry_val e) [] eq_refl eq_refl eq_refl (wt_entry e Oe) (carried _ L1 L2) Lb).
  rewrite (handle_news t e Te c w p O C K G) by (pose proof (entry_bytes_len e); lia). cbn [app].
  destruct (c_handle c e w) as [w'|y| |]; cbn [bind try]; try reflexivity. apply IH.
Qed.

(** Nor is there about a log. *)
Theorem c94_replay : forall m m' t t' c lg v cs w p,
  ty_ok t = true -> state_ty t = true -> ty_ok t' = true -> cls t' c = true -> cls_ok c = true -> evo false t c = true ->
  wt t v = true -> placed (mkRt lg Root) t v -> legal m t v cs ->
  exists v' evs rets b, exec m t v cs = (v', (evs, Ok rets)) /\ feeds m lg (rl_new []) evs = Ok (mkRL b 0) /\
    (Forall cfits (map fst b) -> exists bs b', buf_bytes m' b = Ok (bs, b') /\ replay_warns c w p bs = []).
Proof.
  intros m m' t t' c lg v cs w p O S O' C' K C W Pl Lg. apply placed_coh in Pl; try assumption.
  destruct (exec_effect m t (mkRt lg Root) O S cs v W Pl Lg) as (v' & evs & rets & es & E & W' & Co & Len & L & T & Rp).
  exists v', evs, rets, (bufd es). split; [exact E|].
  change (collect_values (rt_path (mkRt lg Root))) with (@nil N) in L. rewrite map_rel_nil in L. split; [exact (L [])|].
  rewrite map_fst_bufd. intros F.
  assert (Ff : Forall fits es) by (eapply Forall_impl; [|exact F]; intros e [X Y]; split; [exact X|change (2 ^ 32) with (2 * 2 ^ 31); lia]).
  destruct (buf_bytes_spec m' (bufd es)) as (b' & Eb & _); [now rewrite map_fst_bufd|].
  exists (concat (map entry_wire es)), b'. split; [now rewrite Eb, map_fst_bufd|]. apply (replay_news t); try assumption. exact (cls_cgen t' c O' C').
Qed.
Print Assumptions c94_replay.

(** But a changed wire type goes unnoticed in a log: the field itself is updated with what is decoded as the other type (C54), and
    nothing is written. *)
Theorem c94_log_refuted : exists t t' c v e v' w w', ty_ok t = true /\ state_ty t = true /\ ty_ok t' = true /\ cls t' c = true /\ cls_ok c = true /\ evo true t c = true /\
  wt t v = true /\ handle_entry Debug t e v = (v', Ok tt) /\ news v' c [] = [(Varint, [0], Sized)] /\
  c_handle c e w = Ok w' /\ w' <> w /\ handle_warns c e w [] = [].
Proof.
  exists (TStruct (mkS true true) [(fst_ 0, TList (TInt U8))]), (TStruct (mkS true true) [(fst_ 0, TInt U8)]), (CStruct [(0, (false, CInt U8))]),
    (VStruct true (Some rt_default) [(fst_ 0, VList (nested rt_default 0) [])]), (EUpdate [0] [7]),
    (VStruct true (Some rt_default) [(fst_ 0, VList (nested rt_default 0) [VInt U8 7])]), (CVStruct [(0, CVInt 0)]), (CVStruct [(0, CVInt 7)]).
  repeat (split; [first [vm_compute; reflexivity|discriminate]|]). reflexivity.
Qed.
Print Assumptions c94_log_refuted.

(** In the client's version, points have a number for the server's list and a string for one of its numbers, a field more and a field less. *)
Definition tPointL : ty := TStruct (mkS true true) [(fst_ 0, TList (TInt U8)); (fst_ 1, TInt I32); (fst_ 2, TInt I32)].
Definition tGameL : ty := TStruct (mkS true true) [(fst_ 0, TList tPointL); (fst_ 1, TMap K16 tPointL)].
Definition vPointL (l : list val) (y : Z) : val := VStruct true (Some rt_default) [(fst_ 0, VList rt_default l); (fst_ 1, VInt I32 y); (fst_ 2, VInt I32 1)].
Definition cPointL : cty := CStruct [(3, (false, CInt U8)); (1, (false, CStr)); (0, (false, CInt I32))].
Definition cGameL : cty := CStruct [(9, (false, CList cPointL)); (1, (false, CMap cPointL)); (0, (false, CList cPointL))].
Example c94_case :
  let v := VStruct true (Some rt_default) [(fst_ 0, VList rt_default [vPointL [] 0; vPointL [VInt U8 1] 5]); (fst_ 1, VMap rt_default [(6, vPointL [VInt U8 1] 0)])] in
  ty_ok tGameL = true /\ evo true tGameL cGameL = true /\ evo false tGameL cGameL = false /\ wt tGameL v = true /\ cls_ok cGameL = true /\ cgen cGameL = true /\
  warns cGameL [] (enc v) = [(Varint, [0; 1; 0], Sized); (Sized, [0; 1; 1], Varint); (Varint, [1; 6; 0], Sized)] /\
  news v cGameL [] = [(Varint, [0; 1; 0], Sized); (Sized, [0; 1; 1], Varint); (Varint, [1; 6; 0], Sized)].
Proof. vm_compute. repeat split. Qed.
