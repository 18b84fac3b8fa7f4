(** Proofs for C55: the same version, and a newer version and back. *)
From Verif Require Import Base Varint WireFmt Utf8 Types Ser Spec De Log State ValInd VarintProofs WireProofs SerProofs TypeProofs EqProofs DeProofs RoundTrip MergeProofs NormProofs LogProofs TreeProofs CohProofs HandleProofs OpProofs ExecProofs Evo EvoProofs.

(** ** The same version *)

Definition vself (t : ty) : Prop := forall r v, ty_ok t = true -> wt t v = true -> view t r v = norm r v.
Lemma view_fields_self r st fts fs : Forall (fun p => vself (snd p)) fts -> fields_ok st fts = true -> nodupb (map (fun p : finfo * ty => f_tag (fst p)) fts) = true ->
  wt_fields fts fs = true -> view_fields r fts fs = norm_fields r fs.
Proof.
  intros H O Nd W. assert (Nd' : nodupb (map (fun p : finfo * val => f_tag (fst p)) fs) = true).
  { clear - Nd W. replace (map (fun p : finfo * val => f_tag (fst p)) fs) with (map (fun p : finfo * ty => f_tag (fst p)) fts); [exact Nd|].
    revert fs W. clear Nd. induction fts as [|[fi t] fts IH]; intros [|[fj x] fs] W; try discriminate W; [reflexivity|]. cbn [wt_fields] in W. bprop. cbn [map fst].
    match goal with X : finfo_eqb _ _ = true |- _ => apply finfo_eqb_eq in X; subst fj end. f_equal. now apply IH. }
  unfold view_fields.
  assert (G : forall l, (forall p, In p l -> In p fs) -> wt_fields fts l = true -> map (view_field r fs) fts = norm_fields r l).
  { clear W Nd. revert H O. induction fts as [|[fi t] fts IH]; intros H O [|[fj x] l] I W; try discriminate W; [reflexivity|]. inversion H as [|? ? H1 H2]; subst.
    unfold fields_ok in O. cbn [wt_fields forallb map] in *. bprop. match goal with X : finfo_eqb _ _ = true |- _ => apply finfo_eqb_eq in X; subst fj end.
    cbn [view_field norm_fields]. f_equal.
    - rewrite (find_field_some fs fi x Nd'); [|apply I; now left]. rewrite (wt_vwty t x) by assumption. rewrite wtype_eqb_refl. f_equal. now apply H1.
    - apply IH; try assumption. intros p Ip. apply I. now right. }
  apply G; auto.
Qed.
Lemma view_self t : vself t.
Proof.
  induction t as [k| | | |t IH|t IH|n t IH|ts IH|k t IHk IHt|t IH|si fts IH|st vs IH|t IH|k t IH] using ty_ind';
    intros r v O W; destruct v as [| | | |o|l|l|l|l|v|cc r0 fs|tag cc r0 fs|r0 l|r0 es]; try discriminate W; try reflexivity.
  - destruct o as [x|]; [|reflexivity]. cbn [ty_ok wt view norm] in *. do 2 f_equal. now apply IH.
  - cbn [ty_ok wt view norm] in *. f_equal. apply map_ext_in. intros x I. rewrite forallb_forall in W. apply IH; auto.
  - cbn [ty_ok wt view norm] in *. bprop. f_equal. apply map_ext_in. intros x I. match goal with X : forallb _ l = true |- _ => rewrite forallb_forall in X end. apply IH; auto.
  - rewrite wt_tup_eq in W. rewrite view_tup. cbn [norm]. f_equal. assert (A : forallb ty_ok ts = true) by (cbn in O; bprop; assumption). clear O.
    revert l W. induction IH as [|t ts H _ IHt]; intros [|x l] W; try discriminate W; [reflexivity|]. cbn [wt_list view_list map forallb] in *. bprop. f_equal; [now apply H|now apply IHt].
  - cbn [ty_ok wt view norm] in *. bprop. f_equal. apply map_ext_in. intros [a b] I. match goal with X : forallb _ l = true |- _ => rewrite forallb_forall in X; specialize (X _ I); cbn in X end. bprop.
    cbn. f_equal; [now apply IHk|now apply IHt].
  - cbn [ty_ok wt view norm] in *. f_equal. now apply IH.
  - rewrite ty_ok_struct in O. rewrite wt_struct_eq in W. bprop. rewrite view_struct, norm_struct.
    apply eqb_prop in H. subst cc. f_equal.
    + destruct (s_state si), r0; try reflexivity; discriminate.
    + eapply view_fields_self; eassumption.
  - destruct (wt_enum_inv _ _ _ _ _ _ W) as (c1 & fts & F & -> & Wf & Hr & _). rewrite view_enum, F, norm_enum. cbn [fst snd].
    pose proof (find_variant_in _ _ _ F) as [Iv _]. pose proof (variant_fields_ok st vs _ O Iv) as (_ & FO & FN). f_equal.
    + destruct st, r0; try reflexivity; discriminate Hr.
    + eapply view_fields_self; try eassumption. rewrite Forall_forall in IH. exact (IH _ Iv).
  - cbn [ty_ok wt] in *. bprop. rewrite view_list_eq, norm_list. f_equal. generalize 0. revert W. clear r0. induction l as [|x l IHl]; intros W i; [reflexivity|].
    cbn [forallb view_items norm_items] in *. bprop. f_equal; [now apply IH|]. now apply IHl.
  - cbn [ty_ok wt view] in *. bprop. rewrite norm_map, norm_entries_map. f_equal. apply map_ext_in. intros [k1 x] I.
    match goal with X : forallb _ es = true |- _ => rewrite forallb_forall in X; specialize (X _ I); cbn in X end. bprop. cbn [fst snd]. f_equal. now apply IH.
Qed.

(** ** A version that keeps everything *)

Definition kp_fields (fts fts' : list (finfo * ty)) : bool :=
  forallb (fun p : finfo * ty => let '(fi, t) := p in match find_field (f_tag fi) fts' with Some (_, t') => keeps t t' | None => false end) fts.
Fixpoint kp_list (ts ts' : list ty) : bool :=
  match ts, ts' with [], [] => true | t :: ts, t' :: ts' => keeps t t' && kp_list ts ts' | _, _ => false end.
Lemma kp_struct si fts si' fts' : keeps (TStruct si fts) (TStruct si' fts') = kp_fields fts fts'. Proof. reflexivity. Qed.
Lemma kp_enum st vs st' vs' : keeps (TEnum st vs) (TEnum st' vs') =
  forallb (fun va : (N * bool) * list (finfo * ty) => match find_variant vs' (fst (fst va)) with Some va' => kp_fields (snd va) (snd va') | None => false end) vs.
Proof. reflexivity. Qed.
Lemma kp_tup ts ts' : keeps (TTup ts) (TTup ts') = kp_list ts ts'. Proof. reflexivity. Qed.
Lemma kp_in fts fts' fi t : kp_fields fts fts' = true -> In (fi, t) fts -> exists fj t', find_field (f_tag fi) fts' = Some (fj, t') /\ keeps t t' = true.
Proof.
  intros E I. unfold kp_fields in E. rewrite forallb_forall in E. specialize (E _ I). cbn in E. destruct (find_field (f_tag fi) fts') as [[fj t']|]; [eauto|discriminate E].
Qed.
Lemma keeps_wty t : forall t', keeps t t' = true -> wty t' = wty t.
Proof.
  induction t as [k| | | |t IH|t IH|n t IH|ts IH|k t IHk IHt|t IH|si fs IH|st vs IH|t IH|k t IH] using ty_ind'; intros t' E;
    destruct t'; try discriminate E; try reflexivity. exact (IH t' E).
Qed.
Lemma keeps_evolves t : forall t', keeps t t' = true -> evolves t t' = true.
Proof.
  assert (Ff : forall fts fts', Forall (fun p => forall t', keeps (snd p) t' = true -> evolves (snd p) t' = true) fts -> kp_fields fts fts' = true -> ev_fields fts fts' = true).
  { intros fts fts' H K. unfold ev_fields. apply forallb_forall. intros [fi u] I. destruct (kp_in fts fts' fi u K I) as (fj & t' & F & Kt). rewrite F.
    rewrite Forall_forall in H. specialize (H _ I t' Kt). cbn in H. now destruct (wtype_eqb _ _). }
  induction t as [k| | | |t IH|t IH|n t IH|ts IH|k t IHk IHt|t IH|si fs IH|st vs IH|t IH|k t IH] using ty_ind'; intros t' E;
    destruct t' as [k'| | | |t'|t'|n' t'|ts'|kt' vt'|t'|si' fts'|st' vs'|t'|k' t']; try discriminate E; try exact E; try exact (IH t' E).
  - cbn [keeps evolves] in *. bprop. rewrite (IH t') by assumption. now rewrite andb_true_r.
  - rewrite kp_tup in E. rewrite ev_tup. revert ts' E. induction IH as [|t ts H _ IHt]; intros [|t' ts'] E; try discriminate E; [reflexivity|]. cbn in *. bprop. rewrite H, IHt by assumption. reflexivity.
  - cbn [keeps evolves] in *. bprop. rewrite (IHt vt') by assumption. rewrite andb_true_r. assumption.
  - rewrite kp_struct in E. rewrite ev_struct. now apply Ff.
  - rewrite kp_enum in E. rewrite ev_enum. rewrite forallb_forall in *. intros va I. specialize (E _ I). rewrite Forall_forall in IH.
    destruct (find_variant vs' (fst (fst va))) as [va'|]; [|discriminate E]. apply Ff; [exact (IH _ I)|exact E].
Qed.

Lemma find_variant_some vs va : nodupb (map (fun va : (N * bool) * list (finfo * ty) => fst (fst va)) vs) = true -> In va vs -> find_variant vs (fst (fst va)) = Some va.
Proof.
  intros Nd J. apply nodupb_nodup in Nd. unfold find_variant. induction vs as [|vb vs IH]; [contradiction J|]. cbn [map find] in *. inversion Nd; subst. destruct J as [->|J].
  - now rewrite N.eqb_refl.
  - destruct (fst (fst vb) =? fst (fst va)) eqn:X; [|now apply IH]. exfalso. apply N.eqb_eq in X. match goal with H : ~ In _ _ |- _ => apply H end. rewrite X.
    now apply (in_map (fun va : (N * bool) * list (finfo * ty) => fst (fst va))) in J.
Qed.

(** The field of the old version behind a field of the new one. *)
Lemma kp_back fts fts' fi t fj t' : kp_fields fts fts' = true -> nodupb (map (fun p : finfo * ty => f_tag (fst p)) fts') = true -> In (fj, t') fts' ->
  find_field (f_tag fj) fts = Some (fi, t) -> keeps t t' = true.
Proof.
  intros K Nd J F. pose proof (find_field_in _ _ _ F) as I. pose proof (find_field_tag _ _ _ _ F) as T. destruct (kp_in fts fts' fi t K I) as (fk & t2 & F2 & Kt).
  rewrite T, (find_field_some fts' fj t' Nd J) in F2. injection F2 as <- <-. exact Kt.
Qed.
Lemma keeps_back t : forall t', ty_ok t = true -> ty_ok t' = true -> keeps t t' = true -> evolves t' t = true.
Proof.
  assert (Ff : forall st st' fts fts', Forall (fun p => forall t', ty_ok (snd p) = true -> ty_ok t' = true -> keeps (snd p) t' = true -> evolves t' (snd p) = true) fts ->
    fields_ok st fts = true -> fields_ok st' fts' = true -> nodupb (map (fun p : finfo * ty => f_tag (fst p)) fts') = true -> kp_fields fts fts' = true -> ev_fields fts' fts = true).
  { intros st st' fts fts' H O O' Nd K. unfold ev_fields. apply forallb_forall. intros [fj t'] J. destruct (find_field (f_tag fj) fts) as [[fi u]|] eqn:F; [|reflexivity].
    pose proof (kp_back fts fts' fi u fj t' K Nd J F) as Kt. pose proof (find_field_in _ _ _ F) as I. rewrite Forall_forall in H.
    pose proof (proj1 (fields_ok_in _ _ _ _ O I)). pose proof (proj1 (fields_ok_in _ _ _ _ O' J)). specialize (H _ I t'). cbn in H. rewrite H by assumption. now destruct (wtype_eqb _ _). }
  induction t as [k| | | |t IH|t IH|n t IH|ts IH|k t IHk IHt|t IH|si fs IH|st vs IH|t IH|k t IH] using ty_ind'; intros t' O O' E;
    destruct t' as [k'| | | |t'|t'|n' t'|ts'|kt' vt'|t'|si' fts'|st' vs'|t'|k' t']; try discriminate E; try reflexivity.
  - cbn in *. apply ikind_eqb_eq in E. subst. now destruct k'.
  - exact (IH t' O O' E).
  - exact (IH t' O O' E).
  - cbn [keeps evolves ty_ok] in *. bprop. rewrite (IH t') by assumption. rewrite andb_true_r. rewrite Nat.eqb_sym. assumption.
  - rewrite kp_tup in E. rewrite ev_tup. assert (A : forallb ty_ok ts = true) by (cbn in O; bprop; assumption). assert (A' : forallb ty_ok ts' = true) by (cbn in O'; bprop; assumption).
    clear O O'. revert ts' A' E. induction IH as [|t ts H _ IHt]; intros [|t' ts'] A' E; try discriminate E; [reflexivity|]. cbn in *. bprop. rewrite H, IHt by assumption. reflexivity.
  - cbn [keeps evolves ty_ok] in *. bprop. rewrite (IHt vt') by assumption. rewrite andb_true_r. destruct k, kt'; try discriminate; try reflexivity.
    match goal with X : ikind_eqb _ _ = true |- _ => apply ikind_eqb_eq in X; subst end. now destruct k0.
  - exact (IH t' O O' E).
  - rewrite ty_ok_struct in O, O'. bprop. rewrite kp_struct in E. rewrite ev_struct. eapply Ff; eassumption.
  - rewrite kp_enum in E. rewrite ev_enum. apply forallb_forall. intros va' J. destruct (find_variant vs (fst (fst va'))) as [va|] eqn:F; [|reflexivity].
    destruct (find_variant_in _ _ _ F) as [I T]. rewrite forallb_forall in E. specialize (E _ I). rewrite T in E. pose proof O' as O2. rewrite ty_ok_enum in O2. bprop.
    rewrite (find_variant_some vs' va') in E by assumption. rewrite Forall_forall in IH.
    pose proof (variant_fields_ok _ _ _ O I) as (_ & FO & _). pose proof (variant_fields_ok _ _ _ O' J) as (_ & FO' & FN'). eapply Ff; try eassumption. exact (IH _ I).
  - cbn [keeps evolves ty_ok] in *. bprop. now apply IH.
  - cbn [keeps evolves ty_ok] in *. bprop. now apply IH.
Qed.

Lemma find_view_fields r n fts fs : find_field n (view_fields r fts fs) = match find_field n fts with Some p => Some (view_field r fs p) | None => None end.
Proof. unfold view_fields. induction fts as [|[fi t] fts IH]; [reflexivity|]. cbn [map view_field find_field]. destruct (n =? f_tag fi); [reflexivity|exact IH]. Qed.
Lemma vwty_view t : forall t' r v, evolves t t' = true -> wt t v = true -> vwty (view t' r v) = wty t.
Proof.
  induction t as [k| | | |t IH|t IH|n t IH|ts IH|k t IHk IHt|t IH|si fs IH|st vs IH|t IH|k t IH] using ty_ind'; intros t' r v E W;
    destruct t' as [k'| | | |t'|t'|n' t'|ts'|kt' vt'|t'|si' fts'|st' vs'|t'|k' t']; try discriminate E; destruct v as [| | | |[x|]|l|l|l|l|v|cc r0 fs0|tag cc r0 fs0|r0 l|r0 es]; try discriminate W; try reflexivity.
  - cbn [view vwty wty]. exact (IH t' r v E W).
  - rewrite view_enum. now destruct (find_variant vs' tag).
Qed.

Definition vback (t : ty) : Prop := forall t' r s v, ty_ok t = true -> ty_ok t' = true -> keeps t t' = true -> wt t v = true -> view t r (view t' s v) = norm r v.
Lemma view_fields_back r s st st' fts fts' fs : Forall (fun p => vback (snd p)) fts -> fields_ok st fts = true -> fields_ok st' fts' = true ->
  nodupb (map (fun p : finfo * ty => f_tag (fst p)) fts) = true -> kp_fields fts fts' = true ->
  wt_fields fts fs = true -> view_fields r fts (view_fields s fts' fs) = norm_fields r fs.
Proof.
  intros H O O' Nd K W. transitivity (view_fields r fts fs).
  2:{ apply (view_fields_self r st); try assumption. apply Forall_forall. intros p _. apply view_self. }
  unfold view_fields at 1 3. apply map_ext_in. intros [fi t] I. cbn [view_field]. f_equal. rewrite find_view_fields.
  destruct (kp_in fts fts' fi t K I) as (fj & t' & F & Kt). rewrite F. cbn [view_field]. rewrite (find_field_tag _ _ _ _ F).
  pose proof (find_field_wt (f_tag fi) fts fs W) as X. rewrite (find_field_some fts fi t Nd I) in X. destruct X as (x & F' & Wx). rewrite F'.
  rewrite (wt_vwty t x Wx), (keeps_wty t t' Kt), wtype_eqb_refl. rewrite (vwty_view t) by (assumption || now apply keeps_evolves). rewrite wtype_eqb_refl.
  pose proof (proj1 (fields_ok_in _ _ _ _ O I)). pose proof (proj1 (fields_ok_in _ _ _ _ O' (find_field_in _ _ _ F))).
  rewrite Forall_forall in H. rewrite (H _ I) by assumption. symmetry. now apply view_self.
Qed.
Lemma view_back t : vback t.
Proof.
  induction t as [k| | | |t IH|t IH|n t IH|ts IH|k t IHk IHt|t IH|si fts IH|st vs IH|t IH|k t IH] using ty_ind';
    intros t' r s v O O' E W; destruct t' as [k'| | | |t'|t'|n' t'|ts'|kt' vt'|t'|si' fts'|st' vs'|t'|k' t']; try discriminate E;
    destruct v as [| | | |o|l|l|l|l|v|cc r0 fs|tag cc r0 fs|r0 l|r0 es]; try discriminate W; try reflexivity.
  - destruct o as [x|]; [|reflexivity]. cbn [ty_ok wt view norm keeps] in *. do 2 f_equal. now apply IH.
  - cbn [ty_ok wt view norm keeps] in *. f_equal. rewrite map_map. apply map_ext_in. intros x I. rewrite forallb_forall in W. apply IH; auto.
  - cbn [ty_ok wt view norm keeps] in *. bprop. f_equal. rewrite map_map. apply map_ext_in. intros x I. match goal with X : forallb _ l = true |- _ => rewrite forallb_forall in X end. apply IH; auto.
  - rewrite wt_tup_eq in W. rewrite kp_tup in E. rewrite !view_tup. cbn [norm]. f_equal.
    assert (A : forallb ty_ok ts = true) by (cbn in O; bprop; assumption). assert (A' : forallb ty_ok ts' = true) by (cbn in O'; bprop; assumption). clear O O'.
    revert ts' l W A' E. induction IH as [|t ts H _ IHt]; intros [|t' ts'] [|x l] W A' E; try discriminate W; try discriminate E; [reflexivity|].
    cbn [wt_list view_list map forallb kp_list] in *. bprop. f_equal; [now apply H|now apply IHt].
  - cbn [ty_ok wt view norm] in *. change (plain_key k kt' && keeps t vt' = true) in E. bprop. f_equal. rewrite map_map. apply map_ext_in. intros [a b] I.
    match goal with X : forallb _ l = true |- _ => rewrite forallb_forall in X; specialize (X _ I); cbn in X end. bprop. cbn [fst snd].
    rewrite (view_plain k kt') by assumption. f_equal; [now apply view_self|now apply IHt].
  - cbn [ty_ok wt view norm keeps] in *. f_equal. now apply IH.
  - rewrite ty_ok_struct in O, O'. rewrite wt_struct_eq in W. rewrite kp_struct in E. bprop. rewrite !view_struct, norm_struct.
    apply eqb_prop in H. subst cc. f_equal.
    + destruct (s_state si), r0; try reflexivity; discriminate.
    + eapply view_fields_back; eassumption.
  - destruct (wt_enum_inv _ _ _ _ _ _ W) as (c1 & fts & F & -> & Wf & Hr & _). rewrite kp_enum in E. rewrite forallb_forall in E.
    destruct (find_variant_in _ _ _ F) as [Iv _]. specialize (E _ Iv). cbn [fst snd] in E. destruct (find_variant vs' tag) as [va'|] eqn:F'; [|discriminate E].
    rewrite (view_enum st' vs'), F', view_enum, F, norm_enum. cbn [fst snd].
    pose proof (variant_fields_ok st vs _ O Iv) as (_ & FO & FN). destruct (find_variant_in _ _ _ F') as [Iv' _]. pose proof (variant_fields_ok st' vs' _ O' Iv') as (_ & FO' & _). f_equal.
    + destruct st, r0; try reflexivity; discriminate Hr.
    + eapply view_fields_back; try eassumption. rewrite Forall_forall in IH. exact (IH _ Iv).
  - cbn [ty_ok wt keeps] in *. bprop. rewrite !view_list_eq, norm_list. f_equal. generalize 0. revert W. clear r0. induction l as [|x l IHl]; intros W i; [reflexivity|].
    cbn [forallb view_items norm_items] in *. bprop. f_equal; [now apply IH|]. now apply IHl.
  - cbn [ty_ok wt view keeps] in *. bprop. rewrite norm_map, norm_entries_map. f_equal. rewrite map_map. apply map_ext_in. intros [k1 x] I.
    match goal with X : forallb _ es = true |- _ => rewrite forallb_forall in X; specialize (X _ I); cbn in X end. bprop. cbn [fst snd]. f_equal. now apply IH.
Qed.

Lemma short_dflt m t r : short m (dflt t r) = true.
Proof.
  assert (G : vwty (dflt t r) = Varint -> lenN (enc (dflt t r)) <=? 2 = true).
  { revert r. induction t as [k| | | |t IH|t IH|n t IH|ts IH|k t IHk IHt|t IH|si fs IH|st vs IH|t IH|k t IH] using ty_ind'; intros r E; try discriminate E.
    - now destruct k.
    - reflexivity.
    - cbn in *. now apply IH.
    - rewrite dflt_enum in *. destruct (find_variant vs 0) as [[[tg c] fts]|]; [discriminate E|reflexivity]. }
  unfold short. destruct (vwty (dflt t r)), m; auto.
Qed.
Definition tback (m : mode) (t : ty) : Prop := forall t' s v, ty_ok t = true -> ty_ok t' = true -> keeps t t' = true -> wt t v = true -> takes m t v = true -> takes m t (view t' s v) = true.
Lemma takes_fields_back m s st st' fts fts' fs : Forall (fun p => tback m (snd p)) fts -> fields_ok st fts = true -> fields_ok st' fts' = true ->
  nodupb (map (fun p : finfo * ty => f_tag (fst p)) fts') = true -> kp_fields fts fts' = true ->
  wt_fields fts fs = true -> takes_fields m fts fs = true -> takes_fields m fts (view_fields s fts' fs) = true.
Proof.
  intros H O O' Nd' K W T. unfold takes_fields. apply forallb_forall. intros [fj y] J. unfold view_fields in J. apply in_map_iff in J. destruct J as ([fk t'] & E & J).
  cbn [view_field] in E. injection E as <- <-. pose proof (find_field_wt (f_tag fk) fts fs W) as X.
  destruct (find_field (f_tag fk) fts) as [[fi t]|] eqn:F.
  - destruct X as (x & F' & Wx). rewrite F'. pose proof (kp_back fts fts' fi t fk t' K Nd' J F) as Kt.
    rewrite (wt_vwty t x Wx), (keeps_wty t t' Kt), wtype_eqb_refl. rewrite (vwty_view t) by (assumption || now apply keeps_evolves). rewrite wtype_eqb_refl.
    pose proof (find_field_in _ _ _ F) as I. pose proof (proj1 (fields_ok_in _ _ _ _ O I)). pose proof (proj1 (fields_ok_in _ _ _ _ O' J)).
    rewrite Forall_forall in H. apply (H _ I); try assumption. cbn [snd]. unfold takes_fields in T. rewrite forallb_forall in T. specialize (T _ (find_field_in _ _ _ F')). cbn in T.
    rewrite (find_field_tag _ _ _ _ F'), F, (wt_vwty t x Wx), wtype_eqb_refl in T. exact T.
  - rewrite X. apply short_dflt.
Qed.
Lemma takes_back m t : tback m t.
Proof.
  induction t as [k| | | |t IH|t IH|n t IH|ts IH|k t IHk IHt|t IH|si fts IH|st vs IH|t IH|k t IH] using ty_ind';
    intros t' s v O O' E W T; destruct t' as [k'| | | |t'|t'|n' t'|ts'|kt' vt'|t'|si' fts'|st' vs'|t'|k' t']; try discriminate E;
    destruct v as [| | | |o|l|l|l|l|v|cc r0 fs|tag cc r0 fs|r0 l|r0 es]; try discriminate W; try exact T.
  - destruct o as [x|]; [|reflexivity]. cbn [ty_ok wt view takes keeps] in *. now apply IH.
  - cbn [ty_ok wt view takes keeps] in *. rewrite forallb_forall in *. intros y I. apply in_map_iff in I. destruct I as (x & <- & I). apply IH; auto.
  - cbn [ty_ok wt view takes keeps] in *. bprop. match goal with X : forallb (wt t) l = true |- _ => rewrite forallb_forall in X; rename X into Wl end. rewrite forallb_forall in *. intros y I. apply in_map_iff in I. destruct I as (x & <- & I). apply IH; auto.
  - rewrite wt_tup_eq in W. rewrite kp_tup in E. rewrite view_tup, takes_tup in *.
    assert (A : forallb ty_ok ts = true) by (cbn in O; bprop; assumption). assert (A' : forallb ty_ok ts' = true) by (cbn in O'; bprop; assumption). clear O O'.
    revert ts' l W A' E T. induction IH as [|t ts H _ IHt]; intros [|t' ts'] [|x l] W A' E T; try discriminate W; try discriminate E; [reflexivity|].
    cbn [wt_list view_list takes_list forallb kp_list] in *. bprop. rewrite H, IHt by assumption. reflexivity.
  - cbn [ty_ok wt view takes] in *. change (plain_key k kt' && keeps t vt' = true) in E. bprop. match goal with X : forallb (fun e => wt _ _ && _) l = true |- _ => rewrite forallb_forall in X; rename X into Wl end.
    rewrite forallb_forall in *. intros y I. apply in_map_iff in I. destruct I as ([a b] & <- & I). specialize (T _ I). specialize (Wl _ I). cbn [fst snd] in *. bprop.
    rewrite (view_plain k kt') by assumption. match goal with X : takes m k a = true |- _ => rewrite X end. now apply IHt.
  - cbn [ty_ok wt view takes keeps] in *. now apply IH.
  - rewrite ty_ok_struct in O, O'. rewrite wt_struct_eq in W. rewrite kp_struct in E. bprop. rewrite view_struct, takes_struct in *. eapply takes_fields_back; eassumption.
  - destruct (wt_enum_inv _ _ _ _ _ _ W) as (c1 & fts & F & -> & Wf & Hr & _). rewrite kp_enum in E. rewrite forallb_forall in E.
    destruct (find_variant_in _ _ _ F) as [Iv _]. specialize (E _ Iv). cbn [fst snd] in E. destruct (find_variant vs' tag) as [va'|] eqn:F'; [|discriminate E].
    rewrite view_enum, F'. rewrite takes_enum, F in *. cbn [snd] in *.
    pose proof (variant_fields_ok st vs _ O Iv) as (_ & FO & FN). destruct (find_variant_in _ _ _ F') as [Iv' _]. pose proof (variant_fields_ok st' vs' _ O' Iv') as (_ & FO' & FN').
    eapply takes_fields_back; try eassumption. rewrite Forall_forall in IH. exact (IH _ Iv).
  - cbn [ty_ok wt takes keeps] in *. bprop. rewrite view_list_eq. cbn [takes]. generalize 0. revert W T. clear r0. induction l as [|x l IHl]; intros W T i; [reflexivity|].
    cbn [forallb view_items] in *. bprop. rewrite IH by assumption. now apply IHl.
  - cbn [ty_ok wt view takes keeps] in *. bprop. match goal with X : forallb (fun e => _ && wt _ _) es = true |- _ => rewrite forallb_forall in X; rename X into Wl end.
    rewrite forallb_forall in *. intros y I. apply in_map_iff in I. destruct I as ([a b] & <- & I). specialize (T _ I). specialize (Wl _ I). cbn [fst snd] in *. bprop.
    rewrite IH by assumption. now rewrite !andb_true_iff.
Qed.

(** ** Views are values *)

Definition vwt (m : mode) (t : ty) : Prop := forall t' r v, ty_ok t = true -> ty_ok t' = true -> evolves t t' = true -> wt t v = true -> takes m t' v = true -> wt t' (view t' r v) = true.
Lemma finfo_eqb_refl fi : finfo_eqb fi fi = true.
Proof. unfold finfo_eqb. rewrite N.eqb_refl. destruct fi as [? [] [] []]; reflexivity. Qed.
Lemma wt_view_fields m r st st' fts fts' fs : Forall (fun p => vwt m (snd p)) fts -> fields_ok st fts = true -> fields_ok st' fts' = true ->
  nodupb (map (fun p : finfo * ty => f_tag (fst p)) fts') = true -> ev_fields fts fts' = true -> wt_fields fts fs = true -> takes_fields m fts' fs = true -> wt_fields fts' (view_fields r fts' fs) = true.
Proof.
  intros H O O' Nd E W T.
  assert (G : forall l, (forall p, In p l -> In p fts') -> wt_fields l (map (view_field r fs) l) = true).
  { induction l as [|[fj t'] l IH]; intros I; [reflexivity|]. cbn [map view_field wt_fields]. rewrite finfo_eqb_refl, IH, andb_true_r by (intros p Ip; apply I; now right). cbn [andb].
    specialize (I (fj, t') (or_introl eq_refl)). pose proof (proj1 (fields_ok_in _ _ _ _ O' I)) as Ot'.
    destruct (find_field (f_tag fj) fs) as [[fi x]|] eqn:F; [|now apply wt_dflt]. pose proof (find_field_in _ _ _ F) as Ix. pose proof (find_field_tag _ _ _ _ F) as Tg.
    destruct (in_wt fts fs fi x W Ix) as (t & It & Wx). rewrite (wt_vwty t x Wx). destruct (wtype_eqb (wty t') (wty t)) eqn:X; [|now apply wt_dflt].
    rewrite Forall_forall in H. apply (H _ It); try assumption; cbn [snd].
    - exact (proj1 (fields_ok_in _ _ _ _ O It)).
    - apply (ev_both fts fts' fi t fj t'); try assumption. now symmetry.
    - unfold takes_fields in T. rewrite forallb_forall in T. specialize (T _ Ix). cbn in T. rewrite Tg, (find_field_some fts' fj t' Nd I), (wt_vwty t x Wx), X in T. exact T. }
  apply G. auto.
Qed.
Lemma wt_view m t : vwt m t.
Proof.
  induction t as [k| | | |t IH|t IH|n t IH|ts IH|k t IHk IHt|t IH|si fts IH|st vs IH|t IH|k t IH] using ty_ind';
    intros t' r v O O' E W T; destruct t' as [k'| | | |t'|t'|n' t'|ts'|kt' vt'|t'|si' fts'|st' vs'|t'|k' t']; try discriminate E;
    destruct v as [| | | |o|l|l|l|l|v|cc r0 fs|tag cc r0 fs|r0 l|r0 es]; try discriminate W; try exact W.
  - cbn in *. apply ikind_eqb_eq in E. now subst.
  - destruct o as [x|]; [|reflexivity]. cbn [ty_ok wt view takes evolves] in *. now apply IH.
  - cbn [ty_ok wt view takes evolves] in *. rewrite forallb_forall in *. intros y I. apply in_map_iff in I. destruct I as (x & <- & I). apply IH; auto.
  - cbn [ty_ok wt view takes evolves] in *. bprop. rewrite map_length. apply andb_true_iff. split; [apply Nat.eqb_eq; lia|].
    match goal with X : forallb (wt t) l = true |- _ => rewrite forallb_forall in X; rename X into Wl end. rewrite forallb_forall in *. intros y I. apply in_map_iff in I. destruct I as (x & <- & I). apply IH; auto.
  - rewrite wt_tup_eq in W. rewrite ev_tup in E. rewrite takes_tup in T. rewrite view_tup, wt_tup_eq.
    assert (A : forallb ty_ok ts = true) by (cbn in O; bprop; assumption). assert (A' : forallb ty_ok ts' = true) by (cbn in O'; bprop; assumption). clear O O'.
    revert ts' l W A' E T. induction IH as [|t ts H _ IHt]; intros [|t' ts'] [|x l] W A' E T; try discriminate W; try discriminate E; [reflexivity|].
    cbn [wt_list view_list takes_list forallb ev_list] in *. bprop. rewrite H, IHt by assumption. reflexivity.
  - cbn [ty_ok wt view takes] in *. change (plain_key k kt' && evolves t vt' = true) in E. bprop. match goal with X : forallb (fun e => wt _ _ && _) l = true |- _ => rewrite forallb_forall in X; rename X into Wl end.
    destruct (plain_key_eq k kt' ltac:(assumption)) as [-> _]. apply andb_true_iff. split.
    + rewrite forallb_forall in *. intros y I. apply in_map_iff in I. destruct I as ([a b] & <- & I). specialize (T _ I). specialize (Wl _ I). cbn [fst snd] in *. bprop.
      rewrite (view_plain k k) by assumption. match goal with X : wt k a = true |- _ => rewrite X end. now apply IHt.
    + match goal with X : hkeys_distinct l = true |- _ => rename X into D end. match goal with X : plain_key k k = true |- _ => rename X into Pk end.
      assert (Wk : forall a b, In (a, b) l -> wt k a = true) by (intros a b I; specialize (Wl _ I); cbn in Wl; now bprop). clear - D Wk Pk.
      induction l as [|[a b] l IHl]; [reflexivity|]. cbn [map fst snd hkeys_distinct] in *. bprop. apply andb_true_iff. split.
      * rewrite (view_plain k k) by (assumption || (apply (Wk a b); now left)). apply negb_true_iff. match goal with X : negb _ = true |- _ => apply negb_true_iff in X; rename X into N end.
        apply not_true_iff_false. intros X. apply existsb_exists in X. destruct X as ([a' b'] & I & V). apply in_map_iff in I. destruct I as ([a2 b2] & E & I). cbn [fst snd] in *. injection E as <- _.
        rewrite (view_plain k k) in V by (assumption || (apply (Wk a2 b2); now right)). apply not_true_iff_false in N. apply N. apply existsb_exists. exists (a2, b2). auto.
      * apply IHl; [assumption|]. intros a' b' I. apply (Wk a' b'). now right.
  - cbn [ty_ok wt view takes evolves] in *. now apply IH.
  - rewrite ty_ok_struct in O, O'. rewrite wt_struct_eq in W. rewrite ev_struct in E. bprop. rewrite takes_struct in T. rewrite view_struct, wt_struct_eq. rewrite eqb_reflx.
    cbn [andb]. apply andb_true_iff. split; [now destruct (s_state si')|]. apply (wt_view_fields m _ (s_state si) (s_state si') fts fts'); assumption.
  - destruct (wt_enum_inv _ _ _ _ _ _ W) as (c1 & fts & F & -> & Wf & Hr & _). rewrite ev_enum in E. rewrite takes_enum in T. rewrite view_enum.
    destruct (find_variant vs' tag) as [[[tg' c'] fts']|] eqn:F'; [|discriminate T]. pose proof (ev_find _ _ _ _ _ E F F') as Ef. cbn [fst snd] in *.
    destruct (find_variant_in _ _ _ F) as [Iv _]. pose proof (variant_fields_ok st vs _ O Iv) as (_ & FO & FN). destruct (find_variant_in _ _ _ F') as [Iv' _]. pose proof (variant_fields_ok st' vs' _ O' Iv') as (_ & FO' & FN').
    rewrite wt_enum_eq, F'. rewrite eqb_reflx. apply andb_true_iff. split; [now destruct st'|]. cbn [andb]. apply (wt_view_fields m _ st st' fts fts'); try assumption. rewrite Forall_forall in IH. exact (IH _ Iv).
  - cbn [ty_ok wt takes evolves] in *. bprop. rewrite view_list_eq. cbn [wt]. generalize 0. revert W T. clear r0. induction l as [|x l IHl]; intros W T i; [reflexivity|].
    cbn [forallb view_items] in *. bprop. rewrite IH by assumption. now apply IHl.
  - cbn [ty_ok wt view takes evolves] in *. bprop. match goal with X : forallb (fun e => _ && wt _ _) es = true |- _ => rewrite forallb_forall in X; rename X into Wl end.
    rewrite map_map. cbn [fst]. apply andb_true_iff. split; [|assumption].
    rewrite forallb_forall in *. intros y I. apply in_map_iff in I. destruct I as ([a b] & <- & I). specialize (T _ I). specialize (Wl _ I). cbn [fst snd] in *. bprop.
    rewrite IH by assumption. apply andb_true_iff. split; [lia|reflexivity].
Qed.

(** ** What was taken can be written *)

Lemma writable_dflt t r : ty_ok t = true -> writable (dflt t r) = true.
Proof. intros O. pose proof (lossless_dflt t O r) as L. apply lossless_and in L. apply L. Qed.
Definition vwr (m : mode) (t : ty) : Prop := forall r v, ty_ok t = true -> takes m t v = true -> writable (view t r v) = true.
Lemma writable_view_fields m st r fts fs : Forall (fun p => vwr m (snd p)) fts -> fields_ok st fts = true ->
  nodupb (map (fun p : finfo * ty => f_tag (fst p)) fts) = true -> takes_fields m fts fs = true ->
  forallb (fun p : finfo * val => let '(_, x) := p in writable x) (view_fields r fts fs) = true.
Proof.
  intros H O Nd T. apply forallb_forall. intros [fi x] I. apply in_map_iff in I. destruct I as ([fj t] & E & I). cbn [view_field] in E. injection E as <- <-.
  pose proof (proj1 (fields_ok_in _ _ _ _ O I)) as Ot. destruct (find_field (f_tag fj) fs) as [[fk x]|] eqn:F; [|now apply writable_dflt].
  destruct (wtype_eqb (wty t) (vwty x)) eqn:X; [|now apply writable_dflt]. rewrite Forall_forall in H. apply (H _ I); [exact Ot|]. cbn [snd].
  unfold takes_fields in T. rewrite forallb_forall in T. specialize (T _ (find_field_in _ _ _ F)). cbn in T.
  rewrite (find_field_tag _ _ _ _ F), (find_field_some fts fj t Nd I), X in T. exact T.
Qed.
Lemma writable_view m t : vwr m t.
Proof.
  induction t as [k| | | |t IH|t IH|n t IH|ts IH|k t IHk IHt|t IH|si fts IH|st vs IH|t IH|k t IH] using ty_ind';
    intros r v O T; destruct v as [| | | |o|l|l|l|l|v|cc r0 fs|tag cc r0 fs|r0 l|r0 es]; try discriminate T; try reflexivity;
    try (destruct o; discriminate T).
  - destruct o as [x|]; [|reflexivity]. cbn [ty_ok view takes writable] in *. now apply IH.
  - cbn [ty_ok view takes writable] in *. rewrite forallb_forall in *. intros y I. apply in_map_iff in I. destruct I as (x & <- & I). apply IH; auto.
  - cbn [ty_ok view takes writable] in *. bprop. rewrite forallb_forall in *. intros y I. apply in_map_iff in I. destruct I as (x & <- & I). apply IH; auto.
  - rewrite takes_tup in T. rewrite view_tup. assert (A : forallb ty_ok ts = true) by (cbn in O; bprop; assumption). clear O. cbn [writable].
    revert l T A. induction IH as [|t ts H _ IHt]; intros [|x l] T A; try reflexivity. cbn [view_list takes_list forallb] in *. bprop. rewrite H by assumption. now apply IHt.
  - cbn [ty_ok view takes writable] in *. bprop. rewrite forallb_forall in *. intros y I. apply in_map_iff in I. destruct I as ([a b] & <- & I). specialize (T _ I). cbn [fst snd] in *. bprop.
    rewrite IHt by assumption. rewrite andb_true_r. apply IHk; assumption.
  - cbn [ty_ok view takes writable] in *. now apply IH.
  - rewrite ty_ok_struct in O. bprop. rewrite takes_struct in T. rewrite view_struct. cbn [writable]. now apply (writable_view_fields m (s_state si)).
  - rewrite takes_enum in T. rewrite view_enum. destruct (find_variant vs tag) as [va|] eqn:F; [|discriminate T]. destruct (find_variant_in _ _ _ F) as [Iv _].
    pose proof (variant_fields_ok st vs _ O Iv) as (_ & FO & FN). cbn [writable]. apply (writable_view_fields m st); try assumption. rewrite Forall_forall in IH. exact (IH _ Iv).
  - cbn [ty_ok takes] in *. rewrite view_list_eq. cbn [writable]. generalize 0. revert T. induction l as [|x l IHl]; intros T i; [reflexivity|].
    cbn [forallb view_items] in *. bprop. rewrite IH by assumption. now apply IHl.
  - cbn [ty_ok view takes writable] in *. rewrite forallb_forall in *. intros y I. apply in_map_iff in I. destruct I as ([a b] & <- & I). specialize (T _ I). cbn [fst snd] in *. bprop.
    rewrite IH by assumption. match goal with X : (a <=? FIELD_NUMBER_MAX) = true |- _ => now rewrite X | _ => rewrite andb_true_r; lia end.
Qed.
