(** Proofs for C56: replicas of another version of the type. *)
From Verif Require Import Base Varint WireFmt Utf8 Types Ser Spec De Log State StateSpec Coll ValInd VarintProofs WireProofs SerProofs TypeProofs EqProofs DeProofs RoundTrip MergeProofs NormProofs LogProofs TreeProofs CohProofs HandleProofs OpProofs ExecProofs ReplayProofs FrameProofs KeepProofs SimProofs Evo EvoProofs EvoBack.

(** An entry of a state of type [t] that a replica of version [t'] can follow: it knows the fields and
    variants on the path and takes the payload. *)
Inductive follows (m : mode) : ty -> ty -> entry -> Prop :=
| FwUpdate t t' x : arg_ok t x -> evolves t t' = true -> takes m t' x = true -> follows m t t' (EUpdate [] (enc x))
| FwPush t t' x : arg_ok t x -> evolves t t' = true -> takes m t' x = true -> follows m (TList t) (TList t') (EListPush [] (enc x))
| FwPop t t' : follows m (TList t) (TList t') (EListPop [])
| FwRemove kk kk' t t' k : follows m (TMap kk t) (TMap kk' t') (EMapRemove [] k)
| FwBox t t' e : follows m t t' e -> follows m (TBox t) (TBox t') e
| FwField si si' fts fts' fn fi fi' t t' e : find_field fn fts = Some (fi, t) -> f_state fi = true -> find_field fn fts' = Some (fi', t') -> f_state fi' = true ->
    wty t' = wty t -> follows m t t' e -> follows m (TStruct si fts) (TStruct si' fts') (rel [fn] e)
| FwVar st st' vs vs' tag va va' fn fi fi' t t' e : find_variant vs tag = Some va -> find_field fn (snd va) = Some (fi, t) -> f_state fi = true ->
    find_variant vs' tag = Some va' -> find_field fn (snd va') = Some (fi', t') -> f_state fi' = true ->
    wty t' = wty t -> follows m t t' e -> follows m (TEnum st vs) (TEnum st' vs') (rel [tag; fn] e)
| FwItem t t' i e : follows m t t' e -> follows m (TList t) (TList t') (rel [i] e)
| FwKey kk kk' t t' k e : follows m t t' e -> follows m (TMap kk t) (TMap kk' t') (rel [k] e).

(** An entry whose path leaves the type: through a field or variant the type does not have. *)
Inductive strange : ty -> entry -> Prop :=
| StField si fts fn e : find_field fn fts = None -> strange (TStruct si fts) (rel [fn] e)
| StVariant st vs tag e : find_variant vs tag = None -> strange (TEnum st vs) (rel [tag] e)
| StVarField st vs tag va fn e : find_variant vs tag = Some va -> find_field fn (snd va) = None -> strange (TEnum st vs) (rel [tag; fn] e)
| StBox t e : strange t e -> strange (TBox t) e
| StInField si fts fn fi t e : find_field fn fts = Some (fi, t) -> f_state fi = true -> strange t e -> strange (TStruct si fts) (rel [fn] e)
| StInVar st vs tag va fn fi t e : find_variant vs tag = Some va -> find_field fn (snd va) = Some (fi, t) -> f_state fi = true ->
    strange t e -> strange (TEnum st vs) (rel [tag; fn] e)
| StItem t i e : strange t e -> strange (TList t) (rel [i] e)
| StKey kk t k e : strange t e -> strange (TMap kk t) (rel [k] e).

(** ** The view does not depend on runtimes *)

Lemma find_norm_fields n p fs : find_field n (norm_fields p fs) = match find_field n fs with Some (fi, x) => Some (fi, norm (field_rt p fi) x) | None => None end.
Proof. induction fs as [|[fi x] fs IH]; [reflexivity|]. cbn [norm_fields find_field]. destruct (n =? f_tag fi); [reflexivity|exact IH]. Qed.
Definition vsame (t : ty) : Prop := forall q r s p v, norm q (view t r v) = norm q (view t s (norm p v)).
Lemma view_fields_norm q r s p fts fs : Forall (fun x => vsame (snd x)) fts -> norm_fields q (view_fields r fts fs) = norm_fields q (view_fields s fts (norm_fields p fs)).
Proof.
  intros H. unfold view_fields. rewrite !(norm_fields_map q), !map_map. apply map_ext_in. intros [fi t] I. cbn [view_field]. f_equal. rewrite find_norm_fields.
  destruct (find_field (f_tag fi) fs) as [[fj x]|]; [|now rewrite !norm_dflt]. rewrite vwty_norm. destruct (wtype_eqb (wty t) (vwty x)); [|now rewrite !norm_dflt].
  rewrite Forall_forall in H. exact (H _ I _ _ _ _ _).
Qed.
Lemma view_norm t : vsame t.
Proof.
  induction t as [k| | | |t IH|t IH|n t IH|ts IH|k t IHk IHt|t IH|si fts IH|st vs IH|t IH|k t IH] using ty_ind';
    intros q r s p v; destruct v as [| | | |o|l|l|l|l|v|cc r0 fs|tag cc r0 fs|r0 l|r0 es]; try reflexivity;
    try (change (norm q (view ?t ?r ?v)) with (norm q v); rewrite <- (norm_norm v q p); reflexivity);
    try (symmetry; exact (norm_norm _ q p)).
  - destruct o as [x|]; [|reflexivity]. cbn [view norm]. do 2 f_equal. apply IH.
  - cbn [view norm]. f_equal. rewrite !map_map. apply map_ext. intros x. apply IH.
  - cbn [view norm]. f_equal. rewrite !map_map. apply map_ext. intros x. apply IH.
  - cbn [norm]. rewrite !view_tup. cbn [norm]. f_equal. revert l. induction IH as [|t ts H _ IHt]; intros [|x l]; try reflexivity. cbn [view_list map]. f_equal; [apply H|apply IHt].
  - cbn [view norm]. f_equal. rewrite !map_map. apply map_ext. intros [a b]. cbn [fst snd]. f_equal; [apply IHk|apply IHt].
  - cbn [view norm]. f_equal. apply IH.
  - rewrite norm_struct, !view_struct, !norm_struct. f_equal; [now destruct (s_state si)|]. now apply view_fields_norm.
  - rewrite norm_enum, !view_enum. destruct (find_variant vs tag) as [va|] eqn:F.
    + rewrite !norm_enum. f_equal; [now destruct st|]. apply view_fields_norm. rewrite Forall_forall in IH. exact (IH _ (proj1 (find_variant_in _ _ _ F))).
    + rewrite <- norm_enum. symmetry. apply norm_norm.
  - rewrite norm_list, !view_list_eq, !norm_list. f_equal. generalize 0. induction l as [|x l IHl]; intros i; [reflexivity|]. cbn [view_items norm_items]. f_equal; [apply IH|apply IHl].
  - rewrite norm_map, norm_entries_map. cbn [view]. rewrite !norm_map, !norm_entries_map. f_equal. rewrite !map_map. apply map_ext. intros [a b]. cbn [fst snd]. f_equal. apply IH.
Qed.
Lemma view_same t r s v v' : same v v' -> same (view t r v) (view t s v').
Proof. unfold same. intros E. rewrite (view_norm t rt_default r s rt_default v), E. symmetry. apply view_norm. Qed.

(** ** Children of a view *)

Lemma view_fields_put r fts fs n fi t fj x x' : nodupb (map (fun p : finfo * ty => f_tag (fst p)) fts) = true -> find_field n fts = Some (fi, t) -> find_field n fs = Some (fj, x) ->
  vwty x' = wty t -> view_fields r fts (put_field n x' fs) = put_field n (view t (field_rt r fi) x') (view_fields r fts fs).
Proof.
  intros Nd F F' V. apply nodupb_nodup in Nd. unfold view_fields. pose proof (find_field_tag _ _ _ _ F) as T.
  assert (Other : forall l, ~ In n (map (fun p : finfo * ty => f_tag (fst p)) l) -> map (view_field r (put_field n x' fs)) l = map (view_field r fs) l).
  { intros l N. apply map_ext_in. intros [fk u] I. cbn [view_field]. f_equal. rewrite find_put_other; [reflexivity|]. intros E. apply N. symmetry in E. apply (in_map (fun p : finfo * ty => f_tag (fst p))) in I. cbn in I. congruence. }
  induction fts as [|[fk u] fts IH]; [discriminate F|]. cbn [find_field map] in *. inversion Nd as [|? ? N1 N2]; subst. destruct (f_tag fi =? f_tag fk) eqn:E.
  - injection F as -> ->. cbn [view_field put_field]. rewrite N.eqb_refl. f_equal; [|now apply Other].
    rewrite (find_put_same _ _ _ _ _ F'). now rewrite V, wtype_eqb_refl.
  - specialize (IH N2 F). cbn [view_field put_field]. rewrite E. f_equal; [|exact IH]. f_equal. rewrite find_put_other; [reflexivity|]. intros X. rewrite X, N.eqb_refl in E. discriminate E.
Qed.

Lemma view_items_nth t r : forall l i j x, nth_error l j = Some x -> nth_error (view_items t r i l) j = Some (view t (nested r (i + N.of_nat j)) x).
Proof.
  induction l as [|y l IH]; intros i j x E; [destruct j; discriminate E|]. destruct j as [|j]; cbn [nth_error view_items] in *.
  - injection E as ->. do 2 f_equal. f_equal. lia.
  - rewrite (IH (i + 1) j x E). do 3 f_equal. lia.
Qed.
Lemma view_items_set t r x : forall l i j, view_items t r i (set_nth l j x) = set_nth (view_items t r i l) j (view t (nested r (i + N.of_nat j)) x).
Proof.
  induction l as [|y l IH]; intros i j; [reflexivity|]. destruct j as [|j]; cbn [set_nth view_items].
  - do 3 f_equal. lia.
  - f_equal. rewrite IH. do 3 f_equal. lia.
Qed.
Definition view_entries (t : ty) (r : rt) (es : list (N * val)) : list (N * val) := map (fun e : N * val => (fst e, view t (nested r (fst e)) (snd e))) es.
Lemma view_map_eq kk t r r0 es : view (TMap kk t) r (VMap r0 es) = VMap r (view_entries t r es). Proof. reflexivity. Qed.
Lemma view_entries_assoc t r k es : assoc k (view_entries t r es) = match assoc k es with Some x => Some (view t (nested r k) x) | None => None end.
Proof. induction es as [|[a x] es IH]; [reflexivity|]. cbn. destruct (k =? a) eqn:E; [|exact IH]. apply N.eqb_eq in E. now subst. Qed.
Lemma view_entries_insert t r k x es : view_entries t r (im_insert k x es) = im_insert k (view t (nested r k) x) (view_entries t r es).
Proof. induction es as [|[a y] es IH]; [reflexivity|]. cbn. destruct (k =? a) eqn:E; cbn; [apply N.eqb_eq in E; now subst|]. f_equal. exact IH. Qed.

Lemma view_entries_remove t r k es : view_entries t r (im_remove k es) = im_remove k (view_entries t r es).
Proof.
  unfold im_remove. assert (K : key_pos k (view_entries t r es) = key_pos k es) by (unfold view_entries; induction es as [|[a x] es IH]; [reflexivity|]; cbn; now rewrite IH).
  rewrite K. destruct (key_pos k es); [|reflexivity]. unfold view_entries. apply map_swap_remove.
Qed.
Lemma view_items_removelast t r l i : view_items t r i (removelast l) = removelast (view_items t r i l).
Proof.
  destruct l as [|x l _] using rev_ind; [reflexivity|]. rewrite removelast_last, view_items_app. cbn [view_items]. now rewrite removelast_last.
Qed.

(** ** Payloads *)

Lemma merge_view m t t' r x : ty_ok t = true -> ty_ok t' = true -> evolves t t' = true -> arg_ok t x -> takes m t' x = true -> merge m t' (dflt t' r) (enc x) = (view t' r x, Ok []).
Proof.
  intros O O' E (W & _ & L) T. pose proof (decode_ev m t t' r x [] O O' E W T) as X. rewrite app_nil_r in X. apply X; [|auto]. change (2 ^ 63) with (2 ^ 31 * 2 ^ 32). lia.
Qed.
Lemma update_view m t t' x : ty_ok t = true -> ty_ok t' = true -> state_ty t' = true -> evolves t t' = true -> arg_ok t x -> takes m t' x = true -> forall w, wt t' w = true ->
  exists r w', handle_entry m t' (EUpdate [] (enc x)) w = (w', Ok tt) /\ w' = view t' r x.
Proof.
  unfold handle_entry. cbn [entry_path entry_kind entry_key entry_bytes].
  revert t x. induction t' as [k| | | |t' IH|t' IH|n t' IH|ts IH|k t' IHk IHt|t' IH|si fs IH|st vs IH|t' IH|k t' IH] using ty_ind';
    intros t x O O' S E A T w W; try discriminate S.
  6: { destruct w; try discriminate W. exists r. cbn [handle handle_update val_rt]. unfold ok_unit. rewrite (merge_view m t _ r x O O' E A T). eexists; split; reflexivity. }
  6: { destruct w; try discriminate W. exists r. cbn [handle handle_update val_rt]. unfold ok_unit. rewrite (merge_view m t _ r x O O' E A T). eexists; split; reflexivity. }
  - destruct w; try discriminate W. exists rt_default. cbn [handle handle_update]. unfold deserialize. rewrite (merge_view m t _ rt_default x O O' E A T). eexists; split; reflexivity.
  - destruct w; try discriminate W. exists rt_default. cbn [handle handle_update]. unfold deserialize. rewrite (merge_view m t _ rt_default x O O' E A T). eexists; split; reflexivity.
  - destruct t; try discriminate E. destruct A as (Wx & L & Sx). destruct x; try discriminate Wx. destruct w; try discriminate W. cbn [wt ty_ok state_ty evolves takes] in *.
    assert (A : arg_ok t x) by (split; [exact Wx|split; [exact L|exact Sx]]).
    destruct (IH t x O O' S E A T w W) as (r & w' & Eh & ->). exists r. cbn [handle enc]. rewrite Eh. eexists; split; reflexivity.
  - destruct w; try discriminate W. rewrite wt_struct_eq in W. bprop. cbn [state_ty] in S. rewrite S in *. destruct r as [r|]; [|discriminate].
    exists r. cbn [handle handle_update val_rt]. unfold ok_unit. rewrite (merge_view m t _ r x O O' E A T). eexists; split; reflexivity.
  - destruct w; try discriminate W. destruct (wt_enum_inv _ _ _ _ _ _ W) as (c' & fts & V & -> & Wf & Hst & Hb). cbn [state_ty] in S. subst st.
    destruct r as [r|]; [|discriminate]. destruct (below_parent r Hb) as (p & Ep). exists p.
    cbn [handle handle_update]. rewrite Ep. unfold ok_unit. rewrite (merge_view m t _ p x O O' E A T). eexists; split; reflexivity.
Qed.

(** ** One entry *)

Lemma entry_wt m t e v v' o : ty_ok t = true -> state_ty t = true -> wt t v = true -> entry_ok e -> handle_entry m t e v = (v', o) -> wt t v' = true.
Proof. intros O S W Oe E. pose proof (handle_entry_good m t e v O S W Oe) as H. rewrite E in H. now destruct H. Qed.

(** A step into a child both versions have. *)
Lemma child_step m m' t t' v w s u u' x r q e v' : ty_ok t = true -> state_ty t = true -> ty_ok t' = true -> state_ty t' = true -> wt t v = true -> wt t' w = true -> same (view t' r v) w ->
  child t v s = Some (u, x) -> state_step v s = true -> child t' (view t' r v) s = Some (u', view u' q x) -> state_step (view t' r v) s = true -> seg (view t' r v) s = seg v s ->
  (forall x', wt u x' = true -> view t' r (put_child v s x') = put_child (view t' r v) s (view u' q x')) ->
  (forall y x', ty_ok u = true -> state_ty u = true -> ty_ok u' = true -> state_ty u' = true -> wt u x = true -> wt u' y = true -> same (view u' q x) y ->
     handle_entry m u e x = (x', Ok tt) -> wt u x' = true /\ exists y', handle_entry m' u' e y = (y', Ok tt) /\ same (view u' q x') y') ->
  handle_entry m t (rel (seg v s) e) v = (v', Ok tt) ->
  exists w', handle_entry m' t' (rel (seg v s) e) w = (w', Ok tt) /\ same (view t' r v') w'.
Proof.
  intros O S O' S' W W' Sm Ch Ss Ch' Ss' Sg Put IH E.
  destruct (same_child _ _ _ _ _ _ Sm Ch') as (y & Cw & Sy). rewrite (same_state_step _ _ _ Sm) in Ss'.
  destruct (child_wt _ _ _ _ _ O W Ch) as (Ou & Wx & Su). destruct (child_wt _ _ _ _ _ O' W' Cw) as (Ou' & Wy & Su').
  rewrite (handle_entry_child m _ _ _ _ _ e O S W Ch Ss) in E. destruct (handle_entry m u e x) as [x' o] eqn:Ex. injection E as <- ->.
  destruct (IH y x' Ou (Su S Ss) Ou' (Su' S' Ss') Wx Wy Sy eq_refl) as (Wx' & y' & Ey & Sy').
  rewrite <- Sg, (same_seg _ _ _ Sm), (handle_entry_child m' _ _ _ _ _ e O' S' W' Cw Ss'), Ey. eexists. split; [reflexivity|].
  rewrite Put by exact Wx'. eapply same_put; eassumption.
Qed.

Lemma view_wty t t' r x x' : evolves t t' = true -> wt t x = true -> wt t x' = true -> vwty (view t' r x') = vwty x.
Proof. intros E W W'. rewrite (vwty_view t t' r x' E W'). symmetry. now apply wt_vwty. Qed.

Lemma follow_entry m m' t t' e : follows m' t t' e -> forall v w v' r, ty_ok t = true -> state_ty t = true -> ty_ok t' = true -> state_ty t' = true -> wt t v = true -> wt t' w = true ->
  same (view t' r v) w -> entry_ok e -> handle_entry m t e v = (v', Ok tt) -> exists w', handle_entry m' t' e w = (w', Ok tt) /\ same (view t' r v') w'.
Proof.
  induction 1 as [t t' x A Ev Tk|t t' x A Ev Tk|t t'|kk kk' t t' k|t t' e F IH|si si' fts fts' fn fi fi' t t' e F1 F2 G1 G2 Wy F IH|st st' vs vs' tag va va' fn fi fi' t t' e V F1 F2 V' G1 G2 Wy F IH|t t' i e F IH|kk kk' t t' k e F IH];
    intros v w v' r O S O' S' W W' Sm Oe E.
  - destruct (update_same m t x O S A v W) as (v1 & E1 & Sx & _). rewrite E in E1. injection E1 as <-.
    destruct (update_view m' t t' x O O' S' Ev A Tk w W') as (q & w' & Ew & ->). exists (view t' q x). split; [exact Ew|]. apply view_same. now apply same_sym.
  - destruct v as [| | | | | | | | | | | |r0 l|]; try discriminate W. rewrite view_list_eq in Sm. destruct (same_list_inv t' _ _ w W' Sm) as (r' & l' & -> & Len & Nm).
    cbn [ty_ok] in O, O'. bprop. unfold handle_entry in *. cbn [entry_path entry_kind entry_key entry_bytes handle] in *.
    rewrite (merge_arg m t _ x ltac:(assumption) A) in E. injection E as <-.
    rewrite (merge_view m' t t' _ x ltac:(assumption) ltac:(assumption) Ev A Tk). eexists. split; [reflexivity|].
    rewrite view_list_eq, view_items_app. cbn [view_items]. apply same_push; try assumption. apply view_same, same_sym, same_norm.
  - destruct v as [| | | | | | | | | | | |r0 l|]; try discriminate W. rewrite view_list_eq in Sm. destruct (same_list_inv t' _ _ w W' Sm) as (r' & l' & -> & Len & Nm).
    unfold handle_entry in *. cbn [entry_path entry_kind entry_key entry_bytes handle] in *. destruct l as [|z l]; [discriminate E|]. injection E as <-.
    destruct l' as [|z' l']; [rewrite view_items_len in Len; discriminate Len|]. eexists. split; [reflexivity|].
    change (match l with [] => [] | _ :: _ => z :: removelast l end) with (removelast (z :: l)).
    change (match l' with [] => [] | _ :: _ => z' :: removelast l' end) with (removelast (z' :: l')).
    rewrite view_list_eq. apply same_list. rewrite view_items_removelast, !norm_items_removelast. now rewrite Nm.
  - destruct v as [| | | | | | | | | | | | |r0 es]; try discriminate W. destruct w as [| | | | | | | | | | | | |r' es']; try discriminate W'.
    rewrite view_map_eq in Sm. apply same_map in Sm. pose proof (same_assoc _ _ k Sm) as K. rewrite view_entries_assoc in K.
    unfold handle_entry in *. cbn [entry_path entry_kind entry_key entry_bytes handle] in *. destruct (assoc k es) as [x|]; [|discriminate E]. injection E as <-.
    destruct (assoc k es') as [y|]; [|contradiction K]. eexists. split; [reflexivity|]. rewrite view_map_eq. apply same_map.
    rewrite view_entries_remove, !norm_entries_remove. now rewrite Sm.
  - destruct v as [| | | | | | | | |x| | | |]; try discriminate W.
    rewrite <- (rel_nil e) in E |- *. apply (child_step m m' (TBox t) (TBox t') (VBox x) w SBox t t' x r r e v'); try assumption; try reflexivity.
    intros y x' Ou Su Ou' Su' Wx Wy Sy Ex. split; [now apply (entry_wt m t e x x' (Ok tt))|]. now apply (IH x y x' r).
  - destruct v as [| | | | | | | | | |cc r0 fs| | |]; try discriminate W. pose proof W as W0. rewrite wt_struct_eq in W0. bprop.
    pose proof (find_field_wt fn fts fs ltac:(assumption)) as X. rewrite F1 in X. destruct X as (x & F' & Wx). pose proof O' as O2. rewrite ty_ok_struct in O2. bprop.
    assert (Vx : vwty x = wty t') by (rewrite Wy; now apply wt_vwty).
    assert (Fv : find_field fn (view_fields r fts' fs) = Some (fi', view t' (field_rt r fi') x)).
    { rewrite find_view_fields, G1. cbn [view_field]. rewrite (find_field_tag _ _ _ _ G1), F', Vx, wtype_eqb_refl. reflexivity. }
    apply (child_step m m' (TStruct si fts) (TStruct si' fts') (VStruct cc r0 fs) w (SField fn) t t' x r (field_rt r fi') e v'); try assumption.
    + cbn. unfold field_child. now rewrite F1, F'.
    + cbn. now rewrite F'.
    + rewrite view_struct. cbn. unfold field_child. now rewrite G1, Fv.
    + rewrite view_struct. cbn. now rewrite Fv.
    + reflexivity.
    + intros x' Wx'. cbn [put_child]. rewrite !view_struct. cbn [put_child]. f_equal. apply (view_fields_put r fts' fs fn fi' t' fi x); try assumption. rewrite Wy. now apply wt_vwty.
    + intros y x' Ou Su Ou' Su' _ Wy' Sy Ex. apply rel_ok in Oe. split; [now apply (entry_wt m t e x x' (Ok tt))|]. now apply (IH x y x' (field_rt r fi')).
  - destruct v as [| | | | | | | | | | |tag0 cc r0 fs| |]; try discriminate W.
    assert (Tg : tag0 = tag).
    { destruct (wt_enum_inv _ _ _ _ _ _ W) as (_ & _ & _ & _ & _ & Hst & _). cbn [state_ty] in S. subst st. destruct r0 as [r0|]; [|discriminate].
      unfold handle_entry in E. destruct e; cbn [rel app entry_path entry_kind entry_key entry_bytes handle] in E;
        destruct (assoc tag _); try discriminate E; destruct (tag0 =? tag) eqn:X; try discriminate E; now apply N.eqb_eq in X. }
    subst tag0. destruct (wt_enum_inv _ _ _ _ _ _ W) as (c' & fts & V0 & -> & Wf & _). rewrite V in V0. inversion V0; subst va. cbn [snd] in F1.
    pose proof (find_field_wt fn fts fs Wf) as X. rewrite F1 in X. destruct X as (x & F' & Wx).
    pose proof (variant_fields_ok _ _ _ O' (proj1 (find_variant_in _ _ _ V'))) as (_ & FO' & FN').
    assert (Vx : vwty x = wty t') by (rewrite Wy; now apply wt_vwty).
    assert (Fv : find_field fn (view_fields (nested r tag) (snd va') fs) = Some (fi', view t' (field_rt (nested r tag) fi') x)).
    { rewrite find_view_fields, G1. cbn [view_field]. rewrite (find_field_tag _ _ _ _ G1), F', Vx, wtype_eqb_refl. reflexivity. }
    apply (child_step m m' (TEnum st vs) (TEnum st' vs') (VEnum tag cc r0 fs) w (SField fn) t t' x r (field_rt (nested r tag) fi') e v'); try assumption.
    + cbn. rewrite V. cbn. unfold field_child. now rewrite F1, F'.
    + cbn. now rewrite F'.
    + rewrite view_enum, V'. cbn. rewrite V'. unfold field_child. now rewrite G1, Fv.
    + rewrite view_enum, V'. cbn. now rewrite Fv.
    + rewrite view_enum, V'. reflexivity.
    + intros x' Wx'. cbn [put_child]. rewrite !view_enum, V'. cbn [put_child]. f_equal. apply (view_fields_put _ (snd va') fs fn fi' t' fi x); try assumption. rewrite Wy. now apply wt_vwty.
    + intros y x' Ou Su Ou' Su' _ Wy' Sy Ex. apply rel_ok in Oe. split; [now apply (entry_wt m t e x x' (Ok tt))|]. now apply (IH x y x' (field_rt (nested r tag) fi')).
  - destruct v as [| | | | | | | | | | | |r0 l|]; try discriminate W. destruct (nth_error l (N.to_nat i)) as [x|] eqn:X.
    2:{ unfold handle_entry in E. destruct e; cbn [rel app entry_path entry_kind entry_key entry_bytes handle] in E; rewrite X in E; discriminate E. }
    pose proof (view_items_nth t' r l 0 _ x X) as Xv. rewrite N.add_0_l in Xv.
    apply (child_step m m' (TList t) (TList t') (VList r0 l) w (SItem i) t t' x r (nested r (N.of_nat (N.to_nat i))) e v'); try assumption; try reflexivity.
    + cbn. now rewrite X.
    + rewrite view_list_eq. cbn [child]. now rewrite Xv.
    + intros x' Wx'. cbn [put_child]. rewrite !view_list_eq. cbn [put_child]. f_equal. rewrite view_items_set. now rewrite N.add_0_l.
    + intros y x' Ou Su Ou' Su' Wx Wy' Sy Ex. apply rel_ok in Oe. split; [now apply (entry_wt m t e x x' (Ok tt))|]. now apply (IH x y x' (nested r (N.of_nat (N.to_nat i)))).
  - destruct v as [| | | | | | | | | | | | |r0 es]; try discriminate W. destruct (assoc k es) as [x|] eqn:X.
    + apply (child_step m m' (TMap kk t) (TMap kk' t') (VMap r0 es) w (SKey k) t t' x r (nested r k) e v'); try assumption; try reflexivity.
      * cbn. now rewrite X.
      * rewrite view_map_eq. cbn [child]. now rewrite view_entries_assoc, X.
      * intros x' Wx'. cbn [put_child]. rewrite !view_map_eq. cbn [put_child]. f_equal. apply view_entries_insert.
      * intros y x' Ou Su Ou' Su' Wx Wy' Sy Ex. apply rel_ok in Oe. split; [now apply (entry_wt m t e x x' (Ok tt))|]. now apply (IH x y x' (nested r k)).
    + destruct w as [| | | | | | | | | | | | |r' es']; try discriminate W'. rewrite view_map_eq in Sm. apply same_map in Sm. pose proof (same_assoc _ _ k Sm) as K. rewrite view_entries_assoc, X in K.
      destruct (assoc k es') eqn:Y; [contradiction K|].
      assert (Fl : exists x, e = EUpdate [] (enc x) /\ arg_ok t x /\ evolves t t' = true /\ takes m' t' x = true).
      { assert (B : exists bs, e = EUpdate [] bs).
        { unfold handle_entry in E. destruct e as [p bs|p bs|p|p kx]; cbn [rel app entry_path entry_kind entry_key entry_bytes handle] in E; rewrite X in E; try discriminate E.
          destruct p; [eauto|discriminate E]. }
        destruct B as (bs & ->). clear - F. remember (EUpdate [] bs) as e. revert bs Heqe.
        induction F; intros bs Heq; try discriminate Heq; try (destruct e; discriminate Heq).
        - injection Heq as Heq. exists x. subst. auto.
        - destruct (IHF bs Heq) as (x & Ex & (A1 & A2 & A3) & Ev & Tk). exists (VBox x). repeat split; assumption. }
      destruct Fl as (x & -> & A & Ev & Tk). unfold handle_entry in *. cbn [rel app entry_path entry_kind entry_key entry_bytes handle] in *. rewrite X in E. rewrite Y.
      cbn [ty_ok] in O, O'. bprop.
      rewrite (merge_arg m t _ x ltac:(assumption) A) in E. injection E as <-.
      rewrite (merge_view m' t t' _ x ltac:(assumption) ltac:(assumption) Ev A Tk). eexists. split; [reflexivity|].
      rewrite view_map_eq, view_entries_insert. apply same_insert; [exact Sm|]. apply view_same, same_sym, same_norm.
Qed.

Lemma follow_all m m' t t' es : ty_ok t = true -> state_ty t = true -> ty_ok t' = true -> state_ty t' = true -> Forall (follows m' t t') es -> Forall entry_ok es ->
  forall v w v' r, wt t v = true -> wt t' w = true -> same (view t' r v) w -> handle_all m t es v = (v', Ok tt) ->
  exists w', handle_all m' t' es w = (w', Ok tt) /\ wt t' w' = true /\ same (view t' r v') w'.
Proof.
  intros O S O' S' F. induction F as [|e es Fe _ IH]; intros Oe v w v' r W W' Sm H; cbn [handle_all] in *.
  - injection H as <-. eauto.
  - inversion Oe as [|? ? Oe1 Oe2]; subst. destruct (handle_entry m t e v) as [v1 [[]|x| |]] eqn:E; try discriminate H.
    destruct (follow_entry m m' t t' e Fe v w v1 r O S O' S' W W' Sm Oe1 E) as (w1 & E1 & S1). rewrite E1.
    apply (IH Oe2 v1); try assumption; eapply entry_wt; eassumption.
Qed.

(** ** Strange entries *)

Lemma find_field_map {A B} (f : A -> B) n fs : find_field n (map (fun p : finfo * A => let '(fi, x) := p in (fi, f x)) fs) = match find_field n fs with Some (fi, x) => Some (fi, f x) | None => None end.
Proof. induction fs as [|[fi x] fs IH]; [reflexivity|]. cbn. destruct (n =? f_tag fi); [reflexivity|exact IH]. Qed.
Lemma assoc_variants {B} (f : list (finfo * ty) -> B) tag vs : assoc tag (map (fun va : (N * bool) * list (finfo * ty) => (fst (fst va), f (snd va))) vs) =
  match find_variant vs tag with Some va => Some (f (snd va)) | None => None end.
Proof. unfold find_variant. induction vs as [|[[tg c] fs] vs IH]; [reflexivity|]. cbn. rewrite (N.eqb_sym tag tg). destruct (tg =? tag); [reflexivity|exact IH]. Qed.

Lemma child_stop m t v s u x e er : ty_ok t = true -> state_ty t = true -> wt t v = true -> child t v s = Some (u, x) -> state_step v s = true ->
  (ty_ok u = true -> state_ty u = true -> wt u x = true -> handle_entry m u e x = (x, er)) -> handle_entry m t (rel (seg v s) e) v = (v, er).
Proof.
  intros O S W Ch Ss H. destruct (child_wt _ _ _ _ _ O W Ch) as (Ou & Wx & Su). rewrite (handle_entry_child m _ _ _ _ _ e O S W Ch Ss), H; auto.
  now rewrite (put_child_same _ _ _ _ _ Ch).
Qed.
Lemma strange_path t e : strange t e -> entry_path e <> [].
Proof. induction 1; try (destruct e; discriminate). exact IHstrange. Qed.
Lemma strange_entry m t e : strange t e -> forall v, ty_ok t = true -> state_ty t = true -> wt t v = true -> handle_entry m t e v = (v, Err InvalidData).
Proof.
  assert (Hd : forall n e, entry_path (rel [n] e) = n :: entry_path e /\ entry_kind (rel [n] e) = entry_kind e /\ entry_key (rel [n] e) = entry_key e /\ entry_bytes (rel [n] e) = entry_bytes e) by (intros n [| | |]; auto).
  assert (Hd2 : forall n k e, entry_path (rel [n; k] e) = n :: k :: entry_path e /\ entry_kind (rel [n; k] e) = entry_kind e /\ entry_key (rel [n; k] e) = entry_key e /\ entry_bytes (rel [n; k] e) = entry_bytes e) by (intros n k [| | |]; auto).
  induction 1 as [si fts fn e F|st vs tag e V|st vs tag va fn e V F|t e H IH|si fts fn fi t e F Fs H IH|st vs tag va fn fi t e V F Fs H IH|t i e H IH|kk t k e H IH]; intros v O S W.
  - destruct v as [| | | | | | | | | |cc r fs| | |]; try discriminate W. rewrite wt_struct_eq in W. bprop. cbn [state_ty] in S. rewrite S in *. destruct r as [r|]; [|discriminate].
    unfold handle_entry. destruct (Hd fn e) as (-> & -> & -> & ->). cbn [handle]. unfold handle_field. rewrite find_field_map, F. reflexivity.
  - destruct v as [| | | | | | | | | | |tag0 cc r fs| |]; try discriminate W. destruct (wt_enum_inv _ _ _ _ _ _ W) as (_ & _ & _ & _ & _ & Hst & _). cbn [state_ty] in S. subst st. destruct r as [r|]; [|discriminate].
    unfold handle_entry. destruct (Hd tag e) as (-> & -> & -> & ->). cbn [handle]. rewrite (assoc_variants (fun fs => map _ fs)), V. reflexivity.
  - destruct v as [| | | | | | | | | | |tag0 cc r fs| |]; try discriminate W. destruct (wt_enum_inv _ _ _ _ _ _ W) as (_ & _ & _ & _ & _ & Hst & _). cbn [state_ty] in S. subst st. destruct r as [r|]; [|discriminate].
    unfold handle_entry. destruct (Hd2 tag fn e) as (-> & -> & -> & ->). cbn [handle]. rewrite (assoc_variants (fun fs => map _ fs)), V. destruct (tag0 =? tag); [|reflexivity].
    unfold handle_field. rewrite find_field_map, F. reflexivity.
  - destruct v as [| | | | | | | | |x| | | |]; try discriminate W. rewrite <- (rel_nil e). apply (child_stop m _ (VBox x) SBox t x e); try assumption; try reflexivity. intros Ou Su Wx. now apply IH.
  - destruct v as [| | | | | | | | | |cc r fs| | |]; try discriminate W. pose proof W as W0. rewrite wt_struct_eq in W0. bprop.
    pose proof (find_field_wt fn fts fs ltac:(assumption)) as X. rewrite F in X. destruct X as (x & F' & Wx).
    apply (child_stop m _ (VStruct cc r fs) (SField fn) t x e); try assumption; [cbn; unfold field_child; now rewrite F, F'|cbn; now rewrite F'|]. intros Ou Su _. now apply IH.
  - destruct v as [| | | | | | | | | | |tag0 cc r fs| |]; try discriminate W. destruct (tag0 =? tag) eqn:Tg.
    + apply N.eqb_eq in Tg. subst tag0. destruct (wt_enum_inv _ _ _ _ _ _ W) as (c' & fts & V0 & -> & Wf & _). rewrite V in V0. inversion V0; subst va. cbn [snd] in F.
      pose proof (find_field_wt fn fts fs Wf) as X. rewrite F in X. destruct X as (x & F' & Wx).
      apply (child_stop m _ (VEnum tag cc r fs) (SField fn) t x e); try assumption; [cbn; rewrite V; cbn; unfold field_child; now rewrite F, F'|cbn; now rewrite F'|]. intros Ou Su _. now apply IH.
    + destruct (wt_enum_inv _ _ _ _ _ _ W) as (_ & _ & _ & _ & _ & Hst & _). cbn [state_ty] in S. subst st. destruct r as [r|]; [|discriminate].
      unfold handle_entry. destruct (Hd2 tag fn e) as (-> & -> & -> & ->). cbn [handle]. rewrite (assoc_variants (fun fs => map _ fs)), V, Tg. reflexivity.
  - destruct v as [| | | | | | | | | | | |r l|]; try discriminate W. destruct (nth_error l (N.to_nat i)) as [x|] eqn:X.
    + apply (child_stop m _ (VList r l) (SItem i) t x e); try assumption; [cbn; now rewrite X|]. intros Ou Su Wx. now apply IH.
    + unfold handle_entry. destruct (Hd i e) as (-> & -> & -> & ->). cbn [handle]. now rewrite X.
  - destruct v as [| | | | | | | | | | | | |r es]; try discriminate W. destruct (assoc k es) as [x|] eqn:X.
    + apply (child_stop m _ (VMap r es) (SKey k) t x e); try assumption; [cbn; now rewrite X|]. intros Ou Su Wx. now apply IH.
    + apply strange_path in H. unfold handle_entry. destruct (Hd k e) as (-> & -> & -> & ->). cbn [handle]. rewrite X. destruct (entry_kind e); try reflexivity. destruct (entry_path e); [congruence|reflexivity].
Qed.
