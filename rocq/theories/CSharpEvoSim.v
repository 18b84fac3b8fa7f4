(** Proofs for C54: a C# replica of another version of the type follows the log. *)
From Verif Require Import Base Varint WireFmt Utf8 Types Ser Spec De Log State StateSpec Coll ValInd VarintProofs WireProofs SerProofs TypeProofs EqProofs DeProofs RoundTrip MergeProofs NormProofs LogProofs TreeProofs CohProofs HandleProofs OpProofs ExecProofs ReplayProofs CSharp CSharpProofs CSharpSim CSharpSafe CSharpEvo.

Lemma ftags_norm r fs : ftags (map (fun p : finfo * val => let '(fi, x) := p in (fi, norm (field_rt r fi) x)) fs) = ftags fs.
Proof. unfold ftags. rewrite map_map. apply map_ext. now intros [fi x]. Qed.

Lemma sees_norm v : forall r c w, sees (norm r v) c w <-> sees v c w.
Proof.
  induction v as [v L|v IH|v C IH] using val_slots_ind; intros r c w.
  - destruct v; try discriminate L; reflexivity.
  - cbn. apply IH.
  - assert (FF : forall r fs cfs xs, Forall (fun s : slot => forall r c w, sees (norm r (snd s)) c w <-> sees (snd s) c w) (map fslot fs) ->
      (sees_fields (map (fun p : finfo * val => let '(fi, x) := p in (fi, norm (field_rt r fi) x)) fs) cfs xs <-> sees_fields fs cfs xs)).
    { intros s fs cfs xs H. unfold sees_fields. rewrite ftags_norm.
      enough (K : known (map (fun p : finfo * val => let '(fi, x) := p in (fi, norm (field_rt s fi) x)) fs) cfs xs <-> known fs cfs xs) by now rewrite K.
      induction fs as [|[fi x] fs IHf]; [reflexivity|]. cbn [map known] in *. inversion H as [|? ? X1 IH2]; subst. cbn in X1. rewrite IHf by exact IH2. rewrite vwty_norm.
      destruct (assoc (f_tag fi) cfs) as [[g c']|]; [|reflexivity]. destruct (assoc (f_tag fi) xs); [|reflexivity]. destruct (wtype_eqb _ _); [|reflexivity]. now rewrite X1. }
    assert (II : forall r l c ys, Forall (fun x => forall r c w, sees (norm r x) c w <-> sees x c w) l -> (sees_items (map (norm r) l) c ys <-> sees_items l c ys)).
    { intros s. induction l as [|x l IHl]; intros c' [|y ys] H; try reflexivity. inversion H as [|? ? X1 IH2]; subst. cbn [map sees_items]. now rewrite X1, IHl. }
    destruct v as [| | | |[x|]|l|l|l|l| |cc ra fs|tag cc ra fs|ra l|ra es]; try discriminate C; clear C; cbn [slots] in IH.
    + inversion IH; subst. cbn in *. destruct c; try reflexivity. destruct w as [| | | |[y|]| | | | |]; auto; reflexivity.
    + reflexivity.
    + apply (slot_items (fun x => forall r c w, sees (norm r x) c w <-> sees x c w)) in IH. destruct c; try reflexivity. destruct w; try reflexivity. now apply II.
    + apply (slot_items (fun x => forall r c w, sees (norm r x) c w <-> sees x c w)) in IH. destruct c; try reflexivity. destruct w; try reflexivity. now apply II.
    + destruct c; try reflexivity; destruct w; reflexivity.
    + destruct c; try reflexivity; destruct w; reflexivity.
    + destruct c; try reflexivity. destruct w; try reflexivity. now apply FF.
    + destruct c; try reflexivity. destruct w; try reflexivity. cbn [norm]. rewrite !sees_enum. destruct (assoc tag vs); [|reflexivity]. rewrite FF by exact IH. reflexivity.
    + apply (slot_items (fun x => forall r c w, sees (norm r x) c w <-> sees x c w)) in IH. destruct c; try reflexivity. destruct w as [| | | | | |ys| | |]; try reflexivity. rewrite norm_list.
      change (sees_items (norm_items r 0 l) c ys <-> sees_items l c ys).
      generalize 0. revert ys. induction IH as [|x l Hx _ IHl]; intros [|y ys] i; try reflexivity. cbn. now rewrite Hx, IHl.
    + destruct c; try reflexivity. destruct w as [| | | | | | |es'| |]; try reflexivity. rewrite norm_map.
      change (length (norm_entries r es) = length es' /\ NoDup (map fst es') /\ sees_entries (norm_entries r es) c es' <-> length es = length es' /\ NoDup (map fst es') /\ sees_entries es c es').
      replace (length (norm_entries r es)) with (length es) by (rewrite <- (map_length fst es), <- (map_length fst (norm_entries r es)); now rewrite map_norm_fst).
      enough (K : sees_entries (norm_entries r es) c es' <-> sees_entries es c es') by now rewrite K.
      induction es as [|[k x] l IHl]; [reflexivity|]. cbn [map] in IH. inversion IH as [|? ? X1 IH2]; subst. cbn [snd mslot] in X1.
      cbn [norm_entries sees_entries]. rewrite IHl by exact IH2. destruct (assoc k es'); [now rewrite X1|reflexivity].
Qed.
Lemma sees_same v v' c w : same v v' -> sees v c w <-> sees v' c w.
Proof. intros S. unfold same in S. now rewrite <- (sees_norm v rt_default), S, sees_norm. Qed.

(** ** Dictionaries, fields and items *)

Definition shows (c : cty) (o : option val) (p : option cval) : Prop :=
  match o, p with Some x, Some y => sees x c y | None, None => True | _, _ => False end.
Definition sees_map (es : list (N * val)) (c : cty) (es' : list (N * cval)) : Prop := length es = length es' /\ NoDup (map fst es') /\ sees_entries es c es'.
Lemma sees_entries_in es c es' : sees_entries es c es' <-> forall k x, In (k, x) es -> exists y, assoc k es' = Some y /\ sees x c y.
Proof.
  induction es as [|[k x] es IH]; cbn [sees_entries]; [split; [intros _ ? ? []|auto]|]. rewrite IH. split.
  - intros [A B] k' x' [E|I]; [|auto]. injection E as <- <-. destruct (assoc k es'); [eauto|contradiction].
  - intros H. split; [|auto with datatypes]. destruct (H k x (or_introl eq_refl)) as (y & -> & S). exact S.
Qed.
Lemma sees_map_spec es c es' : NoDup (map fst es) -> sees_map es c es' <-> NoDup (map fst es') /\ forall k, shows c (assoc k es) (assoc k es').
Proof.
  intros D. unfold sees_map. rewrite sees_entries_in. split.
  - intros (L & N & F). split; [exact N|].
    assert (Inc : incl (map fst es) (map fst es')).
    { intros k I. apply assoc_some_in. apply in_map_iff in I. destruct I as ([k' x] & E & I). cbn in E. subst k'. destruct (F _ _ I) as (y & -> & _). discriminate. }
    assert (Inc' : incl (map fst es') (map fst es)) by (apply NoDup_length_incl; try assumption; rewrite !map_length; lia).
    intros k. unfold shows. destruct (assoc k es) as [x|] eqn:A.
    + apply assoc_in in A. destruct (F _ _ A) as (y & -> & S). exact S.
    + destruct (assoc k es') as [y|] eqn:B; [|exact I]. assert (X : In k (map fst es)) by (apply Inc', assoc_some_in; congruence). apply assoc_some_in in X. congruence.
  - intros [N F]. assert (Inc : incl (map fst es) (map fst es')).
    { intros k I. apply assoc_some_in in I. apply assoc_some_in. specialize (F k). destruct (assoc k es), (assoc k es'); try contradiction; congruence. }
    assert (Inc' : incl (map fst es') (map fst es)).
    { intros k I. apply assoc_some_in in I. apply assoc_some_in. specialize (F k). destruct (assoc k es), (assoc k es'); try contradiction; congruence. }
    apply (NoDup_incl_length D) in Inc. apply (NoDup_incl_length N) in Inc'. rewrite !map_length in *. split; [lia|]. split; [exact N|].
    intros k x I. specialize (F k). rewrite (assoc_nodup k x es D I) in F. destruct (assoc k es') as [y|]; [exists y; auto|contradiction F].
Qed.
Lemma sees_insert c es es' k x y : NoDup (map fst es) -> sees_map es c es' -> sees x c y -> sees_map (im_insert k x es) c (im_insert k y es').
Proof.
  intros D L E. apply sees_map_spec in L; [|exact D]. destruct L as [D' L]. apply sees_map_spec; [now apply nodup_im|]. split; [now apply nodup_im|].
  intros k'. rewrite !assoc_im. destruct (k' =? k); [exact E|apply L].
Qed.
Lemma sees_remove c es es' k : NoDup (map fst es) -> sees_map es c es' -> sees_map (im_remove k es) c (filter (fun e => negb (fst e =? k)) es').
Proof.
  intros D L. apply sees_map_spec in L; [|exact D]. destruct L as [D' L].
  assert (Dr : NoDup (map fst (im_remove k es))).
  { clear - D. unfold im_remove. pose proof (key_pos_assoc k es) as K. destruct (key_pos k es) as [i|]; [|exact D].
    destruct K as (x & K & _). apply swap_remove_spec in K. eapply Permutation.Permutation_NoDup in D; [|apply Permutation.Permutation_map, K]. cbn in D. now inversion D. }
  apply sees_map_spec; [exact Dr|]. split; [now apply nodup_filter|].
  intros k'. rewrite PropColl.assoc_remove, assoc_filter by exact D. destruct (k' =? k); [exact I|apply L].
Qed.

Lemma known_find fs cfs xs fn fi x g c : known fs cfs xs -> find_field fn fs = Some (fi, x) -> assoc fn cfs = Some (g, c) -> c_field_wty g c = vwty x ->
  exists y, assoc fn xs = Some y /\ sees x c y.
Proof.
  induction fs as [|[fj z] fs IH]; cbn [known]; intros K F A W; [discriminate F|]. destruct K as [K K']. cbn in F. destruct (fn =? f_tag fj) eqn:E; [|auto].
  injection F as <- <-. apply N.eqb_eq in E. subst fn. rewrite A, W in K. destruct (assoc (f_tag fj) xs) as [y|]; [|contradiction].
  exists y. split; [reflexivity|]. now destruct (vwty z).
Qed.
Lemma ftags_put fn x fs : ftags (put_field fn x fs) = ftags fs.
Proof. unfold ftags. induction fs as [|[fi y] fs IH]; [reflexivity|]. cbn [put_field]. destruct (fn =? f_tag fi); cbn; [reflexivity|now rewrite IH]. Qed.
Lemma known_other fs cfs xs xs' : (forall tag, In tag (ftags fs) -> assoc tag xs' = assoc tag xs) -> known fs cfs xs -> known fs cfs xs'.
Proof.
  induction fs as [|[fi y] fs IH]; [auto|]. unfold ftags. cbn [known map fst]. intros H [K K']. split; [|apply IH; [|exact K']; intros; apply H; now right].
  rewrite (H (f_tag fi)) by now left. exact K.
Qed.
(** A field the object does not have changes. *)
Lemma sees_put_unknown fs cfs xs fn x : assoc fn cfs = None -> sees_fields fs cfs xs -> sees_fields (put_field fn x fs) cfs xs.
Proof.
  intros A (M & K & F). split; [exact M|]. rewrite ftags_put. split; [|exact F]. clear F. induction fs as [|[fi y] fs IH]; [auto|]. cbn [known put_field] in *. destruct K as [K K'].
  destruct (fn =? f_tag fi) eqn:E; cbn [known]; [|auto]. apply N.eqb_eq in E. subst fn. rewrite A. auto.
Qed.
Lemma sees_put fs cfs xs fn fi x x' y0 y g c : NoDup (ftags fs) -> assoc fn cfs = Some (g, c) -> find_field fn fs = Some (fi, x) -> vwty x' = vwty x -> c_field_wty g c = vwty x ->
  assoc fn xs = Some y0 -> sees_fields fs cfs xs -> sees x' c y -> sees_fields (put_field fn x' fs) cfs (c_put fn y xs).
Proof.
  intros D A F V W Ay (M & K & Fr) Sy. split; [now rewrite c_put_tags|]. rewrite ftags_put. split.
  - clear Fr. revert D F K. unfold ftags. induction fs as [|[fj z] fs IH]; intros D F K; [discriminate F|]. cbn [map fst] in D. inversion D as [|? ? D1 D2]; subst.
    cbn [known put_field find_field] in *. destruct K as [K K']. cbn in F. destruct (fn =? f_tag fj) eqn:E; cbn [known].
    + injection F as <- <-. apply N.eqb_eq in E. subst fn. rewrite A, assoc_c_put, N.eqb_refl, Ay, V, W. split; [destruct (vwty z); exact Sy|].
      apply (known_other fs cfs xs); [|exact K']. intros tag I. rewrite assoc_c_put. destruct (tag =? f_tag fj) eqn:E; [|reflexivity]. apply N.eqb_eq in E. subst. contradiction.
    + split; [|now apply IH]. rewrite assoc_c_put. rewrite N.eqb_sym, E. exact K.
  - intros tag g' c' At Nt. rewrite assoc_c_put. destruct (tag =? fn) eqn:E; [|now apply (Fr tag g' c')]. exfalso. apply N.eqb_eq in E. subst tag. apply Nt.
    clear - F. unfold ftags. induction fs as [|[fj z] fs IH]; [discriminate F|]. cbn in *. destruct (fn =? f_tag fj) eqn:E; [left; apply N.eqb_eq in E; auto|right; auto].
Qed.
Lemma sees_items_nth c l : forall ys i x, sees_items l c ys -> nth_error l i = Some x -> exists y, nth_error ys i = Some y /\ sees x c y.
Proof.
  induction l as [|z l IH]; intros [|y ys] [|i] x L E; try contradiction; try discriminate E; destruct L as [A B]; cbn in *.
  - injection E as <-. eauto.
  - eauto.
Qed.
Lemma sees_items_set c l : forall ys i x y, sees_items l c ys -> sees x c y -> sees_items (set_nth l i x) c (set_nth ys i y).
Proof. induction l as [|z l IH]; intros [|w ys] [|i] x y L E; try contradiction; try exact I; destruct L as [A B]; cbn [sees_items set_nth]; auto. Qed.
Lemma sees_items_snoc c l x y : forall ys, sees_items l c ys -> sees x c y -> sees_items (l ++ [x]) c (ys ++ [y]).
Proof. induction l as [|z l IH]; intros [|w ys] L E; try contradiction; cbn [app sees_items] in *; [auto|]. destruct L as [A B]. auto. Qed.
Lemma sees_items_removelast c l : forall ys, sees_items l c ys -> sees_items (removelast l) c (removelast ys).
Proof.
  induction l as [|z l IH]; intros [|w ys] L; try contradiction; [exact I|]. destruct L as [A B]. specialize (IH _ B).
  destruct l as [|z' l], ys as [|w' ys]; try contradiction; [exact I|]. change (removelast (z :: z' :: l)) with (z :: removelast (z' :: l)).
  change (removelast (w :: w' :: ys)) with (w :: removelast (w' :: ys)). now split.
Qed.

(** ** One entry *)

Lemma typed_state_evo lax t e : typed t e -> flat e = false -> forall c, evo lax t c = true -> c_state c = true.
Proof.
  induction 1 as [t x A|t x A|t|kk t k|t e H IH|si fts fn fi t e F Fs H IH|st vs tag va fn fi t e V F Fs H IH|t i e H IH|kk t k e H IH]; intros E c C;
    try discriminate E; try (destruct c; discriminate C || reflexivity). now apply IH.
Qed.
Lemma evo_field fts cfs fn fi t g c : evo_fields false fts cfs = true -> find_field fn fts = Some (fi, t) -> assoc fn cfs = Some (g, c) ->
  evo false t c = true /\ c_field_wty g c = wty t.
Proof.
  unfold evo_fields. induction fts as [|[fj z] fts IH]; intros E F A; [discriminate F|]. cbn [forallb] in E. apply andb_prop in E. destruct E as [E E'].
  cbn in F. destruct (fn =? f_tag fj) eqn:T; [|auto]. injection F as <- <-. apply N.eqb_eq in T. subst fn. rewrite A in E.
  destruct (wtype_eqb (wty z) (c_field_wty g c)) eqn:W; [|discriminate E]. split; [exact E|]. now destruct (wty z), (c_field_wty g c).
Qed.
Lemma c_handle_unknown c tag e w : flat e = false -> c_child c w tag = Ok None -> c_handle c (rel [tag] e) w = Ok w.
Proof. intros F E. rewrite c_handle_rel by exact F. now rewrite E. Qed.

(** A step into a field of a struct or variant, known or not. *)
Lemma fields_step_evo fts cfs fs xs fn fi fi' t x x' e : nodupb (map (fun p : finfo * ty => f_tag (fst p)) fts) = true -> wt_fields fts fs = true ->
  typed t e -> evo_fields false fts cfs = true -> cls_ok_fields cfs = true -> cgen_fields cfs = true ->
  find_field fn fts = Some (fi, t) -> find_field fn fs = Some (fi', x) -> wt t x = true -> wt t x' = true -> sees_fields fs cfs xs ->
  (forall c y, evo false t c = true -> cls_ok c = true -> cgen c = true -> sees x c y -> exists y', c_handle c e y = Ok y' /\ sees x' c y') ->
  exists xs', c_handle (CStruct cfs) (rel [fn] e) (CVStruct xs) = Ok (CVStruct xs') /\ sees_fields (put_field fn x' fs) cfs xs'.
Proof.
  intros Nd Wf H C K G F F' Wx Wx' Sf IH. destruct (assoc fn cfs) as [[g c]|] eqn:A.
  - destruct (evo_field fts cfs fn fi t g c C F A) as [Cc Wc]. destruct (cls_ok_assoc cfs fn g c K A) as [Kc _]. pose proof (cgen_in _ _ _ _ G A) as Gc.
    pose proof Sf as (M & Kn & _). destruct (known_find fs cfs xs fn fi' x g c Kn F' A) as (y & Y & Sy); [now rewrite (wt_vwty t x)|].
    destruct (IH c y Cc Kc Gc Sy) as (y' & Hy & Sy'). exists (c_put fn y' xs). split.
    + apply (struct_step_cs cfs xs fn g c e y y'); try assumption. intros Fl. now apply (typed_state_evo false t e H Fl).
    + apply (sees_put fs cfs xs fn fi' x x' y y' g c); try assumption; [|now rewrite !(wt_vwty t)|now rewrite (wt_vwty t x)].
      unfold ftags. now apply (fields_nodup fts).
  - exists xs. split; [|now apply sees_put_unknown]. destruct (flat e) eqn:Fl.
    + destruct e as [[|n p] bs| | |]; try discriminate Fl. rewrite c_handle_flat. cbn [c_replace_at]. now rewrite A.
    + apply c_handle_unknown; [exact Fl|]. cbn [c_child]. now rewrite A.
Qed.

Lemma handle_entry_wt m t e v v' o : ty_ok t = true -> state_ty t = true -> wt t v = true -> entry_ok e -> handle_entry m t e v = (v', o) -> wt t v' = true.
Proof. intros O S W Oe E. pose proof (handle_entry_good m t e v O S W Oe) as H. rewrite E in H. now destruct H. Qed.

Lemma evo_find vs cvs tag va cfs : forallb (fun va : (N * bool) * list (finfo * ty) => match assoc (fst (fst va)) cvs with Some cfs => evo_fields false (snd va) cfs | None => true end) vs = true ->
  find_variant vs tag = Some va -> assoc tag cvs = Some cfs -> evo_fields false (snd va) cfs = true.
Proof.
  intros E F A. apply find_variant_in in F. destruct F as [I T]. rewrite forallb_forall in E. specialize (E _ I). cbn beta in E. now rewrite T, A in E.
Qed.

Lemma c_sim_evo m t e : typed t e -> forall c v w v', ty_ok t = true -> state_ty t = true -> evo false t c = true -> cls_ok c = true -> cgen c = true -> wt t v = true ->
  sees v c w -> entry_ok e -> lenN (entry_bytes e) < 2 ^ 31 -> handle_entry m t e v = (v', Ok tt) -> exists w', c_handle c e w = Ok w' /\ sees v' c w'.
Proof.
  induction 1 as [t x A|t x A|t|kk t k|t e H IH|si fts fn fi t e F Fs H IH|st vs tag va fn fi t e V F Fs H IH|t i e H IH|kk t k e H IH];
    intros c v w v' O S C K G W Lk Oe B E.
  - destruct (update_same m t x O S A v W) as (v1 & E1 & Sm & _). rewrite E in E1. injection E1 as <-.
    destruct A as (Wx & Lx & _). apply lossless_and in Lx. destruct Lx as (L1 & L2 & _).
    destruct (c_decode_evo t false c x [] O C K G Wx (carried x L1 L2) B (fun _ => eq_refl)) as (y & D & Ly). rewrite app_nil_r in D.
    exists y. cbn [c_handle]. rewrite D. split; [reflexivity|]. now apply (sees_same x).
  - destruct v as [| | | | | | | | | | | |r l|]; try discriminate W. destruct c as [| | | | | |c| | |]; try discriminate C. destruct w as [| | | | | |ys| | |]; try contradiction Lk.
    cbn [ty_ok] in O. bprop. unfold handle_entry in E. cbn [entry_path entry_kind entry_key entry_bytes handle] in E.
    rewrite (merge_arg m t _ x ltac:(assumption) A) in E. injection E as <-.
    destruct A as (Wx & Lx & _). apply lossless_and in Lx. destruct Lx as (L1 & L2 & _).
    destruct (c_decode_evo t false c x [] ltac:(assumption) C K G Wx (carried x L1 L2) B (fun _ => eq_refl)) as (y & D & Ly). rewrite app_nil_r in D.
    cbn [c_handle c_modify c_push]. rewrite D. cbn [bind]. eexists. split; [reflexivity|].
    apply (sees_items_snoc c l); [exact Lk|]. now apply sees_norm.
  - destruct v as [| | | | | | | | | | | |r l|]; try discriminate W. destruct c as [| | | | | |c| | |]; try discriminate C. destruct w as [| | | | | |ys| | |]; try contradiction Lk.
    unfold handle_entry in E. cbn [entry_path entry_kind entry_key entry_bytes handle] in E. destruct l as [|z l]; [discriminate E|]. injection E as <-.
    change (sees_items (z :: l) c ys) in Lk. cbn [c_handle c_modify c_pop]. destruct ys as [|y ys]; [contradiction Lk|]. eexists. split; [reflexivity|].
    change (sees_items (removelast (z :: l)) c (removelast (y :: ys))). now apply sees_items_removelast.
  - destruct v as [| | | | | | | | | | | | |r es]; try discriminate W. destruct c as [| | | | | | |c| |]; try discriminate C. destruct w as [| | | | | | |es'| |]; try contradiction Lk.
    unfold handle_entry in E. cbn [entry_path entry_kind entry_key entry_bytes handle] in E. apply wt_map_in in W. destruct W as [_ D].
    destruct (assoc k es) as [x|] eqn:X; [|discriminate E]. injection E as <-. change (sees_map es c es') in Lk. pose proof (proj1 (sees_map_spec es c es' D) Lk) as [_ Q].
    specialize (Q k). rewrite X in Q. cbn [c_handle c_modify c_remove]. destruct (assoc k es') as [y|]; [|contradiction Q].
    eexists. split; [reflexivity|]. now apply sees_remove.
  - destruct v as [| | | | | | | | |x| | | |]; try discriminate W. cbn [ty_ok state_ty evo wt sees] in *.
    assert (Hb : handle_entry m (TBox t) e (VBox x) = let '(x', o) := handle_entry m t e x in (VBox x', o)) by reflexivity.
    rewrite Hb in E. destruct (handle_entry m t e x) as [x' o] eqn:E'. injection E as <- ->. now apply (IH c x w x').
  - destruct v as [| | | | | | | | | |cc r fs| | |]; try discriminate W. destruct c as [| | | | | | | |cfs|]; try discriminate C.
    destruct w as [| | | | | | | |xs|]; try contradiction Lk. pose proof W as W0. rewrite wt_struct_eq in W0. bprop.
    pose proof (find_field_wt fn fts fs ltac:(assumption)) as X. rewrite F in X. destruct X as (x & F' & Wx).
    assert (Ch : child (TStruct si fts) (VStruct cc r fs) (SField fn) = Some (t, x)) by (cbn; unfold field_child; now rewrite F, F').
    assert (Ss : state_step (VStruct cc r fs) (SField fn) = true) by (cbn; now rewrite F').
    pose proof (handle_entry_child m _ _ _ _ _ e O S W Ch Ss) as Hc. cbn [seg] in Hc. rewrite Hc in E.
    destruct (handle_entry m t e x) as [x' o] eqn:E'. injection E as <- ->.
    destruct (child_wt _ _ _ _ _ O W Ch) as (O' & _ & S'). specialize (S' S Ss). apply rel_ok in Oe.
    rewrite evo_struct in C. rewrite sees_struct in Lk. rewrite ty_ok_struct in O. bprop.
    destruct (fields_step_evo fts cfs fs xs fn fi fi t x x' e) as (xs' & Ex & Sx); try assumption; [now apply (handle_entry_wt m t e x x' (Ok tt))| |].
    { intros c y Cc Kc Gc Sy. apply (IH c x y x'); try assumption. now destruct e. }
    exists (CVStruct xs'). split; [exact Ex|]. cbn [put_child]. now rewrite sees_struct.
  - destruct v as [| | | | | | | | | | |tag0 cc r fs| |]; try discriminate W. destruct c as [| | | | | | | | |cvs]; try discriminate C.
    destruct w as [| | | | | | | | |tag1 xs]; try contradiction Lk. rewrite sees_enum in Lk.
    assert (Tg : tag0 = tag).
    { destruct (wt_enum_inv _ _ _ _ _ _ W) as (_ & _ & _ & _ & _ & Hst & _). cbn [state_ty] in S. subst st. destruct r as [r|]; [|discriminate].
      unfold handle_entry in E. destruct e; cbn [rel app entry_path entry_kind entry_key entry_bytes handle] in E;
        destruct (assoc tag _); try discriminate E; destruct (tag0 =? tag) eqn:X; try discriminate E; now apply N.eqb_eq in X. }
    subst tag0. destruct (wt_enum_inv _ _ _ _ _ _ W) as (c' & fts & V' & -> & Wf & _). rewrite V in V'. inversion V'; subst va. cbn [snd] in F.
    pose proof (find_field_wt fn fts fs Wf) as X. rewrite F in X. destruct X as (x & F' & Wx).
    assert (Ch : child (TEnum st vs) (VEnum tag cc r fs) (SField fn) = Some (t, x)) by (cbn; rewrite V; cbn; unfold field_child; now rewrite F, F').
    assert (Ss : state_step (VEnum tag cc r fs) (SField fn) = true) by (cbn; now rewrite F').
    pose proof (handle_entry_child m _ _ _ _ _ e O S W Ch Ss) as Hc. cbn [seg] in Hc. rewrite Hc in E.
    destruct (handle_entry m t e x) as [x' o] eqn:E'. injection E as <- ->.
    destruct (child_wt _ _ _ _ _ O W Ch) as (O' & _ & S'). specialize (S' S Ss). apply rel_ok in Oe.
    change [tag; fn] with ([tag] ++ [fn]). rewrite rel_app. rewrite c_handle_rel by now destruct e. cbn [c_child put_child]. 
    destruct (assoc tag cvs) as [cfs|] eqn:Av.
    + destruct Lk as [-> Lk]. rewrite N.eqb_refl. cbn [bind].
      rewrite evo_enum in C. pose proof (evo_find vs cvs tag _ cfs C V Av) as Cf. cbn [snd] in Cf.
      assert (Kf : cls_ok_fields cfs = true) by (cbn [cls_ok] in K; rewrite forallb_forall in K; exact (K _ (assoc_in _ _ _ Av))).
      cbn [cgen] in G. apply andb_prop in G. destruct G as [_ G]. pose proof (cgen_assoc cvs _ _ G Av) as Gf.
      pose proof (find_variant_in _ _ _ V) as [I _]. pose proof (variant_fields_ok _ _ _ O I) as (_ & Of & Nd). cbn [snd] in Of, Nd.
      destruct (fields_step_evo fts cfs fs xs fn fi fi t x x' e) as (xs' & Ex & Sx); try assumption; [now apply (handle_entry_wt m t e x x' (Ok tt))| |].
      { intros c y Cc Kc Gc Sy. apply (IH c x y x'); try assumption. now destruct e. }
      rewrite Ex. cbn [bind]. eexists. split; [reflexivity|]. cbn [c_put_child]. rewrite sees_enum, Av. now split.
    + assert (T1 : tag1 = 0 /\ tag <> 0).
      { rewrite c_new_enum in Lk. destruct (assoc 0 cvs) as [cfs|] eqn:A0; [|discriminate Lk]. split; [|congruence].
        destruct (c_new_fields cfs); cbn in Lk; try discriminate Lk. now injection Lk. }
      destruct T1 as [-> T1]. destruct (tag =? 0) eqn:Z; [apply N.eqb_eq in Z; contradiction|]. cbn [bind]. eexists. split; [reflexivity|]. now rewrite sees_enum, Av.
  - destruct v as [| | | | | | | | | | | |r l|]; try discriminate W. destruct c as [| | | | | |c| | |]; try discriminate C. destruct w as [| | | | | |ys| | |]; try contradiction Lk.
    change (sees_items l c ys) in Lk. pose proof O as O0. cbn [ty_ok] in O0. bprop.
    destruct (nth_error l (N.to_nat i)) as [x|] eqn:X.
    2:{ unfold handle_entry in E. destruct e; cbn [rel app entry_path entry_kind entry_key entry_bytes handle] in E; rewrite X in E; discriminate E. }
    assert (Ch : child (TList t) (VList r l) (SItem i) = Some (t, x)) by (cbn; now rewrite X).
    pose proof (handle_entry_child m _ _ _ _ _ e O S W Ch eq_refl) as Hc. cbn [seg] in Hc. rewrite Hc in E.
    destruct (handle_entry m t e x) as [x' o] eqn:E'. injection E as <- ->.
    destruct (child_wt _ _ _ _ _ O W Ch) as (O' & Wx & S'). specialize (S' S eq_refl). apply rel_ok in Oe.
    destruct (sees_items_nth c l ys _ x Lk X) as (y & Y & Ly). destruct (IH c x y x') as (y' & Hy & Ly'); try assumption; [now destruct e|].
    exists (CVList (set_nth ys (N.to_nat i) y')). split; [|cbn [put_child]; now apply (sees_items_set c l)].
    apply (c_step (CList c) i e (CVList ys) c y y'); [| |exact Hy].
    + intros Fl. cbn [c_child]. now rewrite (typed_state_evo false t e H Fl c C), Y.
    + intros bs z rest D. cbn [c_replace_at]. assert (Hi : (N.to_nat i < length ys)%nat) by (apply nth_error_Some; congruence).
      destruct (lenN ys <=? i) eqn:Q; [unfold lenN in Q; lia|]. now rewrite D.
  - destruct v as [| | | | | | | | | | | | |r es]; try discriminate W. destruct c as [| | | | | | |c| |]; try discriminate C. destruct w as [| | | | | | |es'| |]; try contradiction Lk.
    change (sees_map es c es') in Lk. pose proof O as O0. cbn [ty_ok] in O0. bprop. pose proof (proj1 (wt_map_in _ _ _ _) W) as [_ D].
    pose proof (proj1 (sees_map_spec es c es' D) Lk) as [_ Q]. specialize (Q k). apply rel_ok in Oe.
    destruct (assoc k es) as [x|] eqn:X.
    + destruct (assoc k es') as [y|] eqn:Y; [|contradiction Q]. cbn in Q.
      assert (Ch : child (TMap kk t) (VMap r es) (SKey k) = Some (t, x)) by (cbn; now rewrite X).
      pose proof (handle_entry_child m _ _ _ _ _ e O S W Ch eq_refl) as Hc. cbn [seg] in Hc. rewrite Hc in E.
      destruct (handle_entry m t e x) as [x' o] eqn:E'. injection E as <- ->.
      destruct (child_wt _ _ _ _ _ O W Ch) as (O' & Wx & S'). specialize (S' S eq_refl).
      destruct (IH c x y x') as (y' & Hy & Ly'); try assumption; [now destruct e|].
      exists (CVMap (im_insert k y' es')). split; [|cbn [put_child]; now apply sees_insert].
      rewrite <- c_put_im by congruence. change (CVMap (c_put k y' es')) with (c_put_child (CVMap es') k y').
      apply (c_step (CMap c) k e (CVMap es') c y y'); [| |exact Hy].
      * intros Fl. cbn [c_child]. now rewrite (typed_state_evo false t e H Fl c C), Y.
      * intros bs z rest Dz. cbn [c_replace_at c_put_child]. rewrite Dz. cbn [bind]. now rewrite c_put_im by congruence.
    + destruct (flat e) eqn:Fl.
      2:{ unfold handle_entry in E. destruct e as [p bs|p bs|p|p kx]; cbn [rel app entry_path entry_kind entry_key entry_bytes handle] in E; rewrite X in E; try discriminate E.
          destruct p; [discriminate Fl|discriminate E]. }
      destruct e as [[|n p] bs| | |]; try discriminate Fl. destruct (typed_update_inv _ _ H bs eq_refl) as (x & A & ->).
      unfold handle_entry in E. cbn [rel app entry_path entry_kind entry_key entry_bytes handle] in E. rewrite X in E.
      rewrite (merge_arg m t _ x ltac:(assumption) A) in E. injection E as <-.
      destruct A as (Wx & Lx & _). apply lossless_and in Lx. destruct Lx as (L1 & L2 & _).
      destruct (c_decode_evo t false c x [] ltac:(assumption) C K G Wx (carried x L1 L2) B (fun _ => eq_refl)) as (y & Dy & Ly). rewrite app_nil_r in Dy.
      exists (CVMap (im_insert k y es')). rewrite c_handle_flat. cbn [c_replace_at]. rewrite Dy. cbn [bind]. split; [reflexivity|].
      apply sees_insert; [exact D|exact Lk|]. now apply sees_norm.
Qed.

Lemma c_sim_evo_all m t c es : ty_ok t = true -> state_ty t = true -> evo false t c = true -> cls_ok c = true -> cgen c = true -> Forall (typed t) es -> Forall cfits es ->
  forall v w v', wt t v = true -> sees v c w -> handle_all m t es v = (v', Ok tt) -> exists w', c_handle_all c es w = Ok w' /\ sees v' c w'.
Proof.
  intros O S C K G T. induction T as [|e es Te _ IH]; intros F v w v' W Lk H; cbn [handle_all c_handle_all] in *.
  - injection H as <-. eauto.
  - inversion F as [|? ? [Oe Le] F2]; subst. destruct (handle_entry m t e v) as [v1 [[]|x| |]] eqn:E; try discriminate H.
    destruct (c_sim_evo m t e Te c v w v1 O S C K G W Lk Oe) as (w1 & E1 & L1); [pose proof (entry_bytes_len e); lia|exact E|].
    rewrite E1. cbn [bind]. apply (IH F2 v1); try assumption. now apply (handle_entry_wt m t e v v1 (Ok tt)).
Qed.

(** ** Fresh objects *)

Definition sfresh (t : ty) : Prop := forall lax c w r, evo lax t c = true -> cls_ok c = true -> no_arrays t = true -> ty_ok t = true ->
  c_new c = Ok w -> sees (dflt t r) c w.
Lemma sfresh_fields lax cfs ys : c_new_fields cfs = Ok ys -> cls_ok_fields cfs = true -> forall fts r st, Forall (fun p => sfresh (snd p)) fts -> fields_ok st fts = true ->
  evo_fields lax fts cfs = true -> forallb (fun p : finfo * ty => let '(_, t) := p in no_arrays t) fts = true -> known (dflt_fields r fts) cfs ys.
Proof.
  intros N K. induction fts as [|[fi t] fts IH]; intros r st F O E Na; [exact I|].
  inversion F as [|? ? F1 F2]; subst. unfold evo_fields, fields_ok, dflt_fields in *. cbn [map forallb snd known] in *. bprop.
  split; [|eapply IH; eassumption]. destruct (assoc (f_tag fi) cfs) as [[g c]|] eqn:A; [|exact I].
  destruct (assoc_new cfs ys N) as [_ Y]. destruct (Y _ _ _ A) as (y & Ay & Ny). rewrite Ay. rewrite (wt_vwty t) by (now apply wt_dflt).
  destruct (wtype_eqb (wty t) (c_field_wty g c)); [|exact Ny]. destruct (cls_ok_assoc cfs _ g c K A) as [Kc _]. now apply (F1 lax c).
Qed.
Lemma fresh_evo t : sfresh t.
Proof.
  induction t as [k| | | |t IH|t IH|n t IH|ts IH|k t IHk IHt|t IH|si fs IH|st vs IH|t IH|k t IH] using ty_ind';
    intros lax c w r C K N O Nw; try discriminate N; try (destruct c; try discriminate C; injection Nw as <-; cbn; repeat split; constructor).
  - destruct c; try discriminate C. injection Nw as <-. cbn in *. apply ikind_eqb_eq in C. now split.
  - cbn [no_arrays ty_ok] in *. exact (IH lax c w r C K N O Nw).
  - destruct c as [| | | | | | | |cfs|]; try discriminate C. rewrite ty_ok_struct in O. bprop. rewrite evo_struct in C. rewrite c_new_struct in Nw. change (cls_ok_fields cfs = true) in K.
    destruct (c_new_fields cfs) as [ys| | |] eqn:Ny; cbn [bind] in Nw; try discriminate Nw. injection Nw as <-.
    change (dflt (TStruct si fs) r) with (VStruct (s_cache si) (if s_state si then Some r else None) (dflt_fields r fs)). rewrite sees_struct.
    apply sees_fields_new; [exact Ny|]. now apply (sfresh_fields lax cfs ys Ny K fs r (s_state si)).
  - destruct c as [| | | | | | | | |cvs]; try discriminate C. rewrite evo_enum in C. pose proof O as O'. rewrite ty_ok_enum in O'. bprop.
    destruct (find_variant_exists vs ltac:(assumption)) as (va & F). pose proof (find_variant_in _ _ _ F) as [I T]. pose proof (variant_fields_ok _ _ _ O I) as (_ & Of & _).
    rewrite Forall_forall in IH. cbn [no_arrays] in N. rewrite forallb_forall in N. rewrite forallb_forall in C.
    pose proof Nw as Nw'. rewrite c_new_enum in Nw. destruct (assoc 0 cvs) as [cfs|] eqn:A; [|discriminate Nw].
    destruct (c_new_fields cfs) as [ys| | |] eqn:Ny; cbn [bind] in Nw; try discriminate Nw. injection Nw as <-.
    specialize (C _ I). cbn beta in C. rewrite T, A in C.
    rewrite dflt_enum, F. destruct va as [[tag cc] fs]. cbn [fst snd] in *. subst tag. cbn [variant_ctor]. rewrite sees_enum, A. split; [reflexivity|].
    apply sees_fields_new; [exact Ny|]. apply (sfresh_fields lax cfs ys Ny) with (st := st); try assumption; [|exact (IH _ I)|exact (N _ I)].
    cbn [cls_ok] in K. rewrite forallb_forall in K. exact (K _ (assoc_in _ _ _ A)).
Qed.
