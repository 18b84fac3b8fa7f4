(** The C# replayer does what the Rust one does with the entries Rust states log. *)
From Verif Require Import Base Varint WireFmt Utf8 Types Ser Spec De Log State StateSpec Coll CSharp ValInd VarintProofs WireProofs
  SerProofs TypeProofs EqProofs DeProofs RoundTrip MergeProofs NormProofs LogProofs TreeProofs CohProofs HandleProofs OpProofs ExecProofs
  ReplayProofs CSharpProofs.
From Verif Require PropColl.

Lemma carried v : writable v = true -> ints_safe v = true -> c_carried v = true.
Proof.
  induction v as [v L|v IH|v C IH] using val_slots_ind; intros W S.
  - destruct v; try discriminate L; try reflexivity. cbn in S |- *. unfold cint_safe. destruct k; try exact S; now apply int_safe_range in S.
  - cbn in *. auto.
  - assert (Items : forall l, Forall (fun x => writable x = true -> ints_safe x = true -> c_carried x = true) l ->
      forallb writable l = true -> forallb ints_safe l = true -> forallb c_carried l = true).
    { induction 1 as [|x l H _ IHl]; intros A B; [reflexivity|]. cbn in *. bprop. rewrite H, IHl by assumption. reflexivity. }
    assert (Fields : forall fs, Forall (fun s : slot => writable (snd s) = true -> ints_safe (snd s) = true -> c_carried (snd s) = true) (map fslot fs) ->
      forallb (fun p : finfo * val => let '(_, x) := p in writable x) fs = true -> forallb (fun p : finfo * val => let '(_, x) := p in ints_safe x) fs = true ->
      forallb (fun p : finfo * val => let '(_, x) := p in c_carried x) fs = true).
    { induction fs as [|[fi x] fs IHf]; intros H A B; [reflexivity|]. cbn in *. inversion H; subst. bprop. cbn in *. rewrite IHf by assumption.
      match goal with H : _ -> _ -> c_carried x = true |- _ => rewrite H by assumption end. reflexivity. }
    destruct v as [| | | |[x|]|l|l|l|l| |c ra fs|tag c ra fs|ra l|ra es]; try discriminate C; clear C; cbn [slots] in IH; cbn [writable ints_safe c_carried] in *;
      try (apply (slot_items (fun x => writable x = true -> ints_safe x = true -> c_carried x = true)) in IH; now apply Items); try (now apply Fields).
    + inversion IH; subst. auto.
    + reflexivity.
    + induction l as [|[k x] l IHl]; [reflexivity|]. cbn [flat_map hslots app] in IH.
      inversion IH as [|? ? K1 IH1]; subst. inversion IH1 as [|? ? X1 IH2]; subst. cbn in *. bprop. rewrite K1, X1, IHl by assumption. reflexivity.
    + induction es as [|[k x] es IHl]; [reflexivity|]. cbn [map] in IH. inversion IH as [|? ? X1 IH2]; subst. cbn in *. bprop.
      rewrite X1, IHl by assumption. rewrite andb_true_r. now apply andb_true_iff.
Qed.

Lemma looks_norm v : forall r w, looks (norm r v) w = looks v w.
Proof.
  induction v as [v L|v IH|v C IH] using val_slots_ind; intros r w.
  - destruct v; try discriminate L; reflexivity.
  - cbn. apply IH.
  - assert (FF : forall r fs xs, Forall (fun s : slot => forall r w, looks (norm r (snd s)) w = looks (snd s) w) (map fslot fs) ->
      looks_fields (map (fun p : finfo * val => let '(fi, x) := p in (fi, norm (field_rt r fi) x)) fs) xs = looks_fields fs xs).
    { intros s. induction fs as [|[fi x] fs IHf]; intros [|[tag y] xs] H; try reflexivity. cbn [map looks_fields] in *. inversion H as [|? ? X1 IH2]; subst. cbn in X1.
      now rewrite X1, IHf. }
    assert (II : forall (g : rt -> val -> val) r l ys, Forall (fun x => forall r w, looks (norm r x) w = looks x w) l ->
      looks_items (map (norm r) l) ys = looks_items l ys).
    { intros g s. induction l as [|x l IHl]; intros [|y ys] H; try reflexivity. inversion H as [|? ? X1 IH2]; subst. cbn [map looks_items]. now rewrite X1, IHl. }
    destruct v as [| | | |[x|]|l|l|l|l| |c ra fs|tag c ra fs|ra l|ra es]; try discriminate C; clear C; cbn [slots] in IH.
    + inversion IH; subst. cbn in *. destruct w as [| | | |[y|]| | | | |]; auto.
    + reflexivity.
    + apply (slot_items (fun x => forall r w, looks (norm r x) w = looks x w)) in IH. destruct w; try reflexivity. now apply (II norm).
    + apply (slot_items (fun x => forall r w, looks (norm r x) w = looks x w)) in IH. destruct w; try reflexivity. now apply (II norm).
    + destruct w; reflexivity.
    + destruct w; reflexivity.
    + destruct w; try reflexivity. now apply FF.
    + destruct w; try reflexivity. cbn [norm]. rewrite !looks_enum. f_equal. now apply FF.
    + apply (slot_items (fun x => forall r w, looks (norm r x) w = looks x w)) in IH. destruct w as [| | | | | |ys| | |]; try reflexivity. rewrite norm_list, !looks_list.
      generalize 0. revert ys. induction IH as [|x l Hx _ IHl]; intros [|y ys] i; try reflexivity. cbn. now rewrite Hx, IHl.
    + destruct w as [| | | | | | |es'| |]; try reflexivity. rewrite norm_map, !looks_map_eq. unfold looks_map.
      replace (length (norm_entries r es)) with (length es) by (rewrite <- (map_length fst es), <- (map_length fst (norm_entries r es)); now rewrite map_norm_fst).
      f_equal. induction es as [|[k x] l IHl]; [reflexivity|]. cbn [map] in IH. inversion IH as [|? ? X1 IH2]; subst. cbn [snd mslot] in X1.
      cbn [norm_entries forallb]. rewrite IHl by exact IH2. f_equal. destruct (assoc k es'); [apply X1|reflexivity].
Qed.
Lemma looks_same v v' w : same v v' -> looks v w = looks v' w.
Proof. intros S. unfold same in S. now rewrite <- (looks_norm v rt_default), S, looks_norm. Qed.

(** ** Dictionaries *)

Lemma assoc_some_in {A} k (l : list (N * A)) : In k (map fst l) <-> assoc k l <> None.
Proof.
  induction l as [|[k' x] l IH]; [cbn; split; [contradiction|congruence]|]. cbn. destruct (k =? k') eqn:E.
  - apply N.eqb_eq in E. subst. split; [discriminate|now left].
  - rewrite <- IH. split; [intros [->|H]; [rewrite N.eqb_refl in E; discriminate|exact H]|now right].
Qed.

Definition like (o : option val) (p : option cval) : Prop :=
  match o, p with Some x, Some y => looks x y = true | None, None => True | _, _ => False end.

Lemma looks_map_spec es es' : NoDup (map fst es) ->
  looks_map es es' = true <-> NoDup (map fst es') /\ forall k, like (assoc k es) (assoc k es').
Proof.
  intros D. unfold looks_map. rewrite !andb_true_iff, Nat.eqb_eq, forallb_forall. split.
  - intros [[L N] F]. apply nodupb_nodup in N. split; [exact N|].
    assert (Inc : incl (map fst es) (map fst es')).
    { intros k I. apply assoc_some_in. apply in_map_iff in I. destruct I as ([k' x] & E & I). cbn in E. subst k'. specialize (F _ I). cbn in F.
      destruct (assoc k es'); [discriminate|discriminate F]. }
    assert (Inc' : incl (map fst es') (map fst es)) by (apply NoDup_length_incl; try assumption; rewrite !map_length; lia).
    intros k. unfold like. destruct (assoc k es) as [x|] eqn:A.
    + apply assoc_in in A. specialize (F _ A). cbn in F. destruct (assoc k es'); [exact F|discriminate F].
    + destruct (assoc k es') as [y|] eqn:B; [|exact I]. assert (X : In k (map fst es)) by (apply Inc', assoc_some_in; congruence). apply assoc_some_in in X. congruence.
  - intros [N F]. assert (Inc : incl (map fst es) (map fst es')).
    { intros k I. apply assoc_some_in in I. apply assoc_some_in. specialize (F k). destruct (assoc k es), (assoc k es'); try contradiction; congruence. }
    assert (Inc' : incl (map fst es') (map fst es)).
    { intros k I. apply assoc_some_in in I. apply assoc_some_in. specialize (F k). destruct (assoc k es), (assoc k es'); try contradiction; congruence. }
    apply (NoDup_incl_length D) in Inc. apply (NoDup_incl_length N) in Inc'. rewrite !map_length in *. split; [split; [lia|now apply nodup_nodupb]|].
    intros [k x] I. specialize (F k). rewrite (assoc_nodup k x es D I) in F. destruct (assoc k es'); [exact F|contradiction F].
Qed.

Lemma assoc_im {A} k k' (x : A) es : assoc k' (im_insert k x es) = if k' =? k then Some x else assoc k' es.
Proof. destruct (k' =? k) eqn:E; [apply N.eqb_eq in E; subst; apply assoc_im_same|apply assoc_im_other; lia]. Qed.
Lemma nodup_im {A} k (x : A) es : NoDup (map fst es) -> NoDup (map fst (im_insert k x es)).
Proof. intros D. apply nodupb_nodup, im_insert_keys, nodup_nodupb, D. Qed.
Lemma assoc_filter {A} k k' (es : list (N * A)) : assoc k' (filter (fun e => negb (fst e =? k)) es) = if k' =? k then None else assoc k' es.
Proof.
  induction es as [|[k1 x] es IH]; [now destruct (k' =? k)|]. cbn [filter fst]. destruct (k1 =? k) eqn:E; cbn [negb assoc].
  - rewrite IH. apply N.eqb_eq in E. subst k1. now destruct (k' =? k).
  - rewrite IH. destruct (k' =? k1) eqn:E1; [|reflexivity]. apply N.eqb_eq in E1. subst k1. now rewrite E.
Qed.
Lemma nodup_filter {A} (f : N * A -> bool) es : NoDup (map fst es) -> NoDup (map fst (filter f es)).
Proof.
  induction es as [|e es IH]; intros D; [constructor|]. inversion D; subst. cbn [filter]. destruct (f e); [|auto]. cbn. constructor; [|auto].
  intros I. apply in_map_iff in I. destruct I as (e' & E & I). apply filter_In in I. match goal with H : ~ In _ _ |- _ => apply H end. rewrite <- E. now apply in_map.
Qed.
Lemma c_put_im tag x es : assoc tag es <> None -> c_put tag x es = im_insert tag x es.
Proof. induction es as [|[k y] es IH]; cbn; intros H; [congruence|]. destruct (tag =? k); [reflexivity|]. now rewrite IH. Qed.

Lemma looks_insert es es' k x y : NoDup (map fst es) -> looks_map es es' = true -> looks x y = true -> looks_map (im_insert k x es) (im_insert k y es') = true.
Proof.
  intros D L E. apply looks_map_spec in L; [|exact D]. destruct L as [D' L]. apply looks_map_spec; [now apply nodup_im|]. split; [now apply nodup_im|].
  intros k'. rewrite !assoc_im. destruct (k' =? k); [exact E|apply L].
Qed.
Lemma looks_remove es es' k : NoDup (map fst es) -> looks_map es es' = true -> looks_map (im_remove k es) (filter (fun e => negb (fst e =? k)) es') = true.
Proof.
  intros D L. apply looks_map_spec in L; [|exact D]. destruct L as [D' L].
  assert (Dr : NoDup (map fst (im_remove k es))).
  { clear - D. unfold im_remove. pose proof (key_pos_assoc k es) as K. destruct (key_pos k es) as [i|]; [|exact D].
    destruct K as (x & K & _). apply swap_remove_spec in K. eapply Permutation.Permutation_NoDup in D; [|apply Permutation.Permutation_map, K]. cbn in D. now inversion D. }
  apply looks_map_spec; [exact Dr|]. split; [now apply nodup_filter|].
  intros k'. rewrite PropColl.assoc_remove, assoc_filter by exact D. destruct (k' =? k); [exact I|apply L].
Qed.

(** ** Fields and items *)

Lemma looks_find fs : forall xs fn fi x, looks_fields fs xs = true -> find_field fn fs = Some (fi, x) -> exists y, assoc fn xs = Some y /\ looks x y = true.
Proof.
  induction fs as [|[fj z] fs IH]; intros [|[tag y] xs] fn fi x L F; try discriminate L; [discriminate F|]. cbn [looks_fields] in L. bprop.
  cbn in F. cbn [assoc]. match goal with H : (f_tag fj =? tag) = true |- _ => apply N.eqb_eq in H; subst tag end.
  destruct (fn =? f_tag fj); [injection F as <- <-; eauto|eauto].
Qed.
Lemma looks_put fs : forall xs fn x y, looks_fields fs xs = true -> looks x y = true -> looks_fields (put_field fn x fs) (c_put fn y xs) = true.
Proof.
  induction fs as [|[fj z] fs IH]; intros [|[tag w] xs] fn x y L E; try discriminate L; [reflexivity|]. cbn [looks_fields] in L. bprop.
  cbn [put_field c_put]. match goal with H : (f_tag fj =? tag) = true |- _ => apply N.eqb_eq in H; subst tag end.
  destruct (fn =? f_tag fj); cbn [looks_fields]; rewrite N.eqb_refl.
  - now rewrite E, H0.
  - now rewrite H1, IH.
Qed.
Lemma cls_field fts : forall cfs fn fi t, cls_fields fts cfs = true -> cls_ok_fields cfs = true -> find_field fn fts = Some (fi, t) ->
  exists g c, assoc fn cfs = Some (g, c) /\ cls t c = true /\ cls_ok c = true.
Proof.
  induction fts as [|[fj z] fts IH]; intros [|[tag [g c]] cfs] fn fi t C K F; try discriminate C; [discriminate F|].
  unfold cls_ok_fields in *. cbn [cls_fields forallb] in *. bprop.
  cbn in F. cbn [assoc]. match goal with H : (f_tag fj =? tag) = true |- _ => apply N.eqb_eq in H; subst tag end.
  destruct (fn =? f_tag fj); [injection F as <- <-; eauto|eauto].
Qed.
Lemma looks_items_nth l : forall ys i x, looks_items l ys = true -> nth_error l i = Some x -> exists y, nth_error ys i = Some y /\ looks x y = true.
Proof.
  induction l as [|z l IH]; intros [|y ys] [|i] x L E; try discriminate L; try discriminate E; cbn [looks_items] in L; bprop; cbn in *.
  - injection E as <-. eauto.
  - eauto.
Qed.
Lemma looks_items_set l : forall ys i x y, looks_items l ys = true -> looks x y = true -> looks_items (set_nth l i x) (set_nth ys i y) = true.
Proof.
  induction l as [|z l IH]; intros [|w ys] [|i] x y L E; try discriminate L; try reflexivity; cbn [looks_items set_nth] in *; bprop.
  - now rewrite E, H0.
  - now rewrite H, IH.
Qed.
Lemma looks_items_len l : forall ys, looks_items l ys = true -> length ys = length l.
Proof. induction l as [|z l IH]; intros [|w ys] L; try discriminate L; [reflexivity|]. cbn in *. bprop. now rewrite (IH ys). Qed.
Lemma looks_items_snoc l x y : forall ys, looks_items l ys = true -> looks x y = true -> looks_items (l ++ [x]) (ys ++ [y]) = true.
Proof.
  induction l as [|z l IH]; intros [|w ys] L E; try discriminate L; cbn [app looks_items] in *; bprop.
  - now rewrite E.
  - now rewrite H, IH.
Qed.
Lemma looks_items_removelast l : forall ys, looks_items l ys = true -> looks_items (removelast l) (removelast ys) = true.
Proof.
  induction l as [|z l IH]; intros [|w ys] L; try discriminate L; [reflexivity|]. cbn [looks_items] in L. bprop. specialize (IH _ H0).
  destruct l as [|z' l], ys as [|w' ys]; try discriminate H0; [reflexivity|]. change (removelast (z :: z' :: l)) with (z :: removelast (z' :: l)).
  change (removelast (w :: w' :: ys)) with (w :: removelast (w' :: ys)). cbn [looks_items]. now rewrite H, IH.
Qed.

(** ** One entry *)

Definition flat (e : entry) : bool := match e with EUpdate [] _ => true | _ => false end.

Lemma typed_update_inv t e : typed t e -> forall bs, e = EUpdate [] bs -> exists x, arg_ok t x /\ bs = enc x.
Proof.
  induction 1 as [t x A|t x A|t|kk t k|t e H IH|si fts fn fi t e F Fs H IH|st vs tag va fn fi t e V F Fs H IH|t i e H IH|kk t k e H IH]; intros bs E; try discriminate E;
    try (destruct e; discriminate E).
  - injection E as <-. eauto.
  - destruct (IH bs E) as (x & A & ->). exists (VBox x). split; [exact A|reflexivity].
Qed.
Lemma typed_state t e : typed t e -> flat e = false -> forall c, cls t c = true -> c_state c = true.
Proof.
  induction 1 as [t x A|t x A|t|kk t k|t e H IH|si fts fn fi t e F Fs H IH|st vs tag va fn fi t e V F Fs H IH|t i e H IH|kk t k e H IH]; intros E c C;
    try discriminate E; try (destruct c; discriminate C || reflexivity). now apply IH.
Qed.

(** An entry below a child. *)
Lemma c_handle_rel c tag e w : flat e = false -> c_handle c (rel [tag] e) w =
  do ch <- c_child c w tag;
  match ch with None => Ok w | Some (c', y) => do y' <- c_handle c' e y; Ok (c_put_child w tag y') end.
Proof.
  intros F. destruct e as [p bs|p bs|p|p k]; cbn [rel app c_handle].
  - destruct p as [|n p]; [discriminate F|]. reflexivity.
  - reflexivity.
  - reflexivity.
  - reflexivity.
Qed.
Lemma c_handle_flat c tag bs w : c_handle c (rel [tag] (EUpdate [] bs)) w = c_replace_at tag bs c w.
Proof. reflexivity. Qed.

Lemma c_step c tag e w c' y y' :
  (flat e = false -> c_child c w tag = Ok (Some (c', y))) ->
  (forall bs x rest, c_deser c' bs = Ok (x, rest) -> c_replace_at tag bs c w = Ok (c_put_child w tag x)) ->
  c_handle c' e y = Ok y' -> c_handle c (rel [tag] e) w = Ok (c_put_child w tag y').
Proof.
  intros A B E. destruct (flat e) eqn:F.
  - destruct e as [[|n p] bs| | |]; try discriminate F. rewrite c_handle_flat. cbn [c_handle] in E.
    destruct (c_deser c' bs) as [[x rest]|er| |] eqn:D; cbn [bind] in E; try discriminate E. injection E as ->. now apply (B bs y' rest).
  - rewrite c_handle_rel, (A eq_refl) by exact F. cbn [bind]. rewrite E. reflexivity.
Qed.

Lemma struct_step_cs cfs xs fn g c' e y y' : (flat e = false -> c_state c' = true) -> assoc fn cfs = Some (g, c') -> assoc fn xs = Some y -> c_handle c' e y = Ok y' ->
  c_handle (CStruct cfs) (rel [fn] e) (CVStruct xs) = Ok (CVStruct (c_put fn y' xs)).
Proof.
  intros St A X E. apply (c_step (CStruct cfs) fn e (CVStruct xs) c' y y'); [| |exact E].
  - intros F. cbn [c_child]. now rewrite A, (St F), X.
  - intros bs x rest D. cbn [c_replace_at]. now rewrite A, D.
Qed.

Lemma nested_update m t r bs x : ty_ok t = true -> arg_ok t x -> bs = enc x -> merge m t (dflt t r) bs = (norm r x, Ok []).
Proof. intros O A ->. now apply merge_arg. Qed.

Lemma c_sim m t e : typed t e -> forall c v w v', ty_ok t = true -> state_ty t = true -> cls t c = true -> cls_ok c = true -> wt t v = true ->
  looks v w = true -> lenN (entry_bytes e) < 2 ^ 31 -> handle_entry m t e v = (v', Ok tt) -> exists w', c_handle c e w = Ok w' /\ looks v' w' = true.
Proof.
  induction 1 as [t x A|t x A|t|kk t k|t e H IH|si fts fn fi t e F Fs H IH|st vs tag va fn fi t e V F Fs H IH|t i e H IH|kk t k e H IH];
    intros c v w v' O S C K W Lk B E.
  - destruct (update_same m t x O S A v W) as (v1 & E1 & Sm & _). rewrite E in E1. injection E1 as <-.
    destruct A as (Wx & Lx & _). apply lossless_and in Lx. destruct Lx as (L1 & L2 & _).
    destruct (c_decode t c x [] O C K Wx (carried x L1 L2) B (fun _ => eq_refl)) as (y & D & Ly). rewrite app_nil_r in D.
    exists y. cbn [c_handle]. rewrite D. split; [reflexivity|]. now rewrite <- (looks_same x).
  - destruct v as [| | | | | | | | | | | |r l|]; try discriminate W. destruct c as [| | | | | |c| | |]; try discriminate C. destruct w as [| | | | | |ys| | |]; try discriminate Lk.
    cbn [ty_ok] in O. bprop. unfold handle_entry in E. cbn [entry_path entry_kind entry_key entry_bytes handle] in E.
    rewrite (merge_arg m t _ x ltac:(assumption) A) in E. injection E as <-.
    destruct A as (Wx & Lx & _). apply lossless_and in Lx. destruct Lx as (L1 & L2 & _).
    destruct (c_decode t c x [] ltac:(assumption) C K Wx (carried x L1 L2) B (fun _ => eq_refl)) as (y & D & Ly). rewrite app_nil_r in D.
    cbn [c_handle c_modify c_push]. rewrite D. cbn [bind]. eexists. split; [reflexivity|]. rewrite looks_list in *. apply looks_items_snoc; [exact Lk|]. now rewrite looks_norm.
  - destruct v as [| | | | | | | | | | | |r l|]; try discriminate W. destruct c as [| | | | | |c| | |]; try discriminate C. destruct w as [| | | | | |ys| | |]; try discriminate Lk.
    unfold handle_entry in E. cbn [entry_path entry_kind entry_key entry_bytes handle] in E. destruct l as [|z l]; [discriminate E|]. injection E as <-.
    rewrite looks_list in Lk. cbn [c_handle c_modify c_pop]. destruct ys as [|y ys]; [discriminate Lk|]. eexists. split; [reflexivity|].
    change (looks_items (removelast (z :: l)) (removelast (y :: ys)) = true). now apply looks_items_removelast.
  - destruct v as [| | | | | | | | | | | | |r es]; try discriminate W. destruct c as [| | | | | | |c| |]; try discriminate C. destruct w as [| | | | | | |es'| |]; try discriminate Lk.
    unfold handle_entry in E. cbn [entry_path entry_kind entry_key entry_bytes handle] in E. apply wt_map_in in W. destruct W as [_ D].
    destruct (assoc k es) as [x|] eqn:X; [|discriminate E]. injection E as <-. rewrite looks_map_eq in Lk. pose proof (proj1 (looks_map_spec es es' D) Lk) as [_ Q].
    specialize (Q k). rewrite X in Q. cbn [c_handle c_modify c_remove]. destruct (assoc k es') as [y|]; [|contradiction Q].
    eexists. split; [reflexivity|]. rewrite looks_map_eq. now apply looks_remove.
  - destruct v as [| | | | | | | | |x| | | |]; try discriminate W. cbn [ty_ok state_ty cls wt looks] in *.
    assert (Hb : handle_entry m (TBox t) e (VBox x) = let '(x', o) := handle_entry m t e x in (VBox x', o)) by reflexivity.
    rewrite Hb in E. destruct (handle_entry m t e x) as [x' o] eqn:E'. injection E as <- ->. now apply (IH c x w x').
  - destruct v as [| | | | | | | | | |cc r fs| | |]; try discriminate W. destruct c as [| | | | | | | |cfs|]; try discriminate C.
    destruct w as [| | | | | | | |xs|]; try discriminate Lk. pose proof W as W0. rewrite wt_struct_eq in W0. bprop.
    pose proof (find_field_wt fn fts fs ltac:(assumption)) as X. rewrite F in X. destruct X as (x & F' & Wx).
    assert (Ch : child (TStruct si fts) (VStruct cc r fs) (SField fn) = Some (t, x)) by (cbn; unfold field_child; now rewrite F, F').
    assert (Ss : state_step (VStruct cc r fs) (SField fn) = true) by (cbn; now rewrite F').
    pose proof (handle_entry_child m _ _ _ _ _ e O S W Ch Ss) as Hc. cbn [seg] in Hc. rewrite Hc in E.
    destruct (handle_entry m t e x) as [x' o] eqn:E'. injection E as <- ->.
    destruct (child_wt _ _ _ _ _ O W Ch) as (O' & _ & S'). specialize (S' S Ss).
    rewrite cls_struct in C. destruct (cls_field fts cfs fn fi t C K F) as (g & c & A & Cc & Kc). rewrite looks_struct in Lk.
    destruct (looks_find fs xs fn fi x Lk F') as (y & Y & Ly).
    destruct (IH c x y x') as (y' & Hy & Ly'); try assumption; [now destruct e|]. exists (CVStruct (c_put fn y' xs)).
    split; [|cbn [put_child]; rewrite looks_struct; now apply looks_put].
    apply (struct_step_cs cfs xs fn g c e y y'); try assumption. intros Fl. now apply (typed_state t e H Fl).
  - destruct v as [| | | | | | | | | | |tag0 cc r fs| |]; try discriminate W. destruct c as [| | | | | | | | |cvs]; try discriminate C.
    destruct w as [| | | | | | | | |tag1 xs]; try discriminate Lk. rewrite looks_enum in Lk. apply andb_true_iff in Lk. destruct Lk as [T Lk]. apply N.eqb_eq in T. subst tag1.
    assert (Tg : tag0 = tag).
    { destruct (wt_enum_inv _ _ _ _ _ _ W) as (_ & _ & _ & _ & _ & Hst & _). cbn [state_ty] in S. subst st. destruct r as [r|]; [|discriminate].
      unfold handle_entry in E. destruct e; cbn [rel app entry_path entry_kind entry_key entry_bytes handle] in E;
        destruct (assoc tag _); try discriminate E; destruct (tag0 =? tag) eqn:X; try discriminate E; now apply N.eqb_eq in X. }
    subst tag0. destruct (wt_enum_inv _ _ _ _ _ _ W) as (c' & fts & V' & -> & Wf & _). rewrite V in V'. inversion V'; subst va. cbn [snd] in F.
    pose proof (find_field_wt fn fts fs Wf) as X. rewrite F in X. destruct X as (x & F' & Wx).
    assert (Ch : child (TEnum st vs) (VEnum tag cc r fs) (SField fn) = Some (t, x)) by (cbn; rewrite V; cbn; unfold field_child; now rewrite F, F').
    assert (Ss : state_step (VEnum tag cc r fs) (SField fn) = true) by (cbn; now rewrite F').
    pose proof (handle_entry_child m _ _ _ _ _ e O S W Ch Ss) as Hc. cbn [seg] in Hc. rewrite Hc in E.
    destruct (handle_entry m t e x) as [x' o] eqn:E'. injection E as <- ->.
    destruct (child_wt _ _ _ _ _ O W Ch) as (O' & _ & S'). specialize (S' S Ss).
    rewrite cls_enum in C. destruct (cls_find vs cvs tag _ C V) as (cfs & Av & Cf). cbn [snd] in Cf.
    assert (Kf : cls_ok_fields cfs = true) by (cbn [cls_ok] in K; rewrite forallb_forall in K; exact (K _ (assoc_in _ _ _ Av))).
    destruct (cls_field fts cfs fn fi t Cf Kf F) as (g & c & A & Cc & Kc).
    destruct (looks_find fs xs fn fi x Lk F') as (y & Y & Ly).
    destruct (IH c x y x') as (y' & Hy & Ly'); try assumption; [now destruct e|]. exists (CVEnum tag (c_put fn y' xs)).
    split; [|cbn [put_child]; rewrite looks_enum, N.eqb_refl; now apply looks_put].
    change [tag; fn] with ([tag] ++ [fn]). rewrite rel_app. rewrite c_handle_rel by now destruct e. cbn [c_child]. rewrite N.eqb_refl, Av. cbn [bind].
    rewrite (struct_step_cs cfs xs fn g c e y y'); try assumption; [reflexivity|]. intros Fl. now apply (typed_state t e H Fl).
  - destruct v as [| | | | | | | | | | | |r l|]; try discriminate W. destruct c as [| | | | | |c| | |]; try discriminate C. destruct w as [| | | | | |ys| | |]; try discriminate Lk.
    rewrite looks_list in Lk. pose proof O as O0. cbn [ty_ok] in O0. bprop.
    destruct (nth_error l (N.to_nat i)) as [x|] eqn:X.
    2:{ unfold handle_entry in E. destruct e; cbn [rel app entry_path entry_kind entry_key entry_bytes handle] in E; rewrite X in E; discriminate E. }
    assert (Ch : child (TList t) (VList r l) (SItem i) = Some (t, x)) by (cbn; now rewrite X).
    pose proof (handle_entry_child m _ _ _ _ _ e O S W Ch eq_refl) as Hc. cbn [seg] in Hc. rewrite Hc in E.
    destruct (handle_entry m t e x) as [x' o] eqn:E'. injection E as <- ->.
    destruct (child_wt _ _ _ _ _ O W Ch) as (O' & Wx & S'). specialize (S' S eq_refl).
    destruct (looks_items_nth l ys _ x Lk X) as (y & Y & Ly). destruct (IH c x y x') as (y' & Hy & Ly'); try assumption; [now destruct e|].
    exists (CVList (set_nth ys (N.to_nat i) y')). split; [|cbn [put_child]; rewrite looks_list; now apply looks_items_set].
    apply (c_step (CList c) i e (CVList ys) c y y'); [| |exact Hy].
    + intros Fl. cbn [c_child]. now rewrite (typed_state t e H Fl c C), Y.
    + intros bs z rest D. cbn [c_replace_at]. assert (Hi : (N.to_nat i < length ys)%nat) by (apply nth_error_Some; congruence).
      destruct (lenN ys <=? i) eqn:Q; [unfold lenN in Q; lia|]. now rewrite D.
  - destruct v as [| | | | | | | | | | | | |r es]; try discriminate W. destruct c as [| | | | | | |c| |]; try discriminate C. destruct w as [| | | | | | |es'| |]; try discriminate Lk.
    rewrite looks_map_eq in Lk. pose proof O as O0. cbn [ty_ok] in O0. bprop. pose proof (proj1 (wt_map_in _ _ _ _) W) as [_ D].
    pose proof (proj1 (looks_map_spec es es' D) Lk) as [_ Q]. specialize (Q k).
    destruct (assoc k es) as [x|] eqn:X.
    + destruct (assoc k es') as [y|] eqn:Y; [|contradiction Q]. cbn in Q.
      assert (Ch : child (TMap kk t) (VMap r es) (SKey k) = Some (t, x)) by (cbn; now rewrite X).
      pose proof (handle_entry_child m _ _ _ _ _ e O S W Ch eq_refl) as Hc. cbn [seg] in Hc. rewrite Hc in E.
      destruct (handle_entry m t e x) as [x' o] eqn:E'. injection E as <- ->.
      destruct (child_wt _ _ _ _ _ O W Ch) as (O' & Wx & S'). specialize (S' S eq_refl).
      destruct (IH c x y x') as (y' & Hy & Ly'); try assumption; [now destruct e|].
      exists (CVMap (im_insert k y' es')). split; [|cbn [put_child]; rewrite looks_map_eq; now apply looks_insert].
      rewrite <- c_put_im by congruence. change (CVMap (c_put k y' es')) with (c_put_child (CVMap es') k y').
      apply (c_step (CMap c) k e (CVMap es') c y y'); [| |exact Hy].
      * intros Fl. cbn [c_child]. now rewrite (typed_state t e H Fl c C), Y.
      * intros bs z rest Dz. cbn [c_replace_at c_put_child]. rewrite Dz. cbn [bind]. now rewrite c_put_im by congruence.
    + destruct (flat e) eqn:Fl.
      2:{ unfold handle_entry in E. destruct e as [p bs|p bs|p|p kx]; cbn [rel app entry_path entry_kind entry_key entry_bytes handle] in E; rewrite X in E; try discriminate E.
          destruct p; [discriminate Fl|discriminate E]. }
      destruct e as [[|n p] bs| | |]; try discriminate Fl. destruct (typed_update_inv _ _ H bs eq_refl) as (x & A & ->).
      unfold handle_entry in E. cbn [rel app entry_path entry_kind entry_key entry_bytes handle] in E. rewrite X in E.
      rewrite (merge_arg m t _ x ltac:(assumption) A) in E. injection E as <-.
      destruct A as (Wx & Lx & _). apply lossless_and in Lx. destruct Lx as (L1 & L2 & _).
      destruct (c_decode t c x [] ltac:(assumption) C K Wx (carried x L1 L2) B (fun _ => eq_refl)) as (y & Dy & Ly). rewrite app_nil_r in Dy.
      exists (CVMap (im_insert k y es')). rewrite c_handle_flat. cbn [c_replace_at]. rewrite Dy. cbn [bind]. split; [reflexivity|].
      rewrite looks_map_eq. apply looks_insert; [exact D|exact Lk|]. now rewrite looks_norm.
Qed.

(** ** Whole logs *)

Lemma looks_vpath p : forall w, Forall (fun n => n < 2 ^ 32) p -> looks (vpath p) w = true -> c_path w = Some p.
Proof.
  intros w _ L. destruct w as [| | | | |l| | | |]; try discriminate L. cbn [c_path]. f_equal. unfold vpath in L. rewrite looks_vec in L.
  revert l L. induction p as [|n p IH]; intros [|y l] L; try discriminate L; [reflexivity|]. cbn [map looks_items] in L. bprop.
  destruct y; try discriminate H. cbn in H. apply Z.eqb_eq in H. subst z. cbn [map]. rewrite N2Z.id. f_equal. now apply IH.
Qed.
Lemma list_eqb_eq a : forall b, list_eqb N.eqb a b = true -> a = b.
Proof. induction a as [|x a IH]; intros [|y b] H; try discriminate H; [reflexivity|]. cbn in H. bprop. f_equal; [lia|auto]. Qed.

Lemma c_entry_looks e w : entry_ok e -> looks (entry_val e) w = true -> c_entry w = Ok e.
Proof.
  intros (P & K & _) L. destruct e as [p b|p b|p|p k]; cbn [entry_val entry_path] in *; destruct w as [| | | | | | | | |tag xs]; try discriminate L;
    rewrite looks_enum in L; apply andb_prop in L; destruct L as [T L]; apply N.eqb_eq in T; subst tag;
    destruct xs as [|[n1 y1] xs]; try discriminate L; cbn [looks_fields] in L; apply andb_prop in L; destruct L as [L1 L]; apply andb_prop in L1; destruct L1 as [_ L1];
    apply (looks_vpath p _ P) in L1.
  1,2,4: destruct xs as [|[n2 y2] xs]; try discriminate L; cbn [looks_fields] in L; apply andb_prop in L; destruct L as [L2 L]; apply andb_prop in L2; destruct L2 as [_ L2];
    destruct xs; try discriminate L; cbn [c_entry]; rewrite L1; destruct y2; try discriminate L2; cbn in L2.
  - apply list_eqb_eq in L2. now subst.
  - apply list_eqb_eq in L2. now subst.
  - apply Z.eqb_eq in L2. subst z. cbn. now rewrite N2Z.id.
  - destruct xs; try discriminate L. cbn [c_entry]. now rewrite L1.
Qed.

Lemma c_read_entry e : entry_ok e -> lenN (enc (entry_val e)) < 2 ^ 31 ->
  exists x, c_deser cEntry (enc (entry_val e)) = Ok (x, []) /\ c_entry x = Ok e.
Proof.
  intros Oe L. pose proof (lossless_entry e Oe) as Le. apply lossless_and in Le. destruct Le as (L1 & L2 & _).
  destruct (c_decode tEntry cEntry (entry_val e) [] eq_refl eq_refl eq_refl (wt_entry e Oe) (carried _ L1 L2) L (fun _ => eq_refl)) as (x & D & Lx).
  rewrite app_nil_r in D. exists x. split; [exact D|]. now apply c_entry_looks.
Qed.

(** An entry a C# client can read: its bytes are below 2^31. *)
Definition cfits (e : entry) : Prop := entry_ok e /\ lenN (entry_wire e) < 2 ^ 31.

Fixpoint c_handle_all (c : cty) (es : list entry) (w : cval) : res cval :=
  match es with [] => Ok w | e :: es' => do w <- c_handle c e w; c_handle_all c es' w end.

Lemma loop_enough {S} (step : S -> bytes -> S * res bytes) fuel s a b s' : a <> [] -> (length (a ++ b) <= fuel)%nat ->
  step s (a ++ b) = (s', Ok b) -> exists fuel', (length b <= fuel')%nat /\ loop fuel step s (a ++ b) = loop fuel' step s' b.
Proof.
  intros H L E. destruct a as [|x a]; [congruence|]. cbn [app length] in L. destruct fuel as [|fuel]; [lia|]. rewrite app_length in L.
  exists fuel. split; [lia|]. cbn [app loop] in *. now rewrite E.
Qed.

Lemma c_replay_all c es : Forall cfits es -> forall w w', c_handle_all c es w = Ok w' -> c_replay c w (concat (map entry_wire es)) = (w', Ok tt).
Proof.
  intros F w w' H. unfold c_replay, run. 
  enough (G : forall fuel, (length (concat (map entry_wire es)) <= fuel)%nat -> loop fuel (c_replay_step c) w (concat (map entry_wire es)) = (w', Ok [])).
  { now rewrite G. }
  revert w H. induction F as [|e es [Oe L] _ IH]; intros w H fuel Fu; cbn [c_handle_all map concat] in *.
  - injection H as <-. destruct fuel; reflexivity.
  - destruct (c_handle c e w) as [w1|x| |] eqn:E; cbn [bind] in H; try discriminate H.
    assert (Lb : lenN (enc (entry_val e)) < 2 ^ 31) by (unfold entry_wire in L; cbv zeta in L; rewrite lenN_app in L; lia).
    destruct (loop_enough (c_replay_step c) fuel w (entry_wire e) (concat (map entry_wire es)) w1) as (f' & F' & ->).
    + unfold entry_wire. cbv zeta. pose proof (leb128_nonempty (lenN (enc (entry_val e)))). destruct (leb128 _); [congruence|discriminate].
    + exact Fu.
    + unfold c_replay_step, entry_wire. cbv zeta. rewrite <- app_assoc, c_nested_spec by exact Lb. cbn [bind].
      destruct (c_read_entry e Oe Lb) as (x & -> & X). cbn [bind]. rewrite X. cbn [bind]. rewrite E. reflexivity.
    + now apply IH.
Qed.

Lemma entry_bytes_len e : lenN (entry_bytes e) <= lenN (entry_wire e).
Proof.
  unfold entry_wire. cbv zeta. rewrite lenN_app. destruct e as [p b|p b|p|p k]; cbn [entry_bytes entry_val]; try (unfold lenN at 1; cbn; lia);
    rewrite enc_enum, !enc_fields_cons, !lenN_app; cbn [fst snd].
  all: destruct b as [|x b]; [unfold lenN at 1; cbn; lia|]; cbn [left_out enc]; unfold enc_tagged; rewrite lenN_app; pose proof (delimited_len (VBytes (x :: b)) (x :: b)); lia.
Qed.

Lemma c_sim_all m t c es : ty_ok t = true -> state_ty t = true -> cls t c = true -> cls_ok c = true -> Forall (typed t) es -> Forall cfits es ->
  forall v w v', wt t v = true -> looks v w = true -> handle_all m t es v = (v', Ok tt) -> exists w', c_handle_all c es w = Ok w' /\ looks v' w' = true.
Proof.
  intros O S C K T. induction T as [|e es Te _ IH]; intros F v w v' W Lk H; cbn [handle_all c_handle_all] in *.
  - injection H as <-. eauto.
  - inversion F as [|? ? [Oe Le] F2]; subst. destruct (handle_entry m t e v) as [v1 [[]|x| |]] eqn:E; try discriminate H.
    destruct (c_sim m t e Te c v w v1 O S C K W Lk) as (w1 & E1 & L1); [pose proof (entry_bytes_len e); lia|exact E|].
    rewrite E1. cbn [bind]. apply (IH F2 v1); try assumption. pose proof (handle_entry_good m t e v O S W Oe) as G. rewrite E in G. now destruct G.
Qed.

(** ** Fresh objects *)

(** Types whose default value has no array items: a fresh [Vector] is empty. *)
Fixpoint no_arrays (t : ty) : bool :=
  match t with
  | TArr _ _ => false
  | TBox t => no_arrays t
  | TStruct _ fs => forallb (fun p : finfo * ty => let '(_, t) := p in no_arrays t) fs
  | TEnum _ vs => forallb (fun va : (N * bool) * list (finfo * ty) => forallb (fun p : finfo * ty => let '(_, t) := p in no_arrays t) (snd va)) vs
  | _ => true
  end.

Definition cfresh (t : ty) : Prop := forall c r, cls t c = true -> cls_ok c = true -> no_arrays t = true -> ty_ok t = true ->
  exists w, c_new c = Ok w /\ looks (dflt t r) w = true.

Lemma fresh_fields fs : Forall (fun p => cfresh (snd p)) fs -> forall cfs r, cls_fields fs cfs = true -> cls_ok_fields cfs = true ->
  forallb (fun p : finfo * ty => let '(_, t) := p in no_arrays t) fs = true -> forall st, fields_ok st fs = true ->
  exists xs, c_new_fields cfs = Ok xs /\ looks_fields (dflt_fields r fs) xs = true.
Proof.
  induction 1 as [|[fi t] fs H _ IH]; intros [|[tag [g c]] cfs] r C K N st O; try discriminate C; [now exists []|].
  unfold cls_ok_fields, fields_ok in *. cbn [cls_fields forallb c_new_fields snd] in *. bprop.
  destruct (H c (field_rt r fi)) as (w & Ew & Lw); try assumption. destruct (IH cfs r) with (st := st) as (xs & Ex & M); try assumption.
  assert (G : g && negb (c_constructible c) = false) by (destruct g, (c_constructible c); try reflexivity; discriminate).
  rewrite G, Ew. cbn [bind]. rewrite Ex. cbn [bind]. eexists. split; [reflexivity|]. unfold dflt_fields in *. cbn [map looks_fields]. rewrite Lw, M.
  match goal with X : (f_tag fi =? tag) = true |- _ => now rewrite X end.
Qed.

Lemma fresh_object t : cfresh t.
Proof.
  induction t as [k| | | |t IH|t IH|n t IH|ts IH|k t IHk IHt|t IH|si fs IH|st vs IH|t IH|k t IH] using ty_ind';
    intros c r C K N O; try (destruct c; discriminate C || (eexists; split; reflexivity)); try discriminate N.
  - cbn [no_arrays ty_ok] in *. destruct (IH c r C K N O) as (w & E & L). exists w. split; [exact E|exact L].
  - destruct c; try discriminate C. rewrite ty_ok_struct in O. bprop. rewrite cls_struct in C.
    destruct (fresh_fields fs IH fs0 r C K N (s_state si)) as (xs & E & L); [assumption|]. exists (CVStruct xs). rewrite c_new_struct, E. split; [reflexivity|].
    change (dflt (TStruct si fs) r) with (VStruct (s_cache si) (if s_state si then Some r else None) (dflt_fields r fs)). now rewrite looks_struct.
  - destruct c; try discriminate C. rewrite cls_enum in C. pose proof O as O'. rewrite ty_ok_enum in O'. bprop.
    destruct (find_variant_exists vs ltac:(assumption)) as (va & F). destruct (cls_find vs _ _ _ C F) as (cfs & A & Cf).
    pose proof (find_variant_in _ _ _ F) as [I T]. pose proof (variant_fields_ok _ _ _ O I) as (_ & Of & _).
    rewrite Forall_forall in IH. cbn [no_arrays] in N. rewrite forallb_forall in N.
    destruct (fresh_fields (snd va) (IH _ I) cfs (nested r 0) Cf) with (st := st) as (xs & E & L); [|exact (N _ I)|exact Of|].
    { cbn [cls_ok] in K. rewrite forallb_forall in K. exact (K _ (assoc_in _ _ _ A)). }
    exists (CVEnum 0 xs). rewrite c_new_enum, A, E. split; [reflexivity|]. rewrite dflt_enum, F. destruct va as [[tag cc] fs]. cbn [fst snd] in *. subst tag.
    cbn [variant_ctor]. rewrite looks_enum, N.eqb_refl. exact L.
Qed.

Lemma carried_writable v : c_carried v = true -> writable v = true.
Proof.
  induction v as [v L|v IH|v C IH] using val_slots_ind; intros W.
  - destruct v; try discriminate L; reflexivity.
  - cbn in *. auto.
  - assert (Items : forall l, Forall (fun x => c_carried x = true -> writable x = true) l -> forallb c_carried l = true -> forallb writable l = true).
    { induction 1 as [|x l H _ IHl]; intros A; [reflexivity|]. cbn in *. bprop. rewrite H, IHl by assumption. reflexivity. }
    assert (Fields : forall fs, Forall (fun s : slot => c_carried (snd s) = true -> writable (snd s) = true) (map fslot fs) ->
      forallb (fun p : finfo * val => let '(_, x) := p in c_carried x) fs = true -> forallb (fun p : finfo * val => let '(_, x) := p in writable x) fs = true).
    { induction fs as [|[fi x] fs IHf]; intros H A; [reflexivity|]. cbn in *. inversion H; subst. bprop. cbn in *. rewrite IHf by assumption.
      match goal with H : _ -> writable x = true |- _ => rewrite H by assumption end. reflexivity. }
    destruct v as [| | | |[x|]|l|l|l|l| |c ra fs|tag c ra fs|ra l|ra es]; try discriminate C; clear C; cbn [slots] in IH; cbn [writable c_carried] in *;
      try (apply (slot_items (fun x => c_carried x = true -> writable x = true)) in IH; now apply Items); try (now apply Fields).
    + inversion IH; subst. auto.
    + reflexivity.
    + induction l as [|[k x] l IHl]; [reflexivity|]. cbn [flat_map hslots app] in IH.
      inversion IH as [|? ? K1 IH1]; subst. inversion IH1 as [|? ? X1 IH2]; subst. cbn in *. bprop. rewrite K1, X1, IHl by assumption. reflexivity.
    + induction es as [|[k x] es IHl]; [reflexivity|]. cbn [map] in IH. inversion IH as [|? ? X1 IH2]; subst. cbn in *. bprop.
      rewrite X1, IHl by assumption. rewrite andb_true_r. now apply andb_true_iff.
Qed.
