(** C97: where reading stops, and going on after an error. *)
From Verif Require Import Base Varint WireFmt Utf8 Types Ser Spec De Log State StateSpec Pos ValInd VarintProofs WireProofs SerProofs
  TypeProofs EqProofs DeProofs RoundTrip MergeProofs NormProofs LogProofs TreeProofs CohProofs HandleProofs OpProofs ExecProofs Examples PosProofs.

(** What a call that succeeds leaves is what De.v says. *)
Theorem c97_left : forall m t v bs v' rest, merge m t v bs = (v', Ok rest) -> mergeL m t v bs = rest.
Proof. intros m t v bs v' rest E. destruct (merge_stops m t v bs v' (Ok rest) E I) as [A _]. exact (A rest eq_refl). Qed.
Print Assumptions c97_left.

(** What a call that fails leaves is an end of the bytes that it was not told about: with other bytes there, it fails in the same way. *)
Theorem c97_unread : forall m t v bs v' e, merge m t v bs = (v', Err e) ->
  exists p, bs = p ++ mergeL m t v bs /\ (mergeL m t v bs <> [] -> forall cs, cs <> [] -> merge m t v (p ++ cs) = (v', Err e)).
Proof. intros m t v bs v' e E. destruct (merge_stops m t v bs v' (Err e) E I) as [_ A]. exact A. Qed.
Print Assumptions c97_unread.

(** A call on a nested reader that fails leaves all that is behind, and what the call left of what was announced. *)
Theorem c97_frame : forall m t v bs sub behind v' e, rd_nested m bs = Ok (sub, behind) ->
  merge_nested m Sized (merge m t) Sized v bs = (v', Err e) ->
  merge_nestedL m Sized (mergeL m t) Sized v bs = mergeL m t v sub ++ behind /\ exists q, sub = q ++ mergeL m t v sub.
Proof.
  intros m t v bs sub behind v' e R E. unfold merge_nested, merge_nestedL in *. cbn [wtype_eqb negb] in *. rewrite R in *. cbn [try] in E.
  destruct (merge m t v sub) as [v1 r1] eqn:M. destruct r1 as [rest|x| |]; inversion E; subst. split; [reflexivity|].
  destruct (c97_unread m t v sub v' e M) as (p & B & _). exists p. auto.
Qed.
Print Assumptions c97_frame.

(** Whole pieces that were read before do not matter. *)
Lemma runL_pieces {S} (step : S -> bytes -> S * res bytes) lf : consuming step -> forall ps, Forall (local step) ps -> forall s b s1 rest,
  run step s (concat ps) = (s1, Ok rest) -> runL step lf s (concat ps ++ b) = runL step lf s1 b.
Proof.
  intros C. induction 1 as [|p ps [NE H] _ IH]; intros s b s1 rest E.
  - cbn [concat app] in *. rewrite run_nil in E. now injection E as -> _.
  - cbn [concat] in *. destruct (H s) as (s' & o & Es). rewrite <- app_assoc.
    assert (NA : forall y, p ++ y <> []) by (intros y; destruct p; [congruence|discriminate]).
    rewrite (run_step _ _ (p ++ concat ps) C (NA _)) in E. rewrite (runL_step _ _ _ (p ++ concat ps ++ b) C (NA _)).
    rewrite Es in *. destruct o; cbn [bind try] in *; try discriminate E. exact (IH s' b s1 rest E).
Qed.

Theorem c97_later : forall m t v a b v1 rest, whole_seq t a -> merge m t v a = (v1, Ok rest) -> mergeL m t v (a ++ b) = mergeL m t v1 b.
Proof.
  intros m t. induction t as [k| | | |t IH|t IH|n t IH|ts IH|k t IHk IHt|t IH|si fs IH|st vs IH|t IH|k t IH]
    using ty_ind'; intros v a b v1 rest H E; cbn [whole_seq] in H; try contradiction; try reflexivity; destruct v; try discriminate E.
  - cbn [merge] in E. destruct (seq_local _ _ a (opt_step_local m t (dflt t rt_default)) H) as (ps & -> & F).
    destruct (run _ o (concat ps)) as [o1 q] eqn:R. injection E as <- ->. cbn [mergeL].
    apply (runL_pieces _ _ (opt_step_consuming m _ _ _ (merge_suf m t)) ps F _ b _ _ R).
  - cbn [merge] in E. destruct (seq_local _ _ a (vec_step_local m t (dflt t rt_default)) H) as (ps & -> & F).
    destruct (run _ l (concat ps)) as [o1 q] eqn:R. injection E as <- ->. cbn [mergeL].
    apply (runL_pieces _ _ (vec_step_consuming m _ _ _ (merge_suf m t)) ps F _ b _ _ R).
  - cbn [merge] in E.
    assert (L : forall p, (exists a b, p = a ++ b /\ whole (wty k) a /\ whole (wty t) b) ->
      local (hash_step m (wty k) (merge m k) (dflt k rt_default) (wty t) (merge m t) (dflt t rt_default)) p).
    { intros p (x & y & -> & Wx & Wy). now apply hash_step_local. }
    destruct (seq_local _ _ a L H) as (ps & -> & F).
    destruct (run _ l (concat ps)) as [o1 q] eqn:R. injection E as <- ->. cbn [mergeL].
    apply (runL_pieces _ _ (hash_step_consuming m _ _ _ _ _ _ (merge_suf m k) (merge_suf m t)) ps F _ b _ _ R).
  - cbn [merge] in E. destruct (merge m t v a) as [w q] eqn:R. injection E as <- ->. cbn [mergeL]. exact (IH v a b w rest H R).
  - rewrite merge_struct in E.
    assert (L : forall p, (exists fn w, whole_field fn w p) -> local (struct_step m (fmergers m fs)) p).
    { intros p (fn & w & W). now apply (struct_step_local m fs fn w). }
    destruct (seq_local _ _ a L H) as (ps & -> & F).
    destruct (run _ fs0 (concat ps)) as [o1 q] eqn:R. injection E as <- ->.
    apply (runL_pieces _ (struct_stepL m (flefters m fs)) (struct_consuming m fs) ps F _ b _ _ R).
  - cbn [merge] in E. destruct (seq_local _ _ a (list_step_local m t (fun i => dflt t (nested r i))) H) as (ps & -> & F).
    destruct (run _ l (concat ps)) as [o1 q] eqn:R. injection E as <- ->. cbn [mergeL].
    apply (runL_pieces _ _ (list_step_consuming m _ _ _ (merge_suf m t)) ps F _ b _ _ R).
  - cbn [merge] in E.
    assert (L : forall p, (exists fn w q b, p = q ++ b /\ fn <= FIELD_NUMBER_MAX /\
                          one_varint 5 q (tag_num fn w) /\ whole (wty t) b) ->
      local (map_step m k (wty t) (merge m t) (fun i => dflt t (nested r i))) p).
    { intros p (fn & w & q & y & -> & Lf & V & Wy). now apply (map_step_local m k t _ fn w). }
    destruct (seq_local _ _ a L H) as (ps & -> & F).
    destruct (run _ es (concat ps)) as [o1 q] eqn:R. injection E as <- ->. cbn [mergeL].
    apply (runL_pieces _ _ (map_step_consuming m _ _ _ _ (merge_suf m t)) ps F _ b _ _ R).
Qed.
Print Assumptions c97_later.

Lemma uv_not_nil m bits bs x rest : uv_deserialize m bits bs = Ok (x, rest) -> bs <> [].
Proof. intros E ->. discriminate E. Qed.

(** What follows: a wire type that is none, and a key that is none of the map's.  The number has been read, and nothing else. *)
Theorem c97_tag : forall m si fts c r fs bs n rest, uv_deserialize m 32 bs = Ok (n, rest) -> n mod 8 <> 0 -> n mod 8 <> 2 ->
  merge m (TStruct si fts) (VStruct c r fs) bs = (VStruct c r fs, Err InvalidData) /\ mergeL m (TStruct si fts) (VStruct c r fs) bs = rest.
Proof.
  intros m si fts c r fs bs n rest U N0 N2. pose proof (uv_not_nil _ _ _ _ _ U) as Ne.
  assert (P : parse_tag n = Err InvalidData).
  { unfold parse_tag. change WIRE_TYPE_MASK with (N.ones 3). rewrite N.land_ones. change (2 ^ 3) with 8.
    destruct (n mod 8) as [|[p|[q|q|]|]]; try reflexivity; congruence. }
  split.
  - rewrite merge_struct, run_step; [|apply struct_consuming|exact Ne]. unfold struct_step, rd_tag. rewrite U. cbn [bind try]. rewrite P. reflexivity.
  - change (mergeL m (TStruct si fts) (VStruct c r fs) bs) with (runL (struct_step m (fmergers m fts)) (struct_stepL m (flefters m fts)) fs bs).
    rewrite runL_step; [|apply struct_consuming|exact Ne]. unfold struct_step, rd_tag, struct_stepL. rewrite U. cbn [bind try]. rewrite P. reflexivity.
Qed.
Print Assumptions c97_tag.

Theorem c97_key : forall m k t r es bs fn w rest, uv_deserialize m 32 bs = Ok (tag_num fn w, rest) -> mkey_max k < fn -> fn <= FIELD_NUMBER_MAX ->
  merge m (TMap k t) (VMap r es) bs = (VMap r es, Err InvalidData) /\ mergeL m (TMap k t) (VMap r es) bs = rest.
Proof.
  intros m k t r es bs fn w rest U K F. pose proof (uv_not_nil _ _ _ _ _ U) as Ne.
  assert (P : parse_tag (tag_num fn w) = Ok (fn, w)) by now apply parse_tag_num.
  assert (V : validate_field_number fn = Ok tt) by (unfold validate_field_number; destruct (_ <? _) eqn:Q; [lia|reflexivity]).
  assert (X : key_of_fn k fn = Err InvalidData) by (unfold key_of_fn; destruct (fn <=? mkey_max k) eqn:Q; [lia|reflexivity]).
  split.
  - cbn [merge]. rewrite run_step; [|apply map_step_consuming, merge_suf|exact Ne]. unfold map_step. rewrite U. cbn [try]. rewrite P. cbn [try]. rewrite V. cbn [try]. rewrite X. reflexivity.
  - cbn [mergeL]. rewrite runL_step; [|apply map_step_consuming, merge_suf|exact Ne].
    unfold map_step, map_stepL. rewrite U. cbn [try]. rewrite P. cbn [try bind]. rewrite V. cbn [try bind]. rewrite X. reflexivity.
Qed.
Print Assumptions c97_key.

(** A field, an item or an entry that fails leaves what it leaves of its frame, and all that is behind. *)
Lemma field_left m fts : NoDup (map (fun p => f_tag (fst p)) fts) -> forall fs i fi t fj x bs, wt_fields fts fs = true ->
  nth_error fts i = Some (fi, t) -> nth_error fs i = Some (fj, x) ->
  merge_fieldL m (flefters m fts) fs (f_tag fi) Sized bs = merge_nestedL m (wty t) (mergeL m t) Sized x bs /\
  (forall e x', merge_nested m (wty t) (merge m t) Sized x bs = (x', Err e) ->
     exists fs', merge_field m (fmergers m fts) fs (f_tag fi) Sized bs = (fs', Err e) /\ nth_error fs' i = Some (fj, x')).
Proof.
  induction fts as [|[gi u] fts IH]; intros D [|[gj y] fs] i fi t fj x bs W A B; try (destruct i; discriminate). cbn [map fst] in D. inversion D as [|? ? Ni Dn]; subst.
  cbn [wt_fields] in W. bprop. cbn [flefters fmergers map merge_fieldL merge_field]. change (map _ fts) with (flefters m fts) at 1. destruct i as [|i]; cbn [nth_error] in A, B.
  - injection A as <- <-. injection B as <- <-. rewrite N.eqb_refl. split; [reflexivity|]. intros e x' E. rewrite E. eexists. split; reflexivity.
  - destruct (f_tag fi =? f_tag gi) eqn:Q.
    + exfalso. apply Ni. apply N.eqb_eq in Q. rewrite <- Q. change (f_tag fi) with ((fun p : finfo * ty => f_tag (fst p)) (fi, t)). apply in_map. exact (nth_error_In _ _ A).
    + destruct (IH Dn fs i fi t fj x bs ltac:(assumption) A B) as [X Y]. split; [exact X|]. intros e x' E. destruct (Y e x' E) as (fs' & Z1 & Z2).
      change (map _ fts) with (fmergers m fts). rewrite Z1. eexists. split; [reflexivity|exact Z2].
Qed.

Theorem c97_field : forall m si fts c r fs bs i fi t fj x rest sub behind x' e, ty_ok (TStruct si fts) = true -> wt (TStruct si fts) (VStruct c r fs) = true ->
  nth_error fts i = Some (fi, t) -> nth_error fs i = Some (fj, x) -> wty t = Sized -> f_tag fi <= FIELD_NUMBER_MAX ->
  uv_deserialize m 32 bs = Ok (tag_num (f_tag fi) Sized, rest) -> rd_nested m rest = Ok (sub, behind) -> merge m t x sub = (x', Err e) ->
  (exists fs', merge m (TStruct si fts) (VStruct c r fs) bs = (VStruct c r fs', Err e) /\ nth_error fs' i = Some (fj, x')) /\
  mergeL m (TStruct si fts) (VStruct c r fs) bs = mergeL m t x sub ++ behind.
Proof.
  intros m si fts c r fs bs i fi t fj x rest sub behind x' e O W A B Wt Lf U R M. pose proof (uv_not_nil _ _ _ _ _ U) as Ne.
  assert (P : parse_tag (tag_num (f_tag fi) Sized) = Ok (f_tag fi, Sized)) by now apply parse_tag_num.
  assert (D : NoDup (map (fun p : finfo * ty => f_tag (fst p)) fts)) by (cbn [ty_ok] in O; bprop; now apply nodupb_NoDup).
  assert (Wf : wt_fields fts fs = true) by (cbn [wt] in W; bprop; assumption).
  assert (Mn : merge_nested m (wty t) (merge m t) Sized x rest = (x', Err e)) by (rewrite Wt; unfold merge_nested; cbn [wtype_eqb negb]; rewrite R; cbn [try]; rewrite M; reflexivity).
  destruct (field_left m fts D fs i fi t fj x rest Wf A B) as [X Y]. destruct (Y e x' Mn) as (fs' & Z1 & Z2). split.
  - exists fs'. split; [|exact Z2]. rewrite merge_struct, run_step; [|apply struct_consuming|exact Ne]. unfold struct_step, rd_tag. rewrite U. cbn [bind try]. rewrite P. cbn [bind try]. rewrite Z1. reflexivity.
  - change (mergeL m (TStruct si fts) (VStruct c r fs) bs) with (runL (struct_step m (fmergers m fts)) (struct_stepL m (flefters m fts)) fs bs).
    rewrite runL_step; [|apply struct_consuming|exact Ne]. unfold struct_step, rd_tag, struct_stepL. rewrite U. cbn [bind try]. rewrite P. cbn [bind try]. rewrite Z1, X, Wt.
    unfold merge_nestedL. cbn [wtype_eqb negb]. rewrite R. reflexivity.
Qed.
Print Assumptions c97_field.

Theorem c97_item : forall m t r l bs sub behind x' e, wty t = Sized -> bs <> [] -> rd_nested m bs = Ok (sub, behind) ->
  merge m t (dflt t (nested r (lenN l))) sub = (x', Err e) ->
  merge m (TList t) (VList r l) bs = (VList r l, Err e) /\ mergeL m (TList t) (VList r l) bs = mergeL m t (dflt t (nested r (lenN l))) sub ++ behind.
Proof.
  intros m t r l bs sub behind x' e Wt Ne R M. split.
  - cbn [merge]. rewrite run_step; [|apply list_step_consuming, merge_suf|exact Ne]. unfold list_step, merge_nested. rewrite Wt. cbn [wtype_eqb negb]. rewrite R. cbn [try]. rewrite M. reflexivity.
  - cbn [mergeL]. rewrite runL_step; [|apply list_step_consuming, merge_suf|exact Ne]. unfold list_step, list_stepL, merge_nested, merge_nestedL. rewrite Wt. cbn [wtype_eqb negb].
    rewrite R. cbn [try]. rewrite M. reflexivity.
Qed.
Print Assumptions c97_item.

(** A variant that is not known: its tag has been read, and nothing of what belongs to it. *)
Theorem c97_variant : forall m st vs tag c r fs bs tag' rest, uv_deserialize m 32 bs = Ok (tag', rest) ->
  (forall va, In va vs -> fst (fst va) <> tag') ->
  merge m (TEnum st vs) (VEnum tag c r fs) bs = (VEnum tag c r fs, Err InvalidData) /\ mergeL m (TEnum st vs) (VEnum tag c r fs) bs = rest.
Proof.
  intros m st vs tag c r fs bs tag' rest U N. rewrite merge_enum, mergeL_enum, U. cbn [try].
  destruct (find_variant vs tag') as [va|] eqn:F; [|split; reflexivity]. apply find_variant_in in F. destruct (N va (proj1 F) (proj2 F)).
Qed.
Print Assumptions c97_variant.

(** ** Replay *)

Definition sent (e : entry) : Prop := entry_ok e /\ lenN (enc (entry_val e)) < 2 ^ 64.

Section Root.
  Context (m : mode) (t : ty) (lg : N) (O : ty_ok t = true) (S : state_ty t = true) (P : root_ty t = true).
  Lemma one_entry e rest v : sent e -> wt t v = true -> coh (mkRt lg Root) v ->
    let '(v', o) := handle_entry m t e v in wt t v' = true /\ coh (mkRt lg Root) v' /\
    replay m t v (entry_wire e ++ rest) = match o with Ok _ => replay m t v' rest | Err x => (v', Err x) | Panic => (v', Panic) | NoFuel => (v', NoFuel) end /\
    replayL m t v (entry_wire e ++ rest) = match o with Ok _ => replayL m t v' rest | _ => rest end.
  Proof.
    intros [Oe L] W C. pose proof (handle_entry_good m t e v O S W Oe) as G. pose proof (handle_coh m t O S) as Hc.
    assert (C' : coh (mkRt lg Root) (fst (handle_entry m t e v))) by (destruct Oe as (_ & _ & Be); now apply Hc).
    assert (Ne : entry_wire e ++ rest <> []) by (intros Z; apply app_eq_nil in Z; destruct Z as [Z _]; now apply entry_wire_nonempty in Z).
    destruct (handle_entry m t e v) as [v' o] eqn:E. destruct G as [W' _]. cbn [fst] in C'. split; [exact W'|]. split; [exact C'|].
    unfold replay, replayL. rewrite (is_root_coh t v lg S P W C), (is_root_coh t v' lg S P W' C').
    rewrite run_step, runL_step; [|apply replay_step_consuming|exact Ne|apply replay_step_consuming|exact Ne].
    assert (X : replay_step m t v (entry_wire e ++ rest) = (v', do _ <- o; Ok rest)) by (unfold replay_step; rewrite (read_entry_wire m e rest Oe L); cbn [try]; rewrite E; reflexivity).
    assert (Y : replay_stepL m t v (entry_wire e ++ rest) = rest) by (unfold replay_stepL; rewrite (read_entry_wire m e rest Oe L); reflexivity).
    rewrite X, Y. destruct o; cbn [bind try]; split; reflexivity.
  Qed.
End Root.

(** An entry that can be read but not be applied has been read: the reader stands behind it. *)
Theorem c97_failed : forall m t lg v es v1 e v2 x rest, ty_ok t = true -> state_ty t = true -> root_ty t = true -> wt t v = true -> placed (mkRt lg Root) t v ->
  Forall sent (es ++ [e]) -> handle_all m t es v = (v1, Ok tt) -> handle_entry m t e v1 = (v2, Err x) ->
  let bs := concat (map entry_wire (es ++ [e])) ++ rest in
  replay m t v bs = (v2, Err x) /\ replayL m t v bs = rest.
Proof.
  intros m t lg v es v1 e v2 x rest O S P W Pl F. apply placed_coh in Pl; try assumption. revert v W Pl.
  induction es as [|a es IH]; intros v W C H E; cbn zeta; cbn [app map concat].
  - cbn [handle_all] in H. injection H as ->. inversion F; subst. rewrite app_nil_r.
    pose proof (one_entry m t lg O S P e rest v1 ltac:(assumption) W C) as K. rewrite E in K. tauto.
  - inversion F as [|? ? Fa Fe]; subst. cbn [handle_all] in H. rewrite <- app_assoc.
    pose proof (one_entry m t lg O S P a (concat (map entry_wire (es ++ [e])) ++ rest) v Fa W C) as K.
    destruct (handle_entry m t a v) as [w [u|y| |]]; try discriminate H. destruct K as (Ww & Cw & R & L). rewrite R, L. exact (IH Fe w Ww Cw H E).
Qed.
Print Assumptions c97_failed.

(** What comes of a log when what fails is passed over: the value, and how many entries failed. *)
Fixpoint all_tried (m : mode) (t : ty) (es : list entry) (v : val) : option (val * nat) :=
  match es with
  | [] => Some (v, O)
  | e :: es' =>
      match handle_entry m t e v with
      | (v', Ok _) => all_tried m t es' v'
      | (v', Err _) => match all_tried m t es' v' with Some (w, n) => Some (w, S n) | None => None end
      | _ => None
      end
  end.

(** So a program that calls [replay] again after each error applies every entry of the log that can be applied, and gets
    one error for each of the others. *)
Theorem c97_keep_on : forall m t lg es n v, ty_ok t = true -> state_ty t = true -> root_ty t = true -> wt t v = true -> placed (mkRt lg Root) t v ->
  Forall sent es -> (length es < n)%nat ->
  keep_on n m t v (concat (map entry_wire es)) = all_tried m t es v.
Proof.
  intros m t lg es n v O S P W Pl F. apply placed_coh in Pl; try assumption. revert n v W Pl. induction F as [|e es Fe F IH]; intros n v W C L.
  - destruct n as [|n]; [lia|]. cbn [map concat keep_on all_tried]. unfold replay. rewrite (is_root_coh t v lg S P W C). reflexivity.
  - cbn [map concat all_tried]. pose proof (one_entry m t lg O S P e (concat (map entry_wire es)) v Fe W C) as K.
    destruct n as [|n]; [lia|]. cbn [length] in L.
    destruct (handle_entry m t e v) as [w o] eqn:E. destruct K as (Ww & Cw & R & Lf). destruct o as [u|x| |].
    + rewrite <- (IH (Datatypes.S n) w Ww Cw ltac:(lia)). cbn [keep_on]. rewrite R, Lf. reflexivity.
    + rewrite <- (IH n w Ww Cw ltac:(lia)). cbn [keep_on]. rewrite R, Lf. reflexivity.
    + cbn [keep_on]. rewrite R. reflexivity.
    + cbn [keep_on]. rewrite R. reflexivity.
Qed.
Print Assumptions c97_keep_on.

(** It is false of an entry that cannot be read: a kind that is not known leaves the rest of the entry, and the next
    call takes that for entries. *)
Theorem c97_garbled_refuted :
  ~ (forall m t v body rest v' e, is_root v = Ok true -> replay m t v (leb128 (lenN body) ++ body ++ rest) = (v', Err e) ->
     replay m t v (leb128 (lenN body) ++ body) = (v', Err e) -> replayL m t v (leb128 (lenN body) ++ body ++ rest) = rest) /\
  keep_on 3 Release (TList (TInt U8)) (VList ex_rt []) (leb128 6 ++ 7 :: entry_wire (EListPush [] [7])) = Some (VList ex_rt [VInt U8 7], 1%nat).
Proof.
  split; [|vm_compute; reflexivity]. intros H. specialize (H Release (TList (TInt U8)) (VList ex_rt []) [7; 4; 8; 10; 1; 7] [] (VList ex_rt []) InvalidData eq_refl eq_refl eq_refl).
  vm_compute in H. discriminate H.
Qed.
Print Assumptions c97_garbled_refuted.

Example c97_case :
  let t := TMap K8 tPoint in let v := VMap ex_rt [(3, vPoint (nested ex_rt 3) 1 2 3)] in
  let l := [EMapRemove [] 4; EUpdate [3; 0] [14]; EUpdate [3; 9] []; EUpdate [3; 1] [128]; EUpdate [3; 2] [2]] in
  keep_on 6 Debug t v (concat (map entry_wire l)) = Some (VMap ex_rt [(3, vPoint (nested ex_rt 3) 7 2 1)], 3%nat) /\
  replayL Debug t v (concat (map entry_wire l)) = concat (map entry_wire (tl l)) /\
  merge Debug t v [26; 2; 0; 14; 146; 16; 9; 9] = (VMap ex_rt [(3, vPoint (nested ex_rt 3) 7 2 3)], Err InvalidData) /\
  mergeL Debug t v [26; 2; 0; 14; 146; 16; 9; 9] = [9; 9] /\
  mergeL Debug tPoint (vPoint ex_rt 0 0 0) [0; 2; 8; 128] = [].
Proof. vm_compute. repeat split. Qed.
