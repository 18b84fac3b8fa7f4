(** What an entry leaves alone; keys of decoded maps. *)
From Verif Require Import Base Varint WireFmt Utf8 Types Ser Spec De Log State StateSpec Coll ValInd VarintProofs WireProofs SerProofs
  TypeProofs EqProofs DeProofs RoundTrip MergeProofs NormProofs LogProofs TreeProofs CohProofs HandleProofs OpProofs ExecProofs ReplayProofs.

Lemma step_dec (s s' : step) : {s = s'} + {s <> s'}.
Proof. decide equality; apply N.eq_dec. Qed.

Lemma child_put_other t v s s' y : s <> s' -> child t (put_child v s y) s' = child t v s'.
Proof.
  intros N. assert (FF : forall fn fn' fts fs, fn <> fn' -> field_child fn' fts (put_field fn y fs) = field_child fn' fts fs).
  { intros fn fn' fts fs Ne. unfold field_child. now rewrite find_put_other. }
  destruct s as [fn|i|k|], s' as [fn'|i'|k'|]; try congruence; destruct v as [k0 z|b| | | | | | | |w|c r0 fs|tag c r0 fs|r0 l|r0 es]; try reflexivity; destruct t; try reflexivity; cbn.
  - apply FF. congruence.
  - destruct (find_variant vs tag); [|reflexivity]. apply FF. congruence.
  - rewrite nth_set_other; [reflexivity|]. intros X. apply N. f_equal. lia.
  - rewrite assoc_im_other; [reflexivity|congruence].
Qed.

Lemma comparable_app a p q : comparable (a ++ p) (a ++ q) <-> comparable p q.
Proof.
  unfold comparable. split; intros (s & H); exists s.
  - rewrite <- !app_assoc in H. destruct H as [H|H]; apply app_inv_head in H; auto.
  - destruct H as [-> | ->]; [left|right]; now rewrite app_assoc.
Qed.
Lemma comparable_nil p : comparable [] p.
Proof. exists p. now right. Qed.

Lemma part_lift : forall steps0 t v t0 x0 p e y, walk t v steps0 = Some (t0, x0, p) ->
  (forall steps t' x q, ~ comparable q e -> part t0 x0 steps = Some (t', x, q) <-> part t0 y steps = Some (t', x, q)) ->
  forall steps t' x q, ~ comparable q (p ++ e) -> part t v steps = Some (t', x, q) <-> part t (put_at t v steps0 y) steps = Some (t', x, q).
Proof.
  induction steps0 as [|s0 ss0 IH]; intros t v t0 x0 p e y Wk H steps t' x q NC; cbn [walk put_at] in *.
  - inversion Wk; subst. apply H. exact NC.
  - destruct (child t v s0) as [[t1 z]|] eqn:C; [|discriminate Wk]. destruct (state_step v s0) eqn:Ss; [|discriminate Wk].
    destruct (walk t1 z ss0) as [[[t2 z2] p2]|] eqn:K; [|discriminate Wk]. inversion Wk; subst.
    destruct steps as [|s steps].
    + cbn [part]. split; intros E; inversion E; subst; exfalso; apply NC, comparable_nil.
    + cbn [part]. rewrite seg_put. destruct (step_dec s0 s) as [<-|Ne].
      * rewrite C, (child_put _ _ _ _ _ (put_at t1 z ss0 y) C).
        assert (G : forall q', q = seg v s0 ++ q' -> part t1 z steps = Some (t', x, q') <-> part t1 (put_at t1 z ss0 y) steps = Some (t', x, q')).
        { intros q' ->. apply (IH t1 z t0 x0 p2 e y K H). intros Cq. apply NC. rewrite <- app_assoc. now apply comparable_app. }
        split; intros E.
        -- destruct (part t1 z steps) as [[[t3 z3] q3]|] eqn:P; [|discriminate E]. inversion E; subst. now rewrite (proj1 (G q3 eq_refl) eq_refl).
        -- destruct (part t1 (put_at t1 z ss0 y) steps) as [[[t3 z3] q3]|] eqn:P; [|discriminate E]. inversion E; subst. now rewrite (proj2 (G q3 eq_refl) eq_refl).
      * now rewrite (child_put_other t v s0 s _ Ne).
Qed.

Lemma shape_frame t v p v' : shape t v p v' -> forall steps t' x q, ~ comparable q p ->
  part t v steps = Some (t', x, q) <-> part t v' steps = Some (t', x, q).
Proof.
  intros [|steps0 t0 x0 y Wk _|steps0 kk t0 r es k q0 y Wk -> A _] steps t' x q NC; [reflexivity| |].
  - apply (part_lift steps0 t v t0 x0 p [] y Wk); [|now rewrite app_nil_r]. intros ss tt xx qq NC'. exfalso. apply NC'. exists qq. left. reflexivity.
  - apply (part_lift steps0 t v (TMap kk t0) (VMap r es) q0 [k] _ Wk); [|exact NC]. clear. intros steps t' x q NC.
    destruct steps as [|s steps]; cbn [part].
    + split; intros E; inversion E; subst; exfalso; apply NC, comparable_nil.
    + destruct s as [fn|i|k'|]; cbn [child]; try reflexivity.
      assert (A : k' = k \/ assoc k' (es ++ [(k, y)]) = assoc k' es).
      { destruct (N.eq_dec k' k) as [->|Ne]; [now left|right]. induction es as [|[k1 z] es IH]; cbn.
        - destruct (k' =? k) eqn:E; [apply N.eqb_eq in E; congruence|reflexivity].
        - now rewrite IH. }
      destruct A as [-> | ->]; [|reflexivity]. cbn [seg].
      split; intros E; exfalso; apply NC.
      * destruct (assoc k es) as [z|]; [|discriminate E]. destruct (part t0 z steps) as [[[? ?] q']|]; [|discriminate E]. inversion E; subst. exists q'. now left.
      * destruct (assoc k (es ++ [(k, y)])) as [z|]; [|discriminate E]. destruct (part t0 z steps) as [[[? ?] q']|]; [|discriminate E]. inversion E; subst. exists q'. now left.
Qed.

(** ** Keys of decoded maps *)

Definition KM (m : mode) (t : ty) : Prop := forall v bs, keys_in t v = true -> keys_in t (fst (merge m t v bs)) = true.

Lemma keys_dflt t r : ty_ok t = true -> keys_in t (dflt t r) = true.
Proof. intros O. pose proof (lossless_dflt t O r) as L. apply lossless_and in L. now destruct L as (_ & _ & L). Qed.

Lemma merge_nested_keys m t w v bs : KM m t -> keys_in t v = true -> keys_in t (fst (merge_nested m (wty t) (merge m t) w v bs)) = true.
Proof.
  intros H K. unfold merge_nested. destruct (negb _); [exact K|]. destruct w; [now apply H|].
  destruct (rd_nested m bs) as [[sub after]|e| |]; cbn [try]; try exact K. specialize (H v sub K). destruct (merge m t v sub) as [v' o]. exact H.
Qed.
Lemma de_nested_keys m t d bs v rest : KM m t -> keys_in t d = true -> de_nested m (wty t) (merge m t) d bs = Ok (v, rest) -> keys_in t v = true.
Proof.
  intros H K E. unfold de_nested in E. pose proof (merge_nested_keys m t (wty t) d bs H K) as G. destruct (merge_nested _ _ _ _ d bs) as [v' [r|e| |]]; try discriminate E.
  cbn in E. inversion E; subst. exact G.
Qed.

Lemma merge_field_keys m fts : Forall (fun p => KM m (snd p)) fts -> forall fs fn w bs, keys_fields fts fs = true ->
  keys_fields fts (fst (merge_field m (fmergers m fts) fs fn w bs)) = true.
Proof.
  induction 1 as [|[fi t] fts H _ IH]; intros [|[fj x] fs] fn w bs K; try reflexivity.
  cbn [keys_fields] in K. bprop. cbn [fmergers map merge_field]. destruct (fn =? f_tag fi).
  - pose proof (merge_nested_keys m t w x bs H ltac:(assumption)) as G. destruct (merge_nested m (wty t) (merge m t) w x bs) as [x' o]. cbn [fst keys_fields] in *.
    now rewrite G.
  - specialize (IH fs fn w bs ltac:(assumption)). unfold fmergers in IH. destruct (merge_field m _ fs fn w bs) as [fs' o]. cbn [fst keys_fields] in *.
    rewrite IH. now rewrite andb_true_r.
Qed.
Lemma struct_run_keys m fts fs bs : Forall (fun p => KM m (snd p)) fts -> keys_fields fts fs = true ->
  keys_fields fts (fst (run (struct_step m (fmergers m fts)) fs bs)) = true.
Proof.
  intros H K. apply (run_inv (struct_step m (fmergers m fts)) (fun fs => keys_fields fts fs = true)); [|exact K].
  intros s b Js. unfold struct_step. destruct (rd_tag m b) as [[[fn w] rest]|e| |]; cbn [try]; try exact Js. now apply merge_field_keys.
Qed.

Lemma forallb_im {A} (f : N * A -> bool) k x es : f (k, x) = true -> forallb f es = true -> forallb f (im_insert k x es) = true.
Proof.
  intros H. induction es as [|[k' y] es IH]; cbn; [now rewrite H|]. intros E. bprop. destruct (k =? k') eqn:Ek; cbn.
  - apply N.eqb_eq in Ek. subst k'. rewrite H. assumption.
  - rewrite IH by assumption. now rewrite andb_true_r.
Qed.
Lemma forallb_hash (f : val * val -> bool) k x es : (forall k', f (k', x) = f (k', x)) ->
  (forall k' y, f (k', y) = true -> f (k', x) = true) -> f (k, x) = true -> forallb f es = true -> forallb f (hash_insert k x es) = true.
Proof.
  intros _ R H. induction es as [|[k' y] es IH]; cbn; [now rewrite H|]. intros E. bprop. destruct (veqb k k'); cbn.
  - rewrite (R k' y) by assumption. assumption.
  - rewrite IH by assumption. now rewrite andb_true_r.
Qed.

Lemma merge_keys m t : ty_ok t = true -> KM m t.
Proof.
  induction t as [k| | | |t IH|t IH|n t IH|ts IH|kt vt IHk IHt|t IH|si fs IH|st vs IH|t IH|k t IH]
    using ty_ind'; intros O v bs K; try reflexivity.
  - destruct v; try exact K. cbn [ty_ok merge] in *. bprop.
    assert (G : (fun o => keys_in (TOpt t) (VOpt o) = true) (fst (run (opt_step m (wty t) (merge m t) (dflt t rt_default)) o bs))).
    { apply (run_inv (opt_step m (wty t) (merge m t) (dflt t rt_default)) (fun o => keys_in (TOpt t) (VOpt o) = true)); [|exact K].
      intros s b Js. unfold opt_step.
      pose proof (merge_nested_keys m t (wty t) (match s with Some x => x | None => dflt t rt_default end) b (IH ltac:(assumption))) as G.
      destruct (merge_nested _ _ _ _ _ b) as [x r]. cbn. apply G. destruct s; [exact Js|now apply keys_dflt]. }
    destruct (run _ o bs) as [o' r]. exact G.
  - destruct v; try exact K. cbn [ty_ok merge] in *. bprop.
    assert (G : (fun l => forallb (keys_in t) l = true) (fst (run (vec_step m (wty t) (merge m t) (dflt t rt_default)) l bs))).
    { apply (run_inv (vec_step m (wty t) (merge m t) (dflt t rt_default)) (fun l => forallb (keys_in t) l = true)); [|exact K].
      intros s b Js. unfold vec_step. destruct (de_nested m (wty t) (merge m t) (dflt t rt_default) b) as [[x rest]|e| |] eqn:E; cbn [try fst]; try exact Js.
      rewrite forallb_app, Js. cbn. rewrite (de_nested_keys m t _ b x rest (IH ltac:(assumption)) (keys_dflt t rt_default ltac:(assumption)) E). reflexivity. }
    destruct (run _ l bs) as [l' r]. exact G.
  - destruct v; try exact K. cbn [ty_ok merge] in *. bprop.
    assert (G : forall l bs, forallb (keys_in t) l = true -> forallb (keys_in t) (fst (arr_loop m (wty t) (merge m t) (dflt t rt_default) l bs)) = true).
    { clear K. induction l0 as [|x l0 IHl]; intros b Kl; [reflexivity|]. cbn [arr_loop]. destruct b as [|b0 b]; [exact Kl|]. pose proof Kl as Kl0. cbn [forallb] in Kl. bprop.
      destruct (de_nested m (wty t) (merge m t) (dflt t rt_default) (b0 :: b)) as [[y rest]|e| |] eqn:E; cbn [try fst]; try exact Kl0.
      specialize (IHl rest ltac:(assumption)). destruct (arr_loop m _ _ _ l0 rest) as [l1 r]. cbn [fst forallb] in *.
      rewrite (de_nested_keys m t _ _ y rest (IH ltac:(assumption)) (keys_dflt t rt_default ltac:(assumption)) E). exact IHl. }
    specialize (G l bs K). destruct (arr_loop m _ _ _ l bs) as [l' r]. exact G.
  - destruct v; try exact K. cbn [ty_ok merge] in *. bprop.
    set (ms := map (fun t => ((wty t, merge m t), dflt t rt_default)) ts).
    assert (G : forall bs l' rest, tup_read m ms bs = Ok (l', rest) -> keys_list ts l' = true).
    { subst ms. clear K. match goal with X : forallb ty_ok ts = true |- _ => revert X end. clear - IH.
      induction IH as [|t ts Ht _ IHl]; intros Ot b l' rest E; cbn [map tup_read] in E.
      - inversion E; subst. reflexivity.
      - cbn [forallb] in Ot. bprop. destruct (de_nested m (wty t) (merge m t) (dflt t rt_default) b) as [[x r]|e| |] eqn:Ed; cbn [bind] in E; try discriminate E.
        destruct (tup_read m _ r) as [[l2 r2]|e| |] eqn:Et; cbn [bind] in E; try discriminate E. inversion E; subst. cbn [keys_list].
        rewrite (de_nested_keys m t _ b x r (Ht ltac:(assumption)) (keys_dflt t rt_default ltac:(assumption)) Ed). cbn. now apply (IHl ltac:(assumption) r l2 rest). }
    destruct (tup_read m ms bs) as [[l' rest]|e| |] eqn:E; cbn [try fst]; try exact K. rewrite keys_tup. now apply (G bs l' rest).
  - destruct v; try exact K. cbn [ty_ok merge] in *. bprop.
    set (f := fun e : val * val => keys_in kt (fst e) && keys_in vt (snd e)).
    set (stp := hash_step m (wty kt) (merge m kt) (dflt kt rt_default) (wty vt) (merge m vt) (dflt vt rt_default)).
    assert (G : (fun l => forallb f l = true) (fst (run stp l bs))).
    { apply (run_inv stp (fun l => forallb f l = true)); [|exact K].
      intros s b Js. unfold stp, hash_step.
      destruct (de_nested m (wty kt) (merge m kt) (dflt kt rt_default) b) as [[x rest]|e| |] eqn:E; cbn [try fst]; try exact Js.
      destruct (de_nested m (wty vt) (merge m vt) (dflt vt rt_default) rest) as [[y rest']|e| |] eqn:E'; cbn [try fst]; try exact Js.
      pose proof (de_nested_keys m kt _ b x rest (IHk ltac:(assumption)) (keys_dflt kt rt_default ltac:(assumption)) E) as Kx.
      pose proof (de_nested_keys m vt _ rest y rest' (IHt ltac:(assumption)) (keys_dflt vt rt_default ltac:(assumption)) E') as Ky.
      apply forallb_hash; [reflexivity| | |exact Js]; unfold f; cbn [fst snd].
      - intros k' y' Hk. bprop. rewrite Ky. now rewrite andb_true_r.
      - now rewrite Kx, Ky. }
    destruct (run stp l bs) as [l' r]. exact G.
  - destruct v; try exact K. cbn [ty_ok merge] in *. specialize (IH O v bs K). destruct (merge m t v bs) as [x o]. exact IH.
  - destruct v; try exact K. rewrite ty_ok_struct in O. bprop. rewrite merge_struct, keys_struct in *.
    pose proof (struct_run_keys m fs fs0 bs) as G. destruct (run _ fs0 bs) as [fs' o]. cbn [fst] in *. rewrite keys_struct. apply G; [|exact K].
    exact (Forall_mp _ _ _ IH (fields_tys _ _ H)).
  - destruct v; try exact K. rewrite merge_enum.
    destruct (uv_deserialize m 32 bs) as [[tag' rest]|e| |]; cbn [try]; try exact K.
    destruct (find_variant vs tag') as [va|] eqn:F; [|exact K]. pose proof (find_variant_in _ _ _ F) as [Iv Et]. pose proof (variant_fields_ok _ _ _ O Iv) as (_ & Of & _).
    assert (G : forall c1 r1 fs1, keys_fields (snd va) fs1 = true ->
      keys_in (TEnum st vs) (fst (let '(fs', o) := run (struct_step m (fmergers m (snd va))) fs1 rest in (VEnum tag' c1 r1 fs', o))) = true).
    { intros c1 r1 fs1 K1. pose proof (struct_run_keys m (snd va) fs1 rest) as G. destruct (run _ fs1 rest) as [fs' o]. cbn [fst] in *. rewrite keys_enum, F.
      apply G; [|exact K1]. rewrite Forall_forall in IH. exact (Forall_mp _ _ _ (IH _ Iv) (fields_tys _ _ Of)). }
    destruct (tag =? tag') eqn:ET; cbn [try].
    + apply N.eqb_eq in ET. subst tag. apply G. now rewrite keys_enum, F in K.
    + destruct (enum_parent r) as [p|e| |]; cbn [bind try]; try exact K.
      pose proof (lossless_ctor st vs tag' va p O F) as L. apply lossless_and in L. destruct L as (_ & _ & L).
      destruct va as [[tg cc] ts]. cbn in Et. subst tg. cbn [variant_ctor] in *. rewrite keys_enum, F in L. now apply G.
  - destruct v; try exact K. cbn [ty_ok merge] in *. bprop.
    set (stp := list_step m (wty t) (merge m t) (fun i => dflt t (nested r i))).
    assert (G : (fun l => forallb (keys_in t) l = true) (fst (run stp l bs))).
    { apply (run_inv stp (fun l => forallb (keys_in t) l = true)); [|exact K].
      intros s b Js. unfold stp, list_step.
      pose proof (merge_nested_keys m t (wty t) (dflt t (nested r (lenN s))) b (IH ltac:(assumption)) (keys_dflt t _ ltac:(assumption))) as G.
      destruct (merge_nested _ _ _ _ _ b) as [x o]. destruct o; cbn [try fst] in *; try exact Js. rewrite forallb_app, Js. cbn. now rewrite G. }
    destruct (run stp l bs) as [l' o]. exact G.
  - destruct v; try exact K. cbn [ty_ok merge] in *. bprop.
    set (f := fun e : N * val => (fst e <=? mkey_max k) && keys_in t (snd e)).
    set (stp := map_step m k (wty t) (merge m t) (fun i => dflt t (nested r i))).
    assert (G : (fun es => forallb f es = true) (fst (run stp es bs))).
    { apply (run_inv stp (fun es => forallb f es = true)); [|exact K].
      intros s b Js. unfold stp, map_step.
      destruct (uv_deserialize m 32 b) as [[n rest]|e| |]; cbn [try]; try exact Js.
      destruct (parse_tag n) as [[fn w]|e| |]; cbn [try]; try exact Js.
      destruct (validate_field_number fn) as [u|e| |]; cbn [try]; try exact Js.
      unfold key_of_fn. destruct (fn <=? mkey_max k) eqn:Kf; cbn [try]; try exact Js.
      destruct (assoc fn s) as [x|] eqn:A.
      - assert (Kx : keys_in t x = true). { apply assoc_in in A. rewrite forallb_forall in Js. specialize (Js _ A). unfold f in Js. cbn in Js. now bprop. }
        pose proof (merge_nested_keys m t (wty t) x rest (IH ltac:(assumption)) Kx) as G. destruct (merge_nested _ _ _ _ _ rest) as [x' o]. cbn [fst] in *.
        apply forallb_im; [|exact Js]. unfold f. cbn. now rewrite Kf, G.
      - pose proof (merge_nested_keys m t (wty t) (dflt t (nested r fn)) rest (IH ltac:(assumption)) (keys_dflt t _ ltac:(assumption))) as G.
        destruct (merge_nested _ _ _ _ _ rest) as [x' o]. destruct o; cbn [try fst] in *; try exact Js.
        apply forallb_im; [|exact Js]. unfold f. cbn. now rewrite Kf, G. }
    destruct (run stp es bs) as [l' o]. exact G.
Qed.
