(** Merging piece by piece: unknown fields, mismatches, order, concatenation, truncation. *)
From Verif Require Import Base Varint WireFmt Utf8 Types Ser Spec De ValInd VarintProofs WireProofs
  SerProofs TypeProofs EqProofs DeProofs RoundTrip.
From Coq Require Import Permutation.

(** ** Complete varints *)

Lemma uv_whole m k p : bytes_ok p -> varint_prefix p = Some (p, []) ->
  (exists n, forall x, uv_deserialize m (ibits k) (p ++ x) = Ok (n, x)) \/
  (m = Debug /\ ibits k <= 7 * (lenN p - 1) /\ forall x, uv_deserialize m (ibits k) (p ++ x) = Panic).
Proof.
  intros B V. pose proof (decode_arbitrary m (ibits k) p (ibits_cases k) B) as D. rewrite V in D.
  destruct (7 * (lenN p - 1) <? ibits k) eqn:E.
  - left. eexists. intros x. apply (uv_deserialize_ext m (ibits k) p x) in D. exact D.
  - destruct m.
    + right. split; [reflexivity|]. split; [lia|]. intros x. now apply uv_deserialize_ext_panic.
    + left. destruct D as (n & D & _). exists n. intros x. apply (uv_deserialize_ext Release (ibits k) p x) in D. exact D.
Qed.

Lemma uv_one m k max p n : one_varint max p n -> 7 * (max - 1) < ibits k -> n < 2 ^ ibits k ->
  forall x, uv_deserialize m (ibits k) (p ++ x) = Ok (n, x).
Proof.
  intros (B & V & L & G) H Hn x. pose proof (decode_arbitrary m (ibits k) p (ibits_cases k) B) as D. rewrite V in D.
  destruct (7 * (lenN p - 1) <? ibits k) eqn:E; [|lia].
  apply (uv_deserialize_ext m (ibits k) p x) in D. rewrite D, G. cbn. f_equal. f_equal. now apply N.mod_small.
Qed.

Lemma varint_prefix_nonempty p q r : varint_prefix p = Some (q, r) -> q <> [].
Proof.
  destruct p as [|b p]; cbn; [discriminate|]. destruct (b <? 128); [intros H; inversion H; discriminate|].
  destruct (varint_prefix p) as [[? ?]|]; [|discriminate]. intros H. inversion H. discriminate.
Qed.

Lemma whole_nonempty w p : whole w p -> p <> [].
Proof.
  destruct w; cbn.
  - intros [_ V]. now apply varint_prefix_nonempty in V.
  - intros (q & body & -> & _ & (_ & V & _)). apply varint_prefix_nonempty in V. destruct q; [congruence|discriminate].
Qed.

Lemma rd_nested_whole m q body : lenN body < 2 ^ 64 -> one_varint 10 q (lenN body) ->
  forall x, rd_nested m (q ++ body ++ x) = Ok (body, x).
Proof.
  intros L V x. unfold rd_nested. rewrite (uv_one m U64 10 q (lenN body) V); [|reflexivity|exact L].
  cbn [bind]. now rewrite splitN_app.
Qed.

Lemma rd_tag_whole m fn w q : fn <= FIELD_NUMBER_MAX -> one_varint 5 q (tag_num fn w) ->
  forall x, rd_tag m (q ++ x) = Ok (fn, w, x).
Proof.
  intros L V x. unfold rd_tag. rewrite (uv_one m U32 5 q _ V); [|reflexivity|now apply tag_num_bound].
  cbn [bind]. now rewrite parse_tag_num.
Qed.

(** ** Steps that look at one piece only *)

Definition local {S} (step : S -> bytes -> S * res bytes) (p : bytes) : Prop :=
  p <> [] /\ forall s, exists s' (o : res unit), forall x, step s (p ++ x) = (s', do _ <- o; Ok x).

Lemma skip_local m w p : whole w p ->
  exists o : res unit, forall x, rd_skip_field m w (p ++ x) = (do _ <- o; Ok x).
Proof.
  intros H. destruct w; cbn [rd_skip_field].
  - destruct H as [B V]. destruct (uv_whole m U8 p B V) as [(n & E)|(_ & _ & E)]; cbn [ibits] in E.
    + exists (Ok tt). intros x. now rewrite E.
    + exists Panic. intros x. now rewrite E.
  - destruct H as (q & body & -> & L & V).
    exists (if lenN body <? 2 ^ 63 then Ok tt else Panic). intros x. rewrite <- app_assoc.
    pose proof (uv_one m U64 10 q _ V eq_refl L) as X. cbn [ibits] in X. rewrite X. cbn [bind].
    rewrite splitN_app. cbn. now destruct (lenN body <? 2 ^ 63).
Qed.

Lemma bool_whole p : bytes_ok p -> varint_prefix p = Some (p, []) ->
  exists b, forall x, bool_deserialize (p ++ x) = Ok (b, x).
Proof.
  unfold bool_deserialize. generalize false.
  induction p as [|c p IH]; intros v B V; [discriminate V|]. inversion B as [|? ? Hc B']; subst.
  cbn in V. cbn [app bool_de_loop]. rewrite land128 by exact Hc.
  destruct (c <? 128) eqn:C.
  - inversion V; subst. eexists. intros x. reflexivity.
  - destruct (varint_prefix p) as [[a r]|] eqn:E; [|discriminate V]. inversion V; subst.
    exact (IH _ B' eq_refl).
Qed.

Lemma merge_varint_local m t p : wty t = Varint -> bytes_ok p -> varint_prefix p = Some (p, []) ->
  forall v, exists v' (o : res unit), forall x, merge m t v (p ++ x) = (v', do _ <- o; Ok x).
Proof.
  intros E B V. induction t; try discriminate E; intros v.
  - destruct v as [k0 z| | | | | | | | | | | | |];
      try (eexists _, NoFuel; intros x; reflexivity). cbn [merge].
    destruct (ikind_eqb k k0); [|eexists _, NoFuel; intros x; reflexivity].
    destruct (uv_whole m k p B V) as [(n & U)|(_ & _ & U)].
    + eexists _, (Ok tt). intros x. unfold int_deserialize. rewrite U. reflexivity.
    + eexists _, Panic. intros x. unfold int_deserialize. rewrite U. reflexivity.
  - destruct v; try (eexists _, NoFuel; intros x; reflexivity). cbn [merge].
    destruct (bool_whole p B V) as (b' & U). eexists _, (Ok tt). intros x. rewrite U. reflexivity.
  - destruct v as [| | | | | | | | |y| | | |]; try (eexists _, NoFuel; intros x; reflexivity). cbn [merge wty] in *.
    destruct (IHt E y) as (y' & o & H). exists (VBox y'), o. intros x. now rewrite H.
Qed.

Lemma merge_nested_local m t w p : whole w p ->
  forall v, exists v' (o : res unit), forall x,
    merge_nested m (wty t) (merge m t) w v (p ++ x) = (v', do _ <- o; Ok x).
Proof.
  intros W v. unfold merge_nested. destruct (wtype_eqb w (wty t)) eqn:E; cbn [negb].
  - destruct w, (wty t) eqn:Wt; try discriminate E.
    + destruct W as [B V]. now apply merge_varint_local.
    + destruct W as (q & body & -> & L & V).
      destruct (merge m t v body) as [v' r] eqn:M. exists v', (do _ <- r; Ok tt). intros x.
      rewrite <- app_assoc, (rd_nested_whole m q body L V). cbn [try]. rewrite M.
      destruct r as [rest|e| |]; cbn; try reflexivity.
      apply merge_suf in M. rewrite Wt in M. now subst rest.
  - destruct (skip_local m w p W) as (o & H). exists v, o. intros x. now rewrite H.
Qed.

Lemma de_nested_local m t p : whole (wty t) p ->
  forall d, exists o : res val, forall x,
    de_nested m (wty t) (merge m t) d (p ++ x) = (do v <- o; Ok (v, x)).
Proof.
  intros W d. unfold de_nested. destruct (merge_nested_local m t (wty t) p W d) as (v' & o & H).
  exists (do _ <- o; Ok v'). intros x. rewrite H. now destruct o.
Qed.

Lemma merge_field_local m fts fn w p : whole w p ->
  forall fs, exists fs' (o : res unit), forall x,
    merge_field m (fmergers m fts) fs fn w (p ++ x) = (fs', do _ <- o; Ok x).
Proof.
  intros W. induction fts as [|[fi t] fts IH]; intros [|[fj y] fs].
  - destruct (skip_local m w p W) as (o & H). exists [], o. intros x. cbn. now rewrite H.
  - eexists _, NoFuel. reflexivity.
  - eexists _, NoFuel. reflexivity.
  - cbn [fmergers map merge_field]. destruct (fn =? f_tag fi).
    + destruct (merge_nested_local m t w p W y) as (y' & o & H). eexists _, o. intros x. rewrite H. reflexivity.
    + destruct (IH fs) as (fs' & o & H). unfold fmergers in H. eexists _, o. intros x. rewrite H. reflexivity.
Qed.

Lemma struct_step_local m fts fn w p : whole_field fn w p -> local (struct_step m (fmergers m fts)) p.
Proof.
  intros (q & body & -> & L & V & W). split.
  - destruct V as (_ & V & _). apply varint_prefix_nonempty in V. destruct q; [congruence|discriminate].
  - intros s. destruct (merge_field_local m fts fn w body W s) as (s' & o & H). exists s', o. intros x.
    unfold struct_step. rewrite <- app_assoc, (rd_tag_whole m fn w q L V). cbn [try]. apply H.
Qed.

Lemma opt_step_local m t d p : whole (wty t) p -> local (opt_step m (wty t) (merge m t) d) p.
Proof.
  intros W. split; [now apply whole_nonempty in W|]. intros s. unfold opt_step.
  destruct (merge_nested_local m t (wty t) p W (match s with Some x => x | None => d end)) as (v' & o & H).
  exists (Some v'), o. intros x. now rewrite H.
Qed.
Lemma vec_step_local m t d p : whole (wty t) p -> local (vec_step m (wty t) (merge m t) d) p.
Proof.
  intros W. split; [now apply whole_nonempty in W|]. intros s. unfold vec_step.
  destruct (de_nested_local m t p W d) as (o & H).
  exists (match o with Ok v => s ++ [v] | _ => s end), (do _ <- o; Ok tt). intros x. rewrite H. now destruct o.
Qed.
Lemma list_step_local m t fr p : whole (wty t) p -> local (list_step m (wty t) (merge m t) fr) p.
Proof.
  intros W. split; [now apply whole_nonempty in W|]. intros s. unfold list_step.
  destruct (merge_nested_local m t (wty t) p W (fr (lenN s))) as (v' & o & H).
  exists (match o with Ok _ => s ++ [v'] | _ => s end), o. intros x. rewrite H. now destruct o.
Qed.
Lemma hash_step_local m kt vt kd vd a b : whole (wty kt) a -> whole (wty vt) b ->
  local (hash_step m (wty kt) (merge m kt) kd (wty vt) (merge m vt) vd) (a ++ b).
Proof.
  intros Wa Wb. split; [apply whole_nonempty in Wa; destruct a; [congruence|discriminate]|]. intros s. unfold hash_step.
  destruct (de_nested_local m kt a Wa kd) as (o & H). destruct (de_nested_local m vt b Wb vd) as (o2 & H2).
  exists (match o, o2 with Ok k, Ok v => hash_insert k v s | _, _ => s end), (do _ <- o; do _ <- o2; Ok tt).
  intros x. rewrite <- app_assoc, H. destruct o; cbn; try reflexivity. rewrite H2. now destruct o2.
Qed.
Lemma map_step_local m k t fr fn w q b : fn <= FIELD_NUMBER_MAX -> one_varint 5 q (tag_num fn w) ->
  whole (wty t) b -> local (map_step m k (wty t) (merge m t) fr) (q ++ b).
Proof.
  intros L V W. split.
  - destruct V as (_ & V & _). apply varint_prefix_nonempty in V. destruct q; [congruence|discriminate].
  - intros s. unfold map_step.
    pose proof (uv_one m U32 5 q _ V eq_refl (tag_num_bound fn w L)) as U. cbn [ibits] in U.
    assert (EV : validate_field_number fn = Ok tt).
    { unfold validate_field_number. destruct (FIELD_NUMBER_MAX <? fn) eqn:X; [lia|reflexivity]. }
    destruct (key_of_fn k fn) as [fn'|e| |] eqn:EK.
    + destruct (assoc fn s) as [y|] eqn:A.
      * destruct (merge_nested_local m t (wty t) b W y) as (v' & o & H).
        exists (im_insert fn v' s), o. intros x. rewrite <- app_assoc, U. cbn [try].
        rewrite parse_tag_num by exact L. cbn [try]. rewrite EV. cbn [try]. rewrite EK. cbn [try]. rewrite A, H. reflexivity.
      * destruct (merge_nested_local m t (wty t) b W (fr fn)) as (v' & o & H).
        exists (match o with Ok _ => im_insert fn v' s | _ => s end), o. intros x. rewrite <- app_assoc, U. cbn [try].
        rewrite parse_tag_num by exact L. cbn [try]. rewrite EV. cbn [try]. rewrite EK. cbn [try]. rewrite A, H. now destruct o.
    + exists s, (Err e). intros x. rewrite <- app_assoc, U. cbn [try].
      rewrite parse_tag_num by exact L. cbn [try]. rewrite EV. cbn [try]. rewrite EK. reflexivity.
    + exists s, Panic. intros x. rewrite <- app_assoc, U. cbn [try].
      rewrite parse_tag_num by exact L. cbn [try]. rewrite EV. cbn [try]. rewrite EK. reflexivity.
    + exists s, NoFuel. intros x. rewrite <- app_assoc, U. cbn [try].
      rewrite parse_tag_num by exact L. cbn [try]. rewrite EV. cbn [try]. rewrite EK. reflexivity.
Qed.

(** Running over complete pieces, then over anything. *)
Lemma run_pieces {S} (step : S -> bytes -> S * res bytes) : consuming step ->
  forall ps, Forall (local step) ps -> forall s b,
  run step s (concat ps ++ b) = let '(s1, r) := run step s (concat ps) in try s1 r (fun _ => run step s1 b).
Proof.
  intros C. induction 1 as [|p ps [NE H] _ IH]; intros s b.
  - cbn [concat app]. rewrite run_nil. reflexivity.
  - cbn [concat]. destruct (H s) as (s' & o & E). rewrite <- app_assoc.
    assert (NA : forall y, p ++ y <> []) by (intros y; destruct p; [congruence|discriminate]).
    rewrite (run_step _ _ (p ++ concat ps) C (NA _)), (run_step _ _ (p ++ concat ps ++ b) C (NA _)).
    rewrite !E. destruct o; cbn [bind try]; try reflexivity. apply IH.
Qed.

Lemma run_one {S} (step : S -> bytes -> S * res bytes) p s b s' o : consuming step -> p <> [] ->
  (forall x, step s (p ++ x) = (s', do _ <- o; Ok x)) ->
  run step s (p ++ b) = try s' (o : res unit) (fun _ => run step s' b).
Proof.
  intros C NE E. rewrite run_step; [|exact C|destruct p; [congruence|discriminate]].
  rewrite E. now destruct o.
Qed.

Lemma struct_consuming m fts : consuming (struct_step m (fmergers m fts)).
Proof. apply struct_step_consuming, fields_suf. Qed.

Lemma seq_local {S} (step : S -> bytes -> S * res bytes) (P : bytes -> Prop) bs :
  (forall p, P p -> local step p) -> seq_of P bs -> exists ps, bs = concat ps /\ Forall (local step) ps.
Proof.
  intros H (ps & -> & F). exists ps. split; [reflexivity|]. eapply Forall_impl; [exact H|exact F].
Qed.

(** ** C16 *)
Lemma merge_incremental m t : forall v a b, whole_seq t a ->
  merge m t v (a ++ b) = let '(v1, r) := merge m t v a in try v1 r (fun _ => merge m t v1 b).
Proof.
  induction t as [k| | | |t IH|t IH|n t IH|ts IH|k t IHk IHt|t IH|si fs IH|st vs IH|t IH|k t IH]
    using ty_ind'; intros v a b H; cbn [whole_seq] in H; try contradiction; destruct v; try reflexivity.
  - cbn [merge try]. now rewrite app_assoc.
  - cbn [merge]. destruct (seq_local _ _ a (opt_step_local m t (dflt t rt_default)) H) as (ps & -> & F).
    rewrite (run_pieces _ (opt_step_consuming m _ _ _ (merge_suf m t)) ps F).
    destruct (run _ o (concat ps)) as [o1 [rest|e| |]]; reflexivity.
  - cbn [merge]. destruct (seq_local _ _ a (vec_step_local m t (dflt t rt_default)) H) as (ps & -> & F).
    rewrite (run_pieces _ (vec_step_consuming m _ _ _ (merge_suf m t)) ps F).
    destruct (run _ l (concat ps)) as [o1 [rest|e| |]]; reflexivity.
  - cbn [merge].
    assert (L : forall p, (exists a b, p = a ++ b /\ whole (wty k) a /\ whole (wty t) b) ->
      local (hash_step m (wty k) (merge m k) (dflt k rt_default) (wty t) (merge m t) (dflt t rt_default)) p).
    { intros p (x & y & -> & Wx & Wy). now apply hash_step_local. }
    destruct (seq_local _ _ a L H) as (ps & -> & F).
    rewrite (run_pieces _ (hash_step_consuming m _ _ _ _ _ _ (merge_suf m k) (merge_suf m t)) ps F).
    destruct (run _ l (concat ps)) as [o1 [rest|e| |]]; reflexivity.
  - cbn [merge]. rewrite IH by exact H. destruct (merge m t v a) as [v1 [rest|e| |]]; cbn [try]; try reflexivity.
  - rewrite !merge_struct.
    assert (L : forall p, (exists fn w, whole_field fn w p) -> local (struct_step m (fmergers m fs)) p).
    { intros p (fn & w & W). now apply (struct_step_local m fs fn w). }
    destruct (seq_local _ _ a L H) as (ps & -> & F).
    rewrite (run_pieces _ (struct_consuming m fs) ps F).
    destruct (run _ fs0 (concat ps)) as [o1 [rest|e| |]]; cbn [try]; try reflexivity.
  - cbn [merge]. destruct (seq_local _ _ a (list_step_local m t (fun i => dflt t (nested r i))) H) as (ps & -> & F).
    rewrite (run_pieces _ (list_step_consuming m _ _ _ (merge_suf m t)) ps F).
    destruct (run _ l (concat ps)) as [o1 [rest|e| |]]; reflexivity.
  - cbn [merge].
    assert (L : forall p, (exists fn w q b, p = q ++ b /\ fn <= FIELD_NUMBER_MAX /\
                          one_varint 5 q (tag_num fn w) /\ whole (wty t) b) ->
      local (map_step m k (wty t) (merge m t) (fun i => dflt t (nested r i))) p).
    { intros p (fn & w & q & y & -> & Lf & V & Wy). now apply (map_step_local m k t _ fn w). }
    destruct (seq_local _ _ a L H) as (ps & -> & F).
    rewrite (run_pieces _ (map_step_consuming m _ _ _ _ (merge_suf m t)) ps F).
    destruct (run _ es (concat ps)) as [o1 [rest|e| |]]; reflexivity.
Qed.

(** ** C13, C14 *)

Lemma skip_ok m w p : whole w p -> skippable m w p -> forall x, rd_skip_field m w (p ++ x) = Ok x.
Proof.
  intros W S x. destruct w; cbn [rd_skip_field].
  - destruct W as [B V]. destruct (uv_whole m U8 p B V) as [(n & E)|(-> & H & E)]; cbn [ibits] in *.
    + now rewrite E.
    + destruct S as [S|S]; [discriminate S|lia].
  - destruct W as (q & body & -> & L & V). rewrite <- app_assoc. cbn [skippable] in S. rewrite lenN_app in S.
    pose proof (uv_one m U64 10 q _ V eq_refl L) as X. cbn [ibits] in X. rewrite X. cbn [bind].
    destruct (lenN body <? 2 ^ 63) eqn:Y; [|lia]. now rewrite splitN_app.
Qed.

Lemma skip_panics p : whole Varint p -> 3 <= lenN p -> forall x, rd_skip_field Debug Varint (p ++ x) = Panic.
Proof.
  intros [B V] L x. cbn [rd_skip_field].
  pose proof (decode_arbitrary Debug 8 p (or_introl eq_refl) B) as D. rewrite V in D.
  destruct (7 * (lenN p - 1) <? 8) eqn:E; [lia|]. apply (uv_deserialize_ext_panic _ _ _ x) in D. now rewrite D.
Qed.

Lemma merge_field_foreign m fts fn w : foreign fts fn w -> forall fs bs, wt_fields fts fs = true ->
  merge_field m (fmergers m fts) fs fn w bs = (fs, rd_skip_field m w bs).
Proof.
  intros F. induction fts as [|[fi t] fts IH]; intros [|[fj y] fs] bs W; try discriminate W; [reflexivity|].
  cbn [wt_fields] in W. bprop. cbn [fmergers map merge_field].
  destruct (fn =? f_tag fi) eqn:E.
  - unfold merge_nested. assert (X : wty t <> w) by (apply (F fi); [now left|lia]).
    destruct w, (wty t); try congruence; reflexivity.
  - change (map _ fts) with (fmergers m fts). rewrite IH; try assumption; [reflexivity|].
    intros fi' t' I. apply F. now right.
Qed.

Lemma struct_foreign m fts fn w q body : foreign fts fn w -> fn <= FIELD_NUMBER_MAX ->
  one_varint 5 q (tag_num fn w) ->
  forall fs x, wt_fields fts fs = true ->
  struct_step m (fmergers m fts) fs ((q ++ body) ++ x) = (fs, rd_skip_field m w (body ++ x)).
Proof.
  intros F L V fs x W. unfold struct_step. rewrite <- app_assoc, (rd_tag_whole m fn w q L V). cbn [try].
  now apply merge_field_foreign.
Qed.

(** Whole fields leave a well-typed list of fields well typed. *)
Lemma struct_run_wt m si fts fs bs : ty_ok (TStruct si fts) = true -> wt_fields fts fs = true -> bytes_ok bs ->
  let '(fs', _) := run (struct_step m (fmergers m fts)) fs bs in wt_fields fts fs' = true.
Proof.
  intros O W B.
  pose proof (run_good m (fun fs => wt_fields fts fs = true) (struct_step m (fmergers m fts)) fs bs) as H.
  destruct (run _ fs bs). apply H; try assumption. apply struct_step_good.
  rewrite ty_ok_struct in O. bprop. apply Forall_forall. intros [fi t] I. apply merge_good.
  match goal with X : fields_ok _ _ = true |- _ => unfold fields_ok in X; rewrite forallb_forall in X; specialize (X _ I) end.
  cbn in *. bprop. assumption.
Qed.

Definition fields_seq (bs : bytes) : Prop := seq_of (fun p => exists fn w, whole_field fn w p) bs.

Lemma fields_seq_local m fts a : fields_seq a -> exists ps, a = concat ps /\ Forall (local (struct_step m (fmergers m fts))) ps.
Proof.
  apply seq_local. intros p (fn & w & W). now apply (struct_step_local m fts fn w).
Qed.

Lemma run_foreign m si fts fs a q body b fn w : ty_ok (TStruct si fts) = true -> wt_fields fts fs = true ->
  bytes_ok a -> fields_seq a -> foreign fts fn w -> fn <= FIELD_NUMBER_MAX ->
  one_varint 5 q (tag_num fn w) -> whole w body -> skippable m w body ->
  run (struct_step m (fmergers m fts)) fs (a ++ (q ++ body) ++ b) = run (struct_step m (fmergers m fts)) fs (a ++ b).
Proof.
  intros O W B Sq F L V Wb Sk. pose proof (struct_run_wt m si fts fs a O W B) as Wt.
  destruct (fields_seq_local m fts a Sq) as (ps & -> & Fl).
  rewrite !(run_pieces _ (struct_consuming m fts) ps Fl).
  destruct (run _ fs (concat ps)) as [fs1 [r|e| |]]; try reflexivity. cbn [try].
  rewrite (run_one _ (q ++ body) fs1 b fs1 (Ok tt)); [reflexivity|apply struct_consuming| |].
  - destruct V as (_ & V & _). apply varint_prefix_nonempty in V. destruct q; [congruence|discriminate].
  - intros x. rewrite (struct_foreign m fts fn w q body F L V fs1 x Wt). now rewrite (skip_ok m w body Wb Sk).
Qed.

Lemma run_foreign_panics si fts fs a q body b fn : ty_ok (TStruct si fts) = true -> wt_fields fts fs = true ->
  bytes_ok a -> fields_seq a -> foreign fts fn Varint -> fn <= FIELD_NUMBER_MAX ->
  one_varint 5 q (tag_num fn Varint) -> whole Varint body -> 3 <= lenN body ->
  run (struct_step Debug (fmergers Debug fts)) fs (a ++ (q ++ body) ++ b) =
  let '(fs1, r) := run (struct_step Debug (fmergers Debug fts)) fs a in try fs1 r (fun _ => (fs1, Panic)).
Proof.
  intros O W B Sq F L V Wb Sk. pose proof (struct_run_wt Debug si fts fs a O W B) as Wt.
  destruct (fields_seq_local Debug fts a Sq) as (ps & -> & Fl).
  rewrite !(run_pieces _ (struct_consuming Debug fts) ps Fl).
  destruct (run _ fs (concat ps)) as [fs1 [r|e| |]]; try reflexivity. cbn [try].
  rewrite (run_one _ (q ++ body) fs1 b fs1 Panic); [reflexivity|apply struct_consuming| |].
  - destruct V as (_ & V & _). apply varint_prefix_nonempty in V. destruct q; [congruence|discriminate].
  - intros x. rewrite (struct_foreign Debug fts fn Varint q body F L V fs1 x Wt). now rewrite (skip_panics body Wb Sk).
Qed.

(** [r] as the field list of a struct. *)
Lemma wt_struct_inv si fts v : wt (TStruct si fts) v = true -> exists c r fs, v = VStruct c r fs /\ wt_fields fts fs = true.
Proof. destruct v; try discriminate. rewrite wt_struct_eq. intros H. bprop. eauto 6. Qed.

Lemma foreign_skipped m si fts v a p b fn w : ty_ok (TStruct si fts) = true -> wt (TStruct si fts) v = true ->
  bytes_ok a -> fields_seq a -> foreign fts fn w -> fn <= FIELD_NUMBER_MAX ->
  (exists q body, p = q ++ body /\ one_varint 5 q (tag_num fn w) /\ whole w body /\ skippable m w body) ->
  merge m (TStruct si fts) v (a ++ p ++ b) = merge m (TStruct si fts) v (a ++ b).
Proof.
  intros O W B Sq F L (q & body & -> & V & Wb & Sk). destruct (wt_struct_inv si fts v W) as (c & r & fs & -> & Wf).
  rewrite !merge_struct. now rewrite (run_foreign m si fts fs a q body b fn w).
Qed.

Lemma foreign_panics si fts v a p b fn : ty_ok (TStruct si fts) = true -> wt (TStruct si fts) v = true ->
  bytes_ok a -> fields_seq a -> foreign fts fn Varint -> fn <= FIELD_NUMBER_MAX ->
  (exists q body, p = q ++ body /\ one_varint 5 q (tag_num fn Varint) /\ whole Varint body /\ 3 <= lenN body) ->
  forall v1, merge Debug (TStruct si fts) v a = (v1, Ok []) ->
  merge Debug (TStruct si fts) v (a ++ p ++ b) = (v1, Panic).
Proof.
  intros O W B Sq F L (q & body & -> & V & Wb & Sk) v1. destruct (wt_struct_inv si fts v W) as (c & r & fs & -> & Wf).
  rewrite !merge_struct. rewrite (run_foreign_panics si fts fs a q body b fn O Wf B Sq F L V Wb Sk).
  destruct (run _ fs a) as [fs1 [rest|e| |]]; intros H; inversion H; subst. reflexivity.
Qed.

(** Inside an enum, after the variant's tag. *)
Lemma foreign_skipped_enum m st vs v va tg a p b fn w : ty_ok (TEnum st vs) = true -> wt (TEnum st vs) v = true ->
  one_varint 5 tg (fst (fst va)) -> find_variant vs (fst (fst va)) = Some va ->
  bytes_ok a -> fields_seq a -> foreign (snd va) fn w -> fn <= FIELD_NUMBER_MAX ->
  (exists q body, p = q ++ body /\ one_varint 5 q (tag_num fn w) /\ whole w body /\ skippable m w body) ->
  merge m (TEnum st vs) v (tg ++ a ++ p ++ b) = merge m (TEnum st vs) v (tg ++ a ++ b).
Proof.
  intros O W T Fv B Sq F L (q & body & -> & V & Wb & Sk).
  destruct v as [| | | | | | | | | | |tag c r fs| |]; try discriminate W.
  rewrite !merge_enum. destruct va as [[tg' c'] fts]. cbn [fst snd] in *.
  pose proof (find_variant_in _ _ _ Fv) as [Iv _].
  destruct (variant_fields_ok st vs _ O Iv) as (Ht & Hf & Hn). cbn [fst snd] in *.
  assert (H32 : tg' < 2 ^ ibits U32) by (cbn [ibits]; unfold FIELD_NUMBER_MAX in Ht; lia).
  pose proof (uv_one m U32 5 tg _ T eq_refl H32) as U. cbn [ibits] in U.
  rewrite !U. cbn [try]. rewrite Fv. cbn [snd].
  assert (O2 : ty_ok (TStruct (mkS c' st) fts) = true) by (rewrite ty_ok_struct; cbn [s_state]; now rewrite Hf, Hn).
  destruct (tag =? tg') eqn:E.
  - cbn [try]. assert (tag = tg') by lia. subst tag. rewrite wt_enum_eq, Fv in W. bprop.
    match goal with X : wt_fields _ _ = true |- _ => now rewrite (run_foreign m _ fts fs a q body b fn w O2 X) end.
  - destruct (enum_parent r) as [pr|e| |]; try reflexivity. cbn [try bind].
    pose proof (ctor_wt st vs _ _ pr O Fv) as CW. unfold variant_ctor in *.
    rewrite wt_enum_eq, Fv in CW. bprop.
    match goal with X : wt_fields _ _ = true |- _ => now rewrite (run_foreign m _ fts _ a q body b fn w O2 X) end.
Qed.

(** ** C15 *)

Lemma merge_field_comm m fts f1 w1 p1 f2 w2 p2 : f1 <> f2 -> whole w1 p1 -> whole w2 p2 ->
  forall fs fs1 fs2,
  (forall x, merge_field m (fmergers m fts) fs f1 w1 (p1 ++ x) = (fs1, Ok x)) ->
  (forall x, merge_field m (fmergers m fts) fs1 f2 w2 (p2 ++ x) = (fs2, Ok x)) ->
  exists fs1',
  (forall x, merge_field m (fmergers m fts) fs f2 w2 (p2 ++ x) = (fs1', Ok x)) /\
  (forall x, merge_field m (fmergers m fts) fs1' f1 w1 (p1 ++ x) = (fs2, Ok x)).
Proof.
  intros N W1 W2. induction fts as [|[fi t] fts IH]; intros [|[fj y] fs] fs1 fs2 H1 H2;
    try (specialize (H1 []); cbn in H1; discriminate H1).
  - exists []. pose proof (H1 []) as E1. cbn in E1. inversion E1; subst.
    pose proof (H2 []) as E2. cbn in E2. inversion E2; subst. split; [exact H2|exact H1].
  - cbn [fmergers map merge_field] in *. change (map _ fts) with (fmergers m fts) in *.
    destruct (f1 =? f_tag fi) eqn:E1; destruct (f2 =? f_tag fi) eqn:E2.
    + lia.
    + destruct (merge_nested_local m t w1 p1 W1 y) as (y' & o & Hy).
      pose proof (H1 []) as X1. rewrite Hy in X1. destruct o; try discriminate X1. inversion X1; subst. clear X1 H1.
      destruct (merge_field_local m fts f2 w2 p2 W2 fs) as (fs' & o & Hf).
      pose proof (H2 []) as X2. rewrite Hf in X2. destruct o; try discriminate X2. inversion X2; subst. clear X2 H2.
      exists ((fj, y) :: fs'). split; intros x; [now rewrite Hf|now rewrite Hy].
    + destruct (merge_field_local m fts f1 w1 p1 W1 fs) as (fs' & o & Hf).
      pose proof (H1 []) as X1. rewrite Hf in X1. destruct o; try discriminate X1. inversion X1; subst. clear X1 H1.
      destruct (merge_nested_local m t w2 p2 W2 y) as (y' & o & Hy).
      pose proof (H2 []) as X2. rewrite Hy in X2. destruct o; try discriminate X2. inversion X2; subst. clear X2 H2.
      exists ((fj, y') :: fs). split; intros x; [now rewrite Hy|now rewrite Hf].
    + destruct (merge_field_local m fts f1 w1 p1 W1 fs) as (fs' & o & Hf).
      pose proof (H1 []) as X1. rewrite Hf in X1. destruct o; try discriminate X1. inversion X1; subst. clear X1 H1.
      destruct (merge_field_local m fts f2 w2 p2 W2 fs') as (fs'' & o & Hf2).
      pose proof (H2 []) as X2. rewrite Hf2 in X2. destruct o; try discriminate X2. inversion X2; subst. clear X2 H2.
      destruct (IH fs fs' fs'' Hf Hf2) as (fs1' & K1 & K2).
      exists ((fj, y) :: fs1'). split; intros x; [now rewrite K1|now rewrite K2].
Qed.

Definition bytes_of (ps : list (N * wtype * bytes)) : bytes := concat (map snd ps).
Definition wholes (ps : list (N * wtype * bytes)) : Prop :=
  Forall (fun p : N * wtype * bytes => let '(fn, w, bs) := p in whole_field fn w bs) ps.

Lemma struct_step_field m fts q fn w body : fn <= FIELD_NUMBER_MAX -> one_varint 5 q (tag_num fn w) -> whole w body ->
  forall fs, exists fs' o, (forall x, merge_field m (fmergers m fts) fs fn w (body ++ x) = (fs', do _ <- o; Ok x)) /\
  (forall x, struct_step m (fmergers m fts) fs ((q ++ body) ++ x) = (fs', do _ <- (o : res unit); Ok x)).
Proof.
  intros L V W fs. destruct (merge_field_local m fts fn w body W fs) as (fs' & o & H). exists fs', o.
  split; [exact H|]. intros x. unfold struct_step. rewrite <- app_assoc, (rd_tag_whole m fn w q L V). cbn [try]. apply H.
Qed.

Lemma whole_field_nonempty fn w p : whole_field fn w p -> p <> [].
Proof.
  intros (q & body & -> & _ & (_ & V & _) & _). apply varint_prefix_nonempty in V. destruct q; [congruence|discriminate].
Qed.

Lemma run_ok_one m fts p ps fs fs' : whole_field (fst (fst p)) (snd (fst p)) (snd p) ->
  run (struct_step m (fmergers m fts)) fs (bytes_of (p :: ps)) = (fs', Ok []) <->
  exists fs1, (forall x, struct_step m (fmergers m fts) fs (snd p ++ x) = (fs1, Ok x)) /\
              run (struct_step m (fmergers m fts)) fs1 (bytes_of ps) = (fs', Ok []).
Proof.
  intros W. destruct (struct_step_local m fts _ _ _ W) as [NE H]. destruct (H fs) as (s' & o & E).
  change (bytes_of (p :: ps)) with (snd p ++ bytes_of ps).
  rewrite (run_one _ (snd p) fs (bytes_of ps) s' o (struct_consuming m fts) NE E). split.
  - intros R. destruct o; try discriminate R. exists s'. split; [exact E|exact R].
  - intros (fs1 & E1 & R). pose proof (E1 []) as X. rewrite E in X. destruct o; try discriminate X.
    inversion X; subst. exact R.
Qed.

Lemma run_permuted m fts : forall ps ps', Permutation ps ps' -> NoDup (map (fun p => fst (fst p)) ps) -> wholes ps ->
  forall fs fs', run (struct_step m (fmergers m fts)) fs (bytes_of ps) = (fs', Ok []) ->
  run (struct_step m (fmergers m fts)) fs (bytes_of ps') = (fs', Ok []).
Proof.
  induction 1 as [|[[fn w] p] l l' P IH|[[f1 w1] p1] [[f2 w2] p2] l|l l' l'' P1 IH1 P2 IH2]; intros ND W fs fs' R.
  - exact R.
  - inversion W as [|? ? Wp Wl]; subst. inversion ND; subst.
    rewrite (run_ok_one m fts (fn, w, p) l fs fs' Wp) in R. rewrite (run_ok_one m fts (fn, w, p) l' fs fs' Wp).
    destruct R as (fs1 & E & R). exists fs1. split; [exact E|]. now apply IH.
  - inversion W as [|? ? Wa Wl]; subst. inversion Wl as [|? ? Wb Wl']; subst.
    inversion ND as [|? ? N1 ND']; subst. cbn [map fst] in N1.
    rewrite (run_ok_one m fts (f2, w2, p2) ((f1, w1, p1) :: l) fs fs' Wa) in R. destruct R as (fsa & Ea & R).
    rewrite (run_ok_one m fts (f1, w1, p1) l fsa fs' Wb) in R. destruct R as (fsb & Eb & R).
    rewrite (run_ok_one m fts (f1, w1, p1) ((f2, w2, p2) :: l) fs fs' Wb).
    cbn [fst snd] in *.
    destruct Wa as (q2 & b2 & -> & L2 & V2 & Wb2). destruct Wb as (q1 & b1 & -> & L1 & V1 & Wb1).
    destruct (struct_step_field m fts q2 f2 w2 b2 L2 V2 Wb2 fs) as (fsa' & oa & Ma & Sa).
    pose proof (Sa []) as X. rewrite Ea in X. destruct oa; try discriminate X. inversion X; subst fsa'. clear X.
    destruct (struct_step_field m fts q1 f1 w1 b1 L1 V1 Wb1 fsa) as (fsb' & ob & Mb & Sb).
    pose proof (Sb []) as X. rewrite Eb in X. destruct ob; try discriminate X. inversion X; subst fsb'. clear X.
    assert (NE : f2 <> f1) by (intros ->; apply N1; now left).
    destruct (merge_field_comm m fts f2 w2 b2 f1 w1 b1 NE Wb2 Wb1 fs fsa fsb Ma Mb) as (fsc & K1 & K2).
    exists fsc. split.
    + intros x. unfold struct_step. rewrite <- app_assoc, (rd_tag_whole m f1 w1 q1 L1 V1). cbn [try]. apply K1.
    + assert (Wa : whole_field f2 w2 (q2 ++ b2)) by (exists q2, b2; auto).
      rewrite (run_ok_one m fts (f2, w2, q2 ++ b2) l fsc fs' Wa). exists fsb. split; [|exact R].
      intros x. cbn [snd]. unfold struct_step. rewrite <- app_assoc, (rd_tag_whole m f2 w2 q2 L2 V2). cbn [try]. apply K2.
  - apply IH2; [|eapply Permutation_Forall; eassumption|].
    + eapply Permutation_NoDup; [|exact ND]. now apply Permutation_map.
    + now apply IH1.
Qed.

Lemma merge_permuted m si fts ps ps' v v' : Permutation ps ps' ->
  NoDup (map (fun p => fst (fst p)) ps) -> wholes ps ->
  merge m (TStruct si fts) v (bytes_of ps) = (v', Ok []) ->
  merge m (TStruct si fts) v (bytes_of ps') = (v', Ok []).
Proof.
  intros P ND W. destruct v; try discriminate. rewrite !merge_struct.
  destruct (run _ fs (bytes_of ps)) as [fs1 r1] eqn:R. intros H. inversion H; subst.
  now rewrite (run_permuted m fts ps ps' P ND W fs fs1 R).
Qed.

Lemma merge_permuted_enum m st vs ps ps' tg v v' : Permutation ps ps' ->
  NoDup (map (fun p => fst (fst p)) ps) -> wholes ps ->
  (exists n, one_varint 5 tg n /\ n < 2 ^ 32) ->
  merge m (TEnum st vs) v (tg ++ bytes_of ps) = (v', Ok []) ->
  merge m (TEnum st vs) v (tg ++ bytes_of ps') = (v', Ok []).
Proof.
  intros P ND W (n & T & Hn). destruct v; try discriminate. rewrite !merge_enum.
  pose proof (uv_one m U32 5 tg _ T eq_refl Hn) as U. cbn [ibits] in U. rewrite !U. cbn [try].
  destruct (find_variant vs n) as [va|]; [|discriminate].
  destruct (if tag =? n then _ else _) as [v1|e| |]; try discriminate. cbn [try].
  destruct v1; try discriminate.
  destruct (run _ fs0 (bytes_of ps)) as [fs1 r1] eqn:R. intros H. inversion H; subst.
  now rewrite (run_permuted m (snd va) ps ps' P ND W fs0 fs1 R).
Qed.

(** A repeated scalar field: the last one counts. *)
Lemma scalar_forgets m t : wty t = Varint -> forall v w bs v' rest, wt t v = true -> wt t w = true ->
  merge m t v bs = (v', Ok rest) -> merge m t w bs = (v', Ok rest).
Proof.
  intros E. induction t; try discriminate E; intros v w bs v' rest Wv Ww M; destruct v; try discriminate Wv; destruct w; try discriminate Ww.
  - cbn [merge wt] in *. bprop. apply ikind_eqb_eq in H, H1. subst k0 k1.
    replace (ikind_eqb k k) with true in * by (destruct k; reflexivity).
    apply try_ok in M. destruct M as ([u r] & X & Y). rewrite X. exact Y.
  - cbn [merge] in *. apply try_ok in M. destruct M as ([u r] & X & Y). rewrite X. exact Y.
  - cbn [merge wt wty] in *. destruct (merge m t v bs) as [y r] eqn:X. inversion M; subst.
    now rewrite (IHt E v w bs y rest Wv Ww X).
Qed.
Lemma str_forgets m s s' bs v' rest :
  merge m TStr (VStr s) bs = (v', Ok rest) -> merge m TStr (VStr s') bs = (v', Ok rest).
Proof. cbn. destruct (utf8_valid bs); [tauto|discriminate]. Qed.

Lemma merge_nested_forgets m t p : wty t = Varint -> whole Varint p -> forall v w, wt t v = true -> wt t w = true ->
  forall v', (forall x, merge_nested m (wty t) (merge m t) Varint v (p ++ x) = (v', Ok x)) ->
  forall x, merge_nested m (wty t) (merge m t) Varint w (p ++ x) = (v', Ok x).
Proof.
  intros E Wp v w Wv Ww v' H x. unfold merge_nested in *. rewrite E in *. cbn [wtype_eqb negb] in *.
  apply (scalar_forgets m t E v w); auto.
Qed.

Lemma last_field_wins m fts fn p1 p2 : whole Varint p1 -> whole Varint p2 ->
  (forall fi t, In (fi, t) fts -> f_tag fi = fn -> wty t = Varint /\ ty_ok t = true) ->
  bytes_ok p1 ->
  forall fs fs1 fs2, wt_fields fts fs = true ->
  (forall x, merge_field m (fmergers m fts) fs fn Varint (p1 ++ x) = (fs1, Ok x)) ->
  (forall x, merge_field m (fmergers m fts) fs1 fn Varint (p2 ++ x) = (fs2, Ok x)) ->
  forall x, merge_field m (fmergers m fts) fs fn Varint (p2 ++ x) = (fs2, Ok x).
Proof.
  intros W1 W2 F B. induction fts as [|[fi t] fts IH]; intros [|[fj y] fs] fs1 fs2 W H1 H2 x; try discriminate W.
  - pose proof (H1 []) as E1. cbn in E1. inversion E1; subst. apply H2.
  - cbn [wt_fields] in W. bprop. cbn [fmergers map merge_field] in *. change (map _ fts) with (fmergers m fts) in *.
    destruct (fn =? f_tag fi) eqn:E.
    + destruct (F fi t (or_introl eq_refl)) as [Wt Ot]; [lia|].
      destruct (merge_nested_local m t Varint p1 W1 y) as (y' & o & Hy).
      pose proof (H1 []) as X1. rewrite Hy in X1. destruct o; try discriminate X1. inversion X1; subst. clear X1.
      assert (Wy' : wt t y' = true).
      { pose proof (merge_nested_good m (wty t) (fun v => wt t v = true) (merge m t) Varint y p1 (merge_good m t Ot)) as G.
        pose proof (Hy []) as Z. rewrite app_nil_r in Z. rewrite Z in G. now apply G. }
      destruct (merge_nested_local m t Varint p2 W2 y') as (y2 & o & Hy2).
      pose proof (H2 []) as X2. rewrite Hy2 in X2. destruct o; try discriminate X2. inversion X2; subst. clear X2.
      rewrite (merge_nested_forgets m t p2 Wt W2 y' y Wy' ltac:(assumption) y2 Hy2). reflexivity.
    + destruct (merge_field_local m fts fn Varint p1 W1 fs) as (fs' & o & Hf).
      pose proof (H1 []) as X1. rewrite Hf in X1. destruct o; try discriminate X1. inversion X1; subst. clear X1.
      destruct (merge_field_local m fts fn Varint p2 W2 fs') as (fs'' & o & Hf2).
      pose proof (H2 []) as X2. rewrite Hf2 in X2. destruct o; try discriminate X2. inversion X2; subst. clear X2.
      rewrite (IH (fun a b I => F a b (or_intror I)) fs fs' fs''); auto.
Qed.

Lemma last_scalar_wins m si fts v p1 p2 b fn : ty_ok (TStruct si fts) = true -> wt (TStruct si fts) v = true ->
  whole_field fn Varint p1 -> whole_field fn Varint p2 -> bytes_ok p1 ->
  (forall fi t, In (fi, t) fts -> f_tag fi = fn -> wty t = Varint) ->
  forall v1 v2, merge m (TStruct si fts) v p1 = (v1, Ok []) -> merge m (TStruct si fts) v1 p2 = (v2, Ok []) ->
  merge m (TStruct si fts) v p2 = (v2, Ok []) /\
  merge m (TStruct si fts) v (p1 ++ p2 ++ b) = merge m (TStruct si fts) v (p2 ++ b).
Proof.
  intros O W F1 F2 B Ft v1 v2 M1 M2.
  assert (Sq : forall p, whole_field fn Varint p -> whole_seq (TStruct si fts) p).
  { intros p Hp. exists [p]. split; [cbn; now rewrite app_nil_r|]. constructor; [eauto|constructor]. }
  assert (K : merge m (TStruct si fts) v p2 = (v2, Ok [])).
  { destruct (wt_struct_inv si fts v W) as (c & r & fs & -> & Wf). rewrite merge_struct in *.
    destruct (run _ fs p1) as [fs1 r1] eqn:R1. inversion M1; subst. clear M1.
    rewrite merge_struct in M2. destruct (run _ fs1 p2) as [fs2 r2] eqn:R2. inversion M2; subst. clear M2.
    pose proof (proj1 (run_ok_one m fts (fn, Varint, p1) [] fs fs1 F1)) as R1'. unfold bytes_of in R1'. cbn [map concat snd] in R1'.
    rewrite app_nil_r in R1'. destruct (R1' R1) as (fsa & Ea & X). rewrite run_nil in X. inversion X; subst. clear X.
    pose proof (proj1 (run_ok_one m fts (fn, Varint, p2) [] fs1 fs2 F2)) as R2'. unfold bytes_of in R2'. cbn [map concat snd] in R2'.
    rewrite app_nil_r in R2'. destruct (R2' R2) as (fsb & Eb & X). rewrite run_nil in X. inversion X; subst. clear X.
    assert (R : run (struct_step m (fmergers m fts)) fs p2 = (fs2, Ok [])); [|now rewrite R].
    pose proof (proj2 (run_ok_one m fts (fn, Varint, p2) [] fs fs2 F2)) as R'. unfold bytes_of in R'. cbn [map concat snd] in R'.
    rewrite app_nil_r in R'. apply R'. exists fs2. split; [|apply run_nil].
    destruct F1 as (q1 & b1 & -> & L1 & V1 & W1). destruct F2 as (q2 & b2 & -> & L2 & V2 & W2).
    apply bytes_ok_app in B. destruct B as [_ B].
    destruct (struct_step_field m fts q1 fn Varint b1 L1 V1 W1 fs) as (fsa' & oa & Ma & Sa).
    pose proof (Sa []) as X. rewrite Ea in X. destruct oa; try discriminate X. inversion X; subst fsa'. clear X.
    destruct (struct_step_field m fts q2 fn Varint b2 L2 V2 W2 fs1) as (fsb' & ob & Mb & Sb).
    pose proof (Sb []) as X. rewrite Eb in X. destruct ob; try discriminate X. inversion X; subst fsb'. clear X.
    intros x. unfold struct_step. rewrite <- app_assoc, (rd_tag_whole m fn Varint q2 L2 V2). cbn [try].
    apply (last_field_wins m fts fn b1 b2 W1 W2) with (fs1 := fs1); auto.
    intros fi t I E. split; [eauto|]. rewrite ty_ok_struct in O. bprop.
    match goal with X : fields_ok _ _ = true |- _ => unfold fields_ok in X; rewrite forallb_forall in X; specialize (X _ I) end.
    cbn in *. bprop. assumption. }
  split; [exact K|].
  rewrite (merge_incremental m _ v p1 (p2 ++ b) (Sq _ F1)), M1. cbn [try].
  rewrite (merge_incremental m _ v1 p2 b (Sq _ F2)), M2. cbn [try].
  now rewrite (merge_incremental m _ v p2 b (Sq _ F2)), K.
Qed.

(** ** C18 *)
Lemma splitN_all_ge n (bs : bytes) : lenN bs <= n -> splitN n bs = (bs, []).
Proof. apply splitN_all. Qed.

Lemma truncated_nested m t v n body : wty t = Sized -> lenN body <= n -> n < 2 ^ 64 ->
  merge_nested m (wty t) (merge m t) Sized v (leb128 n ++ body) =
  merge_nested m (wty t) (merge m t) Sized v (leb128 (lenN body) ++ body).
Proof.
  intros E L H. unfold merge_nested. rewrite E. cbn [wtype_eqb negb]. unfold rd_nested.
  pose proof (uv_deserialize_leb m 64) as U.
  rewrite !U by lia. cbn [bind try]. rewrite !splitN_all by lia. reflexivity.
Qed.

Lemma cut_at_boundary m t v a b v2 rest : wty t = Sized -> whole_seq t a -> lenN (a ++ b) < 2 ^ 64 ->
  merge m t v (a ++ b) = (v2, Ok rest) ->
  exists v1, merge m t v a = (v1, Ok []) /\
    merge_nested m (wty t) (merge m t) Sized v (leb128 (lenN (a ++ b)) ++ a) = (v1, Ok []).
Proof.
  intros E Sq L M. rewrite (merge_incremental m t v a b Sq) in M.
  destruct (merge m t v a) as [v1 [r|e| |]] eqn:Ma; cbn [try] in M; try discriminate M.
  pose proof (merge_suf m t _ _ _ _ Ma) as X. rewrite E in X. subst r.
  exists v1. split; [reflexivity|]. rewrite lenN_app in *. rewrite truncated_nested by (try assumption; lia).
  unfold merge_nested. rewrite E. cbn [wtype_eqb negb]. unfold rd_nested.
  rewrite (uv_deserialize_leb m 64) by lia. cbn [bind]. rewrite splitN_all by lia. cbn [try]. now rewrite Ma.
Qed.

(** ** C38 *)
Lemma find_variant_uniq st vs va tag : ty_ok (TEnum st vs) = true -> In va vs -> fst (fst va) = tag ->
  find_variant vs tag = Some va.
Proof.
  rewrite ty_ok_enum. intros O I E. bprop.
  match goal with X : nodupb _ = true |- _ => revert X end. clear - I E.
  unfold find_variant. induction vs as [|vb vs IH]; intros X; [destruct I|].
  cbn [map nodupb] in X. fold (nodupb (map (fun va : variant => fst (fst va)) vs)) in X. apply andb_true_iff in X.
  destruct X as [X1 X2]. cbn [find]. destruct I as [-> |I].
  - rewrite E, N.eqb_refl. reflexivity.
  - destruct (fst (fst vb) =? tag) eqn:Y; [|now apply IH].
    apply negb_true_iff in X1. rewrite <- not_true_iff_false in X1. elim X1. apply existsb_exists.
    exists tag. split; [|lia]. rewrite <- E. now apply (in_map (fun va : variant => fst (fst va))).
Qed.

Lemma enum_unknown m st vs v tg n rest : wt (TEnum st vs) v = true -> one_varint 5 tg n -> n < 2 ^ 32 ->
  (forall va, In va vs -> fst (fst va) <> n) -> merge m (TEnum st vs) v (tg ++ rest) = (v, Err InvalidData).
Proof.
  intros W T Hn F. destruct v; try discriminate W. rewrite merge_enum.
  pose proof (uv_one m U32 5 tg _ T eq_refl Hn) as U. cbn [ibits] in U. rewrite U. cbn [try].
  destruct (find_variant vs n) as [va|] eqn:E; [|reflexivity].
  apply find_variant_in in E. destruct E as [I E]. now apply F in I.
Qed.

Lemma enum_same m st vs tag c r fs va tg rest : ty_ok (TEnum st vs) = true ->
  one_varint 5 tg tag -> In va vs -> fst (fst va) = tag -> forall fs' o,
  merge m (TStruct (mkS c st) (snd va)) (VStruct c r fs) rest = (VStruct c r fs', o) ->
  merge m (TEnum st vs) (VEnum tag c r fs) (tg ++ rest) = (VEnum tag c r fs', o).
Proof.
  intros O T I E fs' o M. rewrite merge_enum. destruct (variant_fields_ok st vs va O I) as (Ht & _ & _).
  assert (Hn : tag < 2 ^ ibits U32) by (cbn [ibits]; unfold FIELD_NUMBER_MAX in Ht; lia).
  pose proof (uv_one m U32 5 tg _ T eq_refl Hn) as U. cbn [ibits] in U. rewrite U. cbn [try].
  rewrite (find_variant_uniq st vs va tag O I E). rewrite N.eqb_refl. cbn [try].
  rewrite merge_struct in M. destruct (run _ fs rest) as [fs1 o1]. inversion M; subst. reflexivity.
Qed.

Lemma enum_switch m st vs tag c lg p t0 fs va tg rest : ty_ok (TEnum st vs) = true ->
  one_varint 5 tg (fst (fst va)) -> In va vs -> fst (fst va) <> tag -> forall fs' o,
  let r' := mkRt lg (Child p (fst (fst va))) in
  merge m (TStruct (mkS (snd (fst va)) st) (snd va)) (dflt (TStruct (mkS (snd (fst va)) st) (snd va)) r') rest
    = (VStruct (snd (fst va)) (if st then Some r' else None) fs', o) ->
  merge m (TEnum st vs) (VEnum tag c (if st then Some (mkRt lg (Child p t0)) else None) fs) (tg ++ rest) =
    (VEnum (fst (fst va)) (snd (fst va)) (if st then Some r' else None) fs', o).
Proof.
  intros O T I E fs' o r' M. rewrite merge_enum. destruct (variant_fields_ok st vs va O I) as (Ht & Hf & _).
  assert (Hn : fst (fst va) < 2 ^ ibits U32) by (cbn [ibits]; unfold FIELD_NUMBER_MAX in Ht; lia).
  pose proof (uv_one m U32 5 tg _ T eq_refl Hn) as U. cbn [ibits] in U. rewrite U. cbn [try].
  rewrite (find_variant_uniq st vs va _ O I eq_refl). destruct va as [[tag' c'] fts]. cbn [fst snd] in *.
  destruct (tag =? tag') eqn:X; [lia|].
  change (dflt _ r') with (VStruct c' (if st then Some r' else None) (dflt_fields r' fts)) in M.
  rewrite merge_struct in M.
  destruct st; cbn [enum_parent bind try variant_ctor].
  - change (nested (mkRt lg p) tag') with r'. destruct (run _ _ rest) as [fs1 o1]. inversion M; subst. reflexivity.
  - rewrite (field_rt_nostate false fts (nested rt_default tag') r' eq_refl Hf).
    destruct (run _ _ rest) as [fs1 o1]. inversion M; subst. reflexivity.
Qed.

(** ** C40 *)
Lemma arr_any m tw mg d : forall l bs, exists new r,
  arr_loop m tw mg d l bs = (new ++ skipn (length new) l, r) /\ (length new <= length l)%nat.
Proof.
  induction l as [|x l IH]; intros bs.
  - exists [], (Ok bs). split; [reflexivity|cbn; lia].
  - destruct bs as [|b bs]; [exists [], (Ok []); split; [reflexivity|cbn; lia]|].
    cbn [arr_loop]. destruct (de_nested m tw mg d (b :: bs)) as [[y rest]|e| |]; cbn [try].
    + destruct (IH rest) as (new & r & E & L). exists (y :: new), r. rewrite E. split; [reflexivity|cbn; lia].
    + exists [], (Err e). split; [reflexivity|cbn; lia].
    + exists [], Panic. split; [reflexivity|cbn; lia].
    + exists [], NoFuel. split; [reflexivity|cbn; lia].
Qed.

Lemma array_keeps_rest m n t l bs : exists new r,
  merge m (TArr n t) (VArr l) bs = (VArr (new ++ skipn (length new) l), r) /\ (length new <= length l)%nat /\
  (forall rest, r = Ok rest -> rest = []).
Proof.
  cbn [merge]. destruct (arr_any m (wty t) (merge m t) (dflt t rt_default) l bs) as (new & r & E & L).
  rewrite E. exists new, (drain r). repeat split; [exact L|]. destruct r; cbn; congruence.
Qed.

Definition enc_items (l : list val) : bytes := flat_map (fun x => delimited x (enc x)) l.

Lemma arr_prefix m t : RT m t -> forall xs, forallb (wt t) xs = true -> forallb (lossless t) xs = true ->
  lenN (enc_items xs) < 2 ^ 64 -> forall old junk, (length xs <= length old)%nat ->
  (junk = [] \/ length xs = length old) ->
  exists rest, arr_loop m (wty t) (merge m t) (dflt t rt_default) old (enc_items xs ++ junk) =
  (map (norm rt_default) xs ++ skipn (length xs) old, Ok rest).
Proof.
  intros R. induction xs as [|x xs IH]; intros W S L old junk Hl Hj.
  - cbn [enc_items flat_map app map length skipn]. destruct Hj as [-> |Hj].
    + exists []. destruct old; reflexivity.
    + exists junk. cbn in Hj. destruct old; [reflexivity|discriminate Hj].
  - destruct old as [|y old]; [cbn in Hl; lia|]. cbn [forallb] in W, S. bprop.
    unfold enc_items in L. cbn [flat_map] in L. fold (enc_items xs) in L. rewrite lenN_app in L.
    unfold enc_items. cbn [flat_map]. fold (enc_items xs). rewrite <- app_assoc.
    pose proof (delimited_nonempty t x) as NE. pose proof (delimited_len x (enc x)) as DL.
    assert (X : exists b r, delimited x (enc x) ++ enc_items xs ++ junk = b :: r).
    { destruct (delimited x (enc x)) as [|b r]; [now elim NE|]. exists b, (r ++ enc_items xs ++ junk). reflexivity. }
    cbn [arr_loop]. destruct X as (b & r & X). 
    destruct (IH H2 H0) with (old := old) (junk := junk) as (rest & E); [lia|cbn in Hl; lia|cbn [length] in Hj; intuition congruence|].
    exists rest. rewrite X. rewrite <- X.
    rewrite (de_nested_rt m t rt_default x (enc_items xs ++ junk) R) by (try assumption; lia).
    cbn [try]. rewrite E. reflexivity.
Qed.

Lemma array_prefix m n t old xs junk : ty_ok t = true -> forallb (wt t) xs = true -> forallb (lossless t) xs = true ->
  lenN (enc_items xs) < 2 ^ 64 -> (length xs <= length old)%nat -> (junk = [] \/ length xs = length old) ->
  merge m (TArr n t) (VArr old) (enc_items xs ++ junk) =
  (VArr (map (norm rt_default) xs ++ skipn (length xs) old), Ok []).
Proof.
  intros O W S L Hl Hj. cbn [merge].
  destruct (arr_prefix m t (roundtrip m t O) xs W S L old junk Hl Hj) as (rest & E). now rewrite E.
Qed.

Lemma tuple_all_or_none m ts l bs : wt (TTup ts) (VTup l) = true ->
  (exists l', merge m (TTup ts) (VTup l) bs = (VTup l', Ok []) /\ length l' = length ts) \/
  (exists r, merge m (TTup ts) (VTup l) bs = (VTup l, r) /\ forall rest, r <> Ok rest).
Proof.
  intros _. cbn [merge]. set (ms := map _ ts).
  destruct (tup_read m ms bs) as [[l' rest]|e| |] eqn:E; cbn [try].
  - left. exists l'. split; [reflexivity|]. assert (X : length l' = length ms); [|now unfold ms in X; rewrite map_length in X].
    clearbody ms. revert bs l' rest E. induction ms as [|[[tw mg] d] ms IH]; intros bs l' rest E.
    + cbn in E. inversion E. reflexivity.
    + cbn in E. destruct (de_nested m tw mg d bs) as [[x r]|?| |]; cbn in E; try discriminate E.
      destruct (tup_read m ms r) as [[l2 r2]|?| |] eqn:Y; cbn in E; try discriminate E. inversion E; subst.
      cbn. f_equal. eauto.
  - right. exists (Err e). split; [reflexivity|discriminate].
  - right. exists Panic. split; [reflexivity|discriminate].
  - right. exists NoFuel. split; [reflexivity|discriminate].
Qed.

Lemma tup_surplus m ts l old junk : ty_ok (TTup ts) = true -> wt (TTup ts) (VTup l) = true -> lossless (TTup ts) (VTup l) = true ->
  lenN (enc_items l) < 2 ^ 64 ->
  merge m (TTup ts) (VTup old) (enc_items l ++ junk) = (VTup (map (norm rt_default) l), Ok []).
Proof.
  intros O W S L. cbn [merge]. apply lossless_and in S. destruct S as (S1 & S2 & K). rewrite keys_tup in K.
  cbn [ty_ok] in O. bprop.
  assert (R : Forall (RT m) ts) by (apply Forall_forall; intros t I; apply roundtrip; rewrite forallb_forall in *; auto).
  pose proof (tup_rt m ts R l junk) as T.
  unfold enc_items. rewrite T; auto.
Qed.

Lemma tup_missing m : forall ts1, Forall (RT m) ts1 -> forall l t ts2, wt_list ts1 l = true ->
  forallb writable l = true -> forallb ints_safe l = true -> keys_list ts1 l = true ->
  lenN (enc_items l) < 2 ^ 64 ->
  tup_read m (map (fun t => ((wty t, merge m t), dflt t rt_default)) (ts1 ++ t :: ts2)) (enc_items l) = Err UnexpectedEof.
Proof.
  induction 1 as [|t1 ts1 R _ IH]; intros l t ts2 W S1 S2 K L.
  - destruct l; [|discriminate W]. cbn [enc_items flat_map app map tup_read].
    assert (X : de_nested m (wty t) (merge m t) (dflt t rt_default) [] = Err UnexpectedEof); [|now rewrite X].
    clear. unfold de_nested, merge_nested. destruct (wty t) eqn:E; cbn [wtype_eqb negb].
    + assert (Y : exists v, merge m t (dflt t rt_default) [] = (v, Err UnexpectedEof)); [|destruct Y as (v & ->); reflexivity].
      induction t; try discriminate E.
      * cbn. replace (ikind_eqb k k) with true by (destruct k; reflexivity). eexists. reflexivity.
      * cbn. eexists. reflexivity.
      * destruct (IHt E) as (v & Y). cbn. rewrite Y. eexists. reflexivity.
    + reflexivity.
  - destruct l as [|x l]; [discriminate W|]. cbn [wt_list forallb keys_list] in *. bprop.
    unfold enc_items in *. cbn [flat_map] in *. fold (enc_items l) in *. rewrite lenN_app in L.
    pose proof (delimited_len x (enc x)).
    cbn [app map tup_read].
    rewrite (de_nested_rt m t1 rt_default x (enc_items l) R); try assumption; try lia;
      [|apply lossless_and; auto].
    cbn [bind]. rewrite IH; try assumption; [reflexivity|fold (enc_items l); lia].
Qed.

Lemma tuple_missing m ts1 t ts2 l old : ty_ok (TTup (ts1 ++ t :: ts2)) = true ->
  wt (TTup ts1) (VTup l) = true -> lossless (TTup ts1) (VTup l) = true -> lenN (enc_items l) < 2 ^ 64 ->
  merge m (TTup (ts1 ++ t :: ts2)) (VTup old) (enc_items l) = (VTup old, Err UnexpectedEof).
Proof.
  intros O W S L. cbn [merge]. apply lossless_and in S. destruct S as (S1 & S2 & K). rewrite keys_tup in K.
  cbn [ty_ok] in O. bprop. rewrite forallb_forall in H0.
  assert (R : Forall (RT m) ts1) by (apply Forall_forall; intros u I; apply roundtrip, H0, in_or_app; now left).
  rewrite (tup_missing m ts1 R l t ts2); auto.
Qed.

(** * Encodings are complete pieces *)

Lemma one_varint_leb max n : n < 128 ^ N.succ max -> one_varint (N.succ max) (leb128 n) n.
Proof.
  intros H. split; [apply leb128_ok|]. split; [|split; [now apply leb128_len_le|apply groups_value_leb]].
  pose proof (varint_prefix_leb n []) as P. rewrite app_nil_r in P. exact P.
Qed.

Lemma varint_enc v : vwty v = Varint -> bytes_ok (enc v) /\ varint_prefix (enc v) = Some (enc v, []).
Proof.
  induction v; cbn [vwty]; intros E; try discriminate E.
  - cbn [enc]. split; [apply leb128_ok|]. pose proof (varint_prefix_leb (wire_num k z) []) as P. rewrite app_nil_r in P. exact P.
  - cbn [enc]. destruct b; split; try reflexivity; repeat constructor.
  - cbn [enc]. auto.
Qed.

Lemma whole_delimited v : lenN (enc v) < 2 ^ 64 -> whole (vwty v) (delimited v (enc v)).
Proof.
  intros L. unfold delimited. destruct (vwty v) eqn:E; [now apply varint_enc|].
  exists (leb128 (lenN (enc v))), (enc v). split; [reflexivity|]. split; [exact L|].
  apply (one_varint_leb 9). eapply N.lt_trans; [exact L|reflexivity].
Qed.

Lemma one_varint_tag fn w : fn <= FIELD_NUMBER_MAX -> one_varint 5 (leb128 (tag_num fn w)) (tag_num fn w).
Proof.
  intros H. apply (one_varint_leb 4). eapply N.lt_trans; [now apply tag_num_bound|reflexivity].
Qed.

Lemma seq_of_flat_map {A} (P : bytes -> Prop) (f : A -> bytes) l :
  (forall x, In x l -> P (f x) \/ f x = []) -> seq_of P (flat_map f l).
Proof.
  induction l as [|x l IH]; intros H; [exists []; split; [reflexivity|constructor]|].
  destruct IH as (ps & E & F); [intros; apply H; now right|]. cbn [flat_map]. rewrite E.
  destruct (H x (or_introl eq_refl)) as [Hx|Hx].
  - exists (f x :: ps). split; [reflexivity|now constructor].
  - exists ps. rewrite Hx. split; [reflexivity|exact F].
Qed.

Lemma lenN_flat_map {A} (f : A -> bytes) l x : In x l -> lenN (f x) <= lenN (flat_map f l).
Proof.
  induction l as [|y l IH]; [easy|]. cbn [flat_map In]. rewrite lenN_app. intros [->|H]; [lia|]. apply IH in H. lia.
Qed.

(** The types that merge piece by piece. *)
Fixpoint piecewise (t : ty) : bool :=
  match t with
  | TBytes | TOpt _ | TVec _ | TList _ | THash _ _ | TStruct _ _ | TMap _ _ => true
  | TBox t => piecewise t
  | _ => false
  end.

Lemma wt_fields_in fts : forall fs fi x, wt_fields fts fs = true -> In (fi, x) fs -> exists t, In (fi, t) fts /\ wt t x = true.
Proof.
  induction fts as [|[gi t] fts IH]; intros [|[fj y] fs] fi x W H; cbn in W; try easy.
  bprop. destruct H as [H|H].
  - inversion H; subst. exists t. split; [left|]; auto. f_equal. now apply finfo_eqb_eq.
  - edestruct IH as (t' & ? & ?); eauto. exists t'. split; [now right|auto].
Qed.

Lemma enc_whole_seq t : forall v, piecewise t = true -> ty_ok t = true -> wt t v = true -> writable v = true ->
  lenN (enc v) < 2 ^ 64 -> whole_seq t (enc v).
Proof.
  assert (D : forall t x, wt t x = true -> lenN (delimited x (enc x)) < 2 ^ 64 -> whole (wty t) (delimited x (enc x))).
  { intros u x W L. rewrite <- (wt_vwty u x W). apply whole_delimited. pose proof (delimited_len x (enc x)). lia. }
  assert (I : forall t l, forallb (wt t) l = true -> lenN (flat_map (fun x => delimited x (enc x)) l) < 2 ^ 64 ->
    seq_of (whole (wty t)) (flat_map (fun x => delimited x (enc x)) l)).
  { intros u l W L. apply seq_of_flat_map. intros x Hx. left. rewrite forallb_forall in W. apply D; [now apply W|].
    pose proof (lenN_flat_map (fun x => delimited x (enc x)) l x Hx). cbn beta in *. lia. }
  induction t; intros v P O W Wr L; cbn [piecewise] in P; try discriminate P;
    destruct v; try discriminate W; cbn [whole_seq].
  - exact Logic.I.
  - destruct o as [x|]; cbn [enc] in *; [|exists []; split; [reflexivity|constructor]].
    exists [delimited x (enc x)]. split; [cbn; now rewrite app_nil_r|]. constructor; [|constructor]. now apply D.
  - now apply I.
  - cbn [enc] in *. apply seq_of_flat_map. intros [k x] Hx. left. exists (delimited k (enc k)), (delimited x (enc x)).
    split; [reflexivity|]. match type of L with lenN (flat_map ?f _) < _ => pose proof (lenN_flat_map f _ _ Hx) as Hl end. cbn beta iota in Hl. rewrite lenN_app in Hl.
    cbn [wt] in W. bprop. 
    match goal with H : forallb _ _ = true |- _ => rewrite forallb_forall in H; specialize (H _ Hx) end.
    cbn in *. bprop. split; apply D; try assumption; lia.
  - cbn [enc wt writable ty_ok] in *. now apply IHt.
  - rewrite wt_struct_eq in W. bprop. cbn [enc] in *. apply seq_of_flat_map. intros [fi x] Hx.
    destruct (left_out x (enc x)) eqn:Lo; [now right|left].
    match type of L with lenN (flat_map ?f _) < _ => pose proof (lenN_flat_map f _ _ Hx) as Hl end. cbn beta iota in Hl. rewrite Lo in Hl. unfold enc_tagged in *. rewrite lenN_app in Hl.
    destruct (wt_fields_in _ _ _ _ ltac:(eassumption) Hx) as (u & Hu & Wu).
    exists (f_tag fi), (vwty x), (leb128 (tag_num (f_tag fi) (vwty x))), (delimited x (enc x)).
    split; [reflexivity|]. assert (F : f_tag fi <= FIELD_NUMBER_MAX).
    { clear - O Hu. rewrite ty_ok_struct in O. bprop.
      match goal with X : fields_ok _ _ = true |- _ => unfold fields_ok in X; rewrite forallb_forall in X; specialize (X _ Hu) end.
      cbn in *. bprop. lia. }
    split; [exact F|]. split; [now apply one_varint_tag|]. rewrite (wt_vwty u x Wu). apply D; [assumption|lia].
  - now apply I.
  - cbn [enc] in *. apply seq_of_flat_map. intros [kk x] Hx. left.
    match type of L with lenN (flat_map ?f _) < _ => pose proof (lenN_flat_map f _ _ Hx) as Hl end. cbn beta iota in Hl. unfold enc_tagged in *. rewrite lenN_app in Hl.
    cbn [wt writable] in *. bprop.
    repeat match goal with H : forallb _ _ = true |- _ => rewrite forallb_forall in H; specialize (H _ Hx) end.
    cbn in *. bprop.
    exists kk, (vwty x), (leb128 (tag_num kk (vwty x))), (delimited x (enc x)). split; [reflexivity|].
    split; [lia|]. split; [apply one_varint_tag; lia|]. apply D; [assumption|lia].
Qed.
