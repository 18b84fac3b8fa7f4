(** Decoding nests one deeper for each byte at most. *)
From Verif Require Import Base Varint WireFmt Utf8 Types Ser Spec De Log State StateSpec ValInd VarintProofs WireProofs SerProofs TypeProofs DeProofs RoundTrip
  LogProofs HandleProofs Weight WeightProofs Depth.
Local Open Scope nat_scope.

Lemma most_app a b : most (a ++ b) = Nat.max (most a) (most b).
Proof. induction a as [|x a IH]; [reflexivity|]. cbn. rewrite IH. lia. Qed.

Section Nest.
  Variable D : nat.

  (** [step] turns a state into a state, reading bytes, and what it has made is no deeper than [D] and the bytes. *)
  Definition nests {S} (w : S -> nat) (step : S -> bytes -> S * res bytes) : Prop :=
    forall s bs, w (fst (step s bs)) <= Nat.max (w s) (D + length bs) /\ left_over (snd (step s bs)) <= length bs.
  Definition nests1 {S} (w : S -> nat) (step : S -> bytes -> S * res bytes) : Prop :=
    forall s bs, bs <> [] -> w (fst (step s bs)) <= Nat.max (w s) (D + length bs) /\ left_over (snd (step s bs)) <= length bs.

  Lemma loop_nests {S} (w : S -> nat) step : nests1 w step -> forall f, nests w (De.loop f step).
  Proof.
    intros G. induction f as [|f IH]; intros s bs; destruct bs as [|b bs]; cbn [De.loop fst snd left_over length]; try lia.
    specialize (G s (b :: bs) ltac:(discriminate)). destruct (step s (b :: bs)) as [s' [rest|e| |]]; cbn [fst snd left_over try length] in *; try lia.
    specialize (IH s' rest). lia.
  Qed.
  Lemma run_nests {S} (w : S -> nat) step : nests1 w step -> nests w (run step).
  Proof. intros G s bs. apply (loop_nests w step G). Qed.

  Lemma skip_left m w bs : left_over (rd_skip_field m w bs) <= length bs.
  Proof. pose proof (skip_grows 1 m w bs). lia. Qed.

  Lemma number_depth m t : wty t = Varint -> forall v bs, vdepth (fst (merge m t v bs)) = vdepth v.
  Proof.
    induction t using ty_ind'; intros E v bs; try discriminate E; destruct v; try reflexivity; cbn [merge].
    - destruct (ikind_eqb k k0); [|reflexivity]. destruct (int_deserialize m k bs) as [[z' r]|e| |]; reflexivity.
    - destruct (bool_deserialize bs) as [[b' r]|e| |]; reflexivity.
    - cbn in E. specialize (IHt E v bs). destruct (merge m t v bs) as [x r]. exact IHt.
  Qed.

  (** What another value holds: the bytes before it pay for that other value. *)
  Lemma nested_nests m t w : nests vdepth (merge m t) -> forall v bs,
    S (vdepth (fst (merge_nested m (wty t) (merge m t) w v bs))) <= Nat.max (S (vdepth v)) (D + length bs) /\
    left_over (snd (merge_nested m (wty t) (merge m t) w v bs)) <= length bs.
  Proof.
    intros G v bs. unfold merge_nested. destruct (wtype_eqb w (wty t)) eqn:Q; cbn [negb fst snd].
    - destruct w.
      + assert (T : wty t = Varint) by (destruct (wty t); [reflexivity|discriminate Q]). rewrite (number_depth m t T). specialize (G v bs). lia.
      + destruct (rd_nested m bs) as [[sub after]|e| |] eqn:E; cbn [try fst snd left_over]; try lia.
        apply rd_nested_suffix in E. destruct E as (p & -> & P). destruct p as [|b p]; [congruence|]. specialize (G v sub).
        destruct (merge m t v sub) as [v' [r|e| |]]; cbn [fst snd bind left_over app length] in *; rewrite ?app_length in *; cbn [length] in *; lia.
    - pose proof (skip_left m w bs). lia.
  Qed.
  Lemma de_nests m t d bs x rest : nests vdepth (merge m t) -> vdepth d <= D -> bs <> [] ->
    de_nested m (wty t) (merge m t) d bs = Ok (x, rest) -> S (vdepth x) <= D + length bs /\ length rest <= length bs.
  Proof.
    intros G L N E. pose proof (nested_nests m t (wty t) G d bs) as F. unfold de_nested in E.
    destruct (merge_nested m (wty t) (merge m t) (wty t) d bs) as [y [r|e| |]]; try discriminate E. cbn [bind] in E. injection E as <- <-. cbn [fst snd left_over] in F.
    destruct bs; [congruence|]. cbn [length] in *. lia.
  Qed.

  (** ** The loops *)

  Definition d_opt (o : option val) : nat := vdepth (VOpt o).
  Definition d_items (l : list val) : nat := S (most (map vdepth l)).
  Definition d_pairs (l : list (val * val)) : nat := S (most (map (fun e => Nat.max (vdepth (fst e)) (vdepth (snd e))) l)).
  Definition d_fields (fs : list (finfo * val)) : nat := S (most (map (fun f => vdepth (snd f)) fs)).
  Definition d_entries (es : list (N * val)) : nat := S (most (map (fun e => vdepth (snd e)) es)).

  Lemma opt_nests m t d : nests vdepth (merge m t) -> vdepth d <= D -> nests1 d_opt (opt_step m (wty t) (merge m t) d).
  Proof.
    intros G L o bs N. assert (B : 1 <= length bs) by (destruct bs; [congruence|cbn; lia]). unfold opt_step. destruct o as [x|].
    - pose proof (nested_nests m t (wty t) G x bs) as H. destruct (merge_nested m (wty t) (merge m t) (wty t) x bs) as [x' r].
      cbn [fst snd] in *. unfold d_opt. cbn [vdepth]. lia.
    - pose proof (nested_nests m t (wty t) G d bs) as H. destruct (merge_nested m (wty t) (merge m t) (wty t) d bs) as [x' r].
      cbn [fst snd] in *. unfold d_opt. cbn [vdepth]. lia.
  Qed.
  Lemma vec_nests m t d : nests vdepth (merge m t) -> vdepth d <= D -> nests1 d_items (vec_step m (wty t) (merge m t) d).
  Proof.
    intros G L l bs N. unfold vec_step. destruct (de_nested m (wty t) (merge m t) d bs) as [[x r]|e| |] eqn:E; cbn [try fst snd left_over]; try lia.
    apply de_nests in E; auto. unfold d_items. rewrite map_app, most_app. cbn [map most]. lia.
  Qed.
  Lemma arr_nests m t d : nests vdepth (merge m t) -> vdepth d <= D -> forall l bs,
    d_items (fst (arr_loop m (wty t) (merge m t) d l bs)) <= Nat.max (d_items l) (D + length bs) /\ left_over (snd (arr_loop m (wty t) (merge m t) d l bs)) <= length bs.
  Proof.
    intros G L. induction l as [|x l IH]; intros bs; [cbn [arr_loop fst snd left_over]; lia|]. destruct bs as [|b bs]; [cbn [arr_loop fst snd left_over]; lia|]. cbn [arr_loop].
    destruct (de_nested m (wty t) (merge m t) d (b :: bs)) as [[y r]|e| |] eqn:E; cbn [try fst snd left_over]; try lia.
    apply de_nests in E; auto; [|discriminate]. specialize (IH r). destruct (arr_loop m (wty t) (merge m t) d l r) as [l' o]. cbn [fst snd] in *.
    unfold d_items in *. cbn [map most] in *. lia.
  Qed.
  Lemma tup_nests m ts : Forall (fun t => nests vdepth (merge m t) /\ new_depth t <= D) ts -> forall bs l rest,
    tup_read m (map (fun t => ((wty t, merge m t), dflt t rt_default)) ts) bs = Ok (l, rest) -> d_items l <= Nat.max 1 (D + length bs).
  Proof.
    induction 1 as [|t ts [G L] _ IH]; intros bs l rest E; cbn [map tup_read] in E; [injection E as <- <-; unfold d_items; cbn [map most]; lia|].
    destruct (de_nested m (wty t) (merge m t) (dflt t rt_default) bs) as [[x r]|e| |] eqn:E1; cbn [bind] in E; try discriminate E.
    destruct (tup_read m _ r) as [[l' r']|e| |] eqn:E2; cbn [bind] in E; try discriminate E. injection E as <- <-. apply IH in E2.
    assert (N : bs <> []).
    { apply de_nested_consuming in E1; [|apply merge_suf]. intros ->. cbn in E1. lia. }
    apply de_nests in E1; auto. unfold d_items in *. cbn [map most]. lia.
  Qed.
  Lemma hash_insert_d k x l : d_pairs (hash_insert k x l) <= Nat.max (d_pairs l) (Nat.max (S (vdepth k)) (S (vdepth x))).
  Proof.
    unfold d_pairs. induction l as [|[k' x'] l IH]; [cbn [hash_insert map most fst snd]; lia|]. cbn [hash_insert]. destruct (veqb k k'); cbn [map most fst snd] in *; lia.
  Qed.
  Lemma hash_nests m kt kd vt vd : nests vdepth (merge m kt) -> vdepth kd <= D -> nests vdepth (merge m vt) -> vdepth vd <= D ->
    nests1 d_pairs (hash_step m (wty kt) (merge m kt) kd (wty vt) (merge m vt) vd).
  Proof.
    intros G1 D1 G2 D2 l bs N. unfold hash_step.
    destruct (de_nested m (wty kt) (merge m kt) kd bs) as [[k r]|e| |] eqn:E1; cbn [try fst snd left_over]; try lia.
    apply de_nests in E1; auto.
    destruct (de_nested m (wty vt) (merge m vt) vd r) as [[x r']|e| |] eqn:E2; cbn [try fst snd left_over]; try lia.
    assert (N2 : r <> []).
    { apply de_nested_consuming in E2; [|apply merge_suf]. intros ->. cbn in E2. lia. }
    apply de_nests in E2; auto. pose proof (hash_insert_d k x l). lia.
  Qed.
  Lemma list_nests m t fr : nests vdepth (merge m t) -> (forall i, vdepth (fr i) <= D) -> nests1 d_items (list_step m (wty t) (merge m t) fr).
  Proof.
    intros G L l bs N. assert (B : 1 <= length bs) by (destruct bs; [congruence|cbn; lia]). unfold list_step. pose proof (nested_nests m t (wty t) G (fr (lenN l)) bs) as H. specialize (L (lenN l)).
    destruct (merge_nested m (wty t) (merge m t) (wty t) (fr (lenN l)) bs) as [x [r|e| |]]; cbn [try fst snd left_over] in *; try lia.
    unfold d_items. rewrite map_app, most_app. cbn [map most]. lia.
  Qed.
  Lemma im_insert_d k x es : d_entries (im_insert k x es) <= Nat.max (d_entries es) (S (vdepth x)).
  Proof.
    unfold d_entries. induction es as [|[k' x'] es IH]; [cbn [im_insert map most fst snd]; lia|]. cbn [im_insert]. destruct (k =? k')%N; cbn [map fst snd]; cbn [most] in *; [lia|].
    cbn [map most] in IH. lia.
  Qed.
  Lemma assoc_d k es x : assoc k es = Some x -> S (vdepth x) <= d_entries es.
  Proof.
    unfold d_entries. induction es as [|[k' x'] es IH]; [discriminate|]. cbn [assoc map most fst snd]. destruct (k =? k')%N; [intros H; injection H as ->; lia|].
    intros H. specialize (IH H). lia.
  Qed.
  Lemma map_nests m k t fr : nests vdepth (merge m t) -> (forall i, vdepth (fr i) <= D) -> nests1 d_entries (map_step m k (wty t) (merge m t) fr).
  Proof.
    intros G L es bs N. unfold map_step.
    destruct (uv_deserialize m 32 bs) as [[n r]|e| |] eqn:E; cbn [try fst snd left_over]; try lia.
    destruct (parse_tag n) as [[fn w]|e| |]; cbn [try fst snd left_over]; try lia.
    destruct (validate_field_number fn) as [[]|e| |]; cbn [try fst snd left_over]; try lia.
    destruct (key_of_fn k fn) as [q|e| |]; cbn [try fst snd left_over]; try lia.
    apply uv_deserialize_suffix in E. destruct E as (p & -> & P). assert (B : S (length r) <= length (p ++ r)).
    { destruct p; [congruence|]. cbn [app length]. rewrite app_length. lia. }
    destruct (assoc fn es) as [x|] eqn:A.
    - apply assoc_d in A. pose proof (nested_nests m t (wty t) G x r) as H. destruct (merge_nested m (wty t) (merge m t) (wty t) x r) as [x' o].
      cbn [fst snd] in *. pose proof (im_insert_d fn x' es) as I. lia.
    - pose proof (nested_nests m t (wty t) G (fr fn) r) as H. specialize (L fn).
      destruct (merge_nested m (wty t) (merge m t) (wty t) (fr fn) r) as [x' [o|e| |]]; cbn [try fst snd left_over] in *; try lia.
      pose proof (im_insert_d fn x' es) as I. lia.
  Qed.
  Lemma field_nests m fts : Forall (fun f => nests vdepth (merge m (snd f))) fts -> forall fs fn w bs,
    d_fields (fst (merge_field m (fmergers m fts) fs fn w bs)) <= Nat.max (d_fields fs) (D + length bs) /\
    left_over (snd (merge_field m (fmergers m fts) fs fn w bs)) <= length bs.
  Proof.
    unfold fmergers. induction 1 as [|[fi t] fts G _ IH]; intros [|[fi' x] fs] fn w bs; cbn [map merge_field fst snd left_over]; try lia.
    - pose proof (skip_left m w bs). lia.
    - destruct (fn =? f_tag fi)%N.
      + pose proof (nested_nests m t w G x bs) as H. destruct (merge_nested m (wty t) (merge m t) w x bs) as [x' o].
        unfold d_fields. cbn [fst snd map] in *. cbn [most]. lia.
      + specialize (IH fs fn w bs). cbn [map] in IH. destruct (merge_field m _ fs fn w bs) as [fs' o]. unfold d_fields in *. cbn [fst snd map] in *. cbn [most]. lia.
  Qed.
  Lemma struct_nests m fts : Forall (fun f => nests vdepth (merge m (snd f))) fts -> nests1 d_fields (struct_step m (fmergers m fts)).
  Proof.
    intros G fs bs N. unfold struct_step. destruct (rd_tag m bs) as [[[fn w] r]|e| |] eqn:E; cbn [try fst snd left_over]; try lia.
    apply rd_tag_suffix in E. destruct E as (p & -> & _). pose proof (field_nests m fts G fs fn w r). rewrite app_length. lia.
  Qed.
End Nest.

Lemma depth_dflt t : forall r r', vdepth (dflt t r) = vdepth (dflt t r').
Proof.
  assert (F : forall fs, Forall (fun f : finfo * ty => forall r r', vdepth (dflt (snd f) r) = vdepth (dflt (snd f) r')) fs -> forall r r',
    map (fun f : finfo * val => vdepth (snd f)) (dflt_fields r fs) = map (fun f : finfo * val => vdepth (snd f)) (dflt_fields r' fs)).
  { intros fs H r r'. unfold dflt_fields. rewrite !map_map. induction H as [|[fi t0] fs H _ IH]; [reflexivity|]. cbn [map snd] in *. rewrite IH. f_equal. apply H. }
  induction t using ty_ind'; intros r r'; try reflexivity.
  - cbn [dflt vdepth]. exact (IHt r r').
  - cbn [dflt]. fold (dflt_fields r fs). fold (dflt_fields r' fs). cbn [vdepth]. now rewrite (F fs H r r').
  - cbn [dflt]. induction H as [|[[tag ca] fs] vs H _ IH]; [reflexivity|]. destruct (tag =? 0)%N; [|exact IH].
    fold (dflt_fields (nested r tag) fs). fold (dflt_fields (nested r' tag) fs). cbn [vdepth]. now rewrite (F fs H (nested r tag) (nested r' tag)).
Qed.
Lemma fields_depth_eq r fs : d_fields (dflt_fields r fs) = fields_depth fs.
Proof.
  unfold fields_depth, d_fields, dflt_fields, new_depth. do 2 f_equal. rewrite map_map. apply map_ext. intros [fi t]. cbn [snd]. apply depth_dflt.
Qed.
Lemma depth_pos v : 1 <= vdepth v.
Proof. induction v; try (cbn [vdepth]; lia). destruct o; cbn [vdepth]; lia. Qed.

Theorem merge_nests m t : forall D, deepest t <= D -> nests D vdepth (merge m t).
Proof.
  assert (FG : forall fs D, Forall (fun f : finfo * ty => forall D, deepest (snd f) <= D -> nests D vdepth (merge m (snd f))) fs ->
    most (map (fun f : finfo * ty => let '(_, t) := f in deepest t) fs) <= D -> Forall (fun f => nests D vdepth (merge m (snd f))) fs).
  { intros fs D H L. induction H as [|[fi t0] fs H _ IH]; constructor; cbn in *; [apply H; lia|apply IH; lia]. }
  induction t using ty_ind'; intros D L v bs; destruct v; try (cbn [merge fst snd left_over]; lia).
  - cbn [merge]. destruct (ikind_eqb k k0); [|cbn [fst snd left_over]; lia]. destruct (int_deserialize m k bs) as [[z' r]|e| |] eqn:E; cbn [try fst snd left_over vdepth]; try lia.
    pose proof (merge_suf m (TInt k) (VInt k 0%Z) bs (VInt k z') r) as S. cbn [merge wty] in S. replace (ikind_eqb k k) with true in S by (destruct k; reflexivity).
    rewrite E in S. specialize (S eq_refl). cbn in S. lia.
  - cbn [merge]. destruct (bool_deserialize bs) as [[z' r]|e| |] eqn:E; cbn [try fst snd left_over vdepth]; try lia.
    pose proof (merge_suf m TBool (VBool true) bs (VBool z') r) as S. cbn [merge wty] in S. rewrite E in S. specialize (S eq_refl). cbn in S. lia.
  - cbn [merge]. destruct (utf8_valid bs); cbn [fst snd left_over vdepth length]; lia.
  - cbn [merge fst snd left_over vdepth length]. lia.
  - cbn [merge deepest] in *. pose proof (run_nests D d_opt _ (opt_nests D m t (dflt t rt_default) (IHt D ltac:(lia)) ltac:(unfold new_depth in L; lia)) o bs) as R.
    destruct (run _ o bs) as [o' r]. cbn [fst snd] in *. exact R.
  - cbn [merge deepest] in *. pose proof (run_nests D d_items _ (vec_nests D m t (dflt t rt_default) (IHt D ltac:(lia)) ltac:(unfold new_depth in L; lia)) l bs) as R.
    destruct (run _ l bs) as [o' r]. exact R.
  - cbn [merge deepest] in *. pose proof (arr_nests D m t (dflt t rt_default) (IHt D ltac:(lia)) ltac:(unfold new_depth in L; lia) l bs) as R.
    destruct (arr_loop _ _ _ _ l bs) as [o' r]. cbn [fst snd vdepth] in *. unfold d_items in R.
    assert (Z : left_over (drain r) = 0) by (destruct r; reflexivity). rewrite Z. lia.
  - cbn [merge deepest] in *. destruct (tup_read m _ bs) as [[l' r]|e| |] eqn:E; cbn [try fst snd left_over]; try lia.
    apply (tup_nests D) in E; [cbn [vdepth length]; unfold d_items in E; lia|].
    clear E. induction H as [|t ts H _ IH]; constructor; cbn in L; [split; [apply H; lia|lia]|apply IH; cbn; lia].
  - cbn [merge deepest] in *.
    pose proof (run_nests D d_pairs _ (hash_nests D m t1 (dflt t1 rt_default) t2 (dflt t2 rt_default)
      (IHt1 D ltac:(lia)) ltac:(unfold new_depth in L; lia) (IHt2 D ltac:(lia)) ltac:(unfold new_depth in L; lia)) l bs) as R.
    destruct (run _ l bs) as [o' r]. exact R.
  - cbn [merge deepest] in *. specialize (IHt D L v bs). destruct (merge m t v bs) as [x r]. exact IHt.
  - rewrite merge_struct. cbn [deepest] in L. pose proof (run_nests D d_fields _ (struct_nests D m fs (FG fs D H L)) fs0 bs) as R.
    destruct (run _ fs0 bs) as [o' r0]. exact R.
  - rewrite merge_enum. cbn [deepest] in L. destruct (uv_deserialize m 32 bs) as [[tag' r1]|e| |] eqn:E; cbn [try fst snd left_over]; try lia.
    destruct (find_variant vs tag') as [[[vt vc] fts]|] eqn:V; cbn [fst snd left_over]; [|lia]. apply find_some in V. destruct V as [V _].
    rewrite Forall_forall in H. specialize (H _ V). cbn [snd] in H.
    assert (L1 : Nat.max (fields_depth fts) (most (map (fun f : finfo * ty => let '(_, t) := f in deepest t) fts)) <= D).
    { eapply Nat.le_trans; [|exact L]. apply most_in. apply in_map_iff. eexists. split; [|exact V]. reflexivity. }
    pose proof (run_nests D d_fields _ (struct_nests D m fts (FG fts D H ltac:(lia)))) as R.
    apply uv_deserialize_suffix in E. destruct E as (p & -> & P). rewrite app_length.
    destruct (tag =? tag')%N; cbn [try].
    + specialize (R fs r1). cbn [snd]. destruct (run _ fs r1) as [fs' o]. cbn [fst snd vdepth] in *. unfold d_fields in R. lia.
    + destruct (enum_parent r) as [q|e| |]; cbn [bind try fst snd left_over]; try lia. unfold variant_ctor.
      specialize (R (dflt_fields (nested q vt) fts) r1). pose proof (fields_depth_eq (nested q vt) fts) as FW.
      cbn [snd]. destruct (run _ (dflt_fields (nested q vt) fts) r1) as [fs' o]. cbn [fst snd vdepth] in *. unfold d_fields in *. lia.
  - cbn [merge deepest] in *. assert (F : forall i, vdepth (dflt t (nested r i)) <= D) by (intros i; rewrite (depth_dflt t (nested r i) rt_default); unfold new_depth in L; lia).
    pose proof (run_nests D d_items _ (list_nests D m t (fun i => dflt t (nested r i)) (IHt D ltac:(lia)) F) l bs) as R.
    destruct (run _ l bs) as [o' r0]. exact R.
  - cbn [merge deepest] in *. assert (F : forall i, vdepth (dflt t (nested r i)) <= D) by (intros i; rewrite (depth_dflt t (nested r i) rt_default); unfold new_depth in L; lia).
    pose proof (run_nests D d_entries _ (map_nests D m k t (fun i => dflt t (nested r i)) (IHt D ltac:(lia)) F) es bs) as R.
    destruct (run _ es bs) as [o' r0]. exact R.
Qed.

(** ** Replay *)

Definition farthest (t : ty) : nat := Nat.max (new_depth t) (deepest t).
Lemma merge_from_d m t D r bs : farthest t <= D -> vdepth (fst (merge m t (dflt t r) bs)) <= D + length bs.
Proof.
  intros L. unfold farthest in L. pose proof (merge_nests m t D ltac:(lia) (dflt t r) bs) as [G _]. rewrite (depth_dflt t r rt_default) in G.
  fold (new_depth t) in G. lia.
Qed.
Lemma update_nests m t D bs v : farthest t <= D -> vdepth (fst (handle_update m t bs v)) <= Nat.max (vdepth v) (D + length bs).
Proof.
  intros L. pose proof (fun r => merge_from_d m t D r bs L) as N.
  assert (E : match deserialize m t bs with Ok (x, _) => vdepth x <= D + length bs | _ => True end).
  { unfold deserialize. specialize (N rt_default). destruct (merge m t (dflt t rt_default) bs) as [x [r|e| |]]; cbn [bind fst] in *; auto. }
  assert (U : forall r, vdepth (fst (ok_unit (merge m t (dflt t r) bs))) <= Nat.max (vdepth v) (D + length bs)).
  { intros r. specialize (N r). destruct (merge m t (dflt t r) bs) as [x o]. cbn [ok_unit fst] in *. lia. }
  unfold handle_update. destruct v; try (destruct (val_rt _) as [q|e| |]; cbn [fst]; [apply U|lia..]).
  1-2: destruct (deserialize m t bs) as [[x q]|e| |]; cbn [fst]; lia.
  destruct r as [r|]; [|destruct (val_rt _) as [q|e| |]; cbn [fst]; [apply U|lia..]].
  destruct (rt_parent r) as [q|e| |]; cbn [fst]; [apply U|lia..].
Qed.

Lemma put_field_d fn x' fs : d_fields (put_field fn x' fs) <= Nat.max (d_fields fs) (S (vdepth x')).
Proof.
  unfold d_fields. induction fs as [|[fj y] fs IH]; [cbn [put_field map most]; lia|]. cbn [put_field]. destruct (fn =? f_tag fj)%N; cbn [map most snd]; lia.
Qed.
Lemma find_field_d fn fs fi x : find_field fn fs = Some (fi, x) -> S (vdepth x) <= d_fields fs.
Proof.
  unfold d_fields. induction fs as [|[fj y] fs IH]; [discriminate|]. cbn [find_field map most snd]. destruct (fn =? f_tag fj)%N; [intros E; injection E as _ ->; lia|].
  intros E. specialize (IH E). lia.
Qed.
Lemma set_nth_d l x' : forall i, d_items (set_nth l i x') <= Nat.max (d_items l) (S (vdepth x')).
Proof. unfold d_items. induction l as [|y l IH]; intros [|i]; cbn [set_nth map most]; try lia. specialize (IH i). lia. Qed.
Lemma nth_d l : forall i x, nth_error l i = Some x -> S (vdepth x) <= d_items l.
Proof. unfold d_items. intros i x E. apply nth_error_In in E. apply (in_map vdepth) in E. apply most_in in E. lia. Qed.
Lemma removelast_d {A} (f : A -> nat) l : most (map f (removelast l)) <= most (map f l).
Proof. induction l as [|x l IH]; [cbn; lia|]. destruct l as [|y l]; [cbn; lia|]. cbn [removelast map most] in *. lia. Qed.
Lemma most_incl {A} (f : A -> nat) l l' : incl l l' -> most (map f l) <= most (map f l').
Proof.
  intros I. induction l as [|x l IH]; [cbn; lia|]. cbn [map most].
  assert (In (f x) (map f l')) as J by (apply in_map, I; now left). apply most_in in J. specialize (IH (fun y H => I y (or_intror H))). lia.
Qed.
Lemma im_remove_d k es : d_entries (im_remove k es) <= d_entries es.
Proof.
  unfold im_remove, d_entries. destruct (key_pos k es) as [i|]; [|lia]. apply le_n_S, most_incl. unfold swap_remove_at.
  destruct (rev es) as [|z q] eqn:R; [intros ? []|]. assert (Z : In z es) by (rewrite in_rev, R; now left).
  assert (RL : forall l : list (N * val), incl (removelast l) l).
  { induction l as [|x l IH]; [intros ? []|]. destruct l as [|y l]; [intros ? []|]. intros w [->|I]; [now left|right; now apply IH]. }
  destruct (S i =? length es)%nat; [apply RL|]. intros x I. apply in_app_or in I. destruct I as [I|[<-|I]]; [|exact Z|].
  - rewrite <- (firstn_skipn i es). apply in_or_app. left. exact I.
  - apply RL. rewrite <- (firstn_skipn (S i) (removelast es)). apply in_or_app. right. exact I.
Qed.

Definition HD (D : nat) (h : handler) : Prop := forall path kind key bs v,
  vdepth (fst (h path kind key bs v)) <= Nat.max (vdepth v) (1 + D + length path + length bs).
Lemma hfield_nests D m fts fs fn path kind key bs : Forall (fun f => HD D (handle m (snd f))) fts ->
  d_fields (fst (handle_field (hfields m fts) fs fn path kind key bs)) <= Nat.max (d_fields fs) (2 + D + length path + length bs).
Proof.
  intros H. unfold handle_field. destruct (find_field fn (hfields m fts)) as [[fi hd]|] eqn:E; [|cbn [fst]; lia].
  assert (G : HD D hd).
  { unfold hfields in E. clear -H E. induction H as [|[fj t] fts H _ IH]; [discriminate E|]. cbn [map find_field] in E. destruct (fn =? f_tag fj)%N; [|now apply IH].
    injection E as _ <-. exact H. }
  destruct (f_state fi); [|cbn [fst]; lia]. destruct (find_field fn fs) as [[fj x]|] eqn:F; [|cbn [fst]; lia].
  specialize (G path kind key bs x). destruct (hd path kind key bs x) as [x' o]. cbn [fst] in *. pose proof (put_field_d fn x' fs). apply find_field_d in F. lia.
Qed.

Theorem handle_nests m t : forall D, farthest t <= D -> HD D (handle m t).
Proof.
  assert (FR : forall fs D, fields_depth fs <= D -> most (map (fun f : finfo * ty => let '(_, t) := f in deepest t) fs) <= D ->
    Forall (fun f : finfo * ty => forall D, farthest (snd f) <= D -> HD D (handle m (snd f))) fs -> Forall (fun f => HD D (handle m (snd f))) fs).
  { intros fs D L1 L2 H. unfold fields_depth in L1. rewrite Forall_forall in *. intros f I. apply H; [exact I|]. unfold farthest.
    assert (A : new_depth (snd f) <= most (map (fun f : finfo * ty => new_depth (snd f)) fs)) by (apply most_in, in_map_iff; eauto).
    assert (B : deepest (snd f) <= most (map (fun f : finfo * ty => let '(_, t) := f in deepest t) fs)).
    { apply most_in, in_map_iff. exists f. split; [now destruct f|exact I]. }
    lia. }
  assert (UP : forall t D bs v, farthest t <= D -> vdepth (fst (handle_update m t bs v)) <= Nat.max (vdepth v) (1 + D + 0 + length bs)).
  { intros t' D bs v L. pose proof (update_nests m t' D bs v L). lia. }
  induction t using ty_ind'; intros D L path kind key bs v; pose proof L as L0; unfold farthest in L; destruct v; try (cbn [handle fst]; lia).
  - cbn [handle]. destruct path; [|cbn [fst]; lia]. destruct kind; cbn [fst length]; try lia. now apply UP.
  - cbn [handle]. destruct path; [|cbn [fst]; lia]. destruct kind; cbn [fst length]; try lia. now apply UP.
  - cbn [handle]. specialize (IHt D). destruct (handle m t path kind key bs v) as [x' o] eqn:E. assert (R : farthest t <= D).
    { unfold farthest, new_depth in *. cbn [dflt vdepth deepest] in L. lia. }
    specialize (IHt R path kind key bs v). rewrite E in IHt. exact IHt.
  - destruct r as [r|]; [|cbn [handle fst]; lia]. cbn [handle]. destruct path as [|fn path].
    + destruct kind; cbn [fst length]; try lia. now apply UP.
    + assert (NS : fields_depth fs <= D).
      { unfold new_depth in L. cbn [dflt] in L. fold (dflt_fields rt_default fs) in L. cbn [vdepth] in L. pose proof (fields_depth_eq rt_default fs) as Q. unfold d_fields in Q. lia. }
      assert (G := FR fs D NS ltac:(cbn [deepest] in L; lia) H).
      pose proof (hfield_nests D m fs fs0 fn path kind key bs G) as F. fold (hfields m fs).
      destruct (handle_field (hfields m fs) fs0 fn path kind key bs) as [fs' o]. cbn [fst vdepth length] in *. unfold d_fields in F. lia.
  - destruct r as [r|]; [|cbn [handle fst]; lia]. cbn [handle]. destruct path as [|tag' path].
    + destruct kind; cbn [fst length]; try lia. now apply UP.
    + match goal with |- context [assoc tag' ?x] => destruct (assoc tag' x) as [hs|] eqn:A end; [|cbn [fst]; lia].
      assert (X : exists va, In va vs /\ hs = hfields m (snd va)).
      { clear -A. induction vs as [|va vs IH]; [discriminate A|]. cbn [map assoc] in A. destruct (tag' =? fst (fst va))%N.
        - injection A as <-. exists va. split; [now left|reflexivity].
        - destruct (IH A) as (v' & I & E). exists v'. split; [now right|exact E]. }
      destruct X as ([vt fts] & I & ->). destruct (tag =? tag')%N; [|cbn [fst]; lia]. destruct path as [|fn path]; [cbn [fst]; lia|]. cbn [snd].
      rewrite Forall_forall in H. specialize (H _ I). cbn [snd] in H.
      assert (L1 : Nat.max (fields_depth fts) (most (map (fun f : finfo * ty => let '(_, t) := f in deepest t) fts)) <= D).
      { eapply Nat.le_trans; [|exact (Nat.le_trans _ _ _ (Nat.le_max_r _ _) L)]. cbn [deepest]. apply most_in. apply in_map_iff. eexists. split; [|exact I]. reflexivity. }
      assert (G := FR fts D ltac:(lia) ltac:(lia) H).
      pose proof (hfield_nests D m fts fs fn path kind key bs G) as F.
      destruct (handle_field (hfields m fts) fs fn path kind key bs) as [fs' o]. cbn [fst vdepth length] in *. unfold d_fields in F. lia.
  - cbn [handle]. assert (R : farthest t <= D) by (cbn [deepest] in L; unfold farthest; lia). destruct path as [|i path].
    + destruct kind; cbn [fst length]; try lia.
      * now apply UP.
      * pose proof (merge_from_d m t D (nested r (lenN l)) bs R) as M. destruct (merge m t (dflt t (nested r (lenN l))) bs) as [x [q|e| |]]; cbn [fst] in *; try lia.
        cbn [vdepth]. rewrite map_app, most_app. cbn [map most]. lia.
      * destruct l as [|x l]; [cbn [fst]; lia|]. cbn [fst vdepth]. pose proof (removelast_d vdepth (x :: l)). lia.
    + destruct (nth_error l (N.to_nat i)) as [x|] eqn:E; [|cbn [fst]; lia]. specialize (IHt D R path kind key bs x).
      destruct (handle m t path kind key bs x) as [x' o]. cbn [fst vdepth length] in *. pose proof (set_nth_d l x' (N.to_nat i)) as S. apply nth_d in E. unfold d_items in *. lia.
  - cbn [handle]. assert (R : farthest t <= D) by (cbn [deepest] in L; unfold farthest; lia). destruct path as [|k0 path].
    + destruct kind; cbn [fst length]; try lia.
      * now apply UP.
      * destruct key as [k0|]; [|cbn [fst]; lia]. destruct (assoc k0 es); cbn [fst]; [|lia]. pose proof (im_remove_d k0 es) as I. unfold d_entries in I. cbn [vdepth]. lia.
    + destruct (assoc k0 es) as [x|] eqn:A.
      * specialize (IHt D R path kind key bs x). destruct (handle m t path kind key bs x) as [x' o]. cbn [fst vdepth length] in *.
        pose proof (im_insert_d k0 x' es) as S. apply assoc_d in A. unfold d_entries in *. lia.
      * destruct kind; cbn [fst]; try lia. destruct path; [|cbn [fst]; lia].
        pose proof (merge_from_d m t D (nested r k0) bs R) as M. destruct (merge m t (dflt t (nested r k0)) bs) as [x [q|e| |]]; cbn [fst] in *; try lia.
        pose proof (im_insert_d k0 x es) as S. unfold d_entries in S. cbn [vdepth length] in *. lia.
Qed.

(** An entry that is read has taken its path, its payload and one byte more. *)
Definition e_weight (v : val) : nat := match v with VVec l => length l | VBytes s => length s | _ => 0 end.
Definition ef_weight (fs : list (finfo * val)) : nat := sum (map (fun f => e_weight (snd f)) fs).
Definition plain_part (t : ty) : Prop := t = TVec (TInt U32) \/ t = TBytes \/ t = TInt U32.
Lemma part_grows m t : plain_part t -> grows 1 e_weight (merge m t).
Proof.
  intros [->|[->| ->]] v bs; destruct v; try (cbn [merge fst snd left_over]; lia).
  - cbn [merge]. assert (G : grows1 1 (@length val) (vec_step m (wty (TInt U32)) (merge m (TInt U32)) (dflt (TInt U32) rt_default))).
    { intros l' b N. unfold vec_step. destruct (de_nested m (wty (TInt U32)) (merge m (TInt U32)) (dflt (TInt U32) rt_default) b) as [[x r]|e| |] eqn:E; cbn [try fst snd left_over]; try lia.
      apply de_nested_consuming in E; [|apply merge_suf]. rewrite app_length. cbn [length]. lia. }
    pose proof (run_grows 1 _ _ G l bs) as R. destruct (run _ l bs) as [l' o]. exact R.
  - cbn [merge fst snd left_over e_weight length]. rewrite app_length. lia.
  - pose proof (merge_grows 0 m (TInt U32) 1 ltac:(cbn; lia) (VInt k z) bs) as G.
    assert (Z : e_weight (fst (merge m (TInt U32) (VInt k z) bs)) = 0).
    { cbn [merge]. destruct (ikind_eqb U32 k); [|reflexivity]. destruct (int_deserialize m U32 bs) as [[y r]|e| |]; reflexivity. }
    rewrite Z. change (e_weight (VInt k z)) with 0. change (weight 0 (VInt k z)) with 0 in G. lia.
Qed.
Lemma part_nested m t w : plain_part t -> grows 1 e_weight (merge_nested m (wty t) (merge m t) w).
Proof.
  intros P v bs. pose proof (part_grows m t P) as G. unfold merge_nested. destruct (wtype_eqb w (wty t)); cbn [negb fst snd].
  - destruct w; [apply G|]. destruct (rd_nested m bs) as [[sub after]|e| |] eqn:E; cbn [try fst snd left_over]; try lia.
    apply rd_nested_suffix in E. destruct E as (p & -> & _). specialize (G v sub). destruct (merge m t v sub) as [v' [r|e| |]]; cbn [fst snd bind left_over] in *;
      rewrite ?app_length in *; lia.
  - pose proof (skip_grows 1 m w bs). lia.
Qed.
Lemma part_fields m fts : Forall (fun f : finfo * ty => plain_part (snd f)) fts -> grows1 1 ef_weight (struct_step m (fmergers m fts)).
Proof.
  intros P fs bs N. unfold struct_step. destruct (rd_tag m bs) as [[[fn w] r]|e| |] eqn:E; cbn [try fst snd left_over]; try lia.
  apply rd_tag_suffix in E. destruct E as (p & -> & _). rewrite app_length.
  enough (F : forall fs, ef_weight (fst (merge_field m (fmergers m fts) fs fn w r)) + left_over (snd (merge_field m (fmergers m fts) fs fn w r)) <= ef_weight fs + length r) by (specialize (F fs); lia).
  clear fs. unfold fmergers. induction P as [|[fi t] fts Pt _ IH]; intros [|[fi' x] fs]; cbn [map merge_field fst snd left_over]; try lia.
  - pose proof (skip_grows 1 m w r). lia.
  - destruct (fn =? f_tag fi)%N.
    + pose proof (part_nested m t w Pt x r) as H. destruct (merge_nested m (wty t) (merge m t) w x r) as [x' o]. unfold ef_weight. cbn [fst snd map sum] in *. lia.
    + specialize (IH fs). cbn [map] in IH. destruct (merge_field m _ fs fn w r) as [fs' o]. unfold ef_weight in *. cbn [fst snd map sum] in *. lia.
Qed.
Lemma read_entry_all m bs e rest : read_entry m bs = Ok (e, rest) -> 2 + length (entry_path e) + length (entry_bytes e) + length rest <= length bs.
Proof.
  unfold read_entry, de_nested, merge_nested. replace (wtype_eqb (wty tEntry) (wty tEntry)) with true by reflexivity. cbn [negb wty tEntry].
  destruct (rd_nested m bs) as [[sub after]|x| |] eqn:E; cbn [try bind]; try discriminate. apply rd_nested_suffix in E. destruct E as (p & -> & P).
  assert (D : dflt tEntry rt_default = VEnum 0 true None [(fpl 0, VVec []); (fpl 1, VBytes [])]) by reflexivity. unfold tEntry in *. rewrite D. clear D.
  rewrite merge_enum. destruct (uv_deserialize m 32 sub) as [[tag' r1]|x| |] eqn:E; cbn [try fst snd bind]; try discriminate.
  apply uv_deserialize_suffix in E. destruct E as (q & -> & Q).
  match goal with |- context [find_variant ?x tag'] => destruct (find_variant x tag') as [[[vt vc] fts]|] eqn:V end; cbn [try fst snd bind]; [|discriminate].
  unfold find_variant in V. apply find_some in V. destruct V as [V _].
  assert (F : Forall (fun f : finfo * ty => plain_part (snd f)) fts /\ ef_weight (dflt_fields (nested rt_default vt) fts) = 0).
  { unfold plain_part. destruct V as [V|[V|[V|[V|[]]]]]; injection V as <- <- <-; (split; [repeat (apply Forall_cons || apply Forall_nil); cbn [snd]; auto|reflexivity]). }
  destruct F as [F Z]. pose proof (run_grows 1 _ _ (part_fields m fts F)) as R.
  assert (W : forall v e', entry_of_val v = Some e' -> match v with VEnum _ _ _ fs => length (entry_path e') + length (entry_bytes e') <= ef_weight fs | _ => True end).
  { intros v e' H. unfold entry_of_val in H. destruct v; try exact I.
    repeat match type of H with context [match ?x with _ => _ end] => destruct x; try discriminate H end;
    injection H as <-; cbn; try match goal with |- context [path_of ?v] => destruct v; cbn end; rewrite ?map_length; lia. }
  assert (FIN : forall (fs : list (finfo * val)) tg c0 r0 o, ef_weight fs + 1 * left_over o <= 0 + 1 * length r1 ->
    (do r2 <- o; do (v, rst) <- Ok (VEnum tg c0 r0 fs, r2 ++ after); match entry_of_val v with Some e1 => Ok (e1, rst) | None => NoFuel end) = Ok (e, rest) ->
    2 + length (entry_path e) + length (entry_bytes e) + length rest <= length (p ++ (q ++ r1) ++ after)).
  { intros fs tg c0 r0 o L H. destruct o as [r2|x| |]; cbn [bind] in H; try discriminate H. destruct (entry_of_val (VEnum tg c0 r0 fs)) as [e1|] eqn:V1; [|discriminate H].
    injection H as <- <-. specialize (W _ _ V1). cbn beta iota in W. cbn [left_over] in L. destruct p; [congruence|]. destruct q; [congruence|]. rewrite !app_length. cbn [length]. lia. }
  destruct (0 =? tag')%N; cbn [try bind snd enum_parent].
  - specialize (R [(fpl 0, VVec []); (fpl 1, VBytes [])] r1). destruct (run _ _ r1) as [fs' o]. cbn [fst snd] in *. destruct o as [r2|x| |]; cbn [bind]; try discriminate. intros H. eapply (FIN fs' _ _ _ (Ok r2) R). cbn [bind]. exact H.
  - unfold variant_ctor. specialize (R (dflt_fields (nested rt_default vt) fts) r1). rewrite Z in R. cbn [snd].
    destruct (run _ (dflt_fields (nested rt_default vt) fts) r1) as [fs' o]. cbn [fst snd] in *. destruct o as [r2|x| |]; cbn [bind]; try discriminate. intros H. eapply (FIN fs' _ _ _ (Ok r2) R). cbn [bind]. exact H.
Qed.
