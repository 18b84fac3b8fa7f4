(** Decoding adds at most one grain for each byte. *)
From Verif Require Import Base Varint WireFmt Utf8 Types Ser Spec De Log State StateSpec ValInd VarintProofs WireProofs SerProofs TypeProofs DeProofs RoundTrip
  LogProofs HandleProofs Weight.
Local Open Scope nat_scope.

(** Bytes still to be read. *)
Definition left_over (r : res bytes) : nat := match r with Ok rest => length rest | _ => 0 end.

Lemma most_in n l : In n l -> n <= most l.
Proof. induction l as [|x l IH]; [intros []|]. cbn. intros [->|H]; [lia|]. specialize (IH H). lia. Qed.
Lemma sum_app a b : sum (a ++ b) = sum a + sum b.
Proof. induction a as [|x a IH]; [reflexivity|]. cbn. rewrite IH. lia. Qed.

Section Grow.
  Variable c : nat.
  Variable K : nat.
  Notation W := (weight c).

  (** [step] turns a state into a state, reading bytes, and adds at most [K] for each. *)
  Definition grows {S} (w : S -> nat) (step : S -> bytes -> S * res bytes) : Prop :=
    forall s bs, w (fst (step s bs)) + K * left_over (snd (step s bs)) <= w s + K * length bs.
  (** The same where there is something to read. *)
  Definition grows1 {S} (w : S -> nat) (step : S -> bytes -> S * res bytes) : Prop :=
    forall s bs, bs <> [] -> w (fst (step s bs)) + K * left_over (snd (step s bs)) <= w s + K * length bs.

  Lemma loop_grows {S} (w : S -> nat) step : grows1 w step -> forall f, grows w (De.loop f step).
  Proof.
    intros G. induction f as [|f IH]; intros s bs; destruct bs as [|b bs]; cbn [De.loop fst snd left_over length]; try lia.
    specialize (G s (b :: bs) ltac:(discriminate)). destruct (step s (b :: bs)) as [s' [rest|e| |]]; cbn [fst snd left_over try length] in *; try lia.
    specialize (IH s' rest). lia.
  Qed.
  Lemma run_grows {S} (w : S -> nat) step : grows1 w step -> grows w (run step).
  Proof. intros G s bs. apply (loop_grows w step G). Qed.

  Lemma nonempty_len (bs : bytes) : bs <> [] -> K <= K * length bs.
  Proof. destruct bs; [congruence|]. cbn [length]. nia. Qed.
  Lemma used1 (a b : nat) : a < b -> K + K * a <= K * b.
  Proof. nia. Qed.
  Lemma used (a b : nat) : a <= b -> K * a <= K * b.
  Proof. nia. Qed.

  Lemma skip_grows m w bs : K * left_over (rd_skip_field m w bs) <= K * length bs.
  Proof.
    destruct (rd_skip_field m w bs) as [r|e| |] eqn:E; cbn [left_over]; try lia. apply rd_skip_suffix in E. destruct E as (p & -> & _).
    rewrite app_length. apply used. lia.
  Qed.

  (** Fields and items that exist. *)
  Lemma nested_grows m tw mg w : grows W mg -> grows W (merge_nested m tw mg w).
  Proof.
    intros G v bs. unfold merge_nested. destruct (wtype_eqb w tw); cbn [negb fst snd].
    - destruct w; [apply G|]. destruct (rd_nested m bs) as [[sub after]|e| |] eqn:E; cbn [try fst snd left_over]; try lia.
      apply rd_nested_suffix in E. destruct E as (p & -> & _). specialize (G v sub). destruct (mg v sub) as [v' [r|e| |]]; cbn [fst snd bind left_over] in *;
        rewrite ?app_length in *; nia.
    - pose proof (skip_grows m w bs). lia.
  Qed.

  (** Numbers are read over numbers. *)
  Lemma number_same m t : wty t = Varint -> forall v bs, W (fst (merge m t v bs)) = W v.
  Proof.
    induction t using ty_ind'; intros E v bs; try discriminate E; destruct v; try reflexivity; cbn [merge].
    - destruct (ikind_eqb k k0); [|reflexivity]. destruct (int_deserialize m k bs) as [[z' r]|e| |]; reflexivity.
    - destruct (bool_deserialize bs) as [[b' r]|e| |]; reflexivity.
    - cbn in E. specialize (IHt E v bs). destruct (merge m t v bs) as [x r]. cbn [fst weight] in *. now rewrite IHt.
  Qed.

  (** Items that are made: the first byte pays for the default value. *)
  Lemma fresh_grows m t d bs : grows W (merge m t) -> W d <= K -> bs <> [] ->
    let '(x, r) := merge_nested m (wty t) (merge m t) (wty t) d bs in W x + K * left_over r <= K * length bs.
  Proof.
    intros G D N. pose proof (nonempty_len bs N) as L. unfold merge_nested.
    replace (wtype_eqb (wty t) (wty t)) with true by (destruct (wty t); reflexivity). cbn [negb].
    destruct (wty t) eqn:T.
    - pose proof (number_same m t T d bs) as S. pose proof (merge_suf m t d bs) as F. rewrite T in F. destruct (merge m t d bs) as [x [r|e| |]]; cbn [fst left_over] in *; try lia.
      specialize (F x r eq_refl). cbn in F. apply used1 in F. lia.
    - destruct (rd_nested m bs) as [[sub after]|e| |] eqn:E; cbn [try left_over]; try lia.
      apply rd_nested_suffix in E. destruct E as (p & -> & P). destruct p as [|b p]; [congruence|]. specialize (G d sub).
      destruct (merge m t d sub) as [x [r|e| |]]; cbn [fst snd left_over bind] in *; rewrite ?app_length in *; cbn [length app] in *; nia.
  Qed.
  Lemma de_grows m t d bs x rest : grows W (merge m t) -> W d <= K -> bs <> [] ->
    de_nested m (wty t) (merge m t) d bs = Ok (x, rest) -> W x + K * length rest <= K * length bs.
  Proof.
    intros G D N E. pose proof (fresh_grows m t d bs G D N) as F. unfold de_nested in E.
    destruct (merge_nested m (wty t) (merge m t) (wty t) d bs) as [y [r|e| |]]; try discriminate E. cbn [bind] in E. injection E as <- <-. exact F.
  Qed.

  (** ** The loops *)

  Definition w_opt (o : option val) : nat := W (VOpt o).
  Definition w_items (l : list val) : nat := sum (map W l).
  Definition w_pairs (l : list (val * val)) : nat := sum (map (fun e => W (fst e) + W (snd e)) l).
  Definition w_fields (fs : list (finfo * val)) : nat := sum (map (fun f => W (snd f)) fs).
  Definition w_entries (es : list (N * val)) : nat := sum (map (fun e => c + W (snd e)) es).

  Lemma opt_grows m t d : grows W (merge m t) -> W d <= K -> grows1 w_opt (opt_step m (wty t) (merge m t) d).
  Proof.
    intros G D o bs N. unfold opt_step. destruct o as [x|].
    - pose proof (nested_grows m (wty t) (merge m t) (wty t) G x bs) as H. destruct (merge_nested m (wty t) (merge m t) (wty t) x bs) as [x' r].
      cbn [fst snd w_opt weight] in *. unfold w_opt. cbn [weight]. lia.
    - pose proof (fresh_grows m t d bs G D N) as H. destruct (merge_nested m (wty t) (merge m t) (wty t) d bs) as [x' r].
      cbn [fst snd]. unfold w_opt. cbn [weight]. lia.
  Qed.
  Lemma vec_grows m t d : grows W (merge m t) -> W d <= K -> grows1 w_items (vec_step m (wty t) (merge m t) d).
  Proof.
    intros G D l bs N. unfold vec_step. destruct (de_nested m (wty t) (merge m t) d bs) as [[x r]|e| |] eqn:E; cbn [try fst snd left_over]; try lia.
    apply de_grows in E; auto. unfold w_items. rewrite map_app, sum_app. cbn. lia.
  Qed.
  Lemma arr_grows m t d : grows W (merge m t) -> W d <= K -> forall l bs,
    w_items (fst (arr_loop m (wty t) (merge m t) d l bs)) + K * left_over (snd (arr_loop m (wty t) (merge m t) d l bs)) <= w_items l + K * length bs.
  Proof.
    intros G D. induction l as [|x l IH]; intros bs; [cbn; lia|]. destruct bs as [|b bs]; [cbn; lia|]. cbn [arr_loop].
    destruct (de_nested m (wty t) (merge m t) d (b :: bs)) as [[y r]|e| |] eqn:E; cbn [try fst snd left_over]; try (cbn; lia).
    apply de_grows in E; auto; [|discriminate]. specialize (IH r). destruct (arr_loop m (wty t) (merge m t) d l r) as [l' o]. cbn [fst snd] in *.
    unfold w_items in *. cbn [map sum] in *. lia.
  Qed.
  Lemma tup_grows m ts : Forall (fun t => grows W (merge m t) /\ new_weight c t <= K) ts -> forall bs l rest,
    tup_read m (map (fun t => ((wty t, merge m t), dflt t rt_default)) ts) bs = Ok (l, rest) -> w_items l + K * length rest <= K * length bs.
  Proof.
    induction 1 as [|t ts [G D] _ IH]; intros bs l rest E; cbn [map tup_read] in E; [injection E as <- <-; cbn; lia|].
    destruct (de_nested m (wty t) (merge m t) (dflt t rt_default) bs) as [[x r]|e| |] eqn:E1; cbn [bind] in E; try discriminate E.
    destruct (tup_read m _ r) as [[l' r']|e| |] eqn:E2; cbn [bind] in E; try discriminate E. injection E as <- <-. apply IH in E2.
    assert (N : bs <> []).
    { apply de_nested_consuming in E1; [|apply merge_suf]. intros ->. cbn in E1. lia. }
    apply de_grows in E1; auto. unfold w_items in *. cbn [map]. cbn [sum]. lia.
  Qed.
  Lemma hash_insert_w k x l : w_pairs (hash_insert k x l) <= w_pairs l + W k + W x.
  Proof.
    unfold w_pairs. induction l as [|[k' x'] l IH]; [cbn; lia|]. cbn [hash_insert]. destruct (veqb k k'); cbn [map sum fst snd] in *; lia.
  Qed.
  Lemma hash_grows m kt kd vt vd : grows W (merge m kt) -> W kd <= K -> grows W (merge m vt) -> W vd <= K ->
    grows1 w_pairs (hash_step m (wty kt) (merge m kt) kd (wty vt) (merge m vt) vd).
  Proof.
    intros G1 D1 G2 D2 l bs N. unfold hash_step.
    destruct (de_nested m (wty kt) (merge m kt) kd bs) as [[k r]|e| |] eqn:E1; cbn [try fst snd left_over]; try lia.
    destruct (de_nested m (wty vt) (merge m vt) vd r) as [[x r']|e| |] eqn:E2; cbn [try fst snd left_over]; try lia.
    assert (N2 : r <> []).
    { apply de_nested_consuming in E2; [|apply merge_suf]. intros ->. cbn in E2. lia. }
    apply de_grows in E1; auto. apply de_grows in E2; auto. pose proof (hash_insert_w k x l). lia.
  Qed.
  Lemma list_grows m t fr : grows W (merge m t) -> (forall i, W (fr i) <= K) -> grows1 w_items (list_step m (wty t) (merge m t) fr).
  Proof.
    intros G D l bs N. unfold list_step. pose proof (fresh_grows m t (fr (lenN l)) bs G (D _) N) as H.
    destruct (merge_nested m (wty t) (merge m t) (wty t) (fr (lenN l)) bs) as [x [r|e| |]]; cbn [try fst snd left_over] in *; try lia.
    unfold w_items. rewrite map_app, sum_app. cbn. lia.
  Qed.
  Lemma im_insert_w k x es : w_entries (im_insert k x es) + match assoc k es with Some y => W y | None => 0 end <=
    w_entries es + W x + match assoc k es with Some _ => 0 | None => c end.
  Proof.
    unfold w_entries. induction es as [|[k' x'] es IH]; [cbn; lia|]. cbn [im_insert assoc]. destruct (k =? k')%N; cbn [map fst snd]; cbn [sum] in *; [lia|].
    cbn [map sum] in IH. lia.
  Qed.
  Lemma map_grows m k t fr : grows W (merge m t) -> (forall i, W (fr i) <= K) -> c <= K -> grows1 w_entries (map_step m k (wty t) (merge m t) fr).
  Proof.
    intros G D C es bs N. unfold map_step.
    destruct (uv_deserialize m 32 bs) as [[n r]|e| |] eqn:E; cbn [try fst snd left_over]; try lia.
    destruct (parse_tag n) as [[fn w]|e| |]; cbn [try fst snd left_over]; try lia.
    destruct (validate_field_number fn) as [[]|e| |]; cbn [try fst snd left_over]; try lia.
    destruct (key_of_fn k fn) as [q|e| |]; cbn [try fst snd left_over]; try lia.
    apply uv_deserialize_suffix in E. destruct E as (p & -> & P). assert (L : K + K * length r <= K * length (p ++ r)).
    { destruct p; [congruence|]. rewrite app_length. cbn [length]. nia. }
    destruct (assoc fn es) as [x|] eqn:A.
    - pose proof (nested_grows m (wty t) (merge m t) (wty t) G x r) as H. destruct (merge_nested m (wty t) (merge m t) (wty t) x r) as [x' o].
      cbn [fst snd] in *. pose proof (im_insert_w fn x' es) as I. rewrite A in I. lia.
    - destruct r as [|b r].
      + destruct (merge_nested m (wty t) (merge m t) (wty t) (fr fn) []) as [x' o] eqn:E. destruct o as [r|e| |]; cbn [try fst snd left_over]; try lia.
        apply merge_nested_consuming in E; [|apply merge_suf]. cbn in E. lia.
      + pose proof (fresh_grows m t (fr fn) (b :: r) G (D _) ltac:(discriminate)) as H.
        destruct (merge_nested m (wty t) (merge m t) (wty t) (fr fn) (b :: r)) as [x' [o|e| |]]; cbn [try fst snd left_over] in *; try lia.
        pose proof (im_insert_w fn x' es) as I. rewrite A in I. lia.
  Qed.
  Lemma field_grows m fts : Forall (fun f => grows W (merge m (snd f))) fts -> forall fs fn w bs,
    w_fields (fst (merge_field m (fmergers m fts) fs fn w bs)) + K * left_over (snd (merge_field m (fmergers m fts) fs fn w bs)) <= w_fields fs + K * length bs.
  Proof.
    unfold fmergers. induction 1 as [|[fi t] fts G _ IH]; intros [|[fi' x] fs] fn w bs; cbn [map merge_field fst snd left_over]; try lia.
    - pose proof (skip_grows m w bs). cbn. lia.
    - destruct (fn =? f_tag fi)%N.
      + pose proof (nested_grows m (wty t) (merge m t) w G x bs) as H. destruct (merge_nested m (wty t) (merge m t) w x bs) as [x' o].
        unfold w_fields. cbn [fst snd map] in *. cbn [sum]. lia.
      + specialize (IH fs fn w bs). cbn [map] in IH. destruct (merge_field m _ fs fn w bs) as [fs' o]. unfold w_fields in *. cbn [fst snd map] in *. cbn [sum]. lia.
  Qed.
  Lemma struct_grows m fts : Forall (fun f => grows W (merge m (snd f))) fts -> grows1 w_fields (struct_step m (fmergers m fts)).
  Proof.
    intros G fs bs N. unfold struct_step. destruct (rd_tag m bs) as [[[fn w] r]|e| |] eqn:E; cbn [try fst snd left_over]; try lia.
    apply rd_tag_suffix in E. destruct E as (p & -> & _). pose proof (field_grows m fts G fs fn w r). rewrite app_length. nia.
  Qed.
End Grow.

Lemma weight_dflt c t : forall r r', weight c (dflt t r) = weight c (dflt t r').
Proof.
  assert (F : forall fs, Forall (fun f : finfo * ty => forall r r', weight c (dflt (snd f) r) = weight c (dflt (snd f) r')) fs -> forall r r',
    map (fun f : finfo * val => weight c (snd f)) (dflt_fields r fs) = map (fun f : finfo * val => weight c (snd f)) (dflt_fields r' fs)).
  { intros fs H r r'. unfold dflt_fields. rewrite !map_map. induction H as [|[fi t0] fs H _ IH]; [reflexivity|]. cbn [map snd] in *. rewrite IH. f_equal. apply H. }
  induction t using ty_ind'; intros r r'; try reflexivity.
  - cbn [dflt weight]. now rewrite (IHt r r').
  - cbn [dflt]. fold (dflt_fields r fs). fold (dflt_fields r' fs). cbn [weight]. now rewrite (F fs H r r').
  - cbn [dflt]. induction H as [|[[tag ca] fs] vs H _ IH]; [reflexivity|]. destruct (tag =? 0)%N; [|exact IH].
    fold (dflt_fields (nested r tag) fs). fold (dflt_fields (nested r' tag) fs). cbn [weight]. now rewrite (F fs H (nested r tag) (nested r' tag)).
Qed.
Lemma fields_weight_eq c r fs : (c + w_fields c (dflt_fields r fs) = fields_weight c fs)%nat.
Proof.
  unfold fields_weight, w_fields, dflt_fields, new_weight. do 2 f_equal. rewrite map_map. apply map_ext. intros [fi t]. cbn [snd]. apply weight_dflt.
Qed.

Theorem merge_grows c m t : forall K, (grain c t <= K)%nat -> grows K (weight c) (merge m t).
Proof.
  assert (FG : forall fs K, Forall (fun f : finfo * ty => forall K, grain c (snd f) <= K -> grows K (weight c) (merge m (snd f))) fs ->
    most (map (fun f : finfo * ty => let '(_, t) := f in grain c t) fs) <= K -> Forall (fun f => grows K (weight c) (merge m (snd f))) fs).
  { intros fs K H L. induction H as [|[fi t0] fs H _ IH]; constructor; cbn in *; [apply H; lia|apply IH; lia]. }
  induction t using ty_ind'; intros K L v bs; destruct v; try (cbn; lia).
  - cbn [merge]. destruct (ikind_eqb k k0); [|cbn; lia]. destruct (int_deserialize m k bs) as [[z' r]|e| |] eqn:E; cbn [try fst snd left_over weight]; try lia.
    pose proof (merge_suf m (TInt k) (VInt k 0%Z) bs (VInt k z') r) as S. cbn [merge wty] in S. replace (ikind_eqb k k) with true in S by (destruct k; reflexivity).
    rewrite E in S. specialize (S eq_refl). cbn in S. nia.
  - cbn [merge]. destruct (bool_deserialize bs) as [[z' r]|e| |] eqn:E; cbn [try fst snd left_over weight]; try lia.
    pose proof (merge_suf m TBool (VBool true) bs (VBool z') r) as S. cbn [merge wty] in S. rewrite E in S. specialize (S eq_refl). cbn in S. nia.
  - cbn [merge grain] in *. destruct (utf8_valid bs); cbn [fst snd left_over weight length]; [|lia]. nia.
  - cbn [merge grain] in *. cbn [fst snd left_over weight length]. rewrite app_length. nia.
  - cbn [merge grain] in *. pose proof (run_grows K (w_opt c) _ (opt_grows c K m t (dflt t rt_default) (IHt K ltac:(lia)) ltac:(unfold new_weight in L; lia)) o bs) as R.
    destruct (run _ o bs) as [o' r]. cbn [fst snd] in *. exact R.
  - cbn [merge grain] in *. pose proof (run_grows K (w_items c) _ (vec_grows c K m t (dflt t rt_default) (IHt K ltac:(lia)) ltac:(unfold new_weight in L; lia)) l bs) as R.
    destruct (run _ l bs) as [o' r]. cbn [fst snd weight] in *. unfold w_items in R. lia.
  - cbn [merge grain] in *. pose proof (arr_grows c K m t (dflt t rt_default) (IHt K ltac:(lia)) ltac:(unfold new_weight in L; lia) l bs) as R.
    destruct (arr_loop _ _ _ _ l bs) as [o' r]. cbn [fst snd weight] in *. unfold w_items in R.
    assert (Z : left_over (drain r) = 0) by (destruct r; reflexivity). rewrite Z. lia.
  - cbn [merge grain] in *. destruct (tup_read m _ bs) as [[l' r]|e| |] eqn:E; cbn [try fst snd left_over]; try lia.
    apply (tup_grows c K) in E; [cbn [weight length]; unfold w_items in E; lia|].
    clear E. induction H as [|t ts H _ IH]; constructor; cbn in L; [split; [apply H; lia|lia]|apply IH; cbn; lia].
  - cbn [merge grain] in *.
    pose proof (run_grows K (w_pairs c) _ (hash_grows c K m t1 (dflt t1 rt_default) t2 (dflt t2 rt_default)
      (IHt1 K ltac:(lia)) ltac:(unfold new_weight in L; lia) (IHt2 K ltac:(lia)) ltac:(unfold new_weight in L; lia)) l bs) as R.
    destruct (run _ l bs) as [o' r]. cbn [fst snd weight] in *. unfold w_pairs in R. lia.
  - cbn [merge grain] in *. specialize (IHt K L v bs). destruct (merge m t v bs) as [x r]. cbn [fst snd weight] in *. lia.
  - rewrite merge_struct. cbn [grain] in L. pose proof (run_grows K (w_fields c) _ (struct_grows c K m fs (FG fs K H L)) fs0 bs) as R.
    destruct (run _ fs0 bs) as [o' r0]. cbn [fst snd weight] in *. unfold w_fields in R. lia.
  - rewrite merge_enum. cbn [grain] in L. destruct (uv_deserialize m 32 bs) as [[tag' r1]|e| |] eqn:E; cbn [try fst snd left_over]; try lia.
    destruct (find_variant vs tag') as [[[vt vc] fts]|] eqn:V; cbn [fst snd left_over]; [|lia]. apply find_some in V. destruct V as [V _].
    rewrite Forall_forall in H. specialize (H _ V). cbn [snd] in H.
    assert (L1 : Nat.max (fields_weight c fts) (most (map (fun f : finfo * ty => let '(_, t) := f in grain c t) fts)) <= K).
    { eapply Nat.le_trans; [|exact L]. apply most_in. apply in_map_iff. eexists. split; [|exact V]. reflexivity. }
    pose proof (run_grows K (w_fields c) _ (struct_grows c K m fts (FG fts K H ltac:(lia)))) as R.
    apply uv_deserialize_suffix in E. destruct E as (p & -> & P). assert (Q : K + K * length r1 <= K * length (p ++ r1)).
    { destruct p; [congruence|]. rewrite app_length. cbn [length]. nia. }
    destruct (tag =? tag')%N; cbn [try].
    + specialize (R fs r1). cbn [snd]. destruct (run _ fs r1) as [fs' o]. cbn [fst snd weight] in *. unfold w_fields in R. lia.
    + destruct (enum_parent r) as [q|e| |]; cbn [bind try fst snd left_over]; try lia. unfold variant_ctor.
      specialize (R (dflt_fields (nested q vt) fts) r1). pose proof (fields_weight_eq c (nested q vt) fts) as FW.
      cbn [snd]. destruct (run _ (dflt_fields (nested q vt) fts) r1) as [fs' o]. cbn [fst snd weight] in *. unfold w_fields in *. lia.
  - cbn [merge grain] in *. assert (D : forall i, weight c (dflt t (nested r i)) <= K) by (intros i; rewrite (weight_dflt c t (nested r i) rt_default); unfold new_weight in L; lia).
    pose proof (run_grows K (w_items c) _ (list_grows c K m t (fun i => dflt t (nested r i)) (IHt K ltac:(lia)) D) l bs) as R.
    destruct (run _ l bs) as [o' r0]. cbn [fst snd weight] in *. unfold w_items in R. lia.
  - cbn [merge grain] in *. assert (D : forall i, weight c (dflt t (nested r i)) <= K) by (intros i; rewrite (weight_dflt c t (nested r i) rt_default); unfold new_weight in L; lia).
    assert (C : c <= K) by lia.
    pose proof (run_grows K (w_entries c) _ (map_grows c K m k t (fun i => dflt t (nested r i)) (IHt K ltac:(lia)) D C) es bs) as R.
    destruct (run _ es bs) as [o' r0]. cbn [fst snd weight] in *. unfold w_entries in R. lia.
Qed.

(** ** Replay *)

Lemma weight_pos c v : c <= weight c v.
Proof. destruct v as [| | | |[|]| | | | | | | | |]; cbn [weight]; lia. Qed.
Lemma merge_from c m t K r bs : grain c t <= K -> weight c (fst (merge m t (dflt t r) bs)) <= new_weight c t + K * length bs.
Proof.
  intros L. pose proof (merge_grows c m t K L (dflt t r) bs) as G. rewrite (weight_dflt c t r rt_default) in G.
  fold (new_weight c t) in G. lia.
Qed.
Lemma merge_new c m t K r bs : Nat.max (new_weight c t) (grain c t) <= K -> weight c (fst (merge m t (dflt t r) bs)) <= K * (1 + length bs).
Proof.
  intros L. pose proof (merge_grows c m t K ltac:(lia) (dflt t r) bs) as G. rewrite (weight_dflt c t r rt_default) in G.
  fold (new_weight c t) in G. nia.
Qed.
Lemma update_grows c m t K bs v : Nat.max (new_weight c t) (grain c t) <= K -> weight c (fst (handle_update m t bs v)) <= weight c v + K * (1 + length bs).
Proof.
  intros L. pose proof (fun r => merge_new c m t K r bs L) as N.
  assert (D : match deserialize m t bs with Ok (x, _) => weight c x <= K * (1 + length bs) | _ => True end).
  { unfold deserialize. specialize (N rt_default). destruct (merge m t (dflt t rt_default) bs) as [x [r|e| |]]; cbn [bind fst] in *; auto. }
  assert (U : forall r, weight c (fst (ok_unit (merge m t (dflt t r) bs))) <= weight c v + K * (1 + length bs)).
  { intros r. specialize (N r). destruct (merge m t (dflt t r) bs) as [x o]. cbn [ok_unit fst] in *. lia. }
  unfold handle_update. destruct v; try (destruct (val_rt _) as [q|e| |]; cbn [fst]; [apply U|lia..]).
  1-2: destruct (deserialize m t bs) as [[x q]|e| |]; cbn [fst]; lia.
  destruct r as [r|]; [|destruct (val_rt _) as [q|e| |]; cbn [fst]; [apply U|lia..]].
  destruct (rt_parent r) as [q|e| |]; cbn [fst]; [apply U|lia..].
Qed.

Lemma put_field_w c fn x' fs : forall fi x, find_field fn fs = Some (fi, x) -> w_fields c (put_field fn x' fs) + weight c x = w_fields c fs + weight c x'.
Proof.
  unfold w_fields. induction fs as [|[fj y] fs IH]; intros fi x E; [discriminate E|]. cbn [find_field put_field] in *. destruct (fn =? f_tag fj)%N.
  - injection E as <- <-. cbn [map sum snd]. lia.
  - specialize (IH _ _ E). cbn [map sum snd]. lia.
Qed.
Lemma set_nth_w c l x' : forall i x, nth_error l i = Some x -> w_items c (set_nth l i x') + weight c x = w_items c l + weight c x'.
Proof.
  unfold w_items. induction l as [|y l IH]; intros [|i] x E; try discriminate E; cbn [nth_error set_nth] in *.
  - injection E as <-. cbn [map sum]. lia.
  - specialize (IH _ _ E). cbn [map sum]. lia.
Qed.
Lemma sum_firstn_skipn l i : sum (firstn i l) + sum (skipn i l) = sum l.
Proof. rewrite <- sum_app. now rewrite firstn_skipn. Qed.
Lemma sum_skipn l : forall i, sum (skipn i l) <= sum l.
Proof. intros i. pose proof (sum_firstn_skipn l i). lia. Qed.
Lemma removelast_w {A} (f : A -> nat) l : sum (map f (removelast l)) <= sum (map f l).
Proof. induction l as [|x l IH]; [cbn; lia|]. destruct l as [|y l]; [cbn; lia|]. cbn [removelast map sum] in *. lia. Qed.
Lemma swap_remove_w {A} (f : A -> nat) l i : i < length l -> sum (map f (swap_remove_at l i)) <= sum (map f l).
Proof.
  intros L. unfold swap_remove_at. destruct (rev l) as [|z q] eqn:R; [cbn; lia|].
  assert (E : l = rev q ++ [z]) by (rewrite <- (rev_involutive l), R; reflexivity). destruct (Nat.eqb_spec (S i) (length l)); [apply removelast_w|].
  rewrite E in *. clear R E. revert L n. generalize (rev q). clear q. intros q L n. rewrite app_length in *. cbn [length] in *. rewrite removelast_last.
  rewrite firstn_app. replace (i - length q) with 0 by lia. cbn [firstn]. rewrite app_nil_r.
  rewrite !map_app. cbn [map]. rewrite !sum_app. cbn [sum].
  pose proof (sum_firstn_skipn (map f q) i) as S1. rewrite <- firstn_map, <- skipn_map.
  assert (S2 : forall w i, sum (skipn (S i) w) <= sum (skipn i w)).
  { clear. induction w as [|x w IH]; intros [|i]; cbn [skipn sum]; try lia. apply IH. }
  specialize (S2 (map f q) i).
  lia.
Qed.
Lemma key_pos_len {A} k (l : list (N * A)) : forall i, key_pos k l = Some i -> i < length l.
Proof.
  induction l as [|[k' x] l IH]; intros i E; [discriminate E|]. cbn [key_pos length] in *. destruct (k =? k')%N; [injection E as <-; lia|].
  destruct (key_pos k l) as [j|]; [|discriminate E]. injection E as <-. specialize (IH j eq_refl). lia.
Qed.
Lemma im_remove_w c k es : w_entries c (im_remove k es) <= w_entries c es.
Proof.
  unfold im_remove. destruct (key_pos k es) as [i|] eqn:E; [|lia]. apply key_pos_len in E. now apply swap_remove_w.
Qed.

Lemma sum_in n l : In n l -> n <= sum l.
Proof. induction l as [|x l IH]; [intros []|]. cbn. intros [->|H]; [lia|]. specialize (IH H). lia. Qed.
Definition reach (c : nat) (t : ty) : nat := Nat.max (new_weight c t) (grain c t).
Definition HG (c K : nat) (h : handler) : Prop := forall path kind key bs v, weight c (fst (h path kind key bs v)) <= weight c v + K * (1 + length bs).
Lemma hfield_grows c K m fts fs fn path kind key bs : Forall (fun f => HG c K (handle m (snd f))) fts ->
  w_fields c (fst (handle_field (hfields m fts) fs fn path kind key bs)) <= w_fields c fs + K * (1 + length bs).
Proof.
  intros H. unfold handle_field. destruct (find_field fn (hfields m fts)) as [[fi hd]|] eqn:E; [|cbn [fst]; lia].
  assert (G : HG c K hd).
  { unfold hfields in E. clear -H E. induction H as [|[fj t] fts H _ IH]; [discriminate E|]. cbn [map find_field] in E. destruct (fn =? f_tag fj)%N; [|now apply IH].
    injection E as _ <-. exact H. }
  destruct (f_state fi); [|cbn [fst]; lia]. destruct (find_field fn fs) as [[fj x]|] eqn:F; [|cbn [fst]; lia].
  specialize (G path kind key bs x). destruct (hd path kind key bs x) as [x' o]. cbn [fst] in *. pose proof (put_field_w c fn x' fs _ _ F). lia.
Qed.

Theorem handle_grows c m t : forall K, reach c t <= K -> HG c K (handle m t).
Proof.
  assert (FR : forall fs K, fields_weight c fs <= K \/ (exists si, new_weight c (TStruct si fs) <= K) -> most (map (fun f : finfo * ty => let '(_, t) := f in grain c t) fs) <= K ->
    Forall (fun f : finfo * ty => forall K, reach c (snd f) <= K -> HG c K (handle m (snd f))) fs -> Forall (fun f => HG c K (handle m (snd f))) fs).
  { intros fs K L1 L2 H. assert (L : sum (map (fun f : finfo * ty => new_weight c (snd f)) fs) <= K).
    { destruct L1 as [L1|[si L1]]; [unfold fields_weight in L1; lia|]. unfold new_weight at 1 in L1. cbn [dflt] in L1.
      change (weight c (VStruct (s_cache si) (if s_state si then Some rt_default else None) (dflt_fields rt_default fs)) <= K) in L1. cbn [weight] in L1.
      pose proof (fields_weight_eq c rt_default fs) as E. unfold w_fields, fields_weight in E. lia. }
    clear L1. rewrite Forall_forall in *. intros f I. apply H; [exact I|]. unfold reach.
    assert (A : new_weight c (snd f) <= sum (map (fun f : finfo * ty => new_weight c (snd f)) fs)) by (apply sum_in, in_map_iff; eauto).
    assert (B : grain c (snd f) <= most (map (fun f : finfo * ty => let '(_, t) := f in grain c t) fs)).
    { apply most_in, in_map_iff. exists f. split; [now destruct f|exact I]. }
    lia. }
  induction t using ty_ind'; intros K L path kind key bs v; pose proof L as L0; unfold reach in L; destruct v; try (cbn [handle fst]; lia).
  - cbn [handle]. destruct path; [|cbn [fst]; lia]. destruct kind; cbn [fst]; try lia. now apply update_grows.
  - cbn [handle]. destruct path; [|cbn [fst]; lia]. destruct kind; cbn [fst]; try lia. now apply update_grows.
  - cbn [handle]. specialize (IHt K). destruct (handle m t path kind key bs v) as [x' o] eqn:E. assert (R : reach c t <= K).
    { unfold reach, new_weight in *. cbn [dflt weight grain] in L. lia. }
    specialize (IHt R path kind key bs v). rewrite E in IHt. cbn [fst weight] in *. lia.
  - destruct r as [r|]; [|cbn [handle fst]; lia]. cbn [handle]. destruct path as [|fn path].
    + destruct kind; cbn [fst]; try lia. now apply update_grows.
    + assert (NS : exists si, new_weight c (TStruct si fs) <= K) by (exists si; lia).
      assert (G := FR fs K (or_intror NS) ltac:(cbn [grain] in L; lia) H).
      pose proof (hfield_grows c K m fs fs0 fn path kind key bs G) as F. fold (hfields m fs).
      destruct (handle_field (hfields m fs) fs0 fn path kind key bs) as [fs' o]. cbn [fst weight] in *. unfold w_fields in F. lia.
  - destruct r as [r|]; [|cbn [handle fst]; lia]. cbn [handle]. destruct path as [|tag' path].
    + destruct kind; cbn [fst]; try lia. now apply update_grows.
    + match goal with |- context [assoc tag' ?x] => destruct (assoc tag' x) as [hs|] eqn:A end; [|cbn [fst]; lia].
      assert (X : exists va, In va vs /\ hs = hfields m (snd va)).
      { clear -A. induction vs as [|va vs IH]; [discriminate A|]. cbn [map assoc] in A. destruct (tag' =? fst (fst va))%N.
        - injection A as <-. exists va. split; [now left|reflexivity].
        - destruct (IH A) as (v' & I & E). exists v'. split; [now right|exact E]. }
      destruct X as ([vt fts] & I & ->). destruct (tag =? tag')%N; [|cbn [fst]; lia]. destruct path as [|fn path]; [cbn [fst]; lia|]. cbn [snd].
      rewrite Forall_forall in H. specialize (H _ I). cbn [snd] in H.
      assert (L1 : Nat.max (fields_weight c fts) (most (map (fun f : finfo * ty => let '(_, t) := f in grain c t) fts)) <= K).
      { eapply Nat.le_trans; [|exact (Nat.le_trans _ _ _ (Nat.le_max_r _ _) L)]. cbn [grain]. apply most_in. apply in_map_iff. eexists. split; [|exact I]. reflexivity. }
      assert (NS : fields_weight c fts <= K) by lia.
      assert (G := FR fts K (or_introl NS) ltac:(lia) H).
      pose proof (hfield_grows c K m fts fs fn path kind key bs G) as F.
      destruct (handle_field (hfields m fts) fs fn path kind key bs) as [fs' o]. cbn [fst weight] in *. unfold w_fields in F. lia.
  - cbn [handle]. assert (R : reach c t <= K) by (cbn [grain] in L; unfold reach; lia). destruct path as [|i path].
    + destruct kind; cbn [fst]; try lia.
      * now apply update_grows.
      * pose proof (merge_new c m t K (nested r (lenN l)) bs R) as M. destruct (merge m t (dflt t (nested r (lenN l))) bs) as [x [q|e| |]]; cbn [fst] in *; try lia.
        cbn [weight]. rewrite map_app, sum_app. cbn [map sum]. lia.
      * destruct l as [|x l]; [cbn [fst]; lia|]. cbn [fst weight]. pose proof (removelast_w (weight c) (x :: l)). lia.
    + destruct (nth_error l (N.to_nat i)) as [x|] eqn:E; [|cbn [fst]; lia]. specialize (IHt K R path kind key bs x).
      destruct (handle m t path kind key bs x) as [x' o]. cbn [fst weight] in *. pose proof (set_nth_w c l x' _ _ E) as S. unfold w_items in S. lia.
  - cbn [handle]. assert (R : reach c t <= K) by (cbn [grain] in L; unfold reach; lia). destruct path as [|k0 path].
    + destruct kind; cbn [fst]; try lia.
      * now apply update_grows.
      * destruct key as [k0|]; [|cbn [fst]; lia]. destruct (assoc k0 es); cbn [fst]; [|lia]. pose proof (im_remove_w c k0 es) as I. unfold w_entries in I. cbn [weight]. lia.
    + destruct (assoc k0 es) as [x|] eqn:A.
      * specialize (IHt K R path kind key bs x). destruct (handle m t path kind key bs x) as [x' o]. cbn [fst weight] in *.
        pose proof (im_insert_w c k0 x' es) as S. rewrite A in S. unfold w_entries in S. lia.
      * destruct kind; cbn [fst]; try lia. destruct path; [|cbn [fst]; lia].
        pose proof (merge_from c m t K (nested r k0) bs ltac:(cbn [grain] in L; lia)) as M. destruct (merge m t (dflt t (nested r k0)) bs) as [x [q|e| |]]; cbn [fst] in *; try lia.
        pose proof (im_insert_w c k0 x es) as S. rewrite A in S. unfold w_entries in S. cbn [weight grain] in *. lia.
Qed.
